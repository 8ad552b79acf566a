(** DivNetwork can be used again and again (C65).
    Reading aid (all of it specification, none of it taken from the proofs):
    - [jobs_ok X ok span from js T] (Jobs.v): js is a list of computations (argument, start time); every argument is ok, the first
      starts at [from] or later, each later one starts [span] or more after the one before it, and T leaves time for the last;
    - [pair_says enc v eps l] (RestFun.v): l is one pair of spikes whose interval decodes to v up to eps;
    - [aligned dt tmin] (FuncNets.v): dt divides both 1 ms (the synapse delay) and Tmin. *)
From Coq Require Import Arith ZArith Bool List Reals Lra Lia.
From Verif Require Import Num Elements Simulator Networks Trace SimTrace SimProps NeuronLib NetLib MemoryProof Session FuncNets SegLib Jobs RestFun DivRun DivReuse PropsCore PropsNets PropsRest PropsDiv.
Import ListNotations.
Open Scope R_scope.
Open Scope list_scope.
Local Notation ms := (/ 1000).

(** operands that are whole numbers of timesteps; a job ((x1, x2), (d1, d2)) started at t gives x1 to input1 at t + d1 and x2 to input2 at t + d2 *)
Theorem C65_div_reuse : forall (tmin tcod dt T : R) (js : list (((R * R) * (R * R)) * R)) nm ord,
  0 < dt < / 50 -> 0 < tcod -> 1 + dt < tmin -> aligned dt tmin -> ord_ok ord -> 0 <= T ->
  jobs_ok ((R * R) * (R * R))
    (fun x => let '((x1, x2), (d1, d2)) := x in
       0 < x1 <= x2 /\ x2 < 1 /\ (exists k1 k2, x1 * tcod = INR k1 * dt /\ x2 * tcod = INR k2 * dt) /\ 0 <= d1 /\ 0 <= d2)
    (fun x => Rmax (fst (snd x)) (snd (snd x)) + 18 + 5 * tmin + 2 * tcod + 20 * - ln (fst (fst x))) 0 js T ->
  exists m s ps,
    session (DivNetwork (DataEncoder tmin tcod) nm) dv_mod (DataEncoder tmin tcod) dt
      (fun m => flat_map (fun j : ((R * R) * (R * R)) * R =>
          [SValue (fst (fst (fst j))) (dv_input1 m) (snd j + fst (snd (fst j))); SValue (snd (fst (fst j))) (dv_input2 m) (snd j + snd (snd (fst j)))]) js) ord T = Ok (m, s) /\
    spike_log s (dv_output m) = concat ps /\
    Forall2 (fun j p => pair_says (DataEncoder tmin tcod) (fst (fst (fst j)) / snd (fst (fst j))) (dt / tcod + fst (fst (fst j)) / snd (fst (fst j)) * (dt / (20 - dt))) p) js ps.
Proof. exact div_reuse. Qed.
Print Assumptions C65_div_reuse.
(** any two operands, both given at the start of the job *)
Theorem C65_div_any_reuse : forall (tmin tcod dt T : R) (js : list ((R * R) * R)) nm ord,
  0 < dt < / 50 -> 0 < tcod -> 1 + dt < tmin -> aligned dt tmin -> ord_ok ord -> 0 <= T ->
  jobs_ok (R * R) (fun x => fst x <= snd x /\ 2 * dt <= fst x * tcod /\ snd x * tcod + dt <= tcod)
    (fun x => 18 + 5 * tmin + 2 * tcod + 20 * - ln (fst x / 2)) 0 js T ->
  exists m s ps,
    session (DivNetwork (DataEncoder tmin tcod) nm) dv_mod (DataEncoder tmin tcod) dt
      (fun m => flat_map (fun j : (R * R) * R => [SValue (fst (fst j)) (dv_input1 m) (snd j); SValue (snd (fst j)) (dv_input2 m) (snd j)]) js) ord T = Ok (m, s) /\
    spike_log s (dv_output m) = concat ps /\
    Forall2 (fun j p => pair_says (DataEncoder tmin tcod) (fst (fst j) / snd (fst j)) (dt / tcod + dt / (20 - dt) + 4 * dt / (snd (fst j) * tcod)) p) js ps.
Proof. exact div_any_reuse. Qed.
Print Assumptions C65_div_any_reuse.
(** 0.25 / 0.5, then 0.25 / 0.8 with the denominator 30 ms later, on one network *)
Example C65_div_ex : exists m s p1 p2,
  session (DivNetwork (DataEncoder 10 100) None) dv_mod (DataEncoder 10 100) ms
    (fun m => [SValue (/ 4) (dv_input1 m) (0 + 0); SValue (/ 2) (dv_input2 m) (0 + 0); SValue (/ 4) (dv_input1 m) (400 + 0); SValue (4/5) (dv_input2 m) (400 + 30)]) id_ord 1000 = Ok (m, s) /\
  spike_log s (dv_output m) = p1 ++ p2 /\
  pair_says (DataEncoder 10 100) (1/2) (/ 10000) p1 /\ pair_says (DataEncoder 10 100) (5/16) (/ 10000) p2.
Proof.
  pose proof ln4 as L4.
  destruct (C65_div_reuse 10 100 ms 1000 [(((/ 4, / 2), (0, 0)), 0); (((/ 4, 4/5), (0, 30)), 400)] None id_ord) as (m & s & ps & E & L & F); try lra; [|apply id_ord_ok| |].
  - apply aligned_ms.
  - cbn [jobs_ok fst snd]. rewrite (Rmax_left 0 0), (Rmax_right 0 30) by lra. repeat (apply conj); try lra.
    + exists (Z.to_nat 25000), (Z.to_nat 50000). rewrite !INR_IZR_INZ, !Z2Nat.id by lia. split; lra.
    + exists (Z.to_nat 25000), (Z.to_nat 80000). rewrite !INR_IZR_INZ, !Z2Nat.id by lia. split; lra.
  - inversion F as [|j p js' ps' S1 F1]; subst. inversion F1 as [|j2 p2 js2 ps2 S2 F2]; subst. inversion F2; subst.
    cbn [concat] in L. rewrite app_nil_r in L. exists m, s, p, p2. split; [exact E|]. split; [exact L|].
    assert (W : forall v v' e l, v = v' -> e <= / 10000 -> pair_says (DataEncoder 10 100) v e l -> pair_says (DataEncoder 10 100) v' (/ 10000) l).
    { intros v v' e l -> He (t1 & t2 & y & A1 & A2 & A3 & A4). exists t1, t2, y. repeat apply conj; auto. lra. }
    cbn [fst snd] in S1, S2. split; [eapply W; [| |exact S1]; lra|eapply W; [| |exact S2]; lra].
Qed.
