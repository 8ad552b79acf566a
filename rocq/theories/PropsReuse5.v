(** MultiplierNetwork can be used again and again (C64).
    Reading aid (all of it specification, none of it taken from the proofs):
    - [jobs_ok X ok span from js T] (Jobs.v): js is a list of computations (argument, start time); every argument is ok, the first
      starts at [from] or later, each later one starts [span] or more after the one before it, and T leaves time for the last;
    - [pair_says enc v eps l] (RestFun.v): l is one pair of spikes whose interval decodes to v up to eps;
    - a job ((x1, x2), (d1, d2)) started at t gives x1 to input1 at t + d1 and x2 to input2 at t + d2. *)
From Coq Require Import Arith ZArith Bool List Reals Lra Lia.
From Verif Require Import Num Elements Simulator Networks Trace SimTrace SimProps NeuronLib NetLib MemoryProof Session SegLib Jobs RestFun MulNet MulRun MulReuse PropsCore PropsNets PropsRest PropsMul.
Import ListNotations.
Open Scope R_scope.
Open Scope list_scope.
Local Notation ms := (/ 1000).

Theorem C64_multiplier_reuse : forall (tmin tcod dt T : R) (js : list (((R * R) * (R * R)) * R)) nm ord,
  0 < dt <= 1 / 2 -> 0 < tcod -> 1 + dt <= tmin -> 4 * dt <= tmin -> ord_ok ord -> 0 <= T ->
  jobs_ok ((R * R) * (R * R))
    (fun x => let '((x1, x2), (d1, d2)) := x in
       0 < x1 /\ 0 < x2 /\ 4 * dt <= x1 * tcod <= tcod - 2 * dt /\ 4 * dt <= x2 * tcod <= tcod - 2 * dt /\ exp (-14) <= x1 * x2 /\ 0 <= d1 /\ 0 <= d2)
    (fun x => Rmax (fst (snd x)) (snd (snd x)) + 355 + 2 * (tmin + tcod)) 0 js T ->
  exists m s ps,
    session (MultiplierNetwork (DataEncoder tmin tcod) nm) mu_mod (DataEncoder tmin tcod) dt
      (fun m => flat_map (fun j : ((R * R) * (R * R)) * R =>
          [SValue (fst (fst (fst j))) (mu_input1 m) (snd j + fst (snd (fst j))); SValue (snd (fst (fst j))) (mu_input2 m) (snd j + snd (snd (fst j)))]) js) ord T = Ok (m, s) /\
    spike_log s (mu_output m) = concat ps /\
    Forall2 (fun j p => pair_says (DataEncoder tmin tcod) (fst (fst (fst j)) * snd (fst (fst j))) (7 * dt / tcod + dt / 10) p) js ps.
Proof. exact multiplier_reuse. Qed.
Print Assumptions C64_multiplier_reuse.
(** 0.5 * 0.5, then 0.8 * 0.25 with the second operand 30 ms later, on one network *)
Example C64_multiplier_ex : exists m s p1 p2,
  session (MultiplierNetwork (DataEncoder 10 100) None) mu_mod (DataEncoder 10 100) ms
    (fun m => [SValue (1/2) (mu_input1 m) (0 + 0); SValue (1/2) (mu_input2 m) (0 + 0); SValue (4/5) (mu_input1 m) (600 + 0); SValue (1/4) (mu_input2 m) (600 + 30)]) id_ord 1300 = Ok (m, s) /\
  spike_log s (mu_output m) = p1 ++ p2 /\
  pair_says (DataEncoder 10 100) (1/4) (17 * ms / 100) p1 /\ pair_says (DataEncoder 10 100) (1/5) (17 * ms / 100) p2.
Proof.
  assert (E14 : forall c, (1 / 2) ^ 14 <= c -> exp (-14) <= c).
  { intros c Hc. replace (-14) with (- INR 14) by (cbn; lra). apply exp_small; auto. assert (0 < (1 / 2) ^ 14) by (apply pow_lt; lra). lra. }
  destruct (C64_multiplier_reuse 10 100 ms 1300 [(((1/2, 1/2), (0, 0)), 0); (((4/5, 1/4), (0, 30)), 600)] None id_ord) as (m & s & ps & E & L & F); try lra; [apply id_ord_ok| |].
  - cbn [jobs_ok fst snd]. rewrite (Rmax_left 0 0), (Rmax_right 0 30) by lra. repeat (apply conj); try (apply E14); try lra; cbn [pow]; lra.
  - inversion F as [|j p js' ps' S1 F1]; subst. inversion F1 as [|j2 p2 js2 ps2 S2 F2]; subst. inversion F2; subst.
    cbn [fst snd] in S1, S2. replace (1 / 2 * (1 / 2)) with (1/4) in S1 by lra. replace (4 / 5 * (1 / 4)) with (1/5) in S2 by lra.
    replace (7 * ms / 100 + ms / 10) with (17 * ms / 100) in S1, S2 by lra.
    cbn [concat] in L. rewrite app_nil_r in L. exists m, s, p, p2. split; [exact E|]. repeat (apply conj); auto.
Qed.
