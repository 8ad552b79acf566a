(** SignedMultiplierNetwork can be used again and again (C66).
    Reading aid (all of it specification, none of it taken from the proofs):
    - [jobs_ok X ok span from js T] (Jobs.v): js is a list of computations (argument, start time); every argument is ok, the first
      starts at [from] or later, each later one starts [span] or more after the one before it, and T leaves time for the last;
    - [pair_says enc v eps l] (RestFun.v): l is one pair of spikes whose interval decodes to v up to eps;
    - a job (((x1, x2), (d1, d2)), (p1, p2)) started at t gives x1 to the plus (p1 = true) or minus (p1 = false) input of the first operand
      at t + d1, and x2 to the input of sign p2 of the second operand at t + d2. *)
From Coq Require Import Arith ZArith Bool List Reals Lra Lia.
From Verif Require Import Num Elements Simulator Networks Trace SimTrace SimProps NeuronLib NetLib MemoryProof Session SegLib Jobs RestFun MulNet MulRun MulReuse SignMul SignRun SignJobs PropsCore PropsNets PropsRest PropsMul.
Import ListNotations.
Open Scope R_scope.
Open Scope list_scope.
Local Notation ms := (/ 1000).

Theorem C66_signed_multiplier_reuse : forall (tmin tcod dt T : R) (js : list ((((R * R) * (R * R)) * (bool * bool)) * R)) nm ord,
  0 < dt <= 1 / 2 -> 0 < tcod -> 1 + dt <= tmin -> 4 * dt <= tmin -> ord_ok ord -> 0 <= T ->
  jobs_ok (((R * R) * (R * R)) * (bool * bool))
    (fun x => let '((x1, x2), (d1, d2), _) := x in
       0 < x1 /\ 0 < x2 /\ 4 * dt <= x1 * tcod <= tcod - 2 * dt /\ 4 * dt <= x2 * tcod <= tcod - 2 * dt /\ exp (-14) <= x1 * x2 /\ 0 <= d1 /\ 0 <= d2)
    (fun x => let '(_, (d1, d2), _) := x in Rmax d1 d2 + 356 + 2 * tmin + 3 * tcod) 0 js T ->
  exists m s ps,
    session (SignedMultiplierNetwork (DataEncoder tmin tcod) nm) sx_mod (DataEncoder tmin tcod) dt
      (fun m => flat_map (fun j : (((R * R) * (R * R)) * (bool * bool)) * R => let '((x1, x2), (d1, d2), (p1, p2), t) := j in
          [SValue x1 (if p1 then sx_input1_plus m else sx_input1_minus m) (t + d1); SValue x2 (if p2 then sx_input2_plus m else sx_input2_minus m) (t + d2)]) js) ord T = Ok (m, s) /\
    spike_log s (sx_output_plus m) = concat (map fst ps) /\ spike_log s (sx_output_minus m) = concat (map snd ps) /\
    Forall2 (fun (j : (((R * R) * (R * R)) * (bool * bool)) * R) (p : list R * list R) => let '((x1, x2), _, (p1, p2), _) := j in
      if Bool.eqb p1 p2 then pair_says (DataEncoder tmin tcod) (x1 * x2) (7 * dt / tcod + dt / 10) (fst p) /\ snd p = []
      else fst p = [] /\ pair_says (DataEncoder tmin tcod) (x1 * x2) (7 * dt / tcod + dt / 10) (snd p)) js ps.
Proof.
  intros tmin tcod dt T js nm ord Hdt Htc Htm Htm2 HO HT HJ.
  destruct (signed_multiplier_reuse tmin tcod dt T js nm ord Hdt Htc Htm Htm2 HO HT) as (m & s & ps & E & L1 & L2 & F).
  - match goal with |- jobs_ok ?X ?o ?sp _ _ _ => match type of HJ with jobs_ok ?X' ?o' ?sp' _ _ _ =>
      enough (G : forall z, jobs_ok X' o' sp' z js T -> jobs_ok X o sp z js T) by (apply G; exact HJ) end end.
    clear. induction js as [|[[[[x1 x2] [d1 d2]] [p1 p2]] t] js IH]; intros z H; cbn [jobs_ok fst snd] in *; auto.
    destruct H as (A & B & C). split; [exact A|]. split; [exact B|]. apply IH. exact C.
  - exists m, s, ps. split; [|split; [exact L1|split; [exact L2|]]].
    + rewrite <- E. unfold session. destruct (SignedMultiplierNetwork _ nm empty_world) as [[m' w']|e]; [|reflexivity]. cbn [rbind fst snd].
      match goal with |- context [flat_map ?f js] => replace (flat_map f js) with (flat_map (fun j => smul_job (fst j) (snd j) m') js); [reflexivity|] end.
      apply flat_map_ext. intros [[[[x1 x2] [d1 d2]] [p1 p2]] t]. reflexivity.
    + clear - F. induction F as [|[[[[x1 x2] [d1 d2]] [p1 p2]] t] p js ps HF F IH]; constructor; auto.
Qed.
Print Assumptions C66_signed_multiplier_reuse.
(** 0.5 * 0.5, then 0.8 * (-0.25) with the second operand 30 ms later, on one network *)
Example C66_signed_multiplier_ex : exists m s p1 p2,
  session (SignedMultiplierNetwork (DataEncoder 10 100) None) sx_mod (DataEncoder 10 100) ms
    (fun m => [SValue (1/2) (sx_input1_plus m) (0 + 0); SValue (1/2) (sx_input2_plus m) (0 + 0); SValue (4/5) (sx_input1_plus m) (700 + 0); SValue (1/4) (sx_input2_minus m) (700 + 30)]) id_ord 1500 = Ok (m, s) /\
  spike_log s (sx_output_plus m) = p1 /\ spike_log s (sx_output_minus m) = p2 /\
  pair_says (DataEncoder 10 100) (1/4) (17 * ms / 100) p1 /\ pair_says (DataEncoder 10 100) (1/5) (17 * ms / 100) p2.
Proof.
  assert (E14 : forall c, (1 / 2) ^ 14 <= c -> exp (-14) <= c).
  { intros c Hc. replace (-14) with (- INR 14) by (cbn; lra). apply exp_small; auto. assert (0 < (1 / 2) ^ 14) by (apply pow_lt; lra). lra. }
  destruct (C66_signed_multiplier_reuse 10 100 ms 1500 [(((1/2, 1/2), (0, 0)), (true, true), 0); (((4/5, 1/4), (0, 30)), (true, false), 700)] None id_ord) as (m & s & ps & E & L & L' & F); try lra; [apply id_ord_ok| |].
  - cbn [jobs_ok fst snd]. rewrite (Rmax_left 0 0), (Rmax_right 0 30) by lra. repeat (apply conj); try (apply E14); try lra; cbn [pow]; lra.
  - inversion F as [|j p js' ps' S1 F1]; subst. inversion F1 as [|j2 p2 js2 ps2 S2 F2]; subst. inversion F2; subst.
    cbn [Bool.eqb] in S1, S2. destruct p as [u v], p2 as [u2 v2]. cbn [fst snd] in S1, S2. destruct S1 as [S1 ->]. destruct S2 as [-> S2].
    replace (1 / 2 * (1 / 2)) with (1/4) in S1 by lra. replace (4 / 5 * (1 / 4)) with (1/5) in S2 by lra.
    replace (7 * ms / 100 + ms / 10) with (17 * ms / 100) in S1, S2 by lra.
    cbn [concat map fst snd app] in L, L'. rewrite app_nil_r in L, L'. exists m, s, u, v2. split; [exact E|]. repeat (apply conj); auto.
Qed.
