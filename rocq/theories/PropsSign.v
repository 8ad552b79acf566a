(** Property C46: SignedMultiplierNetwork.
    An operand of sign p (true: plus) is given on input_plus or input_minus; the claim is about the spikes of the two output neurons. *)
From Coq Require Import Arith ZArith Bool String List Reals Lra Lia Permutation.
From Verif Require Import Num Heapq Elements Simulator Networks Trace SimTrace Session SimpleNets FuncNets MulRun SignMul SignRun SignProd PropsNets PropsMul.
Import ListNotations.
Open Scope R_scope.
Open Scope list_scope.
Local Notation ms := (/ 1000).

(** the product comes out on the neuron of the right sign and the other one is silent *)
Theorem C46_signed_multiplier : forall (tmin tcod x1 x2 dt ta tb T : R) (p1 p2 : bool) nm ord,
  0 < dt <= 1 / 2 -> 0 < tcod -> 1 + dt <= tmin -> 4 * dt <= tmin -> 0 <= ta -> 0 <= tb -> ord_ok ord ->
  0 < x1 -> 0 < x2 -> 4 * dt <= x1 * tcod <= tcod - 2 * dt -> 4 * dt <= x2 * tcod <= tcod - 2 * dt -> exp (-14) <= x1 * x2 ->
  Rmax ta tb + 62 + 2 * tmin + 3 * tcod + 20 * - ln (x1 * x2) <= T ->
  exists m s, session (SignedMultiplierNetwork (DataEncoder tmin tcod) nm) sx_mod (DataEncoder tmin tcod) dt
      (fun m => [SValue x1 (if p1 then sx_input1_plus m else sx_input1_minus m) ta; SValue x2 (if p2 then sx_input2_plus m else sx_input2_minus m) tb]) ord T = Ok (m, s) /\
    emits s (if Bool.eqb p1 p2 then sx_output_plus m else sx_output_minus m) (DataEncoder tmin tcod) (x1 * x2) (7 * dt / tcod + dt / 10) /\
    spike_log s (if Bool.eqb p1 p2 then sx_output_minus m else sx_output_plus m) = [].
Proof.
  intros; destruct (signed_multiplier_run tmin tcod x1 x2 dt ta tb T p1 p2 nm ord) as (m & s & E & Y1 & Y2); auto.
  exists m, s. split; [exact E|]. destruct (Bool.eqb p1 p2); auto.
Qed.
Print Assumptions C46_signed_multiplier.
Theorem C46_signed_multiplier_grid : forall (tmin tcod x1 x2 dt ta tb T : R) (k1 k2 : nat) (p1 p2 : bool) nm ord,
  0 < dt <= 1 / 2 -> 0 < tcod -> 1 + dt <= tmin -> 4 * dt <= tmin -> 0 <= ta -> 0 <= tb -> ord_ok ord -> aligned dt tmin ->
  0 < x1 < 1 -> 0 < x2 < 1 -> x1 * tcod = INR k1 * dt -> x2 * tcod = INR k2 * dt -> exp (-16) <= x1 * x2 ->
  Rmax ta tb + 22 + 2 * tmin + 3 * tcod + 20 * - ln (x1 * x2) <= T ->
  exists m s, session (SignedMultiplierNetwork (DataEncoder tmin tcod) nm) sx_mod (DataEncoder tmin tcod) dt
      (fun m => [SValue x1 (if p1 then sx_input1_plus m else sx_input1_minus m) ta; SValue x2 (if p2 then sx_input2_plus m else sx_input2_minus m) tb]) ord T = Ok (m, s) /\
    emits s (if Bool.eqb p1 p2 then sx_output_plus m else sx_output_minus m) (DataEncoder tmin tcod) (x1 * x2) (dt / tcod + dt / 10) /\
    spike_log s (if Bool.eqb p1 p2 then sx_output_minus m else sx_output_plus m) = [].
Proof.
  intros; destruct (signed_multiplier_grid tmin tcod x1 x2 dt ta tb T k1 k2 p1 p2 nm ord) as (m & s & E & Y1 & Y2); auto.
  exists m, s. split; [exact E|]. destruct (Bool.eqb p1 p2); auto.
Qed.
Print Assumptions C46_signed_multiplier_grid.
(** an operand equal to 0: the claim "output_plus says 0, output_minus is silent" is false.
    The inner network and the outer zero detector both answer, 2 time units apart.
    Equal signs: four spikes on output_plus. Opposite signs: output_plus and output_minus both spike, output_plus decoding to (2 - Tmin)/Tcod *)
Theorem C46_zero_refuted : forall (tmin tcod x1 x2 dt ta tb T : R) (p1 p2 : bool) nm ord,
  0 < dt <= 1 / 2 -> 0 < tcod -> 2 < tmin -> 4 * dt <= tmin -> 0 <= ta -> 0 <= tb -> ord_ok ord -> aligned dt tmin ->
  0 <= x1 -> 0 <= x2 -> x1 * x2 = 0 -> x1 * tcod <= tcod - dt -> x2 * tcod <= tcod - dt ->
  Rmax ta tb + 353 + 2 * tmin + tcod + dt <= T ->
  exists m s t, session (SignedMultiplierNetwork (DataEncoder tmin tcod) nm) sx_mod (DataEncoder tmin tcod) dt
      (fun m => [SValue x1 (if p1 then sx_input1_plus m else sx_input1_minus m) ta; SValue x2 (if p2 then sx_input2_plus m else sx_input2_minus m) tb]) ord T = Ok (m, s) /\
    spike_log s (sx_output_plus m) = (if Bool.eqb p1 p2 then [t; t + 2; t + tmin; t + tmin + 2] else [t + tmin; t + tmin + 2]) /\
    spike_log s (sx_output_minus m) = (if Bool.eqb p1 p2 then [] else [t + 2; t + tmin + 2]).
Proof. exact signed_multiplier_zero. Qed.
Print Assumptions C46_zero_refuted.

(** -0.1 * 0.5 with the default encoder and dt = 1/1000 *)
Example C46_ex : exists m s, session (SignedMultiplierNetwork (DataEncoder 10 100) None) sx_mod (DataEncoder 10 100) ms
      (fun m => [SValue (1/10) (sx_input1_minus m) 10; SValue (1/2) (sx_input2_plus m) 10]) id_ord 800 = Ok (m, s) /\
    emits s (sx_output_minus m) (DataEncoder 10 100) (1/20) (17/100000) /\ spike_log s (sx_output_plus m) = [].
Proof.
  pose proof ln_half as [L _]. destruct (C46_signed_multiplier 10 100 (1/10) (1/2) ms 10 10 800 false true None id_ord) as (m & s & E & (t1 & t2 & y & H1 & H2 & H3 & H4) & H5); try lra; try apply id_ord_ok.
  - replace (-14) with (- INR 14) by (cbn; lra). apply exp_small; lra.
  - rewrite Rmax_left by lra. replace (1 / 10 * (1 / 2)) with (1 / 20) by lra. lra.
  - exists m, s. split; [exact E|]. split; [|exact H5]. exists t1, t2, y. split; auto. split; auto. split; auto. replace (1/20) with (1 / 10 * (1 / 2)) by lra. lra.
Qed.
Example C46_grid_ex : exists m s, session (SignedMultiplierNetwork (DataEncoder 10 100) None) sx_mod (DataEncoder 10 100) ms
      (fun m => [SValue (1/10) (sx_input1_minus m) 10; SValue (1/2) (sx_input2_minus m) 30]) id_ord 800 = Ok (m, s) /\
    emits s (sx_output_plus m) (DataEncoder 10 100) (1/20) (11/100000) /\ spike_log s (sx_output_minus m) = [].
Proof.
  pose proof ln_half as [L _]. destruct (C46_signed_multiplier_grid 10 100 (1/10) (1/2) ms 10 30 800 (Z.to_nat 10000) (Z.to_nat 50000) false false None id_ord) as (m & s & E & (t1 & t2 & y & H1 & H2 & H3 & H4) & H5); rewrite ?INR_Z by lia; try lra; try apply id_ord_ok; try apply aligned_ms.
  - replace (-16) with (- INR 16) by (cbn; lra). apply exp_small; lra.
  - rewrite Rmax_right by lra. replace (1 / 10 * (1 / 2)) with (1 / 20) by lra. lra.
  - exists m, s. split; [exact E|]. split; [|exact H5]. exists t1, t2, y. split; auto. split; auto. split; auto. replace (1/20) with (1 / 10 * (1 / 2)) by lra. lra.
Qed.
(** -0.75 * 0: both outputs spike *)
Example C46_zero_ex : exists m s t, session (SignedMultiplierNetwork (DataEncoder 10 100) None) sx_mod (DataEncoder 10 100) ms
      (fun m => [SValue (3/4) (sx_input1_minus m) 0; SValue 0 (sx_input2_plus m) 5]) id_ord 500 = Ok (m, s) /\
    spike_log s (sx_output_plus m) = [t + 10; t + 10 + 2] /\ spike_log s (sx_output_minus m) = [t + 2; t + 10 + 2].
Proof. apply (C46_zero_refuted 10 100 (3/4) 0 ms 0 5 500 false true None id_ord); try lra; try apply id_ord_ok; try apply aligned_ms. rewrite Rmax_right by lra. lra. Qed.
