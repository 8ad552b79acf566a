(** C48: SignedMultiplierNormNetwork emits factor * (x1 * x2) on the output of the product's sign. *)
From Coq Require Import Arith ZArith Bool List Reals Lra Lia.
From Verif Require Import Num Heapq Elements Simulator Networks Trace SimTrace SimProps NeuronLib NetLib Session SimpleNets FuncNets MulRun NormNet NormRun NormTop PropsNets PropsMul.
Import ListNotations.
Open Scope R_scope.
Open Scope list_scope.
Local Notation ms := (/ 1000).

(** off-grid operands: any x1, x2 that code for at least 4 steps, product at least exp(-14) and above the resolution
    10 dt + (dt/10) Tcod; factor * (x1 * x2) (with the error of the product) at most 1, as the class comment asks *)
Theorem C48_signed_multiplier_norm : forall (tmin tcod factor x1 x2 dt ta tb T : R) (p1 p2 : bool) nm ord,
  0 < dt <= 1 / 2 -> 0 < tcod -> 1 + dt <= tmin -> 4 * dt <= tmin -> 0 < factor -> (3 + 3 * factor) * dt <= tmin -> 0 <= ta -> 0 <= tb -> ord_ok ord ->
  0 < x1 -> 0 < x2 -> 4 * dt <= x1 * tcod <= tcod - 2 * dt -> 4 * dt <= x2 * tcod <= tcod - 2 * dt -> exp (-14) <= x1 * x2 ->
  10 * dt + dt / 10 * tcod <= x1 * x2 * tcod -> x1 * x2 * tcod + 7 * dt + dt / 10 * tcod <= tcod ->
  factor * (x1 * x2 * tcod + 7 * dt + dt / 10 * tcod) <= tcod ->
  Rmax ta tb + 64 + 4 * tmin + 3 * tcod + (tmin + tcod) / factor + (2 + 10 * factor) * dt + factor * (dt / 10) * tcod + 20 * - ln (x1 * x2) <= T ->
  exists m s, session (SignedMultiplierNormNetwork (DataEncoder tmin tcod) factor nm) sn_mod (DataEncoder tmin tcod) dt
      (fun m => [SValue x1 (if p1 then sn_input1_plus m else sn_input1_minus m) ta; SValue x2 (if p2 then sn_input2_plus m else sn_input2_minus m) tb]) ord T = Ok (m, s) /\
    emits s (if Bool.eqb p1 p2 then sn_output_plus m else sn_output_minus m) (DataEncoder tmin tcod) (factor * (x1 * x2)) ((2 + 10 * factor) * dt / tcod + factor * dt / 10) /\
    spike_log s (if Bool.eqb p1 p2 then sn_output_minus m else sn_output_plus m) = [].
Proof.
  intros; destruct (signed_norm_run tmin tcod factor x1 x2 dt ta tb T p1 p2 nm ord) as (m & s & E & Y1 & Y2); auto.
  exists m, s. split; [exact E|]. destruct (Bool.eqb p1 p2); auto.
Qed.
Print Assumptions C48_signed_multiplier_norm.
(** operands on the grid of the simulation: any product at least exp(-16), smaller error *)
Theorem C48_signed_multiplier_norm_grid : forall (tmin tcod factor x1 x2 dt ta tb T : R) (k1 k2 : nat) (p1 p2 : bool) nm ord,
  0 < dt <= 1 / 2 -> 0 < tcod -> 1 + dt <= tmin -> 4 * dt <= tmin -> 0 < factor -> (3 + 3 * factor) * dt <= tmin -> 0 <= ta -> 0 <= tb -> ord_ok ord -> aligned dt tmin ->
  0 < x1 < 1 -> 0 < x2 < 1 -> x1 * tcod = INR k1 * dt -> x2 * tcod = INR k2 * dt -> exp (-16) <= x1 * x2 ->
  x1 * x2 * tcod + dt + dt / 10 * tcod <= tcod -> factor * (x1 * x2 * tcod + dt + dt / 10 * tcod) <= tcod ->
  Rmax ta tb + 24 + 4 * tmin + 3 * tcod + (tmin + tcod) / factor + (2 + 4 * factor) * dt + factor * (dt / 10) * tcod + 20 * - ln (x1 * x2) <= T ->
  exists m s, session (SignedMultiplierNormNetwork (DataEncoder tmin tcod) factor nm) sn_mod (DataEncoder tmin tcod) dt
      (fun m => [SValue x1 (if p1 then sn_input1_plus m else sn_input1_minus m) ta; SValue x2 (if p2 then sn_input2_plus m else sn_input2_minus m) tb]) ord T = Ok (m, s) /\
    emits s (if Bool.eqb p1 p2 then sn_output_plus m else sn_output_minus m) (DataEncoder tmin tcod) (factor * (x1 * x2)) ((2 + 4 * factor) * dt / tcod + factor * dt / 10) /\
    spike_log s (if Bool.eqb p1 p2 then sn_output_minus m else sn_output_plus m) = [].
Proof.
  intros; destruct (signed_norm_grid tmin tcod factor x1 x2 dt ta tb T k1 k2 p1 p2 nm ord) as (m & s & E & Y1 & Y2); auto.
  exists m, s. split; [exact E|]. destruct (Bool.eqb p1 p2); auto.
Qed.
Print Assumptions C48_signed_multiplier_norm_grid.
(** an operand equal to 0: one pair of spikes, reading 0 (unlike SignedMultiplierNetwork, C46_zero_refuted) *)
Theorem C48_zero : forall (tmin tcod factor x1 x2 dt ta tb T : R) (p1 p2 : bool) nm ord,
  0 < dt <= 1 / 2 -> 0 < tcod -> 1 + dt <= tmin -> 4 * dt <= tmin -> 0 < factor -> (3 + 3 * factor) * dt <= tmin -> 0 <= ta -> 0 <= tb -> ord_ok ord -> aligned dt tmin ->
  0 <= x1 -> 0 <= x2 -> x1 * x2 = 0 -> x1 * tcod <= tcod - dt -> x2 * tcod <= tcod - dt ->
  Rmax ta tb + 362 + 4 * tmin + tcod + (tmin + tcod) / factor <= T ->
  exists m s, session (SignedMultiplierNormNetwork (DataEncoder tmin tcod) factor nm) sn_mod (DataEncoder tmin tcod) dt
      (fun m => [SValue x1 (if p1 then sn_input1_plus m else sn_input1_minus m) ta; SValue x2 (if p2 then sn_input2_plus m else sn_input2_minus m) tb]) ord T = Ok (m, s) /\
    emits s (if Bool.eqb p1 p2 then sn_output_plus m else sn_output_minus m) (DataEncoder tmin tcod) 0 ((2 + 3 * factor) * dt / tcod) /\
    spike_log s (if Bool.eqb p1 p2 then sn_output_minus m else sn_output_plus m) = [].
Proof.
  intros; destruct (signed_norm_zero tmin tcod factor x1 x2 dt ta tb T p1 p2 nm ord) as (m & s & E & Y1 & Y2); auto.
  exists m, s. split; [exact E|]. destruct (Bool.eqb p1 p2); auto.
Qed.
Print Assumptions C48_zero.

Lemma ln_pow2 c n : 0 < c -> (1 / 2) ^ n <= c -> - ln c <= INR n.
Proof.
  intros Hc H. pose proof (exp_small n c Hc H) as X. destruct X as [X|X].
  - apply ln_increasing in X; [|apply exp_pos]. rewrite ln_exp in X. lra.
  - rewrite <- X, ln_exp. lra.
Qed.
(** the example of the class comment: 13 * 7 with factor 100, x1 = 13/100, x2 = 7/100 *)
Example C48_grid_ex : exists m s, session (SignedMultiplierNormNetwork (DataEncoder 10 100) 100 None) sn_mod (DataEncoder 10 100) ms
      (fun m => [SValue (13/100) (sn_input1_plus m) 10; SValue (7/100) (sn_input2_minus m) 10]) id_ord 600 = Ok (m, s) /\
    emits s (sn_output_minus m) (DataEncoder 10 100) (91/100) (15/1000) /\ spike_log s (sn_output_plus m) = [].
Proof.
  destruct (C48_signed_multiplier_norm_grid 10 100 100 (13/100) (7/100) ms 10 10 600 (Z.to_nat 13000) (Z.to_nat 7000) true false None id_ord) as (m & s & E & (t1 & t2 & y & H1 & H2 & H3 & H4) & H5); rewrite ?INR_Z by lia; try lra; try apply id_ord_ok; try apply aligned_ms.
  - replace (-16) with (- INR 16) by (cbn; lra). apply exp_small; lra.
  - rewrite Rmax_right by lra. assert (HL : - ln (13 / 100 * (7 / 100)) <= 7).
    { assert (X : - ln (13 / 100 * (7 / 100)) <= INR 7) by (apply ln_pow2; lra). cbn [INR] in X. lra. }
    lra.
  - exists m, s. split; [exact E|]. split; [|exact H5]. exists t1, t2, y. split; auto. split; auto. split; auto. replace (91/100) with (100 * (13 / 100 * (7 / 100))) by lra. lra.
Qed.
(** -0.3 * 0.5, factor 4, off the grid *)
Example C48_ex : exists m s, session (SignedMultiplierNormNetwork (DataEncoder 10 100) 4 None) sn_mod (DataEncoder 10 100) ms
      (fun m => [SValue (3/10) (sn_input1_minus m) 0; SValue (1/2) (sn_input2_minus m) (1/3)]) id_ord 600 = Ok (m, s) /\
    emits s (sn_output_plus m) (DataEncoder 10 100) (6/10) (1/1000) /\ spike_log s (sn_output_minus m) = [].
Proof.
  destruct (C48_signed_multiplier_norm 10 100 4 (3/10) (1/2) ms 0 (1/3) 600 false false None id_ord) as (m & s & E & (t1 & t2 & y & H1 & H2 & H3 & H4) & H5); try lra; try apply id_ord_ok.
  - replace (-14) with (- INR 14) by (cbn; lra). apply exp_small; lra.
  - rewrite Rmax_right by lra. assert (HL : - ln (3 / 10 * (1 / 2)) <= INR 3) by (apply ln_pow2; lra). cbn [INR] in HL. lra.
  - exists m, s. split; [exact E|]. split; [|exact H5]. exists t1, t2, y. split; auto. split; auto. split; auto. replace (6/10) with (4 * (3 / 10 * (1 / 2))) by lra. lra.
Qed.
Example C48_zero_ex : exists m s, session (SignedMultiplierNormNetwork (DataEncoder 10 100) 100 None) sn_mod (DataEncoder 10 100) ms
      (fun m => [SValue (3/4) (sn_input1_minus m) 0; SValue 0 (sn_input2_plus m) 5]) id_ord 600 = Ok (m, s) /\
    emits s (sn_output_minus m) (DataEncoder 10 100) 0 (4/1000) /\ spike_log s (sn_output_plus m) = [].
Proof.
  destruct (C48_zero 10 100 100 (3/4) 0 ms 0 5 600 false true None id_ord) as (m & s & E & (t1 & t2 & y & H1 & H2 & H3 & H4) & H5); try lra; try apply id_ord_ok; try apply aligned_ms.
  - rewrite Rmax_right by lra. lra.
  - exists m, s. split; [exact E|]. split; [|exact H5]. exists t1, t2, y. split; auto. split; auto. split; auto. lra.
Qed.
