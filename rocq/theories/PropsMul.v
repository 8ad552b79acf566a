(** Property C31: MultiplierNetwork.
    x1 is given on input1 at time ta and x2 on input2 at time tb (mul_stims); the claim is about the spikes of the output neuron. *)
From Coq Require Import Arith ZArith Bool String List Reals Lra Lia Permutation Floats.
From Verif Require Import Num Heapq Elements Simulator Networks Trace SimTrace Session SimpleNets FuncNets MulRun MulSpecial PropsNets.
Import ListNotations.
Open Scope R_scope.
Open Scope list_scope.
Local Notation ms := (/ 1000).

(** the product of two operands below 1 comes out as one pair of spikes, whatever the (real) operands, their times and the time step *)
Theorem C31_multiplier : forall (tmin tcod x1 x2 dt ta tb T : R) nm ord,
  0 < dt <= 1 / 2 -> 0 < tcod -> 1 + dt <= tmin -> 4 * dt <= tmin -> 0 <= ta -> 0 <= tb -> ord_ok ord ->
  0 < x1 -> 0 < x2 -> 4 * dt <= x1 * tcod <= tcod - 2 * dt -> 4 * dt <= x2 * tcod <= tcod - 2 * dt -> exp (-14) <= x1 * x2 ->
  Rmax ta tb + 55 + 2 * (tmin + tcod) + 20 * - ln (x1 * x2) <= T ->
  exists m s, session (MultiplierNetwork (DataEncoder tmin tcod) nm) mu_mod (DataEncoder tmin tcod) dt
      (fun m => [SValue x1 (mu_input1 m) ta; SValue x2 (mu_input2 m) tb]) ord T = Ok (m, s) /\
    emits s (mu_output m) (DataEncoder tmin tcod) (x1 * x2) (7 * dt / tcod + dt / 10).
Proof. exact multiplier_run. Qed.
Print Assumptions C31_multiplier.
(** operands, Tmin and 1 multiples of the time step *)
Theorem C31_multiplier_grid : forall (tmin tcod x1 x2 dt ta tb T : R) (k1 k2 : nat) nm ord,
  0 < dt <= 1 / 2 -> 0 < tcod -> 1 + dt <= tmin -> 4 * dt <= tmin -> 0 <= ta -> 0 <= tb -> ord_ok ord -> aligned dt tmin ->
  0 < x1 < 1 -> 0 < x2 < 1 -> x1 * tcod = INR k1 * dt -> x2 * tcod = INR k2 * dt -> exp (-16) <= x1 * x2 ->
  Rmax ta tb + 15 + 2 * (tmin + tcod) + 20 * - ln (x1 * x2) <= T ->
  exists m s, session (MultiplierNetwork (DataEncoder tmin tcod) nm) mu_mod (DataEncoder tmin tcod) dt
      (fun m => [SValue x1 (mu_input1 m) ta; SValue x2 (mu_input2 m) tb]) ord T = Ok (m, s) /\
    emits s (mu_output m) (DataEncoder tmin tcod) (x1 * x2) (dt / tcod + dt / 10).
Proof. exact multiplier_grid. Qed.
Print Assumptions C31_multiplier_grid.
(** one operand 0, the other below 1: exactly 0 *)
Theorem C31_zero : forall (tmin tcod x1 x2 dt ta tb T : R) nm ord,
  0 < dt <= 1 / 2 -> 0 < tcod -> 1 + dt <= tmin -> 4 * dt <= tmin -> 0 <= ta -> 0 <= tb -> ord_ok ord -> aligned dt tmin ->
  0 <= x1 -> 0 <= x2 -> x1 * x2 = 0 -> x1 * tcod <= tcod - dt -> x2 * tcod <= tcod - dt ->
  Rmax ta tb + 351 + 2 * tmin + tcod + dt <= T ->
  exists m s, session (MultiplierNetwork (DataEncoder tmin tcod) nm) mu_mod (DataEncoder tmin tcod) dt
      (fun m => [SValue x1 (mu_input1 m) ta; SValue x2 (mu_input2 m) tb]) ord T = Ok (m, s) /\
    emits s (mu_output m) (DataEncoder tmin tcod) 0 0.
Proof. exact multiplier_zero. Qed.
Print Assumptions C31_zero.
(** the claim is false for the operand 1, which the encoder accepts.
    Second operand 1, durations multiples of the time step: the output says 1 whatever the first operand below 1 *)
Theorem C31_second_factor_one_refuted : forall (tmin tcod x1 dt ta tb T : R) (K : nat) nm ord,
  0 < dt <= 1 / 2 -> 0 < tcod -> 1 + dt <= tmin -> 4 * dt <= tmin -> 0 <= ta -> 0 <= tb -> ord_ok ord -> aligned dt tmin -> tcod = INR K * dt ->
  0 <= x1 -> x1 * tcod <= tcod - dt ->
  Rmax ta tb + 5 + 2 * (tmin + tcod) <= T ->
  exists m s, session (MultiplierNetwork (DataEncoder tmin tcod) nm) mu_mod (DataEncoder tmin tcod) dt
      (fun m => [SValue x1 (mu_input1 m) ta; SValue 1 (mu_input2 m) tb]) ord T = Ok (m, s) /\
    emits s (mu_output m) (DataEncoder tmin tcod) 1 (dt / tcod).
Proof. exact multiplier_second_one. Qed.
Print Assumptions C31_second_factor_one_refuted.
(** first operand 1 (same durations, same arrival times): the output is between 5 and 10 percent too large *)
Theorem C31_first_factor_one_refuted : forall (tmin tcod x2 dt t0 T : R) (K k2 : nat) nm ord,
  0 < dt <= 1 / 2 -> 0 < tcod -> 1 + dt <= tmin -> 4 * dt <= tmin -> 0 <= t0 -> ord_ok ord -> aligned dt tmin -> tcod = INR K * dt ->
  exp (-16) <= x2 <= 9 / 10 -> x2 * tcod = INR k2 * dt ->
  t0 + 12 + 2 * (tmin + tcod) + 20 * - ln x2 <= T ->
  exists m s v, session (MultiplierNetwork (DataEncoder tmin tcod) nm) mu_mod (DataEncoder tmin tcod) dt
      (fun m => [SValue 1 (mu_input1 m) t0; SValue x2 (mu_input2 m) t0]) ord T = Ok (m, s) /\
    21 / 20 * x2 <= v <= 11 / 10 * x2 /\ emits s (mu_output m) (DataEncoder tmin tcod) v (dt / tcod + dt / 18).
Proof. exact multiplier_first_one. Qed.
Print Assumptions C31_first_factor_one_refuted.

Lemma exp_small n c : 0 < c -> (1 / 2) ^ n <= c -> exp (- INR n) <= c.
Proof.
  intros Hc H. apply Rle_trans with ((1 / 2) ^ n); auto. clear H. induction n as [|n IH]; [cbn; rewrite Ropp_0, exp_0; lra|].
  rewrite S_INR. replace (- (INR n + 1)) with (- INR n + - (1)) by lra. rewrite exp_plus. cbn [pow]. rewrite (Rmult_comm (1 / 2)). apply Rmult_le_compat; try (left; apply exp_pos); auto.
  rewrite exp_Ropp. pose proof (exp_ineq1 1 ltac:(lra)). apply Rmult_le_reg_r with (exp 1); [apply exp_pos|]. rewrite Rinv_l by (apply Rgt_not_eq, exp_pos). lra.
Qed.
Lemma ln_half : - ln (1 / 20) <= 19 /\ - ln (1 / 2) <= 1.
Proof.
  assert (forall c, 0 < c -> - ln c <= / c - 1).
  { intros c Hc. rewrite <- ln_Rinv by auto. pose proof (Rinv_0_lt_compat c Hc) as Hi. pose proof (exp_ineq1_le (ln (/ c))) as E. rewrite exp_ln in E by auto. lra. }
  split; [specialize (H (1/20) ltac:(lra)); replace (/ (1 / 20)) with 20 in H by field; lra|specialize (H (1/2) ltac:(lra)); replace (/ (1 / 2)) with 2 in H by field; lra].
Qed.
(** 0.1 * 0.5 as in the module's demo, with the default encoder and dt = 1/1000 *)
Example C31_ex : exists m s, session (MultiplierNetwork (DataEncoder 10 100) None) mu_mod (DataEncoder 10 100) ms
      (fun m => [SValue (1/10) (mu_input1 m) 10; SValue (1/2) (mu_input2 m) 10]) id_ord 700 = Ok (m, s) /\
    emits s (mu_output m) (DataEncoder 10 100) (1/20) (17/100000).
Proof.
  pose proof ln_half as [L _]. destruct (C31_multiplier 10 100 (1/10) (1/2) ms 10 10 700 None id_ord) as (m & s & E & t1 & t2 & y & H1 & H2 & H3 & H4); try lra; try apply id_ord_ok.
  - replace (-14) with (- INR 14) by (cbn; lra). apply exp_small; lra.
  - rewrite Rmax_left by lra. replace (1 / 10 * (1 / 2)) with (1 / 20) by lra. lra.
  - exists m, s. split; [exact E|]. exists t1, t2, y. split; auto. split; auto. split; auto. replace (1/20) with (1 / 10 * (1 / 2)) by lra. lra.
Qed.
Example C31_grid_ex : exists m s, session (MultiplierNetwork (DataEncoder 10 100) None) mu_mod (DataEncoder 10 100) ms
      (fun m => [SValue (1/10) (mu_input1 m) 10; SValue (1/2) (mu_input2 m) 30]) id_ord 700 = Ok (m, s) /\
    emits s (mu_output m) (DataEncoder 10 100) (1/20) (11/100000).
Proof.
  pose proof ln_half as [L _]. destruct (C31_multiplier_grid 10 100 (1/10) (1/2) ms 10 30 700 (Z.to_nat 10000) (Z.to_nat 50000) None id_ord) as (m & s & E & t1 & t2 & y & H1 & H2 & H3 & H4); rewrite ?INR_Z by lia; try lra; try apply id_ord_ok; try apply aligned_ms.
  - replace (-16) with (- INR 16) by (cbn; lra). apply exp_small; lra.
  - rewrite Rmax_right by lra. replace (1 / 10 * (1 / 2)) with (1 / 20) by lra. lra.
  - exists m, s. split; [exact E|]. exists t1, t2, y. split; auto. split; auto. split; auto. replace (1/20) with (1 / 10 * (1 / 2)) by lra. lra.
Qed.
Example C31_zero_ex : exists m s, session (MultiplierNetwork (DataEncoder 10 100) None) mu_mod (DataEncoder 10 100) ms
      (fun m => [SValue (3/4) (mu_input1 m) 0; SValue 0 (mu_input2 m) 5]) id_ord 500 = Ok (m, s) /\
    emits s (mu_output m) (DataEncoder 10 100) 0 0.
Proof. apply (C31_zero 10 100 (3/4) 0 ms 0 5 500 None id_ord); try lra; try apply id_ord_ok; try apply aligned_ms. rewrite Rmax_right by lra. lra. Qed.
(** 0 * 1 = 1 *)
Example C31_second_ex : exists m s, session (MultiplierNetwork (DataEncoder 10 100) None) mu_mod (DataEncoder 10 100) ms
      (fun m => [SValue 0 (mu_input1 m) 0; SValue 1 (mu_input2 m) 5]) id_ord 500 = Ok (m, s) /\
    emits s (mu_output m) (DataEncoder 10 100) 1 (ms / 100).
Proof. apply (C31_second_factor_one_refuted 10 100 0 ms 0 5 500 (Z.to_nat 100000) None id_ord); rewrite ?INR_Z by lia; try lra; try apply id_ord_ok; try apply aligned_ms. rewrite Rmax_right by lra. lra. Qed.
Example C31_first_ex : exists m s v, session (MultiplierNetwork (DataEncoder 10 100) None) mu_mod (DataEncoder 10 100) ms
      (fun m => [SValue 1 (mu_input1 m) 3; SValue (1/2) (mu_input2 m) 3]) id_ord 500 = Ok (m, s) /\
    21 / 20 * (1/2) <= v <= 11 / 10 * (1/2) /\ emits s (mu_output m) (DataEncoder 10 100) v (ms / 100 + ms / 18).
Proof.
  pose proof ln_half as [_ L]. apply (C31_first_factor_one_refuted 10 100 (1/2) ms 3 500 (Z.to_nat 100000) (Z.to_nat 50000) None id_ord); rewrite ?INR_Z by lia; try lra; try apply id_ord_ok; try apply aligned_ms.
  split; [|lra]. replace (-16) with (- INR 16) by (cbn; lra). apply exp_small; lra.
Qed.

(** the same with the machine's arithmetic: Tmin=10, Tcod=100, dt=0.25, 0.5 on input1 and 1.0 on input2 at 0.
    Two spikes 109.75 apart come out, which decode to 0.9975 instead of 0.5; 0.5 and 0.5 give 0.25 *)
Definition mul_script {T} `{Num T} (enc : encoder T) (x1 x2 dt t0 D : T) : res (mul_net * sim T) :=
  let* mw := MultiplierNetwork enc None empty_world in
  let* c := mk_simulator (snd mw) (mu_mod (fst mw)) enc dt in
  let* s1 := apply_input_value (fst c) (snd c) x1 (mu_input1 (fst mw)) t0 in
  let* s2 := apply_input_value (fst c) s1 x2 (mu_input2 (fst mw)) t0 in
  let* s3 := simulate (fst c) ord_id s2 D in
  Ok (fst mw, s3).
Definition gap {T} `{Num T} (r : res (mul_net * sim T)) : option T :=
  match r with Ok (m, s) => match spike_log s (mu_output m) with [a; b] => Some (nsub b a) | _ => None end | Err _ => None end.
Theorem C31_binary64_second_factor_one_refuted :
  gap (mul_script (T := float) (DataEncoder (nofZ 10) (nofZ 100)) (nlit 1 2) (nofZ 1) (nlit 1 4) (nofZ 0) (nofZ 400)) = Some (nlit 439 4) /\
  gap (mul_script (T := float) (DataEncoder (nofZ 10) (nofZ 100)) (nlit 1 2) (nlit 1 2) (nlit 1 4) (nofZ 0) (nofZ 400)) = Some (nofZ 35).
Proof. split; vm_compute; reflexivity. Qed.
Print Assumptions C31_binary64_second_factor_one_refuted.
