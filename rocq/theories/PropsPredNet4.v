(** MultiplierNetwork and SignedMultiplierNetwork on PredSimulator: C58. *)
From Coq Require Import Arith ZArith Bool List Reals Lra Lia.
From Verif Require Import Num NumOrd Elements Networks PredSim Trace SimTrace Session PredNet PredMem PredMul PredMul2 PredSMul.
Import ListNotations.
Open Scope list_scope.
Open Scope R_scope.

(** [pruns], [pemits], [dt_ok]: see PropsPredNet.v. *)
(** the product of two operands below 1, each given as a pair of spikes at its own time *)
Theorem C58_multiplier : forall (tmin tcod x1 x2 dt t1 t2 : R) nm,
  dt_ok dt -> 0 < tcod -> 1 < tmin -> tcod + 2 * dt <= 500 -> 0 <= t1 -> 0 <= t2 -> 0 < x1 < 1 -> 0 < x2 < 1 -> 20 * - ln (x1 * x2) + 2 * dt <= 343 ->
  pruns (MultiplierNetwork (DataEncoder tmin tcod) nm) mu_mod (DataEncoder tmin tcod) dt
    (fun m => [SSpike (mu_input1 m) t1; SSpike (mu_input1 m) (t1 + (tmin + x1 * tcod)); SSpike (mu_input2 m) t2; SSpike (mu_input2 m) (t2 + (tmin + x2 * tcod))])
    (fun m s => pemits s (mu_output m) (DataEncoder tmin tcod) (x1 * x2) (Rmax (dt / tcod) (x1 * x2 * (dt / 10)))).
Proof. intros tmin tcod x1 x2 dt t1 t2 nm ? ? ? ? ? ? ? ? HL. rewrite ln_mult in HL by lra. apply (pred_multiplier tmin tcod x1 x2 dt t1 t2 nm); auto. lra. Qed.
Print Assumptions C58_multiplier.
(** given as values, which PredSimulator starts at time 0 *)
Theorem C58_multiplier_values : forall (tmin tcod x1 x2 dt t1 t2 : R) nm,
  dt_ok dt -> 0 < tcod -> 1 < tmin -> tcod + 2 * dt <= 500 -> 0 < x1 < 1 -> 0 < x2 < 1 -> 20 * - ln (x1 * x2) + 2 * dt <= 343 ->
  pruns (MultiplierNetwork (DataEncoder tmin tcod) nm) mu_mod (DataEncoder tmin tcod) dt (fun m => [SValue x1 (mu_input1 m) t1; SValue x2 (mu_input2 m) t2])
    (fun m s => pemits s (mu_output m) (DataEncoder tmin tcod) (x1 * x2) (Rmax (dt / tcod) (x1 * x2 * (dt / 10)))).
Proof. intros tmin tcod x1 x2 dt t1 t2 nm ? ? ? ? ? ? HL. rewrite ln_mult in HL by lra. apply (pred_multiplier_values tmin tcod x1 x2 dt t1 t2 nm); auto. lra. Qed.
Print Assumptions C58_multiplier_values.
(** an operand 0: exactly 0, given by the zero detector *)
Theorem C58_zero : forall (tmin tcod x1 x2 dt t1 t2 : R) nm,
  dt_ok dt -> 0 < tcod -> 1 < tmin -> tcod + 2 * dt <= 500 -> 0 <= t1 -> 0 <= t2 -> 0 <= x1 < 1 -> 0 <= x2 < 1 -> x1 * x2 = 0 -> (0 < x1 -> 20 * - ln x1 + 2 * dt <= 500) ->
  pruns (MultiplierNetwork (DataEncoder tmin tcod) nm) mu_mod (DataEncoder tmin tcod) dt
    (fun m => [SSpike (mu_input1 m) t1; SSpike (mu_input1 m) (t1 + (tmin + x1 * tcod)); SSpike (mu_input2 m) t2; SSpike (mu_input2 m) (t2 + (tmin + x2 * tcod))])
    (fun m s => pemits s (mu_output m) (DataEncoder tmin tcod) 0 0).
Proof. exact pred_multiplier_zero. Qed.
Print Assumptions C58_zero.
Theorem C58_zero_values : forall (tmin tcod x1 x2 dt t1 t2 : R) nm,
  dt_ok dt -> 0 < tcod -> 1 < tmin -> tcod + 2 * dt <= 500 -> 0 <= x1 < 1 -> 0 <= x2 < 1 -> x1 * x2 = 0 -> (0 < x1 -> 20 * - ln x1 + 2 * dt <= 500) ->
  pruns (MultiplierNetwork (DataEncoder tmin tcod) nm) mu_mod (DataEncoder tmin tcod) dt (fun m => [SValue x1 (mu_input1 m) t1; SValue x2 (mu_input2 m) t2])
    (fun m s => pemits s (mu_output m) (DataEncoder tmin tcod) 0 0).
Proof. exact pred_multiplier_zero_values. Qed.
Print Assumptions C58_zero_values.
(** false for an operand 1, which the encoder accepts, whatever the time step.
    Second operand 1: the output says 1 whatever the first operand below 1 *)
Theorem C58_second_factor_one_refuted : forall (tmin tcod x1 dt t1 t2 : R) nm,
  dt_ok dt -> 0 < tcod -> 1 < tmin -> tcod + 2 * dt <= 500 -> 0 <= t1 -> 0 <= t2 -> 0 <= x1 < 1 -> (0 < x1 -> 20 * - ln x1 + 2 * dt <= 500) ->
  pruns (MultiplierNetwork (DataEncoder tmin tcod) nm) mu_mod (DataEncoder tmin tcod) dt
    (fun m => [SSpike (mu_input1 m) t1; SSpike (mu_input1 m) (t1 + (tmin + x1 * tcod)); SSpike (mu_input2 m) t2; SSpike (mu_input2 m) (t2 + (tmin + 1 * tcod))])
    (fun m s => pemits s (mu_output m) (DataEncoder tmin tcod) 1 (dt / tcod)).
Proof. intros. apply (pred_multiplier_second_one tmin tcod dt H H0 H1 H2 x1 t1 t2 nm); auto. Qed.
Print Assumptions C58_second_factor_one_refuted.
(** first operand 1, the operands starting together: too large by the factor exp (1/20) *)
Theorem C58_first_factor_one_refuted : forall (tmin tcod x2 dt t : R) nm,
  dt_ok dt -> 0 < tcod -> 1 < tmin -> tcod + 2 * dt <= 500 -> 0 <= t -> 0 < x2 <= 9 / 10 -> 20 * - ln x2 + 2 * dt <= 343 ->
  pruns (MultiplierNetwork (DataEncoder tmin tcod) nm) mu_mod (DataEncoder tmin tcod) dt
    (fun m => [SSpike (mu_input1 m) t; SSpike (mu_input1 m) (t + (tmin + 1 * tcod)); SSpike (mu_input2 m) t; SSpike (mu_input2 m) (t + (tmin + x2 * tcod))])
    (fun m s => pemits s (mu_output m) (DataEncoder tmin tcod) (x2 * exp (/ 20)) (Rmax (dt / tcod) (x2 * exp (/ 20) * (dt / 20)))).
Proof. intros. apply (pred_multiplier_first_one tmin tcod dt H H0 H1 H2 x2 t nm); auto. Qed.
Print Assumptions C58_first_factor_one_refuted.

(** the signed product comes out on the neuron of its sign and the other one is silent *)
Theorem C58_signed_multiplier : forall (tmin tcod x1 x2 dt t1 t2 : R) (p1 p2 : bool) nm,
  dt_ok dt -> 0 < tcod -> 1 < tmin -> tcod + 2 * dt <= 500 -> 0 <= t1 -> 0 <= t2 -> 0 < x1 < 1 -> 0 < x2 < 1 -> 20 * - ln (x1 * x2) + 2 * dt <= 341 ->
  pruns (SignedMultiplierNetwork (DataEncoder tmin tcod) nm) sx_mod (DataEncoder tmin tcod) dt
    (fun m => let i1 := if p1 then sx_input1_plus m else sx_input1_minus m in let i2 := if p2 then sx_input2_plus m else sx_input2_minus m in
              [SSpike i1 t1; SSpike i1 (t1 + (tmin + x1 * tcod)); SSpike i2 t2; SSpike i2 (t2 + (tmin + x2 * tcod))])
    (fun m s => pemits s (if Bool.eqb p1 p2 then sx_output_plus m else sx_output_minus m) (DataEncoder tmin tcod) (x1 * x2) (Rmax (dt / tcod) (x1 * x2 * (dt / 10))) /\
                pspike_log s (if Bool.eqb p1 p2 then sx_output_minus m else sx_output_plus m) = []).
Proof. intros tmin tcod x1 x2 dt t1 t2 p1 p2 nm ? ? ? ? ? ? ? ? HL. rewrite ln_mult in HL by lra. apply (pred_signed_multiplier tmin tcod x1 x2 dt t1 t2 p1 p2 nm); auto. lra. Qed.
Print Assumptions C58_signed_multiplier.
Theorem C58_signed_multiplier_values : forall (tmin tcod x1 x2 dt t1 t2 : R) (p1 p2 : bool) nm,
  dt_ok dt -> 0 < tcod -> 1 < tmin -> tcod + 2 * dt <= 500 -> 0 < x1 < 1 -> 0 < x2 < 1 -> 20 * - ln (x1 * x2) + 2 * dt <= 341 ->
  pruns (SignedMultiplierNetwork (DataEncoder tmin tcod) nm) sx_mod (DataEncoder tmin tcod) dt
    (fun m => [SValue x1 (if p1 then sx_input1_plus m else sx_input1_minus m) t1; SValue x2 (if p2 then sx_input2_plus m else sx_input2_minus m) t2])
    (fun m s => pemits s (if Bool.eqb p1 p2 then sx_output_plus m else sx_output_minus m) (DataEncoder tmin tcod) (x1 * x2) (Rmax (dt / tcod) (x1 * x2 * (dt / 10))) /\
                pspike_log s (if Bool.eqb p1 p2 then sx_output_minus m else sx_output_plus m) = []).
Proof. intros tmin tcod x1 x2 dt t1 t2 p1 p2 nm ? ? ? ? ? ? HL. rewrite ln_mult in HL by lra. apply (pred_signed_multiplier_values tmin tcod x1 x2 dt t1 t2 p1 p2 nm); auto. lra. Qed.
Print Assumptions C58_signed_multiplier_values.
(** an operand 0: "output_plus says 0, output_minus is silent" is false.
    Equal signs: four spikes on output_plus.  Opposite signs: both outputs spike, output_plus decoding to (2 - Tmin)/Tcod *)
Theorem C58_signed_zero_refuted : forall (tmin tcod x1 x2 dt t1 t2 : R) (p1 p2 : bool) nm,
  dt_ok dt -> 0 < tcod -> 2 < tmin -> tcod + 2 * dt <= 500 -> 0 <= t1 -> 0 <= t2 -> 0 <= x1 < 1 -> 0 <= x2 < 1 -> x1 * x2 = 0 -> (0 < x1 -> 20 * - ln x1 + 2 * dt <= 500) ->
  pruns (SignedMultiplierNetwork (DataEncoder tmin tcod) nm) sx_mod (DataEncoder tmin tcod) dt
    (fun m => let i1 := if p1 then sx_input1_plus m else sx_input1_minus m in let i2 := if p2 then sx_input2_plus m else sx_input2_minus m in
              [SSpike i1 t1; SSpike i1 (t1 + (tmin + x1 * tcod)); SSpike i2 t2; SSpike i2 (t2 + (tmin + x2 * tcod))])
    (fun m s => exists t, pspike_log s (sx_output_plus m) = (if Bool.eqb p1 p2 then [t; t + 2; t + tmin; t + tmin + 2] else [t + tmin; t + tmin + 2]) /\
                          pspike_log s (sx_output_minus m) = (if Bool.eqb p1 p2 then [] else [t + 2; t + tmin + 2])).
Proof. exact pred_signed_multiplier_zero. Qed.
Print Assumptions C58_signed_zero_refuted.

(** examples: the default encoder, dt = 1/1000 *)
Local Notation ms := (/ 1000).
Lemma dt_ms : dt_ok ms. Proof. unfold dt_ok; lra. Qed.
Lemma ln_ge_m (x : R) (k : nat) : 0 < x -> / 2 ^ k <= x -> - INR k <= ln x.
Proof.
  intros Hx H. assert (- (INR k * ln 2) <= ln x).
  { rewrite <- ln_pow by lra. rewrite <- ln_Rinv by (apply pow_lt; lra). assert (0 < / 2 ^ k) by (apply Rinv_0_lt_compat, pow_lt; lra). destruct (Rle_lt_or_eq_dec _ _ H) as [L|L]; [left; apply ln_increasing; auto|rewrite L; right; auto]. }
  assert (ln 2 <= 1). { rewrite <- (ln_exp 1). pose proof (exp_ineq1_le 1). destruct (Req_dec 2 (exp 1)) as [E|E]; [rewrite E; right; auto|left; apply ln_increasing; lra]. }
  assert (INR k * ln 2 <= INR k * 1) by (apply Rmult_le_compat_l; [apply pos_INR|auto]). lra.
Qed.
Example C58_multiplier_ex : pruns (MultiplierNetwork (DataEncoder 10 100) None) mu_mod (DataEncoder 10 100) ms
  (fun m => [SValue (1/4) (mu_input1 m) 0; SValue (2/5) (mu_input2 m) 0]) (fun m s => pemits s (mu_output m) (DataEncoder 10 100) (1/4 * (2/5)) (/ 100000)).
Proof.
  pose proof (ln_ge_m (1/4 * (2/5)) 4 ltac:(lra) ltac:(cbn; lra)) as L. cbn in L.
  destruct (C58_multiplier_values 10 100 (1/4) (2/5) ms 0 0 None dt_ms) as [N HN]; try lra.
  exists N. intros fuel Hf. destruct (HN fuel Hf) as (m & s & E & a & b & y & H1 & H2 & H3 & H4). exists m, s. split; auto. exists a, b, y. repeat (split; auto).
  eapply Rle_trans; [exact H4|]. apply Rmax_lub; lra.
Qed.
Example C58_multiplier_spikes_ex : pruns (MultiplierNetwork (DataEncoder 10 100) None) mu_mod (DataEncoder 10 100) ms
  (fun m => [SSpike (mu_input1 m) 7; SSpike (mu_input1 m) (7 + (10 + 1/4 * 100)); SSpike (mu_input2 m) 90; SSpike (mu_input2 m) (90 + (10 + 2/5 * 100))])
  (fun m s => pemits s (mu_output m) (DataEncoder 10 100) (1/4 * (2/5)) (Rmax (ms / 100) (1/4 * (2/5) * (ms / 10)))).
Proof. pose proof (ln_ge_m (1/4 * (2/5)) 4 ltac:(lra) ltac:(cbn; lra)) as L. cbn in L. apply (C58_multiplier 10 100 (1/4) (2/5) ms 7 90 None dt_ms); lra. Qed.
Example C58_zero_ex : pruns (MultiplierNetwork (DataEncoder 10 100) None) mu_mod (DataEncoder 10 100) ms
  (fun m => [SValue (1/4) (mu_input1 m) 0; SValue 0 (mu_input2 m) 0]) (fun m s => pemits s (mu_output m) (DataEncoder 10 100) 0 0).
Proof. pose proof (ln_ge_m (1/4) 2 ltac:(lra) ltac:(cbn; lra)) as L. cbn in L. apply (C58_zero_values 10 100 (1/4) 0 ms 0 0 None dt_ms); lra. Qed.
(** 0.25 * 1 comes out as 1 *)
Example C58_second_one_ex : pruns (MultiplierNetwork (DataEncoder 10 100) None) mu_mod (DataEncoder 10 100) ms
  (fun m => [SSpike (mu_input1 m) 0; SSpike (mu_input1 m) (0 + (10 + 1/4 * 100)); SSpike (mu_input2 m) 0; SSpike (mu_input2 m) (0 + (10 + 1 * 100))])
  (fun m s => pemits s (mu_output m) (DataEncoder 10 100) 1 (ms / 100)).
Proof. pose proof (ln_ge_m (1/4) 2 ltac:(lra) ltac:(cbn; lra)) as L. cbn in L. apply (C58_second_factor_one_refuted 10 100 (1/4) ms 0 0 None dt_ms); lra. Qed.
Example C58_first_one_ex : pruns (MultiplierNetwork (DataEncoder 10 100) None) mu_mod (DataEncoder 10 100) ms
  (fun m => [SSpike (mu_input1 m) 0; SSpike (mu_input1 m) (0 + (10 + 1 * 100)); SSpike (mu_input2 m) 0; SSpike (mu_input2 m) (0 + (10 + 1/4 * 100))])
  (fun m s => pemits s (mu_output m) (DataEncoder 10 100) (1/4 * exp (/ 20)) (Rmax (ms / 100) (1/4 * exp (/ 20) * (ms / 20)))).
Proof. pose proof (ln_ge_m (1/4) 2 ltac:(lra) ltac:(cbn; lra)) as L. cbn in L. apply (C58_first_factor_one_refuted 10 100 (1/4) ms 0 None dt_ms); lra. Qed.
(** -0.25 * 0.4 *)
Example C58_signed_ex : pruns (SignedMultiplierNetwork (DataEncoder 10 100) None) sx_mod (DataEncoder 10 100) ms
  (fun m => [SValue (1/4) (sx_input1_minus m) 0; SValue (2/5) (sx_input2_plus m) 0])
  (fun m s => pemits s (sx_output_minus m) (DataEncoder 10 100) (1/4 * (2/5)) (Rmax (ms / 100) (1/4 * (2/5) * (ms / 10))) /\ pspike_log s (sx_output_plus m) = []).
Proof. pose proof (ln_ge_m (1/4 * (2/5)) 4 ltac:(lra) ltac:(cbn; lra)) as L. cbn in L. apply (C58_signed_multiplier_values 10 100 (1/4) (2/5) ms 0 0 false true None dt_ms); lra. Qed.
Example C58_signed_spikes_ex : pruns (SignedMultiplierNetwork (DataEncoder 10 100) None) sx_mod (DataEncoder 10 100) ms
  (fun m => [SSpike (sx_input1_minus m) 5; SSpike (sx_input1_minus m) (5 + (10 + 1/4 * 100)); SSpike (sx_input2_minus m) 60; SSpike (sx_input2_minus m) (60 + (10 + 2/5 * 100))])
  (fun m s => pemits s (sx_output_plus m) (DataEncoder 10 100) (1/4 * (2/5)) (Rmax (ms / 100) (1/4 * (2/5) * (ms / 10))) /\ pspike_log s (sx_output_minus m) = []).
Proof. pose proof (ln_ge_m (1/4 * (2/5)) 4 ltac:(lra) ltac:(cbn; lra)) as L. cbn in L. apply (C58_signed_multiplier 10 100 (1/4) (2/5) ms 5 60 false false None dt_ms); lra. Qed.
Example C58_signed_zero_ex : pruns (SignedMultiplierNetwork (DataEncoder 10 100) None) sx_mod (DataEncoder 10 100) ms
  (fun m => [SSpike (sx_input1_minus m) 5; SSpike (sx_input1_minus m) (5 + (10 + 0 * 100)); SSpike (sx_input2_plus m) 60; SSpike (sx_input2_plus m) (60 + (10 + 2/5 * 100))])
  (fun m s => exists t, pspike_log s (sx_output_plus m) = [t + 10; t + 10 + 2] /\ pspike_log s (sx_output_minus m) = [t + 2; t + 10 + 2]).
Proof. apply (C58_signed_zero_refuted 10 100 0 (2/5) ms 5 60 false true None dt_ms); lra. Qed.
