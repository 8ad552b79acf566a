(** DivNetwork, SignedMemoryNetwork and SignedMultiplierNormNetwork on PredSimulator: C59. *)
From Coq Require Import Arith ZArith Bool List Reals Lra Lia.
From Verif Require Import Num NumOrd Elements Networks PredSim Trace SimTrace Session PredNet PredMem PredMul PredMul2 PredDiv PredSMem PredSNorm PropsPredNet4.
Import ListNotations.
Open Scope list_scope.
Open Scope R_scope.

(** [pruns], [pemits], [dt_ok]: see PropsPredNet.v. *)
(** the quotient of two operands below 1, the first not larger, each given as a pair of spikes at its own time *)
Theorem C59_divider : forall (tmin tcod x1 x2 dt t1 t2 : R) nm,
  dt_ok dt -> 0 < tcod -> 1 < tmin -> tcod + 2 * dt <= 500 -> 0 <= t1 -> 0 <= t2 -> dt < 20 -> 0 < x1 <= x2 -> x2 < 1 -> 20 * - ln x1 + 2 * dt <= 500 ->
  pruns (DivNetwork (DataEncoder tmin tcod) nm) dv_mod (DataEncoder tmin tcod) dt
    (fun m => [SSpike (dv_input1 m) t1; SSpike (dv_input1 m) (t1 + (tmin + x1 * tcod)); SSpike (dv_input2 m) t2; SSpike (dv_input2 m) (t2 + (tmin + x2 * tcod))])
    (fun m s => pemits s (dv_output m) (DataEncoder tmin tcod) (x1 / x2) (dt / tcod + x1 / x2 * (dt / (20 - dt)))).
Proof. intros tmin tcod x1 x2 dt t1 t2 nm HD Htc Htm H5 T1 T2 H20 P1 P2 HL. apply (div_pos_gen tmin tcod dt x1 x2 t1 t2); auto. divstims. Qed.
Print Assumptions C59_divider.
(** given as values, which PredSimulator starts at time 0 *)
Theorem C59_divider_values : forall (tmin tcod x1 x2 dt t1 t2 : R) nm,
  dt_ok dt -> 0 < tcod -> 1 < tmin -> tcod + 2 * dt <= 500 -> dt < 20 -> 0 < x1 <= x2 -> x2 < 1 -> 20 * - ln x1 + 2 * dt <= 500 ->
  pruns (DivNetwork (DataEncoder tmin tcod) nm) dv_mod (DataEncoder tmin tcod) dt (fun m => [SValue x1 (dv_input1 m) t1; SValue x2 (dv_input2 m) t2])
    (fun m s => pemits s (dv_output m) (DataEncoder tmin tcod) (x1 / x2) (dt / tcod + x1 / x2 * (dt / (20 - dt)))).
Proof. intros tmin tcod x1 x2 dt t1 t2 nm HD Htc Htm H5 H20 P1 P2 HL. apply (div_pos_gen tmin tcod dt x1 x2 0 0); auto; try lra. divstims. Qed.
Print Assumptions C59_divider_values.
(** a quotient above 1 cannot be encoded: the output stays silent *)
Theorem C59_larger_silent : forall (tmin tcod x1 x2 dt t1 t2 : R) nm,
  dt_ok dt -> 0 < tcod -> 1 < tmin -> tcod + 2 * dt <= 500 -> 0 <= t1 -> 0 <= t2 -> dt < 20 -> 0 < x2 <= (1 - dt / 20) * x1 -> x1 < 1 -> 20 * - ln x2 + 2 * dt <= 500 ->
  pruns (DivNetwork (DataEncoder tmin tcod) nm) dv_mod (DataEncoder tmin tcod) dt
    (fun m => [SSpike (dv_input1 m) t1; SSpike (dv_input1 m) (t1 + (tmin + x1 * tcod)); SSpike (dv_input2 m) t2; SSpike (dv_input2 m) (t2 + (tmin + x2 * tcod))])
    (fun m s => pspike_log s (dv_output m) = []).
Proof. intros tmin tcod x1 x2 dt t1 t2 nm HD Htc Htm H5 T1 T2 H20 P2 P1 HL. apply (div_larger_gen tmin tcod dt x1 x2 t1 t2); auto. divstims. Qed.
Print Assumptions C59_larger_silent.
(** false for the numerator 0 (the quotient 0 is encodable, yet nothing comes out); nothing comes out for the denominator 0 either *)
Theorem C59_zero_silent_refuted : forall (tmin tcod x1 x2 dt t1 t2 : R) nm,
  dt_ok dt -> 0 < tcod -> 1 < tmin -> tcod + 2 * dt <= 500 -> 0 <= t1 -> 0 <= t2 -> 0 <= x1 < 1 -> 0 <= x2 < 1 -> x1 * x2 = 0 ->
  (0 < x1 -> 20 * - ln x1 + 2 * dt <= 500) -> (0 < x2 -> 20 * - ln x2 + 2 * dt <= 500) ->
  pruns (DivNetwork (DataEncoder tmin tcod) nm) dv_mod (DataEncoder tmin tcod) dt
    (fun m => [SSpike (dv_input1 m) t1; SSpike (dv_input1 m) (t1 + (tmin + x1 * tcod)); SSpike (dv_input2 m) t2; SSpike (dv_input2 m) (t2 + (tmin + x2 * tcod))])
    (fun m s => pspike_log s (dv_output m) = []).
Proof. intros tmin tcod x1 x2 dt t1 t2 nm HD Htc Htm H5 T1 T2 P1 P2 P L1 L2. apply (div_zero_gen tmin tcod dt x1 x2 t1 t2); auto. divstims. Qed.
Print Assumptions C59_zero_silent_refuted.
(** false for the denominator 1, the operands starting together: x1 / 1 comes out as x1 * exp (-1/20), 5 % too small whatever the time step *)
Theorem C59_by_one_refuted : forall (tmin tcod x1 dt t : R) nm,
  dt_ok dt -> 0 < tcod -> 1 < tmin -> tcod + 2 * dt <= 500 -> 0 <= t -> dt < 20 -> 0 < x1 < 1 -> 20 * - ln x1 + 2 * dt <= 500 ->
  pruns (DivNetwork (DataEncoder tmin tcod) nm) dv_mod (DataEncoder tmin tcod) dt
    (fun m => [SSpike (dv_input1 m) t; SSpike (dv_input1 m) (t + (tmin + x1 * tcod)); SSpike (dv_input2 m) t; SSpike (dv_input2 m) (t + (tmin + 1 * tcod))])
    (fun m s => pemits s (dv_output m) (DataEncoder tmin tcod) (x1 * exp (- (1 / 20))) (dt / tcod + x1 * exp (- (1 / 20)) * (dt / (20 - dt)))).
Proof. intros tmin tcod x1 dt t nm HD Htc Htm H5 T H20 P1 HL. apply (div_one_gen tmin tcod dt x1 1 t t); auto. divstims. Qed.
Print Assumptions C59_by_one_refuted.

(** the signed memory gives back the value on the output of its sign, 4 ms after the recall; the other output stays silent *)
Theorem C59_signed_memory : forall (tmin tcod x dt t tr : R) (p : bool) nm,
  dt_ok dt -> 0 < tcod -> 1 < tmin -> dt < tmin -> tmin + tcod + 2 * dt <= 500 -> 0 <= x <= 1 -> 0 <= t -> t + tmin + tcod + dt + 2 <= tr ->
  pruns (SignedMemoryNetwork (DataEncoder tmin tcod) nm) sm_mod (DataEncoder tmin tcod) dt
    (fun m => let i := if p then sm_input_pos m else sm_input_neg m in [SSpike i t; SSpike i (t + (tmin + x * tcod)); SSpike (sm_recall m) tr])
    (fun m s => pemits s (if p then sm_output_pos m else sm_output_neg m) (DataEncoder tmin tcod) x (dt / tcod) /\
                pspike_log s (if p then sm_output_neg m else sm_output_pos m) = [] /\
                exists t', pspike_log s (if p then sm_output_pos m else sm_output_neg m) = [tr + 4; t']).
Proof. intros tmin tcod x dt t tr p nm HD Htc Htm Htd H5 Hx T Tr. apply (smem_gen tmin tcod dt x t tr p); auto. smemstims. Qed.
Print Assumptions C59_signed_memory.
Theorem C59_signed_memory_value : forall (tmin tcod x dt t tr : R) (p : bool) nm,
  dt_ok dt -> 0 < tcod -> 1 < tmin -> dt < tmin -> tmin + tcod + 2 * dt <= 500 -> 0 <= x <= 1 -> tmin + tcod + dt + 2 <= tr ->
  pruns (SignedMemoryNetwork (DataEncoder tmin tcod) nm) sm_mod (DataEncoder tmin tcod) dt
    (fun m => [SValue x (if p then sm_input_pos m else sm_input_neg m) t; SSpike (sm_recall m) tr])
    (fun m s => pemits s (if p then sm_output_pos m else sm_output_neg m) (DataEncoder tmin tcod) x (dt / tcod) /\
                pspike_log s (if p then sm_output_neg m else sm_output_pos m) = [] /\
                exists t', pspike_log s (if p then sm_output_pos m else sm_output_neg m) = [tr + 4; t']).
Proof. intros tmin tcod x dt t tr p nm HD Htc Htm Htd H5 Hx Tr. apply (smem_gen tmin tcod dt x 0 tr p); auto; try lra. smemstims. Qed.
Print Assumptions C59_signed_memory_value.

(** the normalised signed product: factor * (x1 * x2) on the output of its sign, the other one silent *)
Theorem C59_signed_norm : forall (tmin tcod factor x1 x2 dt t1 t2 : R) (p1 p2 : bool) nm,
  dt_ok dt -> 0 < tcod -> 1 < tmin -> tcod + 2 * dt <= 500 -> 0 < factor -> (tmin + tcod) / factor + 2 * dt <= 500 -> 0 <= t1 -> 0 <= t2 ->
  0 < x1 < 1 -> 0 < x2 < 1 -> 20 * - ln (x1 * x2) + 2 * dt <= 343 -> factor * (x1 * x2 + dt / tcod) <= 1 ->
  pruns (SignedMultiplierNormNetwork (DataEncoder tmin tcod) factor nm) sn_mod (DataEncoder tmin tcod) dt
    (fun m => let i1 := if p1 then sn_input1_plus m else sn_input1_minus m in let i2 := if p2 then sn_input2_plus m else sn_input2_minus m in
              [SSpike i1 t1; SSpike i1 (t1 + (tmin + x1 * tcod)); SSpike i2 t2; SSpike i2 (t2 + (tmin + x2 * tcod))])
    (fun m s => pemits s (if Bool.eqb p1 p2 then sn_output_plus m else sn_output_minus m) (DataEncoder tmin tcod) (factor * (x1 * x2))
                  (factor * Rmax (dt / tcod) (x1 * x2 * (dt / 10)) + Rmax 1 factor * (dt / tcod)) /\
                pspike_log s (if Bool.eqb p1 p2 then sn_output_minus m else sn_output_plus m) = []).
Proof.
  intros tmin tcod f x1 x2 dt t1 t2 p1 p2 nm HD Htc Htm H5 Hf H5f T1 T2 X1 X2 HL HP. rewrite ln_mult in HL by lra.
  apply (snorm_pos_gen tmin tcod f dt x1 x2 t1 t2 p1 p2); auto; try lra. snormstims.
Qed.
Print Assumptions C59_signed_norm.
Theorem C59_signed_norm_values : forall (tmin tcod factor x1 x2 dt t1 t2 : R) (p1 p2 : bool) nm,
  dt_ok dt -> 0 < tcod -> 1 < tmin -> tcod + 2 * dt <= 500 -> 0 < factor -> (tmin + tcod) / factor + 2 * dt <= 500 ->
  0 < x1 < 1 -> 0 < x2 < 1 -> 20 * - ln (x1 * x2) + 2 * dt <= 343 -> factor * (x1 * x2 + dt / tcod) <= 1 ->
  pruns (SignedMultiplierNormNetwork (DataEncoder tmin tcod) factor nm) sn_mod (DataEncoder tmin tcod) dt
    (fun m => [SValue x1 (if p1 then sn_input1_plus m else sn_input1_minus m) t1; SValue x2 (if p2 then sn_input2_plus m else sn_input2_minus m) t2])
    (fun m s => pemits s (if Bool.eqb p1 p2 then sn_output_plus m else sn_output_minus m) (DataEncoder tmin tcod) (factor * (x1 * x2))
                  (factor * Rmax (dt / tcod) (x1 * x2 * (dt / 10)) + Rmax 1 factor * (dt / tcod)) /\
                pspike_log s (if Bool.eqb p1 p2 then sn_output_minus m else sn_output_plus m) = []).
Proof.
  intros tmin tcod f x1 x2 dt t1 t2 p1 p2 nm HD Htc Htm H5 Hf H5f X1 X2 HL HP. rewrite ln_mult in HL by lra.
  apply (snorm_pos_gen tmin tcod f dt x1 x2 0 0 p1 p2); auto; try lra. snormstims.
Qed.
Print Assumptions C59_signed_norm_values.
(** an operand 0 and a factor of at least 1: exactly 0 *)
Theorem C59_signed_norm_zero : forall (tmin tcod factor x1 x2 dt t1 t2 : R) (p1 p2 : bool) nm,
  dt_ok dt -> 0 < tcod -> 1 < tmin -> tcod + 2 * dt <= 500 -> 1 <= factor -> (tmin + tcod) / factor + 2 * dt <= 500 -> 0 <= t1 -> 0 <= t2 ->
  0 <= x1 < 1 -> 0 <= x2 < 1 -> x1 * x2 = 0 -> (0 < x1 -> 20 * - ln x1 + 2 * dt <= 500) ->
  pruns (SignedMultiplierNormNetwork (DataEncoder tmin tcod) factor nm) sn_mod (DataEncoder tmin tcod) dt
    (fun m => let i1 := if p1 then sn_input1_plus m else sn_input1_minus m in let i2 := if p2 then sn_input2_plus m else sn_input2_minus m in
              [SSpike i1 t1; SSpike i1 (t1 + (tmin + x1 * tcod)); SSpike i2 t2; SSpike i2 (t2 + (tmin + x2 * tcod))])
    (fun m s => pemits s (if Bool.eqb p1 p2 then sn_output_plus m else sn_output_minus m) (DataEncoder tmin tcod) 0 0 /\
                pspike_log s (if Bool.eqb p1 p2 then sn_output_minus m else sn_output_plus m) = []).
Proof.
  intros tmin tcod f x1 x2 dt t1 t2 p1 p2 nm HD Htc Htm H5 Hf H5f T1 T2 X1 X2 P HL.
  apply (snorm_nul_gen tmin tcod f dt x1 x2 t1 t2 p1 p2); auto; try lra. snormstims.
Qed.
Print Assumptions C59_signed_norm_zero.
(** false for a factor below 1: a third spike follows, and it comes out of the other sign's output as well *)
Theorem C59_signed_norm_zero_refuted : forall (tmin tcod factor x1 x2 dt t1 t2 : R) (p1 p2 : bool) nm,
  dt_ok dt -> 0 < tcod -> 1 < tmin -> tcod + 2 * dt <= 500 -> 0 < factor < 1 -> (tmin + tcod) / factor + 2 * dt <= 500 -> (tmin + tcod) / (1 - factor) + 2 * dt <= 500 -> 0 <= t1 -> 0 <= t2 ->
  0 <= x1 < 1 -> 0 <= x2 < 1 -> x1 * x2 = 0 -> (0 < x1 -> 20 * - ln x1 + 2 * dt <= 500) ->
  pruns (SignedMultiplierNormNetwork (DataEncoder tmin tcod) factor nm) sn_mod (DataEncoder tmin tcod) dt
    (fun m => let i1 := if p1 then sn_input1_plus m else sn_input1_minus m in let i2 := if p2 then sn_input2_plus m else sn_input2_minus m in
              [SSpike i1 t1; SSpike i1 (t1 + (tmin + x1 * tcod)); SSpike i2 t2; SSpike i2 (t2 + (tmin + x2 * tcod))])
    (fun m s => exists t k, (tmin + tcod) / (1 - factor) <= k < (tmin + tcod) / (1 - factor) + dt /\
                pspike_log s (if Bool.eqb p1 p2 then sn_output_plus m else sn_output_minus m) = [t; t + tmin; t + tmin + k] /\
                pspike_log s (if Bool.eqb p1 p2 then sn_output_minus m else sn_output_plus m) = [t + tmin + k]).
Proof.
  intros tmin tcod f x1 x2 dt t1 t2 p1 p2 nm HD Htc Htm H5 Hf H5f H6 T1 T2 X1 X2 P HL.
  apply (snorm_nul3_gen tmin tcod f dt x1 x2 t1 t2 p1 p2); auto; try lra. snormstims.
Qed.
Print Assumptions C59_signed_norm_zero_refuted.

(** examples: the default encoder, dt = 1/1000 *)
Local Notation ms := (/ 1000).
Example C59_divider_ex : pruns (DivNetwork (DataEncoder 10 100) None) dv_mod (DataEncoder 10 100) ms
  (fun m => [SValue (1/4) (dv_input1 m) 0; SValue (1/2) (dv_input2 m) 0]) (fun m s => pemits s (dv_output m) (DataEncoder 10 100) (1/4 / (1/2)) (4 / 100000)).
Proof.
  pose proof (ln_ge_m (1/4) 2 ltac:(lra) ltac:(cbn; lra)) as L. cbn in L.
  destruct (C59_divider_values 10 100 (1/4) (1/2) ms 0 0 None dt_ms) as [N HN]; try lra.
  exists N. intros fuel Hf. destruct (HN fuel Hf) as (m & s & E & a & b & y & H1 & H2 & H3 & H4). exists m, s. split; auto. exists a, b, y. repeat (split; auto).
  eapply Rle_trans; [exact H4|]. lra.
Qed.
Example C59_divider_spikes_ex : pruns (DivNetwork (DataEncoder 10 100) None) dv_mod (DataEncoder 10 100) ms
  (fun m => [SSpike (dv_input1 m) 7; SSpike (dv_input1 m) (7 + (10 + 1/4 * 100)); SSpike (dv_input2 m) 90; SSpike (dv_input2 m) (90 + (10 + 1/2 * 100))])
  (fun m s => pemits s (dv_output m) (DataEncoder 10 100) (1/4 / (1/2)) (ms / 100 + 1/4 / (1/2) * (ms / (20 - ms)))).
Proof. pose proof (ln_ge_m (1/4) 2 ltac:(lra) ltac:(cbn; lra)) as L. cbn in L. apply (C59_divider 10 100 (1/4) (1/2) ms 7 90 None dt_ms); lra. Qed.
Example C59_larger_ex : pruns (DivNetwork (DataEncoder 10 100) None) dv_mod (DataEncoder 10 100) ms
  (fun m => [SSpike (dv_input1 m) 7; SSpike (dv_input1 m) (7 + (10 + 1/2 * 100)); SSpike (dv_input2 m) 90; SSpike (dv_input2 m) (90 + (10 + 1/4 * 100))])
  (fun m s => pspike_log s (dv_output m) = []).
Proof. pose proof (ln_ge_m (1/4) 2 ltac:(lra) ltac:(cbn; lra)) as L. cbn in L. apply (C59_larger_silent 10 100 (1/2) (1/4) ms 7 90 None dt_ms); lra. Qed.
Example C59_zero_ex : pruns (DivNetwork (DataEncoder 10 100) None) dv_mod (DataEncoder 10 100) ms
  (fun m => [SSpike (dv_input1 m) 0; SSpike (dv_input1 m) (0 + (10 + 0 * 100)); SSpike (dv_input2 m) 0; SSpike (dv_input2 m) (0 + (10 + 1/2 * 100))])
  (fun m s => pspike_log s (dv_output m) = []).
Proof. pose proof (ln_ge_m (1/2) 1 ltac:(lra) ltac:(cbn; lra)) as L. cbn in L. apply (C59_zero_silent_refuted 10 100 0 (1/2) ms 0 0 None dt_ms); lra. Qed.
(** 0.5 / 1 comes out as 0.4756 *)
Example C59_by_one_ex : pruns (DivNetwork (DataEncoder 10 100) None) dv_mod (DataEncoder 10 100) ms
  (fun m => [SSpike (dv_input1 m) 0; SSpike (dv_input1 m) (0 + (10 + 1/2 * 100)); SSpike (dv_input2 m) 0; SSpike (dv_input2 m) (0 + (10 + 1 * 100))])
  (fun m s => pemits s (dv_output m) (DataEncoder 10 100) (1/2 * exp (- (1 / 20))) (ms / 100 + 1/2 * exp (- (1 / 20)) * (ms / (20 - ms)))).
Proof. pose proof (ln_ge_m (1/2) 1 ltac:(lra) ltac:(cbn; lra)) as L. cbn in L. apply (C59_by_one_refuted 10 100 (1/2) ms 0 None dt_ms); lra. Qed.
Example C59_memory_ex : pruns (SignedMemoryNetwork (DataEncoder 10 100) None) sm_mod (DataEncoder 10 100) ms
  (fun m => [SValue (3/10) (sm_input_neg m) 0; SSpike (sm_recall m) 200])
  (fun m s => pemits s (sm_output_neg m) (DataEncoder 10 100) (3/10) (ms / 100) /\ pspike_log s (sm_output_pos m) = [] /\ exists t', pspike_log s (sm_output_neg m) = [200 + 4; t']).
Proof. apply (C59_signed_memory_value 10 100 (3/10) ms 0 200 false None dt_ms); lra. Qed.
Example C59_memory_spikes_ex : pruns (SignedMemoryNetwork (DataEncoder 10 100) None) sm_mod (DataEncoder 10 100) ms
  (fun m => [SSpike (sm_input_pos m) 5; SSpike (sm_input_pos m) (5 + (10 + 1 * 100)); SSpike (sm_recall m) 200])
  (fun m s => pemits s (sm_output_pos m) (DataEncoder 10 100) 1 (ms / 100) /\ pspike_log s (sm_output_neg m) = [] /\ exists t', pspike_log s (sm_output_pos m) = [200 + 4; t']).
Proof. apply (C59_signed_memory 10 100 1 ms 5 200 true None dt_ms); lra. Qed.
(** 0.13 * -0.07, factor 100 *)
Example C59_norm_ex : pruns (SignedMultiplierNormNetwork (DataEncoder 10 100) 100 None) sn_mod (DataEncoder 10 100) ms
  (fun m => [SValue (13/100) (sn_input1_plus m) 0; SValue (7/100) (sn_input2_minus m) 0])
  (fun m s => pemits s (sn_output_minus m) (DataEncoder 10 100) (100 * (13/100 * (7/100))) (2 / 1000) /\ pspike_log s (sn_output_plus m) = []).
Proof.
  pose proof (ln_ge_m (13/100 * (7/100)) 7 ltac:(lra) ltac:(cbn; lra)) as L. cbn in L.
  destruct (C59_signed_norm_values 10 100 100 (13/100) (7/100) ms 0 0 true false None dt_ms) as [N HN]; try lra.
  exists N. intros fuel Hf. destruct (HN fuel Hf) as (m & s & E & (a & b & y & H1 & H2 & H3 & H4) & H5). exists m, s. split; auto. split; [|exact H5]. exists a, b, y. repeat (split; auto).
  eapply Rle_trans; [exact H4|]. rewrite (Rmax_right 1 100) by lra. assert (Rmax (ms / 100) (13 / 100 * (7 / 100) * (ms / 10)) <= / 100000) by (apply Rmax_lub; lra). lra.
Qed.
Example C59_norm_spikes_ex : pruns (SignedMultiplierNormNetwork (DataEncoder 10 100) 4 None) sn_mod (DataEncoder 10 100) ms
  (fun m => [SSpike (sn_input1_minus m) 5; SSpike (sn_input1_minus m) (5 + (10 + 1/4 * 100)); SSpike (sn_input2_minus m) 60; SSpike (sn_input2_minus m) (60 + (10 + 2/5 * 100))])
  (fun m s => pemits s (sn_output_plus m) (DataEncoder 10 100) (4 * (1/4 * (2/5))) (4 * Rmax (ms / 100) (1/4 * (2/5) * (ms / 10)) + Rmax 1 4 * (ms / 100)) /\ pspike_log s (sn_output_minus m) = []).
Proof. pose proof (ln_ge_m (1/4 * (2/5)) 4 ltac:(lra) ltac:(cbn; lra)) as L. cbn in L. apply (C59_signed_norm 10 100 4 (1/4) (2/5) ms 5 60 false false None dt_ms); lra. Qed.
Example C59_norm_zero_ex : pruns (SignedMultiplierNormNetwork (DataEncoder 10 100) 4 None) sn_mod (DataEncoder 10 100) ms
  (fun m => [SSpike (sn_input1_minus m) 5; SSpike (sn_input1_minus m) (5 + (10 + 0 * 100)); SSpike (sn_input2_plus m) 60; SSpike (sn_input2_plus m) (60 + (10 + 2/5 * 100))])
  (fun m s => pemits s (sn_output_minus m) (DataEncoder 10 100) 0 0 /\ pspike_log s (sn_output_plus m) = []).
Proof. apply (C59_signed_norm_zero 10 100 4 0 (2/5) ms 5 60 false true None dt_ms); lra. Qed.
(** factor 1/2: the third spike *)
Example C59_norm_zero_refuted_ex : pruns (SignedMultiplierNormNetwork (DataEncoder 10 100) (1/2) None) sn_mod (DataEncoder 10 100) ms
  (fun m => [SSpike (sn_input1_minus m) 5; SSpike (sn_input1_minus m) (5 + (10 + 0 * 100)); SSpike (sn_input2_plus m) 60; SSpike (sn_input2_plus m) (60 + (10 + 2/5 * 100))])
  (fun m s => exists t k, (10 + 100) / (1 - 1/2) <= k < (10 + 100) / (1 - 1/2) + ms /\ pspike_log s (sn_output_minus m) = [t; t + 10; t + 10 + k] /\ pspike_log s (sn_output_plus m) = [t + 10 + k]).
Proof. apply (C59_signed_norm_zero_refuted 10 100 (1/2) 0 (2/5) ms 5 60 false true None dt_ms); lra. Qed.
