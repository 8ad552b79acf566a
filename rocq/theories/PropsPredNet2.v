(** Arithmetic networks on PredSimulator: C55. *)
From Coq Require Import Arith ZArith Bool List Reals Lra Lia.
From Verif Require Import Num NumOrd Elements Networks PredSim Session PredNet PredMem PredSub PredSimple.
Import ListNotations.
Open Scope list_scope.
Open Scope R_scope.

(** [pruns], [pemits], [dt_ok]: see PropsPredNet.v.  An error bound 0 means that the decoded value is exact. *)
Theorem C55_constant : forall (tmin tcod v dt t : R) nm, dt_ok dt -> 0 < tcod -> 0 < tmin + v * tcod -> 0 <= t ->
  pruns (ConstantNetwork (DataEncoder tmin tcod) v nm) k_mod (DataEncoder tmin tcod) dt (fun k => [SSpike (k_recall k) t])
    (fun k s => pemits s (k_output k) (DataEncoder tmin tcod) v 0).
Proof. exact pred_constant. Qed.
Print Assumptions C55_constant.
Theorem C55_signed_constant : forall (tmin tcod v dt t : R) nm, dt_ok dt -> 0 < tcod -> 0 < tmin + Rabs v * tcod -> 0 <= t ->
  pruns (SignedConstantNetwork (DataEncoder tmin tcod) v nm) sk_mod (DataEncoder tmin tcod) dt (fun k => [SSpike (sk_recall k) t])
    (fun k s => let out := if Rle_dec 0 v then sk_output_plus k else sk_output_minus k in
                let other := if Rle_dec 0 v then sk_output_minus k else sk_output_plus k in
                pemits s out (DataEncoder tmin tcod) (Rabs v) 0 /\ pspike_log s other = []).
Proof. exact pred_signed_constant. Qed.
Print Assumptions C55_signed_constant.
Theorem C55_sign_flip : forall (tmin tcod x dt t0 : R) nm (plus : bool), dt_ok dt -> 0 < tcod -> 0 < tmin -> 0 <= x <= 1 ->
  pruns (SignFlipperNetwork (DataEncoder tmin tcod) nm) sf_mod (DataEncoder tmin tcod) dt (fun f => [SValue x (if plus then sf_inp_plus f else sf_inp_minus f) t0])
    (fun f s => pemits s (if plus then sf_outp_minus f else sf_outp_plus f) (DataEncoder tmin tcod) x 0 /\
                pspike_log s (if plus then sf_outp_plus f else sf_outp_minus f) = []).
Proof. exact pred_sign_flip. Qed.
Print Assumptions C55_sign_flip.
Theorem C55_subtractor : forall (tmin tcod x1 x2 dt t1 t2 : R) nm, dt_ok dt -> 0 < tcod -> 0 < tmin -> 0 <= x1 <= 1 -> 0 <= x2 <= 1 ->
  x2 <= x1 \/ / 100 <= (x2 - x1) * tcod ->
  pruns (SubtractorNetwork (DataEncoder tmin tcod) nm) sb_mod (DataEncoder tmin tcod) dt (fun m => [SValue x1 (sb_input1 m) t1; SValue x2 (sb_input2 m) t2])
      (fun m s => let out := if Rle_dec x2 x1 then sb_output_plus m else sb_output_minus m in
                  let other := if Rle_dec x2 x1 then sb_output_minus m else sb_output_plus m in
                  pemits s out (DataEncoder tmin tcod) (Rabs (x1 - x2)) 0 /\ pspike_log s other = []).
Proof. exact pred_subtractor. Qed.
Print Assumptions C55_subtractor.
(** exactly the remaining differences, those less than 1/100 ms below zero, give no output *)
Theorem C55_small_negative_refuted : forall (tmin tcod x1 x2 dt t1 t2 : R) nm, dt_ok dt -> 0 < tcod -> 0 < tmin -> 0 <= x1 <= 1 -> 0 <= x2 <= 1 ->
  0 < (x2 - x1) * tcod < / 100 ->
  pruns (SubtractorNetwork (DataEncoder tmin tcod) nm) sb_mod (DataEncoder tmin tcod) dt (fun m => [SValue x1 (sb_input1 m) t1; SValue x2 (sb_input2 m) t2])
      (fun m s => pspike_log s (sb_output_plus m) = [] /\ pspike_log s (sb_output_minus m) = []).
Proof. exact pred_subtractor_lost. Qed.
Print Assumptions C55_small_negative_refuted.
Theorem C55_scalar_multiplier : forall (tmin tcod f x dt t0 : R) nm, dt_ok dt -> 0 < tcod -> 1 < tmin -> 0 < f -> 0 <= x <= 1 -> f * x <= 1 -> 0 < x \/ 1 <= f ->
  (tmin + tcod) / f + 2 * dt <= 500 -> tcod + 2 * dt <= 500 ->
  pruns (ScalarMultiplierNetwork f (DataEncoder tmin tcod) nm) sc_mod (DataEncoder tmin tcod) dt (fun m => [SValue x (sc_input m) t0])
    (fun m s => pemits s (sc_output m) (DataEncoder tmin tcod) (f * x) (Rmax 1 f * dt / tcod)).
Proof. exact pred_scalar_multiplier. Qed.
Print Assumptions C55_scalar_multiplier.
(** 0 times a factor below 1: the second accumulator reaches its threshold at the instant the first one stops it, fires,
    and is charged again: a third spike follows, (Tmin + Tcod)/(1 - f) later *)
Theorem C55_scalar_zero_refuted : forall (tmin tcod f dt t0 : R) nm, dt_ok dt -> 0 < tcod -> 1 < tmin -> 0 < f < 1 ->
  (tmin + tcod) / f + 2 * dt <= 500 -> (tmin + tcod) / (1 - f) + 2 * dt <= 500 ->
  pruns (ScalarMultiplierNetwork f (DataEncoder tmin tcod) nm) sc_mod (DataEncoder tmin tcod) dt (fun m => [SValue 0 (sc_input m) t0])
    (fun m s => exists t k, pspike_log s (sc_output m) = [t; t + tmin; t + tmin + k] /\ (tmin + tcod) / (1 - f) <= k < (tmin + tcod) / (1 - f) + dt).
Proof. exact pred_scalar_zero_extra. Qed.
Print Assumptions C55_scalar_zero_refuted.
(** small factors need a ramp beyond the 500 ms horizon: nothing comes out *)
Theorem C55_small_factor_refuted : forall (tmin tcod f x dt t0 : R) nm, dt_ok dt -> 0 < tcod -> 1 < tmin -> 0 < f -> 0 <= x <= 1 -> f * x <= 1 ->
  500 <= (tmin + tcod) / f ->
  pruns (ScalarMultiplierNetwork f (DataEncoder tmin tcod) nm) sc_mod (DataEncoder tmin tcod) dt (fun m => [SValue x (sc_input m) t0])
    (fun m s => pspike_log s (sc_output m) = []).
Proof. exact pred_scalar_lost. Qed.
Print Assumptions C55_small_factor_refuted.

(** instances *)
Example C55_constant_ex : pruns (ConstantNetwork (DataEncoder 10 100) (3/10) None) k_mod (DataEncoder 10 100) (/ 100) (fun k => [SSpike (k_recall k) 5])
  (fun k s => pemits s (k_output k) (DataEncoder 10 100) (3/10) 0).
Proof. apply C55_constant; unfold dt_ok; lra. Qed.
Example C55_signed_constant_ex : pruns (SignedConstantNetwork (DataEncoder 10 100) (-3/4) None) sk_mod (DataEncoder 10 100) (/ 100) (fun k => [SSpike (sk_recall k) 5])
  (fun k s => pemits s (sk_output_minus k) (DataEncoder 10 100) (3/4) 0 /\ pspike_log s (sk_output_plus k) = []).
Proof.
  pose proof (C55_signed_constant 10 100 (-3/4) (/ 100) 5 None) as H. cbv zeta in H. destruct (Rle_dec 0 (-3/4)); [lra|].
  rewrite (Rabs_left (-3/4)) in H by lra. replace (- (-3/4)) with (3/4) in H by lra. apply H; unfold dt_ok; lra.
Qed.
Example C55_sign_flip_ex : pruns (SignFlipperNetwork (DataEncoder 10 100) None) sf_mod (DataEncoder 10 100) (/ 100) (fun f => [SValue (1/3) (sf_inp_minus f) 5])
  (fun f s => pemits s (sf_outp_plus f) (DataEncoder 10 100) (1/3) 0 /\ pspike_log s (sf_outp_minus f) = []).
Proof. apply (C55_sign_flip 10 100 (1/3) (/ 100) 5 None false); unfold dt_ok; lra. Qed.
Example C55_subtractor_ex : pruns (SubtractorNetwork (DataEncoder 10 100) None) sb_mod (DataEncoder 10 100) 7
  (fun m => [SValue (1/4) (sb_input1 m) 0; SValue (3/4) (sb_input2 m) 0])
  (fun m s => pemits s (sb_output_minus m) (DataEncoder 10 100) (1/2) 0 /\ pspike_log s (sb_output_plus m) = []).
Proof.
  pose proof (C55_subtractor 10 100 (1/4) (3/4) 7 0 0 None) as H. cbv zeta in H. destruct (Rle_dec (3/4) (1/4)); [lra|].
  rewrite (Rabs_left (1/4 - 3/4)) in H by lra. replace (- (1/4 - 3/4)) with (1/2) in H by lra. apply H; unfold dt_ok; lra.
Qed.
Example C55_small_negative_ex : pruns (SubtractorNetwork (DataEncoder 10 100) None) sb_mod (DataEncoder 10 100) (/ 1000)
  (fun m => [SValue (1/2) (sb_input1 m) 0; SValue (1/2 + /20000) (sb_input2 m) 0])
  (fun m s => pspike_log s (sb_output_plus m) = [] /\ pspike_log s (sb_output_minus m) = []).
Proof. apply C55_small_negative_refuted; unfold dt_ok; lra. Qed.
Example C55_scalar_ex : pruns (ScalarMultiplierNetwork 3 (DataEncoder 10 100) None) sc_mod (DataEncoder 10 100) (/ 100) (fun m => [SValue (1/4) (sc_input m) 0])
  (fun m s => pemits s (sc_output m) (DataEncoder 10 100) (3 * (1/4)) (Rmax 1 3 * / 100 / 100)).
Proof. apply C55_scalar_multiplier; unfold dt_ok; lra. Qed.
Example C55_scalar_zero_ex : pruns (ScalarMultiplierNetwork (1/2) (DataEncoder 10 100) None) sc_mod (DataEncoder 10 100) (/ 100) (fun m => [SValue 0 (sc_input m) 0])
  (fun m s => exists t k, pspike_log s (sc_output m) = [t; t + 10; t + 10 + k] /\ (10 + 100) / (1 - 1/2) <= k < (10 + 100) / (1 - 1/2) + / 100).
Proof. apply C55_scalar_zero_refuted; unfold dt_ok; lra. Qed.
Example C55_small_factor_ex : pruns (ScalarMultiplierNetwork (1/5) (DataEncoder 10 100) None) sc_mod (DataEncoder 10 100) (/ 100) (fun m => [SValue (1/2) (sc_input m) 0])
  (fun m s => pspike_log s (sc_output m) = []).
Proof. apply C55_small_factor_refuted; unfold dt_ok; lra. Qed.
