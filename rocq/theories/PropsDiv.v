(** C50: DivNetwork divides two encoded values. *)
From Coq Require Import Arith ZArith Bool String List Reals Lra Lia Permutation.
From Verif Require Import Num Heapq Elements Simulator Networks Trace SimTrace Session SimpleNets FuncNets LnLib ExpLog Misc DivVal PropsNets.
Import ListNotations.
Open Scope R_scope.
Open Scope list_scope.
Local Notation ms := (/ 1000).

(** ** both operands on the time grid, presented at any two times *)
Theorem C50_divide : forall (tmin tcod x1 x2 dt ta tb T : R) (k1 k2 : nat) nm ord,
  0 < dt <= 1 / 2 -> 0 < tcod -> 1 + dt < tmin -> aligned dt tmin -> ord_ok ord -> 0 <= ta -> 0 <= tb ->
  0 < x1 <= x2 -> x2 < 1 -> x1 * tcod = INR k1 * dt -> x2 * tcod = INR k2 * dt ->
  Rmax ta tb + 14 + 4 * tmin + 2 * tcod + 20 * - ln x1 + 5 * dt <= T ->
  exists m s,
    session (DivNetwork (DataEncoder tmin tcod) nm) dv_mod (DataEncoder tmin tcod) dt
      (fun m => [SValue x1 (dv_input1 m) ta; SValue x2 (dv_input2 m) tb]) ord T = Ok (m, s) /\
    emits s (dv_output m) (DataEncoder tmin tcod) (x1 / x2) (dt / tcod + x1 / x2 * (dt / (20 - dt))).
Proof. exact divide_run. Qed.
Print Assumptions C50_divide.
Lemma ln4 : - ln (/ 4) <= 2.
Proof.
  rewrite ln_Rinv by lra. rewrite Ropp_involutive. replace 2 with (ln (exp 2)) by apply ln_exp.
  assert (4 < exp 2).
  { replace 2 with (1 + 1) by lra. rewrite exp_plus. pose proof (exp_ineq1 1 ltac:(lra)).
    replace 4 with (2 * 2) by lra. apply Rmult_gt_0_lt_compat; lra. }
  left. apply ln_increasing; lra.
Qed.
(** 1/4 over 1/2, the operands presented 7 apart: the answer is 1/2 to within 4/100000 *)
Example C50_divide_ex : exists m s,
  session (DivNetwork (DataEncoder 10 100) None) dv_mod (DataEncoder 10 100) ms
    (fun m => [SValue (1/4) (dv_input1 m) 3; SValue (1/2) (dv_input2 m) 10]) id_ord 400 = Ok (m, s) /\
  emits s (dv_output m) (DataEncoder 10 100) (1/2) (4 / 100000).
Proof.
  destruct (C50_divide 10 100 (1/4) (1/2) ms 3 10 400 (Z.to_nat 25000) (Z.to_nat 50000) None id_ord) as (m & s & E & t1 & t2 & y & L & Lt & Dc & Er); try lra.
  - apply aligned_ms.
  - apply id_ord_ok.
  - rewrite INR_Z by lia. lra.
  - rewrite INR_Z by lia. lra.
  - rewrite Rmax_right by lra. pose proof ln4. replace (1 / 4) with (/ 4) by lra. lra.
  - exists m, s. split; [exact E|]. exists t1, t2, y. repeat apply conj; auto.
    replace (1 / 2) with (1 / 4 / (1 / 2)) at 1 by lra. eapply Rle_trans; [exact Er|].
    replace (ms / (20 - ms)) with (/ 19999) by lra. lra.
Qed.

(** ** any operands, presented together *)
Theorem C50_divide_any : forall (tmin tcod x1 x2 dt t0 T : R) nm ord,
  0 < dt <= 1 / 2 -> 0 < tcod -> 1 + dt < tmin -> aligned dt tmin -> ord_ok ord -> 0 <= t0 ->
  x1 <= x2 -> 2 * dt <= x1 * tcod -> x2 * tcod + dt <= tcod ->
  t0 + 14 + 4 * tmin + 2 * tcod + 20 * - ln (x1 / 2) + 5 * dt <= T ->
  exists m s,
    session (DivNetwork (DataEncoder tmin tcod) nm) dv_mod (DataEncoder tmin tcod) dt
      (fun m => [SValue x1 (dv_input1 m) t0; SValue x2 (dv_input2 m) t0]) ord T = Ok (m, s) /\
    emits s (dv_output m) (DataEncoder tmin tcod) (x1 / x2) (dt / tcod + dt / (20 - dt) + 4 * dt / (x2 * tcod)).
Proof. exact divide_any_run. Qed.
Print Assumptions C50_divide_any.
(** sqrt 2 / 4 over sqrt 3 / 2, neither on the grid of the simulator *)
Example C50_divide_any_ex : exists m s,
  session (DivNetwork (DataEncoder 10 100) None) dv_mod (DataEncoder 10 100) ms
    (fun m => [SValue (sqrt 2 / 4) (dv_input1 m) 0; SValue (sqrt 3 / 2) (dv_input2 m) 0]) id_ord 400 = Ok (m, s) /\
  emits s (dv_output m) (DataEncoder 10 100) (sqrt 2 / 4 / (sqrt 3 / 2)) (2 / 10000).
Proof.
  assert (S2 : 1 < sqrt 2 < 2) by (split; [rewrite <- sqrt_1 at 1|replace 2 with (sqrt 4) at 2 by (replace 4 with (2 * 2) by lra; apply sqrt_square; lra)]; apply sqrt_lt_1; lra).
  assert (S3 : 1 < sqrt 3 < 7 / 4) by (split; [rewrite <- sqrt_1 at 1|replace (7 / 4) with (sqrt (7 / 4 * (7 / 4))) by (apply sqrt_square; lra)]; apply sqrt_lt_1; lra).
  assert (S23 : sqrt 2 < sqrt 3) by (apply sqrt_lt_1; lra).
  destruct (C50_divide_any 10 100 (sqrt 2 / 4) (sqrt 3 / 2) ms 0 400 None id_ord) as (m & s & E & t1 & t2 & y & L & Lt & Dc & Er); try lra.
  - apply aligned_ms.
  - apply id_ord_ok.
  - assert (- ln (sqrt 2 / 4 / 2) <= - ln (/ 4) + - ln (/ 2)).
    { rewrite <- (Rplus_comm (- ln (/ 2))). enough (ln (/ 4) + ln (/ 2) <= ln (sqrt 2 / 4 / 2)) by lra. rewrite <- ln_mult by lra.
      left. apply ln_increasing; lra. }
    assert (- ln (/ 2) <= - ln (/ 4)) by (pose proof (ln_increasing (/ 4) (/ 2) ltac:(lra) ltac:(lra)); lra).
    pose proof ln4. lra.
  - exists m, s. split; [exact E|]. exists t1, t2, y. repeat apply conj; auto. eapply Rle_trans; [exact Er|].
    replace (ms / (20 - ms)) with (/ 19999) by lra.
    assert (4 * ms / (sqrt 3 / 2 * 100) <= 4 * ms / 50).
    { unfold Rdiv. apply Rmult_le_compat_l; [lra|]. apply Rinv_le_contravar; lra. }
    lra.
Qed.

(** ** the documented malfunction: x1 > x2 gives no output *)
Theorem C50_larger_numerator : forall (tmin tcod x1 x2 dt ta tb T : R) (k1 k2 : nat) nm ord,
  0 < dt <= 1 / 2 -> 0 < tcod -> 1 + dt < tmin -> aligned dt tmin -> ord_ok ord -> 0 <= ta -> 0 <= tb -> 0 <= T ->
  0 < x2 <= (1 - dt / 20) * x1 -> x1 < 1 -> x1 * tcod = INR k1 * dt -> x2 * tcod = INR k2 * dt ->
  exists m s,
    session (DivNetwork (DataEncoder tmin tcod) nm) dv_mod (DataEncoder tmin tcod) dt
      (fun m => [SValue x1 (dv_input1 m) ta; SValue x2 (dv_input2 m) tb]) ord T = Ok (m, s) /\
    spike_log s (dv_output m) = [].
Proof. exact larger_numerator_run. Qed.
Print Assumptions C50_larger_numerator.
Example C50_larger_ex : exists m s,
  session (DivNetwork (DataEncoder 10 100) None) dv_mod (DataEncoder 10 100) ms
    (fun m => [SValue (1/2) (dv_input1 m) 0; SValue (49/100) (dv_input2 m) 0]) id_ord 1000 = Ok (m, s) /\
  spike_log s (dv_output m) = [].
Proof.
  apply (C50_larger_numerator 10 100 (1/2) (49/100) ms 0 0 1000 (Z.to_nat 50000) (Z.to_nat 49000)); try lra.
  - apply aligned_ms.
  - apply id_ord_ok.
  - rewrite INR_Z by lia. lra.
  - rewrite INR_Z by lia. lra.
Qed.

(** ** dividing by exactly 1 is wrong: the answer is 5 per cent too small, whatever x1, Tmin, Tcod and dt *)
Theorem C50_divide_by_one_refuted : forall (tmin tcod x1 dt t0 T : R) (k1 k2 : nat) nm ord,
  0 < dt <= 1 / 2 -> 0 < tcod -> 1 + dt < tmin -> aligned dt tmin -> ord_ok ord -> 0 <= t0 ->
  0 < x1 < 1 -> x1 * tcod = INR k1 * dt -> tcod = INR k2 * dt ->
  t0 + 14 + 4 * tmin + 2 * tcod + 20 * - ln x1 + 5 * dt <= T ->
  exists m s v,
    session (DivNetwork (DataEncoder tmin tcod) nm) dv_mod (DataEncoder tmin tcod) dt
      (fun m => [SValue x1 (dv_input1 m) t0; SValue 1 (dv_input2 m) t0]) ord T = Ok (m, s) /\
    emits s (dv_output m) (DataEncoder tmin tcod) v (dt / tcod) /\ 0 < v <= x1 * exp (- (1 / 20)).
Proof. exact divide_by_one_run. Qed.
Print Assumptions C50_divide_by_one_refuted.
(** (1/4) / 1 comes out below 0.239 *)
Example C50_by_one_ex : exists m s t1 t2 y,
  session (DivNetwork (DataEncoder 10 100) None) dv_mod (DataEncoder 10 100) ms
    (fun m => [SValue (1/4) (dv_input1 m) 0; SValue 1 (dv_input2 m) 0]) id_ord 400 = Ok (m, s) /\
  spike_log s (dv_output m) = [t1; t2] /\ decode_interval (DataEncoder 10 100) (t2 - t1) = Ok y /\ y < 239 / 1000.
Proof.
  destruct (C50_divide_by_one_refuted 10 100 (1/4) ms 0 400 (Z.to_nat 25000) (Z.to_nat 100000) None id_ord) as (m & s & v & E & (t1 & t2 & y & L & Lt & Dc & Er) & Hv); try lra.
  - apply aligned_ms.
  - apply id_ord_ok.
  - rewrite INR_Z by lia. lra.
  - rewrite INR_Z by lia. lra.
  - pose proof ln4. replace (1 / 4) with (/ 4) by lra. lra.
  - exists m, s, t1, t2, y. repeat apply conj; auto.
    assert (exp (- (1 / 20)) <= 20 / 21).
    { rewrite exp_Ropp. replace (20 / 21) with (/ (1 + 1 / 20)) by field. apply Rinv_le_contravar; [lra|apply exp_ineq1_le]. }
    apply Rabs_le2 in Er. lra.
Qed.

(** ** a zero numerator gives no output, although 0 <= x1 <= x2 is the documented domain *)
(** the script (any arithmetic T): both operands at 0, then simulate for D *)
Definition div_script {T} `{Num T} (enc : encoder T) (x1 x2 dt D : T) : res (div_net * sim T) :=
  let* mw := DivNetwork enc None empty_world in
  let m := fst mw in
  let* c := mk_simulator (snd mw) (dv_mod m) enc dt in
  let* s1 := apply_input_value (fst c) (snd c) x1 (dv_input1 m) (nofZ 0) in
  let* s2 := apply_input_value (fst c) s1 x2 (dv_input2 m) (nofZ 0) in
  let* s3 := simulate (fst c) id_ord s2 D in
  Ok (m, s3).
Definition div_log {T} (r : res (div_net * sim T)) : option (list T) :=
  match r with Ok (m, s) => Some (spike_log s (dv_output m)) | Err _ => None end.
(** binary64, Tmin=10, Tcod=100, dt=0.125: 1/4 over 1/2 gives a pair, 0 over 1/2 gives nothing in twice the time *)
Theorem C50_zero_numerator_refuted :
  let run := div_script (T := PrimFloat.float) (DataEncoder (nofZ 10) (nofZ 100)) in
  (exists a b, div_log (run (nlit 1 4) (nlit 1 2) (nlit 1 8) (nofZ 300)) = Some [a; b]) /\
  div_log (run (nofZ 0) (nlit 1 2) (nlit 1 8) (nofZ 600)) = Some [].
Proof. cbv zeta. split; [do 2 eexists|]; vm_compute; reflexivity. Qed.
Print Assumptions C50_zero_numerator_refuted.
