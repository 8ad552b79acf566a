(** DivNetwork (C50): the value computed. *)
From Coq Require Import Arith ZArith Bool List Reals Lra Lia Permutation.
From Verif Require Import Num Heapq Elements Simulator Networks Trace SimTrace SimProps TraceProps NeuronLib NetLib Session SimpleNets GfLib InvMem Misc LnLib FuncNets SegLib SubNet ExpLog DivNet DivMid DivRun.
Import ListNotations.
Open Scope R_scope.
Open Scope list_scope.

Lemma exp_pow' x n : exp x ^ n = exp (INR n * x).
Proof. induction n as [|n IH]; [cbn; rewrite Rmult_0_l, exp_0; lra|]. cbn [pow]. rewrite IH, S_INR, <- exp_plus. f_equal. lra. Qed.
Definition least (r c : R) (j : nat) : Prop := r ^ j <= c /\ forall i, (i < j)%nat -> c < r ^ i.
Lemma least_bound r c j : 0 < r < 1 -> 0 < c < 1 -> least r c j -> r ^ j <= c /\ c * r < r ^ j.
Proof.
  intros Hr Hc [H1 H2]. split; auto. destruct j as [|j]; [cbn in *; lra|].
  specialize (H2 j ltac:(lia)). cbn [pow]. rewrite (Rmult_comm c). apply Rmult_lt_compat_l; lra.
Qed.
Lemma least_mono r c d i j : 0 < r < 1 -> c <= d -> least r c i -> least r d j -> (j <= i)%nat.
Proof.
  intros Hr Hcd [H1 _] [_ H2]. destruct (Nat.le_gt_cases j i); auto. specialize (H2 i ltac:(lia)). lra.
Qed.
(** dividing powers of the leak factor divides the values, up to one factor *)
Lemma quot_bound r c d i j : 0 < r < 1 -> 0 < c <= d -> d < 1 -> least r c i -> least r d j ->
  r * (c / d) <= r ^ (i - j) <= c / d / r.
Proof.
  intros Hr Hc Hd Hi Hj. pose proof (least_mono r c d i j Hr ltac:(lra) Hi Hj) as Hij.
  destruct (least_bound r c i Hr ltac:(lra) Hi) as [A1 A2]. destruct (least_bound r d j Hr ltac:(lra) Hj) as [B1 B2].
  assert (E : r ^ i = r ^ (i - j) * r ^ j) by (rewrite <- pow_add; f_equal; lia).
  assert (P : 0 < r ^ (i - j)) by (apply pow_lt; lra). assert (P2 : 0 < r ^ j) by (apply pow_lt; lra).
  set (z := r ^ (i - j)) in *. set (y := r ^ j) in *. rewrite E in *. clearbody z y.
  assert (I1 : c * r < z * d) by (apply Rlt_le_trans with (z * y); [lra|apply Rmult_le_compat_l; lra]).
  assert (I2 : z * (d * r) < c) by (apply Rlt_le_trans with (z * y); [apply Rmult_lt_compat_l; lra|lra]).
  split; left.
  - apply Rmult_lt_reg_r with d; [lra|]. replace (r * (c / d) * d) with (c * r) by (field; lra). lra.
  - apply Rmult_lt_reg_r with (d * r); [apply Rmult_lt_0_compat; lra|]. replace (c / d / r * (d * r)) with c by (field; lra). lra.
Qed.
Lemma quot_err dt c d i j : 0 < dt <= 1 / 2 -> 0 < c <= d -> d < 1 -> least (1 - dt / 20) c i -> least (1 - dt / 20) d j ->
  Rabs ((1 - dt / 20) ^ (i - j) - c / d) <= c / d * (dt / (20 - dt)).
Proof.
  intros Hdt Hc Hd Hi Hj. destruct (quot_bound (1 - dt / 20) c d i j ltac:(lra) Hc Hd Hi Hj) as [A B].
  assert (Q : 0 < c / d) by (apply Rdiv_lt_0_compat; lra). set (q := c / d) in *. set (z := (1 - dt / 20) ^ (i - j)) in *. clearbody q z.
  replace (q / (1 - dt / 20)) with (q * (dt / (20 - dt)) + q) in B by (field; lra).
  assert (K : dt / 20 <= dt / (20 - dt)).
  { unfold Rdiv. apply Rmult_le_compat_l; [lra|]. apply Rinv_le_contravar; lra. }
  assert (q * (dt / 20) <= q * (dt / (20 - dt))) by (apply Rmult_le_compat_l; lra).
  apply Rabs_le. lra.
Qed.

Section Val.
Variables tmin tcod x1 x2 dt ta tb T : R.
Variable nm : option String.string.
Variable ord : nat -> list nat -> list nat.
Hypothesis Hdt : 0 < dt <= 1 / 2.
Hypothesis Htc : 0 < tcod.
Hypothesis Htm : 1 + dt < tmin.
Hypothesis HA : aligned dt tmin.
Hypothesis Hx1 : 0 <= x1 <= 1.
Hypothesis Hx2 : 0 <= x2 <= 1.
Hypothesis Hta : 0 <= ta.
Hypothesis Htb : 0 <= tb.
Hypothesis HO : ord_ok ord.
Let enc := DataEncoder tmin tcod.
Let stims := fun m => [SValue x1 (dv_input1 m) ta; SValue x2 (dv_input2 m) tb].
Let a11 := step_at dt (ta + 1).
Let a12 := step_at dt (ta + 1 + (tmin + x1 * tcod)).
Let a21 := step_at dt (tb + 1).
Let a22 := step_at dt (tb + 1 + (tmin + x2 * tcod)).
Let n1 := (a12 + step_at dt 1 - (a11 + step_at dt (1 + tmin)))%nat.
Let n2 := (a22 + step_at dt 1 - (a21 + step_at dt (1 + tmin)))%nat.
Let c1 := INR n1 * (dt / tcod).
Let c2 := INR n2 * (dt / tcod).
(** what the two channels store *)
Lemma stored x t : 0 <= x <= 1 -> 0 <= t ->
  let n := (step_at dt (t + 1 + (tmin + x * tcod)) + step_at dt 1 - (step_at dt (t + 1) + step_at dt (1 + tmin)))%nat in
  Rabs (INR n * (dt / tcod) - x) < dt / tcod /\ (forall k, x * tcod = INR k * dt -> INR n * (dt / tcod) = x).
Proof.
  clear - Hdt Htc Htm HA. intros Hx Ht. cbv zeta. destruct Hdt as [Hd _]. assert (Hc : 0 <= x * tcod) by (apply Rmult_le_pos; lra).
  pose proof (steps_aligned_gap dt tmin (t + 1) (x * tcod) Hd ltac:(lra) HA ltac:(lra) Hc) as W.
  destruct (step_diff dt (t + 1) (tmin + x * tcod) Hd ltac:(lra) ltac:(lra)) as (_ & S & _).
  destruct (aligned_steps dt tmin Hd ltac:(lra) HA) as (p & q & E1 & _ & _ & E3 & Ep & Eq).
  assert (GD := fun k => grid_diff dt (t + 1) (tmin + x * tcod) k Hd ltac:(lra)). cbv beta in GD.
  rewrite E1, E3 in *. set (u := step_at dt (t + 1)) in *. set (v := step_at dt (t + 1 + (tmin + x * tcod))) in *.
  assert (EN : INR (v + p - (u + (p + q))) * dt = INR v * dt - INR u * dt - tmin) by (inr; lra).
  assert (F : forall z, INR (v + p - (u + (p + q))) * (dt / tcod) - z = (INR (v + p - (u + (p + q))) * dt - z * tcod) / tcod) by (intros z; field; lra).
  split.
  - rewrite F. unfold Rdiv. rewrite Rabs_mult, (Rabs_right (/ tcod)) by (left; apply Rinv_0_lt_compat; auto).
    apply Rmult_lt_compat_r; [apply Rinv_0_lt_compat; auto|]. rewrite EN. apply Rabs_def2 in S. apply Rabs_def1; lra.
  - intros k Hk. enough (INR (v + p - (u + (p + q))) * (dt / tcod) - x = 0) by lra. rewrite F, EN, (GD (q + k)%nat); [field; lra|rewrite plus_INR; lra].
Qed.
Lemma sy_time : INR (Nat.max a12 a22 + step_at dt 1) * dt < Rmax ta tb + 2 + tmin + tcod + dt.
Proof.
  clear - Hdt Htc Htm HA Hx1 Hx2 Hta Htb. destruct Hdt as [Hd _]. destruct (aligned_steps dt tmin Hd ltac:(lra) HA) as (p & q & E1 & _ & _ & E3 & Ep & Eq).
  assert (Hc : forall x, 0 <= x <= 1 -> 0 <= x * tcod <= tcod).
  { intros x Hx. split; [apply Rmult_le_pos; lra|rewrite <- (Rmult_1_l tcod) at 2; apply Rmult_le_compat_r; lra]. }
  pose proof (Hc x1 Hx1). pose proof (Hc x2 Hx2).
  pose proof (step_time dt (ta + 1 + (tmin + x1 * tcod)) Hd ltac:(lra)) as Z1. fold a12 in Z1.
  pose proof (step_time dt (tb + 1 + (tmin + x2 * tcod)) Hd ltac:(lra)) as Z2. fold a22 in Z2.
  pose proof (Rmax_l ta tb). pose proof (Rmax_r ta tb). rewrite E1, plus_INR.
  destruct (Nat.max_spec a12 a22) as [[_ ->]|[_ ->]]; lra.
Qed.
Theorem div_value : 0 < c1 -> c1 <= c2 -> c2 < 1 -> Rmax ta tb + 14 + 4 * tmin + 2 * tcod + 20 * - ln c1 + 5 * dt <= T ->
  exists m s, session (DivNetwork enc nm) dv_mod enc dt stims ord T = Ok (m, s) /\
  emits s (dv_output m) enc (c1 / c2) (dt / tcod + c1 / c2 * (dt / (20 - dt))).
Proof.
  intros H1 H12 H2 HT. pose proof (Rmax_l ta tb) as M1. pose proof (ln_neg c1 ltac:(lra)) as Hln.
  destruct (div_session tmin tcod x1 x2 dt ta tb T nm ord Hdt Htc Htm HA Hx1 Hx2 Hta Htb ltac:(lra) HO) as (m & s & E & HR).
  exists m, s. split; [exact E|]. fold a11 a12 a21 a22 n1 n2 c1 c2 in HR.
  assert (Hr : 0 < 1 - dt / 20 < 1) by lra.
  destruct (least_pow (1 - dt / 20) c1 Hr H1) as (i & I1 & I2). destruct (least_pow (1 - dt / 20) c2 Hr ltac:(lra)) as (j & J1 & J2).
  assert (LI : least (1 - dt / 20) c1 i) by (split; auto). assert (LJ : least (1 - dt / 20) c2 j) by (split; auto).
  pose proof (least_mono _ _ _ _ _ Hr H12 LI LJ) as Hij.
  pose proof (quot_err dt c1 c2 i j Hdt ltac:(lra) H2 LI LJ) as QE.
  destruct (least_ln (dt / 20) c1 i ltac:(lra) ltac:(lra) I1 I2) as [_ B2].
  pose proof sy_time as ST. set (sy := (Nat.max a12 a22 + step_at dt 1)%nat) in *.
  destruct Hdt as [Hd _]. destruct (aligned_steps dt tmin Hd ltac:(lra) HA) as (p & q & E1 & E2 & _ & E3 & Ep & Eq).
  pose proof (step_at_ge1 dt 1) as G. assert (PQ : (p + 2 <= q)%nat).
  { enough (p + 1 < q)%nat by lia. nat_lt dt Hd. lra. }
  destruct (HR (sy + step_at dt 1 - 1 + i)%nat (sy + step_at dt 1 - 1 + j)%nat) as [_ R].
  - left. split; [lra|]. exists i. auto.
  - left. split; [lra|]. exists j. auto.
  - lia.
  - lia.
  - destruct R as (t1 & t2 & y & L & Lt & Dc & Er); [lia| |].
    + rewrite E1 in *. inr. lra.
    + exists t1, t2, y. repeat apply conj; auto. replace (sy + step_at dt 1 - 1 + i - (sy + step_at dt 1 - 1 + j))%nat with (i - j)%nat in Er by lia.
      apply Rabs_le2 in QE. apply Rabs_le2 in Er. apply Rabs_le. lra.
Qed.
Theorem div_none : 0 < c2 -> c2 <= (1 - dt / 20) * c1 -> c1 < 1 -> 0 <= T ->
  exists m s, session (DivNetwork enc nm) dv_mod enc dt stims ord T = Ok (m, s) /\ spike_log s (dv_output m) = [].
Proof.
  intros H2 H12 H1 HT. assert (Hr : 0 < 1 - dt / 20 < 1) by lra.
  assert (Hc1 : c2 <= c1). { apply Rle_trans with ((1 - dt / 20) * c1); auto. assert (0 <= dt / 20 * c1); [|lra]. apply Rmult_le_pos; [lra|].
    unfold c1. apply Rmult_le_pos; [apply pos_INR|]. left. apply Rdiv_lt_0_compat; lra. }
  destruct (div_session tmin tcod x1 x2 dt ta tb T nm ord Hdt Htc Htm HA Hx1 Hx2 Hta Htb HT HO) as (m & s & E & HR).
  exists m, s. split; [exact E|]. fold a11 a12 a21 a22 n1 n2 c1 c2 in HR.
  destruct (least_pow (1 - dt / 20) c1 Hr ltac:(lra)) as (i & I1 & I2). destruct (least_pow (1 - dt / 20) c2 Hr ltac:(lra)) as (j & J1 & J2).
  assert (Hij : (i < j)%nat).
  { destruct (Nat.lt_ge_cases i j) as [h|h]; auto. exfalso. destruct i as [|i]; [cbn in I1; lra|]. specialize (I2 i ltac:(lia)).
    assert ((1 - dt / 20) ^ S i <= (1 - dt / 20) ^ j) by (apply pow_anti; auto). cbn [pow] in H.
    assert ((1 - dt / 20) * c1 < (1 - dt / 20) * (1 - dt / 20) ^ i) by (apply Rmult_lt_compat_l; lra). lra. }
  set (sy := (Nat.max a12 a22 + step_at dt 1)%nat) in *.
  destruct Hdt as [Hd _]. destruct (aligned_steps dt tmin Hd ltac:(lra) HA) as (p & q & E1 & E2 & _ & E3 & Ep & Eq).
  pose proof (step_at_ge1 dt 1) as G. assert (PQ : (p + 2 <= q)%nat).
  { enough (p + 1 < q)%nat by lia. nat_lt dt Hd. lra. }
  destruct (HR (sy + step_at dt 1 - 1 + i)%nat (sy + step_at dt 1 - 1 + j)%nat) as [R _].
  - left. split; [lra|]. exists i. auto.
  - left. split; [lra|]. exists j. auto.
  - lia.
  - lia.
  - apply R. lia.
Qed.
End Val.

Theorem divide_run (tmin tcod x1 x2 dt ta tb T : R) (k1 k2 : nat) nm ord :
  0 < dt <= 1 / 2 -> 0 < tcod -> 1 + dt < tmin -> aligned dt tmin -> ord_ok ord -> 0 <= ta -> 0 <= tb ->
  0 < x1 <= x2 -> x2 < 1 -> x1 * tcod = INR k1 * dt -> x2 * tcod = INR k2 * dt ->
  Rmax ta tb + 14 + 4 * tmin + 2 * tcod + 20 * - ln x1 + 5 * dt <= T ->
  exists m s,
    session (DivNetwork (DataEncoder tmin tcod) nm) dv_mod (DataEncoder tmin tcod) dt
      (fun m => [SValue x1 (dv_input1 m) ta; SValue x2 (dv_input2 m) tb]) ord T = Ok (m, s) /\
    emits s (dv_output m) (DataEncoder tmin tcod) (x1 / x2) (dt / tcod + x1 / x2 * (dt / (20 - dt))).
Proof.
  intros Hdt Htc Htm HA HO Hta Htb Hx12 Hx2 K1 K2 HT.
  destruct (stored tmin tcod dt Hdt Htc Htm HA x1 ta ltac:(lra) Hta) as [_ S1]. specialize (S1 k1 K1).
  destruct (stored tmin tcod dt Hdt Htc Htm HA x2 tb ltac:(lra) Htb) as [_ S2]. specialize (S2 k2 K2).
  pose proof (div_value tmin tcod x1 x2 dt ta tb T nm ord Hdt Htc Htm HA ltac:(lra) ltac:(lra) Hta Htb HO) as D.
  cbv zeta in D. rewrite S1, S2 in D. apply D; lra.
Qed.
Theorem divide_any_run (tmin tcod x1 x2 dt t0 T : R) nm ord :
  0 < dt <= 1 / 2 -> 0 < tcod -> 1 + dt < tmin -> aligned dt tmin -> ord_ok ord -> 0 <= t0 ->
  x1 <= x2 -> 2 * dt <= x1 * tcod -> x2 * tcod + dt <= tcod ->
  t0 + 14 + 4 * tmin + 2 * tcod + 20 * - ln (x1 / 2) + 5 * dt <= T ->
  exists m s,
    session (DivNetwork (DataEncoder tmin tcod) nm) dv_mod (DataEncoder tmin tcod) dt
      (fun m => [SValue x1 (dv_input1 m) t0; SValue x2 (dv_input2 m) t0]) ord T = Ok (m, s) /\
    emits s (dv_output m) (DataEncoder tmin tcod) (x1 / x2) (dt / tcod + dt / (20 - dt) + 4 * dt / (x2 * tcod)).
Proof.
  intros Hdt Htc Htm HA HO Ht0 Hx12 K1 K2 HT. set (u := dt / tcod). assert (Hu : u * tcod = dt) by (unfold u; field; lra).
  assert (Hx1 : 2 * u <= x1) by (apply Rmult_le_reg_r with tcod; lra). assert (Hx2 : x2 + u <= 1) by (apply Rmult_le_reg_r with tcod; lra).
  assert (Hup : 0 < u) by (apply Rdiv_lt_0_compat; lra).
  destruct (stored tmin tcod dt Hdt Htc Htm HA x1 t0 ltac:(lra) Ht0) as [S1 _].
  destruct (stored tmin tcod dt Hdt Htc Htm HA x2 t0 ltac:(lra) Ht0) as [S2 _].
  pose proof (div_value tmin tcod x1 x2 dt t0 t0 T nm ord Hdt Htc Htm HA ltac:(lra) ltac:(lra) Ht0 Ht0 HO) as D.
  cbv zeta in D. rewrite Rmax_left in D by lra. fold u in S1, S2, D.
  assert (Hm : (step_at dt (t0 + 1 + (tmin + x1 * tcod)) <= step_at dt (t0 + 1 + (tmin + x2 * tcod)))%nat).
  { apply step_at_mono; [lra|]. assert (x1 * tcod <= x2 * tcod) by (apply Rmult_le_compat_r; lra). lra. }
  set (n1 := (step_at dt (t0 + 1 + (tmin + x1 * tcod)) + step_at dt 1 - (step_at dt (t0 + 1) + step_at dt (1 + tmin)))%nat) in *.
  set (n2 := (step_at dt (t0 + 1 + (tmin + x2 * tcod)) + step_at dt 1 - (step_at dt (t0 + 1) + step_at dt (1 + tmin)))%nat) in *.
  assert (Hn : INR n1 * u <= INR n2 * u) by (apply Rmult_le_compat_r; [lra|apply le_INR; unfold n1, n2; lia]).
  apply Rabs_def2 in S1. apply Rabs_def2 in S2. set (c1 := INR n1 * u) in *. set (c2 := INR n2 * u) in *. clearbody c1 c2.
  assert (L : - ln c1 <= - ln (x1 / 2)).
  { destruct (Rle_lt_or_eq_dec (x1 / 2) c1 ltac:(lra)) as [h|<-]; [|lra]. pose proof (ln_increasing (x1 / 2) c1 ltac:(lra) h). lra. }
  destruct D as (m & s & E & t1 & t2 & y & HL & Lt & Dc & Er); try lra.
  exists m, s. split; [exact E|]. exists t1, t2, y. repeat apply conj; auto.
  assert (Q : 0 <= c1 / c2 <= 1).
  { split; [left; apply Rdiv_lt_0_compat; lra|]. apply Rmult_le_reg_r with c2; [lra|]. replace (c1 / c2 * c2) with c1 by (field; lra). lra. }
  assert (QX : Rabs (c1 / c2 - x1 / x2) <= 4 * dt / (x2 * tcod)).
  { replace (4 * dt / (x2 * tcod)) with (4 * u / x2) by (unfold u; field; lra).
    replace (c1 / c2 - x1 / x2) with ((c1 - x1) / c2 + x1 / x2 * ((x2 - c2) / c2)) by (field; lra).
    assert (I : / c2 <= 2 / x2).
    { replace (2 / x2) with (/ (x2 / 2)) by (field; lra). apply Rinv_le_contravar; lra. }
    assert (Ip : 0 < / c2) by (apply Rinv_0_lt_compat; lra).
    assert (XQ : 0 <= x1 / x2 <= 1).
    { split; [left; apply Rdiv_lt_0_compat; lra|]. apply Rmult_le_reg_r with x2; [lra|]. replace (x1 / x2 * x2) with x1 by (field; lra). lra. }
    assert (B : forall z, - u < z < u -> - (2 * u / x2) <= z / c2 <= 2 * u / x2).
    { intros z Hz. assert (U : u * / c2 <= 2 * u / x2) by (replace (2 * u / x2) with (u * (2 / x2)) by (field; lra); apply Rmult_le_compat_l; lra).
      assert (z * / c2 <= u * / c2) by (apply Rmult_le_compat_r; lra). assert (- u * / c2 <= z * / c2) by (apply Rmult_le_compat_r; lra).
      unfold Rdiv in *. lra. }
    pose proof (B (c1 - x1) ltac:(lra)) as B1. pose proof (B (x2 - c2) ltac:(lra)) as B2.
    set (g := (x2 - c2) / c2) in *. set (h := (c1 - x1) / c2) in *. set (w := x1 / x2) in *. replace (4 * u / x2) with (2 * u / x2 + 2 * u / x2) by (field; lra).
    set (e := 2 * u / x2) in *. clearbody e g h w. assert (- e <= w * g <= e).
    { assert (0 <= e) by lra. assert (w * g <= w * e) by (apply Rmult_le_compat_l; lra). assert (w * - e <= w * g) by (apply Rmult_le_compat_l; lra).
      assert (w * e <= 1 * e) by (apply Rmult_le_compat_r; lra). lra. }
    apply Rabs_le. lra. }
  assert (P : 0 < dt / (20 - dt)) by (apply Rdiv_lt_0_compat; lra).
  assert (c1 / c2 * (dt / (20 - dt)) <= 1 * (dt / (20 - dt))) by (apply Rmult_le_compat_r; lra).
  apply Rabs_le2 in QX. apply Rabs_le2 in Er. apply Rabs_le. lra.
Qed.
Theorem larger_numerator_run (tmin tcod x1 x2 dt ta tb T : R) (k1 k2 : nat) nm ord :
  0 < dt <= 1 / 2 -> 0 < tcod -> 1 + dt < tmin -> aligned dt tmin -> ord_ok ord -> 0 <= ta -> 0 <= tb -> 0 <= T ->
  0 < x2 <= (1 - dt / 20) * x1 -> x1 < 1 -> x1 * tcod = INR k1 * dt -> x2 * tcod = INR k2 * dt ->
  exists m s,
    session (DivNetwork (DataEncoder tmin tcod) nm) dv_mod (DataEncoder tmin tcod) dt
      (fun m => [SValue x1 (dv_input1 m) ta; SValue x2 (dv_input2 m) tb]) ord T = Ok (m, s) /\
    spike_log s (dv_output m) = [].
Proof.
  intros Hdt Htc Htm HA HO Hta Htb HT Hx12 Hx1 K1 K2.
  assert (X1 : 0 < x1). { apply Rmult_lt_reg_l with (1 - dt / 20); lra. }
  assert (X2 : x2 <= x1). { assert (0 <= dt / 20 * x1) by (apply Rmult_le_pos; lra). lra. }
  destruct (stored tmin tcod dt Hdt Htc Htm HA x1 ta ltac:(lra) Hta) as [_ S1]. specialize (S1 k1 K1).
  destruct (stored tmin tcod dt Hdt Htc Htm HA x2 tb ltac:(lra) Htb) as [_ S2]. specialize (S2 k2 K2).
  pose proof (div_none tmin tcod x1 x2 dt ta tb T nm ord Hdt Htc Htm HA ltac:(lra) ltac:(lra) Hta Htb HO) as D.
  cbv zeta in D. rewrite S1, S2 in D. apply D; lra.
Qed.
(** the denominator exactly 1: its accumulator reaches the threshold before the synchronisation *)
Theorem divide_by_one_run (tmin tcod x1 dt t0 T : R) (k1 k2 : nat) nm ord :
  0 < dt <= 1 / 2 -> 0 < tcod -> 1 + dt < tmin -> aligned dt tmin -> ord_ok ord -> 0 <= t0 ->
  0 < x1 < 1 -> x1 * tcod = INR k1 * dt -> tcod = INR k2 * dt ->
  t0 + 14 + 4 * tmin + 2 * tcod + 20 * - ln x1 + 5 * dt <= T ->
  exists m s v,
    session (DivNetwork (DataEncoder tmin tcod) nm) dv_mod (DataEncoder tmin tcod) dt
      (fun m => [SValue x1 (dv_input1 m) t0; SValue 1 (dv_input2 m) t0]) ord T = Ok (m, s) /\
    emits s (dv_output m) (DataEncoder tmin tcod) v (dt / tcod) /\ 0 < v <= x1 * exp (- (1 / 20)).
Proof.
  intros Hdt Htc Htm HA HO Ht0 Hx1 K1 K2 HT. pose proof (ln_neg x1 ltac:(lra)) as Hln.
  destruct (stored tmin tcod dt Hdt Htc Htm HA x1 t0 ltac:(lra) Ht0) as [_ S1]. specialize (S1 k1 K1).
  destruct (stored tmin tcod dt Hdt Htc Htm HA 1 t0 ltac:(lra) Ht0) as [_ S2]. specialize (S2 k2 ltac:(lra)).
  destruct (div_session tmin tcod x1 1 dt t0 t0 T nm ord Hdt Htc Htm HA ltac:(lra) ltac:(lra) Ht0 Ht0 ltac:(lra) HO) as (m & s & E & HR).
  pose proof (sy_time tmin tcod x1 1 dt t0 t0 Hdt Htc Htm HA ltac:(lra) ltac:(lra) Ht0 Ht0) as ST.
  rewrite Rmax_left in ST by lra.
  cbv zeta in HR. rewrite S1, S2 in HR.
  assert (Hr : 0 < 1 - dt / 20 < 1) by lra.
  destruct (least_pow (1 - dt / 20) x1 Hr ltac:(lra)) as (i & I1 & I2).
  destruct (least_ln (dt / 20) x1 i ltac:(lra) ltac:(lra) I1 I2) as [_ B2].
  destruct Hdt as [Hd _]. destruct (aligned_steps dt tmin Hd ltac:(lra) HA) as (p & q & E1 & E2 & _ & E3 & Ep & Eq).
  pose proof (step_at_ge1 dt 1) as G. assert (PQ : (p + 2 <= q)%nat).
  { enough (p + 1 < q)%nat by lia. nat_lt dt Hd. lra. }
  assert (Hm : (step_at dt (t0 + 1 + (tmin + x1 * tcod)) <= step_at dt (t0 + 1 + (tmin + 1 * tcod)))%nat).
  { apply step_at_mono; [lra|]. assert (x1 * tcod <= 1 * tcod) by (apply Rmult_le_compat_r; lra). lra. }
  assert (A22 : step_at dt (t0 + 1 + (tmin + 1 * tcod)) = (step_at dt (t0 + 1) + (q + k2))%nat).
  { replace (t0 + 1 + (tmin + 1 * tcod)) with (t0 + 1 + INR (q + k2) * dt) by (rewrite plus_INR; lra). apply step_exact; lra. }
  assert (K2p : (1 <= k2)%nat) by (destruct k2; [cbn in K2; lra|lia]).
  assert (TC : step_at dt tcod = k2) by (rewrite K2; apply step_at_grid; auto).
  pose proof (step_at_ge1 dt (t0 + 1)) as G1.
  unfold fires in HR. rewrite Nat.max_r in HR, ST by lia. rewrite A22, E1, E2, E3, TC in HR. rewrite A22, E1 in ST.
  set (a := step_at dt (t0 + 1)) in *. clearbody a.
  destruct (HR (a + (q + k2) + p + p - 1 + i)%nat (a + (p + q) - 1 + k2)%nat) as [_ R].
  - left. split; [lra|]. exists i. auto.
  - right. split; [lra|]. reflexivity.
  - lia.
  - lia.
  - replace (a + (q + k2) + p + p - 1 + i - (a + (p + q) - 1 + k2))%nat with (p + i)%nat in R by lia.
    exists m, s, ((1 - dt / 20) ^ (p + i)). split; [exact E|]. split.
    + apply R; [lia|]. rewrite !plus_INR in ST. inr. lra.
    + split; [apply pow_lt; lra|]. rewrite pow_add.
      assert (EP : (1 - dt / 20) ^ p <= exp (- (1 / 20))).
      { replace (- (1 / 20)) with (INR p * - (dt / 20)) by lra. rewrite <- (exp_pow' (- (dt / 20)) p). apply pow_incr. split; [lra|].
        pose proof (exp_ineq1_le (- (dt / 20))). lra. }
      assert (0 < (1 - dt / 20) ^ p) by (apply pow_lt; lra). assert (0 < (1 - dt / 20) ^ i) by (apply pow_lt; lra).
      rewrite Rmult_comm. apply Rmult_le_compat; lra.
Qed.
