(** Elementary estimates on exp and ln used by the error bounds. *)
From Coq Require Import Arith List Reals Lra Lia.
From Verif Require Import Misc.
Open Scope R_scope.

Lemma ln_le_sub1 z : 0 < z -> ln z <= z - 1.
Proof. intros H. pose proof (exp_ineq1_le (ln z)) as E. rewrite exp_ln in E by auto. lra. Qed.
Lemma ln_1m_upper y : 0 < y < 1 -> ln (1 - y) <= - y.
Proof. intros H. pose proof (ln_le_sub1 (1 - y) ltac:(lra)). lra. Qed.
Lemma ln_1m_lower y : 0 < y < 1 -> - (y / (1 - y)) <= ln (1 - y).
Proof.
  intros H. pose proof (ln_le_sub1 (/ (1 - y)) ltac:(apply Rinv_0_lt_compat; lra)) as E. rewrite ln_Rinv in E by lra.
  replace (/ (1 - y) - 1) with (y / (1 - y)) in E by (field; lra). lra.
Qed.
Lemma exp_lip a b : 0 <= a -> 0 <= b -> Rabs (exp (- a) - exp (- b)) <= Rabs (a - b).
Proof.
  assert (H : forall a b, 0 <= a -> a <= b -> 0 <= exp (- a) - exp (- b) <= b - a).
  { clear a b. intros a b Ha Hab. replace (- b) with (- a + - (b - a)) by lra. rewrite exp_plus.
    pose proof (exp_ineq1_le (- (b - a))) as E1. pose proof (exp_pos (- a)) as P1.
    assert (E2 : exp (- a) <= 1) by (rewrite <- exp_0; destruct (Rle_lt_or_eq_dec 0 a Ha) as [h| <-];
      [left; apply exp_increasing; lra|rewrite Ropp_0; lra]).
    assert (E3 : exp (- (b - a)) <= 1) by (rewrite <- exp_0; destruct (Rle_lt_or_eq_dec a b Hab) as [h| <-];
      [left; apply exp_increasing; lra|replace (- (a - a)) with 0 by lra; lra]).
    split; nra. }
  intros Ha Hb. destruct (Rle_dec a b) as [Hab|Hab].
  - specialize (H a b Ha Hab). rewrite Rabs_right, Rabs_left1 by lra. lra.
  - specialize (H b a Hb ltac:(lra)). rewrite Rabs_left1, Rabs_right by lra. lra.
Qed.
Lemma ln_lip x c d : 0 < x -> 0 <= d <= x / 2 -> Rabs (c - x) <= d -> 0 < c /\ Rabs (ln c - ln x) <= 2 * d / x.
Proof.
  intros Hx Hd Hc. assert (Hc' : - d <= c - x <= d) by (unfold Rabs in Hc; destruct (Rcase_abs (c - x)); lra).
  assert (0 < c) by lra. split; auto. apply Rabs_le. split.
  - pose proof (ln_le_sub1 (x / c) ltac:(apply Rdiv_lt_0_compat; auto)) as E. unfold Rdiv in E.
    rewrite ln_mult, ln_Rinv in E by (auto; apply Rinv_0_lt_compat; auto).
    assert (x * / c - 1 <= 2 * d / x); [|lra]. apply Rmult_le_reg_r with (c * x); [nra|].
    replace ((x * / c - 1) * (c * x)) with ((x - c) * x) by (field; lra). replace (2 * d / x * (c * x)) with (2 * c * d) by (field; lra). nra.
  - pose proof (ln_le_sub1 (c / x) ltac:(apply Rdiv_lt_0_compat; auto)) as E. unfold Rdiv in E.
    rewrite ln_mult, ln_Rinv in E by (auto; apply Rinv_0_lt_compat; auto).
    assert (c * / x - 1 <= 2 * d / x); [|lra]. apply Rmult_le_reg_r with x; auto.
    replace ((c * / x - 1) * x) with (c - x) by (field; lra). replace (2 * d / x * x) with (2 * d) by (field; lra). lra.
Qed.
(** the least power of 1-y below c, against ln(1/c) *)
Lemma least_ln y c j : 0 < y < 1 -> 0 < c < 1 -> (1 - y) ^ j <= c -> (forall i, (i < j)%nat -> c < (1 - y) ^ i) ->
  (1 - y) * (- ln c) <= INR j * y < - ln c + y.
Proof.
  intros Hy Hc Hj Hi. pose proof (ln_1m_upper y Hy) as U. pose proof (ln_1m_lower y Hy) as L.
  assert (Hj1 : (1 <= j)%nat) by (destruct j; [cbn in Hj; lra|lia]). split.
  - assert (E : INR j * ln (1 - y) <= ln c).
    { rewrite <- ln_pow by lra. destruct (Rle_lt_or_eq_dec _ _ Hj) as [h|h]; [left; apply ln_increasing; auto; apply pow_lt; lra|rewrite h; lra]. }
    assert (P : 0 <= INR j) by apply pos_INR.
    assert (INR j * - (y / (1 - y)) <= INR j * ln (1 - y)) by (apply Rmult_le_compat_l; auto).
    assert (E2 : - ln c <= INR j * (y / (1 - y))) by lra.
    apply Rmult_le_compat_l with (r := 1 - y) in E2; [|lra].
    replace ((1 - y) * (INR j * (y / (1 - y)))) with (INR j * y) in E2 by (field; lra). lra.
  - specialize (Hi (j - 1)%nat ltac:(lia)).
    assert (E : ln c < INR (j - 1) * ln (1 - y)) by (rewrite <- ln_pow by lra; apply ln_increasing; lra).
    rewrite minus_INR in E by auto. cbn [INR] in E.
    assert (P : 0 <= INR j - 1) by (change 1 with (INR 1); rewrite <- minus_INR by auto; apply pos_INR).
    assert ((INR j - 1) * ln (1 - y) <= (INR j - 1) * - y) by (apply Rmult_le_compat_l; auto). lra.
Qed.
Lemma ln_neg x : 0 < x <= 1 -> 0 <= - ln x.
Proof. intros H. pose proof (ln_le_sub1 x ltac:(lra)). lra. Qed.
