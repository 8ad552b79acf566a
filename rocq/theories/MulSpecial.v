(** MultiplierNetwork (C31): operands 0 and 1. *)
From Coq Require Import Arith ZArith Bool List Reals Lra Lia Permutation.
From Verif Require Import Num Heapq Elements Simulator Networks Trace SimTrace SimProps TraceProps NeuronLib NetLib Build BuildNets Bridge MemoryProof GeLib GfLib Session SimpleNets InvMem Misc LnLib FuncNets SegLib SubNet ExpLog MulNet MulRun.
Import ListNotations.
Open Scope R_scope.
Open Scope list_scope.
(** ** an operand equal to zero: the zero detector answers exactly 0 *)
Theorem multiplier_zero (tmin tcod x1 x2 dt ta tb T : R) nm ord :
  0 < dt <= 1 / 2 -> 0 < tcod -> 1 + dt <= tmin -> 4 * dt <= tmin -> 0 <= ta -> 0 <= tb -> ord_ok ord -> aligned dt tmin ->
  0 <= x1 -> 0 <= x2 -> x1 * x2 = 0 -> x1 * tcod <= tcod - dt -> x2 * tcod <= tcod - dt ->
  Rmax ta tb + 351 + 2 * tmin + tcod + dt <= T ->
  exists m s, session (MultiplierNetwork (DataEncoder tmin tcod) nm) mu_mod (DataEncoder tmin tcod) dt (mul_stims x1 x2 ta tb) ord T = Ok (m, s) /\
    emits s (mu_output m) (DataEncoder tmin tcod) 0 0.
Proof.
  intros [Hdt Hdt2] Htc Htm Htm2 Hta Htb HO HAl Hp1 Hp2 Hz Hx1 Hx2 HT.
  assert (L1 : x1 <= 1) by (apply Rmult_le_reg_r with tcod; lra). assert (L2 : x2 <= 1) by (apply Rmult_le_reg_r with tcod; lra).
  pose proof (Rmax_l ta tb) as M1. pose proof (Rmax_r ta tb) as M2.
  destruct (mul_sess tmin tcod x1 x2 dt ta tb T nm ord) as (m & s & N & Es & HA & HLg); auto; try lra.
  exists m, s. split; [exact Es|].
  assert (Hc1 : 0 <= x1 * tcod) by (apply Rmult_le_pos; lra). assert (Hc2 : 0 <= x2 * tcod) by (apply Rmult_le_pos; lra).
  destruct (aligned_steps dt tmin Hdt ltac:(lra) HAl) as (p & q & E1 & E2 & E3 & Em & Ep & Eq).
  assert (Hi : 0 < / tcod) by (apply Rinv_0_lt_compat; auto).
  (* the charge of one operand *)
  assert (HC : forall t x, 0 <= t -> 0 <= x -> x * tcod <= tcod - dt ->
    let a1 := step_at dt (t + 1) in let a2 := step_at dt (t + 1 + (tmin + x * tcod)) in let c := INR (a2 + step_at dt 1 - (a1 + step_at dt (1 + tmin))) * (dt / tcod) in
    (a1 + step_at dt (1 + tmin) <= a2 + step_at dt 1)%nat /\ 0 <= c < 1 /\ (x = 0 -> c = 0)).
  { intros t x Ht Hx Hxt. cbv zeta. assert (Hxc : 0 <= x * tcod) by (apply Rmult_le_pos; lra).
    pose proof (steps_aligned_gap dt tmin (t + 1) (x * tcod) Hdt ltac:(lra) HAl ltac:(lra) Hxc) as G. split; [exact G|].
    destruct (step_diff dt (t + 1) (tmin + x * tcod) Hdt ltac:(lra) ltac:(lra)) as (_ & Q & _).
    set (a1 := step_at dt (t + 1)) in *. set (a2 := step_at dt (t + 1 + (tmin + x * tcod))) in *. rewrite E1, Em in *.
    assert (EQ : INR (a2 + p - (a1 + (p + q))) * dt = INR a2 * dt - INR a1 * dt - tmin) by (inr; lra). apply Rabs_def2 in Q.
    split.
    - split; [apply Rmult_le_pos; [apply pos_INR|apply Rmult_le_pos; lra]|]. unfold Rdiv. rewrite <- Rmult_assoc. apply Rmult_lt_reg_r with tcod; auto. rewrite Rmult_assoc, Rinv_l by lra. lra.
    - intros ->. assert (E0 : a2 = (a1 + q)%nat) by (unfold a2, a1; rewrite Rmult_0_l, Rplus_0_r, Eq; rewrite step_exact by lra; reflexivity).
      replace (a2 + p - (a1 + (p + q)))%nat with 0%nat by lia. cbn [INR]. lra. }
  destruct (HC ta x1 Hta Hp1 Hx1) as (Ca & Ca1 & Ca2). destruct (HC tb x2 Htb Hp2 Hx2) as (Cb & Cb1 & Cb2). clear HC.
  pose proof (step_at_bounds dt (ta + 350 + (tmin + x1 * tcod)) Hdt ltac:(lra)) as BA. pose proof (step_at_bounds dt (tb + 350 + (tmin + x2 * tcod)) Hdt ltac:(lra)) as BB.
  assert (MA : INR (Nat.max (step_at dt (ta + 350 + (tmin + x1 * tcod))) (step_at dt (tb + 350 + (tmin + x2 * tcod)))) * dt <= Rmax ta tb + 350 + (tmin + tcod)) by (apply max_time; auto; split; lra).
  pose proof (step_at_ge1 dt (ta + 350 + (tmin + x1 * tcod))) as GA.
  set (Z := Nat.max (step_at dt (ta + 350 + (tmin + x1 * tcod))) (step_at dt (tb + 350 + (tmin + x2 * tcod)))) in *.
  assert (HS : spikes_at N (mu_output m) [(Z + step_at dt 1)%nat; (Z + step_at dt (1 + tmin))%nat]).
  { apply (in_zero N m dt tmin tcod _ _ _ _ _ _ HA Ca Cb). destruct (Rmult_integral _ _ Hz) as [e|e].
    - left. split; [apply Ca2; auto|apply Cb1].
    - specialize (Cb2 e). destruct (Rle_lt_or_eq_dec _ _ (proj1 Ca1)) as [h|h]; [right; split; [split; [exact h|apply Ca1]|exact Cb2]|].
      left. split; [symmetry; exact h|]. rewrite Cb2. lra. }
  rewrite E1, Em in HS. assert (Hq : (1 <= q)%nat) by (destruct q; [cbn in Eq; lra|lia]).
  apply (emits_exact s (mu_output m) tmin tcod dt (Z + p) (Z + (p + q)) 0); auto; [|lia|inr; lra].
  apply HLg; [unfold Z; lia|exact HS|]. inr. lra.
Qed.

(** ** the second operand equal to one: the output is one, whatever the first operand *)
Theorem multiplier_second_one (tmin tcod x1 dt ta tb T : R) (K : nat) nm ord :
  0 < dt <= 1 / 2 -> 0 < tcod -> 1 + dt <= tmin -> 4 * dt <= tmin -> 0 <= ta -> 0 <= tb -> ord_ok ord -> aligned dt tmin -> tcod = INR K * dt ->
  0 <= x1 -> x1 * tcod <= tcod - dt ->
  Rmax ta tb + 5 + 2 * (tmin + tcod) <= T ->
  exists m s, session (MultiplierNetwork (DataEncoder tmin tcod) nm) mu_mod (DataEncoder tmin tcod) dt (mul_stims x1 1 ta tb) ord T = Ok (m, s) /\
    emits s (mu_output m) (DataEncoder tmin tcod) 1 (dt / tcod).
Proof.
  intros [Hdt Hdt2] Htc Htm Htm2 Hta Htb HO HAl HK Hp1 Hx1 HT.
  assert (L1 : x1 <= 1) by (apply Rmult_le_reg_r with tcod; lra).
  pose proof (Rmax_l ta tb) as M1. pose proof (Rmax_r ta tb) as M2.
  destruct (mul_sess tmin tcod x1 1 dt ta tb T nm ord) as (m & s & N & Es & HA & HLg); auto; try lra.
  exists m, s. split; [exact Es|]. rewrite !Rmult_1_l in *. 
  assert (Hc1 : 0 <= x1 * tcod) by (apply Rmult_le_pos; lra).
  destruct (aligned_steps dt tmin Hdt ltac:(lra) HAl) as (p & q & E1 & E2 & E3 & Em & Ep & Eq).
  assert (Hi : 0 < / tcod) by (apply Rinv_0_lt_compat; auto).
  assert (HK1 : (1 <= K)%nat) by (destruct K; [cbn in HK; lra|lia]).
  assert (EK : step_at dt tcod = K) by (rewrite HK; apply step_at_grid; auto).
  pose proof (steps_aligned_gap dt tmin (ta + 1) (x1 * tcod) Hdt ltac:(lra) HAl ltac:(lra) Hc1) as Ca.
  destruct (step_diff dt (ta + 1) (tmin + x1 * tcod) Hdt ltac:(lra) ltac:(lra)) as (_ & Qa & _).
  assert (Qb : INR (step_at dt (tb + 1 + (tmin + tcod))) * dt - INR (step_at dt (tb + 1)) * dt = tmin + 1 * tcod).
  { rewrite Rmult_1_l. apply (grid_diff dt (tb + 1) (tmin + tcod) (q + K)); auto; [lra|]. rewrite plus_INR. lra. }
  destruct (charge_grid dt tmin tcod 1 _ _ Hdt Htc ltac:(lra) HAl ltac:(lra) Qb) as (Cb & Cb0).
  pose proof (max_window dt ta tb (tmin + x1 * tcod) (tmin + tcod) Hdt Hta Htb ltac:(lra) ltac:(lra)) as MW.
  pose proof (proj1 (max_time dt _ _ _ Hdt) (Rle_refl (INR (Nat.max (step_at dt (ta + 1 + (tmin + x1 * tcod))) (step_at dt (tb + 1 + (tmin + tcod)))) * dt))) as [_ MB].
  pose proof (step_at_bounds dt (tb + 1) Hdt ltac:(lra)) as BB. pose proof (step_at_ge1 dt (tb + 1)) as GB.
  set (a1 := step_at dt (ta + 1)) in *. set (a2 := step_at dt (ta + 1 + (tmin + x1 * tcod))) in *. set (b1 := step_at dt (tb + 1)) in *. set (b2 := step_at dt (tb + 1 + (tmin + tcod))) in *.
  destruct (in_full2 N m dt tmin tcod _ _ _ _ _ _ HA Ca Cb) as (_ & HS).
  { rewrite E1, Em in *. apply Rabs_def2 in Qa.
    assert (EQ : INR (a2 + p - (a1 + (p + q))) * dt = INR a2 * dt - INR a1 * dt - tmin) by (inr; lra).
    split; [apply Rmult_le_pos; [apply pos_INR|apply Rmult_le_pos; lra]|]. unfold Rdiv. rewrite <- Rmult_assoc. apply Rmult_lt_reg_r with tcod; auto. rewrite Rmult_assoc, Rinv_l by lra. lra. }
  { rewrite Cb0. lra. } { lra. }
  rewrite E1, E2, Em, EK in HS. assert (Hp : (1 <= p)%nat) by (destruct p; [cbn in Ep; lra|lia]). assert (Hq : (1 <= q)%nat) by (destruct q; [cbn in Eq; lra|lia]).
  assert (HQ2 : (1 < q)%nat) by (nat_lt dt Hdt; lra).
  eapply (emits_intro _ _ _ _ dt); [auto|auto|apply HLg; [|exact HS|]|..].
  - lia.
  - inr. lra.
  - lia.
  - replace (dt / tcod * tcod) with dt by (field; lra). rewrite Rmult_1_l. inr. apply Rabs_le. lra.
Qed.

Lemma bernoulli y n : 0 <= y <= 1 -> 1 - INR n * y <= (1 - y) ^ n.
Proof.
  intros Hy. induction n as [|n IH]; [cbn; lra|]. rewrite S_INR. cbn [pow]. pose proof (pos_INR n). nra.
Qed.
Lemma bernoulli_inv y n : 0 <= y <= 1 -> (1 - y) ^ n * (1 + INR n * y) <= 1.
Proof.
  intros Hy. induction n as [|n IH]; [cbn; lra|]. rewrite S_INR. cbn [pow]. pose proof (pos_INR n) as P. pose proof (pow_le (1 - y) n ltac:(lra)) as Q.
  apply Rle_trans with ((1 - y) ^ n * (1 + INR n * y)); auto.
  replace ((1 - y) * (1 - y) ^ n * (1 + (INR n + 1) * y)) with ((1 - y) ^ n * (1 + INR n * y - (INR n + 1) * (y * y))) by ring.
  apply Rmult_le_compat_l; auto. assert (0 <= (INR n + 1) * (y * y)) by (apply Rmult_le_pos; nra). lra.
Qed.

Lemma pow_upper P dt : 0 < dt -> 0 < P -> P * (1 + (1 + dt) / 20) <= 1 -> P <= 20 / 21.
Proof. intros. nra. Qed.
Lemma v_bounds x R0 v : 0 < v -> v * R0 = x -> 37 / 40 <= R0 <= 20 / 21 -> 21 / 20 * x <= v <= 11 / 10 * x.
Proof. intros Hv <- H. split; nra. Qed.
Lemma slack X x dt R0 : X <= x + dt / 20 -> 0 < dt -> 37 / 40 <= R0 -> X <= x + dt / 18 * R0.
Proof. intros. nra. Qed.
(** ** the first operand equal to one: the output is at least five percent too large *)
Theorem multiplier_first_one (tmin tcod x2 dt t0 T : R) (K k2 : nat) nm ord :
  0 < dt <= 1 / 2 -> 0 < tcod -> 1 + dt <= tmin -> 4 * dt <= tmin -> 0 <= t0 -> ord_ok ord -> aligned dt tmin -> tcod = INR K * dt ->
  exp (-16) <= x2 <= 9 / 10 -> x2 * tcod = INR k2 * dt ->
  t0 + 12 + 2 * (tmin + tcod) + 20 * - ln x2 <= T ->
  exists m s v, session (MultiplierNetwork (DataEncoder tmin tcod) nm) mu_mod (DataEncoder tmin tcod) dt (mul_stims 1 x2 t0 t0) ord T = Ok (m, s) /\
    21 / 20 * x2 <= v <= 11 / 10 * x2 /\ emits s (mu_output m) (DataEncoder tmin tcod) v (dt / tcod + dt / 18).
Proof.
  intros [Hdt Hdt2] Htc Htm Htm2 Hta HO HAl HK Hx2 Hk2 HT. pose proof (exp_pos (-16)) as Hep.
  destruct (ln_prod_bound 1 x2 16 ltac:(lra) ltac:(lra) ltac:(rewrite Rmult_1_l; apply Hx2)) as [LB _]. rewrite ln_1 in LB.
  pose proof (ln_neg x2 ltac:(lra)) as N2.
  destruct (mul_sess tmin tcod 1 x2 dt t0 t0 T nm ord) as (m & s & N & Es & HA & HLg); auto; try lra.
  rewrite !Rmult_1_l in *.
  assert (Hxc : 0 <= x2 * tcod <= tcod) by (split; [apply Rmult_le_pos; lra|rewrite <- (Rmult_1_l tcod) at 2; apply Rmult_le_compat_r; lra]).
  destruct (aligned_steps dt tmin Hdt ltac:(lra) HAl) as (p & q & E1 & E2 & E3 & Em & Ep & Eq).
  assert (HK1 : (1 <= K)%nat) by (destruct K; [cbn in HK; lra|lia]).
  assert (EK : step_at dt tcod = K) by (rewrite HK; apply step_at_grid; auto).
  assert (HkK : (k2 <= K)%nat) by (nat_le dt Hdt; lra).
  assert (Qa : INR (step_at dt (t0 + 1 + (tmin + tcod))) * dt - INR (step_at dt (t0 + 1)) * dt = tmin + 1 * tcod).
  { rewrite Rmult_1_l. apply (grid_diff dt (t0 + 1) (tmin + tcod) (q + K)); auto; [lra|]. rewrite plus_INR. lra. }
  assert (Qb : INR (step_at dt (t0 + 1 + (tmin + x2 * tcod))) * dt - INR (step_at dt (t0 + 1)) * dt = tmin + x2 * tcod).
  { apply (grid_diff dt (t0 + 1) (tmin + x2 * tcod) (q + k2)); auto; [lra|]. rewrite plus_INR. lra. }
  destruct (charge_grid dt tmin tcod 1 _ _ Hdt Htc ltac:(lra) HAl ltac:(lra) Qa) as (Ca & Ca0).
  destruct (charge_grid dt tmin tcod x2 _ _ Hdt Htc ltac:(lra) HAl ltac:(lra) Qb) as (Cb & Cb0).
  pose proof (max_window dt t0 t0 (tmin + tcod) (tmin + x2 * tcod) Hdt Hta Hta ltac:(lra) ltac:(lra)) as MW.
  pose proof (step_at_bounds dt (t0 + 1) Hdt ltac:(lra)) as BB. pose proof (step_at_ge1 dt (t0 + 1)) as GB.
  assert (EA2 : step_at dt (t0 + 1 + (tmin + tcod)) = (step_at dt (t0 + 1) + (q + K))%nat).
  { replace (tmin + tcod) with (INR (q + K) * dt) by (rewrite plus_INR; lra). apply step_exact; lra. }
  assert (EB2 : step_at dt (t0 + 1 + (tmin + x2 * tcod)) = (step_at dt (t0 + 1) + (q + k2))%nat).
  { rewrite Hk2. replace (tmin + INR k2 * dt) with (INR (q + k2) * dt) by (rewrite plus_INR; lra). apply step_exact; lra. }
  set (a1 := step_at dt (t0 + 1)) in *. set (a2 := step_at dt (t0 + 1 + (tmin + tcod))) in *. set (b2 := step_at dt (t0 + 1 + (tmin + x2 * tcod))) in *.
  assert (EM : Nat.max a2 b2 = a2) by lia.
  assert (Hp : (1 <= p)%nat) by (destruct p; [cbn in Ep; lra|lia]). assert (Hq : (1 < q)%nat) by (nat_lt dt Hdt; lra).
  set (r := 1 - dt / 20). assert (Hr : 0 < r < 1) by (unfold r; lra).
  destruct (least_pow r x2 Hr ltac:(lra)) as (j & J & J').
  destruct (least_pred (dt / 20) x2 j ltac:(lra) ltac:(lra) J J') as (Kj & P & P').
  destruct (least_ln (dt / 20) x2 j ltac:(lra) ltac:(lra) J J') as [_ L]. fold r in P, P'.
  assert (R1 : 37 / 40 <= r ^ (p + 1) <= 20 / 21).
  { pose proof (bernoulli (dt / 20) (p + 1) ltac:(lra)) as B1. pose proof (bernoulli_inv (dt / 20) (p + 1) ltac:(lra)) as B2. fold r in B1, B2. rewrite plus_INR in B1, B2. cbn [INR] in B1, B2.
    replace ((INR p + 1) * (dt / 20)) with ((1 + dt) / 20) in B1, B2 by lra. pose proof (pow_lt r (p + 1) ltac:(lra)). split; [lra|]. apply pow_upper with dt; lra. }
  assert (Hj : (p + 2 <= j)%nat).
  { destruct (Nat.le_gt_cases (p + 2) j); auto. exfalso. assert (r ^ (p + 1) <= r ^ j) by (apply pow_anti; auto; lia). lra. }
  set (k := (j - p - 2)%nat). assert (Ek : r ^ (j - 1) = r ^ k * r ^ (p + 1)) by (rewrite <- pow_add; f_equal; unfold k; lia).
  assert (Hrk : 0 < r ^ k <= 1) by (split; [apply pow_lt; lra|apply pow_le1; auto]).
  assert (Ef : (a1 + (p + q) - 1 + K + p - 1 + j - (a2 + 3 * p))%nat = k) by (unfold k; lia).
  destruct (in_full1 N m dt tmin tcod _ _ _ _ _ _ HA Ca Cb j) as (_ & HS).
  { rewrite Ca0. lra. } { rewrite Em, EK. lia. } { rewrite Cb0. lra. } { rewrite Cb0. exact J. } { rewrite Cb0. exact J'. }
  { rewrite Em, EK, E1, EM, E3. unfold k in Ef. lia. }
  { rewrite Em, EK, E1. rewrite EM in MW. inr. assert (INR a2 * dt = INR a1 * dt + tmin + tcod) by lra. lra. }
  fold a1 in HS. rewrite E1, E2, Em, EK, EM, E3, Ef in HS. fold r in HS.
  set (f2 := (a1 + (p + q) - 1 + K + p - 1 + j)%nat) in *.
  assert (HTr : 0 < tcod * r ^ k) by (apply Rmult_lt_0_compat; lra). assert (HTr2 : tcod * r ^ k <= tcod) by (apply shrink; lra).
  pose proof (step_at_bounds dt _ Hdt HTr) as BJ. pose proof (step_at_ge1 dt (tcod * r ^ k)) as GJ. set (g := step_at dt (tcod * r ^ k)) in *.
  exists m, s, (x2 / r ^ (p + 1)). split; [exact Es|]. set (R0 := r ^ (p + 1)) in *.
  assert (Ev : x2 / R0 * R0 = x2) by (field; lra). set (v := x2 / R0) in *.
  assert (Hv0 : 0 < v) by (apply Rmult_lt_reg_r with R0; lra).
  split; [apply (v_bounds x2 R0); auto|].
  assert (Hvk : v < r ^ k <= v + dt / 18).
  { split; apply Rmult_lt_reg_r with R0 || apply Rmult_le_reg_r with R0; try lra. rewrite <- Ek, Rmult_plus_distr_r, Ev. apply slack; lra. }
  eapply (emits_intro _ _ _ _ dt); [auto|auto|apply HLg; [|exact HS|]|..].
  - unfold f2. lia.
  - unfold f2. inr. lra.
  - lia.
  - replace ((dt / tcod + dt / 18) * tcod) with (dt + dt / 18 * tcod) by (field; lra). inr.
    assert (0 <= tcod * r ^ k - v * tcod <= dt / 18 * tcod).
    { replace (tcod * r ^ k - v * tcod) with ((r ^ k - v) * tcod) by ring. split; [apply Rmult_le_pos; lra|apply Rmult_le_compat_r; lra]. }
    apply Rabs_le. lra.
Qed.
