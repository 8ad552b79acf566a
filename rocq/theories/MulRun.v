(** MultiplierNetwork (C31): the value carried by the output pair. *)
From Coq Require Import Arith ZArith Bool List Reals Lra Lia Permutation.
From Verif Require Import Num Heapq Elements Simulator Networks Trace SimTrace SimProps TraceProps NeuronLib NetLib Build BuildNets Bridge MemoryProof GeLib GfLib Session SimpleNets InvMem Misc LnLib FuncNets SegLib SubNet ExpLog MulNet.
Import ListNotations.
Open Scope R_scope.
Open Scope list_scope.

(** least power below c: its predecessor approximates c from above *)
Lemma least_pred y c j : 0 < y < 1 -> 0 < c < 1 -> (1 - y) ^ j <= c -> (forall i, (i < j)%nat -> c < (1 - y) ^ i) ->
  (1 <= j)%nat /\ c < (1 - y) ^ (j - 1) <= 1 /\ (1 - y) ^ (j - 1) <= c + y.
Proof.
  intros Hy Hc Hj Hi. assert (H1 : (1 <= j)%nat) by (destruct j; [cbn in Hj; lra|lia]). split; auto.
  assert (P1 : (1 - y) ^ (j - 1) <= 1) by (apply pow_le1; lra). specialize (Hi (j - 1)%nat ltac:(lia)). split; [lra|].
  replace j with (S (j - 1)) in Hj by lia. rewrite <- tech_pow_Rmult in Hj. nra.
Qed.

(** the operands and the network as seen from inside *)
Record mul_at (N : tnet) (m : mul_net) (dt tmin tcod : R) (a1 a2 b1 b2 z2 z4 : nat) : Prop := {
  ma_dt : t_dt N = dt;
  ma_dt1 : 0 < dt <= 1 / 2;
  ma_tc : 0 < tcod;
  ma_tm : 4 * dt <= tmin;
  ma_ins : mu_ins N (1000 / tcod) tmin m;
  ma_a : arrs N (mu_input1 m) 1 [a1; a2];
  ma_b : arrs N (mu_input2 m) 1 [b1; b2];
  ma_a1 : (1 <= a1)%nat;
  ma_a2 : (a1 + step_at dt 1 <= a2)%nat;
  ma_b1 : (1 <= b1)%nat;
  ma_b2 : (b1 + step_at dt 1 <= b2)%nat;
  ma_z1 : exists z1, arrs N (mu_input1 m) 350 [z1; z2] /\ (1 <= z1 < z2)%nat;
  ma_z2 : exists z3, arrs N (mu_input2 m) 350 [z3; z4] /\ (1 <= z3 < z4)%nat
}.
(** the lemmas of MulNet.v over an explicit time step *)
Lemma w_log1 N m dt tmin tcod a1 a2 b1 b2 z2 z4 :
  mul_at N m dt tmin tcod a1 a2 b1 b2 z2 z4 -> (a1 + step_at dt (1 + tmin) <= a2 + step_at dt 1)%nat -> (b1 + step_at dt (1 + tmin) <= b2 + step_at dt 1)%nat ->
  let c1 := INR (a2 + step_at dt 1 - (a1 + step_at dt (1 + tmin))) * (dt / tcod) in
  (c1 = 0 -> spikes_at N (mu_acc_log1 m) []) /\
  (forall j, c1 < 1 -> (1 - dt / 20) ^ j <= c1 -> (forall i, (i < j)%nat -> c1 < (1 - dt / 20) ^ i) ->
     (1 <= j)%nat /\ spikes_at N (mu_acc_log1 m) [(Nat.max a2 b2 + step_at dt 1 + step_at dt 1 - 1 + j)%nat]) /\
  (1 <= c1 -> (step_at dt tcod <= a2 + step_at dt 1 - (a1 + step_at dt (1 + tmin)))%nat /\ spikes_at N (mu_acc_log1 m) [(a1 + step_at dt (1 + tmin) - 1 + step_at dt tcod)%nat]).
Proof.
  intros [<- [P1 P2] P3 P4 HM Ia Ib A1 A2 B1 B2 Z1 Z2] Hea Heb. cbv zeta. assert (P0 : 0 < t_dt N < 20) by lra.
  destruct (mu_log1_spk N m tcod tmin P0 P3 HM a1 a2 b1 b2 Ia Ib A1 A2 B1 B2 Hea Heb) as (X & Y & Z). split; [exact X|split; [|exact Z]].
  intros j. unfold mu_S in Y. rewrite Nat.add_max_distr_r in Y. apply Y.
Qed.
Lemma w_log2 N m dt tmin tcod a1 a2 b1 b2 z2 z4 f1 :
  mul_at N m dt tmin tcod a1 a2 b1 b2 z2 z4 -> (a1 + step_at dt (1 + tmin) <= a2 + step_at dt 1)%nat -> (b1 + step_at dt (1 + tmin) <= b2 + step_at dt 1)%nat ->
  spikes_at N (mu_acc_log1 m) [f1] -> (1 <= f1)%nat -> (b2 <= f1)%nat ->
  let c2 := INR (b2 + step_at dt 1 - (b1 + step_at dt (1 + tmin))) * (dt / tcod) in
  (c2 = 0 -> spikes_at N (mu_acc_log2 m) []) /\
  (forall j, c2 < 1 -> (1 - dt / 20) ^ j <= c2 -> (forall i, (i < j)%nat -> c2 < (1 - dt / 20) ^ i) ->
     (1 <= j)%nat /\ spikes_at N (mu_acc_log2 m) [(f1 + step_at dt 1 - 1 + j)%nat]) /\
  (1 <= c2 -> (step_at dt tcod <= b2 + step_at dt 1 - (b1 + step_at dt (1 + tmin)))%nat /\ spikes_at N (mu_acc_log2 m) [(b1 + step_at dt (1 + tmin) - 1 + step_at dt tcod)%nat]).
Proof.
  intros [<- [P1 P2] P3 P4 HM Ia Ib A1 A2 B1 B2 Z1 Z2] Hea Heb F1 F2 F3. assert (P0 : 0 < t_dt N < 20) by lra.
  exact (mu_log2_spk N m tcod tmin P0 P3 HM a1 a2 b1 b2 Ib A1 A2 B1 B2 Hea Heb f1 F1 F2 F3).
Qed.
Lemma w_alone N m dt tmin tcod a1 a2 b1 b2 z2 z4 :
  mul_at N m dt tmin tcod a1 a2 b1 b2 z2 z4 -> (a1 + step_at dt (1 + tmin) <= a2 + step_at dt 1)%nat -> (b1 + step_at dt (1 + tmin) <= b2 + step_at dt 1)%nat ->
  spikes_at N (mu_acc_log1 m) [] ->
  let c2 := INR (b2 + step_at dt 1 - (b1 + step_at dt (1 + tmin))) * (dt / tcod) in
  (c2 < 1 -> spikes_at N (mu_acc_log2 m) []) /\
  (1 <= c2 -> (step_at dt tcod <= b2 + step_at dt 1 - (b1 + step_at dt (1 + tmin)))%nat /\ spikes_at N (mu_acc_log2 m) [(b1 + step_at dt (1 + tmin) - 1 + step_at dt tcod)%nat]).
Proof.
  intros [<- [P1 P2] P3 P4 HM Ia Ib A1 A2 B1 B2 Z1 Z2] Hea Heb F. assert (P0 : 0 < t_dt N < 20) by lra.
  exact (mu_log2_alone N m tcod tmin P0 P3 HM a1 a2 b1 b2 Ib A1 A2 B1 B2 Hea Heb F).
Qed.
Lemma w_exp N m dt tmin tcod a1 a2 b1 b2 z2 z4 f2 :
  mul_at N m dt tmin tcod a1 a2 b1 b2 z2 z4 -> (a1 + step_at dt (1 + tmin) <= a2 + step_at dt 1)%nat -> (b1 + step_at dt (1 + tmin) <= b2 + step_at dt 1)%nat ->
  spikes_at N (mu_acc_log2 m) [f2] -> (1 <= f2)%nat ->
  ((Nat.max a2 b2 + step_at dt 3 <= f2)%nat -> spikes_at N (mu_acc_exp m) [(f2 + step_at dt 1 - 1 + step_at dt (tcod * (1 - dt / 20) ^ (f2 - (Nat.max a2 b2 + step_at dt 3))))%nat]) /\
  ((f2 < Nat.max a2 b2 + step_at dt 3)%nat -> spikes_at N (mu_acc_exp m) [(f2 + step_at dt 1 - 1 + step_at dt tcod)%nat]).
Proof.
  intros [<- [P1 P2] P3 P4 HM Ia Ib A1 A2 B1 B2 Z1 Z2] Hea Heb F F'. assert (P0 : 0 < t_dt N < 20) by lra.
  destruct (mu_exp_spk N m tcod tmin P0 P3 HM a1 a2 b1 b2 Ia Ib A1 A2 B1 B2 Hea Heb f2 F F') as [X Y]. unfold mu_S in X, Y. rewrite Nat.add_max_distr_r in X, Y. split.
  - intros G. specialize (X ltac:(lia)). unfold rho in X.
    replace (f2 + step_at (t_dt N) 1 - (Nat.max a2 b2 + step_at (t_dt N) 1 + step_at (t_dt N) 3))%nat with (f2 - (Nat.max a2 b2 + step_at (t_dt N) 3))%nat in X by lia. exact X.
  - intros G. apply Y. lia.
Qed.
Lemma w_pair N m dt tmin tcod a1 a2 b1 b2 z2 z4 f2 fe :
  mul_at N m dt tmin tcod a1 a2 b1 b2 z2 z4 -> (a1 + step_at dt (1 + tmin) <= a2 + step_at dt 1)%nat -> (b1 + step_at dt (1 + tmin) <= b2 + step_at dt 1)%nat ->
  spikes_at N (mu_acc_log2 m) [f2] -> spikes_at N (mu_acc_exp m) [fe] -> (1 <= f2)%nat -> (1 <= fe)%nat ->
  (f2 + step_at dt 2 < fe + step_at dt (1 + tmin))%nat -> (f2 + step_at dt 2 + step_at dt 1 <= Nat.max z2 z4)%nat ->
  spikes_at N (mu_output m) [(f2 + step_at dt 2)%nat; (fe + step_at dt (1 + tmin))%nat].
Proof.
  intros [<- [P1 P2] P3 P4 HM Ia Ib A1 A2 B1 B2 Z1 Z2] Hea Heb F1 F2 F3 F4 F5 F6. destruct Z1 as (z1 & Z1 & Z1'). destruct Z2 as (z3 & Z2 & Z2').
  exact (mu_out_pair N m tcod tmin HM a1 a2 b1 b2 A1 A2 B1 B2 Hea Heb z1 z2 z3 z4 Z1 Z2 (conj Z1' Z2') f2 fe F1 F2 F3 F4 F5 F6).
Qed.
Lemma w_zero N m dt tmin tcod a1 a2 b1 b2 z2 z4 :
  mul_at N m dt tmin tcod a1 a2 b1 b2 z2 z4 -> (a1 + step_at dt (1 + tmin) <= a2 + step_at dt 1)%nat -> (b1 + step_at dt (1 + tmin) <= b2 + step_at dt 1)%nat ->
  spikes_at N (mu_acc_log2 m) [] -> (step_at dt 1 < step_at dt (1 + tmin))%nat ->
  spikes_at N (mu_output m) [(Nat.max z2 z4 + step_at dt 1)%nat; (Nat.max z2 z4 + step_at dt (1 + tmin))%nat].
Proof.
  intros [<- [P1 P2] P3 P4 HM Ia Ib A1 A2 B1 B2 Z1 Z2] Hea Heb F1 F2. destruct Z1 as (z1 & Z1 & Z1'). destruct Z2 as (z3 & Z2 & Z2'). assert (P0 : 0 < t_dt N < 20) by lra.
  exact (mu_out_zero N m tcod tmin P0 HM a1 a2 b1 b2 Ia Ib A1 A2 B1 B2 Hea Heb z1 z2 z3 z4 Z1 Z2 (conj Z1' Z2') F1 F2).
Qed.
Section Inner.
Variable N : tnet.
Variable m : mul_net.
Variables dt tmin tcod : R.
Variables a1 a2 b1 b2 z2 z4 : nat.
Hypothesis HA : mul_at N m dt tmin tcod a1 a2 b1 b2 z2 z4.
Let D1 := step_at dt 1.
Let D2 := step_at dt 2.
Let D3 := step_at dt 3.
Let Dm := step_at dt (1 + tmin).
Let c1 := INR (a2 + D1 - (a1 + Dm)) * (dt / tcod).
Let c2 := INR (b2 + D1 - (b1 + Dm)) * (dt / tcod).
Hypothesis Hea : (a1 + Dm <= a2 + D1)%nat.
Hypothesis Heb : (b1 + Dm <= b2 + D1)%nat.
Let r := 1 - dt / 20.
Let A := Nat.max a2 b2.

Lemma in_D : 0 < dt <= 1 / 2 /\ 0 < tcod /\ 4 * dt <= tmin /\ (1 <= D1)%nat /\ (1 <= Dm)%nat /\ 1 <= INR D1 * dt < 1 + dt /\ 2 <= INR D2 * dt < 2 + dt /\ 3 <= INR D3 * dt < 3 + dt /\ 1 + tmin <= INR Dm * dt < 1 + tmin + dt.
Proof.
  destruct HA as [_ [Hdt P2] P3 P4 _ _ _ _ _ _ _ _ _]. split; [lra|]. split; auto. split; auto.
  split; [apply step_at_ge1|]. split; [apply step_at_ge1|]. pose proof (step_at_bounds dt 1 Hdt ltac:(lra)). pose proof (step_at_bounds dt 2 Hdt ltac:(lra)).
  pose proof (step_at_bounds dt 3 Hdt ltac:(lra)). pose proof (step_at_bounds dt (1 + tmin) Hdt ltac:(lra)). unfold D1, D2, D3, Dm. lra.
Qed.
(** the first output spike comes early enough to silence the zero detector *)
Lemma in_pair f2 fe : spikes_at N (mu_acc_log2 m) [f2] -> spikes_at N (mu_acc_exp m) [fe] -> (1 <= f2)%nat -> (1 <= fe)%nat ->
  (f2 + D2 < fe + Dm)%nat -> INR f2 * dt + 5 <= INR (Nat.max z2 z4) * dt ->
  spikes_at N (mu_output m) [(f2 + D2)%nat; (fe + Dm)%nat].
Proof.
  intros H1 H2 H3 H4 H6 H7. destruct in_D as ([Hdt Hdt1] & Htc & Htm & G1 & Gm & B1 & B2 & B3 & Bm).
  apply (w_pair N m dt tmin tcod a1 a2 b1 b2 z2 z4); auto. fold D1 D2. nat_le dt Hdt. lra.
Qed.
Theorem in_product : 0 < c1 < 1 -> 0 < c2 < 1 -> INR A * dt + 14 + 20 * (- ln c1 + - ln c2) <= INR (Nat.max z2 z4) * dt ->
  exists f2 k p1 p2, spikes_at N (mu_output m) [(f2 + D2)%nat; (f2 + D1 - 1 + step_at dt (tcod * r ^ k) + Dm)%nat] /\
    (A < f2)%nat /\ INR f2 * dt <= INR A * dt + 9 + 20 * (- ln c1 + - ln c2) /\
    r ^ k = p1 * p2 * r ^ (3 * D1 - D3) /\ (c1 < p1 <= 1 /\ p1 <= c1 + dt / 20) /\ (c2 < p2 <= 1 /\ p2 <= c2 + dt / 20) /\ (3 * D1 - D3 <= 2)%nat.
Proof.
  intros Hc1 Hc2 HZ. destruct in_D as ([Hdt Hdt1] & Htc & Htm & G1 & Gm & B1 & B2 & B3 & Bm).
  assert (Hr : 0 < r < 1) by (unfold r; lra).
  destruct (least_pow r c1 Hr ltac:(lra)) as (j1 & J1 & J1'). destruct (least_pow r c2 Hr ltac:(lra)) as (j2 & J2 & J2').
  destruct (least_pred (dt / 20) c1 j1 ltac:(lra) Hc1 J1 J1') as (K1 & P1 & P1'). destruct (least_pred (dt / 20) c2 j2 ltac:(lra) Hc2 J2 J2') as (K2 & P2 & P2').
  destruct (least_ln (dt / 20) c1 j1 ltac:(lra) ltac:(lra) J1 J1') as [_ L1]. destruct (least_ln (dt / 20) c2 j2 ltac:(lra) ltac:(lra) J2 J2') as [_ L2].
  destruct (w_log1 N m dt tmin tcod a1 a2 b1 b2 z2 z4 HA Hea Heb) as (_ & W1 & _). fold D1 Dm c1 A r in W1. destruct (W1 j1 ltac:(lra) J1 J1') as [_ F1]. clear W1.
  destruct (w_log2 N m dt tmin tcod a1 a2 b1 b2 z2 z4 _ HA Hea Heb F1 ltac:(lia) ltac:(unfold A; lia)) as (_ & W2 & _).
  fold D1 Dm c2 r in W2. destruct (W2 j2 ltac:(lra) J2 J2') as [_ F2]. clear W2.
  set (f2 := (A + D1 + D1 - 1 + j1 + D1 - 1 + j2)%nat) in *.
  assert (H3D : (D3 <= 3 * D1)%nat) by (apply Nat.lt_succ_r; nat_lt dt Hdt; cbn [INR]; lra).
  assert (H3D' : (3 * D1 - D3 <= 2)%nat).
  { apply Nat.lt_succ_r. apply INR_lt. apply Rmult_lt_reg_r with dt; auto. rewrite minus_INR by auto. rewrite mult_INR. rewrite S_INR. cbn [INR]. lra. }
  set (k := (f2 - (A + D3))%nat).
  assert (Ek : k = (j1 - 1 + (j2 - 1) + (3 * D1 - D3))%nat) by (unfold k, f2; lia).
  destruct (w_exp N m dt tmin tcod a1 a2 b1 b2 z2 z4 f2 HA Hea Heb F2 ltac:(unfold f2; lia)) as (W3 & _).
  fold A D1 D3 r k in W3. specialize (W3 ltac:(unfold f2; lia)).
  assert (Hrk : 0 < r ^ k <= 1) by (split; [apply pow_lt; lra|apply pow_le1; auto]).
  pose proof (step_at_ge1 dt (tcod * r ^ k)) as Gs. set (s := step_at dt (tcod * r ^ k)) in *.
  assert (Hf2 : INR f2 * dt <= INR A * dt + 9 + 20 * (- ln c1 + - ln c2)).
  { unfold f2. inr. lra. }
  exists f2, k, (r ^ (j1 - 1)), (r ^ (j2 - 1)). fold r in P1, P1', P2, P2'.
  assert (Hs : 0 < INR s * dt) by (apply Rmult_lt_0_compat; auto; apply lt_0_INR; lia).
  assert (E1 : 0 <= - ln c1) by (apply ln_neg; lra). assert (E2 : 0 <= - ln c2) by (apply ln_neg; lra).
  split; [apply in_pair; auto; try (unfold f2; lia); [fold s; nat_lt dt Hdt; lra|lra]|].
  split; [unfold f2; lia|]. split; [exact Hf2|]. split; [rewrite Ek, !pow_add; auto|]. auto.
Qed.
(** a silent second accumulator: the zero detector answers *)
Theorem in_zero : ((c1 = 0 /\ c2 < 1) \/ (0 < c1 < 1 /\ c2 = 0)) -> spikes_at N (mu_output m) [(Nat.max z2 z4 + D1)%nat; (Nat.max z2 z4 + Dm)%nat].
Proof.
  intros HC. destruct in_D as ([Hdt Hdt1] & Htc & Htm & G1 & Gm & B1 & B2 & B3 & Bm).
  apply (w_zero N m dt tmin tcod a1 a2 b1 b2 z2 z4); auto; [|fold D1 Dm; nat_lt dt Hdt; lra].
  destruct (w_log1 N m dt tmin tcod a1 a2 b1 b2 z2 z4 HA Hea Heb) as (W0 & W1 & _). fold D1 Dm c1 A r in W0, W1.
  destruct HC as [[E1 E2]|[E1 E2]].
  - destruct (w_alone N m dt tmin tcod a1 a2 b1 b2 z2 z4 HA Hea Heb (W0 E1)) as (W2 & _). apply W2. exact E2.
  - assert (Hr : 0 < r < 1) by (unfold r; lra). destruct (least_pow r c1 Hr ltac:(lra)) as (j1 & J1 & J1'). destruct (W1 j1 (proj2 E1) J1 J1') as [G F1].
    destruct (w_log2 N m dt tmin tcod a1 a2 b1 b2 z2 z4 _ HA Hea Heb F1 ltac:(lia) ltac:(unfold A; lia)) as (W2 & _ & _). apply W2. exact E2.
Qed.
(** a full second operand: the answer is the full coding time, whatever the first operand *)
Theorem in_full2 : 0 <= c1 < 1 -> 1 <= c2 -> INR b2 * dt + 9 <= INR (Nat.max z2 z4) * dt ->
  let f2 := (b1 + Dm - 1 + step_at dt tcod)%nat in
  (step_at dt tcod <= b2 + D1 - (b1 + Dm))%nat /\ spikes_at N (mu_output m) [(f2 + D2)%nat; (f2 + D1 - 1 + step_at dt tcod + Dm)%nat].
Proof.
  intros E1 E2 HZ. cbv zeta. destruct in_D as ([Hdt Hdt1] & Htc & Htm & G1 & Gm & B1 & B2 & B3 & Bm).
  set (f2 := (b1 + Dm - 1 + step_at dt tcod)%nat). pose proof (step_at_ge1 dt tcod) as GM.
  assert (W : (step_at dt tcod <= b2 + D1 - (b1 + Dm))%nat /\ spikes_at N (mu_acc_log2 m) [f2]).
  { destruct (w_log1 N m dt tmin tcod a1 a2 b1 b2 z2 z4 HA Hea Heb) as (W0 & W1 & _). fold D1 Dm c1 A r in W0, W1.
    assert (Hr : 0 < r < 1) by (unfold r; lra).
    destruct (Rle_lt_or_eq_dec 0 c1 (proj1 E1)) as [P|P].
    - destruct (least_pow r c1 Hr P) as (j1 & J1 & J1'). destruct (W1 j1 (proj2 E1) J1 J1') as [G F1].
      destruct (w_log2 N m dt tmin tcod a1 a2 b1 b2 z2 z4 _ HA Hea Heb F1 ltac:(lia) ltac:(unfold A; lia)) as (_ & _ & W2). apply W2. exact E2.
    - destruct (w_alone N m dt tmin tcod a1 a2 b1 b2 z2 z4 HA Hea Heb (W0 (eq_sym P))) as (_ & W2). apply W2. exact E2. }
  destruct W as [WM F2]. split; auto. assert (Hb1 : (1 <= b1)%nat) by apply HA.
  assert (Hf2 : (f2 + 1 <= b2 + D1)%nat) by (unfold f2; lia).
  assert (HD13 : (D1 <= D3)%nat) by (nat_le dt Hdt; lra).
  destruct (w_exp N m dt tmin tcod a1 a2 b1 b2 z2 z4 f2 HA Hea Heb F2 ltac:(unfold f2; lia)) as (_ & W3). fold A D1 D3 in W3. specialize (W3 ltac:(unfold A; lia)).
  assert (Hs : 0 < INR (step_at dt tcod) * dt) by (apply Rmult_lt_0_compat; auto; apply lt_0_INR; lia).
  apply in_pair; auto; try (unfold f2; lia); [nat_lt dt Hdt; lra|].
  assert (INR f2 * dt + INR 1 * dt <= INR b2 * dt + INR D1 * dt) by (rewrite <- !Rmult_plus_distr_r, <- !plus_INR; apply Rmult_le_compat_r; [lra|apply le_INR; auto]). cbn [INR] in *. lra.
Qed.
(** a full first operand *)
Theorem in_full1 j : 1 <= c1 -> (b2 <= a1 + Dm - 1 + step_at dt tcod)%nat -> 0 < c2 < 1 -> r ^ j <= c2 -> (forall i, (i < j)%nat -> c2 < r ^ i) ->
  let f2 := (a1 + Dm - 1 + step_at dt tcod + D1 - 1 + j)%nat in
  (A + D3 <= f2)%nat -> INR f2 * dt + 5 <= INR (Nat.max z2 z4) * dt ->
  (step_at dt tcod <= a2 + D1 - (a1 + Dm))%nat /\
  spikes_at N (mu_output m) [(f2 + D2)%nat; (f2 + D1 - 1 + step_at dt (tcod * r ^ (f2 - (A + D3))) + Dm)%nat].
Proof.
  intros E1 Hlt E2 J J'. cbv zeta. intros Hg HZ. destruct in_D as ([Hdt Hdt1] & Htc & Htm & G1 & Gm & B1 & B2 & B3 & Bm). pose proof (step_at_ge1 dt tcod) as GM.
  assert (Ha1 : (1 <= a1)%nat) by apply HA.
  destruct (w_log1 N m dt tmin tcod a1 a2 b1 b2 z2 z4 HA Hea Heb) as (_ & _ & W1). destruct (W1 E1) as [WM F1]. split; auto. fold Dm in F1.
  destruct (w_log2 N m dt tmin tcod a1 a2 b1 b2 z2 z4 _ HA Hea Heb F1 ltac:(lia) Hlt) as (_ & W2 & _). fold D1 Dm c2 r in W2.
  destruct (W2 j (proj2 E2) J J') as [_ F2]. set (f2 := (a1 + Dm - 1 + step_at dt tcod + D1 - 1 + j)%nat) in *.
  destruct (w_exp N m dt tmin tcod a1 a2 b1 b2 z2 z4 f2 HA Hea Heb F2 ltac:(unfold f2; lia)) as (W3 & _). fold A D1 D3 r in W3. specialize (W3 Hg).
  pose proof (step_at_ge1 dt (tcod * r ^ (f2 - (A + D3)))) as Gs. set (s := step_at dt (tcod * r ^ (f2 - (A + D3)))) in *.
  assert (Hs : 0 < INR s * dt) by (apply Rmult_lt_0_compat; auto; apply lt_0_INR; lia).
  apply in_pair; auto; try (unfold f2; lia). fold s; nat_lt dt Hdt; lra.
Qed.
End Inner.

(** ** whole sessions *)
Definition mul_stims (x1 x2 ta tb : R) (m : mul_net) : list stim := [SValue x1 (mu_input1 m) ta; SValue x2 (mu_input2 m) tb].
Lemma mul_sess (tmin tcod x1 x2 dt ta tb T : R) nm ord :
  0 < dt <= 1 / 2 -> 0 < tcod -> 1 + dt <= tmin -> 4 * dt <= tmin -> 0 <= x1 <= 1 -> 0 <= x2 <= 1 -> 0 <= ta -> 0 <= tb -> ord_ok ord -> 0 <= T ->
  let iv1 := tmin + x1 * tcod in let iv2 := tmin + x2 * tcod in
  exists m s N, session (MultiplierNetwork (DataEncoder tmin tcod) nm) mu_mod (DataEncoder tmin tcod) dt (mul_stims x1 x2 ta tb) ord T = Ok (m, s) /\
    mul_at N m dt tmin tcod (step_at dt (ta + 1)) (step_at dt (ta + 1 + iv1)) (step_at dt (tb + 1)) (step_at dt (tb + 1 + iv2)) (step_at dt (ta + 350 + iv1)) (step_at dt (tb + 350 + iv2)) /\
    (forall o1 o2, (1 <= o1 < o2)%nat -> spikes_at N (mu_output m) [o1; o2] -> INR o2 * dt <= T -> spike_log s (mu_output m) = times dt [o1; o2]).
Proof.
  intros [Hdt Hdt2] Htc Htm Htm2 Hx1 Hx2 Hta Htb HO HT. cbv zeta. set (enc := DataEncoder tmin tcod).
  assert (HTc : tcod <> 0) by lra.
  destruct (Multiplier_built enc nm empty_world inv_empty (neq0 _ HTc)) as (m & w & E & HB & HN & HL).
  cbn [w_neurons empty_world length Nat.add] in HN, HL.
  set (stims := mul_stims x1 x2 ta tb).
  pose proof HN as HN'. unfold mu_nodes in HN'. nodes_eqs HN'.
  destruct (session_built (MultiplierNetwork enc nm) mu_mod m w _ enc dt stims ord T E HB Hdt HT) as (s & Es & HSe).
  { unfold stims, mul_stims. stims_ok. } { auto. }
  set (N := net_of w (exts enc (stims m)) dt) in *. unfold stims, mul_stims in *.
  exists m, s, N. split; [exact Es|].
  set (iv1 := tmin + x1 * tcod) in *. set (iv2 := tmin + x2 * tcod) in *.
  assert (Hxc : forall x, 0 <= x <= 1 -> 0 <= x * tcod <= tcod) by (intros x Hx; split; [apply Rmult_le_pos; lra|rewrite <- (Rmult_1_l tcod) at 2; apply Rmult_le_compat_r; lra]).
  pose proof (Hxc x1 Hx1) as Hc1. pose proof (Hxc x2 Hx2) as Hc2.
  assert (Hiv1 : 1 + dt <= iv1) by (unfold iv1; lra). assert (Hiv2 : 1 + dt <= iv2) by (unfold iv2; lra).
  assert (HG : forall t iv, 0 <= t -> 1 + dt <= iv -> (step_at dt (t + 1) + step_at dt 1 <= step_at dt (t + 1 + iv))%nat).
  { intros t iv Ht Hv. apply step_diff_ge; try lra; try apply step_at_ge1. pose proof (step_time dt 1 Hdt ltac:(lra)). lra. }
  assert (HZ : forall t iv, 0 <= t -> 1 + dt <= iv -> (1 <= step_at dt (t + 350) < step_at dt (t + 350 + iv))%nat).
  { intros t iv Ht Hv. split; [apply step_at_ge1|]. apply (step_diff dt (t + 350) iv Hdt); lra. }
  split.
  - constructor; auto; try apply step_at_ge1.
    + rewrite <- (wbar_R tmin). apply (mu_ins_of N enc m 0); auto. intros n Hn. apply (se_own _ _ _ _ _ _ _ _ HSe).
      * unfold mu_internal in Hn. cbn [In] in Hn. intuition lia.
      * unfold mu_internal in Hn. cbn [In] in Hn. repeat (destruct Hn as [<-|Hn]; [ext_simp; reflexivity|]). destruct Hn.
    + src_solve HSe. do 3 f_equal. unfold enc; cbn [DataEncoder Tmin Tcod]. unfold iv1. lra.
    + src_solve HSe. do 3 f_equal. unfold enc; cbn [DataEncoder Tmin Tcod]. unfold iv2. lra.
    + exists (step_at dt (ta + 350)). split; [|apply HZ; auto]. src_solve HSe. do 3 f_equal. unfold enc; cbn [DataEncoder Tmin Tcod]. unfold iv1. lra.
    + exists (step_at dt (tb + 350)). split; [|apply HZ; auto]. src_solve HSe. do 3 f_equal. unfold enc; cbn [DataEncoder Tmin Tcod]. unfold iv2. lra.
  - intros o1 o2 Ho HS HTo. apply (se_log _ _ _ _ _ _ _ _ HSe (mu_output m) [o1; o2]); [lia|ext_simp; reflexivity|exact HS|cbn; lia|].
    assert (INR o1 * dt <= INR o2 * dt) by (apply Rmult_le_compat_r; [lra|apply le_INR; lia]). intros i [<-|[<-|[]]]; lra.
Qed.
(** quantised charge *)
Lemma charge_of dt tmin tcod x (a1 a2 : nat) : 0 < dt -> 0 < tcod -> 0 < tmin -> 0 < x <= 1 -> 4 * dt <= x * tcod ->
  Rabs (INR a2 * dt - INR a1 * dt - (tmin + x * tcod)) < dt ->
  let c := INR (a2 + step_at dt 1 - (a1 + step_at dt (1 + tmin))) * (dt / tcod) in
  (a1 + step_at dt (1 + tmin) <= a2 + step_at dt 1)%nat /\ 0 < c /\ Rabs (c - x) < 2 * dt / tcod /\ - ln c <= - ln x + 1 /\ (x * tcod <= tcod - 2 * dt -> c < 1).
Proof.
  intros Hdt Htc Htm Hx Hxt HQ. cbv zeta. destruct (pair_gap dt tmin (x * tcod) a1 a2 Hdt Htm HQ ltac:(right; lra)) as [C1 C2]. split; auto.
  set (n := (a2 + step_at dt 1 - (a1 + step_at dt (1 + tmin)))%nat) in *.
  assert (Hi : 0 < / tcod) by (apply Rinv_0_lt_compat; auto).
  assert (Hcx : Rabs (INR n * (dt / tcod) - x) < 2 * dt / tcod).
  { replace (INR n * (dt / tcod) - x) with ((INR n * dt - x * tcod) / tcod) by (field; lra).
    unfold Rdiv. rewrite Rabs_mult, (Rabs_right (/ tcod)) by lra. apply Rmult_lt_compat_r; lra. }
  assert (Hdlt : 0 <= 2 * dt / tcod <= x / 2).
  { split; [apply Rmult_le_pos; lra|]. apply Rmult_le_reg_r with tcod; auto. replace (2 * dt / tcod * tcod) with (2 * dt) by (field; lra). lra. }
  destruct (ln_lip x _ _ ltac:(lra) Hdlt ltac:(left; exact Hcx)) as [Hc0 HL]. apply Rabs_le2 in HL.
  replace (2 * (2 * dt / tcod) / x) with (4 * dt / (x * tcod)) in HL by (field; lra).
  assert (4 * dt / (x * tcod) <= 1).
  { apply Rmult_le_reg_r with (x * tcod); [lra|]. unfold Rdiv. rewrite Rmult_assoc, Rinv_l by lra. lra. }
  split; auto. split; auto. split; [lra|]. intros Hs. apply Rabs_def2 in Hcx.
  assert (x + 2 * dt / tcod <= 1); [|lra]. apply Rmult_le_reg_r with tcod; auto. rewrite Rmult_plus_distr_r. replace (2 * dt / tcod * tcod) with (2 * dt) by (field; lra). lra.
Qed.
Lemma charge_grid dt tmin tcod x (a1 a2 : nat) : 0 < dt -> 0 < tcod -> 0 < tmin -> aligned dt tmin -> 0 <= x ->
  INR a2 * dt - INR a1 * dt = tmin + x * tcod ->
  (a1 + step_at dt (1 + tmin) <= a2 + step_at dt 1)%nat /\ INR (a2 + step_at dt 1 - (a1 + step_at dt (1 + tmin))) * (dt / tcod) = x.
Proof.
  intros Hdt Htc Htm HA Hx HD. destruct (grid_gap dt tmin (x * tcod) a1 a2 Hdt Htm HA HD) as [C1 C2]; [apply Rmult_le_pos; lra|]. split; auto.
  unfold Rdiv. rewrite <- Rmult_assoc, C2. field. lra.
Qed.
Lemma max_time dt (a b : nat) X : 0 < dt -> INR (Nat.max a b) * dt <= X <-> INR a * dt <= X /\ INR b * dt <= X.
Proof.
  intros Hdt. destruct (Nat.le_gt_cases a b).
  - rewrite Nat.max_r by auto. split; [intros|tauto]. split; auto. apply Rle_trans with (INR b * dt); auto. apply Rmult_le_compat_r; [lra|apply le_INR; auto].
  - rewrite Nat.max_l by lia. split; [intros|tauto]. split; auto. apply Rle_trans with (INR a * dt); auto. apply Rmult_le_compat_r; [lra|apply le_INR; lia].
Qed.
Lemma max_window dt ta tb i1 i2 : 0 < dt -> 0 <= ta -> 0 <= tb -> 0 <= i1 -> 0 <= i2 ->
  INR (Nat.max (step_at dt (ta + 1 + i1)) (step_at dt (tb + 1 + i2))) * dt + 349 - dt <= INR (Nat.max (step_at dt (ta + 350 + i1)) (step_at dt (tb + 350 + i2))) * dt.
Proof.
  intros Hdt H1 H2 H3 H4. pose proof (step_at_bounds dt (ta + 1 + i1) Hdt ltac:(lra)). pose proof (step_at_bounds dt (tb + 1 + i2) Hdt ltac:(lra)).
  pose proof (step_at_bounds dt (ta + 350 + i1) Hdt ltac:(lra)). pose proof (step_at_bounds dt (tb + 350 + i2) Hdt ltac:(lra)).
  set (Z := INR (Nat.max (step_at dt (ta + 350 + i1)) (step_at dt (tb + 350 + i2))) * dt).
  destruct (proj1 (max_time dt (step_at dt (ta + 350 + i1)) (step_at dt (tb + 350 + i2)) Z Hdt) (Rle_refl _)) as [Y1 Y2].
  assert (INR (Nat.max (step_at dt (ta + 1 + i1)) (step_at dt (tb + 1 + i2))) * dt <= Z - 349 + dt); [|lra]. apply max_time; auto. lra.
Qed.
Lemma ln_prod_bound x1 x2 K : 0 < x1 -> 0 < x2 -> exp (- K) <= x1 * x2 -> - ln x1 + - ln x2 <= K /\ - ln (x1 * x2) = - ln x1 + - ln x2.
Proof.
  intros H1 H2 H. rewrite ln_mult by auto. split; [|lra].
  assert (E : ln (exp (- K)) <= ln (x1 * x2)).
  { destruct (Rle_lt_or_eq_dec _ _ H) as [h|h]; [left; apply ln_increasing; auto; apply exp_pos|rewrite h; lra]. }
  rewrite ln_exp, ln_mult in E by auto. lra.
Qed.

Lemma prod_gap p1 p2 c1 c2 y : 0 <= c1 <= p1 -> p1 <= 1 -> p1 <= c1 + y -> 0 <= c2 <= p2 -> p2 <= 1 -> p2 <= c2 + y -> 0 <= p1 * p2 - c1 * c2 <= 2 * y.
Proof.
  intros A1 A2 A3 B1 B2 B3. assert (E : p1 * p2 - c1 * c2 = p1 * (p2 - c2) + c2 * (p1 - c1)) by ring. rewrite E.
  assert (0 <= p1 * (p2 - c2)) by (apply Rmult_le_pos; lra). assert (0 <= c2 * (p1 - c1)) by (apply Rmult_le_pos; lra).
  assert (p1 * (p2 - c2) <= 1 * (p2 - c2)) by (apply Rmult_le_compat_r; lra). assert (c2 * (p1 - c1) <= 1 * (p1 - c1)) by (apply Rmult_le_compat_r; lra). lra.
Qed.
Lemma prod_err c1 c2 x1 x2 d : 0 <= c1 <= 1 -> 0 <= x2 <= 1 -> Rabs (c1 - x1) <= d -> Rabs (c2 - x2) <= d -> - (2 * d) <= c1 * c2 - x1 * x2 <= 2 * d.
Proof.
  intros A B C D. apply Rabs_le2 in C. apply Rabs_le2 in D. assert (E : c1 * c2 - x1 * x2 = c1 * (c2 - x2) + x2 * (c1 - x1)) by ring. rewrite E. nra.
Qed.
Lemma shrink t e : 0 < t -> e <= 1 -> t * e <= t.
Proof. intros. nra. Qed.
Lemma prod_shrink P e y : 0 <= P <= 1 -> 1 - y <= e <= 1 -> P - y <= P * e <= P.
Proof. intros. nra. Qed.

Theorem multiplier_run (tmin tcod x1 x2 dt ta tb T : R) nm ord :
  0 < dt <= 1 / 2 -> 0 < tcod -> 1 + dt <= tmin -> 4 * dt <= tmin -> 0 <= ta -> 0 <= tb -> ord_ok ord ->
  0 < x1 -> 0 < x2 -> 4 * dt <= x1 * tcod <= tcod - 2 * dt -> 4 * dt <= x2 * tcod <= tcod - 2 * dt -> exp (-14) <= x1 * x2 ->
  Rmax ta tb + 55 + 2 * (tmin + tcod) + 20 * - ln (x1 * x2) <= T ->
  exists m s, session (MultiplierNetwork (DataEncoder tmin tcod) nm) mu_mod (DataEncoder tmin tcod) dt (mul_stims x1 x2 ta tb) ord T = Ok (m, s) /\
    emits s (mu_output m) (DataEncoder tmin tcod) (x1 * x2) (7 * dt / tcod + dt / 10).
Proof.
  intros [Hdt Hdt2] Htc Htm Htm2 Hta Htb HO Hp1 Hp2 Hx1 Hx2 Hxx HT.
  assert (L1 : x1 <= 1) by (apply Rmult_le_reg_r with tcod; lra). assert (L2 : x2 <= 1) by (apply Rmult_le_reg_r with tcod; lra).
  destruct (ln_prod_bound x1 x2 14 Hp1 Hp2 ltac:(exact Hxx)) as [LB LE]. rewrite LE in HT.
  pose proof (ln_neg x1 ltac:(lra)) as N1. pose proof (ln_neg x2 ltac:(lra)) as N2.
  pose proof (Rmax_l ta tb) as M1. pose proof (Rmax_r ta tb) as M2.
  destruct (mul_sess tmin tcod x1 x2 dt ta tb T nm ord) as (m & s & N & Es & HA & HLg); auto; try lra.
  exists m, s. split; [exact Es|]. set (iv1 := tmin + x1 * tcod) in *. set (iv2 := tmin + x2 * tcod) in *.
  assert (Hv1 : 1 <= iv1 <= tmin + tcod) by (unfold iv1; lra). assert (Hv2 : 1 <= iv2 <= tmin + tcod) by (unfold iv2; lra).
  destruct (step_diff dt (ta + 1) iv1 Hdt ltac:(lra) ltac:(lra)) as (_ & Qa & _). destruct (step_diff dt (tb + 1) iv2 Hdt ltac:(lra) ltac:(lra)) as (_ & Qb & _).
  destruct (charge_of dt tmin tcod x1 _ _ Hdt Htc ltac:(lra) ltac:(lra) ltac:(lra) Qa) as (Ca & Ca0 & Ca1 & Ca2 & Ca3).
  destruct (charge_of dt tmin tcod x2 _ _ Hdt Htc ltac:(lra) ltac:(lra) ltac:(lra) Qb) as (Cb & Cb0 & Cb1 & Cb2 & Cb3).
  specialize (Ca3 ltac:(lra)). specialize (Cb3 ltac:(lra)).
  pose proof (max_window dt ta tb iv1 iv2 Hdt Hta Htb ltac:(lra) ltac:(lra)) as MW.
  pose proof (step_at_bounds dt (ta + 1 + iv1) Hdt ltac:(lra)) as BA. pose proof (step_at_bounds dt (tb + 1 + iv2) Hdt ltac:(lra)) as BB.
  assert (MA : INR (Nat.max (step_at dt (ta + 1 + iv1)) (step_at dt (tb + 1 + iv2))) * dt <= Rmax ta tb + 1 + (tmin + tcod) + dt) by (apply max_time; auto; split; lra).
  set (a1 := step_at dt (ta + 1)) in *. set (a2 := step_at dt (ta + 1 + iv1)) in *. set (b1 := step_at dt (tb + 1)) in *. set (b2 := step_at dt (tb + 1 + iv2)) in *.
  set (c1 := INR (a2 + step_at dt 1 - (a1 + step_at dt (1 + tmin))) * (dt / tcod)) in *. set (c2 := INR (b2 + step_at dt 1 - (b1 + step_at dt (1 + tmin))) * (dt / tcod)) in *.
  destruct (in_product N m dt tmin tcod _ _ _ _ _ _ HA Ca Cb) as (f2 & k & p1 & p2 & HS & Hf & Hft & Hk & P1 & P2 & He).
  { fold c1. lra. } { fold c2. lra. } { fold c1 c2. lra. }
  fold c1 c2 in Hft, P1, P2. set (r := 1 - dt / 20) in *. set (e := (3 * step_at dt 1 - step_at dt 3)%nat) in *.
  assert (Hr : 0 < r < 1) by (unfold r; lra).
  assert (Hre : 1 - dt / 10 <= r ^ e <= 1).
  { split; [|apply pow_le1; auto]. apply Rle_trans with (r ^ 2); [unfold r; cbn; nra|apply pow_anti; auto]. }
  assert (Hrk : 0 < r ^ k <= 1) by (split; [apply pow_lt; lra|apply pow_le1; auto]).
  assert (Hdc : 0 < 2 * dt / tcod) by (apply Rdiv_lt_0_compat; lra).
  assert (HPv : Rabs (r ^ k - x1 * x2) <= dt / 10 + 4 * dt / tcod).
  { rewrite Hk. assert (U : 0 <= p1 * p2 - c1 * c2 <= 2 * (dt / 20)) by (apply prod_gap; lra).
    assert (V : - (2 * (2 * dt / tcod)) <= c1 * c2 - x1 * x2 <= 2 * (2 * dt / tcod)) by (apply prod_err; lra).
    assert (W : 0 <= p1 * p2 <= 1) by (split; [apply Rmult_le_pos; lra|rewrite <- (Rmult_1_l 1); apply Rmult_le_compat; lra]).
    pose proof (prod_shrink (p1 * p2) (r ^ e) (dt / 10) W Hre) as W2.
    apply Rabs_le. lra. }
  assert (HTr : 0 < tcod * r ^ k) by (apply Rmult_lt_0_compat; lra). assert (HTr2 : tcod * r ^ k <= tcod) by (apply shrink; lra).
  pose proof (step_at_bounds dt _ Hdt HTr) as BJ. set (q := step_at dt (tcod * r ^ k)) in *.
  destruct (out_timing dt tmin f2 q Hdt Htm2) as (C3 & C4).
  eapply (emits_intro _ _ _ _ dt); [auto|auto| |exact C3|].
  - apply HLg; [lia|exact HS|]. apply Rabs_le2 in C4. rewrite (plus_INR f2) in C4. pose proof (step_at_bounds dt 2 Hdt ltac:(lra)) as BD2. lra.
  - replace ((7 * dt / tcod + dt / 10) * tcod) with (7 * dt + dt / 10 * tcod) by (field; lra). apply Rabs_le2 in C4. apply Rabs_le2 in HPv.
    assert (- (dt / 10 * tcod + 4 * dt) <= r ^ k * tcod - x1 * x2 * tcod <= dt / 10 * tcod + 4 * dt).
    { replace (dt / 10 * tcod + 4 * dt) with ((dt / 10 + 4 * dt / tcod) * tcod) by (field; lra).
      replace (r ^ k * tcod - x1 * x2 * tcod) with ((r ^ k - x1 * x2) * tcod) by ring.
      rewrite <- Ropp_mult_distr_l_reverse. split; apply Rmult_le_compat_r; lra. }
    apply Rabs_le. lra.
Qed.

(** operands on the time grid *)
Theorem multiplier_grid (tmin tcod x1 x2 dt ta tb T : R) (k1 k2 : nat) nm ord :
  0 < dt <= 1 / 2 -> 0 < tcod -> 1 + dt <= tmin -> 4 * dt <= tmin -> 0 <= ta -> 0 <= tb -> ord_ok ord -> aligned dt tmin ->
  0 < x1 < 1 -> 0 < x2 < 1 -> x1 * tcod = INR k1 * dt -> x2 * tcod = INR k2 * dt -> exp (-16) <= x1 * x2 ->
  Rmax ta tb + 15 + 2 * (tmin + tcod) + 20 * - ln (x1 * x2) <= T ->
  exists m s, session (MultiplierNetwork (DataEncoder tmin tcod) nm) mu_mod (DataEncoder tmin tcod) dt (mul_stims x1 x2 ta tb) ord T = Ok (m, s) /\
    emits s (mu_output m) (DataEncoder tmin tcod) (x1 * x2) (dt / tcod + dt / 10).
Proof.
  intros [Hdt Hdt2] Htc Htm Htm2 Hta Htb HO HAl Hp1 Hp2 Hx1 Hx2 Hxx HT.
  destruct (ln_prod_bound x1 x2 16 ltac:(lra) ltac:(lra) ltac:(exact Hxx)) as [LB LE]. rewrite LE in HT.
  pose proof (ln_neg x1 ltac:(lra)) as N1. pose proof (ln_neg x2 ltac:(lra)) as N2.
  pose proof (Rmax_l ta tb) as M1. pose proof (Rmax_r ta tb) as M2.
  assert (Hxc : forall x, 0 < x < 1 -> 0 <= x * tcod <= tcod) by (intros x Hx; split; [apply Rmult_le_pos; lra|rewrite <- (Rmult_1_l tcod) at 2; apply Rmult_le_compat_r; lra]).
  pose proof (Hxc x1 Hp1) as Hc1. pose proof (Hxc x2 Hp2) as Hc2.
  destruct (mul_sess tmin tcod x1 x2 dt ta tb T nm ord) as (m & s & N & Es & HA & HLg); auto; try lra.
  exists m, s. split; [exact Es|]. set (iv1 := tmin + x1 * tcod) in *. set (iv2 := tmin + x2 * tcod) in *.
  assert (Hv1 : 1 <= iv1 <= tmin + tcod) by (unfold iv1; lra). assert (Hv2 : 1 <= iv2 <= tmin + tcod) by (unfold iv2; lra).
  destruct (aligned_steps dt tmin Hdt ltac:(lra) HAl) as (p & q & E1 & E2 & E3 & Em & Ep & Eq).
  assert (Qa : INR (step_at dt (ta + 1 + iv1)) * dt - INR (step_at dt (ta + 1)) * dt = iv1).
  { apply (grid_diff dt (ta + 1) iv1 (q + k1)); auto; [lra|]. unfold iv1. rewrite plus_INR. lra. }
  assert (Qb : INR (step_at dt (tb + 1 + iv2)) * dt - INR (step_at dt (tb + 1)) * dt = iv2).
  { apply (grid_diff dt (tb + 1) iv2 (q + k2)); auto; [lra|]. unfold iv2. rewrite plus_INR. lra. }
  destruct (charge_grid dt tmin tcod x1 _ _ Hdt Htc ltac:(lra) HAl ltac:(lra) Qa) as (Ca & Ca0).
  destruct (charge_grid dt tmin tcod x2 _ _ Hdt Htc ltac:(lra) HAl ltac:(lra) Qb) as (Cb & Cb0).
  pose proof (max_window dt ta tb iv1 iv2 Hdt Hta Htb ltac:(lra) ltac:(lra)) as MW.
  pose proof (step_at_bounds dt (ta + 1 + iv1) Hdt ltac:(lra)) as BA. pose proof (step_at_bounds dt (tb + 1 + iv2) Hdt ltac:(lra)) as BB.
  assert (MA : INR (Nat.max (step_at dt (ta + 1 + iv1)) (step_at dt (tb + 1 + iv2))) * dt <= Rmax ta tb + 1 + (tmin + tcod) + dt) by (apply max_time; auto; split; lra).
  set (a1 := step_at dt (ta + 1)) in *. set (a2 := step_at dt (ta + 1 + iv1)) in *. set (b1 := step_at dt (tb + 1)) in *. set (b2 := step_at dt (tb + 1 + iv2)) in *.
  destruct (in_product N m dt tmin tcod _ _ _ _ _ _ HA Ca Cb) as (f2 & k & p1 & p2 & HS & Hf & Hft & Hk & P1 & P2 & He); rewrite ?Ca0, ?Cb0 in *; try lra.
  set (r := 1 - dt / 20) in *. assert (Hr : 0 < r < 1) by (unfold r; lra).
  replace (3 * step_at dt 1 - step_at dt 3)%nat with 0%nat in Hk by (rewrite E1, E3; lia). rewrite Rmult_1_r in Hk.
  assert (Hrk : 0 < r ^ k <= 1) by (split; [apply pow_lt; lra|apply pow_le1; auto]).
  assert (UU : 0 <= p1 * p2 - x1 * x2 <= 2 * (dt / 20)) by (apply prod_gap; lra). assert (U : p1 * p2 - x1 * x2 <= dt / 10) by lra.
  assert (U' : 0 <= p1 * p2 - x1 * x2) by lra.
  assert (HTr : 0 < tcod * r ^ k) by (apply Rmult_lt_0_compat; lra). assert (HTr2 : tcod * r ^ k <= tcod) by (apply shrink; lra).
  pose proof (step_at_bounds dt _ Hdt HTr) as BJ. pose proof (step_at_ge1 dt (tcod * r ^ k)) as GJ. set (j := step_at dt (tcod * r ^ k)) in *.
  destruct (out_timing dt tmin f2 j Hdt Htm2) as (C3 & C4).
  eapply (emits_intro _ _ _ _ dt); [auto|auto| |exact C3|].
  - apply HLg; [lia|exact HS|]. apply Rabs_le2 in C4. rewrite (plus_INR f2) in C4. pose proof (step_at_bounds dt 2 Hdt ltac:(lra)) as BD2. lra.
  - replace ((dt / tcod + dt / 10) * tcod) with (dt + dt / 10 * tcod) by (field; lra).
    rewrite E1, E2, Em. assert (1 <= p)%nat by (destruct p; [cbn in Ep; lra|lia]).
    assert (0 <= r ^ k * tcod - x1 * x2 * tcod <= dt / 10 * tcod).
    { replace (r ^ k * tcod - x1 * x2 * tcod) with ((r ^ k - x1 * x2) * tcod) by ring. rewrite Hk. split; [apply Rmult_le_pos; lra|apply Rmult_le_compat_r; lra]. }
    inr. apply Rabs_le. lra.
Qed.

