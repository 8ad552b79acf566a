(** SignedMultiplierNormNetwork (C48): value of the output. *)
From Coq Require Import Arith ZArith Bool List Reals Lra Lia Permutation.
From Verif Require Import Num Heapq Elements Simulator Networks Trace SimTrace SimProps TraceProps NeuronLib NetLib Build BuildNets Bridge MemoryProof GeLib GfLib Session SimpleNets InvMem Misc LnLib FuncNets SegLib SubNet ExpLog MulNet MulRun SMem SignMul SignRun SignProd NormNet.
Import ListNotations.
Open Scope R_scope.
Open Scope list_scope.

Lemma scaled_err f y z d : 0 < f -> - d <= y - z <= d -> - (f * d) <= f * y - f * z <= f * d.
Proof. intros Hf H. rewrite <- Rmult_minus_distr_l. replace (- (f * d)) with (f * - d) by ring. split; apply Rmult_le_compat_l; lra. Qed.
Lemma grid_le dt tmin (p q D e1 e2 : nat) : 0 < dt -> D = p -> tmin = INR q * dt -> (e1 + (p + q) <= e2 + D)%nat -> INR e1 * dt + tmin <= INR e2 * dt.
Proof.
  intros Hdt -> -> H. rewrite <- Rmult_plus_distr_r, <- plus_INR. apply Rmult_le_compat_r; [lra|apply le_INR; lia].
Qed.
Lemma sn_value N m p1 p2 dt tmin tcod f i1 i2 j1 j2 x1 x2 : sn_at N m p1 p2 dt tmin tcod f i1 i2 j1 j2 -> 1 <= tmin ->
  0 < x1 -> 0 < x2 -> 4 * dt <= x1 * tcod <= tcod - 2 * dt -> 4 * dt <= x2 * tcod <= tcod - 2 * dt ->
  Rabs (INR i2 * dt - INR i1 * dt - (tmin + x1 * tcod)) < dt -> Rabs (INR j2 * dt - INR j1 * dt - (tmin + x2 * tcod)) < dt ->
  - ln x1 + - ln x2 <= 14 -> 10 * dt + dt / 10 * tcod <= x1 * x2 * tcod -> x1 * x2 * tcod + 7 * dt + dt / 10 * tcod <= tcod ->
  f * (x1 * x2 * tcod + 7 * dt + dt / 10 * tcod) <= tcod -> (3 + 3 * f) * dt <= tmin ->
  exists e1 e2, spikes_at N (sn_out m (Bool.eqb p1 p2)) [e1; e2] /\ spikes_at N (sn_out m (negb (Bool.eqb p1 p2))) [] /\ (Nat.max i2 j2 < e1 < e2)%nat /\
    INR e1 * dt <= INR (Nat.max i2 j2) * dt + 62 + 20 * (- ln x1 + - ln x2) + tmin + (tmin + tcod) / f /\
    Rabs (INR e2 * dt - INR e1 * dt - (tmin + f * (x1 * x2) * tcod)) <= (2 + 10 * f) * dt + f * (dt / 10) * tcod.
Proof.
  intros HA Ht1 Hp1 Hp2 Hx1 Hx2 Qa Qb HL Hlow Hhi Hfh Htm3. pose proof (sn_mul _ _ _ _ _ _ _ _ _ _ _ _ HA) as HMu.
  destruct (in_D N _ dt tmin tcod _ _ _ _ _ _ HMu) as ([Hdt Hdt2] & Htc & Htm2 & _). pose proof (na_f _ _ _ _ _ _ _ _ _ _ _ _ HA) as Hf.
  pose proof (na_i1 _ _ _ _ _ _ _ _ _ _ _ _ HA) as Hi1.
  pose proof (step_at_bounds dt 1 Hdt ltac:(lra)) as BD. pose proof (step_at_bounds dt 350 Hdt ltac:(lra)) as BP.
  set (D := step_at dt 1) in *. set (P := step_at dt 350) in *. set (A := Nat.max i2 j2) in *.
  assert (L1 : x1 <= 1) by (apply Rmult_le_reg_r with tcod; lra). assert (L2 : x2 <= 1) by (apply Rmult_le_reg_r with tcod; lra).
  pose proof (ln_neg x1 ltac:(lra)) as N1. pose proof (ln_neg x2 ltac:(lra)) as N2.
  destruct (mul_value N (sn_mn m) dt tmin tcod (i1 + D) (i2 + D) (j1 + D) (j2 + D) (i2 + P) (j2 + P) x1 x2) as (o1 & o2 & HS & Ho & Ht & He); auto.
  { rewrite !plus_INR. replace (_ - _) with (INR i2 * dt - INR i1 * dt - (tmin + x1 * tcod)) by ring. exact Qa. }
  { rewrite !plus_INR. replace (_ - _) with (INR j2 * dt - INR j1 * dt - (tmin + x2 * tcod)) by ring. exact Qb. }
  { rewrite !Nat.add_max_distr_r. fold A. inr. lra. }
  rewrite !Nat.add_max_distr_r in Ho, Ht. fold A in Ho, Ht. rewrite plus_INR in Ht. apply Rabs_le2 in He.
  set (v := (INR o2 * dt - INR o1 * dt - tmin) / tcod). assert (Hv : v * tcod = INR o2 * dt - INR o1 * dt - tmin) by (unfold v; field; lra).
  set (E := 7 * dt + dt / 10 * tcod) in *.
  assert (Hv0 : 0 <= v) by (apply Rmult_le_reg_r with tcod; unfold E in *; lra). assert (Hv1 : v <= 1) by (apply Rmult_le_reg_r with tcod; unfold E in *; lra).
  pose proof (scaled_err f (v * tcod) (x1 * x2 * tcod) E Hf ltac:(lra)) as Hs.
  assert (Hfv : f * v <= 1).
  { apply Rmult_le_reg_r with tcod; auto. rewrite Rmult_assoc. replace (f * (x1 * x2 * tcod + 7 * dt + dt / 10 * tcod)) with (f * (x1 * x2 * tcod) + f * E) in Hfh by (unfold E; ring). lra. }
  destruct (sn_scale N m p1 p2 dt tmin tcod f i1 i2 j1 j2 HA o1 o2 v HS) as (e1 & e2 & S1 & S2 & Hee & Het & Hev & _); auto; try (fold A; lia); try lra.
  { fold D. nat_le dt Hdt. unfold E in *. lra. }
  { right. unfold E in *. lra. }
  exists e1, e2. split; auto. split; auto. split; [fold A; lia|]. split; [lra|].
  apply Rabs_le2 in Hev. assert (f * E = 7 * f * dt + f * (dt / 10) * tcod) by (unfold E; ring).
  assert (f * (v * tcod) = f * v * tcod) by ring. assert (f * (x1 * x2 * tcod) = f * (x1 * x2) * tcod) by ring. apply Rabs_le. lra.
Qed.
Lemma sn_value_grid N m p1 p2 dt tmin tcod f i1 i2 j1 j2 x1 x2 : sn_at N m p1 p2 dt tmin tcod f i1 i2 j1 j2 -> aligned dt tmin -> 1 <= tmin ->
  0 < x1 < 1 -> 0 < x2 < 1 ->
  INR i2 * dt - INR i1 * dt = tmin + x1 * tcod -> INR j2 * dt - INR j1 * dt = tmin + x2 * tcod ->
  - ln x1 + - ln x2 <= 16 -> x1 * x2 * tcod + dt + dt / 10 * tcod <= tcod ->
  f * (x1 * x2 * tcod + dt + dt / 10 * tcod) <= tcod -> (3 + 3 * f) * dt <= tmin ->
  exists e1 e2, spikes_at N (sn_out m (Bool.eqb p1 p2)) [e1; e2] /\ spikes_at N (sn_out m (negb (Bool.eqb p1 p2))) [] /\ (Nat.max i2 j2 < e1 < e2)%nat /\
    INR e1 * dt <= INR (Nat.max i2 j2) * dt + 22 + 20 * (- ln x1 + - ln x2) + tmin + (tmin + tcod) / f /\
    Rabs (INR e2 * dt - INR e1 * dt - (tmin + f * (x1 * x2) * tcod)) <= (2 + 4 * f) * dt + f * (dt / 10) * tcod /\ INR e1 * dt + tmin <= INR e2 * dt.
Proof.
  intros HA HAl Ht1 Hp1 Hp2 Qa Qb HL Hhi Hfh Htm3. pose proof (sn_mul _ _ _ _ _ _ _ _ _ _ _ _ HA) as HMu.
  destruct (in_D N _ dt tmin tcod _ _ _ _ _ _ HMu) as ([Hdt Hdt2] & Htc & Htm2 & _). pose proof (na_f _ _ _ _ _ _ _ _ _ _ _ _ HA) as Hf.
  pose proof (na_i1 _ _ _ _ _ _ _ _ _ _ _ _ HA) as Hi1.
  pose proof (step_at_bounds dt 1 Hdt ltac:(lra)) as BD. pose proof (step_at_bounds dt 350 Hdt ltac:(lra)) as BP.
  destruct (aligned_steps dt tmin Hdt ltac:(lra) HAl) as (p & q & E1 & E2 & E3 & Em & Ep & Eq).
  set (D := step_at dt 1) in *. set (P := step_at dt 350) in *. set (A := Nat.max i2 j2) in *.
  pose proof (ln_neg x1 ltac:(lra)) as N1. pose proof (ln_neg x2 ltac:(lra)) as N2.
  destruct (mul_value_grid N (sn_mn m) dt tmin tcod (i1 + D) (i2 + D) (j1 + D) (j2 + D) (i2 + P) (j2 + P) x1 x2) as (o1 & o2 & HS & Ho & Hg & Ht & He); auto.
  { rewrite !plus_INR. replace (_ - _) with (INR i2 * dt - INR i1 * dt) by ring. exact Qa. }
  { rewrite !plus_INR. replace (_ - _) with (INR j2 * dt - INR j1 * dt) by ring. exact Qb. }
  { rewrite !Nat.add_max_distr_r. fold A. inr. lra. }
  rewrite !Nat.add_max_distr_r in Ho, Ht. fold A in Ho, Ht. rewrite plus_INR in Ht. apply Rabs_le2 in He. fold D in Hg.
  set (v := (INR o2 * dt - INR o1 * dt - tmin) / tcod). assert (Hv : v * tcod = INR o2 * dt - INR o1 * dt - tmin) by (unfold v; field; lra).
  set (E := dt + dt / 10 * tcod) in *.
  assert (Hgq : (o1 + q <= o2)%nat) by lia. assert (Hgq2 : INR o1 * dt + tmin <= INR o2 * dt).
  { rewrite Eq, <- Rmult_plus_distr_r, <- plus_INR. apply Rmult_le_compat_r; [lra|apply le_INR; auto]. }
  assert (Hv0 : 0 <= v) by (apply Rmult_le_reg_r with tcod; lra). assert (Hv1 : v <= 1) by (apply Rmult_le_reg_r with tcod; unfold E in *; lra).
  pose proof (scaled_err f (v * tcod) (x1 * x2 * tcod) E Hf ltac:(lra)) as Hs.
  assert (Hfv : f * v <= 1).
  { apply Rmult_le_reg_r with tcod; auto. rewrite Rmult_assoc. replace (f * (x1 * x2 * tcod + dt + dt / 10 * tcod)) with (f * (x1 * x2 * tcod) + f * E) in Hfh by (unfold E; ring). lra. }
  assert (Hpq : (p <= q)%nat). { nat_le dt Hdt. rewrite <- Ep, <- Eq. lra. }
  destruct (sn_scale N m p1 p2 dt tmin tcod f i1 i2 j1 j2 HA o1 o2 v HS) as (e1 & e2 & S1 & S2 & Hee & Het & Hev & Hgr); auto; try (fold A; lia); try lra.
  exists e1, e2. split; auto. split; auto. split; [fold A; lia|]. split; [lra|].
  split; [|specialize (Hgr ltac:(fold D; lia)); rewrite Em in Hgr; fold D in Hgr; apply (grid_le dt tmin p q D); auto; lra].
  apply Rabs_le2 in Hev. assert (f * E = f * dt + f * (dt / 10) * tcod) by (unfold E; ring).
  assert (f * (v * tcod) = f * v * tcod) by ring. assert (f * (x1 * x2 * tcod) = f * (x1 * x2) * tcod) by ring. apply Rabs_le. lra.
Qed.
