(** SignedMultiplierNetwork (C46): product and zero. *)
From Coq Require Import Arith ZArith Bool List Reals Lra Lia Permutation.
From Verif Require Import Num Heapq Elements Simulator Networks Trace SimTrace SimProps TraceProps NeuronLib NetLib Build BuildNets Bridge MemoryProof GeLib GfLib Session SimpleNets InvMem Misc LnLib FuncNets SegLib SubNet ExpLog MulNet MulRun SMem SignMul SignRun.
Import ListNotations.
Open Scope R_scope.
Open Scope list_scope.

(** the zero detector stays below threshold when one output spike comes before the last input *)
Lemma zero_quiet (z1 z2 z3 z4 u v : nat) : (1 <= u <= Nat.max z2 z4)%nat ->
  segs [(z1, 5/2); (z2, 5/2); (z3, 5/2); (z4, 5/2); (u, -5); (v, -5)] 0 [].
Proof.
  intros H1. cbn [segs]. intros k Hk. rewrite !vsum_cons, vsum_nil.
  destruct (Nat.leb_spec z2 k) as [A|A], (Nat.leb_spec z4 k) as [B|B].
  - rewrite (proj2 (Nat.leb_le u k)), (proj2 (Nat.ltb_lt 0 u)) by lia. cbn [andb].
    repeat match goal with |- context [if ?b then _ else _] => destruct b end; lra.
  - rewrite (andb_false_r (0 <? z4)). repeat match goal with |- context [if ?b then _ else _] => destruct b end; lra.
  - rewrite (andb_false_r (0 <? z2)). repeat match goal with |- context [if ?b then _ else _] => destruct b end; lra.
  - rewrite (andb_false_r (0 <? z2)). repeat match goal with |- context [if ?b then _ else _] => destruct b end; lra.
Qed.
(** inhibition seen by the two outputs *)
Lemma sx_inhib N m p1 p2 dt tmin tcod i1 i2 j1 j2 z1 z2 z3 z4 : sx_at N m p1 p2 dt tmin tcod i1 i2 j1 j2 z1 z2 z3 z4 ->
  (forall k, (1 <= k)%nat -> INR (arr N (sx_sign2 m) 1 k) + INR (arr N (sx_sign3 m) 1 k) = cnt k (if Bool.eqb p1 p2 then [] else [(Nat.max i2 j2 + step_at dt 1)%nat])) /\
  (forall k, (1 <= k)%nat -> INR (arr N (sx_sign1 m) 1 k) + INR (arr N (sx_sign4 m) 1 k) = cnt k (if Bool.eqb p1 p2 then [(Nat.max i2 j2 + step_at dt 1)%nat] else [])).
Proof.
  intros HA. pose proof (sa_ins _ _ _ _ _ _ _ _ _ _ _ _ _ _ _ HA) as HM. pose proof (sa_dt _ _ _ _ _ _ _ _ _ _ _ _ _ _ _ HA) as HD.
  pose proof (sa_i _ _ _ _ _ _ _ _ _ _ _ _ _ _ _ HA) as Hi.
  pose proof (sa_P _ _ _ _ _ _ _ _ _ _ _ _ _ _ _ HA) as SP. pose proof (sa_A _ _ _ _ _ _ _ _ _ _ _ _ _ _ _ HA) as SA.
  pose proof (sa_B _ _ _ _ _ _ _ _ _ _ _ _ _ _ _ HA) as SB. pose proof (sa_Z _ _ _ _ _ _ _ _ _ _ _ _ _ _ _ HA) as SZ.
  assert (HI : forall b1 b2, exists L, ins N (sx_sign m b1 b2) L) by (intros b1 b2; destruct b1, b2; cbn [sx_sign]; eexists; apply HM).
  assert (A1 : arrs N (sx_sign m p1 p2) 1 [(Nat.max i2 j2 + step_at dt 1)%nat]).
  { destruct (HI p1 p2) as (L & HL). eapply arrs_1; [exact HL|exact SP|rewrite HD; reflexivity|lia]. }
  assert (A0 : forall b1 b2, spikes_at N (sx_sign m b1 b2) [] -> arrs N (sx_sign m b1 b2) 1 []).
  { intros b1 b2 HS. destruct (HI b1 b2) as (L & HL). eapply arrs_0; [exact HL|exact HS]. }
  pose proof (A0 _ _ SA) as B1. pose proof (A0 _ _ SB) as B2. pose proof (A0 _ _ SZ) as B3.
  destruct p1, p2; cbn [sx_sign negb Bool.eqb] in *; split; intros k Hk;
    rewrite ?(A1 k Hk), ?(B1 k Hk), ?(B2 k Hk), ?(B3 k Hk), ?cnt_nil; lra.
Qed.
(** a product below the threshold of the zero detector: the output of the right sign repeats the inner output, the other one is silent *)
Lemma sx_product N m p1 p2 dt tmin tcod i1 i2 j1 j2 z1 z2 z3 z4 o1 o2 : sx_at N m p1 p2 dt tmin tcod i1 i2 j1 j2 z1 z2 z3 z4 ->
  spikes_at N (mu_output (sx_mn m)) [o1; o2] -> (Nat.max i2 j2 < o1 < o2)%nat -> (o1 + step_at dt 1 + step_at dt 1 <= Nat.max z2 z4)%nat ->
  spikes_at N (sx_out m (Bool.eqb p1 p2)) [(o1 + step_at dt 1)%nat; (o2 + step_at dt 1)%nat] /\ spikes_at N (sx_out m (negb (Bool.eqb p1 p2))) [].
Proof.
  intros HA HS Ho Hz. pose proof (sa_ins _ _ _ _ _ _ _ _ _ _ _ _ _ _ _ HA) as HM. pose proof (sa_dt _ _ _ _ _ _ _ _ _ _ _ _ _ _ _ HA) as HD.
  pose proof (sa_i _ _ _ _ _ _ _ _ _ _ _ _ _ _ _ HA) as Hi.
  destruct (sx_inhib _ _ _ _ _ _ _ _ _ _ _ _ _ _ _ HA) as [Jp Jm]. pose proof (sa_zs _ _ _ _ _ _ _ _ _ _ _ _ _ _ _ HA) as HZ.
  set (D := step_at dt 1) in *.
  assert (AO : arrs N (mu_output (sx_mn m)) 1 [(o1 + D)%nat; (o2 + D)%nat]).
  { eapply arrs_2; [apply HM|exact HS|rewrite HD; reflexivity|lia|lia|lia]. }
  set (O := [(o1 + D)%nat; (o2 + D)%nat]) in *.
  set (e := Bool.eqb p1 p2) in *.
  assert (ZQ : segs [(z1, 5/2); (z2, 5/2); (z3, 5/2); (z4, 5/2); ((o1 + D + D)%nat, -5); ((o2 + D + D)%nat, -5)] 0 []) by (apply zero_quiet; lia).
  destruct (sx_group N (1000 / tcod) tmin m HM O _ _ _ (if e then O else []) (if e then [] else O) [] AO Jp Jm HZ) as (S1 & S2 & _).
  - unfold O. clearbody e D. destruct e; cbn [map app]; clear - Ho Hi; segs_solve.
  - unfold O. clearbody e D. destruct e; cbn [map app]; clear - Ho Hi; segs_solve.
  - rewrite HD. fold D. destruct e; cbn [map app O]; exact ZQ.
  - destruct e; cbn [sx_out negb]; auto.
Qed.
(** the zero detector of the outer network fires although the inner network answers too *)
Lemma sx_zero_spk N m p1 p2 dt tmin tcod i1 i2 j1 j2 z1 z2 z3 z4 (D q Z : nat) : sx_at N m p1 p2 dt tmin tcod i1 i2 j1 j2 z1 z2 z3 z4 ->
  step_at dt 1 = D -> step_at dt (1 + tmin) = (D + q)%nat -> (1 <= D)%nat -> (2 * D < q)%nat -> Nat.max z2 z4 = Z -> (Nat.max i2 j2 < Z)%nat ->
  spikes_at N (mu_output (sx_mn m)) [(Z + 2 * D)%nat; (Z + 2 * D + q)%nat] ->
  if Bool.eqb p1 p2
  then spikes_at N (sx_output_plus m) [(Z + D)%nat; (Z + 3 * D)%nat; (Z + D + q)%nat; (Z + 3 * D + q)%nat] /\ spikes_at N (sx_output_minus m) []
  else spikes_at N (sx_output_plus m) [(Z + D + q)%nat; (Z + 3 * D + q)%nat] /\ spikes_at N (sx_output_minus m) [(Z + 3 * D)%nat; (Z + 3 * D + q)%nat].
Proof.
  intros HA E1 Em HD1 Hq EZ HiZ HS. pose proof (sa_ins _ _ _ _ _ _ _ _ _ _ _ _ _ _ _ HA) as HM. pose proof (sa_dt _ _ _ _ _ _ _ _ _ _ _ _ _ _ _ HA) as HD.
  pose proof (sa_i _ _ _ _ _ _ _ _ _ _ _ _ _ _ _ HA) as Hi. pose proof (sa_z12 _ _ _ _ _ _ _ _ _ _ _ _ _ _ _ HA) as H12. pose proof (sa_z34 _ _ _ _ _ _ _ _ _ _ _ _ _ _ _ HA) as H34.
  destruct (sx_inhib _ _ _ _ _ _ _ _ _ _ _ _ _ _ _ HA) as [Jp Jm]. pose proof (sa_zs _ _ _ _ _ _ _ _ _ _ _ _ _ _ _ HA) as HZ.
  rewrite E1 in *.
  assert (AO : arrs N (mu_output (sx_mn m)) 1 [(Z + 3 * D)%nat; (Z + 3 * D + q)%nat]).
  { replace (Z + 3 * D)%nat with (Z + 2 * D + D)%nat by lia. replace (Z + 2 * D + D + q)%nat with (Z + 2 * D + q + D)%nat by lia.
    eapply arrs_2; [apply HM|exact HS|rewrite HD; exact E1|lia|lia|lia]. }
  set (e := Bool.eqb p1 p2) in *. set (A := Nat.max i2 j2) in *. clearbody A.
  set (F := if e then [(Z + D)%nat; (Z + 3 * D)%nat; (Z + D + q)%nat; (Z + 3 * D + q)%nat] else [(Z + D + q)%nat; (Z + 3 * D + q)%nat]).
  set (G := if e then [] else [(Z + 3 * D)%nat; (Z + 3 * D + q)%nat]).
  destruct (sx_group N (1000 / tcod) tmin m HM _ _ _ _ F G [Z] AO Jp Jm HZ) as (S1 & S2 & _).
  - rewrite HD, E1, Em. unfold F. clearbody e. clear - HiZ Hq HD1. destruct e; cbn [map app]; segs_solve.
  - unfold G. clearbody e. clear - HiZ Hq HD1. destruct e; cbn [map app]; segs_solve.
  - rewrite HD, E1. unfold F, G. clearbody e. clear - HiZ Hq HD1 EZ H12 H34.
    destruct (Nat.le_gt_cases z2 z4); [rewrite Nat.max_r in EZ by lia|rewrite Nat.max_l in EZ by lia]; subst Z; destruct e; cbn [map app]; segs_solve.
  - unfold F, G in *. destruct e; auto.
Qed.
Theorem signed_multiplier_run (tmin tcod x1 x2 dt ta tb T : R) (p1 p2 : bool) nm ord :
  0 < dt <= 1 / 2 -> 0 < tcod -> 1 + dt <= tmin -> 4 * dt <= tmin -> 0 <= ta -> 0 <= tb -> ord_ok ord ->
  0 < x1 -> 0 < x2 -> 4 * dt <= x1 * tcod <= tcod - 2 * dt -> 4 * dt <= x2 * tcod <= tcod - 2 * dt -> exp (-14) <= x1 * x2 ->
  Rmax ta tb + 62 + 2 * tmin + 3 * tcod + 20 * - ln (x1 * x2) <= T ->
  exists m s, session (SignedMultiplierNetwork (DataEncoder tmin tcod) nm) sx_mod (DataEncoder tmin tcod) dt (sx_stims p1 p2 x1 x2 ta tb) ord T = Ok (m, s) /\
    emits s (sx_out m (Bool.eqb p1 p2)) (DataEncoder tmin tcod) (x1 * x2) (7 * dt / tcod + dt / 10) /\
    spike_log s (sx_out m (negb (Bool.eqb p1 p2))) = [].
Proof.
  intros [Hdt Hdt2] Htc Htm Htm2 Hta Htb HO Hp1 Hp2 Hx1 Hx2 Hxx HT.
  assert (L1 : x1 <= 1) by (apply Rmult_le_reg_r with tcod; lra). assert (L2 : x2 <= 1) by (apply Rmult_le_reg_r with tcod; lra).
  destruct (ln_prod_bound x1 x2 14 Hp1 Hp2 ltac:(exact Hxx)) as [LB LE]. rewrite LE in HT.
  pose proof (ln_neg x1 ltac:(lra)) as N1. pose proof (ln_neg x2 ltac:(lra)) as N2.
  pose proof (Rmax_l ta tb) as M1. pose proof (Rmax_r ta tb) as M2.
  destruct (sx_sess tmin tcod x1 x2 dt ta tb T p1 p2 nm ord) as (m & s & N & Es & HA & HLg); auto; try lra.
  exists m, s. split; [exact Es|]. set (iv1 := tmin + x1 * tcod) in *. set (iv2 := tmin + x2 * tcod) in *.
  assert (Hv1 : 1 <= iv1 <= tmin + tcod) by (unfold iv1; lra). assert (Hv2 : 1 <= iv2 <= tmin + tcod) by (unfold iv2; lra).
  destruct (step_diff dt (ta + 1) iv1 Hdt ltac:(lra) ltac:(lra)) as (_ & Qa & _). destruct (step_diff dt (tb + 1) iv2 Hdt ltac:(lra) ltac:(lra)) as (_ & Qb & _).
  pose proof (max_window dt ta tb iv1 iv2 Hdt Hta Htb ltac:(lra) ltac:(lra)) as MW.
  pose proof (step_at_bounds dt (ta + 1 + iv1) Hdt ltac:(lra)) as BA. pose proof (step_at_bounds dt (tb + 1 + iv2) Hdt ltac:(lra)) as BB.
  assert (MA : INR (Nat.max (step_at dt (ta + 1 + iv1)) (step_at dt (tb + 1 + iv2))) * dt <= Rmax ta tb + 1 + (tmin + tcod) + dt) by (apply max_time; auto; split; lra).
  pose proof (step_at_bounds dt 1 Hdt ltac:(lra)) as BD. pose proof (step_at_bounds dt 350 Hdt ltac:(lra)) as BP.
  set (i1 := step_at dt (ta + 1)) in *. set (i2 := step_at dt (ta + 1 + iv1)) in *. set (j1 := step_at dt (tb + 1)) in *. set (j2 := step_at dt (tb + 1 + iv2)) in *.
  set (D := step_at dt 1) in *. set (P := step_at dt 350) in *. set (A := Nat.max i2 j2) in *.
  destruct (mul_value N (sx_mn m) dt tmin tcod (i1 + D) (i2 + D) (j1 + D) (j2 + D) (i2 + P) (j2 + P) x1 x2) as (o1 & o2 & HS & Ho & Ht & He); auto.
  { apply HA. } { rewrite !plus_INR. replace (_ - _) with (INR i2 * dt - INR i1 * dt - (tmin + x1 * tcod)) by ring. exact Qa. }
  { rewrite !plus_INR. replace (_ - _) with (INR j2 * dt - INR j1 * dt - (tmin + x2 * tcod)) by ring. exact Qb. }
  { rewrite !Nat.add_max_distr_r. fold A. inr. lra. }
  rewrite !Nat.add_max_distr_r in Ho, Ht. fold A in Ho, Ht. rewrite plus_INR in Ht.
  assert (Hx12 : 0 <= x1 * x2 <= 1) by (split; [apply Rmult_le_pos; lra|rewrite <- (Rmult_1_l 1); apply Rmult_le_compat; lra]).
  assert (Hxc : 0 <= x1 * x2 * tcod <= tcod) by (split; [apply Rmult_le_pos; lra|rewrite <- (Rmult_1_l tcod) at 2; apply Rmult_le_compat_r; lra]).
  assert (Hdc : dt / 10 * tcod <= tcod) by (rewrite <- (Rmult_1_l tcod) at 2; apply Rmult_le_compat_r; lra).
  destruct (sx_product _ _ _ _ _ _ _ _ _ _ _ _ _ _ _ o1 o2 HA HS) as [S1 S2]; [fold A; lia| |].
  { fold D. nat_le dt Hdt. lra. }
  fold D in S1. apply Rabs_le2 in He.
  assert (Hlt : (o1 + D < o2 + D)%nat) by lia. assert (HD1 : INR o1 * dt + INR D * dt <= T - (tmin + 2 * tcod + 5)) by lra.
  split.
  - eapply (emits_intro _ _ _ _ dt (o1 + D) (o2 + D)); auto.
    + apply HLg; auto; [cbn; lia|]. intros k [<-|[<-|[]]]; inr; lra.
    + replace ((7 * dt / tcod + dt / 10) * tcod) with (7 * dt + dt / 10 * tcod) by (field; lra). inr. apply Rabs_le. lra.
  - apply (HLg _ []); auto; [cbn; auto|]. intros k [].
Qed.
Theorem signed_multiplier_grid (tmin tcod x1 x2 dt ta tb T : R) (k1 k2 : nat) (p1 p2 : bool) nm ord :
  0 < dt <= 1 / 2 -> 0 < tcod -> 1 + dt <= tmin -> 4 * dt <= tmin -> 0 <= ta -> 0 <= tb -> ord_ok ord -> aligned dt tmin ->
  0 < x1 < 1 -> 0 < x2 < 1 -> x1 * tcod = INR k1 * dt -> x2 * tcod = INR k2 * dt -> exp (-16) <= x1 * x2 ->
  Rmax ta tb + 22 + 2 * tmin + 3 * tcod + 20 * - ln (x1 * x2) <= T ->
  exists m s, session (SignedMultiplierNetwork (DataEncoder tmin tcod) nm) sx_mod (DataEncoder tmin tcod) dt (sx_stims p1 p2 x1 x2 ta tb) ord T = Ok (m, s) /\
    emits s (sx_out m (Bool.eqb p1 p2)) (DataEncoder tmin tcod) (x1 * x2) (dt / tcod + dt / 10) /\
    spike_log s (sx_out m (negb (Bool.eqb p1 p2))) = [].
Proof.
  intros [Hdt Hdt2] Htc Htm Htm2 Hta Htb HO HAl Hp1 Hp2 Hx1 Hx2 Hxx HT.
  destruct (ln_prod_bound x1 x2 16 ltac:(lra) ltac:(lra) ltac:(exact Hxx)) as [LB LE]. rewrite LE in HT.
  pose proof (ln_neg x1 ltac:(lra)) as N1. pose proof (ln_neg x2 ltac:(lra)) as N2.
  pose proof (Rmax_l ta tb) as M1. pose proof (Rmax_r ta tb) as M2.
  assert (Hxc0 : forall x, 0 < x < 1 -> 0 <= x * tcod <= tcod) by (intros x Hx; split; [apply Rmult_le_pos; lra|rewrite <- (Rmult_1_l tcod) at 2; apply Rmult_le_compat_r; lra]).
  pose proof (Hxc0 x1 Hp1) as Hc1. pose proof (Hxc0 x2 Hp2) as Hc2.
  destruct (sx_sess tmin tcod x1 x2 dt ta tb T p1 p2 nm ord) as (m & s & N & Es & HA & HLg); auto; try lra.
  exists m, s. split; [exact Es|]. set (iv1 := tmin + x1 * tcod) in *. set (iv2 := tmin + x2 * tcod) in *.
  assert (Hv1 : 1 <= iv1 <= tmin + tcod) by (unfold iv1; lra). assert (Hv2 : 1 <= iv2 <= tmin + tcod) by (unfold iv2; lra).
  destruct (aligned_steps dt tmin Hdt ltac:(lra) HAl) as (p & q & E1 & E2 & E3 & Em & Ep & Eq).
  assert (Qa : INR (step_at dt (ta + 1 + iv1)) * dt - INR (step_at dt (ta + 1)) * dt = iv1).
  { apply (grid_diff dt (ta + 1) iv1 (q + k1)); auto; [lra|]. unfold iv1. rewrite plus_INR. lra. }
  assert (Qb : INR (step_at dt (tb + 1 + iv2)) * dt - INR (step_at dt (tb + 1)) * dt = iv2).
  { apply (grid_diff dt (tb + 1) iv2 (q + k2)); auto; [lra|]. unfold iv2. rewrite plus_INR. lra. }
  pose proof (max_window dt ta tb iv1 iv2 Hdt Hta Htb ltac:(lra) ltac:(lra)) as MW.
  pose proof (step_at_bounds dt (ta + 1 + iv1) Hdt ltac:(lra)) as BA. pose proof (step_at_bounds dt (tb + 1 + iv2) Hdt ltac:(lra)) as BB.
  assert (MA : INR (Nat.max (step_at dt (ta + 1 + iv1)) (step_at dt (tb + 1 + iv2))) * dt <= Rmax ta tb + 1 + (tmin + tcod) + dt) by (apply max_time; auto; split; lra).
  pose proof (step_at_bounds dt 1 Hdt ltac:(lra)) as BD. pose proof (step_at_bounds dt 350 Hdt ltac:(lra)) as BP.
  set (i1 := step_at dt (ta + 1)) in *. set (i2 := step_at dt (ta + 1 + iv1)) in *. set (j1 := step_at dt (tb + 1)) in *. set (j2 := step_at dt (tb + 1 + iv2)) in *.
  set (D := step_at dt 1) in *. set (P := step_at dt 350) in *. set (A := Nat.max i2 j2) in *.
  destruct (mul_value_grid N (sx_mn m) dt tmin tcod (i1 + D) (i2 + D) (j1 + D) (j2 + D) (i2 + P) (j2 + P) x1 x2) as (o1 & o2 & HS & Ho & _ & Ht & He); auto.
  { apply HA. } { rewrite !plus_INR. replace (_ - _) with (INR i2 * dt - INR i1 * dt) by ring. exact Qa. }
  { rewrite !plus_INR. replace (_ - _) with (INR j2 * dt - INR j1 * dt) by ring. exact Qb. }
  { rewrite !Nat.add_max_distr_r. fold A. inr. lra. }
  rewrite !Nat.add_max_distr_r in Ho, Ht. fold A in Ho, Ht. rewrite plus_INR in Ht.
  assert (Hx12 : 0 <= x1 * x2 <= 1) by (split; [apply Rmult_le_pos; lra|rewrite <- (Rmult_1_l 1); apply Rmult_le_compat; lra]).
  assert (Hxc : 0 <= x1 * x2 * tcod <= tcod) by (split; [apply Rmult_le_pos; lra|rewrite <- (Rmult_1_l tcod) at 2; apply Rmult_le_compat_r; lra]).
  assert (Hdc : dt / 10 * tcod <= tcod) by (rewrite <- (Rmult_1_l tcod) at 2; apply Rmult_le_compat_r; lra).
  destruct (sx_product _ _ _ _ _ _ _ _ _ _ _ _ _ _ _ o1 o2 HA HS) as [S1 S2]; [fold A; lia| |].
  { fold D. nat_le dt Hdt. lra. }
  fold D in S1. apply Rabs_le2 in He.
  assert (Hlt : (o1 + D < o2 + D)%nat) by lia. assert (HD1 : INR o1 * dt + INR D * dt <= T - (tmin + 2 * tcod + 5)) by lra.
  split.
  - eapply (emits_intro _ _ _ _ dt (o1 + D) (o2 + D)); auto.
    + apply HLg; auto; [cbn; lia|]. intros k [<-|[<-|[]]]; inr; lra.
    + replace ((dt / tcod + dt / 10) * tcod) with (dt + dt / 10 * tcod) by (field; lra). inr. apply Rabs_le. lra.
  - apply (HLg _ []); auto; [cbn; auto|]. intros k [].
Qed.
Lemma charge_low dt tmin tcod (t x : R) (d : nat) : 0 < dt -> 0 < tcod -> 0 < tmin -> aligned dt tmin -> 0 <= t -> 0 <= x -> x * tcod <= tcod - dt ->
  let a1 := (step_at dt (t + 1) + d)%nat in let a2 := (step_at dt (t + 1 + (tmin + x * tcod)) + d)%nat in let c := INR (a2 + step_at dt 1 - (a1 + step_at dt (1 + tmin))) * (dt / tcod) in
  (a1 + step_at dt (1 + tmin) <= a2 + step_at dt 1)%nat /\ 0 <= c < 1 /\ (x = 0 -> c = 0).
Proof.
  intros Hdt Htc Htm HAl Ht Hx Hxt. cbv zeta. assert (Hxc : 0 <= x * tcod) by (apply Rmult_le_pos; lra). assert (Hi : 0 < / tcod) by (apply Rinv_0_lt_compat; auto).
  destruct (aligned_steps dt tmin Hdt ltac:(lra) HAl) as (p & q & E1 & E2 & E3 & Em & Ep & Eq).
  pose proof (steps_aligned_gap dt tmin (t + 1) (x * tcod) Hdt ltac:(lra) HAl ltac:(lra) Hxc) as G. split; [lia|].
  destruct (step_diff dt (t + 1) (tmin + x * tcod) Hdt ltac:(lra) ltac:(lra)) as (_ & Q & _).
  set (a1 := step_at dt (t + 1)) in *. set (a2 := step_at dt (t + 1 + (tmin + x * tcod))) in *. rewrite E1, Em in *.
  replace (a2 + d + p - (a1 + d + (p + q)))%nat with (a2 + p - (a1 + (p + q)))%nat by lia.
  assert (EQ : INR (a2 + p - (a1 + (p + q))) * dt = INR a2 * dt - INR a1 * dt - tmin) by (inr; lra). apply Rabs_def2 in Q.
  split.
  - split; [apply Rmult_le_pos; [apply pos_INR|apply Rmult_le_pos; lra]|]. unfold Rdiv. rewrite <- Rmult_assoc. apply Rmult_lt_reg_r with tcod; auto. rewrite Rmult_assoc, Rinv_l by lra. lra.
  - intros ->. assert (E0 : a2 = (a1 + q)%nat) by (unfold a2, a1; rewrite Rmult_0_l, Rplus_0_r, Eq; rewrite step_exact by lra; reflexivity).
    replace (a2 + p - (a1 + (p + q)))%nat with 0%nat by lia. cbn [INR]. lra.
Qed.
Theorem signed_multiplier_zero (tmin tcod x1 x2 dt ta tb T : R) (p1 p2 : bool) nm ord :
  0 < dt <= 1 / 2 -> 0 < tcod -> 2 < tmin -> 4 * dt <= tmin -> 0 <= ta -> 0 <= tb -> ord_ok ord -> aligned dt tmin ->
  0 <= x1 -> 0 <= x2 -> x1 * x2 = 0 -> x1 * tcod <= tcod - dt -> x2 * tcod <= tcod - dt ->
  Rmax ta tb + 353 + 2 * tmin + tcod + dt <= T ->
  exists m s t, session (SignedMultiplierNetwork (DataEncoder tmin tcod) nm) sx_mod (DataEncoder tmin tcod) dt (sx_stims p1 p2 x1 x2 ta tb) ord T = Ok (m, s) /\
    spike_log s (sx_output_plus m) = (if Bool.eqb p1 p2 then [t; t + 2; t + tmin; t + tmin + 2] else [t + tmin; t + tmin + 2]) /\
    spike_log s (sx_output_minus m) = (if Bool.eqb p1 p2 then [] else [t + 2; t + tmin + 2]).
Proof.
  intros [Hdt Hdt2] Htc Htm Htm2 Hta Htb HO HAl Hp1 Hp2 Hz Hx1 Hx2 HT.
  assert (L1 : x1 <= 1) by (apply Rmult_le_reg_r with tcod; lra). assert (L2 : x2 <= 1) by (apply Rmult_le_reg_r with tcod; lra).
  pose proof (Rmax_l ta tb) as M1. pose proof (Rmax_r ta tb) as M2.
  destruct (sx_sess tmin tcod x1 x2 dt ta tb T p1 p2 nm ord) as (m & s & N & Es & HA & HLg); auto; try lra.
  assert (Hc1 : 0 <= x1 * tcod) by (apply Rmult_le_pos; lra). assert (Hc2 : 0 <= x2 * tcod) by (apply Rmult_le_pos; lra).
  destruct (aligned_steps dt tmin Hdt ltac:(lra) HAl) as (p & q & E1 & E2 & E3 & Em & Ep & Eq).
  assert (E350 : step_at dt 350 = (350 * p)%nat).
  { rewrite <- (step_at_grid dt (350 * p)); auto; [|assert (1 <= p)%nat by (destruct p; [cbn in Ep; lra|lia]); lia]. f_equal. rewrite mult_INR, Rmult_assoc, <- Ep. replace (INR 350) with 350 by (rewrite INR_IZR_INZ; reflexivity). lra. }
  destruct (charge_low dt tmin tcod ta x1 p Hdt Htc ltac:(lra) HAl Hta Hp1 Hx1) as (Ca & Ca1 & Ca2).
  destruct (charge_low dt tmin tcod tb x2 p Hdt Htc ltac:(lra) HAl Htb Hp2 Hx2) as (Cb & Cb1 & Cb2).
  set (iv1 := tmin + x1 * tcod) in *. set (iv2 := tmin + x2 * tcod) in *.
  assert (Hp : (1 <= p)%nat) by (destruct p; [cbn in Ep; lra|lia]).
  assert (Hshift : forall t iv, 0 <= t -> 0 <= iv -> step_at dt (t + 350 + iv) = (step_at dt (t + 1 + iv) + 349 * p)%nat).
  { intros t iv Ht Hiv. rewrite <- step_exact by lra. f_equal. rewrite mult_INR, Rmult_assoc, <- Ep. replace (INR 349) with 349 by (rewrite INR_IZR_INZ; reflexivity). lra. }
  pose proof (Hshift ta iv1 Hta ltac:(unfold iv1; lra)) as W1. pose proof (Hshift tb iv2 Htb ltac:(unfold iv2; lra)) as W2.
  pose proof (step_at_bounds dt (ta + 350 + iv1) Hdt ltac:(unfold iv1; lra)) as BA. pose proof (step_at_bounds dt (tb + 350 + iv2) Hdt ltac:(unfold iv2; lra)) as BB.
  assert (MA : INR (Nat.max (step_at dt (ta + 350 + iv1)) (step_at dt (tb + 350 + iv2))) * dt <= Rmax ta tb + 350 + (tmin + tcod)) by (apply max_time; auto; unfold iv1, iv2 in *; split; lra).
  set (Z := Nat.max (step_at dt (ta + 350 + iv1)) (step_at dt (tb + 350 + iv2))) in *.
  assert (EZ : Nat.max (step_at dt (ta + 1 + iv1) + step_at dt 350) (step_at dt (tb + 1 + iv2) + step_at dt 350) = (Z + p)%nat) by (unfold Z; rewrite W1, W2, E350; lia).
  assert (Hq : (2 * p < q)%nat). { nat_lt dt Hdt. lra. }
  assert (HS : spikes_at N (mu_output (sx_mn m)) [(Z + 2 * p)%nat; (Z + 2 * p + q)%nat]).
  { pose proof (sa_mul _ _ _ _ _ _ _ _ _ _ _ _ _ _ _ HA) as HMu. pose proof (sa_i _ _ _ _ _ _ _ _ _ _ _ _ _ _ _ HA) as Hi.
    rewrite E1 in HMu. pose proof (in_zero N (sx_mn m) dt tmin tcod _ _ _ _ _ _ HMu Ca Cb) as HZ. rewrite EZ, Em, E1 in HZ.
    replace (Z + 2 * p)%nat with (Z + p + p)%nat by lia. replace (Z + p + p + q)%nat with (Z + p + (p + q))%nat by lia. apply HZ. clear HZ.
    rewrite Em, E1 in *. destruct (Rmult_integral _ _ Hz) as [e|e].
    - left. split; [apply Ca2; auto|apply Cb1].
    - specialize (Cb2 e). destruct (Rle_lt_or_eq_dec _ _ (proj1 Ca1)) as [h|h]; [right; split; [split; [exact h|apply Ca1]|exact Cb2]|].
      left. split; [symmetry; exact h|]. rewrite Cb2. lra. }
  pose proof (sx_zero_spk N m p1 p2 dt tmin tcod _ _ _ _ _ _ _ _ p q Z HA E1 Em Hp Hq eq_refl) as HF.
  specialize (HF ltac:(unfold Z; rewrite W1, W2; lia) HS).
  exists m, s, (INR (Z + p) * dt). split; [exact Es|].
  assert (T1 : forall k, (k <= Z + 3 * p + q)%nat -> INR k * dt <= T).
  { intros k Hk. apply Rle_trans with (INR (Z + 3 * p + q) * dt); [apply Rmult_le_compat_r; [lra|apply le_INR; lia]|]. inr. lra. }
  assert (HTm : forall l, times dt l = map (fun k => INR k * dt) l) by reflexivity.
  assert (Q1 : INR (Z + 3 * p) * dt = INR (Z + p) * dt + 2) by (inr; lra). assert (Q2 : INR (Z + p + q) * dt = INR (Z + p) * dt + tmin) by (inr; lra).
  assert (Q3 : INR (Z + 3 * p + q) * dt = INR (Z + p) * dt + tmin + 2) by (inr; lra).
  destruct (Bool.eqb p1 p2); destruct HF as [F1 F2].
  - split.
    + change (sx_output_plus m) with (sx_out m true). rewrite (HLg true _) with (2 := F1); [|cbn; lia|intros k Hk; apply T1; cbn in Hk; lia]. rewrite HTm. cbn [map]. rewrite Q1, Q2, Q3. reflexivity.
    + apply (HLg false [] ltac:(cbn; auto) F2). intros k [].
  - split.
    + change (sx_output_plus m) with (sx_out m true). rewrite (HLg true _) with (2 := F1); [|cbn; lia|intros k Hk; apply T1; cbn in Hk; lia]. rewrite HTm. cbn [map]. rewrite Q2, Q3. reflexivity.
    + change (sx_output_minus m) with (sx_out m false). rewrite (HLg false _) with (2 := F2); [|cbn; lia|intros k Hk; apply T1; cbn in Hk; lia]. rewrite HTm. cbn [map]. rewrite Q1, Q3. reflexivity.
Qed.
