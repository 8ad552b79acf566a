(** SignedMultiplierNormNetwork (C48): the value emitted by a whole run. *)
From Coq Require Import Arith ZArith Bool List Reals Lra Lia Permutation.
From Verif Require Import Num Heapq Elements Simulator Networks Trace SimTrace SimProps TraceProps NeuronLib NetLib Build BuildNets Bridge MemoryProof GeLib GfLib Session SimpleNets InvMem Misc LnLib FuncNets SegLib SubNet ExpLog MulNet MulRun SMem SignMul SignRun SignProd NormNet NormVal NormRun.
Import ListNotations.
Open Scope R_scope.
Open Scope list_scope.

Theorem signed_norm_run (tmin tcod f x1 x2 dt ta tb T : R) (p1 p2 : bool) nm ord :
  0 < dt <= 1 / 2 -> 0 < tcod -> 1 + dt <= tmin -> 4 * dt <= tmin -> 0 < f -> (3 + 3 * f) * dt <= tmin -> 0 <= ta -> 0 <= tb -> ord_ok ord ->
  0 < x1 -> 0 < x2 -> 4 * dt <= x1 * tcod <= tcod - 2 * dt -> 4 * dt <= x2 * tcod <= tcod - 2 * dt -> exp (-14) <= x1 * x2 ->
  10 * dt + dt / 10 * tcod <= x1 * x2 * tcod -> x1 * x2 * tcod + 7 * dt + dt / 10 * tcod <= tcod -> f * (x1 * x2 * tcod + 7 * dt + dt / 10 * tcod) <= tcod ->
  Rmax ta tb + 64 + 4 * tmin + 3 * tcod + (tmin + tcod) / f + (2 + 10 * f) * dt + f * (dt / 10) * tcod + 20 * - ln (x1 * x2) <= T ->
  exists m s, session (SignedMultiplierNormNetwork (DataEncoder tmin tcod) f nm) sn_mod (DataEncoder tmin tcod) dt (sn_stims p1 p2 x1 x2 ta tb) ord T = Ok (m, s) /\
    emits s (sn_out m (Bool.eqb p1 p2)) (DataEncoder tmin tcod) (f * (x1 * x2)) ((2 + 10 * f) * dt / tcod + f * dt / 10) /\
    spike_log s (sn_out m (negb (Bool.eqb p1 p2))) = [].
Proof.
  intros [Hdt Hdt2] Htc Htm Htm2 Hf Htm3 Hta Htb HO Hp1 Hp2 Hx1 Hx2 Hxx Hlo Hhi Hfh HT.
  assert (L1 : x1 <= 1) by (apply Rmult_le_reg_r with tcod; lra). assert (L2 : x2 <= 1) by (apply Rmult_le_reg_r with tcod; lra).
  destruct (ln_prod_bound x1 x2 14 Hp1 Hp2 ltac:(exact Hxx)) as [LB LE]. rewrite LE in HT.
  pose proof (ln_neg x1 ltac:(lra)) as N1. pose proof (ln_neg x2 ltac:(lra)) as N2.
  pose proof (Rmax_l ta tb) as M1. pose proof (Rmax_r ta tb) as M2.
  assert (Hq : 0 < (tmin + tcod) / f) by (apply Rdiv_lt_0_compat; lra). assert (Hfd : 0 < f * dt) by (apply Rmult_lt_0_compat; lra).
  assert (Hfc : 0 < f * (dt / 10) * tcod) by (apply Rmult_lt_0_compat; auto; apply Rmult_lt_0_compat; lra).
  destruct (sn_sess tmin tcod f x1 x2 dt ta tb T p1 p2 nm ord) as (m & s & N & Es & HA & HLg); auto; try lra.
  exists m, s. split; [exact Es|]. set (iv1 := tmin + x1 * tcod) in *. set (iv2 := tmin + x2 * tcod) in *.
  assert (Hv1 : 1 <= iv1 <= tmin + tcod) by (unfold iv1; lra). assert (Hv2 : 1 <= iv2 <= tmin + tcod) by (unfold iv2; lra).
  destruct (step_diff dt (ta + 1) iv1 Hdt ltac:(lra) ltac:(lra)) as (_ & Qa & _). destruct (step_diff dt (tb + 1) iv2 Hdt ltac:(lra) ltac:(lra)) as (_ & Qb & _).
  pose proof (step_at_bounds dt (ta + 1 + iv1) Hdt ltac:(lra)) as BA. pose proof (step_at_bounds dt (tb + 1 + iv2) Hdt ltac:(lra)) as BB.
  assert (MA : INR (Nat.max (step_at dt (ta + 1 + iv1)) (step_at dt (tb + 1 + iv2))) * dt <= Rmax ta tb + 1 + (tmin + tcod) + dt) by (apply max_time; auto; split; lra).
  destruct (sn_value N m p1 p2 dt tmin tcod f _ _ _ _ x1 x2 HA ltac:(lra) Hp1 Hp2 Hx1 Hx2 Qa Qb LB Hlo Hhi Hfh Htm3) as (e1 & e2 & S1 & S2 & Hee & Het & Hev).
  assert (Hdc : 0 < dt / 10 * tcod) by (apply Rmult_lt_0_compat; lra). pose proof Hev as Hev'. apply Rabs_le2 in Hev'.
  assert (f * (x1 * x2 * tcod) <= tcod) by (apply Rle_trans with (2 := Hfh); apply Rmult_le_compat_l; [lra|]; assert (0 < dt / 10 * tcod) by (apply Rmult_lt_0_compat; lra); lra).
  assert (Hfr : f * (x1 * x2) * tcod = f * (x1 * x2 * tcod)) by ring.
  split.
  - assert (Hlt : (e1 < e2)%nat) by lia. eapply (emits_intro _ _ _ _ dt e1 e2); auto.
    + apply HLg; auto; [cbn; lia|]. intros k [<-|[<-|[]]]; lra.
    + replace (((2 + 10 * f) * dt / tcod + f * dt / 10) * tcod) with ((2 + 10 * f) * dt + f * (dt / 10) * tcod) by (field; lra). exact Hev.
  - apply (HLg _ []); auto; [cbn; auto|]. intros k [].
Qed.
Theorem signed_norm_grid (tmin tcod f x1 x2 dt ta tb T : R) (k1 k2 : nat) (p1 p2 : bool) nm ord :
  0 < dt <= 1 / 2 -> 0 < tcod -> 1 + dt <= tmin -> 4 * dt <= tmin -> 0 < f -> (3 + 3 * f) * dt <= tmin -> 0 <= ta -> 0 <= tb -> ord_ok ord -> aligned dt tmin ->
  0 < x1 < 1 -> 0 < x2 < 1 -> x1 * tcod = INR k1 * dt -> x2 * tcod = INR k2 * dt -> exp (-16) <= x1 * x2 ->
  x1 * x2 * tcod + dt + dt / 10 * tcod <= tcod -> f * (x1 * x2 * tcod + dt + dt / 10 * tcod) <= tcod ->
  Rmax ta tb + 24 + 4 * tmin + 3 * tcod + (tmin + tcod) / f + (2 + 4 * f) * dt + f * (dt / 10) * tcod + 20 * - ln (x1 * x2) <= T ->
  exists m s, session (SignedMultiplierNormNetwork (DataEncoder tmin tcod) f nm) sn_mod (DataEncoder tmin tcod) dt (sn_stims p1 p2 x1 x2 ta tb) ord T = Ok (m, s) /\
    emits s (sn_out m (Bool.eqb p1 p2)) (DataEncoder tmin tcod) (f * (x1 * x2)) ((2 + 4 * f) * dt / tcod + f * dt / 10) /\
    spike_log s (sn_out m (negb (Bool.eqb p1 p2))) = [].
Proof.
  intros [Hdt Hdt2] Htc Htm Htm2 Hf Htm3 Hta Htb HO HAl Hp1 Hp2 Hx1 Hx2 Hxx Hhi Hfh HT.
  destruct (ln_prod_bound x1 x2 16 ltac:(lra) ltac:(lra) ltac:(exact Hxx)) as [LB LE]. rewrite LE in HT.
  pose proof (ln_neg x1 ltac:(lra)) as N1. pose proof (ln_neg x2 ltac:(lra)) as N2.
  pose proof (Rmax_l ta tb) as M1. pose proof (Rmax_r ta tb) as M2.
  assert (Hq : 0 < (tmin + tcod) / f) by (apply Rdiv_lt_0_compat; lra). assert (Hfd : 0 < f * dt) by (apply Rmult_lt_0_compat; lra).
  assert (Hfc : 0 < f * (dt / 10) * tcod) by (apply Rmult_lt_0_compat; auto; apply Rmult_lt_0_compat; lra).
  assert (Hxc0 : forall x, 0 < x < 1 -> 0 <= x * tcod <= tcod) by (intros x Hx; split; [apply Rmult_le_pos; lra|rewrite <- (Rmult_1_l tcod) at 2; apply Rmult_le_compat_r; lra]).
  pose proof (Hxc0 x1 Hp1) as Hc1. pose proof (Hxc0 x2 Hp2) as Hc2.
  destruct (sn_sess tmin tcod f x1 x2 dt ta tb T p1 p2 nm ord) as (m & s & N & Es & HA & HLg); auto; try lra.
  exists m, s. split; [exact Es|]. set (iv1 := tmin + x1 * tcod) in *. set (iv2 := tmin + x2 * tcod) in *.
  assert (Hv1 : 1 <= iv1 <= tmin + tcod) by (unfold iv1; lra). assert (Hv2 : 1 <= iv2 <= tmin + tcod) by (unfold iv2; lra).
  destruct (aligned_steps dt tmin Hdt ltac:(lra) HAl) as (p & q & E1 & E2 & E3 & Em & Ep & Eq).
  assert (Qa : INR (step_at dt (ta + 1 + iv1)) * dt - INR (step_at dt (ta + 1)) * dt = iv1).
  { apply (grid_diff dt (ta + 1) iv1 (q + k1)); auto; [lra|]. unfold iv1. rewrite plus_INR. lra. }
  assert (Qb : INR (step_at dt (tb + 1 + iv2)) * dt - INR (step_at dt (tb + 1)) * dt = iv2).
  { apply (grid_diff dt (tb + 1) iv2 (q + k2)); auto; [lra|]. unfold iv2. rewrite plus_INR. lra. }
  pose proof (step_at_bounds dt (ta + 1 + iv1) Hdt ltac:(lra)) as BA. pose proof (step_at_bounds dt (tb + 1 + iv2) Hdt ltac:(lra)) as BB.
  assert (MA : INR (Nat.max (step_at dt (ta + 1 + iv1)) (step_at dt (tb + 1 + iv2))) * dt <= Rmax ta tb + 1 + (tmin + tcod) + dt) by (apply max_time; auto; split; lra).
  destruct (sn_value_grid N m p1 p2 dt tmin tcod f _ _ _ _ x1 x2 HA HAl ltac:(lra) Hp1 Hp2 Qa Qb LB Hhi Hfh Htm3) as (e1 & e2 & S1 & S2 & Hee & Het & Hev & _).
  pose proof Hev as Hev'. apply Rabs_le2 in Hev'.
  assert (f * (x1 * x2 * tcod) <= tcod) by (apply Rle_trans with (2 := Hfh); apply Rmult_le_compat_l; [lra|]; assert (0 < dt / 10 * tcod) by (apply Rmult_lt_0_compat; lra); lra).
  assert (Hfr : f * (x1 * x2) * tcod = f * (x1 * x2 * tcod)) by ring.
  split.
  - assert (Hlt : (e1 < e2)%nat) by lia. eapply (emits_intro _ _ _ _ dt e1 e2); auto.
    + apply HLg; auto; [cbn; lia|]. intros k [<-|[<-|[]]]; lra.
    + replace (((2 + 4 * f) * dt / tcod + f * dt / 10) * tcod) with ((2 + 4 * f) * dt + f * (dt / 10) * tcod) by (field; lra). exact Hev.
  - apply (HLg _ []); auto; [cbn; auto|]. intros k [].
Qed.
Lemma code_time dt tmin tcod t x : 0 < dt -> 0 < tcod -> 0 < tmin -> aligned dt tmin -> 0 < t -> 0 <= x -> x * tcod <= tcod - dt ->
  exists y, INR (step_at dt (t + (tmin + x * tcod))) * dt - INR (step_at dt t) * dt = tmin + y /\ 0 <= y < tcod /\ (x = 0 -> y = 0).
Proof.
  intros Hdt Htc Htm HAl Ht Hx Hxt. assert (Hxc : 0 <= x * tcod) by (apply Rmult_le_pos; lra).
  destruct (aligned_steps dt tmin Hdt ltac:(lra) HAl) as (p & q & E1 & E2 & E3 & Em & Ep & Eq).
  pose proof (steps_aligned_gap dt tmin t (x * tcod) Hdt ltac:(lra) HAl ltac:(lra) Hxc) as G. rewrite E1, Em in G.
  destruct (step_diff dt t (tmin + x * tcod) Hdt ltac:(lra) ltac:(lra)) as (_ & Q & _). apply Rabs_def2 in Q.
  exists (INR (step_at dt (t + (tmin + x * tcod))) * dt - INR (step_at dt t) * dt - tmin). split; [lra|]. split.
  - assert (G' : (step_at dt t + q <= step_at dt (t + (tmin + x * tcod)))%nat) by lia. apply le_INR in G'. rewrite plus_INR in G'. apply Rmult_le_compat_r with (r := dt) in G'; lra.
  - intros ->. rewrite Rmult_0_l, Rplus_0_r, Eq, step_exact, plus_INR; lra.
Qed.
Theorem signed_norm_zero (tmin tcod f x1 x2 dt ta tb T : R) (p1 p2 : bool) nm ord :
  0 < dt <= 1 / 2 -> 0 < tcod -> 1 + dt <= tmin -> 4 * dt <= tmin -> 0 < f -> (3 + 3 * f) * dt <= tmin -> 0 <= ta -> 0 <= tb -> ord_ok ord -> aligned dt tmin ->
  0 <= x1 -> 0 <= x2 -> x1 * x2 = 0 -> x1 * tcod <= tcod - dt -> x2 * tcod <= tcod - dt ->
  Rmax ta tb + 362 + 4 * tmin + tcod + (tmin + tcod) / f <= T ->
  exists m s, session (SignedMultiplierNormNetwork (DataEncoder tmin tcod) f nm) sn_mod (DataEncoder tmin tcod) dt (sn_stims p1 p2 x1 x2 ta tb) ord T = Ok (m, s) /\
    emits s (sn_out m (Bool.eqb p1 p2)) (DataEncoder tmin tcod) 0 ((2 + 3 * f) * dt / tcod) /\
    spike_log s (sn_out m (negb (Bool.eqb p1 p2))) = [].
Proof.
  intros [Hdt Hdt2] Htc Htm Htm2 Hf Htm3 Hta Htb HO HAl Hp1 Hp2 Hz Hx1 Hx2 HT.
  assert (L1 : x1 <= 1) by (apply Rmult_le_reg_r with tcod; lra). assert (L2 : x2 <= 1) by (apply Rmult_le_reg_r with tcod; lra).
  pose proof (Rmax_l ta tb) as M1. pose proof (Rmax_r ta tb) as M2.
  assert (Hq : 0 < (tmin + tcod) / f) by (apply Rdiv_lt_0_compat; lra).
  destruct (sn_sess tmin tcod f x1 x2 dt ta tb T p1 p2 nm ord) as (m & s & N & Es & HA & HLg); auto; try lra.
  exists m, s. split; [exact Es|].
  destruct (code_time dt tmin tcod (ta + 1) x1) as (y1 & Q1 & Y1 & Z1); auto; try lra.
  destruct (code_time dt tmin tcod (tb + 1) x2) as (y2 & Q2 & Y2 & Z2); auto; try lra.
  assert (Hc1 : 0 <= x1 * tcod) by (apply Rmult_le_pos; lra). assert (Hc2 : 0 <= x2 * tcod) by (apply Rmult_le_pos; lra).
  set (iv1 := tmin + x1 * tcod) in *. set (iv2 := tmin + x2 * tcod) in *.
  pose proof (step_at_bounds dt (ta + 1 + iv1) Hdt ltac:(unfold iv1; lra)) as BA. pose proof (step_at_bounds dt (tb + 1 + iv2) Hdt ltac:(unfold iv2; lra)) as BB.
  assert (MA : INR (Nat.max (step_at dt (ta + 1 + iv1)) (step_at dt (tb + 1 + iv2))) * dt <= Rmax ta tb + 1 + (tmin + tcod) + dt) by (apply max_time; auto; unfold iv1, iv2 in *; split; lra).
  destruct (sn_zero N m p1 p2 dt tmin tcod f _ _ _ _ y1 y2 HA HAl ltac:(lra) Q1 Q2 Y1 Y2) as (e1 & e2 & S1 & S2 & Hee & Het & Hev & _); auto.
  { destruct (Rmult_integral _ _ Hz); auto. }
  pose proof Hev as Hev'. apply Rabs_le2 in Hev'.
  split.
  - assert (Hlt : (e1 < e2)%nat) by lia. eapply (emits_intro _ _ _ _ dt e1 e2); auto.
    + apply HLg; auto; [cbn; lia|]. intros k [<-|[<-|[]]]; lra.
    + replace ((2 + 3 * f) * dt / tcod * tcod) with ((2 + 3 * f) * dt) by (field; lra). rewrite Rmult_0_l, Rplus_0_r. exact Hev.
  - apply (HLg _ []); auto; [cbn; auto|]. intros k [].
Qed.
