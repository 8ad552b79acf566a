(** SignedMultiplierNormNetwork (C48): a zero operand, and whole runs. *)
From Coq Require Import Arith ZArith Bool List Reals Lra Lia Permutation.
From Verif Require Import Num Heapq Elements Simulator Networks Trace SimTrace SimProps TraceProps NeuronLib NetLib Build BuildNets Bridge MemoryProof GeLib GfLib Session SimpleNets InvMem Misc LnLib FuncNets SegLib SubNet ExpLog MulNet MulRun SMem SignMul SignRun SignProd NormNet NormVal.
Import ListNotations.
Open Scope R_scope.
Open Scope list_scope.

(** steps of a 350 time unit delay on an aligned grid *)
Lemma step_350 dt p : 0 < dt -> 1 = INR p * dt -> step_at dt 350 = (350 * p)%nat.
Proof.
  intros Hdt Ep. assert (1 <= p)%nat by (destruct p; [cbn in Ep; lra|lia]).
  rewrite <- (step_at_grid dt (350 * p)); auto; [|lia]. f_equal. rewrite mult_INR, Rmult_assoc, <- Ep. replace (INR 350) with 350 by (rewrite INR_IZR_INZ; reflexivity). lra.
Qed.
Lemma zero_charge dt tmin tcod (p q d a1 a2 : nat) y : 0 < dt -> 0 < tcod -> tmin = INR q * dt ->
  INR a2 * dt - INR a1 * dt = tmin + y -> 0 <= y < tcod ->
  (a1 + d + (p + q) <= a2 + d + p)%nat /\ INR (a2 + d + p - (a1 + d + (p + q))) * (dt / tcod) = y / tcod.
Proof.
  intros Hdt Htc Eq Ha Hy. assert (HL : (a1 + q <= a2)%nat).
  { apply INR_le, Rmult_le_reg_r with dt; auto. rewrite plus_INR. lra. }
  split; [lia|]. replace (a2 + d + p - (a1 + d + (p + q)))%nat with (a2 - a1 - q)%nat by lia. rewrite !minus_INR by lia. unfold Rdiv. rewrite <- Rmult_assoc. f_equal. lra.
Qed.
(** y1, y2: the time each operand codes for; one of them is 0 *)
Lemma sn_zero N m p1 p2 dt tmin tcod f i1 i2 j1 j2 y1 y2 : sn_at N m p1 p2 dt tmin tcod f i1 i2 j1 j2 -> aligned dt tmin -> 1 <= tmin ->
  INR i2 * dt - INR i1 * dt = tmin + y1 -> INR j2 * dt - INR j1 * dt = tmin + y2 -> 0 <= y1 < tcod -> 0 <= y2 < tcod -> y1 = 0 \/ y2 = 0 ->
  (3 + 3 * f) * dt <= tmin ->
  exists e1 e2, spikes_at N (sn_out m (Bool.eqb p1 p2)) [e1; e2] /\ spikes_at N (sn_out m (negb (Bool.eqb p1 p2))) [] /\ (Nat.max i2 j2 < e1 < e2)%nat /\
    INR e1 * dt <= INR (Nat.max i2 j2) * dt + 357 + tmin + (tmin + tcod) / f + 5 * dt /\
    Rabs (INR e2 * dt - INR e1 * dt - tmin) <= (2 + 3 * f) * dt /\ INR e1 * dt + tmin <= INR e2 * dt.
Proof.
  intros HA HAl Ht1 Q1 Q2 Hy1 Hy2 Hz Htm3. pose proof (sn_mul _ _ _ _ _ _ _ _ _ _ _ _ HA) as HMu.
  destruct (in_D N _ dt tmin tcod _ _ _ _ _ _ HMu) as ([Hdt Hdt2] & Htc & Htm2 & _). pose proof (na_f _ _ _ _ _ _ _ _ _ _ _ _ HA) as Hf.
  destruct (aligned_steps dt tmin Hdt ltac:(lra) HAl) as (p & q & E1 & E2 & E3 & Em & Ep & Eq). pose proof (step_350 dt p Hdt Ep) as E350.
  assert (Hp : (1 <= p)%nat) by (destruct p; [cbn in Ep; lra|lia]). assert (Hpq : (p <= q)%nat) by (nat_le dt Hdt; lra).
  destruct (zero_charge dt tmin tcod p q p i1 i2 y1 Hdt Htc Eq Q1 Hy1) as [Ca Ca1]. destruct (zero_charge dt tmin tcod p q p j1 j2 y2 Hdt Htc Eq Q2 Hy2) as [Cb Cb1].
  assert (Hr : forall y, 0 <= y < tcod -> 0 <= y / tcod < 1).
  { intros y Hy. split; [apply Rmult_le_pos; [lra|left; apply Rinv_0_lt_compat; lra]|]. apply Rmult_lt_reg_r with tcod; auto. unfold Rdiv. rewrite Rmult_assoc, Rinv_l; lra. }
  pose proof (Hr _ Hy1) as R1. pose proof (Hr _ Hy2) as R2.
  rewrite E1, E350 in HMu. pose proof (in_zero N (sn_mn m) dt tmin tcod _ _ _ _ _ _ HMu) as HZ. rewrite Em, E1 in HZ. specialize (HZ Ca Cb). rewrite Ca1, Cb1 in HZ.
  rewrite Nat.add_max_distr_r in HZ. set (A := Nat.max i2 j2) in *.
  assert (HS : spikes_at N (mu_output (sn_mn m)) [(A + 350 * p + p)%nat; (A + 350 * p + (p + q))%nat]).
  { apply HZ. destruct (Rle_lt_or_eq_dec _ _ (proj1 R1)) as [h|h].
    - right. destruct Hz as [-> | ->]; [unfold Rdiv in h; rewrite Rmult_0_l in h; lra|]. split; [lra|]. unfold Rdiv; lra.
    - left. split; [symmetry; exact h|lra]. }
  clear HZ. rewrite <- E1 in *. destruct (sn_scale N m p1 p2 dt tmin tcod f i1 i2 j1 j2 HA _ _ 0 HS) as (e1 & e2 & S1 & S2 & Hee & Het & Hev & Hgr); auto; try (fold A; lia); try lra.
  { rewrite !(plus_INR (_ + 350 * _)), (plus_INR (step_at dt 1)), !Rmult_plus_distr_r, <- Eq. lra. }
  exists e1, e2. split; auto. split; auto. fold A. split; [lia|]. split.
  - assert (H350 : INR (A + 350 * step_at dt 1 + step_at dt 1) * dt = INR A * dt + 351).
    { rewrite (plus_INR (A + _)), (plus_INR A), mult_INR, !Rmult_plus_distr_r, Rmult_assoc, <- Ep. replace (INR 350) with 350 by (rewrite INR_IZR_INZ; reflexivity). lra. }
    lra.
  - split; [replace (tmin + f * 0 * tcod) with tmin in Hev by ring; exact Hev|].
    specialize (Hgr ltac:(lia)). rewrite Em in Hgr. apply (grid_le dt tmin (step_at dt 1) q (step_at dt 1)); auto.
Qed.
Definition sn_internal (m : smultn_net) := mu_internal (sn_mn m) ++ sc_nodes (sn_scmn m) ++ [mu_input1 (sn_mn m); mu_input2 (sn_mn m); sn_sign1 m; sn_sign2 m; sn_sign3 m; sn_sign4 m; sn_output_plus m; sn_output_minus m].
Definition sn_glue (m : smultn_net) : list (synapse R) :=
  [syn (sn_input1_plus m) (mu_input1 (sn_mn m)) SynV we cTsyn;
   syn (sn_input1_minus m) (mu_input1 (sn_mn m)) SynV we cTsyn;
   syn (sn_input2_plus m) (mu_input2 (sn_mn m)) SynV we cTsyn;
   syn (sn_input2_minus m) (mu_input2 (sn_mn m)) SynV we cTsyn] ++
  sign_syns (sn_input1_plus m) (sn_input1_minus m) (sn_input2_plus m) (sn_input2_minus m)
            (sn_sign1 m) (sn_sign2 m) (sn_sign3 m) (sn_sign4 m) ++
  [syn (mu_output (sn_mn m)) (sc_input (sn_scmn m)) SynV we cTsyn;
   syn (sc_output (sn_scmn m)) (sn_output_plus m) SynV we cTsyn;
   syn (sc_output (sn_scmn m)) (sn_output_minus m) SynV we cTsyn] ++
  sout_syns (sn_sign1 m) (sn_sign2 m) (sn_sign3 m) (sn_sign4 m) (sn_output_plus m) (sn_output_minus m).
Ltac posts Hy := repeat (destruct Hy as [<-|Hy]; [cbn [s_post syn mks]; lia|]); destruct Hy.
Lemma sn_ins_of N enc f m b : mu_nodes (sn_mn m) ++ sc_nodes (sn_scmn m) ++ sn_own m = seq b 28 -> (forall n, In n (sn_internal m) -> own N (sn_syns enc f m) n) ->
  sn_ins N (wbar_of enc) (wacc_of enc) (Tmin enc) f m.
Proof.
  intros HN HO. pose proof HN as HN'. unfold mu_nodes, sc_nodes, sn_own in HN'. cbn [app] in HN'. nodes_eqs HN'. unfold sn_syns in HO.
  assert (HM : forall n, In n (mu_internal (sn_mn m)) -> own N (mu_syns enc (sn_mn m)) n).
  { intros n Hn. eapply own_app_l; [apply HO; unfold sn_internal; apply in_or_app; auto|].
    intros y Hy. assert (b + 2 <= n < b + 12)%nat by (unfold mu_internal in Hn; cbn [In] in Hn; clear Hy HO; intuition lia). clear Hn HO.
    unfold sc_syns, sign_syns, sout_syns in Hy; cbn [In app] in Hy; posts Hy. }
  assert (HO2 : forall n, In n (sc_nodes (sn_scmn m) ++ [mu_input1 (sn_mn m); mu_input2 (sn_mn m); sn_sign1 m; sn_sign2 m; sn_sign3 m; sn_sign4 m; sn_output_plus m; sn_output_minus m]) ->
    own N (sc_syns enc f (sn_scmn m) ++ sn_glue m) n).
  { intros n Hn. eapply own_app_r; [apply HO; unfold sn_internal; apply in_or_app; right; exact Hn|].
    intros y Hy. assert (n < b + 2 \/ b + 12 <= n)%nat by (unfold sc_nodes in Hn; cbn [In app] in Hn; clear Hy HO; intuition lia). clear Hn HO. unfold mu_syns in Hy; cbn [In app] in Hy; posts Hy. }
  assert (HS : forall n, In n (sc_internal (sn_scmn m)) -> own N (sc_syns enc f (sn_scmn m)) n).
  { intros n Hn. assert (b + 13 <= n < b + 18)%nat by (unfold sc_internal in Hn; cbn [In] in Hn; clear HO HO2 HM; intuition lia).
    eapply own_app_l; [apply HO2; unfold sc_nodes; unfold sc_internal in Hn; cbn [In app] in *; tauto|].
    intros y Hy. clear Hn HO HO2 HM. unfold sn_glue, sign_syns, sout_syns in Hy; cbn [In app] in Hy; posts Hy. }
  assert (HG : forall n, In n (sc_input (sn_scmn m) :: [mu_input1 (sn_mn m); mu_input2 (sn_mn m); sn_sign1 m; sn_sign2 m; sn_sign3 m; sn_sign4 m; sn_output_plus m; sn_output_minus m]) -> own N (sn_glue m) n).
  { intros n Hn. eapply own_app_r; [apply HO2; unfold sc_nodes; cbn [In app] in *; tauto|].
    intros y Hy. assert (n < b + 13 \/ b + 18 <= n)%nat by (cbn [In] in Hn; clear Hy HO HO2 HM HS; intuition lia). clear Hn HO HO2 HM HS. unfold sc_syns in Hy; cbn [In app] in Hy; posts Hy. }
  clear HO HO2. constructor.
  - apply (mu_ins_of N enc _ b); [unfold mu_nodes; cbn [seq]; repeat f_equal; lia|exact HM].
  - apply (sc_ins_of N enc f _ (b + 12)); [unfold sc_nodes; cbn [seq]; repeat f_equal; lia|exact HS].
  - unfold sn_glue, sign_syns, sout_syns in HG. own_solve HG.
  - unfold sn_glue, sign_syns, sout_syns in HG. own_solve HG.
  - unfold sn_glue, sign_syns, sout_syns in HG. own_solve HG.
  - unfold sn_glue, sign_syns, sout_syns in HG. own_solve HG.
  - unfold sn_glue, sign_syns, sout_syns in HG. own_solve HG.
  - unfold sn_glue, sign_syns, sout_syns in HG. own_solve HG.
  - unfold sn_glue, sign_syns, sout_syns in HG. own_solve HG.
  - unfold sn_glue, sign_syns, sout_syns in HG. own_solve HG.
  - unfold sn_glue, sign_syns, sout_syns in HG. own_solve HG.
Qed.
Definition sn_stims (p1 p2 : bool) (x1 x2 ta tb : R) (m : smultn_net) : list stim := [SValue x1 (sn_in1 m p1) ta; SValue x2 (sn_in2 m p2) tb].
Lemma sn_sess (tmin tcod f x1 x2 dt ta tb T : R) (p1 p2 : bool) nm ord :
  0 < dt <= 1 / 2 -> 0 < tcod -> 1 + dt <= tmin -> 4 * dt <= tmin -> 0 < f -> 0 <= x1 <= 1 -> 0 <= x2 <= 1 -> 0 <= ta -> 0 <= tb -> ord_ok ord -> 0 <= T ->
  let iv1 := tmin + x1 * tcod in let iv2 := tmin + x2 * tcod in
  exists m s N, session (SignedMultiplierNormNetwork (DataEncoder tmin tcod) f nm) sn_mod (DataEncoder tmin tcod) dt (sn_stims p1 p2 x1 x2 ta tb) ord T = Ok (m, s) /\
    sn_at N m p1 p2 dt tmin tcod f (step_at dt (ta + 1)) (step_at dt (ta + 1 + iv1)) (step_at dt (tb + 1)) (step_at dt (tb + 1 + iv2)) /\
    (forall b l, strict 0 l -> spikes_at N (sn_out m b) l -> (forall k, In k l -> INR k * dt <= T) -> spike_log s (sn_out m b) = times dt l).
Proof.
  intros [Hdt Hdt2] Htc Htm Htm2 Hf Hx1 Hx2 Hta Htb HO HT. cbv zeta. set (enc := DataEncoder tmin tcod).
  assert (HTc : tcod <> 0) by lra. assert (HTm : Tmax enc <> 0) by (unfold enc; cbn; lra).
  destruct (SignedMultNorm_built enc f nm empty_world inv_empty (neq0 _ HTm) (neq0 _ HTc)) as (m & w & E & HB & HN & HL).
  cbn [w_neurons empty_world length Nat.add] in HN, HL.
  set (stims := sn_stims p1 p2 x1 x2 ta tb).
  pose proof HN as HN'. unfold mu_nodes, sc_nodes, sn_own in HN'. cbn [app] in HN'. nodes_eqs HN'.
  destruct (session_built (SignedMultiplierNormNetwork enc f nm) sn_mod m w _ enc dt stims ord T E HB Hdt HT) as (s & Es & HSe).
  { unfold stims, sn_stims, sn_in1, sn_in2. destruct p1, p2; stims_ok. } { auto. }
  set (N := net_of w (exts enc (stims m)) dt) in *. unfold stims, sn_stims in *.
  exists m, s, N. split; [exact Es|].
  set (iv1 := tmin + x1 * tcod) in *. set (iv2 := tmin + x2 * tcod) in *.
  assert (Hxc : forall x, 0 <= x <= 1 -> 0 <= x * tcod <= tcod) by (intros x Hx; split; [apply Rmult_le_pos; lra|rewrite <- (Rmult_1_l tcod) at 2; apply Rmult_le_compat_r; lra]).
  pose proof (Hxc x1 Hx1) as Hc1. pose proof (Hxc x2 Hx2) as Hc2.
  assert (Hiv1 : 1 + dt <= iv1) by (unfold iv1; lra). assert (Hiv2 : 1 + dt <= iv2) by (unfold iv2; lra).
  assert (HG : forall t iv, 0 <= t -> 1 + dt <= iv -> (step_at dt (t + 1) + step_at dt 1 <= step_at dt (t + 1 + iv))%nat).
  { intros t iv Ht Hv. apply step_diff_ge; try lra; try apply step_at_ge1. pose proof (step_time dt 1 Hdt ltac:(lra)). lra. }
  assert (HI : forall n, In n (sn_internal m) -> (n < 28)%nat /\ ext_spikes (exts enc [SValue x1 (sn_in1 m p1) ta; SValue x2 (sn_in2 m p2) tb]) n = []).
  { intros n Hn. unfold sn_internal, mu_internal, sc_nodes in Hn. cbn [In app] in Hn. split; [intuition lia|].
    destruct p1, p2; cbn [sn_in1 sn_in2]; repeat (destruct Hn as [<-|Hn]; [ext_simp; reflexivity|]); destruct Hn. }
  assert (HM : sn_ins N (1000 / tcod) (1000 / (tmin + tcod)) tmin f m).
  { rewrite <- (wbar_R tmin), <- wacc_R. apply (sn_ins_of N enc f m 0 HN). intros n Hn. apply (se_own _ _ _ _ _ _ _ _ HSe); [rewrite HL|]; apply HI; auto. }
  assert (HA1 : forall d, arrs N (sn_in1 m p1) d [step_at dt (ta + d); step_at dt (ta + iv1 + d)]).
  { intros d. unfold sn_syns, sign_syns, sout_syns in HSe. destruct p1, p2; cbn [sn_in1 sn_in2] in *; src_solve HSe. }
  assert (HA0 : forall d, arrs N (sn_in1 m (negb p1)) d []).
  { intros d. unfold sn_syns, sign_syns, sout_syns in HSe. destruct p1, p2; cbn [sn_in1 sn_in2 negb] in *; src_solve HSe. }
  assert (HB1 : forall d, arrs N (sn_in2 m p2) d [step_at dt (tb + d); step_at dt (tb + iv2 + d)]).
  { intros d. unfold sn_syns, sign_syns, sout_syns in HSe. destruct p1, p2; cbn [sn_in1 sn_in2] in *; src_solve HSe. }
  assert (HB0 : forall d, arrs N (sn_in2 m (negb p2)) d []).
  { intros d. unfold sn_syns, sign_syns, sout_syns in HSe. destruct p1, p2; cbn [sn_in1 sn_in2 negb] in *; src_solve HSe. }
  assert (Sw : forall t iv d, t + iv + d = t + d + iv) by (intros; lra).
  setoid_rewrite Sw in HA1. setoid_rewrite Sw in HB1.
  pose proof (HG ta iv1 Hta Hiv1) as G1. pose proof (HG tb iv2 Htb Hiv2) as G2.
  pose proof (step_at_ge1 dt (ta + 1)) as Ga. pose proof (step_at_ge1 dt (tb + 1)) as Gb.
  split.
  - constructor; auto.
  - intros b l HS1 HS2 HS3. apply (se_log _ _ _ _ _ _ _ _ HSe); auto; [rewrite HL|]; apply HI; unfold sn_internal; apply in_or_app; right; apply in_or_app; right; destruct b; cbn; tauto.
Qed.
