(** MultiplierNetwork (C31): spike times of every neuron in the three regimes of its
    two logarithm accumulators. *)
From Coq Require Import Arith ZArith Bool List Reals Lra Lia Permutation.
From Verif Require Import Num Heapq Elements Simulator Networks Trace SimTrace SimProps TraceProps NeuronLib NetLib Build BuildNets Bridge MemoryProof GeLib GfLib Session SimpleNets InvMem Misc LnLib FuncNets SegLib SubNet ExpLog.
Import ListNotations.
Open Scope R_scope.
Open Scope list_scope.

Record mu_ins (N : tnet) (w tmin : R) (m : mul_net) : Prop := {
  ui_first1 : ins N (mu_first1 m) [mks (mu_input1 m) (mu_first1 m) SynV we cTsyn; mks (mu_first1 m) (mu_first1 m) SynV wi cTsyn];
  ui_last1 : ins N (mu_last1 m) [mks (mu_input1 m) (mu_last1 m) SynV (half we) cTsyn];
  ui_first2 : ins N (mu_first2 m) [mks (mu_input2 m) (mu_first2 m) SynV we cTsyn; mks (mu_first2 m) (mu_first2 m) SynV wi cTsyn];
  ui_last2 : ins N (mu_last2 m) [mks (mu_input2 m) (mu_last2 m) SynV (half we) cTsyn];
  ui_sync : ins N (mu_sync m) [mks (mu_last1 m) (mu_sync m) SynV (half we) cTsyn; mks (mu_last2 m) (mu_sync m) SynV (half we) cTsyn];
  ui_log1 : ins N (mu_acc_log1 m) [mks (mu_first1 m) (mu_acc_log1 m) SynGe w (nadd cTsyn tmin);
                                   mks (mu_last1 m) (mu_acc_log1 m) SynGe (nopp w) cTsyn;
                                   mks (mu_sync m) (mu_acc_log1 m) SynGf gmult cTsyn;
                                   mks (mu_sync m) (mu_acc_log1 m) SynGate (nofZ 1) cTsyn];
  ui_log2 : ins N (mu_acc_log2 m) [mks (mu_first2 m) (mu_acc_log2 m) SynGe w (nadd cTsyn tmin);
                                   mks (mu_last2 m) (mu_acc_log2 m) SynGe (nopp w) cTsyn;
                                   mks (mu_acc_log1 m) (mu_acc_log2 m) SynGf gmult cTsyn;
                                   mks (mu_acc_log1 m) (mu_acc_log2 m) SynGate (nofZ 1) cTsyn];
  ui_exp : ins N (mu_acc_exp m) [mks (mu_acc_log2 m) (mu_acc_exp m) SynGate (nofZ (-1)) cTsyn;
                                 mks (mu_acc_log2 m) (mu_acc_exp m) SynGe w cTsyn;
                                 mks (mu_sync m) (mu_acc_exp m) SynGate (nofZ 1) (thrice cTsyn);
                                 mks (mu_sync m) (mu_acc_exp m) SynGf gmult (thrice cTsyn)];
  ui_zero : ins N (mu_zero m) [mks (mu_input1 m) (mu_zero m) SynV (ndiv cVt (nofZ 4)) max_prop_delay;
                               mks (mu_input2 m) (mu_zero m) SynV (ndiv cVt (nofZ 4)) max_prop_delay;
                               mks (mu_output m) (mu_zero m) SynV (ndiv (nopp cVt) (nofZ 2)) cTsyn];
  ui_output : ins N (mu_output m) [mks (mu_acc_log2 m) (mu_output m) SynV we (twice cTsyn);
                                   mks (mu_acc_exp m) (mu_output m) SynV we (nadd tmin cTsyn);
                                   mks (mu_zero m) (mu_output m) SynV cVt cTsyn;
                                   mks (mu_zero m) (mu_output m) SynV cVt (nadd cTsyn tmin)]
}.
Definition mu_internal (m : mul_net) := [mu_first1 m; mu_last1 m; mu_acc_log1 m; mu_zero m;
  mu_first2 m; mu_last2 m; mu_acc_log2 m; mu_sync m; mu_acc_exp m; mu_output m].
Lemma mu_ins_of N enc m b : mu_nodes m = seq b 12 -> (forall n, In n (mu_internal m) -> own N (mu_syns enc m) n) -> mu_ins N (wbar_of enc) (Tmin enc) m.
Proof. intros HN HO. unfold mu_nodes in HN. nodes_eqs HN. unfold mu_internal in HO. constructor; own_solve HO. Qed.

(** the exponential accumulator when its ramp starts before the gate opens: it fires after
    the full coding time, whatever the gate does later *)
Section Early.
Variable N : tnet.
Variable n : nat.
Variable Tc : R.
Hypothesis HP : t_prm N n = stdp.
Hypothesis Hdt : 0 < t_dt N < 20.
Hypothesis HTc : 0 < Tc.
Let dt := t_dt N.
Let w := 1000 / Tc.
Hypothesis HO : forall k, (1 <= k)%nat -> input N n SynOther k = 0.
Hypothesis HV : forall k, (1 <= k)%nat -> input N n SynV k = 0.
Variables e g : nat.
Hypothesis He : (1 <= e)%nat.
Hypothesis Heg : (e < g)%nat.
Hypothesis IGe : forall k, (1 <= k)%nat -> input N n SynGe k = w * ind k e.
Hypothesis IGf : forall k, (1 <= k)%nat -> input N n SynGf k = 50 * ind k g.
Hypothesis IGa : forall k, (1 <= k)%nat -> input N n SynGate k = -1 * ind k e + 1 * ind k g.
Lemma early_fire : spikes_at N n [(e - 1 + step_at dt Tc)%nat].
Proof.
  pose proof (rho_bounds N Hdt) as Hr.
  pose proof (step_at_bounds dt Tc ltac:(unfold dt; lra) HTc) as [B1 B2]. pose proof (step_at_ge1 dt Tc) as H1.
  set (M := step_at dt Tc) in *. assert (Hdt0 : 0 < dt) by (unfold dt; lra).
  assert (HNo : forall i, (1 <= i)%nat -> i <> e -> i <> g -> no_input N n i).
  { intros i Hi A B. apply no_input_of; auto; rewrite ?IGe, ?IGf, ?IGa, ?ind_ne by auto; lra. }
  assert (HPre : forall i, (i < e)%nat -> spk N i n = false /\ st N i n = at_rest 0).
  { apply rest_before; auto. intros i Hi. apply HNo; lia. }
  assert (HR : recvd N n (e - 1) = gst 0 w 0 (-1)).
  { rewrite (recvd_eq N n (e - 1) 0 0 0 0 0 w 0 (-1)); [f_equal; lra|apply HPre; lia| | | |]; replace (S (e - 1)) with e by lia.
    - apply HV; lia.
    - rewrite IGe, ind_eq by lia. lra.
    - rewrite IGf, ind_ne by lia. lra.
    - rewrite IGa, ind_eq, ind_ne by lia. lra. }
  assert (ET : forall i, traj N (gst 0 w 0 (-1)) i = gst (10 * (INR i * (dt / Tc))) w 0 (-1)).
  { intros i. unfold traj, gst. cbn [V ge gf gate]. rewrite (proj2 (Reqb_false (-1) 0)) by lra. fold dt.
    replace (dt * w / 100) with (10 * (dt / Tc)) by (unfold w; field; lra). f_equal; lra. }
  assert (HB : forall i, (i < M)%nat -> 10 * (INR i * (dt / Tc)) < 10).
  { intros i Hi. assert (INR i * (dt / Tc) < 1); [|lra]. apply Rmult_lt_reg_r with Tc; auto.
    replace (INR i * (dt / Tc) * Tc) with (INR i * dt) by (field; lra).
    assert (INR i + 1 <= INR M) by (rewrite <- S_INR; apply le_INR; lia). nra. }
  assert (HC : 10 <= 10 * (INR M * (dt / Tc))).
  { assert (1 <= INR M * (dt / Tc)); [|lra]. apply Rmult_le_reg_r with Tc; auto.
    replace (INR M * (dt / Tc) * Tc) with (INR M * dt) by (field; lra). lra. }
  assert (Hgt : forall v k, (g <= k)%nat -> st N (g - 1) n = at_rest 0 -> v = 50 -> spk N k n = false).
  { intros v k Hk HS _.
    assert (HR2 : recvd N n (g - 1) = gst 0 0 50 1).
    { rewrite (recvd_eq N n (g - 1) 0 0 0 0 0 0 50 1 HS); try (f_equal; lra); replace (S (g - 1)) with g by lia.
      - apply HV; lia.
      - rewrite IGe, ind_ne by lia. lra.
      - rewrite IGf, ind_eq by lia. lra.
      - rewrite IGa, ind_eq, ind_ne by lia. lra. }
    replace k with (g - 1 + (k - (g - 1)))%nat by lia. apply (phase N n (g - 1) _ (k - (g - 1)) HP HR2); try lia.
    - intros i Hi. apply HNo; lia.
    - intros i Hi. rewrite traj_gate1. cbn [V gst]. assert (0 < rho N ^ i) by (apply pow_lt; lra). lra. }
  intros k. cbn [memb existsb]. rewrite orb_false_r.
  destruct (Nat.lt_ge_cases (e - 1 + M) g) as [Hlt|Hge].
  - (* fires before the gate *)
    destruct (phase_fire N n (e - 1) _ M HP HR ltac:(lia)) as (A & B & C).
    + intros i Hi. apply HNo; lia.
    + intros i Hi. rewrite ET. apply HB. lia.
    + rewrite ET. exact HC.
    + pose proof (rest_quiet N n (e - 1 + M) 0 HP C ltac:(lra) (g - 1) ltac:(intros i Hi; apply HNo; lia)) as HQ.
      destruct (Nat.lt_trichotomy k (e - 1 + M)) as [Hk|[->|Hk]].
      * rewrite (proj2 (Nat.eqb_neq _ _)) by lia. destruct (Nat.lt_ge_cases k e); [apply HPre; auto|].
        replace k with (e - 1 + (k - (e - 1)))%nat by lia. apply A. lia.
      * rewrite Nat.eqb_refl. auto.
      * rewrite (proj2 (Nat.eqb_neq _ _)) by lia. destruct (Nat.lt_ge_cases k g); [apply HQ; lia|].
        apply (Hgt 50); auto. destruct (Nat.eq_dec (e - 1 + M) (g - 1)) as [E|E]; [rewrite <- E; auto|apply HQ; lia].
  - (* the gate closes during the ramp *)
    assert (PH := phase N n (e - 1) _ (g - e) HP HR).
    specialize (PH ltac:(intros i Hi; apply HNo; lia)).
    specialize (PH ltac:(intros i Hi; rewrite ET; apply HB; lia)).
    destruct (PH (g - e)%nat ltac:(lia)) as [A _]. rewrite ET in A. replace (e - 1 + (g - e))%nat with (g - 1)%nat in A by lia.
    assert (HR2 : recvd N n (g - 1) = gst (10 * (INR (g - e) * (dt / Tc))) w 50 0).
    { rewrite (recvd_eq N n (g - 1) _ _ _ _ 0 0 50 1 A); try (f_equal; lra); replace (S (g - 1)) with g by lia.
      - apply HV; lia.
      - rewrite IGe, ind_ne by lia. lra.
      - rewrite IGf, ind_eq by lia. lra.
      - rewrite IGa, ind_eq, ind_ne by lia. lra. }
    assert (ET2 : forall i, V (traj N (gst (10 * (INR (g - e) * (dt / Tc))) w 50 0) i) = 10 * (INR (g - e + i) * (dt / Tc))).
    { intros i. rewrite traj_gate0. cbn [V gst]. fold dt. replace (dt * w / 100) with (10 * (dt / Tc)) by (unfold w; field; lra). rewrite plus_INR. lra. }
    destruct (phase_fire N n (g - 1) _ (e + M - g) HP HR2 ltac:(lia)) as (A2 & B & C).
    + intros i Hi. apply HNo; lia.
    + intros i Hi. rewrite ET2. apply HB. lia.
    + rewrite ET2. replace (g - e + (e + M - g))%nat with M by lia. exact HC.
    + replace (g - 1 + (e + M - g))%nat with (e - 1 + M)%nat in * by lia.
      destruct (Nat.lt_trichotomy k (e - 1 + M)) as [Hk|[->|Hk]].
      * rewrite (proj2 (Nat.eqb_neq _ _)) by lia. destruct (Nat.lt_ge_cases k e); [apply HPre; auto|].
        destruct (Nat.lt_ge_cases k g).
        -- replace k with (e - 1 + (k - (e - 1)))%nat by lia. apply PH. lia.
        -- replace k with (g - 1 + (k - (g - 1)))%nat by lia. apply A2. lia.
      * rewrite Nat.eqb_refl. auto.
      * rewrite (proj2 (Nat.eqb_neq _ _)) by lia. eapply (rest_forever N n (e - 1 + M) 0); eauto; try lra.
        intros i Hi. apply HNo; lia.
Qed.
End Early.

(** a logarithm accumulator whose gate never opens *)
Section Ungated.
Variable N : tnet.
Variable n : nat.
Variable Tc : R.
Hypothesis HP : t_prm N n = stdp.
Hypothesis Hdt : 0 < t_dt N < 20.
Hypothesis HTc : 0 < Tc.
Let dt := t_dt N.
Let w := 1000 / Tc.
Hypothesis HO : forall k, (1 <= k)%nat -> input N n SynOther k = 0.
Hypothesis HV : forall k, (1 <= k)%nat -> input N n SynV k = 0.
Variables e1 e2 : nat.
Hypothesis He1 : (1 <= e1)%nat.
Hypothesis He : (e1 <= e2)%nat.
Hypothesis IGe : forall k, (1 <= k)%nat -> input N n SynGe k = w * ind k e1 + - w * ind k e2.
Hypothesis IGf : forall k, (1 <= k)%nat -> input N n SynGf k = 0.
Hypothesis IGa : forall k, (1 <= k)%nat -> input N n SynGate k = 0.
Let c := INR (e2 - e1) * (dt / Tc).
Lemma ung_none k : (1 <= k)%nat -> k <> e1 -> k <> e2 -> no_input N n k.
Proof. intros Hk H1 H2. apply no_input_of; auto. rewrite IGe, !ind_ne by auto. lra. Qed.
Lemma ung_pre k : (k < e1)%nat -> spk N k n = false /\ st N k n = at_rest 0.
Proof. apply rest_before; auto. intros j Hj. apply ung_none; lia. Qed.
Lemma ung_none_eq : e1 = e2 -> spikes_at N n [].
Proof.
  intros E k. cbn [memb existsb]. apply (rest_before N n (S k) HP); [|lia]. intros j Hj.
  apply no_input_of; [apply HV; lia|rewrite IGe, E by lia; lra|apply IGf; lia|apply IGa; lia|apply HO; lia].
Qed.
Lemma ung_start : (e1 < e2)%nat -> recvd N n (e1 - 1) = gst 0 w 0 0.
Proof.
  intros Hlt. rewrite (recvd_eq N n (e1 - 1) 0 0 0 0 0 w 0 0); [f_equal; lra|apply ung_pre; lia| | | |]; replace (S (e1 - 1)) with e1 by lia; auto.
  rewrite IGe, ind_eq, ind_ne by lia. lra.
Qed.
Lemma ung_traj i : traj N (gst 0 w 0 0) i = gst (10 * (INR i * (dt / Tc))) w 0 0.
Proof. rewrite traj_gate0. fold dt. f_equal. replace (dt * w / 100) with (10 * (dt / Tc)) by (unfold w; field; lra). lra. Qed.
Lemma ung_p : 0 < dt / Tc. Proof. apply Rdiv_lt_0_compat; [unfold dt; lra|auto]. Qed.
Lemma ung_hold : c < 1 -> spikes_at N n [].
Proof.
  intros Hc. destruct (Nat.eq_dec e1 e2) as [E|E]; [apply ung_none_eq; auto|]. pose proof ung_p as Hp.
  assert (PH := phase N n (e1 - 1) _ (e2 - e1) HP (ung_start ltac:(lia))).
  specialize (PH ltac:(intros i Hi; apply ung_none; lia)).
  specialize (PH ltac:(intros i Hi; rewrite ung_traj; cbn [V gst]; assert (INR i * (dt / Tc) <= c) by (apply Rmult_le_compat_r; [lra|apply le_INR; lia]); lra)).
  destruct (PH (e2 - e1)%nat ltac:(lia)) as [A _]. rewrite ung_traj in A. replace (e1 - 1 + (e2 - e1))%nat with (e2 - 1)%nat in A by lia. fold c in A.
  assert (HR : recvd N n (e2 - 1) = gst (10 * c) 0 0 0).
  { rewrite (recvd_eq N n (e2 - 1) _ _ _ _ 0 (- w) 0 0 A); try (f_equal; lra); replace (S (e2 - 1)) with e2 by lia.
    - apply HV; lia.
    - rewrite IGe, ind_eq, ind_ne by lia. lra.
    - apply IGf; lia.
    - apply IGa; lia. }
  assert (ET : forall i, traj N (gst (10 * c) 0 0 0) i = gst (10 * c) 0 0 0) by (intros; rewrite traj_gate0; f_equal; lra).
  intros k. cbn [memb existsb]. destruct (Nat.lt_ge_cases k e1); [apply ung_pre; auto|]. destruct (Nat.lt_ge_cases k e2).
  - replace k with (e1 - 1 + (k - (e1 - 1)))%nat by lia. apply PH. lia.
  - replace k with (e2 - 1 + (k - (e2 - 1)))%nat by lia. apply (phase N n (e2 - 1) _ (k - (e2 - 1)) HP HR); try lia.
    + intros i Hi. apply ung_none; lia.
    + intros i Hi. rewrite ET. cbn [V gst]. lra.
Qed.
Lemma ung_full : 1 <= c -> (step_at dt Tc <= e2 - e1)%nat /\ spikes_at N n [(e1 - 1 + step_at dt Tc)%nat].
Proof.
  intros Hc. pose proof ung_p as Hp. assert (Hdt0 : 0 < dt) by (unfold dt; lra).
  assert (Hlt : (e1 < e2)%nat).
  { destruct (Nat.eq_dec e1 e2); [|lia]. unfold c in Hc. replace (e2 - e1)%nat with 0%nat in Hc by lia. cbn in Hc. lra. }
  assert (HMl : (step_at dt Tc <= e2 - e1)%nat).
  { apply step_at_le; auto; [lia|]. unfold c in Hc. apply Rmult_le_compat_r with (r := Tc) in Hc; [|lra].
    replace (INR (e2 - e1) * (dt / Tc) * Tc) with (INR (e2 - e1) * dt) in Hc by (field; lra). lra. }
  split; auto. pose proof (step_at_ge1 dt Tc) as HM1. pose proof (step_at_bounds dt Tc Hdt0 HTc) as [BM1 BM2].
  set (M := step_at dt Tc) in *.
  destruct (phase_fire N n (e1 - 1) _ M HP (ung_start Hlt) ltac:(lia)) as (A & B & CM).
  - intros i Hi. apply ung_none; lia.
  - intros i Hi. rewrite ung_traj. cbn [V gst]. assert (INR i * (dt / Tc) < 1); [|lra].
    apply Rmult_lt_reg_r with Tc; auto. replace (INR i * (dt / Tc) * Tc) with (INR i * dt) by (field; lra).
    assert (INR i + 1 <= INR M) by (rewrite <- S_INR; apply le_INR; lia). nra.
  - rewrite ung_traj. cbn [V gst]. assert (1 <= INR M * (dt / Tc)); [|lra].
    apply Rmult_le_reg_r with Tc; auto. replace (INR M * (dt / Tc) * Tc) with (INR M * dt) by (field; lra). lra.
  - pose proof (rest_quiet N n (e1 - 1 + M) 0 HP CM ltac:(lra) (e2 - 1) ltac:(intros k Hk; apply ung_none; lia)) as HQ.
    assert (C : st N (e2 - 1) n = gst 0 0 0 0) by (apply HQ; lia).
    assert (HR2 : recvd N n (e2 - 1) = gst 0 (- w) 0 0).
    { rewrite (recvd_eq N n (e2 - 1) _ _ _ _ 0 (- w) 0 0 C); try (f_equal; lra); replace (S (e2 - 1)) with e2 by lia.
      - apply HV; lia.
      - rewrite IGe, ind_eq, ind_ne by lia. lra.
      - apply IGf; lia.
      - apply IGa; lia. }
    intros k. cbn [memb existsb]. rewrite orb_false_r.
    destruct (Nat.lt_trichotomy k (e1 - 1 + M)) as [Hk|[->|Hk]].
    + rewrite (proj2 (Nat.eqb_neq _ _)) by lia. destruct (Nat.lt_ge_cases k e1); [apply ung_pre; auto|].
      replace k with (e1 - 1 + (k - (e1 - 1)))%nat by lia. apply A. lia.
    + rewrite Nat.eqb_refl. auto.
    + rewrite (proj2 (Nat.eqb_neq _ _)) by lia. destruct (Nat.lt_ge_cases k e2); [apply HQ; lia|].
      replace k with (e2 - 1 + (k - (e2 - 1)))%nat by lia. apply (phase N n (e2 - 1) _ (k - (e2 - 1)) HP HR2); try lia.
      * intros i Hi. apply ung_none; lia.
      * intros i Hi. rewrite traj_gate0. cbn [V gst]. fold dt. replace (dt * - w / 100) with (- (10 * (dt / Tc))) by (unfold w; field; lra).
        assert (0 <= INR i * (dt / Tc)) by (apply Rmult_le_pos; [apply pos_INR|lra]). lra.
Qed.
End Ungated.

Section Mul.
Variable N : tnet.
Variable m : mul_net.
Variables Tc tmin : R.
Let dt := t_dt N.
Hypothesis Hdt : 0 < dt < 20.
Hypothesis HTc : 0 < Tc.
Hypothesis HM : mu_ins N (1000 / Tc) tmin m.
Variables a1 a2 b1 b2 : nat.
Let D1 := step_at dt 1.
Let D2 := step_at dt 2.
Let D3 := step_at dt 3.
Let Dm := step_at dt (1 + tmin).
Hypothesis Hin1 : arrs N (mu_input1 m) 1 [a1; a2].
Hypothesis Hin2 : arrs N (mu_input2 m) 1 [b1; b2].
Hypothesis Ha1 : (1 <= a1)%nat.
Hypothesis Ha2 : (a1 + D1 <= a2)%nat.
Hypothesis Hb1 : (1 <= b1)%nat.
Hypothesis Hb2 : (b1 + D1 <= b2)%nat.
Hypothesis Hea : (a1 + Dm <= a2 + D1)%nat.
Hypothesis Heb : (b1 + Dm <= b2 + D1)%nat.
Lemma mu_D1 : (1 <= D1)%nat. Proof. apply step_at_ge1. Qed.
Lemma mu_Dm : (1 <= Dm)%nat. Proof. apply step_at_ge1. Qed.
Lemma mu_first1_spk : spikes_at N (mu_first1 m) [a1].
Proof. eapply first_spikes; [apply (ui_first1 _ _ _ _ HM)|rewrite cTsyn_R; eauto|auto|auto]. Qed.
Lemma mu_last1_spk : spikes_at N (mu_last1 m) [a2].
Proof. eapply last_spikes; [apply (ui_last1 _ _ _ _ HM)|rewrite cTsyn_R; eauto|auto|]. pose proof mu_D1. lia. Qed.
Lemma mu_first2_spk : spikes_at N (mu_first2 m) [b1].
Proof. eapply first_spikes; [apply (ui_first2 _ _ _ _ HM)|rewrite cTsyn_R; eauto|auto|auto]. Qed.
Lemma mu_last2_spk : spikes_at N (mu_last2 m) [b2].
Proof. eapply last_spikes; [apply (ui_last2 _ _ _ _ HM)|rewrite cTsyn_R; eauto|auto|]. pose proof mu_D1. lia. Qed.
Lemma mu_first1_arr k : (1 <= k)%nat -> INR (arr N (mu_first1 m) (nadd cTsyn tmin) k) = ind k (a1 + Dm).
Proof. intros Hk. rewrite (arrs_1 N _ _ _ Dm a1 (ui_first1 _ _ _ _ HM) mu_first1_spk); auto. ev_simpl. lra. Qed.
Lemma mu_last1_arr k : (1 <= k)%nat -> INR (arr N (mu_last1 m) cTsyn k) = ind k (a2 + D1).
Proof. intros Hk. pose proof mu_D1. rewrite (arrs_1 N _ _ _ D1 a2 (ui_last1 _ _ _ _ HM) mu_last1_spk); auto; [|lia]. ev_simpl. lra. Qed.
Lemma mu_first2_arr k : (1 <= k)%nat -> INR (arr N (mu_first2 m) (nadd cTsyn tmin) k) = ind k (b1 + Dm).
Proof. intros Hk. rewrite (arrs_1 N _ _ _ Dm b1 (ui_first2 _ _ _ _ HM) mu_first2_spk); auto. ev_simpl. lra. Qed.
Lemma mu_last2_arr k : (1 <= k)%nat -> INR (arr N (mu_last2 m) cTsyn k) = ind k (b2 + D1).
Proof. intros Hk. pose proof mu_D1. rewrite (arrs_1 N _ _ _ D1 b2 (ui_last2 _ _ _ _ HM) mu_last2_spk); auto; [|lia]. ev_simpl. lra. Qed.

(** the synchroniser fires when both operands have arrived *)
Definition mu_S : nat := Nat.max (a2 + D1) (b2 + D1).
Lemma mu_sync_spk : spikes_at N (mu_sync m) [mu_S].
Proof.
  pose proof (ui_sync _ _ _ _ HM) as H. pose proof mu_D1.
  apply (seg_spikes N _ [((a2 + D1)%nat, 5); ((b2 + D1)%nat, 5)]); [apply H|eapply ins_vonly; eauto; repeat constructor| |].
  - unfold mu_S. segs_solve.
  - intros k Hk. ev_input H. rewrite mu_last1_arr, mu_last2_arr by auto. netr. ev_simpl. lra.
Qed.
Lemma mu_S1 : (1 <= mu_S)%nat. Proof. unfold mu_S. lia. Qed.
Lemma mu_sync_arr k d D : (1 <= k)%nat -> step_at (t_dt N) d = D -> INR (arr N (mu_sync m) d k) = ind k (mu_S + D).
Proof. intros Hk E. rewrite (arrs_1 N _ _ _ D mu_S (ui_sync _ _ _ _ HM) mu_sync_spk); auto; [|apply mu_S1]. ev_simpl. lra. Qed.

Let c1 := INR (a2 + D1 - (a1 + Dm)) * (dt / Tc).
Let c2 := INR (b2 + D1 - (b1 + Dm)) * (dt / Tc).
(** first logarithm accumulator *)
Lemma mu_log1_spk :
  (c1 = 0 -> spikes_at N (mu_acc_log1 m) []) /\
  (forall j, c1 < 1 -> rho N ^ j <= c1 -> (forall i, (i < j)%nat -> c1 < rho N ^ i) -> (1 <= j)%nat /\ spikes_at N (mu_acc_log1 m) [(mu_S + D1 - 1 + j)%nat]) /\
  (1 <= c1 -> (step_at dt Tc <= a2 + D1 - (a1 + Dm))%nat /\ spikes_at N (mu_acc_log1 m) [(a1 + Dm - 1 + step_at dt Tc)%nat]).
Proof.
  pose proof (ui_log1 _ _ _ _ HM) as H. pose proof mu_D1 as G1. pose proof mu_Dm as G2.
  assert (IO : forall k, (1 <= k)%nat -> input N (mu_acc_log1 m) SynOther k = 0) by no_ty H.
  assert (IV : forall k, (1 <= k)%nat -> input N (mu_acc_log1 m) SynV k = 0) by no_ty H.
  assert (IGe : forall k, (1 <= k)%nat -> input N (mu_acc_log1 m) SynGe k = 1000 / Tc * ind k (a1 + Dm) + - (1000 / Tc) * ind k (a2 + D1)).
  { intros k Hk. ev_input H. rewrite mu_first1_arr, mu_last1_arr by auto. netr. lra. }
  assert (IGf : forall k, (1 <= k)%nat -> input N (mu_acc_log1 m) SynGf k = 50 * ind k (mu_S + D1)).
  { intros k Hk. ev_input H. rewrite (mu_sync_arr k cTsyn D1) by auto. netr. lra. }
  assert (IGa : forall k, (1 <= k)%nat -> input N (mu_acc_log1 m) SynGate k = 1 * ind k (mu_S + D1)).
  { intros k Hk. ev_input H. rewrite (mu_sync_arr k cTsyn D1) by auto. netr. lra. }
  assert (Hp : 0 < dt / Tc) by (apply Rdiv_lt_0_compat; lra).
  assert (HS : (a2 + D1 <= mu_S + D1)%nat) by (unfold mu_S; lia).
  split; [|split].
  - intros Ec. assert (Z : (a2 + D1 - (a1 + Dm) = 0)%nat).
    { apply INR_eq. cbn [INR]. apply Rmult_eq_reg_r with (dt / Tc); [|lra]. fold c1. lra. }
    apply (log_zero N (mu_acc_log1 m) Tc (ins_prm _ _ _ H) Hdt HTc IO IV (a1 + Dm) (a2 + D1) (mu_S + D1)); auto; lia.
  - intros j Hc Hj Hi. apply (log_fire N (mu_acc_log1 m) Tc (ins_prm _ _ _ H) Hdt HTc IO IV (a1 + Dm) (a2 + D1) (mu_S + D1)); auto; lia.
  - intros Hc. apply (log_full N (mu_acc_log1 m) Tc (ins_prm _ _ _ H) Hdt HTc IO IV (a1 + Dm) (a2 + D1) (mu_S + D1)); auto; lia.
Qed.
(** second logarithm accumulator, started by the first *)
Lemma mu_log2_spk f1 : spikes_at N (mu_acc_log1 m) [f1] -> (1 <= f1)%nat -> (b2 <= f1)%nat ->
  (c2 = 0 -> spikes_at N (mu_acc_log2 m) []) /\
  (forall j, c2 < 1 -> rho N ^ j <= c2 -> (forall i, (i < j)%nat -> c2 < rho N ^ i) -> (1 <= j)%nat /\ spikes_at N (mu_acc_log2 m) [(f1 + D1 - 1 + j)%nat]) /\
  (1 <= c2 -> (step_at dt Tc <= b2 + D1 - (b1 + Dm))%nat /\ spikes_at N (mu_acc_log2 m) [(b1 + Dm - 1 + step_at dt Tc)%nat]).
Proof.
  intros HF Hf1 HS.
  pose proof (ui_log2 _ _ _ _ HM) as H. pose proof mu_D1 as G1. pose proof mu_Dm as G2.
  assert (EA : forall k, (1 <= k)%nat -> INR (arr N (mu_acc_log1 m) cTsyn k) = ind k (f1 + D1)).
  { intros k Hk. rewrite (arrs_1 N _ _ _ D1 f1 (ui_log1 _ _ _ _ HM) HF); auto. ev_simpl. lra. }
  assert (IO : forall k, (1 <= k)%nat -> input N (mu_acc_log2 m) SynOther k = 0) by no_ty H.
  assert (IV : forall k, (1 <= k)%nat -> input N (mu_acc_log2 m) SynV k = 0) by no_ty H.
  assert (IGe : forall k, (1 <= k)%nat -> input N (mu_acc_log2 m) SynGe k = 1000 / Tc * ind k (b1 + Dm) + - (1000 / Tc) * ind k (b2 + D1)).
  { intros k Hk. ev_input H. rewrite mu_first2_arr, mu_last2_arr by auto. netr. lra. }
  assert (IGf : forall k, (1 <= k)%nat -> input N (mu_acc_log2 m) SynGf k = 50 * ind k (f1 + D1)).
  { intros k Hk. ev_input H. rewrite EA by auto. netr. lra. }
  assert (IGa : forall k, (1 <= k)%nat -> input N (mu_acc_log2 m) SynGate k = 1 * ind k (f1 + D1)).
  { intros k Hk. ev_input H. rewrite EA by auto. netr. lra. }
  assert (Hp : 0 < dt / Tc) by (apply Rdiv_lt_0_compat; lra).
  split; [|split].
  - intros Ec. assert (Z : (b2 + D1 - (b1 + Dm) = 0)%nat).
    { apply INR_eq. cbn [INR]. apply Rmult_eq_reg_r with (dt / Tc); [|lra]. fold c2. lra. }
    apply (log_zero N (mu_acc_log2 m) Tc (ins_prm _ _ _ H) Hdt HTc IO IV (b1 + Dm) (b2 + D1) (f1 + D1)); auto; lia.
  - intros j Hc Hj Hi. apply (log_fire N (mu_acc_log2 m) Tc (ins_prm _ _ _ H) Hdt HTc IO IV (b1 + Dm) (b2 + D1) (f1 + D1)); auto; lia.
  - intros Hc. apply (log_full N (mu_acc_log2 m) Tc (ins_prm _ _ _ H) Hdt HTc IO IV (b1 + Dm) (b2 + D1) (f1 + D1)); auto; lia.
Qed.
(** ... and when the first stays silent *)
Lemma mu_log2_alone : spikes_at N (mu_acc_log1 m) [] ->
  (c2 < 1 -> spikes_at N (mu_acc_log2 m) []) /\
  (1 <= c2 -> (step_at dt Tc <= b2 + D1 - (b1 + Dm))%nat /\ spikes_at N (mu_acc_log2 m) [(b1 + Dm - 1 + step_at dt Tc)%nat]).
Proof.
  intros HF. pose proof (ui_log2 _ _ _ _ HM) as H. pose proof mu_D1 as G1. pose proof mu_Dm as G2.
  assert (EA : forall k, (1 <= k)%nat -> INR (arr N (mu_acc_log1 m) cTsyn k) = 0).
  { intros k Hk. rewrite (arrs_0 N _ _ _ (ui_log1 _ _ _ _ HM) HF); auto. }
  assert (IO : forall k, (1 <= k)%nat -> input N (mu_acc_log2 m) SynOther k = 0) by no_ty H.
  assert (IV : forall k, (1 <= k)%nat -> input N (mu_acc_log2 m) SynV k = 0) by no_ty H.
  assert (IGe : forall k, (1 <= k)%nat -> input N (mu_acc_log2 m) SynGe k = 1000 / Tc * ind k (b1 + Dm) + - (1000 / Tc) * ind k (b2 + D1)).
  { intros k Hk. ev_input H. rewrite mu_first2_arr, mu_last2_arr by auto. netr. lra. }
  assert (IGf : forall k, (1 <= k)%nat -> input N (mu_acc_log2 m) SynGf k = 0).
  { intros k Hk. ev_input H. rewrite EA by auto. lra. }
  assert (IGa : forall k, (1 <= k)%nat -> input N (mu_acc_log2 m) SynGate k = 0).
  { intros k Hk. ev_input H. rewrite EA by auto. lra. }
  split.
  - intros Hc. apply (ung_hold N (mu_acc_log2 m) Tc (ins_prm _ _ _ H) Hdt HTc IO IV (b1 + Dm) (b2 + D1)); auto; lia.
  - intros Hc. apply (ung_full N (mu_acc_log2 m) Tc (ins_prm _ _ _ H) Hdt HTc IO IV (b1 + Dm) (b2 + D1)); auto; lia.
Qed.
(** exponential accumulator *)
Lemma mu_exp_spk f2 : spikes_at N (mu_acc_log2 m) [f2] -> (1 <= f2)%nat ->
  ((mu_S + D3 <= f2 + D1)%nat -> spikes_at N (mu_acc_exp m) [(f2 + D1 - 1 + step_at dt (Tc * rho N ^ (f2 + D1 - (mu_S + D3))))%nat]) /\
  ((f2 + D1 < mu_S + D3)%nat -> spikes_at N (mu_acc_exp m) [(f2 + D1 - 1 + step_at dt Tc)%nat]).
Proof.
  intros HF Hf2. pose proof (ui_exp _ _ _ _ HM) as H. pose proof mu_D1 as G1. pose proof mu_S1 as GS.
  assert (EA : forall k, (1 <= k)%nat -> INR (arr N (mu_acc_log2 m) cTsyn k) = ind k (f2 + D1)).
  { intros k Hk. rewrite (arrs_1 N _ _ _ D1 f2 (ui_log2 _ _ _ _ HM) HF); auto. ev_simpl. lra. }
  assert (ES : forall k, (1 <= k)%nat -> INR (arr N (mu_sync m) (thrice cTsyn) k) = ind k (mu_S + D3)).
  { intros k Hk. apply mu_sync_arr; auto. unfold D3, dt. f_equal. unfold thrice. netr. lra. }
  assert (IO : forall k, (1 <= k)%nat -> input N (mu_acc_exp m) SynOther k = 0) by no_ty H.
  assert (IV : forall k, (1 <= k)%nat -> input N (mu_acc_exp m) SynV k = 0) by no_ty H.
  assert (IGe : forall k, (1 <= k)%nat -> input N (mu_acc_exp m) SynGe k = 1000 / Tc * ind k (f2 + D1)).
  { intros k Hk. ev_input H. rewrite EA by auto. lra. }
  assert (IGf : forall k, (1 <= k)%nat -> input N (mu_acc_exp m) SynGf k = 50 * ind k (mu_S + D3)).
  { intros k Hk. ev_input H. rewrite ES by auto. netr. lra. }
  split; intros Hc.
  - apply (exp_fire N (mu_acc_exp m) Tc (ins_prm _ _ _ H) Hdt HTc IO IV (mu_S + D3) (f2 + D1)); auto; [lia|].
    intros k Hk. ev_input H. rewrite EA, ES by auto. netr. lra.
  - apply (early_fire N (mu_acc_exp m) Tc (ins_prm _ _ _ H) Hdt HTc IO IV (f2 + D1) (mu_S + D3)); auto; [lia|].
    intros k Hk. ev_input H. rewrite EA, ES by auto. netr. lra.
Qed.
Lemma mu_exp_silent : spikes_at N (mu_acc_log2 m) [] -> spikes_at N (mu_acc_exp m) [].
Proof.
  intros HF. pose proof (ui_exp _ _ _ _ HM) as H. pose proof mu_S1 as GS. pose proof (rho_bounds N Hdt) as Hr.
  assert (EA : forall k, (1 <= k)%nat -> INR (arr N (mu_acc_log2 m) cTsyn k) = 0).
  { intros k Hk. rewrite (arrs_0 N _ _ _ (ui_log2 _ _ _ _ HM) HF); auto. }
  assert (ES : forall k, (1 <= k)%nat -> INR (arr N (mu_sync m) (thrice cTsyn) k) = ind k (mu_S + D3)).
  { intros k Hk. apply mu_sync_arr; auto. unfold D3, dt. f_equal. unfold thrice. netr. lra. }
  assert (IO : forall k, (1 <= k)%nat -> input N (mu_acc_exp m) SynOther k = 0) by no_ty H.
  assert (IV : forall k, (1 <= k)%nat -> input N (mu_acc_exp m) SynV k = 0) by no_ty H.
  assert (IGe : forall k, (1 <= k)%nat -> input N (mu_acc_exp m) SynGe k = 0).
  { intros k Hk. ev_input H. rewrite EA by auto. lra. }
  assert (IGf : forall k, (1 <= k)%nat -> input N (mu_acc_exp m) SynGf k = 50 * ind k (mu_S + D3)).
  { intros k Hk. ev_input H. rewrite ES by auto. netr. lra. }
  assert (IGa : forall k, (1 <= k)%nat -> input N (mu_acc_exp m) SynGate k = 1 * ind k (mu_S + D3)).
  { intros k Hk. ev_input H. rewrite EA, ES by auto. netr. lra. }
  set (g := (mu_S + D3)%nat) in *. assert (Hg : (1 <= g)%nat) by (unfold g; lia).
  assert (HNo : forall i, (1 <= i)%nat -> i <> g -> no_input N (mu_acc_exp m) i).
  { intros i Hi B. apply no_input_of; auto; rewrite ?IGf, ?IGa, ?ind_ne by auto; lra. }
  assert (HPre : forall i, (i < g)%nat -> spk N i (mu_acc_exp m) = false /\ st N i (mu_acc_exp m) = at_rest 0).
  { apply rest_before; [apply H|]. intros i Hi. apply HNo; lia. }
  assert (HR : recvd N (mu_acc_exp m) (g - 1) = gst 0 0 50 1).
  { rewrite (recvd_eq N (mu_acc_exp m) (g - 1) 0 0 0 0 0 0 50 1); [f_equal; lra|apply HPre; lia| | | |]; replace (S (g - 1)) with g by lia; auto.
    - rewrite IGf, ind_eq by lia. lra.
    - rewrite IGa, ind_eq by lia. lra. }
  intros k. cbn [memb existsb]. destruct (Nat.lt_ge_cases k g); [apply HPre; auto|].
  replace k with (g - 1 + (k - (g - 1)))%nat by lia. apply (phase N (mu_acc_exp m) (g - 1) _ (k - (g - 1)) (ins_prm _ _ _ H) HR); try lia.
  - intros i Hi. apply HNo; lia.
  - intros i Hi. rewrite traj_gate1. cbn [V gst]. assert (0 < rho N ^ i) by (apply pow_lt; lra). lra.
Qed.

(** output and the zero detector *)
Variables z1 z2 z3 z4 : nat.
Hypothesis Hz1 : arrs N (mu_input1 m) 350 [z1; z2].
Hypothesis Hz2 : arrs N (mu_input2 m) 350 [z3; z4].
Hypothesis Hz : (1 <= z1 < z2)%nat /\ (1 <= z3 < z4)%nat.
Lemma mu_out_group F Z A E : spikes_at N (mu_acc_log2 m) A -> spikes_at N (mu_acc_exp m) E -> (forall j, In j A -> (1 <= j)%nat) -> NoDup A ->
  (forall j, In j E -> (1 <= j)%nat) -> NoDup E ->
  segs (map (fun a => ((a + D2)%nat, 10)) A ++ map (fun a => ((a + Dm)%nat, 10)) E ++ map (fun z => ((z + D1)%nat, 10)) Z ++ map (fun z => ((z + Dm)%nat, 10)) Z) 0 F ->
  segs ([(z1, 10 / 4); (z2, 10 / 4); (z3, 10 / 4); (z4, 10 / 4)] ++ map (fun o => ((o + D1)%nat, - 5)) F) 0 Z ->
  spikes_at N (mu_output m) F /\ spikes_at N (mu_zero m) Z.
Proof.
  intros HA HE PA NA PE NE SF SZ. pose proof (ui_output _ _ _ _ HM) as HOu. pose proof (ui_zero _ _ _ _ HM) as HZe.
  set (LF := map (fun a => ((a + D2)%nat, 10)) A ++ _) in SF. set (LZ := _ ++ map (fun o => ((o + D1)%nat, - 5)) F) in SZ.
  set (gf_ := {| g_n := mu_output m; g_S := F; g_L := LF |}). set (gz := {| g_n := mu_zero m; g_S := Z; g_L := LZ |}).
  assert (R : forall g, In g [gf_; gz] -> spikes_at N (g_n g) (g_S g)).
  { apply seg_group.
    - intros g [<-|[<-|[]]]; cbn [g_n g_S g_L gf_ gz]; (split; [apply HM|split; [eapply ins_vonly; [apply HM|repeat constructor]|auto]]).
    - intros K HK.
      assert (NF : NoDup F /\ forall j, In j F -> (1 <= j)%nat).
      { pose proof (segs_strict _ _ _ SF) as ST. split; [eapply strict_NoDup; eauto|]. intros j Hj. pose proof (strict_In _ _ ST _ Hj). lia. }
      assert (NZ : NoDup Z /\ forall j, In j Z -> (1 <= j)%nat).
      { pose proof (segs_strict _ _ _ SZ) as ST. split; [eapply strict_NoDup; eauto|]. intros j Hj. pose proof (strict_In _ _ ST _ Hj). lia. }
      assert (ED1 : step_at (t_dt N) cTsyn = D1) by reflexivity. assert (EDm : step_at (t_dt N) (nadd cTsyn tmin) = Dm) by reflexivity.
      assert (AF : INR (arr N (mu_output m) cTsyn (S K)) = cnt (S K) (map (fun j => (j + D1)%nat) F)).
      { rewrite <- ED1. apply (arr_upto N (mu_output m) cTsyn F K); [exact (ins_ext _ _ _ HOu)| |lia|exact (proj2 NF)|exact (proj1 NF)]. intros j Hj. apply (HK gf_); auto. left; auto. }
      assert (AZ1 : INR (arr N (mu_zero m) cTsyn (S K)) = cnt (S K) (map (fun j => (j + D1)%nat) Z)).
      { rewrite <- ED1. apply (arr_upto N (mu_zero m) cTsyn Z K); [exact (ins_ext _ _ _ HZe)| |lia|exact (proj2 NZ)|exact (proj1 NZ)]. intros j Hj. apply (HK gz); auto. right; left; auto. }
      assert (AZ2 : INR (arr N (mu_zero m) (nadd cTsyn tmin) (S K)) = cnt (S K) (map (fun j => (j + Dm)%nat) Z)).
      { rewrite <- EDm. apply (arr_upto N (mu_zero m) (nadd cTsyn tmin) Z K); [exact (ins_ext _ _ _ HZe)| |lia|exact (proj2 NZ)|exact (proj1 NZ)]. intros j Hj. apply (HK gz); auto. right; left; auto. }
      assert (AA : INR (arr N (mu_acc_log2 m) (twice cTsyn) (S K)) = cnt (S K) (map (fun j => (j + D2)%nat) A)).
      { apply (arrs_l N _ _ _ D2 A (ui_log2 _ _ _ _ HM) HA); auto; [|lia]. unfold D2, dt. f_equal. netr. lra. }
      assert (AE : INR (arr N (mu_acc_exp m) (nadd tmin cTsyn) (S K)) = cnt (S K) (map (fun j => (j + Dm)%nat) E)).
      { apply (arrs_l N _ _ _ Dm E (ui_exp _ _ _ _ HM) HE); auto; [|lia]. unfold Dm, dt. f_equal. netr. lra. }
      assert (EW : forall D c l, evw (map (fun j => ((j + D)%nat, c)) l) (S K) = c * cnt (S K) (map (fun j => (j + D)%nat) l)).
      { intros D c l. induction l as [|x l IH]; cbn [map]; [rewrite evw_nil, cnt_nil; lra|]. rewrite evw_cons, cnt_cons, IH. lra. }
      intros g [<-|[<-|[]]]; cbn [g_n g_S g_L gf_ gz].
      + ev_input HOu. rewrite AA, AE, AZ1, AZ2. unfold LF. rewrite !evw_app, !EW. netr. lra.
      + ev_input HZe. rewrite AF. unfold LZ. rewrite evw_app, EW.
        assert (E350 : @max_prop_delay R _ = 350) by reflexivity. rewrite E350, (Hz1 (S K)), (Hz2 (S K)) by lia. netr. ev_simpl. lra. }
  split; [apply (R gf_)|apply (R gz)]; cbn [In]; auto.
Qed.
Lemma mu_out_pair f2 fe : spikes_at N (mu_acc_log2 m) [f2] -> spikes_at N (mu_acc_exp m) [fe] -> (1 <= f2)%nat -> (1 <= fe)%nat ->
  (f2 + D2 < fe + Dm)%nat -> (f2 + D2 + D1 <= Nat.max z2 z4)%nat ->
  spikes_at N (mu_output m) [(f2 + D2)%nat; (fe + Dm)%nat].
Proof.
  intros HA HE H1 H2 H3 H4. pose proof mu_D1. apply (mu_out_group [(f2 + D2)%nat; (fe + Dm)%nat] [] [f2] [fe]); auto.
  - intros j [<-|[]]; auto.
  - repeat constructor; auto.
  - intros j [<-|[]]; auto.
  - repeat constructor; auto.
  - cbn [map app]. segs_solve.
  - cbn [map app segs]. intros k Hk. destruct (Nat.le_gt_cases z2 z4).
    + rewrite Nat.max_r in H4 by auto. vsum_simp; ltbs; leb_cases; cbn [andb]; first [lra | exfalso; lia].
    + rewrite Nat.max_l in H4 by lia. vsum_simp; ltbs; leb_cases; cbn [andb]; first [lra | exfalso; lia].
Qed.
Lemma mu_out_zero : spikes_at N (mu_acc_log2 m) [] -> (D1 < Dm)%nat ->
  spikes_at N (mu_output m) [(Nat.max z2 z4 + D1)%nat; (Nat.max z2 z4 + Dm)%nat].
Proof.
  intros HA HD. pose proof (mu_exp_silent HA) as HE. pose proof mu_D1.
  apply (mu_out_group [(Nat.max z2 z4 + D1)%nat; (Nat.max z2 z4 + Dm)%nat] [Nat.max z2 z4] [] []); auto; try (intros j []); try constructor.
  - lia.
  - split; [seg_q|]. cbn [map app]. segs_solve.
  - lia.
  - cbn [map app]. split; [intros k Hk|split].
    + destruct (Nat.le_gt_cases z2 z4); [rewrite Nat.max_r in * by lia|rewrite Nat.max_l in * by lia]; vsum_simp; ltbs; leb_cases; cbn [andb]; first [lra | exfalso; lia].
    + destruct (Nat.le_gt_cases z2 z4); [rewrite Nat.max_r in * by lia|rewrite Nat.max_l in * by lia]; vsum_simp; ltbs; lra.
    + cbn [segs]. intros k Hk. destruct (Nat.le_gt_cases z2 z4); [rewrite Nat.max_r in * by lia|rewrite Nat.max_l in * by lia]; vsum_simp; ltbs; leb_cases; cbn [andb]; first [lra | exfalso; lia].
Qed.
End Mul.
