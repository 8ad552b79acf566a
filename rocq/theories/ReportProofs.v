(** Usage report: proofs (C38, C39, C44). *)
From Coq Require Import Arith ZArith Bool String List Reals Lra Lia Permutation.
From Verif Require Import Num Heapq Elements Trace PredSim PredProofs Report.
Import ListNotations.
Open Scope list_scope.
Open Scope R_scope.

Lemma ln2_pos : 0 < ln 2.
Proof. rewrite <- ln_1. apply ln_increasing; lra. Qed.
Lemma ln_pow2 k : (0 <= k)%Z -> ln (IZR (2 ^ k)) = IZR k * ln 2.
Proof.
  intros Hk. rewrite <- (Z2Nat.id k Hk). rewrite <- INR_IZR_INZ. induction (Z.to_nat k) as [|j IH].
  - cbn. rewrite ln_1. ring.
  - rewrite S_INR. rewrite Nat2Z.inj_succ, Z.pow_succ_r by lia. rewrite mult_IZR. rewrite ln_mult.
    + rewrite IH. ring.
    + lra.
    + apply IZR_lt. apply Z.pow_pos_nonneg; lia.
Qed.
Lemma ceil_log2 n : (1 <= n)%Z -> ceilZ (ln (IZR n) / ln 2) = Z.log2_up n.
Proof.
  intros Hn. pose proof ln2_pos as H2. destruct (Z.eq_dec n 1) as [->|Hne].
  - rewrite ln_1. replace (0 / ln 2) with 0 by (unfold Rdiv; ring). apply ceilZ_unique; cbn; lra.
  - assert (H1 : (1 < n)%Z) by lia. pose proof (Z.log2_up_spec n H1) as [A B]. pose proof (Z.log2_up_pos n H1) as HP.
    assert (HN : 0 < IZR n) by (apply IZR_lt; lia).
    apply ceilZ_unique.
    + apply Rmult_lt_reg_r with (ln 2); auto. unfold Rdiv. rewrite Rmult_assoc, Rinv_l, Rmult_1_r by lra.
      replace (IZR (Z.log2_up n) - 1) with (IZR (Z.pred (Z.log2_up n))) by (unfold Z.pred; rewrite plus_IZR; ring).
      rewrite <- ln_pow2 by lia. apply ln_increasing; [apply IZR_lt; apply Z.pow_pos_nonneg; lia|]. apply IZR_lt; auto.
    + apply Rmult_le_reg_r with (ln 2); auto. unfold Rdiv. rewrite Rmult_assoc, Rinv_l, Rmult_1_r by lra.
      rewrite <- ln_pow2 by lia. destruct (Z.eq_dec n (2 ^ Z.log2_up n)) as [<-|Hd]; [lra|].
      left. apply ln_increasing; auto. apply IZR_lt. lia.
Qed.
Lemma ceil_div a b : (0 < b)%Z -> (b * (ceilZ (IZR a / IZR b) - 1) < a <= b * ceilZ (IZR a / IZR b))%Z.
Proof.
  intros Hb. pose proof (ceilZ_spec (IZR a / IZR b)) as [H1 H2]. set (c := ceilZ _) in *.
  assert (HB : 0 < IZR b) by (apply IZR_lt; auto). assert (E : IZR a / IZR b * IZR b = IZR a) by (field; lra).
  split.
  - apply lt_IZR. rewrite mult_IZR, minus_IZR. rewrite <- E. rewrite (Rmult_comm (IZR b)). apply Rmult_lt_compat_r; auto.
  - apply le_IZR. rewrite mult_IZR. rewrite <- E. rewrite (Rmult_comm (IZR b)). apply Rmult_le_compat_r; lra.
Qed.
Definition updates_of (v ge gf gm steps : Z) : Z := (v + Z.log2_up steps * (ge + gf + gm))%Z.
Lemma perf_spec v ge gf gm steps clock batch : (1 <= steps)%Z -> (1 <= batch)%Z -> 0 < clock ->
  exists p q, estimate_performance v ge gf gm steps clock batch = Ok p /\
    pf_updates p = updates_of v ge gf gm steps /\
    (batch * (q - 1) < pf_updates p <= batch * q)%Z /\ pf_cycles p = (3 * q + 5)%Z /\
    pf_time p * (clock * 1000000) = IZR (pf_cycles p).
Proof.
  intros Hs Hb Hc. unfold estimate_performance, log2R. replace (steps <=? 0)%Z with false by (symmetry; apply Z.leb_gt; lia).
  cbn [rbind]. rewrite ceil_log2 by auto. unfold pdiv, nzero. cbn [neqb R_num nofZ ndiv].
  assert (HB : IZR batch <> 0) by (apply not_0_IZR; lia).
  rewrite (proj2 (Reqb_false (IZR batch) 0)) by auto. cbn [rbind]. rewrite (proj2 (Reqb_false (clock * 1000000) 0)) by lra. cbn [rbind].
  eexists. exists (ceilZ (IZR (v + Z.log2_up steps * (ge + gf + gm)) / IZR batch)). split; [reflexivity|]. cbn [pf_updates pf_cycles pf_time].
  split; [reflexivity|]. split; [apply ceil_div; lia|]. split; [|field; lra].
  unfold d_sram_access, d_computation, d_scheduling, d_encoding, d_decoding. lia.
Qed.
Lemma perf_errors v ge gf gm steps clock batch :
  ((steps <= 0)%Z -> estimate_performance v ge gf gm steps clock batch = Err EValue) /\
  ((1 <= steps)%Z -> batch = 0%Z \/ clock = 0 -> estimate_performance v ge gf gm steps clock batch = Err EZeroDiv).
Proof.
  split; intros Hs.
  - unfold estimate_performance, log2R. apply Z.leb_le in Hs. rewrite Hs. reflexivity.
  - intros Hz. unfold estimate_performance, log2R. replace (steps <=? 0)%Z with false by (symmetry; apply Z.leb_gt; lia). cbn [rbind].
    unfold pdiv, nzero. cbn [neqb R_num nofZ ndiv]. destruct Hz as [->| ->].
    + rewrite Reqb_refl. reflexivity.
    + destruct (Reqb (IZR batch) 0); [reflexivity|]. cbn [rbind]. replace (0 * 1000000) with 0 by ring. rewrite Reqb_refl. reflexivity.
Qed.
Lemma perf_mono v ge gf gm v' ge' gf' gm' steps clock clock' batch batch' p p' :
  (1 <= steps)%Z -> (1 <= batch' <= batch)%Z -> 0 < clock' <= clock -> (0 <= v <= v')%Z -> (0 <= ge <= ge')%Z -> (0 <= gf <= gf')%Z -> (0 <= gm <= gm')%Z ->
  estimate_performance v ge gf gm steps clock batch = Ok p -> estimate_performance v' ge' gf' gm' steps clock' batch' = Ok p' ->
  (pf_updates p <= pf_updates p')%Z /\ (pf_cycles p <= pf_cycles p')%Z /\ pf_time p <= pf_time p' /\ (5 <= pf_cycles p)%Z.
Proof.
  intros Hs Hb Hc Hv Hge Hgf Hgm E E'.
  destruct (perf_spec v ge gf gm steps clock batch) as (p0 & q & E0 & U & Q & C & T); auto; try lia; try lra.
  rewrite E in E0. injection E0 as <-.
  destruct (perf_spec v' ge' gf' gm' steps clock' batch') as (p0 & q' & E0 & U' & Q' & C' & T'); auto; try lia; try lra.
  rewrite E' in E0. injection E0 as <-.
  assert (HU : (0 <= pf_updates p <= pf_updates p')%Z).
  { rewrite U, U'. unfold updates_of. pose proof (Z.log2_up_nonneg steps). split; [nia|].
    apply Z.add_le_mono; [lia|]. apply Z.mul_le_mono_nonneg_l; lia. }
  assert (HQ : (q <= q')%Z).
  { destruct (Z_le_gt_dec q q'); auto. assert (q' <= q - 1)%Z by lia.
    assert (0 <= q')%Z by nia.
    assert (batch' * q' <= batch * (q - 1))%Z by (apply Z.mul_le_mono_nonneg; lia). lia. }
  assert (HQ0 : (0 <= q)%Z) by nia.
  assert (HC : (pf_cycles p <= pf_cycles p')%Z) by lia.
  split; [lia|]. split; auto. split; [|lia].
  assert (HT : pf_time p * clock <= pf_time p' * clock').
  { apply IZR_le in HC. lra. }
  assert (HT0 : 0 <= pf_time p).
  { assert (0 <= IZR (pf_cycles p)) by (apply IZR_le; lia). rewrite <- T in H.
    destruct (Rle_dec 0 (pf_time p)); auto. exfalso. assert (pf_time p * (clock * 1000000) < 0); [|lra].
    assert (0 < clock * 1000000) by lra. apply Rnot_le_lt in n. rewrite <- (Rmult_0_l (clock * 1000000)). apply Rmult_lt_compat_r; auto. }
  apply Rmult_le_reg_r with clock'; [lra|]. eapply Rle_trans; [|exact HT]. apply Rmult_le_compat_l; lra.
Qed.
Lemma energy_spec p clock e l i vdd : 0 < pf_time p -> vdd <> 0 ->
  exists w, estimate_power_and_energy p clock e l i vdd = Ok w /\
    pw_total w = pw_leak w + pw_idle w + pw_dyn w /\ pw_leak w = l * micro /\ pw_idle w = i * clock * micro /\
    pw_dyn w * pf_time p = e * pico * IZR (pf_updates p) /\
    pw_energy w = (pw_leak w + pw_idle w) * pf_time p + e * pico * IZR (pf_updates p) /\
    pw_current w * vdd = pw_total w /\ pw_rsop w * pf_time p = IZR (pf_updates p).
Proof.
  intros Ht Hv. unfold estimate_power_and_energy. destruct (Rlt_dec 0 (pf_time p)); [|contradiction].
  unfold pdiv, nzero. cbn [neqb R_num nofZ ndiv]. rewrite (proj2 (Reqb_false (pf_time p) 0)) by lra. cbn [rbind].
  rewrite (proj2 (Reqb_false vdd 0)) by auto. cbn [rbind]. eexists. split; [reflexivity|]. cbn [pw_total pw_leak pw_idle pw_dyn pw_energy pw_current pw_rsop].
  repeat split; field; auto; lra.
Qed.
(** human_readable *)
Lemma human_spec v : let '(sc, pre) := human_readable v in
  exists f, In (f, pre) prefixes /\ sc * f = v /\ (pico <= v < 1000000000000 -> 1 <= sc < 1000).
Proof.
  unfold human_readable, prefixes, micro, pico. cbn [rev app find fst].
  assert (NE : forall a b, 0 < a -> 0 < b -> a <> b -> Reqb (/ a) (/ b) = false).
  { intros a b Ha Hb Hn. apply Reqb_false. intros E. apply Hn. rewrite <- (Rinv_inv a), <- (Rinv_inv b). rewrite E. auto. }
  assert (N1 : / 1000000000000 < 1 / 1000000000) by lra.
  rewrite (proj2 (Reqb_false 1000000000 (/ 1000000000000))) by lra.
  rewrite (proj2 (Reqb_false 1000000 (/ 1000000000000))) by lra.
  rewrite (proj2 (Reqb_false 1000 (/ 1000000000000))) by lra.
  rewrite (proj2 (Reqb_false 1 (/ 1000000000000))) by lra.
  rewrite (NE 1000 1000000000000) by lra. rewrite (NE 1000000 1000000000000) by lra. rewrite (NE 1000000000 1000000000000) by lra.
  rewrite Reqb_refl. rewrite !orb_false_r, orb_true_r.
  repeat match goal with |- context [Rleb ?a v] => let E := fresh "E" in destruct (Rleb a v) eqn:E; [apply Rleb_true in E|apply Rleb_false in E] end;
  cbv iota beta;
  match goal with |- exists f, In (f, ?s) _ /\ (v / ?g) * f = v /\ _ => exists g; split; [cbn [In]; tauto|]; split; [field; lra|]; intros HB; lra end.
Qed.
(** the recursion depth of report_neuron_usage *)
Lemma print_depth_ignored w net d indent f : (1 <= d)%nat -> print_neurons f w net d indent 0 = print_neurons f w net 1 indent 0.
Proof.
  intros Hd. destruct f as [|f]; auto. cbn [print_neurons]. destruct (nth_error (w_mods w) net) as [md|]; auto.
  destruct (neurons_of w net); cbn [rbind]; auto. replace (0 <? d)%nat with true by (symmetry; apply Nat.ltb_lt; lia). reflexivity.
Qed.
Lemma rfold_ok {A B} (P : B -> Prop) (f : A -> B -> res A) l : (forall a b, In b l -> P b -> exists a', f a b = Ok a') -> Forall P l -> forall a, exists r, rfold f l a = Ok r.
Proof.
  induction l as [|b l IH]; intros Hf HP a; cbn [rfold]; eauto. inversion HP; subst. destruct (Hf a b) as (a' & ->); auto; [left; auto|].
  cbn [rbind]. apply IH; auto. intros; apply Hf; auto. right; auto.
Qed.
(** totals *)
Lemma spike_estimation_sum subs : (forall k, In k subs -> k <> KOther) ->
  exists t, spike_estimation subs = Ok t /\
   t = fold_right Z.add 0%Z (map (fun k => match k with KInjector => 2 | KSignFlipper => 4 | KMulNorm => 29 | KAdder => 58 | KDiv => 31 | KOther => 0 end%Z) subs).
Proof.
  intros Hk. unfold spike_estimation.
  assert (G : forall acc, exists t, rfold (fun acc k => let* s := module_to_total_spikes k in Ok (acc + s)%Z) subs acc = Ok t /\
    t = (acc + fold_right Z.add 0 (map (fun k => match k with KInjector => 2 | KSignFlipper => 4 | KMulNorm => 29 | KAdder => 58 | KDiv => 31 | KOther => 0 end) subs))%Z).
  { induction subs as [|k subs IH]; intros acc; cbn [rfold map fold_right].
    - eexists. split; [reflexivity|lia].
    - specialize (IH ltac:(intros; apply Hk; right; auto)).
      assert (Hn : k <> KOther) by (apply Hk; left; auto).
      destruct k; try congruence; cbn [module_to_total_spikes rbind]; match goal with |- exists t, rfold _ _ ?a = _ /\ _ => destruct (IH a) as (t & -> & ->) end; eexists; (split; [reflexivity|lia]). }
  destruct (G 0%Z) as (t & E & ->). eexists. split; [exact E|lia].
Qed.
Lemma spike_estimation_unknown subs : In KOther subs -> spike_estimation subs = Err EValue.
Proof.
  unfold spike_estimation. generalize 0%Z. induction subs as [|k subs IH]; intros z Hk; [destruct Hk|]. cbn [rfold].
  destruct k; cbn [module_to_total_spikes rbind]; try (apply IH; destruct Hk as [Hk|Hk]; [discriminate|auto]). reflexivity.
Qed.
