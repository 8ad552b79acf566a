(** Compiled expressions compute their value (C49): compilation, loading, simulation, decoding. *)
From Coq Require Import Arith ZArith Bool String List Reals Lra Lia Permutation.
From Verif Require Import Num Heapq Elements Simulator Networks Scalar ScalarProofs Compiler Trace SimTrace SimProps TraceProps NeuronLib NetLib Build BuildNets Bridge MemoryProof GeLib GfLib Session SimpleNets InvMem Misc LnLib FuncNets SegLib SubNet ExpLog MulNet MulRun SMem SignMul SignRun SignProd NormNet NormVal NormRun SyncNet LinComb LinRun CompilerProofs E2EAdd E2ELib E2ENode E2ESpec E2ESound PropsCompiler.
Import ListNotations.
Open Scope list_scope.
Open Scope R_scope.

Lemma ext_load h norm pl v s b : nth_error h v = Some s -> x_op s = OLoad -> outn pl v true <> outn pl v false ->
  ext_spikes (vstims h norm pl v) (outn pl v b) = if Bool.eqb b (lsign s) then [0; 10 + Rabs (x_data s) / norm * 100] else [].
Proof.
  intros E Eo Hne. unfold vstims, trigger_for. rewrite E, Eo. unfold lsign.
  change (fst (pl_out (pl v))) with (outn pl v true). change (snd (pl_out (pl v))) with (outn pl v false).
  assert (A : (outn pl v true =? outn pl v false)%nat = false) by (apply Nat.eqb_neq; auto).
  assert (B : (outn pl v false =? outn pl v true)%nat = false) by (apply Nat.eqb_neq; auto).
  unfold plan_stims, exts, ext_spikes. destruct (Rle_dec 0 (x_data s)); cbn [map flat_map stim_ext app filter fst snd]; destruct b; cbn [Bool.eqb];
    rewrite ?Nat.eqb_refl, ?A, ?B; cbn [map snd]; rewrite ?Rplus_0_l; reflexivity.
Qed.

Lemma optype_eq_load (o : optype) : {o = OLoad} + {o <> OLoad}.
Proof. destruct o; (left; reflexivity) || (right; discriminate). Qed.
Lemma accurate_tau h norm dt v x e tau : 0 < norm -> accurate h norm dt v x e tau -> 0 <= tau.
Proof.
  intros Hn. assert (0 < 110 / norm) by (apply Rmult_lt_0_compat; [lra|apply Rinv_0_lt_compat; auto]).
  assert (HM : forall a b, 0 <= a -> 0 <= b -> 0 <= Rmax a b) by (intros a b ? ?; pose proof (Rmax_l a b); lra).
  induction 1; try lra.
  - pose proof (HM _ _ IHaccurate1 IHaccurate2). lra.
  - pose proof (HM _ _ IHaccurate1 IHaccurate2). lra.
  - pose proof (HM _ _ IHaccurate1 IHaccurate2). lra.
Qed.
(** the whole run: what compilation, loading and simulation establish for any program in range *)
Lemma evaluate_setup h root norm dt g ord T : program h root -> 0 < norm <= 100 -> 0 < dt < / 50 -> 1 = INR g * dt -> ord_ok ord -> 0 <= T ->
  (forall v s, reaches h root v -> nth_error h v = Some s -> supported (x_op s) /\ (x_op s = OLoad -> Rabs (x_data s) <= norm)) ->
  exists nodes pl N c s1 rd,
    In root nodes /\ plan_net h norm nodes pl N dt g /\ (forall v, In v nodes -> placed_ok h norm v (pl v)) /\
    (forall v s u, In v nodes -> nth_error h v = Some s -> In u (x_prev s) -> In u nodes) /\
    (forall v s, In v nodes -> nth_error h v = Some s -> x_op s = OLoad ->
      (forall b, in_syn N (outn pl v b) = [] /\ t_prm N (outn pl v b) = stdp) /\
      ext_of N (outn pl v (lsign s)) = [0; 10 + Rabs (x_data s) / norm * 100] /\ ext_of N (outn pl v (negb (lsign s))) = []) /\
    evaluate h root norm dt ord T = decode_output c s1 rd /\
    rd_plus rd = outn pl root true /\ rd_minus rd = outn pl root false /\ rd_norm rd = norm /\ c_enc c = DefaultEncoder /\
    (forall b l, spikes_at N (outn pl root b) l -> strict 0 l -> (forall k, In k l -> INR k * dt <= T) -> spike_log s1 (outn pl root b) = ext_of N (outn pl root b) ++ times dt l) /\
    (forall s, nth_error h root = Some s -> x_op s <> OLoad -> forall b, ext_of N (outn pl root b) = []).
Proof.
  intros (fuel & cs & env & EP & HR) Hn [D0 D1] Eg HO HT0 HRe. destruct (program_heap EP HR) as [W Hr].
  destruct (compile_ok h root norm empty_world W Hr inv_empty Hn) as (p & w' & EC & HC & (L & HB) & HT1 & _).
  { intros v s R0 Es. destruct (HRe v s R0 Es) as [Q1 Q2]. split; auto. intros Eo. specialize (Q2 Eo). pose proof (Rle_abs (x_data s)). lra. }
  destruct HC as (nodes & pl & ND & HNo & HPl & Hdis & _ & HS & HTr & HRd). cbn [w_syns empty_world app] in HS.
  pose proof (b_inv _ _ _ _ HB) as I'.
  assert (HP : forall v, In v nodes -> placed_ok h norm v (pl v)) by (intros v Hv; apply HPl; auto).
  assert (HK : forall v, In v nodes -> (length (w_neurons (pl_w1 (pl v))) <= length (w_neurons w'))%nat).
  { intros v Hv. destruct (HPl v Hv) as (_ & HKp & _). destruct (kp_nrn _ _ _ HKp) as [l ->]. rewrite app_length. lia. }
  assert (Hroot : In root nodes) by (apply HNo; constructor).
  set (N := pnet p w' dt).
  assert (PN : plan_net h norm nodes pl N dt g).
  { constructor; auto.
    - intros v n s Hv Hn' E Ho HI. eapply (node_own h norm p w' nodes pl dt); eauto.
    - intros v n s y Hv Hn' E Ho H1 H2. eapply (node_in h norm p w' nodes pl dt); eauto. }
  assert (Hcl : forall v s u, In v nodes -> nth_error h v = Some s -> In u (x_prev s) -> In u nodes).
  { intros v s u Hv E Hu. apply HNo. apply HNo in Hv. clear -Hv E Hu. induction Hv as [v|v q n HO _ IH].
    - econstructor; [|constructor]. exists s. auto.
    - econstructor; eauto. }
  assert (Hld : forall v s, In v nodes -> nth_error h v = Some s -> x_op s = OLoad -> outn pl v true <> outn pl v false).
  { intros v s Hv E Eo. destruct (kind_load h norm v (pl v) s (HP v Hv) E Eo) as [i [M1 M2 M3 M4 M5]]. unfold outn. rewrite M2. unfold ij_nodes in M4. nodes_eqs M4. cbn [fst snd]. lia. }
  assert (Hload : forall v s, In v nodes -> nth_error h v = Some s -> x_op s = OLoad ->
    (forall b, in_syn N (outn pl v b) = [] /\ t_prm N (outn pl v b) = stdp) /\
    ext_of N (outn pl v (lsign s)) = [0; 10 + Rabs (x_data s) / norm * 100] /\ ext_of N (outn pl v (negb (lsign s))) = []).
  { intros v s Hv E Eo. destruct (kind_load h norm v (pl v) s (HP v Hv) E Eo) as [i [M1 M2 M3 M4 M5]].
    destruct (out_rng h norm nodes pl HP v Hv) as [O1 O2].
    assert (Hb : forall b, rngv pl v (outn pl v b)) by (intros []; assumption). split; [|split].
    - intros b. split; [|eapply (node_prm p w' nodes pl dt); eauto]. unfold N. rewrite (node_syn h norm p w' nodes pl dt ND HP Hdis HS v _ Hv (Hb b)).
      rewrite M3. cbn [filter app]. unfold wires_of. rewrite E, M1. destruct (x_prev s); reflexivity.
    - unfold N. rewrite (node_ext h norm p w' nodes pl dt ND HP Hdis HTr v _ Hv (Hb _)). rewrite (ext_load h norm pl v s _ E Eo (Hld v s Hv E Eo)), eqb_reflx. reflexivity.
    - unfold N. rewrite (node_ext h norm p w' nodes pl dt ND HP Hdis HTr v _ Hv (Hb _)). rewrite (ext_load h norm pl v s _ E Eo (Hld v s Hv E Eo)). destruct (lsign s); reflexivity. }
  (* the run *)
  set (stims := plan_stims (p_triggers p)).
  assert (HSt : Forall (stim_ok (length (w_neurons w'))) stims).
  { unfold stims, plan_stims. apply Forall_map, Forall_forall. intros t Ht. cbn [stim_ok]. rewrite HTr in Ht. apply in_flat_map in Ht as (v & Hv & Ht).
    pose proof (HNo v) as Hv'. destruct (out_rng h norm nodes pl HP v Hv) as [[_ O1] [_ O2]]. specialize (HK v Hv).
    unfold trigger_for in Ht. destruct (nth_error h v) as [s'|] eqn:E'; [|destruct Ht]. destruct (x_op s') eqn:Eo; try contradiction.
    destruct Ht as [<-|[]]. cbn [fst snd]. destruct (HRe v s' (proj1 Hv' Hv) E') as [_ Q]. specialize (Q Eo). split.
    - split; [apply Rmult_le_pos; [apply Rabs_pos|left; apply Rinv_0_lt_compat; lra]|]. apply Rmult_le_reg_r with norm; [lra|]. unfold Rdiv. rewrite Rmult_assoc, Rinv_l by lra. lra.
    - destruct (Rle_dec 0 (x_data s')); lia. }
  destruct (run_built (compile_computation h root norm) p w' (p_net p) L DefaultEncoder dt (exts DefaultEncoder stims) T ord EC HB D0 HT0 (exts_in _ _ _ HSt) HO)
    as (c & s1 & Ec & Ew & Ee & Ed & E1 & HL).
  assert (EV : evaluate h root norm dt ord T = decode_output c s1 (p_reader p)).
  { unfold evaluate. rewrite EC. cbn [rbind fst snd]. unfold init_with_plan. rewrite Ec. cbn [rbind fst snd].
    rewrite apply_triggers_feed. fold stims. rewrite (feed_all c _ _ HSt). cbn [rbind fst snd]. rewrite Ee, E1. reflexivity. }
  change (net_of w' (exts DefaultEncoder stims) dt) with N in HL.
  assert (HLo : forall b, (outn pl root b < length (w_neurons w'))%nat).
  { intros b. destruct (out_rng h norm nodes pl HP root Hroot) as [[_ O1] [_ O2]]. specialize (HK root Hroot). unfold outn. destruct b; lia. }
  exists nodes, pl, N, c, s1, (p_reader p). do 6 (split; [assumption|]). rewrite HRd. cbn [rd_plus rd_minus rd_norm].
  split; [reflexivity|]. split; [reflexivity|]. split; [reflexivity|]. split; [exact Ee|]. split.
  - intros b l Hl Hs Hk. exact (HL _ l (HLo b) Hl Hs Hk).
  - intros s Es Eo b. eapply (node_noext h norm p w' nodes pl dt); eauto. destruct (out_rng h norm nodes pl HP root Hroot). destruct b; assumption.
Qed.
Theorem evaluate_accurate h root norm dt g ord T x e tau : program h root -> 0 < norm <= 100 -> 0 < dt < / 50 -> 1 = INR g * dt -> ord_ok ord ->
  accurate h norm dt root x e tau -> tau <= T ->
  exists s y, nth_error h root = Some s /\ evaluate h root norm dt ord T = Ok (Some y) /\ Rabs (y - x_data s) <= norm * e.
Proof.
  intros HPr Hn [D0 D1] Eg HO HA HT. pose proof HPr as (fuel & cs & env & EP & HR). destruct (program_heap EP HR) as [W Hr].
  destruct (accurate_data _ _ _ _ _ _ _ W (proj1 Hn) HA) as (s & Es & Ex).
  assert (HT0 : 0 <= T) by (pose proof (accurate_tau _ _ _ _ _ _ _ (proj1 Hn) HA); lra).
  destruct (evaluate_setup h root norm dt g ord T HPr Hn (conj D0 D1) Eg HO HT0 (accurate_reach _ _ _ _ _ _ _ W HA))
    as (nodes & pl & N & c & s1 & rd & Hroot & PN & HP & Hcl & Hload & EV & Rp & Rm & Rn & Ee & HL & NX).
  destruct (accurate_carries h norm nodes pl N dt g PN HP (proj1 Hn) Hcl Hload root x e tau HA Hroot) as (sg & a & k & SG & EE & TT & HF).
  assert (He : 0 <= e) by (pose proof (Rabs_pos (sval sg (INR k * dt / 100) - x)); lra).
  exists s. rewrite EV.
  assert (HTc : Tcod (DefaultEncoder (T := R)) <> 0) by (cbn; lra).
  assert (HD : forall sg t1 t2, spike_log s1 (outn pl root sg) = [t1; t2] -> spike_log s1 (outn pl root (negb sg)) = [] ->
    decode_output c s1 rd = Ok (Some (norm * sval sg ((t2 - t1 - 10) / 100)))).
  { intros [] t1 t2 L1 L2; cbn [negb sval] in *.
    - rewrite (decode_output_plus c s1 rd t1 t2 ((t2 - t1 - 10) / 100)); rewrite ?Rp, ?Rm, ?Rn; auto.
      rewrite Ee. exact (decode_R (DefaultEncoder (T := R)) (t2 - t1) HTc).
    - rewrite (decode_output_minus c s1 rd t1 t2 ((t2 - t1 - 10) / 100)); rewrite ?Rp, ?Rm, ?Rn; auto.
      + cbn. do 2 f_equal. lra.
      + rewrite Ee. exact (decode_R (DefaultEncoder (T := R)) (t2 - t1) HTc). }
  assert (Exd : x_data s = norm * x) by (rewrite Ex; field; lra).
  destruct (optype_eq_load (x_op s)) as [Eo|Eo].
  - (* the program is a single input *)
    destruct (Hload root s Hroot Es Eo) as (HI & X1 & X0).
    assert (LG : forall b, spike_log s1 (outn pl root b) = ext_of N (outn pl root b)).
    { intros b. rewrite (HL b []); [apply app_nil_r| |exact I|intros ? []]. destruct (HI b). apply source_silent; auto. }
    exists (norm * sval (lsign s) ((10 + Rabs (x_data s) / norm * 100 - 0 - 10) / 100)). split; auto. split.
    + apply HD; rewrite LG; assumption.
    + replace ((10 + Rabs (x_data s) / norm * 100 - 0 - 10) / 100) with (Rabs (x_data s) / norm) by lra.
      assert (Q : norm * sval (lsign s) (Rabs (x_data s) / norm) = sval (lsign s) (Rabs (x_data s))) by (destruct (lsign s); cbn [sval]; field; lra).
      rewrite Q, <- lsign_val, Rminus_diag_eq, Rabs_R0 by reflexivity. apply Rmult_le_pos; lra.
  - destruct (HF s Es Eo) as (b & -> & [F1 F0 Fb]). specialize (NX s Es Eo).
    assert (G : (1 <= g)%nat) by (destruct g; [cbn in Eg; lra|lia]).
    exists (norm * sval sg ((INR (b + 10 * g + k) * dt - INR b * dt - 10) / 100)). split; auto. split.
    + apply HD.
      * rewrite (HL sg [b; (b + 10 * g + k)%nat]); [rewrite NX; reflexivity|exact F1|cbn; lia|].
        intros j Hj. apply Rle_trans with (INR (b + g + 10 * g + k) * dt); [|lra]. apply Rmult_le_compat_r; [lra|]. apply le_INR. destruct Hj as [<-|[<-|[]]]; lia.
      * rewrite (HL _ []); [rewrite NX; reflexivity|exact F0|exact I|intros ? []].
    + destruct (gsteps dt g D0 Eg) as (_ & _ & G10 & _).
      replace (INR (b + 10 * g + k) * dt - INR b * dt - 10) with (INR k * dt) by (rewrite !plus_INR, !Rmult_plus_distr_r, <- G10; lra).
      rewrite Exd, <- Rmult_minus_distr_l, Rabs_mult, (Rabs_right norm) by lra. apply Rmult_le_compat_l; lra.
Qed.

(** a tiny negative sum at the root: no output, however long the simulation *)
Theorem evaluate_lost h root norm dt g ord T s u1 u2 x1 e1 tau1 x2 e2 tau2 : program h root -> 0 < norm <= 100 -> 0 < dt < / 50 -> 1 = INR g * dt -> ord_ok ord -> 0 <= T ->
  nth_error h root = Some s -> x_op s = OAdd -> x_prev s = [u1; u2] ->
  accurate h norm dt u1 x1 e1 tau1 -> accurate h norm dt u2 x2 e2 tau2 ->
  Rmax 0 x1 + Rmax 0 x2 + (e1 + e2) <= 1 -> Rmax 0 (- x1) + Rmax 0 (- x2) + (e1 + e2) <= 1 ->
  e1 + e2 + dt / 100 <= - (x1 + x2) -> - (x1 + x2) + (e1 + e2) + 2 * dt / 100 <= 1 / 100 / 100 ->
  evaluate h root norm dt ord T = Ok None.
Proof.
  intros HPr Hn [D0 D1] Eg HO HT0 Es Eo Ep HA1 HA2 H1 H2 H3 H4. pose proof HPr as (fuel & cs & env & EP & HR). destruct (program_heap EP HR) as [W Hr].
  assert (HRe : forall v s', reaches h root v -> nth_error h v = Some s' -> supported (x_op s') /\ (x_op s' = OLoad -> Rabs (x_data s') <= norm)).
  { intros v s' R0 E'. inversion R0 as [|? q ? HOp R1]; subst.
    - rewrite Es in E'. injection E' as <-. unfold supported. rewrite Eo. split; [tauto|discriminate].
    - destruct HOp as (s0 & E0 & HI). rewrite Es in E0. injection E0 as <-. rewrite Ep in HI. destruct HI as [<-|[<-|[]]].
      + exact (accurate_reach _ _ _ _ _ _ _ W HA1 v s' R1 E').
      + exact (accurate_reach _ _ _ _ _ _ _ W HA2 v s' R1 E'). }
  destruct (evaluate_setup h root norm dt g ord T HPr Hn (conj D0 D1) Eg HO HT0 HRe)
    as (nodes & pl & N & c & s1 & rd & Hroot & PN & HP & Hcl & Hload & EV & Rp & Rm & Rn & Ee & HL & NX).
  assert (I1 : In u1 nodes) by (apply (Hcl root s); auto; rewrite Ep; cbn; auto). assert (I2 : In u2 nodes) by (apply (Hcl root s); auto; rewrite Ep; cbn; auto).
  pose proof (accurate_carries h norm nodes pl N dt g PN HP (proj1 Hn) Hcl Hload u1 x1 e1 tau1 HA1 I1) as C1.
  pose proof (accurate_carries h norm nodes pl N dt g PN HP (proj1 Hn) Hcl Hload u2 x2 e2 tau2 HA2 I2) as C2.
  pose proof (add_silent h norm nodes pl N dt g PN HP root s u1 u2 x1 e1 tau1 x2 e2 tau2 Hroot Es Eo Ep C1 C2 H1 H2 H3 H4) as SL.
  assert (LG : forall b, spike_log s1 (outn pl root b) = []).
  { intros b. rewrite (HL b []); [|apply SL|exact I|intros ? []]. rewrite (NX s Es); [reflexivity|congruence]. }
  rewrite EV. apply decode_output_none. rewrite Rp, Rm. split; apply LG.
Qed.
