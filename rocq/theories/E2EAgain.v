(** Compile once, evaluate again and again on other inputs (C68). *)
From Coq Require Import Arith ZArith Bool String List Reals Lra Lia Permutation.
From Verif Require Import Num Heapq Elements Simulator Networks Scalar ScalarProofs Compiler Trace SimTrace SimProps TraceProps NeuronLib NetLib Build BuildNets Bridge MemoryProof GeLib GfLib Session SimpleNets InvMem Misc LnLib FuncNets SegLib SubNet ExpLog MulNet MulRun SMem SignMul SignRun SignProd NormNet NormVal NormRun SyncNet LinComb LinRun CompilerProofs E2EAdd E2ELib E2ENode E2ESpec E2ESound PropsCompiler E2E Restart MemReuse Reuse Jobs Settle RestFun E2ERest E2EAgainSpec E2EQuiet.
Import ListNotations.
Open Scope R_scope.
Open Scope list_scope.

Lemma shape_nth h h' v s' : same_shape h h' -> nth_error h' v = Some s' -> exists s, nth_error h v = Some s /\ x_op s' = x_op s /\ x_prev s' = x_prev s.
Proof.
  intros H. revert v. induction H as [|a b h h' [H1 H2] _ IH]; intros [|v] E; try discriminate; [|apply (IH v E)].
  injection E as <-. exists a. auto.
Qed.
Lemma shape_sym h h' : same_shape h h' -> same_shape h' h.
Proof. induction 1 as [|a b h h' [H1 H2] _ IH]; constructor; auto. Qed.
Lemma shape_reach h h' u v : same_shape h h' -> reaches h u v -> reaches h' u v.
Proof.
  intros H. induction 1 as [v|v q n (s & E & HI) _ IH]; [constructor|].
  destruct (shape_nth h' h v s (shape_sym _ _ H) E) as (s' & E' & _ & E2). apply (r_step h' v q n); [exists s'; split; auto; rewrite <- E2; auto|exact IH].
Qed.
Lemma shape_placed h h' norm v pd : same_shape h h' -> placed_ok h norm v pd -> placed_ok h' norm v pd.
Proof.
  intros H (s & E & R). destruct (shape_nth h' h v s (shape_sym _ _ H) E) as (s' & E' & E1 & E2).
  exists s'. split; [exact E'|]. rewrite <- E1, <- E2. exact R.
Qed.
Lemma shape_wires h h' pl v : same_shape h h' -> wires_of h' pl v = wires_of h pl v.
Proof.
  intros H. unfold wires_of. destruct (nth_error h' v) as [s'|] eqn:E'.
  - destruct (shape_nth h h' v s' H E') as (s & E & _ & E2). rewrite E, E2. reflexivity.
  - destruct (nth_error h v) as [s|] eqn:E; auto. destruct (shape_nth h' h v s (shape_sym _ _ H) E) as (s' & X & _). congruence.
Qed.

Lemma compiled_setup (h : list (scalar R)) root norm : program h root -> 0 < norm <= 100 ->
  (forall v s, reaches h root v -> nth_error h v = Some s -> supported (x_op s) /\ (x_op s = OLoad -> Rabs (x_data s) <= norm)) ->
  exists nodes pl p w' L, compile_computation h root norm empty_world = Ok (p, w') /\ built empty_world w' (p_net p) L /\ NoDup nodes /\
    (forall v, In v nodes <-> reaches h root v) /\ (forall v, In v nodes -> placed_ok h norm v (pl v)) /\
    (forall v, In v nodes -> (length (w_neurons (pl_w1 (pl v))) <= length (w_neurons w'))%nat) /\
    (forall u v n, In u nodes -> In v nodes -> u <> v ->
       (length (w_neurons (pl_w0 (pl u))) <= n < length (w_neurons (pl_w1 (pl u))))%nat ->
       ~ (length (w_neurons (pl_w0 (pl v))) <= n < length (w_neurons (pl_w1 (pl v))))%nat) /\
    w_syns w' = flat_map (fun v => pl_own (pl v)) nodes ++ flat_map (wires_of h pl) nodes /\
    p_triggers p = flat_map (trigger_for h norm pl) nodes /\
    p_reader p = {| rd_plus := outn pl root true; rd_minus := outn pl root false; rd_norm := norm |} /\ inv w'.
Proof.
  intros (fuel & cs & env & EP & HR) Hn HRe. destruct (program_heap EP HR) as [W Hr].
  destruct (compile_ok h root norm empty_world W Hr inv_empty Hn) as (p & w' & EC & HC & (L & HB) & HT1 & _).
  { intros v s R0 Es. destruct (HRe v s R0 Es) as [Q1 Q2]. split; auto. intros Eo. specialize (Q2 Eo). pose proof (Rle_abs (x_data s)). lra. }
  destruct HC as (nodes & pl & ND & HNo & HPl & Hdis & _ & HS & HTr & HRd). cbn [w_syns empty_world app] in HS.
  exists nodes, pl, p, w', L. split; [exact EC|]. split; [exact HB|]. split; [exact ND|]. split; [exact HNo|]. split; [intros v Hv; apply HPl; auto|]. split.
  { intros v Hv. destruct (HPl v Hv) as (_ & HKp & _). destruct (kp_nrn _ _ _ HKp) as [l ->]. rewrite app_length. lia. }
  split; [exact Hdis|]. split; [exact HS|]. split; [exact HTr|]. split; [exact HRd|]. apply (b_inv _ _ _ _ HB).
Qed.

Section Again.
Variables (h : list (scalar R)) (root : nat) (norm dt : R) (g : nat) (ord : nat -> list nat -> list nat).
Variables (nodes : list nat) (pl : nat -> placed) (p : plan R) (w' : world R) (L : list (synapse R)) (c : cfg R).
Hypothesis Hn : 0 < norm <= 100.
Hypothesis Hdt : 0 < dt < / 50.
Hypothesis Eg : 1 = INR g * dt.
Hypothesis HO : ord_ok ord.
Hypothesis EC : compile_computation h root norm empty_world = Ok (p, w').
Hypothesis HB : built empty_world w' (p_net p) L.
Hypothesis ND : NoDup nodes.
Hypothesis HNo : forall v, In v nodes <-> reaches h root v.
Hypothesis HPl : forall v, In v nodes -> placed_ok h norm v (pl v).
Hypothesis HK : forall v, In v nodes -> (length (w_neurons (pl_w1 (pl v))) <= length (w_neurons w'))%nat.
Hypothesis Hdis : forall u v n, In u nodes -> In v nodes -> u <> v ->
       (length (w_neurons (pl_w0 (pl u))) <= n < length (w_neurons (pl_w1 (pl u))))%nat ->
       ~ (length (w_neurons (pl_w0 (pl v))) <= n < length (w_neurons (pl_w1 (pl v))))%nat.
Hypothesis HS : w_syns w' = flat_map (fun v => pl_own (pl v)) nodes ++ flat_map (wires_of h pl) nodes.
Hypothesis Ec : mk_simulator w' (p_net p) DefaultEncoder dt = Ok (c, new_sim w').
Hypothesis Hroot : forall s, nth_error h root = Some s -> x_op s <> OLoad.
Let inp := fun v => pl_out (pl v).
Lemma wf_any ext : (forall q, In q ext -> (fst q < length (w_neurons w'))%nat) -> wf c ext.
Proof.
  intros HX. destruct HB as [I X Em Hl O ES]. cbn in Em. destruct (covers_all w' I ltac:(rewrite Em in *; exact O) ltac:(rewrite Em in *; exact Hl)) as (keys & Ek & HKk).
  pose proof Ec as Ec2. unfold mk_simulator in Ec2. rewrite Em, Ek in Ec2. cbn [rbind] in Ec2. injection Ec2 as <-. destruct Hdt. apply wf_built; auto.
Qed.
Definition rstims (r : round) (t0 : R) : list stim := map (fun t => SValue (snd t) (fst t) t0) (inputs_of (rd_prog r) norm inp nodes).
Definition rext (r : round) : list (nat * R) := exts DefaultEncoder (rstims r 0).

Lemma rstims_ok r t0 : round_ok h root norm dt r -> Forall (stim_ok (length (w_neurons w'))) (rstims r t0).
Proof.
  intros (SS & W & x & tau & HR & _). unfold rstims. apply Forall_map, Forall_forall. intros t Ht. cbn [stim_ok].
  unfold inputs_of in Ht. apply in_flat_map in Ht as (v & Hv & Ht). destruct (out_rng h norm nodes pl HPl v Hv) as [[_ O1] [_ O2]]. specialize (HK v Hv).
  destruct (nth_error (rd_prog r) v) as [s'|] eqn:E'; [|destruct Ht]. destruct (x_op s') eqn:Eo; try contradiction.
  destruct Ht as [<-|[]]. cbn [fst snd].
  assert (RV : reaches (rd_prog r) root v) by (apply (shape_reach h); auto; apply HNo; auto).
  destruct (accurate_reach _ _ _ _ _ _ _ W (repeatable_accurate _ _ _ _ _ _ _ (proj1 Hdt) (proj1 Hn) HR) v s' RV E') as [_ Q]. specialize (Q Eo). split.
  - split; [apply Rmult_le_pos; [apply Rabs_pos|left; apply Rinv_0_lt_compat; lra]|]. apply Rmult_le_reg_r with norm; [lra|]. unfold Rdiv. rewrite Rmult_assoc, Rinv_l by lra. lra.
  - unfold inp. destruct (Rle_dec 0 (x_data s')); lia.
Qed.

Lemma round_run r : round_ok h root norm dt r -> exists s, simulate c ord (inject c (new_sim w') (rext r)) (INR (rd_steps r) * dt) = Ok s /\ resting w' s /\
  answer root norm r 0 (INR (rd_steps r) * dt) (spike_log s (outn pl root true)) (spike_log s (outn pl root false)).
Proof.
  intros RO. pose proof (rstims_ok r 0 RO) as HSt. destruct RO as (SS & W & x & tau & HR & HT). destruct Hn as [Hn0 Hn1]. destruct Hdt as [D0 D1].
  set (h' := rd_prog r) in *. set (K := rd_steps r) in *.
  set (p' := {| p_net := p_net p; p_triggers := flat_map (trigger_for h' norm pl) nodes; p_reader := p_reader p |}).
  assert (HP : forall v, In v nodes -> placed_ok h' norm v (pl v)) by (intros; eapply shape_placed; eauto).
  assert (HS' : w_syns w' = flat_map (fun v => pl_own (pl v)) nodes ++ flat_map (wires_of h' pl) nodes).
  { rewrite HS. f_equal. apply flat_map_ext. intros v. symmetry. apply shape_wires; auto. }
  pose proof (b_inv _ _ _ _ HB) as I'.
  assert (Hcl : forall v s u, In v nodes -> nth_error h' v = Some s -> In u (x_prev s) -> In u nodes).
  { intros v s u Hv E Hu. destruct (shape_nth h h' v s SS E) as (s0 & E0 & _ & E2). rewrite E2 in Hu. apply HNo. apply HNo in Hv. clear -Hv E0 Hu. induction Hv as [v|v q n HO _ IH].
    - econstructor; [|constructor]. exists s0. auto.
    - econstructor; eauto. }
  assert (HRt : In root nodes) by (apply HNo; constructor).
  set (N := pnet p' w' dt).
  assert (HTr : p_triggers p' = flat_map (trigger_for h' norm pl) nodes) by reflexivity.
  assert (PN : plan_net h' norm nodes pl N dt g).
  { constructor; auto.
    - intros v n s Hv Hn' E Ho HI. eapply (node_own h' norm p' w' nodes pl dt); eauto.
    - intros v n s y Hv Hn' E Ho H1 H2. eapply (node_in h' norm p' w' nodes pl dt); eauto. }
  assert (Hld : forall v s, In v nodes -> nth_error h' v = Some s -> x_op s = OLoad -> outn pl v true <> outn pl v false).
  { intros v s Hv E Eo. destruct (kind_load h' norm v (pl v) s (HP v Hv) E Eo) as [i [M1 M2 M3 M4 M5]]. unfold outn. rewrite M2. unfold ij_nodes in M4. nodes_eqs M4. cbn [fst snd]. lia. }
  assert (Hload : forall v s, In v nodes -> nth_error h' v = Some s -> x_op s = OLoad ->
    (forall b, in_syn N (outn pl v b) = [] /\ t_prm N (outn pl v b) = stdp) /\
    ext_of N (outn pl v (lsign s)) = [0; 10 + Rabs (x_data s) / norm * 100] /\ ext_of N (outn pl v (negb (lsign s))) = []).
  { intros v s Hv E Eo. destruct (kind_load h' norm v (pl v) s (HP v Hv) E Eo) as [i [M1 M2 M3 M4 M5]].
    destruct (out_rng h' norm nodes pl HP v Hv) as [O1 O2].
    assert (Hb : forall b, rngv pl v (outn pl v b)) by (intros []; assumption). split; [|split].
    - intros b. split; [|eapply (node_prm p' w' nodes pl dt); eauto]. unfold N. rewrite (node_syn h' norm p' w' nodes pl dt ND HP Hdis HS' v _ Hv (Hb b)).
      rewrite M3. cbn [filter app]. unfold wires_of. rewrite E, M1. destruct (x_prev s); reflexivity.
    - unfold N. rewrite (node_ext h' norm p' w' nodes pl dt ND HP Hdis HTr v _ Hv (Hb _)). rewrite (ext_load h' norm pl v s _ E Eo (Hld v s Hv E Eo)), eqb_reflx. reflexivity.
    - unfold N. rewrite (node_ext h' norm p' w' nodes pl dt ND HP Hdis HTr v _ Hv (Hb _)). rewrite (ext_load h' norm pl v s _ E Eo (Hld v s Hv E Eo)). destruct (lsign s); reflexivity. }
  pose proof (all_settled h' norm nodes pl N dt g PN HP Hn0 W Hcl Hload K root x (rd_err r) tau HR HRt HT) as AS.
  assert (RE : forall v, In v nodes -> reaches h' root v) by (intros v Hv; apply (shape_reach h); auto; apply HNo; auto).
  assert (QU : quiet N (length (w_neurons w')) K).
  { apply (plan_quiet h' norm p' w' nodes pl dt g HP Hdis HS' HTr I' Hcl K); intros v Hv; apply (AS v (RE v Hv)). }
  change (exts DefaultEncoder (rstims r 0)) with (pext p') in *. 
  assert (HX : forall q, In q (pext p') -> (fst q < length (w_neurons w'))%nat) by (apply (exts_in _ _ _ HSt)).
  assert (HT0 : 0 <= INR K * dt) by (apply Rmult_le_pos; [apply pos_INR|lra]).
  destruct (run_built (compile_computation h root norm) p w' (p_net p) L DefaultEncoder dt (pext p') (INR K * dt) ord EC HB D0 HT0 HX HO)
    as (c' & s1 & Ec' & Ew & Ee & Ed & E1 & HL). rewrite Ec in Ec'. injection Ec' as <-.
  exists s1. split; [exact E1|]. split.
  - assert (WF : wf c (pext p')) by (apply (wf_any (pext p') HX)).
    rewrite <- Ew. destruct (simulate_inv c (pext p') ord (INR K * dt) K WF (ord_sel_ok _ _ HO)) as (s & act & E & I); [rewrite <- Ed; apply num_steps_exact; rewrite Ed; auto|].
    rewrite Ew in E. rewrite E1 in E. injection E as <-. apply (proj2 (resting_quiet _ _ _ _ _ _ WF I)). rewrite Ew, Ed. exact QU.
  - pose proof (repeatable_accurate _ _ _ _ _ _ _ D0 Hn0 HR) as HA.
    destruct (accurate_data _ _ _ _ _ _ _ W Hn0 HA) as (s & Es & Ex).
    destruct (accurate_carries h' norm nodes pl N dt g PN HP Hn0 Hcl Hload root x (rd_err r) tau HA HRt) as (sg & a & k & SG & EE & TT & HF).
    destruct (shape_nth h h' root s SS Es) as (s0 & E0 & Eop & _). assert (Eo : x_op s <> OLoad) by (rewrite Eop; apply Hroot; auto).
    destruct (HF s Es Eo) as (b & -> & [F1 F0 Fb]).
    assert (NX : forall b, ext_of N (outn pl root b) = []).
    { intros b'. eapply (node_noext h' norm p' w' nodes pl dt); eauto. destruct (out_rng h' norm nodes pl HP root HRt). destruct b'; assumption. }
    assert (HLo : forall b, (outn pl root b < length (w_neurons w'))%nat).
    { intros b'. destruct (out_rng h' norm nodes pl HP root HRt) as [[_ O1] [_ O2]]. specialize (HK root HRt). unfold outn. destruct b'; lia. }
    destruct (gsteps dt g D0 Eg) as (G & _ & G10 & _).
    assert (LG1 : spike_log s1 (outn pl root sg) = [INR b * dt; INR (b + 10 * g + k) * dt]).
    { rewrite (HL (outn pl root sg) [b; (b + 10 * g + k)%nat] (HLo _) F1); [|cbn; lia|].
      - change (ext_spikes (pext p')) with (ext_of N). rewrite NX. reflexivity.
      - intros j Hj. apply Rle_trans with (INR (b + g + 10 * g + k) * dt); [|lra]. apply Rmult_le_compat_r; [lra|]. apply le_INR. destruct Hj as [<-|[<-|[]]]; lia. }
    assert (LG0 : spike_log s1 (outn pl root (negb sg)) = []).
    { rewrite (HL _ [] (HLo _) F0); [change (ext_spikes (pext p')) with (ext_of N); rewrite NX; reflexivity|exact I|intros ? []]. }
    exists s, (INR b * dt), (INR (b + 10 * g + k) * dt). split; [exact Es|]. split.
    { apply Rmult_lt_0_compat; [apply lt_0_INR; lia|lra]. }
    split.
    { rewrite !plus_INR, !Rmult_plus_distr_r, <- G10. assert (0 <= INR k * dt) by (apply Rmult_le_pos; [apply pos_INR|lra]). lra. }
    split.
    { apply Rle_trans with (INR (b + g + 10 * g + k) * dt); [|lra]. apply Rmult_le_compat_r; [lra|]. apply le_INR. lia. }
    replace (INR (b + 10 * g + k) * dt - INR b * dt - 10) with (INR k * dt) by (rewrite !plus_INR, !Rmult_plus_distr_r, <- G10; lra).
    assert (HE : Rabs (norm * sval sg (INR k * dt / 100) - x_data s) <= norm * rd_err r).
    { assert (Exd : x_data s = norm * x) by (rewrite Ex; field; lra).
      rewrite Exd, <- Rmult_minus_distr_l, Rabs_mult, (Rabs_right norm) by lra. apply Rmult_le_compat_l; lra. }
    destruct sg; cbn [negb sval] in LG1, LG0, HE; [left|right]; rewrite LG1, LG0; (split; [reflexivity|split; [reflexivity|]]); auto.
    replace (- norm * (INR k * dt / 100)) with (norm * - (INR k * dt / 100)) by ring. exact HE.
Qed.

Lemma c_is : c_world c = w' /\ c_enc c = DefaultEncoder /\ c_dt c = dt.
Proof.
  pose proof Ec as Ec2. unfold mk_simulator in Ec2.
  match type of Ec2 with rbind ?x _ = _ => destruct x as [ks|e] end; cbn [rbind] in Ec2; [|discriminate]. injection Ec2 as <-. auto.
Qed.
Lemma load_delay v s b y : In v nodes -> nth_error h v = Some s -> x_op s = OLoad -> In y (w_syns w') -> s_pre y = outn pl v b -> s_delay y = 1.
Proof.
  intros Hv Es Eo Hy Ep. rewrite HS in Hy. apply in_app_or in Hy as [Hy|Hy]; apply in_flat_map in Hy as (u & Hu & Hy).
  - exfalso. destruct (Nat.eq_dec u v) as [->|Hne].
    + destruct (kind_load h norm v (pl v) s (HPl v Hv) Es Eo) as [i [_ _ M3 _ _]]. rewrite M3 in Hy. destruct Hy.
    + destruct (HPl u Hu) as (su & _ & _ & _ & _ & _ & X). cbv zeta in X. destruct X as (_ & _ & _ & X). destruct (X y Hy) as [X1 _]. rewrite Ep in X1.
      destruct (out_rng h norm nodes pl HPl v Hv) as [O1 O2]. apply (Hdis u v (outn pl v b) Hu Hv Hne X1). destruct b; [exact O1|exact O2].
  - destruct (wires_pre h pl u y Hy) as (_ & _ & _ & _ & _ & _ & X). exact X.
Qed.
Lemma rext_in r q : same_shape h (rd_prog r) -> In q (rext r) -> exists v s b, In v nodes /\ nth_error h v = Some s /\ x_op s = OLoad /\ fst q = outn pl v b /\ 0 <= snd q.
Proof.
  intros SS Hq. unfold rext, exts, rstims, inputs_of in Hq. apply in_flat_map in Hq as (x & Hx & Hq). apply in_map_iff in Hx as (t & <- & Ht).
  apply in_flat_map in Ht as (v & Hv & Ht). destruct (nth_error (rd_prog r) v) as [s'|] eqn:E'; [|destruct Ht]. destruct (shape_nth h _ v s' SS E') as (s & E & E1 & _).
  destruct (x_op s') eqn:Eo; try contradiction. destruct Ht as [<-|[]]. cbn [fst snd stim_ext] in Hq.
  assert (0 <= Rabs (x_data s') / norm) by (apply Rmult_le_pos; [apply Rabs_pos|left; apply Rinv_0_lt_compat; lra]).
  assert (0 <= snd q). { destruct Hq as [<-|[<-|[]]]; cbn [snd]; [lra|]. change (Tmin (DefaultEncoder (T := R))) with 10. change (Tcod (DefaultEncoder (T := R))) with 100. lra. }
  exists v, s. destruct (Rle_dec 0 (x_data s')).
  - exists true. repeat split; auto. destruct Hq as [<-|[<-|[]]]; reflexivity.
  - exists false. repeat split; auto. destruct Hq as [<-|[<-|[]]]; reflexivity.
Qed.
Lemma rext_later r t0 : exts DefaultEncoder (rstims r t0) = later t0 (rext r).
Proof.
  unfold rext, rstims, exts, later. generalize (inputs_of (rd_prog r) norm inp nodes) as l. induction l as [|t l IH]; [reflexivity|].
  cbn [map flat_map]. rewrite map_app, IH. f_equal. cbn [stim_ext map fst snd]. f_equal; [f_equal; ring|]. do 2 f_equal. ring.
Qed.
Lemma trigger_feed trs t0 : forall s, trigger_at c s trs t0 = rfold (feed c) (map (fun t => SValue (snd t) (fst t) t0) trs) s.
Proof. induction trs as [|t trs IH]; intros s; [reflexivity|]. cbn [trigger_at map rfold feed]. destruct (apply_input_value _ _ _ _ _); cbn [rbind]; auto. Qed.
Lemma trigger_inject r t0 s : round_ok h root norm dt r -> trigger_at c s (inputs_of (rd_prog r) norm inp nodes) t0 = Ok (inject c s (later t0 (rext r))).
Proof.
  intros RO. rewrite trigger_feed. fold (rstims r t0). rewrite (feed_all c _ _ (rstims_ok r t0 RO)). rewrite (proj1 (proj2 c_is)), rext_later. reflexivity.
Qed.
Definition rtab (rs : list round) := map (fun r => (rext r, rd_steps r)) rs.
Lemma play_inject rs : Forall (round_ok h root norm dt) rs -> forall s t0, play c s norm inp nodes t0 rs = Ok (inject c s (later t0 (timetable dt (rtab rs)))).
Proof.
  induction 1 as [|r rs RO _ IH]; intros s t0; [reflexivity|]. cbn [play rtab map timetable fst snd]. rewrite (trigger_inject r t0 s RO). cbn [rbind].
  rewrite IH, inject_app. do 2 f_equal. unfold later. rewrite map_app, map_map. cbn [fst snd]. f_equal. apply map_ext. intros q. f_equal. rewrite (proj2 (proj2 c_is)). unfold rtab. ring.
Qed.
Lemma later_0 l : later 0 l = l.
Proof. unfold later. rewrite <- (map_id l) at 2. apply map_ext. intros [n t]. cbn. f_equal. ring. Qed.

Lemma answer_shift r t0 t1 lp lm d : answer root norm r t0 t1 lp lm -> answer root norm r (t0 + d) (t1 + d) (map (fun t => t + d) lp) (map (fun t => t + d) lm).
Proof.
  intros (s & a & b & E & H1 & H3 & H2 & HA). exists s, (a + d), (b + d). split; [exact E|]. split; [lra|]. split; [lra|]. split; [lra|].
  replace (b + d - (a + d) - 10) with (b - a - 10) by ring.
  destruct HA as [(-> & -> & HA)|(-> & -> & HA)]; [left|right]; auto.
Qed.
Lemma transcript_shift rs d : forall t0 lp lm, transcript root norm dt t0 rs lp lm -> transcript root norm dt (t0 + d) rs (map (fun t => t + d) lp) (map (fun t => t + d) lm).
Proof.
  induction rs as [|r rs IH]; intros t0 lp lm H.
  - destruct H as [-> ->]. split; reflexivity.
  - cbn [transcript] in *. destruct H as (ap & am & lp' & lm' & -> & -> & HA & HT). rewrite !map_app. do 4 eexists. split; [reflexivity|]. split; [reflexivity|].
    replace (t0 + d + INR (rd_steps r) * dt) with (t0 + INR (rd_steps r) * dt + d) by ring. split; [apply answer_shift; exact HA|apply IH; exact HT].
Qed.

Theorem again rs : Forall (round_ok h root norm dt) rs ->
  exists s0 s, play c (new_sim w') norm inp nodes 0 rs = Ok s0 /\ simulate c ord s0 (INR (list_sum (map rd_steps rs)) * dt) = Ok s /\ resting w' s /\
    transcript root norm dt 0 rs (spike_log s (outn pl root true)) (spike_log s (outn pl root false)).
Proof.
  intros HF. rewrite (play_inject rs HF), later_0. eexists. destruct c_is as (Ew & Ee & Ed).
  assert (HR : exists ss, Forall2 (fun r s => simulate c ord (inject c (new_sim w') (rext r)) (INR (rd_steps r) * dt) = Ok s /\ resting w' s /\
    answer root norm r 0 (INR (rd_steps r) * dt) (spike_log s (outn pl root true)) (spike_log s (outn pl root false))) rs ss).
  { induction HF as [|r rs RO _ [ss IH]]; [exists []; constructor|]. destruct (round_run r RO) as (s & H). exists (s :: ss). constructor; auto. }
  destruct HR as [ss HR].
  assert (HWf : forall r, In r rs -> wf c (rext r)).
  { intros r Hr. rewrite Forall_forall in HF. apply wf_any. apply (exts_in _ _ _ (rstims_ok r 0 (HF r Hr))). }
  destruct (simulate_rounds c ord (rtab rs) ss) as (s & Es & RS & LS); auto.
  - apply wf_any. intros ? [].
  - intros x Hx. unfold rtab in Hx. apply in_map_iff in Hx as (r & <- & Hr). apply HWf; auto.
  - intros x q y Hx Hq Hy Ep. unfold rtab in Hx. apply in_map_iff in Hx as (r & <- & Hr). cbn [fst] in Hq. rewrite Forall_forall in HF. destruct (HF r Hr) as (SS & _).
    destruct (rext_in r q SS Hq) as (v & sv & b & Hv & Esv & Eo & Eq & H0). rewrite Ew in Hy. rewrite (load_delay v sv b y Hv Esv Eo Hy); [lra|]. rewrite Ep. exact Eq.
  - unfold rtab. clear -HR Ew Ed. induction HR as [|r s rs ss (A & B & _) _ IH]; constructor; [|exact IH]. cbn [fst snd]. rewrite Ew, Ed. auto.
  - exists s. split; [reflexivity|]. rewrite Ed in Es. unfold duration, rtab in Es. rewrite map_map in Es. cbn [snd] in Es. rewrite Ew in Es, RS, LS. fold (rtab rs) in Es.
    split; [exact Es|]. split; [exact RS|].
    assert (HRt : In root nodes) by (apply HNo; constructor).
    assert (HLo : forall b, (outn pl root b < length (w_neurons w'))%nat).
    { intros b'. destruct (out_rng h norm nodes pl HPl root HRt) as [[_ O1] [_ O2]]. specialize (HK root HRt). unfold outn. destruct b'; lia. }
    assert (HLg : forall b, spike_log s (outn pl root b) = joined dt (map rd_steps rs) (map (fun s => spike_log s (outn pl root b)) ss)).
    { intros b. destruct (LS _ (HLo b)) as [_ X]. rewrite Ed in X. unfold rtab in X at 2. rewrite map_map in X. cbn [snd] in X. apply X.
      intros x Hx Hin. unfold rtab in Hx. apply in_map_iff in Hx as (r & <- & Hr). cbn [fst] in Hin. apply in_map_iff in Hin as (q & Eq & Hq).
      rewrite Forall_forall in HF. destruct (HF r Hr) as (SS & _). destruct (rext_in r q SS Hq) as (v & sv & b0 & Hv & Esv & Eo & Eq' & _).
      destruct (Nat.eq_dec v root) as [->|Hne]; [apply (Hroot sv); auto|].
      destruct (out_rng h norm nodes pl HPl v Hv) as [O1 O2]. destruct (out_rng h norm nodes pl HPl root HRt) as [O3 O4].
      apply (Hdis v root (outn pl v b0) Hv HRt Hne); [destruct b0; assumption|]. rewrite <- Eq', Eq. destruct b; assumption. }
    rewrite !HLg. clear -HR. induction HR as [|r s rs ss (_ & _ & A) _ IH]; [split; reflexivity|].
    cbn [map joined transcript]. do 4 eexists. split; [reflexivity|]. split; [reflexivity|]. split; [rewrite Rplus_0_l; exact A|]. apply transcript_shift. exact IH.
Qed.
End Again.
