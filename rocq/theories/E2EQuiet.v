(** A compiled plan at rest: the whole network, and running it again (C68). *)
From Coq Require Import Arith ZArith Bool String List Reals Lra Lia Permutation.
From Verif Require Import Num Heapq Elements Simulator Networks Scalar ScalarProofs Compiler Trace SimTrace SimProps TraceProps NeuronLib NetLib Build BuildNets Bridge MemoryProof GeLib GfLib Session SimpleNets InvMem Misc LnLib FuncNets SegLib SubNet ExpLog MulNet MulRun SMem SignMul SignRun SignProd NormNet NormVal NormRun SyncNet LinComb LinRun CompilerProofs E2EAdd E2ELib E2ENode E2ESpec E2ESound PropsCompiler E2E Restart MemReuse Reuse Jobs Settle RestFun E2ERest E2EAgainSpec.
Import ListNotations.
Open Scope R_scope.
Open Scope list_scope.

Lemma arrs_ext N q d l : arrs N (fst q) d l -> In q (t_ext N) -> In (step_at (t_dt N) (snd q + d)) l.
Proof.
  intros HA HQ. set (k := step_at (t_dt N) (snd q + d)). assert (G : (1 <= k)%nat) by apply step_at_ge1.
  specialize (HA k G). rewrite arr_eq, plus_INR in HA.
  assert (E : (1 <= ext_count N (fst q) d k)%nat).
  { unfold ext_count. assert (HI : In q (filter (fun p => (fst p =? fst q)%nat && (step_at (t_dt N) (snd p + d) =? k)%nat) (t_ext N))).
    { apply filter_In. split; auto. rewrite !Nat.eqb_refl. reflexivity. }
    destruct (filter _ (t_ext N)); [destruct HI|cbn; lia]. }
  apply le_INR in E. change (INR 1) with 1 in E.
  destruct (in_dec Nat.eq_dec k l) as [|Hn]; auto. exfalso. rewrite (cnt_nIn _ l Hn) in HA.
  match type of HA with _ + INR ?x = _ => pose proof (pos_INR x) end. lra.
Qed.
Lemma wires_pre h pl v y : In y (wires_of h pl v) -> exists s u b, nth_error h v = Some s /\ In u (x_prev s) /\ s_pre y = outn pl u b /\ s_delay y = 1.
Proof.
  intros Hy. unfold wires_of in Hy. destruct (nth_error h v) as [s|]; [|destruct Hy]. apply in_flat_map in Hy as ([u i] & Hi & Hy).
  apply in_combine_l in Hi. cbn [fst snd wire] in Hy. destruct Hy as [<-|[<-|[]]].
  - exists s, u, true. auto.
  - exists s, u, false. auto.
Qed.

Section PlanQuiet.
Variables (h : list (scalar R)) (root : nat) (norm : R) (p : plan R) (w' : world R) (nodes : list nat) (pl : nat -> placed) (dt : R) (g : nat).
Hypothesis ND : NoDup nodes.
Hypothesis HP : forall v, In v nodes -> placed_ok h norm v (pl v).
Hypothesis Hdis : forall u v n, In u nodes -> In v nodes -> u <> v ->
       (length (w_neurons (pl_w0 (pl u))) <= n < length (w_neurons (pl_w1 (pl u))))%nat ->
       ~ (length (w_neurons (pl_w0 (pl v))) <= n < length (w_neurons (pl_w1 (pl v))))%nat.
Hypothesis HS : w_syns w' = flat_map (fun v => pl_own (pl v)) nodes ++ flat_map (wires_of h pl) nodes.
Hypothesis HT : p_triggers p = flat_map (trigger_for h norm pl) nodes.
Hypothesis I' : inv w'.
Hypothesis Hcl : forall v s u, In v nodes -> nth_error h v = Some s -> In u (x_prev s) -> In u nodes.
Hypothesis Hdt : 0 < dt.
Let N := pnet p w' dt.
Variable K : nat.
Hypothesis HSet : forall v, In v nodes -> settled pl N dt K v.
Hypothesis HSig : forall v, In v nodes -> exists s a k, sig pl N g v s a k /\ (a + 10 * g + k <= K)%nat.

Lemma plan_arr v b : In v nodes -> exists l, arrs N (outn pl v b) 1 l /\ forall k, In k l -> (k <= K)%nat.
Proof.
  intros Hv. destruct (HSig v Hv) as (s & a & k & [A1 A0 _] & HK). destruct (Bool.eqb_spec b s) as [->|Hne].
  - eexists. split; [exact A1|]. intros j [<-|[<-|[]]]; lia.
  - assert (b = negb s) by (destruct b, s; auto; congruence). subst b. eexists. split; [exact A0|]. intros j [].
Qed.
Lemma plan_quiet : quiet N (length (w_neurons w')) K.
Proof.
  constructor.
  - intros q y Hq Hy Ep. change (t_ext N) with (pext p) in Hq. rewrite (pext_flat h norm p nodes pl HT) in Hq. apply in_flat_map in Hq as (v & Hv & Hq).
    pose proof (vstims_rng h norm nodes pl HP v q Hv Hq) as RQ. change (t_syns N) with (w_syns w') in Hy. rewrite HS in Hy.
    assert (HV : exists s b, nth_error h v = Some s /\ x_op s = OLoad /\ fst q = outn pl v b).
    { unfold vstims, trigger_for in Hq. destruct (nth_error h v) as [s|]; [|destruct Hq]. exists s. destruct (x_op s) eqn:Eo; try contradiction.
      unfold exts in Hq; cbn [plan_stims map flat_map stim_ext app In fst snd] in Hq. destruct (Rle_dec 0 (x_data s)); destruct Hq as [<-|[<-|[]]]; cbn [fst];
        first [exists true; split; [reflexivity|split; [reflexivity|reflexivity]]|exists false; split; [reflexivity|split; [reflexivity|reflexivity]]]. }
    destruct HV as (s & b & Es & Eo & Eq).
    assert (HD1 : s_delay y = 1).
    { apply in_app_or in Hy as [Hy|Hy]; apply in_flat_map in Hy as (u & Hu & Hy).
      - exfalso. destruct (Nat.eq_dec u v) as [->|Hne].
        + destruct (kind_load h norm v (pl v) s (HP v Hv) Es Eo) as [i [_ _ M3 _ _]]. rewrite M3 in Hy. destruct Hy.
        + destruct (HP u Hu) as (su & _ & _ & _ & _ & _ & X). cbv zeta in X. destruct X as (_ & _ & _ & X). destruct (X y Hy) as [X1 _]. rewrite Ep in X1.
          apply (Hdis u v (fst q) Hu Hv Hne X1). exact RQ.
      - destruct (wires_pre h pl u y Hy) as (_ & _ & _ & _ & _ & _ & X). exact X. }
    destruct (plan_arr v b Hv) as (l & A & B). rewrite HD1. change (t_dt N) with dt. apply B. rewrite <- Eq in A.
    apply (arrs_ext N q 1 l A). change (t_ext N) with (pext p). rewrite (pext_flat h norm p nodes pl HT). apply in_flat_map. eauto.
  - intros n Hn.
    destruct (find (fun v => (length (w_neurons (pl_w0 (pl v))) <=? n)%nat && (n <? length (w_neurons (pl_w1 (pl v))))%nat) nodes) as [v|] eqn:EF.
    + apply find_some in EF as [Hv EF]. apply andb_true_iff in EF as [E1 E2]. apply Nat.leb_le in E1. apply Nat.ltb_lt in E2. apply (proj1 (HSet v Hv)). split; assumption.
    + assert (HX : forall v, In v nodes -> ~ rngv pl v n).
      { intros v Hv [X1 X2]. pose proof (find_none _ _ EF v Hv) as X. cbv beta in X. apply andb_false_iff in X as [X|X]; [apply Nat.leb_gt in X|apply Nat.ltb_ge in X]; lia. }
      apply src_settled; [|cbn; apply prm_std; auto]. unfold in_syn. change (t_syns N) with (w_syns w'). rewrite HS, filter_app.
      rewrite !filter_post_out; [reflexivity| |]; intros y Hy E; apply in_flat_map in Hy as (v & Hv & Hy); apply (HX v Hv); rewrite <- E.
      * eapply wires_rng; eauto.
      * eapply own_rng; eauto.
  - intros y j Hy _ Hs. change (t_syns N) with (w_syns w') in Hy. change (t_dt N) with dt. rewrite HS in Hy.
    apply in_app_or in Hy as [Hy|Hy]; apply in_flat_map in Hy as (v & Hv & Hy).
    + apply (proj2 (HSet v Hv) y j Hy Hs).
    + destruct (wires_pre h pl v y Hy) as (s & u & b & Es & Hu & Ep & ED). rewrite Ep in Hs. rewrite ED.
      destruct (plan_arr u b (Hcl v s u Hv Es Hu)) as (l & A & B). apply B. exact (arrs_spk N _ 1 l j A Hs).
Qed.
End PlanQuiet.

Lemma repeatable_accurate h norm dt v x e tau : 0 < dt -> 0 < norm -> repeatable h norm dt v x e tau -> accurate h norm dt v x e tau.
Proof.
  intros D0 Hn0. induction 1 as [v s E Eo Hr|v s k E Eo Hr Hk|v s u x e tau E Eo Ep _ IH|v s u1 u2 x1 e1 tau1 x2 e2 tau2 E Eo Ep _ IH1 _ IH2 R1 R2 R3
    |v s u1 u2 x1 e1 tau1 x2 e2 tau2 E Eo Ep _ IH1 _ IH2 R1 R2 R3 R4 R5 R6 R7 R8 R9|v x e tau e' tau' _ IH He Ht].
  - eapply ac_load; eauto.
  - eapply ac_load_grid; eauto.
  - eapply ac_neg; eauto.
  - eapply ac_add; eauto.
  - eapply ac_mul; eauto; try lra.
    + left. apply Rlt_le_trans with (exp (- 14)); auto. apply exp_increasing. lra.
    + eapply Rle_trans; [|exact R8]. apply Rmult_le_compat_l; lra.
  - eapply ac_weaken; eauto.
Qed.

Lemma reach_cases (h : list (scalar R)) v s u : nth_error h v = Some s -> reaches h v u -> u = v \/ exists q, In q (x_prev s) /\ reaches h q u.
Proof.
  intros E R. inversion R as [|a q b HO HR]; subst; [left; auto|right]. destruct HO as (s'' & E' & HI). rewrite E in E'. injection E' as <-. eauto.
Qed.

Section AllRest.
Variables (h : list (scalar R)) (norm : R) (nodes : list nat) (pl : nat -> placed) (N : tnet) (dt : R) (g : nat).
Hypothesis HN : plan_net h norm nodes pl N dt g.
Hypothesis HP : forall v, In v nodes -> placed_ok h norm v (pl v).
Hypothesis Hnorm : 0 < norm.
Hypothesis HW : heap_wf h.
Hypothesis Hclosed : forall v s u, In v nodes -> nth_error h v = Some s -> In u (x_prev s) -> In u nodes.
Hypothesis Hload : forall v s, In v nodes -> nth_error h v = Some s -> x_op s = OLoad ->
  (forall b, in_syn N (outn pl v b) = [] /\ t_prm N (outn pl v b) = stdp) /\
  ext_of N (outn pl v (lsign s)) = [0; 10 + Rabs (x_data s) / norm * 100] /\ ext_of N (outn pl v (negb (lsign s))) = [].
Variable K : nat.
Let carries := carries h pl N dt g.

Lemma time_le n tau : INR n * dt <= tau -> tau <= INR K * dt -> (n <= K)%nat.
Proof. intros H1 H2. apply INR_le, Rmult_le_reg_r with dt; [apply (pn_dt0 _ _ _ _ _ _ _ HN)|lra]. Qed.
Lemma time2 n : INR (n + 2 * g) * dt = INR n * dt + 2.
Proof. rewrite plus_INR, mult_INR, Rmult_plus_distr_r, Rmult_assoc, <- (pn_g _ _ _ _ _ _ _ HN). change (INR 2) with 2. lra. Qed.

Lemma add_settled v s u1 u2 x1 e1 tau1 x2 e2 tau2 : In v nodes -> nth_error h v = Some s -> x_op s = OAdd -> x_prev s = [u1; u2] ->
  carries u1 x1 e1 tau1 -> carries u2 x2 e2 tau2 ->
  Rmax 0 x1 + Rmax 0 x2 + (e1 + e2) <= 1 -> Rmax 0 (- x1) + Rmax 0 (- x2) + (e1 + e2) <= 1 ->
  e1 + e2 <= x1 + x2 \/ x1 + x2 <= - (e1 + e2) - (1 / 100 + 2 * dt) / 100 -> Rmax tau1 tau2 + 482 <= INR K * dt -> settled pl N dt K v.
Proof.
  intros Hv E Eo Ep (s1 & a1 & k1 & A1 & B1 & C1 & _) (s2 & a2 & k2 & A2 & B2 & C2 & _) HPp HMm Hsgn HK.
  pose proof (pn_dt0 _ _ _ _ _ _ _ HN) as D0. pose proof (pn_g _ _ _ _ _ _ _ HN) as Eg.
  destruct (pick_val s1 k1 dt D0) as (V1 & P1 & M1). destruct (pick_val s2 k2 dt D0) as (V2 & P2 & M2).
  pose proof (Rmax_l tau1 tau2). pose proof (Rmax_r tau1 tau2).
  assert (HMX : INR (Nat.max a1 a2) * dt <= Rmax tau1 tau2).
  { apply max_time; auto. pose proof (arr_first h norm nodes pl N dt g HN a1 k1). pose proof (arr_first h norm nodes pl N dt g HN a2 k2). lra. }
  assert (HA1 : (a1 + 10 * g + k1 + 2 * g <= K)%nat) by (apply (time_le _ (INR (a1 + 10 * g + k1 + 2 * g) * dt)); [|rewrite time2]; lra).
  assert (HA2 : (a2 + 10 * g + k2 + 2 * g <= K)%nat) by (apply (time_le _ (INR (a2 + 10 * g + k2 + 2 * g) * dt)); [|rewrite time2]; lra).
  set (c1 := sval s1 (INR k1 * dt / 100)) in *. set (c2 := sval s2 (INR k2 * dt / 100)) in *.
  destruct (rmax_lip _ _ _ B1) as [L1 L1']. destruct (rmax_lip _ _ _ B2) as [L2 L2'].
  pose proof (add_node_rest h norm nodes pl N dt g HN HP K v s u1 u2 s1 s2 a1 a2 k1 k2 Hv E Eo Ep A1 A2) as HR. cbv zeta in HR.
  set (P := (pick s1 k1 + pick s2 k2)%nat) in *. set (M := (pick (negb s1) k1 + pick (negb s2) k2)%nat) in *.
  assert (EP : INR P * dt = INR (pick s1 k1) * dt + INR (pick s2 k2) * dt) by (unfold P; rewrite plus_INR; ring).
  assert (EM : INR M * dt = INR (pick (negb s1) k1) * dt + INR (pick (negb s2) k2) * dt) by (unfold M; rewrite plus_INR; ring).
  assert (EC : INR P * dt - INR M * dt = 100 * (c1 + c2)) by lra.
  assert (B12 : Rabs (c1 + c2 - (x1 + x2)) <= e1 + e2).
  { replace (c1 + c2 - (x1 + x2)) with ((c1 - x1) + (c2 - x2)) by ring. eapply Rle_trans; [apply Rabs_triang|lra]. }
  pose proof (Rabs_le_btw _ _ B12) as B12'.
  apply HR; try lra; [|split; assumption].
  destruct Hsgn as [Hs|Hs]; [left; apply INR_le, Rmult_le_reg_r with dt; auto; lra|right; lra].
Qed.
Lemma mul_settled v s u1 u2 x1 e1 tau1 x2 e2 tau2 : In v nodes -> nth_error h v = Some s -> x_op s = OMul -> x_prev s = [u1; u2] ->
  carries u1 x1 e1 tau1 -> carries u2 x2 e2 tau2 ->
  4 * dt <= (Rabs x1 - e1) * 100 -> (Rabs x1 + e1) * 100 <= 100 - 2 * dt ->
  4 * dt <= (Rabs x2 - e2) * 100 -> (Rabs x2 + e2) * 100 <= 100 - 2 * dt ->
  exp (- 14) <= (Rabs x1 - e1) * (Rabs x2 - e2) -> 20 * dt <= (Rabs x1 - e1) * (Rabs x2 - e2) * 100 ->
  (Rabs x1 + e1) * (Rabs x2 + e2) * 100 + 17 * dt <= 100 -> norm * ((Rabs x1 + e1) * (Rabs x2 + e2) * 100 + 17 * dt) <= 100 -> (3 + 3 * norm) * dt <= 10 ->
  Rmax tau1 tau2 + 474 + 110 / norm + 250 <= INR K * dt -> settled pl N dt K v.
Proof.
  intros Hv E Eo Ep (s1 & a1 & k1 & A1 & B1 & C1 & _) (s2 & a2 & k2 & A2 & B2 & C2 & _) R1 R1' R2 R2' HX HX2 HM HF H3 HK.
  pose proof (pn_dt0 _ _ _ _ _ _ _ HN) as D0. pose proof (pn_dt1 _ _ _ _ _ _ _ HN) as D1.
  destruct (mul_facts h norm nodes pl N dt g HN a1 k1 s1 x1 e1 tau1 B1 C1) as (I1 & P1 & Q1 & T1). destruct (mul_facts h norm nodes pl N dt g HN a2 k2 s2 x2 e2 tau2 B2 C2) as (I2 & P2 & Q2 & T2).
  pose proof (Rmax_l tau1 tau2). pose proof (Rmax_r tau1 tau2).
  assert (0 < 110 / norm) by (apply Rdiv_lt_0_compat; lra).
  assert (HA1 : (a1 + 10 * g + k1 + 2 * g <= K)%nat) by (apply (time_le _ (INR (a1 + 10 * g + k1 + 2 * g) * dt)); [|rewrite time2]; lra).
  assert (HA2 : (a2 + 10 * g + k2 + 2 * g <= K)%nat) by (apply (time_le _ (INR (a2 + 10 * g + k2 + 2 * g) * dt)); [|rewrite time2]; lra).
  assert (X1 : INR k1 * dt / 100 * 100 = INR k1 * dt) by lra. assert (X2 : INR k2 * dt / 100 * 100 = INR k2 * dt) by lra.
  set (m1 := INR k1 * dt / 100) in *. set (m2 := INR k2 * dt / 100) in *.
  assert (Hlo : (Rabs x1 - e1) * (Rabs x2 - e2) <= m1 * m2) by (apply Rmult_le_compat; lra).
  assert (Hhi : m1 * m2 <= (Rabs x1 + e1) * (Rabs x2 + e2)) by (apply Rmult_le_compat; lra).
  set (U := (Rabs x1 + e1) * (Rabs x2 + e2)) in *.
  destruct (ln_prod_bound m1 m2 14 ltac:(lra) ltac:(lra) ltac:(exact (Rle_trans _ _ _ HX Hlo))) as [LB _].
  assert (HMX : INR (Nat.max (a1 + g + 10 * g + k1) (a2 + g + 10 * g + k2)) * dt <= Rmax tau1 tau2 + 1) by (apply max_time; auto; lra).
  eapply (mul_node_rest h norm nodes pl N dt g HN HP K v s u1 u2 s1 s2 a1 a2 k1 k2 m1 m2); eauto; try lra.
  eapply Rle_trans; [|exact HF]. apply Rmult_le_compat_l; lra.
Qed.

Lemma repeatable_tau v x e tau : repeatable h norm dt v x e tau -> 112 <= tau.
Proof.
  assert (0 < 110 / norm) by (apply Rdiv_lt_0_compat; lra).
  induction 1 as [| | |v s u1 u2 x1 e1 tau1 x2 e2 tau2| v s u1 u2 x1 e1 tau1 x2 e2 tau2|]; try lra; pose proof (Rmax_l tau1 tau2); lra.
Qed.
Lemma all_settled v x e tau : repeatable h norm dt v x e tau -> In v nodes -> tau + 250 <= INR K * dt ->
  forall u, reaches h v u -> settled pl N dt K u /\ exists s a k, sig pl N g u s a k /\ (a + 10 * g + k <= K)%nat.
Proof.
  pose proof (pn_dt0 _ _ _ _ _ _ _ HN) as D0.
  assert (HC : forall v x e tau, repeatable h norm dt v x e tau -> In v nodes -> carries v x e tau).
  { intros. apply (accurate_carries h norm nodes pl N dt g HN HP Hnorm Hclosed Hload); auto. apply repeatable_accurate; auto. }
  assert (HG : forall v x e tau, carries v x e tau -> tau <= INR K * dt -> exists s a k, sig pl N g v s a k /\ (a + 10 * g + k <= K)%nat).
  { intros v' x' e' tau' (s & a & k & S & _ & T & _) HT. exists s, a, k. split; auto. eapply time_le; eauto. }
  assert (H110 : 0 < 110 / norm) by (apply Rdiv_lt_0_compat; lra).
  induction 1 as [v s E Eo Hr|v s k E Eo Hr Hk|v s u x e tau E Eo Ep R IH|v s u1 u2 x1 e1 tau1 x2 e2 tau2 E Eo Ep R1 IH1 R2 IH2 Q1 Q2 Q3
    |v s u1 u2 x1 e1 tau1 x2 e2 tau2 E Eo Ep R1 IH1 R2 IH2 Q1 Q2 Q3 Q4 Q5 Q6 Q7 Q8 Q9|v x e tau e' tau' R IH He Ht]; intros Hv HK w HR.
  - assert (Ep : x_prev s = []) by (pose proof (HW v s E) as HW0; unfold node_ok in HW0; rewrite Eo in HW0; exact HW0).
    destruct (reach_cases _ _ _ _ E HR) as [->|(q & Hq & _)]; [|rewrite Ep in Hq; destruct Hq]. split.
    + eapply load_rest; eauto. apply (Hload v s); auto.
    + eapply HG; [apply HC; [apply (rp_load h norm dt v s); auto|auto]|lra].
  - assert (Ep : x_prev s = []) by (pose proof (HW v s E) as HW0; unfold node_ok in HW0; rewrite Eo in HW0; exact HW0).
    destruct (reach_cases _ _ _ _ E HR) as [->|(q & Hq & _)]; [|rewrite Ep in Hq; destruct Hq]. split.
    + eapply load_rest; eauto. apply (Hload v s); auto.
    + eapply HG; [apply HC; [apply (rp_load h norm dt v s); auto|auto]|lra].
  - assert (Hu : In u nodes) by (apply (Hclosed v s u); auto; rewrite Ep; left; auto).
    destruct (reach_cases _ _ _ _ E HR) as [->|(q & Hq & HR')].
    + split; [|eapply HG; [apply HC; [eapply rp_neg; eauto|auto]|lra]].
      destruct (HC _ _ _ _ R Hu) as (sg & a & k & S & _ & T & _). eapply neg_rest; eauto.
      apply (time_le _ (INR (a + 10 * g + k + 2 * g) * dt)); [|rewrite time2]; lra.
    + rewrite Ep in Hq. destruct Hq as [<-|[]]. apply IH; auto. lra.
  - assert (Hu1 : In u1 nodes) by (apply (Hclosed v s u1); auto; rewrite Ep; cbn; auto). assert (Hu2 : In u2 nodes) by (apply (Hclosed v s u2); auto; rewrite Ep; cbn; auto).
    pose proof (Rmax_l tau1 tau2). pose proof (Rmax_r tau1 tau2).
    destruct (reach_cases _ _ _ _ E HR) as [->|(q & Hq & HR')].
    + split; [|eapply HG; [apply HC; [eapply rp_add; eauto|auto]|lra]].
      eapply (add_settled v s u1 u2 x1 e1 tau1 x2 e2 tau2); eauto. lra.
    + rewrite Ep in Hq. destruct Hq as [<-|[<-|[]]]; [apply IH1|apply IH2]; auto; lra.
  - assert (Hu1 : In u1 nodes) by (apply (Hclosed v s u1); auto; rewrite Ep; cbn; auto). assert (Hu2 : In u2 nodes) by (apply (Hclosed v s u2); auto; rewrite Ep; cbn; auto).
    pose proof (Rmax_l tau1 tau2). pose proof (Rmax_r tau1 tau2).
    destruct (reach_cases _ _ _ _ E HR) as [->|(q & Hq & HR')].
    + split; [|eapply HG; [apply HC; [eapply (rp_mul h norm dt v s u1 u2 x1 e1 tau1 x2 e2 tau2); eauto|auto]|lra]].
      eapply (mul_settled v s u1 u2 x1 e1 tau1 x2 e2 tau2); eauto.
    + rewrite Ep in Hq. destruct Hq as [<-|[<-|[]]]; [apply IH1|apply IH2]; auto; lra.
  - apply IH; auto. lra.
Qed.
End AllRest.
