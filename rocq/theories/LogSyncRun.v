(** Sessions of LogAndSyncNetwork (C69). *)
From Coq Require Import Arith ZArith Bool List Reals Lra Lia Permutation.
From Verif Require Import Num Heapq Elements Simulator Networks Trace SimTrace SimProps TraceProps NeuronLib NetLib Build BuildNets Bridge MemoryProof GeLib GfLib Session SimpleNets InvMem Misc LnLib FuncNets SegLib SubNet ExpLog DivNet DivMid DivRun DivVal Restart MemReuse Reuse Jobs Settle RestFun SubReuse DivReuse LogSync.
Import ListNotations.
Open Scope R_scope.
Open Scope list_scope.

(** a job ((x1, x2), (d1, d2)) started at t: x1 to input1 at t + d1, x2 to input2 at t + d2 *)
Definition ls_job (x : (R * R) * (R * R)) (t : R) (m : logsync_net) : list stim :=
  [SValue (fst (fst x)) (ls_input1 m) (t + fst (snd x)); SValue (snd (fst x)) (ls_input2 m) (t + snd (snd x))].
Definition log_err (tcod dt x : R) : R := ((4 + - ln x) * dt + 80 * dt / (x * tcod)) / tcod.
(** the two logarithms, and the two first spikes coincide *)
Definition two_logs (enc : encoder R) (tcod dt : R) (x : (R * R) * (R * R)) (p : list R * list R) : Prop :=
  pair_says enc (20 * - ln (fst (fst x)) / tcod) (log_err tcod dt (fst (fst x))) (fst p) /\
  pair_says enc (20 * - ln (snd (fst x)) / tcod) (log_err tcod dt (snd (fst x))) (snd p) /\ hd 0 (fst p) = hd 0 (snd p).
Definition ls_ok (tcod dt : R) (x : (R * R) * (R * R)) : Prop :=
  let '((x1, x2), (d1, d2)) := x in
  (0 < x1 <= 1 /\ 4 * dt <= x1 * tcod /\ x1 * tcod + 2 * dt <= tcod) /\ (0 < x2 <= 1 /\ 4 * dt <= x2 * tcod /\ x2 * tcod + 2 * dt <= tcod) /\ 0 <= d1 /\ 0 <= d2.
Definition ls_span (tmin tcod dt : R) (x : (R * R) * (R * R)) : R :=
  Rmax (fst (snd x)) (snd (snd x)) + 25 + 3 * tmin + tcod + (20 + dt) * Rmax (- ln (fst (fst x))) (- ln (snd (fst x))) + 11 * dt.

Section One.
Variables tmin tcod dt : R.
Variable nm : option String.string.
Hypothesis Hdt : 0 < dt <= 1 / 2.
Hypothesis Htc : 0 < tcod.
Hypothesis Htm : 1 + dt <= tmin.
Hypothesis Htm6 : 6 * dt <= tmin.
Let enc := DataEncoder tmin tcod.
Variable m : logsync_net.
Variable w : world R.
Hypothesis E : LogAndSyncNetwork enc nm empty_world = Ok (m, w).
Hypothesis HB : built empty_world w (ls_mod m) (ls_syns enc m).
Hypothesis HN : ls_nodes m = seq 0 11.
Hypothesis HL : length (w_neurons w) = 11%nat.
Variables x1 x2 d1 d2 t : R.
Hypothesis Hok : ls_ok tcod dt ((x1, x2), (d1, d2)).
Hypothesis Ht : 0 <= t.
Variable K : nat.
Hypothesis HK : t + ls_span tmin tcod dt ((x1, x2), (d1, d2)) <= INR (S K) * dt.
Variable ord : nat -> list nat -> list nat.
Hypothesis HO : ord_ok ord.
Let stims := ls_job ((x1, x2), (d1, d2)) t.

Lemma ls_one : exists s, session (LogAndSyncNetwork enc nm) ls_mod enc dt stims ord (INR K * dt) = Ok (m, s) /\
  quiet (net_of w (exts enc (stims m)) dt) 11 K /\ two_logs enc tcod dt ((x1, x2), (d1, d2)) (spike_log s (ls_output1 m), spike_log s (ls_output2 m)).
Proof.
  destruct Hok as ((Hx1 & Hxt1 & Hu1) & (Hx2 & Hxt2 & Hu2) & Hd1 & Hd2). destruct Hdt as [Hd Hdd].
  rewrite S_INR in HK. unfold ls_span in HK. cbn [fst snd] in HK.
  pose proof (ln_neg x1 Hx1) as Hln1. pose proof (ln_neg x2 Hx2) as Hln2.
  assert (Hq : forall x, 0 < x <= 1 -> 4 * dt <= x * tcod -> 0 <= 80 * dt / (x * tcod) <= 20).
  { intros x Hx Hxt. assert (0 < x * tcod) by lra. split; [apply Rmult_le_pos; [lra|left; apply Rinv_0_lt_compat; auto]|].
    apply Rmult_le_reg_r with (x * tcod); auto. unfold Rdiv. rewrite Rmult_assoc, Rinv_l by lra. lra. }
  pose proof (Hq x1 Hx1 Hxt1) as Hq1. pose proof (Hq x2 Hx2 Hxt2) as Hq2.
  pose proof (Rmax_l d1 d2) as M1. pose proof (Rmax_r d1 d2) as M2.
  assert (LM : forall y, y <= Rmax (- ln x1) (- ln x2) -> (20 + dt) * y <= (20 + dt) * Rmax (- ln x1) (- ln x2)) by (intros; apply Rmult_le_compat_l; lra).
  pose proof (LM _ (Rmax_l (- ln x1) (- ln x2))) as LM1. pose proof (LM _ (Rmax_r (- ln x1) (- ln x2))) as LM2. clear LM.
  set (RD := Rmax d1 d2) in *. set (RL := (20 + dt) * Rmax (- ln x1) (- ln x2)) in *. clearbody RD RL.
  assert (P1 : 0 <= dt * - ln x1) by (apply Rmult_le_pos; lra). assert (P2 : 0 <= dt * - ln x2) by (apply Rmult_le_pos; lra).
  pose proof HN as HN'. unfold ls_nodes in HN'. nodes_eqs HN'.
  destruct (session_built (LogAndSyncNetwork enc nm) ls_mod m w _ enc dt stims ord (INR K * dt) E HB Hd ltac:(lra)) as (s & Es & HSe).
  { unfold stims, ls_job. cbn [fst snd]. stims_ok. } { auto. }
  exists s. split; [exact Es|].
  set (N := net_of w (exts enc (stims m)) dt) in *. unfold stims, ls_job in HSe, N. cbn [fst snd] in HSe, N.
  set (ta := t + d1) in *. set (tb := t + d2) in *. assert (Hta : 0 <= ta <= t + RD) by (unfold ta; lra). assert (Htb : 0 <= tb <= t + RD) by (unfold tb; lra). clearbody ta tb.
  set (a11 := step_at dt (ta + 1)). set (a12 := step_at dt (ta + 1 + (tmin + x1 * tcod))). set (a21 := step_at dt (tb + 1)). set (a22 := step_at dt (tb + 1 + (tmin + x2 * tcod))).
  assert (Hc1 : 0 <= x1 * tcod) by lra. assert (Hc2 : 0 <= x2 * tcod) by lra.
  assert (HA1 : arrs N (ls_input1 m) 1 [a11; a12]).
  { eapply (se_arrs _ _ _ _ _ _ _ _ HSe); [lia| |ext_simp; reflexivity|cbn [map]].
    - cbv beta zeta delta [ls_syns]. filt. reflexivity.
    - unfold a11, a12, enc; cbn [DataEncoder Tmin Tcod]. do 3 f_equal. lra. }
  assert (HA2 : arrs N (ls_input2 m) 1 [a21; a22]).
  { eapply (se_arrs _ _ _ _ _ _ _ _ HSe); [lia| |ext_simp; reflexivity|cbn [map]].
    - cbv beta zeta delta [ls_syns]. filt. reflexivity.
    - unfold a21, a22, enc; cbn [DataEncoder Tmin Tcod]. do 3 f_equal. lra. }
  assert (HM : ls_ins N (1000 / tcod) tmin m).
  { rewrite <- (wbar_R tmin tcod). apply (ls_ins_of N enc m 0); auto. intros n Hn n1 n2. apply (se_own _ _ _ _ _ _ _ _ HSe).
    - rewrite HN in Hn. apply in_seq in Hn. lia.
    - ext_simp. reflexivity. }
  pose proof (step_at_ge1 dt (ta + 1)) as G1. pose proof (step_at_ge1 dt (tb + 1)) as G2. fold a11 in G1. fold a21 in G2.
  assert (Q1 : (a11 + step_at dt 1 <= a12)%nat).
  { apply step_diff_ge; try lra; try apply step_at_ge1. pose proof (step_time dt 1 Hd ltac:(lra)). lra. }
  assert (Q2 : (a21 + step_at dt 1 <= a22)%nat).
  { apply step_diff_ge; try lra; try apply step_at_ge1. pose proof (step_time dt 1 Hd ltac:(lra)). lra. }
  destruct (step_diff dt (ta + 1) (tmin + x1 * tcod) Hd ltac:(lra) ltac:(lra)) as (_ & W1 & _). fold a11 a12 in W1.
  destruct (step_diff dt (tb + 1) (tmin + x2 * tcod) Hd ltac:(lra) ltac:(lra)) as (_ & W2 & _). fold a21 a22 in W2.
  destruct (pair_gap dt tmin (x1 * tcod) a11 a12 Hd ltac:(lra) W1 ltac:(right; lra)) as [V1 _].
  destruct (pair_gap dt tmin (x2 * tcod) a21 a22 Hd ltac:(lra) W2 ltac:(right; lra)) as [V2 _].
  pose proof (ly_sync_spk N m tcod tmin HM a11 a12 a21 a22 HA1 HA2 G1 G2 Q1 Q2 V1 V2) as SY. change (t_dt N) with dt in SY.
  pose proof (ly_sync _ _ _ _ HM) as I9.
  assert (BS : INR (Nat.max a12 a22 + step_at dt 1) * dt <= t + RD + 2 + tmin + tcod + 2 * dt).
  { pose proof (step_at_bounds dt (ta + 1 + (tmin + x1 * tcod)) Hd ltac:(lra)) as B1. pose proof (step_at_bounds dt (tb + 1 + (tmin + x2 * tcod)) Hd ltac:(lra)) as B2.
    pose proof (step_at_bounds dt 1 Hd ltac:(lra)) as B3. fold a12 in B1. fold a22 in B2. rewrite plus_INR.
    destruct (Nat.max_spec a12 a22) as [[_ ->]|[_ ->]]; lra. }
  destruct (chan_timing N dt tmin tcod x1 _ _ _ _ _ _ a11 a12 _ eq_refl Hdt Htc Htm6 Hx1 Hxt1 Hu1 (ly_c1 _ _ _ _ HM) HA1 G1 Q1 W1 (ins_ext _ _ _ I9) SY ltac:(lia)) as (f1 & F1 & F2 & _ & F4 & F5).
  destruct (chan_timing N dt tmin tcod x2 _ _ _ _ _ _ a21 a22 _ eq_refl Hdt Htc Htm6 Hx2 Hxt2 Hu2 (ly_c2 _ _ _ _ HM) HA2 G2 Q2 W2 (ins_ext _ _ _ I9) SY ltac:(lia)) as (g1 & Y1 & Y2 & _ & Y4 & Y5).
  destruct (ly_outs N m tcod tmin HM a11 a12 a21 a22 HA1 HA2 G1 G2 Q1 Q2 V1 V2 f1 g1 F1 Y1 F2 Y2 F4 Y4) as [S1 S2].
  change (t_dt N) with dt in S1, S2.
  assert (SRC1 : in_syn N (ls_input1 m) = [] /\ t_prm N (ls_input1 m) = stdp).
  { split; [|cbn; apply prm_std; [apply HB|lia]]. pose proof (b_syn _ _ _ _ HB) as ES. cbn [w_syns empty_world app] in ES. eapply src_in; [exact ES|]. cbv beta zeta delta [ls_syns]. filt. reflexivity. }
  assert (SRC2 : in_syn N (ls_input2 m) = [] /\ t_prm N (ls_input2 m) = stdp).
  { split; [|cbn; apply prm_std; [apply HB|lia]]. pose proof (b_syn _ _ _ _ HB) as ES. cbn [w_syns empty_world app] in ES. eapply src_in; [exact ES|]. cbv beta zeta delta [ls_syns]. filt. reflexivity. }
  set (B := Nat.max (f1 + step_at dt (1 + tmin)) (g1 + step_at dt (1 + tmin))).
  pose proof (ly_done N m tcod tmin HM a11 a12 a21 a22 HA1 HA2 G1 G2 Q1 Q2 V1 V2 SRC1 SRC2 f1 g1 F1 Y1 F2 Y2 F4 Y4 B) as HD.
  change (t_dt N) with dt in HD. specialize (HD ltac:(unfold B; lia) ltac:(unfold B; lia)).
  set (sy := (Nat.max a12 a22 + step_at dt 1)%nat) in *.
  pose proof (step_at_bounds dt 2 Hd ltac:(lra)) as B2. pose proof (step_at_bounds dt (1 + tmin) Hd ltac:(lra)) as Bm.
  apply Rabs_le2 in F5. apply Rabs_le2 in Y5. rewrite (plus_INR sy) in F5, Y5.
  assert (KB : (B + step_at dt (1 + tmin) <= K)%nat).
  { assert (X : forall f, INR (f + step_at dt (1 + tmin)) * dt + INR (step_at dt (1 + tmin)) * dt <= INR K * dt -> (f + step_at dt (1 + tmin) + step_at dt (1 + tmin) <= K)%nat).
    { intros f Hf. apply INR_le. apply Rmult_le_reg_r with dt; auto. rewrite (plus_INR (f + _)). lra. }
    assert ((f1 + step_at dt (1 + tmin) + step_at dt (1 + tmin) <= K)%nat) by (apply X; lra).
    assert ((g1 + step_at dt (1 + tmin) + step_at dt (1 + tmin) <= K)%nat) by (apply X; lra). unfold B. lia. }
  assert (SK : (sy + step_at dt 2 <= K)%nat) by (unfold B in KB; lia).
  split.
  - apply (done_quiet N 11 B (step_at dt (1 + tmin)) K).
    + intros n Hn. apply HD. rewrite HN. apply in_seq. lia.
    + intros y Hy. cbn [N net_of t_syns t_dt] in *. pose proof (b_syn _ _ _ _ HB) as ES. cbn [w_syns empty_world app] in ES. rewrite ES in Hy.
      assert (SM : forall d, d <= 1 + tmin -> (step_at dt d <= step_at dt (1 + tmin))%nat) by (intros d Hdl; apply step_at_mono; lra).
      unfold ls_syns in Hy. cbv zeta in Hy. cbn [app In] in Hy.
      repeat destruct Hy as [<-|Hy]; try destruct Hy; cbn [s_pre s_delay syn mks]; cbn [enc DataEncoder Tmin]; (split; [lia|apply SM; netr; autorewrite with netR; lra]).
    + exact KB.
    + intros e y He Hy Ee. cbn [N net_of t_ext t_syns t_dt] in *. pose proof (b_syn _ _ _ _ HB) as ES. cbn [w_syns empty_world app] in ES. rewrite ES in Hy.
      unfold exts in He. cbn [flat_map stim_ext app In] in He.
      assert (Efst : fst e = ls_input1 m \/ fst e = ls_input2 m) by (destruct He as [<-|[<-|[<-|[<-|[]]]]]; cbn; auto).
      assert (HPd : s_delay y = 1).
      { unfold ls_syns in Hy. cbv zeta in Hy. cbn [app In] in Hy. repeat destruct Hy as [<-|Hy]; try destruct Hy; cbn [s_pre s_delay syn mks] in *; autorewrite with netR; try lra; exfalso; lia. }
      assert (a12 <= sy /\ a22 <= sy)%nat by (unfold sy; lia).
      rewrite HPd. destruct He as [<-|[<-|[<-|[<-|[]]]]]; cbn [snd].
      * fold a11. lia.
      * replace (ta + (Tmin enc + x1 * Tcod enc) + 1) with (ta + 1 + (tmin + x1 * tcod)) by (unfold enc; cbn; lra). fold a12. lia.
      * fold a21. lia.
      * replace (tb + (Tmin enc + x2 * Tcod enc) + 1) with (tb + 1 + (tmin + x2 * tcod)) by (unfold enc; cbn; lra). fold a22. lia.
  - assert (FK : (f1 + step_at dt (1 + tmin) <= K)%nat) by (unfold B in KB; lia). assert (GK : (g1 + step_at dt (1 + tmin) <= K)%nat) by (unfold B in KB; lia).
    assert (IK : forall i, (i <= K)%nat -> INR i * dt <= INR K * dt) by (intros; apply Rmult_le_compat_r; [lra|apply le_INR; auto]).
    assert (LG1 : spike_log s (ls_output1 m) = times dt [(sy + step_at dt 2)%nat; (f1 + step_at dt (1 + tmin))%nat]).
    { apply (se_log _ _ _ _ _ _ _ _ HSe); auto; [lia|ext_simp; reflexivity|cbn; lia|]. intros i [<-|[<-|[]]]; apply IK; auto. }
    assert (LG2 : spike_log s (ls_output2 m) = times dt [(sy + step_at dt 2)%nat; (g1 + step_at dt (1 + tmin))%nat]).
    { apply (se_log _ _ _ _ _ _ _ _ HSe); auto; [lia|ext_simp; reflexivity|cbn; lia|]. intros i [<-|[<-|[]]]; apply IK; auto. }
    unfold two_logs. cbn [fst snd]. split; [|split; [|rewrite LG1, LG2; reflexivity]].
    + eapply (emits_intro _ _ _ _ dt); [auto|auto|exact LG1|exact F4|]. unfold log_err.
      replace (20 * - ln x1 / tcod * tcod) with (20 * - ln x1) by (field; lra).
      replace (((4 + - ln x1) * dt + 80 * dt / (x1 * tcod)) / tcod * tcod) with ((4 + - ln x1) * dt + 80 * dt / (x1 * tcod)) by (field; lra).
      apply Rabs_le. rewrite (plus_INR sy). lra.
    + eapply (emits_intro _ _ _ _ dt); [auto|auto|exact LG2|exact Y4|]. unfold log_err.
      replace (20 * - ln x2 / tcod * tcod) with (20 * - ln x2) by (field; lra).
      replace (((4 + - ln x2) * dt + 80 * dt / (x2 * tcod)) / tcod * tcod) with ((4 + - ln x2) * dt + 80 * dt / (x2 * tcod)) by (field; lra).
      apply Rabs_le. rewrite (plus_INR sy). lra.
Qed.
End One.

Theorem log_and_sync_reuse (tmin tcod dt T : R) (js : list (((R * R) * (R * R)) * R)) nm ord :
  0 < dt <= 1 / 2 -> 0 < tcod -> 1 + dt <= tmin -> 6 * dt <= tmin -> ord_ok ord -> 0 <= T ->
  jobs_ok _ (ls_ok tcod dt) (ls_span tmin tcod dt) 0 js T ->
  exists m s ps,
    session (LogAndSyncNetwork (DataEncoder tmin tcod) nm) ls_mod (DataEncoder tmin tcod) dt (fun m => flat_map (fun j => ls_job (fst j) (snd j) m) js) ord T = Ok (m, s) /\
    spike_log s (ls_output1 m) = concat (map fst ps) /\ spike_log s (ls_output2 m) = concat (map snd ps) /\
    Forall2 (fun j p => two_logs (DataEncoder tmin tcod) tcod dt (fst j) p) js ps.
Proof.
  intros Hdt Htc Htm Htm2 HO HT HJ. set (enc := DataEncoder tmin tcod).
  assert (HTc : tcod <> 0) by lra. assert (HTm : tmin + tcod <> 0) by lra.
  destruct (LogSync_built enc nm empty_world inv_empty (neq0 _ HTm) (neq0 _ HTc)) as (m & w & E & HB & HN & HL).
  cbn [w_neurons empty_world length Nat.add] in HN, HL. pose proof HN as HN'. unfold ls_nodes in HN'. nodes_eqs HN'.
  pose proof (b_syn _ _ _ _ HB) as ES. cbn [w_syns empty_world app] in ES.
  assert (EQ : forall stims T, session (LogAndSyncNetwork enc nm) ls_mod enc dt stims ord T = session (LogAndSyncNetwork enc nm) ls_mod enc dt (fun _ => stims m) ord T).
  { intros stims T'. unfold session. rewrite E. reflexivity. }
  destruct (session_jobs (LogAndSyncNetwork enc nm) ls_mod m w _ enc dt ord E HB ltac:(lra) HO _ (fun x t => ls_job x t m) (ls_ok tcod dt) (ls_span tmin tcod dt)
     (fun n => n = ls_output1 m \/ n = ls_output2 m)
     (fun x l => two_logs enc tcod dt x (l (ls_output1 m), l (ls_output2 m)))) with (js := js) (T := T) as (s & ls & Es & F & LG); auto.
  - intros y Hy. rewrite ES in Hy. unfold ls_syns in Hy. cbv zeta in Hy. cbn [In] in Hy. repeat destruct Hy as [<-|Hy]; try destruct Hy; cbn [s_delay syn enc DataEncoder Tmin Tcod]; netr; autorewrite with netR; lra.
  - intros x t d. unfold exts, later, ls_job. cbn [flat_map stim_ext app map fst snd]. repeat (f_equal; try lra).
  - intros [[x1 x2] [d1 d2]] t p (Hx1 & Hx2 & A3 & A4) Hp. unfold exts, ls_job in Hp. cbn [flat_map stim_ext app In enc DataEncoder Tmin Tcod fst snd] in Hp.
    destruct Hp as [<-|[<-|[<-|[<-|[]]]]]; cbn [snd]; lra.
  - intros [[x1 x2] [d1 d2]] t (Hx1 & Hx2 & A3 & A4). unfold ls_job. cbn [fst snd]. stims_ok.
  - intros [[x1 x2] [d1 d2]] (Hx1 & Hx2 & A3 & A4). unfold ls_span. cbn [fst snd]. pose proof (Rmax_l d1 d2). pose proof (ln_neg x1 (proj1 Hx1)).
    pose proof (Rmax_l (- ln x1) (- ln x2)). assert (0 <= (20 + dt) * Rmax (- ln x1) (- ln x2)) by (apply Rmult_le_pos; lra). lra.
  - intros n [->| ->]; lia.
  - intros n x t Hn. unfold exts, ls_job. cbn [flat_map stim_ext app map fst In]. lia.
  - intros x l l' d Hl EL. rewrite (EL (ls_output1 m)), (EL (ls_output2 m)) by auto. destruct Hl as (Q1 & Q2 & Q3). cbn [fst snd] in *.
    split; [apply says_shift; exact Q1|]. split; [apply says_shift; exact Q2|]. cbn [fst snd].
    destruct Q1 as (u1 & v1 & y1 & X1 & _). destruct Q2 as (u2 & v2 & y2 & X2 & _). rewrite X1, X2 in *. cbn in *. lra.
  - intros [[x1 x2] [d1 d2]] t K Hx Ht HK.
    destruct (ls_one tmin tcod dt nm Hdt Htc Htm Htm2 m w E HB HN HL x1 x2 d1 d2 t Hx Ht K HK ord HO) as (s & Es & HQ & HR).
    fold enc in Es, HQ, HR. rewrite <- HL in HQ.
    destruct (session_rests (LogAndSyncNetwork enc nm) ls_mod m w _ enc dt ord E HB ltac:(lra) HO (fun _ => ls_job ((x1, x2), (d1, d2)) t m) K) as (s' & Es' & RS); auto.
    { destruct Hx as (Hx1 & Hx2 & A3 & A4). unfold ls_job. cbn [fst snd]. stims_ok. }
    rewrite EQ in Es. rewrite Es' in Es. injection Es as <-. exists s'. auto.
  - exists m, s, (map (fun l => (l (ls_output1 m), l (ls_output2 m))) ls). split; [|split; [|split]].
    + rewrite EQ. exact Es.
    + rewrite map_map. apply LG; auto.
    + rewrite map_map. apply LG; auto.
    + clear -F. induction F; cbn [map]; constructor; auto.
Qed.

(** an operand of exactly 1: its accumulator does not wait for the other operand *)
Lemma log_and_sync_one (dt d : R) nm ord : 0 < dt <= 1 / 50 -> aligned dt 10 -> (exists k, 100 = INR k * dt) -> 60 + 6 * dt <= d -> ord_ok ord ->
  exists m s t1 t2,
    session (LogAndSyncNetwork (DataEncoder 10 100) nm) ls_mod (DataEncoder 10 100) dt
      (fun m => [SValue 1 (ls_input1 m) 0; SValue (1 / 2) (ls_input2 m) d]) ord (d + 200) = Ok (m, s) /\
    spike_log s (ls_output1 m) = [t1; t2] /\ Rabs (t2 - t1 - (d - 59)) <= 5 * dt.
Proof.
  intros [Hd Hd2] HAl (k & Hk) Hdd HO. assert (Hdt : 0 < dt <= 1 / 2) by lra. set (enc := DataEncoder 10 100).
  destruct (LogSync_built enc nm empty_world inv_empty (neq0 (10 + 100) ltac:(lra)) (neq0 100 ltac:(lra))) as (m & w & E & HB & HN & HL).
  cbn [w_neurons empty_world length Nat.add] in HN, HL. pose proof HN as HN'. unfold ls_nodes in HN'. nodes_eqs HN'.
  set (stims := fun m => [SValue 1 (ls_input1 m) 0; SValue (1 / 2) (ls_input2 m) d]).
  destruct (session_built (LogAndSyncNetwork enc nm) ls_mod m w _ enc dt stims ord (d + 200) E HB Hd ltac:(lra)) as (s & Es & HSe).
  { unfold stims. stims_ok. } { auto. }
  set (N := net_of w (exts enc (stims m)) dt) in *. unfold stims in HSe, N.
  set (a11 := step_at dt (0 + 1)). set (a12 := step_at dt (0 + 1 + (10 + 1 * 100))). set (a21 := step_at dt (d + 1)). set (a22 := step_at dt (d + 1 + (10 + 1 / 2 * 100))).
  assert (HA1 : arrs N (ls_input1 m) 1 [a11; a12]).
  { eapply (se_arrs _ _ _ _ _ _ _ _ HSe); [lia| |ext_simp; reflexivity|cbn [map]].
    - cbv beta zeta delta [ls_syns]. filt. reflexivity.
    - unfold a11, a12, enc; cbn [DataEncoder Tmin Tcod]. do 3 f_equal. lra. }
  assert (HA2 : arrs N (ls_input2 m) 1 [a21; a22]).
  { eapply (se_arrs _ _ _ _ _ _ _ _ HSe); [lia| |ext_simp; reflexivity|cbn [map]].
    - cbv beta zeta delta [ls_syns]. filt. reflexivity.
    - unfold a21, a22, enc; cbn [DataEncoder Tmin Tcod]. do 3 f_equal. lra. }
  assert (HM : ls_ins N (1000 / 100) 10 m).
  { rewrite <- (wbar_R 10 100). apply (ls_ins_of N enc m 0); auto. intros n Hn n1 n2. apply (se_own _ _ _ _ _ _ _ _ HSe).
    - rewrite HN in Hn. apply in_seq in Hn. lia.
    - ext_simp. reflexivity. }
  pose proof (step_at_ge1 dt (0 + 1)) as G1. pose proof (step_at_ge1 dt (d + 1)) as G2. fold a11 in G1. fold a21 in G2.
  assert (Q1 : (a11 + step_at dt 1 <= a12)%nat).
  { apply step_diff_ge; try lra; try apply step_at_ge1. pose proof (step_time dt 1 Hd ltac:(lra)). lra. }
  assert (Q2 : (a21 + step_at dt 1 <= a22)%nat).
  { apply step_diff_ge; try lra; try apply step_at_ge1. pose proof (step_time dt 1 Hd ltac:(lra)). lra. }
  destruct (step_diff dt (0 + 1) (10 + 1 * 100) Hd ltac:(lra) ltac:(lra)) as (_ & W1 & _). fold a11 a12 in W1.
  destruct (step_diff dt (d + 1) (10 + 1 / 2 * 100) Hd ltac:(lra) ltac:(lra)) as (_ & W2 & _). fold a21 a22 in W2.
  destruct (pair_gap dt 10 (1 * 100) a11 a12 Hd ltac:(lra) W1 ltac:(right; lra)) as [V1 _].
  destruct (pair_gap dt 10 (1 / 2 * 100) a21 a22 Hd ltac:(lra) W2 ltac:(right; lra)) as [V2 _].
  pose proof (ly_sync_spk N m 100 10 HM a11 a12 a21 a22 HA1 HA2 G1 G2 Q1 Q2 V1 V2) as SY. change (t_dt N) with dt in SY.
  pose proof (ly_sync _ _ _ _ HM) as I9. pose proof (ly_c1 _ _ _ _ HM) as C1.
  set (sy := (Nat.max a12 a22 + step_at dt 1)%nat) in *.
  destruct (li_acc_spk N 100 10 _ _ _ _ _ _ ltac:(cbn; lra) ltac:(lra) C1 a11 a12 sy HA1 G1 Q1 V1 (ins_ext _ _ _ I9) SY ltac:(unfold sy; lia)) as (_ & _ & HF).
  change (t_dt N) with dt in HF.
  destruct (stored 10 100 dt Hdt ltac:(lra) ltac:(lra) HAl 1 0 ltac:(lra) ltac:(lra)) as [_ S1]. specialize (S1 k ltac:(lra)). fold a11 a12 in S1.
  destruct (HF ltac:(lra)) as [_ HF1]. set (f := (a11 + step_at dt (1 + 10) - 1 + step_at dt 100)%nat) in *.
  pose proof (step_at_bounds dt (0 + 1) Hd ltac:(lra)) as B1. pose proof (step_at_bounds dt (1 + 10) Hd ltac:(lra)) as B2. pose proof (step_at_bounds dt 100 Hd ltac:(lra)) as B3.
  pose proof (step_at_bounds dt 1 Hd ltac:(lra)) as B4. pose proof (step_at_bounds dt 2 Hd ltac:(lra)) as B5.
  pose proof (step_at_bounds dt (0 + 1 + (10 + 1 * 100)) Hd ltac:(lra)) as B6. pose proof (step_at_bounds dt (d + 1 + (10 + 1 / 2 * 100)) Hd ltac:(lra)) as B7.
  fold a11 in B1. fold a12 in B6. fold a22 in B7.
  assert (MX : Nat.max a12 a22 = a22) by (assert (a12 <= a22)%nat by (apply step_at_mono; lra); lia).
  assert (Ff : INR f * dt = INR a11 * dt + INR (step_at dt (1 + 10)) * dt - dt + INR (step_at dt 100) * dt).
  { unfold f. rewrite plus_INR, minus_INR, plus_INR by lia. cbn [INR]. lra. }
  assert (Fs : INR sy * dt = INR a22 * dt + INR (step_at dt 1) * dt) by (unfold sy; rewrite MX, plus_INR; lra).
  assert (LT : (f + step_at dt (1 + 10) < sy + step_at dt 2)%nat).
  { apply INR_lt. apply Rmult_lt_reg_r with dt; auto. rewrite !plus_INR. lra. }
  assert (SO : spikes_at N (ls_output1 m) [(sy + step_at dt 2)%nat; (f + step_at dt (1 + 10))%nat]).
  { apply (li_out_spk N 100 10 _ _ _ _ _ _ C1 a11 a12 sy G1 Q1 V1 (ins_ext _ _ _ I9) SY ltac:(unfold sy; lia) f HF1); [pose proof (step_at_ge1 dt (1 + 10)); unfold f; lia|change (t_dt N) with dt; lia]. }
  assert (SO' : spikes_at N (ls_output1 m) [(f + step_at dt (1 + 10))%nat; (sy + step_at dt 2)%nat]).
  { intros j. rewrite (SO j). cbn [memb existsb]. rewrite !orb_false_r. apply orb_comm. }
  assert (LG : spike_log s (ls_output1 m) = times dt [(f + step_at dt (1 + 10))%nat; (sy + step_at dt 2)%nat]).
  { apply (se_log _ _ _ _ _ _ _ _ HSe (ls_output1 m) [(f + step_at dt (1 + 10))%nat; (sy + step_at dt 2)%nat]); [lia|ext_simp; reflexivity|exact SO'| |].
    - pose proof (step_at_ge1 dt 2). cbn [strict]. split; [unfold f in *; pose proof (step_at_ge1 dt (1 + 10)); lia|split; [exact LT|exact I]].
    - intros i [<-|[<-|[]]]; rewrite plus_INR; lra. }
  exists m, s. do 2 eexists. split; [exact Es|]. split; [rewrite LG; unfold times; cbn [map]; reflexivity|].
  rewrite !plus_INR. apply Rabs_le. lra.
Qed.
