(** MemoryNetwork in a history of stores (each recalled once) and of recalls with nothing stored (C70). *)
From Coq Require Import Arith ZArith Bool List Reals Lra Lia Permutation.
From Verif Require Import Num Heapq Elements Simulator Networks Trace SimTrace SimProps TraceProps NeuronLib NetLib Build BuildNets Bridge MemoryProof GeLib Session SegLib SimpleNets InvMem Restart MemReuse Reuse Jobs Settle RestFun LinComb LinReuse ConstReuse IMReuse.
Import ListNotations.
Open Scope R_scope.
Open Scope list_scope.

(** ** a recall with nothing stored *)
Section Bare.
Variable N : tnet.
Variable m : memory_net.
Variable Tmax : R.
Let dt := t_dt N.
Hypothesis Hdt : 0 < dt.
Hypothesis HTmax : 0 < Tmax.
Hypothesis HM : mem_in N (1000 / Tmax) m.
Let D1 := step_at dt 1.
Let M := step_at dt Tmax.
Hypothesis Hin : arrs N (mm_input m) 1 [].
Variables r1 q : nat.
Hypothesis Hr1 : arrs N (mm_recall m) 1 [r1].
Hypothesis Hr1p : (1 <= r1)%nat.
Hypothesis Hq : arrs N (mm_recall m) 2 [q].
Hypothesis Hq1 : (1 <= q)%nat.
Lemma mbare_first : spikes_at N (mm_first m) [].
Proof. eapply first_none; [apply (mi_first _ _ _ HM)|auto]. Qed.
Lemma mbare_last : spikes_at N (mm_last m) [].
Proof. eapply last_none; [apply (mi_last _ _ _ HM)|auto]. Qed.
Lemma mbare_acc : spikes_at N (mm_acc m) [].
Proof.
  pose proof (mi_acc _ _ _ HM) as H. assert (HP : t_prm N (mm_acc m) = stdp) by apply H.
  intros k. apply silent; [exact HP|]. intros j Hj ty. rewrite input_in, (sumf_perm _ _ _ (ins_syn _ _ _ H)). rewrite (sumf_ext _ (fun _ => 0)); [apply sumf_0|].
  intros y [<-|[]]. cbn [s_pre s_delay mks]. rewrite (arrs_0 N _ _ cTsyn (mi_first _ _ _ HM) mbare_first j Hj). rewrite cnt_nil. destruct (syntype_eqb _ _); lra.
Qed.
Lemma mbare_acc2 : spikes_at N (mm_acc2 m) [(r1 - 1 + M)%nat].
Proof.
  pose proof (mi_acc2 _ _ _ HM) as H. pose proof (step_at_ge1 dt Tmax) as G3. fold M in G3.
  assert (V : forall k, vlin [(r1, 1000 / Tmax)] k = 1000 / Tmax * IZR (Z.of_nat (S k - r1))).
  { intros k. rewrite vlin_cons, vlin_nil, <- INR_IZR_INZ. lra. }
  apply (geonly_once N (mm_acc2 m) [(r1, 1000 / Tmax)]).
  - apply H.
  - eapply ins_geonly; eauto; repeat constructor.
  - evb.
  - lia.
  - intros k Hk. ev_input H.
    rewrite (arrs_0 N _ _ (twice cTsyn) (mi_last _ _ _ HM) mbare_last k Hk), (arrs_0 N _ _ cTsyn (mi_acc _ _ _ HM) mbare_acc k Hk).
    autorewrite with netR. rewrite (Hr1 k Hk). ev_simpl. lra.
  - intros k Hk. fold dt. rewrite V. apply unit_lt; auto. fold M. lia.
  - fold dt. rewrite V. apply unit_ge; auto. fold M. lia.
  - evb.
Qed.
Lemma mbare_output : q <> (r1 - 1 + M + D1)%nat -> spikes_at N (mm_output m) [q; (r1 - 1 + M + D1)%nat].
Proof.
  intros Hne. pose proof (mi_output _ _ _ HM) as H. pose proof (step_at_ge1 dt Tmax) as G3. fold M in G3.
  apply two_spikes; auto; [apply H| |lia|].
  - eapply ins_vonly; eauto; repeat constructor.
  - intros k Hk. ev_input H.
    rewrite (arrs_1 N _ _ _ D1 _ (mi_acc2 _ _ _ HM) mbare_acc2); auto; [|lia].
    netr. replace (2 * 1) with 2 by lra. rewrite (Hq k Hk). ev_simpl. lra.
Qed.
Lemma mbare_ready : spikes_at N (mm_ready m) [].
Proof.
  pose proof (mi_ready _ _ _ HM) as H. assert (HP : t_prm N (mm_ready m) = stdp) by apply H.
  intros k. apply silent; [exact HP|]. intros j Hj ty. rewrite input_in, (sumf_perm _ _ _ (ins_syn _ _ _ H)). rewrite (sumf_ext _ (fun _ => 0)); [apply sumf_0|].
  intros y [<-|[]]. cbn [s_pre s_delay mks]. rewrite (arrs_0 N _ _ cTsyn (mi_acc _ _ _ HM) mbare_acc j Hj). rewrite cnt_nil. destruct (syntype_eqb _ _); lra.
Qed.
End Bare.

Definition mm_span (tmin tcod dt : R) : R := (tmin + tcod) + 4 + 6 * dt.
Lemma mbare_quiet (tmin tcod dt tr : R) K m w nm ord :
  0 < dt <= 1 / 2 -> 0 < tcod -> 1 + dt <= tmin -> 0 <= tr -> tr + mm_span tmin tcod dt <= INR (S K) * dt -> ord_ok ord ->
  let enc := DataEncoder tmin tcod in
  MemoryNetwork enc nm empty_world = Ok (m, w) -> built empty_world w (mm_mod m) (mm_syns (wacc_of enc) m) -> mm_nodes m = seq 0 8 -> length (w_neurons w) = 8%nat ->
  quiet (net_of w (exts enc [SSpike (mm_recall m) tr]) dt) 8 K /\
  exists s, session (MemoryNetwork enc nm) mm_mod enc dt (fun m => [SSpike (mm_recall m) tr]) ord (INR K * dt) = Ok (m, s) /\
    pair_says enc 1 (3 * dt / tcod) (spike_log s (mm_output m)) /\ spike_log s (mm_ready m) = [].
Proof.
  intros [Hdt Hdt2] Htc Htm Ht0 HT HO enc E HB HN HL. unfold mm_span in HT. rewrite S_INR in HT.
  set (stims := fun m => [SSpike (mm_recall m) tr]).
  pose proof HN as HN'. unfold mm_nodes in HN'. nodes_eqs HN'.
  destruct (session_built (MemoryNetwork enc nm) mm_mod m w _ enc dt stims ord (INR K * dt) E HB Hdt ltac:(lra)) as (s & Es & HSe); auto.
  { stims_ok. }
  change [SSpike (mm_recall m) tr] with (stims m).
  set (N := net_of w (exts enc (stims m)) dt) in *. unfold stims in *.
  assert (HA1 : arrs N (mm_input m) 1 []) by (src_solve HSe).
  assert (HR1 : arrs N (mm_recall m) 1 [step_at dt (tr + 1)]) by (src_solve HSe).
  assert (HR2 : arrs N (mm_recall m) 2 [step_at dt (tr + 2)]) by (src_solve HSe).
  assert (HM : mem_in N (1000 / (tmin + tcod)) m).
  { rewrite <- wacc_R. apply (mem_in_of N _ m 0); auto. intros n Hn. apply (se_own _ _ _ _ _ _ _ _ HSe).
    - unfold mm_internal in Hn. cbn [In] in Hn. intuition lia.
    - unfold mm_internal in Hn. cbn [In] in Hn. destruct Hn as [<-|[<-|[<-|[<-|[<-|[<-|[]]]]]]]; ext_simp; reflexivity. }
  pose proof (step_at_bounds dt 1 Hdt ltac:(lra)) as BD1.
  pose proof (step_at_bounds dt (tr + 1) Hdt ltac:(lra)) as BR1. pose proof (step_at_bounds dt (tr + 2) Hdt ltac:(lra)) as BR2.
  pose proof (step_at_bounds dt (tmin + tcod) Hdt ltac:(lra)) as BM.
  pose proof (step_at_ge1 dt 1) as G2. pose proof (step_at_ge1 dt (tr + 2)) as G3. pose proof (step_at_ge1 dt (tr + 1)) as G1. pose proof (step_at_ge1 dt (tmin + tcod)) as G4.
  pose proof (mbare_first N m (tmin + tcod) HM HA1) as S1. pose proof (mbare_last N m (tmin + tcod) HM HA1) as S2.
  pose proof (mbare_acc N m (tmin + tcod) HM HA1) as S3. pose proof (mbare_ready N m (tmin + tcod) HM HA1) as S6.
  assert (S4 : spikes_at N (mm_acc2 m) [(step_at dt (tr + 1) - 1 + step_at dt (tmin + tcod))%nat]) by (eapply (mbare_acc2 N); eauto; lra).
  assert (HOut : step_at dt (tr + 2) <> (step_at dt (tr + 1) - 1 + step_at dt (tmin + tcod) + step_at dt 1)%nat ->
     spikes_at N (mm_output m) [step_at dt (tr + 2); (step_at dt (tr + 1) - 1 + step_at dt (tmin + tcod) + step_at dt 1)%nat]) by (intros X; eapply (mbare_output N); eauto; lra).
  set (r1 := step_at dt (tr + 1)) in *. set (q := step_at dt (tr + 2)) in *.
  set (D1 := step_at dt 1) in *. set (M := step_at dt (tmin + tcod)) in *.
  set (f := (r1 - 1 + M)%nat) in *.
  assert (EI : INR (f + D1) * dt = INR r1 * dt - dt + INR M * dt + INR D1 * dt).
  { unfold f. inr. lra. }
  assert (Hqb : (q < f + D1)%nat) by (apply INR_lt; apply Rmult_lt_reg_r with dt; auto; lra).
  assert (HKf : (f + D1 <= K)%nat) by (apply INR_le; apply Rmult_le_reg_r with dt; auto; lra).
  assert (Hfr : (r1 <= f)%nat) by (unfold f; lia).
  specialize (HOut ltac:(lia)).
  split.
  2:{ exists s. split; [exact Es|]. rewrite <- emits_says. split.
    - assert (HLg : spike_log s (mm_output m) = times dt [q; (f + D1)%nat]).
      { apply (se_log _ _ _ _ _ _ _ _ HSe); auto; [lia|ext_simp; reflexivity|cbn; lia|]. intros j [<-|[<-|[]]]; lra. }
      eapply (emits_intro _ _ _ _ dt q (f + D1)); auto. rewrite EI. replace (3 * dt / tcod * tcod) with (3 * dt) by (field; lra).
      apply Rabs_le. lra.
    - rewrite (se_log _ _ _ _ _ _ _ _ HSe (mm_ready m) []); auto; [lia|ext_simp; reflexivity|exact I|intros j []]. }
  pose proof (b_syn _ _ _ _ HB) as ES. cbn [w_syns empty_world app] in ES.
  pose proof (mi_first _ _ _ HM) as I1. pose proof (mi_last _ _ _ HM) as I2. pose proof (mi_acc _ _ _ HM) as I3. pose proof (mi_acc2 _ _ _ HM) as I4. pose proof (mi_ready _ _ _ HM) as I6. pose proof (mi_output _ _ _ HM) as I5.
  assert (SRC : forall n, n = mm_input m \/ n = mm_recall m -> in_syn N n = [] /\ t_prm N n = stdp).
  { intros n [->| ->]; (split; [|cbn; apply prm_std; [apply HB|lia]]; eapply src_in; [exact ES|]; syn_simp). }
  assert (Hdm : twice (T:=R) cTsyn = 2) by (netr; lra).
  constructor.
  - intros p y Hp Hy Ep. cbn [N net_of t_ext t_syns t_dt] in *. rewrite ES in Hy.
    unfold exts in Hp. cbn [flat_map stim_ext app In] in Hp. destruct Hp as [<-|[]]; cbn [snd fst] in *.
    assert (HP : s_delay y = 1 \/ s_delay y = 2).
    { unfold mm_syns in Hy. cbn [In] in Hy. repeat destruct Hy as [<-|Hy]; try destruct Hy; cbn [s_pre s_delay syn mks] in *; rewrite ?Hdm; autorewrite with netR; auto; exfalso; lia. }
    destruct HP as [->| ->]; [fold r1|fold q]; lia.
  - intros n Hn. assert (Hn' : In n (mm_nodes m)) by (rewrite HN; apply in_seq; lia). unfold mm_nodes in Hn'. cbn [In] in Hn'.
    destruct Hn' as [<-|[<-|[<-|[<-|[<-|[<-|[<-|[<-|[]]]]]]]]].
    + apply src_settled; apply SRC; auto.
    + eapply first_none_settled; eauto.
    + eapply none_settled; [exact I2|]. intros y [<-|[]]. cbn [s_pre s_delay mks]. rewrite cTsyn_R. exact HA1.
    + eapply none_settled; [exact I3|]. intros y [<-|[]]. cbn [s_pre s_delay mks]. eapply arrs_0; [exact I1|exact S1].
    + eapply (ins_settled _ _ _ f); [exact I4|eapply spk_last; [exact S4|left; auto]| |lia].
      constructor; [|constructor; [|constructor; [|constructor]]]; cbn [s_pre s_delay mks]; autorewrite with netR.
      * eapply over_spk; [apply (ins_ext _ _ _ I2)|exact S2|]. intros ? [].
      * eapply over_spk; [apply (ins_ext _ _ _ I3)|exact S3|]. intros ? [].
      * eapply over_arrs; [exact HR1|]. intros ? [<-|[]]. lia.
    + apply src_settled; apply SRC; auto.
    + eapply none_settled; [exact I6|]. intros y [<-|[]]. cbn [s_pre s_delay mks]. eapply arrs_0; [exact I3|exact S3].
    + eapply (ins_settled _ _ _ (f + D1)); [exact I5|eapply spk_last; [exact HOut|right; left; auto]| |lia].
      constructor; [|constructor; [|constructor]]; cbn [s_pre s_delay mks]; rewrite ?Hdm; autorewrite with netR.
      * eapply over_arrs; [exact HR2|]. intros ? [<-|[]]. lia.
      * eapply over_spk; [apply (ins_ext _ _ _ I4)|exact S4|]. intros ? [<-|[]]. change (t_dt N) with dt. fold D1. lia.
  - intros y j Hy Hj Hs. cbn [N net_of t_syns t_dt] in *. rewrite ES in Hy. fold N in Hs.
    assert (S0 : spikes_at N (mm_input m) []) by (apply source_silent; apply SRC; auto). assert (S5 : spikes_at N (mm_recall m) []) by (apply source_silent; apply SRC; auto).
    unfold mm_syns in Hy. cbn [In] in Hy. repeat destruct Hy as [<-|Hy]; try destruct Hy; cbn [s_pre s_delay syn mks] in *; autorewrite with netR;
      first [rewrite S0 in Hs | rewrite S5 in Hs | rewrite S1 in Hs | rewrite S2 in Hs | rewrite S3 in Hs | rewrite S4 in Hs];
      cbn [memb existsb] in Hs; try discriminate; rewrite orb_false_r in Hs; apply Nat.eqb_eq in Hs; subst j; fold D1; lia.
Qed.

(** histories of stores (each recalled once) and of recalls with nothing stored since the last recall *)
Inductive mm_job := MStore (x r : R) | MRecall.
Definition mmj_ok (tmin tcod dt : R) (j : mm_job) : Prop := match j with MStore x r => 0 <= x <= 1 /\ 2 + (tmin + tcod) + 3 * dt <= r | MRecall => True end.
Definition mmj_len (tmin tcod dt : R) (j : mm_job) : R := match j with MStore x r => r + (tmin + tcod) + 4 + 6 * dt | MRecall => tmin + tcod + 4 + 6 * dt end.
Definition mmj_stims (m : memory_net) (j : mm_job) (t : R) : list stim :=
  match j with MStore x r => [SValue x (mm_input m) t; SSpike (mm_recall m) (t + r)] | MRecall => [SSpike (mm_recall m) t] end.
(** what a job puts on the output and on ready *)
Definition mmj_says (enc : encoder R) (eps : R) (j : mm_job) (out rdy : list R) : Prop :=
  match j with MStore x _ => pair_says enc x eps out /\ length rdy = 1%nat | MRecall => pair_says enc 1 eps out /\ rdy = [] end.

Lemma mmstore_quiet (tmin tcod dt x r t : R) K m w nm ord :
  0 < dt <= 1 / 2 -> 0 < tcod -> 1 + dt <= tmin -> 0 <= x <= 1 -> 2 + (tmin + tcod) + 3 * dt <= r -> 0 <= t -> t + mmj_len tmin tcod dt (MStore x r) <= INR (S K) * dt -> ord_ok ord ->
  let enc := DataEncoder tmin tcod in
  MemoryNetwork enc nm empty_world = Ok (m, w) -> built empty_world w (mm_mod m) (mm_syns (wacc_of enc) m) -> mm_nodes m = seq 0 8 -> length (w_neurons w) = 8%nat ->
  quiet (net_of w (exts enc (mmj_stims m (MStore x r) t)) dt) 8 K /\
  exists s, session (MemoryNetwork enc nm) mm_mod enc dt (fun m => mmj_stims m (MStore x r) t) ord (INR K * dt) = Ok (m, s) /\
    pair_says enc x (3 * dt / tcod) (spike_log s (mm_output m)) /\ length (spike_log s (mm_ready m)) = 1%nat.
Proof.
  intros Hdt Htc Htm Hx Hr Ht HT HO enc E HB HN HL. unfold mmj_len in HT. rewrite S_INR in HT. pose proof (proj1 Hdt) as Hd.
  pose proof HN as HN'. unfold mm_nodes in HN'. nodes_eqs HN'.
  set (stims := fun m => mmj_stims m (MStore x r) t).
  destruct (session_built (MemoryNetwork enc nm) mm_mod m w _ enc dt stims ord (INR K * dt) E HB Hd ltac:(lra)) as (s & Es & HSe).
  { unfold stims, mmj_stims. stims_ok. } { auto. }
  destruct (one_cycle tmin tcod dt nm m w E HB HN HL Hdt Htc Htm {| cy_x := x; cy_store := t; cy_recall := t + r |} Hx Ht ltac:(cbn [cy_store cy_recall]; lra))
    as (p & rd & RP & RD & SO & SY & P1 & P2 & SET).
  change (cy_ext tmin tcod m [{| cy_x := x; cy_store := t; cy_recall := t + r |}]) with (exts enc (stims m)) in SO, SY, SET.
  change (mmj_stims m (MStore x r) t) with (stims m). set (N := net_of w (exts enc (stims m)) dt) in *.
  destruct RP as (R1 & R2 & R3 & y & R4 & R5 & _). cbn [st_pair fst snd cy_x cy_recall] in *.
  assert (HK : (snd p <= K)%nat) by (apply INR_le; apply Rmult_le_reg_r with dt; lra).
  assert (H12 : (fst p < snd p)%nat) by (apply INR_lt; apply Rmult_lt_reg_r with dt; lra).
  assert (IK : forall i, (i <= K)%nat -> INR i * dt <= INR K * dt) by (intros; apply Rmult_le_compat_r; [lra|apply le_INR; auto]).
  destruct (SET K HK) as [Z1 Z2].
  pose proof (b_syn _ _ _ _ HB) as ES. cbn [w_syns empty_world app] in ES.
  split.
  - constructor; auto.
    intros e y0 He Hy Ee. cbn [N net_of t_ext t_syns t_dt] in *. rewrite ES in Hy.
    assert (Hxc : 0 <= x * tcod <= tcod) by (split; [apply Rmult_le_pos; lra|rewrite <- (Rmult_1_l tcod) at 2; apply Rmult_le_compat_r; lra]).
    assert (HP : 1 <= s_delay y0 <= 2).
    { unfold mm_syns in Hy. cbn [In] in Hy. repeat destruct Hy as [<-|Hy]; try destruct Hy; cbn [s_delay syn]; netr; autorewrite with netR; lra. }
    assert (Hs : 0 <= snd e <= t + r).
    { unfold exts, stims, mmj_stims in He. cbn [flat_map stim_ext app In enc DataEncoder Tmin Tcod] in He. destruct He as [<-|[<-|[<-|[]]]]; cbn [snd]; lra. }
    pose proof (step_at_bounds dt (snd e + s_delay y0) Hd ltac:(lra)) as B. apply INR_le. apply Rmult_le_reg_r with dt; lra.
  - exists s. split; [exact Es|]. split.
    + rewrite (se_log _ _ _ _ _ _ _ _ HSe (mm_output m) [fst p; snd p]); auto; [|lia|unfold stims, mmj_stims; ext_simp; reflexivity|cbn; lia|intros i [<-|[<-|[]]]; apply IK; lia].
      exists (INR (fst p) * dt), (INR (snd p) * dt), y. repeat (apply conj); auto.
    + rewrite (se_log _ _ _ _ _ _ _ _ HSe (mm_ready m) [rd]); auto; [lia|unfold stims, mmj_stims; ext_simp; reflexivity|cbn; lia|intros i [<-|[]]; apply IK; lia].
Qed.

Lemma mmj_says_shift enc eps j o r d : mmj_says enc eps j o r -> mmj_says enc eps j (map (fun t => t + d) o) (map (fun t => t + d) r).
Proof. destruct j; cbn [mmj_says]; intros [A B]; (split; [apply says_shift; auto|]); [rewrite map_length; auto|rewrite B; reflexivity]. Qed.

Theorem memory_history (tmin tcod dt T : R) (js : list (mm_job * R)) nm ord :
  0 < dt <= 1 / 2 -> 0 < tcod -> 1 + dt <= tmin -> ord_ok ord -> 0 <= T ->
  jobs_ok mm_job (mmj_ok tmin tcod dt) (mmj_len tmin tcod dt) 0 js T ->
  exists m s ps,
    session (MemoryNetwork (DataEncoder tmin tcod) nm) mm_mod (DataEncoder tmin tcod) dt
      (fun m => flat_map (fun j => mmj_stims m (fst j) (snd j)) js) ord T = Ok (m, s) /\
    spike_log s (mm_output m) = concat (map fst ps) /\ spike_log s (mm_ready m) = concat (map snd ps) /\
    Forall2 (fun j p => mmj_says (DataEncoder tmin tcod) (3 * dt / tcod) (fst j) (fst p) (snd p)) js ps.
Proof.
  intros Hdt Htc Htm HO HT HJ. set (enc := DataEncoder tmin tcod).
  assert (HTm : tmin + tcod <> 0) by lra.
  destruct (Memory_built enc nm empty_world inv_empty (neq0 _ HTm)) as (m & w & E & HB & HN & HL).
  cbn [w_neurons empty_world length Nat.add] in HN, HL. pose proof HN as HN'. unfold mm_nodes in HN'. nodes_eqs HN'.
  pose proof (b_syn _ _ _ _ HB) as ES. cbn [w_syns empty_world app] in ES.
  assert (EQ : forall stims T, session (MemoryNetwork enc nm) mm_mod enc dt stims ord T = session (MemoryNetwork enc nm) mm_mod enc dt (fun _ => stims m) ord T).
  { intros stims T'. unfold session. rewrite E. reflexivity. }
  destruct (session_jobs (MemoryNetwork enc nm) mm_mod m w _ enc dt ord E HB ltac:(lra) HO mm_job (fun x t => mmj_stims m x t) (mmj_ok tmin tcod dt) (mmj_len tmin tcod dt)
     (fun n => n = mm_output m \/ n = mm_ready m)
     (fun x l => mmj_says enc (3 * dt / tcod) x (l (mm_output m)) (l (mm_ready m)))) with (js := js) (T := T) as (s & ls & Es & F & LG); auto.
  - intros y Hy. rewrite ES in Hy. unfold mm_syns in Hy. cbn [In] in Hy. repeat destruct Hy as [<-|Hy]; try destruct Hy; cbn [s_delay syn]; netr; autorewrite with netR; lra.
  - intros [x r|] t d; unfold exts, later; cbn [mmj_stims flat_map stim_ext app map fst snd]; [|reflexivity].
    replace (t + d + (Tmin enc + x * Tcod enc)) with (t + (Tmin enc + x * Tcod enc) + d) by lra. replace (t + d + r) with (t + r + d) by lra. reflexivity.
  - intros [x r|] t p Hx Hp; cbn [mmj_ok] in Hx; unfold exts in Hp; cbn [mmj_stims flat_map stim_ext app In enc DataEncoder Tmin Tcod] in Hp.
    + assert (0 <= x * tcod) by (apply Rmult_le_pos; lra). destruct Hp as [<-|[<-|[<-|[]]]]; cbn [snd]; lra.
    + destruct Hp as [<-|[]]. cbn [snd]. lra.
  - intros [x r|] t Hx; cbn [mmj_ok mmj_stims] in *; stims_ok.
  - intros [x r|] Hr; cbn [mmj_len mmj_ok] in *; lra.
  - intros n [->| ->]; lia.
  - intros n [x r|] t Hn; unfold exts; cbn [mmj_stims flat_map stim_ext app map fst In]; lia.
  - intros x l l' d Hl EL. rewrite (EL (mm_output m)), (EL (mm_ready m)) by auto. apply mmj_says_shift. exact Hl.
  - intros [x r|] t K Hx Ht HK; cbn [mmj_ok mmj_len mmj_says] in *.
    + destruct Hx as [Hx Hr].
      destruct (mmstore_quiet tmin tcod dt x r t K m w nm ord Hdt Htc Htm Hx Hr Ht HK HO E HB HN HL) as (HQ & s & Es & EM). fold enc in HQ, Es, EM. rewrite <- HL in HQ.
      destruct (session_rests (MemoryNetwork enc nm) mm_mod m w _ enc dt ord E HB ltac:(lra) HO (fun m => mmj_stims m (MStore x r) t) K) as (s' & Es' & RS); auto; [cbn [mmj_stims]; stims_ok|].
      rewrite Es' in Es. injection Es as <-. exists s'. rewrite EQ in Es'. auto.
    + destruct (mbare_quiet tmin tcod dt t K m w nm ord Hdt Htc Htm Ht ltac:(unfold mm_span; lra) HO E HB HN HL) as (HQ & s & Es & EM). fold enc in Es, EM. rewrite <- HL in HQ.
      destruct (session_rests (MemoryNetwork enc nm) mm_mod m w _ enc dt ord E HB ltac:(lra) HO (fun m => [SSpike (mm_recall m) t]) K) as (s' & Es' & RS); auto; [stims_ok|].
      rewrite Es' in Es. injection Es as <-. exists s'. rewrite EQ in Es'. auto.
  - exists m, s, (map (fun l => (l (mm_output m), l (mm_ready m))) ls). split; [|split; [|split]].
    + rewrite EQ. exact Es.
    + rewrite map_map. apply LG; auto.
    + rewrite map_map. apply LG; auto.
    + clear -F. induction F; cbn [map]; constructor; auto.
Qed.
