(** SynchronizerNetwork (C26), any number of channels. *)
From Coq Require Import Arith ZArith Bool List Reals Lra Lia Permutation.
From Verif Require Import Num Heapq Elements Simulator Networks Trace SimTrace SimProps TraceProps NeuronLib NetLib Build BuildNets Bridge MemoryProof Session SimpleNets GeLib InvMem FuncNets SegLib SubNet SMem.
Import ListNotations.
Open Scope R_scope.
Open Scope list_scope.

Record cell_in (N : tnet) (w : R) (sync : nat) (c : cell) : Prop := {
  li_in : ins N (mm_input (c_mem c)) [mks (c_in c) (mm_input (c_mem c)) SynV we cTsyn];
  li_mem : mem_in N w (c_mem c);
  li_rec : ins N (mm_recall (c_mem c)) [mks sync (mm_recall (c_mem c)) SynV we cTsyn];
  li_out : ins N (c_out c) [mks (mm_output (c_mem c)) (c_out c) SynV we cTsyn]
}.
Definition mem0 : memory_net := {| mm_mod := 0; mm_input := 0; mm_first := 0; mm_last := 0; mm_acc := 0; mm_acc2 := 0; mm_recall := 0; mm_ready := 0; mm_output := 0 |}.
Definition cell0 : cell := (0%nat, 0%nat, mem0).
Definition cel (cs : list cell) (i : nat) : cell := nth i cs cell0.
Lemma map_nth_seq {A B} (g : A -> B) (d : A) l : map g l = map (fun i => g (nth i l d)) (seq 0 (length l)).
Proof.
  induction l as [|a l IH]; [reflexivity|]. cbn [length seq map nth]. f_equal. rewrite <- seq_shift, map_map. exact IH.
Qed.

Lemma nth_skipn {A} (l : list A) d : forall k j, nth j (skipn k l) d = nth (k + j) l d.
Proof. induction l as [|a l IH]; intros [|k] j; cbn [skipn nth Nat.add]; auto. destruct j; reflexivity. Qed.

(** a sum over the indices below n selected by a list *)
Lemma sumf_filter (p : nat -> bool) (g : nat -> R) l : sumf (fun i => if p i then g i else 0) l = sumf g (filter p l).
Proof. induction l as [|i l IH]; [reflexivity|]. cbn [filter]. rewrite sumf_cons, IH. destruct (p i); [rewrite sumf_cons|]; lra. Qed.
Lemma sumf_select (g : nat -> R) gl n : NoDup gl -> (forall i, In i gl -> (i < n)%nat) ->
  sumf (fun i => if memb i gl then g i else 0) (seq 0 n) = sumf g gl.
Proof.
  intros ND HL. rewrite sumf_filter. apply sumf_perm. apply NoDup_Permutation; auto; [apply NoDup_filter, seq_NoDup|].
  intros i. rewrite filter_In, in_seq, memb_In. split; [tauto|]. intros H. split; auto. specialize (HL i H). lia.
Qed.

Section Sync.
Variable N : tnet.
Variables (Tmax wsy : R) (sync : nat) (cs : list cell) (gl : list nat).
Let dt := t_dt N.
Hypothesis Hdt : 0 < dt.
Hypothesis HTmax : 0 < Tmax.
Hypothesis Hsync : ins N sync (map (fun c => mks (mm_ready (c_mem c)) sync SynV wsy cTsyn) cs).
Hypothesis Hcells : forall i, (i < length cs)%nat -> cell_in N (1000 / Tmax) sync (cel cs i).
Variables a1 a2 : nat -> nat.
Let D1 := step_at dt 1.
Let D2 := step_at dt 2.
Let M := step_at dt Tmax.
Hypothesis Hng : forall i, In i gl -> (i < length cs)%nat.
Hypothesis Hnd : NoDup gl.
Hypothesis Hin : forall i, In i gl -> arrs N (c_in (cel cs i)) 1 [a1 i; a2 i].
Hypothesis Hnone : forall i, (i < length cs)%nat -> ~ In i gl -> arrs N (c_in (cel cs i)) 1 [].
Hypothesis Ha1 : forall i, In i gl -> (1 <= a1 i)%nat.
Hypothesis Ha2 : forall i, In i gl -> (a1 i + D1 <= a2 i)%nat.
Hypothesis Ha3 : forall i, In i gl -> (a2 i <= a1 i + M + 1)%nat.
Hypothesis HD : (1 < D1 /\ D1 < D2 /\ D2 <= 2 * D1)%nat.
(** step at which the ready spike of channel i reaches the sync neuron *)
Definition rdy (i : nat) : nat := (a1 i + D1 + D1 - 1 + M + D1 + D1)%nat.
Definition sync_ev : list (nat * R) := map (fun i => (rdy i, wsy)) gl.

Lemma sy_in_arrs i d : In i gl -> arrs N (mm_input (c_mem (cel cs i))) d [(a1 i + step_at dt d)%nat; (a2 i + step_at dt d)%nat].
Proof.
  intros Hi. pose proof (Hcells i (Hng i Hi)) as C. specialize (Ha1 i Hi). specialize (Ha2 i Hi).
  apply (relay_arrs N (mm_input (c_mem (cel cs i))) (c_in (cel cs i)) we cTsyn [a1 i; a2 i] d);
    [apply (li_in _ _ _ _ C)|rewrite we_R; lra|rewrite cTsyn_R; auto|cbn; lia].
Qed.
Lemma sy_ready i : In i gl -> arrs N (mm_ready (c_mem (cel cs i))) 1 [rdy i].
Proof.
  intros Hi. pose proof (Hcells i (Hng i Hi)) as C. pose proof (Ha1 i Hi). pose proof (Ha2 i Hi).
  pose proof (mem_ready N (c_mem (cel cs i)) Tmax Hdt HTmax (li_mem _ _ _ _ C) _ _ (sy_in_arrs i 1 Hi)) as R.
  fold D1 in R. specialize (R ltac:(lia) ltac:(fold dt D1; lia)). unfold F in R. fold dt D1 M in R.
  eapply arrs_1 with (D := D1) in R; [|apply (mi_ready _ _ _ (li_mem _ _ _ _ C))|reflexivity|lia].
  unfold rdy. replace (a1 i + D1 + D1 - 1 + M + D1 + D1)%nat with (a1 i + D1 + D1 - 1 + M + D1 + D1)%nat by lia. exact R.
Qed.
Lemma no_ev_silent n L : ins N n L -> (forall ty k, (1 <= k)%nat -> input N n ty k = 0) -> spikes_at N n [].
Proof.
  intros H HI k. cbn. apply (silent N n (ins_prm _ _ _ H)). intros j Hj ty. apply HI. auto.
Qed.
Lemma sy_unready i : (i < length cs)%nat -> ~ In i gl -> arrs N (mm_ready (c_mem (cel cs i))) 1 [].
Proof.
  intros Hi Hni. pose proof (Hcells i Hi) as C. pose proof (li_mem _ _ _ _ C) as Cm.
  assert (S0 : spikes_at N (mm_input (c_mem (cel cs i))) []).
  { eapply relay; [apply (li_in _ _ _ _ C)|rewrite we_R; lra|rewrite cTsyn_R; auto|cbn; auto]. }
  pose proof (arrs_0 N _ _ 1 (li_in _ _ _ _ C) S0) as A0.
  assert (S1 : spikes_at N (mm_first (c_mem (cel cs i))) []).
  { set (g := {| g_n := mm_first (c_mem (cel cs i)); g_S := []; g_L := [] |}). apply (seg_group N [g]) with (g := g); [| |left; auto].
    - intros g' [<-|[]]. cbn [g g_n g_S g_L]. split; [apply Cm|split; [eapply ins_vonly; [apply Cm|repeat constructor]|]]. segs_solve.
    - intros K HK g' [<-|[]]. cbn [g g_n g_S g_L]. ev_input (mi_first _ _ _ Cm). rewrite cTsyn_R, A0 by lia.
      rewrite (arr_upto N (mm_first (c_mem (cel cs i))) 1 [] K); auto; [ev_simpl; lra|apply (mi_first _ _ _ Cm)|intros j Hj; apply (HK g); auto; left; auto|intros j []|constructor]. }
  pose proof (arrs_0 N _ _ 1 (mi_first _ _ _ Cm) S1) as A1.
  assert (S2 : spikes_at N (mm_acc (c_mem (cel cs i))) []).
  { eapply no_ev_silent; [apply (mi_acc _ _ _ Cm)|]. intros ty k Hk. ev_input (mi_acc _ _ _ Cm).
    destruct ty; cbn [syntype_eqb]; try lra. rewrite cTsyn_R, A1 by lia. ev_simpl. lra. }
  pose proof (arrs_0 N _ _ 1 (mi_acc _ _ _ Cm) S2) as A2.
  eapply arrs_0; [apply (mi_ready _ _ _ Cm)|]. eapply relay; [apply (mi_ready _ _ _ Cm)|rewrite we_R; lra|rewrite cTsyn_R; auto|cbn; auto].
Qed.
Lemma sync_input k : (1 <= k)%nat -> input N sync SynV k = evw sync_ev k.
Proof.
  intros Hk. rewrite (ins_input _ _ _ _ _ Hsync). rewrite (map_nth_seq _ cell0). rewrite sumf_map. cbn [s_ty s_w s_pre s_delay mks syntype_eqb].
  transitivity (sumf (fun i => if memb i gl then wsy * ind k (rdy i) else 0) (seq 0 (length cs))).
  { apply sumf_ext. intros i Hi. apply in_seq in Hi. rewrite cTsyn_R. change (nth i cs cell0) with (cel cs i). destruct (memb i gl) eqn:Em.
    - apply memb_In in Em. rewrite (sy_ready i Em k Hk). rewrite cnt_cons, cnt_nil. lra.
    - apply memb_nIn in Em. rewrite (sy_unready i ltac:(lia) Em k Hk). rewrite cnt_nil. lra. }
  rewrite sumf_select by auto. unfold evw, sync_ev. rewrite sumf_map. cbn [fst snd]. reflexivity.
Qed.
(** when the threshold is not reached nothing is released *)
Lemma sync_silent i : segs sync_ev 0 [] -> (i < length cs)%nat -> spikes_at N (c_out (cel cs i)) [].
Proof.
  intros Hseg Hi. pose proof (Hcells i Hi) as C. pose proof (li_mem _ _ _ _ C) as Cm.
  assert (S0 : spikes_at N sync []).
  { apply (seg_spikes N sync sync_ev); auto; [apply Hsync| |apply sync_input].
    eapply ins_vonly; [exact Hsync|]. apply Forall_map. rewrite Forall_forall. auto. }
  pose proof (arrs_0 N _ _ 1 Hsync S0) as A0.
  assert (S1 : spikes_at N (mm_recall (c_mem (cel cs i))) []).
  { eapply relay; [apply (li_rec _ _ _ _ C)|rewrite we_R; lra|rewrite cTsyn_R; auto|cbn; auto]. }
  assert (AR : forall d, arrs N (mm_recall (c_mem (cel cs i))) d []) by (intros d; eapply arrs_0; [apply (li_rec _ _ _ _ C)|auto]).
  pose proof (mi_acc2 _ _ _ Cm) as H2.
  assert (HG : geonly N (mm_acc2 (c_mem (cel cs i)))) by (eapply ins_geonly; eauto; repeat constructor).
  assert (S2 : spikes_at N (mm_acc2 (c_mem (cel cs i))) []).
  { destruct (in_dec Nat.eq_dec i gl) as [Hg|Hg].
    - pose proof (Ha1 i Hg) as X1. pose proof (Ha2 i Hg) as X2. pose proof (Ha3 i Hg) as X3.
      pose proof (sy_in_arrs i 1 Hg) as AI. fold D1 in AI.
      assert (L1 : (1 <= a1 i + D1)%nat) by lia. assert (L2 : (a1 i + D1 + step_at (t_dt N) 1 <= a2 i + D1)%nat) by (fold dt D1; lia).
      pose proof (mem_last N (c_mem (cel cs i)) Tmax Cm _ _ AI L1 L2) as SL.
      pose proof (mem_acc N (c_mem (cel cs i)) Tmax Hdt HTmax Cm _ _ AI L1 L2) as SA.
      unfold F in SA. fold dt D1 M in SA.
      pose proof (step_at_ge1 dt Tmax) as GM. fold M in GM.
      set (b := (a2 i + D1 + D2)%nat). set (e := (a1 i + D1 + D1 - 1 + M + D1)%nat).
      apply (geonly_never N _ [(b, 1000 / Tmax); (e, - (1000 / Tmax))]); auto.
      + apply H2.
      + intros p [<-|[<-|[]]]; cbn [fst]; unfold b, e; lia.
      + intros k Hk. ev_input H2. rewrite (arrs_1 N _ _ _ D2 (a2 i + D1) (mi_last _ _ _ Cm) SL), (arrs_1 N _ _ _ D1 _ (mi_acc _ _ _ Cm) SA), AR; auto; try lia;
          try (autorewrite with netR; rewrite ?Rmult_1_r; reflexivity). netr. ev_simpl. fold b e. lra.
      + intros k Hk. fold dt. rewrite !vlin_cons, vlin_nil.
        replace (1000 / Tmax * INR (S k - b) + (- (1000 / Tmax) * INR (S k - e) + 0)) with (1000 / Tmax * IZR (Z.of_nat (S k - b) - Z.of_nat (S k - e)))
          by (rewrite minus_IZR, <- !INR_IZR_INZ; ring).
        apply unit_lt; auto. fold M. unfold b, e. lia.
    - pose proof (sy_unready i Hi Hg) as _.
      assert (S0' : spikes_at N (mm_input (c_mem (cel cs i))) []).
      { eapply relay; [apply (li_in _ _ _ _ C)|rewrite we_R; lra|rewrite cTsyn_R; auto|cbn; auto]. }
      pose proof (arrs_0 N _ _ 1 (li_in _ _ _ _ C) S0') as A1.
      assert (SL : spikes_at N (mm_last (c_mem (cel cs i))) []).
      { apply (seg_spikes N _ []); [apply Cm|eapply ins_vonly; [apply Cm|repeat constructor]|segs_solve|].
        intros k Hk. ev_input (mi_last _ _ _ Cm). rewrite cTsyn_R, A1 by auto. ev_simpl. lra. }
      assert (SF : spikes_at N (mm_first (c_mem (cel cs i))) []).
      { set (g := {| g_n := mm_first (c_mem (cel cs i)); g_S := []; g_L := [] |}). apply (seg_group N [g]) with (g := g); [| |left; auto].
        - intros g' [<-|[]]. cbn [g g_n g_S g_L]. split; [apply Cm|split; [eapply ins_vonly; [apply Cm|repeat constructor]|]]. segs_solve.
        - intros K HK g' [<-|[]]. cbn [g g_n g_S g_L]. ev_input (mi_first _ _ _ Cm). rewrite cTsyn_R, A1 by lia.
          rewrite (arr_upto N (mm_first (c_mem (cel cs i))) 1 [] K); auto; [ev_simpl; lra|apply (mi_first _ _ _ Cm)|intros j Hj; apply (HK g); auto; left; auto|intros j []|constructor]. }
      pose proof (arrs_0 N _ _ 1 (mi_first _ _ _ Cm) SF) as A2.
      assert (SA : spikes_at N (mm_acc (c_mem (cel cs i))) []).
      { eapply no_ev_silent; [apply (mi_acc _ _ _ Cm)|]. intros ty k Hk. ev_input (mi_acc _ _ _ Cm).
        destruct ty; cbn [syntype_eqb]; try lra. rewrite cTsyn_R, A2 by lia. ev_simpl. lra. }
      eapply no_ev_silent; [apply H2|]. intros ty k Hk. ev_input H2. destruct ty; cbn [syntype_eqb]; try lra.
      rewrite (arrs_0 N _ _ _ (mi_last _ _ _ Cm) SL), (arrs_0 N _ _ _ (mi_acc _ _ _ Cm) SA), AR by lia. ev_simpl. lra. }
  assert (S3 : spikes_at N (mm_output (c_mem (cel cs i))) []).
  { pose proof (mi_output _ _ _ Cm) as H3. apply (seg_spikes N _ []); [apply H3|eapply ins_vonly; [apply H3|repeat constructor]|segs_solve|].
    intros k Hk. ev_input H3. rewrite AR, (arrs_0 N _ _ _ H2 S2) by auto. ev_simpl. lra. }
  eapply relay; [apply (li_out _ _ _ _ C)|rewrite we_R; lra| |cbn; auto]. eapply arrs_0; [apply (mi_output _ _ _ Cm)|auto].
Qed.

Variable f : nat.
Hypothesis Hf : segs sync_ev 0 [f].
Hypothesis Hfi : forall i, In i gl -> (rdy i <= f)%nat.
Lemma sync_spk : spikes_at N sync [f].
Proof.
  apply (seg_spikes N sync sync_ev); auto; [apply Hsync| |apply sync_input].
  eapply ins_vonly; [exact Hsync|]. apply Forall_map. rewrite Forall_forall. auto.
Qed.
Lemma sync_out i : In i gl -> spikes_at N (c_out (cel cs i)) [(f + D1 + D2 + D1)%nat; (f + D1 + D2 + (a2 i - a1 i) + D1)%nat].
Proof.
  intros Hi. pose proof (Hcells i (Hng i Hi)) as C. pose proof (li_mem _ _ _ _ C) as Cm.
  pose proof (Ha1 i Hi) as X1. pose proof (Ha2 i Hi) as X2. pose proof (Ha3 i Hi) as X3. pose proof (Hfi i Hi) as X4. unfold rdy in X4.
  assert (HR : forall d, arrs N (mm_recall (c_mem (cel cs i))) d [(f + D1 + step_at dt d)%nat]).
  { intros d. assert (S1 : spikes_at N (mm_recall (c_mem (cel cs i))) [(f + D1)%nat]).
    { eapply relay; [apply (li_rec _ _ _ _ C)|rewrite we_R; lra| |cbn; lia]. rewrite cTsyn_R.
      eapply arrs_1; [exact Hsync|apply sync_spk|reflexivity|lia]. }
    eapply arrs_1; [apply (li_rec _ _ _ _ C)|exact S1|reflexivity|lia]. }
  pose proof (step_at_ge1 dt Tmax) as GM. fold M in GM.
  pose proof (mem_output N (c_mem (cel cs i)) Tmax Hdt HTmax Cm _ _ (sy_in_arrs i 1 Hi)) as HO. fold D1 in HO.
  specialize (HO ltac:(lia) ltac:(fold dt D1; lia) _ _ (HR 1) (HR 2)).
  fold dt D1 D2 in HO. unfold F in HO. fold dt D1 M in HO.
  specialize (HO ltac:(lia) ltac:(lia) ltac:(lia) ltac:(lia)).
  replace (f + D1 + D1 + D2 - D1 + (a2 i + D1 - (a1 i + D1)))%nat with (f + D1 + D2 + (a2 i - a1 i))%nat in HO by lia.
  eapply relay; [apply (li_out _ _ _ _ C)|rewrite we_R; lra| |cbn; lia]. rewrite cTsyn_R.
  eapply arrs_2; [apply (mi_output _ _ _ Cm)|exact HO|reflexivity|lia|lia|lia].
Qed.
End Sync.

(** *** from the synapse lists *)
Lemma cells_at_nth cs : forall b i, cells_at b cs -> (i < length cs)%nat ->
  c_in (cel cs i) = (b + 10 * i)%nat /\ c_out (cel cs i) = S (b + 10 * i) /\ mm_nodes (c_mem (cel cs i)) = seq (2 + (b + 10 * i)) 8.
Proof.
  induction cs as [|c cs IH]; intros b i H Hi; [cbn in Hi; lia|]. destruct H as (H1 & H2 & H3 & H4). destruct i as [|i].
  - rewrite Nat.mul_0_r, Nat.add_0_r. auto.
  - cbn in Hi. specialize (IH (10 + b)%nat i H4 ltac:(lia)). replace (b + 10 * S i)%nat with (10 + b + 10 * i)%nat by lia. exact IH.
Qed.
Lemma cell_posts enc K sync c b y : c_in c = b -> c_out c = S b -> mm_nodes (c_mem c) = seq (2 + b) 8 ->
  In y (cell_syns (T := R) enc K sync c) -> s_post y = sync \/ (b < s_post y < b + 10)%nat.
Proof.
  intros H1 H2 H3 Hy. unfold mm_nodes in H3. cbn [seq Nat.add] in H3. injection H3; intros.
  unfold cell_syns, mm_syns in Hy. cbn [app In] in Hy.
  repeat (destruct Hy as [<-|Hy]; [cbn [s_post syn]; first [right; lia | left; reflexivity]|]). destruct Hy.
Qed.
Lemma own_middle N (g : cell -> list (synapse R)) cs i n : (i < length cs)%nat -> own N (flat_map g cs) n ->
  (forall j y, (j < length cs)%nat -> j <> i -> In y (g (cel cs j)) -> s_post y <> n) -> own N (g (cel cs i)) n.
Proof.
  intros Hi HO HN.
  assert (E : flat_map g cs = flat_map g (firstn i cs) ++ g (cel cs i) ++ flat_map g (skipn (S i) cs)).
  { rewrite <- (firstn_skipn i cs) at 1. rewrite flat_map_app. f_equal.
    assert (skipn i cs = cel cs i :: skipn (S i) cs) as ->; [|reflexivity].
    unfold cel. clear - Hi. revert i Hi. induction cs as [|c cs IH]; intros i Hi; [cbn in Hi; lia|]. destruct i; [reflexivity|]. cbn [skipn nth]. apply IH. cbn in Hi. lia. }
  rewrite E in HO. apply own_app_r in HO.
  - apply own_app_l in HO; auto. intros y Hy. apply in_flat_map in Hy as (c & Hc & Hy).
    apply (In_nth _ _ cell0) in Hc as (j & Hj & <-). rewrite skipn_length in Hj. rewrite nth_skipn in Hy.
    apply (HN (S i + j)%nat); auto; lia.
  - intros y Hy. apply in_flat_map in Hy as (c & Hc & Hy).
    apply (In_nth _ _ cell0) in Hc as (j & Hj & <-). rewrite firstn_length in Hj.
    assert (Ej : nth j (firstn i cs) cell0 = cel cs j).
    { unfold cel. rewrite <- (firstn_skipn i cs) at 2. rewrite app_nth1; auto. rewrite firstn_length; lia. }
    rewrite Ej in Hy. apply (HN j); auto; lia.
Qed.
Definition c_internal (c : cell) := c_out c :: mm_nodes (c_mem c).
Lemma cell_in_of N enc K sync c b : c_in c = b -> c_out c = S b -> mm_nodes (c_mem c) = seq (2 + b) 8 -> (sync < b)%nat ->
  (forall n, In n (c_internal c) -> own N (cell_syns enc K sync c) n) -> cell_in N (wacc_of enc) sync c.
Proof.
  intros H1 H2 H3 Hs HO. unfold c_internal in HO. unfold mm_nodes in H3, HO. cbn [seq Nat.add] in H3. injection H3; intros.
  unfold cell_syns in HO. cbn [app] in HO.
  assert (HMm : mem_in N (wacc_of enc) (c_mem c)) by (constructor; own_solve HO).
  constructor; auto; own_solve HO.
Qed.
Lemma sync_filter enc K sync cs : forall b, cells_at b cs -> (sync < b)%nat ->
  filter (fun y => (s_post y =? sync)%nat) (flat_map (cell_syns (T := R) enc K sync) cs) =
  map (fun c => mks (mm_ready (c_mem c)) sync SynV (sync_w K) cTsyn) cs.
Proof.
  induction cs as [|c cs IH]; intros b HC Hs; [reflexivity|]. destruct HC as (H1 & H2 & H3 & H4).
  cbn [flat_map map]. rewrite filter_app, (IH (10 + b)%nat) by (auto; lia).
  unfold mm_nodes in H3. cbn [seq Nat.add] in H3. injection H3; intros.
  assert (E : filter (fun y => (s_post y =? sync)%nat) (cell_syns enc K sync c) = [mks (mm_ready (c_mem c)) sync SynV (sync_w K) cTsyn]).
  { unfold cell_syns, mm_syns. cbn [app]. filt. reflexivity. }
  rewrite E. reflexivity.
Qed.
(** all the wiring of a synchronizer of K cells placed anywhere *)
Lemma sy_ins_of N enc K sync cs b : cells_at b cs -> (sync < b)%nat ->
  own N (flat_map (cell_syns enc K sync) cs) sync ->
  (forall i n, (i < length cs)%nat -> In n (c_internal (cel cs i)) -> own N (flat_map (cell_syns enc K sync) cs) n) ->
  ins N sync (map (fun c => mks (mm_ready (c_mem c)) sync SynV (sync_w K) cTsyn) cs) /\
  (forall i, (i < length cs)%nat -> cell_in N (wacc_of enc) sync (cel cs i)).
Proof.
  intros HC Hs HO1 HO2. split.
  - eapply own_ins; eauto. eapply sync_filter; eauto.
  - intros i Hi. destruct (cells_at_nth cs b i HC Hi) as (E1 & E2 & E3).
    apply (cell_in_of N enc K sync (cel cs i) (b + 10 * i)); auto; [lia|].
    intros n Hn. apply own_middle; auto.
    + apply (HO2 i); auto.
    + intros j y Hj Hji Hy. destruct (cells_at_nth cs b j HC Hj) as (F1 & F2 & F3).
      assert (Hr : (b + 10 * i < n < b + 10 * i + 10)%nat).
      { unfold c_internal in Hn. rewrite E2, E3 in Hn. destruct Hn as [<-|Hn]; [lia|]. apply in_seq in Hn. lia. }
      destruct (cell_posts enc K sync _ _ y F1 F2 F3 Hy); lia.
Qed.

(** *** stimuli indexed by channel *)
Lemma exts_values enc (g : nat -> R) (nin : nat -> nat) (t : nat -> R) l n :
  ext_spikes (exts enc (map (fun i => SValue (g i) (nin i) (t i)) l)) n =
  flat_map (fun i => if (nin i =? n)%nat then [t i; t i + (Tmin enc + g i * Tcod enc)] else []) l.
Proof.
  unfold ext_spikes, exts. induction l as [|i l IH]; [reflexivity|]. cbn [map flat_map stim_ext app filter fst].
  destruct (nin i =? n)%nat; cbn [map snd app]; rewrite IH; reflexivity.
Qed.
Lemma flat_one {B} (P : nat -> bool) (h : nat -> list B) l j : NoDup l -> In j l -> (forall i, In i l -> P i = true <-> i = j) ->
  flat_map (fun i => if P i then h i else []) l = h j.
Proof.
  intros ND Hj HP. apply in_split in Hj as (l1 & l2 & ->). rewrite flat_map_app. cbn [flat_map].
  rewrite (proj2 (HP j ltac:(apply in_or_app; right; left; auto)) eq_refl). apply NoDup_remove_2 in ND.
  assert (Z : forall l, (forall i, In i l -> In i (l1 ++ j :: l2) /\ i <> j) -> flat_map (fun i => if P i then h i else []) l = []).
  { induction l as [|i l IH]; intros Hl; [reflexivity|]. cbn [flat_map]. rewrite IH by (intros; apply Hl; right; auto).
    destruct (Hl i (or_introl eq_refl)) as [H1 H2]. destruct (P i) eqn:E; auto. apply HP in E; auto. congruence. }
  rewrite (Z l1), (Z l2); [apply app_nil_r| |].
  - intros i Hi. split; [apply in_or_app; right; right; auto|intros ->; apply ND, in_or_app; auto].
  - intros i Hi. split; [apply in_or_app; left; auto|intros ->; apply ND, in_or_app; auto].
Qed.
Lemma flat_none {B} (P : nat -> bool) (h : nat -> list B) l : (forall i, In i l -> P i = false) -> flat_map (fun i => if P i then h i else []) l = [].
Proof. induction l as [|i l IH]; intros H; [reflexivity|]. cbn [flat_map]. rewrite (H i), IH; auto; intros; [apply H; right; auto|left; auto]. Qed.

(** *** one weight w per channel *)
Lemma vsum_each_le (g : nat -> nat) w l a k : 0 <= w -> 0 <= vsum (map (fun i => (g i, w)) l) a k <= INR (length l) * w.
Proof.
  intros Hw. induction l as [|i l IH]; [cbn [map length INR]; rewrite vsum_nil; lra|]. cbn [map length]. rewrite vsum_cons, S_INR.
  destruct ((a <? g i)%nat && (g i <=? k)%nat); lra.
Qed.
Lemma vsum_each_miss (g : nat -> nat) w l a k : 0 <= w -> (exists i, In i l /\ (k < g i)%nat) -> vsum (map (fun i => (g i, w)) l) a k <= INR (length l - 1) * w.
Proof.
  intros Hw (i & Hi & Hk). induction l as [|j l IH]; [destruct Hi|]. cbn [map]. rewrite vsum_cons.
  cbn [length]. replace (S (length l) - 1)%nat with (length l) by lia.
  destruct Hi as [->|Hi].
  - rewrite (proj2 (Nat.leb_gt _ _)) by lia. rewrite andb_false_r. pose proof (vsum_each_le g w l a k Hw). lra.
  - specialize (IH Hi). assert (1 <= length l)%nat by (destruct l; [destruct Hi|cbn; lia]). rewrite minus_INR in IH by lia. cbn [INR] in IH.
    destruct ((a <? g j)%nat && (g j <=? k)%nat); lra.
Qed.
Lemma vsum_each_all (g : nat -> nat) w l k : (forall i, In i l -> (0 < g i <= k)%nat) -> vsum (map (fun i => (g i, w)) l) 0 k = INR (length l) * w.
Proof.
  induction l as [|i l IH]; intros H; [cbn [map length INR]; rewrite vsum_nil; lra|]. cbn [map length]. rewrite vsum_cons, S_INR, IH by (intros; apply H; right; auto).
  destruct (H i (or_introl eq_refl)). rewrite (proj2 (Nat.ltb_lt _ _)), (proj2 (Nat.leb_le _ _)) by lia. cbn [andb]. lra.
Qed.
Lemma vsum_each_none (g : nat -> nat) w l a k : (forall i, In i l -> (g i <= a)%nat) -> vsum (map (fun i => (g i, w)) l) a k = 0.
Proof.
  induction l as [|i l IH]; intros H; [reflexivity|]. cbn [map]. rewrite vsum_cons, IH by (intros; apply H; right; auto).
  rewrite (proj2 (Nat.ltb_ge _ _)) by (apply H; left; auto). cbn [andb]. lra.
Qed.
Lemma max_index (g : nat -> nat) K : (1 <= K)%nat -> exists f, (forall i, (i < K)%nat -> (g i <= f)%nat) /\ exists i, (i < K)%nat /\ g i = f.
Proof.
  induction K as [|K IH]; intros HK; [lia|]. destruct (Nat.eq_dec K 0) as [->|].
  - exists (g 0%nat). split; [intros i Hi; replace i with 0%nat by lia; auto|exists 0%nat; auto].
  - destruct (IH ltac:(lia)) as (f & H1 & i & H2 & H3). destruct (Nat.le_gt_cases (g K) f).
    + exists f. split; [intros j Hj; destruct (Nat.eq_dec j K) as [->|]; auto; apply H1; lia|exists i; auto].
    + exists (g K). split; [intros j Hj; destruct (Nat.eq_dec j K) as [->|]; auto; specialize (H1 j ltac:(lia)); lia|exists K; auto].
Qed.
(** all K channels are needed when (K-1) w < 10 <= K w *)
Lemma all_needed (g : nat -> nat) w K f : 0 <= w -> (1 <= K)%nat -> INR (K - 1) * w < 10 -> 10 <= INR K * w ->
  (forall i, (i < K)%nat -> (0 < g i <= f)%nat) -> (exists i, (i < K)%nat /\ g i = f) ->
  segs (map (fun i => (g i, w)) (seq 0 K)) 0 [f].
Proof.
  intros Hw HK H1 H2 H3 (i & Hi & Ei). cbn [segs]. split; [specialize (H3 i Hi); lia|]. split; [|split].
  - intros k Hk. eapply Rle_lt_trans; [apply vsum_each_miss; auto|rewrite seq_length; auto].
    exists i. split; [apply in_seq; lia|lia].
  - rewrite vsum_each_all, seq_length; auto. intros j Hj. apply in_seq in Hj. apply H3. lia.
  - intros k Hk. rewrite vsum_each_none; [lra|]. intros j Hj. apply in_seq in Hj. apply H3. lia.
Qed.
(** simultaneous events *)
Lemma all_at_once (g : nat -> nat) w K f : (1 <= K)%nat -> 10 <= INR K * w -> (0 < f)%nat -> (forall i, (i < K)%nat -> g i = f) ->
  segs (map (fun i => (g i, w)) (seq 0 K)) 0 [f].
Proof.
  intros HK H2 Hf H3. cbn [segs]. split; auto. split; [|split].
  - intros k Hk. assert (E : vsum (map (fun i => (g i, w)) (seq 0 K)) 0 k = 0).
    { rewrite (map_ext_in _ (fun i => (f, w))) by (intros i Hi; apply in_seq in Hi; rewrite H3 by lia; auto).
      generalize (seq 0 K). induction l as [|i l IH]; [reflexivity|]. cbn [map]. rewrite vsum_cons, IH, (proj2 (Nat.leb_gt _ _)) by lia. rewrite andb_false_r. lra. }
    lra.
  - rewrite vsum_each_all, seq_length; auto. intros j Hj. apply in_seq in Hj. rewrite H3; lia.
  - intros k Hk. rewrite vsum_each_none; [lra|]. intros j Hj. apply in_seq in Hj. rewrite H3; lia.
Qed.

Lemma sync_w_R K : sync_w (T := R) K = 10 / INR K + / 10000.
Proof. unfold sync_w. rewrite we_R. unfold nlit. cbn [nadd ndiv nofZ R_num]. rewrite <- INR_IZR_INZ. cbn. lra. Qed.
Section SyncRun.
Variables tmin tcod dt T tl : R.
Variables x t : nat -> R.
Variable K : nat.
Variable gl : list nat.
Variable nm : option String.string.
Variable ord : nat -> list nat -> list nat.
Hypothesis Hdt : 0 < dt <= 1 / 2.
Hypothesis Htc : 0 < tcod.
Hypothesis Htm : 1 + dt <= tmin.
Hypothesis Hx : forall i, In i gl -> 0 <= x i <= 1.
Hypothesis Ht : forall i, In i gl -> 0 <= t i <= tl.
Hypothesis HO : ord_ok ord.
Hypothesis Hng : forall i, In i gl -> (i < K)%nat.
Hypothesis Hnd : NoDup gl.
Hypothesis Hne : gl <> [].
Let enc := DataEncoder tmin tcod.
Let stims := fun m => map (fun i => SValue (x i) (nth i (sy_inputs m) 0%nat) (t i)) gl.
Let a1 := fun i => step_at dt (t i + 1).
Let a2 := fun i => step_at dt (t i + 1 + (tmin + x i * tcod)).
Let D1 := step_at dt 1.
Let D2 := step_at dt 2.
Let M := step_at dt (tmin + tcod).
Let rd := fun i => (a1 i + D1 + D1 - 1 + M + D1 + D1)%nat.
Hypothesis HT : tl + 2 * (tmin + tcod) + 10 + 12 * dt <= T.

Lemma sync_session : exists m s, session (SynchronizerNetwork enc K nm) sy_mod enc dt stims ord T = Ok (m, s) /\
  (segs (map (fun i => (rd i, sync_w K)) gl) 0 [] -> forall i, (i < K)%nat -> spike_log s (nth i (sy_outputs m) 0%nat) = []) /\
  forall f, segs (map (fun i => (rd i, sync_w K)) gl) 0 [f] -> (forall i, In i gl -> (rd i <= f)%nat) -> (exists i, In i gl /\ rd i = f) ->
  (forall i, In i gl -> t i + (tmin + tcod) + 8 - dt <= INR (f + D1 + D2 + D1) * dt) /\
  forall i, In i gl ->
    spike_log s (nth i (sy_outputs m) 0%nat) = times dt [(f + D1 + D2 + D1)%nat; (f + D1 + D2 + (a2 i - a1 i) + D1)%nat] /\
    emits s (nth i (sy_outputs m) 0%nat) enc (x i) (dt / tcod) /\
    (forall q, tmin + x i * tcod = INR q * dt -> emits s (nth i (sy_outputs m) 0%nat) enc (x i) 0).
Proof.
  destruct Hdt as [Hdt0 Hdt2]. assert (HTm : tmin + tcod <> 0) by lra.
  destruct (Synchronizer_built enc K nm empty_world inv_empty (neq0 _ HTm)) as (m & w & E & HB & Hs & HC & HK & Hi & Ho & _ & HL).
  cbn [w_neurons empty_world length Nat.add] in Hs, HC, HL.
  assert (Hni : forall i, (i < K)%nat -> nth i (sy_inputs m) 0%nat = (1 + 10 * i)%nat).
  { intros i Hik. rewrite Hi. change 0%nat with (c_in cell0). rewrite map_nth. apply (cells_at_nth _ _ i HC). lia. }
  assert (Hno : forall i, (i < K)%nat -> nth i (sy_outputs m) 0%nat = (2 + 10 * i)%nat /\ c_out (cel (sy_cells m) i) = (2 + 10 * i)%nat).
  { intros i Hik. rewrite Ho. change 0%nat with (c_out cell0) at 1. rewrite map_nth. split; apply (cells_at_nth _ _ i HC); lia. }
  assert (ESt : stims m = map (fun i => SValue (x i) (1 + 10 * i) (t i)) gl).
  { unfold stims. apply map_ext_in. intros i Hii. rewrite Hni by auto. auto. }
  assert (EX : forall n, ext_spikes (exts enc (stims m)) n = flat_map (fun i => if (1 + 10 * i =? n)%nat then [t i; t i + (tmin + x i * tcod)] else []) gl).
  { intros n. rewrite ESt. rewrite (exts_values enc x (fun i => (1 + 10 * i)%nat) t). reflexivity. }
  destruct (session_built (SynchronizerNetwork enc K nm) sy_mod m w _ enc dt stims ord T E HB Hdt0) as (s & Es & HSe); auto.
  { destruct gl as [|i0 gl']; [congruence|]. destruct (Ht i0 (or_introl eq_refl)). lra. }
  { rewrite ESt. apply Forall_map. rewrite Forall_forall. intros i Hii. cbn [stim_ok]. pose proof (Hng i Hii). split; [apply Hx; auto|lia]. }
  exists m, s. split; [exact Es|].
  set (N := net_of w (exts enc (stims m)) dt) in *.
  assert (Hc : forall i, In i gl -> 0 <= x i * tcod <= tcod).
  { intros i Hii. destruct (Hx i Hii). split; [apply Rmult_le_pos; lra|rewrite <- (Rmult_1_l tcod) at 2; apply Rmult_le_compat_r; lra]. }
  assert (HX0 : forall n, (n mod 10 <> 1)%nat -> ext_spikes (exts enc (stims m)) n = []).
  { intros n Hn. rewrite EX. apply flat_none. intros i _. apply Nat.eqb_neq. intros <-. apply Hn. rewrite Nat.mul_comm, Nat.mod_add by lia. reflexivity. }
  assert (HX1 : forall i, ~ In i gl -> ext_spikes (exts enc (stims m)) (1 + 10 * i) = []).
  { intros i Hii. rewrite EX. apply flat_none. intros j Hj. apply Nat.eqb_neq. intros Eij. apply Hii. replace i with j by lia. auto. }
  assert (HX2 : forall i, In i gl -> ext_spikes (exts enc (stims m)) (1 + 10 * i) = [t i; t i + (tmin + x i * tcod)]).
  { intros i Hii. rewrite EX. apply (flat_one (fun j => (1 + 10 * j =? 1 + 10 * i)%nat) (fun j => [t j; t j + (tmin + x j * tcod)]) gl i); auto.
    intros j Hj. rewrite Nat.eqb_eq. lia. }
  assert (HF0 : forall i, (i < K)%nat -> filter (fun y => (s_post y =? 1 + 10 * i)%nat) (sy_syns enc K m) = []).
  { intros i Hii. apply filter_post_out. intros y Hy. unfold sy_syns in Hy. apply in_flat_map in Hy as (c & Hcc & Hy).
    apply (In_nth _ _ cell0) in Hcc as (j & Hj & <-). destruct (cells_at_nth _ _ j HC Hj) as (F1 & F2 & F3).
    destruct (cell_posts enc K (sy_sync m) _ _ y F1 F2 F3 Hy); lia. }
  assert (HMod : forall i c, (1 <= c < 10)%nat -> ((1 + 10 * i + c) mod 10 <> 1)%nat).
  { intros i c Hcc. replace (1 + 10 * i + c)%nat with (1 + c + i * 10)%nat by lia. rewrite Nat.mod_add by lia.
    destruct (Nat.eq_dec c 9) as [->|]; [cbn; lia|]. rewrite Nat.mod_small by lia. lia. }
  destruct (sy_ins_of N enc K (sy_sync m) (sy_cells m) 1 HC ltac:(lia)) as [HI1 HI2].
  { apply (se_own _ _ _ _ _ _ _ _ HSe); [lia|]. apply HX0. rewrite Hs. cbn. lia. }
  { intros i n Hii Hn. rewrite HK in Hii. destruct (cells_at_nth _ _ i HC ltac:(lia)) as (F1 & F2 & F3).
    assert (Hr : exists c, (1 <= c < 10)%nat /\ n = (1 + 10 * i + c)%nat).
    { exists (n - (1 + 10 * i))%nat. unfold c_internal in Hn. rewrite F2, F3 in Hn. destruct Hn as [<-|Hn]; [lia|]. apply in_seq in Hn. lia. }
    destruct Hr as (c & Hcc & ->). apply (se_own _ _ _ _ _ _ _ _ HSe); [lia|]. apply HX0. auto. }
  assert (HA : forall i, In i gl -> arrs N (c_in (cel (sy_cells m) i)) 1 [a1 i; a2 i]).
  { intros i Hii. pose proof (Hng i Hii). destruct (cells_at_nth _ _ i HC ltac:(lia)) as (F1 & _ & _). rewrite F1.
    eapply (se_arrs _ _ _ _ _ _ _ _ HSe); [lia|apply HF0; lia|apply HX2; auto|]. cbn [map]. unfold a1, a2. do 3 f_equal. lra. }
  assert (HA0 : forall i, (i < length (sy_cells m))%nat -> ~ In i gl -> arrs N (c_in (cel (sy_cells m) i)) 1 []).
  { intros i Hii Hgi. destruct (cells_at_nth _ _ i HC ltac:(lia)) as (F1 & _ & _). rewrite F1.
    eapply (se_arrs _ _ _ _ _ _ _ _ HSe); [lia|apply HF0; lia|apply HX1; auto|reflexivity]. }
  pose proof (step_at_bounds dt 1 Hdt0 ltac:(lra)) as BD1. pose proof (step_at_bounds dt 2 Hdt0 ltac:(lra)) as BD2.
  pose proof (step_at_bounds dt (tmin + tcod) Hdt0 ltac:(lra)) as BM. pose proof (step_at_ge1 dt (tmin + tcod)) as GM.
  fold D1 in BD1. fold D2 in BD2. fold M in BM, GM.
  assert (HDD : (1 < D1 /\ D1 < D2 /\ D2 <= 2 * D1)%nat).
  { split; [nat_lt dt Hdt0; lra|]. split; [nat_lt dt Hdt0; lra|]. assert (D2 < 2 * D1 + 1)%nat; [|lia]. nat_lt dt Hdt0. lra. }
  assert (HQ : forall i, In i gl -> (1 <= a1 i)%nat /\ (a1 i + D1 <= a2 i)%nat /\ (a2 i <= a1 i + M + 1)%nat /\
     Rabs (INR (a2 i) * dt - INR (a1 i) * dt - (tmin + x i * tcod)) < dt /\ t i + 1 <= INR (a1 i) * dt < t i + 1 + dt).
  { intros i Hii. destruct (Ht i Hii) as [Ht1 Ht2]. destruct (Hc i Hii) as [Hc1 Hc2].
    destruct (step_diff dt (t i + 1) (tmin + x i * tcod) Hdt0 ltac:(lra) ltac:(lra)) as (Q1 & Q2 & _).
    pose proof (step_at_bounds dt (t i + 1) Hdt0 ltac:(lra)) as BA. fold (a1 i) in Q1, Q2, BA. fold (a2 i) in Q1, Q2.
    split; [apply step_at_ge1|]. split; [|split; [|split]]; [| |exact Q2|lra].
    - unfold a1, a2, D1. apply step_diff_ge; try lra; try apply step_at_ge1. fold D1. lra.
    - assert (a2 i < a1 i + M + 2)%nat; [|lia]. apply Rabs_def2 in Q2. nat_lt dt Hdt0. lra. }
  unfold enc in HI2. rewrite wacc_R in HI2. fold enc in HI2.
  assert (HgK : forall i, In i gl -> (i < length (sy_cells m))%nat) by (intros i Hii; rewrite HK; auto).
  split.
  { intros Hseg i Hii. destruct (Hno i Hii) as [En Ec].
    pose proof (sync_silent N (tmin + tcod) (sync_w K) (sy_sync m) (sy_cells m) gl Hdt0 ltac:(lra) HI1 HI2 a1 a2 HgK Hnd HA HA0
      (fun i Hii => proj1 (HQ i Hii)) (fun i Hii => proj1 (proj2 (HQ i Hii))) (fun i Hii => proj1 (proj2 (proj2 (HQ i Hii)))) HDD i Hseg ltac:(lia)) as HS.
    rewrite Ec, <- En in HS. rewrite En in *.
    apply (se_log _ _ _ _ _ _ _ _ HSe _ []); auto; [lia| |cbn; auto|intros j []].
    apply HX0. replace (2 + 10 * i)%nat with (1 + 10 * i + 1)%nat by lia. apply HMod. lia. }
  intros f Hseg Hfi Hfj.
  assert (EF : tl + 1 + dt + (tmin + tcod) + dt + 4 * (1 + dt) - dt >= INR f * dt).
  { destruct Hfj as (i & Hii & <-). destruct (HQ i Hii) as (_ & _ & _ & _ & Z). destruct (Ht i Hii). unfold rd. inr. lra. }
  split.
  { intros i Hii. destruct (HQ i Hii) as (_ & _ & _ & _ & Z).
    specialize (Hfi i Hii). apply le_INR in Hfi. apply Rmult_le_compat_r with (r := dt) in Hfi; [|lra].
    unfold rd in Hfi. rewrite !plus_INR, minus_INR, !plus_INR in Hfi by lia. cbn [INR] in Hfi. inr. lra. }
  intros i Hii. destruct (HQ i Hii) as (Z1 & Z2 & Z3 & Z4 & Z5).
  pose proof (Hng i Hii) as HiK. destruct (Hno i HiK) as [En Ec]. destruct (Hc i Hii) as [Hc1 Hc2].
  pose proof (sync_out N (tmin + tcod) (sync_w K) (sy_sync m) (sy_cells m) gl Hdt0 ltac:(lra) HI1 HI2 a1 a2 HgK Hnd HA HA0
    (fun i Hii => proj1 (HQ i Hii)) (fun i Hii => proj1 (proj2 (HQ i Hii))) (fun i Hii => proj1 (proj2 (proj2 (HQ i Hii)))) HDD f Hseg Hfi i Hii) as HS.
  cbn [N net_of t_dt] in HS. fold N D1 D2 in HS. rewrite Ec, <- En in HS. rewrite En in *.
  set (o1 := (f + D1 + D2 + D1)%nat) in *. set (o2 := (f + D1 + D2 + (a2 i - a1 i) + D1)%nat) in *.
  assert (EI : INR o2 * dt - INR o1 * dt = INR (a2 i) * dt - INR (a1 i) * dt) by (unfold o1, o2; inr; lra).
  assert (HLg : spike_log s (2 + 10 * i) = times dt [o1; o2]).
  { apply (se_log _ _ _ _ _ _ _ _ HSe); auto; [lia| |cbn; unfold o1, o2; lia|].
    - apply HX0. replace (2 + 10 * i)%nat with (1 + 10 * i + 1)%nat by lia. apply HMod. lia.
    - apply Rabs_def2 in Z4. assert (INR o1 * dt <= tl + (tmin + tcod) + 9 + 9 * dt) by (unfold o1; inr; lra). intros j [<-|[<-|[]]]; lra. }
  assert (Ho12 : (o1 < o2)%nat) by (unfold o1, o2; lia).
  split; [exact HLg|]. split.
  - eapply (emits_intro _ _ _ _ dt o1 o2); auto. rewrite EI. replace (dt / tcod * tcod) with dt by (field; lra). lra.
  - intros q Eq. eapply (emits_exact _ _ _ _ dt o1 o2); eauto. rewrite EI. destruct (Ht i Hii). apply (grid_diff dt (t i + 1) _ q); auto. lra.
Qed.
End SyncRun.

Theorem synchronizer_run (tmin tcod dt tl T : R) (K : nat) (x t : nat -> R) nm ord :
  0 < dt <= 1 / 2 -> 0 < tcod -> 1 + dt <= tmin -> (1 <= K <= 316)%nat ->
  (forall i, (i < K)%nat -> 0 <= x i <= 1 /\ 0 <= t i <= tl) -> ord_ok ord ->
  tl + 2 * (tmin + tcod) + 10 + 12 * dt <= T ->
  exists m s,
    session (SynchronizerNetwork (DataEncoder tmin tcod) K nm) sy_mod (DataEncoder tmin tcod) dt
      (fun m => map (fun i => SValue (x i) (nth i (sy_inputs m) 0%nat) (t i)) (seq 0 K)) ord T = Ok (m, s) /\
    exists tau, (forall i, (i < K)%nat -> t i + (tmin + x i * tcod) < tau) /\
      forall i, (i < K)%nat ->
        (exists t2, spike_log s (nth i (sy_outputs m) 0%nat) = [tau; t2]) /\
        emits s (nth i (sy_outputs m) 0%nat) (DataEncoder tmin tcod) (x i) (dt / tcod) /\
        (forall q, tmin + x i * tcod = INR q * dt -> emits s (nth i (sy_outputs m) 0%nat) (DataEncoder tmin tcod) (x i) 0).
Proof.
  intros Hdt Htc Htm HK HXT HO HT.
  set (rd := fun i => (step_at dt (t i + 1) + step_at dt 1 + step_at dt 1 - 1 + step_at dt (tmin + tcod) + step_at dt 1 + step_at dt 1)%nat).
  destruct (max_index rd K ltac:(lia)) as (f & Hf1 & Hf2).
  assert (HKR : 1 <= INR K <= 316).
  { split; [change 1 with (INR 1)|replace 316 with (INR 316) by (cbn; lra)]; apply le_INR; lia. }
  assert (EKw : INR K * sync_w (T := R) K = 10 + INR K * / 10000) by (rewrite sync_w_R; field; lra).
  assert (Hw : 0 <= sync_w (T := R) K).
  { apply Rmult_le_reg_l with (INR K); lra. }
  assert (IS : forall i, In i (seq 0 K) <-> (i < K)%nat) by (intros i; rewrite in_seq; lia).
  assert (GNE : seq 0 K <> []) by (destruct K; [lia|discriminate]).
  destruct (sync_session tmin tcod dt T tl x t K (seq 0 K) nm ord Hdt Htc Htm (fun i Hi => proj1 (HXT i (proj1 (IS i) Hi))) (fun i Hi => proj2 (HXT i (proj1 (IS i) Hi))) HO (fun i Hi => proj1 (IS i) Hi) (seq_NoDup _ _) GNE HT) as (m & s & E & _ & E0).
  destruct (E0 f) as [E1 E2].
  { apply (all_needed rd (sync_w K) K f); auto; [lia| | |].
    - rewrite minus_INR by lia. cbn [INR]. apply Rmult_lt_reg_l with (INR K); [lra|].
      replace (INR K * ((INR K - 1) * sync_w K)) with ((INR K - 1) * (INR K * sync_w (T := R) K)) by ring. rewrite EKw. nra.
    - lra.
    - intros i Hi. split; auto. unfold rd. pose proof (step_at_ge1 dt 1). lia. }
  { intros i Hi. apply Hf1, IS, Hi. }
  { destruct Hf2 as (i & Hi & Ei). exists i. split; [apply IS; auto|exact Ei]. }
  assert (E1' := fun i Hi => E1 i (proj2 (IS i) Hi)). assert (E2' := fun i Hi => E2 i (proj2 (IS i) Hi)). clear E1 E2. rename E1' into E1. rename E2' into E2.
  exists m, s. split; [exact E|]. eexists. split; [|intros i Hi; split; [|split]].
  2:{ destruct (E2 i Hi) as (E3 & _). rewrite times_2 in E3. eexists. exact E3. }
  - intros i Hi. specialize (E1 i Hi). destruct (HXT i Hi) as [Hxi Hti].
    assert (x i * tcod <= tcod) by (rewrite <- (Rmult_1_l tcod) at 2; apply Rmult_le_compat_r; lra). lra.
  - apply E2; auto.
  - apply E2; auto.
Qed.

(** with 317 or more channels, K-1 inputs are enough to release the stored values *)
Theorem synchronizer_early (tmin tcod dt t0 T : R) (K : nat) (x : nat -> R) nm ord :
  0 < dt <= 1 / 2 -> 0 < tcod -> 1 + dt <= tmin -> (317 <= K)%nat ->
  (forall i, (i < K - 1)%nat -> 0 <= x i <= 1) -> 0 <= t0 -> ord_ok ord ->
  t0 + 2 * (tmin + tcod) + 10 + 12 * dt <= T ->
  exists m s,
    session (SynchronizerNetwork (DataEncoder tmin tcod) K nm) sy_mod (DataEncoder tmin tcod) dt
      (fun m => map (fun i => SValue (x i) (nth i (sy_inputs m) 0%nat) t0) (seq 0 (K - 1))) ord T = Ok (m, s) /\
    forall i, (i < K - 1)%nat -> emits s (nth i (sy_outputs m) 0%nat) (DataEncoder tmin tcod) (x i) (dt / tcod).
Proof.
  intros Hdt Htc Htm HK HX Ht0 HO HT.
  set (rd := fun i : nat => (step_at dt (t0 + 1) + step_at dt 1 + step_at dt 1 - 1 + step_at dt (tmin + tcod) + step_at dt 1 + step_at dt 1)%nat).
  assert (HKR : 317 <= INR K).
  { replace 317 with (INR 317) by (cbn; lra). apply le_INR; lia. }
  assert (EKw : INR K * sync_w (T := R) K = 10 + INR K * / 10000) by (rewrite sync_w_R; field; lra).
  assert (IS : forall i, In i (seq 0 (K - 1)) <-> (i < K - 1)%nat) by (intros i; rewrite in_seq; lia).
  assert (GNE : seq 0 (K - 1) <> []) by (destruct (K - 1)%nat eqn:EK; [lia|discriminate]).
  destruct (sync_session tmin tcod dt T t0 x (fun _ => t0) K (seq 0 (K - 1)) nm ord Hdt Htc Htm (fun i Hi => HX i (proj1 (IS i) Hi)) (fun i Hi => ltac:(lra)) HO (fun i Hi => ltac:(apply IS in Hi; lia)) (seq_NoDup _ _) GNE HT) as (m & s & E & _ & E0).
  destruct (E0 (rd 0%nat)) as [E1 E2].
  { apply (all_at_once rd (sync_w K) (K - 1) (rd 0%nat)); auto; [lia| |unfold rd; pose proof (step_at_ge1 dt 1); lia].
    rewrite minus_INR by lia. cbn [INR]. apply Rmult_le_reg_l with (INR K); [lra|].
    replace (INR K * ((INR K - 1) * sync_w K)) with ((INR K - 1) * (INR K * sync_w (T := R) K)) by ring. rewrite EKw. nra. }
  { intros i Hi. apply Nat.le_refl. }
  { exists 0%nat. split; [apply IS; lia|reflexivity]. }
  exists m, s. split; [exact E|]. intros i Hi. apply E2, IS; auto.
Qed.

(** as long as one of the at most 316 channels has not been presented nothing is released *)
Theorem synchronizer_waits (tmin tcod dt tl T : R) (K : nat) (given : list nat) (x t : nat -> R) nm ord :
  0 < dt <= 1 / 2 -> 0 < tcod -> 1 + dt <= tmin -> (K <= 316)%nat ->
  NoDup given -> given <> [] -> (length given < K)%nat ->
  (forall i, In i given -> (i < K)%nat /\ 0 <= x i <= 1 /\ 0 <= t i <= tl) -> ord_ok ord ->
  tl + 2 * (tmin + tcod) + 10 + 12 * dt <= T ->
  exists m s,
    session (SynchronizerNetwork (DataEncoder tmin tcod) K nm) sy_mod (DataEncoder tmin tcod) dt
      (fun m => map (fun i => SValue (x i) (nth i (sy_inputs m) 0%nat) (t i)) given) ord T = Ok (m, s) /\
    forall i, (i < K)%nat -> spike_log s (nth i (sy_outputs m) 0%nat) = [].
Proof.
  intros Hdt Htc Htm HK ND NE HL HXT HO HT.
  destruct (sync_session tmin tcod dt T tl x t K given nm ord Hdt Htc Htm (fun i Hi => proj1 (proj2 (HXT i Hi))) (fun i Hi => proj2 (proj2 (HXT i Hi))) HO
    (fun i Hi => proj1 (HXT i Hi)) ND NE HT) as (m & s & E & E0 & _).
  exists m, s. split; [exact E|]. apply E0.
  assert (HKR : 1 <= INR K <= 316).
  { split; [change 1 with (INR 1)|replace 316 with (INR 316) by (cbn; lra)]; apply le_INR; lia. }
  assert (EKw : INR K * sync_w (T := R) K = 10 + INR K * / 10000) by (rewrite sync_w_R; field; lra).
  assert (Hw : 0 <= sync_w (T := R) K) by (apply Rmult_le_reg_l with (INR K); lra).
  cbn [segs]. intros k Hk. eapply Rle_lt_trans; [apply vsum_each_le; auto|].
  assert (Hg : INR (length given) <= INR K - 1).
  { replace (INR K - 1) with (INR (K - 1)) by (rewrite minus_INR by lia; cbn; lra). apply le_INR. lia. }
  apply Rle_lt_trans with ((INR K - 1) * sync_w K); [apply Rmult_le_compat_r; auto|].
  apply Rmult_lt_reg_l with (INR K); [lra|].
  replace (INR K * ((INR K - 1) * sync_w K)) with ((INR K - 1) * (INR K * sync_w (T := R) K)) by ring. rewrite EKw. nra.
Qed.
