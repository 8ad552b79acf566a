(** SynchronizerNetwork comes back to rest, so that it can be used again and again (C26, C52, C61). *)
From Coq Require Import Arith ZArith Bool List Reals Lra Lia Permutation.
From Verif Require Import Num Heapq Elements Simulator Networks Trace SimTrace SimProps TraceProps NeuronLib NetLib Build BuildNets Bridge MemoryProof Session SimpleNets GeLib InvMem FuncNets SegLib SubNet SMem SyncNet Restart MemReuse Reuse Jobs Settle RestFun SubReuse.
Import ListNotations.
Open Scope R_scope.
Open Scope list_scope.

Section SyncRest.
Variable N : tnet.
Variables (Tmax wsy : R) (sync : nat) (cs : list cell) (gl : list nat).
Let dt := t_dt N.
Hypothesis Hdt : 0 < dt.
Hypothesis HTmax : 0 < Tmax.
Hypothesis Hsync : ins N sync (map (fun c => mks (mm_ready (c_mem c)) sync SynV wsy cTsyn) cs).
Hypothesis Hcells : forall i, (i < length cs)%nat -> cell_in N (1000 / Tmax) sync (cel cs i).
Variables a1 a2 : nat -> nat.
Let D1 := step_at dt 1.
Let D2 := step_at dt 2.
Let M := step_at dt Tmax.
Hypothesis Hng : forall i, In i gl -> (i < length cs)%nat.
Hypothesis Hnd : NoDup gl.
Hypothesis Hin : forall i, In i gl -> arrs N (c_in (cel cs i)) 1 [a1 i; a2 i].
Hypothesis Hnone : forall i, (i < length cs)%nat -> ~ In i gl -> arrs N (c_in (cel cs i)) 1 [].
Hypothesis Ha1 : forall i, In i gl -> (1 <= a1 i)%nat.
Hypothesis Ha2 : forall i, In i gl -> (a1 i + D1 <= a2 i)%nat.
Hypothesis Ha3 : forall i, In i gl -> (a2 i <= a1 i + M + 1)%nat.
Hypothesis HD : (1 < D1 /\ D1 < D2 /\ D2 <= 2 * D1)%nat.
Let rd i := (a1 i + D1 + D1 - 1 + M + D1 + D1)%nat.
Variable f : nat.
Hypothesis Hf : segs (map (fun i => (rd i, wsy)) gl) 0 [f].
Hypothesis Hfi : forall i, In i gl -> (rd i <= f)%nat.

Lemma sy_sync_spk : spikes_at N sync [f].
Proof. eapply sync_spk; eauto. Qed.
Lemma sy_sync_rest k : (f <= k)%nat -> st N k sync = at_rest 0.
Proof.
  intros Hk. rewrite (seg_rest N sync (map (fun i => (rd i, wsy)) gl) [f]); auto.
  - cbn [lastsp fold_left]. rewrite vsum_each_none; auto.
  - apply Hsync.
  - eapply ins_vonly; [exact Hsync|]. apply Forall_map. rewrite Forall_forall. auto.
  - apply sy_sync_spk.
  - eapply sync_input; eauto.
Qed.

Variable i : nat.
Hypothesis Hi : In i gl.
Let c := cel cs i.
Let o2 := (f + D1 + D2 + (a2 i - a1 i) + D1)%nat.
Let Fi := (a1 i + D1 + D1 - 1 + M)%nat.
Lemma cell_spikes : exists G,
  spikes_at N (mm_input (c_mem c)) [a1 i; a2 i] /\ spikes_at N (mm_first (c_mem c)) [(a1 i + D1)%nat] /\ spikes_at N (mm_last (c_mem c)) [(a2 i + D1)%nat] /\
  spikes_at N (mm_acc (c_mem c)) [Fi] /\ spikes_at N (mm_ready (c_mem c)) [(Fi + D1)%nat] /\ spikes_at N (mm_recall (c_mem c)) [(f + D1)%nat] /\
  spikes_at N (mm_acc2 (c_mem c)) [G] /\ (G + D1 + D1 = o2)%nat /\
  spikes_at N (mm_output (c_mem c)) [(f + D1 + D2)%nat; (f + D1 + D2 + (a2 i - a1 i))%nat] /\
  (forall n k, In n (mm_internal (c_mem c)) -> (o2 <= k)%nat -> st N k n = at_rest 0).
Proof.
  pose proof (Hcells i (Hng i Hi)) as C. fold c in C. pose proof (li_mem _ _ _ _ C) as Cm.
  pose proof (Ha1 i Hi) as X1. pose proof (Ha2 i Hi) as X2. pose proof (Ha3 i Hi) as X3. pose proof (Hfi i Hi) as X4. unfold rd in X4.
  pose proof (step_at_ge1 dt Tmax) as GM. fold M in GM.
  assert (SI : spikes_at N (mm_input (c_mem c)) [a1 i; a2 i]).
  { eapply relay; [apply (li_in _ _ _ _ C)|rewrite we_R; lra|rewrite cTsyn_R; apply Hin; auto|cbn; lia]. }
  assert (AI : arrs N (mm_input (c_mem c)) 1 [(a1 i + D1)%nat; (a2 i + D1)%nat]).
  { apply (relay_arrs N (mm_input (c_mem c)) (c_in c) we cTsyn [a1 i; a2 i] 1); [apply (li_in _ _ _ _ C)|rewrite we_R; lra|rewrite cTsyn_R; apply Hin; auto|cbn; lia]. }
  assert (L1 : (1 <= a1 i + D1)%nat) by lia. assert (L2 : (a1 i + D1 + step_at (t_dt N) 1 <= a2 i + D1)%nat) by (fold dt D1; lia).
  assert (SR : spikes_at N (mm_recall (c_mem c)) [(f + D1)%nat]).
  { eapply relay; [apply (li_rec _ _ _ _ C)|rewrite we_R; lra| |cbn; lia]. rewrite cTsyn_R.
    eapply arrs_1; [exact Hsync|apply sy_sync_spk|reflexivity|lia]. }
  assert (HR : forall d, arrs N (mm_recall (c_mem c)) d [(f + D1 + step_at dt d)%nat]).
  { intros d. eapply arrs_1; [apply (li_rec _ _ _ _ C)|exact SR|reflexivity|lia]. }
  pose proof (mem_first N (c_mem c) Tmax Cm _ _ AI L1 L2) as SF. pose proof (mem_last N (c_mem c) Tmax Cm _ _ AI L1 L2) as SL.
  pose proof (mem_acc N (c_mem c) Tmax Hdt HTmax Cm _ _ AI L1 L2) as SA.
  pose proof (mem_ready N (c_mem c) Tmax Hdt HTmax Cm _ _ AI L1 L2) as SY.
  assert (P1 : (1 <= f + D1 + step_at dt 2)%nat) by lia.
  assert (P2 : (F N Tmax (a1 i + D1) + step_at (t_dt N) 1 < f + D1 + step_at dt 1)%nat) by (unfold F; fold dt D1 M; lia).
  assert (P3 : (a2 i + D1 + step_at (t_dt N) 2 < f + D1 + step_at dt 1)%nat) by (fold dt D1 D2; lia).
  assert (P4 : (f + D1 + step_at dt 2 < f + D1 + step_at dt 1 + step_at (t_dt N) 2 - step_at (t_dt N) 1 + (a2 i + D1 - (a1 i + D1)))%nat) by (fold dt D1 D2; lia).
  assert (P5 : (f + D1 + step_at dt 2 + step_at (t_dt N) 1 <> f + D1 + step_at dt 1 + step_at (t_dt N) 2 + (a2 i + D1 - (a1 i + D1)))%nat) by (fold dt D1 D2; lia).
  pose proof (mem_acc2 N (c_mem c) Tmax Hdt HTmax Cm _ _ AI L1 L2 _ _ (HR 1) P1 P2 P3 P5) as S2.
  pose proof (mem_output N (c_mem c) Tmax Hdt HTmax Cm _ _ AI L1 L2 _ _ (HR 1) (HR 2) P1 P2 P3 P5) as SO.
  pose proof (mem_settled N (c_mem c) Tmax Hdt HTmax Cm _ _ AI L1 L2 _ _ (HR 1) (HR 2) P1 P2 P3 P4) as HS.
  pose proof (G_b N Tmax Hdt _ _ L1 L2 _ _ P1 P2 P3 P4) as HG.
  unfold F in SA, SY. fold dt D1 D2 M in SA, SY, SO, HS, HG.
  replace (f + D1 + D1 + D2 - D1 + (a2 i + D1 - (a1 i + D1)))%nat with (f + D1 + D2 + (a2 i - a1 i))%nat in SO, HS, HG by lia.
  eexists. split; [|split; [|split; [|split; [|split; [|split; [|split; [|split; [|split]]]]]]]].
  - exact SI.
  - exact SF.
  - exact SL.
  - exact SA.
  - exact SY.
  - exact SR.
  - exact S2.
  - unfold o2. fold dt D1. lia.
  - exact SO.
  - intros n k Hn Hk. apply HS; auto. unfold o2 in Hk. lia.
Qed.
Lemma cell_out : spikes_at N (c_out c) [(f + D1 + D2 + D1)%nat; o2].
Proof.
  exact (sync_out N Tmax wsy sync cs gl Hdt HTmax Hsync Hcells a1 a2 Hng Hnd Hin Hnone Ha1 Ha2 Ha3 HD f Hf Hfi i Hi).
Qed.
Lemma cell_rest n k : In n (c_out c :: mm_nodes (c_mem c)) -> (o2 <= k)%nat -> st N k n = init_nstate (t_prm N n).
Proof.
  pose proof (Hcells i (Hng i Hi)) as C. fold c in C. pose proof (li_mem _ _ _ _ C) as Cm.
  pose proof (Ha1 i Hi) as X1. pose proof (Ha2 i Hi) as X2. pose proof (Ha3 i Hi) as X3. pose proof (Hfi i Hi) as X4. unfold rd in X4.
  destruct cell_spikes as (G & SI & SF & SL & SA & SY & SR & S2 & HG & SO & HS).
  intros Hn Hk.
  assert (FV : In n (mm_internal (c_mem c)) -> t_prm N n = stdp -> st N k n = init_nstate (t_prm N n)).
  { intros H HP. rewrite HP. change (init_nstate stdp) with (at_rest 0). apply HS; auto. }
  unfold mm_nodes in Hn. unfold mm_internal in FV. cbn [In] in Hn, FV. unfold o2 in Hk.
  destruct Hn as [<-|[<-|[<-|[<-|[<-|[<-|[<-|[<-|[<-|[]]]]]]]]]].
  - eapply (ins_settled _ _ _ o2); [apply (li_out _ _ _ _ C)|eapply spk_last; [apply cell_out|right; left; reflexivity]| |unfold o2; lia].
    repeat constructor; cbn [s_pre s_delay mks]; rewrite cTsyn_R. eapply over_spk; [apply (mi_output _ _ _ Cm)|exact SO|].
    fold dt D1. cbn [In]. unfold o2. intros ? [<-|[<-|[]]]; lia.
  - eapply (ins_settled _ _ _ (a2 i)); [apply (li_in _ _ _ _ C)|eapply spk_last; [exact SI|right; left; reflexivity]| |lia].
    repeat constructor; cbn [s_pre s_delay mks]; rewrite cTsyn_R. eapply over_arrs; [apply Hin; auto|]. cbn [In]. intros ? [<-|[<-|[]]]; lia.
  - apply FV; [tauto|apply Cm].
  - apply FV; [tauto|apply Cm].
  - apply FV; [tauto|apply Cm].
  - apply FV; [tauto|apply Cm].
  - eapply (ins_settled _ _ _ (f + D1)); [apply (li_rec _ _ _ _ C)|eapply spk_last; [exact SR|left; reflexivity]| |lia].
    repeat constructor; cbn [s_pre s_delay mks]; rewrite cTsyn_R. eapply over_spk; [apply (ins_ext _ _ _ Hsync)|apply sy_sync_spk|].
    fold dt D1. cbn [In]. intros ? [<-|[]]; lia.
  - apply FV; [tauto|apply Cm].
  - apply FV; [tauto|apply Cm].
Qed.
Lemma cell_quiet enc KK y j K : (forall j, spk N j (c_in c) = true -> (j + D1 <= K)%nat) -> In y (cell_syns enc KK sync c) -> (o2 <= K)%nat -> spk N j (s_pre y) = true -> (j + step_at dt (s_delay y) <= K)%nat.
Proof.
  intros S0 Hy HK Hs.
  pose proof (Ha1 i Hi) as X1. pose proof (Ha2 i Hi) as X2. pose proof (Ha3 i Hi) as X3. pose proof (Hfi i Hi) as X4. unfold rd in X4.
  destruct cell_spikes as (G & SI & SF & SL & SA & SY & SR & S2 & HG & SO & HS). pose proof sy_sync_spk as SS.
  unfold o2, Fi in *.
  unfold cell_syns, mm_syns in Hy. cbn [app In] in Hy.
  repeat destruct Hy as [<-|Hy]; try destruct Hy; cbn [s_pre s_delay syn mks] in Hs |- *; autorewrite with netR; rewrite ?Rmult_1_r; fold D1 D2;
    first [apply S0; exact Hs | (first [rewrite SI in Hs | rewrite SF in Hs | rewrite SL in Hs | rewrite SA in Hs | rewrite SY in Hs | rewrite SR in Hs | rewrite S2 in Hs | rewrite SO in Hs | rewrite SS in Hs];
    apply memb_In in Hs; cbn [In] in Hs; repeat destruct Hs as [<-|Hs]; try destruct Hs; lia)].
Qed.
End SyncRest.

Definition sy_span (tmin tcod tl dt : R) : R := tl + 2 * (tmin + tcod) + 10 + 13 * dt.
(** a job: the value of every channel and how long after the start of the job it is presented *)
Definition sy_job_ok (K : nat) (tl : R) (x : (nat -> R) * (nat -> R)) : Prop := forall i, (i < K)%nat -> 0 <= fst x i <= 1 /\ 0 <= snd x i <= tl.
Definition sy_stims (m : sync_net) (K : nat) (x : (nat -> R) * (nat -> R)) (t0 : R) : list stim :=
  map (fun i => SValue (fst x i) (nth i (sy_inputs m) 0%nat) (t0 + snd x i)) (seq 0 K).
Lemma sync_needs_all (rd : nat -> nat) K : (1 <= K <= 316)%nat -> (forall i, (i < K)%nat -> (0 < rd i)%nat) ->
  exists f, segs (map (fun i => (rd i, sync_w (T := R) K)) (seq 0 K)) 0 [f] /\ (forall i, (i < K)%nat -> (rd i <= f)%nat) /\ exists i, (i < K)%nat /\ rd i = f.
Proof.
  intros HK Hp. destruct (max_index rd K ltac:(lia)) as (f & Hf1 & Hf2). exists f. split; [|split; [exact Hf1|exact Hf2]].
  assert (HKR : 1 <= INR K <= 316).
  { split; [change 1 with (INR 1)|replace 316 with (INR 316) by (cbn; lra)]; apply le_INR; lia. }
  assert (EKw : INR K * sync_w (T := R) K = 10 + INR K * / 10000) by (rewrite sync_w_R; field; lra).
  assert (Hw : 0 <= sync_w (T := R) K).
  { apply Rmult_le_reg_l with (INR K); lra. }
  apply (all_needed rd (sync_w K) K f); auto; [lia| |lra].
  rewrite minus_INR by lia. cbn [INR]. apply Rmult_lt_reg_l with (INR K); [lra|].
  replace (INR K * ((INR K - 1) * sync_w K)) with ((INR K - 1) * (INR K * sync_w (T := R) K)) by ring. rewrite EKw. nra.
Qed.
Lemma sync_quiet (tmin tcod tl dt t0 : R) (K KK : nat) (x : (nat -> R) * (nat -> R)) m w nm :
  0 < dt <= 1 / 2 -> 0 < tcod -> 1 + dt <= tmin -> (1 <= K <= 316)%nat -> sy_job_ok K tl x -> 0 <= t0 -> t0 + sy_span tmin tcod tl dt <= INR (S KK) * dt ->
  let enc := DataEncoder tmin tcod in
  SynchronizerNetwork enc K nm empty_world = Ok (m, w) -> built empty_world w (sy_mod m) (sy_syns enc K m) ->
  sy_sync m = 0%nat -> cells_at 1 (sy_cells m) -> length (sy_cells m) = K -> sy_inputs m = map c_in (sy_cells m) -> length (w_neurons w) = (1 + 10 * K)%nat ->
  quiet (net_of w (exts enc (sy_stims m K x t0)) dt) (1 + 10 * K) KK.
Proof.
  intros [Hdt0 Hdt2] Htc Htm HK1 HX Ht0 HT enc E HB Hs HC HK Hi HL. unfold sy_span in HT. rewrite S_INR in HT.
  destruct x as [x o]. unfold sy_job_ok in HX. cbn [fst snd] in HX.
  assert (Hx : forall i, In i (seq 0 K) -> 0 <= x i <= 1) by (intros i Hii; apply in_seq in Hii; apply HX; lia).
  set (t := fun i => t0 + o i).
  assert (Ht : forall i, In i (seq 0 K) -> 0 <= t i <= t0 + tl) by (intros i Hii; apply in_seq in Hii; destruct (HX i ltac:(lia)); unfold t; lra).
  assert (Hng : forall i, In i (seq 0 K) -> (i < K)%nat) by (intros i Hii; apply in_seq in Hii; lia).
  pose proof (seq_NoDup K 0) as Hnd.
  assert (Hni : forall i, (i < K)%nat -> nth i (sy_inputs m) 0%nat = (1 + 10 * i)%nat).
  { intros i Hik. rewrite Hi. change 0%nat with (c_in cell0). rewrite map_nth. apply (cells_at_nth _ _ i HC). lia. }
  set (stims := fun m => map (fun i => SValue (x i) (nth i (sy_inputs m) 0%nat) (t i)) (seq 0 K)).
  change (sy_stims m K (x, o) t0) with (stims m).
  assert (ESt : stims m = map (fun i => SValue (x i) (1 + 10 * i) (t i)) (seq 0 K)).
  { unfold stims. apply map_ext_in. intros i Hii. rewrite Hni by auto. auto. }
  assert (EX : forall n, ext_spikes (exts enc (stims m)) n = flat_map (fun i => if (1 + 10 * i =? n)%nat then [t i; t i + (tmin + x i * tcod)] else []) (seq 0 K)).
  { intros n. rewrite ESt. rewrite (exts_values enc x (fun i => (1 + 10 * i)%nat) t). reflexivity. }
  destruct (session_built (SynchronizerNetwork enc K nm) sy_mod m w _ enc dt stims (fun _ l => l) (INR KK * dt) E HB Hdt0) as (s & Es & HSe).
  { destruct (HX 0%nat ltac:(lia)). lra. }
  { rewrite ESt. apply Forall_map. rewrite Forall_forall. intros i Hii. cbn [stim_ok]. pose proof (Hng i Hii). split; [apply Hx; auto|lia]. }
  { intros i l. reflexivity. }
  set (N := net_of w (exts enc (stims m)) dt) in *.
  assert (Hc : forall i, In i (seq 0 K) -> 0 <= x i * tcod <= tcod).
  { intros i Hii. destruct (Hx i Hii). split; [apply Rmult_le_pos; lra|rewrite <- (Rmult_1_l tcod) at 2; apply Rmult_le_compat_r; lra]. }
  assert (HX0 : forall n, (n mod 10 <> 1)%nat -> ext_spikes (exts enc (stims m)) n = []).
  { intros n Hn. rewrite EX. apply flat_none. intros i _. apply Nat.eqb_neq. intros <-. apply Hn. rewrite Nat.mul_comm, Nat.mod_add by lia. reflexivity. }
  assert (HX2 : forall i, In i (seq 0 K) -> ext_spikes (exts enc (stims m)) (1 + 10 * i) = [t i; t i + (tmin + x i * tcod)]).
  { intros i Hii. rewrite EX. apply (flat_one (fun j => (1 + 10 * j =? 1 + 10 * i)%nat) (fun j => [t j; t j + (tmin + x j * tcod)]) (seq 0 K) i); auto.
    intros j Hj. rewrite Nat.eqb_eq. lia. }
  assert (HF0 : forall i, (i < K)%nat -> filter (fun y => (s_post y =? 1 + 10 * i)%nat) (sy_syns enc K m) = []).
  { intros i Hii. apply filter_post_out. intros y Hy. unfold sy_syns in Hy. apply in_flat_map in Hy as (c & Hcc & Hy).
    apply (In_nth _ _ cell0) in Hcc as (j & Hj & <-). destruct (cells_at_nth _ _ j HC Hj) as (F1 & F2 & F3).
    destruct (cell_posts enc K (sy_sync m) _ _ y F1 F2 F3 Hy); lia. }
  assert (HMod : forall i c, (1 <= c < 10)%nat -> ((1 + 10 * i + c) mod 10 <> 1)%nat).
  { intros i c Hcc. replace (1 + 10 * i + c)%nat with (1 + c + i * 10)%nat by lia. rewrite Nat.mod_add by lia.
    destruct (Nat.eq_dec c 9) as [->|]; [cbn; lia|]. rewrite Nat.mod_small by lia. lia. }
  destruct (sy_ins_of N enc K (sy_sync m) (sy_cells m) 1 HC ltac:(lia)) as [HI1 HI2].
  { apply (se_own _ _ _ _ _ _ _ _ HSe); [lia|]. apply HX0. rewrite Hs. cbn. lia. }
  { intros i n Hii Hn. rewrite HK in Hii. destruct (cells_at_nth _ _ i HC ltac:(lia)) as (F1 & F2 & F3).
    assert (Hr : exists c, (1 <= c < 10)%nat /\ n = (1 + 10 * i + c)%nat).
    { exists (n - (1 + 10 * i))%nat. unfold c_internal in Hn. rewrite F2, F3 in Hn. destruct Hn as [<-|Hn]; [lia|]. apply in_seq in Hn. lia. }
    destruct Hr as (c & Hcc & ->). apply (se_own _ _ _ _ _ _ _ _ HSe); [lia|]. apply HX0. auto. }
  set (a1 := fun i => step_at dt (t i + 1)). set (a2 := fun i => step_at dt (t i + 1 + (tmin + x i * tcod))).
  assert (HA : forall i, In i (seq 0 K) -> arrs N (c_in (cel (sy_cells m) i)) 1 [a1 i; a2 i]).
  { intros i Hii. pose proof (Hng i Hii). destruct (cells_at_nth _ _ i HC ltac:(lia)) as (F1 & _ & _). rewrite F1.
    eapply (se_arrs _ _ _ _ _ _ _ _ HSe); [lia|apply HF0; lia|apply HX2; auto|]. cbn [map]. unfold a1, a2. do 3 f_equal. lra. }
  assert (HA0 : forall i, (i < length (sy_cells m))%nat -> ~ In i (seq 0 K) -> arrs N (c_in (cel (sy_cells m) i)) 1 []).
  { intros i Hii Hgi. exfalso. apply Hgi. apply in_seq. lia. }
  set (D1 := step_at dt 1). set (D2 := step_at dt 2). set (M := step_at dt (tmin + tcod)).
  pose proof (step_at_bounds dt 1 Hdt0 ltac:(lra)) as BD1. pose proof (step_at_bounds dt 2 Hdt0 ltac:(lra)) as BD2.
  pose proof (step_at_bounds dt (tmin + tcod) Hdt0 ltac:(lra)) as BM. pose proof (step_at_ge1 dt (tmin + tcod)) as GM.
  fold D1 in BD1. fold D2 in BD2. fold M in BM, GM.
  assert (HDD : (1 < D1 /\ D1 < D2 /\ D2 <= 2 * D1)%nat).
  { split; [nat_lt dt Hdt0; lra|]. split; [nat_lt dt Hdt0; lra|]. assert (D2 < 2 * D1 + 1)%nat; [|lia]. nat_lt dt Hdt0. lra. }
  assert (HQ : forall i, In i (seq 0 K) -> (1 <= a1 i)%nat /\ (a1 i + D1 <= a2 i)%nat /\ (a2 i <= a1 i + M + 1)%nat /\
     Rabs (INR (a2 i) * dt - INR (a1 i) * dt - (tmin + x i * tcod)) < dt /\ t i + 1 <= INR (a1 i) * dt < t i + 1 + dt).
  { intros i Hii. destruct (Ht i Hii) as [Ht1 Ht2]. destruct (Hc i Hii) as [Hc1 Hc2].
    destruct (step_diff dt (t i + 1) (tmin + x i * tcod) Hdt0 ltac:(lra) ltac:(lra)) as (Q1 & Q2 & _).
    pose proof (step_at_bounds dt (t i + 1) Hdt0 ltac:(lra)) as BA. fold (a1 i) in Q1, Q2, BA. fold (a2 i) in Q1, Q2.
    split; [apply step_at_ge1|]. split; [|split; [|split]]; [| |exact Q2|lra].
    - unfold a1, a2, D1. apply step_diff_ge; try lra; try apply step_at_ge1. fold D1. lra.
    - assert (a2 i < a1 i + M + 2)%nat; [|lia]. apply Rabs_def2 in Q2. nat_lt dt Hdt0. lra. }
  unfold enc in HI2. rewrite wacc_R in HI2. fold enc in HI2.
  assert (HgK : forall i, In i (seq 0 K) -> (i < length (sy_cells m))%nat) by (intros i Hii; rewrite HK; auto).
  set (rd := fun i => (a1 i + D1 + D1 - 1 + M + D1 + D1)%nat).
  destruct (sync_needs_all rd K HK1) as (f & Hseg & Hfi & j0 & Hj0 & Hfj); [intros i Hii; unfold rd; lia|].
  assert (Hfi' : forall i, In i (seq 0 K) -> (rd i <= f)%nat) by (intros i Hii; apply Hfi; auto).
  assert (IS : forall i, (i < K)%nat -> In i (seq 0 K)) by (intros i Hii; apply in_seq; lia).
  assert (EF : t0 + tl + 1 + dt + (tmin + tcod) + dt + 4 * (1 + dt) - dt >= INR f * dt).
  { rewrite <- Hfj. destruct (HQ j0 (IS j0 Hj0)) as (_ & _ & _ & _ & Z). destruct (Ht j0 (IS j0 Hj0)). unfold rd. inr. lra. }
  assert (HKK : forall i, (i < K)%nat -> (f + D1 + D2 + (a2 i - a1 i) + D1 <= KK)%nat).
  { intros i Hii. destruct (HQ i (IS i Hii)) as (Z1 & Z2 & Z3 & Z4 & Z5). destruct (Hc i (IS i Hii)). apply Rabs_def2 in Z4.
    assert (f + D1 + D2 + (a2 i - a1 i) + D1 < KK + 1)%nat; [|lia]. nat_lt dt Hdt0. lra. }
  assert (SRC : forall i, (i < length (sy_cells m))%nat -> in_syn N (c_in (cel (sy_cells m) i)) = [] /\ t_prm N (c_in (cel (sy_cells m) i)) = stdp).
  { intros i Hii. destruct (cells_at_nth _ _ i HC Hii) as (F1 & _ & _). rewrite F1. rewrite HK in Hii. split; [|cbn; apply prm_std; [apply HB|lia]].
    pose proof (b_syn _ _ _ _ HB) as ES. cbn [w_syns empty_world app] in ES. eapply src_in; [exact ES|]. apply HF0. auto. }
  pose proof (sy_sync_rest N (tmin + tcod) (sync_w K) (sy_sync m) (sy_cells m) (seq 0 K) Hdt0 ltac:(lra) HI1 HI2 a1 a2 HgK Hnd HA HA0
      (fun i Hii => proj1 (HQ i Hii)) (fun i Hii => proj1 (proj2 (HQ i Hii))) HDD f Hseg Hfi') as RS0.
  pose proof (cell_rest N (tmin + tcod) (sync_w K) (sy_sync m) (sy_cells m) (seq 0 K) Hdt0 ltac:(lra) HI1 HI2 a1 a2 HgK Hnd HA HA0
      (fun i Hii => proj1 (HQ i Hii)) (fun i Hii => proj1 (proj2 (HQ i Hii))) (fun i Hii => proj1 (proj2 (proj2 (HQ i Hii)))) HDD f Hseg Hfi') as RS1.
  pose proof (cell_quiet N (tmin + tcod) (sync_w K) (sy_sync m) (sy_cells m) (seq 0 K) Hdt0 ltac:(lra) HI1 HI2 a1 a2 HgK Hnd HA HA0
      (fun i Hii => proj1 (HQ i Hii)) (fun i Hii => proj1 (proj2 (HQ i Hii))) (fun i Hii => proj1 (proj2 (proj2 (HQ i Hii)))) HDD f Hseg Hfi') as RS2.
  cbn [N net_of t_dt] in RS0, RS1, RS2. fold N D1 D2 in RS0, RS1, RS2.
  pose proof (b_syn _ _ _ _ HB) as ES. cbn [w_syns empty_world app] in ES.
  constructor.
  - intros p y Hp Hy Ep. cbn [N net_of t_ext t_syns t_dt] in *. rewrite ES in Hy.
    unfold sy_syns in Hy. apply in_flat_map in Hy as (c & Hcc & Hy). apply (In_nth _ _ cell0) in Hcc as (j & Hj & <-). fold (cel (sy_cells m) j) in Hy.
    destruct (cells_at_nth _ _ j HC Hj) as (F1 & F2 & F3).
    rewrite ESt in Hp. unfold exts in Hp. apply in_flat_map in Hp as (sti & Hst & Hp). apply in_map_iff in Hst as (i & <- & Hii). cbn [stim_ext In] in Hp.
    assert (Efst : fst p = (1 + 10 * i)%nat) by (destruct Hp as [<-|[<-|[]]]; reflexivity).
    assert (HP : s_delay y = 1).
    { rewrite Efst in Ep. unfold mm_nodes in F3. cbn [seq Nat.add] in F3. injection F3; intros.
      unfold cell_syns, mm_syns in Hy. cbn [app In] in Hy. repeat destruct Hy as [<-|Hy]; try destruct Hy; cbn [s_pre s_delay syn mks] in *; autorewrite with netR; try lra; exfalso; lia. }
    rewrite HP. pose proof (HKK i (Hng i Hii)) as HKi. destruct (HQ i Hii) as (Z1 & Z2 & Z3 & Z4 & Z5). pose proof (Hfi' i Hii) as HFI. unfold rd in HFI.
    destruct Hp as [<-|[<-|[]]]; cbn [snd].
    + fold (a1 i). lia.
    + replace (t i + (Tmin enc + x i * Tcod enc) + 1) with (t i + 1 + (tmin + x i * tcod)) by (unfold enc; cbn; lra). fold (a2 i). lia.
  - intros q Hq. destruct (Nat.eq_dec q 0) as [->|Hq0].
    + assert (HP : t_prm N 0 = stdp) by (cbn; apply prm_std; [apply HB|lia]). rewrite HP. change (init_nstate stdp) with (at_rest 0). rewrite <- Hs. apply RS0.
      pose proof (HKK 0%nat ltac:(lia)). lia.
    + set (i := ((q - 1) / 10)%nat). assert (Hqi : (10 * i <= q - 1 < 10 * i + 10)%nat) by (unfold i; pose proof (Nat.div_mod (q - 1) 10 ltac:(lia)); pose proof (Nat.mod_upper_bound (q - 1) 10 ltac:(lia)); lia).
      assert (HiK : (i < K)%nat) by lia.
      destruct (cells_at_nth _ _ i HC ltac:(lia)) as (F1 & F2 & F3).
      destruct (Nat.eq_dec q (1 + 10 * i)) as [Eq|Eq]; [rewrite Eq, <- F1; apply src_settled; apply SRC; lia|].
      apply (RS1 i (IS i HiK)); [|apply HKK; auto]. rewrite F2, F3.
      change (S (1 + 10 * i) :: seq (2 + (1 + 10 * i)) 8) with (seq (2 + 10 * i) 9). apply in_seq. lia.
  - intros y j Hy Hj Hsp. cbn [N net_of t_syns t_dt] in *. rewrite ES in Hy. fold N in Hsp.
    unfold sy_syns in Hy. apply in_flat_map in Hy as (c & Hcc & Hy). apply (In_nth _ _ cell0) in Hcc as (i & Hii & <-). fold (cel (sy_cells m) i) in Hy.
    rewrite HK in Hii. apply (RS2 i (IS i Hii) enc K y j KK); auto. intros j' Hj'. destruct (SRC i ltac:(lia)) as [Q1 Q2]. rewrite (source_silent N _ Q1 Q2) in Hj'. discriminate.
Qed.

(** every channel gives its value back, all of them starting at the same time *)
Definition sync_says (enc : encoder R) (eps : R) (K : nat) (x : nat -> R) (p : nat -> list R) : Prop :=
  exists tau, forall i, (i < K)%nat -> (exists t2, p i = [tau; t2]) /\ pair_says enc (x i) eps (p i).
Theorem synchronizer_reuse (tmin tcod tl dt T : R) (K : nat) (js : list (((nat -> R) * (nat -> R)) * R)) nm ord :
  0 < dt <= 1 / 2 -> 0 < tcod -> 1 + dt <= tmin -> (1 <= K <= 316)%nat -> 0 <= tl -> ord_ok ord -> 0 <= T ->
  jobs_ok _ (sy_job_ok K tl) (fun _ => sy_span tmin tcod tl dt) 0 js T ->
  exists m s ps,
    session (SynchronizerNetwork (DataEncoder tmin tcod) K nm) sy_mod (DataEncoder tmin tcod) dt
      (fun m => flat_map (fun j => sy_stims m K (fst j) (snd j)) js) ord T = Ok (m, s) /\
    (forall i, (i < K)%nat -> spike_log s (nth i (sy_outputs m) 0%nat) = concat (map (fun p => p i) ps)) /\
    Forall2 (fun j p => sync_says (DataEncoder tmin tcod) (dt / tcod) K (fst (fst j)) p) js ps.
Proof.
  intros Hdt Htc Htm HK Htl HO HT HJ. set (enc := DataEncoder tmin tcod).
  assert (HTm : tmin + tcod <> 0) by lra.
  destruct (Synchronizer_built enc K nm empty_world inv_empty (neq0 _ HTm)) as (m & w & E & HB & Hs & HC & HKc & Hi & Ho & _ & HL).
  cbn [w_neurons empty_world length Nat.add] in Hs, HC, HL. change (S (10 * K)) with (1 + 10 * K)%nat in HL.
  assert (Hni : forall i, (i < K)%nat -> nth i (sy_inputs m) 0%nat = (1 + 10 * i)%nat).
  { intros i Hik. rewrite Hi. change 0%nat with (c_in cell0). rewrite map_nth. apply (cells_at_nth _ _ i HC). lia. }
  assert (Hno : forall i, (i < K)%nat -> nth i (sy_outputs m) 0%nat = (2 + 10 * i)%nat).
  { intros i Hik. rewrite Ho. change 0%nat with (c_out cell0) at 1. rewrite map_nth. apply (cells_at_nth _ _ i HC); lia. }
  pose proof (b_syn _ _ _ _ HB) as ES. cbn [w_syns empty_world app] in ES.
  assert (EQ : forall stims T, session (SynchronizerNetwork enc K nm) sy_mod enc dt stims ord T = session (SynchronizerNetwork enc K nm) sy_mod enc dt (fun _ => stims m) ord T).
  { intros stims T'. unfold session. rewrite E. reflexivity. }
  assert (SOK : forall x t, sy_job_ok K tl x -> Forall (stim_ok (length (w_neurons w))) (sy_stims m K x t)).
  { intros x t Hx. unfold sy_stims. apply Forall_map, Forall_forall. intros i Hii. apply in_seq in Hii. rewrite Hni by lia. cbn [stim_ok].
    destruct (Hx i ltac:(lia)) as [A B]. split; [exact A|]. rewrite HL. lia. }
  assert (IX : forall x t p, In p (exts enc (sy_stims m K x t)) -> exists i, (i < K)%nat /\ fst p = (1 + 10 * i)%nat /\ (snd p = t + snd x i \/ snd p = t + snd x i + (tmin + fst x i * tcod))).
  { intros x t p Hp. unfold exts, sy_stims in Hp. apply in_flat_map in Hp as (sti & Hst & Hp). apply in_map_iff in Hst as (i & <- & Hii). apply in_seq in Hii. cbn [stim_ext In] in Hp.
    exists i. split; [lia|]. rewrite <- (Hni i) by lia. destruct Hp as [<-|[<-|[]]]; cbn [fst snd]; auto. }
  destruct (session_jobs (SynchronizerNetwork enc K nm) sy_mod m w _ enc dt ord E HB ltac:(lra) HO _ (sy_stims m K) (sy_job_ok K tl) (fun _ => sy_span tmin tcod tl dt)
     (fun n => exists i, (i < K)%nat /\ n = (2 + 10 * i)%nat)
     (fun x l => sync_says enc (dt / tcod) K (fst x) (fun i => l (2 + 10 * i)%nat))) with (js := js) (T := T) as (s & ls & Es & F & LG); auto.
  - intros y Hy. rewrite ES in Hy. unfold sy_syns in Hy. apply in_flat_map in Hy as (c & _ & Hy). unfold cell_syns, mm_syns in Hy. cbn [app In] in Hy.
    repeat destruct Hy as [<-|Hy]; try destruct Hy; cbn [s_delay syn mks]; autorewrite with netR; lra.
  - intros x t d. unfold sy_stims. induction (seq 0 K) as [|i l IH]; [reflexivity|]. unfold exts in *. cbn [map flat_map]. rewrite IH. unfold later at 2. rewrite map_app. fold (later d).
    f_equal. cbn [stim_ext map fst snd]. repeat (f_equal; try lra).
  - intros x t p Hx Hp. destruct (IX x t p Hp) as (i & Hik & _ & HSn). destruct (Hx i Hik) as [A B]. assert (0 <= fst x i * tcod) by (apply Rmult_le_pos; lra). destruct HSn; lra.
  - intros x _. unfold sy_span. lra.
  - intros n (i & Hik & ->). lia.
  - intros n x t (i & Hik & ->) HIn. apply in_map_iff in HIn as (p & Ep & Hp). destruct (IX x t p Hp) as (j & Hj & Ej & _). lia.
  - intros x l l' d (tau & Hl) EL. exists (tau + d). intros i Hik. destruct (Hl i Hik) as [[t2 A] B]. rewrite (EL (2 + 10 * i)%nat) by eauto. split; [|apply says_shift; auto].
    exists (t2 + d). rewrite A. reflexivity.
  - intros x t KK Hx Ht HKK.
    pose proof (sync_quiet tmin tcod tl dt t K KK x m w nm Hdt Htc Htm HK Hx Ht HKK E HB Hs HC HKc Hi HL) as HQ. rewrite <- HL in HQ.
    unfold sy_span in HKK. rewrite S_INR in HKK.
    destruct (synchronizer_run tmin tcod dt (t + tl) (INR KK * dt) K (fst x) (fun i => t + snd x i) nm ord Hdt Htc Htm HK) as (m' & s & Es & tau & _ & EM); auto; [|lra|].
    { intros i Hik. destruct (Hx i Hik). split; [auto|lra]. }
    destruct (session_rests (SynchronizerNetwork enc K nm) sy_mod m w _ enc dt ord E HB ltac:(lra) HO (fun _ => sy_stims m K x t) KK) as (s' & Es' & RS); auto.
    fold enc in Es, EM.
    assert (EE : Ok (m, s') = Ok (m', s)) by (rewrite <- Es', <- Es; rewrite (EQ (fun m0 => map _ _)); reflexivity).
    injection EE as <- <-. exists s'. split; [exact Es'|]. split; [exact RS|].
    exists tau. intros i Hik. destruct (EM i Hik) as (A & B & _). rewrite Hno in A, B by auto. split; [exact A|exact B].
  - exists m, s, (map (fun l i => l (2 + 10 * i)%nat) ls). rewrite EQ. split; [exact Es|]. split.
    + intros i Hik. rewrite Hno by auto. rewrite map_map. apply LG. eauto.
    + clear -F. induction F; cbn [map]; constructor; auto.
Qed.
