(** Any number of computations, one after the other, on one LinearCombinatorNetwork / AdderNetwork (C62). *)
From Coq Require Import Arith ZArith Bool List Reals Lra Lia Permutation.
From Verif Require Import Num Heapq Elements Simulator Networks Trace SimTrace SimProps TraceProps NeuronLib NetLib Build BuildNets Bridge MemoryProof Session SimpleNets GeLib InvMem FuncNets SegLib SubNet SMem SyncNet LinComb LinRun Restart MemReuse Reuse Jobs Settle RestFun SubReuse SyncReuse LinReuse.
Import ListNotations.
Open Scope R_scope.
Open Scope list_scope.

Lemma lc_start_ins N (enc : encoder R) (cs : list R) l b :
  lc_own l = seq b 10 -> sy_sync (lc_sync_net l) = (10 + b)%nat -> cells_at (11 + b) (sy_cells (lc_sync_net l)) ->
  length (sy_cells (lc_sync_net l)) = 2%nat -> sb_nodes (lc_sub_net l) = seq (31 + b) 9 ->
  lcells_at (40 + b) (lc_cells l) -> length (lc_cells l) = length cs ->
  own N (lc_syns enc (length cs) cs l) (lc_start l) ->
  ins N (lc_start l) [mks (sb_output_plus (lc_sub_net l)) (lc_start l) SynV we cTsyn; mks (sb_output_minus (lc_sub_net l)) (lc_start l) SynV we cTsyn; mks (lc_start l) (lc_start l) SynV wi cTsyn].
Proof.
  intros E1 E2 E3 E4 E5 E6 E7 HO.
  set (SY := sy_syns enc 2 (lc_sync_net l)) in *. set (SB := sb_syns enc (lc_sub_net l)) in *.
  set (LC := flat_map (lcell_syns enc (length cs) (lc_sync l) (lc_acc1_plus l) (lc_acc1_minus l)) (combine cs (lc_cells l))).
  match eval unfold lc_syns in (lc_syns enc (length cs) cs l) with context [_ ++ _ ++ ?M ++ _] => set (MID := M : list (synapse R)) end.
  assert (EA : lc_syns enc (length cs) cs l = SY ++ SB ++ MID ++ LC) by reflexivity.
  assert (PSY : forall y, In y SY -> (10 + b <= s_post y < 31 + b)%nat /\ s_post y <> (11 + b)%nat /\ s_post y <> (21 + b)%nat).
  { intros y Hy. destruct (sy_posts enc 2 _ _ y _ E3 Hy) as [Z|(i & Hi & Z)]; [rewrite Z, E2; lia|]. rewrite E4 in Hi. destruct i as [|[|]]; lia. }
  assert (PSB : forall y, In y SB -> (33 + b <= s_post y < 40 + b)%nat).
  { intros y Hy. pose proof (sb_posts _ _ _ _ E5 Hy). lia. }
  unfold lc_own in E1. nodes_eqs E1.
  assert (PLC : forall y, In y LC -> (42 + b <= s_post y)%nat \/ s_post y = lc_sync l \/ s_post y = lc_acc1_plus l \/ s_post y = lc_acc1_minus l).
  { intros y Hy. destruct (lcells_posts _ _ _ _ _ _ _ _ _ E6 Hy) as [?|[?|[?|?]]]; auto. left. lia. }
  pose proof (cells_at_nth _ _ 0 E3 ltac:(lia)) as (C0 & C0' & C0m). pose proof (cells_at_nth _ _ 1 E3 ltac:(lia)) as (C1 & C1' & C1m).
  change (cel (sy_cells (lc_sync_net l)) 0) with (lc_ch l 0) in *. change (cel (sy_cells (lc_sync_net l)) 1) with (lc_ch l 1) in *.
  pose proof E5 as E5'. unfold sb_nodes in E5'. nodes_eqs E5'.
  rewrite EA in HO. apply own_app_r in HO; [|intros y Hy; apply PSY in Hy; lia]. apply own_app_r in HO; [|intros y Hy; apply PSB in Hy; lia].
  apply own_app_l in HO; [|intros y Hy; apply PLC in Hy; lia].
  eapply own_ins; [exact HO|]. unfold MID. filt. reflexivity.
Qed.

Section SessQ.
Context {A : Type}.
Variable bl : B R A.
Variable md : A -> nat.
Variable stims : A -> list stim.
Variables (a : A) (w : world R) (l : lin_net).
Variables tmin tcod dt tl eta : R.
Variable K : nat.
Let T := INR K * dt.
Variables v t : nat -> R.
Variable cs : list R.
Variable ord : nat -> list nat -> list nat.
Let n := length cs.
Let enc := DataEncoder tmin tcod.
Hypothesis Ebl : bl empty_world = Ok (a, w).
Hypothesis Emd : md a = lc_mod l.
Hypothesis HB : built empty_world w (lc_mod l) (lc_syns enc n cs l).
Hypothesis E1 : lc_own l = seq 0 10.
Hypothesis E2 : sy_sync (lc_sync_net l) = 10%nat.
Hypothesis E3 : cells_at 11 (sy_cells (lc_sync_net l)).
Hypothesis E4 : length (sy_cells (lc_sync_net l)) = 2%nat.
Hypothesis E5 : sb_nodes (lc_sub_net l) = seq 31 9.
Hypothesis E6 : lcells_at 40 (lc_cells l).
Hypothesis E7 : length (lc_cells l) = n.
Hypothesis E8 : lc_input_plus l = map li_p (lc_cells l).
Hypothesis E9 : lc_input_minus l = map li_m (lc_cells l).
Hypothesis EL : length (w_neurons w) = (40 + 6 * n)%nat.
Hypothesis ES : stims a = lin_stims cs v t l.
Hypothesis Hdt0 : 0 < dt.
Hypothesis Hdt1 : dt < / 50.
Hypothesis Htc : 0 < tcod.
Hypothesis Hn : (1 <= n)%nat.
Hypothesis Hv : forall i, (i < n)%nat -> Rabs (v i) <= 1.
Hypothesis Ht : forall i, (i < n)%nat -> 0 <= t i <= tl.
Hypothesis Heta : 0 <= eta.
Hypothesis Htm : 1 + 3 * dt + eta * norm1 cs <= tmin.
Hypothesis Hp : dot_pos cs v * tcod + eta * norm1 cs <= tcod.
Hypothesis Hm : dot_neg cs v * tcod + eta * norm1 cs <= tcod.
Hypothesis HT : tl + 4 * (tmin + tcod) + 2 * tmin + 21 <= T.
Hypothesis HO : ord_ok ord.
Hypothesis Hgap : forall i, (i < n)%nat -> Rabs (dt * (INR (step_at dt (t i + 1 + (tmin + Rabs (v i) * tcod)) + step_at dt 1) -
  INR (step_at dt (t i + 1) + step_at dt (1 + tmin))) - Rabs (v i) * tcod) <= eta.


Hypothesis Hdec : eta * norm1 cs <= dot cs v * tcod \/ 1 / 100 + 2 * dt + eta * norm1 cs <= - (dot cs v * tcod).
Lemma lin_quiet : quiet (net_of w (exts enc (stims a)) dt) (40 + 6 * n) K.
Proof.
  assert (Htl : 0 <= tl) by (destruct (Ht 0%nat ltac:(lia)); lra).
  assert (En0 : 0 <= eta * norm1 cs).
  { apply Rmult_le_pos; auto. rewrite <- (sumf_0 (seq 0 (length cs))). apply sumf_le. intros; apply Rabs_pos. }
  set (nin := fun i => (40 + 6 * i + (if nneg (v i) then 0 else 1))%nat).
  assert (Hcell : forall i, (i < n)%nat -> let x := lcl (lc_cells l) i in [li_p x; li_m x; lf_p x; lf_m x; ll_p x; ll_m x] = seq (40 + 6 * i) 6).
  { intros i Hi. apply lcells_at_nth; auto. rewrite E7. auto. }
  assert (Hni : forall i b, (i < n)%nat -> lis b (lcl (lc_cells l) i) = (40 + 6 * i + if b then 0 else 1)%nat).
  { intros i b Hi. pose proof (Hcell i Hi) as X. cbv zeta in X. nodes_eqs X. destruct b; cbn [lis]; lia. }
  assert (ESt : stims a = map (fun i => SValue (Rabs (v i)) (nin i) (t i)) (seq 0 n)).
  { rewrite ES. unfold lin_stims. fold n. apply map_ext_in. intros i Hi. apply in_seq in Hi. f_equal. rewrite E8, E9.
    unfold nin, nneg. pose proof (Hni i true ltac:(lia)) as N1. pose proof (Hni i false ltac:(lia)) as N2. cbn [lis] in N1, N2.
    destruct (Rle_dec 0 (v i)); [change 0%nat with (li_p lcell0) at 1|change 0%nat with (li_m lcell0) at 1]; rewrite map_nth; fold (lcl (lc_cells l) i); auto. }
  assert (EX : forall k, ext_spikes (exts enc (stims a)) k = flat_map (fun i => if (nin i =? k)%nat then [t i; t i + (tmin + Rabs (v i) * tcod)] else []) (seq 0 n)).
  { intros k. rewrite ESt. rewrite (exts_values enc (fun i => Rabs (v i)) nin t). reflexivity. }
  assert (Hinj : forall i j c, (c < 6)%nat -> nin i = (40 + 6 * j + c)%nat -> i = j /\ c = (if nneg (v i) then 0 else 1)%nat).
  { intros i j c Hc. unfold nin. destruct (nneg (v i)); lia. }
  assert (HX1 : forall k, (k < 40)%nat -> ext_spikes (exts enc (stims a)) k = []).
  { intros k Hk. rewrite EX. apply flat_none. intros i _. apply Nat.eqb_neq. unfold nin. lia. }
  assert (HX2 : forall j c, (c < 6)%nat -> c <> (if nneg (v j) then 0 else 1)%nat -> ext_spikes (exts enc (stims a)) (40 + 6 * j + c) = []).
  { intros j c Hc Hne. rewrite EX. apply flat_none. intros i _. apply Nat.eqb_neq. intros Ei. apply Hinj in Ei as [-> ?]; auto. }
  assert (HX3 : forall i, (i < n)%nat -> ext_spikes (exts enc (stims a)) (nin i) = [t i; t i + (tmin + Rabs (v i) * tcod)]).
  { intros i Hi. rewrite EX. apply (flat_one (fun j => (nin j =? nin i)%nat) (fun j => [t j; t j + (tmin + Rabs (v j) * tcod)]) (seq 0 n) i); [apply seq_NoDup|apply in_seq; lia|].
    intros j Hj. rewrite Nat.eqb_eq. split; [|intros ->; auto]. intros Ei. unfold nin in Ei at 2. apply Hinj in Ei; [tauto|destruct (nneg (v i)); lia]. }
  rewrite <- Emd in HB.
  destruct (session_built bl md a w _ enc dt stims ord T Ebl HB Hdt0) as (s & Es & HSe); auto; [lra| |].
  { rewrite ESt. apply Forall_map. rewrite Forall_forall. intros i Hi. apply in_seq in Hi. cbn [stim_ok]. rewrite EL. split; [split; [apply Rabs_pos|apply Hv; lia]|].
    unfold nin. destruct (nneg (v i)); lia. }
  set (N := net_of w (exts enc (stims a)) dt) in *.
  assert (HF0 : forall i c, (i < n)%nat -> (c < 2)%nat -> filter (fun y => (s_post y =? 40 + 6 * i + c)%nat) (lc_syns enc n cs l) = []).
  { intros i c Hi Hc. apply filter_post_out. intros y Hy. unfold lc_syns in Hy. cbv zeta in Hy.
    apply in_app_or in Hy as [Hy|Hy].
    { destruct (sy_posts enc 2 _ _ y _ E3 Hy) as [Z|(j & Hj & Z)]; [rewrite Z, E2; lia|]. rewrite E4 in Hj. lia. }
    apply in_app_or in Hy as [Hy|Hy]; [pose proof (sb_posts _ _ _ _ E5 Hy); lia|].
    apply in_app_or in Hy as [Hy|Hy].
    { pose proof E1 as E1'. unfold lc_own in E1'. nodes_eqs E1'. pose proof E5 as E5'. unfold sb_nodes in E5'. nodes_eqs E5'.
      pose proof (cells_at_nth _ _ 0 E3 ltac:(lia)) as (C0 & _). pose proof (cells_at_nth _ _ 1 E3 ltac:(lia)) as (C1 & _).
      change (cel (sy_cells (lc_sync_net l)) 0) with (lc_ch l 0) in *. change (cel (sy_cells (lc_sync_net l)) 1) with (lc_ch l 1) in *.
      cbn [In] in Hy. repeat (destruct Hy as [<-|Hy]; [cbn [s_post syn]; lia|]). destruct Hy. }
    pose proof E1 as E1'. unfold lc_own in E1'. nodes_eqs E1'.
    rewrite (flat_map_nth_seq _ (0, lcell0)) in Hy. apply in_flat_map in Hy as (j & Hj & Hy). apply in_seq in Hj. rewrite combine_length, E7 in Hj. fold n in Hj.
    rewrite combine_nth in Hy by (rewrite E7; reflexivity). pose proof (Hcell j ltac:(lia)) as X. cbv zeta in X.
    destruct (lcell_posts _ _ _ _ _ _ _ _ _ X Hy) as [?|[?|[?|?]]]; lia. }
  assert (HIN : forall i, (i < n)%nat -> arrs N (lis (gv v i) (lcl (lc_cells l) i)) 1 [al N t i; be N tmin tcod v t i]).
  { intros i Hi. rewrite Hni by auto. fold (nin i). change (40 + 6 * i + (if gv v i then 0 else 1))%nat with (nin i).
    eapply (se_arrs _ _ _ _ _ _ _ _ HSe); [|unfold nin; apply HF0; auto; destruct (nneg (v i)); lia|apply HX3; auto|].
    - rewrite EL. unfold nin. destruct (nneg (v i)); lia.
    - cbn [map]. unfold al, be. cbn [N net_of t_dt]. fold N. do 3 f_equal. lra. }
  assert (HNO : forall i, (i < n)%nat -> arrs N (lis (negb (gv v i)) (lcl (lc_cells l) i)) 1 []).
  { intros i Hi. rewrite Hni by auto.
    eapply (se_arrs _ _ _ _ _ _ _ _ HSe); [|apply HF0; auto; destruct (negb (gv v i)); lia|apply HX2|reflexivity].
    - rewrite EL. destruct (negb _); lia.
    - destruct (negb _); lia.
    - unfold gv. destruct (nneg (v i)); cbn [negb]; lia. }
  assert (HLC : lc_in N (1000 / (tmin + tcod)) tmin l cs).
  { rewrite <- (wacc_R tmin tcod). apply (lc_ins_of N enc cs l 0); auto.
    intros k [Hk|(i & c & Hi & Hc & ->)].
    - apply (se_own _ _ _ _ _ _ _ _ HSe); [rewrite EL; lia|]. apply HX1. lia.
    - replace (40 + 0 + 6 * i + c)%nat with (40 + 6 * i + c)%nat by lia. apply (se_own _ _ _ _ _ _ _ _ HSe); [rewrite EL; unfold n; lia|]. apply HX2; [lia|destruct (nneg (v i)); lia]. }

  assert (HST : ins N (lc_start l) [mks (sb_output_plus (lc_sub_net l)) (lc_start l) SynV we cTsyn; mks (sb_output_minus (lc_sub_net l)) (lc_start l) SynV we cTsyn; mks (lc_start l) (lc_start l) SynV wi cTsyn]).
  { apply (lc_start_ins N enc cs l 0); auto. pose proof E1 as E1'. unfold lc_own in E1'. nodes_eqs E1'.
    apply (se_own _ _ _ _ _ _ _ _ HSe); [rewrite EL; lia|]. apply HX1. lia. }
  pose proof (b_syn _ _ _ _ HB) as ESY. cbn [w_syns empty_world app] in ESY.
  assert (SRC : forall i b, (i < n)%nat -> in_syn N (lis b (lcl (lc_cells l) i)) = [] /\ t_prm N (lis b (lcl (lc_cells l) i)) = stdp).
  { intros i b Hi. rewrite Hni by auto. split; [|cbn; apply prm_std; [apply HB|rewrite EL; destruct b; lia]].
    eapply src_in; [exact ESY|]. apply HF0; auto. destruct b; lia. }
  assert (SRC' : forall i b, (i < n)%nat -> (forall k, (K <= k)%nat -> st N k (lis b (lcl (lc_cells l) i)) = init_nstate (t_prm N (lis b (lcl (lc_cells l) i)))) /\
    (forall j, spk N j (lis b (lcl (lc_cells l) i)) = true -> (j + step_at (t_dt N) 1 <= K)%nat)).
  { intros i b Hi. destruct (SRC i b Hi) as [S1 S2]. split; [intros k _; apply src_settled; auto|]. intros j Hj. rewrite (source_silent _ _ S1 S2) in Hj. discriminate. }
  assert (DS : dot cs v = dot_pos cs v - dot_neg cs v) by (apply dot_split).
  assert (DSt : dot cs v * tcod = dot_pos cs v * tcod - dot_neg cs v * tcod) by (rewrite DS; ring).
  destruct (lin_run_rest N tmin tcod tl eta K v t cs Hdt0 Hdt1 Htc Hn Hv Ht Heta Htm Hp Hm HT (gv v) (fun i _ => sgn_nneg (v i)) Hgap l HLC HIN HNO) as (RS & QS & AB); auto.
  { destruct Hdec; [left|right]; cbn [N net_of t_dt]; lra. }
  constructor.
  - intros p y Hpp Hy Ep. cbn [N net_of t_ext t_syns t_dt] in *. rewrite ESY in Hy. rewrite ESt in Hpp.
    unfold exts in Hpp. apply in_flat_map in Hpp as (sti & Hst & Hpp). apply in_map_iff in Hst as (i & <- & Hi). apply in_seq in Hi. cbn [stim_ext In] in Hpp.
    assert (Efst : fst p = nin i) by (destruct Hpp as [<-|[<-|[]]]; reflexivity).
    assert (HP : s_delay y = 1).
    { rewrite Efst in Ep. clear - Ep Hy E1 E2 E3 E4 E5 E6 E7 Hcell. unfold lc_syns in Hy. cbv zeta in Hy.
      pose proof E1 as E1'. unfold lc_own in E1'. nodes_eqs E1'. pose proof E5 as E5'. unfold sb_nodes in E5'. nodes_eqs E5'.
      pose proof (cells_at_nth _ _ 0 E3 ltac:(lia)) as (C0 & C0' & C0m). pose proof (cells_at_nth _ _ 1 E3 ltac:(lia)) as (C1 & C1' & C1m).
      apply in_app_or in Hy as [Hy|Hy].
      { unfold sy_syns in Hy. apply in_flat_map in Hy as (c & Hcc & Hy). apply (In_nth _ _ cell0) in Hcc as (j & Hj & <-). fold (cel (sy_cells (lc_sync_net l)) j) in Hy.
        destruct (cells_at_nth _ _ j E3 Hj) as (F1 & F2 & F3). unfold mm_nodes in F3. nodes_eqs F3. rewrite E4 in Hj.
        unfold cell_syns, mm_syns in Hy. cbn [app In] in Hy. unfold nin in Ep. repeat destruct Hy as [<-|Hy]; try destruct Hy; cbn [s_pre s_delay syn mks] in *; exfalso; destruct (nneg (v i)); lia. }
      apply in_app_or in Hy as [Hy|Hy].
      { unfold sb_syns in Hy. cbn [In] in Hy. unfold nin in Ep. repeat destruct Hy as [<-|Hy]; try destruct Hy; cbn [s_pre s_delay syn mks] in *; exfalso; destruct (nneg (v i)); lia. }
      apply in_app_or in Hy as [Hy|Hy].
      { change (cel (sy_cells (lc_sync_net l)) 0) with (lc_ch l 0) in *. change (cel (sy_cells (lc_sync_net l)) 1) with (lc_ch l 1) in *.
        cbn [In] in Hy. unfold nin in Ep. repeat destruct Hy as [<-|Hy]; try destruct Hy; cbn [s_pre s_delay syn mks] in *; exfalso; destruct (nneg (v i)); lia. }
      rewrite (flat_map_nth_seq _ (0, lcell0)) in Hy. apply in_flat_map in Hy as (j & Hj & Hy). apply in_seq in Hj. rewrite combine_length, E7 in Hj. fold n in Hj.
      rewrite combine_nth in Hy by (rewrite E7; reflexivity). fold (lcl (lc_cells l) j) in Hy. pose proof (Hcell j ltac:(lia)) as X. cbv zeta in X. nodes_eqs X.
      unfold lcell_syns in Hy. cbn [fst snd In] in Hy. unfold nin in Ep. repeat destruct Hy as [<-|Hy]; try destruct Hy; cbn [s_pre s_delay syn mks] in *; autorewrite with netR; try reflexivity; try lra; exfalso; destruct (nneg (v i)); lia. }
    rewrite HP. destruct (AB i ltac:(lia)) as [AB1 AB2]. unfold al in AB1. unfold be in AB2. cbn [N net_of t_dt] in AB1, AB2.
    destruct Hpp as [<-|[<-|[]]]; cbn [snd].
    + exact AB1.
    + replace (t i + (Tmin enc + Rabs (v i) * Tcod enc) + 1) with (t i + 1 + (tmin + Rabs (v i) * tcod)) by (unfold enc; cbn; lra). exact AB2.
  - intros q Hq. apply RS. unfold lr_node.
    pose proof (cells_at_nth _ _ 0 E3 ltac:(lia)) as (C0 & C0' & C0m). pose proof (cells_at_nth _ _ 1 E3 ltac:(lia)) as (C1 & C1' & C1m).
    change (cel (sy_cells (lc_sync_net l)) 0) with (lc_ch l 0) in *. change (cel (sy_cells (lc_sync_net l)) 1) with (lc_ch l 1) in *.
    destruct (Nat.lt_ge_cases q 10) as [H|H1]; [left; rewrite E1; apply in_seq; lia|right].
    destruct (Nat.eq_dec q 10) as [H|H2]; [left; lia|right].
    destruct (Nat.lt_ge_cases q 31) as [H|H3]; [left|right].
    { destruct (Nat.lt_ge_cases q 21) as [H'|H'].
      - exists true. cbn [ix]. rewrite C0, C0', C0m. destruct (Nat.eq_dec q 11) as [->|]; [left; lia|right].
        change (In q (seq 12 9)). apply in_seq. lia.
      - exists false. cbn [ix]. rewrite C1, C1', C1m. destruct (Nat.eq_dec q 21) as [->|]; [left; lia|right].
        change (In q (seq 22 9)). apply in_seq. lia. }
    destruct (Nat.lt_ge_cases q 33) as [H|H4]; [left|right].
    { pose proof E5 as E5'. unfold sb_nodes in E5'. nodes_eqs E5'. destruct (Nat.eq_dec q 31) as [->|]; [exists true|exists false]; cbn [sbi]; lia. }
    destruct (Nat.lt_ge_cases q 40) as [H|H5]; [left|right].
    { pose proof E5 as E5'. unfold sb_nodes in E5'. cbn [seq] in E5'. injection E5' as X1 X2 X3 X4 X5 X6 X7 X8 X9. unfold sb_internal.
      rewrite X3, X4, X5, X6, X7, X8, X9. change (In q (seq 33 7)). apply in_seq. lia. }
    set (i := ((q - 40) / 6)%nat). assert (Hqi : (6 * i <= q - 40 < 6 * i + 6)%nat) by (unfold i; pose proof (Nat.div_mod (q - 40) 6 ltac:(lia)); pose proof (Nat.mod_upper_bound (q - 40) 6 ltac:(lia)); lia).
    assert (Hi : (i < n)%nat) by lia. pose proof (Hcell i Hi) as X. cbv zeta in X. nodes_eqs X.
    assert (HC : (q = 40 + 6 * i \/ q = 40 + 6 * i + 1 \/ q = 40 + 6 * i + 2 \/ q = 40 + 6 * i + 3 \/ q = 40 + 6 * i + 4 \/ q = 40 + 6 * i + 5)%nat) by lia.
    destruct HC as [HC|[HC|[HC|[HC|[HC|HC]]]]];
      [exists i, true; split; [auto|left]|exists i, false; split; [auto|left]|exists i, true; split; [auto|right; left]
      |exists i, false; split; [auto|right; left]|exists i, true; split; [auto|right; right]|exists i, false; split; [auto|right; right]]; cbn [lis lfs lls]; lia.
  - intros y j Hy Hj Hsp. cbn [N net_of t_syns t_dt] in *. rewrite ESY in Hy. fold N in Hsp. eapply (QS enc); eauto.
Qed.
End SessQ.

(** the sum comes out of the output of its sign; the other output is silent *)
Definition signed_says (enc : encoder R) (eps d : R) (plus minus : list R) : Prop :=
  if Rle_dec 0 d then pair_says enc d eps plus /\ minus = [] else plus = [] /\ pair_says enc (- d) eps minus.
Lemma signed_shift enc eps d p m e : signed_says enc eps d p m -> signed_says enc eps d (map (fun t => t + e) p) (map (fun t => t + e) m).
Proof.
  unfold signed_says. destruct (Rle_dec 0 d); intros [A B]; [split; [apply says_shift; auto|rewrite B; reflexivity]|split; [rewrite A; reflexivity|apply says_shift; auto]].
Qed.
Definition lin_span (tmin tcod tl dt : R) : R := tl + 4 * (tmin + tcod) + 2 * tmin + 21 + dt.
Definition lin_ok (tcod tl dt eta : R) (cs : list R) (x : (nat -> R) * (nat -> R)) : Prop :=
  (forall i, (i < length cs)%nat -> Rabs (fst x i) <= 1 /\ 0 <= snd x i <= tl) /\
  dot_pos cs (fst x) * tcod + eta * norm1 cs <= tcod /\ dot_neg cs (fst x) * tcod + eta * norm1 cs <= tcod /\
  (eta * norm1 cs <= dot cs (fst x) * tcod \/ 1 / 100 + 2 * dt + eta * norm1 cs <= - (dot cs (fst x) * tcod)).

Lemma lc_delays enc n (cs : list R) l y : 0 < Tmin enc -> In y (lc_syns enc n cs l) -> 0 < s_delay y.
Proof.
  intros HT Hy. unfold lc_syns in Hy. cbv zeta in Hy. apply in_app_or in Hy as [Hy|Hy].
  { unfold sy_syns in Hy. apply in_flat_map in Hy as (c & _ & Hy). unfold cell_syns, mm_syns in Hy. cbn [app In] in Hy.
    repeat destruct Hy as [<-|Hy]; try destruct Hy; cbn [s_delay syn mks]; autorewrite with netR; lra. }
  apply in_app_or in Hy as [Hy|Hy].
  { unfold sb_syns, sb_d3 in Hy. cbn [In] in Hy. repeat destruct Hy as [<-|Hy]; try destruct Hy; cbn [s_delay syn mks]; netr; autorewrite with netR; lra. }
  apply in_app_or in Hy as [Hy|Hy].
  { cbn [In] in Hy. repeat destruct Hy as [<-|Hy]; try destruct Hy; cbn [s_delay syn mks]; netr; autorewrite with netR; lra. }
  apply in_flat_map in Hy as ([c x] & _ & Hy). unfold lcell_syns in Hy. cbn [fst snd In] in Hy.
  repeat destruct Hy as [<-|Hy]; try destruct Hy; cbn [s_delay syn mks]; netr; autorewrite with netR; lra.
Qed.

Section JobsL.
Context {A : Type}.
Variable bl : B R A.
Variable md : A -> nat.
Variables (a : A) (w : world R) (l : lin_net).
Variables tmin tcod dt tl eta err : R.
Variable cs : list R.
Variable ord : nat -> list nat -> list nat.
Let n := length cs.
Let enc := DataEncoder tmin tcod.
Hypothesis Ebl : bl empty_world = Ok (a, w).
Hypothesis Emd : md a = lc_mod l.
Hypothesis HB : built empty_world w (lc_mod l) (lc_syns enc n cs l).
Hypothesis E1 : lc_own l = seq 0 10.
Hypothesis E2 : sy_sync (lc_sync_net l) = 10%nat.
Hypothesis E3 : cells_at 11 (sy_cells (lc_sync_net l)).
Hypothesis E4 : length (sy_cells (lc_sync_net l)) = 2%nat.
Hypothesis E5 : sb_nodes (lc_sub_net l) = seq 31 9.
Hypothesis E6 : lcells_at 40 (lc_cells l).
Hypothesis E7 : length (lc_cells l) = n.
Hypothesis E8 : lc_input_plus l = map li_p (lc_cells l).
Hypothesis E9 : lc_input_minus l = map li_m (lc_cells l).
Hypothesis EL : length (w_neurons w) = (40 + 6 * n)%nat.
Hypothesis Hdt0 : 0 < dt.
Hypothesis Hdt1 : dt < / 50.
Hypothesis Htc : 0 < tcod.
Hypothesis Hn : (1 <= n)%nat.
Hypothesis Heta : 0 <= eta.
Hypothesis Htm : 1 + 3 * dt + eta * norm1 cs <= tmin.
Hypothesis HO : ord_ok ord.
Variable ok : (nat -> R) * (nat -> R) -> Prop.
Hypothesis Hok : forall x, ok x -> lin_ok tcod tl dt eta cs x.
Hypothesis Hgap : forall x t i, ok x -> 0 <= t -> (i < n)%nat -> Rabs (dt * (INR (step_at dt (t + 1 + (tmin + Rabs (fst x i) * tcod)) + step_at dt 1) -
  INR (step_at dt (t + 1) + step_at dt (1 + tmin))) - Rabs (fst x i) * tcod) <= eta.
Hypothesis Herr : err = (eta * norm1 cs + 2 * dt) / tcod \/
  (err = 0 /\ eta = 0 /\ exists q, tmin = INR q * dt /\ forall x, ok x -> exists k1 k2, dot_pos cs (fst x) * tcod = INR k1 * dt /\ dot_neg cs (fst x) * tcod = INR k2 * dt).
Let st_of (x : (nat -> R) * (nat -> R)) (t : R) : list stim := lin_stims cs (fst x) (fun i => t + snd x i) l.

Theorem lin_jobs js T : 0 <= T -> jobs_ok _ ok (fun _ => lin_span tmin tcod tl dt) 0 js T ->
  exists s ps, session bl md enc dt (fun _ => flat_map (fun j => st_of (fst j) (snd j)) js) ord T = Ok (a, s) /\
    spike_log s (lc_output_plus l) = concat (map fst ps) /\ spike_log s (lc_output_minus l) = concat (map snd ps) /\
    Forall2 (fun j p => signed_says enc err (dot cs (fst (fst j))) (fst p) (snd p)) js ps.
Proof.
  intros HT HJ.
  assert (En0 : 0 <= eta * norm1 cs).
  { apply Rmult_le_pos; auto. rewrite <- (sumf_0 (seq 0 (length cs))). apply sumf_le. intros; apply Rabs_pos. }
  pose proof (b_syn _ _ _ _ HB) as ESY. cbn [w_syns empty_world app] in ESY.
  assert (Hcell : forall i, (i < n)%nat -> let x := lcl (lc_cells l) i in [li_p x; li_m x; lf_p x; lf_m x; ll_p x; ll_m x] = seq (40 + 6 * i) 6).
  { intros i Hi. apply lcells_at_nth; auto. rewrite E7. auto. }
  assert (Hnin : forall (x : (nat -> R) * (nat -> R)) i, (i < n)%nat -> nth i (if Rle_dec 0 (fst x i) then lc_input_plus l else lc_input_minus l) 0%nat = (40 + 6 * i + (if nneg (fst x i) then 0 else 1))%nat).
  { intros x i Hi. unfold nneg. pose proof (Hcell i Hi) as X. cbv zeta in X. nodes_eqs X. rewrite E8, E9.
    destruct (Rle_dec 0 (fst x i)); [change 0%nat with (li_p lcell0) at 1|change 0%nat with (li_m lcell0) at 1]; rewrite map_nth; fold (lcl (lc_cells l) i); lia. }
  assert (IX : forall x t p, In p (exts enc (st_of x t)) -> exists i, (i < n)%nat /\ (40 <= fst p < 40 + 6 * n)%nat /\
     (snd p = t + snd x i \/ snd p = t + snd x i + (tmin + Rabs (fst x i) * tcod))).
  { intros x t p Hp. unfold exts, st_of, lin_stims in Hp. apply in_flat_map in Hp as (sti & Hst & Hp). apply in_map_iff in Hst as (i & <- & Hi). apply in_seq in Hi. cbn [stim_ext In] in Hp.
    exists i. fold n in Hi. split; [lia|]. rewrite Hnin in Hp by lia. destruct Hp as [<-|[<-|[]]]; cbn [fst snd]; (split; [destruct (nneg (fst x i)); lia|auto]). }
  assert (HLo : (lc_output_plus l < 40)%nat /\ (lc_output_minus l < 40)%nat).
  { pose proof E1 as E1'. unfold lc_own in E1'. nodes_eqs E1'. lia. }
  assert (SOK : forall x t, ok x -> Forall (stim_ok (length (w_neurons w))) (st_of x t)).
  { intros x t Hx. apply Hok in Hx as (Hx & _). unfold st_of, lin_stims. apply Forall_map, Forall_forall. intros i Hi. apply in_seq in Hi. fold n in Hi. rewrite Hnin by lia. cbn [stim_ok].
    destruct (Hx i ltac:(fold n; lia)). split; [split; [apply Rabs_pos|auto]|]. rewrite EL. destruct (nneg (fst x i)); lia. }
  assert (HB' : built empty_world w (md a) (lc_syns enc n cs l)) by (rewrite Emd; exact HB).
  destruct (session_jobs bl md a w _ enc dt ord Ebl HB' Hdt0 HO _ st_of ok (fun _ => lin_span tmin tcod tl dt)
     (fun m => m = lc_output_plus l \/ m = lc_output_minus l)
     (fun x lg => signed_says enc err (dot cs (fst x)) (lg (lc_output_plus l)) (lg (lc_output_minus l)))) with (js := js) (T := T) as (s & ls & Es & F & LG); auto.
  - intros y Hy. rewrite ESY in Hy. eapply lc_delays; [|exact Hy]. cbn. lra.
  - intros x t d. unfold st_of, lin_stims. induction (seq 0 (length cs)) as [|i q IH]; [reflexivity|]. unfold exts in *. cbn [map flat_map]. rewrite IH. unfold later at 2. rewrite map_app. fold (later d).
    f_equal. cbn [stim_ext map fst snd]. repeat (f_equal; try lra).
  - intros x t p Hx Hp. destruct (IX x t p Hp) as (i & Hi & _ & HS). destruct (Hok x Hx) as (Hx1 & _). destruct (Hx1 i Hi) as [_ Hx2].
    assert (0 <= Rabs (fst x i) * tcod) by (apply Rmult_le_pos; [apply Rabs_pos|lra]). destruct HS; lra.
  - intros x Hx. destruct (Hok x Hx) as (Hx1 & _). destruct (Hx1 0%nat ltac:(fold n; lia)). unfold lin_span. lra.
  - intros m [->| ->]; rewrite EL; lia.
  - intros m x t Hm HIn. apply in_map_iff in HIn as (p & Ep & Hp). destruct (IX x t p Hp) as (i & _ & Z & _). destruct Hm; lia.
  - intros x lg lg' d Hl Hd. rewrite (Hd (lc_output_plus l)), (Hd (lc_output_minus l)) by auto. apply signed_shift. exact Hl.
  - intros x t K Hx Ht HK. destruct (Hok x Hx) as (Hx1 & Hp & Hm & Hdec). fold n in Hx1. unfold lin_span in HK. rewrite S_INR in HK.
    assert (Hv : forall i, (i < n)%nat -> Rabs (fst x i) <= 1) by (intros i Hi; apply Hx1; auto).
    assert (Ht' : forall i, (i < n)%nat -> 0 <= t + snd x i <= t + tl) by (intros i Hi; destruct (Hx1 i Hi); lra).
    assert (HG : forall i, (i < n)%nat -> Rabs (dt * (INR (step_at dt (t + snd x i + 1 + (tmin + Rabs (fst x i) * tcod)) + step_at dt 1) -
       INR (step_at dt (t + snd x i + 1) + step_at dt (1 + tmin))) - Rabs (fst x i) * tcod) <= eta).
    { intros i Hi. apply Hgap; auto. apply Ht'; auto. }
    pose proof (lin_quiet bl md (fun _ => st_of x t) a w l tmin tcod dt (t + tl) eta K (fst x) (fun i => t + snd x i) cs ord Ebl Emd HB E1 E2 E3 E4 E5 E6 E7 E8 E9 EL eq_refl
       Hdt0 Hdt1 Htc Hn Hv Ht' Heta Htm Hp Hm ltac:(lra) HO HG Hdec) as HQ. cbv beta in HQ. fold enc n in HQ. rewrite <- EL in HQ.
    destruct (lin_sess bl md (fun _ => st_of x t) a w l tmin tcod dt (INR K * dt) (t + tl) eta (fst x) (fun i => t + snd x i) cs ord Ebl Emd HB E1 E2 E3 E4 E5 E6 E7 E8 E9 EL eq_refl
       Hdt0 Hdt1 Htc Hn Hv Ht' Heta Htm Hp Hm ltac:(lra) HO HG) as (s & Es & CP & CM & _). fold enc in Es, CP, CM.
    destruct (session_rests bl md a w _ enc dt ord Ebl HB' Hdt0 HO (fun _ => st_of x t) K (SOK x t Hx) HQ) as (s' & Es' & RS).
    assert (EE : Ok (a, s') = Ok (a, s)) by (rewrite <- Es', <- Es; reflexivity). injection EE as <-.
    exists s'. split; [exact Es'|]. split; [exact RS|]. unfold signed_says.
    assert (DP : 0 <= dot cs (fst x) -> eta * norm1 cs <= dot cs (fst x) * tcod).
    { intros Hd. destruct Hdec as [?|Hd']; auto. assert (0 <= dot cs (fst x) * tcod) by (apply Rmult_le_pos; lra). lra. }
    assert (DM : ~ 0 <= dot cs (fst x) -> 1 / 100 + 2 * dt + eta * norm1 cs <= - (dot cs (fst x) * tcod)).
    { intros Hd. destruct Hdec as [Hd'|?]; auto. exfalso. apply Hd. apply Rmult_le_reg_r with tcod; [lra|]. lra. }
    destruct (Rle_dec 0 (dot cs (fst x))) as [Hd|Hd].
    + destruct (CP (DP Hd)) as (A1 & A2 & A3). split; [|exact A2]. apply (proj1 (emits_says s' _ _ _ _)). destruct Herr as [->|(-> & Ee & q & Eq & Hg)]; [exact A1|].
      destruct (Hg x Hx) as (k1 & k2 & G1 & G2). apply (A3 q k1 k2); auto.
    + destruct (CM (DM Hd)) as (A1 & A2 & A3). split; [exact A2|]. apply (proj1 (emits_says s' _ _ _ _)). destruct Herr as [->|(-> & Ee & q & Eq & Hg)]; [exact A1|].
      destruct (Hg x Hx) as (k1 & k2 & G1 & G2). apply (A3 q k1 k2); auto.
  - exists s, (map (fun lg => (lg (lc_output_plus l), lg (lc_output_minus l))) ls). split; [exact Es|].
    rewrite !map_map. cbn [fst snd]. split; [apply LG; auto|]. split; [apply LG; auto|].
    clear -F. induction F; cbn [map]; constructor; auto.
Qed.
End JobsL.

Theorem linear_combinator_reuse (tmin tcod dt tl T : R) (cs : list R) (js : list (((nat -> R) * (nat -> R)) * R)) nm ord :
  0 < dt < / 50 -> 0 < tcod -> (1 <= length cs)%nat -> 1 + 3 * dt + 2 * dt * norm1 cs <= tmin -> ord_ok ord -> 0 <= T ->
  jobs_ok _ (lin_ok tcod tl dt (2 * dt) cs) (fun _ => lin_span tmin tcod tl dt) 0 js T ->
  exists l s ps,
    session (LinearCombinatorNetwork (DataEncoder tmin tcod) (length cs) cs nm) lc_mod (DataEncoder tmin tcod) dt
      (fun l => flat_map (fun j => lin_stims cs (fst (fst j)) (fun i => snd j + snd (fst j) i) l) js) ord T = Ok (l, s) /\
    spike_log s (lc_output_plus l) = concat (map fst ps) /\ spike_log s (lc_output_minus l) = concat (map snd ps) /\
    Forall2 (fun j p => signed_says (DataEncoder tmin tcod) ((2 * dt * norm1 cs + 2 * dt) / tcod) (dot cs (fst (fst j))) (fst p) (snd p)) js ps.
Proof.
  intros [Hdt0 Hdt1] Htc Hn Htm HO HT HJ.
  assert (N0 : 0 <= 2 * dt * norm1 cs).
  { apply Rmult_le_pos; [lra|]. rewrite <- (sumf_0 (seq 0 (length cs))). apply sumf_le. intros; apply Rabs_pos. }
  assert (HTm : Tmax (DataEncoder tmin tcod) <> 0) by (unfold Tmax; cbn; lra).
  destruct (LinComb_built (DataEncoder tmin tcod) (length cs) cs nm empty_world inv_empty (neq0 (Tmax (DataEncoder tmin tcod)) HTm) (Nat.le_refl _))
    as (l & w & E & HB & H1 & H2 & H3 & H4 & H5 & H6 & H7 & H8 & H9 & H10).
  rewrite firstn_all in HB. cbn [w_neurons empty_world length Nat.add] in H1, H2, H3, H5, H6, H10.
  destruct (lin_jobs (LinearCombinatorNetwork (DataEncoder tmin tcod) (length cs) cs nm) lc_mod l w l tmin tcod dt tl (2 * dt) ((2 * dt * norm1 cs + 2 * dt) / tcod) cs ord
    E eq_refl HB H1 H2 H3 H4 H5 H6 H7 H8 H9 H10 Hdt0 Hdt1 Htc Hn ltac:(lra) Htm HO (lin_ok tcod tl dt (2 * dt) cs) (fun x H => H)) with (js := js) (T := T) as (s & ps & Es & P); auto.
  { intros x t i _ Ht _. apply gap_general; try lra. apply Rmult_le_pos; [apply Rabs_pos|lra]. }
  exists l, s, ps. split; [|exact P]. rewrite <- Es. unfold session. rewrite E. reflexivity.
Qed.

(** on the grid of the time step the results are exact *)
Definition add_ok (tcod tl dt : R) (x : (R * R) * (R * R)) : Prop :=
  let '((u, v), (o1, o2)) := x in
  Rabs u <= 1 /\ Rabs v <= 1 /\ Rabs (u + v) <= 1 /\ (exists k, Rabs u * tcod = INR k * dt) /\ (exists k, Rabs v * tcod = INR k * dt) /\
  0 <= o1 <= tl /\ 0 <= o2 <= tl /\ (0 <= u + v \/ 1 / 100 + 2 * dt <= - ((u + v) * tcod)).
Definition add_job_stims (x : (R * R) * (R * R)) (t : R) (a : adder_net) : list stim :=
  let '((u, v), (o1, o2)) := x in add_stims u v (t + o1) (t + o2) a.
Definition pr2 (p : R * R) (i : nat) : R := match i with O => fst p | _ => snd p end.
Theorem adder_reuse (tmin tcod dt tl T : R) (q : nat) (js : list (((R * R) * (R * R)) * R)) nm ord :
  0 < dt < / 50 -> 0 < tcod -> tmin = INR q * dt -> 1 + 3 * dt <= tmin -> ord_ok ord -> 0 <= T ->
  jobs_ok _ (add_ok tcod tl dt) (fun _ => lin_span tmin tcod tl dt) 0 js T ->
  exists a s ps,
    session (AdderNetwork (DataEncoder tmin tcod) nm) (fun a => lc_mod (ad_lin a)) (DataEncoder tmin tcod) dt
      (fun a => flat_map (fun j => add_job_stims (fst j) (snd j) a) js) ord T = Ok (a, s) /\
    spike_log s (lc_output_plus (ad_lin a)) = concat (map fst ps) /\ spike_log s (lc_output_minus (ad_lin a)) = concat (map snd ps) /\
    Forall2 (fun j p => signed_says (DataEncoder tmin tcod) 0 (fst (fst (fst j)) + snd (fst (fst j))) (fst p) (snd p)) js ps.
Proof.
  intros [Hdt0 Hdt1] Htc Eq Htm HO HT HJ.
  assert (HTm : Tmax (DataEncoder tmin tcod) <> 0) by (unfold Tmax; cbn; lra).
  destruct (Adder_built (DataEncoder tmin tcod) nm empty_world inv_empty (neq0 (Tmax (DataEncoder tmin tcod)) HTm))
    as (a & w & E & HB & H1 & H2 & H3 & H4 & H5 & H6 & H7 & H8 & H9 & A1 & A2 & A3 & A4 & H10).
  cbn [w_neurons empty_world length Nat.add] in H1, H2, H3, H5, H6, H10.
  set (cs := [1; 1]).
  set (ok' := fun x : (nat -> R) * (nat -> R) => exists y, add_ok tcod tl dt y /\ x = (pr2 (fst y), pr2 (snd y))).
  assert (ED : forall p, dot cs (pr2 p) = fst p + snd p) by (intros p; unfold dot, cs, sumf; cbn; lra).
  assert (OK : forall x, ok' x -> lin_ok tcod tl dt 0 cs x /\ (forall i, exists k, Rabs (fst x i) * tcod = INR k * dt) /\
     exists k1 k2, dot_pos cs (fst x) * tcod = INR k1 * dt /\ dot_neg cs (fst x) * tcod = INR k2 * dt).
  { intros x' ([[x y] [o1 o2]] & (Hx & Hy & Hxy & (k1 & Ex) & (k2 & Ey) & Ho1 & Ho2 & Hs) & ->). cbn [fst snd].
    assert (EP : dot_pos cs (pr2 (x, y)) = Rmax 0 x + Rmax 0 y) by (unfold dot_pos, cs, sumf; cbn; rewrite !Rmult_1_l; lra).
    assert (EN : dot_neg cs (pr2 (x, y)) = Rmax 0 (- x) + Rmax 0 (- y)) by (unfold dot_neg, cs, sumf; cbn; rewrite !Rmult_1_l; lra).
    apply Rabs_le_btw in Hxy. pose proof (Rabs_le_btw _ _ Hx) as Hx'. pose proof (Rabs_le_btw _ _ Hy) as Hy'.
    assert (P1 : dot_pos cs (pr2 (x, y)) <= 1) by (rewrite EP; unfold Rmax; destruct (Rle_dec 0 x), (Rle_dec 0 y); lra).
    assert (P2 : dot_neg cs (pr2 (x, y)) <= 1) by (rewrite EN; unfold Rmax; destruct (Rle_dec 0 (- x)), (Rle_dec 0 (- y)); lra).
    assert (Z : forall z, z <= 1 -> z * tcod <= tcod) by (intros z Hz; rewrite <- (Rmult_1_l tcod) at 2; apply Rmult_le_compat_r; lra).
    split; [|split].
    - unfold lin_ok. cbn [fst snd]. rewrite !Rmult_0_l, !Rplus_0_r. split; [intros i _; destruct i; cbn [pr2 fst snd]; auto|]. split; [auto|]. split; [auto|].
      rewrite ED. cbn [fst snd]. destruct Hs; [left; apply Rmult_le_pos; lra|right; lra].
    - intros [|i]; cbn [pr2 fst snd]; eauto.
    - apply dot_grid; auto.
      assert (ZZ : forall u k, Rabs u * tcod = INR k * dt -> exists z, 1 * u * tcod = IZR z * dt).
      { intros u k Eu. unfold Rabs in Eu. destruct (Rcase_abs u); [exists (- Z.of_nat k)%Z; rewrite opp_IZR|exists (Z.of_nat k)]; rewrite <- INR_IZR_INZ; lra. }
      intros i Hi. destruct i as [|[|]]; [apply (ZZ x k1 Ex)|apply (ZZ y k2 Ey)|cbn in Hi; lia]. }
  set (js' := map (fun j : ((R * R) * (R * R)) * R => ((pr2 (fst (fst j)), pr2 (snd (fst j))), snd j)) js).
  assert (HJ' : jobs_ok _ ok' (fun _ => lin_span tmin tcod tl dt) 0 js' T).
  { revert HJ. generalize 0 as from. unfold js'. induction js as [|j r IH]; cbn [map jobs_ok fst snd]; intros from HJ; auto. destruct HJ as (J1 & J2 & J3).
    split; [exists (fst j); auto|]. split; auto. }
  destruct (lin_jobs (AdderNetwork (DataEncoder tmin tcod) nm) (fun a => lc_mod (ad_lin a)) a w (ad_lin a) tmin tcod dt tl 0 0 cs ord
    E eq_refl HB H1 H2 H3 H4 H5 H6 H7 H8 H9 H10 Hdt0 Hdt1 Htc ltac:(cbn; lia) ltac:(lra) ltac:(lra) HO ok' (fun x H => proj1 (OK x H))) with (js := js') (T := T) as (s & ps & Es & LP & LM & F); auto.
  { intros x t i Hx Ht _. destruct (OK x Hx) as (_ & G & _). destruct (G i) as (k & Ek). apply (gap_grid dt tmin tcod t _ q k); lra. }
  { right. split; [reflexivity|]. split; [reflexivity|]. exists q. split; [auto|]. intros x Hx. apply (OK x Hx). }
  exists a, s, ps. split; [|split; [exact LP|split; [exact LM|]]].
  - rewrite <- Es. unfold session. rewrite E. cbn [rbind fst snd].
    assert (ESt : flat_map (fun j => add_job_stims (fst j) (snd j) a) js = flat_map (fun j => lin_stims cs (fst (fst j)) (fun i => snd j + snd (fst j) i) (ad_lin a)) js').
    { unfold js'. clear -A1 A2 A3 A4. induction js as [|[[[u v] [o1 o2]] t] r IH]; [reflexivity|]. cbn [map flat_map fst snd]. rewrite IH. f_equal.
      unfold add_job_stims, add_stims, lin_stims. cbn [cs length seq map pr2 fst snd]. rewrite A1, A2, A3, A4. destruct (Rle_dec 0 u), (Rle_dec 0 v); reflexivity. }
    rewrite ESt. reflexivity.
  - revert F. unfold js'. clear -ED. revert ps. induction js as [|j r IH]; intros ps F; cbn [map] in F; inversion F; subst; constructor; auto.
    cbn [fst snd] in *. rewrite ED in *. assumption.
Qed.
