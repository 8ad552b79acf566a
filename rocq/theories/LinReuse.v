(** LinearCombinatorNetwork and AdderNetwork come back to rest, so that they can be used again and again (C28, C52, C62). *)
From Coq Require Import Arith ZArith Bool List Reals Lra Lia Permutation.
From Verif Require Import Num Heapq Elements Simulator Networks Trace SimTrace SimProps TraceProps NeuronLib NetLib Build BuildNets Bridge MemoryProof Session SimpleNets GeLib InvMem FuncNets SegLib SubNet SMem SyncNet LinComb LinRun Restart MemReuse Reuse Jobs Settle RestFun SubReuse SyncReuse.
Import ListNotations.
Open Scope R_scope.
Open Scope list_scope.

(** a V-only neuron that never gets any input *)
Lemma none_settled N n L k : ins N n L -> (forall y, In y L -> arrs N (s_pre y) (s_delay y) []) -> st N k n = init_nstate (t_prm N n).
Proof.
  intros H HA. rewrite (ins_prm _ _ _ H). change (init_nstate stdp) with (at_rest 0). apply silent; [apply H|].
  intros j Hj ty. rewrite input_in, (sumf_perm _ _ _ (ins_syn _ _ _ H)). rewrite (sumf_ext _ (fun _ => 0)); [apply sumf_0|].
  intros y Hy. rewrite (HA y Hy j) by lia. rewrite cnt_nil. destruct (syntype_eqb _ _); lra.
Qed.
(** the same with a self-synapse *)
Lemma first_none_settled N i n k : ins N n [mks i n SynV we cTsyn; mks n n SynV wi cTsyn] -> arrs N i 1 [] -> st N k n = init_nstate (t_prm N n).
Proof.
  intros H HA. eapply none_settled; [exact H|]. intros y [<-|[<-|[]]]; cbn [s_pre s_delay mks]; rewrite cTsyn_R; auto.
  eapply arrs_0; [exact H|]. eapply first_none; eauto.
Qed.

Section LinRest.
Variable N : tnet.
Variables (tmin tcod : R) (l : lin_net) (cs : list R).
Let dt := t_dt N.
Let Tmax := tmin + tcod.
Let n := length cs.
Let xs := lc_cells l.
Hypothesis Hdt : 0 < dt.
Hypothesis Htm : 0 < tmin.
Hypothesis Htc : 0 < tcod.
Hypothesis Hn : (1 <= n)%nat.
Hypothesis HL : lc_in N (1000 / Tmax) tmin l cs.
Variable g : nat -> bool.
Variables al be : nat -> nat.
Let D1 := step_at dt 1.
Let D2 := step_at dt 2.
Let Dm := step_at dt (1 + tmin).
Let M := step_at dt Tmax.
Let Dn := step_at dt (/ 100).
Let Dnn := step_at dt (2 * / 100).
Let D3 := step_at dt (3 * 1 + 2 * / 100).
Let DM := step_at dt (tmin + (3 * 1 + 2 * / 100)).
Hypothesis Hin : forall i, (i < n)%nat -> arrs N (lis (g i) (lcl xs i)) 1 [al i; be i].
Hypothesis Hnone : forall i, (i < n)%nat -> arrs N (lis (negb (g i)) (lcl xs i)) 1 [].
Hypothesis Hal : forall i, (i < n)%nat -> (1 <= al i)%nat.
Hypothesis Hbe : forall i, (i < n)%nat -> (al i + D1 <= be i)%nat.
Hypothesis HD1 : (1 < D1 /\ D1 < D2 /\ D2 <= 2 * D1)%nat.
Variable f : nat.
Hypothesis Hf1 : forall i, (i < n)%nat -> (be i + D1 <= f)%nat.
Hypothesis Hf2 : exists i, (i < n)%nat /\ (be i + D1)%nat = f.
Variable d : nat -> R.
Let eA := evA N tmin al.
Let eB := evB N be.
Let sl := sel cs g.
Hypothesis Hd : forall i, (i < n)%nat -> 0 <= d i /\ INR (eB i) - INR (eA i) <= d i.
Hypothesis HAB : forall i, (i < n)%nat -> (eA i <= eB i + 1)%nat.
Hypothesis Hsum : forall s, dt * sumf (fun i => if sl s i then Rabs (nth i cs 0) * d i else 0) (seq 0 n) <= tcod.
Let r := rr N tmin tcod cs g al be.
Let v := iv N tmin tcod cs g al be.
Let rl := rel N tmin tcod cs g al be f.
Let sa0 := sa N tmin tcod cs g al be f.
Hypothesis Hr1 : forall s, (r s + 2 * D1 <= M + Dm)%nat.
Hypothesis Hr2 : forall s, (Dm <= r s + D1 + 1)%nat.
Hypothesis F1 : (1 <= D1 /\ 1 <= Dn)%nat.
Hypothesis F2 : (2 * D1 < D3)%nat.
Hypothesis F3 : (2 * Dn <= D3 /\ 3 * Dn <= D1 + 1)%nat.
Hypothesis F4 : (D3 < DM)%nat.
Hypothesis F5 : (2 * Dn <= Dnn + 1 /\ Dnn <= 2 * Dn /\ Dn <= Dnn)%nat.
Hypothesis F6 : (D3 + D1 <= DM)%nat.
Hypothesis Hord : ((v true < v false /\ v true + Dnn <= v false + Dn) \/ v false < v true \/ (v true = v false /\ Dn < Dnn))%nat.
Hypothesis Hstart : ins N (lc_start l) [mks (sb_output_plus (lc_sub_net l)) (lc_start l) SynV we cTsyn; mks (sb_output_minus (lc_sub_net l)) (lc_start l) SynV we cTsyn; mks (lc_start l) (lc_start l) SynV wi cTsyn].
Variable B : nat.
Hypothesis Hsrc : forall i b, (i < n)%nat -> (forall k, (B <= k)%nat -> st N k (lis b (lcl xs i)) = init_nstate (t_prm N (lis b (lcl xs i)))) /\
  (forall j, spk N j (lis b (lcl xs i)) = true -> (j + D1 <= B)%nat).
Hypothesis HB : forall s, (sa0 + v s + DM + D1 <= B)%nat.

Lemma lr_r1 s : (1 <= r s)%nat. Proof. apply rr_ge1. Qed.
Lemma lr_vr s : (v s + r s + D1 = M + Dm)%nat.
Proof. pose proof (Hr1 s) as H. unfold v, iv. fold dt Tmax M Dm D1. change (rr N tmin tcod cs g al be s) with (r s). lia. Qed.
Lemma lr_rel s : (f + D1 - 1 + r s + 7 * D1 - 1 + M <= rl)%nat.
Proof. unfold rl, rel. fold dt Tmax M D1. change (rr N tmin tcod cs g al be) with r. destruct s; lia. Qed.
Lemma lr_sa : (sa0 = rl + D1 + D2 + 3 * D1)%nat. Proof. reflexivity. Qed.
Lemma lr_sync : spikes_at N (lc_sync l) [f].
Proof. eapply lin_sync; eauto. Qed.
Lemma lr_acc1 s : spikes_at N (acc1 s l) [(f + D1 - 1 + r s)%nat].
Proof. eapply lin_acc1; eauto. Qed.
Lemma lr_acc2 s : spikes_at N (acc2 s l) [(f + D1 - 1 + M)%nat].
Proof. eapply lin_acc2; eauto. Qed.
Lemma lr_inter s : spikes_at N (inter s l) [(f + D1 - 1 + r s + D1)%nat; (f + D1 - 1 + M + Dm)%nat].
Proof. eapply lin_inter; eauto. Qed.
Lemma lr_cin s : spikes_at N (c_in (lc_ch l (ix s))) [(f + D1 - 1 + r s + D1 + D1)%nat; (f + D1 - 1 + M + Dm + D1)%nat].
Proof.
  pose proof (ci_cin _ _ _ _ _ HL s) as H2. pose proof (Hr1 s) as Q. pose proof (lr_r1 s).
  eapply relay; [exact H2|rewrite we_R; lra|rewrite cTsyn_R|cbn; lia].
  eapply arrs_2; [apply (ci_inter _ _ _ _ _ HL s)|apply lr_inter|reflexivity|lia|lia|lia].
Qed.
Lemma lr_sbin s : arrs N (sbi s (lc_sub_net l)) 1 [sa0; (sa0 + v s)%nat].
Proof. eapply lin_sbin; eauto. Qed.
Lemma lr_sbi s : spikes_at N (sbi s (lc_sub_net l)) [(rl + D1 + D2 + D1 + D1)%nat; (rl + D1 + D2 + v s + D1 + D1)%nat].
Proof.
  pose proof (ci_sbi _ _ _ _ _ HL s) as H2. pose proof (Hr1 s). pose proof (lr_vr s).
  eapply relay; [exact H2|rewrite we_R; lra|rewrite cTsyn_R|cbn; lia].
  eapply arrs_2; [apply (li_out _ _ _ _ (ci_cells _ _ _ _ _ HL (ix s) ltac:(destruct s; cbn; lia)))|eapply lin_cout; eauto|reflexivity|lia|lia|lia].
Qed.
Lemma lr_cells s : let c := lc_ch l (ix s) in
  (forall p k, In p (c_out c :: mm_nodes (c_mem c)) -> (B <= k)%nat -> st N k p = init_nstate (t_prm N p)) /\
  (forall enc y j, In y (cell_syns enc 2 (sy_sync (lc_sync_net l)) c) -> spk N j (s_pre y) = true -> (j + step_at dt (s_delay y) <= B)%nat) /\
  (forall k, (B <= k)%nat -> st N k (sy_sync (lc_sync_net l)) = at_rest 0).
Proof.
  assert (HT : 0 < Tmax) by (unfold Tmax; lra).
  pose proof (ci_two _ _ _ _ _ HL) as H2. set (cc := sy_cells (lc_sync_net l)) in *. set (sy := sy_sync (lc_sync_net l)) in *.
  assert (E : lc_ch l (ix s) = cel cc (ix s)) by reflexivity. cbv zeta. rewrite E.
  assert (Hs : In (ix s) [0; 1]%nat) by (destruct s; cbn; auto).
  assert (IG : forall i, In i [0; 1]%nat -> (i < length cc)%nat) by (intros i Hi; rewrite H2; destruct Hi as [<-|[<-|[]]]; lia).
  set (b1 := cb1 N tmin tcod cs g al be f) in *. set (b2 := cb2 N tmin tcod f) in *.
  assert (Eb1 : forall i, b1 i = (f + D1 - 1 + r (i =? 0)%nat + 3 * D1)%nat) by reflexivity.
  assert (Eb2 : forall i, b2 i = (f + D1 - 1 + M + Dm + 2 * D1)%nat) by reflexivity.
  assert (ND : NoDup [0; 1]%nat) by (repeat constructor; cbn; lia).
  assert (I0 : forall i, In i [0; 1]%nat -> arrs N (c_in (cel cc i)) 1 [b1 i; b2 i]).
  { intros i Hi. apply IG in Hi. rewrite H2 in Hi. eapply lin_cin; eauto. }
  assert (I1 : forall i, (i < length cc)%nat -> ~ In i [0; 1]%nat -> arrs N (c_in (cel cc i)) 1 []).
  { intros i Hi Hni. exfalso. rewrite H2 in Hi. apply Hni. cbn. lia. }
  assert (I2 : forall i, In i [0; 1]%nat -> (1 <= b1 i)%nat) by (intros i _; rewrite Eb1; pose proof (lr_r1 (i =? 0)%nat); lia).
  assert (I3 : forall i, In i [0; 1]%nat -> (b1 i + D1 <= b2 i)%nat) by (intros i _; rewrite Eb1, Eb2; pose proof (Hr1 (i =? 0)%nat); lia).
  assert (I4 : forall i, In i [0; 1]%nat -> (b2 i <= b1 i + M + 1)%nat) by (intros i _; rewrite Eb1, Eb2; pose proof (Hr2 (i =? 0)%nat); lia).
  assert (RD : forall i, (b1 i + D1 + D1 - 1 + M + D1 + D1 = f + D1 - 1 + r (i =? 0)%nat + 3 * D1 + 4 * D1 - 1 + M)%nat).
  { intros i. rewrite Eb1. pose proof (lr_r1 (i =? 0)%nat). lia. }
  assert (MX : forall i, (b1 i + D1 + D1 - 1 + M + D1 + D1 <= rl)%nat).
  { intros i. rewrite RD. pose proof (lr_rel (i =? 0)%nat). lia. }
  assert (HW : sync_w (T := R) 2 = 10 / 2 + / 10000) by (rewrite sync_w_R; cbn [INR]; lra).
  assert (SG : segs (map (fun i => ((b1 i + D1 + D1 - 1 + M + D1 + D1)%nat, sync_w (T := R) 2)) [0; 1]%nat) 0 [rl]).
  { change [0; 1]%nat with (seq 0 2). apply (all_needed (fun i => (b1 i + D1 + D1 - 1 + M + D1 + D1)%nat) (sync_w 2) 2 rl).
    - rewrite HW. lra.
    - lia.
    - rewrite HW. cbn [INR Nat.sub]. lra.
    - rewrite HW. cbn [INR]. lra.
    - intros i Hi. split; auto. rewrite RD. pose proof (lr_r1 (i =? 0)%nat). lia.
    - unfold rl, rel. fold dt Tmax M D1. change (rr N tmin tcod cs g al be) with r. destruct (Nat.le_ge_cases (r false) (r true)).
      + exists 0%nat. split; [lia|]. rewrite RD. cbn [Nat.eqb]. lia.
      + exists 1%nat. split; [lia|]. rewrite RD. cbn [Nat.eqb]. lia. }
  assert (O2 : (rl + D1 + D2 + (b2 (ix s) - b1 (ix s)) + D1 <= B)%nat).
  { rewrite Eb1, Eb2. replace (ix s =? 0)%nat with s by (destruct s; reflexivity). pose proof (HB s) as HBs. rewrite lr_sa in HBs. pose proof (lr_vr s). lia. }
  pose proof (ci_ssync _ _ _ _ _ HL) as SS. fold cc sy in SS.
  assert (CI : forall i, (i < length cc)%nat -> cell_in N (1000 / Tmax) sy (cel cc i)) by (intros i Hi; apply (ci_cells _ _ _ _ _ HL); rewrite <- H2; auto).
  split; [|split].
  - intros p k Hp Hk. eapply (cell_rest N Tmax (sync_w 2) sy cc [0; 1]%nat Hdt HT SS CI b1 b2); eauto. fold dt D1 D2. lia.
  - intros enc y j Hy Hj. eapply (cell_quiet N Tmax (sync_w 2) sy cc [0; 1]%nat Hdt HT SS CI b1 b2) with (KK := 2%nat) (i := ix s) (f := rl); eauto.
    intros j' Hj'. change (cel cc (ix s)) with (lc_ch l (ix s)) in Hj'. rewrite lr_cin in Hj'. apply memb_In in Hj'. fold dt D1.
    pose proof (lr_vr s). pose proof (HB s) as HBs. rewrite lr_sa in HBs. pose proof (lr_rel s). destruct Hj' as [<-|[<-|[]]]; lia.
  - intros k Hk. eapply (sy_sync_rest N Tmax (sync_w 2) sy cc [0; 1]%nat Hdt HT SS CI b1 b2) with (f := rl); eauto. lia.
Qed.

(** the spikes of the subtractor's outputs *)
Lemma lr_sbo : exists s e1 e2, spikes_at N (sbo s (lc_sub_net l)) [e1; e2] /\ spikes_at N (sbo (negb s) (lc_sub_net l)) [] /\ (1 <= e1)%nat /\ (e1 + D1 <= e2)%nat /\ (e2 + D1 <= B)%nat.
Proof.
  pose proof (ci_sb _ _ _ _ _ HL) as HM.
  assert (HI : forall s, (1 <= v s)%nat) by (intros s; pose proof (lr_vr s); pose proof (Hr1 s); lia).
  assert (SA : (1 <= sa0)%nat) by (rewrite lr_sa; lia).
  assert (Q1 : (1 <= sa0 < sa0 + v true)%nat) by (specialize (HI true); lia). assert (Q2 : (1 <= sa0 < sa0 + v false)%nat) by (specialize (HI false); lia).
  pose proof (sb_case_plus N (lc_sub_net l) tmin HM sa0 (sa0 + v true) sa0 (sa0 + v false) (lr_sbin true) (lr_sbin false) Q1 Q2 F1 F2 F3 F4 F5) as CB.
  pose proof (sb_case_zero N (lc_sub_net l) tmin HM sa0 (sa0 + v true) sa0 (sa0 + v false) (lr_sbin true) (lr_sbin false) Q1 Q2 F1 F2 F3 F4 F5) as CC.
  pose proof (sb_case_small N (lc_sub_net l) tmin HM sa0 (sa0 + v true) sa0 (sa0 + v false) (lr_sbin true) (lr_sbin false) Q1 Q2 F1 F2 F3 F4 F5) as CD.
  pose proof (sb_case_minus N (lc_sub_net l) tmin HM sa0 (sa0 + v true) sa0 (sa0 + v false) (lr_sbin true) (lr_sbin false) Q1 Q2 F1 F2 F3 F4 F5) as CE.
  fold dt Dn Dnn D3 DM in CB, CC, CD, CE. pose proof (HB true) as B1. pose proof (HB false) as B2.
  destruct Hord as [[H1 H2]|[H1|[H1 H2]]].
  - destruct CE as [X Y]; [lia|lia|]. exists false, (sa0 + v true + D3)%nat, (sa0 + v false + DM)%nat. cbn [sbo negb]. split; [exact Y|]. split; [exact X|]. lia.
  - assert (W : spikes_at N (sb_output_plus (lc_sub_net l)) [(sa0 + v false + D3)%nat; (sa0 + v true + DM)%nat] /\ spikes_at N (sb_output_minus (lc_sub_net l)) []).
    { destruct (Nat.le_gt_cases (sa0 + v false + Dnn) (sa0 + v true + Dn)); [apply CB|apply CD]; lia. }
    destruct W as [X Y]. exists true, (sa0 + v false + D3)%nat, (sa0 + v true + DM)%nat. cbn [sbo negb]. split; [exact X|]. split; [exact Y|]. lia.
  - destruct CC as [X Y]; [lia|auto|]. exists true, (sa0 + v false + D3)%nat, (sa0 + v true + DM)%nat. cbn [sbo negb]. split; [exact X|]. split; [exact Y|]. lia.
Qed.
Lemma lr_sbo_ins s : exists L, ins N (sbo s (lc_sub_net l)) L.
Proof. destruct s; eexists; apply (ci_sb _ _ _ _ _ HL). Qed.
Lemma lr_start : exists e, spikes_at N (lc_start l) [e] /\ (e + D1 <= B)%nat /\ forall k, (B <= k)%nat -> st N k (lc_start l) = init_nstate (t_prm N (lc_start l)).
Proof.
  destruct lr_sbo as (s & e1 & e2 & S1 & S2 & G1 & G2 & G3).
  set (a1 := (e1 + D1)%nat). set (a2 := (e2 + D1)%nat).
  assert (A1 : arrs N (sbo s (lc_sub_net l)) 1 [a1; a2]).
  { destruct (lr_sbo_ins s) as (L & H). eapply arrs_2; [exact H|exact S1|reflexivity|lia|lia|unfold a1, a2; lia]. }
  assert (A2 : arrs N (sbo (negb s) (lc_sub_net l)) 1 []).
  { destruct (lr_sbo_ins (negb s)) as (L & H). eapply arrs_0; [exact H|exact S2]. }
  set (E := [(a1, 10); ((a1 + D1)%nat, -10); (a2, 10)]).
  assert (A12 : forall k, (1 <= k)%nat -> INR (arr N (sb_output_plus (lc_sub_net l)) 1 k) + INR (arr N (sb_output_minus (lc_sub_net l)) 1 k) = cnt k [a1; a2]).
  { intros k Hk. destruct s; cbn [sbo negb] in A1, A2; rewrite (A1 k Hk), (A2 k Hk), cnt_nil; lra. }
  assert (HV : vonly N (lc_start l)) by (eapply ins_vonly; [exact Hstart|repeat constructor]).
  set (gg := {| g_n := lc_start l; g_S := [a1]; g_L := E |}).
  destruct (seg_group_rest N [gg]) with (g := gg) as [W R0]; [| |left; reflexivity|].
  - intros g' [<-|[]]. cbn [gg g_n g_S g_L]. split; [apply Hstart|split; [exact HV|]]. unfold E, a1, a2. segs_solve.
  - intros K HK g' [<-|[]]. cbn [gg g_n g_S g_L]. ev_input Hstart. rewrite cTsyn_R. pose proof (A12 (S K) ltac:(lia)) as A12'.
    rewrite (arr_upto N (lc_start l) 1 [a1] K); [|apply Hstart|intros j Hj; apply (HK gg); auto; left; auto|lia|intros j [<-|[]]; unfold a1; lia|repeat constructor; auto].
    autorewrite with netR. unfold E. revert A12'. ev_simpl. fold dt D1. intros. lra.
  - cbn [gg g_n g_S g_L lastsp fold_left] in W, R0. exists a1. split; [exact W|]. split; [unfold a1; lia|].
    intros k Hk. rewrite R0 by (unfold a1; lia). rewrite (ins_prm _ _ _ Hstart). change (init_nstate stdp) with (at_rest 0). f_equal.
    unfold E. assert ((a1 < k)%nat /\ (a1 + D1 <= k)%nat /\ (a2 <= k)%nat /\ (a1 < a2)%nat) by (unfold a1, a2; lia). vsum_simp. ltbs. lra.
Qed.
Lemma lr_out s : (exists L, spikes_at N (outp s l) L) /\ forall k, (B <= k)%nat -> st N k (outp s l) = init_nstate (t_prm N (outp s l)).
Proof.
  destruct lr_sbo as (s' & e1 & e2 & S1 & S2 & G1 & G2 & G3). pose proof (ci_out _ _ _ _ _ HL) as HO.
  destruct (Bool.eqb_spec s s') as [->|Hs].
  - assert (A1 : arrs N (sbo s' (lc_sub_net l)) 1 [(e1 + D1)%nat; (e2 + D1)%nat]).
    { destruct (lr_sbo_ins s') as (L & H). eapply arrs_2; [exact H|exact S1|reflexivity|lia|lia|lia]. }
    assert (SP : spikes_at N (outp s' l) [(e1 + D1)%nat; (e2 + D1)%nat]).
    { eapply relay; [apply HO|rewrite we_R; lra|rewrite cTsyn_R; exact A1|cbn; lia]. }
    split; [eauto|]. intros k Hk. eapply (ins_settled _ _ _ (e2 + D1)); [apply HO|eapply spk_last; [exact SP|right; left; reflexivity]| |lia].
    repeat constructor; cbn [s_pre s_delay mks]; rewrite cTsyn_R. eapply over_arrs; [exact A1|]. cbn [In]. intros ? [<-|[<-|[]]]; lia.
  - assert (s = negb s') by (destruct s, s'; auto; congruence). subst s.
    assert (A2 : arrs N (sbo (negb s') (lc_sub_net l)) 1 []).
    { destruct (lr_sbo_ins (negb s')) as (L & H). eapply arrs_0; [exact H|exact S2]. }
    split.
    + exists []. eapply last_none; [apply HO|exact A2].
    + intros k Hk. eapply none_settled; [apply HO|]. intros y [<-|[]]. cbn [s_pre s_delay mks]. rewrite cTsyn_R. exact A2.
Qed.
(** *** the input cells *)
Lemma lr_first i b : (i < n)%nat -> (forall j, spk N j (lfs b (lcl xs i)) = true -> j = al i) /\ forall k, (B <= k)%nat -> st N k (lfs b (lcl xs i)) = init_nstate (t_prm N (lfs b (lcl xs i))).
Proof.
  intros Hi. pose proof (ci_first _ _ _ _ _ HL i b Hi) as FF. cbv zeta in FF. fold xs in FF. pose proof (Hf1 i Hi). pose proof (HB true) as B1. pose proof (lr_rel true). rewrite lr_sa in B1.
  pose proof (Hbe i Hi). pose proof (Hal i Hi). pose proof (lr_r1 true).
  destruct (Bool.eqb_spec b (g i)) as [->|Hb].
  - split.
    + assert (SP : spikes_at N (lfs (g i) (lcl xs i)) [al i]) by (eapply first_spikes; [exact FF|rewrite cTsyn_R; apply Hin; auto|auto|auto]).
      intros j Hj. rewrite SP in Hj. apply memb_In in Hj. destruct Hj as [<-|[]]; auto.
    + intros k Hk. eapply first_settled; [exact FF|apply Hin; auto|auto|auto|lia].
  - assert (b = negb (g i)) by (destruct b, (g i); auto; congruence). subst b. split.
    + assert (SP : spikes_at N (lfs (negb (g i)) (lcl xs i)) []) by (eapply first_none; [exact FF|apply Hnone; auto]).
      intros j Hj. rewrite SP in Hj. discriminate.
    + intros k Hk. eapply first_none_settled; [exact FF|apply Hnone; auto].
Qed.
Lemma lr_last i b : (i < n)%nat -> (forall j, spk N j (lls b (lcl xs i)) = true -> j = be i) /\ forall k, (B <= k)%nat -> st N k (lls b (lcl xs i)) = init_nstate (t_prm N (lls b (lcl xs i))).
Proof.
  intros Hi. pose proof (ci_last _ _ _ _ _ HL i b Hi) as FF. cbv zeta in FF. fold xs in FF. pose proof (Hf1 i Hi). pose proof (HB true) as B1. pose proof (lr_rel true). rewrite lr_sa in B1.
  pose proof (Hbe i Hi). pose proof (Hal i Hi). pose proof (lr_r1 true).
  destruct (Bool.eqb_spec b (g i)) as [->|Hb].
  - assert (SP : spikes_at N (lls (g i) (lcl xs i)) [be i]) by (eapply last_spikes; [exact FF|rewrite cTsyn_R; apply Hin; auto|auto|lia]).
    split.
    + intros j Hj. rewrite SP in Hj. apply memb_In in Hj. destruct Hj as [<-|[]]; auto.
    + intros k Hk. eapply (ins_settled _ _ _ (be i)); [exact FF|eapply spk_last; [exact SP|left; reflexivity]| |lia].
      repeat constructor; cbn [s_pre s_delay mks]; rewrite cTsyn_R. eapply over_arrs; [apply Hin; auto|]. cbn [In]. intros ? [<-|[<-|[]]]; lia.
  - assert (b = negb (g i)) by (destruct b, (g i); auto; congruence). subst b. split.
    + assert (SP : spikes_at N (lls (negb (g i)) (lcl xs i)) []) by (eapply last_none; [exact FF|apply Hnone; auto]).
      intros j Hj. rewrite SP in Hj. discriminate.
    + intros k Hk. eapply none_settled; [exact FF|]. intros y [<-|[]]. cbn [s_pre s_delay mks]. rewrite cTsyn_R. apply Hnone; auto.
Qed.
Lemma lr_src_spk i b j : (i < n)%nat -> spk N j (lis b (lcl xs i)) = true -> (j + D1 <= B)%nat.
Proof. intros Hi. destruct (Hsrc i b Hi) as [X Y]. auto. Qed.

Definition lr_node (p : nat) : Prop :=
  In p (lc_own l) \/ p = sy_sync (lc_sync_net l) \/ (exists s, p = c_in (lc_ch l (ix s)) \/ In p (c_out (lc_ch l (ix s)) :: mm_nodes (c_mem (lc_ch l (ix s))))) \/
  (exists s, p = sbi s (lc_sub_net l)) \/ In p (sb_internal (lc_sub_net l)) \/
  (exists i b, (i < n)%nat /\ (p = lis b (lcl xs i) \/ p = lfs b (lcl xs i) \/ p = lls b (lcl xs i))).
Lemma lr_lfs_arr i b e : (i < n)%nat -> over N (lfs b (lcl xs i)) e (al i + step_at dt e).
Proof.
  intros Hi. eapply over_arrs; [eapply lin_first; eauto|]. fold dt. intros j Hj. destruct (Bool.eqb b (g i)); [|destruct Hj]. destruct Hj as [<-|[]]; lia.
Qed.
Lemma lr_lls_arr i b e : (i < n)%nat -> over N (lls b (lcl xs i)) e (be i + step_at dt e).
Proof.
  intros Hi. eapply over_arrs; [eapply lin_last; eauto|]. fold dt. intros j Hj. destruct (Bool.eqb b (g i)); [|destruct Hj]. destruct Hj as [<-|[]]; lia.
Qed.
Lemma lr_rest p k : lr_node p -> (B <= k)%nat -> st N k p = init_nstate (t_prm N p).
Proof.
  intros Hp Hk.
  pose proof (HB true) as B1. pose proof (HB false) as B2. pose proof (lr_rel true) as R1. pose proof (lr_rel false) as R2. rewrite lr_sa in B1, B2.
  pose proof (lr_r1 true) as G1. pose proof (lr_r1 false) as G2. pose proof (lr_vr true) as V1. pose proof (lr_vr false) as V2. pose proof (step_at_ge1 dt Tmax) as GM. fold M in GM.
  assert (SYN : over N (lc_sync l) 1 (f + D1)).
  { eapply over_spk; [apply HL|apply lr_sync|]. fold dt D1. intros j [<-|[]]; lia. }
  assert (C1 : forall s, st N k (acc1 s l) = init_nstate (t_prm N (acc1 s l))).
  { intros s. eapply (ins_settled _ _ _ (f + D1 - 1 + r s)); [apply (ci_acc1 _ _ _ _ _ HL s)|eapply spk_last; [apply lr_acc1|left; reflexivity]| |destruct s; lia].
    constructor; [cbn [s_pre s_delay mks]; rewrite cTsyn_R; eapply over_le; [exact SYN|destruct s; lia]|].
    apply Forall_flat_map. rewrite Forall_forall. intros [c x] Hx. apply in_combine_r in Hx. cbn [fst snd]. apply (In_nth _ _ lcell0) in Hx as (i & Hi & <-). fold xs (lcl xs i).
    rewrite (ci_len _ _ _ _ _ HL) in Hi. fold n in Hi. pose proof (HAB i Hi) as HA. unfold eA, eB, evA, evB in HA. fold dt D1 Dm in HA. pose proof (Hf1 i Hi).
    repeat constructor; cbn [s_pre s_delay mks]; rewrite cTsyn_R; change (nadd 1 tmin) with (1 + tmin);
      (eapply over_le; [first [apply lr_lfs_arr; auto|apply lr_lls_arr; auto]|fold D1 Dm; destruct s; lia]). }
  assert (C2 : forall s, st N k (acc2 s l) = init_nstate (t_prm N (acc2 s l))).
  { intros s. eapply (ins_settled _ _ _ (f + D1 - 1 + M)); [apply (ci_acc2 _ _ _ _ _ HL s)|eapply spk_last; [apply lr_acc2|left; reflexivity]| |lia].
    repeat constructor; cbn [s_pre s_delay mks]; rewrite cTsyn_R. eapply over_le; [exact SYN|lia]. }
  assert (C3 : forall s, st N k (inter s l) = init_nstate (t_prm N (inter s l))).
  { intros s. eapply (ins_settled _ _ _ (f + D1 - 1 + M + Dm)); [apply (ci_inter _ _ _ _ _ HL s)|eapply spk_last; [apply lr_inter|right; left; reflexivity]| |lia].
    pose proof (lr_vr s) as Vs. pose proof (Hr1 s) as Hrs.
    repeat constructor; cbn [s_pre s_delay mks]; rewrite cTsyn_R; change (nadd 1 tmin) with (1 + tmin).
    - eapply over_spk; [apply (ci_acc1 _ _ _ _ _ HL s)|apply lr_acc1|]. fold dt D1. intros j [<-|[]]. lia.
    - eapply over_spk; [apply (ci_acc2 _ _ _ _ _ HL s)|apply lr_acc2|]. fold dt Dm. intros j [<-|[]]. lia. }
  destruct Hp as [Hp|[Hp|[(s & Hp)|[(s & Hp)|[Hp|(i & b & Hi & Hp)]]]]].
  - unfold lc_own in Hp. cbn [In] in Hp.
    destruct Hp as [<-|[<-|[<-|[<-|[<-|[<-|[<-|[<-|[<-|[<-|[]]]]]]]]]]].
    + apply (C1 true).
    + apply (C1 false).
    + apply (C2 true).
    + apply (C2 false).
    + apply (C3 false).
    + apply (C3 true).
    + apply (proj2 (lr_out true)); auto.
    + apply (proj2 (lr_out false)); auto.
    + destruct lr_start as (e & _ & _ & H). auto.
    + eapply (ins_settled _ _ _ f); [apply (ci_sync _ _ _ _ _ HL)|eapply spk_last; [apply lr_sync|left; reflexivity]| |lia].
      apply Forall_flat_map. rewrite Forall_forall. intros x Hx. apply (In_nth _ _ lcell0) in Hx as (i & Hi & <-). fold xs (lcl xs i).
      rewrite (ci_len _ _ _ _ _ HL) in Hi. fold n in Hi. pose proof (Hf1 i Hi).
      repeat constructor; cbn [s_pre s_delay mks]; rewrite cTsyn_R; (eapply over_le; [|exact (Hf1 i Hi)]); [apply (lr_lls_arr i true 1 Hi)|apply (lr_lls_arr i false 1 Hi)].
  - subst p. rewrite (ins_prm _ _ _ (ci_ssync _ _ _ _ _ HL)). change (init_nstate stdp) with (at_rest 0). apply (lr_cells true); auto.
  - destruct Hp as [->|Hp]; [|apply (lr_cells s); auto].
    pose proof (lr_vr s) as Vs. pose proof (Hr1 s) as Hrs.
    eapply (ins_settled _ _ _ (f + D1 - 1 + M + Dm + D1)); [apply (ci_cin _ _ _ _ _ HL s)|eapply spk_last; [apply lr_cin|right; left; reflexivity]| |lia].
    repeat constructor; cbn [s_pre s_delay mks]; rewrite cTsyn_R. eapply over_spk; [apply (ci_inter _ _ _ _ _ HL s)|apply lr_inter|]. fold dt D1. intros j [<-|[<-|[]]]; lia.
  - subst p. eapply (ins_settled _ _ _ (rl + D1 + D2 + v s + D1 + D1)); [apply (ci_sbi _ _ _ _ _ HL s)|eapply spk_last; [apply lr_sbi|right; left; reflexivity]| |destruct s; lia].
    repeat constructor; cbn [s_pre s_delay mks]; rewrite cTsyn_R.
    assert (SCO : spikes_at N (c_out (lc_ch l (ix s))) [(rl + D1 + D2 + D1)%nat; (rl + D1 + D2 + v s + D1)%nat]) by (eapply lin_cout; eauto).
    eapply over_spk; [apply (li_out _ _ _ _ (ci_cells _ _ _ _ _ HL (ix s) ltac:(destruct s; cbn; lia)))|exact SCO|]. fold dt D1. intros j [<-|[<-|[]]]; lia.
  - assert (SA : (1 <= sa0)%nat) by (rewrite lr_sa; lia). pose proof (Hr1 true). pose proof (Hr1 false).
    eapply (sb_rest N (lc_sub_net l) tmin (ci_sb _ _ _ _ _ HL) sa0 (sa0 + v true) sa0 (sa0 + v false) (lr_sbin true) (lr_sbin false)) with (B := B); eauto; fold dt D1 Dn Dnn D3 DM; try lia.
  - destruct Hp as [->|[->| ->]].
    + apply (Hsrc i b Hi); auto.
    + apply (lr_first i b Hi); auto.
    + apply (lr_last i b Hi); auto.
Qed.

Lemma lr_sb_quiet enc y j : Tmin enc = tmin -> In y (sb_syns enc (lc_sub_net l)) -> spk N j (s_pre y) = true -> (j + step_at dt (s_delay y) <= B)%nat.
Proof.
  intros Et Hy Hs. set (m := lc_sub_net l) in *.
  pose proof (HB true) as B1. pose proof (HB false) as B2. pose proof (Hr1 true) as H1. pose proof (Hr1 false) as H2. pose proof (lr_vr true). pose proof (lr_vr false).
  assert (SA : (1 <= sa0)%nat) by (rewrite lr_sa; lia). pose proof (ci_sb _ _ _ _ _ HL) as HM. fold m in HM.
  assert (Q1 : (1 <= sa0 < sa0 + v true)%nat) by lia. assert (Q2 : (1 <= sa0 < sa0 + v false)%nat) by lia.
  pose proof (lr_sbin true) as A1. pose proof (lr_sbin false) as A2. cbn [sbi] in A1, A2. fold m in A1, A2.
  assert (SS1 : spikes_at N (sb_sync1 m) [(sa0 + v true)%nat]) by (eapply sb_sync1_spk; eauto). assert (SS2 : spikes_at N (sb_sync2 m) [(sa0 + v false)%nat]) by (eapply sb_sync2_spk; eauto).
  pose proof (lr_sbi true) as SI1. pose proof (lr_sbi false) as SI2. cbn [sbi] in SI1, SI2. fold m in SI1, SI2.
  assert (FB : forall p, In p [sb_inb1 m; sb_inb2 m; sb_output_plus m; sb_output_minus m; sb_zero m] -> spk N j p = true -> (j + D1 <= B)%nat).
  { intros p Hp Hsp. assert (ORD : ((sa0 + v true < sa0 + v false /\ sa0 + v true + Dnn <= sa0 + v false + Dn) \/ sa0 + v false < sa0 + v true \/ (sa0 + v true = sa0 + v false /\ Dn < Dnn))%nat) by lia.
    assert (X1 : (sa0 + v true + DM + D1 <= B)%nat) by lia. assert (X2 : (sa0 + v false + DM + D1 <= B)%nat) by lia.
    destruct (sb_five N m tmin HM _ _ _ _ A1 A2 Q1 Q2 F1 F2 F3 F4 F5 ORD B X1 X2 p Hp) as ((ll & A & BB) & _). apply BB. rewrite A in Hsp. apply memb_In in Hsp. exact Hsp. }
  rewrite lr_sa in B1, B2.
  unfold sb_syns in Hy. cbn [In] in Hy. unfold sb_d3 in Hy. rewrite Et in Hy.
  repeat destruct Hy as [<-|Hy]; try destruct Hy; cbn [s_pre s_delay syn mks] in *; netr; autorewrite with netR; fold D1 Dn Dnn D3 DM;
      first [ rewrite SI1 in Hs; apply memb_In in Hs; destruct Hs as [<-|[<-|[]]]; lia
            | rewrite SI2 in Hs; apply memb_In in Hs; destruct Hs as [<-|[<-|[]]]; lia
            | rewrite SS1 in Hs; apply memb_In in Hs; destruct Hs as [<-|[]]; rewrite lr_sa; lia
            | rewrite SS2 in Hs; apply memb_In in Hs; destruct Hs as [<-|[]]; rewrite lr_sa; lia
            | (assert (j + D1 <= B)%nat by (eapply FB; [|exact Hs]; cbn [In]; tauto)); lia ].
Qed.
Lemma lr_cell_quiet enc K c i y j : Tmin enc = tmin -> (i < n)%nat -> In y (lcell_syns enc K (lc_sync l) (lc_acc1_plus l) (lc_acc1_minus l) (c, lcl xs i)) -> spk N j (s_pre y) = true -> (j + step_at dt (s_delay y) <= B)%nat.
Proof.
  intros Et Hi Hy Hs. pose proof (HB true) as B1. pose proof (lr_rel true) as R1. rewrite lr_sa in B1. pose proof (lr_r1 true).
  pose proof (Hf1 i Hi) as H1. pose proof (HAB i Hi) as HA. unfold eA, eB, evA, evB in HA. fold dt D1 Dm in HA. pose proof (Hbe i Hi).
  pose proof (lr_src_spk i true j Hi) as S1. pose proof (lr_src_spk i false j Hi) as S2.
  destruct (lr_first i true Hi) as [P1 _]. destruct (lr_first i false Hi) as [P2 _]. destruct (lr_last i true Hi) as [P3 _]. destruct (lr_last i false Hi) as [P4 _].
  specialize (P1 j). specialize (P2 j). specialize (P3 j). specialize (P4 j). cbn [lis lfs lls] in *.
  unfold lcell_syns in Hy. cbn [fst snd In] in Hy. rewrite Et in Hy.
  repeat destruct Hy as [<-|Hy]; try destruct Hy; cbn [s_pre s_delay syn mks] in *; netr; autorewrite with netR; fold D1 Dm;
    first [ apply S1 in Hs; lia | apply S2 in Hs; lia | apply P1 in Hs; lia | apply P2 in Hs; lia | apply P3 in Hs; lia | apply P4 in Hs; lia ].
Qed.
Lemma lr_quiet enc y j : Tmin enc = tmin -> In y (lc_syns enc n cs l) -> spk N j (s_pre y) = true -> (j + step_at dt (s_delay y) <= B)%nat.
Proof.
  intros Et Hy Hs. unfold lc_syns in Hy. cbv zeta in Hy.
  apply in_app_or in Hy as [Hy|Hy].
  { unfold sy_syns in Hy. pose proof (ci_two _ _ _ _ _ HL) as H2. apply in_flat_map in Hy as (c & Hc & Hy).
    apply (In_nth _ _ cell0) in Hc as (i & Hi & <-). rewrite H2 in Hi.
    assert (Ei : i = ix true \/ i = ix false) by (cbn; lia). destruct Ei as [-> | ->]; eapply lr_cells; eauto. }
  apply in_app_or in Hy as [Hy|Hy]; [eapply lr_sb_quiet; eauto|].
  apply in_app_or in Hy as [Hy|Hy].
  - pose proof (HB true) as B1. pose proof (HB false) as B2. pose proof (lr_rel true) as R1. pose proof (lr_rel false) as R2.
    pose proof (lr_r1 true) as G1. pose proof (lr_r1 false) as G2. pose proof (lr_vr true) as V1. pose proof (lr_vr false) as V2. pose proof (step_at_ge1 dt Tmax) as GM. fold M in GM.
    pose proof (Hr1 true) as Q1. pose proof (Hr1 false) as Q2. rewrite lr_sa in B1, B2.
    destruct lr_sbo as (s & e1 & e2 & S1 & S2 & X1 & X2 & X3).
    assert (SBO : forall b, spk N j (sbo b (lc_sub_net l)) = true -> (j + D1 <= B)%nat).
    { intros b Hb. destruct (Bool.eqb_spec b s) as [->|Hne].
      - rewrite S1 in Hb. apply memb_In in Hb. destruct Hb as [<-|[<-|[]]]; lia.
      - assert (b = negb s) by (destruct b, s; auto; congruence). subst b. rewrite S2 in Hb. discriminate. }
    pose proof (SBO true) as SB1. pose proof (SBO false) as SB2. cbn [sbo] in SB1, SB2.
    destruct lr_start as (e & SST & Y1 & _).
    assert (SCO : forall b, spikes_at N (c_out (lc_ch l (ix b))) [(rl + D1 + D2 + D1)%nat; (rl + D1 + D2 + v b + D1)%nat]) by (intros b; eapply lin_cout; eauto).
    pose proof (SCO true) as O1. pose proof (SCO false) as O2. cbn [ix] in O1, O2.
    pose proof (lr_inter true) as I1. pose proof (lr_inter false) as I2. cbn [inter] in I1, I2.
    pose proof (lr_acc1 true) as A1. pose proof (lr_acc1 false) as A2. pose proof (lr_acc2 true) as A3. pose proof (lr_acc2 false) as A4. cbn [acc1 acc2] in A1, A2, A3, A4.
    pose proof lr_sync as SY. cbn [In] in Hy. rewrite Et in Hy.
    repeat destruct Hy as [<-|Hy]; try destruct Hy; cbn [s_pre s_delay syn mks] in *; netr; autorewrite with netR; fold D1 Dm;
      first [ apply SB1; exact Hs | apply SB2; exact Hs
            | (first [rewrite O1 in Hs | rewrite O2 in Hs | rewrite SST in Hs | rewrite I1 in Hs | rewrite I2 in Hs | rewrite SY in Hs | rewrite A1 in Hs | rewrite A2 in Hs | rewrite A3 in Hs | rewrite A4 in Hs]);
              apply memb_In in Hs; cbn [In] in Hs; repeat destruct Hs as [<-|Hs]; try destruct Hs; lia ].
  - rewrite (flat_map_nth_seq _ (0, lcell0)) in Hy. apply in_flat_map in Hy as (i & Hi & Hy). apply in_seq in Hi.
    rewrite combine_length, (ci_len _ _ _ _ _ HL) in Hi. fold n in Hi. rewrite combine_nth in Hy by (rewrite (ci_len _ _ _ _ _ HL); reflexivity).
    eapply lr_cell_quiet; [exact Et| |exact Hy|exact Hs]. lia.
Qed.
End LinRest.

Section RunRest.
Variable N : tnet.
Let dt := t_dt N.
Variables tmin tcod tl eta : R.
Variable K : nat.
Let T := INR K * dt.
Variables v t : nat -> R.
Variable cs : list R.
Let n := length cs.
Let Tmax := tmin + tcod.
Hypothesis Hdt0 : 0 < dt.
Hypothesis Hdt1 : dt < / 50.
Hypothesis Htc : 0 < tcod.
Hypothesis Hn : (1 <= n)%nat.
Hypothesis Hv : forall i, (i < n)%nat -> Rabs (v i) <= 1.
Hypothesis Ht : forall i, (i < n)%nat -> 0 <= t i <= tl.
Hypothesis Heta : 0 <= eta.
Hypothesis Htm : 1 + 3 * dt + eta * norm1 cs <= tmin.
Hypothesis Hp : dot_pos cs v * tcod + eta * norm1 cs <= tcod.
Hypothesis Hm : dot_neg cs v * tcod + eta * norm1 cs <= tcod.
Hypothesis HT : tl + 4 * (tmin + tcod) + 2 * tmin + 21 <= T.
Variable gv : nat -> bool.
Hypothesis Hgv : forall i, (i < n)%nat -> sgn_ok (gv i) (v i).
Let al := LinRun.al N t.
Let be := LinRun.be N tmin tcod v t.
Let D1 := step_at dt 1.
Let D2 := step_at dt 2.
Let Dm := step_at dt (1 + tmin).
Let M := step_at dt Tmax.
Let Dn := step_at dt (/ 100).
Let Dnn := step_at dt (2 * / 100).
Let D3 := step_at dt (3 * 1 + 2 * / 100).
Let DM := step_at dt (tmin + (3 * 1 + 2 * / 100)).
Hypothesis Hgap : forall i, (i < n)%nat -> Rabs (dt * (INR (be i + D1) - INR (al i + Dm)) - Rabs (v i) * tcod) <= eta.
Variable l : lin_net.
Hypothesis HL : lc_in N (1000 / Tmax) tmin l cs.
Hypothesis Hin : forall i, (i < n)%nat -> arrs N (lis (gv i) (lcl (lc_cells l) i)) 1 [al i; be i].
Hypothesis Hnone : forall i, (i < n)%nat -> arrs N (lis (negb (gv i)) (lcl (lc_cells l) i)) 1 [].


Let r := rr N tmin tcod cs gv al be.
Let i_ := iv N tmin tcod cs gv al be.
Hypothesis Hdec : dot_neg cs v * tcod + eta * norm1 cs <= dot_pos cs v * tcod \/ dot_pos cs v * tcod + eta * norm1 cs + 1 / 100 + 2 * dt <= dot_neg cs v * tcod.
Hypothesis Hstart : ins N (lc_start l) [mks (sb_output_plus (lc_sub_net l)) (lc_start l) SynV we cTsyn; mks (sb_output_minus (lc_sub_net l)) (lc_start l) SynV we cTsyn; mks (lc_start l) (lc_start l) SynV wi cTsyn].
Hypothesis Hsrc : forall i b, (i < n)%nat -> (forall k, (K <= k)%nat -> st N k (lis b (lcl (lc_cells l) i)) = init_nstate (t_prm N (lis b (lcl (lc_cells l) i)))) /\
  (forall j, spk N j (lis b (lcl (lc_cells l) i)) = true -> (j + D1 <= K)%nat).
Lemma lin_run_rest :
  (forall p, lr_node l cs p -> st N K p = init_nstate (t_prm N p)) /\
  (forall enc y j, Tmin enc = tmin -> In y (lc_syns enc n cs l) -> spk N j (s_pre y) = true -> (j + step_at dt (s_delay y) <= K)%nat) /\
  (forall i, (i < n)%nat -> (al i <= K)%nat /\ (be i <= K)%nat).
Proof.
  pose proof (LinRun.en_pos eta cs Heta) as EP. pose proof (LinRun.vt tcod v cs Htc Hv) as vt. pose proof (LinRun.dots_hyp tcod eta v cs Hp Hm) as dots_hyp.
  assert (dots_sel : forall s, LinRun.dots v cs s * tcod = sumf (fun i => if sel cs gv s i then Rabs (nth i cs 0) * (Rabs (v i) * tcod) else 0) (seq 0 n)) by (intros s; eapply (LinRun.dots_sel N tmin); eauto).
  pose proof (LinRun.Asel_le eta cs Heta gv) as Asel_le. pose proof (LinRun.Psum_bound N tmin tcod eta v t cs Hn gv Hgv Hgap) as Psum_bound. fold dt al be in Psum_bound.
  pose proof (LinRun.dots_pos v cs) as dots_pos. pose proof (LinRun.Asel_split cs gv) as Asel_split.
  assert (Htm0 : 0 < tmin) by lra.
  pose proof (step_at_bounds dt 1 Hdt0 ltac:(lra)) as B1. pose proof (step_at_bounds dt 2 Hdt0 ltac:(lra)) as B2.
  pose proof (step_at_bounds dt (1 + tmin) Hdt0 ltac:(lra)) as Bm. pose proof (step_at_bounds dt Tmax Hdt0 ltac:(unfold Tmax; lra)) as BM.
  pose proof (step_at_ge1 dt Tmax) as GM. fold D1 in B1. fold D2 in B2. fold Dm in Bm. fold M in BM, GM.
  destruct (sb_facts dt tmin ltac:(lra) ltac:(lra)) as ((F1 & F2 & F3 & F4 & F5) & FZ & _ & FN & FD & ZM). specialize (FZ ltac:(lra)).
  fold D1 Dn Dnn D3 DM in F1, F2, F3, F4, F5, FZ, FN, FD, ZM.
  assert (HDD : (1 < D1 /\ D1 < D2 /\ D2 <= 2 * D1)%nat).
  { split; [nat_lt dt Hdt0; lra|]. split; [nat_lt dt Hdt0; lra|]. assert (D2 < 2 * D1 + 1)%nat; [|lia]. nat_lt dt Hdt0. lra. }
  assert (Hal : forall i, (i < n)%nat -> (1 <= al i)%nat) by (intros; apply step_at_ge1).
  assert (HQ : forall i, (i < n)%nat -> (al i + D1 <= be i)%nat /\ (al i + Dm <= be i + D1 + 1)%nat /\ INR (be i) * dt <= tl + 1 + Tmax + dt).
  { intros i Hi. destruct (Ht i Hi). destruct (vt i Hi).
    destruct (step_diff dt (t i + 1) (tmin + Rabs (v i) * tcod) Hdt0 ltac:(lra) ltac:(lra)) as (_ & Q & _).
    fold dt; change (step_at dt (t i + 1)) with (al i) in Q; change (step_at dt (t i + 1 + (tmin + Rabs (v i) * tcod))) with (be i) in Q. apply Rabs_def2 in Q. pose proof (step_at_bounds dt (t i + 1) Hdt0 ltac:(lra)) as BA. change (step_at dt (t i + 1)) with (al i) in BA.
    pose proof (step_time dt (t i + 1 + (tmin + Rabs (v i) * tcod)) Hdt0 ltac:(lra)) as ZB. change (step_at dt (t i + 1 + (tmin + Rabs (v i) * tcod))) with (be i) in ZB.
    split; [|split].
    - assert (al i + D1 < be i + 1)%nat; [|lia]. nat_lt dt Hdt0. lra.
    - assert (al i + Dm < be i + D1 + 2)%nat; [|lia]. nat_lt dt Hdt0. lra.
    - unfold Tmax. lra. }
  destruct (max_index (fun i => (be i + D1)%nat) n Hn) as (f & Hf1 & Hf2).
  assert (Hf3 : INR f * dt <= tl + 1 + Tmax + dt + (1 + dt)).
  { destruct Hf2 as (i & Hi & <-). destruct (HQ i Hi) as (_ & _ & Z). inr. lra. }
  set (d := fun i => (Rabs (v i) * tcod + eta) / dt).
  assert (Hd : forall i, (i < n)%nat -> 0 <= d i /\ INR (evB N be i) - INR (evA N tmin al i) <= d i).
  { intros i Hi. destruct (vt i Hi). split; [apply Rmult_le_pos; [lra|left; apply Rinv_0_lt_compat; auto]|].
    pose proof (Hgap i Hi) as G. change (be i + D1)%nat with (evB N be i) in G. change (al i + Dm)%nat with (evA N tmin al i) in G.
    assert (G2 : dt * (INR (evB N be i) - INR (evA N tmin al i)) <= Rabs (v i) * tcod + eta).
    { pose proof (Rle_abs (dt * (INR (evB N be i) - INR (evA N tmin al i)) - Rabs (v i) * tcod)). lra. }
    apply Rmult_le_reg_l with dt; auto. unfold d. replace (dt * ((Rabs (v i) * tcod + eta) / dt)) with (Rabs (v i) * tcod + eta) by (field; lra). exact G2. }
  assert (HAB : forall i, (i < n)%nat -> (evA N tmin al i <= evB N be i + 1)%nat).
  { intros i Hi. unfold evA, evB. fold dt D1 Dm. apply HQ; auto. }
  assert (Hsum : forall s, dt * sumf (fun i => if sel cs gv s i then Rabs (nth i cs 0) * d i else 0) (seq 0 n) <= tcod).
  { intros s. eapply Rle_trans; [|apply (dots_hyp s)]. rewrite dots_sel. rewrite <- sumf_mult.
    pose proof (Asel_le s) as AL. eapply Rle_trans; [|apply Rplus_le_compat_l; exact AL].
    unfold Asel. rewrite <- sumf_mult, <- sumf_add. right. apply sumf_ext. intros i _. destruct (sel cs gv s i); [|ring]. unfold d. field. lra. }
  pose proof (rr_bounds N tmin tcod cs Hdt0 Htm0 Hn gv al be HDD d Hd Hsum) as RB. fold r dt Tmax in RB.
  assert (PB : forall s, - (eta * norm1 cs) <= dt * Psum N tmin cs gv al be s - LinRun.dots v cs s * tcod <= eta * norm1 cs).
  { intros s. pose proof (Psum_bound s) as B. pose proof (Asel_le s). apply Rabs_le_btw in B. lra. }
  assert (P0 : forall s, - (eta * norm1 cs) <= dt * Psum N tmin cs gv al be s <= tcod).
  { intros s. pose proof (PB s). pose proof (dots_pos s). assert (0 <= LinRun.dots v cs s * tcod) by (apply Rmult_le_pos; lra). pose proof (dots_hyp s). lra. }
  assert (Hr1 : forall s, (r s + 2 * D1 <= M + Dm)%nat).
  { intros s. destruct (RB s). specialize (P0 s). assert (r s + 2 * D1 < M + Dm + 1)%nat; [|lia]. nat_lt dt Hdt0. lra. }
  assert (Hr2 : forall s, (Dm <= r s + D1 + 1)%nat).
  { intros s. destruct (RB s). specialize (P0 s). nat_le dt Hdt0. unfold Tmax in *. lra. }

  set (sa0 := sa N tmin tcod cs gv al be f) in *.
  assert (IR : forall s, (i_ s + r s + D1 = M + Dm)%nat).
  { intros s. unfold i_, iv. fold dt Tmax M Dm D1. change (rr N tmin tcod cs gv al be s) with (r s). specialize (Hr1 s). lia. }
  assert (BT : LinRun.dots v cs true * tcod - eta * LinRun.Asel cs gv true <= dt * Psum N tmin cs gv al be true <= LinRun.dots v cs true * tcod + eta * LinRun.Asel cs gv true).
  { pose proof (Psum_bound true) as B. apply Rabs_le_btw in B. lra. }
  assert (BF : LinRun.dots v cs false * tcod - eta * LinRun.Asel cs gv false <= dt * Psum N tmin cs gv al be false <= LinRun.dots v cs false * tcod + eta * LinRun.Asel cs gv false).
  { pose proof (Psum_bound false) as B. apply Rabs_le_btw in B. lra. }
  assert (EA : eta * LinRun.Asel cs gv true + eta * LinRun.Asel cs gv false = eta * norm1 cs) by (rewrite <- Rmult_plus_distr_l, Asel_split; auto).
  assert (F6 : (D3 + D1 <= DM)%nat).
  { assert (D3 + D1 < DM + 1)%nat; [|lia]. pose proof (step_at_bounds dt (3 * 1 + 2 * / 100) Hdt0 ltac:(lra)) as B3. fold D3 in B3.
    pose proof (step_at_bounds dt (tmin + (3 * 1 + 2 * / 100)) Hdt0 ltac:(lra)) as B4. fold DM in B4. nat_lt dt Hdt0. lra. }
  assert (Hord : ((i_ true < i_ false /\ i_ true + Dnn <= i_ false + Dn) \/ i_ false < i_ true \/ (i_ true = i_ false /\ Dn < Dnn))%nat).
  { pose proof (IR true). pose proof (IR false). cbn [LinRun.dots] in BT, BF. destruct Hdec as [HS|HS].
    - right. assert (RL : (r true <= r false)%nat). { unfold r, rr. fold dt. apply step_at_mono; auto. lra. } lia.
    - left. pose proof (RB true). pose proof (RB false).
      assert (i_ true + Dnn <= i_ false + Dn)%nat.
      { assert (r false + Dnn < r true + Dn + 1)%nat; [|lia]. nat_lt dt Hdt0. lra. }
      lia. }
  assert (HBK : forall s, (sa0 + i_ s + DM + D1 <= K)%nat).
  { intros s. apply INR_le. apply Rmult_le_reg_r with dt; auto. fold T. pose proof (IR s) as I1. apply (f_equal INR) in I1. rewrite !plus_INR in I1.
    pose proof (RB s) as R1. pose proof (P0 s) as P1. 
    assert (MX : INR (Nat.max (r true) (r false)) * dt <= Tmax + eta * norm1 cs + dt).
    { destruct (Nat.max_spec (r true) (r false)) as [[_ ->]|[_ ->]]; [pose proof (RB false); pose proof (P0 false)|pose proof (RB true); pose proof (P0 true)]; lra. }
    assert (GF : (1 <= f)%nat) by (destruct Hf2 as (i & _ & <-); lia).
    assert (ESA : INR sa0 = INR f + INR (Nat.max (r true) (r false)) + 12 * INR D1 + INR M + INR D2 - 2).
    { unfold sa0, sa, rel. fold dt D1 D2. change (step_at dt (tmin + tcod)) with M. change (rr N tmin tcod cs gv al be) with r.
      replace (f + D1 - 1 + Nat.max (r true) (r false) + 3 * D1 + 4 * D1 - 1 + M + D1 + D2 + 3 * D1)%nat with (f + Nat.max (r true) (r false) + 12 * D1 + M + D2 - 2)%nat by lia.
      rewrite minus_INR by lia. rewrite !plus_INR, mult_INR. cbn [INR]. lra. }
    rewrite !plus_INR, ESA. unfold Tmax in *.
    assert (INR (i_ s) * dt + INR (r s) * dt + INR D1 * dt = INR M * dt + INR Dm * dt) by (rewrite <- !Rmult_plus_distr_r; rewrite I1; ring).
    rewrite !Rmult_plus_distr_r. unfold Rminus. rewrite !Rmult_plus_distr_r. rewrite (Rmult_assoc 12). lra. }
  assert (HbK : forall i, (i < n)%nat -> (al i + D1 <= be i)%nat) by (intros i Hi; apply HQ; auto).
  split; [|split].
  - intros p Hp'. eapply (lr_rest N tmin tcod l cs) with (B := K) (g := gv) (al := al) (be := be) (f := f) (d := d); eauto.
  - intros enc y j He Hy Hs. eapply (lr_quiet N tmin tcod l cs) with (B := K) (g := gv) (al := al) (be := be) (f := f) (d := d); eauto.
  - intros i Hi. pose proof (Hf1 i Hi) as X. pose proof (HbK i Hi). cbv beta in X. pose proof (HBK true) as Y.
    assert (SA : (f <= sa0)%nat). { unfold sa0, sa, rel. fold dt D1 D2. lia. } lia.
Qed.
End RunRest.
