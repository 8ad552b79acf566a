(** SignedMemoryNetwork on PredSimulator (C59). *)
From Coq Require Import Arith ZArith Bool List Reals Lra Lia Permutation Sorted.
From Verif Require Import Num NumOrd Heapq Elements Networks CancelQueue PredSim PredNeuron NeuronLib NetLib Build BuildNets Trace SimTrace TraceProps Bridge Session SimpleNets InvMem ExpLog PredProofs PredRun PredNet PredMem PredFun PredGroup PredSub PredSimple PredSync PredMul.
Import ListNotations.
Open Scope list_scope.
Open Scope R_scope.

(** input_pos 0, input_neg 1, ready_pos 2, ready_neg 3, recall 4, output_pos 5, output_neg 6, ready 7; memory 8..15 (input, first, last, acc, acc2, recall, ready, output) *)
Definition smm_num (w : R) : list (synapse R) :=
  [syn 8 9 SynV 10 1; syn 8 10 SynV 5 1; syn 9 9 SynV (-10) 1; syn 9 11 SynGe w 1; syn 10 12 SynGe w 2; syn 11 12 SynGe (- w) 1;
   syn 13 12 SynGe w 1; syn 13 15 SynV 10 2; syn 12 15 SynV 10 1; syn 11 14 SynV 10 1;
   syn 0 2 SynV 10 1; syn 1 3 SynV 10 1; syn 0 3 SynV (10 / 4) 1; syn 1 2 SynV (10 / 4) 1; syn 2 3 SynV (-5) 1; syn 3 2 SynV (-5) 1; syn 4 2 SynV 5 1; syn 4 3 SynV 5 1;
   syn 0 8 SynV 10 1; syn 1 8 SynV 10 1; syn 4 13 SynV 10 1; syn 15 5 SynV 10 1; syn 15 6 SynV 10 1; syn 2 6 SynV (-20) 1; syn 3 5 SynV (-20) 1; syn 15 7 SynV 10 1].
Lemma smm_syns_R tmin tcod a b : tmin + tcod <> 0 ->
  sm_syns (DataEncoder tmin tcod) (Build_smem_net a 0 1 2 3 4 5 6 7 (Build_memory_net b 8 9 10 11 12 13 14 15)) = smm_num (cw tmin tcod).
Proof.
  intros H. unfold sm_syns, smm_num, mm_syns.
  cbn [sm_mem sm_input_pos sm_input_neg sm_ready_pos sm_ready_neg sm_recall sm_output_pos sm_output_neg sm_ready mm_input mm_first mm_last mm_acc mm_acc2 mm_recall mm_ready mm_output app].
  rewrite wacc_R. fold (cw tmin tcod). consts. repeat (f_equal; try lra).
Qed.
Section SMem.
Variables tmin tcod dt a iv tr : R. Variable p : bool.
Hypothesis Hdt : 0 < dt. Hypothesis HM : (horizon dt < 2 ^ 64)%Z. Hypothesis Hd5 : tmin + tcod + 2 * dt <= 500.
Hypothesis Htc : 0 < tcod. Hypothesis Htm : 1 < tmin. Hypothesis Htd : dt < tmin. Hypothesis Ha : 0 <= a.
Let g := cg tmin tcod dt. Let k := ck tmin tcod dt iv.
Hypothesis Hiv : tmin <= iv <= g. Hypothesis Htr : a + g + 2 < tr.
Definition smm_F (n : nat) : list R :=
  let yes (q : bool) (l : list R) := if q then l else [] in
  match n with
  | 0%nat => yes p [a; a + iv] | 1%nat => yes (negb p) [a; a + iv]
  | 2%nat => yes p [a + 1; a + iv + 1] | 3%nat => yes (negb p) [a + 1; a + iv + 1]
  | 4%nat => [tr]
  | 5%nat => yes p [tr + 4; tr + 4 + k] | 6%nat => yes (negb p) [tr + 4; tr + 4 + k] | 7%nat => [tr + 4; tr + 4 + k]
  | 8%nat => [a + 1; a + iv + 1] | 9%nat => [a + 1 + 1] | 10%nat => [a + iv + 2] | 11%nat => [a + 1 + 2 + g] | 12%nat => [tr + 1 + 1 + k] | 13%nat => [tr + 1]
  | 14%nat => [a + 1 + 3 + g] | 15%nat => [tr + 3; tr + 3 + k] | _ => [] end.
Definition smm_ins : list (nat * R) := let i := if p then 0%nat else 1%nat in [(i, a); (i, a + iv); (4%nat, tr)].
Lemma smm_resp n : (n < 16)%nat -> resp dt rest0 (received 10 (smm_num (cw tmin tcod)) smm_ins smm_F n) (smm_F n).
Proof.
  intros Hn. pose proof (cg_b tmin tcod dt Hdt Htc Htm) as Hg. fold g in Hg.
  pose proof (ck_b tmin tcod dt iv Hdt Htc Htm Htd Hiv) as HK. fold k g in HK.
  assert (Hd5' : dt <= 500) by lra.
  assert (OUT : resp dt rest0 [(tr + 4, (SynV, 10)); (tr + 4 + k, (SynV, 10))] [tr + 4; tr + 4 + k]) by (apply relay2; auto; lra).
  assert (RDY : resp dt rest0 [(a + 1, (SynV, 10)); (a + iv + 1, (SynV, 10)); (tr + 1, (SynV, 5))] [a + 1; a + iv + 1]).
  { rewrite rest0_pn. rfire Hdt HM (@nil (R * (syntype * R))) [(a + 1, (SynV, 10))] [(a + iv + 1, (SynV, 10)); (tr + 1, (SynV, 5))].
    rfire Hdt HM (@nil (R * (syntype * R))) [(a + iv + 1, (SynV, 10))] [(tr + 1, (SynV, 5))]. rsilent Hdt HM. }
  destruct n as [|[|[|[|[|[|[|[|[|[|[|[|[|[|[|[|n]]]]]]]]]]]]]]]]; [..|exfalso; lia]; unfold smm_num, smm_ins; rcbn; cbn [smm_F]; destruct p; cbn [negb map app]; rcbn.
  - apply relay2; auto; lra.
  - apply none; auto.
  - apply none; auto.
  - apply relay2; auto; lra.
  - exact RDY.
  - rewrite rest0_pn. rsilent Hdt HM.
  - rewrite rest0_pn. rsilent Hdt HM.
  - exact RDY.
  - apply relay1; auto; lra.
  - apply relay1; auto; lra.
  - eapply resp_perm; [|exact OUT]. perms.
  - rewrite rest0_pn. rsilent Hdt HM.
  - rewrite rest0_pn. rsilent Hdt HM.
  - eapply resp_perm; [|exact OUT]. perms.
  - eapply resp_perm; [|exact OUT]. perms.
  - eapply resp_perm; [|exact OUT]. perms.
  - apply relay2; auto; lra.
  - apply relay2; auto; lra.
  - apply mu_first; auto; lra.
  - apply mu_first; auto; lra.
  - replace (a + iv + 2) with (a + iv + 1 + 1) by ring. apply half2; auto; lra.
  - replace (a + iv + 2) with (a + iv + 1 + 1) by ring. apply half2; auto; lra.
  - apply (cell_acc tmin tcod dt (a + 1) Hdt HM Hd5 Htc Htm).
  - apply (cell_acc tmin tcod dt (a + 1) Hdt HM Hd5 Htc Htm).
  - eapply resp_perm; [|apply (cell_acc2 tmin tcod dt (a + 1) iv (tr + 1) Hdt HM Hd5 Htc Htm Htd); [exact Hiv|fold g; lra]]. fold g. perms.
  - eapply resp_perm; [|apply (cell_acc2 tmin tcod dt (a + 1) iv (tr + 1) Hdt HM Hd5 Htc Htm Htd); [exact Hiv|fold g; lra]]. fold g. perms.
  - apply relay1; auto; lra.
  - apply relay1; auto; lra.
  - replace (a + 1 + 2 + g + 1) with (a + 1 + 3 + g) by ring. apply relay1; auto; lra.
  - replace (a + 1 + 2 + g + 1) with (a + 1 + 3 + g) by ring. apply relay1; auto; lra.
  - eapply resp_perm; [|apply (relay2 dt Hdt HM Hd5' (tr + 3) (tr + 3 + k)); lra]. perms.
  - eapply resp_perm; [|apply (relay2 dt Hdt HM Hd5' (tr + 3) (tr + 3 + k)); lra]. perms.
Qed.
End SMem.
Section SMemThm.
Variables tmin tcod dt x a tr : R. Variable p : bool.
Hypothesis HD : dt_ok dt. Hypothesis Htc : 0 < tcod. Hypothesis Htm : 1 < tmin. Hypothesis Htd : dt < tmin. Hypothesis H5 : tmin + tcod + 2 * dt <= 500.
Hypothesis Hx : 0 <= x <= 1. Hypothesis Ha : 0 <= a. Hypothesis Htr : a + tmin + tcod + dt + 2 <= tr.
Variable stims : smem_net -> list stim.
Hypothesis HS : forall m, sm_own m = seq 0 8 -> pins (DataEncoder tmin tcod) (stims m) = smm_ins a (tmin + x * tcod) tr p /\ Forall (stim_ok 16) (stims m).
Lemma smem_gen nm :
  pruns (SignedMemoryNetwork (DataEncoder tmin tcod) nm) sm_mod (DataEncoder tmin tcod) dt stims
    (fun m s => pemits s (if p then sm_output_pos m else sm_output_neg m) (DataEncoder tmin tcod) x (dt / tcod) /\
                pspike_log s (if p then sm_output_neg m else sm_output_pos m) = [] /\
                exists t, pspike_log s (if p then sm_output_pos m else sm_output_neg m) = [tr + 4; t]).
Proof.
  destruct (dt_ok_horizon dt HD) as [Hdt HM]. set (enc := DataEncoder tmin tcod). assert (HTm : tmin + tcod <> 0) by lra.
  assert (Hxc : 0 <= x * tcod <= tcod) by (split; [apply Rmult_le_pos; lra|rewrite <- (Rmult_1_l tcod) at 2; apply Rmult_le_compat_r; lra]).
  pose proof (cg_b tmin tcod dt Hdt Htc Htm) as Hg. assert (Hiv : tmin <= tmin + x * tcod <= cg tmin tcod dt) by lra.
  destruct (ck_b tmin tcod dt (tmin + x * tcod) Hdt Htc Htm Htd Hiv) as [HK _].
  destruct (SignedMemory_built enc nm empty_world inv_empty (neq0 _ HTm)) as (m & w & E & HB & HN & HL).
  cbn [w_neurons empty_world length Nat.add] in HN, HL.
  destruct m as [q i0 i1 i2 i3 i4 i5 i6 i7 [b j0 j1 j2 j3 j4 j5 j6 j7]]. unfold sm_own, mm_nodes in HN. cbn in HN.
  injection HN as -> -> -> -> -> -> -> -> -> -> -> -> -> -> -> ->.
  unfold enc in HB. rewrite (smm_syns_R tmin tcod q b HTm) in HB.
  match type of E with _ = Ok (?mm, _) => destruct (HS mm eq_refl) as [EI HSt] end.
  edestruct (psession_resp (SignedMemoryNetwork enc nm) sm_mod _ w _ enc dt stims (smm_F tmin tcod dt a (tmin + x * tcod) tr p) E HB Hdt HM) as [N HR].
  - rewrite HL. exact HSt.
  - unfold smm_num. intros y Hy. repeat (destruct Hy as [<-|Hy]; [cbn; lra|]). destruct Hy.
  - rewrite HL. intros n Hn. unfold enc. rewrite EI. apply smm_resp; auto; try lra. 
  - exists N. intros fuel Hf. destruct (HR fuel Hf) as (s & Es & HLg). eexists. exists s. split; [exact Es|]. cbn [sm_output_pos sm_output_neg].
    pose proof (HLg 5%nat ltac:(lia)) as L5. pose proof (HLg 6%nat ltac:(lia)) as L6. cbn [smm_F] in L5, L6.
    destruct p; cbn [negb] in L5, L6; cbv zeta in L5, L6; (split; [|split; [assumption|eexists; eassumption]]);
    (eapply pemits_intro; [exact Htc|eassumption|lra|]); replace (dt / tcod * tcod) with dt by (field; lra); apply Rabs_le; lra.
Qed.
End SMemThm.
Ltac smemstims := let q := fresh in let E := fresh in intros q E; destruct q as [? ? ? ? ? ? ? ? ? ?]; unfold sm_own in E; cbn [seq sm_input_pos sm_input_neg sm_ready_pos sm_ready_neg sm_recall sm_output_pos sm_output_neg sm_ready] in E; injection E; intros; subst;
  cbn [sm_input_pos sm_input_neg sm_recall]; split;
  [unfold pins, smm_ins, two_spikes; cbv zeta; cbn [flat_map pstim app]; repeat match goal with |- context [if ?p then _ else _] => destruct p end; consts; rewrite ?Rplus_0_l; reflexivity|
   unfold two_spikes; cbv zeta; cbn [app]; repeat match goal with |- context [if ?p then _ else _] => destruct p end; stims_ok].
