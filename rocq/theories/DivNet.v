(** DivNetwork (C50): the spikes of every neuron, in whole timesteps. *)
From Coq Require Import Arith ZArith Bool List Reals Lra Lia Permutation.
From Verif Require Import Num Heapq Elements Simulator Networks Trace SimTrace SimProps TraceProps NeuronLib NetLib Build BuildNets Bridge MemoryProof GeLib GfLib Session SimpleNets InvMem Misc LnLib FuncNets SegLib SubNet ExpLog.
Import ListNotations.
Open Scope R_scope.
Open Scope list_scope.

(** one channel of LogAndSyncNetwork *)
Record ls_chan (N : tnet) (w tmin : R) (inp first last acc out sync : nat) : Prop := {
  li_first : ins N first [mks inp first SynV we cTsyn; mks first first SynV wi cTsyn];
  li_last : ins N last [mks inp last SynV (half we) cTsyn];
  li_acc : ins N acc [mks first acc SynGe w (nadd cTsyn tmin); mks last acc SynGe (nopp w) cTsyn;
                      mks sync acc SynGf gmult cTsyn; mks sync acc SynGate (nofZ 1) cTsyn];
  li_out : ins N out [mks sync out SynV we (twice cTsyn); mks acc out SynV we (nadd cTsyn tmin)]
}.
Section Chan.
Variable N : tnet.
Variables Tc tmin : R.
Variables inp first last acc out sync : nat.
Let dt := t_dt N.
Hypothesis Hdt : 0 < dt < 20.
Hypothesis HTc : 0 < Tc.
Hypothesis HM : ls_chan N (1000 / Tc) tmin inp first last acc out sync.
Variables a1 a2 sy : nat.
Let D1 := step_at dt 1.
Let D2 := step_at dt 2.
Let Dm := step_at dt (1 + tmin).
Hypothesis Hin : arrs N inp 1 [a1; a2].
Hypothesis Ha1 : (1 <= a1)%nat.
Hypothesis Ha2 : (a1 + D1 <= a2)%nat.
Hypothesis Hee : (a1 + Dm <= a2 + D1)%nat.
Lemma li_first_spk : spikes_at N first [a1].
Proof. eapply first_spikes; [apply (li_first _ _ _ _ _ _ _ _ _ HM)|rewrite cTsyn_R; eauto|auto|auto]. Qed.
Lemma li_last_spk : spikes_at N last [a2].
Proof.
  eapply last_spikes; [apply (li_last _ _ _ _ _ _ _ _ _ HM)|rewrite cTsyn_R; eauto|auto|]. pose proof (step_at_ge1 dt 1). fold D1 in H. lia.
Qed.
Hypothesis Hsi : ext_of N sync = [].
Hypothesis Hsy : spikes_at N sync [sy].
Hypothesis Hle : (a2 <= sy)%nat.
Let c := INR (a2 + D1 - (a1 + Dm)) * (dt / Tc).
Lemma sy_arr d k : (1 <= k)%nat -> INR (arr N sync d k) = ind k (sy + step_at dt d).
Proof.
  intros Hk. pose proof (step_at_ge1 dt 1) as G1. fold D1 in G1. rewrite (arrs_spikes N sync d [sy]); auto; [ev_simpl; fold dt; lra| |repeat constructor; auto].
  intros j [<-|[]]; lia.
Qed.
Lemma li_acc_spk :
  (c = 0 -> spikes_at N acc []) /\
  (forall j, c < 1 -> rho N ^ j <= c -> (forall i, (i < j)%nat -> c < rho N ^ i) -> spikes_at N acc [(sy + D1 - 1 + j)%nat]) /\
  (1 <= c -> (step_at dt Tc <= a2 + D1 - (a1 + Dm))%nat /\ spikes_at N acc [(a1 + Dm - 1 + step_at dt Tc)%nat]).
Proof.
  pose proof (li_acc _ _ _ _ _ _ _ _ _ HM) as H. pose proof (step_at_ge1 dt 1) as G1. fold D1 in G1. pose proof (step_at_ge1 dt (1 + tmin)) as G2. fold Dm in G2.
  assert (EA1 : forall k, (1 <= k)%nat -> INR (arr N first (nadd cTsyn tmin) k) = ind k (a1 + Dm)).
  { intros k Hk. rewrite (arrs_1 N _ _ _ Dm a1 (li_first _ _ _ _ _ _ _ _ _ HM) li_first_spk); auto. ev_simpl. lra. }
  assert (EA2 : forall k, (1 <= k)%nat -> INR (arr N last cTsyn k) = ind k (a2 + D1)).
  { intros k Hk. rewrite (arrs_1 N _ _ _ D1 a2 (li_last _ _ _ _ _ _ _ _ _ HM) li_last_spk); auto; [|lia]. ev_simpl. lra. }
  assert (ES : forall k, (1 <= k)%nat -> INR (arr N sync cTsyn k) = ind k (sy + D1)).
  { intros k Hk. rewrite sy_arr by auto. reflexivity. }
  assert (IO : forall k, (1 <= k)%nat -> input N acc SynOther k = 0) by no_ty H.
  assert (IV : forall k, (1 <= k)%nat -> input N acc SynV k = 0) by no_ty H.
  assert (IGe : forall k, (1 <= k)%nat -> input N acc SynGe k = 1000 / Tc * ind k (a1 + Dm) + - (1000 / Tc) * ind k (a2 + D1)).
  { intros k Hk. ev_input H. rewrite EA1, EA2 by auto. netr. lra. }
  assert (IGf : forall k, (1 <= k)%nat -> input N acc SynGf k = 50 * ind k (sy + D1)).
  { intros k Hk. ev_input H. rewrite ES by auto. netr. lra. }
  assert (IGa : forall k, (1 <= k)%nat -> input N acc SynGate k = 1 * ind k (sy + D1)).
  { intros k Hk. ev_input H. rewrite ES by auto. netr. lra. }
  assert (Hp : 0 < dt / Tc) by (apply Rdiv_lt_0_compat; lra).
  split; [|split].
  - intros Ec. assert (Z : (a2 + D1 - (a1 + Dm) = 0)%nat).
    { apply INR_eq. cbn [INR]. apply Rmult_eq_reg_r with (dt / Tc); [|lra]. fold c. lra. }
    apply (log_zero N acc Tc (ins_prm _ _ _ H) Hdt HTc IO IV (a1 + Dm) (a2 + D1) (sy + D1)); auto; lia.
  - intros j Hc Hj Hi. apply (log_fire N acc Tc (ins_prm _ _ _ H) Hdt HTc IO IV (a1 + Dm) (a2 + D1) (sy + D1)); auto; lia.
  - intros Hc. apply (log_full N acc Tc (ins_prm _ _ _ H) Hdt HTc IO IV (a1 + Dm) (a2 + D1) (sy + D1)); auto; lia.
Qed.
Lemma li_out_spk f : spikes_at N acc [f] -> (1 <= f)%nat -> (sy + D2 <> f + Dm)%nat -> spikes_at N out [(sy + D2)%nat; (f + Dm)%nat].
Proof.
  intros HF Hf Hne. pose proof (li_out _ _ _ _ _ _ _ _ _ HM) as H. pose proof (step_at_ge1 dt 1) as G1. fold D1 in G1.
  apply two_spikes; auto; [apply H| |lia|lia|].
  - eapply ins_vonly; eauto; repeat constructor.
  - intros k Hk. ev_input H. rewrite sy_arr by auto. rewrite (arrs_1 N _ _ _ Dm f (li_acc _ _ _ _ _ _ _ _ _ HM) HF); auto.
    netr. rewrite ?Rmult_1_r. ev_simpl. fold D2. lra.
Qed.
Lemma li_out_one : spikes_at N acc [] -> spikes_at N out [(sy + D2)%nat].
Proof.
  intros HF. pose proof (li_out _ _ _ _ _ _ _ _ _ HM) as H. pose proof (step_at_ge1 dt 1) as G1. fold D1 in G1.
  assert (E : [(sy + D2)%nat] = vrun 0 [((sy + D2)%nat, 10)]) by (symmetry; vrun_solve). rewrite E.
  apply vonly_spikes; [apply H| | |].
  - eapply ins_vonly; eauto; repeat constructor.
  - cbn. lia.
  - intros k Hk. ev_input H. rewrite sy_arr by auto. rewrite (arrs_0 N _ _ _ (li_acc _ _ _ _ _ _ _ _ _ HM) HF); auto.
    netr. rewrite ?Rmult_1_r. ev_simpl. fold D2. lra.
Qed.
End Chan.

(** the sync neuron fires one synapse delay after the later of its two inputs *)
Lemma sync_spk N l1 l2 s b1 b2 : ins N s [mks l1 s SynV (half we) cTsyn; mks l2 s SynV (half we) cTsyn] ->
  ext_of N l1 = [] -> ext_of N l2 = [] -> spikes_at N l1 [b1] -> spikes_at N l2 [b2] -> (1 <= b1)%nat -> (1 <= b2)%nat ->
  spikes_at N s [(Nat.max b1 b2 + step_at (t_dt N) 1)%nat].
Proof.
  intros H E1 E2 S1 S2 H1 H2. set (D1 := step_at (t_dt N) 1).
  apply (seg_spikes N s [((b1 + D1)%nat, 5); ((b2 + D1)%nat, 5)]); [apply H|eapply ins_vonly; eauto; repeat constructor| |].
  - pose proof (step_at_ge1 (t_dt N) 1) as G. fold D1 in G.
    destruct (Nat.lt_trichotomy b1 b2) as [h|[h|h]]; [rewrite Nat.max_r by lia|rewrite h, Nat.max_id|rewrite Nat.max_l by lia]; segs_solve.
  - intros k Hk. ev_input H. rewrite (arrs_spikes N l1 cTsyn [b1]), (arrs_spikes N l2 cTsyn [b2]); auto.
    + netr. ev_simpl. fold D1. lra.
    + intros j [<-|[]]; auto.
    + repeat constructor; auto.
    + intros j [<-|[]]; auto.
    + repeat constructor; auto.
Qed.

Record dv_ins (N : tnet) (w tmin : R) (m : div_net) : Prop := {
  vi_c1 : ls_chan N w tmin (ls_input1 (dv_ls m)) (ls_first1 (dv_ls m)) (ls_last1 (dv_ls m)) (ls_acc1 (dv_ls m)) (ls_output1 (dv_ls m)) (ls_sync (dv_ls m));
  vi_c2 : ls_chan N w tmin (ls_input2 (dv_ls m)) (ls_first2 (dv_ls m)) (ls_last2 (dv_ls m)) (ls_acc2 (dv_ls m)) (ls_output2 (dv_ls m)) (ls_sync (dv_ls m));
  vi_sync : ins N (ls_sync (dv_ls m)) [mks (ls_last1 (dv_ls m)) (ls_sync (dv_ls m)) SynV (half we) cTsyn; mks (ls_last2 (dv_ls m)) (ls_sync (dv_ls m)) SynV (half we) cTsyn];
  vi_in1 : ins N (sb_input1 (dv_sub m)) [mks (ls_output1 (dv_ls m)) (sb_input1 (dv_sub m)) SynV we cTsyn];
  vi_in2 : ins N (sb_input2 (dv_sub m)) [mks (ls_output2 (dv_ls m)) (sb_input2 (dv_sub m)) SynV we cTsyn];
  vi_sub : sb_ins N tmin (dv_sub m);
  vi_inx : ins N (ex_input (dv_exp m)) [mks (sb_output_plus (dv_sub m)) (ex_input (dv_exp m)) SynV we cTsyn];
  vi_exp : ex_ins N w tmin (dv_exp m)
}.
Definition dv_nodes (m : div_net) := ls_nodes (dv_ls m) ++ sb_nodes (dv_sub m) ++ ex_nodes (dv_exp m).
Lemma dv_ins_of N enc m b : dv_nodes m = seq b 25 -> (forall n, In n (dv_nodes m) -> n <> ls_input1 (dv_ls m) -> n <> ls_input2 (dv_ls m) -> own N (dv_syns enc m) n) ->
  dv_ins N (wbar_of enc) (Tmin enc) m.
Proof.
  intros HN HO. unfold dv_nodes, ls_nodes, sb_nodes, ex_nodes in HN, HO. cbn [app] in HN, HO. nodes_eqs HN. unfold dv_syns in HO.
  constructor; try constructor.
  all: eapply own_ins; [apply HO; [cbn [In]; tauto|lia|lia]|]; cbv beta zeta delta [sb_syns ex_syns ls_syns]; cbn [app]; filt; reflexivity.
Qed.
