(** LogAndSyncNetwork on its own (C69): the logarithms of two values, both starting at the same time, any number of times. *)
From Coq Require Import Arith ZArith Bool List Reals Lra Lia Permutation.
From Verif Require Import Num Heapq Elements Simulator Networks Trace SimTrace SimProps TraceProps NeuronLib NetLib Build BuildNets Bridge MemoryProof GeLib GfLib Session SimpleNets InvMem Misc LnLib FuncNets SegLib SubNet ExpLog DivNet DivMid DivRun DivVal Restart MemReuse Reuse Jobs Settle RestFun SubReuse DivReuse.
Import ListNotations.
Open Scope R_scope.
Open Scope list_scope.

Record ls_ins (N : tnet) (w tmin : R) (m : logsync_net) : Prop := {
  ly_c1 : ls_chan N w tmin (ls_input1 m) (ls_first1 m) (ls_last1 m) (ls_acc1 m) (ls_output1 m) (ls_sync m);
  ly_c2 : ls_chan N w tmin (ls_input2 m) (ls_first2 m) (ls_last2 m) (ls_acc2 m) (ls_output2 m) (ls_sync m);
  ly_sync : ins N (ls_sync m) [mks (ls_last1 m) (ls_sync m) SynV (half we) cTsyn; mks (ls_last2 m) (ls_sync m) SynV (half we) cTsyn]
}.
Lemma ls_ins_of N enc m b : ls_nodes m = seq b 11 -> (forall n, In n (ls_nodes m) -> n <> ls_input1 m -> n <> ls_input2 m -> own N (ls_syns enc m) n) ->
  ls_ins N (wbar_of enc) (Tmin enc) m.
Proof.
  intros HN HO. unfold ls_nodes in HN, HO. nodes_eqs HN. 
  constructor; try constructor.
  all: eapply own_ins; [apply HO; [cbn [In]; tauto|lia|lia]|]; cbv beta zeta delta [ls_syns]; filt; reflexivity.
Qed.

(** one channel: when its accumulator fires, counted from the sync neuron *)
Lemma chan_timing N dt tmin tcod x inp first last acc out sync (a1 a2 sy : nat) : t_dt N = dt -> 0 < dt <= 1 / 2 -> 0 < tcod -> 6 * dt <= tmin ->
  0 < x <= 1 -> 4 * dt <= x * tcod -> x * tcod + 2 * dt <= tcod ->
  ls_chan N (1000 / tcod) tmin inp first last acc out sync -> arrs N inp 1 [a1; a2] -> (1 <= a1)%nat -> (a1 + step_at dt 1 <= a2)%nat ->
  Rabs (INR a2 * dt - INR a1 * dt - (tmin + x * tcod)) < dt -> ext_of N sync = [] -> spikes_at N sync [sy] -> (a2 <= sy)%nat ->
  exists f, spikes_at N acc [f] /\ (sy + step_at dt 1 <= f)%nat /\ (a1 + step_at dt (1 + tmin) <= a2 + step_at dt 1)%nat /\ (sy + step_at dt 2 < f + step_at dt (1 + tmin))%nat /\
    Rabs (INR (f + step_at dt (1 + tmin)) * dt - INR (sy + step_at dt 2) * dt - (tmin + 20 * - ln x)) <= (4 + - ln x) * dt + 80 * dt / (x * tcod).
Proof.
  intros <- [Hdt Hdt2] Htc Htm Hx Hxt Hx1 HM Hin Ha1 Ha2 HQ He HS Hle. set (dt := t_dt N) in *.
  destruct (pair_gap dt tmin (x * tcod) a1 a2 Hdt ltac:(lra) HQ ltac:(right; lra)) as [C1 C2].
  destruct (li_acc_spk N tcod tmin inp first last acc out sync ltac:(fold dt; lra) Htc HM a1 a2 sy Hin Ha1 Ha2 C1 He HS Hle) as (_ & HF & _). fold dt in HF.
  set (n := (a2 + step_at dt 1 - (a1 + step_at dt (1 + tmin)))%nat) in *.
  assert (Hdlt : 0 <= 2 * dt / tcod <= x / 2).
  { split; [apply Rmult_le_pos; [lra|left; apply Rinv_0_lt_compat; auto]|]. apply Rmult_le_reg_r with tcod; auto.
    replace (2 * dt / tcod * tcod) with (2 * dt) by (field; lra). lra. }
  assert (Hcx : Rabs (INR n * (dt / tcod) - x) <= 2 * dt / tcod).
  { replace (INR n * (dt / tcod) - x) with ((INR n * dt - x * tcod) / tcod) by (field; lra).
    unfold Rdiv. rewrite Rabs_mult, (Rabs_right (/ tcod)) by (left; apply Rinv_0_lt_compat; auto).
    apply Rmult_le_compat_r; [left; apply Rinv_0_lt_compat; auto|lra]. }
  assert (Hc : INR n * (dt / tcod) < 1).
  { apply Rabs_def2 in C2. replace (INR n * (dt / tcod)) with (INR n * dt / tcod) by (field; lra).
    apply Rmult_lt_reg_r with tcod; auto. unfold Rdiv. rewrite Rmult_assoc, Rinv_l by lra. lra. }
  destruct (ln_lip x _ _ ltac:(lra) Hdlt Hcx) as [Hc0 HL].
  set (c := INR n * (dt / tcod)) in *.
  replace (2 * (2 * dt / tcod) / x) with (4 * dt / (x * tcod)) in HL by (field; lra).
  assert (Hs1 : 0 <= 4 * dt / (x * tcod) <= 1).
  { assert (0 < x * tcod) by lra. split; [apply Rmult_le_pos; [lra|left; apply Rinv_0_lt_compat; auto]|].
    apply Rmult_le_reg_r with (x * tcod); auto. unfold Rdiv. rewrite Rmult_assoc, Rinv_l by lra. lra. }
  replace (80 * dt / (x * tcod)) with (20 * (4 * dt / (x * tcod))) by (field; lra).
  set (q := 4 * dt / (x * tcod)) in *. apply Rabs_le2 in HL. pose proof (ln_neg x Hx) as Hln.
  assert (Hrb : 0 < rho N < 1) by (unfold rho; fold dt; lra).
  destruct (least_pow (rho N) c Hrb Hc0) as (j & J1 & J2).
  assert (Hj : (1 <= j)%nat) by (destruct j; [cbn in J1; lra|lia]).
  specialize (HF j Hc J1 J2).
  destruct (least_ln (dt / 20) c j ltac:(lra) ltac:(lra) J1 J2) as [B1 B2].
  destruct (out_timing dt tmin sy j Hdt ltac:(lra)) as (C3 & C4).
  exists (sy + step_at dt 1 - 1 + j)%nat. split; [exact HF|]. split; [lia|]. split; [exact C1|]. split; [exact C3|].
  apply Rabs_le2 in C4.
  assert (B3 : (20 - dt) * - ln c <= INR j * dt < 20 * - ln c + dt) by (split; nra).
  assert (B4 : dt * - ln c <= dt * (- ln x + 1)) by (apply Rmult_le_compat_l; lra).
  assert (0 <= - ln x * dt) by (apply Rmult_le_pos; lra). apply Rabs_le. lra.
Qed.

(** the state the network is left in *)
Section Rest.
Variable N : tnet.
Variable m : logsync_net.
Variables Tc tmin : R.
Let dt := t_dt N.
Hypothesis HM : ls_ins N (1000 / Tc) tmin m.
Let D1 := step_at dt 1.
Let D2 := step_at dt 2.
Let Dm := step_at dt (1 + tmin).
Variables a11 a12 a21 a22 : nat.
Hypothesis Hin1 : arrs N (ls_input1 m) 1 [a11; a12].
Hypothesis Hin2 : arrs N (ls_input2 m) 1 [a21; a22].
Hypothesis Ha11 : (1 <= a11)%nat.
Hypothesis Ha21 : (1 <= a21)%nat.
Hypothesis Ha12 : (a11 + D1 <= a12)%nat.
Hypothesis Ha22 : (a21 + D1 <= a22)%nat.
Hypothesis He1 : (a11 + Dm <= a12 + D1)%nat.
Hypothesis He2 : (a21 + Dm <= a22 + D1)%nat.
Lemma ly_sync_spk : spikes_at N (ls_sync m) [(Nat.max a12 a22 + D1)%nat].
Proof.
  pose proof (ly_c1 _ _ _ _ HM) as C1. pose proof (ly_c2 _ _ _ _ HM) as C2. pose proof (step_at_ge1 dt 1) as G1. fold D1 in G1.
  eapply sync_spk; [apply (ly_sync _ _ _ _ HM)|apply (li_last _ _ _ _ _ _ _ _ _ C1)|apply (li_last _ _ _ _ _ _ _ _ _ C2)| | |lia|lia].
  - eapply li_last_spk; eauto.
  - eapply li_last_spk; eauto.
Qed.
Let sy := (Nat.max a12 a22 + D1)%nat.
Hypothesis Hsrc1 : in_syn N (ls_input1 m) = [] /\ t_prm N (ls_input1 m) = stdp.
Hypothesis Hsrc2 : in_syn N (ls_input2 m) = [] /\ t_prm N (ls_input2 m) = stdp.
Variables f1 f2 : nat.
Hypothesis HF1 : spikes_at N (ls_acc1 m) [f1].
Hypothesis HF2 : spikes_at N (ls_acc2 m) [f2].
Hypothesis Hf1 : (sy + D1 <= f1)%nat.
Hypothesis Hf2 : (sy + D1 <= f2)%nat.
Hypothesis L1 : (sy + D2 < f1 + Dm)%nat.
Hypothesis L2 : (sy + D2 < f2 + Dm)%nat.
Lemma ly_outs : spikes_at N (ls_output1 m) [(sy + D2)%nat; (f1 + Dm)%nat] /\ spikes_at N (ls_output2 m) [(sy + D2)%nat; (f2 + Dm)%nat].
Proof.
  pose proof ly_sync_spk as SY. fold sy in SY. pose proof (ly_c1 _ _ _ _ HM) as C1. pose proof (ly_c2 _ _ _ _ HM) as C2. pose proof (ly_sync _ _ _ _ HM) as I9.
  pose proof (step_at_ge1 dt 1) as G1. fold D1 in G1.
  assert (M1 : (a12 <= sy)%nat) by (unfold sy; lia). assert (M2 : (a22 <= sy)%nat) by (unfold sy; lia).
  split.
  - apply (li_out_spk N Tc tmin _ _ _ _ _ _ C1 a11 a12 sy Ha11 Ha12 He1 (ins_ext _ _ _ I9) SY); auto; [lia|fold dt D2 Dm; lia].
  - apply (li_out_spk N Tc tmin _ _ _ _ _ _ C2 a21 a22 sy Ha21 Ha22 He2 (ins_ext _ _ _ I9) SY); auto; [lia|fold dt D2 Dm; lia].
Qed.
Variable B : nat.
Hypothesis HB1 : (f1 + Dm <= B)%nat.
Hypothesis HB2 : (f2 + Dm <= B)%nat.
Lemma ly_done n : In n (ls_nodes m) -> done N B n.
Proof.
  pose proof ly_sync_spk as SY. fold sy in SY. destruct ly_outs as [SO1 SO2].
  pose proof (ly_c1 _ _ _ _ HM) as C1. pose proof (ly_c2 _ _ _ _ HM) as C2. pose proof (ly_sync _ _ _ _ HM) as I9.
  pose proof (step_at_ge1 dt 1) as G1. fold D1 in G1.
  assert (M1 : (a12 + D1 <= sy)%nat) by (unfold sy; lia). assert (M2 : (a22 + D1 <= sy)%nat) by (unfold sy; lia).
  pose proof (li_first _ _ _ _ _ _ _ _ _ C1) as I1. pose proof (li_last _ _ _ _ _ _ _ _ _ C1) as I2. pose proof (li_acc _ _ _ _ _ _ _ _ _ C1) as I3. pose proof (li_out _ _ _ _ _ _ _ _ _ C1) as I4.
  pose proof (li_first _ _ _ _ _ _ _ _ _ C2) as I5. pose proof (li_last _ _ _ _ _ _ _ _ _ C2) as I6. pose proof (li_acc _ _ _ _ _ _ _ _ _ C2) as I7. pose proof (li_out _ _ _ _ _ _ _ _ _ C2) as I8.
  assert (SF1 : spikes_at N (ls_first1 m) [a11]) by (eapply li_first_spk; eauto).
  assert (SF2 : spikes_at N (ls_first2 m) [a21]) by (eapply li_first_spk; eauto).
  assert (SL1 : spikes_at N (ls_last1 m) [a12]) by (eapply li_last_spk; eauto).
  assert (SL2 : spikes_at N (ls_last2 m) [a22]) by (eapply li_last_spk; eauto).
  clearbody sy.
  assert (OV : forall p L d l f, ins N p L -> spikes_at N p l -> (forall j, In j l -> (j + step_at dt d <= f)%nat) -> over N p d f).
  { intros p' L' d' l' f' HI' HS' Hl'. eapply over_spk; [apply (ins_ext _ _ _ HI')|exact HS'|exact Hl']. }
  assert (FIRST : forall i n a a', ins N n [mks i n SynV we cTsyn; mks n n SynV wi cTsyn] -> arrs N i 1 [a; a'] -> (1 <= a)%nat -> (a + D1 <= a')%nat -> (a' <= B)%nat -> spikes_at N n [a] -> done N B n).
  { intros i n' a a' H' Har H1 H2 H3 HSp. split; [exists [a]; split; [exact HSp|intros j [<-|[]]; lia]|]. intros k Hk. eapply first_settled; eauto. lia. }
  unfold ls_nodes. cbn [app In]. intros Hn.
  Local Ltac ones := cbn [In]; intros ? [<-|[]]; try lia.
  Local Ltac twos := cbn [In]; intros ? [<-|[<-|[]]]; try lia.
  repeat destruct Hn as [<-|Hn]; try destruct Hn.
  - apply done_src; apply Hsrc1.
  - eapply FIRST; eauto; lia.
  - eapply (done_ins _ _ _ _ a12); [exact I2|exact SL1|left; auto|ones| |lia]. repeat constructor; cbn [s_pre s_delay mks]; rewrite cTsyn_R. eapply over_arrs; [exact Hin1|twos].
  - eapply (done_ins _ _ _ _ f1); [exact I3|exact HF1|left; auto|ones| |lia].
    repeat (apply Forall_cons || apply Forall_nil); cbn [s_pre s_delay mks]; autorewrite with netR; (eapply OV; [eassumption|eassumption|]); over_list; fold D1 Dm; lia.
  - eapply (done_ins _ _ _ _ (f1 + Dm)); [exact I4|exact SO1|right; left; auto|twos| |lia].
    repeat (apply Forall_cons || apply Forall_nil); cbn [s_pre s_delay mks]; autorewrite with netR; (eapply OV; [eassumption|eassumption|]); over_list; fold D1 D2 Dm; lia.
  - apply done_src; apply Hsrc2.
  - eapply FIRST; eauto; lia.
  - eapply (done_ins _ _ _ _ a22); [exact I6|exact SL2|left; auto|ones| |lia]. repeat constructor; cbn [s_pre s_delay mks]; rewrite cTsyn_R. eapply over_arrs; [exact Hin2|twos].
  - eapply (done_ins _ _ _ _ f2); [exact I7|exact HF2|left; auto|ones| |lia].
    repeat (apply Forall_cons || apply Forall_nil); cbn [s_pre s_delay mks]; autorewrite with netR; (eapply OV; [eassumption|eassumption|]); over_list; fold D1 Dm; lia.
  - eapply (done_ins _ _ _ _ (f2 + Dm)); [exact I8|exact SO2|right; left; auto|twos| |lia].
    repeat (apply Forall_cons || apply Forall_nil); cbn [s_pre s_delay mks]; autorewrite with netR; (eapply OV; [eassumption|eassumption|]); over_list; fold D1 D2 Dm; lia.
  - eapply (done_ins _ _ _ _ sy); [exact I9|exact SY|left; auto|ones| |lia].
    repeat (apply Forall_cons || apply Forall_nil); cbn [s_pre s_delay mks]; autorewrite with netR; (eapply OV; [eassumption|eassumption|]); over_list; fold D1 D2 Dm; lia.
Qed.
End Rest.
