(** DivNetwork comes back to rest after a quotient of two values strictly between 0 and 1, so it can be used again and again (C50, C65). *)
From Coq Require Import Arith ZArith Bool List Reals Lra Lia Permutation.
From Verif Require Import Num Heapq Elements Simulator Networks Trace SimTrace SimProps TraceProps NeuronLib NetLib Build BuildNets Bridge MemoryProof GeLib GfLib Session SimpleNets InvMem Misc LnLib FuncNets SegLib SubNet ExpLog DivNet DivMid DivRun DivVal Restart MemReuse Reuse Jobs Settle RestFun SubReuse.
Import ListNotations.
Open Scope R_scope.
Open Scope list_scope.

(** a neuron that fires for the last time at B or earlier and is in its initial state from B on *)
Definition done (N : tnet) (B n : nat) : Prop :=
  (exists l, spikes_at N n l /\ forall j, In j l -> (j <= B)%nat) /\ forall k, (B <= k)%nat -> st N k n = init_nstate (t_prm N n).
Lemma done_ins N n L l f B : ins N n L -> spikes_at N n l -> In f l -> (forall j, In j l -> (j <= f)%nat) ->
  Forall (fun y => over N (s_pre y) (s_delay y) f) L -> (f <= B)%nat -> done N B n.
Proof.
  intros HI HS Hf Hl HO HB. split; [exists l; split; auto; intros j Hj; specialize (Hl j Hj); lia|].
  intros k Hk. eapply (ins_settled _ _ _ f); eauto; [eapply spk_last; eauto|lia].
Qed.
Lemma done_src N n B : in_syn N n = [] -> t_prm N n = stdp -> done N B n.
Proof.
  intros H1 H2. split; [|intros k Hk; apply src_settled; auto]. exists []. split; [|intros j []]. intros k. cbn [memb existsb]. apply source_silent; auto.
Qed.
(** a network of such neurons is quiet once the longest delay has passed *)
Lemma done_quiet N NN B D K : (forall n, (n < NN)%nat -> done N B n) ->
  (forall y, In y (t_syns N) -> (s_pre y < NN)%nat /\ (step_at (t_dt N) (s_delay y) <= D)%nat) -> (B + D <= K)%nat ->
  (forall p y, In p (t_ext N) -> In y (t_syns N) -> s_pre y = fst p -> (step_at (t_dt N) (snd p + s_delay y) <= K)%nat) -> quiet N NN K.
Proof.
  intros HD HY HK HE. constructor; auto.
  - intros n Hn. apply (HD n Hn). lia.
  - intros y j Hy _ Hs. destruct (HY y Hy) as [A1 A2]. destruct (HD _ A1) as ((l & L1 & L2) & _). rewrite L1 in Hs. apply memb_In, L2 in Hs. lia.
Qed.

Section DivRest.
Variable N : tnet.
Variable m : div_net.
Variables Tc tmin : R.
Let dt := t_dt N.
Hypothesis Hdt : 0 < dt < / 50.
Hypothesis HTc : 0 < Tc.
Hypothesis Htm : 1 + dt < tmin.
Hypothesis HA : aligned dt tmin.
Hypothesis HM : dv_ins N (1000 / Tc) tmin m.
Let D1 := step_at dt 1.
Let D2 := step_at dt 2.
Let Dm := step_at dt (1 + tmin).
Let D3 := step_at dt (3 * 1 + 2 * / 100).
Let DM := step_at dt (tmin + (3 * 1 + 2 * / 100)).
Let L := dv_ls m.
Variables a11 a12 a21 a22 : nat.
Hypothesis Hin1 : arrs N (ls_input1 L) 1 [a11; a12].
Hypothesis Hin2 : arrs N (ls_input2 L) 1 [a21; a22].
Hypothesis Ha11 : (1 <= a11)%nat.
Hypothesis Ha21 : (1 <= a21)%nat.
Hypothesis Ha12 : (a11 + D1 <= a12)%nat.
Hypothesis Ha22 : (a21 + D1 <= a22)%nat.
Hypothesis He1 : (a11 + Dm <= a12 + D1)%nat.
Hypothesis He2 : (a21 + Dm <= a22 + D1)%nat.
Hypothesis Hsrc1 : in_syn N (ls_input1 L) = [] /\ t_prm N (ls_input1 L) = stdp.
Hypothesis Hsrc2 : in_syn N (ls_input2 L) = [] /\ t_prm N (ls_input2 L) = stdp.
Let sy := dv_sy N a12 a22.
Variables f1 f2 : nat.
Hypothesis HF1 : spikes_at N (ls_acc1 L) [f1].
Hypothesis HF2 : spikes_at N (ls_acc2 L) [f2].
Hypothesis Hf1 : (sy + D1 <= f1)%nat.
Hypothesis Hf2 : (sy + D1 <= f2)%nat.
Hypothesis Hf12 : (f2 <= f1)%nat.
Variable B : nat.
Let b := dv_b N tmin f1.
Hypothesis HB : (b + D1 - 1 + dv_J N Tc (f1 - f2) + Dm <= B)%nat.
Let s1 := (f1 + Dm + D1 + D1)%nat.
Let s2 := (f2 + Dm + D1 + D1)%nat.

Lemma dr_done n : In n (dv_nodes m) -> done N B n.
Proof.
  assert (Hdt' : 0 < dt <= 1 / 2) by lra.
  destruct (dv_steps N tmin Hdt' Htm HA) as (p & q & E1 & E2 & Em & EM & Hp & Hq & Ep & Eq). fold dt D1 in E1. fold dt D2 in E2. fold dt Dm in Em. fold dt D3 DM in EM.
  assert (Hsy : sy = (Nat.max a12 a22 + D1)%nat) by reflexivity. assert (Hb : b = (f1 + Dm + D1 + D1 + DM + D1 + D1)%nat) by reflexivity.
  assert (GJ : (1 <= dv_J N Tc (f1 - f2))%nat) by apply step_at_ge1.
  set (J := dv_J N Tc (f1 - f2)) in *. assert (G3 : (1 <= D3)%nat) by apply step_at_ge1.
  assert (M1 : (a12 <= Nat.max a12 a22)%nat) by lia. assert (M2 : (a22 <= Nat.max a12 a22)%nat) by lia. set (A := Nat.max a12 a22) in *. clearbody A.
  assert (L1 : (sy + D2 < f1 + Dm)%nat) by lia. assert (L2 : (sy + D2 < f2 + Dm)%nat) by lia.
  assert (P1 : (1 <= f1)%nat) by lia. assert (P2 : (1 <= f2)%nat) by lia.
  pose proof (vi_c1 _ _ _ _ HM) as C1. pose proof (vi_c2 _ _ _ _ HM) as C2. fold L in C1, C2.
  pose proof (li_first _ _ _ _ _ _ _ _ _ C1) as I1. pose proof (li_last _ _ _ _ _ _ _ _ _ C1) as I2. pose proof (li_acc _ _ _ _ _ _ _ _ _ C1) as I3. pose proof (li_out _ _ _ _ _ _ _ _ _ C1) as I4.
  pose proof (li_first _ _ _ _ _ _ _ _ _ C2) as I5. pose proof (li_last _ _ _ _ _ _ _ _ _ C2) as I6. pose proof (li_acc _ _ _ _ _ _ _ _ _ C2) as I7. pose proof (li_out _ _ _ _ _ _ _ _ _ C2) as I8.
  pose proof (vi_sync _ _ _ _ HM) as I9. pose proof (vi_in1 _ _ _ _ HM) as I10. pose proof (vi_in2 _ _ _ _ HM) as I11. pose proof (vi_inx _ _ _ _ HM) as I12. fold L in I9, I10, I11.
  pose proof (vi_sub _ _ _ _ HM) as HS. pose proof (vi_exp _ _ _ _ HM) as HX.
  assert (SF1 : spikes_at N (ls_first1 L) [a11]) by (eapply li_first_spk; eauto).
  assert (SF2 : spikes_at N (ls_first2 L) [a21]) by (eapply li_first_spk; eauto).
  assert (SL1 : spikes_at N (ls_last1 L) [a12]) by (eapply li_last_spk; eauto).
  assert (SL2 : spikes_at N (ls_last2 L) [a22]) by (eapply li_last_spk; eauto).
  assert (SY : spikes_at N (ls_sync L) [sy]) by (eapply dv_sync_spk; eauto).
  assert (SO1 : spikes_at N (ls_output1 L) [(sy + D2)%nat; (f1 + Dm)%nat]).
  { apply (li_out_spk N Tc tmin _ _ _ _ _ _ C1 a11 a12 sy Ha11 Ha12 He1 (ins_ext _ _ _ I9) SY); auto; [lia|fold dt D2 Dm; lia]. }
  assert (SO2 : spikes_at N (ls_output2 L) [(sy + D2)%nat; (f2 + Dm)%nat]).
  { apply (li_out_spk N Tc tmin _ _ _ _ _ _ C2 a21 a22 sy Ha21 Ha22 He2 (ins_ext _ _ _ I9) SY); auto; [lia|fold dt D2 Dm; lia]. }
  assert (SR1 : spikes_at N (sb_input1 (Networks.dv_sub m)) [(sy + D2 + D1)%nat; (f1 + Dm + D1)%nat]).
  { eapply relay; [exact I10|autorewrite with netR; lra| |cbn; lia]. rewrite cTsyn_R. eapply arrs_2; [exact I4|exact SO1|reflexivity|lia|lia|lia]. }
  assert (SR2 : spikes_at N (sb_input2 (Networks.dv_sub m)) [(sy + D2 + D1)%nat; (f2 + Dm + D1)%nat]).
  { eapply relay; [exact I11|autorewrite with netR; lra| |cbn; lia]. rewrite cTsyn_R. eapply arrs_2; [exact I8|exact SO2|reflexivity|lia|lia|lia]. }
  assert (HA1 : arrs N (sb_input1 (Networks.dv_sub m)) 1 [(sy + D2 + D1 + D1)%nat; s1]).
  { eapply arrs_2; [exact I10|exact SR1|reflexivity|lia|lia|lia]. }
  assert (HA2 : arrs N (sb_input2 (Networks.dv_sub m)) 1 [(sy + D2 + D1 + D1)%nat; s2]).
  { eapply arrs_2; [exact I11|exact SR2|reflexivity|lia|lia|lia]. }
  destruct (sb_facts dt tmin Hdt' ltac:(lra)) as ((F1 & F2 & F3 & F4 & F5) & K1 & _ & K2 & _ & ZM). specialize (K1 ltac:(lra)).
  assert (Hs1 : s1 = (f1 + Dm + D1 + D1)%nat) by reflexivity. assert (Hs2 : s2 = (f2 + Dm + D1 + D1)%nat) by reflexivity.
  assert (Q1 : (1 <= sy + D2 + D1 + D1 < s1)%nat) by lia. assert (Q2 : (1 <= sy + D2 + D1 + D1 < s2)%nat) by lia.
  fold dt D1 in F1, F2, F3, F5, K1. fold D3 in F2, F3, F4. fold DM in F4.
  set (Dn := step_at dt (/ 100)) in *. set (Dnn := step_at dt (2 * / 100)) in *.
  assert (ORD : ((s1 < s2 /\ s1 + Dnn <= s2 + Dn) \/ s2 < s1 \/ (s1 = s2 /\ Dn < Dnn))%nat) by (clear HB; lia).
  assert (HB1 : (s1 + DM + D1 <= B)%nat) by lia. assert (HB2 : (s2 + DM + D1 <= B)%nat) by lia.
  pose proof (sb_rest N (Networks.dv_sub m) tmin HS _ _ _ _ HA1 HA2 Q1 Q2 F1 F2 F3 F4 F5 ORD B HB1 HB2) as RS.
  pose proof (sb_five N (Networks.dv_sub m) tmin HS _ _ _ _ HA1 HA2 Q1 Q2 F1 F2 F3 F4 F5 ORD B HB1 HB2) as FV.
  assert (SP : spikes_at N (sb_output_plus (Networks.dv_sub m)) [(s2 + D3)%nat; (s1 + DM)%nat]).
  { eapply (DivMid.dv_sub N m Tc tmin Hdt' Htm HM a11 a12 a21 a22 Hin1 Hin2 Ha11 Ha21 Ha12 Ha22 He1 He2 f1 f2); auto. }
  assert (SX : spikes_at N (ex_input (dv_exp m)) [(s2 + D3 + D1)%nat; (s1 + DM + D1)%nat]).
  { eapply relay; [exact I12|autorewrite with netR; lra| |cbn; lia].
    rewrite cTsyn_R. eapply arrs_2; [apply HS|exact SP|reflexivity|lia|lia|lia]. }
  assert (HI : arrs N (ex_input (dv_exp m)) 1 [(s2 + D3 + D1 + D1)%nat; b]).
  { replace b with (s1 + DM + D1 + D1)%nat by lia. eapply arrs_2; [exact I12|exact SX|reflexivity|lia|lia|lia]. }
  assert (Hd20 : 0 < t_dt N < 20) by (fold dt; lra).
  assert (R1 : (1 <= s2 + D3 + D1 + D1)%nat) by lia. assert (R2 : (s2 + D3 + D1 + D1 + D1 <= b)%nat) by lia. assert (R3 : (s2 + D3 + D1 + D1 + Dm <= b + D1)%nat) by lia.
  pose proof (ex_first_spk N (dv_exp m) Tc tmin HX _ _ HI R1 R2) as SE1. pose proof (ex_last_spk N (dv_exp m) Tc tmin HX _ _ HI R1 R2 R3) as SE2.
  pose proof (ex_acc_spk N (dv_exp m) Tc tmin Hd20 HTc HX _ _ HI R1 R2 R3) as SE3.
  pose proof (ex_output_spk N (dv_exp m) Tc tmin Hd20 HTc HX _ _ HI R1 R2 R3) as SE4.
  unfold ex_fire, ex_steps in SE3, SE4. fold dt D1 D2 Dm in SE3, SE4.
  replace (b + D1 - (s2 + D3 + D1 + D1 + Dm))%nat with (f1 - f2)%nat in SE3, SE4 by lia.
  change (step_at dt (Tc * rho N ^ (f1 - f2))) with J in SE3, SE4. specialize (SE4 ltac:(lia)).
  set (fe := (b + D1 - 1 + J)%nat) in *. assert (Hfe : (b + D1 <= fe)%nat) by (unfold fe; lia). 
  pose proof (xi_first _ _ _ _ HX) as X1. pose proof (xi_last _ _ _ _ HX) as X2. pose proof (xi_acc _ _ _ _ HX) as X3. pose proof (xi_output _ _ _ _ HX) as X4.
  assert (SS1 : spikes_at N (sb_sync1 (Networks.dv_sub m)) [s1]) by (eapply sb_sync1_spk; eauto). assert (SS2 : spikes_at N (sb_sync2 (Networks.dv_sub m)) [s2]) by (eapply sb_sync2_spk; eauto).
  clearbody s1 s2 sy b J fe.
  assert (OV : forall p L d l f, ins N p L -> spikes_at N p l -> (forall j, In j l -> (j + step_at dt d <= f)%nat) -> over N p d f).
  { intros p' L' d' l' f' HI' HS' Hl'. eapply over_spk; [apply (ins_ext _ _ _ HI')|exact HS'|exact Hl']. }
  assert (FIRST : forall i n a a', ins N n [mks i n SynV we cTsyn; mks n n SynV wi cTsyn] -> arrs N i 1 [a; a'] -> (1 <= a)%nat -> (a + D1 <= a')%nat -> (a' <= B)%nat -> spikes_at N n [a] -> done N B n).
  { intros i n' a a' H' Har H1 H2 H3 HSp. split; [exists [a]; split; [exact HSp|intros j [<-|[]]; lia]|]. intros k Hk. eapply first_settled; eauto. lia. }
  assert (FIVE : forall n', In n' [sb_inb1 (Networks.dv_sub m); sb_inb2 (Networks.dv_sub m); sb_output_plus (Networks.dv_sub m); sb_output_minus (Networks.dv_sub m); sb_zero (Networks.dv_sub m)] -> In n' (sb_internal (Networks.dv_sub m)) -> done N B n').
  { intros n' H1 H2. split; [|intros k Hk; apply RS; auto]. destruct (FV n' H1) as ((l & A1 & A2) & _). exists l. split; [exact A1|]. intros j Hj. specialize (A2 j Hj). lia. }
  assert (SYN : forall n' s, In n' (sb_internal (Networks.dv_sub m)) -> spikes_at N n' [s] -> (s <= B)%nat -> done N B n').
  { intros n' s H1 H2 H3. split; [exists [s]; split; [exact H2|intros j [<-|[]]; lia]|intros k Hk; apply RS; auto]. }
  unfold dv_nodes, ls_nodes, sb_nodes, ex_nodes. cbn [app In]. intros Hn. fold L in Hn.
  Local Ltac ones := cbn [In]; intros ? [<-|[]]; try lia.
  Local Ltac twos := cbn [In]; intros ? [<-|[<-|[]]]; try lia.
  repeat destruct Hn as [<-|Hn]; try destruct Hn.
  - apply done_src; apply Hsrc1.
  - eapply FIRST; eauto; lia.
  - eapply (done_ins _ _ _ _ a12); [exact I2|exact SL1|left; auto|ones| |lia]. repeat constructor; cbn [s_pre s_delay mks]; rewrite cTsyn_R. eapply over_arrs; [exact Hin1|twos].
  - eapply (done_ins _ _ _ _ f1); [exact I3|exact HF1|left; auto|ones| |lia].
    repeat (apply Forall_cons || apply Forall_nil); cbn [s_pre s_delay mks]; autorewrite with netR; (eapply OV; [eassumption|eassumption|]); over_list; fold D1 Dm; lia.
  - eapply (done_ins _ _ _ _ (f1 + Dm)); [exact I4|exact SO1|right; left; auto|twos| |lia].
    repeat (apply Forall_cons || apply Forall_nil); cbn [s_pre s_delay mks]; autorewrite with netR; (eapply OV; [eassumption|eassumption|]); over_list; fold D1 D2 Dm; lia.
  - apply done_src; apply Hsrc2.
  - eapply FIRST; eauto; lia.
  - eapply (done_ins _ _ _ _ a22); [exact I6|exact SL2|left; auto|ones| |lia]. repeat constructor; cbn [s_pre s_delay mks]; rewrite cTsyn_R. eapply over_arrs; [exact Hin2|twos].
  - eapply (done_ins _ _ _ _ f2); [exact I7|exact HF2|left; auto|ones| |lia].
    repeat (apply Forall_cons || apply Forall_nil); cbn [s_pre s_delay mks]; autorewrite with netR; (eapply OV; [eassumption|eassumption|]); over_list; fold D1 Dm; lia.
  - eapply (done_ins _ _ _ _ (f2 + Dm)); [exact I8|exact SO2|right; left; auto|twos| |lia].
    repeat (apply Forall_cons || apply Forall_nil); cbn [s_pre s_delay mks]; autorewrite with netR; (eapply OV; [eassumption|eassumption|]); over_list; fold D1 D2 Dm; lia.
  - eapply (done_ins _ _ _ _ sy); [exact I9|exact SY|left; auto|ones| |lia].
    repeat (apply Forall_cons || apply Forall_nil); cbn [s_pre s_delay mks]; autorewrite with netR; (eapply OV; [eassumption|eassumption|]); over_list; fold D1 D2 Dm; lia.
  - eapply (done_ins _ _ _ _ (f1 + Dm + D1)); [exact I10|exact SR1|right; left; auto|twos| |lia].
    repeat (apply Forall_cons || apply Forall_nil); cbn [s_pre s_delay mks]; autorewrite with netR. eapply OV; [exact I4|exact SO1|]. twos; fold D1; lia.
  - eapply (done_ins _ _ _ _ (f2 + Dm + D1)); [exact I11|exact SR2|right; left; auto|twos| |lia].
    repeat (apply Forall_cons || apply Forall_nil); cbn [s_pre s_delay mks]; autorewrite with netR. eapply OV; [exact I8|exact SO2|]. twos; fold D1; lia.
  - eapply SYN; [unfold sb_internal; cbn [In]; tauto|exact SS1|lia].
  - eapply SYN; [unfold sb_internal; cbn [In]; tauto|exact SS2|lia].
  - apply FIVE; unfold sb_internal; cbn [In]; tauto.
  - apply FIVE; unfold sb_internal; cbn [In]; tauto.
  - apply FIVE; unfold sb_internal; cbn [In]; tauto.
  - apply FIVE; unfold sb_internal; cbn [In]; tauto.
  - apply FIVE; unfold sb_internal; cbn [In]; tauto.
  - eapply (done_ins _ _ _ _ (s1 + DM + D1)); [exact I12|exact SX|right; left; auto|twos| |lia].
    repeat (apply Forall_cons || apply Forall_nil); cbn [s_pre s_delay mks]; autorewrite with netR. eapply OV; [apply HS|exact SP|]. twos; fold D1; lia.
  - eapply (FIRST _ _ _ b); [exact X1|exact HI|lia|lia|lia|exact SE1].
  - eapply (done_ins _ _ _ _ b); [exact X2|exact SE2|left; auto|ones| |lia]. repeat constructor; cbn [s_pre s_delay mks]; rewrite cTsyn_R. eapply over_arrs; [exact HI|twos].
  - eapply (done_ins _ _ _ _ fe); [exact X3|exact SE3|left; auto|ones| |lia].
    repeat (apply Forall_cons || apply Forall_nil); cbn [s_pre s_delay mks]; autorewrite with netR; (eapply OV; [first [exact X1|exact X2]|eassumption|]); over_list; fold D1 D2 Dm; lia.
  - eapply (done_ins _ _ _ _ (fe + Dm)); [exact X4|exact SE4|right; left; auto|twos| |lia].
    repeat (apply Forall_cons || apply Forall_nil); cbn [s_pre s_delay mks]; autorewrite with netR; (eapply OV; [first [exact X2|exact X3]|eassumption|]); over_list; fold D1 D2 Dm; lia.
Qed.
End DivRest.

(** what the accumulator of an operand holds, as a value: the number of whole steps it charges for *)
Definition held (dt tmin tcod x t : R) : R :=
  INR (step_at dt (t + 1 + (tmin + x * tcod)) + step_at dt 1 - (step_at dt (t + 1) + step_at dt (1 + tmin))) * (dt / tcod).
Lemma div_quiet (tmin tcod x1 x2 ta tb dt : R) K m w nm :
  0 < dt < / 50 -> 0 < tcod -> 1 + dt < tmin -> aligned dt tmin -> 0 <= x1 <= 1 -> 0 <= x2 <= 1 -> 0 <= ta -> 0 <= tb ->
  0 < held dt tmin tcod x1 ta -> held dt tmin tcod x1 ta <= held dt tmin tcod x2 tb -> held dt tmin tcod x2 tb < 1 ->
  Rmax ta tb + 17 + 5 * tmin + 2 * tcod + 20 * - ln (held dt tmin tcod x1 ta) <= INR K * dt ->
  let enc := DataEncoder tmin tcod in
  DivNetwork enc nm empty_world = Ok (m, w) -> built empty_world w (dv_mod m) (dv_syns enc m) -> dv_nodes m = seq 0 25 -> length (w_neurons w) = 25%nat ->
  quiet (net_of w (exts enc [SValue x1 (ls_input1 (dv_ls m)) ta; SValue x2 (ls_input2 (dv_ls m)) tb]) dt) 25 K.
Proof.
  intros Hdt Htc Htm HA Hx1 Hx2 Hta Htb H1 H12 H2 HT enc E HB HN HL.
  assert (Hdt' : 0 < dt <= 1 / 2) by lra. destruct Hdt as [Hd Hd2].
  pose proof (ln_neg (held dt tmin tcod x1 ta) ltac:(lra)) as Hln.
  pose proof (Rmax_l ta tb) as M1. pose proof (Rmax_r ta tb) as M2.
  pose proof HN as HN'. unfold dv_nodes, ls_nodes, sb_nodes, ex_nodes in HN'. cbn [app] in HN'. nodes_eqs HN'.
  set (stims := fun m => [SValue x1 (ls_input1 (dv_ls m)) ta; SValue x2 (ls_input2 (dv_ls m)) tb]).
  destruct (session_built (DivNetwork enc nm) dv_mod m w _ enc dt stims (fun _ l => l) (INR K * dt) E HB Hd ltac:(lra)) as (s & Es & HSe).
  { unfold stims. stims_ok. } { intros i l. reflexivity. }
  change [SValue x1 (ls_input1 (dv_ls m)) ta; SValue x2 (ls_input2 (dv_ls m)) tb] with (stims m).
  set (N := net_of w (exts enc (stims m)) dt) in *. unfold stims in *.
  assert (Hc : forall x, 0 <= x <= 1 -> 0 <= x * tcod <= tcod).
  { intros x Hx. split; [apply Rmult_le_pos; lra|rewrite <- (Rmult_1_l tcod) at 2; apply Rmult_le_compat_r; lra]. }
  pose proof (Hc x1 Hx1) as Hc1. pose proof (Hc x2 Hx2) as Hc2.
  unfold held in *.
  pose proof (sy_time tmin tcod x1 x2 dt ta tb Hdt' Htc Htm HA Hx1 Hx2 Hta Htb) as ST.
  set (a11 := step_at dt (ta + 1)) in *. set (a12 := step_at dt (ta + 1 + (tmin + x1 * tcod))) in *.
  set (a21 := step_at dt (tb + 1)) in *. set (a22 := step_at dt (tb + 1 + (tmin + x2 * tcod))) in *.
  assert (HA1 : arrs N (ls_input1 (dv_ls m)) 1 [a11; a12]).
  { eapply (se_arrs _ _ _ _ _ _ _ _ HSe); [lia| |ext_simp; reflexivity|cbn [map]].
    - cbv beta zeta delta [dv_syns sb_syns ex_syns ls_syns]. cbn [app]. filt. reflexivity.
    - unfold a11, a12, enc; cbn [DataEncoder Tmin Tcod]. do 3 f_equal. lra. }
  assert (HA2 : arrs N (ls_input2 (dv_ls m)) 1 [a21; a22]).
  { eapply (se_arrs _ _ _ _ _ _ _ _ HSe); [lia| |ext_simp; reflexivity|cbn [map]].
    - cbv beta zeta delta [dv_syns sb_syns ex_syns ls_syns]. cbn [app]. filt. reflexivity.
    - unfold a21, a22, enc; cbn [DataEncoder Tmin Tcod]. do 3 f_equal. lra. }
  assert (HM : dv_ins N (1000 / tcod) tmin m).
  { rewrite <- (wbar_R tmin tcod). apply (dv_ins_of N enc m 0); auto. intros n Hn n1 n2. apply (se_own _ _ _ _ _ _ _ _ HSe).
    - rewrite HN in Hn. apply in_seq in Hn. lia.
    - ext_simp. reflexivity. }
  pose proof (step_at_ge1 dt (ta + 1)) as G1. pose proof (step_at_ge1 dt (tb + 1)) as G2. fold a11 in G1. fold a21 in G2.
  set (D1 := step_at dt 1) in *. set (D2 := step_at dt 2) in *. set (Dm := step_at dt (1 + tmin)) in *. set (DM := step_at dt (tmin + (3 * 1 + 2 * / 100))) in *.
  assert (Q1 : (a11 + D1 <= a12)%nat).
  { apply step_diff_ge; try lra; try apply step_at_ge1. pose proof (step_time dt 1 Hd ltac:(lra)). unfold D1. lra. }
  assert (Q2 : (a21 + D1 <= a22)%nat).
  { apply step_diff_ge; try lra; try apply step_at_ge1. pose proof (step_time dt 1 Hd ltac:(lra)). unfold D1. lra. }
  assert (W1 : (a11 + Dm <= a12 + D1)%nat) by (apply steps_aligned_gap; auto; lra).
  assert (W2 : (a21 + Dm <= a22 + D1)%nat) by (apply steps_aligned_gap; auto; lra).
  pose proof (dv_acc1 N m tcod tmin Hdt' Htc HM _ _ _ _ HA1 HA2 G1 G2 Q1 Q2 W1 W2) as R1.
  pose proof (dv_acc2 N m tcod tmin Hdt' Htc HM _ _ _ _ HA1 HA2 G1 G2 Q1 Q2 W1 W2) as R2.
  cbn [N net_of t_dt] in R1, R2. fold N in R1, R2. fold D1 D2 Dm in R1, R2.
  set (sy := dv_sy N a12 a22) in *. assert (Hsy : sy = (Nat.max a12 a22 + D1)%nat) by reflexivity. rewrite <- Hsy in ST.
  unfold rho in R1, R2. cbn [N net_of t_dt] in R1, R2. fold N in R1, R2.
  set (c1 := INR (a12 + D1 - (a11 + Dm)) * (dt / tcod)) in *. set (c2 := INR (a22 + D1 - (a21 + Dm)) * (dt / tcod)) in *.
  set (r := 1 - dt / 20) in *. assert (Hr : 0 < r < 1) by (unfold r; lra).
  destruct (least_pow r c1 Hr H1) as (i & I1 & I2). destruct (least_pow r c2 Hr ltac:(lra)) as (j & J1 & J2).
  assert (LI : least r c1 i) by (split; auto). assert (LJ : least r c2 j) by (split; auto).
  pose proof (least_mono _ _ _ _ _ Hr H12 LI LJ) as Hij.
  destruct (least_ln (dt / 20) c1 i ltac:(lra) ltac:(lra) I1 I2) as [_ B2].
  destruct R1 as (_ & R1 & _). specialize (R1 i ltac:(lra) I1 I2). destruct R2 as (_ & R2 & _). specialize (R2 j ltac:(lra) J1 J2).
  assert (i1 : (1 <= i)%nat) by (destruct i; [cbn in I1; lra|lia]). assert (j1 : (1 <= j)%nat) by (destruct j; [cbn in J1; lra|lia]).
  set (f1 := (sy + D1 - 1 + i)%nat) in *. set (f2 := (sy + D1 - 1 + j)%nat) in *.
  assert (GD : (1 <= D1)%nat) by apply step_at_ge1.
  pose proof (b_syn _ _ _ _ HB) as ES. cbn [w_syns empty_world app] in ES.
  assert (SRC1 : in_syn N (ls_input1 (dv_ls m)) = [] /\ t_prm N (ls_input1 (dv_ls m)) = stdp).
  { split; [|cbn; apply prm_std; [apply HB|lia]]. eapply src_in; [exact ES|]. cbv beta zeta delta [dv_syns sb_syns ex_syns ls_syns]. cbn [app]. filt. reflexivity. }
  assert (SRC2 : in_syn N (ls_input2 (dv_ls m)) = [] /\ t_prm N (ls_input2 (dv_ls m)) = stdp).
  { split; [|cbn; apply prm_std; [apply HB|lia]]. eapply src_in; [exact ES|]. cbv beta zeta delta [dv_syns sb_syns ex_syns ls_syns]. cbn [app]. filt. reflexivity. }
  assert (HP : 0 < r ^ (f1 - f2) <= 1) by (split; [apply pow_lt; lra|apply pow_le1; lra]).
  assert (HTr : 0 < tcod * r ^ (f1 - f2)) by (apply Rmult_lt_0_compat; lra).
  assert (HTr2 : tcod * r ^ (f1 - f2) <= tcod) by (rewrite <- (Rmult_1_r tcod) at 2; apply Rmult_le_compat_l; lra).
  pose proof (step_at_bounds dt _ Hd HTr) as BJ.
  set (B := (dv_b N tmin f1 + D1 - 1 + dv_J N tcod (f1 - f2) + Dm)%nat).
  assert (HD : forall n, (n < 25)%nat -> done N B n).
  { intros n Hn. eapply (dr_done N m tcod tmin ltac:(split; [exact Hd|exact Hd2]) Htc Htm HA HM a11 a12 a21 a22) with (f1 := f1) (f2 := f2); auto;
      try (unfold f1, f2; fold sy; change (t_dt N) with dt; fold D1; lia).
    rewrite HN. apply in_seq. lia. }
  assert (HBe : B = (f1 + Dm + D1 + D1 + DM + D1 + D1 + D1 - 1 + step_at dt (tcod * r ^ (f1 - f2)) + Dm)%nat) by reflexivity.
  clearbody B. set (q := step_at dt (tcod * r ^ (f1 - f2))) in *.
  destruct (aligned_steps dt tmin Hd ltac:(lra) HA) as (p & p' & E1 & E2 & _ & E3 & Ep & Eq). fold D1 in E1. fold D2 in E2. fold Dm in E3.
  destruct (sb_facts dt tmin Hdt' ltac:(lra)) as (_ & _ & _ & _ & _ & ZM). fold DM in ZM.
  apply (done_quiet N 25 B DM K HD).
  - intros y Hy. cbn [N net_of t_syns t_dt] in *. rewrite ES in Hy.
    assert (SM : forall d, d <= tmin + (3 * 1 + 2 * / 100) -> (step_at dt d <= DM)%nat) by (intros d Hdl; apply step_at_mono; lra).
    unfold dv_syns, ls_syns, sb_syns, ex_syns, sb_d3 in Hy. cbn [app In] in Hy.
    repeat destruct Hy as [<-|Hy]; try destruct Hy; cbn [s_pre s_delay syn mks]; cbn [enc DataEncoder Tmin]; (split; [lia|apply SM; netr; autorewrite with netR; lra]).
  - assert (B + DM < K + 1)%nat; [|lia]. rewrite HBe. unfold f1. rewrite E1, E3 in *. nat_lt dt Hd. cbn [INR]. lra.
  - intros e y He Hy Ee. cbn [N net_of t_ext t_syns t_dt] in *. rewrite ES in Hy.
    assert (HK1 : (a12 <= K)%nat /\ (a22 <= K)%nat).
    { assert (sy < K + 1)%nat; [|lia]. nat_lt dt Hd. cbn [INR]. lra. }
    unfold exts in He. cbn [flat_map stim_ext app In] in He.
    assert (Efst : fst e = ls_input1 (dv_ls m) \/ fst e = ls_input2 (dv_ls m)) by (destruct He as [<-|[<-|[<-|[<-|[]]]]]; cbn; auto).
    assert (HPd : s_delay y = 1).
    { unfold dv_syns, ls_syns, sb_syns, ex_syns, sb_d3 in Hy. cbn [app In] in Hy. repeat destruct Hy as [<-|Hy]; try destruct Hy; cbn [s_pre s_delay syn mks] in *; autorewrite with netR; try lra; exfalso; lia. }
    rewrite HPd. destruct He as [<-|[<-|[<-|[<-|[]]]]]; cbn [snd].
    + fold a11. lia.
    + replace (ta + (Tmin enc + x1 * Tcod enc) + 1) with (ta + 1 + (tmin + x1 * tcod)) by (unfold enc; cbn; lra). fold a12. lia.
    + fold a21. lia.
    + replace (tb + (Tmin enc + x2 * Tcod enc) + 1) with (tb + 1 + (tmin + x2 * tcod)) by (unfold enc; cbn; lra). fold a22. lia.
Qed.

(** a job ((x1, x2), (d1, d2)) started at t: x1 to input1 at t + d1, x2 to input2 at t + d2 *)
Definition div_job (x : (R * R) * (R * R)) (t : R) (m : div_net) : list stim :=
  [SValue (fst (fst x)) (dv_input1 m) (t + fst (snd x)); SValue (snd (fst x)) (dv_input2 m) (t + snd (snd x))].
Section Jobs.
Variables tmin tcod dt : R.
Variable nm : option String.string.
Variable ord : nat -> list nat -> list nat.
Hypothesis Hdt : 0 < dt < / 50.
Hypothesis Htc : 0 < tcod.
Hypothesis Htm : 1 + dt < tmin.
Hypothesis HA : aligned dt tmin.
Hypothesis HO : ord_ok ord.
Let enc := DataEncoder tmin tcod.
Variable ok : (R * R) * (R * R) -> Prop.
Variables span eps : (R * R) * (R * R) -> R.
Hypothesis Hok : forall x1 x2 d1 d2, ok ((x1, x2), (d1, d2)) -> 0 <= x1 <= 1 /\ 0 <= x2 <= 1 /\ 0 <= d1 /\ 0 <= d2.
Hypothesis Hheld : forall x1 x2 d1 d2 t, ok ((x1, x2), (d1, d2)) -> 0 <= t ->
  let c1 := held dt tmin tcod x1 (t + d1) in let c2 := held dt tmin tcod x2 (t + d2) in
  0 < c1 /\ c1 <= c2 /\ c2 < 1 /\ Rmax (t + d1) (t + d2) + 17 + 5 * tmin + 2 * tcod + 20 * - ln c1 + dt <= t + span ((x1, x2), (d1, d2)).
Hypothesis Hrun : forall x1 x2 d1 d2 t T, ok ((x1, x2), (d1, d2)) -> 0 <= t -> t + span ((x1, x2), (d1, d2)) <= T + dt ->
  exists m s, session (DivNetwork enc nm) dv_mod enc dt (div_job ((x1, x2), (d1, d2)) t) ord T = Ok (m, s) /\
    emits s (dv_output m) enc (x1 / x2) (eps ((x1, x2), (d1, d2))).
Theorem div_jobs (js : list (((R * R) * (R * R)) * R)) T : 0 <= T -> jobs_ok _ ok span 0 js T ->
  exists m s ps, session (DivNetwork enc nm) dv_mod enc dt (fun m => flat_map (fun j => div_job (fst j) (snd j) m) js) ord T = Ok (m, s) /\
    spike_log s (dv_output m) = concat ps /\
    Forall2 (fun j p => pair_says enc (fst (fst (fst j)) / snd (fst (fst j))) (eps (fst j)) p) js ps.
Proof.
  intros HT HJ. assert (HTc : tcod <> 0) by lra. assert (HTm : tmin + tcod <> 0) by lra.
  destruct (Div_built enc nm empty_world inv_empty (neq0 _ HTm) (neq0 _ HTc)) as (m & w & E & HB & HN & HI1 & HI2 & HOu & HL).
  cbn [w_neurons empty_world length Nat.add] in HN, HL. change (ls_nodes (dv_ls m) ++ sb_nodes (Networks.dv_sub m) ++ ex_nodes (dv_exp m)) with (dv_nodes m) in HN.
  pose proof HN as HN'. unfold dv_nodes, ls_nodes, sb_nodes, ex_nodes in HN'. cbn [app] in HN'. nodes_eqs HN'.
  pose proof (b_syn _ _ _ _ HB) as ES. cbn [w_syns empty_world app] in ES.
  assert (SPAN : forall x, ok x -> 0 < span x).
  { intros [[x1 x2] [d1 d2]] Hx. destruct (Hok _ _ _ _ Hx) as (A1 & A2 & A3 & A4). destruct (Hheld _ _ _ _ 0 Hx ltac:(lra)) as (B1 & B2 & B3 & B4).
    pose proof (ln_neg (held dt tmin tcod x1 (0 + d1)) ltac:(lra)). pose proof (Rmax_l (0 + d1) (0 + d2)). lra. }
  destruct (session_jobs1 (DivNetwork enc nm) dv_mod m w _ enc dt ord _ (fun m x t => div_job x t m) ok span (dv_output m)
     (fun x l => pair_says enc (fst (fst x) / snd (fst x)) (eps x) l) E HB ltac:(lra) HO) with (js := js) (T := T) as (s & ps & Es & LG & F); auto.
  - intros y Hy. rewrite ES in Hy. unfold dv_syns, ls_syns, sb_syns, ex_syns, sb_d3 in Hy. cbn [app In] in Hy.
    repeat destruct Hy as [<-|Hy]; try destruct Hy; cbn [s_delay syn mks enc DataEncoder Tmin]; netr; autorewrite with netR; lra.
  - intros x t d. unfold exts, later, div_job. cbn [flat_map stim_ext app map fst snd]. repeat (f_equal; try lra).
  - intros [[x1 x2] [d1 d2]] t p Hx Hp. destruct (Hok _ _ _ _ Hx) as (A1 & A2 & A3 & A4). unfold exts, div_job in Hp. cbn [flat_map stim_ext app In enc DataEncoder Tmin Tcod fst snd] in Hp.
    assert (0 <= x1 * tcod) by (apply Rmult_le_pos; lra). assert (0 <= x2 * tcod) by (apply Rmult_le_pos; lra).
    destruct Hp as [<-|[<-|[<-|[<-|[]]]]]; cbn [snd]; lra.
  - intros [[x1 x2] [d1 d2]] t Hx. destruct (Hok _ _ _ _ Hx) as (A1 & A2 & A3 & A4). unfold div_job. cbn [fst snd]. rewrite HI1, HI2. stims_ok.
  - lia.
  - intros x t. unfold exts, div_job. cbn [flat_map stim_ext app map fst In]. rewrite HI1, HI2, HOu. lia.
  - intros x l d. apply says_shift.
  - intros [[x1 x2] [d1 d2]] t K Hx Ht HK. rewrite S_INR in HK.
    destruct (Hok _ _ _ _ Hx) as (A1 & A2 & A3 & A4). destruct (Hheld _ _ _ _ t Hx Ht) as (B1 & B2 & B3 & B4).
    assert (HQ : quiet (net_of w (exts enc (div_job ((x1, x2), (d1, d2)) t m)) dt) 25 K).
    { unfold div_job. cbn [fst snd]. rewrite HI1, HI2. eapply div_quiet; eauto; try lra. }
    rewrite <- HL in HQ.
    destruct (Hrun x1 x2 d1 d2 t (INR K * dt) Hx Ht ltac:(lra)) as (m' & s & Es & EM).
    destruct (session_rests (DivNetwork enc nm) dv_mod m w _ enc dt ord E HB ltac:(lra) HO (fun m => div_job ((x1, x2), (d1, d2)) t m) K) as (s' & Es' & RS); auto;
      [unfold div_job; cbn [fst snd]; rewrite HI1, HI2; stims_ok|].
    change (session (DivNetwork enc nm) dv_mod enc dt (fun m0 => div_job (x1, x2, (d1, d2)) t m0) ord (INR K * dt) = Ok (m', s)) in Es. rewrite Es' in Es. injection Es as <- <-.
    exists s'. split; [exact Es'|]. split; [exact RS|]. exact EM.
  - exists m, s, ps. auto.
Qed.
End Jobs.

(** operands that are whole numbers of timesteps, each given at its own time *)
Theorem div_reuse (tmin tcod dt T : R) (js : list (((R * R) * (R * R)) * R)) nm ord :
  0 < dt < / 50 -> 0 < tcod -> 1 + dt < tmin -> aligned dt tmin -> ord_ok ord -> 0 <= T ->
  jobs_ok _ (fun x => let '((x1, x2), (d1, d2)) := x in
      0 < x1 <= x2 /\ x2 < 1 /\ (exists k1 k2, x1 * tcod = INR k1 * dt /\ x2 * tcod = INR k2 * dt) /\ 0 <= d1 /\ 0 <= d2)
    (fun x => Rmax (fst (snd x)) (snd (snd x)) + 18 + 5 * tmin + 2 * tcod + 20 * - ln (fst (fst x))) 0 js T ->
  exists m s ps, session (DivNetwork (DataEncoder tmin tcod) nm) dv_mod (DataEncoder tmin tcod) dt (fun m => flat_map (fun j => div_job (fst j) (snd j) m) js) ord T = Ok (m, s) /\
    spike_log s (dv_output m) = concat ps /\
    Forall2 (fun j p => pair_says (DataEncoder tmin tcod) (fst (fst (fst j)) / snd (fst (fst j))) (dt / tcod + fst (fst (fst j)) / snd (fst (fst j)) * (dt / (20 - dt))) p) js ps.
Proof.
  intros Hdt Htc Htm HA HO HT HJ. assert (Hdt' : 0 < dt <= 1 / 2) by lra.
  assert (MX : forall t d1 d2, Rmax (t + d1) (t + d2) = t + Rmax d1 d2).
  { intros t d1 d2. unfold Rmax. destruct (Rle_dec d1 d2), (Rle_dec (t + d1) (t + d2)); lra. }
  eapply (div_jobs tmin tcod dt nm ord Hdt Htc Htm HA HO) with (eps := fun x => dt / tcod + fst (fst x) / snd (fst x) * (dt / (20 - dt))); [| | |exact HT|exact HJ].
  - intros x1 x2 d1 d2 (A1 & A2 & _ & A3 & A4). repeat apply conj; lra.
  - intros x1 x2 d1 d2 t (A1 & A2 & (k1 & k2 & K1 & K2) & A3 & A4) Ht. cbv zeta. cbn [fst snd]. unfold held.
    destruct (stored tmin tcod dt Hdt' Htc Htm HA x1 (t + d1) ltac:(lra) ltac:(lra)) as [_ S1]. rewrite (S1 k1 K1).
    destruct (stored tmin tcod dt Hdt' Htc Htm HA x2 (t + d2) ltac:(lra) ltac:(lra)) as [_ S2]. rewrite (S2 k2 K2).
    rewrite MX. repeat apply conj; lra.
  - intros x1 x2 d1 d2 t T0 (A1 & A2 & (k1 & k2 & K1 & K2) & A3 & A4) Ht HT0. cbn [fst snd] in *.
    apply (divide_run tmin tcod x1 x2 dt (t + d1) (t + d2) T0 k1 k2 nm ord); auto; try lra. rewrite MX. lra.
Qed.
(** any operands, both given at the start of the job *)
Theorem div_any_reuse (tmin tcod dt T : R) (js : list ((R * R) * R)) nm ord :
  0 < dt < / 50 -> 0 < tcod -> 1 + dt < tmin -> aligned dt tmin -> ord_ok ord -> 0 <= T ->
  jobs_ok _ (fun x => fst x <= snd x /\ 2 * dt <= fst x * tcod /\ snd x * tcod + dt <= tcod)
    (fun x => 18 + 5 * tmin + 2 * tcod + 20 * - ln (fst x / 2)) 0 js T ->
  exists m s ps, session (DivNetwork (DataEncoder tmin tcod) nm) dv_mod (DataEncoder tmin tcod) dt
      (fun m => flat_map (fun j => [SValue (fst (fst j)) (dv_input1 m) (snd j); SValue (snd (fst j)) (dv_input2 m) (snd j)]) js) ord T = Ok (m, s) /\
    spike_log s (dv_output m) = concat ps /\
    Forall2 (fun j p => pair_says (DataEncoder tmin tcod) (fst (fst j) / snd (fst j)) (dt / tcod + dt / (20 - dt) + 4 * dt / (snd (fst j) * tcod)) p) js ps.
Proof.
  intros Hdt Htc Htm HA HO HT HJ. assert (Hdt' : 0 < dt <= 1 / 2) by lra.
  set (u := dt / tcod). assert (Hu : u * tcod = dt) by (unfold u; field; lra). assert (Hup : 0 < u) by (apply Rdiv_lt_0_compat; lra).
  assert (BND : forall x1 x2, x1 <= x2 -> 2 * dt <= x1 * tcod -> x2 * tcod + dt <= tcod -> 2 * u <= x1 /\ x2 + u <= 1).
  { intros x1 x2 X1 X2 X3. split; apply Rmult_le_reg_r with tcod; lra. }
  set (up := fun j : (R * R) * R => ((fst j, (0, 0)), snd j)).
  destruct (div_jobs tmin tcod dt nm ord Hdt Htc Htm HA HO (fun x => let '((x1, x2), (d1, d2)) := x in d1 = 0 /\ d2 = 0 /\ x1 <= x2 /\ 2 * dt <= x1 * tcod /\ x2 * tcod + dt <= tcod)
    (fun x => 18 + 5 * tmin + 2 * tcod + 20 * - ln (fst (fst x) / 2)) (fun x => dt / tcod + dt / (20 - dt) + 4 * dt / (snd (fst x) * tcod))) with (js := map up js) (T := T) as (m & s & ps & E & LG & F); auto.
  - intros x1 x2 d1 d2 (-> & -> & A1 & A2 & A3). destruct (BND x1 x2 A1 A2 A3). repeat apply conj; lra.
  - intros x1 x2 d1 d2 t (-> & -> & A1 & A2 & A3) Ht. cbv zeta. cbn [fst snd]. unfold held. rewrite Rplus_0_r, Rmax_left by lra. destruct (BND x1 x2 A1 A2 A3) as [X1 X2].
    destruct (stored tmin tcod dt Hdt' Htc Htm HA x1 t ltac:(lra) Ht) as [S1 _]. destruct (stored tmin tcod dt Hdt' Htc Htm HA x2 t ltac:(lra) Ht) as [S2 _]. fold u in S1, S2. fold u.
    assert (Hm : (step_at dt (t + 1 + (tmin + x1 * tcod)) <= step_at dt (t + 1 + (tmin + x2 * tcod)))%nat).
    { apply step_at_mono; [lra|]. assert (x1 * tcod <= x2 * tcod) by (apply Rmult_le_compat_r; lra). lra. }
    set (n1 := (step_at dt (t + 1 + (tmin + x1 * tcod)) + step_at dt 1 - (step_at dt (t + 1) + step_at dt (1 + tmin)))%nat) in *.
    set (n2 := (step_at dt (t + 1 + (tmin + x2 * tcod)) + step_at dt 1 - (step_at dt (t + 1) + step_at dt (1 + tmin)))%nat) in *.
    assert (Hn : INR n1 * u <= INR n2 * u) by (apply Rmult_le_compat_r; [lra|apply le_INR; unfold n1, n2; lia]).
    apply Rabs_def2 in S1. apply Rabs_def2 in S2. set (c1 := INR n1 * u) in *. set (c2 := INR n2 * u) in *. clearbody c1 c2.
    assert (L : - ln c1 <= - ln (x1 / 2)).
    { destruct (Rle_lt_or_eq_dec (x1 / 2) c1 ltac:(lra)) as [h|<-]; [|lra]. pose proof (ln_increasing (x1 / 2) c1 ltac:(lra) h). lra. }
    repeat apply conj; lra.
  - intros x1 x2 d1 d2 t T0 (-> & -> & A1 & A2 & A3) Ht HT0. cbn [fst snd] in *. destruct (BND x1 x2 A1 A2 A3) as [X1 X2].
    unfold div_job. cbn [fst snd]. rewrite Rplus_0_r. apply divide_any_run; auto. lra.
  - match goal with |- jobs_ok ?X ?o ?sp _ _ _ => match type of HJ with jobs_ok ?X' ?o' ?sp' _ _ _ =>
      enough (G : forall z, jobs_ok X' o' sp' z js T -> jobs_ok X o sp z (map up js) T) by (apply G; exact HJ) end end.
    clear. induction js as [|[[x1 x2] t] js IH]; intros z H; cbn [jobs_ok map up fst snd] in *; [exact H|].
    destruct H as ((B1 & B2 & B3) & B4 & B5). repeat apply conj; auto.
  - exists m, s, ps. split; [|split; [exact LG|]].
    + rewrite <- E. unfold session. destruct (DivNetwork _ nm empty_world) as [[m' w']|e]; [|reflexivity]. cbn [rbind fst snd].
      replace (flat_map (fun j => [SValue (fst (fst j)) (dv_input1 m') (snd j); SValue (snd (fst j)) (dv_input2 m') (snd j)]) js) with (flat_map (fun j => div_job (fst j) (snd j) m') (map up js)); [reflexivity|].
      clear. induction js as [|j js IH]; [reflexivity|]. cbn [map flat_map]. rewrite IH. unfold div_job, up. cbn [fst snd]. rewrite Rplus_0_r. reflexivity.
    + clear -F. revert ps F. induction js as [|j js IH]; intros ps F; cbn [map] in F; inversion F; subst; constructor; auto.
Qed.
