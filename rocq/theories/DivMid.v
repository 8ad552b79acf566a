(** DivNetwork (C50): from the two logarithm accumulators to the output. *)
From Coq Require Import Arith ZArith Bool List Reals Lra Lia Permutation.
From Verif Require Import Num Heapq Elements Simulator Networks Trace SimTrace SimProps TraceProps NeuronLib NetLib Build BuildNets Bridge MemoryProof GeLib GfLib Session SimpleNets InvMem Misc LnLib FuncNets SegLib SubNet ExpLog DivNet.
Import ListNotations.
Open Scope R_scope.
Open Scope list_scope.

Lemma quiet_of N n L : ins N n L -> (forall k ty, (1 <= k)%nat -> input N n ty k = 0) -> spikes_at N n [].
Proof.
  intros H HI k. cbn [memb existsb]. apply (silent N n (ins_prm _ _ _ H)). intros j Hj. apply no_input_of; auto.
Qed.
Lemma first_silent N i f : ins N f [mks i f SynV we cTsyn; mks f f SynV wi cTsyn] -> arrs N i cTsyn [] -> spikes_at N f [].
Proof.
  intros H HA.
  apply (seg_group N [{| g_n := f; g_S := []; g_L := [] |}]) with (g := {| g_n := f; g_S := []; g_L := [] |}); [| |left; auto].
  - intros g [<-|[]]. cbn [g_n g_L g_S]. split; [apply H|split; [eapply ins_vonly; eauto; repeat constructor|]]. cbn [segs]. intros k Hk. rewrite vsum_nil. lra.
  - intros K HK g [<-|[]]. cbn [g_n g_L g_S]. ev_input H. rewrite HA by lia.
    rewrite (arr_upto N f cTsyn [] K (S K)); try apply H; auto.
    + ev_simpl. lra.
    + intros j Hj. apply (HK {| g_n := f; g_S := []; g_L := [] |}); auto. left; auto.
    + intros j [].
    + constructor.
Qed.

Section Mid.
Variable N : tnet.
Variable m : div_net.
Variables Tc tmin : R.
Let dt := t_dt N.
Hypothesis Hdt : 0 < dt <= 1 / 2.
Hypothesis HTc : 0 < Tc.
Hypothesis Htm : 1 + dt < tmin.
Hypothesis HA : aligned dt tmin.
Hypothesis HM : dv_ins N (1000 / Tc) tmin m.
Let D1 := step_at dt 1.
Let D2 := step_at dt 2.
Let Dm := step_at dt (1 + tmin).
Let D3 := step_at dt (3 * 1 + 2 * / 100).
Let DM := step_at dt (tmin + (3 * 1 + 2 * / 100)).
Let L := dv_ls m.
Variables a11 a12 a21 a22 : nat.
Hypothesis Hin1 : arrs N (ls_input1 L) 1 [a11; a12].
Hypothesis Hin2 : arrs N (ls_input2 L) 1 [a21; a22].
Hypothesis Ha11 : (1 <= a11)%nat.
Hypothesis Ha21 : (1 <= a21)%nat.
Hypothesis Ha12 : (a11 + D1 <= a12)%nat.
Hypothesis Ha22 : (a21 + D1 <= a22)%nat.
Hypothesis He1 : (a11 + Dm <= a12 + D1)%nat.
Hypothesis He2 : (a21 + Dm <= a22 + D1)%nat.
Definition dv_sy := (Nat.max a12 a22 + step_at (t_dt N) 1)%nat.
Lemma dv_sy1 : (1 <= dv_sy)%nat.
Proof. unfold dv_sy. pose proof (step_at_ge1 (t_dt N) 1). lia. Qed.
Lemma dv_steps : exists p q, D1 = p /\ D2 = (2 * p)%nat /\ Dm = (p + q)%nat /\ DM = (D3 + q)%nat /\ (1 <= p)%nat /\ (p + 2 <= q)%nat /\ 1 = INR p * dt /\ tmin = INR q * dt.
Proof.
  clear - Hdt Htm HA.
  destruct (aligned_steps dt tmin ltac:(lra) ltac:(lra) HA) as (p & q & E1 & E2 & _ & E3 & Ep & Eq). exists p, q.
  assert (G1 := step_at_ge1 dt 1). rewrite E1 in G1.
  refine (conj E1 (conj E2 (conj E3 (conj _ (conj G1 (conj _ (conj Ep Eq))))))).
  - unfold DM, D3. rewrite Eq, Rplus_comm. apply step_exact; lra.
  - destruct Hdt as [Hd _]. enough (p + 1 < q)%nat by lia. nat_lt dt Hd. lra.
Qed.
Lemma dv_sync_spk : spikes_at N (ls_sync L) [dv_sy].
Proof.
  assert (G := step_at_ge1 dt 1). fold D1 in G.
  eapply sync_spk; [apply HM| | | | | |].
  - apply (ins_ext _ _ _ (li_last _ _ _ _ _ _ _ _ _ (vi_c1 _ _ _ _ HM))).
  - apply (ins_ext _ _ _ (li_last _ _ _ _ _ _ _ _ _ (vi_c2 _ _ _ _ HM))).
  - eapply li_last_spk; [apply HM|apply Hin1|auto|exact Ha12|exact He1].
  - eapply li_last_spk; [apply HM|apply Hin2|auto|exact Ha22|exact He2].
  - lia.
  - lia.
Qed.
Let c1 := INR (a12 + D1 - (a11 + Dm)) * (dt / Tc).
Let c2 := INR (a22 + D1 - (a21 + Dm)) * (dt / Tc).
Lemma dv_acc1 :
  (c1 = 0 -> spikes_at N (ls_acc1 L) []) /\
  (forall j, c1 < 1 -> rho N ^ j <= c1 -> (forall i, (i < j)%nat -> c1 < rho N ^ i) -> spikes_at N (ls_acc1 L) [(dv_sy + D1 - 1 + j)%nat]) /\
  (1 <= c1 -> (step_at dt Tc <= a12 + D1 - (a11 + Dm))%nat /\ spikes_at N (ls_acc1 L) [(a11 + Dm - 1 + step_at dt Tc)%nat]).
Proof.
  assert (Hd20 : 0 < t_dt N < 20) by (fold dt; lra).
  apply (li_acc_spk N Tc tmin _ _ _ _ _ _ Hd20 HTc (vi_c1 _ _ _ _ HM) a11 a12 dv_sy Hin1 Ha11 Ha12 He1 (ins_ext _ _ _ (vi_sync _ _ _ _ HM)) dv_sync_spk). unfold dv_sy. lia.
Qed.
Lemma dv_acc2 :
  (c2 = 0 -> spikes_at N (ls_acc2 L) []) /\
  (forall j, c2 < 1 -> rho N ^ j <= c2 -> (forall i, (i < j)%nat -> c2 < rho N ^ i) -> spikes_at N (ls_acc2 L) [(dv_sy + D1 - 1 + j)%nat]) /\
  (1 <= c2 -> (step_at dt Tc <= a22 + D1 - (a21 + Dm))%nat /\ spikes_at N (ls_acc2 L) [(a21 + Dm - 1 + step_at dt Tc)%nat]).
Proof.
  assert (Hd20 : 0 < t_dt N < 20) by (fold dt; lra).
  apply (li_acc_spk N Tc tmin _ _ _ _ _ _ Hd20 HTc (vi_c2 _ _ _ _ HM) a21 a22 dv_sy Hin2 Ha21 Ha22 He2 (ins_ext _ _ _ (vi_sync _ _ _ _ HM)) dv_sync_spk). unfold dv_sy. lia.
Qed.
Variables f1 f2 : nat.
Hypothesis HF1 : spikes_at N (ls_acc1 L) [f1].
Hypothesis HF2 : spikes_at N (ls_acc2 L) [f2].
Hypothesis Hf1 : (dv_sy + D2 < f1 + Dm)%nat.
Hypothesis Hf2 : (dv_sy + D2 < f2 + Dm)%nat.
Hypothesis Hp1 : (1 <= f1)%nat.
Hypothesis Hp2 : (1 <= f2)%nat.
Let s1 := (f1 + Dm + D1 + D1)%nat.
Let s2 := (f2 + Dm + D1 + D1)%nat.
Lemma dv_sub_in1 : arrs N (sb_input1 (dv_sub m)) 1 [(dv_sy + D2 + D1 + D1)%nat; s1].
Proof.
  assert (HO : spikes_at N (ls_output1 L) [(dv_sy + D2)%nat; (f1 + Dm)%nat]).
  { apply (li_out_spk N Tc tmin _ _ _ _ _ _ (vi_c1 _ _ _ _ HM) a11 a12 dv_sy Ha11 Ha12 He1 (ins_ext _ _ _ (vi_sync _ _ _ _ HM)) dv_sync_spk); auto.
    - unfold dv_sy; lia.
    - fold dt D2 Dm. lia. }
  assert (HR : spikes_at N (sb_input1 (dv_sub m)) [(dv_sy + D2 + D1)%nat; (f1 + Dm + D1)%nat]).
  { eapply relay; [apply HM|autorewrite with netR; lra| |cbn; pose proof dv_sy1; lia].
    rewrite cTsyn_R. eapply arrs_2; [apply (vi_c1 _ _ _ _ HM)|exact HO|reflexivity|pose proof dv_sy1; lia|lia|lia]. }
  eapply arrs_2; [apply HM|exact HR|reflexivity|pose proof dv_sy1; lia|lia|lia].
Qed.
Lemma dv_sub_in2 : arrs N (sb_input2 (dv_sub m)) 1 [(dv_sy + D2 + D1 + D1)%nat; s2].
Proof.
  assert (HO : spikes_at N (ls_output2 L) [(dv_sy + D2)%nat; (f2 + Dm)%nat]).
  { apply (li_out_spk N Tc tmin _ _ _ _ _ _ (vi_c2 _ _ _ _ HM) a21 a22 dv_sy Ha21 Ha22 He2 (ins_ext _ _ _ (vi_sync _ _ _ _ HM)) dv_sync_spk); auto.
    - unfold dv_sy; lia.
    - fold dt D2 Dm. lia. }
  assert (HR : spikes_at N (sb_input2 (dv_sub m)) [(dv_sy + D2 + D1)%nat; (f2 + Dm + D1)%nat]).
  { eapply relay; [apply HM|autorewrite with netR; lra| |cbn; pose proof dv_sy1; lia].
    rewrite cTsyn_R. eapply arrs_2; [apply (vi_c2 _ _ _ _ HM)|exact HO|reflexivity|pose proof dv_sy1; lia|lia|lia]. }
  eapply arrs_2; [apply HM|exact HR|reflexivity|pose proof dv_sy1; lia|lia|lia].
Qed.
Lemma dv_sub : ((f2 <= f1)%nat -> spikes_at N (sb_output_plus (dv_sub m)) [(s2 + D3)%nat; (s1 + DM)%nat]) /\
  ((f1 < f2)%nat -> spikes_at N (sb_output_plus (dv_sub m)) []).
Proof.
  pose proof dv_sub_in1 as HA1. pose proof dv_sub_in2 as HA2. pose proof (vi_sub _ _ _ _ HM) as HS.
  destruct (sb_facts dt tmin Hdt ltac:(lra)) as ((F1 & F2 & F3 & F4 & F5) & _ & _ & _ & _ & ZM).
  assert (Q1 : (1 <= dv_sy + D2 + D1 + D1 < s1)%nat) by (unfold s1; pose proof dv_sy1; lia).
  assert (Q2 : (1 <= dv_sy + D2 + D1 + D1 < s2)%nat) by (unfold s2; pose proof dv_sy1; lia).
  pose proof (sb_case_minus N (dv_sub m) tmin HS _ _ _ _ HA1 HA2 Q1 Q2 F1 F2 F3 F4 F5) as CA.
  pose proof (sb_case_plus N (dv_sub m) tmin HS _ _ _ _ HA1 HA2 Q1 Q2 F1 F2 F3 F4 F5) as CB.
  pose proof (sb_case_zero N (dv_sub m) tmin HS _ _ _ _ HA1 HA2 Q1 Q2 F1 F2 F3 F4 F5) as CC.
  pose proof (sb_case_small N (dv_sub m) tmin HS _ _ _ _ HA1 HA2 Q1 Q2 F1 F2 F3 F4 F5) as CD.
  pose proof (sb_case_lost N (dv_sub m) tmin HS _ _ _ _ HA1 HA2 Q1 Q2 F1 F2 F3 F4 F5) as CE.
  pose proof (sb_case_both N (dv_sub m) tmin HS _ _ _ _ HA1 HA2 Q1 Q2 F1 F2 F3 F4 F5) as CF.
  fold dt D1 D3 DM in CA, CB, CC, CD, CE, CF, F5.
  assert (O : (f2 <= f1 -> s2 <= s1)%nat /\ (f1 < f2 -> s1 < s2)%nat) by (unfold s1, s2; lia). destruct O as [O1 O2].
  set (Dn := step_at dt (/ 100)) in *. set (Dnn := step_at dt (2 * / 100)) in *. clearbody s1 s2 Dn Dnn.
  split; intros Hf.
  - specialize (O1 Hf). destruct (Nat.eq_dec s1 s2) as [->|ne].
    + destruct (Nat.eq_dec Dn Dnn); [apply CF|apply CC]; auto; lia.
    + destruct (Nat.le_gt_cases (s2 + Dnn) (s1 + Dn)); [apply CB|apply CD]; auto; lia.
  - specialize (O2 Hf). destruct (Nat.le_gt_cases (s1 + Dnn) (s2 + Dn)); [apply CA|apply CE]; auto; lia.
Qed.
Definition dv_J (k : nat) := step_at dt (Tc * rho N ^ k).
Definition dv_b := (f1 + Dm + D1 + D1 + DM + D1 + D1)%nat.
Theorem dv_output_spk : (f2 <= f1)%nat ->
  spikes_at N (ex_output (dv_exp m)) [(dv_b + D2)%nat; (dv_b + D1 - 1 + dv_J (f1 - f2) + Dm)%nat].
Proof.
  intros Hf. destruct dv_sub as [HP _]. specialize (HP Hf).
  destruct dv_steps as (p & q & E1 & E2 & Em & EM & Hp & Hq & Ep & Eq).
  assert (HR : spikes_at N (ex_input (dv_exp m)) [(s2 + D3 + D1)%nat; (s1 + DM + D1)%nat]).
  { eapply relay; [apply HM|autorewrite with netR; lra| |cbn; unfold s1, s2; lia].
    rewrite cTsyn_R. eapply arrs_2; [apply (vi_sub _ _ _ _ HM)|exact HP|reflexivity|unfold s2; lia|unfold s1; lia|unfold s1, s2; lia]. }
  assert (HI : arrs N (ex_input (dv_exp m)) 1 [(s2 + D3 + D1 + D1)%nat; dv_b]).
  { eapply arrs_2; [apply HM|exact HR|reflexivity|unfold s2; lia|unfold s1; lia|unfold s1, s2; lia]. }
  assert (Hd20 : 0 < t_dt N < 20) by (fold dt; lra).
  pose proof (ex_output_spk N (dv_exp m) Tc tmin Hd20 HTc (vi_exp _ _ _ _ HM) _ _ HI) as HO.
  fold dt D1 D2 Dm in HO. unfold ex_fire, ex_steps in HO. fold dt D1 Dm in HO.
  replace (dv_b + D1 - (s2 + D3 + D1 + D1 + Dm))%nat with (f1 - f2)%nat in HO by (unfold dv_b, s2; lia).
  fold (dv_J (f1 - f2)) in HO. apply HO; unfold dv_b, s2; try lia.
Qed.
Theorem dv_output_none : (f1 < f2)%nat -> spikes_at N (ex_output (dv_exp m)) [].
Proof.
  intros Hf. destruct dv_sub as [_ HP]. specialize (HP Hf).
  assert (HR : spikes_at N (ex_input (dv_exp m)) []).
  { eapply relay; [apply HM|autorewrite with netR; lra| |cbn; auto]. eapply arrs_0; [apply (vi_sub _ _ _ _ HM)|exact HP]. }
  pose proof (vi_exp _ _ _ _ HM) as HX. assert (II := fun d => arrs_0 N _ _ d (vi_inx _ _ _ _ HM) HR).
  assert (Hfi : spikes_at N (ex_first (dv_exp m)) []).
  { eapply first_silent; [apply HX|apply II]. }
  assert (Hla : spikes_at N (ex_last (dv_exp m)) []).
  { eapply quiet_of; [apply HX|]. intros k ty Hk. pose proof (xi_last _ _ _ _ HX) as H. destruct ty; ev_input H; rewrite ?II by auto; ev_simpl; lra. }
  assert (If := fun d => arrs_0 N _ _ d (xi_first _ _ _ _ HX) Hfi). assert (Il := fun d => arrs_0 N _ _ d (xi_last _ _ _ _ HX) Hla).
  assert (Hac : spikes_at N (ex_acc (dv_exp m)) []).
  { eapply quiet_of; [apply HX|]. intros k ty Hk. pose proof (xi_acc _ _ _ _ HX) as H. destruct ty; ev_input H; rewrite ?If, ?Il by auto; ev_simpl; lra. }
  assert (Ia := fun d => arrs_0 N _ _ d (xi_acc _ _ _ _ HX) Hac).
  eapply quiet_of; [apply HX|]. intros k ty Hk. pose proof (xi_output _ _ _ _ HX) as H. destruct ty; ev_input H; rewrite ?Ia, ?Il by auto; ev_simpl; lra.
Qed.
End Mid.
