(** DivNetwork on PredSimulator (C59). *)
From Coq Require Import Arith ZArith Bool List Reals Lra Lia Permutation Sorted.
From Verif Require Import Num NumOrd Heapq Elements Networks CancelQueue PredSim PredNeuron NeuronLib NetLib Build BuildNets Trace SimTrace TraceProps Bridge Session SimpleNets InvMem ExpLog PredProofs PredRun PredNet PredMem PredFun PredGroup PredSub PredSimple PredMul PredMul2.
Import ListNotations.
Open Scope list_scope.
Open Scope R_scope.

(** charging for c >= 0 ms, then a ramp *)
Lemma exK0_bounds tcod dt c : 0 < dt -> 0 < tcod -> 0 <= c -> 0 < exY c * tcod <= exK tcod dt c /\ exK tcod dt c < exY c * tcod + dt /\ exY c * tcod <= tcod.
Proof.
  intros Hdt Htc Hc. destruct (Req_dec c 0) as [->|Hn].
  - assert (E : exY 0 = 1) by (unfold exY; replace (- 0 / 20) with 0 by lra; apply exp_0). unfold exK. rewrite E, Rmult_1_l.
    pose proof (step_at_bounds dt tcod Hdt Htc). lra.
  - pose proof (exK_bounds tcod dt Hdt Htc c ltac:(lra)). lra.
Qed.
Lemma ex_fire0 tcod dt g c : 0 < dt -> (horizon dt < 2 ^ 64)%Z -> 0 < tcod -> 0 <= g -> 0 <= c -> tcod + 2 * dt <= 500 ->
  resp dt rest0 [(g + c, (SynGate, -1)); (g + c, (SynGe, 1000 / tcod)); (g, (SynGate, 1)); (g, (SynGf, 50))] [g + c + exK tcod dt c].
Proof.
  intros Hdt HM Htc Hg Hc H5. destruct (Req_dec c 0) as [->|Hn]; [|apply ex_fire; auto; lra].
  pose proof (exK0_bounds tcod dt 0 Hdt Htc ltac:(lra)) as HK. assert (Hw : 0 < 1000 / tcod) by (apply Rdiv_lt_0_compat; lra).
  assert (E : exY 0 = 1) by (unfold exY; replace (- 0 / 20) with 0 by lra; apply exp_0). rewrite E in HK.
  exists [(g, [(SynGate, -1); (SynGe, 1000 / tcod); (SynGate, 1); (SynGf, 50)])]. split; [sorted|]. split; [intros h [<-|[]]; discriminate|]. split; [cbn; perms|]. rewrite rest0_pn, pn_px.
  eapply (x_hit dt Hdt) with (a' := 0) (g' := 1000 / tcod) (v' := 0) (f' := 50); auto; try (wsums; lra); [intros d Hd; unfold pot; lra|wsums; unfold pot; lra|].
  assert (EP : forall d, pot 0 (1000 / tcod) 50 0 d = 10 + 10 / tcod * (d - tcod)) by (intros d; unfold pot; field; lra).
  assert (EK : exK tcod dt 0 = INR (step_at dt tcod) * dt) by (unfold exK; rewrite E, Rmult_1_l; reflexivity).
  rewrite EK in *. replace (g + 0 + INR (step_at dt tcod) * dt) with (g + INR (step_at dt tcod) * dt) by lra.
  apply (x_fire dt Hdt HM _ _ _ _ _ tcod (step_at dt tcod)); auto; try lra.
  - rewrite EP. lra.
  - intros e [He1 He2]. rewrite EP. assert (0 < 10 / tcod * (tcod - e)) by (apply Rmult_lt_0_compat; [apply Rdiv_lt_0_compat; lra|lra]). lra.
  - intros h [].
  - apply r_end; auto; lra.
Qed.

(** ** log_and_sync 0..10 (input1, first1, last1, acc1, output1, input2, first2, last2, acc2, output2, sync),
    subtractor 11..19 (input1, input2, sync1, sync2, inb1, inb2, output_plus, output_minus, zero), exponential 20..24 (input, first, last, acc, output) *)
Definition dv_num (tmin tcod : R) : list (synapse R) :=
  let wb := 1000 / tcod in
  [syn 0 1 SynV 10 1; syn 1 1 SynV (-10) 1; syn 0 2 SynV 5 1; syn 1 3 SynGe wb (1 + tmin); syn 2 3 SynGe (- wb) 1;
   syn 5 6 SynV 10 1; syn 6 6 SynV (-10) 1; syn 5 7 SynV 5 1; syn 6 8 SynGe wb (1 + tmin); syn 7 8 SynGe (- wb) 1;
   syn 2 10 SynV 5 1; syn 7 10 SynV 5 1; syn 10 4 SynV 10 2; syn 10 9 SynV 10 2;
   syn 10 3 SynGf 50 1; syn 10 3 SynGate 1 1; syn 3 4 SynV 10 (1 + tmin); syn 10 8 SynGf 50 1; syn 10 8 SynGate 1 1; syn 8 9 SynV 10 (1 + tmin);
   syn 11 13 SynV 5 1; syn 12 14 SynV 5 1; syn 13 15 SynV 10 1; syn 14 16 SynV 10 1; syn 13 16 SynV (-10) 1; syn 14 15 SynV (-10) 1;
   syn 13 17 SynV 10 (tmin + (3 + 2 / 100)); syn 14 18 SynV 10 (tmin + (3 + 2 / 100)); syn 14 17 SynV 10 (3 + 2 / 100); syn 13 18 SynV 10 (3 + 2 / 100);
   syn 16 18 SynV (-20) 1; syn 15 17 SynV (-20) 1; syn 17 16 SynV 5 1; syn 18 15 SynV 5 1; syn 19 19 SynV 10 (/ 100);
   syn 13 19 SynV (-5) (2 / 100); syn 14 19 SynV (-5) (2 / 100); syn 13 19 SynV 5 (/ 100); syn 14 19 SynV 5 (/ 100); syn 19 18 SynV (-20) (/ 100); syn 19 16 SynV (-10) (/ 100);
   syn 20 21 SynV 10 1; syn 20 22 SynV 5 1; syn 21 21 SynV (-10) 1; syn 21 23 SynGf 50 (1 + tmin); syn 21 23 SynGate 1 (1 + tmin);
   syn 22 23 SynGate (-1) 1; syn 22 23 SynGe wb 1; syn 23 24 SynV 10 (1 + tmin); syn 22 24 SynV 10 2;
   syn 4 11 SynV 10 1; syn 9 12 SynV 10 1; syn 17 20 SynV 10 1].
Lemma dv_syns_R tmin tcod a b c d i1 i2 o : tcod <> 0 ->
  dv_syns (DataEncoder tmin tcod) (Build_div_net a i1 i2 o (Build_logsync_net b 0 1 2 3 4 5 6 7 8 9 10) (Build_sub_net c 11 12 13 14 15 16 17 18 19) (Build_exp_net d 20 21 22 23 24)) = dv_num tmin tcod.
Proof.
  intros H. unfold dv_syns, dv_num, ls_syns, sb_syns, sb_d3, ex_syns.
  cbn [dv_ls dv_sub dv_exp ls_input1 ls_first1 ls_last1 ls_acc1 ls_output1 ls_input2 ls_first2 ls_last2 ls_acc2 ls_output2 ls_sync
       sb_input1 sb_input2 sb_sync1 sb_sync2 sb_inb1 sb_inb2 sb_output_plus sb_output_minus sb_zero ex_input ex_first ex_last ex_acc ex_output app].
  rewrite wbar_R. unfold gmult, ctm, ctf. consts. repeat (f_equal; try lra).
Qed.

Section Div.
Variables tmin tcod dt x1 x2 a1 a2 : R.
Hypothesis Hdt : 0 < dt. Hypothesis HM : (horizon dt < 2 ^ 64)%Z. Hypothesis Hd5 : dt <= 500.
Hypothesis Htc : 0 < tcod. Hypothesis Htm : 1 < tmin. Hypothesis H5 : tcod + 2 * dt <= 500.
Hypothesis Hx1 : 0 <= x1 <= 1. Hypothesis Hx2 : 0 <= x2 <= 1. Hypothesis Ha1 : 0 <= a1. Hypothesis Ha2 : 0 <= a2.
Let b1 := mb tmin tcod a1 x1. Let b2 := mb tmin tcod a2 x2.
Definition dv_S : R := mu_last tmin tcod x1 x2 a1 a2 + 2.
Let S := dv_S.
Lemma dv_bs : a1 + tmin <= b1 /\ a2 + tmin <= b2 /\ b1 + 2 <= S /\ b2 + 2 <= S /\ (S = b1 + 2 \/ S = b2 + 2).
Proof. pose proof (mbs tmin tcod x1 x2 a1 a2 Htc Hx1 Hx2) as (B1 & B2 & B3 & B4 & B5). fold b1 in B1, B3, B5. fold b2 in B2, B4, B5. unfold S, dv_S. lra. Qed.
Definition sh (d : R) (l : list R) : list R := map (fun t => t + d) l.
(** the spikes of acc1, output1, acc2, output2 and of the neurons from 13 on *)
Definition dv_F (l1 o1 l2 o2 : list R) (rest : nat -> list R) (n : nat) : list R :=
  match n with
  | 0%nat => [a1; b1] | 1%nat => [a1 + 1] | 2%nat => [b1 + 1] | 3%nat => l1 | 4%nat => o1
  | 5%nat => [a2; b2] | 6%nat => [a2 + 1] | 7%nat => [b2 + 1] | 8%nat => l2 | 9%nat => o2 | 10%nat => [S]
  | 11%nat => sh 1 o1 | 12%nat => sh 1 o2 | _ => rest n end.
Definition dv_ins : list (nat * R) := [(0%nat, a1); (0%nat, b1); (5%nat, a2); (5%nat, b2)].
Ltac dcbn := unfold dv_num, dv_ins; rcbn; cbn [dv_F map app sh].
Lemma dv_front l1 o1 l2 o2 rest n : In n [0; 1; 2; 5; 6; 7; 10]%nat ->
  resp dt rest0 (received 10 (dv_num tmin tcod) dv_ins (dv_F l1 o1 l2 o2 rest) n) (dv_F l1 o1 l2 o2 rest n).
Proof.
  intros Hn. pose proof dv_bs as (B1 & B2 & B3 & B4 & B5).
  destruct Hn as [<-|[<-|[<-|[<-|[<-|[<-|[<-|[]]]]]]]]; dcbn.
  - apply relay2; auto; lra.
  - apply mu_first; auto; lra.
  - apply half2; auto; lra.
  - apply relay2; auto; lra.
  - apply mu_first; auto; lra.
  - apply half2; auto; lra.
  - apply mu_half; auto; lra.
Qed.
(** the subtractor and the exponential, both differences known: outputs at o_i, e_i *)
Section Rest.
Variables o1 e1 o2 e2 : R.
Hypothesis Ho1 : 0 <= o1 < e1. Hypothesis Ho2 : 0 <= o2 < e2.
Let s1 := e1 + 2. Let s2 := e2 + 2. Let c := s1 - s2. Let d3 := 3 + 2 / 100.
Let P1 := s2 + d3 + 1. Let P2 := s1 + (tmin + d3) + 1. Let E := P2 + 2 + exK tcod dt c.
Definition dv_rest (n : nat) : list R :=
  let yes (l : list R) := if Rle_dec s2 s1 then l else [] in
  match n with
  | 13%nat => [s1] | 14%nat => [s2] | 15%nat => inb1F s1 s2 | 16%nat => inb2F s1 s2 | 17%nat => plusF tmin s1 s2 | 18%nat => minusF tmin s1 s2 | 19%nat => zeroF s1 s2
  | 20%nat => yes [P1; P2] | 21%nat => yes [P1 + 1] | 22%nat => yes [P2 + 1] | 23%nat => yes [E] | 24%nat => yes [P2 + 3; E + (1 + tmin)] | _ => [] end.
Lemma dv_rest_resp l1 l2 n : (11 <= n < 25)%nat ->
  resp dt rest0 (received 10 (dv_num tmin tcod) dv_ins (dv_F l1 [o1; e1] l2 [o2; e2] dv_rest) n) (dv_F l1 [o1; e1] l2 [o2; e2] dv_rest n).
Proof.
  intros Hn. do 11 (destruct n as [|n]; [exfalso; lia|]).
  assert (Q1 : 0 <= s1) by (unfold s1; lra). assert (Q2 : 0 <= s2) by (unfold s2; lra).
  destruct n as [|[|[|[|[|[|[|[|[|[|[|[|[|[|n]]]]]]]]]]]]]]; [..|exfalso; lia]; dcbn; cbn [dv_rest]; cbv zeta.
  - apply relay2; auto; lra.
  - apply relay2; auto; lra.
  - replace s1 with (e1 + 1 + 1) by (unfold s1; lra). apply half2; auto; lra.
  - replace s2 with (e2 + 1 + 1) by (unfold s2; lra). apply half2; auto; lra.
  - eapply resp_perm; [|apply (core_inb1 dt tmin s1 s2 Hdt HM Hd5 ltac:(lra) Q1 Q2)]. unfold inb1H, V1. cbn [map app]. rewrite ?app_nil_r. apply Permutation_refl.
  - eapply resp_perm; [|apply (core_inb2 dt tmin s1 s2 Hdt HM Hd5 ltac:(lra) Q1 Q2)]. unfold inb2H, V1. cbn [map app]. rewrite ?app_nil_r. apply Permutation_refl.
  - eapply resp_perm; [|apply (core_plus dt tmin s1 s2 Hdt HM Hd5 ltac:(lra) Q1 Q2)]. unfold plusH, V1. cbn [map app]. rewrite ?app_nil_r. apply Permutation_refl.
  - eapply resp_perm; [|apply (core_minus dt tmin s1 s2 Hdt HM Hd5 ltac:(lra) Q1 Q2)]. unfold minusH, V1. cbn [map app]. rewrite ?app_nil_r. apply Permutation_refl.
  - eapply resp_perm; [|apply (core_zero dt s1 s2 Hdt HM Hd5 Q1 Q2)]. unfold zeroH, V1. cbn [map app]. rewrite ?app_nil_r. apply Permutation_refl.
  - unfold plusF. destruct (Rle_dec s2 s1); cbn [map app]; [|apply none; auto]. apply relay2; auto. unfold P1, P2, d3. lra.
  - destruct (Rle_dec s2 s1); cbn [map app]; [|apply none; auto]. apply mu_first; auto; unfold P1, P2, d3; lra.
  - destruct (Rle_dec s2 s1); cbn [map app]; [|apply none; auto]. apply half2; auto; unfold P1, P2, d3; lra.
  - destruct (Rle_dec s2 s1) as [L|L]; cbn [map app]; [|apply none; auto].
    assert (Hc : 0 <= c) by (unfold c; lra). assert (HG : 0 <= P1 + 1 + (1 + tmin)) by (unfold P1, d3; lra).
    replace E with (P1 + 1 + (1 + tmin) + c + exK tcod dt c) by (unfold E, P1, P2, c; ring).
    eapply resp_perm; [|apply (ex_fire0 tcod dt _ c Hdt HM Htc HG Hc H5)]. unfold P1, P2, c. perms.
  - destruct (Rle_dec s2 s1) as [L|L]; cbn [map app]; [|apply none; auto].
    assert (Hc : 0 <= c) by (unfold c; lra). pose proof (exK0_bounds tcod dt c Hdt Htc Hc) as HK.
    eapply resp_perm; [|apply (relay2 dt Hdt HM Hd5 (P2 + 3) (E + (1 + tmin))); unfold E, P2, d3; lra]. perms.
Qed.
End Rest.
(** *** both operands strictly between 0 and 1 *)
Definition dv_e (x : R) : R := S + 2 + lgD dt x + tmin.
Definition dv_pos : nat -> list R :=
  dv_F [S + 1 + lgD dt x1] [S + 2; dv_e x1] [S + 1 + lgD dt x2] [S + 2; dv_e x2] (dv_rest (dv_e x1) (dv_e x2)).
Lemma dv_pos_resp n : 0 < x1 < 1 -> 0 < x2 < 1 -> 20 * - ln x1 + 2 * dt <= 500 -> 20 * - ln x2 + 2 * dt <= 500 -> (n < 25)%nat ->
  resp dt rest0 (received 10 (dv_num tmin tcod) dv_ins dv_pos n) (dv_pos n).
Proof.
  intros P1 P2 L1 L2 Hn. pose proof dv_bs as (B1 & B2 & B3 & B4 & B5).
  pose proof (lgD_bounds dt Hdt x1 P1) as D1. pose proof (lgD_bounds dt Hdt x2 P2) as D2. unfold dv_pos.
  destruct (Nat.lt_ge_cases n 11) as [Hl|Hl]; [|apply dv_rest_resp; unfold dv_e; lra || lia].
  destruct (in_dec Nat.eq_dec n [0; 1; 2; 5; 6; 7; 10]%nat) as [HI|HI]; [apply dv_front; auto|].
  destruct n as [|[|[|[|[|[|[|[|[|[|[|n]]]]]]]]]]]; try (exfalso; lia); try (exfalso; apply HI; cbn; tauto); dcbn.
  - eapply resp_perm; [|apply (lg_fire tcod dt Hdt HM Htc x1 (a1 + 1 + (1 + tmin)) (S + 1)); unfold b1, mb in *; lra]. unfold b1, mb. perms.
  - eapply resp_perm; [|apply (relay2 dt Hdt HM Hd5 (S + 2) (dv_e x1)); unfold dv_e; lra]. unfold dv_e. perms.
  - eapply resp_perm; [|apply (lg_fire tcod dt Hdt HM Htc x2 (a2 + 1 + (1 + tmin)) (S + 1)); unfold b2, mb in *; lra]. unfold b2, mb. perms.
  - eapply resp_perm; [|apply (relay2 dt Hdt HM Hd5 (S + 2) (dv_e x2)); unfold dv_e; lra]. unfold dv_e. perms.
Qed.
(** *** an operand 0 *)
Let s1 := dv_e x1 + 2. Let s2 := dv_e x2 + 2. Let d3 := 3 + 2 / 100.
(** numerator 0: the subtractor sends one spike only *)
Definition dv_num0 : nat -> list R :=
  dv_F [] [S + 2] [S + 1 + lgD dt x2] [S + 2; dv_e x2]
    (fun n => match n with 14%nat => [s2] | 16%nat => [s2 + 1] | 17%nat => [s2 + d3] | 20%nat => [s2 + d3 + 1] | 21%nat => [s2 + d3 + 2] | _ => [] end).
Lemma dv_num0_resp n : x1 = 0 -> 0 < x2 < 1 -> 20 * - ln x2 + 2 * dt <= 500 -> (n < 25)%nat -> resp dt rest0 (received 10 (dv_num tmin tcod) dv_ins dv_num0 n) (dv_num0 n).
Proof.
  intros P1 P2 L2 Hn. pose proof dv_bs as (B1 & B2 & B3 & B4 & B5). pose proof (lgD_bounds dt Hdt x2 P2) as D2. unfold dv_num0.
  assert (Q2 : S + 4 < s2) by (unfold s2, dv_e; lra).
  destruct (in_dec Nat.eq_dec n [0; 1; 2; 5; 6; 7; 10]%nat) as [HI|HI]; [apply dv_front; auto|].
  destruct n as [|[|[|[|[|[|[|[|[|[|[|[|[|[|[|[|[|[|[|[|[|[|[|[|[|n]]]]]]]]]]]]]]]]]]]]]]]]]; try (exfalso; lia); try (exfalso; apply HI; cbn; tauto); dcbn; try (apply none; auto; fail).
  - eapply resp_perm; [|apply (lg_zero tcod dt Hdt HM (a1 + 1 + (1 + tmin)) (S + 1)); unfold b1, mb in *; lra]. unfold b1, mb. rewrite P1. perms.
  - apply relay1; auto; lra.
  - eapply resp_perm; [|apply (lg_fire tcod dt Hdt HM Htc x2 (a2 + 1 + (1 + tmin)) (S + 1)); unfold b2, mb in *; lra]. unfold b2, mb. perms.
  - eapply resp_perm; [|apply (relay2 dt Hdt HM Hd5 (S + 2) (dv_e x2)); unfold dv_e; lra]. unfold dv_e. perms.
  - apply relay1; auto; lra.
  - apply relay2; auto; unfold dv_e; lra.
  - rewrite rest0_pn. rsilent Hdt HM.
  - replace s2 with (dv_e x2 + 1 + 1) by (unfold s2; lra). apply half2; auto; unfold dv_e; lra.
  - rewrite rest0_pn. rsilent Hdt HM.
  - rewrite rest0_pn. unfold d3. rfire Hdt HM (@nil (R * (syntype * R))) [(s2 + 1, (SynV, 10))] [(s2 + (3 + 2 / 100) + 1, (SynV, 5))]. rsilent Hdt HM.
  - apply relay1; auto; unfold d3; lra.
  - rewrite rest0_pn. rsilent Hdt HM.
  - rewrite rest0_pn. rsilent Hdt HM.
  - apply relay1; auto; unfold d3; lra.
  - replace (s2 + d3 + 1 + 1) with (s2 + d3 + 2) by ring. rewrite rest0_pn. unfold d3. rfire Hdt HM (@nil (R * (syntype * R))) [(s2 + (3 + 2 / 100) + 2, (SynV, 10))] [(s2 + (3 + 2 / 100) + 2 + 1, (SynV, -10))]. rsilent Hdt HM.
  - rewrite rest0_pn. unfold d3. rsilent Hdt HM.
  - eapply resp_perm; [|apply (ex_idle dt Hdt HM (s2 + d3 + 2 + (1 + tmin))); unfold d3; lra]. perms.
Qed.
(** denominator 0 *)
Definition dv_den0 : nat -> list R :=
  dv_F [S + 1 + lgD dt x1] [S + 2; dv_e x1] [] [S + 2]
    (fun n => match n with 13%nat => [s1] | 15%nat => [s1 + 1] | 18%nat => [s1 + d3] | _ => [] end).
Lemma dv_den0_resp n : x2 = 0 -> 0 < x1 < 1 -> 20 * - ln x1 + 2 * dt <= 500 -> (n < 25)%nat -> resp dt rest0 (received 10 (dv_num tmin tcod) dv_ins dv_den0 n) (dv_den0 n).
Proof.
  intros P2 P1 L1 Hn. pose proof dv_bs as (B1 & B2 & B3 & B4 & B5). pose proof (lgD_bounds dt Hdt x1 P1) as D1. unfold dv_den0.
  assert (Q1 : S + 4 < s1) by (unfold s1, dv_e; lra).
  destruct (in_dec Nat.eq_dec n [0; 1; 2; 5; 6; 7; 10]%nat) as [HI|HI]; [apply dv_front; auto|].
  destruct n as [|[|[|[|[|[|[|[|[|[|[|[|[|[|[|[|[|[|[|[|[|[|[|[|[|n]]]]]]]]]]]]]]]]]]]]]]]]]; try (exfalso; lia); try (exfalso; apply HI; cbn; tauto); dcbn; try (apply none; auto; fail).
  - eapply resp_perm; [|apply (lg_fire tcod dt Hdt HM Htc x1 (a1 + 1 + (1 + tmin)) (S + 1)); unfold b1, mb in *; lra]. unfold b1, mb. perms.
  - eapply resp_perm; [|apply (relay2 dt Hdt HM Hd5 (S + 2) (dv_e x1)); unfold dv_e; lra]. unfold dv_e. perms.
  - eapply resp_perm; [|apply (lg_zero tcod dt Hdt HM (a2 + 1 + (1 + tmin)) (S + 1)); unfold b2, mb in *; lra]. unfold b2, mb. rewrite P2. perms.
  - apply relay1; auto; lra.
  - apply relay2; auto; unfold dv_e; lra.
  - apply relay1; auto; lra.
  - replace s1 with (dv_e x1 + 1 + 1) by (unfold s1; lra). apply half2; auto; unfold dv_e; lra.
  - rewrite rest0_pn. rsilent Hdt HM.
  - rewrite rest0_pn. unfold d3. rfire Hdt HM (@nil (R * (syntype * R))) [(s1 + 1, (SynV, 10))] [(s1 + (3 + 2 / 100) + 1, (SynV, 5))]. rsilent Hdt HM.
  - rewrite rest0_pn. rsilent Hdt HM.
  - rewrite rest0_pn. rsilent Hdt HM.
  - apply relay1; auto; unfold d3; lra.
  - rewrite rest0_pn. rsilent Hdt HM.
Qed.
(** both 0 *)
Definition dv_00 : nat -> list R := dv_F [] [S + 2] [] [S + 2] (fun _ => []).
Lemma dv_00_resp n : x1 = 0 -> x2 = 0 -> (n < 25)%nat -> resp dt rest0 (received 10 (dv_num tmin tcod) dv_ins dv_00 n) (dv_00 n).
Proof.
  intros P1 P2 Hn. pose proof dv_bs as (B1 & B2 & B3 & B4 & B5). unfold dv_00.
  destruct (in_dec Nat.eq_dec n [0; 1; 2; 5; 6; 7; 10]%nat) as [HI|HI]; [apply dv_front; auto|].
  destruct n as [|[|[|[|[|[|[|[|[|[|[|[|[|[|[|[|[|[|[|[|[|[|[|[|[|n]]]]]]]]]]]]]]]]]]]]]]]]]; try (exfalso; lia); try (exfalso; apply HI; cbn; tauto); dcbn; try (apply none; auto; fail).
  - eapply resp_perm; [|apply (lg_zero tcod dt Hdt HM (a1 + 1 + (1 + tmin)) (S + 1)); unfold b1, mb in *; lra]. unfold b1, mb. rewrite P1. perms.
  - apply relay1; auto; lra.
  - eapply resp_perm; [|apply (lg_zero tcod dt Hdt HM (a2 + 1 + (1 + tmin)) (S + 1)); unfold b2, mb in *; lra]. unfold b2, mb. rewrite P2. perms.
  - apply relay1; auto; lra.
  - apply relay1; auto; lra.
  - apply relay1; auto; lra.
  - rewrite rest0_pn. rsilent Hdt HM.
  - rewrite rest0_pn. rsilent Hdt HM.
Qed.
(** denominator 1, the operands starting together: acc2 fires with the synchronizer, 1 ms early *)
Definition dv_one : nat -> list R := dv_F [S + 1 + lgD dt x1] [S + 2; dv_e x1] [S] [S + 2; S + 1 + tmin] (dv_rest (dv_e x1) (S + 1 + tmin)).
Lemma dv_one_resp n : a1 = a2 -> x2 = 1 -> 0 < x1 < 1 -> 20 * - ln x1 + 2 * dt <= 500 -> (n < 25)%nat -> resp dt rest0 (received 10 (dv_num tmin tcod) dv_ins dv_one n) (dv_one n).
Proof.
  intros Ea P2 P1 L1 Hn. pose proof dv_bs as (B1 & B2 & B3 & B4 & B5). pose proof (lgD_bounds dt Hdt x1 P1) as D1. unfold dv_one.
  assert (ES : S = b2 + 2). { pose proof (Rmult_lt_compat_r tcod x1 1 Htc ltac:(lra)). unfold b1, b2, mb in *. rewrite P2 in *. lra. }
  assert (Eb : b2 = a2 + tmin + tcod) by (unfold b2, mb; rewrite P2; lra).
  destruct (Nat.lt_ge_cases n 11) as [Hl|Hl]; [|apply dv_rest_resp; unfold dv_e; lra || lia].
  destruct (in_dec Nat.eq_dec n [0; 1; 2; 5; 6; 7; 10]%nat) as [HI|HI]; [apply dv_front; auto|].
  destruct n as [|[|[|[|[|[|[|[|[|[|[|n]]]]]]]]]]]; try (exfalso; lia); try (exfalso; apply HI; cbn; tauto); dcbn.
  - eapply resp_perm; [|apply (lg_fire tcod dt Hdt HM Htc x1 (a1 + 1 + (1 + tmin)) (S + 1)); unfold b1, mb in *; lra]. unfold b1, mb. perms.
  - eapply resp_perm; [|apply (relay2 dt Hdt HM Hd5 (S + 2) (dv_e x1)); unfold dv_e; lra]. unfold dv_e. perms.
  - match goal with |- resp _ _ _ [?t] => replace t with (a2 + 1 + (1 + tmin) + tcod) by lra end.
    eapply resp_perm; [|apply (lg_one_late tcod dt Hdt HM Hd5 Htc H5 (a2 + 1 + (1 + tmin)) (S + 1)); lra]. rewrite Eb. perms.
  - eapply resp_perm; [|apply (relay2 dt Hdt HM Hd5 (S + 2) (S + 1 + tmin)); lra]. perms.
Qed.
End Div.

(** ** sessions *)
Definition dv_log (e1 e2 tmin tcod dt : R) : list R := dv_rest tmin tcod dt e1 e2 24.
Lemma div_pred (tmin tcod dt x1 x2 a1 a2 : R) nm stims F : dt_ok dt -> 0 < tcod -> 1 < tmin ->
  (forall m, dv_input1 m = 0%nat -> dv_input2 m = 5%nat -> pins (DataEncoder tmin tcod) (stims m) = dv_ins tmin tcod x1 x2 a1 a2 /\ Forall (stim_ok 25) (stims m)) ->
  (forall n, (n < 25)%nat -> resp dt rest0 (received 10 (dv_num tmin tcod) (dv_ins tmin tcod x1 x2 a1 a2) F n) (F n)) ->
  pruns (DivNetwork (DataEncoder tmin tcod) nm) dv_mod (DataEncoder tmin tcod) dt stims (fun m s => pspike_log s (dv_output m) = F 24%nat).
Proof.
  intros HD Htc Htm HS HF. destruct (dt_ok_horizon dt HD) as [Hdt HM]. set (enc := DataEncoder tmin tcod).
  assert (HTm : tmin + tcod <> 0) by lra. assert (HTc : tcod <> 0) by lra.
  destruct (Div_built enc nm empty_world inv_empty (neq0 _ HTm) (neq0 _ HTc)) as (m & w & E & HB & HN & EI1 & EI2 & EO & HL).
  cbn [w_neurons empty_world length Nat.add] in HN, HL.
  destruct m as [a i1 i2 o [b l0 l1 l2 l3 l4 l5 l6 l7 l8 l9 l10] [c j0 j1 j2 j3 j4 j5 j6 j7 j8] [d k0 k1 k2 k3 k4]]. unfold ls_nodes, sb_nodes, ex_nodes in HN. cbn in HN.
  injection HN as -> -> -> -> -> -> -> -> -> -> -> -> -> -> -> -> -> -> -> -> -> -> -> -> ->.
  cbn [dv_input1 dv_input2 dv_output dv_ls dv_exp ls_input1 ls_input2 ex_output] in EI1, EI2, EO. subst i1 i2 o.
  unfold enc in HB. rewrite (dv_syns_R tmin tcod a b c d 0%nat 5%nat 24%nat HTc) in HB.
  match type of E with _ = Ok (?mm, _) => destruct (HS mm eq_refl eq_refl) as [EI HSt] end.
  edestruct (psession_resp (DivNetwork enc nm) dv_mod _ w _ enc dt stims F E HB Hdt HM) as [N HR].
  - rewrite HL. exact HSt.
  - unfold dv_num. intros y Hy. repeat (destruct Hy as [<-|Hy]; [cbn; lra|]). destruct Hy.
  - rewrite HL. intros n Hn. unfold enc. rewrite EI. apply HF. lia.
  - exists N. intros fuel Hf. destruct (HR fuel Hf) as (s & Es & HLg). eexists. exists s. split; [exact Es|]. cbn [dv_output]. apply HLg. lia.
Qed.

Lemma dv_emits s n tmin tcod dt e1 e2 v eps : 0 < dt -> 0 < tcod -> 1 < tmin -> e2 <= e1 -> pspike_log s n = dv_rest tmin tcod dt e1 e2 24 ->
  Rabs (exK tcod dt (e1 - e2) - v * tcod) <= eps * tcod -> pemits s n (DataEncoder tmin tcod) v eps.
Proof.
  intros Hdt Htc Htm HE HL HV. cbn [dv_rest] in HL. cbv zeta in HL. destruct (Rle_dec (e2 + 2) (e1 + 2)); [|lra].
  replace (e1 + 2 - (e2 + 2)) with (e1 - e2) in HL by ring. pose proof (exK0_bounds tcod dt (e1 - e2) Hdt Htc ltac:(lra)) as HK.
  eapply pemits_intro; [exact Htc|exact HL|lra|]. match goal with |- Rabs ?x <= _ => replace x with (exK tcod dt (e1 - e2) - v * tcod) by ring end. exact HV.
Qed.
Lemma exp_le_inv h : 0 <= h < 1 -> exp h <= / (1 - h).
Proof.
  intros H. pose proof (exp_ineq1_le (- h)) as E. pose proof (exp_pos h). pose proof (exp_pos (- h)).
  replace (exp h) with (/ exp (- h)) by (rewrite exp_Ropp, Rinv_inv; auto). apply Rinv_le_contravar; lra.
Qed.
(** the quotient: the delays are each at most dt too large *)
Lemma quo_value (tcod dt q c : R) : 0 < dt < 20 -> 0 < tcod -> 0 < q -> 0 <= c -> 20 * - ln q - dt <= c <= 20 * - ln q + dt ->
  Rabs (exK tcod dt c - q * tcod) <= (dt / tcod + q * (dt / (20 - dt))) * tcod.
Proof.
  intros Hdt Htc Hq Hc HC. pose proof (exK0_bounds tcod dt c ltac:(lra) Htc Hc) as HK. set (h := dt / 20). assert (Hh : 0 < h < 1) by (unfold h; lra).
  assert (EM : forall a b, a <= b -> exp a <= exp b) by (intros a b [L|L]; [left; apply exp_increasing; auto|rewrite L; right; auto]).
  assert (HU : exY c <= q * / (1 - h)).
  { unfold exY. apply Rle_trans with (q * exp h); [|apply Rmult_le_compat_l; [lra|apply exp_le_inv; lra]].
    rewrite <- (exp_ln q) at 1 by lra. rewrite <- exp_plus. apply EM. unfold h. lra. }
  assert (HL : q * (1 - h) <= exY c).
  { unfold exY. apply Rle_trans with (q * exp (- h)); [apply Rmult_le_compat_l; [lra|]; pose proof (exp_ineq1_le (- h)); lra|].
    rewrite <- (exp_ln q) at 1 by lra. rewrite <- exp_plus. apply EM. unfold h. lra. }
  assert (Hf : / (1 - h) = 1 + dt / (20 - dt)) by (unfold h; field; lra). rewrite Hf in HU.
  assert (Hg : h <= dt / (20 - dt)). { unfold h, Rdiv. apply Rmult_le_compat_l; [lra|]. apply Rinv_le_contravar; lra. }
  apply (Rmult_le_compat_r tcod) in HU; [|lra]. apply (Rmult_le_compat_r tcod) in HL; [|lra].
  assert (q * h * tcod <= q * (dt / (20 - dt)) * tcod) by (apply Rmult_le_compat_r; [lra|]; apply Rmult_le_compat_l; lra).
  rewrite Rmult_plus_distr_r. replace (dt / tcod * tcod) with dt by (field; lra). apply Rabs_le. lra.
Qed.
Lemma lgD_mono dt x1 x2 : 0 < dt -> 0 < x1 <= x2 -> lgD dt x2 <= lgD dt x1.
Proof.
  intros Hdt H. unfold lgD. apply Rmult_le_compat_r; [lra|]. apply le_INR, step_at_mono; auto.
  assert (ln x1 <= ln x2) by (destruct (Req_dec x1 x2) as [->|]; [lra|left; apply ln_increasing; lra]). lra.
Qed.
Section DivThm.
Variables tmin tcod dt x1 x2 a1 a2 : R.
Hypothesis HD : dt_ok dt. Hypothesis Htc : 0 < tcod. Hypothesis Htm : 1 < tmin. Hypothesis H5 : tcod + 2 * dt <= 500.
Hypothesis Ha1 : 0 <= a1. Hypothesis Ha2 : 0 <= a2.
Variable stims : div_net -> list stim.
Hypothesis HS : forall m, dv_input1 m = 0%nat -> dv_input2 m = 5%nat -> pins (DataEncoder tmin tcod) (stims m) = dv_ins tmin tcod x1 x2 a1 a2 /\ Forall (stim_ok 25) (stims m).
Lemma div_pos_gen nm : dt < 20 -> 0 < x1 <= x2 -> x2 < 1 -> 20 * - ln x1 + 2 * dt <= 500 ->
  pruns (DivNetwork (DataEncoder tmin tcod) nm) dv_mod (DataEncoder tmin tcod) dt stims
    (fun m s => pemits s (dv_output m) (DataEncoder tmin tcod) (x1 / x2) (dt / tcod + x1 / x2 * (dt / (20 - dt)))).
Proof.
  intros H20 P1 P2 HL. destruct (dt_ok_horizon dt HD) as [Hdt HM]. assert (Hd5 : dt <= 500) by apply HD.
  assert (L2 : 20 * - ln x2 + 2 * dt <= 500) by (destruct (Req_dec x1 x2) as [<-|]; [lra|pose proof (ln_increasing x1 x2 ltac:(lra) ltac:(lra)); lra]).
  destruct (div_pred tmin tcod dt x1 x2 a1 a2 nm stims (dv_pos tmin tcod dt x1 x2 a1 a2)) as [N HN]; auto.
  { intros n Hn. apply dv_pos_resp; auto; lra. }
  exists N. intros fuel Hf. destruct (HN fuel Hf) as (m & s & Es & HLg). exists m, s. split; auto.
  pose proof (lgD_mono dt x1 x2 Hdt ltac:(lra)) as HMn. pose proof (lgD_bounds dt Hdt x1 ltac:(lra)). pose proof (lgD_bounds dt Hdt x2 ltac:(lra)).
  apply (dv_emits s (dv_output m) tmin tcod dt (dv_e tmin tcod dt x1 x2 a1 a2 x1) (dv_e tmin tcod dt x1 x2 a1 a2 x2)); [exact Hdt|exact Htc|exact Htm|unfold dv_e; lra|exact HLg|].
  match goal with |- Rabs (exK _ _ ?c - _) <= _ => replace c with (lgD dt x1 - lgD dt x2) by (unfold dv_e; ring) end.
  apply quo_value; try lra; [apply Rdiv_lt_0_compat; lra|]. unfold Rdiv. rewrite ln_mult, ln_Rinv by (try apply Rinv_0_lt_compat; lra). lra.
Qed.
Lemma div_larger_gen nm : dt < 20 -> 0 < x2 <= (1 - dt / 20) * x1 -> x1 < 1 -> 20 * - ln x2 + 2 * dt <= 500 ->
  pruns (DivNetwork (DataEncoder tmin tcod) nm) dv_mod (DataEncoder tmin tcod) dt stims (fun m s => pspike_log s (dv_output m) = []).
Proof.
  intros H20 P2 P1 L2. destruct (dt_ok_horizon dt HD) as [Hdt HM]. assert (Hd5 : dt <= 500) by apply HD.
  assert (X1 : x2 < x1). { assert (0 < x1). { destruct (Rle_lt_dec x1 0); auto. pose proof (Rmult_le_pos (1 - dt / 20) (- x1)). lra. } assert (0 < dt / 20 * x1) by (apply Rmult_lt_0_compat; lra). lra. }
  assert (HX : ln x1 - ln x2 >= dt / 20).
  { assert (E : x2 <= x1 * exp (- (dt / 20))). { pose proof (exp_ineq1_le (- (dt / 20))) as E. apply (Rmult_le_compat_l x1) in E; lra. }
    assert (ln x2 <= ln (x1 * exp (- (dt / 20)))) by (destruct (Req_dec x2 (x1 * exp (- (dt / 20)))) as [<-|]; [lra|left; apply ln_increasing; lra]).
    rewrite ln_mult, ln_exp in H by (try apply exp_pos; lra). lra. }
  destruct (div_pred tmin tcod dt x1 x2 a1 a2 nm stims (dv_pos tmin tcod dt x1 x2 a1 a2)) as [N HN]; auto.
  { intros n Hn. apply dv_pos_resp; auto; lra. }
  exists N. intros fuel Hf. destruct (HN fuel Hf) as (m & s & Es & HLg). exists m, s. split; auto. rewrite HLg.
  pose proof (lgD_bounds dt Hdt x1 ltac:(lra)). pose proof (lgD_bounds dt Hdt x2 ltac:(lra)).
  cbn [dv_pos dv_F dv_rest]. cbv zeta. destruct (Rle_dec _ _) as [C|C]; auto. exfalso. unfold dv_e in C. lra.
Qed.
Lemma div_zero_gen nm : 0 <= x1 < 1 -> 0 <= x2 < 1 -> x1 * x2 = 0 -> (0 < x1 -> 20 * - ln x1 + 2 * dt <= 500) -> (0 < x2 -> 20 * - ln x2 + 2 * dt <= 500) ->
  pruns (DivNetwork (DataEncoder tmin tcod) nm) dv_mod (DataEncoder tmin tcod) dt stims (fun m s => pspike_log s (dv_output m) = []).
Proof.
  intros P1 P2 P L1 L2. destruct (dt_ok_horizon dt HD) as [Hdt HM]. assert (Hd5 : dt <= 500) by apply HD. apply Rmult_integral in P.
  assert (C : exists F, F 24%nat = [] /\ forall n, (n < 25)%nat -> resp dt rest0 (received 10 (dv_num tmin tcod) (dv_ins tmin tcod x1 x2 a1 a2) F n) (F n)).
  { destruct (Req_dec x1 0) as [E1|E1]; [destruct (Req_dec x2 0) as [E2|E2]|].
    - exists (dv_00 tmin tcod x1 x2 a1 a2). split; [reflexivity|]. intros n Hn. apply dv_00_resp; auto; lra.
    - exists (dv_num0 tmin tcod dt x1 x2 a1 a2). split; [reflexivity|]. intros n Hn. apply dv_num0_resp; auto; lra.
    - exists (dv_den0 tmin tcod dt x1 x2 a1 a2). split; [reflexivity|]. intros n Hn. apply dv_den0_resp; auto; lra. }
  destruct C as (F & F0 & HF). destruct (div_pred tmin tcod dt x1 x2 a1 a2 nm stims F HD Htc Htm HS HF) as [N HN].
  exists N. intros fuel Hf. destruct (HN fuel Hf) as (m & s & Es & HLg). exists m, s. split; auto. rewrite HLg; auto.
Qed.
Lemma div_one_gen nm : dt < 20 -> a1 = a2 -> 0 < x1 < 1 -> x2 = 1 -> 20 * - ln x1 + 2 * dt <= 500 ->
  pruns (DivNetwork (DataEncoder tmin tcod) nm) dv_mod (DataEncoder tmin tcod) dt stims
    (fun m s => pemits s (dv_output m) (DataEncoder tmin tcod) (x1 * exp (- (1 / 20))) (dt / tcod + x1 * exp (- (1 / 20)) * (dt / (20 - dt)))).
Proof.
  intros H20 Ea P1 P2 HL. destruct (dt_ok_horizon dt HD) as [Hdt HM]. assert (Hd5 : dt <= 500) by apply HD.
  destruct (div_pred tmin tcod dt x1 x2 a1 a2 nm stims (dv_one tmin tcod dt x1 x2 a1 a2)) as [N HN]; auto.
  { intros n Hn. apply dv_one_resp; auto; lra. }
  exists N. intros fuel Hf. destruct (HN fuel Hf) as (m & s & Es & HLg). exists m, s. split; auto.
  pose proof (lgD_bounds dt Hdt x1 ltac:(lra)).
  apply (dv_emits s (dv_output m) tmin tcod dt (dv_e tmin tcod dt x1 x2 a1 a2 x1) (dv_S tmin tcod x1 x2 a1 a2 + 1 + tmin)); [exact Hdt|exact Htc|exact Htm|unfold dv_e; lra|exact HLg|].
  match goal with |- Rabs (exK _ _ ?c - _) <= _ => replace c with (lgD dt x1 + 1) by (unfold dv_e; ring) end.
  pose proof (exp_pos (- (1 / 20))).
  apply quo_value; try lra; [apply Rmult_lt_0_compat; lra|]. rewrite ln_mult, ln_exp by (auto; lra). lra.
Qed.
End DivThm.
Ltac divstims := intros m E1 E2; cbv beta; rewrite E1, E2; split; [unfold pins, dv_ins, mb, two_spikes; cbn [flat_map pstim app]; consts; rewrite ?Rplus_0_l; reflexivity|unfold two_spikes; cbn [app]; stims_ok].
