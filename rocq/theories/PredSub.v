(** SubtractorNetwork, SignFlipperNetwork and the constants on PredSimulator (C54). *)
From Coq Require Import Arith ZArith Bool List Reals Lra Lia Permutation Sorted.
From Verif Require Import Num NumOrd Heapq Elements Networks CancelQueue PredSim PredNeuron NeuronLib NetLib Build BuildNets Trace SimTrace TraceProps Bridge Session SimpleNets InvMem PredProofs PredRun PredNet PredMem PredGroup.
Import ListNotations.
Open Scope list_scope.
Open Scope R_scope.

(** goals about concrete lists of V hits *)
Ltac usum := unfold U, sumf, sumR, infl; cbn [map fold_right fst snd]; repeat match goal with |- context [Rle_dec ?a ?b] => destruct (Rle_dec a b) end; try lra.
Ltac inl := let h := fresh "h" in let H := fresh "H" in intros h H; cbn [In] in H; repeat (destruct H as [H|H]; [subst h; cbn [fst snd]; repeat split; try (unfold vonly; reflexivity); try lra|]); try (destruct H).
Ltac rsilent Hdt HM := apply (resp_silent _ Hdt HM); [inl|lra|intros; usum].
Ltac rfire Hdt HM A G B := eapply resp_perm; [|apply (resp_fire _ Hdt HM A G B); [lra|inl|lra|intros; usum|discriminate|inl|lra|usum|inl|]]; [cbn [app]; perms|].

(** ** the core of the subtractor: sync1 fires at s1, sync2 at s2 *)
Section Core.
Variables dt tmin s1 s2 : R.
Hypothesis Hdt : 0 < dt. Hypothesis HM : (horizon dt < 2 ^ 64)%Z. Hypothesis Hd5 : dt <= 500.
Hypothesis Htm : 0 < tmin. Hypothesis H1 : 0 <= s1. Hypothesis H2 : 0 <= s2.
Let d3 := 3 + 2 / 100.
Definition zeroF : list R := if Rle_dec s2 s1 then if Rlt_dec (s1 - s2) (/ 100) then [s1 + / 100] else [] else if Rlt_dec (s2 - s1) (/ 100) then [s2 + / 100] else [].
Definition plusF : list R := if Rle_dec s2 s1 then [s2 + d3; s1 + (tmin + d3)] else [].
Definition minusF : list R := if Rle_dec s2 s1 then [] else if Rlt_dec (s2 - s1) (/ 100) then [] else [s1 + d3; s2 + (tmin + d3)].
Definition inb1F : list R := if Rle_dec s2 s1 then [] else [s1 + 1].
Definition inb2F : list R := if Rle_dec s2 s1 then if Rlt_dec (s1 - s2) (/ 100) then [] else [s2 + 1] else [].
Definition V1 (w d : R) (ts : list R) : list (R * (syntype * R)) := map (fun t => (t + d, (SynV, w))) ts.
Definition inb1H := V1 10 1 [s1] ++ V1 (-10) 1 [s2] ++ V1 5 1 minusF.
Definition inb2H := V1 10 1 [s2] ++ V1 (-10) 1 [s1] ++ V1 5 1 plusF ++ V1 (-10) (/ 100) zeroF.
Definition plusH := V1 10 (tmin + d3) [s1] ++ V1 10 d3 [s2] ++ V1 (-20) 1 inb1F.
Definition minusH := V1 10 (tmin + d3) [s2] ++ V1 10 d3 [s1] ++ V1 (-20) 1 inb2F ++ V1 (-20) (/ 100) zeroF.
Definition zeroH := V1 10 (/ 100) zeroF ++ V1 (-5) (2 / 100) [s1] ++ V1 (-5) (2 / 100) [s2] ++ V1 5 (/ 100) [s1] ++ V1 5 (/ 100) [s2].
Local Notation R0 := (resp dt rest0).
Ltac cases := unfold inb1H, inb2H, plusH, minusH, zeroH, V1, inb1F, inb2F, plusF, minusF, zeroF, d3;
  destruct (Rle_dec s2 s1); [destruct (Rlt_dec (s1 - s2) (/ 100))|destruct (Rlt_dec (s2 - s1) (/ 100))]; cbn [map app]; rewrite ?rest0_pn.
Lemma core_inb1 : R0 inb1H inb1F.
Proof.
  cases.
  - rsilent Hdt HM.
  - rsilent Hdt HM.
  - rfire Hdt HM (@nil (R * (syntype * R))) [(s1 + 1, (SynV, 10))] [(s2 + 1, (SynV, -10))]. rsilent Hdt HM.
  - rfire Hdt HM (@nil (R * (syntype * R))) [(s1 + 1, (SynV, 10))] [(s2 + 1, (SynV, -10)); (s1 + (3 + 2 / 100) + 1, (SynV, 5)); (s2 + (tmin + (3 + 2 / 100)) + 1, (SynV, 5))]. rsilent Hdt HM.
Qed.
Lemma core_inb2 : R0 inb2H inb2F.
Proof.
  cases.
  - rsilent Hdt HM.
  - rfire Hdt HM (@nil (R * (syntype * R))) [(s2 + 1, (SynV, 10))] [(s1 + 1, (SynV, -10)); (s2 + (3 + 2 / 100) + 1, (SynV, 5)); (s1 + (tmin + (3 + 2 / 100)) + 1, (SynV, 5))]. rsilent Hdt HM.
  - rsilent Hdt HM.
  - rsilent Hdt HM.
Qed.
Lemma core_plus : R0 plusH plusF.
Proof.
  cases.
  1, 2: rfire Hdt HM (@nil (R * (syntype * R))) [(s2 + (3 + 2 / 100), (SynV, 10))] [(s1 + (tmin + (3 + 2 / 100)), (SynV, 10))];
        rfire Hdt HM (@nil (R * (syntype * R))) [(s1 + (tmin + (3 + 2 / 100)), (SynV, 10))] (@nil (R * (syntype * R))); rsilent Hdt HM.
  all: rsilent Hdt HM.
Qed.
Lemma core_minus : R0 minusH minusF.
Proof.
  cases.
  1, 2, 3: rsilent Hdt HM.
  rfire Hdt HM (@nil (R * (syntype * R))) [(s1 + (3 + 2 / 100), (SynV, 10))] [(s2 + (tmin + (3 + 2 / 100)), (SynV, 10))].
  rfire Hdt HM (@nil (R * (syntype * R))) [(s2 + (tmin + (3 + 2 / 100)), (SynV, 10))] (@nil (R * (syntype * R))). rsilent Hdt HM.
Qed.
Lemma core_zero : R0 zeroH zeroF.
Proof.
  cases.
  - destruct (Req_dec s1 s2) as [E|E].
    + rfire Hdt HM (@nil (R * (syntype * R))) [(s1 + / 100, (SynV, 5)); (s2 + / 100, (SynV, 5))] [(s1 + 2 / 100, (SynV, -5)); (s2 + 2 / 100, (SynV, -5)); (s1 + / 100 + / 100, (SynV, 10))]. rsilent Hdt HM.
    + rfire Hdt HM [(s2 + / 100, (SynV, 5))] [(s1 + / 100, (SynV, 5))] [(s1 + 2 / 100, (SynV, -5)); (s2 + 2 / 100, (SynV, -5)); (s1 + / 100 + / 100, (SynV, 10))]. rsilent Hdt HM.
  - rsilent Hdt HM.
  - rfire Hdt HM [(s1 + / 100, (SynV, 5))] [(s2 + / 100, (SynV, 5))] [(s1 + 2 / 100, (SynV, -5)); (s2 + 2 / 100, (SynV, -5)); (s2 + / 100 + / 100, (SynV, 10))]. rsilent Hdt HM.
  - rsilent Hdt HM.
Qed.
End Core.

(** ** SubtractorNetwork *)
Definition sb_syns_num (tmin : R) : list (synapse R) :=
  [syn 0 2 SynV 5 1; syn 1 3 SynV 5 1; syn 2 4 SynV 10 1; syn 3 5 SynV 10 1; syn 2 5 SynV (-10) 1; syn 3 4 SynV (-10) 1;
   syn 2 6 SynV 10 (tmin + (3 + 2 / 100)); syn 3 7 SynV 10 (tmin + (3 + 2 / 100)); syn 3 6 SynV 10 (3 + 2 / 100); syn 2 7 SynV 10 (3 + 2 / 100);
   syn 5 7 SynV (-20) 1; syn 4 6 SynV (-20) 1; syn 6 5 SynV 5 1; syn 7 4 SynV 5 1; syn 8 8 SynV 10 (/ 100);
   syn 2 8 SynV (-5) (2 / 100); syn 3 8 SynV (-5) (2 / 100); syn 2 8 SynV 5 (/ 100); syn 3 8 SynV 5 (/ 100); syn 8 7 SynV (-20) (/ 100); syn 8 5 SynV (-10) (/ 100)].
Lemma sb_syns_R tmin tcod a : sb_syns (DataEncoder tmin tcod) (Build_sub_net a 0 1 2 3 4 5 6 7 8) = sb_syns_num tmin.
Proof.
  unfold sb_syns, sb_syns_num, sb_d3. cbn [sb_input1 sb_input2 sb_sync1 sb_sync2 sb_inb1 sb_inb2 sb_output_plus sb_output_minus sb_zero]. consts.
  repeat (f_equal; try lra).
Qed.
Definition sb_F (tmin i1 i2 : R) (n : nat) : list R :=
  match n with
  | 0%nat => [0; i1] | 1%nat => [0; i2] | 2%nat => [i1 + 1] | 3%nat => [i2 + 1]
  | 4%nat => inb1F (i1 + 1) (i2 + 1) | 5%nat => inb2F (i1 + 1) (i2 + 1)
  | 6%nat => plusF tmin (i1 + 1) (i2 + 1) | 7%nat => minusF tmin (i1 + 1) (i2 + 1) | 8%nat => zeroF (i1 + 1) (i2 + 1) | _ => [] end.
Section Sub.
Variables dt tmin i1 i2 : R.
Hypothesis Hdt : 0 < dt. Hypothesis HM : (horizon dt < 2 ^ 64)%Z. Hypothesis Hd5 : dt <= 500.
Hypothesis Htm : 0 < tmin. Hypothesis H1 : 0 < i1. Hypothesis H2 : 0 < i2.
Lemma relay2 a b : 0 <= a < b -> resp dt rest0 [(a, (SynV, 10)); (b, (SynV, 10))] [a; b].
Proof.
  intros H. rewrite rest0_pn.
  rfire Hdt HM (@nil (R * (syntype * R))) [(a, (SynV, 10))] [(b, (SynV, 10))].
  rfire Hdt HM (@nil (R * (syntype * R))) [(b, (SynV, 10))] (@nil (R * (syntype * R))). rsilent Hdt HM.
Qed.
Lemma half2 a b : 0 <= a < b -> resp dt rest0 [(a, (SynV, 5)); (b, (SynV, 5))] [b].
Proof. intros H. rewrite rest0_pn. rfire Hdt HM [(a, (SynV, 5))] [(b, (SynV, 5))] (@nil (R * (syntype * R))). rsilent Hdt HM. Qed.
Lemma perm_swap_mid {A} (a b c d : list A) : Permutation (a ++ b ++ c ++ d) (a ++ c ++ b ++ d).
Proof. apply Permutation_app_head. rewrite !app_assoc. apply Permutation_app_tail, Permutation_app_comm. Qed.
Lemma sub_resp n : (n < 9)%nat -> resp dt rest0 (received 10 (sb_syns_num tmin) [(0%nat, 0); (0%nat, i1); (1%nat, 0); (1%nat, i2)] (sb_F tmin i1 i2) n) (sb_F tmin i1 i2 n).
Proof.
  intros Hn. set (s1 := i1 + 1). set (s2 := i2 + 1).
  assert (P1 : 0 <= s1) by (unfold s1; lra). assert (P2 : 0 <= s2) by (unfold s2; lra).
  destruct n as [|[|[|[|[|[|[|[|[|n]]]]]]]]]; [..|exfalso; lia]; unfold received, sb_syns_num; cbn [flat_map syn s_post s_pre s_ty s_w s_delay Nat.eqb fst snd app map sb_F]; fold s1 s2.
  - apply relay2. lra.
  - apply relay2. lra.
  - eapply resp_perm; [|apply (half2 1 s1); unfold s1; lra]. unfold s1; perms.
  - eapply resp_perm; [|apply (half2 1 s2); unfold s2; lra]. unfold s2; perms.
  - eapply resp_perm; [|apply (core_inb1 dt tmin s1 s2 Hdt HM Hd5 Htm P1 P2)]. unfold inb1H, V1. cbn [map app]. rewrite ?app_nil_r. apply Permutation_refl.
  - eapply resp_perm; [|apply (core_inb2 dt tmin s1 s2 Hdt HM Hd5 Htm P1 P2)]. unfold inb2H, V1. cbn [map app]. rewrite ?app_nil_r. apply Permutation_refl.
  - eapply resp_perm; [|apply (core_plus dt tmin s1 s2 Hdt HM Hd5 Htm P1 P2)]. unfold plusH, V1. cbn [map app]. rewrite ?app_nil_r. apply Permutation_refl.
  - eapply resp_perm; [|apply (core_minus dt tmin s1 s2 Hdt HM Hd5 Htm P1 P2)]. unfold minusH, V1. cbn [map app]. rewrite ?app_nil_r. apply Permutation_refl.
  - eapply resp_perm; [|apply (core_zero dt s1 s2 Hdt HM Hd5 P1 P2)]. unfold zeroH, V1. cbn [map app]. rewrite ?app_nil_r. apply Permutation_refl.
Qed.
End Sub.
Lemma sub_pred (tmin tcod x1 x2 dt t1 t2 : R) nm : dt_ok dt -> 0 < tcod -> 0 < tmin -> 0 <= x1 <= 1 -> 0 <= x2 <= 1 ->
  pruns (SubtractorNetwork (DataEncoder tmin tcod) nm) sb_mod (DataEncoder tmin tcod) dt (fun m => [SValue x1 (sb_input1 m) t1; SValue x2 (sb_input2 m) t2])
      (fun m s => pspike_log s (sb_output_plus m) = plusF tmin (tmin + x1 * tcod + 1) (tmin + x2 * tcod + 1) /\
                  pspike_log s (sb_output_minus m) = minusF tmin (tmin + x1 * tcod + 1) (tmin + x2 * tcod + 1)).
Proof.
  intros HD Htc Htm Hx1 Hx2. destruct (dt_ok_horizon dt HD) as [Hdt HM]. set (enc := DataEncoder tmin tcod).
  assert (0 <= x1 * tcod) by (apply Rmult_le_pos; lra). assert (0 <= x2 * tcod) by (apply Rmult_le_pos; lra).
  destruct (Subtractor_built enc nm empty_world inv_empty) as (m & w & E & HB & HN & HL).
  cbn [w_neurons empty_world length Nat.add] in HN, HL. destruct m as [a i0 i1 i2 i3 i4 i5 i6 i7 i8]. unfold sb_nodes in HN. cbn in HN. injection HN as -> -> -> -> -> -> -> -> ->.
  unfold enc in HB. rewrite (sb_syns_R tmin tcod a) in HB.
  edestruct (psession_resp (SubtractorNetwork enc nm) sb_mod _ w _ enc dt (fun m => [SValue x1 (sb_input1 m) t1; SValue x2 (sb_input2 m) t2])
    (sb_F tmin (tmin + x1 * tcod) (tmin + x2 * tcod)) E HB Hdt HM) as [N HR].
  - rewrite HL. cbn. stims_ok.
  - cbn. intros y Hy. repeat (destruct Hy as [<-|Hy]; [cbn; lra|]). destruct Hy.
  - rewrite HL. intros n Hn. apply sub_resp; auto; try lra. apply HD.
  - exists N. intros fuel Hf. destruct (HR fuel Hf) as (s & Es & HLg). eexists. exists s. split; [exact Es|]. cbn [sb_output_plus sb_output_minus]. split; apply HLg; lia.
Qed.
(** exact, whatever the time step *)
Theorem pred_subtractor (tmin tcod x1 x2 dt t1 t2 : R) nm : dt_ok dt -> 0 < tcod -> 0 < tmin -> 0 <= x1 <= 1 -> 0 <= x2 <= 1 ->
  x2 <= x1 \/ / 100 <= (x2 - x1) * tcod ->
  pruns (SubtractorNetwork (DataEncoder tmin tcod) nm) sb_mod (DataEncoder tmin tcod) dt (fun m => [SValue x1 (sb_input1 m) t1; SValue x2 (sb_input2 m) t2])
      (fun m s => let out := if Rle_dec x2 x1 then sb_output_plus m else sb_output_minus m in
                  let other := if Rle_dec x2 x1 then sb_output_minus m else sb_output_plus m in
                  pemits s out (DataEncoder tmin tcod) (Rabs (x1 - x2)) 0 /\ pspike_log s other = []).
Proof.
  intros HD Htc Htm Hx1 Hx2 HX. destruct (sub_pred tmin tcod x1 x2 dt t1 t2 nm HD Htc Htm Hx1 Hx2) as [N HN].
  exists N. intros fuel Hf. destruct (HN fuel Hf) as (m & s & Es & HP & HQ). exists m, s. split; auto. cbv zeta.
  unfold plusF, minusF in HP, HQ.
  destruct (Rle_dec x2 x1) as [C|C].
  - assert (x2 * tcod <= x1 * tcod) by (apply Rmult_le_compat_r; lra).
    destruct (Rle_dec (tmin + x2 * tcod + 1) (tmin + x1 * tcod + 1)); [|lra]. split; auto.
    eapply pemits_intro; [auto|exact HP|lra|]. rewrite (Rabs_right (x1 - x2)) by lra. rewrite Rmult_0_l. apply Req_le. rewrite <- Rabs_R0. f_equal. ring.
  - destruct HX as [HX|HX]; [lra|]. assert ((x2 - x1) * tcod = x2 * tcod - x1 * tcod) by ring.
    destruct (Rle_dec (tmin + x2 * tcod + 1) (tmin + x1 * tcod + 1)); [lra|].
    destruct (Rlt_dec (tmin + x2 * tcod + 1 - (tmin + x1 * tcod + 1)) (/ 100)); [lra|]. split; auto.
    eapply pemits_intro; [auto|exact HQ|lra|]. rewrite (Rabs_left (x1 - x2)) by lra. rewrite Rmult_0_l. apply Req_le. rewrite <- Rabs_R0. f_equal. ring.
Qed.
(** a difference between -1/100 ms and 0 is lost *)
Theorem pred_subtractor_lost (tmin tcod x1 x2 dt t1 t2 : R) nm : dt_ok dt -> 0 < tcod -> 0 < tmin -> 0 <= x1 <= 1 -> 0 <= x2 <= 1 ->
  0 < (x2 - x1) * tcod < / 100 ->
  pruns (SubtractorNetwork (DataEncoder tmin tcod) nm) sb_mod (DataEncoder tmin tcod) dt (fun m => [SValue x1 (sb_input1 m) t1; SValue x2 (sb_input2 m) t2])
      (fun m s => pspike_log s (sb_output_plus m) = [] /\ pspike_log s (sb_output_minus m) = []).
Proof.
  intros HD Htc Htm Hx1 Hx2 HX. destruct (sub_pred tmin tcod x1 x2 dt t1 t2 nm HD Htc Htm Hx1 Hx2) as [N HN].
  exists N. intros fuel Hf. destruct (HN fuel Hf) as (m & s & Es & HP & HQ). exists m, s. split; auto.
  assert ((x2 - x1) * tcod = x2 * tcod - x1 * tcod) by ring. unfold plusF, minusF in HP, HQ.
  destruct (Rle_dec (tmin + x2 * tcod + 1) (tmin + x1 * tcod + 1)); [lra|].
  destruct (Rlt_dec (tmin + x2 * tcod + 1 - (tmin + x1 * tcod + 1)) (/ 100)); [|lra]. auto.
Qed.
