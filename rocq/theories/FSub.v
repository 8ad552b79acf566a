(** SubtractorNetwork in binary64 (C60). *)
From Coq Require Import Arith ZArith Bool List Reals Lra Lia Permutation.
From Flocq Require Import Core BinarySingleNaN PrimFloat.
From Coq Require Import Floats Uint63.
From Verif Require Import Num NumOrd Elements Simulator Networks Trace SimTrace AnySim F64 F64Thms GTrace TraceProps NeuronLib NetLib MemoryProof SegLib Build BuildNets Bridge FNet FSession FConst FMem FIMem.
Import ListNotations.
Open Scope list_scope.
Open Scope R_scope.

(** ** constants *)
Lemma half_wi_F : fin (half (T := float) wi) /\ FR (half wi) = IZR (-2) * (5 / 2).
Proof.
  assert (E : half (T := float) wi = PrimFloat.opp (nofZ 5)) by (vm_compute; reflexivity). rewrite E.
  destruct (ofZ_small 5 ltac:(lia)) as [A1 A2]. destruct (opp_FR (nofZ 5)) as [B1 B2]. rewrite B1, A1. split; auto. lra.
Qed.
Lemma twice_wi_F : fin (twice (T := float) wi) /\ FR (twice wi) = IZR (-8) * (5 / 2).
Proof.
  assert (E : twice (T := float) wi = PrimFloat.opp (nofZ 20)) by (vm_compute; reflexivity). rewrite E.
  destruct (ofZ_small 20 ltac:(lia)) as [A1 A2]. destruct (opp_FR (nofZ 20)) as [B1 B2]. rewrite B1, A1. split; auto. lra.
Qed.
Lemma twice_Tneu_F : fin (twice (T := float) cTneu) /\ Rabs (FR (twice cTneu) - / 50) <= p2 (-50) /\ 0 <= FR (twice cTneu) <= 1.
Proof.
  destruct cTneu_F as (B1 & B2 & B3). destruct (ofZ_small 2 ltac:(lia)) as [A1 A2]. unfold twice.
  assert (Q : 0 < p2 (-54) /\ 4 * p2 (-54) <= p2 (-50) /\ p2 (-54) <= / 1000) by (cbn; lra).
  apply Rabs_le_inv in B2.
  destruct (mul_FR (nofZ 2) cTneu A2 B1) as [M1 M2].
  { rewrite A1. apply Rabs_pos_le; [lra|]. apply Rle_trans with (p2 1); [change (p2 1) with 2; lra|apply p2_big; lia]. }
  cbn [nmul F_num]. rewrite M1, A1, fmt_double. split; [exact M2|]. assert (E50 : / 50 = 2 * / 100) by lra. rewrite E50. split; [apply Rabs_le|]; lra.
Qed.
Lemma d3_F : fin (sb_d3 (T := float)) /\ Rabs (FR sb_d3 - (3 + / 50)) <= p2 (-48) /\ 0 <= FR sb_d3 <= 4.
Proof.
  unfold sb_d3. assert (E : thrice (T := float) cTsyn = nofZ 3) by (vm_compute; reflexivity). rewrite E.
  destruct (ofZ_small 3 ltac:(lia)) as [A1 A2]. destruct twice_Tneu_F as (B1 & B2 & B3).
  destruct (add_small (nofZ 3) (twice cTneu) 2) as (D1 & D2 & D3); auto; try lra; try lia.
  { rewrite A1. change (p2 2) with 4. lra. }
  change (2 - 54)%Z with (-52)%Z in D2. rewrite A1 in D2. apply Rabs_le_inv in B2, D2.
  assert (p2 (-52) + p2 (-50) <= p2 (-48)) by (cbn; lra). split; [exact D1|]. split; [apply Rabs_le; lra|].
  change (p2 2) with 4 in D3. exact D3.
Qed.

(** the delivery step grows with the event time *)
Lemma dstep_mono c ex ord KM e e' j : netok c ex ord KM -> fin e -> fin e' -> FR e <= FR e' -> (dstep c KM e j <= dstep c KM e' j)%nat.
Proof.
  intros OK F F' L. unfold dstep at 2. destruct (find _ _) as [k|] eqn:E.
  - apply (find_first c ex ord KM OK) in E. destruct E as (E1 & E2 & E3). rewrite (leb_tau c ex ord KM OK) in E2 by (auto; lia).
    unfold dstep. destruct (find (fun k => nleb e (tt c k)) _) as [k'|] eqn:E'.
    + apply (find_first c ex ord KM OK) in E'. destruct E' as (G1 & G2 & G3). destruct (le_lt_dec k' k); auto. exfalso.
      specialize (G3 k ltac:(lia)). rewrite (leb_tau c ex ord KM OK) in G3 by (auto; lia).
      destruct (Rle_bool_spec (FR e') (tau c k)); [|discriminate]. destruct (Rle_bool_spec (FR e) (tau c k)); [discriminate|]. lra.
    + exfalso. pose proof (find_none _ _ E' k) as X. cbv beta in X. rewrite (leb_tau c ex ord KM OK) in X by (auto; lia).
      destruct (Rle_bool_spec (FR e') (tau c k)); [|discriminate]. rewrite Rle_bool_true in X by lra. discriminate X. apply in_seq. lia.
  - unfold dstep. destruct (find (fun k => nleb e (tt c k)) _) as [k'|] eqn:E'; [|lia].
    apply (find_first c ex ord KM OK) in E'. lia.
Qed.

Lemma ffilt_eq n (y : synapse float) L : s_post y = n -> filter (fun y => (s_post y =? n)%nat) (y :: L) = y :: filter (fun y => (s_post y =? n)%nat) L.
Proof. intros E. cbn [filter]. rewrite (proj2 (Nat.eqb_eq _ _)); auto. Qed.
Lemma ffilt_ne n (y : synapse float) L : s_post y <> n -> filter (fun y => (s_post y =? n)%nat) (y :: L) = filter (fun y => (s_post y =? n)%nat) L.
Proof. intros E. cbn [filter]. rewrite (proj2 (Nat.eqb_neq _ _)); auto. Qed.
Ltac ffilt := repeat first [rewrite ffilt_ne by (cbn [s_post syn]; lia) | rewrite ffilt_eq by (cbn [s_post syn]; lia)].
Section Filt.
Variable m : sub_net.
Variable enc : encoder float.
Variable b : nat.
Hypothesis HN : sb_nodes m = seq b 9.
Let into n := filter (fun y => (s_post y =? n)%nat) (sb_syns enc m).
Ltac go := pose proof HN as HN'; unfold sb_nodes in HN'; nodes_eqs HN'; unfold into, sb_syns; ffilt; reflexivity.
Lemma into_in1 : into (sb_input1 m) = []. Proof. go. Qed.
Lemma into_in2 : into (sb_input2 m) = []. Proof. go. Qed.
Lemma into_sync1 : into (sb_sync1 m) = [syn (sb_input1 m) (sb_sync1 m) SynV (half we) cTsyn]. Proof. go. Qed.
Lemma into_sync2 : into (sb_sync2 m) = [syn (sb_input2 m) (sb_sync2 m) SynV (half we) cTsyn]. Proof. go. Qed.
Lemma into_inb1 : into (sb_inb1 m) = [syn (sb_sync1 m) (sb_inb1 m) SynV we cTsyn; syn (sb_sync2 m) (sb_inb1 m) SynV wi cTsyn;
  syn (sb_output_minus m) (sb_inb1 m) SynV (half we) cTsyn]. Proof. go. Qed.
Lemma into_inb2 : into (sb_inb2 m) = [syn (sb_sync2 m) (sb_inb2 m) SynV we cTsyn; syn (sb_sync1 m) (sb_inb2 m) SynV wi cTsyn;
  syn (sb_output_plus m) (sb_inb2 m) SynV (half we) cTsyn; syn (sb_zero m) (sb_inb2 m) SynV wi cTneu]. Proof. go. Qed.
Lemma into_plus : into (sb_output_plus m) = [syn (sb_sync1 m) (sb_output_plus m) SynV we (nadd (Tmin enc) sb_d3);
  syn (sb_sync2 m) (sb_output_plus m) SynV we sb_d3; syn (sb_inb1 m) (sb_output_plus m) SynV (twice wi) cTsyn]. Proof. go. Qed.
Lemma into_minus : into (sb_output_minus m) = [syn (sb_sync2 m) (sb_output_minus m) SynV we (nadd (Tmin enc) sb_d3);
  syn (sb_sync1 m) (sb_output_minus m) SynV we sb_d3; syn (sb_inb2 m) (sb_output_minus m) SynV (twice wi) cTsyn;
  syn (sb_zero m) (sb_output_minus m) SynV (twice wi) cTneu]. Proof. go. Qed.
Lemma into_zero : into (sb_zero m) = [syn (sb_zero m) (sb_zero m) SynV we cTneu; syn (sb_sync1 m) (sb_zero m) SynV (half wi) (twice cTneu);
  syn (sb_sync2 m) (sb_zero m) SynV (half wi) (twice cTneu); syn (sb_sync1 m) (sb_zero m) SynV (half we) cTneu; syn (sb_sync2 m) (sb_zero m) SynV (half we) cTneu]. Proof. go. Qed.
End Filt.

Section Sub.
Variable c : cfg float.
Variable ex : list (nat * float).
Variable ord : nat -> list nat -> list nat.
Variable KM : nat.
Hypothesis OK : netok c ex ord KM.
Variable m : sub_net.
Variable enc : encoder float.
Let NN := length (w_neurons (c_world c)).
Let dM := nadd (Tmin enc) (sb_d3 (T := float)).
Hypothesis FdM : fin dM. Hypothesis BdM : 0 <= FR dM <= p2 15.
Variable b : nat.
Hypothesis HN : sb_nodes m = seq b 9.
Hypothesis HL : (b + 9 <= NN)%nat.
Hypothesis HIN : forall n, insyn c n = filter (fun y => (s_post y =? n)%nat) (sb_syns enc m).
Hypothesis HX : forall n, In n [sb_sync1 m; sb_sync2 m; sb_inb1 m; sb_inb2 m; sb_output_plus m; sb_output_minus m; sb_zero m] -> extsp ex n = [].
Variables s1 s2 : nat.
Hypothesis Hs : (1 <= s1 /\ 1 <= s2)%nat.
Hypothesis HS1 : spkK c ex ord KM (sb_sync1 m) [s1].
Hypothesis HS2 : spkK c ex ord KM (sb_sync2 m) [s2].
Let dsy := dspk c KM (cTsyn (T := float)).
Let dne := dspk c KM (cTneu (T := float)).
Let dnn := dspk c KM (twice (T := float) cTneu).
Let dd3 := dspk c KM (sb_d3 (T := float)).
Let ddM := dspk c KM dM.
Definition P_inb1 (Sm : list nat) := [(4%Z, [dsy s1]); ((-4)%Z, [dsy s2]); (2%Z, map dsy Sm)].
Definition P_inb2 (Sp Sz : list nat) := [(4%Z, [dsy s2]); ((-4)%Z, [dsy s1]); (2%Z, map dsy Sp); ((-4)%Z, map dne Sz)].
Definition P_plus (Si1 : list nat) := [(4%Z, [ddM s1]); (4%Z, [dd3 s2]); ((-8)%Z, map dsy Si1)].
Definition P_minus (Si2 Sz : list nat) := [(4%Z, [ddM s2]); (4%Z, [dd3 s1]); ((-8)%Z, map dsy Si2); ((-8)%Z, map dne Sz)].
Definition P_zero (Sz : list nat) := [(4%Z, map dne Sz); ((-2)%Z, [dnn s1]); ((-2)%Z, [dnn s2]); (2%Z, [dne s1]); (2%Z, [dne s2])].

Ltac byw := match goal with
  | |- fin (half we) => apply half_we_F | |- fin (half wi) => apply half_wi_F | |- fin (twice wi) => apply twice_wi_F | |- fin we => apply we_F | |- fin wi => apply wi_F
  | |- FR (half we) = _ => apply half_we_F | |- FR (half wi) = _ => apply half_wi_F | |- FR (twice wi) = _ => apply twice_wi_F | |- FR we = _ => apply we_F | |- FR wi = _ => apply wi_F end.
Lemma dl_F : (fin (cTsyn (T := float)) /\ 0 <= FR cTsyn <= p2 16) /\ (fin (cTneu (T := float)) /\ 0 <= FR cTneu <= p2 16) /\
  (fin (twice (T := float) cTneu) /\ 0 <= FR (twice cTneu) <= p2 16) /\ (fin (sb_d3 (T := float)) /\ 0 <= FR sb_d3 <= p2 16) /\ (fin dM /\ 0 <= FR dM <= p2 16).
Proof.
  assert (B16 : p2 16 = 65536) by (cbn; lra). assert (B15 : p2 15 = 32768) by (cbn; lra). rewrite B16.
  destruct cTsyn_F as [T1 T2]. destruct cTneu_F as (N1 & _ & N2). destruct twice_Tneu_F as (NN1 & _ & NN2). destruct d3_F as (D1 & _ & D2).
  rewrite T2. split; [split; [exact T1|lra]|]. split; [split; [exact N1|lra]|]. split; [split; [exact NN1|lra]|]. split; [split; [exact D1|lra]|]. split; [exact FdM|lra].
Qed.
Ltac bygo := match goal with
  | |- In _ _ => cbn [In]; tauto
  | |- fin cTsyn => apply dl_F | |- fin cTneu => apply dl_F | |- fin (twice cTneu) => apply dl_F | |- fin sb_d3 => apply dl_F | |- fin (nadd _ _) => apply dl_F
  | |- 0 <= FR cTsyn <= _ => apply dl_F | |- 0 <= FR cTneu <= _ => apply dl_F | |- 0 <= FR (twice cTneu) <= _ => apply dl_F | |- 0 <= FR sb_d3 <= _ => apply dl_F | |- 0 <= FR (nadd _ _) <= _ => apply dl_F
  | |- strict 0 _ => assumption
  | H : spkK _ _ _ _ ?n ?l |- spkK _ _ _ _ ?n ?l => exact H end.
Ltac sgo := repeat (first [apply Forall2_nil | apply Forall2_cons]); cbn [s_ty s_w s_pre s_delay syn fst snd];
  (split; [reflexivity|]); (split; [byw|]); (split; [byw|]);
  match goal with AR : forall n dl l, _ |- arrK _ _ _ (S _) ?n ?dl (map _ ?l) => apply (AR n dl l)
                | AR : forall n dl l, _ |- arrK _ _ _ (S _) ?n ?dl [_ ?j] => apply (AR n dl [j]) end.

Lemma sub_group Si1 Si2 Sp Sm Sz :
  segs (evr (P_inb1 Sm)) 0 Si1 -> segs (evr (P_inb2 Sp Sz)) 0 Si2 -> segs (evr (P_plus Si1)) 0 Sp -> segs (evr (P_minus Si2 Sz)) 0 Sm -> segs (evr (P_zero Sz)) 0 Sz ->
  (forall P, In P [P_inb1 Sm; P_inb2 Sp Sz; P_plus Si1; P_minus Si2 Sz; P_zero Sz] -> (tot P <= 2 ^ 40)%Z) ->
  spkK c ex ord KM (sb_output_plus m) Sp /\ spkK c ex ord KM (sb_output_minus m) Sm.
Proof.
  intros G1 G2 G3 G4 G5 HT.
  assert (X : forall K, (K <= KM)%nat -> spkK c ex ord K (sb_inb1 m) Si1 /\ spkK c ex ord K (sb_inb2 m) Si2 /\ spkK c ex ord K (sb_output_plus m) Sp /\
     spkK c ex ord K (sb_output_minus m) Sm /\ spkK c ex ord K (sb_zero m) Sz).
  { induction K as [|K IH]; intros HK; [split; [|split; [|split; [|split]]]; intros j Hj; lia|].
    destruct (IH ltac:(lia)) as (I1 & I2 & I3 & I4 & I5). clear IH.
    assert (AR : forall n dl l, In n [sb_sync1 m; sb_sync2 m; sb_inb1 m; sb_inb2 m; sb_output_plus m; sb_output_minus m; sb_zero m] -> fin dl -> 0 <= FR dl <= p2 16 ->
        spkK c ex ord K n l -> strict 0 l -> arrK c ex ord (S K) n dl (map (dspk c KM dl) l)).
    { intros n dl l Hn F B S ST k Hk. pose proof (arr_of c ex ord KM OK K n dl l F B S ST k ltac:(lia) ltac:(lia)) as Y. rewrite HX in Y by auto. exact Y. }
    assert (S1 : spkK c ex ord K (sb_sync1 m) [s1]) by (intros j Hj; apply HS1; lia).
    assert (S2 : spkK c ex ord K (sb_sync2 m) [s2]) by (intros j Hj; apply HS2; lia).
    assert (Q1 : strict 0 [s1]) by (cbn; lia). assert (Q2 : strict 0 [s2]) by (cbn; lia).
    pose proof (segs_strict _ _ _ G1) as R1. pose proof (segs_strict _ _ _ G2) as R2. pose proof (segs_strict _ _ _ G3) as R3.
    pose proof (segs_strict _ _ _ G4) as R4. pose proof (segs_strict _ _ _ G5) as R5.
    pose proof HN as HN'. unfold sb_nodes in HN'. nodes_eqs HN'.
    split; [|split; [|split; [|split]]].
    - apply (vspikes c ex ord KM OK (S K) _ (P_inb1 Sm)); auto; [fold NN; lia| |apply HT; cbn; auto].
      unfold vin. rewrite HIN, (into_inb1 m enc b HN). sgo; bygo.
    - apply (vspikes c ex ord KM OK (S K) _ (P_inb2 Sp Sz)); auto; [fold NN; lia| |apply HT; cbn; auto].
      unfold vin. rewrite HIN, (into_inb2 m enc b HN). sgo; bygo.
    - apply (vspikes c ex ord KM OK (S K) _ (P_plus Si1)); auto; [fold NN; lia| |apply HT; cbn; auto].
      unfold vin. rewrite HIN, (into_plus m enc b HN). sgo; bygo.
    - apply (vspikes c ex ord KM OK (S K) _ (P_minus Si2 Sz)); auto; [fold NN; lia| |apply HT; cbn; auto].
      unfold vin. rewrite HIN, (into_minus m enc b HN). sgo; bygo.
    - apply (vspikes c ex ord KM OK (S K) _ (P_zero Sz)); auto; [fold NN; lia| |apply HT; cbn; auto 6].
      unfold vin. rewrite HIN, (into_zero m enc b HN). sgo; bygo. }
  destruct (X KM (Nat.le_refl _)) as (_ & _ & X3 & X4 & _). auto.
Qed.

(** ** where the events land *)
Let d := FR (c_dt c).
Let tm := FR (Tmin enc).
Hypothesis Hd : d <= / 256.
Hypothesis Htm : d + p2 (-30) <= tm.
Hypothesis EdM : Rabs (FR dM - (tm + (3 + / 50))) <= p2 (-37).
Hypothesis Hend1 : INR s1 * d + tm + 5 <= INR KM * d.
Hypothesis Hend2 : INR s2 * d + tm + 5 <= INR KM * d.
Let h := 2 * eta.
Lemma d_pos' : p2 (-12) <= d. Proof. apply (n_dt _ _ _ _ OK). Qed.
Lemma h_small : 0 < h /\ 16 * h <= p2 (-30) /\ p2 (-30) * 16 <= p2 (-12) /\ 16 * h <= / 1000.
Proof. unfold h, eta. cbn. lra. Qed.
Lemma bnd dl L j : fin dl -> 0 <= FR dl <= p2 16 -> Rabs (FR dl - L) <= p2 (-37) -> (1 <= j <= KM)%nat -> INR j * d + L + h <= INR KM * d ->
  let k := dspk c KM dl j in (j < k <= KM)%nat /\ INR j * d + L - h <= INR k * d < INR j * d + L + d + h.
Proof.
  intros F B E Hj HM k. assert (Q : p2 (-37) + eta <= h) by (unfold h, eta; cbn; lra). apply Rabs_le_inv in E.
  destruct (dspk_bounds c ex ord KM OK dl j F B Hj) as [A1 A2]; [fold d; lra|]. fold k in A1, A2. fold d in A2. split; [exact A1|lra].
Qed.
Lemma b_syn j : (1 <= j <= KM)%nat -> INR j * d + 1 + h <= INR KM * d -> (j < dsy j <= KM)%nat /\ INR j * d + 1 - h <= INR (dsy j) * d < INR j * d + 1 + d + h.
Proof. intros. apply bnd; auto; try apply dl_F. destruct cTsyn_F as [_ ->]. rewrite Rminus_diag_eq, Rabs_R0 by reflexivity. apply bpow_ge_0. Qed.
Lemma b_neu j : (1 <= j <= KM)%nat -> INR j * d + / 100 + h <= INR KM * d -> (j < dne j <= KM)%nat /\ INR j * d + / 100 - h <= INR (dne j) * d < INR j * d + / 100 + d + h.
Proof. intros. apply bnd; auto; try apply dl_F. destruct cTneu_F as (_ & A & _). eapply Rle_trans; [exact A|]. apply bpow_le; lia. Qed.
Lemma b_nn j : (1 <= j <= KM)%nat -> INR j * d + / 50 + h <= INR KM * d -> (j < dnn j <= KM)%nat /\ INR j * d + / 50 - h <= INR (dnn j) * d < INR j * d + / 50 + d + h.
Proof. intros. apply bnd; auto; try apply dl_F. destruct twice_Tneu_F as (_ & A & _). eapply Rle_trans; [exact A|]. apply bpow_le; lia. Qed.
Lemma b_d3 j : (1 <= j <= KM)%nat -> INR j * d + (3 + / 50) + h <= INR KM * d -> (j < dd3 j <= KM)%nat /\ INR j * d + (3 + / 50) - h <= INR (dd3 j) * d < INR j * d + (3 + / 50) + d + h.
Proof. intros. apply bnd; auto; try apply dl_F. destruct d3_F as (_ & A & _). eapply Rle_trans; [exact A|]. apply bpow_le; lia. Qed.
Lemma b_dM j : (1 <= j <= KM)%nat -> INR j * d + (tm + (3 + / 50)) + h <= INR KM * d -> (j < ddM j <= KM)%nat /\ INR j * d + (tm + (3 + / 50)) - h <= INR (ddM j) * d < INR j * d + (tm + (3 + / 50)) + d + h.
Proof. intros. apply bnd; auto; apply dl_F. Qed.

Ltac nlt := match goal with |- (?a < ?b)%nat => apply (lt_steps a b d); lra end.
Ltac nle := match goal with |- (?a <= ?b)%nat => let X := fresh in assert (X : (a < b + 1)%nat); [apply (lt_steps2 a b 1 d); [lra|cbn [INR]; lra]|lia] end.

(** the common part: events caused by sync1 and sync2 *)
Lemma sub_steps : let e1 := dsy s1 in let e2 := dsy s2 in let n1 := dne s1 in let n2 := dne s2 in let w1 := dnn s1 in let w2 := dnn s2 in
  let q1 := dd3 s1 in let q2 := dd3 s2 in let r1 := ddM s1 in let r2 := ddM s2 in
  (s1 <= KM /\ s2 <= KM)%nat /\
  ((s1 < e1 <= KM)%nat /\ INR s1 * d + 1 - h <= INR e1 * d < INR s1 * d + 1 + d + h) /\ ((s2 < e2 <= KM)%nat /\ INR s2 * d + 1 - h <= INR e2 * d < INR s2 * d + 1 + d + h) /\
  ((s1 < n1 <= KM)%nat /\ INR s1 * d + / 100 - h <= INR n1 * d < INR s1 * d + / 100 + d + h) /\ ((s2 < n2 <= KM)%nat /\ INR s2 * d + / 100 - h <= INR n2 * d < INR s2 * d + / 100 + d + h) /\
  ((s1 < w1 <= KM)%nat /\ INR s1 * d + / 50 - h <= INR w1 * d < INR s1 * d + / 50 + d + h) /\ ((s2 < w2 <= KM)%nat /\ INR s2 * d + / 50 - h <= INR w2 * d < INR s2 * d + / 50 + d + h) /\
  ((s1 < q1 <= KM)%nat /\ INR s1 * d + (3 + / 50) - h <= INR q1 * d < INR s1 * d + (3 + / 50) + d + h) /\ ((s2 < q2 <= KM)%nat /\ INR s2 * d + (3 + / 50) - h <= INR q2 * d < INR s2 * d + (3 + / 50) + d + h) /\
  ((s1 < r1 <= KM)%nat /\ INR s1 * d + (tm + (3 + / 50)) - h <= INR r1 * d < INR s1 * d + (tm + (3 + / 50)) + d + h) /\
  ((s2 < r2 <= KM)%nat /\ INR s2 * d + (tm + (3 + / 50)) - h <= INR r2 * d < INR s2 * d + (tm + (3 + / 50)) + d + h).
Proof.
  cbv zeta. pose proof d_pos' as D0. destruct h_small as (h1 & h2 & h3 & h4). pose proof (bpow_gt_0 radix2 (-12)) as P0.
  assert (K1 : (s1 < KM)%nat) by nlt. assert (K2 : (s2 < KM)%nat) by nlt.
  split; [lia|]. split; [apply b_syn; [lia|lra]|]. split; [apply b_syn; [lia|lra]|]. split; [apply b_neu; [lia|lra]|]. split; [apply b_neu; [lia|lra]|].
  split; [apply b_nn; [lia|lra]|]. split; [apply b_nn; [lia|lra]|]. split; [apply b_d3; [lia|lra]|]. split; [apply b_d3; [lia|lra]|]. split; [apply b_dM; [lia|lra]|apply b_dM; [lia|lra]].
Qed.
Ltac seg_go := unfold P_inb1, P_inb2, P_plus, P_minus, P_zero; fsegs.
Ltac tot_go := let P := fresh in let HP := fresh in intros P HP; cbn [In] in HP; repeat (destruct HP as [<-|HP]; [unfold tot, evz, P_inb1, P_inb2, P_plus, P_minus, P_zero; cbn; lia|]); destruct HP.

Lemma case_minus : / 100 + 2 * h <= INR s2 * d - INR s1 * d ->
  spkK c ex ord KM (sb_output_plus m) [] /\ spkK c ex ord KM (sb_output_minus m) [dd3 s1; ddM s2].
Proof.
  intros Hx. pose proof d_pos' as D0. destruct h_small as (h1 & h2 & h3 & h4). pose proof (bpow_gt_0 radix2 (-12)) as P0.
  destruct sub_steps as (SK & (E1 & E1') & (E2 & E2') & (N1 & N1') & (N2 & N2') & (W1 & W1') & (W2 & W2') & (Q1 & Q1') & (Q2 & Q2') & (R1 & R1') & (R2 & R2')).
  destruct (b_syn (dsy s1)) as (I1 & I1'); [lia|lra|].
  destruct (b_syn (dd3 s1)) as (J1 & J1'); [lia|lra|]. destruct (b_syn (ddM s2)) as (J2 & J2'); [lia|lra|].
  assert (F1 : (dsy s1 < dsy s2)%nat) by nlt. assert (F2 : (dsy s2 < dsy (ddM s2))%nat) by nlt. assert (F3 : (dsy (dd3 s1) < dsy (ddM s2))%nat) by nlt.
  assert (F4 : (dsy (dsy s1) < dd3 s2)%nat) by nlt. assert (F5 : (dsy (dsy s1) < ddM s1)%nat) by nlt. assert (F6 : (dd3 s1 < ddM s2)%nat) by nlt.
  assert (F10 : (dsy s1 < dsy (dd3 s1))%nat) by nlt. assert (F7 : (dnn s1 <= dne s2)%nat) by nle. assert (F8 : (dne s1 < dnn s1)%nat) by nlt. assert (F9 : (dne s2 < dnn s2)%nat) by nlt.
  apply (sub_group [dsy s1] [] [] [dd3 s1; ddM s2] []); [seg_go|seg_go|seg_go|seg_go|seg_go|tot_go].
Qed.
Lemma case_plus_far : (s2 < s1)%nat -> (dnn s2 <= dne s1)%nat ->
  spkK c ex ord KM (sb_output_plus m) [dd3 s2; ddM s1] /\ spkK c ex ord KM (sb_output_minus m) [].
Proof.
  intros Hx Hw. pose proof d_pos' as D0. destruct h_small as (h1 & h2 & h3 & h4). pose proof (bpow_gt_0 radix2 (-12)) as P0.
  destruct sub_steps as (SK & (E1 & E1') & (E2 & E2') & (N1 & N1') & (N2 & N2') & (W1 & W1') & (W2 & W2') & (Q1 & Q1') & (Q2 & Q2') & (R1 & R1') & (R2 & R2')).
  destruct (b_syn (dsy s2)) as (I1 & I1'); [lia|lra|].
  destruct (b_syn (dd3 s2)) as (J1 & J1'); [lia|lra|]. destruct (b_syn (ddM s1)) as (J2 & J2'); [lia|lra|].
  assert (Hw' : INR (dnn s2) * d <= INR (dne s1) * d) by (apply Rmult_le_compat_r; [lra|apply le_INR; auto]).
  assert (F1 : (dsy s2 < dsy s1)%nat) by nlt. assert (F2 : (dsy s1 < dsy (ddM s1))%nat) by nlt. assert (F3 : (dsy (dd3 s2) < dsy (ddM s1))%nat) by nlt.
  assert (F4 : (dsy (dsy s2) < dd3 s1)%nat) by nlt. assert (F5 : (dsy (dsy s2) < ddM s2)%nat) by nlt. assert (F6 : (dd3 s2 < ddM s1)%nat) by nlt.
  assert (F8 : (dne s1 < dnn s1)%nat) by nlt. assert (F9 : (dne s2 < dnn s2)%nat) by nlt. assert (F10 : (dsy s2 < dsy (dd3 s2))%nat) by nlt.
  apply (sub_group [] [dsy s2] [dd3 s2; ddM s1] [] []); [seg_go|seg_go|seg_go|seg_go|seg_go|tot_go].
Qed.
Lemma case_plus_near : (s2 < s1)%nat -> (dne s1 < dnn s2)%nat ->
  spkK c ex ord KM (sb_output_plus m) [dd3 s2; ddM s1] /\ spkK c ex ord KM (sb_output_minus m) [].
Proof.
  intros Hx Hw. pose proof d_pos' as D0. destruct h_small as (h1 & h2 & h3 & h4). pose proof (bpow_gt_0 radix2 (-12)) as P0.
  destruct sub_steps as (SK & (E1 & E1') & (E2 & E2') & (N1 & N1') & (N2 & N2') & (W1 & W1') & (W2 & W2') & (Q1 & Q1') & (Q2 & Q2') & (R1 & R1') & (R2 & R2')).
  destruct (b_neu (dne s1)) as (Z1 & Z1'); [lia|lra|].
  destruct (b_syn (dd3 s2)) as (J1 & J1'); [lia|lra|]. destruct (b_syn (ddM s1)) as (J2 & J2'); [lia|lra|].
  assert (Hw' : INR (dne s1) * d < INR (dnn s2) * d) by (apply Rmult_lt_compat_r; [lra|apply lt_INR; auto]).
  assert (Hs' : INR s2 * d + d <= INR s1 * d).
  { replace (INR s2 * d + d) with (INR (s2 + 1) * d) by (rewrite plus_INR; cbn [INR]; ring). apply Rmult_le_compat_r; [lra|apply le_INR; lia]. }
  assert (F1 : (dsy s2 <= dsy s1)%nat) by nle. assert (F2 : (dsy s1 < dsy (ddM s1))%nat) by nlt. assert (F3 : (dsy (dd3 s2) < dsy (ddM s1))%nat) by nlt.
  assert (F4 : (dne (dne s1) < dsy s2)%nat) by nlt. assert (F5 : (dnn s2 <= dne (dne s1))%nat) by nle. assert (F6 : (dd3 s2 < ddM s1)%nat) by nlt.
  assert (F7 : (dne s2 <= dne s1)%nat) by nle. assert (F8 : (dnn s2 <= dnn s1)%nat) by nle. assert (F9 : (dsy s2 < dd3 s1)%nat) by nlt.
  assert (F10 : (dsy s2 < ddM s2)%nat) by nlt. assert (F11 : (dne s1 < dnn s1)%nat) by nlt. assert (F12 : (dne s2 < dnn s2)%nat) by nlt.
  assert (F13 : (dsy s1 < dsy (dd3 s2))%nat) by nlt.
  apply (sub_group [] [] [dd3 s2; ddM s1] [] [dne s1]); [seg_go|seg_go|seg_go|seg_go|seg_go|tot_go].
Qed.
Lemma case_zero : s1 = s2 ->
  spkK c ex ord KM (sb_output_plus m) [dd3 s2; ddM s1] /\ spkK c ex ord KM (sb_output_minus m) [].
Proof.
  intros Hx. pose proof d_pos' as D0. destruct h_small as (h1 & h2 & h3 & h4). pose proof (bpow_gt_0 radix2 (-12)) as P0.
  destruct sub_steps as (SK & (E1 & E1') & (E2 & E2') & (N1 & N1') & (N2 & N2') & (W1 & W1') & (W2 & W2') & (Q1 & Q1') & (Q2 & Q2') & (R1 & R1') & (R2 & R2')).
  destruct (b_neu (dne s1)) as (Z1 & Z1'); [lia|lra|]. destruct (b_neu (dne (dne s1))) as (Z2 & Z2'); [lia|lra|].
  destruct (b_syn (dd3 s2)) as (J1 & J1'); [lia|lra|]. destruct (b_syn (ddM s1)) as (J2 & J2'); [lia|lra|].
  assert (U1 : dne s2 = dne s1) by congruence. assert (U2 : dsy s2 = dsy s1) by congruence. assert (U3 : dnn s2 = dnn s1) by congruence.
  assert (Hs' : INR s2 * d = INR s1 * d) by (rewrite Hx; reflexivity). assert (U4 : dd3 s2 = dd3 s1) by congruence. assert (U5 : ddM s2 = ddM s1) by congruence.
  assert (F2 : (dsy s1 < dsy (ddM s1))%nat) by nlt. assert (F6 : (dd3 s1 < ddM s1)%nat) by nlt.
  assert (Hq : INR (dd3 s1) * d + d <= INR (ddM s1) * d).
  { replace (INR (dd3 s1) * d + d) with (INR (dd3 s1 + 1) * d) by (rewrite plus_INR; cbn [INR]; ring). apply Rmult_le_compat_r; [lra|apply le_INR; lia]. }
  rewrite U4 in J1, J1'. assert (F3 : (dsy (dd3 s1) <= dsy (ddM s1))%nat) by nle.
  assert (F4 : (dne (dne (dne s1)) < dsy s1)%nat) by nlt. assert (F5 : (dnn s1 < dne (dne (dne s1)))%nat) by nlt. 
  assert (F9 : (dsy s1 < dd3 s1)%nat) by nlt. assert (F11 : (dne s1 < dnn s1)%nat) by nlt. 
  assert (F13 : (dsy s1 < dsy (dd3 s1))%nat) by nlt. rewrite U4.
  destruct (le_lt_dec (dnn s1) (dne (dne s1))) as [L|L].
  - apply (sub_group [] [] [dd3 s1; ddM s1] [] [dne s1]); [seg_go|seg_go|seg_go|seg_go|seg_go|tot_go].
  - apply (sub_group [] [] [dd3 s1; ddM s1] [] [dne s1; dne (dne s1)]); [seg_go|seg_go|seg_go|seg_go|seg_go|tot_go].
Qed.
End Sub.

Lemma seq_nodes_lt (l : list nat) b n : l = seq b n -> forall x, In x l -> (b <= x < b + n)%nat.
Proof. intros -> x Hx. apply in_seq in Hx. lia. Qed.

Lemma fadd_mono a b a' b' : fin a -> fin b -> fin a' -> fin b' -> 0 <= FR a -> 0 <= FR b -> FR a <= FR a' -> FR b <= FR b' -> FR a' + FR b' <= p2 60 -> FR (nadd a b) <= FR (nadd a' b').
Proof.
  intros F1 F2 F3 F4 H1 H2 H3 H4 H. assert (B : p2 60 <= big) by (apply p2_big; lia). cbn [nadd F_num].
  rewrite (proj1 (add_FR a b F1 F2 ltac:(apply Rabs_pos_le; lra))), (proj1 (add_FR a' b' F3 F4 ltac:(apply Rabs_pos_le; lra))). apply rnd_le. lra.
Qed.
Lemma tb_mono tmin tcod x x' t0 : fin tmin -> fin tcod -> fin x -> fin x' -> fin t0 -> 0 <= FR tmin -> 0 <= FR tcod -> FR tmin + FR tcod <= p2 12 ->
  0 <= FR x' <= 1 -> 0 <= FR x -> FR x <= FR x' -> 0 <= FR t0 <= p2 15 ->
  FR (nadd t0 (nadd tmin (nmul x tcod))) <= FR (nadd t0 (nadd tmin (nmul x' tcod))).
Proof.
  intros F1 F2 F3 F4 F5 Hm Hc Hs Hx' Hx Hxx H0. assert (C12 : p2 12 <= p2 14) by (apply bpow_le; lia).
  destruct (interval_F tmin tcod x) as [_ (I1 & I2 & I3)]; auto; try lra. destruct (interval_F tmin tcod x') as [_ (J1 & J2 & J3)]; auto; try lra.
  assert (P : p2 15 + p2 14 <= p2 60 /\ p2 14 <= p2 60) by (cbn; lra).
  assert (Px : 0 <= FR x * FR tcod) by (apply Rmult_le_pos; lra). assert (Pxx : FR x * FR tcod <= FR x' * FR tcod) by (apply Rmult_le_compat_r; lra).
  assert (Py : FR x' * FR tcod <= FR tcod) by (rewrite <- (Rmult_1_l (FR tcod)) at 2; apply Rmult_le_compat_r; lra).
  assert (B : p2 14 <= big) by (apply p2_big; lia).
  destruct (mul_FR x tcod F3 F2) as [M1 M2]; [apply Rabs_pos_le; lra|]. destruct (mul_FR x' tcod F4 F2) as [M3 M4]; [apply Rabs_pos_le; lra|].
  assert (L : FR (nmul x tcod) <= FR (nmul x' tcod)) by (cbn [nmul F_num]; rewrite M1, M3; apply rnd_le; lra).
  assert (L0 : 0 <= FR (nmul x tcod)) by (cbn [nmul F_num]; rewrite M1; apply rnd_pos; lra).
  assert (L1 : FR (nmul x' tcod) <= FR tcod) by (cbn [nmul F_num]; rewrite M3; apply rnd_le_fmt; lra).
  apply fadd_mono; auto; try lra. apply fadd_mono; auto; lra.
Qed.

(** ** the user's script *)
Section Run.
Variables (tmin tcod x1 x2 dt t0 T : float) (ord : nat -> list nat -> list nat).
Hypothesis Ftmin : fin tmin. Hypothesis Ftcod : fin tcod. Hypothesis Fx1 : fin x1. Hypothesis Fx2 : fin x2.
Hypothesis Fdt : fin dt. Hypothesis Ft0 : fin t0. Hypothesis FT : fin T.
Hypothesis Hdt : p2 (-12) <= FR dt <= / 256.
Hypothesis Htmin : FR dt + p2 (-30) <= FR tmin. Hypothesis Htcod : p2 (-20) <= FR tcod.
Hypothesis Hsum : FR tmin + FR tcod <= p2 12.
Hypothesis Hx1 : 0 <= FR x1 <= 1. Hypothesis Hx2 : 0 <= FR x2 <= 1.
Hypothesis Ht0 : 0 <= FR t0.
Hypothesis HT : FR t0 + 2 * FR tmin + FR tcod + 7 <= FR T <= p2 15.
Hypothesis HO : ord_ok ord.
Let enc := DataEncoder tmin tcod.
Let stims := fun m => [FValue x1 (sb_input1 m) t0; FValue x2 (sb_input2 m) t0].

Lemma sub64_run nm : exists m s, session64 (SubtractorNetwork enc nm) sb_mod enc dt stims ord T = Ok (m, s) /\
  (FR x2 <= FR x1 -> emits64 s (sb_output_plus m) enc (FR x1 - FR x2) ((2 * FR dt + p2 (-30)) / FR tcod) /\ spike_log s (sb_output_minus m) = []) /\
  (/ 100 + FR dt + p2 (-30) <= (FR x2 - FR x1) * FR tcod ->
     emits64 s (sb_output_minus m) enc (FR x2 - FR x1) ((2 * FR dt + p2 (-30)) / FR tcod) /\ spike_log s (sb_output_plus m) = []).
Proof.
  pose proof (bpow_gt_0 radix2 (-12)) as P12. pose proof (bpow_gt_0 radix2 (-20)) as P20. pose proof (bpow_gt_0 radix2 (-30)) as P30.
  assert (C12 : p2 12 = 4096) by (cbn; lra). assert (C14 : p2 12 <= p2 14) by (apply bpow_le; lia).
  assert (C15 : p2 15 = 32768) by (cbn; lra). assert (C16 : p2 16 = 65536) by (cbn; lra).
  destruct (Subtractor_built enc nm empty_world inv_empty) as (m & w & E & HB & HN & HL).
  cbn [w_neurons empty_world length Nat.add] in HN, HL.
  destruct (value_ext tmin tcod x1 t0) as (X1 & X2 & X3 & X4 & X5); auto; try lra.
  destruct (value_ext tmin tcod x2 t0) as (_ & _ & Y3 & Y4 & Y5); auto; try lra.
  set (ta := nadd t0 nzero) in *. set (tb1 := nadd t0 (nadd tmin (nmul x1 tcod))) in *. set (tb2 := nadd t0 (nadd tmin (nmul x2 tcod))) in *.
  assert (PX1 : 0 <= FR x1 * FR tcod <= FR tcod). { split; [apply Rmult_le_pos; lra|]. rewrite <- (Rmult_1_l (FR tcod)) at 2. apply Rmult_le_compat_r; lra. }
  assert (PX2 : 0 <= FR x2 * FR tcod <= FR tcod). { split; [apply Rmult_le_pos; lra|]. rewrite <- (Rmult_1_l (FR tcod)) at 2. apply Rmult_le_compat_r; lra. }
  destruct d3_F as (DD1 & DD2 & DD3).
  destruct (add_small tmin sb_d3 15) as (DM1 & DM2 & DM3); auto; try lra; try lia.
  change (15 - 54)%Z with (-39)%Z in DM2. set (dM := nadd tmin (sb_d3 (T := float))) in *.
  assert (EM : Rabs (FR dM - (FR tmin + (3 + / 50))) <= p2 (-37)).
  { assert (p2 (-39) + p2 (-48) <= p2 (-37)) by (cbn; lra). apply Rabs_le_inv in DM2, DD2. apply Rabs_le. lra. }
  destruct cTsyn_F as [T1 T2]. destruct cTneu_F as (N1 & _ & N2). destruct twice_Tneu_F as (NN1 & _ & NN2).
  assert (LT : forall n, In n (sb_nodes m) -> (n < 9)%nat) by (intros n Hn; pose proof (seq_nodes_lt _ _ _ HN n Hn); lia).
  destruct (session64_ok (SubtractorNetwork enc nm) sb_mod m w _ enc dt stims ord T E HB)
    as (c & KM & OK & C1 & C2 & C3 & C4 & C5); auto; try lra.
  { constructor; [split; auto|constructor; [split; auto|constructor]]. }
  { intros y Hy. unfold sb_syns in Hy.
    repeat (destruct Hy as [<-|Hy]; [cbn [s_delay syn]; match goal with
      | |- fin cTsyn /\ _ => rewrite T2; split; [exact T1|lra] | |- fin cTneu /\ _ => split; [exact N1|lra] | |- fin (twice cTneu) /\ _ => split; [exact NN1|lra]
      | |- fin sb_d3 /\ _ => split; [exact DD1|lra] | |- fin (nadd _ _) /\ _ => split; [exact DM1|change (nadd (Tmin enc) sb_d3) with dM; lra] end|]). destruct Hy. }
  { assert (L1 : (sb_input1 m < length (w_neurons w))%nat) by (pose proof (LT (sb_input1 m) ltac:(cbn; auto)); lia).
    assert (L2 : (sb_input2 m < length (w_neurons w))%nat) by (pose proof (LT (sb_input2 m) ltac:(cbn; auto)); lia).
    intros n t [Y|[Y|[Y|[Y|[]]]]]; injection Y as <- <-.
    - change (fin ta /\ 0 <= FR ta <= p2 16 /\ (sb_input1 m < length (w_neurons w))%nat). split; [auto|]. split; [lra|lia].
    - change (fin tb1 /\ 0 <= FR tb1 <= p2 16 /\ (sb_input1 m < length (w_neurons w))%nat). split; [auto|]. split; [lra|lia].
    - change (fin ta /\ 0 <= FR ta <= p2 16 /\ (sb_input2 m < length (w_neurons w))%nat). split; [auto|]. split; [lra|lia].
    - change (fin tb2 /\ 0 <= FR tb2 <= p2 16 /\ (sb_input2 m < length (w_neurons w))%nat). split; [auto|]. split; [lra|lia]. }
  { assert (X : FR T / FR dt * FR dt = FR T) by (field; lra). apply Rmult_le_reg_r with (FR dt); [lra|].
    replace ((FR T / FR dt - 1) * FR dt) with (FR T / FR dt * FR dt - FR dt) by ring. rewrite X. lra. }
  exists m. eexists. split; [exact C5|]. unfold stims in *. cbv beta in *.
  set (ex := exts64 enc [FValue x1 (sb_input1 m) t0; FValue x2 (sb_input2 m) t0]) in *.
  pose proof HN as HN'. unfold sb_nodes in HN'. nodes_eqs HN'.
  set (d := FR dt) in *. assert (Ed : FR (c_dt c) = d) by (rewrite C2; reflexivity).
  assert (Pd : 0 < d) by lra.
  assert (EX : forall n, extsp ex n = (if (n =? sb_input1 m)%nat then [ta; tb1] else []) ++ (if (n =? sb_input2 m)%nat then [ta; tb2] else [])).
  { intros n. unfold extsp, ex. cbn [exts64 stim_ext64 flat_map app filter fst]. rewrite (Nat.eqb_sym n), (Nat.eqb_sym n).
    change (Tmin enc) with tmin. change (Tcod enc) with tcod. fold ta tb1 tb2.
    destruct (sb_input1 m =? n)%nat, (sb_input2 m =? n)%nat; reflexivity. }
  assert (IN : forall n, insyn c n = filter (fun y => (s_post y =? n)%nat) (sb_syns enc m)).
  { intros n. unfold insyn. rewrite C1, C3. reflexivity. }
  assert (NN : length (w_neurons (c_world c)) = 9%nat) by (rewrite C1; lia).
  assert (Eta : 16 * eta <= p2 (-30) /\ 0 < eta /\ 2 * p2 (-37) = eta /\ p2 (-30) * 16 <= p2 (-12) /\ p2 (-35) = 2 * eta) by (unfold eta; cbn; lra).
  apply Rabs_le_inv in X4, Y4.
  destruct (dext_bounds c ex ord KM OK cTsyn ta T1) as (A1 & A2); auto; try (rewrite ?T2, ?Ed; lra).
  destruct (dext_bounds c ex ord KM OK cTsyn tb1 T1) as (A3 & A4); auto; try (rewrite ?T2, ?Ed; lra).
  destruct (dext_bounds c ex ord KM OK cTsyn tb2 T1) as (A5 & A6); auto; try (rewrite ?T2, ?Ed; lra).
  rewrite ?T2, ?Ed in A2, A4, A6.
  set (a := dext c KM cTsyn ta) in *. set (s1 := dext c KM cTsyn tb1) in *. set (s2 := dext c KM cTsyn tb2) in *.
  assert (Ha1 : (a < s1)%nat) by (apply (lt_steps _ _ d); auto; lra).
  assert (Ha2 : (a < s2)%nat) by (apply (lt_steps _ _ d); auto; lra).
  assert (B16 : 0 <= FR (cTsyn (T := float)) <= p2 16) by (rewrite T2; lra).
  assert (AI1 : arrK c ex ord KM (sb_input1 m) cTsyn [a; s1]).
  { pose proof (arr_ext c ex ord KM OK (sb_input1 m) cTsyn T1 B16 ltac:(lia)) as Y. rewrite EX in Y.
    rewrite Nat.eqb_refl in Y. destruct (Nat.eqb_spec (sb_input1 m) (sb_input2 m)); [lia|]. apply Y. rewrite IN. apply (into_in1 m enc 0 HN). }
  assert (AI2 : arrK c ex ord KM (sb_input2 m) cTsyn [a; s2]).
  { pose proof (arr_ext c ex ord KM OK (sb_input2 m) cTsyn T1 B16 ltac:(lia)) as Y. rewrite EX in Y.
    rewrite Nat.eqb_refl in Y. destruct (Nat.eqb_spec (sb_input2 m) (sb_input1 m)); [lia|]. apply Y. rewrite IN. apply (into_in2 m enc 0 HN). }
  assert (S1 : spkK c ex ord KM (sb_sync1 m) [s1]).
  { apply (last_spk c ex ord KM OK (sb_sync1 m) (sb_input1 m) a s1); [lia| |exact AI1|lia]. rewrite IN. apply (into_sync1 m enc 0 HN). }
  assert (S2 : spkK c ex ord KM (sb_sync2 m) [s2]).
  { apply (last_spk c ex ord KM OK (sb_sync2 m) (sb_input2 m) a s2); [lia| |exact AI2|lia]. rewrite IN. apply (into_sync2 m enc 0 HN). }
  assert (HX : forall n, In n [sb_sync1 m; sb_sync2 m; sb_inb1 m; sb_inb2 m; sb_output_plus m; sb_output_minus m; sb_zero m] -> extsp ex n = []).
  { intros n Hn. assert (Q : (2 <= n)%nat) by (cbn [In] in Hn; lia). rewrite EX.
    destruct (Nat.eqb_spec n (sb_input1 m)); [lia|]. destruct (Nat.eqb_spec n (sb_input2 m)); [lia|]. reflexivity. }
  assert (EM' : Rabs (FR (nadd (Tmin enc) sb_d3) - (FR (Tmin enc) + (3 + / 50))) <= p2 (-37)) by exact EM.
  assert (Hd' : FR (c_dt c) <= / 256) by (rewrite Ed; lra).
  assert (Htm' : FR (c_dt c) + p2 (-30) <= FR (Tmin enc)) by (rewrite Ed; exact Htmin).
  assert (Ee1 : INR s1 * FR (c_dt c) + FR (Tmin enc) + 5 <= INR KM * FR (c_dt c)) by (rewrite Ed; change (FR (Tmin enc)) with (FR tmin); lra).
  assert (Ee2 : INR s2 * FR (c_dt c) + FR (Tmin enc) + 5 <= INR KM * FR (c_dt c)) by (rewrite Ed; change (FR (Tmin enc)) with (FR tmin); lra).
  assert (Hs : (1 <= s1 /\ 1 <= s2)%nat) by lia.
  assert (HL9 : (0 + 9 <= length (w_neurons (c_world c)))%nat) by lia.
  pose proof (case_minus c ex ord KM OK m enc DM1 DM3 0 HN HL9 IN HX s1 s2 Hs S1 S2 Hd' Htm' EM' Ee1 Ee2) as CM.
  pose proof (case_plus_far c ex ord KM OK m enc DM1 DM3 0 HN HL9 IN HX s1 s2 Hs S1 S2 Hd' Htm' EM' Ee1 Ee2) as CF.
  pose proof (case_plus_near c ex ord KM OK m enc DM1 DM3 0 HN HL9 IN HX s1 s2 Hs S1 S2 Hd' Htm' EM' Ee1 Ee2) as CN.
  pose proof (case_zero c ex ord KM OK m enc DM1 DM3 0 HN HL9 IN HX s1 s2 Hs S1 S2 Hd' Htm' EM' Ee1 Ee2) as CZ.
  pose proof (sub_steps c ex ord KM OK enc DM1 DM3 0 HL9 s1 s2 Hs Htm' EM' Ee1 Ee2) as ST.
  cbv zeta in ST. rewrite Ed in ST, CM. change (nadd (Tmin enc) sb_d3) with dM in CM, CF, CN, CZ, ST. change (FR (Tmin enc)) with (FR tmin) in ST.
  destruct ST as (SK & _ & _ & _ & _ & _ & _ & (Q1 & Q1') & (Q2 & Q2') & (R1 & R1') & (R2 & R2')).
  set (q1 := dspk c KM sb_d3 s1) in *. set (q2 := dspk c KM sb_d3 s2) in *. set (r1 := dspk c KM dM s1) in *. set (r2 := dspk c KM dM s2) in *.
  assert (EE : (2 * d + p2 (-30)) / FR tcod = (2 * d + (p2 (-30) - p2 (-35)) + p2 (-35)) / FR tcod) by (f_equal; ring).
  assert (EMP : forall n, In n [sb_sync1 m; sb_sync2 m; sb_inb1 m; sb_inb2 m; sb_output_plus m; sb_output_minus m; sb_zero m] -> spkK c ex ord KM n [] ->
     spike_log (fst (rs c ex ord KM)) n = []).
  { intros n Hn Sn. change (@nil float) with (map (tt c) []). apply (spike_log_of c ex ord KM OK); auto; [cbn [In] in Hn; lia|exact I|intros k []]. }
  split.
  - intros Hxx. assert (Hss : (s2 <= s1)%nat).
    { unfold s1, s2, dext. destruct (add_time c ex ord KM OK tb2 cTsyn Y3 T1 Y5 B16) as [G1 _]. destruct (add_time c ex ord KM OK tb1 cTsyn X3 T1 X5 B16) as [G2 _].
      apply (dstep_mono c ex ord KM); auto. assert (C60 : p2 16 + 1 <= p2 60) by (cbn; lra). apply fadd_mono; auto; try lra. apply tb_mono; auto; lra. }
    assert (SP : spkK c ex ord KM (sb_output_plus m) [q2; r1] /\ spkK c ex ord KM (sb_output_minus m) []).
    { destruct (Nat.eq_dec s1 s2) as [e|ne]; [apply CZ, e|]. destruct (le_lt_dec (dspk c KM (twice cTneu) s2) (dspk c KM cTneu s1)) as [l|l]; [apply CF; [lia|exact l]|apply CN; [lia|exact l]]. }
    destruct SP as [SP SM]. split; [|apply EMP; [cbn; tauto|exact SM]].
    assert (Hsd : INR s2 * d <= INR s1 * d) by (apply Rmult_le_compat_r; [lra|apply le_INR; auto]).
    assert (Hqr : (q2 < r1)%nat) by (apply (lt_steps _ _ d); auto; lra).
    assert (LG : spike_log (fst (rs c ex ord KM)) (sb_output_plus m) = map (tt c) [q2; r1]).
    { apply (spike_log_of c ex ord KM OK); auto; [lia|apply HX; cbn; tauto|cbn; lia|]. intros j [<-|[<-|[]]]; lia. }
    rewrite EE. apply (emits64_intro c ex ord KM _ _ tmin tcod q2 r1); auto; try lia; try lra.
    rewrite Ed. apply Rabs_le. rewrite Rmult_minus_distr_r, Rmult_minus_distr_r. lra.
  - intros Hxx. rewrite Rmult_minus_distr_r in Hxx. destruct CM as [SP SM]; [lra|].
    split; [|apply EMP; [cbn; tauto|exact SP]].
    assert (Hqr : (q1 < r2)%nat) by (apply (lt_steps _ _ d); auto; lra).
    assert (LG : spike_log (fst (rs c ex ord KM)) (sb_output_minus m) = map (tt c) [q1; r2]).
    { apply (spike_log_of c ex ord KM OK); auto; [lia|apply HX; cbn; tauto|cbn; lia|]. intros j [<-|[<-|[]]]; lia. }
    assert (Hx21 : 0 <= FR x2 - FR x1).
    { destruct (Rle_dec (FR x1) (FR x2)); [lra|]. exfalso. assert (FR x2 * FR tcod <= FR x1 * FR tcod) by (apply Rmult_le_compat_r; lra). lra. }
    rewrite EE. apply (emits64_intro c ex ord KM _ _ tmin tcod q1 r2); auto; try lia; try lra.
    rewrite Ed. apply Rabs_le. rewrite Rmult_minus_distr_r, Rmult_minus_distr_r. lra.
Qed.
End Run.
