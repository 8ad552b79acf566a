(** SignedMultiplierNetwork on PredSimulator (C58). *)
From Coq Require Import Arith ZArith Bool List Reals Lra Lia Permutation Sorted.
From Verif Require Import Num NumOrd Heapq Elements Networks CancelQueue PredSim PredNeuron NeuronLib NetLib Build BuildNets Trace SimTrace TraceProps Bridge Session SimpleNets InvMem ExpLog PredProofs PredRun PredNet PredMem PredFun PredGroup PredSub PredSimple PredMul.
Import ListNotations.
Open Scope list_scope.
Open Scope R_scope.

(** mul_net 0..11; input1_plus 12, input1_minus 13, input2_plus 14, input2_minus 15, output_plus 16, output_minus 17, zero 18, sign1..sign4 19..22 *)
Definition sgn_num : list (synapse R) :=
  [syn 12 0 SynV 10 1; syn 13 0 SynV 10 1; syn 14 1 SynV 10 1; syn 15 1 SynV 10 1;
   syn 12 19 SynV (10 / 4) 1; syn 12 21 SynV (10 / 4) 1; syn 13 20 SynV (10 / 4) 1; syn 13 22 SynV (10 / 4) 1;
   syn 14 19 SynV (10 / 4) 1; syn 14 20 SynV (10 / 4) 1; syn 15 21 SynV (10 / 4) 1; syn 15 22 SynV (10 / 4) 1;
   syn 19 20 SynV (-5) 1; syn 19 21 SynV (-5) 1; syn 20 19 SynV (-5) 1; syn 20 22 SynV (-5) 1;
   syn 21 19 SynV (-5) 1; syn 21 22 SynV (-5) 1; syn 22 20 SynV (-5) 1; syn 22 21 SynV (-5) 1;
   syn 11 16 SynV 10 1; syn 11 17 SynV 10 1;
   syn 19 17 SynV (-20) 1; syn 20 16 SynV (-20) 1; syn 21 16 SynV (-20) 1; syn 22 17 SynV (-20) 1].
Definition szero_num (tmin : R) : list (synapse R) :=
  [syn 12 18 SynV (10 / 4) 350; syn 13 18 SynV (10 / 4) 350; syn 14 18 SynV (10 / 4) 350; syn 15 18 SynV (10 / 4) 350;
   syn 16 18 SynV (-10 / 2) 1; syn 17 18 SynV (-10 / 2) 1; syn 18 16 SynV 10 1; syn 18 16 SynV 10 (1 + tmin)].
Definition sx_num (tmin tcod : R) := mu_num tmin tcod ++ sgn_num ++ szero_num tmin.
Lemma sx_syns_R tmin tcod a b : tcod <> 0 ->
  sx_syns (DataEncoder tmin tcod) (Build_smult_net a (Build_mul_net b 0 1 2 3 4 5 6 7 8 9 10 11) 12 13 14 15 16 17 18 19 20 21 22) = sx_num tmin tcod.
Proof.
  intros H. unfold sx_syns, sx_num. cbn [sx_mn]. rewrite (mu_syns_R tmin tcod b H). f_equal. unfold sign_syns, sout_syns, sgn_num, szero_num, max_prop_delay.
  cbn [sx_mn mu_input1 mu_input2 mu_output sx_input1_plus sx_input1_minus sx_input2_plus sx_input2_minus sx_output_plus sx_output_minus sx_zero sx_sign1 sx_sign2 sx_sign3 sx_sign4 app].
  consts. repeat (f_equal; try lra).
Qed.
Section SMul.
Variables tmin tcod dt x1 x2 t1 t2 : R. Variables p1 p2 : bool.
Hypothesis Hdt : 0 < dt. Hypothesis HM : (horizon dt < 2 ^ 64)%Z. Hypothesis Hd5 : dt <= 500.
Hypothesis Htc : 0 < tcod. Hypothesis Htm : 1 < tmin. Hypothesis H5 : tcod + 2 * dt <= 500.
Hypothesis Hx1 : 0 <= x1 < 1. Hypothesis Hx2 : 0 <= x2 < 1. Hypothesis Ht1 : 0 <= t1. Hypothesis Ht2 : 0 <= t2.
Let b1 := t1 + (tmin + x1 * tcod). Let b2 := t2 + (tmin + x2 * tcod).
Definition sx_M : R := mu_last tmin tcod x1 x2 (t1 + 1) (t2 + 1).
Let M := sx_M.
Lemma sx_bs : t1 + tmin <= b1 /\ t2 + tmin <= b2 /\ b1 + 1 <= M /\ b2 + 1 <= M /\ (M = b1 + 1 \/ M = b2 + 1) /\ mb tmin tcod (t1 + 1) x1 = b1 + 1 /\ mb tmin tcod (t2 + 1) x2 = b2 + 1.
Proof.
  assert (E1 : mb tmin tcod (t1 + 1) x1 = b1 + 1) by (unfold mb, b1; lra). assert (E2 : mb tmin tcod (t2 + 1) x2 = b2 + 1) by (unfold mb, b2; lra).
  pose proof (mbs tmin tcod x1 x2 (t1 + 1) (t2 + 1) Htc ltac:(lra) ltac:(lra)) as (B1 & B2 & B3 & B4 & B5). rewrite E1, E2 in *. fold M in B3, B4, B5. unfold M, sx_M in *. lra.
Qed.
Definition both (p : bool) (a b : R) : list R := if p then [a; b] else [].
Definition sx_F (core : nat -> list R) (op om z : list R) (n : nat) : list R :=
  match n with
  | 12%nat => both p1 t1 b1 | 13%nat => both (negb p1) t1 b1 | 14%nat => both p2 t2 b2 | 15%nat => both (negb p2) t2 b2
  | 16%nat => op | 17%nat => om | 18%nat => z
  | 19%nat => if p1 && p2 then [M] else [] | 20%nat => if negb p1 && p2 then [M] else [] | 21%nat => if p1 && negb p2 then [M] else [] | 22%nat => if negb p1 && negb p2 then [M] else []
  | _ => core n end.
Definition sx_ins : list (nat * R) :=
  let i1 := if p1 then 12%nat else 13%nat in let i2 := if p2 then 14%nat else 15%nat in [(i1, t1); (i1, b1); (i2, t2); (i2, b2)].
(** four quarters *)
Lemma quarters d (W : list (R * (syntype * R))) : 0 <= d -> (forall h, In h W -> M - 1 + d < fst h) -> resp dt (pn 0 0 (M - 1 + d)) W [] ->
  resp dt rest0 ([(t1 + d, (SynV, 10 / 4)); (b1 + d, (SynV, 10 / 4)); (t2 + d, (SynV, 10 / 4)); (b2 + d, (SynV, 10 / 4))] ++ W) [M - 1 + d].
Proof.
  intros Hd HW HR. pose proof sx_bs as (B1 & B2 & B3 & B4 & B5 & _). rewrite rest0_pn.
  destruct (Rtotal_order b1 b2) as [C|[C|C]].
  - assert (M = b2 + 1) as E by lra. 
    eapply resp_perm; [|apply (resp_fire _ Hdt HM [(t1 + d, (SynV, 10 / 4)); (t2 + d, (SynV, 10 / 4)); (b1 + d, (SynV, 10 / 4))] [(b2 + d, (SynV, 10 / 4))] W 0 0 (M - 1 + d)); [lra|inl|lra|intros; usum|discriminate|inl|lra|usum|exact HW|exact HR]].
    rewrite app_assoc. apply Permutation_app_tail. cbn [app]. perms.
  - assert (M = b2 + 1) as E by lra.
    eapply resp_perm; [|apply (resp_fire _ Hdt HM [(t1 + d, (SynV, 10 / 4)); (t2 + d, (SynV, 10 / 4))] [(b1 + d, (SynV, 10 / 4)); (b2 + d, (SynV, 10 / 4))] W 0 0 (M - 1 + d)); [lra|inl|lra|intros; usum|discriminate|inl|lra|usum|exact HW|exact HR]].
    rewrite app_assoc. apply Permutation_app_tail. cbn [app]. perms.
  - assert (M = b1 + 1) as E by lra.
    eapply resp_perm; [|apply (resp_fire _ Hdt HM [(t1 + d, (SynV, 10 / 4)); (t2 + d, (SynV, 10 / 4)); (b2 + d, (SynV, 10 / 4))] [(b1 + d, (SynV, 10 / 4))] W 0 0 (M - 1 + d)); [lra|inl|lra|intros; usum|discriminate|inl|lra|usum|exact HW|exact HR]].
    rewrite app_assoc. apply Permutation_app_tail. cbn [app]. perms.
Qed.
Ltac ends := match goal with
  | |- resp _ _ [] [] => apply none; auto
  | |- resp _ _ [_; _] [_; _] => apply relay2; auto; lra
  | |- resp _ _ [_; _; _] [] => rewrite rest0_pn; rsilent Hdt HM
  | |- resp _ _ [_] [] => rewrite rest0_pn; rsilent Hdt HM
  end.
Lemma sx_out O1 O2 : M + 1 < O1 -> O1 < O2 ->
  resp dt rest0 [(O1, (SynV, 10)); (O2, (SynV, 10))] [O1; O2] /\ resp dt rest0 [(O1, (SynV, 10)); (O2, (SynV, 10)); (M + 1, (SynV, -20))] [] .
Proof. intros H1 H2. pose proof sx_bs as (B1 & B2 & B3 & B4 & B5 & _). split; [apply relay2; auto; lra|rewrite rest0_pn; rsilent Hdt HM]. Qed.
(** all but the outputs and the zero detector *)
Lemma sx_rest (core : nat -> list R) op om z n : (forall n, (n < 12)%nat -> resp dt rest0 (received 10 (mu_num tmin tcod) (mu_ins tmin tcod x1 x2 (t1 + 1) (t2 + 1)) core n) (core n)) ->
  core 0%nat = [t1 + 1; mb tmin tcod (t1 + 1) x1] -> core 1%nat = [t2 + 1; mb tmin tcod (t2 + 1) x2] ->
  (n < 23)%nat -> n <> 16%nat -> n <> 17%nat -> n <> 18%nat -> resp dt rest0 (received 10 (sx_num tmin tcod) sx_ins (sx_F core op om z) n) (sx_F core op om z n).
Proof.
  intros HC C0 C1 Hn N1 N2 N3. pose proof sx_bs as (B1 & B2 & B3 & B4 & B5 & E1 & E2). rewrite E1 in C0. rewrite E2 in C1.
  destruct (Nat.lt_ge_cases n 12) as [L|L].
  - assert (HC' := HC n L).
    destruct n as [|[|[|[|[|[|[|[|[|[|[|[|n]]]]]]]]]]]]; [..|exfalso; lia].
    3-12: eapply resp_perm; [|exact HC']; unfold sx_num, mu_num, sgn_num, szero_num, sx_ins, mu_ins; rcbn; cbn [sx_F]; destruct p1, p2; rcbn; apply Permutation_refl.
    + unfold sx_num, mu_num, sgn_num, szero_num, sx_ins; rcbn; cbn [sx_F]. rewrite C0. unfold both. destruct p1, p2; rcbn; cbn [negb map app]; apply relay2; auto; lra.
    + unfold sx_num, mu_num, sgn_num, szero_num, sx_ins; rcbn; cbn [sx_F]. rewrite C1. unfold both. destruct p1, p2; rcbn; cbn [negb map app]; apply relay2; auto; lra.
  - assert (Q : forall W, (forall h, In h W -> M < fst h) -> resp dt (pn 0 0 M) W [] -> resp dt rest0 ([(t1 + 1, (SynV, 10 / 4)); (b1 + 1, (SynV, 10 / 4)); (t2 + 1, (SynV, 10 / 4)); (b2 + 1, (SynV, 10 / 4))] ++ W) [M]).
    { intros W HW HR. pose proof (quarters 1 W) as HQ. replace (M - 1 + 1) with M in HQ by lra. apply HQ; auto. lra. }
    assert (Q0 := Q [] ltac:(intros h []) ltac:(rsilent Hdt HM)). rewrite app_nil_r in Q0.
    do 12 (destruct n as [|n]; [exfalso; lia|]).
    destruct n as [|[|[|[|[|[|[|[|[|[|[|n]]]]]]]]]]]; [..|exfalso; lia]; try congruence; unfold sx_num, mu_num, sgn_num, szero_num, sx_ins; rcbn; cbn [sx_F]; unfold both; destruct p1, p2; rcbn; cbn [negb andb map app].
    all: try exact Q0; try ends.
Qed.

Definition sx_ifplus (p : bool) (l : list R) : list R := if p then l else [].
Let A2 := mu_A2 tmin tcod dt x1 x2 (t1 + 1) (t2 + 1).
Let E := mu_E tmin tcod dt x1 x2 (t1 + 1) (t2 + 1).
Definition sx_pos : nat -> list R :=
  let o := [A2 + 2 + 1; E + (tmin + 1) + 1] in
  sx_F (mu_pos tmin tcod dt x1 x2 (t1 + 1) (t2 + 1)) (sx_ifplus (Bool.eqb p1 p2) o) (sx_ifplus (negb (Bool.eqb p1 p2)) o) [].
Lemma sx_pos_resp n : 0 < x1 -> 0 < x2 -> 20 * (- ln x1 - ln x2) + 2 * dt <= 341 -> (n < 23)%nat ->
  resp dt rest0 (received 10 (sx_num tmin tcod) sx_ins sx_pos n) (sx_pos n).
Proof.
  intros P1 P2 HL Hn. pose proof sx_bs as (B1 & B2 & B3 & B4 & B5 & E1 & E2).
  pose proof (lgD_bounds dt Hdt x1 ltac:(lra)) as D1. pose proof (lgD_bounds dt Hdt x2 ltac:(lra)) as D2.
  pose proof (exK_bounds tcod dt Hdt Htc (lgD dt x1 + lgD dt x2) ltac:(lra)) as HK.
  assert (HA : M + 4 < A2) by (unfold A2, mu_A2; fold sx_M; fold M; lra). assert (HE : A2 + 1 < E) by (unfold E, mu_E; fold A2; lra).
  assert (HA3 : A2 + 4 < M + 349) by (unfold A2, mu_A2; fold sx_M; fold M; lra).
  destruct (sx_out (A2 + 2 + 1) (E + (tmin + 1) + 1) ltac:(lra) ltac:(lra)) as [S1 S2].
  unfold sx_pos. cbv zeta.
  destruct (Nat.eq_dec n 16) as [->|N1]; [|destruct (Nat.eq_dec n 17) as [->|N2]; [|destruct (Nat.eq_dec n 18) as [->|N3]]].
  4:{ apply sx_rest; auto. intros k Hk. apply mu_pos_resp; auto; lra. }
  all: unfold sx_num, mu_num, sgn_num, szero_num, sx_ins; rcbn; cbn [sx_F mu_pos mu_F]; unfold both, sx_ifplus; fold A2 E; destruct p1, p2; rcbn; cbn [negb andb map app Bool.eqb].
  all: try exact S1; try exact S2.
  all: rewrite rest0_pn; rsilent Hdt HM.
Qed.
Definition sx_nul : nat -> list R :=
  let o := [M + 351 + 1; M + 351 + tmin + 1] in
  sx_F (mu_nul tmin tcod dt x1 x2 (t1 + 1) (t2 + 1)) (if Bool.eqb p1 p2 then [M + 350; M + 352; M + 350 + tmin; M + 352 + tmin] else [M + 350 + tmin; M + 352 + tmin])
    (if Bool.eqb p1 p2 then [] else [M + 352; M + 352 + tmin]) [M - 1 + 350].
Lemma sx_nul_resp n : 2 < tmin -> x1 = 0 \/ x2 = 0 -> (0 < x1 -> 20 * - ln x1 + 2 * dt <= 500) -> (n < 23)%nat ->
  resp dt rest0 (received 10 (sx_num tmin tcod) sx_ins sx_nul n) (sx_nul n).
Proof.
  intros Htm2 P HL Hn. pose proof sx_bs as (B1 & B2 & B3 & B4 & B5 & E1 & E2).
  unfold sx_nul. cbv zeta.
  destruct (Nat.eq_dec n 16) as [->|N1]; [|destruct (Nat.eq_dec n 17) as [->|N2]; [|destruct (Nat.eq_dec n 18) as [->|N3]]].
  4:{ apply sx_rest; auto. intros k Hk. apply mu_nul_resp; auto; lra. }
  - assert (RP : resp dt rest0 [(M + 350, (SynV, 10)); (M + 352, (SynV, 10)); (M + 350 + tmin, (SynV, 10)); (M + 352 + tmin, (SynV, 10))] [M + 350; M + 352; M + 350 + tmin; M + 352 + tmin]).
    { apply (relays dt 10 Hdt HM Hd5 ltac:(lra)); [sorted; lra|cbn [map]; apply Permutation_refl]. }
    assert (RM : resp dt rest0 [(M + 350, (SynV, 10)); (M + 352, (SynV, 10)); (M + 350 + tmin, (SynV, 10)); (M + 352 + tmin, (SynV, 10)); (M + 1, (SynV, -20))] [M + 350 + tmin; M + 352 + tmin]).
    { rewrite rest0_pn. rfire Hdt HM [(M + 350, (SynV, 10)); (M + 352, (SynV, 10)); (M + 1, (SynV, -20))] [(M + 350 + tmin, (SynV, 10))] [(M + 352 + tmin, (SynV, 10))].
      rfire Hdt HM (@nil (R * (syntype * R))) [(M + 352 + tmin, (SynV, 10))] (@nil (R * (syntype * R))). rsilent Hdt HM. }
    unfold sx_num, mu_num, sgn_num, szero_num, sx_ins; rcbn; cbn [sx_F mu_nul mu_F]; unfold both; fold sx_M; fold M; destruct p1, p2; rcbn; cbn [negb andb map app Bool.eqb].
    1, 4: eapply resp_perm; [|exact RP]; unfold M, sx_M; perms.
    all: eapply resp_perm; [|exact RM]; unfold M, sx_M; perms.
  - unfold sx_num, mu_num, sgn_num, szero_num, sx_ins; rcbn; cbn [sx_F mu_nul mu_F]; unfold both; fold sx_M; fold M; destruct p1, p2; rcbn; cbn [negb andb map app Bool.eqb].
    1, 4: rewrite rest0_pn; fold sx_M; fold M; rsilent Hdt HM.
    all: eapply resp_perm; [|apply (relay2 dt Hdt HM Hd5 (M + 352) (M + 352 + tmin)); lra]; unfold M, sx_M; perms.
  - unfold sx_num, mu_num, sgn_num, szero_num, sx_ins; rcbn; cbn [sx_F mu_nul mu_F]; unfold both; fold sx_M; fold M; destruct p1, p2; rcbn; cbn [negb andb map app Bool.eqb].
    all: match goal with |- resp _ _ (?a :: ?b :: ?c :: ?d :: ?W) _ => change (a :: b :: c :: d :: W) with ([a; b; c; d] ++ W) end; apply quarters; [lra|inl|rsilent Hdt HM].
Qed.
End SMul.
Section SMulThm.
Variables tmin tcod dt x1 x2 t1 t2 : R. Variables p1 p2 : bool.
Hypothesis HD : dt_ok dt. Hypothesis Htc : 0 < tcod. Hypothesis Htm : 1 < tmin. Hypothesis H5 : tcod + 2 * dt <= 500.
Hypothesis Hx1 : 0 <= x1 < 1. Hypothesis Hx2 : 0 <= x2 < 1. Hypothesis Ht1 : 0 <= t1. Hypothesis Ht2 : 0 <= t2.
Variable stims : smult_net -> list stim.
Definition sx_in1 (m : smult_net) : nat := if p1 then sx_input1_plus m else sx_input1_minus m.
Definition sx_in2 (m : smult_net) : nat := if p2 then sx_input2_plus m else sx_input2_minus m.
Hypothesis HS : forall a mn, let m := Build_smult_net a mn 12 13 14 15 16 17 18 19 20 21 22 in pins (DataEncoder tmin tcod) (stims m) = sx_ins tmin tcod x1 x2 t1 t2 p1 p2 /\ Forall (stim_ok 23) (stims m).
Lemma smul_pred nm F : (forall n, (n < 23)%nat -> resp dt rest0 (received 10 (sx_num tmin tcod) (sx_ins tmin tcod x1 x2 t1 t2 p1 p2) F n) (F n)) ->
  pruns (SignedMultiplierNetwork (DataEncoder tmin tcod) nm) sx_mod (DataEncoder tmin tcod) dt stims
    (fun m s => pspike_log s (sx_output_plus m) = F 16%nat /\ pspike_log s (sx_output_minus m) = F 17%nat).
Proof.
  intros HF. destruct (dt_ok_horizon dt HD) as [Hdt HM]. set (enc := DataEncoder tmin tcod). assert (HTm : tcod <> 0) by lra.
  destruct (SignedMultiplier_built enc nm empty_world inv_empty (neq0 _ HTm)) as (m & w & E & HB & HN & HL).
  cbn [w_neurons empty_world length Nat.add] in HN, HL. destruct m as [a [b i0 i1 i2 i3 i4 i5 i6 i7 i8 i9 i10 i11] i12 i13 i14 i15 i16 i17 i18 i19 i20 i21 i22]. unfold mu_nodes, sx_own in HN. cbn in HN.
  injection HN as -> -> -> -> -> -> -> -> -> -> -> -> -> -> -> -> -> -> -> -> -> -> ->.
  unfold enc in HB. rewrite (sx_syns_R tmin tcod a b HTm) in HB.
  destruct (HS a (Build_mul_net b 0 1 2 3 4 5 6 7 8 9 10 11)) as [EI HSt].
  edestruct (psession_resp (SignedMultiplierNetwork enc nm) sx_mod _ w _ enc dt stims F E HB Hdt HM) as [N HR].
  - rewrite HL. exact HSt.
  - unfold sx_num, mu_num, sgn_num, szero_num. cbn [app]. intros y Hy. repeat (destruct Hy as [<-|Hy]; [cbn; lra|]). destruct Hy.
  - rewrite HL. intros n Hn. unfold enc. rewrite EI. apply HF. lia.
  - exists N. intros fuel Hf. destruct (HR fuel Hf) as (s & Es & HLg). eexists. exists s. split; [exact Es|]. cbn [sx_output_plus sx_output_minus]. split; apply HLg; lia.
Qed.
Lemma smul_pos_gen nm : 0 < x1 -> 0 < x2 -> 20 * (- ln x1 - ln x2) + 2 * dt <= 341 ->
  pruns (SignedMultiplierNetwork (DataEncoder tmin tcod) nm) sx_mod (DataEncoder tmin tcod) dt stims
    (fun m s => pemits s (if Bool.eqb p1 p2 then sx_output_plus m else sx_output_minus m) (DataEncoder tmin tcod) (x1 * x2) (Rmax (dt / tcod) (x1 * x2 * (dt / 10))) /\
                pspike_log s (if Bool.eqb p1 p2 then sx_output_minus m else sx_output_plus m) = []).
Proof.
  intros P1 P2 HL. destruct (dt_ok_horizon dt HD) as [Hdt HM]. assert (Hd5 : dt <= 500) by apply HD.
  destruct (smul_pred nm (sx_pos tmin tcod dt x1 x2 t1 t2 p1 p2)) as [N HN].
  { intros n Hn. apply sx_pos_resp; auto. }
  exists N. intros fuel Hf. destruct (HN fuel Hf) as (m & s & Es & L1 & L2). exists m, s. split; auto. cbn [sx_pos sx_F sx_ifplus] in L1, L2. unfold sx_ifplus in L1, L2.
  pose proof (mul_value tcod dt Hdt Htc x1 x2 ltac:(lra) ltac:(lra)) as HV. pose proof (lgD_bounds dt Hdt x1 ltac:(lra)). pose proof (lgD_bounds dt Hdt x2 ltac:(lra)).
  pose proof (exK_bounds tcod dt Hdt Htc (lgD dt x1 + lgD dt x2) ltac:(lra)) as HK.
  pose proof (Rmax_l (dt / tcod) (x1 * x2 * (dt / 10))) as M1. pose proof (Rmax_r (dt / tcod) (x1 * x2 * (dt / 10))) as M2.
  apply (Rmult_le_compat_r tcod) in M1; [|lra]. apply (Rmult_le_compat_r tcod) in M2; [|lra]. replace (dt / tcod * tcod) with dt in M1 by (field; lra).
  destruct (Bool.eqb p1 p2); cbn [negb] in L1, L2; (split; [|auto]); (eapply pemits_intro; [auto|eassumption|unfold mu_E; lra|]); apply Rabs_le; unfold mu_E; lra.
Qed.
Lemma smul_nul_gen nm : 2 < tmin -> x1 * x2 = 0 -> (0 < x1 -> 20 * - ln x1 + 2 * dt <= 500) ->
  pruns (SignedMultiplierNetwork (DataEncoder tmin tcod) nm) sx_mod (DataEncoder tmin tcod) dt stims
    (fun m s => exists t, pspike_log s (sx_output_plus m) = (if Bool.eqb p1 p2 then [t; t + 2; t + tmin; t + tmin + 2] else [t + tmin; t + tmin + 2]) /\
                          pspike_log s (sx_output_minus m) = (if Bool.eqb p1 p2 then [] else [t + 2; t + tmin + 2])).
Proof.
  intros H2 P HL. destruct (dt_ok_horizon dt HD) as [Hdt HM]. assert (Hd5 : dt <= 500) by apply HD. apply Rmult_integral in P.
  destruct (smul_pred nm (sx_nul tmin tcod dt x1 x2 t1 t2 p1 p2)) as [N HN].
  { intros n Hn. apply sx_nul_resp; auto. }
  exists N. intros fuel Hf. destruct (HN fuel Hf) as (m & s & Es & L1 & L2). exists m, s. split; auto. cbn [sx_nul sx_F] in L1, L2.
  exists (sx_M tmin tcod x1 x2 t1 t2 + 350). rewrite L1, L2. split; destruct (Bool.eqb p1 p2); auto; repeat (f_equal; try lra).
Qed.
End SMulThm.
Ltac smulstims := intros a mn; cbv zeta; unfold sx_ins, sx_in1, sx_in2; cbn [sx_input1_plus sx_input1_minus sx_input2_plus sx_input2_minus]; split;
  [unfold pins, two_spikes; cbn [flat_map pstim app]; consts; rewrite ?Rplus_0_l; reflexivity|
   unfold two_spikes; cbn [app]; repeat match goal with |- context [if ?p then _ else _] => destruct p end; stims_ok].
Theorem pred_signed_multiplier (tmin tcod x1 x2 dt t1 t2 : R) (p1 p2 : bool) nm :
  dt_ok dt -> 0 < tcod -> 1 < tmin -> tcod + 2 * dt <= 500 -> 0 <= t1 -> 0 <= t2 -> 0 < x1 < 1 -> 0 < x2 < 1 -> 20 * (- ln x1 - ln x2) + 2 * dt <= 341 ->
  pruns (SignedMultiplierNetwork (DataEncoder tmin tcod) nm) sx_mod (DataEncoder tmin tcod) dt (fun m => two_spikes tmin tcod (sx_in1 p1 m) x1 t1 ++ two_spikes tmin tcod (sx_in2 p2 m) x2 t2)
    (fun m s => pemits s (if Bool.eqb p1 p2 then sx_output_plus m else sx_output_minus m) (DataEncoder tmin tcod) (x1 * x2) (Rmax (dt / tcod) (x1 * x2 * (dt / 10))) /\
                pspike_log s (if Bool.eqb p1 p2 then sx_output_minus m else sx_output_plus m) = []).
Proof. intros. apply (smul_pos_gen tmin tcod dt x1 x2 t1 t2 p1 p2); auto; try lra. smulstims. Qed.
Theorem pred_signed_multiplier_values (tmin tcod x1 x2 dt t1 t2 : R) (p1 p2 : bool) nm :
  dt_ok dt -> 0 < tcod -> 1 < tmin -> tcod + 2 * dt <= 500 -> 0 < x1 < 1 -> 0 < x2 < 1 -> 20 * (- ln x1 - ln x2) + 2 * dt <= 341 ->
  pruns (SignedMultiplierNetwork (DataEncoder tmin tcod) nm) sx_mod (DataEncoder tmin tcod) dt (fun m => [SValue x1 (sx_in1 p1 m) t1; SValue x2 (sx_in2 p2 m) t2])
    (fun m s => pemits s (if Bool.eqb p1 p2 then sx_output_plus m else sx_output_minus m) (DataEncoder tmin tcod) (x1 * x2) (Rmax (dt / tcod) (x1 * x2 * (dt / 10))) /\
                pspike_log s (if Bool.eqb p1 p2 then sx_output_minus m else sx_output_plus m) = []).
Proof. intros. apply (smul_pos_gen tmin tcod dt x1 x2 0 0 p1 p2); auto; try lra. smulstims. Qed.
Theorem pred_signed_multiplier_zero (tmin tcod x1 x2 dt t1 t2 : R) (p1 p2 : bool) nm :
  dt_ok dt -> 0 < tcod -> 2 < tmin -> tcod + 2 * dt <= 500 -> 0 <= t1 -> 0 <= t2 -> 0 <= x1 < 1 -> 0 <= x2 < 1 -> x1 * x2 = 0 -> (0 < x1 -> 20 * - ln x1 + 2 * dt <= 500) ->
  pruns (SignedMultiplierNetwork (DataEncoder tmin tcod) nm) sx_mod (DataEncoder tmin tcod) dt (fun m => two_spikes tmin tcod (sx_in1 p1 m) x1 t1 ++ two_spikes tmin tcod (sx_in2 p2 m) x2 t2)
    (fun m s => exists t, pspike_log s (sx_output_plus m) = (if Bool.eqb p1 p2 then [t; t + 2; t + tmin; t + tmin + 2] else [t + tmin; t + tmin + 2]) /\
                          pspike_log s (sx_output_minus m) = (if Bool.eqb p1 p2 then [] else [t + 2; t + tmin + 2])).
Proof. intros. apply (smul_nul_gen tmin tcod dt x1 x2 t1 t2 p1 p2); auto; try lra. smulstims. Qed.
