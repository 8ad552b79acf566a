(** SignedMultiplierNormNetwork on PredSimulator (C59). *)
From Coq Require Import Arith ZArith Bool List Reals Lra Lia Permutation Sorted.
From Verif Require Import Num NumOrd Heapq Elements Networks CancelQueue PredSim PredNeuron NeuronLib NetLib Build BuildNets Trace SimTrace TraceProps Bridge Session SimpleNets InvMem ExpLog PredProofs PredRun PredNet PredMem PredFun PredGroup PredSub PredSimple PredMul PredSMul.
Import ListNotations.
Open Scope list_scope.
Open Scope R_scope.

(** mul_net 0..11; scalar_mul 12..17 (input, first, last, acc, acc2, output); input1_plus 18, input1_minus 19, input2_plus 20, input2_minus 21,
    output_plus 22, output_minus 23, sign1..sign4 24..27 *)
Definition nsc_num (tmin tcod f : R) : list (synapse R) :=
  let w := 1000 / (tmin + tcod) in
  [syn 12 13 SynV 10 1; syn 12 14 SynV 5 1; syn 13 13 SynV (-10) 1; syn 13 15 SynGe (f * w) (1 + tmin); syn 14 16 SynGe (f * w) 2; syn 15 16 SynGe (- (f * w)) 1;
   syn 16 17 SynV 10 (1 + tmin); syn 15 16 SynGe w 1; syn 15 17 SynV 10 2].
Definition nsg_num : list (synapse R) :=
  [syn 18 0 SynV 10 1; syn 19 0 SynV 10 1; syn 20 1 SynV 10 1; syn 21 1 SynV 10 1;
   syn 18 24 SynV (10 / 4) 1; syn 18 26 SynV (10 / 4) 1; syn 19 25 SynV (10 / 4) 1; syn 19 27 SynV (10 / 4) 1;
   syn 20 24 SynV (10 / 4) 1; syn 20 25 SynV (10 / 4) 1; syn 21 26 SynV (10 / 4) 1; syn 21 27 SynV (10 / 4) 1;
   syn 24 25 SynV (-5) 1; syn 24 26 SynV (-5) 1; syn 25 24 SynV (-5) 1; syn 25 27 SynV (-5) 1;
   syn 26 24 SynV (-5) 1; syn 26 27 SynV (-5) 1; syn 27 25 SynV (-5) 1; syn 27 26 SynV (-5) 1;
   syn 11 12 SynV 10 1; syn 17 22 SynV 10 1; syn 17 23 SynV 10 1;
   syn 24 23 SynV (-20) 1; syn 25 22 SynV (-20) 1; syn 26 22 SynV (-20) 1; syn 27 23 SynV (-20) 1].
Definition sn_num (tmin tcod f : R) := mu_num tmin tcod ++ nsc_num tmin tcod f ++ nsg_num.
Lemma sn_syns_R tmin tcod f a b c : tcod <> 0 -> tmin + tcod <> 0 ->
  sn_syns (DataEncoder tmin tcod) f (Build_smultn_net a (Build_mul_net b 0 1 2 3 4 5 6 7 8 9 10 11) (Build_smul_net c 12 13 14 15 16 17) 18 19 20 21 22 23 24 25 26 27) = sn_num tmin tcod f.
Proof.
  intros H H'. unfold sn_syns, sn_num. cbn [sn_mn sn_scmn]. rewrite (mu_syns_R tmin tcod b H). f_equal. unfold sc_syns, sign_syns, sout_syns, nsc_num, nsg_num.
  cbn [sn_mn sn_scmn sc_input sc_first sc_last sc_acc sc_acc2 sc_output mu_input1 mu_input2 mu_output sn_input1_plus sn_input1_minus sn_input2_plus sn_input2_minus sn_output_plus sn_output_minus sn_sign1 sn_sign2 sn_sign3 sn_sign4 app].
  rewrite wacc_R. consts. repeat (f_equal; try lra).
Qed.

(** the scalar multiplication of an interval tmin + Y that starts at s *)
Section NScal.
Variables tmin tcod f Y dt s : R.
Hypothesis Hdt : 0 < dt. Hypothesis HM : (horizon dt < 2 ^ 64)%Z. Hypothesis Hd5 : dt <= 500.
Hypothesis Htc : 0 < tcod. Hypothesis Htm : 1 < tmin. Hypothesis Hf : 0 < f. Hypothesis HY : 0 <= Y. Hypothesis HfY : f * Y <= tcod. Hypothesis Hs : 0 <= s.
Let w := 1000 / (tmin + tcod).
Let iv := tmin + Y.
Let g := INR (step_at dt ((tmin + tcod) / f)) * dt.
Definition ns_a : R := s + (tmin + 2) + g.
Let a := ns_a.
Let D := tmin + tcod - f * (g - Y).
Definition ns_K : R := if Rle_dec D 0 then 0 else INR (step_at dt D) * dt.
Lemma ns_Y : Y < (tmin + tcod) / f.
Proof. apply Rmult_lt_reg_r with f; auto. unfold Rdiv. rewrite (Rmult_assoc (tmin + tcod)), Rinv_l by lra. lra. Qed.
Lemma ns_D : f * Y - f * dt < D <= f * Y.
Proof.
  pose proof (sc_g tmin tcod f dt Hdt Htc Htm Hf) as [G1 G2]. fold g in G1, G2. apply (Rmult_le_compat_l f) in G1; [|lra]. apply (Rmult_lt_compat_l f) in G2; auto. rewrite Rmult_plus_distr_l in G2.
  replace (f * ((tmin + tcod) / f)) with (tmin + tcod) in G1, G2 by (field; lra). unfold D. lra.
Qed.
Lemma ns_Kb : 0 <= ns_K < tcod + dt /\ - Rmax 1 f * dt <= ns_K - f * Y <= Rmax 1 f * dt.
Proof.
  pose proof ns_D as HD. assert (0 <= f * Y) by (apply Rmult_le_pos; lra).
  assert (M1 : 1 * dt <= Rmax 1 f * dt) by (apply Rmult_le_compat_r; [lra|apply Rmax_l]). assert (M2 : f * dt <= Rmax 1 f * dt) by (apply Rmult_le_compat_r; [lra|apply Rmax_r]).
  unfold ns_K. destruct (Rle_dec D 0) as [C|C]; [lra|].
  pose proof (step_at_bounds dt D Hdt ltac:(lra)). lra.
Qed.
Lemma ns_acc : g + dt <= 500 -> resp dt rest0 [(s + 1 + (1 + tmin), (SynGe, f * w))] [a].
Proof.
  intros H5. pose proof (sc_g tmin tcod f dt Hdt Htc Htm Hf). pose proof (sc_w tmin tcod Htc Htm). fold g in H. fold w in H0. pose proof (sc_ramp0 tmin tcod f dt Htc Htm Hf) as HR. fold w in HR.
  exists [(s + (tmin + 2), [(SynGe, f * w)])]. split; [sorted|]. split; [intros h [<-|[]]; discriminate|]. split; [cbn; perms|]. rewrite rest0_pn.
  assert (0 < f * w) by (apply Rmult_lt_0_compat; auto).
  eapply (r_hit dt Hdt HM) with (v' := 0) (g' := f * w); [lra|left; lra|wsums; ring|wsums; ring|wsums; lra|wsums; lra|].
  eapply r_ramp; auto; [lra|rewrite HR; fold g; unfold a, ns_a; reflexivity|rewrite HR; fold g; auto|intros h []|apply r_end; auto; lra].
Qed.
Definition ns_acc2H := [(s + iv + 1 + 2, (SynGe, f * w)); (a + 1, (SynGe, - (f * w))); (a + 1, (SynGe, w))].
Definition ns_h := [(s + iv + 3, [(SynGe, f * w)]); (a + 1, [(SynGe, - (f * w)); (SynGe, w)])].
Lemma ns_h_ok : tsorted ns_h /\ filled ns_h /\ Permutation (ungroup ns_h) ns_acc2H.
Proof.
  pose proof ns_Y. pose proof (sc_g tmin tcod f dt Hdt Htc Htm Hf). fold g in H0. unfold ns_h, ns_acc2H. split; [sorted; unfold iv, a, ns_a; lra|]. split; [intros h [<-|[<-|[]]]; discriminate|]. cbn. perms.
Qed.
Lemma ns_acc2 : 0 < Y -> tcod + 2 * dt <= 500 -> resp dt rest0 ns_acc2H [a + 1 + ns_K].
Proof.
  intros Hx0 H5. pose proof ns_Y. pose proof (sc_g tmin tcod f dt Hdt Htc Htm Hf) as Hg. fold g in Hg. pose proof (sc_w tmin tcod Htc Htm) as Hw. fold w in Hw. pose proof ns_D as HD. pose proof ns_Kb as [HK _].
  pose proof (sc_ramp0 tmin tcod f dt Htc Htm Hf) as HR. fold w in HR.
  destruct ns_h_ok as (h1 & h2 & h3). exists ns_h. split; auto. split; auto. split; auto. rewrite rest0_pn.
  assert (0 < f * w) by (apply Rmult_lt_0_compat; auto).
  set (v := f * w / 100 * (g - Y)). assert (Hv : 10 - v = w / 100 * D). { unfold v, D, w. field. lra. }
  eapply (r_hit dt Hdt HM) with (v' := 0) (g' := f * w); [unfold iv; lra|left; lra|wsums; ring|wsums; ring|wsums; lra|wsums; lra|].
  eapply (r_hit dt Hdt HM) with (v' := v) (g' := w); [unfold a, ns_a, iv; lra| |wsums; ring|wsums; ring| |wsums; lra|].
  - right. rewrite HR. fold g. unfold a, ns_a, iv. lra.
  - wsums. unfold v, a, ns_a, iv. field.
  - unfold ns_K in *. destruct (Rle_dec D 0) as [C|C].
    + rewrite Rplus_0_r. apply r_now; auto; [|lra|intros h []|apply r_end; auto; lra]. assert (0 <= w / 100 * - D) by (apply Rmult_le_pos; lra). lra.
    + assert (0 < w / 100 * D) by (apply Rmult_lt_0_compat; lra).
      assert (ER : ramp dt v w = step_at dt D). { unfold ramp. f_equal. rewrite Hv. field. lra. }
      pose proof (step_at_bounds dt D Hdt ltac:(lra)).
      eapply r_ramp; auto; [lra|rewrite ER; reflexivity|rewrite ER; lra|intros h []|apply r_end; auto; lra].
Qed.
Lemma ns_acc2_zero F : Y = 0 -> g + dt <= 500 -> nat_run dt (pn 0 (w - f * w) (a + 1)) [] F -> resp dt rest0 ns_acc2H (a + 1 :: F).
Proof.
  intros Hx0 H5 HF. pose proof ns_Y. pose proof (sc_g tmin tcod f dt Hdt Htc Htm Hf) as Hg. fold g in Hg. pose proof (sc_w tmin tcod Htc Htm) as Hw. fold w in Hw.
  pose proof (sc_ramp0 tmin tcod f dt Htc Htm Hf) as HR. fold w in HR. destruct ns_h_ok as (h1 & h2 & h3). exists ns_h. split; auto. split; auto. split; auto. rewrite rest0_pn.
  assert (0 < f * w) by (apply Rmult_lt_0_compat; auto). assert (Eiv : iv = tmin) by (unfold iv; rewrite Hx0; ring).
  eapply (r_hit dt Hdt HM) with (v' := 0) (g' := f * w); [lra|left; lra|wsums; ring|wsums; ring|wsums; lra|wsums; lra|].
  eapply r_ramp; auto; [lra|rewrite HR; fold g; unfold a, ns_a; rewrite Eiv; ring|rewrite HR; fold g; auto|intros h [<-|[]]; cbn; lra|].
  eapply (r_hit dt Hdt HM) with (v' := 0) (g' := w - f * w); [unfold a, ns_a; lra|left; lra|wsums; ring|wsums; ring|wsums; lra|wsums; ring|exact HF].
Qed.
End NScal.

Section SNorm.
Variables tmin tcod f dt x1 x2 t1 t2 : R. Variables p1 p2 : bool.
Hypothesis Hdt : 0 < dt. Hypothesis HM : (horizon dt < 2 ^ 64)%Z. Hypothesis Hd5 : dt <= 500.
Hypothesis Htc : 0 < tcod. Hypothesis Htm : 1 < tmin. Hypothesis H5 : tcod + 2 * dt <= 500. Hypothesis Hf : 0 < f. Hypothesis H5f : (tmin + tcod) / f + 2 * dt <= 500.
Hypothesis Hx1 : 0 <= x1 < 1. Hypothesis Hx2 : 0 <= x2 < 1. Hypothesis Ht1 : 0 <= t1. Hypothesis Ht2 : 0 <= t2.
Let b1 := t1 + (tmin + x1 * tcod). Let b2 := t2 + (tmin + x2 * tcod).
Let M := sx_M tmin tcod x1 x2 t1 t2.
Definition sn_F (core : nat -> list R) (s iv : R) (ac a2 o op om : list R) (n : nat) : list R :=
  match n with
  | 12%nat => [s; s + iv] | 13%nat => [s + 1] | 14%nat => [s + iv + 1] | 15%nat => ac | 16%nat => a2 | 17%nat => o
  | 18%nat => both p1 t1 b1 | 19%nat => both (negb p1) t1 b1 | 20%nat => both p2 t2 b2 | 21%nat => both (negb p2) t2 b2
  | 22%nat => op | 23%nat => om
  | 24%nat => if p1 && p2 then [M] else [] | 25%nat => if negb p1 && p2 then [M] else [] | 26%nat => if p1 && negb p2 then [M] else [] | 27%nat => if negb p1 && negb p2 then [M] else []
  | _ => core n end.
Definition sn_ins : list (nat * R) :=
  let i1 := if p1 then 18%nat else 19%nat in let i2 := if p2 then 20%nat else 21%nat in [(i1, t1); (i1, b1); (i2, t2); (i2, b2)].
Ltac ends := match goal with
  | |- resp _ _ [] [] => apply none; auto
  | |- resp _ _ [_; _] [_; _] => apply relay2; auto; lra
  | |- resp _ _ [_; _; _] [] => rewrite rest0_pn; rsilent Hdt HM
  | |- resp _ _ [_] [] => rewrite rest0_pn; rsilent Hdt HM
  end.
Ltac opn := unfold sn_num, mu_num, nsc_num, nsg_num, sn_ins; cbv zeta; rcbn; cbn [sn_F].
(** all but the accumulators of scalar_mul and the outputs *)
Lemma sn_rest (core : nat -> list R) s iv ac a2 o op om n : (forall n, (n < 12)%nat -> resp dt rest0 (received 10 (mu_num tmin tcod) (mu_ins tmin tcod x1 x2 (t1 + 1) (t2 + 1)) core n) (core n)) ->
  core 0%nat = [t1 + 1; mb tmin tcod (t1 + 1) x1] -> core 1%nat = [t2 + 1; mb tmin tcod (t2 + 1) x2] -> core 11%nat = [s - 1; s - 1 + iv] -> 1 <= s -> 1 < iv ->
  (n < 28)%nat -> n <> 15%nat -> n <> 16%nat -> n <> 17%nat -> n <> 22%nat -> n <> 23%nat ->
  resp dt rest0 (received 10 (sn_num tmin tcod f) sn_ins (sn_F core s iv ac a2 o op om) n) (sn_F core s iv ac a2 o op om n).
Proof.
  intros HC C0 C1 C11 Hs Hiv Hn N1 N2 N3 N4 N5. pose proof (sx_bs tmin tcod x1 x2 t1 t2 Htc Hx1 Hx2) as (B1 & B2 & B3 & B4 & B5 & E1 & E2). fold b1 in B1, B3, B5, E1. fold b2 in B2, B4, B5, E2. fold M in B3, B4, B5. rewrite E1 in C0. rewrite E2 in C1.
  destruct (Nat.lt_ge_cases n 12) as [L|L].
  - assert (HC' := HC n L).
    destruct n as [|[|[|[|[|[|[|[|[|[|[|[|n]]]]]]]]]]]]; [..|exfalso; lia].
    3-12: eapply resp_perm; [|exact HC']; unfold mu_ins; opn; destruct p1, p2; rcbn; apply Permutation_refl.
    + opn. rewrite C0. unfold both. destruct p1, p2; rcbn; cbn [negb map app]; apply relay2; auto; lra.
    + opn. rewrite C1. unfold both. destruct p1, p2; rcbn; cbn [negb map app]; apply relay2; auto; lra.
  - assert (Q : forall W, (forall h, In h W -> M < fst h) -> resp dt (pn 0 0 M) W [] -> resp dt rest0 ([(t1 + 1, (SynV, 10 / 4)); (b1 + 1, (SynV, 10 / 4)); (t2 + 1, (SynV, 10 / 4)); (b2 + 1, (SynV, 10 / 4))] ++ W) [M]).
    { intros W HW HR. pose proof (quarters tmin tcod dt x1 x2 t1 t2 Hdt HM Hd5 Htc Htm Hx1 Hx2 Ht1 Ht2 1 W) as HQ. fold M in HQ. fold b1 in HQ. fold b2 in HQ. replace (M - 1 + 1) with M in HQ by lra. apply HQ; auto. lra. }
    assert (Q0 := Q [] ltac:(intros h []) ltac:(rsilent Hdt HM)). rewrite app_nil_r in Q0.
    do 12 (destruct n as [|n]; [exfalso; lia|]).
    destruct n as [|[|[|n]]].
    + opn. rewrite C11. cbn [map app]. unfold both. destruct p1, p2; rcbn; cbn [negb map app]; (eapply resp_perm; [|apply (relay2 dt Hdt HM Hd5 s (s + iv)); lra]); perms.
    + opn. unfold both. destruct p1, p2; rcbn; cbn [negb map app]; (eapply resp_perm; [|apply (mu_first dt Hdt HM Hd5 s (s + iv)); lra]); perms.
    + opn. unfold both. destruct p1, p2; rcbn; cbn [negb map app]; (eapply resp_perm; [|apply (half2 dt Hdt HM Hd5 (s + 1) (s + iv + 1)); lra]); perms.
    + destruct n as [|[|[|[|[|[|[|[|[|[|[|[|[|n]]]]]]]]]]]]]; [..|exfalso; lia]; try congruence; opn; unfold both; destruct p1, p2; rcbn; cbn [negb andb map app].
      all: try exact Q0; try ends.
Qed.
(** the whole response from that of the core *)
Section Whole.
Variables (core : nat -> list R) (s Y : R).
Hypothesis HC : forall n, (n < 12)%nat -> resp dt rest0 (received 10 (mu_num tmin tcod) (mu_ins tmin tcod x1 x2 (t1 + 1) (t2 + 1)) core n) (core n).
Hypothesis C0 : core 0%nat = [t1 + 1; mb tmin tcod (t1 + 1) x1]. Hypothesis C1 : core 1%nat = [t2 + 1; mb tmin tcod (t2 + 1) x2].
Hypothesis C11 : core 11%nat = [s - 1; s - 1 + (tmin + Y)].
Hypothesis Hs : M + 1 < s. Hypothesis HY : 0 <= Y. Hypothesis HfY : f * Y <= tcod.
Let a := ns_a tmin tcod f dt s.
Lemma sn_a : s + tmin + 2 < a.
Proof. assert (0 < (tmin + tcod) / f) by (apply Rdiv_lt_0_compat; lra). pose proof (sc_g tmin tcod f dt Hdt Htc Htm Hf). unfold a, ns_a. lra. Qed.
Lemma sn_M : 0 < M.
Proof. pose proof (sx_bs tmin tcod x1 x2 t1 t2 Htc Hx1 Hx2) as (B1 & B2 & B3 & B4 & B5 & E1 & E2). fold b1 in B1, B3, B5, E1. fold b2 in B2, B4, B5, E2. fold M in B3, B4, B5. lra. Qed.
Definition sn_two (k : R) : nat -> list R :=
  let o := [a + 2; a + 1 + k + (1 + tmin)] in let q := [a + 2 + 1; a + 1 + k + (1 + tmin) + 1] in
  sn_F core s (tmin + Y) [a] [a + 1 + k] o (if Bool.eqb p1 p2 then q else []) (if Bool.eqb p1 p2 then [] else q).
Lemma sn_two_resp k n : 0 <= k -> resp dt rest0 (ns_acc2H tmin tcod f Y dt s) [a + 1 + k] -> (n < 28)%nat ->
  resp dt rest0 (received 10 (sn_num tmin tcod f) sn_ins (sn_two k) n) (sn_two k n).
Proof.
  intros Hk HA Hn. pose proof sn_a as Ha. pose proof sn_M as HM0. pose proof (sc_g tmin tcod f dt Hdt Htc Htm Hf) as Hg.
  unfold sn_two. cbv zeta. set (o1 := a + 2). set (o2 := a + 1 + k + (1 + tmin)). assert (Ho : o1 < o2) by (unfold o1, o2; lra). assert (Ho1 : M + 2 < o1) by (unfold o1; lra).
  assert (S1 : resp dt rest0 [(o1 + 1, (SynV, 10)); (o2 + 1, (SynV, 10))] [o1 + 1; o2 + 1]) by (apply relay2; auto; lra).
  assert (S2 : resp dt rest0 [(o1 + 1, (SynV, 10)); (o2 + 1, (SynV, 10)); (M + 1, (SynV, -20))] []) by (rewrite rest0_pn; rsilent Hdt HM).
  destruct (in_dec Nat.eq_dec n [15; 16; 17; 22; 23]%nat) as [HI|HI].
  - cbn [In] in HI. destruct HI as [<-|[<-|[<-|[<-|[<-|[]]]]]]; opn; unfold both; destruct p1, p2; rcbn; cbn [negb andb map app Bool.eqb].
    1-4: apply ns_acc; auto; lra.
    1-4: (eapply resp_perm; [|exact HA]; unfold ns_acc2H; fold a; perms).
    1-4: (eapply resp_perm; [|apply (relay2 dt Hdt HM Hd5 o1 o2); lra]; unfold o1, o2; perms).
    all: first [exact S1|exact S2].
  - apply sn_rest; auto; try lra; intros ->; apply HI; cbn; tauto.
Qed.
Definition sn_three (k : R) : nat -> list R :=
  let o := [a + 2; a + 2 + tmin; a + 2 + tmin + k] in let q := [a + 2 + 1; a + 2 + tmin + 1; a + 2 + tmin + k + 1] in let r := [a + 2 + tmin + k + 1] in
  sn_F core s (tmin + Y) [a] [a + 1; a + 1 + k] o (if Bool.eqb p1 p2 then q else r) (if Bool.eqb p1 p2 then r else q).
Lemma sn_three_resp k n : 0 < k -> resp dt rest0 (ns_acc2H tmin tcod f Y dt s) [a + 1; a + 1 + k] -> (n < 28)%nat ->
  resp dt rest0 (received 10 (sn_num tmin tcod f) sn_ins (sn_three k) n) (sn_three k n).
Proof.
  intros Hk HA Hn. pose proof sn_a as Ha. pose proof sn_M as HM0. pose proof (sc_g tmin tcod f dt Hdt Htc Htm Hf) as Hg.
  unfold sn_three. cbv zeta. set (o1 := a + 2). set (o2 := o1 + tmin). set (o3 := o2 + k). assert (Ho : o1 < o2 /\ o2 < o3) by (unfold o3, o2; lra). assert (Ho1 : M + 2 < o1) by (unfold o1; lra).
  assert (S1 : resp dt rest0 [(o1 + 1, (SynV, 10)); (o2 + 1, (SynV, 10)); (o3 + 1, (SynV, 10))] [o1 + 1; o2 + 1; o3 + 1]).
  { apply (relays dt 10 Hdt HM Hd5 ltac:(lra)); [sorted; lra|cbn [map]; apply Permutation_refl]. }
  assert (S2 : resp dt rest0 [(o1 + 1, (SynV, 10)); (o2 + 1, (SynV, 10)); (o3 + 1, (SynV, 10)); (M + 1, (SynV, -20))] [o3 + 1]).
  { rewrite rest0_pn. rfire Hdt HM [(o1 + 1, (SynV, 10)); (o2 + 1, (SynV, 10)); (M + 1, (SynV, -20))] [(o3 + 1, (SynV, 10))] (@nil (R * (syntype * R))). rsilent Hdt HM. }
  destruct (in_dec Nat.eq_dec n [15; 16; 17; 22; 23]%nat) as [HI|HI].
  - cbn [In] in HI. destruct HI as [<-|[<-|[<-|[<-|[<-|[]]]]]]; opn; unfold both; destruct p1, p2; rcbn; cbn [negb andb map app Bool.eqb].
    1-4: apply ns_acc; auto; lra.
    1-4: (eapply resp_perm; [|exact HA]; unfold ns_acc2H; fold a; perms).
    1-4: (apply (relays dt 10 Hdt HM Hd5 ltac:(lra)); [sorted; lra|cbn [map]; unfold o3, o2, o1; perms]).
    all: first [exact S1|exact S2].
  - apply sn_rest; auto; try lra; intros ->; apply HI; cbn; tauto.
Qed.
End Whole.
(** operands above 0 *)
Let A2 := mu_A2 tmin tcod dt x1 x2 (t1 + 1) (t2 + 1).
Let Y := exK tcod dt (lgD dt x1 + lgD dt x2).
Definition sn_pos : nat -> list R := sn_two (mu_pos tmin tcod dt x1 x2 (t1 + 1) (t2 + 1)) (A2 + 3) Y (ns_K tmin tcod f Y dt).
Lemma sn_pos_resp n : 0 < x1 -> 0 < x2 -> 20 * (- ln x1 - ln x2) + 2 * dt <= 343 -> f * Y <= tcod -> (n < 28)%nat ->
  resp dt rest0 (received 10 (sn_num tmin tcod f) sn_ins sn_pos n) (sn_pos n).
Proof.
  intros P1 P2 HL HfY Hn. pose proof (lgD_bounds dt Hdt x1 ltac:(lra)) as D1. pose proof (lgD_bounds dt Hdt x2 ltac:(lra)) as D2.
  pose proof (exK_bounds tcod dt Hdt Htc (lgD dt x1 + lgD dt x2) ltac:(lra)) as HK. fold Y in HK.
  assert (HA : M + 4 < A2) by (unfold A2, mu_A2; fold (sx_M tmin tcod x1 x2 t1 t2); fold M; lra).
  pose proof sn_M as HM0.
  pose proof (ns_Kb tmin tcod f Y dt Hdt Htc Htm Hf ltac:(lra) HfY) as [HKb _].
  unfold sn_pos. apply sn_two_resp; auto; try lra.
  - intros k Hk. apply mu_pos_resp; auto; lra.
  - cbn [mu_pos mu_F]. fold A2. unfold mu_E. fold A2. fold Y. repeat (f_equal; try ring).
  - apply ns_acc2; auto; lra.
Qed.
(** an operand 0 *)
Definition sn_nul : nat -> list R := sn_two (mu_nul tmin tcod dt x1 x2 (t1 + 1) (t2 + 1)) (M + 352) 0 0.
Let w := 1000 / (tmin + tcod).
Lemma sn_core0 : mu_nul tmin tcod dt x1 x2 (t1 + 1) (t2 + 1) 11%nat = [M + 352 - 1; M + 352 - 1 + (tmin + 0)].
Proof. cbn [mu_nul mu_F]. fold (sx_M tmin tcod x1 x2 t1 t2). fold M. repeat (f_equal; try ring). Qed.
Lemma sn_nul_resp n : 1 <= f -> x1 = 0 \/ x2 = 0 -> (0 < x1 -> 20 * - ln x1 + 2 * dt <= 500) -> (n < 28)%nat ->
  resp dt rest0 (received 10 (sn_num tmin tcod f) sn_ins sn_nul n) (sn_nul n).
Proof.
  intros F1 P HL Hn. pose proof sn_M as HM0. pose proof (sc_w tmin tcod Htc Htm) as Hw. fold w in Hw. pose proof (sc_g tmin tcod f dt Hdt Htc Htm Hf) as Hg.
  unfold sn_nul. apply sn_two_resp; auto; try lra.
  - intros k Hk. apply mu_nul_resp; auto; lra.
  - apply sn_core0.
  - rewrite Rplus_0_r. apply ns_acc2_zero; auto; try lra. apply r_end; auto; [lra|]. fold w. assert (0 <= (f - 1) * w) by (apply Rmult_le_pos; lra). lra.
Qed.
Definition sn_extra : R := INR (step_at dt ((tmin + tcod) / (1 - f))) * dt.
Definition sn_nul3 : nat -> list R := sn_three (mu_nul tmin tcod dt x1 x2 (t1 + 1) (t2 + 1)) (M + 352) 0 sn_extra.
Lemma sn_nul3_resp n : f < 1 -> (tmin + tcod) / (1 - f) + 2 * dt <= 500 -> x1 = 0 \/ x2 = 0 -> (0 < x1 -> 20 * - ln x1 + 2 * dt <= 500) -> (n < 28)%nat ->
  resp dt rest0 (received 10 (sn_num tmin tcod f) sn_ins sn_nul3 n) (sn_nul3 n).
Proof.
  intros F1 H6 P HL Hn. pose proof sn_M as HM0. pose proof (sc_w tmin tcod Htc Htm) as Hw. fold w in Hw. pose proof (sc_g tmin tcod f dt Hdt Htc Htm Hf) as Hg.
  assert (H1 : 0 < (tmin + tcod) / (1 - f)) by (apply Rdiv_lt_0_compat; lra). pose proof (step_at_bounds dt _ Hdt H1) as HB. fold sn_extra in HB.
  unfold sn_nul3. apply sn_three_resp; auto; try lra.
  - intros k Hk. apply mu_nul_resp; auto; lra.
  - apply sn_core0.
  - apply ns_acc2_zero; auto; try lra. fold w.
    assert (0 < (1 - f) * w) by (apply Rmult_lt_0_compat; lra).
    assert (ER : ramp dt 0 (w - f * w) = step_at dt ((tmin + tcod) / (1 - f))). { unfold ramp, w. f_equal. field. lra. }
    eapply r_ramp; auto; [lra|lra|rewrite ER; reflexivity|rewrite ER; fold sn_extra; lra|intros h []|apply r_end; auto; lra].
Qed.
End SNorm.
Section SNormThm.
Variables tmin tcod f dt x1 x2 t1 t2 : R. Variables p1 p2 : bool.
Hypothesis HD : dt_ok dt. Hypothesis Htc : 0 < tcod. Hypothesis Htm : 1 < tmin. Hypothesis H5 : tcod + 2 * dt <= 500. Hypothesis Hf : 0 < f. Hypothesis H5f : (tmin + tcod) / f + 2 * dt <= 500.
Hypothesis Hx1 : 0 <= x1 < 1. Hypothesis Hx2 : 0 <= x2 < 1. Hypothesis Ht1 : 0 <= t1. Hypothesis Ht2 : 0 <= t2.
Variable stims : smultn_net -> list stim.
Hypothesis HS : forall a mn sc, let m := Build_smultn_net a mn sc 18 19 20 21 22 23 24 25 26 27 in pins (DataEncoder tmin tcod) (stims m) = sn_ins tmin tcod x1 x2 t1 t2 p1 p2 /\ Forall (stim_ok 28) (stims m).
Lemma snorm_pred nm F : (forall n, (n < 28)%nat -> resp dt rest0 (received 10 (sn_num tmin tcod f) (sn_ins tmin tcod x1 x2 t1 t2 p1 p2) F n) (F n)) ->
  pruns (SignedMultiplierNormNetwork (DataEncoder tmin tcod) f nm) sn_mod (DataEncoder tmin tcod) dt stims
    (fun m s => pspike_log s (sn_output_plus m) = F 22%nat /\ pspike_log s (sn_output_minus m) = F 23%nat).
Proof.
  intros HF. destruct (dt_ok_horizon dt HD) as [Hdt HM]. set (enc := DataEncoder tmin tcod). assert (HTc : tcod <> 0) by lra. assert (HTm : tmin + tcod <> 0) by lra.
  destruct (SignedMultNorm_built enc f nm empty_world inv_empty (neq0 _ HTm) (neq0 _ HTc)) as (m & w & E & HB & HN & HL).
  cbn [w_neurons empty_world length Nat.add] in HN, HL.
  destruct m as [a [b i0 i1 i2 i3 i4 i5 i6 i7 i8 i9 i10 i11] [c j0 j1 j2 j3 j4 j5] i12 i13 i14 i15 i16 i17 i18 i19 i20 i21]. unfold mu_nodes, sc_nodes, sn_own in HN. cbn in HN.
  injection HN as -> -> -> -> -> -> -> -> -> -> -> -> -> -> -> -> -> -> -> -> -> -> -> -> -> -> -> ->.
  unfold enc in HB. rewrite (sn_syns_R tmin tcod f a b c HTc HTm) in HB.
  destruct (HS a (Build_mul_net b 0 1 2 3 4 5 6 7 8 9 10 11) (Build_smul_net c 12 13 14 15 16 17)) as [EI HSt].
  edestruct (psession_resp (SignedMultiplierNormNetwork enc f nm) sn_mod _ w _ enc dt stims F E HB Hdt HM) as [N HR].
  - rewrite HL. exact HSt.
  - unfold sn_num, mu_num, nsc_num, nsg_num. cbv zeta. cbn [app]. intros y Hy. repeat (destruct Hy as [<-|Hy]; [cbn; lra|]). destruct Hy.
  - rewrite HL. intros n Hn. unfold enc. rewrite EI. apply HF. lia.
  - exists N. intros fuel Hfu. destruct (HR fuel Hfu) as (s & Es & HLg). eexists. exists s. split; [exact Es|]. cbn [sn_output_plus sn_output_minus]. split; apply HLg; lia.
Qed.
Lemma snorm_pos_gen nm : 0 < x1 -> 0 < x2 -> 20 * (- ln x1 - ln x2) + 2 * dt <= 343 -> f * (x1 * x2 + dt / tcod) <= 1 ->
  pruns (SignedMultiplierNormNetwork (DataEncoder tmin tcod) f nm) sn_mod (DataEncoder tmin tcod) dt stims
    (fun m s => pemits s (if Bool.eqb p1 p2 then sn_output_plus m else sn_output_minus m) (DataEncoder tmin tcod) (f * (x1 * x2)) (f * Rmax (dt / tcod) (x1 * x2 * (dt / 10)) + Rmax 1 f * (dt / tcod)) /\
                pspike_log s (if Bool.eqb p1 p2 then sn_output_minus m else sn_output_plus m) = []).
Proof.
  intros P1 P2 HL HfP. destruct (dt_ok_horizon dt HD) as [Hdt HM]. assert (Hd5 : dt <= 500) by apply HD.
  pose proof (mul_value tcod dt Hdt Htc x1 x2 ltac:(lra) ltac:(lra)) as HV. pose proof (lgD_bounds dt Hdt x1 ltac:(lra)). pose proof (lgD_bounds dt Hdt x2 ltac:(lra)).
  pose proof (exK_bounds tcod dt Hdt Htc (lgD dt x1 + lgD dt x2) ltac:(lra)) as HK. set (Y := exK tcod dt (lgD dt x1 + lgD dt x2)) in *.
  assert (HfY : f * Y <= tcod).
  { apply (Rmult_le_compat_r tcod) in HfP; [|lra]. rewrite Rmult_assoc, Rmult_plus_distr_r in HfP. replace (dt / tcod * tcod) with dt in HfP by (field; lra).
    apply Rle_trans with (f * (x1 * x2 * tcod + dt)); [apply Rmult_le_compat_l; lra|lra]. }
  pose proof (ns_Kb tmin tcod f Y dt Hdt Htc Htm Hf ltac:(lra) HfY) as [HK1 HK2].
  destruct (snorm_pred nm (sn_pos tmin tcod f dt x1 x2 t1 t2 p1 p2)) as [N HN].
  { intros n Hn. apply sn_pos_resp; auto. }
  exists N. intros fuel Hfu. destruct (HN fuel Hfu) as (m & s & Es & L1 & L2). exists m, s. split; auto. cbn [sn_pos sn_two sn_F] in L1, L2.
  pose proof (Rmax_l (dt / tcod) (x1 * x2 * (dt / 10))) as M1. pose proof (Rmax_r (dt / tcod) (x1 * x2 * (dt / 10))) as M2.
  apply (Rmult_le_compat_r tcod) in M1; [|lra]. apply (Rmult_le_compat_r tcod) in M2; [|lra]. replace (dt / tcod * tcod) with dt in M1 by (field; lra).
  set (mx := Rmax (dt / tcod) (x1 * x2 * (dt / 10))) in *.
  assert (V1 : f * (Y - x1 * x2 * tcod) <= f * (mx * tcod)) by (apply Rmult_le_compat_l; lra).
  assert (V2 : f * (- (mx * tcod)) <= f * (Y - x1 * x2 * tcod)) by (apply Rmult_le_compat_l; lra).
  fold Y in L1, L2. set (k := ns_K tmin tcod f Y dt) in *.
  assert (HE : Rabs (k - f * (x1 * x2) * tcod) <= (f * mx + Rmax 1 f * (dt / tcod)) * tcod).
  { rewrite Rmult_plus_distr_r. replace (Rmax 1 f * (dt / tcod) * tcod) with (Rmax 1 f * dt) by (field; lra). apply Rabs_le. lra. }
  destruct (Bool.eqb p1 p2); (split; [|auto]); (eapply pemits_intro; [auto|eassumption|lra|]);
  match goal with |- Rabs ?e <= _ => replace e with (k - f * (x1 * x2) * tcod) by ring end; exact HE.
Qed.
Lemma snorm_nul_gen nm : 1 <= f -> x1 * x2 = 0 -> (0 < x1 -> 20 * - ln x1 + 2 * dt <= 500) ->
  pruns (SignedMultiplierNormNetwork (DataEncoder tmin tcod) f nm) sn_mod (DataEncoder tmin tcod) dt stims
    (fun m s => pemits s (if Bool.eqb p1 p2 then sn_output_plus m else sn_output_minus m) (DataEncoder tmin tcod) 0 0 /\
                pspike_log s (if Bool.eqb p1 p2 then sn_output_minus m else sn_output_plus m) = []).
Proof.
  intros F1 P HL. destruct (dt_ok_horizon dt HD) as [Hdt HM]. assert (Hd5 : dt <= 500) by apply HD. apply Rmult_integral in P.
  destruct (snorm_pred nm (sn_nul tmin tcod f dt x1 x2 t1 t2 p1 p2)) as [N HN].
  { intros n Hn. apply sn_nul_resp; auto. }
  exists N. intros fuel Hfu. destruct (HN fuel Hfu) as (m & s & Es & L1 & L2). exists m, s. split; auto. cbn [sn_nul sn_two sn_F] in L1, L2.
  destruct (Bool.eqb p1 p2); (split; [|auto]); (eapply pemits_intro; [auto|eassumption|lra|]);
  rewrite Rmult_0_l; apply Req_le; match goal with |- Rabs ?e = 0 => replace e with 0 by ring end; apply Rabs_R0.
Qed.
Lemma snorm_nul3_gen nm : f < 1 -> (tmin + tcod) / (1 - f) + 2 * dt <= 500 -> x1 * x2 = 0 -> (0 < x1 -> 20 * - ln x1 + 2 * dt <= 500) ->
  pruns (SignedMultiplierNormNetwork (DataEncoder tmin tcod) f nm) sn_mod (DataEncoder tmin tcod) dt stims
    (fun m s => exists t k, (tmin + tcod) / (1 - f) <= k < (tmin + tcod) / (1 - f) + dt /\
                pspike_log s (if Bool.eqb p1 p2 then sn_output_plus m else sn_output_minus m) = [t; t + tmin; t + tmin + k] /\
                pspike_log s (if Bool.eqb p1 p2 then sn_output_minus m else sn_output_plus m) = [t + tmin + k]).
Proof.
  intros F1 H6 P HL. destruct (dt_ok_horizon dt HD) as [Hdt HM]. assert (Hd5 : dt <= 500) by apply HD. apply Rmult_integral in P.
  destruct (snorm_pred nm (sn_nul3 tmin tcod f dt x1 x2 t1 t2 p1 p2)) as [N HN].
  { intros n Hn. apply sn_nul3_resp; auto. }
  assert (H1 : 0 < (tmin + tcod) / (1 - f)) by (apply Rdiv_lt_0_compat; lra). pose proof (step_at_bounds dt _ Hdt H1) as HB.
  exists N. intros fuel Hfu. destruct (HN fuel Hfu) as (m & s & Es & L1 & L2). exists m, s. split; auto. cbn [sn_nul3 sn_three sn_F] in L1, L2. unfold sn_extra in L1, L2.
  match type of L1 with context [?a + 2 + tmin] => exists (a + 2 + 1) end. exists (INR (step_at dt ((tmin + tcod) / (1 - f))) * dt). split; [lra|].
  destruct (Bool.eqb p1 p2); rewrite ?L1, ?L2; split; repeat (f_equal; try ring).
Qed.
End SNormThm.
Ltac snormstims := let a := fresh in let b := fresh in let c := fresh in intros a b c; cbv zeta; unfold sn_ins; cbn [sn_input1_plus sn_input1_minus sn_input2_plus sn_input2_minus]; split;
  [unfold pins; cbn [flat_map pstim app]; consts; rewrite ?Rplus_0_l; reflexivity|
   cbn [app]; repeat match goal with |- context [if ?p then _ else _] => destruct p end; stims_ok].
