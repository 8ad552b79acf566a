(** MultiplierNetwork on PredSimulator (C58). *)
From Coq Require Import Arith ZArith Bool List Reals Lra Lia Permutation Sorted.
From Verif Require Import Num NumOrd Heapq Elements Networks CancelQueue PredSim PredNeuron NeuronLib NetLib Build BuildNets Trace SimTrace TraceProps Bridge Session SimpleNets InvMem ExpLog PredProofs PredRun PredNet PredMem PredFun PredGroup PredSub PredSimple.
Import ListNotations.
Open Scope list_scope.
Open Scope R_scope.

Lemma ln_neg x : 0 < x < 1 -> ln x < 0.
Proof. intros H. rewrite <- ln_1. apply ln_increasing; lra. Qed.
(** ** accumulators *)
Section Acc.
Variables tmin tcod dt : R.
Hypothesis Hdt : 0 < dt. Hypothesis HM : (horizon dt < 2 ^ 64)%Z. Hypothesis Hd5 : dt <= 500.
Hypothesis Htc : 0 < tcod. Hypothesis Htm : 1 < tmin.
Let wb := 1000 / tcod.
(** the time an accumulator takes to charge from x to 1 *)
Definition lgD (x : R) : R := INR (step_at dt (20 * - ln x)) * dt.
Lemma lgD_bounds x : 0 < x < 1 -> 0 < 20 * - ln x <= lgD x /\ lgD x < 20 * - ln x + dt.
Proof. intros H. pose proof (ln_neg x H). pose proof (step_at_bounds dt (20 * - ln x) Hdt ltac:(lra)). unfold lgD. lra. Qed.
Lemma wb_pos : 0 < wb. Proof. unfold wb. apply Rdiv_lt_0_compat; lra. Qed.
Lemma xc x : 0 < x -> 0 < x * tcod. Proof. intros. apply Rmult_lt_0_compat; lra. Qed.

(** a ramp for x*tcod from u on, then charging from g on *)
Lemma lg_fire x u g : 0 <= u -> 0 < x < 1 -> u + x * tcod < g -> 20 * - ln x + 2 * dt <= 500 ->
  resp dt rest0 [(u, (SynGe, wb)); (u + x * tcod, (SynGe, - wb)); (g, (SynGf, 50)); (g, (SynGate, 1))] [g + lgD x].
Proof.
  intros Hu Hx Hg H5. pose proof (xc x ltac:(lra)) as Hxc. pose proof wb_pos as Hw. pose proof (lgD_bounds x Hx) as HD.
  exists [(u, [(SynGe, wb)]); (u + x * tcod, [(SynGe, - wb)]); (g, [(SynGf, 50); (SynGate, 1)])]. split; [sorted; lra|]. split; [intros h [<-|[<-|[<-|[]]]]; discriminate|]. split; [cbn; perms|].
  rewrite rest0_pn, pn_px.
  assert (ER : wb / 100 * (x * tcod) = 10 * x) by (unfold wb; field; lra).
  eapply (x_hit dt Hdt) with (a' := 0) (g' := wb) (v' := 0) (f' := 0); auto; try (wsums; lra); [intros d Hd; unfold pot; lra|wsums; unfold pot; lra|].
  eapply (x_hit dt Hdt) with (a' := 0) (g' := 0) (v' := 10 * x) (f' := 0); auto; try (wsums; lra).
  - intros d Hd. unfold pot. assert (wb / 100 * d <= wb / 100 * (x * tcod)) by (apply Rmult_le_compat_l; lra). lra.
  - wsums. unfold pot. replace (u + x * tcod - u) with (x * tcod) by lra. lra.
  - eapply (x_hit dt Hdt) with (a' := 1) (g' := 0) (v' := 10 * x) (f' := 50); auto; try (wsums; lra); [intros d Hd; unfold pot; lra|wsums; unfold pot; lra|].
    apply (x_fire dt Hdt HM _ _ _ _ _ (20 * - ln x) (step_at dt (20 * - ln x))); auto; try lra.
    + unfold pot. replace (- (20 * - ln x) / 20) with (ln x) by lra. rewrite exp_ln by lra. lra.
    + intros e [He1 He2]. unfold pot. assert (x < exp (- e / 20)); [|lra]. rewrite <- (exp_ln x) at 1 by lra. apply exp_increasing. lra.
    + fold (lgD x). lra.
    + intros h [].
    + apply r_end; auto; lra.
Qed.
Lemma lg_idle x u : 0 <= u -> 0 <= x < 1 -> resp dt rest0 [(u, (SynGe, wb)); (u + x * tcod, (SynGe, - wb))] [].
Proof.
  intros Hu Hx. pose proof wb_pos as Hw. destruct (Req_dec x 0) as [->|Hn].
  - exists [(u, [(SynGe, wb); (SynGe, - wb)])]. split; [sorted|]. split; [intros h [<-|[]]; discriminate|]. split; [cbn; perms|]. rewrite rest0_pn, pn_px.
    eapply (x_hit dt Hdt) with (a' := 0) (g' := 0) (v' := 0) (f' := 0); auto; try (wsums; lra); [intros d Hd; unfold pot; lra|wsums; unfold pot; lra|].
    apply x_end; auto. intros d Hd. unfold pot. lra.
  - pose proof (xc x ltac:(lra)) as Hxc. assert (ER : wb / 100 * (x * tcod) = 10 * x) by (unfold wb; field; lra).
    exists [(u, [(SynGe, wb)]); (u + x * tcod, [(SynGe, - wb)])]. split; [sorted; lra|]. split; [intros h [<-|[<-|[]]]; discriminate|]. split; [cbn; perms|]. rewrite rest0_pn, pn_px.
    eapply (x_hit dt Hdt) with (a' := 0) (g' := wb) (v' := 0) (f' := 0); auto; try (wsums; lra); [intros d Hd; unfold pot; lra|wsums; unfold pot; lra|].
    eapply (x_hit dt Hdt) with (a' := 0) (g' := 0) (v' := 10 * x) (f' := 0); auto; try (wsums; lra).
    + intros d Hd. unfold pot. assert (wb / 100 * d <= wb / 100 * (x * tcod)) by (apply Rmult_le_compat_l; lra). lra.
    + wsums. unfold pot. replace (u + x * tcod - u) with (x * tcod) by lra. lra.
    + apply x_end; auto. intros d Hd. unfold pot. lra.
Qed.
(** charging from 0 never reaches the threshold *)
Lemma lg_zero u g : 0 <= u < g -> resp dt rest0 [(u, (SynGe, wb)); (u + 0 * tcod, (SynGe, - wb)); (g, (SynGf, 50)); (g, (SynGate, 1))] [].
Proof.
  intros Hu. exists [(u, [(SynGe, wb); (SynGe, - wb)]); (g, [(SynGf, 50); (SynGate, 1)])]. split; [sorted; lra|]. split; [intros h [<-|[<-|[]]]; discriminate|]. split; [cbn; perms|]. rewrite rest0_pn, pn_px.
  eapply (x_hit dt Hdt) with (a' := 0) (g' := 0) (v' := 0) (f' := 0); auto; try (wsums; lra); [intros d Hd; unfold pot; lra|wsums; unfold pot; lra|].
  eapply (x_hit dt Hdt) with (a' := 1) (g' := 0) (v' := 0) (f' := 50); auto; try (wsums; lra); [intros d Hd; unfold pot; lra|wsums; unfold pot; lra|].
  apply x_end; auto. intros d Hd. unfold pot. pose proof (exp_pos (- d / 20)). lra.
Qed.
Lemma ex_idle g : 0 <= g -> resp dt rest0 [(g, (SynGate, 1)); (g, (SynGf, 50))] [].
Proof.
  intros Hu. exists [(g, [(SynGf, 50); (SynGate, 1)])]. split; [sorted|]. split; [intros h [<-|[]]; discriminate|]. split; [cbn; perms|]. rewrite rest0_pn, pn_px.
  eapply (x_hit dt Hdt) with (a' := 1) (g' := 0) (v' := 0) (f' := 50); auto; try (wsums; lra); [intros d Hd; unfold pot; lra|wsums; unfold pot; lra|].
  apply x_end; auto. intros d Hd. unfold pot. pose proof (exp_pos (- d / 20)). lra.
Qed.
(** charging for c ms from 0, then a ramp *)
Definition exY (c : R) : R := exp (- c / 20).
Definition exK (c : R) : R := INR (step_at dt (exY c * tcod)) * dt.
Lemma exY_bounds c : 0 < c -> 0 < exY c < 1.
Proof. intros H. unfold exY. split; [apply exp_pos|]. rewrite <- exp_0. apply exp_increasing. lra. Qed.
Lemma exK_bounds c : 0 < c -> 0 < exY c * tcod <= exK c /\ exK c < exY c * tcod + dt /\ exY c * tcod < tcod.
Proof.
  intros H. pose proof (exY_bounds c H) as HY. assert (0 < exY c * tcod) by (apply Rmult_lt_0_compat; lra). pose proof (step_at_bounds dt (exY c * tcod) Hdt H0). unfold exK.
  pose proof (Rmult_lt_compat_r tcod (exY c) 1 Htc). lra.
Qed.
Lemma ex_fire g c : 0 <= g -> 0 < c -> tcod + 2 * dt <= 500 ->
  resp dt rest0 [(g + c, (SynGate, -1)); (g + c, (SynGe, wb)); (g, (SynGate, 1)); (g, (SynGf, 50))] [g + c + exK c].
Proof.
  intros Hg Hc H5. pose proof wb_pos as Hw. pose proof (exY_bounds c Hc) as HY. pose proof (exK_bounds c Hc) as HK.
  exists [(g, [(SynGf, 50); (SynGate, 1)]); (g + c, [(SynGate, -1); (SynGe, wb)])]. split; [sorted; lra|]. split; [intros h [<-|[<-|[]]]; discriminate|]. split; [cbn; perms|]. rewrite rest0_pn, pn_px.
  eapply (x_hit dt Hdt) with (a' := 1) (g' := 0) (v' := 0) (f' := 50); auto; try (wsums; lra); [intros d Hd; unfold pot; lra|wsums; unfold pot; lra|].
  eapply (x_hit dt Hdt) with (a' := 0) (g' := wb) (v' := 10 * (1 - exY c)); auto; try (wsums; lra).
  - intros d Hd. unfold pot. pose proof (exp_pos (- d / 20)). lra.
  - wsums. unfold pot, exY. replace (g + c - g) with c by lra. lra.
  - match goal with |- nat_run _ (px _ _ ?f _ _) _ _ => assert (EP : forall d, pot (10 * (1 - exY c)) wb f 0 d = 10 + 10 / tcod * (d - exY c * tcod)) by (intros d; unfold pot, wb; field; lra) end.
    apply (x_fire dt Hdt HM _ _ _ _ _ (exY c * tcod) (step_at dt (exY c * tcod))); auto; try lra.
    + rewrite EP. lra.
    + intros e [He1 He2]. rewrite EP. assert (0 < 10 / tcod * (exY c * tcod - e)) by (apply Rmult_lt_0_compat; [apply Rdiv_lt_0_compat; lra|lra]). lra.
    + fold (exK c). lra.
    + intros h [].
    + apply r_end; auto; lra.
Qed.
(** the product *)
Lemma mul_value x1 x2 : 0 < x1 < 1 -> 0 < x2 < 1 ->
  - (x1 * x2 * (dt / 10)) * tcod <= exK (lgD x1 + lgD x2) - x1 * x2 * tcod <= dt.
Proof.
  intros H1 H2. pose proof (lgD_bounds x1 H1) as D1. pose proof (lgD_bounds x2 H2) as D2. set (c := lgD x1 + lgD x2).
  assert (Hc : 0 < c) by (unfold c; lra). pose proof (exK_bounds c Hc) as HK.
  assert (Hp : 0 < x1 * x2) by (apply Rmult_lt_0_compat; lra).
  assert (E12 : exp (ln x1 + ln x2) = x1 * x2) by (rewrite exp_plus, !exp_ln by lra; reflexivity).
  assert (HU : exY c <= x1 * x2).
  { rewrite <- E12. unfold exY. assert (- c / 20 <= ln x1 + ln x2) by (unfold c; lra). destruct (Rle_lt_or_eq_dec _ _ H) as [L|L]; [left; apply exp_increasing; auto|rewrite L; right; auto]. }
  assert (HL : x1 * x2 * (1 - dt / 10) <= exY c).
  { unfold exY. assert (ln x1 + ln x2 + - (dt / 10) <= - c / 20) by (unfold c; lra).
    assert (x1 * x2 * exp (- (dt / 10)) <= exp (- c / 20)).
    { rewrite <- E12, <- exp_plus. destruct (Rle_lt_or_eq_dec _ _ H) as [L|L]; [left; apply exp_increasing; auto|rewrite L; right; auto]. }
    pose proof (exp_ineq1_le (- (dt / 10))) as E. apply (Rmult_le_compat_l (x1 * x2)) in E; lra. }
  apply (Rmult_le_compat_r tcod) in HU; [|lra]. apply (Rmult_le_compat_r tcod) in HL; [|lra]. lra.
Qed.
End Acc.

(** ** the twelve neurons: input1 0, input2 1, first1 2, last1 3, acc_log1 4, zero 5, first2 6, last2 7, acc_log2 8, sync 9, acc_exp 10, output 11;
    the inputs spike at a1, b1 and a2, b2 *)
Definition mu_num (tmin tcod : R) : list (synapse R) :=
  let wb := 1000 / tcod in
  [syn 0 2 SynV 10 1; syn 0 3 SynV 5 1; syn 2 2 SynV (-10) 1; syn 2 4 SynGe wb (1 + tmin); syn 3 4 SynGe (- wb) 1; syn 3 9 SynV 5 1;
   syn 1 6 SynV 10 1; syn 1 7 SynV 5 1; syn 6 6 SynV (-10) 1; syn 6 8 SynGe wb (1 + tmin); syn 7 8 SynGe (- wb) 1; syn 7 9 SynV 5 1;
   syn 4 8 SynGf 50 1; syn 4 8 SynGate 1 1; syn 8 10 SynGate (-1) 1; syn 8 10 SynGe wb 1; syn 8 11 SynV 10 2;
   syn 9 4 SynGf 50 1; syn 9 4 SynGate 1 1; syn 9 10 SynGate 1 3; syn 9 10 SynGf 50 3; syn 10 11 SynV 10 (tmin + 1);
   syn 0 5 SynV (10 / 4) 350; syn 1 5 SynV (10 / 4) 350; syn 11 5 SynV (-10 / 2) 1; syn 5 11 SynV 10 1; syn 5 11 SynV 10 (1 + tmin)].
Lemma mu_syns_R tmin tcod a : tcod <> 0 -> mu_syns (DataEncoder tmin tcod) (Build_mul_net a 0 1 2 3 4 5 6 7 8 9 10 11) = mu_num tmin tcod.
Proof.
  intros H. unfold mu_syns, mu_num. cbn [mu_input1 mu_input2 mu_first1 mu_last1 mu_acc_log1 mu_zero mu_first2 mu_last2 mu_acc_log2 mu_sync mu_acc_exp mu_output].
  rewrite wbar_R. unfold gmult, ctm, ctf, max_prop_delay. consts. repeat (f_equal; try lra).
Qed.
Section Mul.
Variables tmin tcod dt x1 x2 a1 a2 : R.
Hypothesis Hdt : 0 < dt. Hypothesis HM : (horizon dt < 2 ^ 64)%Z. Hypothesis Hd5 : dt <= 500.
Hypothesis Htc : 0 < tcod. Hypothesis Htm : 1 < tmin. Hypothesis H5 : tcod + 2 * dt <= 500.
Hypothesis Hx1 : 0 <= x1 <= 1. Hypothesis Hx2 : 0 <= x2 <= 1. Hypothesis Ha1 : 0 <= a1. Hypothesis Ha2 : 0 <= a2.
Definition mb (a x : R) : R := a + (tmin + x * tcod).
Let b1 := mb a1 x1. Let b2 := mb a2 x2.
Definition mu_last : R := Rmax b1 b2.
Let M := mu_last.
(** the spikes of acc_log1, zero, acc_log2, acc_exp, output *)
Definition mu_F (l1 z l2 e o : list R) (n : nat) : list R :=
  match n with
  | 0%nat => [a1; b1] | 1%nat => [a2; b2] | 2%nat => [a1 + 1] | 3%nat => [b1 + 1] | 4%nat => l1 | 5%nat => z | 6%nat => [a2 + 1] | 7%nat => [b2 + 1]
  | 8%nat => l2 | 9%nat => [M + 2] | 10%nat => e | 11%nat => o | _ => [] end.
Definition mu_A2 : R := M + 4 + lgD dt x1 + lgD dt x2.
Definition mu_E : R := mu_A2 + 1 + exK tcod dt (lgD dt x1 + lgD dt x2).
(** operands above 0 *)
Definition mu_pos : nat -> list R := mu_F [M + 3 + lgD dt x1] [] [mu_A2] [mu_E] [mu_A2 + 2; mu_E + (tmin + 1)].
(** an operand 0 *)
Definition mu_nul : nat -> list R := mu_F (if Rlt_dec 0 x1 then [M + 3 + lgD dt x1] else []) [M + 350] [] [] [M + 351; M + 351 + tmin].
Definition mu_ins : list (nat * R) := [(0%nat, a1); (0%nat, b1); (1%nat, a2); (1%nat, b2)].
Lemma mbs : a1 + tmin <= b1 /\ a2 + tmin <= b2 /\ b1 <= M /\ b2 <= M /\ (M = b1 \/ M = b2).
Proof.
  assert (0 <= x1 * tcod) by (apply Rmult_le_pos; lra). assert (0 <= x2 * tcod) by (apply Rmult_le_pos; lra).
  unfold M, mu_last. split; [unfold b1, mb; lra|]. split; [unfold b2, mb; lra|]. split; [apply Rmax_l|]. split; [apply Rmax_r|]. apply Rmax_case; auto.
Qed.
Lemma mu_first a b : 0 <= a -> a + 1 < b -> resp dt rest0 [(a + 1, (SynV, 10)); (b + 1, (SynV, 10)); (a + 1 + 1, (SynV, -10))] [a + 1].
Proof. intros H0 H1. rewrite rest0_pn. rfire Hdt HM (@nil (R * (syntype * R))) [(a + 1, (SynV, 10))] [(b + 1, (SynV, 10)); (a + 1 + 1, (SynV, -10))]. rsilent Hdt HM. Qed.
Lemma mu_half a b m : 0 <= a -> 0 <= b -> a <= m -> b <= m -> (m = a \/ m = b) -> resp dt rest0 [(a, (SynV, 5)); (b, (SynV, 5))] [m].
Proof.
  intros H0 H1 H2 H3 H4. rewrite rest0_pn. destruct (Rtotal_order a b) as [C|[C|C]].
  - assert (m = b) as -> by lra. rfire Hdt HM [(a, (SynV, 5))] [(b, (SynV, 5))] (@nil (R * (syntype * R))). rsilent Hdt HM.
  - assert (m = b) as -> by lra. subst a. rfire Hdt HM (@nil (R * (syntype * R))) [(b, (SynV, 5)); (b, (SynV, 5))] (@nil (R * (syntype * R))). rsilent Hdt HM.
  - assert (m = a) as -> by lra. rfire Hdt HM [(b, (SynV, 5))] [(a, (SynV, 5))] (@nil (R * (syntype * R))). rsilent Hdt HM.
Qed.
Definition qs := [(a1 + 350, (SynV, 10 / 4)); (b1 + 350, (SynV, 10 / 4)); (a2 + 350, (SynV, 10 / 4)); (b2 + 350, (SynV, 10 / 4))].
Lemma mu_zero_silent u v : 0 <= u <= v -> u <= M + 350 -> resp dt rest0 (qs ++ [(u, (SynV, -10 / 2)); (v, (SynV, -10 / 2))]) [].
Proof. intros Hu HM'. pose proof mbs as (B1 & B2 & B3 & B4 & B5). unfold qs. rewrite rest0_pn. cbn [app]. rsilent Hdt HM. Qed.
Lemma mu_zero_fire u v : M + 350 < u <= v -> resp dt rest0 (qs ++ [(u, (SynV, -10 / 2)); (v, (SynV, -10 / 2))]) [M + 350].
Proof.
  intros Hu. pose proof mbs as (B1 & B2 & B3 & B4 & B5). unfold qs. rewrite rest0_pn. cbn [app].
  destruct (Rtotal_order b1 b2) as [C|[C|C]].
  - assert (M = b2) as E by lra. rewrite E in *.
    rfire Hdt HM [(a1 + 350, (SynV, 10 / 4)); (a2 + 350, (SynV, 10 / 4)); (b1 + 350, (SynV, 10 / 4))] [(b2 + 350, (SynV, 10 / 4))] [(u, (SynV, -10 / 2)); (v, (SynV, -10 / 2))]. rsilent Hdt HM.
  - assert (M = b2) as E by lra. rewrite E in *.
    rfire Hdt HM [(a1 + 350, (SynV, 10 / 4)); (a2 + 350, (SynV, 10 / 4))] [(b1 + 350, (SynV, 10 / 4)); (b2 + 350, (SynV, 10 / 4))] [(u, (SynV, -10 / 2)); (v, (SynV, -10 / 2))]. rsilent Hdt HM.
  - assert (M = b1) as E by lra. rewrite E in *.
    rfire Hdt HM [(a1 + 350, (SynV, 10 / 4)); (a2 + 350, (SynV, 10 / 4)); (b2 + 350, (SynV, 10 / 4))] [(b1 + 350, (SynV, 10 / 4))] [(u, (SynV, -10 / 2)); (v, (SynV, -10 / 2))]. rsilent Hdt HM.
Qed.
Lemma mu_pos_resp n : 0 < x1 < 1 -> 0 < x2 < 1 -> 20 * (- ln x1 - ln x2) + 2 * dt <= 343 -> (n < 12)%nat ->
  resp dt rest0 (received 10 (mu_num tmin tcod) mu_ins mu_pos n) (mu_pos n).
Proof.
  intros P1 P2 HL Hn. pose proof mbs as (B1 & B2 & B3 & B4 & B5).
  pose proof (lgD_bounds dt Hdt x1 ltac:(lra)) as D1. pose proof (lgD_bounds dt Hdt x2 ltac:(lra)) as D2.
  pose proof (exK_bounds tcod dt Hdt Htc (lgD dt x1 + lgD dt x2) ltac:(lra)) as HK.
  assert (HA : M + 4 < mu_A2) by (unfold mu_A2; lra). assert (HE : mu_A2 + 1 < mu_E) by (unfold mu_E; lra).
  assert (HA3 : mu_A2 + 3 < M + 350) by (unfold mu_A2; lra).
  destruct n as [|[|[|[|[|[|[|[|[|[|[|[|n]]]]]]]]]]]]; [..|exfalso; lia]; unfold mu_num, mu_ins, mu_pos; rcbn; cbn [mu_F map app].
  - apply relay2; auto; lra.
  - apply relay2; auto; lra.
  - apply mu_first; lra.
  - apply half2; auto; lra.
  - eapply resp_perm; [|apply (lg_fire tcod dt Hdt HM Htc x1 (a1 + 1 + (1 + tmin)) (M + 3)); unfold b1, mb in *; lra]. unfold b1, mb. perms.
  - eapply resp_perm; [|apply (mu_zero_silent (mu_A2 + 2 + 1) (mu_E + (tmin + 1) + 1)); lra]. unfold qs. cbn [app]. perms.
  - apply mu_first; lra.
  - apply half2; auto; lra.
  - match goal with |- resp _ _ _ [?t] => replace t with (M + 3 + lgD dt x1 + 1 + lgD dt x2) by (unfold mu_A2; ring) end.
    eapply resp_perm; [|apply (lg_fire tcod dt Hdt HM Htc x2 (a2 + 1 + (1 + tmin)) (M + 3 + lgD dt x1 + 1)); unfold b2, mb in *; lra]. unfold b2, mb. perms.
  - apply mu_half; lra.
  - match goal with |- resp _ _ _ [?t] => replace t with (M + 5 + (lgD dt x1 + lgD dt x2) + exK tcod dt (lgD dt x1 + lgD dt x2)) by (unfold mu_E, mu_A2; ring) end.
    eapply resp_perm; [|apply (ex_fire tcod dt Hdt HM Htc (M + 5) (lgD dt x1 + lgD dt x2)); lra]. unfold mu_A2. perms.
  - apply relay2; auto; lra.
Qed.
Lemma mu_nul_resp n : x1 < 1 -> x2 < 1 -> x1 = 0 \/ x2 = 0 -> (0 < x1 -> 20 * - ln x1 + 2 * dt <= 500) -> (n < 12)%nat ->
  resp dt rest0 (received 10 (mu_num tmin tcod) mu_ins mu_nul n) (mu_nul n).
Proof.
  intros Y1 Y2 P HL Hn. pose proof mbs as (B1 & B2 & B3 & B4 & B5).
  assert (HD1 : 0 < x1 -> 0 < 20 * - ln x1 <= lgD dt x1 /\ lgD dt x1 < 20 * - ln x1 + dt) by (intros; apply lgD_bounds; lra).
  destruct n as [|[|[|[|[|[|[|[|[|[|[|[|n]]]]]]]]]]]]; [..|exfalso; lia]; unfold mu_num, mu_ins, mu_nul; rcbn; cbn [mu_F map app].
  - apply relay2; auto; lra.
  - apply relay2; auto; lra.
  - apply mu_first; lra.
  - apply half2; auto; lra.
  - destruct (Rlt_dec 0 x1).
    + eapply resp_perm; [|apply (lg_fire tcod dt Hdt HM Htc x1 (a1 + 1 + (1 + tmin)) (M + 3)); unfold b1, mb in *; lra]. unfold b1, mb. perms.
    + assert (x1 = 0) as E by lra. eapply resp_perm; [|apply (lg_zero tcod dt Hdt HM (a1 + 1 + (1 + tmin)) (M + 3)); lra]. unfold b1, mb. rewrite E. perms.
  - eapply resp_perm; [|apply (mu_zero_fire (M + 351 + 1) (M + 351 + tmin + 1)); lra]. unfold qs. cbn [app]. perms.
  - apply mu_first; lra.
  - apply half2; auto; lra.
  - destruct (Rlt_dec 0 x1); cbn [map app].
    + assert (x2 = 0) as E by lra. eapply resp_perm; [|apply (lg_zero tcod dt Hdt HM (a2 + 1 + (1 + tmin)) (M + 3 + lgD dt x1 + 1)); lra]. unfold b2, mb. rewrite E. perms.
    + eapply resp_perm; [|apply (lg_idle tcod dt Hdt HM Htc x2 (a2 + 1 + (1 + tmin))); lra]. unfold b2, mb. perms.
  - apply mu_half; lra.
  - eapply resp_perm; [|apply (ex_idle dt Hdt HM (M + 5)); lra]. perms.
  - eapply resp_perm; [|apply (relay2 dt Hdt HM Hd5 (M + 351) (M + 351 + tmin)); lra]. perms.
Qed.
End Mul.
(** both operands as pairs of spikes; as values, PredSimulator starts both at time 0 *)
Definition two_spikes (tmin tcod : R) (n : nat) (x t : R) : list stim := [SSpike n t; SSpike n (t + (tmin + x * tcod))].
Lemma mul_pred (tmin tcod dt x1 x2 a1 a2 : R) nm stims F : dt_ok dt -> 0 < tcod -> 1 < tmin -> 0 <= x1 -> 0 <= x2 -> 0 <= a1 -> 0 <= a2 ->
  (forall m, mu_input1 m = 0%nat -> mu_input2 m = 1%nat -> pins (DataEncoder tmin tcod) (stims m) = mu_ins tmin tcod x1 x2 a1 a2 /\ Forall (stim_ok 12) (stims m)) ->
  (forall n, (n < 12)%nat -> resp dt rest0 (received 10 (mu_num tmin tcod) (mu_ins tmin tcod x1 x2 a1 a2) F n) (F n)) ->
  pruns (MultiplierNetwork (DataEncoder tmin tcod) nm) mu_mod (DataEncoder tmin tcod) dt stims (fun m s => pspike_log s (mu_output m) = F 11%nat).
Proof.
  intros HD Htc Htm Hx1 Hx2 Ha1 Ha2 HS HF. destruct (dt_ok_horizon dt HD) as [Hdt HM]. set (enc := DataEncoder tmin tcod).
  assert (HTm : tcod <> 0) by lra.
  destruct (Multiplier_built enc nm empty_world inv_empty (neq0 _ HTm)) as (m & w & E & HB & HN & HL).
  cbn [w_neurons empty_world length Nat.add] in HN, HL. destruct m as [a i0 i1 i2 i3 i4 i5 i6 i7 i8 i9 i10 i11]. unfold mu_nodes in HN. cbn in HN. injection HN as -> -> -> -> -> -> -> -> -> -> -> ->.
  unfold enc in HB. rewrite (mu_syns_R tmin tcod a HTm) in HB.
  destruct (HS (Build_mul_net a 0 1 2 3 4 5 6 7 8 9 10 11) eq_refl eq_refl) as [EI HSt].
  edestruct (psession_resp (MultiplierNetwork enc nm) mu_mod _ w _ enc dt stims F E HB Hdt HM) as [N HR].
  - rewrite HL. exact HSt.
  - cbn. intros y Hy. repeat (destruct Hy as [<-|Hy]; [cbn; lra|]). destruct Hy.
  - rewrite HL. intros n Hn. unfold enc. rewrite EI. apply HF. lia.
  - exists N. intros fuel Hf. destruct (HR fuel Hf) as (s & Es & HLg). eexists. exists s. split; [exact Es|]. cbn [mu_output]. apply HLg. lia.
Qed.
Ltac mulstims := intros m E1 E2; cbv beta; rewrite E1, E2; split; [unfold pins, mu_ins, mb, two_spikes; cbn [flat_map pstim app]; consts; rewrite ?Rplus_0_l; reflexivity|unfold two_spikes; cbn [app]; stims_ok].
Section MulThm.
Variables tmin tcod dt x1 x2 a1 a2 : R.
Hypothesis HD : dt_ok dt. Hypothesis Htc : 0 < tcod. Hypothesis Htm : 1 < tmin. Hypothesis H5 : tcod + 2 * dt <= 500.
Hypothesis Hx1 : 0 <= x1 < 1. Hypothesis Hx2 : 0 <= x2 < 1. Hypothesis Ha1 : 0 <= a1. Hypothesis Ha2 : 0 <= a2.
Variable stims : mul_net -> list stim.
Hypothesis HS : forall m, mu_input1 m = 0%nat -> mu_input2 m = 1%nat -> pins (DataEncoder tmin tcod) (stims m) = mu_ins tmin tcod x1 x2 a1 a2 /\ Forall (stim_ok 12) (stims m).
Lemma mul_pos_gen nm : 0 < x1 -> 0 < x2 -> 20 * (- ln x1 - ln x2) + 2 * dt <= 343 ->
  pruns (MultiplierNetwork (DataEncoder tmin tcod) nm) mu_mod (DataEncoder tmin tcod) dt stims
    (fun m s => pemits s (mu_output m) (DataEncoder tmin tcod) (x1 * x2) (Rmax (dt / tcod) (x1 * x2 * (dt / 10)))).
Proof.
  intros P1 P2 HL. destruct (dt_ok_horizon dt HD) as [Hdt HM]. assert (Hd5 : dt <= 500) by apply HD.
  destruct (mul_pred tmin tcod dt x1 x2 a1 a2 nm stims (mu_pos tmin tcod dt x1 x2 a1 a2)) as [N HN]; try lra; auto.
  { intros n Hn. apply (mu_pos_resp tmin tcod dt x1 x2 a1 a2); auto; lra. }
  exists N. intros fuel Hf. destruct (HN fuel Hf) as (m & s & Es & HLg). exists m, s. split; auto. cbn [mu_pos mu_F] in HLg.
  pose proof (mul_value tcod dt Hdt Htc x1 x2 ltac:(lra) ltac:(lra)) as HV. pose proof (lgD_bounds dt Hdt x1 ltac:(lra)). pose proof (lgD_bounds dt Hdt x2 ltac:(lra)).
  pose proof (exK_bounds tcod dt Hdt Htc (lgD dt x1 + lgD dt x2) ltac:(lra)) as HK.
  pose proof (Rmax_l (dt / tcod) (x1 * x2 * (dt / 10))) as M1. pose proof (Rmax_r (dt / tcod) (x1 * x2 * (dt / 10))) as M2.
  apply (Rmult_le_compat_r tcod) in M1; [|lra]. apply (Rmult_le_compat_r tcod) in M2; [|lra]. replace (dt / tcod * tcod) with dt in M1 by (field; lra).
  eapply pemits_intro; [auto|exact HLg|unfold mu_E; lra|]. apply Rabs_le. unfold mu_E. lra.
Qed.
Lemma mul_nul_gen nm : x1 * x2 = 0 -> (0 < x1 -> 20 * - ln x1 + 2 * dt <= 500) ->
  pruns (MultiplierNetwork (DataEncoder tmin tcod) nm) mu_mod (DataEncoder tmin tcod) dt stims
    (fun m s => pemits s (mu_output m) (DataEncoder tmin tcod) 0 0).
Proof.
  intros P HL. destruct (dt_ok_horizon dt HD) as [Hdt HM]. assert (Hd5 : dt <= 500) by apply HD. apply Rmult_integral in P.
  destruct (mul_pred tmin tcod dt x1 x2 a1 a2 nm stims (mu_nul tmin tcod dt x1 x2 a1 a2)) as [N HN]; try lra; auto.
  { intros n Hn. apply (mu_nul_resp tmin tcod dt x1 x2 a1 a2); auto; lra. }
  exists N. intros fuel Hf. destruct (HN fuel Hf) as (m & s & Es & HLg). exists m, s. split; auto. cbn [mu_nul mu_F] in HLg.
  eapply pemits_intro; [auto|exact HLg|lra|]. rewrite Rmult_0_l. apply Req_le. match goal with |- Rabs ?e = 0 => replace e with 0 by ring end. apply Rabs_R0.
Qed.
End MulThm.
Theorem pred_multiplier (tmin tcod x1 x2 dt t1 t2 : R) nm :
  dt_ok dt -> 0 < tcod -> 1 < tmin -> tcod + 2 * dt <= 500 -> 0 <= t1 -> 0 <= t2 -> 0 < x1 < 1 -> 0 < x2 < 1 -> 20 * (- ln x1 - ln x2) + 2 * dt <= 343 ->
  pruns (MultiplierNetwork (DataEncoder tmin tcod) nm) mu_mod (DataEncoder tmin tcod) dt (fun m => two_spikes tmin tcod (mu_input1 m) x1 t1 ++ two_spikes tmin tcod (mu_input2 m) x2 t2)
    (fun m s => pemits s (mu_output m) (DataEncoder tmin tcod) (x1 * x2) (Rmax (dt / tcod) (x1 * x2 * (dt / 10)))).
Proof. intros. apply (mul_pos_gen tmin tcod dt x1 x2 t1 t2); auto; try lra. mulstims. Qed.
Theorem pred_multiplier_values (tmin tcod x1 x2 dt t1 t2 : R) nm :
  dt_ok dt -> 0 < tcod -> 1 < tmin -> tcod + 2 * dt <= 500 -> 0 < x1 < 1 -> 0 < x2 < 1 -> 20 * (- ln x1 - ln x2) + 2 * dt <= 343 ->
  pruns (MultiplierNetwork (DataEncoder tmin tcod) nm) mu_mod (DataEncoder tmin tcod) dt (fun m => [SValue x1 (mu_input1 m) t1; SValue x2 (mu_input2 m) t2])
    (fun m s => pemits s (mu_output m) (DataEncoder tmin tcod) (x1 * x2) (Rmax (dt / tcod) (x1 * x2 * (dt / 10)))).
Proof. intros. apply (mul_pos_gen tmin tcod dt x1 x2 0 0); auto; try lra. mulstims. Qed.
Theorem pred_multiplier_zero (tmin tcod x1 x2 dt t1 t2 : R) nm :
  dt_ok dt -> 0 < tcod -> 1 < tmin -> tcod + 2 * dt <= 500 -> 0 <= t1 -> 0 <= t2 -> 0 <= x1 < 1 -> 0 <= x2 < 1 -> x1 * x2 = 0 -> (0 < x1 -> 20 * - ln x1 + 2 * dt <= 500) ->
  pruns (MultiplierNetwork (DataEncoder tmin tcod) nm) mu_mod (DataEncoder tmin tcod) dt (fun m => two_spikes tmin tcod (mu_input1 m) x1 t1 ++ two_spikes tmin tcod (mu_input2 m) x2 t2)
    (fun m s => pemits s (mu_output m) (DataEncoder tmin tcod) 0 0).
Proof. intros. apply (mul_nul_gen tmin tcod dt x1 x2 t1 t2); auto; try lra. mulstims. Qed.
Theorem pred_multiplier_zero_values (tmin tcod x1 x2 dt t1 t2 : R) nm :
  dt_ok dt -> 0 < tcod -> 1 < tmin -> tcod + 2 * dt <= 500 -> 0 <= x1 < 1 -> 0 <= x2 < 1 -> x1 * x2 = 0 -> (0 < x1 -> 20 * - ln x1 + 2 * dt <= 500) ->
  pruns (MultiplierNetwork (DataEncoder tmin tcod) nm) mu_mod (DataEncoder tmin tcod) dt (fun m => [SValue x1 (mu_input1 m) t1; SValue x2 (mu_input2 m) t2])
    (fun m s => pemits s (mu_output m) (DataEncoder tmin tcod) 0 0).
Proof. intros. apply (mul_nul_gen tmin tcod dt x1 x2 0 0); auto; try lra. mulstims. Qed.
