(** Property theorems C49: a compiled expression computes its value.  Specification: E2ESpec.v. *)
From Coq Require Import Arith ZArith Bool String List Reals Lra Lia.
From Verif Require Import PropsMul Num Heapq Elements Simulator Networks Scalar ScalarProofs Compiler Trace SimTrace SimProps TraceProps Build CompilerProofs LnLib FuncNets PropsNets PropsCompiler E2ESpec E2ESound E2E.
Import ListNotations.
Open Scope list_scope.
Open Scope R_scope.
Local Notation ms := (/ 1000).

(** ** C49 *)
Lemma compiled_expression : forall h root norm dt g ord T x e tau, program h root -> 0 < norm <= 100 -> 0 < dt < / 50 -> 1 = INR g * dt -> ord_ok ord ->
  accurate h norm dt root x e tau -> tau <= T ->
  exists s y, nth_error h root = Some s /\ evaluate h root norm dt ord T = Ok (Some y) /\ Rabs (y - x_data s) <= norm * e.
Proof. exact evaluate_accurate. Qed.
Theorem C49_compiled_expression : forall h root norm dt g ord T x e tau, program h root -> 0 < norm <= 100 -> 0 < dt < / 50 -> 1 = INR g * dt -> ord_ok ord ->
  accurate h norm dt root x e tau -> tau <= T ->
  exists s y, nth_error h root = Some s /\ evaluate h root norm dt ord T = Ok (Some y) /\ Rabs (y - x_data s) <= norm * e.
Proof. exact compiled_expression. Qed.
Print Assumptions C49_compiled_expression.

Lemma max_scale norm x : 0 < norm -> Rmax 0 (x / norm) = Rmax 0 x / norm.
Proof.
  intros H. pose proof (Rinv_0_lt_compat _ H). unfold Rmax. destruct (Rle_dec 0 x), (Rle_dec 0 (x / norm)); unfold Rdiv in *; try lra.
  - exfalso. apply n. apply Rmult_le_pos; lra.
  - assert (x * / norm < 0); [|lra]. replace 0 with (0 * / norm) by lra. apply Rmult_lt_compat_r; lra.
Qed.
Lemma sum_accurate h norm dt root : heap_wf h -> 0 < norm -> exact_sum h norm dt root -> forall n v, (v < n)%nat -> forall s, nth_error h v = Some s -> reaches h root v ->
  accurate h norm dt v (x_data s / norm) 0 (112 + 482 * INR v).
Proof.
  intros W Hn HX. assert (HS : forall a c b, reaches h a c -> operand_of h b c -> reaches h a b).
  { induction 1; intros; econstructor; eauto. constructor. }
  induction n as [|n IH]; intros v Hv s E R0; [lia|]. specialize (HX v s R0 E). pose proof (W v s E) as Wv. unfold node_ok in Wv. pose proof (pos_INR v) as Pv.
  assert (TM : forall u, (u < v)%nat -> 112 + 482 * INR u + 482 <= 112 + 482 * INR v).
  { intros u Hu. apply (le_INR (S u)) in Hu. rewrite S_INR in Hu. lra. }
  destruct (x_op s) eqn:Eo; try contradiction.
  - destruct HX as [Hr [k Hk]]. eapply ac_weaken; [eapply ac_load_grid; eauto|lra|lra].
  - destruct Wv as (a & b & da & db & Ep & Ha & Hb & (sa & Ea & <-) & (sb & Eb & <-) & Ed). cbn in Ed.
    destruct (HX a b sa sb Ep Ea Eb) as (H1 & H2 & H3).
    assert (Ra : reaches h root a) by (apply (HS root v); auto; exists s; rewrite Ep; cbn; auto).
    assert (Rb : reaches h root b) by (apply (HS root v); auto; exists s; rewrite Ep; cbn; auto).
    pose proof (IH a ltac:(lia) sa Ea Ra) as Aa. pose proof (IH b ltac:(lia) sb Eb Rb) as Ab.
    pose proof (TM a Ha). pose proof (TM b Hb). pose proof (Rinv_0_lt_compat _ Hn) as Hi.
    assert (Q : forall z, z <= norm -> z / norm <= 1) by (intros z Hz; apply Rmult_le_reg_r with norm; auto; unfold Rdiv; rewrite Rmult_assoc, Rinv_l; lra).
    replace (x_data s / norm) with (x_data sa / norm + x_data sb / norm) by (rewrite Ed; field; lra).
    eapply ac_weaken; [eapply (ac_add h norm dt v s a b); eauto| |].
    + rewrite !max_scale by auto. pose proof (Q _ H1). unfold Rdiv in *. lra.
    + replace (- (x_data sa / norm)) with (- x_data sa / norm) by lra. replace (- (x_data sb / norm)) with (- x_data sb / norm) by lra.
      rewrite !max_scale by auto. pose proof (Q _ H2). unfold Rdiv in *. lra.
    + replace (x_data sa / norm + x_data sb / norm) with (x_data s / norm) by (rewrite Ed; field; lra). destruct H3 as [H3|H3]; [left|right].
      * assert (0 <= x_data s / norm) by (apply Rmult_le_pos; lra). lra.
      * apply Rmult_le_compat_r with (r := / norm) in H3; [|lra]. replace (- norm * ((1 / 100 + 2 * dt) / 100) * / norm) with (- ((1 / 100 + 2 * dt) / 100)) in H3 by (field; lra). unfold Rdiv in *. lra.
    + lra.
    + apply Rmax_case; lra.
  - destruct Wv as (a & da & Ep & Ha & (sa & Ea & <-) & Ed). cbn in Ed.
    assert (Ra : reaches h root a) by (apply (HS root v); auto; exists s; rewrite Ep; cbn; auto).
    pose proof (IH a ltac:(lia) sa Ea Ra) as Aa. pose proof (TM a Ha).
    replace (x_data s / norm) with (- (x_data sa / norm)) by (rewrite Ed; field; lra).
    eapply ac_weaken; [eapply (ac_neg h norm dt v s a); eauto|lra|lra].
Qed.
Lemma exact_sums : forall h root norm dt g ord T, program h root -> 0 < norm <= 100 -> 0 < dt < / 50 -> 1 = INR g * dt -> ord_ok ord ->
  exact_sum h norm dt root -> 112 + 482 * INR root <= T ->
  exists s, nth_error h root = Some s /\ evaluate h root norm dt ord T = Ok (Some (x_data s)).
Proof.
  intros h root norm dt g ord T HP Hn Hdt Eg HO HX HT. pose proof HP as (fuel & cs & env & E & HR). destruct (program_heap E HR) as [W Hr].
  destruct (nth_error h root) as [s|] eqn:Es; [|apply nth_error_None in Es; lia].
  pose proof (sum_accurate h norm dt root W (proj1 Hn) HX (S root) root ltac:(lia) s Es (r_refl _ _)) as HA.
  destruct (evaluate_accurate h root norm dt g ord T _ _ _ HP Hn Hdt Eg HO HA HT) as (s' & y & E1 & E2 & E3). rewrite Es in E1. injection E1 as <-.
  exists s. split; auto. rewrite E2. do 2 f_equal. rewrite Rmult_0_r in E3. pose proof (Rabs_pos (y - x_data s)). assert (Rabs (y - x_data s) = 0) by lra.
  destruct (Req_dec y (x_data s)) as [|Hne]; auto. exfalso. apply (Rabs_no_R0 (y - x_data s)); lra.
Qed.
(** sums and differences of inputs on the time grid are computed exactly *)
Theorem C49_exact_sums : forall h root norm dt g ord T, program h root -> 0 < norm <= 100 -> 0 < dt < / 50 -> 1 = INR g * dt -> ord_ok ord ->
  exact_sum h norm dt root -> 112 + 482 * INR root <= T ->
  exists s, nth_error h root = Some s /\ evaluate h root norm dt ord T = Ok (Some (x_data s)).
Proof. exact exact_sums. Qed.
Print Assumptions C49_exact_sums.

(** false as it stands for tiny negative sums: decode_output returns None, however long the simulation *)
Theorem C49_small_negative_refuted : forall h root norm dt g ord T s u1 u2 x1 e1 tau1 x2 e2 tau2,
  program h root -> 0 < norm <= 100 -> 0 < dt < / 50 -> 1 = INR g * dt -> ord_ok ord -> 0 <= T ->
  nth_error h root = Some s -> x_op s = OAdd -> x_prev s = [u1; u2] ->
  accurate h norm dt u1 x1 e1 tau1 -> accurate h norm dt u2 x2 e2 tau2 ->
  Rmax 0 x1 + Rmax 0 x2 + (e1 + e2) <= 1 -> Rmax 0 (- x1) + Rmax 0 (- x2) + (e1 + e2) <= 1 ->
  e1 + e2 + dt / 100 <= - (x1 + x2) -> - (x1 + x2) + (e1 + e2) + 2 * dt / 100 <= 1 / 100 / 100 ->
  evaluate h root norm dt ord T = Ok None.
Proof. exact evaluate_lost. Qed.
Print Assumptions C49_small_negative_refuted.

Lemma ms_grid : 1 = INR (Z.to_nat 1000) * ms. Proof. rewrite INR_Z by lia. lra. Qed.
(** 3 - 5, range 20, steps of 1/1000: exactly -2 *)
Example C49_exact_ex : evaluate c33_h 3 20 ms id_ord 2000 = Ok (Some (3 + -1 * 5)).
Proof.
  destruct (C49_exact_sums c33_h 3 20 ms (Z.to_nat 1000) id_ord 2000) as (s & E & EV); try lra; auto.
  - exists 1%nat, c33_cmds, [PScalar 0; PScalar 1; PScalar 2; PScalar 3; PScalar 4]. split; [reflexivity|]. cbn; auto 10.
  - apply ms_grid.
  - apply id_ord_ok.
  - assert (HR : forall v, reaches c33_h 3 v -> (v <= 3)%nat).
    { assert (HO : forall p v, operand_of c33_h p v -> (p < v)%nat).
      { intros p v (s & E & HI). do 5 (destruct v as [|v]; [injection E as <-; cbn in HI; intuition lia|]). destruct v; discriminate. }
      assert (G : forall a b, reaches c33_h a b -> (b <= a)%nat) by (induction 1 as [|a p b Hp _ IH]; [lia|apply HO in Hp; lia]).
      intros v. apply G. }
    intros v s Hv Es. apply HR in Hv. destruct v as [|[|[|[|v]]]]; [| | | |lia]; injection Es as <-; cbn [x_op x_prev x_data].
    + split; [rewrite Rabs_right; lra|]. exists (Z.to_nat 15000). rewrite INR_Z, Rabs_right by (lia || lra). lra.
    + split; [rewrite Rabs_right; lra|]. exists (Z.to_nat 25000). rewrite INR_Z, Rabs_right by (lia || lra). lra.
    + exact I.
    + intros u1 u2 s1 s2 Ep E1 E2. injection Ep as <- <-. injection E1 as <-. injection E2 as <-. cbn [x_data].
      rewrite (Rmax_right 0 3), (Rmax_left 0 (-1 * 5)), (Rmax_left 0 (- (3))), (Rmax_right 0 (- (-1 * 5))) by lra. lra.
  - cbn. lra.
  - injection E as <-. exact EV.
Qed.
(** (3 - 5) * (3 - 5), range 20: 4 up to 0.06 *)
Example C49_ex : exists y, evaluate c33_h 4 20 ms id_ord 2000 = Ok (Some y) /\ Rabs (y - 4) <= 6 / 100.
Proof.
  assert (A0 : accurate c33_h 20 ms 0 (3 / 20) 0 112).
  { apply (ac_load_grid c33_h 20 ms 0 {| x_data := 3; x_prev := []; x_op := OLoad |} (Z.to_nat 15000)); [reflexivity|reflexivity|cbn; rewrite Rabs_right; lra|]. cbn [x_data]. rewrite INR_Z, Rabs_right by (lia || lra). lra. }
  assert (A1 : accurate c33_h 20 ms 1 (5 / 20) 0 112).
  { apply (ac_load_grid c33_h 20 ms 1 {| x_data := 5; x_prev := []; x_op := OLoad |} (Z.to_nat 25000)); [reflexivity|reflexivity|cbn; rewrite Rabs_right; lra|]. cbn [x_data]. rewrite INR_Z, Rabs_right by (lia || lra). lra. }
  assert (A2 : accurate c33_h 20 ms 2 (- (5 / 20)) 0 (112 + 2)) by (eapply ac_neg; [reflexivity|reflexivity|reflexivity|exact A1]).
  assert (A3 : accurate c33_h 20 ms 3 (3 / 20 + - (5 / 20)) (0 + 0) (Rmax 112 (112 + 2) + 482)).
  { eapply ac_add; [reflexivity|reflexivity|reflexivity|exact A0|exact A2| | |].
    - rewrite Rmax_right, Rmax_left by lra. lra.
    - rewrite Rmax_left, Rmax_right by lra. lra.
    - right. lra. }
  assert (A3' : accurate c33_h 20 ms 3 (-2 / 20) 0 596).
  { replace (-2 / 20) with (3 / 20 + - (5 / 20)) by lra. eapply ac_weaken; [exact A3|lra|rewrite Rmax_right; lra]. }
  assert (AB : Rabs (-2 / 20) = 1 / 10) by (rewrite Rabs_left; lra).
  pose proof (ac_mul c33_h 20 ms 4 _ 3 3 _ _ _ _ _ _ eq_refl eq_refl eq_refl A3' A3') as A4. rewrite AB in A4.
  assert (HE : exp (-16) <= (1 / 10 - 0) * (1 / 10 - 0)).
  { replace (-16) with (- INR 16) by (cbn; lra). apply exp_small; lra. }
  specialize (A4 ltac:(lra) ltac:(lra) ltac:(lra) ltac:(lra) HE ltac:(lra) ltac:(lra) ltac:(lra)).
  destruct (C49_compiled_expression c33_h 4 20 ms (Z.to_nat 1000) id_ord 2000 _ _ _ c33_program ltac:(lra) ltac:(lra) ms_grid id_ord_ok A4) as (s & y & E & EV & B).
  - rewrite Rmax_right by lra. lra.
  - injection E as <-. cbn [x_data] in B. exists y. split; auto. replace 4 with ((3 + -1 * 5) * (3 + -1 * 5)) by lra. lra.
Qed.

(** 3 - 3.001, range 20, steps of 1/1000: no answer, ever *)
Definition c49_h : list (scalar R) :=
  [{| x_data := 3; x_prev := []; x_op := OLoad |}; {| x_data := 3001 / 1000; x_prev := []; x_op := OLoad |};
   {| x_data := -1 * (3001 / 1000); x_prev := [1%nat]; x_op := ONeg |}; {| x_data := 3 + -1 * (3001 / 1000); x_prev := [0%nat; 2%nat]; x_op := OAdd |}].
Lemma c49_program : program c49_h 3.
Proof.
  exists 1%nat, [CNew 3; CNew (3001 / 1000); CNeg (ARes 1); CBin BAdd (ARes 0) (ARes 2)], [PScalar 0; PScalar 1; PScalar 2; PScalar 3]. split; [reflexivity|]. cbn; auto 10.
Qed.
Example C49_small_ex : forall T, 0 <= T -> evaluate c49_h 3 20 ms id_ord T = Ok None.
Proof.
  intros T HT.
  assert (A0 : accurate c49_h 20 ms 0 (3 / 20) 0 112).
  { apply (ac_load_grid c49_h 20 ms 0 {| x_data := 3; x_prev := []; x_op := OLoad |} (Z.to_nat 15000)); [reflexivity|reflexivity|cbn; rewrite Rabs_right; lra|]. cbn [x_data]. rewrite INR_Z, Rabs_right by (lia || lra). lra. }
  assert (A1 : accurate c49_h 20 ms 1 (3001 / 1000 / 20) 0 112).
  { apply (ac_load_grid c49_h 20 ms 1 {| x_data := 3001 / 1000; x_prev := []; x_op := OLoad |} (Z.to_nat 15005)); [reflexivity|reflexivity|cbn; rewrite Rabs_right; lra|]. cbn [x_data]. rewrite INR_Z, Rabs_right by (lia || lra). lra. }
  assert (A2 : accurate c49_h 20 ms 2 (- (3001 / 1000 / 20)) 0 (112 + 2)) by (eapply ac_neg; [reflexivity|reflexivity|reflexivity|exact A1]).
  eapply (C49_small_negative_refuted c49_h 3 20 ms (Z.to_nat 1000) id_ord T _ _ _ _ _ _ _ _ _ c49_program ltac:(lra) ltac:(lra) ms_grid id_ord_ok HT eq_refl eq_refl eq_refl A0 A2); try lra.
  - rewrite Rmax_right, Rmax_left by lra. lra.
  - rewrite Rmax_left, Rmax_right by lra. lra.
Qed.
