(** C68: compile an expression once, evaluate it again and again in one simulation. *)
From Coq Require Import Arith ZArith Bool String List Reals Lra Lia Permutation.
From Verif Require Import PropsMul LnLib FuncNets PropsNets Num Heapq Elements Simulator Networks Scalar ScalarProofs Compiler Trace SimTrace SimProps TraceProps NeuronLib NetLib Build BuildNets Bridge Session SimpleNets Misc CompilerProofs E2EAdd E2ELib E2ENode E2ESpec E2ESound PropsCompiler E2E Reuse E2EAgainSpec E2EQuiet E2EAgain PropsE2E.
Import ListNotations.
Open Scope R_scope.
Open Scope list_scope.
Local Notation ms := (/ 1000).

Theorem C68_compiled_expression_again h root norm dt g ord : program h root -> 0 < norm <= 100 -> 0 < dt < / 50 -> 1 = INR g * dt -> ord_ok ord ->
  (forall v s, reaches h root v -> nth_error h v = Some s -> supported (x_op s) /\ (x_op s = OLoad -> Rabs (x_data s) <= norm)) ->
  (forall s, nth_error h root = Some s -> x_op s <> OLoad) ->
  exists p w c inp nodes,
    compile_computation h root norm empty_world = Ok (p, w) /\
    mk_simulator w (p_net p) DefaultEncoder dt = Ok (c, new_sim w) /\
    init_with_plan w p DefaultEncoder dt = (let* s := trigger_at c (new_sim w) (p_triggers p) 0 in Ok (c, s)) /\
    NoDup nodes /\ (forall v, In v nodes <-> reaches h root v) /\
    p_triggers p = inputs_of h norm inp nodes /\ rd_norm (p_reader p) = norm /\
    (* any number of rounds, each with its own inputs *)
    forall rs, Forall (round_ok h root norm dt) rs ->
    exists s0 s,
      play c (new_sim w) norm inp nodes 0 rs = Ok s0 /\
      simulate c ord s0 (INR (list_sum (map rd_steps rs)) * dt) = Ok s /\
      resting w s /\
      transcript root norm dt 0 rs (spike_log s (rd_plus (p_reader p))) (spike_log s (rd_minus (p_reader p))).
Proof.
  intros HPr Hn Hdt Eg HO HRe Hroot.
  destruct (compiled_setup h root norm HPr Hn HRe) as (nodes & pl & p & w & L & EC & HB & ND & HNo & HPl & HK & Hdis & HS & HTr & HRd & I').
  destruct (run_built (compile_computation h root norm) p w (p_net p) L DefaultEncoder dt [] 0 ord EC HB (proj1 Hdt) (Rle_refl 0) ltac:(intros ? []) HO) as (c & _ & Ec & _).
  exists p, w, c, (fun v => pl_out (pl v)), nodes. split; [exact EC|]. split; [exact Ec|]. split.
  { unfold init_with_plan. rewrite Ec. cbn [rbind fst snd]. rewrite apply_triggers_feed, trigger_feed. reflexivity. }
  split; [exact ND|]. split; [exact HNo|]. split; [exact HTr|]. rewrite HRd. split; [reflexivity|].
  intros rs HF. exact (again h root norm dt g ord nodes pl p w L c Hn Hdt Eg HO EC HB ND HNo HPl HK Hdis HS Ec Hroot rs HF).
Qed.

Lemma sum_repeatable h norm dt root : heap_wf h -> 0 < norm -> exact_sum h norm dt root -> forall n v, (v < n)%nat -> forall s, nth_error h v = Some s -> reaches h root v ->
  repeatable h norm dt v (x_data s / norm) 0 (112 + 482 * INR v).
Proof.
  intros W Hn HX. assert (HS : forall a c b, reaches h a c -> operand_of h b c -> reaches h a b).
  { induction 1; intros; econstructor; eauto. constructor. }
  induction n as [|n IH]; intros v Hv s E R0; [lia|]. specialize (HX v s R0 E). pose proof (W v s E) as Wv. unfold node_ok in Wv. pose proof (pos_INR v) as Pv.
  assert (TM : forall u, (u < v)%nat -> 112 + 482 * INR u + 482 <= 112 + 482 * INR v).
  { intros u Hu. apply (le_INR (S u)) in Hu. rewrite S_INR in Hu. lra. }
  destruct (x_op s) eqn:Eo; try contradiction.
  - destruct HX as [Hr [k Hk]]. eapply rp_weaken; [eapply rp_load_grid; eauto|lra|lra].
  - destruct Wv as (a & b & da & db & Ep & Ha & Hb & (sa & Ea & <-) & (sb & Eb & <-) & Ed). cbn in Ed.
    destruct (HX a b sa sb Ep Ea Eb) as (H1 & H2 & H3).
    assert (Ra : reaches h root a) by (apply (HS root v); auto; exists s; rewrite Ep; cbn; auto).
    assert (Rb : reaches h root b) by (apply (HS root v); auto; exists s; rewrite Ep; cbn; auto).
    pose proof (IH a ltac:(lia) sa Ea Ra) as Aa. pose proof (IH b ltac:(lia) sb Eb Rb) as Ab.
    pose proof (TM a Ha). pose proof (TM b Hb). pose proof (Rinv_0_lt_compat _ Hn) as Hi.
    assert (Q : forall z, z <= norm -> z / norm <= 1) by (intros z Hz; apply Rmult_le_reg_r with norm; auto; unfold Rdiv; rewrite Rmult_assoc, Rinv_l; lra).
    replace (x_data s / norm) with (x_data sa / norm + x_data sb / norm) by (rewrite Ed; field; lra).
    eapply rp_weaken; [eapply (rp_add h norm dt v s a b); eauto| |].
    + rewrite !max_scale by auto. pose proof (Q _ H1). unfold Rdiv in *. lra.
    + replace (- (x_data sa / norm)) with (- x_data sa / norm) by lra. replace (- (x_data sb / norm)) with (- x_data sb / norm) by lra.
      rewrite !max_scale by auto. pose proof (Q _ H2). unfold Rdiv in *. lra.
    + replace (x_data sa / norm + x_data sb / norm) with (x_data s / norm) by (rewrite Ed; field; lra). destruct H3 as [H3|H3]; [left|right].
      * assert (0 <= x_data s / norm) by (apply Rmult_le_pos; lra). lra.
      * apply Rmult_le_compat_r with (r := / norm) in H3; [|lra]. replace (- norm * ((1 / 100 + 2 * dt) / 100) * / norm) with (- ((1 / 100 + 2 * dt) / 100)) in H3 by (field; lra). unfold Rdiv in *. lra.
    + lra.
    + apply Rmax_case; lra.
  - destruct Wv as (a & da & Ep & Ha & (sa & Ea & <-) & Ed). cbn in Ed.
    assert (Ra : reaches h root a) by (apply (HS root v); auto; exists s; rewrite Ep; cbn; auto).
    pose proof (IH a ltac:(lia) sa Ea Ra) as Aa. pose proof (TM a Ha).
    replace (x_data s / norm) with (- (x_data sa / norm)) by (rewrite Ed; field; lra).
    eapply rp_weaken; [eapply (rp_neg h norm dt v s a); eauto|lra|lra].
Qed.
(** sums and differences of inputs on the time grid qualify with error 0: every round is answered exactly *)
Theorem C68_exact_rounds h root norm dt r s : 0 < norm -> same_shape h (rd_prog r) -> heap_wf (rd_prog r) -> nth_error (rd_prog r) root = Some s ->
  exact_sum (rd_prog r) norm dt root -> rd_err r = 0 -> 112 + 482 * INR root + 250 <= INR (rd_steps r) * dt -> round_ok h root norm dt r.
Proof.
  intros Hn SS W Es HX Ee HT. split; [exact SS|]. split; [exact W|]. exists (x_data s / norm), (112 + 482 * INR root). split; [|exact HT]. rewrite Ee.
  apply (sum_repeatable (rd_prog r) norm dt root W Hn HX (S root) root ltac:(lia) s Es). constructor.
Qed.
Theorem C68_exact_answer root norm r t0 t1 lp lm : 0 < norm -> rd_err r = 0 -> answer root norm r t0 t1 lp lm ->
  exists s a b, nth_error (rd_prog r) root = Some s /\ t0 < a /\ b <= t1 /\
    (lp = [a; b] /\ lm = [] /\ x_data s = norm * ((b - a - 10) / 100) \/ lp = [] /\ lm = [a; b] /\ x_data s = - norm * ((b - a - 10) / 100)).
Proof.
  intros Hn Ee (s & a & b & Es & H1 & _ & H2 & HA). exists s, a, b. rewrite Ee, Rmult_0_r in HA.
  assert (Z : forall u v, Rabs (u - v) <= 0 -> v = u).
  { intros u v H. pose proof (Rabs_pos (u - v)). destruct (Req_dec v u) as [|Hne]; auto. exfalso. apply (Rabs_no_R0 (u - v)); lra. }
  split; [exact Es|]. split; [exact H1|]. split; [exact H2|].
  destruct HA as [(-> & -> & HA)|(-> & -> & HA)]; [left|right]; (split; [reflexivity|split; [reflexivity|apply Z; exact HA]]).
Qed.
(** Simulator.decode_output reads the answer of a single round; after two or more it raises ValueError,
    although every round was answered: the spike logs have to be read pair by pair. *)
Lemma transcript_length root norm dt rs : forall t0 lp lm, transcript root norm dt t0 rs lp lm -> (length lp + length lm = 2 * length rs)%nat.
Proof.
  induction rs as [|r rs IH]; intros t0 lp lm H.
  - destruct H as [-> ->]. reflexivity.
  - cbn [transcript] in H. destruct H as (ap & am & lp' & lm' & -> & -> & (s & a & b & _ & _ & _ & _ & HA) & HT). specialize (IH _ _ _ HT). rewrite !app_length. cbn [length].
    destruct HA as [(-> & -> & _)|(-> & -> & _)]; cbn [length]; lia.
Qed.
Theorem C68_decode_output root norm dt t0 rs c s rd : c_enc c = DefaultEncoder -> rd_norm rd = norm ->
  transcript root norm dt t0 rs (spike_log s (rd_plus rd)) (spike_log s (rd_minus rd)) ->
  match rs with
  | [] => decode_output c s rd = Ok None
  | [r] => exists y sc, nth_error (rd_prog r) root = Some sc /\ decode_output c s rd = Ok (Some y) /\ Rabs (y - x_data sc) <= norm * rd_err r
  | _ => decode_output c s rd = Err EValue
  end.
Proof.
  intros Ee En HT. assert (HTc : Tcod (DefaultEncoder (T := R)) <> 0) by (cbn; lra).
  destruct rs as [|r rs].
  - destruct HT as [E1 E2]. unfold decode_output. rewrite E1, E2. reflexivity.
  - destruct rs as [|r2 rs].
    + cbn [transcript] in HT. destruct HT as (ap & am & lp' & lm' & E1 & E2 & (sc & a & b & Es & _ & _ & _ & HA) & -> & ->). rewrite app_nil_r in E1, E2.
      destruct HA as [(-> & -> & HA)|(-> & -> & HA)].
      * exists (norm * ((b - a - 10) / 100)), sc. split; [exact Es|]. split; [|exact HA].
        unfold decode_output. rewrite E1, E2. cbn [length Nat.eqb negb andb]. change (nsub b a) with (b - a). rewrite Ee, (decode_R _ _ HTc). cbn [rbind]. rewrite En. reflexivity.
      * exists (- norm * ((b - a - 10) / 100)), sc. split; [exact Es|]. split; [|exact HA].
        unfold decode_output. rewrite E1, E2. cbn [length Nat.eqb negb andb]. change (nsub b a) with (b - a). rewrite Ee, (decode_R _ _ HTc). cbn [rbind]. rewrite En. do 2 f_equal.
        cbn. change (10) with (IZR 10). change 100 with (IZR 100). lra.
    + pose proof (transcript_length _ _ _ _ _ _ _ HT) as HL. cbn [length] in HL. unfold decode_output.
      destruct (spike_log s (rd_plus rd)) as [|p1 [|p2 [|p3 lp]]] eqn:E1; destruct (spike_log s (rd_minus rd)) as [|m1 [|m2 [|m3 lm]]] eqn:E2; cbn [length Nat.eqb negb andb] in *; try reflexivity; lia.
Qed.
(** 3 - 5 in 2.1 seconds *)
Example C68_exact_ex : round_ok c33_h 3 20 ms {| rd_prog := c33_h; rd_steps := Z.to_nat 2100000; rd_err := 0 |}.
Proof.
  eapply C68_exact_rounds; cbn [rd_prog rd_steps rd_err]; [lra| | |reflexivity| |reflexivity|rewrite INR_Z by lia; cbn; lra].
  - unfold same_shape, c33_h. repeat constructor.
  - destruct c33_program as (fuel & cs & env & EP & HR). apply (program_heap EP HR).
  - assert (HR : forall v, reaches c33_h 3 v -> (v <= 3)%nat).
    { assert (HO : forall p v, operand_of c33_h p v -> (p < v)%nat).
      { intros p v (s & E & HI). do 5 (destruct v as [|v]; [injection E as <-; cbn in HI; intuition lia|]). destruct v; discriminate. }
      assert (G : forall a b, reaches c33_h a b -> (b <= a)%nat) by (induction 1 as [|a p b Hp _ IH]; [lia|apply HO in Hp; lia]).
      intros v. apply G. }
    intros v s Hv Es. apply HR in Hv. destruct v as [|[|[|[|v]]]]; [| | | |lia]; injection Es as <-; cbn [x_op x_prev x_data].
    + split; [rewrite Rabs_right; lra|]. exists (Z.to_nat 15000). rewrite INR_Z, Rabs_right by (lia || lra). lra.
    + split; [rewrite Rabs_right; lra|]. exists (Z.to_nat 25000). rewrite INR_Z, Rabs_right by (lia || lra). lra.
    + exact I.
    + intros u1 u2 s1 s2 Ep E1 E2. injection Ep as <- <-. injection E1 as <-. injection E2 as <-. cbn [x_data].
      rewrite (Rmax_right 0 3), (Rmax_left 0 (-1 * 5)), (Rmax_left 0 (- (3))), (Rmax_right 0 (- (-1 * 5))) by lra. lra.
Qed.

(** (a - b) * (a - b), first for a = 3, b = 5, then for a = 6, b = 2: 4 and 16, up to 0.08, 1.4 seconds of simulated time each *)
Definition c68_h (a b : R) : list (scalar R) :=
  [{| x_data := a; x_prev := []; x_op := OLoad |}; {| x_data := b; x_prev := []; x_op := OLoad |};
   {| x_data := -1 * b; x_prev := [1%nat]; x_op := ONeg |}; {| x_data := a + -1 * b; x_prev := [0%nat; 2%nat]; x_op := OAdd |};
   {| x_data := (a + -1 * b) * (a + -1 * b); x_prev := [3%nat; 3%nat]; x_op := OMul |}].
Lemma c68_program a b : program (c68_h a b) 4.
Proof.
  exists 1%nat, [CNew a; CNew b; CNeg (ARes 1); CBin BAdd (ARes 0) (ARes 2); CBin BMul (ARes 3) (ARes 3)], [PScalar 0; PScalar 1; PScalar 2; PScalar 3; PScalar 4].
  split; [reflexivity|]. cbn; auto 10.
Qed.
Lemma c68_shape a b a' b' : same_shape (c68_h a b) (c68_h a' b').
Proof. unfold same_shape, c68_h. repeat constructor. Qed.
Lemma c68_round a b (na nb : Z) : (0 <= na)%Z -> (0 <= nb)%Z -> 0 <= a <= 10 -> 0 <= b <= 10 -> a / 20 * 100 = IZR na * ms -> b / 20 * 100 = IZR nb * ms ->
  2 <= Rabs (a - b) <= 4 -> round_ok (c68_h 3 5) 4 20 ms {| rd_prog := c68_h a b; rd_steps := Z.to_nat 1400000; rd_err := 4 / 1000 |}.
Proof.
  intros Hna Hnb Ha Hb Ea Eb HD. split; [apply c68_shape|]. split.
  { destruct (c68_program a b) as (fuel & cs & env & EP & HR). apply (program_heap EP HR). }
  cbn [rd_prog rd_err rd_steps].
  assert (A0 : repeatable (c68_h a b) 20 ms 0 (a / 20) 0 112).
  { apply (rp_load_grid (c68_h a b) 20 ms 0 {| x_data := a; x_prev := []; x_op := OLoad |} (Z.to_nat na)); [reflexivity|reflexivity|cbn; rewrite Rabs_right; lra|]. cbn [x_data]. rewrite INR_Z, Rabs_right by (lia || lra). exact Ea. }
  assert (A1 : repeatable (c68_h a b) 20 ms 1 (b / 20) 0 112).
  { apply (rp_load_grid (c68_h a b) 20 ms 1 {| x_data := b; x_prev := []; x_op := OLoad |} (Z.to_nat nb)); [reflexivity|reflexivity|cbn; rewrite Rabs_right; lra|]. cbn [x_data]. rewrite INR_Z, Rabs_right by (lia || lra). exact Eb. }
  assert (A2 : repeatable (c68_h a b) 20 ms 2 (- (b / 20)) 0 (112 + 2)) by (eapply rp_neg; [reflexivity|reflexivity|reflexivity|exact A1]).
  assert (HSn : 2 <= a - b \/ a - b <= - 2) by (revert HD; unfold Rabs; destruct (Rcase_abs _); lra).
  assert (A3 : repeatable (c68_h a b) 20 ms 3 (a / 20 + - (b / 20)) (0 + 0) (Rmax 112 (112 + 2) + 482)).
  { eapply rp_add; [reflexivity|reflexivity|reflexivity|exact A0|exact A2| | |].
    - rewrite Rmax_right, Rmax_left by lra. lra.
    - rewrite Rmax_left, Rmax_right by lra. lra.
    - destruct HSn; [left|right]; lra. }
  set (x := a / 20 + - (b / 20)) in *.
  assert (A3' : repeatable (c68_h a b) 20 ms 3 x 0 596) by (eapply rp_weaken; [exact A3|lra|rewrite Rmax_right; lra]).
  assert (AB : 1 / 10 <= Rabs x <= 2 / 10).
  { unfold x. replace (a / 20 + - (b / 20)) with ((a - b) * / 20) by lra. rewrite Rabs_mult, (Rabs_right (/ 20)) by lra. lra. }
  pose proof (rp_mul (c68_h a b) 20 ms 4 _ 3 3 _ _ _ _ _ _ eq_refl eq_refl eq_refl A3' A3') as A4. set (y := Rabs x) in *.
  assert (Y2 : 1 / 100 <= y * y <= 4 / 100).
  { split; [apply Rle_trans with (1 / 10 * (1 / 10)); [lra|apply Rmult_le_compat; lra]|apply Rle_trans with (2 / 10 * (2 / 10)); [apply Rmult_le_compat; lra|lra]]. }
  rewrite Rminus_0_r, Rplus_0_r in A4.
  assert (HE : exp (-14) <= y * y).
  { apply Rle_trans with (1 / 100); [|lra]. replace (-14) with (- INR 14) by (cbn; lra). apply exp_small; lra. }
  specialize (A4 ltac:(lra) ltac:(lra) ltac:(lra) ltac:(lra) HE ltac:(lra) ltac:(lra) ltac:(lra) ltac:(lra)).
  exists (20 * (x * x)), (596 + 474 + 110 / 20). rewrite INR_Z by lia. split; [|lra].
  eapply rp_weaken; [exact A4| |rewrite Rmax_right; lra]. rewrite !Rmult_0_r. lra.
Qed.
Example C68_ex : exists p w c inp nodes s0 s a1 a2 b1 b2,
  compile_computation (c68_h 3 5) 4 20 empty_world = Ok (p, w) /\
  play c (new_sim w) 20 inp nodes 0
    [{| rd_prog := c68_h 3 5; rd_steps := Z.to_nat 1400000; rd_err := 4 / 1000 |}; {| rd_prog := c68_h 6 2; rd_steps := Z.to_nat 1400000; rd_err := 4 / 1000 |}] = Ok s0 /\
  simulate c id_ord s0 2800 = Ok s /\ resting w s /\
  spike_log s (rd_plus (p_reader p)) = [a1; a2; b1; b2] /\ spike_log s (rd_minus (p_reader p)) = [] /\ a2 < 1401 /\ 1400 < b1 /\
  Rabs (20 * ((a2 - a1 - 10) / 100) - 4) <= 8 / 100 /\ Rabs (20 * ((b2 - b1 - 10) / 100) - 16) <= 8 / 100.
Proof.
  destruct (C68_compiled_expression_again (c68_h 3 5) 4 20 ms (Z.to_nat 1000) id_ord (c68_program 3 5) ltac:(lra) ltac:(lra) ms_grid id_ord_ok)
    as (p & w & c & inp & nodes & EC & _ & _ & _ & _ & _ & _ & H).
  { intros v s _ E. unfold supported. do 5 (destruct v as [|v]; [injection E as <-; cbn [x_op x_data]; split; [tauto|intros Q; first [discriminate Q|rewrite Rabs_right; lra]]|]). destruct v; discriminate. }
  { intros s [= <-]. discriminate. }
  destruct (H [{| rd_prog := c68_h 3 5; rd_steps := Z.to_nat 1400000; rd_err := 4 / 1000 |}; {| rd_prog := c68_h 6 2; rd_steps := Z.to_nat 1400000; rd_err := 4 / 1000 |}]) as (s0 & s & EP & ES & RS & HT).
  { constructor; [|constructor; [|constructor]].
    - apply (c68_round 3 5 15000 25000); try lra; try lia. rewrite Rabs_left; lra.
    - apply (c68_round 6 2 30000 10000); try lra; try lia. rewrite Rabs_right; lra. }
  exists p, w, c, inp, nodes, s0, s.
  cbn [transcript rd_steps] in HT. destruct HT as (ap & am & lp & lm & Ep & Em & (r1 & a1 & a2 & E1 & T1 & U1 & T2 & B) & (ap' & am' & lp' & lm' & -> & -> & (r2 & b1 & b2 & E2 & T3 & U2 & T4 & B') & -> & ->)).
  injection E1 as <-. injection E2 as <-. cbn [rd_err x_data] in B, B'. rewrite INR_Z in * by lia.
  exists a1, a2, b1, b2. split; [exact EC|]. split; [exact EP|]. split.
  { cbn [map rd_steps list_sum fold_right] in ES. rewrite plus_INR, plus_INR, INR_Z in ES by lia. change (INR 0) with 0 in ES.
    replace 2800 with ((IZR 1400000 + (IZR 1400000 + 0)) * ms) by lra. exact ES. }
  split; [exact RS|].
  destruct B as [(-> & -> & B)|(_ & _ & B)]; [|exfalso; rewrite Rabs_left in B; lra].
  destruct B' as [(-> & -> & B')|(_ & _ & B')]; [|exfalso; rewrite Rabs_left in B'; lra].
  rewrite Ep, Em. split; [reflexivity|]. split; [reflexivity|]. split; [lra|]. split; [lra|]. split.
  - replace 4 with ((3 + -1 * 5) * (3 + -1 * 5)) by lra. lra.
  - replace 16 with ((6 + -1 * 2) * (6 + -1 * 2)) by lra. lra.
Qed.
