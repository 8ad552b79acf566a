(** Property theorems C33, C34.  The specification ([network_for], [placed_ok], [wires_of],
    [trigger_for], [compiled]) is at the top of CompilerProofs.v and at [compiled]. *)
From Coq Require Import Arith ZArith Bool String List Lia Reals Lra.
From Verif Require Import Num Heapq Elements Networks Simulator Scalar ScalarProofs Compiler Build BuildNets CompilerProofs.
Import ListNotations.
Open Scope list_scope.
Open Scope R_scope.

Lemma program_heap {fuel cs} {env : list (pyval R)} {h root} : run_cmds fuel cs [] [] = Ok (env, h) -> In (PScalar root) env -> heap_wf h /\ (root < length h)%nat.
Proof.
  intros E HR. destruct (run_cmds_ok fuel cs [] [] env h wf_nil (Forall_nil _) E) as (W & _ & HV).
  rewrite Forall_forall in HV. split; auto. exact (HV _ HR).
Qed.
(** [program h root]: h is the heap of Scalars of some program using the operators, root one of its Scalars *)
Definition program (h : list (scalar R)) (root : nat) : Prop :=
  exists fuel cs env, run_cmds fuel cs [] [] = Ok (env, h) /\ In (PScalar root) env.
(** all inputs the result depends on are at most max_range *)
Definition loads_at_most (h : list (scalar R)) (root : nat) (max_range : R) : Prop :=
  forall v s, reaches h root v -> nth_error h v = Some s -> x_op s = OLoad -> x_data s <= max_range.
Definition uses_only_supported (h : list (scalar R)) (root : nat) : Prop :=
  forall v s, reaches h root v -> nth_error h v = Some s -> x_op s <> ODiv.
Lemma only_supported (h : list (scalar R)) root v s : heap_wf h -> uses_only_supported h root -> reaches h root v -> nth_error h v = Some s -> supported (x_op s).
Proof.
  intros W U R0 E. specialize (U v s R0 E). specialize (W v s E). unfold node_ok in W. unfold supported. destruct (x_op s); auto; try contradiction; congruence.
Qed.

Lemma compile_preserves : forall h root max_range (w : world R), program h root -> inv w -> 0 < max_range <= 100 ->
  uses_only_supported h root -> loads_at_most h root max_range ->
  exists p w', compile_computation h root max_range w = Ok (p, w') /\ compiled h root max_range w p w'.
Proof.
  intros h root mr w (fuel & cs & env & E & HR) I Hm HU HL. destruct (program_heap E HR) as [W Hr].
  destruct (compile_ok h root mr w W Hr I Hm) as (p & w' & A & B & _); [|eauto].
  intros v s R0 Es. split; [eapply only_supported; eauto|]. intros Eo. apply (HL v s); auto.
Qed.
(** ** C33 *)
Theorem C33_compile_preserves_graph : forall h root max_range (w : world R), program h root -> inv w -> 0 < max_range <= 100 ->
  uses_only_supported h root -> loads_at_most h root max_range ->
  exists p w', compile_computation h root max_range w = Ok (p, w') /\ compiled h root max_range w p w'.
Proof. exact compile_preserves. Qed.
Print Assumptions C33_compile_preserves_graph.
Lemma compile_div : forall h root max_range (w : world R) v s, program h root -> inv w -> max_range <= 100 ->
  reaches h root v -> nth_error h v = Some s -> x_op s = ODiv -> compile_computation h root max_range w = Err EGeneric.
Proof.
  intros h root mr w v s (fuel & cs & env & E & HR) I Hm R0 Es Eo. destruct (program_heap E HR) as [W Hr].
  eapply compile_div_err; eauto.
Qed.
(** every computation in which a division is reachable is refused *)
Theorem C33_division_not_compiled : forall h root max_range (w : world R) v s, program h root -> inv w -> max_range <= 100 ->
  reaches h root v -> nth_error h v = Some s -> x_op s = ODiv -> compile_computation h root max_range w = Err EGeneric.
Proof. exact compile_div. Qed.
Print Assumptions C33_division_not_compiled.

(** ** C34 *)
Lemma range_guard : forall h root max_range (w : world R), program h root -> inv w -> 0 < max_range -> uses_only_supported h root ->
  (loads_at_most h root max_range /\ max_range <= 100 <-> exists r, compile_computation h root max_range w = Ok r) /\
  (~ (loads_at_most h root max_range /\ max_range <= 100) <-> compile_computation h root max_range w = Err EAssert).
Proof.
  intros h root mr w HP I Hm HU. pose proof HP as (fuel & cs & env & E & HR). destruct (program_heap E HR) as [W Hr].
  assert (HD : (loads_at_most h root mr /\ mr <= 100 /\ exists r, compile_computation h root mr w = Ok r) \/
               (~ (loads_at_most h root mr /\ mr <= 100) /\ compile_computation h root mr w = Err EAssert)).
  { destruct (Rle_dec mr 100) as [H1|H1].
    - destruct (trace_spec h root (wf_acyclic h W) Hr) as (ns & es & T1 & T2 & T3 & T4 & T5 & T6 & T7).
      destruct (Exists_dec (fun v => exists s, nth_error h v = Some s /\ x_op s = OLoad /\ mr < x_data s) ns) as [HE|HE].
      { intros v. destruct (nth_error h v) as [s|]; [|right; intros (s & A & _); discriminate].
        destruct (x_op s) eqn:Eo; try (right; intros (s' & A & B & _); injection A as <-; congruence).
        destruct (Rlt_dec mr (x_data s)); [left; exists s; auto|right; intros (s' & A & _ & B); injection A as <-; auto]. }
      + apply Exists_exists in HE as (v & Hv & s & Es & Eo & Hd). apply T4 in Hv. right. split.
        * intros [HL _]. specialize (HL v s Hv Es Eo). lra.
        * apply (compile_range_err h root mr w v s); auto. intros; eapply only_supported; eauto.
      + assert (HL : loads_at_most h root mr).
        { intros v s Hv Es Eo. apply Rnot_lt_le. intros Hd. apply HE, Exists_exists. exists v. split; [apply T4; auto|exists s; auto]. }
        left. split; auto. split; auto. destruct (compile_preserves h root mr w HP I ltac:(lra) HU HL) as (p & w' & A & _). eauto.
    - right. split; [tauto|]. apply compile_norm_err. lra. }
  destruct HD as [(A & B & r & C)|(A & C)].
  - split; split; eauto; intros X; [exfalso; apply X; auto|rewrite C in X; discriminate].
  - split; split; auto; try tauto. intros [r X]. rewrite C in X. discriminate.
Qed.
(** compilation succeeds exactly if no input exceeds max_range (and max_range <= 100), otherwise it raises AssertionError *)
Theorem C34_range_guard : forall h root max_range (w : world R), program h root -> inv w -> 0 < max_range -> uses_only_supported h root ->
  (loads_at_most h root max_range /\ max_range <= 100 <-> exists r, compile_computation h root max_range w = Ok r) /\
  (~ (loads_at_most h root max_range /\ max_range <= 100) <-> compile_computation h root max_range w = Err EAssert).
Proof. exact range_guard. Qed.
Print Assumptions C34_range_guard.
Lemma plan_loads : forall h root max_range (w : world R) p w' enc dt, program h root -> inv w -> 0 < max_range ->
  compile_computation h root max_range w = Ok (p, w') ->
  ((forall v s, reaches h root v -> nth_error h v = Some s -> x_op s = OLoad -> - max_range <= x_data s) <-> exists cs, init_with_plan w' p enc dt = Ok cs) /\
  ((exists v s, reaches h root v /\ nth_error h v = Some s /\ x_op s = OLoad /\ x_data s < - max_range) <-> init_with_plan w' p enc dt = Err EValue).
Proof.
  intros h root mr w p w' enc dt HP I Hm EC. pose proof HP as (fuel & cs & env & E & HR). destruct (program_heap E HR) as [W Hr].
  assert (H100 : mr <= 100). { apply Rnot_lt_le. intros Hlt. rewrite compile_norm_err in EC by auto. discriminate. }
  assert (HU : uses_only_supported h root).
  { intros v s A B C. rewrite (compile_div h root mr w v s) in EC; auto. discriminate. }
  destruct (range_guard h root mr w HP I Hm HU) as [G _]. destruct (proj2 G (ex_intro _ _ EC)) as [HL _].
  destruct (load_ok h root mr w enc dt W Hr I ltac:(lra)) as (p' & w'' & E' & A & B).
  { intros v s R0 Es. split; [eapply only_supported; eauto|]. intros Eo. apply (HL v s); auto. }
  rewrite EC in E'. injection E' as <- <-.
  destruct (trace_spec h root (wf_acyclic h W) Hr) as (ns & es & T1 & T2 & T3 & T4 & T5 & T6 & T7).
  destruct (Exists_dec (fun v => exists s, nth_error h v = Some s /\ x_op s = OLoad /\ x_data s < - mr) ns) as [HE|HE].
  { intros v. destruct (nth_error h v) as [s|]; [|right; intros (s & Q & _); discriminate].
    destruct (x_op s) eqn:Eo; try (right; intros (s' & Q & Q' & _); injection Q as <-; congruence).
    destruct (Rlt_dec (x_data s) (- mr)); [left; exists s; auto|right; intros (s' & Q & _ & Q'); injection Q as <-; auto]. }
  - apply Exists_exists in HE as (v & Hv & s & Es & Eo & Hd). apply T4 in Hv. assert (X := B (ex_intro _ v (ex_intro _ s (conj Hv (conj Es (conj Eo Hd)))))).
    split; split; auto.
    + intros [c Q]. rewrite X in Q. discriminate.
    + intros _. exists v, s. auto.
  - assert (Q : forall v s, reaches h root v -> nth_error h v = Some s -> x_op s = OLoad -> - mr <= x_data s).
    { intros v s Hv Es Eo. apply Rnot_lt_le. intros Hd. apply HE, Exists_exists. exists v. split; [apply T4; auto|exists s; auto]. }
    destruct (A Q) as [c X]. split; split.
    + intros _. exists c. exact X.
    + intros _. exact Q.
    + intros (v & s & Hv & Es & Eo & Hd). specialize (Q v s Hv Es Eo). lra.
    + intros Y. rewrite X in Y. discriminate.
Qed.
(** a compiled plan loads in a Simulator exactly if no input is below -max_range, otherwise ValueError *)
Theorem C34_plan_loads : forall h root max_range (w : world R) p w' enc dt, program h root -> inv w -> 0 < max_range ->
  compile_computation h root max_range w = Ok (p, w') ->
  ((forall v s, reaches h root v -> nth_error h v = Some s -> x_op s = OLoad -> - max_range <= x_data s) <-> exists cs, init_with_plan w' p enc dt = Ok cs) /\
  ((exists v s, reaches h root v /\ nth_error h v = Some s /\ x_op s = OLoad /\ x_data s < - max_range) <-> init_with_plan w' p enc dt = Err EValue).
Proof. exact plan_loads. Qed.
Print Assumptions C34_plan_loads.

(** a program sharing a node, with negation, sum and product: (a + -b) * (a + -b) *)
Definition c33_cmds : list (cmd R) := [CNew 3; CNew 5; CNeg (ARes 1); CBin BAdd (ARes 0) (ARes 2); CBin BMul (ARes 3) (ARes 3)].
Definition c33_h : list (scalar R) :=
  [{| x_data := 3; x_prev := []; x_op := OLoad |}; {| x_data := 5; x_prev := []; x_op := OLoad |};
   {| x_data := -1 * 5; x_prev := [1%nat]; x_op := ONeg |}; {| x_data := 3 + -1 * 5; x_prev := [0%nat; 2%nat]; x_op := OAdd |};
   {| x_data := (3 + -1 * 5) * (3 + -1 * 5); x_prev := [3%nat; 3%nat]; x_op := OMul |}].
Lemma c33_program : program c33_h 4.
Proof. exists 1%nat, c33_cmds, [PScalar 0; PScalar 1; PScalar 2; PScalar 3; PScalar 4]. split; [reflexivity|]. cbn; auto 10. Qed.
Lemma c33_node v s : nth_error c33_h v = Some s -> x_op s <> ODiv /\ (x_op s = OLoad -> 0 <= x_data s <= 5).
Proof.
  do 5 (destruct v as [|v]; [cbn; intros [= <-]; cbn; split; [discriminate|]; intros; try lra; discriminate|]).
  destruct v; discriminate.
Qed.
Example C33_ex : exists p w', compile_computation c33_h 4 20 empty_world = Ok (p, w') /\ compiled c33_h 4 20 empty_world p w'.
Proof.
  apply C33_compile_preserves_graph; [exact c33_program|exact inv_empty|lra| |].
  - intros v s _ E. apply (c33_node v s E).
  - intros v s _ E Eo. destruct (c33_node v s E) as [_ D]. specialize (D Eo). lra.
Qed.
(** with range 4 the input 5 is refused *)
Example C34_ex : compile_computation c33_h 4 4 empty_world = Err EAssert.
Proof.
  apply (C34_range_guard c33_h 4 4 empty_world c33_program inv_empty); [lra| |].
  - intros v s _ E. apply (c33_node v s E).
  - intros [HL _].
    assert (5 <= 4); [|lra]. apply (HL 1%nat {| x_data := 5; x_prev := []; x_op := OLoad |}); auto.
    apply r_step with 3%nat; [eexists; split; [reflexivity|cbn; auto]|]. apply r_step with 2%nat; [eexists; split; [reflexivity|cbn; auto]|].
    apply r_step with 1%nat; [eexists; split; [reflexivity|cbn; auto]|constructor].
Qed.
(** an input below -max_range compiles, and is refused when the plan is loaded *)
Example C34_load_ex : let h := [{| x_data := -5; x_prev := []; x_op := OLoad |}] in
  exists p w', compile_computation h 0 4 empty_world = Ok (p, w') /\ init_with_plan w' p DefaultEncoder (/ 1000) = Err EValue.
Proof.
  intros h. assert (HP : program h 0) by (exists 1%nat, [CNew (-5)], [PScalar 0]; split; [reflexivity|cbn; auto]).
  assert (HN : forall v s, nth_error h v = Some s -> s = {| x_data := -5; x_prev := []; x_op := OLoad |}) by (intros [|[|v]] s [= <-]; reflexivity).
  destruct (C34_range_guard h 0 4 empty_world HP inv_empty) as [G _]; [lra|intros v s _ E; rewrite (HN v s E); discriminate|].
  destruct (proj1 G) as [[p w'] E]; [split; [intros v s _ E _; rewrite (HN v s E); cbn; lra|lra]|].
  exists p, w'. split; [exact E|]. apply (C34_plan_loads h 0 4 empty_world p w' DefaultEncoder (/ 1000) HP inv_empty); [lra|exact E|].
  exists 0%nat, {| x_data := -5; x_prev := []; x_op := OLoad |}. split; [constructor|]. split; [reflexivity|]. split; [reflexivity|]. cbn. lra.
Qed.
