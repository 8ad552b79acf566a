(** Properties of the visualisation data: C40, C41, C45. *)
From Coq Require Import Arith ZArith QArith Bool String List Reals Lra Lia.
From Verif Require Import Num Elements Simulator Trace SimTrace SimProps CoreExtra ModTree Vis VisProofs.
Import ListNotations.
Open Scope list_scope.

(** ** C40 *)
(** [latest es i v] (VisProofs.v): v is the value of the entry of greatest index in [0, i], the last such
    entry of the list, or 0 if there is none *)
Theorem C40_build_array : forall (T : Type) (NT : Num T) (len : nat) (es : list (T * Z)),
  List.length (build_array len es) = len /\
  forall i v, nth_error (build_array len es) i = Some v ->
    (v = nzero /\ forall x, In x es -> ~ (0 <= snd x <= Z.of_nat i)%Z) \/
    exists k idx, nth_error es k = Some (v, idx) /\ (0 <= idx <= Z.of_nat i)%Z /\
      forall k' v' idx', nth_error es k' = Some (v', idx') -> (0 <= idx' <= Z.of_nat i)%Z -> (idx' < idx)%Z \/ idx' = idx /\ (k' <= k)%nat.
Proof. exact (@build_array_spec). Qed.
(** entries with a negative index are ignored, so for these "greatest index <= i" is false *)
Theorem C40_negative_index_refuted : build_array 2 [(5%Q, (-1)%Z)] = [0%Q; 0%Q].
Proof. reflexivity. Qed.
(** the docstring example *)
Example C40_ex : build_array 10 [(4%Q, 1%Z); (0%Q, 3%Z); (5%Q, 6%Z)] = map inject_Z [0; 4; 4; 0; 0; 0; 5; 5; 5; 5]%Z.
Proof. reflexivity. Qed.
Open Scope R_scope.
(** The chronogram of a simulation shows, for every neuron with Vreset = 0 and every timestep, the
    membrane potential at the end of the timestep, although the log only has the timesteps in which the neuron was updated. *)
Theorem C40_chronogram_is_potential : forall c ext ord T K, wf c ext -> ord_ok ord -> num_steps (c_dt c) T = Ok K ->
  exists s, simulate c ord (inject c (new_sim (c_world c)) ext) T = Ok s /\
    forall n, (n < List.length (w_neurons (c_world c)))%nat -> Vreset (prm (c_world c) n) = 0 ->
      build_array K (map (fun e => (fst e, Z.of_nat (snd e))) (voltage_log s n)) =
      map (fun k => V (st (net_of (c_world c) ext (c_dt c)) k n)) (seq 1 K).
Proof.
  intros c ext ord T K W HO HK. destruct (delivery c ext ord T K W HO HK) as (s & E & D & _). exists s. split; auto.
  intros n Hn HV. set (N := net_of (c_world c) ext (c_dt c)) in *. destruct (D n Hn) as (_ & _ & ->).
  assert (HR : Vreset (t_prm N n) < Vt (t_prm N n)). { destruct W. apply wf_reset. auto. }
  rewrite map_map. cbn [fst snd].
  set (es := map _ (filter (fun k => touched N k n) (seq 1 K))).
  destruct (build_array_spec K es) as [HL HB].
  apply list_eq_nth; [rewrite HL, map_length, seq_length; auto|]. intros i Hi. rewrite HL in Hi.
  assert (Es : nth_error (seq 1 K) i = Some (1 + i)%nat).
  { rewrite nth_error_nth' with (d := 0%nat) by (rewrite seq_length; lia). rewrite seq_nth; auto. }
  erewrite map_nth_error by exact Es.
  destruct (nth_error (build_array K es) i) as [v|] eqn:Ev; [|apply nth_error_None in Ev; lia]. f_equal. specialize (HB i v Ev).
  assert (HE : forall v' idx, In (v', idx) es <-> exists k, (1 <= k <= K)%nat /\ touched N k n = true /\ v' = V (st N k n) /\ idx = Z.of_nat (k - 1)).
  { intros v' idx. unfold es. rewrite in_map_iff. split.
    - intros (k & [= <- <-] & Hk). apply filter_In in Hk as [Hk Ht]. apply in_seq in Hk. exists k. split; [lia|auto].
    - intros (k & Hk & Ht & -> & ->). exists k. split; auto. apply filter_In. split; auto. apply in_seq. lia. }
  assert (US : forall a b, (a <= b)%nat -> (forall k, (a < k <= b)%nat -> touched N k n = false) -> V (st N b n) = V (st N a n)).
  { intros a b Hab. induction Hab as [|b Hab IH]; intros Ht; auto. rewrite <- IH by (intros; apply Ht; lia).
    specialize (Ht (S b) ltac:(lia)). unfold touched in Ht. apply orb_false_iff in Ht as [T1 T2]. replace (S b - 1)%nat with b in T2 by lia.
    destruct (untouched_step c ext b n Hn) as [X _]; auto; [apply V_below; auto|]. fold N in X. congruence. }
  destruct HB as [[-> HB]|(k & idx & B1 & B2 & B3)].
  - rewrite (US 0%nat (1 + i)%nat); [|lia|].
    2:{ intros k Hk. destruct (touched N k n) eqn:Et; auto. exfalso.
        apply (HB (V (st N k n), Z.of_nat (k - 1))); [apply HE; exists k; split; [lia|auto]|cbn [snd]; lia]. }
    rewrite st_0. cbn. symmetry. exact HV.
  - apply nth_error_In in B1 as B1'. apply HE in B1' as (k0 & Hk0 & Ht & -> & ->).
    rewrite (US k0 (1 + i)%nat); auto; [lia|]. intros k1 Hk1. destruct (touched N k1 n) eqn:Et; auto. exfalso.
    assert (In (V (st N k1 n), Z.of_nat (k1 - 1)) es) by (apply HE; exists k1; split; [lia|auto]).
    apply In_nth_error in H as (k' & Ek'). destruct (B3 _ _ _ Ek'); lia.
Qed.
(** plotting a net with a single neuron raises *)
Theorem C40_single_neuron_refuted : chronogram_colors (T := Q) 1 = Err EZeroDiv.
Proof. reflexivity. Qed.
Print Assumptions C40_build_array.
Print Assumptions C40_negative_index_refuted.
Print Assumptions C40_chronogram_is_potential.
Print Assumptions C40_single_neuron_refuted.

(** ** C41 *)
(** [below w s n]: neuron n was added to module s or, recursively, to a submodule of s.
    For a tree-shaped hierarchy: the view fails with KeyError iff a synapse leaves the net; otherwise
    it shows exactly the synapses that start at a top-level neuron or that leave a top-level submodule, and
    exactly their end points, each once *)
Theorem C41_topology : forall (T : Type) (NT : Num T) (w : world T) net md, subs_exist w -> (forall x, ~ pdesc w x x) ->
  tree_shaped w -> one_owner w -> nth_error (w_mods w) net = Some md ->
  ((forall y, In y (w_syns w) -> below w net (s_pre y) -> below w net (s_post y)) ->
   exists ns ss, to_display w net = Ok (ns, ss) /\ NoDup ns /\ NoDup ss /\
     (forall i, In i ss <-> exists y, nth_error (w_syns w) i = Some y /\
        (In (s_pre y) (m_neurons md) \/ exists s, In s (m_subs md) /\ below w s (s_pre y) /\ ~ below w s (s_post y))) /\
     (forall n, In n ns <-> exists i y, In i ss /\ nth_error (w_syns w) i = Some y /\ (n = s_pre y \/ n = s_post y))) /\
  (~ (forall y, In y (w_syns w) -> below w net (s_pre y) -> below w net (s_post y)) -> to_display w net = Err EKey).
Proof.
  intros T NT w net md HS HA HT HO Hnet. destruct (to_display_spec w HS HA HT HO net md Hnet) as [A B]. split; [|exact B].
  intros HC. destruct (A HC) as (ns & ss & E & N1 & N2 & H1 & H2). exists ns, ss. split; auto. split; auto. split; auto. split; auto.
  intros n. rewrite H2. split; intros (i & y & Hi & H); exists i, y; (split; [apply H1; exact Hi|auto]).
Qed.
(** no synapse between two neurons of the same top-level submodule is shown *)
Theorem C41_internal_hidden : forall (T : Type) (NT : Num T) (w : world T) net md ns ss i y s, subs_exist w -> (forall x, ~ pdesc w x x) ->
  tree_shaped w -> one_owner w -> nth_error (w_mods w) net = Some md -> to_display w net = Ok (ns, ss) ->
  nth_error (w_syns w) i = Some y -> In s (m_subs md) -> below w s (s_pre y) -> below w s (s_post y) -> ~ In i ss.
Proof.
  intros T NT w net md ns ss i y s HS HA HT HO Hnet E Ey Hs B1 B2 Hi.
  destruct (to_display_spec w HS HA HT HO net md Hnet) as [A B].
  assert (HC : closed w net).
  { intros y' Hy' HB. pose proof (neurons_total w net HS HA (net_lt w net md Hnet)) as (l & El).
    pose proof (neurons_members w net l El) as M. destruct (in_dec Nat.eq_dec (s_post y') l) as [Hin|Hin]; [apply M; auto|].
    exfalso. rewrite B in E; [discriminate|]. intros HC. apply Hin, M. apply HC; auto. }
  destruct (A HC) as (ns' & ss' & E' & _ & _ & H1 & _). rewrite E in E'. injection E' as -> ->. apply H1 in Hi as (y' & Ey' & Hd).
  assert (y' = y) by congruence. subst y'. destruct Hd as [Hd|(s' & Hs' & C1 & C2)].
  - eapply own_not_below; eauto.
  - assert (s' = s) by (eapply below_unique; eauto). subst. auto.
Qed.
(** every shown neuron of a submodule is in the box of its top-level submodule, top-level neurons are in no box *)
Theorem C41_groups : forall (T : Type) (NT : Num T) (w : world T) net md ns, subs_exist w -> (forall x, ~ pdesc w x x) ->
  tree_shaped w -> one_owner w -> nth_error (w_mods w) net = Some md -> (forall n, In n ns -> below w net n) ->
  exists g, groups_to_display w net ns = Ok g /\ forall n u, In (n, u) g <-> In n ns /\ exists s sd, In s (m_subs md) /\ nth_error (w_mods w) s = Some sd /\ below w s n /\ u = module_uid s sd.
Proof. intros T NT w net md ns HS HA HT HO Hnet. apply (groups_spec w HS HA HT HO net md Hnet). Qed.
(** the boxes: one per group id, holding the neurons of that group in order *)
Theorem C41_boxes : forall g,
  NoDup (map fst (format_groups g)) /\ (forall k, In k (map fst (format_groups g)) <-> In k (map snd g)) /\
  (forall k l, In (k, l) (format_groups g) -> l = map fst (filter (fun p => String.eqb (snd p) k) g)).
Proof. exact format_groups_spec. Qed.
Print Assumptions C41_topology.
Print Assumptions C41_internal_hidden.
Print Assumptions C41_groups.
Print Assumptions C41_boxes.
Definition vx : world Q := {| w_neurons := map (fun _ => {| nr_params := {| Vt := 10; tm := 100; tf := 20; Vreset := 0 |}%Q; nr_mod := None; nr_name := None |}) (seq 0 4);
  w_mods := [{| m_name := None; m_neurons := [0]%nat; m_subs := [1; 2]%nat |}; {| m_name := None; m_neurons := [1; 2]%nat; m_subs := [] |}; {| m_name := None; m_neurons := [3]%nat; m_subs := [] |}];
  w_syns := map (fun p => {| s_pre := fst p; s_post := snd p; s_ty := SynV; s_w := 10%Q; s_delay := 1%Q |}) [(1, 2); (0, 1); (2, 3)]%nat |}.
Example C41_ex : to_display vx 0 = Ok ([0; 1; 2; 3], [1; 2])%nat /\ subs_exist vx /\ tree_shaped vx /\ one_owner vx /\ (forall x, ~ pdesc vx x x).
Proof.
  split; [reflexivity|].
  assert (C : forall a b, child vx a b -> a = 0%nat /\ (b = 1 \/ b = 2)%nat).
  { intros a b (md & E & H). do 3 (destruct a as [|a]; [injection E as <-; cbn in H; intuition|]). destruct a; discriminate. }
  split; [intros m s H; apply C in H; cbn; lia|]. split; [unfold tree_shaped; cbn; repeat constructor; cbn; intuition discriminate|].
  split; [unfold one_owner; cbn; repeat constructor; cbn; intuition discriminate|].
  intros x (s & H1 & H2). apply C in H1 as [-> H1]. inversion H2 as [|? s' ? H3 H4]; subst; [lia|]. apply C in H3. lia.
Qed.

(** ** C45: neurons_with_module_uid maps a neuron to the module it was added to *)
Theorem C45_neuron_module : forall (T : Type) (w : world T) m d md n, subs_exist w -> (forall x, ~ pdesc w x x) -> one_owner w -> (m < List.length (w_mods w))%nat ->
  desc w m d -> nth_error (w_mods w) d = Some md -> In n (m_neurons md) ->
  neuron_module_uid w m n = Ok (Some (module_uid d md)).
Proof. exact (@neuron_module_spec). Qed.
Print Assumptions C45_neuron_module.
