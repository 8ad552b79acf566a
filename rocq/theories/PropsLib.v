(** C57: the network library.  Each class of axon_sdk/networks is a request; the
    theorems say which constructor calls raise and that a network built by one call is
    a self-contained block of neurons. *)
From Coq Require Import Arith ZArith Bool String List Lia Floats.
From Verif Require Import Num Heapq Elements Networks Build BuildNets Lib.
Import ListNotations.
Open Scope list_scope. Open Scope nat_scope.

Section Calls.
Context {T : Type} `{Num T}.
(** a script: constructor calls, each with its own encoder and name *)
Definition job : Type := encoder T * option string * request (T := T).
Fixpoint create_all (l : list job) : B T (list nat) :=
  match l with
  | [] => bret []
  | (enc, nm, r) :: l' => bbind (create enc nm r) (fun m => bbind (create_all l') (fun ms => bret (m :: ms)))
  end.
(** the first exception, in call order *)
Fixpoint first_refusal (l : list job) : option err :=
  match l with
  | [] => None
  | (enc, _, r) :: l' => match refusal enc r with Some e => Some e | None => first_refusal l' end
  end.
Definition total (l : list job) : nat := list_sum (map (fun j => size (snd j)) l).
(** the neurons of the i-th network *)
Definition in_block (l : list job) (i n : nat) : Prop := total (firstn i l) <= n < total (firstn (S i) l).

Lemma all_spec : forall (l : list job) w, inv w ->
  match first_refusal l with
  | Some e => create_all l w = Err e
  | None => exists ms w', create_all l w = Ok (ms, w') /\ inv w' /\ List.length ms = List.length l /\
      List.length (w_neurons w') = List.length (w_neurons w) + total l /\
      (forall nr, In nr (w_neurons w') -> nr_params nr = std_params) /\
      (forall i m, nth_error ms i = Some m -> exists keys, neurons_of w' m = Ok keys /\
          forall n, In n keys <-> exists k, n = List.length (w_neurons w) + k /\ in_block l i k) /\
      (exists L, w_syns w' = w_syns w ++ L /\ forall y, In y L -> exists i a b, i < List.length l /\
          s_pre y = List.length (w_neurons w) + a /\ s_post y = List.length (w_neurons w) + b /\ in_block l i a /\ in_block l i b) /\
      (forall j, j < List.length (w_mods w) -> neurons_of w' j = neurons_of w j) /\ List.length (w_mods w) <= List.length (w_mods w')
  end.
Proof.
  induction l as [|[[enc nm] r] l IH]; intros w I; cbn [first_refusal].
  { exists [], w. split; [reflexivity|]. split; auto. split; auto. unfold total. cbn [map list_sum fold_right].
    split; [cbn; lia|]. split; [intros nr Hin; apply In_nth_error in Hin as [i Hi]; exact (i_prm _ I i nr Hi)|].
    split; [intros [|i] m E; discriminate|]. split; [exists []; rewrite app_nil_r; split; auto; intros y []|]. auto. }
  pose proof (create_spec enc nm r w I) as HS. destruct (refusal enc r) as [e|].
  { cbn [create_all]. apply bbind_err. exact HS. }
  destruct HS as (m & w1 & E1 & [S1 S2 S3 S4 S5] & I1).
  specialize (IH w1 I1). cbn [create_all]. rewrite (bbind_ok _ _ _ _ _ E1).
  destruct (first_refusal l) as [e|]; [apply bbind_err; exact IH|].
  destruct IH as (ms & w2 & E2 & I2 & L2 & N2 & P2 & K2 & Y2 & O2 & M2).
  rewrite (bbind_ok _ _ _ _ _ E2). exists (m :: ms), w2. split; [reflexivity|]. split; auto. split; [cbn; lia|].
  destruct S1 as (new & En & Ln & _). assert (Hlen : List.length (w_neurons w1) = List.length (w_neurons w) + size r) by (rewrite En, app_length; lia).
  assert (Ht : forall k, total (firstn (S k) ((enc, nm, r) :: l)) = size r + total (firstn k l)) by reflexivity.
  assert (Ht2 : total ((enc, nm, r) :: l) = size r + total l) by reflexivity.
  split; [rewrite N2, Hlen; etransitivity; [|apply f_equal; symmetry; exact Ht2]; lia|]. split; auto. split; [|split].
  - intros [|i] m' Em; cbn [nth_error] in Em.
    + injection Em as <-. destruct S3 as (keys & Ek & HK). exists keys. rewrite O2 by lia. split; auto.
      intros n. rewrite HK. unfold in_block. rewrite Ht. cbn [firstn]. change (total []) with 0. rewrite Nat.add_0_r. split.
      * intros Hn. exists (n - List.length (w_neurons w)). lia.
      * intros (k & -> & Hk). lia.
    + destruct (K2 i m' Em) as (keys & Ek & HK). exists keys. split; auto. intros n. rewrite HK. unfold in_block. rewrite !Ht. split.
      * intros (k & -> & Hk). exists (size r + k). lia.
      * intros (k & -> & Hk). exists (k - size r). lia.
  - destruct S2 as (L1 & EL1 & HL1). destruct Y2 as (L3 & EL3 & HL3). exists (L1 ++ L3). split; [rewrite EL3, EL1, app_assoc; auto|].
    intros y Hy. apply in_app_iff in Hy as [Hy|Hy].
    + destruct (HL1 y Hy). exists 0, (s_pre y - List.length (w_neurons w)), (s_post y - List.length (w_neurons w)). unfold in_block. rewrite Ht.
      cbn [firstn]. change (total []) with 0. cbn [List.length]. lia.
    + destruct (HL3 y Hy) as (i & a & b & Hi & Ea & Eb & Ba & Bb). exists (S i), (size r + a), (size r + b). unfold in_block in *. rewrite !Ht. cbn [List.length]. lia.
  - split; [|lia]. intros j Hj. rewrite O2 by lia. apply S4; auto.
Qed.
End Calls.

(** C57: a library script either raises the first exception of its calls, or builds one
    network per call: the i-th network lists exactly the neurons of its block, all with
    the standard parameters, and no synapse joins two networks. *)
Theorem C57_library_script : forall (T : Type) (HT : Num T) (l : list (job (T := T))),
  match first_refusal l with
  | Some e => create_all l empty_world = Err e
  | None => exists ms w, create_all l empty_world = Ok (ms, w) /\ List.length ms = List.length l /\
      List.length (w_neurons w) = total l /\
      (forall nr, In nr (w_neurons w) -> nr_params nr = {| Vt := nofZ 10; tm := nofZ 100; tf := nofZ 20; Vreset := nofZ 0 |}) /\
      (forall i m, nth_error ms i = Some m -> exists keys, neurons_of w m = Ok keys /\ forall n, In n keys <-> in_block l i n) /\
      (forall y, In y (w_syns w) -> exists i, i < List.length l /\ in_block l i (s_pre y) /\ in_block l i (s_post y))
  end.
Proof.
  intros T HT l. pose proof (all_spec l empty_world inv_empty) as HS. destruct (first_refusal l); auto.
  destruct HS as (ms & w & E & _ & HL & HN & HP & HK & (L & EL & HY) & _).
  exists ms, w. split; auto. split; auto. split; [exact HN|]. split; [exact HP|]. split.
  - intros i m Em. destruct (HK i m Em) as (keys & Ek & HI). exists keys. split; auto. intros n. rewrite HI. cbn. split; [intros (k & -> & Hk); auto|eauto].
  - intros y Hy. rewrite EL in Hy. destruct (HY y Hy) as (i & a & b & Hi & -> & -> & Ba & Bb). exists i. auto.
Qed.

(** C57, one more call on whatever a script has built: it raises exactly the exception
    [refusal] names, or adds one self-contained network and leaves every earlier
    network as it was. *)
Theorem C57_library_call : forall (T : Type) (HT : Num T) (l : list (job (T := T))) ms w enc nm r,
  create_all l empty_world = Ok (ms, w) ->
  match refusal enc r with
  | Some e => create enc nm r w = Err e
  | None => exists m w', create enc nm r w = Ok (m, w') /\ self_contained w w' m (size r)
  end.
Proof.
  intros T HT l ms w enc nm r E. pose proof (all_spec l empty_world inv_empty) as HS.
  destruct (first_refusal l) as [e|]; [congruence|]. destruct HS as (ms' & w' & E' & I & _). rewrite E in E'. injection E' as <- <-.
  pose proof (create_spec enc nm r w I) as HC. destruct (refusal enc r); auto. destruct HC as (m & w' & EC & SC & _). eauto.
Qed.

(** C57: IntegratorNetwork can never be constructed (integrator.py:47-49 passes the
    unknown keyword [prefix] to LinearCombinatorNetwork). *)
Theorem C57_integrator_refuted : forall (T : Type) (HT : Num T) (l : list (job (T := T))) ms w enc c coeffs prefix,
  create_all l empty_world = Ok (ms, w) ->
  IntegratorNetwork enc c coeffs prefix w = Err (if neqb (Tcod enc) nzero then EZeroDiv else EType).
Proof.
  intros T HT l ms w enc c coeffs prefix E. pose proof (all_spec l empty_world inv_empty) as HS.
  destruct (first_refusal l) as [e|]; [congruence|]. destruct HS as (ms' & w' & E' & I & _). rewrite E in E'. injection E' as <- <-.
  destruct (neqb (Tcod enc) nzero) eqn:Z; [apply zc_Integrator|apply t_Integrator]; auto.
Qed.

(** non-vacuity, in binary64: three networks, and refused calls *)
Definition enc64 : encoder float := DataEncoder 10%float 100%float.
Example C57_ex_script : let l := [(enc64, None, RMemory); (enc64, Some "a"%string, RLinearCombinator 3 [1; 2; -1]%float); (enc64, None, RDiv)] in
  first_refusal l = None /\ total l = 91 /\ in_block l 1 8 /\ in_block l 1 65 /\ in_block l 2 66.
Proof. vm_compute. repeat split; lia. Qed.
Example C57_ex_index : first_refusal [(enc64, None, RMemory); (enc64, None, RLinearCombinator 3 [1; 2]%float)] = Some EIndex.
Proof. reflexivity. Qed.
Example C57_ex_zero : refusal (DataEncoder 10 (-10))%float RMemory = Some EZeroDiv /\ refusal (DataEncoder 10 (-10))%float RExponential = None /\
  refusal (DataEncoder 10 0)%float RExponential = Some EZeroDiv.
Proof. repeat split; reflexivity. Qed.
Example C57_ex_run : exists ms w, create_all [(enc64, None, RMemory); (enc64, None, RSynchronizer 2)] empty_world = Ok (ms, w) /\ ms = [0; 1] /\
  List.length (w_syns w) = 38.
Proof. eexists. eexists. split; [vm_compute; reflexivity|]. split; reflexivity. Qed.
Print Assumptions C57_library_script.
Print Assumptions C57_library_call.
Print Assumptions C57_integrator_refuted.
