(** Refinement: the simulator (event heap, active set, arbitrary set iteration
    order) computes exactly the synchronous recurrence of Trace.v. *)
From Coq Require Import Arith ZArith Bool List Reals Lra Lia Permutation.
From Verif Require Import Num NumOrd Heapq HeapqProofs Elements Simulator QueueProofs Trace.
Import ListNotations.
Open Scope R_scope.
Open Scope list_scope.

(** ** List and sum lemmas *)
Section Lists.
Context {A B' : Type}.
Lemma perm_split (P : A -> bool) l a b :
  Permutation l (a ++ b) -> Forall (fun x => P x = true) a -> Forall (fun x => P x = false) b ->
  Permutation a (filter P l) /\ Permutation b (filter (fun x => negb (P x)) l).
Proof.
  intros HP Ha Hb.
  assert (Hf : forall (Q : A -> bool) l l', Permutation l l' -> Permutation (filter Q l) (filter Q l')).
  { intros Q l0 l1 H. induction H; cbn; auto; repeat (destruct (Q _)); auto. constructor. etransitivity; eauto. }
  assert (Hid : forall (Q : A -> bool) l, Forall (fun x => Q x = true) l -> filter Q l = l).
  { intros Q l0 H. induction H as [|x l1 H1 H2 IH]; cbn; auto. rewrite H1, IH. auto. }
  assert (Hnil : forall (Q : A -> bool) l, Forall (fun x => Q x = false) l -> filter Q l = []).
  { intros Q l0 H. induction H as [|x l1 H1 H2 IH]; cbn; auto. rewrite H1, IH. auto. }
  split.
  - rewrite (Hf P _ _ HP), filter_app, (Hid P a), (Hnil P b), app_nil_r; auto.
  - rewrite (Hf _ _ _ HP), filter_app, (Hid _ b), (Hnil _ a); auto.
    + eapply Forall_impl; [|exact Ha]. cbn. intros x ->. auto.
    + eapply Forall_impl; [|exact Hb]. cbn. intros x ->. auto.
Qed.
Lemma filter_perm (Q : A -> bool) l l' : Permutation l l' -> Permutation (filter Q l) (filter Q l').
Proof. intros H. induction H; cbn; auto; repeat (destruct (Q _)); auto. constructor. etransitivity; eauto. Qed.
Lemma filter_filter (P Q : A -> bool) l : filter P (filter Q l) = filter (fun x => P x && Q x) l.
Proof.
  induction l as [|x l IH]; cbn; auto. destruct (Q x); cbn; [|rewrite andb_false_r; auto].
  rewrite andb_true_r. destruct (P x); congruence.
Qed.
Lemma filter_map (f : B' -> A) (P : A -> bool) l : filter P (map f l) = map f (filter (fun x => P (f x)) l).
Proof. induction l as [|x l IH]; cbn; auto. destruct (P (f x)); cbn; congruence. Qed.
Lemma filter_false (P : A -> bool) l : (forall x, In x l -> P x = false) -> filter P l = [].
Proof. intros H. induction l as [|x l IH]; cbn; auto. rewrite H by (left; auto). apply IH. intros; apply H; right; auto. Qed.
Lemma filter_true (P : A -> bool) l : (forall x, In x l -> P x = true) -> filter P l = l.
Proof. intros H. induction l as [|x l IH]; cbn; auto. rewrite H by (left; auto). f_equal. apply IH. intros; apply H; right; auto. Qed.
Lemma filter_rev' (P : A -> bool) l : filter P (rev l) = rev (filter P l).
Proof. induction l as [|x l IH]; cbn; auto. rewrite filter_app, IH. cbn. destruct (P x); cbn; auto. apply app_nil_r. Qed.
Lemma filter_flat_map (f : B' -> list A) (P : A -> bool) l : filter P (flat_map f l) = flat_map (fun x => filter P (f x)) l.
Proof. induction l as [|x l IH]; cbn; auto. rewrite filter_app, IH. auto. Qed.
Lemma flat_map_perm (f : B' -> list A) l l' : Permutation l l' -> Permutation (flat_map f l) (flat_map f l').
Proof.
  intros H. induction H; cbn; auto.
  - apply Permutation_app; auto.
  - rewrite !app_assoc. apply Permutation_app; auto. apply Permutation_app_comm.
  - etransitivity; eauto.
Qed.
Lemma flat_map_nil (f : B' -> list A) l : (forall x, In x l -> f x = []) -> flat_map f l = [].
Proof. intros H. induction l as [|x l IH]; cbn; auto. rewrite H by (left; auto). apply IH. intros; apply H; right; auto. Qed.
End Lists.

Lemma map_flat_map {A B C} (f : B -> C) (g : A -> list B) l : map f (flat_map g l) = flat_map (fun x => map f (g x)) l.
Proof. induction l as [|x l IH]; cbn; auto. rewrite map_app, IH. auto. Qed.

Lemma set_mem_In n l : set_mem n l = true <-> In n l.
Proof.
  unfold set_mem. rewrite existsb_exists. split.
  - intros (x & Hx & E). apply Nat.eqb_eq in E. subst; auto.
  - intros H. exists n. split; auto. apply Nat.eqb_refl.
Qed.
Lemma set_mem_nIn n l : set_mem n l = false <-> ~ In n l.
Proof. rewrite <- set_mem_In. destruct (set_mem n l); split; congruence. Qed.
Lemma set_add_In l n m : In m (set_add l n) <-> m = n \/ In m l.
Proof.
  unfold set_add. destruct (set_mem n l) eqn:E; cbn; [|intuition].
  apply set_mem_In in E. split; [auto|]. intros [->|]; auto.
Qed.
Lemma set_add_NoDup l n : NoDup l -> NoDup (set_add l n).
Proof.
  intros H. unfold set_add. destruct (set_mem n l) eqn:E; auto.
  constructor; auto. apply set_mem_nIn; auto.
Qed.
Lemma set_union_In b : forall a m, In m (set_union a b) <-> In m a \/ In m b.
Proof.
  unfold set_union. induction b as [|x b IH]; intros a m; cbn; [tauto|].
  rewrite IH, set_add_In. intuition.
Qed.
Lemma set_union_NoDup b : forall a, NoDup a -> NoDup (set_union a b).
Proof. unfold set_union. induction b as [|x b IH]; intros a H; cbn; auto. apply IH, set_add_NoDup; auto. Qed.

(** A duplicate-free sublist of seq 0 N outside which f is empty gives the same bag. *)
Lemma flat_map_sub {A} (f : nat -> list A) N l :
  NoDup l -> (forall n, In n l -> (n < N)%nat) -> (forall n, (n < N)%nat -> ~ In n l -> f n = []) ->
  Permutation (flat_map f l) (flat_map f (seq 0 N)).
Proof.
  intros ND HI HE.
  assert (HP : Permutation (l ++ filter (fun n => negb (set_mem n l)) (seq 0 N)) (seq 0 N)).
  { apply NoDup_Permutation.
    - induction l as [|x l IH] in ND |- *; cbn [app].
      + apply NoDup_filter, seq_NoDup.
      + inversion ND; subst. constructor.
        * rewrite in_app_iff, filter_In, negb_true_iff, set_mem_nIn. cbn [In]. tauto.
        * specialize (IH H2).
          assert (Hd : forall (a b b' : list nat), NoDup (a ++ b) -> (forall x, In x b' -> In x b) -> NoDup b' -> NoDup (a ++ b')).
          { clear. induction a as [|y a IH]; cbn; intros b b' H Hi Hb; auto.
            inversion H; subst. constructor; eauto. rewrite in_app_iff in *. intuition. }
          eapply Hd; [exact IH| |apply NoDup_filter, seq_NoDup].
          intros y. rewrite !filter_In, !negb_true_iff, !set_mem_nIn. cbn [In]. tauto.
    - apply seq_NoDup.
    - intros x. rewrite in_app_iff, filter_In, in_seq, negb_true_iff, set_mem_nIn. split.
      + intros [H|[H _]]; [apply HI in H; lia|lia].
      + intros H. destruct (in_dec Nat.eq_dec x l); auto. }
  rewrite <- (flat_map_perm f _ _ HP), flat_map_app, (flat_map_nil f (filter _ _)), app_nil_r; auto.
  intros x. rewrite filter_In, in_seq, negb_true_iff, set_mem_nIn. intros [H1 H2]. apply HE; auto; lia.
Qed.

Section Sums.
Context {A C : Type}.
Lemma sumR_app a b : sumR (a ++ b) = sumR a + sumR b.
Proof. unfold sumR. induction a as [|x a IH]; cbn; [lra|]. rewrite IH. lra. Qed.
Lemma sumR_perm a b : Permutation a b -> sumR a = sumR b.
Proof. unfold sumR. intros H; induction H; cbn; lra. Qed.
Definition sumf (f : A -> R) (l : list A) : R := sumR (map f l).
Lemma sumf_app f a b : sumf f (a ++ b) = sumf f a + sumf f b.
Proof. unfold sumf. rewrite map_app. apply sumR_app. Qed.
Lemma sumf_cons f x l : sumf f (x :: l) = f x + sumf f l.
Proof. reflexivity. Qed.
Lemma sumf_ext f g l : (forall x, In x l -> f x = g x) -> sumf f l = sumf g l.
Proof. intros H. unfold sumf. f_equal. apply map_ext_in. auto. Qed.
Lemma sumf_0 l : sumf (fun _ => 0) l = 0.
Proof. unfold sumf, sumR. induction l; cbn in *; lra. Qed.
Lemma sumf_add f g l : sumf (fun x => f x + g x) l = sumf f l + sumf g l.
Proof. unfold sumf, sumR. induction l; cbn in *; lra. Qed.
Lemma sumf_mult k f l : sumf (fun x => k * f x) l = k * sumf f l.
Proof. unfold sumf, sumR. induction l; cbn in *; [lra|]. rewrite IHl. lra. Qed.
Lemma sumf_filter f (P : A -> bool) l : sumf f (filter P l) = sumf (fun x => if P x then f x else 0) l.
Proof. unfold sumf, sumR. induction l as [|x l IH]; cbn; auto. destruct (P x); cbn; lra. Qed.
Lemma sumf_count (P : A -> bool) l : sumf (fun x => if P x then 1 else 0) l = INR (length (filter P l)).
Proof.
  unfold sumf, sumR. induction l as [|x l IH]; cbn [map fold_right filter]; [reflexivity|].
  destruct (P x); cbn [length]; [rewrite S_INR|]; lra.
Qed.
End Sums.
Lemma sumf_map {A C} (f : A -> R) (g : C -> A) l : sumf f (map g l) = sumf (fun x => f (g x)) l.
Proof. unfold sumf. rewrite map_map. auto. Qed.
Lemma sumf_flat_map {A C} (f : A -> R) (g : C -> list A) l : sumf f (flat_map g l) = sumf (fun x => sumf f (g x)) l.
Proof. induction l as [|x l IH]; cbn [flat_map]; [reflexivity|]. rewrite sumf_app, sumf_cons, IH. auto. Qed.
Lemma sumf_swap {A C} (f : A -> C -> R) la lc :
  sumf (fun a => sumf (fun c => f a c) lc) la = sumf (fun c => sumf (fun a => f a c) la) lc.
Proof.
  induction la as [|a la IH].
  - change (0 = sumf (fun _ : C => 0) lc). rewrite sumf_0. reflexivity.
  - rewrite sumf_cons, IH. rewrite <- sumf_add. apply sumf_ext. intros; rewrite sumf_cons; auto.
Qed.
Lemma sumf_single (g : nat -> R) a n k :
  (forall j, In j (seq a n) -> j <> k -> g j = 0) ->
  sumf g (seq a n) = if ((a <=? k)%nat && (k <? a + n)%nat)%bool then g k else 0.
Proof.
  revert a; induction n as [|n IH]; intros a H; cbn [seq].
  - change (sumf g []) with 0. rewrite Nat.add_0_r.
    destruct (Nat.leb_spec a k), (Nat.ltb_spec k a); cbn [andb]; auto; exfalso; lia.
  - rewrite sumf_cons, IH by (intros; apply H; [right|]; auto).
    destruct (Nat.eq_dec a k) as [->|Hne].
    + destruct (Nat.leb_spec (S k) k); [lia|].
      destruct (Nat.leb_spec k k); [|lia]. destruct (Nat.ltb_spec k (k + S n)); [|lia]. cbn. lra.
    + rewrite (H a) by (try left; auto).
      destruct (Nat.leb_spec (S a) k), (Nat.leb_spec a k), (Nat.ltb_spec k (S a + n)), (Nat.ltb_spec k (a + S n));
        cbn; try lia; lra.
Qed.

(** ** Setting *)
(** Injecting a list of external spikes with apply_input_spike. *)
Definition inject (c : cfg R) (s : sim R) (ext : list (nat * R)) : sim R :=
  fold_left (fun s p => apply_input_spike c s (fst p) (snd p)) ext s.

Definition dflt_params : nparams R := {| Vt := 1; tm := 1; tf := 1; Vreset := 0 |}.
Definition prm (w : world R) (n : nat) : nparams R :=
  match nth_error (w_neurons w) n with Some nr => nr_params nr | None => dflt_params end.
(** The recurrence data of a simulated network. *)
Definition net_of (w : world R) (ext : list (nat * R)) (dt : R) : tnet :=
  {| t_prm := prm w; t_syns := w_syns w; t_ext := ext; t_dt := dt |}.

(** Well-formed simulation: positive timestep; synapses connect existing neurons; the
    simulated net is closed under outgoing synapses; known synapse types; nonzero
    time constants; reset potential below threshold. *)
Record wf (c : cfg R) (ext : list (nat * R)) : Prop := {
  wf_dt : 0 < c_dt c;
  wf_keys : forall n, In n (c_keys c) -> (n < length (w_neurons (c_world c)))%nat;
  wf_range : forall y, In y (w_syns (c_world c)) -> (s_pre y < length (w_neurons (c_world c)))%nat;
  wf_syn : forall y, In y (w_syns (c_world c)) -> In (s_pre y) (c_keys c) ->
           In (s_post y) (c_keys c) /\ s_ty y <> SynOther;
  wf_reset : forall n, (n < length (w_neurons (c_world c)))%nat ->
           Vreset (prm (c_world c) n) < Vt (prm (c_world c) n);
  wf_tau : forall n, In n (c_keys c) -> tm (prm (c_world c) n) <> 0 /\ tf (prm (c_world c) n) <> 0;
  wf_ext : forall p, In p ext -> In (fst p) (c_keys c)
}.

(** Any iteration order of the sets. *)
Definition ord_ok (ord : nat -> list nat -> list nat) : Prop := forall i l, Permutation (ord i l) l.
(** More generally: any selection of neurons of the net that includes the requested ones. *)
Definition sel_ok (keys : list nat) (ord : nat -> list nat -> list nat) : Prop :=
  forall i l, NoDup l -> incl l keys -> NoDup (ord i l) /\ incl l (ord i l) /\ incl (ord i l) keys.
Lemma ord_sel_ok keys ord : ord_ok ord -> sel_ok keys ord.
Proof.
  intros H i l ND HI. pose proof (H i l) as HP. repeat split.
  - eapply Permutation_NoDup; [symmetry; exact HP|auto].
  - intros x Hx. eapply Permutation_in; [symmetry; exact HP|auto].
  - intros x Hx. apply HI. eapply Permutation_in; [exact HP|auto].
Qed.
(** Updating every neuron of the net at every step. *)
Definition dense (keys : list nat) (i : nat) (l : list nat) : list nat := keys.
Lemma dense_sel_ok keys : NoDup keys -> sel_ok keys (dense keys).
Proof. intros H i l ND HI. repeat split; auto. intros x Hx; auto. Qed.

(** ** Single-neuron update *)
Definition ustep (p : nparams R) (dt : R) (s : nstate R) : nstate R * bool :=
  let V1 := V s + dt * (ge s + gate s * gf s) / tm p in
  let gf1 := if Reqb (gate s) 0 then gf s else gf s - dt * (gf s / tf p) in
  if Rleb (Vt p) V1
  then ({| V := Vreset p; ge := 0; gf := 0; gate := 0 |}, true)
  else ({| V := V1; ge := ge s; gf := gf1; gate := gate s |}, false).
Definition recv (s : nstate R) (iV iGe iGf iGate : R) : nstate R :=
  {| V := V s + iV; ge := ge s + iGe; gf := gf s + iGf; gate := gate s + iGate |}.
Lemma nstep_ustep p dt s a b c d : nstep p dt s a b c d = ustep p dt (recv s a b c d).
Proof. reflexivity. Qed.

Lemma update_and_spike_ustep p dt s : tm p <> 0 -> tf p <> 0 ->
  exists s1 b, update_and_spike p dt s = Ok (s1, b) /\
    ustep p dt s = ((if b then reset p else s1), b).
Proof.
  intros H1 H2. unfold update_and_spike, pdiv, ngeb, nzero. cbn [neqb nofZ R_num].
  rewrite (proj2 (Reqb_false (tm p) 0)) by auto. cbn [rbind].
  rewrite (proj2 (Reqb_false (tf p) 0)) by auto. unfold ustep. cbn -[Reqb Rleb].
  destruct (Reqb (gate s) 0); cbn -[Reqb Rleb];
    (eexists _, _; split; [reflexivity|]);
    destruct (Rleb (Vt p) _); reflexivity.
Qed.

(** ** Delivery loop *)
Definition evsum (evs : list (event R)) (n : nat) (ty : syntype) : R :=
  sumf (fun e => if (e_nid e =? n)%nat && syntype_eqb (e_ty e) ty then e_w e else 0) evs.
Definition add_counts (c : counts) (l : list (event R)) : counts :=
  fold_left (fun c e => count_syn c (e_ty e)) l c.
Definition dst : nstate R := {| V := 0; ge := 0; gf := 0; gate := 0 |}.

Lemma recv_0 s : recv s 0 0 0 0 = s.
Proof. destruct s; unfold recv; cbn; f_equal; lra. Qed.

Lemma deliver_loop evs : forall s aff,
  Forall (fun e => (e_nid e < length (s_sts s))%nat /\ e_ty e <> SynOther) evs ->
  exists s' aff', rfold deliver evs (s, aff) = Ok (s', aff') /\
    s_q s' = s_q s /\ s_spk s' = s_spk s /\ s_vlt s' = s_vlt s /\
    length (s_sts s') = length (s_sts s) /\
    s_cnt s' = add_counts (s_cnt s) evs /\
    (forall n, (n < length (s_sts s))%nat ->
       nth n (s_sts s') dst = recv (nth n (s_sts s) dst) (evsum evs n SynV) (evsum evs n SynGe)
                                (evsum evs n SynGf) (evsum evs n SynGate)) /\
    (forall n, In n aff' <-> In n aff \/ exists e, In e evs /\ e_nid e = n) /\
    (NoDup aff -> NoDup aff').
Proof.
  induction evs as [|e evs IH]; intros s aff HF.
  - exists s, aff. cbn. repeat split; auto.
    + intros n Hn. unfold evsum, sumf. cbn. rewrite recv_0. auto.
    + intros [H|(e & [] & _)]. auto.
  - inversion HF as [|? ? [Hn Hty] HF']; subst. cbn [rfold].
    unfold deliver at 1.
    destruct (nth_error (s_sts s) (e_nid e)) as [st|] eqn:E;
      [|apply nth_error_None in E; lia].
    assert (Est : nth (e_nid e) (s_sts s) dst = st) by (apply nth_error_nth; auto).
    assert (Hrec : exists st', receive_synaptic_event st (e_ty e) (e_w e) = Ok st' /\
       st' = recv st (if syntype_eqb (e_ty e) SynV then e_w e else 0)
                     (if syntype_eqb (e_ty e) SynGe then e_w e else 0)
                     (if syntype_eqb (e_ty e) SynGf then e_w e else 0)
                     (if syntype_eqb (e_ty e) SynGate then e_w e else 0)).
    { destruct (e_ty e); cbn; try congruence; (eexists; split; [reflexivity|]);
        destruct st; unfold recv; cbn; f_equal; lra. }
    destruct Hrec as (st' & Er & Est').
    rewrite Er. cbn [rbind].
    set (s1 := {| s_q := s_q s; s_sts := _; s_spk := _; s_vlt := _; s_cnt := _ |}).
    assert (HL : length (s_sts s1) = length (s_sts s)) by (cbn; apply lset_length).
    destruct (IH s1 (set_add aff (e_nid e))) as (s' & aff' & E1 & E2 & E3 & E4 & E5 & E6 & E7 & E8 & E9).
    { rewrite HL. auto. }
    exists s', aff'. rewrite E1. repeat split; auto.
    + rewrite E5. auto.
    + intros n Hn'. rewrite E7 by lia. subst s1. cbn [s_sts].
      unfold evsum. rewrite !sumf_cons. fold (evsum evs n SynV) (evsum evs n SynGe) (evsum evs n SynGf) (evsum evs n SynGate).
      destruct (Nat.eqb_spec (e_nid e) n) as [<-|Hne]; cbn [andb].
      * rewrite nth_lset_eq by auto. rewrite Est'. rewrite Est. unfold recv; cbn. f_equal; lra.
      * rewrite nth_lset_ne by auto. unfold recv; cbn. f_equal; lra.
    + rewrite E8, set_add_In. intros [[->|H]|(e' & H1 & H2)]; eauto.
      * right. exists e. split; auto. left; auto.
      * right. exists e'. split; auto. right; auto.
    + rewrite E8, set_add_In. intros [H|(e' & [<-|H1] & H2)]; auto. right; eauto.
    + intros H. apply E9, set_add_NoDup; auto.
Qed.

(** ** Scheduling *)
Definition okR (e : event R) : Prop := True.
Lemma okR_all l : Forall (okE (fun _ : R => True)) l.
Proof. apply Forall_forall. intros; exact I. Qed.
Lemma schedule_q (w : world R) (s : sim R) n (t : R) : heap_ok event_lt (s_q s) ->
  heap_ok event_lt (s_q (schedule w s n t)) /\
  Permutation (s_q (schedule w s n t)) (s_q s ++ map (syn_event t) (out_syn w n)).
Proof.
  unfold schedule. cbn [s_q]. generalize (out_syn w n) (s_q s). clear s.
  induction l as [|y l IH]; intros q Hq; cbn [fold_left map].
  - rewrite app_nil_r. auto.
  - destruct (add_event_spec (fun _ : R => True) R_ord q (syn_event t y)) as (A1 & A2 & _); auto using okR_all.
    { exact I. }
    destruct (IH _ A1) as (B1 & B2). split; auto.
    rewrite B2, A2. cbn. rewrite Permutation_middle. auto.
Qed.

(** ** Update loop *)
Lemma filter_cons_eq (n m : nat) (t : R) l :
  filter (fun p => (fst p =? n)%nat) ((m, t) :: l) =
  (if (m =? n)%nat then [(m, t)] else []) ++ filter (fun p : nat * R => (fst p =? n)%nat) l.
Proof. cbn. destruct (m =? n)%nat; auto. Qed.

Section Upd.
Variable c : cfg R.
Let w := c_world c.
Let NN := length (w_neurons w).
Variables (i : nat) (t : R).
Variable sg : nat -> nstate R.
Let u n := ustep (prm w n) (c_dt c) (sg n).

Lemma update_loop l : forall s a,
  NoDup l -> (forall n, In n l -> In n (c_keys c) /\ (n < NN)%nat /\ tm (prm w n) <> 0 /\ tf (prm w n) <> 0) ->
  length (s_sts s) = NN ->
  (forall n, In n l -> nth n (s_sts s) dst = sg n) ->
  heap_ok event_lt (s_q s) ->
  exists s' a', rfold (update_neuron c i t) l (s, a) = Ok (s', a') /\
    length (s_sts s') = NN /\
    (forall n, (n < NN)%nat -> nth n (s_sts s') dst = if set_mem n l then fst (u n) else nth n (s_sts s) dst) /\
    heap_ok event_lt (s_q s') /\
    Permutation (s_q s') (s_q s ++ flat_map (fun n => if snd (u n) then map (syn_event t) (out_syn w n) else []) l) /\
    (forall n, spike_log s' n = spike_log s n ++ (if set_mem n l && snd (u n) then [t] else [])) /\
    (forall n, voltage_log s' n = voltage_log s n ++ (if set_mem n l then [(V (fst (u n)), i)] else [])) /\
    s_cnt s' = s_cnt s /\
    length (s_spk s') = (length (s_spk s) + length (filter (fun n => snd (u n)) l))%nat /\
    (NoDup a -> NoDup a') /\
    (forall n, In n a' <-> In n a \/ (In n l /\ is_active (fst (u n)) = true)).
Proof.
  induction l as [|x l IH]; intros s a ND HK HL HS Hq.
  - exists s, a. cbn. rewrite app_nil_r. repeat split; auto; try (intros; rewrite app_nil_r; auto).
    intros [H|[[] _]]; auto.
  - inversion ND as [|? ? Hx ND']; subst. cbn [rfold].
    destruct (HK x) as (K1 & K2 & K3 & K4); [left; auto|].
    assert (Enth : nth_error (s_sts s) x = Some (sg x)).
    { rewrite <- (HS x) by (left; auto). apply nth_error_nth'. lia. }
    assert (Enr : exists nr, nth_error (w_neurons (c_world c)) x = Some nr /\ nr_params nr = prm w x).
    { unfold prm. fold w. destruct (nth_error (w_neurons w) x) eqn:E; eauto.
      apply nth_error_None in E. unfold NN in K2. lia. }
    destruct Enr as (nr & Enr & Eprm).
    destruct (update_and_spike_ustep (prm w x) (c_dt c) (sg x) K3 K4) as (s1 & b & Eu & Eus).
    assert (Hux : u x = ((if b then reset (prm w x) else s1), b)) by exact Eus.
    unfold update_neuron at 1. rewrite Enth, Enr, Eprm, Eu. cbn [rbind].
    set (st2 := if b then reset (prm w x) else s1).
    set (sA := if b then schedule (c_world c) (set_state (log_spike s x t) x st2) x t else set_state s x st2).
    assert (Emem : set_mem x (c_keys c) = true) by (apply set_mem_In; auto).
    unfold log_voltage at 1. rewrite Emem. cbn [rbind].
    set (sB := {| s_q := s_q sA; s_sts := _; s_spk := _; s_vlt := _; s_cnt := _ |}).
    set (aB := if is_active st2 then set_add a x else a).
    assert (EstsB : s_sts sB = lset (s_sts s) x st2) by (subst sB sA; destruct b; reflexivity).
    assert (EspkB : s_spk sB = if b then (x, t) :: s_spk s else s_spk s) by (subst sB sA; destruct b; reflexivity).
    assert (EvltB : s_vlt sB = (x, (V st2, i)) :: s_vlt s) by (subst sB sA; destruct b; reflexivity).
    assert (EcntB : s_cnt sB = s_cnt s) by (subst sB sA; destruct b; reflexivity).
    assert (HqB : heap_ok event_lt (s_q sB) /\
             Permutation (s_q sB) (s_q s ++ if b then map (syn_event t) (out_syn w x) else [])).
    { subst sB sA. destruct b; cbn [s_q].
      - apply (schedule_q w (set_state (log_spike s x t) x st2) x t). auto.
      - rewrite app_nil_r. auto. }
    destruct HqB as [HqB1 HqB2].
    destruct (IH sB aB) as (s' & a' & E1 & E2 & E3 & E4 & E5 & E6 & E7 & E8 & E9 & E10 & E11); auto.
    { intros n Hn. apply HK. right; auto. }
    { rewrite EstsB, lset_length. auto. }
    { intros n Hn. rewrite EstsB, nth_lset_ne by (intros ->; auto). apply HS. right; auto. }
    exists s', a'. split; [exact E1|]. split; [exact E2|].
    assert (Hmx : forall n, set_mem n (x :: l) = (n =? x)%nat || set_mem n l) by reflexivity.
    assert (Hxl : set_mem x l = false) by (apply set_mem_nIn; auto).
    split; [|split; [exact E4|split; [|split; [|split; [|split; [|split; [|split]]]]]]].
    + intros n Hn. rewrite E3 by auto. rewrite Hmx, EstsB.
      destruct (Nat.eqb_spec n x) as [->|Hne]; cbn [orb].
      * rewrite Hxl, nth_lset_eq by lia. rewrite Hux. reflexivity.
      * rewrite nth_lset_ne by auto. reflexivity.
    + rewrite E5, HqB2. cbn [flat_map]. rewrite Hux. cbn [snd]. rewrite <- app_assoc. reflexivity.
    + intros n. rewrite E6. unfold spike_log. rewrite EspkB, Hmx.
      destruct b.
      * rewrite filter_cons_eq. rewrite (Nat.eqb_sym n x). destruct (Nat.eqb_spec x n) as [<-|Hne]; cbn [orb].
        -- rewrite Hxl. cbn. rewrite Hux. cbn. rewrite app_nil_r. auto.
        -- reflexivity.
      * destruct (Nat.eqb_spec n x) as [->|Hne]; cbn [orb]; auto.
        rewrite Hxl, Hux. reflexivity.
    + intros n. rewrite E7. unfold voltage_log. rewrite EvltB, Hmx. cbn [filter fst].
      rewrite (Nat.eqb_sym n x). destruct (Nat.eqb_spec x n) as [<-|Hne]; cbn [orb]; auto.
      rewrite Hxl. cbn. rewrite Hux. cbn. rewrite app_nil_r. auto.
    + congruence.
    + rewrite E9, EspkB. cbn [filter]. rewrite Hux. cbn [snd]. destruct b; cbn; lia.
    + intros H. apply E10. subst aB. destruct (is_active st2); auto using set_add_NoDup.
    + intros n. rewrite E11. subst aB. split.
      * intros [H|[H1 H2]].
        -- destruct (is_active st2) eqn:Ea.
           ++ apply set_add_In in H. destruct H as [->|H]; auto. right. split; [left; auto|].
              rewrite Hux. exact Ea.
           ++ auto.
        -- right. split; auto. right; auto.
      * intros [H|[[<-|H1] H2]].
        -- left. destruct (is_active st2); auto. apply set_add_In; auto.
        -- left. rewrite Hux in H2. cbn [fst] in H2. fold st2 in H2. rewrite H2. apply set_add_In; auto.
        -- right; auto.
Qed.
End Upd.

(** ** Specification-level observables *)
(** some spike arrives at neuron n at step k *)
Definition arrives (N : tnet) (n k : nat) : bool :=
  existsb (fun y => (s_post y =? n)%nat && (0 <? arr N (s_pre y) (s_delay y) k)%nat) (t_syns N).
(** neuron n is looked at in step k: something arrives or it has a nonzero conductance *)
Definition touched (N : tnet) (k n : nat) : bool := arrives N n k || is_active (st N (k - 1) n).
(** number of synaptic events of type ty processed in steps 1..K *)
Definition deliveries (N : tnet) (ty : syntype) (K : nat) : nat :=
  list_sum (map (fun k => list_sum (map (fun y => arr N (s_pre y) (s_delay y) k)
                                       (filter (fun y => syntype_eqb (s_ty y) ty) (t_syns N))))
                (seq 1 K)).
Definition get_count (c : counts) (ty : syntype) : nat :=
  match ty with SynV => cV c | SynGe => cGe c | SynGf => cGf c | SynGate => cGate c | SynOther => 0 end.

Lemma syntype_eqb_eq a b : syntype_eqb a b = true <-> a = b.
Proof. destruct a, b; cbn; split; congruence. Qed.
Lemma syntype_eqb_refl a : syntype_eqb a a = true.
Proof. destruct a; auto. Qed.

Lemma add_counts_get evs : forall c ty, ty <> SynOther ->
  get_count (add_counts c evs) ty = (get_count c ty + length (filter (fun e => syntype_eqb (e_ty e) ty) evs))%nat.
Proof.
  unfold add_counts. induction evs as [|e evs IH]; intros c ty Hty; cbn [fold_left filter].
  - cbn. lia.
  - rewrite IH by auto. destruct (e_ty e), ty; cbn; try congruence; lia.
Qed.
Lemma INR_list_sum l : INR (list_sum l) = sumR (map INR l).
Proof. unfold sumR. induction l as [|x l IH]; [reflexivity|]. cbn [list_sum fold_right map] in *. rewrite plus_INR. unfold list_sum in IH. rewrite IH. auto. Qed.

Section Main.
Variable c : cfg R.
Variable ext : list (nat * R).
Hypothesis WF : wf c ext.
Let w := c_world c.
Let dt := c_dt c.
Let NN := length (w_neurons w).
Let N := net_of w ext dt.

(** every event ever created up to step K, with the step at which it is due *)
Definition pext : list (event R * nat) :=
  flat_map (fun p => map (fun y => (syn_event (snd p) y, step_at dt (snd p + s_delay y))) (out_syn w (fst p))) ext.
Definition pstep (j : nat) : list (event R * nat) :=
  flat_map (fun n => if spk N j n
                     then map (fun y => (syn_event (INR j * dt) y, (j + step_at dt (s_delay y))%nat)) (out_syn w n)
                     else []) (seq 0 NN).
Definition pend (K : nat) : list (event R * nat) := pext ++ flat_map pstep (seq 1 K).

Lemma pend_S K : pend (S K) = pend K ++ pstep (S K).
Proof.
  unfold pend. rewrite seq_S, flat_map_app. cbn [flat_map]. rewrite app_nil_r, app_assoc. reflexivity.
Qed.

Lemma pext_due e d k : In (e, d) pext -> (1 <= k)%nat -> (e_time e <= INR k * dt <-> (d <= k)%nat).
Proof.
  unfold pext. rewrite in_flat_map. intros (p & Hp & H) Hk. apply in_map_iff in H as (y & E & Hy).
  injection E as <- <-. cbn. symmetry. apply step_at_le; auto. apply (wf_dt _ _ WF).
Qed.
Lemma pstep_due j e d k : In (e, d) (pstep j) -> (j < k)%nat -> (e_time e <= INR k * dt <-> (d <= k)%nat).
Proof.
  unfold pstep. rewrite in_flat_map. intros (n & Hn & H) Hk. destruct (spk N j n); [|destruct H].
  apply in_map_iff in H as (y & E & Hy). injection E as <- <-. cbn. symmetry.
  apply step_at_shift; auto. apply (wf_dt _ _ WF).
Qed.
Lemma pstep_later j e d : In (e, d) (pstep j) -> (j < d)%nat.
Proof.
  unfold pstep. rewrite in_flat_map. intros (n & Hn & H). destruct (spk N j n); [|destruct H].
  apply in_map_iff in H as (y & E & Hy). injection E as <- <-. pose proof (step_at_ge1 dt (s_delay y)). lia.
Qed.
Lemma pend_due K e d : In (e, d) (pend K) -> (e_time e <= INR (S K) * dt <-> (d <= S K)%nat).
Proof.
  unfold pend. rewrite in_app_iff, in_flat_map. intros [H|(j & Hj & H)].
  - apply pext_due; auto. lia.
  - apply in_seq in Hj. eapply pstep_due; eauto. lia.
Qed.

(** the due events of a step, summed by synapse *)
Lemma due_sum (f : event R -> R) (g : synapse R -> R) K :
  (forall t y, f (syn_event t y) = g y) ->
  sumf f (map fst (filter (fun x => (snd x =? S K)%nat) (pend K))) =
  sumf (fun y => g y * INR (arr N (s_pre y) (s_delay y) (S K))) (w_syns w).
Proof.
  intros Hfg. rewrite sumf_map, sumf_filter. unfold pend. rewrite sumf_app.
  rewrite (sumf_ext (fun y => g y * INR (arr N (s_pre y) (s_delay y) (S K)))
     (fun y => g y * INR (ext_count N (s_pre y) (s_delay y) (S K)) +
               g y * (if ((step_at dt (s_delay y) <? S K)%nat && spk N (S K - step_at dt (s_delay y)) (s_pre y))%bool then 1 else 0))).
  2:{ intros y _. rewrite arr_eq, plus_INR. change (t_dt N) with dt. destruct (_ && _)%bool; cbn; lra. }
  rewrite sumf_add. f_equal.
  - unfold pext. rewrite sumf_flat_map.
    rewrite (sumf_ext _ (fun p => sumf (fun y => if ((s_pre y =? fst p)%nat && (step_at dt (snd p + s_delay y) =? S K)%nat)%bool then g y else 0) (w_syns w))).
    2:{ intros p _. rewrite sumf_map. unfold out_syn. rewrite sumf_filter. apply sumf_ext. intros y _. cbn [fst snd].
        rewrite Hfg. destruct (s_pre y =? fst p)%nat, (step_at dt (snd p + s_delay y) =? S K)%nat; reflexivity. }
    rewrite sumf_swap. apply sumf_ext. intros y _.
    unfold ext_count. rewrite <- sumf_count, <- sumf_mult. apply sumf_ext. intros p _.
    rewrite Nat.eqb_sym. change (t_dt N) with dt. destruct (_ && _)%bool; lra.
  - rewrite sumf_flat_map.
    rewrite (sumf_ext _ (fun j => sumf (fun y => if (spk N j (s_pre y) && (j + step_at dt (s_delay y) =? S K)%nat)%bool then g y else 0) (w_syns w))).
    2:{ intros j _. unfold pstep. rewrite sumf_flat_map.
        rewrite (sumf_ext _ (fun n => sumf (fun y => if (spk N j n && (s_pre y =? n)%nat && (j + step_at dt (s_delay y) =? S K)%nat)%bool then g y else 0) (w_syns w))).
        2:{ intros n _. destruct (spk N j n); cbn [andb].
            - rewrite sumf_map. unfold out_syn. rewrite sumf_filter. apply sumf_ext. intros y _. cbn [fst snd].
              rewrite Hfg. destruct (s_pre y =? n)%nat, (j + step_at dt (s_delay y) =? S K)%nat; reflexivity.
            - change (0 = sumf (fun _ : synapse R => 0) (w_syns w)). rewrite sumf_0. reflexivity. }
        rewrite sumf_swap. apply sumf_ext. intros y Hy.
        rewrite (sumf_single _ 0 NN (s_pre y)).
        2:{ intros n _ Hn. destruct (Nat.eqb_spec (s_pre y) n); [congruence|]. rewrite andb_false_r. reflexivity. }
        pose proof (wf_range _ _ WF y Hy). fold w NN in H.
        destruct (Nat.leb_spec 0 (s_pre y)); [|lia]. destruct (Nat.ltb_spec (s_pre y) (0 + NN)); [|lia].
        cbn [andb]. rewrite Nat.eqb_refl, andb_true_r. reflexivity. }
    rewrite sumf_swap. apply sumf_ext. intros y _.
    pose proof (step_at_ge1 dt (s_delay y)) as H1.
    destruct (Nat.ltb_spec (step_at dt (s_delay y)) (S K)) as [H2|H2].
    + rewrite (sumf_single _ 1 K (S K - step_at dt (s_delay y))%nat).
      2:{ intros j _ Hj. destruct (Nat.eqb_spec (j + step_at dt (s_delay y)) (S K)); [lia|]. rewrite andb_false_r. reflexivity. }
      destruct (Nat.leb_spec 1 (S K - step_at dt (s_delay y))); [|lia].
      destruct (Nat.ltb_spec (S K - step_at dt (s_delay y)) (1 + K)); [|lia]. cbn [andb].
      replace (S K - step_at dt (s_delay y) + step_at dt (s_delay y))%nat with (S K) by lia.
      rewrite Nat.eqb_refl, andb_true_r. destruct (spk N _ _); lra.
    + cbn [andb]. rewrite (sumf_ext _ (fun _ => 0)).
      2:{ intros j Hj. apply in_seq in Hj. destruct (Nat.eqb_spec (j + step_at dt (s_delay y)) (S K)); [lia|].
          rewrite andb_false_r. reflexivity. }
      rewrite sumf_0. lra.
Qed.

Variable ord : nat -> list nat -> list nat.
Hypothesis Hsel : sel_ok (c_keys c) ord.

Record Inv (K : nat) (s : sim R) (act : list nat) : Prop := {
  i_heap : heap_ok event_lt (s_q s);
  i_q : Permutation (s_q s) (map fst (filter (fun x => (K <? snd x)%nat) (pend K)));
  i_len : length (s_sts s) = NN;
  i_sts : forall n, (n < NN)%nat -> nth n (s_sts s) dst = st N K n;
  i_act : forall n, (n < NN)%nat -> In n act <-> is_active (st N K n) = true;
  i_nodup : NoDup act;
  i_keys : forall n, In n act -> In n (c_keys c);
  i_V : forall n, (n < NN)%nat -> V (st N K n) < Vt (prm w n);
  i_pend : forall e d, In (e, d) (pend K) -> In (e_nid e) (c_keys c) /\ e_ty e <> SynOther;
  i_spk : forall n, (n < NN)%nat -> spike_log s n =
            map snd (filter (fun p => (fst p =? n)%nat) ext) ++
            map (fun k => INR k * dt) (filter (fun k => spk N k n) (seq 1 K));
  i_vlt : ord_ok ord -> forall n, (n < NN)%nat -> voltage_log s n =
            map (fun k => (V (st N k n), (k - 1)%nat)) (filter (fun k => touched N k n) (seq 1 K));
  i_cnt : forall ty, ty <> SynOther -> get_count (s_cnt s) ty = deliveries N ty K;
  i_nspk : length (s_spk s) =
            (length ext + length (flat_map (fun k => filter (fun n => spk N k n) (seq 0 NN)) (seq 1 K)))%nat;
  i_okeys : forall n k, (1 <= k <= K)%nat -> (n < NN)%nat -> spk N k n = true -> In n (c_keys c)
}.

Lemma inject_inv_gen l : forall s,
  heap_ok event_lt (s_q s) ->
  heap_ok event_lt (s_q (inject c s l)) /\
  Permutation (s_q (inject c s l)) (s_q s ++ flat_map (fun p => map (syn_event (snd p)) (out_syn w (fst p))) l) /\
  s_sts (inject c s l) = s_sts s /\ s_vlt (inject c s l) = s_vlt s /\ s_cnt (inject c s l) = s_cnt s /\
  s_spk (inject c s l) = rev l ++ s_spk s.
Proof.
  induction l as [|p l IH]; intros s Hq; cbn [inject fold_left flat_map].
  - rewrite app_nil_r. repeat split; auto.
  - destruct (schedule_q w (log_spike s (fst p) (snd p)) (fst p) (snd p) Hq) as [Q1 Q2].
    destruct (IH (apply_input_spike c s (fst p) (snd p)) Q1) as (A1 & A2 & A3 & A4 & A5 & A6).
    unfold inject in *. repeat split; auto.
    + rewrite A2. unfold apply_input_spike. fold w. rewrite Q2. cbn [log_spike s_q]. rewrite <- app_assoc. reflexivity.
    + rewrite A6. cbn. rewrite <- app_assoc. cbn. destruct p; reflexivity.
Qed.

Lemma is_active_init n : is_active (st N 0 n) = false.
Proof. rewrite st_0. unfold is_active. cbn. rewrite Reqb_refl. reflexivity. Qed.

Lemma inv_0 : Inv 0 (inject c (new_sim w) ext) [].
Proof.
  destruct (inject_inv_gen ext (new_sim w)) as (A1 & A2 & A3 & A4 & A5 & A6).
  { unfold heap_ok. cbn. intros; lia. }
  assert (EL : length (s_sts (new_sim w)) = NN) by (cbn; apply map_length).
  assert (Hpe : forall e d, In (e, d) (pend 0) -> In (e_nid e) (c_keys c) /\ e_ty e <> SynOther).
  { unfold pend. cbn. rewrite app_nil_r. unfold pext. intros e d. rewrite in_flat_map.
    intros (p & Hp & H). apply in_map_iff in H as (y & E & Hy). injection E as <- <-. cbn.
    unfold out_syn in Hy. apply filter_In in Hy as [Hy1 Hy2]. apply Nat.eqb_eq in Hy2.
    apply (wf_syn _ _ WF); auto. rewrite Hy2. apply (wf_ext _ _ WF); auto. }
  constructor; auto.
  - rewrite A2. cbn [new_sim s_q app]. unfold pend. cbn [seq flat_map]. rewrite app_nil_r.
    rewrite filter_true.
    + unfold pext. rewrite map_flat_map.
      erewrite flat_map_ext; [reflexivity|]. intros p. cbn. rewrite map_map. reflexivity.
    + unfold pext. intros [e d]. rewrite in_flat_map. intros (p & Hp & H). apply in_map_iff in H as (y & E & Hy).
      injection E as <- <-. cbn [fst snd]. pose proof (step_at_ge1 dt (snd p + s_delay y)). apply Nat.ltb_lt. lia.
  - rewrite A3; auto.
  - intros n Hn. rewrite A3, st_0. cbn [new_sim s_sts].
    unfold N. cbn [net_of t_prm]. unfold prm. unfold NN in Hn.
    destruct (nth_error (w_neurons w) n) as [nr|] eqn:E; [|apply nth_error_None in E; lia].
    erewrite nth_error_nth; [reflexivity|]. rewrite nth_error_map, E. reflexivity.
  - intros n Hn. rewrite is_active_init. split; [intros []|discriminate].
  - constructor.
  - intros n [].
  - intros n Hn. rewrite st_0. cbn. apply (wf_reset _ _ WF); auto.
  - intros n Hn. unfold spike_log. rewrite A6. cbn [new_sim s_spk seq filter map]. rewrite !app_nil_r.
    rewrite filter_rev', map_rev, rev_involutive. reflexivity.
  - intros n Hn. unfold voltage_log. rewrite A4. reflexivity.
  - intros ty Hty. rewrite A5. destruct ty; reflexivity.
  - rewrite A6. cbn. rewrite app_nil_r, rev_length. lia.
  - intros n k Hk. lia.
Qed.

(** delivered weight = input of the recurrence *)
Lemma evsum_input evs K n ty :
  Permutation evs (map fst (filter (fun x => (snd x =? S K)%nat) (pend K))) ->
  evsum evs n ty = input N n ty (S K).
Proof.
  intros HP. unfold evsum. unfold sumf at 1. rewrite (sumR_perm _ _ (Permutation_map _ HP)).
  match goal with |- sumR (map ?f ?l) = _ => change (sumR (map f l)) with (sumf f l) end.
  rewrite (due_sum _ (fun y => if ((s_post y =? n)%nat && syntype_eqb (s_ty y) ty)%bool then s_w y else 0)).
  2:{ intros; reflexivity. }
  rewrite input_eq. cbn [N net_of t_syns].
  match goal with |- _ = sumR (map ?f ?l) => change (sumR (map f l)) with (sumf f l) end.
  rewrite sumf_filter. apply sumf_ext. intros y _. destruct (_ && _)%bool; lra.
Qed.

Lemma sumf_nonneg_pos {A} (f : A -> R) l : (forall x, In x l -> 0 <= f x) ->
  (0 < sumf f l <-> exists x, In x l /\ 0 < f x) /\ 0 <= sumf f l.
Proof.
  induction l as [|x l IH]; intros H.
  - unfold sumf; cbn. split; [|lra]. split; [lra|]. intros (y & [] & _).
  - rewrite sumf_cons. destruct IH as [IH1 IH2]; [intros; apply H; right; auto|].
    pose proof (H x (or_introl eq_refl)). split; [|lra]. split.
    + intros HS. destruct (Rlt_dec 0 (f x)).
      * exists x; split; auto. left; auto.
      * destruct IH1 as [IH1 _]. destruct IH1 as (y & Hy & Hy'); [lra|]. exists y; split; auto. right; auto.
    + intros (y & [<-|Hy] & Hy'); [lra|]. assert (0 < sumf f l) by (apply IH1; eauto). lra.
Qed.

Lemma affected_arrives evs K n :
  Permutation evs (map fst (filter (fun x => (snd x =? S K)%nat) (pend K))) ->
  (exists e, In e evs /\ e_nid e = n) <-> arrives N n (S K) = true.
Proof.
  intros HP.
  assert (H1 : (exists e, In e evs /\ e_nid e = n) <-> 0 < sumf (fun e => if (e_nid e =? n)%nat then 1 else 0) evs).
  { destruct (sumf_nonneg_pos (fun e : event R => if (e_nid e =? n)%nat then 1 else 0) evs) as [-> _].
    - intros x _. destruct (_ =? _)%nat; lra.
    - split; intros (e & He & H); exists e; split; auto.
      + rewrite H, Nat.eqb_refl. lra.
      + destruct (Nat.eqb_spec (e_nid e) n); auto. lra. }
  rewrite H1. unfold sumf at 1. rewrite (sumR_perm _ _ (Permutation_map _ HP)).
  match goal with |- context [sumR (map ?f ?l)] => change (sumR (map f l)) with (sumf f l) end.
  rewrite (due_sum _ (fun y => if (s_post y =? n)%nat then 1 else 0)) by reflexivity.
  destruct (sumf_nonneg_pos (fun y : synapse R => (if (s_post y =? n)%nat then 1 else 0) * INR (arr N (s_pre y) (s_delay y) (S K))) (w_syns w)) as [-> _].
  { intros y _. pose proof (pos_INR (arr N (s_pre y) (s_delay y) (S K))). destruct (_ =? _)%nat; lra. }
  unfold arrives. rewrite existsb_exists. cbn [N net_of t_syns].
  split; intros (y & Hy & H); exists y; split; auto.
  - destruct (s_post y =? n)%nat; [|lra]. cbn [andb]. apply Nat.ltb_lt.
    apply INR_lt. change (INR 0) with 0. lra.
  - apply andb_true_iff in H as [Ha Hb]. rewrite Ha. apply Nat.ltb_lt, lt_INR in Hb. change (INR 0) with 0 in Hb. lra.
Qed.

Lemma due_counts evs K ty : ty <> SynOther ->
  Permutation evs (map fst (filter (fun x => (snd x =? S K)%nat) (pend K))) ->
  length (filter (fun e => syntype_eqb (e_ty e) ty) evs) =
  list_sum (map (fun y => arr N (s_pre y) (s_delay y) (S K)) (filter (fun y => syntype_eqb (s_ty y) ty) (w_syns w))).
Proof.
  intros Hty HP. apply INR_eq. rewrite <- sumf_count.
  unfold sumf. rewrite (sumR_perm _ _ (Permutation_map _ HP)).
  match goal with |- sumR (map ?f ?l) = _ => change (sumR (map f l)) with (sumf f l) end.
  rewrite (due_sum _ (fun y => if syntype_eqb (s_ty y) ty then 1 else 0)) by reflexivity.
  rewrite INR_list_sum, map_map.
  match goal with |- _ = sumR (map ?f ?l) => change (sumR (map f l)) with (sumf f l) end.
  rewrite sumf_filter. apply sumf_ext. intros y _. destruct (syntype_eqb _ _); lra.
Qed.

Lemma input_none K n ty : arrives N n (S K) = false -> input N n ty (S K) = 0.
Proof.
  intros H. rewrite input_eq.
  match goal with |- sumR (map ?f ?l) = _ => change (sumR (map f l)) with (sumf f l) end.
  rewrite sumf_filter, (sumf_ext _ (fun _ => 0)); [apply sumf_0|].
  intros y Hy. destruct (Nat.eqb_spec (s_post y) n) as [Hn|]; cbn [andb]; auto.
  destruct (syntype_eqb _ _); auto.
  destruct (arr N (s_pre y) (s_delay y) (S K)) eqn:E; [cbn; lra|].
  exfalso. assert (arrives N n (S K) = true); [|congruence].
  unfold arrives. apply existsb_exists. exists y. split; auto.
  rewrite Hn, Nat.eqb_refl, E. reflexivity.
Qed.

(** a neuron that is not looked at stays as it is *)
Lemma untouched_step K n : (n < NN)%nat -> V (st N K n) < Vt (prm w n) ->
  arrives N n (S K) = false -> is_active (st N K n) = false ->
  st N (S K) n = st N K n /\ spk N (S K) n = false.
Proof.
  intros Hn HV HA Hac. pose proof (step_eq N K n) as E.
  rewrite !input_none in E by auto. rewrite nstep_ustep, recv_0 in E.
  unfold is_active in Hac. apply orb_false_iff in Hac as [Hac H3]. apply orb_false_iff in Hac as [H1 H2].
  apply negb_false_iff in H1, H2, H3. unfold nzero in H1, H2, H3. cbn [neqb nofZ R_num] in H1, H2, H3.
  apply Reqb_true in H1, H2, H3.
  destruct (st N K n) as [v a b g] eqn:Es. cbn [V ge gf gate] in H1, H2, H3, HV. subst a b g.
  unfold ustep in E. cbn [V ge gf gate] in E. rewrite Reqb_refl in E.
  replace (v + t_dt N * (0 + 0 * 0) / tm (t_prm N n)) with v in E by (unfold Rdiv; ring).
  change (t_prm N n) with (prm w n) in E.
  rewrite (proj2 (Rleb_false (Vt (prm w n)) v)) in E by auto. injection E as E1 E2. auto.
Qed.
Lemma ustep_below p d s : Vreset p < Vt p -> V (fst (ustep p d s)) < Vt p.
Proof.
  intros H. unfold ustep. destruct (Rleb (Vt p) _) eqn:E; cbn; auto. apply Rleb_false in E. auto.
Qed.

Lemma deliveries_S ty K : deliveries N ty (S K) = (deliveries N ty K +
   list_sum (map (fun y => arr N (s_pre y) (s_delay y) (S K)) (filter (fun y => syntype_eqb (s_ty y) ty) (w_syns w))))%nat.
Proof.
  unfold deliveries. rewrite seq_S, map_app, list_sum_app. cbn [map list_sum fold_right]. rewrite Nat.add_0_r. reflexivity.
Qed.

Lemma inv_step K s act : Inv K s act ->
  exists s' act', sim_step c ord K (s, act) = Ok (s', act') /\ Inv (S K) s' act'.
Proof.
  intros I. unfold sim_step.
  assert (Et : time_of c K = INR (S K) * dt).
  { unfold time_of. cbn [nmul nofZ R_num]. rewrite <- INR_IZR_INZ. rewrite Nat.add_1_r. reflexivity. }
  rewrite Et.
  destruct (pop_events_spec (fun _ : R => True) R_ord (s_q s) (INR (S K) * dt)) as
    (evs & q' & Ep & P1 & P2 & P3 & _ & P5 & _); auto using okR_all.
  { apply (i_heap _ _ _ I). }
  rewrite Ep.
  set (P := fun e : event R => nleb (e_time e) (INR (S K) * dt)).
  destruct (perm_split P _ _ _ P1) as [Pe Pq]; [exact P2|exact P3|].
  assert (Hpd : forall x, In x (pend K) -> P (fst x) = (snd x <=? S K)%nat).
  { intros [e d] Hx. cbn [fst snd]. pose proof (pend_due K e d Hx) as HD. unfold P. cbn [nleb R_num].
    destruct (Nat.leb_spec d (S K)).
    - apply Rleb_true. apply HD. auto.
    - apply Rleb_false. apply Rnot_le_lt. intros H'. apply HD in H'. lia. }
  assert (Hevs : Permutation evs (map fst (filter (fun x => (snd x =? S K)%nat) (pend K)))).
  { rewrite Pe. rewrite (filter_perm P _ _ (i_q _ _ _ I)). rewrite filter_map, filter_filter.
    apply Permutation_map. erewrite filter_ext_in; [reflexivity|]. intros x Hx. cbv beta. rewrite Hpd by auto.
    destruct (Nat.leb_spec (snd x) (S K)), (Nat.ltb_spec K (snd x)), (Nat.eqb_spec (snd x) (S K)); cbn [andb negb]; auto; lia. }
  assert (Hq' : Permutation q' (map fst (filter (fun x => (S K <? snd x)%nat) (pend K)))).
  { rewrite Pq. rewrite (filter_perm _ _ _ (i_q _ _ _ I)). rewrite filter_map, filter_filter.
    apply Permutation_map. erewrite filter_ext_in; [reflexivity|]. intros x Hx. cbv beta. rewrite Hpd by auto.
    destruct (Nat.leb_spec (snd x) (S K)), (Nat.ltb_spec K (snd x)), (Nat.ltb_spec (S K) (snd x)); cbn [andb negb]; auto; lia. }
  clear Pe Pq P1 P2 P3 Hpd P.
  assert (Hin : forall e, In e evs -> In (e_nid e) (c_keys c) /\ e_ty e <> SynOther).
  { intros e He. apply (Permutation_in _ Hevs) in He. apply in_map_iff in He as ([e' d] & <- & He).
    apply filter_In in He as [He _]. eapply (i_pend _ _ _ I); eauto. }
  set (s0 := {| s_q := q'; s_sts := s_sts s; s_spk := s_spk s; s_vlt := s_vlt s; s_cnt := s_cnt s |}).
  destruct (deliver_loop evs s0 []) as (s1 & aff & E1 & D1 & D2 & D3 & D4 & D5 & D6 & D7 & D8).
  { apply Forall_forall. intros e He. destruct (Hin e He) as [Hk Ht]. split; auto.
    cbn. rewrite (i_len _ _ _ I). apply (wf_keys _ _ WF); auto. }
  rewrite E1. cbn [rbind].
  cbn [s_sts s0] in D4, D6.
  set (L := ord K (set_union aff act)).
  assert (HU : NoDup (set_union aff act)) by (apply set_union_NoDup, D8; constructor).
  assert (HUk : incl (set_union aff act) (c_keys c)).
  { intros n Hn. apply set_union_In in Hn as [Hn|Hn]; [|eapply (i_keys _ _ _ I); eauto].
    apply D7 in Hn as [[]|(e & He & <-)]. apply Hin; auto. }
  destruct (Hsel K (set_union aff act) HU HUk) as (HLnd & HLin & HLk). fold L in HLnd, HLin, HLk.
  assert (HL : forall n, In n aff \/ In n act -> In n L).
  { intros n Hn. apply HLin, set_union_In; auto. }
  assert (HLn : forall n, In n L -> (n < NN)%nat) by (intros; apply (wf_keys _ _ WF); auto).
  assert (HUt : forall n, (n < NN)%nat -> In n aff \/ In n act <-> touched N (S K) n = true).
  { intros n Hn. rewrite D7. unfold touched.
    rewrite orb_true_iff. replace (S K - 1)%nat with K by lia.
    rewrite <- (i_act _ _ _ I n Hn), <- (affected_arrives evs K n Hevs). cbn [In]. tauto. }
  set (sg := fun n => nth n (s_sts s1) dst).
  assert (Hsg : forall n, (n < NN)%nat -> ustep (prm w n) dt (sg n) = (st N (S K) n, spk N (S K) n)).
  { intros n Hn. unfold sg. rewrite D6 by (rewrite (i_len _ _ _ I); auto).
    rewrite !(evsum_input evs K n _ Hevs), (i_sts _ _ _ I) by auto.
    rewrite step_eq, nstep_ustep. reflexivity. }
  destruct (update_loop c K (INR (S K) * dt) sg L s1 []) as
    (s2 & act2 & F1 & F2 & F3 & F4 & F5 & F6 & F7 & F8 & F9 & F10 & F11).
  { exact HLnd. }
  { intros n Hn. repeat split; auto; try (apply HLn; auto); apply (wf_tau _ _ WF); auto. }
  { fold w NN. rewrite D4. apply (i_len _ _ _ I). }
  { intros; reflexivity. }
  { rewrite D1. exact P5. }
  fold w in F3, F5, F6, F7, F9, F11. fold NN in F2, F3.
  exists s2, act2. split; [exact F1|].
  assert (Hout : forall n, (n < NN)%nat -> ~ In n L -> st N (S K) n = st N K n /\ spk N (S K) n = false /\ is_active (st N K n) = false).
  { intros n Hn HnL. assert (Ht : touched N (S K) n = false).
    { destruct (touched N (S K) n) eqn:Et'; auto. exfalso. apply HnL, HL, HUt; auto. }
    unfold touched in Ht. replace (S K - 1)%nat with K in Ht by lia. apply orb_false_iff in Ht as [Ht1 Ht2].
    destruct (untouched_step K n Hn) as [U1 U2]; auto. apply (i_V _ _ _ I); auto. }
  assert (Hkeys : forall n, (n < NN)%nat -> spk N (S K) n = true -> In n (c_keys c)).
  { intros n Hn Hs. destruct (in_dec Nat.eq_dec n L) as [i|i]; auto. apply Hout in i as (_ & ? & _); auto. congruence. }
  assert (HqNew : Permutation (s_q s2) (map fst (filter (fun x => (S K <? snd x)%nat) (pend (S K))))).
  { rewrite F5, D1. cbn [s_q s0]. rewrite Hq', pend_S, filter_app, map_app. apply Permutation_app_head.
    rewrite (filter_true _ (pstep (S K))).
    2:{ intros [e d] Hx. apply pstep_later in Hx. cbn [fst snd]. apply Nat.ltb_lt. lia. }
    unfold pstep. rewrite map_flat_map.
    match goal with |- Permutation _ (flat_map ?f (seq 0 NN)) =>
      transitivity (flat_map f L); [|apply flat_map_sub] end.
    - match goal with |- Permutation ?a ?b => assert (Hab : a = b); [|rewrite Hab; reflexivity] end.
      rewrite !flat_map_concat_map. f_equal. apply map_ext_in. intros n Hn.
      rewrite Hsg by auto. cbn [snd]. destruct (spk N (S K) n); [|reflexivity]. rewrite map_map. reflexivity.
    - exact HLnd.
    - auto.
    - intros n Hn HnL. destruct (Hout n Hn HnL) as (_ & -> & _). reflexivity. }
  constructor; auto.
  - intros n Hn. rewrite F3 by auto. rewrite Hsg by auto. cbn [fst].
    destruct (set_mem n L) eqn:Em; auto. apply set_mem_nIn in Em.
    destruct (Hout n Hn Em) as (E' & _ & E''). rewrite E'.
    rewrite D6 by (rewrite (i_len _ _ _ I); auto).
    rewrite (i_sts _ _ _ I) by auto. rewrite !(evsum_input evs K n _ Hevs).
    assert (Har : arrives N n (S K) = false).
    { destruct (arrives N n (S K)) eqn:Ea; auto. exfalso. apply Em, HL. left. apply D7. right.
      apply (affected_arrives evs K n Hevs); auto. }
    rewrite !input_none by auto. apply recv_0.
  - intros n Hn. rewrite F11. rewrite Hsg by auto. cbn [fst In]. split.
    + intros [[]|[_ H]]; auto.
    + intros H. right. split; auto. destruct (in_dec Nat.eq_dec n L) as [i|i]; auto.
      destruct (Hout n Hn i) as (E' & _ & E''). rewrite E' in H. congruence.
  - apply F10. constructor.
  - intros n Hn. apply F11 in Hn as [[]|[Hn _]]. auto.
  - intros n Hn. pose proof (Hsg n Hn) as E. assert (E' : st N (S K) n = fst (ustep (prm w n) dt (sg n))) by (rewrite E; auto).
    rewrite E'. apply ustep_below. apply (wf_reset _ _ WF); auto.
  - intros e d. rewrite pend_S, in_app_iff. intros [H|H]; [eapply (i_pend _ _ _ I); eauto|].
    unfold pstep in H. apply in_flat_map in H as (n & Hn & H). apply in_seq in Hn.
    destruct (spk N (S K) n) eqn:Es; [|destruct H].
    apply in_map_iff in H as (y & E & Hy). injection E as <- <-. cbn.
    apply filter_In in Hy as [Hy1 Hy2]. apply Nat.eqb_eq in Hy2.
    apply (wf_syn _ _ WF); auto. rewrite Hy2. apply Hkeys; auto. lia.
  - intros n Hn. rewrite F6. replace (spike_log s1 n) with (spike_log s n) by (unfold spike_log; rewrite D2; auto).
    rewrite (i_spk _ _ _ I) by auto. rewrite seq_S, filter_app, map_app, app_assoc. cbn [Nat.add filter map].
    f_equal. rewrite Hsg by auto. cbn [snd]. destruct (spk N (S K) n) eqn:Es.
    + destruct (set_mem n L) eqn:Em; auto. apply set_mem_nIn in Em. apply Hout in Em as (_ & ? & _); auto. congruence.
    + rewrite andb_false_r. reflexivity.
  - intros Hord n Hn.
    assert (HLt : set_mem n L = touched N (S K) n).
    { apply Bool.eq_true_iff_eq. rewrite set_mem_In, <- HUt by auto. unfold L. rewrite <- set_union_In.
      split; apply Permutation_in; [|symmetry]; apply Hord. }
    rewrite F7. replace (voltage_log s1 n) with (voltage_log s n) by (unfold voltage_log; rewrite D3; auto).
    rewrite (i_vlt _ _ _ I) by auto. rewrite seq_S, filter_app, map_app. cbn [Nat.add filter map]. f_equal.
    rewrite HLt, Hsg by auto. cbn [fst]. destruct (touched N (S K) n); cbn; rewrite ?Nat.sub_0_r; reflexivity.
  - intros ty Hty. rewrite F8, D5, add_counts_get by auto. cbn [s_cnt s0].
    rewrite (i_cnt _ _ _ I), deliveries_S by auto. f_equal. apply due_counts; auto.
  - rewrite F9, D2. cbn [s_spk s0]. rewrite (i_nspk _ _ _ I). rewrite seq_S, flat_map_app, app_length.
    cbn [flat_map Nat.add]. rewrite app_nil_r, Nat.add_assoc. f_equal.
    assert (HPm : forall P l, flat_map (fun n : nat => if P n : bool then [n] else []) l = filter P l).
    { clear. intros P l. induction l as [|x l IH]; cbn; auto. destruct (P x); cbn; congruence. }
    rewrite <- !HPm.
    rewrite <- (Permutation_length (flat_map_sub (fun n => if spk N (S K) n then [n] else []) NN L HLnd HLn ltac:(intros n Hn HnL; destruct (Hout n Hn HnL) as (_ & -> & _); reflexivity))).
    rewrite !flat_map_concat_map. f_equal. f_equal. apply map_ext_in. intros n Hn. rewrite Hsg by auto. reflexivity.
  - intros n k Hk Hn Hs. destruct (Nat.eq_dec k (S K)) as [->|]; auto. apply (i_okeys _ _ _ I n k); auto. lia.
Qed.

Lemma sim_steps_S k : forall i acc, sim_steps c ord i (S k) acc =
  let* acc' := sim_steps c ord i k acc in sim_step c ord (i + k) acc'.
Proof.
  induction k as [|k IH]; intros i acc.
  - cbn. rewrite Nat.add_0_r. destruct (sim_step c ord i acc); reflexivity.
  - cbn [sim_steps] in *. destruct (sim_step c ord i acc) as [a|e]; cbn [rbind]; auto.
    rewrite IH. replace (S i + k)%nat with (i + S k)%nat by lia. reflexivity.
Qed.

Theorem sim_inv K :
  exists s act, sim_steps c ord 0 K (inject c (new_sim w) ext, []) = Ok (s, act) /\ Inv K s act.
Proof.
  induction K as [|K IH].
  - exists (inject c (new_sim w) ext), []. split; [reflexivity|apply inv_0].
  - destruct IH as (s & act & E & I).
    destruct (inv_step K s act I) as (s' & act' & E' & I').
    exists s', act'. split; auto. rewrite sim_steps_S, E. exact E'.
Qed.
End Main.
