(** Visualisation data: proofs (C40, C41). *)
From Coq Require Import Arith ZArith Bool String List Lia.
From Verif Require Import Num Elements Vis ModTree Misc.
Import ListNotations.
Open Scope list_scope.

(** ** stable sort and dict *)
Lemma filter_ins {A} (x : A * Z) j l : filter (fun p => (snd p =? j)%Z) (ins_key x l) = filter (fun p => (snd p =? j)%Z) (x :: l).
Proof.
  induction l as [|y l IH]; cbn [ins_key]; auto. destruct (Z.leb_spec (snd x) (snd y)); auto.
  change (filter (fun p => (snd p =? j)%Z) (y :: ins_key x l)) with (if (snd y =? j)%Z then y :: filter (fun p => (snd p =? j)%Z) (ins_key x l) else filter (fun p => (snd p =? j)%Z) (ins_key x l)).
  rewrite IH. cbn [filter]. destruct (Z.eqb_spec (snd x) j), (Z.eqb_spec (snd y) j); auto. lia.
Qed.
Lemma filter_sort {A} j (l : list (A * Z)) : filter (fun p => (snd p =? j)%Z) (sort_key l) = filter (fun p => (snd p =? j)%Z) l.
Proof.
  induction l as [|x l IH]; auto. unfold sort_key in *. cbn [fold_right]. rewrite filter_ins. cbn [filter]. rewrite IH. reflexivity.
Qed.
Lemma find_filter {A} (f : A -> bool) l : find f l = hd_error (filter f l).
Proof. induction l as [|x l IH]; auto. cbn. destruct (f x); auto. Qed.
Lemma filter_rev' {A} (f : A -> bool) l : filter f (rev l) = rev (filter f l).
Proof. induction l as [|x l IH]; auto. cbn. rewrite filter_app, IH. cbn. destruct (f x); cbn; auto. rewrite app_nil_r. auto. Qed.
Lemma filter_map' {A C} (g : A -> C) (f : C -> bool) l : filter f (map g l) = map g (filter (fun x => f (g x)) l).
Proof. induction l as [|x l IH]; auto. cbn. destruct (f (g x)); cbn; rewrite IH; auto. Qed.

Section Arr.
Context {T : Type} {NT : Num T}.
Lemma array_get (es : list (T * Z)) j :
  dict_get Z.eqb (map (fun t => (snd t, fst t)) (sort_key es)) j =
  option_map fst (hd_error (rev (filter (fun p => (snd p =? j)%Z) es))).
Proof.
  unfold dict_get. rewrite find_filter, filter_rev', filter_map'. cbn [fst].
  rewrite <- map_rev. rewrite filter_sort. destruct (rev (filter _ es)); reflexivity.
Qed.
Lemma last_match {A} (f : A -> bool) (l : list A) :
  match hd_error (rev (filter f l)) with
  | Some x => exists k, nth_error l k = Some x /\ f x = true /\ forall k' x', nth_error l k' = Some x' -> f x' = true -> k' <= k
  | None => forall x, In x l -> f x = false
  end.
Proof.
  induction l as [|y l IH]; [intros x []|]. cbn [filter]. destruct (f y) eqn:E.
  - cbn [rev]. destruct (rev (filter f l)) as [|x r] eqn:ER; cbn [app hd_error] in *.
    + exists 0. split; auto. split; auto. intros [|k'] x' H1 H2; [lia|]. cbn in H1. apply nth_error_In in H1. rewrite IH in H2; auto. discriminate.
    + destruct IH as (k & A1 & A2 & A3). exists (S k). split; auto. split; auto. intros [|k'] x' H1 H2; [lia|]. cbn in H1. specialize (A3 _ _ H1 H2). lia.
  - destruct (hd_error (rev (filter f l))) as [x|] eqn:ER.
    + destruct IH as (k & A1 & A2 & A3). exists (S k). split; auto. split; auto. intros [|k'] x' H1 H2; [lia|]. cbn in H1. specialize (A3 _ _ H1 H2). lia.
    + intros x [<-|H]; auto.
Qed.
(** value shown at index [i] *)
Definition latest (es : list (T * Z)) (i : Z) (v : T) : Prop :=
  (v = nzero /\ forall x, In x es -> ~ (0 <= snd x <= i)%Z) \/
  exists k idx, nth_error es k = Some (v, idx) /\ (0 <= idx <= i)%Z /\
    forall k' v' idx', nth_error es k' = Some (v', idx') -> (0 <= idx' <= i)%Z -> (idx' < idx)%Z \/ idx' = idx /\ k' <= k.
Lemma latest_step es i v : latest es (Z.of_nat i - 1) v ->
  latest es (Z.of_nat i) (match dict_get Z.eqb (map (fun t => (snd t, fst t)) (sort_key es)) (Z.of_nat i) with Some v => v | None => v end).
Proof.
  intros HL. rewrite array_get. pose proof (last_match (fun p : T * Z => (snd p =? Z.of_nat i)%Z) es) as HM.
  destruct (hd_error _) as [[v' z]|]; cbn [option_map fst].
  - destruct HM as (k & A1 & A2 & A3). cbn [snd] in A2. apply Z.eqb_eq in A2. subst z. right. exists k, (Z.of_nat i). split; auto. split; [lia|].
    intros k' v2 idx' H1 H2. destruct (Z.eq_dec idx' (Z.of_nat i)) as [->|]; [|lia]. right. split; auto. eapply A3; eauto. apply Z.eqb_refl.
  - destruct HL as [[-> H]|(k & idx & A1 & A2 & A3)].
    + left. split; auto. intros x Hx Hr. specialize (HM x Hx). apply Z.eqb_neq in HM. apply (H x Hx). lia.
    + right. exists k, idx. split; auto. split; [lia|]. intros k' v2 idx' H1 H2. apply (A3 k' v2); auto.
      pose proof (HM _ (nth_error_In _ _ H1)) as HN. apply Z.eqb_neq in HN. cbn [snd] in HN. lia.
Qed.
Lemma build_array_spec len es : List.length (build_array len es) = len /\
  forall i v, nth_error (build_array len es) i = Some v -> latest es (Z.of_nat i) v.
Proof.
  unfold build_array. set (f := fun (acc : list T * T) (i : nat) => _).
  assert (G : let r := fold_left f (seq 0 len) ([], nzero) in
    List.length (fst r) = len /\ (forall i v, nth_error (fst r) i = Some v -> latest es (Z.of_nat i) v) /\ latest es (Z.of_nat len - 1) (snd r)).
  { induction len as [|len IH].
    - cbn. split; auto. split; [intros [|i]; discriminate|]. left. split; auto. intros; lia.
    - rewrite seq_S, fold_left_app. cbn [fold_left]. cbv zeta in *. destruct (fold_left f (seq 0 len) ([], nzero)) as [l v] eqn:E.
      cbn [fst snd] in *. destruct IH as (A & B & C). unfold f. cbn [fst snd]. apply latest_step in C.
      set (v' := match dict_get _ _ _ with Some _ => _ | None => _ end) in *.
      split; [rewrite app_length; cbn; lia|]. split.
      + intros i x Hx. destruct (Nat.lt_ge_cases i len).
        * rewrite nth_error_app1 in Hx by lia. auto.
        * rewrite nth_error_app2 in Hx by lia. destruct (i - List.length l) as [|q] eqn:Eq; [|destruct q; discriminate].
          injection Hx as <-. assert (i = len) by lia. subst i. exact C.
      + replace (Z.of_nat (S len) - 1)%Z with (Z.of_nat len) by lia. exact C. }
  destruct G as (A & B & _). auto.
Qed.
End Arr.

(** ** topology *)
Lemma dict_get_func {A} (d : list (nat * A)) n u : (forall u u', In (n, u) d -> In (n, u') d -> u = u') ->
  (dict_get Nat.eqb d n = Some u <-> In (n, u) d).
Proof.
  intros HF. unfold dict_get. destruct (find _ (rev d)) as [[m a]|] eqn:E.
  - apply find_some in E as [E1 E2]. cbn in E2. apply Nat.eqb_eq in E2. subst m. rewrite <- in_rev in E1. cbn. split.
    + intros [= <-]. auto.
    + intros H. f_equal. eapply HF; eauto.
  - split; [discriminate|]. intros H. exfalso. rewrite in_rev in H. pose proof (find_none _ _ E _ H) as H2. cbn in H2. rewrite Nat.eqb_refl in H2. discriminate.
Qed.
Lemma sadd_In x y l : In y (sadd x l) <-> y = x \/ In y l.
Proof.
  unfold sadd. destruct (existsb (Nat.eqb x) l) eqn:E.
  - apply existsb_exists in E as (z & H1 & H2). apply Nat.eqb_eq in H2. subst z. split; auto. intros [->|]; auto.
  - rewrite in_app_iff. cbn. intuition.
Qed.
Lemma sadd_NoDup x l : NoDup l -> NoDup (sadd x l).
Proof.
  intros H. unfold sadd. destruct (existsb (Nat.eqb x) l) eqn:E; auto. apply NoDup_app_intro; auto.
  - constructor; auto. constructor.
  - intros y Hy [<-|[]]. assert (existsb (Nat.eqb x) l = true); [|congruence]. apply existsb_exists. exists x. split; auto. apply Nat.eqb_refl.
Qed.
Lemma rfold_flat {A X Y} (g : X -> A -> Y -> res A) (h : X -> list Y) l : forall a,
  rfold (fun acc x => rfold (g x) (h x) acc) l a = rfold (fun acc p => g (fst p) acc (snd p)) (flat_map (fun x => map (pair x) (h x)) l) a.
Proof.
  assert (RA : forall (Z1 : Type) (f : A -> Z1 -> res A) l1 l2 a, rfold f (l1 ++ l2) a = rbind (rfold f l1 a) (rfold f l2)).
  { intros Z1 f l1. induction l1 as [|z l1 IH]; intros l2 a; cbn [app rfold rbind]; auto. destruct (f a z); cbn [rbind]; auto. }
  assert (RM : forall (Z1 Z2 : Type) (f : A -> Z2 -> res A) (k : Z1 -> Z2) l1 a, rfold f (map k l1) a = rfold (fun acc x => f acc (k x)) l1 a).
  { intros Z1 Z2 f k l1. induction l1 as [|z l1 IH]; intros a; cbn [map rfold]; auto. destruct (f a (k z)); cbn [rbind]; auto. }
  induction l as [|x l IH]; intros a; cbn [rfold flat_map]; auto. rewrite RA, RM. cbn [fst snd].
  destruct (rfold (g x) (h x) a); cbn [rbind]; auto.
Qed.
Section Topo.
Context {T : Type} {NT : Num T}.
Lemma rfold_add {X} (t : X -> res (option (synapse T * nat))) l : forall a,
  let R := rfold (fun acc x => let* o := t x in Ok (match o with Some (y, i) => add_syn y i acc | None => acc end)) l a in
  match R with
  | Ok r => (forall x, In x l -> exists o, t x = Ok o) /\
      (forall i, In i (snd r) <-> In i (snd a) \/ exists x y, In x l /\ t x = Ok (Some (y, i))) /\
      (forall n, In n (fst r) <-> In n (fst a) \/ exists x y i, In x l /\ t x = Ok (Some (y, i)) /\ (n = s_pre y \/ n = s_post y)) /\
      (NoDup (fst a) -> NoDup (fst r)) /\ (NoDup (snd a) -> NoDup (snd r))
  | Err e => exists x, In x l /\ t x = Err e
  end.
Proof.
  induction l as [|x l IH]; intros a; cbn [rfold].
  - cbn. split; [intros x []|]. split; [|split; [|split]]; auto.
    + intros i. split; auto. intros [H|(x & y & [] & _)]; auto.
    + intros n. split; auto. intros [H|(x & y & i & [] & _)]; auto.
  - destruct (t x) as [o|e] eqn:E; cbn [rbind]; [|exists x; split; [left; auto|auto]].
    specialize (IH (match o with Some (y, i) => add_syn y i a | None => a end)). cbv zeta in *.
    match goal with |- match ?R with _ => _ end => destruct R as [r|e] end; [|destruct IH as (z & H1 & H2); exists z; split; [right; auto|auto]].
    destruct IH as (A & B & C & D & F). split; [|split; [|split; [|split]]].
    + intros z [<-|Hz]; eauto.
    + intros i. rewrite B. split.
      * intros [H|(z & y & H1 & H2)]; [|right; exists z, y; split; [right; auto|auto]].
        destruct o as [[y j]|]; auto. cbn [add_syn snd] in H. apply sadd_In in H as [->|H]; auto. right. exists x, y. split; [left; auto|auto].
      * intros [H|(z & y & [<-|H1] & H2)].
        -- left. destruct o as [[y j]|]; auto. cbn [add_syn snd]. apply sadd_In. auto.
        -- left. rewrite E in H2. injection H2 as ->. cbn [add_syn snd]. apply sadd_In. auto.
        -- right. eauto.
    + intros n. rewrite C. split.
      * intros [H|(z & y & i & H1 & H2)]; [|right; exists z, y, i; split; [right; auto|auto]].
        destruct o as [[y j]|]; auto. cbn [add_syn fst] in H. rewrite !sadd_In in H. destruct H as [->|[->|H]]; auto; right; exists x, y, j; split; auto; left; auto.
      * intros [H|(z & y & i & [<-|H1] & H2 & H3)].
        -- left. destruct o as [[y j]|]; auto. cbn [add_syn fst]. rewrite !sadd_In. auto.
        -- left. rewrite E in H2. injection H2 as ->. cbn [add_syn fst]. rewrite !sadd_In. tauto.
        -- right. eauto 10.
    + intros HN. apply D. destruct o as [[y j]|]; auto. cbn [add_syn fst]. repeat apply sadd_NoDup. auto.
    + intros HN. apply F. destruct o as [[y j]|]; auto. cbn [add_syn snd]. repeat apply sadd_NoDup. auto.
Qed.
Lemma out_idx_In (w : world T) n i : In i (out_idx w n) <-> exists y, nth_error (w_syns w) i = Some y /\ s_pre y = n.
Proof.
  unfold out_idx. rewrite filter_In, in_seq. split.
  - intros [_ H]. destruct (nth_error (w_syns w) i) as [y|]; [|discriminate]. apply Nat.eqb_eq in H. eauto.
  - intros (y & E & H). split; [|rewrite E; apply Nat.eqb_eq; auto]. split; [lia|]. cbn. apply nth_error_Some. congruence.
Qed.
Variable w : world T.
Hypothesis HS : subs_exist w.
Hypothesis HA : forall x, ~ pdesc w x x.
Hypothesis HT : tree_shaped w.
Hypothesis HO : one_owner w.
Variable net : nat.
Variable md : module.
Hypothesis Hnet : nth_error (w_mods w) net = Some md.
Lemma net_lt : net < List.length (w_mods w).
Proof. apply nth_error_Some. congruence. Qed.
(** [below s n]: neuron n belongs to submodule s (recursively) *)
Definition below (s n : nat) : Prop := exists d m, desc w s d /\ nth_error (w_mods w) d = Some m /\ In n (m_neurons m).
Lemma owner_unique d1 d2 m1 m2 n : nth_error (w_mods w) d1 = Some m1 -> nth_error (w_mods w) d2 = Some m2 -> In n (m_neurons m1) -> In n (m_neurons m2) -> d1 = d2.
Proof. intros. destruct (NoDup_flat_map_nth m_neurons (w_mods w) HO) as [_ X]. eapply X; eauto. Qed.
Lemma child_of s : In s (m_subs md) -> child w net s.
Proof. intros H. exists md. auto. Qed.
Lemma own_not_below s n : In s (m_subs md) -> In n (m_neurons md) -> ~ below s n.
Proof.
  intros Hs Hn (d & m & H1 & H2 & H3). assert (d = net) by (eapply owner_unique; eauto). subst d.
  apply (HA net). exists s. split; auto. apply child_of; auto.
Qed.
Lemma below_unique s1 s2 n : In s1 (m_subs md) -> In s2 (m_subs md) -> below s1 n -> below s2 n -> s1 = s2.
Proof.
  intros H1 H2 (d & m & A1 & A2 & A3) (d' & m' & B1 & B2 & B3). assert (d = d') by (eapply owner_unique; eauto). subst d'.
  eapply sibling_disjoint; eauto using child_of.
Qed.
Lemma in_net_iff n : below net n <-> In n (m_neurons md) \/ exists s, In s (m_subs md) /\ below s n.
Proof.
  split.
  - intros (d & m & H1 & H2 & H3). inversion H1 as [|m0 s d0 Hc Hd]; subst.
    + left. congruence.
    + right. destruct Hc as (md' & E & Hin). assert (md' = md) by congruence. subst md'. exists s. split; auto. exists d, m. auto.
  - intros [H|(s & H1 & (d & m & A1 & A2 & A3))].
    + exists net, md. split; [constructor|auto].
    + exists d, m. split; [econstructor; [apply child_of; eauto|auto]|auto].
Qed.
Lemma sub_ok s : In s (m_subs md) -> exists sd l, nth_error (w_mods w) s = Some sd /\ neurons_of w s = Ok l /\ forall n, In n l <-> below s n.
Proof.
  intros Hs. assert (Hl : s < List.length (w_mods w)) by (apply (HS net); apply child_of; auto).
  destruct (nth_error (w_mods w) s) as [sd|] eqn:E; [|apply nth_error_None in E; lia].
  destruct (neurons_total w s HS HA Hl) as (l & El). exists sd, l. split; auto. split; auto. apply neurons_members. auto.
Qed.
Lemma mapping_ok : exists d, mapping w net = Ok d /\
  forall n u, In (n, u) d <-> (In n (m_neurons md) /\ u = module_uid net md) \/
    exists s sd, In s (m_subs md) /\ nth_error (w_mods w) s = Some sd /\ below s n /\ u = module_uid s sd.
Proof.
  unfold mapping. rewrite Hnet.
  assert (G : forall l acc, incl l (m_subs md) -> exists d, rfold (fun acc s => match nth_error (w_mods w) s with None => Err EAttribute
        | Some sd => let* ns := neurons_of w s in Ok (acc ++ map (fun n => (n, module_uid s sd)) ns) end) l acc = Ok d /\
     forall n u, In (n, u) d <-> In (n, u) acc \/ exists s sd, In s l /\ nth_error (w_mods w) s = Some sd /\ below s n /\ u = module_uid s sd).
  { induction l as [|s l IH]; intros acc HI; cbn [rfold].
    - exists acc. split; auto. intros n u. split; auto. intros [H|(s & sd & [] & _)]; auto.
    - destruct (sub_ok s) as (sd & ns & E1 & E2 & E3); [apply HI; left; auto|]. rewrite E1, E2. cbn [rbind].
      destruct (IH (acc ++ map (fun n => (n, module_uid s sd)) ns)) as (d & Ed & Hd); [intros x Hx; apply HI; right; auto|].
      exists d. split; auto. intros n u. rewrite Hd, in_app_iff, in_map_iff. split.
      + intros [[H|(m & [= -> <-] & Hm)]|(s' & sd' & H1 & H2)]; auto.
        * right. exists s, sd. split; [left; auto|]. split; auto. split; auto. apply E3. auto.
        * right. exists s', sd'. split; [right; auto|auto].
      + intros [H|(s' & sd' & [<-|H1] & H2 & H3 & H4)]; auto.
        * left. right. assert (sd' = sd) by congruence. subst. exists n. split; auto. apply E3. auto.
        * right. exists s', sd'. auto. }
  destruct (G (m_subs md) (map (fun n => (n, module_uid net md)) (m_neurons md)) ltac:(intros x; auto)) as (d & Ed & Hd).
  exists d. split; auto. intros n u. rewrite Hd, in_map_iff. split.
  - intros [(m & [= -> <-] & Hm)|H]; auto.
  - intros [[H ->]|H]; auto. left. eauto.
Qed.
Lemma mapping_func d : mapping w net = Ok d -> forall n u u', In (n, u) d -> In (n, u') d -> u = u'.
Proof.
  intros E n u u' H1 H2. destruct mapping_ok as (d' & E' & HD). assert (d' = d) by congruence. subst d'.
  apply HD in H1. apply HD in H2. destruct H1 as [[H1 ->]|(s & sd & A1 & A2 & A3 & ->)], H2 as [[H2 ->]|(s' & sd' & B1 & B2 & B3 & ->)]; auto.
  - exfalso. eapply own_not_below; eauto.
  - exfalso. eapply own_not_below; eauto.
  - assert (s = s') by (eapply below_unique; eauto). subst s'. congruence.
Qed.
Lemma map_get_iff d n u : mapping w net = Ok d -> map_get d n = Ok u <-> In (n, u) d.
Proof.
  intros E. rewrite <- dict_get_func by (apply mapping_func; auto). unfold map_get. destruct (dict_get _ d n); split; congruence.
Qed.
Lemma map_get_total d n : mapping w net = Ok d -> (below net n -> exists u, map_get d n = Ok u) /\ (~ below net n -> map_get d n = Err EKey).
Proof.
  intros E. pose proof mapping_ok as (d' & E' & HD). assert (d' = d) by congruence. subst d'. split.
  - intros HB. apply in_net_iff in HB as [H|(s & H1 & H2)].
    + exists (module_uid net md). apply map_get_iff; auto. apply HD. auto.
    + destruct (sub_ok s H1) as (sd & l & E1 & _). exists (module_uid s sd). apply map_get_iff; auto. apply HD. right. eauto 10.
  - intros HB. unfold map_get. destruct (dict_get Nat.eqb d n) as [u|] eqn:Eg; auto. exfalso. apply HB.
    apply dict_get_func in Eg; [|apply mapping_func; auto]. apply HD in Eg. apply in_net_iff. destruct Eg as [[H _]|(s & sd & H1 & H2 & H3 & _)]; eauto.
Qed.
(** a synapse is shown *)
Definition shown (i : nat) : Prop := exists y, nth_error (w_syns w) i = Some y /\
  (In (s_pre y) (m_neurons md) \/ exists s, In s (m_subs md) /\ below s (s_pre y) /\ ~ below s (s_post y)).
Definition closed : Prop := forall y, In y (w_syns w) -> below net (s_pre y) -> below net (s_post y).
Lemma rfold_ext {A X} (f g : A -> X -> res A) l : (forall a x, In x l -> f a x = g a x) -> forall a, rfold f l a = rfold g l a.
Proof. induction l as [|x l IH]; intros H a; cbn [rfold]; auto. rewrite (H a x) by (left; auto). destruct (g a x); cbn [rbind]; auto. apply IH. intros. apply H. right; auto. Qed.
Lemma to_display_spec :
  (closed -> exists ns ss, to_display w net = Ok (ns, ss) /\ NoDup ns /\ NoDup ss /\
     (forall i, In i ss <-> shown i) /\
     (forall n, In n ns <-> exists i y, shown i /\ nth_error (w_syns w) i = Some y /\ (n = s_pre y \/ n = s_post y))) /\
  (~ closed -> to_display w net = Err EKey).
Proof.
  destruct mapping_ok as (d & Ed & HD). destruct (neurons_total w net HS HA net_lt) as (nl & Enl).
  pose proof (neurons_members w net nl Enl) as HN. change (forall n, In n nl <-> below net n) in HN.
  set (t1 := fun p : nat * nat => match nth_error (w_syns w) (snd p) with None => Err EAttribute | Some y => Ok (Some (y, snd p)) end).
  set (t2 := fun p : nat * nat => match nth_error (w_syns w) (snd p) with None => Err EAttribute
     | Some y => let* g1 := map_get d (fst p) in let* g2 := map_get d (s_post y) in if String.eqb g1 g2 then Ok None else Ok (Some (y, snd p)) end).
  set (l1 := flat_map (fun n => map (pair n) (out_idx w n)) (m_neurons md)).
  set (l2 := flat_map (fun n => map (pair n) (out_idx w n)) nl).
  assert (Hl : forall l p, In p (flat_map (fun n => map (pair n) (out_idx w n)) l) <-> In (fst p) l /\ exists y, nth_error (w_syns w) (snd p) = Some y /\ s_pre y = fst p).
  { intros l [n i]. cbn [fst snd]. rewrite in_flat_map. split.
    - intros (m & H1 & H2). apply in_map_iff in H2 as (j & [= -> ->] & H2). apply out_idx_In in H2. auto.
    - intros [H1 H2]. exists n. split; auto. apply in_map_iff. exists i. split; auto. apply out_idx_In. auto. }
  assert (E : to_display w net =
     let* a1 := rfold (fun acc x => let* o := t1 x in Ok (match o with Some (y, i) => add_syn y i acc | None => acc end)) l1 ([], []) in
     rfold (fun acc x => let* o := t2 x in Ok (match o with Some (y, i) => add_syn y i acc | None => acc end)) l2 a1).
  { unfold to_display. rewrite Hnet.
    rewrite (rfold_flat (fun n acc i => match nth_error (w_syns w) i with None => Err EAttribute | Some y => Ok (add_syn y i acc) end) (out_idx w)).
    fold l1. rewrite (rfold_ext _ (fun acc x => let* o := t1 x in Ok (match o with Some (y, i) => add_syn y i acc | None => acc end))).
    2:{ intros a [n i] _. unfold t1. cbn [fst snd]. destruct (nth_error (w_syns w) i); reflexivity. }
    destruct (rfold _ l1 ([], [])) as [a1|e]; cbn [rbind]; auto. rewrite Ed. cbn [rbind]. rewrite Enl. cbn [rbind].
    rewrite (rfold_flat (fun n acc i => match nth_error (w_syns w) i with None => Err EAttribute
       | Some y => let* g1 := map_get d n in let* g2 := map_get d (s_post y) in if String.eqb g1 g2 then Ok acc else Ok (add_syn y i acc) end) (out_idx w)).
    fold l2. apply rfold_ext. intros a [n i] _. unfold t2. cbn [fst snd]. destruct (nth_error (w_syns w) i); auto.
    destruct (map_get d n); cbn [rbind]; auto. destruct (map_get d (s_post s)); cbn [rbind]; auto. destruct (String.eqb a0 a2); reflexivity. }
  pose proof (rfold_add t1 l1 ([], [])) as R1. cbv zeta in R1. rewrite E. clear E.
  destruct (rfold _ l1 ([], [])) as [a1|e].
  2:{ exfalso. destruct R1 as (p & Hp & Ep). apply Hl in Hp as (_ & y & Ey & _). unfold t1 in Ep. rewrite Ey in Ep. discriminate. }
  destruct R1 as (_ & B1 & C1 & D1 & F1). cbn [rbind fst snd] in *.
  pose proof (rfold_add t2 l2 a1) as R2. cbv zeta in R2.
  assert (T2 : forall p y, In p l2 -> nth_error (w_syns w) (snd p) = Some y -> exists g1, map_get d (fst p) = Ok g1 /\
     t2 p = let* g2 := map_get d (s_post y) in if String.eqb g1 g2 then Ok None else Ok (Some (y, snd p))).
  { intros p y Hp Ey. apply Hl in Hp as [Hp _]. apply HN in Hp. destruct (proj1 (map_get_total d (fst p) Ed) Hp) as (g1 & G1).
    exists g1. split; auto. unfold t2. rewrite Ey, G1. reflexivity. }
  split.
  - intros HC.
    assert (X2 : forall p y, In p l2 -> t2 p = Ok (Some (y, snd p)) <-> nth_error (w_syns w) (snd p) = Some y /\
        (forall g1 g2, map_get d (fst p) = Ok g1 -> map_get d (s_post y) = Ok g2 -> g1 <> g2)).
    { intros p y Hp. pose proof Hp as Hp'. apply Hl in Hp' as (HB & y' & Ey & Epre). destruct (T2 p y' Hp Ey) as (g1 & G1 & ->).
      assert (HB2 : below net (s_post y')). { apply (HC y'); [eapply nth_error_In; eauto|]. rewrite Epre. apply HN. auto. }
      destruct (proj1 (map_get_total d _ Ed) HB2) as (g2 & G2). rewrite G2. cbn [rbind].
      destruct (String.eqb_spec g1 g2) as [->|Hne]; split.
      - discriminate.
      - intros [Ey2 H]. assert (y = y') by congruence. subst y'. exfalso. eapply H; eauto.
      - intros [= <-]. split; auto. intros g1' g2' Q1 Q2. congruence.
      - intros [Ey2 H]. congruence. }
    assert (Y2 : forall p i y, In p l2 -> t2 p = Ok (Some (y, i)) -> i = snd p).
    { intros p i y Hp Et. pose proof Hp as Hp'. apply Hl in Hp' as (HB & y' & Ey & Epre). destruct (T2 p y' Hp Ey) as (g1 & G1 & Et2). rewrite Et2 in Et.
      destruct (map_get d (s_post y')) as [g2|]; [|discriminate]. cbn [rbind] in Et. destruct (String.eqb g1 g2); congruence. }
    match type of R2 with match ?R with _ => _ end => destruct R as [[ns ss]|e] end.
    2:{ exfalso. destruct R2 as (p & Hp & Ep). pose proof Hp as Hp'. apply Hl in Hp' as (HB & y' & Ey & Epre). destruct (T2 p y' Hp Ey) as (g1 & G1 & Et2). rewrite Et2 in Ep.
      assert (HB2 : below net (s_post y')). { apply (HC y'); [eapply nth_error_In; eauto|]. rewrite Epre. apply HN. auto. }
      destruct (proj1 (map_get_total d _ Ed) HB2) as (g2 & G2). rewrite G2 in Ep. cbn [rbind] in Ep. destruct (String.eqb g1 g2); discriminate. }
    destruct R2 as (_ & B2 & C2 & D2 & F2). cbn [fst snd] in *. exists ns, ss. split; auto.
    split; [apply D2, D1; constructor|]. split; [apply F2, F1; constructor|].
    assert (S2 : forall i y, nth_error (w_syns w) i = Some y -> below net (s_pre y) ->
       ((forall g1 g2, map_get d (s_pre y) = Ok g1 -> map_get d (s_post y) = Ok g2 -> g1 <> g2) -> shown i)).
    { intros i y Ey HB H. exists y. split; auto. apply in_net_iff in HB as [HB|(s & Hs & HB)]; auto. right. exists s. split; auto. split; auto.
      intros HB2. destruct (sub_ok s Hs) as (sd & _ & E1 & _).
      apply (H (module_uid s sd) (module_uid s sd)); auto; apply map_get_iff; auto; apply HD; right; eauto 10. }
    assert (S3 : forall i y s, nth_error (w_syns w) i = Some y -> In s (m_subs md) -> below s (s_pre y) -> ~ below s (s_post y) ->
       (forall g1 g2, map_get d (s_pre y) = Ok g1 -> map_get d (s_post y) = Ok g2 -> g1 <> g2)).
    { intros i y s Ey Hs H1 H2 g1 g2 G1 G2 ->. apply map_get_iff in G1; auto. apply map_get_iff in G2; auto. apply HD in G1. apply HD in G2.
      assert (HP : ~ In (s_pre y) (m_neurons md)) by (intros X; apply (own_not_below s (s_pre y) Hs X); auto).
      destruct G1 as [[G1 _]|(s1 & sd1 & A1 & A2 & A3 & A4)]; [contradiction|].
      assert (s1 = s) by (eapply below_unique; eauto). subst s1.
      destruct G2 as [[G2 G3]|(s2 & sd2 & B1' & B2' & B3' & B4')].
      - rewrite A4 in G3. apply module_uid_inj in G3. subst s. apply (HA net). exists net. split; [apply child_of; auto|constructor].
      - rewrite A4 in B4'. apply module_uid_inj in B4'. subst s2. auto. }
    assert (SS : forall i, In i ss <-> shown i).
    { intros i. rewrite B2, B1. split.
      - intros [[[]|(p & y & Hp & Et)]|(p & y & Hp & Et)].
        + pose proof Hp as Hp'. apply Hl in Hp' as (HB & y' & Ey & Epre). unfold t1 in Et. rewrite Ey in Et. injection Et as <- <-. exists y'. split; auto. left. congruence.
        + pose proof (Y2 _ _ _ Hp Et). subst i. apply X2 in Et as [Ey H]; auto. pose proof Hp as Hp'. apply Hl in Hp' as (HB & y' & Ey' & Epre).
          assert (y' = y) by congruence. subst y'. apply (S2 _ y); auto; rewrite Epre; auto. apply HN. auto.
      - intros (y & Ey & [H|(s & Hs & H1 & H2)]).
        + left. right. exists (s_pre y, i), y. split; [apply Hl; cbn; eauto|]. unfold t1. cbn [snd]. rewrite Ey. reflexivity.
        + right. exists (s_pre y, i), y. assert (Hp : In (s_pre y, i) l2). { apply Hl. cbn [fst snd]. split; [|eauto]. apply HN. apply in_net_iff. eauto. }
          split; auto. apply (X2 (s_pre y, i) y Hp). cbn [fst snd]. split; auto. eapply S3; eauto. }
    split; auto. intros n. rewrite C2, C1. split.
    + intros [[[]|(p & y & i & Hp & Et & Hn)]|(p & y & i & Hp & Et & Hn)]; exists i, y.
      * assert (i = snd p /\ nth_error (w_syns w) (snd p) = Some y) as [-> Ey].
        { unfold t1 in Et. destruct (nth_error (w_syns w) (snd p)); [injection Et as -> <-; auto|discriminate]. }
        split; auto. apply SS. rewrite B2, B1. left. right. eauto.
      * pose proof (Y2 _ _ _ Hp Et). subst i. split; [apply SS; rewrite B2; right; eauto|]. apply X2 in Et as [Ey _]; auto.
    + intros (i & y & Hi & Ey & Hn). apply SS in Hi. rewrite B2, B1 in Hi. destruct Hi as [[[]|(p & y' & Hp & Et)]|(p & y' & Hp & Et)].
      * left. right. exists p, y', i. split; auto. split; auto. unfold t1 in Et. destruct (nth_error (w_syns w) (snd p)) eqn:Es; [|discriminate]. injection Et as -> <-. congruence.
      * right. exists p, y', i. split; auto. split; auto. pose proof (Y2 _ _ _ Hp Et). subst i. apply X2 in Et as [Ey2 _]; auto. congruence.
  - intros HC. match type of R2 with match ?R with _ => _ end => destruct R as [r|e] end.
    + exfalso. apply HC. intros y Hy HB. apply In_nth_error in Hy as (i & Ey). destruct R2 as (A2 & _).
      assert (Hp : In (s_pre y, i) l2). { apply Hl. cbn [fst snd]. split; [apply HN; auto|eauto]. }
      destruct (A2 _ Hp) as (o & Eo). destruct (T2 _ y Hp Ey) as (g1 & G1 & Et). rewrite Et in Eo.
      destruct (map_get d (s_post y)) as [g2|] eqn:G2; [|discriminate]. apply map_get_iff in G2; auto. apply HD in G2. apply in_net_iff.
      destruct G2 as [[G2 _]|(s & sd & Q1 & Q2 & Q3 & _)]; eauto.
    + destruct R2 as (p & Hp & Ep). pose proof Hp as Hp'. apply Hl in Hp' as (HB & y' & Ey & Epre). destruct (T2 p y' Hp Ey) as (g1 & G1 & Et2). rewrite Et2 in Ep.
      unfold map_get in Ep. destruct (dict_get Nat.eqb d (s_post y')); cbn [rbind] in Ep; [|congruence]. destruct (String.eqb g1 s); discriminate.
Qed.
Lemma groups_spec ns : (forall n, In n ns -> below net n) ->
  exists g, groups_to_display w net ns = Ok g /\
   forall n u, In (n, u) g <-> In n ns /\ exists s sd, In s (m_subs md) /\ nth_error (w_mods w) s = Some sd /\ below s n /\ u = module_uid s sd.
Proof.
  intros HB. unfold groups_to_display. rewrite Hnet. destruct mapping_ok as (d & Ed & HD). rewrite Ed. cbn [rbind].
  assert (G : forall l acc, (forall n, In n l -> below net n) -> exists sel, rfold (fun acc n => let* g := map_get d n in Ok (acc ++ [(n, g)])) l acc = Ok sel /\
     forall n u, In (n, u) sel <-> In (n, u) acc \/ In n l /\ In (n, u) d).
  { induction l as [|m l IH]; intros acc Hl; cbn [rfold].
    - exists acc. split; auto. intros n u. split; auto. intros [H|[[] _]]; auto.
    - destruct (proj1 (map_get_total d m Ed)) as (g & Eg); [apply Hl; left; auto|]. rewrite Eg. cbn [rbind].
      destruct (IH (acc ++ [(m, g)])) as (sel & Es & Hs); [intros; apply Hl; right; auto|]. exists sel. split; auto.
      apply map_get_iff in Eg; auto. intros n u. rewrite Hs, in_app_iff. cbn [In]. split.
      + intros [[H|[[= <- <-]|[]]]|[H1 H2]]; auto.
      + intros [H|[[<-|H1] H2]]; auto. left. right. left. f_equal. eapply mapping_func; eauto. }
  destruct (G ns [] HB) as (sel & Es & Hs). rewrite Es. cbn [rbind]. eexists. split; [reflexivity|].
  intros n u. rewrite filter_In, Hs, HD. cbn [snd]. split.
  - intros [[[]|[H1 [[H2 ->]|H2]]] H3]; [rewrite String.eqb_refl in H3; discriminate|auto].
  - intros [H1 (s & sd & A1 & A2 & A3 & ->)]. split; [right; split; auto; right; eauto 10|].
    apply negb_true_iff, String.eqb_neq. intros E. apply module_uid_inj in E. subst s. apply (HA net). exists net. split; [apply child_of; auto|constructor].
Qed.
End Topo.

(** ** format_groups *)
Lemma add_element_spec d k v : NoDup (map fst d) ->
  NoDup (map fst (add_element d k v)) /\
  (forall k', In k' (map fst (add_element d k v)) <-> k' = k \/ In k' (map fst d)) /\
  (forall k' l, In (k', l) (add_element d k v) <->
     (k' <> k /\ In (k', l) d) \/ (k' = k /\ ((~ In k (map fst d) /\ l = [v]) \/ exists l0, In (k, l0) d /\ l = l0 ++ [v]))).
Proof.
  induction d as [|[k1 l1] d IH]; intros ND; cbn [add_element map fst].
  - split; [repeat constructor; auto|]. split; [intros k'; cbn; intuition|]. intros k' l. cbn. split.
    + intros [[= <- <-]|[]]. right. split; auto.
    + intros [[_ []]|(-> & [[_ ->]|(l0 & [] & _)])]. auto.
  - inversion ND as [|? ? Hn ND']; subst. destruct (String.eqb_spec k1 k) as [->|Hne].
    + cbn [map fst]. split; auto. split; [intros k'; cbn; intuition|]. intros k' l. cbn [In]. split.
      * intros [[= <- <-]|H]; [right; split; auto; right; eauto|]. left. split; auto. intros ->. apply Hn. apply (in_map fst) in H. exact H.
      * intros [[H1 [[= -> ->]|H2]]|(-> & [[H1 ->]|(l0 & [[= ->]|H2] & ->)])]; auto; try congruence.
        -- exfalso. apply H1. left. auto.
        -- exfalso. apply Hn. apply (in_map fst) in H2. exact H2.
    + destruct (IH ND') as (A & B & C). cbn [map fst]. split; [|split].
      * constructor; auto. rewrite B. intros [->|H]; auto.
      * intros k'. cbn [In]. rewrite B. intuition.
      * intros k' l. cbn [In]. rewrite C. split.
        -- intros [[= <- <-]|[[H1 H2]|(-> & [[H1 ->]|(l0 & H1 & ->)])]]; auto.
           ++ right. split; auto. left. split; auto. intros [X|X]; auto.
           ++ right. split; auto. right. eauto.
        -- intros [[H1 [[= -> ->]|H2]]|(-> & [[H1 ->]|(l0 & [[= -> ->]|H2] & ->)])]; auto.
           ++ right. right. split; auto. left. split; auto.
           ++ congruence.
           ++ right. right. split; auto. right. eauto.
Qed.
Lemma format_groups_spec g :
  NoDup (map fst (format_groups g)) /\ (forall k, In k (map fst (format_groups g)) <-> In k (map snd g)) /\
  (forall k l, In (k, l) (format_groups g) -> l = map fst (filter (fun p => String.eqb (snd p) k) g)).
Proof.
  unfold format_groups. induction g as [|[v k1] g IH] using rev_ind.
  - cbn. split; [constructor|]. split; [tauto|]. intros k l [].
  - rewrite fold_left_app. cbn [fold_left fst snd]. destruct IH as (A & B & C).
    destruct (add_element_spec _ k1 v A) as (A' & B' & C'). split; auto. split.
    + intros k. rewrite B', B, map_app, in_app_iff. cbn. intuition.
    + intros k l H. apply C' in H. rewrite filter_app, map_app. cbn [filter snd]. destruct H as [[H1 H2]|(-> & [[H1 ->]|(l0 & H1 & ->)])].
      * rewrite (C _ _ H2). destruct (String.eqb_spec k1 k); [congruence|]. cbn. rewrite app_nil_r. auto.
      * rewrite String.eqb_refl. cbn. rewrite B in H1. replace (filter (fun p => String.eqb (snd p) k1) g) with (@nil (nat * string)); auto.
        clear - H1. induction g as [|p g IH]; auto. cbn in *. destruct (String.eqb_spec (snd p) k1); [exfalso; auto|]. apply IH. tauto.
      * rewrite (C _ _ H1), String.eqb_refl. reflexivity.
Qed.
(** ** neurons_with_module_uid *)
Lemma recurse_spec {T} (w : world T) f : forall m l, module_neurons f w m = Ok l ->
  exists r, recurse_uid f w m = Ok r /\ map fst r = l /\
    forall n u, In (n, u) r <-> exists d md, desc w m d /\ nth_error (w_mods w) d = Some md /\ In n (m_neurons md) /\ u = module_uid d md.
Proof.
  induction f as [|f IH]; intros m l E; [discriminate|]. cbn [module_neurons recurse_uid] in *.
  destruct (nth_error (w_mods w) m) as [md|] eqn:Em; [|discriminate].
  destruct (rfold _ (m_subs md) []) as [subs|] eqn:Es; [|discriminate]. cbn [rbind] in E. injection E as <-.
  assert (G : forall ss acc acc' subs, rfold (fun acc s => let* l := module_neurons f w s in Ok (acc ++ l)) ss acc = Ok subs -> map fst acc' = acc ->
     exists r, rfold (fun acc s => let* l := recurse_uid f w s in Ok (acc ++ l)) ss acc' = Ok r /\ map fst r = subs /\
       forall n u, In (n, u) r <-> In (n, u) acc' \/ exists s d md, In s ss /\ desc w s d /\ nth_error (w_mods w) d = Some md /\ In n (m_neurons md) /\ u = module_uid d md).
  { induction ss as [|s ss IHs]; intros acc acc' sb E HA; cbn [rfold] in *.
    - injection E as <-. exists acc'. split; auto. split; auto. intros n u. split; auto. intros [H|(s & d & md' & [] & _)]; auto.
    - destruct (module_neurons f w s) as [ls|] eqn:El; [|discriminate]. cbn [rbind] in E.
      destruct (IH s ls El) as (r & Er & Hr & Hin). rewrite Er. cbn [rbind].
      destruct (IHs (acc ++ ls) (acc' ++ r) sb E) as (r' & Er' & Hr' & Hin'); [rewrite map_app; congruence|].
      exists r'. split; auto. split; auto. intros n u. rewrite Hin', in_app_iff, Hin. split.
      + intros [[H|(d & md' & H)]|(s' & d & md' & H1 & H)]; auto; right; [exists s, d, md'|exists s', d, md']; split; auto; [left|right]; auto.
      + intros [H|(s' & d & md' & [<-|H1] & H)]; auto; [left; right; eauto|right; eauto 10]. }
  destruct (G (m_subs md) [] [] subs Es eq_refl) as (r & Er & Hr & Hin). rewrite Er. cbn [rbind]. eexists. split; [reflexivity|].
  split. { rewrite map_app, map_map, Hr. cbn [fst]. rewrite map_id. reflexivity. }
  intros n u. rewrite in_app_iff, in_map_iff, Hin. split.
  - intros [(n' & [= -> <-] & Hn)|[[]|(s & d & md' & H1 & H2 & H3)]].
    + exists m, md. split; [constructor|auto].
    + exists d, md'. split; auto. econstructor; [exists md; eauto|auto].
  - intros (d & md' & H1 & H2 & H3 & ->). inversion H1 as [|m0 s d0 Hc Hd]; subst.
    + left. assert (md' = md) by congruence. subst. eauto.
    + right. right. destruct Hc as (md2 & E2 & Hin2). assert (md2 = md) by congruence. subst. exists s, d, md'. auto.
Qed.
Lemma neuron_module_spec {T} (w : world T) m d md n : subs_exist w -> (forall x, ~ pdesc w x x) -> one_owner w -> m < List.length (w_mods w) ->
  desc w m d -> nth_error (w_mods w) d = Some md -> In n (m_neurons md) ->
  neuron_module_uid w m n = Ok (Some (module_uid d md)).
Proof.
  intros HS HA HO Hm Hd Emd Hn. destruct (neurons_total w m HS HA Hm) as (l & El). destruct (recurse_spec w _ m l El) as (r & Er & _ & Hin).
  unfold neuron_module_uid. rewrite Er. cbn [rbind]. f_equal. apply dict_get_func; [|apply Hin; eauto 10].
  intros u u' H1 H2. apply Hin in H1 as (d1 & m1 & _ & A2 & A3 & ->). apply Hin in H2 as (d2 & m2 & _ & B2 & B3 & ->).
  assert (d1 = d2) by (eapply owner_unique; eauto). subst d2. congruence.
Qed.
