(** CancelableEventQueue refines "insertion-ordered list of live events" (C03). *)
From Coq Require Import Arith ZArith Bool List Permutation Lia.
From Verif Require Import Num NumOrd Heapq HeapqProofs Elements CancelQueue.
Import ListNotations.
Open Scope list_scope.

Section Spec.
Context {T : Type} `{NT : Num T}.
(** ** Specification.  [live] = events added, not removed, not popped, in insertion
    order; [times] = the times registered since they were last popped (removing an
    event leaves its time registered). *)
Inductive cop := CAdd (e : uevent T) | CRemove (e : uevent T) | CPop | CLen.
Inductive cout := ODone | OEvents (l : list (uevent T)) | OIndexError | OKeyError | OLen (n : nat).

Definition same_time (t : T) (e : uevent T) : bool := neqb t (u_time e).
Fixpoint remove_live (l : list (uevent T)) (e : uevent T) : list (uevent T) :=
  match l with
  | [] => []
  | x :: l' => if same_time (u_time e) x && (u_id x =? u_id e) then l' else x :: remove_live l' e
  end.
Definition distinct (l : list T) : Prop := ForallOrdPairs (fun a b => neqb a b = false) l.

Inductive spec_cq : list (uevent T) * list T -> cop -> cout -> list (uevent T) * list T -> Prop :=
| sc_add_new p ts e : existsb (fun t => same_time t e) ts = false ->
    spec_cq (p, ts) (CAdd e) ODone (p ++ [e], u_time e :: ts)
| sc_add_old p ts e : existsb (fun t => same_time t e) ts = true ->
    spec_cq (p, ts) (CAdd e) ODone (p ++ [e], ts)
| sc_remove p ts e : spec_cq (p, ts) (CRemove e) ODone (remove_live p e, ts)
| sc_pop_index p : spec_cq (p, []) CPop OIndexError (p, [])
| sc_pop_empty ts : ts <> [] -> spec_cq ([], ts) CPop (OEvents []) ([], [])
| sc_pop p ts t : In t ts ->
    filter (same_time t) p <> [] ->
    (forall e, In e p -> nltb (u_time e) t = false) ->
    spec_cq (p, ts) CPop (OEvents (filter (same_time t) p))
            (filter (fun e => negb (same_time t e)) p, filter (fun t' => nltb t t') ts)
| sc_len p ts l : distinct l ->
    (forall e, In e p -> existsb (fun t => same_time t e) l = true) ->
    (forall t, In t l -> existsb (same_time t) p = true) ->
    spec_cq (p, ts) CLen (OLen (length l)) (p, ts).

(** What the code does. *)
Definition cq_step (q : cqueue T) (o : cop) : cout * cqueue T :=
  match o with
  | CAdd e => (ODone, cq_add q e)
  | CRemove e => (ODone, cq_remove q e)
  | CPop => match cq_pop q with
            | Ok (l, q') => (OEvents l, q')
            | Err EIndex => (OIndexError, q)
            | Err _ => (OKeyError, q)
            end
  | CLen => (OLen (cq_len q), q)
  end.
Fixpoint run_cq (ops : list cop) (q : cqueue T) : list cout :=
  match ops with
  | [] => []
  | o :: ops' => let '(out, q') := cq_step q o in out :: run_cq ops' q'
  end.
Inductive spec_run_cq : list (uevent T) * list T -> list cop -> list cout -> Prop :=
| sr_nil s : spec_run_cq s [] []
| sr_cons s o out s' ops outs :
    spec_cq s o out s' -> spec_run_cq s' ops outs -> spec_run_cq s (o :: ops) (out :: outs).
Definition cop_ok (okT : T -> Prop) (o : cop) : Prop :=
  match o with CAdd e => okT (u_time e) | CRemove e => okT (u_time e) | _ => True end.
End Spec.

Section Proof.
Context {T : Type} `{NT : Num T} (okT : T -> Prop) (HO : NumOrd T okT).

Lemma eqt_refl a : okT a -> neqb a a = true.
Proof.
  intros. rewrite (no_eqb _ _ HO) by auto. destruct (nltb a a) eqn:E; auto.
  pose proof (no_asym _ _ HO a a H H E). congruence.
Qed.
Lemma eqt_sym a b : okT a -> okT b -> neqb a b = neqb b a.
Proof. intros. rewrite !(no_eqb _ _ HO) by auto. apply andb_comm. Qed.
Lemma eqt_trans a b c : okT a -> okT b -> okT c -> neqb a b = true -> neqb b c = true -> neqb a c = true.
Proof.
  intros. rewrite (no_eqb _ _ HO) in * by auto.
  apply andb_true_iff in H2, H3. destruct H2 as [H2 H2'], H3 as [H3 H3'].
  rewrite negb_true_iff in *. apply andb_true_iff; rewrite !negb_true_iff.
  split; eapply (no_letrans _ _ HO); [| | |exact H3|exact H2| | | |exact H2'|exact H3']; auto.
Qed.
Lemma eqt_cong a b c : okT a -> okT b -> okT c -> neqb a b = true -> neqb a c = neqb b c.
Proof.
  intros. destruct (neqb a c) eqn:E1, (neqb b c) eqn:E2; auto.
  - rewrite eqt_sym in H2 by auto. rewrite (eqt_trans b a c) in E2; auto.
  - rewrite (eqt_trans a b c) in E1; auto.
Qed.

Definition keys (m : list (T * list (uevent T))) := map fst m.

Record rel (q : cqueue T) (p : list (uevent T)) (ts : list T) : Prop := {
  r_ok : Forall okT (cq_heap q);
  r_okp : Forall (fun e => okT (u_time e)) p;
  r_heap : heap_ok nltb (cq_heap q);
  r_perm : Permutation (cq_heap q) (keys (cq_map q));
  r_ts : Permutation ts (keys (cq_map q));
  r_dist : distinct (keys (cq_map q));
  r_val : forall k l, In (k, l) (cq_map q) -> l = filter (same_time k) p;
  r_cov : forall e, In e p -> exists k, In k (keys (cq_map q)) /\ neqb k (u_time e) = true
}.

Lemma rel_okk q p ts : rel q p ts -> Forall okT (keys (cq_map q)).
Proof.
  intros R. apply Forall_forall. intros x Hx. pose proof (r_ok _ _ _ R) as Ho.
  rewrite Forall_forall in Ho. apply Ho. apply Permutation_in with (2 := Hx).
  symmetry; apply (r_perm _ _ _ R).
Qed.

Lemma dget_Some m t l : dget m t = Some l -> exists k, In (k, l) m /\ neqb k t = true.
Proof.
  induction m as [|[k v] m IH]; cbn; [discriminate|].
  destruct (neqb k t) eqn:E; [intros [= <-]; exists k; auto|].
  intros X. destruct (IH X) as (k' & ? & ?). exists k'; auto.
Qed.
Lemma dget_None m t : dget m t = None <-> forall k, In k (keys m) -> neqb k t = false.
Proof.
  induction m as [|[k v] m IH]; cbn; [firstorder|].
  destruct (neqb k t) eqn:E.
  - split; [discriminate|]. intros X. rewrite X in E; auto. discriminate.
  - rewrite IH. split; intros X k' Hk; [destruct Hk as [<-|]|]; auto.
Qed.

Lemma distinct_in m k1 k2 : distinct (k1 :: keys m) -> In k2 (keys m) -> neqb k1 k2 = false.
Proof. intros D HI. inversion D; subst. rewrite Forall_forall in *. auto. Qed.

Lemma dget_in m k l t : Forall okT (keys m) -> okT t -> distinct (keys m) ->
  In (k, l) m -> neqb k t = true -> dget m t = Some l.
Proof.
  induction m as [|[k' v] m IH]; cbn; [tauto|]. intros Hok Ht D [HI|HI] E.
  - injection HI as -> ->. rewrite E. reflexivity.
  - inversion Hok; subst. inversion D; subst.
    destruct (neqb k' t) eqn:E'; auto.
    assert (Hk : In k (keys m)) by (apply (in_map fst) in HI; auto).
    assert (okT k) by (rewrite Forall_forall in H2; auto).
    rewrite Forall_forall in H3. specialize (H3 _ Hk).
    rewrite (eqt_trans k' t k) in H3; auto; [discriminate|]. rewrite eqt_sym; auto.
Qed.

Lemma keys_dset_old m t v : (exists k, In k (keys m) /\ neqb k t = true) -> keys (dset m t v) = keys m.
Proof.
  induction m as [|[k v0] m IH]; cbn; intros (k' & HI & E); [tauto|].
  destruct (neqb k t) eqn:E'; cbn; auto. f_equal. apply IH.
  destruct HI as [<-|]; [congruence|]. exists k'; auto.
Qed.
Lemma dset_new m t v : dget m t = None -> dset m t v = m ++ [(t, v)].
Proof.
  induction m as [|[k v0] m IH]; cbn; auto. destruct (neqb k t); [discriminate|].
  intros X. rewrite IH; auto.
Qed.
Lemma in_dset m t v k l : Forall okT (keys m) -> okT t -> distinct (keys m) ->
  (exists k, In k (keys m) /\ neqb k t = true) ->
  In (k, l) (dset m t v) -> (neqb k t = true /\ l = v /\ In k (keys m)) \/ (neqb k t = false /\ In (k, l) m).
Proof.
  induction m as [|[k' v0] m IH]; cbn; intros Hok Ht D (kk & HI & E) HK; [tauto|].
  inversion Hok; subst. inversion D; subst.
  destruct (neqb k' t) eqn:E'; cbn in HK.
  - destruct HK as [HK|HK]; [injection HK as -> ->; auto|].
    right. split; auto. destruct (neqb k t) eqn:Ek; auto.
    assert (Hk : In k (keys m)) by (apply (in_map fst) in HK; auto).
    assert (Hkk : okT k) by (rewrite Forall_forall in H2; auto).
    rewrite Forall_forall in H3. specialize (H3 _ Hk).
    assert (X : neqb k' k = true); [|congruence].
    apply (eqt_trans k' t k); auto. rewrite eqt_sym; auto.
  - destruct HK as [HK|HK]; [injection HK as -> ->; auto|].
    destruct HI as [<-|HI]; [congruence|].
    destruct (IH H2 Ht H4 (ex_intro _ kk (conj HI E)) HK) as [(? & ? & ?)|(? & ?)]; [left|right]; auto.
Qed.

Lemma existsb_perm {A} (f : A -> bool) l l' : Permutation l l' -> existsb f l = existsb f l'.
Proof.
  intros P. destruct (existsb f l) eqn:E1, (existsb f l') eqn:E2; auto.
  - apply existsb_exists in E1. destruct E1 as (x & ? & ?).
    assert (existsb f l' = true) by (apply existsb_exists; exists x; split; auto; eapply Permutation_in; eauto).
    congruence.
  - apply existsb_exists in E2. destruct E2 as (x & ? & ?).
    assert (existsb f l = true) by (apply existsb_exists; exists x; split; auto; apply Permutation_in with l'; [symmetry|]; auto).
    congruence.
Qed.

Lemma filter_app_one (f : uevent T -> bool) p e : filter f (p ++ [e]) = filter f p ++ (if f e then [e] else []).
Proof. rewrite filter_app. cbn. reflexivity. Qed.

Lemma filter_ext_in' {A} (f g : A -> bool) l : (forall x, In x l -> f x = g x) -> filter f l = filter g l.
Proof. apply filter_ext_in. Qed.

Lemma rel_add q p ts e : rel q p ts -> okT (u_time e) ->
  exists s', spec_cq (p, ts) (CAdd e) ODone s' /\ rel (cq_add q e) (fst s') (snd s').
Proof.
  intros R He. pose proof (rel_okk _ _ _ R) as Hk. destruct R as [R1 R2 R3 R4 R5 R6 R7 R8].
  assert (Hk' : forall k'', In k'' (keys (cq_map q)) -> okT k'') by (rewrite Forall_forall in Hk; auto).
  assert (Ex : existsb (fun t => same_time t e) ts = existsb (fun t => same_time t e) (keys (cq_map q)))
    by (apply existsb_perm; auto).
  unfold cq_add. destruct (dget (cq_map q) (u_time e)) as [l|] eqn:E.
  - destruct (dget_Some _ _ _ E) as (k & HI & Ek).
    assert (HIk : In k (keys (cq_map q))) by (apply (in_map fst) in HI; auto).
    assert (Hkeys : exists k, In k (keys (cq_map q)) /\ neqb k (u_time e) = true) by eauto.
    exists (p ++ [e], ts). split.
    + apply sc_add_old. rewrite Ex. apply existsb_exists. exists k; auto.
    + split; cbn [fst snd cq_heap cq_map]; auto; rewrite ?keys_dset_old by auto; auto.
      * apply Forall_app; auto.
      * intros k' l' HI'. apply in_dset in HI'; auto.
        assert (El := R7 _ _ HI).
        rewrite filter_app_one. destruct HI' as [(E1 & -> & HI')|[E1 HI']].
        -- subst l. unfold same_time at 3. rewrite E1. f_equal. apply filter_ext_in.
           intros x Hx. unfold same_time. rewrite Forall_forall in R2.
           apply eqt_cong; auto. apply eqt_trans with (u_time e); auto. rewrite eqt_sym; auto.
        -- unfold same_time at 2. rewrite E1, app_nil_r. auto.
      * intros x Hx. apply in_app_or in Hx. destruct Hx as [Hx|[<-|[]]]; auto.
  - assert (HN := proj1 (dget_None _ _) E).
    exists (p ++ [e], u_time e :: ts). split.
    + apply sc_add_new. rewrite Ex. apply not_true_iff_false. intros EE.
      apply existsb_exists in EE. destruct EE as (k & HI & Ek). unfold same_time in Ek.
      rewrite HN in Ek; auto. discriminate.
    + destruct (heappush_spec nltb okT (no_asym _ _ HO) (no_letrans _ _ HO) (cq_heap q) (u_time e))
        as (P1 & P2 & P3); auto.
      rewrite dset_new by auto.
      split; cbn [fst snd cq_heap cq_map]; auto; unfold keys; rewrite ?map_app; cbn [map fst]; fold (keys (cq_map q)).
      * apply Forall_app; auto.
      * rewrite P2, R4. apply Permutation_cons_append.
      * rewrite R5. apply Permutation_cons_append.
      * clear -R6 HN. unfold distinct in *. induction (keys (cq_map q)) as [|a m IH]; cbn.
        -- repeat constructor.
        -- inversion R6; subst. constructor.
           ++ apply Forall_app; split; auto. constructor; auto. apply HN; left; auto.
           ++ apply IH; auto. intros; apply HN; right; auto.
      * intros k' l' HI'. apply in_app_or in HI'. rewrite filter_app_one. destruct HI' as [HI'|[HI'|[]]].
        -- unfold same_time at 2. rewrite HN by (apply (in_map fst) in HI'; auto).
           rewrite app_nil_r; auto.
        -- injection HI' as <- <-. unfold same_time at 2. rewrite eqt_refl by auto.
           assert (filter (same_time (u_time e)) p = []) as ->; auto.
           destruct (filter _ p) as [|x ?] eqn:EE; auto.
           assert (Hx : In x (filter (same_time (u_time e)) p)) by (rewrite EE; left; auto).
           apply filter_In in Hx. destruct Hx as [Hx Hx2].
           destruct (R8 x Hx) as (k & HIk & Ek). pose proof (HN k HIk) as X.
           rewrite Forall_forall in R2. unfold same_time in Hx2.
           assert (neqb k (u_time e) = true); [|congruence].
           apply eqt_trans with (u_time x); auto. rewrite eqt_sym; auto.
      * intros x Hx. apply in_app_or in Hx. destruct Hx as [Hx|[<-|[]]].
        -- destruct (R8 x Hx) as (k & ? & ?). exists k; split; auto. apply in_or_app; auto.
        -- exists (u_time e). split; [apply in_or_app; right; left; auto|]. apply eqt_refl; auto.
Qed.

Lemma filter_remove_live (f : uevent T -> bool) p e :
  (forall x, In x p -> same_time (u_time e) x = true -> f x = true) ->
  (forall x, In x p -> f x = true -> same_time (u_time e) x = true) ->
  filter f (remove_live p e) = remove_first (filter f p) (u_id e).
Proof.
  induction p as [|x p IH]; intros H1 H2; cbn; auto.
  destruct (same_time (u_time e) x) eqn:E1; cbn [andb].
  - rewrite (H1 x) by (auto; left; auto). cbn. destruct (u_id x =? u_id e) eqn:E2; auto. cbn.
    rewrite (H1 x) by (auto; left; auto). f_equal. apply IH; intros; auto; [apply H1|apply H2]; auto; right; auto.
  - destruct (f x) eqn:E2; [rewrite H2 in E1; auto; [discriminate|left; auto]|]. cbn. rewrite E2.
    apply IH; intros; auto; [apply H1|apply H2]; auto; right; auto.
Qed.
Lemma filter_remove_live_other (f : uevent T -> bool) p e :
  (forall x, In x p -> same_time (u_time e) x = true -> f x = false) ->
  filter f (remove_live p e) = filter f p.
Proof.
  induction p as [|x p IH]; intros H1; cbn; auto.
  destruct (same_time (u_time e) x) eqn:E1; cbn [andb].
  - rewrite (H1 x) by (auto; left; auto). destruct (u_id x =? u_id e); auto. cbn.
    rewrite (H1 x) by (auto; left; auto). apply IH; intros; apply H1; auto; right; auto.
  - cbn. rewrite IH; auto. intros; apply H1; auto; right; auto.
Qed.
Lemma in_remove_live p e x : In x (remove_live p e) -> In x p.
Proof.
  induction p as [|y p IH]; cbn; auto. destruct (_ && _); cbn; intuition.
Qed.

Lemma rel_remove q p ts e : rel q p ts -> okT (u_time e) ->
  exists s', spec_cq (p, ts) (CRemove e) ODone s' /\ rel (cq_remove q e) (fst s') (snd s').
Proof.
  intros R He. pose proof (rel_okk _ _ _ R) as Hk. destruct R as [R1 R2 R3 R4 R5 R6 R7 R8].
  assert (Hk' : forall k'', In k'' (keys (cq_map q)) -> okT k'') by (rewrite Forall_forall in Hk; auto).
  assert (R2' : forall x, In x p -> okT (u_time x)) by (rewrite Forall_forall in R2; auto).
  exists (remove_live p e, ts). split; [constructor|].
  assert (R2r : Forall (fun x => okT (u_time x)) (remove_live p e)).
  { apply Forall_forall. intros x Hx. apply R2'. eapply in_remove_live; eauto. }
  unfold cq_remove. destruct (dget (cq_map q) (u_time e)) as [l|] eqn:E.
  - destruct (dget_Some _ _ _ E) as (k & HI & Ek).
    assert (HIk : In k (keys (cq_map q))) by (apply (in_map fst) in HI; auto).
    assert (Hkeys : exists k, In k (keys (cq_map q)) /\ neqb k (u_time e) = true) by eauto.
    split; cbn [fst snd cq_heap cq_map]; auto; rewrite ?keys_dset_old by auto; auto.
    + intros k' l' HI'. apply in_dset in HI'; auto.
      assert (El := R7 _ _ HI).
      destruct HI' as [(E1 & -> & HI')|[E1 HI']].
      * subst l. rewrite filter_remove_live.
        -- f_equal. apply filter_ext_in. intros x Hx. unfold same_time.
           apply eqt_cong; auto. apply eqt_trans with (u_time e); auto. rewrite eqt_sym; auto.
        -- intros x Hx Hs. unfold same_time in *. rewrite (eqt_cong k' (u_time e)); auto.
        -- intros x Hx Hs. unfold same_time in *. rewrite <- (eqt_cong k' (u_time e)); auto.
      * rewrite filter_remove_live_other; auto.
        intros x Hx Hs. unfold same_time in *.
        assert (In k' (keys (cq_map q))) by (apply (in_map fst) in HI'; auto).
        rewrite <- E1. rewrite (eqt_sym k' (u_time x)), (eqt_sym k' (u_time e)) by auto.
        symmetry. apply eqt_cong; auto.
    + intros x Hx. apply R8. eapply in_remove_live; eauto.
  - assert (HN := proj1 (dget_None _ _) E).
    assert (forall x, In x p -> same_time (u_time e) x = false) as HF.
    { intros x Hx. destruct (same_time (u_time e) x) eqn:Es; auto. unfold same_time in Es.
      destruct (R8 x Hx) as (k & HIk & Ek). rewrite <- (HN k HIk).
      symmetry. apply eqt_trans with (u_time x); auto. rewrite eqt_sym; auto. }
    assert (remove_live p e = p) as ->.
    { clear -HF. induction p as [|x p IH]; cbn; auto. rewrite HF by (left; auto). cbn. f_equal.
      apply IH. intros; apply HF; right; auto. }
    split; auto.
Qed.

Lemma keys_ddel m t : keys (ddel m t) = filter (fun k => negb (neqb k t)) (keys m).
Proof.
  unfold ddel, keys. induction m as [|[k v] m IH]; cbn; auto. destruct (neqb k t); cbn; rewrite IH; auto.
Qed.

Lemma distinct_filter f l : distinct l -> distinct (filter f l).
Proof.
  unfold distinct. induction l as [|a l IH]; cbn; auto. intros D; inversion D; subst.
  destruct (f a); auto. constructor; auto. rewrite Forall_forall in *. intros x Hx.
  apply filter_In in Hx. destruct Hx; auto.
Qed.

Lemma filter_true_all {A} (f : A -> bool) l : (forall x, In x l -> f x = true) -> filter f l = l.
Proof. induction l as [|a l IH]; cbn; auto. intros HF. rewrite HF by (left; auto). f_equal. apply IH; intros; apply HF; right; auto. Qed.

(** One turn of the pop loop: the least registered time is taken out. *)
Lemma rel_pop_one q p ts t h' l :
  rel q p ts -> heappop nltb (cq_heap q) = Some (t, h') -> dget (cq_map q) t = Some l ->
  In t ts /\ l = filter (same_time t) p /\ (forall e, In e p -> nltb (u_time e) t = false) /\
  rel {| cq_heap := h'; cq_map := ddel (cq_map q) t |}
      (filter (fun e => negb (same_time t e)) p) (filter (fun t' => nltb t t') ts).
Proof.
  intros R EP ED. pose proof (rel_okk _ _ _ R) as Hk. destruct R as [R1 R2 R3 R4 R5 R6 R7 R8].
  assert (Hk' : forall k'', In k'' (keys (cq_map q)) -> okT k'') by (rewrite Forall_forall in Hk; auto).
  assert (R2' : forall x, In x p -> okT (u_time x)) by (rewrite Forall_forall in R2; auto).
  pose proof (heappop_spec nltb okT (no_asym _ _ HO) (no_letrans _ _ HO) (cq_heap q) R1 R3) as HP.
  rewrite EP in HP. destruct HP as (P1 & P2 & P3 & P4 & P5).
  assert (HIt : In t (keys (cq_map q))).
  { apply Permutation_in with (cq_heap q); auto. apply Permutation_in with (t :: h'); [symmetry; auto|left; auto]. }
  assert (Ht : okT t) by auto.
  assert (Hmin : forall k, In k (keys (cq_map q)) -> nltb k t = false).
  { intros k HIk. apply P5. apply Permutation_in with (keys (cq_map q)); auto. symmetry; auto. }
  assert (Hfil : forall x, In x (keys (cq_map q)) -> negb (neqb x t) = nltb t x).
  { intros x Hx. rewrite (no_eqb _ _ HO) by auto. rewrite Hmin by auto. cbn. rewrite negb_involutive. auto. }
  destruct (dget_Some _ _ _ ED) as (k & HI & Ek).
  assert (HIk : In k (keys (cq_map q))) by (apply (in_map fst) in HI; auto).
  split; [apply Permutation_in with (keys (cq_map q)); auto; symmetry; auto|].
  split. { rewrite (R7 _ _ HI). apply filter_ext_in. intros x Hx. apply eqt_cong; auto. }
  split.
  { intros e He. destruct (R8 e He) as (k2 & HI2 & E2).
    rewrite (no_eqb _ _ HO) in E2 by auto. apply andb_true_iff in E2. destruct E2 as [E2 E2'].
    rewrite negb_true_iff in *. eapply (no_letrans _ _ HO) with (b := k2); auto. }
  assert (Hperm : Permutation h' (filter (fun k => negb (neqb k t)) (keys (cq_map q)))).
  { assert (HX : Permutation (t :: h') (keys (cq_map q))) by (rewrite <- P2; auto).
    assert (HY : filter (fun k => negb (neqb k t)) (t :: h') = h').
    { cbn. rewrite eqt_refl by auto. cbn. apply filter_true_all. intros x Hx.
      apply in_split in HIt. destruct HIt as (m1 & m2 & Em).
      rewrite Em in HX. apply Permutation_cons_app_inv in HX.
      assert (HD : distinct (t :: m1 ++ m2)).
      { (* pairwise distinctness is symmetric *)
        unfold distinct in *. rewrite Em in R6. rewrite Em in Hk'.
        clear -R6 HO Hk' Ht. induction m1 as [|a m1 IH]; cbn in *; auto.
        inversion R6; subst. assert (okT a) by auto.
        specialize (IH H2 ltac:(intros; apply Hk'; auto)). inversion IH; subst.
        apply Forall_app in H1. destruct H1 as [H1 H1']. inversion H1'; subst.
        constructor.
        - constructor; auto. rewrite eqt_sym; auto.
        - constructor; auto. apply Forall_app; auto. }
      inversion HD; subst. rewrite Forall_forall in H1.
      assert (In x (m1 ++ m2)) by (eapply Permutation_in; eauto).
      assert (In x (keys (cq_map q))).
      { rewrite Em. apply in_app_or in H. apply in_or_app. destruct H; auto. right; right; auto. }
      rewrite eqt_sym by auto. rewrite H1; auto. }
    rewrite <- HY. clear HY. set (f := fun k => negb (neqb k t)) in *.
    clear -HX. induction HX; cbn; auto.
    - destruct (f x); auto.
    - destruct (f x), (f y); auto. constructor.
    - etransitivity; eauto. }
  split; cbn [cq_heap cq_map]; rewrite ?keys_ddel; auto.
  - apply Forall_forall. intros x Hx. apply filter_In in Hx. destruct Hx; auto.
  - rewrite (filter_ext_in _ (fun t' => nltb t t') (keys (cq_map q))) by auto.
    clear -R5. induction R5; cbn; auto.
    + destruct (nltb t x); auto.
    + destruct (nltb t x), (nltb t y); auto. constructor.
    + etransitivity; eauto.
  - apply distinct_filter; auto.
  - intros k0 l0 HI0. unfold ddel in HI0. apply filter_In in HI0. destruct HI0 as [HI0 E0]. cbn in E0.
    rewrite (R7 _ _ HI0).
    assert (In k0 (keys (cq_map q))) by (apply (in_map fst) in HI0; auto).
    clear -E0 R2' HO Ht H Hk'. induction p as [|x p IH]; cbn; auto.
    assert (okT (u_time x)) by (apply R2'; left; auto).
    assert (HIH : forall y, In y p -> okT (u_time y)) by (intros; apply R2'; right; auto).
    destruct (same_time t x) eqn:E1; cbn [negb].
    + assert (same_time k0 x = false) as ->; auto.
      unfold same_time in *. rewrite negb_true_iff in E0.
      destruct (neqb k0 (u_time x)) eqn:E2; auto.
      rewrite <- E0. symmetry. apply (eqt_trans k0 (u_time x) t); auto. rewrite eqt_sym; auto.
    + cbn [filter]. destruct (same_time k0 x); [f_equal|]; auto.
  - intros e He. apply filter_In in He. destruct He as [He E2].
    destruct (R8 e He) as (k2 & HI2 & E3). exists k2. split; auto.
    apply filter_In; split; auto. unfold same_time in E2. rewrite negb_true_iff in *.
    rewrite <- E2. rewrite (eqt_sym t) by auto. rewrite (eqt_sym (u_time e)) by auto.
    rewrite (eqt_sym t) by auto. rewrite <- (eqt_cong k2 (u_time e) t); auto.
Qed.

Lemma pop_loop_rel fuel : forall q p ts,
  rel q p ts -> length (cq_heap q) <= fuel -> cq_heap q <> [] ->
  exists out q' p' ts', cq_pop_loop fuel q [] = Ok (out, q') /\ spec_cq (p, ts) CPop (OEvents out) (p', ts') /\ rel q' p' ts'.
Proof.
  induction fuel as [|f IH]; intros q p ts R Hl Hne.
  { destruct (cq_heap q); cbn in Hl; [congruence|lia]. }
  cbn [cq_pop_loop]. destruct (cq_heap q) as [|t0 h0] eqn:EH; [congruence|].
  pose proof R as R'. destruct R' as [R1 R2 R3 R4 R5 R6 R7 R8].
  pose proof (heappop_spec nltb okT (no_asym _ _ HO) (no_letrans _ _ HO) (cq_heap q) R1 R3) as HP.
  rewrite EH in *.
  destruct (heappop nltb (t0 :: h0)) as [[t h']|] eqn:EP; [|discriminate].
  destruct HP as (P1 & P2 & P3 & P4 & P5).
  assert (HIt : In t (keys (cq_map q))).
  { apply Permutation_in with (t0 :: h0); auto. apply Permutation_in with (t :: h'); [symmetry; auto|left; auto]. }
  assert (Hok : Forall okT (keys (cq_map q))) by (eapply rel_okk; eauto).
  assert (Ht : okT t) by (rewrite Forall_forall in Hok; auto).
  destruct (dget (cq_map q) t) as [l|] eqn:ED.
  2:{ exfalso. pose proof (proj1 (dget_None _ _) ED t HIt) as X. rewrite eqt_refl in X; auto. discriminate. }
  rewrite <- EH in EP.
  destruct (rel_pop_one _ _ _ _ _ _ R EP ED) as (Q1 & Q2 & Q3 & Q4).
  destruct l as [|e l].
  - assert (Hlen : length h' <= f).
    { apply Permutation_length in P2. cbn in *. lia. }
    assert (Hp : filter (fun e => negb (same_time t e)) p = p).
    { apply filter_true_all. intros x Hx. destruct (same_time t x) eqn:E; auto.
      assert (In x (filter (same_time t) p)) by (apply filter_In; auto). rewrite <- Q2 in H. destruct H. }
    rewrite Hp in Q4.
    destruct h' as [|t1 h1] eqn:EH'.
    + (* heap exhausted: every pending event had been removed *)
      exists [], {| cq_heap := []; cq_map := ddel (cq_map q) t |}, [], [].
      split. { destruct f; reflexivity. }
      assert (p = []).
      { destruct p as [|x p]; auto. destruct (r_cov _ _ _ Q4 x ltac:(left; auto)) as (k & HI & _).
        pose proof (r_perm _ _ _ Q4) as X. cbn [cq_heap] in X. apply Permutation_nil in X.
        rewrite X in HI. destruct HI. }
      subst p. split.
      * apply sc_pop_empty. intros ->. destruct Q1.
      * assert (filter (fun t' => nltb t t') ts = []) as Hts.
        { pose proof (r_perm _ _ _ Q4) as X. cbn [cq_heap] in X.
          pose proof (r_ts _ _ _ Q4) as Y. apply Permutation_nil. rewrite Y. rewrite <- X. reflexivity. }
        rewrite Hts in Q4. exact Q4.
    + destruct (IH {| cq_heap := t1 :: h1; cq_map := ddel (cq_map q) t |} _ _ Q4) as (out & q' & p' & ts' & E1 & E2 & E3); cbn [cq_heap]; auto; [discriminate|].
      exists out, q', p', ts'. split; auto. split; auto.
      (* popping the empty bucket first does not change the specification's answer *)
      inversion E2 as [| | | |? Hts0|? ? t2 Hin2 Hne2 Hmin2|]; subst.
      * apply sc_pop_empty. intros ->. destruct Q1.
      * assert (Hff : filter (fun t'0 => nltb t2 t'0) (filter (fun t' => nltb t t') ts) = filter (fun t' => nltb t2 t') ts).
        { apply filter_In in Hin2. destruct Hin2 as [H1 H1'].
          assert (Hts : forall x, In x ts -> okT x).
          { intros x Hx. rewrite Forall_forall in Hok. apply Hok. eapply Permutation_in; eauto. }
          assert (Ht2 : okT t2) by auto.
          assert (Htlt : forall x, In x ts -> nltb t2 x = true -> nltb t x = true).
          { intros x Hx E. destruct (nltb t x) eqn:Ex; auto. exfalso.
            assert (nltb t2 x = false); [|congruence].
            eapply (no_letrans _ _ HO) with (b := t); auto. apply (no_asym _ _ HO); auto. }
          clear -Htlt. induction ts as [|x ts IH]; cbn; auto.
          destruct (nltb t x) eqn:E1; cbn.
          - destruct (nltb t2 x); [f_equal|]; apply IH; intros; apply Htlt; auto; right; auto.
          - destruct (nltb t2 x) eqn:E2; [rewrite Htlt in E1; auto; [discriminate|left; auto]|].
            apply IH; intros; apply Htlt; auto; right; auto. }
        rewrite Hff. constructor; auto.
        apply filter_In in Hin2. tauto.
  - exists (e :: l), {| cq_heap := h'; cq_map := ddel (cq_map q) t |},
      (filter (fun e => negb (same_time t e)) p), (filter (fun t' => nltb t t') ts).
    split. { destruct f; cbn; destruct h'; reflexivity. }
    split; auto. rewrite Q2. constructor; auto. rewrite <- Q2. discriminate.
Qed.

Lemma rel_len q p ts : rel q p ts -> spec_cq (p, ts) CLen (OLen (cq_len q)) (p, ts).
Proof.
  intros R. pose proof (rel_okk _ _ _ R) as Hk. destruct R as [R1 R2 R3 R4 R5 R6 R7 R8].
  assert (Hk' : forall k'', In k'' (keys (cq_map q)) -> okT k'') by (rewrite Forall_forall in Hk; auto).
  set (f := fun t => match dget (cq_map q) t with Some l => negb (length l =? 0) | None => false end).
  assert (Hf : forall t, In t (keys (cq_map q)) -> f t = existsb (same_time t) p).
  { intros t HI. apply in_map_iff in HI. destruct HI as ([k l] & <- & HI). cbn [fst].
    assert (In k (keys (cq_map q))) by (apply (in_map fst) in HI; auto).
    unfold f. rewrite (dget_in (cq_map q) k l k); auto using eqt_refl.
    rewrite (R7 _ _ HI). clear. induction p as [|x p IH]; cbn; auto.
    destruct (same_time k x); cbn; auto. }
  assert (HL : cq_len q = length (filter f (keys (cq_map q)))).
  { unfold cq_len. fold f. apply Permutation_length. clear -R4. induction R4; cbn; auto.
    - destruct (f x); auto. - destruct (f x), (f y); auto. constructor. - etransitivity; eauto. }
  rewrite HL. apply sc_len.
  - apply distinct_filter; auto.
  - intros e He. destruct (R8 e He) as (k & HI & Ek). apply existsb_exists. exists k. split; auto.
    apply filter_In. split; auto. rewrite Hf by auto. apply existsb_exists. exists e; auto.
  - intros t HI. apply filter_In in HI. destruct HI. rewrite <- Hf; auto.
Qed.

Lemma cq_step_rel q p ts o : rel q p ts -> cop_ok okT o ->
  exists p' ts', spec_cq (p, ts) o (fst (cq_step q o)) (p', ts') /\ rel (snd (cq_step q o)) p' ts'.
Proof.
  intros R Ho. destruct o as [e|e| |]; cbn [cq_step cop_ok] in *.
  - destruct (rel_add q p ts e R Ho) as ([p' ts'] & ? & ?). exists p', ts'; auto.
  - destruct (rel_remove q p ts e R Ho) as ([p' ts'] & ? & ?). exists p', ts'; auto.
  - unfold cq_pop. destruct (cq_heap q) as [|t h] eqn:EH.
    + cbn. exists p, ts. split; auto.
      assert (ts = []) as ->.
      { pose proof (r_perm _ _ _ R) as X. rewrite EH in X. apply Permutation_nil.
        rewrite (r_ts _ _ _ R), <- X. reflexivity. }
      constructor.
    + rewrite <- EH. destruct (pop_loop_rel (length (cq_heap q)) q p ts R (le_n _)) as (out & q' & p' & ts' & E1 & E2 & E3).
      { rewrite EH; discriminate. }
      rewrite E1. cbn. exists p', ts'; auto.
  - exists p, ts. split; auto. apply rel_len; auto.
Qed.

Lemma run_cq_rel ops : forall q p ts, rel q p ts -> Forall (cop_ok okT) ops ->
  spec_run_cq (p, ts) ops (run_cq ops q).
Proof.
  induction ops as [|o ops IH]; intros q p ts R Ho; cbn; [constructor|].
  inversion Ho; subst. destruct (cq_step_rel q p ts o R H1) as (p' & ts' & S1 & S2).
  destruct (cq_step q o) as [out q']. cbn in *. econstructor; eauto.
Qed.

Lemma rel_empty : rel cq_empty [] [].
Proof. split; cbn; auto; try constructor; try tauto. intros i d Hi. cbn in Hi. lia. Qed.

Theorem run_cq_correct ops : Forall (cop_ok okT) ops -> spec_run_cq ([], []) ops (run_cq ops cq_empty).
Proof. apply run_cq_rel, rel_empty. Qed.
End Proof.
