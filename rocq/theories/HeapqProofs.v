(** The heapq model keeps the heap order and the multiset of elements; [heappop]
    returns a minimum.  [lt] is only required to be a strict weak order on the
    elements satisfying [ok] (e.g. binary64 values that are not NaN). *)
From Coq Require Import List Arith Bool Lia Permutation.
From Verif Require Import Heapq.
Import ListNotations.

Section P.
  Context {A : Type} (lt : A -> A -> bool) (ok : A -> Prop).
  Definition le (a b : A) : Prop := lt b a = false.
  Hypothesis lt_asym : forall a b, ok a -> ok b -> lt a b = true -> lt b a = false.
  Hypothesis le_trans : forall a b c, ok a -> ok b -> ok c -> le a b -> le b c -> le a c.

  Lemma le_refl a : ok a -> le a a.
  Proof. intros Ha. unfold le. destruct (lt a a) eqn:E; auto. rewrite <- E. auto. Qed.

  Lemma lset_length (l : list A) i x : length (lset l i x) = length l.
  Proof. revert i; induction l as [|a l IH]; intros [|i]; simpl; auto. Qed.

  Lemma nth_lset (l : list A) i j x d :
    nth j (lset l i x) d = if (j =? i) && (i <? length l) then x else nth j l d.
  Proof.
    revert i j; induction l as [|a l IH]; intros i j; simpl.
    - destruct i, j; simpl; rewrite ?andb_false_r; auto.
    - destruct i as [|i], j as [|j]; simpl; auto. rewrite IH. auto.
  Qed.
  Lemma nth_lset_eq (l : list A) i x d : i < length l -> nth i (lset l i x) d = x.
  Proof. intros H. rewrite nth_lset, Nat.eqb_refl. apply Nat.ltb_lt in H. now rewrite H. Qed.
  Lemma nth_lset_ne (l : list A) i j x d : j <> i -> nth j (lset l i x) d = nth j l d.
  Proof. intros H. rewrite nth_lset. apply Nat.eqb_neq in H. now rewrite H. Qed.

  Lemma Forall_lset (P : A -> Prop) l i x : Forall P l -> P x -> Forall P (lset l i x).
  Proof. intros H Hx. revert i; induction H; intros [|i]; simpl; auto. Qed.
  Lemma Forall_nth' (P : A -> Prop) l i d : Forall P l -> P d -> P (nth i l d).
  Proof. intros H Hd. revert i; induction H; intros [|i]; simpl; auto. Qed.

  Lemma lset_lset (l : list A) i x y : lset (lset l i x) i y = lset l i y.
  Proof. revert i; induction l as [|a l IH]; intros [|i]; simpl; auto. now rewrite IH. Qed.

  Lemma lset_perm_head (l : list A) i x d :
    i < length l -> Permutation (nth i l d :: lset l i x) (x :: l).
  Proof.
    revert i; induction l as [|a l IH]; intros [|i] H; simpl in *; try lia.
    - apply perm_swap.
    - rewrite perm_swap. rewrite (IH i) by lia. apply perm_swap.
  Qed.

  Lemma lset_swap_perm (l : list A) i j x d :
    i < length l -> j < length l -> i <> j ->
    Permutation (lset (lset l i (nth j l d)) j x) (lset l i x).
  Proof.
    intros Hi Hj Hne.
    apply (Permutation_cons_inv (a := nth j l d)).
    transitivity (x :: lset l i (nth j l d)).
    - pose proof (lset_perm_head (lset l i (nth j l d)) j x d) as HP.
      rewrite lset_length, (nth_lset_ne l i j) in HP by auto. auto.
    - apply (Permutation_cons_inv (a := nth i l d)).
      rewrite perm_swap. rewrite (lset_perm_head l i (nth j l d) d Hi).
      transitivity (nth j l d :: nth i l d :: lset l i x); [|apply perm_swap].
      rewrite (lset_perm_head l i x d Hi). apply perm_swap.
  Qed.

  (** Heap order: every element is >= its parent. *)
  Definition heap_ok (h : list A) : Prop :=
    forall i d, 0 < i < length h -> le (nth ((i - 1) / 2) h d) (nth i h d).

  (** Heap order everywhere except between [pos] and its parent. *)
  Definition almost (h : list A) (pos : nat) : Prop :=
    (forall i d, 0 < i < length h -> i <> pos -> le (nth ((i - 1) / 2) h d) (nth i h d)) /\
    (forall c d, 0 < pos -> c < length h -> 0 < c -> (c - 1) / 2 = pos ->
       le (nth ((pos - 1) / 2) h d) (nth c h d)).

  Lemma parent_lt i : 0 < i -> (i - 1) / 2 < i.
  Proof. intros. apply Nat.div_lt_upper_bound; lia. Qed.

  Lemma lset_same (l : list A) i d : i < length l -> lset l i (nth i l d) = l.
  Proof.
    revert i; induction l as [|a l IH]; intros [|i] H; simpl in *; try lia; auto.
    f_equal. apply IH. lia.
  Qed.

  Lemma siftdown_spec fuel h x pos :
    Forall ok h -> ok x -> pos < length h -> pos < fuel ->
    almost (lset h pos x) pos ->
    heap_ok (siftdown lt fuel h x pos) /\
    Permutation (siftdown lt fuel h x pos) (lset h pos x) /\
    Forall ok (siftdown lt fuel h x pos).
  Proof.
    revert h pos; induction fuel as [|f IH]; intros h pos Hok Hx Hpos Hf [H1 H2]; [lia|].
    cbn [siftdown]. destruct (pos =? 0) eqn:E0.
    - apply Nat.eqb_eq in E0; subst pos.
      repeat split; auto using Forall_lset.
      intros i d Hi. rewrite lset_length in *. apply H1; try lia; rewrite lset_length; lia.
    - apply Nat.eqb_neq in E0.
      set (pp := (pos - 1) / 2) in *.
      assert (Hpp : pp < pos) by (apply parent_lt; lia).
      set (par := nth pp h x).
      assert (Hpar : ok par) by (apply Forall_nth'; auto).
      destruct (lt x par) eqn:Elt.
      + assert (Hlp : le x par) by (unfold le; apply lt_asym; auto).
        assert (Heq : forall d, nth pp (lset h pos x) d = par).
        { intros d. rewrite nth_lset_ne by lia. apply nth_indep; lia. }
        assert (Hal : almost (lset (lset h pos par) pp x) pp).
        { split.
          - intros i d Hi Hne. rewrite !lset_length in Hi.
            destruct (Nat.eq_dec i pos) as [->|Hip].
            + fold pp. rewrite nth_lset_eq by (rewrite lset_length; lia).
              rewrite nth_lset_ne by lia. rewrite nth_lset_eq by lia. auto.
            + rewrite (nth_lset_ne _ pp i) by auto. rewrite (nth_lset_ne h pos i) by auto.
              destruct (Nat.eq_dec ((i-1)/2) pp) as [Ep|Ep].
              * rewrite Ep. rewrite nth_lset_eq by (rewrite lset_length; lia).
                specialize (H1 i d). rewrite lset_length in H1.
                specialize (H1 Hi Hip). rewrite Ep, Heq in H1.
                rewrite nth_lset_ne in H1 by auto.
                apply le_trans with par; auto.
                apply Forall_forall with (x := nth i h d) in Hok; auto.
                apply nth_In; lia.
              * rewrite (nth_lset_ne _ pp) by auto.
                destruct (Nat.eq_dec ((i-1)/2) pos) as [Eq|Eq].
                -- rewrite Eq. rewrite nth_lset_eq by lia.
                   specialize (H2 i d). rewrite lset_length in H2.
                   fold pp in H2. rewrite Heq in H2.
                   rewrite (nth_lset_ne h pos i) in H2 by auto. apply H2; lia.
                -- rewrite nth_lset_ne by auto.
                   specialize (H1 i d). rewrite lset_length in H1.
                   specialize (H1 Hi Hip). rewrite !nth_lset_ne in H1 by auto. auto.
          - intros c d Hp0 Hc Hc0 Ec. rewrite !lset_length in Hc.
            assert (Hpp2 : (pp - 1) / 2 < pp) by (apply parent_lt; lia).
            rewrite (nth_lset_ne _ pp ((pp-1)/2)) by lia.
            rewrite (nth_lset_ne h pos ((pp-1)/2)) by lia.
            assert (Hcp : c <> pp). { intros ->. lia. }
            rewrite (nth_lset_ne _ pp c) by auto.
            assert (Hgp : le (nth ((pp-1)/2) h d) par).
            { specialize (H1 pp d). rewrite lset_length in H1.
              rewrite nth_lset_ne in H1 by lia. rewrite Heq in H1. apply H1; lia. }
            assert (Hokg : ok (nth ((pp-1)/2) h d)).
            { apply Forall_forall with (x := nth ((pp-1)/2) h d) in Hok; auto. apply nth_In; lia. }
            destruct (Nat.eq_dec c pos) as [->|Hcne].
            + rewrite nth_lset_eq by lia. auto.
            + rewrite nth_lset_ne by auto.
              apply le_trans with par; auto.
              * apply Forall_forall with (x := nth c h d) in Hok; auto. apply nth_In; lia.
              * specialize (H1 c d). rewrite lset_length in H1. rewrite Ec, Heq in H1.
                rewrite nth_lset_ne in H1 by auto. apply H1; lia. }
        destruct (IH (lset h pos par) pp) as (A1 & A2 & A3); auto using Forall_lset.
        { rewrite lset_length; lia. } { lia. }
        repeat split; auto.
        rewrite A2. apply lset_swap_perm; lia.
      + repeat split; auto using Forall_lset.
        intros i d Hi. rewrite lset_length in Hi.
        destruct (Nat.eq_dec i pos) as [->|Hip].
        * fold pp. rewrite nth_lset_ne by lia. rewrite nth_lset_eq by lia.
          unfold le. replace (nth pp h d) with par; auto.
          apply nth_indep; lia.
        * apply H1; auto. rewrite lset_length; lia.
  Qed.

  (** Invariant while the hole at [pos] descends: order holds between all pairs not
      involving [pos], and across the hole. *)
  Definition holed (h : list A) (pos : nat) : Prop :=
    (forall i d, 0 < i < length h -> i <> pos -> (i - 1) / 2 <> pos ->
       le (nth ((i - 1) / 2) h d) (nth i h d)) /\
    (forall c d, 0 < pos -> c < length h -> 0 < c -> (c - 1) / 2 = pos ->
       le (nth ((pos - 1) / 2) h d) (nth c h d)).

  Lemma child1 pos : (2 * pos + 1 - 1) / 2 = pos.
  Proof. replace (2*pos+1-1) with (pos*2) by lia. apply Nat.div_mul; lia. Qed.
  Lemma child2 pos : (2 * pos + 1 + 1 - 1) / 2 = pos.
  Proof. symmetry. apply Nat.div_unique with 1; lia. Qed.
  Lemma child_cases c pos : 0 < c -> (c - 1) / 2 = pos -> c = 2 * pos + 1 \/ c = 2 * pos + 1 + 1.
  Proof.
    intros Hc E. pose proof (Nat.div_mod (c-1) 2 ltac:(lia)) as Hd.
    pose proof (Nat.mod_upper_bound (c-1) 2 ltac:(lia)). lia.
  Qed.

  Lemma siftup_hole_spec fuel h x pos :
    Forall ok h -> ok x -> pos < length h -> length h <= pos + fuel ->
    holed h pos ->
    let '(h', p) := siftup_hole lt fuel h x pos in
    length h' = length h /\ p < length h' /\ length h <= 2 * p + 1 /\ holed h' p /\ Forall ok h' /\
    Permutation (lset h' p x) (lset h pos x).
  Proof.
    revert h pos; induction fuel as [|f IH]; intros h pos Hok Hx Hpos Hf Hh; [lia|].
    cbn [siftup_hole]. destruct (2 * pos + 1 <? length h) eqn:E1.
    2:{ apply Nat.ltb_ge in E1. repeat split; auto; apply Hh. }
    apply Nat.ltb_lt in E1.
    set (c := if _ && _ then _ else _).
    assert (Hc : c < length h /\ (c - 1) / 2 = pos /\ pos < c /\
      forall s d, 0 < s < length h -> (s - 1) / 2 = pos -> s <> c -> le (nth c h d) (nth s h d)).
    { unfold c. destruct (2 * pos + 1 + 1 <? length h) eqn:E2; cbn [andb].
      - apply Nat.ltb_lt in E2.
        assert (O1 : ok (nth (2*pos+1) h x)) by (apply Forall_nth'; auto).
        assert (O2 : ok (nth (2*pos+1+1) h x)) by (apply Forall_nth'; auto).
        destruct (lt (nth (2 * pos + 1) h x) (nth (2 * pos + 1 + 1) h x)) eqn:E3; cbn [negb].
        + split; [auto|]. split; [apply child1|]. split; [lia|].
          intros s d Hs Es Hne. destruct (child_cases s pos ltac:(lia) Es) as [->| ->]; [lia|].
          rewrite !(nth_indep h d x) by lia. unfold le. apply lt_asym; auto.
        + split; [lia|]. split; [apply child2|]. split; [lia|].
          intros s d Hs Es Hne. destruct (child_cases s pos ltac:(lia) Es) as [->| ->]; [|lia].
          rewrite !(nth_indep h d x) by lia. unfold le. auto.
      - apply Nat.ltb_ge in E2. split; [lia|]. split; [apply child1|]. split; [lia|].
        intros s d Hs Es Hne. destruct (child_cases s pos ltac:(lia) Es) as [->| ->]; lia. }
    clearbody c. destruct Hc as (Hc1 & Hc2 & Hc3 & Hc4). destruct Hh as [H1 H2].
    specialize (IH (lset h pos (nth c h x)) c).
    destruct (siftup_hole lt f (lset h pos (nth c h x)) x c) as [h' p] eqn:Es.
    rewrite lset_length in IH. destruct IH as (I1 & I2 & I3 & I4 & I5 & I6); auto.
    { apply Forall_lset; auto. apply Forall_nth'; auto. } { lia. }
    { split.
      - intros i d Hi Hne Hpe. rewrite lset_length in Hi.
        destruct (Nat.eq_dec i pos) as [->|Hip].
        + pose proof (parent_lt pos ltac:(lia)) as Hlt.
          rewrite nth_lset_eq by lia. rewrite nth_lset_ne by lia.
          rewrite (nth_indep h x d) by lia. apply H2; auto; lia.
        + rewrite (nth_lset_ne h pos i) by auto.
          destruct (Nat.eq_dec ((i-1)/2) pos) as [Ep|Ep].
          * rewrite Ep, nth_lset_eq by lia. rewrite (nth_indep h x d) by lia. apply Hc4; auto.
          * rewrite nth_lset_ne by auto. apply H1; auto.
      - intros cc d _ Hcc Hcc0 Ecc. rewrite lset_length in Hcc. rewrite Hc2.
        assert (cc <> pos). { intros ->. pose proof (parent_lt pos Hcc0). lia. }
        rewrite nth_lset_eq by lia. rewrite nth_lset_ne by auto.
        rewrite (nth_indep h x d) by lia. rewrite <- Ecc. apply H1; lia. }
    repeat split; auto; try lia; try apply I4.
    rewrite I6. apply lset_swap_perm; lia.
  Qed.

  Lemma siftup_spec h x :
    Forall ok h -> ok x -> 0 < length h -> holed h 0 ->
    heap_ok (siftup lt h x) /\ Permutation (siftup lt h x) (lset h 0 x) /\ Forall ok (siftup lt h x).
  Proof.
    intros Hok Hx Hl Hh. unfold siftup.
    pose proof (siftup_hole_spec (length h) h x 0 Hok Hx Hl ltac:(lia) Hh) as HS.
    destruct (siftup_hole lt (length h) h x 0) as [h' p].
    destruct HS as (I1 & I2 & I3 & [I4 I4'] & I5 & I6).
    destruct (siftdown_spec (S p) (lset h' p x) x p) as (S1 & S2 & S3); auto using Forall_lset.
    { rewrite lset_length; auto. }
    { rewrite lset_lset. split.
      - intros i d Hi Hne. rewrite lset_length in Hi.
        assert ((i - 1) / 2 <> p).
        { intros E. destruct (child_cases i p ltac:(lia) E); lia. }
        rewrite !nth_lset_ne by auto. apply I4; auto.
      - intros c d Hp Hc Hc0 Ec. rewrite lset_length in Hc.
        destruct (child_cases c p ltac:(lia) Ec); lia. }
    repeat split; auto. rewrite S2, lset_lset. auto.
  Qed.

  Lemma lset_app_last (l : list A) a x : lset (l ++ [a]) (length l) x = l ++ [x].
  Proof. induction l; simpl; auto. f_equal; auto. Qed.

  Theorem heappush_spec h x :
    Forall ok h -> ok x -> heap_ok h ->
    heap_ok (heappush lt h x) /\ Permutation (heappush lt h x) (x :: h) /\ Forall ok (heappush lt h x).
  Proof.
    intros Hok Hx Hh. unfold heappush.
    destruct (siftdown_spec (S (length h)) (h ++ [x]) x (length h)) as (S1 & S2 & S3); auto.
    { apply Forall_app; auto. } { rewrite app_length; simpl; lia. }
    { rewrite lset_app_last. split.
      - intros i d Hi Hne. rewrite app_length in Hi; simpl in Hi.
        assert ((i-1)/2 < i) by (apply parent_lt; lia).
        rewrite !app_nth1 by lia. apply Hh; lia.
      - intros c d Hp Hc Hc0 Ec. rewrite app_length in Hc; simpl in Hc.
        pose proof (parent_lt c Hc0). lia. }
    repeat split; auto. rewrite S2, lset_app_last.
    symmetry. apply Permutation_cons_append.
  Qed.

  Lemma heap_ok_min h i d : Forall ok h -> heap_ok h -> i < length h -> le (nth 0 h d) (nth i h d).
  Proof.
    intros Hok Hh. induction i as [i IH] using (well_founded_induction lt_wf). intros Hi.
    destruct (Nat.eq_dec i 0) as [->|Hne].
    - apply le_refl. apply Forall_forall with (x := nth 0 h d) in Hok; auto. apply nth_In; auto.
    - pose proof (parent_lt i ltac:(lia)).
      apply le_trans with (nth ((i-1)/2) h d).
      + apply Forall_forall with (x := nth 0 h d) in Hok; auto. apply nth_In; lia.
      + apply Forall_forall with (x := nth ((i-1)/2) h d) in Hok; auto. apply nth_In; lia.
      + apply Forall_forall with (x := nth i h d) in Hok; auto. apply nth_In; lia.
      + apply IH; lia.
      + apply Hh; lia.
  Qed.

  Theorem heappop_spec h :
    Forall ok h -> heap_ok h ->
    match heappop lt h with
    | None => h = []
    | Some (x, h') =>
        hd_error h = Some x /\ Permutation h (x :: h') /\ heap_ok h' /\ Forall ok h' /\
        (forall y, In y h -> le x y)
    end.
  Proof.
    intros Hok Hh. destruct h as [|top tl0]; [reflexivity|].
    assert (Hpop : heappop lt (top :: tl0) =
      match removelast (top :: tl0) with
      | [] => Some (last (top :: tl0) top, [])
      | ret :: r => Some (ret, siftup lt (lset (ret :: r) 0 (last (top :: tl0) top)) (last (top :: tl0) top))
      end) by (unfold heappop; destruct (removelast (top :: tl0)); reflexivity).
    rewrite Hpop; clear Hpop.
    assert (Hmin : forall y, In y (top :: tl0) -> le top y).
    { intros y Hy. destruct (In_nth _ y top Hy) as (i & Hi & Ei). rewrite <- Ei.
      change top with (nth 0 (top :: tl0) top) at 1. apply heap_ok_min; auto. }
    pose proof (app_removelast_last (l := top :: tl0) top ltac:(congruence)) as Hsplit.
    remember (removelast (top :: tl0)) as rl eqn:Er. remember (last (top :: tl0) top) as la eqn:El.
    clear Er El.
    destruct rl as [|ret rest].
    - simpl in Hsplit. injection Hsplit as -> ->. repeat split; auto.
      intros i d Hi; simpl in Hi; lia.
    - assert (Htop : ret = top) by (simpl in Hsplit; congruence). subst ret.
      rewrite Hsplit in Hok, Hh. apply Forall_app in Hok as [Hok1 Hok2]. inversion Hok2 as [|? ? Hokl _]; subst.
      destruct (siftup_spec (lset (top :: rest) 0 la) la) as (S1 & S2 & S3); auto.
      { apply Forall_lset; auto. } { simpl; lia. }
      { split; [|intros; lia]. intros i d Hi Hne1 Hne2. rewrite lset_length in Hi.
        rewrite !nth_lset_ne by auto.
        specialize (Hh i d). assert ((i-1)/2 < i) by (apply parent_lt; lia).
        rewrite app_length in Hh. rewrite !app_nth1 in Hh by lia. apply Hh; lia. }
      rewrite lset_lset in S2. simpl in S2.
      split; [reflexivity|]. split; [|split; [auto|split; [auto|auto]]].
      rewrite Hsplit. etransitivity; [apply Permutation_app_comm|].
      cbn [app]. rewrite perm_swap. constructor. symmetry. exact S2.
  Qed.
End P.
