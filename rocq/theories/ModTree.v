(** Module hierarchies and nested lists (C19). *)
From Coq Require Import Arith Bool List Lia Permutation Sorted.
From Verif Require Import Num Heapq Elements.
Import ListNotations.
Open Scope list_scope.

(** ** flatten_nested_list *)
(** Independent specification: a leaf is reached by a path of list indices. *)
Inductive leaf_at {A} : nested A -> list nat -> A -> Prop :=
| leaf_here a : leaf_at (Leaf A a) [] a
| leaf_in l i x p a : nth_error l i = Some x -> leaf_at x p a -> leaf_at (Nest A l) (i :: p) a.
(** depth-first (lexicographic) order on paths *)
Inductive path_lt : list nat -> list nat -> Prop :=
| pl_here i j p q : i < j -> path_lt (i :: p) (j :: q)
| pl_down i p q : path_lt p q -> path_lt (i :: p) (i :: q).

Lemma fold_left_app_flat {A C} (f : C -> list A) l acc : fold_left (fun a x => a ++ f x) l acc = acc ++ flat_map f l.
Proof.
  revert acc. induction l as [|x l IH]; intros acc; cbn; [rewrite app_nil_r; auto|]. rewrite IH, app_assoc. reflexivity.
Qed.
Lemma flatten_nest {A} (l : list (nested A)) : flatten_nested (Nest A l) = flat_map flatten_nested l.
Proof. cbn. apply (fold_left_app_flat flatten_nested l []). Qed.

(** one level of nesting, as in the [neurons] property (networks.py:44-47) *)
Lemma flatten_one_level {A} (ls : list (list A)) :
  flatten_nested (Nest A (map (fun l => Nest A (map (Leaf A) l)) ls)) = concat ls.
Proof.
  rewrite flatten_nest. induction ls as [|l ls IH]; [reflexivity|]. cbn [map flat_map concat]. rewrite IH. f_equal.
  rewrite flatten_nest. clear. induction l as [|a l IH]; [reflexivity|]. cbn [map flat_map]. rewrite IH. reflexivity.
Qed.

Section NestedInd.
  Context {A : Type} (P : nested A -> Prop).
  Hypothesis HL : forall a, P (Leaf A a).
  Hypothesis HN : forall l, Forall P l -> P (Nest A l).
  Fixpoint nested_ind' (x : nested A) : P x :=
    match x with
    | Leaf _ a => HL a
    | Nest _ l => HN l ((fix go (l : list (nested A)) : Forall P l :=
        match l with [] => Forall_nil P | y :: l' => Forall_cons y (nested_ind' y) (go l') end) l)
    end.
End NestedInd.

Definition path_sorted (l : list (list nat)) : Prop := Sorted.StronglySorted path_lt l.
Lemma ss_map_cons i ps : path_sorted ps -> path_sorted (map (cons i) ps).
Proof.
  induction 1 as [|p ps H IH F]; cbn; constructor; auto.
  rewrite Forall_map. eapply Forall_impl; [|exact F]. intros q. apply pl_down.
Qed.
Lemma ss_app {X} (R : X -> X -> Prop) (a b : list X) : Sorted.StronglySorted R a -> Sorted.StronglySorted R b ->
  (forall x y, In x a -> In y b -> R x y) -> Sorted.StronglySorted R (a ++ b).
Proof.
  induction 1 as [|x a H IH F]; intros Hb HR; cbn; auto. constructor.
  - apply IH; auto. intros; apply HR; auto. right; auto.
  - apply Forall_app. split; auto. apply Forall_forall. intros y Hy. apply HR; auto. left; auto.
Qed.
Lemma flatten_spec {A} (x : nested A) : exists ps, path_sorted ps /\
  Forall2 (fun p a => leaf_at x p a) ps (flatten_nested x) /\ (forall p a, leaf_at x p a -> In p ps).
Proof.
  induction x as [a|l IH] using nested_ind'.
  - exists [[]]. repeat split.
    + repeat constructor.
    + repeat constructor.
    + intros p b H. inversion H; subst. left; auto.
  - rewrite flatten_nest.
    assert (G : forall pre, exists ps, path_sorted ps /\
       Forall2 (fun p a => leaf_at (Nest A (pre ++ l)) p a) ps (flat_map flatten_nested l) /\
       (forall i p a, length pre <= i -> leaf_at (Nest A (pre ++ l)) (i :: p) a -> In (i :: p) ps) /\
       (forall p, In p ps -> exists i q, p = i :: q /\ length pre <= i)).
    { induction IH as [|x l (ps & S1 & F1 & C1) Hl IHl]; intros pre.
      - exists []. repeat split; try constructor.
        + intros i p a Hi HL. inversion HL; subst. rewrite app_nil_r in *. exfalso. assert (i < length pre) by (apply nth_error_Some; congruence). lia.
        + intros p [].
      - destruct (IHl (pre ++ [x])) as (qs & S2 & F2 & C2 & B2). rewrite <- app_assoc in *. cbn [app] in *. rewrite app_length in *. cbn [length] in *.
        exists (map (cons (length pre)) ps ++ qs). split; [|split; [|split]].
        + apply ss_app; auto; [apply ss_map_cons; auto|]. intros p q Hp Hq. apply in_map_iff in Hp as (p' & <- & _).
          destruct (B2 q Hq) as (i & q' & -> & Hi). apply pl_here. lia.
        + cbn [flat_map]. apply Forall2_app; auto. clear - F1.
          induction F1; cbn; constructor; auto. eapply leaf_in; eauto. rewrite nth_error_app2, Nat.sub_diag by lia. reflexivity.
        + intros i p a Hi HL. apply in_or_app. destruct (Nat.eq_dec i (length pre)) as [->|].
          * left. inversion HL as [|? ? y ? ? Hn Hl2]; subst. rewrite nth_error_app2, Nat.sub_diag in Hn by lia. cbn in Hn. injection Hn as <-.
            apply in_map. eapply C1; eauto.
          * right. eapply C2; eauto. lia.
        + intros p Hp. apply in_app_iff in Hp as [Hp|Hp].
          * apply in_map_iff in Hp as (q & <- & _). eauto.
          * destruct (B2 p Hp) as (i & q & -> & Hi). exists i, q. split; auto. lia. }
    destruct (G []) as (ps & S1 & F1 & C1 & _). exists ps. split; auto. split; auto.
    intros p a HL. inversion HL; subst. eapply (C1 i p0); eauto. cbn. lia.
Qed.

(** ** the [neurons] property *)
Section Tree.
Context {T : Type} `{Num T}.
Variable w : world T.
(** s was added to m with add_subnetwork *)
Definition child (m s : nat) : Prop := exists md, nth_error (w_mods w) m = Some md /\ In s (m_subs md).
Inductive desc : nat -> nat -> Prop :=
| desc_refl m : desc m m
| desc_step m s d : child m s -> desc s d -> desc m d.
Definition pdesc (m d : nat) : Prop := exists s, child m s /\ desc s d.
Lemma desc_trans a b c : desc a b -> desc b c -> desc a c.
Proof. induction 1; intros; auto. econstructor; eauto. Qed.
Lemma pdesc_desc a b c : pdesc a b -> desc b c -> pdesc a c.
Proof. intros (s & H1 & H2) H3. exists s. split; auto. eapply desc_trans; eauto. Qed.
Lemma desc_pdesc a b c : desc a b -> pdesc b c -> pdesc a c.
Proof. induction 1; intros Hp; auto. specialize (IHdesc Hp). destruct IHdesc as (s' & H2 & H3). exists s. split; auto. econstructor; eauto. Qed.

(** every submodule reference points to an existing module *)
Definition subs_exist : Prop := forall m s, child m s -> s < length (w_mods w).

Lemma rfold_subs (f : nat -> res (list nat)) l acc :
  rfold (fun acc s => let* l := f s in Ok (acc ++ l)) l acc =
  match rfold (fun acc s => let* l := f s in Ok (acc ++ l)) l ([] : list nat) with
  | Ok r => Ok (acc ++ r) | Err e => Err e end.
Proof.
  revert acc. induction l as [|s l IH]; intros acc; cbn; [rewrite app_nil_r; auto|].
  destruct (f s) as [r|e]; cbn; auto. rewrite IH. rewrite (IH r). destruct (rfold _ l []); auto. rewrite app_assoc. reflexivity.
Qed.
Lemma rfold_ok (f : nat -> res (list nat)) l r : rfold (fun acc s => let* l := f s in Ok (acc ++ l)) l ([] : list nat) = Ok r <->
  exists ls, Forall2 (fun (s : nat) x => f s = Ok x) l ls /\ r = concat ls.
Proof.
  revert r. induction l as [|s l IH]; intros r; cbn.
  - split; [intros [= <-]; exists []; split; auto; constructor|]. intros (ls & F & ->). inversion F. reflexivity.
  - destruct (f s) as [x|e] eqn:E; cbn.
    + rewrite rfold_subs. destruct (rfold _ l []) as [r'|e'].
      * split.
        -- intros [= <-]. destruct (proj1 (IH r') eq_refl) as (ls & F & ->). exists (x :: ls). split; [constructor; auto|reflexivity].
        -- intros (ls & F & ->). inversion F; subst. rewrite E in H2. injection H2 as ->. cbn. do 2 f_equal.
           assert (X : Ok r' = Ok (concat l')) by (apply IH; eauto). congruence.
      * split; [discriminate|]. intros (ls & F & ->). inversion F; subst.
        assert (X : Err e' = Ok (concat l')) by (apply IH; eauto). discriminate.
    + split; [discriminate|]. intros (ls & F & ->). inversion F; subst. congruence.
Qed.
Lemma mn_S f m md : nth_error (w_mods w) m = Some md ->
  forall l, module_neurons (S f) w m = Ok l <-> exists ls, Forall2 (fun s x => module_neurons f w s = Ok x) (m_subs md) ls /\ l = m_neurons md ++ concat ls.
Proof.
  intros E l. cbn [module_neurons]. rewrite E.
  destruct (rfold _ (m_subs md) []) as [r|e] eqn:E2; cbn.
  - apply rfold_ok in E2 as E3. split.
    + intros [= <-]. destruct E3 as (ls & F & ->). eauto.
    + intros (ls & F & ->). assert (X : Ok r = Ok (concat ls)) by (rewrite <- E2; apply rfold_ok; eauto). injection X as ->. reflexivity.
  - split; [discriminate|]. intros (ls & F & ->).
    assert (X : Err e = Ok (concat ls)) by (rewrite <- E2; apply rfold_ok; eauto). discriminate.
Qed.
Lemma F2_impl {X Y} (P Q : X -> Y -> Prop) a b : (forall x y, P x y -> Q x y) -> Forall2 P a b -> Forall2 Q a b.
Proof. intros HI. induction 1; constructor; auto. Qed.
Lemma mn_mono f : forall f' m l, f <= f' -> module_neurons f w m = Ok l -> module_neurons f' w m = Ok l.
Proof.
  induction f as [|f IH]; intros f' m l Hf E; [discriminate|]. destruct f' as [|f']; [lia|].
  destruct (nth_error (w_mods w) m) as [md|] eqn:Em; [|cbn in E; rewrite Em in E; discriminate].
  destruct (proj1 (mn_S f m md Em l) E) as (ls & F & ->). apply (mn_S f' m md Em). exists ls. split; auto.
  eapply F2_impl; [|exact F]. cbn. intros s x Hx. eapply IH; eauto. lia.
Qed.
Lemma mn_In f : forall m l, module_neurons f w m = Ok l ->
  forall n, In n l <-> exists d md, desc m d /\ nth_error (w_mods w) d = Some md /\ In n (m_neurons md).
Proof.
  induction f as [|f IH]; intros m l E n; [discriminate|].
  destruct (nth_error (w_mods w) m) as [md|] eqn:Em; [|cbn in E; rewrite Em in E; discriminate].
  destruct (proj1 (mn_S f m md Em l) E) as (ls & F & ->). rewrite in_app_iff. split.
  - intros [Hn|Hn].
    + exists m, md. repeat split; auto. constructor.
    + apply in_concat in Hn as (x & Hx & Hn).
      assert (G : exists s, In s (m_subs md) /\ module_neurons f w s = Ok x).
      { clear - F Hx. induction F; [destruct Hx|]. destruct Hx as [<-|Hx]; [eexists; split; [left; auto|auto]|]. destruct (IHF Hx) as (s & ? & ?). exists s. split; [right|]; auto. }
      destruct G as (s & Hs & Es). destruct (proj1 (IH _ _ Es n) Hn) as (d & md' & H1 & H2 & H3). exists d, md'. repeat split; auto.
      econstructor; eauto. exists md. auto.
  - intros (d & md' & Hd & E' & Hn). inversion Hd as [|? s ? (md2 & E2 & Hs) Hd']; subst.
    + left. congruence.
    + right. rewrite Em in E2. injection E2 as <-.
      assert (G : exists x, In x ls /\ module_neurons f w s = Ok x).
      { clear - F Hs. induction F; [destruct Hs|]. destruct Hs as [<-|Hs]; [eexists; split; [left; auto|auto]|]. destruct (IHF Hs) as (x' & ? & ?). exists x'. split; [right|]; auto. }
      destruct G as (x & Hx & Ex). apply in_concat. exists x. split; auto. apply (IH _ _ Ex). eauto.
Qed.

(** total on acyclic hierarchies *)
Lemma mn_total f : subs_exist -> (forall m, ~ pdesc m m) -> forall anc m, m < length (w_mods w) -> NoDup anc -> (forall a, In a anc -> a < length (w_mods w) /\ pdesc a m) ->
  length (w_mods w) <= length anc + f -> exists l, module_neurons (S f) w m = Ok l.
Proof.
  intros HX HA. induction f as [|f IH]; intros anc m Hm ND HI HF.
  - exfalso. assert (NoDup (m :: anc)).
    { constructor; auto. intros Hi. destruct (HI _ Hi) as [_ Hp]. exact (HA m Hp). }
    assert (incl (m :: anc) (seq 0 (length (w_mods w)))).
    { intros x [<-|Hx]; apply in_seq; [lia|]. destruct (HI x Hx). lia. }
    pose proof (NoDup_incl_length H0 H1) as HL. rewrite seq_length in HL. cbn in HL. lia.
  - destruct (nth_error (w_mods w) m) as [md|] eqn:Em; [|apply nth_error_None in Em; lia].
    assert (G : forall l, incl l (m_subs md) -> exists ls, Forall2 (fun s x => module_neurons (S f) w s = Ok x) l ls).
    { induction l as [|s l IHl]; intros Hl; [exists []; constructor|].
      assert (Hc : child m s) by (exists md; split; auto; apply Hl; left; auto).
      assert (HNm : NoDup (m :: anc)).
      { constructor; auto. intros Hi. destruct (HI _ Hi) as [_ Hp]. exact (HA m Hp). }
      destruct (IH (m :: anc) s) as (x & Ex).
      + eapply HX; eauto.
      + exact HNm.
      + intros a [<-|Ha].
        * split; auto. exists s. split; auto. constructor.
        * destruct (HI a Ha) as [H1 H2]. split; auto. eapply pdesc_desc; eauto. econstructor; [eauto|constructor].
      + cbn [length]. lia.
      + destruct IHl as (ls & F); [intros y Hy; apply Hl; right; auto|]. exists (x :: ls). constructor; auto. }
    destruct (G (m_subs md) (incl_refl _)) as (ls & F). exists (m_neurons md ++ concat ls). apply (mn_S _ _ _ Em). eauto.
Qed.
Lemma neurons_total m : subs_exist -> (forall x, ~ pdesc x x) -> m < length (w_mods w) -> exists l, neurons_of w m = Ok l.
Proof.
  intros HX HA Hm. destruct (mn_total (length (w_mods w)) HX HA [] m Hm) as (l & E); [constructor|intros a []|lia|].
  exists l. exact E.
Qed.
(** a cycle means the property recurses forever *)
Lemma mn_cycle f m : subs_exist -> pdesc m m -> m < length (w_mods w) -> module_neurons f w m = Err ERecursion.
Proof.
  intros HX HC Hm.
  assert (G : forall f m, m < length (w_mods w) -> (forall e, module_neurons f w m = Err e -> e = ERecursion)).
  { induction f0 as [|f0 IH]; intros m0 Hm0 e E; cbn in E; [congruence|].
    destruct (nth_error (w_mods w) m0) as [md|] eqn:Em; [|apply nth_error_None in Em; lia].
    assert (K : forall l acc e, incl l (m_subs md) -> rfold (fun acc s => let* l := module_neurons f0 w s in Ok (acc ++ l)) l acc = Err e -> e = ERecursion).
    { induction l as [|s l IHl]; intros acc e' Hl E'; cbn in E'; [discriminate|].
      destruct (module_neurons f0 w s) as [x|ex] eqn:Es; cbn in E'.
      - eapply IHl; eauto. intros y Hy; apply Hl; right; auto.
      - injection E' as <-. eapply (IH s); eauto. apply (HX m0). exists md. split; auto. apply Hl; left; auto. }
    destruct (rfold _ (m_subs md) []) as [x|ex] eqn:Er; cbn in E; [discriminate|]. injection E as <-. eapply K; [apply incl_refl|exact Er]. }
  destruct (module_neurons f w m) as [l|e] eqn:E; [exfalso|f_equal; eapply G; eauto].
  clear G Hm. assert (Hd : forall f m l, module_neurons f w m = Ok l -> ~ pdesc m m).
  { clear f m l E HC. induction f as [|f IH]; intros m l E HC; [discriminate|].
    destruct (nth_error (w_mods w) m) as [md|] eqn:Em; [|cbn in E; rewrite Em in E; discriminate].
    destruct (proj1 (mn_S f m md Em l) E) as (ls & F & ->). destruct HC as (s & (md' & E' & Hs) & Hd). rewrite Em in E'. injection E' as <-.
    assert (G : exists x, module_neurons f w s = Ok x).
    { clear - F Hs. induction F; [destruct Hs|]. destruct Hs as [<-|Hs]; eauto. }
    destruct G as (x & Ex). apply (IH s x Ex). eapply desc_pdesc; [exact Hd|]. exists s. split; [exists md; auto|constructor]. }
  eapply Hd; eauto.
Qed.

(** each once for trees *)
Definition tree_shaped : Prop := NoDup (flat_map m_subs (w_mods w)).
Definition one_owner : Prop := NoDup (flat_map m_neurons (w_mods w)).
Lemma NoDup_app_inv {X} (a b : list X) : NoDup (a ++ b) -> NoDup a /\ NoDup b /\ (forall x, In x a -> ~ In x b).
Proof.
  induction a as [|x a IH]; cbn; intros ND; [repeat split; auto; constructor|].
  inversion ND; subst. destruct (IH H3) as (A1 & A2 & A3). rewrite in_app_iff in H2. repeat split; auto.
  - constructor; auto.
  - intros y [<-|Hy]; auto.
Qed.
Lemma NoDup_app_intro {X} (a b : list X) : NoDup a -> NoDup b -> (forall x, In x a -> ~ In x b) -> NoDup (a ++ b).
Proof.
  induction 1 as [|x a Hx ND IH]; intros Nb HD; cbn; auto. constructor.
  - rewrite in_app_iff. intros [Hi|Hi]; [auto|]. eapply HD; eauto. left; auto.
  - apply IH; auto. intros y Hy. apply HD. right; auto.
Qed.
Lemma NoDup_flat_map_nth {X Y} (f : X -> list Y) l : NoDup (flat_map f l) ->
  (forall i x, nth_error l i = Some x -> NoDup (f x)) /\
  (forall i j x x' y, nth_error l i = Some x -> nth_error l j = Some x' -> In y (f x) -> In y (f x') -> i = j).
Proof.
  induction l as [|x l IH]; intros ND; cbn in ND.
  - split; [intros [|i] ? [=]|intros [|i] ? ? ? ? [=]].
  - apply NoDup_app_inv in ND as (N1 & N2 & N3). destruct (IH N2) as [I1 I2]. split.
    + intros [|i] y E; cbn in E; [injection E as <-; auto|eauto].
    + assert (K : forall i x' y, nth_error l i = Some x' -> In y (f x) -> In y (f x') -> False).
      { intros i x' y E H1 H2. apply (N3 y H1). apply in_flat_map. exists x'. split; auto. eapply nth_error_In; eauto. }
      intros [|i] [|j] a b y E1 E2 H1 H2; cbn in E1, E2; auto.
      * injection E1 as <-. exfalso. eauto.
      * injection E2 as <-. exfalso. eauto.
      * f_equal. eauto.
Qed.
Lemma parent_unique a b s : tree_shaped -> child a s -> child b s -> a = b.
Proof.
  intros HT (ma & Ea & Ha) (mb & Eb & Hb). destruct (NoDup_flat_map_nth _ _ HT) as [_ HU]. eapply HU; eauto.
Qed.
(** reversed induction: desc ends with a child step *)
Lemma desc_inv_r a d : desc a d -> a = d \/ exists p, desc a p /\ child p d.
Proof.
  induction 1 as [m|m s d Hc Hd IH]; auto. right. destruct IH as [->|(p & Hp & Hpd)].
  - exists m. split; auto. constructor.
  - exists p. split; auto. econstructor; eauto.
Qed.
Lemma comparable a b d : tree_shaped -> desc a d -> desc b d -> desc a b \/ desc b a.
Proof.
  intros HT Ha. revert b. induction Ha as [m|m s d Hc Hd IH]; intros b Hb; auto.
  destruct (IH b Hb) as [Hs|Hs].
  - left. econstructor; eauto.
  - destruct (desc_inv_r _ _ Hs) as [->|(p & Hp & Hps)].
    + left. econstructor; [eauto|constructor].
    + right. assert (p = m) by (eapply parent_unique; eauto). subst. auto.
Qed.
Lemma sibling_disjoint m s1 s2 d : tree_shaped -> (forall x, ~ pdesc x x) -> child m s1 -> child m s2 ->
  desc s1 d -> desc s2 d -> s1 = s2.
Proof.
  intros HT HA H1 H2 D1 D2.
  assert (G : forall a b, child m a -> child m b -> desc a b -> a = b).
  { intros a b Ha Hb D. destruct (desc_inv_r _ _ D) as [|(p & Dp & Hp)]; auto. exfalso.
    assert (p = m) by (eapply parent_unique; eauto). subst p. apply (HA m). exists a. auto. }
  destruct (comparable s1 s2 d HT D1 D2) as [D|D]; [|symmetry]; eauto.
Qed.
Lemma mn_NoDup f : tree_shaped -> one_owner -> (forall x, ~ pdesc x x) -> forall m l, module_neurons f w m = Ok l -> NoDup l.
Proof.
  intros HT HO HA. destruct (NoDup_flat_map_nth _ _ HO) as [O1 O2]. destruct (NoDup_flat_map_nth _ _ HT) as [T1 _].
  induction f as [|f IH]; intros m l E; [discriminate|].
  destruct (nth_error (w_mods w) m) as [md|] eqn:Em; [|cbn in E; rewrite Em in E; discriminate].
  destruct (proj1 (mn_S f m md Em l) E) as (ls & F & ->).
  assert (Hin : forall x, In x ls -> exists s, In s (m_subs md) /\ module_neurons f w s = Ok x).
  { clear - F. induction F; [intros x []|]. intros z [<-|Hz]; [eexists; split; [left; auto|auto]|]. destruct (IHF z Hz) as (s & ? & ?). exists s. split; [right|]; auto. }
  apply NoDup_app_intro; [eapply O1; eauto| |].
  - specialize (T1 m md Em). clear Hin.
    assert (Hc : forall s, In s (m_subs md) -> child m s) by (intros s Hs; exists md; auto).
    clear E; induction F as [|s x subs ls E F IHF]; cbn; [constructor|]. inversion T1; subst.
    apply NoDup_app_intro; [eapply IH; eauto|apply IHF; auto; intros; apply Hc; right; auto|].
    intros n Hn Hi. apply in_concat in Hi as (y & Hy & Hn2).
    assert (G : exists s', In s' subs /\ module_neurons f w s' = Ok y).
    { clear - F Hy. induction F; [destruct Hy|]. destruct Hy as [<-|Hy]; [eexists; split; [left; auto|auto]|]. destruct (IHF Hy) as (s & ? & ?). exists s. split; [right|]; auto. }
    destruct G as (s' & Hs' & E').
    destruct (proj1 (mn_In _ _ _ E n) Hn) as (d & md1 & D1 & M1 & N1). destruct (proj1 (mn_In _ _ _ E' n) Hn2) as (d' & md2 & D2 & M2 & N2).
    assert (d = d') by (eapply O2; eauto). subst d'.
    assert (s = s') by (eapply (sibling_disjoint m); eauto; apply Hc; [left|right]; auto). subst s'. contradiction.
  - intros n Hn Hi. apply in_concat in Hi as (y & Hy & Hn2). destruct (Hin y Hy) as (s & Hs & Es).
    destruct (proj1 (mn_In _ _ _ Es n) Hn2) as (d & md2 & D2 & M2 & N2).
    assert (d = m) by (eapply O2; eauto). subst d. apply (HA m). exists s. split; auto. exists md. auto.
Qed.
End Tree.
Lemma neurons_members {T} (w : world T) m l : neurons_of w m = Ok l ->
  forall n, In n l <-> exists d md, desc w m d /\ nth_error (w_mods w) d = Some md /\ In n (m_neurons md).
Proof. apply mn_In. Qed.
Lemma F2_det {X Y} (P : X -> Y -> Prop) a b b' : (forall x y y', P x y -> P x y' -> y = y') -> Forall2 P a b -> Forall2 P a b' -> b = b'.
Proof.
  intros HP H. revert b'. induction H as [|x y a b Hxy H IH]; intros b' H'; inversion H'; subst; auto. f_equal; eauto.
Qed.
Lemma neurons_own_first {T} (w : world T) m md l : nth_error (w_mods w) m = Some md -> neurons_of w m = Ok l ->
  exists rest, l = m_neurons md ++ rest /\
    forall ls, Forall2 (fun s x => neurons_of w s = Ok x) (m_subs md) ls -> rest = concat ls.
Proof.
  intros Hm HL. destruct (proj1 (mn_S w _ m md Hm l) HL) as (ls & H1 & ->). exists (concat ls). split; auto.
  intros ls' H2. f_equal. eapply (F2_det (fun s x => neurons_of w s = Ok x)); eauto; [intros; congruence|].
  eapply F2_impl; [|exact H1]. intros s x Hs. cbn beta. eapply mn_mono; [|exact Hs]. lia.
Qed.
Lemma neurons_once {T} (w : world T) m : subs_exist w -> (forall x, ~ pdesc w x x) ->
  tree_shaped w -> one_owner w -> (m < List.length (w_mods w))%nat ->
  exists l, neurons_of w m = Ok l /\ NoDup l.
Proof.
  intros H1 H2 H3 H4 H5. destruct (neurons_total w m H1 H2 H5) as (l & E). exists l. split; auto. eapply mn_NoDup; eauto.
Qed.
Lemma neurons_cycle {T} (w : world T) m : subs_exist w -> pdesc w m m -> (m < List.length (w_mods w))%nat ->
  neurons_of w m = Err ERecursion.
Proof. intros. apply mn_cycle; auto. Qed.
