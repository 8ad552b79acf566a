(** Executing network constructors symbolically: what a constructor adds to the
    object heap, and which neurons its module enumerates. *)
From Coq Require Import Arith ZArith Bool String List Lia Permutation.
From Verif Require Import Num Heapq Elements Networks.
Import ListNotations.
Open Scope list_scope.

Section Build.
Context {T : Type} `{Num T}.
Implicit Types w : world T.

(** explicit results of the primitive operations *)
Definition w_addn w (m : nat) (nm : string) : world T :=
  {| w_neurons := w_neurons w ++ [{| nr_params := std_params; nr_mod := Some m; nr_name := Some nm |}];
     w_mods := upd_module (w_mods w) m
                 (fun x => {| m_name := m_name x; m_neurons := m_neurons x ++ [List.length (w_neurons w)]; m_subs := m_subs x |});
     w_syns := w_syns w |}.
Definition w_conn w (y : synapse T) : world T :=
  {| w_neurons := w_neurons w; w_mods := w_mods w; w_syns := w_syns w ++ [y] |}.
Definition w_newmod w (nm : option string) : world T :=
  {| w_neurons := w_neurons w;
     w_mods := w_mods w ++ [{| m_name := nm; m_neurons := []; m_subs := [] |}];
     w_syns := w_syns w |}.
Definition w_addsub w (m s : nat) : world T :=
  {| w_neurons := w_neurons w;
     w_mods := upd_module (w_mods w) m
                 (fun x => {| m_name := m_name x; m_neurons := m_neurons x; m_subs := m_subs x ++ [s] |});
     w_syns := w_syns w |}.
Definition syn (pre post : nat) (ty : syntype) (wt d : T) : synapse T :=
  {| s_pre := pre; s_post := post; s_ty := ty; s_w := wt; s_delay := d |}.

Lemma bbind_addn {A} m nm (f : nat -> B T A) w :
  bbind (addn m nm) f w = f (List.length (w_neurons w)) (w_addn w m nm).
Proof. reflexivity. Qed.
Lemma bbind_connect {A} pre post ty wt d (f : unit -> B T A) w :
  bbind (connect pre post ty wt d) f w = f tt (w_conn w (syn pre post ty wt d)).
Proof. reflexivity. Qed.
Lemma bbind_newmod {A} nm (f : nat -> B T A) w :
  bbind (new_module nm) f w = f (List.length (w_mods w)) (w_newmod w nm).
Proof. reflexivity. Qed.
Lemma bbind_addsub {A} m s (f : unit -> B T A) w :
  bbind (add_subnetwork m s) f w = f tt (w_addsub w m s).
Proof. reflexivity. Qed.
Lemma bbind_ok {A C} (b : B T A) (f : A -> B T C) w a w' : b w = Ok (a, w') -> bbind b f w = f a w'.
Proof. intros E. unfold bbind. rewrite E. reflexivity. Qed.
Lemma bret_eq {A} (a : A) w : bret a w = Ok (a, w).
Proof. reflexivity. Qed.
Lemma bres_ok {A C} (x : A) r (f : A -> B T C) w : r = Ok x -> bbind (bres r) f w = f x w.
Proof. intros ->. reflexivity. Qed.

(** the invariant of object heaps made by constructors *)
Record inv w : Prop := {
  i_prm : forall n nr, nth_error (w_neurons w) n = Some nr -> nr_params nr = std_params;
  i_syn : forall y, In y (w_syns w) -> s_pre y < List.length (w_neurons w) /\ s_post y < List.length (w_neurons w) /\ s_ty y <> SynOther;
  i_mod : forall j md, nth_error (w_mods w) j = Some md ->
     (forall s, In s (m_subs md) -> j < s < List.length (w_mods w)) /\
     (forall n, In n (m_neurons md) -> n < List.length (w_neurons w));
  i_nrn : forall n, n < List.length (w_neurons w) -> exists j md, nth_error (w_mods w) j = Some md /\ In n (m_neurons md)
}.
(** growth *)
Record ext w w' : Prop := {
  x_nrn : exists l, w_neurons w' = w_neurons w ++ l;
  x_syn : exists l, w_syns w' = w_syns w ++ l;
  x_len : List.length (w_mods w) <= List.length (w_mods w');
  x_mod : forall j md, nth_error (w_mods w) j = Some md ->
     exists md', nth_error (w_mods w') j = Some md' /\ incl (m_subs md) (m_subs md') /\ incl (m_neurons md) (m_neurons md')
}.
(** every module younger than r hangs below some module, at or after r *)
Definition owned (r : nat) w : Prop := forall j, r < j < List.length (w_mods w) ->
  exists p md, r <= p < j /\ nth_error (w_mods w) p = Some md /\ In j (m_subs md).

Lemma inv_empty : inv empty_world.
Proof.
  constructor; cbn.
  - intros [|n] nr E; discriminate.
  - intros y [].
  - intros [|j] md E; discriminate.
  - intros; lia.
Qed.
Lemma ext_refl w : ext w w.
Proof.
  constructor; eauto; try (exists []; rewrite app_nil_r; auto).
  intros j md E. exists md. repeat split; auto using incl_refl.
Qed.
Lemma ext_trans w1 w2 w3 : ext w1 w2 -> ext w2 w3 -> ext w1 w3.
Proof.
  intros [A1 A2 A3 A4] [B1 B2 B3 B4]. constructor; try lia.
  - destruct A1 as [l A1], B1 as [l' B1]. rewrite B1, A1. exists (l ++ l'). rewrite app_assoc. auto.
  - destruct A2 as [l A2], B2 as [l' B2]. rewrite B2, A2. exists (l ++ l'). rewrite app_assoc. auto.
  - intros j md E. destruct (A4 j md E) as (md' & E' & H1 & H2). destruct (B4 j md' E') as (md'' & E'' & H3 & H4).
    exists md''. repeat split; eauto using incl_tran.
Qed.
Lemma ext_nlen w w' : ext w w' -> List.length (w_neurons w) <= List.length (w_neurons w').
Proof. intros [[l ->] _ _ _]. rewrite app_length. lia. Qed.

Lemma nth_error_lset {A} (l : list A) i x j : nth_error (lset l i x) j =
  if j =? i then (if j <? List.length l then Some x else None) else nth_error l j.
Proof.
  revert i j; induction l as [|a l IH]; intros [|i] [|j]; cbn [lset nth_error Nat.eqb List.length]; auto.
  - destruct (j =? i); auto. 
  - rewrite IH. destruct (j =? i); auto.
Qed.
Lemma lset_len {A} (l : list A) i x : List.length (lset l i x) = List.length l.
Proof. revert i; induction l as [|a l IH]; intros [|i]; cbn; auto. Qed.
Lemma upd_len ms m f : List.length (upd_module ms m f) = List.length ms.
Proof. unfold upd_module. destruct (nth_error ms m); auto using lset_len. Qed.
Lemma upd_nth ms m f j : nth_error (upd_module ms m f) j =
  if j =? m then option_map f (nth_error ms m) else nth_error ms j.
Proof.
  unfold upd_module. destruct (nth_error ms m) as [x|] eqn:E.
  - rewrite nth_error_lset. destruct (Nat.eqb_spec j m) as [->|]; auto.
    rewrite (proj2 (Nat.ltb_lt _ _)); auto. apply nth_error_Some. congruence.
  - destruct (Nat.eqb_spec j m) as [->|]; auto.
Qed.
Lemma nth_error_snoc {A} (l : list A) x j y : nth_error (l ++ [x]) j = Some y ->
  nth_error l j = Some y \/ j = List.length l /\ y = x.
Proof.
  intros E. destruct (Nat.lt_ge_cases j (List.length l)).
  - rewrite nth_error_app1 in E by auto. auto.
  - rewrite nth_error_app2 in E by auto. destruct (j - List.length l) as [|k] eqn:Ek; cbn in E.
    + injection E as <-. right. split; auto. lia.
    + destruct k; discriminate.
Qed.
Lemma nth_error_app_l {A} (l l' : list A) j y : nth_error l j = Some y -> nth_error (l ++ l') j = Some y.
Proof. intros E. rewrite nth_error_app1; auto. apply nth_error_Some. congruence. Qed.

(** the four operations preserve the invariant *)
Lemma ext_newmod w nm : ext w (w_newmod w nm).
Proof.
  constructor; cbn; try (exists []; rewrite app_nil_r; auto).
  - rewrite app_length. lia.
  - intros j md E. exists md. split; [apply nth_error_app_l; auto|]. split; apply incl_refl.
Qed.
Lemma inv_newmod w nm : inv w -> inv (w_newmod w nm).
Proof.
  intros [H1 H2 H3 H4]. constructor; cbn [w_newmod w_neurons w_mods w_syns]; auto.
  - intros j md E. apply nth_error_snoc in E as [E|[-> ->]].
    + destruct (H3 j md E) as [A B]. split; auto. intros s Hs. rewrite app_length. specialize (A s Hs). lia.
    + cbn. split; intros ? [].
  - intros n Hn. destruct (H4 n Hn) as (j & md & E & Hin). exists j, md. split; auto. apply nth_error_app_l; auto.
Qed.
Lemma ext_addn w m nm : ext w (w_addn w m nm).
Proof.
  constructor; cbn [w_addn w_neurons w_mods w_syns]; eauto.
  - exists []; rewrite app_nil_r; auto.
  - rewrite upd_len. auto.
  - intros j md E. rewrite upd_nth. destruct (Nat.eqb_spec j m) as [->|].
    + rewrite E. eexists; split; [reflexivity|]. cbn. split; auto using incl_refl. apply incl_appl, incl_refl.
    + exists md. repeat split; auto using incl_refl.
Qed.
Lemma inv_addn w m nm : inv w -> m < List.length (w_mods w) -> inv (w_addn w m nm).
Proof.
  intros [H1 H2 H3 H4] Hm. constructor; cbn [w_addn w_neurons w_mods w_syns].
  - intros n nr E. apply nth_error_snoc in E as [E|[-> ->]]; [eapply H1; eauto|reflexivity].
  - intros y Hy. rewrite app_length. cbn. destruct (H2 y Hy) as (A & B & C). repeat split; auto; lia.
  - intros j md. rewrite upd_nth, upd_len, app_length. cbn [List.length].
    destruct (Nat.eqb_spec j m) as [->|].
    + destruct (nth_error (w_mods w) m) as [x|] eqn:E; cbn; [|discriminate]. intros [= <-]. cbn.
      destruct (H3 m x E) as [A B]. split; auto. intros n Hn. apply in_app_iff in Hn as [Hn|[<-|[]]]; [specialize (B n Hn)|]; lia.
    + intros E. destruct (H3 j md E) as [A B]. split; auto. intros n' Hn. specialize (B n' Hn). lia.
  - intros n. rewrite app_length. cbn [List.length]. intros Hn.
    destruct (Nat.eq_dec n (List.length (w_neurons w))) as [->|].
    + destruct (nth_error (w_mods w) m) as [x|] eqn:E; [|apply nth_error_None in E; lia].
      exists m. rewrite upd_nth, Nat.eqb_refl, E. cbn. eexists; split; [reflexivity|]. cbn. apply in_app_iff. right; left; auto.
    + destruct (H4 n ltac:(lia)) as (j & md & E & Hin).
      exists j. rewrite upd_nth. destruct (Nat.eqb_spec j m) as [->|].
      * rewrite E. cbn. eexists; split; [reflexivity|]. cbn. apply in_app_iff. auto.
      * eauto.
Qed.
Lemma ext_conn w y : ext w (w_conn w y).
Proof.
  constructor; cbn; eauto.
  - exists []; rewrite app_nil_r; auto.
  - intros j md E. exists md. repeat split; auto using incl_refl.
Qed.
Lemma inv_conn w y : inv w -> s_pre y < List.length (w_neurons w) -> s_post y < List.length (w_neurons w) -> s_ty y <> SynOther -> inv (w_conn w y).
Proof.
  intros [H1 H2 H3 H4] A B C. constructor; cbn [w_conn w_neurons w_mods w_syns]; auto.
  intros z Hz. apply in_app_iff in Hz as [Hz|[<-|[]]]; auto.
Qed.
Lemma ext_addsub w m s : ext w (w_addsub w m s).
Proof.
  constructor; cbn [w_addsub w_neurons w_mods w_syns]; eauto; try (exists []; rewrite app_nil_r; auto; fail).
  - rewrite upd_len. auto.
  - intros j md E. rewrite upd_nth. destruct (Nat.eqb_spec j m) as [->|].
    + rewrite E. eexists; split; [reflexivity|]. cbn. split; auto using incl_refl. apply incl_appl, incl_refl.
    + exists md. repeat split; auto using incl_refl.
Qed.
Lemma inv_addsub w m s : inv w -> m < s < List.length (w_mods w) -> inv (w_addsub w m s).
Proof.
  intros [H1 H2 H3 H4] Hs. constructor; cbn [w_addsub w_neurons w_mods w_syns]; auto.
  - intros j md. rewrite upd_nth, upd_len. destruct (Nat.eqb_spec j m) as [->|]; [|apply H3].
    destruct (nth_error (w_mods w) m) as [x|] eqn:E; cbn; [|discriminate]. intros [= <-]. cbn.
    destruct (H3 m x E) as [A B]. split; auto. intros n Hn. apply in_app_iff in Hn as [Hn|[<-|[]]]; auto.
  - intros n Hn. destruct (H4 n Hn) as (j & md & E & Hin). exists j. rewrite upd_nth. destruct (Nat.eqb_spec j m) as [->|]; eauto.
    rewrite E. eexists; split; [reflexivity|]. auto.
Qed.

Lemma owned_new w nm : owned (List.length (w_mods w)) (w_newmod w nm).
Proof. intros j Hj. cbn in Hj. rewrite app_length in Hj. cbn in Hj. lia. Qed.
(** growth that adds no module keeps ownership *)
Lemma owned_ext r w w' : ext w w' -> List.length (w_mods w') = List.length (w_mods w) -> owned r w -> owned r w'.
Proof.
  intros X E O j Hj. destruct (O j ltac:(lia)) as (p & md & Hp & E1 & Hin).
  destruct (x_mod _ _ X p md E1) as (md' & E2 & HI & _). exists p, md'. auto.
Qed.
Lemma owned_addn r w m nm : owned r w -> owned r (w_addn w m nm).
Proof. apply owned_ext; [apply ext_addn|cbn; apply upd_len]. Qed.
Lemma owned_conn r w y : owned r w -> owned r (w_conn w y).
Proof. apply owned_ext; [apply ext_conn|reflexivity]. Qed.
(** building a submodule and attaching it *)
Lemma owned_sub r w w' : owned r w -> ext w w' -> r < List.length (w_mods w) -> List.length (w_mods w) < List.length (w_mods w') ->
  owned (List.length (w_mods w)) w' -> owned r (w_addsub w' r (List.length (w_mods w))).
Proof.
  intros O X Hr HL O' j Hj. pose proof (ext_addsub w' r (List.length (w_mods w))) as X'.
  cbn [w_addsub w_mods] in Hj. rewrite upd_len in Hj.
  destruct (Nat.lt_trichotomy j (List.length (w_mods w))) as [Hlt|[->|Hgt]].
  - destruct (O j ltac:(lia)) as (p & md & Hp & E1 & Hin).
    destruct (x_mod _ _ (ext_trans _ _ _ X X') p md E1) as (md' & E2 & HI & _). exists p, md'. auto.
  - destruct (nth_error (w_mods w') r) as [x|] eqn:E; [|apply nth_error_None in E; lia].
    exists r. cbn [w_addsub w_mods]. rewrite upd_nth, Nat.eqb_refl, E. cbn. eexists. split; [lia|]. split; [reflexivity|].
    cbn. apply in_app_iff. right; left; auto.
  - destruct (O' j ltac:(lia)) as (p & md & Hp & E1 & Hin).
    destruct (x_mod _ _ X' p md E1) as (md' & E2 & HI & _). exists p, md'. repeat split; auto; lia.
Qed.
(** same, when the attachment happens later (other modules were built in between) *)
Lemma owned_skip r w w' : owned r w -> ext w w' -> r < List.length (w_mods w) ->
  forall j, r < j < List.length (w_mods w) -> exists p md, r <= p < j /\ nth_error (w_mods w') p = Some md /\ In j (m_subs md).
Proof.
  intros O X Hr j Hj. destruct (O j Hj) as (p & md & Hp & E1 & Hin).
  destruct (x_mod _ _ X p md E1) as (md' & E2 & HI & _). exists p, md'. auto.
Qed.

(** ** Enumeration of the neurons of a module *)
Lemma module_neurons_ok w : inv w -> forall fuel m, m < List.length (w_mods w) -> List.length (w_mods w) - m <= fuel ->
  exists l, module_neurons fuel w m = Ok l /\ (forall n, In n l -> n < List.length (w_neurons w)) /\
    (forall md, nth_error (w_mods w) m = Some md -> incl (m_neurons md) l /\
       forall s l', In s (m_subs md) -> module_neurons (fuel - 1) w s = Ok l' -> incl l' l).
Proof.
  intros I. induction fuel as [|f IH]; intros m Hm Hf; [lia|].
  cbn [module_neurons]. destruct (nth_error (w_mods w) m) as [md|] eqn:E; [|apply nth_error_None in E; lia].
  destruct (i_mod _ I m md E) as [Hs Hn].
  assert (HF : forall subs acc, (forall s, In s subs -> m < s < List.length (w_mods w)) -> (forall n, In n acc -> n < List.length (w_neurons w)) ->
    exists l, rfold (fun acc s => let* l := module_neurons f w s in Ok (acc ++ l)) subs acc = Ok l /\
      (forall n, In n l -> n < List.length (w_neurons w)) /\ incl acc l /\
      (forall s l', In s subs -> module_neurons f w s = Ok l' -> incl l' l)).
  { induction subs as [|s subs IHs]; intros acc HS HA.
    - exists acc. repeat split; auto using incl_refl. intros s l' [].
    - destruct (IH s) as (l1 & E1 & B1 & _); [apply HS; left; auto|specialize (HS s (or_introl eq_refl)); lia|].
      cbn [rfold]. rewrite E1. cbn [rbind].
      destruct (IHs (acc ++ l1)) as (l & El & B & Hi & HI).
      + intros s' Hs'. apply HS. right; auto.
      + intros n Hn'. apply in_app_iff in Hn' as [?|?]; auto.
      + exists l. rewrite El. repeat split; auto.
        * intros x Hx. apply Hi, in_app_iff. auto.
        * intros s' l' [<-|Hin] El'; [|eauto]. rewrite E1 in El'. injection El' as <-.
          intros x Hx. apply Hi, in_app_iff. auto. }
  destruct (HF (m_subs md) [] Hs ltac:(intros ? [])) as (l & El & B & _ & HI).
  rewrite El. cbn [rbind]. eexists; split; [reflexivity|]. split.
  - intros n Hin. apply in_app_iff in Hin as [?|?]; auto.
  - intros md' [= <-]. split; [apply incl_appl, incl_refl|].
    intros s l' Hin El'. cbn [Nat.sub] in El'. rewrite Nat.sub_0_r in El'. apply incl_appr. eauto.
Qed.

(** more fuel does not change the result *)
Lemma module_neurons_fuel w : forall f m l, module_neurons f w m = Ok l -> forall f', f <= f' -> module_neurons f' w m = Ok l.
Proof.
  induction f as [|f IH]; intros m l E f' Hf; [discriminate|]. destruct f' as [|f']; [lia|].
  cbn [module_neurons] in *. destruct (nth_error (w_mods w) m) as [md|]; auto.
  assert (HF : forall subs acc r, rfold (fun acc s => let* l := module_neurons f w s in Ok (acc ++ l)) subs acc = Ok r ->
     rfold (fun acc s => let* l := module_neurons f' w s in Ok (acc ++ l)) subs acc = Ok r).
  { induction subs as [|s subs IHs]; intros acc r Er; auto. cbn [rfold] in *.
    destruct (module_neurons f w s) as [l1|] eqn:E1; cbn [rbind] in Er; [|discriminate].
    rewrite (IH s l1 E1) by lia. cbn [rbind]. auto. }
  destruct (rfold _ (m_subs md) []) as [subs|] eqn:Er; cbn [rbind] in E; [|discriminate].
  rewrite (HF _ _ _ Er). auto.
Qed.

(** A module under which every younger module hangs enumerates all neurons of those modules. *)
Lemma covers w r : inv w -> owned r w -> r < List.length (w_mods w) ->
  exists keys, neurons_of w r = Ok keys /\ (forall n, In n keys -> n < List.length (w_neurons w)) /\
    (forall j md n, r <= j -> nth_error (w_mods w) j = Some md -> In n (m_neurons md) -> In n keys).
Proof.
  intros I O Hr. unfold neurons_of. set (L := List.length (w_mods w)) in *.
  destruct (module_neurons_ok w I (S L) r Hr ltac:(lia)) as (keys & E & B & _).
  exists keys. split; auto. split; auto.
  assert (HA : forall j, r <= j < L -> exists l, module_neurons (S L) w j = Ok l /\ incl l keys).
  { intros j. induction j as [j IHj] using lt_wf_ind. intros Hj.
    destruct (Nat.eq_dec j r) as [->|]; [exists keys; split; auto using incl_refl|].
    destruct (O j) as (p & md & Hp & Ep & Hin); [fold L; lia|].
    destruct (IHj p) as (lp & Elp & HI); [lia|lia|].
    destruct (module_neurons_ok w I (S L) p) as (lp' & Elp' & _ & H2); [fold L; lia|fold L; lia|].
    rewrite Elp in Elp'. injection Elp' as <-. destruct (H2 md Ep) as [_ H3].
    destruct (module_neurons_ok w I L j) as (lj & Elj & _); [fold L; lia|fold L; lia|].
    exists lj. split; [apply (module_neurons_fuel w L j lj Elj); lia|].
    eapply incl_tran; [|exact HI]. apply (H3 j lj Hin). replace (S L - 1) with L by lia. auto. }
  intros j md n Hj Ej Hn. assert (Hl : j < L) by (apply nth_error_Some; congruence).
  destruct (HA j ltac:(lia)) as (l & El & HI). apply HI.
  destruct (module_neurons_ok w I (S L) j) as (l' & El' & _ & H2); [fold L; lia|fold L; lia|].
  rewrite El in El'. injection El' as <-. apply (H2 md Ej). auto.
Qed.
Lemma covers_all w : inv w -> owned 0 w -> 0 < List.length (w_mods w) ->
  exists keys, neurons_of w 0 = Ok keys /\ forall n, In n keys <-> n < List.length (w_neurons w).
Proof.
  intros I O H0. destruct (covers w 0 I O H0) as (keys & E & B & C). exists keys. split; auto.
  intros n. split; auto. intros Hn. destruct (i_nrn _ I n Hn) as (j & md & Ej & Hin). apply (C j md n); auto; lia.
Qed.

(** ** Specification of a module constructor *)
(** From heap [w] a constructor reaches [w'], its module is the first one created,
    everything created in between hangs below it, and the synapses created are L. *)
Record built w w' (m : nat) (L : list (synapse T)) : Prop := {
  b_inv : inv w';
  b_ext : ext w w';
  b_mod : m = List.length (w_mods w);
  b_len : m < List.length (w_mods w');
  b_own : owned m w';
  b_syn : w_syns w' = w_syns w ++ L;
  b_old : forall j, j < m -> nth_error (w_mods w') j = nth_error (w_mods w) j
}.

(** ** Symbolic execution: inside the constructor of module r, having created the
    synapses L, with b neurons in the heap and the modules P not attached yet *)
Record at_ (w0 : world T) (r : nat) (L : list (synapse T)) (b : nat) (P : list nat) w : Prop := {
  a_inv : inv w;
  a_ext : ext w0 w;
  a_mod : r = List.length (w_mods w0);
  a_len : r < List.length (w_mods w);
  a_own : forall j, r < j < List.length (w_mods w) -> In j P \/
     exists p md, r <= p < j /\ nth_error (w_mods w) p = Some md /\ In j (m_subs md);
  a_P : forall j, In j P -> r < j < List.length (w_mods w);
  a_syn : w_syns w = w_syns w0 ++ L;
  a_nrn : List.length (w_neurons w) = b;
  a_old : forall j, j < r -> nth_error (w_mods w) j = nth_error (w_mods w0) j
}.
Lemma go_new {A} w0 nm (f : nat -> B T A) : inv w0 ->
  exists w, bbind (new_module nm) f w0 = f (List.length (w_mods w0)) w /\
            at_ w0 (List.length (w_mods w0)) [] (List.length (w_neurons w0)) [] w.
Proof.
  intros I. eexists. split; [apply bbind_newmod|]. constructor; auto using inv_newmod, ext_newmod.
  - cbn. rewrite app_length. cbn. lia.
  - intros j Hj. cbn in Hj. rewrite app_length in Hj. cbn in Hj. lia.
  - intros j [].
  - cbn. rewrite app_nil_r. auto.
  - intros j Hj. cbn. apply nth_error_app1; auto.
Qed.
Lemma at_keep (w0 : world T) r L b P w w' L' b' : at_ w0 r L b P w -> inv w' -> ext w w' -> List.length (w_mods w') = List.length (w_mods w) ->
  (forall j, j < r -> nth_error (w_mods w') j = nth_error (w_mods w) j) ->
  w_syns w' = w_syns w ++ L' -> List.length (w_neurons w') = b' -> at_ w0 r (L ++ L') b' P w'.
Proof.
  intros [A1 A2 A3 A4 A5 AP A6 A7 A8] I X EL EO ES EN. constructor; auto; try (rewrite ?EL; auto; fail).
  - eapply ext_trans; eauto.
  - intros j Hj. rewrite EL in Hj. destruct (A5 j Hj) as [?|(p & md & Hp & E1 & Hin)]; auto. right.
    destruct (x_mod _ _ X p md E1) as (md' & E2 & HI & _). exists p, md'. auto.
  - rewrite ES, A6, app_assoc. auto.
  - intros j Hj. rewrite EO, A8; auto.
Qed.
Lemma go_addn {A} w0 r L b P w nm (f : nat -> B T A) : at_ w0 r L b P w ->
  exists w', bbind (addn r nm) f w = f b w' /\ at_ w0 r L (S b) P w'.
Proof.
  intros H0. pose proof H0 as [A1 A2 A3 A4 A5 AP A6 A7]. exists (w_addn w r nm). split; [rewrite bbind_addn, A7; auto|].
  rewrite <- (app_nil_r L). eapply at_keep; eauto using inv_addn, ext_addn.
  - cbn. apply upd_len.
  - intros j Hj. cbn. rewrite upd_nth. destruct (Nat.eqb_spec j r); [lia|auto].
  - cbn. rewrite app_nil_r. auto.
  - cbn. rewrite app_length, A7. cbn. lia.
Qed.
Lemma go_conn {A} w0 r L b P w pre post ty wt d (f : unit -> B T A) : at_ w0 r L b P w ->
  pre < b -> post < b -> ty <> SynOther ->
  exists w', bbind (connect pre post ty wt d) f w = f tt w' /\ at_ w0 r (L ++ [syn pre post ty wt d]) b P w'.
Proof.
  intros H0 H1 H2 H3. pose proof H0 as [A1 A2 A3 A4 A5 AP A6 A7]. eexists. split; [apply bbind_connect|].
  eapply at_keep; eauto using ext_conn; try reflexivity. apply inv_conn; auto; cbn; lia.
Qed.
(** running the constructor of a submodule *)
Lemma go_build {A C} w0 r L b P w (bl : B T C) c w' m L' b' (f : C -> B T A) : at_ w0 r L b P w ->
  bl w = Ok (c, w') -> built w w' m L' -> List.length (w_neurons w') = b' ->
  bbind bl f w = f c w' /\ at_ w0 r (L ++ L') b' (P ++ [m]) w' /\ r < m.
Proof.
  intros H0 E [B1 B2 B3 B4 B5 B6 B7] EN. pose proof H0 as [A1 A2 A3 A4 A5 AP A6 A7 A8]. split; [apply bbind_ok; auto|]. split; [|lia].
  pose proof (x_len _ _ B2). constructor; auto.
  - eapply ext_trans; eauto.
  - lia.
  - intros j Hj. rewrite in_app_iff. destruct (Nat.lt_trichotomy j m) as [Hl|[->|Hg]]; [|left; right; left; auto|].
    + destruct (A5 j ltac:(lia)) as [?|(p & md & Hp & E1 & Hin)]; auto. right.
      destruct (x_mod _ _ B2 p md E1) as (md' & E2 & HI & _). exists p, md'. auto.
    + right. destruct (B5 j ltac:(lia)) as (p & md & Hp & E1 & Hin). exists p, md. repeat split; auto; lia.
  - intros j Hj. apply in_app_iff in Hj as [Hj|[<-|[]]]; [specialize (AP j Hj)|]; lia.
  - rewrite B6, A6, app_assoc. auto.
  - intros j Hj. rewrite B7 by lia. auto.
Qed.
Lemma go_attach {A} w0 r L b P1 m P2 w (f : unit -> B T A) : at_ w0 r L b (P1 ++ m :: P2) w -> 
  exists w', bbind (add_subnetwork r m) f w = f tt w' /\ at_ w0 r L b (P1 ++ P2) w'.
Proof.
  intros [A1 A2 A3 A4 A5 AP A6 A7 A8]. exists (w_addsub w r m). split; [reflexivity|].
  assert (Hm : r < m < List.length (w_mods w)) by (apply AP, in_app_iff; right; left; auto).
  pose proof (ext_addsub w r m) as X. constructor; auto using inv_addsub.
  - eapply ext_trans; eauto.
  - cbn. rewrite upd_len. auto.
  - intros j Hj. cbn [w_addsub w_mods] in Hj. rewrite upd_len in Hj.
    destruct (Nat.eq_dec j m) as [->|Hne].
    + right. destruct (nth_error (w_mods w) r) as [x|] eqn:E; [|apply nth_error_None in E; lia].
      exists r. cbn [w_addsub w_mods]. rewrite upd_nth, Nat.eqb_refl, E. cbn. eexists. split; [lia|]. split; [reflexivity|].
      cbn. apply in_app_iff. right; left; auto.
    + destruct (A5 j Hj) as [Hin|(p & md & Hp & E1 & Hin)].
      * left. rewrite in_app_iff in *. destruct Hin as [?|[?|?]]; auto; congruence.
      * right. destruct (x_mod _ _ X p md E1) as (md' & E2 & HI & _). exists p, md'. auto.
  - intros j Hj. cbn. rewrite upd_len. apply AP. rewrite in_app_iff in *. destruct Hj; [left|right; right]; auto.
  - intros j Hj. cbn. rewrite upd_nth. destruct (Nat.eqb_spec j r); [lia|auto].
Qed.
Lemma go_end w0 r L b w : at_ w0 r L b [] w -> built w0 w r L /\ List.length (w_neurons w) = b.
Proof.
  intros [A1 A2 A3 A4 A5 AP A6 A7 A8]. split; auto. constructor; auto.
  intros j Hj. destruct (A5 j Hj) as [[]|?]; auto.
Qed.
End Build.

(** step through a constructor; the goal is [exists c w', <program> w = Ok (c, w') /\ _] *)
Ltac go_step :=
  match goal with
  | HA : at_ _ _ _ _ _ ?w |- context [bbind (addn ?r ?nm) ?f ?w] =>
      let w1 := fresh "w" in let E := fresh "E" in let H1 := fresh "HA" in
      destruct (go_addn _ _ _ _ _ _ nm f HA) as (w1 & E & H1); rewrite E; clear E HA; cbv beta
  | HA : at_ _ _ _ _ _ ?w |- context [bbind (connect ?a ?b ?ty ?x ?d) ?f ?w] =>
      let w1 := fresh "w" in let E := fresh "E" in let H1 := fresh "HA" in
      destruct (go_conn _ _ _ _ _ _ a b ty x d f HA) as (w1 & E & H1);
      [lia|lia|discriminate|]; rewrite E; clear E HA; cbv beta
  end.
