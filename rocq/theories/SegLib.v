(** V-only neurons described by an unordered list of weighted events: the neuron fires at
    f when the weights received since its last firing reach the threshold. *)
From Coq Require Import Arith ZArith Bool List Reals Lra Lia Permutation.
From Verif Require Import Num Heapq Elements Networks Trace SimTrace TraceProps NeuronLib NetLib MemoryProof.
Import ListNotations.
Open Scope R_scope.
Open Scope list_scope.

(** weights received in (a, k] *)
Definition vsum (L : list (nat * R)) (a k : nat) : R := sumf (fun p => if (a <? fst p)%nat && (fst p <=? k)%nat then snd p else 0) L.
Fixpoint segs (L : list (nat * R)) (a : nat) (F : list nat) : Prop :=
  match F with
  | [] => forall k, (a < k)%nat -> vsum L a k < 10
  | f :: F' => (a < f)%nat /\ (forall k, (a < k < f)%nat -> vsum L a k < 10) /\ 10 <= vsum L a f /\ segs L f F'
  end.
Lemma segs_strict L F : forall a, segs L a F -> strict a F.
Proof. induction F as [|f F IH]; intros a H; cbn in *; auto. destruct H as (H1 & _ & _ & H2). auto. Qed.
Lemma vsum_self L a : vsum L a a = 0.
Proof.
  unfold vsum. rewrite (sumf_ext _ (fun _ => 0)); [apply sumf_0|]. intros p _.
  destruct (Nat.ltb_spec a (fst p)), (Nat.leb_spec (fst p) a); cbn [andb]; auto; lia.
Qed.
Lemma vsum_S L a k : (a <= k)%nat -> vsum L a (S k) = vsum L a k + evw L (S k).
Proof.
  intros Hk. unfold vsum, evw. induction L as [|[t w] L IH]; [unfold sumf; cbn; lra|].
  rewrite !sumf_cons; cbn [fst snd]. rewrite IH. clear IH. change (ind (S k) t) with (if (S k =? t)%nat then 1 else 0).
  destruct (Nat.ltb_spec a t), (Nat.leb_spec t (S k)), (Nat.leb_spec t k), (Nat.eqb_spec (S k) t); cbn [andb]; try lia; lra.
Qed.
Lemma vsum_cons t w L a k : vsum ((t, w) :: L) a k = (if (a <? t)%nat && (t <=? k)%nat then w else 0) + vsum L a k.
Proof. reflexivity. Qed.
Lemma vsum_nil a k : vsum [] a k = 0. Proof. reflexivity. Qed.
Lemma vsum_app L L' a k : vsum (L ++ L') a k = vsum L a k + vsum L' a k.
Proof. apply sumf_app. Qed.
Lemma vsum_perm L L' a k : Permutation L L' -> vsum L a k = vsum L' a k.
Proof. apply sumf_perm. Qed.

Section Seg.
Variable N : tnet.
Lemma seg_quiet n K L a : t_prm N n = stdp -> vonly N n -> st N a n = at_rest 0 ->
  (forall k, (a < k <= K)%nat -> input N n SynV k = evw L k) -> (forall k, (a < k <= K)%nat -> vsum L a k < 10) ->
  forall k, (a <= k <= K)%nat -> st N k n = at_rest (vsum L a k) /\ (a < k -> spk N k n = false)%nat.
Proof.
  intros HP HV HS HI HQ k. induction k as [|k IH]; intros Hk.
  - assert (a = 0%nat) by lia. subst. rewrite vsum_self. split; auto; lia.
  - destruct (Nat.eq_dec a (S k)) as [<-|]; [rewrite vsum_self; split; auto; lia|].
    destruct IH as [IH _]; [lia|]. destruct (vonly_step N n k _ HP HV IH) as [_ H].
    rewrite HI, <- vsum_S in H by lia. destruct H; auto. apply HQ. lia.
Qed.
Lemma seg_from n K L : t_prm N n = stdp -> vonly N n -> forall F a, st N a n = at_rest 0 -> segs L a F ->
  (forall k, (a < k <= K)%nat -> input N n SynV k = evw L k) ->
  forall k, (a < k <= K)%nat -> spk N k n = memb k F.
Proof.
  intros HP HV. induction F as [|f F IH]; intros a HS HG HI k Hk.
  - apply (seg_quiet n K L a HP HV HS HI); [intros; apply HG; lia|lia|lia].
  - destruct HG as (G1 & G2 & G3 & G4). rewrite memb_cons.
    destruct (Nat.lt_ge_cases k f) as [Hkf|Hkf].
    + rewrite (proj2 (Nat.eqb_neq k f)) by lia. cbn [orb].
      rewrite (proj2 (memb_nIn k F)) by (intros Hin; pose proof (strict_In _ _ (segs_strict _ _ _ G4) _ Hin); lia).
      apply (seg_quiet n k L a HP HV HS); [intros; apply HI; lia|intros; apply G2; lia|lia|lia].
    + destruct (seg_quiet n (f - 1) L a HP HV HS) with (k := (f - 1)%nat) as [A _]; [intros; apply HI; lia|intros; apply G2; lia|lia|].
      destruct (vonly_step N n (f - 1) _ HP HV A) as [B _]. replace (S (f - 1)) with f in B by lia.
      rewrite HI in B by lia. replace (evw L f) with (evw L (S (f - 1))) in B by (f_equal; lia). rewrite <- vsum_S in B by lia.
      replace (S (f - 1)) with f in B by lia. destruct (B G3) as [B1 B2].
      destruct (Nat.eqb_spec k f) as [->|Hne]; cbn [orb]; auto. apply (IH f); auto; [|lia]. intros; apply HI; lia.
Qed.
Lemma seg_spikes n L F : t_prm N n = stdp -> vonly N n -> segs L 0 F ->
  (forall k, (1 <= k)%nat -> input N n SynV k = evw L k) -> spikes_at N n F.
Proof.
  intros HP HV HG HI k. destruct (Nat.eq_dec k 0) as [->|].
  - rewrite spk_0. symmetry. apply memb_nIn. intros H. pose proof (strict_In _ _ (segs_strict _ _ _ HG) _ H). lia.
  - apply (seg_from n k L HP HV F 0); auto using init_rest; [|lia]. intros; apply HI; lia.
Qed.
(** mutually connected neurons *)
Lemma seg_group (G : list guess) :
  (forall g, In g G -> t_prm N (g_n g) = stdp /\ vonly N (g_n g) /\ segs (g_L g) 0 (g_S g)) ->
  (forall K, (forall g k, In g G -> (k <= K)%nat -> spk N k (g_n g) = memb k (g_S g)) ->
     forall g, In g G -> input N (g_n g) SynV (S K) = evw (g_L g) (S K)) ->
  forall g, In g G -> spikes_at N (g_n g) (g_S g).
Proof.
  intros HG HI.
  assert (HA : forall K g k, In g G -> (k <= K)%nat -> spk N k (g_n g) = memb k (g_S g)).
  { induction K as [|K IH]; intros g k Hg Hk.
    - assert (k = 0%nat) by lia. subst. rewrite spk_0. symmetry. apply memb_nIn.
      destruct (HG g Hg) as (_ & _ & H1). intros H. pose proof (strict_In _ _ (segs_strict _ _ _ H1) _ H). lia.
    - destruct (Nat.eq_dec k (S K)) as [->|]; [|apply IH; auto; lia].
      destruct (HG g Hg) as (H1 & H2 & H3).
      apply (seg_from (g_n g) (S K) (g_L g) H1 H2 (g_S g) 0); auto using init_rest; [|lia].
      intros j Hj. replace j with (S (j - 1)) by lia. apply HI; auto. intros g' k' Hg' Hk'. apply IH; auto. lia. }
  intros g Hg k. eapply HA; eauto.
Qed.
End Seg.
Ltac ltbs := repeat match goal with
  | |- context [Nat.ltb ?x ?y] => first [ rewrite (proj2 (Nat.ltb_ge x y)) by lia | rewrite (proj2 (Nat.ltb_lt x y)) by lia ]
  | |- context [Nat.leb ?x ?y] => first [ rewrite (proj2 (Nat.leb_gt x y)) by lia | rewrite (proj2 (Nat.leb_le x y)) by lia ]
  end; cbn [andb].
Ltac leb_cases := repeat match goal with |- context [Nat.leb ?x ?y] => destruct (Nat.leb_spec x y) end.
Ltac vsum_simp := rewrite ?vsum_app; cbn [map app]; rewrite ?vsum_cons, ?vsum_nil.
(** discharge [segs] goals over explicit event lists *)
Ltac seg_q := let k := fresh "k" in let Hk := fresh "Hk" in intros k Hk; vsum_simp; ltbs; leb_cases; cbn [andb]; first [lra | exfalso; lia].
Ltac segs_solve := cbn [segs]; repeat match goal with
  | |- _ /\ _ => split
  | |- (_ < _)%nat => lia
  | |- 10 <= _ => vsum_simp; ltbs; lra
  | |- forall k, _ => seg_q
  end.
