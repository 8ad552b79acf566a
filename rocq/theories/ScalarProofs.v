(** Expression graphs (C32, C35). *)
From Coq Require Import Arith ZArith Bool List Reals Lra Lia.
From Verif Require Import Num Scalar.
Import ListNotations.
Open Scope list_scope.

Section Generic.
Context {T : Type} `{Num T}.
Implicit Types h : list (scalar T).

(** A node is consistent: its operator has the right operands, created before it,
    and its data is the operator applied to their data. *)
Definition data_at h (i : nat) (d : T) : Prop := exists s, nth_error h i = Some s /\ x_data s = d.
Definition node_ok h (i : nat) (s : scalar T) : Prop :=
  match x_op s with
  | OLoad => x_prev s = []
  | OAdd => exists a b da db, x_prev s = [a; b] /\ a < i /\ b < i /\ data_at h a da /\ data_at h b db /\ x_data s = nadd da db
  | OMul => exists a b da db, x_prev s = [a; b] /\ a < i /\ b < i /\ data_at h a da /\ data_at h b db /\ x_data s = nmul da db
  | ODiv => exists a b da db, x_prev s = [a; b] /\ a < i /\ b < i /\ data_at h a da /\ data_at h b db /\ pdiv da db = Ok (x_data s)
  | ONeg => exists a da, x_prev s = [a] /\ a < i /\ data_at h a da /\ x_data s = nmul (nofZ (-1)) da
  | OPow => False
  end.
Definition heap_wf h : Prop := forall i s, nth_error h i = Some s -> node_ok h i s.
Definition grows h h' : Prop := exists l, h' = h ++ l.
Definition val_ok h (v : pyval T) : Prop := match v with PScalar i => i < length h | _ => True end.

Lemma grows_refl h : grows h h. Proof. exists []. rewrite app_nil_r. auto. Qed.
Lemma grows_trans h1 h2 h3 : grows h1 h2 -> grows h2 h3 -> grows h1 h3.
Proof. intros [a ->] [b ->]. exists (a ++ b). rewrite app_assoc. auto. Qed.
Lemma grows_nth h h' i s : grows h h' -> nth_error h i = Some s -> nth_error h' i = Some s.
Proof. intros [l ->] E. rewrite nth_error_app1; auto. apply nth_error_Some. congruence. Qed.
Lemma grows_len h h' : grows h h' -> length h <= length h'.
Proof. intros [l ->]. rewrite app_length. lia. Qed.
Lemma grows_val h h' v : grows h h' -> val_ok h v -> val_ok h' v.
Proof. intros G. destruct v; cbn; auto. pose proof (grows_len _ _ G). lia. Qed.
Lemma data_grows h h' i d : grows h h' -> data_at h i d -> data_at h' i d.
Proof. intros G (s & E & D). exists s. split; auto. eapply grows_nth; eauto. Qed.
Lemma node_grows h h' i s : grows h h' -> node_ok h i s -> node_ok h' i s.
Proof.
  intros G. unfold node_ok. destruct (x_op s); auto.
  1-2,4: intros (a & b & da & db & E & Ha & Hb & Da & Db & D); exists a, b, da, db; repeat split; eauto using data_grows.
  intros (a & da & E & Ha & Da & D); exists a, da; repeat split; eauto using data_grows.
Qed.
Lemma wf_new h d prev op : heap_wf h -> node_ok h (length h) {| x_data := d; x_prev := prev; x_op := op |} ->
  heap_wf (h ++ [{| x_data := d; x_prev := prev; x_op := op |}]).
Proof.
  intros W N i s E. assert (G : grows h (h ++ [{| x_data := d; x_prev := prev; x_op := op |}])) by (eexists; eauto).
  destruct (Nat.lt_ge_cases i (length h)).
  - rewrite nth_error_app1 in E by auto. eapply node_grows; eauto.
  - rewrite nth_error_app2 in E by auto. destruct (i - length h) as [|k] eqn:Ek; cbn in E.
    + injection E as <-. replace i with (length h) by lia. eapply node_grows; eauto.
    + destruct k; discriminate.
Qed.

(** *** operators *)
Lemma as_scalar_ok h v : heap_wf h -> val_ok h v -> can_proceed v = true ->
  exists i h', as_scalar v h = Ok (i, h') /\ heap_wf h' /\ grows h h' /\ i < length h' /\
    (forall x, v = PNum x -> data_at h' i x /\ nth_error h' i = Some {| x_data := x; x_prev := []; x_op := OLoad |}) /\
    (forall j, v = PScalar j -> i = j).
Proof.
  intros W V C. destruct v as [x|j|]; [| |discriminate].
  - exists (length h), (h ++ [{| x_data := x; x_prev := []; x_op := OLoad |}]). cbn.
    assert (E : nth_error (h ++ [{| x_data := x; x_prev := []; x_op := OLoad |}]) (length h) = Some {| x_data := x; x_prev := []; x_op := OLoad |})
      by (rewrite nth_error_app2, Nat.sub_diag by lia; auto).
    repeat split.
    + apply wf_new; auto. cbn. auto.
    + eexists; eauto.
    + rewrite app_length. cbn. lia.
    + injection H0 as <-. eexists; split; [exact E|reflexivity].
    + injection H0 as <-. exact E.
    + intros j [=].
  - exists j, h. cbn. repeat split; auto using grows_refl; try discriminate. intros k [= <-]. auto.
Qed.
(** data of a value *)
Definition has_data h (v : pyval T) (d : T) : Prop :=
  match v with PNum x => x = d | PScalar i => data_at h i d | POther => False end.
Lemma has_data_grows h h' v d : grows h h' -> has_data h v d -> has_data h' v d.
Proof. intros G. destruct v; cbn; eauto using data_grows. Qed.
Lemma scalar_bin_ok f op h self other da db d : heap_wf h -> data_at h self da -> val_ok h other ->
  has_data h other db -> f da db = Ok d ->
  (op = OAdd /\ (forall a b, f a b = Ok (nadd a b)) \/ op = OMul /\ (forall a b, f a b = Ok (nmul a b)) \/ op = ODiv /\ f = pdiv) ->
  exists i h', scalar_bin f op self other h = Ok (i, h') /\ heap_wf h' /\ grows h h' /\ data_at h' i d /\
    (exists o s, nth_error h' i = Some s /\ x_op s = op /\ x_prev s = [self; o] /\ has_data h' (PScalar o) db /\ (forall j, other = PScalar j -> o = j)).
Proof.
  intros W Da Vo Ho Ef Hop.
  assert (C : can_proceed other = true) by (destruct other; auto).
  destruct (as_scalar_ok h other W Vo C) as (o & h1 & E1 & W1 & G1 & L1 & X1 & X2).
  assert (Do : data_at h1 o db).
  { destruct other as [x|j|]; [| |destruct Ho].
    - cbn in Ho. subst x. apply (X1 db eq_refl).
    - rewrite (X2 j eq_refl). eapply data_grows; eauto. }
  pose proof (data_grows _ _ _ _ G1 Da) as Da1.
  unfold scalar_bin. rewrite C. cbn [negb]. unfold sbind. rewrite E1.
  destruct Da1 as (sa & Ea & <-). destruct Do as (so & Eo & <-).
  unfold sget. rewrite Ea, Eo. unfold slift. rewrite Ef. unfold new_scalar.
  set (s := {| x_data := d; x_prev := [self; o]; x_op := op |}).
  assert (Ls : self < length h1) by (apply nth_error_Some; congruence).
  assert (Es : nth_error (h1 ++ [s]) (length h1) = Some s) by (rewrite nth_error_app2, Nat.sub_diag by lia; auto).
  assert (Gs : grows h1 (h1 ++ [s])) by (eexists; eauto).
  exists (length h1), (h1 ++ [s]). repeat split.
  - apply wf_new; auto. unfold node_ok. cbn [x_op x_prev x_data].
    assert (A : data_at h1 self (x_data sa)) by (eexists; eauto). assert (B : data_at h1 o (x_data so)) by (eexists; eauto).
    destruct Hop as [[-> Hf]|[[-> Hf]|[-> ->]]].
    + exists self, o, (x_data sa), (x_data so). rewrite Hf in Ef. injection Ef as <-. repeat split; auto.
    + exists self, o, (x_data sa), (x_data so). rewrite Hf in Ef. injection Ef as <-. repeat split; auto.
    + exists self, o, (x_data sa), (x_data so). repeat split; auto.
  - eapply grows_trans; eauto.
  - exists s. auto.
  - exists o, s. repeat split; auto. cbn. exists so. split; auto. eapply grows_nth; eauto.
Qed.
Lemma scalar_neg_ok h self da : heap_wf h -> data_at h self da ->
  exists i h', scalar_neg self h = Ok (i, h') /\ heap_wf h' /\ grows h h' /\ data_at h' i (nmul (nofZ (-1)) da) /\
   (exists s, nth_error h' i = Some s /\ x_op s = ONeg /\ x_prev s = [self]).
Proof.
  intros W (sa & Ea & <-). unfold scalar_neg, sbind, sget. rewrite Ea. unfold new_scalar.
  set (s := {| x_data := nmul (nofZ (-1)) (x_data sa); x_prev := [self]; x_op := ONeg |}).
  assert (Ls : self < length h) by (apply nth_error_Some; congruence).
  assert (Es : nth_error (h ++ [s]) (length h) = Some s) by (rewrite nth_error_app2, Nat.sub_diag by lia; auto).
  exists (length h), (h ++ [s]). repeat split.
  - apply wf_new; auto. unfold node_ok. cbn [x_op x_prev x_data]. exists self, (x_data sa). repeat split; auto. eexists; eauto.
  - eexists; eauto.
  - exists s. auto.
  - exists s. auto.
Qed.

(** whatever succeeds keeps the heap well formed *)
Lemma val_data h v : heap_wf h -> val_ok h v -> v <> POther -> exists d, has_data h v d.
Proof.
  intros W V C. destruct v as [x|i|]; [eexists; reflexivity| |congruence].
  cbn in V. destruct (nth_error h i) as [s|] eqn:E; [|apply nth_error_None in E; lia]. exists (x_data s). exists s. auto.
Qed.
Lemma scalar_bin_keeps f op self other h i h' : heap_wf h -> self < length h -> val_ok h other ->
  (op = OAdd /\ (forall a b, f a b = Ok (nadd a b)) \/ op = OMul /\ (forall a b, f a b = Ok (nmul a b)) \/ op = ODiv /\ f = pdiv) ->
  scalar_bin f op self other h = Ok (i, h') -> heap_wf h' /\ grows h h' /\ i < length h'.
Proof.
  intros W Ls V Hop E.
  destruct (can_proceed other) eqn:C; [|unfold scalar_bin in E; rewrite C in E; discriminate].
  assert (Hn : other <> POther) by (intros ->; discriminate).
  destruct (val_data h other W V Hn) as (db & Db).
  destruct (nth_error h self) as [sa|] eqn:Ea; [|apply nth_error_None in Ea; lia].
  destruct (f (x_data sa) db) as [d|e] eqn:Ef.
  - destruct (scalar_bin_ok f op h self other (x_data sa) db d W ltac:(eexists; eauto) V Db Ef Hop) as (i2 & h2 & E2 & W2 & G2 & D2 & _).
    rewrite E in E2. injection E2 as <- <-. repeat split; auto. destruct D2 as (s & Es & _). apply nth_error_Some. congruence.
  - exfalso. unfold scalar_bin in E. rewrite C in E. cbn [negb] in E. unfold sbind in E.
    destruct (as_scalar_ok h other W V C) as (o & h1 & E1 & W1 & G1 & L1 & X1 & X2). rewrite E1 in E.
    assert (Do : data_at h1 o db).
    { destruct other as [x|j|]; [| |congruence].
      - cbn in Db. subst x. apply (X1 db eq_refl).
      - rewrite (X2 j eq_refl). eapply data_grows; eauto. }
    destruct Do as (so & Eo & <-). unfold sget in E. rewrite (grows_nth _ _ _ _ G1 Ea), Eo in E. unfold slift in E. rewrite Ef in E. discriminate.
Qed.
Definition okres h (r : res (pyval T * list (scalar T))) : Prop :=
  forall v h', r = Ok (v, h') -> heap_wf h' /\ grows h h' /\ val_ok h' v.
Lemma okres_err h e : okres h (Err e). Proof. intros v h' [=]. Qed.
Lemma okres_serr h e : okres h (serr e h). Proof. intros v h' [=]. Qed.
Lemma okres_ret h v : heap_wf h -> val_ok h v -> okres h (sret v h).
Proof. intros W V v' h' [= <- <-]. auto using grows_refl. Qed.
Lemma as_val_ok h m : (forall i h', m h = Ok (i, h') -> heap_wf h' /\ grows h h' /\ i < length h') -> okres h (as_val m h).
Proof.
  intros K v h' E. unfold as_val, sbind in E. destruct (m h) as [[i h1]|] eqn:Em; [|discriminate].
  cbn in E. injection E as <- <-. apply K; auto.
Qed.
Lemma okres_add h i b : heap_wf h -> i < length h -> val_ok h b -> okres h (as_val (scalar_add i b) h).
Proof. intros W L V. apply as_val_ok. intros k h' E. eapply (scalar_bin_keeps _ OAdd i b h); eauto. left; split; auto. Qed.
Lemma okres_mul h i b : heap_wf h -> i < length h -> val_ok h b -> okres h (as_val (scalar_mul i b) h).
Proof. intros W L V. apply as_val_ok. intros k h' E. eapply (scalar_bin_keeps _ OMul i b h); eauto. right; left; split; auto. Qed.
Lemma okres_div h i b : heap_wf h -> i < length h -> val_ok h b -> okres h (as_val (scalar_truediv i b) h).
Proof. intros W L V. apply as_val_ok. intros k h' E. eapply (scalar_bin_keeps _ ODiv i b h); eauto. Qed.
Lemma okres_neg h v : heap_wf h -> val_ok h v -> okres h (py_neg v h).
Proof.
  intros W V. destruct v as [x|i|]; cbn [py_neg]; [apply okres_ret; cbn; auto| |apply okres_err].
  apply as_val_ok. intros k h' E. cbn in V.
  destruct (nth_error h i) as [s|] eqn:Ei; [|apply nth_error_None in Ei; lia].
  destruct (scalar_neg_ok h i (x_data s) W ltac:(eexists; eauto)) as (k2 & h2 & E2 & W2 & G2 & D2 & _).
  rewrite E in E2. injection E2 as <- <-. repeat split; auto. destruct D2 as (s2 & Es & _). apply nth_error_Some. congruence.
Qed.
Lemma okres_pyadd h a b : heap_wf h -> val_ok h a -> val_ok h b -> okres h (py_add a b h).
Proof.
  intros W Va Vb. destruct a as [x|i|], b as [y|j|]; cbn [py_add can_proceed negb];
    auto using okres_add, okres_serr; apply okres_ret; cbn; auto.
Qed.
Lemma okres_pymul h a b : heap_wf h -> val_ok h a -> val_ok h b -> okres h (py_mul a b h).
Proof.
  intros W Va Vb. destruct a as [x|i|], b as [y|j|]; cbn [py_mul can_proceed negb];
    auto using okres_mul, okres_serr; apply okres_ret; cbn; auto.
Qed.
Lemma okres_bind h (m : SM (T:=T) (pyval T)) (f : pyval T -> SM (pyval T)) : okres h (m h) ->
  (forall v h', heap_wf h' -> grows h h' -> val_ok h' v -> okres h' (f v h')) -> okres h (sbind m f h).
Proof.
  intros O K v h' E. unfold sbind in E. destruct (m h) as [[v1 h1]|] eqn:Em; [|discriminate].
  destruct (O v1 h1 eq_refl) as (W1 & G1 & V1). destruct (K v1 h1 W1 G1 V1 v h' E) as (W2 & G2 & V2).
  repeat split; auto. eapply grows_trans; eauto.
Qed.
Lemma okres_pysub h a b : heap_wf h -> val_ok h a -> val_ok h b -> okres h (py_sub a b h).
Proof.
  intros W Va Vb. destruct a as [x|i|], b as [y|j|]; cbn [py_sub can_proceed negb];
    try apply okres_err; try (apply okres_ret; cbn; auto; fail);
    (apply okres_bind; [apply okres_neg; auto|]; intros v h' W' G' V'; apply okres_pyadd; auto; eapply grows_val; eauto).
Qed.
Lemma okres_pydiv fuel : forall h a b, heap_wf h -> val_ok h a -> val_ok h b -> okres h (py_truediv fuel a b h).
Proof.
  induction fuel as [|f IH]; intros h a b W Va Vb; [apply okres_err|].
  destruct a as [x|i|], b as [y|j|]; cbn [py_truediv can_proceed negb]; auto using okres_div, okres_serr.
  unfold sbind, slift. destruct (pdiv x y); [|apply okres_err]. apply okres_ret; cbn; auto.
Qed.
Lemma run_cmd_ok fuel env c h : heap_wf h -> Forall (val_ok h) env -> okres h (run_cmd fuel env c h).
Proof.
  intros W F. assert (Vo : forall a, val_ok h (eval_operand env a)).
  { intros [x|k]; cbn; auto. destruct (nth_in_or_default k env POther) as [Hin|Hd]; [|rewrite Hd; cbn; auto].
    rewrite Forall_forall in F. auto. }
  destruct c as [x|a|[] a b]; cbn [run_cmd];
    auto using okres_neg, okres_pyadd, okres_pysub, okres_pymul, okres_pydiv.
  intros v h' E. cbn in E. injection E as <- <-. repeat split.
  - apply wf_new; auto. reflexivity.
  - eexists; eauto.
  - cbn. rewrite app_length. cbn. lia.
Qed.
Lemma run_cmds_ok fuel cs : forall env h env' h', heap_wf h -> Forall (val_ok h) env ->
  run_cmds fuel cs env h = Ok (env', h') -> heap_wf h' /\ grows h h' /\ Forall (val_ok h') env'.
Proof.
  induction cs as [|c cs IH]; intros env h env' h' W F E; cbn [run_cmds] in E.
  - injection E as <- <-. auto using grows_refl.
  - unfold sbind in E. destruct (run_cmd fuel env c h) as [[v h1]|] eqn:Ec; [|discriminate].
    destruct (run_cmd_ok fuel env c h W F v h1 Ec) as (W1 & G1 & V1).
    destruct (IH (env ++ [v]) h1 env' h' W1) as (W2 & G2 & F2); auto.
    + apply Forall_app. split; auto. eapply Forall_impl; [|exact F]. intros; eapply grows_val; eauto.
    + repeat split; auto. eapply grows_trans; eauto.
Qed.
Lemma wf_nil : heap_wf []. Proof. intros [|i] s E; discriminate. Qed.

(** *** trace *)
Definition operand_of h (p v : nat) : Prop := exists s, nth_error h v = Some s /\ In p (x_prev s).
Inductive reaches h : nat -> nat -> Prop :=
| r_refl v : reaches h v v
| r_step v p n : operand_of h p v -> reaches h p n -> reaches h v n.
Definition acyclic_heap h : Prop := forall v s, nth_error h v = Some s -> forall p, In p (x_prev s) -> p < v.
Lemma wf_acyclic h : heap_wf h -> acyclic_heap h.
Proof.
  intros W v s E p Hp. specialize (W v s E). unfold node_ok in W. destruct (x_op s).
  - rewrite W in Hp. destruct Hp.
  - destruct W as (a & b & da & db & E2 & Ha & Hb & _). rewrite E2 in Hp. destruct Hp as [<-|[<-|[]]]; auto.
  - destruct W as (a & b & da & db & E2 & Ha & Hb & _). rewrite E2 in Hp. destruct Hp as [<-|[<-|[]]]; auto.
  - destruct W.
  - destruct W as (a & da & E2 & Ha & _). rewrite E2 in Hp. destruct Hp as [<-|[]]; auto.
  - destruct W as (a & b & da & db & E2 & Ha & Hb & _). rewrite E2 in Hp. destruct Hp as [<-|[<-|[]]]; auto.
Qed.
Lemma existsb_In v l : existsb (Nat.eqb v) l = true <-> In v l.
Proof. rewrite existsb_exists. split; [intros (x & Hx & E); apply Nat.eqb_eq in E; subst; auto|]. intros Hv. exists v. split; auto. apply Nat.eqb_refl. Qed.
Lemma in_edges_In e es : in_edges e es = true <-> In e es.
Proof.
  unfold in_edges. rewrite existsb_exists. split.
  - intros ([a b] & Hx & E). apply andb_true_iff in E as [E1 E2]. apply Nat.eqb_eq in E1, E2. destruct e; cbn in *; subst; auto.
  - intros Hx. exists e. split; auto. rewrite !Nat.eqb_refl. auto.
Qed.
(** what one call of build does *)
Record built_from h (v : nat) (ns ns' : list nat) (es es' : list (nat * nat)) (new : list nat) : Prop := {
  bf_ns : ns' = ns ++ new;
  bf_nd : NoDup ns -> NoDup ns';
  bf_v : In v ns';
  bf_reach : forall n, In n new -> reaches h v n;
  bf_closed : forall n p, In n new -> operand_of h p n -> In p ns';
  bf_es : forall e, In e es' <-> In e es \/ (In (snd e) new /\ operand_of h (fst e) (snd e));
  bf_esnd : NoDup es -> NoDup es';
  bf_len : forall n, In n new -> n < length h
}.
Lemma build_spec fuel h : acyclic_heap h -> forall v ns es, v < length h -> v < fuel ->
  exists ns' es' new, trace_build fuel h v (ns, es) = Ok (ns', es') /\ built_from h v ns ns' es es' new.
Proof.
  intros AC. induction fuel as [|f IH]; intros v ns es Hv Hf; [lia|]. cbn [trace_build].
  destruct (existsb (Nat.eqb v) ns) eqn:Em.
  - exists ns, es, []. split; auto. apply existsb_In in Em. constructor; auto.
    + rewrite app_nil_r; auto.
    + intros n [].
    + intros n p [].
    + intros e. split; auto. intros [?|[[] _]]; auto.
    + intros n [].
  - destruct (nth_error h v) as [s|] eqn:Es; [|apply nth_error_None in Es; lia].
    assert (Hnv : ~ In v ns) by (intros Hi; apply existsb_In in Hi; congruence).
    (* loop over the operands *)
    assert (L : forall ps ns1 es1, incl ps (x_prev s) -> In v ns1 ->
      exists ns' es' new, rfold (fun acc parent => let '(ns, es) := acc in
             trace_build f h parent (ns, if in_edges (parent, v) es then es else es ++ [(parent, v)])) ps (ns1, es1) = Ok (ns', es') /\
        ns' = ns1 ++ new /\ (NoDup ns1 -> NoDup ns') /\ (forall p, In p ps -> In p ns') /\
        (forall n, In n new -> reaches h v n) /\ (forall n p, In n new -> operand_of h p n -> In p ns') /\
        (forall e, In e es' <-> In e es1 \/ (In (snd e) new /\ operand_of h (fst e) (snd e)) \/ (snd e = v /\ In (fst e) ps)) /\
        (NoDup es1 -> NoDup es') /\ (forall n, In n new -> n < length h)).
    { induction ps as [|p ps IHp]; intros ns1 es1 Hps Hv1.
      - exists ns1, es1, []. split; [reflexivity|]. split; [rewrite app_nil_r; auto|]. split; auto. split; [intros p []|]. split; [intros n []|]. split; [intros n p []|].
        split; [|split; [auto|intros n []]]. intros e. cbn. tauto.
      - assert (Hp : In p (x_prev s)) by (apply Hps; left; auto).
        assert (Lp : p < v) by (eapply AC; eauto).
        set (es2 := if in_edges (p, v) es1 then es1 else es1 ++ [(p, v)]).
        assert (Hes2 : forall e, In e es2 <-> In e es1 \/ e = (p, v)).
        { intros e. unfold es2. destruct (in_edges (p, v) es1) eqn:Ee.
          - apply in_edges_In in Ee. split; auto. intros [?| ->]; auto.
          - rewrite in_app_iff. cbn. intuition. }
        assert (Nes2 : NoDup es1 -> NoDup es2).
        { intros ND. unfold es2. destruct (in_edges (p, v) es1) eqn:Ee; auto.
          assert (~ In (p, v) es1) by (intros X; apply in_edges_In in X; congruence).
          clear - ND H0. induction es1 as [|x l IHl]; cbn; [repeat constructor; intros []|]. inversion ND; subst.
          constructor; [|apply IHl; auto; intro; apply H0; right; auto]. rewrite in_app_iff. intros [?|[<-|[]]]; auto. apply H0; left; auto. }
        destruct (IH p ns1 es2 ltac:(lia) ltac:(lia)) as (ns3 & es3 & new3 & E3 & [B1 B2 B3 B4 B5 B6 B7 B8]).
        destruct (IHp ns3 es3) as (ns4 & es4 & new4 & E4 & C1 & C2 & C3 & C4 & C5 & C6 & C7 & C8).
        + intros x Hx. apply Hps. right; auto.
        + rewrite B1. apply in_app_iff. auto.
        + exists ns4, es4, (new3 ++ new4). cbn [rfold]. fold es2. rewrite E3. cbn [rbind].
          assert (I34 : forall x, In x ns3 -> In x ns4) by (intros x Hx; rewrite C1; apply in_app_iff; auto).
          split; [exact E4|]. split; [rewrite C1, B1, app_assoc; auto|]. split; [auto|].
          split; [intros q [<-|Hq]; auto|].
          split; [intros n Hn; apply in_app_iff in Hn as [Hn|Hn]; auto; eapply r_step; [exists s; split; eauto|]; auto|].
          split; [intros n q Hn Ho; apply in_app_iff in Hn as [Hn|Hn]; eauto|].
          split; [|split; [auto|intros n Hn; apply in_app_iff in Hn as [Hn|Hn]; auto]].
          intros e. rewrite C6, B6, Hes2, in_app_iff. cbn [In]. destruct e as [e1 e2]; cbn [fst snd].
          split; [intros [[[?|[= -> ->]]|[? ?]]|[[? ?]|[? ?]]]; tauto|].
          intros [?|[[[?|?] ?]|[-> [<-|?]]]]; try tauto. }
    destruct (L (x_prev s) (ns ++ [v]) es (incl_refl _)) as (ns' & es' & new & E & C1 & C2 & C3 & C4 & C5 & C6 & C7 & C8).
    { apply in_app_iff. right; left; auto. }
    exists ns', es', (v :: new). split; [exact E|].
    constructor; auto.
    + rewrite C1, <- app_assoc. reflexivity.
    + intros ND. apply C2. clear - ND Hnv. induction ns as [|x l IHl]; cbn; [repeat constructor; intros []|]. inversion ND; subst.
      constructor; [|apply IHl; auto; intro; apply Hnv; right; auto]. rewrite in_app_iff. intros [?|[<-|[]]]; auto. apply Hnv; left; auto.
    + rewrite C1. apply in_app_iff. left. apply in_app_iff. right; left; auto.
    + intros n [<-|Hn]; auto. constructor.
    + intros n p [<-|Hn] Ho; [|eauto]. destruct Ho as (s' & E' & Hp). rewrite Es in E'. injection E' as <-. auto.
    + intros e. rewrite C6. destruct e as [e1 e2]; cbn [fst snd In].
      assert (Ov : operand_of h e1 v <-> In e1 (x_prev s)).
      { split; [intros (s' & E' & Hp); rewrite Es in E'; injection E' as <-; auto|]. intros Hp. exists s. auto. }
      split; [intros [?|[[? ?]|[-> ?]]]; tauto|]. intros [?|[[<-|?] ?]]; tauto.
    + intros n [<-|Hn]; auto.
Qed.
Lemma trace_spec h root : acyclic_heap h -> root < length h ->
  exists nodes edges, trace h root = Ok (nodes, edges) /\ NoDup nodes /\ hd_error nodes = Some root /\
    (forall n, In n nodes <-> reaches h root n) /\ NoDup edges /\
    (forall p v, In (p, v) edges <-> In v nodes /\ operand_of h p v) /\ (forall n, In n nodes -> n < length h).
Proof.
  intros AC Hr. destruct (build_spec (S (length h)) h AC root [] [] Hr ltac:(lia)) as (ns & es & new & E & [B1 B2 B3 B4 B5 B6 B7 B8]).
  cbn in B1. subst new. exists ns, es. split; [exact E|]. split; [apply B2; constructor|]. split.
  - (* root first *)
    unfold trace in E. cbn [trace_build existsb app] in E. destruct (nth_error h root) as [s|] eqn:Es; [|apply nth_error_None in Es; lia].
    assert (L : forall ps acc ns' es', rfold (fun acc parent => let '(ns, es) := acc in
             trace_build (length h) h parent (ns, if in_edges (parent, root) es then es else es ++ [(parent, root)])) ps acc = Ok (ns', es') ->
             incl ps (x_prev s) -> hd_error (fst acc) = Some root -> hd_error ns' = Some root).
    { induction ps as [|p ps IHp]; intros [ns1 es1] ns' es' E1 Hps Hh; cbn [rfold] in E1.
      - injection E1 as <- <-. auto.
      - assert (p < root) by (eapply AC; eauto; apply Hps; left; auto).
        destruct (build_spec (length h) h AC p ns1 (if in_edges (p, root) es1 then es1 else es1 ++ [(p, root)]) ltac:(lia) ltac:(lia))
          as (ns3 & es3 & new3 & E3 & [D1 _ _ _ _ _ _ _]).
        rewrite E3 in E1. cbn [rbind] in E1. eapply IHp; eauto.
        + intros x Hx. apply Hps; right; auto.
        + cbn [fst] in *. rewrite D1. destruct ns1; [discriminate|]. auto. }
    eapply L; [exact E|apply incl_refl|reflexivity].
  - split; [|split; [apply B7; constructor|split; auto]].
    + intros n. split; auto. intros R. assert (G : forall v n, reaches h v n -> In v ns -> In n ns).
      { clear n R. induction 1; intros; auto. apply IHreaches. eapply B5; eauto. }
      eapply G; eauto.
    + intros p v. rewrite B6. cbn. split; [intros [[]|?]; auto|auto].
Qed.
End Generic.

Open Scope R_scope.
(** *** operator results over the reals (C35) *)
Section RealOps.
Implicit Types h : list (scalar R).
Lemma eqd h i d d' : data_at h i d -> d = d' -> data_at h i d'. Proof. intros ? <-. auto. Qed.
Lemma py_add_ok h a b x y : heap_wf h -> val_ok h a -> val_ok h b -> has_data h a x -> has_data h b y ->
  (forall u v, (a, b) <> (PNum u, PNum v)) ->
  exists k h', py_add a b h = Ok (PScalar k, h') /\ heap_wf h' /\ grows h h' /\ data_at h' k (x + y).
Proof.
  intros W Va Vb Da Db NN. destruct a as [u|i|]; [| |destruct Da].
  - destruct b as [v|j|]; [destruct (NN u v); reflexivity| |destruct Db]. cbn in Da. subst u.
    destruct (scalar_bin_ok (fun a b => Ok (nadd a b)) OAdd h j (PNum x) y x _ W Db I eq_refl eq_refl) as (k & h' & E & W' & G & D & _); [left; auto|].
    exists k, h'. cbn [py_add can_proceed negb]. unfold as_val, sbind, scalar_add. rewrite E. repeat split; auto.
    eapply eqd; eauto. cbn. lra.
  - destruct (scalar_bin_ok (fun a b => Ok (nadd a b)) OAdd h i b x y _ W Da Vb Db eq_refl) as (k & h' & E & W' & G & D & _); [left; auto|].
    exists k, h'. cbn [py_add]. unfold as_val, sbind, scalar_add. rewrite E. repeat split; auto.
Qed.
Lemma py_mul_ok h a b x y : heap_wf h -> val_ok h a -> val_ok h b -> has_data h a x -> has_data h b y ->
  (forall u v, (a, b) <> (PNum u, PNum v)) ->
  exists k h', py_mul a b h = Ok (PScalar k, h') /\ heap_wf h' /\ grows h h' /\ data_at h' k (x * y).
Proof.
  intros W Va Vb Da Db NN. destruct a as [u|i|]; [| |destruct Da].
  - destruct b as [v|j|]; [destruct (NN u v); reflexivity| |destruct Db]. cbn in Da. subst u.
    destruct (scalar_bin_ok (fun a b => Ok (nmul a b)) OMul h j (PNum x) y x _ W Db I eq_refl eq_refl) as (k & h' & E & W' & G & D & _); [right; left; auto|].
    exists k, h'. cbn [py_mul can_proceed negb]. unfold as_val, sbind, scalar_mul. rewrite E. repeat split; auto.
    eapply eqd; eauto. cbn. lra.
  - destruct (scalar_bin_ok (fun a b => Ok (nmul a b)) OMul h i b x y _ W Da Vb Db eq_refl) as (k & h' & E & W' & G & D & _); [right; left; auto|].
    exists k, h'. cbn [py_mul]. unfold as_val, sbind, scalar_mul. rewrite E. repeat split; auto.
Qed.
Lemma py_neg_ok h i x : heap_wf h -> data_at h i x ->
  exists k h', py_neg (PScalar i) h = Ok (PScalar k, h') /\ heap_wf h' /\ grows h h' /\ data_at h' k (- x).
Proof.
  intros W D. destruct (scalar_neg_ok h i x W D) as (k & h' & E & W' & G & D' & _).
  exists k, h'. cbn [py_neg]. unfold as_val, sbind. rewrite E. repeat split; auto. eapply eqd; eauto. cbn. lra.
Qed.
Lemma data_val h k d : data_at h k d -> (k < length h)%nat.
Proof. intros (s & E & _). apply nth_error_Some. congruence. Qed.
Lemma py_sub_ok h a b x y : heap_wf h -> val_ok h a -> val_ok h b -> has_data h a x -> has_data h b y ->
  (forall u v, (a, b) <> (PNum u, PNum v)) ->
  exists k h', py_sub a b h = Ok (PScalar k, h') /\ heap_wf h' /\ grows h h' /\ data_at h' k (x - y).
Proof.
  intros W Va Vb Da Db NN. destruct a as [u|i|]; [| |destruct Da].
  - destruct b as [v|j|]; [destruct (NN u v); reflexivity| |destruct Db].
    destruct (py_neg_ok h j y W Db) as (k & h1 & E & W1 & G1 & D1).
    destruct (py_add_ok h1 (PNum u) (PScalar k) x (- y) W1 I) as (k2 & h2 & E2 & W2 & G2 & D2); auto; [cbn; eapply data_val; eauto|intros; discriminate|].
    exists k2, h2. cbn [py_sub can_proceed negb]. unfold sbind. rewrite E, E2. repeat split; auto. eapply grows_trans; eauto.
  - destruct b as [v|j|]; [| |destruct Db].
    + cbn in Db. subst v. destruct (py_add_ok h (PScalar i) (PNum (- y)) x (- y) W Va I Da eq_refl) as (k2 & h2 & E2 & W2 & G2 & D2); [intros; discriminate|].
      exists k2, h2. cbn [py_sub can_proceed negb py_neg]. unfold sbind, sret. cbn [nopp R_num]. rewrite E2. repeat split; auto.
    + destruct (py_neg_ok h j y W Db) as (k & h1 & E & W1 & G1 & D1).
      destruct (py_add_ok h1 (PScalar i) (PScalar k) x (- y) W1) as (k2 & h2 & E2 & W2 & G2 & D2); auto.
      * eapply grows_val; eauto.
      * cbn. eapply data_val; eauto.
      * cbn. eapply data_grows; eauto.
      * intros; discriminate.
      * exists k2, h2. cbn [py_sub can_proceed negb]. unfold sbind. rewrite E, E2. repeat split; auto. eapply grows_trans; eauto.
Qed.
Lemma py_div_ok fuel h i b x y : heap_wf h -> val_ok h b -> has_data h (PScalar i) x -> has_data h b y -> y <> 0 ->
  exists k h', py_truediv (S fuel) (PScalar i) b h = Ok (PScalar k, h') /\ heap_wf h' /\ grows h h' /\ data_at h' k (x / y).
Proof.
  intros W Vb Da Db NZ.
  destruct (scalar_bin_ok pdiv ODiv h i b x y (x / y) W Da Vb Db) as (k & h' & E & W' & G & D & _); [|auto|].
  - unfold pdiv, nzero. cbn. rewrite (proj2 (Reqb_false _ _)) by auto. reflexivity.
  - exists k, h'. cbn [py_truediv]. unfold as_val, sbind, scalar_truediv. rewrite E. repeat split; auto.
Qed.
End RealOps.
Lemma py_rtruediv_diverges {T} `{Num T} fuel (h : list (scalar T)) x i : py_truediv fuel (PNum x) (PScalar i) h = Err ERecursion.
Proof. induction fuel as [|f IH]; [reflexivity|]. cbn [py_truediv can_proceed negb]. exact IH. Qed.
Lemma trace_of_program {T} `{NT : Num T} fuel cs (env : list (pyval T)) h root :
  run_cmds fuel cs [] [] = Ok (env, h) -> In (PScalar root) env ->
  exists nodes edges, trace h root = Ok (nodes, edges) /\ NoDup nodes /\ hd_error nodes = Some root /\
    (forall n, In n nodes <-> reaches h root n) /\ NoDup edges /\
    (forall p v, In (p, v) edges <-> In v nodes /\ operand_of h p v) /\
    (forall n, In n nodes -> exists s, nth_error h n = Some s /\ node_ok h n s).
Proof.
  intros E HR. destruct (run_cmds_ok fuel cs [] [] env h wf_nil (Forall_nil _) E) as (W & _ & HV).
  rewrite Forall_forall in HV. pose proof (HV _ HR) as Hr. cbn in Hr.
  destruct (trace_spec h root (wf_acyclic h W) Hr) as (ns & es & A1 & A2 & A3 & A4 & A5 & A6 & A7).
  exists ns, es. repeat (split; [assumption|]). intros n Hn. specialize (A7 n Hn).
  destruct (nth_error h n) as [s|] eqn:En; [|apply nth_error_None in En; lia]. exists s. split; auto.
Qed.
