(** Order facts that the queue theorems need, abstractly and for the three
    arithmetics.  [okT] excludes NaN for binary64. *)
From Coq Require Import ZArith QArith Reals Lra Lia Bool Floats.
From Verif Require Import Num.

Record NumOrd (T : Type) `{Num T} (okT : T -> Prop) : Prop := {
  no_asym : forall a b, okT a -> okT b -> nltb a b = true -> nltb b a = false;
  no_letrans : forall a b c, okT a -> okT b -> okT c ->
      nltb b a = false -> nltb c b = false -> nltb c a = false;
  no_leb : forall a b, okT a -> okT b -> nleb a b = negb (nltb b a);
  no_eqb : forall a b, okT a -> okT b -> neqb a b = negb (nltb a b) && negb (nltb b a)
}.

Lemma R_ord : NumOrd R (fun _ => True).
Proof.
  split; cbn; intros.
  - apply Rltb_true in H1. apply Rltb_false. lra.
  - apply Rltb_false in H2, H3. apply Rltb_false. lra.
  - destruct (Rleb a b) eqn:E1, (Rltb b a) eqn:E2; auto.
    + apply Rleb_true in E1. apply Rltb_true in E2. lra.
    + apply Rleb_false in E1. apply Rltb_false in E2. lra.
  - destruct (Reqb a b) eqn:E1, (Rltb a b) eqn:E2, (Rltb b a) eqn:E3; auto; exfalso;
    rewrite ?Rltb_true, ?Rltb_false, ?Reqb_true, ?Reqb_false in *; subst; lra.
Qed.

Lemma Q_ord : NumOrd Q (fun _ => True).
Proof.
  assert (HL : forall a b, Qltb a b = true <-> (a < b)%Q).
  { intros. unfold Qltb. rewrite negb_true_iff.
    destruct (Qle_bool b a) eqn:E; split; intros X; try discriminate; auto.
    - apply Qle_bool_iff in E. exfalso. revert X. apply Qle_not_lt; auto.
    - apply Qnot_le_lt. intros C. apply Qle_bool_iff in C. congruence. }
  assert (HLf : forall a b, Qltb a b = false <-> (b <= a)%Q).
  { intros. unfold Qltb. rewrite negb_false_iff. apply Qle_bool_iff. }
  split; cbn -[Qltb Qle_bool Qeq_bool]; intros.
  - apply HL in H1. apply HLf. apply Qlt_le_weak; auto.
  - apply HLf in H2, H3. apply HLf. eapply Qle_trans; eauto.
  - unfold Qltb. rewrite negb_involutive. reflexivity.
  - unfold Qltb. rewrite !negb_involutive.
    destruct (Qeq_bool a b) eqn:E.
    + apply Qeq_bool_iff in E.
      assert (Qle_bool b a = true) as -> by (apply Qle_bool_iff; rewrite E; apply Qle_refl).
      assert (Qle_bool a b = true) as -> by (apply Qle_bool_iff; rewrite E; apply Qle_refl).
      reflexivity.
    + destruct (Qle_bool b a) eqn:E1, (Qle_bool a b) eqn:E2; auto.
      apply Qle_bool_iff in E1, E2. pose proof (Qle_antisym _ _ E1 E2) as X. symmetry in X.
      apply Qeq_bool_iff in X. congruence.
Qed.

(** Binary64 without NaN.  [SFcompare] is a lexicographic order on this key. *)
Definition Fok (f : float) : Prop := Prim2SF f <> S754_nan.
Definition Fkey (s : spec_float) : (Z * (Z * Z)) :=
  match s with
  | S754_zero _ => (0, (0, 0))
  | S754_infinity true => (-2, (0, 0))
  | S754_infinity false => (2, (0, 0))
  | S754_finite true m e => (-1, (- e, - Zpos m))
  | S754_finite false m e => (1, (e, Zpos m))
  | S754_nan => (3, (0, 0))
  end%Z.
Definition lex2 (a b : Z * Z) : comparison :=
  match Z.compare (fst a) (fst b) with Eq => Z.compare (snd a) (snd b) | c => c end.
Definition lex3 (a b : Z * (Z * Z)) : comparison :=
  match Z.compare (fst a) (fst b) with Eq => lex2 (snd a) (snd b) | c => c end.

Lemma SFcompare_key a b : a <> S754_nan -> b <> S754_nan ->
  SFcompare a b = Some (lex3 (Fkey a) (Fkey b)).
Proof.
  intros Ha Hb. destruct a as [[]|[]| |[] ma ea]; destruct b as [[]|[]| |[] mb eb];
    try congruence; try reflexivity; cbn -[Z.compare Pcompare Z.opp];
    unfold lex3, lex2; cbn [fst snd]; rewrite ?Z.compare_refl.
  - change (Z.neg ma) with (- Z.pos ma)%Z. change (Z.neg mb) with (- Z.pos mb)%Z.
    rewrite !Z.compare_opp. rewrite (Z.compare_antisym ea eb).
    destruct (Z.compare ea eb) eqn:E; cbn [CompOpp]; auto.
    f_equal. rewrite Z.compare_antisym. reflexivity.
Qed.

Lemma lex2_antisym a b : lex2 b a = CompOpp (lex2 a b).
Proof.
  unfold lex2. rewrite (Z.compare_antisym (fst a) (fst b)), (Z.compare_antisym (snd a) (snd b)).
  destruct (Z.compare (fst a) (fst b)); reflexivity.
Qed.
Lemma lex3_antisym a b : lex3 b a = CompOpp (lex3 a b).
Proof.
  unfold lex3. rewrite (Z.compare_antisym (fst a) (fst b)), (lex2_antisym (snd a) (snd b)).
  destruct (Z.compare (fst a) (fst b)); reflexivity.
Qed.
Lemma lex2_spec a b : lex2 a b <> Gt <-> (fst a < fst b \/ fst a = fst b /\ snd a <= snd b)%Z.
Proof.
  unfold lex2. destruct (Z.compare_spec (fst a) (fst b)).
  - unfold Z.le. split; intros; [right; auto|]. intuition lia.
  - split; intros; [left; auto|congruence].
  - split; intros; [congruence|]. lia.
Qed.
Lemma lex3_spec a b : lex3 a b <> Gt <-> (fst a < fst b \/ fst a = fst b /\ lex2 (snd a) (snd b) <> Gt)%Z.
Proof.
  unfold lex3. destruct (Z.compare_spec (fst a) (fst b)).
  - split; intros; [right; auto|]. intuition lia.
  - split; intros; [left; auto|congruence].
  - split; intros; [congruence|]. lia.
Qed.
Lemma lex3_trans a b c : lex3 a b <> Gt -> lex3 b c <> Gt -> lex3 a c <> Gt.
Proof. rewrite !lex3_spec, !lex2_spec. lia. Qed.

Lemma F_ltb_key a b : Fok a -> Fok b ->
  PrimFloat.ltb a b = match lex3 (Fkey (Prim2SF a)) (Fkey (Prim2SF b)) with Lt => true | _ => false end.
Proof. intros. rewrite ltb_spec. unfold SFltb. rewrite SFcompare_key by assumption. destruct (lex3 _ _); reflexivity. Qed.
Lemma F_leb_key a b : Fok a -> Fok b ->
  PrimFloat.leb a b = match lex3 (Fkey (Prim2SF a)) (Fkey (Prim2SF b)) with Gt => false | _ => true end.
Proof. intros. rewrite leb_spec. unfold SFleb. rewrite SFcompare_key by assumption. destruct (lex3 _ _); reflexivity. Qed.
Lemma F_eqb_key a b : Fok a -> Fok b ->
  PrimFloat.eqb a b = match lex3 (Fkey (Prim2SF a)) (Fkey (Prim2SF b)) with Eq => true | _ => false end.
Proof. intros. rewrite eqb_spec. unfold SFeqb. rewrite SFcompare_key by assumption. destruct (lex3 _ _); reflexivity. Qed.

Lemma F_ord : NumOrd float Fok.
Proof.
  split; cbn [nltb nleb neqb F_num]; intros.
  - rewrite F_ltb_key in * by assumption.
    rewrite (lex3_antisym (Fkey (Prim2SF a))). destruct (lex3 _ _); cbn; congruence.
  - rewrite F_ltb_key in * by assumption.
    assert (G : forall x y, match lex3 x y with Lt => true | _ => false end = false <-> lex3 y x <> Gt).
    { intros x y. rewrite (lex3_antisym x y). destruct (lex3 x y); cbn; split; congruence. }
    apply G. apply G in H2, H3. eapply lex3_trans; eauto.
  - rewrite F_ltb_key, F_leb_key by assumption.
    rewrite (lex3_antisym (Fkey (Prim2SF a))). destruct (lex3 _ _); reflexivity.
  - rewrite !F_ltb_key, F_eqb_key by assumption.
    rewrite (lex3_antisym (Fkey (Prim2SF a))). destruct (lex3 _ _); reflexivity.
Qed.
