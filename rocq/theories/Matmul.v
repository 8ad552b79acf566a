(** Model of axon_sdk/networks/examples/matmul.py: 2x2 matrix products on Scalars. *)
From Coq Require Import Arith ZArith Bool List Reals Lra Lia.
From Verif Require Import Num Scalar.
Import ListNotations.
Open Scope list_scope.

Section Matmul.
Context {T : Type} `{NT : Num T}.
Definition mat := list (list (pyval T)).
Notation SM := (SM (T := T)).
Notation sheap := (sheap (T := T)).
Notation "'do' x <- m ; k" := (sbind m (fun x => k)) (at level 200, x name, right associativity).

(** [M[i][j]], IndexError outside *)
Definition mget (M : mat) (i j : nat) : SM (pyval T) :=
  match nth_error M i with
  | Some row => match nth_error row j with Some v => sret v | None => serr EIndex end
  | None => serr EIndex
  end.
(** [Scalar(x)] *)
Definition mnew (x : T) : SM (pyval T) := as_val (new_scalar x [] OLoad).

(** examples/matmul.py:17-20 one entry [A[i][0] * B[0][j] + A[i][1] * B[1][j]], operands left to right *)
Definition entry (A B : mat) (i j : nat) : SM (pyval T) :=
  do a <- mget A i 0; do b <- mget B 0 j; do p <- py_mul a b;
  do c <- mget A i 1; do d <- mget B 1 j; do q <- py_mul c d;
  py_add p q.
(** examples/matmul.py:14-22 regular_matmul.  The four Scalars of line 15 are created and
    then replaced. *)
Definition regular_matmul (A B : mat) : SM mat :=
  do z1 <- mnew nzero; do z2 <- mnew nzero; do z3 <- mnew nzero; do z4 <- mnew nzero;
  do c00 <- entry A B 0 0; do c01 <- entry A B 0 1;
  do c10 <- entry A B 1 0; do c11 <- entry A B 1 1;
  sret [[c00; c01]; [c10; c11]].

(** examples/matmul.py:25-41 strassen_matmul *)
Definition strassen_matmul (A B : mat) : SM mat :=
  (* line 26 *) do x <- mget A 0 0; do y <- mget A 1 1; do s <- py_add x y;
                do u <- mget B 0 0; do v <- mget B 1 1; do t <- py_add u v; do m1 <- py_mul s t;
  (* line 27 *) do x <- mget A 1 0; do y <- mget A 1 1; do s <- py_add x y; do u <- mget B 0 0; do m2 <- py_mul s u;
  (* line 28 *) do x <- mget A 0 0; do u <- mget B 0 1; do v <- mget B 1 1; do t <- py_sub u v; do m3 <- py_mul x t;
  (* line 29 *) do x <- mget A 1 1; do u <- mget B 1 0; do v <- mget B 0 0; do t <- py_sub u v; do m4 <- py_mul x t;
  (* line 30 *) do x <- mget A 0 0; do y <- mget A 0 1; do s <- py_add x y; do u <- mget B 1 1; do m5 <- py_mul s u;
  (* line 31 *) do x <- mget A 1 0; do y <- mget A 0 0; do s <- py_sub x y;
                do u <- mget B 0 0; do v <- mget B 0 1; do t <- py_add u v; do m6 <- py_mul s t;
  (* line 32 *) do x <- mget A 0 1; do y <- mget A 1 1; do s <- py_sub x y;
                do u <- mget B 1 0; do v <- mget B 1 1; do t <- py_add u v; do m7 <- py_mul s t;
  (* line 34 *) do a <- py_add m1 m4; do b <- py_sub a m5; do c11 <- py_add b m7;
  (* line 35 *) do c12 <- py_add m3 m5;
  (* line 36 *) do c21 <- py_add m2 m4;
  (* line 37 *) do a <- py_sub m1 m2; do b <- py_add a m3; do c22 <- py_add b m6;
  sret [[c11; c12]; [c21; c22]].

(** examples/matmul.py:52-58 sum_mat; [out += x] is [out = out + x] (Scalar has no __iadd__) *)
Fixpoint sfold {A B : Type} (f : A -> B -> SM A) (l : list B) (a : A) : SM A :=
  match l with [] => sret a | b :: l' => do a' <- f a b; sfold f l' a' end.
Definition sum_mat (M : mat) : SM (pyval T) :=
  do out <- mnew nzero;
  sfold (fun out i =>
    (* line 55 evaluates [len(M[0])], M is not empty here *)
    sfold (fun out j => do v <- mget M i j; py_add out v)
          (seq 0 (length (nth 0 M []))) out) (seq 0 (length M)) out.

(** ** What a Python value stands for *)
Definition extends (h h' : sheap) : Prop := exists t : list (scalar T), h' = h ++ t.
Definition holds (h : sheap) (v : pyval T) (x : T) : Prop :=
  exists i s, v = PScalar i /\ nth_error h i = Some s /\ x_data s = x.

Lemma ext_refl h : extends h h. Proof. exists []. symmetry; apply app_nil_r. Qed.
Lemma ext_trans a b c : extends a b -> extends b c -> extends a c.
Proof. intros [x ->] [y ->]. exists (x ++ y). symmetry; apply app_assoc. Qed.
Lemma holds_ext h h' v x : extends h h' -> holds h v x -> holds h' v x.
Proof.
  intros [t ->] (i & s & E1 & E2 & E3). exists i, s. repeat split; auto.
  rewrite nth_error_app1; auto. apply nth_error_Some. congruence.
Qed.
Lemma new_at (h : sheap) (s : scalar T) : nth_error (h ++ [s]) (length h) = Some s.
Proof. rewrite nth_error_app2, Nat.sub_diag by lia. reflexivity. Qed.

(** [m] run from [h] makes a Scalar with data [x] and only adds Scalars *)
Definition made (h : sheap) (x : T) (r : res (pyval T * sheap)) : Prop :=
  exists v h', r = Ok (v, h') /\ extends h h' /\ holds h' v x.
Definition makes (m : SM (pyval T)) (h : sheap) (x : T) : Prop := made h x (m h).

Lemma new_makes h x : makes (mnew x) h x.
Proof.
  eexists _, _. split; [reflexivity|]. split; [eexists; reflexivity|].
  eexists _, _. split; [reflexivity|]. split; [apply new_at|reflexivity].
Qed.
Lemma bin_makes f op h a b x y : holds h a x -> holds h b y ->
  makes (match a with PScalar i => as_val (scalar_bin (fun p q => Ok (f p q)) op i b) | _ => serr EType end) h (f x y).
Proof.
  intros (i & s & -> & E & <-) (j & u & -> & E' & <-).
  unfold makes, as_val, scalar_bin. cbn [can_proceed negb as_scalar]. unfold sbind, sret, sget, slift, new_scalar.
  rewrite E, E'. eexists _, _. split; [reflexivity|]. split; [eexists; reflexivity|].
  eexists _, _. split; [reflexivity|]. split; [apply new_at|reflexivity].
Qed.
Lemma add_makes h a b x y : holds h a x -> holds h b y -> makes (py_add a b) h (nadd x y).
Proof. intros Ha Hb. pose proof (bin_makes nadd OAdd h a b x y Ha Hb) as M. destruct Ha as (i & s & -> & _). exact M. Qed.
Lemma mul_makes h a b x y : holds h a x -> holds h b y -> makes (py_mul a b) h (nmul x y).
Proof. intros Ha Hb. pose proof (bin_makes nmul OMul h a b x y Ha Hb) as M. destruct Ha as (i & s & -> & _). exact M. Qed.
Lemma neg_makes h a x : holds h a x -> makes (py_neg a) h (nmul (nofZ (-1)) x).
Proof.
  intros (i & s & -> & E & <-). unfold makes, py_neg, as_val, scalar_neg, sbind, sret, sget, new_scalar. rewrite E.
  eexists _, _. split; [reflexivity|]. split; [eexists; reflexivity|].
  eexists _, _. split; [reflexivity|]. split; [apply new_at|reflexivity].
Qed.
Lemma sub_makes h a b x y : holds h a x -> holds h b y -> makes (py_sub a b) h (nadd x (nmul (nofZ (-1)) y)).
Proof.
  intros Ha Hb. destruct (neg_makes h b y Hb) as (nb & h1 & E & X1 & H1).
  destruct (add_makes h1 a nb x _ (holds_ext h h1 a x X1 Ha) H1) as (v & h2 & E2 & X2 & H2).
  exists v, h2. split; [|split; [eapply ext_trans; eauto|auto]].
  destruct Ha as (i & s & -> & _). destruct Hb as (j & u & -> & _). unfold py_sub. cbn [can_proceed negb].
  unfold sbind at 1. rewrite E. exact E2.
Qed.

(** a 2x2 matrix of Scalars with the given data *)
Definition mat_holds (h : sheap) (M : mat) (a b c d : T) : Prop :=
  exists va vb vc vd, M = [[va; vb]; [vc; vd]] /\ holds h va a /\ holds h vb b /\ holds h vc c /\ holds h vd d.

(** sequencing of steps that make Scalars *)
Lemma makes_bind (m : SM (pyval T)) h x {C} (k : pyval T -> SM C) (P : res (C * sheap) -> Prop) : makes m h x ->
  (forall v h', extends h h' -> holds h' v x -> P (k v h')) -> P (sbind m k h).
Proof. intros (v & h' & E & X & Hv) HK. unfold sbind. rewrite E. auto. Qed.
Lemma mget_bind M i j row v h {C} (k : pyval T -> SM C) (P : res (C * sheap) -> Prop) :
  nth_error M i = Some row -> nth_error row j = Some v -> P (k v h) -> P (sbind (mget M i j) k h).
Proof. intros E1 E2 HK. unfold sbind, mget. rewrite E1, E2. auto. Qed.
End Matmul.

Ltac mg := eapply mget_bind; [reflexivity|reflexivity|].
(** run one step proved by [t], carrying all [holds] facts over to the new heap *)
Ltac opt t :=
  eapply makes_bind; [t|];
  let v := fresh "v" in let h' := fresh "h" in let X := fresh "X" in let Hv := fresh "Hv" in
  intros v h' X Hv;
  repeat match goal with
  | H : holds ?h ?w ?y, X' : extends ?h h' |- _ =>
      apply (holds_ext h h' w y X') in H
  end;
  match goal with
  | Y : extends ?h0 ?h, X' : extends ?h h' |- _ => apply (ext_trans h0 h h' Y) in X'; clear Y
  | _ => idtac
  end.
Ltac op lem := opt ltac:(eapply lem; eassumption).

Section Spec.
Context {T : Type} `{NT : Num T}.
Definition mm_result (h : list (scalar T)) (a b c d : T) (r : res (mat * list (scalar T))) : Prop :=
  exists C h', r = Ok (C, h') /\ extends h h' /\ mat_holds h' C a b c d.

Lemma made_tail (h h1 : list (scalar T)) m x : extends h h1 -> makes m h1 x -> made h x (m h1).
Proof. intros X (v & h' & E & Y & Hv). exists v, h'. split; [exact E|]. split; [eapply ext_trans; eauto|auto]. Qed.

Lemma entry_makes (h : list (scalar T)) A B i j r0 r1 ri a0 a1 b0 b1 x0 x1 y0 y1 :
  nth_error A i = Some ri -> nth_error ri 0 = Some x0 -> nth_error ri 1 = Some x1 ->
  nth_error B 0 = Some r0 -> nth_error r0 j = Some y0 -> nth_error B 1 = Some r1 -> nth_error r1 j = Some y1 ->
  holds h x0 a0 -> holds h x1 a1 -> holds h y0 b0 -> holds h y1 b1 ->
  makes (entry A B i j) h (nadd (nmul a0 b0) (nmul a1 b1)).
Proof.
  intros. unfold makes, entry. assert (X0 := ext_refl h). revert X0. generalize h at 1 3 as h0. intros h0 X0.
  eapply mget_bind; [eassumption|eassumption|]. eapply mget_bind; [eassumption|eassumption|].
  op mul_makes.
  eapply mget_bind; [eassumption|eassumption|]. eapply mget_bind; [eassumption|eassumption|].
  op mul_makes. eapply made_tail; [eassumption|]. apply add_makes; auto.
Qed.

Lemma regular_spec (h : list (scalar T)) A B a00 a01 a10 a11 b00 b01 b10 b11 :
  mat_holds h A a00 a01 a10 a11 -> mat_holds h B b00 b01 b10 b11 ->
  mm_result h
    (nadd (nmul a00 b00) (nmul a01 b10)) (nadd (nmul a00 b01) (nmul a01 b11))
    (nadd (nmul a10 b00) (nmul a11 b10)) (nadd (nmul a10 b01) (nmul a11 b11)) (regular_matmul A B h).
Proof.
  intros (x00 & x01 & x10 & x11 & -> & A0 & A1 & A2 & A3) (y00 & y01 & y10 & y11 & -> & B0 & B1 & B2 & B3).
  unfold regular_matmul. assert (X0 := ext_refl h). revert X0. generalize h at 1 3 as h0. intros h0 X0.
  op @new_makes. op @new_makes. op @new_makes. op @new_makes.
  do 4 opt ltac:(eapply entry_makes; try reflexivity; eassumption).
  eexists _, _. split; [reflexivity|]. split; [eassumption|]. eexists _, _, _, _. split; [reflexivity|]. auto.
Qed.

Lemma strassen_spec (h : list (scalar T)) A B a00 a01 a10 a11 b00 b01 b10 b11 :
  mat_holds h A a00 a01 a10 a11 -> mat_holds h B b00 b01 b10 b11 ->
  let sub x y := nadd x (nmul (nofZ (-1)) y) in
  let m1 := nmul (nadd a00 a11) (nadd b00 b11) in
  let m2 := nmul (nadd a10 a11) b00 in
  let m3 := nmul a00 (sub b01 b11) in
  let m4 := nmul a11 (sub b10 b00) in
  let m5 := nmul (nadd a00 a01) b11 in
  let m6 := nmul (sub a10 a00) (nadd b00 b01) in
  let m7 := nmul (sub a01 a11) (nadd b10 b11) in
  mm_result h (nadd (sub (nadd m1 m4) m5) m7) (nadd m3 m5) (nadd m2 m4) (nadd (nadd (sub m1 m2) m3) m6) (strassen_matmul A B h).
Proof.
  intros (x00 & x01 & x10 & x11 & -> & A0 & A1 & A2 & A3) (y00 & y01 & y10 & y11 & -> & B0 & B1 & B2 & B3).
  cbv zeta.
  unfold strassen_matmul. assert (X0 := ext_refl h). revert X0. generalize h at 1 3 as h0. intros h0 X0.
  mg; mg; op add_makes; mg; mg; op add_makes; op mul_makes.
  mg; mg; op add_makes; mg; op mul_makes.
  mg; mg; mg; op sub_makes; op mul_makes.
  mg; mg; mg; op sub_makes; op mul_makes.
  mg; mg; op add_makes; mg; op mul_makes.
  mg; mg; op sub_makes; mg; mg; op add_makes; op mul_makes.
  mg; mg; op sub_makes; mg; mg; op add_makes; op mul_makes.
  op add_makes; op sub_makes; op add_makes. op add_makes. op add_makes. op sub_makes; op add_makes; op add_makes.
  eexists _, _. split; [reflexivity|]. split; [eassumption|]. eexists _, _, _, _. split; [reflexivity|]. auto 10.
Qed.

(** sum_mat on a rectangular matrix, any size *)
Definition rect_holds (h : list (scalar T)) (M : mat) (rows : list (list T)) (w : nat) : Prop :=
  Forall2 (Forall2 (holds h)) M rows /\ Forall (fun r => length r = w) rows.

Lemma sfold_makes (f : pyval T -> nat -> SM (T := T) (pyval T)) (g : T -> nat -> T) (P : list (scalar T) -> Prop) l :
  (forall h h', P h -> extends h h' -> P h') ->
  (forall h out x i, P h -> In i l -> holds h out x -> makes (f out i) h (g x i)) ->
  forall h out x, P h -> holds h out x -> makes (sfold f l out) h (fold_left g l x).
Proof.
  intros HP. induction l as [|i l IH]; intros HF h out x Ph Hh; cbn [sfold fold_left].
  - exists out, h. split; [reflexivity|]. split; [apply ext_refl|auto].
  - destruct (HF h out x i Ph (or_introl eq_refl) Hh) as (v & h1 & E & X & Hv).
    destruct (IH ltac:(intros; apply HF; auto; right; auto) h1 v (g x i) (HP _ _ Ph X) Hv) as (v2 & h2 & E2 & X2 & Hv2).
    exists v2, h2. unfold sbind. rewrite E. split; [exact E2|]. split; [eapply ext_trans; eauto|auto].
Qed.
Lemma Forall2_nth {A B} (R : A -> B -> Prop) l l' i b : Forall2 R l l' -> nth_error l' i = Some b ->
  exists a, nth_error l i = Some a /\ R a b.
Proof.
  intros HF. revert i. induction HF as [|x y l l' Hx HF IH]; intros [|i]; cbn; try discriminate.
  - intros [= <-]. eauto.
  - apply IH.
Qed.
Lemma Forall2_len {A B} (R : A -> B -> Prop) l l' : Forall2 R l l' -> length l = length l'.
Proof. induction 1; cbn; auto. Qed.
Lemma Forall2_impl {A B} (R S : A -> B -> Prop) l l' : (forall a b, R a b -> S a b) -> Forall2 R l l' -> Forall2 S l l'.
Proof. intros HI. induction 1; auto. Qed.
Lemma fold_seq {A B} (g : A -> B -> A) (d : B) l : forall x, fold_left (fun x j => g x (nth j l d)) (seq 0 (length l)) x = fold_left g l x.
Proof.
  induction l as [|b l IH]; intros x; auto. cbn [length seq fold_left nth]. rewrite <- seq_shift.
  rewrite <- (IH (g x b)).
  generalize (seq 0 (length l)) as q. intros q. generalize (g x b) as y. induction q as [|j q IHq]; intros y; cbn [map fold_left]; auto.
Qed.
Lemma sum_spec (h : list (scalar T)) M rows w : rect_holds h M rows w ->
  made h (fold_left (fun acc r => fold_left nadd r acc) rows nzero) (sum_mat M h).
Proof.
  intros HM. unfold sum_mat. assert (X0 := ext_refl h). revert X0. generalize h at 1 3 as h0. intros h0 X0.
  eapply makes_bind; [apply new_makes|]. intros v h1 X Hv.
  assert (PE : forall h h', rect_holds h M rows w -> extends h h' -> rect_holds h' M rows w).
  { intros ha hb [F1 F2] Y. split; auto. revert F1. apply Forall2_impl. intros r r'. apply Forall2_impl.
    intros a b. apply holds_ext; auto. }
  assert (HM1 : rect_holds h1 M rows w) by (eapply PE; eauto).
  eapply made_tail; [eapply ext_trans; eauto|].
  rewrite <- (fold_seq (fun acc r => fold_left nadd r acc) [] rows nzero).
  rewrite (Forall2_len _ _ _ (proj1 HM)).
  apply (sfold_makes _ (fun x i => fold_left nadd (nth i rows []) x) (fun h => rect_holds h M rows w)); auto.
  intros h2 out x i H2 Hi Ho. apply in_seq in Hi. destruct H2 as [F1 F2].
  destruct (nth_error rows i) as [r|] eqn:Er; [|apply nth_error_None in Er; lia].
  destruct (Forall2_nth _ _ _ _ _ F1 Er) as (mr & Em & Fr).
  rewrite (nth_error_nth _ _ _ Er).
  assert (Hw : length (nth 0 M []) = length r).
  { assert (Lr : length r = w) by (rewrite Forall_forall in F2; apply F2; eapply nth_error_In; eauto).
    destruct rows as [|r0 rows']; [cbn in Hi; lia|]. inversion F1; subst. cbn [nth].
    rewrite (Forall2_len _ _ _ H2). inversion F2; subst. congruence. }
  rewrite Hw, <- (fold_seq nadd nzero r x).
  apply (sfold_makes _ (fun x j => nadd x (nth j r nzero)) (fun h => rect_holds h M rows w)); auto.
  2:{ split; auto. }
  intros h3 out3 x3 j H3 Hj Ho3. apply in_seq in Hj. destruct H3 as [F1' F2'].
  destruct (Forall2_nth _ _ _ _ _ F1' Er) as (mr' & Em' & Fr'). rewrite Em in Em'. injection Em' as <-.
  destruct (nth_error r j) as [b|] eqn:Eb; [|apply nth_error_None in Eb; lia].
  destruct (Forall2_nth _ _ _ _ _ Fr' Eb) as (vb & Evb & Hb).
  rewrite (nth_error_nth _ _ _ Eb). unfold makes. 
  eapply mget_bind; [exact Em|exact Evb|]. apply add_makes; auto.
Qed.
End Spec.
