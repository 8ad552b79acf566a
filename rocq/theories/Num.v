(** Number interface of the model.

    The Python code computes with [float]s (binary64).  Every model definition is
    parametric in the arithmetic operations below, so that the *same* Gallina
    functions can be
    - reasoned about over the reals ([R_num]: exact arithmetic, simplification),
    - executed over rationals ([Q_num]: exact, computable),
    - executed over primitive binary64 floats ([F_num]: Python's own rounding). *)
From Coq Require Import ZArith QArith Qabs Reals Lra Lia Bool.
From Coq Require Import Floats Uint63.

Class Num (T : Type) := {
  nadd : T -> T -> T;
  nsub : T -> T -> T;
  nmul : T -> T -> T;
  ndiv : T -> T -> T;
  nopp : T -> T;
  nabs : T -> T;
  nltb : T -> T -> bool;
  nleb : T -> T -> bool;
  neqb : T -> T -> bool;
  nofZ : Z -> T;          (* int -> float conversion, also integer literals *)
  ntrunc : T -> option Z  (* int(x): truncation toward zero; None = inf/nan (Python raises) *)
}.

(** Decimal literals such as 0.01 are written [nlit 1 100]; over binary64 the
    correctly rounded quotient of two exact integers is the float that Python
    reads for the literal. *)
Definition nlit {T} `{Num T} (p : Z) (q : Z) : T := ndiv (nofZ p) (nofZ q).
Definition nzero {T} `{Num T} : T := nofZ 0.
Definition n_one {T} `{Num T} : T := nofZ 1.
Definition ngeb {T} `{Num T} (a b : T) : bool := nleb b a.
Definition ngtb {T} `{Num T} (a b : T) : bool := nltb b a.

(** * Exact reals *)
Definition Rltb (a b : R) : bool := if Rlt_dec a b then true else false.
Definition Rleb (a b : R) : bool := if Rle_dec a b then true else false.
Definition Reqb (a b : R) : bool := if Req_EM_T a b then true else false.
Definition Rtrunc (a : R) : Z :=
  if Rle_dec 0 a then Int_part a else (- Int_part (- a))%Z.

#[global] Instance R_num : Num R := {|
  nadd := Rplus; nsub := Rminus; nmul := Rmult; ndiv := Rdiv; nopp := Ropp;
  nabs := Rabs; nltb := Rltb; nleb := Rleb; neqb := Reqb;
  nofZ := IZR; ntrunc := fun a => Some (Rtrunc a) |}.

(** * Exact rationals (executable) *)
Definition Qltb (a b : Q) : bool := negb (Qle_bool b a).
Definition Qtrunc (a : Q) : Z := Z.quot (Qnum a) (Zpos (Qden a)).
#[global] Instance Q_num : Num Q := {|
  nadd := fun a b => Qred (Qplus a b); nsub := fun a b => Qred (Qminus a b);
  nmul := fun a b => Qred (Qmult a b); ndiv := fun a b => Qred (Qdiv a b);
  nopp := Qopp; nabs := Qabs; nltb := Qltb; nleb := Qle_bool; neqb := Qeq_bool;
  nofZ := inject_Z; ntrunc := fun a => Some (Qtrunc a) |}.

(** * Binary64 (executable, Python's rounding) *)
Definition F_ofZ (z : Z) : float :=
  if Z.leb 0 z then PrimFloat.of_uint63 (Uint63.of_Z z)
  else PrimFloat.opp (PrimFloat.of_uint63 (Uint63.of_Z (- z))).
Definition F_trunc (f : float) : option Z :=
  match Prim2SF f with
  | S754_zero _ => Some 0%Z
  | S754_finite s m e =>
      let a := if Z.leb 0 e then Z.mul (Zpos m) (Z.pow 2 e)
               else Z.div (Zpos m) (Z.pow 2 (- e)) in
      Some (if s then Z.opp a else a)
  | S754_infinity _ => None
  | S754_nan => None
  end.
#[global] Instance F_num : Num float := {|
  nadd := PrimFloat.add; nsub := PrimFloat.sub; nmul := PrimFloat.mul;
  ndiv := PrimFloat.div; nopp := PrimFloat.opp; nabs := PrimFloat.abs;
  nltb := PrimFloat.ltb; nleb := PrimFloat.leb; neqb := PrimFloat.eqb;
  nofZ := F_ofZ; ntrunc := F_trunc |}.

(** Reflection of the real comparisons. *)
Lemma Rltb_true a b : Rltb a b = true <-> (a < b)%R.
Proof. unfold Rltb; destruct (Rlt_dec a b); split; intros; try lra; congruence. Qed.
Lemma Rltb_false a b : Rltb a b = false <-> (b <= a)%R.
Proof. unfold Rltb; destruct (Rlt_dec a b); split; intros; try lra; congruence. Qed.
Lemma Rleb_true a b : Rleb a b = true <-> (a <= b)%R.
Proof. unfold Rleb; destruct (Rle_dec a b); split; intros; try lra; congruence. Qed.
Lemma Rleb_false a b : Rleb a b = false <-> (b < a)%R.
Proof. unfold Rleb; destruct (Rle_dec a b); split; intros; try lra; congruence. Qed.
Lemma Reqb_true a b : Reqb a b = true <-> a = b.
Proof. unfold Reqb; destruct (Req_EM_T a b); split; intros; congruence. Qed.
Lemma Reqb_false a b : Reqb a b = false <-> a <> b.
Proof. unfold Reqb; destruct (Req_EM_T a b); split; intros; congruence. Qed.
Lemma Reqb_refl a : Reqb a a = true.
Proof. apply Reqb_true; reflexivity. Qed.

(** Errors: Python exceptions as values. *)
Inductive err := EValue | EAssert | EKey | EIndex | EZeroDiv | EType | ERecursion | EOverflow | EAttribute | EGeneric.
Inductive res (A : Type) := Ok (a : A) | Err (e : err).
Arguments Ok {A} _. Arguments Err {A} _.
Definition rbind {A B} (r : res A) (f : A -> res B) : res B :=
  match r with Ok a => f a | Err e => Err e end.
Notation "'let*' x ':=' e 'in' k" := (rbind e (fun x => k))
  (at level 200, x pattern, right associativity).
Fixpoint rfold {A B} (f : A -> B -> res A) (l : list B) (a : A) : res A :=
  match l with
  | nil => Ok a
  | cons b l' => let* a' := f a b in rfold f l' a'
  end.
(** Python [/] on floats: ZeroDivisionError when the divisor is zero. *)
Definition pdiv {T} `{Num T} (a b : T) : res T :=
  if neqb b nzero then Err EZeroDiv else Ok (ndiv a b).
