(** Model of axon_sdk/compilation/scalar.py *)
From Coq Require Import Arith ZArith Bool List.
From Verif Require Import Num.
Import ListNotations.
Open Scope list_scope.

Section Scalar.
Context {T : Type} `{Num T}.

(** compilation/scalar.py:4-10 OpType *)
Inductive optype := OLoad | OAdd | OMul | OPow | ONeg | ODiv.

(** compilation/scalar.py:23-27 Scalar objects; [x_prev] refers to other Scalars by their
    position in the heap of all Scalars created so far (object identity). *)
Record scalar := { x_data : T; x_prev : list nat; x_op : optype }.
Definition sheap := list scalar.

(** Python values that can meet a Scalar in an expression: numbers (int and float
    are not distinguished: simplification), Scalars, anything else. *)
Inductive pyval := PNum (x : T) | PScalar (i : nat) | POther.

(** computations that allocate Scalars *)
Definition SM (A : Type) := sheap -> res (A * sheap).
Definition sret {A} (a : A) : SM A := fun h => Ok (a, h).
Definition serr {A} (e : err) : SM A := fun _ => Err e.
Definition sbind {A C} (m : SM A) (f : A -> SM C) : SM C :=
  fun h => match m h with Ok (a, h') => f a h' | Err e => Err e end.
Definition sget (i : nat) : SM scalar := fun h =>
  match nth_error h i with Some s => Ok (s, h) | None => Err EAttribute end.
Definition slift {A} (r : res A) : SM A := fun h => match r with Ok a => Ok (a, h) | Err e => Err e end.

(** compilation/scalar.py:24-27 *)
Definition new_scalar (data : T) (prev : list nat) (op : optype) : SM nat := fun h =>
  Ok (length h, h ++ [{| x_data := data; x_prev := prev; x_op := op |}]).

(** compilation/scalar.py:135-143 can_proceed *)
Definition can_proceed (v : pyval) : bool := match v with POther => false | _ => true end.

(** [other if isinstance(other, Scalar) else Scalar(other)] (lines 31, 37, 46) *)
Definition as_scalar (v : pyval) : SM nat :=
  match v with
  | PNum x => new_scalar x [] OLoad
  | PScalar i => sret i
  | POther => serr EAssert
  end.

(** compilation/scalar.py:29-33, 35-39, 44-48 *)
Definition scalar_bin (f : T -> T -> res T) (op : optype) (self : nat) (other : pyval) : SM nat :=
  if negb (can_proceed other) then serr EAssert else
  sbind (as_scalar other) (fun o =>
  sbind (sget self) (fun a =>
  sbind (sget o) (fun b =>
  sbind (slift (f (x_data a) (x_data b))) (fun d => new_scalar d [self; o] op)))).
Definition scalar_add := scalar_bin (fun a b => Ok (nadd a b)) OAdd.
Definition scalar_mul := scalar_bin (fun a b => Ok (nmul a b)) OMul.
Definition scalar_truediv := scalar_bin pdiv ODiv.
(** compilation/scalar.py:50-52 __neg__ *)
Definition scalar_neg (self : nat) : SM nat :=
  sbind (sget self) (fun a => new_scalar (nmul (nofZ (-1)) (x_data a)) [self] ONeg).

Definition as_val (m : SM nat) : SM pyval := sbind m (fun i => sret (PScalar i)).

(** Python's operator dispatch: [a + b] calls a.__add__(b) when a is a Scalar; when a
    is a number, number.__add__ returns NotImplemented and b.__radd__(a) is
    called. *)
(** [-v] *)
Definition py_neg (v : pyval) : SM pyval :=
  match v with
  | PNum x => sret (PNum (nopp x))
  | PScalar i => as_val (scalar_neg i)
  | POther => serr EType
  end.
(** [a + b]; __radd__ is compilation/scalar.py:54-56 *)
Definition py_add (a b : pyval) : SM pyval :=
  match a, b with
  | PScalar i, _ => as_val (scalar_add i b)
  | _, PScalar j => if negb (can_proceed a) then serr EAssert else as_val (scalar_add j a)
  | PNum x, PNum y => sret (PNum (nadd x y))
  | _, _ => serr EType
  end.
(** [a * b]; __rmul__ is compilation/scalar.py:66-68 *)
Definition py_mul (a b : pyval) : SM pyval :=
  match a, b with
  | PScalar i, _ => as_val (scalar_mul i b)
  | _, PScalar j => if negb (can_proceed a) then serr EAssert else as_val (scalar_mul j a)
  | PNum x, PNum y => sret (PNum (nmul x y))
  | _, _ => serr EType
  end.
(** [a - b]; __sub__ is compilation/scalar.py:58-60, __rsub__ is 62-64 *)
Definition py_sub (a b : pyval) : SM pyval :=
  match a, b with
  | PScalar i, _ =>
      if negb (can_proceed b) then serr EAssert else
      sbind (py_neg b) (fun nb => py_add (PScalar i) nb)
  | _, PScalar j =>
      if negb (can_proceed a) then serr EAssert else
      sbind (py_neg (PScalar j)) (fun ns => py_add a ns)
  | PNum x, PNum y => sret (PNum (nsub x y))
  | _, _ => serr EType
  end.
(** [a / b]; __truediv__ is compilation/scalar.py:44-48; __rtruediv__ (70-72) evaluates
    [other / self] again, so the recursion is on fuel (Python: RecursionError). *)
Fixpoint py_truediv (fuel : nat) (a b : pyval) : SM pyval :=
  match fuel with
  | O => serr ERecursion
  | S f =>
      match a, b with
      | PScalar i, _ => as_val (scalar_truediv i b)
      | _, PScalar j => if negb (can_proceed a) then serr EAssert else py_truediv f a (PScalar j)
      | PNum x, PNum y => sbind (slift (pdiv x y)) (fun d => sret (PNum d))
      | _, _ => serr EType
      end
  end.
(** [a ** b]: __pow__ (compilation/scalar.py:41-42) takes no exponent, and there is no __rpow__. *)
Definition py_pow (a b : pyval) : SM pyval := serr EType.

(** Programs that build expressions: each command may use numbers and the results of
    earlier commands. *)
Inductive operand := ANum (x : T) | ARes (k : nat).
Inductive binop := BAdd | BSub | BMul | BDiv.
Inductive cmd := CNew (x : T) | CNeg (a : operand) | CBin (o : binop) (a b : operand).
Definition eval_operand (env : list pyval) (a : operand) : pyval :=
  match a with ANum x => PNum x | ARes k => nth k env POther end.
Definition run_cmd (fuel : nat) (env : list pyval) (c : cmd) : SM pyval :=
  match c with
  | CNew x => as_val (new_scalar x [] OLoad)
  | CNeg a => py_neg (eval_operand env a)
  | CBin BAdd a b => py_add (eval_operand env a) (eval_operand env b)
  | CBin BSub a b => py_sub (eval_operand env a) (eval_operand env b)
  | CBin BMul a b => py_mul (eval_operand env a) (eval_operand env b)
  | CBin BDiv a b => py_truediv fuel (eval_operand env a) (eval_operand env b)
  end.
Fixpoint run_cmds (fuel : nat) (cs : list cmd) (env : list pyval) : SM (list pyval) :=
  match cs with
  | [] => sret env
  | c :: cs' => sbind (run_cmd fuel env c) (fun v => run_cmds fuel cs' (env ++ [v]))
  end.

(** compilation/scalar.py:119-132 trace.  [v not in nodes] compares by identity.  The
    recursion is on fuel; CPython's recursion limit is not modelled. *)
Definition in_edges (e : nat * nat) (es : list (nat * nat)) : bool :=
  existsb (fun e' => (fst e =? fst e') && (snd e =? snd e')) es.
Fixpoint trace_build (fuel : nat) (h : sheap) (v : nat) (ne : list nat * list (nat * nat))
  : res (list nat * list (nat * nat)) :=
  match fuel with
  | O => Err ERecursion
  | S f =>
      let '(nodes, edges) := ne in
      if existsb (Nat.eqb v) nodes then Ok (nodes, edges) else
      match nth_error h v with
      | None => Err EAttribute
      | Some s =>
          rfold (fun acc parent =>
                   let '(ns, es) := acc in
                   let es' := if in_edges (parent, v) es then es else es ++ [(parent, v)] in
                   trace_build f h parent (ns, es'))
                (x_prev s) (nodes ++ [v], edges)
      end
  end.
Definition trace (h : sheap) (root : nat) : res (list nat * list (nat * nat)) :=
  trace_build (S (length h)) h root ([], []).
End Scalar.
Arguments scalar : clear implicits.
Arguments pyval : clear implicits.
Arguments cmd : clear implicits.
Arguments operand : clear implicits.
