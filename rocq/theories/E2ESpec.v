(** Specification of C49: what it means that a compiled expression computes its value.
    [evaluate] is the script a user runs; [accurate] the ranges in which its networks compute and the
    errors they add, in terms of the values of the program only; [exact_sum] the programs computed
    without any error. *)
From Coq Require Import Arith ZArith Bool String List Reals Lra.
From Verif Require Import Num Heapq Elements Simulator Networks Scalar ScalarProofs Compiler.
Import ListNotations.
Open Scope list_scope.
Open Scope R_scope.

(** the whole session of the README: compile, Simulator.init_with_plan, simulate, decode *)
Definition evaluate (h : list (scalar R)) (root : nat) (norm dt : R) (ord : nat -> list nat -> list nat) (T : R) : res (option R) :=
  let* pw := compile_computation h root norm empty_world in
  let* cs := init_with_plan (snd pw) (fst pw) DefaultEncoder dt in
  let* s := simulate (fst cs) ord (snd cs) T in
  decode_output (fst cs) s (p_reader (fst pw)).

(** [accurate h norm dt v x e tau]: Scalar v of the program has the value norm * x, and the network
    made for it (normalisation norm, simulation step dt) outputs x with an error of at most e, its
    second output spike coming before time tau.  One rule per kind of node: the ranges in which the
    networks compute, and the error they add. *)
Inductive accurate (h : list (scalar R)) (norm dt : R) : nat -> R -> R -> R -> Prop :=
(** an input is rounded up to the next step *)
| ac_load v s : nth_error h v = Some s -> x_op s = OLoad -> Rabs (x_data s) <= norm ->
    accurate h norm dt v (x_data s / norm) (dt / 100) 112
(** and not at all if its encoding (100 time units per unit) lies on the time grid *)
| ac_load_grid v s k : nth_error h v = Some s -> x_op s = OLoad -> Rabs (x_data s) <= norm -> Rabs (x_data s) / norm * 100 = INR k * dt ->
    accurate h norm dt v (x_data s / norm) 0 112
| ac_neg v s u x e tau : nth_error h v = Some s -> x_op s = ONeg -> x_prev s = [u] -> accurate h norm dt u x e tau ->
    accurate h norm dt v (- x) e (tau + 2)
(** the positive and the negative part of a sum must each fit the range; a negative sum must not be tiny *)
| ac_add v s u1 u2 x1 e1 tau1 x2 e2 tau2 : nth_error h v = Some s -> x_op s = OAdd -> x_prev s = [u1; u2] ->
    accurate h norm dt u1 x1 e1 tau1 -> accurate h norm dt u2 x2 e2 tau2 ->
    Rmax 0 x1 + Rmax 0 x2 + (e1 + e2) <= 1 -> Rmax 0 (- x1) + Rmax 0 (- x2) + (e1 + e2) <= 1 ->
    e1 + e2 <= x1 + x2 \/ x1 + x2 <= - (e1 + e2) - (1 / 100 + 2 * dt) / 100 ->
    accurate h norm dt v (x1 + x2) (e1 + e2) (Rmax tau1 tau2 + 482)
(** a product of two numbers away from 0 *)
| ac_mul v s u1 u2 x1 e1 tau1 x2 e2 tau2 : nth_error h v = Some s -> x_op s = OMul -> x_prev s = [u1; u2] ->
    accurate h norm dt u1 x1 e1 tau1 -> accurate h norm dt u2 x2 e2 tau2 ->
    0 < Rabs x1 - e1 -> Rabs x1 + e1 < 1 -> 0 < Rabs x2 - e2 -> Rabs x2 + e2 < 1 -> exp (- 16) <= (Rabs x1 - e1) * (Rabs x2 - e2) ->
    (Rabs x1 + e1) * (Rabs x2 + e2) * 100 + 11 * dt <= 100 -> norm * ((Rabs x1 + e1) * (Rabs x2 + e2) * 100 + 11 * dt) <= 100 -> (3 + 3 * norm) * dt <= 10 ->
    accurate h norm dt v (norm * (x1 * x2)) (norm * (Rabs x1 * e2 + Rabs x2 * e1 + e1 * e2) + ((2 + 4 * norm) * dt + norm * dt * 10) / 100) (Rmax tau1 tau2 + 474 + 110 / norm)
(** a product with an exact 0 *)
| ac_mul_zero v s u1 u2 x1 e1 tau1 x2 e2 tau2 : nth_error h v = Some s -> x_op s = OMul -> x_prev s = [u1; u2] ->
    accurate h norm dt u1 x1 e1 tau1 -> accurate h norm dt u2 x2 e2 tau2 ->
    Rabs x1 + e1 < 1 -> Rabs x2 + e2 < 1 -> x1 = 0 /\ e1 = 0 \/ x2 = 0 /\ e2 = 0 -> (3 + 3 * norm) * dt <= 10 ->
    accurate h norm dt v 0 ((2 + 3 * norm) * dt / 100) (Rmax tau1 tau2 + 474 + 110 / norm)
| ac_weaken v x e tau e' tau' : accurate h norm dt v x e tau -> e <= e' -> tau <= tau' -> accurate h norm dt v x e' tau'.

(** programs made of inputs on the time grid, sums and negations, whose partial sums fit: for every
    addition reached, the positive operands add up to at most norm, so do the negative ones, and a
    negative sum is at most -norm * (1/100 + 2 dt) / 100 *)
Definition exact_sum (h : list (scalar R)) (norm dt : R) (root : nat) : Prop :=
  forall v s, reaches h root v -> nth_error h v = Some s ->
    match x_op s with
    | OLoad => Rabs (x_data s) <= norm /\ exists k, Rabs (x_data s) / norm * 100 = INR k * dt
    | ONeg => True
    | OAdd => forall u1 u2 s1 s2, x_prev s = [u1; u2] -> nth_error h u1 = Some s1 -> nth_error h u2 = Some s2 ->
        Rmax 0 (x_data s1) + Rmax 0 (x_data s2) <= norm /\ Rmax 0 (- x_data s1) + Rmax 0 (- x_data s2) <= norm /\
        (0 <= x_data s \/ x_data s <= - norm * ((1 / 100 + 2 * dt) / 100))
    | _ => False
    end.
