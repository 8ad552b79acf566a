(** Specification of C68: when a compiled expression can be evaluated again in the same simulation. *)
From Coq Require Import Arith ZArith Bool String List Reals Lra.
From Verif Require Import Num Heapq Elements Simulator Networks Scalar ScalarProofs Compiler.
Import ListNotations.
Open Scope list_scope.
Open Scope R_scope.

(** As [accurate] (E2ESpec), with the ranges in which the networks also come back to rest: a product
    must have both factors and itself away from 0 and from 1 by a few steps. *)
Inductive repeatable (h : list (scalar R)) (norm dt : R) : nat -> R -> R -> R -> Prop :=
| rp_load v s : nth_error h v = Some s -> x_op s = OLoad -> Rabs (x_data s) <= norm ->
    repeatable h norm dt v (x_data s / norm) (dt / 100) 112
| rp_load_grid v s k : nth_error h v = Some s -> x_op s = OLoad -> Rabs (x_data s) <= norm -> Rabs (x_data s) / norm * 100 = INR k * dt ->
    repeatable h norm dt v (x_data s / norm) 0 112
| rp_neg v s u x e tau : nth_error h v = Some s -> x_op s = ONeg -> x_prev s = [u] -> repeatable h norm dt u x e tau ->
    repeatable h norm dt v (- x) e (tau + 2)
| rp_add v s u1 u2 x1 e1 tau1 x2 e2 tau2 : nth_error h v = Some s -> x_op s = OAdd -> x_prev s = [u1; u2] ->
    repeatable h norm dt u1 x1 e1 tau1 -> repeatable h norm dt u2 x2 e2 tau2 ->
    Rmax 0 x1 + Rmax 0 x2 + (e1 + e2) <= 1 -> Rmax 0 (- x1) + Rmax 0 (- x2) + (e1 + e2) <= 1 ->
    e1 + e2 <= x1 + x2 \/ x1 + x2 <= - (e1 + e2) - (1 / 100 + 2 * dt) / 100 ->
    repeatable h norm dt v (x1 + x2) (e1 + e2) (Rmax tau1 tau2 + 482)
| rp_mul v s u1 u2 x1 e1 tau1 x2 e2 tau2 : nth_error h v = Some s -> x_op s = OMul -> x_prev s = [u1; u2] ->
    repeatable h norm dt u1 x1 e1 tau1 -> repeatable h norm dt u2 x2 e2 tau2 ->
    4 * dt <= (Rabs x1 - e1) * 100 -> (Rabs x1 + e1) * 100 <= 100 - 2 * dt ->
    4 * dt <= (Rabs x2 - e2) * 100 -> (Rabs x2 + e2) * 100 <= 100 - 2 * dt ->
    exp (- 14) <= (Rabs x1 - e1) * (Rabs x2 - e2) -> 20 * dt <= (Rabs x1 - e1) * (Rabs x2 - e2) * 100 ->
    (Rabs x1 + e1) * (Rabs x2 + e2) * 100 + 17 * dt <= 100 -> norm * ((Rabs x1 + e1) * (Rabs x2 + e2) * 100 + 17 * dt) <= 100 -> (3 + 3 * norm) * dt <= 10 ->
    repeatable h norm dt v (norm * (x1 * x2)) (norm * (Rabs x1 * e2 + Rabs x2 * e1 + e1 * e2) + ((2 + 4 * norm) * dt + norm * dt * 10) / 100) (Rmax tau1 tau2 + 474 + 110 / norm)
| rp_weaken v x e tau e' tau' : repeatable h norm dt v x e tau -> e <= e' -> tau <= tau' -> repeatable h norm dt v x e' tau'.

(** the inputs of a program, given the neurons ('+', '-') of every input: one neuron and one encoded value each *)
Definition inputs_of (h : list (scalar R)) (norm : R) (inp : nat -> nat * nat) (nodes : list nat) : list (nat * R) :=
  flat_map (fun v =>
    match nth_error h v with
    | Some s => match x_op s with
        | OLoad => [(if Rle_dec 0 (x_data s) then fst (inp v) else snd (inp v), Rabs (x_data s) / norm)]
        | _ => [] end
    | None => []
    end) nodes.
(** these inputs applied at time t0 (Simulator.init_with_plan does it at time 0) *)
Fixpoint trigger_at (c : cfg R) (s : sim R) (trs : list (nat * R)) (t0 : R) : res (sim R) :=
  match trs with
  | [] => Ok s
  | t :: trs' => let* s' := apply_input_value c s (snd t) (fst t) t0 in trigger_at c s' trs' t0
  end.
(** a round: the program with its inputs, how many steps it gets, the error allowed *)
Record round : Type := { rd_prog : list (scalar R); rd_steps : nat; rd_err : R }.
(** all rounds fed in advance, each when the one before is over *)
Fixpoint play (c : cfg R) (s : sim R) (norm : R) (inp : nat -> nat * nat) (nodes : list nat) (t0 : R) (rs : list round) : res (sim R) :=
  match rs with
  | [] => Ok s
  | r :: rs' => let* s' := trigger_at c s (inputs_of (rd_prog r) norm inp nodes) t0 in play c s' norm inp nodes (t0 + INR (rd_steps r) * c_dt c) rs'
  end.
(** the same expression on other inputs *)
Definition same_shape (h h' : list (scalar R)) : Prop := Forall2 (fun s s' => x_op s' = x_op s /\ x_prev s' = x_prev s) h h'.
Definition round_ok (h : list (scalar R)) (root : nat) (norm dt : R) (r : round) : Prop :=
  same_shape h (rd_prog r) /\ heap_wf (rd_prog r) /\
  exists x tau, repeatable (rd_prog r) norm dt root x (rd_err r) tau /\ tau + 250 <= INR (rd_steps r) * dt.
(** [lp], [lm]: two spikes on one of the two outputs between t0 and t1, at least Tmin = 10 apart, and they encode the value of the program *)
Definition answer (root : nat) (norm : R) (r : round) (t0 t1 : R) (lp lm : list R) : Prop :=
  exists s a b, nth_error (rd_prog r) root = Some s /\ t0 < a /\ a + 10 <= b /\ b <= t1 /\
    (lp = [a; b] /\ lm = [] /\ Rabs (norm * ((b - a - 10) / 100) - x_data s) <= norm * rd_err r \/
     lp = [] /\ lm = [a; b] /\ Rabs (- norm * ((b - a - 10) / 100) - x_data s) <= norm * rd_err r).
(** the two outputs carry the answers of the rounds, one after the other *)
Fixpoint transcript (root : nat) (norm dt t0 : R) (rs : list round) (lp lm : list R) : Prop :=
  match rs with
  | [] => lp = [] /\ lm = []
  | r :: rs' => let t1 := t0 + INR (rd_steps r) * dt in
      exists ap am lp' lm', lp = ap ++ lp' /\ lm = am ++ lm' /\ answer root norm r t0 t1 ap am /\ transcript root norm dt t1 rs' lp' lm'
  end.
