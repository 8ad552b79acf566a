(** Property C28: LinearCombinatorNetwork and AdderNetwork.
    Specification vocabulary (LinRun.v), for a list of coefficients cs and inputs v 0, v 1, ...:
      dot cs v      = sum_i cs_i * v_i                 dot_pos cs v = sum_i max(0, cs_i * v_i)
      dot_neg cs v  = sum_i max(0, - cs_i * v_i)        norm1 cs     = sum_i |cs_i|
    A signed input v_i is given as |v_i| on the plus or minus input of channel i. *)
From Coq Require Import Arith ZArith Bool String List Reals Lra Lia Permutation Floats.
From Verif Require Import Num Heapq Elements Simulator Networks Trace SimTrace Session SimpleNets LinRun PropsNets.
Import ListNotations.
Open Scope R_scope.
Open Scope list_scope.
Local Notation ms := (/ 1000).

(** any number of inputs, any coefficients, signed inputs given at any times; the sum comes out on the output of its sign, and nothing on the other *)
Theorem C28_linear_combinator : forall (tmin tcod dt tl T : R) (cs : list R) (v t : nat -> R) nm ord,
  0 < dt < / 50 -> 0 < tcod -> (1 <= length cs)%nat ->
  (forall i, (i < length cs)%nat -> Rabs (v i) <= 1 /\ 0 <= t i <= tl) ->
  1 + 3 * dt + 2 * dt * norm1 cs <= tmin ->
  dot_pos cs v * tcod + 2 * dt * norm1 cs <= tcod -> dot_neg cs v * tcod + 2 * dt * norm1 cs <= tcod ->
  tl + 4 * (tmin + tcod) + 2 * tmin + 21 <= T -> ord_ok ord ->
  exists l s,
    session (LinearCombinatorNetwork (DataEncoder tmin tcod) (length cs) cs nm) lc_mod (DataEncoder tmin tcod) dt
      (fun l => map (fun i => SValue (Rabs (v i)) (nth i (if Rle_dec 0 (v i) then lc_input_plus l else lc_input_minus l) 0%nat) (t i)) (seq 0 (length cs)))
      ord T = Ok (l, s) /\
    (2 * dt * norm1 cs <= dot cs v * tcod ->
       emits s (lc_output_plus l) (DataEncoder tmin tcod) (dot cs v) ((2 * dt * norm1 cs + 2 * dt) / tcod) /\ spike_log s (lc_output_minus l) = []) /\
    (1 / 100 + 2 * dt + 2 * dt * norm1 cs <= - (dot cs v * tcod) ->
       emits s (lc_output_minus l) (DataEncoder tmin tcod) (- dot cs v) ((2 * dt * norm1 cs + 2 * dt) / tcod) /\ spike_log s (lc_output_plus l) = []).
Proof. exact linear_combinator_run. Qed.
Print Assumptions C28_linear_combinator.
(** Tmin and the inputs are multiples of the time step: the error does not grow with the coefficients any more;
    when the products are multiples of the time step too the result is exact *)
Theorem C28_linear_combinator_grid : forall (tmin tcod dt tl T : R) (q : nat) (cs : list R) (v t : nat -> R) (k : nat -> nat) nm ord,
  0 < dt < / 50 -> 0 < tcod -> (1 <= length cs)%nat ->
  tmin = INR q * dt -> 1 + 3 * dt <= tmin ->
  (forall i, (i < length cs)%nat -> Rabs (v i) <= 1 /\ Rabs (v i) * tcod = INR (k i) * dt /\ 0 <= t i <= tl) ->
  dot_pos cs v <= 1 -> dot_neg cs v <= 1 ->
  tl + 4 * (tmin + tcod) + 2 * tmin + 21 <= T -> ord_ok ord ->
  exists l s,
    session (LinearCombinatorNetwork (DataEncoder tmin tcod) (length cs) cs nm) lc_mod (DataEncoder tmin tcod) dt
      (fun l => map (fun i => SValue (Rabs (v i)) (nth i (if Rle_dec 0 (v i) then lc_input_plus l else lc_input_minus l) 0%nat) (t i)) (seq 0 (length cs)))
      ord T = Ok (l, s) /\
    (0 <= dot cs v ->
       emits s (lc_output_plus l) (DataEncoder tmin tcod) (dot cs v) (2 * dt / tcod) /\ spike_log s (lc_output_minus l) = []) /\
    (1 / 100 + 2 * dt <= - (dot cs v * tcod) ->
       emits s (lc_output_minus l) (DataEncoder tmin tcod) (- dot cs v) (2 * dt / tcod) /\ spike_log s (lc_output_plus l) = []) /\
    ((forall i, (i < length cs)%nat -> exists z, nth i cs 0 * v i * tcod = IZR z * dt) ->
       (0 <= dot cs v -> emits s (lc_output_plus l) (DataEncoder tmin tcod) (dot cs v) 0) /\
       (1 / 100 + 2 * dt <= - (dot cs v * tcod) -> emits s (lc_output_minus l) (DataEncoder tmin tcod) (- dot cs v) 0)).
Proof. exact linear_combinator_grid. Qed.
Print Assumptions C28_linear_combinator_grid.
Theorem C28_adder : forall (tmin tcod dt tl T x y t1 t2 : R) (q k1 k2 : nat) nm ord,
  0 < dt < / 50 -> 0 < tcod -> tmin = INR q * dt -> 1 + 3 * dt <= tmin ->
  Rabs x <= 1 -> Rabs y <= 1 -> Rabs (x + y) <= 1 ->
  Rabs x * tcod = INR k1 * dt -> Rabs y * tcod = INR k2 * dt -> 0 <= t1 <= tl -> 0 <= t2 <= tl ->
  tl + 4 * (tmin + tcod) + 2 * tmin + 21 <= T -> ord_ok ord ->
  exists a s,
    session (AdderNetwork (DataEncoder tmin tcod) nm) (fun a => lc_mod (ad_lin a)) (DataEncoder tmin tcod) dt
      (fun a => [SValue (Rabs x) (if Rle_dec 0 x then ad_input1_plus a else ad_input1_minus a) t1;
                 SValue (Rabs y) (if Rle_dec 0 y then ad_input2_plus a else ad_input2_minus a) t2]) ord T = Ok (a, s) /\
    (0 <= x + y -> emits s (lc_output_plus (ad_lin a)) (DataEncoder tmin tcod) (x + y) 0 /\ spike_log s (lc_output_minus (ad_lin a)) = []) /\
    (1 / 100 + 2 * dt <= - ((x + y) * tcod) -> emits s (lc_output_minus (ad_lin a)) (DataEncoder tmin tcod) (- (x + y)) 0 /\ spike_log s (lc_output_plus (ad_lin a)) = []).
Proof. exact adder_run. Qed.
Print Assumptions C28_adder.

(** false as it stands for tiny negative sums: strictly between 0 and -1/100 time units (up to the resolution) no output spikes at all *)
Theorem C28_small_negative_refuted : forall (tmin tcod dt tl T : R) (cs : list R) (v t : nat -> R) nm ord,
  0 < dt < / 50 -> 0 < tcod -> (1 <= length cs)%nat ->
  (forall i, (i < length cs)%nat -> Rabs (v i) <= 1 /\ 0 <= t i <= tl) ->
  1 + 3 * dt + 2 * dt * norm1 cs <= tmin ->
  dot_pos cs v * tcod + 2 * dt * norm1 cs <= tcod -> dot_neg cs v * tcod + 2 * dt * norm1 cs <= tcod ->
  tl + 4 * (tmin + tcod) + 2 * tmin + 21 <= T -> ord_ok ord ->
  2 * dt * norm1 cs + dt <= - (dot cs v * tcod) <= 1 / 100 - 2 * dt - 2 * dt * norm1 cs ->
  exists l s,
    session (LinearCombinatorNetwork (DataEncoder tmin tcod) (length cs) cs nm) lc_mod (DataEncoder tmin tcod) dt
      (fun l => map (fun i => SValue (Rabs (v i)) (nth i (if Rle_dec 0 (v i) then lc_input_plus l else lc_input_minus l) 0%nat) (t i)) (seq 0 (length cs)))
      ord T = Ok (l, s) /\
    spike_log s (lc_output_plus l) = [] /\ spike_log s (lc_output_minus l) = [].
Proof. exact linear_combinator_lost. Qed.
Print Assumptions C28_small_negative_refuted.
(** 0.5 - 0.50005 with the default encoder and dt = 1/10000 *)
Definition c28_small (i : nat) : R := nth i [1/2; - (50005 / 100000)] 0.
Example C28_small_ex : exists l s,
  session (LinearCombinatorNetwork (DataEncoder 10 100) 2 [1; 1] None) lc_mod (DataEncoder 10 100) (1/10000)
    (fun l => map (fun i => SValue (Rabs (c28_small i)) (nth i (if Rle_dec 0 (c28_small i) then lc_input_plus l else lc_input_minus l) 0%nat) 0) (seq 0 2)) id_ord 500 = Ok (l, s) /\
  spike_log s (lc_output_plus l) = [] /\ spike_log s (lc_output_minus l) = [].
Proof.
  assert (A1 : dot [1; 1] c28_small = - (5 / 100000)) by (unfold dot, c28_small; cbn [length seq]; rewrite !sumf_cons; unfold sumf, sumR; cbn [map sumR fold_right nth]; lra).
  assert (A2 : dot_pos [1; 1] c28_small = 1/2) by (unfold dot_pos, c28_small; cbn [length seq]; rewrite !sumf_cons; unfold sumf, sumR; cbn [map sumR fold_right nth]; rewrite Rmax_right, Rmax_left; lra).
  assert (A3 : dot_neg [1; 1] c28_small = 50005 / 100000) by (unfold dot_neg, c28_small; cbn [length seq]; rewrite !sumf_cons; unfold sumf, sumR; cbn [map sumR fold_right nth]; rewrite Rmax_left, Rmax_right; lra).
  assert (A4 : norm1 [1; 1] = 2) by (unfold norm1; cbn [length seq]; rewrite !sumf_cons; unfold sumf, sumR; cbn [map sumR fold_right nth]; rewrite Rabs_right; lra).
  apply (C28_small_negative_refuted 10 100 (1/10000) 0 500 [1; 1] c28_small (fun _ => 0) None id_ord); rewrite ?A1, ?A2, ?A3, ?A4; try lra; [cbn; lia| |apply id_ord_ok].
  intros i Hi. destruct i as [|[|]]; unfold c28_small; cbn [nth]; [| |cbn in Hi; lia]; (split; [apply Rabs_le; lra|lra]).
Qed.

Definition c28_c : list R := [1/2; - (1/4); 1/2].
Definition c28_v (i : nat) : R := nth i [1/2; 1; - (1/5)] 0.
Definition c28_t (i : nat) : R := nth i [3; 20; 1] 0.
Lemma c28_sums : dot c28_c c28_v = - (1/10) /\ dot_pos c28_c c28_v = 1/4 /\ dot_neg c28_c c28_v = 7/20 /\ norm1 c28_c = 5/4.
Proof.
  unfold dot, dot_pos, dot_neg, norm1, c28_c, c28_v. cbn [length seq]. rewrite !sumf_cons. unfold sumf, sumR. cbn [map sumR fold_right nth].
  rewrite (Rabs_right (1/2)), (Rabs_left (- (1/4))) by lra.
  unfold Rmax. repeat match goal with |- context [Rle_dec ?a ?b] => destruct (Rle_dec a b); try (exfalso; lra) end.
  split; [lra|split; [lra|split; lra]].
Qed.
(** (1/2)(1/2) - (1/4)(1) + (1/2)(-1/5) = -1/10 with the default encoder and dt = 1/1000 *)
Example C28_ex : exists l s,
  session (LinearCombinatorNetwork (DataEncoder 10 100) 3 c28_c None) lc_mod (DataEncoder 10 100) ms
    (fun l => [SValue (Rabs (1/2)) (nth 0 (lc_input_plus l) 0%nat) 3; SValue (Rabs 1) (nth 1 (lc_input_plus l) 0%nat) 20; SValue (Rabs (- (1/5))) (nth 2 (lc_input_minus l) 0%nat) 1]) id_ord 501 = Ok (l, s) /\
  emits s (lc_output_minus l) (DataEncoder 10 100) (1/10) (1/10000) /\ spike_log s (lc_output_plus l) = [].
Proof.
  destruct c28_sums as (S1 & S2 & S3 & S4).
  destruct (C28_linear_combinator 10 100 ms 20 501 c28_c c28_v c28_t None id_ord) as (l & s & E & _ & C); rewrite ?S1, ?S2, ?S3, ?S4; try lra; [cbn; lia| |apply id_ord_ok|].
  - intros i Hi. destruct i as [|[|[|]]]; unfold c28_v, c28_t; cbn [nth]; [| | |cbn in Hi; lia]; (split; [apply Rabs_le; lra|lra]).
  - exists l, s. split.
    + rewrite <- E. unfold c28_c. cbn [length seq map]. f_equal. apply FunctionalExtensionality.functional_extensionality. intros l0. unfold c28_v, c28_t. cbn [nth].
      destruct (Rle_dec 0 (1 / 2)); [|exfalso; lra]. destruct (Rle_dec 0 1); [|exfalso; lra]. destruct (Rle_dec 0 (- (1 / 5))); [exfalso; lra|]. reflexivity.
    + rewrite S1, S4 in C. destruct C as [[t1 [t2 [y [Q1 [Q2 [Q3 Q4]]]]]] C2]; [lra|]. split; [|exact C2]. exists t1, t2, y. split; auto. split; auto. split; auto.
      replace (1 / 10) with (- - (1 / 10)) by lra. lra.
Qed.
Example C28_adder_ex : exists a s,
  session (AdderNetwork (DataEncoder 10 100) None) (fun a => lc_mod (ad_lin a)) (DataEncoder 10 100) ms
    (fun a => [SValue (Rabs (3/4)) (if Rle_dec 0 (3/4) then ad_input1_plus a else ad_input1_minus a) 0;
               SValue (Rabs (- (1/2))) (if Rle_dec 0 (- (1/2)) then ad_input2_plus a else ad_input2_minus a) 7]) id_ord 500 = Ok (a, s) /\
  emits s (lc_output_plus (ad_lin a)) (DataEncoder 10 100) (1/4) 0.
Proof.
  destruct (C28_adder 10 100 ms 7 500 (3/4) (- (1/2)) 0 7 (Z.to_nat 10000) (Z.to_nat 75000) (Z.to_nat 50000) None id_ord) as (a & s & E & C & _);
    rewrite ?INR_Z, ?(Rabs_right (3/4)), ?(Rabs_left (- (1/2))) by (lia || lra); try lra; [apply Rabs_le; lra|apply id_ord_ok|].
  rewrite (Rabs_right (3/4)), (Rabs_left (- (1/2))) in E by lra.
  exists a, s. split; [exact E|]. destruct C as [C _]; [lra|]. replace (1 / 4) with (3 / 4 + - (1 / 2)) by lra. exact C.
Qed.

(** In binary64 the claim is false.  The script below (any arithmetic T) gives the value vs_i to channel i at t0. *)
Definition lin_script {T} `{Num T} (enc : encoder T) (cs : list T) (vs : list T) (dt t0 D : T) : res (lin_net * sim T) :=
  let* lw := LinearCombinatorNetwork enc (List.length cs) cs None empty_world in
  let* c := mk_simulator (snd lw) (lc_mod (fst lw)) enc dt in
  let* s1 := rfold (fun s p => apply_input_value (fst c) s (fst p) (snd p) t0) (combine vs (lc_input_plus (fst lw))) (snd c) in
  let* s2 := simulate (fst c) ord_id s1 D in
  Ok (fst lw, s2).
Definition logs {T} (r : res (lin_net * sim T)) : option (list T * list T) :=
  match r with Ok (l, s) => Some (spike_log s (lc_output_plus l), spike_log s (lc_output_minus l)) | Err _ => None end.
(** nine coefficients 0.1, nine inputs 0.5, Tmin=2, Tcod=4, dt=0.01, 60 time units: no output at all, because nine additions of 10/9 give less than 10;
    with eight the result comes out *)
Theorem C28_binary64_nine_inputs_refuted :
  logs (lin_script (T := float) (DataEncoder (nofZ 2) (nofZ 4)) (repeat (nlit 1 10) 9) (repeat (nlit 1 2) 9) (nlit 1 100) (nofZ 0) (nofZ 60)) = Some ([], []) /\
  exists a b, logs (lin_script (T := float) (DataEncoder (nofZ 2) (nofZ 4)) (repeat (nlit 1 10) 8) (repeat (nlit 1 2) 8) (nlit 1 100) (nofZ 0) (nofZ 60)) = Some ([a; b], []).
Proof. split; [vm_compute; reflexivity|]. do 2 eexists. vm_compute. reflexivity. Qed.
Print Assumptions C28_binary64_nine_inputs_refuted.
(** the same nine inputs in exact arithmetic: 9 * 0.1 * 0.5 = 0.45 comes out *)
Definition c28_nine : list R := repeat (1/10) 9.
Example C28_exact_nine : exists l s,
  session (LinearCombinatorNetwork (DataEncoder 2 4) 9 c28_nine None) lc_mod (DataEncoder 2 4) (1/100)
    (fun l => map (fun i => SValue (Rabs (1/2)) (nth i (if Rle_dec 0 (1/2) then lc_input_plus l else lc_input_minus l) 0%nat) 0) (seq 0 9)) id_ord 60 = Ok (l, s) /\
  emits s (lc_output_plus l) (DataEncoder 2 4) (9/20) (1/100).
Proof.
  assert (A1 : dot c28_nine (fun _ => 1/2) = 9/20) by (unfold dot, c28_nine; cbn [length seq repeat]; rewrite !sumf_cons; unfold sumf, sumR; cbn [map sumR fold_right nth]; lra).
  assert (A2 : dot_pos c28_nine (fun _ => 1/2) = 9/20) by (unfold dot_pos, c28_nine; cbn [length seq repeat]; rewrite !sumf_cons; unfold sumf, sumR; cbn [map sumR fold_right nth]; rewrite Rmax_right; lra).
  assert (A3 : dot_neg c28_nine (fun _ => 1/2) = 0) by (unfold dot_neg, c28_nine; cbn [length seq repeat]; rewrite !sumf_cons; unfold sumf, sumR; cbn [map sumR fold_right nth]; rewrite Rmax_left; lra).
  assert (A4 : norm1 c28_nine = 9/10) by (unfold norm1, c28_nine; cbn [length seq repeat]; rewrite !sumf_cons; unfold sumf, sumR; cbn [map sumR fold_right nth]; rewrite Rabs_right; lra).
  destruct (C28_linear_combinator 2 4 (1/100) 0 60 c28_nine (fun _ => 1/2) (fun _ => 0) None id_ord) as (l & s & E & C & _); rewrite ?A1, ?A2, ?A3, ?A4; try lra; [cbn; lia| |apply id_ord_ok|].
  - intros i _. split; [apply Rabs_le; lra|lra].
  - exists l, s. split; [exact E|]. rewrite A1, A4 in C. destruct C as [[t1 [t2 [y [Q1 [Q2 [Q3 Q4]]]]]] _]; [lra|]. exists t1, t2, y. split; auto. split; auto. split; auto. lra.
Qed.
