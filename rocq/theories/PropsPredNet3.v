(** SynchronizerNetwork, LinearCombinatorNetwork and AdderNetwork on PredSimulator: C56. *)
From Coq Require Import Arith ZArith Bool List Reals Lra Lia.
From Verif Require Import Num NumOrd Elements Networks PredSim Trace SimTrace Session LinRun PredNet PredMem PredSync PredLin.
Import ListNotations.
Open Scope list_scope.
Open Scope R_scope.

(** [pruns], [pemits], [dt_ok]: see PropsPredNet.v.  [dot], [dot_pos], [dot_neg]: see PropsLin.v. *)
(** the inputs are two spikes each, at any times; all outputs start together, after the last input *)
Theorem C56_synchronizer : forall (tmin tcod dt : R) (N : nat) (x t : nat -> R) nm,
  dt_ok dt -> 0 < tcod -> 1 < tmin -> dt < tmin -> tmin + tcod + 2 * dt <= 500 -> (1 <= N <= 316)%nat -> (forall i, (i < N)%nat -> 0 <= x i <= 1 /\ 0 <= t i) ->
  pruns (SynchronizerNetwork (DataEncoder tmin tcod) N nm) sy_mod (DataEncoder tmin tcod) dt
    (fun m => flat_map (fun i => [SSpike (nth i (sy_inputs m) 0%nat) (t i); SSpike (nth i (sy_inputs m) 0%nat) (t i + (tmin + x i * tcod))]) (seq 0 N))
    (fun m s => exists tau, (forall i, (i < N)%nat -> t i + (tmin + x i * tcod) < tau) /\
       forall i, (i < N)%nat -> (exists t2, pspike_log s (nth i (sy_outputs m) 0%nat) = [tau; t2]) /\
                                pemits s (nth i (sy_outputs m) 0%nat) (DataEncoder tmin tcod) (x i) (dt / tcod)).
Proof. exact pred_synchronizer. Qed.
Print Assumptions C56_synchronizer.
(** the inputs are values, which PredSimulator applies at time 0 whatever start time is given: any number of channels *)
Theorem C56_synchronizer_values : forall (tmin tcod dt : R) (N : nat) (x t0 : nat -> R) nm,
  dt_ok dt -> 0 < tcod -> 1 < tmin -> dt < tmin -> tmin + tcod + 2 * dt <= 500 -> (1 <= N)%nat -> (forall i, (i < N)%nat -> 0 <= x i <= 1) ->
  pruns (SynchronizerNetwork (DataEncoder tmin tcod) N nm) sy_mod (DataEncoder tmin tcod) dt
    (fun m => map (fun i => SValue (x i) (nth i (sy_inputs m) 0%nat) (t0 i)) (seq 0 N))
    (fun m s => exists tau, (forall i, (i < N)%nat -> tmin + x i * tcod < tau) /\
       forall i, (i < N)%nat -> (exists t2, pspike_log s (nth i (sy_outputs m) 0%nat) = [tau; t2]) /\
                                pemits s (nth i (sy_outputs m) 0%nat) (DataEncoder tmin tcod) (x i) (dt / tcod)).
Proof. exact pred_synchronizer_values. Qed.
Print Assumptions C56_synchronizer_values.
(** as long as an input is missing, nothing comes out *)
Theorem C56_synchronizer_waits : forall (tmin tcod dt : R) (N : nat) (given : list nat) (x t : nat -> R) nm,
  dt_ok dt -> 0 < tcod -> 1 < tmin -> dt < tmin -> tmin + tcod + 2 * dt <= 500 -> (N <= 316)%nat -> NoDup given -> (length given < N)%nat ->
  (forall i, In i given -> (i < N)%nat /\ 0 <= x i <= 1 /\ 0 <= t i) ->
  pruns (SynchronizerNetwork (DataEncoder tmin tcod) N nm) sy_mod (DataEncoder tmin tcod) dt
    (fun m => flat_map (fun i => [SSpike (nth i (sy_inputs m) 0%nat) (t i); SSpike (nth i (sy_inputs m) 0%nat) (t i + (tmin + x i * tcod))]) given)
    (fun m s => forall i, (i < N)%nat -> pspike_log s (nth i (sy_outputs m) 0%nat) = []).
Proof. exact pred_synchronizer_waits. Qed.
Print Assumptions C56_synchronizer_waits.
(** false from 317 channels on: with one input missing the others are released, and the missing channel emits the value 1 *)
Theorem C56_synchronizer_early_refuted : forall (tmin tcod dt : R) (N : nat) (x t0 : nat -> R) nm,
  dt_ok dt -> 0 < tcod -> 1 < tmin -> dt < tmin -> tmin + tcod + 2 * dt <= 500 -> (317 <= N)%nat -> (forall i, (i < N - 1)%nat -> 0 <= x i <= 1) ->
  pruns (SynchronizerNetwork (DataEncoder tmin tcod) N nm) sy_mod (DataEncoder tmin tcod) dt
    (fun m => map (fun i => SValue (x i) (nth i (sy_inputs m) 0%nat) (t0 i)) (seq 0 (N - 1)))
    (fun m s => (forall i, (i < N - 1)%nat -> pemits s (nth i (sy_outputs m) 0%nat) (DataEncoder tmin tcod) (x i) (dt / tcod)) /\
                pemits s (nth (N - 1) (sy_outputs m) 0%nat) (DataEncoder tmin tcod) 1 (dt / tcod)).
Proof. exact pred_synchronizer_early. Qed.
Print Assumptions C56_synchronizer_early_refuted.

(** any number of inputs, any coefficients, signed inputs: the weighted sum on the output of its sign, nothing on the other;
    the resolution is one prediction step whatever the coefficients are *)
Theorem C56_linear_combinator : forall (tmin tcod dt : R) (cs : list R) (v t0 : nat -> R) nm,
  dt_ok dt -> 0 < tcod -> 1 < tmin -> dt < tmin -> tmin + tcod + 2 * dt <= 500 -> (1 <= length cs)%nat ->
  dot_pos cs v <= 1 -> dot_neg cs v <= 1 -> (forall i, (i < length cs)%nat -> Rabs (v i) <= 1) ->
  pruns (LinearCombinatorNetwork (DataEncoder tmin tcod) (length cs) cs nm) lc_mod (DataEncoder tmin tcod) dt
    (fun l => map (fun i => SValue (Rabs (v i)) (nth i (if Rle_dec 0 (v i) then lc_input_plus l else lc_input_minus l) 0%nat) (t0 i)) (seq 0 (length cs)))
    (fun l s =>
      (0 <= dot cs v -> pemits s (lc_output_plus l) (DataEncoder tmin tcod) (dot cs v) (dt / tcod) /\ pspike_log s (lc_output_minus l) = []) /\
      (/ 100 + dt <= - (dot cs v * tcod) \/ / 100 <= dt <= - (dot cs v * tcod) ->
         pemits s (lc_output_minus l) (DataEncoder tmin tcod) (- dot cs v) (dt / tcod) /\ pspike_log s (lc_output_plus l) = [])).
Proof.
  intros tmin tcod dt cs v t0 nm H1 H2 H3 H4 H5 H6 H7 H8 H9. destruct (pred_linear_combinator tmin tcod dt cs v H1 H2 H3 H4 H5 H6 H7 H8 t0 nm H9) as [K HK].
  exists K. intros fuel Hf. destruct (HK fuel Hf) as (l & s & E & A & B & _). exists l, s. split; [exact E|]. split; assumption.
Qed.
Print Assumptions C56_linear_combinator.
(** the same with every operand given as two spikes at its own time *)
Theorem C56_linear_combinator_spikes : forall (tmin tcod dt : R) (cs : list R) (v t : nat -> R) nm,
  dt_ok dt -> 0 < tcod -> 1 < tmin -> dt < tmin -> tmin + tcod + 2 * dt <= 500 -> (1 <= length cs)%nat ->
  dot_pos cs v <= 1 -> dot_neg cs v <= 1 -> (forall i, (i < length cs)%nat -> 0 <= t i) ->
  pruns (LinearCombinatorNetwork (DataEncoder tmin tcod) (length cs) cs nm) lc_mod (DataEncoder tmin tcod) dt
    (fun l => flat_map (fun i => let n := nth i (if Rle_dec 0 (v i) then lc_input_plus l else lc_input_minus l) 0%nat in
                                 [SSpike n (t i); SSpike n (t i + (tmin + Rabs (v i) * tcod))]) (seq 0 (length cs)))
    (fun l s =>
      (0 <= dot cs v -> pemits s (lc_output_plus l) (DataEncoder tmin tcod) (dot cs v) (dt / tcod) /\ pspike_log s (lc_output_minus l) = []) /\
      (/ 100 + dt <= - (dot cs v * tcod) \/ / 100 <= dt <= - (dot cs v * tcod) ->
         pemits s (lc_output_minus l) (DataEncoder tmin tcod) (- dot cs v) (dt / tcod) /\ pspike_log s (lc_output_plus l) = [])).
Proof.
  intros tmin tcod dt cs v t nm H1 H2 H3 H4 H5 H6 H7 H8 H9. destruct (pred_linear_combinator_spikes tmin tcod dt cs v H1 H2 H3 H4 H5 H6 H7 H8 t nm H9) as [K HK].
  exists K. intros fuel Hf. destruct (HK fuel Hf) as (l & s & E & A & B & _). exists l, s. split; [exact E|]. split; assumption.
Qed.
Print Assumptions C56_linear_combinator_spikes.
Theorem C56_adder : forall (tmin tcod dt x y t1 t2 : R) nm, dt_ok dt -> 0 < tcod -> 1 < tmin -> dt < tmin -> tmin + tcod + 2 * dt <= 500 ->
  Rabs x <= 1 -> Rabs y <= 1 -> Rabs (x + y) <= 1 ->
  pruns (AdderNetwork (DataEncoder tmin tcod) nm) (fun a => lc_mod (ad_lin a)) (DataEncoder tmin tcod) dt
    (fun a => [SValue (Rabs x) (if Rle_dec 0 x then ad_input1_plus a else ad_input1_minus a) t1;
               SValue (Rabs y) (if Rle_dec 0 y then ad_input2_plus a else ad_input2_minus a) t2])
    (fun a s =>
      (0 <= x + y -> pemits s (lc_output_plus (ad_lin a)) (DataEncoder tmin tcod) (x + y) (dt / tcod) /\ pspike_log s (lc_output_minus (ad_lin a)) = []) /\
      (/ 100 + dt <= - ((x + y) * tcod) \/ / 100 <= dt <= - ((x + y) * tcod) ->
         pemits s (lc_output_minus (ad_lin a)) (DataEncoder tmin tcod) (- (x + y)) (dt / tcod) /\ pspike_log s (lc_output_plus (ad_lin a)) = [])).
Proof.
  intros tmin tcod dt x y t1 t2 nm H1 H2 H3 H4 H5 H6 H7 H8. destruct (pred_adder tmin tcod dt x y t1 t2 nm H1 H2 H3 H4 H5 H6 H7 H8) as [K HK].
  exists K. intros fuel Hf. destruct (HK fuel Hf) as (l & s & E & A & B & _). exists l, s. split; [exact E|]. split; assumption.
Qed.
Print Assumptions C56_adder.
(** negative sums nearer to 0 than 1/100 ms are lost: neither output spikes *)
Theorem C56_small_negative_refuted : forall (tmin tcod dt : R) (cs : list R) (v t0 : nat -> R) nm,
  dt_ok dt -> 0 < tcod -> 1 < tmin -> dt < tmin -> tmin + tcod + 2 * dt <= 500 -> (1 <= length cs)%nat ->
  dot_pos cs v <= 1 -> dot_neg cs v <= 1 -> (forall i, (i < length cs)%nat -> Rabs (v i) <= 1) ->
  dt <= - (dot cs v * tcod) <= / 100 - dt ->
  pruns (LinearCombinatorNetwork (DataEncoder tmin tcod) (length cs) cs nm) lc_mod (DataEncoder tmin tcod) dt
    (fun l => map (fun i => SValue (Rabs (v i)) (nth i (if Rle_dec 0 (v i) then lc_input_plus l else lc_input_minus l) 0%nat) (t0 i)) (seq 0 (length cs)))
    (fun l s => pspike_log s (lc_output_plus l) = [] /\ pspike_log s (lc_output_minus l) = []).
Proof.
  intros tmin tcod dt cs v t0 nm H1 H2 H3 H4 H5 H6 H7 H8 H9 H. destruct (pred_linear_combinator tmin tcod dt cs v H1 H2 H3 H4 H5 H6 H7 H8 t0 nm H9) as [K HK].
  exists K. intros fuel Hf. destruct (HK fuel Hf) as (l & s & E & _ & _ & C). exists l, s. split; [exact E|]. exact (C H).
Qed.
Print Assumptions C56_small_negative_refuted.

(** instances *)
Lemma dt_ok_ms : dt_ok (/ 1000). Proof. unfold dt_ok; lra. Qed.
Example C56_synchronizer_ex : pruns (SynchronizerNetwork (DataEncoder 10 100) 2 None) sy_mod (DataEncoder 10 100) (/ 1000)
  (fun m => [SSpike (nth 0 (sy_inputs m) 0%nat) 5; SSpike (nth 0 (sy_inputs m) 0%nat) (5 + (10 + 1/2 * 100)); SSpike (nth 1 (sy_inputs m) 0%nat) 40; SSpike (nth 1 (sy_inputs m) 0%nat) (40 + (10 + 1 * 100))])
  (fun m s => exists tau a b, pspike_log s (nth 0 (sy_outputs m) 0%nat) = [tau; a] /\ pspike_log s (nth 1 (sy_outputs m) 0%nat) = [tau; b] /\
     pemits s (nth 0 (sy_outputs m) 0%nat) (DataEncoder 10 100) (1/2) (/ 1000 / 100) /\ pemits s (nth 1 (sy_outputs m) 0%nat) (DataEncoder 10 100) 1 (/ 1000 / 100)).
Proof.
  destruct (C56_synchronizer 10 100 (/ 1000) 2 (fun i => nth i [1/2; 1] 0) (fun i => nth i [5; 40] 0) None dt_ok_ms) as [K HK]; try lra; [lia|intros i Hi; destruct i as [|[|]]; [..|lia]; cbn [nth]; lra|].
  exists K. intros fuel Hf. destruct (HK fuel Hf) as (m & s & E & tau & _ & H). exists m, s. split; [exact E|].
  destruct (H 0%nat ltac:(lia)) as [[a Ha] Pa]. destruct (H 1%nat ltac:(lia)) as [[b Hb] Pb]. exists tau, a, b. cbn [nth] in Pa, Pb. auto.
Qed.
Example C56_waits_ex : pruns (SynchronizerNetwork (DataEncoder 10 100) 3 None) sy_mod (DataEncoder 10 100) (/ 1000)
  (fun m => [SSpike (nth 0 (sy_inputs m) 0%nat) 5; SSpike (nth 0 (sy_inputs m) 0%nat) (5 + (10 + 1/2 * 100)); SSpike (nth 2 (sy_inputs m) 0%nat) 5; SSpike (nth 2 (sy_inputs m) 0%nat) (5 + (10 + 1/2 * 100))])
  (fun m s => forall i, (i < 3)%nat -> pspike_log s (nth i (sy_outputs m) 0%nat) = []).
Proof.
  apply (C56_synchronizer_waits 10 100 (/ 1000) 3 [0; 2]%nat (fun _ => 1/2) (fun _ => 5) None dt_ok_ms); try lra; try (cbn; lia).
  - repeat constructor; cbn; lia.
  - intros i [<-|[<-|[]]]; (split; [lia|]); lra.
Qed.
Example C56_early_ex : pruns (SynchronizerNetwork (DataEncoder 10 100) 317 None) sy_mod (DataEncoder 10 100) (/ 1000)
  (fun m => map (fun i => SValue (1/2) (nth i (sy_inputs m) 0%nat) 0) (seq 0 316))
  (fun m s => pemits s (nth 316 (sy_outputs m) 0%nat) (DataEncoder 10 100) 1 (/ 1000 / 100)).
Proof.
  destruct (C56_synchronizer_early_refuted 10 100 (/ 1000) 317 (fun _ => 1/2) (fun _ => 0) None dt_ok_ms) as [K HK]; try lra; [lia|intros; lra|].
  exists K. intros fuel Hf. destruct (HK fuel Hf) as (m & s & E & _ & H). exists m, s. split; [exact E|exact H].
Qed.
Definition c56_c : list R := [1/2; - (1/4); 1/2].
Definition c56_v (i : nat) : R := nth i [1/2; 1; - (1/5)] 0.
Lemma c56_sums : dot c56_c c56_v = - (1/10) /\ dot_pos c56_c c56_v = 1/4 /\ dot_neg c56_c c56_v = 7/20.
Proof.
  unfold dot, dot_pos, dot_neg, c56_c, c56_v. cbn [length seq]. rewrite !sumf_cons. unfold sumf, sumR. cbn [map sumR fold_right nth].
  unfold Rmax. repeat match goal with |- context [Rle_dec ?a ?b] => destruct (Rle_dec a b); try (exfalso; lra) end. split; [lra|split; lra].
Qed.
(** (1/2)(1/2) - (1/4)(1) + (1/2)(-1/5) = -1/10 *)
Example C56_linear_combinator_ex : pruns (LinearCombinatorNetwork (DataEncoder 10 100) 3 c56_c None) lc_mod (DataEncoder 10 100) (/ 1000)
  (fun l => map (fun i => SValue (Rabs (c56_v i)) (nth i (if Rle_dec 0 (c56_v i) then lc_input_plus l else lc_input_minus l) 0%nat) 0) (seq 0 3))
  (fun l s => pemits s (lc_output_minus l) (DataEncoder 10 100) (- - (1/10)) (/ 1000 / 100) /\ pspike_log s (lc_output_plus l) = []).
Proof.
  destruct c56_sums as (S1 & S2 & S3). destruct (C56_linear_combinator 10 100 (/ 1000) c56_c c56_v (fun _ => 0) None dt_ok_ms) as [K HK]; try lra; [cbn; lia|intros i Hi; destruct i as [|[|[|]]]; unfold c56_v; cbn [nth]; [apply Rabs_le; lra..|cbn in Hi; lia]|].
  exists K. intros fuel Hf. destruct (HK fuel Hf) as (l & s & E & _ & C). exists l, s. split; [exact E|]. rewrite S1 in C. apply C. lra.
Qed.
Example C56_linear_combinator_spikes_ex : pruns (LinearCombinatorNetwork (DataEncoder 10 100) 3 c56_c None) lc_mod (DataEncoder 10 100) (/ 1000)
  (fun l => flat_map (fun i => let n := nth i (if Rle_dec 0 (c56_v i) then lc_input_plus l else lc_input_minus l) 0%nat in [SSpike n (7 * INR i); SSpike n (7 * INR i + (10 + Rabs (c56_v i) * 100))]) (seq 0 3))
  (fun l s => pemits s (lc_output_minus l) (DataEncoder 10 100) (- - (1/10)) (/ 1000 / 100) /\ pspike_log s (lc_output_plus l) = []).
Proof.
  destruct c56_sums as (S1 & S2 & S3). destruct (C56_linear_combinator_spikes 10 100 (/ 1000) c56_c c56_v (fun i => 7 * INR i) None dt_ok_ms) as [K HK]; try lra; [cbn; lia|intros i _; pose proof (pos_INR i); lra|].
  exists K. intros fuel Hf. destruct (HK fuel Hf) as (l & s & E & _ & C). exists l, s. split; [exact E|]. rewrite S1 in C. apply C. lra.
Qed.
Example C56_adder_ex : pruns (AdderNetwork (DataEncoder 10 100) None) (fun a => lc_mod (ad_lin a)) (DataEncoder 10 100) (/ 1000)
  (fun a => [SValue (Rabs (3/4)) (if Rle_dec 0 (3/4) then ad_input1_plus a else ad_input1_minus a) 0; SValue (Rabs (- (1/2))) (if Rle_dec 0 (- (1/2)) then ad_input2_plus a else ad_input2_minus a) 0])
  (fun a s => pemits s (lc_output_plus (ad_lin a)) (DataEncoder 10 100) (3/4 + - (1/2)) (/ 1000 / 100) /\ pspike_log s (lc_output_minus (ad_lin a)) = []).
Proof.
  destruct (C56_adder 10 100 (/ 1000) (3/4) (- (1/2)) 0 0 None dt_ok_ms) as [K HK]; try lra; try (apply Rabs_le; lra).
  exists K. intros fuel Hf. destruct (HK fuel Hf) as (a & s & E & C & _). exists a, s. split; [exact E|]. apply C. lra.
Qed.
Definition c56_small (i : nat) : R := nth i [1/2; - (50005 / 100000)] 0.
Example C56_small_ex : pruns (LinearCombinatorNetwork (DataEncoder 10 100) 2 [1; 1] None) lc_mod (DataEncoder 10 100) (/ 1000)
  (fun l => map (fun i => SValue (Rabs (c56_small i)) (nth i (if Rle_dec 0 (c56_small i) then lc_input_plus l else lc_input_minus l) 0%nat) 0) (seq 0 2))
  (fun l s => pspike_log s (lc_output_plus l) = [] /\ pspike_log s (lc_output_minus l) = []).
Proof.
  assert (A1 : dot [1; 1] c56_small = - (5 / 100000)) by (unfold dot, c56_small; cbn [length seq]; rewrite !sumf_cons; unfold sumf, sumR; cbn [map sumR fold_right nth]; lra).
  assert (A2 : dot_pos [1; 1] c56_small = 1/2) by (unfold dot_pos, c56_small; cbn [length seq]; rewrite !sumf_cons; unfold sumf, sumR; cbn [map sumR fold_right nth]; rewrite Rmax_right, Rmax_left; lra).
  assert (A3 : dot_neg [1; 1] c56_small = 50005 / 100000) by (unfold dot_neg, c56_small; cbn [length seq]; rewrite !sumf_cons; unfold sumf, sumR; cbn [map sumR fold_right nth]; rewrite Rmax_left, Rmax_right; lra).
  apply (C56_small_negative_refuted 10 100 (/ 1000) [1; 1] c56_small (fun _ => 0) None dt_ok_ms); rewrite ?A1, ?A2, ?A3; try lra; [cbn; lia|].
  intros i Hi. destruct i as [|[|]]; unfold c56_small; cbn [nth]; [| |cbn in Hi; lia]; apply Rabs_le; lra.
Qed.
