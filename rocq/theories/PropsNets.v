(** Properties of the provided networks: C20-C31.
    [session bl md enc dt stims ord T] (Session.v) is the script
      net = bl(); sim = Simulator(net, enc, dt); <stims>; sim.simulate(T)
    run in a fresh interpreter, [spike_log s n] the recorded spike times of a neuron, and
    [emits s n enc v eps] says that this log is exactly one pair of spikes whose interval
    decodes with [enc] to a value within eps of v.  [ord] is the unspecified iteration order of sets. *)
From Coq Require Import Arith ZArith Bool String List Reals Lra Lia Permutation.
From Verif Require Import Num Heapq Elements Simulator Networks Trace SimTrace Session SimpleNets InvMem FuncNets LnLib ExpLog SubNet SMem SyncNet.
Import ListNotations.
Open Scope R_scope.
Open Scope list_scope.

Definition id_ord : nat -> list nat -> list nat := fun _ l => l.
Example id_ord_ok : ord_ok id_ord. Proof. intros i l. reflexivity. Qed.
Local Notation ms := (/ 1000).
Lemma INR_Z z : (0 <= z)%Z -> INR (Z.to_nat z) = IZR z.
Proof. intros H. rewrite INR_IZR_INZ, Z2Nat.id; auto. Qed.

(** ** C20 *)
Theorem C20_constant : forall (tmin tcod v dt t0 T : R) nm ord,
  0 < dt -> 0 < tcod -> 0 <= t0 -> dt <= tmin + v * tcod -> ord_ok ord ->
  t0 + 1 + (tmin + v * tcod) + dt <= T ->
  exists k s,
    session (ConstantNetwork (DataEncoder tmin tcod) v nm) k_mod (DataEncoder tmin tcod) dt (fun k => [SSpike (k_recall k) t0]) ord T = Ok (k, s) /\
    emits s (k_output k) (DataEncoder tmin tcod) v (dt / tcod) /\
    (forall m, tmin + v * tcod = INR m * dt -> emits s (k_output k) (DataEncoder tmin tcod) v 0).
Proof. exact constant_run. Qed.
Print Assumptions C20_constant.
Theorem C20_signed_constant : forall (tmin tcod v dt t0 T : R) nm ord,
  0 < dt -> 0 < tcod -> 0 <= t0 -> dt <= tmin + Rabs v * tcod -> ord_ok ord ->
  t0 + 1 + (tmin + Rabs v * tcod) + dt <= T ->
  exists k s,
    session (SignedConstantNetwork (DataEncoder tmin tcod) v nm) sk_mod (DataEncoder tmin tcod) dt (fun k => [SSpike (sk_recall k) t0]) ord T = Ok (k, s) /\
    let out := if Rle_dec 0 v then sk_output_plus k else sk_output_minus k in
    let other := if Rle_dec 0 v then sk_output_minus k else sk_output_plus k in
    emits s out (DataEncoder tmin tcod) (Rabs v) (dt / tcod) /\
    (forall m, tmin + Rabs v * tcod = INR m * dt -> emits s out (DataEncoder tmin tcod) (Rabs v) 0) /\
    spike_log s other = [].
Proof. exact signed_constant_run. Qed.
Print Assumptions C20_signed_constant.
(** default encoder, dt = 1/1000, value -3/4 *)
Example C20_ex : exists k s,
  session (SignedConstantNetwork (DataEncoder 10 100) (-3/4) None) sk_mod (DataEncoder 10 100) ms (fun k => [SSpike (sk_recall k) 5]) id_ord 200 = Ok (k, s) /\
  emits s (sk_output_minus k) (DataEncoder 10 100) (3/4) 0 /\ spike_log s (sk_output_plus k) = [].
Proof.
  assert (EA : Rabs (-3/4) = 3/4) by (rewrite Rabs_left; lra).
  destruct (C20_signed_constant 10 100 (-3/4) ms 5 200 None id_ord) as (k & s & E & _ & G & S); rewrite ?EA; try lra; [apply id_ord_ok|].
  exists k, s. split; auto. destruct (Rle_dec 0 (-3/4)); [lra|]. rewrite EA in G. split; auto. apply (G (Z.to_nat 85000)).
  rewrite INR_Z by lia. lra.
Qed.

(** ** C21 *)
(** any spike train whose arrivals fall in distinct timesteps is reproduced, spike by spike, on the other output *)
Theorem C21_flip_train : forall (tmin tcod dt T : R) nm ord (plus : bool) (ts : list R),
  0 < dt -> tcod <> 0 -> tmin + tcod <> 0 -> ord_ok ord -> spaced dt ts -> 0 <= T -> (forall t, In t ts -> 0 <= t /\ t + 1 + dt <= T) ->
  exists f s,
    session (SignFlipperNetwork (DataEncoder tmin tcod) nm) sf_mod (DataEncoder tmin tcod) dt
      (fun f => map (SSpike (if plus then sf_inp_plus f else sf_inp_minus f)) ts) ord T = Ok (f, s) /\
    spike_log s (if plus then sf_outp_minus f else sf_outp_plus f) = map (fun t => INR (step_at dt (t + 1)) * dt) ts /\
    spike_log s (if plus then sf_outp_plus f else sf_outp_minus f) = [].
Proof. exact flip_run. Qed.
Print Assumptions C21_flip_train.
Theorem C21_flip_value : forall (tmin tcod x dt t0 T : R) nm ord (plus : bool),
  0 < dt -> 0 < tcod -> dt <= tmin -> 0 <= x <= 1 -> 0 <= t0 -> ord_ok ord -> t0 + 1 + (tmin + tcod) + dt <= T ->
  exists f s,
    session (SignFlipperNetwork (DataEncoder tmin tcod) nm) sf_mod (DataEncoder tmin tcod) dt
      (fun f => [SValue x (if plus then sf_inp_plus f else sf_inp_minus f) t0]) ord T = Ok (f, s) /\
    emits s (if plus then sf_outp_minus f else sf_outp_plus f) (DataEncoder tmin tcod) x (dt / tcod) /\
    (forall m, tmin + x * tcod = INR m * dt -> emits s (if plus then sf_outp_minus f else sf_outp_plus f) (DataEncoder tmin tcod) x 0) /\
    spike_log s (if plus then sf_outp_plus f else sf_outp_minus f) = [].
Proof. exact flip_value_run. Qed.
Print Assumptions C21_flip_value.
Example C21_ex : exists f s,
  session (SignFlipperNetwork (DataEncoder 10 100) None) sf_mod (DataEncoder 10 100) ms (fun f => [SValue (1/3) (sf_inp_plus f) 5]) id_ord 200 = Ok (f, s) /\
  emits s (sf_outp_minus f) (DataEncoder 10 100) (1/3) (1/100000) /\ spike_log s (sf_outp_plus f) = [].
Proof.
  destruct (C21_flip_value 10 100 (1/3) ms 5 200 None id_ord true) as (f & s & E & G & _ & S); try lra; [apply id_ord_ok|].
  exists f, s. split; [exact E|]. split; auto. replace (1 / 100000) with (ms / 100) by lra. auto.
Qed.

(** ** C22 *)
Theorem C22_memory : forall (tmin tcod x dt t0 tr T : R) nm ord,
  0 < dt <= 1 / 2 -> 0 < tcod -> 1 + dt <= tmin -> 0 <= x <= 1 -> 0 <= t0 -> ord_ok ord ->
  t0 + 2 + (tmin + tcod) + 3 * dt <= tr -> tr + (tmin + tcod) + 4 + 4 * dt <= T ->
  exists m s,
    session (MemoryNetwork (DataEncoder tmin tcod) nm) mm_mod (DataEncoder tmin tcod) dt
      (fun m => [SValue x (mm_input m) t0; SSpike (mm_recall m) tr]) ord T = Ok (m, s) /\
    emits s (mm_output m) (DataEncoder tmin tcod) x (3 * dt / tcod) /\
    (forall p, 1 = INR p * dt -> emits s (mm_output m) (DataEncoder tmin tcod) x (dt / tcod)) /\
    (forall p q, 1 = INR p * dt -> tmin + x * tcod = INR q * dt -> emits s (mm_output m) (DataEncoder tmin tcod) x 0) /\
    (exists t, spike_log s (mm_ready m) = [t] /\ t < tr + 1).
Proof. exact memory_run. Qed.
Print Assumptions C22_memory.
Example C22_ex : exists m s,
  session (MemoryNetwork (DataEncoder 10 100) None) mm_mod (DataEncoder 10 100) ms
    (fun m => [SValue (1/4) (mm_input m) 3; SSpike (mm_recall m) 150]) id_ord 300 = Ok (m, s) /\
  emits s (mm_output m) (DataEncoder 10 100) (1/4) 0.
Proof.
  destruct (C22_memory 10 100 (1/4) ms 3 150 300 None id_ord) as (m & s & E & _ & _ & G & _); try lra; [apply id_ord_ok|].
  exists m, s. split; auto. apply (G (Z.to_nat 1000) (Z.to_nat 35000)); rewrite INR_Z by lia; lra.
Qed.

(** ** C23 *)
Theorem C23_inverting_memory : forall (tmin tcod x dt t0 tr T : R) nm ord,
  0 < dt <= 1 / 4 -> 0 < tcod -> 1 + dt <= tmin -> 0 <= x <= 1 -> 0 <= t0 -> ord_ok ord ->
  t0 + 1 + (tmin + tcod) + 2 * dt <= tr -> tr + (tmin + tcod) + 4 + 4 * dt <= T ->
  exists m s,
    session (InvertingMemoryNetwork (DataEncoder tmin tcod) nm) im_mod (DataEncoder tmin tcod) dt
      (fun m => [SValue x (im_input m) t0; SSpike (im_recall m) tr]) ord T = Ok (m, s) /\
    emits s (im_output m) (DataEncoder tmin tcod) (1 - x) ((3 * dt + / 100) / tcod).
Proof. exact inverting_memory_run. Qed.
Print Assumptions C23_inverting_memory.
Example C23_ex : exists m s,
  session (InvertingMemoryNetwork (DataEncoder 10 100) None) im_mod (DataEncoder 10 100) ms
    (fun m => [SValue (1/4) (im_input m) 3; SSpike (im_recall m) 150]) id_ord 300 = Ok (m, s) /\
  emits s (im_output m) (DataEncoder 10 100) (1 - 1/4) ((3 * ms + / 100) / 100).
Proof. apply (C23_inverting_memory 10 100 (1/4) ms 3 150 300 None id_ord); try lra; apply id_ord_ok. Qed.

(** ** C27.  [aligned dt tmin] (FuncNets.v): 1 ms and tmin are whole numbers of timesteps. *)
Example aligned_ms : aligned ms 10.
Proof. exists (Z.to_nat 1000), (Z.to_nat 10000). rewrite !INR_Z by lia. lra. Qed.
Theorem C27_scalar_multiplier : forall (tmin tcod f x dt t0 T : R) nm ord,
  0 < dt <= 1 / 2 -> 0 < tcod -> 0 < f -> 1 + dt <= tmin -> (3 + 3 * f) * dt <= tmin -> 0 <= x <= 1 -> f * x <= 1 -> 0 <= t0 -> ord_ok ord ->
  aligned dt tmin \/ 3 * dt <= x * tcod ->
  t0 + 5 + 3 * tmin + (tmin + tcod) / f + tcod + 5 * dt <= T ->
  exists m s,
    session (ScalarMultiplierNetwork f (DataEncoder tmin tcod) nm) sc_mod (DataEncoder tmin tcod) dt
      (fun m => [SValue x (sc_input m) t0]) ord T = Ok (m, s) /\
    emits s (sc_output m) (DataEncoder tmin tcod) (f * x) ((2 + 3 * f) * dt / tcod).
Proof. exact scalar_mul_run. Qed.
Print Assumptions C27_scalar_multiplier.
Example C27_ex : exists m s,
  session (ScalarMultiplierNetwork 3 (DataEncoder 10 100) None) sc_mod (DataEncoder 10 100) ms (fun m => [SValue (1/4) (sc_input m) 3]) id_ord 300 = Ok (m, s) /\
  emits s (sc_output m) (DataEncoder 10 100) (3 * (1/4)) ((2 + 3 * 3) * ms / 100).
Proof. apply (C27_scalar_multiplier 10 100 3 (1/4) ms 3 300 None id_ord); try lra; apply id_ord_ok. Qed.

(** ** C29 *)
Theorem C29_exponential : forall (tmin tcod x dt t0 T : R) nm ord,
  0 < dt <= 1 / 2 -> 0 < tcod -> 1 + dt <= tmin -> 4 * dt <= tmin -> 0 <= x <= 1 -> 0 <= t0 -> ord_ok ord ->
  aligned dt tmin \/ 2 * dt <= x * tcod ->
  t0 + 5 + 2 * (tmin + tcod) + 10 * dt <= T ->
  exists m s,
    session (ExponentialNetwork (DataEncoder tmin tcod) nm) ex_mod (DataEncoder tmin tcod) dt
      (fun m => [SValue x (ex_input m) t0]) ord T = Ok (m, s) /\
    (exists n, Rabs (INR n * dt - x * tcod) <= 2 * dt /\ emits s (ex_output m) (DataEncoder tmin tcod) ((1 - dt / 20) ^ n) (3 * dt / tcod)) /\
    (forall k, aligned dt tmin -> x * tcod = INR k * dt -> emits s (ex_output m) (DataEncoder tmin tcod) ((1 - dt / 20) ^ k) (dt / tcod)) /\
    emits s (ex_output m) (DataEncoder tmin tcod) (exp (- (x * tcod / 20))) (3 * dt / tcod + 3 * dt / 20).
Proof. exact exponential_run. Qed.
Print Assumptions C29_exponential.
Example C29_ex : exists m s,
  session (ExponentialNetwork (DataEncoder 10 100) None) ex_mod (DataEncoder 10 100) ms (fun m => [SValue (1/4) (ex_input m) 3]) id_ord 300 = Ok (m, s) /\
  emits s (ex_output m) (DataEncoder 10 100) (exp (- ((1/4) * 100 / 20))) (3 * ms / 100 + 3 * ms / 20) /\
  emits s (ex_output m) (DataEncoder 10 100) ((1 - ms / 20) ^ Z.to_nat 25000) (ms / 100).
Proof.
  destruct (C29_exponential 10 100 (1/4) ms 3 300 None id_ord) as (m & s & E & _ & G & A); try lra; [apply id_ord_ok|].
  exists m, s. split; [exact E|]. split; [exact A|]. apply G; [apply aligned_ms|]. rewrite INR_Z by lia. lra.
Qed.

(** ** C30 *)
Theorem C30_log : forall (tmin tcod x dt t0 T : R) nm ord,
  0 < dt <= 1 / 2 -> 0 < tcod -> 1 + dt <= tmin -> 6 * dt <= tmin -> 0 < x <= 1 -> 4 * dt <= x * tcod -> 0 <= t0 -> ord_ok ord ->
  t0 + 25 + 2 * tmin + tcod + (20 + dt) * - ln x + 10 * dt <= T ->
  exists m s,
    session (LogNetwork (DataEncoder tmin tcod) nm) lg_mod (DataEncoder tmin tcod) dt
      (fun m => [SValue x (lg_input m) t0]) ord T = Ok (m, s) /\
    emits s (lg_output m) (DataEncoder tmin tcod) (20 * - ln x / tcod) (((4 + - ln x) * dt + 80 * dt / (x * tcod)) / tcod).
Proof. exact log_run. Qed.
Print Assumptions C30_log.
Theorem C30_log_of_zero : forall (tmin tcod dt t0 T : R) nm ord,
  0 < dt <= 1 / 2 -> 0 < tcod -> 1 + dt <= tmin -> aligned dt tmin -> 0 <= t0 -> ord_ok ord -> t0 + 3 + tmin + 3 * dt <= T ->
  exists m s t,
    session (LogNetwork (DataEncoder tmin tcod) nm) lg_mod (DataEncoder tmin tcod) dt
      (fun m => [SValue 0 (lg_input m) t0]) ord T = Ok (m, s) /\ spike_log s (lg_output m) = [t].
Proof. exact log_zero_run. Qed.
Print Assumptions C30_log_of_zero.
Example C30_ex : exists m s,
  session (LogNetwork (DataEncoder 10 100) None) lg_mod (DataEncoder 10 100) ms (fun m => [SValue (1/2) (lg_input m) 3]) id_ord 300 = Ok (m, s) /\
  emits s (lg_output m) (DataEncoder 10 100) (20 * - ln (1/2) / 100) (((4 + - ln (1/2)) * ms + 80 * ms / ((1/2) * 100)) / 100).
Proof.
  assert (- ln (1/2) <= 1). { replace (1/2) with (/2) by lra. rewrite ln_Rinv by lra. pose proof (ln_lt_2). pose proof (ln_le_sub1 2 ltac:(lra)). lra. }
  apply (C30_log 10 100 (1/2) ms 3 300 None id_ord); try lra; apply id_ord_ok.
Qed.
Example C30_zero_ex : exists m s t,
  session (LogNetwork (DataEncoder 10 100) None) lg_mod (DataEncoder 10 100) ms (fun m => [SValue 0 (lg_input m) 3]) id_ord 300 = Ok (m, s) /\ spike_log s (lg_output m) = [t].
Proof. apply (C30_log_of_zero 10 100 ms 3 300 None id_ord); try lra; [apply aligned_ms|apply id_ord_ok]. Qed.

(** ** C25 *)
Theorem C25_subtractor : forall (tmin tcod x1 x2 dt t0 T : R) nm ord,
  0 < dt < / 50 -> 0 < tcod -> dt <= tmin -> 0 <= x1 <= 1 -> 0 <= x2 <= 1 -> 0 <= t0 -> ord_ok ord ->
  x2 <= x1 \/ / 100 + 2 * dt <= (x2 - x1) * tcod ->
  t0 + 5 + 2 * tmin + tcod + 2 * dt <= T ->
  exists m s,
    session (SubtractorNetwork (DataEncoder tmin tcod) nm) sb_mod (DataEncoder tmin tcod) dt
      (fun m => [SValue x1 (sb_input1 m) t0; SValue x2 (sb_input2 m) t0]) ord T = Ok (m, s) /\
    let out := if Rle_dec x2 x1 then sb_output_plus m else sb_output_minus m in
    let other := if Rle_dec x2 x1 then sb_output_minus m else sb_output_plus m in
    emits s out (DataEncoder tmin tcod) (Rabs (x1 - x2)) (2 * dt / tcod) /\
    (forall q k, tmin = INR q * dt -> Rabs (x1 - x2) * tcod = INR k * dt -> emits s out (DataEncoder tmin tcod) (Rabs (x1 - x2)) 0) /\
    spike_log s other = [].
Proof. exact subtractor_run. Qed.
Print Assumptions C25_subtractor.
(** the excluded inputs really fail: when x2 exceeds x1 by less than about Tneu/Tcod no output spikes at all *)
Theorem C25_subtractor_small_negative_lost : forall (tmin tcod x1 x2 dt t0 T : R) nm ord,
  0 < dt -> 0 < tcod -> dt <= tmin -> 0 <= x1 <= 1 -> 0 <= x2 <= 1 -> 0 <= t0 -> ord_ok ord ->
  dt <= (x2 - x1) * tcod <= / 100 - 2 * dt ->
  t0 + 5 + 2 * tmin + tcod + 2 * dt <= T ->
  exists m s,
    session (SubtractorNetwork (DataEncoder tmin tcod) nm) sb_mod (DataEncoder tmin tcod) dt
      (fun m => [SValue x1 (sb_input1 m) t0; SValue x2 (sb_input2 m) t0]) ord T = Ok (m, s) /\
    spike_log s (sb_output_plus m) = [] /\ spike_log s (sb_output_minus m) = [].
Proof. exact subtractor_lost. Qed.
Print Assumptions C25_subtractor_small_negative_lost.
(** and with dt >= 2*Tneu equal operands make both outputs spike *)
Theorem C25_subtractor_coarse_both : forall (tmin tcod x dt t0 T : R) nm ord,
  / 50 <= dt <= 1 / 2 -> 0 < tcod -> dt <= tmin -> 0 <= x <= 1 -> 0 <= t0 -> ord_ok ord ->
  t0 + 5 + 2 * tmin + tcod + 2 * dt <= T ->
  exists m s,
    session (SubtractorNetwork (DataEncoder tmin tcod) nm) sb_mod (DataEncoder tmin tcod) dt
      (fun m => [SValue x (sb_input1 m) t0; SValue x (sb_input2 m) t0]) ord T = Ok (m, s) /\
    emits s (sb_output_plus m) (DataEncoder tmin tcod) 0 (dt / tcod) /\ emits s (sb_output_minus m) (DataEncoder tmin tcod) 0 (dt / tcod).
Proof. exact subtractor_both. Qed.
Print Assumptions C25_subtractor_coarse_both.
Example C25_ex : exists m s,
  session (SubtractorNetwork (DataEncoder 10 100) None) sb_mod (DataEncoder 10 100) ms
    (fun m => [SValue (1/4) (sb_input1 m) 3; SValue (3/4) (sb_input2 m) 3]) id_ord 300 = Ok (m, s) /\
  emits s (sb_output_minus m) (DataEncoder 10 100) (1/2) 0 /\ spike_log s (sb_output_plus m) = [].
Proof.
  destruct (C25_subtractor 10 100 (1/4) (3/4) ms 3 300 None id_ord) as (m & s & E & _ & B & C); try lra; [apply id_ord_ok|].
  exists m, s. split; [exact E|]. destruct (Rle_dec (3/4) (1/4)); [lra|]. split; auto.
  assert (EA : Rabs (1/4 - 3/4) = 1/2) by (rewrite Rabs_left; lra). rewrite EA in B.
  apply (B (Z.to_nat 10000) (Z.to_nat 50000)); rewrite INR_Z by lia; lra.
Qed.
Example C25_lost_ex : exists m s,
  session (SubtractorNetwork (DataEncoder 10 100) None) sb_mod (DataEncoder 10 100) ms
    (fun m => [SValue (1/2) (sb_input1 m) 3; SValue (1/2 + 5 / 100000) (sb_input2 m) 3]) id_ord 300 = Ok (m, s) /\
  spike_log s (sb_output_plus m) = [] /\ spike_log s (sb_output_minus m) = [].
Proof. apply (C25_subtractor_small_negative_lost 10 100 (1/2) (1/2 + 5/100000) ms 3 300 None id_ord); try lra; apply id_ord_ok. Qed.

(** ** C24 *)
Theorem C24_signed_memory : forall (tmin tcod x dt t0 tr T : R) nm ord (pos : bool),
  0 < dt <= 1 / 2 -> 0 < tcod -> 1 + dt <= tmin -> 0 <= x <= 1 -> 0 <= t0 -> ord_ok ord ->
  t0 + 2 + (tmin + tcod) + 4 * dt <= tr -> tr + (tmin + tcod) + 4 + 4 * dt <= T ->
  exists m s,
    session (SignedMemoryNetwork (DataEncoder tmin tcod) nm) sm_mod (DataEncoder tmin tcod) dt
      (fun m => [SValue x (if pos then sm_input_pos m else sm_input_neg m) t0; SSpike (sm_recall m) tr]) ord T = Ok (m, s) /\
    let out := if pos then sm_output_pos m else sm_output_neg m in
    let other := if pos then sm_output_neg m else sm_output_pos m in
    emits s out (DataEncoder tmin tcod) x (dt / tcod) /\
    (forall q, tmin + x * tcod = INR q * dt -> emits s out (DataEncoder tmin tcod) x 0) /\
    spike_log s other = [].
Proof. exact signed_memory_run. Qed.
Print Assumptions C24_signed_memory.
Example C24_ex : exists m s,
  session (SignedMemoryNetwork (DataEncoder 10 100) None) sm_mod (DataEncoder 10 100) ms
    (fun m => [SValue (1/4) (sm_input_neg m) 3; SSpike (sm_recall m) 150]) id_ord 300 = Ok (m, s) /\
  emits s (sm_output_neg m) (DataEncoder 10 100) (1/4) 0 /\ spike_log s (sm_output_pos m) = [].
Proof.
  destruct (C24_signed_memory 10 100 (1/4) ms 3 150 300 None id_ord false) as (m & s & E & _ & G & S); try lra; [apply id_ord_ok|].
  exists m, s. split; auto. split; auto. apply (G (Z.to_nat 35000)); rewrite INR_Z by lia; lra.
Qed.

(** ** C26 *)
(** all K inputs given: every output starts at the same instant tau, after every input has been completely received, and reproduces its own value *)
Theorem C26_synchronizer : forall (tmin tcod dt tl T : R) (K : nat) (x t : nat -> R) nm ord,
  0 < dt <= 1 / 2 -> 0 < tcod -> 1 + dt <= tmin -> (1 <= K <= 316)%nat ->
  (forall i, (i < K)%nat -> 0 <= x i <= 1 /\ 0 <= t i <= tl) -> ord_ok ord ->
  tl + 2 * (tmin + tcod) + 10 + 12 * dt <= T ->
  exists m s,
    session (SynchronizerNetwork (DataEncoder tmin tcod) K nm) sy_mod (DataEncoder tmin tcod) dt
      (fun m => map (fun i => SValue (x i) (nth i (sy_inputs m) 0%nat) (t i)) (seq 0 K)) ord T = Ok (m, s) /\
    exists tau, (forall i, (i < K)%nat -> t i + (tmin + x i * tcod) < tau) /\
      forall i, (i < K)%nat ->
        (exists t2, spike_log s (nth i (sy_outputs m) 0%nat) = [tau; t2]) /\
        emits s (nth i (sy_outputs m) 0%nat) (DataEncoder tmin tcod) (x i) (dt / tcod) /\
        (forall q, tmin + x i * tcod = INR q * dt -> emits s (nth i (sy_outputs m) 0%nat) (DataEncoder tmin tcod) (x i) 0).
Proof. exact synchronizer_run. Qed.
Print Assumptions C26_synchronizer.
(** while at least one of the K <= 316 inputs is missing no output ever spikes *)
Theorem C26_synchronizer_waits : forall (tmin tcod dt tl T : R) (K : nat) (given : list nat) (x t : nat -> R) nm ord,
  0 < dt <= 1 / 2 -> 0 < tcod -> 1 + dt <= tmin -> (K <= 316)%nat ->
  NoDup given -> given <> [] -> (length given < K)%nat ->
  (forall i, In i given -> (i < K)%nat /\ 0 <= x i <= 1 /\ 0 <= t i <= tl) -> ord_ok ord ->
  tl + 2 * (tmin + tcod) + 10 + 12 * dt <= T ->
  exists m s,
    session (SynchronizerNetwork (DataEncoder tmin tcod) K nm) sy_mod (DataEncoder tmin tcod) dt
      (fun m => map (fun i => SValue (x i) (nth i (sy_inputs m) 0%nat) (t i)) given) ord T = Ok (m, s) /\
    forall i, (i < K)%nat -> spike_log s (nth i (sy_outputs m) 0%nat) = [].
Proof. exact synchronizer_waits. Qed.
Print Assumptions C26_synchronizer_waits.
(** for K >= 317 the claim is false: with the last input never given all the others are released *)
Theorem C26_synchronizer_early_release_refuted : forall (tmin tcod dt t0 T : R) (K : nat) (x : nat -> R) nm ord,
  0 < dt <= 1 / 2 -> 0 < tcod -> 1 + dt <= tmin -> (317 <= K)%nat ->
  (forall i, (i < K - 1)%nat -> 0 <= x i <= 1) -> 0 <= t0 -> ord_ok ord ->
  t0 + 2 * (tmin + tcod) + 10 + 12 * dt <= T ->
  exists m s,
    session (SynchronizerNetwork (DataEncoder tmin tcod) K nm) sy_mod (DataEncoder tmin tcod) dt
      (fun m => map (fun i => SValue (x i) (nth i (sy_inputs m) 0%nat) t0) (seq 0 (K - 1))) ord T = Ok (m, s) /\
    forall i, (i < K - 1)%nat -> emits s (nth i (sy_outputs m) 0%nat) (DataEncoder tmin tcod) (x i) (dt / tcod).
Proof. exact synchronizer_early. Qed.
Print Assumptions C26_synchronizer_early_release_refuted.

Definition c26_x (i : nat) : R := nth i [1/4; 1/2; 1] 0.
Definition c26_t (i : nat) : R := nth i [3; 20; 1] 0.
Example C26_ex : exists m s,
  session (SynchronizerNetwork (DataEncoder 10 100) 3 None) sy_mod (DataEncoder 10 100) ms
    (fun m => [SValue (1/4) (nth 0 (sy_inputs m) 0%nat) 3; SValue (1/2) (nth 1 (sy_inputs m) 0%nat) 20; SValue 1 (nth 2 (sy_inputs m) 0%nat) 1]) id_ord 400 = Ok (m, s) /\
  emits s (nth 0 (sy_outputs m) 0%nat) (DataEncoder 10 100) (1/4) 0.
Proof.
  destruct (C26_synchronizer 10 100 ms 20 400 3 c26_x c26_t None id_ord) as (m & s & E & tau & _ & C); try lra; try lia; [|apply id_ord_ok|].
  - intros i Hi. destruct i as [|[|[|]]]; unfold c26_x, c26_t; cbn [nth]; try lra. lia.
  - exists m, s. split; [exact E|]. destruct (C 0%nat) as (_ & _ & G); [lia|]. apply (G (Z.to_nat 35000)). rewrite INR_Z by lia. unfold c26_x; cbn [nth]. lra.
Qed.
Example C26_waits_ex : exists m s,
  session (SynchronizerNetwork (DataEncoder 10 100) 3 None) sy_mod (DataEncoder 10 100) ms
    (fun m => [SValue 1 (nth 2 (sy_inputs m) 0%nat) 1; SValue (1/4) (nth 0 (sy_inputs m) 0%nat) 3]) id_ord 400 = Ok (m, s) /\
  spike_log s (nth 0 (sy_outputs m) 0%nat) = [].
Proof.
  destruct (C26_synchronizer_waits 10 100 ms 20 400 3 [2%nat; 0%nat] c26_x c26_t None id_ord) as (m & s & E & C); try lra; try lia; try discriminate; [repeat constructor; cbn; lia|cbn; lia| |apply id_ord_ok|].
  - intros i [<-|[<-|[]]]; unfold c26_x, c26_t; cbn [nth]; split; try lia; lra.
  - exists m, s. split; [exact E|]. apply C. lia.
Qed.
