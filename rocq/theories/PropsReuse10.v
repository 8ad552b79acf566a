(** The inner network of DivNetwork, LogAndSyncNetwork, on its own and again and again (C69).
    Reading aid (all of it specification, none of it taken from the proofs):
    - [jobs_ok X ok span from js T] (Jobs.v): js is a list of computations (argument, start time); every argument is ok, the first
      starts at [from] or later, each later one starts [span] or more after the one before it, and T leaves time for the last;
    - [pair_says enc v eps l] (RestFun.v): l is one pair of spikes whose interval decodes to v up to eps;
    - a job ((x1, x2), (d1, d2)) started at t gives x1 to input1 at t + d1 and x2 to input2 at t + d2;
    - in [ps] there is one item for each job: what it puts on output1 and what it puts on output2. *)
From Coq Require Import Arith ZArith Bool List Reals Lra Lia.
From Verif Require Import Num Elements Simulator Networks Trace SimTrace SimProps NeuronLib NetLib MemoryProof Session SegLib DivVal Jobs RestFun LogSync LogSyncRun PropsCore PropsNets PropsRest.
Import ListNotations.
Open Scope R_scope.
Open Scope list_scope.
Local Notation ms := (/ 1000).

Theorem C69_log_and_sync : forall (tmin tcod dt T : R) (js : list (((R * R) * (R * R)) * R)) nm ord,
  0 < dt <= 1 / 2 -> 0 < tcod -> 1 + dt <= tmin -> 6 * dt <= tmin -> ord_ok ord -> 0 <= T ->
  jobs_ok ((R * R) * (R * R))
    (fun x => let '((x1, x2), (d1, d2)) := x in
       (0 < x1 <= 1 /\ 4 * dt <= x1 * tcod /\ x1 * tcod + 2 * dt <= tcod) /\ (0 < x2 <= 1 /\ 4 * dt <= x2 * tcod /\ x2 * tcod + 2 * dt <= tcod) /\ 0 <= d1 /\ 0 <= d2)
    (fun x => Rmax (fst (snd x)) (snd (snd x)) + 25 + 3 * tmin + tcod + (20 + dt) * Rmax (- ln (fst (fst x))) (- ln (snd (fst x))) + 11 * dt) 0 js T ->
  exists m s ps,
    session (LogAndSyncNetwork (DataEncoder tmin tcod) nm) ls_mod (DataEncoder tmin tcod) dt
      (fun m => flat_map (fun j : ((R * R) * (R * R)) * R =>
          [SValue (fst (fst (fst j))) (ls_input1 m) (snd j + fst (snd (fst j))); SValue (snd (fst (fst j))) (ls_input2 m) (snd j + snd (snd (fst j)))]) js) ord T = Ok (m, s) /\
    spike_log s (ls_output1 m) = concat (map fst ps) /\ spike_log s (ls_output2 m) = concat (map snd ps) /\
    Forall2 (fun j p => let '((x1, x2), _) := fst j in
        pair_says (DataEncoder tmin tcod) (20 * - ln x1 / tcod) (((4 + - ln x1) * dt + 80 * dt / (x1 * tcod)) / tcod) (fst p) /\
        pair_says (DataEncoder tmin tcod) (20 * - ln x2 / tcod) (((4 + - ln x2) * dt + 80 * dt / (x2 * tcod)) / tcod) (snd p) /\
        (* synced: the first spikes coincide *)
        hd 0 (fst p) = hd 0 (snd p)) js ps.
Proof.
  intros tmin tcod dt T js nm ord H1 H2 H3 H4 HO HT HJ.
  destruct (log_and_sync_reuse tmin tcod dt T js nm ord H1 H2 H3 H4 HO HT HJ) as (m & s & ps & A & B & C & F). exists m, s, ps. repeat (apply conj); auto.
  clear -F. induction F as [|[[[x1 x2] [d1 d2]] t] p js ps Hp F IH]; constructor; auto.
Qed.
Print Assumptions C69_log_and_sync.

(** "in [0,1]" and "outputs them synced in time" (the docstring) fail at 1: with x1 exactly 1 at time 0 and x2 at time d, output1
    puts out a pair whose interval depends on d - it is d - 59 ms (up to 5 timesteps), for a logarithm that is 0 - since the
    accumulator of x1 fires without waiting for the synchronisation neuron. *)
Theorem C69_one_refuted : forall (dt d : R) nm ord, 0 < dt <= 1 / 50 -> (exists k, 1 = INR k * dt) -> 60 + 6 * dt <= d -> ord_ok ord ->
  exists m s t1 t2,
    session (LogAndSyncNetwork (DataEncoder 10 100) nm) ls_mod (DataEncoder 10 100) dt
      (fun m => [SValue 1 (ls_input1 m) 0; SValue (1 / 2) (ls_input2 m) d]) ord (d + 200) = Ok (m, s) /\
    spike_log s (ls_output1 m) = [t1; t2] /\ Rabs (t2 - t1 - (d - 59)) <= 5 * dt.
Proof.
  intros dt d nm ord H1 (k & Hk) H4 H5. assert (M : forall n, INR n = INR (n * k) * dt) by (intros n; rewrite mult_INR, Rmult_assoc, <- Hk; lra).
  pose proof (M 10%nat) as M10. pose proof (M 100%nat) as M100. replace (INR 10) with 10 in M10 by (cbn; lra). replace (INR 100) with 100 in M100 by (cbn; lra).
  apply log_and_sync_one; auto; [exists k, (10 * k)%nat; auto|exists (100 * k)%nat; auto].
Qed.
Print Assumptions C69_one_refuted.

(** (1/4, 1/2) with the second operand 30 ms later, then (1/2, 1/2), on one network *)
Example C69_ex : exists m s p1 p2 q1 q2,
  session (LogAndSyncNetwork (DataEncoder 10 100) None) ls_mod (DataEncoder 10 100) ms
    (fun m => [SValue (1/4) (ls_input1 m) (0 + 0); SValue (1/2) (ls_input2 m) (0 + 30); SValue (1/2) (ls_input1 m) (400 + 0); SValue (1/2) (ls_input2 m) (400 + 0)]) id_ord 800 = Ok (m, s) /\
  spike_log s (ls_output1 m) = p1 ++ p2 /\ spike_log s (ls_output2 m) = q1 ++ q2 /\
  pair_says (DataEncoder 10 100) (20 * - ln (1/4) / 100) (12 * ms / 100) p1 /\ pair_says (DataEncoder 10 100) (20 * - ln (1/2) / 100) (12 * ms / 100) q1 /\
  pair_says (DataEncoder 10 100) (20 * - ln (1/2) / 100) (12 * ms / 100) p2 /\ hd 0 p2 = hd 0 q2.
Proof.
  assert (LN : forall n, 0 < n -> - ln (1 / n) <= n - 1).
  { intros n Hn. unfold Rdiv. rewrite Rmult_1_l, ln_Rinv by auto. rewrite Ropp_involutive.
    destruct (Req_dec (ln n) 0) as [E0|E0].
    - assert (n = 1) by (rewrite <- (exp_ln n), E0, exp_0; auto). lra.
    - pose proof (exp_ineq1 (ln n) E0) as X. rewrite exp_ln in X by auto. lra. }
  pose proof (LN 4 ltac:(lra)) as L4. pose proof (LN 2 ltac:(lra)) as L2.
  assert (W : forall v e l, e <= 12 * ms / 100 -> pair_says (DataEncoder 10 100) v e l -> pair_says (DataEncoder 10 100) v (12 * ms / 100) l).
  { intros v e l He (t1 & t2 & y & X1 & X2 & X3 & X4). exists t1, t2, y. repeat (apply conj); auto. lra. }
  destruct (C69_log_and_sync 10 100 ms 800 [(((1/4, 1/2), (0, 30)), 0); (((1/2, 1/2), (0, 0)), 400)] None id_ord) as (m & s & ps & E & A & B & F); try lra; [apply id_ord_ok| |].
  - cbn [jobs_ok fst snd]. rewrite (Rmax_right 0 30), (Rmax_left 0 0) by lra.
    assert (M1 : Rmax (- ln (1 / 4)) (- ln (1 / 2)) <= 3) by (apply Rmax_lub; lra). assert (M2 : Rmax (- ln (1 / 2)) (- ln (1 / 2)) <= 3) by (apply Rmax_lub; lra).
    repeat (apply conj); lra.
  - inversion F as [|j p js' ps' S1 F1]; subst. inversion F1 as [|j2 p2 js2 ps2 S2 F2]; subst. inversion F2; subst.
    cbn [fst snd] in S1, S2. destruct S1 as (P1 & P2 & P3), S2 as (Q1 & Q2 & Q3).
    cbn [map concat] in A, B. rewrite app_nil_r in A, B. exists m, s, (fst p), (fst p2), (snd p), (snd p2). split; [exact E|]. split; [exact A|]. split; [exact B|].
    split; [eapply W; [|exact P1]; lra|]. split; [eapply W; [|exact P2]; lra|]. split; [eapply W; [|exact Q1]; lra|]. exact Q3.
Qed.
