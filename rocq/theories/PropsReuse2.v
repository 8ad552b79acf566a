(** A SubtractorNetwork and a SynchronizerNetwork can be used again and again (C61).
    Reading aid (all of it specification, none of it taken from the proofs):
    - [jobs_ok X ok span from js T] (Jobs.v): js is a list of computations (argument, start time); every argument is ok, the first
      starts at [from] or later, each later one starts [span] or more after the one before it, and T leaves time for the last;
    - [sub_ok tcod dt (x1, x2)] (SubReuse.v): the operands are in [0,1] and x1 - x2 is 0, positive, or at least 0.01 ms + 2 dt below 0;
    - [sub_says enc eps x1 x2 plus minus]: the output of the sign of x1 - x2 carries one pair of spikes that decodes to |x1 - x2| up to
      eps, the other output is silent;
    - [sy_stims m K (x, o) t0] (SyncReuse.v): channel i of the synchronizer gets the value x i at t0 + o i;
    - [sync_says enc eps K x p]: the K channels carry one pair of spikes each, all the pairs start at the same time, and the
      pair of channel i decodes to x i up to eps. *)
From Coq Require Import Arith ZArith Bool List Reals Lra Lia.
From Flocq Require Import Core.
From Verif Require Import Num Elements Simulator Networks Trace SimTrace SimProps NeuronLib NetLib MemoryProof Session Jobs RestFun SubReuse SyncReuse PropsCore PropsNets PropsRest FSession PropsF64Net PropsF64Net2.
From Coq Require Import Floats.
Import ListNotations.
Open Scope R_scope.
Open Scope list_scope.
Local Notation ms := (/ 1000).

Theorem C61_subtractor_reuse : forall (tmin tcod dt T : R) (js : list ((R * R) * R)) nm ord,
  0 < dt < / 50 -> 0 < tcod -> dt <= tmin -> ord_ok ord -> 0 <= T ->
  jobs_ok (R * R) (sub_ok tcod dt) (fun _ => 6 + 2 * tmin + tcod + 4 * dt) 0 js T ->
  exists m s ps,
    session (SubtractorNetwork (DataEncoder tmin tcod) nm) sb_mod (DataEncoder tmin tcod) dt
      (fun m => flat_map (fun j => [SValue (fst (fst j)) (sb_input1 m) (snd j); SValue (snd (fst j)) (sb_input2 m) (snd j)]) js) ord T = Ok (m, s) /\
    spike_log s (sb_output_plus m) = concat (map fst ps) /\ spike_log s (sb_output_minus m) = concat (map snd ps) /\
    Forall2 (fun j p => sub_says (DataEncoder tmin tcod) (2 * dt / tcod) (fst (fst j)) (snd (fst j)) (fst p) (snd p)) js ps.
Proof. exact subtractor_reuse. Qed.
Print Assumptions C61_subtractor_reuse.
(** a positive, a negative and a zero result *)
Example C61_subtractor_ex : exists m s p1 p2 q,
  session (SubtractorNetwork (DataEncoder 10 100) None) sb_mod (DataEncoder 10 100) ms
    (fun m => [SValue (3/4) (sb_input1 m) 0; SValue (1/4) (sb_input2 m) 0; SValue (1/4) (sb_input1 m) 200; SValue (1/2) (sb_input2 m) 200;
               SValue (1/2) (sb_input1 m) 400; SValue (1/2) (sb_input2 m) 400]) id_ord 600 = Ok (m, s) /\
  spike_log s (sb_output_plus m) = p1 ++ p2 /\ spike_log s (sb_output_minus m) = q /\
  pair_says (DataEncoder 10 100) (3/4 - 1/4) (2 * ms / 100) p1 /\ pair_says (DataEncoder 10 100) (1/2 - 1/2) (2 * ms / 100) p2 /\
  pair_says (DataEncoder 10 100) (1/2 - 1/4) (2 * ms / 100) q.
Proof.
  destruct (C61_subtractor_reuse 10 100 ms 600 [((3/4, 1/4), 0); ((1/4, 1/2), 200); ((1/2, 1/2), 400)] None id_ord) as (m & s & ps & E & LP & LM & F); try lra; [apply id_ord_ok| |].
  - cbn [jobs_ok fst snd]. unfold sub_ok. cbn [fst snd]. split; [repeat split; lra|]. split; [lra|]. split; [repeat split; lra|]. split; [lra|]. split; [repeat split; lra|]. split; lra.
  - inversion F as [|j p js' ps' S1 F1]; subst. inversion F1 as [|j2 p2 js2 ps2 S2 F2]; subst. inversion F2 as [|j3 p3 js3 ps3 S3 F3]; subst. inversion F3; subst.
    cbn [fst snd] in S1, S2, S3. unfold sub_says in S1, S2, S3.
    destruct (Rle_dec (1/4) (3/4)) as [_|C]; [|lra]. destruct (Rle_dec (1/2) (1/4)) as [C|_]; [lra|]. destruct (Rle_dec (1/2) (1/2)) as [_|C]; [|lra].
    destruct S1 as [S1 M1]. destruct S2 as [P2 S2]. destruct S3 as [S3 M3].
    cbn [map concat] in LP, LM. rewrite M1, M3, !app_nil_r in LM. cbn [app] in LM. rewrite P2, app_nil_r in LP. cbn [app] in LP.
    exists m, s, (fst p), (fst p3), (snd p2). split; [exact E|]. auto.
Qed.

(** sending every value again after 2*(Tmin+Tcod)+10+13dt plus the largest delay between the channels *)
Theorem C61_synchronizer_reuse : forall (tmin tcod tl dt T : R) (K : nat) (js : list (((nat -> R) * (nat -> R)) * R)) nm ord,
  0 < dt <= 1 / 2 -> 0 < tcod -> 1 + dt <= tmin -> (1 <= K <= 316)%nat -> 0 <= tl -> ord_ok ord -> 0 <= T ->
  jobs_ok _ (fun x => forall i, (i < K)%nat -> 0 <= fst x i <= 1 /\ 0 <= snd x i <= tl) (fun _ => tl + 2 * (tmin + tcod) + 10 + 13 * dt) 0 js T ->
  exists m s ps,
    session (SynchronizerNetwork (DataEncoder tmin tcod) K nm) sy_mod (DataEncoder tmin tcod) dt
      (fun m => flat_map (fun j => sy_stims m K (fst j) (snd j)) js) ord T = Ok (m, s) /\
    (forall i, (i < K)%nat -> spike_log s (nth i (sy_outputs m) 0%nat) = concat (map (fun p => p i) ps)) /\
    Forall2 (fun j p => sync_says (DataEncoder tmin tcod) (dt / tcod) K (fst (fst j)) p) js ps.
Proof. exact synchronizer_reuse. Qed.
Print Assumptions C61_synchronizer_reuse.
(** three channels; the second time in the opposite order *)
Example C61_synchronizer_ex : exists m s ps,
  session (SynchronizerNetwork (DataEncoder 10 100) 3 None) sy_mod (DataEncoder 10 100) ms
    (fun m => flat_map (fun j => sy_stims m 3 (fst j) (snd j))
       [((fun i => INR i / 4, fun i => INR i * 50), 0); ((fun i => 1 - INR i / 4, fun i => 100 - INR i * 50), 400)]) id_ord 800 = Ok (m, s) /\
  (forall i, (i < 3)%nat -> spike_log s (nth i (sy_outputs m) 0%nat) = concat (map (fun p => p i) ps)) /\ length ps = 2%nat.
Proof.
  assert (HI : forall i, (i < 3)%nat -> 0 <= INR i <= 2).
  { intros i Hi. split; [apply pos_INR|]. replace 2 with (INR 2) by (cbn; lra). apply le_INR. lia. }
  destruct (C61_synchronizer_reuse 10 100 100 ms 800 3 [((fun i => INR i / 4, fun i => INR i * 50), 0); ((fun i => 1 - INR i / 4, fun i => 100 - INR i * 50), 400)] None id_ord)
    as (m & s & ps & E & L & F); try lra; [lia|apply id_ord_ok| |].
  - cbn [jobs_ok fst snd]. split; [intros i Hi; specialize (HI i Hi); split; lra|]. split; [lra|]. split; [intros i Hi; specialize (HI i Hi); split; lra|]. split; lra.
  - exists m, s, ps. split; [exact E|]. split; [exact L|]. apply F2_len in F. auto.
Qed.

(** The restriction on small negative results is needed, and not only for the result itself: after 0.25 - 0.255 (which the
    network loses, C25_subtractor_small_negative_lost) the next negative result, 0.25 - 0.75 fed 8 ms later, appears at BOTH outputs
    (binary64, encoder (1, 1), dt = 0.005; the first computation has long been over: its last output would come before 6 ms) *)
Definition after_lost (m : sub_net) : list stim64 :=
  [FValue (nlit 1 4) (sb_input1 m) nzero; FValue (nlit 255 1000) (sb_input2 m) nzero;
   FValue (nlit 1 4) (sb_input1 m) (nofZ 8); FValue (nlit 3 4) (sb_input2 m) (nofZ 8)].
Theorem C61_reuse_after_lost_refuted : exists m s t1 t2 u1 u2,
  session64 (SubtractorNetwork enc11 None) sb_mod enc11 (nlit 1 200) after_lost fid (nofZ 15) = Ok (m, s) /\
  spike_log s (sb_output_plus m) = [t1; t2] /\ spike_log s (sb_output_minus m) = [u1; u2] /\
  PrimFloat.ltb (nofZ 8) t1 = true /\ PrimFloat.ltb (nofZ 8) u1 = true.
Proof.
  assert (X : match session64 (SubtractorNetwork enc11 None) sb_mod enc11 (nlit 1 200) after_lost fid (nofZ 15) with
              | Ok (m, s) => match spike_log s (sb_output_plus m), spike_log s (sb_output_minus m) with [t1; t2], [u1; u2] => PrimFloat.ltb (nofZ 8) t1 && PrimFloat.ltb (nofZ 8) u1 | _, _ => false end
              | Err _ => false end = true) by (vm_compute; reflexivity).
  destruct (session64 (SubtractorNetwork enc11 None) sb_mod enc11 (nlit 1 200) after_lost fid (nofZ 15)) as [[m s]|]; [|discriminate].
  destruct (spike_log s (sb_output_plus m)) as [|t1 [|t2 [|]]] eqn:E1; try discriminate.
  destruct (spike_log s (sb_output_minus m)) as [|u1 [|u2 [|]]] eqn:E2; try discriminate.
  apply andb_true_iff in X. exists m, s, t1, t2, u1, u2. split; [reflexivity|]. split; [exact E1|]. split; [exact E2|]. exact X.
Qed.
Print Assumptions C61_reuse_after_lost_refuted.
