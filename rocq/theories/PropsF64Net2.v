(** C60: the subtractor, the signed constant and the sign flipper run in binary64, the
    arithmetic Python uses.  [FR x] is the real number a float stands for, [fin x] says that
    it is finite, [bpow radix2 e] is 2^e; [session64] and [emits64] (FSession.v) are the user's
    script and what it means that a neuron's log is one pair of spikes encoding a value. *)
From Coq Require Import Arith ZArith Bool List Reals Lra Lia Permutation.
From Flocq Require Import Core BinarySingleNaN PrimFloat.
From Coq Require Import Floats Uint63.
From Verif Require Import Num NumOrd Elements Simulator Networks Trace SimTrace AnySim F64 F64Thms GTrace NeuronLib NetLib Build BuildNets FNet FSession FConst FMem FIMem FSub FSign PropsF64Net.
Import ListNotations.
Open Scope list_scope.
Open Scope R_scope.

(** x1 >= x2: the plus output emits x1 - x2 and the minus output stays silent;
    x2 - x1 at least one resolution step of the zero detector (0.01 ms + dt): the minus output
    emits x2 - x1 and the plus output stays silent *)
Theorem C60_subtractor : forall (tmin tcod x1 x2 dt t0 T : float) ord nm,
  fin tmin -> fin tcod -> fin x1 -> fin x2 -> fin dt -> fin t0 -> fin T ->
  bpow radix2 (-12) <= FR dt <= / 256 -> FR dt + bpow radix2 (-30) <= FR tmin -> bpow radix2 (-20) <= FR tcod ->
  FR tmin + FR tcod <= bpow radix2 12 -> 0 <= FR x1 <= 1 -> 0 <= FR x2 <= 1 -> 0 <= FR t0 ->
  FR t0 + 2 * FR tmin + FR tcod + 7 <= FR T <= bpow radix2 15 -> ord_ok ord ->
  exists m s,
    session64 (SubtractorNetwork (DataEncoder tmin tcod) nm) sb_mod (DataEncoder tmin tcod) dt
      (fun m => [FValue x1 (sb_input1 m) t0; FValue x2 (sb_input2 m) t0]) ord T = Ok (m, s) /\
    (FR x2 <= FR x1 ->
       emits64 s (sb_output_plus m) (DataEncoder tmin tcod) (FR x1 - FR x2) ((2 * FR dt + bpow radix2 (-30)) / FR tcod) /\
       spike_log s (sb_output_minus m) = []) /\
    (/ 100 + FR dt + bpow radix2 (-30) <= (FR x2 - FR x1) * FR tcod ->
       emits64 s (sb_output_minus m) (DataEncoder tmin tcod) (FR x2 - FR x1) ((2 * FR dt + bpow radix2 (-30)) / FR tcod) /\
       spike_log s (sb_output_plus m) = []).
Proof. intros. apply sub64_run; auto. Qed.
Print Assumptions C60_subtractor.

Theorem C60_signed_constant : forall (tmin tcod v dt t0 T : float) ord nm,
  fin tmin -> fin tcod -> fin v -> fin dt -> fin t0 -> fin T ->
  bpow radix2 (-12) <= FR dt <= 1 / 2 -> 0 <= FR tmin -> bpow radix2 (-20) <= FR tcod -> FR tmin + FR tcod <= bpow radix2 14 ->
  Rabs (FR v) <= 1 -> 0 <= FR t0 -> FR dt + bpow radix2 (-30) <= FR tmin + Rabs (FR v) * FR tcod ->
  FR t0 + 1 + (FR tmin + Rabs (FR v) * FR tcod) + 2 * FR dt + bpow radix2 (-30) <= FR T <= bpow radix2 15 -> ord_ok ord ->
  exists k s,
    session64 (SignedConstantNetwork (DataEncoder tmin tcod) v nm) sk_mod (DataEncoder tmin tcod) dt
      (fun k => [FSpike (sk_recall k) t0]) ord T = Ok (k, s) /\
    (0 <= FR v -> emits64 s (sk_output_plus k) (DataEncoder tmin tcod) (FR v) ((FR dt + bpow radix2 (-30)) / FR tcod) /\ spike_log s (sk_output_minus k) = []) /\
    (FR v < 0 -> emits64 s (sk_output_minus k) (DataEncoder tmin tcod) (- FR v) ((FR dt + bpow radix2 (-30)) / FR tcod) /\ spike_log s (sk_output_plus k) = []).
Proof. intros. apply signed_constant64; auto. Qed.
Print Assumptions C60_signed_constant.

Theorem C60_sign_flipper : forall (tmin tcod x dt t0 T : float) (neg : bool) ord nm,
  fin tmin -> fin tcod -> fin x -> fin dt -> fin t0 -> fin T ->
  bpow radix2 (-12) <= FR dt <= 1 / 2 -> FR dt + bpow radix2 (-30) <= FR tmin -> bpow radix2 (-20) <= FR tcod ->
  1 <= FR tmin + FR tcod <= bpow radix2 12 -> 0 <= FR x <= 1 -> 0 <= FR t0 ->
  FR t0 + FR tmin + FR tcod + 3 <= FR T <= bpow radix2 15 -> ord_ok ord ->
  exists m s,
    session64 (SignFlipperNetwork (DataEncoder tmin tcod) nm) sf_mod (DataEncoder tmin tcod) dt
      (fun m => [FValue x (if neg then sf_inp_minus m else sf_inp_plus m) t0]) ord T = Ok (m, s) /\
    emits64 s (if neg then sf_outp_plus m else sf_outp_minus m) (DataEncoder tmin tcod) (FR x) ((FR dt + bpow radix2 (-30)) / FR tcod) /\
    spike_log s (if neg then sf_outp_minus m else sf_outp_plus m) = [].
Proof. intros. apply sign_flipper64; auto. Qed.
Print Assumptions C60_sign_flipper.

(** A subtractor that has computed 0.3 - 0.3 loses the next result: 0.25 - 0.75, fed 8 ms
    later, gives no spike at all (encoder (1, 1), dt = 0.01).  Rounding delivers the zero
    detector's own spike one step before the inhibition sent with it, so it fires twice and
    leaves the minus output at -20 mV.  In exact arithmetic the inhibition is never the later one
    (sb_facts, SubNet.v). *)
Definition enc11 : encoder float := DataEncoder (nofZ 1) (nofZ 1).
Definition two_jobs (x : float) (m : sub_net) : list stim64 :=
  [FValue x (sb_input1 m) nzero; FValue x (sb_input2 m) nzero;
   FValue (nlit 1 4) (sb_input1 m) (nofZ 8); FValue (nlit 3 4) (sb_input2 m) (nofZ 8)].
Theorem C60_reuse_after_zero_refuted : exists m s t1 t2,
  session64 (SubtractorNetwork enc11 None) sb_mod enc11 (nlit 1 100) (two_jobs (nlit 3 10)) fid (nofZ 15) = Ok (m, s) /\
  spike_log s (sb_output_plus m) = [t1; t2] /\ PrimFloat.ltb t2 (nofZ 7) = true /\ spike_log s (sb_output_minus m) = [].
Proof.
  assert (X : match session64 (SubtractorNetwork enc11 None) sb_mod enc11 (nlit 1 100) (two_jobs (nlit 3 10)) fid (nofZ 15) with
              | Ok (m, s) => match spike_log s (sb_output_plus m), spike_log s (sb_output_minus m) with [t1; t2], [] => PrimFloat.ltb t2 (nofZ 7) | _, _ => false end
              | Err _ => false end = true) by (vm_compute; reflexivity).
  destruct (session64 (SubtractorNetwork enc11 None) sb_mod enc11 (nlit 1 100) (two_jobs (nlit 3 10)) fid (nofZ 15)) as [[m s]|]; [|discriminate].
  destruct (spike_log s (sb_output_plus m)) as [|t1 [|t2 [|]]] eqn:E1; try discriminate.
  destruct (spike_log s (sb_output_minus m)) eqn:E2; try discriminate.
  exists m, s, t1, t2. split; [reflexivity|]. split; [exact E1|]. split; [exact X|exact E2].
Qed.
Print Assumptions C60_reuse_after_zero_refuted.
(** the same script with 0.4 - 0.4 first gives the second result *)
Example C60_reuse_other : exists m s t1 t2,
  session64 (SubtractorNetwork enc11 None) sb_mod enc11 (nlit 1 100) (two_jobs (nlit 4 10)) fid (nofZ 15) = Ok (m, s) /\
  spike_log s (sb_output_minus m) = [t1; t2] /\ PrimFloat.ltb (nofZ 8) t1 = true.
Proof.
  assert (X : match session64 (SubtractorNetwork enc11 None) sb_mod enc11 (nlit 1 100) (two_jobs (nlit 4 10)) fid (nofZ 15) with
              | Ok (m, s) => match spike_log s (sb_output_minus m) with [t1; t2] => PrimFloat.ltb (nofZ 8) t1 | _ => false end
              | Err _ => false end = true) by (vm_compute; reflexivity).
  destruct (session64 (SubtractorNetwork enc11 None) sb_mod enc11 (nlit 1 100) (two_jobs (nlit 4 10)) fid (nofZ 15)) as [[m s]|]; [|discriminate].
  destruct (spike_log s (sb_output_minus m)) as [|t1 [|t2 [|]]] eqn:E1; try discriminate.
  exists m, s, t1, t2. split; [reflexivity|]. split; [exact E1|exact X].
Qed.

(** ** the hypotheses can be met: the default encoder (10, 100), dt = 0.001 *)
Example C60_subtractor_ex : exists m s,
  session64 (SubtractorNetwork DefaultEncoder None) sb_mod DefaultEncoder fdt
    (fun m => [FValue (nlit 1 4) (sb_input1 m) (nofZ 3); FValue (nlit 3 4) (sb_input2 m) (nofZ 3)]) fid (nofZ 200) = Ok (m, s) /\
  emits64 s (sb_output_minus m) DefaultEncoder (FR (nlit 3 4) - FR (nlit 1 4)) (0.00003) /\ spike_log s (sb_output_plus m) = [].
Proof.
  destruct fdt_F as [D1 D2]. destruct (lit_F 1 4 ltac:(lia) ltac:(lia)) as [X1 X2]. destruct (lit_F 3 4 ltac:(lia) ltac:(lia)) as [Y1 Y2]. apply Rabs_le_inv in X2, Y2.
  assert (S : 0 < bpow radix2 (-54) <= / 1000000 /\ 0 < bpow radix2 (-30) <= / 1000000 /\ 0 < bpow radix2 (-20) <= / 1000 /\ bpow radix2 (-12) <= 0.0005 /\ bpow radix2 12 = 4096 /\ bpow radix2 15 = 32768) by (cbn; lra).
  destruct (C60_subtractor (nofZ 10) (nofZ 100) (nlit 1 4) (nlit 3 4) fdt (nofZ 3) (nofZ 200) fid None) as (m & s & E & _ & G);
    auto using fid_ok; fcst; try lra.
  exists m, s. split; [exact E|]. rewrite (proj1 (ofZ_small 100 ltac:(lia))) in G. destruct G as [G Q]; [lra|]. split; [|exact Q].
  destruct G as (t1 & t2 & y & G1 & G2 & G3 & G4 & G5). exists t1, t2, y. repeat (split; [assumption|]). lra.
Qed.
Example C60_signed_constant_ex : exists k s,
  session64 (SignedConstantNetwork DefaultEncoder (PrimFloat.opp (nlit 1 4)) None) sk_mod DefaultEncoder fdt (fun k => [FSpike (sk_recall k) (nofZ 3)]) fid (nofZ 100) = Ok (k, s) /\
  emits64 s (sk_output_minus k) DefaultEncoder (FR (nlit 1 4)) (0.00002) /\ spike_log s (sk_output_plus k) = [].
Proof.
  destruct fdt_F as [D1 D2]. destruct (lit_F 1 4 ltac:(lia) ltac:(lia)) as [X1 X2]. apply Rabs_le_inv in X2.
  assert (S : 0 < bpow radix2 (-54) <= / 1000000 /\ 0 < bpow radix2 (-30) <= / 1000000 /\ 0 < bpow radix2 (-20) <= / 1000 /\ bpow radix2 (-12) <= 0.0005 /\ bpow radix2 14 = 16384 /\ bpow radix2 15 = 32768) by (cbn; lra).
  destruct (opp_FR (nlit 1 4)) as [O1 O2]. specialize (O2 X1).
  assert (RA : Rabs (FR (PrimFloat.opp (nlit 1 4))) = FR (nlit 1 4)) by (rewrite O1, Rabs_Ropp; apply Rabs_pos_eq; lra).
  destruct (C60_signed_constant (nofZ 10) (nofZ 100) (PrimFloat.opp (nlit 1 4)) fdt (nofZ 3) (nofZ 100) fid None) as (m & s & E & _ & G);
    auto using fid_ok; rewrite ?RA; fcst; try lra.
  exists m, s. split; [exact E|]. rewrite (proj1 (ofZ_small 100 ltac:(lia))) in G. destruct G as [G Q]; [lra|]. split; [|exact Q]. rewrite O1, Ropp_involutive in G.
  destruct G as (t1 & t2 & y & G1 & G2 & G3 & G4 & G5). exists t1, t2, y. repeat (split; [assumption|]). lra.
Qed.
Example C60_sign_flipper_ex : exists m s,
  session64 (SignFlipperNetwork DefaultEncoder None) sf_mod DefaultEncoder fdt (fun m => [FValue (nlit 1 4) (sf_inp_minus m) (nofZ 3)]) fid (nofZ 200) = Ok (m, s) /\
  emits64 s (sf_outp_plus m) DefaultEncoder (FR (nlit 1 4)) (0.00002) /\ spike_log s (sf_outp_minus m) = [].
Proof.
  destruct fdt_F as [D1 D2]. destruct (lit_F 1 4 ltac:(lia) ltac:(lia)) as [X1 X2]. apply Rabs_le_inv in X2.
  assert (S : 0 < bpow radix2 (-54) <= / 1000000 /\ 0 < bpow radix2 (-30) <= / 1000000 /\ 0 < bpow radix2 (-20) <= / 1000 /\ bpow radix2 (-12) <= 0.0005 /\ bpow radix2 12 = 4096 /\ bpow radix2 15 = 32768) by (cbn; lra).
  destruct (C60_sign_flipper (nofZ 10) (nofZ 100) (nlit 1 4) fdt (nofZ 3) (nofZ 200) true fid None) as (m & s & E & G & Q);
    auto using fid_ok; fcst; try lra.
  exists m, s. split; [exact E|]. split; [|exact Q]. rewrite (proj1 (ofZ_small 100 ltac:(lia))) in G.
  destruct G as (t1 & t2 & y & G1 & G2 & G3 & G4 & G5). exists t1, t2, y. repeat (split; [assumption|]). lra.
Qed.
