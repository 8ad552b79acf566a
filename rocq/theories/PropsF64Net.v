(** Property theorems about whole networks run in binary64, the arithmetic Python uses:
    C06 (delivery), C20 (constant), C22 (memory), C23 (inverting memory).
    [FR x] is the real number a float stands for, [fin x] says that it is finite, and
    [bpow radix2 e] is 2^e.  [session64] (FSession.v) runs the user's script: build the
    network, build the Simulator, inject the inputs, call simulate(T).  [emits64] (FSession.v)
    says that the log of a neuron is exactly one pair of spikes which decode_interval maps to
    a number within eps of v. *)
From Coq Require Import Arith ZArith Bool List Reals Lra Lia Permutation.
From Flocq Require Import Core BinarySingleNaN PrimFloat.
From Coq Require Import Floats Uint63.
From Verif Require Import Num NumOrd Elements Simulator Networks Trace SimTrace AnySim F64 F64Thms GTrace NeuronLib NetLib Build BuildNets FNet FSession FConst FMem FIMem.
Import ListNotations.
Open Scope list_scope.
Open Scope R_scope.

(** ** C06.  [gst c ext ord k n] is the state of neuron n after k steps of the run with
    inputs [ext]; [gspk c ext ord k n]: it spikes at step k; [arrs c ext ord n k]: the events
    of all synapses into n whose source spiked before step k and whose time (spike time +
    delay, rounded) is at most that of step k but not of step k-1.  Each step delivers these events and no
    others, in some order; a neuron with no events whose state is inactive is left alone. *)
Theorem C06_binary64_delivery : forall c ext ord KM, netok c ext ord KM ->
  (forall k, (k <= KM)%nat -> sim_steps c ord 0 k (inputs_of c ext, []) = Ok (GTrace.rs c ext ord k)) /\
  forall k n, (k < KM)%nat -> (n < length (w_neurons (c_world c)))%nat ->
  exists evs, Permutation evs (GTrace.arrs c ext ord n (S k)) /\
    ((evs = [] /\ is_active (GTrace.gst c ext ord k n) = false /\
      GTrace.gst c ext ord (S k) n = GTrace.gst c ext ord k n /\ GTrace.gspk c ext ord (S k) n = false) \/
     ((evs <> [] \/ is_active (GTrace.gst c ext ord k n) = true) /\
      (GTrace.gst c ext ord (S k) n, GTrace.gspk c ext ord (S k) n) =
        upd (gprm c n) (c_dt c) (fold_left rcv evs (GTrace.gst c ext ord k n)))).
Proof.
  intros c ext ord KM OK. split; [intros k Hk; apply (trace c ext ord KM OK k Hk)|].
  intros k n Hk Hn. destruct (trace c ext ord KM OK KM (Nat.le_refl _)) as (_ & H & _). apply H; auto.
Qed.
Print Assumptions C06_binary64_delivery.
(** an event created at step j (0: before the simulation) is delivered at one step at most,
    later than j, and within the run if its time is not after the last step *)
Theorem C06_binary64_once : forall c ext ord KM e j, netok c ext ord KM -> fin e -> (j < KM)%nat ->
  exists k0, (j < k0)%nat /\ (forall k, (1 <= k <= KM)%nat -> due_at c e j k = (k =? k0)%nat) /\
    (FR e <= FR (tt c KM) -> (k0 <= KM)%nat).
Proof.
  intros c ext ord KM e j OK Fe Hj. exists (dstep c KM e j). split; [apply (dstep_gt c ext ord KM OK)|].
  split; [intros k Hk; apply (due_dstep c ext ord KM OK); auto|].
  intros HT. apply (dstep_spec c ext ord KM OK); auto.
Qed.
Print Assumptions C06_binary64_once.

(** ** C20 *)
Theorem C20_binary64_constant : forall (tmin tcod v dt t0 T : float) ord nm,
  fin tmin -> fin tcod -> fin v -> fin dt -> fin t0 -> fin T ->
  bpow radix2 (-12) <= FR dt <= 1 / 2 -> 0 <= FR tmin -> bpow radix2 (-20) <= FR tcod -> FR tmin + FR tcod <= bpow radix2 14 ->
  0 <= FR v <= 1 -> 0 <= FR t0 -> FR dt + bpow radix2 (-30) <= FR tmin + FR v * FR tcod ->
  FR t0 + 1 + (FR tmin + FR v * FR tcod) + 2 * FR dt + bpow radix2 (-30) <= FR T <= bpow radix2 15 -> ord_ok ord ->
  exists k s,
    session64 (ConstantNetwork (DataEncoder tmin tcod) v nm) k_mod (DataEncoder tmin tcod) dt
      (fun k => [FSpike (k_recall k) t0]) ord T = Ok (k, s) /\
    emits64 s (k_output k) (DataEncoder tmin tcod) (FR v) ((FR dt + bpow radix2 (-30)) / FR tcod).
Proof. intros. apply constant64; auto. Qed.
Print Assumptions C20_binary64_constant.

(** ** C22 *)
Theorem C22_binary64_memory : forall (tmin tcod x dt t0 tr T : float) ord nm,
  fin tmin -> fin tcod -> fin x -> fin dt -> fin t0 -> fin tr -> fin T ->
  bpow radix2 (-12) <= FR dt <= 1 / 8 -> 1 + FR dt + bpow radix2 (-30) <= FR tmin -> bpow radix2 (-20) <= FR tcod ->
  FR tmin + FR tcod <= bpow radix2 12 -> 0 <= FR x -> FR x * FR tcod + bpow radix2 (-14) <= FR tcod -> 0 <= FR t0 ->
  FR t0 + 2 + (FR tmin + FR tcod) + 3 * FR dt + bpow radix2 (-14) <= FR tr ->
  FR tr + (FR tmin + FR tcod) + 4 + 4 * FR dt <= FR T <= bpow radix2 15 -> ord_ok ord ->
  exists m s,
    session64 (MemoryNetwork (DataEncoder tmin tcod) nm) mm_mod (DataEncoder tmin tcod) dt
      (fun m => [FValue x (mm_input m) t0; FSpike (mm_recall m) tr]) ord T = Ok (m, s) /\
    emits64 s (mm_output m) (DataEncoder tmin tcod) (FR x) ((4 * FR dt + bpow radix2 (-30)) / FR tcod) /\
    (exists t, spike_log s (mm_ready m) = [t] /\ FR t < FR tr + 1).
Proof. intros. apply memory64; auto. Qed.
Print Assumptions C22_binary64_memory.

(** ** C23 *)
Theorem C23_binary64_inverting_memory : forall (tmin tcod x dt t0 tr T : float) ord nm,
  fin tmin -> fin tcod -> fin x -> fin dt -> fin t0 -> fin tr -> fin T ->
  bpow radix2 (-12) <= FR dt <= 1 / 8 -> 1 + FR dt + bpow radix2 (-30) <= FR tmin -> bpow radix2 (-20) <= FR tcod ->
  FR tmin + FR tcod <= bpow radix2 12 -> 0 <= FR x -> FR x <= 1 -> 0 <= FR t0 ->
  FR t0 + 1 + (FR tmin + FR tcod) + 2 * FR dt + bpow radix2 (-30) <= FR tr ->
  FR tr + (FR tmin + FR tcod) + 4 + 4 * FR dt <= FR T <= bpow radix2 15 -> ord_ok ord ->
  exists m s,
    session64 (InvertingMemoryNetwork (DataEncoder tmin tcod) nm) im_mod (DataEncoder tmin tcod) dt
      (fun m => [FValue x (im_input m) t0; FSpike (im_recall m) tr]) ord T = Ok (m, s) /\
    emits64 s (im_output m) (DataEncoder tmin tcod) (1 - FR x) ((4 * FR dt + / 100 + bpow radix2 (-13)) / FR tcod).
Proof. intros. apply inverting_memory64; auto. Qed.
Print Assumptions C23_binary64_inverting_memory.

(** ** the hypotheses can be met: the default encoder (10, 100), dt = 0.001, x = 0.25 *)
Lemma lit_F p q : (0 <= p <= q)%Z -> (0 < q <= 2 ^ 20)%Z -> fin (nlit (T := float) p q) /\ Rabs (FR (nlit p q) - IZR p / IZR q) <= bpow radix2 (-54).
Proof.
  intros Hp Hq. unfold nlit. destruct (ofZ_small p ltac:(lia)) as [A1 A2]. destruct (ofZ_small q ltac:(lia)) as [B1 B2].
  assert (Q0 : 0 < IZR q) by (apply IZR_lt; lia). assert (P0 : 0 <= IZR p <= IZR q) by (split; apply IZR_le; lia).
  assert (X : 0 <= IZR p / IZR q <= 1).
  { split; [apply Rmult_le_pos; [lra|apply Rlt_le, Rinv_0_lt_compat; auto]|].
    apply Rmult_le_reg_r with (IZR q); auto. unfold Rdiv. rewrite Rmult_assoc, Rinv_l by lra. lra. }
  cbn [ndiv F_num]. destruct (div_FR (nofZ p) (nofZ q) A2) as [D1 D2]; [rewrite B1; lra| |].
  { rewrite A1, B1. apply Rabs_pos_le; [lra|]. apply Rle_trans with (bpow radix2 0); [exact (proj2 X)|apply p2_big; lia]. }
  rewrite D1, A1, B1. split; [exact D2|]. change (-54)%Z with (0 - 54)%Z. apply rnd_abs; [lia|]. apply Rabs_pos_le; [lra|exact (proj2 X)].
Qed.
Definition fdt : float := nlit 1 1000.
Lemma fdt_F : fin fdt /\ 0.000999 <= FR fdt <= 0.001001.
Proof.
  destruct (lit_F 1 1000 ltac:(lia) ltac:(lia)) as [A B]. split; [exact A|]. apply Rabs_le_inv in B.
  assert (bpow radix2 (-54) <= / 1000000) by (cbn; lra). fold fdt in B. lra.
Qed.
Definition fid (k : nat) (l : list nat) := l.
Lemma fid_ok : ord_ok fid. Proof. intros k l. unfold fid. apply Permutation_refl. Qed.
Ltac fcst := repeat match goal with |- fin (nofZ ?z) => apply (ofZ_small z); lia | |- context [FR (nofZ ?z)] => rewrite (proj1 (ofZ_small z ltac:(lia))) end.
Example C22_binary64_ex : exists m s,
  session64 (MemoryNetwork DefaultEncoder None) mm_mod DefaultEncoder fdt
    (fun m => [FValue (nlit 1 4) (mm_input m) (nofZ 3); FSpike (mm_recall m) (nofZ 150)]) fid (nofZ 300) = Ok (m, s) /\
  emits64 s (mm_output m) DefaultEncoder (FR (nlit 1 4)) (0.00005).
Proof.
  destruct fdt_F as [D1 D2]. destruct (lit_F 1 4 ltac:(lia) ltac:(lia)) as [X1 X2]. apply Rabs_le_inv in X2.
  assert (S : 0 < bpow radix2 (-54) <= / 1000000 /\ 0 < bpow radix2 (-30) <= / 1000000 /\ 0 < bpow radix2 (-14) <= / 1000 /\ 0 < bpow radix2 (-20) <= / 1000 /\ bpow radix2 (-12) <= 0.0005 /\ bpow radix2 12 = 4096 /\ bpow radix2 15 = 32768) by (cbn; lra).
  destruct (C22_binary64_memory (nofZ 10) (nofZ 100) (nlit 1 4) fdt (nofZ 3) (nofZ 150) (nofZ 300) fid None) as (m & s & E & G & _);
    auto using fid_ok; fcst; try lra.
  exists m, s. split; [exact E|]. destruct G as (t1 & t2 & y & G1 & G2 & G3 & G4 & G5). exists t1, t2, y. repeat (split; [assumption|]).
  rewrite (proj1 (ofZ_small 100 ltac:(lia))) in G5. lra.
Qed.
Example C23_binary64_ex : exists m s,
  session64 (InvertingMemoryNetwork DefaultEncoder None) im_mod DefaultEncoder fdt
    (fun m => [FValue (nlit 1 4) (im_input m) (nofZ 3); FSpike (im_recall m) (nofZ 150)]) fid (nofZ 300) = Ok (m, s) /\
  emits64 s (im_output m) DefaultEncoder (1 - FR (nlit 1 4)) (0.00015).
Proof.
  destruct fdt_F as [D1 D2]. destruct (lit_F 1 4 ltac:(lia) ltac:(lia)) as [X1 X2]. apply Rabs_le_inv in X2.
  assert (S : 0 < bpow radix2 (-54) <= / 1000000 /\ 0 < bpow radix2 (-30) <= / 1000000 /\ 0 < bpow radix2 (-13) <= / 8192 /\ 0 < bpow radix2 (-20) <= / 1000 /\ bpow radix2 (-12) <= 0.0005 /\ bpow radix2 12 = 4096 /\ bpow radix2 15 = 32768) by (cbn; lra).
  destruct (C23_binary64_inverting_memory (nofZ 10) (nofZ 100) (nlit 1 4) fdt (nofZ 3) (nofZ 150) (nofZ 300) fid None) as (m & s & E & G);
    auto using fid_ok; fcst; try lra.
  exists m, s. split; [exact E|]. destruct G as (t1 & t2 & y & G1 & G2 & G3 & G4 & G5). exists t1, t2, y. repeat (split; [assumption|]).
  rewrite (proj1 (ofZ_small 100 ltac:(lia))) in G5. lra.
Qed.
Example C20_binary64_ex : exists k s,
  session64 (ConstantNetwork DefaultEncoder (nlit 1 4) None) k_mod DefaultEncoder fdt (fun k => [FSpike (k_recall k) (nofZ 3)]) fid (nofZ 100) = Ok (k, s) /\
  emits64 s (k_output k) DefaultEncoder (FR (nlit 1 4)) (0.00002).
Proof.
  destruct fdt_F as [D1 D2]. destruct (lit_F 1 4 ltac:(lia) ltac:(lia)) as [X1 X2]. apply Rabs_le_inv in X2.
  assert (S : 0 < bpow radix2 (-54) <= / 1000000 /\ 0 < bpow radix2 (-30) <= / 1000000 /\ 0 < bpow radix2 (-20) <= / 1000 /\ bpow radix2 (-12) <= 0.0005 /\ bpow radix2 14 = 16384 /\ bpow radix2 15 = 32768) by (cbn; lra).
  destruct (C20_binary64_constant (nofZ 10) (nofZ 100) (nlit 1 4) fdt (nofZ 3) (nofZ 100) fid None) as (m & s & E & G);
    auto using fid_ok; fcst; try lra.
  exists m, s. split; [exact E|]. destruct G as (t1 & t2 & y & G1 & G2 & G3 & G4 & G5). exists t1, t2, y. repeat (split; [assumption|]).
  rewrite (proj1 (ofZ_small 100 ltac:(lia))) in G5. lra.
Qed.
(** a run meeting the hypotheses of C06_binary64: the constant network above, 100 steps or more *)
Example C06_binary64_ex : exists c ext KM, netok c ext fid KM /\ (100 <= KM)%nat /\ length (w_syns (c_world c)) = 2%nat.
Proof.
  destruct fdt_F as [D1 D2].
  destruct (Constant_built DefaultEncoder (nlit 1 4) None empty_world inv_empty) as (k & w & E & HB & HN & HL).
  cbn [w_neurons empty_world length Nat.add] in HN, HL. unfold k_nodes in HN. cbn [seq] in HN.
  destruct cTsyn_F as [T1 T2].
  assert (S : bpow radix2 15 = 32768 /\ bpow radix2 16 = 65536 /\ bpow radix2 (-12) <= 0.0005 /\ eta <= 0.1 /\ 0 < bpow radix2 (-20)) by (unfold eta; cbn; lra).
  destruct (interval_F (nofZ 10) (nofZ 100) (nlit 1 4)) as [(I1 & I2 & I3) _]; fcst; try lra; try (cbn; lra).
  { apply lit_F; lia. }
  { destruct (lit_F 1 4 ltac:(lia) ltac:(lia)) as [_ X]. apply Rabs_le_inv in X. assert (bpow radix2 (-54) <= 0.1) by (cbn; lra). lra. }
  assert (C14 : bpow radix2 14 = 16384) by (cbn; lra).
  destruct (add_small cTsyn (nadd (nmul (nlit 1 4) (nofZ 100)) (nofZ 10)) 15) as (A1 & A2 & A3); auto; try lia; try lra.
  { rewrite ?T2. rewrite (proj1 (ofZ_small 10 ltac:(lia))) in I3. lra. }
  destruct (session64_ok (ConstantNetwork DefaultEncoder (nlit 1 4) None) k_mod k w _ DefaultEncoder fdt (fun k => [FSpike (k_recall k) (nofZ 3)]) fid (nofZ 100) E HB)
    as (c & KM & OK & C1 & C2 & C3 & C4 & C5); auto using fid_ok; fcst; try lra.
  { constructor; [exact I|constructor]. }
  { intros y [<-|[<-|[]]]; cbn [s_delay syn]; [rewrite T2; split; [auto|lra]|]. split; [exact A1|].
    split; [apply A3|]. apply Rle_trans with (1 := proj2 A3). apply bpow_le. lia. }
  { intros n t [X|[]]. injection X as <- <-. split; [apply (ofZ_small 3); lia|]. split; [change (0 <= FR (nofZ 3) <= p2 16); rewrite (proj1 (ofZ_small 3 ltac:(lia))); lra|]. injection HN as -> _. lia. }
  { assert (X : 100 / FR fdt * FR fdt = 100) by (field; lra). apply Rmult_le_reg_r with (FR fdt); [lra|]. lra. }
  rewrite (proj1 (ofZ_small 100 ltac:(lia))) in C4.
  exists c. eexists. exists KM. split; [exact OK|]. split.
  - apply INR_le. replace (INR 100) with 100 by (cbn; lra).
    apply Rmult_le_reg_r with (FR fdt); [lra|]. lra.
  - rewrite C1, C3. reflexivity.
Qed.
