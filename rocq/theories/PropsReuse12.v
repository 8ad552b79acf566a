(** InvertingMemoryNetwork: storing does not overwrite (C71).
    Reading aid: [pair_says enc v eps l] (RestFun.v): l is one pair of spikes whose interval decodes to v up to eps.
    [stores_ok tmin tcod dt from sts tr] (InvN.v): sts is a list of (value, time) to store; every value is in [0,1], the first store starts at
    [from] or later, each later one tmin + tcod + 3 dt or more after the one before it, and the recall time tr is 1 ms or more after the
    last is over. *)
From Coq Require Import Arith ZArith Bool List Reals Lra Lia PrimFloat.
From Verif Require Import Num Elements Simulator Networks Trace SimTrace SimProps NeuronLib NetLib MemoryProof Session SegLib Jobs RestFun InvTwo InvN PropsCore PropsNets PropsRest.
Import ListNotations.
Open Scope R_scope.
Open Scope list_scope.
Local Notation ms := (/ 1000).

(** two stores before one recall: the recall answers 1 - x1 - x2, not 1 - x2 *)
Theorem C71_inverting_memory_adds_up : forall (tmin tcod dt x1 x2 t1 t2 tr T : R) nm ord,
  0 < dt <= 1 / 4 -> 0 < tcod -> 1 + dt <= tmin -> 0 <= x1 <= 1 -> 0 <= x2 <= 1 -> 0 <= t1 ->
  (* the second store comes after the first is complete, the recall after the second *)
  t1 + (tmin + tcod) + 3 * dt <= t2 -> t2 + 1 + (tmin + tcod) + 2 * dt <= tr ->
  6 * dt + / 100 <= tmin + (1 - x1 - x2) * tcod ->
  tr + 2 + (tmin + tcod) + 6 * dt <= T -> ord_ok ord ->
  exists m s, session (InvertingMemoryNetwork (DataEncoder tmin tcod) nm) im_mod (DataEncoder tmin tcod) dt
      (fun m => [SValue x1 (im_input m) t1; SValue x2 (im_input m) t2; SSpike (im_recall m) tr]) ord T = Ok (m, s) /\
    pair_says (DataEncoder tmin tcod) (1 - x1 - x2) ((5 * dt + / 100) / tcod) (spike_log s (im_output m)).
Proof. intros; apply invmemory_two_stores; auto. Qed.
Print Assumptions C71_inverting_memory_adds_up.
Example C71_ex : exists m s,
  session (InvertingMemoryNetwork (DataEncoder 10 100) None) im_mod (DataEncoder 10 100) ms
    (fun m => [SValue (1/4) (im_input m) 0; SValue (1/2) (im_input m) 200; SSpike (im_recall m) 400]) id_ord 600 = Ok (m, s) /\
  pair_says (DataEncoder 10 100) (1 - 1/4 - 1/2) ((5 * ms + / 100) / 100) (spike_log s (im_output m)).
Proof. apply C71_inverting_memory_adds_up; try lra. apply id_ord_ok. Qed.

(** any number of stores before one recall: the recall answers 1 minus the sum of all of them *)
Theorem C71_any_number_of_stores : forall (tmin tcod dt : R) (sts : list (R * R)) (tr T : R) nm ord,
  0 < dt <= 1 / 4 -> 0 < tcod -> 1 + dt <= tmin -> stores_ok tmin tcod dt 0 sts tr ->
  let n := INR (length sts) in let sum := fold_right (fun p s => fst p + s) 0 sts in
  (2 * n + 3) * dt + / 100 <= tmin + (1 - sum) * tcod ->
  tr + 2 + (tmin + tcod) + (2 * n + 2) * dt <= T -> ord_ok ord ->
  exists m s, session (InvertingMemoryNetwork (DataEncoder tmin tcod) nm) im_mod (DataEncoder tmin tcod) dt
      (fun m => map (fun p => SValue (fst p) (im_input m) (snd p)) sts ++ [SSpike (im_recall m) tr]) ord T = Ok (m, s) /\
    pair_says (DataEncoder tmin tcod) (1 - sum) (((2 * n + 2) * dt + / 100) / tcod) (spike_log s (im_output m)).
Proof. intros. apply invmemory_stores; auto. Qed.
Print Assumptions C71_any_number_of_stores.
Example C71_three_ex : exists m s,
  session (InvertingMemoryNetwork (DataEncoder 10 100) None) im_mod (DataEncoder 10 100) ms
    (fun m => [SValue (1/4) (im_input m) 0; SValue (1/8) (im_input m) 200; SValue (1/4) (im_input m) 400; SSpike (im_recall m) 600]) id_ord 900 = Ok (m, s) /\
  pair_says (DataEncoder 10 100) (3/8) ((8 * ms + / 100) / 100) (spike_log s (im_output m)).
Proof.
  destruct (C71_any_number_of_stores 10 100 ms [(1/4, 0); (1/8, 200); (1/4, 400)] 600 900 None id_ord) as (m & s & A & B); try lra; try apply id_ord_ok;
    try (cbn [length INR stores_ok fold_right fst]; repeat (apply conj); lra).
  exists m, s. split; [exact A|]. cbn [length INR fold_right fst] in B.
  replace (3 / 8) with (1 - (1 / 4 + (1 / 8 + (1 / 4 + 0)))) by lra. replace (8 * ms) with ((2 * (1 + 1 + 1) + 2) * ms) by lra. exact B.
Qed.

(** and when x1 + x2 >= 1 + (Tmin + 5 dt)/Tcod, the output of a memory that is never recalled spikes, once, during the second store *)
Theorem C71_spikes_without_recall : forall (tmin tcod dt x1 x2 t1 t2 T : R) nm ord,
  0 < dt <= 1 / 4 -> 0 < tcod -> 1 + dt <= tmin -> 0 <= x1 <= 1 -> 0 <= x2 <= 1 -> 0 <= t1 ->
  t1 + (tmin + tcod) + 3 * dt <= t2 ->
  tmin + 5 * dt <= (x1 + x2 - 1) * tcod -> t2 + 3 + 2 * tmin + tcod + 4 * dt <= T -> ord_ok ord ->
  exists m s t, session (InvertingMemoryNetwork (DataEncoder tmin tcod) nm) im_mod (DataEncoder tmin tcod) dt
      (fun m => [SValue x1 (im_input m) t1; SValue x2 (im_input m) t2]) ord T = Ok (m, s) /\
    spike_log s (im_output m) = [t] /\ Rabs (t - (t2 + 3 + 2 * tmin + (1 - x1) * tcod)) <= 4 * dt.
Proof. intros; apply invmemory_spurious; auto. Qed.
Print Assumptions C71_spikes_without_recall.
Example C71_spur_ex : exists m s t,
  session (InvertingMemoryNetwork (DataEncoder 10 100) None) im_mod (DataEncoder 10 100) ms
    (fun m => [SValue (3/4) (im_input m) 0; SValue (1/2) (im_input m) 200]) id_ord 600 = Ok (m, s) /\
  spike_log s (im_output m) = [t] /\ Rabs (t - 248) <= 4 * ms.
Proof.
  destruct (C71_spikes_without_recall 10 100 ms (3/4) (1/2) 0 200 600 None id_ord) as (m & s & t & A & B & C); try lra; [apply id_ord_ok|].
  exists m, s, t. split; [exact A|split; [exact B|]]. replace 248 with (200 + 3 + 2 * 10 + (1 - 3 / 4) * 100) by lra. exact C.
Qed.

(** ** the same in binary64, as a refutation of "the last value stored is the one recalled" *)
Definition inv_script {T} `{Num T} (enc : encoder T) (sts : list (T * T)) (rcs : list T) (dt D : T) : res (list T) :=
  let* mw := InvertingMemoryNetwork enc None empty_world in
  let m := fst mw in
  let* c := mk_simulator (snd mw) (im_mod m) enc dt in
  let* s1 := rfold (fun s p => apply_input_value (fst c) s (fst p) (im_input m) (snd p)) sts (snd c) in
  let s2 := fold_left (fun s t => apply_input_spike (fst c) s (im_recall m) t) rcs s1 in
  let* s3 := simulate (fst c) id_ord s2 D in
  Ok (spike_log s3 (im_output m)).
Theorem C71_overwrite_refuted :
  let enc := DataEncoder (T := PrimFloat.float) (nofZ 10) (nofZ 100) in
  let run := fun sts rcs => inv_script enc sts rcs (nlit 1 2) (nofZ 600) in
  (exists a b y, run [(nlit 1 2, nofZ 200)] [nofZ 400] = Ok [a; b] /\ decode_interval enc (nsub b a) = Ok y /\ PrimFloat.ltb (nlit 48 100) y = true) /\
  (exists a b y, run [(nlit 1 4, nofZ 0); (nlit 1 2, nofZ 200)] [nofZ 400] = Ok [a; b] /\ decode_interval enc (nsub b a) = Ok y /\ PrimFloat.ltb y (nlit 26 100) = true) /\
  (exists a, run [(nlit 3 4, nofZ 0); (nlit 1 2, nofZ 200)] [] = Ok [a]).
Proof.
  cbv zeta. split; [|split].
  - do 3 eexists. split; [vm_compute; reflexivity|split; [vm_compute; reflexivity|vm_compute; reflexivity]].
  - do 3 eexists. split; [vm_compute; reflexivity|split; [vm_compute; reflexivity|vm_compute; reflexivity]].
  - eexists. vm_compute. reflexivity.
Qed.
Print Assumptions C71_overwrite_refuted.
