(** Networks used more than once in one simulation.
    [cycles_ok], [replays], [readies] (head of MemReuse.v) are the specification: a history of
    store/recall cycles, each starting after the previous one is over, what the output pair of a cycle
    must be, and when its ready spike comes. *)
From Coq Require Import Arith ZArith Bool String List Reals Lra Lia Permutation.
From Verif Require Import Num Heapq Elements Simulator Networks Trace SimTrace Session SimpleNets Restart MemReuse PropsNets.
Import ListNotations.
Open Scope R_scope.
Open Scope list_scope.
Local Notation ms := (/ 1000).

(** ** C22: any number of store/recall cycles on one memory *)
Theorem C22_memory_reuse : forall (tmin tcod dt T : R) (cs : list cycle) nm ord,
  0 < dt <= 1 / 2 -> 0 < tcod -> 1 + dt <= tmin -> ord_ok ord -> 0 <= T -> cycles_ok tmin tcod dt 0 cs T ->
  exists m s ps rs,
    session (MemoryNetwork (DataEncoder tmin tcod) nm) mm_mod (DataEncoder tmin tcod) dt (fun m => cy_stims m cs) ord T = Ok (m, s) /\
    spike_log s (mm_output m) = pairs ps /\ Forall2 (replays tmin tcod dt) cs ps /\
    spike_log s (mm_ready m) = rs /\ Forall2 readies cs rs.
Proof. exact memory_reuse. Qed.
Print Assumptions C22_memory_reuse.
(** 1/4 is stored at 3 and recalled at 150, then 3/4 at 300 and 450: four output spikes that decode to 1/4 and 3/4 *)
Example C22_reuse_ex : exists m s t1 t2 t3 t4,
  session (MemoryNetwork (DataEncoder 10 100) None) mm_mod (DataEncoder 10 100) ms
    (fun m => [SValue (1/4) (mm_input m) 3; SSpike (mm_recall m) 150; SValue (3/4) (mm_input m) 300; SSpike (mm_recall m) 450]) id_ord 600 = Ok (m, s) /\
  spike_log s (mm_output m) = [t1; t2; t3; t4] /\ 150 < t1 < t2 /\ t2 < 300 /\ 450 < t3 < t4 /\
  decode_interval (DataEncoder 10 100) (t2 - t1) = Ok (1/4) /\ decode_interval (DataEncoder 10 100) (t4 - t3) = Ok (3/4).
Proof.
  set (cs := [{| cy_x := 1/4; cy_store := 3; cy_recall := 150 |}; {| cy_x := 3/4; cy_store := 300; cy_recall := 450 |}]).
  destruct (C22_memory_reuse 10 100 ms 600 cs None id_ord) as (m & s & ps & rs & E & L & F & _); try lra; [apply id_ord_ok|cbn [cycles_ok cs cy_x cy_store cy_recall]; lra|].
  inversion F as [|? p1 ? ? R1 F1]; subst. inversion F1 as [|? p2 ? ? R2 F2]; subst. inversion F2; subst.
  destruct R1 as (A1 & A2 & A3 & y1 & D1 & _ & _ & X1). destruct R2 as (B1 & B2 & B3 & y2 & D2 & _ & _ & X2). cbn [cy_x cy_recall] in *.
  rewrite (X1 (Z.to_nat 1000) (Z.to_nat 35000)) in D1 by (rewrite INR_Z by lia; lra).
  rewrite (X2 (Z.to_nat 1000) (Z.to_nat 85000)) in D2 by (rewrite INR_Z by lia; lra).
  exists m, s, (fst p1), (snd p1), (fst p2), (snd p2). split; [exact E|]. split; [exact L|].
  split; [lra|]. split; [lra|]. split; [lra|]. auto.
Qed.

(** ** C24: SignedMemoryNetwork is not reusable with the other sign *)
(** the script (any arithmetic T): store |v| on the input of its sign at t, recall at r, for every (v >= 0, |v|, t, r) *)
Definition smem_script {T} `{Num T} (enc : encoder T) (cs : list (bool * T * T * T)) (dt D : T) : res (smem_net * sim T) :=
  let* mw := SignedMemoryNetwork enc None empty_world in
  let m := fst mw in
  let* c := mk_simulator (snd mw) (sm_mod m) enc dt in
  let* s1 := rfold (fun s p => let '(pos, v, t, r) := p in
               let* s' := apply_input_value (fst c) s v (if (pos : bool) then sm_input_pos m else sm_input_neg m) t in
               Ok (apply_input_spike (fst c) s' (sm_recall m) r)) cs (snd c) in
  let* s2 := simulate (fst c) id_ord s1 D in
  Ok (m, s2).
Definition smem_logs {T} (r : res (smem_net * sim T)) : option (list T * list T) :=
  match r with Ok (m, s) => Some (spike_log s (sm_output_pos m), spike_log s (sm_output_neg m)) | Err _ => None end.
Definition smem_lens {T} (r : res (smem_net * sim T)) : option (nat * nat) :=
  match smem_logs r with Some (a, b) => Some (List.length a, List.length b) | None => None end.
Lemma lens_pair {T} (r : res (smem_net * sim T)) : smem_lens r = Some (2, 0)%nat -> exists a b, smem_logs r = Some ([a; b], []).
Proof. unfold smem_lens. destruct (smem_logs r) as [[[|a [|b [|c l]]] [|z m]]|]; cbn; try discriminate. eauto. Qed.
Lemma lens_neg {T} (r : res (smem_net * sim T)) : smem_lens r = Some (0, 2)%nat -> exists a b, smem_logs r = Some ([], [a; b]).
Proof. unfold smem_lens. destruct (smem_logs r) as [[[|z m] [|a [|b [|c l]]]]|]; cbn; try discriminate. eauto. Qed.
Lemma lens_four {T} (r : res (smem_net * sim T)) : smem_lens r = Some (4, 0)%nat -> exists a b c d, smem_logs r = Some ([a; b; c; d], []).
Proof. unfold smem_lens. destruct (smem_logs r) as [[[|a [|b [|c [|d [|e l]]]]] [|z m]]|]; cbn; try discriminate. eauto. Qed.
(** binary64, Tmin=10, Tcod=100, dt=0.5.  Storing 0.5 and then 0.25 gives both values on output+; storing 0.5 and then -0.25
    gives only the first: the value of the other sign is lost, because output- is still inhibited from the first cycle. *)
Theorem C24_other_sign_reuse_refuted :
  let run := smem_script (T := PrimFloat.float) (DataEncoder (nofZ 10) (nofZ 100)) in
  (exists a b c d, smem_logs (run [(true, nlit 1 2, nofZ 0, nofZ 150); (true, nlit 1 4, nofZ 300, nofZ 450)] (nlit 1 2) (nofZ 600)) = Some ([a; b; c; d], [])) /\
  (exists a b, smem_logs (run [(true, nlit 1 2, nofZ 0, nofZ 150); (false, nlit 1 4, nofZ 300, nofZ 450)] (nlit 1 2) (nofZ 600)) = Some ([a; b], [])) /\
  (exists a b, smem_logs (run [(false, nlit 1 4, nofZ 300, nofZ 450)] (nlit 1 2) (nofZ 600)) = Some ([], [a; b])).
Proof.
  cbv zeta. split; [|split].
  - apply lens_four. vm_compute. reflexivity.
  - apply lens_pair. vm_compute. reflexivity.
  - apply lens_neg. vm_compute. reflexivity.
Qed.
Print Assumptions C24_other_sign_reuse_refuted.
