(** MemoryNetwork in arbitrary histories of stores and recalls (C70).
    Reading aid (all of it specification, none of it taken from the proofs):
    - [jobs_ok X ok span from js T] (Jobs.v): js is a list of computations (argument, start time); every argument is ok, the first
      starts at [from] or later, each later one starts [span] or more after the one before it, and T leaves time for the last;
    - [pair_says enc v eps l] (RestFun.v): l is one pair of spikes whose interval decodes to v up to eps;
    - a job [MStore x r] started at t stores x at t and recalls it at t + r; a job [MRecall] is a recall spike alone;
    - in [ps] there is one item for each job: what it puts on the output and what it puts on ready. *)
From Coq Require Import Arith ZArith Bool List Reals Lra Lia PrimFloat.
From Verif Require Import Num Elements Simulator Networks Trace SimTrace SimProps NeuronLib NetLib MemoryProof Session SegLib Jobs RestFun MemHist MemTwo MemSpur PropsCore PropsNets PropsRest.
Import ListNotations.
Open Scope R_scope.
Open Scope list_scope.
Local Notation ms := (/ 1000).

Theorem C70_memory_history : forall (tmin tcod dt T : R) (js : list (mm_job * R)) nm ord,
  0 < dt <= 1 / 2 -> 0 < tcod -> 1 + dt <= tmin -> ord_ok ord -> 0 <= T ->
  jobs_ok mm_job (fun j => match j with MStore x r => 0 <= x <= 1 /\ 2 + (tmin + tcod) + 3 * dt <= r | MRecall => True end)
    (fun j => match j with MStore x r => r + (tmin + tcod) + 4 + 6 * dt | MRecall => tmin + tcod + 4 + 6 * dt end) 0 js T ->
  exists m s ps,
    session (MemoryNetwork (DataEncoder tmin tcod) nm) mm_mod (DataEncoder tmin tcod) dt
      (fun m => flat_map (fun j : mm_job * R => match fst j with
          | MStore x r => [SValue x (mm_input m) (snd j); SSpike (mm_recall m) (snd j + r)]
          | MRecall => [SSpike (mm_recall m) (snd j)] end) js) ord T = Ok (m, s) /\
    spike_log s (mm_output m) = concat (map fst ps) /\ spike_log s (mm_ready m) = concat (map snd ps) /\
    Forall2 (fun j p => match fst j with
        (* a stored value is recalled, and ready spiked once *)
        | MStore x _ => pair_says (DataEncoder tmin tcod) x (3 * dt / tcod) (fst p) /\ length (snd p) = 1%nat
        (* the read was destructive: a further recall gives 1, whatever had been stored before, and ready is silent *)
        | MRecall => pair_says (DataEncoder tmin tcod) 1 (3 * dt / tcod) (fst p) /\ snd p = [] end) js ps.
Proof.
  intros tmin tcod dt T js nm ord H1 H2 H3 HO HT HJ.
  destruct (memory_history tmin tcod dt T js nm ord H1 H2 H3 HO HT HJ) as (m & s & ps & A & B & C & F). exists m, s, ps.
  split; [|split; [exact B|split; [exact C|]]].
  - rewrite <- A. unfold session. destruct (MemoryNetwork _ _ _) as [[a w]|]; [|reflexivity]. cbn [rbind fst snd]. 
    replace (flat_map (fun j : mm_job * R => match fst j with MStore x r => [SValue x (mm_input a) (snd j); SSpike (mm_recall a) (snd j + r)] | MRecall => [SSpike (mm_recall a) (snd j)] end) js)
      with (flat_map (fun j : mm_job * R => mmj_stims a (fst j) (snd j)) js); [reflexivity|].
    apply flat_map_ext. intros [[x r|] t]; reflexivity.
  - clear -F. induction F as [|[[x r|] t] p js ps Hp F IH]; constructor; auto.
Qed.
Print Assumptions C70_memory_history.

(** 1/4 is stored and recalled, recalled again, then 3/4 is stored and recalled: 1/4, 1, 3/4 *)
Example C70_ex : exists m s p1 p2 p3,
  session (MemoryNetwork (DataEncoder 10 100) None) mm_mod (DataEncoder 10 100) ms
    (fun m => [SValue (1/4) (mm_input m) 0; SSpike (mm_recall m) (0 + 150); SSpike (mm_recall m) 300; SValue (3/4) (mm_input m) 500; SSpike (mm_recall m) (500 + 120)]) id_ord 800 = Ok (m, s) /\
  spike_log s (mm_output m) = p1 ++ p2 ++ p3 /\ length (spike_log s (mm_ready m)) = 2%nat /\
  pair_says (DataEncoder 10 100) (1/4) (3 * ms / 100) p1 /\ pair_says (DataEncoder 10 100) 1 (3 * ms / 100) p2 /\ pair_says (DataEncoder 10 100) (3/4) (3 * ms / 100) p3.
Proof.
  destruct (C70_memory_history 10 100 ms 800 [(MStore (1/4) 150, 0); (MRecall, 300); (MStore (3/4) 120, 500)] None id_ord) as (m & s & ps & E & A & B & F); try lra; [apply id_ord_ok| |].
  - cbn [jobs_ok fst snd]. repeat (apply conj); auto; lra.
  - inversion F as [|j p js' ps' S1 F1]; subst. inversion F1 as [|j2 p2 js2 ps2 S2 F2]; subst. inversion F2 as [|j3 p3 js3 ps3 S3 F3]; subst. inversion F3; subst.
    cbn [fst snd] in S1, S2, S3. destruct S1 as [P1 L1], S2 as [P2 L2], S3 as [P3 L3].
    cbn [map concat] in A, B. rewrite app_nil_r in A, B. exists m, s, (fst p), (fst p2), (fst p3). split; [exact E|]. split; [exact A|].
    split; [rewrite B, L2, !app_length, L1, L3; reflexivity|]. auto.
Qed.

(** ** Storing does not overwrite *)
(** the script (any arithmetic T): store every value of [sts] at its time, then a recall spike at each time of [rcs]; the output's log *)
Definition mem_script {T} `{Num T} (enc : encoder T) (sts : list (T * T)) (rcs : list T) (dt D : T) : res (list T) :=
  let* mw := MemoryNetwork enc None empty_world in
  let m := fst mw in
  let* c := mk_simulator (snd mw) (mm_mod m) enc dt in
  let* s1 := rfold (fun s p => apply_input_value (fst c) s (fst p) (mm_input m) (snd p)) sts (snd c) in
  let s2 := fold_left (fun s t => apply_input_spike (fst c) s (mm_recall m) t) rcs s1 in
  let* s3 := simulate (fst c) id_ord s2 D in
  Ok (spike_log s3 (mm_output m)).
(** binary64, Tmin=10, Tcod=100, dt=0.5.  3/4 stored in a new memory is recalled as 3/4; stored over 1/2, that was never recalled,
    it is recalled as 0.255 (the two values add up: 1/2 + 3/4 - 1); and storing 1/4 twice makes the output spike although the
    memory was never recalled. *)
Theorem C70_overwrite_refuted :
  let enc := DataEncoder (T := PrimFloat.float) (nofZ 10) (nofZ 100) in
  let run := fun sts rcs => mem_script enc sts rcs (nlit 1 2) (nofZ 600) in
  (exists a b, run [(nlit 3 4, nofZ 200)] [nofZ 400] = Ok [a; b] /\ decode_interval enc (nsub b a) = Ok (nlit 3 4)) /\
  (exists a b y, run [(nlit 1 2, nofZ 0); (nlit 3 4, nofZ 200)] [nofZ 400] = Ok [a; b] /\ decode_interval enc (nsub b a) = Ok y /\ PrimFloat.ltb y (nlit 26 100) = true) /\
  (exists a, run [(nlit 1 4, nofZ 0); (nlit 1 4, nofZ 200)] [] = Ok [a]).
Proof.
  cbv zeta. split; [|split].
  - exists 402%float, 487%float. split; vm_compute; reflexivity.
  - exists 402%float, 437.5%float. eexists. split; [vm_compute; reflexivity|split; [vm_compute; reflexivity|vm_compute; reflexivity]].
  - exists 274%float. vm_compute. reflexivity.
Qed.
Print Assumptions C70_overwrite_refuted.

(** the refutation's second case is no accident of its literals: two stores before one recall add up, in every memory, over the reals,
    for all values whose sum leaves the recalled interval positive; what is recalled is x1 + x2 - 1 up to 6 steps, and ready
    spiked for each store *)
Theorem C70_stores_add_up : forall (tmin tcod dt x1 x2 t1 t2 tr T : R) nm ord,
  0 < dt <= 1 / 2 -> 0 < tcod -> 1 + dt <= tmin -> 0 <= x1 <= 1 -> 0 <= x2 <= 1 -> 0 <= t1 ->
  (* the second store comes after the first is complete, the recall after the second *)
  t1 + 2 + (tmin + tcod) + 3 * dt <= t2 -> t2 + 2 + (tmin + tcod) + 3 * dt <= tr ->
  7 * dt <= tmin + (x1 + x2 - 1) * tcod ->
  tr + 2 + (tmin + (x1 + x2 - 1) * tcod) + 8 * dt <= T -> ord_ok ord ->
  exists m s, session (MemoryNetwork (DataEncoder tmin tcod) nm) mm_mod (DataEncoder tmin tcod) dt
      (fun m => [SValue x1 (mm_input m) t1; SValue x2 (mm_input m) t2; SSpike (mm_recall m) tr]) ord T = Ok (m, s) /\
    pair_says (DataEncoder tmin tcod) (x1 + x2 - 1) (6 * dt / tcod) (spike_log s (mm_output m)) /\
    length (spike_log s (mm_ready m)) = 2%nat.
Proof. exact memory_two_stores. Qed.
Print Assumptions C70_stores_add_up.
Example C70_add_ex : exists m s,
  session (MemoryNetwork (DataEncoder 10 100) None) mm_mod (DataEncoder 10 100) ms
    (fun m => [SValue (1/2) (mm_input m) 0; SValue (3/4) (mm_input m) 200; SSpike (mm_recall m) 400]) id_ord 600 = Ok (m, s) /\
  pair_says (DataEncoder 10 100) (1/2 + 3/4 - 1) (6 * ms / 100) (spike_log s (mm_output m)) /\ length (spike_log s (mm_ready m)) = 2%nat.
Proof. apply C70_stores_add_up; try lra. apply id_ord_ok. Qed.

(** and the third: whenever the two values are small enough (x1 + x2 <= 1 - (Tmin + 5 dt)/Tcod), the output of a memory that is never
    recalled spikes, once, 4 ms + 2 Tmin + (x1 + x2) Tcod after the second store began *)
Theorem C70_spikes_without_recall : forall (tmin tcod dt x1 x2 t1 t2 T : R) nm ord,
  0 < dt <= 1 / 2 -> 0 < tcod -> 1 + dt <= tmin -> 0 <= x1 <= 1 -> 0 <= x2 <= 1 -> 0 <= t1 ->
  t1 + 2 + (tmin + tcod) + 3 * dt <= t2 -> tmin + 5 * dt <= (1 - x1 - x2) * tcod -> t2 + 4 + (tmin + tcod) + 4 * dt <= T -> ord_ok ord ->
  exists m s t, session (MemoryNetwork (DataEncoder tmin tcod) nm) mm_mod (DataEncoder tmin tcod) dt
      (fun m => [SValue x1 (mm_input m) t1; SValue x2 (mm_input m) t2]) ord T = Ok (m, s) /\
    spike_log s (mm_output m) = [t] /\ Rabs (t - (t2 + 4 + 2 * tmin + (x1 + x2) * tcod)) <= 4 * dt.
Proof. exact memory_spurious. Qed.
Print Assumptions C70_spikes_without_recall.
Example C70_spur_ex : exists m s t,
  session (MemoryNetwork (DataEncoder 10 100) None) mm_mod (DataEncoder 10 100) ms
    (fun m => [SValue (1/4) (mm_input m) 0; SValue (1/4) (mm_input m) 200]) id_ord 600 = Ok (m, s) /\
  spike_log s (mm_output m) = [t] /\ Rabs (t - 274) <= 4 * ms.
Proof.
  destruct (C70_spikes_without_recall 10 100 ms (1/4) (1/4) 0 200 600 None id_ord) as (m & s & t & A & B & C); try lra; [apply id_ord_ok|].
  exists m, s, t. split; [exact A|split; [exact B|]]. replace 274 with (200 + 4 + 2 * 10 + (1 / 4 + 1 / 4) * 100) by lra. exact C.
Qed.
