(** ConstantNetwork, SignedConstantNetwork, SignFlipperNetwork and InvertingMemoryNetwork can be used again and again (C63).
    Reading aid (all of it specification, none of it taken from the proofs):
    - [jobs_ok X ok span from js T] (Jobs.v): js is a list of computations (argument, start time); every argument is ok, the first
      starts at [from] or later, each later one starts [span] or more after the one before it, and T leaves time for the last;
    - [pair_says enc v eps l] (RestFun.v): l is one pair of spikes whose interval decodes to v up to eps;
    - [says_on enc eps v plus minus] (ConstReuse.v): the output of the sign of v carries one pair that decodes to |v| up to eps, the
      other output nothing;
    - [says_flip enc eps (p, x) plus minus] (IMReuse.v): the minus output (p = true: x was given on the plus input) or the plus
      output (p = false) carries one pair that decodes to x up to eps, the other output nothing. *)
From Coq Require Import Arith ZArith Bool List Reals Lra Lia.
From Verif Require Import Num Elements Simulator Networks Trace SimTrace SimProps NeuronLib NetLib MemoryProof Session SegLib Jobs RestFun ConstReuse IMReuse PropsCore PropsNets PropsRest.
Import ListNotations.
Open Scope R_scope.
Open Scope list_scope.
Local Notation ms := (/ 1000).

(** every recall of a ConstantNetwork gives the constant once more *)
Theorem C63_constant_reuse : forall (tmin tcod v dt T : R) (ts : list R) nm ord,
  0 < dt -> 0 < tcod -> dt <= tmin + v * tcod -> ord_ok ord -> 0 <= T ->
  jobs_ok unit (fun _ => True) (fun _ => 1 + (tmin + v * tcod) + 2 * dt) 0 (map (fun t => (tt, t)) ts) T ->
  exists m s ps,
    session (ConstantNetwork (DataEncoder tmin tcod) v nm) k_mod (DataEncoder tmin tcod) dt (fun m => map (fun t => SSpike (k_recall m) t) ts) ord T = Ok (m, s) /\
    length ps = length ts /\ spike_log s (k_output m) = concat ps /\
    Forall (fun p => pair_says (DataEncoder tmin tcod) v (dt / tcod) p) ps.
Proof. exact constant_reuse. Qed.
Print Assumptions C63_constant_reuse.

Theorem C63_signed_constant_reuse : forall (tmin tcod v dt T : R) (ts : list R) nm ord,
  0 < dt -> 0 < tcod -> dt <= tmin + Rabs v * tcod -> 0 <= tmin -> ord_ok ord -> 0 <= T ->
  jobs_ok unit (fun _ => True) (fun _ => 1 + (tmin + Rabs v * tcod) + 2 * dt) 0 (map (fun t => (tt, t)) ts) T ->
  exists m s ps,
    session (SignedConstantNetwork (DataEncoder tmin tcod) v nm) sk_mod (DataEncoder tmin tcod) dt (fun m => map (fun t => SSpike (sk_recall m) t) ts) ord T = Ok (m, s) /\
    length ps = length ts /\ spike_log s (sk_output_plus m) = concat (map fst ps) /\ spike_log s (sk_output_minus m) = concat (map snd ps) /\
    Forall (fun p => says_on (DataEncoder tmin tcod) (dt / tcod) v (fst p) (snd p)) ps.
Proof. exact signed_constant_reuse. Qed.
Print Assumptions C63_signed_constant_reuse.
(** -0.25 recalled three times *)
Example C63_signed_constant_ex : exists m s p1 p2 p3,
  session (SignedConstantNetwork (DataEncoder 10 100) (- (1/4)) None) sk_mod (DataEncoder 10 100) ms (fun m => map (fun t => SSpike (sk_recall m) t) [5; 50; 100]) id_ord 200 = Ok (m, s) /\
  spike_log s (sk_output_plus m) = [] /\ spike_log s (sk_output_minus m) = p1 ++ p2 ++ p3 /\
  pair_says (DataEncoder 10 100) (1/4) (ms / 100) p1 /\ pair_says (DataEncoder 10 100) (1/4) (ms / 100) p2 /\ pair_says (DataEncoder 10 100) (1/4) (ms / 100) p3.
Proof.
  assert (AB : Rabs (- (1/4)) = 1/4) by (rewrite Rabs_Ropp, Rabs_right; lra).
  destruct (C63_signed_constant_reuse 10 100 (- (1/4)) ms 200 [5; 50; 100] None id_ord) as (m & s & ps & E & HL & LP & LM & F); rewrite ?AB; try lra; [apply id_ord_ok| |].
  - cbn [map jobs_ok fst snd]. repeat (apply conj); try exact I; lra.
  - destruct ps as [|p1 [|p2 [|p3 [|]]]]; try discriminate HL. inversion F as [|? ? S1 F1]; subst. inversion F1 as [|? ? S2 F2]; subst. inversion F2 as [|? ? S3 F3]; subst.
    unfold says_on in S1, S2, S3. rewrite AB in S1, S2, S3. destruct (Rle_dec 0 (- (1/4))) as [C|_]; [lra|]. destruct S1 as [S1 M1], S2 as [S2 M2], S3 as [S3 M3].
    cbn [map concat] in LP, LM. rewrite M1, M2, M3 in LP. rewrite app_nil_r in LM. exists m, s, (snd p1), (snd p2), (snd p3). repeat (apply conj); auto.
Qed.

(** values of either sign, one after the other *)
Theorem C63_flipper_reuse : forall (tmin tcod dt T : R) (js : list ((bool * R) * R)) nm ord,
  0 < dt -> 0 < tcod -> dt <= tmin -> ord_ok ord -> 0 <= T ->
  jobs_ok (bool * R) (fun x => 0 <= snd x <= 1) (fun _ => 1 + (tmin + tcod) + 2 * dt) 0 js T ->
  exists m s ps,
    session (SignFlipperNetwork (DataEncoder tmin tcod) nm) sf_mod (DataEncoder tmin tcod) dt
      (fun m => map (fun j : bool * R * R => SValue (snd (fst j)) (if fst (fst j) then sf_inp_plus m else sf_inp_minus m) (snd j)) js) ord T = Ok (m, s) /\
    spike_log s (sf_outp_plus m) = concat (map fst ps) /\ spike_log s (sf_outp_minus m) = concat (map snd ps) /\
    Forall2 (fun j p => says_flip (DataEncoder tmin tcod) (dt / tcod) (fst j) (fst p) (snd p)) js ps.
Proof. exact flipper_reuse. Qed.
Print Assumptions C63_flipper_reuse.
(** 0.5, then -0.25, then 0 *)
Example C63_flipper_ex : exists m s p q1 q2,
  session (SignFlipperNetwork (DataEncoder 10 100) None) sf_mod (DataEncoder 10 100) ms
    (fun m => map (fun j : bool * R * R => SValue (snd (fst j)) (if fst (fst j) then sf_inp_plus m else sf_inp_minus m) (snd j)) [((true, 1/2), 0); ((false, 1/4), 120); ((true, 0), 240)]) id_ord 400 = Ok (m, s) /\
  spike_log s (sf_outp_plus m) = p /\ spike_log s (sf_outp_minus m) = q1 ++ q2 /\
  pair_says (DataEncoder 10 100) (1/4) (ms / 100) p /\ pair_says (DataEncoder 10 100) (1/2) (ms / 100) q1 /\ pair_says (DataEncoder 10 100) 0 (ms / 100) q2.
Proof.
  destruct (C63_flipper_reuse 10 100 ms 400 [((true, 1/2), 0); ((false, 1/4), 120); ((true, 0), 240)] None id_ord) as (m & s & ps & E & LP & LM & F); try lra; [apply id_ord_ok| |].
  - cbn [jobs_ok fst snd]. repeat (apply conj); lra.
  - inversion F as [|j p js' ps' S1 F1]; subst. inversion F1 as [|j2 p2 js2 ps2 S2 F2]; subst. inversion F2 as [|j3 p3 js3 ps3 S3 F3]; subst. inversion F3; subst.
    unfold says_flip in S1, S2, S3. cbn [fst snd] in S1, S2, S3. destruct S1 as [S1 M1], S2 as [S2 M2], S3 as [S3 M3].
    cbn [map concat] in LP, LM. rewrite M1, M3 in LP. rewrite M2 in LM. rewrite !app_nil_r in LP. rewrite app_nil_r in LM. cbn [app] in LP, LM.
    exists m, s, (fst p2), (snd p), (snd p3). repeat (apply conj); auto.
Qed.

(** A history of an InvertingMemoryNetwork: [Store x r] stores x and recalls it r later, [Recall] recalls with nothing stored since the
    last recall. A stored value comes back as 1 - x, once: reading is destructive, a further recall gives 1 whatever had been stored. *)
Theorem C63_inverting_memory_history : forall (tmin tcod dt T : R) (js : list (im_job * R)) nm ord,
  0 < dt <= 1 / 4 -> 0 < tcod -> 1 + dt <= tmin -> ord_ok ord -> 0 <= T ->
  jobs_ok im_job (fun j => match j with Store x r => 0 <= x <= 1 /\ 1 + (tmin + tcod) + 2 * dt <= r | Recall => True end)
    (fun j => match j with Store x r => r + (tmin + tcod) + 4 + 6 * dt | Recall => tmin + tcod + 4 + 6 * dt end) 0 js T ->
  exists m s ps,
    session (InvertingMemoryNetwork (DataEncoder tmin tcod) nm) im_mod (DataEncoder tmin tcod) dt
      (fun m => flat_map (fun j => match fst j with
          | Store x r => [SValue x (im_input m) (snd j); SSpike (im_recall m) (snd j + r)]
          | Recall => [SSpike (im_recall m) (snd j)] end) js) ord T = Ok (m, s) /\
    spike_log s (im_output m) = concat ps /\
    Forall2 (fun j p => pair_says (DataEncoder tmin tcod) (match fst j with Store x r => 1 - x | Recall => 1 end) ((3 * dt + / 100) / tcod) p) js ps.
Proof. exact inverting_memory_history. Qed.
Print Assumptions C63_inverting_memory_history.
(** 0.25 recalled after 120 and once more at 300, then 1 recalled after 200 *)
Example C63_inverting_memory_ex : exists m s p1 p2 p3,
  session (InvertingMemoryNetwork (DataEncoder 10 100) None) im_mod (DataEncoder 10 100) ms
    (fun m => [SValue (1/4) (im_input m) 0; SSpike (im_recall m) (0 + 120); SSpike (im_recall m) 300; SValue 1 (im_input m) 450; SSpike (im_recall m) (450 + 200)]) id_ord 900 = Ok (m, s) /\
  spike_log s (im_output m) = p1 ++ p2 ++ p3 /\
  pair_says (DataEncoder 10 100) (3/4) (13 * ms / 100) p1 /\ pair_says (DataEncoder 10 100) 1 (13 * ms / 100) p2 /\ pair_says (DataEncoder 10 100) 0 (13 * ms / 100) p3.
Proof.
  destruct (C63_inverting_memory_history 10 100 ms 900 [(Store (1/4) 120, 0); (Recall, 300); (Store 1 200, 450)] None id_ord) as (m & s & ps & E & L & F); try lra; [apply id_ord_ok| |].
  - cbn [jobs_ok fst snd]. repeat (apply conj); try exact I; lra.
  - inversion F as [|j p js' ps' S1 F1]; subst. inversion F1 as [|j2 p2 js2 ps2 S2 F2]; subst. inversion F2 as [|j3 p3 js3 ps3 S3 F3]; subst. inversion F3; subst.
    cbn [fst snd] in S1, S2, S3. replace (3 * ms + / 100) with (13 * ms) in S1, S2, S3 by lra.
    replace (1 - 1/4) with (3/4) in S1 by lra. replace (1 - 1) with 0 in S3 by lra.
    cbn [concat] in L. rewrite app_nil_r in L. exists m, s, p, p2, p3. split; [exact E|]. repeat (apply conj); auto.
Qed.
