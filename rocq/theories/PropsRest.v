(** A network that has come back to rest can be used again as if it were new (C52).
    [resting], [later], [timetable], [joined] (Reuse.v) are the specification:
    - [resting w s]: no event is pending and every neuron has the state it was created with;
    - [later d B]: the inputs B, every one of them d time units later;
    - [timetable dt rs]: the inputs of the rounds rs one after the other, round i starting when the rounds before it are over;
    - [joined dt ks logs]: the logs of the rounds one after the other, each shifted to the start of its round;
    - [jobs_ok X ok span from js T] (Jobs.v): js is a list of computations (argument, start time); every argument is ok, the
      first starts at [from] or later, each later one starts [span] or more after the one before it, and T leaves time for the last;
    - [pair_says enc v eps l] (RestFun.v): l is a pair of spike times whose interval decodes to v up to eps. *)
From Coq Require Import Arith ZArith Bool List Reals Lra Lia Permutation.
From Coq Require Floats.
From Verif Require Import Num Heapq Elements Simulator Networks Trace SimTrace SimProps SimRel NeuronLib NetLib MemoryProof Build BuildNets Bridge Session SimpleNets FuncNets ExpLog Reuse Jobs RestFun PropsCore PropsNets.
Import ListNotations.
Open Scope R_scope.
Open Scope list_scope.
Local Notation ms := (/ 1000).

Lemma F2_len {A B} (P : A -> B -> Prop) l l' : Forall2 P l l' -> length l = length l'.
Proof. induction 1; cbn [length]; auto. Qed.

(** ** two rounds *)
Theorem C52_rest_is_fresh : forall c A B ordA ordB ord K T, wf c A -> wf c B -> ord_ok ordA -> ord_ok ordB -> ord_ok ord -> 0 <= T ->
  (forall p y, In p B -> In y (w_syns (c_world c)) -> s_pre y = fst p -> 0 < snd p + s_delay y) ->
  exists sA sB s,
    simulate c ordA (inject c (new_sim (c_world c)) A) (INR K * c_dt c) = Ok sA /\
    simulate c ordB (inject c (new_sim (c_world c)) B) T = Ok sB /\
    simulate c ord (inject c (new_sim (c_world c)) (A ++ later (INR K * c_dt c) B)) (T + INR K * c_dt c) = Ok s /\
    (resting (c_world c) sA ->
      (forall n, (n < length (w_neurons (c_world c)))%nat ->
         Permutation (spike_log s n) (spike_log sA n ++ map (fun t => t + INR K * c_dt c) (spike_log sB n)) /\
         (~ In n (map fst B) -> spike_log s n = spike_log sA n ++ map (fun t => t + INR K * c_dt c) (spike_log sB n)) /\
         voltage_log s n = voltage_log sA n ++ map (fun p => (fst p, (snd p + K)%nat)) (voltage_log sB n)) /\
      s_sts s = s_sts sB /\ s_cnt s = cnt_add (s_cnt sA) (s_cnt sB) /\ (resting (c_world c) s <-> resting (c_world c) sB)).
Proof. exact simulate_again. Qed.
Print Assumptions C52_rest_is_fresh.

(** ** any number of rounds *)
Theorem C52_rounds : forall c ord (rs : list (list (nat * R) * nat)) ss, wf c [] -> (forall r, In r rs -> wf c (fst r)) -> ord_ok ord ->
  (forall r p y, In r rs -> In p (fst r) -> In y (w_syns (c_world c)) -> s_pre y = fst p -> 0 < snd p + s_delay y) ->
  Forall2 (fun r s => simulate c ord (inject c (new_sim (c_world c)) (fst r)) (INR (snd r) * c_dt c) = Ok s /\ resting (c_world c) s) rs ss ->
  exists s, simulate c ord (inject c (new_sim (c_world c)) (timetable (c_dt c) rs)) (INR (duration rs) * c_dt c) = Ok s /\
    resting (c_world c) s /\
    forall n, (n < length (w_neurons (c_world c)))%nat ->
      Permutation (spike_log s n) (joined (c_dt c) (map snd rs) (map (fun s => spike_log s n) ss)) /\
      ((forall r, In r rs -> ~ In n (map fst (fst r))) -> spike_log s n = joined (c_dt c) (map snd rs) (map (fun s => spike_log s n) ss)).
Proof. exact simulate_rounds. Qed.
Print Assumptions C52_rounds.

(** a network, an input and a run that ends at rest after having done something: exp(-(1/2)*100/20) *)
Example C52_ex : exists c A K s n t1 t2, wf c A /\ wf c [] /\ A <> [] /\
  (forall p y, In p A -> In y (w_syns (c_world c)) -> s_pre y = fst p -> 0 < snd p + s_delay y) /\
  simulate c id_ord (inject c (new_sim (c_world c)) A) (INR K * c_dt c) = Ok s /\ resting (c_world c) s /\ spike_log s n = [t1; t2] /\ t1 < t2.
Proof.
  assert (HK : INR (Z.to_nat 230000) * / 1000 = 230) by (rewrite INR_Z by lia; lra).
  set (enc := DataEncoder 10 100). assert (HTc : 100 <> 0) by lra.
  destruct (Exp_built enc None empty_world inv_empty (neq0 _ HTc)) as (m & w & E & HB & HN & HL).
  cbn [w_neurons empty_world length Nat.add] in HN, HL. pose proof HN as HN'. unfold ex_nodes in HN'. nodes_eqs HN'.
  destruct (session_eq (ExponentialNetwork enc None) ex_mod m w _ enc (/ 1000) id_ord E HB) as (c & Ew & Ed & WF & ES); try lra.
  pose proof (exp_quiet 10 100 (1/2) (/ 1000) 0 (Z.to_nat 230000) m w None ltac:(lra) ltac:(lra) ltac:(lra) ltac:(lra) ltac:(lra) ltac:(lra) ltac:(right; lra) ltac:(lra) E HB HN HL) as HQ.
  rewrite <- HL in HQ.
  assert (ST : Forall (stim_ok (length (w_neurons w))) [SValue (1/2) (ex_input m) 0]) by stims_ok.
  destruct (session_rests (ExponentialNetwork enc None) ex_mod m w _ enc (/ 1000) id_ord E HB ltac:(lra) id_ord_ok (fun m => [SValue (1/2) (ex_input m) 0]) (Z.to_nat 230000) ST HQ) as (s & Es & RS).
  destruct (exponential_run 10 100 (1/2) (/ 1000) 0 (INR (Z.to_nat 230000) * / 1000) None id_ord) as (m' & s' & Es' & _ & _ & EM); try lra; [apply id_ord_ok|].
  fold enc in Es'. rewrite Es in Es'. injection Es' as <- <-. destruct EM as (t1 & t2 & yv & L1 & L2 & _).
  rewrite ES in Es by exact ST.
  exists c, (exts enc [SValue (1/2) (ex_input m) 0]), (Z.to_nat 230000), s, (ex_output m), t1, t2.
  split; [apply WF; apply (exts_in enc _ _ ST)|]. split; [apply WF; contradiction|]. split; [discriminate|]. split.
  - intros p y Hp Hy _. pose proof (b_syn _ _ _ _ HB) as EY. cbn [w_syns empty_world app] in EY. rewrite Ew, EY in Hy.
    assert (0 < s_delay y) by (unfold ex_syns in Hy; cbn [In] in Hy; repeat destruct Hy as [<-|Hy]; try destruct Hy; cbn [s_delay syn mks enc DataEncoder Tmin]; autorewrite with netR; lra).
    unfold exts in Hp. cbn [flat_map stim_ext app In enc DataEncoder Tmin Tcod] in Hp. destruct Hp as [<-|[<-|[]]]; cbn [snd]; lra.
  - rewrite Ew, Ed. destruct (simulate c id_ord _ _) as [s2|] eqn:E2; [|discriminate]. cbn [rbind] in Es. injection Es as ->. auto.
Qed.

(** ** networks that come back to rest, used for any number of computations *)
Theorem C29_exponential_reuse : forall (tmin tcod dt T : R) (js : list (R * R)) nm ord,
  0 < dt <= 1 / 2 -> 0 < tcod -> 1 + dt <= tmin -> 4 * dt <= tmin -> ord_ok ord -> 0 <= T ->
  jobs_ok R (fun x => 0 <= x <= 1 /\ (aligned dt tmin \/ 2 * dt <= x * tcod)) (fun _ => 5 + 2 * (tmin + tcod) + 11 * dt) 0 js T ->
  exists m s ps,
    session (ExponentialNetwork (DataEncoder tmin tcod) nm) ex_mod (DataEncoder tmin tcod) dt
      (fun m => flat_map (fun j => [SValue (fst j) (ex_input m) (snd j)]) js) ord T = Ok (m, s) /\
    spike_log s (ex_output m) = concat ps /\
    Forall2 (fun j p => pair_says (DataEncoder tmin tcod) (exp (- (fst j * tcod / 20))) (3 * dt / tcod + 3 * dt / 20) p) js ps.
Proof. exact exponential_reuse. Qed.
Print Assumptions C29_exponential_reuse.
Example C29_reuse_ex : exists m s ps,
  session (ExponentialNetwork (DataEncoder 10 100) None) ex_mod (DataEncoder 10 100) ms
    (fun m => [SValue (1/4) (ex_input m) 0; SValue (1/2) (ex_input m) 300; SValue 1 (ex_input m) 600]) id_ord 900 = Ok (m, s) /\
  spike_log s (ex_output m) = concat ps /\ length ps = 3%nat.
Proof.
  destruct (C29_exponential_reuse 10 100 ms 900 [(1/4, 0); (1/2, 300); (1, 600)] None id_ord) as (m & s & ps & E & L & F); try lra; [apply id_ord_ok| |].
  - cbn [jobs_ok fst snd]. assert (HA : aligned ms 10) by apply aligned_ms. repeat split; try lra; left; exact HA.
  - exists m, s, ps. split; [exact E|]. split; [exact L|]. apply F2_len in F. auto.
Qed.

Theorem C27_scalar_multiplier_reuse : forall (tmin tcod f dt T : R) (js : list (R * R)) nm ord,
  0 < dt <= 1 / 2 -> 0 < tcod -> 0 < f -> 1 + dt <= tmin -> (3 + 3 * f) * dt <= tmin -> ord_ok ord -> 0 <= T ->
  jobs_ok R (fun x => 0 <= x <= 1 /\ f * x <= 1 /\ (aligned dt tmin \/ 3 * dt <= x * tcod)) (fun _ => 5 + 3 * tmin + (tmin + tcod) / f + tcod + 6 * dt) 0 js T ->
  exists m s ps,
    session (ScalarMultiplierNetwork f (DataEncoder tmin tcod) nm) sc_mod (DataEncoder tmin tcod) dt
      (fun m => flat_map (fun j => [SValue (fst j) (sc_input m) (snd j)]) js) ord T = Ok (m, s) /\
    spike_log s (sc_output m) = concat ps /\
    Forall2 (fun j p => pair_says (DataEncoder tmin tcod) (f * fst j) ((2 + 3 * f) * dt / tcod) p) js ps.
Proof. exact scalar_mul_reuse. Qed.
Print Assumptions C27_scalar_multiplier_reuse.
Example C27_reuse_ex : exists m s ps,
  session (ScalarMultiplierNetwork 2 (DataEncoder 10 100) None) sc_mod (DataEncoder 10 100) ms
    (fun m => [SValue (1/4) (sc_input m) 0; SValue (1/2) (sc_input m) 300; SValue 0 (sc_input m) 600]) id_ord 900 = Ok (m, s) /\
  spike_log s (sc_output m) = concat ps /\ length ps = 3%nat.
Proof.
  destruct (C27_scalar_multiplier_reuse 10 100 2 ms 900 [(1/4, 0); (1/2, 300); (0, 600)] None id_ord) as (m & s & ps & E & L & F); try lra; [apply id_ord_ok| |].
  - cbn [jobs_ok fst snd]. assert (HA : aligned ms 10) by apply aligned_ms. repeat split; try lra; left; exact HA.
  - exists m, s, ps. split; [exact E|]. split; [exact L|]. apply F2_len in F. auto.
Qed.

(** 0 has no logarithm, and 1 (up to the resolution) is excluded: its accumulator fires before it is inhibited *)
Theorem C30_log_reuse : forall (tmin tcod dt T : R) (js : list (R * R)) nm ord,
  0 < dt <= 1 / 2 -> 0 < tcod -> 1 + dt <= tmin -> 6 * dt <= tmin -> ord_ok ord -> 0 <= T ->
  jobs_ok R (fun x => 0 < x <= 1 /\ 4 * dt <= x * tcod /\ x * tcod + 2 * dt <= tcod)
    (fun x => 25 + 2 * tmin + tcod + (20 + dt) * - ln x + 11 * dt) 0 js T ->
  exists m s ps,
    session (LogNetwork (DataEncoder tmin tcod) nm) lg_mod (DataEncoder tmin tcod) dt
      (fun m => flat_map (fun j => [SValue (fst j) (lg_input m) (snd j)]) js) ord T = Ok (m, s) /\
    spike_log s (lg_output m) = concat ps /\
    Forall2 (fun j p => pair_says (DataEncoder tmin tcod) (20 * - ln (fst j) / tcod) (((4 + - ln (fst j)) * dt + 80 * dt / (fst j * tcod)) / tcod) p) js ps.
Proof. exact log_reuse. Qed.
Print Assumptions C30_log_reuse.
Example C30_reuse_ex : exists m s ps,
  session (LogNetwork (DataEncoder 10 100) None) lg_mod (DataEncoder 10 100) ms
    (fun m => [SValue (1/4) (lg_input m) 0; SValue (1/2) (lg_input m) 300]) id_ord 600 = Ok (m, s) /\
  spike_log s (lg_output m) = concat ps /\ length ps = 2%nat.
Proof.
  assert (B : forall x, 1/4 <= x <= 1 -> 0 <= - ln x <= 3).
  { intros x Hx. split; [apply LnLib.ln_neg; lra|]. apply Rnot_lt_le. intros C.
    assert (C' : ln x < Ropp 3) by lra. apply exp_increasing in C'. rewrite exp_ln in C' by lra. rewrite exp_Ropp in C'.
    pose proof (exp_ineq1 3 ltac:(lra)). assert (/ exp 3 < / 4) by (apply Rinv_lt_contravar; [apply Rmult_lt_0_compat; lra|lra]). lra. }
  pose proof (B (1/4) ltac:(lra)). pose proof (B (1/2) ltac:(lra)).
  destruct (C30_log_reuse 10 100 ms 600 [(1/4, 0); (1/2, 300)] None id_ord) as (m & s & ps & E & L & F); try lra; [apply id_ord_ok| |].
  - cbn [jobs_ok fst snd]. set (a := - ln (1/4)) in *. set (b := - ln (1/2)) in *. repeat split; try lra.
  - exists m, s, ps. split; [exact E|]. split; [exact L|]. apply F2_len in F. auto.
Qed.

(** ** the library networks do not all come back to rest: MultiplierNetwork after a product with a zero factor, LogNetwork after 0 *)
(** the script (any arithmetic): products a*b presented at t *)
Definition mul_script {T} `{Num T} (enc : encoder T) (js : list (T * T * T)) (dt D : T) : res (mul_net * sim T) :=
  let* mw := MultiplierNetwork enc None empty_world in
  let m := fst mw in
  let* c := mk_simulator (snd mw) (mu_mod m) enc dt in
  let* s1 := rfold (fun s p => let '(a, b, t) := p in
               let* s' := apply_input_value (fst c) s a (mu_input1 m) t in
               apply_input_value (fst c) s' b (mu_input2 m) t) js (snd c) in
  let* s2 := simulate (fst c) id_ord s1 D in
  Ok (m, s2).
(** decode the output log pair by pair *)
Fixpoint decode_pairs {T} `{Num T} (enc : encoder T) (l : list T) : option (list T) :=
  match l with
  | [] => Some []
  | a :: b :: l' => match decode_interval enc (nsub b a), decode_pairs enc l' with Ok v, Some vs => Some (v :: vs) | _, _ => None end
  | _ => None
  end.
Definition mul_values {T} `{Num T} (enc : encoder T) (r : res (mul_net * sim T)) : option (list T) :=
  match r with Ok (m, s) => decode_pairs enc (spike_log s (mu_output m)) | Err _ => None end.
Definition near {T} `{Num T} (eps a b : T) : bool := nltb (nsub a b) eps && nltb (nsub b a) eps.
Definition gives {T} `{Num T} (eps : T) (r : option (list T)) (vs : list T) : bool :=
  match r with Some l => (Nat.eqb (List.length l) (List.length vs) && forallb (fun p => near eps (fst p) (snd p)) (combine l vs))%bool | None => false end.
(** binary64, Tmin=10, Tcod=100, dt=1/8: the second product, presented 600 ms after the first, is 1/2*1/4.
    After 1/2*1/2 it comes out right; after 1/2*0 it comes out as 0. *)
Theorem C52_zero_product_refuted :
  let enc := DataEncoder (nofZ 10) (nofZ 100) in
  let vals js := mul_values enc (mul_script (T := PrimFloat.float) enc js (nlit 1 8) (nofZ 1400)) in
  gives (nlit 1 100) (vals [(nlit 1 2, nlit 1 4, nofZ 600)]) [nlit 1 8] = true /\
  gives (nlit 1 100) (vals [(nlit 1 2, nlit 1 2, nofZ 0); (nlit 1 2, nlit 1 4, nofZ 600)]) [nlit 1 4; nlit 1 8] = true /\
  gives (nlit 1 100) (vals [(nlit 1 2, nofZ 0, nofZ 0); (nlit 1 2, nlit 1 4, nofZ 600)]) [nofZ 0; nofZ 0] = true.
Proof. vm_compute. repeat split. Qed.
Print Assumptions C52_zero_product_refuted.

(** LogNetwork, same encoder and dt: log(1/2) presented at 600 comes out right after log(1/4); after log(0) the
    output has an odd number of spikes, and none at the time (686.75) of the second spike of the pair *)
Definition log_script {T} `{Num T} (enc : encoder T) (js : list (T * T)) (dt D : T) : res (log_net * sim T) :=
  let* mw := LogNetwork enc None empty_world in
  let m := fst mw in
  let* c := mk_simulator (snd mw) (lg_mod m) enc dt in
  let* s1 := rfold (fun s p => apply_input_value (fst c) s (fst p) (lg_input m) (snd p)) js (snd c) in
  let* s2 := simulate (fst c) id_ord s1 D in
  Ok (m, s2).
Definition log_output {T} (r : res (log_net * sim T)) : list T := match r with Ok (m, s) => spike_log s (lg_output m) | Err _ => [] end.
Theorem C52_log_of_zero_refuted :
  let enc := DataEncoder (nofZ 10) (nofZ 100) in
  let out js := log_output (log_script (T := PrimFloat.float) enc js (nlit 1 8) (nofZ 1200)) in
  out [(nlit 1 2, nofZ 600)] = [nofZ 663; nlit 2747 4] /\
  out [(nlit 1 4, nofZ 0); (nlit 1 2, nofZ 600)] = [nofZ 38; nlit 605 8; nofZ 663; nlit 2747 4] /\
  out [(nofZ 0, nofZ 0); (nlit 1 2, nofZ 600)] = [nofZ 13; nofZ 623; nofZ 663].
Proof. vm_compute. repeat split. Qed.
Print Assumptions C52_log_of_zero_refuted.
