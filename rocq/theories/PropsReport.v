(** Properties of the usage report: C38, C39, C44. *)
From Coq Require Import Arith ZArith Bool String List Reals Lra Lia Permutation.
From Verif Require Import Num NumOrd Heapq Elements CancelQueue Simulator Trace Scalar PredSim PredNeuron PredProofs PropsPred Report ReportProofs.
Import ListNotations.
Open Scope list_scope.
Open Scope R_scope.

(** ** C38 *)
(** In every reachable state of the predictive simulator the counter that the report calls
    "gm" is 0, and the report accounts V + 13 (ge + gf) updates where the simulation
    processed V + 13 (ge + gf + gate) (13 = ceil(log2 5000)). *)
Theorem C38_gate_updates_refuted : forall c ins h s, pwf c -> preach c ins h s ->
  let n ty := List.length (filter (is_hit_of ty) (concat h)) in
  pcGm (ps_cnt s) = 0%nat /\
  exists p e, report_energy_latency_sim s = Ok (p, e) /\
    pf_updates p = (Z.of_nat (n SynV) + 13 * (Z.of_nat (n SynGe) + Z.of_nat (n SynGf)))%Z /\
    (n SynGate <> 0%nat -> pf_updates p <> Z.of_nat (n SynV) + 13 * (Z.of_nat (n SynGe) + Z.of_nat (n SynGf) + Z.of_nat (n SynGate)))%Z.
Proof.
  intros c ins h s WF HR n.
  assert (G0 : pcGm (ps_cnt s) = 0%nat).
  { destruct (preach_info c ins h s WF HR) as (L & now & []). rewrite pf_cnt.
    destruct (pcount_fold (hit_types (concat h)) {| pcV := 0; pcGe := 0; pcGf := 0; pcGm := 0; pcGate := 0 |}) as (A & _). rewrite A. reflexivity. }
  split; auto. destruct (C43_counters c ins h s WF HR) as (A & B & C & D). 
  assert (N : forall ty, List.length (filter (is_hit_of ty) (concat h)) = n ty) by reflexivity. rewrite !N in *. clearbody n.
  unfold report_energy_latency_sim, report_energy_latency. rewrite A, B, C, G0.
  destruct (perf_spec (Z.of_nat (n SynV)) (Z.of_nat (n SynGe)) (Z.of_nat (n SynGf)) (Z.of_nat 0) 5000 200 1) as (p & q & E & U & Q & Cy & Ti); try lia; try lra.
  change (Z.of_nat 0) with 0%Z in *. rewrite E. cbn [rbind].
  assert (HU : updates_of (Z.of_nat (n SynV)) (Z.of_nat (n SynGe)) (Z.of_nat (n SynGf)) 0 5000 = (Z.of_nat (n SynV) + 13 * (Z.of_nat (n SynGe) + Z.of_nat (n SynGf)))%Z).
  { unfold updates_of. replace (Z.log2_up 5000) with 13%Z by reflexivity. lia. }
  rewrite HU in U.
  assert (HT : 0 < pf_time p).
  { assert (0 < IZR (pf_cycles p)) by (apply IZR_lt; lia). rewrite <- Ti in H. nra. }
  destruct (energy_spec p 200 12 27 178 (9 / 10) HT) as (e & Ee & _); [lra|].
  rewrite Ee. cbn [rbind]. exists p, e. split; [reflexivity|]. split; auto. rewrite U. lia.
Qed.
Print Assumptions C38_gate_updates_refuted.

(** ** C39 *)
(** what estimate_performance computes: [v + ceil(log2 steps) (ge + gf + gm)] updates, done in
    ceil(updates / batch) slots of 3 cycles, plus 5 cycles of pipeline, at [clock] MHz *)
Theorem C39_value : forall v ge gf gm steps clock batch, (1 <= steps)%Z -> (1 <= batch)%Z -> 0 < clock ->
  exists p q l, estimate_performance v ge gf gm steps clock batch = Ok p /\
    (steps <= 2 ^ l)%Z /\ (0 <= l)%Z /\ (forall l', (0 <= l')%Z -> (steps <= 2 ^ l')%Z -> (l <= l')%Z) /\
    pf_updates p = (v + l * (ge + gf + gm))%Z /\
    (batch * (q - 1) < pf_updates p <= batch * q)%Z /\ pf_cycles p = (3 * q + 5)%Z /\
    pf_time p * (clock * 1000000) = IZR (pf_cycles p).
Proof.
  intros v ge gf gm steps clock batch Hs Hb Hc. destruct (perf_spec v ge gf gm steps clock batch Hs Hb Hc) as (p & q & E & U & Q & C & T).
  exists p, q, (Z.log2_up steps). split; auto. split.
  { destruct (Z.eq_dec steps 1) as [->|]; [cbn; lia|]. destruct (Z.log2_up_spec steps); lia. }
  split; [apply Z.log2_up_nonneg|]. split; auto.
  intros l' Hl Hle. apply Z.log2_up_le_mono in Hle. rewrite Z.log2_up_pow2 in Hle; lia.
Qed.
Theorem C39_monotone : forall v ge gf gm v' ge' gf' gm' steps clock clock' batch batch' p p',
  (1 <= steps)%Z -> (1 <= batch' <= batch)%Z -> 0 < clock' <= clock ->
  (0 <= v <= v')%Z -> (0 <= ge <= ge')%Z -> (0 <= gf <= gf')%Z -> (0 <= gm <= gm')%Z ->
  estimate_performance v ge gf gm steps clock batch = Ok p -> estimate_performance v' ge' gf' gm' steps clock' batch' = Ok p' ->
  (pf_updates p <= pf_updates p')%Z /\ (pf_cycles p <= pf_cycles p')%Z /\ pf_time p <= pf_time p' /\ (5 <= pf_cycles p)%Z.
Proof. exact perf_mono. Qed.
Theorem C39_errors : forall v ge gf gm steps clock batch,
  ((steps <= 0)%Z -> estimate_performance v ge gf gm steps clock batch = Err EValue) /\
  ((1 <= steps)%Z -> batch = 0%Z \/ clock = 0 -> estimate_performance v ge gf gm steps clock batch = Err EZeroDiv).
Proof. exact perf_errors. Qed.
(** energy = power x time, split in leakage, idle and dynamic parts; the dynamic energy is the energy
    per synaptic operation times the number of updates *)
Theorem C39_energy : forall p clock e_sop_pj p_leak_uw p_idle_uw vdd, 0 < pf_time p -> vdd <> 0 ->
  exists w, estimate_power_and_energy p clock e_sop_pj p_leak_uw p_idle_uw vdd = Ok w /\
    pw_total w = pw_leak w + pw_idle w + pw_dyn w /\ pw_leak w = p_leak_uw * / 1000000 /\ pw_idle w = p_idle_uw * clock * / 1000000 /\
    pw_dyn w * pf_time p = e_sop_pj * / 1000000000000 * IZR (pf_updates p) /\
    pw_energy w = pw_total w * pf_time p /\
    pw_energy w = (pw_leak w + pw_idle w) * pf_time p + e_sop_pj * / 1000000000000 * IZR (pf_updates p) /\
    pw_current w * vdd = pw_total w.
Proof.
  intros p clock e l i vdd Ht Hv. destruct (energy_spec p clock e l i vdd Ht Hv) as (w & E & A & B & C & D & F & G & _).
  exists w. split; auto. split; auto. split; auto. split; auto. split; auto. split; [|auto]. rewrite F, A. unfold pico in *. rewrite <- D. ring.
Qed.
(** the printed "x.xxx <prefix>" denotes the value: the prefix is one of p n u m - K M G with factor f,
    the printed number times f is the value, and it is in [1,1000) when 1e-12 <= v < 1e12 *)
Theorem C39_human_readable : forall v, let '(sc, pre) := human_readable v in
  exists f, In (f, pre) prefixes /\ sc * f = v /\ (/ 1000000000000 <= v < 1000000000000 -> 1 <= sc < 1000).
Proof. exact human_spec. Qed.
Print Assumptions C39_value.
Print Assumptions C39_monotone.
Print Assumptions C39_errors.
Print Assumptions C39_energy.
Print Assumptions C39_human_readable.
Example C39_ex : exists p, estimate_performance 42 9 3 4 5000 200 1 = Ok p /\ pf_updates p = 250%Z /\ pf_cycles p = 755%Z.
Proof.
  destruct (perf_spec 42 9 3 4 5000 200 1) as (p & q & E & U & Q & C & T); try lia; try lra. exists p. split; auto.
  assert (HU : pf_updates p = 250%Z) by (rewrite U; reflexivity). split; auto. lia.
Qed.

(** ** C44 *)
(** printed spike estimate of a net: the sum of the table values of its submodules, ValueError
    if one of them is of a class that is not in the table *)
Theorem C44_spike_estimation : forall subs,
  (In KOther subs -> spike_estimation subs = Err EValue) /\
  ((forall k, In k subs -> k <> KOther) ->
   spike_estimation subs = Ok (fold_right Z.add 0%Z (map (fun k => match k with KInjector => 2 | KSignFlipper => 4 | KMulNorm => 29 | KAdder => 58 | KDiv => 31 | KOther => 0 end%Z) subs))).
Proof.
  intros subs. split; [apply spike_estimation_unknown|]. intros H. destruct (spike_estimation_sum subs H) as (t & -> & ->). reflexivity.
Qed.
Lemma pinputs_fin c ins s : pinputs c ins s -> ps_fin s = false.
Proof.
  intros HI. induction HI as [|ins s n t s' HI IH Hn E]; [reflexivity|].
  unfold p_input_spike in E. destruct (nth_error (w_neurons (pc_world c)) n) as [nr|] eqn:En; [|discriminate E].
  assert (H : ps_fin s' = ps_fin s); [|congruence]. 
  apply (f_equal (fun r => match r with Ok x => ps_fin x | Err _ => true end)) in E. rewrite <- E. reflexivity.
Qed.
(** spike usage: ValueError before simulate; afterwards the printed total is the number of predicted
    spikes that were processed ([h]: the batches processed by simulate) for the neurons of the net *)
Theorem C44_spike_usage : forall c ins s fuel s', pwf c -> pinputs c ins s ->
  report_spike_usage c s = Err EValue /\
  (psimulate fuel c s = Some (Ok s') ->
   exists h s0, preach c ins h s0 /\ ps_nrs s' = ps_nrs s0 /\ pending s' = [] /\
     report_spike_usage c s' = Ok (list_sum (map (fun n => List.length (filter (is_pred n) (concat h))) (pc_keys c)))).
Proof.
  intros c ins s fuel s' WF HI. split.
  - pose proof (pinputs_fin _ _ _ HI) as F.
    unfold report_spike_usage. rewrite F. reflexivity.
  - intros E. destruct (C36_simulate c ins s fuel (Ok s') WF HI E) as (s1 & h & E1 & L & P & (s0 & R & N & _) & F).
    injection E1 as <-. exists h, s0. split; auto. split; auto. split; auto.
    unfold report_spike_usage.
    assert (Fn : ps_fin s' = true).
    { clear - E. unfold psimulate in E. destruct (ps_fin s); [discriminate E|]. destruct (ploop fuel c s) as [[s1|e]|]; try discriminate E.
      injection E as <-. reflexivity. }
    rewrite Fn. cbn [negb]. do 2 f_equal. apply map_ext. intros n. rewrite L, map_length. reflexivity.
Qed.
(** report_neuron_usage: any depth >= 1 prints what depth 1 prints *)
Theorem C44_print_depth_refuted : forall w net d fuel, (1 <= d)%nat ->
  print_neurons fuel w net d 0 0 = print_neurons fuel w net 1 0 0.
Proof. intros. apply print_depth_ignored; auto. Qed.
Print Assumptions C44_spike_estimation.
Print Assumptions C44_spike_usage.
Print Assumptions C44_print_depth_refuted.
