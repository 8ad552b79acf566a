(** Whole networks on PredSimulator: C53, C54. *)
From Coq Require Import Arith ZArith Bool List Reals Lra Lia Permutation Sorted.
From Verif Require Import Num NumOrd Heapq Elements Networks CancelQueue PredSim PredNeuron NeuronLib Build BuildNets Trace SimTrace Session PredProofs PredRun PredNet PredMem PredMem2 PredFun.
Import ListNotations.
Open Scope list_scope.
Open Scope R_scope.

(** ** C53 *)
(** [neuron_run p dt max x hits F] (PredRun.v) is the specification of one neuron: in state x, with the timetable
    [hits] of (time, simultaneous hits) ahead of it, it spikes at the times F.  [received vt L ins F n] lists every
    hit on n: the injected spikes and, for each synapse y into n, one hit per spike of its source, delay later. *)
Theorem C53_network : forall (c : pcfg R) (ins : list (nat * R)) (s : psim R) (hits : nat -> list (R * list (syntype * R))) (F : nat -> list R),
  pwf c -> (forall n, In n (pc_keys c) -> Vreset (prm_of c n) < Vt (prm_of c n)) ->
  (forall y, In y (w_syns (pc_world c)) -> 0 < s_delay y /\ In (s_pre y) (pc_keys c)) ->
  pinputs c ins s ->
  (forall n, In n (pc_keys c) ->
     neuron_run (prm_of c n) (pc_dt c) (pc_max c) {| pn_st := init_nstate (prm_of c n); pn_last := 0 |} (hits n) (F n) /\
     StronglySorted (fun a b => fst a < fst b) (hits n) /\ (forall g, In g (hits n) -> snd g <> []) /\
     Permutation (ungroup (hits n)) (received (Vt (prm_of c n)) (w_syns (pc_world c)) ins F n)) ->
  exists N, forall fuel, (N <= fuel)%nat -> exists s', psimulate fuel c s = Some (Ok s') /\ forall n, In n (pc_keys c) -> pspike_log s' n = F n.
Proof.
  intros c ins s hits F WF VR HS HI HN. set (keys := nodup Nat.eq_dec (pc_keys c)).
  assert (KI : forall n, In n keys <-> In n (pc_keys c)) by (intros n; apply nodup_In).
  destruct (pred_network c WF keys (NoDup_nodup _ _) KI) with (ins := ins) (s := s) (hits := hits) (F := F) as [N HR].
  - intros n Hn. apply VR, KI; auto.
  - intros y Hy. apply HS; auto.
  - exact HI.
  - intros n Hn. apply HN, KI; auto.
  - intros n Hn. apply HN, KI; auto.
  - intros n g Hn. apply HN, KI; auto.
  - apply perm_global.
    + apply NoDup_nodup.
    + clear -HI KI. intros p Hp. apply KI. induction HI as [|ins s n t s' HI IH Hn HE]; [destruct Hp|]. apply in_app_or in Hp as [Hp|[<-|[]]]; auto.
    + intros y Hy. split; apply KI; [apply (pw_syn _ WF y Hy)|apply HS; auto].
    + intros n Hn. apply HN, KI; auto.
  - exists N. intros fuel Hf. destruct (HR fuel Hf) as (s' & E & HL). exists s'. split; auto. intros n Hn. apply HL, KI; auto.
Qed.
Print Assumptions C53_network.
(** hence the equations have at most one solution: two spike trains that both satisfy them agree *)
Theorem C53_unique : forall (c : pcfg R) (ins : list (nat * R)) (s : psim R) hits1 F1 hits2 F2,
  pwf c -> (forall n, In n (pc_keys c) -> Vreset (prm_of c n) < Vt (prm_of c n)) ->
  (forall y, In y (w_syns (pc_world c)) -> 0 < s_delay y /\ In (s_pre y) (pc_keys c)) -> pinputs c ins s ->
  let solves (hits : nat -> list (R * list (syntype * R))) (F : nat -> list R) := forall n, In n (pc_keys c) ->
     neuron_run (prm_of c n) (pc_dt c) (pc_max c) {| pn_st := init_nstate (prm_of c n); pn_last := 0 |} (hits n) (F n) /\
     StronglySorted (fun a b => fst a < fst b) (hits n) /\ (forall g, In g (hits n) -> snd g <> []) /\
     Permutation (ungroup (hits n)) (received (Vt (prm_of c n)) (w_syns (pc_world c)) ins F n) in
  solves hits1 F1 -> solves hits2 F2 -> forall n, In n (pc_keys c) -> F1 n = F2 n.
Proof.
  intros c ins s hits1 F1 hits2 F2 WF VR HS HI solves H1 H2 n Hn.
  destruct (C53_network c ins s hits1 F1 WF VR HS HI H1) as [N1 R1]. destruct (C53_network c ins s hits2 F2 WF VR HS HI H2) as [N2 R2].
  destruct (R1 (N1 + N2)%nat ltac:(lia)) as (s1 & E1 & L1). destruct (R2 (N1 + N2)%nat ltac:(lia)) as (s2 & E2 & L2).
  rewrite <- (L1 n Hn), <- (L2 n Hn). congruence.
Qed.
Print Assumptions C53_unique.
(** the next spike in [neuron_run]: under excitatory drive, the first grid point at which the potential of the exact solution reaches Vt *)
Theorem C53_next_spike : forall (p : nparams R) (dt : R) (mx : Z) (x : pneuron R),
  0 < tm p -> 0 < tf p -> 0 < dt -> (0 <= mx < 2 ^ 64)%Z -> 0 <= ge (pn_st x) -> 0 <= gate (pn_st x) * gf (pn_st x) ->
  let pot k := V (pn_st x) + ge (pn_st x) / tm p * (IZR k * dt) + gate (pn_st x) * gf (pn_st x) * tf p / tm p * (1 - exp (- (IZR k * dt) / tf p)) in
  forall t, pend p dt mx x = Some t <-> exists k, (0 <= k < mx)%Z /\ t = pn_last x + IZR k * dt /\ Vt p <= pot k /\ forall j, (0 <= j < k)%Z -> pot j < Vt p.
Proof.
  intros p dt mx x Hm Hf Hdt HM Hg Ha pot t.
  assert (PE : forall r, predict_spike p (pn_st x) dt mx = Ok r -> pend p dt mx x = match r with Some d => Some (pn_last x + d) | None => None end) by (unfold pend; intros r ->; reflexivity).
  destruct (predict_excitatory p (pn_st x) dt mx Hm Hf ltac:(lra) Hg Ha HM) as [(k & Hk & E & H1 & H2)|(E & H2)]; rewrite (PE _ E); clear PE E.
  - split.
    + intros E. injection E as <-. exists k. auto.
    + intros (k' & Hk' & -> & H1' & H2'). f_equal. f_equal. f_equal. f_equal. destruct (Z.lt_trichotomy k k') as [C|[C|C]]; auto; exfalso.
      * specialize (H2' k ltac:(lia)). unfold PredNeuron.traj in H1. fold (pot k) in H1. lra.
      * specialize (H2 k' ltac:(lia)). unfold PredNeuron.traj in H2. fold (pot k') in H2. lra.
  - split; [discriminate|]. intros (k & Hk & _ & H1 & _). specialize (H2 k Hk). unfold PredNeuron.traj in H2. fold (pot k) in H2. lra.
Qed.
Print Assumptions C53_next_spike.
(** a network meeting the hypotheses: one neuron that inhibits itself after 1 ms, one injected spike at 3 ms *)
Definition ex_world : world R := {| w_neurons := [{| nr_params := stdp; nr_mod := Some 0%nat; nr_name := None |}]; w_mods := []; w_syns := [syn 0 0 SynV (-10) 1] |}.
Definition ex_cfg : pcfg R := {| pc_world := ex_world; pc_keys := [0%nat]; pc_enc := DataEncoder 10 100; pc_dt := 1; pc_max := horizon 1 |}.
Example C53_ex : exists s N, pinputs ex_cfg [(0%nat, 3)] s /\ forall fuel, (N <= fuel)%nat -> exists s', psimulate fuel ex_cfg s = Some (Ok s') /\ pspike_log s' 0 = [3].
Proof.
  assert (HM : (0 <= horizon 1 < 2 ^ 64)%Z) by (split; [apply horizon_pos; lra|apply (dt_ok_horizon 1); unfold dt_ok; lra]).
  assert (HI : exists s, pinputs ex_cfg [(0%nat, 3)] s).
  { eexists. apply (pi_spike ex_cfg [] (new_psim ex_world) 0 3); [constructor|left; auto|reflexivity]. }
  destruct HI as [s HI]. exists s.
  destruct (C53_network ex_cfg [(0%nat, 3)] s (fun _ => [(3, [(SynV, 10)]); (4, [(SynV, -10)])]) (fun _ => [3])) as [N HN].
  - constructor; cbn.
    + intros [|[|n]] nr E; cbn in E; try discriminate. injection E as <-. cbn. lra.
    + intros n [<-|[]]. lia.
    + intros y [<-|[]]. cbn. split; [auto|]. split; [discriminate|lra].
    + lra.
    + exact HM.
  - intros n [<-|[]]. cbn. lra.
  - intros y [<-|[]]. cbn. split; [lra|auto].
  - exact HI.
  - intros n [<-|[]]. split; [|split; [|split]].
    + change (nat_run 1 rest0 [(3, [(SynV, 10)]); (4, [(SynV, -10)])] [3]). rewrite rest0_pn.
      assert (H1 : 0 < 1) by lra. destruct HM as [_ HM]. eapply r_hit; [exact H1|exact HM|lra|left; lra|wsums; ring|wsums; ring|reflexivity|reflexivity|].
      apply r_now; [exact H1|exact HM|wsums; lra|wsums; lra|lra|inlist; lra|].
      eapply r_hit; [exact H1|exact HM|lra|left; lra|wsums; ring|wsums; ring|reflexivity|reflexivity|]. apply r_end; auto; wsums; lra.
    + sorted; lra.
    + inlist; discriminate.
    + cbn. perms.
  - exists N. split; auto. intros fuel Hf. destruct (HN fuel Hf) as (s' & E & HL). exists s'. split; auto. apply HL. left; auto.
Qed.

(** ** C54 *)
(** [pruns bl md enc dt stims P]: the script [net = bl(); sim = PredSimulator(net, enc, dt); apply the inputs; sim.simulate()]
    ends without exception in a state satisfying P.  [dt_ok dt]: 1e-6 <= dt <= 500.  t0 plays no part: apply_input_value ignores it. *)
Theorem C54_memory : forall (tmin tcod x dt t0 tr : R) nm,
  dt_ok dt -> 0 < tcod -> 1 < tmin -> dt < tmin -> tmin + tcod + 2 * dt <= 500 -> 0 <= x <= 1 -> tmin + tcod + dt + 2 <= tr ->
  pruns (MemoryNetwork (DataEncoder tmin tcod) nm) mm_mod (DataEncoder tmin tcod) dt
      (fun m => [SValue x (mm_input m) t0; SSpike (mm_recall m) tr])
      (fun m s => pemits s (mm_output m) (DataEncoder tmin tcod) x (dt / tcod) /\
                  (exists t, pspike_log s (mm_output m) = [tr + 2; t]) /\ exists t, pspike_log s (mm_ready m) = [t] /\ t < tr + 1).
Proof. exact pred_memory. Qed.
Print Assumptions C54_memory.
Theorem C54_inverting_memory : forall (tmin tcod x dt t0 tr : R) nm,
  dt_ok dt -> 0 < tcod -> 1 < tmin -> tmin + tcod - x * tcod + 2 * dt <= 500 -> 0 <= x <= 1 -> tmin + x * tcod + 1 < tr ->
  pruns (InvertingMemoryNetwork (DataEncoder tmin tcod) nm) im_mod (DataEncoder tmin tcod) dt
      (fun m => [SValue x (im_input m) t0; SSpike (im_recall m) tr])
      (fun m s => pemits s (im_output m) (DataEncoder tmin tcod) (1 - x) (Rmax dt (/ 100) / tcod) /\
                  exists t, pspike_log s (im_output m) = [tr + 2 + / 100; t]).
Proof. exact pred_inverting_memory. Qed.
Print Assumptions C54_inverting_memory.
Theorem C54_log : forall (tmin tcod x dt t0 : R) nm,
  dt_ok dt -> 0 < tcod -> 1 < tmin -> 0 < x <= 1 -> 20 * - ln x + 2 * dt <= 500 -> tcod + 2 * dt <= 500 ->
  pruns (LogNetwork (DataEncoder tmin tcod) nm) lg_mod (DataEncoder tmin tcod) dt (fun m => [SValue x (lg_input m) t0])
      (fun m s => pemits s (lg_output m) (DataEncoder tmin tcod) (20 * - ln x / tcod) (dt / tcod)).
Proof. exact pred_log. Qed.
Print Assumptions C54_log.
Theorem C54_exponential : forall (tmin tcod x dt t0 : R) nm,
  dt_ok dt -> 0 < tcod -> 1 < tmin -> 0 <= x <= 1 -> tcod + 2 * dt <= 500 ->
  pruns (ExponentialNetwork (DataEncoder tmin tcod) nm) ex_mod (DataEncoder tmin tcod) dt (fun m => [SValue x (ex_input m) t0])
      (fun m s => pemits s (ex_output m) (DataEncoder tmin tcod) (exp (- (x * tcod) / 20)) (dt / tcod)).
Proof. exact pred_exponential. Qed.
Print Assumptions C54_exponential.
(** Predictions reach 500 ms only (predictive_simulator.py:36): a later crossing is lost, and with it the second output spike. *)
Theorem C54_horizon_refuted : forall (tmin tcod x dt t0 tr : R) nm,
  dt_ok dt -> 0 < tcod -> 1 < tmin -> 500 <= tmin + tcod - x * tcod -> 0 <= x <= 1 -> tmin + x * tcod + 1 < tr ->
  pruns (InvertingMemoryNetwork (DataEncoder tmin tcod) nm) im_mod (DataEncoder tmin tcod) dt
      (fun m => [SValue x (im_input m) t0; SSpike (im_recall m) tr])
      (fun m s => pspike_log s (im_output m) = [tr + 2 + / 100] /\ pspike_log s (im_acc m) = []).
Proof. exact pred_inverting_memory_lost. Qed.
Print Assumptions C54_horizon_refuted.
Theorem C54_log_lost : forall (tmin tcod x dt t0 : R) nm,
  dt_ok dt -> 0 < tcod -> 1 < tmin -> x = 0 \/ (0 < x <= 1 /\ 500 <= 20 * - ln x) ->
  pruns (LogNetwork (DataEncoder tmin tcod) nm) lg_mod (DataEncoder tmin tcod) dt (fun m => [SValue x (lg_input m) t0])
      (fun m s => pspike_log s (lg_output m) = [tmin + x * tcod + 3]).
Proof. exact pred_log_lost. Qed.
Print Assumptions C54_log_lost.
(** the shipped script (predictive_simulator.py:159-172) and one case of each theorem *)
Example C54_main : pruns (InvertingMemoryNetwork (DataEncoder 10 100) None) im_mod (DataEncoder 10 100) (/ 10000)
  (fun m => [SValue (6/10) (im_input m) 0; SSpike (im_recall m) 200])
  (fun m s => pemits s (im_output m) (DataEncoder 10 100) (1 - 6/10) (Rmax (/ 10000) (/ 100) / 100) /\ exists t, pspike_log s (im_output m) = [200 + 2 + / 100; t]).
Proof. apply C54_inverting_memory; unfold dt_ok; lra. Qed.
Example C54_memory_ex : pruns (MemoryNetwork (DataEncoder 10 100) None) mm_mod (DataEncoder 10 100) (/ 100)
  (fun m => [SValue (1/4) (mm_input m) 7; SSpike (mm_recall m) 200])
  (fun m s => pemits s (mm_output m) (DataEncoder 10 100) (1/4) (/ 100 / 100) /\ (exists t, pspike_log s (mm_output m) = [200 + 2; t]) /\ exists t, pspike_log s (mm_ready m) = [t] /\ t < 200 + 1).
Proof. apply C54_memory; unfold dt_ok; lra. Qed.
Example C54_log_ex : pruns (LogNetwork (DataEncoder 10 100) None) lg_mod (DataEncoder 10 100) (/ 100) (fun m => [SValue (1/2) (lg_input m) 0])
  (fun m s => pemits s (lg_output m) (DataEncoder 10 100) (20 * - ln (1/2) / 100) (/ 100 / 100)).
Proof.
  assert (- ln (1/2) <= 1). { replace (1/2) with (/2) by lra. rewrite ln_Rinv by lra. pose proof (ln_lt_2). assert (ln 2 <= 1); [|lra]. rewrite <- (ln_exp 1). left. apply ln_increasing; [lra|]. pose proof (exp_ineq1 1 ltac:(lra)). lra. }
  apply C54_log; unfold dt_ok; lra.
Qed.
Example C54_exp_ex : pruns (ExponentialNetwork (DataEncoder 10 100) None) ex_mod (DataEncoder 10 100) (/ 100) (fun m => [SValue (1/4) (ex_input m) 0])
  (fun m s => pemits s (ex_output m) (DataEncoder 10 100) (exp (- (1/4 * 100) / 20)) (/ 100 / 100)).
Proof. apply C54_exponential; unfold dt_ok; lra. Qed.
Example C54_horizon_ex : pruns (InvertingMemoryNetwork (DataEncoder 100 900) None) im_mod (DataEncoder 100 900) (/ 100)
  (fun m => [SValue (1/10) (im_input m) 0; SSpike (im_recall m) 2000]) (fun m s => pspike_log s (im_output m) = [2000 + 2 + / 100] /\ pspike_log s (im_acc m) = []).
Proof. apply C54_horizon_refuted; unfold dt_ok; lra. Qed.
Example C54_log_lost_ex : pruns (LogNetwork (DataEncoder 10 100) None) lg_mod (DataEncoder 10 100) (/ 100) (fun m => [SValue (exp (-26)) (lg_input m) 0])
  (fun m s => pspike_log s (lg_output m) = [10 + exp (-26) * 100 + 3]).
Proof.
  apply C54_log_lost; [unfold dt_ok; lra|lra|lra|]. right. rewrite ln_exp. split; [|lra]. split; [apply exp_pos|]. rewrite <- exp_0. left. apply exp_increasing. lra.
Qed.
