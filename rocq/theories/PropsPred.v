(** Properties of the predictive simulator: C16, C17, C36, C37, C38, C42, C43. *)
From Coq Require Import Arith ZArith Bool List Reals Lra Lia Permutation.
From Verif Require Import Num NumOrd Heapq Elements CancelQueue Simulator PredSim PredNeuron PredProofs Build Misc CoreExtra.
Import ListNotations.
Open Scope list_scope.
Open Scope R_scope.

(** ** C16 *)
(** [fast_forward p s x] = ExplicitNeuron._fast_forward over an interval x; it is the solution
    of tm V' = ge + gate gf, tf gf' = -gf through the current state. *)
Theorem C16_fast_forward_solves_ode : forall (p : nparams R) (s : nstate R), tm p <> 0 -> tf p <> 0 -> gate s = 0 \/ gate s = 1 ->
  exists Vs Gs : R -> R,
    (forall x, fast_forward p s x = Ok (Vs x, Gs x)) /\ Vs 0 = V s /\ Gs 0 = gf s /\
    (forall x, derivable_pt_lim Vs x ((ge s + gate s * Gs x) / tm p)) /\
    (forall x, derivable_pt_lim Gs x (- Gs x / tf p)).
Proof. exact fast_forward_ode. Qed.
Theorem C16_fast_forward_composes : forall (p : nparams R) (s : nstate R) (a b : R), tm p <> 0 -> tf p <> 0 ->
  exists Va ga, fast_forward p s a = Ok (Va, ga) /\
    fast_forward p {| V := Va; ge := ge s; gf := ga; gate := gate s |} b = fast_forward p s (a + b).
Proof. exact fast_forward_compose. Qed.
(** with gate = 2 the computed potential is not a solution of the equation *)
Theorem C16_gate2_refuted : exists (p : nparams R) (s : nstate R) (Vs : R -> R), tm p > 0 /\ tf p > 0 /\ gate s = 2 /\
  (forall x, exists G, fast_forward p s x = Ok (Vs x, G)) /\ Vs 0 = V s /\
  ~ derivable_pt_lim Vs 0 ((ge s + gate s * gf s) / tm p).
Proof. exact fast_forward_gate2_wrong. Qed.
Print Assumptions C16_fast_forward_solves_ode.
Print Assumptions C16_fast_forward_composes.
Print Assumptions C16_gate2_refuted.
Example C16_ex : fast_forward {| Vt := 10; tm := 100; tf := 20; Vreset := 0 |} {| V := 1; ge := 50; gf := 0; gate := 0 |} 4 = Ok (1 + 50 / 100 * 4, 0 * exp (- (4) / 20)).
Proof. rewrite ff_eq by (cbn; lra). unfold ffV, ffG. cbn. destruct (Req_EM_T 0 0); [reflexivity|lra]. Qed.

(** ** C17 *)
(** [membrane p s dt k]: potential of the solution above, k steps of dt ahead *)
Definition membrane (p : nparams R) (s : nstate R) (dt : R) (k : Z) : R :=
  V s + ge s / tm p * (IZR k * dt) + gate s * gf s * tf p / tm p * (1 - exp (- (IZR k * dt) / tf p)).
(** it is what fast_forward computes *)
Theorem C17_membrane_is_fast_forward : forall (p : nparams R) (s : nstate R) (dt : R) (k : Z), tm p <> 0 -> tf p <> 0 -> gate s = 0 \/ gate s = 1 ->
  exists g, fast_forward p s (IZR k * dt) = Ok (membrane p s dt k, g).
Proof.
  intros p s dt k Hm Hf Hg. destruct (predict_consistent p s dt k Hm Hf Hg) as (v & g & E1 & E2).
  rewrite predicted_traj in E2 by auto. injection E2 as E2. exists g. rewrite E1. unfold membrane. unfold traj in E2. rewrite E2. reflexivity.
Qed.
Theorem C17_first_crossing : forall (p : nparams R) (s : nstate R) (dt : R) (m : Z), tm p <> 0 -> tf p <> 0 -> (0 <= m < 2 ^ 64)%Z ->
  (forall i j, (0 <= i <= j)%Z -> (j < m)%Z -> Vt p <= membrane p s dt i -> Vt p <= membrane p s dt j) ->
  (exists k, (0 <= k < m)%Z /\ predict_spike p s dt m = Ok (Some (IZR k * dt)) /\ Vt p <= membrane p s dt k /\
      forall j, (0 <= j < k)%Z -> membrane p s dt j < Vt p) \/
  (predict_spike p s dt m = Ok None /\ forall j, (0 <= j < m)%Z -> membrane p s dt j < Vt p).
Proof. exact predict_least. Qed.
(** ge >= 0 and gate*gf >= 0 suffice *)
Theorem C17_excitatory : forall (p : nparams R) (s : nstate R) (dt : R) (m : Z),
  0 < tm p -> 0 < tf p -> 0 <= dt -> 0 <= ge s -> 0 <= gate s * gf s -> (0 <= m < 2 ^ 64)%Z ->
  (exists k, (0 <= k < m)%Z /\ predict_spike p s dt m = Ok (Some (IZR k * dt)) /\ Vt p <= membrane p s dt k /\
      forall j, (0 <= j < k)%Z -> membrane p s dt j < Vt p) \/
  (predict_spike p s dt m = Ok None /\ forall j, (0 <= j < m)%Z -> membrane p s dt j < Vt p).
Proof. exact predict_excitatory. Qed.
(** whatever the trajectory, a predicted spike is a grid point at or above threshold *)
Theorem C17_sound : forall (p : nparams R) (s : nstate R) (dt : R) (m : Z), tm p <> 0 -> tf p <> 0 -> (0 <= m < 2 ^ 64)%Z ->
  exists r, predict_spike p s dt m = Ok r /\
    forall d, r = Some d -> exists k, (0 <= k < m)%Z /\ d = IZR k * dt /\ Vt p <= membrane p s dt k.
Proof. exact predict_sound. Qed.
(** without monotonicity a crossing inside the horizon can be missed altogether *)
Theorem C17_non_monotone_refuted : exists (p : nparams R) (s : nstate R) (dt : R) (m : Z), tm p > 0 /\ tf p > 0 /\ dt > 0 /\ (0 < m < 2 ^ 64)%Z /\
  (exists k, (0 <= k < m)%Z /\ Vt p <= membrane p s dt k) /\ predict_spike p s dt m = Ok None.
Proof. exact predict_misses. Qed.
Print Assumptions C17_membrane_is_fast_forward.
Print Assumptions C17_first_crossing.
Print Assumptions C17_excitatory.
Print Assumptions C17_sound.
Print Assumptions C17_non_monotone_refuted.
(** a case: V=0, ge=50, tm=100, Vt=10, dt=1: crossing at step 20 *)
Example C17_ex : predict_spike {| Vt := 10; tm := 100; tf := 20; Vreset := 0 |} {| V := 0; ge := 50; gf := 0; gate := 0 |} 1 500 = Ok (Some (IZR 20 * 1)).
Proof.
  set (p := {| Vt := 10; tm := 100; tf := 20; Vreset := 0 |} : nparams R). set (s := {| V := 0; ge := 50; gf := 0; gate := 0 |} : nstate R).
  assert (HM : forall k, membrane p s 1 k = IZR k / 2) by (intros k; unfold membrane; cbn; field).
  destruct (C17_excitatory p s 1 500) as [(k & Hk & E & H1 & H2)|(E & H2)]; try (cbn; lra); try lia.
  - rewrite E. do 3 f_equal. rewrite HM in H1. cbn [Vt p] in H1.
    assert (H20 : (20 <= k)%Z) by (apply le_IZR; lra).
    destruct (Z.eq_dec k 20) as [->|Hk20]; [reflexivity|]. exfalso. specialize (H2 20%Z ltac:(clear -Hk20 H20; lia)). rewrite HM in H2. cbn [Vt p] in H2. lra.
  - specialize (H2 20%Z ltac:(lia)). rewrite HM in H2. cbn [Vt p] in H2. lra.
Qed.

Lemma filter_rev {A} (f : A -> bool) l : filter f (rev l) = rev (filter f l).
Proof.
  induction l as [|a l IH]; auto. cbn [rev filter]. rewrite filter_app, IH. cbn [filter]. destruct (f a); cbn [rev]; auto.
  apply app_nil_r.
Qed.
(** ** C36 *)
(** [preach c ins h s]: simulate(), started on the input spikes [ins], has popped the batches [h]
    and is in state [s].  [pending s] are the queued events, [pspike_log s n] is spike_log. *)
Theorem C36_one_prediction_per_neuron : forall c ins h s, pwf c -> preach c ins h s ->
  NoDup (map u_id (pending s)) /\
  (forall n e1 e2, In e1 (pending s) -> In e2 (pending s) -> u_pl e1 = Pred n -> u_pl e2 = Pred n -> e1 = e2).
Proof.
  intros c ins h s WF HR. destruct (preach_info c ins h s WF HR) as (L & now & [HJ _ _ _ _ _ _ _ _]).
  pose proof (qrel_perm _ _ (j_q _ _ _ _ _ HJ)) as HP. fold (pending s) in HP. split.
  - apply (Permutation_NoDup (Permutation_map u_id (Permutation_sym HP))). pose proof (j_ids _ _ _ _ _ HJ) as HN. rewrite app_nil_r in HN. auto.
  - intros n e1 e2 H1 H2 P1 P2.
    assert (Q1 : nth_error (ps_poss s) n = Some (Some e1)).
    { apply (j_poss _ _ _ _ _ HJ). rewrite app_nil_r. split; auto. apply (Permutation_in _ HP); auto. }
    assert (Q2 : nth_error (ps_poss s) n = Some (Some e2)).
    { apply (j_poss _ _ _ _ _ HJ). rewrite app_nil_r. split; auto. apply (Permutation_in _ HP); auto. }
    congruence.
Qed.
(** it is the prediction for the neuron's present state, i.e. the state left by the latest hit;
    without a queued prediction the neuron was just reset or will not cross the threshold *)
Theorem C36_prediction_is_current : forall c ins h s, pwf c -> preach c ins h s ->
  (forall n e, In e (pending s) -> u_pl e = Pred n ->
     exists x d, nth_error (ps_nrs s) n = Some x /\
       predict_spike (prm_of c n) (pn_st x) (pc_dt c) (pc_max c) = Ok (Some d) /\ u_time e = pn_last x + d) /\
  (forall n x, nth_error (ps_nrs s) n = Some x -> (forall e, In e (pending s) -> u_pl e <> Pred n) ->
     pn_st x = reset (prm_of c n) \/ predict_spike (prm_of c n) (pn_st x) (pc_dt c) (pc_max c) = Ok None).
Proof.
  intros c ins h s WF HR. destruct (preach_info c ins h s WF HR) as (L & now & [HJ _ _ _ _ _ _ _ _]).
  pose proof (qrel_perm _ _ (j_q _ _ _ _ _ HJ)) as HP. fold (pending s) in HP. split.
  - intros n e He Hp. assert (Q1 : nth_error (ps_poss s) n = Some (Some e)).
    { apply (j_poss _ _ _ _ _ HJ). rewrite app_nil_r. split; auto. apply (Permutation_in _ HP); auto. }
    destruct (nth_error (ps_nrs s) n) as [x|] eqn:Ex.
    + destruct (j_pred _ _ _ _ _ HJ n x e Ex Q1) as (d & E1 & E2). exists x, d. auto.
    + exfalso. apply nth_error_None in Ex. rewrite (j_len1 _ _ _ _ _ HJ), <- (j_len2 _ _ _ _ _ HJ) in Ex.
      apply nth_error_None in Ex. congruence.
  - intros n x Ex Hno. apply (j_none _ _ _ _ _ HJ n x Ex).
    destruct (nth_error (ps_poss s) n) as [[e|]|] eqn:Ep; auto.
    + exfalso. apply (j_poss _ _ _ _ _ HJ) in Ep. rewrite app_nil_r in Ep. destruct Ep as [He Hp]. apply (Hno e); auto.
      apply (Permutation_in _ (Permutation_sym HP)); auto.
    + exfalso. apply nth_error_None in Ep. rewrite (j_len2 _ _ _ _ _ HJ), <- (j_len1 _ _ _ _ _ HJ) in Ep. apply nth_error_None in Ep. congruence.
Qed.
(** "latest hit": after a turn that processed a hit on n, the neuron's clock is that turn's time *)
Theorem C36_clock_is_last_hit : forall c ins h s evs q' s' n x e ty w, pwf c -> preach c ins h s ->
  cq_len (ps_q s) <> 0%nat -> cq_pop (ps_q s) = Ok (evs, q') -> process_batch c (set_q s q') evs = Ok s' ->
  In e evs -> u_pl e = Hit n ty w -> nth_error (ps_nrs s') n = Some x -> pn_last x = u_time e.
Proof.
  intros c ins h s evs q' s' n x e ty w WF HR Hlen Epop Eproc He Hp Ex.
  destruct (preach_info c ins h s WF HR) as (L & now & [HJ _ _ _ _ _ _ _ _]).
  assert (HL : L <> []). { intros E. apply Hlen. apply (qrel_len _ L); auto. apply (j_q _ _ _ _ _ HJ). }
  destruct (J_step c WF s L now HJ HL) as (t & q2 & s2 & L2 & HS). cbv zeta in HS.
  destruct HS as (_ & Epop2 & Eproc2 & Hne & Hnow & Hmin & HJ2 & HPm & HK & HC & HF & HX).
  rewrite Epop in Epop2. injection Epop2 as -> ->. rewrite Eproc in Eproc2. injection Eproc2 as <-.
  rewrite (HX n x e ty w Ex He Hp). apply filter_In in He. destruct He as [_ He]. apply same_timeR in He. auto.
Qed.
(** time never goes back: processed times are sorted, queued events are not earlier *)
Theorem C36_time_monotone : forall c ins h s, pwf c -> preach c ins h s ->
  ForallOrdPairs Rle (map u_time (concat h)) /\
  (forall b, In b h -> b <> [] /\ exists t, forall e, In e b -> u_time e = t) /\
  (forall e e', In e (concat h) -> In e' (pending s) -> u_time e <= u_time e').
Proof.
  intros c ins h s WF HR. destruct (preach_info c ins h s WF HR) as (L & now & []).
  pose proof (qrel_perm _ _ (j_q _ _ _ _ _ pf_J)) as HP. fold (pending s) in HP.
  split; auto. split; auto. intros e e' He He'. apply pf_past in He. apply (Permutation_in _ HP) in He'. apply (j_time _ _ _ _ _ pf_J) in He'. lra.
Qed.
(** spike_log is exactly the processed predicted spikes, in time order *)
Theorem C36_spike_log : forall c ins h s n, pwf c -> preach c ins h s ->
  pspike_log s n = map u_time (filter (is_pred n) (concat h)) /\ ForallOrdPairs Rle (pspike_log s n).
Proof.
  intros c ins h s n WF HR. destruct (preach_info c ins h s WF HR) as (L & now & []).
  assert (E : pspike_log s n = map u_time (filter (is_pred n) (concat h))).
  { unfold pspike_log. rewrite pf_spk. rewrite <- map_rev, <- filter_rev, rev_involutive. clear.
    induction (concat h) as [|e l IH]; auto. unfold fired in *. cbn [flat_map filter]. unfold is_pred at 1.
    destruct (u_pl e) as [m ty w|m]; cbn [app]; auto. cbn [filter fst]. destruct (Nat.eqb m n); cbn [map snd]; rewrite IH; auto. }
  split; auto. rewrite E. apply sorted_filter_map. auto.
Qed.
(** no exception and no stuck state on well-formed networks *)
Theorem C36_progress : forall c ins h s, pwf c -> preach c ins h s ->
  (pending s = [] -> pstep c s = None) /\
  (pending s <> [] -> exists s', pstep c s = Some (Ok s')).
Proof.
  intros c ins h s WF HR. destruct (preach_info c ins h s WF HR) as (L & now & [HJ _ _ _ _ _ _ _ _]).
  pose proof (j_q _ _ _ _ _ HJ) as HQ. pose proof (qrel_perm _ _ HQ) as HP. fold (pending s) in HP. unfold pstep. split; intros HE.
  - rewrite HE in HP. apply Permutation_nil in HP. rewrite (proj2 (qrel_len _ _ HQ) HP). reflexivity.
  - assert (HL : L <> []). { intros E. subst L. apply HE. apply Permutation_sym, Permutation_nil in HP. auto. }
    destruct (J_step c WF s L now HJ HL) as (t & q2 & s2 & L2 & HS). cbv zeta in HS. destruct HS as (Hl & Ep & Epr & _).
    apply Nat.eqb_neq in Hl. rewrite Hl, Ep. cbn [rbind]. rewrite Epr. eauto.
Qed.
(** a run of simulate() ends in a reachable state with an empty queue; a second run raises *)
Lemma ploop_reach c ins : pwf c -> forall fuel h s r, preach c ins h s -> ploop fuel c s = Some r ->
  exists s' h', r = Ok s' /\ preach c ins h' s' /\ pending s' = [].
Proof.
  intros WF. induction fuel as [|f IH]; intros h s r HR; cbn [ploop].
  - destruct (C36_progress c ins h s WF HR) as [H1 H2]. destruct (pending s) as [|e l] eqn:Ep.
    + rewrite (H1 eq_refl). intros E. injection E as <-. eauto.
    + destruct H2 as (s' & ->); [discriminate|]. discriminate.
  - destruct (C36_progress c ins h s WF HR) as [H1 H2]. destruct (pending s) as [|e l] eqn:Ep.
    + rewrite (H1 eq_refl). intros E. injection E as <-. eauto.
    + destruct H2 as (s' & E); [discriminate|]. rewrite E. unfold pstep in E. destruct (Nat.eqb_spec (cq_len (ps_q s)) 0) as [|Hl]; [discriminate|].
      injection E as E. destruct (cq_pop (ps_q s)) as [[evs q']|] eqn:Epop; [|discriminate]. cbn [rbind] in E.
      apply (IH (h ++ [evs])). eapply pr_step; eauto.
Qed.
Theorem C36_simulate : forall c ins s fuel r, pwf c -> pinputs c ins s -> psimulate fuel c s = Some r ->
  exists s' h, r = Ok s' /\ (forall n, pspike_log s' n = map u_time (filter (is_pred n) (concat h))) /\ pending s' = [] /\
    (exists s0, preach c ins h s0 /\ ps_nrs s' = ps_nrs s0 /\ ps_cnt s' = ps_cnt s0) /\
    (forall fuel', psimulate fuel' c s' = Some (Err EValue)).
Proof.
  intros c ins s fuel r WF HI. unfold psimulate at 1. destruct (pinputs_J c ins s WF HI) as (L & now & _ & _ & _ & _ & Ef). rewrite Ef.
  pose proof (pr_init c ins s HI) as HR. destruct (ploop fuel c s) as [r0|] eqn:El; [|discriminate].
  destruct (ploop_reach c ins WF fuel [] s r0 HR El) as (s' & h & -> & HR' & HE). intros E. injection E as <-.
  eexists. exists h. split; [reflexivity|]. split; [|split; [|split]].
  - intros n. destruct (C36_spike_log c ins h s' n WF HR') as [E _]. exact E.
  - exact HE.
  - exists s'. auto.
  - intros f. reflexivity.
Qed.
(** every logged spike is a threshold crossing of the neuron's potential on the time grid, counted
    from its last hit; the first one if the drive is excitatory *)
Theorem C36_spikes_are_crossings : forall c ins h s evs q' e n, pwf c -> preach c ins h s ->
  cq_len (ps_q s) <> 0%nat -> cq_pop (ps_q s) = Ok (evs, q') -> In e evs -> u_pl e = Pred n ->
  exists x k, nth_error (ps_nrs s) n = Some x /\ (0 <= k < pc_max c)%Z /\ u_time e = pn_last x + IZR k * pc_dt c /\
    Vt (prm_of c n) <= membrane (prm_of c n) (pn_st x) (pc_dt c) k /\
    (0 < tm (prm_of c n) -> 0 < tf (prm_of c n) -> 0 <= ge (pn_st x) -> 0 <= gate (pn_st x) * gf (pn_st x) ->
     forall j, (0 <= j < k)%Z -> membrane (prm_of c n) (pn_st x) (pc_dt c) j < Vt (prm_of c n)).
Proof.
  intros c ins h s evs q' e n WF HR Hlen Epop He Hp.
  destruct (preach_info c ins h s WF HR) as (L & now & [HJ _ _ _ _ _ _ _ _]).
  assert (HL : L <> []). { intros E. apply Hlen. apply (qrel_len _ L); auto. apply (j_q _ _ _ _ _ HJ). }
  destruct (qrel_pop _ _ (j_q _ _ _ _ _ HJ) HL) as (t & q2 & Epop2 & _). rewrite Epop in Epop2. injection Epop2 as -> ->.
  apply filter_In in He. destruct He as [He _].
  assert (Hpe : In e (pending s)).
  { apply (Permutation_in _ (Permutation_sym (qrel_perm _ _ (j_q _ _ _ _ _ HJ)))). auto. }
  destruct (proj1 (C36_prediction_is_current c ins h s WF HR) n e Hpe Hp) as (x & d & Ex & Ed & Et).
  destruct (prm_nz c WF n) as [Hm Hf].
  destruct (predict_sound (prm_of c n) (pn_st x) (pc_dt c) (pc_max c) Hm Hf (pw_max _ WF)) as (r & Er & Hr).
  rewrite Ed in Er. injection Er as <-. destruct (Hr d eq_refl) as (k & Hk & -> & HV).
  exists x, k. split; auto. split; auto. split; auto. split; auto.
  intros Pm Pf Pge Pgf j Hj. destruct (predict_excitatory (prm_of c n) (pn_st x) (pc_dt c) (pc_max c)) as [(k' & Hk' & E' & _ & HL')|(E' & HL')]; auto.
  - left. apply (pw_dt _ WF).
  - apply (pw_max _ WF).
  - apply HL'. rewrite Ed in E'. injection E' as E'. apply Rmult_eq_reg_r in E'; [|pose proof (pw_dt _ WF); lra]. apply eq_IZR in E'. lia.
  - rewrite Ed in E'. discriminate.
Qed.
Print Assumptions C36_one_prediction_per_neuron.
Print Assumptions C36_prediction_is_current.
Print Assumptions C36_clock_is_last_hit.
Print Assumptions C36_time_monotone.
Print Assumptions C36_spike_log.
Print Assumptions C36_progress.
Print Assumptions C36_simulate.
Print Assumptions C36_spikes_are_crossings.

(** ** C43 delivery: the hits processed or still queued are exactly the input hits and, for every
    logged spike of a neuron, one hit per outgoing synapse at spike time + delay *)
Theorem C43_hits_delivered_once : forall c ins h s, pwf c -> preach c ins h s ->
  Permutation (map (fun e => (u_time e, u_pl e)) (filter (fun e => negb (is_spike e)) (concat h ++ pending s)))
    (map (fun i => (snd i, Hit (fst i) SynV (Vt (prm_of c (fst i))))) ins ++
     flat_map (fun p => map (fun y => (snd p + s_delay y, Hit (s_post y) (s_ty y) (s_w y))) (out_syn (pc_world c) (fst p)))
       (rev (ps_spk s))).
Proof.
  intros c ins h s WF HR. destruct (preach_info c ins h s WF HR) as (L & now & []).
  pose proof (qrel_perm _ _ (j_q _ _ _ _ _ pf_J)) as HP. fold (pending s) in HP. rewrite pf_spk, rev_involutive.
  change (map (fun i => (snd i, Hit (fst i) SynV (Vt (prm_of c (fst i))))) ins) with (map (input_hit c) ins).
  change (flat_map _ (fired (concat h))) with (emitted c (concat h)).
  rewrite <- pf_hits. change (fun e : uevent R => (u_time e, u_pl e)) with ekey. apply Permutation_map.
  rewrite !filter_app. apply Permutation_app_head. clear -HP. induction HP; cbn [filter]; auto.
  - destruct (negb (is_spike x)); auto.
  - destruct (negb (is_spike x)), (negb (is_spike y)); auto. constructor.
  - etransitivity; eauto.
Qed.
(** the counters *)
Theorem C43_counters : forall c ins h s, pwf c -> preach c ins h s ->
  let n ty := List.length (filter (is_hit_of ty) (concat h)) in
  pcV (ps_cnt s) = n SynV /\ pcGe (ps_cnt s) = n SynGe /\ pcGf (ps_cnt s) = n SynGf /\ pcGate (ps_cnt s) = n SynGate.
Proof.
  intros c ins h s WF HR. destruct (preach_info c ins h s WF HR) as (L & now & []). cbv zeta. rewrite pf_cnt.
  destruct (pcount_fold (hit_types (concat h)) {| pcV := 0; pcGe := 0; pcGf := 0; pcGm := 0; pcGate := 0 |}) as (A & B & C & D & E).
  cbn [pcV pcGe pcGf pcGate] in *. rewrite B, C, D, E.
  assert (G : forall ty, List.length (filter (syntype_eqb ty) (hit_types (concat h))) = List.length (filter (is_hit_of ty) (concat h))).
  { intros ty. clear. induction (concat h) as [|e l IH]; auto. unfold hit_types in *. cbn [flat_map filter]. unfold is_hit_of at 1.
    destruct (u_pl e) as [m ty' w|m]; cbn [app]; auto. cbn [filter].
    assert (Es : syntype_eqb ty ty' = syntype_eqb ty' ty) by (destruct ty, ty'; auto). rewrite Es.
    destruct (syntype_eqb ty' ty); cbn [List.length]; auto. }
  rewrite !G. auto.
Qed.
Print Assumptions C43_hits_delivered_once.
Print Assumptions C43_counters.

(** ** C37 *)
Theorem C37_t0_ignored : forall (T : Type) (NT : Num T) (c : pcfg T) (s : psim T) v n t0 t0',
  p_input_value c s v n t0 = p_input_value c s v n t0'.
Proof. reflexivity. Qed.
(** so the spikes are at 0 and Tmin + v Tcod, whatever t0 *)
Theorem C37_input_value_refuted : forall (c : pcfg R) ins s v n t0, pwf c -> pinputs c ins s -> In n (pc_keys c) -> 0 <= v <= 1 ->
  exists s', p_input_value c s v n t0 = Ok s' /\
    pinputs c (ins ++ [(n, 0); (n, Tmin (pc_enc c) + v * Tcod (pc_enc c))]) s' /\
    Permutation (map (fun e => (u_time e, u_pl e)) (pending s'))
     (map (fun i => (snd i, Hit (fst i) SynV (Vt (prm_of c (fst i))))) (ins ++ [(n, 0); (n, Tmin (pc_enc c) + v * Tcod (pc_enc c))])).
Proof.
  intros c ins s v n t0 WF HI Hn [Hv0 Hv1]. unfold p_input_value, encode_value, nzero, n_one, ngeb. cbn [nleb R_num nofZ].
  rewrite (proj2 (Rleb_true 0 v) Hv0), (proj2 (Rleb_true v 1) Hv1). cbn [andb negb rbind fst snd].
  assert (HS : forall ins s t, pinputs c ins s -> exists s', p_input_spike c s n t = Ok s' /\ pinputs c (ins ++ [(n, t)]) s').
  { intros ins0 s0 t HI0. pose proof (pw_keys c WF n Hn) as Hlt. destruct (nth_some _ _ Hlt) as [nr Enr].
    assert (E : exists s', p_input_spike c s0 n t = Ok s') by (unfold p_input_spike; rewrite Enr; eauto).
    destruct E as [s' E]. exists s'. split; auto. econstructor; eauto. }
  destruct (HS ins s (IZR 0) HI) as (s1 & E1 & HI1). rewrite E1. cbn [rbind].
  destruct (HS _ s1 (nadd (Tmin (pc_enc c)) (nmul v (Tcod (pc_enc c)))) HI1) as (s2 & E2 & HI2). exists s2. split; auto.
  rewrite <- app_assoc in HI2. cbn [app nadd nmul R_num] in HI2. split; auto.
  destruct (pinputs_J c _ s2 WF HI2) as (L & now & HJ & E & _). change (fun e : uevent R => (u_time e, u_pl e)) with ekey.
  rewrite (Permutation_map ekey (qrel_perm _ _ (j_q _ _ _ _ _ HJ))). rewrite E. auto.
Qed.
Print Assumptions C37_t0_ignored.
Print Assumptions C37_input_value_refuted.

(** ** a network meeting the hypotheses: 0 --V--> 1, 0 --ge--> 1 *)
Definition px_prm : nparams R := {| Vt := 10; tm := 100; tf := 20; Vreset := 0 |}.
Definition px_cfg : pcfg R := {|
  pc_world := {| w_neurons := [{| nr_params := px_prm; nr_mod := Some 0%nat; nr_name := None |};
                               {| nr_params := px_prm; nr_mod := Some 0%nat; nr_name := None |}];
                 w_mods := [{| m_name := None; m_neurons := [0; 1]%nat; m_subs := [] |}];
                 w_syns := [{| s_pre := 0; s_post := 1; s_ty := SynV; s_w := 5; s_delay := 1 |};
                            {| s_pre := 0; s_post := 1; s_ty := SynGe; s_w := 50; s_delay := 2 |}] |};
  pc_keys := [0; 1]%nat; pc_enc := DefaultEncoder; pc_dt := 1; pc_max := 500 |}.
Example px_wf : pwf px_cfg.
Proof.
  constructor; cbn [pc_world px_cfg w_neurons w_syns pc_keys pc_dt pc_max].
  - intros [|[|[|n]]] nr E; cbn in E; try discriminate; injection E as <-; cbn; lra.
  - cbn. intros n [<-|[<-|[]]]; lia.
  - intros y [<-|[<-|[]]]; cbn; (split; [auto|]); (split; [discriminate|]); lra.
  - lra.
  - lia.
Qed.
(** one input spike at time 3; after one turn neuron 0 has its spike predicted for time 3 *)
Example px_predict : predict_spike px_prm {| V := 0 + 10; ge := 0; gf := 0; gate := 0 |} 1 500 = Ok (Some (IZR 0 * 1)).
Proof.
  set (st := {| V := 0 + 10; ge := 0; gf := 0; gate := 0 |} : nstate R).
  assert (HM : forall k, membrane px_prm st 1 k = 10) by (intros k; unfold membrane; cbn; field).
  destruct (C17_excitatory px_prm st 1 500) as [(k & Hk & E & H1 & H2)|(E & H2)]; try (cbn; lra); try lia.
  - rewrite E. destruct (Z.eq_dec k 0) as [->|Hk0]; [reflexivity|]. exfalso. specialize (H2 0%Z ltac:(clear -Hk Hk0; lia)). rewrite HM in H2. cbn in H2. lra.
  - exfalso. specialize (H2 0%Z ltac:(lia)). rewrite HM in H2. cbn in H2. lra.
Qed.
Example px_reach : exists s e0 e1, preach px_cfg [(0%nat, 3)] [[e0]] s /\ u_pl e0 = Hit 0 SynV 10 /\ pending s = [e1] /\ u_pl e1 = Pred 0.
Proof.
  set (s0 := fst (enqueue (new_psim (pc_world px_cfg)) 3 (Hit 0 SynV 10))).
  assert (HI : pinputs px_cfg [(0%nat, 3)] s0).
  { apply (pi_spike px_cfg [] (new_psim (pc_world px_cfg)) 0 3); [constructor|cbn; auto|reflexivity]. }
  pose proof (pr_init _ _ _ HI) as HR.
  set (e0 := {| u_id := 0; u_time := 3; u_pl := Hit 0 SynV 10 |} : uevent R).
  assert (Eq : ps_q s0 = {| cq_heap := [3]; cq_map := [(3, [e0])] |}) by reflexivity.
  assert (Epop : cq_pop (ps_q s0) = Ok ([e0], cq_empty)).
  { rewrite Eq. unfold cq_pop. cbn [cq_heap List.length cq_pop_loop]. unfold heappop. cbn [removelast last]. cbn [cq_map dget neqb R_num].
    rewrite Reqb_refl. cbn [ddel filter fst neqb R_num]. unfold ddel. cbn [filter fst neqb R_num]. rewrite Reqb_refl. reflexivity. }
  assert (Hlen : cq_len (ps_q s0) <> 0%nat).
  { rewrite Eq. unfold cq_len. cbn [cq_heap cq_map filter dget neqb R_num]. rewrite Reqb_refl. cbn. lia. }
  set (x1 := {| pn_st := {| V := 0 + 10; ge := 0; gf := 0; gate := 0 |}; pn_last := 3 |} : pneuron R).
  assert (Erec : receive_pred px_prm {| pn_st := init_nstate px_prm; pn_last := nzero |} SynV 10 3 = Ok x1).
  { unfold receive_pred, nzero. cbn [neqb R_num nofZ pn_last]. rewrite (proj2 (Reqb_false 3 0)) by lra. cbn [negb].
    rewrite ff_eq by (cbn; lra). cbn [rbind fst snd pn_st pn_last receive_synaptic_event]. unfold x1. do 2 f_equal.
    unfold ffV, ffG, init_nstate. cbn. destruct (Req_EM_T 0 0); [|lra]. f_equal; field. }
  assert (Epr : exists s2, process_batch px_cfg (set_q s0 cq_empty) [e0] = Ok s2 /\ exists e1, ps_q s2 = cq_add cq_empty e1 /\ u_pl e1 = Pred 0).
  { set (s1 := set_q s0 cq_empty).
    assert (N1 : nth_error (ps_nrs s1) 0 = Some {| pn_st := init_nstate px_prm; pn_last := nzero |}) by reflexivity.
    assert (N2 : nth_error (ps_poss s1) 0 = Some None) by reflexivity.
    assert (N3 : ps_q s1 = cq_empty) by reflexivity. clearbody s1.
    unfold process_batch. cbn [rfold step_spike u_pl e0 rbind step_hit]. unfold do_hit. rewrite N1, N2.
    change (in_keys px_cfg 0) with true. cbn [negb].
    change (nth_error (w_neurons (pc_world px_cfg)) 0) with (Some {| nr_params := px_prm; nr_mod := Some 0%nat; nr_name := None |}).
    cbn [nr_params u_time e0]. rewrite Erec. cbn [rbind]. cbn [pn_st x1 pc_dt pc_max px_cfg]. rewrite px_predict. cbn [rbind enqueue].
    eexists. split; [reflexivity|]. cbn [set_poss ps_q set_nr ps_next]. rewrite N3. eexists. split; reflexivity. }
  destruct Epr as (s2 & Epr & e1 & Eq2 & Ep1).
  pose proof (pr_step _ _ _ _ _ _ _ HR Hlen Epop Epr) as HR2. exists s2, e0, e1. split; [exact HR2|]. split; [reflexivity|]. split; auto.
  unfold pending. rewrite Eq2. reflexivity.
Qed.

(** ** C42 the two simulators on the same isolated neuron *)
(** gate open: n Euler updates of dt stay within O(dt) of the fast-forward over n*dt *)
Theorem C42_agree_gate_open : forall (p : nparams R) dt n V0 ge0 gf0, 0 < tm p -> 0 < tf p -> 0 <= dt <= tf p ->
  exists b s Vx gx, updates p dt n {| V := V0; ge := ge0; gf := gf0; gate := 1 |} = Ok (s, b) /\
    fast_forward p {| V := V0; ge := ge0; gf := gf0; gate := 1 |} (INR n * dt) = Ok (Vx, gx) /\
    Rabs (V s - Vx) <= Rabs gf0 * dt / tm p /\ Rabs (gf s - gx) <= Rabs gf0 * dt / tf p.
Proof.
  intros p dt n V0 ge0 gf0 Hm Hf Hdt. destruct (euler_ode_gap p dt n V0 ge0 gf0 Hm Hf Hdt) as (b & s & E & H1 & H2 & _).
  rewrite ff_eq by lra. exists b, s. do 2 eexists. split; [exact E|]. split; [reflexivity|]. unfold ffV, ffG. cbn [V ge gf gate].
  destruct (Req_EM_T 1 0); [lra|]. unfold V_ode in H1. unfold gf_ode in H2.
  replace (V0 + ge0 / tm p * (INR n * dt) + gf0 * tf p / tm p * (1 - exp (- (INR n * dt) / tf p))) with
    (V0 + ge0 * (INR n * dt) / tm p + gf0 * tf p / tm p * (1 - exp (- (INR n * dt) / tf p))) by (unfold Rdiv; ring). auto.
Qed.
(** gate closed: potentials agree exactly, but the Euler update freezes gf and the fast-forward
    lets it decay, so the potentials differ once the gate opens *)
Theorem C42_gate_closed_refuted : forall (p : nparams R) dt n V0 ge0 gf0, 0 < tm p -> 0 < tf p -> 0 < dt -> (0 < n)%nat -> 0 < gf0 ->
  exists b s Vx gx, updates p dt n {| V := V0; ge := ge0; gf := gf0; gate := 0 |} = Ok (s, b) /\
    fast_forward p {| V := V0; ge := ge0; gf := gf0; gate := 0 |} (INR n * dt) = Ok (Vx, gx) /\
    V s = Vx /\ gf s = gf0 /\ gx = gf0 * exp (- (INR n * dt) / tf p) /\ gx < gf s.
Proof.
  intros p dt n V0 ge0 gf0 Hm Hf Hdt Hn Hg. destruct (updates_gate0 p dt n V0 ge0 gf0) as (b & E); [lra|].
  rewrite ff_eq by lra. exists b. do 3 eexists. split; [exact E|]. split; [reflexivity|]. cbn [V gf]. unfold ffV, ffG. cbn [V ge gf gate].
  destruct (Req_EM_T 0 0); [|lra]. split; [unfold Rdiv; ring|]. split; auto. split; auto.
  rewrite <- (Rmult_1_r gf0) at 2. apply Rmult_lt_compat_l; auto. rewrite <- exp_0. apply exp_increasing.
  assert (0 < INR n * dt / tf p).
  { apply Rmult_lt_0_compat; [apply Rmult_lt_0_compat; auto; apply lt_0_INR; auto|apply Rinv_0_lt_compat; auto]. }
  replace (- (INR n * dt) / tf p) with (- (INR n * dt / tf p)) by (unfold Rdiv; ring). lra.
Qed.
Print Assumptions C42_agree_gate_open.
Print Assumptions C42_gate_closed_refuted.
