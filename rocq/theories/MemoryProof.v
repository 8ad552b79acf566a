(** MemoryNetwork inside any network: stores an interval and replays it (C22). *)
From Coq Require Import Arith ZArith Bool List Reals Lra Lia Permutation.
From Verif Require Import Num Heapq Elements Networks Trace SimTrace TraceProps NeuronLib NetLib.
Import ListNotations.
Open Scope R_scope.
Open Scope list_scope.

(** first/last detectors, shared by many networks: [first] spikes at the first input
    spike only, [last] at the second. *)
Lemma first_spikes N i f a1 a2 :
  ins N f [mks i f SynV we cTsyn; mks f f SynV wi cTsyn] ->
  arrs N i cTsyn [a1; a2] -> (1 <= a1)%nat -> (a1 + step_at (t_dt N) 1 <= a2)%nat ->
  spikes_at N f [a1].
Proof.
  intros H HA H1 H2. pose proof (step_at_ge1 (t_dt N) 1) as HD. set (D1 := step_at (t_dt N) 1) in *.
  assert (HV : vonly N f) by (eapply ins_vonly; eauto; repeat constructor).
  destruct (Nat.eq_dec a2 (a1 + D1)) as [E|E].
  - apply (vonly_group N [{| g_n := f; g_S := [a1]; g_L := [(a1, 10); ((a1 + D1)%nat, 0)] |}]) with (g := {| g_n := f; g_S := [a1]; g_L := [(a1, 10); ((a1 + D1)%nat, 0)] |}); [| |left; auto].
    + intros g [<-|[]]. cbn [g_n g_L g_S]. repeat split; auto; try apply H; try (cbn; lia). vrun_solve.
    + intros K HK g [<-|[]]. cbn [g_n g_L g_S]. ev_input H. rewrite HA by lia.
      rewrite (arr_upto N f cTsyn [a1] K (S K)); try apply H; auto.
      * autorewrite with netR. fold D1. subst a2. ev_simpl. lra.
      * intros j Hj. apply (HK {| g_n := f; g_S := [a1]; g_L := [(a1, 10); ((a1 + D1)%nat, 0)] |}); auto. left; auto.
      * intros j [<-|[]]; auto.
      * repeat constructor; auto.
  - set (g0 := {| g_n := f; g_S := [a1]; g_L := [(a1, 10); ((a1 + D1)%nat, -10); (a2, 10)] |}).
    apply (vonly_group N [g0]) with (g := g0); [| |left; auto].
    + intros g [<-|[]]. cbn [g_n g_L g_S g0]. repeat split; auto; try apply H; try (cbn; lia). vrun_solve.
    + intros K HK g [<-|[]]. cbn [g_n g_L g_S g0]. ev_input H. rewrite HA by lia.
      rewrite (arr_upto N f cTsyn [a1] K (S K)); try apply H; auto.
      * autorewrite with netR. fold D1. ev_simpl. lra.
      * intros j Hj. apply (HK g0); auto. left; auto.
      * intros j [<-|[]]; auto.
      * repeat constructor; auto.
Qed.

Lemma last_spikes N i l a1 a2 :
  ins N l [mks i l SynV (half we) cTsyn] ->
  arrs N i cTsyn [a1; a2] -> (1 <= a1)%nat -> (a1 < a2)%nat ->
  spikes_at N l [a2].
Proof.
  intros H HA H1 H2.
  assert (E : vrun 0 [(a1, 5); (a2, 5)] = [a2]) by vrun_solve. rewrite <- E.
  apply vonly_spikes; [apply H| |cbn; lia|].
  - eapply ins_vonly; eauto; repeat constructor.
  - intros k Hk. ev_input H. rewrite HA by auto. autorewrite with netR. ev_simpl. lra.
Qed.

(** two-event relay (events may come in any order) *)
Lemma two_spikes N n b1 b2 : t_prm N n = stdp -> vonly N n -> (1 <= b1)%nat -> (1 <= b2)%nat -> b1 <> b2 ->
  (forall k, (1 <= k)%nat -> input N n SynV k = 10 * ind k b1 + 10 * ind k b2) -> spikes_at N n [b1; b2].
Proof.
  intros HP HV H1 H2 Hne HI. destruct (Nat.lt_ge_cases b1 b2).
  - assert (E : vrun 0 [(b1, 10); (b2, 10)] = [b1; b2]) by vrun_solve. rewrite <- E.
    apply vonly_spikes; auto; [cbn; lia|]. intros k Hk. rewrite HI by auto. ev_simpl. lra.
  - eapply spikes_at_perm; [apply perm_swap|].
    assert (E : vrun 0 [(b2, 10); (b1, 10)] = [b2; b1]) by vrun_solve. rewrite <- E.
    apply vonly_spikes; auto; [cbn; lia|]. intros k Hk. rewrite HI by auto. ev_simpl. lra.
Qed.

(** ** ge accumulators *)
Definition geonly (N : tnet) (n : nat) : Prop := forall y, In y (in_syn N n) -> s_ty y = SynGe.
Lemma ins_geonly N n l : ins N n l -> Forall (fun y => s_ty y = SynGe) l -> geonly N n.
Proof.
  intros H HF y Hy. rewrite Forall_forall in HF. apply HF. eapply Permutation_in; [apply (ins_syn _ _ _ H)|auto].
Qed.
Lemma geonly_other N n ty k : geonly N n -> ty <> SynGe -> input N n ty k = 0.
Proof. intros H Ht. apply input_no_ty. intros y Hy. rewrite (H y Hy). congruence. Qed.
Lemma geonly_none N n k : geonly N n -> input N n SynGe k = 0 -> no_input N n k.
Proof. intros H HI ty. destruct ty; auto; apply geonly_other; auto; discriminate. Qed.
Definition ramp_st (v g : R) : nstate R := {| V := v; ge := g; gf := 0; gate := 0 |}.
Lemma traj_ramp N v g i : traj N (ramp_st v g) i = ramp_st (v + INR i * (t_dt N * g / 100)) g.
Proof. unfold traj, ramp_st. cbn [V ge gf gate]. rewrite (Reqb_refl 0). f_equal; lra. Qed.
Lemma recvd_ge N n k v g x : geonly N n -> st N k n = ramp_st v g -> input N n SynGe (S k) = x ->
  recvd N n k = ramp_st v (g + x).
Proof.
  intros H HS HX. unfold recvd. rewrite HS, HX. rewrite !(geonly_other N n) by (auto; discriminate).
  unfold recv, ramp_st. cbn. f_equal; lra.
Qed.

(** a ramp: events x at step k+1, then nothing up to step k+j *)
Lemma ramp N n k v g x j : t_prm N n = stdp -> geonly N n -> st N k n = ramp_st v g ->
  input N n SynGe (S k) = x -> (forall i, (1 < i <= j)%nat -> input N n SynGe (k + i) = 0) ->
  (forall i, (1 <= i <= j)%nat -> v + INR i * (t_dt N * (g + x) / 100) < 10) ->
  forall i, (1 <= i <= j)%nat ->
    st N (k + i) n = ramp_st (v + INR i * (t_dt N * (g + x) / 100)) (g + x) /\ spk N (k + i) n = false.
Proof.
  intros HP HG HS HX HI HV i Hi.
  pose proof (recvd_ge N n k v g x HG HS HX) as HR.
  destruct (phase N n k _ j HP HR) with (i := i) as [H1 H2]; auto.
  - intros i' Hi'. apply geonly_none; auto.
  - intros i' Hi'. rewrite traj_ramp. cbn [V ramp_st]. auto.
  - rewrite traj_ramp in H1. auto.
Qed.
Lemma ramp_fire N n k v g x j : t_prm N n = stdp -> geonly N n -> st N k n = ramp_st v g ->
  input N n SynGe (S k) = x -> (1 <= j)%nat -> (forall i, (1 < i <= j)%nat -> input N n SynGe (k + i) = 0) ->
  (forall i, (1 <= i < j)%nat -> v + INR i * (t_dt N * (g + x) / 100) < 10) ->
  10 <= v + INR j * (t_dt N * (g + x) / 100) ->
  (forall i, (1 <= i < j)%nat -> spk N (k + i) n = false) /\
  spk N (k + j) n = true /\ st N (k + j) n = at_rest 0.
Proof.
  intros HP HG HS HX Hj HI HV HF.
  pose proof (recvd_ge N n k v g x HG HS HX) as HR.
  destruct (phase_fire N n k _ j HP HR Hj) as (A & B & C); auto.
  - intros i' Hi'. apply geonly_none; auto.
  - intros i' Hi'. rewrite traj_ramp. cbn [V ramp_st]. auto.
  - rewrite traj_ramp. cbn [V ramp_st]. auto.
  - split; auto. intros i Hi. apply A; auto.
Qed.
Lemma at_rest_ramp v : at_rest v = ramp_st v 0. Proof. reflexivity. Qed.

(** nothing ever arrives: silent *)
Lemma silent N n : t_prm N n = stdp -> (forall k, (1 <= k)%nat -> no_input N n k) -> forall k, spk N k n = false /\ st N k n = at_rest 0.
Proof.
  intros HP HI k. destruct (Nat.eq_dec k 0) as [->|]; [split; [reflexivity|apply init_rest; auto]|].
  destruct (rest_quiet N n 0 0 HP (init_rest N n HP) ltac:(lra) k) with (k := k) as [A B]; try lia.
  - intros j Hj. apply HI. lia.
  - split; auto. apply B. lia.
Qed.
Lemma rest_forever N n a v : t_prm N n = stdp -> st N a n = at_rest v -> v < 10 -> (forall k, (a < k)%nat -> no_input N n k) ->
  forall k, (a < k)%nat -> spk N k n = false.
Proof.
  intros HP HS Hv HI k Hk. destruct (rest_quiet N n a v HP HS Hv k) with (k := k) as [_ B]; try lia.
  - intros j Hj. apply HI. lia.
  - apply B. auto.
Qed.
Lemma rest_before N n b : t_prm N n = stdp -> (forall k, (1 <= k < b)%nat -> no_input N n k) ->
  forall k, (k < b)%nat -> spk N k n = false /\ st N k n = at_rest 0.
Proof.
  intros HP HI k Hk. destruct (Nat.eq_dec k 0) as [->|]; [split; [reflexivity|apply init_rest; auto]|].
  destruct (rest_quiet N n 0 0 HP (init_rest N n HP) ltac:(lra) k) with (k := k) as [A B]; try lia.
  - intros j Hj. apply HI. lia.
  - split; auto. apply B. lia.
Qed.

(** one ge event of weight g > 0 at step e: fires once, M steps later, when M is the
    least number of steps with M*dt*g/100 >= 10 *)
Lemma single_ramp N n g e M : t_prm N n = stdp -> geonly N n -> (1 <= e)%nat -> (1 <= M)%nat ->
  (forall k, (1 <= k)%nat -> input N n SynGe k = g * ind k e) ->
  0 <= g -> 0 <= t_dt N -> INR (M - 1) * (t_dt N * g / 100) < 10 <= INR M * (t_dt N * g / 100) ->
  spikes_at N n [(e - 1 + M)%nat].
Proof.
  intros HP HG He HM HI Hg Hdt [HB1 HB2] k.
  assert (Hmono : forall i, (i <= M - 1)%nat -> INR i * (t_dt N * g / 100) < 10).
  { intros i Hi. apply Rle_lt_trans with (INR (M - 1) * (t_dt N * g / 100)); auto.
    apply Rmult_le_compat_r; [|apply le_INR; auto]. assert (0 <= t_dt N * g) by (apply Rmult_le_pos; auto). lra. }
  assert (HA : forall k, (k < e)%nat -> spk N k n = false /\ st N k n = at_rest 0).
  { apply rest_before; auto. intros j Hj. apply geonly_none; auto. rewrite HI, ind_ne by lia. lra. }
  destruct (ramp_fire N n (e - 1) 0 0 g M) as (B1 & B2 & B3); auto.
  { rewrite <- at_rest_ramp. apply HA. lia. }
  { replace (S (e - 1)) with e by lia. rewrite HI, ind_eq by lia. lra. }
  { intros i Hi. rewrite HI, ind_ne by lia. lra. }
  { intros i Hi. rewrite !Rplus_0_l. apply Hmono. lia. }
  { rewrite !Rplus_0_l. auto. }
  cbn [memb existsb]. rewrite orb_false_r.
  destruct (Nat.lt_trichotomy k (e - 1 + M)) as [Hk|[->|Hk]].
  - rewrite (proj2 (Nat.eqb_neq _ _)) by lia.
    destruct (Nat.lt_ge_cases k e); [apply HA; auto|].
    replace k with (e - 1 + (k - (e - 1)))%nat by lia. apply B1. lia.
  - rewrite Nat.eqb_refl. auto.
  - rewrite (proj2 (Nat.eqb_neq _ _)) by lia. eapply (rest_forever N n (e - 1 + M) 0); eauto; try lra.
    intros j Hj. apply geonly_none; auto. rewrite HI, ind_ne by lia. lra.
Qed.

(** ** The memory *)
Record mem_in (N : tnet) (wacc : R) (m : memory_net) : Prop := {
  mi_first : ins N (mm_first m) [mks (mm_input m) (mm_first m) SynV we cTsyn; mks (mm_first m) (mm_first m) SynV wi cTsyn];
  mi_last : ins N (mm_last m) [mks (mm_input m) (mm_last m) SynV (half we) cTsyn];
  mi_acc : ins N (mm_acc m) [mks (mm_first m) (mm_acc m) SynGe wacc cTsyn];
  mi_acc2 : ins N (mm_acc2 m) [mks (mm_last m) (mm_acc2 m) SynGe wacc (twice cTsyn);
                               mks (mm_acc m) (mm_acc2 m) SynGe (nopp wacc) cTsyn;
                               mks (mm_recall m) (mm_acc2 m) SynGe wacc cTsyn];
  mi_ready : ins N (mm_ready m) [mks (mm_acc m) (mm_ready m) SynV we cTsyn];
  mi_output : ins N (mm_output m) [mks (mm_recall m) (mm_output m) SynV we (twice cTsyn);
                                   mks (mm_acc2 m) (mm_output m) SynV we cTsyn]
}.

Section Mem.
Variable N : tnet.
Variable m : memory_net.
Variable Tmax : R.
Let dt := t_dt N.
Hypothesis Hdt : 0 < dt.
Hypothesis HTmax : 0 < Tmax.
Hypothesis HM : mem_in N (1000 / Tmax) m.
Variables a1 a2 : nat.
Let D1 := step_at dt 1.
Let D2 := step_at dt 2.
Let M := step_at dt Tmax.
Hypothesis Hin : arrs N (mm_input m) 1 [a1; a2].
Hypothesis Ha1 : (1 <= a1)%nat.
Hypothesis Ha2 : (a1 + D1 <= a2)%nat.

Lemma delta_eq g : dt * (1000 / Tmax) / 100 * g = dt * 10 / Tmax * g.
Proof. field. lra. Qed.
Lemma M_bounds : INR (M - 1) * (dt * (1000 / Tmax) / 100) < 10 <= INR M * (dt * (1000 / Tmax) / 100).
Proof.
  pose proof (step_at_bounds dt Tmax Hdt HTmax) as [B1 B2]. fold M in B1, B2. pose proof (step_at_ge1 dt Tmax) as HM1. fold M in HM1.
  rewrite minus_INR by lia. cbn [INR].
  assert (E : dt * (1000 / Tmax) / 100 = 10 * (dt / Tmax)) by (field; lra). rewrite E.
  assert (Hi : 0 < / Tmax) by (apply Rinv_0_lt_compat; auto).
  assert (E2 : Tmax * / Tmax = 1) by (apply Rinv_r; lra). unfold Rdiv. split; nra.
Qed.

Definition F : nat := (a1 + D1 - 1 + M)%nat.   (* acc fires *)

Lemma mem_first : spikes_at N (mm_first m) [a1].
Proof.
  eapply first_spikes; [apply (mi_first _ _ _ HM)|rewrite cTsyn_R; eauto|auto|auto].
Qed.
Lemma mem_last : spikes_at N (mm_last m) [a2].
Proof.
  eapply last_spikes; [apply (mi_last _ _ _ HM)|rewrite cTsyn_R; eauto|auto|].
  pose proof (step_at_ge1 dt 1). fold D1 in H. lia.
Qed.
Lemma mem_acc : spikes_at N (mm_acc m) [F].
Proof.
  pose proof (mi_acc _ _ _ HM) as H. unfold F.
  apply (single_ramp N (mm_acc m) (1000 / Tmax) (a1 + D1) M); auto.
  - apply H.
  - eapply ins_geonly; eauto; repeat constructor.
  - lia.
  - apply step_at_ge1.
  - intros k Hk. ev_input H.
    rewrite (arrs_spikes N (mm_first m) cTsyn [a1]); auto using mem_first.
    + autorewrite with netR. ev_simpl. fold dt D1. lra.
    + apply (ins_ext _ _ _ (mi_first _ _ _ HM)).
    + intros j [<-|[]]; auto.
    + repeat constructor; auto.
  - apply Rmult_le_pos; [lra|]. left. apply Rinv_0_lt_compat; auto.
  - fold dt. lra.
  - apply M_bounds.
Qed.
Lemma F_ge1 : (1 <= F)%nat.
Proof. unfold F. pose proof (step_at_ge1 dt Tmax). fold M in H. lia. Qed.
Lemma mem_ready : spikes_at N (mm_ready m) [(F + D1)%nat].
Proof.
  eapply relay; [apply (mi_ready _ _ _ HM)|rewrite we_R; lra| |cbn; split; auto; pose proof F_ge1; lia].
  eapply arrs_1; [apply (mi_acc _ _ _ HM)|apply mem_acc|rewrite cTsyn_R; reflexivity|apply F_ge1].
Qed.

(** recall arrives at r1 (over Tsyn) and r2 (over 2 Tsyn), after storage is complete *)
Variables r1 r2 : nat.
Hypothesis Hr1 : arrs N (mm_recall m) 1 [r1].
Hypothesis Hr2 : arrs N (mm_recall m) 2 [r2].
Hypothesis Hr2pos : (1 <= r2)%nat.
Hypothesis Hlate1 : (F + D1 < r1)%nat.
Hypothesis Hlate2 : (a2 + D2 < r1)%nat.
(* the two output spikes do not fall on the same step *)
Hypothesis Hdist : (r2 + D1 <> r1 + D2 + (a2 - a1))%nat.

Let dl : R := dt * (1000 / Tmax) / 100.
Lemma dl_pos : 0 < dl.
Proof. unfold dl. assert (0 < / Tmax) by (apply Rinv_0_lt_compat; auto). unfold Rdiv. nra. Qed.

Lemma acc2_input k : (1 <= k)%nat -> input N (mm_acc2 m) SynGe k =
  1000 / Tmax * ind k (a2 + D2) + - (1000 / Tmax) * ind k (F + D1) + 1000 / Tmax * ind k r1.
Proof.
  intros Hk. pose proof (mi_acc2 _ _ _ HM) as H. ev_input H.
  rewrite (arrs_spikes N (mm_last m) (twice cTsyn) [a2]); auto using mem_last.
  rewrite (arrs_spikes N (mm_acc m) cTsyn [F]); auto using mem_acc.
  - autorewrite with netR. rewrite (Hr1 k Hk). ev_simpl. rewrite Rmult_1_r. fold dt D1 D2. lra.
  - apply (ins_ext _ _ _ (mi_acc _ _ _ HM)).
  - intros j [<-|[]]; apply F_ge1.
  - repeat constructor; auto.
  - apply (ins_ext _ _ _ (mi_last _ _ _ HM)).
  - intros j [<-|[]]. lia.
  - repeat constructor; auto.
Qed.
Lemma acc2_none k : (1 <= k)%nat -> k <> (a2 + D2)%nat -> k <> (F + D1)%nat -> k <> r1 -> input N (mm_acc2 m) SynGe k = 0.
Proof. intros. rewrite acc2_input, !ind_ne by auto. lra. Qed.

Lemma D2_bounds : (2 * D1 - 1 <= D2 <= 2 * D1)%nat.
Proof.
  pose proof (step_at_bounds dt 1 Hdt ltac:(lra)) as [B1 B2]. pose proof (step_at_bounds dt 2 Hdt ltac:(lra)) as [B3 B4].
  fold D1 in B1, B2. fold D2 in B3, B4. pose proof (step_at_ge1 dt 1). fold D1 in H.
  split.
  - assert (INR (2 * D1 - 1) < INR (S D2)); [|apply INR_lt in H0; lia].
    rewrite minus_INR, mult_INR, (S_INR D2) by lia. change (INR 2) with 2. change (INR 1) with 1.
    apply Rmult_lt_reg_r with dt; auto. lra.
  - unfold D2. apply step_at_le; auto; [lia|]. rewrite mult_INR. cbn [INR]. lra.
Qed.

(** charge of acc2 before recall: P = (F + D1) - (a2 + D2) units, stored between
    the two events; P may be -1 *)
Lemma acc2_charged :
  st N (r1 - 1) (mm_acc2 m) = ramp_st ((INR (F + D1) - INR (a2 + D2)) * dl) 0 /\
  forall k, (k < r1)%nat -> spk N k (mm_acc2 m) = false.
Proof.
  pose proof (mi_acc2 _ _ _ HM) as H. pose proof (ins_prm _ _ _ H) as HP.
  assert (HG : geonly N (mm_acc2 m)) by (eapply ins_geonly; eauto; repeat constructor).
  pose proof D2_bounds as HD. pose proof dl_pos as Hdl. pose proof M_bounds as [_ HB].
  pose proof (step_at_ge1 dt 1) as HD1. fold D1 in HD1.
  pose proof (step_at_ge1 dt Tmax) as HM1. fold M in HM1. fold dl in HB.
  set (b := (a2 + D2)%nat) in *. set (e := (F + D1)%nat) in *.
  assert (Hbe : (e - b <= M - 1)%nat) by (unfold e, b, F; lia).
  destruct (Nat.lt_trichotomy b e) as [Hlt|[Heq|Hgt]].
  - (* +w at b, -w at e, +w at r1 *)
    assert (HA : forall k, (k < b)%nat -> spk N k (mm_acc2 m) = false /\ st N k (mm_acc2 m) = at_rest 0).
    { apply rest_before; auto. intros j Hj. apply geonly_none; auto. apply acc2_none; lia. }
    assert (Hlow : forall i, (i <= e - b)%nat -> 0 + INR i * dl < 10).
    { intros i Hi. rewrite Rplus_0_l. apply Rle_lt_trans with (INR (M - 1) * dl).
      - apply Rmult_le_compat_r; [lra|]. apply le_INR. lia.
      - pose proof M_bounds as [HB1 _]. auto. }
    assert (HR1 := ramp N (mm_acc2 m) (b - 1) 0 0 (1000 / Tmax) (e - b) HP HG).
    rewrite Rplus_0_l in HR1. fold dt in HR1. change (dt * (1000 / Tmax) / 100) with dl in HR1.
    specialize (HR1 ltac:(rewrite <- at_rest_ramp; apply HA; lia)).
    specialize (HR1 ltac:(replace (S (b - 1)) with b by lia; rewrite acc2_input, ind_eq, !ind_ne by lia; lra)).
    specialize (HR1 ltac:(intros i Hi; apply acc2_none; lia)).
    specialize (HR1 ltac:(intros i Hi; apply Hlow; lia)).
    assert (HS1 : st N (e - 1) (mm_acc2 m) = ramp_st (INR (e - b) * dl) (1000 / Tmax)).
    { destruct (HR1 (e - b)%nat) as [E _]; [lia|]. replace (b - 1 + (e - b))%nat with (e - 1)%nat in E by lia.
      rewrite E, Rplus_0_l. reflexivity. }
    assert (HR2 := ramp N (mm_acc2 m) (e - 1) (INR (e - b) * dl) (1000 / Tmax) (- (1000 / Tmax)) (r1 - e) HP HG HS1).
    specialize (HR2 ltac:(replace (S (e - 1)) with e by lia; rewrite acc2_input, ind_eq, !ind_ne by lia; lra)).
    specialize (HR2 ltac:(intros i Hi; apply acc2_none; lia)).
    assert (Ez : forall i, INR (e - b) * dl + INR i * (t_dt N * (1000 / Tmax + - (1000 / Tmax)) / 100) = INR (e - b) * dl)
      by (intros; field; lra).
    specialize (HR2 ltac:(intros i Hi; rewrite Ez, <- (Rplus_0_l (INR (e - b) * dl)); apply Hlow; lia)).
    split.
    + destruct (HR2 (r1 - e)%nat) as [E _]; [lia|]. replace (e - 1 + (r1 - e))%nat with (r1 - 1)%nat in E by lia.
      rewrite E, Ez. f_equal; [|lra]. rewrite minus_INR by lia. reflexivity.
    + intros k Hk. destruct (Nat.lt_ge_cases k b); [apply HA; auto|].
      destruct (Nat.lt_ge_cases k e).
      * replace k with (b - 1 + (k - (b - 1)))%nat by lia. apply HR1. lia.
      * replace k with (e - 1 + (k - (e - 1)))%nat by lia. apply HR2. lia.
  - (* simultaneous *)
    assert (HA : forall k, (k < r1)%nat -> spk N k (mm_acc2 m) = false /\ st N k (mm_acc2 m) = at_rest 0).
    { apply rest_before; auto. intros j Hj. apply geonly_none; auto. rewrite acc2_input by lia.
      rewrite (ind_ne j r1) by lia. change (a2 + D2)%nat with b. change (F + D1)%nat with e. rewrite Heq. lra. }
    split; [|intros; apply HA; auto]. rewrite Heq. replace (INR e - INR e) with 0 by lra. rewrite Rmult_0_l.
    apply HA. lia.
  - (* -w before +w: the potential goes below zero and stays there *)
    assert (HA : forall k, (k < e)%nat -> spk N k (mm_acc2 m) = false /\ st N k (mm_acc2 m) = at_rest 0).
    { apply rest_before; auto. intros j Hj. apply geonly_none; auto. apply acc2_none; lia. }
    assert (Hep : (1 <= e)%nat) by (unfold e; lia).
    assert (HR1 := ramp N (mm_acc2 m) (e - 1) 0 0 (- (1000 / Tmax)) (b - e) HP HG).
    specialize (HR1 ltac:(rewrite <- at_rest_ramp; apply HA; lia)).
    specialize (HR1 ltac:(replace (S (e - 1)) with e by lia; rewrite acc2_input, ind_eq, !ind_ne by lia; lra)).
    specialize (HR1 ltac:(intros i Hi; apply acc2_none; lia)).
    assert (Ez : forall i, 0 + INR i * (t_dt N * (0 + - (1000 / Tmax)) / 100) = - (INR i * dl))
      by (intros; unfold dl; fold dt; field; lra).
    assert (Hpos : forall i, 0 <= INR i * dl) by (intros; apply Rmult_le_pos; [apply pos_INR|lra]).
    specialize (HR1 ltac:(intros i Hi; rewrite Ez; specialize (Hpos i); lra)).
    assert (HS1 : st N (b - 1) (mm_acc2 m) = ramp_st (- (INR (b - e) * dl)) (- (1000 / Tmax))).
    { destruct (HR1 (b - e)%nat ltac:(lia)) as [E1 _]. replace (e - 1 + (b - e))%nat with (b - 1)%nat in E1 by lia.
      rewrite E1, Ez. f_equal; lra. }
    assert (HR2 := ramp N (mm_acc2 m) (b - 1) (- (INR (b - e) * dl)) (- (1000 / Tmax)) (1000 / Tmax) (r1 - b) HP HG HS1).
    specialize (HR2 ltac:(replace (S (b - 1)) with b by lia; rewrite acc2_input, ind_eq, !ind_ne by lia; lra)).
    specialize (HR2 ltac:(intros i Hi; apply acc2_none; lia)).
    assert (Ez2 : forall i, - (INR (b - e) * dl) + INR i * (t_dt N * (- (1000 / Tmax) + 1000 / Tmax) / 100) = - (INR (b - e) * dl))
      by (intros; field; lra).
    specialize (HR2 ltac:(intros i Hi; rewrite Ez2; specialize (Hpos (b - e)%nat); lra)).
    split.
    + destruct (HR2 (r1 - b)%nat) as [E _]; [lia|]. replace (b - 1 + (r1 - b))%nat with (r1 - 1)%nat in E by lia.
      rewrite E, Ez2. f_equal; [|lra]. rewrite minus_INR by lia. lra.
    + intros k Hk. destruct (Nat.lt_ge_cases k e); [apply HA; auto|]. destruct (Nat.lt_ge_cases k b).
      * replace k with (e - 1 + (k - (e - 1)))%nat by lia. apply HR1. lia.
      * replace k with (b - 1 + (k - (b - 1)))%nat by lia. apply HR2. lia.
Qed.

(** acc2 fires G steps after recall *)
Definition G : nat := (r1 - 1 + (M + (a2 + D2) - (F + D1)))%nat.
Lemma G_eq : (G + D1 = r1 + D2 - D1 + (a2 - a1))%nat.
Proof.
  pose proof D2_bounds. pose proof (step_at_ge1 dt 1) as HD1. fold D1 in HD1.
  pose proof (step_at_ge1 dt Tmax) as HM1. fold M in HM1. unfold G, F. lia.
Qed.
Lemma mem_acc2 : spikes_at N (mm_acc2 m) [G].
Proof.
  pose proof (mi_acc2 _ _ _ HM) as H. pose proof (ins_prm _ _ _ H) as HP.
  assert (HG : geonly N (mm_acc2 m)) by (eapply ins_geonly; eauto; repeat constructor).
  pose proof D2_bounds as HD. pose proof dl_pos as Hdl. pose proof M_bounds as [HB1 HB2].
  pose proof (step_at_ge1 dt 1) as HD1. fold D1 in HD1.
  pose proof (step_at_ge1 dt Tmax) as HM1. fold M in HM1. fold dl in HB1, HB2.
  destruct acc2_charged as [HS Hpre].
  set (j := (M + (a2 + D2) - (F + D1))%nat).
  assert (Hj : (1 <= j)%nat) by (unfold j, F; lia).
  assert (HjR : INR j = INR M - (INR (F + D1) - INR (a2 + D2))).
  { unfold j. rewrite minus_INR by (unfold F; lia). rewrite plus_INR. lra. }
  destruct (ramp_fire N (mm_acc2 m) (r1 - 1) _ 0 (1000 / Tmax) j HP HG HS) as (A & B & C); auto.
  - replace (S (r1 - 1)) with r1 by lia. rewrite acc2_input, ind_eq, !ind_ne by lia. lra.
  - intros i Hi. apply acc2_none; lia.
  - intros i Hi. rewrite Rplus_0_l. fold dt. change (dt * (1000 / Tmax) / 100) with dl. rewrite <- Rmult_plus_distr_r.
    apply Rle_lt_trans with (INR (M - 1) * dl); auto. apply Rmult_le_compat_r; [lra|].
    assert (Hij : INR i <= INR (j - 1)) by (apply le_INR; lia). rewrite minus_INR in Hij by lia.
    rewrite minus_INR by lia. cbn [INR] in *. lra.
  - rewrite Rplus_0_l. fold dt. change (dt * (1000 / Tmax) / 100) with dl. rewrite <- Rmult_plus_distr_r.
    rewrite HjR. replace (INR (F + D1) - INR (a2 + D2) + (INR M - (INR (F + D1) - INR (a2 + D2)))) with (INR M) by lra. auto.
  - intros k. cbn [memb existsb]. rewrite orb_false_r. unfold G. fold j.
    destruct (Nat.lt_trichotomy k (r1 - 1 + j)) as [Hk|[->|Hk]].
    + rewrite (proj2 (Nat.eqb_neq _ _)) by lia. destruct (Nat.lt_ge_cases k r1); [apply Hpre; auto|].
      replace k with (r1 - 1 + (k - (r1 - 1)))%nat by lia. apply A. lia.
    + rewrite Nat.eqb_refl. auto.
    + rewrite (proj2 (Nat.eqb_neq _ _)) by lia. eapply (rest_forever N (mm_acc2 m) (r1 - 1 + j) 0); eauto; try lra.
      intros i Hi. apply geonly_none; auto. apply acc2_none; lia.
Qed.

(** The stored interval is replayed: output spikes at r2 and at
    r1 + (a2 - a1) + D2 - D1. *)
Theorem mem_output : spikes_at N (mm_output m) [r2; (r1 + D2 - D1 + (a2 - a1))%nat].
Proof.
  pose proof (mi_output _ _ _ HM) as H. rewrite <- G_eq.
  pose proof D2_bounds as HD. pose proof (step_at_ge1 dt 1) as HD1. fold D1 in HD1.
  pose proof G_eq as HGe.
  apply two_spikes; auto; try lia.
  - apply H.
  - eapply ins_vonly; eauto; repeat constructor.
  - intros k Hk. ev_input H.
    rewrite (arrs_spikes N (mm_acc2 m) cTsyn [G]); auto using mem_acc2.
    + autorewrite with netR. rewrite !Rmult_1_r. rewrite (Hr2 k Hk). ev_simpl. fold dt D1. lra.
    + apply (ins_ext _ _ _ (mi_acc2 _ _ _ HM)).
    + intros j [<-|[]]. unfold G. lia.
    + repeat constructor; auto.
Qed.
End Mem.
