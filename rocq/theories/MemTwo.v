(** MemoryNetwork: two stores, then one recall (C70): the stored values add up. *)
From Coq Require Import Arith ZArith Bool List Reals Lra Lia Permutation.
From Verif Require Import Num Heapq Elements Simulator Networks Trace SimTrace SimProps TraceProps NeuronLib NetLib Build BuildNets Bridge MemoryProof GeLib Session SegLib SimpleNets InvMem Restart MemReuse Reuse Jobs Settle RestFun.
Import ListNotations.
Open Scope R_scope.
Open Scope list_scope.

(** the "first" gadget over two input pairs *)
Lemma first_two N i f a1 a2 b1 b2 : ins N f [mks i f SynV we cTsyn; mks f f SynV wi cTsyn] ->
  arrs N i cTsyn [a1; a2; b1; b2] -> (1 <= a1)%nat -> (a1 + step_at (t_dt N) 1 <= a2 < b1)%nat -> (b1 + step_at (t_dt N) 1 <= b2)%nat -> spikes_at N f [a1; b1].
Proof.
  intros H HA H1 H2 H3. pose proof (step_at_ge1 (t_dt N) 1) as HD. set (D1 := step_at (t_dt N) 1) in *.
  assert (HV : vonly N f) by (eapply ins_vonly; eauto; repeat constructor).
  set (g0 := {| g_n := f; g_S := [a1; b1]; g_L := [(a1, 10); ((a1 + D1)%nat, -10); (a2, 10); (b1, 10); ((b1 + D1)%nat, -10); (b2, 10)] |}).
  apply (seg_group N [g0]) with (g := g0); [| |left; auto].
  - intros g [<-|[]]. cbn [g_n g_L g_S g0]. repeat split; auto; try apply H; segs_solve.
  - intros K HK g [<-|[]]. cbn [g_n g_L g_S g0]. ev_input H. rewrite HA by lia.
    rewrite (arr_upto N f cTsyn [a1; b1] K (S K)); try apply H; auto.
    + autorewrite with netR. fold D1. ev_simpl. fold D1. lra.
    + intros j Hj. apply (HK g0); auto. left; auto.
    + intros j [<-|[<-|[]]]; lia.
    + repeat constructor; cbn; intuition lia.
Qed.
Lemma last_two N i l a1 a2 b1 b2 : ins N l [mks i l SynV (half we) cTsyn] ->
  arrs N i cTsyn [a1; a2; b1; b2] -> (1 <= a1)%nat -> (a1 < a2 < b1)%nat -> (b1 < b2)%nat -> spikes_at N l [a2; b2].
Proof.
  intros H HA H1 H2 H3. apply (seg_spikes N l [(a1, 5); (a2, 5); (b1, 5); (b2, 5)]); [apply H|eapply ins_vonly; eauto; repeat constructor| |].
  - segs_solve.
  - intros k Hk. ev_input H. rewrite HA by auto. autorewrite with netR. ev_simpl. lra.
Qed.
(** two equal ramps, the second after the first has fired *)
Lemma two_ramps N n g e1 e2 M : t_prm N n = stdp -> geonly N n -> (1 <= e1)%nat -> (1 <= M)%nat -> (e1 - 1 + M < e2)%nat ->
  (forall k, (1 <= k)%nat -> input N n SynGe k = g * ind k e1 + g * ind k e2) ->
  0 <= g -> 0 <= t_dt N -> INR (M - 1) * (t_dt N * g / 100) < 10 <= INR M * (t_dt N * g / 100) ->
  spikes_at N n [(e1 - 1 + M)%nat; (e2 - 1 + M)%nat].
Proof.
  intros HP HG He HM He2 HI Hg Hdt [HB1 HB2] k.
  assert (Hmono : forall i, (i <= M - 1)%nat -> 0 + INR i * (t_dt N * (0 + g) / 100) < 10).
  { intros i Hi. rewrite Rplus_0_l, (Rplus_0_l g). apply Rle_lt_trans with (INR (M - 1) * (t_dt N * g / 100)); auto.
    apply Rmult_le_compat_r; [|apply le_INR; auto]. assert (0 <= t_dt N * g) by (apply Rmult_le_pos; auto). lra. }
  assert (NI : forall j, (1 <= j)%nat -> j <> e1 -> j <> e2 -> no_input N n j).
  { intros j Hj N1 N2. apply geonly_none; auto. rewrite HI, !ind_ne by auto. lra. }
  assert (HA : forall k, (k < e1)%nat -> spk N k n = false /\ st N k n = at_rest 0) by (apply rest_before; auto; intros j Hj; apply NI; lia).
  assert (FIRE : forall b, (1 <= b)%nat -> st N (b - 1) n = ramp_st 0 0 -> input N n SynGe b = g -> (forall i, (1 < i <= M)%nat -> input N n SynGe (b - 1 + i) = 0) ->
    (forall i, (1 <= i < M)%nat -> spk N (b - 1 + i) n = false) /\ spk N (b - 1 + M) n = true /\ st N (b - 1 + M) n = at_rest 0).
  { intros b Hb Hs Hi Hz. apply (ramp_fire N n (b - 1) 0 0 g M); auto.
    - replace (S (b - 1)) with b by lia. auto.
    - intros i Hi'. apply Hmono. lia.
    - rewrite Rplus_0_l, (Rplus_0_l g). auto. }
  destruct (FIRE e1) as (A1 & A2 & A3); auto.
  { rewrite <- at_rest_ramp. apply HA. lia. }
  { rewrite HI, ind_eq, ind_ne by lia. lra. }
  { intros i Hi. rewrite HI, !ind_ne by lia. lra. }
  set (f1 := (e1 - 1 + M)%nat) in *.
  assert (HQ : forall k, (f1 <= k <= e2 - 1)%nat -> st N k n = at_rest 0 /\ (f1 < k -> spk N k n = false)%nat).
  { apply rest_quiet; auto; [lra|]. intros j Hj. apply NI; lia. }
  destruct (FIRE e2) as (B1 & B2 & B3); try lia.
  { rewrite <- at_rest_ramp. apply HQ. lia. }
  { rewrite HI, ind_eq, ind_ne by lia. lra. }
  { intros i Hi. rewrite HI, !ind_ne by lia. lra. }
  set (f2 := (e2 - 1 + M)%nat) in *. cbn [memb existsb]. rewrite orb_false_r.
  destruct (Nat.eqb_spec k f1) as [->|N1]; [exact A2|]. destruct (Nat.eqb_spec k f2) as [->|N2]; [exact B2|]. cbn [orb].
  destruct (Nat.lt_ge_cases k e1); [apply HA; auto|].
  destruct (Nat.lt_ge_cases k f1). { replace k with (e1 - 1 + (k - (e1 - 1)))%nat by lia. apply A1. unfold f1 in *. lia. }
  destruct (Nat.lt_ge_cases k e2). { apply HQ; lia. }
  destruct (Nat.lt_ge_cases k f2). { replace k with (e2 - 1 + (k - (e2 - 1)))%nat by lia. apply B1. unfold f2 in *. lia. }
  destruct (rest_quiet N n f2 0 HP B3 ltac:(lra) k) with (k := k) as [_ Z]; try lia; [intros j Hj; apply NI; lia|apply Z; lia].
Qed.

Section Two.
Variable N : tnet.
Variable m : memory_net.
Variable Tmax : R.
Let dt := t_dt N.
Hypothesis Hdt : 0 < dt.
Hypothesis HTmax : 0 < Tmax.
Hypothesis HM : mem_in N (1000 / Tmax) m.
Let D1 := step_at dt 1.
Let D2 := step_at dt 2.
Let M := step_at dt Tmax.
Variables a1 a2 b1 b2 r1 q : nat.
Hypothesis Hin : arrs N (mm_input m) 1 [a1; a2; b1; b2].
Hypothesis Ha1 : (1 <= a1)%nat.
Hypothesis Ha2 : (a1 + D1 <= a2 < b1)%nat.
Hypothesis Hb2 : (b1 + D1 <= b2)%nat.
Hypothesis Hr1 : arrs N (mm_recall m) 1 [r1].
Hypothesis Hq : arrs N (mm_recall m) 2 [q].
Hypothesis Hq1 : (1 <= q)%nat.
Let F1 := (a1 + D1 - 1 + M)%nat.
Let F2 := (b1 + D1 - 1 + M)%nat.
(* the second store begins after the first is complete, the recall comes after the second *)
Hypothesis Hs1 : (F1 + D1 <= b1)%nat.
Hypothesis Hs2 : (a2 + D2 <= b1)%nat.
Hypothesis Hs3 : (F2 + D1 < r1)%nat.
Hypothesis Hs4 : (b2 + D2 < r1)%nat.
(* what the two stores left is below the threshold: G is after the recall *)
Let G := (r1 - 1 + M + (a2 + D2) + (b2 + D2) - (F1 + D1) - (F2 + D1))%nat.
Hypothesis Hsum : (F1 + D1 + (F2 + D1) <= M - 1 + (a2 + D2) + (b2 + D2))%nat.
Hypothesis Hdist : (q < G + D1)%nat.

Lemma two_first : spikes_at N (mm_first m) [a1; b1].
Proof. eapply first_two; [apply (mi_first _ _ _ HM)|rewrite cTsyn_R; eauto|auto|auto|auto]. Qed.
Lemma two_last : spikes_at N (mm_last m) [a2; b2].
Proof. pose proof (step_at_ge1 dt 1). fold D1 in H. eapply last_two; [apply (mi_last _ _ _ HM)|rewrite cTsyn_R; eauto|auto|lia|lia]. Qed.
Lemma two_acc : spikes_at N (mm_acc m) [F1; F2].
Proof.
  pose proof (mi_acc _ _ _ HM) as H. pose proof (step_at_ge1 dt Tmax) as G3. fold M in G3. pose proof (step_at_ge1 dt 1) as G1. fold D1 in G1.
  pose proof (M_bounds N Tmax Hdt HTmax) as MB. unfold F1, F2 in *.
  apply (two_ramps N (mm_acc m) (1000 / Tmax) (a1 + D1) (b1 + D1) M); auto; try lia.
  - apply H.
  - eapply ins_geonly; eauto; repeat constructor.
  - intros k Hk. ev_input H.
    rewrite (arrs_spikes N (mm_first m) cTsyn [a1; b1]); auto using two_first.
    + autorewrite with netR. ev_simpl. fold dt D1. lra.
    + apply (ins_ext _ _ _ (mi_first _ _ _ HM)).
    + intros j [<-|[<-|[]]]; lia.
    + repeat constructor; cbn; intuition lia.
  - apply Rmult_le_pos; [lra|]. left. apply Rinv_0_lt_compat; auto.
  - fold dt. lra.
  - apply (MB a1 a2); auto. apply Ha2.
Qed.
Lemma two_acc2 : spikes_at N (mm_acc2 m) [G].
Proof.
  pose proof (mi_acc2 _ _ _ HM) as H. pose proof (step_at_ge1 dt Tmax) as G3. fold M in G3. pose proof (step_at_ge1 dt 1) as G1. fold D1 in G1.
  assert (DB : (D1 <= D2)%nat) by (apply step_at_mono; lra).
  set (w := 1000 / Tmax).
  set (L := [((a2 + D2)%nat, w); ((F1 + D1)%nat, - w); ((b2 + D2)%nat, w); ((F2 + D1)%nat, - w); (r1, w)]).
  assert (V : forall k, vlin L k = w * IZR (Z.of_nat (S k - (a2 + D2)) - Z.of_nat (S k - (F1 + D1)) + Z.of_nat (S k - (b2 + D2)) - Z.of_nat (S k - (F2 + D1)) + Z.of_nat (S k - r1))).
  { intros k. unfold L. rewrite !vlin_cons, vlin_nil, plus_IZR, minus_IZR, plus_IZR, minus_IZR, <- !INR_IZR_INZ. lra. }
  apply (geonly_once N (mm_acc2 m) L).
  - apply H.
  - eapply ins_geonly; eauto; repeat constructor.
  - unfold L. intros p Hp. cbn [In] in Hp. intuition (subst; cbn [fst]; lia).
  - unfold G. lia.
  - intros k Hk. ev_input H.
    rewrite (arrs_spikes N (mm_last m) (twice cTsyn) [a2; b2]); auto using two_last.
    rewrite (arrs_spikes N (mm_acc m) cTsyn [F1; F2]); auto using two_acc.
    + autorewrite with netR. rewrite (Hr1 k Hk). unfold L. ev_simpl. rewrite ?Rmult_1_r. fold dt D1 D2. fold w. lra.
    + apply (ins_ext _ _ _ (mi_acc _ _ _ HM)).
    + intros j [<-|[<-|[]]]; unfold F1, F2; lia.
    + unfold F1, F2. repeat constructor; cbn; intuition lia.
    + apply (ins_ext _ _ _ (mi_last _ _ _ HM)).
    + intros j [<-|[<-|[]]]; lia.
    + repeat constructor; cbn; intuition lia.
  - intros k Hk. fold dt. rewrite V. apply unit_lt; auto. fold M. unfold G, F1, F2 in *. lia.
  - fold dt. rewrite V. apply unit_ge; auto. fold M. unfold G, F1, F2 in *. lia.
  - unfold L, G. intros p Hp. cbn [In] in Hp. intuition (subst; cbn [fst]; lia).
Qed.
Lemma two_output : spikes_at N (mm_output m) [q; (G + D1)%nat].
Proof.
  pose proof (mi_output _ _ _ HM) as H. pose proof (step_at_ge1 dt Tmax) as G3. fold M in G3. pose proof (step_at_ge1 dt 1) as G1. fold D1 in G1.
  apply two_spikes; auto; [apply H| |lia|lia|].
  - eapply ins_vonly; eauto; repeat constructor.
  - intros k Hk. ev_input H.
    rewrite (arrs_1 N _ _ _ D1 _ (mi_acc2 _ _ _ HM) two_acc2); auto; [|unfold G; lia].
    netr. replace (2 * 1) with 2 by lra. rewrite (Hq k Hk). ev_simpl. lra.
Qed.
End Two.
Theorem memory_two_stores (tmin tcod dt x1 x2 t1 t2 tr T : R) nm ord :
  0 < dt <= 1 / 2 -> 0 < tcod -> 1 + dt <= tmin -> 0 <= x1 <= 1 -> 0 <= x2 <= 1 -> 0 <= t1 ->
  t1 + 2 + (tmin + tcod) + 3 * dt <= t2 -> t2 + 2 + (tmin + tcod) + 3 * dt <= tr -> 7 * dt <= tmin + (x1 + x2 - 1) * tcod ->
  tr + 2 + (tmin + (x1 + x2 - 1) * tcod) + 8 * dt <= T -> ord_ok ord ->
  exists m s, session (MemoryNetwork (DataEncoder tmin tcod) nm) mm_mod (DataEncoder tmin tcod) dt
      (fun m => [SValue x1 (mm_input m) t1; SValue x2 (mm_input m) t2; SSpike (mm_recall m) tr]) ord T = Ok (m, s) /\
    pair_says (DataEncoder tmin tcod) (x1 + x2 - 1) (6 * dt / tcod) (spike_log s (mm_output m)) /\
    length (spike_log s (mm_ready m)) = 2%nat.
Proof.
  intros [Hdt Hdt2] Htc Htm Hx1 Hx2 Ht1 Ht2 Htr Hsum HT HO. set (enc := DataEncoder tmin tcod).
  assert (HTm : tmin + tcod <> 0) by lra.
  destruct (Memory_built enc nm empty_world inv_empty (neq0 _ HTm)) as (m & w & E & HB & HN & HL).
  cbn [w_neurons empty_world length Nat.add] in HN, HL.
  set (stims := fun m => [SValue x1 (mm_input m) t1; SValue x2 (mm_input m) t2; SSpike (mm_recall m) tr]).
  pose proof HN as HN'. unfold mm_nodes in HN'. nodes_eqs HN'.
  assert (X1 : 0 <= x1 * tcod <= tcod) by (split; [apply Rmult_le_pos; lra|rewrite <- (Rmult_1_l tcod) at 2; apply Rmult_le_compat_r; lra]).
  assert (X2 : 0 <= x2 * tcod <= tcod) by (split; [apply Rmult_le_pos; lra|rewrite <- (Rmult_1_l tcod) at 2; apply Rmult_le_compat_r; lra]).
  replace ((x1 + x2 - 1) * tcod) with (x1 * tcod + x2 * tcod - tcod) in * by lra.
  destruct (session_built (MemoryNetwork enc nm) mm_mod m w _ enc dt stims ord T E HB Hdt ltac:(lra)) as (s & Es & HSe); auto.
  { unfold stims. stims_ok. }
  exists m, s. split; [exact Es|].
  set (N := net_of w (exts enc (stims m)) dt) in *. unfold stims in *.
  set (d1 := tmin + x1 * tcod) in *. set (d2 := tmin + x2 * tcod) in *.
  assert (HA1 : arrs N (mm_input m) 1 [step_at dt (t1 + 1); step_at dt (t1 + d1 + 1); step_at dt (t2 + 1); step_at dt (t2 + d2 + 1)]) by (src_solve HSe).
  assert (HR1 : arrs N (mm_recall m) 1 [step_at dt (tr + 1)]) by (src_solve HSe).
  assert (HR2 : arrs N (mm_recall m) 2 [step_at dt (tr + 2)]) by (src_solve HSe).
  assert (HM : mem_in N (1000 / (tmin + tcod)) m).
  { rewrite <- wacc_R. apply (mem_in_of N _ m 0); auto. intros n Hn. apply (se_own _ _ _ _ _ _ _ _ HSe).
    - unfold mm_internal in Hn. cbn [In] in Hn. intuition lia.
    - unfold mm_internal in Hn. cbn [In] in Hn. destruct Hn as [<-|[<-|[<-|[<-|[<-|[<-|[]]]]]]]; ext_simp; reflexivity. }
  pose proof (step_at_bounds dt 1 Hdt ltac:(lra)) as BD1. pose proof (step_at_bounds dt 2 Hdt ltac:(lra)) as BD2.
  pose proof (step_at_bounds dt (t1 + 1) Hdt ltac:(lra)) as BA1. pose proof (step_at_bounds dt (t1 + d1 + 1) Hdt ltac:(unfold d1; lra)) as BA2.
  pose proof (step_at_bounds dt (t2 + 1) Hdt ltac:(lra)) as BB1. pose proof (step_at_bounds dt (t2 + d2 + 1) Hdt ltac:(unfold d2; lra)) as BB2.
  pose proof (step_at_bounds dt (tr + 1) Hdt ltac:(lra)) as BR1. pose proof (step_at_bounds dt (tr + 2) Hdt ltac:(lra)) as BR2.
  pose proof (step_at_bounds dt (tmin + tcod) Hdt ltac:(lra)) as BM.
  pose proof (step_at_ge1 dt (t1 + 1)) as G1. pose proof (step_at_ge1 dt (tr + 2)) as G3. pose proof (step_at_ge1 dt (tmin + tcod)) as G4.
  pose proof (step_at_ge1 dt 1) as G5. pose proof (step_at_ge1 dt (tr + 1)) as G6.
  assert (ND : forall i j, INR i * dt <= INR j * dt -> (i <= j)%nat) by (intros i j Q; apply INR_le; apply Rmult_le_reg_r with dt; auto).
  pose proof two_output as OUT. pose proof two_acc as ACC.
  set (a1 := step_at dt (t1 + 1)) in *. set (a2 := step_at dt (t1 + d1 + 1)) in *. set (b1 := step_at dt (t2 + 1)) in *. set (b2 := step_at dt (t2 + d2 + 1)) in *.
  set (r1 := step_at dt (tr + 1)) in *. set (q := step_at dt (tr + 2)) in *.
  set (D1 := step_at dt 1) in *. set (D2 := step_at dt 2) in *. set (M := step_at dt (tmin + tcod)) in *.
  assert (IM : INR (M - 1) * dt = INR M * dt - dt) by (rewrite minus_INR by lia; cbn [INR]; lra).
  assert (NL : forall i j, INR i * dt < INR j * dt + dt -> (i <= j)%nat).
  { intros i j Q. apply Nat.lt_succ_r. apply INR_lt. apply Rmult_lt_reg_r with dt; auto. rewrite S_INR. lra. }
  assert (Q1 : (a1 + D1 <= a2)%nat) by (apply NL; rewrite !plus_INR; unfold d1 in *; lra).
  assert (Q2 : (a2 + D2 <= b1)%nat) by (apply NL; rewrite !plus_INR; unfold d1 in *; lra).
  assert (Q3 : (b1 + D1 <= b2)%nat) by (apply NL; rewrite !plus_INR; unfold d2 in *; lra).
  assert (Q4 : (b2 + D2 + 1 <= r1)%nat) by (apply NL; rewrite !plus_INR; cbn [INR]; unfold d2 in *; lra).
  assert (Q5 : (a1 + D1 + M + D1 <= b1 + 1)%nat) by (apply NL; rewrite !plus_INR; cbn [INR]; lra).
  assert (Q6 : (b1 + D1 + M + D1 <= r1)%nat) by (apply NL; rewrite !plus_INR; cbn [INR]; lra).
  assert (Q7 : (a1 + D1 + D1 + (b1 + D1 + D1) + M <= a2 + D2 + (b2 + D2) + 1)%nat) by (apply NL; rewrite !plus_INR; cbn [INR]; unfold d1, d2 in *; lra).
  assert (Q8 : (q + a1 + D1 + D1 + b1 + D1 + M + 1 <= r1 + a2 + D2 + b2 + D2 + 1)%nat) by (apply NL; rewrite !plus_INR; cbn [INR]; unfold d1, d2 in *; lra).
  assert (DB : (1 <= D2)%nat) by apply step_at_ge1.
  assert (AP : (1 <= a1)%nat /\ (1 <= q)%nat /\ (1 <= r1)%nat /\ (1 <= M)%nat /\ (1 <= D1)%nat) by auto. destruct AP as (P1 & P2 & P3 & P4 & P5).
  set (e := (r1 + (a2 + D2) + (b2 + D2) + 1 - (a1 + D1 + D1) - (b1 + D1) - M)%nat).
  assert (Hqe : (q < e)%nat) by (unfold e; lia).
  assert (EE : INR e * dt = INR r1 * dt + INR a2 * dt - INR a1 * dt + INR b2 * dt - INR b1 * dt + 2 * (INR D2 * dt) - 3 * (INR D1 * dt) - INR M * dt + dt).
  { unfold e. rewrite !minus_INR by lia. rewrite !plus_INR. cbn [INR]. lra. }
  rewrite <- emits_says. split.
  2:{ set (F1 := (a1 + D1 - 1 + M)%nat). set (F2 := (b1 + D1 - 1 + M)%nat).
    assert (SA : spikes_at N (mm_acc m) [F1; F2]) by (apply (ACC N m (tmin + tcod) Hdt ltac:(lra) HM a1 a2 b1 b2 r1 q HA1); change (t_dt N) with dt; fold D1 M; lia).
    assert (EF : INR F2 * dt + INR D1 * dt = INR b1 * dt + INR D1 * dt - dt + INR M * dt + INR D1 * dt) by (unfold F2; rewrite plus_INR, minus_INR, plus_INR by lia; cbn [INR]; lra).
    assert (LF : (F1 < F2)%nat) by (unfold F1, F2; lia). assert (LT : INR F1 * dt <= INR F2 * dt) by (apply Rmult_le_compat_r; [lra|apply le_INR; lia]).
    rewrite (se_log _ _ _ _ _ _ _ _ HSe (mm_ready m) [(F1 + D1)%nat; (F2 + D1)%nat]); auto; [lia|ext_simp; reflexivity| |cbn; unfold F1, F2; lia|].
    - eapply relay; [apply (mi_ready _ _ _ HM)|rewrite we_R; lra| |cbn; unfold F1, F2; lia].
      rewrite cTsyn_R. eapply (arrs_2 N _ _ 1 D1); [apply (mi_acc _ _ _ HM)|exact SA|reflexivity|unfold F1; lia|unfold F2; lia|lia].
    - intros j [<-|[<-|[]]]; rewrite plus_INR; unfold d1, d2 in *; lra. }
  assert (OUT' : spikes_at N (mm_output m) [q; e]).
  { replace e with (r1 - 1 + M + (a2 + D2) + (b2 + D2) - (a1 + D1 - 1 + M + D1) - (b1 + D1 - 1 + M + D1) + D1)%nat by (unfold e; clear -P4 P5 P3 Q1 Q2 Q3 Q4 Q5 Q6 Q7; lia).
    apply (OUT N m (tmin + tcod)); auto; try lra; change (t_dt N) with dt; fold D1 D2 M; lia. }
  assert (HLg : spike_log s (mm_output m) = times dt [q; e]).
  { apply (se_log _ _ _ _ _ _ _ _ HSe); auto; [lia|ext_simp; reflexivity|cbn; lia|].
    assert (QT : INR q * dt < INR e * dt) by (apply Rmult_lt_compat_r; auto; apply lt_INR; auto).
    assert (ET : INR e * dt <= T) by (rewrite EE; unfold d1, d2 in *; lra).
    intros j [<-|[<-|[]]]; lra. }
  eapply (emits_intro _ _ _ _ dt q e); auto. rewrite EE. replace (6 * dt / tcod * tcod) with (6 * dt) by (field; lra).
  replace ((x1 + x2 - 1) * tcod) with (x1 * tcod + x2 * tcod - tcod) by lra.
  apply Rabs_le. unfold d1, d2 in *. lra.
Qed.
