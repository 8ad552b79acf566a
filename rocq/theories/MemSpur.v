(** MemoryNetwork: two small values stored without a recall make the output spike (C70). *)
From Coq Require Import Arith ZArith Bool List Reals Lra Lia Permutation.
From Verif Require Import Num Heapq Elements Simulator Networks Trace SimTrace SimProps TraceProps NeuronLib NetLib Build BuildNets Bridge MemoryProof GeLib Session SegLib SimpleNets InvMem Restart MemReuse Reuse Jobs Settle RestFun MemTwo.
Import ListNotations.
Open Scope R_scope.
Open Scope list_scope.

Section GeThen.
Variable N : tnet.
Variable n : nat.
Variable L : list (nat * R).
Hypothesis HP : t_prm N n = stdp.
Hypothesis HG : geonly N n.
Hypothesis HL1 : forall p, In p L -> (1 <= fst p)%nat.
(** fires once, at K, and only inhibition comes after that *)
Lemma geonly_once_then K K2 x : (1 <= K < K2)%nat -> 0 <= x -> 0 <= t_dt N ->
  (forall k, (1 <= k)%nat -> input N n SynGe k = evw L k) ->
  (forall k, (1 <= k < K)%nat -> t_dt N / 100 * vlin L k < 10) ->
  10 <= t_dt N / 100 * vlin L K -> (forall k, (K < k)%nat -> evw L k = if (k =? K2)%nat then - x else 0) ->
  spikes_at N n [K].
Proof.
  intros HK Hx Hdt HI HV HF HM k.
  destruct (geonly_closed N n L HP HG HL1 (K - 1)) with (k := (K - 1)%nat) as [IS _]; try lia.
  { intros j Hj. apply HI. lia. } { intros j Hj. apply HV. lia. }
  destruct (ramp_fire N n (K - 1) _ _ (evw L K) 1 HP HG IS) as (_ & B & C); try lia.
  { replace (S (K - 1)) with K by lia. apply HI. lia. }
  { replace (evw L K) with (evw L (S (K - 1))) by (f_equal; lia). rewrite <- glin_S.
    replace K with (S (K - 1)) in HF by lia. rewrite vlin_S in HF. cbn [INR]. lra. }
  replace (K - 1 + 1)%nat with K in B, C by lia.
  assert (NI : forall j, (K < j)%nat -> j <> K2 -> input N n SynGe j = 0) by (intros j H1 H2; rewrite HI, HM, (proj2 (Nat.eqb_neq _ _)) by lia; auto).
  assert (HQ : forall k, (K <= k <= K2 - 1)%nat -> st N k n = at_rest 0 /\ (K < k -> spk N k n = false)%nat).
  { apply rest_quiet; auto; [lra|]. intros j Hj. apply geonly_none; auto. apply NI; lia. }
  cbn [memb existsb]. rewrite orb_false_r.
  destruct (Nat.lt_trichotomy k K) as [Hk|[->|Hk]].
  - rewrite (proj2 (Nat.eqb_neq _ _)) by lia. apply (geonly_closed N n L HP HG HL1 (K - 1)); try lia; intros j Hj; [apply HI|apply HV]; lia.
  - rewrite Nat.eqb_refl. auto.
  - rewrite (proj2 (Nat.eqb_neq _ _)) by lia. destruct (Nat.lt_ge_cases k K2) as [H2|H2]; [apply HQ; lia|].
    destruct (ramp N n (K2 - 1) 0 0 (- x) (k - (K2 - 1))) with (i := (k - (K2 - 1))%nat) as [_ Z]; auto; try lia.
    + rewrite <- at_rest_ramp. apply HQ. lia.
    + replace (S (K2 - 1)) with K2 by lia. rewrite HI, HM, Nat.eqb_refl by lia. auto.
    + intros i Hi. apply NI; lia.
    + intros i Hi. pose proof (pos_INR i). assert (0 <= INR i * (t_dt N * x / 100)) by (apply Rmult_le_pos; auto; assert (0 <= t_dt N * x) by (apply Rmult_le_pos; auto); lra). lra.
    + replace (K2 - 1 + (k - (K2 - 1)))%nat with k in Z by lia. exact Z.
Qed.
End GeThen.

Section Spur.
Variable N : tnet.
Variable m : memory_net.
Variable Tmax : R.
Let dt := t_dt N.
Hypothesis Hdt : 0 < dt.
Hypothesis HTmax : 0 < Tmax.
Hypothesis HM : mem_in N (1000 / Tmax) m.
Let D1 := step_at dt 1.
Let D2 := step_at dt 2.
Let M := step_at dt Tmax.
Variables a1 a2 b1 b2 : nat.
Hypothesis Hin : arrs N (mm_input m) 1 [a1; a2; b1; b2].
Hypothesis Ha1 : (1 <= a1)%nat.
Hypothesis Ha2 : (a1 + D1 <= a2 < b1)%nat.
Hypothesis Hb2 : (b1 + D1 <= b2)%nat.
Hypothesis Hr1 : arrs N (mm_recall m) 1 [].
Hypothesis Hq : arrs N (mm_recall m) 2 [].
Let F1 := (a1 + D1 - 1 + M)%nat.
Let F2 := (b1 + D1 - 1 + M)%nat.
Hypothesis Hs1 : (F1 + D1 <= b1)%nat.
Hypothesis Hs2 : (a2 + D2 <= F1 + D1)%nat.
Hypothesis Hs3 : (F1 + D1 <= b2 + D2)%nat.
Let G := (b2 + D2 + (a2 + D2) + M - 1 - (F1 + D1))%nat.
Hypothesis Hs4 : (F1 + D1 + 1 <= (a2 + D2) + M)%nat.
Hypothesis Hs5 : (G < F2 + D1)%nat.

Lemma spur_first : spikes_at N (mm_first m) [a1; b1].
Proof. eapply first_two; [apply (mi_first _ _ _ HM)|rewrite cTsyn_R; eauto|auto|auto|auto]. Qed.
Lemma spur_last : spikes_at N (mm_last m) [a2; b2].
Proof. pose proof (step_at_ge1 dt 1). fold D1 in H. eapply last_two; [apply (mi_last _ _ _ HM)|rewrite cTsyn_R; eauto|auto|lia|lia]. Qed.
Lemma spur_acc : spikes_at N (mm_acc m) [F1; F2].
Proof.
  pose proof (mi_acc _ _ _ HM) as H. pose proof (step_at_ge1 dt Tmax) as G3. fold M in G3. pose proof (step_at_ge1 dt 1) as G1. fold D1 in G1.
  pose proof (M_bounds N Tmax Hdt HTmax) as MB. unfold F1, F2 in *.
  apply (two_ramps N (mm_acc m) (1000 / Tmax) (a1 + D1) (b1 + D1) M); auto; try lia.
  - apply H.
  - eapply ins_geonly; eauto; repeat constructor.
  - intros k Hk. ev_input H.
    rewrite (arrs_spikes N (mm_first m) cTsyn [a1; b1]); auto using spur_first.
    + autorewrite with netR. ev_simpl. fold dt D1. lra.
    + apply (ins_ext _ _ _ (mi_first _ _ _ HM)).
    + intros j [<-|[<-|[]]]; lia.
    + repeat constructor; cbn; intuition lia.
  - apply Rmult_le_pos; [lra|]. left. apply Rinv_0_lt_compat; auto.
  - fold dt. lra.
  - apply (MB a1 a2); auto. apply Ha2.
Qed.

Lemma spur_acc2 : spikes_at N (mm_acc2 m) [G].
Proof.
  pose proof (mi_acc2 _ _ _ HM) as H. pose proof (step_at_ge1 dt Tmax) as G3. fold M in G3. pose proof (step_at_ge1 dt 1) as G1. fold D1 in G1.
  assert (DB : (D1 <= D2)%nat) by (apply step_at_mono; lra).
  set (w := 1000 / Tmax).
  assert (Hw : 0 <= w) by (apply Rmult_le_pos; [lra|left; apply Rinv_0_lt_compat; auto]).
  set (L := [((a2 + D2)%nat, w); ((F1 + D1)%nat, - w); ((b2 + D2)%nat, w); ((F2 + D1)%nat, - w)]).
  assert (V : forall k, vlin L k = w * IZR (Z.of_nat (S k - (a2 + D2)) - Z.of_nat (S k - (F1 + D1)) + Z.of_nat (S k - (b2 + D2)) - Z.of_nat (S k - (F2 + D1)))).
  { intros k. unfold L. rewrite !vlin_cons, vlin_nil, minus_IZR, plus_IZR, minus_IZR, <- !INR_IZR_INZ. lra. }
  assert (SL : spikes_at N (mm_last m) [a2; b2]) by apply spur_last.
  assert (SA : spikes_at N (mm_acc m) [F1; F2]) by apply spur_acc.
  assert (O1 : (F1 < F2)%nat) by (unfold F1, F2; lia). assert (O2 : (1 <= F1)%nat) by (unfold F1; lia).
  assert (O3 : (b2 + D2 <= G)%nat) by (unfold G; lia).
  apply (geonly_once_then N (mm_acc2 m) L) with (K2 := (F2 + D1)%nat) (x := w); auto.
  - apply H.
  - eapply ins_geonly; eauto; repeat constructor.
  - unfold L. intros p Hp. cbn [In] in Hp. destruct Hp as [<-|[<-|[<-|[<-|[]]]]]; cbn [fst]; lia.
  - lia.
  - fold dt. lra.
  - intros k Hk. ev_input H.
    rewrite (arrs_spikes N (mm_last m) (twice cTsyn) [a2; b2]); auto.
    rewrite (arrs_spikes N (mm_acc m) cTsyn [F1; F2]); auto.
    + autorewrite with netR. rewrite (Hr1 k Hk). unfold L. ev_simpl. rewrite ?Rmult_1_r. fold dt D1 D2. fold w. lra.
    + apply (ins_ext _ _ _ (mi_acc _ _ _ HM)).
    + intros j [<-|[<-|[]]]; lia.
    + repeat constructor; cbn; intuition lia.
    + apply (ins_ext _ _ _ (mi_last _ _ _ HM)).
    + intros j [<-|[<-|[]]]; lia.
    + repeat constructor; cbn; intuition lia.
  - intros k Hk. fold dt. rewrite V. apply unit_lt; auto. fold M. clearbody F1 F2. unfold G in *. clear -Hk Hs2 Hs3 Hs4 Hs5. lia.
  - fold dt. rewrite V. apply unit_ge; auto. fold M. clearbody F1 F2. unfold G in *. clear -Hs2 Hs3 Hs4 Hs5. lia.
  - intros k Hk. unfold L. ev_simpl. unfold ind. 
    rewrite !(proj2 (Nat.eqb_neq k _)) by lia. destruct (k =? F2 + D1)%nat; lra.
Qed.
Lemma spur_output : spikes_at N (mm_output m) [(G + D1)%nat].
Proof.
  pose proof (mi_output _ _ _ HM) as H.
  apply (seg_spikes N (mm_output m) [((G + D1)%nat, 10)]); [apply H|eapply ins_vonly; eauto; repeat constructor| |].
  - segs_solve.
  - intros k Hk. ev_input H.
    rewrite (arrs_1 N _ _ _ D1 _ (mi_acc2 _ _ _ HM) spur_acc2); auto; [|unfold G; lia].
    netr. replace (2 * 1) with 2 by lra. rewrite (Hq k Hk). ev_simpl. lra.
Qed.
End Spur.

(** two small values stored without a recall between them: the output spikes once, although the memory was never recalled *)
Theorem memory_spurious (tmin tcod dt x1 x2 t1 t2 T : R) nm ord :
  0 < dt <= 1 / 2 -> 0 < tcod -> 1 + dt <= tmin -> 0 <= x1 <= 1 -> 0 <= x2 <= 1 -> 0 <= t1 ->
  t1 + 2 + (tmin + tcod) + 3 * dt <= t2 -> tmin + 5 * dt <= (1 - x1 - x2) * tcod -> t2 + 4 + (tmin + tcod) + 4 * dt <= T -> ord_ok ord ->
  exists m s t, session (MemoryNetwork (DataEncoder tmin tcod) nm) mm_mod (DataEncoder tmin tcod) dt
      (fun m => [SValue x1 (mm_input m) t1; SValue x2 (mm_input m) t2]) ord T = Ok (m, s) /\
    spike_log s (mm_output m) = [t] /\ Rabs (t - (t2 + 4 + 2 * tmin + (x1 + x2) * tcod)) <= 4 * dt.
Proof.
  intros [Hdt Hdt2] Htc Htm Hx1 Hx2 Ht1 Ht2 Hsum HT HO. set (enc := DataEncoder tmin tcod).
  assert (HTm : tmin + tcod <> 0) by lra.
  destruct (Memory_built enc nm empty_world inv_empty (neq0 _ HTm)) as (m & w & E & HB & HN & HL).
  cbn [w_neurons empty_world length Nat.add] in HN, HL.
  set (stims := fun m => [SValue x1 (mm_input m) t1; SValue x2 (mm_input m) t2]).
  pose proof HN as HN'. unfold mm_nodes in HN'. nodes_eqs HN'.
  assert (X1 : 0 <= x1 * tcod <= tcod) by (split; [apply Rmult_le_pos; lra|rewrite <- (Rmult_1_l tcod) at 2; apply Rmult_le_compat_r; lra]).
  assert (X2 : 0 <= x2 * tcod <= tcod) by (split; [apply Rmult_le_pos; lra|rewrite <- (Rmult_1_l tcod) at 2; apply Rmult_le_compat_r; lra]).
  replace ((1 - x1 - x2) * tcod) with (tcod - x1 * tcod - x2 * tcod) in * by lra.
  destruct (session_built (MemoryNetwork enc nm) mm_mod m w _ enc dt stims ord T E HB Hdt ltac:(lra)) as (s & Es & HSe); auto.
  { unfold stims. stims_ok. }
  exists m, s.
  set (N := net_of w (exts enc (stims m)) dt) in *. unfold stims in *.
  set (d1 := tmin + x1 * tcod) in *. set (d2 := tmin + x2 * tcod) in *.
  assert (HA1 : arrs N (mm_input m) 1 [step_at dt (t1 + 1); step_at dt (t1 + d1 + 1); step_at dt (t2 + 1); step_at dt (t2 + d2 + 1)]) by (src_solve HSe).
  assert (HR1 : arrs N (mm_recall m) 1 []) by (src_solve HSe).
  assert (HR2 : arrs N (mm_recall m) 2 []) by (src_solve HSe).
  assert (HM : mem_in N (1000 / (tmin + tcod)) m).
  { rewrite <- wacc_R. apply (mem_in_of N _ m 0); auto. intros n Hn. apply (se_own _ _ _ _ _ _ _ _ HSe).
    - unfold mm_internal in Hn. cbn [In] in Hn. intuition lia.
    - unfold mm_internal in Hn. cbn [In] in Hn. destruct Hn as [<-|[<-|[<-|[<-|[<-|[<-|[]]]]]]]; ext_simp; reflexivity. }
  pose proof (step_at_bounds dt 1 Hdt ltac:(lra)) as BD1. pose proof (step_at_bounds dt 2 Hdt ltac:(lra)) as BD2.
  pose proof (step_at_bounds dt (t1 + 1) Hdt ltac:(lra)) as BA1. pose proof (step_at_bounds dt (t1 + d1 + 1) Hdt ltac:(unfold d1; lra)) as BA2.
  pose proof (step_at_bounds dt (t2 + 1) Hdt ltac:(lra)) as BB1. pose proof (step_at_bounds dt (t2 + d2 + 1) Hdt ltac:(unfold d2; lra)) as BB2.
  pose proof (step_at_bounds dt (tmin + tcod) Hdt ltac:(lra)) as BM.
  pose proof (step_at_ge1 dt (t1 + 1)) as G1. pose proof (step_at_ge1 dt (tmin + tcod)) as G4.
  pose proof (step_at_ge1 dt 1) as G5.
  assert (ND : forall i j, INR i * dt <= INR j * dt -> (i <= j)%nat) by (intros i j Q; apply INR_le; apply Rmult_le_reg_r with dt; auto).
  pose proof spur_output as OUT.
  set (a1 := step_at dt (t1 + 1)) in *. set (a2 := step_at dt (t1 + d1 + 1)) in *. set (b1 := step_at dt (t2 + 1)) in *. set (b2 := step_at dt (t2 + d2 + 1)) in *.
  set (D1 := step_at dt 1) in *. set (D2 := step_at dt 2) in *. set (M := step_at dt (tmin + tcod)) in *.
  assert (IM : INR (M - 1) * dt = INR M * dt - dt) by (rewrite minus_INR by lia; cbn [INR]; lra).
  assert (NL : forall i j, INR i * dt < INR j * dt + dt -> (i <= j)%nat).
  { intros i j Q. apply Nat.lt_succ_r. apply INR_lt. apply Rmult_lt_reg_r with dt; auto. rewrite S_INR. lra. }
  assert (Q1 : (a1 + D1 <= a2)%nat) by (apply NL; rewrite !plus_INR; unfold d1 in *; lra).
  assert (Q2 : (a2 + D2 <= b1)%nat) by (apply NL; rewrite !plus_INR; unfold d1 in *; lra).
  assert (Q3 : (b1 + D1 <= b2)%nat) by (apply NL; rewrite !plus_INR; unfold d2 in *; lra).
  assert (Q4 : (a1 + D1 + M + D1 <= b1 + 1)%nat) by (apply NL; rewrite !plus_INR; cbn [INR]; lra).
  assert (Q5 : (a2 + D2 + 1 <= a1 + D1 + M + D1)%nat) by (apply NL; rewrite !plus_INR; cbn [INR]; unfold d1, d2 in *; lra).
  assert (Q6 : (a1 + D1 + D1 <= a2 + D2)%nat) by (apply NL; rewrite !plus_INR; cbn [INR]; unfold d1, d2 in *; lra).
  assert (Q7 : (b2 + D2 + a2 + D2 + 1 <= a1 + D1 + D1 + b1 + D1 + D1 + M - 1)%nat).
  { assert (b2 + D2 + a2 + D2 + 2 <= a1 + D1 + D1 + b1 + D1 + D1 + M)%nat by (apply NL; rewrite !plus_INR; cbn [INR]; unfold d1, d2 in *; lra). lia. }
  assert (DB : (1 <= D2)%nat) by apply step_at_ge1.
  assert (AP : (1 <= a1)%nat /\ (1 <= M)%nat /\ (1 <= D1)%nat) by auto. destruct AP as (P1 & P4 & P5).
  set (e := (b2 + D2 + (a2 + D2) - (a1 + D1))%nat).
  assert (EE : INR e * dt = INR b2 * dt + INR a2 * dt - INR a1 * dt + 2 * (INR D2 * dt) - INR D1 * dt).
  { unfold e. rewrite !minus_INR by lia. rewrite !plus_INR. lra. }
  assert (OUT' : spikes_at N (mm_output m) [e]).
  { replace e with (b2 + D2 + (a2 + D2) + M - 1 - (a1 + D1 - 1 + M + D1) + D1)%nat by (unfold e; clear -P4 P5 Q1 Q2 Q3 Q4 Q5 Q6 Q7; lia).
    apply (OUT N m (tmin + tcod)) with (b1 := b1); auto; try lra; change (t_dt N) with dt; fold D1 D2 M; clear -P1 P4 P5 Q1 Q2 Q3 Q4 Q5 Q6 Q7 DB; lia. }
  exists (INR e * dt). split; [exact Es|]. split.
  - apply (se_log _ _ _ _ _ _ _ _ HSe (mm_output m) [e]); auto; [lia|ext_simp; reflexivity|cbn; unfold e; lia|].
    intros j [<-|[]]. rewrite EE. unfold d1, d2 in *; lra.
  - rewrite EE. replace ((x1 + x2) * tcod) with (x1 * tcod + x2 * tcod) by lra. apply Rabs_le. unfold d1, d2 in *. lra.
Qed.
