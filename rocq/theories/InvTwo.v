(** InvertingMemoryNetwork: two stores before one recall (C71): the stored values add up. *)
From Coq Require Import Arith ZArith Bool List Reals Lra Lia Permutation.
From Verif Require Import Num Heapq Elements Simulator Networks Trace SimTrace SimProps TraceProps NeuronLib NetLib Build BuildNets Bridge MemoryProof GeLib Session SegLib SimpleNets InvMem Restart MemReuse Reuse Jobs Settle RestFun MemTwo MemSpur.
Import ListNotations.
Open Scope R_scope.
Open Scope list_scope.

Section ITwo.
Variable N : tnet.
Variable m : invmem_net.
Variables Tmax tmin : R.
Let dt := t_dt N.
Hypothesis Hdt : 0 < dt.
Hypothesis HTmax : 0 < Tmax.
Hypothesis HM : invm_in N (1000 / Tmax) tmin m.
Let D1 := step_at dt 1.
Let Dm := step_at dt (1 + tmin).
Let M := step_at dt Tmax.
Variables a1 a2 b1 b2 : nat.
Hypothesis Hin : arrs N (im_input m) 1 [a1; a2; b1; b2].
Hypothesis Ha1 : (1 <= a1)%nat.
Hypothesis Ha2 : (a1 + D1 <= a2 < b1)%nat.
Hypothesis Hb2 : (b1 + D1 <= b2)%nat.
Hypothesis Hs1 : (D1 <= Dm)%nat.
Hypothesis Hs2 : (a1 + Dm <= b2 + D1)%nat.
Hypothesis Hc1 : (a2 + D1 < a1 + Dm + M)%nat.

Lemma itwo_first : spikes_at N (im_first m) [a1; b1].
Proof. eapply first_two; [apply (ii_first _ _ _ _ HM)|rewrite cTsyn_R; eauto|auto|auto|auto]. Qed.
Lemma itwo_last : spikes_at N (im_last m) [a2; b2].
Proof. pose proof (step_at_ge1 dt 1). fold D1 in H. eapply last_two; [apply (ii_last _ _ _ _ HM)|rewrite cTsyn_R; eauto|auto|lia|lia]. Qed.

(** what reaches the accumulator *)
Lemma itwo_in L : arrs N (im_recall m) 1 L -> forall k, (1 <= k)%nat ->
  input N (im_acc m) SynGe k = 1000 / Tmax * (ind k (a1 + Dm) - ind k (a2 + D1) + ind k (b1 + Dm) - ind k (b2 + D1) + cnt k L).
Proof.
  intros HL k Hk. pose proof (ii_acc _ _ _ _ HM) as H. pose proof (step_at_ge1 dt 1) as G1. fold D1 in G1. ev_input H.
  rewrite (arrs_2 N _ _ (nadd cTsyn tmin) Dm a1 b1 (ii_first _ _ _ _ HM) itwo_first), (arrs_2 N _ _ cTsyn D1 a2 b2 (ii_last _ _ _ _ HM) itwo_last); auto; try lia;
    try (autorewrite with netR; reflexivity).
  autorewrite with netR. rewrite (HL k Hk). ev_simpl. lra.
Qed.

Section WithRecall.
Variables r1 q : nat.
Hypothesis Hr1 : arrs N (im_recall m) 1 [r1].
Hypothesis Hq : arrs N (im_recall m) (2 + / 100) [q].
Hypothesis Hq1 : (1 <= q)%nat.
Hypothesis Hl1 : (b1 + Dm < r1)%nat.
Hypothesis Hl2 : (b2 + D1 < r1)%nat.
Let G := (r1 - 1 + (M + (a1 + Dm) + (b1 + Dm) - (a2 + D1) - (b2 + D1)))%nat.
Hypothesis Hc2 : (a2 + D1 + (b2 + D1) < a1 + Dm + (b1 + Dm) + M)%nat.
Lemma itwo_acc : spikes_at N (im_acc m) [G].
Proof.
  pose proof (step_at_ge1 dt 1) as G1. fold D1 in G1. pose proof (step_at_ge1 dt Tmax) as G3. fold M in G3.
  set (w := 1000 / Tmax). set (L := [((a1 + Dm)%nat, w); ((a2 + D1)%nat, - w); ((b1 + Dm)%nat, w); ((b2 + D1)%nat, - w); (r1, w)]).
  assert (V : forall k, vlin L k = w * IZR (Z.of_nat (S k - (a1 + Dm)) - Z.of_nat (S k - (a2 + D1)) + Z.of_nat (S k - (b1 + Dm)) - Z.of_nat (S k - (b2 + D1)) + Z.of_nat (S k - r1))).
  { intros k. unfold L. rewrite !vlin_cons, vlin_nil, plus_IZR, minus_IZR, plus_IZR, minus_IZR, <- !INR_IZR_INZ. lra. }
  assert (EG : (G + 1 + (a2 + D1) + (b2 + D1) = r1 + M + (a1 + Dm) + (b1 + Dm))%nat) by (unfold G; clear -Hc2 Hl1; lia).
  apply (geonly_once N (im_acc m) L).
  - apply (ii_acc _ _ _ _ HM).
  - eapply ins_geonly; [apply (ii_acc _ _ _ _ HM)|]; repeat constructor.
  - unfold L. intros p Hp. cbn [In] in Hp. destruct Hp as [<-|[<-|[<-|[<-|[<-|[]]]]]]; cbn [fst]; lia.
  - lia.
  - intros k Hk. rewrite (itwo_in _ Hr1 k Hk). unfold L. ev_simpl. fold w. lra.
  - intros k Hk. fold dt. rewrite V. apply unit_lt; auto. fold M. clearbody G D1 Dm M. clear -G3 Hk EG Ha2 Hb2 Hs1 Hs2 Hc1 Hc2 Hl1 Hl2. lia.
  - fold dt. rewrite V. apply unit_ge; auto. fold M. clearbody G D1 Dm M. clear -G3 EG Ha2 Hb2 Hs1 Hs2 Hc1 Hc2 Hl1 Hl2. lia.
  - unfold L. intros p Hp. cbn [In] in Hp. clearbody G D1 Dm M. destruct Hp as [<-|[<-|[<-|[<-|[<-|[]]]]]]; cbn [fst]; clear -G3 EG Ha2 Hb2 Hs1 Hs2 Hc1 Hc2 Hl1 Hl2; lia.
Qed.
Lemma itwo_output : q <> (G + D1)%nat -> spikes_at N (im_output m) [q; (G + D1)%nat].
Proof.
  intros Hne. pose proof (ii_output _ _ _ _ HM) as H.
  apply two_spikes; auto; [apply H| |unfold G; lia|].
  - eapply ins_vonly; eauto; repeat constructor.
  - intros k Hk. ev_input H.
    rewrite (arrs_1 N _ _ _ D1 G (ii_acc _ _ _ _ HM) itwo_acc); auto; [|unfold G; lia].
    netr. replace (2 * 1 + / 100) with (2 + / 100) by lra. rewrite (Hq k Hk). ev_simpl. lra.
Qed.
End WithRecall.

Section NoRecall.
Hypothesis Hr1 : arrs N (im_recall m) 1 [].
Hypothesis Hq : arrs N (im_recall m) (2 + / 100) [].
Let G := (b1 + Dm + M + (a1 + Dm) - 1 - (a2 + D1))%nat.
Hypothesis Hc2 : (G < b2 + D1)%nat.
Lemma ispur_acc : spikes_at N (im_acc m) [G].
Proof.
  pose proof (step_at_ge1 dt 1) as G1. fold D1 in G1. pose proof (step_at_ge1 dt Tmax) as G3. fold M in G3.
  set (w := 1000 / Tmax). set (L := [((a1 + Dm)%nat, w); ((a2 + D1)%nat, - w); ((b1 + Dm)%nat, w); ((b2 + D1)%nat, - w)]).
  assert (Hw : 0 <= w) by (apply Rmult_le_pos; [lra|left; apply Rinv_0_lt_compat; auto]).
  assert (V : forall k, vlin L k = w * IZR (Z.of_nat (S k - (a1 + Dm)) - Z.of_nat (S k - (a2 + D1)) + Z.of_nat (S k - (b1 + Dm)) - Z.of_nat (S k - (b2 + D1)))).
  { intros k. unfold L. rewrite !vlin_cons, vlin_nil, minus_IZR, plus_IZR, minus_IZR, <- !INR_IZR_INZ. lra. }
  assert (EG : (G + 1 + (a2 + D1) = b1 + Dm + M + (a1 + Dm))%nat) by (unfold G; clear -Hc1; lia).
  apply (geonly_once_then N (im_acc m) L) with (K2 := (b2 + D1)%nat) (x := w); auto.
  - apply (ii_acc _ _ _ _ HM).
  - eapply ins_geonly; [apply (ii_acc _ _ _ _ HM)|]; repeat constructor.
  - unfold L. intros p Hp. cbn [In] in Hp. destruct Hp as [<-|[<-|[<-|[<-|[]]]]]; cbn [fst]; lia.
  - lia.
  - fold dt. lra.
  - intros k Hk. rewrite (itwo_in _ Hr1 k Hk). unfold L. ev_simpl. fold w. rewrite ?cnt_nil. lra.
  - intros k Hk. fold dt. rewrite V. apply unit_lt; auto. fold M. clearbody G D1 Dm M. clear -G3 Hk EG Ha2 Hb2 Hs1 Hs2 Hc1 Hc2. lia.
  - fold dt. rewrite V. apply unit_ge; auto. fold M. clearbody G D1 Dm M. clear -G3 EG Ha2 Hb2 Hs1 Hs2 Hc1 Hc2. lia.
  - intros k Hk. unfold L. ev_simpl. unfold ind.
    rewrite !(proj2 (Nat.eqb_neq k _)) by (clearbody G D1 Dm M; clear -G3 Hk EG Ha2 Hb2 Hs1 Hs2 Hc1 Hc2; lia). destruct (k =? b2 + D1)%nat; lra.
Qed.
Lemma ispur_output : spikes_at N (im_output m) [(G + D1)%nat].
Proof.
  pose proof (ii_output _ _ _ _ HM) as H.
  apply (seg_spikes N (im_output m) [((G + D1)%nat, 10)]); [apply H|eapply ins_vonly; eauto; repeat constructor| |].
  - segs_solve.
  - intros k Hk. ev_input H.
    rewrite (arrs_1 N _ _ _ D1 G (ii_acc _ _ _ _ HM) ispur_acc); auto; [|unfold G; lia].
    netr. replace (2 * 1 + / 100) with (2 + / 100) by lra. rewrite (Hq k Hk). ev_simpl. lra.
Qed.
End NoRecall.
End ITwo.

Section Sess.
Variables tmin tcod dt x1 x2 t1 t2 : R.
Let enc := DataEncoder tmin tcod.
Hypothesis Hdt : 0 < dt <= 1 / 4.
Hypothesis Htc : 0 < tcod.
Hypothesis Htm : 1 + dt <= tmin.
Hypothesis Hx1 : 0 <= x1 <= 1.
Hypothesis Hx2 : 0 <= x2 <= 1.
Hypothesis Ht1 : 0 <= t1.
Hypothesis Ht2 : t1 + (tmin + tcod) + 3 * dt <= t2.

Theorem invmemory_two_stores (tr T : R) nm ord :
  t2 + 1 + (tmin + tcod) + 2 * dt <= tr -> 6 * dt + / 100 <= tmin + (1 - x1 - x2) * tcod ->
  tr + 2 + (tmin + tcod) + 6 * dt <= T -> ord_ok ord ->
  exists m s, session (InvertingMemoryNetwork enc nm) im_mod enc dt
      (fun m => [SValue x1 (im_input m) t1; SValue x2 (im_input m) t2; SSpike (im_recall m) tr]) ord T = Ok (m, s) /\
    pair_says enc (1 - x1 - x2) ((5 * dt + / 100) / tcod) (spike_log s (im_output m)).
Proof.
  destruct Hdt as [Hd Hd2]. intros Htr Hsum HT HO.
  assert (HTm : tmin + tcod <> 0) by lra.
  destruct (InvMemory_built enc nm empty_world inv_empty (neq0 _ HTm)) as (m & w & E & HB & HN & HL).
  cbn [w_neurons empty_world length Nat.add] in HN, HL.
  set (stims := fun m => [SValue x1 (im_input m) t1; SValue x2 (im_input m) t2; SSpike (im_recall m) tr]).
  pose proof HN as HN'. unfold im_nodes in HN'. nodes_eqs HN'.
  assert (X1 : 0 <= x1 * tcod <= tcod) by (split; [apply Rmult_le_pos; lra|rewrite <- (Rmult_1_l tcod) at 2; apply Rmult_le_compat_r; lra]).
  assert (X2 : 0 <= x2 * tcod <= tcod) by (split; [apply Rmult_le_pos; lra|rewrite <- (Rmult_1_l tcod) at 2; apply Rmult_le_compat_r; lra]).
  replace ((1 - x1 - x2) * tcod) with (tcod - x1 * tcod - x2 * tcod) in * by lra.
  destruct (session_built (InvertingMemoryNetwork enc nm) im_mod m w _ enc dt stims ord T E HB Hd ltac:(lra)) as (s & Es & HSe); auto.
  { unfold stims. stims_ok. }
  exists m, s. split; [exact Es|].
  set (N := net_of w (exts enc (stims m)) dt) in *. unfold stims in *.
  set (d1 := tmin + x1 * tcod) in *. set (d2 := tmin + x2 * tcod) in *.
  assert (HA1 : arrs N (im_input m) 1 [step_at dt (t1 + 1); step_at dt (t1 + d1 + 1); step_at dt (t2 + 1); step_at dt (t2 + d2 + 1)]) by (src_solve HSe).
  assert (HR1 : arrs N (im_recall m) 1 [step_at dt (tr + 1)]) by (src_solve HSe).
  assert (HR2 : arrs N (im_recall m) (2 + / 100) [step_at dt (tr + (2 + / 100))]) by (src_solve HSe).
  assert (HM : invm_in N (1000 / (tmin + tcod)) tmin m).
  { rewrite <- wacc_R. apply (invm_in_of N enc m 0); auto. intros n Hn. apply (se_own _ _ _ _ _ _ _ _ HSe).
    - unfold im_internal in Hn. cbn [In] in Hn. intuition lia.
    - unfold im_internal in Hn. cbn [In] in Hn. destruct Hn as [<-|[<-|[<-|[<-|[]]]]]; ext_simp; reflexivity. }
  pose proof (step_at_bounds dt 1 Hd ltac:(lra)) as BD1. pose proof (step_at_bounds dt (1 + tmin) Hd ltac:(lra)) as BDm.
  pose proof (step_at_bounds dt (t1 + 1) Hd ltac:(lra)) as BA1. pose proof (step_at_bounds dt (t1 + d1 + 1) Hd ltac:(unfold d1; lra)) as BA2.
  pose proof (step_at_bounds dt (t2 + 1) Hd ltac:(lra)) as BB1. pose proof (step_at_bounds dt (t2 + d2 + 1) Hd ltac:(unfold d2; lra)) as BB2.
  pose proof (step_at_bounds dt (tr + 1) Hd ltac:(lra)) as BR1. pose proof (step_at_bounds dt (tr + (2 + / 100)) Hd ltac:(lra)) as BR2.
  pose proof (step_at_bounds dt (tmin + tcod) Hd ltac:(lra)) as BM.
  pose proof (step_at_ge1 dt (t1 + 1)) as P1. pose proof (step_at_ge1 dt (tr + (2 + / 100))) as P2. pose proof (step_at_ge1 dt (tmin + tcod)) as P4.
  pose proof (step_at_ge1 dt 1) as P5. pose proof (step_at_ge1 dt (tr + 1)) as P3.
  assert (Q5 : (step_at dt 1 <= step_at dt (1 + tmin))%nat) by (apply step_at_mono; lra).
  pose proof itwo_output as OUT.
  set (a1 := step_at dt (t1 + 1)) in *. set (a2 := step_at dt (t1 + d1 + 1)) in *. set (b1 := step_at dt (t2 + 1)) in *. set (b2 := step_at dt (t2 + d2 + 1)) in *.
  set (r1 := step_at dt (tr + 1)) in *. set (q := step_at dt (tr + (2 + / 100))) in *.
  set (D1 := step_at dt 1) in *. set (Dm := step_at dt (1 + tmin)) in *. set (M := step_at dt (tmin + tcod)) in *.
  assert (NL : forall i j, INR i * dt < INR j * dt + dt -> (i <= j)%nat).
  { intros i j Q. apply Nat.lt_succ_r. apply INR_lt. apply Rmult_lt_reg_r with dt; auto. rewrite S_INR. lra. }
  assert (Q1 : (a1 + D1 <= a2)%nat) by (apply NL; rewrite !plus_INR; unfold d1 in *; lra).
  assert (Q2 : (a2 + 1 <= b1)%nat) by (apply NL; rewrite !plus_INR; cbn [INR]; unfold d1 in *; lra).
  assert (Q3 : (b1 + D1 <= b2)%nat) by (apply NL; rewrite !plus_INR; unfold d2 in *; lra).
  assert (Q4 : (a1 + Dm <= b2 + D1)%nat) by (apply NL; rewrite !plus_INR; unfold d2 in *; lra).
  assert (Q6 : (a2 + D1 + 1 <= a1 + Dm + M)%nat) by (apply NL; rewrite !plus_INR; cbn [INR]; unfold d1 in *; lra).
  assert (Q7 : (b1 + Dm + 1 <= r1)%nat) by (apply NL; rewrite !plus_INR; cbn [INR]; lra).
  assert (Q8 : (b2 + D1 + 1 <= r1)%nat) by (apply NL; rewrite !plus_INR; cbn [INR]; unfold d2 in *; lra).
  assert (Q9 : (a2 + D1 + (b2 + D1) + 1 <= a1 + Dm + (b1 + Dm) + M)%nat) by (apply NL; rewrite !plus_INR; cbn [INR]; unfold d1, d2 in *; lra).
  set (e := (r1 - 1 + (M + (a1 + Dm) + (b1 + Dm) - (a2 + D1) - (b2 + D1)) + D1)%nat).
  assert (EE : INR e * dt = INR r1 * dt - dt + INR M * dt + INR a1 * dt - INR a2 * dt + INR b1 * dt - INR b2 * dt + 2 * (INR Dm * dt) - INR D1 * dt).
  { unfold e. rewrite !plus_INR, !minus_INR by (clear -P3 P4 P5 Q1 Q2 Q3 Q4 Q5 Q6 Q7 Q8 Q9; lia). rewrite !plus_INR. cbn [INR]. lra. }
  assert (Hqe : (q < e)%nat) by (apply INR_lt; apply Rmult_lt_reg_r with dt; auto; rewrite EE; unfold d1, d2 in *; lra).
  assert (OUT' : spikes_at N (im_output m) [q; e]).
  { apply (OUT N m (tmin + tcod) tmin Hd ltac:(lra) HM); auto; change (t_dt N) with dt; fold D1 Dm M; try fold e; clear -P1 P2 P3 P4 P5 Q1 Q2 Q3 Q4 Q5 Q6 Q7 Q8 Q9 Hqe; lia. }
  rewrite <- emits_says.
  assert (HLg : spike_log s (im_output m) = times dt [q; e]).
  { apply (se_log _ _ _ _ _ _ _ _ HSe); auto; [lia|ext_simp; reflexivity|cbn; lia|].
    assert (QT : INR q * dt < INR e * dt) by (apply Rmult_lt_compat_r; auto; apply lt_INR; auto).
    assert (ET : INR e * dt <= T) by (rewrite EE; unfold d1, d2 in *; lra).
    intros j [<-|[<-|[]]]; lra. }
  eapply (emits_intro _ _ _ _ dt q e); auto. rewrite EE. replace ((5 * dt + / 100) / tcod * tcod) with (5 * dt + / 100) by (field; lra).
  replace ((1 - x1 - x2) * tcod) with (tcod - x1 * tcod - x2 * tcod) by lra.
  apply Rabs_le. unfold d1, d2 in *. lra.
Qed.

Theorem invmemory_spurious (T : R) nm ord :
  tmin + 5 * dt <= (x1 + x2 - 1) * tcod -> t2 + 3 + 2 * tmin + tcod + 4 * dt <= T -> ord_ok ord ->
  exists m s t, session (InvertingMemoryNetwork enc nm) im_mod enc dt
      (fun m => [SValue x1 (im_input m) t1; SValue x2 (im_input m) t2]) ord T = Ok (m, s) /\
    spike_log s (im_output m) = [t] /\ Rabs (t - (t2 + 3 + 2 * tmin + (1 - x1) * tcod)) <= 4 * dt.
Proof.
  destruct Hdt as [Hd Hd2]. intros Hsum HT HO.
  assert (HTm : tmin + tcod <> 0) by lra.
  destruct (InvMemory_built enc nm empty_world inv_empty (neq0 _ HTm)) as (m & w & E & HB & HN & HL).
  cbn [w_neurons empty_world length Nat.add] in HN, HL.
  set (stims := fun m => [SValue x1 (im_input m) t1; SValue x2 (im_input m) t2]).
  pose proof HN as HN'. unfold im_nodes in HN'. nodes_eqs HN'.
  assert (X1 : 0 <= x1 * tcod <= tcod) by (split; [apply Rmult_le_pos; lra|rewrite <- (Rmult_1_l tcod) at 2; apply Rmult_le_compat_r; lra]).
  assert (X2 : 0 <= x2 * tcod <= tcod) by (split; [apply Rmult_le_pos; lra|rewrite <- (Rmult_1_l tcod) at 2; apply Rmult_le_compat_r; lra]).
  replace ((x1 + x2 - 1) * tcod) with (x1 * tcod + x2 * tcod - tcod) in * by lra.
  destruct (session_built (InvertingMemoryNetwork enc nm) im_mod m w _ enc dt stims ord T E HB Hd ltac:(lra)) as (s & Es & HSe); auto.
  { unfold stims. stims_ok. }
  exists m, s.
  set (N := net_of w (exts enc (stims m)) dt) in *. unfold stims in *.
  set (d1 := tmin + x1 * tcod) in *. set (d2 := tmin + x2 * tcod) in *.
  assert (HA1 : arrs N (im_input m) 1 [step_at dt (t1 + 1); step_at dt (t1 + d1 + 1); step_at dt (t2 + 1); step_at dt (t2 + d2 + 1)]) by (src_solve HSe).
  assert (HR1 : arrs N (im_recall m) 1 []) by (src_solve HSe).
  assert (HR2 : arrs N (im_recall m) (2 + / 100) []) by (src_solve HSe).
  assert (HM : invm_in N (1000 / (tmin + tcod)) tmin m).
  { rewrite <- wacc_R. apply (invm_in_of N enc m 0); auto. intros n Hn. apply (se_own _ _ _ _ _ _ _ _ HSe).
    - unfold im_internal in Hn. cbn [In] in Hn. intuition lia.
    - unfold im_internal in Hn. cbn [In] in Hn. destruct Hn as [<-|[<-|[<-|[<-|[]]]]]; ext_simp; reflexivity. }
  pose proof (step_at_bounds dt 1 Hd ltac:(lra)) as BD1. pose proof (step_at_bounds dt (1 + tmin) Hd ltac:(lra)) as BDm.
  pose proof (step_at_bounds dt (t1 + 1) Hd ltac:(lra)) as BA1. pose proof (step_at_bounds dt (t1 + d1 + 1) Hd ltac:(unfold d1; lra)) as BA2.
  pose proof (step_at_bounds dt (t2 + 1) Hd ltac:(lra)) as BB1. pose proof (step_at_bounds dt (t2 + d2 + 1) Hd ltac:(unfold d2; lra)) as BB2.
  pose proof (step_at_bounds dt (tmin + tcod) Hd ltac:(lra)) as BM.
  pose proof (step_at_ge1 dt (t1 + 1)) as P1. pose proof (step_at_ge1 dt (tmin + tcod)) as P4. pose proof (step_at_ge1 dt 1) as P5.
  assert (Q5 : (step_at dt 1 <= step_at dt (1 + tmin))%nat) by (apply step_at_mono; lra).
  pose proof ispur_output as OUT.
  set (a1 := step_at dt (t1 + 1)) in *. set (a2 := step_at dt (t1 + d1 + 1)) in *. set (b1 := step_at dt (t2 + 1)) in *. set (b2 := step_at dt (t2 + d2 + 1)) in *.
  set (D1 := step_at dt 1) in *. set (Dm := step_at dt (1 + tmin)) in *. set (M := step_at dt (tmin + tcod)) in *.
  assert (NL : forall i j, INR i * dt < INR j * dt + dt -> (i <= j)%nat).
  { intros i j Q. apply Nat.lt_succ_r. apply INR_lt. apply Rmult_lt_reg_r with dt; auto. rewrite S_INR. lra. }
  assert (Q1 : (a1 + D1 <= a2)%nat) by (apply NL; rewrite !plus_INR; unfold d1 in *; lra).
  assert (Q2 : (a2 + 1 <= b1)%nat) by (apply NL; rewrite !plus_INR; cbn [INR]; unfold d1 in *; lra).
  assert (Q3 : (b1 + D1 <= b2)%nat) by (apply NL; rewrite !plus_INR; unfold d2 in *; lra).
  assert (Q4 : (a1 + Dm <= b2 + D1)%nat) by (apply NL; rewrite !plus_INR; unfold d2 in *; lra).
  assert (Q6 : (a2 + D1 + 1 <= a1 + Dm + M)%nat) by (apply NL; rewrite !plus_INR; cbn [INR]; unfold d1 in *; lra).
  assert (Q7 : (b1 + Dm + M + (a1 + Dm) <= b2 + D1 + (a2 + D1))%nat) by (apply NL; rewrite !plus_INR; cbn [INR]; unfold d1, d2 in *; lra).
  set (e := (b1 + Dm + M + (a1 + Dm) - 1 - (a2 + D1) + D1)%nat).
  assert (EE : INR e * dt = INR b1 * dt + 2 * (INR Dm * dt) + INR M * dt + INR a1 * dt - INR a2 * dt - dt).
  { unfold e. rewrite plus_INR, !minus_INR by (clear -P4 P5 Q1 Q2 Q3 Q4 Q5 Q6 Q7; lia). rewrite !plus_INR. cbn [INR]. lra. }
  assert (OUT' : spikes_at N (im_output m) [e]).
  { apply (OUT N m (tmin + tcod) tmin Hd ltac:(lra) HM _ _ _ _ HA1); auto; change (t_dt N) with dt; fold D1 Dm M; clear -P1 P4 P5 Q1 Q2 Q3 Q4 Q5 Q6 Q7; lia. }
  exists (INR e * dt). split; [exact Es|]. split.
  - apply (se_log _ _ _ _ _ _ _ _ HSe (im_output m) [e]); auto; [lia|ext_simp; reflexivity|cbn; unfold e; lia|].
    intros j [<-|[]]. rewrite EE. unfold d1, d2 in *; lra.
  - rewrite EE. replace ((1 - x1) * tcod) with (tcod - x1 * tcod) by lra. apply Rabs_le. unfold d1, d2 in *. lra.
Qed.
End Sess.
