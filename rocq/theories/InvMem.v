(** InvertingMemoryNetwork (C23). *)
From Coq Require Import Arith ZArith Bool List Reals Lra Lia Permutation.
From Verif Require Import Num Heapq Elements Simulator Networks Trace SimTrace SimProps TraceProps NeuronLib NetLib Build BuildNets Bridge MemoryProof GeLib Session SimpleNets.
Import ListNotations.
Open Scope R_scope.
Open Scope list_scope.

Ltac evb := intros ? ?; cbn [In] in *; intuition (subst; cbn [fst]; lia).

Record invm_in (N : tnet) (w tmin : R) (m : invmem_net) : Prop := {
  ii_first : ins N (im_first m) [mks (im_input m) (im_first m) SynV we cTsyn; mks (im_first m) (im_first m) SynV wi cTsyn];
  ii_last : ins N (im_last m) [mks (im_input m) (im_last m) SynV (half we) cTsyn];
  ii_acc : ins N (im_acc m) [mks (im_first m) (im_acc m) SynGe w (nadd cTsyn tmin);
                             mks (im_last m) (im_acc m) SynGe (nopp w) cTsyn;
                             mks (im_recall m) (im_acc m) SynGe w cTsyn];
  ii_output : ins N (im_output m) [mks (im_acc m) (im_output m) SynV we cTsyn;
                                   mks (im_recall m) (im_output m) SynV we (nadd (twice cTsyn) cTneu)]
}.
Section Inv.
Variable N : tnet.
Variable m : invmem_net.
Variables Tmax tmin : R.
Let dt := t_dt N.
Hypothesis Hdt : 0 < dt.
Hypothesis HTmax : 0 < Tmax.
Hypothesis HM : invm_in N (1000 / Tmax) tmin m.
Variables a1 a2 : nat.
Let D1 := step_at dt 1.
Let Dm := step_at dt (1 + tmin).
Let M := step_at dt Tmax.
Hypothesis Hin : arrs N (im_input m) 1 [a1; a2].
Hypothesis Ha1 : (1 <= a1)%nat.
Hypothesis Ha2 : (a1 + D1 <= a2)%nat.
Variables r1 q : nat.
Hypothesis Hr1 : arrs N (im_recall m) 1 [r1].
Hypothesis Hq : arrs N (im_recall m) (2 + / 100) [q].
Hypothesis Hq1 : (1 <= q)%nat.
Hypothesis Hl1 : (a1 + Dm < r1)%nat.
Hypothesis Hl2 : (a2 + D1 < r1)%nat.
Hypothesis Hch : (a2 + D1 < a1 + Dm + M)%nat.
Definition inv_fire : nat := (r1 - 1 + (M + (a1 + Dm) - (a2 + D1)))%nat.

Lemma inv_first : spikes_at N (im_first m) [a1].
Proof. eapply first_spikes; [apply (ii_first _ _ _ _ HM)|rewrite cTsyn_R; eauto|auto|auto]. Qed.
Lemma inv_last : spikes_at N (im_last m) [a2].
Proof.
  eapply last_spikes; [apply (ii_last _ _ _ _ HM)|rewrite cTsyn_R; eauto|auto|]. pose proof (step_at_ge1 dt 1). fold D1 in H. lia.
Qed.
Lemma inv_acc : spikes_at N (im_acc m) [inv_fire].
Proof.
  pose proof (ii_acc _ _ _ _ HM) as H. pose proof (step_at_ge1 dt 1) as G1. fold D1 in G1. pose proof (step_at_ge1 dt (1 + tmin)) as G2. fold Dm in G2.
  pose proof (step_at_ge1 dt Tmax) as G3. fold M in G3.
  assert (V : forall k, vlin [((a1 + Dm)%nat, 1000 / Tmax); ((a2 + D1)%nat, - (1000 / Tmax)); (r1, 1000 / Tmax)] k =
     1000 / Tmax * IZR (Z.of_nat (S k - (a1 + Dm)) - Z.of_nat (S k - (a2 + D1)) + Z.of_nat (S k - r1))).
  { intros k. rewrite !vlin_cons, vlin_nil, plus_IZR, minus_IZR, <- !INR_IZR_INZ. lra. }
  apply (geonly_once N (im_acc m) [((a1 + Dm)%nat, 1000 / Tmax); ((a2 + D1)%nat, - (1000 / Tmax)); (r1, 1000 / Tmax)]).
  - apply H.
  - eapply ins_geonly; eauto; repeat constructor.
  - evb.
  - unfold inv_fire. lia.
  - intros k Hk. ev_input H.
    rewrite (arrs_1 N _ _ _ Dm a1 (ii_first _ _ _ _ HM) inv_first), (arrs_1 N _ _ _ D1 a2 (ii_last _ _ _ _ HM) inv_last); auto; try lia;
      try (autorewrite with netR; reflexivity).
    autorewrite with netR. rewrite (Hr1 k Hk). ev_simpl. lra.
  - intros k Hk. fold dt. rewrite V. apply unit_lt; auto. fold M. unfold inv_fire in Hk. lia.
  - fold dt. rewrite V. apply unit_ge; auto. fold M. unfold inv_fire. lia.
  - unfold inv_fire. evb.
Qed.
Theorem inv_output : q <> (inv_fire + D1)%nat -> spikes_at N (im_output m) [q; (inv_fire + D1)%nat].
Proof.
  intros Hne. pose proof (ii_output _ _ _ _ HM) as H.
  apply two_spikes; auto; [apply H| |unfold inv_fire; lia|].
  - eapply ins_vonly; eauto; repeat constructor.
  - intros k Hk. ev_input H.
    rewrite (arrs_1 N _ _ _ D1 inv_fire (ii_acc _ _ _ _ HM) inv_acc); auto; [|unfold inv_fire; lia].
    netr. replace (2 * 1 + / 100) with (2 + / 100) by lra. rewrite (Hq k Hk). ev_simpl. lra.
Qed.
End Inv.

Definition im_internal (m : invmem_net) := [im_first m; im_last m; im_acc m; im_output m].
Lemma invm_in_of N enc m b : im_nodes m = seq b 6 -> (forall n, In n (im_internal m) -> own N (im_syns enc m) n) -> invm_in N (wacc_of enc) (Tmin enc) m.
Proof. intros HN HO. unfold im_nodes in HN. nodes_eqs HN. unfold im_internal in HO. constructor; own_solve HO. Qed.

(** conversions between steps and times *)
Ltac inr := repeat first [rewrite plus_INR | rewrite mult_INR | rewrite minus_INR by lia | rewrite S_INR]; cbn [INR].
Ltac nat_lt dt Hdt := apply INR_lt; inr; apply Rmult_lt_reg_r with dt; [exact Hdt|].
Ltac nat_le dt Hdt := apply INR_le; inr; apply Rmult_le_reg_r with dt; [exact Hdt|].

Theorem inverting_memory_run (tmin tcod x dt t0 tr T : R) nm ord :
  0 < dt <= 1 / 4 -> 0 < tcod -> 1 + dt <= tmin -> 0 <= x <= 1 -> 0 <= t0 -> ord_ok ord ->
  t0 + 1 + (tmin + tcod) + 2 * dt <= tr -> tr + (tmin + tcod) + 4 + 4 * dt <= T ->
  exists m s,
    session (InvertingMemoryNetwork (DataEncoder tmin tcod) nm) im_mod (DataEncoder tmin tcod) dt
      (fun m => [SValue x (im_input m) t0; SSpike (im_recall m) tr]) ord T = Ok (m, s) /\
    emits s (im_output m) (DataEncoder tmin tcod) (1 - x) ((3 * dt + / 100) / tcod).
Proof.
  intros [Hdt Hdt2] Htc Htm Hx Ht0 HO Htr HT. set (enc := DataEncoder tmin tcod).
  assert (HTm : tmin + tcod <> 0) by lra.
  destruct (InvMemory_built enc nm empty_world inv_empty (neq0 _ HTm)) as (m & w & E & HB & HN & HL).
  cbn [w_neurons empty_world length Nat.add] in HN, HL.
  set (stims := fun m => [SValue x (im_input m) t0; SSpike (im_recall m) tr]).
  pose proof HN as HN'. unfold im_nodes in HN'. nodes_eqs HN'.
  destruct (session_built (InvertingMemoryNetwork enc nm) im_mod m w _ enc dt stims ord T E HB Hdt ltac:(lra)) as (s & Es & HSe).
  { stims_ok. } { auto. }
  exists m, s. split; [exact Es|].
  set (N := net_of w (exts enc (stims m)) dt) in *.
  set (iv := tmin + x * tcod) in *. unfold stims in *.
  assert (Hxc : 0 <= x * tcod <= tcod) by (split; [apply Rmult_le_pos; lra|rewrite <- (Rmult_1_l tcod) at 2; apply Rmult_le_compat_r; lra]).
  assert (Hiv : 1 + dt <= iv <= tmin + tcod) by (unfold iv; lra).
  assert (HA1 : arrs N (im_input m) 1 [step_at dt (t0 + 1); step_at dt (t0 + 1 + iv)]).
  { src_solve HSe. do 3 f_equal. fold iv. unfold enc; cbn [DataEncoder Tmin Tcod]. unfold iv. lra. }
  assert (HR1 : arrs N (im_recall m) 1 [step_at dt (tr + 1)]) by (src_solve HSe).
  assert (HR2 : arrs N (im_recall m) (2 + / 100) [step_at dt (tr + (2 + / 100))]) by (src_solve HSe).
  assert (HM : invm_in N (1000 / (tmin + tcod)) tmin m).
  { rewrite <- wacc_R. apply (invm_in_of N enc m 0); auto. intros n Hn. apply (se_own _ _ _ _ _ _ _ _ HSe).
    - unfold im_internal in Hn. cbn [In] in Hn. intuition lia.
    - unfold im_internal in Hn. cbn [In] in Hn. destruct Hn as [<-|[<-|[<-|[<-|[]]]]]; ext_simp; reflexivity. }
  destruct (step_diff dt (t0 + 1) iv Hdt ltac:(lra) ltac:(lra)) as (Q1 & Q2 & _). apply Rabs_def2 in Q2.
  assert (Ha12 : (step_at dt (t0 + 1) + step_at dt 1 <= step_at dt (t0 + 1 + iv))%nat).
  { apply step_diff_ge; try lra; try apply step_at_ge1. pose proof (step_time dt 1 Hdt ltac:(lra)). unfold iv. lra. }
  pose proof (step_at_bounds dt 1 Hdt ltac:(lra)) as BD1. pose proof (step_at_bounds dt (1 + tmin) Hdt ltac:(lra)) as BDm.
  pose proof (step_at_bounds dt (t0 + 1) Hdt ltac:(lra)) as BA1. pose proof (step_at_bounds dt (t0 + 1 + iv) Hdt ltac:(lra)) as BA2.
  pose proof (step_at_bounds dt (tr + 1) Hdt ltac:(lra)) as BR1. pose proof (step_at_bounds dt (tr + (2 + / 100)) Hdt ltac:(lra)) as BR2.
  pose proof (step_at_bounds dt (tmin + tcod) Hdt ltac:(lra)) as BM.
  pose proof (step_at_ge1 dt (t0 + 1)) as G1. pose proof (step_at_ge1 dt 1) as G2. pose proof (step_at_ge1 dt (tr + (2 + / 100))) as G3.
  pose proof (inv_output N m (tmin + tcod) tmin Hdt ltac:(lra) HM _ _ HA1 G1 Ha12 _ _ HR1 HR2 G3) as HOut.
  unfold inv_fire in HOut. cbn [N net_of t_dt] in HOut. fold N in HOut.
  set (a1 := step_at dt (t0 + 1)) in *. set (a2 := step_at dt (t0 + 1 + iv)) in *.
  set (r1 := step_at dt (tr + 1)) in *. set (q := step_at dt (tr + (2 + / 100))) in *.
  set (D1 := step_at dt 1) in *. set (Dm := step_at dt (1 + tmin)) in *. set (M := step_at dt (tmin + tcod)) in *.
  assert (C1 : (a1 + Dm < r1)%nat) by (nat_lt dt Hdt; lra).
  assert (C2 : (a2 + D1 < r1)%nat) by (nat_lt dt Hdt; lra).
  assert (C3 : (a2 + D1 < a1 + Dm + M)%nat) by (nat_lt dt Hdt; lra).
  set (b := (r1 - 1 + (M + (a1 + Dm) - (a2 + D1)) + D1)%nat) in *.
  assert (EI : INR b * dt = INR r1 * dt - dt + INR M * dt + INR a1 * dt + INR Dm * dt - INR a2 * dt).
  { unfold b. inr. lra. }
  assert (Hqb : (q < b)%nat) by (nat_lt dt Hdt; unfold iv in *; lra).
  specialize (HOut C1 C2 C3 ltac:(lia)).
  assert (HLg : spike_log s (im_output m) = times dt [q; b]).
  { apply (se_log _ _ _ _ _ _ _ _ HSe); auto; [lia|ext_simp; reflexivity|cbn; lia|].
    intros j [<-|[<-|[]]]; unfold iv in *; lra. }
  eapply (emits_intro _ _ _ _ dt q b); auto. rewrite EI. replace ((3 * dt + / 100) / tcod * tcod) with (3 * dt + / 100) by (field; lra).
  unfold iv in *. apply Rabs_le. lra.
Qed.
