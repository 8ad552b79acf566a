(** ExponentialNetwork (C29) and LogNetwork (C30). *)
From Coq Require Import Arith ZArith Bool List Reals Lra Lia Permutation.
From Verif Require Import Num Heapq Elements Simulator Networks Trace SimTrace SimProps TraceProps NeuronLib NetLib Build BuildNets Bridge MemoryProof GeLib GfLib Session SimpleNets InvMem Misc LnLib FuncNets.
Import ListNotations.
Open Scope R_scope.
Open Scope list_scope.

Record ex_ins (N : tnet) (w tmin : R) (m : exp_net) : Prop := {
  xi_first : ins N (ex_first m) [mks (ex_input m) (ex_first m) SynV we cTsyn; mks (ex_first m) (ex_first m) SynV wi cTsyn];
  xi_last : ins N (ex_last m) [mks (ex_input m) (ex_last m) SynV (half we) cTsyn];
  xi_acc : ins N (ex_acc m) [mks (ex_first m) (ex_acc m) SynGf gmult (nadd cTsyn tmin);
                             mks (ex_first m) (ex_acc m) SynGate (nofZ 1) (nadd cTsyn tmin);
                             mks (ex_last m) (ex_acc m) SynGate (nofZ (-1)) cTsyn;
                             mks (ex_last m) (ex_acc m) SynGe w cTsyn];
  xi_output : ins N (ex_output m) [mks (ex_acc m) (ex_output m) SynV we (nadd cTsyn tmin);
                                   mks (ex_last m) (ex_output m) SynV we (twice cTsyn)]
}.
Ltac no_ty H := intros k Hk; ev_input H; lra.
Section Exp.
Variable N : tnet.
Variable m : exp_net.
Variables Tc tmin : R.
Let dt := t_dt N.
Hypothesis Hdt : 0 < dt < 20.
Hypothesis HTc : 0 < Tc.
Hypothesis HM : ex_ins N (1000 / Tc) tmin m.
Variables a1 a2 : nat.
Let D1 := step_at dt 1.
Let D2 := step_at dt 2.
Let Dm := step_at dt (1 + tmin).
Hypothesis Hin : arrs N (ex_input m) 1 [a1; a2].
Hypothesis Ha1 : (1 <= a1)%nat.
Hypothesis Ha2 : (a1 + D1 <= a2)%nat.
Hypothesis Hee : (a1 + Dm <= a2 + D1)%nat.
Lemma ex_first_spk : spikes_at N (ex_first m) [a1].
Proof. eapply first_spikes; [apply (xi_first _ _ _ _ HM)|rewrite cTsyn_R; eauto|auto|auto]. Qed.
Lemma ex_last_spk : spikes_at N (ex_last m) [a2].
Proof.
  eapply last_spikes; [apply (xi_last _ _ _ _ HM)|rewrite cTsyn_R; eauto|auto|]. pose proof (step_at_ge1 dt 1). fold D1 in H. lia.
Qed.
Definition ex_steps : nat := step_at dt (Tc * rho N ^ (a2 + D1 - (a1 + Dm))).
Definition ex_fire : nat := (a2 + D1 - 1 + ex_steps)%nat.
Lemma ex_acc_spk : spikes_at N (ex_acc m) [ex_fire].
Proof.
  pose proof (xi_acc _ _ _ _ HM) as H. pose proof (step_at_ge1 dt 1) as G1. fold D1 in G1. pose proof (step_at_ge1 dt (1 + tmin)) as G2. fold Dm in G2.
  assert (EA1 : forall k, (1 <= k)%nat -> INR (arr N (ex_first m) (nadd cTsyn tmin) k) = ind k (a1 + Dm)).
  { intros k Hk. rewrite (arrs_1 N _ _ _ Dm a1 (xi_first _ _ _ _ HM) ex_first_spk); auto. ev_simpl. lra. }
  assert (EA2 : forall k, (1 <= k)%nat -> INR (arr N (ex_last m) cTsyn k) = ind k (a2 + D1)).
  { intros k Hk. rewrite (arrs_1 N _ _ _ D1 a2 (xi_last _ _ _ _ HM) ex_last_spk); auto; [|lia]. ev_simpl. lra. }
  apply (exp_fire N (ex_acc m) Tc (ins_prm _ _ _ H) Hdt HTc) with (e1 := (a1 + Dm)%nat) (e2 := (a2 + D1)%nat); auto.
  - no_ty H.
  - no_ty H.
  - lia.
  - intros k Hk. ev_input H. rewrite EA2 by auto. lra.
  - intros k Hk. ev_input H. rewrite EA1 by auto. netr. lra.
  - intros k Hk. ev_input H. rewrite EA1, EA2 by auto. netr. lra.
Qed.
Theorem ex_output_spk : (a2 + D2 <> ex_fire + Dm)%nat -> spikes_at N (ex_output m) [(a2 + D2)%nat; (ex_fire + Dm)%nat].
Proof.
  intros Hne. pose proof (xi_output _ _ _ _ HM) as H. pose proof (step_at_ge1 dt 1) as G1. fold D1 in G1.
  assert (G5 : (1 <= ex_steps)%nat) by apply step_at_ge1.
  apply two_spikes; auto; [apply H| |lia|unfold ex_fire; lia|].
  - eapply ins_vonly; eauto; repeat constructor.
  - intros k Hk. ev_input H.
    rewrite (arrs_1 N _ _ _ Dm ex_fire (xi_acc _ _ _ _ HM) ex_acc_spk), (arrs_1 N _ _ _ D2 a2 (xi_last _ _ _ _ HM) ex_last_spk); auto;
      try (unfold ex_fire; lia); try lia; try (autorewrite with netR; rewrite ?Rmult_1_r; reflexivity).
    netr. ev_simpl. lra.
Qed.
End Exp.

Record lg_ins (N : tnet) (w tmin : R) (m : log_net) : Prop := {
  gi_first : ins N (lg_first m) [mks (lg_input m) (lg_first m) SynV we cTsyn; mks (lg_first m) (lg_first m) SynV wi cTsyn];
  gi_last : ins N (lg_last m) [mks (lg_input m) (lg_last m) SynV (half we) cTsyn];
  gi_acc : ins N (lg_acc m) [mks (lg_first m) (lg_acc m) SynGe w (nadd cTsyn tmin);
                             mks (lg_last m) (lg_acc m) SynGate (nofZ 1) cTsyn;
                             mks (lg_last m) (lg_acc m) SynGe (nopp w) cTsyn;
                             mks (lg_last m) (lg_acc m) SynGf gmult cTsyn];
  gi_output : ins N (lg_output m) [mks (lg_acc m) (lg_output m) SynV we (nadd cTsyn tmin);
                                   mks (lg_last m) (lg_output m) SynV we (twice cTsyn)]
}.
Section Log.
Variable N : tnet.
Variable m : log_net.
Variables Tc tmin : R.
Let dt := t_dt N.
Hypothesis Hdt : 0 < dt < 20.
Hypothesis HTc : 0 < Tc.
Hypothesis HM : lg_ins N (1000 / Tc) tmin m.
Variables a1 a2 : nat.
Let D1 := step_at dt 1.
Let D2 := step_at dt 2.
Let Dm := step_at dt (1 + tmin).
Hypothesis Hin : arrs N (lg_input m) 1 [a1; a2].
Hypothesis Ha1 : (1 <= a1)%nat.
Hypothesis Ha2 : (a1 + D1 <= a2)%nat.
Hypothesis Hee : (a1 + Dm <= a2 + D1)%nat.
Lemma lg_first_spk : spikes_at N (lg_first m) [a1].
Proof. eapply first_spikes; [apply (gi_first _ _ _ _ HM)|rewrite cTsyn_R; eauto|auto|auto]. Qed.
Lemma lg_last_spk : spikes_at N (lg_last m) [a2].
Proof.
  eapply last_spikes; [apply (gi_last _ _ _ _ HM)|rewrite cTsyn_R; eauto|auto|]. pose proof (step_at_ge1 dt 1). fold D1 in H. lia.
Qed.
Let c := INR (a2 + D1 - (a1 + Dm)) * (dt / Tc).
(** firing step of the accumulator *)
Lemma lg_acc_spk :
  (c = 0 -> spikes_at N (lg_acc m) []) /\
  (forall j, c < 1 -> rho N ^ j <= c -> (forall i, (i < j)%nat -> c < rho N ^ i) -> spikes_at N (lg_acc m) [(a2 + D1 - 1 + j)%nat]) /\
  (1 <= c -> (step_at dt Tc <= a2 + D1 - (a1 + Dm))%nat /\ spikes_at N (lg_acc m) [(a1 + Dm - 1 + step_at dt Tc)%nat]).
Proof.
  pose proof (gi_acc _ _ _ _ HM) as H. pose proof (step_at_ge1 dt 1) as G1. fold D1 in G1. pose proof (step_at_ge1 dt (1 + tmin)) as G2. fold Dm in G2.
  assert (EA1 : forall k, (1 <= k)%nat -> INR (arr N (lg_first m) (nadd cTsyn tmin) k) = ind k (a1 + Dm)).
  { intros k Hk. rewrite (arrs_1 N _ _ _ Dm a1 (gi_first _ _ _ _ HM) lg_first_spk); auto. ev_simpl. lra. }
  assert (EA2 : forall k, (1 <= k)%nat -> INR (arr N (lg_last m) cTsyn k) = ind k (a2 + D1)).
  { intros k Hk. rewrite (arrs_1 N _ _ _ D1 a2 (gi_last _ _ _ _ HM) lg_last_spk); auto; [|lia]. ev_simpl. lra. }
  assert (IO : forall k, (1 <= k)%nat -> input N (lg_acc m) SynOther k = 0) by no_ty H.
  assert (IV : forall k, (1 <= k)%nat -> input N (lg_acc m) SynV k = 0) by no_ty H.
  assert (IGe : forall k, (1 <= k)%nat -> input N (lg_acc m) SynGe k = 1000 / Tc * ind k (a1 + Dm) + - (1000 / Tc) * ind k (a2 + D1)).
  { intros k Hk. ev_input H. rewrite EA1, EA2 by auto. netr. lra. }
  assert (IGf : forall k, (1 <= k)%nat -> input N (lg_acc m) SynGf k = 50 * ind k (a2 + D1)).
  { intros k Hk. ev_input H. rewrite EA2 by auto. netr. lra. }
  assert (IGa : forall k, (1 <= k)%nat -> input N (lg_acc m) SynGate k = 1 * ind k (a2 + D1)).
  { intros k Hk. ev_input H. rewrite EA2 by auto. netr. lra. }
  assert (Hp : 0 < dt / Tc) by (apply Rdiv_lt_0_compat; lra).
  split; [|split].
  - intros Ec. assert (Z : (a2 + D1 - (a1 + Dm) = 0)%nat).
    { apply INR_eq. cbn [INR]. apply Rmult_eq_reg_r with (dt / Tc); [|lra]. fold c. lra. }
    apply (log_zero N (lg_acc m) Tc (ins_prm _ _ _ H) Hdt HTc IO IV (a1 + Dm) (a2 + D1) (a2 + D1)); auto; lia.
  - intros j Hc Hj Hi. apply (log_fire N (lg_acc m) Tc (ins_prm _ _ _ H) Hdt HTc IO IV (a1 + Dm) (a2 + D1) (a2 + D1)); auto; lia.
  - intros Hc. apply (log_full N (lg_acc m) Tc (ins_prm _ _ _ H) Hdt HTc IO IV (a1 + Dm) (a2 + D1) (a2 + D1)); auto; lia.
Qed.
Theorem lg_output_spk f : spikes_at N (lg_acc m) [f] -> (1 <= f)%nat -> (a2 + D2 <> f + Dm)%nat -> spikes_at N (lg_output m) [(a2 + D2)%nat; (f + Dm)%nat].
Proof.
  intros HF Hf Hne. pose proof (gi_output _ _ _ _ HM) as H. pose proof (step_at_ge1 dt 1) as G1. fold D1 in G1.
  apply two_spikes; auto; [apply H| |lia|lia|].
  - eapply ins_vonly; eauto; repeat constructor.
  - intros k Hk. ev_input H.
    rewrite (arrs_1 N _ _ _ Dm f (gi_acc _ _ _ _ HM) HF), (arrs_1 N _ _ _ D2 a2 (gi_last _ _ _ _ HM) lg_last_spk); auto;
      try lia; try (autorewrite with netR; rewrite ?Rmult_1_r; reflexivity).
    netr. ev_simpl. lra.
Qed.
Theorem lg_output_one : spikes_at N (lg_acc m) [] -> spikes_at N (lg_output m) [(a2 + D2)%nat].
Proof.
  intros HF. pose proof (gi_output _ _ _ _ HM) as H. pose proof (step_at_ge1 dt 1) as G1. fold D1 in G1.
  assert (E : [(a2 + D2)%nat] = vrun 0 [((a2 + D2)%nat, 10)]) by (symmetry; vrun_solve). rewrite E.
  apply vonly_spikes; [apply H| | |].
  - eapply ins_vonly; eauto; repeat constructor.
  - cbn. lia.
  - intros k Hk. ev_input H.
    rewrite (arrs_0 N _ _ _ (gi_acc _ _ _ _ HM) HF), (arrs_1 N _ _ _ D2 a2 (gi_last _ _ _ _ HM) lg_last_spk); auto;
      try lia; try (autorewrite with netR; rewrite ?Rmult_1_r; reflexivity).
    netr. ev_simpl. lra.
Qed.
End Log.

Definition ex_internal (m : exp_net) := [ex_first m; ex_last m; ex_acc m; ex_output m].
Lemma ex_ins_of N enc m b : ex_nodes m = seq b 5 -> (forall n, In n (ex_internal m) -> own N (ex_syns enc m) n) -> ex_ins N (wbar_of enc) (Tmin enc) m.
Proof. intros HN HO. unfold ex_nodes in HN. nodes_eqs HN. unfold ex_internal in HO. constructor; own_solve HO. Qed.
Definition lg_internal (m : log_net) := [lg_first m; lg_last m; lg_acc m; lg_output m].
Lemma lg_ins_of N enc m b : lg_nodes m = seq b 5 -> (forall n, In n (lg_internal m) -> own N (lg_syns enc m) n) -> lg_ins N (wbar_of enc) (Tmin enc) m.
Proof. intros HN HO. unfold lg_nodes in HN. nodes_eqs HN. unfold lg_internal in HO. constructor; own_solve HO. Qed.
Lemma wbar_R tmin tcod : wbar_of (DataEncoder tmin tcod) = 1000 / tcod.
Proof. unfold wbar_of, cVt, ctm. cbn [ndiv nmul R_num nofZ DataEncoder Tcod]. f_equal. lra. Qed.

(** quantised length of the stored interval *)
Lemma pair_gap dt tmin z (a1 a2 : nat) : 0 < dt -> 0 < tmin -> Rabs (INR a2 * dt - INR a1 * dt - (tmin + z)) < dt ->
  (a1 + step_at dt (1 + tmin) <= a2 + step_at dt 1)%nat \/ 2 * dt <= z ->
  let k := (a2 + step_at dt 1 - (a1 + step_at dt (1 + tmin)))%nat in
  (a1 + step_at dt (1 + tmin) <= a2 + step_at dt 1)%nat /\ Rabs (INR k * dt - z) < 2 * dt.
Proof.
  intros Hdt Htm Ha HA. cbv zeta. apply Rabs_def2 in Ha.
  pose proof (step_at_bounds dt 1 Hdt ltac:(lra)) as BD1. pose proof (step_at_bounds dt (1 + tmin) Hdt ltac:(lra)) as BDm.
  assert (C : (a1 + step_at dt (1 + tmin) <= a2 + step_at dt 1)%nat).
  { destruct HA as [HA|HA]; auto. nat_le dt Hdt. lra. }
  split; auto. inr. apply Rabs_def1; lra.
Qed.
Lemma grid_gap dt tmin z (a1 a2 : nat) : 0 < dt -> 0 < tmin -> aligned dt tmin -> INR a2 * dt - INR a1 * dt = tmin + z -> 0 <= z ->
  (a1 + step_at dt (1 + tmin) <= a2 + step_at dt 1)%nat /\ INR (a2 + step_at dt 1 - (a1 + step_at dt (1 + tmin))) * dt = z.
Proof.
  intros Hdt Htm HA Ha Hz. destruct (aligned_steps dt tmin Hdt Htm HA) as (p & q & -> & _ & _ & -> & Ep & Eq).
  assert (C : (a1 + (p + q) <= a2 + p)%nat) by (nat_le dt Hdt; lra). split; auto. inr. lra.
Qed.
(** from a steps-long delay to the output interval *)
Lemma out_timing dt tmin (a2 j : nat) : 0 < dt -> 4 * dt <= tmin ->
  let D1 := step_at dt 1 in let D2 := step_at dt 2 in let Dm := step_at dt (1 + tmin) in
  (a2 + D2 < a2 + D1 - 1 + j + Dm)%nat /\
  Rabs (INR (a2 + D1 - 1 + j + Dm) * dt - INR (a2 + D2) * dt - (tmin + INR j * dt)) <= 2 * dt.
Proof.
  intros Hdt Htm. cbv zeta.
  pose proof (step_at_bounds dt 1 Hdt ltac:(lra)) as BD1. pose proof (step_at_bounds dt 2 Hdt ltac:(lra)) as BD2.
  pose proof (step_at_bounds dt (1 + tmin) Hdt ltac:(lra)) as BDm. pose proof (step_at_ge1 dt 1) as G1.
  assert (0 <= INR j * dt) by (apply Rmult_le_pos; [apply pos_INR|lra]).
  split; [nat_lt dt Hdt; lra|]. inr. apply Rabs_le. lra.
Qed.
Lemma rho_exp dt z (k : nat) : 0 < dt < 20 -> 0 <= z -> Rabs (INR k * dt - z) <= 2 * dt -> Rabs ((1 - dt / 20) ^ k - exp (- (z / 20))) <= 3 * dt / 20.
Proof.
  intros Hdt Hz Hk. pose proof (euler_gap (dt / 20) k ltac:(lra)) as E.
  assert (P : 0 <= INR k * dt) by (apply Rmult_le_pos; [apply pos_INR|lra]).
  pose proof (exp_lip (INR k * (dt / 20)) (z / 20) ltac:(lra) ltac:(lra)) as L.
  replace (INR k * (dt / 20) - z / 20) with ((INR k * dt - z) / 20) in L by lra.
  assert (L2 : Rabs ((INR k * dt - z) / 20) <= 2 * dt / 20).
  { apply Rabs_le2 in Hk. apply Rabs_le. lra. }
  apply Rabs_le. assert (L3 := Rabs_le2 _ _ (Rle_trans _ _ _ L L2)). lra.
Qed.

Theorem exponential_run (tmin tcod x dt t0 T : R) nm ord :
  0 < dt <= 1 / 2 -> 0 < tcod -> 1 + dt <= tmin -> 4 * dt <= tmin -> 0 <= x <= 1 -> 0 <= t0 -> ord_ok ord ->
  aligned dt tmin \/ 2 * dt <= x * tcod ->
  t0 + 5 + 2 * (tmin + tcod) + 10 * dt <= T ->
  exists m s,
    session (ExponentialNetwork (DataEncoder tmin tcod) nm) ex_mod (DataEncoder tmin tcod) dt
      (fun m => [SValue x (ex_input m) t0]) ord T = Ok (m, s) /\
    (exists n, Rabs (INR n * dt - x * tcod) <= 2 * dt /\ emits s (ex_output m) (DataEncoder tmin tcod) ((1 - dt / 20) ^ n) (3 * dt / tcod)) /\
    (forall k, aligned dt tmin -> x * tcod = INR k * dt -> emits s (ex_output m) (DataEncoder tmin tcod) ((1 - dt / 20) ^ k) (dt / tcod)) /\
    emits s (ex_output m) (DataEncoder tmin tcod) (exp (- (x * tcod / 20))) (3 * dt / tcod + 3 * dt / 20).
Proof.
  intros [Hdt Hdt2] Htc Htm Htm2 Hx Ht0 HO HA HT. set (enc := DataEncoder tmin tcod).
  assert (HTc : tcod <> 0) by lra.
  destruct (Exp_built enc nm empty_world inv_empty (neq0 _ HTc)) as (m & w & E & HB & HN & HL).
  cbn [w_neurons empty_world length Nat.add] in HN, HL.
  set (stims := fun m => [SValue x (ex_input m) t0]).
  pose proof HN as HN'. unfold ex_nodes in HN'. nodes_eqs HN'.
  destruct (session_built (ExponentialNetwork enc nm) ex_mod m w _ enc dt stims ord T E HB Hdt ltac:(lra)) as (s & Es & HSe).
  { stims_ok. } { auto. }
  exists m, s. split; [exact Es|].
  set (N := net_of w (exts enc (stims m)) dt) in *.
  set (iv := tmin + x * tcod) in *. unfold stims in *.
  assert (Hxc : 0 <= x * tcod <= tcod) by (split; [apply Rmult_le_pos; lra|rewrite <- (Rmult_1_l tcod) at 2; apply Rmult_le_compat_r; lra]).
  assert (Hiv : 1 + dt <= iv <= tmin + tcod) by (unfold iv; lra).
  assert (HA1 : arrs N (ex_input m) 1 [step_at dt (t0 + 1); step_at dt (t0 + 1 + iv)]).
  { src_solve HSe. do 3 f_equal. fold iv. unfold enc; cbn [DataEncoder Tmin Tcod]. unfold iv. lra. }
  assert (HM : ex_ins N (1000 / tcod) tmin m).
  { rewrite <- (wbar_R tmin). apply (ex_ins_of N enc m 0); auto. intros n Hn. apply (se_own _ _ _ _ _ _ _ _ HSe).
    - unfold ex_internal in Hn. cbn [In] in Hn. intuition lia.
    - unfold ex_internal in Hn. cbn [In] in Hn. destruct Hn as [<-|[<-|[<-|[<-|[]]]]]; ext_simp; reflexivity. }
  destruct (step_diff dt (t0 + 1) iv Hdt ltac:(lra) ltac:(lra)) as (Q1 & Q2 & _).
  assert (Ha12 : (step_at dt (t0 + 1) + step_at dt 1 <= step_at dt (t0 + 1 + iv))%nat).
  { apply step_diff_ge; try lra; try apply step_at_ge1. pose proof (step_time dt 1 Hdt ltac:(lra)). unfold iv. lra. }
  pose proof (step_at_ge1 dt (t0 + 1)) as G1.
  assert (GD : forall q, iv = INR q * dt -> INR (step_at dt (t0 + 1 + iv)) * dt - INR (step_at dt (t0 + 1)) * dt = iv)
    by (intros q Eq; eapply grid_diff; eauto; lra).
  pose proof (step_at_bounds dt (t0 + 1 + iv) Hdt ltac:(lra)) as BA2.
  destruct (pair_gap dt tmin (x * tcod) (step_at dt (t0 + 1)) (step_at dt (t0 + 1 + iv)) Hdt ltac:(lra) Q2) as (C1 & C2).
  { destruct HA as [HA|HA]; auto. left. apply steps_aligned_gap; auto; lra. }
  pose proof (ex_output_spk N m tcod tmin ltac:(cbn; lra) Htc HM _ _ HA1 G1 Ha12 C1) as HOut.
  unfold ex_fire, ex_steps, rho in HOut. cbn [N net_of t_dt] in HOut. fold N in HOut.
  set (a1 := step_at dt (t0 + 1)) in *. set (a2 := step_at dt (t0 + 1 + iv)) in *.
  set (n := (a2 + step_at dt 1 - (a1 + step_at dt (1 + tmin)))%nat) in *.
  assert (Hr : 0 < (1 - dt / 20) ^ n <= 1).
  { split; [apply pow_lt; lra|]. apply pow_le1. lra. }
  assert (HTr : 0 < tcod * (1 - dt / 20) ^ n) by (apply Rmult_lt_0_compat; lra).
  pose proof (step_at_bounds dt _ Hdt HTr) as BJ.
  assert (HTr2 : tcod * (1 - dt / 20) ^ n <= tcod) by nra.
  destruct (out_timing dt tmin a2 (step_at dt (tcod * (1 - dt / 20) ^ n)) Hdt Htm2) as (C3 & C4).
  specialize (HOut ltac:(lia)).
  pose proof (step_at_bounds dt 2 Hdt ltac:(lra)) as BD2.
  assert (HLg : spike_log s (ex_output m) = times dt [(a2 + step_at dt 2)%nat; (a2 + step_at dt 1 - 1 + step_at dt (tcod * (1 - dt / 20) ^ n) + step_at dt (1 + tmin))%nat]).
  { apply (se_log _ _ _ _ _ _ _ _ HSe); auto; [lia|ext_simp; reflexivity|cbn; lia|].
    apply Rabs_le2 in C4. rewrite (plus_INR a2) in C4. intros i [<-|[<-|[]]]; [rewrite plus_INR|]; lra. }
  assert (EM : forall v eps, Rabs (INR (step_at dt (tcod * (1 - dt / 20) ^ n)) * dt - v * tcod) + 2 * dt <= eps * tcod -> emits s (ex_output m) (DataEncoder tmin tcod) v eps).
  { intros v eps Hv. eapply (emits_intro _ _ _ _ dt); [auto|auto|exact HLg|exact C3|].
    apply Rabs_le2 in C4. assert (Hv2 := Rabs_le2 _ _ (Rle_refl (Rabs (INR (step_at dt (tcod * (1 - dt / 20) ^ n)) * dt - v * tcod)))).
    apply Rabs_le. lra. }
  split; [|split].
  - exists n. split; [lra|]. apply EM. replace (3 * dt / tcod * tcod) with (3 * dt) by (field; lra).
    assert (Rabs (INR (step_at dt (tcod * (1 - dt / 20) ^ n)) * dt - (1 - dt / 20) ^ n * tcod) <= dt); [|lra]. apply Rabs_le. lra.
  - intros k HAl Hk. destruct (aligned_steps dt tmin Hdt ltac:(lra) HAl) as (p & q & E1 & E2 & _ & E3 & Ep & Eq).
    assert (Ek : n = k).
    { apply INR_eq. apply Rmult_eq_reg_r with dt; [|lra]. rewrite <- Hk. apply (grid_gap dt tmin (x * tcod) a1 a2); auto; try lra.
      apply (GD (q + k)%nat). unfold iv. rewrite plus_INR. lra. }
    rewrite Ek in *. eapply (emits_intro _ _ _ _ dt); [auto|auto|exact HLg|exact C3|].
    replace (dt / tcod * tcod) with dt by (field; lra). rewrite E1, E2, E3.
    assert (1 <= p)%nat by (destruct p; [cbn in Ep; lra|lia]). inr. apply Rabs_le. lra.
  - apply EM. replace ((3 * dt / tcod + 3 * dt / 20) * tcod) with (3 * dt + 3 * dt / 20 * tcod) by (field; lra).
    pose proof (rho_exp dt (x * tcod) n ltac:(lra) ltac:(lra) ltac:(lra)) as RE. apply Rabs_le2 in RE.
    set (ee := exp (- (x * tcod / 20))) in *.
    assert (Rabs (INR (step_at dt (tcod * (1 - dt / 20) ^ n)) * dt - ee * tcod) <= dt + 3 * dt / 20 * tcod); [|lra].
    apply Rabs_le. assert (- (3 * dt / 20) * tcod <= ((1 - dt / 20) ^ n - ee) * tcod <= 3 * dt / 20 * tcod) by (split; apply Rmult_le_compat_r; lra). lra.
Qed.

(** timing of the logarithm accumulator *)
Lemma log_timing N m dt tmin tcod x (a1 a2 : nat) : t_dt N = dt -> 0 < dt <= 1 / 2 -> 0 < tcod -> 6 * dt <= tmin -> 0 < x <= 1 -> 4 * dt <= x * tcod ->
  lg_ins N (1000 / tcod) tmin m -> arrs N (lg_input m) 1 [a1; a2] -> (1 <= a1)%nat -> (a1 + step_at dt 1 <= a2)%nat ->
  Rabs (INR a2 * dt - INR a1 * dt - (tmin + x * tcod)) < dt ->
  exists o, spikes_at N (lg_output m) [(a2 + step_at dt 2)%nat; o] /\ (a2 + step_at dt 2 < o)%nat /\
    Rabs (INR o * dt - INR (a2 + step_at dt 2) * dt - (tmin + 20 * - ln x)) <= (4 + - ln x) * dt + 80 * dt / (x * tcod).
Proof.
  intros <- [Hdt Hdt2] Htc Htm Hx Hxt HM Hin Ha1 Ha2 HQ. set (dt := t_dt N) in *.
  destruct (pair_gap dt tmin (x * tcod) a1 a2 Hdt ltac:(lra) HQ ltac:(right; lra)) as [C1 C2].
  destruct (lg_acc_spk N m tcod tmin ltac:(fold dt; lra) Htc HM a1 a2 Hin Ha1 Ha2 C1) as (_ & HF & HFull). fold dt in HF, HFull.
  pose proof (step_at_bounds dt 1 Hdt ltac:(lra)) as BD1. pose proof (step_at_bounds dt 2 Hdt ltac:(lra)) as BD2.
  pose proof (step_at_bounds dt (1 + tmin) Hdt ltac:(lra)) as BDm. pose proof (step_at_ge1 dt 1) as G1. pose proof (step_at_ge1 dt (1 + tmin)) as Gm.
  set (n := (a2 + step_at dt 1 - (a1 + step_at dt (1 + tmin)))%nat) in *.
  pose proof (lg_output_spk N m tcod tmin HM a1 a2 Hin Ha1 Ha2) as HO. fold dt in HO.
  assert (Hdlt : 0 <= 2 * dt / tcod <= x / 2).
  { split; [apply Rmult_le_pos; [lra|left; apply Rinv_0_lt_compat; auto]|]. apply Rmult_le_reg_r with tcod; auto.
    replace (2 * dt / tcod * tcod) with (2 * dt) by (field; lra). lra. }
  assert (Hcx : Rabs (INR n * (dt / tcod) - x) <= 2 * dt / tcod).
  { replace (INR n * (dt / tcod) - x) with ((INR n * dt - x * tcod) / tcod) by (field; lra).
    unfold Rdiv. rewrite Rabs_mult, (Rabs_right (/ tcod)) by (left; apply Rinv_0_lt_compat; auto).
    apply Rmult_le_compat_r; [left; apply Rinv_0_lt_compat; auto|lra]. }
  destruct (ln_lip x _ _ ltac:(lra) Hdlt Hcx) as [Hc0 HL].
  set (c := INR n * (dt / tcod)) in *.
  replace (2 * (2 * dt / tcod) / x) with (4 * dt / (x * tcod)) in HL by (field; lra).
  assert (Hs1 : 0 <= 4 * dt / (x * tcod) <= 1).
  { assert (0 < x * tcod) by lra. split; [apply Rmult_le_pos; [lra|left; apply Rinv_0_lt_compat; auto]|].
    apply Rmult_le_reg_r with (x * tcod); auto. unfold Rdiv. rewrite Rmult_assoc, Rinv_l by lra. lra. }
  replace (80 * dt / (x * tcod)) with (20 * (4 * dt / (x * tcod))) by (field; lra).
  set (q := 4 * dt / (x * tcod)) in *. apply Rabs_le2 in HL. pose proof (ln_neg x Hx) as Hln.
  destruct (Rlt_dec c 1) as [Hc|Hc].
  - assert (Hrb : 0 < rho N < 1) by (unfold rho; fold dt; lra).
    destruct (least_pow (rho N) c Hrb Hc0) as (j & J1 & J2).
    specialize (HF j Hc J1 J2).
    destruct (least_ln (dt / 20) c j ltac:(lra) ltac:(lra)) as [B1 B2].
    { exact J1. } { exact J2. }
    destruct (out_timing dt tmin a2 j Hdt ltac:(lra)) as (C3 & C4).
    exists (a2 + step_at dt 1 - 1 + j + step_at dt (1 + tmin))%nat. split; [apply HO; auto; lia|]. split; auto.
    apply Rabs_le2 in C4.
    assert (B3 : (20 - dt) * - ln c <= INR j * dt < 20 * - ln c + dt) by (split; nra).
    assert (B4 : dt * - ln c <= dt * (- ln x + 1)) by (apply Rmult_le_compat_l; lra).
    assert (0 <= - ln x * dt) by (apply Rmult_le_pos; lra). apply Rabs_le. lra.
  - destruct (HFull ltac:(lra)) as [HMn HFf]. pose proof (step_at_bounds dt tcod Hdt Htc) as BM. pose proof (step_at_ge1 dt tcod) as GM.
    set (M := step_at dt tcod) in *. apply Rabs_def2 in C2.
    assert (Hxt1 : x * tcod <= tcod) by (rewrite <- (Rmult_1_l tcod) at 2; apply Rmult_le_compat_r; lra).
    assert (Hn : n = (a2 + step_at dt 1 - (a1 + step_at dt (1 + tmin)))%nat) by reflexivity.
    assert (Hnt : INR n * dt = INR a2 * dt + INR (step_at dt 1) * dt - INR a1 * dt - INR (step_at dt (1 + tmin)) * dt) by (rewrite Hn; inr; lra).
    assert (HMn' : INR M * dt <= INR n * dt) by (apply Rmult_le_compat_r; [lra|apply le_INR; auto]).
    assert (Hlc : 0 <= ln c). { destruct (Rle_lt_or_eq_dec 1 c ltac:(lra)) as [h| <-]; [left; rewrite <- ln_1; apply ln_increasing; lra|rewrite ln_1; lra]. }
    assert (C3 : (a2 + step_at dt 2 < a1 + step_at dt (1 + tmin) - 1 + M + step_at dt (1 + tmin))%nat) by (nat_lt dt Hdt; lra).
    exists (a1 + step_at dt (1 + tmin) - 1 + M + step_at dt (1 + tmin))%nat. split; [apply HO; auto; lia|]. split; auto.
    assert (0 <= - ln x * dt) by (apply Rmult_le_pos; lra). inr. apply Rabs_le. lra.
Qed.

Theorem log_run (tmin tcod x dt t0 T : R) nm ord :
  0 < dt <= 1 / 2 -> 0 < tcod -> 1 + dt <= tmin -> 6 * dt <= tmin -> 0 < x <= 1 -> 4 * dt <= x * tcod -> 0 <= t0 -> ord_ok ord ->
  t0 + 25 + 2 * tmin + tcod + (20 + dt) * - ln x + 10 * dt <= T ->
  exists m s,
    session (LogNetwork (DataEncoder tmin tcod) nm) lg_mod (DataEncoder tmin tcod) dt
      (fun m => [SValue x (lg_input m) t0]) ord T = Ok (m, s) /\
    emits s (lg_output m) (DataEncoder tmin tcod) (20 * - ln x / tcod) (((4 + - ln x) * dt + 80 * dt / (x * tcod)) / tcod).
Proof.
  intros [Hdt Hdt2] Htc Htm Htm2 Hx Hxt Ht0 HO HT. set (enc := DataEncoder tmin tcod).
  assert (HTc : tcod <> 0) by lra. pose proof (ln_neg x Hx) as Hln.
  assert (Hln2 : 0 <= dt * - ln x) by (apply Rmult_le_pos; lra).
  destruct (Log_built enc nm empty_world inv_empty (neq0 _ HTc)) as (m & w & E & HB & HN & HL).
  cbn [w_neurons empty_world length Nat.add] in HN, HL.
  set (stims := fun m => [SValue x (lg_input m) t0]).
  pose proof HN as HN'. unfold lg_nodes in HN'. nodes_eqs HN'.
  destruct (session_built (LogNetwork enc nm) lg_mod m w _ enc dt stims ord T E HB Hdt ltac:(lra)) as (s & Es & HSe).
  { stims_ok. } { auto. }
  exists m, s. split; [exact Es|].
  set (N := net_of w (exts enc (stims m)) dt) in *.
  set (iv := tmin + x * tcod) in *. unfold stims in *.
  assert (Hxc : 0 <= x * tcod <= tcod) by (split; [apply Rmult_le_pos; lra|rewrite <- (Rmult_1_l tcod) at 2; apply Rmult_le_compat_r; lra]).
  assert (Hiv : 1 + dt <= iv <= tmin + tcod) by (unfold iv; lra).
  assert (HA1 : arrs N (lg_input m) 1 [step_at dt (t0 + 1); step_at dt (t0 + 1 + iv)]).
  { src_solve HSe. do 3 f_equal. fold iv. unfold enc; cbn [DataEncoder Tmin Tcod]. unfold iv. lra. }
  assert (HM : lg_ins N (1000 / tcod) tmin m).
  { rewrite <- (wbar_R tmin). apply (lg_ins_of N enc m 0); auto. intros n Hn. apply (se_own _ _ _ _ _ _ _ _ HSe).
    - unfold lg_internal in Hn. cbn [In] in Hn. intuition lia.
    - unfold lg_internal in Hn. cbn [In] in Hn. destruct Hn as [<-|[<-|[<-|[<-|[]]]]]; ext_simp; reflexivity. }
  destruct (step_diff dt (t0 + 1) iv Hdt ltac:(lra) ltac:(lra)) as (Q1 & Q2 & _).
  assert (Ha12 : (step_at dt (t0 + 1) + step_at dt 1 <= step_at dt (t0 + 1 + iv))%nat).
  { apply step_diff_ge; try lra; try apply step_at_ge1. pose proof (step_time dt 1 Hdt ltac:(lra)). unfold iv. lra. }
  pose proof (step_at_ge1 dt (t0 + 1)) as G1.
  pose proof (step_at_bounds dt (t0 + 1 + iv) Hdt ltac:(lra)) as BA2. pose proof (step_at_bounds dt 2 Hdt ltac:(lra)) as BD2.
  pose proof (step_at_ge1 dt 2) as G2.
  destruct (log_timing N m dt tmin tcod x _ _ eq_refl ltac:(lra) Htc Htm2 Hx Hxt HM HA1 G1 Ha12 Q2) as (o & O1 & O2 & O3).
  assert (Hq : 0 <= 80 * dt / (x * tcod) <= 20).
  { assert (0 < x * tcod) by lra. split; [apply Rmult_le_pos; [lra|left; apply Rinv_0_lt_compat; auto]|].
    apply Rmult_le_reg_r with (x * tcod); auto. unfold Rdiv. rewrite Rmult_assoc, Rinv_l by lra. lra. }
  assert (HLg : spike_log s (lg_output m) = times dt [(step_at dt (t0 + 1 + iv) + step_at dt 2)%nat; o]).
  { apply (se_log _ _ _ _ _ _ _ _ HSe); auto; [lia|ext_simp; reflexivity|cbn; lia|].
    apply Rabs_le2 in O3. rewrite plus_INR in O3. intros i [<-|[<-|[]]]; [rewrite plus_INR|]; lra. }
  eapply (emits_intro _ _ _ _ dt); [auto|auto|exact HLg|exact O2|].
  replace (20 * - ln x / tcod * tcod) with (20 * - ln x) by (field; lra).
  replace (((4 + - ln x) * dt + 80 * dt / (x * tcod)) / tcod * tcod) with ((4 + - ln x) * dt + 80 * dt / (x * tcod)) by (field; lra).
  exact O3.
Qed.
(** x = 0: the logarithm is undefined and only the first output spike appears *)
Theorem log_zero_run (tmin tcod dt t0 T : R) nm ord :
  0 < dt <= 1 / 2 -> 0 < tcod -> 1 + dt <= tmin -> aligned dt tmin -> 0 <= t0 -> ord_ok ord -> t0 + 3 + tmin + 3 * dt <= T ->
  exists m s t,
    session (LogNetwork (DataEncoder tmin tcod) nm) lg_mod (DataEncoder tmin tcod) dt
      (fun m => [SValue 0 (lg_input m) t0]) ord T = Ok (m, s) /\ spike_log s (lg_output m) = [t].
Proof.
  intros [Hdt Hdt2] Htc Htm HA Ht0 HO HT. set (enc := DataEncoder tmin tcod).
  assert (HTc : tcod <> 0) by lra.
  destruct (Log_built enc nm empty_world inv_empty (neq0 _ HTc)) as (m & w & E & HB & HN & HL).
  cbn [w_neurons empty_world length Nat.add] in HN, HL.
  set (stims := fun m => [SValue 0 (lg_input m) t0]).
  pose proof HN as HN'. unfold lg_nodes in HN'. nodes_eqs HN'.
  destruct (session_built (LogNetwork enc nm) lg_mod m w _ enc dt stims ord T E HB Hdt ltac:(lra)) as (s & Es & HSe).
  { stims_ok. } { auto. }
  exists m, s, (INR (step_at dt (t0 + 1 + tmin) + step_at dt 2) * dt). split; [exact Es|].
  set (N := net_of w (exts enc (stims m)) dt) in *. unfold stims in *.
  assert (HA1 : arrs N (lg_input m) 1 [step_at dt (t0 + 1); step_at dt (t0 + 1 + tmin)]).
  { src_solve HSe. do 3 f_equal. unfold enc; cbn [DataEncoder Tmin Tcod]. lra. }
  assert (HM : lg_ins N (1000 / tcod) tmin m).
  { rewrite <- (wbar_R tmin). apply (lg_ins_of N enc m 0); auto. intros n Hn. apply (se_own _ _ _ _ _ _ _ _ HSe).
    - unfold lg_internal in Hn. cbn [In] in Hn. intuition lia.
    - unfold lg_internal in Hn. cbn [In] in Hn. destruct Hn as [<-|[<-|[<-|[<-|[]]]]]; ext_simp; reflexivity. }
  assert (Ha12 : (step_at dt (t0 + 1) + step_at dt 1 <= step_at dt (t0 + 1 + tmin))%nat).
  { apply step_diff_ge; try lra; try apply step_at_ge1. pose proof (step_time dt 1 Hdt ltac:(lra)). lra. }
  pose proof (step_at_ge1 dt (t0 + 1)) as G1. pose proof (step_at_ge1 dt 2) as G2.
  pose proof (step_at_bounds dt (t0 + 1 + tmin) Hdt ltac:(lra)) as BA2. pose proof (step_at_bounds dt 2 Hdt ltac:(lra)) as BD2.
  assert (GD : INR (step_at dt (t0 + 1 + tmin)) * dt - INR (step_at dt (t0 + 1)) * dt = tmin + 0).
  { destruct HA as (p & q & _ & Eq). rewrite Rplus_0_r. eapply grid_diff; eauto; lra. }
  destruct (grid_gap dt tmin 0 _ _ Hdt ltac:(lra) HA GD ltac:(lra)) as [C1 C2].
  destruct (lg_acc_spk N m tcod tmin ltac:(cbn; lra) Htc HM _ _ HA1 G1 Ha12 C1) as (HZ & _). cbn [N net_of t_dt] in HZ. fold N in HZ.
  specialize (HZ ltac:(rewrite Rmult_comm; unfold Rdiv; rewrite Rmult_assoc, (Rmult_comm (/ tcod)), <- Rmult_assoc, (Rmult_comm dt), C2; lra)).
  pose proof (lg_output_one N m tcod tmin HM _ _ HA1 G1 Ha12 C1 HZ) as HOut. cbn [N net_of t_dt] in HOut. fold N in HOut.
  apply (se_log _ _ _ _ _ _ _ _ HSe (lg_output m) [(step_at dt (t0 + 1 + tmin) + step_at dt 2)%nat]); [lia|ext_simp; reflexivity|exact HOut|cbn; lia|].
  intros i [<-|[]]. rewrite plus_INR. lra.
Qed.
