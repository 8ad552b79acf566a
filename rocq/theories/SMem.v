(** SignedMemoryNetwork (C24). *)
From Coq Require Import Arith ZArith Bool List Reals Lra Lia Permutation.
From Verif Require Import Num Heapq Elements Simulator Networks Trace SimTrace SimProps TraceProps NeuronLib NetLib Build BuildNets Bridge MemoryProof Session SimpleNets InvMem FuncNets SegLib SubNet.
Import ListNotations.
Open Scope R_scope.
Open Scope list_scope.

Lemma ins_perm N n l l' : ins N n l -> Permutation l l' -> ins N n l'.
Proof. intros [A B C] H. constructor; auto. rewrite A. auto. Qed.
(** [sm_ins N m ip iq rp rq op oq]: wiring seen from the used sign p, the other sign being q *)
Record sm_ins (N : tnet) (w : R) (m : smem_net) (ip iq rp rq op oq : nat) : Prop := {
  si_rp : ins N rp [mks ip rp SynV we cTsyn; mks iq rp SynV (quarter we) cTsyn; mks rq rp SynV (half wi) cTsyn; mks (sm_recall m) rp SynV (half we) cTsyn];
  si_rq : ins N rq [mks iq rq SynV we cTsyn; mks ip rq SynV (quarter we) cTsyn; mks rp rq SynV (half wi) cTsyn; mks (sm_recall m) rq SynV (half we) cTsyn];
  si_in : ins N (mm_input (sm_mem m)) [mks ip (mm_input (sm_mem m)) SynV we cTsyn; mks iq (mm_input (sm_mem m)) SynV we cTsyn];
  si_rec : ins N (mm_recall (sm_mem m)) [mks (sm_recall m) (mm_recall (sm_mem m)) SynV we cTsyn];
  si_op : ins N op [mks (mm_output (sm_mem m)) op SynV we cTsyn; mks rq op SynV (twice wi) cTsyn];
  si_oq : ins N oq [mks (mm_output (sm_mem m)) oq SynV we cTsyn; mks rp oq SynV (twice wi) cTsyn];
  si_mem : mem_in N w (sm_mem m)
}.
Section SM.
Variable N : tnet.
Variable m : smem_net.
Variable Tmax : R.
Variables ip iq rp rq op oq : nat.
Let dt := t_dt N.
Hypothesis Hdt : 0 < dt.
Hypothesis HTmax : 0 < Tmax.
Hypothesis HM : sm_ins N (1000 / Tmax) m ip iq rp rq op oq.
Variables a1 a2 r : nat.
Let D1 := step_at dt 1.
Let D2 := step_at dt 2.
Let M := step_at dt Tmax.
Hypothesis Hip : arrs N ip 1 [a1; a2].
Hypothesis Hiq : arrs N iq 1 [].
Hypothesis Hrec : arrs N (sm_recall m) 1 [r].
Hypothesis Ha1 : (1 <= a1)%nat.
Hypothesis Ha2 : (a1 + D1 <= a2)%nat.
Hypothesis Hr1 : (a1 + 2 * D1 + M <= r)%nat.
Hypothesis Hr2 : (a2 + D2 < r)%nat.
Hypothesis HD : (1 <= D1 < D2)%nat.

Lemma sm_in_spk : spikes_at N (mm_input (sm_mem m)) [a1; a2].
Proof.
  pose proof (si_in _ _ _ _ _ _ _ _ _ HM) as H. apply two_spikes; try lia; [apply H|eapply ins_vonly; [eauto|repeat constructor]|].
  intros k Hk. ev_input H. rewrite cTsyn_R, Hip, Hiq by auto. netr. ev_simpl. lra.
Qed.
Lemma sm_rec_spk : spikes_at N (mm_recall (sm_mem m)) [r].
Proof.
  eapply relay; [apply (si_rec _ _ _ _ _ _ _ _ _ HM)|rewrite we_R; lra|rewrite cTsyn_R; exact Hrec|cbn; lia].
Qed.
Lemma sm_mem_spk : spikes_at N (mm_output (sm_mem m)) [(r + D2)%nat; (r + D2 + (a2 - a1))%nat].
Proof.
  pose proof (si_mem _ _ _ _ _ _ _ _ _ HM) as HMm.
  assert (A1 : arrs N (mm_input (sm_mem m)) 1 [(a1 + D1)%nat; (a2 + D1)%nat]).
  { apply (arrs_spikes N (mm_input (sm_mem m)) 1 [a1; a2]); [apply (si_in _ _ _ _ _ _ _ _ _ HM)|apply sm_in_spk| |].
    - intros j [<-|[<-|[]]]; lia.
    - repeat constructor; cbn [In]; intuition lia. }
  assert (A2 : forall d, arrs N (mm_recall (sm_mem m)) d [(r + step_at dt d)%nat]).
  { intros d. apply (arrs_spikes N (mm_recall (sm_mem m)) d [r]); [apply (si_rec _ _ _ _ _ _ _ _ _ HM)|apply sm_rec_spk| |].
    - intros j [<-|[]]; lia.
    - repeat constructor; cbn [In]; intuition lia. }
  pose proof (step_at_ge1 dt Tmax) as GM. fold M in GM.
  pose proof (mem_output N (sm_mem m) Tmax Hdt HTmax HMm _ _ A1 ltac:(lia) ltac:(fold dt D1; lia) _ _ (A2 1) (A2 2)) as HO.
  fold dt D1 D2 in HO. unfold F in HO. fold dt D1 M in HO.
  specialize (HO ltac:(lia) ltac:(lia) ltac:(lia) ltac:(lia)).
  replace (r + D1 + D2 - D1 + (a2 + D1 - (a1 + D1)))%nat with (r + D2 + (a2 - a1))%nat in HO by lia. exact HO.
Qed.
Lemma sm_ready_spk : spikes_at N rp [a1; a2] /\ spikes_at N rq [].
Proof.
  set (Lp := [(a1, 10); (a2, 10); (r, 5)]).
  set (Lq := [(a1, 5/2); (a2, 5/2); ((a1 + D1)%nat, -5); ((a2 + D1)%nat, -5); (r, 5)]).
  set (gp := {| g_n := rp; g_S := [a1; a2]; g_L := Lp |}). set (gq := {| g_n := rq; g_S := []; g_L := Lq |}).
  assert (R : forall g, In g [gp; gq] -> spikes_at N (g_n g) (g_S g)).
  { apply seg_group.
    - intros g [<-|[<-|[]]]; cbn [g_n g_S g_L gp gq]; (split; [apply HM|split; [eapply ins_vonly; [apply HM|repeat constructor]|]]).
      + unfold Lp. segs_solve.
      + unfold Lq. segs_solve.
    - intros K HK.
      assert (Ap : INR (arr N rp 1 (S K)) = cnt (S K) [(a1 + D1)%nat; (a2 + D1)%nat]).
      { apply (arr_upto N rp 1 [a1; a2] K); auto.
        - apply (si_rp _ _ _ _ _ _ _ _ _ HM).
        - intros j Hj. apply (HK gp); auto. left; auto.
        - intros j [<-|[<-|[]]]; lia.
        - repeat constructor; cbn [In]; intuition lia. }
      assert (Aq : INR (arr N rq 1 (S K)) = cnt (S K) []).
      { apply (arr_upto N rq 1 [] K); auto.
        - apply (si_rq _ _ _ _ _ _ _ _ _ HM).
        - intros j Hj. apply (HK gq); auto. right; left; auto.
        - intros j [].
        - constructor. }
      intros g [<-|[<-|[]]]; cbn [g_n g_S g_L gp gq].
      + ev_input (si_rp _ _ _ _ _ _ _ _ _ HM). rewrite cTsyn_R, Hip, Hiq, Hrec, Aq by lia. unfold Lp. netr. autorewrite with netR. ev_simpl. lra.
      + ev_input (si_rq _ _ _ _ _ _ _ _ _ HM). rewrite cTsyn_R, Hip, Hiq, Hrec, Ap by lia. unfold Lq. netr. autorewrite with netR. ev_simpl. lra. }
  split; [apply (R gp)|apply (R gq)]; cbn [In]; auto.
Qed.
Lemma sm_out_spk : spikes_at N op [(r + D2 + D1)%nat; (r + D2 + (a2 - a1) + D1)%nat] /\ spikes_at N oq [].
Proof.
  destruct sm_ready_spk as [Rp Rq].
  assert (AO : arrs N (mm_output (sm_mem m)) 1 [(r + D2 + D1)%nat; (r + D2 + (a2 - a1) + D1)%nat]).
  { apply (arrs_spikes N (mm_output (sm_mem m)) 1 [(r + D2)%nat; (r + D2 + (a2 - a1))%nat]);
      [apply (mi_output _ _ _ (si_mem _ _ _ _ _ _ _ _ _ HM))|apply sm_mem_spk| |].
    - intros j [<-|[<-|[]]]; lia.
    - repeat constructor; cbn [In]; intuition lia. }
  assert (AP : arrs N rp 1 [(a1 + D1)%nat; (a2 + D1)%nat]).
  { apply (arrs_spikes N rp 1 [a1; a2]); [apply (si_rp _ _ _ _ _ _ _ _ _ HM)|auto| |].
    - intros j [<-|[<-|[]]]; lia.
    - repeat constructor; cbn [In]; intuition lia. }
  assert (AQ : arrs N rq 1 []).
  { apply (arrs_spikes N rq 1 []); [apply (si_rq _ _ _ _ _ _ _ _ _ HM)|auto| |]; [intros j []|constructor]. }
  pose proof (si_op _ _ _ _ _ _ _ _ _ HM) as H1. pose proof (si_oq _ _ _ _ _ _ _ _ _ HM) as H2.
  split.
  - apply two_spikes; try lia; [apply H1|eapply ins_vonly; [eauto|repeat constructor]|].
    intros k Hk. ev_input H1. rewrite cTsyn_R, AO, AQ by auto. netr. autorewrite with netR. ev_simpl. lra.
  - apply (seg_spikes N oq [((r + D2 + D1)%nat, 10); ((r + D2 + (a2 - a1) + D1)%nat, 10); ((a1 + D1)%nat, -20); ((a2 + D1)%nat, -20)]);
      [apply H2|eapply ins_vonly; [eauto|repeat constructor]|segs_solve|].
    intros k Hk. ev_input H2. rewrite cTsyn_R, AO, AP by auto. netr. autorewrite with netR. ev_simpl. lra.
Qed.
End SM.
Definition sm_internal (m : smem_net) := [sm_ready_pos m; sm_ready_neg m; sm_output_pos m; sm_output_neg m; sm_ready m; mm_input (sm_mem m); mm_recall (sm_mem m)] ++ mm_internal (sm_mem m).
Lemma sm_ins_of N enc m (pos : bool) b : sm_own m ++ mm_nodes (sm_mem m) = seq b 16 -> (forall n, In n (sm_internal m) -> own N (sm_syns enc m) n) ->
  if pos then sm_ins N (wacc_of enc) m (sm_input_pos m) (sm_input_neg m) (sm_ready_pos m) (sm_ready_neg m) (sm_output_pos m) (sm_output_neg m)
  else sm_ins N (wacc_of enc) m (sm_input_neg m) (sm_input_pos m) (sm_ready_neg m) (sm_ready_pos m) (sm_output_neg m) (sm_output_pos m).
Proof.
  intros HN HO. unfold sm_own, mm_nodes in HN. cbn [app] in HN. nodes_eqs HN. unfold sm_internal, mm_internal in HO. cbn [app] in HO. unfold sm_syns in HO.
  assert (HMm : mem_in N (wacc_of enc) (sm_mem m)) by (constructor; own_solve HO).
  destruct pos; constructor; auto; try (own_solve HO).
  eapply ins_perm; [|apply perm_swap]. own_solve HO.
Qed.
Theorem signed_memory_run (tmin tcod x dt t0 tr T : R) nm ord (pos : bool) :
  0 < dt <= 1 / 2 -> 0 < tcod -> 1 + dt <= tmin -> 0 <= x <= 1 -> 0 <= t0 -> ord_ok ord ->
  t0 + 2 + (tmin + tcod) + 4 * dt <= tr -> tr + (tmin + tcod) + 4 + 4 * dt <= T ->
  exists m s,
    session (SignedMemoryNetwork (DataEncoder tmin tcod) nm) sm_mod (DataEncoder tmin tcod) dt
      (fun m => [SValue x (if pos then sm_input_pos m else sm_input_neg m) t0; SSpike (sm_recall m) tr]) ord T = Ok (m, s) /\
    let out := if pos then sm_output_pos m else sm_output_neg m in
    let other := if pos then sm_output_neg m else sm_output_pos m in
    emits s out (DataEncoder tmin tcod) x (dt / tcod) /\
    (forall q, tmin + x * tcod = INR q * dt -> emits s out (DataEncoder tmin tcod) x 0) /\
    spike_log s other = [].
Proof.
  intros [Hdt Hdt2] Htc Htm Hx Ht0 HO Htr HT. set (enc := DataEncoder tmin tcod).
  assert (HTm : tmin + tcod <> 0) by lra.
  destruct (SignedMemory_built enc nm empty_world inv_empty (neq0 _ HTm)) as (m & w & E & HB & HN & HL).
  cbn [w_neurons empty_world length Nat.add] in HN, HL.
  set (stims := fun m => [SValue x (if pos then sm_input_pos m else sm_input_neg m) t0; SSpike (sm_recall m) tr]).
  pose proof HN as HN'. unfold sm_own, mm_nodes in HN'. cbn [app] in HN'. nodes_eqs HN'.
  destruct (session_built (SignedMemoryNetwork enc nm) sm_mod m w _ enc dt stims ord T E HB Hdt ltac:(lra)) as (s & Es & HSe).
  { unfold stims. destruct pos; stims_ok. } { auto. }
  exists m, s. split; [exact Es|]. cbv zeta.
  set (N := net_of w (exts enc (stims m)) dt) in *.
  set (iv := tmin + x * tcod) in *. unfold stims in *.
  assert (Hxc : 0 <= x * tcod <= tcod) by (split; [apply Rmult_le_pos; lra|rewrite <- (Rmult_1_l tcod) at 2; apply Rmult_le_compat_r; lra]).
  assert (Hiv : 1 + dt <= iv <= tmin + tcod) by (unfold iv; lra).
  unfold sm_syns in HSe.
  assert (HA1 : arrs N (if pos then sm_input_pos m else sm_input_neg m) 1 [step_at dt (t0 + 1); step_at dt (t0 + 1 + iv)]).
  { destruct pos; src_solve HSe; do 3 f_equal; fold iv; unfold enc; cbn [DataEncoder Tmin Tcod]; unfold iv; lra. }
  assert (HA0 : arrs N (if pos then sm_input_neg m else sm_input_pos m) 1 []).
  { destruct pos; src_solve HSe. }
  assert (HR1 : arrs N (sm_recall m) 1 [step_at dt (tr + 1)]).
  { destruct pos; src_solve HSe. }
  assert (HI : forall n, In n (sm_internal m) -> (n < 16)%nat /\ ext_spikes (exts enc [SValue x (if pos then sm_input_pos m else sm_input_neg m) t0; SSpike (sm_recall m) tr]) n = []).
  { intros n Hn. unfold sm_internal, mm_internal in Hn. cbn [In app] in Hn. split; [intuition lia|].
    destruct pos; repeat destruct Hn as [<-|Hn]; try destruct Hn; ext_simp; reflexivity. }
  assert (HMs := sm_ins_of N enc m pos 0 HN).
  specialize (HMs ltac:(intros n Hn; apply (se_own _ _ _ _ _ _ _ _ HSe); [rewrite HL|]; apply HI; auto)).
  set (ip := if pos then sm_input_pos m else sm_input_neg m) in *. set (iq := if pos then sm_input_neg m else sm_input_pos m) in *.
  set (rp := if pos then sm_ready_pos m else sm_ready_neg m). set (rq := if pos then sm_ready_neg m else sm_ready_pos m).
  set (op := if pos then sm_output_pos m else sm_output_neg m). set (oq := if pos then sm_output_neg m else sm_output_pos m).
  assert (HM : sm_ins N (1000 / (tmin + tcod)) m ip iq rp rq op oq).
  { rewrite <- wacc_R. unfold ip, iq, rp, rq, op, oq. destruct pos; exact HMs. }
  assert (Hop : In op (sm_internal m)) by (unfold op, sm_internal; destruct pos; cbn; tauto).
  assert (Hoq : In oq (sm_internal m)) by (unfold oq, sm_internal; destruct pos; cbn; tauto).
  clearbody ip iq rp rq op oq. clear HMs.
  destruct (step_diff dt (t0 + 1) iv Hdt ltac:(lra) ltac:(lra)) as (Q1 & Q2 & _).
  assert (GD : forall q, iv = INR q * dt -> INR (step_at dt (t0 + 1 + iv)) * dt - INR (step_at dt (t0 + 1)) * dt = iv)
    by (intros q Eq; eapply grid_diff; eauto; lra).
  assert (Ha12 : (step_at dt (t0 + 1) + step_at dt 1 <= step_at dt (t0 + 1 + iv))%nat).
  { apply step_diff_ge; try lra; try apply step_at_ge1. pose proof (step_time dt 1 Hdt ltac:(lra)). unfold iv. lra. }
  pose proof (step_at_bounds dt 1 Hdt ltac:(lra)) as BD1. pose proof (step_at_bounds dt 2 Hdt ltac:(lra)) as BD2.
  pose proof (step_at_bounds dt (t0 + 1) Hdt ltac:(lra)) as BA1. pose proof (step_at_bounds dt (t0 + 1 + iv) Hdt ltac:(lra)) as BA2.
  pose proof (step_at_bounds dt (tr + 1) Hdt ltac:(lra)) as BR1. pose proof (step_at_bounds dt (tmin + tcod) Hdt ltac:(lra)) as BM.
  pose proof (step_at_ge1 dt (t0 + 1)) as G1. pose proof (step_at_ge1 dt 1) as G2.
  pose proof (step_at_ge1 dt (tmin + tcod)) as G4.
  assert (HDD : (1 <= step_at dt 1 < step_at dt 2)%nat).
  { split; auto. nat_lt dt Hdt. lra. }
  set (a1 := step_at dt (t0 + 1)) in *. set (a2 := step_at dt (t0 + 1 + iv)) in *. set (r := step_at dt (tr + 1)) in *.
  assert (X1 : (a1 + 2 * step_at dt 1 + step_at dt (tmin + tcod) <= r)%nat) by (nat_le dt Hdt; lra).
  assert (X2 : (a2 + step_at dt 2 < r)%nat) by (nat_lt dt Hdt; unfold iv in *; lra).
  destruct (sm_out_spk N m (tmin + tcod) ip iq rp rq op oq Hdt ltac:(lra) HM a1 a2 r HA1 HA0 HR1 G1 Ha12 X1 X2 HDD) as [S1 S2].
  cbn [N net_of t_dt] in S1. fold N in S1.
  set (o1 := (r + step_at dt 2 + step_at dt 1)%nat) in *. set (o2 := (r + step_at dt 2 + (a2 - a1) + step_at dt 1)%nat) in *.
  assert (EI : INR o2 * dt - INR o1 * dt = INR a2 * dt - INR a1 * dt) by (unfold o1, o2; inr; lra).
  assert (HLg : spike_log s op = times dt [o1; o2]).
  { apply (se_log _ _ _ _ _ _ _ _ HSe); auto; [rewrite HL; apply HI; auto|apply HI; auto|cbn; unfold o1, o2; lia|].
    apply Rabs_def2 in Q2. assert (INR o1 * dt <= tr + 4 + 3 * dt) by (unfold o1; inr; lra). unfold iv in *.
    intros j [<-|[<-|[]]]; lra. }
  assert (HLq : spike_log s oq = []).
  { apply (se_log _ _ _ _ _ _ _ _ HSe oq []); auto; [rewrite HL; apply HI; auto|apply HI; auto|cbn; auto|intros j []]. }
  assert (Ho12 : (o1 < o2)%nat) by (unfold o1, o2; lia).
  split; [|split; auto].
  - eapply (emits_intro _ _ _ _ dt o1 o2); auto. rewrite EI. replace (dt / tcod * tcod) with dt by (field; lra). fold iv. lra.
  - intros q Eq. eapply (emits_exact _ _ _ _ dt o1 o2); eauto. rewrite EI. fold iv. rewrite (GD q Eq). auto.
Qed.
