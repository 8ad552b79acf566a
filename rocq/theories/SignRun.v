(** SignedMultiplierNetwork (C46): whole runs. *)
From Coq Require Import Arith ZArith Bool List Reals Lra Lia Permutation.
From Verif Require Import Num Heapq Elements Simulator Networks Trace SimTrace SimProps TraceProps NeuronLib NetLib Build BuildNets Bridge MemoryProof GeLib GfLib Session SimpleNets InvMem Misc LnLib FuncNets SegLib SubNet ExpLog MulNet MulRun SMem SignMul.
Import ListNotations.
Open Scope R_scope.
Open Scope list_scope.

(** a neuron that repeats two sources, one of them silent *)
Lemma relay2 N n s1 s2 (l1 l2 : list nat) l : ins N n [mks s1 n SynV we cTsyn; mks s2 n SynV we cTsyn] ->
  arrs N s1 1 l1 -> arrs N s2 1 l2 -> (l1 = l /\ l2 = [] \/ l1 = [] /\ l2 = l) -> strict 0 l -> spikes_at N n l.
Proof.
  intros H A1 A2 HL HS. rewrite <- (relay_run 10 l ltac:(lra) 0 HS).
  apply vonly_spikes; [apply H| | |].
  - eapply ins_vonly; eauto; repeat constructor.
  - apply incr_map; auto.
  - intros k Hk. ev_input H. rewrite cTsyn_R, A1, A2 by lia.
    assert (EV : evw (map (fun t => (t, 10)) l) k = 10 * cnt k l) by apply evw_map_cnt.
    rewrite EV. netr. destruct HL as [[-> ->]|[-> ->]]; rewrite cnt_nil; lra.
Qed.
Definition sx_stims (p1 p2 : bool) (x1 x2 ta tb : R) (m : smult_net) : list stim := [SValue x1 (sx_in1 m p1) ta; SValue x2 (sx_in2 m p2) tb].
(** the facts about one run, in steps: i1 < i2 and j1 < j2 the operands' spikes at the inputs of the inner multiplier *)
Record sx_at (N : tnet) (m : smult_net) (p1 p2 : bool) (dt tmin tcod : R) (i1 i2 j1 j2 z1 z2 z3 z4 : nat) : Prop := {
  sa_dt : t_dt N = dt;
  sa_ins : sx_ins N (1000 / tcod) tmin m;
  sa_mul : mul_at N (sx_mn m) dt tmin tcod (i1 + step_at dt 1) (i2 + step_at dt 1) (j1 + step_at dt 1) (j2 + step_at dt 1) (i2 + step_at dt 350) (j2 + step_at dt 350);
  sa_P : spikes_at N (sx_sign m p1 p2) [Nat.max i2 j2];
  sa_A : spikes_at N (sx_sign m p1 (negb p2)) [];
  sa_B : spikes_at N (sx_sign m (negb p1) p2) [];
  sa_Z : spikes_at N (sx_sign m (negb p1) (negb p2)) [];
  sa_i : (1 <= i1 < i2)%nat;
  sa_j : (1 <= j1 < j2)%nat;
  sa_z12 : (1 <= z1 < z2)%nat;
  sa_z34 : (1 <= z3 < z4)%nat;
  sa_zs : forall k, (1 <= k)%nat -> INR (arr N (sx_input1_plus m) 350 k) + INR (arr N (sx_input1_minus m) 350 k) + (INR (arr N (sx_input2_plus m) 350 k) + INR (arr N (sx_input2_minus m) 350 k)) = cnt k [z1; z2; z3; z4]
}.
Lemma sx_sess (tmin tcod x1 x2 dt ta tb T : R) (p1 p2 : bool) nm ord :
  0 < dt <= 1 / 2 -> 0 < tcod -> 1 + dt <= tmin -> 4 * dt <= tmin -> 0 <= x1 <= 1 -> 0 <= x2 <= 1 -> 0 <= ta -> 0 <= tb -> ord_ok ord -> 0 <= T ->
  let iv1 := tmin + x1 * tcod in let iv2 := tmin + x2 * tcod in
  exists m s N, session (SignedMultiplierNetwork (DataEncoder tmin tcod) nm) sx_mod (DataEncoder tmin tcod) dt (sx_stims p1 p2 x1 x2 ta tb) ord T = Ok (m, s) /\
    sx_at N m p1 p2 dt tmin tcod (step_at dt (ta + 1)) (step_at dt (ta + 1 + iv1)) (step_at dt (tb + 1)) (step_at dt (tb + 1 + iv2))
      (step_at dt (ta + 350)) (step_at dt (ta + 350 + iv1)) (step_at dt (tb + 350)) (step_at dt (tb + 350 + iv2)) /\
    (forall b l, strict 0 l -> spikes_at N (sx_out m b) l -> (forall k, In k l -> INR k * dt <= T) -> spike_log s (sx_out m b) = times dt l).
Proof.
  intros [Hdt Hdt2] Htc Htm Htm2 Hx1 Hx2 Hta Htb HO HT. cbv zeta. set (enc := DataEncoder tmin tcod).
  assert (HTc : tcod <> 0) by lra.
  destruct (SignedMultiplier_built enc nm empty_world inv_empty (neq0 _ HTc)) as (m & w & E & HB & HN & HL).
  cbn [w_neurons empty_world length Nat.add] in HN, HL.
  set (stims := sx_stims p1 p2 x1 x2 ta tb).
  pose proof HN as HN'. unfold mu_nodes, sx_own in HN'. cbn [app] in HN'. nodes_eqs HN'.
  destruct (session_built (SignedMultiplierNetwork enc nm) sx_mod m w _ enc dt stims ord T E HB Hdt HT) as (s & Es & HSe).
  { unfold stims, sx_stims, sx_in1, sx_in2. destruct p1, p2; stims_ok. } { auto. }
  set (N := net_of w (exts enc (stims m)) dt) in *. unfold stims, sx_stims in *.
  exists m, s, N. split; [exact Es|].
  set (iv1 := tmin + x1 * tcod) in *. set (iv2 := tmin + x2 * tcod) in *.
  assert (Hxc : forall x, 0 <= x <= 1 -> 0 <= x * tcod <= tcod) by (intros x Hx; split; [apply Rmult_le_pos; lra|rewrite <- (Rmult_1_l tcod) at 2; apply Rmult_le_compat_r; lra]).
  pose proof (Hxc x1 Hx1) as Hc1. pose proof (Hxc x2 Hx2) as Hc2.
  assert (Hiv1 : 1 + dt <= iv1) by (unfold iv1; lra). assert (Hiv2 : 1 + dt <= iv2) by (unfold iv2; lra).
  assert (HG : forall t iv, 0 <= t -> 1 + dt <= iv -> (step_at dt (t + 1) + step_at dt 1 <= step_at dt (t + 1 + iv))%nat).
  { intros t iv Ht Hv. apply step_diff_ge; try lra; try apply step_at_ge1. pose proof (step_time dt 1 Hdt ltac:(lra)). lra. }
  assert (HZ : forall t iv, 0 <= t -> 1 + dt <= iv -> (1 <= step_at dt (t + 350) < step_at dt (t + 350 + iv))%nat).
  { intros t iv Ht Hv. split; [apply step_at_ge1|]. apply (step_diff dt (t + 350) iv Hdt); lra. }
  assert (HI : forall n, In n (sx_internal m) -> (n < 23)%nat /\ ext_spikes (exts enc [SValue x1 (sx_in1 m p1) ta; SValue x2 (sx_in2 m p2) tb]) n = []).
  { intros n Hn. unfold sx_internal, mu_internal in Hn. cbn [In app] in Hn. split; [intuition lia|].
    destruct p1, p2; cbn [sx_in1 sx_in2]; repeat (destruct Hn as [<-|Hn]; [ext_simp; reflexivity|]); destruct Hn. }
  assert (HM : sx_ins N (1000 / tcod) tmin m).
  { rewrite <- (wbar_R tmin). apply (sx_ins_of N enc m 0 HN). intros n Hn. apply (se_own _ _ _ _ _ _ _ _ HSe); [rewrite HL|]; apply HI; auto. }
  assert (HA1 : forall d, arrs N (sx_in1 m p1) d [step_at dt (ta + d); step_at dt (ta + iv1 + d)]).
  { intros d. unfold sx_syns, sign_syns, sout_syns in HSe. destruct p1, p2; cbn [sx_in1 sx_in2] in *; src_solve HSe. }
  assert (HA0 : forall d, arrs N (sx_in1 m (negb p1)) d []).
  { intros d. unfold sx_syns, sign_syns, sout_syns in HSe. destruct p1, p2; cbn [sx_in1 sx_in2 negb] in *; src_solve HSe. }
  assert (HB1 : forall d, arrs N (sx_in2 m p2) d [step_at dt (tb + d); step_at dt (tb + iv2 + d)]).
  { intros d. unfold sx_syns, sign_syns, sout_syns in HSe. destruct p1, p2; cbn [sx_in1 sx_in2] in *; src_solve HSe. }
  assert (HB0 : forall d, arrs N (sx_in2 m (negb p2)) d []).
  { intros d. unfold sx_syns, sign_syns, sout_syns in HSe. destruct p1, p2; cbn [sx_in1 sx_in2 negb] in *; src_solve HSe. }
  assert (Sw : forall t iv d, t + iv + d = t + d + iv) by (intros; lra).
  rewrite Sw in HA1 || setoid_rewrite Sw in HA1. setoid_rewrite Sw in HB1.
  pose proof (HG ta iv1 Hta Hiv1) as G1. pose proof (HG tb iv2 Htb Hiv2) as G2.
  pose proof (step_at_ge1 dt (ta + 1)) as Ga. pose proof (step_at_ge1 dt (tb + 1)) as Gb. pose proof (step_at_ge1 dt 1) as GD. pose proof (step_at_ge1 dt 350) as GZ.
  assert (I1 : spikes_at N (mu_input1 (sx_mn m)) [step_at dt (ta + 1); step_at dt (ta + 1 + iv1)]).
  { destruct p1; cbn [sx_in1 negb] in HA1, HA0; eapply relay2; [apply HM|apply HA1|apply HA0|auto|cbn; lia|apply HM|apply HA0|apply HA1|auto|cbn; lia]. }
  assert (I2 : spikes_at N (mu_input2 (sx_mn m)) [step_at dt (tb + 1); step_at dt (tb + 1 + iv2)]).
  { destruct p2; cbn [sx_in2 negb] in HB1, HB0; eapply relay2; [apply HM|apply HB1|apply HB0|auto|cbn; lia|apply HM|apply HB0|apply HB1|auto|cbn; lia]. }
  destruct (sg_spk N _ _ _ _ _ _ _ _ _ _ _ _ (sx_sg N _ _ m p1 p2 HM) (HA1 1) (HA0 1) (HB1 1) (HB0 1) ltac:(lia) ltac:(lia)) as (SP & SA & SB & SZ).
  split.
  - constructor; auto; try lia.
    + constructor; auto; try lia.
      * apply HM.
      * eapply arrs_2; [apply HM|exact I1|reflexivity|lia|lia|lia].
      * eapply arrs_2; [apply HM|exact I2|reflexivity|lia|lia|lia].
      * exists (step_at dt (ta + 1) + step_at dt 350)%nat. split; [|lia]. eapply arrs_2; [apply HM|exact I1|reflexivity|lia|lia|lia].
      * exists (step_at dt (tb + 1) + step_at dt 350)%nat. split; [|lia]. eapply arrs_2; [apply HM|exact I2|reflexivity|lia|lia|lia].
    + intros k Hk. pose proof (HA1 350 k Hk) as Y1. pose proof (HA0 350 k Hk) as Y2. pose proof (HB1 350 k Hk) as Y3. pose proof (HB0 350 k Hk) as Y4.
      rewrite cnt_nil in Y2, Y4. rewrite !cnt_cons, cnt_nil in *.
      destruct p1, p2; cbn [sx_in1 sx_in2 negb] in *; lra.
  - intros b l HS1 HS2 HS3. apply (se_log _ _ _ _ _ _ _ _ HSe); auto; [rewrite HL|]; apply HI; unfold sx_internal; apply in_or_app; right; destruct b; cbn; tauto.
Qed.
