(** SignedMultiplierNormNetwork (C48): the network seen from its input arrivals. *)
From Coq Require Import Arith ZArith Bool List Reals Lra Lia Permutation.
From Verif Require Import Num Heapq Elements Simulator Networks Trace SimTrace SimProps TraceProps NeuronLib NetLib Build BuildNets Bridge MemoryProof GeLib GfLib Session SimpleNets InvMem Misc LnLib FuncNets SegLib SubNet ExpLog MulNet MulRun SMem SignMul SignRun.
Import ListNotations.
Open Scope R_scope.
Open Scope list_scope.

Record sn_ins (N : tnet) (w wa tmin f : R) (m : smultn_net) : Prop := {
  ni_mul : mu_ins N w tmin (sn_mn m);
  ni_sc : sc_ins N wa tmin f (sn_scmn m);
  ni_in1 : ins N (mu_input1 (sn_mn m)) [mks (sn_input1_plus m) (mu_input1 (sn_mn m)) SynV we cTsyn; mks (sn_input1_minus m) (mu_input1 (sn_mn m)) SynV we cTsyn];
  ni_in2 : ins N (mu_input2 (sn_mn m)) [mks (sn_input2_plus m) (mu_input2 (sn_mn m)) SynV we cTsyn; mks (sn_input2_minus m) (mu_input2 (sn_mn m)) SynV we cTsyn];
  ni_s1 : ins N (sn_sign1 m) [mks (sn_input1_plus m) (sn_sign1 m) SynV (quarter we) cTsyn; mks (sn_input2_plus m) (sn_sign1 m) SynV (quarter we) cTsyn;
                              mks (sn_sign2 m) (sn_sign1 m) SynV (half wi) cTsyn; mks (sn_sign3 m) (sn_sign1 m) SynV (half wi) cTsyn];
  ni_s2 : ins N (sn_sign2 m) [mks (sn_input1_minus m) (sn_sign2 m) SynV (quarter we) cTsyn; mks (sn_input2_plus m) (sn_sign2 m) SynV (quarter we) cTsyn;
                              mks (sn_sign1 m) (sn_sign2 m) SynV (half wi) cTsyn; mks (sn_sign4 m) (sn_sign2 m) SynV (half wi) cTsyn];
  ni_s3 : ins N (sn_sign3 m) [mks (sn_input1_plus m) (sn_sign3 m) SynV (quarter we) cTsyn; mks (sn_input2_minus m) (sn_sign3 m) SynV (quarter we) cTsyn;
                              mks (sn_sign1 m) (sn_sign3 m) SynV (half wi) cTsyn; mks (sn_sign4 m) (sn_sign3 m) SynV (half wi) cTsyn];
  ni_s4 : ins N (sn_sign4 m) [mks (sn_input1_minus m) (sn_sign4 m) SynV (quarter we) cTsyn; mks (sn_input2_minus m) (sn_sign4 m) SynV (quarter we) cTsyn;
                              mks (sn_sign2 m) (sn_sign4 m) SynV (half wi) cTsyn; mks (sn_sign3 m) (sn_sign4 m) SynV (half wi) cTsyn];
  ni_scin : ins N (sc_input (sn_scmn m)) [mks (mu_output (sn_mn m)) (sc_input (sn_scmn m)) SynV we cTsyn];
  ni_plus : ins N (sn_output_plus m) [mks (sc_output (sn_scmn m)) (sn_output_plus m) SynV we cTsyn; mks (sn_sign2 m) (sn_output_plus m) SynV (twice wi) cTsyn;
                              mks (sn_sign3 m) (sn_output_plus m) SynV (twice wi) cTsyn];
  ni_minus : ins N (sn_output_minus m) [mks (sc_output (sn_scmn m)) (sn_output_minus m) SynV we cTsyn; mks (sn_sign1 m) (sn_output_minus m) SynV (twice wi) cTsyn;
                              mks (sn_sign4 m) (sn_output_minus m) SynV (twice wi) cTsyn]
}.
Definition sn_in1 (m : smultn_net) (p : bool) := if p then sn_input1_plus m else sn_input1_minus m.
Definition sn_in2 (m : smultn_net) (p : bool) := if p then sn_input2_plus m else sn_input2_minus m.
Definition sn_sign (m : smultn_net) (p1 p2 : bool) := if p1 then (if p2 then sn_sign1 m else sn_sign3 m) else (if p2 then sn_sign2 m else sn_sign4 m).
Definition sn_out (m : smultn_net) (p : bool) := if p then sn_output_plus m else sn_output_minus m.
Lemma sn_sg N w wa tmin f m p1 p2 : sn_ins N w wa tmin f m ->
  sg_ins N (sn_in1 m p1) (sn_in1 m (negb p1)) (sn_in2 m p2) (sn_in2 m (negb p2)) (sn_sign m p1 p2) (sn_sign m p1 (negb p2)) (sn_sign m (negb p1) p2) (sn_sign m (negb p1) (negb p2)).
Proof.
  intros H. destruct p1, p2; cbn [negb sn_in1 sn_in2 sn_sign]; constructor;
  first [apply H | eapply ins_perm; [apply H|do 2 apply perm_skip; apply perm_swap]].
Qed.
(** operands of signs p1, p2 arriving at the input neurons *)
Record sn_at (N : tnet) (m : smultn_net) (p1 p2 : bool) (dt tmin tcod f : R) (i1 i2 j1 j2 : nat) : Prop := {
  na_dt : t_dt N = dt;
  na_dt1 : 0 < dt <= 1 / 2;
  na_tc : 0 < tcod;
  na_tm : 4 * dt <= tmin;
  na_f : 0 < f;
  na_ins : sn_ins N (1000 / tcod) (1000 / (tmin + tcod)) tmin f m;
  na_a : arrs N (sn_in1 m p1) 1 [i1; i2];
  na_a0 : arrs N (sn_in1 m (negb p1)) 1 [];
  na_b : arrs N (sn_in2 m p2) 1 [j1; j2];
  na_b0 : arrs N (sn_in2 m (negb p2)) 1 [];
  na_i1 : (1 <= i1)%nat;
  na_i2 : (i1 + step_at dt 1 <= i2)%nat;
  na_j1 : (1 <= j1)%nat;
  na_j2 : (j1 + step_at dt 1 <= j2)%nat
}.
Section Sn.
Variable N : tnet.
Variable m : smultn_net.
Variables p1 p2 : bool.
Variables dt tmin tcod f : R.
Variables i1 i2 j1 j2 : nat.
Hypothesis HA : sn_at N m p1 p2 dt tmin tcod f i1 i2 j1 j2.
Let D := step_at dt 1.
Let A := Nat.max i2 j2.
Lemma sn_mul : mul_at N (sn_mn m) dt tmin tcod (i1 + D) (i2 + D) (j1 + D) (j2 + D) (i2 + step_at dt 350) (j2 + step_at dt 350).
Proof.
  destruct HA as [HD Hdt Htc Htm Hf HM Ia Ia0 Ib Ib0 A1 A2 B1 B2]. pose proof (step_at_ge1 dt 1) as GD. pose proof (step_at_ge1 dt 350) as GZ.
  assert (I1 : spikes_at N (mu_input1 (sn_mn m)) [i1; i2]).
  { destruct p1; cbn [sn_in1 negb] in Ia, Ia0; eapply relay2; [apply HM|apply Ia|apply Ia0|auto|cbn; lia|apply HM|apply Ia0|apply Ia|auto|cbn; lia]. }
  assert (I2 : spikes_at N (mu_input2 (sn_mn m)) [j1; j2]).
  { destruct p2; cbn [sn_in2 negb] in Ib, Ib0; eapply relay2; [apply HM|apply Ib|apply Ib0|auto|cbn; lia|apply HM|apply Ib0|apply Ib|auto|cbn; lia]. }
  unfold D. constructor; auto; try lia.
  - apply HM.
  - eapply arrs_2; [apply HM|exact I1|rewrite HD; reflexivity|lia|lia|lia].
  - eapply arrs_2; [apply HM|exact I2|rewrite HD; reflexivity|lia|lia|lia].
  - exists (i1 + step_at dt 350)%nat. split; [|lia]. eapply arrs_2; [apply HM|exact I1|rewrite HD; reflexivity|lia|lia|lia].
  - exists (j1 + step_at dt 350)%nat. split; [|lia]. eapply arrs_2; [apply HM|exact I2|rewrite HD; reflexivity|lia|lia|lia].
Qed.
Lemma sn_inhib :
  (forall k, (1 <= k)%nat -> INR (arr N (sn_sign2 m) 1 k) + INR (arr N (sn_sign3 m) 1 k) = cnt k (if Bool.eqb p1 p2 then [] else [(A + D)%nat])) /\
  (forall k, (1 <= k)%nat -> INR (arr N (sn_sign1 m) 1 k) + INR (arr N (sn_sign4 m) 1 k) = cnt k (if Bool.eqb p1 p2 then [(A + D)%nat] else [])).
Proof.
  destruct HA as [HD Hdt Htc Htm Hf HM Ia Ia0 Ib Ib0 A1 A2 B1 B2]. pose proof (step_at_ge1 dt 1) as GD.
  destruct (sg_spk N _ _ _ _ _ _ _ _ _ _ _ _ (sn_sg N _ _ _ _ m p1 p2 HM) Ia Ia0 Ib Ib0 ltac:(lia) ltac:(lia)) as (SP & SA & SB & SZ).
  assert (HI : forall b1 b2, exists L, ins N (sn_sign m b1 b2) L) by (intros b1 b2; destruct b1, b2; cbn [sn_sign]; eexists; apply HM).
  assert (Y1 : arrs N (sn_sign m p1 p2) 1 [(A + D)%nat]).
  { destruct (HI p1 p2) as (L & HL). unfold A, D. eapply arrs_1; [exact HL|exact SP|rewrite HD; reflexivity|lia]. }
  assert (Y0 : forall b1 b2, spikes_at N (sn_sign m b1 b2) [] -> arrs N (sn_sign m b1 b2) 1 []).
  { intros b1 b2 HS. destruct (HI b1 b2) as (L & HL). eapply arrs_0; [exact HL|exact HS]. }
  pose proof (Y0 _ _ SA) as X1. pose proof (Y0 _ _ SB) as X2. pose proof (Y0 _ _ SZ) as X3.
  clear - Y1 X1 X2 X3. clearbody A D.
  destruct p1, p2; cbn [sn_sign negb Bool.eqb] in *; split; intros k Hk;
    rewrite ?(Y1 k Hk), ?(X1 k Hk), ?(X2 k Hk), ?(X3 k Hk), ?cnt_nil; lra.
Qed.
(** the outputs repeat the scaled product, one of them inhibited *)
Lemma sn_outs s1 s2 : spikes_at N (sc_output (sn_scmn m)) [s1; s2] -> (A < s1 < s2)%nat ->
  spikes_at N (sn_out m (Bool.eqb p1 p2)) [(s1 + D)%nat; (s2 + D)%nat] /\ spikes_at N (sn_out m (negb (Bool.eqb p1 p2))) [].
Proof.
  intros HS Hs. destruct sn_inhib as [Jp Jm]. destruct HA as [HD Hdt Htc Htm Hf HM Ia Ia0 Ib Ib0 A1 A2 B1 B2].
  assert (AO : arrs N (sc_output (sn_scmn m)) 1 [(s1 + D)%nat; (s2 + D)%nat]).
  { unfold D. eapply arrs_2; [apply (ci_output _ _ _ _ _ (ni_sc _ _ _ _ _ _ HM))|exact HS|rewrite HD; reflexivity|lia|lia|lia]. }
  pose proof (ni_plus _ _ _ _ _ _ HM) as HP. pose proof (ni_minus _ _ _ _ _ _ HM) as HQ.
  set (O := [(s1 + D)%nat; (s2 + D)%nat]) in *. set (e := Bool.eqb p1 p2) in *. assert (HiA : (1 <= A)%nat) by (unfold A; lia). clearbody A D e.
  assert (EV : forall (c : R) l k, evw (map (fun a => (a, c)) l) k = c * cnt k l) by (intros; rewrite <- evw_map_cnt; reflexivity).
  assert (S1 : spikes_at N (sn_output_plus m) (if e then O else [])).
  { apply (seg_spikes N (sn_output_plus m) (map (fun a => (a, 10)) O ++ map (fun a => (a, -20)) (if e then [] else [(A + D)%nat]))).
    - apply HP.
    - eapply ins_vonly; [apply HP|repeat constructor].
    - clear - Hs HiA. destruct e; unfold O; cbn [map app]; segs_solve.
    - intros k Hk. ev_input HP. specialize (Jp k Hk). specialize (AO k Hk). rewrite evw_app, !EV, <- Jp, <- AO. change cTsyn with 1. netr. lra. }
  assert (S2 : spikes_at N (sn_output_minus m) (if e then [] else O)).
  { apply (seg_spikes N (sn_output_minus m) (map (fun a => (a, 10)) O ++ map (fun a => (a, -20)) (if e then [(A + D)%nat] else []))).
    - apply HQ.
    - eapply ins_vonly; [apply HQ|repeat constructor].
    - clear - Hs HiA. destruct e; unfold O; cbn [map app]; segs_solve.
    - intros k Hk. ev_input HQ. specialize (Jm k Hk). specialize (AO k Hk). rewrite evw_app, !EV, <- Jm, <- AO. change cTsyn with 1. netr. lra. }
  destruct e; cbn [sn_out negb]; auto.
Qed.
(** scaling of the value v carried by the inner product *)
Lemma sn_scale o1 o2 v : spikes_at N (mu_output (sn_mn m)) [o1; o2] -> (A < o1)%nat -> (o1 + D <= o2)%nat ->
  INR o2 * dt - INR o1 * dt = tmin + v * tcod -> 0 <= v <= 1 -> f * v <= 1 -> (3 + 3 * f) * dt <= tmin ->
  (o1 + step_at dt (1 + tmin) <= o2 + D /\ step_at dt 2 = 2 * D)%nat \/ 3 * dt <= v * tcod ->
  exists e1 e2, spikes_at N (sn_out m (Bool.eqb p1 p2)) [e1; e2] /\ spikes_at N (sn_out m (negb (Bool.eqb p1 p2))) [] /\ (o1 < e1 < e2)%nat /\
    INR e1 * dt <= INR o1 * dt + 6 + tmin + (tmin + tcod) / f + 5 * dt /\
    Rabs (INR e2 * dt - INR e1 * dt - (tmin + f * v * tcod)) <= (2 + 3 * f) * dt /\
    (step_at dt 2 = 2 * D -> e1 + step_at dt (1 + tmin) <= e2 + D)%nat.
Proof.
  intros HS Ho Ho2 Hv Hv1 Hfv Htm Hal. pose proof HA as HA'. destruct HA' as [HD [Hdt Hdt2] Htc Htm4 Hf HM _ _ _ _ A1 A2 _ _].
  pose proof (step_at_ge1 dt 1) as GD. fold D in GD.
  assert (AI : arrs N (mu_output (sn_mn m)) 1 [(o1 + D)%nat; (o2 + D)%nat]).
  { unfold D. eapply arrs_2; [apply (ni_mul _ _ _ _ _ _ HM)|exact HS|rewrite HD; reflexivity|lia|lia|lia]. }
  assert (SI : spikes_at N (sc_input (sn_scmn m)) [(o1 + D)%nat; (o2 + D)%nat]).
  { eapply relay; [apply HM| |rewrite cTsyn_R; exact AI|cbn; lia]. netr. lra. }
  assert (AS : arrs N (sc_input (sn_scmn m)) 1 [(o1 + D + D)%nat; (o2 + D + D)%nat]).
  { unfold D at 2 4. eapply arrs_2; [apply HM|exact SI|rewrite HD; reflexivity|lia|lia|lia]. }
  destruct (sc_timing dt tmin tcod v f (o1 + D + D) (o2 + D + D) Hdt Htc Hf Hv1 Hfv Htm) as (C1 & C2 & C3 & C4 & C5).
  { replace (INR (o2 + D + D) * dt - INR (o1 + D + D) * dt - (tmin + v * tcod)) with 0 by (inr; lra). rewrite Rabs_R0. lra. }
  { destruct Hal as [[h1 h2]|h]; [left; fold D; lia|right; lra]. }
  pose proof (sc_output_spk N (sn_scmn m) (tmin + tcod) tmin f) as HOut. rewrite HD in HOut.
  specialize (HOut Hdt ltac:(lra) Hf (ni_sc _ _ _ _ _ _ HM) _ _ AS ltac:(lia) ltac:(fold D; lia)).
  unfold sc_fire2, sc_steps, sc_left, sc_gap, sc_fire1 in HOut. rewrite HD in HOut. fold D in HOut, C1, C2, C3, C4, C5.
  specialize (HOut C1 C2 ltac:(lia)).
  pose proof (step_at_ge1 dt 2) as G2. pose proof (step_at_bounds dt 2 Hdt ltac:(lra)) as BD2. pose proof (step_at_bounds dt 1 Hdt ltac:(lra)) as BD1. fold D in BD1.
  pose proof (step_at_ge1 dt (1 + tmin)) as G3.
  match type of HOut with spikes_at _ _ [?a; ?b] => set (s1 := a) in *; set (s2 := b) in * end.
  assert (Hs : (o1 < s1 < s2)%nat) by (split; [unfold s1; lia|exact C3]).
  destruct (sn_outs s1 s2 HOut ltac:(lia)) as [X1 X2].
  exists (s1 + D)%nat, (s2 + D)%nat. split; auto. split; auto. split; [lia|]. split.
  - unfold s1. rewrite (plus_INR _ D), (plus_INR _ (step_at dt 2)). rewrite (plus_INR (o1 + D) D), (plus_INR o1 D) in C5. lra.
  - split.
    + rewrite !(plus_INR _ D). replace ((INR s2 + INR D) * dt - (INR s1 + INR D) * dt) with (INR s2 * dt - INR s1 * dt) by ring. exact C4.
    + intros E2. unfold s1, s2. match goal with |- context [step_at dt (tmin + tcod - ?x)] => pose proof (step_at_ge1 dt (tmin + tcod - x)) end. clear -H E2 GD. lia.
Qed.
End Sn.
