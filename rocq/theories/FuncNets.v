(** ScalarMultiplierNetwork (C27). *)
From Coq Require Import Arith ZArith Bool List Reals Lra Lia Permutation.
From Verif Require Import Num Heapq Elements Simulator Networks Trace SimTrace SimProps TraceProps NeuronLib NetLib Build BuildNets Bridge MemoryProof GeLib GfLib Session SimpleNets InvMem.
Import ListNotations.
Open Scope R_scope.
Open Scope list_scope.

Lemma Rabs_le2 a b : Rabs a <= b -> - b <= a <= b.
Proof. intros H. unfold Rabs in H. destruct (Rcase_abs a); lra. Qed.

(** synaptic delay Tsyn = 1 and Tmin are whole numbers of timesteps *)
Definition aligned (dt tmin : R) : Prop := exists p q, 1 = INR p * dt /\ tmin = INR q * dt.
Lemma aligned_steps dt tmin : 0 < dt -> 0 < tmin -> aligned dt tmin -> exists p q,
  step_at dt 1 = p /\ step_at dt 2 = (2 * p)%nat /\ step_at dt 3 = (3 * p)%nat /\ step_at dt (1 + tmin) = (p + q)%nat /\ 1 = INR p * dt /\ tmin = INR q * dt.
Proof.
  intros Hdt Htm (p & q & Ep & Eq). exists p, q.
  assert (p <> 0)%nat by (intros ->; cbn in Ep; lra). assert (q <> 0)%nat by (intros ->; cbn in Eq; lra).
  refine (conj _ (conj _ (conj _ (conj _ (conj Ep Eq))))).
  - rewrite Ep at 1. apply step_at_grid; auto. lia.
  - replace 2 with (INR (2 * p) * dt) by (rewrite mult_INR; cbn [INR]; lra). apply step_at_grid; auto. lia.
  - replace 3 with (INR (3 * p) * dt) by (rewrite mult_INR; cbn [INR]; lra). apply step_at_grid; auto. lia.
  - replace (1 + tmin) with (INR (p + q) * dt) by (rewrite plus_INR; lra). apply step_at_grid; auto. lia.
Qed.
Lemma steps_aligned_gap dt tmin x d : 0 < dt -> 0 < tmin -> aligned dt tmin -> 0 < x -> 0 <= d ->
  (step_at dt x + step_at dt (1 + tmin) <= step_at dt (x + (tmin + d)) + step_at dt 1)%nat.
Proof.
  intros Hdt Htm HA Hx Hd. destruct (aligned_steps dt tmin Hdt Htm HA) as (p & q & E1 & _ & _ & E3 & Ep & Eq).
  rewrite E1, E3. replace (x + (tmin + d)) with (x + d + INR q * dt) by lra. rewrite step_exact by lra.
  assert (step_at dt x <= step_at dt (x + d))%nat by (apply step_at_mono; lra). lia.
Qed.

Record sc_ins (N : tnet) (w tmin f : R) (m : smul_net) : Prop := {
  ci_first : ins N (sc_first m) [mks (sc_input m) (sc_first m) SynV we cTsyn; mks (sc_first m) (sc_first m) SynV wi cTsyn];
  ci_last : ins N (sc_last m) [mks (sc_input m) (sc_last m) SynV (half we) cTsyn];
  ci_acc : ins N (sc_acc m) [mks (sc_first m) (sc_acc m) SynGe (f * w) (nadd cTsyn tmin)];
  ci_acc2 : ins N (sc_acc2 m) [mks (sc_last m) (sc_acc2 m) SynGe (f * w) (twice cTsyn);
                               mks (sc_acc m) (sc_acc2 m) SynGe (nopp (f * w)) cTsyn;
                               mks (sc_acc m) (sc_acc2 m) SynGe w cTsyn];
  ci_output : ins N (sc_output m) [mks (sc_acc2 m) (sc_output m) SynV we (nadd cTsyn tmin);
                                   mks (sc_acc m) (sc_output m) SynV we (twice cTsyn)]
}.
Section ScMul.
Variable N : tnet.
Variable m : smul_net.
Variables Tmax tmin f : R.
Let dt := t_dt N.
Hypothesis Hdt : 0 < dt.
Hypothesis HTmax : 0 < Tmax.
Hypothesis Hf : 0 < f.
Hypothesis HM : sc_ins N (1000 / Tmax) tmin f m.
Variables a1 a2 : nat.
Let D1 := step_at dt 1.
Let D2 := step_at dt 2.
Let Dm := step_at dt (1 + tmin).
Let M := step_at dt (Tmax / f).
Hypothesis Hin : arrs N (sc_input m) 1 [a1; a2].
Hypothesis Ha1 : (1 <= a1)%nat.
Hypothesis Ha2 : (a1 + D1 <= a2)%nat.
Definition sc_fire1 : nat := (a1 + Dm - 1 + M)%nat.
Definition sc_gap : nat := (sc_fire1 + D1 - (a2 + D2))%nat.
Definition sc_left : R := Tmax - f * (INR sc_gap * dt).
Definition sc_steps : nat := step_at dt sc_left.
Hypothesis Hbe : (a2 + D2 <= sc_fire1 + D1)%nat.
Hypothesis Hleft : 0 < sc_left.

Lemma sc_first_spk : spikes_at N (sc_first m) [a1].
Proof. eapply first_spikes; [apply (ci_first _ _ _ _ _ HM)|rewrite cTsyn_R; eauto|auto|auto]. Qed.
Lemma sc_last_spk : spikes_at N (sc_last m) [a2].
Proof.
  eapply last_spikes; [apply (ci_last _ _ _ _ _ HM)|rewrite cTsyn_R; eauto|auto|]. pose proof (step_at_ge1 dt 1). fold D1 in H. lia.
Qed.
Lemma sc_acc_spk : spikes_at N (sc_acc m) [sc_fire1].
Proof.
  pose proof (ci_acc _ _ _ _ _ HM) as H. pose proof (step_at_ge1 dt (1 + tmin)) as G2. fold Dm in G2.
  pose proof (step_at_ge1 dt (Tmax / f)) as G3. fold M in G3.
  assert (V : forall k, vlin [((a1 + Dm)%nat, f * (1000 / Tmax))] k = 1000 / (Tmax / f) * IZR (Z.of_nat (S k - (a1 + Dm)))).
  { intros k. rewrite !vlin_cons, vlin_nil, <- !INR_IZR_INZ. field. lra. }
  assert (HTf : 0 < Tmax / f) by (apply Rmult_lt_0_compat; auto; apply Rinv_0_lt_compat; auto).
  apply (geonly_once N (sc_acc m) [((a1 + Dm)%nat, f * (1000 / Tmax))]).
  - apply H.
  - eapply ins_geonly; eauto; repeat constructor.
  - evb.
  - unfold sc_fire1. lia.
  - intros k Hk. ev_input H.
    rewrite (arrs_1 N _ _ _ Dm a1 (ci_first _ _ _ _ _ HM) sc_first_spk); auto. ev_simpl. lra.
  - intros k Hk. fold dt. rewrite V. apply unit_lt; auto. fold M. unfold sc_fire1 in Hk. lia.
  - fold dt. rewrite V. apply unit_ge; auto. fold M. unfold sc_fire1. lia.
  - unfold sc_fire1. evb.
Qed.
Definition sc_fire2 : nat := (sc_fire1 + D1 - 1 + sc_steps)%nat.
Lemma sc_acc2_spk : spikes_at N (sc_acc2 m) [sc_fire2].
Proof.
  pose proof (ci_acc2 _ _ _ _ _ HM) as H. pose proof (step_at_ge1 dt 1) as G1. fold D1 in G1. pose proof (step_at_ge1 dt (1 + tmin)) as G2. fold Dm in G2.
  pose proof (step_at_ge1 dt (Tmax / f)) as G3. fold M in G3. pose proof (step_at_ge1 dt 2) as G4. fold D2 in G4.
  assert (HF1 : (1 <= sc_fire1)%nat) by (unfold sc_fire1; lia).
  pose proof (step_at_ge1 dt sc_left) as G5. fold sc_steps in G5.
  pose proof (step_at_bounds dt sc_left Hdt Hleft) as [BL1 BL2]. fold sc_steps in BL1, BL2.
  set (e := (sc_fire1 + D1)%nat) in *. set (b := (a2 + D2)%nat) in *. set (w := 1000 / Tmax).
  set (L := [(b, f * w); (e, - (f * w)); (e, w)]).
  assert (Hw : dt / 100 * w = 10 * (dt / Tmax)) by (unfold w; field; lra).
  assert (Hdq : 0 < dt / Tmax) by (apply Rmult_lt_0_compat; auto; apply Rinv_0_lt_compat; auto).
  assert (EG : sc_gap = (e - b)%nat) by reflexivity.
  assert (EL : sc_left = Tmax - f * (INR (e - b) * dt)) by (unfold sc_left; rewrite EG; reflexivity).
  assert (EF : sc_fire2 = (e - 1 + sc_steps)%nat) by reflexivity.
  assert (TH : forall y, y * dt < Tmax -> y * (dt / 100 * w) < 10).
  { intros y Hy. rewrite Hw. assert (y * (dt / Tmax) < 1); [|lra]. apply Rmult_lt_reg_r with Tmax; auto.
    replace (y * (dt / Tmax) * Tmax) with (y * dt) by (field; lra). lra. }
  assert (TG : forall y, Tmax <= y * dt -> 10 <= y * (dt / 100 * w)).
  { intros y Hy. rewrite Hw. assert (1 <= y * (dt / Tmax)); [|lra]. apply Rmult_le_reg_r with Tmax; auto.
    replace (y * (dt / Tmax) * Tmax) with (y * dt) by (field; lra). lra. }
  assert (V : forall k, dt / 100 * vlin L k = (f * INR (S k - b) - f * INR (S k - e) + INR (S k - e)) * (dt / 100 * w)).
  { intros k. unfold L. rewrite !vlin_cons, vlin_nil. lra. }
  apply (geonly_once N (sc_acc2 m) L).
  - apply H.
  - eapply ins_geonly; eauto; repeat constructor.
  - unfold L. evb.
  - unfold sc_fire2. lia.
  - intros k Hk. ev_input H.
    rewrite (arrs_1 N _ _ _ D2 a2 (ci_last _ _ _ _ _ HM) sc_last_spk), (arrs_1 N _ _ _ D1 sc_fire1 (ci_acc _ _ _ _ _ HM) sc_acc_spk); auto; try lia;
      try (autorewrite with netR; rewrite ?Rmult_1_r; reflexivity).
    unfold L, w. netr. ev_simpl. fold e b. lra.
  - intros k Hk. fold dt. rewrite V. apply TH. rewrite EF in Hk.
    destruct (Nat.lt_ge_cases k e) as [Hke|Hke].
    + replace (S k - e)%nat with 0%nat by lia. cbn [INR].
      assert (INR (S k - b) <= INR (e - b)) by (apply le_INR; lia).
      assert (f * (INR (S k - b) * dt) <= f * (INR (e - b) * dt)) by (apply Rmult_le_compat_l; [lra|apply Rmult_le_compat_r; lra]). lra.
    + replace (S k - b)%nat with ((e - b) + (S k - e))%nat by lia. rewrite plus_INR.
      assert (INR (S k - e) <= INR sc_steps - 1).
      { change 1 with (INR 1). rewrite <- minus_INR by lia. apply le_INR. lia. }
      assert (INR (S k - e) * dt <= INR sc_steps * dt - dt) by nra. lra.
  - fold dt. rewrite V. apply TG. rewrite EF. replace (S (e - 1 + sc_steps) - e)%nat with sc_steps by lia.
    replace (S (e - 1 + sc_steps) - b)%nat with ((e - b) + sc_steps)%nat by lia. rewrite plus_INR. lra.
  - rewrite EF. unfold L. evb.
Qed.
Theorem sc_output_spk : (sc_fire1 + D2 <> sc_fire2 + Dm)%nat ->
  spikes_at N (sc_output m) [(sc_fire1 + D2)%nat; (sc_fire2 + Dm)%nat].
Proof.
  intros Hne. pose proof (ci_output _ _ _ _ _ HM) as H. pose proof (step_at_ge1 dt 1) as G1. fold D1 in G1.
  pose proof (step_at_ge1 dt (Tmax / f)) as G3. fold M in G3. pose proof (step_at_ge1 dt sc_left) as G5. fold sc_steps in G5.
  apply two_spikes; auto; [apply H| |unfold sc_fire1; lia|unfold sc_fire2; lia|].
  - eapply ins_vonly; eauto; repeat constructor.
  - intros k Hk. ev_input H.
    rewrite (arrs_1 N _ _ _ Dm sc_fire2 (ci_acc2 _ _ _ _ _ HM) sc_acc2_spk), (arrs_1 N _ _ _ D2 sc_fire1 (ci_acc _ _ _ _ _ HM) sc_acc_spk); auto;
      try (unfold sc_fire2, sc_fire1; lia); try (autorewrite with netR; rewrite ?Rmult_1_r; reflexivity).
    netr. ev_simpl. lra.
Qed.
End ScMul.

Definition sc_internal (m : smul_net) := [sc_first m; sc_last m; sc_acc m; sc_acc2 m; sc_output m].
Lemma sc_ins_of N enc f m b : sc_nodes m = seq b 6 -> (forall n, In n (sc_internal m) -> own N (sc_syns enc f m) n) -> sc_ins N (wacc_of enc) (Tmin enc) f m.
Proof. intros HN HO. unfold sc_nodes in HN. nodes_eqs HN. unfold sc_internal in HO. constructor; own_solve HO. Qed.

(** timing of the scalar multiplier for an input pair arriving at a1, a2 *)
Lemma sc_timing dt tmin tcod x f (a1 a2 : nat) : 0 < dt -> 0 < tcod -> 0 < f -> 0 <= x <= 1 -> f * x <= 1 -> (3 + 3 * f) * dt <= tmin ->
  Rabs (INR a2 * dt - INR a1 * dt - (tmin + x * tcod)) < dt ->
  (a1 + step_at dt (1 + tmin) <= a2 + step_at dt 1 /\ step_at dt 2 = 2 * step_at dt 1)%nat \/ 3 * dt <= x * tcod ->
  let D1 := step_at dt 1 in let D2 := step_at dt 2 in let Dm := step_at dt (1 + tmin) in let M := step_at dt ((tmin + tcod) / f) in
  let F := (a1 + Dm - 1 + M)%nat in let gap := (F + D1 - (a2 + D2))%nat in let left := tmin + tcod - f * (INR gap * dt) in
  (a2 + D2 <= F + D1)%nat /\ 0 < left /\
  (F + D2 < F + D1 - 1 + step_at dt left + Dm)%nat /\
  Rabs (INR (F + D1 - 1 + step_at dt left + Dm) * dt - INR (F + D2) * dt - (tmin + f * x * tcod)) <= (2 + 3 * f) * dt /\
  INR F * dt < INR a1 * dt + 1 + tmin + (tmin + tcod) / f + dt.
Proof.
  intros Hdt Htc Hf Hx Hfx Htm Ha HA. cbv zeta.
  set (Tm := tmin + tcod).
  assert (Hfd : 0 < f * dt) by (apply Rmult_lt_0_compat; auto).
  assert (HTm : 0 < Tm) by (unfold Tm; lra).
  assert (HTf : 0 < Tm / f) by (apply Rmult_lt_0_compat; auto; apply Rinv_0_lt_compat; auto).
  pose proof (step_at_bounds dt 1 Hdt ltac:(lra)) as BD1. pose proof (step_at_bounds dt 2 Hdt ltac:(lra)) as BD2.
  pose proof (step_at_bounds dt (1 + tmin) Hdt ltac:(lra)) as BDm. pose proof (step_at_bounds dt (Tm / f) Hdt HTf) as BM.
  pose proof (step_at_ge1 dt 1) as G1. pose proof (step_at_ge1 dt (1 + tmin)) as G2. pose proof (step_at_ge1 dt (Tm / f)) as G3.
  set (D1 := step_at dt 1) in *. set (D2 := step_at dt 2) in *. set (Dm := step_at dt (1 + tmin)) in *. set (M := step_at dt (Tm / f)) in *.
  apply Rabs_def2 in Ha.
  assert (Hxt : 0 <= x * tcod) by (apply Rmult_le_pos; lra).
  assert (Hfxt : f * x * tcod <= tcod) by (rewrite <- (Rmult_1_l tcod) at 2; apply Rmult_le_compat_r; lra).
  assert (ETf : f * (Tm / f) = Tm) by (field; lra).
  assert (Hfb : Tm / f - x * tcod >= 3 * dt).
  { apply Rle_ge. apply Rmult_le_reg_l with f; auto. rewrite Rmult_minus_distr_l, ETf. unfold Tm. lra. }
  set (F := (a1 + Dm - 1 + M)%nat).
  assert (EF : INR F * dt = INR a1 * dt + INR Dm * dt - dt + INR M * dt) by (unfold F; inr; lra).
  assert (C1 : (a2 + D2 <= F + D1)%nat) by (nat_le dt Hdt; lra).
  assert (EG : INR (F + D1 - (a2 + D2)) * dt = INR F * dt + INR D1 * dt - INR a2 * dt - INR D2 * dt) by (inr; lra).
  set (gap := (F + D1 - (a2 + D2))%nat) in *.
  assert (HG : Tm / f - x * tcod - 3 * dt <= INR gap * dt <= Tm / f - x * tcod + 3 * dt) by lra.
  assert (HG' : Tm - f * x * tcod - 3 * f * dt <= f * (INR gap * dt) <= Tm - f * x * tcod + 3 * f * dt).
  { split; (eapply Rle_trans; [|apply Rmult_le_compat_l; [lra|apply HG]]) || (eapply Rle_trans; [apply Rmult_le_compat_l; [lra|apply HG]|]); 
      rewrite ?Rmult_plus_distr_l, ?Rmult_minus_distr_l, ETf; lra. }
  assert (HL : 0 < Tm - f * (INR gap * dt)).
  { destruct HA as [HA|HA].
    - assert (gap <= M - 1)%nat by (unfold gap, F; lia).
      assert (INR gap * dt <= INR M * dt - dt). { apply Rle_trans with (INR (M - 1) * dt); [apply Rmult_le_compat_r; [lra|apply le_INR; auto]|inr; lra]. }
      assert (f * (INR gap * dt) < f * (Tm / f)) by (apply Rmult_lt_compat_l; lra). lra.
    - destruct HG as [_ HG]. 
      assert (E1 : INR gap * dt < Tm / f - x * tcod + 3 * dt) by lra.
      assert (f * (INR gap * dt) < f * (Tm / f - x * tcod + 3 * dt)) by (apply Rmult_lt_compat_l; lra).
      assert (f * (Tm / f - x * tcod + 3 * dt) <= f * (Tm / f)) by (apply Rmult_le_compat_l; lra). lra. }
  pose proof (step_at_bounds dt _ Hdt HL) as BL. pose proof (step_at_ge1 dt (Tm - f * (INR gap * dt))) as G4.
  set (j := step_at dt (Tm - f * (INR gap * dt))) in *.
  assert (C3 : (F + D2 < F + D1 - 1 + j + Dm)%nat) by (nat_lt dt Hdt; lra).
  assert (C4 : INR F * dt < INR a1 * dt + 1 + tmin + Tm / f + dt) by lra.
  refine (conj C1 (conj HL (conj C3 (conj _ C4)))).
  inr. apply Rabs_le. lra.
Qed.

Theorem scalar_mul_run (tmin tcod f x dt t0 T : R) nm ord :
  0 < dt <= 1 / 2 -> 0 < tcod -> 0 < f -> 1 + dt <= tmin -> (3 + 3 * f) * dt <= tmin -> 0 <= x <= 1 -> f * x <= 1 -> 0 <= t0 -> ord_ok ord ->
  aligned dt tmin \/ 3 * dt <= x * tcod ->
  t0 + 5 + 3 * tmin + (tmin + tcod) / f + tcod + 5 * dt <= T ->
  exists m s,
    session (ScalarMultiplierNetwork f (DataEncoder tmin tcod) nm) sc_mod (DataEncoder tmin tcod) dt
      (fun m => [SValue x (sc_input m) t0]) ord T = Ok (m, s) /\
    emits s (sc_output m) (DataEncoder tmin tcod) (f * x) ((2 + 3 * f) * dt / tcod).
Proof.
  intros [Hdt Hdt2] Htc Hf Htm Htm2 Hx Hfx Ht0 HO HA HT. set (enc := DataEncoder tmin tcod).
  assert (HTm : tmin + tcod <> 0) by lra.
  destruct (ScalarMul_built f enc nm empty_world inv_empty (neq0 _ HTm)) as (m & w & E & HB & HN & HL).
  cbn [w_neurons empty_world length Nat.add] in HN, HL.
  set (stims := fun m => [SValue x (sc_input m) t0]).
  pose proof HN as HN'. unfold sc_nodes in HN'. nodes_eqs HN'.
  assert (HTf : 0 < (tmin + tcod) / f) by (apply Rmult_lt_0_compat; [lra|apply Rinv_0_lt_compat; auto]).
  destruct (session_built (ScalarMultiplierNetwork f enc nm) sc_mod m w _ enc dt stims ord T E HB Hdt ltac:(lra)) as (s & Es & HSe).
  { stims_ok. } { auto. }
  exists m, s. split; [exact Es|].
  set (N := net_of w (exts enc (stims m)) dt) in *.
  set (iv := tmin + x * tcod) in *. unfold stims in *.
  assert (Hxc : 0 <= x * tcod <= tcod) by (split; [apply Rmult_le_pos; lra|rewrite <- (Rmult_1_l tcod) at 2; apply Rmult_le_compat_r; lra]).
  assert (Hiv : 1 + dt <= iv <= tmin + tcod) by (unfold iv; lra).
  assert (HA1 : arrs N (sc_input m) 1 [step_at dt (t0 + 1); step_at dt (t0 + 1 + iv)]).
  { src_solve HSe. do 3 f_equal. fold iv. unfold enc; cbn [DataEncoder Tmin Tcod]. unfold iv. lra. }
  assert (HM : sc_ins N (1000 / (tmin + tcod)) tmin f m).
  { rewrite <- wacc_R. apply (sc_ins_of N enc f m 0); auto. intros n Hn. apply (se_own _ _ _ _ _ _ _ _ HSe).
    - unfold sc_internal in Hn. cbn [In] in Hn. intuition lia.
    - unfold sc_internal in Hn. cbn [In] in Hn. destruct Hn as [<-|[<-|[<-|[<-|[<-|[]]]]]]; ext_simp; reflexivity. }
  destruct (step_diff dt (t0 + 1) iv Hdt ltac:(lra) ltac:(lra)) as (Q1 & Q2 & _).
  assert (Ha12 : (step_at dt (t0 + 1) + step_at dt 1 <= step_at dt (t0 + 1 + iv))%nat).
  { apply step_diff_ge; try lra; try apply step_at_ge1. pose proof (step_time dt 1 Hdt ltac:(lra)). unfold iv. lra. }
  pose proof (step_at_bounds dt (t0 + 1) Hdt ltac:(lra)) as BA1.
  pose proof (step_at_ge1 dt (t0 + 1)) as G1.
  destruct (sc_timing dt tmin tcod x f (step_at dt (t0 + 1)) (step_at dt (t0 + 1 + iv)) Hdt Htc Hf Hx Hfx Htm2 Q2) as (C1 & C2 & C3 & C4 & C5).
  { destruct HA as [HA|HA]; auto. left. split; [apply steps_aligned_gap; auto; lra|].
    destruct (aligned_steps dt tmin Hdt ltac:(lra) HA) as (p & q & E1 & E2 & _). lia. }
  pose proof (sc_output_spk N m (tmin + tcod) tmin f Hdt ltac:(lra) Hf HM _ _ HA1 G1 Ha12) as HOut.
  unfold sc_fire2, sc_steps, sc_left, sc_gap, sc_fire1 in HOut. cbn [N net_of t_dt] in HOut. fold N in HOut.
  specialize (HOut C1 C2 ltac:(lia)).
  pose proof (step_at_ge1 dt 2) as G2. pose proof (step_at_bounds dt 2 Hdt ltac:(lra)) as BD2.
  match type of HOut with spikes_at _ _ [?a; ?b] => set (o1 := a) in *; set (o2 := b) in * end.
  assert (Ho1 : INR o1 * dt < t0 + 4 + tmin + (tmin + tcod) / f + 3 * dt).
  { unfold o1. rewrite plus_INR. lra. }
  assert (Hfx2 : f * x * tcod <= tcod) by (rewrite <- (Rmult_1_l tcod) at 2; apply Rmult_le_compat_r; lra).
  assert (HLg : spike_log s (sc_output m) = times dt [o1; o2]).
  { apply (se_log _ _ _ _ _ _ _ _ HSe); auto; [lia|ext_simp; reflexivity|cbn; lia|].
    apply Rabs_le2 in C4. intros j [<-|[<-|[]]]; lra. }
  eapply (emits_intro _ _ _ _ dt o1 o2); auto. replace ((2 + 3 * f) * dt / tcod * tcod) with ((2 + 3 * f) * dt) by (field; lra). exact C4.
Qed.
