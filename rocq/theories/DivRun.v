(** DivNetwork (C50): sessions with both operands presented once. *)
From Coq Require Import Arith ZArith Bool List Reals Lra Lia Permutation.
From Verif Require Import Num Heapq Elements Simulator Networks Trace SimTrace SimProps TraceProps NeuronLib NetLib Build BuildNets Bridge MemoryProof GeLib GfLib Session SimpleNets InvMem Misc LnLib FuncNets SegLib SubNet ExpLog DivNet DivMid.
Import ListNotations.
Open Scope R_scope.
Open Scope list_scope.

Section Run.
Variables tmin tcod x1 x2 dt ta tb T : R.
Variable nm : option String.string.
Variable ord : nat -> list nat -> list nat.
Hypothesis Hdt : 0 < dt <= 1 / 2.
Hypothesis Htc : 0 < tcod.
Hypothesis Htm : 1 + dt < tmin.
Hypothesis HA : aligned dt tmin.
Hypothesis Hx1 : 0 <= x1 <= 1.
Hypothesis Hx2 : 0 <= x2 <= 1.
Hypothesis Hta : 0 <= ta.
Hypothesis Htb : 0 <= tb.
Hypothesis HT : 0 <= T.
Hypothesis HO : ord_ok ord.
Let enc := DataEncoder tmin tcod.
Let stims := fun m => [SValue x1 (dv_input1 m) ta; SValue x2 (dv_input2 m) tb].
Let a11 := step_at dt (ta + 1).
Let a12 := step_at dt (ta + 1 + (tmin + x1 * tcod)).
Let a21 := step_at dt (tb + 1).
Let a22 := step_at dt (tb + 1 + (tmin + x2 * tcod)).
Let D1 := step_at dt 1.
Let D2 := step_at dt 2.
Let Dm := step_at dt (1 + tmin).
Let DM := step_at dt (tmin + (3 * 1 + 2 * / 100)).
Let sy := (Nat.max a12 a22 + D1)%nat.
Let c1 := INR (a12 + D1 - (a11 + Dm)) * (dt / tcod).
Let c2 := INR (a22 + D1 - (a21 + Dm)) * (dt / tcod).
(** when the logarithm accumulator of an operand stored as c fires *)
Definition fires (c : R) (a f : nat) : Prop :=
  (0 < c < 1 /\ exists j, (1 - dt / 20) ^ j <= c /\ (forall i, (i < j)%nat -> c < (1 - dt / 20) ^ i) /\ f = (sy + D1 - 1 + j)%nat) \/
  (1 <= c /\ f = (a + Dm - 1 + step_at dt tcod)%nat).
Lemma div_session : exists m s, session (DivNetwork enc nm) dv_mod enc dt stims ord T = Ok (m, s) /\
  forall f1 f2, fires c1 a11 f1 -> fires c2 a21 f2 -> (sy + D2 < f1 + Dm)%nat -> (sy + D2 < f2 + Dm)%nat ->
    ((f1 < f2)%nat -> spike_log s (dv_output m) = []) /\
    ((f2 <= f1)%nat -> INR f1 * dt + 11 + 3 * tmin + tcod + 3 * dt <= T ->
      emits s (dv_output m) enc ((1 - dt / 20) ^ (f1 - f2)) (dt / tcod)).
Proof.
  destruct Hdt as [Hd Hd2].
  assert (HTc : tcod <> 0) by lra. assert (HTm : tmin + tcod <> 0) by lra.
  destruct (Div_built enc nm empty_world inv_empty (neq0 _ HTm) (neq0 _ HTc)) as (m & w & E & HB & HN & HI1 & HI2 & HOu & HL).
  cbn [w_neurons empty_world length Nat.add] in HN, HL.
  pose proof HN as HN'. unfold ls_nodes, sb_nodes, ex_nodes in HN'. cbn [app] in HN'. nodes_eqs HN'.
  destruct (session_built (DivNetwork enc nm) dv_mod m w _ enc dt stims ord T E HB Hd HT) as (s & Es & HSe).
  { unfold stims. rewrite HI1, HI2. stims_ok. } { auto. }
  exists m, s. split; [exact Es|].
  unfold stims in HSe. rewrite HI1, HI2 in HSe. rewrite HOu.
  set (N := net_of w (exts enc [SValue x1 (ls_input1 (dv_ls m)) ta; SValue x2 (ls_input2 (dv_ls m)) tb]) dt) in *.
  assert (Hc1 : 0 <= x1 * tcod) by (apply Rmult_le_pos; lra). assert (Hc2 : 0 <= x2 * tcod) by (apply Rmult_le_pos; lra).
  assert (HA1 : arrs N (ls_input1 (dv_ls m)) 1 [a11; a12]).
  { eapply (se_arrs _ _ _ _ _ _ _ _ HSe); [lia| |ext_simp; reflexivity|cbn [map]].
    - cbv beta zeta delta [dv_syns sb_syns ex_syns ls_syns]. cbn [app]. filt. reflexivity.
    - unfold a11, a12, enc; cbn [DataEncoder Tmin Tcod]. do 3 f_equal. lra. }
  assert (HA2 : arrs N (ls_input2 (dv_ls m)) 1 [a21; a22]).
  { eapply (se_arrs _ _ _ _ _ _ _ _ HSe); [lia| |ext_simp; reflexivity|cbn [map]].
    - cbv beta zeta delta [dv_syns sb_syns ex_syns ls_syns]. cbn [app]. filt. reflexivity.
    - unfold a21, a22, enc; cbn [DataEncoder Tmin Tcod]. do 3 f_equal. lra. }
  assert (HM : dv_ins N (1000 / tcod) tmin m).
  { rewrite <- (wbar_R tmin tcod). apply (dv_ins_of N enc m 0); auto. intros n Hn n1 n2. apply (se_own _ _ _ _ _ _ _ _ HSe).
    - unfold dv_nodes in Hn. rewrite HN in Hn. apply in_seq in Hn. lia.
    - ext_simp. reflexivity. }
  clear HN.
  pose proof (step_at_ge1 dt (ta + 1)) as G1. pose proof (step_at_ge1 dt (tb + 1)) as G2. fold a11 in G1. fold a21 in G2.
  assert (Q1 : (a11 + D1 <= a12)%nat).
  { apply step_diff_ge; try lra; try apply step_at_ge1. pose proof (step_time dt 1 Hd ltac:(lra)). unfold D1. lra. }
  assert (Q2 : (a21 + D1 <= a22)%nat).
  { apply step_diff_ge; try lra; try apply step_at_ge1. pose proof (step_time dt 1 Hd ltac:(lra)). unfold D1. lra. }
  assert (W1 : (a11 + Dm <= a12 + D1)%nat) by (apply steps_aligned_gap; auto; lra).
  assert (W2 : (a21 + Dm <= a22 + D1)%nat) by (apply steps_aligned_gap; auto; lra).
  pose proof (dv_acc1 N m tcod tmin Hdt Htc HM _ _ _ _ HA1 HA2 G1 G2 Q1 Q2 W1 W2) as R1.
  pose proof (dv_acc2 N m tcod tmin Hdt Htc HM _ _ _ _ HA1 HA2 G1 G2 Q1 Q2 W1 W2) as R2.
  cbn [N net_of t_dt] in R1, R2. fold N in R1, R2. fold D1 D2 Dm in R1, R2. change (dv_sy N a12 a22) with sy in R1, R2.
  fold c1 in R1. fold c2 in R2. unfold rho in R1, R2. cbn [N net_of t_dt] in R1, R2. fold N in R1, R2.
  intros f1 f2 F1 F2 L1 L2. pose proof (step_at_ge1 dt 1) as GD. fold D1 in GD. pose proof (step_at_ge1 dt tcod) as GT.
  assert (S1 : spikes_at N (ls_acc1 (dv_ls m)) [f1] /\ (1 <= f1)%nat).
  { destruct F1 as [(B & j & J1 & J2 & ->)|[B ->]]; [split; [apply R1; auto; lra|unfold sy; lia]|split; [apply R1; auto|lia]]. }
  assert (S2 : spikes_at N (ls_acc2 (dv_ls m)) [f2] /\ (1 <= f2)%nat).
  { destruct F2 as [(B & j & J1 & J2 & ->)|[B ->]]; [split; [apply R2; auto; lra|unfold sy; lia]|split; [apply R2; auto|lia]]. }
  destruct S1 as [S1 P1]. destruct S2 as [S2 P2].
  split.
  - intros Hf. pose proof (dv_output_none N m tcod tmin Hdt Htm HM _ _ _ _ HA1 HA2 G1 G2 Q1 Q2 W1 W2 f1 f2 S1 S2 L1 L2 P1 P2 Hf) as HS.
    apply (se_log _ _ _ _ _ _ _ _ HSe (ex_output (dv_exp m)) []); auto; [lia|ext_simp; reflexivity|cbn; auto|intros k []].
  - intros Hf HTT. pose proof (dv_output_spk N m tcod tmin Hdt Htc Htm HA HM _ _ _ _ HA1 HA2 G1 G2 Q1 Q2 W1 W2 f1 f2 S1 S2 L1 L2 P1 P2 Hf) as HS.
    destruct (dv_steps N tmin Hdt Htm HA) as (p & q & E1 & E2 & E3 & E4 & E5 & E6 & Ep & Eq).
    unfold dv_b, dv_J, rho in HS. cbn [N net_of t_dt] in HS, E1, E2, E3, E4, Ep, Eq. fold N in HS. fold D1 D2 Dm DM in HS.
    assert (Hr : 0 < (1 - dt / 20) ^ (f1 - f2) <= 1) by (split; [apply pow_lt; lra|apply pow_le1; lra]).
    assert (HTr : 0 < tcod * (1 - dt / 20) ^ (f1 - f2)) by (apply Rmult_lt_0_compat; lra).
    pose proof (step_at_bounds dt _ Hd HTr) as BJ.
    assert (HTr2 : tcod * (1 - dt / 20) ^ (f1 - f2) <= tcod) by (rewrite <- (Rmult_1_r tcod) at 2; apply Rmult_le_compat_l; lra).
    set (J := step_at dt (tcod * (1 - dt / 20) ^ (f1 - f2))) in *. set (r := (1 - dt / 20) ^ (f1 - f2)) in *.
    destruct (sb_facts dt tmin Hdt ltac:(lra)) as (_ & _ & _ & _ & _ & ZM). fold DM in ZM.
    fold D1 in E1. fold D2 in E2. fold Dm in E3. rewrite E1, E2, E3 in HS. clearbody J r.
    assert (HLg : spike_log s (ex_output (dv_exp m)) = times dt [(f1 + (p + q) + p + p + DM + p + p + 2 * p)%nat; (f1 + (p + q) + p + p + DM + p + p + p - 1 + J + (p + q))%nat]).
    { apply (se_log _ _ _ _ _ _ _ _ HSe); auto; [lia|ext_simp; reflexivity|cbn; lia|].
      intros i [<-|[<-|[]]]; inr; cbn [INR]; lra. }
    eapply (emits_intro _ _ _ _ dt); [auto|auto|exact HLg|lia|].
    replace (dt / tcod * tcod) with dt by (field; lra). inr. apply Rabs_le. cbn [INR]. lra.
Qed.
End Run.
