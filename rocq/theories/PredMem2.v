(** MemoryNetwork on PredSimulator (C53). *)
From Coq Require Import Arith ZArith Bool List Reals Lra Lia Permutation Sorted.
From Verif Require Import Num NumOrd Heapq Elements Networks CancelQueue PredSim PredNeuron NeuronLib NetLib Build BuildNets Trace SimTrace TraceProps Bridge Session SimpleNets InvMem PredProofs PredRun PredNet PredMem.
Import ListNotations.
Open Scope list_scope.
Open Scope R_scope.
Section Mem.
Variables tmin tcod x dt tr : R.
Hypothesis Hdt : 0 < dt. Hypothesis HM : (horizon dt < 2 ^ 64)%Z. Hypothesis Hd5 : tmin + tcod + 2 * dt <= 500.
Hypothesis Htc : 0 < tcod. Hypothesis Htm : 1 < tmin. Hypothesis Htd : dt < tmin. Hypothesis Hx : 0 <= x <= 1.
Let iv := tmin + x * tcod.
Let wacc := 1000 / (tmin + tcod).
Definition mm_M : nat := step_at dt (tmin + tcod).
Let g := INR mm_M * dt.
Hypothesis Htr : g + 2 < tr.
Definition mm_K : nat := step_at dt (tmin + tcod - (g - iv)).
Definition mm_F (n : nat) : list R :=
  match n with
  | 0%nat => [0; iv] | 1%nat => [1] | 2%nat => [iv + 1] | 3%nat => [2 + g] | 4%nat => [tr + 1 + INR mm_K * dt] | 5%nat => [tr]
  | 6%nat => [3 + g] | 7%nat => [tr + 2; tr + 2 + INR mm_K * dt] | _ => [] end.
Definition mm_acc2_hits : list (R * list (syntype * R)) :=
  if Req_EM_T g iv then [(iv + 3, [(SynGe, wacc); (SynGe, - wacc)]); (tr + 1, [(SynGe, wacc)])]
  else [(iv + 3, [(SynGe, wacc)]); (3 + g, [(SynGe, - wacc)]); (tr + 1, [(SynGe, wacc)])].
Definition mm_hits (n : nat) : list (R * list (syntype * R)) :=
  match n with
  | 0%nat => [(0, [(SynV, 10)]); (iv, [(SynV, 10)])]
  | 1%nat => [(1, [(SynV, 10)]); (2, [(SynV, -10)]); (iv + 1, [(SynV, 10)])]
  | 2%nat => [(1, [(SynV, 5)]); (iv + 1, [(SynV, 5)])]
  | 3%nat => [(2, [(SynGe, wacc)])]
  | 4%nat => mm_acc2_hits
  | 5%nat => [(tr, [(SynV, 10)])]
  | 6%nat => [(3 + g, [(SynV, 10)])]
  | 7%nat => [(tr + 2, [(SynV, 10)]); (tr + 2 + INR mm_K * dt, [(SynV, 10)])]
  | _ => [] end.
Definition mm_syns_num : list (synapse R) :=
  [syn 0 1 SynV 10 1; syn 0 2 SynV 5 1; syn 1 1 SynV (-10) 1; syn 1 3 SynGe wacc 1; syn 2 4 SynGe wacc 2; syn 3 4 SynGe (- wacc) 1;
   syn 5 4 SynGe wacc 1; syn 5 7 SynV 10 2; syn 4 7 SynV 10 1; syn 3 6 SynV 10 1].
Lemma mm_xc : 0 <= x * tcod <= tcod.
Proof. split; [apply Rmult_le_pos; lra|rewrite <- (Rmult_1_l tcod) at 2; apply Rmult_le_compat_r; lra]. Qed.
Lemma mm_g : tmin + tcod <= g < tmin + tcod + dt.
Proof. pose proof (step_at_bounds dt (tmin + tcod) Hdt ltac:(lra)) as HB. fold mm_M in HB. fold g in HB. lra. Qed.
Lemma mm_d : 0 <= g - iv < tmin + tcod.
Proof. pose proof mm_xc. pose proof mm_g. unfold iv. lra. Qed.
Lemma mm_k : tmin + tcod - (g - iv) <= INR mm_K * dt < tmin + tcod - (g - iv) + dt /\ INR mm_K * dt + dt <= 500.
Proof. pose proof mm_xc. pose proof mm_g. pose proof mm_d. pose proof (step_at_bounds dt (tmin + tcod - (g - iv)) Hdt ltac:(lra)) as HB. fold mm_K in HB. unfold iv in *. lra. Qed.
Lemma mm_w : 0 < wacc. Proof. unfold wacc. apply Rdiv_lt_0_compat; lra. Qed.
Lemma mm_acc2_run : nat_run dt rest0 mm_acc2_hits (mm_F 4).
Proof.
  pose proof mm_xc as Hxc. pose proof mm_g as Hg. pose proof mm_d as Hd. pose proof mm_k as Hk. pose proof mm_w as Hw. rewrite rest0_pn. unfold mm_acc2_hits. set (v := 10 * (g - iv) / (tmin + tcod)).
  assert (Hv : v < 10).
  { unfold v. apply Rmult_lt_reg_r with (tmin + tcod); [lra|]. unfold Rdiv. rewrite Rmult_assoc, Rinv_l by lra. lra. }
  assert (ER : ramp dt v wacc = mm_K).
  { unfold ramp, mm_K. f_equal. unfold v, wacc. field. lra. }
  assert (FIN : nat_run dt (pn v wacc (tr + 1)) [] (mm_F 4)).
  { cbn [mm_F]. eapply r_ramp; eauto; [rewrite ER; reflexivity|rewrite ER; lra|intros h []|apply r_end; auto; lra]. }
  destruct (Req_EM_T g iv) as [E0|E0].
  - eapply (r_hit dt Hdt HM) with (v' := 0) (g' := 0); [lra|left; lra|wsums; ring|wsums; ring|wsums; lra|wsums; lra|].
    eapply (r_hit dt Hdt HM) with (v' := v) (g' := wacc); [wsums; lra|left; wsums; lra|wsums; ring|wsums; ring| |wsums; lra|exact FIN].
    wsums. unfold v. rewrite E0. unfold Rdiv. ring.
  - eapply (r_hit dt Hdt HM) with (v' := 0) (g' := wacc); [lra|left; lra|wsums; ring|wsums; ring|wsums; lra|wsums; lra|].
    eapply (r_hit dt Hdt HM) with (v' := v) (g' := 0); [wsums; lra| |wsums; ring|wsums; ring| |wsums; lra|].
    + right. unfold ramp. replace ((10 - 0) * 100 / wacc) with (tmin + tcod) by (unfold wacc; field; lra). fold mm_M. fold g. unfold iv in *. lra.
    + wsums. unfold v, wacc. field. lra.
    + eapply (r_hit dt Hdt HM) with (v' := v) (g' := wacc); [exact Hv|left; lra|wsums; ring|wsums; ring|wsums; lra|wsums; lra|exact FIN].
Qed.
Lemma mm_runs n : (n < 8)%nat -> nat_run dt rest0 (mm_hits n) (mm_F n).
Proof.
  intros Hn. pose proof mm_xc as Hxc. pose proof mm_g as Hg. pose proof mm_d as Hd. pose proof mm_k as Hk. pose proof mm_w as Hw.
  assert (Hiv : 1 < iv) by (unfold iv; lra). assert (Hd5' : dt <= 500) by lra.
  destruct n as [|[|[|[|[|[|[|[|n]]]]]]]]; [..|exfalso; lia]; cbn [mm_hits]; [ | | | |apply mm_acc2_run| | |]; rewrite rest0_pn.
  - apply (r_relay dt Hdt HM [0; iv] 0 10); auto; [lra|]. sorted; lra.
  - eapply r_hit; [exact Hdt|exact HM|lra|left; lra|wsums; ring|wsums; ring|reflexivity|reflexivity|].
    apply r_now; auto; [wsums; lra|wsums; lra|inlist; lra|].
    eapply r_hit; [exact Hdt|exact HM|lra|left; lra|wsums; ring|wsums; ring|reflexivity|reflexivity|].
    eapply r_hit; [exact Hdt|exact HM|wsums; lra|left; wsums; lra|wsums; ring|wsums; ring|reflexivity|reflexivity|].
    apply r_end; auto; wsums; lra.
  - eapply r_hit; [exact Hdt|exact HM|lra|left; lra|wsums; ring|wsums; ring|reflexivity|reflexivity|].
    eapply r_hit; [exact Hdt|exact HM|wsums; lra|left; wsums; lra|wsums; ring|wsums; ring|reflexivity|reflexivity|].
    apply r_now; auto; [wsums; lra|wsums; lra|inlist|]. apply r_end; auto; lra.
  - eapply (r_hit dt Hdt HM) with (v' := 0) (g' := wacc); [lra|left; lra|wsums; ring|wsums; ring|wsums; lra|wsums; lra|].
    assert (ER : ramp dt 0 wacc = mm_M) by (unfold ramp, mm_M; f_equal; unfold wacc; field; lra).
    eapply r_ramp; [exact Hdt|exact HM|lra|lra|rewrite ER; reflexivity|rewrite ER; fold g; lra|intros h []|apply r_end; auto; lra].
  - apply (r_relay dt Hdt HM [tr] 0 10); auto; [lra|]. sorted; lra.
  - apply (r_relay dt Hdt HM [3 + g] 0 10); auto; [lra|]. sorted; lra.
  - apply (r_relay dt Hdt HM [tr + 2; tr + 2 + INR mm_K * dt] 0 10); auto; [lra|]. sorted; lra.
Qed.
Lemma mm_sorted n : (n < 8)%nat -> StronglySorted (fun a b => fst a < fst b) (mm_hits n).
Proof.
  intros Hn. pose proof mm_xc as Hxc. pose proof mm_g as Hg. pose proof mm_d as Hd. pose proof mm_k as Hk.
  assert (Hiv : 1 < iv) by (unfold iv; lra).
  destruct n as [|[|[|[|[|[|[|[|n]]]]]]]]; [..|exfalso; lia]; cbn [mm_hits]; try (sorted; lra).
  unfold mm_acc2_hits. destruct (Req_EM_T g iv) as [E|E]; sorted; lra.
Qed.
Lemma mm_nonempty n h : (n < 8)%nat -> In h (mm_hits n) -> snd h <> [].
Proof.
  intros Hn. destruct n as [|[|[|[|[|[|[|[|n]]]]]]]]; [..|exfalso; lia]; cbn [mm_hits].
  all: try unfold mm_acc2_hits; try destruct (Req_EM_T g iv); cbn [In]; intros H; repeat (destruct H as [<-|H]; [discriminate|]); destruct H.
Qed.
Lemma mm_perm n : (n < 8)%nat -> Permutation (ungroup (mm_hits n)) (received 10 mm_syns_num [(0%nat, 0); (0%nat, iv); (5%nat, tr)] mm_F n).
Proof.
  intros Hn. destruct n as [|[|[|[|[|[|[|[|n]]]]]]]]; [..|exfalso; lia].
  5: cbn [mm_hits]; unfold mm_acc2_hits; destruct (Req_EM_T g iv) as [E|E].
  all: cbn; perms.
Qed.
End Mem.
Lemma mm_syns_R tmin tcod a : tmin + tcod <> 0 -> mm_syns (wacc_of (DataEncoder tmin tcod)) (Build_memory_net a 0 1 2 3 4 5 6 7) = mm_syns_num tmin tcod.
Proof.
  intros H. unfold mm_syns, mm_syns_num. cbn [mm_input mm_first mm_last mm_acc mm_acc2 mm_recall mm_ready mm_output]. rewrite wacc_R. consts.
  repeat (f_equal; try lra).
Qed.
Theorem pred_memory (tmin tcod x dt t0 tr : R) nm :
  dt_ok dt -> 0 < tcod -> 1 < tmin -> dt < tmin -> tmin + tcod + 2 * dt <= 500 -> 0 <= x <= 1 -> tmin + tcod + dt + 2 <= tr ->
  pruns (MemoryNetwork (DataEncoder tmin tcod) nm) mm_mod (DataEncoder tmin tcod) dt
      (fun m => [SValue x (mm_input m) t0; SSpike (mm_recall m) tr])
      (fun m s => pemits s (mm_output m) (DataEncoder tmin tcod) x (dt / tcod) /\
                  (exists t, pspike_log s (mm_output m) = [tr + 2; t]) /\ exists t, pspike_log s (mm_ready m) = [t] /\ t < tr + 1).
Proof.
  intros HD Htc Htm Htd H5 Hx Htr. destruct (dt_ok_horizon dt HD) as [Hdt HM]. set (enc := DataEncoder tmin tcod).
  assert (HTm : tmin + tcod <> 0) by lra.
  pose proof (mm_g tmin tcod dt Hdt Htc Htm) as Hg.
  assert (Htr' : INR (mm_M tmin tcod dt) * dt + 2 < tr) by lra.
  destruct (Memory_built enc nm empty_world inv_empty (neq0 _ HTm)) as (m & w & E & HB & HN & HL).
  cbn [w_neurons empty_world length Nat.add] in HN, HL. destruct m as [a i0 i1 i2 i3 i4 i5 i6 i7]. unfold mm_nodes in HN. cbn in HN. injection HN as -> -> -> -> -> -> -> ->.
  unfold enc in HB. rewrite (mm_syns_R tmin tcod a HTm) in HB.
  edestruct (psession_solves (MemoryNetwork enc nm) mm_mod _ w _ enc dt (fun m => [SValue x (mm_input m) t0; SSpike (mm_recall m) tr])
    (mm_hits tmin tcod x dt tr) (mm_F tmin tcod x dt tr) E HB Hdt HM) as [N HR].
  - rewrite HL. cbn. stims_ok.
  - cbn. intros y Hy. repeat (destruct Hy as [<-|Hy]; [cbn; lra|]). destruct Hy.
  - rewrite HL. intros n Hn. apply mm_runs; auto.
  - rewrite HL. intros n Hn. apply mm_sorted; auto.
  - rewrite HL. intros n h Hn. eapply mm_nonempty; eauto.
  - rewrite HL. intros n Hn. apply mm_perm; auto.
  - exists N. intros fuel Hf. destruct (HR fuel Hf) as (s & Es & HLg). eexists. exists s. split; [exact Es|].
    cbn [mm_output mm_ready]. pose proof (HLg 7%nat ltac:(lia)) as E7. pose proof (HLg 6%nat ltac:(lia)) as E6. cbn [mm_F] in E6, E7.
    destruct (mm_k tmin tcod x dt) as [Hk _]; auto. set (k := INR (mm_K tmin tcod x dt) * dt) in *.
    assert (Hxc := mm_xc tcod x Htc Hx).
    split; [|split; [eexists; exact E7|]].
    + eapply pemits_intro; [auto|exact E7|lra|]. unfold Rdiv. rewrite Rmult_assoc, Rinv_l, Rmult_1_r by lra. apply Rabs_le. lra.
    + eexists. split; [exact E6|]. lra.
Qed.
