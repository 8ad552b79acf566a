(** MemoryNetwork and InvertingMemoryNetwork on PredSimulator (C53). *)
From Coq Require Import Arith ZArith Bool List Reals Lra Lia Permutation Sorted.
From Verif Require Import Num NumOrd Heapq Elements Networks CancelQueue PredSim PredNeuron NeuronLib NetLib Build BuildNets Trace SimTrace TraceProps Bridge Session SimpleNets InvMem PredProofs PredRun PredNet.
Import ListNotations.
Open Scope list_scope.
Open Scope R_scope.

(** the log of neuron n is a pair of spikes whose interval decodes to v up to eps *)
Definition pemits (s : psim R) (n : nat) (enc : encoder R) (v eps : R) : Prop :=
  exists t1 t2 y, pspike_log s n = [t1; t2] /\ t1 < t2 /\ decode_interval enc (t2 - t1) = Ok y /\ Rabs (y - v) <= eps.
Lemma pemits_intro s n tmin tcod a b v eps : 0 < tcod -> pspike_log s n = [a; b] -> a < b ->
  Rabs (b - a - (tmin + v * tcod)) <= eps * tcod -> pemits s n (DataEncoder tmin tcod) v eps.
Proof.
  intros Hc HS Hab HE. exists a, b, ((b - a - tmin) / tcod). split; auto. split; auto. split.
  - unfold decode_interval, pdiv, nzero. cbn [neqb nofZ R_num DataEncoder Tcod Tmin nsub ndiv].
    rewrite (proj2 (Reqb_false _ _)) by lra. reflexivity.
  - replace ((b - a - tmin) / tcod - v) with ((b - a - (tmin + v * tcod)) / tcod) by (field; lra).
    unfold Rdiv. rewrite Rabs_mult, (Rabs_right (/ tcod)) by (left; apply Rinv_0_lt_compat; auto).
    apply Rmult_le_reg_r with tcod; auto. rewrite Rmult_assoc, Rinv_l by lra. lra.
Qed.

(** ** tactics *)
Lemma perm_pick {A} (a : A) l b r1 r2 : a = b -> Permutation l (r1 ++ r2) -> Permutation (a :: l) (r1 ++ b :: r2).
Proof. intros -> H. apply Permutation_cons_app. auto. Qed.
Lemma hit_eq (t t' : R) (ty : syntype) (w w' : R) : t = t' -> w = w' -> (t, (ty, w)) = (t', (ty, w')).
Proof. intros -> ->. reflexivity. Qed.
Ltac hiteq := apply hit_eq; lra.
Ltac perm1 := match goal with
  | |- Permutation (?a :: ?l) (?b :: ?r) => refine (perm_pick a l b [] r _ _); [hiteq|]
  | |- Permutation (?a :: ?l) (?x1 :: ?b :: ?r) => refine (perm_pick a l b [x1] r _ _); [hiteq|]
  | |- Permutation (?a :: ?l) (?x1 :: ?x2 :: ?b :: ?r) => refine (perm_pick a l b [x1; x2] r _ _); [hiteq|]
  | |- Permutation (?a :: ?l) (?x1 :: ?x2 :: ?x3 :: ?b :: ?r) => refine (perm_pick a l b [x1; x2; x3] r _ _); [hiteq|]
  | |- Permutation (?a :: ?l) (?x1 :: ?x2 :: ?x3 :: ?x4 :: ?b :: ?r) => refine (perm_pick a l b [x1; x2; x3; x4] r _ _); [hiteq|]
  end; cbn [app].
Ltac perms := repeat perm1; apply perm_nil.
(** arithmetic of the constants *)
Ltac consts := unfold cTsyn, cTneu, we, wi, cVt, twice, thrice, half, quarter, nlit; cbn [nofZ nadd nmul nsub ndiv nopp R_num DataEncoder Tmin Tcod Tmax].
Ltac wsums := unfold wsum, sumf, sumR; cbn [map fold_right syntype_eqb fst snd].
Ltac each n := intros n Hn; repeat (destruct n as [|n]; [|]); try (exfalso; lia).
Ltac sorted := repeat (apply SSorted_cons || apply SSorted_nil); repeat (apply Forall_cons || apply Forall_nil); cbn [fst].
Ltac inlist := let h := fresh "h" in let H := fresh "H" in intros h H; cbn [In] in H; repeat (destruct H as [H|H]; [subst h; cbn [fst]|]); [..|destruct H].

Section InvMem.
Variables tmin tcod x dt tr : R.
Hypothesis Hdt : 0 < dt. Hypothesis HM : (horizon dt < 2 ^ 64)%Z.
Hypothesis Htc : 0 < tcod. Hypothesis Htm : 1 < tmin. Hypothesis Hx : 0 <= x <= 1.
Let iv := tmin + x * tcod.
Hypothesis Htr : iv + 1 < tr.
Let wacc := 1000 / (tmin + tcod).
Definition im_K : nat := step_at dt (tmin + tcod - x * tcod).
(** spike times, for K steps of the final ramp; None when it lies beyond the horizon *)
Definition im_F (K : option nat) (n : nat) : list R :=
  match n with
  | 0%nat => [0; iv] | 1%nat => [1] | 2%nat => [iv + 1]
  | 3%nat => match K with Some k => [tr + 1 + INR k * dt] | None => [] end
  | 4%nat => [tr]
  | 5%nat => match K with Some k => [tr + 2 + / 100; tr + 2 + INR k * dt] | None => [tr + 2 + / 100] end
  | _ => [] end.
Definition im_acc_hits : list (R * list (syntype * R)) :=
  if Req_EM_T x 0 then [(tmin + 2, [(SynGe, wacc); (SynGe, - wacc)]); (tr + 1, [(SynGe, wacc)])]
  else [(tmin + 2, [(SynGe, wacc)]); (iv + 2, [(SynGe, - wacc)]); (tr + 1, [(SynGe, wacc)])].
Definition im_hits (K : option nat) (n : nat) : list (R * list (syntype * R)) :=
  match n with
  | 0%nat => [(0, [(SynV, 10)]); (iv, [(SynV, 10)])]
  | 1%nat => [(1, [(SynV, 10)]); (2, [(SynV, -10)]); (iv + 1, [(SynV, 10)])]
  | 2%nat => [(1, [(SynV, 5)]); (iv + 1, [(SynV, 5)])]
  | 3%nat => im_acc_hits
  | 4%nat => [(tr, [(SynV, 10)])]
  | 5%nat => match K with Some k => [(tr + 2 + / 100, [(SynV, 10)]); (tr + 2 + INR k * dt, [(SynV, 10)])] | None => [(tr + 2 + / 100, [(SynV, 10)])] end
  | _ => [] end.
Definition im_syns_num : list (synapse R) :=
  [syn 0 1 SynV 10 1; syn 0 2 SynV 5 1; syn 1 1 SynV (-10) 1; syn 1 3 SynGe wacc (1 + tmin); syn 2 3 SynGe (- wacc) 1;
   syn 4 3 SynGe wacc 1; syn 3 5 SynV 10 1; syn 4 5 SynV 10 (2 + / 100)].

Hypothesis Hd5 : dt <= 500.
Lemma im_xc : 0 <= x * tcod <= tcod.
Proof. split; [apply Rmult_le_pos; lra|rewrite <- (Rmult_1_l tcod) at 2; apply Rmult_le_compat_r; lra]. Qed.
Lemma im_acc_run K : (K = Some im_K /\ INR im_K * dt + dt <= 500) \/ (K = None /\ 500 <= INR im_K * dt) -> nat_run dt rest0 im_acc_hits (im_F K 3).
Proof.
  intros HK. pose proof im_xc as Hxc. rewrite rest0_pn. unfold im_acc_hits. set (v := 10 * (x * tcod) / (tmin + tcod)).
  assert (Hw : 0 < wacc) by (unfold wacc; apply Rdiv_lt_0_compat; lra).
  assert (Hv : v < 10).
  { unfold v. apply Rmult_lt_reg_r with (tmin + tcod); [lra|]. unfold Rdiv. rewrite Rmult_assoc, Rinv_l by lra. lra. }
  assert (ER : ramp dt v wacc = im_K).
  { unfold ramp, im_K. f_equal. unfold v, wacc. field. lra. }
  assert (FIN : nat_run dt (pn v wacc (tr + 1)) [] (im_F K 3)).
  { destruct HK as [[-> HK]|[-> HK]]; cbn [im_F].
    - eapply r_ramp; eauto; [rewrite ER; reflexivity|rewrite ER; exact HK|intros h []|apply r_end; auto; lra].
    - eapply r_far; eauto. rewrite ER. exact HK. }
  destruct (Req_EM_T x 0) as [E0|E0].
  - eapply r_hit; [exact Hdt|exact HM|lra|left; lra|wsums; ring|wsums; ring|reflexivity|reflexivity|].
    eapply (r_hit dt Hdt HM) with (v' := v) (g' := wacc); [wsums; lra|left; wsums; lra|wsums; ring|wsums; ring| |wsums; lra|exact FIN].
    wsums. unfold v. rewrite E0. unfold Rdiv. ring.
  - assert (0 < x * tcod) by (apply Rmult_lt_0_compat; lra).
    eapply (r_hit dt Hdt HM) with (v' := 0) (g' := wacc); [lra|left; lra|wsums; ring|wsums; ring|wsums; lra|wsums; lra|].
    eapply (r_hit dt Hdt HM) with (v' := v) (g' := 0); [wsums; lra| |wsums; ring|wsums; ring| |wsums; lra|].
    + right.
      unfold ramp. replace ((10 - 0) * 100 / wacc) with (tmin + tcod) by (unfold wacc; field; lra).
      pose proof (step_at_bounds dt (tmin + tcod) Hdt ltac:(lra)). unfold iv. lra.
    + wsums. unfold v, iv, wacc. field. lra.
    + eapply (r_hit dt Hdt HM) with (v' := v) (g' := wacc); [exact Hv|left; lra|wsums; ring|wsums; ring|wsums; lra|wsums; lra|exact FIN].
Qed.
Lemma im_runs K n : (n < 6)%nat -> (K = Some im_K /\ INR im_K * dt + dt <= 500) \/ (K = None /\ 500 <= INR im_K * dt) -> nat_run dt rest0 (im_hits K n) (im_F K n).
Proof.
  intros Hn HK. pose proof im_xc as Hxc. pose proof (step_at_bounds dt (tmin + tcod - x * tcod) Hdt ltac:(lra)) as HB. fold im_K in HB.
  assert (Hiv : 1 < iv) by (unfold iv; lra).
  destruct n as [|[|[|[|[|[|n]]]]]]; [..|exfalso; lia]; cbn [im_hits]; [ | | |apply im_acc_run; exact HK| |]; rewrite rest0_pn.
  - apply (r_relay dt Hdt HM [0; iv] 0 10); auto; [lra|]. sorted; lra.
  - eapply r_hit; [exact Hdt|exact HM|lra|left; lra|wsums; ring|wsums; ring|reflexivity|reflexivity|].
    apply r_now; auto; [wsums; lra|wsums; lra|inlist; lra|].
    eapply r_hit; [exact Hdt|exact HM|lra|left; lra|wsums; ring|wsums; ring|reflexivity|reflexivity|].
    eapply r_hit; [exact Hdt|exact HM|wsums; lra|left; wsums; lra|wsums; ring|wsums; ring|reflexivity|reflexivity|].
    apply r_end; auto; wsums; lra.
  - eapply r_hit; [exact Hdt|exact HM|lra|left; lra|wsums; ring|wsums; ring|reflexivity|reflexivity|].
    eapply r_hit; [exact Hdt|exact HM|wsums; lra|left; wsums; lra|wsums; ring|wsums; ring|reflexivity|reflexivity|].
    apply r_now; auto; [wsums; lra|wsums; lra|inlist|]. apply r_end; auto; lra.
  - apply (r_relay dt Hdt HM [tr] 0 10); auto; [lra|]. sorted; lra.
  - destruct HK as [[-> HK]|[-> HK]]; cbn [im_F].
    + apply (r_relay dt Hdt HM [tr + 2 + / 100; tr + 2 + INR im_K * dt] 0 10); auto; [lra|]. sorted; lra.
    + apply (r_relay dt Hdt HM [tr + 2 + / 100] 0 10); auto; [lra|]. sorted; lra.
Qed.
Lemma im_sorted K n : (n < 6)%nat -> (K = Some im_K \/ K = None) -> StronglySorted (fun a b => fst a < fst b) (im_hits K n).
Proof.
  intros Hn HK. pose proof im_xc as Hxc. pose proof (step_at_bounds dt (tmin + tcod - x * tcod) Hdt ltac:(lra)) as HB. fold im_K in HB.
  assert (Hiv : 1 < iv) by (unfold iv; lra).
  destruct n as [|[|[|[|[|[|n]]]]]]; [..|exfalso; lia]; cbn [im_hits]; try (sorted; lra).
  - unfold im_acc_hits. destruct (Req_EM_T x 0) as [E|E]; sorted; try lra.
    + unfold iv in *. lra.
    + assert (0 < x * tcod) by (apply Rmult_lt_0_compat; lra). unfold iv. lra.
    + unfold iv in *. lra.
  - destruct HK as [->| ->]; sorted; lra.
Qed.
Lemma im_nonempty K n g : (n < 6)%nat -> In g (im_hits K n) -> snd g <> [].
Proof.
  intros Hn. destruct n as [|[|[|[|[|[|n]]]]]]; [..|exfalso; lia]; cbn [im_hits].
  all: try unfold im_acc_hits; try destruct K; try destruct (Req_EM_T x 0); cbn [In]; intros H; repeat (destruct H as [<-|H]; [discriminate|]); destruct H.
Qed.
Lemma im_perm K n : (n < 6)%nat -> Permutation (ungroup (im_hits K n)) (received 10 im_syns_num [(0%nat, 0); (0%nat, iv); (4%nat, tr)] (im_F K) n).
Proof.
  intros Hn. destruct n as [|[|[|[|[|[|n]]]]]]; [..|exfalso; lia].
  4: cbn [im_hits]; unfold im_acc_hits; destruct (Req_EM_T x 0) as [E|E].
  all: destruct K; cbn; unfold iv; try rewrite E; perms.
Qed.
End InvMem.

(** predictions reach 500 ms, in fewer than 2^64 steps *)
Definition dt_ok (dt : R) : Prop := / 1000000 <= dt <= 500.
Lemma dt_ok_horizon dt : dt_ok dt -> 0 < dt /\ (horizon dt < 2 ^ 64)%Z.
Proof.
  intros [H1 H2]. assert (Hdt : 0 < dt) by lra. split; auto. rewrite horizon_floor by auto. destruct (base_Int_part (500 / dt)) as [B1 _].
  apply lt_IZR. eapply Rle_lt_trans; [exact B1|]. apply Rmult_lt_reg_r with dt; auto. unfold Rdiv. rewrite Rmult_assoc, Rinv_l, Rmult_1_r by lra.
  apply Rlt_le_trans with (18000000000000 * / 1000000); [lra|]. apply Rmult_le_compat; lra.
Qed.
Lemma im_syns_R tmin tcod a : tmin + tcod <> 0 -> im_syns (DataEncoder tmin tcod) (Build_invmem_net a 0 1 2 3 4 5) = im_syns_num tmin tcod.
Proof.
  intros H. unfold im_syns, im_syns_num. cbn [im_input im_first im_last im_acc im_recall im_output]. rewrite wacc_R. consts.
  repeat (f_equal; try lra).
Qed.

Lemma inv_memory_pred (tmin tcod x dt t0 tr : R) nm K :
  dt_ok dt -> 0 < tcod -> 1 < tmin -> 0 <= x <= 1 -> tmin + x * tcod + 1 < tr ->
  (K = Some (im_K tmin tcod x dt) /\ INR (im_K tmin tcod x dt) * dt + dt <= 500) \/ (K = None /\ 500 <= INR (im_K tmin tcod x dt) * dt) ->
  pruns (InvertingMemoryNetwork (DataEncoder tmin tcod) nm) im_mod (DataEncoder tmin tcod) dt
      (fun m => [SValue x (im_input m) t0; SSpike (im_recall m) tr])
      (fun m s => forall n, (n < 6)%nat -> pspike_log s n = im_F tmin tcod x dt tr K n /\ im_output m = 5%nat /\ im_recall m = 4%nat /\ im_acc m = 3%nat).
Proof.
  intros HD Htc Htm Hx Htr HK. destruct (dt_ok_horizon dt HD) as [Hdt HM]. set (enc := DataEncoder tmin tcod).
  assert (HTm : tmin + tcod <> 0) by lra.
  destruct (InvMemory_built enc nm empty_world inv_empty (neq0 _ HTm)) as (m & w & E & HB & HN & HL).
  cbn [w_neurons empty_world length Nat.add] in HN, HL. destruct m as [a i0 i1 i2 i3 i4 i5]. unfold im_nodes in HN. cbn in HN. injection HN as -> -> -> -> -> ->.
  unfold enc in HB. rewrite (im_syns_R tmin tcod a HTm) in HB.
  edestruct (psession_solves (InvertingMemoryNetwork enc nm) im_mod _ w _ enc dt (fun m => [SValue x (im_input m) t0; SSpike (im_recall m) tr])
    (im_hits tmin tcod x dt tr K) (im_F tmin tcod x dt tr K) E HB Hdt HM) as [N HR].
  - rewrite HL. cbn. stims_ok.
  - cbn. intros y Hy. repeat (destruct Hy as [<-|Hy]; [cbn; lra|]). destruct Hy.
  - rewrite HL. intros n Hn. apply im_runs; auto. apply HD.
  - rewrite HL. intros n Hn. apply im_sorted; auto. tauto.
  - rewrite HL. intros n g Hn. apply im_nonempty; auto.
  - rewrite HL. intros n Hn. apply im_perm; auto.
  - exists N. intros fuel Hf. destruct (HR fuel Hf) as (s & Es & HLg). eexists. exists s. split; [exact Es|]. intros n Hn. cbn. split; auto. apply HLg. lia.
Qed.
(** the value read back, and what happens beyond the prediction horizon *)
Theorem pred_inverting_memory (tmin tcod x dt t0 tr : R) nm :
  dt_ok dt -> 0 < tcod -> 1 < tmin -> tmin + tcod - x * tcod + 2 * dt <= 500 -> 0 <= x <= 1 -> tmin + x * tcod + 1 < tr ->
  pruns (InvertingMemoryNetwork (DataEncoder tmin tcod) nm) im_mod (DataEncoder tmin tcod) dt
      (fun m => [SValue x (im_input m) t0; SSpike (im_recall m) tr])
      (fun m s => pemits s (im_output m) (DataEncoder tmin tcod) (1 - x) (Rmax dt (/ 100) / tcod) /\
                  exists t, pspike_log s (im_output m) = [tr + 2 + / 100; t]).
Proof.
  intros HD Htc Htm H5 Hx Htr. destruct (dt_ok_horizon dt HD) as [Hdt HM].
  assert (Hxc : 0 <= x * tcod <= tcod) by (split; [apply Rmult_le_pos; lra|rewrite <- (Rmult_1_l tcod) at 2; apply Rmult_le_compat_r; lra]).
  pose proof (step_at_bounds dt (tmin + tcod - x * tcod) Hdt ltac:(lra)) as HB. fold (im_K tmin tcod x dt) in HB.
  destruct (inv_memory_pred tmin tcod x dt t0 tr nm (Some (im_K tmin tcod x dt)) HD Htc Htm Hx Htr) as [N HN]; [left; split; auto; lra|].
  exists N. intros fuel Hf. destruct (HN fuel Hf) as (m & s & Es & HL). exists m, s. split; auto.
  destruct (HL 5%nat ltac:(lia)) as (E5 & Em & _). cbn [im_F] in E5. rewrite Em. split; [|eexists; exact E5].
  eapply pemits_intro; [auto|exact E5|lra|].
  assert (M1 := Rmax_l dt (/ 100)). assert (M2 := Rmax_r dt (/ 100)).
  unfold Rdiv. rewrite Rmult_assoc, Rinv_l, Rmult_1_r by lra. apply Rabs_le. lra.
Qed.
Theorem pred_inverting_memory_lost (tmin tcod x dt t0 tr : R) nm :
  dt_ok dt -> 0 < tcod -> 1 < tmin -> 500 <= tmin + tcod - x * tcod -> 0 <= x <= 1 -> tmin + x * tcod + 1 < tr ->
  pruns (InvertingMemoryNetwork (DataEncoder tmin tcod) nm) im_mod (DataEncoder tmin tcod) dt
      (fun m => [SValue x (im_input m) t0; SSpike (im_recall m) tr])
      (fun m s => pspike_log s (im_output m) = [tr + 2 + / 100] /\ pspike_log s (im_acc m) = []).
Proof.
  intros HD Htc Htm H5 Hx Htr. destruct (dt_ok_horizon dt HD) as [Hdt HM].
  pose proof (step_at_bounds dt (tmin + tcod - x * tcod) Hdt ltac:(lra)) as HB. fold (im_K tmin tcod x dt) in HB.
  destruct (inv_memory_pred tmin tcod x dt t0 tr nm None HD Htc Htm Hx Htr) as [N HN]; [right; split; auto; lra|].
  exists N. intros fuel Hf. destruct (HN fuel Hf) as (m & s & Es & HL). exists m, s. split; auto.
  destruct (HL 5%nat ltac:(lia)) as (E5 & Em & _ & Ea). destruct (HL 3%nat ltac:(lia)) as (E3 & _). rewrite Em, Ea. auto.
Qed.
