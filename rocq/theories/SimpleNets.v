(** ConstantNetwork, SignedConstantNetwork, SignFlipperNetwork, MemoryNetwork (C20-C22):
    behaviour inside any network, and when simulated on their own. *)
From Coq Require Import Arith ZArith Bool List Reals Lra Lia Permutation.
From Verif Require Import Num Heapq Elements Simulator Networks Trace SimTrace SimProps TraceProps NeuronLib NetLib Build BuildNets Bridge MemoryProof Session.
Import ListNotations.
Open Scope R_scope.
Open Scope list_scope.

(** *** quantisation of intervals *)
Lemma step_diff dt x d : 0 < dt -> 0 < x -> 0 <= d ->
  (step_at dt x <= step_at dt (x + d))%nat /\
  Rabs (INR (step_at dt (x + d)) * dt - INR (step_at dt x) * dt - d) < dt /\
  (dt <= d -> (step_at dt x < step_at dt (x + d))%nat).
Proof.
  intros Hdt Hx Hd. pose proof (step_at_bounds dt x Hdt Hx) as [A1 A2].
  pose proof (step_at_bounds dt (x + d) Hdt ltac:(lra)) as [B1 B2].
  split; [apply step_at_mono; lra|]. split.
  - apply Rabs_def1; lra.
  - intros H. assert (INR (step_at dt x) < INR (step_at dt (x + d))); [|apply INR_lt; auto].
    apply Rmult_lt_reg_r with dt; auto. lra.
Qed.
Lemma step_diff_ge dt x d k : 0 < dt -> 0 < x -> 0 <= d -> (1 <= k)%nat -> INR k * dt <= d ->
  (step_at dt x + k <= step_at dt (x + d))%nat.
Proof.
  intros Hdt Hx Hd Hk HD.
  replace (x + d) with ((x + (d - INR k * dt)) + INR k * dt) by lra. rewrite step_at_plus by lra.
  assert (step_at dt x <= step_at dt (x + (d - INR k * dt)))%nat by (apply step_at_mono; lra). lia.
Qed.
Lemma step_exact dt x m : 0 < dt -> 0 < x -> step_at dt (x + INR m * dt) = (step_at dt x + m)%nat.
Proof. intros. rewrite step_at_plus by auto. lia. Qed.
Lemma step_time dt x : 0 < dt -> 0 < x -> INR (step_at dt x) * dt < x + dt.
Proof. intros. pose proof (step_at_bounds dt x H H0). lra. Qed.

(** decoding two spike times *)
Lemma decode_R (e : encoder R) d : Tcod e <> 0 -> decode_interval e d = Ok ((d - Tmin e) / Tcod e).
Proof.
  intros H. unfold decode_interval, pdiv, nzero. cbn [neqb nofZ R_num]. rewrite (proj2 (Reqb_false _ _)) by auto. reflexivity.
Qed.
Lemma decode_err (tmin tcod d v eps : R) : 0 < tcod -> Rabs (d - (tmin + v * tcod)) < eps ->
  Rabs ((d - tmin) / tcod - v) < eps / tcod.
Proof.
  intros Hc H. replace ((d - tmin) / tcod - v) with ((d - (tmin + v * tcod)) / tcod) by (field; lra).
  unfold Rdiv. rewrite Rabs_mult, (Rabs_right (/ tcod)) by (left; apply Rinv_0_lt_compat; auto).
  apply Rmult_lt_compat_r; auto. apply Rinv_0_lt_compat; auto.
Qed.

(** *** ConstantNetwork *)
Lemma const_output N r o d : ins N o [mks r o SynV we cTsyn; mks r o SynV we d] -> forall a1 a2,
  arrs N r cTsyn [a1] -> arrs N r d [a2] -> (1 <= a1)%nat -> (a1 < a2)%nat -> spikes_at N o [a1; a2].
Proof.
  intros H a1 a2 H1 H2 Ha Hlt. apply two_spikes; try lia; [apply H| |].
  - eapply ins_vonly; eauto; repeat constructor.
  - intros k Hk. ev_input H. rewrite H1, H2 by auto. autorewrite with netR. ev_simpl. lra.
Qed.
Lemma in_syn_nil N L n : t_syns N = L -> (forall y, In y L -> s_post y <> n) -> in_syn N n = [].
Proof. intros E HL. unfold in_syn. rewrite E. apply filter_post_out; auto. Qed.
Lemma built_syns {A} (bl : B R A) a (w : world R) m L : bl empty_world = Ok (a, w) -> built empty_world w m L -> w_syns w = L.
Proof. intros _ [_ _ _ _ _ ES]. cbn in ES. auto. Qed.


(** *** helpers for running a top-level network *)
Lemma emits_exact s n tmin tcod dt a b v : 0 < dt -> 0 < tcod -> spike_log s n = times dt [a; b] -> (a < b)%nat ->
  INR b * dt - INR a * dt = tmin + v * tcod -> emits s n (DataEncoder tmin tcod) v 0.
Proof.
  intros Hdt Hc HS Hab HE. apply (emits_intro s n tmin tcod dt a b v 0); auto. rewrite HE.
  replace (tmin + v * tcod - (tmin + v * tcod)) with 0 by lra. rewrite Rabs_R0. lra.
Qed.
Lemma grid_diff dt x d m : 0 < dt -> 0 < x -> d = INR m * dt ->
  INR (step_at dt (x + d)) * dt - INR (step_at dt x) * dt = d.
Proof. intros Hdt Hx ->. rewrite step_exact by auto. rewrite plus_INR. lra. Qed.

(** ** ConstantNetwork *)
Theorem constant_run (tmin tcod v dt t0 T : R) nm ord :
  0 < dt -> 0 < tcod -> 0 <= t0 -> dt <= tmin + v * tcod -> ord_ok ord ->
  t0 + 1 + (tmin + v * tcod) + dt <= T ->
  exists k s,
    session (ConstantNetwork (DataEncoder tmin tcod) v nm) k_mod (DataEncoder tmin tcod) dt (fun k => [SSpike (k_recall k) t0]) ord T = Ok (k, s) /\
    emits s (k_output k) (DataEncoder tmin tcod) v (dt / tcod) /\
    (forall m, tmin + v * tcod = INR m * dt -> emits s (k_output k) (DataEncoder tmin tcod) v 0).
Proof.
  intros Hdt Htc Ht0 Hd HO HT. set (enc := DataEncoder tmin tcod).
  destruct (Constant_built enc v nm empty_world inv_empty) as (k & w & E & HB & HN & HL).
  cbn [w_neurons empty_world length Nat.add] in HN, HL. unfold k_nodes in HN. nodes_eqs HN.
  destruct (session_built (ConstantNetwork enc v nm) k_mod k w _ enc dt (fun k => [SSpike (k_recall k) t0]) ord T E HB Hdt ltac:(lra)) as (s & Es & HSe).
  { repeat constructor. cbn. lia. } { auto. }
  exists k, s. split; [exact Es|].
  set (N := net_of w (exts enc [SSpike (k_recall k) t0]) dt) in *.
  set (d := cTsyn + (v * tcod + tmin)).
  assert (HA1 : arrs N (k_recall k) cTsyn [step_at dt (t0 + 1)]).
  { src_solve HSe. }
  assert (HA2 : arrs N (k_recall k) d [step_at dt (t0 + 1 + (tmin + v * tcod))]).
  { src_solve HSe. do 2 f_equal. unfold d. rewrite cTsyn_R. lra. }
  destruct (step_diff dt (t0 + 1) (tmin + v * tcod) Hdt ltac:(lra) ltac:(lra)) as (Q1 & Q2 & Q3). specialize (Q3 Hd).
  pose proof (step_time dt (t0 + 1) Hdt ltac:(lra)) as Z1. pose proof (step_time dt (t0 + 1 + (tmin + v * tcod)) Hdt ltac:(lra)) as Z2.
  pose proof (step_at_ge1 dt (t0 + 1)) as Hge.
  assert (G : forall m, tmin + v * tcod = INR m * dt -> INR (step_at dt (t0 + 1 + (tmin + v * tcod))) * dt - INR (step_at dt (t0 + 1)) * dt = tmin + v * tcod)
    by (intros m Em; eapply grid_diff; eauto; lra).
  set (a1 := step_at dt (t0 + 1)) in *. set (a2 := step_at dt (t0 + 1 + (tmin + v * tcod))) in *.
  assert (HO1 : spikes_at N (k_output k) [a1; a2]).
  { eapply const_output; eauto. eapply own_ins.
    - apply (se_own _ _ _ _ _ _ _ _ HSe); [lia|]. ext_simp. reflexivity.
    - unfold k_syns. cbn [filter s_post syn]. eqbs. reflexivity. }
  assert (HLg : spike_log s (k_output k) = times dt [a1; a2]).
  { apply (se_log _ _ _ _ _ _ _ _ HSe); auto; [lia|ext_simp; reflexivity|cbn; lia|].
    intros j [<-|[<-|[]]]; lra. }
  split.
  - eapply (emits_intro _ _ _ _ dt a1 a2); eauto. replace (dt / tcod * tcod) with dt by (field; lra). lra.
  - intros m Em. eapply (emits_exact _ _ _ _ dt a1 a2); eauto.
Qed.

(** ** SignedConstantNetwork *)
Theorem signed_constant_run (tmin tcod v dt t0 T : R) nm ord :
  0 < dt -> 0 < tcod -> 0 <= t0 -> dt <= tmin + Rabs v * tcod -> ord_ok ord ->
  t0 + 1 + (tmin + Rabs v * tcod) + dt <= T ->
  exists k s,
    session (SignedConstantNetwork (DataEncoder tmin tcod) v nm) sk_mod (DataEncoder tmin tcod) dt (fun k => [SSpike (sk_recall k) t0]) ord T = Ok (k, s) /\
    let out := if Rle_dec 0 v then sk_output_plus k else sk_output_minus k in
    let other := if Rle_dec 0 v then sk_output_minus k else sk_output_plus k in
    emits s out (DataEncoder tmin tcod) (Rabs v) (dt / tcod) /\
    (forall m, tmin + Rabs v * tcod = INR m * dt -> emits s out (DataEncoder tmin tcod) (Rabs v) 0) /\
    spike_log s other = [].
Proof.
  intros Hdt Htc Ht0 Hd HO HT. set (enc := DataEncoder tmin tcod).
  destruct (SignedConstant_built enc v nm empty_world inv_empty) as (k & w & E & HB & HN & HL).
  cbn [w_neurons empty_world length Nat.add] in HN, HL. unfold sk_nodes in HN. nodes_eqs HN.
  destruct (session_built (SignedConstantNetwork enc v nm) sk_mod k w _ enc dt (fun k => [SSpike (sk_recall k) t0]) ord T E HB Hdt ltac:(lra)) as (s & Es & HSe).
  { repeat constructor. cbn. lia. } { auto. }
  exists k, s. split; [exact Es|].
  set (out := if Rle_dec 0 v then sk_output_plus k else sk_output_minus k).
  set (other := if Rle_dec 0 v then sk_output_minus k else sk_output_plus k).
  assert (Etgt : sk_tgt v k = out).
  { unfold sk_tgt, out, ngeb, nzero. cbn [nleb nofZ R_num]. destruct (Rle_dec 0 v).
    - rewrite (proj2 (Rleb_true 0 v)) by lra. reflexivity.
    - rewrite (proj2 (Rleb_false 0 v)) by lra. reflexivity. }
  assert (Hoo : (out = 1 /\ other = 2)%nat \/ (out = 2 /\ other = 1)%nat) by (unfold out, other; destruct (Rle_dec 0 v); lia).
  clearbody out other. unfold sk_syns in *. rewrite Etgt in *.
  set (N := net_of w (exts enc [SSpike (sk_recall k) t0]) dt) in *.
  set (d := cTsyn + (Rabs v * tcod + tmin)).
  assert (HA1 : arrs N (sk_recall k) cTsyn [step_at dt (t0 + 1)]).
  { src_solve HSe. }
  assert (HA2 : arrs N (sk_recall k) d [step_at dt (t0 + 1 + (tmin + Rabs v * tcod))]).
  { src_solve HSe. do 2 f_equal. unfold d. rewrite cTsyn_R. lra. }
  destruct (step_diff dt (t0 + 1) (tmin + Rabs v * tcod) Hdt ltac:(lra) ltac:(lra)) as (Q1 & Q2 & Q3). specialize (Q3 Hd).
  pose proof (step_time dt (t0 + 1) Hdt ltac:(lra)) as Z1. pose proof (step_time dt (t0 + 1 + (tmin + Rabs v * tcod)) Hdt ltac:(lra)) as Z2.
  pose proof (step_at_ge1 dt (t0 + 1)) as Hge.
  assert (G : forall m, tmin + Rabs v * tcod = INR m * dt -> INR (step_at dt (t0 + 1 + (tmin + Rabs v * tcod))) * dt - INR (step_at dt (t0 + 1)) * dt = tmin + Rabs v * tcod)
    by (intros m Em; eapply grid_diff; eauto; lra).
  set (a1 := step_at dt (t0 + 1)) in *. set (a2 := step_at dt (t0 + 1 + (tmin + Rabs v * tcod))) in *.
  assert (HO1 : spikes_at N out [a1; a2]).
  { eapply const_output; eauto. eapply own_ins.
    - apply (se_own _ _ _ _ _ _ _ _ HSe); [lia|]. ext_simp. reflexivity.
    - cbn [filter s_post syn]. eqbs. reflexivity. }
  assert (HLg : spike_log s out = times dt [a1; a2]).
  { apply (se_log _ _ _ _ _ _ _ _ HSe); auto; [lia|ext_simp; reflexivity|cbn; lia|].
    intros j [<-|[<-|[]]]; lra. }
  cbv zeta. split; [|split].
  - eapply (emits_intro _ _ _ _ dt a1 a2); eauto. replace (dt / tcod * tcod) with dt by (field; lra). lra.
  - intros m Em. eapply (emits_exact _ _ _ _ dt a1 a2); eauto.
  - assert (HO2 : own N _ other) by (apply (se_own _ _ _ _ _ _ _ _ HSe); [lia|]; ext_simp; reflexivity).
    apply (se_log _ _ _ _ _ _ _ _ HSe other []); [lia|ext_simp; reflexivity| |exact I|intros j []].
    apply (source_silent N other); [|apply HO2]. apply Permutation_nil. symmetry. rewrite (own_syn _ _ _ HO2).
    cbn [filter s_post syn]. eqbs. reflexivity.
Qed.

(** ** SignFlipperNetwork: any spike train with pairwise distinct arrival steps *)
Definition spaced (dt : R) (ts : list R) : Prop := strict 0 (map (fun t => step_at dt (t + 1)) ts).
Lemma ext_spike_list n m ts enc : ext_spikes (exts enc (map (SSpike n) ts)) m = if (n =? m)%nat then ts else [].
Proof.
  unfold ext_spikes, exts. induction ts as [|t ts IH]; cbn [map flat_map stim_ext app filter fst].
  - destruct (n =? m)%nat; reflexivity.
  - destruct (n =? m)%nat; cbn [map snd]; rewrite IH; reflexivity.
Qed.
Lemma neq0 (x : R) : x <> 0 -> @neqb R _ x nzero = false.
Proof. intros H. unfold nzero. cbn [neqb R_num nofZ]. apply Reqb_false. auto. Qed.
Theorem flip_run (tmin tcod dt T : R) nm ord (plus : bool) (ts : list R) :
  0 < dt -> tcod <> 0 -> tmin + tcod <> 0 -> ord_ok ord -> spaced dt ts -> 0 <= T -> (forall t, In t ts -> 0 <= t /\ t + 1 + dt <= T) ->
  exists f s,
    session (SignFlipperNetwork (DataEncoder tmin tcod) nm) sf_mod (DataEncoder tmin tcod) dt
      (fun f => map (SSpike (if plus then sf_inp_plus f else sf_inp_minus f)) ts) ord T = Ok (f, s) /\
    spike_log s (if plus then sf_outp_minus f else sf_outp_plus f) = map (fun t => INR (step_at dt (t + 1)) * dt) ts /\
    spike_log s (if plus then sf_outp_plus f else sf_outp_minus f) = [].
Proof.
  intros Hdt Htc Htm HO Hsp HT Hts. set (enc := DataEncoder tmin tcod).
  destruct (SignFlipper_built enc nm empty_world inv_empty (neq0 _ Htm) (neq0 _ Htc)) as (f & w & E & HB & HN & HL).
  cbn [w_neurons empty_world length Nat.add] in HN, HL. unfold sf_nodes in HN. nodes_eqs HN.
  set (stims := fun f => map (SSpike (if plus then sf_inp_plus f else sf_inp_minus f)) ts).
  destruct (session_built (SignFlipperNetwork enc nm) sf_mod f w _ enc dt stims ord T E HB Hdt HT) as (s & Es & HSe).
  { unfold stims. apply Forall_map. apply Forall_forall. intros t _. cbn. destruct plus; lia. } { auto. }
  exists f, s. split; [exact Es|].
  set (N := net_of w (exts enc (stims f)) dt) in *.
  set (i := if plus then sf_inp_plus f else sf_inp_minus f) in *.
  set (i' := if plus then sf_inp_minus f else sf_inp_plus f) in *.
  set (o := if plus then sf_outp_minus f else sf_outp_plus f).
  set (o' := if plus then sf_outp_plus f else sf_outp_minus f).
  assert (Hi : (i < 4 /\ i <> i' /\ i' < 4 /\ o < 4 /\ o' < 4 /\ i <> o /\ i <> o' /\ o <> o')%nat) by (unfold i, i', o, o'; destruct plus; lia).
  assert (HF : forall n, ext_spikes (exts enc (stims f)) n = if (i =? n)%nat then ts else []) by (intros n; apply ext_spike_list).
  assert (Hno : forall n, filter (fun y => (s_post y =? n)%nat) (sf_syns (T:=R) f) =
     (if (n =? o)%nat then [syn i o SynV we cTsyn] else if (n =? o')%nat then [syn i' o' SynV we cTsyn] else [])).
  { intros n. unfold sf_syns, o, o', i, i'. cbn [filter s_post syn]. destruct plus;
      repeat (match goal with |- context [Nat.eqb ?a ?b] => destruct (Nat.eqb_spec a b) end; subst; try lia; try reflexivity). }
  assert (HA : arrs N i cTsyn (map (fun t => step_at dt (t + cTsyn)) ts)).
  { eapply (se_arrs _ _ _ _ _ _ _ _ HSe); [lia| |rewrite HF, Nat.eqb_refl; reflexivity|reflexivity].
    rewrite Hno. unfold i, o, o'. destruct plus; eqbs; reflexivity. }
  assert (HA' : arrs N i' cTsyn []).
  { eapply (se_arrs _ _ _ _ _ _ _ _ HSe); [lia| |rewrite HF; eqbs; reflexivity|reflexivity].
    rewrite Hno. unfold i', o, o'. destruct plus; eqbs; reflexivity. }
  assert (Hin : forall n l, (n < 4)%nat -> n <> i -> filter (fun y => (s_post y =? n)%nat) (sf_syns f) = l -> ins N n l).
  { intros n l Hn Hni Hl. eapply own_ins; [|exact Hl]. apply (se_own _ _ _ _ _ _ _ _ HSe); [lia|]. rewrite HF. eqbs. reflexivity. }
  split.
  - assert (EL : map (fun t => INR (step_at dt (t + 1)) * dt) ts = times dt (map (fun t => step_at dt (t + 1)) ts))
      by (unfold times; rewrite map_map; reflexivity). rewrite EL.
    apply (se_log _ _ _ _ _ _ _ _ HSe); [lia|rewrite HF; eqbs; reflexivity| |exact Hsp|].
    + eapply (relay N o i we cTsyn); [apply Hin; try lia|rewrite we_R; lra|exact HA|exact Hsp].
      rewrite Hno, Nat.eqb_refl. reflexivity.
    + intros k Hk. apply in_map_iff in Hk as (t & <- & Ht). destruct (Hts t Ht) as [B1 B2].
      pose proof (step_time dt (t + 1) Hdt ltac:(lra)). lra.
  - apply (se_log _ _ _ _ _ _ _ _ HSe o' []); [lia|rewrite HF; eqbs; reflexivity| |exact I|intros k []].
    eapply (relay N o' i' we cTsyn []); [apply Hin; try lia|rewrite we_R; lra|exact HA'|exact I].
    rewrite Hno. rewrite (proj2 (Nat.eqb_neq o' o)), Nat.eqb_refl by lia. reflexivity.
Qed.

(** ** MemoryNetwork *)
Definition mm_internal (m : memory_net) := [mm_first m; mm_last m; mm_acc m; mm_acc2 m; mm_ready m; mm_output m].
Lemma mem_in_of N wacc m b : mm_nodes m = seq b 8 -> (forall n, In n (mm_internal m) -> own N (mm_syns wacc m) n) -> mem_in N wacc m.
Proof.
  intros HN HO. unfold mm_nodes in HN. nodes_eqs HN. unfold mm_internal in HO. constructor; own_solve HO.
Qed.
Lemma wacc_R tmin tcod : wacc_of (DataEncoder tmin tcod) = 1000 / (tmin + tcod).
Proof. unfold wacc_of, cVt, ctm. cbn [ndiv nmul R_num nofZ DataEncoder Tmax nadd]. f_equal. lra. Qed.

Theorem memory_run (tmin tcod x dt t0 tr T : R) nm ord :
  0 < dt <= 1 / 2 -> 0 < tcod -> 1 + dt <= tmin -> 0 <= x <= 1 -> 0 <= t0 -> ord_ok ord ->
  t0 + 2 + (tmin + tcod) + 3 * dt <= tr -> tr + (tmin + tcod) + 4 + 4 * dt <= T ->
  exists m s,
    session (MemoryNetwork (DataEncoder tmin tcod) nm) mm_mod (DataEncoder tmin tcod) dt
      (fun m => [SValue x (mm_input m) t0; SSpike (mm_recall m) tr]) ord T = Ok (m, s) /\
    emits s (mm_output m) (DataEncoder tmin tcod) x (3 * dt / tcod) /\
    (forall p, 1 = INR p * dt -> emits s (mm_output m) (DataEncoder tmin tcod) x (dt / tcod)) /\
    (forall p q, 1 = INR p * dt -> tmin + x * tcod = INR q * dt -> emits s (mm_output m) (DataEncoder tmin tcod) x 0) /\
    (exists t, spike_log s (mm_ready m) = [t] /\ t < tr + 1).
Proof.
  intros [Hdt Hdt2] Htc Htm Hx Ht0 HO Htr HT. set (enc := DataEncoder tmin tcod).
  assert (HTm : tmin + tcod <> 0) by lra.
  destruct (Memory_built enc nm empty_world inv_empty (neq0 _ HTm)) as (m & w & E & HB & HN & HL).
  cbn [w_neurons empty_world length Nat.add] in HN, HL.
  set (stims := fun m => [SValue x (mm_input m) t0; SSpike (mm_recall m) tr]).
  pose proof HN as HN'. unfold mm_nodes in HN'. nodes_eqs HN'.
  destruct (session_built (MemoryNetwork enc nm) mm_mod m w _ enc dt stims ord T E HB Hdt ltac:(lra)) as (s & Es & HSe).
  { stims_ok. } { auto. }
  exists m, s. split; [exact Es|].
  set (N := net_of w (exts enc (stims m)) dt) in *.
  set (iv := tmin + x * tcod) in *. unfold stims in *.
  assert (Hxc : 0 <= x * tcod <= tcod) by (split; [apply Rmult_le_pos; lra|rewrite <- (Rmult_1_l tcod) at 2; apply Rmult_le_compat_r; lra]).
  assert (Hiv : 1 + dt <= iv <= tmin + tcod) by (unfold iv; lra).
  assert (HA1 : arrs N (mm_input m) 1 [step_at dt (t0 + 1); step_at dt (t0 + 1 + iv)]).
  { src_solve HSe. do 3 f_equal. fold iv. unfold enc; cbn [DataEncoder Tmin Tcod]. unfold iv. lra. }
  assert (HR1 : arrs N (mm_recall m) 1 [step_at dt (tr + 1)]) by (src_solve HSe).
  assert (HR2 : arrs N (mm_recall m) 2 [step_at dt (tr + 2)]) by (src_solve HSe).
  assert (HM : mem_in N (1000 / (tmin + tcod)) m).
  { unfold enc in HSe. rewrite wacc_R in HSe. apply (mem_in_of _ _ _ 0); auto. intros n Hn. apply (se_own _ _ _ _ _ _ _ _ HSe).
    - unfold mm_internal in Hn. cbn [In] in Hn. intuition lia.
    - unfold mm_internal in Hn. cbn [In] in Hn. destruct Hn as [<-|[<-|[<-|[<-|[<-|[<-|[]]]]]]]; ext_simp; reflexivity. }
  destruct (step_diff dt (t0 + 1) iv Hdt ltac:(lra) ltac:(lra)) as (Q1 & Q2 & _).
  assert (GD : forall q, iv = INR q * dt -> INR (step_at dt (t0 + 1 + iv)) * dt - INR (step_at dt (t0 + 1)) * dt = iv)
    by (intros q Eq; eapply grid_diff; eauto; lra).
  assert (Ha12 : (step_at dt (t0 + 1) + step_at dt 1 <= step_at dt (t0 + 1 + iv))%nat).
  { apply step_diff_ge; try lra; try apply step_at_ge1. pose proof (step_time dt 1 Hdt ltac:(lra)). unfold iv. lra. }
  pose proof (step_at_bounds dt 1 Hdt ltac:(lra)) as BD1. pose proof (step_at_bounds dt 2 Hdt ltac:(lra)) as BD2.
  pose proof (step_at_bounds dt (t0 + 1) Hdt ltac:(lra)) as BA1. pose proof (step_at_bounds dt (t0 + 1 + iv) Hdt ltac:(lra)) as BA2.
  pose proof (step_at_bounds dt (tr + 1) Hdt ltac:(lra)) as BR1. pose proof (step_at_bounds dt (tr + 2) Hdt ltac:(lra)) as BR2.
  pose proof (step_at_bounds dt (tmin + tcod) Hdt ltac:(lra)) as BM.
  pose proof (step_at_ge1 dt (t0 + 1)) as G1. pose proof (step_at_ge1 dt 1) as G2. pose proof (step_at_ge1 dt (tr + 2)) as G3.
  pose proof (step_at_ge1 dt (tmin + tcod)) as G4.
  assert (GR : forall p, 1 = INR p * dt -> (step_at dt 2 = 2 * p /\ step_at dt 1 = p /\ step_at dt (tr + 2) = step_at dt (tr + 1) + p)%nat).
  { intros p Ep. assert (p <> 0)%nat by (intros ->; cbn in Ep; lra). repeat split.
    - replace 2 with (INR (2 * p) * dt) by (rewrite mult_INR; cbn [INR]; lra). apply step_at_grid; auto. lia.
    - rewrite Ep at 1. apply step_at_grid; auto. lia.
    - replace (tr + 2) with (tr + 1 + INR p * dt) by lra. apply step_exact; lra. }
  set (a1 := step_at dt (t0 + 1)) in *. set (a2 := step_at dt (t0 + 1 + iv)) in *.
  set (r1 := step_at dt (tr + 1)) in *. set (r2 := step_at dt (tr + 2)) in *.
  assert (HFr : (F N (tmin + tcod) a1 + step_at dt 1 < r1)%nat).
  { unfold F. cbn [N net_of t_dt]. apply INR_lt. rewrite plus_INR, plus_INR, minus_INR, plus_INR by lia. cbn [INR].
    apply Rmult_lt_reg_r with dt; auto. lra. }
  assert (Hle2 : (a2 + step_at dt 2 < r1)%nat).
  { apply INR_lt. rewrite plus_INR. apply Rmult_lt_reg_r with dt; auto. unfold iv in BA2. lra. }
  assert (HD : (step_at dt 1 <= step_at dt 2)%nat) by (apply step_at_mono; lra).
  assert (Hord : (r2 < r1 + step_at dt 2 - step_at dt 1 + (a2 - a1))%nat).
  { apply INR_lt. rewrite plus_INR, !minus_INR, plus_INR by lia. apply Rmult_lt_reg_r with dt; auto. apply Rabs_def2 in Q2. unfold iv in Q2. lra. }
  pose proof (mem_output N m (tmin + tcod) Hdt ltac:(lra) HM a1 a2 HA1 G1 Ha12 r1 r2 HR1 HR2 G3 HFr Hle2) as HOut.
  cbn [N net_of t_dt] in HOut. fold N in HOut. specialize (HOut ltac:(lia)).
  pose proof (mem_ready N m (tmin + tcod) Hdt ltac:(lra) HM a1 a2 HA1 G1 Ha12) as HRd.
  set (b := (r1 + step_at dt 2 - step_at dt 1 + (a2 - a1))%nat) in *.
  assert (EI : INR b * dt - INR r2 * dt = (INR a2 * dt - INR a1 * dt) + (INR r1 * dt + INR (step_at dt 2) * dt - INR (step_at dt 1) * dt - INR r2 * dt)).
  { unfold b. rewrite plus_INR, !minus_INR, plus_INR by lia. lra. }
  assert (HLg : spike_log s (mm_output m) = times dt [r2; b]).
  { apply (se_log _ _ _ _ _ _ _ _ HSe); auto; [lia|ext_simp; reflexivity|cbn; lia|].
    apply Rabs_def2 in Q2. unfold iv in Q2. intros j [<-|[<-|[]]]; lra. }
  split; [|split; [|split]].
  - eapply (emits_intro _ _ _ _ dt r2 b); auto. rewrite EI. replace (3 * dt / tcod * tcod) with (3 * dt) by (field; lra).
    fold iv. apply Rabs_def2 in Q2. apply Rabs_le. lra.
  - intros p Ep. destruct (GR p Ep) as (K1 & K2 & K3). eapply (emits_intro _ _ _ _ dt r2 b); auto. rewrite EI, K1, K2, K3.
    replace (dt / tcod * tcod) with dt by (field; lra). rewrite plus_INR, mult_INR. cbn [INR]. fold iv. apply Rabs_def2 in Q2. apply Rabs_le. lra.
  - intros p q Ep Eq. destruct (GR p Ep) as (K1 & K2 & K3). eapply (emits_exact _ _ _ _ dt r2 b); auto. rewrite EI, K1, K2, K3.
    rewrite plus_INR, mult_INR. cbn [INR]. fold iv. rewrite (GD q Eq). lra.
  - exists (INR (F N (tmin + tcod) a1 + step_at dt 1) * dt). split.
    + apply (se_log _ _ _ _ _ _ _ _ HSe (mm_ready m) [(F N (tmin + tcod) a1 + step_at dt 1)%nat]); [lia|ext_simp; reflexivity|exact HRd|cbn; lia|].
      intros j [<-|[]]. apply lt_INR in HFr. apply Rmult_lt_compat_r with (r := dt) in HFr; auto. lra.
    + unfold F. cbn [N net_of t_dt]. rewrite plus_INR, plus_INR, minus_INR, plus_INR by lia. cbn [INR]. lra.
Qed.

(** apply_input_value is two injected spikes *)
Lemma session_value {A} (bl : B R A) md enc dt (v t0 : R) (n : A -> nat) (more : A -> list stim) ord T : 0 <= v <= 1 ->
  session bl md enc dt (fun a => SValue v (n a) t0 :: more a) ord T =
  session bl md enc dt (fun a => SSpike (n a) t0 :: SSpike (n a) (t0 + (Tmin enc + v * Tcod enc)) :: more a) ord T.
Proof.
  intros Hv. unfold session. destruct (bl empty_world) as [[a w]|]; cbn [rbind fst snd]; auto.
  unfold mk_simulator. destruct (neurons_of w (md a)) as [keys|]; cbn [rbind fst snd]; auto.
  cbn [rfold feed]. rewrite apply_input_value_ok by auto. cbn [rbind]. reflexivity.
Qed.
Theorem flip_value_run (tmin tcod x dt t0 T : R) nm ord (plus : bool) :
  0 < dt -> 0 < tcod -> dt <= tmin -> 0 <= x <= 1 -> 0 <= t0 -> ord_ok ord -> t0 + 1 + (tmin + tcod) + dt <= T ->
  exists f s,
    session (SignFlipperNetwork (DataEncoder tmin tcod) nm) sf_mod (DataEncoder tmin tcod) dt
      (fun f => [SValue x (if plus then sf_inp_plus f else sf_inp_minus f) t0]) ord T = Ok (f, s) /\
    emits s (if plus then sf_outp_minus f else sf_outp_plus f) (DataEncoder tmin tcod) x (dt / tcod) /\
    (forall m, tmin + x * tcod = INR m * dt -> emits s (if plus then sf_outp_minus f else sf_outp_plus f) (DataEncoder tmin tcod) x 0) /\
    spike_log s (if plus then sf_outp_plus f else sf_outp_minus f) = [].
Proof.
  intros Hdt Htc Htm Hx Ht0 HO HT.
  assert (Hxc : 0 <= x * tcod <= tcod) by (split; [apply Rmult_le_pos; lra|rewrite <- (Rmult_1_l tcod) at 2; apply Rmult_le_compat_r; lra]).
  destruct (step_diff dt (t0 + 1) (tmin + x * tcod) Hdt ltac:(lra) ltac:(lra)) as (Q1 & Q2 & Q3). specialize (Q3 ltac:(lra)).
  pose proof (step_at_ge1 dt (t0 + 1)) as Hge.
  assert (E2 : t0 + (tmin + x * tcod) + 1 = t0 + 1 + (tmin + x * tcod)) by lra.
  destruct (flip_run tmin tcod dt T nm ord plus [t0; t0 + (tmin + x * tcod)]) as (f & s & Es & L1 & L2); auto; try lra.
  { unfold spaced. cbn [map strict]. rewrite E2. lia. }
  { intros t [<-|[<-|[]]]; lra. }
  exists f, s. rewrite session_value by auto. split; [exact Es|]. cbn [map] in L1. rewrite E2 in L1.
  assert (G : forall m, tmin + x * tcod = INR m * dt -> INR (step_at dt (t0 + 1 + (tmin + x * tcod))) * dt - INR (step_at dt (t0 + 1)) * dt = tmin + x * tcod)
    by (intros m Em; eapply grid_diff; eauto; lra).
  split; [|split; auto].
  - apply (emits_intro _ _ _ _ dt (step_at dt (t0 + 1)) (step_at dt (t0 + 1 + (tmin + x * tcod)))); auto. replace (dt / tcod * tcod) with dt by (field; lra). lra.
  - intros m Em. apply (emits_exact _ _ _ _ dt (step_at dt (t0 + 1)) (step_at dt (t0 + 1 + (tmin + x * tcod)))); eauto.
Qed.
