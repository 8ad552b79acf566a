(** What a user script does: build a network in a fresh interpreter, create a Simulator
    for it, apply inputs, call simulate once and read the spike log.
    Specification vocabulary of the network theorems C20-C31, with the lemma that
    reduces such a script to the recurrence of Trace.v. *)
From Coq Require Import Arith ZArith Bool List Reals Lra Lia Permutation.
From Verif Require Import Num Heapq Elements Simulator Networks Trace SimTrace SimProps TraceProps NeuronLib NetLib Build BuildNets Bridge.
Import ListNotations.
Open Scope R_scope.
Open Scope list_scope.

(** one call of apply_input_value or apply_input_spike (simulator.py:52-82) *)
Inductive stim := SValue (v : R) (n : nat) (t0 : R) | SSpike (n : nat) (t : R).
Definition feed (c : cfg R) (s : sim R) (x : stim) : res (sim R) :=
  match x with
  | SValue v n t0 => apply_input_value c s v n t0
  | SSpike n t => Ok (apply_input_spike c s n t)
  end.
(** net = bl(); sim = Simulator(net, enc, dt); inputs; sim.simulate(T) *)
Definition session {A} (bl : B R A) (md : A -> nat) (enc : encoder R) (dt : R) (stims : A -> list stim)
  (ord : nat -> list nat -> list nat) (T : R) : res (A * sim R) :=
  let* aw := bl empty_world in
  let* cs := mk_simulator (snd aw) (md (fst aw)) enc dt in
  let* s1 := rfold (feed (fst cs)) (stims (fst aw)) (snd cs) in
  let* s2 := simulate (fst cs) ord s1 T in
  Ok (fst aw, s2).
(** the log of neuron n is a pair of spikes whose interval decodes to v up to eps *)
Definition emits (s : sim R) (n : nat) (enc : encoder R) (v eps : R) : Prop :=
  exists t1 t2 y, spike_log s n = [t1; t2] /\ t1 < t2 /\ decode_interval enc (t2 - t1) = Ok y /\ Rabs (y - v) <= eps.

(** ** reduction *)
Definition stim_ext (enc : encoder R) (x : stim) : list (nat * R) :=
  match x with
  | SValue v n t0 => [(n, t0); (n, t0 + (Tmin enc + v * Tcod enc))]
  | SSpike n t => [(n, t)]
  end.
Definition stim_ok (K : nat) (x : stim) : Prop :=
  match x with SValue v n t0 => 0 <= v <= 1 /\ (n < K)%nat | SSpike n t => (n < K)%nat end.
Definition exts enc (l : list stim) : list (nat * R) := flat_map (stim_ext enc) l.
Lemma feed_all c K l : Forall (stim_ok K) l -> forall s, rfold (feed c) l s = Ok (inject c s (exts (c_enc c) l)).
Proof.
  induction 1 as [|x l Hx Hl IH]; intros s; [reflexivity|]. cbn [rfold exts flat_map].
  assert (E : feed c s x = Ok (inject c s (stim_ext (c_enc c) x))).
  { destruct x as [v n t0|n t]; cbn [feed stim_ext].
    - apply apply_input_value_ok. apply Hx.
    - reflexivity. }
  rewrite E. cbn [rbind]. rewrite IH. rewrite inject_app. reflexivity.
Qed.
Lemma exts_in enc K l : Forall (stim_ok K) l -> forall p, In p (exts enc l) -> (fst p < K)%nat.
Proof.
  intros HF p Hp. apply in_flat_map in Hp as (x & Hx & Hp). rewrite Forall_forall in HF. specialize (HF x Hx).
  destruct x as [v n t0|n t]; cbn in HF, Hp.
  - destruct Hp as [<-|[<-|[]]]; cbn; tauto.
  - destruct Hp as [<-|[]]; cbn; tauto.
Qed.

Record sess {A} (a : A) (w : world R) (L : list (synapse R)) enc dt (l : list stim) (T : R) (s : sim R) : Prop := {
  se_log : forall n sp, (n < length (w_neurons w))%nat -> ext_spikes (exts enc l) n = [] ->
    spikes_at (net_of w (exts enc l) dt) n sp -> strict 0 sp -> (forall k, In k sp -> INR k * dt <= T) -> spike_log s n = times dt sp;
  se_own : forall n, (n < length (w_neurons w))%nat -> ext_spikes (exts enc l) n = [] -> own (net_of w (exts enc l) dt) L n;
  se_src : forall n d, (n < length (w_neurons w))%nat -> filter (fun y => (s_post y =? n)%nat) L = [] ->
    arrs (net_of w (exts enc l) dt) n d (map (fun t => step_at dt (t + d)) (ext_spikes (exts enc l) n))
}.
Lemma session_built {A} (bl : B R A) (md : A -> nat) a (w : world R) L enc dt stims ord T :
  bl empty_world = Ok (a, w) -> built empty_world w (md a) L -> 0 < dt -> 0 <= T ->
  Forall (stim_ok (length (w_neurons w))) (stims a) -> ord_ok ord ->
  exists s, session bl md enc dt stims ord T = Ok (a, s) /\ sess a w L enc dt (stims a) T s.
Proof.
  intros E HB Hdt HT HF HO.
  destruct (run_built bl a w (md a) L enc dt (exts enc (stims a)) T ord E HB Hdt HT (exts_in _ _ _ HF) HO)
    as (c & s & Ec & Ew & Ee & Ed & Es & HS).
  exists s. split; [|constructor].
  - unfold session. rewrite E. cbn [rbind fst snd]. rewrite Ec. cbn [rbind fst snd].
    rewrite (feed_all c _ _ HF). cbn [rbind]. rewrite Ee, Es. reflexivity.
  - intros n sp Hn Hx H1 H2 H3. rewrite (HS n sp) by auto. rewrite Hx. reflexivity.
  - intros n Hn Hx. eapply own_built; eauto.
  - intros n d Hn Hf.
    assert (HR : in_syn (net_of w (exts enc (stims a)) dt) n = []).
    { unfold in_syn. cbn [net_of t_syns]. destruct HB as [_ _ _ _ _ ES]. cbn in ES. rewrite ES. auto. }
    apply (source_arrs (net_of w (exts enc (stims a)) dt) n d HR). cbn. apply prm_std; [apply HB|auto].
Qed.

(** quantised input interval: two spikes of apply_input_value seen over delay 1 *)
Lemma times_2 dt a b : times dt [a; b] = [INR a * dt; INR b * dt]. Proof. reflexivity. Qed.
Lemma emits_intro s n tmin tcod dt a b v eps : 0 < dt -> 0 < tcod -> spike_log s n = times dt [a; b] -> (a < b)%nat ->
  Rabs (INR b * dt - INR a * dt - (tmin + v * tcod)) <= eps * tcod -> emits s n (DataEncoder tmin tcod) v eps.
Proof.
  intros Hdt Hc HS Hab HE. exists (INR a * dt), (INR b * dt), ((INR b * dt - INR a * dt - tmin) / tcod).
  rewrite HS, times_2. split; auto. split.
  - apply Rmult_lt_compat_r; auto. apply lt_INR; auto.
  - split.
    + unfold decode_interval, pdiv, nzero. cbn [neqb nofZ R_num DataEncoder Tcod Tmin nsub ndiv].
      rewrite (proj2 (Reqb_false _ _)) by lra. reflexivity.
    + replace ((INR b * dt - INR a * dt - tmin) / tcod - v) with ((INR b * dt - INR a * dt - (tmin + v * tcod)) / tcod) by (field; lra).
      unfold Rdiv. rewrite Rabs_mult, (Rabs_right (/ tcod)) by (left; apply Rinv_0_lt_compat; auto).
      apply Rmult_le_reg_r with tcod; auto. rewrite Rmult_assoc, Rinv_l by lra. lra.
Qed.
Lemma se_arrs {A} (a : A) w L enc dt l T s : sess a w L enc dt l T s -> forall n d ts l', (n < length (w_neurons w))%nat ->
  filter (fun y => (s_post y =? n)%nat) L = [] -> ext_spikes (exts enc l) n = ts -> map (fun t => step_at dt (t + d)) ts = l' ->
  arrs (net_of w (exts enc l) dt) n d l'.
Proof. intros HSe n d ts l' Hn Hf <- <-. apply (se_src _ _ _ _ _ _ _ _ HSe); auto. Qed.
Ltac ext_simp := unfold ext_spikes, exts; cbn [flat_map stim_ext app filter fst map snd]; eqbs; cbn [map app snd].
Ltac syn_simp :=
  cbv beta zeta delta [mm_syns k_syns sk_syns im_syns sf_syns sb_syns sc_syns ex_syns lg_syns mu_syns ls_syns];
  cbn [app]; filt; reflexivity.
(** arrivals from an input neuron that only receives injected spikes *)
Ltac src_solve HSe := eapply (se_arrs _ _ _ _ _ _ _ _ HSe); [lia | syn_simp | ext_simp; reflexivity | cbn [map]; try reflexivity].
Ltac stims_ok := repeat (apply Forall_cons || apply Forall_nil); cbn [stim_ok]; repeat apply conj; first [lia | lra].
