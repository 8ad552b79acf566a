(** From a network constructor run in an empty heap to what its simulation shows. *)
From Coq Require Import Arith ZArith Bool List Reals Lra Lia Permutation.
From Verif Require Import Num Heapq Elements Simulator Networks Trace SimTrace SimProps TraceProps NeuronLib NetLib Build BuildNets.
Import ListNotations.
Open Scope R_scope.
Open Scope list_scope.

Lemma prm_std (w : world R) n : inv w -> (n < length (w_neurons w))%nat -> prm w n = stdp.
Proof.
  intros I Hn. unfold prm. destruct (nth_error (w_neurons w) n) as [nr|] eqn:E.
  - rewrite (i_prm _ I n nr E). apply std_params_R.
  - apply nth_error_None in E. lia.
Qed.
Lemma wf_built (w : world R) keys enc dt ext : inv w -> 0 < dt ->
  (forall n, In n keys <-> (n < length (w_neurons w))%nat) ->
  (forall p, In p ext -> (fst p < length (w_neurons w))%nat) ->
  wf {| c_world := w; c_keys := keys; c_enc := enc; c_dt := dt |} ext.
Proof.
  intros I Hdt HK HE. constructor; cbn [c_world c_keys c_dt].
  - auto.
  - intros n Hn. apply HK. auto.
  - intros y Hy. apply (i_syn _ I y Hy).
  - intros y Hy _. destruct (i_syn _ I y Hy) as (A & B & C). split; auto. apply HK. auto.
  - intros n Hn. rewrite prm_std by auto. cbn. lra.
  - intros n Hn. rewrite prm_std by (auto; apply HK; auto). cbn. split; lra.
  - intros p Hp. apply HK. auto.
Qed.

(** spike list from spike steps *)
Definition times (dt : R) (l : list nat) : list R := map (fun k => INR k * dt) l.
Lemma filter_none {A} (f : A -> bool) l : (forall x, In x l -> f x = false) -> filter f l = [].
Proof.
  induction l as [|x l IH]; intros Hf; cbn; auto. rewrite Hf by (left; auto). apply IH. intros y Hy. apply Hf. right; auto.
Qed.
Lemma filter_all {A} (f : A -> bool) l : (forall x, In x l -> f x = true) -> filter f l = l.
Proof.
  induction l as [|x l IH]; intros Hf; cbn; auto. rewrite Hf by (left; auto). f_equal. apply IH. intros y Hy. apply Hf. right; auto.
Qed.
Lemma filter_memb_seq l : forall a K, strict a l -> filter (fun k => memb k l) (seq (S a) K) = filter (fun k => (k <=? a + K)%nat) l.
Proof.
  induction l as [|t l IH]; intros a K HS.
  - apply filter_none. intros x _. reflexivity.
  - destruct HS as [H1 H2]. cbn [filter].
    destruct (Nat.leb_spec t (a + K)).
    + replace K with ((t - S a) + S (a + K - t))%nat by lia. rewrite seq_app, filter_app.
      rewrite filter_none.
      * replace (S a + (t - S a))%nat with t by lia. cbn [seq filter app].
        assert (Em : memb t (t :: l) = true) by (apply memb_In; left; auto). rewrite Em. f_equal.
        rewrite (filter_ext_in _ (fun k => memb k l)).
        -- rewrite IH by auto. apply filter_ext_in. intros x Hx. f_equal. lia.
        -- intros x Hx. apply in_seq in Hx. rewrite memb_cons, (proj2 (Nat.eqb_neq x t)) by lia. reflexivity.
      * intros x Hx. apply in_seq in Hx. apply memb_nIn. intros [->|Hin]; [lia|]. pose proof (strict_In _ _ H2 _ Hin). lia.
    + rewrite (filter_none _ l).
      * apply filter_none. intros x Hx. apply in_seq in Hx. apply memb_nIn. intros [->|Hin]; [lia|]. pose proof (strict_In _ _ H2 _ Hin). lia.
      * intros x Hx. pose proof (strict_In _ _ H2 _ Hx). apply Nat.leb_gt. lia.
Qed.
Lemma spikes_strict N K n l : spikes_at N n l -> strict 0 l -> spikes N K n = times (t_dt N) (filter (fun k => (k <=? K)%nat) l).
Proof.
  intros HS Hst. unfold spikes, times. f_equal. rewrite (filter_ext _ (fun k => memb k l)) by (intros; apply HS).
  apply (filter_memb_seq l 0 K Hst).
Qed.
Lemma spikes_all N K n l : spikes_at N n l -> strict 0 l -> (forall k, In k l -> (k <= K)%nat) -> spikes N K n = times (t_dt N) l.
Proof.
  intros HS Hst HK. rewrite (spikes_strict N K n l) by auto. f_equal. apply filter_all. intros x Hx. apply Nat.leb_le. auto.
Qed.

(** steps available within a duration *)
Lemma num_steps_ge dt T k : 0 < dt -> INR k * dt <= T -> exists K, num_steps dt T = Ok K /\ (k <= K)%nat.
Proof.
  intros Hdt HT. assert (0 <= INR k * dt) by (apply Rmult_le_pos; [apply pos_INR|lra]).
  destruct (num_steps_floor dt T Hdt ltac:(lra)) as (K & E & B1 & B2). exists K. split; auto.
  assert (INR k < INR (S K)) by (apply Rmult_lt_reg_r with dt; lra). apply INR_lt in H0. lia.
Qed.

(** Running a top-level module: the spikes every neuron shows. *)
Lemma run_built {A} (bl : B R A) a (w : world R) m L enc dt ext T ord :
  bl empty_world = Ok (a, w) -> built empty_world w m L -> 0 < dt -> 0 <= T ->
  (forall p, In p ext -> (fst p < length (w_neurons w))%nat) -> ord_ok ord ->
  exists c s, mk_simulator w m enc dt = Ok (c, new_sim w) /\ c_world c = w /\ c_enc c = enc /\ c_dt c = dt /\
    simulate c ord (inject c (new_sim w) ext) T = Ok s /\
    (forall n l, (n < length (w_neurons w))%nat -> spikes_at (net_of w ext dt) n l -> strict 0 l ->
       (forall k, In k l -> INR k * dt <= T) -> spike_log s n = ext_spikes ext n ++ times dt l).
Proof.
  intros E HB Hdt HT HE HO. destruct HB as [I X Em Hl O ES]. cbn in Em. subst m.
  destruct (covers_all w I O Hl) as (keys & Ek & HK).
  set (c := {| c_world := w; c_keys := keys; c_enc := enc; c_dt := dt |}).
  assert (WF : wf c ext) by (apply wf_built; auto).
  destruct (num_steps_floor dt T Hdt HT) as (K & EK & HK1 & HK2).
  destruct (simulate_shows c ext ord T K WF (ord_sel_ok _ _ HO) EK) as (s & Es & SH & _).
  exists c, s. split; [unfold mk_simulator; rewrite Ek; reflexivity|]. repeat split; auto.
  intros n l Hn HS Hst HKl. rewrite (sh_spk _ _ _ _ _ SH n Hn). f_equal.
  cbn [c_world c_dt c]. apply (spikes_all (net_of w ext dt) K n l); auto.
  intros k Hk. specialize (HKl k Hk).
  assert (INR k < INR (S K)) by (apply Rmult_lt_reg_r with dt; lra). apply INR_lt in H. lia.
Qed.

(** external spikes of a neuron *)
Lemma ext_of_net (w : world R) ext dt n : ext_of (net_of w ext dt) n = ext_spikes ext n.
Proof. reflexivity. Qed.

(** synapses into a neuron of a built module *)
Lemma filter_post_out (L : list (synapse R)) n : (forall y, In y L -> s_post y <> n) -> filter (fun y => (s_post y =? n)%nat) L = [].
Proof. intros HL. apply filter_none. intros y Hy. apply Nat.eqb_neq. auto. Qed.
Lemma ins_intro N n L l : t_syns N = L -> filter (fun y => (s_post y =? n)%nat) L = l -> t_prm N n = stdp -> ext_of N n = [] -> ins N n l.
Proof. intros <- <- HP HE. constructor; auto. Qed.

(** [own N L n]: in network N the synapses into n are exactly those of L into n;
    n has the standard parameters and no external spikes *)
Record own (N : tnet) (L : list (synapse R)) (n : nat) : Prop := {
  own_syn : Permutation (in_syn N n) (filter (fun y => (s_post y =? n)%nat) L);
  own_prm : t_prm N n = stdp;
  own_ext : ext_of N n = []
}.
Lemma own_ins N L n l : own N L n -> filter (fun y => (s_post y =? n)%nat) L = l -> ins N n l.
Proof. intros [H1 H2 H3] <-. constructor; auto. Qed.
Lemma own_app_l N L1 L2 n : own N (L1 ++ L2) n -> (forall y, In y L2 -> s_post y <> n) -> own N L1 n.
Proof. intros [H1 H2 H3] HL. constructor; auto. rewrite filter_app, (filter_post_out L2), app_nil_r in H1; auto. Qed.
Lemma own_app_r N L1 L2 n : own N (L1 ++ L2) n -> (forall y, In y L1 -> s_post y <> n) -> own N L2 n.
Proof. intros [H1 H2 H3] HL. constructor; auto. rewrite filter_app, (filter_post_out L1) in H1; auto. Qed.
Lemma own_built {A} (bl : B R A) a (w : world R) m L ext dt n : bl empty_world = Ok (a, w) -> built empty_world w m L ->
  (n < length (w_neurons w))%nat -> ext_spikes ext n = [] -> own (net_of w ext dt) L n.
Proof.
  intros E [I X Em Hl O ES] Hn HE. cbn in ES. constructor.
  - unfold in_syn. cbn [net_of t_syns]. rewrite ES. reflexivity.
  - cbn. apply prm_std; auto.
  - rewrite ext_of_net. auto.
Qed.
(** a neuron without synapses into it only shows the injected spikes *)
Lemma source_arrs N n d : in_syn N n = [] -> t_prm N n = stdp -> arrs N n d (map (fun t => step_at (t_dt N) (t + d)) (ext_of N n)).
Proof.
  intros HI HP. apply arrs_ext. intros k.
  assert (HV : vonly N n) by (intros y Hy; rewrite HI in Hy; destruct Hy).
  pose proof (vonly_spikes N n [] HP HV I) as HS. rewrite HS; auto.
  intros j Hj. rewrite input_in, HI. reflexivity.
Qed.
Lemma source_silent N n : in_syn N n = [] -> t_prm N n = stdp -> spikes_at N n [].
Proof.
  intros HI HP. assert (HV : vonly N n) by (intros y Hy; rewrite HI in Hy; destruct Hy).
  apply (vonly_spikes N n [] HP HV I). intros j Hj. rewrite input_in, HI. reflexivity.
Qed.

(** computing which of an explicit list of synapses enter a given neuron *)
Ltac eqbs := repeat match goal with
  | |- context [Nat.eqb ?x ?y] =>
      first [ rewrite (proj2 (Nat.eqb_neq x y)) by lia
            | replace (Nat.eqb x y) with true by (symmetry; apply Nat.eqb_eq; lia) ]
  end.
Ltac nodes_eqs H := cbn [seq] in H; injection H; clear H; intros.
Lemma filt_eq n (y : synapse R) L : s_post y = n -> filter (fun y => (s_post y =? n)%nat) (y :: L) = y :: filter (fun y => (s_post y =? n)%nat) L.
Proof. intros E. cbn [filter]. rewrite (proj2 (Nat.eqb_eq _ _)); auto. Qed.
Lemma filt_ne n (y : synapse R) L : s_post y <> n -> filter (fun y => (s_post y =? n)%nat) (y :: L) = filter (fun y => (s_post y =? n)%nat) L.
Proof. intros E. cbn [filter]. rewrite (proj2 (Nat.eqb_neq _ _)); auto. Qed.
Lemma filt_nil n : filter (fun y : synapse R => (s_post y =? n)%nat) [] = [].
Proof. reflexivity. Qed.
Ltac filt := repeat first [rewrite filt_nil | rewrite filt_ne by (cbn [s_post syn mks]; lia) | rewrite filt_eq by (cbn [s_post syn mks]; lia)].
Ltac own_solve H :=
  eapply own_ins; [apply H; cbn [In]; tauto|];
  cbv beta zeta delta [mm_syns k_syns sk_syns im_syns sf_syns sb_syns sc_syns ex_syns lg_syns mu_syns ls_syns];
  cbn [app]; filt; reflexivity.
