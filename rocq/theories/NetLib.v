(** Constants of Networks.v over the reals, and tactics to evaluate inputs. *)
From Coq Require Import Arith ZArith Bool List Reals Lra Lia Permutation.
From Verif Require Import Num Heapq Elements Networks Trace SimTrace TraceProps NeuronLib.
Import ListNotations.
Open Scope R_scope.
Open Scope list_scope.

Lemma cVt_R : @cVt R R_num = 10. Proof. reflexivity. Qed.
Lemma we_R : @we R R_num = 10. Proof. reflexivity. Qed.
Lemma wi_R : @wi R R_num = -10. Proof. unfold wi, cVt; cbn. lra. Qed.
Lemma cTsyn_R : @cTsyn R R_num = 1. Proof. reflexivity. Qed.
Lemma cTneu_R : @cTneu R R_num = / 100. Proof. unfold cTneu, nlit; cbn. lra. Qed.
Lemma half_R x : @half R R_num x = x / 2. Proof. unfold half, nlit; cbn. lra. Qed.
Lemma quarter_R x : @quarter R R_num x = x / 4. Proof. unfold quarter, nlit; cbn. lra. Qed.
Lemma twice_R x : @twice R R_num x = 2 * x. Proof. reflexivity. Qed.
Lemma thrice_R x : @thrice R R_num x = 3 * x. Proof. reflexivity. Qed.
Lemma gmult_R : @gmult R R_num = 50. Proof. unfold gmult, cVt, ctm, ctf; cbn. field. Qed.
Lemma mpd_R : @max_prop_delay R R_num = 350. Proof. reflexivity. Qed.
Lemma nofZ_R z : @nofZ R R_num z = IZR z. Proof. reflexivity. Qed.
Lemma nadd_R a b : @nadd R R_num a b = a + b. Proof. reflexivity. Qed.
Lemma nsub_R a b : @nsub R R_num a b = a - b. Proof. reflexivity. Qed.
Lemma nmul_R a b : @nmul R R_num a b = a * b. Proof. reflexivity. Qed.
Lemma ndiv_R a b : @ndiv R R_num a b = a / b. Proof. reflexivity. Qed.
Lemma nopp_R a : @nopp R R_num a = - a. Proof. reflexivity. Qed.
#[global] Hint Rewrite cVt_R we_R wi_R cTsyn_R cTneu_R half_R quarter_R twice_R thrice_R gmult_R mpd_R
  nofZ_R nadd_R nsub_R nmul_R ndiv_R nopp_R : netR.

Definition mks (pre post : nat) (ty : syntype) (w d : R) : synapse R :=
  {| s_pre := pre; s_post := post; s_ty := ty; s_w := w; s_delay := d |}.

(** [ins N n l]: the synapses into n are exactly l; standard parameters; no external spikes *)
Record ins (N : tnet) (n : nat) (l : list (synapse R)) : Prop := {
  ins_syn : Permutation (in_syn N n) l;
  ins_prm : t_prm N n = stdp;
  ins_ext : ext_of N n = []
}.
Lemma ins_vonly N n l : ins N n l -> Forall (fun y => s_ty y = SynV) l -> vonly N n.
Proof.
  intros H HF y Hy. rewrite Forall_forall in HF. apply HF. eapply Permutation_in; [apply (ins_syn _ _ _ H)|auto].
Qed.
Lemma ins_input N n l ty k : ins N n l -> input N n ty k =
  sumf (fun y => if syntype_eqb (s_ty y) ty then s_w y * INR (arr N (s_pre y) (s_delay y) k) else 0) l.
Proof. intros H. apply input_perm, (ins_syn _ _ _ H). Qed.

(** expand [input N n ty k] along a known synapse list *)
Ltac ev_input H :=
  rewrite (ins_input _ _ _ _ _ H); unfold sumf, sumR;
  cbn [map fold_right s_ty s_w s_pre s_delay syntype_eqb mks].
Ltac ev_simpl := cbn [map fold_right]; rewrite ?cnt_cons, ?cnt_nil, ?evw_cons, ?evw_nil.

Lemma vonly_silent_input N n k ty : vonly N n -> ty <> SynV -> input N n ty k = 0.
Proof. intros H Ht. apply input_no_ty. intros y Hy. rewrite (H y Hy). congruence. Qed.

Ltac rdec := repeat match goal with
  | |- context [Rleb ?a ?b] =>
      first [ rewrite (proj2 (Rleb_true a b)) by lra | rewrite (proj2 (Rleb_false a b)) by lra ]
  end.
Ltac vrun_solve := cbn [vrun fst snd]; rdec; reflexivity.

(** relay: one synapse of weight >= threshold from a source with distinct arrivals *)
Fixpoint strict (a : nat) (l : list nat) : Prop :=
  match l with [] => True | t :: l' => (a < t)%nat /\ strict t l' end.
Lemma strict_In a l : strict a l -> forall j, In j l -> (a < j)%nat.
Proof.
  revert a; induction l as [|t l IH]; intros a H j Hj; [destruct Hj|]. destruct H as [H1 H2].
  destruct Hj as [<-|Hj]; auto. specialize (IH _ H2 _ Hj). lia.
Qed.
Lemma strict_NoDup a l : strict a l -> NoDup l.
Proof.
  revert a; induction l as [|t l IH]; intros a H; constructor; destruct H as [H1 H2]; eauto.
  intros Hj. pose proof (strict_In _ _ H2 _ Hj). lia.
Qed.
Lemma strict_map_add a l d : strict a l -> strict a (map (fun j => (j + d)%nat) l).
Proof.
  intros H. assert (forall l b, strict b l -> strict (b + d) (map (fun j => (j + d)%nat) l)).
  { clear. induction l as [|t l IH]; intros b H; cbn; auto. destruct H as [H1 H2]. split; [lia|]. apply IH; auto. }
  destruct l as [|t l]; cbn in *; auto. destruct H as [H1 H2]. split; [lia|]. apply H0; auto.
Qed.
Lemma evw_map_cnt w l k : evw (map (fun t => (t, w)) l) k = w * cnt k l.
Proof. induction l as [|t l IH]; cbn [map]; [rewrite evw_nil, cnt_nil; lra|]. rewrite evw_cons, cnt_cons, IH. lra. Qed.
Lemma relay_run w l : 10 <= w -> forall a, strict a l -> vrun 0 (map (fun t => (t, w)) l) = l.
Proof.
  intros Hw. induction l as [|t l IH]; intros a H; cbn [map vrun fst snd]; auto.
  rewrite (proj2 (Rleb_true _ _)) by lra. destruct H. f_equal. eapply IH; eauto.
Qed.
Lemma incr_map w l : forall a, strict a l -> incr a (map (fun t => (t, w)) l).
Proof. induction l as [|t l IH]; intros a H; cbn in *; auto. destruct H; auto. Qed.
Lemma relay N n src w d l : ins N n [mks src n SynV w d] -> 10 <= w -> arrs N src d l -> strict 0 l -> spikes_at N n l.
Proof.
  intros H Hw HA HS. rewrite <- (relay_run w l Hw 0 HS) .
  apply vonly_spikes; [apply H| | |].
  - eapply ins_vonly; eauto; repeat constructor.
  - apply incr_map; auto.
  - intros k Hk. ev_input H. rewrite (HA k Hk), evw_map_cnt. lra.
Qed.
Lemma relay_arrs N n src w d l d' : ins N n [mks src n SynV w d] -> 10 <= w -> arrs N src d l -> strict 0 l ->
  arrs N n d' (map (fun j => (j + step_at (t_dt N) d')%nat) l).
Proof.
  intros H Hw HA HS. apply arrs_spikes; [apply H| |apply (strict_In 0 l HS)|eapply strict_NoDup; eauto].
  eapply relay; eauto.
Qed.
Lemma arrs_perm N n d l l' : Permutation l l' -> arrs N n d l -> arrs N n d l'.
Proof. intros HP H k Hk. rewrite H by auto. apply sumf_perm, HP. Qed.
(** arrivals of a neuron with known spikes, in the shapes used by the network proofs *)
Lemma arrs_l N n L d D l : ins N n L -> spikes_at N n l -> step_at (t_dt N) d = D ->
  (forall j, In j l -> (1 <= j)%nat) -> NoDup l -> arrs N n d (map (fun j => (j + D)%nat) l).
Proof. intros H HS <- H1 H2. apply arrs_spikes; auto. apply H. Qed.
Lemma arrs_1 N n L d D a : ins N n L -> spikes_at N n [a] -> step_at (t_dt N) d = D -> (1 <= a)%nat -> arrs N n d [(a + D)%nat].
Proof.
  intros H HS HD Ha. apply (arrs_l N n L d D [a]); auto.
  - intros j [<-|[]]; auto.
  - repeat constructor; auto.
Qed.
Lemma arrs_2 N n L d D a b : ins N n L -> spikes_at N n [a; b] -> step_at (t_dt N) d = D -> (1 <= a)%nat -> (1 <= b)%nat -> a <> b ->
  arrs N n d [(a + D)%nat; (b + D)%nat].
Proof.
  intros H HS HD Ha Hb Hab. apply (arrs_l N n L d D [a; b]); auto.
  - intros j [<-|[<-|[]]]; auto.
  - repeat constructor; auto. intros [?|[]]; auto.
Qed.
Lemma arrs_0 N n L d : ins N n L -> spikes_at N n [] -> arrs N n d [].
Proof. intros H HS. apply arrs_none; [apply H|]. intros k. rewrite HS. reflexivity. Qed.
Ltac netr := autorewrite with netR; cbn [nadd nsub nmul ndiv nopp nofZ R_num]; autorewrite with netR.
