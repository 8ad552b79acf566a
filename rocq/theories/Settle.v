(** When is a network back at rest: a neuron that has fired and receives nothing afterwards is in its initial state. *)
From Coq Require Import Arith ZArith Bool List Reals Lra Lia Permutation.
From Verif Require Import Num Heapq Elements Simulator Networks Trace SimTrace SimProps TraceProps NeuronLib NetLib Build BuildNets Bridge Session MemoryProof SegLib SimpleNets Restart MemReuse Reuse.
Import ListNotations.
Open Scope R_scope.
Open Scope list_scope.

(** nothing arrives from p over delay d after step f *)
Definition over (N : tnet) (p : nat) (d : R) (f : nat) : Prop := forall k, (f < k)%nat -> arr N p d k = 0%nat.
Lemma over_arrs N p d l f : arrs N p d l -> (forall j, In j l -> (j <= f)%nat) -> over N p d f.
Proof.
  intros H Hl k Hk. apply INR_eq. rewrite H by lia. clear H. unfold cnt. induction l as [|x l IH]; [reflexivity|].
  cbn [cnt fold_right map]. pose proof (Hl x (or_introl eq_refl)). rewrite sumf_cons, IH by (intros; apply Hl; right; auto). rewrite ind_ne by lia. cbn [INR]. lra.
Qed.
Lemma over_spk N p d l f : ext_of N p = [] -> spikes_at N p l -> (forall j, In j l -> (j + step_at (t_dt N) d <= f)%nat) -> over N p d f.
Proof.
  intros HE HS Hl k Hk. rewrite arr_eq. unfold ext_count, ext_of in *. apply map_eq_nil in HE. 
  rewrite (proj2 (filter_empty _ _)).
  - destruct (step_at (t_dt N) d <? k)%nat eqn:E; cbn [andb length]; auto. apply Nat.ltb_lt in E.
    rewrite HS. destruct (memb _ l) eqn:M; auto. apply memb_In in M. specialize (Hl _ M). lia.
  - intros q Hq. rewrite filter_empty in HE. rewrite (HE q Hq). reflexivity.
Qed.
Lemma over_le N p d f f' : over N p d f -> (f <= f')%nat -> over N p d f'.
Proof. intros H Hf k Hk. apply H. lia. Qed.
Lemma ins_over N n L f : ins N n L -> Forall (fun y => over N (s_pre y) (s_delay y) f) L -> forall k, (f < k)%nat -> no_input N n k.
Proof.
  intros H HF k Hk ty. rewrite input_in, (sumf_perm _ _ _ (ins_syn _ _ _ H)).
  rewrite (sumf_ext _ (fun _ => 0)); [apply sumf_0|]. intros y Hy. rewrite Forall_forall in HF. rewrite (HF y Hy k Hk). cbn [INR]. destruct (syntype_eqb _ _); lra.
Qed.
Lemma ins_settled N n L f k : ins N n L -> spk N f n = true -> Forall (fun y => over N (s_pre y) (s_delay y) f) L -> (f <= k)%nat -> st N k n = init_nstate (t_prm N n).
Proof. intros H HS HF Hk. apply (fired_init N n f); auto; [apply H|]. eapply ins_over; eauto. Qed.
Lemma src_settled N n k : in_syn N n = [] -> t_prm N n = stdp -> st N k n = init_nstate (t_prm N n).
Proof.
  intros HI HP. rewrite HP. change (init_nstate stdp) with (at_rest 0). apply silent; auto. intros j Hj ty. rewrite input_in, HI. reflexivity.
Qed.
Lemma spk_last N n l f : spikes_at N n l -> In f l -> spk N f n = true.
Proof. intros H Hf. rewrite H. apply memb_In. auto. Qed.
(** the "first" gadget: fires at the first input spike, its own inhibition cancels the second *)
Lemma first_settled N i n a1 a2 k : ins N n [mks i n SynV we cTsyn; mks n n SynV wi cTsyn] ->
  arrs N i 1 [a1; a2] -> (1 <= a1)%nat -> (a1 + step_at (t_dt N) 1 <= a2)%nat -> (a2 <= k)%nat -> st N k n = init_nstate (t_prm N n).
Proof.
  intros H Hin Ha1 Ha2 Hk. pose proof (step_at_ge1 (t_dt N) 1) as G1.
  assert (HS : spikes_at N n [a1]) by (eapply first_spikes; [exact H|rewrite cTsyn_R; eauto|auto|auto]).
  assert (HV : vonly N n) by (eapply ins_vonly; eauto; repeat constructor).
  rewrite (ins_prm _ _ _ H). change (init_nstate stdp) with (at_rest 0).
  set (D1 := step_at (t_dt N) 1) in *.
  set (L := [(a1, 10); ((a1 + D1)%nat, -10); (a2, 10)]).
  destruct (seg_quiet N n k L a1) with (k := k) as [A _]; auto.
  - apply H.
  - apply fired_rest; [apply H|]. eapply spk_last; [eauto|left; auto].
  - intros j Hj. ev_input H. rewrite (arrs_spikes N n cTsyn [a1]); auto.
    + autorewrite with netR. rewrite Hin by lia. unfold L. ev_simpl. fold D1. lra.
    + apply (ins_ext _ _ _ H).
    + intros q [<-|[]]; auto.
    + repeat constructor; auto.
    + lia.
  - intros j Hj. unfold L. vsum_simp. ltbs; leb_cases; cbn [andb]; first [lra | exfalso; lia].
  - lia.
  - rewrite A. f_equal. unfold L. vsum_simp. ltbs. lra.
Qed.
