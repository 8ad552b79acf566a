(** Closed form of a neuron that only receives ge weights: its potential is the sum of
    the ramps started by the events, until it fires. *)
From Coq Require Import Arith ZArith Bool List Reals Lra Lia Permutation.
From Verif Require Import Num Heapq Elements Networks Trace SimTrace TraceProps NeuronLib NetLib MemoryProof.
Import ListNotations.
Open Scope R_scope.
Open Scope list_scope.

Definition glin (L : list (nat * R)) (k : nat) : R := sumf (fun p => if (fst p <=? k)%nat then snd p else 0) L.
Definition vlin (L : list (nat * R)) (k : nat) : R := sumf (fun p => snd p * INR (S k - fst p)) L.
Lemma glin_S L k : glin L (S k) = glin L k + evw L (S k).
Proof.
  unfold glin, evw. induction L as [|[t w] L IH]; [unfold sumf; cbn; lra|].
  rewrite !sumf_cons; cbn [fst snd]. rewrite IH. clear IH. change (ind (S k) t) with (if (S k =? t)%nat then 1 else 0).
  destruct (Nat.leb_spec t (S k)), (Nat.leb_spec t k), (Nat.eqb_spec (S k) t); try lia; lra.
Qed.
Lemma vlin_S L k : vlin L (S k) = vlin L k + glin L (S k).
Proof.
  unfold glin, vlin. induction L as [|[t w] L IH]; [unfold sumf; cbn; lra|].
  rewrite !sumf_cons; cbn [fst snd].
  destruct (Nat.leb_spec t (S k)).
  - replace (S (S k) - t)%nat with (S (S k - t)) by lia. rewrite S_INR. lra.
  - replace (S (S k) - t)%nat with 0%nat by lia. replace (S k - t)%nat with 0%nat by lia. cbn [INR]. lra.
Qed.
Lemma vlin_0 L : (forall p, In p L -> (1 <= fst p)%nat) -> vlin L 0 = 0.
Proof.
  intros H. unfold vlin. rewrite (sumf_ext _ (fun _ => 0)); [apply sumf_0|]. intros p Hp. specialize (H p Hp).
  replace (1 - fst p)%nat with 0%nat by lia. cbn. lra.
Qed.
Lemma glin_0 L : (forall p, In p L -> (1 <= fst p)%nat) -> glin L 0 = 0.
Proof.
  intros H. unfold glin. rewrite (sumf_ext _ (fun _ => 0)); [apply sumf_0|]. intros p Hp. specialize (H p Hp).
  destruct (Nat.leb_spec (fst p) 0); [lia|auto].
Qed.
Lemma vlin_cons t w L k : vlin ((t, w) :: L) k = w * INR (S k - t) + vlin L k. Proof. reflexivity. Qed.
Lemma vlin_nil k : vlin [] k = 0. Proof. reflexivity. Qed.
Lemma vlin_app L L' k : vlin (L ++ L') k = vlin L k + vlin L' k.
Proof. unfold vlin. apply sumf_app. Qed.
Lemma glin_cons t w L k : glin ((t, w) :: L) k = (if (t <=? k)%nat then w else 0) + glin L k. Proof. reflexivity. Qed.

Section Ge.
Variable N : tnet.
Variable n : nat.
Variable L : list (nat * R).
Hypothesis HP : t_prm N n = stdp.
Hypothesis HG : geonly N n.
Hypothesis HL : forall p, In p L -> (1 <= fst p)%nat.

Lemma geonly_closed K :
  (forall k, (1 <= k <= K)%nat -> input N n SynGe k = evw L k) ->
  (forall k, (1 <= k <= K)%nat -> t_dt N / 100 * vlin L k < 10) ->
  forall k, (k <= K)%nat -> st N k n = ramp_st (t_dt N / 100 * vlin L k) (glin L k) /\ spk N k n = false.
Proof.
  intros HI HV. induction k as [|k IH]; intros Hk.
  - rewrite vlin_0, glin_0 by auto. split; [|reflexivity]. rewrite (init_rest N n HP), at_rest_ramp. f_equal. lra.
  - destruct (IH ltac:(lia)) as [IS _].
    destruct (ramp N n k _ _ (evw L (S k)) 1 HP HG IS) with (i := 1%nat) as [A B]; try lia.
    + apply HI. lia.
    + intros i Hi. assert (i = 1)%nat by lia. subst i. rewrite <- glin_S. cbn [INR].
      specialize (HV (S k) ltac:(lia)). rewrite vlin_S in HV. lra.
    + rewrite Nat.add_1_r in A, B. split; auto. rewrite A, <- glin_S, vlin_S. f_equal. cbn [INR]. lra.
Qed.
(** fires once, at step K *)
Lemma geonly_once K : (1 <= K)%nat ->
  (forall k, (1 <= k)%nat -> input N n SynGe k = evw L k) ->
  (forall k, (1 <= k < K)%nat -> t_dt N / 100 * vlin L k < 10) ->
  10 <= t_dt N / 100 * vlin L K -> (forall p, In p L -> (fst p <= K)%nat) ->
  spikes_at N n [K].
Proof.
  intros HK HI HV HF HM k.
  destruct (geonly_closed (K - 1)) with (k := (K - 1)%nat) as [IS _]; try lia.
  { intros j Hj. apply HI. lia. } { intros j Hj. apply HV. lia. }
  destruct (ramp_fire N n (K - 1) _ _ (evw L K) 1 HP HG IS) as (_ & B & C); try lia.
  { replace (S (K - 1)) with K by lia. apply HI. lia. }
  { replace (evw L K) with (evw L (S (K - 1))) by (f_equal; lia). rewrite <- glin_S.
    replace K with (S (K - 1)) in HF by lia. rewrite vlin_S in HF. cbn [INR]. lra. }
  replace (K - 1 + 1)%nat with K in B, C by lia.
  cbn [memb existsb]. rewrite orb_false_r.
  destruct (Nat.lt_trichotomy k K) as [Hk|[->|Hk]].
  - rewrite (proj2 (Nat.eqb_neq _ _)) by lia. apply (geonly_closed (K - 1)); try lia; intros j Hj; [apply HI|apply HV]; lia.
  - rewrite Nat.eqb_refl. auto.
  - rewrite (proj2 (Nat.eqb_neq _ _)) by lia. eapply (rest_forever N n K 0); eauto; try lra.
    intros j Hj. apply geonly_none; auto. rewrite HI by lia. apply evw_out. intros p Hp. specialize (HM p Hp). lia.
Qed.
(** never fires *)
Lemma geonly_never :
  (forall k, (1 <= k)%nat -> input N n SynGe k = evw L k) ->
  (forall k, (1 <= k)%nat -> t_dt N / 100 * vlin L k < 10) -> spikes_at N n [].
Proof. intros HI HV k. apply (geonly_closed k); try lia; intros j Hj; [apply HI|apply HV]; lia. Qed.
End Ge.

(** thresholds in the units of Tmax: weight 1000/Tmax charges 10 dt/Tmax per step *)
Lemma unit_lt dt Tm (x : Z) : 0 < dt -> 0 < Tm -> (x < Z.of_nat (step_at dt Tm))%Z -> dt / 100 * (1000 / Tm * IZR x) < 10.
Proof.
  intros Hdt HT Hx. pose proof (step_at_bounds dt Tm Hdt HT) as [B1 B2].
  replace (dt / 100 * (1000 / Tm * IZR x)) with (10 * (IZR x * dt / Tm)) by (field; lra).
  assert (IZR x * dt < Tm).
  { apply Rle_lt_trans with (INR (step_at dt Tm) * dt - dt); auto.
    assert (IZR x <= INR (step_at dt Tm) - 1).
    { rewrite INR_IZR_INZ. change 1 with (IZR 1). rewrite <- minus_IZR. apply IZR_le. lia. }
    nra. }
  assert (IZR x * dt / Tm < 1); [|lra]. apply Rmult_lt_reg_r with Tm; auto. unfold Rdiv. rewrite Rmult_assoc, Rinv_l by lra. lra.
Qed.
Lemma unit_ge dt Tm (x : Z) : 0 < dt -> 0 < Tm -> (Z.of_nat (step_at dt Tm) <= x)%Z -> 10 <= dt / 100 * (1000 / Tm * IZR x).
Proof.
  intros Hdt HT Hx. pose proof (step_at_bounds dt Tm Hdt HT) as [B1 B2].
  replace (dt / 100 * (1000 / Tm * IZR x)) with (10 * (IZR x * dt / Tm)) by (field; lra).
  assert (Tm <= IZR x * dt).
  { apply Rle_trans with (INR (step_at dt Tm) * dt); auto. apply Rmult_le_compat_r; [lra|].
    rewrite INR_IZR_INZ. apply IZR_le. lia. }
  assert (1 <= IZR x * dt / Tm); [|lra]. apply Rmult_le_reg_r with Tm; auto. unfold Rdiv. rewrite Rmult_assoc, Rinv_l by lra. lra.
Qed.
