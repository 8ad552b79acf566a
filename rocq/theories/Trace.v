(** Specification of network behaviour, independent of queues, active sets and
    iteration orders: a synchronous recurrence over timesteps.

    Steps are numbered from 1; step k happens at time k*dt.  A spike of neuron m at
    step j travels along a synapse of delay d to step j + max(1, ceil(d/dt)); a
    spike injected from outside at time tau arrives at step
    max(1, ceil((tau+d)/dt)).  At every step every neuron adds the weights that
    arrive, then performs one Euler update, then spikes and resets if V >= Vt. *)
From Coq Require Import Arith ZArith Bool List Reals Lra Lia Permutation.
From Verif Require Import Num Heapq Elements.
Import ListNotations.
Open Scope R_scope.
Open Scope list_scope.

Definition ceilZ (x : R) : Z := (- Int_part (- x))%Z.
Lemma ceilZ_spec x : IZR (ceilZ x) - 1 < x <= IZR (ceilZ x).
Proof.
  unfold ceilZ. pose proof (base_Int_part (- x)) as [H1 H2]. rewrite opp_IZR. lra.
Qed.
Lemma ceilZ_le x z : (ceilZ x <= z)%Z <-> x <= IZR z.
Proof.
  pose proof (ceilZ_spec x) as [H1 H2]. split; intros H.
  - apply IZR_le in H. lra.
  - apply Z.lt_pred_le. apply lt_IZR. unfold Z.pred. rewrite plus_IZR. lra.
Qed.
Lemma ceilZ_unique x z : IZR z - 1 < x -> x <= IZR z -> ceilZ x = z.
Proof.
  intros H1 H2. pose proof (ceilZ_spec x) as [H3 H4].
  assert (IZR (ceilZ x) < IZR (z + 1)) by (rewrite plus_IZR; lra).
  assert (IZR z < IZR (ceilZ x + 1)) by (rewrite plus_IZR; lra).
  apply lt_IZR in H, H0. lia.
Qed.

(** First step k >= 1 with x <= k*dt, i.e. max(1, ceil(x/dt)). *)
Definition step_at (dt x : R) : nat := Z.to_nat (Z.max 1 (ceilZ (x / dt))).
Lemma step_at_ge1 dt x : (1 <= step_at dt x)%nat.
Proof. unfold step_at. lia. Qed.
Lemma step_at_le dt x k : 0 < dt -> (1 <= k)%nat -> (step_at dt x <= k)%nat <-> x <= INR k * dt.
Proof.
  intros Hdt Hk. unfold step_at.
  assert ((Z.to_nat (Z.max 1 (ceilZ (x / dt))) <= k)%nat <-> (ceilZ (x / dt) <= Z.of_nat k)%Z) as -> by lia.
  rewrite ceilZ_le, <- INR_IZR_INZ. split; intros H.
  - apply Rmult_le_compat_r with (r := dt) in H; [|lra]. unfold Rdiv in H.
    rewrite Rmult_assoc, Rinv_l in H by lra. lra.
  - apply Rmult_le_reg_r with dt; [lra|]. unfold Rdiv. rewrite Rmult_assoc, Rinv_l by lra. lra.
Qed.
Lemma step_at_shift dt x j : 0 < dt -> (forall k, (j < k)%nat -> (j + step_at dt x <= k)%nat <-> INR j * dt + x <= INR k * dt).
Proof.
  intros Hdt k Hk. assert ((j + step_at dt x <= k)%nat <-> (step_at dt x <= k - j)%nat) as -> by lia.
  rewrite step_at_le by (auto; lia). rewrite minus_INR by lia. split; intros; nra.
Qed.

(** Network data the recurrence needs. *)
Record tnet := {
  t_prm : nat -> nparams R;      (* parameters of each neuron *)
  t_syns : list (synapse R);     (* all synapses *)
  t_ext : list (nat * R);        (* spikes injected from outside: (neuron, time) *)
  t_dt : R
}.

Definition sumR (l : list R) : R := fold_right Rplus 0 l.

(** One step of one neuron: arriving weights, Euler update, threshold, reset. *)
Definition nstep (p : nparams R) (dt : R) (s : nstate R) (iV iGe iGf iGate : R) : nstate R * bool :=
  let V0 := V s + iV in
  let ge0 := ge s + iGe in
  let gf0 := gf s + iGf in
  let gt0 := gate s + iGate in
  let V1 := V0 + dt * (ge0 + gt0 * gf0) / tm p in
  let gf1 := if Reqb gt0 0 then gf0 else gf0 - dt * (gf0 / tf p) in
  if Rleb (Vt p) V1
  then ({| V := Vreset p; ge := 0; gf := 0; gate := 0 |}, true)
  else ({| V := V1; ge := ge0; gf := gf1; gate := gt0 |}, false).

Section Tr.
Variable N : tnet.
Let dt := t_dt N.

(** number of external spikes of neuron n whose event over a delay d is due at step k *)
Definition ext_count (n : nat) (d : R) (k : nat) : nat :=
  length (filter (fun p => (fst p =? n)%nat && (step_at dt (snd p + d) =? k)%nat) (t_ext N)).
(** number of spikes of neuron n arriving over a delay d at step k, given the spike
    history h (h j m: neuron m spiked at step j) *)
Definition arr_count (h : nat -> nat -> bool) (n : nat) (d : R) (k : nat) : nat :=
  (ext_count n d k + (if (step_at dt d <? k)%nat && h (k - step_at dt d)%nat n then 1 else 0))%nat.
(** total weight of type ty arriving at neuron n at step k *)
Definition inp (h : nat -> nat -> bool) (n : nat) (ty : syntype) (k : nat) : R :=
  sumR (map (fun s => s_w s * INR (arr_count h (s_pre s) (s_delay s) k))
            (filter (fun s => (s_post s =? n)%nat && syntype_eqb (s_ty s) ty) (t_syns N))).

(** configuration after k steps: neuron states and spike history *)
Fixpoint conf (k : nat) : (nat -> nstate R) * (nat -> nat -> bool) :=
  match k with
  | O => (fun n => init_nstate (t_prm N n), fun _ _ => false)
  | S k' =>
      let st := fst (conf k') in
      let h := snd (conf k') in
      let r n := nstep (t_prm N n) dt (st n) (inp h n SynV k) (inp h n SynGe k) (inp h n SynGf k) (inp h n SynGate k) in
      (fun n => fst (r n), fun j n => if (j =? k)%nat then snd (r n) else h j n)
  end.
(** state of neuron n after step k; whether it spikes at step k *)
Definition st (k n : nat) : nstate R := fst (conf k) n.
Definition spk (k n : nat) : bool := snd (conf k) k n.

(** ** Recurrence equations *)
Lemma hist_future k j n : (k < j)%nat -> snd (conf k) j n = false.
Proof.
  revert j; induction k as [|k IH]; intros j Hj; cbn; auto.
  destruct (Nat.eqb_spec j (S k)); [lia|]. apply IH. lia.
Qed.
Lemma hist_spk k j n : (j <= k)%nat -> snd (conf k) j n = spk j n.
Proof.
  induction k as [|k IH]; intros Hj.
  - assert (j = 0%nat) by lia. subst. reflexivity.
  - destruct (Nat.eq_dec j (S k)) as [->|Hne]; [reflexivity|].
    cbn. destruct (Nat.eqb_spec j (S k)); [lia|]. apply IH. lia.
Qed.
Lemma spk_0 n : spk 0 n = false.
Proof. reflexivity. Qed.
Lemma st_0 n : st 0 n = init_nstate (t_prm N n).
Proof. reflexivity. Qed.

Lemma arr_count_ext h h' n d k : (forall j, (j < k)%nat -> h j n = h' j n) -> arr_count h n d k = arr_count h' n d k.
Proof.
  intros HE. unfold arr_count. destruct (Nat.ltb_spec (step_at dt d) k); cbn; auto.
  pose proof (step_at_ge1 dt d). rewrite HE by lia. reflexivity.
Qed.
Lemma inp_ext h h' n ty k : (forall j m, (j < k)%nat -> h j m = h' j m) -> inp h n ty k = inp h' n ty k.
Proof.
  intros HE. unfold inp. f_equal. apply map_ext. intros s. rewrite (arr_count_ext h h'); auto.
Qed.

(** arrivals in the final history *)
Definition arr (n : nat) (d : R) (k : nat) : nat := arr_count spk n d k.
Definition input (n : nat) (ty : syntype) (k : nat) : R := inp spk n ty k.

Lemma inp_conf k n ty : inp (snd (conf k)) n ty (S k) = input n ty (S k).
Proof. apply inp_ext. intros j m Hj. apply hist_spk. lia. Qed.

Lemma step_eq k n :
  (st (S k) n, spk (S k) n) =
  nstep (t_prm N n) dt (st k n) (input n SynV (S k)) (input n SynGe (S k)) (input n SynGf (S k)) (input n SynGate (S k)).
Proof.
  unfold st at 1, spk at 1. cbn [conf fst snd]. rewrite Nat.eqb_refl.
  rewrite !inp_conf. symmetry. apply surjective_pairing.
Qed.
Lemma arr_eq n d k : arr n d k =
  (ext_count n d k + (if (step_at dt d <? k)%nat && spk (k - step_at dt d) n then 1 else 0))%nat.
Proof. reflexivity. Qed.
Lemma input_eq n ty k : input n ty k =
  sumR (map (fun s => s_w s * INR (arr (s_pre s) (s_delay s) k))
            (filter (fun s => (s_post s =? n)%nat && syntype_eqb (s_ty s) ty) (t_syns N))).
Proof. reflexivity. Qed.
End Tr.
Arguments arr : simpl never.
Arguments input : simpl never.
Arguments st : simpl never.
Arguments spk : simpl never.
Arguments step_at : simpl never.
