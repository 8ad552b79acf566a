(** Properties of the recurrence: time shift (C11), locality and renaming (C12). *)
From Coq Require Import Arith ZArith Bool List Reals Lra Lia Permutation.
From Verif Require Import Num Heapq Elements Trace SimTrace.
Import ListNotations.
Open Scope R_scope.
Open Scope list_scope.

(** *** step_at arithmetic *)
Lemma ceilZ_plus x m : ceilZ (x + IZR m) = (ceilZ x + m)%Z.
Proof.
  pose proof (ceilZ_spec x) as [H1 H2]. apply ceilZ_unique; rewrite plus_IZR; lra.
Qed.
Lemma step_at_plus dt x m : 0 < dt -> 0 < x -> step_at dt (x + INR m * dt) = (m + step_at dt x)%nat.
Proof.
  intros Hdt Hx. unfold step_at.
  replace ((x + INR m * dt) / dt) with (x / dt + IZR (Z.of_nat m)) by (rewrite <- INR_IZR_INZ; field; lra).
  rewrite ceilZ_plus.
  assert (0 < x / dt) by (apply Rmult_lt_0_compat; [auto|apply Rinv_0_lt_compat; auto]).
  pose proof (ceilZ_spec (x / dt)) as [H1 H2].
  assert (0 < ceilZ (x / dt))%Z by (apply lt_IZR; lra). lia.
Qed.
Lemma step_at_grid dt k : 0 < dt -> (1 <= k)%nat -> step_at dt (INR k * dt) = k.
Proof.
  intros Hdt Hk. unfold step_at. replace (INR k * dt / dt) with (IZR (Z.of_nat k)) by (rewrite <- INR_IZR_INZ; field; lra).
  rewrite (ceilZ_unique _ (Z.of_nat k)) by lra. lia.
Qed.
Lemma step_at_bounds dt x : 0 < dt -> 0 < x -> INR (step_at dt x) * dt - dt < x <= INR (step_at dt x) * dt.
Proof.
  intros Hdt Hx. split.
  - destruct (Nat.eq_dec (step_at dt x) 1) as [->|Hne]; [cbn; lra|].
    pose proof (step_at_ge1 dt x).
    assert (~ (step_at dt x <= step_at dt x - 1)%nat) by lia.
    rewrite step_at_le in H0 by (auto; lia). rewrite minus_INR in H0 by lia. cbn [INR] in H0. lra.
  - apply step_at_le; auto. apply step_at_ge1.
Qed.
Lemma step_at_nonpos dt x : 0 < dt -> x <= dt -> step_at dt x = 1%nat.
Proof.
  intros Hdt Hx. pose proof (step_at_ge1 dt x). assert (step_at dt x <= 1)%nat; [|lia].
  apply step_at_le; auto. cbn. lra.
Qed.
Lemma step_at_mono dt x y : 0 < dt -> x <= y -> (step_at dt x <= step_at dt y)%nat.
Proof.
  intros Hdt H. apply step_at_le; auto; [apply step_at_ge1|].
  assert (y <= INR (step_at dt y) * dt); [|lra]. apply step_at_le; auto. apply step_at_ge1.
Qed.

(** *** Incoming synapses determine the input *)
Definition in_syn (N : tnet) (n : nat) : list (synapse R) := filter (fun y => (s_post y =? n)%nat) (t_syns N).
Lemma input_in N n ty k :
  input N n ty k = sumf (fun y => if syntype_eqb (s_ty y) ty then s_w y * INR (arr N (s_pre y) (s_delay y) k) else 0) (in_syn N n).
Proof.
  rewrite input_eq. unfold in_syn.
  rewrite (filter_ext _ (fun y => syntype_eqb (s_ty y) ty && (s_post y =? n)%nat)) by (intros; apply andb_comm).
  rewrite <- filter_filter.
  match goal with |- sumR (map ?f ?l) = _ => change (sumR (map f l)) with (sumf f l) end.
  rewrite sumf_filter. reflexivity.
Qed.
Lemma sumf_perm {A} (f : A -> R) l l' : Permutation l l' -> sumf f l = sumf f l'.
Proof. intros H. apply sumR_perm, Permutation_map, H. Qed.
Lemma input_perm N n ty k l : Permutation (in_syn N n) l ->
  input N n ty k = sumf (fun y => if syntype_eqb (s_ty y) ty then s_w y * INR (arr N (s_pre y) (s_delay y) k) else 0) l.
Proof. intros H. rewrite input_in. apply sumf_perm, H. Qed.

(** *** C12: a closed set of neurons behaves the same wherever it is embedded *)
Definition rename_syn (f : nat -> nat) (y : synapse R) : synapse R :=
  {| s_pre := f (s_pre y); s_post := f (s_post y); s_ty := s_ty y; s_w := s_w y; s_delay := s_delay y |}.
Definition ext_of (N : tnet) (n : nat) : list R := map snd (filter (fun p => (fst p =? n)%nat) (t_ext N)).

Lemma ext_count_of N n d k : ext_count N n d k =
  length (filter (fun t => (step_at (t_dt N) (t + d) =? k)%nat) (ext_of N n)).
Proof.
  unfold ext_count, ext_of.
  rewrite (filter_ext _ (fun p => (step_at (t_dt N) (snd p + d) =? k)%nat && (fst p =? n)%nat)) by (intros; apply andb_comm).
  rewrite <- filter_filter, filter_map, map_length. reflexivity.
Qed.

Record embeds (f : nat -> nat) (S : nat -> Prop) (N1 N2 : tnet) : Prop := {
  em_dt : t_dt N2 = t_dt N1;
  em_prm : forall n, S n -> t_prm N2 (f n) = t_prm N1 n;
  em_syn : forall n, S n -> Permutation (in_syn N2 (f n)) (map (rename_syn f) (in_syn N1 n));
  em_closed : forall n y, S n -> In y (in_syn N1 n) -> S (s_pre y);
  em_ext : forall n, S n -> Permutation (ext_of N2 (f n)) (ext_of N1 n)
}.

Lemma embed_same f S N1 N2 : embeds f S N1 N2 ->
  forall k j n, (j <= k)%nat -> S n -> st N2 j (f n) = st N1 j n /\ spk N2 j (f n) = spk N1 j n.
Proof.
  intros E. induction k as [|k IH]; intros j n Hj Hn.
  - assert (j = 0%nat) by lia. subst. rewrite !st_0, !spk_0. unfold init_nstate. rewrite (em_prm _ _ _ _ E) by auto. auto.
  - destruct (Nat.eq_dec j (Datatypes.S k)) as [->|]; [|apply IH; auto; lia].
    destruct (IH k n (Nat.le_refl _) Hn) as [H1 H2].
    assert (Hinp : forall ty, input N2 (f n) ty (Datatypes.S k) = input N1 n ty (Datatypes.S k)).
    { intros ty. rewrite (input_perm _ _ _ _ _ (em_syn _ _ _ _ E n Hn)), input_in, sumf_map.
      apply sumf_ext. intros y Hy. cbn [rename_syn s_ty s_w s_pre s_delay].
      destruct (syntype_eqb _ _); auto. f_equal. f_equal.
      pose proof (em_closed _ _ _ _ E n y Hn Hy) as Hp.
      rewrite !arr_eq, !ext_count_of. rewrite (em_dt _ _ _ _ E). f_equal.
      - apply Permutation_length, filter_perm, (em_ext _ _ _ _ E); auto.
      - pose proof (step_at_ge1 (t_dt N1) (s_delay y)).
        destruct (Nat.ltb_spec (step_at (t_dt N1) (s_delay y)) (Datatypes.S k)); cbn [andb]; auto.
        destruct (IH (Datatypes.S k - step_at (t_dt N1) (s_delay y))%nat (s_pre y)) as [_ ->]; auto; lia. }
    pose proof (step_eq N1 k n) as E1. pose proof (step_eq N2 k (f n)) as E2.
    rewrite !Hinp, H1, (em_prm _ _ _ _ E), (em_dt _ _ _ _ E) in E2 by auto. rewrite <- E1 in E2.
    injection E2 as -> ->. auto.
Qed.

(** *** C11: shifting all external spikes by m steps *)
Definition shift_ext (m : nat) (dt : R) (ext : list (nat * R)) : list (nat * R) :=
  map (fun p => (fst p, snd p + INR m * dt)) ext.
Definition shift_net (m : nat) (N : tnet) : tnet :=
  {| t_prm := t_prm N; t_syns := t_syns N; t_ext := shift_ext m (t_dt N) (t_ext N); t_dt := t_dt N |}.

Section Shift.
Variable N : tnet.
Variable m : nat.
Hypothesis Hdt : 0 < t_dt N.
Hypothesis Hpos : forall p y, In p (t_ext N) -> In y (t_syns N) -> s_pre y = fst p -> 0 < snd p + s_delay y.
Hypothesis Hreset : forall n, Vreset (t_prm N n) < Vt (t_prm N n).
Let N' := shift_net m N.

Lemma shift_count y k : In y (t_syns N) ->
  ext_count N' (s_pre y) (s_delay y) (m + k) = if (k =? 0)%nat then 0%nat else ext_count N (s_pre y) (s_delay y) k.
Proof.
  intros Hy. unfold ext_count. cbn [N' shift_net t_ext t_dt]. unfold shift_ext. rewrite filter_map, map_length.
  assert (HE : forall p, In p (t_ext N) -> (fst p =? s_pre y)%nat = true ->
     step_at (t_dt N) (snd p + INR m * t_dt N + s_delay y) = (m + step_at (t_dt N) (snd p + s_delay y))%nat).
  { intros p Hp Hf. apply Nat.eqb_eq in Hf. rewrite <- step_at_plus by (auto; apply Hpos; auto). f_equal. lra. }
  cbn [fst snd].
  destruct (Nat.eqb_spec k 0) as [->|Hk].
  - rewrite filter_false; auto. intros p Hp. destruct (fst p =? s_pre y)%nat eqn:Ef; auto. cbn [andb].
    rewrite HE by auto. apply Nat.eqb_neq. pose proof (step_at_ge1 (t_dt N) (snd p + s_delay y)). lia.
  - f_equal. apply filter_ext_in. intros p Hp. destruct (fst p =? s_pre y)%nat eqn:Ef; auto. cbn [andb].
    rewrite HE by auto.
    destruct (Nat.eqb_spec (m + step_at (t_dt N) (snd p + s_delay y)) (m + k)), (Nat.eqb_spec (step_at (t_dt N) (snd p + s_delay y)) k); auto; lia.
Qed.
Lemma shift_count_0 y j : In y (t_syns N) -> (j <= m)%nat -> ext_count N' (s_pre y) (s_delay y) j = 0%nat.
Proof.
  intros Hy Hj. unfold ext_count. cbn [N' shift_net t_ext t_dt]. unfold shift_ext. rewrite filter_map, map_length.
  rewrite filter_false; auto. intros p Hp. cbn [fst snd]. destruct (fst p =? s_pre y)%nat eqn:Ef; auto. cbn [andb].
  apply Nat.eqb_eq in Ef. replace (snd p + INR m * t_dt N + s_delay y) with ((snd p + s_delay y) + INR m * t_dt N) by lra.
  rewrite step_at_plus by (auto; apply Hpos; auto). apply Nat.eqb_neq.
  pose proof (step_at_ge1 (t_dt N) (snd p + s_delay y)). lia.
Qed.

Lemma idle_step (M : tnet) k n : (forall ty, input M n ty (S k) = 0) -> Vreset (t_prm M n) < Vt (t_prm M n) ->
  st M k n = init_nstate (t_prm M n) -> st M (S k) n = init_nstate (t_prm M n) /\ spk M (S k) n = false.
Proof.
  intros Hi Hr Hs. pose proof (step_eq M k n) as E. rewrite !Hi, Hs in E. rewrite nstep_ustep, recv_0 in E.
  unfold ustep, init_nstate in E. unfold nzero in E. cbn [V ge gf gate nofZ R_num] in E. rewrite Reqb_refl in E.
  replace (Vreset (t_prm M n) + t_dt M * (0 + 0 * 0) / tm (t_prm M n)) with (Vreset (t_prm M n)) in E by (unfold Rdiv; ring).
  rewrite (proj2 (Rleb_false _ _) Hr) in E. injection E as -> ->. split; auto.
Qed.

Lemma shift_before j : (j <= m)%nat -> forall n, st N' j n = init_nstate (t_prm N n) /\ forall i, (i <= j)%nat -> spk N' i n = false.
Proof.
  induction j as [|j IH]; intros Hj n.
  - split; [reflexivity|]. intros i Hi. assert (i = 0%nat) by lia. subst; reflexivity.
  - assert (Hj' : (j <= m)%nat) by lia. specialize (IH Hj').
    destruct (IH n) as [Hs Hp].
    destruct (idle_step N' j n) as [E1 E2]; auto.
    + intros ty. rewrite input_in. rewrite (sumf_ext _ (fun _ => 0)); [apply sumf_0|].
      intros y Hy. apply filter_In in Hy as [Hy _]. destruct (syntype_eqb _ _); auto.
      rewrite arr_eq, shift_count_0 by auto.
      change (t_dt N') with (t_dt N). pose proof (step_at_ge1 (t_dt N) (s_delay y)).
      destruct (Nat.ltb_spec (step_at (t_dt N) (s_delay y)) (S j)); cbn [andb]; [|cbn; lra].
      rewrite (proj2 (IH (s_pre y))) by lia. cbn; lra.
    + apply Hreset.
    + split; auto. intros i Hi. destruct (Nat.eq_dec i (S j)) as [->|]; auto. apply Hp. lia.
Qed.

Lemma shift_after k : forall j n, (j <= k)%nat -> st N' (m + j) n = st N j n /\ spk N' (m + j) n = spk N j n.
Proof.
  induction k as [|k IH]; intros j n Hj.
  - assert (j = 0%nat) by lia. subst. rewrite Nat.add_0_r.
    destruct (shift_before m (Nat.le_refl _) n) as [H1 H2]. rewrite H1, H2 by auto. auto.
  - destruct (Nat.eq_dec j (S k)) as [->|]; [|apply IH; lia].
    destruct (IH k n (Nat.le_refl _)) as [H1 H2].
    assert (Hinp : forall ty, input N' n ty (m + S k) = input N n ty (S k)).
    { intros ty. rewrite !input_in. apply sumf_ext. intros y Hy. apply filter_In in Hy as [Hy _].
      destruct (syntype_eqb _ _); auto. do 2 f_equal. rewrite !arr_eq, shift_count by auto.
      change (t_dt N') with (t_dt N). cbn [Nat.eqb]. f_equal.
      pose proof (step_at_ge1 (t_dt N) (s_delay y)).
      destruct (Nat.ltb_spec (step_at (t_dt N) (s_delay y)) (S k)).
      - destruct (Nat.ltb_spec (step_at (t_dt N) (s_delay y)) (m + S k)); [|lia]. cbn [andb].
        replace (m + S k - step_at (t_dt N) (s_delay y))%nat with (m + (S k - step_at (t_dt N) (s_delay y)))%nat by lia.
        destruct (IH (S k - step_at (t_dt N) (s_delay y))%nat (s_pre y)) as [_ ->]; [lia|]. reflexivity.
      - cbn [andb]. destruct (Nat.ltb_spec (step_at (t_dt N) (s_delay y)) (m + S k)); cbn [andb]; auto.
        destruct (shift_before m (Nat.le_refl _) (s_pre y)) as [_ Hb]. rewrite Hb by lia. reflexivity. }
    rewrite Nat.add_succ_r in *.
    pose proof (step_eq N' (m + k) n) as E1. pose proof (step_eq N k n) as E2.
    rewrite !Hinp, H1 in E1. change (t_prm N') with (t_prm N) in E1. change (t_dt N') with (t_dt N) in E1.
    rewrite <- E2 in E1. injection E1 as -> ->. auto.
Qed.
End Shift.
