(** Restart: when at step K every neuron of a network is in its initial state and no spike is under way,
    the rest of the run is the run of a fresh network whose remaining injected spikes come K steps earlier. *)
From Coq Require Import Arith ZArith Bool List Reals Lra Lia Permutation.
From Verif Require Import Num Heapq Elements Networks Trace SimTrace TraceProps NeuronLib NetLib MemoryProof SimpleNets.
Import ListNotations.
Open Scope R_scope.
Open Scope list_scope.

Definition with_ext (N : tnet) (e : list (nat * R)) : tnet := {| t_prm := t_prm N; t_syns := t_syns N; t_ext := e; t_dt := t_dt N |}.
Definition shift (d : R) (e : list (nat * R)) : list (nat * R) := map (fun p => (fst p, snd p - d)) e.

Lemma filter_none {A} (f : A -> bool) l : (forall x, In x l -> f x = false) -> filter f l = [].
Proof. induction l as [|x l IH]; intros H; cbn; auto. rewrite (H x (or_introl eq_refl)). apply IH. intros; apply H; right; auto. Qed.
Lemma step_at_back dt x K : 0 < dt -> 0 < x - INR K * dt -> step_at dt x = (K + step_at dt (x - INR K * dt))%nat.
Proof.
  intros Hdt Hx. replace x with (x - INR K * dt + INR K * dt) at 1 by ring. rewrite step_exact by auto. lia.
Qed.

Section Restart.
Variable N : tnet.
Let dt := t_dt N.
Hypothesis Hdt : 0 < dt.
Variable P : nat -> Prop.
Hypothesis HP : forall y, In y (t_syns N) -> P (s_pre y).
Variables e1 e2 : list (nat * R).
Variable K : nat.
Hypothesis HE : t_ext N = e1 ++ e2.
Let N1 := with_ext N e1.
Let N2 := with_ext N (shift (INR K * dt) e2).
Hypothesis H1 : forall p y, In p e1 -> In y (t_syns N) -> s_pre y = fst p -> (step_at dt (snd p + s_delay y) <= K)%nat.
Hypothesis H2 : forall p y, In p e2 -> In y (t_syns N) -> s_pre y = fst p -> 0 < snd p - INR K * dt + s_delay y.
Hypothesis H3 : forall n, P n -> st N1 K n = init_nstate (t_prm N n).
Hypothesis H4 : forall y j, In y (t_syns N) -> (j <= K)%nat -> spk N1 j (s_pre y) = true -> (j + step_at dt (s_delay y) <= K)%nat.

Lemma ext_split n d k : ext_count N n d k = (ext_count (with_ext N e1) n d k + ext_count (with_ext N e2) n d k)%nat.
Proof. unfold ext_count, with_ext; cbn [t_ext t_dt]. rewrite HE, filter_app, app_length. reflexivity. Qed.
Lemma ext1_late y k : In y (t_syns N) -> (K < k)%nat -> ext_count N1 (s_pre y) (s_delay y) k = 0%nat.
Proof.
  intros Hy Hk. unfold ext_count, N1, with_ext; cbn [t_ext t_dt].
  assert (F : filter (fun p => (fst p =? s_pre y)%nat && (step_at dt (snd p + s_delay y) =? k)%nat) e1 = []).
  { apply filter_none. intros p Hp. destruct (Nat.eqb_spec (fst p) (s_pre y)) as [E|]; [|reflexivity]. cbn [andb]. apply Nat.eqb_neq.
    pose proof (H1 p y Hp Hy (eq_sym E)). lia. }
  fold dt. rewrite F. reflexivity.
Qed.
Lemma ext2_early y k : In y (t_syns N) -> (k <= K)%nat -> ext_count (with_ext N e2) (s_pre y) (s_delay y) k = 0%nat.
Proof.
  intros Hy Hk. unfold ext_count, with_ext; cbn [t_ext t_dt]. fold dt.
  assert (F : filter (fun p => (fst p =? s_pre y)%nat && (step_at dt (snd p + s_delay y) =? k)%nat) e2 = []).
  { apply filter_none. intros p Hp. destruct (Nat.eqb_spec (fst p) (s_pre y)) as [E|]; [|reflexivity]. cbn [andb]. apply Nat.eqb_neq.
    pose proof (H2 p y Hp Hy (eq_sym E)). rewrite (step_at_back dt _ K) by (auto; lra). pose proof (step_at_ge1 dt (snd p + s_delay y - INR K * dt)). lia. }
  rewrite F. reflexivity.
Qed.
Lemma ext2_shift y i : In y (t_syns N) -> ext_count (with_ext N e2) (s_pre y) (s_delay y) (K + i) = ext_count N2 (s_pre y) (s_delay y) i.
Proof.
  intros Hy. unfold ext_count, N2, with_ext, shift; cbn [t_ext t_dt]. fold dt.
  assert (HH : forall p, In p e2 -> s_pre y = fst p -> 0 < snd p - INR K * dt + s_delay y) by (intros; apply (H2 p y); auto). clear -HH Hdt.
  induction e2 as [|p l IH]; [reflexivity|]. cbn [map filter fst snd].
  destruct (Nat.eqb_spec (fst p) (s_pre y)) as [E|]; cbn [andb]; [|apply IH; intros; apply HH; auto; right; auto].
  rewrite (step_at_back dt (snd p + s_delay y) K) by (auto; pose proof (HH p (or_introl eq_refl) (eq_sym E)); lra).
  replace (snd p + s_delay y - INR K * dt) with (snd p - INR K * dt + s_delay y) by ring.
  assert (EB : (K + step_at dt (snd p - INR K * dt + s_delay y) =? K + i)%nat = (step_at dt (snd p - INR K * dt + s_delay y) =? i)%nat).
  { destruct (Nat.eqb_spec (step_at dt (snd p - INR K * dt + s_delay y)) i) as [->|]; [apply Nat.eqb_refl|apply Nat.eqb_neq; lia]. }
  rewrite EB. destruct (_ =? i)%nat; cbn [length]; [f_equal|]; apply IH; intros; apply HH; auto; right; auto.
Qed.

Lemma input_of M n ty k (f : synapse R -> R) : t_syns M = t_syns N -> (forall y, In y (t_syns N) -> s_post y = n -> INR (arr M (s_pre y) (s_delay y) k) = f y) ->
  input M n ty k = sumR (map (fun y => s_w y * f y) (filter (fun y => (s_post y =? n)%nat && syntype_eqb (s_ty y) ty) (t_syns N))).
Proof.
  intros ES HA. rewrite input_eq, ES. f_equal. apply map_ext_in. intros y Hy. apply filter_In in Hy as [Hy Hb]. apply andb_prop in Hb as [Hb _]. apply Nat.eqb_eq in Hb.
  rewrite HA; auto.
Qed.

Lemma before k : (k <= K)%nat -> forall n, st N k n = st N1 k n /\ spk N k n = spk N1 k n.
Proof.
  induction k as [k IH] using lt_wf_ind. intros Hk n. destruct k as [|k]; [split; reflexivity|].
  assert (IN : forall ty, input N n ty (S k) = input N1 n ty (S k)).
  { intros ty. rewrite (input_of N n ty (S k) (fun y => INR (arr N1 (s_pre y) (s_delay y) (S k)))); auto.
    intros y Hy _. f_equal. rewrite !arr_eq. rewrite ext_split, ext2_early, Nat.add_0_r by auto.
    change (t_dt N1) with (t_dt N). change (with_ext N e1) with N1. f_equal.
    destruct (Nat.ltb_spec (step_at (t_dt N) (s_delay y)) (S k)); cbn [andb]; auto.
    rewrite (proj2 (IH (S k - step_at (t_dt N) (s_delay y))%nat ltac:(pose proof (step_at_ge1 (t_dt N) (s_delay y)); lia) ltac:(lia) (s_pre y))). reflexivity. }
  pose proof (step_eq N k n) as E. pose proof (step_eq N1 k n) as E1. rewrite !IN in E. rewrite (proj1 (IH k ltac:(lia) ltac:(lia) n)) in E.
  change (t_prm N1) with (t_prm N) in E1. change (t_dt N1) with (t_dt N) in E1. rewrite <- E1 in E. injection E as -> ->. auto.
Qed.
Lemma after i : forall n, P n -> st N (K + i) n = st N2 i n /\ ((1 <= i)%nat -> spk N (K + i) n = spk N2 i n).
Proof.
  induction i as [i IH] using lt_wf_ind. intros n Hn. destruct i as [|i].
  - split; [|lia]. rewrite Nat.add_0_r. rewrite (proj1 (before K (le_n K) n)), H3 by auto. reflexivity.
  - assert (IN : forall ty, input N n ty (K + S i) = input N2 n ty (S i)).
    { intros ty. rewrite (input_of N n ty (K + S i) (fun y => INR (arr N2 (s_pre y) (s_delay y) (S i)))); auto.
      intros y Hy _. f_equal. rewrite !arr_eq. rewrite ext_split. change (with_ext N e1) with N1. rewrite ext1_late, ext2_shift by (auto; lia). cbn [Nat.add].
      change (t_dt N2) with (t_dt N). f_equal. fold dt. set (D := step_at dt (s_delay y)). pose proof (step_at_ge1 dt (s_delay y)) as HD. fold D in HD.
      destruct (Nat.lt_ge_cases D (S i)) as [L|L].
      - rewrite (proj2 (Nat.ltb_lt D (S i))), (proj2 (Nat.ltb_lt D (K + S i))) by lia. cbn [andb].
        replace (K + S i - D)%nat with (K + (S i - D))%nat by lia. rewrite (proj2 (IH (S i - D)%nat ltac:(lia) (s_pre y) (HP y Hy)) ltac:(lia)). reflexivity.
      - rewrite (proj2 (Nat.ltb_ge D (S i))) by lia. cbn [andb].
        destruct (Nat.ltb_spec D (K + S i)); cbn [andb]; auto.
        rewrite (proj2 (before (K + S i - D) ltac:(lia) (s_pre y))).
        destruct (spk N1 (K + S i - D) (s_pre y)) eqn:E; auto. pose proof (H4 y (K + S i - D)%nat Hy ltac:(lia) E) as HQ. change (step_at dt (s_delay y)) with D in HQ. exfalso. lia. }
    replace (K + S i)%nat with (S (K + i)) in * by lia.
    pose proof (step_eq N (K + i) n) as E. pose proof (step_eq N2 i n) as E2. rewrite !IN in E. rewrite (proj1 (IH i ltac:(lia) n Hn)) in E.
    change (t_prm N2) with (t_prm N) in E2. change (t_dt N2) with (t_dt N) in E2. rewrite <- E2 in E. injection E as -> ->. auto.
Qed.
Theorem restart n S1 S2 : P n -> spikes_at N1 n S1 -> spikes_at N2 n S2 -> (forall k, In k S1 -> (k <= K)%nat) -> (forall k, In k S2 -> (1 <= k)%nat) ->
  spikes_at N n (S1 ++ map (fun j => (K + j)%nat) S2).
Proof.
  intros Hn A1 A2 B1 B2 k. destruct (Nat.le_gt_cases k K) as [Hk|Hk].
  - rewrite (proj2 (before k Hk n)), A1. apply eq_true_iff_eq. rewrite !memb_In, in_app_iff. split; [auto|].
    intros [H|H]; auto. exfalso. apply in_map_iff in H as (j & <- & Hj). specialize (B2 j Hj). lia.
  - replace k with (K + (k - K))%nat by lia. rewrite (proj2 (after (k - K) n Hn) ltac:(lia)), A2. apply eq_true_iff_eq. rewrite !memb_In, in_app_iff. split.
    + intros H. right. apply in_map_iff. eauto.
    + intros [H|H]; [specialize (B1 _ H); lia|]. apply in_map_iff in H as (j & E & Hj). replace (k - K)%nat with j by lia. auto.
Qed.
End Restart.

(** a neuron that has spiked and receives nothing more is in its initial state *)
Lemma fired_rest N n f : t_prm N n = stdp -> spk N f n = true -> st N f n = at_rest 0.
Proof.
  intros HP H. destruct f as [|f]; [rewrite spk_0 in H; discriminate|]. pose proof (step_eq N f n) as E. rewrite HP in E. unfold nstep in E.
  destruct (Rleb _ _) in E; injection E as -> E2; [reflexivity|congruence].
Qed.
Lemma fired_init N n f : t_prm N n = stdp -> spk N f n = true -> (forall k, (f < k)%nat -> no_input N n k) -> forall k, (f <= k)%nat -> st N k n = init_nstate (t_prm N n).
Proof.
  intros HP HS HI k Hk. rewrite HP. change (init_nstate stdp) with (at_rest 0). destruct (Nat.eq_dec f k) as [<-|Hne]; [apply fired_rest; auto|].
  destruct (rest_quiet N n f 0 HP (fired_rest N n f HP HS) ltac:(lra) k) with (k := k) as [A _]; try lia; [intros; apply HI; lia|exact A].
Qed.
