(** Consequences of the refinement for users of Simulator (C04-C08, C10-C12, C14). *)
From Coq Require Import Arith ZArith Bool List Reals Lra Lia Permutation.
From Verif Require Import Num NumOrd Heapq HeapqProofs Elements Simulator QueueProofs Trace SimTrace.
Import ListNotations.
Open Scope R_scope.
Open Scope list_scope.

(** The spikes of neuron n in steps 1..K of the recurrence, as times. *)
Definition spikes (N : tnet) (K n : nat) : list R :=
  map (fun k => INR k * t_dt N) (filter (fun k => spk N k n) (seq 1 K)).
Definition ext_spikes (ext : list (nat * R)) (n : nat) : list R :=
  map snd (filter (fun p => (fst p =? n)%nat) ext).

(** What a finished simulation shows. *)
Record shows (w : world R) (ext : list (nat * R)) (dt : R) (K : nat) (s : sim R) : Prop := {
  sh_spk : forall n, (n < length (w_neurons w))%nat ->
     spike_log s n = ext_spikes ext n ++ spikes (net_of w ext dt) K n;
  sh_sts : forall n, (n < length (w_neurons w))%nat ->
     nth_error (s_sts s) n = Some (st (net_of w ext dt) K n);
  sh_len : length (s_sts s) = length (w_neurons w);
  sh_cnt : forall ty, ty <> SynOther -> get_count (s_cnt s) ty = deliveries (net_of w ext dt) ty K;
  sh_tot : count_spikes s = (length ext + length (flat_map (fun k => filter (fun n => spk (net_of w ext dt) k n)
              (seq 0 (length (w_neurons w)))) (seq 1 K)))%nat
}.
Definition shows_volt (w : world R) (ext : list (nat * R)) (dt : R) (K : nat) (s : sim R) : Prop :=
  forall n, (n < length (w_neurons w))%nat ->
     voltage_log s n = map (fun k => (V (st (net_of w ext dt) k n), (k - 1)%nat))
                           (filter (fun k => touched (net_of w ext dt) k n) (seq 1 K)).

Lemma simulate_shows c ext ord T K : wf c ext -> sel_ok (c_keys c) ord -> num_steps (c_dt c) T = Ok K ->
  exists s, simulate c ord (inject c (new_sim (c_world c)) ext) T = Ok s /\
    shows (c_world c) ext (c_dt c) K s /\
    (ord_ok ord -> shows_volt (c_world c) ext (c_dt c) K s).
Proof.
  intros WF HS HN. destruct (sim_inv c ext WF ord HS K) as (s & act & E & I).
  exists s. unfold simulate. rewrite HN. cbn [rbind]. rewrite E. split; [reflexivity|]. split.
  - constructor.
    + intros n Hn. rewrite (i_spk _ _ _ _ _ _ I) by auto. reflexivity.
    + intros n Hn. rewrite <- (i_sts _ _ _ _ _ _ I) by auto.
      apply nth_error_nth'. rewrite (i_len _ _ _ _ _ _ I). auto.
    + apply (i_len _ _ _ _ _ _ I).
    + apply (i_cnt _ _ _ _ _ _ I).
    + apply (i_nspk _ _ _ _ _ _ I).
  - intros Ho. exact (i_vlt _ _ _ _ _ _ I Ho).
Qed.

(** number of steps over the reals *)
Lemma num_steps_R dt T : 0 < dt -> num_steps dt T = Ok (Z.to_nat (Rtrunc (T / dt))).
Proof.
  intros H. unfold num_steps, pdiv, nzero. cbn [neqb nofZ R_num]. rewrite (proj2 (Reqb_false dt 0)) by lra. reflexivity.
Qed.
Lemma num_steps_floor dt T : 0 < dt -> 0 <= T ->
  exists K, num_steps dt T = Ok K /\ INR K * dt <= T < INR (S K) * dt.
Proof.
  intros H HT. rewrite num_steps_R by auto. eexists. split; [reflexivity|].
  assert (Hd : 0 <= T / dt) by (apply Rmult_le_pos; [auto|left; apply Rinv_0_lt_compat; auto]).
  unfold Rtrunc. destruct (Rle_dec 0 (T / dt)); [|lra].
  pose proof (base_Int_part (T / dt)) as [H1 H2].
  assert (H0 : (0 <= Int_part (T / dt))%Z).
  { apply Z.lt_succ_r. apply lt_IZR. unfold Z.succ. rewrite plus_IZR. lra. }
  rewrite S_INR. rewrite INR_IZR_INZ, Z2Nat.id by auto.
  assert (E : T / dt * dt = T) by (field; lra). split; nra.
Qed.
Lemma num_steps_exact dt K : 0 < dt -> num_steps dt (INR K * dt) = Ok K.
Proof.
  intros H. rewrite num_steps_R by auto. f_equal. replace (INR K * dt / dt) with (INR K) by (field; lra).
  unfold Rtrunc. destruct (Rle_dec 0 (INR K)) as [_|n]; [|pose proof (pos_INR K); lra].
  rewrite INR_IZR_INZ. pose proof (base_Int_part (IZR (Z.of_nat K))) as [H1 H2].
  assert (Int_part (IZR (Z.of_nat K)) = Z.of_nat K); [|lia].
  apply le_IZR in H1. assert (IZR (Z.of_nat K) < IZR (Int_part (IZR (Z.of_nat K)) + 1)) by (rewrite plus_IZR; lra).
  apply lt_IZR in H0. lia.
Qed.
Lemma num_steps_mono dt T1 T2 K1 K2 : 0 < dt -> T1 <= T2 ->
  num_steps dt T1 = Ok K1 -> num_steps dt T2 = Ok K2 -> (K1 <= K2)%nat.
Proof.
  intros H HT H1 H2. rewrite num_steps_R in H1, H2 by auto. injection H1 as <-. injection H2 as <-.
  assert (T1 / dt <= T2 / dt) by (apply Rmult_le_compat_r; [left; apply Rinv_0_lt_compat; auto|auto]).
  assert (Rtrunc (T1 / dt) <= Rtrunc (T2 / dt) \/ Rtrunc (T1 / dt) <= 0)%Z; [|lia].
  assert (Hm : forall a b, a <= b -> (Int_part a <= Int_part b)%Z).
  { intros a b Hab. pose proof (base_Int_part a) as [? ?]. pose proof (base_Int_part b) as [? ?].
    apply Z.lt_succ_r. apply lt_IZR. unfold Z.succ. rewrite plus_IZR. lra. }
  unfold Rtrunc. destruct (Rle_dec 0 (T1 / dt)), (Rle_dec 0 (T2 / dt)); try lra.
  - left. auto.
  - right. assert (Hp : (Int_part 0 <= Int_part (- (T1 / dt)))%Z) by (apply Hm; lra).
    assert (Int_part 0 = 0)%Z.
    { change 0 with (IZR 0). pose proof (base_Int_part (IZR 0)) as [? ?].
      apply le_IZR in H1. assert (IZR 0 < IZR (Int_part 0 + 1)) by (rewrite plus_IZR; lra). apply lt_IZR in H3. lia. }
    lia.
  - left. assert (Hp : (Int_part (- (T2 / dt)) <= Int_part (- (T1 / dt)))%Z) by (apply Hm; lra). lia.
Qed.

Lemma list_eq_nth {A} (l l' : list A) : length l = length l' ->
  (forall n, (n < length l)%nat -> nth_error l n = nth_error l' n) -> l = l'.
Proof.
  revert l'. induction l as [|x l IH]; intros [|y l'] HL H; cbn in HL; try lia; auto.
  f_equal.
  - specialize (H 0%nat ltac:(cbn; lia)). cbn in H. congruence.
  - apply IH; [lia|]. intros n Hn. apply (H (S n)). cbn. lia.
Qed.
Lemma counts_eq (a b : counts) : (forall ty, ty <> SynOther -> get_count a ty = get_count b ty) -> a = b.
Proof.
  intros H. pose proof (H SynV ltac:(discriminate)). pose proof (H SynGe ltac:(discriminate)).
  pose proof (H SynGf ltac:(discriminate)). pose proof (H SynGate ltac:(discriminate)).
  destruct a, b; cbn in *; congruence.
Qed.
Lemma shows_unique w ext dt K s s' : shows w ext dt K s -> shows w ext dt K s' ->
  (forall n, (n < length (w_neurons w))%nat -> spike_log s n = spike_log s' n) /\
  s_sts s = s_sts s' /\ s_cnt s = s_cnt s' /\ count_spikes s = count_spikes s'.
Proof.
  intros A B. repeat split.
  - intros n Hn. rewrite (sh_spk _ _ _ _ _ A), (sh_spk _ _ _ _ _ B); auto.
  - apply list_eq_nth; [rewrite (sh_len _ _ _ _ _ A), (sh_len _ _ _ _ _ B); auto|].
    intros n Hn. rewrite (sh_len _ _ _ _ _ A) in Hn. rewrite (sh_sts _ _ _ _ _ A), (sh_sts _ _ _ _ _ B); auto.
  - apply counts_eq. intros ty H. rewrite (sh_cnt _ _ _ _ _ A), (sh_cnt _ _ _ _ _ B); auto.
  - rewrite (sh_tot _ _ _ _ _ A), (sh_tot _ _ _ _ _ B). auto.
Qed.

(** C04 *)
Lemma sparse_dense c ext ord T : wf c ext -> ord_ok ord -> NoDup (c_keys c) ->
  exists s s',
    simulate c ord (inject c (new_sim (c_world c)) ext) T = Ok s /\
    simulate c (dense (c_keys c)) (inject c (new_sim (c_world c)) ext) T = Ok s' /\
    (forall n, (n < length (w_neurons (c_world c)))%nat -> spike_log s n = spike_log s' n) /\
    s_sts s = s_sts s' /\ s_cnt s = s_cnt s' /\ count_spikes s = count_spikes s'.
Proof.
  intros WF HO ND. assert (HN := num_steps_R (c_dt c) T (wf_dt _ _ WF)).
  destruct (simulate_shows c ext ord T _ WF (ord_sel_ok _ _ HO) HN) as (s & E & A & _).
  destruct (simulate_shows c ext _ T _ WF (dense_sel_ok _ ND) HN) as (s' & E' & A' & _).
  exists s, s'. repeat split; auto; eapply shows_unique; eauto.
Qed.

(** C05 *)
Lemma order_irrelevant c ext ord ord' T : wf c ext -> ord_ok ord -> ord_ok ord' ->
  exists s s',
    simulate c ord (inject c (new_sim (c_world c)) ext) T = Ok s /\
    simulate c ord' (inject c (new_sim (c_world c)) ext) T = Ok s' /\
    (forall n, (n < length (w_neurons (c_world c)))%nat -> spike_log s n = spike_log s' n) /\
    (forall n, (n < length (w_neurons (c_world c)))%nat -> voltage_log s n = voltage_log s' n) /\
    s_sts s = s_sts s' /\ s_cnt s = s_cnt s' /\ count_spikes s = count_spikes s'.
Proof.
  intros WF HO HO'. assert (HN := num_steps_R (c_dt c) T (wf_dt _ _ WF)).
  destruct (simulate_shows c ext ord T _ WF (ord_sel_ok _ _ HO) HN) as (s & E & A & B).
  destruct (simulate_shows c ext ord' T _ WF (ord_sel_ok _ _ HO') HN) as (s' & E' & A' & B').
  exists s, s'. destruct (shows_unique _ _ _ _ _ _ A A') as (U1 & U2 & U3 & U4).
  repeat split; auto. intros n Hn. rewrite B, B'; auto.
Qed.

(** C07 *)
Lemma spk_iff N k n : spk N (S k) n = true <->
  Vt (t_prm N n) <=
  (V (st N k n) + input N n SynV (S k)) +
  t_dt N * ((ge (st N k n) + input N n SynGe (S k)) +
            (gate (st N k n) + input N n SynGate (S k)) * (gf (st N k n) + input N n SynGf (S k))) / tm (t_prm N n).
Proof.
  pose proof (step_eq N k n) as E. unfold nstep in E. cbv zeta in E.
  match type of E with _ = (if Rleb ?a ?b then _ else _) => destruct (Rleb a b) eqn:El end; injection E as E1 E2; rewrite E2.
  - apply Rleb_true in El. split; auto.
  - apply Rleb_false in El. split; [discriminate|]. intros H. lra.
Qed.
Lemma spk_reset N k n : spk N (S k) n = true ->
  st N (S k) n = {| V := Vreset (t_prm N n); ge := 0; gf := 0; gate := 0 |}.
Proof.
  pose proof (step_eq N k n) as E. unfold nstep in E. cbv zeta in E.
  match type of E with _ = (if Rleb ?a ?b then _ else _) => destruct (Rleb a b) eqn:El end; injection E as E1 E2; rewrite E2; auto.
  discriminate.
Qed.

Lemma spikes_sorted N K n : 0 < t_dt N ->
  Sorted.StronglySorted Rlt (spikes N K n).
Proof.
  intros H. unfold spikes. generalize 1%nat as a. induction K as [|K IH]; intros a; cbn [seq filter map].
  - constructor.
  - destruct (spk N a n); [|apply IH]. cbn [map]. constructor; [apply IH|].
    apply Forall_forall. intros x Hx. apply in_map_iff in Hx as (k & <- & Hk). apply filter_In in Hk as [Hk _].
    apply in_seq in Hk. apply Rmult_lt_compat_r; auto. apply lt_INR. lia.
Qed.
Lemma spikes_In N K n x : In x (spikes N K n) <-> exists k, (1 <= k <= K)%nat /\ x = INR k * t_dt N /\ spk N k n = true.
Proof.
  unfold spikes. rewrite in_map_iff. split.
  - intros (k & <- & Hk). apply filter_In in Hk as [Hk H]. apply in_seq in Hk. exists k. repeat split; auto; lia.
  - intros (k & Hk & -> & H). exists k. split; auto. apply filter_In. split; auto. apply in_seq. lia.
Qed.

(** C08 *)
Definition prefix {A} (a b : list A) : Prop := exists c, b = a ++ c.
Lemma filter_seq_prefix (P : nat -> bool) K1 K2 : (K1 <= K2)%nat ->
  prefix (filter P (seq 1 K1)) (filter P (seq 1 K2)).
Proof.
  intros H. replace K2 with (K1 + (K2 - K1))%nat by lia. rewrite seq_app, filter_app. eexists; reflexivity.
Qed.
Lemma prefix_map {A C} (f : A -> C) a b : prefix a b -> prefix (map f a) (map f b).
Proof. intros [c ->]. rewrite map_app. eexists; reflexivity. Qed.
Lemma prefix_app {A} (p a b : list A) : prefix a b -> prefix (p ++ a) (p ++ b).
Proof. intros [c ->]. rewrite app_assoc. eexists; reflexivity. Qed.

Lemma longer_extends c ext ord ord' T1 T2 : wf c ext -> ord_ok ord -> ord_ok ord' -> T1 <= T2 ->
  exists s1 s2,
    simulate c ord (inject c (new_sim (c_world c)) ext) T1 = Ok s1 /\
    simulate c ord' (inject c (new_sim (c_world c)) ext) T2 = Ok s2 /\
    forall n, (n < length (w_neurons (c_world c)))%nat ->
      prefix (spike_log s1 n) (spike_log s2 n) /\ prefix (voltage_log s1 n) (voltage_log s2 n).
Proof.
  intros WF HO HO' HT. pose proof (wf_dt _ _ WF) as Hdt.
  assert (HN1 := num_steps_R (c_dt c) T1 Hdt). assert (HN2 := num_steps_R (c_dt c) T2 Hdt).
  pose proof (num_steps_mono _ _ _ _ _ Hdt HT HN1 HN2) as HK.
  destruct (simulate_shows c ext ord T1 _ WF (ord_sel_ok _ _ HO) HN1) as (s & E & A & B).
  destruct (simulate_shows c ext ord' T2 _ WF (ord_sel_ok _ _ HO') HN2) as (s' & E' & A' & B').
  exists s, s'. repeat split; auto; intros.
  - rewrite (sh_spk _ _ _ _ _ A), (sh_spk _ _ _ _ _ A') by auto.
    apply prefix_app, prefix_map, filter_seq_prefix; auto.
  - rewrite (B HO), (B' HO') by auto. apply prefix_map, filter_seq_prefix; auto.
Qed.

(** C10 *)
Lemma apply_input_value_err c s v n t0 : v < 0 \/ 1 < v -> apply_input_value c s v n t0 = Err EValue.
Proof.
  intros H. unfold apply_input_value. cbn [nleb R_num nzero n_one nofZ].
  unfold nzero, n_one. cbn [nofZ R_num].
  destruct H as [H|H].
  - rewrite (proj2 (Rleb_false 0 v)) by auto. reflexivity.
  - rewrite (proj2 (Rleb_false v 1)) by auto. rewrite andb_false_r. reflexivity.
Qed.
Lemma apply_input_value_ok c s v n t0 : 0 <= v <= 1 ->
  apply_input_value c s v n t0 =
  Ok (inject c s [(n, t0); (n, t0 + (Tmin (c_enc c) + v * Tcod (c_enc c)))]).
Proof.
  intros [H1 H2]. unfold apply_input_value, encode_value, ngeb, nzero, n_one. cbn [nleb R_num nofZ].
  rewrite (proj2 (Rleb_true 0 v)), (proj2 (Rleb_true v 1)) by auto. cbn [andb negb rbind].
  cbn [fst snd nadd nmul R_num]. rewrite Rplus_0_r. reflexivity.
Qed.
Lemma inject_app c s a b : inject c (inject c s a) b = inject c s (a ++ b).
Proof. unfold inject. rewrite fold_left_app. reflexivity. Qed.

(** effect of an injection: exactly the spikes logged, exactly the events scheduled *)
Lemma inject_effect c s l : heap_ok event_lt (s_q s) ->
  heap_ok event_lt (s_q (inject c s l)) /\
  Permutation (s_q (inject c s l))
    (s_q s ++ flat_map (fun p => map (fun y => {| e_time := snd p + s_delay y; e_nid := s_post y; e_ty := s_ty y; e_w := s_w y |})
                                      (filter (fun y => (s_pre y =? fst p)%nat) (w_syns (c_world c)))) l) /\
  (forall n, spike_log (inject c s l) n = spike_log s n ++ ext_spikes l n) /\
  (forall n, voltage_log (inject c s l) n = voltage_log s n) /\
  s_sts (inject c s l) = s_sts s /\ s_cnt (inject c s l) = s_cnt s.
Proof.
  intros Hq. destruct (inject_inv_gen c l s Hq) as (A1 & A2 & A3 & A4 & A5 & A6).
  repeat split; auto.
  - intros n. unfold spike_log, ext_spikes. rewrite A6, filter_app, map_app, rev_app_distr.
    rewrite filter_rev', map_rev, rev_involutive. reflexivity.
  - intros n. unfold voltage_log. rewrite A4. reflexivity.
Qed.

(** C14 *)
Lemma simulate_total c ext ord T : wf c ext -> ord_ok ord ->
  exists s, simulate c ord (inject c (new_sim (c_world c)) ext) T = Ok s.
Proof.
  intros WF HO. destruct (simulate_shows c ext ord T _ WF (ord_sel_ok _ _ HO) (num_steps_R _ T (wf_dt _ _ WF))) as (s & E & _).
  eauto.
Qed.
