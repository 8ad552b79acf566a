(** Relational properties of whole simulations: time shift (C11), embedding (C12). *)
From Coq Require Import Arith ZArith Bool List Reals Lra Lia Permutation.
From Verif Require Import Num NumOrd Heapq HeapqProofs Elements Simulator QueueProofs Trace SimTrace SimProps TraceProps.
Import ListNotations.
Open Scope R_scope.
Open Scope list_scope.

Lemma prm_reset c ext n : wf c ext -> Vreset (prm (c_world c) n) < Vt (prm (c_world c) n).
Proof.
  intros WF. destruct (Nat.lt_ge_cases n (length (w_neurons (c_world c)))) as [H|H].
  - apply (wf_reset _ _ WF); auto.
  - unfold prm. rewrite (proj2 (nth_error_None _ _)) by auto. cbn. lra.
Qed.

Lemma arrives_in N n k : arrives N n k = existsb (fun y => (0 <? arr N (s_pre y) (s_delay y) k)%nat) (in_syn N n).
Proof.
  unfold arrives, in_syn. induction (t_syns N) as [|y l IH]; auto. cbn [existsb filter].
  destruct (s_post y =? n)%nat; cbn [existsb andb orb]; rewrite IH; auto.
Qed.
Lemma existsb_perm {A} (f : A -> bool) l l' : Permutation l l' -> existsb f l = existsb f l'.
Proof. intros H. induction H; cbn; auto; try congruence. rewrite !orb_assoc, (orb_comm (f y)). auto. Qed.

Section ShiftSim.
Variable N : tnet.
Variable m : nat.
Hypothesis Hdt : 0 < t_dt N.
Hypothesis Hpos : forall p y, In p (t_ext N) -> In y (t_syns N) -> s_pre y = fst p -> 0 < snd p + s_delay y.
Hypothesis Hreset : forall n, Vreset (t_prm N n) < Vt (t_prm N n).

Lemma shift_arr y k : In y (t_syns N) -> (1 <= k)%nat ->
  arr (shift_net m N) (s_pre y) (s_delay y) (m + k) = arr N (s_pre y) (s_delay y) k.
Proof.
  intros Hy Hk. rewrite !arr_eq, shift_count by auto. destruct (Nat.eqb_spec k 0); [lia|]. f_equal.
  change (t_dt (shift_net m N)) with (t_dt N).
  pose proof (step_at_ge1 (t_dt N) (s_delay y)).
  destruct (Nat.ltb_spec (step_at (t_dt N) (s_delay y)) k).
  - destruct (Nat.ltb_spec (step_at (t_dt N) (s_delay y)) (m + k)); [|lia]. cbn [andb].
    replace (m + k - step_at (t_dt N) (s_delay y))%nat with (m + (k - step_at (t_dt N) (s_delay y)))%nat by lia.
    destruct (shift_after N m Hdt Hpos Hreset k (k - step_at (t_dt N) (s_delay y))%nat (s_pre y)) as [_ ->]; [lia|]. reflexivity.
  - cbn [andb]. destruct (Nat.ltb_spec (step_at (t_dt N) (s_delay y)) (m + k)); cbn [andb]; auto.
    destruct (shift_before N m Hdt Hpos Hreset m (Nat.le_refl _) (s_pre y)) as [_ Hb]. rewrite Hb by lia. reflexivity.
Qed.
Lemma shift_arr_0 y j : In y (t_syns N) -> (j <= m)%nat -> arr (shift_net m N) (s_pre y) (s_delay y) j = 0%nat.
Proof.
  intros Hy Hj. rewrite arr_eq, shift_count_0 by auto. change (t_dt (shift_net m N)) with (t_dt N).
  destruct (Nat.ltb_spec (step_at (t_dt N) (s_delay y)) j); cbn [andb]; auto.
  destruct (shift_before N m Hdt Hpos Hreset m (Nat.le_refl _) (s_pre y)) as [_ Hb]. rewrite Hb by lia. reflexivity.
Qed.
Lemma existsb_ext_in {A} (f g : A -> bool) l : (forall x, In x l -> f x = g x) -> existsb f l = existsb g l.
Proof. intros H. induction l as [|x l IH]; cbn; auto. rewrite H by (left; auto). rewrite IH; auto. intros; apply H; right; auto. Qed.
Lemma is_active_init' (p : nparams R) : is_active (init_nstate p) = false.
Proof.
  unfold is_active, init_nstate, nzero. cbn [ge gf gate neqb nofZ R_num].
  assert (E : Reqb 0 0 = true) by apply Reqb_refl. rewrite E. reflexivity.
Qed.
Lemma shift_touched k n : (1 <= k)%nat -> touched (shift_net m N) (m + k) n = touched N k n.
Proof.
  intros Hk. unfold touched. f_equal.
  - unfold arrives. cbn [shift_net t_syns]. apply existsb_ext_in. intros y Hy. rewrite shift_arr by auto. reflexivity.
  - replace (m + k - 1)%nat with (m + (k - 1))%nat by lia.
    destruct (shift_after N m Hdt Hpos Hreset k (k - 1)%nat n) as [-> _]; [lia|]. reflexivity.
Qed.
Lemma shift_touched_0 j n : (j <= m)%nat -> touched (shift_net m N) j n = false.
Proof.
  intros Hj. unfold touched. apply orb_false_iff. split.
  - unfold arrives. cbn [shift_net t_syns]. apply Bool.not_true_iff_false. intros H. apply existsb_exists in H as (y & Hy & H).
    rewrite shift_arr_0 in H by auto. rewrite andb_false_r in H. discriminate.
  - destruct (shift_before N m Hdt Hpos Hreset (j - 1) ltac:(lia) n) as [-> _]. apply is_active_init'.
Qed.
Lemma filter_seq_shift (P Q : nat -> bool) K : (forall j, (1 <= j <= m)%nat -> P j = false) ->
  (forall k, (1 <= k)%nat -> P (m + k)%nat = Q k) ->
  filter P (seq 1 (m + K)) = map (fun k => (m + k)%nat) (filter Q (seq 1 K)).
Proof.
  intros H0 H1. rewrite seq_app, filter_app, filter_false.
  2:{ intros j Hj. apply in_seq in Hj. apply H0. lia. }
  cbn [app]. replace (1 + m)%nat with (m + 1)%nat by lia.
  assert (Es : forall a n, seq (m + a) n = map (fun k => (m + k)%nat) (seq a n)).
  { intros a n. revert a. induction n as [|n IH]; intros a; cbn [seq map]; auto.
    rewrite <- IH. rewrite Nat.add_succ_r. reflexivity. }
  rewrite Es, filter_map. f_equal. apply filter_ext_in. intros k Hk. apply in_seq in Hk. apply H1. lia.
Qed.
Lemma shift_spikes K n : spikes (shift_net m N) (m + K) n = map (fun t => t + INR m * t_dt N) (spikes N K n).
Proof.
  unfold spikes. rewrite (filter_seq_shift _ (fun k => spk N k n)).
  - rewrite !map_map. apply map_ext. intros k. cbn [shift_net t_dt]. rewrite plus_INR. lra.
  - intros j Hj. apply (shift_before N m Hdt Hpos Hreset m); lia.
  - intros k Hk. apply (shift_after N m Hdt Hpos Hreset k); lia.
Qed.
Lemma shift_volts K n :
  map (fun k => (V (st (shift_net m N) k n), (k - 1)%nat)) (filter (fun k => touched (shift_net m N) k n) (seq 1 (m + K))) =
  map (fun p => (fst p, (snd p + m)%nat)) (map (fun k => (V (st N k n), (k - 1)%nat)) (filter (fun k => touched N k n) (seq 1 K))).
Proof.
  rewrite (filter_seq_shift _ (fun k => touched N k n)).
  - rewrite !map_map. apply map_ext_in. intros k Hk. apply filter_In in Hk as [Hk _]. apply in_seq in Hk. cbn [fst snd].
    destruct (shift_after N m Hdt Hpos Hreset k k n (Nat.le_refl _)) as [-> _]. f_equal. lia.
  - intros j Hj. apply shift_touched_0. lia.
  - intros k Hk. apply shift_touched. auto.
Qed.
Lemma shift_deliveries ty K : deliveries (shift_net m N) ty (m + K) = deliveries N ty K.
Proof.
  unfold deliveries. rewrite seq_app, map_app, list_sum_app.
  replace (list_sum (map _ (seq 1 m))) with 0%nat.
  2:{ symmetry. assert (Hz : forall l, (forall x, In x l -> x = 0%nat) -> list_sum l = 0%nat).
      { induction l as [|x l IH]; cbn; auto. intros H. rewrite (H x) by auto. apply IH. auto. }
      apply Hz. intros x Hx. apply in_map_iff in Hx as (j & <- & Hj). apply in_seq in Hj.
      apply Hz. intros x Hx. apply in_map_iff in Hx as (y & <- & Hy). apply filter_In in Hy as [Hy _].
      apply shift_arr_0; auto. lia. }
  cbn [Nat.add]. replace (S m) with (m + 1)%nat by lia.
  assert (Es : forall a n, seq (m + a) n = map (fun k => (m + k)%nat) (seq a n)).
  { intros a n. revert a. induction n as [|n IH]; intros a; cbn [seq map]; auto.
    rewrite <- IH. rewrite Nat.add_succ_r. reflexivity. }
  rewrite Es, map_map. f_equal. apply map_ext_in. intros k Hk. apply in_seq in Hk.
  f_equal. apply map_ext_in. intros y Hy. apply filter_In in Hy as [Hy _]. apply shift_arr; auto. lia.
Qed.
End ShiftSim.

Lemma net_of_shift w ext dt m : net_of w (shift_ext m dt ext) dt = shift_net m (net_of w ext dt).
Proof. reflexivity. Qed.

Lemma wf_shift c ext m : wf c ext -> wf c (shift_ext m (c_dt c) ext).
Proof.
  intros WF. constructor; try apply WF. intros p Hp. unfold shift_ext in Hp. apply in_map_iff in Hp as (q & <- & Hq).
  cbn. apply (wf_ext _ _ WF); auto.
Qed.

Lemma num_steps_plus dt T m K : 0 < dt -> 0 <= T -> num_steps dt T = Ok K -> num_steps dt (T + INR m * dt) = Ok (m + K)%nat.
Proof.
  intros Hdt HT H. destruct (num_steps_floor dt T Hdt HT) as (K' & E & B1 & B2). rewrite H in E. injection E as <-.
  assert (HT' : 0 <= T + INR m * dt) by (pose proof (pos_INR m); nra).
  destruct (num_steps_floor dt (T + INR m * dt) Hdt HT') as (K' & E & C1 & C2). rewrite E. f_equal.
  assert (INR K' < INR (S (m + K))) by (rewrite S_INR, plus_INR, ?S_INR in *; nra).
  assert (INR (m + K) < INR (S K')) by (rewrite S_INR, plus_INR, ?S_INR in *; nra).
  apply INR_lt in H0, H1. lia.
Qed.

(** C11 *)
Lemma simulate_shift c ext ord ord' T m : wf c ext -> ord_ok ord -> ord_ok ord' -> 0 <= T ->
  (forall p y, In p ext -> In y (w_syns (c_world c)) -> s_pre y = fst p -> 0 < snd p + s_delay y) ->
  exists s s',
    simulate c ord (inject c (new_sim (c_world c)) ext) T = Ok s /\
    simulate c ord' (inject c (new_sim (c_world c)) (map (fun p => (fst p, snd p + INR m * c_dt c)) ext))
                    (T + INR m * c_dt c) = Ok s' /\
    (forall n, (n < length (w_neurons (c_world c)))%nat ->
       spike_log s' n = map (fun t => t + INR m * c_dt c) (spike_log s n) /\
       voltage_log s' n = map (fun p => (fst p, (snd p + m)%nat)) (voltage_log s n)) /\
    s_sts s' = s_sts s /\ s_cnt s' = s_cnt s.
Proof.
  intros WF HO HO' HT Hpos. pose proof (wf_dt _ _ WF) as Hdt.
  assert (HN := num_steps_R (c_dt c) T Hdt).
  assert (HN' := num_steps_plus _ _ m _ Hdt HT HN).
  destruct (simulate_shows c ext ord T _ WF (ord_sel_ok _ _ HO) HN) as (s & E & A & B).
  destruct (simulate_shows c _ ord' _ _ (wf_shift c ext m WF) (ord_sel_ok _ _ HO') HN') as (s' & E' & A' & B').
  exists s, s'. split; [exact E|]. split; [exact E'|].
  set (K := Z.to_nat (Rtrunc (T / c_dt c))) in *.
  assert (HR : forall n, Vreset (t_prm (net_of (c_world c) ext (c_dt c)) n) < Vt (t_prm (net_of (c_world c) ext (c_dt c)) n))
    by (intros n; apply (prm_reset c ext n WF)).
  split; [|split].
  - intros n Hn. split.
    + rewrite (sh_spk _ _ _ _ _ A), (sh_spk _ _ _ _ _ A') by auto. rewrite map_app, net_of_shift, shift_spikes; auto.
      f_equal. unfold ext_spikes, shift_ext. rewrite filter_map, !map_map. reflexivity.
    + rewrite (B HO), (B' HO') by auto. rewrite net_of_shift. apply shift_volts; auto.
  - apply list_eq_nth; [rewrite (sh_len _ _ _ _ _ A), (sh_len _ _ _ _ _ A'); auto|].
    intros n Hn. rewrite (sh_len _ _ _ _ _ A') in Hn. rewrite (sh_sts _ _ _ _ _ A), (sh_sts _ _ _ _ _ A') by auto.
    rewrite net_of_shift. f_equal. eapply shift_after; eauto.
  - apply counts_eq. intros ty Hty. rewrite (sh_cnt _ _ _ _ _ A), (sh_cnt _ _ _ _ _ A') by auto.
    rewrite net_of_shift. apply shift_deliveries; auto.
Qed.

(** C12 *)
Record same_module (f : nat -> nat) (S : nat -> Prop) (c1 c2 : cfg R) (ext1 ext2 : list (nat * R)) : Prop := {
  sm_dt : c_dt c2 = c_dt c1;
  sm_nr : forall n, S n -> exists nr1 nr2, nth_error (w_neurons (c_world c1)) n = Some nr1 /\
            nth_error (w_neurons (c_world c2)) (f n) = Some nr2 /\ nr_params nr2 = nr_params nr1;
  (* the synapses into the module are the same in both networks... *)
  sm_syn : forall n, S n ->
     Permutation (filter (fun y => (s_post y =? f n)%nat) (w_syns (c_world c2)))
                 (map (rename_syn f) (filter (fun y => (s_post y =? n)%nat) (w_syns (c_world c1))));
  (* ... and all come from inside the module *)
  sm_closed : forall n y, S n -> In y (w_syns (c_world c1)) -> s_post y = n -> S (s_pre y);
  sm_ext : forall n, S n -> ext_spikes ext2 (f n) = ext_spikes ext1 n
}.
Lemma same_module_embeds f S c1 c2 ext1 ext2 : same_module f S c1 c2 ext1 ext2 ->
  embeds f S (net_of (c_world c1) ext1 (c_dt c1)) (net_of (c_world c2) ext2 (c_dt c2)).
Proof.
  intros H. constructor.
  - apply H.
  - intros n Hn. destruct (sm_nr _ _ _ _ _ _ H n Hn) as (nr1 & nr2 & E1 & E2 & E3).
    cbn. unfold prm. rewrite E1, E2. auto.
  - intros n Hn. apply (sm_syn _ _ _ _ _ _ H n Hn).
  - intros n y Hn Hy. apply filter_In in Hy as [Hy E]. apply Nat.eqb_eq in E. eapply (sm_closed _ _ _ _ _ _ H); eauto.
  - intros n Hn. pose proof (sm_ext _ _ _ _ _ _ H n Hn) as E. unfold ext_spikes in E. unfold ext_of. cbn [net_of t_ext].
    rewrite E. reflexivity.
Qed.
Lemma embed_touched f S N1 N2 k n : embeds f S N1 N2 -> S n -> touched N2 k (f n) = touched N1 k n.
Proof.
  intros E Hn. unfold touched. rewrite !arrives_in. f_equal.
  - rewrite (existsb_perm _ _ _ (em_syn _ _ _ _ E n Hn)).
    assert (He : forall A C (g : A -> C) h l, existsb h (map g l) = existsb (fun x => h (g x)) l).
    { intros A C g h l. induction l; cbn; congruence. }
    rewrite He. apply existsb_ext_in. intros y Hy. cbn [rename_syn s_pre s_delay]. f_equal.
    pose proof (em_closed _ _ _ _ E n y Hn Hy) as Hp.
    rewrite !arr_eq, !ext_count_of. rewrite (em_dt _ _ _ _ E). f_equal.
    + apply Permutation_length, filter_perm, (em_ext _ _ _ _ E); auto.
    + destruct (embed_same f S N1 N2 E k (k - step_at (t_dt N1) (s_delay y)) (s_pre y)) as [_ ->]; auto. lia.
  - destruct (embed_same f S N1 N2 E k (k - 1) n) as [-> _]; auto. lia.
Qed.
Lemma simulate_embed f S c1 c2 ext1 ext2 ord1 ord2 T :
  same_module f S c1 c2 ext1 ext2 -> wf c1 ext1 -> wf c2 ext2 -> ord_ok ord1 -> ord_ok ord2 ->
  exists s1 s2,
    simulate c1 ord1 (inject c1 (new_sim (c_world c1)) ext1) T = Ok s1 /\
    simulate c2 ord2 (inject c2 (new_sim (c_world c2)) ext2) T = Ok s2 /\
    forall n, S n -> spike_log s2 (f n) = spike_log s1 n /\ voltage_log s2 (f n) = voltage_log s1 n /\
                     nth_error (s_sts s2) (f n) = nth_error (s_sts s1) n.
Proof.
  intros HM WF1 WF2 HO1 HO2.
  pose proof (same_module_embeds _ _ _ _ _ _ HM) as EM.
  assert (HN1 := num_steps_R (c_dt c1) T (wf_dt _ _ WF1)). assert (HN2 := num_steps_R (c_dt c2) T (wf_dt _ _ WF2)).
  destruct (simulate_shows c1 ext1 ord1 T _ WF1 (ord_sel_ok _ _ HO1) HN1) as (s1 & E1 & A1 & B1).
  destruct (simulate_shows c2 ext2 ord2 T _ WF2 (ord_sel_ok _ _ HO2) HN2) as (s2 & E2 & A2 & B2).
  exists s1, s2. split; auto. split; auto. intros n Hn.
  destruct (sm_nr _ _ _ _ _ _ HM n Hn) as (nr1 & nr2 & R1 & R2 & _).
  assert (L1 : (n < length (w_neurons (c_world c1)))%nat) by (apply nth_error_Some; congruence).
  assert (L2 : (f n < length (w_neurons (c_world c2)))%nat) by (apply nth_error_Some; congruence).
  assert (EK : Z.to_nat (Rtrunc (T / c_dt c2)) = Z.to_nat (Rtrunc (T / c_dt c1))) by (rewrite (sm_dt _ _ _ _ _ _ HM); auto).
  rewrite EK in *. set (K := Z.to_nat _) in *.
  assert (Hsame : forall k, st (net_of (c_world c2) ext2 (c_dt c2)) k (f n) = st (net_of (c_world c1) ext1 (c_dt c1)) k n /\
                            spk (net_of (c_world c2) ext2 (c_dt c2)) k (f n) = spk (net_of (c_world c1) ext1 (c_dt c1)) k n).
  { intros k. eapply embed_same; eauto. }
  split; [|split].
  - rewrite (sh_spk _ _ _ _ _ A1), (sh_spk _ _ _ _ _ A2) by auto. f_equal; [apply (sm_ext _ _ _ _ _ _ HM); auto|].
    unfold spikes. cbn [net_of t_dt]. rewrite (sm_dt _ _ _ _ _ _ HM).
    rewrite (sm_dt _ _ _ _ _ _ HM) in Hsame.
    f_equal. apply filter_ext. intros k. apply Hsame.
  - rewrite (B1 HO1), (B2 HO2) by auto.
    rewrite (filter_ext _ (fun k => touched (net_of (c_world c1) ext1 (c_dt c1)) k n)) by (intros k; eapply embed_touched; eauto).
    apply map_ext. intros k. destruct (Hsame k) as [-> _]. reflexivity.
  - rewrite (sh_sts _ _ _ _ _ A1), (sh_sts _ _ _ _ _ A2) by auto. f_equal. apply Hsame.
Qed.
