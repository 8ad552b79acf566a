(** A network that is back at rest behaves as a fresh one (C52).  Operational form of Restart.v. *)
From Coq Require Import Arith ZArith Bool List Reals Lra Lia Permutation.
From Verif Require Import Num Heapq Elements Simulator Trace SimTrace SimProps TraceProps NeuronLib SimRel Restart.
Import ListNotations.
Open Scope R_scope.
Open Scope list_scope.

(** nothing under way and every neuron as newly created *)
Definition resting (w : world R) (s : sim R) : Prop := s_q s = [] /\ s_sts s = s_sts (new_sim w).
(** the same inputs d time units later *)
Definition later (d : R) (ext : list (nat * R)) : list (nat * R) := map (fun p => (fst p, snd p + d)) ext.

(** resting, in the recurrence *)
Record quiet (N : tnet) (NN K : nat) : Prop := {
  q_ext : forall p y, In p (t_ext N) -> In y (t_syns N) -> s_pre y = fst p -> (step_at (t_dt N) (snd p + s_delay y) <= K)%nat;
  q_st : forall n, (n < NN)%nat -> st N K n = init_nstate (t_prm N n);
  q_spk : forall y j, In y (t_syns N) -> (j <= K)%nat -> spk N j (s_pre y) = true -> (j + step_at (t_dt N) (s_delay y) <= K)%nat }.

Lemma filter_empty {A} (f : A -> bool) l : filter f l = [] <-> forall x, In x l -> f x = false.
Proof.
  induction l as [|x l IH]; cbn; [split; [contradiction|auto]|].
  destruct (f x) eqn:E; split; intros H.
  - discriminate.
  - rewrite (H x (or_introl eq_refl)) in E. discriminate.
  - intros y [<-|Hy]; [auto|apply IH; auto].
  - apply IH. intros; apply H; auto.
Qed.
Lemma resting_quiet c ext ord K s act : wf c ext -> Inv c ext ord K s act ->
  resting (c_world c) s <-> quiet (net_of (c_world c) ext (c_dt c)) (length (w_neurons (c_world c))) K.
Proof.
  intros WF I. set (w := c_world c). set (N := net_of w ext (c_dt c)).
  assert (HI : forall n, (n < length (w_neurons w))%nat -> nth n (s_sts (new_sim w)) dst = init_nstate (t_prm N n)).
  { intros n Hn. unfold new_sim, N, net_of, prm; cbn [s_sts t_prm]. destruct (nth_error (w_neurons w) n) as [nr|] eqn:E; [|apply nth_error_None in E; lia].
    apply nth_error_nth. rewrite nth_error_map, E. reflexivity. }
  assert (HS : s_sts s = s_sts (new_sim w) <-> forall n, (n < length (w_neurons w))%nat -> st N K n = init_nstate (t_prm N n)).
  { split.
    - intros E n Hn. transitivity (nth n (s_sts s) dst); [symmetry; apply (i_sts _ _ _ _ _ _ I n Hn)|]. rewrite E. apply HI. auto.
    - intros H. apply nth_ext with (d := dst) (d' := dst); rewrite (i_len _ _ _ _ _ _ I); [unfold new_sim; cbn; rewrite map_length; reflexivity|].
      intros n Hn. fold w in Hn. rewrite HI by exact Hn. rewrite <- H by exact Hn. apply (i_sts _ _ _ _ _ _ I n Hn). }
  assert (HQ : s_q s = [] <-> (forall x, In x (pend c ext K) -> (snd x <= K)%nat)).
  { pose proof (i_q _ _ _ _ _ _ I) as P. split.
    - intros E x Hx. rewrite E in P. apply Permutation_nil in P. apply map_eq_nil in P. rewrite filter_empty in P. specialize (P x Hx). apply Nat.ltb_ge in P. auto.
    - intros H. rewrite (proj2 (filter_empty _ _)) in P; [apply Permutation_sym, Permutation_nil in P; auto|].
      intros x Hx. apply Nat.ltb_ge. auto. }
  unfold resting. rewrite HS, HQ. split.
  - intros [A B]. constructor.
    + intros p y Hp Hy E. apply (A (syn_event (snd p) y, step_at (c_dt c) (snd p + s_delay y))). unfold pend. apply in_or_app; left.
      unfold pext. apply in_flat_map. exists p. split; auto. apply in_map_iff. exists y. split; auto. unfold out_syn. apply filter_In. split; auto. apply Nat.eqb_eq; auto.
    + auto.
    + intros y j Hy Hj Hs. apply (A (syn_event (INR j * c_dt c) y, (j + step_at (c_dt c) (s_delay y))%nat)). unfold pend. apply in_or_app; right.
      apply in_flat_map. exists j. split.
      { apply in_seq. destruct j; [rewrite spk_0 in Hs; discriminate|lia]. }
      unfold pstep. apply in_flat_map. exists (s_pre y). split; [apply in_seq; pose proof (wf_range _ _ WF y Hy); lia|].
      fold w. fold N. rewrite Hs. apply in_map_iff. exists y. split; auto. unfold out_syn. apply filter_In. split; auto. apply Nat.eqb_eq; auto.
  - intros [A B C]. split; auto. intros [e d] Hx. cbn [snd]. unfold pend in Hx. apply in_app_or in Hx as [Hx|Hx].
    + unfold pext in Hx. apply in_flat_map in Hx as (p & Hp & Hx). apply in_map_iff in Hx as (y & E & Hy). injection E as _ <-.
      unfold out_syn in Hy. apply filter_In in Hy as [Hy E]. apply Nat.eqb_eq in E. apply (A p y); auto.
    + apply in_flat_map in Hx as (j & Hj & Hx). unfold pstep in Hx. apply in_flat_map in Hx as (n & _ & Hx). fold w N in Hx.
      destruct (spk N j n) eqn:Es; [|contradiction]. apply in_map_iff in Hx as (y & E & Hy). injection E as _ <-.
      unfold out_syn in Hy. apply filter_In in Hy as [Hy E]. apply Nat.eqb_eq in E. apply in_seq in Hj. apply (C y j); auto; [lia|]. rewrite E. auto.
Qed.

Section Again.
Variable c : cfg R.
Let w := c_world c.
Let dt := c_dt c.
Let NN := length (w_neurons w).
Variables A B : list (nat * R).
Variable K : nat.
Hypothesis WFA : wf c A.
Hypothesis WFB : wf c B.
Let AB := A ++ later (INR K * dt) B.
Let N1 := net_of w A dt.
Let N2 := net_of w B dt.
Let N := net_of w AB dt.
Hypothesis HB : forall p y, In p B -> In y (w_syns w) -> s_pre y = fst p -> 0 < snd p + s_delay y.
Hypothesis Q1 : quiet N1 NN K.

Lemma wf_again : wf c AB.
Proof.
  constructor; try apply WFA. intros p Hp. unfold AB in Hp. apply in_app_or in Hp as [Hp|Hp]; [apply (wf_ext _ _ WFA); auto|].
  unfold later in Hp. apply in_map_iff in Hp as (q & <- & Hq). cbn. apply (wf_ext _ _ WFB); auto.
Qed.
Lemma back_later : Restart.shift (INR K * dt) (later (INR K * dt) B) = B.
Proof. unfold Restart.shift, later. rewrite map_map. rewrite <- (map_id B) at 2. apply map_ext. intros [n t]. cbn. f_equal. ring. Qed.
Lemma again_hyp_dt : 0 < t_dt N. Proof. apply (wf_dt _ _ WFA). Qed.
Lemma again_hyp2 p y : In p (later (INR K * dt) B) -> In y (w_syns w) -> s_pre y = fst p -> 0 < snd p - INR K * dt + s_delay y.
Proof. intros Hp Hy E. unfold later in Hp. apply in_map_iff in Hp as (q & <- & Hq). cbn in *. pose proof (HB q y Hq Hy E). lra. Qed.
Lemma again_before k n : (k <= K)%nat -> st N k n = st N1 k n /\ spk N k n = spk N1 k n.
Proof.
  intros Hk. pose proof (before N again_hyp_dt A (later (INR K * dt) B) K eq_refl) as H.
  refine (H _ k Hk n). intros p y Hp Hy. apply again_hyp2; auto.
Qed.
Lemma again_after i n : (n < NN)%nat -> st N (K + i) n = st N2 i n /\ ((1 <= i)%nat -> spk N (K + i) n = spk N2 i n).
Proof.
  intros Hn. pose proof (after N again_hyp_dt (fun n => (n < NN)%nat) (wf_range _ _ WFA) A (later (INR K * dt) B) K eq_refl) as H.
  unfold with_ext in H. cbn [N net_of t_dt] in H. rewrite back_later in H. refine (H _ _ _ _ i n Hn).
  - intros p y Hp Hy E. apply (q_ext _ _ _ Q1 p y); auto.
  - intros p y Hp Hy. apply again_hyp2; auto.
  - intros m Hm. apply (q_st _ _ _ Q1); auto.
  - intros y j Hy Hj Hs. apply (q_spk _ _ _ Q1 y j); auto.
Qed.
Lemma again_arr_before y k : In y (w_syns w) -> (k <= K)%nat -> arr N (s_pre y) (s_delay y) k = arr N1 (s_pre y) (s_delay y) k.
Proof.
  intros Hy Hk. rewrite !arr_eq. change (t_dt N1) with (t_dt N). f_equal.
  - rewrite (ext_split N A (later (INR K * dt) B) eq_refl). rewrite (ext2_early N again_hyp_dt (later (INR K * dt) B) K) by (auto; intros; apply again_hyp2; auto).
    rewrite Nat.add_0_r. reflexivity.
  - destruct (Nat.ltb_spec (step_at (t_dt N) (s_delay y)) k); cbn [andb]; auto.
    destruct (again_before (k - step_at (t_dt N) (s_delay y))%nat (s_pre y) ltac:(lia)) as [_ ->]. reflexivity.
Qed.
Lemma again_arr_after y i : In y (w_syns w) -> (1 <= i)%nat -> arr N (s_pre y) (s_delay y) (K + i) = arr N2 (s_pre y) (s_delay y) i.
Proof.
  intros Hy Hi. rewrite !arr_eq. change (t_dt N2) with (t_dt N). f_equal.
  - rewrite (ext_split N A (later (INR K * dt) B) eq_refl).
    rewrite (ext1_late N A K) by (auto; try lia; intros p z Hp Hz E; apply (q_ext _ _ _ Q1 p z); auto).
    rewrite (ext2_shift N again_hyp_dt (later (INR K * dt) B) K) by (auto; intros; apply again_hyp2; auto).
    unfold with_ext. cbn [N net_of t_dt t_syns t_prm]. rewrite back_later. reflexivity.
  - pose proof (step_at_ge1 (t_dt N) (s_delay y)) as HD. set (D := step_at (t_dt N) (s_delay y)) in *.
    destruct (Nat.lt_ge_cases D i) as [L|L].
    + rewrite (proj2 (Nat.ltb_lt D i)), (proj2 (Nat.ltb_lt D (K + i))) by lia. cbn [andb].
      replace (K + i - D)%nat with (K + (i - D))%nat by lia.
      destruct (again_after (i - D)%nat (s_pre y) (wf_range _ _ WFA y Hy)) as [_ ->]; [|lia]. reflexivity.
    + rewrite (proj2 (Nat.ltb_ge D i)) by lia. cbn [andb]. destruct (Nat.ltb_spec D (K + i)); cbn [andb]; auto.
      destruct (again_before (K + i - D)%nat (s_pre y) ltac:(lia)) as [_ ->].
      destruct (spk N1 (K + i - D) (s_pre y)) eqn:E; auto. exfalso.
      pose proof (q_spk _ _ _ Q1 y (K + i - D)%nat Hy ltac:(lia) E) as HQ. change (t_dt N1) with (t_dt N) in HQ. fold D in HQ. lia.
Qed.
Lemma seq_add_map m a n : seq (m + a) n = map (fun k => (m + k)%nat) (seq a n).
Proof. revert a. induction n as [|n IH]; intros a; cbn [seq map]; auto. rewrite <- IH, Nat.add_succ_r. reflexivity. Qed.
Lemma filter_two (P P1 P2 : nat -> bool) k : (forall j, (1 <= j <= K)%nat -> P j = P1 j) -> (forall i, (1 <= i)%nat -> P (K + i)%nat = P2 i) ->
  filter P (seq 1 (K + k)) = filter P1 (seq 1 K) ++ map (fun i => (K + i)%nat) (filter P2 (seq 1 k)).
Proof.
  intros H1 H2. rewrite seq_app, filter_app. f_equal.
  - apply filter_ext_in. intros j Hj. apply in_seq in Hj. apply H1. lia.
  - replace (1 + K)%nat with (K + 1)%nat by lia. rewrite seq_add_map, filter_map. f_equal. apply filter_ext_in. intros i Hi. apply in_seq in Hi. apply H2. lia.
Qed.
Lemma again_spikes k n : (n < NN)%nat -> spikes N (K + k) n = spikes N1 K n ++ map (fun t => t + INR K * dt) (spikes N2 k n).
Proof.
  intros Hn. unfold spikes. rewrite (filter_two _ (fun k => spk N1 k n) (fun k => spk N2 k n)).
  - rewrite map_app, !map_map. f_equal. apply map_ext. intros i. cbn [N N2 net_of t_dt]. rewrite plus_INR. lra.
  - intros j Hj. apply again_before. lia.
  - intros i Hi. apply again_after; auto.
Qed.
Lemma again_touched_before k n : (1 <= k <= K)%nat -> touched N k n = touched N1 k n.
Proof.
  intros Hk. unfold touched, arrives. f_equal.
  - apply existsb_ext_in. intros y Hy. cbn [N net_of t_syns] in Hy. rewrite again_arr_before by (auto; lia). reflexivity.
  - destruct (again_before (k - 1) n ltac:(lia)) as [-> _]. reflexivity.
Qed.
Lemma again_touched_after i n : (n < NN)%nat -> (1 <= i)%nat -> touched N (K + i) n = touched N2 i n.
Proof.
  intros Hn Hi. unfold touched, arrives. f_equal.
  - apply existsb_ext_in. intros y Hy. cbn [N net_of t_syns] in Hy. rewrite again_arr_after by auto. reflexivity.
  - replace (K + i - 1)%nat with (K + (i - 1))%nat by lia. destruct (again_after (i - 1) n Hn) as [-> _]. reflexivity.
Qed.
Lemma again_volts k n : (n < NN)%nat ->
  map (fun k => (V (st N k n), (k - 1)%nat)) (filter (fun k => touched N k n) (seq 1 (K + k))) =
  map (fun k => (V (st N1 k n), (k - 1)%nat)) (filter (fun k => touched N1 k n) (seq 1 K)) ++
  map (fun p => (fst p, (snd p + K)%nat)) (map (fun k => (V (st N2 k n), (k - 1)%nat)) (filter (fun k => touched N2 k n) (seq 1 k))).
Proof.
  intros Hn. rewrite (filter_two _ (fun k => touched N1 k n) (fun k => touched N2 k n)).
  - rewrite map_app, !map_map. f_equal.
    + apply map_ext_in. intros j Hj. apply filter_In in Hj as [Hj _]. apply in_seq in Hj. destruct (again_before j n ltac:(lia)) as [-> _]. reflexivity.
    + apply map_ext_in. intros i Hi. apply filter_In in Hi as [Hi _]. apply in_seq in Hi. destruct (again_after i n Hn) as [-> _]. cbn [fst snd]. f_equal. lia.
  - intros j Hj. apply again_touched_before. lia.
  - intros i Hi. apply again_touched_after; auto.
Qed.
Lemma again_deliveries ty k : deliveries N ty (K + k) = (deliveries N1 ty K + deliveries N2 ty k)%nat.
Proof.
  unfold deliveries. rewrite seq_app, map_app, list_sum_app. f_equal.
  - f_equal. apply map_ext_in. intros j Hj. apply in_seq in Hj. f_equal. apply map_ext_in. intros y Hy. apply filter_In in Hy as [Hy _]. apply again_arr_before; auto. lia.
  - replace (1 + K)%nat with (K + 1)%nat by lia. rewrite seq_add_map, map_map. f_equal. apply map_ext_in. intros i Hi. apply in_seq in Hi. f_equal.
    apply map_ext_in. intros y Hy. apply filter_In in Hy as [Hy _]. apply again_arr_after; auto. lia.
Qed.
Lemma again_quiet k : quiet N NN (K + k) <-> quiet N2 NN k.
Proof.
  assert (ES : forall y, In y (w_syns w) -> (s_pre y < NN)%nat) by apply (wf_range _ _ WFA).
  split; intros [X Y Z]; constructor.
  - intros p y Hp Hy E. pose proof (X (fst p, snd p + INR K * dt) y) as H. cbn [fst snd N N2 net_of t_ext t_dt t_syns] in *.
    specialize (H ltac:(unfold AB; apply in_or_app; right; unfold later; apply in_map_iff; exists p; auto) Hy E).
    pose proof (HB p y Hp Hy E) as P. replace (snd p + INR K * dt + s_delay y) with (snd p + s_delay y + INR K * dt) in H by ring.
    rewrite step_at_plus in H by (auto; apply (wf_dt _ _ WFA)). lia.
  - intros n Hn. destruct (again_after k n Hn) as [<- _]. apply Y; auto.
  - intros y j Hy Hj Hs. cbn [N N2 net_of t_syns t_dt] in *. assert (J : (1 <= j)%nat) by (destruct j; [rewrite spk_0 in Hs; discriminate|lia]).
    pose proof (Z y (K + j)%nat Hy ltac:(lia)) as H. destruct (again_after j (s_pre y) (ES y Hy)) as [_ E]. fold N in H. rewrite (E J) in H. specialize (H Hs). lia.
  - intros p y Hp Hy E. cbn [N N2 net_of t_ext t_syns t_dt] in *. unfold AB in Hp. apply in_app_or in Hp as [Hp|Hp].
    + pose proof (q_ext _ _ _ Q1 p y Hp Hy E) as H. cbn in H. lia.
    + unfold later in Hp. apply in_map_iff in Hp as (q & <- & Hq). cbn [fst snd] in *. pose proof (X q y Hq Hy E) as H. pose proof (HB q y Hq Hy E) as P.
      replace (snd q + INR K * dt + s_delay y) with (snd q + s_delay y + INR K * dt) by ring. rewrite step_at_plus by (auto; apply (wf_dt _ _ WFA)). lia.
  - intros n Hn. destruct (again_after k n Hn) as [-> _]. apply Y; auto.
  - intros y j Hy Hj Hs. cbn [N N2 net_of t_syns t_dt] in *. destruct (Nat.le_gt_cases j K) as [L|L].
    + destruct (again_before j (s_pre y) L) as [_ E]. fold N in Hs. rewrite E in Hs. pose proof (q_spk _ _ _ Q1 y j Hy L Hs) as H. cbn in H. lia.
    + replace j with (K + (j - K))%nat in Hs by lia. destruct (again_after (j - K) (s_pre y) (ES y Hy)) as [_ E]. fold N in Hs. rewrite E in Hs by lia.
      pose proof (Z y (j - K)%nat Hy ltac:(lia) Hs) as H. lia.
Qed.
End Again.

Lemma simulate_inv c ext ord T K : wf c ext -> sel_ok (c_keys c) ord -> num_steps (c_dt c) T = Ok K ->
  exists s act, simulate c ord (inject c (new_sim (c_world c)) ext) T = Ok s /\ Inv c ext ord K s act.
Proof.
  intros WF HS HN. destruct (sim_inv c ext WF ord HS K) as (s & act & E & I).
  exists s, act. unfold simulate. rewrite HN. cbn [rbind]. rewrite E. auto.
Qed.
Definition cnt_add (a b : counts) : counts := {| cV := cV a + cV b; cGe := cGe a + cGe b; cGf := cGf a + cGf b; cGate := cGate a + cGate b |}%nat.
Lemma get_cnt_add a b ty : get_count (cnt_add a b) ty = (get_count a ty + get_count b ty)%nat.
Proof. destruct ty; reflexivity. Qed.

Lemma simulate_again c A B ordA ordB ord K T : wf c A -> wf c B -> ord_ok ordA -> ord_ok ordB -> ord_ok ord -> 0 <= T ->
  (forall p y, In p B -> In y (w_syns (c_world c)) -> s_pre y = fst p -> 0 < snd p + s_delay y) ->
  exists sA sB s,
    simulate c ordA (inject c (new_sim (c_world c)) A) (INR K * c_dt c) = Ok sA /\
    simulate c ordB (inject c (new_sim (c_world c)) B) T = Ok sB /\
    simulate c ord (inject c (new_sim (c_world c)) (A ++ later (INR K * c_dt c) B)) (T + INR K * c_dt c) = Ok s /\
    (resting (c_world c) sA ->
      (forall n, (n < length (w_neurons (c_world c)))%nat ->
         Permutation (spike_log s n) (spike_log sA n ++ map (fun t => t + INR K * c_dt c) (spike_log sB n)) /\
         (~ In n (map fst B) -> spike_log s n = spike_log sA n ++ map (fun t => t + INR K * c_dt c) (spike_log sB n)) /\
         voltage_log s n = voltage_log sA n ++ map (fun p => (fst p, (snd p + K)%nat)) (voltage_log sB n)) /\
      s_sts s = s_sts sB /\ s_cnt s = cnt_add (s_cnt sA) (s_cnt sB) /\ (resting (c_world c) s <-> resting (c_world c) sB)).
Proof.
  intros WA WB OA OB OO HT HB. pose proof (wf_dt _ _ WA) as Hdt.
  pose proof (wf_again c A B K WA WB) as WAB.
  pose proof (num_steps_exact (c_dt c) K Hdt) as NA. pose proof (num_steps_R (c_dt c) T Hdt) as NB. set (k := Z.to_nat (Rtrunc (T / c_dt c))) in *.
  pose proof (num_steps_plus _ _ K _ Hdt HT NB) as NAB.
  destruct (simulate_inv c A ordA _ _ WA (ord_sel_ok _ _ OA) NA) as (sA & aA & EA & IA).
  destruct (simulate_inv c B ordB _ _ WB (ord_sel_ok _ _ OB) NB) as (sB & aB & EB & IB).
  destruct (simulate_inv c _ ord _ _ WAB (ord_sel_ok _ _ OO) NAB) as (s & a & E & I).
  exists sA, sB, s. split; [auto|]. split; [auto|]. split; [auto|]. intros RA.
  pose proof (proj1 (resting_quiet _ _ _ _ _ _ WA IA) RA) as Q1.
  assert (SP : forall n, (n < length (w_neurons (c_world c)))%nat -> exists u v, spike_log sA n = ext_spikes A n ++ u /\ spike_log sB n = ext_spikes B n ++ v /\
     spike_log s n = (ext_spikes A n ++ map (fun t => t + INR K * c_dt c) (ext_spikes B n)) ++ u ++ map (fun t => t + INR K * c_dt c) v).
  { intros n Hn. exists (spikes (net_of (c_world c) A (c_dt c)) K n), (spikes (net_of (c_world c) B (c_dt c)) k n).
    split; [rewrite (i_spk _ _ _ _ _ _ IA n Hn); reflexivity|]. split; [rewrite (i_spk _ _ _ _ _ _ IB n Hn); reflexivity|].
    rewrite (i_spk _ _ _ _ _ _ I n Hn). f_equal.
    - rewrite filter_app, map_app. f_equal. unfold later, ext_spikes. rewrite filter_map, !map_map. reflexivity.
    - apply (again_spikes c A B K WA HB Q1 k n Hn). }
  split; [|split; [|split]].
  - intros n Hn. destruct (SP n Hn) as (u & v & E1 & E2 & E3). split; [|split].
    + rewrite E1, E2, E3, map_app, <- !app_assoc. apply Permutation_app_head. rewrite !app_assoc. apply Permutation_app_tail. apply Permutation_app_comm.
    + intros Hni. assert (EX : ext_spikes B n = []).
      { unfold ext_spikes. rewrite (proj2 (filter_empty _ _)); [reflexivity|]. intros p Hp. apply Nat.eqb_neq. intros <-. apply Hni, in_map; auto. }
      rewrite E1, E2, E3, EX. cbn [map app]. rewrite app_nil_r, app_assoc. reflexivity.
    + rewrite (i_vlt _ _ _ _ _ _ IA OA n Hn), (i_vlt _ _ _ _ _ _ IB OB n Hn), (i_vlt _ _ _ _ _ _ I OO n Hn).
      apply (again_volts c A B K WA HB Q1 k n Hn).
  - apply nth_ext with (d := dst) (d' := dst); rewrite (i_len _ _ _ _ _ _ I); [rewrite (i_len _ _ _ _ _ _ IB); auto|].
    intros n Hn. rewrite (i_sts _ _ _ _ _ _ I n Hn), (i_sts _ _ _ _ _ _ IB n Hn). apply (again_after c A B K WA HB Q1 k n Hn).
  - apply counts_eq. intros ty Hty. rewrite get_cnt_add, (i_cnt _ _ _ _ _ _ I ty Hty), (i_cnt _ _ _ _ _ _ IA ty Hty), (i_cnt _ _ _ _ _ _ IB ty Hty).
    apply (again_deliveries c A B K WA HB Q1).
  - rewrite (resting_quiet _ _ _ _ _ _ WAB I), (resting_quiet _ _ _ _ _ _ WB IB). apply (again_quiet c A B K WA HB Q1).
Qed.

(** ** any number of rounds: inputs and length (in steps) of each *)
Fixpoint timetable (dt : R) (rs : list (list (nat * R) * nat)) : list (nat * R) :=
  match rs with [] => [] | r :: rs' => fst r ++ later (INR (snd r) * dt) (timetable dt rs') end.
Definition duration (rs : list (list (nat * R) * nat)) : nat := list_sum (map snd rs).
(** the logs of the rounds one after the other *)
Fixpoint joined (dt : R) (ks : list nat) (logs : list (list R)) : list R :=
  match ks, logs with
  | k :: ks', l :: logs' => l ++ map (fun t => t + INR k * dt) (joined dt ks' logs')
  | _, _ => []
  end.
Lemma timetable_pos c rs : 0 < c_dt c ->
  (forall r p y, In r rs -> In p (fst r) -> In y (w_syns (c_world c)) -> s_pre y = fst p -> 0 < snd p + s_delay y) ->
  forall p y, In p (timetable (c_dt c) rs) -> In y (w_syns (c_world c)) -> s_pre y = fst p -> 0 < snd p + s_delay y.
Proof.
  intros Hdt. induction rs as [|r rs IH]; intros H p y Hp Hy E; [contradiction|]. cbn in Hp. apply in_app_or in Hp as [Hp|Hp].
  - apply (H r p y); auto. left; auto.
  - unfold later in Hp. apply in_map_iff in Hp as (q & <- & Hq). cbn [fst snd] in *. assert (0 < snd q + s_delay y) by (apply IH; auto; intros; eapply H; eauto; right; auto).
    pose proof (pos_INR (snd r)). nra.
Qed.
Lemma timetable_wf c rs : (forall r, In r rs -> wf c (fst r)) -> wf c [] -> wf c (timetable (c_dt c) rs).
Proof.
  intros H W0. induction rs as [|r rs IH]; [exact W0|]. cbn [timetable]. apply wf_again; [apply H; left; auto|apply IH; intros; apply H; right; auto].
Qed.
Lemma timetable_fst dt rs n : In n (map fst (timetable dt rs)) -> exists r, In r rs /\ In n (map fst (fst r)).
Proof.
  induction rs as [|r rs IH]; [contradiction|]. cbn [timetable]. rewrite map_app. intros Hn. apply in_app_or in Hn as [Hn|Hn].
  - exists r. split; auto. left; auto.
  - unfold later in Hn. rewrite map_map in Hn. cbn [fst] in Hn. destruct (IH Hn) as (r' & A & B). exists r'. split; auto. right; auto.
Qed.
Lemma simulate_rounds c ord rs ss : wf c [] -> (forall r, In r rs -> wf c (fst r)) -> ord_ok ord ->
  (forall r p y, In r rs -> In p (fst r) -> In y (w_syns (c_world c)) -> s_pre y = fst p -> 0 < snd p + s_delay y) ->
  Forall2 (fun r s => simulate c ord (inject c (new_sim (c_world c)) (fst r)) (INR (snd r) * c_dt c) = Ok s /\ resting (c_world c) s) rs ss ->
  exists s, simulate c ord (inject c (new_sim (c_world c)) (timetable (c_dt c) rs)) (INR (duration rs) * c_dt c) = Ok s /\
    resting (c_world c) s /\
    forall n, (n < length (w_neurons (c_world c)))%nat ->
      Permutation (spike_log s n) (joined (c_dt c) (map snd rs) (map (fun s => spike_log s n) ss)) /\
      ((forall r, In r rs -> ~ In n (map fst (fst r))) -> spike_log s n = joined (c_dt c) (map snd rs) (map (fun s => spike_log s n) ss)).
Proof.
  intros W0 HW HO HP HF. pose proof (wf_dt _ _ W0) as Hdt. revert HW HP. induction HF as [|r s0 rs ss [E0 R0] HF IH]; intros HW HP.
  - destruct (simulate_inv c [] ord (INR 0 * c_dt c) 0 W0 (ord_sel_ok _ _ HO) (num_steps_exact _ 0 Hdt)) as (s & a & E & I).
    exists s. split; [exact E|]. split.
    + apply (resting_quiet _ _ _ _ _ _ W0 I). constructor.
      * cbn. contradiction.
      * intros; apply st_0.
      * intros y j Hy Hj Hs. assert (j = 0%nat) by lia. subst. rewrite spk_0 in Hs. discriminate.
    + intros n Hn. rewrite (i_spk _ _ _ _ _ _ I n Hn). cbn. split; auto.
  - destruct IH as (sB & EB & RB & LB); [intros; apply HW; right; auto|intros; eapply HP; eauto; right; auto|].
    destruct (simulate_again c (fst r) (timetable (c_dt c) rs) ord ord ord (snd r) (INR (duration rs) * c_dt c)) as (sA & sB' & s & EA & EB' & E & H); auto.
    { apply HW; left; auto. }
    { apply timetable_wf; auto. intros; apply HW; right; auto. }
    { pose proof (pos_INR (duration rs)). nra. }
    { apply timetable_pos; auto. intros; eapply HP; eauto; right; auto. }
    rewrite E0 in EA. injection EA as <-. rewrite EB in EB'. injection EB' as <-.
    destruct (H R0) as (L & _ & _ & RR). exists s. split.
    { replace (INR (duration (r :: rs)) * c_dt c) with (INR (duration rs) * c_dt c + INR (snd r) * c_dt c); [exact E|].
      unfold duration. cbn [map list_sum fold_right]. rewrite plus_INR. fold (list_sum (map snd rs)). lra. }
    split; [apply RR; auto|]. intros n Hn. destruct (L n Hn) as (P & Q & _). destruct (LB n Hn) as (P' & Q').
    cbn [map joined]. split.
    + rewrite P. apply Permutation_app_head. apply Permutation_map. exact P'.
    + intros Hno. rewrite Q, Q'; auto.
      * intros r' Hr'. apply Hno; right; auto.
      * intros Hin. apply timetable_fst in Hin as (r' & A & B). apply (Hno r'); auto. right; auto.
Qed.
