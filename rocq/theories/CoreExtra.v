(** Supplements to the simulator theorems: conservation of deliveries (C06),
    voltages below threshold (C07), distance to the continuous dynamics (C15). *)
From Coq Require Import Arith ZArith Bool List Reals Lra Lia Permutation.
From Verif Require Import Num Heapq Elements Simulator Trace SimTrace SimProps Misc.
Import ListNotations.
Open Scope list_scope.
Open Scope R_scope.

(** over K steps a synapse from m with delay d carries exactly the external spikes due
    by step K and the spikes of m emitted early enough, one each *)
Lemma count_split (l : list nat) K : 
  list_sum (map (fun k => length (filter (fun x => (x =? k)%nat) l)) (seq 1 K)) =
  length (filter (fun x => (1 <=? x)%nat && (x <=? K)%nat) l).
Proof.
  induction K as [|K IH].
  - cbn. rewrite filter_false; auto. intros x _. destruct x; reflexivity.
  - rewrite seq_S, map_app, list_sum_app, IH. cbn [map list_sum fold_right]. rewrite Nat.add_0_r.
    clear IH. induction l as [|x l IH]; cbn [filter]; auto.
    replace (1 + K)%nat with (S K) in * by lia.
    destruct (Nat.eqb_spec x (S K)), (Nat.leb_spec 1 x), (Nat.leb_spec x K), (Nat.leb_spec x (S K)); cbn [andb length]; try lia.
Qed.
Lemma delayed_count (P : nat -> bool) (D K : nat) : (1 <= D)%nat ->
  list_sum (map (fun k => if (D <? k)%nat && P (k - D)%nat then 1%nat else 0%nat) (seq 1 K)) =
  length (filter (fun j => P j && (j + D <=? K)%nat) (seq 1 K)).
Proof.
    intros Hd. induction K as [|L IH]; auto.
    rewrite seq_S, map_app, list_sum_app, IH. clear IH. cbn [map list_sum fold_right]. rewrite Nat.add_0_r.
    replace (1 + L)%nat with (S L) by lia. rewrite filter_app, app_length. cbn [filter].
    destruct (Nat.leb_spec (S L + D) (S L)); [lia|]. rewrite andb_false_r. cbn [length]. rewrite Nat.add_0_r.
    assert (E : forall n a, (a + n = S L)%nat -> (1 <= a)%nat ->
        (length (filter (fun j => P j && (j + D <=? L)%nat) (seq a n)) + (if (a + D <=? S L)%nat && P (S L - D)%nat then 1%nat else 0%nat))%nat =
        length (filter (fun j => P j && (j + D <=? S L)%nat) (seq a n))).
    { induction n as [|n IH]; intros a Ha H1.
      - cbn [seq filter length]. destruct (Nat.leb_spec (a + D) (S L)); [lia|reflexivity].
      - cbn [seq filter]. specialize (IH (S a) ltac:(lia) ltac:(lia)).
        destruct (Nat.leb_spec (a + D) L), (Nat.leb_spec (a + D) (S L)), (Nat.leb_spec (S a + D) (S L)); try lia; rewrite ?andb_true_r, ?andb_false_r; cbn [andb] in *.
        + destruct (P a); cbn [length]; lia.
        + assert (a = (S L - D)%nat) by lia. subst a. destruct (P (S L - D)%nat); cbn [length]; lia.
        + destruct (P (S L - D)%nat); cbn [length]; lia. }
    rewrite <- (E L 1%nat) by lia. f_equal.
Qed.

Lemma arr_total N m d K :
  list_sum (map (fun k => arr N m d k) (seq 1 K)) =
  (length (filter (fun p => (fst p =? m)%nat && (step_at (t_dt N) (snd p + d) <=? K)%nat) (t_ext N)) +
   length (filter (fun j => spk N j m && (j + step_at (t_dt N) d <=? K)%nat) (seq 1 K)))%nat.
Proof.
  pose proof (step_at_ge1 (t_dt N) d) as Hd.
  transitivity (list_sum (map (fun k => ext_count N m d k) (seq 1 K)) +
     list_sum (map (fun k => if (step_at (t_dt N) d <? k)%nat && spk N (k - step_at (t_dt N) d) m then 1 else 0) (seq 1 K)))%nat.
  { induction (seq 1 K) as [|k l IH]; cbn [map list_sum fold_right]; auto. unfold list_sum in IH.
    rewrite IH, arr_eq. lia. }
  f_equal.
  - transitivity (list_sum (map (fun k => length (filter (fun x => (x =? k)%nat)
       (map (fun p => step_at (t_dt N) (snd p + d)) (filter (fun p => (fst p =? m)%nat) (t_ext N))))) (seq 1 K))).
    { f_equal. apply map_ext. intros k. unfold ext_count. rewrite filter_map, map_length, filter_filter. f_equal.
      apply filter_ext. intros p. apply andb_comm. }
    rewrite count_split, filter_map, map_length, filter_filter. f_equal. apply filter_ext. intros p.
    pose proof (step_at_ge1 (t_dt N) (snd p + d)). destruct (Nat.leb_spec 1 (step_at (t_dt N) (snd p + d))); [|lia].
    cbn [andb]. apply andb_comm.
  - set (D := step_at (t_dt N) d) in *.
    apply (delayed_count (fun j => spk N j m)); auto.
Qed.

(** potentials stay below the threshold *)
Lemma V_below N k n : Vreset (t_prm N n) < Vt (t_prm N n) -> V (st N k n) < Vt (t_prm N n).
Proof.
  intros H. destruct k as [|k]; [rewrite st_0; auto|].
  pose proof (step_eq N k n) as E. rewrite nstep_ustep in E. apply (f_equal fst) in E. cbn [fst] in E. rewrite E.
  apply ustep_below; auto.
Qed.

(** ** distance between the Euler iterates and the continuous solution *)
Definition V_ode (p : nparams R) (V0 ge0 gf0 s : R) : R :=
  V0 + ge0 * s / tm p + (gf0 * tf p / tm p) * (1 - exp (- s / tf p)).
Definition gf_ode (p : nparams R) (gf0 s : R) : R := gf0 * exp (- s / tf p).
Lemma euler_ode_gap p dt n V0 ge0 gf0 : 0 < tm p -> 0 < tf p -> 0 <= dt <= tf p ->
  exists b s, updates p dt n {| V := V0; ge := ge0; gf := gf0; gate := 1 |} = Ok (s, b) /\
    Rabs (V s - V_ode p V0 ge0 gf0 (INR n * dt)) <= Rabs gf0 * dt / tm p /\
    Rabs (gf s - gf_ode p gf0 (INR n * dt)) <= Rabs gf0 * dt / tf p /\ ge s = ge0 /\ gate s = 1.
Proof.
  intros Hm Hf Hdt. destruct (updates_gate1 p dt n V0 ge0 gf0 ltac:(lra) ltac:(lra)) as (b & E).
  exists b. eexists. split; [exact E|]. cbn [V gf ge gate]. unfold V_ode, gf_ode.
  assert (Hx : 0 <= dt / tf p <= 1).
  { split; [apply Rmult_le_pos; [lra|left; apply Rinv_0_lt_compat; auto]|].
    apply Rmult_le_reg_r with (tf p); auto. unfold Rdiv. rewrite Rmult_assoc, Rinv_l by lra. lra. }
  pose proof (euler_gap (dt / tf p) n Hx) as G.
  replace (- (INR n * dt) / tf p) with (- (INR n * (dt / tf p))) by (field; lra).
  set (e := exp (- (INR n * (dt / tf p)))) in *. set (r := (1 - dt / tf p) ^ n) in *.
  split; [|split; [|auto]].
  - replace (V0 + INR n * dt * ge0 / tm p + gf0 * tf p / tm p * (1 - r) - (V0 + ge0 * (INR n * dt) / tm p + gf0 * tf p / tm p * (1 - e)))
      with ((gf0 * / tm p) * (tf p * (e - r))) by (field; lra).
    replace (Rabs gf0 * dt / tm p) with ((Rabs gf0 * / tm p) * (tf p * (dt / tf p))) by (field; lra).
    rewrite !Rabs_mult. rewrite (Rabs_right (/ tm p)) by (left; apply Rinv_0_lt_compat; auto).
    rewrite (Rabs_right (tf p)) by lra. rewrite (Rabs_right (e - r)) by lra.
    apply Rmult_le_compat_l; [|apply Rmult_le_compat_l; lra].
    apply Rmult_le_pos; [apply Rabs_pos|left; apply Rinv_0_lt_compat; auto].
  - replace (gf0 * r - gf0 * e) with (gf0 * - (e - r)) by ring. rewrite Rabs_mult, Rabs_Ropp, (Rabs_right (e - r)) by lra.
    unfold Rdiv at 1. rewrite Rmult_assoc. apply Rmult_le_compat_l; [apply Rabs_pos|]. apply G.
Qed.

(** ** what the logs of one simulation show, neuron by neuron (C07) *)
Definition V_after N k n : R :=
  (V (st N (k - 1) n) + input N n SynV k) +
  t_dt N * ((ge (st N (k - 1) n) + input N n SynGe k) +
            (gate (st N (k - 1) n) + input N n SynGate k) * (gf (st N (k - 1) n) + input N n SynGf k)) / tm (t_prm N n).
Lemma spike_log_sound c ext ord T K : wf c ext -> ord_ok ord -> num_steps (c_dt c) T = Ok K ->
  exists s, simulate c ord (inject c (new_sim (c_world c)) ext) T = Ok s /\
  forall n, (n < length (w_neurons (c_world c)))%nat ->
    let N := net_of (c_world c) ext (c_dt c) in
    exists ks, spike_log s n = ext_spikes ext n ++ map (fun k => INR k * c_dt c) ks /\
      Sorted.StronglySorted lt ks /\
      (forall k, In k ks <-> (1 <= k <= K)%nat /\ Vt (prm (c_world c) n) <= V_after N k n) /\
      (forall k, In k ks -> st N k n = {| V := Vreset (prm (c_world c) n); ge := 0; gf := 0; gate := 0 |} /\
                            In (Vreset (prm (c_world c) n), (k - 1)%nat) (voltage_log s n)) /\
      (forall v i, In (v, i) (voltage_log s n) -> v < Vt (prm (c_world c) n)).
Proof.
  intros W HO HK. destruct (simulate_shows c ext ord T K W (ord_sel_ok _ _ HO) HK) as (s & E & SH & SV).
  specialize (SV HO). exists s. split; auto. intros n Hn N.
  assert (HR : Vreset (t_prm N n) < Vt (t_prm N n)) by (apply (wf_reset _ _ W); auto).
  exists (filter (fun k => spk N k n) (seq 1 K)). split; [apply SH; auto|]. split.
  { clear. generalize 1%nat. induction K as [|K IH]; intros a; cbn [seq filter]; [constructor|].
    destruct (spk N a n); [|apply IH]. constructor; [apply IH|]. apply Forall_forall. intros x Hx. apply filter_In in Hx as [Hx _]. apply in_seq in Hx. lia. }
  assert (HI : forall k, In k (filter (fun k => spk N k n) (seq 1 K)) <-> (1 <= k <= K)%nat /\ spk N k n = true).
  { intros k. rewrite filter_In, in_seq. split; intros [A B]; split; auto; lia. }
  split; [|split].
  - intros k. rewrite HI. split; intros [A B]; split; auto; destruct k as [|k]; try lia.
    + apply spk_iff in B. unfold V_after. replace (S k - 1)%nat with k by lia. exact B.
    + apply spk_iff. unfold V_after in B. replace (S k - 1)%nat with k in B by lia. exact B.
  - intros k Hk. apply HI in Hk as [A B]. destruct k as [|k]; [lia|]. pose proof (spk_reset N k n B) as ES. split; [exact ES|].
    rewrite (SV n Hn). apply in_map_iff. exists (S k). split; [fold N; rewrite ES; reflexivity|].
    apply filter_In. split; [apply in_seq; lia|]. fold N. unfold touched. replace (S k - 1)%nat with k by lia.
    destruct (arrives N n (S k)) eqn:Ea; auto. destruct (is_active (st N k n)) eqn:Ei; auto.
    destruct (untouched_step c ext k n Hn) as [_ X]; auto; [apply V_below; auto|]. fold N in X. congruence.
  - intros v i Hv. rewrite (SV n Hn) in Hv. apply in_map_iff in Hv as (k & [= <- _] & Hk). apply (V_below N k n HR).
Qed.
Lemma list_sum_cons x l : list_sum (x :: l) = (x + list_sum l)%nat.
Proof. reflexivity. Qed.
Lemma list_sum_swap {A C} (f : A -> C -> nat) la lc :
  list_sum (map (fun a => list_sum (map (f a) lc)) la) = list_sum (map (fun c => list_sum (map (fun a => f a c) la)) lc).
Proof.
  induction la as [|a la IH].
  - cbn. induction lc; cbn; auto.
  - cbn [map]. rewrite list_sum_cons, IH. clear IH.
    induction lc as [|c lc IH]; cbn [map]; auto. cbn [map] in IH. rewrite !list_sum_cons. lia.
Qed.
Lemma delivery c ext ord T K : wf c ext -> ord_ok ord -> num_steps (c_dt c) T = Ok K ->
  exists s, simulate c ord (inject c (new_sim (c_world c)) ext) T = Ok s /\
    let N := net_of (c_world c) ext (c_dt c) in
    (forall n, (n < length (w_neurons (c_world c)))%nat ->
       nth_error (s_sts s) n = Some (st N K n) /\
       spike_log s n = ext_spikes ext n ++ map (fun k => INR k * c_dt c) (filter (fun k => spk N k n) (seq 1 K)) /\
       voltage_log s n = map (fun k => (V (st N k n), (k - 1)%nat)) (filter (fun k => touched N k n) (seq 1 K))) /\
    (forall ty, ty <> SynOther -> get_count (s_cnt s) ty =
       list_sum (map (fun y => list_sum (map (fun k => arr N (s_pre y) (s_delay y) k) (seq 1 K)))
                     (filter (fun y => syntype_eqb (s_ty y) ty) (w_syns (c_world c))))).
Proof.
  intros W HO HK. destruct (simulate_shows c ext ord T K W (ord_sel_ok _ _ HO) HK) as (s & E & SH & SV).
  exists s. split; auto. split.
  - intros n Hn. split; [apply SH; auto|]. split; [apply SH; auto|apply SV; auto].
  - intros ty Hty. rewrite (sh_cnt _ _ _ _ _ SH ty Hty). unfold deliveries. apply list_sum_swap.
Qed.
Lemma input_value_effect (c : cfg R) s v n t0 : 0 <= v <= 1 -> HeapqProofs.heap_ok event_lt (s_q s) ->
  exists s', apply_input_value c s v n t0 = Ok s' /\
    let t1 := t0 + (Tmin (c_enc c) + v * Tcod (c_enc c)) in
    let evs t := map (fun y => {| e_time := t + s_delay y; e_nid := s_post y; e_ty := s_ty y; e_w := s_w y |})
                     (filter (fun y => (s_pre y =? n)%nat) (w_syns (c_world c))) in
    spike_log s' n = spike_log s n ++ [t0; t1] /\
    (forall m, m <> n -> spike_log s' m = spike_log s m) /\
    Permutation (s_q s') (s_q s ++ evs t0 ++ evs t1) /\ HeapqProofs.heap_ok event_lt (s_q s') /\
    (forall m, voltage_log s' m = voltage_log s m) /\ s_sts s' = s_sts s /\ s_cnt s' = s_cnt s.
Proof.
  intros Hv HH. eexists. split; [apply apply_input_value_ok; auto|]. intros t1 evs.
  destruct (inject_effect c s [(n, t0); (n, t1)] HH) as (A & B & C & D & E & F).
  split; [|split; [|split; [|split; [|split; [|split]]]]]; auto.
  - rewrite C. unfold ext_spikes. cbn [filter fst]. rewrite Nat.eqb_refl. reflexivity.
  - intros m Hm. rewrite C. unfold ext_spikes. cbn [filter fst]. rewrite (proj2 (Nat.eqb_neq n m)) by auto. apply app_nil_r.
  - etransitivity; [exact B|]. cbn [flat_map fst snd]. rewrite app_nil_r. reflexivity.
Qed.
