(** Simulator theorems that hold for EVERY arithmetic [Num T] - in particular for the
    binary64 floats the Python code runs on, NaN and infinities included - because they
    never look inside the numbers.  Any set iteration order (a permutation), any network,
    any history of API calls. *)
From Coq Require Import Arith ZArith Bool List Lia Permutation Sorting.Sorted.
From Verif Require Import Num NumOrd Heapq HeapqProofs Elements Simulator QueueProofs SimTrace.
Import ListNotations.
Open Scope list_scope.

(** ** The heap permutes its contents whatever the comparison is *)
Section HeapPerm.
Context {A : Type} (lt : A -> A -> bool).
Lemma siftdown_perm fuel : forall h x pos, pos < length h ->
  Permutation (siftdown lt fuel h x pos) (lset h pos x).
Proof.
  induction fuel as [|f IH]; intros h x pos Hp; cbn [siftdown]; [reflexivity|].
  destruct (pos =? 0) eqn:E; [reflexivity|]. apply Nat.eqb_neq in E.
  destruct (lt x _); [|reflexivity].
  assert (Hpp : (pos - 1) / 2 < pos) by (apply parent_lt; lia).
  rewrite IH by (rewrite lset_length; lia).
  apply lset_swap_perm; lia.
Qed.
Lemma siftup_hole_perm fuel : forall h x pos, pos < length h ->
  let r := siftup_hole lt fuel h x pos in
  snd r < length (fst r) /\ Permutation (lset (fst r) (snd r) x) (lset h pos x).
Proof.
  induction fuel as [|f IH]; intros h x pos Hp; cbn [siftup_hole]; [cbn; auto|].
  destruct (2 * pos + 1 <? length h) eqn:E; [|cbn; auto].
  apply Nat.ltb_lt in E. cbv zeta.
  match goal with |- context [if ?b then 2 * pos + 1 + 1 else ?e] => set (c := if b then 2 * pos + 1 + 1 else e) end.
  assert (Hc : c < length h /\ pos <> c).
  { unfold c. destruct (2 * pos + 1 + 1 <? length h) eqn:E2; cbn [andb]; [|lia].
    apply Nat.ltb_lt in E2. destruct (negb _); lia. }
  destruct (IH (lset h pos (nth c h x)) x c) as [H1 H2]; [rewrite lset_length; lia|].
  split; auto. rewrite H2. apply lset_swap_perm; lia.
Qed.
Lemma heappush_perm h x : Permutation (heappush lt h x) (x :: h).
Proof.
  unfold heappush. rewrite siftdown_perm by (rewrite app_length; cbn; lia).
  rewrite lset_app_last. apply Permutation_sym, Permutation_cons_append.
Qed.
Lemma heappop_perm h e h' : heappop lt h = Some (e, h') -> Permutation h (e :: h').
Proof.
  destruct h as [|a h]; cbn [heappop]; [discriminate|].
  assert (HL : Permutation (a :: h) (last (a :: h) a :: removelast (a :: h))).
  { etransitivity; [|apply Permutation_sym, Permutation_cons_append].
    rewrite <- app_removelast_last by discriminate. auto. }
  revert HL. generalize (last (a :: h) a) (removelast (a :: h)). intros l rl HL E.
  destruct rl as [|r rl]; [injection E as <- <-; auto|].
  injection E as <- <-. rewrite HL. unfold siftup.
  cbn [lset].
  pose proof (siftup_hole_perm (length (l :: rl)) (l :: rl) l 0 (Nat.lt_0_succ _)) as X.
  destruct (siftup_hole lt _ _ l 0) as [h1 p1]. cbn [fst snd] in X. destruct X as [X1 X2].
  rewrite siftdown_perm by (rewrite lset_length; lia).
  rewrite lset_lset, X2. cbn. apply perm_swap.
Qed.
Lemma heappop_some h : h <> [] -> exists r, heappop lt h = Some r.
Proof.
  destruct h as [|a h]; [congruence|]. intros _. cbn [heappop].
  destruct (removelast (a :: h)); eauto.
Qed.
End HeapPerm.

Section Any.
Context {T : Type} `{NT : Num T}.

Lemma pop_loop_perm fuel : forall (q : list (event T)) t acc evs q',
  pop_events_loop fuel q t acc = (evs, q') -> Permutation (acc ++ q) (evs ++ q').
Proof.
  induction fuel as [|f IH]; intros q t acc evs q'; cbn [pop_events_loop].
  { intros E; injection E as <- <-. apply Permutation_app_tail, Permutation_rev. }
  destruct q as [|top q]. { intros E; injection E as <- <-. apply Permutation_app_tail, Permutation_rev. }
  destruct (nleb _ _). 2:{ intros E; injection E as <- <-. apply Permutation_app_tail, Permutation_rev. }
  destruct (heappop event_lt (top :: q)) as [[e q2]|] eqn:EP.
  2:{ intros E; injection E as <- <-. apply Permutation_app_tail, Permutation_rev. }
  intros E. apply IH in E. rewrite <- E. apply heappop_perm in EP. rewrite EP.
  apply Permutation_sym, (Permutation_middle acc q2 e).
Qed.
Lemma pop_perm (q : list (event T)) t evs q' : pop_events q t = (evs, q') -> Permutation q (evs ++ q').
Proof. intros E. apply pop_loop_perm in E. exact E. Qed.

Lemma schedule_q (w : world T) s n t :
  Permutation (s_q (schedule w s n t)) (map (syn_event t) (out_syn w n) ++ s_q s).
Proof.
  cbn [schedule s_q]. generalize (s_q s) as q. generalize (out_syn w n) as ys.
  induction ys as [|y ys IH]; intros q; cbn [fold_left map app]; auto.
  rewrite IH. unfold add_event. rewrite heappush_perm.
  apply Permutation_sym, Permutation_middle.
Qed.

(** ** What one time step adds to the logs *)
Lemma rfold_inv {A B} (f : A -> B -> res A) (P : A -> Prop) l : forall a a',
  (forall a b a', In b l -> P a -> f a b = Ok a' -> P a') -> P a -> rfold f l a = Ok a' -> P a'.
Proof.
  induction l as [|b l IH]; cbn [rfold]; intros a a' Hs Ha E; [injection E as <-; auto|].
  destruct (f a b) as [a1|] eqn:E1; cbn [rbind] in E; [|discriminate].
  eapply IH; [|eapply Hs; [left; reflexivity|exact Ha|exact E1]|exact E].
  intros; eapply Hs; eauto. right; auto.
Qed.

Lemma deliver_logs l : forall s aff s' aff', rfold deliver l (s, aff) = Ok (s', aff') ->
  s_q s' = s_q s /\ s_spk s' = s_spk s /\ s_vlt s' = s_vlt s /\ length (s_sts s') = length (s_sts s) /\
  (NoDup aff -> NoDup aff') /\ (forall n, In n aff' -> In n aff \/ In n (map e_nid l)).
Proof.
  induction l as [|e l IH]; intros s aff s' aff'; cbn [rfold].
  { intros E; injection E as <- <-. repeat split; auto. }
  unfold deliver at 1. destruct (nth_error (s_sts s) (e_nid e)) as [st|]; [|discriminate].
  destruct (receive_synaptic_event st (e_ty e) (e_w e)) as [st'|]; cbn [rbind]; [|discriminate].
  intros E. apply IH in E. cbn [s_q s_spk s_vlt s_sts] in E. destruct E as (E1 & E2 & E3 & E4 & E5 & E6).
  rewrite lset_length in E4. repeat split; auto.
  - intros ND. apply E5, set_add_NoDup; auto.
  - intros n Hn. cbn [map In]. apply E6 in Hn. rewrite set_add_In in Hn. intuition.
Qed.

(** entries of one time step: neuron, whether it spiked, the voltage logged *)
Definition step_spk (t : T) (es : list (nat * (bool * T))) : list (nat * T) :=
  map (fun x => (fst x, t)) (filter (fun x => fst (snd x)) es).
Definition step_vlt (i : nat) (es : list (nat * (bool * T))) : list (nat * (T * nat)) :=
  map (fun x => (fst x, (snd (snd x), i))) es.
Definition entry_ok (c : cfg T) (n : nat) (b : bool) (v : T) : Prop :=
  exists nr, nth_error (w_neurons (c_world c)) n = Some nr /\
    (if b then v = Vreset (nr_params nr) else nleb (Vt (nr_params nr)) v = false).

Lemma update_logs c i t l : forall s act s' act', rfold (update_neuron c i t) l (s, act) = Ok (s', act') ->
  exists es, map fst es = rev l /\ s_spk s' = step_spk t es ++ s_spk s /\ s_vlt s' = step_vlt i es ++ s_vlt s /\
    length (s_sts s') = length (s_sts s) /\ s_cnt s' = s_cnt s /\
    Permutation (s_q s') (flat_map (fun p => map (syn_event (snd p)) (out_syn (c_world c) (fst p))) (step_spk t es) ++ s_q s) /\
    (NoDup act -> NoDup act') /\ (forall n, In n act' -> In n act \/ In n l) /\
    Forall (fun x => entry_ok c (fst x) (fst (snd x)) (snd (snd x))) es.
Proof.
  induction l as [|n l IH]; intros s act s' act'; cbn [rfold].
  { intros E; injection E as <- <-. exists []. cbn. repeat split; auto. }
  unfold update_neuron at 1.
  destruct (nth_error (s_sts s) n) as [st|]; [|discriminate].
  destruct (nth_error (w_neurons (c_world c)) n) as [nr|] eqn:Enr; [|discriminate].
  destruct (update_and_spike (nr_params nr) (c_dt c) st) as [[st1 b]|] eqn:EU; cbn [rbind]; [|discriminate].
  unfold log_voltage. destruct (set_mem n (c_keys c)); cbn [rbind]; [|discriminate].
  intros E. apply IH in E. destruct E as (es & E1 & E2 & E3 & E4 & E5 & E6 & E7 & E8 & E9).
  cbn [s_q s_spk s_vlt s_sts s_cnt] in *.
  exists (es ++ [(n, (b, V (if b then reset (nr_params nr) else st1)))]).
  assert (HE : entry_ok c n b (V (if b then reset (nr_params nr) else st1))).
  { exists nr. split; auto. destruct b; auto. revert EU. unfold update_and_spike.
    destruct (pdiv _ _) as [dv|]; cbn [rbind]; [|discriminate].
    match goal with |- context [rbind ?x _] => destruct x as [g|] end; cbn [rbind]; [|discriminate].
    intros EU. injection EU as <- HV. unfold ngeb in HV. cbn [V]. exact HV. }
  split; [rewrite map_app; cbn; rewrite E1; reflexivity|].
  split; [rewrite E2; unfold step_spk; rewrite filter_app, map_app, <- app_assoc; f_equal;
          destruct b; cbn; reflexivity|].
  split; [rewrite E3; unfold step_vlt; rewrite map_app, <- app_assoc; f_equal; destruct b; cbn; reflexivity|].
  split; [rewrite E4; destruct b; cbn; apply lset_length|].
  split; [rewrite E5; destruct b; reflexivity|].
  split.
  { rewrite E6. unfold step_spk. rewrite filter_app, map_app, flat_map_app, <- app_assoc. apply Permutation_app_head.
    destruct b; cbn [filter fst snd map flat_map app]; [|reflexivity].
    rewrite app_nil_r. apply (schedule_q (c_world c) (set_state (log_spike s n t) n (reset (nr_params nr))) n t). }
  split; [intros ND; apply E7; destruct (is_active _); auto; apply set_add_NoDup; auto|].
  split.
  { intros m Hm. apply E8 in Hm. cbn [In]. destruct (is_active _); [rewrite set_add_In in Hm|]; intuition. }
  apply Forall_app; split; auto.
Qed.

Definition cnt_of (k : counts) (ty : syntype) : nat :=
  match ty with SynV => cV k | SynGe => cGe k | SynGf => cGf k | SynGate => cGate k | SynOther => 0 end.
Definition ty_count (ty : syntype) (l : list (event T)) : nat :=
  length (filter (fun e => syntype_eqb (e_ty e) ty) l).
Definition out_deg (w : world T) (ty : syntype) (n : nat) : nat :=
  length (filter (fun y => (s_pre y =? n) && syntype_eqb (s_ty y) ty) (w_syns w)).

Lemma deliver_counts ty : ty <> SynOther -> forall l s aff s' aff', rfold deliver l (s, aff) = Ok (s', aff') ->
  cnt_of (s_cnt s') ty = cnt_of (s_cnt s) ty + ty_count ty l.
Proof.
  intros Hty. induction l as [|e l IH]; intros s aff s' aff'; cbn [rfold].
  { intros E; injection E as <- <-. unfold ty_count; cbn; lia. }
  unfold deliver at 1. destruct (nth_error (s_sts s) (e_nid e)) as [st|]; [|discriminate].
  destruct (receive_synaptic_event st (e_ty e) (e_w e)) as [st'|] eqn:ER; cbn [rbind]; [|discriminate].
  intros E. apply IH in E. cbn [s_cnt] in E. rewrite E. unfold ty_count. cbn [filter].
  destruct (e_ty e), ty; cbn [syntype_eqb count_syn cnt_of cV cGe cGf cGate length]; try congruence; lia.
Qed.

Lemma out_deg_events w ty n t : ty_count ty (map (syn_event t) (out_syn w n)) = out_deg w ty n.
Proof.
  unfold ty_count, out_deg, out_syn. rewrite filter_map, map_length, filter_filter. f_equal.
  apply filter_ext. intros y. cbn. apply andb_comm.
Qed.
Lemma ty_count_app ty a b : ty_count ty (a ++ b) = ty_count ty a + ty_count ty b.
Proof. unfold ty_count. rewrite filter_app, app_length. auto. Qed.
Lemma ty_count_perm ty a b : Permutation a b -> ty_count ty a = ty_count ty b.
Proof. intros H. unfold ty_count. apply Permutation_length, filter_perm, H. Qed.
Definition due_total (w : world T) ty (l : list (nat * T)) : nat :=
  list_sum (map (fun p => out_deg w ty (fst p)) l).
Lemma due_events w ty l :
  ty_count ty (flat_map (fun p => map (syn_event (snd p)) (out_syn w (fst p))) l) = due_total w ty l.
Proof.
  induction l as [|p l IH]; [reflexivity|]. cbn [flat_map]. rewrite ty_count_app, out_deg_events, IH. reflexivity.
Qed.
Lemma due_app w ty a b : due_total w ty (a ++ b) = due_total w ty a + due_total w ty b.
Proof. unfold due_total. rewrite map_app, list_sum_app. auto. Qed.

Lemma step_all c ord i s act s' act' : ord_ok ord -> NoDup act -> sim_step c ord i (s, act) = Ok (s', act') ->
  exists es, NoDup (map fst es) /\ s_spk s' = step_spk (time_of c i) es ++ s_spk s /\
    s_vlt s' = step_vlt i es ++ s_vlt s /\ NoDup act' /\ length (s_sts s') = length (s_sts s) /\
    Forall (fun x => entry_ok c (fst x) (fst (snd x)) (snd (snd x))) es /\
    (forall ty, ty <> SynOther ->
       cnt_of (s_cnt s') ty + ty_count ty (s_q s') =
       cnt_of (s_cnt s) ty + ty_count ty (s_q s) + due_total (c_world c) ty (step_spk (time_of c i) es)).
Proof.
  intros Hord ND. unfold sim_step.
  destruct (pop_events (s_q s) (time_of c i)) as [evs q'] eqn:EP.
  destruct (rfold deliver evs _) as [[s1 aff]|] eqn:ED; cbn [rbind]; [|discriminate].
  intros EU. destruct (deliver_logs _ _ _ _ _ ED) as (D1 & D2 & D3 & D4 & D5 & D6).
  apply update_logs in EU. destruct EU as (es & E1 & E2 & E3 & E4 & E5 & E6 & E7 & E8 & E9).
  cbn [s_q s_spk s_vlt s_sts] in *.
  exists es. split.
  { rewrite E1. apply NoDup_rev. eapply Permutation_NoDup; [apply Permutation_sym, Hord|].
    apply set_union_NoDup, D5. constructor. }
  split; [congruence|]. split; [congruence|]. split; [apply E7; constructor|]. split; [congruence|].
  split; auto. intros ty Hty.
  rewrite (ty_count_perm _ _ _ E6), ty_count_app, due_events, E5.
  rewrite (deliver_counts ty Hty _ _ _ _ _ ED). cbn [s_cnt]. rewrite D1.
  rewrite (ty_count_perm ty (s_q s) _ (pop_perm _ _ _ _ EP)), ty_count_app. lia.
Qed.

Lemma filter_one {B} (es : list (nat * B)) n : NoDup (map fst es) ->
  filter (fun x => fst x =? n) es = [] \/ exists y, filter (fun x => fst x =? n) es = [(n, y)] /\ In (n, y) es.
Proof.
  induction es as [|[m y] es IH]; cbn [map filter fst]; intros ND; [left; auto|].
  inversion ND as [|? ? H1 H2]; subst.
  destruct (m =? n) eqn:E.
  - apply Nat.eqb_eq in E. subst m. right. exists y. split; [|left; auto]. f_equal.
    apply filter_false. intros [m z] Hin. cbn. apply Nat.eqb_neq. intros ->. apply H1.
    apply (in_map fst) in Hin. exact Hin.
  - destruct (IH H2) as [->|(z & -> & Hz)]; [left; auto|right; exists z; split; auto]. right; auto.
Qed.

(** what a neuron's entry of one step adds to the two views *)
Definition one_log (i : nat) (es : list (nat * (bool * T))) (n : nat) : list (nat * (bool * T)) :=
  map (fun x => (i, snd x)) (filter (fun x => fst x =? n) es).
Lemma step_views c i s s' es n : NoDup (map fst es) ->
  s_spk s' = step_spk (time_of c i) es ++ s_spk s -> s_vlt s' = step_vlt i es ++ s_vlt s ->
  spike_log s' n = spike_log s n ++ map (fun x => time_of c (fst x)) (filter (fun x => fst (snd x)) (one_log i es n)) /\
  voltage_log s' n = voltage_log s n ++ map (fun x => (snd (snd x), fst x)) (one_log i es n).
Proof.
  intros ND E1 E2. unfold spike_log, voltage_log. rewrite E1, E2, !filter_app, !map_app, !rev_app_distr.
  unfold step_spk, step_vlt, one_log. rewrite !filter_map, !filter_filter, !map_map. cbn [fst snd].
  assert (X : filter (fun x => (fst x =? n) && fst (snd x)) es =
              filter (fun x : nat * (bool * T) => fst (snd x)) (filter (fun x => fst x =? n) es)).
  { rewrite filter_filter. apply filter_ext. intros; apply andb_comm. }
  assert (X' : filter (fun x => fst (snd x) && (fst x =? n)) es =
              filter (fun x : nat * (bool * T) => fst (snd x)) (filter (fun x => fst x =? n) es)).
  { rewrite filter_filter. reflexivity. }
  rewrite ?X, ?X'. split; f_equal.
  - destruct (filter_one es n ND) as [->|(y & -> & _)]; [reflexivity|].
    destruct y as [[|] v]; reflexivity.
  - destruct (filter_one es n ND) as [->|(y & -> & _)]; [reflexivity|].
    destruct y as [[|] v]; reflexivity.
Qed.

Lemma steps_neuron c ord n : ord_ok ord -> forall k i0 s act s' act', NoDup act ->
  sim_steps c ord i0 k (s, act) = Ok (s', act') ->
  exists log : list (nat * (bool * T)),
    StronglySorted lt (map fst log) /\
    Forall (fun x => i0 <= fst x < i0 + k /\ entry_ok c n (fst (snd x)) (snd (snd x))) log /\
    spike_log s' n = spike_log s n ++ map (fun x => time_of c (fst x)) (filter (fun x => fst (snd x)) log) /\
    voltage_log s' n = voltage_log s n ++ map (fun x => (snd (snd x), fst x)) log.
Proof.
  intros Hord. induction k as [|k IH]; intros i0 s act s' act' ND; cbn [sim_steps].
  { intros E; injection E as <- <-. exists []. cbn. rewrite !app_nil_r. repeat split; constructor. }
  destruct (sim_step c ord i0 (s, act)) as [[s1 act1]|] eqn:ES; cbn [rbind]; [|discriminate].
  destruct (step_all _ _ _ _ _ _ _ Hord ND ES) as (es & Hn & H1 & H2 & H3 & H4 & H5 & _).
  intros E. destruct (IH _ _ _ _ _ H3 E) as (log & L1 & L2 & L3 & L4).
  destruct (step_views c i0 s s1 es n Hn H1 H2) as [V1 V2].
  exists (one_log i0 es n ++ log).
  rewrite filter_app, !map_app, L3, L4, V1, V2, <- !app_assoc.
  assert (HL : Forall (fun x => i0 <= fst x < i0 + S k /\ entry_ok c n (fst (snd x)) (snd (snd x))) log).
  { eapply Forall_impl; [|exact L2]. cbn. intros x [X1 X2]. split; auto; lia. }
  unfold one_log. destruct (filter_one es n Hn) as [E0|(y & E0 & Hy)]; rewrite !E0; cbn [map app fst snd].
  - repeat split; auto.
  - repeat split; auto.
    + constructor; auto. apply Forall_map. eapply Forall_impl; [|exact L2]. cbn. intros; lia.
    + constructor; auto. cbn. split; [lia|]. rewrite Forall_forall in H5. apply (H5 _ Hy).
Qed.

Lemma steps_counts c ord : ord_ok ord -> forall k i0 s act s' act', NoDup act ->
  sim_steps c ord i0 k (s, act) = Ok (s', act') ->
  exists new, s_spk s' = new ++ s_spk s /\
    forall ty, ty <> SynOther ->
       cnt_of (s_cnt s') ty + ty_count ty (s_q s') =
       cnt_of (s_cnt s) ty + ty_count ty (s_q s) + due_total (c_world c) ty new.
Proof.
  intros Hord. induction k as [|k IH]; intros i0 s act s' act' ND; cbn [sim_steps].
  { intros E; injection E as <- <-. exists []. cbn. split; auto. }
  destruct (sim_step c ord i0 (s, act)) as [[s1 act1]|] eqn:ES; cbn [rbind]; [|discriminate].
  destruct (step_all _ _ _ _ _ _ _ Hord ND ES) as (es & Hn & H1 & H2 & H3 & H4 & H5 & H6).
  intros E. destruct (IH _ _ _ _ _ H3 E) as (new & N1 & N2).
  exists (new ++ step_spk (time_of c i0) es). split; [rewrite N1, H1, app_assoc; auto|].
  intros ty Hty. rewrite due_app. rewrite (N2 ty Hty). pose proof (H6 ty Hty). lia.
Qed.

Lemma sim_steps_app c ord a : forall i b acc,
  sim_steps c ord i (a + b) acc = (let* r := sim_steps c ord i a acc in sim_steps c ord (i + a) b r).
Proof.
  induction a as [|a IH]; intros i b acc; cbn [Nat.add sim_steps rbind]; [rewrite Nat.add_0_r; auto|].
  destruct (sim_step c ord i acc); cbn [rbind]; auto. rewrite IH. replace (S i + a) with (i + S a) by lia. auto.
Qed.

(** ** Totality *)
Definition healthy (c : cfg T) : Prop :=
  (forall n, In n (c_keys c) -> n < length (w_neurons (c_world c))) /\
  (forall nr, In nr (w_neurons (c_world c)) -> neqb (tm (nr_params nr)) nzero = false /\ neqb (tf (nr_params nr)) nzero = false) /\
  (forall y, In y (w_syns (c_world c)) -> s_ty y <> SynOther /\ In (s_post y) (c_keys c)).
Definition ev_ok (c : cfg T) (e : event T) : Prop := e_ty e <> SynOther /\ In (e_nid e) (c_keys c).
Definition sim_ok (c : cfg T) (s : sim T) : Prop :=
  length (s_sts s) = length (w_neurons (c_world c)) /\ forall e, In e (s_q s) -> ev_ok c e.

Lemma schedule_ok c s n t : healthy c -> sim_ok c s -> sim_ok c (schedule (c_world c) s n t).
Proof.
  intros (_ & _ & HS) [H1 H2]. split; auto. intros e He.
  apply (Permutation_in _ (schedule_q (c_world c) s n t)) in He. apply in_app_iff in He.
  destruct He as [He|He]; auto. apply in_map_iff in He. destruct He as (y & <- & Hy).
  apply filter_In in Hy. apply HS, Hy.
Qed.

Lemma deliver_total c l : healthy c -> forall s aff, length (s_sts s) = length (w_neurons (c_world c)) ->
  (forall e, In e l -> ev_ok c e) -> exists r, rfold deliver l (s, aff) = Ok r.
Proof.
  intros HH. induction l as [|e l IH]; intros s aff HL He; cbn [rfold]; [eauto|].
  destruct (He e (or_introl eq_refl)) as [E1 E2].
  unfold deliver at 1.
  destruct (nth_error (s_sts s) (e_nid e)) as [st|] eqn:EN.
  2:{ apply nth_error_None in EN. destruct HH as (HK & _). apply HK in E2. lia. }
  assert (exists st', receive_synaptic_event st (e_ty e) (e_w e) = Ok st') as [st' ->].
  { destruct (e_ty e); cbn; eauto. congruence. }
  cbn [rbind]. apply IH; [cbn; rewrite lset_length; auto|]. intros; apply He; right; auto.
Qed.

Lemma update_total c i t l : healthy c -> forall s act, sim_ok c s ->
  (forall n, In n l -> In n (c_keys c)) ->
  exists s' act', rfold (update_neuron c i t) l (s, act) = Ok (s', act') /\ sim_ok c s'.
Proof.
  intros HH. induction l as [|n l IH]; intros s act HS Hl; cbn [rfold]; [eauto|].
  assert (Hn := Hl n (or_introl eq_refl)). destruct HH as (HK & HP & HY).
  unfold update_neuron at 1.
  destruct (nth_error (s_sts s) n) as [st|] eqn:EN.
  2:{ apply nth_error_None in EN. apply HK in Hn. destruct HS. lia. }
  destruct (nth_error (w_neurons (c_world c)) n) as [nr|] eqn:EW.
  2:{ apply nth_error_None in EW. apply HK in Hn. lia. }
  destruct (HP nr (nth_error_In _ _ EW)) as [P1 P2].
  assert (exists r, update_and_spike (nr_params nr) (c_dt c) st = Ok r) as [[st1 b] ->].
  { unfold update_and_spike, pdiv. rewrite P1, P2. cbn [rbind].
    destruct (negb (neqb (gate st) nzero)); cbn [rbind]; eauto. }
  cbn [rbind]. unfold log_voltage. apply set_mem_In in Hn. rewrite Hn. cbn [rbind].
  apply IH; [|intros; apply Hl; right; auto].
  assert (X : sim_ok c (if b then schedule (c_world c) (set_state (log_spike s n t) n (reset (nr_params nr))) n t else set_state s n st1)).
  { destruct HS as [S1 S2]. destruct b; [apply schedule_ok; [split; auto|]|]; (split; [cbn; rewrite lset_length; auto|auto]). }
  destruct b; destruct X as [X1 X2]; split; auto.
Qed.

Lemma step_total c ord i s act : healthy c -> ord_ok ord -> sim_ok c s -> (forall n, In n act -> In n (c_keys c)) ->
  exists s' act', sim_step c ord i (s, act) = Ok (s', act') /\ sim_ok c s' /\ (forall n, In n act' -> In n (c_keys c)).
Proof.
  intros HH Hord HS HA. unfold sim_step.
  destruct (pop_events (s_q s) (time_of c i)) as [evs q'] eqn:EP. apply pop_perm in EP.
  assert (HE : forall e, In e evs -> ev_ok c e).
  { intros e He. apply HS. eapply Permutation_in; [apply Permutation_sym, EP|]. apply in_app_iff; auto. }
  assert (HQ : forall e, In e q' -> ev_ok c e).
  { intros e He. apply HS. eapply Permutation_in; [apply Permutation_sym, EP|]. apply in_app_iff; auto. }
  match goal with |- context [rfold deliver evs (?s0, [])] => set (s0' := s0) end.
  destruct (deliver_total c evs HH s0' [] (proj1 HS) HE) as [[s1 aff] ED]. rewrite ED. cbn [rbind].
  destruct (deliver_logs _ _ _ _ _ ED) as (D1 & D2 & D3 & D4 & D5 & D6).
  assert (HL : forall n, In n (ord i (set_union aff act)) -> In n (c_keys c)).
  { intros n Hn. apply (Permutation_in _ (Hord i _)) in Hn. apply set_union_In in Hn.
    destruct Hn as [Hn|Hn]; auto. apply D6 in Hn. destruct Hn as [[]|Hn].
    apply in_map_iff in Hn. destruct Hn as (e & <- & He). apply HE; auto. }
  destruct (update_total c i (time_of c i) (ord i (set_union aff act)) HH s1 []) as (s' & act' & EU & HS'); auto.
  { split; [rewrite D4; apply HS|]. rewrite D1. exact HQ. }
  exists s', act'. split; auto. split; auto. intros n Hn.
  apply update_logs in EU. destruct EU as (es & _ & _ & _ & _ & _ & _ & _ & E8 & _).
  apply E8 in Hn. destruct Hn as [[]|Hn]; auto.
Qed.

Lemma steps_total c ord : healthy c -> ord_ok ord -> forall k i0 s act, sim_ok c s -> (forall n, In n act -> In n (c_keys c)) ->
  exists s' act', sim_steps c ord i0 k (s, act) = Ok (s', act') /\ sim_ok c s'.
Proof.
  intros HH Hord. induction k as [|k IH]; intros i0 s act HS HA; cbn [sim_steps]; [eauto|].
  destruct (step_total c ord i0 s act HH Hord HS HA) as (s1 & act1 & -> & S1 & A1). cbn [rbind]. auto.
Qed.

(** ** Histories of API calls *)
Inductive reachable (c : cfg T) : sim T -> Prop :=
| reach_new : reachable c (new_sim (c_world c))
| reach_spike s n t : reachable c s -> reachable c (apply_input_spike c s n t)
| reach_value s v n t0 s' : reachable c s -> apply_input_value c s v n t0 = Ok s' -> reachable c s'
| reach_simulate s ord tt s' : reachable c s -> ord_ok ord -> simulate c ord s tt = Ok s' -> reachable c s'.

Lemma input_value_spikes c s v n t0 s' : apply_input_value c s v n t0 = Ok s' ->
  exists a b, s' = apply_input_spike c (apply_input_spike c s n a) n b.
Proof.
  unfold apply_input_value. destruct (negb _); [discriminate|].
  destruct (encode_value _ _) as [iv|]; cbn [rbind]; [|discriminate].
  intros E; injection E as <-. eauto.
Qed.
Lemma reachable_ind' c (P : sim T -> Prop) : P (new_sim (c_world c)) ->
  (forall s n t, P s -> P (apply_input_spike c s n t)) ->
  (forall s ord tt s', P s -> ord_ok ord -> simulate c ord s tt = Ok s' -> P s') ->
  forall s, reachable c s -> P s.
Proof.
  intros H0 H1 H2 s HR. induction HR; eauto.
  apply input_value_spikes in H. destruct H as (a & b & ->). auto.
Qed.
Lemma simulate_inv c ord s tt s' : simulate c ord s tt = Ok s' ->
  exists k act, num_steps (c_dt c) tt = Ok k /\ sim_steps c ord 0 k (s, []) = Ok (s', act).
Proof.
  unfold simulate. destruct (num_steps _ _) as [k|]; cbn [rbind]; [|discriminate].
  destruct (sim_steps _ _ _ _ _) as [[s1 act]|] eqn:E; cbn [rbind]; [|discriminate].
  intros X; injection X as <-. eauto.
Qed.

Lemma conservation c s : reachable c s -> forall ty, ty <> SynOther ->
  cnt_of (s_cnt s) ty + ty_count ty (s_q s) = due_total (c_world c) ty (s_spk s).
Proof.
  intros HR ty Hty. revert s HR. apply reachable_ind'.
  - destruct ty; reflexivity.
  - intros s n t IH. unfold apply_input_spike.
    rewrite (ty_count_perm _ _ _ (schedule_q _ _ _ _)), ty_count_app, out_deg_events.
    cbn [schedule log_spike s_cnt s_q s_spk]. change (due_total (c_world c) ty ((n, t) :: s_spk s))
      with (out_deg (c_world c) ty n + due_total (c_world c) ty (s_spk s)). lia.
  - intros s ord tt s' IH Hord E. apply simulate_inv in E. destruct E as (k & act & _ & E).
    destruct (steps_counts c ord Hord _ _ _ _ _ _ (NoDup_nil _) E) as (new & N1 & N2).
    rewrite N1, due_app. rewrite (N2 ty Hty). lia.
Qed.

Lemma reachable_ok c s : healthy c -> reachable c s -> sim_ok c s.
Proof.
  intros HH. apply reachable_ind'; clear s.
  - split; [cbn; apply map_length|]. intros e [].
  - intros s n t [S1 S2]. apply schedule_ok; auto. split; auto.
  - intros s ord tt s' IH Hord E. apply simulate_inv in E. destruct E as (k & act & _ & E).
    destruct (steps_total c ord HH Hord k 0 s [] IH) as (s2 & act2 & E2 & HS); [intros n []|].
    rewrite E in E2. injection E2 as <- <-. auto.
Qed.

Lemma total c ord s tt : healthy c -> ord_ok ord -> reachable c s ->
  match num_steps (c_dt c) tt with
  | Ok _ => exists s', simulate c ord s tt = Ok s'
  | Err e => simulate c ord s tt = Err e
  end.
Proof.
  intros HH Hord HR. unfold simulate. destruct (num_steps (c_dt c) tt) as [k|e]; cbn [rbind]; auto.
  destruct (steps_total c ord HH Hord k 0 s []) as (s2 & act2 & -> & HS); [apply reachable_ok; auto|intros n []|].
  cbn [rbind]. eauto.
Qed.

Lemma prefix_any c ord s T1 T2 k1 k2 s2 : ord_ok ord ->
  num_steps (c_dt c) T1 = Ok k1 -> num_steps (c_dt c) T2 = Ok k2 -> k1 <= k2 ->
  simulate c ord s T2 = Ok s2 ->
  exists s1, simulate c ord s T1 = Ok s1 /\
    forall n, (exists more, spike_log s2 n = spike_log s1 n ++ more) /\
              (exists more, voltage_log s2 n = voltage_log s1 n ++ more).
Proof.
  intros Hord E1 E2 Hk. unfold simulate. rewrite E1, E2. cbn [rbind].
  replace k2 with (k1 + (k2 - k1)) by lia. rewrite sim_steps_app.
  destruct (sim_steps c ord 0 k1 (s, [])) as [[s1 act]|] eqn:ES; cbn [rbind]; [|discriminate].
  destruct (sim_steps c ord (0 + k1) (k2 - k1) (s1, act)) as [[s3 act3]|] eqn:ES2; cbn [rbind fst]; [|discriminate].
  intros E; injection E as <-. exists s1. split; auto. intros n.
  assert (ND : NoDup act).
  { clear - Hord ES. revert ES.
    assert (G : forall k i0 z a, NoDup a -> sim_steps c ord i0 k (z, a) = Ok (s1, act) -> NoDup act).
    { induction k as [|k IH]; intros i0 s0 a Ha; cbn [sim_steps]; [intros E; injection E as <- <-; auto|].
      destruct (sim_step c ord i0 (s0, a)) as [[s2 a2]|] eqn:EE; cbn [rbind]; [|discriminate].
      destruct (step_all _ _ _ _ _ _ _ Hord Ha EE) as (es & _ & _ & _ & H3 & _). eauto. }
    apply G. constructor. }
  destruct (steps_neuron c ord n Hord _ _ _ _ _ _ ND ES2) as (log & _ & _ & L3 & L4). eauto.
Qed.

(** the same total, counted synapse by synapse *)
Lemma due_by_synapse (w : world T) ty (l : list (nat * T)) :
  due_total w ty l =
  list_sum (map (fun y => length (filter (fun p => fst p =? s_pre y) l))
                (filter (fun y => syntype_eqb (s_ty y) ty) (w_syns w))).
Proof.
  induction l as [|p l IH].
  - unfold due_total. cbn. induction (filter _ (w_syns w)); cbn; auto.
  - change (due_total w ty (p :: l)) with (out_deg w ty (fst p) + due_total w ty l). rewrite IH. clear IH.
    unfold out_deg. induction (w_syns w) as [|y ys IH]; cbn [filter map]; auto.
    destruct (syntype_eqb (s_ty y) ty).
    + rewrite andb_true_r. cbn [filter map] in *.
      rewrite (Nat.eqb_sym (fst p) (s_pre y)). destruct (s_pre y =? fst p) eqn:E; cbn [length list_sum fold_right] in *.
      * unfold list_sum in *; cbn [fold_right] in *. lia.
      * unfold list_sum in *; cbn [fold_right] in *. lia.
    + rewrite andb_false_r. exact IH.
Qed.
Lemma conservation_logs c s : reachable c s -> forall ty, ty <> SynOther ->
  cnt_of (s_cnt s) ty + length (filter (fun e => syntype_eqb (e_ty e) ty) (s_q s)) =
  list_sum (map (fun y => length (spike_log s (s_pre y)))
                (filter (fun y => syntype_eqb (s_ty y) ty) (w_syns (c_world c)))).
Proof.
  intros HR ty Hty. fold (ty_count ty (s_q s)). rewrite (conservation c s HR ty Hty), due_by_synapse.
  f_equal. apply map_ext. intros y. unfold spike_log. rewrite rev_length, map_length. auto.
Qed.

(** ** No overdue event is ever left in the queue *)
Section Overdue.
Context (okT : T -> Prop) (HO : NumOrd T okT).
Definition q_ok (q : list (event T)) : Prop := heap_ok event_lt q /\ Forall (okE okT) q.

Lemma schedule_qok (w : world T) s n t : q_ok (s_q s) ->
  (forall y, In y (w_syns w) -> s_pre y = n -> okT (nadd t (s_delay y))) -> q_ok (s_q (schedule w s n t)).
Proof.
  intros HQ HY. cbn [schedule s_q]. 
  assert (HY' : Forall (fun y => okT (nadd t (s_delay y))) (out_syn w n)).
  { apply Forall_forall. intros y Hy. apply filter_In in Hy. destruct Hy as [H1 H2]. apply Nat.eqb_eq in H2. auto. }
  revert HQ HY'. generalize (s_q s) as q. generalize (out_syn w n) as ys. clear HY.
  induction ys as [|y ys IH]; intros q HQ HY; cbn [fold_left]; auto.
  inversion HY; subst. apply IH; auto. destruct HQ as [Q1 Q2].
  destruct (add_event_spec okT HO q (syn_event t y)) as (X1 & _ & X3); auto. split; auto.
Qed.

Definition times_ok (c : cfg T) : Prop :=
  forall i, okT (time_of c i) /\ forall y, In y (w_syns (c_world c)) -> okT (nadd (time_of c i) (s_delay y)).

Lemma update_qok c i : times_ok c -> forall l s act s' act',
  rfold (update_neuron c i (time_of c i)) l (s, act) = Ok (s', act') -> q_ok (s_q s) -> q_ok (s_q s').
Proof.
  intros HT l. induction l as [|n l IH]; intros s act s' act'; cbn [rfold].
  { intros E; injection E as <- <-. auto. }
  unfold update_neuron at 1.
  destruct (nth_error (s_sts s) n) as [st|]; [|discriminate].
  destruct (nth_error (w_neurons (c_world c)) n) as [nr|] eqn:Enr; [|discriminate].
  destruct (update_and_spike (nr_params nr) (c_dt c) st) as [[st1 b]|] eqn:EU; cbn [rbind]; [|discriminate].
  unfold log_voltage. destruct (set_mem n (c_keys c)); cbn [rbind]; [|discriminate].
  intros E HQ. apply IH in E; auto. cbn [s_q]. destruct b; auto.
  apply (schedule_qok (c_world c) (set_state (log_spike s n (time_of c i)) n (reset (nr_params nr)))); auto.
  intros y Hy _. apply HT; auto.
Qed.

Lemma step_qok c ord i s act s' act' : times_ok c -> q_ok (s_q s) -> sim_step c ord i (s, act) = Ok (s', act') ->
  q_ok (s_q s') /\
  forall e, In e (s_q s') -> nleb (e_time e) (time_of c i) = false \/
    exists y, In y (w_syns (c_world c)) /\ e = syn_event (time_of c i) y /\ In (s_pre y, time_of c i) (s_spk s').
Proof.
  intros HT [Q1 Q2]. unfold sim_step.
  destruct (pop_events_spec okT HO (s_q s) (time_of c i)) as (out & rest & E & _ & _ & HR & _ & HR2 & HR3); auto.
  { apply HT. }
  rewrite E. destruct (rfold deliver out _) as [[s1 aff]|] eqn:ED; cbn [rbind]; [|discriminate].
  intros EU. destruct (deliver_logs _ _ _ _ _ ED) as (D1 & D2 & D3 & D4 & D5 & D6). cbn [s_q] in D1.
  split. { eapply update_qok; eauto. rewrite D1. split; auto. }
  apply update_logs in EU. destruct EU as (es & E1 & E2 & E3 & E4 & E5 & E6 & E7 & E8 & E9).
  intros e He. apply (Permutation_in _ E6) in He. apply in_app_iff in He. destruct He as [He|He].
  - right. apply in_flat_map in He. destruct He as ([n t] & Hp & He). apply in_map_iff in He.
    destruct He as (y & <- & Hy). cbn [fst snd] in *. apply filter_In in Hy. destruct Hy as [Hy1 Hy2].
    apply Nat.eqb_eq in Hy2. subst n.
    assert (t = time_of c i) as ->. { apply in_map_iff in Hp. destruct Hp as (x & Hx & _). congruence. }
    exists y. repeat split; auto. rewrite E2. apply in_app_iff; auto.
  - left. rewrite D1 in He. rewrite Forall_forall in HR. auto.
Qed.

Lemma steps_qok c ord : times_ok c -> forall k i0 s act s' act', q_ok (s_q s) ->
  sim_steps c ord i0 k (s, act) = Ok (s', act') -> q_ok (s_q s').
Proof.
  intros HT. induction k as [|k IH]; intros i0 s act s' act' HQ; cbn [sim_steps]; [intros E; injection E as <- <-; auto|].
  destruct (sim_step c ord i0 (s, act)) as [[s1 act1]|] eqn:ES; cbn [rbind]; [|discriminate].
  apply step_qok in ES; auto. destruct ES. eauto.
Qed.

Definition inputs_of (c : cfg T) (ext : list (nat * T)) : sim T :=
  fold_left (fun s p => apply_input_spike c s (fst p) (snd p)) ext (new_sim (c_world c)).
Lemma inputs_qok c ext : 
  (forall n t y, In (n, t) ext -> In y (w_syns (c_world c)) -> okT (nadd t (s_delay y))) ->
  q_ok (s_q (inputs_of c ext)).
Proof.
  unfold inputs_of. intros HE. cut (q_ok (s_q (new_sim (c_world c)))).
  - generalize (new_sim (c_world c)) as s. induction ext as [|[n t] ext IH]; intros s HQ; cbn [fold_left fst snd]; auto.
    apply IH; [intros; eapply HE; eauto; right; eauto|].
    apply schedule_qok; auto. intros y Hy _. eapply HE; eauto. left; eauto.
  - cbn. split; [|constructor]. intros i d Hi. cbn in Hi. lia.
Qed.

Lemma no_overdue c ord ext tt k s : times_ok c ->
  (forall n t y, In (n, t) ext -> In y (w_syns (c_world c)) -> okT (nadd t (s_delay y))) ->
  num_steps (c_dt c) tt = Ok (S k) -> simulate c ord (inputs_of c ext) tt = Ok s ->
  forall e, In e (s_q s) -> nleb (e_time e) (time_of c k) = false \/
    exists y, In y (w_syns (c_world c)) /\ e = syn_event (time_of c k) y /\ In (time_of c k) (spike_log s (s_pre y)).
Proof.
  intros HT HE EK E. apply simulate_inv in E. destruct E as (k' & act & EK' & E).
  rewrite EK in EK'. injection EK' as <-. replace (S k) with (k + 1) in E by lia.
  rewrite sim_steps_app in E.
  destruct (sim_steps c ord 0 k (inputs_of c ext, [])) as [[s1 act1]|] eqn:ES; cbn [rbind] in E; [|discriminate].
  apply steps_qok in ES; auto; [|apply inputs_qok; auto].
  cbn [sim_steps Nat.add] in E. 
  destruct (sim_step c ord k (s1, act1)) as [[s2 act2]|] eqn:ES2; cbn [rbind] in E; [|discriminate].
  injection E as <- <-. apply step_qok in ES2; auto. destruct ES2 as [_ H]. intros e He.
  destruct (H e He) as [X|(y & Y1 & Y2 & Y3)]; [left; auto|right]. exists y. repeat split; auto.
  unfold spike_log. rewrite <- in_rev. apply in_map_iff. exists (s_pre y, time_of c k). split; auto.
  apply filter_In. split; auto. apply Nat.eqb_refl.
Qed.
End Overdue.
End Any.
