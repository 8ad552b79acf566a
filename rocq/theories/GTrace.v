(** What a simulation does, step by step, in any arithmetic whose order is sane (binary64
    included): the event queue, active set and iteration order are eliminated.
    At step k a neuron receives, in some order, the events due at step k over its incoming
    synapses, and is then updated; a neuron that receives nothing and has no conductance is
    left alone.  An event created at step j over a delay d is due at the first step k > j
    with t_j + d <= t_k, all computed in the given arithmetic. *)
From Coq Require Import Arith ZArith Bool List Lia Permutation.
From Verif Require Import Num NumOrd Heapq HeapqProofs Elements Simulator QueueProofs SimTrace AnySim.
Import ListNotations.
Open Scope list_scope.

Lemma eq_perm {A} (a b : list A) : a = b -> Permutation a b.
Proof. intros ->. auto. Qed.
Lemma flat_map_swap {A B C} (f : A -> B -> list C) la lb :
  Permutation (flat_map (fun a => flat_map (f a) lb) la) (flat_map (fun b => flat_map (fun a => f a b) la) lb).
Proof.
  induction la as [|a la IH]; cbn [flat_map].
  - induction lb; cbn; auto.
  - rewrite IH. clear IH. induction lb as [|b lb IH]; cbn [flat_map]; auto.
    rewrite <- IH. rewrite <- !app_assoc. apply Permutation_app_head. rewrite !app_assoc. apply Permutation_app_tail.
    apply Permutation_app_comm.
Qed.
Lemma map_filter_flat {A B} (f : A -> B) P l : map f (filter P l) = flat_map (fun x => if P x then [f x] else []) l.
Proof. induction l as [|x l IH]; cbn; auto. destruct (P x); cbn; congruence. Qed.
Lemma flat_map_app2 {A B} (f g : A -> list B) l : Permutation (flat_map (fun x => f x ++ g x) l) (flat_map f l ++ flat_map g l).
Proof.
  induction l as [|x l IH]; cbn [flat_map]; auto. rewrite IH. rewrite <- !app_assoc. apply Permutation_app_head.
  rewrite !app_assoc. apply Permutation_app_tail. apply Permutation_app_comm.
Qed.
Lemma flat_map_one {B} (f : nat -> list B) N m : m < N -> flat_map (fun n => if m =? n then f n else []) (seq 0 N) = f m.
Proof.
  intros H. replace N with (m + S (N - m - 1)) by lia. rewrite seq_app, flat_map_app. cbn [seq flat_map Nat.add].
  rewrite Nat.eqb_refl. rewrite !flat_map_nil; [rewrite app_nil_r; reflexivity| |].
  - intros x Hx. apply in_seq in Hx. destruct (Nat.eqb_spec m x); [lia|reflexivity].
  - intros x Hx. apply in_seq in Hx. destruct (Nat.eqb_spec m x); [lia|reflexivity].
Qed.

Section G.
Context {T : Type} `{NT : Num T}.

Definition z_state : nstate T := {| V := nzero; ge := nzero; gf := nzero; gate := nzero |}.
(** receive_synaptic_event for a known synapse type *)
Definition rcv (s : nstate T) (e : event T) : nstate T :=
  match e_ty e with
  | SynV => {| V := nadd (V s) (e_w e); ge := ge s; gf := gf s; gate := gate s |}
  | SynGe => {| V := V s; ge := nadd (ge s) (e_w e); gf := gf s; gate := gate s |}
  | SynGf => {| V := V s; ge := ge s; gf := nadd (gf s) (e_w e); gate := gate s |}
  | SynGate => {| V := V s; ge := ge s; gf := gf s; gate := nadd (gate s) (e_w e) |}
  | SynOther => s
  end.
(** one update, with the reset of a spiking neuron *)
Definition upd (p : nparams T) (dt : T) (s : nstate T) : nstate T * bool :=
  let V' := nadd (V s) (ndiv (nmul dt (nadd (ge s) (nmul (gate s) (gf s)))) (tm p)) in
  let gf' := if neqb (gate s) nzero then gf s else nsub (gf s) (nmul dt (ndiv (gf s) (tf p))) in
  if nleb (Vt p) V' then (reset p, true)
  else ({| V := V'; ge := ge s; gf := gf'; gate := gate s |}, false).

Lemma upd_ok p dt s : neqb (tm p) nzero = false -> neqb (tf p) nzero = false ->
  exists s1 b, update_and_spike p dt s = Ok (s1, b) /\ upd p dt s = (if b then reset p else s1, b).
Proof.
  intros H1 H2. unfold update_and_spike, upd, pdiv, ngeb. rewrite H1, H2. cbn [rbind].
  destruct (neqb (gate s) nzero); cbn [negb rbind]; (eexists _, _; split; [reflexivity|]);
    destruct (nleb (Vt p) _); reflexivity.
Qed.

Lemma deliver_states evs : forall s aff s' aff', rfold deliver evs (s, aff) = Ok (s', aff') ->
  (forall n, n < length (s_sts s) ->
     nth n (s_sts s') z_state = fold_left rcv (filter (fun e => e_nid e =? n) evs) (nth n (s_sts s) z_state)) /\
  (forall n, In n aff' <-> In n aff \/ In n (map e_nid evs)).
Proof.
  induction evs as [|e evs IH]; intros s aff s' aff'; cbn [rfold].
  { intros E; injection E as <- <-. split; [auto|]. cbn. tauto. }
  unfold deliver at 1. destruct (nth_error (s_sts s) (e_nid e)) as [st|] eqn:EN; [|discriminate].
  destruct (receive_synaptic_event st (e_ty e) (e_w e)) as [st'|] eqn:ER; cbn [rbind]; [|discriminate].
  intros E. apply IH in E. cbn [s_sts] in E. destruct E as [E1 E2]. rewrite lset_length in E1.
  assert (HR : st' = rcv st e).
  { unfold rcv. destruct (e_ty e); cbn in ER; congruence. }
  split.
  - intros n Hn. rewrite E1 by auto. cbn [filter]. destruct (Nat.eqb_spec (e_nid e) n) as [<-|Hne].
    + rewrite nth_lset_eq by auto. cbn [fold_left]. rewrite (nth_error_nth _ _ _ EN), HR. reflexivity.
    + rewrite nth_lset_ne by auto. reflexivity.
  - intros n. rewrite E2, set_add_In. cbn [map In]. intuition.
Qed.

Definition gprm (c : cfg T) (n : nat) : nparams T :=
  match nth_error (w_neurons (c_world c)) n with
  | Some nr => nr_params nr
  | None => {| Vt := nzero; tm := nzero; tf := nzero; Vreset := nzero |}
  end.

Lemma update_states c i t l : healthy c -> NoDup l -> forall s act s' act',
  rfold (update_neuron c i t) l (s, act) = Ok (s', act') ->
  (forall n, n < length (s_sts s) -> nth n (s_sts s') z_state =
     if set_mem n l then fst (upd (gprm c n) (c_dt c) (nth n (s_sts s) z_state)) else nth n (s_sts s) z_state) /\
  (forall n, spike_log s' n = spike_log s n ++
     (if set_mem n l && snd (upd (gprm c n) (c_dt c) (nth n (s_sts s) z_state)) then [t] else [])) /\
  (forall n, In n act' <-> In n act \/ (In n l /\ is_active (fst (upd (gprm c n) (c_dt c) (nth n (s_sts s) z_state))) = true)) /\
  Permutation (s_q s') (s_q s ++ flat_map (fun n => if snd (upd (gprm c n) (c_dt c) (nth n (s_sts s) z_state))
                                                    then map (syn_event t) (out_syn (c_world c) n) else []) l).
Proof.
  intros HH. induction l as [|x l IH]; intros ND s act s' act'; cbn [rfold].
  { intros E; injection E as <- <-. cbn. rewrite app_nil_r. repeat split; auto.
    - intros n. rewrite app_nil_r. auto.
    - tauto. }
  inversion ND as [|? ? Hx ND']; subst.
  unfold update_neuron at 1.
  destruct (nth_error (s_sts s) x) as [st|] eqn:EN; [|discriminate].
  destruct (nth_error (w_neurons (c_world c)) x) as [nr|] eqn:Enr; [|discriminate].
  destruct (proj1 (proj2 HH) nr (nth_error_In _ _ Enr)) as [P1 P2].
  destruct (upd_ok (nr_params nr) (c_dt c) st P1 P2) as (s1 & b & EU & EU2).
  rewrite EU. cbn [rbind]. unfold log_voltage. destruct (set_mem x (c_keys c)); cbn [rbind]; [|discriminate].
  assert (EX : upd (gprm c x) (c_dt c) (nth x (s_sts s) z_state) = (if b then reset (nr_params nr) else s1, b)).
  { unfold gprm. rewrite Enr, (nth_error_nth _ _ _ EN). exact EU2. }
  set (st2 := if b then reset (nr_params nr) else s1) in *.
  set (sA := if b then schedule (c_world c) (set_state (log_spike s x t) x st2) x t else set_state s x st2).
  set (sB := {| s_q := s_q sA; s_sts := _; s_spk := _; s_vlt := _; s_cnt := _ |}).
  assert (EstsB : s_sts sB = lset (s_sts s) x st2) by (subst sB sA; destruct b; reflexivity).
  assert (EspkB : s_spk sB = if b then (x, t) :: s_spk s else s_spk s) by (subst sB sA; destruct b; reflexivity).
  assert (HqB : Permutation (s_q sB) (s_q s ++ if b then map (syn_event t) (out_syn (c_world c) x) else [])).
  { subst sB sA. destruct b; cbn [s_q].
    - rewrite (schedule_q (c_world c) (set_state (log_spike s x t) x st2) x t). apply Permutation_app_comm.
    - rewrite app_nil_r. auto. }
  assert (HL : x < length (s_sts s)) by (apply nth_error_Some; congruence).
  intros E. apply IH in E; auto. destruct E as (E1 & E2 & E3 & E4).
  assert (Hmx : forall n, set_mem n (x :: l) = (n =? x) || set_mem n l) by reflexivity.
  assert (Hxl : set_mem x l = false) by (apply set_mem_nIn; auto).
  assert (Hoth : forall n, n <> x -> nth n (s_sts sB) z_state = nth n (s_sts s) z_state).
  { intros n Hn. rewrite EstsB, nth_lset_ne; auto. }
  assert (HlB : forall n, In n l -> nth n (s_sts sB) z_state = nth n (s_sts s) z_state).
  { intros n Hn. apply Hoth. intros ->. auto. }
  split; [|split; [|split]].
  - intros n Hn. rewrite E1 by (rewrite EstsB, lset_length; auto). rewrite Hmx.
    destruct (Nat.eqb_spec n x) as [->|Hne]; cbn [orb].
    + rewrite Hxl, EstsB, nth_lset_eq by auto. rewrite EX. reflexivity.
    + rewrite Hoth by auto. reflexivity.
  - intros n. rewrite E2, Hmx. unfold spike_log. rewrite EspkB.
    destruct (Nat.eqb_spec n x) as [->|Hne]; cbn [orb].
    + rewrite Hxl, EX. cbn [andb snd]. destruct b; cbn [filter fst]; rewrite ?Nat.eqb_refl; cbn [map rev snd]; rewrite app_nil_r; auto.
    + rewrite Hoth by auto. f_equal. destruct b; auto. cbn [filter fst]. destruct (Nat.eqb_spec x n); [congruence|reflexivity].
  - intros n. rewrite E3. cbn [In]. split.
    + intros [H|[H1 H2]].
      * destruct (is_active st2) eqn:Ea; auto. apply set_add_In in H. destruct H as [->|H]; auto.
        right. rewrite EX. auto.
      * rewrite HlB in H2 by auto. auto.
    + intros [H|[[<-|H1] H2]].
      * left. destruct (is_active st2); auto. apply set_add_In; auto.
      * left. rewrite EX in H2. cbn [fst] in H2. rewrite H2. apply set_add_In; auto.
      * rewrite <- (HlB n) in H2 by auto. auto.
  - rewrite E4, HqB, <- app_assoc. apply Permutation_app_head. cbn [flat_map]. rewrite EX. cbn [snd].
    apply Permutation_app_head. apply eq_perm. rewrite !flat_map_concat_map. f_equal. apply map_ext_in.
    intros n Hn. rewrite HlB by auto. reflexivity.
Qed.

Section Run.
Context (okT : T -> Prop) (HO : NumOrd T okT).
Variable c : cfg T.
Variable ext : list (nat * T).
Variable ord : nat -> list nat -> list nat.
Variable KM : nat.                       (* number of steps looked at *)
Let w := c_world c.
Let NN := length (w_neurons w).
(** time of step k >= 1 *)
Definition tt (k : nat) : T := time_of c (k - 1).

Hypothesis HH : healthy c.
Hypothesis HT : times_ok okT c.
Hypothesis HE : forall n t y, In (n, t) ext -> In y (w_syns w) -> okT (nadd t (s_delay y)).
Hypothesis Hmono : forall k, 1 <= k < KM -> nltb (tt (S k)) (tt k) = false.
Hypothesis Hord : ord_ok ord.
Hypothesis Hpre : forall y, In y (w_syns w) -> s_pre y < NN.
Hypothesis HX : forall n t, In (n, t) ext -> n < NN.

Definition rs (k : nat) : sim T * list nat :=
  match sim_steps c ord 0 k (inputs_of c ext, []) with Ok r => r | Err _ => (inputs_of c ext, []) end.
(** state of neuron n after step k; whether it spikes at step k *)
Definition gst (k n : nat) : nstate T := nth n (s_sts (fst (rs k))) z_state.
Definition gspk (k n : nat) : bool :=
  length (spike_log (fst (rs (k - 1))) n) <? length (spike_log (fst (rs k)) n).
(** the spikes of neuron m up to step K: creation step (0 for injected spikes) and time *)
Definition src (m K : nat) : list (nat * T) :=
  map (fun p => (0, snd p)) (filter (fun p => fst p =? m) ext) ++
  map (fun j => (j, tt j)) (filter (fun j => gspk j m) (seq 1 K)).
(** an event with time e created at step j is delivered at step k *)
Definition due_at (e : T) (j k : nat) : bool :=
  (j <? k) && nleb e (tt k) && ((k =? S j) || negb (nleb e (tt (k - 1)))).
(** events delivered to neuron n at step k *)
Definition arrs (n k : nat) : list (event T) :=
  flat_map (fun y => map (fun p => syn_event (snd p) y)
                         (filter (fun p => due_at (nadd (snd p) (s_delay y)) (fst p) k) (src (s_pre y) (k - 1))))
           (filter (fun y => s_post y =? n) (w_syns w)).

Let pend (K : nat) : list (event T * nat) :=
  flat_map (fun y => map (fun p => (syn_event (snd p) y, fst p)) (src (s_pre y) K)) (w_syns w).
Let waiting (K : nat) (x : event T * nat) : bool := (snd x =? K) || negb (nleb (e_time (fst x)) (tt K)).

Lemma src_S m K : src m (S K) = src m K ++ (if gspk (S K) m then [(S K, tt (S K))] else []).
Proof.
  unfold src. rewrite seq_S, filter_app, map_app, app_assoc. cbn [Nat.add filter]. destruct (gspk (S K) m); reflexivity.
Qed.
Lemma src_le m K j t : In (j, t) (src m K) -> j <= K.
Proof.
  unfold src. rewrite in_app_iff, !in_map_iff. intros [(p & E & _)|(i & E & Hi)].
  - injection E as <- _. lia.
  - injection E as <- _. apply filter_In in Hi. destruct Hi as [Hi _]. apply in_seq in Hi. lia.
Qed.
Lemma src_time m K j t : In (j, t) (src m K) -> (j = 0 /\ In (m, t) ext) \/ t = tt j.
Proof.
  unfold src. rewrite in_app_iff, !in_map_iff. intros [(p & E & Hp)|(i & E & Hi)].
  - injection E as <- <-. apply filter_In in Hp. destruct p as [a b]. cbn in *. destruct Hp as [Hp Ha].
    apply Nat.eqb_eq in Ha. subst. auto.
  - injection E as <- <-. auto.
Qed.
Lemma ok_src y K j t : In y (w_syns w) -> In (j, t) (src (s_pre y) K) -> okT (nadd t (s_delay y)).
Proof. intros Hy Hs. apply src_time in Hs. destruct Hs as [[_ Hs]| ->]; [eapply HE; eauto|]. apply HT. auto. Qed.
Lemma ok_tt k : okT (tt k). Proof. apply HT. Qed.

Record GInv (K : nat) (s : sim T) (act : list nat) : Prop := {
  gi_q : Permutation (s_q s) (map fst (filter (waiting K) (pend K)));
  gi_qok : q_ok okT (s_q s);
  gi_ok : sim_ok c s;
  gi_act : forall n, n < NN -> In n act <-> is_active (gst K n) = true;
  gi_keys : forall n, In n act -> In n (c_keys c);
  gi_nodup : NoDup act;
  gi_log : forall n, n < NN -> spike_log s n =
     map snd (filter (fun p => fst p =? n) ext) ++ map tt (filter (fun k => gspk k n) (seq 1 K))
}.

Lemma inputs_log n : spike_log (inputs_of c ext) n = map snd (filter (fun p => fst p =? n) ext).
Proof.
  unfold inputs_of.
  assert (G : forall l s, spike_log (fold_left (fun s p => apply_input_spike c s (fst p) (snd p)) l s) n =
     spike_log s n ++ map snd (filter (fun p => fst p =? n) l)).
  { induction l as [|p l IH]; intros s; cbn [fold_left filter]; [cbn; rewrite app_nil_r; auto|].
    rewrite IH. unfold spike_log at 1. cbn [apply_input_spike schedule log_spike s_spk filter fst].
    destruct (fst p =? n); cbn [map rev snd]; [rewrite <- app_assoc; reflexivity|reflexivity]. }
  rewrite G. reflexivity.
Qed.
Lemma inputs_q : Permutation (s_q (inputs_of c ext)) (flat_map (fun p => map (syn_event (snd p)) (out_syn w (fst p))) ext) /\
  s_sts (inputs_of c ext) = s_sts (new_sim w).
Proof.
  unfold inputs_of.
  assert (G : forall l s, Permutation (s_q (fold_left (fun s p => apply_input_spike c s (fst p) (snd p)) l s))
      (s_q s ++ flat_map (fun p => map (syn_event (snd p)) (out_syn w (fst p))) l) /\
      s_sts (fold_left (fun s p => apply_input_spike c s (fst p) (snd p)) l s) = s_sts s).
  { induction l as [|p l IH]; intros s; cbn [fold_left flat_map]; [rewrite app_nil_r; auto|].
    destruct (IH (apply_input_spike c s (fst p) (snd p))) as [I1 I2]. rewrite I1, I2. split; [|reflexivity].
    unfold apply_input_spike. rewrite schedule_q. cbn [log_spike s_q].
    rewrite (Permutation_app_comm _ (s_q s)), <- app_assoc. reflexivity. }
  apply (G ext (new_sim (c_world c))).
Qed.

Lemma rs_0 : rs 0 = (inputs_of c ext, []). Proof. reflexivity. Qed.
Lemma gst_0 n : n < NN -> gst 0 n = init_nstate (gprm c n).
Proof.
  intros Hn. unfold gst. rewrite rs_0. cbn [fst]. rewrite (proj2 inputs_q). cbn [new_sim s_sts].
  unfold gprm. fold w. destruct (nth_error (w_neurons w) n) as [nr|] eqn:E; [|apply nth_error_None in E; unfold NN in Hn; lia].
  erewrite nth_error_nth; [reflexivity|]. rewrite nth_error_map, E. reflexivity.
Qed.
Lemma init_inactive p : okT (nzero (T := T)) -> is_active (init_nstate (T := T) p) = false.
Proof.
  intros H. unfold is_active. cbn. rewrite (no_eqb T okT HO nzero nzero H H).
  destruct (nltb (nzero (T := T)) nzero) eqn:E; [|reflexivity]. pose proof (no_asym T okT HO _ _ H H E). congruence.
Qed.
Hypothesis H0 : okT (nzero (T := T)).

Lemma ginv_0 : GInv 0 (inputs_of c ext) [].
Proof.
  destruct inputs_q as [Q1 Q2]. constructor.
  - rewrite Q1. assert (HF : forall l, filter (waiting 0) (flat_map (fun y => map (fun p => (syn_event (snd p) y, fst p)) (src (s_pre y) 0)) l) =
        flat_map (fun y => map (fun p => (syn_event (snd p) y, fst p)) (src (s_pre y) 0)) l).
    { intros l. apply filter_true. intros [e j] Hx. apply in_flat_map in Hx. destruct Hx as (y & _ & Hx).
      apply in_map_iff in Hx. destruct Hx as ([j' t] & Ex & Hx). injection Ex as <- <-. apply src_le in Hx.
      unfold waiting. cbn [fst snd]. assert (j' = 0) as -> by lia. reflexivity. }
    unfold pend. rewrite HF. rewrite map_flat_map.
    transitivity (flat_map (fun p => flat_map (fun y => if s_pre y =? fst p then [syn_event (snd p) y] else []) (w_syns w)) ext).
    + apply eq_perm. apply flat_map_ext. intros p. unfold out_syn. apply map_filter_flat.
    + rewrite flat_map_swap. apply eq_perm. apply flat_map_ext. intros y.
      rewrite map_map. unfold src. cbn [seq filter map]. rewrite app_nil_r, map_map. cbn [fst snd].
      rewrite map_filter_flat. apply flat_map_ext. intros p. rewrite Nat.eqb_sym. reflexivity.
  - apply inputs_qok; auto.
  - apply reachable_ok; auto. clear. unfold inputs_of. cut (reachable c (new_sim (c_world c))); [|constructor].
    generalize (new_sim (c_world c)). induction ext as [|p l IH]; intros s Hs; cbn [fold_left]; auto. apply IH. constructor. auto.
  - intros n Hn. rewrite gst_0, init_inactive by auto. split; [intros []|discriminate].
  - intros n [].
  - constructor.
  - intros n Hn. cbn [seq filter map]. rewrite app_nil_r. apply inputs_log.
Qed.

Lemma leb_mono k e : 1 <= k < KM -> okT e -> nleb e (tt k) = true -> nleb e (tt (S k)) = true.
Proof.
  intros Hk He. rewrite !(no_leb T okT HO) by auto using ok_tt. rewrite !negb_true_iff. intros H.
  apply (no_letrans T okT HO e (tt k) (tt (S k))); auto using ok_tt.
Qed.

(** how neuron n gets from step k to step k+1 *)
Definition gstep (k n : nat) : Prop :=
  exists evs, Permutation evs (arrs n (S k)) /\
    ((evs = [] /\ is_active (gst k n) = false /\ gst (S k) n = gst k n /\ gspk (S k) n = false) \/
     ((evs <> [] \/ is_active (gst k n) = true) /\
      (gst (S k) n, gspk (S k) n) = upd (gprm c n) (c_dt c) (fold_left rcv evs (gst k n)))).

Lemma rs_S k : rs (S k) = match sim_steps c ord 0 k (inputs_of c ext, []) with
   | Ok r => match sim_step c ord k r with Ok r' => r' | Err _ => (inputs_of c ext, []) end
   | Err _ => (inputs_of c ext, []) end.
Proof.
  unfold rs. rewrite <- Nat.add_1_r, sim_steps_app. destruct (sim_steps c ord 0 k _) as [r|]; cbn [rbind Nat.add]; auto.
  cbn [sim_steps Nat.add]. destruct (sim_step c ord k r); reflexivity.
Qed.

Lemma filter_flat_map {A B} (P : B -> bool) (f : A -> list B) l : filter P (flat_map f l) = flat_map (fun x => filter P (f x)) l.
Proof. induction l as [|x l IH]; cbn [flat_map]; auto. rewrite filter_app, IH. reflexivity. Qed.

Lemma ginv_step K s act : S K <= KM -> sim_steps c ord 0 K (inputs_of c ext, []) = Ok (s, act) -> GInv K s act ->
  exists s' act', sim_step c ord K (s, act) = Ok (s', act') /\ GInv (S K) s' act' /\ forall n, n < NN -> gstep K n.
Proof.
  intros HK ES I. destruct I as [I1 I2 I3 I4 I5 I6 I7].
  destruct (step_total c ord K s act HH Hord I3 I5) as (s' & act' & EST & S1 & S2).
  exists s', act'. split; [exact EST|].
  pose proof EST as EST2. unfold sim_step in EST2.
  destruct (pop_events_spec okT HO (s_q s) (time_of c K)) as (out & rest & EP & P1 & P2 & P3 & P4 & P5 & P6).
  { apply HT. } { apply I2. } { apply I2. }
  rewrite EP in EST2.
  destruct (rfold deliver out _) as [[s1 aff]|] eqn:ED; cbn [rbind] in EST2; [|discriminate].
  destruct (deliver_states out _ _ _ _ ED) as [DS DA]. cbn [s_sts] in DS.
  destruct (deliver_logs _ _ _ _ _ ED) as (D1 & D2 & D3 & D4 & D5 & _). cbn [s_q s_spk s_sts] in *.
  assert (NDU : NoDup (ord K (set_union aff act))).
  { eapply Permutation_NoDup; [apply Permutation_sym, Hord|]. apply set_union_NoDup, D5. constructor. }
  set (L := ord K (set_union aff act)) in *.
  assert (HLi : forall n, In n L <-> In n (map e_nid out) \/ In n act).
  { intros n. split.
    - intros H. apply (Permutation_in _ (Hord K _)) in H. apply set_union_In in H. destruct H as [H|H]; auto.
      apply DA in H. destruct H as [[]|H]; auto.
    - intros H. apply (Permutation_in _ (Permutation_sym (Hord K _))). apply set_union_In. destruct H as [H|H]; auto.
      left. apply DA. auto. }
  destruct (update_states c K (time_of c K) L HH NDU _ _ _ _ EST2) as (U1 & U2 & U3 & U4).
  assert (HTT : time_of c K = tt (S K)) by (unfold tt; f_equal; lia).
  rewrite HTT in *.
  assert (LS : length (s_sts s) = NN) by apply I3.
  assert (GK : rs K = (s, act)) by (unfold rs; rewrite ES; reflexivity).
  assert (GS : rs (S K) = (s', act')) by (rewrite rs_S, ES, EST; reflexivity).
  assert (Gst : forall n, gst K n = nth n (s_sts s) z_state) by (intros; unfold gst; rewrite GK; reflexivity).
  set (ev n := filter (fun e => e_nid e =? n) out) in *.
  set (u n := upd (gprm c n) (c_dt c) (fold_left rcv (ev n) (gst K n))) in *.
  assert (HU : forall n, n < NN -> upd (gprm c n) (c_dt c) (nth n (s_sts s1) z_state) = u n).
  { intros n Hn. rewrite DS by lia. unfold u. rewrite Gst. reflexivity. }
  assert (HLn : forall n, In n L -> n < NN).
  { intros n Hn. apply HLi in Hn. apply HH. destruct Hn as [Hn|Hn]; auto. apply in_map_iff in Hn. destruct Hn as (e & <- & He).
    apply (proj2 I3 e). eapply Permutation_in; [apply Permutation_sym, P1|]. apply in_app_iff; auto. }
  assert (Gspk : forall n, n < NN -> gspk (S K) n = set_mem n L && snd (u n)).
  { intros n Hn. unfold gspk. replace (S K - 1) with K by lia. rewrite GK, GS. cbn [fst]. rewrite U2, app_length.
    unfold spike_log at 1 2. rewrite D2. rewrite HU by auto.
    destruct (set_mem n L && snd (u n)); cbn [length]; [apply Nat.ltb_lt|apply Nat.ltb_ge]; lia. }
  assert (Gst' : forall n, n < NN -> gst (S K) n = if set_mem n L then fst (u n) else gst K n).
  { intros n Hn. unfold gst at 1. rewrite GS. cbn [fst]. rewrite U1 by lia. rewrite HU by auto.
    destruct (set_mem n L) eqn:Em; auto. rewrite DS by lia. rewrite Gst.
    apply set_mem_nIn in Em. assert (filter (fun e => e_nid e =? n) out = []) as ->; [|reflexivity].
    destruct (filter (fun e => e_nid e =? n) out) as [|e l] eqn:Ef; auto. exfalso. apply Em, HLi. left.
    assert (He : In e (filter (fun e => e_nid e =? n) out)) by (rewrite Ef; left; auto).
    apply filter_In in He. destruct He as [H1 H2]. apply Nat.eqb_eq in H2. subst n. apply in_map; auto. }
  (* the due events *)
  assert (Hdue : forall e j, In (e, j) (pend K) -> okT (e_time e) /\ j <= K).
  { intros e j Hx. unfold pend in Hx. apply in_flat_map in Hx. destruct Hx as (y & Hy & Hx).
    apply in_map_iff in Hx. destruct Hx as ([j' t] & Ex & Hx). injection Ex as <- <-. cbn [e_time syn_event fst].
    split; [eapply ok_src; eauto|eapply src_le; eauto]. }
  assert (Ewait : forall x, In x (pend K) -> waiting K x && nleb (e_time (fst x)) (tt (S K)) = due_at (e_time (fst x)) (snd x) (S K)).
  { intros [e j] Hx. destruct (Hdue e j Hx) as [_ Hj]. unfold waiting, due_at. cbn [fst snd].
    replace (S K - 1) with K by lia. destruct (Nat.ltb_spec j (S K)); [|lia].
    change (S K =? S j) with (K =? j). rewrite (Nat.eqb_sym K j). cbn [andb]. apply andb_comm. }
  assert (Elate : forall x, In x (pend K) -> waiting K x && negb (nleb (e_time (fst x)) (tt (S K))) = negb (nleb (e_time (fst x)) (tt (S K)))).
  { intros [e j] Hx. destruct (Hdue e j Hx) as [Ho Hj]. unfold waiting. cbn [fst snd].
    destruct (nleb (e_time e) (tt (S K))) eqn:E1; cbn [negb]; [apply andb_false_r|]. rewrite andb_true_r.
    destruct (Nat.eqb_spec j K); [reflexivity|]. cbn [orb]. destruct (nleb (e_time e) (tt K)) eqn:E2; auto.
    rewrite leb_mono in E1; auto. lia. }
  assert (Pout : Permutation out (map fst (filter (fun x => due_at (e_time (fst x)) (snd x) (S K)) (pend K)))).
  { assert (X : Permutation (filter (fun e => nleb (e_time e) (tt (S K))) (s_q s)) out).
    { rewrite (filter_perm _ _ _ P1), filter_app, (filter_true _ out), (filter_false _ rest), app_nil_r; auto.
      - intros x Hx. rewrite Forall_forall in P3. auto.
      - intros x Hx. rewrite Forall_forall in P2. auto. }
    rewrite <- X, (filter_perm _ _ _ I1), filter_map. apply Permutation_map.
    rewrite filter_filter. apply eq_perm. apply filter_ext_in. intros x Hx. rewrite andb_comm. apply Ewait. auto. }
  assert (Prest : Permutation rest (map fst (filter (fun x => negb (nleb (e_time (fst x)) (tt (S K)))) (pend K)))).
  { assert (X : Permutation (filter (fun e => negb (nleb (e_time e) (tt (S K)))) (s_q s)) rest).
    { rewrite (filter_perm _ _ _ P1), filter_app, (filter_false _ out), (filter_true _ rest); auto.
      - intros x Hx. rewrite Forall_forall in P3. rewrite P3 by auto. reflexivity.
      - intros x Hx. rewrite Forall_forall in P2. rewrite P2 by auto. reflexivity. }
    rewrite <- X, (filter_perm _ _ _ I1), filter_map. apply Permutation_map.
    rewrite filter_filter. apply eq_perm. apply filter_ext_in. intros x Hx. rewrite andb_comm. apply Elate. auto. }
  assert (Pev : forall n, Permutation (ev n) (arrs n (S K))).
  { intros n. unfold ev. rewrite (filter_perm _ _ _ Pout), filter_map, filter_filter. unfold pend.
    rewrite filter_flat_map, map_flat_map. unfold arrs. replace (S K - 1) with K by lia.
    apply eq_perm. generalize (w_syns w). intros l. induction l as [|y l IH]; cbn [flat_map filter]; auto.
    rewrite IH. destruct (s_post y =? n) eqn:En; cbn [flat_map].
    - f_equal. rewrite filter_map, map_map. cbn [fst snd e_nid e_time syn_event]. f_equal.
      apply filter_ext. intros p. rewrite En. reflexivity.
    - rewrite filter_map. cbn [fst snd e_nid e_time syn_event]. rewrite filter_false; [reflexivity|]. intros p _. rewrite En. reflexivity. }
  assert (Emem : forall n, n < NN -> set_mem n L = true <-> ev n <> [] \/ is_active (gst K n) = true).
  { intros n Hn. rewrite set_mem_In, HLi, I4 by auto. split; (intros [H|H]; [left|right; auto]).
    - apply in_map_iff in H. destruct H as (e & <- & He). intros EE.
      assert (In e (ev (e_nid e))) by (apply filter_In; split; auto; apply Nat.eqb_refl). rewrite EE in H. destruct H.
    - destruct (ev n) as [|e l] eqn:Ee; [congruence|]. assert (He : In e (ev n)) by (rewrite Ee; left; auto).
      apply filter_In in He. destruct He as [H1 H2]. apply Nat.eqb_eq in H2. subst n. apply in_map; auto. }
  split.
  - constructor.
    + rewrite U4, D1, Prest.
      transitivity (map fst (filter (waiting (S K)) (pend K)) ++
         flat_map (fun y => if gspk (S K) (s_pre y) then [syn_event (tt (S K)) y] else []) (w_syns w)).
      * apply Permutation_app.
        { apply eq_perm. f_equal. apply filter_ext_in. intros [e j] Hx. destruct (Hdue e j Hx) as [_ Hj].
          unfold waiting. cbn [fst snd]. destruct (Nat.eqb_spec j (S K)); [lia|reflexivity]. }
        transitivity (flat_map (fun n => if gspk (S K) n then map (syn_event (tt (S K))) (out_syn w n) else []) L).
        { apply eq_perm. rewrite !flat_map_concat_map. f_equal. apply map_ext_in. intros n Hn.
          rewrite HU, Gspk by auto. rewrite (proj2 (set_mem_In n L) Hn). reflexivity. }
        rewrite (flat_map_sub _ NN L); auto.
        2:{ intros n Hn HnL. rewrite Gspk by auto. rewrite (proj2 (set_mem_nIn n L) HnL). reflexivity. }
        transitivity (flat_map (fun n => flat_map (fun y => if gspk (S K) n && (s_pre y =? n) then [syn_event (tt (S K)) y] else []) (w_syns w)) (seq 0 NN)).
        { apply eq_perm. apply flat_map_ext. intros n. destruct (gspk (S K) n); cbn [andb].
          - unfold out_syn. apply map_filter_flat.
          - rewrite flat_map_nil; auto. }
        rewrite flat_map_swap. apply eq_perm. rewrite !flat_map_concat_map. f_equal. apply map_ext_in. intros y Hy.
        rewrite <- (flat_map_one (fun n => if gspk (S K) n then [syn_event (tt (S K)) y] else []) NN (s_pre y)) by auto.
        apply flat_map_ext. intros n. destruct (s_pre y =? n); [rewrite andb_true_r; auto|rewrite andb_false_r; auto].
      * unfold pend.
        transitivity (map fst (filter (waiting (S K)) (flat_map (fun y => map (fun p => (syn_event (snd p) y, fst p)) (src (s_pre y) K) ++
            (if gspk (S K) (s_pre y) then [(syn_event (tt (S K)) y, S K)] else [])) (w_syns w)))).
        2:{ apply eq_perm. f_equal. f_equal. apply flat_map_ext. intros y. rewrite src_S, map_app.
            destruct (gspk (S K) (s_pre y)); reflexivity. }
        rewrite (filter_perm _ _ _ (flat_map_app2 _ _ _)), filter_app, map_app. apply Permutation_app_head.
        rewrite filter_true.
        -- apply eq_perm. rewrite map_flat_map. apply flat_map_ext. intros y. destruct (gspk (S K) (s_pre y)); reflexivity.
        -- intros x Hx. apply in_flat_map in Hx. destruct Hx as (y & _ & Hx). destruct (gspk (S K) (s_pre y)); [|destruct Hx].
           destruct Hx as [<-|[]]. unfold waiting. cbn [fst snd]. rewrite Nat.eqb_refl. reflexivity.
    + eapply step_qok in EST; eauto. apply EST.
    + exact S1.
    + intros n Hn. rewrite U3, HU by auto. rewrite Gst' by auto. cbn [In]. split.
      * intros [[]|[H1 H2]]. rewrite (proj2 (set_mem_In n L) H1). exact H2.
      * intros H. right. destruct (set_mem n L) eqn:Em.
        -- apply set_mem_In in Em. auto.
        -- exfalso. assert (X : set_mem n L = true) by (apply Emem; auto). congruence.
    + exact S2.
    + destruct (step_all c ord K s act s' act' Hord I6 EST) as (es & _ & _ & _ & H & _). exact H.
    + intros n Hn. rewrite U2, HU by auto. unfold spike_log at 1. rewrite D2. fold (spike_log s n). rewrite I7 by auto.
      rewrite seq_S, filter_app, map_app, app_assoc. f_equal. cbn [Nat.add filter]. rewrite Gspk by auto.
      destruct (set_mem n L && snd (u n)); reflexivity.
  - intros n Hn. exists (ev n). split; [apply Pev|]. rewrite Gst', Gspk by auto.
    destruct (set_mem n L) eqn:Em; cbn [andb].
    + right. split; [apply Emem; auto|]. unfold u. symmetry. apply surjective_pairing.
    + left. assert (N1 : ~ (ev n <> [] \/ is_active (gst K n) = true)) by (rewrite <- Emem by auto; congruence).
      split; [|split; [|auto]].
      * destruct (ev n); auto. exfalso. apply N1. left. discriminate.
      * destruct (is_active (gst K n)); auto. exfalso. apply N1. auto.
Qed.

Theorem gtrace : forall K, K <= KM ->
  sim_steps c ord 0 K (inputs_of c ext, []) = Ok (rs K) /\
  (forall k n, k < K -> n < NN -> gstep k n) /\
  (forall n, n < NN -> spike_log (fst (rs K)) n =
     map snd (filter (fun p => fst p =? n) ext) ++ map tt (filter (fun k => gspk k n) (seq 1 K))).
Proof.
  assert (G : forall K, K <= KM -> exists s act, sim_steps c ord 0 K (inputs_of c ext, []) = Ok (s, act) /\ GInv K s act /\
      forall k n, k < K -> n < NN -> gstep k n).
  { induction K as [|K IH]; intros HK.
    - exists (inputs_of c ext), []. split; [reflexivity|]. split; [apply ginv_0|]. intros; lia.
    - destruct IH as (s & act & E & I & HG); [lia|].
      destruct (ginv_step K s act HK E I) as (s' & act' & E' & I' & G').
      exists s', act'. split; [|split; auto].
      + rewrite <- Nat.add_1_r, sim_steps_app, E. cbn [rbind Nat.add sim_steps]. rewrite E'. reflexivity.
      + intros k n Hk Hn. destruct (Nat.eq_dec k K) as [->|]; auto. apply HG; auto. lia. }
  intros K HK. destruct (G K HK) as (s & act & E & I & HG).
  assert (ER : rs K = (s, act)) by (unfold rs; rewrite E; reflexivity). rewrite ER. split; [exact E|].
  split; [exact HG|]. intros n Hn. apply (gi_log _ _ _ I n Hn).
Qed.
End Run.
End G.
