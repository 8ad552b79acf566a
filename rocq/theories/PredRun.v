(** Whole runs of PredSimulator (predictive_simulator.py:110-145) over R, neuron by neuron (C53).
    [advance], [pend], [neuron_run] are the specification: what one neuron does with the synaptic hits it receives. *)
From Coq Require Import Arith ZArith Bool List Reals Lra Lia Permutation Sorted.
From Verif Require Import Num NumOrd Heapq Elements CancelQueue CancelQueueProofs PredSim PredNeuron Build PredProofs Trace SimTrace TraceProps.
Import ListNotations.
Open Scope list_scope.
Open Scope R_scope.

#[local] Opaque predict_spike search.
(** ** one neuron *)
(** sum of the weights of one synapse type among simultaneous hits *)
Definition wsum (ty : syntype) (hs : list (syntype * R)) : R := sumf (fun h => if syntype_eqb (fst h) ty then snd h else 0) hs.
(** the neuron after hits [hs], all at time [t]: the exact solution up to t, plus the weights *)
Definition advance (p : nparams R) (x : pneuron R) (t : R) (hs : list (syntype * R)) : pneuron R :=
  let s := pn_st x in let d := t - pn_last x in
  {| pn_st := {| V := ffV p s d + wsum SynV hs; ge := ge s + wsum SynGe hs; gf := ffG p s d + wsum SynGf hs; gate := gate s + wsum SynGate hs |}; pn_last := t |}.
(** the neuron after a spike *)
Definition fired_at (p : nparams R) (x : pneuron R) : pneuron R := {| pn_st := reset p; pn_last := pn_last x |}.
(** the time for which its next spike is predicted *)
Definition pend (p : nparams R) (dt : R) (mx : Z) (x : pneuron R) : option R :=
  match predict_spike p (pn_st x) dt mx with Ok (Some d) => Some (pn_last x + d) | _ => None end.
(** [neuron_run p dt mx x hits F]: from state x and with the hits still to come (grouped by time), the neuron spikes at the times F *)
Inductive neuron_run (p : nparams R) (dt : R) (mx : Z) : pneuron R -> list (R * list (syntype * R)) -> list R -> Prop :=
| nr_end x : pend p dt mx x = None -> neuron_run p dt mx x [] []
| nr_fire x t tl F : pend p dt mx x = Some t -> (forall g, In g tl -> t <= fst g) -> neuron_run p dt mx (fired_at p x) tl F -> neuron_run p dt mx x tl (t :: F)
| nr_hit x t hs tl F : (forall f, pend p dt mx x = Some f -> t < f) -> neuron_run p dt mx (advance p x t hs) tl F -> neuron_run p dt mx x ((t, hs) :: tl) F.

Lemma wsum_app ty a b : wsum ty (a ++ b) = wsum ty a + wsum ty b.
Proof. apply sumf_app. Qed.
Lemma wsum_perm ty a b : Permutation a b -> wsum ty a = wsum ty b.
Proof. apply sumf_perm. Qed.
Lemma advance_perm p x t a b : Permutation a b -> advance p x t a = advance p x t b.
Proof. intros H. unfold advance. rewrite !(wsum_perm _ _ _ H). reflexivity. Qed.
Lemma ff0 p s : tf p <> 0 -> ffV p s 0 = V s /\ ffG p s 0 = gf s.
Proof.
  intros Hf. assert (E : exp (- 0 / tf p) = 1) by (replace (- 0 / tf p) with 0 by (field; auto); apply exp_0).
  unfold ffV, ffG. rewrite E. split; [|ring]. destruct (Req_EM_T (gate s) 0); ring.
Qed.
Lemma advance_app p x t a b : tf p <> 0 -> advance p (advance p x t a) t b = advance p x t (a ++ b).
Proof.
  intros Hf. unfold advance at 1. cbn [pn_st pn_last]. replace (t - pn_last (advance p x t a)) with 0 by (cbn; ring).
  destruct (ff0 p (pn_st (advance p x t a)) Hf) as [-> ->]. unfold advance. cbn [pn_st V ge gf gate]. rewrite !wsum_app.
  f_equal. f_equal; ring.
Qed.
Lemma receive_advance p x ty w t : tm p <> 0 -> tf p <> 0 -> ty <> SynOther -> receive_pred p x ty w t = Ok (advance p x t [(ty, w)]).
Proof.
  intros Hm Hf Hty. unfold receive_pred. cbn [neqb R_num]. unfold Reqb. destruct x as [s l]. cbn [pn_st pn_last].
  destruct (Req_EM_T t l) as [->|Hne]; cbn [negb rbind].
  - unfold advance. cbn [pn_st pn_last]. replace (l - l) with 0 by ring. destruct (ff0 p s Hf) as [-> ->].
    destruct s as [sv sg sf sa]. destruct ty; try congruence; cbn [receive_synaptic_event rbind V ge gf gate]; unfold wsum, sumf, sumR; cbn; repeat f_equal; ring.
  - rewrite ff_eq by auto. cbn [rbind]. unfold advance. cbn [pn_st pn_last].
    destruct ty; try congruence; cbn [receive_synaptic_event rbind V ge gf gate fst snd nsub R_num]; unfold wsum, sumf, sumR; cbn; repeat f_equal; ring.
Qed.

(** ** what a batch does to each neuron *)
Definition hits_of (n : nat) (evs : list (uevent R)) : list (syntype * R) :=
  flat_map (fun e => match u_pl e with Hit m ty w => if (m =? n)%nat then [(ty, w)] else [] | Pred _ => [] end) evs.
Definition advance' p x t hs := match hs with [] => x | _ => advance p x t hs end.
Section Batch.
Variable c : pcfg R.
Hypothesis WF : pwf c.
Lemma propagate_nrs (t : R) : forall (ys : list (synapse R)) (s : psim R), ps_nrs (fold_left (fun s y => fst (enqueue s (nadd t (s_delay y)) (Hit (s_post y) (s_ty y) (s_w y)))) ys s) = ps_nrs s.
Proof. induction ys as [|y ys IH]; intros s; cbn [fold_left]; auto. rewrite IH. reflexivity. Qed.
Lemma do_spike_nrs s t n s' : do_spike c s t n = Ok s' ->
  exists x, nth_error (ps_nrs s) n = Some x /\ ps_nrs s' = lset (ps_nrs s) n (fired_at (prm_of c n) x).
Proof.
  unfold do_spike. destruct (nth_error (ps_nrs s) n) as [x|] eqn:Ex; [|discriminate].
  destruct (nth_error (w_neurons (pc_world c)) n) as [nr|] eqn:En; [|discriminate].
  destruct (in_keys c n); [|discriminate]. intros E. injection E as <-. exists x. split; auto.
  cbn [ps_nrs set_poss]. unfold propagate. rewrite propagate_nrs. cbn [set_nr ps_nrs]. rewrite (prm_eq c n nr En). reflexivity.
Qed.
Lemma do_hit_nrs s t n ty w s' : ty <> SynOther -> do_hit c s t n ty w = Ok s' ->
  exists x, nth_error (ps_nrs s) n = Some x /\ ps_nrs s' = lset (ps_nrs s) n (advance (prm_of c n) x t [(ty, w)]).
Proof.
  intros Hty. unfold do_hit. destruct (in_keys c n); [cbn [negb]|discriminate].
  destruct (nth_error (ps_nrs s) n) as [x|] eqn:Ex; [|discriminate].
  destruct (nth_error (ps_poss s) n) as [po|] eqn:Ep; [|discriminate].
  destruct (nth_error (w_neurons (pc_world c)) n) as [nr|] eqn:En; [|discriminate].
  rewrite <- (prm_eq c n nr En). destruct (prm_nz c WF n) as [Hm Hf]. rewrite receive_advance by auto. cbn [rbind].
  destruct (predict_spike _ _ _ _) as [pr|]; cbn [rbind]; [|discriminate]. intros E. exists x. split; auto.
  assert (E0 : ps_nrs (match po with Some e => set_q s (cq_remove (ps_q s) e) | None => s end) = ps_nrs s) by (destruct po; reflexivity).
  destruct pr as [d|]; cbn [enqueue] in E; injection E as <-; cbn [ps_nrs set_poss set_nr]; rewrite E0; reflexivity.
Qed.
Lemma spikes_nrs : forall evs s s', rfold (step_spike c) evs s = Ok s' -> forall m x, nth_error (ps_nrs s) m = Some x ->
  nth_error (ps_nrs s') m = Some (if existsb (is_pred m) evs then fired_at (prm_of c m) x else x).
Proof.
  induction evs as [|e evs IH]; intros s s' E m x Hx; cbn [rfold existsb] in *; [injection E as <-; auto|].
  unfold step_spike in E at 1. unfold is_pred at 1. destruct (u_pl e) as [n ty w|n] eqn:He.
  - cbn [rbind orb] in *. eapply IH; eauto.
  - destruct (do_spike c s (u_time e) n) as [s1|] eqn:E1; cbn [rbind] in E; [|discriminate].
    destruct (do_spike_nrs _ _ _ _ E1) as (y & Hy & E2).
    assert (Hlen : (n < List.length (ps_nrs s))%nat) by (apply nth_error_Some; congruence).
    destruct (Nat.eqb_spec n m) as [->|Hne]; cbn [orb].
    + rewrite Hx in Hy. injection Hy as <-.
      rewrite (IH s1 s' E m (fired_at (prm_of c m) x)).
      * destruct (existsb _ evs); reflexivity.
      * rewrite E2, nth_error_lset, Nat.eqb_refl. apply Nat.ltb_lt in Hlen. rewrite Hlen. auto.
    + apply (IH s1 s' E). rewrite E2, nth_error_lset. destruct (Nat.eqb_spec m n); [congruence|auto].
Qed.
Lemma hits_nrs t : forall evs s s', (forall e, In e evs -> u_time e = t /\ event_ok c e) -> rfold (step_hit c) evs s = Ok s' ->
  forall m x, nth_error (ps_nrs s) m = Some x -> nth_error (ps_nrs s') m = Some (advance' (prm_of c m) x t (hits_of m evs)).
Proof.
  induction evs as [|e evs IH]; intros s s' HE E m x Hx; cbn [rfold hits_of flat_map] in *; [injection E as <-; auto|].
  destruct (HE e (or_introl eq_refl)) as [Ht Hok]. unfold step_hit in E at 1. unfold event_ok in Hok.
  destruct (u_pl e) as [n ty w|n] eqn:He.
  - destruct (do_hit c s (u_time e) n ty w) as [s1|] eqn:E1; cbn [rbind] in E; [|discriminate].
    destruct (do_hit_nrs _ _ _ _ _ _ (proj2 Hok) E1) as (y & Hy & E2). rewrite Ht in E2.
    assert (Hlen : (n < List.length (ps_nrs s))%nat) by (apply nth_error_Some; congruence).
    destruct (Nat.eqb_spec n m) as [->|Hne].
    + rewrite Hx in Hy. injection Hy as <-.
      rewrite (IH s1 s' (fun e0 H0 => HE e0 (or_intror H0)) E m (advance (prm_of c m) x t [(ty, w)])).
      * fold (hits_of m evs). unfold advance' at 1. cbn [app advance']. destruct (hits_of m evs) as [|h hs] eqn:Eh; auto.
        rewrite advance_app by apply (prm_nz c WF m). reflexivity.
      * rewrite E2, nth_error_lset, Nat.eqb_refl. apply Nat.ltb_lt in Hlen. rewrite Hlen. auto.
    + cbn [app]. apply (IH s1 s' (fun e0 H0 => HE e0 (or_intror H0)) E). rewrite E2, nth_error_lset. destruct (Nat.eqb_spec m n); [congruence|auto].
  - cbn [rbind app] in *. exact (IH s s' (fun e0 H0 => HE e0 (or_intror H0)) E m x Hx).
Qed.
Lemma batch_nrs t evs s s' : (forall e, In e evs -> u_time e = t /\ event_ok c e) -> process_batch c s evs = Ok s' ->
  forall m x, nth_error (ps_nrs s) m = Some x ->
  nth_error (ps_nrs s') m = Some (advance' (prm_of c m) (if existsb (is_pred m) evs then fired_at (prm_of c m) x else x) t (hits_of m evs)).
Proof.
  intros HE E m x Hx. unfold process_batch in E. destruct (rfold (step_spike c) evs s) as [s1|] eqn:E1; cbn [rbind] in E; [|discriminate].
  eapply hits_nrs; eauto. eapply spikes_nrs; eauto.
Qed.
End Batch.

(** ** a run of the whole network *)
(** hits of neuron n's timetable as (time, event payload) *)
Definition flat (n : nat) (tl : list (R * list (syntype * R))) : list (R * upayload R) :=
  flat_map (fun g => map (fun h => (fst g, Hit n (fst h) (snd h))) (snd g)) tl.
(** hits caused by the spikes F of neuron n *)
Definition sent (w : world R) (n : nat) (F : list R) : list (R * upayload R) := flat_map (fun t => hits_from t (out_syn w n)) F.
Lemma rmin_exists (l : list R) : l <> [] -> exists m, In m l /\ forall x, In x l -> m <= x.
Proof.
  induction l as [|a l IH]; [congruence|]. intros _. destruct l as [|b l].
  - exists a. split; [left; auto|]. intros x [<-|[]]. lra.
  - destruct IH as (m & Hm & Hl); [discriminate|]. destruct (Rle_lt_dec a m).
    + exists a. split; [left; auto|]. intros x [<-|Hx]; [lra|]. apply Hl in Hx. lra.
    + exists m. split; [right; auto|]. intros x [<-|Hx]; [lra|]. auto.
Qed.
Definition att (t : R) (q : R * upayload R) : bool := if Req_EM_T (fst q) t then true else false.
Definition tgt (n : nat) (q : R * upayload R) : bool := match snd q with Hit m _ _ => (m =? n)%nat | Pred _ => false end.
Definition mk (n : nat) (t : R) (h : syntype * R) : R * upayload R := (t, Hit n (fst h) (snd h)).
Lemma flat_map_ext_in {A B} (f g : A -> list B) l : (forall x, In x l -> f x = g x) -> flat_map f l = flat_map g l.
Proof. induction l as [|a l IH]; cbn [flat_map]; intros H; auto. rewrite (H a) by (left; auto). f_equal. apply IH. intros x Hx. apply H. right; auto. Qed.
Lemma flt_all {A} (f : A -> bool) l : (forall x, In x l -> f x = true) -> filter f l = l.
Proof. induction l as [|a l IH]; cbn; auto. intros H. rewrite (H a) by auto. f_equal. apply IH. auto. Qed.
Lemma flt_none {A} (f : A -> bool) l : (forall x, In x l -> f x = false) -> filter f l = [].
Proof. induction l as [|a l IH]; cbn; auto. intros H. rewrite (H a) by auto. apply IH. auto. Qed.
Lemma flt_flat_map {A B} (P : B -> bool) (f : A -> list B) l : filter P (flat_map f l) = flat_map (fun x => filter P (f x)) l.
Proof. induction l as [|a l IH]; cbn [flat_map]; auto. rewrite filter_app, IH. reflexivity. Qed.
Lemma flat_in_ n tl q : In q (flat n tl) -> exists g, In g tl /\ fst q = fst g /\ tgt n q = true.
Proof.
  unfold flat. rewrite in_flat_map. intros (g & Hg & Hq). apply in_map_iff in Hq. destruct Hq as (h & <- & Hh). exists g. split; auto.
  split; auto. unfold tgt. cbn. apply Nat.eqb_refl.
Qed.
Lemma later_split n tl t : (forall g, In g tl -> t < fst g) ->
  filter (att t) (flat n tl) = [] /\ filter (fun q => negb (att t q)) (flat n tl) = flat n tl.
Proof.
  intros H. split; [apply flt_none|apply flt_all]; intros q Hq; destruct (flat_in_ _ _ _ Hq) as (g & Hg & E & _); unfold att; rewrite E;
    destruct (Req_EM_T (fst g) t) as [E2|]; auto; specialize (H g Hg); lra.
Qed.
Definition rest1 (t : R) (tl : list (R * list (syntype * R))) : list (R * list (syntype * R)) :=
  match tl with g :: tl' => if Req_EM_T (fst g) t then tl' else tl | [] => [] end.
Lemma rest_split n tl t : StronglySorted (fun a b : R * list (syntype * R) => fst a < fst b) tl -> (forall g, In g tl -> t <= fst g) ->
  (exists hs, tl = (t, hs) :: rest1 t tl /\ filter (att t) (flat n tl) = map (mk n t) hs /\ filter (fun q => negb (att t q)) (flat n tl) = flat n (rest1 t tl)) \/
  (rest1 t tl = tl /\ filter (att t) (flat n tl) = [] /\ filter (fun q => negb (att t q)) (flat n tl) = flat n tl /\ forall g, In g tl -> t < fst g).
Proof.
  intros HS Hge. destruct tl as [|[t' hs] tl]; [right; cbn; split; auto; split; auto; split; auto; intros ? []|]. cbn [rest1 fst]. destruct (StronglySorted_inv HS) as [HS' HF].
  rewrite Forall_forall in HF. destruct (Req_EM_T t' t) as [->|Hne].
  - left. exists hs. split; auto. destruct (later_split n tl t) as [E1 E2]; [intros g Hg; apply (HF g Hg)|].
    unfold flat in *. cbn [flat_map fst snd]. rewrite !filter_app, E1, E2.
    rewrite (flt_all (att t)), (flt_none (fun q => negb (att t q))), app_nil_r.
    + split; auto.
    + intros q Hq. apply in_map_iff in Hq. destruct Hq as (h & <- & _). unfold att. cbn [fst]. destruct (Req_EM_T t t); auto; contradiction.
    + intros q Hq. apply in_map_iff in Hq. destruct Hq as (h & <- & _). unfold att. cbn [fst]. destruct (Req_EM_T t t); auto; contradiction.
  - right. split; auto.
    assert (HL : forall g, In g ((t', hs) :: tl) -> t < fst g).
    { intros g [<-|Hg]; [pose proof (Hge (t', hs) (or_introl eq_refl)); cbn [fst] in *; lra|]. specialize (HF g Hg). pose proof (Hge (t', hs) (or_introl eq_refl)). cbn [fst] in *. lra. }
    destruct (later_split n ((t', hs) :: tl) t HL). auto.
Qed.
Lemma filter_tgt (X : nat -> list (R * upayload R)) n : forall keys, (forall m q, In m keys -> In q (X m) -> tgt m q = true) -> NoDup keys -> In n keys ->
  filter (tgt n) (flat_map X keys) = X n.
Proof.
  assert (TG : forall m q, tgt m q = true -> tgt n q = (m =? n)%nat).
  { intros m q. unfold tgt. destruct (snd q); [|discriminate]. intros E. apply Nat.eqb_eq in E. subst. reflexivity. }
  induction keys as [|m keys IH]; intros HX HN Hin; [destruct Hin|]. inversion HN; subst. cbn [flat_map]. rewrite filter_app.
  destruct (Nat.eqb_spec m n) as [->|Hmn].
  - rewrite (flt_all _ (X n)), (flt_none _ (flat_map X keys)); [apply app_nil_r| |].
    + intros q Hq. apply in_flat_map in Hq. destruct Hq as (m & Hm & Hq). rewrite (TG m q (HX m q (or_intror Hm) Hq)).
      apply Nat.eqb_neq. intros ->. contradiction.
    + intros q Hq. apply (HX n q (or_introl eq_refl) Hq).
  - rewrite (flt_none _ (X m)).
    + cbn [app]. apply IH; auto. { intros; apply HX; auto. right; auto. } destruct Hin; [congruence|auto].
    + intros q Hq. rewrite (TG m q (HX m q (or_introl eq_refl) Hq)). apply Nat.eqb_neq. auto.
Qed.
Lemma hits_of_filter n t L : filter (fun q => tgt n q && att t q) (map ekey (filter (fun e => negb (is_spike e)) L)) = map (mk n t) (hits_of n (filter (same_time t) L)).
Proof.
  induction L as [|e L IH]; [reflexivity|]. cbn [filter]. unfold is_spike at 1.
  assert (ET : same_time t e = true <-> u_time e = t) by apply same_timeR.
  destruct (u_pl e) as [m ty w|m] eqn:He; cbn [negb].
  - cbn [map filter]. unfold tgt at 1, att at 1, ekey at 1 2. cbn [fst snd]. rewrite He. rewrite IH.
    destruct (same_time t e) eqn:Es.
    + destruct (Req_EM_T (u_time e) t) as [E|E]; [|exfalso; apply E, ET; auto].
      unfold hits_of. cbn [flat_map]. rewrite He. destruct (m =? n)%nat eqn:Em; cbn [andb app map]; auto.
      apply Nat.eqb_eq in Em. subst m. f_equal. unfold mk, ekey. cbn [fst snd]. rewrite He, E. reflexivity.
    + destruct (Req_EM_T (u_time e) t) as [E|E]; [apply ET in E; discriminate|]. rewrite andb_false_r. reflexivity.
  - rewrite IH. destruct (same_time t e); auto. unfold hits_of. cbn [flat_map]. rewrite He. reflexivity.
Qed.
Lemma log_one n t (b : bool) : forall l : list (nat * R), NoDup (map fst l) -> (forall p, In p l -> snd p = t) -> (b = true <-> In n (map fst l)) ->
  rev (map snd (filter (fun p => (fst p =? n)%nat) (rev l))) = if b then [t] else [].
Proof.
  intros l HN HT HB.
  assert (E : forall l : list (nat * R), rev (map snd (filter (fun p => (fst p =? n)%nat) (rev l))) = map snd (filter (fun p => (fst p =? n)%nat) l)).
  { clear. induction l as [|a l IH]; [auto|]. cbn [rev filter]. rewrite filter_app, map_app, rev_app_distr, IH. cbn [filter]. destruct (fst a =? n)%nat; auto. }
  rewrite E. clear E. revert b HB. induction l as [|[m t'] l IH]; intros b HB.
  - destruct b; auto. destruct (proj1 HB eq_refl).
  - cbn [map fst] in *. inversion HN as [|? ? HNi HN']; subst. cbn [filter fst]. destruct (Nat.eqb_spec m n) as [->|Hmn].
    + rewrite flt_none.
      * destruct b; [|discriminate (proj2 HB (or_introl eq_refl))]. cbn. f_equal. apply (HT (n, t')). left; auto.
      * intros p Hp. apply Nat.eqb_neq. intros E. apply HNi. rewrite <- E. apply in_map. auto.
    + apply IH; auto; [intros; apply HT; right; auto|]. rewrite HB. cbn [In]. intuition congruence.
Qed.
Section Run.
Variable c : pcfg R.
Hypothesis WF : pwf c.
Variable keys : list nat.
Hypothesis KND : NoDup keys.
Hypothesis KIN : forall n, In n keys <-> In n (pc_keys c).
Hypothesis VR : forall n, In n keys -> Vreset (prm_of c n) < Vt (prm_of c n).
Hypothesis DP : forall y, In y (w_syns (pc_world c)) -> 0 < s_delay y.
Let W := pc_world c.
Definition nrun (n : nat) := neuron_run (prm_of c n) (pc_dt c) (pc_max c).
Definition pnd (n : nat) := pend (prm_of c n) (pc_dt c) (pc_max c).
Lemma pnd_ge n x f : pnd n x = Some f -> pn_last x <= f.
Proof.
  unfold pnd, pend. destruct (prm_nz c WF n) as [Hm Hf].
  destruct (predict_sound (prm_of c n) (pn_st x) (pc_dt c) (pc_max c) Hm Hf (pw_max _ WF)) as (r & E & Hr). rewrite E.
  destruct r as [d|]; [|discriminate]. intros E2. injection E2 as <-. destruct (Hr d eq_refl) as (k & Hk & -> & _).
  assert (0 <= IZR k * pc_dt c) by (apply Rmult_le_pos; [apply IZR_le; lia|left; apply (pw_dt _ WF)]). lra.
Qed.
Lemma pnd_reset n x : In n keys -> pnd n (fired_at (prm_of c n) x) = None.
Proof.
  intros Hn. unfold pnd, pend. destruct (prm_nz c WF n) as [Hm Hf].
  destruct (predict_sound (prm_of c n) (pn_st (fired_at (prm_of c n) x)) (pc_dt c) (pc_max c) Hm Hf (pw_max _ WF)) as (r & E & Hr). rewrite E.
  destruct r as [d|]; auto. exfalso. destruct (Hr d eq_refl) as (k & Hk & _ & HV). specialize (VR n Hn).
  cbn [fired_at pn_st reset V ge gf gate] in HV. unfold traj in HV. cbn [reset V ge gf gate nzero nofZ R_num] in HV. unfold Rdiv in HV.
  rewrite ?Rmult_0_l, ?Rplus_0_r in HV. lra.
Qed.
Lemma pnd_ok n x d : predict_spike (prm_of c n) (pn_st x) (pc_dt c) (pc_max c) = Ok (Some d) -> pnd n x = Some (pn_last x + d).
Proof. unfold pnd, pend. intros ->. reflexivity. Qed.
Lemma pnd_no n x : predict_spike (prm_of c n) (pn_st x) (pc_dt c) (pc_max c) = Ok None -> pnd n x = None.
Proof. unfold pnd, pend. intros ->. reflexivity. Qed.
Lemma pnd_st n x y : pn_st x = pn_st y -> pnd n y = None -> pnd n x = None.
Proof. unfold pnd, pend. intros ->. destruct (predict_spike _ _ _ _) as [[d|]|]; auto. discriminate. Qed.
Lemma pnd_event s L now n x f : J c s L [] now -> In n keys -> nth_error (ps_nrs s) n = Some x ->
  (pnd n x = Some f <-> exists e, In e L /\ u_pl e = Pred n /\ u_time e = f).
Proof.
  intros HJ Hn Hx. split.
  - intros E. destruct (nth_error (ps_poss s) n) as [[e|]|] eqn:Ep.
    + exists e. destruct (j_pred _ _ _ _ _ HJ n x e Hx Ep) as (d & E1 & E2). apply pnd_ok in E1.
      apply (j_poss _ _ _ _ _ HJ) in Ep. rewrite app_nil_r in Ep. destruct Ep as [Hi Hp]. split; auto. split; auto. congruence.
    + exfalso. destruct (j_none _ _ _ _ _ HJ n x Hx Ep) as [E1|E1].
      * assert (E2 : pnd n x = None) by (apply (pnd_st n x (fired_at (prm_of c n) x)); [exact E1|apply pnd_reset; auto]). congruence.
      * apply pnd_no in E1. congruence.
    + exfalso. apply nth_error_None in Ep. rewrite (j_len2 _ _ _ _ _ HJ) in Ep. pose proof (pw_keys _ WF n (proj1 (KIN n) Hn)). lia.
  - intros (e & He & Hp & Ht).
    assert (Ep : nth_error (ps_poss s) n = Some (Some e)) by (apply (j_poss _ _ _ _ _ HJ); rewrite app_nil_r; auto).
    destruct (j_pred _ _ _ _ _ HJ n x e Hx Ep) as (d & E1 & E2). apply pnd_ok in E1. congruence.
Qed.
Lemma run_ge n x tl F : In n keys -> nrun n x tl F -> forall f, In f F -> pnd n x = Some f \/ exists g, In g tl /\ fst g <= f.
Proof.
  intros Hn H. induction H as [x E|x t tl F E Hle H IH|x t hs tl F E H IH]; intros f Hf.
  - destruct Hf.
  - destruct Hf as [<-|Hf]; [left; exact E|]. destruct (IH f Hf) as [E2|E2]; [|right; exact E2].
    rewrite pnd_reset in E2 by exact Hn. discriminate.
  - destruct (IH f Hf) as [E2|(g & Hg & Hgf)].
    + right. exists (t, hs). split; [left; auto|]. apply pnd_ge in E2. exact E2.
    + right. exists g. split; auto. right; auto.
Qed.

(** the state of a run: each neuron has [rest n] still to receive and will spike at [fut n] *)
Record K (s : psim R) (L : list (uevent R)) (now : R) (rest : nat -> list (R * list (syntype * R))) (fut : nat -> list R) : Prop := {
  k_J : J c s L [] now;
  k_run : forall n, In n keys -> exists x, nth_error (ps_nrs s) n = Some x /\ nrun n x (rest n) (fut n);
  k_inc : forall n, In n keys -> StronglySorted (fun a b => fst a < fst b) (rest n);
  k_ne : forall n g, In n keys -> In g (rest n) -> snd g <> [];
  k_perm : Permutation (flat_map (fun n => flat n (rest n)) keys)
                       (map ekey (filter (fun e => negb (is_spike e)) L) ++ flat_map (fun n => sent W n (fut n)) keys)
}.
Lemma in_flat n tl q : In q (flat n tl) <-> exists g h, In g tl /\ In h (snd g) /\ q = (fst g, Hit n (fst h) (snd h)).
Proof.
  unfold flat. rewrite in_flat_map. split.
  - intros (g & Hg & Hq). apply in_map_iff in Hq. destruct Hq as (h & <- & Hh). eauto 6.
  - intros (g & h & Hg & Hh & ->). exists g. split; auto. apply in_map_iff. eauto.
Qed.
Lemma in_sent n F q : In q (sent W n F) -> exists t y, In t F /\ In y (w_syns W) /\ fst q = t + s_delay y.
Proof.
  unfold sent. rewrite in_flat_map. intros (t & Ht & Hq). unfold hits_from in Hq. apply in_map_iff in Hq. destruct Hq as (y & <- & Hy).
  exists t, y. split; auto. split; auto. apply (out_incl c n) in Hy. exact Hy.
Qed.
Section Bounds.
Variables (s : psim R) (L : list (uevent R)) (now : R) (rest : nat -> list (R * list (syntype * R))) (fut : nat -> list R).
Hypothesis HK : K s L now rest fut.
Lemma rest_src n g : In n keys -> In g (rest n) ->
  (exists e, In e L /\ u_time e = fst g) \/ (exists m f, In m keys /\ In f (fut m) /\ f < fst g).
Proof.
  intros Hn Hg. destruct (snd g) as [|h hs] eqn:Eh; [destruct (k_ne _ _ _ _ _ HK n g Hn Hg Eh)|].
  assert (Hq : In (fst g, Hit n (fst h) (snd h)) (flat_map (fun n => flat n (rest n)) keys)).
  { apply in_flat_map. exists n. split; auto. apply in_flat. exists g, h. rewrite Eh. split; auto. split; [left|]; auto. }
  apply (Permutation_in _ (k_perm _ _ _ _ _ HK)) in Hq. apply in_app_iff in Hq. destruct Hq as [Hq|Hq].
  - left. apply in_map_iff in Hq. destruct Hq as (e & E & He). apply filter_In in He. exists e. unfold ekey in E. injection E as E _. tauto.
  - right. apply in_flat_map in Hq. destruct Hq as (m & Hm & Hq). apply in_sent in Hq. destruct Hq as (f & y & Hf & Hy & E).
    exists m, f. cbn [fst] in E. pose proof (DP y Hy). split; auto. split; auto. lra.
Qed.
Variable t : R.
Hypothesis Ht : forall e, In e L -> t <= u_time e.
Lemma fut_ge n f : In n keys -> In f (fut n) -> t <= f.
Proof.
  intros Hn Hf. destruct (rmin_exists (flat_map fut keys)) as (m0 & Hm & Hmin).
  { intros E. assert (In f (flat_map fut keys)) by (apply in_flat_map; eauto). rewrite E in H. destruct H. }
  assert (Hle : m0 <= f) by (apply Hmin, in_flat_map; eauto).
  enough (t <= m0) by lra. apply in_flat_map in Hm. destruct Hm as (m & Hmk & Hm).
  destruct (k_run _ _ _ _ _ HK m Hmk) as (x & Hx & HR).
  destruct (run_ge m x _ _ Hmk HR m0 Hm) as [E|(g & Hg & Hgm)].
  - apply (pnd_event s L now m x m0 (k_J _ _ _ _ _ HK) Hmk Hx) in E. destruct E as (e & He & _ & <-). auto.
  - destruct (rest_src m g Hmk Hg) as [(e & He & E)|(m' & f' & Hm' & Hf' & Hlt)].
    + pose proof (Ht e He). lra.
    + exfalso. assert (m0 <= f') by (apply Hmin, in_flat_map; eauto). lra.
Qed.
Lemma rest_ge n g : In n keys -> In g (rest n) -> t <= fst g.
Proof.
  intros Hn Hg. destruct (rest_src n g Hn Hg) as [(e & He & E)|(m & f & Hm & Hf & Hlt)]; [rewrite <- E; auto|].
  pose proof (fut_ge m f Hm Hf). lra.
Qed.
End Bounds.

(** one turn of the loop *)
Lemma K_step s L now rest fut : K s L now rest fut -> L <> [] ->
  exists t q' s' L' rest' fut', let evs := filter (same_time t) L in
    cq_len (ps_q s) <> 0%nat /\ cq_pop (ps_q s) = Ok (evs, q') /\ process_batch c (set_q s q') evs = Ok s' /\ ps_fin s' = ps_fin s /\
    K s' L' t rest' fut' /\
    (forall n, In n keys -> exists l, pspike_log s' n = pspike_log s n ++ l /\ fut n = l ++ fut' n) /\
    (List.length (flat_map (fun n => flat n (rest' n)) keys) + List.length (flat_map fut' keys) <
     List.length (flat_map (fun n => flat n (rest n)) keys) + List.length (flat_map fut keys))%nat.
Proof.
  intros HK HL. pose proof (k_J _ _ _ _ _ HK) as HJ.
  destruct (J_step c WF s L now HJ HL) as (t & q' & s' & L' & HS). cbv zeta in HS.
  destruct HS as (Hlen & Epop & Eproc & Hne & Hnow & Hmin & HJ' & HP & HSp & _ & HF & _).
  set (evs := filter (same_time t) L) in *.
  set (fut' := fun n => if existsb (is_pred n) evs then tl (fut n) else fut n).
  exists t, q', s', L', (fun n => rest1 t (rest n)), fut'. cbv zeta. fold evs.
  pose proof (fut_ge s L now rest fut HK t Hmin) as FG. pose proof (rest_ge s L now rest fut HK t Hmin) as RG.
  assert (Hevs : forall e, In e evs -> In e L /\ u_time e = t).
  { intros e He. apply filter_In in He. destruct He as [He Et]. apply same_timeR in Et. auto. }
  assert (SG : forall q, In q (flat_map (fun n => sent W n (fut n)) keys) -> att t q = false).
  { intros q Hq. apply in_flat_map in Hq. destruct Hq as (m & Hm & Hq). apply in_sent in Hq. destruct Hq as (f & y & Hf & Hy & E).
    unfold att. destruct (Req_EM_T (fst q) t) as [E2|]; auto. pose proof (FG m f Hm Hf). pose proof (DP y Hy). lra. }
  (* A: the hits *)
  assert (PA : forall n, In n keys -> Permutation (filter (att t) (flat n (rest n))) (map (mk n t) (hits_of n evs))).
  { intros n Hn. pose proof (filter_perm (fun q => tgt n q && att t q) _ _ (k_perm _ _ _ _ _ HK)) as P.
    rewrite filter_app, hits_of_filter in P. rewrite (flt_none _ (flat_map (fun n => sent W n (fut n)) keys)), app_nil_r in P.
    - fold evs in P. rewrite <- P. rewrite <- filter_filter, flt_flat_map.
      rewrite (filter_tgt (fun m => filter (att t) (flat m (rest m))) n keys); auto.
      intros m q _ Hq. apply filter_In in Hq. destruct Hq as [Hq _]. apply flat_in_ in Hq. destruct Hq as (g & _ & _ & E). auto.
    - intros q Hq. rewrite (SG q Hq). apply andb_false_r. }
  assert (A : forall n, In n keys ->
    (exists hs, rest n = (t, hs) :: rest1 t (rest n) /\ Permutation hs (hits_of n evs) /\ hs <> []) \/
    (rest1 t (rest n) = rest n /\ hits_of n evs = [] /\ forall g, In g (rest n) -> t < fst g)).
  { intros n Hn. pose proof (PA n Hn) as P. destruct (rest_split n (rest n) t (k_inc _ _ _ _ _ HK n Hn) (fun g Hg => RG n g Hn Hg)) as [(hs & E1 & E2 & E3)|(E1 & E2 & E3 & E4)].
    - left. exists hs. split; auto. rewrite E2 in P. split.
      + apply (Permutation_map (fun q => match snd q with Hit _ ty w => (ty, w) | Pred _ => (SynV, 0) end)) in P.
        rewrite !map_map in P. cbn [mk snd] in P. assert (MI : forall l : list (syntype * R), map (fun x => (fst x, snd x)) l = l) by (intros l; erewrite map_ext; [apply map_id|]; intros []; reflexivity).
        rewrite !MI in P. exact P.
      + pose proof (k_ne _ _ _ _ _ HK n (t, hs) Hn) as NE. rewrite E1 in NE. apply NE. left; auto.
    - right. split; auto. split; auto. rewrite E2 in P. apply Permutation_nil in P. apply map_eq_nil in P. auto. }
  (* B: the spikes *)
  assert (SP : forall n x, In n keys -> nth_error (ps_nrs s) n = Some x -> (existsb (is_pred n) evs = true <-> pnd n x = Some t)).
  { intros n x Hn Hx. rewrite (pnd_event s L now n x t HJ Hn Hx), existsb_exists. split.
    - intros (e & He & Hp). exists e. destruct (Hevs e He) as [H1 H2]. split; auto. split; auto. unfold is_pred in Hp.
      destruct (u_pl e); [discriminate|]. apply Nat.eqb_eq in Hp. congruence.
    - intros (e & He & Hp & Et). exists e. split; [apply filter_In; split; auto; apply same_timeR; auto|]. unfold is_pred. rewrite Hp. apply Nat.eqb_refl. }
  assert (Bf : forall n x, In n keys -> nth_error (ps_nrs s) n = Some x ->
    let x1 := if existsb (is_pred n) evs then fired_at (prm_of c n) x else x in
    nrun n x1 (rest n) (fut' n) /\ fut n = (if existsb (is_pred n) evs then [t] else []) ++ fut' n /\ (forall f, pnd n x1 = Some f -> t < f)).
  { intros n x Hn Hx. destruct (k_run _ _ _ _ _ HK n Hn) as (x0 & Hx0 & HR). rewrite Hx in Hx0. injection Hx0 as <-.
    pose proof (SP n x Hn Hx) as S1. cbv zeta. unfold fut'. destruct (existsb (is_pred n) evs).
    - pose proof (proj1 S1 eq_refl) as E. inversion HR as [x0 E0 Ex Er Ef|x0 t0 tl F E0 Hle HR' Ex Er Ef|x0 t0 hs tl F E0 HR' Ex Er Ef]; subst.
      + unfold pnd in E. congruence.
      + unfold pnd in E. rewrite E in E0. injection E0 as <-. cbn [tl app]. split; [exact HR'|]. split; auto.
        intros f Ef2. rewrite pnd_reset in Ef2 by auto. discriminate.
      + exfalso. specialize (E0 t E). assert (t <= fst (t0, hs)).
        { specialize (RG n (t0, hs)). rewrite <- Er in RG. apply RG; auto. left; auto. }
        cbn [fst] in *. lra.
    - cbn [app]. split; auto. split; auto. intros f Ef.
      pose proof Ef as Ef2. apply (pnd_event s L now n x f HJ Hn Hx) in Ef2. destruct Ef2 as (e & He & _ & Et).
      pose proof (Hmin e He). destruct (Req_dec f t) as [->|]; [|lra]. exfalso. apply S1 in Ef. discriminate. }
  assert (HEV : forall e, In e evs -> u_time e = t /\ event_ok c e).
  { intros e He. destruct (Hevs e He). split; auto. apply (j_ok _ _ _ _ _ HJ). rewrite app_nil_r. auto. }
  assert (FUT : forall n, In n keys -> fut n = (if existsb (is_pred n) evs then [t] else []) ++ fut' n).
  { intros n Hn. destruct (k_run _ _ _ _ _ HK n Hn) as (x & Hx & _). apply (Bf n x Hn Hx). }
  (* the permutation *)
  assert (SPLIT : Permutation (flat_map (fun n => flat n (rest n)) keys)
     (map ekey (filter (fun e => negb (is_spike e)) evs) ++ flat_map (fun n => flat n (rest1 t (rest n))) keys)).
  { eapply perm_trans; [apply (PredProofs.perm_split (att t))|]. apply Permutation_app.
    - rewrite (filter_perm (att t) _ _ (k_perm _ _ _ _ _ HK)), filter_app. rewrite (flt_none _ (flat_map (fun n => sent W n (fut n)) keys)), app_nil_r by auto.
      unfold evs. clear. induction L as [|e L IH]; [reflexivity|]. cbn [filter].
      assert (ET : same_time t e = true <-> u_time e = t) by apply same_timeR.
      destruct (same_time t e) eqn:Es; cbn [filter]; destruct (is_spike e) eqn:Ei; cbn [negb]; auto; cbn [map filter]; unfold att at 1, ekey at 1; cbn [fst].
      + destruct (Req_EM_T (u_time e) t) as [E|E]; [apply perm_skip; exact IH|exfalso; apply E, ET; auto].
      + destruct (Req_EM_T (u_time e) t) as [E|E]; [apply ET in E; discriminate|exact IH].
    - rewrite flt_flat_map. apply Permutation_refl'. apply flat_map_ext_in. intros n Hn.
      destruct (rest_split n (rest n) t (k_inc _ _ _ _ _ HK n Hn) (fun g Hg => RG n g Hn Hg)) as [(hs & E1 & E2 & E3)|(E1 & E2 & E3 & E4)]; auto. rewrite E1. auto. }
  assert (KEYF : Permutation (filter (fun n => existsb (is_pred n) evs) keys) (map fst (fired evs))).
  { apply NoDup_Permutation.
    - apply NoDup_filter. auto.
    - unfold evs, fired. pose proof (j_ids _ _ _ _ _ HJ) as HN. rewrite app_nil_r in HN.
      assert (HU : forall e1 e2 n, In e1 L -> In e2 L -> u_pl e1 = Pred n -> u_pl e2 = Pred n -> e1 = e2).
      { intros e1 e2 n H1 H2 P1 P2. assert (Q1 : nth_error (ps_poss s) n = Some (Some e1)) by (apply (j_poss _ _ _ _ _ HJ); rewrite app_nil_r; auto).
        assert (Q2 : nth_error (ps_poss s) n = Some (Some e2)) by (apply (j_poss _ _ _ _ _ HJ); rewrite app_nil_r; auto). congruence. }
      clear -HN HU. induction L as [|e L IH]; [constructor|]. cbn [map] in HN. inversion HN as [|a b HNi HN']; subst.
      assert (IH' := IH HN' (fun e1 e2 n H1 H2 => HU e1 e2 n (or_intror H1) (or_intror H2))). cbn [filter]. destruct (same_time t e); auto.
      cbn [flat_map]. destruct (u_pl e) as [m ty w|m] eqn:He; [exact IH'|]. cbn [app map fst]. constructor; auto.
      intros Hin. apply in_map_iff in Hin. destruct Hin as ([m' t'] & E & Hin). cbn [fst] in E. subst m'.
      apply in_flat_map in Hin. destruct Hin as (e' & He' & Hin). apply filter_In in He'. destruct He' as [He' _].
      destruct (u_pl e') as [|m'] eqn:Ep; [destruct Hin|]. destruct Hin as [Hin|[]]. injection Hin as <- _.
      assert (e = e') by (apply (HU e e' m'); auto; [left; auto|right; auto]). subst e'. apply HNi. apply in_map. auto.
    - intros n. rewrite filter_In, in_map_iff. unfold fired. split.
      + intros [Hn Hp]. apply existsb_exists in Hp. destruct Hp as (e & He & Hp). unfold is_pred in Hp. destruct (u_pl e) as [|m] eqn:Ep; [discriminate|].
        apply Nat.eqb_eq in Hp. subst m. exists (n, u_time e). split; auto. apply in_flat_map. exists e. rewrite Ep. split; auto. left; auto.
      + intros ([m tt] & E & Hin). cbn [fst] in E. subst m. apply in_flat_map in Hin. destruct Hin as (e & He & Hin).
        destruct (u_pl e) as [|m] eqn:Ep; [destruct Hin|]. destruct Hin as [Hin|[]]. injection Hin as -> _. split.
        * destruct (HEV e He) as [_ Hok]. unfold event_ok in Hok. rewrite Ep in Hok. apply KIN. exact Hok.
        * apply existsb_exists. exists e. split; auto. unfold is_pred. rewrite Ep. apply Nat.eqb_refl. }
  assert (SENT : Permutation (flat_map (fun n => sent W n (fut n)) keys) (emitted c evs ++ flat_map (fun n => sent W n (fut' n)) keys)).
  { rewrite (flat_map_ext_in _ (fun n => (if existsb (is_pred n) evs then hits_from t (out_syn W n) else []) ++ sent W n (fut' n))).
    - assert (PZ : forall (f g : nat -> list (R * upayload R)) l, Permutation (flat_map (fun n => f n ++ g n) l) (flat_map f l ++ flat_map g l)).
      { clear. intros f g l. induction l as [|a l IH]; [auto|]. cbn [flat_map]. rewrite IH, <- !app_assoc. apply Permutation_app_head.
        rewrite !app_assoc. apply Permutation_app_tail. apply Permutation_app_comm. }
      rewrite PZ. apply Permutation_app_tail. 
      assert (E1 : forall l, flat_map (fun n => if existsb (is_pred n) evs then hits_from t (out_syn W n) else []) l = flat_map (fun n => hits_from t (out_syn W n)) (filter (fun n => existsb (is_pred n) evs) l)).
      { induction l as [|a l IH]; [auto|]. cbn [flat_map filter]. destruct (existsb (is_pred a) evs); cbn [flat_map]; rewrite IH; auto. }
      rewrite E1, (Permutation_flat_map _ KEYF). unfold emitted. apply Permutation_refl'.
      assert (E2 : forall l, (forall p, In p l -> snd p = t) -> flat_map (fun n => hits_from t (out_syn W n)) (map fst l) = flat_map (fun p => hits_from (snd p) (out_syn W (fst p))) l).
      { clear. induction l as [|a l IH]; [auto|]. intros H. cbn [flat_map map]. rewrite IH by (intros; apply H; right; auto). rewrite (H a) by (left; auto). auto. }
      apply E2. intros p Hp. unfold fired in Hp. apply in_flat_map in Hp. destruct Hp as (e & He & Hp). destruct (u_pl e); [destruct Hp|]. destruct Hp as [<-|[]]. cbn. apply Hevs; auto.
    - intros n Hn. rewrite (FUT n Hn) at 1. unfold sent. rewrite flat_map_app. f_equal. destruct (existsb (is_pred n) evs); cbn [flat_map]; rewrite ?app_nil_r; auto. }
  split; [exact Hlen|]. split; [exact Epop|]. split; [exact Eproc|]. split; [exact HF|]. split; [|split].
  2:{ intros n Hn. exists (if existsb (is_pred n) evs then [t] else []). split; [|apply FUT; auto].
      unfold pspike_log. rewrite HSp, filter_app, map_app, rev_app_distr. f_equal.
      assert (NDF : NoDup (map fst (fired evs))) by (apply (Permutation_NoDup KEYF), NoDup_filter; auto).
      assert (EX : existsb (is_pred n) evs = true <-> In n (map fst (fired evs))).
      { split; intros HH; [apply (Permutation_in _ KEYF), filter_In; auto|]. apply (Permutation_in _ (Permutation_sym KEYF)), filter_In in HH. tauto. }
      assert (ST : forall p, In p (fired evs) -> snd p = t).
      { intros p Hp. unfold fired in Hp. apply in_flat_map in Hp. destruct Hp as (e & He & Hp). destruct (u_pl e); [destruct Hp|]. destruct Hp as [<-|[]]. cbn. apply Hevs; auto. }
      apply log_one; auto. }
  - constructor.
    + exact HJ'.
    + intros n Hn. destruct (k_run _ _ _ _ _ HK n Hn) as (x & Hx & _). destruct (Bf n x Hn Hx) as (B1 & _ & B3).
      eexists. split; [apply (batch_nrs c WF t evs _ _ HEV Eproc n x); exact Hx|].
      set (x1 := if existsb (is_pred n) evs then fired_at (prm_of c n) x else x) in *.
      destruct (A n Hn) as [(hs & E1 & E2 & E3)|(E1 & E2 & E3)].
      * unfold advance'. destruct (hits_of n evs) as [|h hs'] eqn:Eh; [apply Permutation_sym, Permutation_nil in E2; congruence|].
        rewrite <- (advance_perm _ _ _ _ _ E2). rewrite E1 in B1. inversion B1 as [x0 E0 Ex Er Ef|x0 t0 tl0 F E0 Hle HR' Ex Er Ef|x0 t0 hs0 tl0 F E0 HR' Ex Er Ef]; subst.
        -- exfalso. specialize (B3 t0 E0). specialize (Hle (t, hs) (or_introl eq_refl)). cbn [fst] in Hle. lra.
        -- exact HR'.
      * rewrite E1, E2. exact B1.
    + intros n Hn. pose proof (k_inc _ _ _ _ _ HK n Hn) as HI. destruct (A n Hn) as [(hs & E1 & _)|(E1 & _)]; [|rewrite E1; auto].
      rewrite E1 in HI. inversion HI; auto.
    + intros n g Hn Hg. apply (k_ne _ _ _ _ _ HK n g Hn). destruct (A n Hn) as [(hs & E1 & _)|(E1 & _)]; [rewrite E1; right; auto|rewrite E1 in Hg; auto].
    + apply (Permutation_app_inv_l (map ekey (filter (fun e => negb (is_spike e)) evs))). rewrite <- SPLIT, (k_perm _ _ _ _ _ HK), SENT.
      rewrite filter_app, map_app in HP. rewrite !app_assoc. rewrite <- HP. reflexivity.
  - rewrite (Permutation_length SPLIT), app_length, map_length.
    assert (EF : List.length (flat_map fut keys) = (List.length (fired evs) + List.length (flat_map fut' keys))%nat).
    { rewrite <- (map_length fst (fired evs)), <- (Permutation_length KEYF). clear -FUT. revert FUT. generalize keys. clear. intros l.
      induction l as [|a l IH]; intros FUT; [auto|]. cbn [flat_map filter]. rewrite !app_length, (FUT a (or_introl eq_refl)), app_length, IH by (intros; apply FUT; right; auto).
      destruct (existsb (is_pred a) evs); cbn [List.length]; lia. }
    rewrite EF.
    assert (EN : (0 < List.length (filter (fun e => negb (is_spike e)) evs) + List.length (fired evs))%nat).
    { destruct evs as [|e l]; [congruence|]. cbn [filter fired flat_map]. unfold is_spike at 1. destruct (u_pl e); cbn [negb List.length app]; lia. }
    lia.
Qed.

Lemma K_end s now rest fut n : K s [] now rest fut -> In n keys -> fut n = [].
Proof.
  intros HK Hn. destruct (fut n) as [|f l] eqn:E; auto. exfalso.
  assert (f + 1 <= f); [|lra]. apply (fut_ge s [] now rest fut HK (f + 1) (fun e He => match He with end) n f Hn). rewrite E. left; auto.
Qed.
Definition total (rest : nat -> list (R * list (syntype * R))) (fut : nat -> list R) : nat :=
  (List.length (flat_map (fun n => flat n (rest n)) keys) + List.length (flat_map fut keys))%nat.
Lemma K_loop : forall fuel s L now rest fut, K s L now rest fut -> (total rest fut <= fuel)%nat ->
  exists s', ploop fuel c s = Some (Ok s') /\ ps_fin s' = ps_fin s /\ forall n, In n keys -> pspike_log s' n = pspike_log s n ++ fut n.
Proof.
  induction fuel as [|fuel IH]; intros s L now rest fut HK Hf.
  - destruct L as [|e L].
    + exists s. cbn [ploop]. unfold PredSim.pstep. rewrite (proj2 (qrel_len _ _ (j_q _ _ _ _ _ (k_J _ _ _ _ _ HK))) eq_refl). cbn [Nat.eqb].
      split; auto. split; auto. intros n Hn. rewrite (K_end _ _ _ _ n HK Hn), app_nil_r. auto.
    + destruct (K_step _ _ _ _ _ HK ltac:(discriminate)) as (t & q' & s' & L' & rest' & fut' & _ & _ & _ & _ & _ & _ & Hlt). unfold total in Hf. lia.
  - destruct L as [|e L].
    + exists s. cbn [ploop]. unfold PredSim.pstep. rewrite (proj2 (qrel_len _ _ (j_q _ _ _ _ _ (k_J _ _ _ _ _ HK))) eq_refl). cbn [Nat.eqb].
      split; auto. split; auto. intros n Hn. rewrite (K_end _ _ _ _ n HK Hn), app_nil_r. auto.
    + destruct (K_step _ _ _ _ _ HK ltac:(discriminate)) as (t & q' & s1 & L' & rest' & fut' & Hlen & Epop & Eproc & Efin & HK' & HLog & Hlt).
      destruct (IH s1 L' t rest' fut' HK') as (s' & E & Ef & HL'); [unfold total in *; lia|].
      exists s'. cbn [ploop]. unfold PredSim.pstep. apply Nat.eqb_neq in Hlen. rewrite Hlen, Epop. cbn [rbind]. rewrite Eproc. split; [exact E|].
      split; [congruence|]. intros n Hn. destruct (HLog n Hn) as (l & E1 & E2). rewrite (HL' n Hn), E1, E2, app_assoc. reflexivity.
Qed.
(** a network run: if every neuron, receiving the hits [hits n], spikes at [F n], and the hits are exactly the inputs and what the spikes send, then simulate() ends and the logs are F *)
Theorem pred_network ins s hits F :
  pinputs c ins s ->
  (forall n, In n keys -> nrun n {| pn_st := init_nstate (prm_of c n); pn_last := 0 |} (hits n) (F n)) ->
  (forall n, In n keys -> StronglySorted (fun a b => fst a < fst b) (hits n)) ->
  (forall n g, In n keys -> In g (hits n) -> snd g <> []) ->
  Permutation (flat_map (fun n => flat n (hits n)) keys) (map (input_hit c) ins ++ flat_map (fun n => sent W n (F n)) keys) ->
  exists N, forall fuel, (N <= fuel)%nat -> exists s', psimulate fuel c s = Some (Ok s') /\ forall n, In n keys -> pspike_log s' n = F n.
Proof.
  intros HI HR HS HN HP. destruct (pinputs_J c ins s WF HI) as (L & now & HJ & E1 & E2 & E3 & E4).
  assert (NRS : forall n nr, nth_error (w_neurons W) n = Some nr -> nth_error (ps_nrs s) n = Some {| pn_st := init_nstate (nr_params nr); pn_last := 0 |}).
  { clear -HI. induction HI as [|ins s n t s' HI IH Hn HE]; intros m nr Hm.
    - cbn [new_psim ps_nrs]. rewrite nth_error_map. fold W. rewrite Hm. reflexivity.
    - unfold p_input_spike in HE. destruct (nth_error _ n); [|discriminate]. injection HE as <-. cbn [enqueue fst ps_nrs]. auto. }
  assert (HK : K s L now hits F).
  { constructor; auto.
    - intros n Hn. destruct (nth_some (w_neurons W) n (pw_keys _ WF n (proj1 (KIN n) Hn))) as [nr Enr]. eexists. split; [apply (NRS n nr Enr)|].
      rewrite <- (prm_eq c n nr Enr). apply HR; auto.
    - rewrite HP. apply Permutation_app_tail. rewrite <- E1. apply Permutation_map.
      rewrite flt_all; auto. intros x Hx. apply (in_map ekey) in Hx. rewrite E1 in Hx. apply in_map_iff in Hx. destruct Hx as (y & E & _).
      unfold ekey, input_hit in E. injection E as _ E. unfold is_spike. rewrite <- E. auto. }
  exists (total hits F). intros fuel Hfuel. destruct (K_loop fuel s L now hits F HK Hfuel) as (s' & E & Ef & HLg).
  unfold psimulate. rewrite E4, E. eexists. split; [reflexivity|]. intros n Hn. unfold pspike_log. cbn [ps_spk]. 
  specialize (HLg n Hn). unfold pspike_log in HLg. rewrite HLg, E2. reflexivity.
Qed.
End Run.
