(** Bookkeeping of the predictive simulator (C36, C37, C38). *)
From Coq Require Import Arith ZArith Bool List Reals Lra Lia Permutation.
From Verif Require Import Num NumOrd Heapq Elements CancelQueue CancelQueueProofs PredSim PredNeuron Build.
Import ListNotations.
Open Scope list_scope.
Open Scope R_scope.

(** ** Reading a state *)
(** the events waiting in the queue *)
Definition pending (s : psim R) : list (uevent R) := flat_map snd (cq_map (ps_q s)).
Definition is_pred (n : nat) (e : uevent R) : bool := match u_pl e with Pred m => (m =? n)%nat | Hit _ _ _ => false end.
Definition is_spike (e : uevent R) : bool := match u_pl e with Pred _ => true | Hit _ _ _ => false end.
Definition is_hit_of (ty : syntype) (e : uevent R) : bool :=
  match u_pl e with Hit _ ty' _ => syntype_eqb ty' ty | Pred _ => false end.

(** ** The queue over the reals *)
Definition qrel (q : cqueue R) (p : list (uevent R)) : Prop := exists ts, rel (fun _ => True) q p ts.
Lemma qrel_empty : qrel cq_empty [].
Proof. exists []. apply (rel_empty (T:=R)). Qed.
Lemma qrel_add q p e : qrel q p -> qrel (cq_add q e) (p ++ [e]).
Proof.
  intros [ts HR]. destruct (rel_add (fun _ => True) R_ord q p ts e HR I) as ([p' ts'] & HS & HR').
  cbn [fst snd] in HR'. inversion HS; subst; eexists; eassumption.
Qed.
Lemma qrel_remove q p e : qrel q p -> qrel (cq_remove q e) (remove_live p e).
Proof.
  intros [ts HR]. destruct (rel_remove (fun _ => True) R_ord q p ts e HR I) as ([p' ts'] & HS & HR').
  cbn [fst snd] in HR'. inversion HS; subst; eexists; eassumption.
Qed.
Lemma same_timeR t e : same_time (T:=R) t e = true <-> u_time e = t.
Proof. unfold same_time. cbn [neqb R_num]. rewrite Reqb_true. split; auto. Qed.
Lemma qrel_len q p : qrel q p -> cq_len q = 0%nat <-> p = [].
Proof.
  intros [ts HR]. pose proof (rel_len (fun _ => True) R_ord q p ts HR) as HS.
  assert (G : exists l, cq_len q = length l /\ (forall e, In e p -> existsb (fun t => same_time t e) l = true) /\
     (forall t, In t l -> existsb (same_time t) p = true)).
  { inversion HS. eauto. }
  destruct G as (l & -> & H1 & H2). split; intros E.
  - destruct l; [|discriminate]. destruct p as [|e p]; auto. specialize (H1 e (or_introl eq_refl)). discriminate.
  - subst p. destruct l as [|t l]; auto. specialize (H2 t (or_introl eq_refl)). discriminate.
Qed.
Lemma qrel_pop q p : qrel q p -> p <> [] ->
  exists t q', cq_pop q = Ok (filter (same_time t) p, q') /\ filter (same_time t) p <> [] /\
    (forall e, In e p -> t <= u_time e) /\ qrel q' (filter (fun e => negb (same_time t e)) p).
Proof.
  intros [ts HR] HP.
  assert (Hh : cq_heap q <> []).
  { intros E. destruct HR as [_ _ _ HPm _ _ _ HC]. rewrite E in HPm. apply Permutation_nil in HPm.
    destruct p as [|e p]; [congruence|]. destruct (HC e (or_introl eq_refl)) as (k & Hk & _). rewrite HPm in Hk. destruct Hk. }
  destruct (pop_loop_rel (fun _ => True) R_ord (length (cq_heap q)) q p ts HR ltac:(lia) Hh) as (out & q' & p' & ts' & E & HS & HR').
  inversion HS as [| | | |ts0 Hts|p0 ts0 t Ht HF HM|]; subst; [congruence|].
  exists t, q'. split; [unfold cq_pop; destruct (cq_heap q); [congruence|exact E]|]. split; auto. split; [|eexists; eassumption].
  intros e He. apply HM in He. cbn [nltb R_num] in He. apply Rltb_false in He. exact He.
Qed.
Lemma qrel_pending q p e : qrel q p -> (In e (flat_map snd (cq_map q)) <-> In e p).
Proof.
  intros [ts HR]. destruct HR as [_ _ _ _ _ HD HV HC]. rewrite in_flat_map. split.
  - intros ([k l] & Hk & He). cbn [snd] in He. rewrite (HV k l Hk) in He. apply filter_In in He. tauto.
  - intros He. destruct (HC e He) as (k & Hk & Ek). unfold keys in Hk. apply in_map_iff in Hk. destruct Hk as ((k' & l) & E1 & Hk).
    cbn [fst] in E1. subst k'. exists (k, l). split; auto. cbn [snd]. rewrite (HV k l Hk). apply filter_In. split; auto.
Qed.
Lemma perm_split {A} (f : A -> bool) l : Permutation l (filter f l ++ filter (fun x => negb (f x)) l).
Proof.
  induction l as [|a l IH]; cbn; auto. destruct (f a); cbn [negb]; cbn; [auto|].
  rewrite IH at 1. apply Permutation_middle.
Qed.
Lemma qrel_perm q p : qrel q p -> Permutation (flat_map snd (cq_map q)) p.
Proof.
  intros [ts HR]. destruct HR as [_ _ _ _ _ HD HV HC].
  revert p HD HV HC. induction (cq_map q) as [|[k l] m IH]; intros p HD HV HC.
  - cbn. destruct p as [|e p]; auto. destruct (HC e (or_introl eq_refl)) as (k & [] & _).
  - cbn [flat_map snd keys map fst] in *. rewrite (perm_split (same_time k) p).
    rewrite (HV k l (or_introl eq_refl)). apply Permutation_app_head. inversion HD as [|? ? HF HD']; subst.
    apply IH; auto.
    + intros k' l' Hk. rewrite (HV k' l' (or_intror Hk)).
      assert (Hne : k <> k').
      { intros ->. rewrite Forall_forall in HF. specialize (HF k' ltac:(apply (in_map fst) in Hk; exact Hk)).
        cbn [neqb R_num] in HF. rewrite Reqb_refl in HF. discriminate. }
      clear -Hne. induction p as [|e p IH]; auto. cbn [filter].
      destruct (same_time k' e) eqn:E1, (same_time k e) eqn:E2; cbn [negb filter]; rewrite ?E1; try congruence.
      apply same_timeR in E1, E2. congruence.
    + intros e He. apply filter_In in He. destruct He as [He Hn]. destruct (HC e He) as (k' & [E|Hk] & Ek); [|eauto].
      subst k'. unfold same_time in Hn. rewrite Ek in Hn. discriminate.
Qed.

(** ** removing *)
Lemma remove_live_in p (e x : uevent R) : NoDup (map u_id p) -> In e p ->
  (In x (remove_live p e) <-> In x p /\ u_id x <> u_id e).
Proof.
  induction p as [|a p IH]; intros HN He; [destruct He|]. cbn [remove_live map] in *. inversion HN as [|? ? Hni HN']; subst.
  destruct (same_time (u_time e) a && (u_id a =? u_id e)%nat) eqn:E.
  - apply andb_true_iff in E. destruct E as [_ E]. apply Nat.eqb_eq in E. split.
    + intros Hx. split; [right; auto|]. intros E2. apply Hni. rewrite E, <- E2. apply in_map; auto.
    + intros [[->|Hx] Hd]; auto. congruence.
  - destruct He as [->|He].
    + exfalso. rewrite Nat.eqb_refl in E. rewrite (proj2 (same_timeR (u_time e) e) eq_refl) in E. discriminate.
    + cbn [In]. rewrite (IH HN' He). split.
      * intros [->|[Hx Hd]]; [|tauto]. split; auto. intros E2. apply Hni. rewrite E2. apply in_map; auto.
      * tauto.
Qed.
Lemma remove_live_nodup p (e : uevent R) : NoDup (map u_id p) -> NoDup (map u_id (remove_live p e)).
Proof.
  induction p as [|a p IH]; intros HN; [constructor|]. cbn [remove_live map] in *. inversion HN as [|? ? Hni HN']; subst.
  destruct (same_time (u_time e) a && (u_id a =? u_id e)%nat); auto. cbn [map]. constructor; auto.
  intros Hx. apply Hni. apply in_map_iff in Hx. destruct Hx as (x & E & Hx). apply in_remove_live in Hx. rewrite <- E. apply in_map; auto.
Qed.
Lemma remove_live_hits p (e : uevent R) : is_spike e = true -> (forall x, In x p -> u_id x = u_id e -> x = e) ->
  filter (fun x => negb (is_spike x)) (remove_live p e) = filter (fun x => negb (is_spike x)) p.
Proof.
  intros Hs. induction p as [|a p IH]; intros HU; auto. cbn [remove_live].
  destruct (same_time (u_time e) a && (u_id a =? u_id e)%nat) eqn:E.
  - apply andb_true_iff in E. destruct E as [_ E]. apply Nat.eqb_eq in E. rewrite (HU a (or_introl eq_refl) E). cbn [filter].
    rewrite Hs. reflexivity.
  - cbn [filter]. rewrite IH by (intros; apply HU; auto; right; auto). reflexivity.
Qed.

(** ** The invariant *)
Section Inv.
Variable c : pcfg R.
Let W := pc_world c.
(** networks whose simulation can be described without exceptions *)
Record pwf : Prop := {
  pw_prm : forall n nr, nth_error (w_neurons W) n = Some nr -> tm (nr_params nr) <> 0 /\ tf (nr_params nr) <> 0;
  pw_keys : forall n, In n (pc_keys c) -> (n < List.length (w_neurons W))%nat;
  pw_syn : forall y, In y (w_syns W) -> In (s_post y) (pc_keys c) /\ s_ty y <> SynOther /\ 0 <= s_delay y;
  pw_dt : 0 < pc_dt c;
  pw_max : (0 <= pc_max c < 2 ^ 64)%Z
}.
Hypothesis WF : pwf.

Definition prm_of (n : nat) : nparams R :=
  match nth_error (w_neurons W) n with Some nr => nr_params nr | None => {| Vt := 0; tm := 1; tf := 1; Vreset := 0 |} end.
Definition event_ok (e : uevent R) : Prop :=
  match u_pl e with Hit n ty _ => In n (pc_keys c) /\ ty <> SynOther | Pred n => In n (pc_keys c) end.

(** [L] live events; [B] predicted spikes popped but not yet processed *)
Record J (s : psim R) (L B : list (uevent R)) (now : R) : Prop := {
  j_q : qrel (ps_q s) L;
  j_ids : NoDup (map u_id (L ++ B));
  j_next : forall e, In e (L ++ B) -> (u_id e < ps_next s)%nat;
  j_ok : forall e, In e (L ++ B) -> event_ok e;
  j_len1 : List.length (ps_nrs s) = List.length (w_neurons W);
  j_len2 : List.length (ps_poss s) = List.length (w_neurons W);
  j_time : forall e, In e L -> now <= u_time e;
  j_B : forall e, In e B -> u_time e = now /\ is_spike e = true;
  j_poss : forall n e, nth_error (ps_poss s) n = Some (Some e) <-> (In e (L ++ B) /\ u_pl e = Pred n);
  j_pred : forall n x e, nth_error (ps_nrs s) n = Some x -> nth_error (ps_poss s) n = Some (Some e) ->
     exists d, predict_spike (prm_of n) (pn_st x) (pc_dt c) (pc_max c) = Ok (Some d) /\ u_time e = pn_last x + d;
  j_none : forall n x, nth_error (ps_nrs s) n = Some x -> nth_error (ps_poss s) n = Some None ->
     pn_st x = reset (prm_of n) \/ predict_spike (prm_of n) (pn_st x) (pc_dt c) (pc_max c) = Ok None;
  j_spk : forall n t, In (n, t) (ps_spk s) -> t <= now
}.

Lemma prm_eq n nr : nth_error (w_neurons W) n = Some nr -> prm_of n = nr_params nr.
Proof. unfold prm_of. intros ->. auto. Qed.
Lemma prm_nz n : tm (prm_of n) <> 0 /\ tf (prm_of n) <> 0.
Proof. unfold prm_of. destruct (nth_error (w_neurons W) n) eqn:E; [apply (pw_prm WF _ _ E)|cbn; lra]. Qed.

(** adding an event *)
Lemma J_enqueue s L B now t pl : J s L B now -> now <= t ->
  match pl with Hit n ty _ => In n (pc_keys c) /\ ty <> SynOther | Pred _ => False end ->
  J (fst (enqueue s t pl)) (L ++ [snd (enqueue s t pl)]) B now.
Proof.
  intros [] Ht Hpl. cbn [enqueue fst snd]. set (e := {| u_id := ps_next s; u_time := t; u_pl := pl |}).
  assert (Hin : forall x, In x ((L ++ [e]) ++ B) <-> x = e \/ In x (L ++ B)).
  { intros x. rewrite !in_app_iff. cbn [In]. intuition. }
  constructor; cbn [ps_q ps_next ps_nrs ps_poss ps_spk]; auto.
  - apply qrel_add; auto.
  - rewrite <- app_assoc, !map_app. cbn [map]. eapply Permutation_NoDup; [apply Permutation_middle|].
    cbn [app]. rewrite <- map_app. constructor; auto. intros Hx. apply in_map_iff in Hx. destruct Hx as (x & E & Hx).
    apply j_next0 in Hx. cbn [u_id e] in E. lia.
  - intros x Hx. apply Hin in Hx. destruct Hx as [->|Hx]; [cbn; lia|]. apply j_next0 in Hx. lia.
  - intros x Hx. apply Hin in Hx. destruct Hx as [->|Hx]; auto. unfold event_ok. cbn [u_pl e]. destruct pl; auto. destruct Hpl.
  - intros x Hx. apply in_app_iff in Hx. destruct Hx as [Hx|[<-|[]]]; auto.
  - intros n x. rewrite j_poss0, Hin. split; [tauto|]. intros [[->|Hx] Hp]; auto. exfalso. cbn [u_pl e] in Hp. subst pl. exact Hpl.
Qed.
Definition hits_from (t : R) (ys : list (synapse R)) : list (R * upayload R) :=
  map (fun y => (t + s_delay y, Hit (s_post y) (s_ty y) (s_w y))) ys.
Definition ekey (e : uevent R) : R * upayload R := (u_time e, u_pl e).
Lemma J_propagate t B now : forall ys s L, J s L B now -> now <= t -> incl ys (w_syns W) ->
  exists L', let s' := fold_left (fun s y => fst (enqueue s (nadd t (s_delay y)) (Hit (s_post y) (s_ty y) (s_w y)))) ys s in
     J s' (L ++ L') B now /\ map ekey L' = hits_from t ys /\
     ps_nrs s' = ps_nrs s /\ ps_poss s' = ps_poss s /\ ps_spk s' = ps_spk s /\ ps_cnt s' = ps_cnt s /\ ps_fin s' = ps_fin s.
Proof.
  induction ys as [|y ys IH]; intros s L HJ Ht Hi; cbn [fold_left].
  - exists []. rewrite app_nil_r. split; [exact HJ|]; auto 10.
  - assert (Hy : In y (w_syns W)) by (apply Hi; left; auto). destruct (pw_syn WF y Hy) as (K1 & K2 & K3).
    pose proof (J_enqueue s L B now (t + s_delay y) (Hit (s_post y) (s_ty y) (s_w y)) HJ ltac:(lra) (conj K1 K2)) as HJ'.
    destruct (IH _ _ HJ' Ht) as (L' & HJ2 & E & E1 & E2 & E3 & E4 & E5); [intros z Hz; apply Hi; right; auto|].
    cbn [nadd R_num]. eexists. split; [rewrite app_assoc; exact HJ2|]. split; [|auto].
    cbn [map app]. rewrite E. reflexivity.
Qed.

Lemma out_incl n : incl (out_syn W n) (w_syns W).
Proof. intros y Hy. apply filter_In in Hy. tauto. Qed.
Lemma in_keys_true n : In n (pc_keys c) -> in_keys c n = true.
Proof. intros Hn. unfold in_keys. apply existsb_exists. exists n. split; auto. apply Nat.eqb_refl. Qed.
Lemma nth_some {A} (l : list A) n : (n < List.length l)%nat -> exists x, nth_error l n = Some x.
Proof. intros Hl. destruct (nth_error l n) eqn:E; eauto. apply nth_error_None in E. lia. Qed.

(** a predicted spike *)
Lemma J_spike s L B now e n : J s L (e :: B) now -> u_pl e = Pred n ->
  exists s' L', do_spike c s (u_time e) n = Ok s' /\ J s' (L ++ L') B now /\ map ekey L' = hits_from (u_time e) (out_syn W n) /\
    ps_spk s' = (n, u_time e) :: ps_spk s /\ ps_cnt s' = ps_cnt s /\ ps_fin s' = ps_fin s.
Proof.
  intros HJ He. assert (HeB : In e (L ++ e :: B)) by (apply in_app_iff; right; left; auto).
  pose proof (j_ok _ _ _ _ HJ e HeB) as Hk. unfold event_ok in Hk. rewrite He in Hk.
  pose proof (pw_keys WF n Hk) as Hlt.
  destruct (nth_some (ps_nrs s) n) as [x Ex]; [rewrite (j_len1 _ _ _ _ HJ); auto|].
  destruct (nth_some (w_neurons W) n Hlt) as [nr Enr].
  unfold do_spike. rewrite Ex. fold W. rewrite Enr. rewrite (in_keys_true n Hk).
  set (s1 := set_nr s n _).
  (* intermediate invariant after reset and clearing the slot *)
  assert (Hnow : u_time e = now) by (apply (j_B _ _ _ _ HJ e); left; auto).
  assert (Hu : forall y, In y (L ++ B) -> u_id y <> u_id e).
  { intros y Hy E. pose proof (j_ids _ _ _ _ HJ) as HN. rewrite map_app in HN. cbn [map] in HN.
    apply NoDup_remove_2 in HN. apply HN. rewrite <- map_app, <- E. apply in_map; auto. }
  assert (HJ1 : J (set_poss s1 n None) L B now).
  { destruct HJ. constructor; cbn [set_poss set_nr s1 ps_q ps_next ps_nrs ps_poss ps_spk]; auto.
    - rewrite map_app in *. cbn [map] in j_ids0. apply NoDup_remove_1 in j_ids0. auto.
    - intros y Hy. apply j_next0. rewrite in_app_iff in *. cbn [In]. tauto.
    - intros y Hy. apply j_ok0. rewrite in_app_iff in *. cbn [In]. tauto.
    - rewrite lset_len; auto.
    - rewrite lset_len; auto.
    - intros y Hy. apply j_B0. right; auto.
    - intros m y. rewrite nth_error_lset. destruct (Nat.eqb_spec m n) as [->|Hmn].
      + split; [destruct (n <? _)%nat; discriminate|]. intros [Hy Hp]. exfalso.
        assert (E1 : nth_error (ps_poss s) n = Some (Some y)) by (apply j_poss0; split; auto; rewrite in_app_iff in *; cbn [In]; tauto).
        assert (E2 : nth_error (ps_poss s) n = Some (Some e)) by (apply j_poss0; split; auto).
        rewrite E1 in E2. injection E2 as ->. apply (Hu e Hy); auto.
      + rewrite j_poss0, !in_app_iff. cbn [In]. split; [|tauto]. intros [[Hy|[<-|Hy]] Hp]; [tauto| |tauto]. rewrite He in Hp. congruence.
    - intros m y e0. rewrite !nth_error_lset. destruct (Nat.eqb_spec m n) as [->|Hmn]; [|apply j_pred0].
      destruct (n <? List.length (ps_poss s))%nat; discriminate.
    - intros m y. rewrite !nth_error_lset. destruct (Nat.eqb_spec m n) as [->|Hmn]; [|apply j_none0].
      intros E _. left. destruct (n <? List.length (ps_nrs s))%nat; [|discriminate]. injection E as <-. cbn [pn_st].
      rewrite (prm_eq n nr Enr). reflexivity. }
  destruct (J_propagate (u_time e) B now (out_syn W n) _ _ HJ1 ltac:(lra) (out_incl n)) as (L' & HJ2 & E1 & E2 & E3 & E4 & E5 & E6).
  cbn [propagate].
  assert (EP : forall ys s0, fold_left (fun s y => fst (enqueue s (nadd (u_time e) (s_delay y)) (Hit (s_post y) (s_ty y) (s_w y)))) ys (set_poss s0 n None)
     = set_poss (fold_left (fun s y => fst (enqueue s (nadd (u_time e) (s_delay y)) (Hit (s_post y) (s_ty y) (s_w y)))) ys s0) n None).
  { induction ys as [|y ys IH]; intros s0; cbn [fold_left]; auto. rewrite <- IH. reflexivity. }
  rewrite EP in *. unfold propagate. fold W. eexists. exists L'. split; [reflexivity|]. split.
  - destruct HJ2. constructor; cbn [ps_q ps_next ps_nrs ps_poss ps_spk]; auto.
    intros m t [E|Hin]; [injection E as <- <-; lra|]. eapply j_spk0; eauto.
  - split; auto. cbn [ps_spk ps_cnt ps_fin set_poss] in *. rewrite E4, E5, E6. auto.
Qed.

(** a synaptic hit *)
Lemma receive_pred_ok n x ty w t : ty <> SynOther ->
  exists x', receive_pred (prm_of n) x ty w t = Ok x' /\ pn_last x' = t.
Proof.
  intros Hty. destruct (prm_nz n) as [H1 H2]. unfold receive_pred. cbn [neqb R_num]. unfold Reqb.
  destruct (Req_EM_T t (pn_last x)) as [->|Hne]; cbn [negb rbind].
  - destruct ty; try congruence; cbn [receive_synaptic_event rbind]; eexists; split; reflexivity.
  - rewrite ff_eq by auto. cbn [rbind]. destruct ty; try congruence; cbn [receive_synaptic_event rbind]; eexists; split; reflexivity.
Qed.
Lemma J_hit s L now e n ty w : J s L [] now -> u_pl e = Hit n ty w -> u_time e = now -> event_ok e ->
  exists s' L', do_hit c s (u_time e) n ty w = Ok s' /\ J s' L' [] now /\
    filter (fun x => negb (is_spike x)) L' = filter (fun x => negb (is_spike x)) L /\
    ps_spk s' = ps_spk s /\ ps_cnt s' = pcount (ps_cnt s) ty /\ ps_fin s' = ps_fin s /\
    exists x', ps_nrs s' = lset (ps_nrs s) n x' /\ pn_last x' = now.
Proof.
  intros HJ He Hnow Hok. unfold event_ok in Hok. rewrite He in Hok. destruct Hok as [Hk Hty].
  pose proof (pw_keys WF n Hk) as Hlt.
  destruct (nth_some (ps_nrs s) n) as [x Ex]; [rewrite (j_len1 _ _ _ _ HJ); auto|].
  destruct (nth_some (ps_poss s) n) as [po Epo]; [rewrite (j_len2 _ _ _ _ HJ); auto|].
  destruct (nth_some (w_neurons W) n Hlt) as [nr Enr].
  unfold do_hit. rewrite (in_keys_true n Hk), Ex, Epo. fold W. rewrite Enr. cbn [negb].
  rewrite <- (prm_eq n nr Enr).
  destruct (receive_pred_ok n x ty w (u_time e) Hty) as (x' & Erx & Elast). rewrite Erx. cbn [rbind].
  destruct (prm_nz n) as [Hm Hf].
  destruct (predict_sound (prm_of n) (pn_st x') (pc_dt c) (pc_max c) Hm Hf (pw_max WF)) as (pr & Epr & Hpr).
  rewrite Epr. cbn [rbind].
  (* the live list after the cancellation *)
  set (L1 := match po with Some e0 => remove_live L e0 | None => L end).
  set (s1 := match po with Some e0 => set_q s (cq_remove (ps_q s) e0) | None => s end).
  assert (HL1 : forall y, In y L1 <-> In y L /\ u_pl y <> Pred n).
  { intros y. unfold L1. destruct po as [e0|].
    - apply (j_poss _ _ _ _ HJ) in Epo. rewrite app_nil_r in Epo. destruct Epo as [Hin Hp].
      pose proof (j_ids _ _ _ _ HJ) as HN. rewrite app_nil_r in HN.
      rewrite (remove_live_in L e0 y HN Hin). split; intros [Hy Hd]; split; auto.
      + intros Hpy. assert (E : nth_error (ps_poss s) n = Some (Some y)) by (apply (j_poss _ _ _ _ HJ); rewrite app_nil_r; auto).
        assert (E2 : nth_error (ps_poss s) n = Some (Some e0)) by (apply (j_poss _ _ _ _ HJ); rewrite app_nil_r; auto).
        rewrite E in E2. injection E2 as ->. auto.
      + intros Ed. apply Hd. rewrite <- Hp. f_equal.
        clear -HN Hy Hin Ed. revert HN Hy Hin. induction L as [|a l IH]; intros HN Hy Hin; [destruct Hy|].
        cbn [map] in HN. inversion HN; subst. destruct Hy as [->|Hy], Hin as [->|Hin]; auto.
        * exfalso. apply H1. rewrite Ed. apply in_map; auto.
        * exfalso. apply H1. rewrite <- Ed. apply in_map; auto.
    - split; [|tauto]. intros Hy. split; auto. intros Hp.
      assert (E : nth_error (ps_poss s) n = Some (Some y)) by (apply (j_poss _ _ _ _ HJ); rewrite app_nil_r; auto). congruence. }
  assert (HN1 : NoDup (map u_id L1)).
  { pose proof (j_ids _ _ _ _ HJ) as HN. rewrite app_nil_r in HN. unfold L1. destruct po; auto. apply remove_live_nodup; auto. }
  assert (HQ1 : qrel (ps_q s1) L1).
  { unfold s1, L1. destruct po; [apply qrel_remove|]; apply (j_q _ _ _ _ HJ). }
  assert (HH : filter (fun x => negb (is_spike x)) L1 = filter (fun x => negb (is_spike x)) L).
  { unfold L1. destruct po as [e0|]; auto. apply (j_poss _ _ _ _ HJ) in Epo. rewrite app_nil_r in Epo. destruct Epo as [Hin Hp].
    apply remove_live_hits.
    - unfold is_spike. rewrite Hp. auto.
    - intros y Hy Ed. pose proof (j_ids _ _ _ _ HJ) as HN. rewrite app_nil_r in HN.
      clear -HN Hy Hin Ed. revert HN Hy Hin. induction L as [|a l IH]; intros HN Hy Hin; [destruct Hy|].
      cbn [map] in HN. inversion HN; subst. destruct Hy as [->|Hy], Hin as [->|Hin]; auto.
      * exfalso. apply H1. rewrite Ed. apply in_map; auto.
      * exfalso. apply H1. rewrite <- Ed. apply in_map; auto. }
  assert (Es1 : ps_next s1 = ps_next s /\ ps_nrs s1 = ps_nrs s /\ ps_poss s1 = ps_poss s /\ ps_spk s1 = ps_spk s /\ ps_cnt s1 = ps_cnt s /\ ps_fin s1 = ps_fin s).
  { unfold s1. destruct po; cbn; repeat split; auto. }
  destruct Es1 as (N1 & N2 & N3 & N4 & N5 & N6).
  pose proof (j_len1 _ _ _ _ HJ) as LN1. pose proof (j_len2 _ _ _ _ HJ) as LN2. fold W in LN1, LN2.
  assert (Bn1 : (n <? List.length (ps_nrs s))%nat = true) by (apply Nat.ltb_lt; lia).
  assert (Bn2 : (n <? List.length (ps_poss s))%nat = true) by (apply Nat.ltb_lt; lia).
  destruct pr as [d|].
  - (* new prediction *)
    destruct (Hpr d eq_refl) as (k & Hk0 & Ed & _).
    assert (Hd : 0 <= d). { rewrite Ed. apply Rmult_le_pos; [apply IZR_le; lia|]. left; apply (pw_dt WF). }
    cbn [enqueue]. set (ne := {| u_id := _; u_time := _; u_pl := Pred n |}).
    eexists. exists (L1 ++ [ne]). split; [reflexivity|]. split; [|split; [|split; [|split; [|split]]]].
    + constructor; cbn [set_poss set_nr ps_q ps_next ps_nrs ps_poss ps_spk]; rewrite ?app_nil_r.
      * apply qrel_add; auto.
      * rewrite map_app. cbn [map]. eapply Permutation_NoDup; [apply Permutation_cons_append|]. constructor; auto.
        intros Hx. apply in_map_iff in Hx. destruct Hx as (y & E & Hy). apply HL1 in Hy. destruct Hy as [Hy _].
        pose proof (j_next _ _ _ _ HJ y ltac:(rewrite app_nil_r; auto)). cbn [u_id ne set_nr set_poss ps_next] in E. lia.
      * cbn [set_nr set_poss ps_next]. rewrite N1. intros y Hy. apply in_app_iff in Hy. destruct Hy as [Hy|[<-|[]]].
        -- apply HL1 in Hy. destruct Hy as [Hy _]. pose proof (j_next _ _ _ _ HJ y ltac:(rewrite app_nil_r; auto)). lia.
        -- cbn [u_id ne set_nr set_poss ps_next]. rewrite N1. lia.
      * intros y Hy. apply in_app_iff in Hy. destruct Hy as [Hy|[<-|[]]].
        -- apply HL1 in Hy. apply (j_ok _ _ _ _ HJ). rewrite app_nil_r. tauto.
        -- unfold event_ok. cbn [u_pl ne]. auto.
      * rewrite lset_len, N2. auto.
      * rewrite !lset_len, N3. auto.
      * intros y Hy. apply in_app_iff in Hy. destruct Hy as [Hy|[<-|[]]].
        -- apply HL1 in Hy. apply (j_time _ _ _ _ HJ). tauto.
        -- cbn [u_time ne nadd R_num]. lra.
      * intros y [].
      * intros m y. rewrite !nth_error_lset, lset_len, N3. rewrite in_app_iff. cbn [In]. destruct (Nat.eqb_spec m n) as [->|Hmn].
        -- rewrite Bn2. split.
           ++ intros E. injection E as <-. split; auto.
           ++ intros [[Hy|[<-|[]]] Hp]; auto. apply HL1 in Hy. tauto.
        -- rewrite (j_poss _ _ _ _ HJ), app_nil_r, HL1. split.
           ++ intros [Hy Hp]. split; auto. left. split; auto. congruence.
           ++ intros [[[Hy _]|[<-|[]]] Hp]; auto. cbn [u_pl ne] in Hp. congruence.
      * intros m y e0. rewrite !nth_error_lset, lset_len, N2, N3. destruct (Nat.eqb_spec m n) as [->|Hmn].
        -- rewrite Bn1, Bn2. intros E1 E2. injection E1 as <-. injection E2 as <-. exists d. split; auto.
           cbn [u_time ne nadd R_num]. rewrite Elast. auto.
        -- apply (j_pred _ _ _ _ HJ).
      * intros m y. rewrite !nth_error_lset, lset_len, N2, N3. destruct (Nat.eqb_spec m n) as [->|Hmn].
        -- rewrite Bn2. discriminate.
        -- apply (j_none _ _ _ _ HJ).
      * rewrite N4. apply (j_spk _ _ _ _ HJ).
    + rewrite filter_app. cbn [filter is_spike u_pl ne negb]. rewrite app_nil_r. exact HH.
    + cbn. rewrite N4. auto.
    + cbn [ps_cnt set_poss set_nr]. rewrite N5. auto.
    + cbn. rewrite N6. auto.
    + exists x'. split; [|rewrite Elast; auto]. cbn [ps_nrs set_poss set_nr]. rewrite N2. auto.
  - eexists. exists L1. split; [reflexivity|]. split; [|split; [|split; [|split; [|split]]]].
    + constructor; cbn [set_poss set_nr ps_q ps_next ps_nrs ps_poss ps_spk]; rewrite ?app_nil_r.
      * auto.
      * auto.
      * rewrite N1. intros y Hy. apply HL1 in Hy. apply (j_next _ _ _ _ HJ y). rewrite app_nil_r. tauto.
      * intros y Hy. apply HL1 in Hy. apply (j_ok _ _ _ _ HJ). rewrite app_nil_r. tauto.
      * rewrite lset_len, N2. auto.
      * rewrite !lset_len, N3. auto.
      * intros y Hy. apply HL1 in Hy. apply (j_time _ _ _ _ HJ). tauto.
      * intros y [].
      * intros m y. rewrite !nth_error_lset, N3. destruct (Nat.eqb_spec m n) as [->|Hmn].
        -- rewrite Bn2. split; [discriminate|]. intros [Hy Hp]. apply HL1 in Hy. tauto.
        -- rewrite (j_poss _ _ _ _ HJ), app_nil_r, HL1. split.
           ++ intros [Hy Hp]. split; auto. split; auto. congruence.
           ++ intros [[Hy _] Hp]; auto.
      * intros m y e0. rewrite !nth_error_lset, N2, N3. destruct (Nat.eqb_spec m n) as [->|Hmn].
        -- rewrite Bn2. discriminate.
        -- apply (j_pred _ _ _ _ HJ).
      * intros m y. rewrite !nth_error_lset, N2, N3. destruct (Nat.eqb_spec m n) as [->|Hmn].
        -- rewrite Bn1. intros E1 _. injection E1 as <-. auto.
        -- apply (j_none _ _ _ _ HJ).
      * rewrite N4. apply (j_spk _ _ _ _ HJ).
    + exact HH.
    + cbn. rewrite N4. auto.
    + cbn [ps_cnt set_poss set_nr]. rewrite N5. auto.
    + cbn. rewrite N6. auto.
    + exists x'. split; [|rewrite Elast; auto]. cbn [ps_nrs set_poss set_nr]. rewrite N2. auto.
Qed.

(** ** a batch *)
Definition fired (evs : list (uevent R)) : list (nat * R) :=
  flat_map (fun e => match u_pl e with Pred n => [(n, u_time e)] | Hit _ _ _ => [] end) evs.
Definition emitted (evs : list (uevent R)) : list (R * upayload R) :=
  flat_map (fun p => hits_from (snd p) (out_syn W (fst p))) (fired evs).
Definition hit_types (evs : list (uevent R)) : list syntype :=
  flat_map (fun e => match u_pl e with Hit _ ty _ => [ty] | Pred _ => [] end) evs.

Lemma spikes_phase now : forall evs s L, J s L (filter is_spike evs) now ->
  exists s' L', rfold (step_spike c) evs s = Ok s' /\ J s' (L ++ L') [] now /\ map ekey L' = emitted evs /\
    ps_spk s' = rev (fired evs) ++ ps_spk s /\ ps_cnt s' = ps_cnt s /\ ps_fin s' = ps_fin s.
Proof.
  induction evs as [|e evs IH]; intros s L HJ.
  - exists s, []. cbn [rfold]. rewrite app_nil_r. split; auto.
  - cbn [rfold]. unfold step_spike at 1. destruct (u_pl e) as [n ty w|n] eqn:He.
    + cbn [rbind]. cbn [filter] in HJ. unfold is_spike in HJ at 1. rewrite He in HJ.
      destruct (IH s L HJ) as (s' & L' & E & HJ' & E1 & E2 & E3 & E4). exists s', L'. split; auto. split; auto.
      unfold emitted, fired in *. cbn [flat_map]. rewrite He. auto.
    + cbn [filter] in HJ. unfold is_spike in HJ at 1. rewrite He in HJ.
      destruct (J_spike s L _ now e n HJ He) as (s1 & L1 & E & HJ1 & E1 & E2 & E3 & E4). rewrite E. cbn [rbind].
      destruct (IH s1 (L ++ L1) HJ1) as (s' & L' & E' & HJ' & F1 & F2 & F3 & F4). exists s', (L1 ++ L'). split; auto.
      split; [rewrite app_assoc; auto|]. split; [|split; [|split]].
      * rewrite map_app, E1, F1. unfold emitted, fired. cbn [flat_map]. rewrite He. reflexivity.
      * rewrite F2, E2. unfold fired. cbn [flat_map]. rewrite He. cbn [app rev]. rewrite <- app_assoc. reflexivity.
      * congruence.
      * congruence.
Qed.
Lemma hits_phase now : forall evs s L, J s L [] now -> (forall e, In e evs -> u_time e = now /\ event_ok e) ->
  exists s' L', rfold (step_hit c) evs s = Ok s' /\ J s' L' [] now /\
    filter (fun x => negb (is_spike x)) L' = filter (fun x => negb (is_spike x)) L /\
    ps_spk s' = ps_spk s /\ ps_cnt s' = fold_left pcount (hit_types evs) (ps_cnt s) /\ ps_fin s' = ps_fin s /\
    (forall n x', nth_error (ps_nrs s') n = Some x' ->
       (exists e ty w, In e evs /\ u_pl e = Hit n ty w) \/ (exists x, nth_error (ps_nrs s) n = Some x /\ pn_last x = now) -> pn_last x' = now).
Proof.
  induction evs as [|e evs IH]; intros s L HJ HE.
  - exists s, L. cbn [rfold]. split; auto. split; [exact HJ|]. split; auto. split; auto. split; auto. split; auto.
    intros n x' E [(e & ty & w & [] & _)|(x & E2 & E3)]. congruence.
  - cbn [rfold]. unfold step_hit at 1. destruct (HE e (or_introl eq_refl)) as [Ht Hok].
    destruct (u_pl e) as [n ty w|n] eqn:He.
    + destruct (J_hit s L now e n ty w HJ He Ht Hok) as (s1 & L1 & E & HJ1 & E1 & E2 & E3 & E4 & x1 & E5 & E6). rewrite E. cbn [rbind].
      destruct (IH s1 L1 HJ1) as (s' & L' & E' & HJ' & F1 & F2 & F3 & F4 & F5); [intros; apply HE; right; auto|].
      exists s', L'. split; auto. split; auto. split; [congruence|]. split; [congruence|]. split; [|split; [congruence|]].
      * rewrite F3, E3. unfold hit_types. cbn [flat_map]. rewrite He. reflexivity.
      * intros m x' Em Hor. apply (F5 m x' Em).
        assert (Hlen : (m < List.length (ps_nrs s))%nat).
        { rewrite (j_len1 _ _ _ _ HJ), <- (j_len1 _ _ _ _ HJ'). apply nth_error_Some. congruence. }
        destruct (Nat.eqb_spec m n) as [->|Hmn].
        -- right. exists x1. split; auto. rewrite E5, nth_error_lset, Nat.eqb_refl. apply Nat.ltb_lt in Hlen. rewrite Hlen. auto.
        -- destruct Hor as [(e0 & ty0 & w0 & [<-|Hin] & Hp)|(x & Ex & Hx)].
           ++ rewrite He in Hp. congruence.
           ++ left. eauto.
           ++ right. exists x. split; auto. rewrite E5, nth_error_lset. destruct (Nat.eqb_spec m n); [contradiction|auto].
    + cbn [rbind]. destruct (IH s L HJ) as (s' & L' & E' & HJ' & F1 & F2 & F3 & F4 & F5); [intros; apply HE; right; auto|].
      exists s', L'. split; auto. split; auto. split; auto. split; auto. split; [|split; auto].
      * rewrite F3. unfold hit_types. cbn [flat_map]. rewrite He. auto.
      * intros m x' Em Hor. apply (F5 m x' Em). destruct Hor as [(e0 & ty0 & w0 & [<-|Hin] & Hp)|Hx]; auto.
        -- rewrite He in Hp. discriminate.
        -- left. eauto.
Qed.

Lemma NoDup_map_filter {A B} (g : A -> B) (f : A -> bool) l : NoDup (map g l) -> NoDup (map g (filter f l)).
Proof.
  induction l as [|a l IH]; cbn; auto. intros HN. inversion HN; subst. destruct (f a); cbn; auto. constructor; auto.
  intros Hx. apply H1. apply in_map_iff in Hx. destruct Hx as (y & E & Hy). apply filter_In in Hy. rewrite <- E. apply in_map. tauto.
Qed.
(** one turn of the loop *)
Lemma J_step s L now : J s L [] now -> L <> [] ->
  exists t q' s' L', let evs := filter (same_time t) L in
    cq_len (ps_q s) <> 0%nat /\ cq_pop (ps_q s) = Ok (evs, q') /\ process_batch c (set_q s q') evs = Ok s' /\
    evs <> [] /\ now <= t /\ (forall e, In e L -> t <= u_time e) /\ J s' L' [] t /\
    Permutation (map ekey (filter (fun x => negb (is_spike x)) (evs ++ L')))
                (map ekey (filter (fun x => negb (is_spike x)) L) ++ emitted evs) /\
    ps_spk s' = rev (fired evs) ++ ps_spk s /\ ps_cnt s' = fold_left pcount (hit_types evs) (ps_cnt s) /\ ps_fin s' = ps_fin s /\
    (forall n x' e ty w, nth_error (ps_nrs s') n = Some x' -> In e evs -> u_pl e = Hit n ty w -> pn_last x' = t).
Proof.
  intros HJ HL. destruct (qrel_pop _ _ (j_q _ _ _ _ HJ) HL) as (t & q' & Epop & Hne & Hmin & HQ).
  set (evs := filter (same_time t) L) in *. set (rest := filter (fun e => negb (same_time t e)) L) in *.
  assert (Hevs : forall e, In e evs -> In e L /\ u_time e = t).
  { intros e He. apply filter_In in He. destruct He as [He Ht]. apply same_timeR in Ht. auto. }
  assert (Hsub : forall e, In e (rest ++ filter is_spike evs) -> In e L).
  { intros e He. apply in_app_iff in He. destruct He as [He|He]; apply filter_In in He; destruct He as [He _]; auto.
    apply Hevs in He. tauto. }
  assert (Hnow : now <= t).
  { destruct evs as [|e l] eqn:E; [congruence|]. destruct (Hevs e (or_introl eq_refl)) as [H1 <-]. apply (j_time _ _ _ _ HJ); auto. }
  assert (HJ0 : J (set_q s q') rest (filter is_spike evs) t).
  { pose proof HJ as HJ'. destruct HJ'. rewrite app_nil_r in *. constructor; cbn [set_q ps_q ps_next ps_nrs ps_poss ps_spk]; auto.
    - apply (Permutation_NoDup (l := map u_id (filter is_spike evs ++ rest))).
      { apply Permutation_map. apply Permutation_app_comm. }
      assert (HP : Permutation (map u_id L) (map u_id (evs ++ rest))) by (apply Permutation_map; apply perm_split).
      apply (Permutation_NoDup HP) in j_ids0. rewrite map_app in *. clear -j_ids0.
      induction evs as [|a l IH]; cbn [filter]; auto. cbn [map app] in j_ids0. inversion j_ids0; subst.
      destruct (is_spike a); auto. cbn [map app]. constructor; auto. intros Hx. apply H1. rewrite in_app_iff in *.
      destruct Hx as [Hx|Hx]; auto. left. apply in_map_iff in Hx. destruct Hx as (y & E & Hy). apply filter_In in Hy. rewrite <- E. apply in_map. tauto.
    - intros e He. apply filter_In in He. apply Hmin. tauto.
    - intros e He. apply filter_In in He. destruct He as [He1 He2]. split; auto. apply Hevs; auto.
    - intros n e. rewrite j_poss0, ?app_nil_r. split; intros [Hin Hp]; split; auto.
      apply in_app_iff. destruct (same_time t e) eqn:Et.
      + right. apply filter_In. split; [apply filter_In; auto|]. unfold is_spike. rewrite Hp. auto.
      + left. apply filter_In. rewrite Et. auto.
    - intros n tt Hin. apply j_spk0 in Hin. lra. }
  destruct (spikes_phase t evs _ _ HJ0) as (s1 & L1 & E1 & HJ1 & F1 & F2 & F3 & F4).
  destruct (hits_phase t evs _ _ HJ1) as (s2 & L2 & E2 & HJ2 & G1 & G2 & G3 & G4 & G5).
  { intros e He. split; [apply Hevs; auto|]. apply (j_ok _ _ _ _ HJ). rewrite app_nil_r. apply Hevs; auto. }
  exists t, q', s2, L2. cbv zeta. fold evs. split.
  { intros E. apply HL. apply (qrel_len _ _ (j_q _ _ _ _ HJ)). auto. }
  split; [exact Epop|]. split; [unfold process_batch; rewrite E1; cbn [rbind]; exact E2|].
  split; auto. split; auto. split; auto. split; auto. split; [|split; [|split; [|split]]].
  - rewrite filter_app, G1, filter_app, !map_app.
    assert (EL1 : filter (fun x => negb (is_spike x)) L1 = L1).
    { apply filter_true_all. intros x Hx. apply (in_map ekey) in Hx. rewrite F1 in Hx. unfold emitted in Hx.
      apply in_flat_map in Hx. destruct Hx as ((m & tt) & _ & Hx). apply in_map_iff in Hx. destruct Hx as (y & E & _).
      unfold ekey in E. injection E as _ E. unfold is_spike. rewrite <- E. auto. }
    rewrite EL1, F1, app_assoc. apply Permutation_app_tail. rewrite <- map_app, <- filter_app.
    apply Permutation_map. clear. subst evs rest.
    induction L as [|a l IH]; cbn [filter]; auto. destruct (same_time t a) eqn:Ea; cbn [negb app filter].
    + destruct (is_spike a); cbn [negb]; auto.
    + rewrite filter_app in *. cbn [filter]. destruct (is_spike a); cbn [negb]; auto.
      rewrite <- Permutation_middle. auto.
  - rewrite G2, F2. reflexivity.
  - rewrite G3, F3. reflexivity.
  - rewrite G4, F4. reflexivity.
  - intros n x' e ty w En He Hp. apply (G5 n x' En). left. eauto.
Qed.
End Inv.

(** ** Executions *)
(** a simulator after construction and some input spikes [(neuron, time)] *)
Inductive pinputs (c : pcfg R) : list (nat * R) -> psim R -> Prop :=
| pi_new : pinputs c [] (new_psim (pc_world c))
| pi_spike ins s n t s' : pinputs c ins s -> In n (pc_keys c) -> p_input_spike c s n t = Ok s' -> pinputs c (ins ++ [(n, t)]) s'.
(** [preach c ins h s]: [s] is reached from those inputs by loop turns that popped the batches [h] *)
Inductive preach (c : pcfg R) (ins : list (nat * R)) : list (list (uevent R)) -> psim R -> Prop :=
| pr_init s : pinputs c ins s -> preach c ins [] s
| pr_step h s evs q' s' : preach c ins h s -> cq_len (ps_q s) <> 0%nat -> cq_pop (ps_q s) = Ok (evs, q') ->
    process_batch c (set_q s q') evs = Ok s' -> preach c ins (h ++ [evs]) s'.
Definition input_hit (c : pcfg R) (p : nat * R) : R * upayload R := (snd p, Hit (fst p) SynV (Vt (prm_of c (fst p)))).

Lemma J_weaken c s L now now' : J c s L [] now -> now' <= now -> ps_spk s = [] -> J c s L [] now'.
Proof.
  intros [] Hle Hs. constructor; auto.
  - intros e He. apply j_time0 in He. lra.
  - intros e [].
  - rewrite Hs. intros n t [].
Qed.
Lemma pinputs_J c ins s : pwf c -> pinputs c ins s ->
  exists L now, J c s L [] now /\ map ekey L = map (input_hit c) ins /\ ps_spk s = [] /\
    ps_cnt s = {| pcV := 0; pcGe := 0; pcGf := 0; pcGm := 0; pcGate := 0 |} /\ ps_fin s = false.
Proof.
  intros WF. induction 1 as [|ins s n t s' HI (L & now & HJ & E1 & E2 & E3 & E4) Hn HE].
  - exists [], 0. split; [|auto]. constructor; cbn [new_psim ps_q ps_next ps_nrs ps_poss ps_spk app map].
    + apply qrel_empty.
    + constructor.
    + intros e [].
    + intros e [].
    + rewrite map_length. auto.
    + rewrite map_length. auto.
    + intros e [].
    + intros e [].
    + intros n e. split; [|intros [[] _]]. intros E. exfalso. apply nth_error_In in E. apply in_map_iff in E. destruct E as (x & E & _). discriminate.
    + intros n x e _ E. exfalso. apply nth_error_In in E. apply in_map_iff in E. destruct E as (y & E & _). discriminate.
    + intros n x E _. left. rewrite nth_error_map in E. unfold prm_of. destruct (nth_error (w_neurons (pc_world c)) n) as [nr|]; [|discriminate].
      cbn [option_map] in E. injection E as <-. reflexivity.
    + intros n t [].
  - unfold p_input_spike in HE. destruct (nth_error (w_neurons (pc_world c)) n) as [nr|] eqn:Enr; [|discriminate]. injection HE as <-.
    pose proof (J_weaken c s L now (Rmin now t) HJ (Rmin_l _ _) E2) as HJ'.
    assert (HX : In n (pc_keys c) /\ SynV <> SynOther) by (split; [exact Hn|discriminate]).
    pose proof (J_enqueue c s L [] (Rmin now t) t (Hit n SynV (Vt (nr_params nr))) HJ' (Rmin_r now t) HX) as HJ2.
    eexists. exists (Rmin now t). split; [exact HJ2|]. rewrite !map_app, E1. cbn [map app]. split; [|auto].
    f_equal. f_equal. unfold input_hit, ekey. cbn [fst snd u_time u_pl enqueue]. rewrite (prm_eq c n nr Enr). reflexivity.
Qed.
Lemma pcount_fold l : forall c0, let c1 := fold_left pcount l c0 in
  pcGm c1 = pcGm c0 /\ pcGate c1 = (pcGate c0 + List.length (filter (syntype_eqb SynGate) l))%nat /\
  pcV c1 = (pcV c0 + List.length (filter (syntype_eqb SynV) l))%nat /\
  pcGe c1 = (pcGe c0 + List.length (filter (syntype_eqb SynGe) l))%nat /\
  pcGf c1 = (pcGf c0 + List.length (filter (syntype_eqb SynGf) l))%nat.
Proof.
  induction l as [|ty l IH]; intros c0; cbv zeta; cbn [fold_left filter List.length].
  - repeat split; lia.
  - destruct (IH (pcount c0 ty)) as (A & B & C & D & E). rewrite A, B, C, D, E.
    destruct ty; cbn [pcount pcGm pcGate pcV pcGe pcGf syntype_eqb filter List.length]; repeat split; lia.
Qed.

Lemma fired_app a b : fired (a ++ b) = fired a ++ fired b.
Proof. unfold fired. apply flat_map_app. Qed.
Lemma hit_types_app a b : hit_types (a ++ b) = hit_types a ++ hit_types b.
Proof. unfold hit_types. apply flat_map_app. Qed.
Lemma emitted_app c a b : emitted c (a ++ b) = emitted c a ++ emitted c b.
Proof. unfold emitted. rewrite fired_app. apply flat_map_app. Qed.

Definition sorted (l : list R) : Prop := ForallOrdPairs Rle l.
Lemma sorted_app l1 l2 : sorted l1 -> sorted l2 -> (forall a b, In a l1 -> In b l2 -> a <= b) -> sorted (l1 ++ l2).
Proof.
  intros H1 H2 H. induction H1 as [|a l Ha Hl IH]; auto. cbn [app]. constructor.
  - apply Forall_app. split; auto. apply Forall_forall. intros b Hb. apply H; [left|]; auto.
  - apply IH. intros x y Hx Hy. apply H; [right|]; auto.
Qed.
Lemma sorted_const t l : (forall x, In x l -> x = t) -> sorted l.
Proof.
  induction l as [|a l IH]; intros Hl; constructor.
  - apply Forall_forall. intros b Hb. rewrite (Hl a (or_introl eq_refl)), (Hl b (or_intror Hb)). lra.
  - apply IH. intros; apply Hl; right; auto.
Qed.
Lemma sorted_filter_map {A} (g : A -> R) (f : A -> bool) l : sorted (map g l) -> sorted (map g (filter f l)).
Proof.
  induction l as [|a l IH]; intros HS; auto. cbn [map filter] in *. inversion HS as [|? ? Ha Hl]; subst.
  destruct (f a); cbn [map]; [|apply IH; auto]. constructor; [|apply IH; auto]. apply Forall_forall. intros b Hb. rewrite Forall_forall in Ha. apply Ha.
  apply in_map_iff in Hb. destruct Hb as (x & E & Hx). apply filter_In in Hx. rewrite <- E. apply in_map. tauto.
Qed.

(** everything about reachable states *)
Record pinfo (c : pcfg R) (ins : list (nat * R)) (h : list (list (uevent R))) (s : psim R) (L : list (uevent R)) (now : R) : Prop := {
  pf_J : J c s L [] now;
  pf_past : forall e, In e (concat h) -> u_time e <= now;
  pf_ok : forall e, In e (concat h) -> event_ok c e;
  pf_sorted : sorted (map u_time (concat h));
  pf_batch : forall b, In b h -> b <> [] /\ exists t, forall e, In e b -> u_time e = t;
  pf_hits : Permutation (map ekey (filter (fun x => negb (is_spike x)) (concat h ++ L)))
                        (map (input_hit c) ins ++ emitted c (concat h));
  pf_spk : ps_spk s = rev (fired (concat h));
  pf_cnt : ps_cnt s = fold_left pcount (hit_types (concat h)) {| pcV := 0; pcGe := 0; pcGf := 0; pcGm := 0; pcGate := 0 |};
  pf_fin : ps_fin s = false
}.
Lemma preach_info c ins h s : pwf c -> preach c ins h s -> exists L now, pinfo c ins h s L now.
Proof.
  intros WF. induction 1 as [s HI|h s evs q' s' HR (L & now & HP) Hlen Epop Eproc].
  - destruct (pinputs_J c ins s WF HI) as (L & now & HJ & E1 & E2 & E3 & E4). exists L, now.
    constructor; cbn [concat]; auto; try (intros ? []).
    + constructor.
    + cbn [app]. unfold emitted, fired. cbn. rewrite app_nil_r. rewrite <- E1.
      assert (EL1 : filter (fun x => negb (is_spike x)) L = L).
      { apply filter_true_all. intros x Hx. apply (in_map ekey) in Hx. rewrite E1 in Hx.
        apply in_map_iff in Hx. destruct Hx as (y & E & _). unfold ekey, input_hit in E. injection E as _ E. unfold is_spike. rewrite <- E. auto. }
      rewrite EL1. auto.
  - destruct HP. assert (HL : L <> []).
    { intros E. apply Hlen. apply (qrel_len _ L); auto. apply (j_q _ _ _ _ _ pf_J0). }
    destruct (J_step c WF s L now pf_J0 HL) as (t & q2 & s2 & L2 & HS). cbv zeta in HS.
    destruct HS as (_ & Epop2 & Eproc2 & Hne & Hnow & Hmin & HJ2 & HPm & HK & HC & HF & _).
    rewrite Epop in Epop2. injection Epop2 as Eev Eq. subst evs q2. rewrite Eproc in Eproc2. injection Eproc2 as <-.
    set (evs := filter (same_time t) L) in *.
    assert (Hevs : forall e, In e evs -> In e L /\ u_time e = t).
    { intros e He. apply filter_In in He. destruct He as [He Ht]. apply same_timeR in Ht. auto. }
    exists L2, t. rewrite <- (app_nil_r evs) in |- * at 1. constructor; rewrite ?concat_app; cbn [concat]; rewrite ?app_nil_r; auto.
    + intros e He. apply in_app_iff in He. destruct He as [He|He]; [apply pf_past0 in He; lra|]. apply Hevs in He. lra.
    + intros e He. apply in_app_iff in He. destruct He as [He|He]; auto. apply (j_ok _ _ _ _ _ pf_J0). rewrite app_nil_r. apply Hevs; auto.
    + rewrite map_app. apply sorted_app; auto.
      * apply (sorted_const t). intros x Hx. apply in_map_iff in Hx. destruct Hx as (e & <- & He). apply Hevs; auto.
      * intros a b Ha Hb. apply in_map_iff in Ha, Hb. destruct Ha as (e1 & <- & He1), Hb as (e2 & <- & He2).
        apply pf_past0 in He1. apply Hevs in He2. lra.
    + intros b Hb. apply in_app_iff in Hb. destruct Hb as [Hb|[<-|[]]]; auto. split; auto. exists t. intros e He. apply Hevs; auto.
    + rewrite emitted_app, app_assoc. rewrite <- pf_hits0. rewrite <- app_assoc. rewrite filter_app, map_app, HPm.
      rewrite filter_app, map_app. rewrite app_assoc. auto.
    + rewrite fired_app, rev_app_distr. rewrite HK, pf_spk0. auto.
    + rewrite hit_types_app, fold_left_app, <- pf_cnt0. auto.
    + congruence.
Qed.
