(** SpikeEventQueue: correctness of pop_events for any history (C02). *)
From Coq Require Import Arith ZArith Bool List Permutation Sorted Lia Reals.
From Verif Require Import Num NumOrd Heapq HeapqProofs Elements.
Import ListNotations.
Open Scope list_scope.

Section Q.
Context {T : Type} `{NT : Num T} (okT : T -> Prop) (HO : NumOrd T okT).

Definition okE (e : event T) : Prop := okT (e_time e).
Definition time_le (a b : event T) : Prop := nleb (e_time a) (e_time b) = true.

Lemma elt_asym a b : okE a -> okE b -> event_lt a b = true -> event_lt b a = false.
Proof. unfold okE, event_lt. intros; eapply no_asym; eauto. Qed.
Lemma ele_trans a b c : okE a -> okE b -> okE c -> le event_lt a b -> le event_lt b c -> le event_lt a c.
Proof. unfold okE, event_lt, le. intros; eapply no_letrans with (b := e_time b); eauto. Qed.

Lemma add_event_spec q e : Forall okE q -> okE e -> heap_ok event_lt q ->
  heap_ok event_lt (add_event q e) /\ Permutation (add_event q e) (e :: q) /\ Forall okE (add_event q e).
Proof. apply heappush_spec; [exact elt_asym | exact ele_trans]. Qed.

Lemma le_time a b : okE a -> okE b -> le event_lt a b <-> time_le a b.
Proof.
  unfold le, event_lt, time_le, okE; intros. rewrite (no_leb _ _ HO) by auto.
  destruct (nltb (e_time b) (e_time a)); cbn; split; congruence.
Qed.

Lemma pop_loop_spec fuel : forall q t acc,
  okT t -> Forall okE q -> heap_ok event_lt q -> length q <= fuel ->
  exists out rest,
    pop_events_loop fuel q t acc = (rev acc ++ out, rest) /\
    Permutation q (out ++ rest) /\
    Forall (fun e => nleb (e_time e) t = true) out /\
    Forall (fun e => nleb (e_time e) t = false) rest /\
    StronglySorted time_le out /\
    heap_ok event_lt rest /\ Forall okE rest.
Proof.
  induction fuel as [|f IH]; intros q t acc Ht Hok Hh Hl.
  - destruct q; [|cbn in Hl; lia]. exists [], []. cbn. rewrite app_nil_r.
    repeat split; auto; constructor.
  - cbn [pop_events_loop]. destruct q as [|top tl].
    + exists [], []. rewrite app_nil_r. repeat split; auto; constructor.
    + destruct (nleb (e_time top) t) eqn:E.
      * pose proof (heappop_spec event_lt okE elt_asym ele_trans (top :: tl) Hok Hh) as HP.
        destruct (heappop event_lt (top :: tl)) as [[x h']|] eqn:EP; [|discriminate].
        destruct HP as (P1 & P2 & P3 & P4 & P5). cbn in P1. injection P1 as <-.
        assert (Hlen : length h' <= f).
        { apply Permutation_length in P2. cbn in *. lia. }
        destruct (IH h' t (top :: acc) Ht P4 P3 Hlen) as (out & rest & E1 & E2 & E3 & E4 & E5 & E6 & E7).
        exists (top :: out), rest. rewrite E1. repeat split; auto.
        -- cbn [rev]. rewrite <- app_assoc. reflexivity.
        -- rewrite P2. cbn. constructor. auto.
        -- constructor; auto.
           apply Forall_forall. intros y Hy.
           assert (Hy' : In y (top :: tl)).
           { apply Permutation_in with (top :: h'); [symmetry; auto|]. right.
             apply Permutation_in with (out ++ rest); [symmetry; auto|]. apply in_or_app; auto. }
           assert (okE y) by (rewrite Forall_forall in Hok; auto).
           assert (okE top) by (inversion Hok; auto).
           apply le_time; auto.
      * exists [], (top :: tl). rewrite app_nil_r. cbn [app]. repeat split; auto; try constructor; auto.
        apply Forall_forall. intros y Hy.
        assert (okE y) by (rewrite Forall_forall in Hok; auto; apply Hok; right; auto).
        assert (okE top) by (inversion Hok; auto).
        destruct (In_nth _ _ top Hy) as (i & Hi & Ey).
        pose proof (heap_ok_min event_lt okE elt_asym ele_trans (top :: tl) (S i) top Hok Hh) as HM.
        cbn [nth length] in HM. rewrite Ey in HM. specialize (HM ltac:(lia)).
        unfold le, event_lt in HM.
        rewrite (no_leb _ _ HO) in * by auto.
        apply negb_false_iff in E. apply negb_false_iff.
        destruct (nltb t (e_time y)) eqn:E'; auto. exfalso.
        pose proof (no_letrans _ _ HO (e_time top) (e_time y) t). unfold okE in *.
        rewrite H1 in E; auto; discriminate.
Qed.

(** pop_events splits the queue into the due events, in time order, and the rest. *)
Lemma pop_events_spec q t : okT t -> Forall okE q -> heap_ok event_lt q ->
  exists out rest,
    pop_events q t = (out, rest) /\
    Permutation q (out ++ rest) /\
    Forall (fun e => nleb (e_time e) t = true) out /\
    Forall (fun e => nleb (e_time e) t = false) rest /\
    StronglySorted time_le out /\
    heap_ok event_lt rest /\ Forall okE rest.
Proof.
  intros. destruct (pop_loop_spec (length q) q t []) as (out & rest & Hx); auto.
  exists out, rest. exact Hx.
Qed.

(** ** Histories *)
Inductive qop := QAdd (e : event T) | QPop (t : T).
(** What the code does: outputs of the successive pop_events calls and the final queue. *)
Fixpoint run_queue (ops : list qop) (q : list (event T)) : list (list (event T)) * list (event T) :=
  match ops with
  | [] => ([], q)
  | QAdd e :: ops' => run_queue ops' (add_event q e)
  | QPop t :: ops' =>
      let '(out, q') := pop_events q t in
      let '(outs, qf) := run_queue ops' q' in (out :: outs, qf)
  end.
(** What it should do: [pending] is the bag of events added and not yet popped. *)
Inductive spec_queue : list (event T) -> list qop -> list (list (event T)) -> list (event T) -> Prop :=
| sq_nil p : spec_queue p [] [] p
| sq_add p e ops outs pf : spec_queue (e :: p) ops outs pf -> spec_queue p (QAdd e :: ops) outs pf
| sq_pop p t out rest ops outs pf :
    Permutation p (out ++ rest) ->
    Forall (fun e => nleb (e_time e) t = true) out ->
    Forall (fun e => nleb (e_time e) t = false) rest ->
    StronglySorted time_le out ->
    spec_queue rest ops outs pf ->
    spec_queue p (QPop t :: ops) (out :: outs) pf.
Definition qop_ok (o : qop) : Prop := match o with QAdd e => okT (e_time e) | QPop t => okT t end.

Lemma run_queue_correct ops : forall q p,
  Forall qop_ok ops -> Forall okE q -> heap_ok event_lt q -> Permutation p q ->
  exists pf, spec_queue p ops (fst (run_queue ops q)) pf /\
             Permutation pf (snd (run_queue ops q)) /\ heap_ok event_lt (snd (run_queue ops q)).
Proof.
  induction ops as [|o ops IH]; intros q p Ho Hq Hh HP.
  - exists p. cbn. repeat split; auto. constructor.
  - inversion Ho; subst. destruct o as [e|t]; cbn [run_queue].
    + destruct (add_event_spec q e) as (A1 & A2 & A3); auto.
      destruct (IH (add_event q e) (e :: p)) as (pf & S1 & S2); auto.
      { rewrite A2. constructor; auto. }
      exists pf. split; auto. constructor; auto.
    + destruct (pop_events_spec q t) as (out & rest & E & P1 & P2 & P3 & P4 & P5 & P6); auto.
      rewrite E.
      destruct (IH rest rest) as (pf & S1 & S2); auto.
      destruct (run_queue ops rest) as [outs qf]. cbn [fst snd] in *.
      exists pf. split; auto. econstructor; eauto. rewrite HP; auto.
Qed.
End Q.
Lemma queue_history (T : Type) (NT : Num T) (okT : T -> Prop) : NumOrd T okT ->
  forall ops : list qop, Forall (qop_ok okT) ops ->
  exists pf : list (event T),
    spec_queue [] ops (fst (run_queue ops [])) pf /\
    Permutation pf (snd (run_queue ops [])) /\
    heap_ok event_lt (snd (run_queue ops [])).
Proof.
  intros HO ops Hops. apply (run_queue_correct okT HO ops [] []); auto.
  intros i d Hi. cbn in Hi. lia.
Qed.
