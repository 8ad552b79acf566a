(** Several computations one after the other on one network (C52): if a single computation, started at any time, ends with the
    network at rest, then any list of computations, each started after the one before it is over, gives the results one
    after the other. *)
From Coq Require Import Arith ZArith Bool List Reals Lra Lia Permutation.
From Verif Require Import Num Heapq Elements Simulator Networks Trace SimTrace SimProps TraceProps NeuronLib NetLib Build BuildNets Bridge Session SimpleNets SimRel Restart MemReuse Reuse.
Import ListNotations.
Open Scope R_scope.
Open Scope list_scope.

Lemma exts_app enc l l' : exts enc (l ++ l') = exts enc l ++ exts enc l'.
Proof. unfold exts. apply flat_map_app. Qed.

Section Jobs.
Context {A : Type} (bl : B R A) (md : A -> nat) (a : A) (w : world R) (L : list (synapse R)) (enc : encoder R) (dt : R)
        (ord : nat -> list nat -> list nat).
Hypothesis HE : bl empty_world = Ok (a, w).
Hypothesis HB : built empty_world w (md a) L.
Hypothesis Hdt : 0 < dt.
Hypothesis HO : ord_ok ord.
Let NN := length (w_neurons w).

Lemma session_eq : exists c, c_world c = w /\ c_dt c = dt /\ (forall ext, (forall p, In p ext -> (fst p < NN)%nat) -> wf c ext) /\
  forall stims T, Forall (stim_ok NN) (stims a) ->
    session bl md enc dt stims ord T = (let* s := simulate c ord (inject c (new_sim w) (exts enc (stims a))) T in Ok (a, s)).
Proof.
  destruct HB as [I X Em Hl O ES]. cbn in Em. destruct (covers_all w I ltac:(rewrite Em in *; exact O) ltac:(rewrite Em in *; exact Hl)) as (keys & Ek & HK).
  set (c := {| c_world := w; c_keys := keys; c_enc := enc; c_dt := dt |}).
  exists c. split; [reflexivity|]. split; [reflexivity|]. split; [intros; apply wf_built; auto|].
  intros stims T HF. unfold session. rewrite HE. cbn [rbind fst snd]. unfold mk_simulator. rewrite Em, Ek. cbn [rbind fst snd].
  fold c. rewrite (feed_all c NN _ HF). cbn [rbind]. reflexivity.
Qed.

(** at rest, from the recurrence *)
Lemma session_rests stims K : Forall (stim_ok NN) (stims a) -> quiet (net_of w (exts enc (stims a)) dt) NN K ->
  exists s, session bl md enc dt stims ord (INR K * dt) = Ok (a, s) /\ resting w s.
Proof.
  intros HF HQ. destruct session_eq as (c & Ew & Ed & WF & ES).
  pose proof (WF _ (exts_in enc _ _ HF)) as W.
  destruct (simulate_inv c _ ord (INR K * dt) K W (ord_sel_ok _ _ HO)) as (s & act & E & I).
  { rewrite Ed. apply num_steps_exact; auto. }
  exists s. split.
  - rewrite ES by auto. rewrite <- Ew, E. reflexivity.
  - rewrite <- Ew. apply (resting_quiet _ _ _ _ _ _ W I). rewrite Ew, Ed. exact HQ.
Qed.

Context (X : Type) (st_of : X -> R -> list stim) (ok : X -> Prop) (span : X -> R) (outs : nat -> Prop) (rel : X -> (nat -> list R) -> Prop).
Hypothesis Hdel : forall y, In y (w_syns w) -> 0 < s_delay y.
Hypothesis Hshift : forall x t d, exts enc (st_of x (t + d)) = later d (exts enc (st_of x t)).
Hypothesis Hpos : forall x t p, ok x -> In p (exts enc (st_of x t)) -> t <= snd p.
Hypothesis Hok : forall x t, ok x -> Forall (stim_ok NN) (st_of x t).
Hypothesis Hspan : forall x, ok x -> 0 < span x.
Hypothesis Houts : forall n, outs n -> (n < NN)%nat.
Hypothesis Hfree : forall n x t, outs n -> ~ In n (map fst (exts enc (st_of x t))).
Hypothesis Hrel : forall x l l' d, rel x l -> (forall n, outs n -> l' n = map (fun t => t + d) (l n)) -> rel x l'.
Hypothesis one : forall x t K, ok x -> 0 <= t -> t + span x <= INR (S K) * dt ->
  exists s, session bl md enc dt (fun _ => st_of x t) ord (INR K * dt) = Ok (a, s) /\ resting w s /\ rel x (spike_log s).

Fixpoint jobs_ok (from : R) (js : list (X * R)) (T : R) : Prop :=
  match js with [] => from <= T | j :: js' => ok (fst j) /\ from <= snd j /\ jobs_ok (snd j + span (fst j)) js' T end.
Definition job_stims (js : list (X * R)) : list stim := flat_map (fun j => st_of (fst j) (snd j)) js.

Lemma job_stims_ok js : forall from T, jobs_ok from js T -> Forall (stim_ok NN) (job_stims js).
Proof.
  induction js as [|j js IH]; intros from T H; [constructor|]. cbn in H. destruct H as (A1 & _ & A3). unfold job_stims. cbn [flat_map].
  apply Forall_app. split; [apply Hok; auto|eapply IH; eauto].
Qed.
Lemma jobs_end js : forall from T, jobs_ok from js T -> from <= T.
Proof.
  induction js as [|j js IH]; intros from T H; cbn in H; auto. destruct H as (A1 & A2 & A3). apply IH in A3. pose proof (Hspan _ A1). lra.
Qed.
Lemma job_stims_pos js : forall from T p, jobs_ok from js T -> In p (exts enc (job_stims js)) -> from <= snd p.
Proof.
  induction js as [|j js IH]; intros from T p H Hp; [contradiction|]. cbn in H. destruct H as (A1 & A2 & A3). unfold job_stims in Hp. cbn [flat_map] in Hp.
  rewrite exts_app in Hp. apply in_app_or in Hp as [Hp|Hp].
  - apply Hpos in Hp; auto. lra.
  - apply (IH _ _ _ A3) in Hp. pose proof (Hspan _ A1). lra.
Qed.
Lemma job_stims_free js n : outs n -> ~ In n (map fst (exts enc (job_stims js))).
Proof.
  intros Hn. induction js as [|j js IH]; [cbn; auto|]. unfold job_stims. cbn [flat_map]. rewrite exts_app, map_app. intros H. apply in_app_or in H as [H|H]; [eapply Hfree; eauto|auto].
Qed.
Definition sh (d : R) (j : X * R) : X * R := (fst j, snd j - d).
Lemma job_stims_shift d js : exts enc (job_stims js) = later d (exts enc (job_stims (map (sh d) js))).
Proof.
  induction js as [|j js IH]; [reflexivity|]. cbn [map]. change (job_stims (j :: js)) with (st_of (fst j) (snd j) ++ job_stims js).
  change (job_stims (sh d j :: map (sh d) js)) with (st_of (fst j) (snd j - d) ++ job_stims (map (sh d) js)).
  rewrite !exts_app, IH. unfold later at 2. rewrite map_app. fold (later d (exts enc (st_of (fst j) (snd j - d)))). rewrite <- Hshift.
  replace (snd j - d + d) with (snd j) by ring. reflexivity.
Qed.
Lemma jobs_ok_shift d js : forall from T, jobs_ok from js T -> jobs_ok (from - d) (map (sh d) js) (T - d).
Proof.
  induction js as [|j js IH]; cbn [jobs_ok map]; intros from T H; [lra|]. destruct H as (A1 & A2 & A3). cbn [sh fst snd].
  split; [auto|]. split; [lra|]. replace (snd j - d + span (fst j)) with (snd j + span (fst j) - d) by lra. auto.
Qed.
Lemma jobs_ok_from js : forall from from' T, from' <= from -> jobs_ok from js T -> jobs_ok from' js T.
Proof. destruct js as [|j js]; cbn [jobs_ok]; intros from from' T Hf H; [lra|]. intuition lra. Qed.

Theorem session_jobs js T : 0 <= T -> jobs_ok 0 js T ->
  exists s ls, session bl md enc dt (fun _ => job_stims js) ord T = Ok (a, s) /\ Forall2 (fun j l => rel (fst j) l) js ls /\
    forall n, outs n -> spike_log s n = concat (map (fun l => l n) ls).
Proof.
  destruct session_eq as (c & Ew & Ed & WF & ES).
  remember (length js) as q eqn:Hq. revert js T Hq. induction q as [|q IH]; intros js T Hq HT H.
  - destruct js as [|]; [|discriminate]. assert (W : wf c []) by (apply WF; contradiction).
    destruct (num_steps_floor dt T Hdt HT) as (K & EK & _). rewrite <- Ed in EK.
    destruct (simulate_inv c [] ord T K W (ord_sel_ok _ _ HO) EK) as (s & act & E & I).
    exists s, []. rewrite ES by constructor. cbn [job_stims flat_map exts]. rewrite <- Ew, E. split; [reflexivity|]. split; [constructor|].
    intros n Hn. cbn [map concat]. rewrite (i_spk _ _ _ _ _ _ I n) by (rewrite Ew; apply Houts; auto). cbn [ext_spikes filter map app].
    unfold spikes. rewrite (proj2 (filter_empty _ _)); [reflexivity|]. intros k _.
    assert (Z : spikes_at (net_of (c_world c) [] (c_dt c)) n []).
    { apply (no_ext_rest _ (fun n => (n < NN)%nat)); [reflexivity| | |apply Houts; auto].
      - intros m Hm. cbn. rewrite Ew. apply prm_std; [apply HB|auto].
      - intros y Hy. cbn in Hy. pose proof (wf_range _ _ W y Hy) as Q. rewrite Ew in Q. exact Q. }
    rewrite Z. reflexivity.
  - destruct js as [|j js]; [discriminate|]. cbn [length] in Hq. injection Hq as Hq. pose proof H as H0. cbn [jobs_ok] in H. destruct H as (A1 & A2 & A3). destruct j as [x t]. cbn [fst snd] in *.
    set (from := t + span x) in *. pose proof (Hspan x A1) as HSp. assert (Hfrom : 0 < from) by (unfold from; lra).
    pose proof (step_at_bounds dt from Hdt Hfrom) as [BK1 BK2]. pose proof (step_at_ge1 dt from) as BK3.
    set (K := (step_at dt from - 1)%nat).
    assert (HK1 : INR K * dt < from) by (unfold K; rewrite minus_INR by lia; cbn [INR]; lra).
    assert (HK2 : from <= INR (S K) * dt) by (unfold K; replace (S (step_at dt from - 1)) with (step_at dt from) by lia; lra).
    destruct (one x t K A1 A2 HK2) as (sA & EA & RA & PA).
    set (d := INR K * dt) in *. pose proof (jobs_end _ _ _ A3) as HTf.
    assert (A4 : jobs_ok 0 (map (sh d) js) (T - d)) by (apply (jobs_ok_from _ (from - d)); [lra|apply jobs_ok_shift; auto]).
    destruct (IH (map (sh d) js) (T - d)) as (sB & ls & EB & PB & LB); auto; [rewrite map_length; auto|lra|].
    assert (FA : Forall (stim_ok NN) (st_of x t)) by (apply Hok; auto).
    pose proof (job_stims_ok _ _ _ A4) as FB.
    pose proof (WF _ (exts_in enc _ _ FA)) as WA. pose proof (WF _ (exts_in enc _ _ FB)) as WB.
    destruct (simulate_again c _ _ ord ord ord K (T - d) WA WB HO HO HO ltac:(lra)) as (sA' & sB' & s & EA' & EB' & E & HS).
    { intros p y Hp Hy _. rewrite Ew in Hy. pose proof (Hdel y Hy). pose proof (job_stims_pos _ _ _ p A4 Hp). lra. }
    rewrite Ew, Ed in *. fold d in EA', E, HS.
    rewrite ES in EA by auto. rewrite EA' in EA. cbn [rbind] in EA. injection EA as ->.
    rewrite ES in EB by auto. rewrite EB' in EB. cbn [rbind] in EB. injection EB as ->.
    destruct (HS RA) as (HL & _).
    exists s, (spike_log sA :: map (fun l n => map (fun t => t + d) (l n)) ls). split; [|split].
    + rewrite ES by (eapply job_stims_ok; exact H0). change (job_stims ((x, t) :: js)) with (st_of x t ++ job_stims js). rewrite exts_app, (job_stims_shift d).
      replace T with (T - d + d) by lra. rewrite E. reflexivity.
    + constructor; [exact PA|]. clear -PB Hrel. revert js PB. induction ls as [|l ls IHl]; intros [|j js] PB; cbn [map] in *; inversion PB; subst; constructor; auto.
      eapply Hrel; [cbn in H2; exact H2|]. auto.
    + intros n Hn. destruct (HL n (Houts n Hn)) as (_ & Q & _). rewrite Q by (apply job_stims_free; auto). cbn [map concat]. f_equal. rewrite (LB n Hn).
      rewrite concat_map, !map_map. reflexivity.
Qed.
End Jobs.

(** one output neuron *)
Lemma later_pair enc v n t d : exts enc [SValue v n (t + d)] = later d (exts enc [SValue v n t]).
Proof. unfold exts, later. cbn [flat_map stim_ext app map fst snd]. do 3 f_equal. lra. Qed.
Theorem session_jobs1 {A} (bl : B R A) md (a : A) w L enc dt ord X (st_of : A -> X -> R -> list stim) (ok : X -> Prop) (span : X -> R) o (P : X -> list R -> Prop) :
  bl empty_world = Ok (a, w) -> built empty_world w (md a) L -> 0 < dt -> ord_ok ord ->
  (forall y, In y (w_syns w) -> 0 < s_delay y) ->
  (forall x t d, exts enc (st_of a x (t + d)) = later d (exts enc (st_of a x t))) ->
  (forall x t p, ok x -> In p (exts enc (st_of a x t)) -> t <= snd p) ->
  (forall x t, ok x -> Forall (stim_ok (length (w_neurons w))) (st_of a x t)) ->
  (forall x, ok x -> 0 < span x) ->
  (o < length (w_neurons w))%nat -> (forall x t, ~ In o (map fst (exts enc (st_of a x t)))) ->
  (forall x l d, P x l -> P x (map (fun t => t + d) l)) ->
  (forall x t K, ok x -> 0 <= t -> t + span x <= INR (S K) * dt ->
    exists s, session bl md enc dt (fun a => st_of a x t) ord (INR K * dt) = Ok (a, s) /\ resting w s /\ P x (spike_log s o)) ->
  forall js T, 0 <= T -> jobs_ok X ok span 0 js T ->
  exists s ps, session bl md enc dt (fun a => flat_map (fun j => st_of a (fst j) (snd j)) js) ord T = Ok (a, s) /\
    spike_log s o = concat ps /\ Forall2 (fun j p => P (fst j) p) js ps.
Proof.
  intros HE HB Hdt HO Hdel Hsh Hpos Hok Hsp Ho Hfree HP Hone js T HT HJ.
  assert (EQ : forall stims T, session bl md enc dt stims ord T = session bl md enc dt (fun _ => stims a) ord T).
  { intros stims T'. unfold session. rewrite HE. reflexivity. }
  destruct (session_jobs bl md a w L enc dt ord HE HB Hdt HO X (st_of a) ok span (eq o) (fun x l => P x (l o))) with (js := js) (T := T) as (s & ls & E & F & LG); auto.
  - intros n <-. auto.
  - intros n x t <-. auto.
  - intros x l l' d Hl E. rewrite (E o eq_refl). auto.
  - intros x t K Hx Ht HK. destruct (Hone x t K Hx Ht HK) as (s & E & R). rewrite EQ in E. eauto.
  - exists s, (map (fun l => l o) ls). rewrite EQ. split; [exact E|]. split; [apply LG; reflexivity|].
    clear -F. induction F; cbn; constructor; auto.
Qed.
