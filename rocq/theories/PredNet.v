(** Sessions on PredSimulator (C53): build a network, apply inputs, simulate, read the spike log.
    [psession] is the script; [psession_solves] says that any family of spike trains consistent neuron by neuron is the log. *)
From Coq Require Import Arith ZArith Bool List Reals Lra Lia Permutation Sorted.
From Verif Require Import Num NumOrd Heapq Elements Networks CancelQueue PredSim PredNeuron NeuronLib Build BuildNets Trace SimTrace TraceProps Session PredProofs PredRun.
Import ListNotations.
Open Scope list_scope.
Open Scope R_scope.

(** one call of apply_input_value or apply_input_spike (predictive_simulator.py:46-60) *)
Definition pfeed (c : pcfg R) (s : psim R) (x : stim) : res (psim R) :=
  match x with SValue v n t0 => p_input_value c s v n t0 | SSpike n t => p_input_spike c s n t end.
(** net = bl(); sim = PredSimulator(net, enc, dt); inputs; sim.simulate().  [fuel] bounds the turns of the event loop. *)
Definition psession {A} (bl : B R A) (md : A -> nat) (enc : encoder R) (dt : R) (stims : A -> list stim) (fuel : nat) : option (res (A * psim R)) :=
  match (let* aw := bl empty_world in
         let* cs := mk_pred_simulator (snd aw) (md (fst aw)) enc dt in
         let* s1 := rfold (pfeed (fst cs)) (stims (fst aw)) (snd cs) in
         Ok (fst aw, fst cs, s1)) with
  | Err e => Some (Err e)
  | Ok (a, c, s1) => match psimulate fuel c s1 with
                     | None => None
                     | Some (Err e) => Some (Err e)
                     | Some (Ok s2) => Some (Ok (a, s2))
                     end
  end.
(** the run ends, whatever bound of at least N turns is given *)
Definition pruns {A} (bl : B R A) (md : A -> nat) enc dt stims (P : A -> psim R -> Prop) : Prop :=
  exists N, forall fuel, (N <= fuel)%nat -> exists a s, psession bl md enc dt stims fuel = Some (Ok (a, s)) /\ P a s.

(** injected spikes: t0 is ignored by apply_input_value *)
Definition pstim (enc : encoder R) (x : stim) : list (nat * R) :=
  match x with SValue v n _ => [(n, 0); (n, Tmin enc + v * Tcod enc)] | SSpike n t => [(n, t)] end.
Definition pins enc (l : list stim) : list (nat * R) := flat_map (pstim enc) l.

(** ** permutation bookkeeping *)
Lemma fm_app_perm {A B} (f g : A -> list B) l : Permutation (flat_map (fun x => f x ++ g x) l) (flat_map f l ++ flat_map g l).
Proof.
  induction l as [|a l IH]; cbn [flat_map]; [constructor|]. rewrite IH. rewrite <- !app_assoc. apply Permutation_app_head.
  rewrite !app_assoc. apply Permutation_app_tail. apply Permutation_app_comm.
Qed.
Lemma fm_nil {A B} (l : list A) : flat_map (fun _ => @nil B) l = [].
Proof. induction l; auto. Qed.
Lemma fm_swap {A B C} (f : A -> B -> list C) la lb :
  Permutation (flat_map (fun a => flat_map (f a) lb) la) (flat_map (fun b => flat_map (fun a => f a b) la) lb).
Proof.
  induction la as [|a la IH]; cbn [flat_map]; [rewrite fm_nil; constructor|]. rewrite IH. symmetry. apply fm_app_perm.
Qed.
Lemma fm_perm {A B} (f g : A -> list B) l : (forall x, In x l -> Permutation (f x) (g x)) -> Permutation (flat_map f l) (flat_map g l).
Proof. induction l as [|a l IH]; cbn [flat_map]; intros H; [constructor|]. apply Permutation_app; [apply H; left; auto|]. apply IH. intros x Hx. apply H; right; auto. Qed.
Lemma fm_pick {B} (g : list B) k : forall keys, NoDup keys -> In k keys -> flat_map (fun n => if (k =? n)%nat then g else []) keys = g.
Proof.
  induction keys as [|a l IH]; intros ND Hin; [destruct Hin|]. apply NoDup_cons_iff in ND as [Ha ND]. cbn [flat_map].
  destruct (Nat.eqb_spec k a) as [->|Hne].
  - assert (E : flat_map (fun n => if (a =? n)%nat then g else []) l = []).
    { clear -Ha. induction l as [|b l IH]; auto. cbn [flat_map]. destruct (Nat.eqb_spec a b) as [->|]; [destruct Ha; left; auto|]. apply IH. intros H; apply Ha; right; auto. }
    rewrite E. apply app_nil_r.
  - cbn [app]. apply IH; auto. destruct Hin; [congruence|auto].
Qed.
Lemma map_fm {A B C} (f : B -> C) (g : A -> list B) l : map f (flat_map g l) = flat_map (fun x => map f (g x)) l.
Proof. induction l as [|a l IH]; cbn [flat_map map]; auto. rewrite map_app, IH. auto. Qed.
Lemma fm_single {A B} (f : A -> B) l : map f l = flat_map (fun x => [f x]) l.
Proof. induction l as [|a l IH]; [reflexivity|]. cbn [map flat_map app]. rewrite IH. reflexivity. Qed.
Lemma filter_fm {A} (f : A -> bool) l : filter f l = flat_map (fun x => if f x then [x] else []) l.
Proof. induction l as [|a l IH]; cbn; auto. destruct (f a); cbn; rewrite IH; auto. Qed.
Lemma fm_fm {A B C} (f : B -> list C) (g : A -> list B) l : flat_map f (flat_map g l) = flat_map (fun x => flat_map f (g x)) l.
Proof. induction l as [|a l IH]; cbn [flat_map]; auto. rewrite flat_map_app, IH. auto. Qed.

(** a timetable without its grouping *)
Definition ungroup (tl : list (R * list (syntype * R))) : list (R * (syntype * R)) := flat_map (fun g => map (fun h => (fst g, h)) (snd g)) tl.
(** all hits that neuron n receives: injected spikes (weight Vt) and what its incoming synapses deliver *)
Definition received (vt : R) (L : list (synapse R)) (ins : list (nat * R)) (F : nat -> list R) (n : nat) : list (R * (syntype * R)) :=
  flat_map (fun p => if (fst p =? n)%nat then [(snd p, (SynV, vt))] else []) ins ++
  flat_map (fun y => if (s_post y =? n)%nat then map (fun t => (t + s_delay y, (s_ty y, s_w y))) (F (s_pre y)) else []) L.
Definition tohit (n : nat) (h : R * (syntype * R)) : R * upayload R := (fst h, Hit n (fst (snd h)) (snd (snd h))).
Lemma flat_ungroup n tl : flat n tl = map (tohit n) (ungroup tl).
Proof. unfold flat, ungroup. rewrite map_fm. apply flat_map_ext. intros g. rewrite map_map. reflexivity. Qed.
Lemma perm_global c keys ins hits F : NoDup keys -> (forall p, In p ins -> In (fst p) keys) ->
  (forall y, In y (w_syns (pc_world c)) -> In (s_post y) keys /\ In (s_pre y) keys) ->
  (forall n, In n keys -> Permutation (ungroup (hits n)) (received (Vt (prm_of c n)) (w_syns (pc_world c)) ins F n)) ->
  Permutation (flat_map (fun n => flat n (hits n)) keys) (map (input_hit c) ins ++ flat_map (fun n => sent (pc_world c) n (F n)) keys).
Proof.
  intros ND HI HS HP. set (L := w_syns (pc_world c)) in *.
  rewrite (fm_perm _ (fun n => map (tohit n) (received (Vt (prm_of c n)) L ins F n))); [|intros n Hn; rewrite flat_ungroup; apply Permutation_map, HP; auto].
  set (pa := fun n (p : nat * R) => if (fst p =? n)%nat then [(snd p, (SynV, Vt (prm_of c n)))] else []).
  set (pb := fun n (y : synapse R) => if (s_post y =? n)%nat then map (fun t => (t + s_delay y, (s_ty y, s_w y))) (F (s_pre y)) else []).
  rewrite (flat_map_ext _ (fun n => flat_map (fun p => map (tohit n) (pa n p)) ins ++ flat_map (fun y => map (tohit n) (pb n y)) L));
    [|intros n; unfold received; rewrite map_app, !map_fm; reflexivity].
  rewrite fm_app_perm. apply Permutation_app.
  - rewrite fm_swap, fm_single. apply fm_perm. intros p Hp.
    rewrite (flat_map_ext _ (fun n => if (fst p =? n)%nat then [input_hit c p] else [])).
    + rewrite fm_pick; auto.
    + intros n. unfold pa. destruct (Nat.eqb_spec (fst p) n) as [<-|]; reflexivity.
  - rewrite fm_swap.
    set (G := fun y => map (fun t => (t + s_delay y, Hit (s_post y) (s_ty y) (s_w y))) (F (s_pre y))).
    transitivity (flat_map G L).
    + apply fm_perm. intros y Hy. rewrite (flat_map_ext _ (fun n => if (s_post y =? n)%nat then G y else [])).
      * rewrite fm_pick; auto. apply HS; auto.
      * intros n. unfold pb. destruct (Nat.eqb_spec (s_post y) n) as [<-|]; auto. rewrite map_map. reflexivity.
    + symmetry. etransitivity; [apply (fm_perm _ (fun n => flat_map (fun y => if (s_pre y =? n)%nat then G y else []) L))|].
      * intros n Hn. unfold sent, hits_from, out_syn. fold L.
        rewrite (flat_map_ext _ _ (fun t => fm_single _ (filter (fun s => (s_pre s =? n)%nat) L))). rewrite fm_swap.
        rewrite filter_fm, fm_fm. apply fm_perm. intros y Hy. destruct (Nat.eqb_spec (s_pre y) n) as [<-|]; cbn [flat_map]; auto.
        rewrite app_nil_r. unfold G. rewrite fm_single. reflexivity.
      * rewrite fm_swap. apply fm_perm. intros y Hy. rewrite fm_pick; auto. apply HS; auto.
Qed.

(** ** reduction *)
Lemma stdp_run_prm (w : world R) n nr : inv w -> nth_error (w_neurons w) n = Some nr -> nr_params nr = stdp.
Proof. intros I E. rewrite (i_prm _ I n nr E). apply std_params_R. Qed.
Lemma pfeed_all c : forall l done s, Forall (stim_ok (length (w_neurons (pc_world c)))) l -> (forall n, (n < length (w_neurons (pc_world c)))%nat -> In n (pc_keys c)) ->
  pinputs c done s -> exists s', rfold (pfeed c) l s = Ok s' /\ pinputs c (done ++ pins (pc_enc c) l) s'.
Proof.
  assert (HS : forall n t s done, (n < length (w_neurons (pc_world c)))%nat -> (forall n, (n < length (w_neurons (pc_world c)))%nat -> In n (pc_keys c)) -> pinputs c done s ->
     exists s', p_input_spike c s n t = Ok s' /\ pinputs c (done ++ [(n, t)]) s').
  { intros n t s done Hn HK HP. destruct (nth_some _ _ Hn) as [nr E]. unfold p_input_spike. eexists. rewrite E. split; [reflexivity|].
    econstructor; eauto. unfold p_input_spike. rewrite E. reflexivity. }
  induction l as [|x l IH]; intros done s HF HK HP; [exists s; cbn; rewrite app_nil_r; auto|].
  apply Forall_cons_iff in HF as [Hx HF]. cbn [rfold].
  assert (E : exists s1, pfeed c s x = Ok s1 /\ pinputs c (done ++ pstim (pc_enc c) x) s1).
  { destruct x as [v n t0|n t]; cbn [pfeed pstim stim_ok] in *.
    - destruct Hx as [[Hv1 Hv2] Hn]. destruct (HS n 0 s done Hn HK HP) as (s1 & E1 & P1).
      destruct (HS n (Tmin (pc_enc c) + v * Tcod (pc_enc c)) s1 _ Hn HK P1) as (s2 & E2 & P2).
      exists s2. split; [|rewrite <- app_assoc in P2; exact P2].
      unfold p_input_value, encode_value, ngeb, nzero, n_one. cbn [nleb R_num nofZ].
      rewrite (proj2 (Rleb_true 0 v)), (proj2 (Rleb_true v 1)) by auto. cbn [andb negb rbind fst snd].
      rewrite E1. cbn [rbind]. cbn [nadd nmul R_num]. exact E2.
    - apply HS; auto. }
  destruct E as (s1 & E1 & P1). rewrite E1. cbn [rbind].
  destruct (IH _ _ HF HK P1) as (s2 & E2 & P2). exists s2. split; auto. cbn [pins flat_map]. rewrite app_assoc. auto.
Qed.
(** horizon of the prediction, in steps *)
Definition horizon (dt : R) : Z := Rtrunc (500 / dt).
Lemma horizon_floor dt : 0 < dt -> horizon dt = Int_part (500 / dt).
Proof. intros H. unfold horizon, Rtrunc. destruct (Rle_dec 0 (500 / dt)) as [|C]; auto. assert (0 < 500 / dt) by (apply Rdiv_lt_0_compat; lra). lra. Qed.
Lemma horizon_lt dt k : 0 < dt -> INR k * dt + dt <= 500 -> (Z.of_nat k < horizon dt)%Z.
Proof.
  intros H HK. rewrite horizon_floor by auto. destruct (base_Int_part (500 / dt)) as [B1 B2]. apply lt_IZR. rewrite <- INR_IZR_INZ.
  assert (INR k + 1 <= 500 / dt); [|lra]. apply Rmult_le_reg_r with dt; auto. unfold Rdiv. rewrite (Rmult_assoc 500), Rinv_l, Rmult_1_r by lra. lra.
Qed.
Lemma horizon_ge dt k : 0 < dt -> 500 <= INR k * dt -> (horizon dt <= Z.of_nat k)%Z.
Proof.
  intros H HK. rewrite horizon_floor by auto. destruct (base_Int_part (500 / dt)) as [B1 B2]. apply le_IZR. rewrite <- INR_IZR_INZ.
  eapply Rle_trans; [exact B1|]. apply Rmult_le_reg_r with dt; auto. unfold Rdiv. rewrite (Rmult_assoc 500), Rinv_l, Rmult_1_r by lra. lra.
Qed.
Lemma horizon_pos dt : 0 < dt -> (0 <= horizon dt)%Z.
Proof.
  intros H. rewrite horizon_floor by auto. destruct (base_Int_part (500 / dt)) as [B1 B2]. assert (0 < 500 / dt) by (apply Rdiv_lt_0_compat; lra).
  apply Z.lt_succ_r. apply lt_IZR. rewrite succ_IZR. lra.
Qed.
Definition nat_run dt := neuron_run stdp dt (horizon dt).
Definition rest0 : pneuron R := {| pn_st := init_nstate stdp; pn_last := 0 |}.
Lemma psession_solves {A} (bl : B R A) (md : A -> nat) a (w : world R) L enc dt stims (hits : nat -> list (R * list (syntype * R))) (F : nat -> list R) :
  bl empty_world = Ok (a, w) -> built empty_world w (md a) L -> 0 < dt -> (horizon dt < 2 ^ 64)%Z ->
  Forall (stim_ok (length (w_neurons w))) (stims a) -> (forall y, In y L -> 0 < s_delay y) ->
  (forall n, (n < length (w_neurons w))%nat -> nat_run dt rest0 (hits n) (F n)) ->
  (forall n, (n < length (w_neurons w))%nat -> StronglySorted (fun a b => fst a < fst b) (hits n)) ->
  (forall n g, (n < length (w_neurons w))%nat -> In g (hits n) -> snd g <> []) ->
  (forall n, (n < length (w_neurons w))%nat -> Permutation (ungroup (hits n)) (received 10 L (pins enc (stims a)) F n)) ->
  exists N, forall fuel, (N <= fuel)%nat -> exists s, psession bl md enc dt stims fuel = Some (Ok (a, s)) /\
    forall n, (n < length (w_neurons w))%nat -> pspike_log s n = F n.
Proof.
  intros E [I X Em Hl O ES _] Hdt HM HF HD HR HS HN HP. cbn in Em, ES. rewrite Em in O.
  destruct (covers_all w I O ltac:(lia)) as (keys & Ek & HK).
  set (c := {| pc_world := w; pc_keys := keys; pc_enc := enc; pc_dt := dt; pc_max := horizon dt |}).
  assert (Ec : mk_pred_simulator w (md a) enc dt = Ok (c, new_psim w)).
  { unfold mk_pred_simulator, pdiv, nzero. cbn [neqb nofZ R_num ndiv ntrunc]. rewrite (proj2 (Reqb_false dt 0)) by lra. cbn [rbind].
    rewrite Em, Ek. reflexivity. }
  assert (PR : forall n, (n < length (w_neurons w))%nat -> prm_of c n = stdp).
  { intros n Hn. destruct (nth_some _ _ Hn) as [nr En]. rewrite (prm_eq c n nr En). apply (stdp_run_prm w n nr I En). }
  assert (WF : pwf c).
  { constructor; cbn [c pc_world pc_keys pc_dt pc_max].
    - intros n nr En. rewrite (stdp_run_prm w n nr I En). cbn. split; lra.
    - intros n Hn. apply HK; auto.
    - intros y Hy. destruct (i_syn _ I y Hy) as (_ & B & C). split; [apply HK; auto|]. split; auto. left. apply HD. rewrite ES in Hy. auto.
    - auto.
    - split; auto. apply horizon_pos; auto. }
  destruct (pfeed_all c (stims a) [] (new_psim w)) as (s1 & E1 & P1); [exact HF|intros n Hn; apply HK; auto|constructor|].
  cbn [app] in P1. change (pc_enc c) with enc in P1.
  assert (SK : forall n, In n (seq 0 (length (w_neurons w))) <-> (n < length (w_neurons w))%nat) by (intros n; rewrite in_seq; lia).
  destruct (pred_network c WF (seq 0 (length (w_neurons w)))) with (ins := pins enc (stims a)) (s := s1) (hits := hits) (F := F) as [N HRun].
  - apply seq_NoDup.
  - intros n. rewrite SK. cbn [c pc_keys]. rewrite HK. tauto.
  - intros n Hn. rewrite PR by (apply SK; auto). cbn. lra.
  - intros y Hy. cbn [c pc_world] in Hy. rewrite ES in Hy. auto.
  - exact P1.
  - intros n Hn. apply SK in Hn. unfold nrun. rewrite PR by auto. apply HR; auto.
  - intros n Hn. apply HS, SK; auto.
  - intros n g Hn. apply HN, SK; auto.
  - apply perm_global.
    + apply seq_NoDup.
    + intros p Hp. apply SK. clear -HF Hp. unfold pins in Hp. apply in_flat_map in Hp as (x & Hx & Hp). rewrite Forall_forall in HF. specialize (HF x Hx).
      destruct x as [v n t0|n t]; cbn in HF, Hp; [destruct Hp as [<-|[<-|[]]]|destruct Hp as [<-|[]]]; cbn; tauto.
    + intros y Hy. destruct (i_syn _ I y Hy) as (B1 & B2 & _). split; apply SK; auto.
    + intros n Hn. rewrite PR by (apply SK; auto). cbn [c pc_world Vt stdp]. rewrite ES. apply HP, SK; auto.
  - exists N. intros fuel Hf. destruct (HRun fuel Hf) as (s & Es & HL). exists s. split.
    + unfold psession. rewrite E. cbn [rbind fst snd]. rewrite Ec. cbn [rbind fst snd]. rewrite E1. cbn [rbind]. rewrite Es. reflexivity.
    + intros n Hn. apply HL, SK; auto.
Qed.

(** ** rules for neurons driven by V and ge synapses only *)
Definition pn (v g l : R) : pneuron R := {| pn_st := {| V := v; ge := g; gf := 0; gate := 0 |}; pn_last := l |}.
Lemma rest0_pn : rest0 = pn 0 0 0. Proof. reflexivity. Qed.
Lemma fired_pn v g l : fired_at stdp (pn v g l) = pn 0 0 l. Proof. reflexivity. Qed.
Lemma traj_pn v g dt k : PredNeuron.traj stdp {| V := v; ge := g; gf := 0; gate := 0 |} dt k = v + g / 100 * (IZR k * dt).
Proof. unfold PredNeuron.traj. cbn [V ge gf gate tm tf stdp]. unfold Rdiv. ring. Qed.
Lemma advance_pn v g l t hs : wsum SynGf hs = 0 -> wsum SynGate hs = 0 ->
  advance stdp (pn v g l) t hs = pn (v + g / 100 * (t - l) + wsum SynV hs) (g + wsum SynGe hs) t.
Proof.
  intros E1 E2. unfold advance, pn. cbn [pn_st pn_last V ge gf gate]. rewrite E1, E2. f_equal. f_equal; try ring.
  - unfold ffV. cbn [V ge gf gate tm tf stdp]. destruct (Req_EM_T 0 0); [|congruence]. lra.
  - unfold ffG. cbn [gf]. ring.
Qed.
Section Rules.
Variable dt : R.
Hypothesis Hdt : 0 < dt.
Hypothesis HM : (horizon dt < 2 ^ 64)%Z.
Local Notation P := (pend stdp dt (horizon dt)).
Local Notation run := (nat_run dt).
Lemma pend_eq x : forall r, predict_spike stdp (pn_st x) dt (horizon dt) = Ok r -> P x = match r with Some d => Some (pn_last x + d) | None => None end.
Proof. unfold pend. intros r ->. reflexivity. Qed.
(** ramp duration in steps *)
Definition ramp (v g : R) : nat := step_at dt ((10 - v) * 100 / g).
Lemma pend_quiet v g l : v < 10 -> g <= 0 -> P (pn v g l) = None.
Proof.
  intros Hv Hg. destruct (predict_sound stdp (pn_st (pn v g l)) dt (horizon dt)) as (r & E & Hr); [cbn; lra|cbn; lra|split; [apply horizon_pos; auto|auto]|].
  rewrite (pend_eq _ _ E). destruct r as [d|]; auto. exfalso. destruct (Hr d eq_refl) as (k & Hk & -> & H). cbn [pn pn_st] in H. rewrite traj_pn in H. cbn [Vt stdp] in H.
  assert (0 <= IZR k * dt) by (apply Rmult_le_pos; [apply IZR_le; lia|lra]). assert (g / 100 * (IZR k * dt) <= 0); [|lra].
  assert (0 <= (- g / 100) * (IZR k * dt)) by (apply Rmult_le_pos; lra). lra.
Qed.
Lemma pend_exc v g l : 0 <= g ->
  (exists k, (0 <= k < horizon dt)%Z /\ P (pn v g l) = Some (l + IZR k * dt) /\ 10 <= v + g / 100 * (IZR k * dt) /\ forall j, (0 <= j < k)%Z -> v + g / 100 * (IZR j * dt) < 10) \/
  (P (pn v g l) = None /\ forall j, (0 <= j < horizon dt)%Z -> v + g / 100 * (IZR j * dt) < 10).
Proof.
  intros Hg. destruct (predict_excitatory stdp (pn_st (pn v g l)) dt (horizon dt)) as [(k & Hk & E & H1 & H2)|(E & H1)]; cbn [pn pn_st V ge gf gate tm tf stdp]; try lra.
  - split; [apply horizon_pos; auto|auto].
  - left. exists k. split; auto. rewrite (pend_eq _ _ E). cbn [pn pn_st] in H1, H2. rewrite traj_pn in H1. split; auto. split; auto.
    intros j Hj. specialize (H2 j Hj). rewrite traj_pn in H2. exact H2.
  - right. rewrite (pend_eq _ _ E). split; auto. intros j Hj. specialize (H1 j Hj). cbn [pn pn_st] in H1. rewrite traj_pn in H1. exact H1.
Qed.
Lemma pend_now v g l : 10 <= v -> 0 <= g -> dt <= 500 -> P (pn v g l) = Some l.
Proof.
  intros Hv Hg Hh. assert (H0 : (0 < horizon dt)%Z) by (apply (horizon_lt dt 0); cbn; lra).
  destruct (pend_exc v g l Hg) as [(k & Hk & E & H1 & H2)|(E & H1)].
  - destruct (Z.eq_dec k 0) as [->|Hne]; [rewrite E; f_equal; ring|]. specialize (H2 0%Z ltac:(lia)). lra.
  - specialize (H1 0%Z ltac:(lia)). lra.
Qed.
Lemma ramp_spec v g k : v < 10 -> 0 < g -> (1 <= k)%nat -> ((ramp v g <= k)%nat <-> 10 <= v + g / 100 * (INR k * dt)).
Proof.
  intros Hv Hg Hk. unfold ramp. rewrite (step_at_le dt _ k Hdt Hk). split; intros H.
  - apply (Rmult_le_compat_l (g / 100)) in H; [|lra]. replace (g / 100 * ((10 - v) * 100 / g)) with (10 - v) in H by (field; lra). lra.
  - apply (Rmult_le_reg_l (g / 100)); [lra|]. replace (g / 100 * ((10 - v) * 100 / g)) with (10 - v) by (field; lra). lra.
Qed.
Lemma pend_ramp v g l : v < 10 -> 0 < g -> P (pn v g l) = if (Z.of_nat (ramp v g) <? horizon dt)%Z then Some (l + INR (ramp v g) * dt) else None.
Proof.
  intros Hv Hg. pose proof (step_at_ge1 dt ((10 - v) * 100 / g)) as K1. fold (ramp v g) in K1.
  destruct (pend_exc v g l ltac:(lra)) as [(k & Hk & E & H1 & H2)|(E & H1)].
  - destruct (Z.eq_dec k 0) as [->|Hne]; [lra|]. assert (Hz : k = Z.of_nat (Z.to_nat k)) by lia.
    assert (Ek : ramp v g = Z.to_nat k).
    { apply Nat.le_antisymm.
      - apply (ramp_spec v g); auto; [lia|]. rewrite INR_IZR_INZ, <- Hz. auto.
      - destruct (le_lt_dec (Z.to_nat k) (ramp v g)) as [|C]; auto. exfalso. specialize (H2 (Z.of_nat (ramp v g)) ltac:(lia)).
        rewrite <- INR_IZR_INZ in H2. pose proof (proj1 (ramp_spec v g (ramp v g) Hv Hg K1) (le_n _)). lra. }
    rewrite Ek, <- Hz. destruct (Z.ltb_spec k (horizon dt)); [|lia]. rewrite E. f_equal. f_equal. f_equal. rewrite INR_IZR_INZ, <- Hz. auto.
  - destruct (Z.ltb_spec (Z.of_nat (ramp v g)) (horizon dt)) as [C|C]; auto. exfalso. specialize (H1 (Z.of_nat (ramp v g)) ltac:(lia)).
    rewrite <- INR_IZR_INZ in H1. pose proof (proj1 (ramp_spec v g (ramp v g) Hv Hg K1) (le_n _)). lra.
Qed.
(** the run ends below threshold *)
Lemma r_end v g l : v < 10 -> g <= 0 -> run (pn v g l) [] [].
Proof. intros. apply nr_end. apply pend_quiet; auto. Qed.
(** a ramp that does not reach the threshold within the horizon is never noticed *)
Lemma r_far v g l : v < 10 -> 0 < g -> 500 <= INR (ramp v g) * dt -> run (pn v g l) [] [].
Proof.
  intros Hv Hg HR. apply nr_end. rewrite pend_ramp by auto. pose proof (horizon_ge dt _ Hdt HR). destruct (Z.ltb_spec (Z.of_nat (ramp v g)) (horizon dt)); auto. lia.
Qed.
Lemma r_now v g l tl F : 10 <= v -> 0 <= g -> dt <= 500 -> (forall h, In h tl -> l <= fst h) -> run (pn 0 0 l) tl F -> run (pn v g l) tl (l :: F).
Proof. intros Hv Hg Hh Hl HR. apply nr_fire; auto. apply pend_now; auto. Qed.
Lemma r_ramp v g l t tl F : v < 10 -> 0 < g -> t = l + INR (ramp v g) * dt -> INR (ramp v g) * dt + dt <= 500 -> (forall h, In h tl -> t <= fst h) ->
  run (pn 0 0 l) tl F -> run (pn v g l) tl (t :: F).
Proof.
  intros Hv Hg -> Hh Hl HR. apply nr_fire; auto. rewrite pend_ramp by auto. pose proof (horizon_lt dt _ Hdt Hh).
  destruct (Z.ltb_spec (Z.of_nat (ramp v g)) (horizon dt)); auto. lia.
Qed.
Lemma r_hit v g l t hs tl F v' g' : v < 10 -> g <= 0 \/ t < l + INR (ramp v g) * dt -> wsum SynGf hs = 0 -> wsum SynGate hs = 0 ->
  v' = v + g / 100 * (t - l) + wsum SynV hs -> g' = g + wsum SynGe hs -> run (pn v' g' t) tl F -> run (pn v g l) ((t, hs) :: tl) F.
Proof.
  intros Hv Hg E1 E2 -> -> HR. apply nr_hit.
  - intros f Hf. destruct Hg as [Hg|Hg]; [rewrite pend_quiet in Hf by auto; discriminate|].
    destruct (Rle_lt_dec g 0) as [Hg0|Hg0]; [rewrite pend_quiet in Hf by auto; discriminate|].
    rewrite pend_ramp in Hf by auto. destruct (Z.ltb _ _); [|discriminate]. injection Hf as <-. auto.
  - rewrite advance_pn by auto. exact HR.
Qed.
(** a neuron at rest that only gets hits of at least Vt, at increasing times, fires at each *)
Lemma r_relay : forall ts l w, 10 <= w -> dt <= 500 -> StronglySorted Rlt ts -> run (pn 0 0 l) (map (fun t => (t, [(SynV, w)])) ts) ts.
Proof.
  induction ts as [|t ts IH]; intros l w Hw Hh HS; cbn [map]; [apply r_end; lra|]. inversion HS as [|a b HS' HF]; subst.
  eapply r_hit; [lra|left; lra| | | | |].
  - unfold wsum, sumf, sumR; cbn; ring.
  - unfold wsum, sumf, sumR; cbn; ring.
  - reflexivity.
  - reflexivity.
  - apply r_now; auto.
    + unfold wsum, sumf, sumR; cbn. lra.
    + unfold wsum, sumf, sumR; cbn. lra.
    + intros h Hh2. apply in_map_iff in Hh2 as (u & <- & Hu). rewrite Forall_forall in HF. cbn. left. auto.
Qed.
End Rules.
