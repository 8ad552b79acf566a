(** SignFlipperNetwork and InvertingMemoryNetwork used again and again (C21, C23, C63). *)
From Coq Require Import Arith ZArith Bool List Reals Lra Lia Permutation.
From Verif Require Import Num Heapq Elements Simulator Networks Trace SimTrace SimProps TraceProps NeuronLib NetLib Build BuildNets Bridge MemoryProof GeLib Session SegLib SimpleNets InvMem Restart MemReuse Reuse Jobs Settle RestFun LinComb LinReuse ConstReuse.
Import ListNotations.
Open Scope R_scope.
Open Scope list_scope.

(** ** SignFlipperNetwork: a job is an input (true = plus) and a magnitude; it appears on the other side *)
Definition flip_span (tmin tcod dt : R) : R := 1 + (tmin + tcod) + 2 * dt.
Lemma flip_quiet (tmin tcod x dt t0 : R) (plus : bool) K f w nm :
  0 < dt -> 0 < tcod -> dt <= tmin -> 0 <= x <= 1 -> 0 <= t0 -> t0 + flip_span tmin tcod dt <= INR (S K) * dt ->
  let enc := DataEncoder tmin tcod in
  SignFlipperNetwork enc nm empty_world = Ok (f, w) -> built empty_world w (sf_mod f) (sf_syns f) -> sf_nodes f = seq 0 4 -> length (w_neurons w) = 4%nat ->
  quiet (net_of w (exts enc [SValue x (if plus then sf_inp_plus f else sf_inp_minus f) t0]) dt) 4 K.
Proof.
  intros Hdt Htc Htm Hx Ht0 HT enc E HB HN HL. unfold flip_span in HT. rewrite S_INR in HT.
  set (stims := fun f => [SValue x (if plus then sf_inp_plus f else sf_inp_minus f) t0]).
  pose proof HN as HN'. unfold sf_nodes in HN'. nodes_eqs HN'.
  destruct (session_built (SignFlipperNetwork enc nm) sf_mod f w _ enc dt stims (fun _ l => l) (INR K * dt) E HB Hdt ltac:(lra)) as (s & Es & HSe).
  { unfold stims. destruct plus; stims_ok. } { intros i l. reflexivity. }
  change [SValue x (if plus then sf_inp_plus f else sf_inp_minus f) t0] with (stims f).
  set (N := net_of w (exts enc (stims f)) dt) in *. unfold stims in *.
  set (i := if plus then sf_inp_plus f else sf_inp_minus f) in *.
  set (i' := if plus then sf_inp_minus f else sf_inp_plus f) in *.
  set (o := if plus then sf_outp_minus f else sf_outp_plus f).
  set (o' := if plus then sf_outp_plus f else sf_outp_minus f).
  assert (Hi : (i < 4 /\ i <> i' /\ i' < 4 /\ o < 4 /\ o' < 4 /\ i <> o /\ i <> o' /\ o <> o' /\ i' <> o /\ i' <> o')%nat) by (unfold i, i', o, o'; destruct plus; lia).
  assert (Hno : forall n, filter (fun y => (s_post y =? n)%nat) (sf_syns (T:=R) f) =
     (if (n =? o)%nat then [syn i o SynV we cTsyn] else if (n =? o')%nat then [syn i' o' SynV we cTsyn] else [])).
  { intros n. unfold sf_syns, o, o', i, i'. cbn [filter s_post syn]. destruct plus;
      repeat (match goal with |- context [Nat.eqb ?a ?b] => destruct (Nat.eqb_spec a b) end; subst; try lia; try reflexivity). }
  assert (HyL : forall y, In y (sf_syns (T:=R) f) -> y = syn i o SynV we cTsyn \/ y = syn i' o' SynV we cTsyn).
  { unfold sf_syns, i, i', o, o'. intros y [<-|[<-|[]]]; destruct plus; auto. }
  assert (HF : forall n, ext_spikes (exts enc [SValue x i t0]) n = if (i =? n)%nat then [t0; t0 + (tmin + x * tcod)] else []).
  { intros n. unfold ext_spikes, exts. cbn [flat_map stim_ext app filter fst]. destruct (i =? n)%nat; reflexivity. }
  clearbody i i' o o'.
  pose proof (b_syn _ _ _ _ HB) as ES. cbn [w_syns empty_world app] in ES.
  set (iv := tmin + x * tcod) in *.
  assert (Hxc : 0 <= x * tcod <= tcod) by (split; [apply Rmult_le_pos; lra|rewrite <- (Rmult_1_l tcod) at 2; apply Rmult_le_compat_r; lra]).
  assert (Hiv : dt <= iv <= tmin + tcod) by (unfold iv; lra).
  assert (HA : arrs N i cTsyn [step_at dt (t0 + 1); step_at dt (t0 + 1 + iv)]).
  { replace [step_at dt (t0 + 1); step_at dt (t0 + 1 + iv)] with (map (fun t => step_at dt (t + cTsyn)) [t0; t0 + iv]).
    2:{ cbn [map]. rewrite cTsyn_R. do 3 f_equal. lra. }
    eapply (se_arrs _ _ _ _ _ _ _ _ HSe); [lia| |rewrite HF, Nat.eqb_refl; reflexivity|reflexivity]. rewrite Hno. eqbs. reflexivity. }
  assert (HA' : arrs N i' cTsyn []).
  { eapply (se_arrs _ _ _ _ _ _ _ _ HSe); [lia| |rewrite HF; eqbs; reflexivity|reflexivity]. rewrite Hno. eqbs. reflexivity. }
  destruct (step_diff dt (t0 + 1) iv Hdt ltac:(lra) ltac:(lra)) as (Q1 & Q2 & Q3). specialize (Q3 ltac:(lra)).
  pose proof (step_time dt (t0 + 1 + iv) Hdt ltac:(lra)) as Z2. pose proof (step_at_ge1 dt (t0 + 1)) as Hge.
  set (a1 := step_at dt (t0 + 1)) in *. set (a2 := step_at dt (t0 + 1 + iv)) in *.
  assert (HK : (a2 <= K)%nat).
  { assert (a2 < K + 1)%nat; [|lia]. apply INR_lt. rewrite plus_INR. apply Rmult_lt_reg_r with dt; auto. cbn [INR]. lra. }
  assert (Hin : forall n l, (n < 4)%nat -> n <> i -> filter (fun y => (s_post y =? n)%nat) (sf_syns f) = l -> ins N n l).
  { intros n l Hn Hni Hl. eapply own_ins; [|exact Hl]. apply (se_own _ _ _ _ _ _ _ _ HSe); [lia|]. rewrite HF. eqbs. reflexivity. }
  assert (Io : ins N o [mks i o SynV we cTsyn]) by (apply Hin; try lia; rewrite Hno, Nat.eqb_refl; reflexivity).
  assert (Io' : ins N o' [mks i' o' SynV we cTsyn]) by (apply Hin; try lia; rewrite Hno; eqbs; reflexivity).
  assert (HS : spikes_at N o [a1; a2]) by (eapply relay; [exact Io|rewrite we_R; lra|exact HA|cbn; lia]).
  assert (SRC : forall n, (n < 4)%nat -> n <> o -> n <> o' -> in_syn N n = [] /\ t_prm N n = stdp).
  { intros n Hn Hne Hne'. split; [|cbn; apply prm_std; [apply HB|lia]]. eapply src_in; [exact ES|]. rewrite Hno. eqbs. reflexivity. }
  constructor.
  - intros p y Hp Hy Ep. cbn [N net_of t_ext t_syns t_dt] in *. rewrite ES in Hy.
    assert (HD : s_delay y = 1) by (destruct (HyL y Hy) as [->| ->]; cbn [s_delay syn]; apply cTsyn_R). rewrite HD.
    unfold exts in Hp. cbn [flat_map stim_ext app In] in Hp. destruct Hp as [<-|[<-|[]]]; cbn [snd].
    + fold a1. lia.
    + replace (t0 + (Tmin enc + x * Tcod enc) + 1) with (t0 + 1 + iv) by (unfold iv, enc; cbn; lra). fold a2. lia.
  - intros q Hq. destruct (Nat.eq_dec q o) as [->|Hne]; [|destruct (Nat.eq_dec q o') as [->|Hne']; [|apply src_settled; apply SRC; auto]].
    + eapply (ins_settled _ _ _ a2); [exact Io|eapply spk_last; [exact HS|right; left; auto]| |exact HK].
      repeat constructor; cbn [s_pre s_delay mks]; (eapply over_arrs; [eassumption|]); cbn [In]; intros ? [<-|[<-|[]]]; lia.
    + eapply none_settled; [exact Io'|]. intros y [<-|[]]. cbn [s_pre s_delay mks]. exact HA'.
  - intros y j Hy Hj Hs. cbn [N net_of t_syns t_dt] in *. rewrite ES in Hy. fold N in Hs.
    assert (S0 : spikes_at N i []) by (apply source_silent; apply SRC; lia). assert (S1 : spikes_at N i' []) by (apply source_silent; apply SRC; lia).
    destruct (HyL y Hy) as [->| ->]; cbn [s_pre syn] in Hs; [rewrite S0 in Hs|rewrite S1 in Hs]; discriminate.
Qed.

(** what a flipped job leaves on the two outputs *)
Definition says_flip (enc : encoder R) (eps : R) (j : bool * R) (plus minus : list R) : Prop :=
  if fst j then pair_says enc (snd j) eps minus /\ plus = [] else pair_says enc (snd j) eps plus /\ minus = [].
Lemma says_flip_shift enc eps v p m d : says_flip enc eps v p m -> says_flip enc eps v (map (fun t => t + d) p) (map (fun t => t + d) m).
Proof. unfold says_flip. destruct (fst v); intros [A ->]; split; auto using says_shift. Qed.

Theorem flipper_reuse (tmin tcod dt T : R) (js : list ((bool * R) * R)) nm ord :
  0 < dt -> 0 < tcod -> dt <= tmin -> ord_ok ord -> 0 <= T ->
  jobs_ok (bool * R) (fun x : bool * R => 0 <= snd x <= 1) (fun _ => flip_span tmin tcod dt) 0 js T ->
  exists m s ps,
    session (SignFlipperNetwork (DataEncoder tmin tcod) nm) sf_mod (DataEncoder tmin tcod) dt
      (fun m => map (fun j : bool * R * R => SValue (snd (fst j)) (if fst (fst j) then sf_inp_plus m else sf_inp_minus m) (snd j)) js) ord T = Ok (m, s) /\
    spike_log s (sf_outp_plus m) = concat (map fst ps) /\ spike_log s (sf_outp_minus m) = concat (map snd ps) /\
    Forall2 (fun (j : bool * R * R) p => says_flip (DataEncoder tmin tcod) (dt / tcod) (fst j) (fst p) (snd p)) js ps.
Proof.
  intros Hdt Htc Htm HO HT HJ. set (enc := DataEncoder tmin tcod).
  assert (HTc : tcod <> 0) by lra. assert (HTm : tmin + tcod <> 0) by lra.
  destruct (SignFlipper_built enc nm empty_world inv_empty (neq0 _ HTm) (neq0 _ HTc)) as (m & w & E & HB & HN & HL).
  cbn [w_neurons empty_world length Nat.add] in HN, HL. pose proof HN as HN'. unfold sf_nodes in HN'. nodes_eqs HN'.
  pose proof (b_syn _ _ _ _ HB) as ES. cbn [w_syns empty_world app] in ES.
  assert (EQ : forall stims T, session (SignFlipperNetwork enc nm) sf_mod enc dt stims ord T = session (SignFlipperNetwork enc nm) sf_mod enc dt (fun _ => stims m) ord T).
  { intros stims T'. unfold session. rewrite E. reflexivity. }
  set (st_of := fun (x : bool * R) (t : R) => [SValue (snd x) (if fst x then sf_inp_plus m else sf_inp_minus m) t]).
  destruct (session_jobs (SignFlipperNetwork enc nm) sf_mod m w _ enc dt ord E HB Hdt HO (bool * R) st_of (fun x : bool * R => 0 <= snd x <= 1) (fun _ => flip_span tmin tcod dt)
     (fun n => n = sf_outp_plus m \/ n = sf_outp_minus m)
     (fun x l => says_flip enc (dt / tcod) x (l (sf_outp_plus m)) (l (sf_outp_minus m)))) with (js := js) (T := T) as (s & ls & Es & F & LG); auto.
  - intros y Hy. rewrite ES in Hy. unfold sf_syns in Hy. cbn [In] in Hy. destruct Hy as [<-|[<-|[]]]; cbn [s_delay syn]; rewrite cTsyn_R; lra.
  - intros x t d. apply later_pair.
  - intros x t p Hx Hp. unfold exts, st_of in Hp. cbn [flat_map stim_ext app In enc DataEncoder Tmin Tcod] in Hp. assert (0 <= snd x * tcod) by (apply Rmult_le_pos; lra).
    destruct Hp as [<-|[<-|[]]]; cbn [snd]; lra.
  - intros x t Hx. unfold st_of. destruct (fst x); stims_ok.
  - intros x _. unfold flip_span. lra.
  - intros n [->| ->]; lia.
  - intros n x t Hn. unfold exts, st_of. cbn [flat_map stim_ext app map fst In]. destruct (fst x); lia.
  - intros x l l' d Hl EL. rewrite (EL (sf_outp_plus m)), (EL (sf_outp_minus m)) by auto. apply says_flip_shift. exact Hl.
  - intros [pl x] t K Hx Ht HK. cbn [snd] in Hx. pose proof (flip_quiet tmin tcod x dt t pl K m w nm Hdt Htc Htm Hx Ht HK E HB HN HL) as HQ. rewrite <- HL in HQ.
    unfold flip_span in HK. rewrite S_INR in HK.
    destruct (flip_value_run tmin tcod x dt t (INR K * dt) nm ord pl Hdt Htc Htm Hx Ht HO ltac:(lra)) as (m' & s & Es & EM & _ & EN). fold enc in Es, EM.
    destruct (session_rests (SignFlipperNetwork enc nm) sf_mod m w _ enc dt ord E HB Hdt HO (fun _ => st_of (pl, x) t) K) as (s' & Es' & RS); auto; [unfold st_of; cbn [fst snd]; destruct pl; stims_ok|].
    assert (EE : Ok (m, s') = Ok (m', s)) by (rewrite <- Es', <- Es; rewrite (EQ (fun m0 => [SValue x (if pl then sf_inp_plus m0 else sf_inp_minus m0) t])); reflexivity).
    injection EE as <- <-. exists s'. split; [exact Es'|]. split; [exact RS|]. unfold says_flip. cbn [fst snd]. destruct pl; auto.
  - exists m, s, (map (fun l => (l (sf_outp_plus m), l (sf_outp_minus m))) ls). split; [|split; [|split]].
    + assert (EJ : map (fun j : bool * R * R => SValue (snd (fst j)) (if fst (fst j) then sf_inp_plus m else sf_inp_minus m) (snd j)) js = job_stims (bool * R) st_of js).
      { unfold job_stims, st_of. clear. induction js as [|t ts IH]; cbn [map flat_map app fst snd]; [reflexivity|rewrite IH; reflexivity]. }
      rewrite EQ, EJ. exact Es.
    + rewrite map_map. apply LG; auto.
    + rewrite map_map. apply LG; auto.
    + clear -F. induction F; cbn [map]; constructor; auto.
Qed.

(** ** InvertingMemoryNetwork: a job is a value and the delay after which it is recalled *)
Definition im_span (tmin tcod dt r : R) : R := r + (tmin + tcod) + 4 + 6 * dt.
Lemma im_quiet (tmin tcod x r dt t0 : R) K m w nm :
  0 < dt <= 1 / 4 -> 0 < tcod -> 1 + dt <= tmin -> 0 <= x <= 1 -> 0 <= t0 ->
  1 + (tmin + tcod) + 2 * dt <= r -> t0 + im_span tmin tcod dt r <= INR (S K) * dt ->
  let enc := DataEncoder tmin tcod in
  InvertingMemoryNetwork enc nm empty_world = Ok (m, w) -> built empty_world w (im_mod m) (im_syns enc m) -> im_nodes m = seq 0 6 -> length (w_neurons w) = 6%nat ->
  quiet (net_of w (exts enc [SValue x (im_input m) t0; SSpike (im_recall m) (t0 + r)]) dt) 6 K.
Proof.
  intros [Hdt Hdt2] Htc Htm Hx Ht0 Hr HT enc E HB HN HL. unfold im_span in HT. rewrite S_INR in HT.
  set (tr := t0 + r) in *. assert (Htr : t0 + 1 + (tmin + tcod) + 2 * dt <= tr) by (unfold tr; lra).
  assert (HT' : tr + (tmin + tcod) + 4 + 4 * dt <= INR K * dt) by (unfold tr; lra). clearbody tr.
  set (stims := fun m => [SValue x (im_input m) t0; SSpike (im_recall m) tr]).
  pose proof HN as HN'. unfold im_nodes in HN'. nodes_eqs HN'.
  destruct (session_built (InvertingMemoryNetwork enc nm) im_mod m w _ enc dt stims (fun _ l => l) (INR K * dt) E HB Hdt ltac:(lra)) as (s & Es & HSe).
  { stims_ok. } { intros i l. reflexivity. }
  change [SValue x (im_input m) t0; SSpike (im_recall m) tr] with (stims m).
  set (N := net_of w (exts enc (stims m)) dt) in *.
  set (iv := tmin + x * tcod) in *. unfold stims in *.
  assert (Hxc : 0 <= x * tcod <= tcod) by (split; [apply Rmult_le_pos; lra|rewrite <- (Rmult_1_l tcod) at 2; apply Rmult_le_compat_r; lra]).
  assert (Hiv : 1 + dt <= iv <= tmin + tcod) by (unfold iv; lra).
  assert (HA1 : arrs N (im_input m) 1 [step_at dt (t0 + 1); step_at dt (t0 + 1 + iv)]).
  { src_solve HSe. do 3 f_equal. fold iv. unfold enc; cbn [DataEncoder Tmin Tcod]. unfold iv. lra. }
  assert (HR1 : arrs N (im_recall m) 1 [step_at dt (tr + 1)]) by (src_solve HSe).
  assert (HR2 : arrs N (im_recall m) (2 + / 100) [step_at dt (tr + (2 + / 100))]) by (src_solve HSe).
  assert (HM : invm_in N (1000 / (tmin + tcod)) tmin m).
  { rewrite <- wacc_R. apply (invm_in_of N enc m 0); auto. intros n Hn. apply (se_own _ _ _ _ _ _ _ _ HSe).
    - unfold im_internal in Hn. cbn [In] in Hn. intuition lia.
    - unfold im_internal in Hn. cbn [In] in Hn. destruct Hn as [<-|[<-|[<-|[<-|[]]]]]; ext_simp; reflexivity. }
  destruct (step_diff dt (t0 + 1) iv Hdt ltac:(lra) ltac:(lra)) as (Q1 & Q2 & _). apply Rabs_def2 in Q2.
  assert (Ha12 : (step_at dt (t0 + 1) + step_at dt 1 <= step_at dt (t0 + 1 + iv))%nat).
  { apply step_diff_ge; try lra; try apply step_at_ge1. pose proof (step_time dt 1 Hdt ltac:(lra)). unfold iv. lra. }
  pose proof (step_at_bounds dt 1 Hdt ltac:(lra)) as BD1. pose proof (step_at_bounds dt (1 + tmin) Hdt ltac:(lra)) as BDm.
  pose proof (step_at_bounds dt (t0 + 1) Hdt ltac:(lra)) as BA1. pose proof (step_at_bounds dt (t0 + 1 + iv) Hdt ltac:(lra)) as BA2.
  pose proof (step_at_bounds dt (tr + 1) Hdt ltac:(lra)) as BR1. pose proof (step_at_bounds dt (tr + (2 + / 100)) Hdt ltac:(lra)) as BR2.
  pose proof (step_at_bounds dt (tmin + tcod) Hdt ltac:(lra)) as BM.
  pose proof (step_at_ge1 dt (t0 + 1)) as G1. pose proof (step_at_ge1 dt 1) as G2. pose proof (step_at_ge1 dt (tr + (2 + / 100))) as G3.
  pose proof (inv_first N m (tmin + tcod) tmin HM _ _ HA1 G1 Ha12) as S1. assert (S2 : spikes_at N (im_last m) [step_at dt (t0 + 1 + iv)]) by (eapply last_spikes; [apply (ii_last _ _ _ _ HM)|rewrite cTsyn_R; eauto|auto|lia]).
  pose proof (inv_acc N m (tmin + tcod) tmin Hdt ltac:(lra) HM _ _ HA1 G1 Ha12 _ _ HR1 G3) as S3.
  pose proof (inv_output N m (tmin + tcod) tmin Hdt ltac:(lra) HM _ _ HA1 G1 Ha12 _ _ HR1 HR2 G3) as HOut.
  unfold inv_fire in HOut, S3. cbn [N net_of t_dt] in HOut, S3. fold N in HOut, S3.
  set (a1 := step_at dt (t0 + 1)) in *. set (a2 := step_at dt (t0 + 1 + iv)) in *.
  set (r1 := step_at dt (tr + 1)) in *. set (q := step_at dt (tr + (2 + / 100))) in *.
  set (D1 := step_at dt 1) in *. set (Dm := step_at dt (1 + tmin)) in *. set (M := step_at dt (tmin + tcod)) in *.
  assert (C1 : (a1 + Dm < r1)%nat) by (nat_lt dt Hdt; lra).
  assert (C2 : (a2 + D1 < r1)%nat) by (nat_lt dt Hdt; lra).
  assert (C3 : (a2 + D1 < a1 + Dm + M)%nat) by (nat_lt dt Hdt; lra).
  specialize (S3 C1 C2 C3). specialize (HOut C1 C2 C3).
  set (f := (r1 - 1 + (M + (a1 + Dm) - (a2 + D1)))%nat) in *.
  assert (EI : INR (f + D1) * dt = INR r1 * dt - dt + INR M * dt + INR a1 * dt + INR Dm * dt - INR a2 * dt).
  { unfold f. inr. lra. }
  assert (Hqb : (q < f + D1)%nat) by (apply INR_lt; apply Rmult_lt_reg_r with dt; auto; unfold iv in *; lra).
  assert (HKf : (f + D1 <= K)%nat) by (apply INR_le; apply Rmult_le_reg_r with dt; auto; unfold iv in *; lra).
  assert (Hfr : (r1 <= f)%nat) by (unfold f; lia).
  specialize (HOut ltac:(lia)).
  pose proof (b_syn _ _ _ _ HB) as ES. cbn [w_syns empty_world app] in ES.
  pose proof (ii_first _ _ _ _ HM) as I1. pose proof (ii_last _ _ _ _ HM) as I2. pose proof (ii_acc _ _ _ _ HM) as I3. pose proof (ii_output _ _ _ _ HM) as I4.
  assert (SRC : forall n, n = im_input m \/ n = im_recall m -> in_syn N n = [] /\ t_prm N n = stdp).
  { intros n [->| ->]; (split; [|cbn; apply prm_std; [apply HB|lia]]; eapply src_in; [exact ES|]; syn_simp). }
  assert (Hdm : nadd (twice cTsyn) cTneu = 2 + / 100) by (netr; lra).
  constructor.
  - intros p y Hp Hy Ep. cbn [N net_of t_ext t_syns t_dt] in *. rewrite ES in Hy.
    unfold exts in Hp. cbn [flat_map stim_ext app In] in Hp. destruct Hp as [<-|[<-|[<-|[]]]]; cbn [snd fst] in *.
    + assert (HP : s_delay y = 1).
      { unfold im_syns in Hy. cbn [In] in Hy. repeat destruct Hy as [<-|Hy]; try destruct Hy; cbn [s_pre s_delay syn mks] in *; autorewrite with netR; try lra; exfalso; lia. }
      rewrite HP. fold a1. lia.
    + assert (HP : s_delay y = 1).
      { unfold im_syns in Hy. cbn [In] in Hy. repeat destruct Hy as [<-|Hy]; try destruct Hy; cbn [s_pre s_delay syn mks] in *; autorewrite with netR; try lra; exfalso; lia. }
      rewrite HP. replace (t0 + (Tmin enc + x * Tcod enc) + 1) with (t0 + 1 + iv) by (unfold iv, enc; cbn; lra). fold a2. lia.
    + assert (HP : s_delay y = 1 \/ s_delay y = 2 + / 100).
      { unfold im_syns in Hy. cbn [In] in Hy. repeat destruct Hy as [<-|Hy]; try destruct Hy; cbn [s_pre s_delay syn mks] in *; rewrite ?Hdm; autorewrite with netR; auto; exfalso; lia. }
      destruct HP as [->| ->]; [fold r1|fold q]; lia.
  - intros n Hn. assert (Hn' : In n (im_nodes m)) by (rewrite HN; apply in_seq; lia). unfold im_nodes in Hn'. cbn [In] in Hn'.
    destruct Hn' as [<-|[<-|[<-|[<-|[<-|[<-|[]]]]]]].
    + apply src_settled; apply SRC; auto.
    + eapply first_settled; eauto. fold a2. lia.
    + eapply (ins_settled _ _ _ a2); [exact I2|eapply spk_last; [exact S2|left; auto]| |lia].
      repeat constructor; cbn [s_pre s_delay mks]; rewrite cTsyn_R; over_tac.
    + eapply (ins_settled _ _ _ f); [exact I3|eapply spk_last; [exact S3|left; auto]| |lia].
      constructor; [|constructor; [|constructor; [|constructor]]]; cbn [s_pre s_delay mks]; autorewrite with netR.
      * eapply over_spk; [apply (ins_ext _ _ _ I1)|exact S1|]. intros ? [<-|[]]. change (t_dt N) with dt. fold Dm. lia.
      * eapply over_spk; [apply (ins_ext _ _ _ I2)|exact S2|]. intros ? [<-|[]]. change (t_dt N) with dt. fold D1. lia.
      * eapply over_arrs; [exact HR1|]. intros ? [<-|[]]. lia.
    + apply src_settled; apply SRC; auto.
    + eapply (ins_settled _ _ _ (f + D1)); [exact I4|eapply spk_last; [exact HOut|right; left; auto]| |lia].
      constructor; [|constructor; [|constructor]]; cbn [s_pre s_delay mks]; rewrite ?Hdm; autorewrite with netR.
      * eapply over_spk; [apply (ins_ext _ _ _ I3)|exact S3|]. intros ? [<-|[]]. change (t_dt N) with dt. fold D1. lia.
      * eapply over_arrs; [exact HR2|]. intros ? [<-|[]]. lia.
  - intros y j Hy Hj Hs. cbn [N net_of t_syns t_dt] in *. rewrite ES in Hy. fold N in Hs.
    assert (S0 : spikes_at N (im_input m) []) by (apply source_silent; apply SRC; auto). assert (S5 : spikes_at N (im_recall m) []) by (apply source_silent; apply SRC; auto).
    unfold im_syns in Hy. cbn [In] in Hy. repeat destruct Hy as [<-|Hy]; try destruct Hy; cbn [s_pre s_delay syn mks] in *; autorewrite with netR;
      first [rewrite S0 in Hs | rewrite S5 in Hs | rewrite S1 in Hs | rewrite S2 in Hs | rewrite S3 in Hs];
      cbn [memb existsb] in Hs; try discriminate; rewrite orb_false_r in Hs; apply Nat.eqb_eq in Hs; subst j; cbn [enc DataEncoder Tmin]; fold D1 Dm; lia.
Qed.

(** ** a recall with nothing stored *)
Section Bare.
Variable N : tnet.
Variable m : invmem_net.
Variables Tmax tmin : R.
Let dt := t_dt N.
Hypothesis Hdt : 0 < dt.
Hypothesis HTmax : 0 < Tmax.
Hypothesis HM : invm_in N (1000 / Tmax) tmin m.
Let D1 := step_at dt 1.
Let M := step_at dt Tmax.
Hypothesis Hin : arrs N (im_input m) 1 [].
Variables r1 q : nat.
Hypothesis Hr1 : arrs N (im_recall m) 1 [r1].
Hypothesis Hr1p : (1 <= r1)%nat.
Hypothesis Hq : arrs N (im_recall m) (2 + / 100) [q].
Hypothesis Hq1 : (1 <= q)%nat.
Lemma bare_first : spikes_at N (im_first m) [].
Proof. eapply first_none; [apply (ii_first _ _ _ _ HM)|auto]. Qed.
Lemma bare_last : spikes_at N (im_last m) [].
Proof. eapply last_none; [apply (ii_last _ _ _ _ HM)|auto]. Qed.
Lemma bare_acc : spikes_at N (im_acc m) [(r1 - 1 + M)%nat].
Proof.
  pose proof (ii_acc _ _ _ _ HM) as H. pose proof (step_at_ge1 dt Tmax) as G3. fold M in G3.
  assert (V : forall k, vlin [(r1, 1000 / Tmax)] k = 1000 / Tmax * IZR (Z.of_nat (S k - r1))).
  { intros k. rewrite vlin_cons, vlin_nil, <- INR_IZR_INZ. lra. }
  apply (geonly_once N (im_acc m) [(r1, 1000 / Tmax)]).
  - apply H.
  - eapply ins_geonly; eauto; repeat constructor.
  - evb.
  - lia.
  - intros k Hk. ev_input H.
    rewrite (arrs_0 N _ _ (nadd cTsyn tmin) (ii_first _ _ _ _ HM) bare_first k Hk), (arrs_0 N _ _ cTsyn (ii_last _ _ _ _ HM) bare_last k Hk).
    autorewrite with netR. rewrite (Hr1 k Hk). ev_simpl. lra.
  - intros k Hk. fold dt. rewrite V. apply unit_lt; auto. fold M. lia.
  - fold dt. rewrite V. apply unit_ge; auto. fold M. lia.
  - evb.
Qed.
Lemma bare_output : q <> (r1 - 1 + M + D1)%nat -> spikes_at N (im_output m) [q; (r1 - 1 + M + D1)%nat].
Proof.
  intros Hne. pose proof (ii_output _ _ _ _ HM) as H. pose proof (step_at_ge1 dt Tmax) as G3. fold M in G3.
  apply two_spikes; auto; [apply H| |lia|].
  - eapply ins_vonly; eauto; repeat constructor.
  - intros k Hk. ev_input H.
    rewrite (arrs_1 N _ _ _ D1 _ (ii_acc _ _ _ _ HM) bare_acc); auto; [|lia].
    netr. replace (2 * 1 + / 100) with (2 + / 100) by lra. rewrite (Hq k Hk). ev_simpl. lra.
Qed.
End Bare.

Lemma bare_quiet (tmin tcod dt tr : R) K m w nm ord :
  0 < dt <= 1 / 4 -> 0 < tcod -> 1 + dt <= tmin -> 0 <= tr -> tr + im_span tmin tcod dt 0 <= INR (S K) * dt -> ord_ok ord ->
  let enc := DataEncoder tmin tcod in
  InvertingMemoryNetwork enc nm empty_world = Ok (m, w) -> built empty_world w (im_mod m) (im_syns enc m) -> im_nodes m = seq 0 6 -> length (w_neurons w) = 6%nat ->
  quiet (net_of w (exts enc [SSpike (im_recall m) tr]) dt) 6 K /\
  exists s, session (InvertingMemoryNetwork enc nm) im_mod enc dt (fun m => [SSpike (im_recall m) tr]) ord (INR K * dt) = Ok (m, s) /\
    pair_says enc 1 ((3 * dt + / 100) / tcod) (spike_log s (im_output m)).
Proof.
  intros [Hdt Hdt2] Htc Htm Ht0 HT HO enc E HB HN HL. unfold im_span in HT. rewrite S_INR in HT.
  set (stims := fun m => [SSpike (im_recall m) tr]).
  pose proof HN as HN'. unfold im_nodes in HN'. nodes_eqs HN'.
  destruct (session_built (InvertingMemoryNetwork enc nm) im_mod m w _ enc dt stims ord (INR K * dt) E HB Hdt ltac:(lra)) as (s & Es & HSe); auto.
  { stims_ok. }
  change [SSpike (im_recall m) tr] with (stims m).
  set (N := net_of w (exts enc (stims m)) dt) in *. unfold stims in *.
  assert (HA1 : arrs N (im_input m) 1 []) by (src_solve HSe).
  assert (HR1 : arrs N (im_recall m) 1 [step_at dt (tr + 1)]) by (src_solve HSe).
  assert (HR2 : arrs N (im_recall m) (2 + / 100) [step_at dt (tr + (2 + / 100))]) by (src_solve HSe).
  assert (HM : invm_in N (1000 / (tmin + tcod)) tmin m).
  { rewrite <- wacc_R. apply (invm_in_of N enc m 0); auto. intros n Hn. apply (se_own _ _ _ _ _ _ _ _ HSe).
    - unfold im_internal in Hn. cbn [In] in Hn. intuition lia.
    - unfold im_internal in Hn. cbn [In] in Hn. destruct Hn as [<-|[<-|[<-|[<-|[]]]]]; ext_simp; reflexivity. }
  pose proof (step_at_bounds dt 1 Hdt ltac:(lra)) as BD1.
  pose proof (step_at_bounds dt (tr + 1) Hdt ltac:(lra)) as BR1. pose proof (step_at_bounds dt (tr + (2 + / 100)) Hdt ltac:(lra)) as BR2.
  pose proof (step_at_bounds dt (tmin + tcod) Hdt ltac:(lra)) as BM.
  pose proof (step_at_ge1 dt 1) as G2. pose proof (step_at_ge1 dt (tr + (2 + / 100))) as G3. pose proof (step_at_ge1 dt (tr + 1)) as G1. pose proof (step_at_ge1 dt (tmin + tcod)) as G4.
  pose proof (bare_first N m (tmin + tcod) tmin HM HA1) as S1. pose proof (bare_last N m (tmin + tcod) tmin HM HA1) as S2.
  assert (S3 : spikes_at N (im_acc m) [(step_at dt (tr + 1) - 1 + step_at dt (tmin + tcod))%nat]) by (eapply (bare_acc N); eauto; lra).
  assert (HOut : step_at dt (tr + (2 + / 100)) <> (step_at dt (tr + 1) - 1 + step_at dt (tmin + tcod) + step_at dt 1)%nat ->
     spikes_at N (im_output m) [step_at dt (tr + (2 + / 100)); (step_at dt (tr + 1) - 1 + step_at dt (tmin + tcod) + step_at dt 1)%nat]) by (intros X; eapply (bare_output N); eauto; lra).
  set (r1 := step_at dt (tr + 1)) in *. set (q := step_at dt (tr + (2 + / 100))) in *.
  set (D1 := step_at dt 1) in *. set (M := step_at dt (tmin + tcod)) in *.
  set (f := (r1 - 1 + M)%nat) in *.
  assert (EI : INR (f + D1) * dt = INR r1 * dt - dt + INR M * dt + INR D1 * dt).
  { unfold f. inr. lra. }
  assert (Hqb : (q < f + D1)%nat) by (apply INR_lt; apply Rmult_lt_reg_r with dt; auto; lra).
  assert (HKf : (f + D1 <= K)%nat) by (apply INR_le; apply Rmult_le_reg_r with dt; auto; lra).
  assert (Hfr : (r1 <= f)%nat) by (unfold f; lia).
  specialize (HOut ltac:(lia)).
  split.
  2:{ exists s. split; [exact Es|]. rewrite <- emits_says.
    assert (HLg : spike_log s (im_output m) = times dt [q; (f + D1)%nat]).
    { apply (se_log _ _ _ _ _ _ _ _ HSe); auto; [lia|ext_simp; reflexivity|cbn; lia|]. intros j [<-|[<-|[]]]; lra. }
    eapply (emits_intro _ _ _ _ dt q (f + D1)); auto. rewrite EI. replace ((3 * dt + / 100) / tcod * tcod) with (3 * dt + / 100) by (field; lra).
    apply Rabs_le. lra. }
  pose proof (b_syn _ _ _ _ HB) as ES. cbn [w_syns empty_world app] in ES.
  pose proof (ii_first _ _ _ _ HM) as I1. pose proof (ii_last _ _ _ _ HM) as I2. pose proof (ii_acc _ _ _ _ HM) as I3. pose proof (ii_output _ _ _ _ HM) as I4.
  assert (SRC : forall n, n = im_input m \/ n = im_recall m -> in_syn N n = [] /\ t_prm N n = stdp).
  { intros n [->| ->]; (split; [|cbn; apply prm_std; [apply HB|lia]]; eapply src_in; [exact ES|]; syn_simp). }
  assert (Hdm : nadd (twice cTsyn) cTneu = 2 + / 100) by (netr; lra).
  constructor.
  - intros p y Hp Hy Ep. cbn [N net_of t_ext t_syns t_dt] in *. rewrite ES in Hy.
    unfold exts in Hp. cbn [flat_map stim_ext app In] in Hp. destruct Hp as [<-|[]]; cbn [snd fst] in *.
    assert (HP : s_delay y = 1 \/ s_delay y = 2 + / 100).
    { unfold im_syns in Hy. cbn [In] in Hy. repeat destruct Hy as [<-|Hy]; try destruct Hy; cbn [s_pre s_delay syn mks] in *; rewrite ?Hdm; autorewrite with netR; auto; exfalso; lia. }
    destruct HP as [->| ->]; [fold r1|fold q]; lia.
  - intros n Hn. assert (Hn' : In n (im_nodes m)) by (rewrite HN; apply in_seq; lia). unfold im_nodes in Hn'. cbn [In] in Hn'.
    destruct Hn' as [<-|[<-|[<-|[<-|[<-|[<-|[]]]]]]].
    + apply src_settled; apply SRC; auto.
    + eapply first_none_settled; eauto.
    + eapply none_settled; [exact I2|]. intros y [<-|[]]. cbn [s_pre s_delay mks]. rewrite cTsyn_R. exact HA1.
    + eapply (ins_settled _ _ _ f); [exact I3|eapply spk_last; [exact S3|left; auto]| |lia].
      constructor; [|constructor; [|constructor; [|constructor]]]; cbn [s_pre s_delay mks]; autorewrite with netR.
      * eapply over_spk; [apply (ins_ext _ _ _ I1)|exact S1|]. intros ? [].
      * eapply over_spk; [apply (ins_ext _ _ _ I2)|exact S2|]. intros ? [].
      * eapply over_arrs; [exact HR1|]. intros ? [<-|[]]. lia.
    + apply src_settled; apply SRC; auto.
    + eapply (ins_settled _ _ _ (f + D1)); [exact I4|eapply spk_last; [exact HOut|right; left; auto]| |lia].
      constructor; [|constructor; [|constructor]]; cbn [s_pre s_delay mks]; rewrite ?Hdm; autorewrite with netR.
      * eapply over_spk; [apply (ins_ext _ _ _ I3)|exact S3|]. intros ? [<-|[]]. change (t_dt N) with dt. fold D1. lia.
      * eapply over_arrs; [exact HR2|]. intros ? [<-|[]]. lia.
  - intros y j Hy Hj Hs. cbn [N net_of t_syns t_dt] in *. rewrite ES in Hy. fold N in Hs.
    assert (S0 : spikes_at N (im_input m) []) by (apply source_silent; apply SRC; auto). assert (S5 : spikes_at N (im_recall m) []) by (apply source_silent; apply SRC; auto).
    unfold im_syns in Hy. cbn [In] in Hy. repeat destruct Hy as [<-|Hy]; try destruct Hy; cbn [s_pre s_delay syn mks] in *; autorewrite with netR;
      first [rewrite S0 in Hs | rewrite S5 in Hs | rewrite S1 in Hs | rewrite S2 in Hs | rewrite S3 in Hs];
      cbn [memb existsb] in Hs; try discriminate; rewrite orb_false_r in Hs; apply Nat.eqb_eq in Hs; subst j; cbn [enc DataEncoder Tmin]; fold D1; lia.
Qed.

(** histories of stores (each recalled once) and of recalls with nothing stored since the last recall *)
Inductive im_job := Store (x r : R) | Recall.
Definition im_ok (tmin tcod dt : R) (j : im_job) : Prop := match j with Store x r => 0 <= x <= 1 /\ 1 + (tmin + tcod) + 2 * dt <= r | Recall => True end.
Definition im_len (tmin tcod dt : R) (j : im_job) : R := match j with Store x r => r + (tmin + tcod) + 4 + 6 * dt | Recall => tmin + tcod + 4 + 6 * dt end.
Definition im_stims (m : invmem_net) (j : im_job) (t : R) : list stim :=
  match j with Store x r => [SValue x (im_input m) t; SSpike (im_recall m) (t + r)] | Recall => [SSpike (im_recall m) t] end.
Definition im_result (j : im_job) : R := match j with Store x r => 1 - x | Recall => 1 end.

Theorem inverting_memory_history (tmin tcod dt T : R) (js : list (im_job * R)) nm ord :
  0 < dt <= 1 / 4 -> 0 < tcod -> 1 + dt <= tmin -> ord_ok ord -> 0 <= T ->
  jobs_ok im_job (im_ok tmin tcod dt) (im_len tmin tcod dt) 0 js T ->
  exists m s ps,
    session (InvertingMemoryNetwork (DataEncoder tmin tcod) nm) im_mod (DataEncoder tmin tcod) dt
      (fun m => flat_map (fun j => im_stims m (fst j) (snd j)) js) ord T = Ok (m, s) /\
    spike_log s (im_output m) = concat ps /\
    Forall2 (fun j p => pair_says (DataEncoder tmin tcod) (im_result (fst j)) ((3 * dt + / 100) / tcod) p) js ps.
Proof.
  intros Hdt Htc Htm HO HT HJ. set (enc := DataEncoder tmin tcod).
  assert (HTm : tmin + tcod <> 0) by lra.
  destruct (InvMemory_built enc nm empty_world inv_empty (neq0 _ HTm)) as (m & w & E & HB & HN & HL).
  cbn [w_neurons empty_world length Nat.add] in HN, HL. pose proof HN as HN'. unfold im_nodes in HN'. nodes_eqs HN'.
  pose proof (b_syn _ _ _ _ HB) as ES. cbn [w_syns empty_world app] in ES.
  destruct (session_jobs1 (InvertingMemoryNetwork enc nm) im_mod m w _ enc dt ord im_job im_stims
     (im_ok tmin tcod dt) (im_len tmin tcod dt) (im_output m)
     (fun x l => pair_says enc (im_result x) ((3 * dt + / 100) / tcod) l) E HB ltac:(lra) HO) with (js := js) (T := T) as (s & ps & Es & LG & F); auto.
  - intros y Hy. rewrite ES in Hy. unfold im_syns in Hy. cbn [In] in Hy. repeat destruct Hy as [<-|Hy]; try destruct Hy; cbn [s_delay syn mks enc DataEncoder Tmin]; netr; autorewrite with netR; lra.
  - intros [x r|] t d; unfold exts, later; cbn [im_stims flat_map stim_ext app map fst snd]; [|reflexivity].
    replace (t + d + (Tmin enc + x * Tcod enc)) with (t + (Tmin enc + x * Tcod enc) + d) by lra. replace (t + d + r) with (t + r + d) by lra. reflexivity.
  - intros [x r|] t p Hx Hp; cbn [im_ok] in Hx; unfold exts in Hp; cbn [im_stims flat_map stim_ext app In enc DataEncoder Tmin Tcod] in Hp.
    + assert (0 <= x * tcod) by (apply Rmult_le_pos; lra). destruct Hp as [<-|[<-|[<-|[]]]]; cbn [snd]; lra.
    + destruct Hp as [<-|[]]. cbn [snd]. lra.
  - intros [x r|] t Hx; cbn [im_ok im_stims] in *; stims_ok.
  - intros [x r|] Hr; cbn [im_len im_ok] in *; lra.
  - lia.
  - intros [x r|] t; unfold exts; cbn [im_stims flat_map stim_ext app map fst In]; lia.
  - intros x l d. apply says_shift.
  - intros [x r|] t K Hx Ht HK; cbn [im_ok im_len im_stims im_result] in *.
    + destruct Hx as [Hx Hr].
      pose proof (im_quiet tmin tcod x r dt t K m w nm Hdt Htc Htm Hx Ht Hr HK E HB HN HL) as HQ. rewrite <- HL in HQ. rewrite S_INR in HK.
      destruct (inverting_memory_run tmin tcod x dt t (t + r) (INR K * dt) nm ord Hdt Htc Htm Hx Ht HO ltac:(lra) ltac:(lra)) as (m' & s & Es & EM). fold enc in Es, EM.
      destruct (session_rests (InvertingMemoryNetwork enc nm) im_mod m w _ enc dt ord E HB ltac:(lra) HO (fun m => [SValue x (im_input m) t; SSpike (im_recall m) (t + r)]) K) as (s' & Es' & RS); auto; [stims_ok|].
      rewrite Es' in Es. injection Es as <- <-. exists s'. auto.
    + destruct (bare_quiet tmin tcod dt t K m w nm ord Hdt Htc Htm Ht ltac:(unfold im_span; lra) HO E HB HN HL) as (HQ & s & Es & EM). fold enc in Es, EM. rewrite <- HL in HQ.
      destruct (session_rests (InvertingMemoryNetwork enc nm) im_mod m w _ enc dt ord E HB ltac:(lra) HO (fun m => [SSpike (im_recall m) t]) K) as (s' & Es' & RS); auto; [stims_ok|].
      rewrite Es' in Es. injection Es as <-. exists s'. auto.
  - exists m, s, ps. auto.
Qed.
