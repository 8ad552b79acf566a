(** ConstantNetwork, SignedConstantNetwork, SignFlipperNetwork and InvertingMemoryNetwork used again and again (C20, C21, C23, C63). *)
From Coq Require Import Arith ZArith Bool List Reals Lra Lia Permutation.
From Verif Require Import Num Heapq Elements Simulator Networks Trace SimTrace SimProps TraceProps NeuronLib NetLib Build BuildNets Bridge MemoryProof GeLib Session SegLib SimpleNets InvMem Restart MemReuse Reuse Jobs Settle RestFun.
Import ListNotations.
Open Scope R_scope.
Open Scope list_scope.

Lemma f2len {A B} (P : A -> B -> Prop) l l' : Forall2 P l l' -> length l = length l'.
Proof. induction 1; cbn; auto. Qed.
Lemma later_spike enc n t d : exts enc [SSpike n (t + d)] = later d (exts enc [SSpike n t]).
Proof. reflexivity. Qed.

(** ** SignedConstantNetwork: one output of the sign of the constant *)
Definition k_span (tmin tcod v dt : R) : R := 1 + (tmin + Rabs v * tcod) + 2 * dt.
Lemma sk_quiet (tmin tcod v dt t0 : R) K m w nm :
  0 < dt -> 0 < tcod -> dt <= tmin + Rabs v * tcod -> 0 <= t0 -> t0 + k_span tmin tcod v dt <= INR (S K) * dt ->
  let enc := DataEncoder tmin tcod in
  SignedConstantNetwork enc v nm empty_world = Ok (m, w) -> built empty_world w (sk_mod m) (sk_syns enc v m) -> sk_nodes m = seq 0 3 -> length (w_neurons w) = 3%nat ->
  quiet (net_of w (exts enc [SSpike (sk_recall m) t0]) dt) 3 K.
Proof.
  intros Hdt Htc Hiv Ht0 HT enc E HB HN HL. unfold k_span in HT. rewrite S_INR in HT.
  set (stims := fun m => [SSpike (sk_recall m) t0]).
  pose proof HN as HN'. unfold sk_nodes in HN'. nodes_eqs HN'.
  destruct (session_built (SignedConstantNetwork enc v nm) sk_mod m w _ enc dt stims (fun _ l => l) (INR K * dt) E HB Hdt ltac:(lra)) as (s & Es & HSe).
  { repeat constructor. cbn. lia. } { intros i l. reflexivity. }
  change [SSpike (sk_recall m) t0] with (stims m).
  set (N := net_of w (exts enc (stims m)) dt) in *. unfold stims in *.
  set (out := sk_tgt v m). set (other := if ngeb v nzero then sk_output_minus m else sk_output_plus m).
  assert (Hoo : (out = 1 /\ other = 2)%nat \/ (out = 2 /\ other = 1)%nat) by (unfold out, other, sk_tgt; destruct (ngeb v nzero); lia).
  clearbody other. unfold sk_syns in *. fold out in HB, HSe. clearbody out.
  pose proof (b_syn _ _ _ _ HB) as ES. cbn [w_syns empty_world app] in ES.
  set (d := cTsyn + (Rabs v * tcod + tmin)).
  assert (Ed : d = 1 + (Rabs v * tcod + tmin)) by (unfold d; rewrite cTsyn_R; lra).
  assert (HA1 : arrs N (sk_recall m) cTsyn [step_at dt (t0 + 1)]) by (src_solve HSe).
  assert (HA2 : arrs N (sk_recall m) d [step_at dt (t0 + 1 + (tmin + Rabs v * tcod))]).
  { src_solve HSe. do 2 f_equal. lra. }
  destruct (step_diff dt (t0 + 1) (tmin + Rabs v * tcod) Hdt ltac:(lra) ltac:(lra)) as (Q1 & Q2 & Q3). specialize (Q3 Hiv).
  pose proof (step_time dt (t0 + 1 + (tmin + Rabs v * tcod)) Hdt ltac:(lra)) as Z2.
  pose proof (step_at_ge1 dt (t0 + 1)) as Hge.
  set (a1 := step_at dt (t0 + 1)) in *. set (a2 := step_at dt (t0 + 1 + (tmin + Rabs v * tcod))) in *.
  assert (HK : (a2 <= K)%nat).
  { assert (a2 < K + 1)%nat; [|lia]. apply INR_lt. rewrite plus_INR. apply Rmult_lt_reg_r with dt; auto. cbn [INR]. lra. }
  assert (HI : ins N out [mks (sk_recall m) out SynV we cTsyn; mks (sk_recall m) out SynV we d]).
  { eapply own_ins; [apply (se_own _ _ _ _ _ _ _ _ HSe); [lia|]; ext_simp; reflexivity|]. cbn [filter s_post syn]. eqbs. reflexivity. }
  pose proof (const_output N _ _ _ HI _ _ HA1 HA2 Hge Q3) as HS.
  assert (SRC : forall n, (n < 3)%nat -> n <> out -> in_syn N n = [] /\ t_prm N n = stdp).
  { intros n Hn Hne. split; [|cbn; apply prm_std; [apply HB|lia]]. eapply src_in; [exact ES|]. cbn [filter s_post syn]. eqbs. reflexivity. }
  constructor.
  - intros p y Hp Hy Ep. cbn [N net_of t_ext t_syns t_dt] in *. rewrite ES in Hy. unfold exts in Hp. cbn [flat_map stim_ext app In] in Hp. destruct Hp as [<-|[]]. cbn [snd].
    cbn [In] in Hy. destruct Hy as [<-|[<-|[]]]; cbn [s_delay syn mks].
    + rewrite cTsyn_R. fold a1. lia.
    + change (nadd cTsyn (nadd (nmul (nabs v) (Tcod enc)) (Tmin enc))) with d. rewrite Ed. replace (t0 + (1 + (Rabs v * tcod + tmin))) with (t0 + 1 + (tmin + Rabs v * tcod)) by lra. exact HK.
  - intros q Hq. destruct (Nat.eq_dec q out) as [->|Hne]; [|apply src_settled; apply SRC; auto].
    eapply (ins_settled _ _ _ a2); [exact HI|eapply spk_last; [exact HS|right; left; auto]| |exact HK].
    repeat constructor; cbn [s_pre s_delay mks]; (eapply over_arrs; [eassumption|]); cbn [In]; intros ? [<-|[]]; lia.
  - intros y j Hy Hj Hs. cbn [N net_of t_syns t_dt] in *. rewrite ES in Hy. fold N in Hs. destruct (SRC (sk_recall m) ltac:(lia) ltac:(lia)) as [X1 X2].
    pose proof (source_silent N (sk_recall m) X1 X2) as S0. cbn [In] in Hy. destruct Hy as [<-|[<-|[]]]; cbn [s_pre syn] in Hs; rewrite S0 in Hs; discriminate.
Qed.

Definition says_on (enc : encoder R) (eps v : R) (plus minus : list R) : Prop :=
  if Rle_dec 0 v then pair_says enc (Rabs v) eps plus /\ minus = [] else pair_says enc (Rabs v) eps minus /\ plus = [].
Lemma says_on_shift enc eps v p m d : says_on enc eps v p m -> says_on enc eps v (map (fun t => t + d) p) (map (fun t => t + d) m).
Proof. unfold says_on. destruct (Rle_dec 0 v); intros [A ->]; split; auto using says_shift. Qed.

Theorem signed_constant_reuse (tmin tcod v dt T : R) (ts : list R) nm ord :
  0 < dt -> 0 < tcod -> dt <= tmin + Rabs v * tcod -> 0 <= tmin -> ord_ok ord -> 0 <= T ->
  jobs_ok unit (fun _ => True) (fun _ => k_span tmin tcod v dt) 0 (map (fun t => (tt, t)) ts) T ->
  exists m s ps,
    session (SignedConstantNetwork (DataEncoder tmin tcod) v nm) sk_mod (DataEncoder tmin tcod) dt (fun m => map (fun t => SSpike (sk_recall m) t) ts) ord T = Ok (m, s) /\
    length ps = length ts /\ spike_log s (sk_output_plus m) = concat (map fst ps) /\ spike_log s (sk_output_minus m) = concat (map snd ps) /\
    Forall (fun p => says_on (DataEncoder tmin tcod) (dt / tcod) v (fst p) (snd p)) ps.
Proof.
  intros Hdt Htc Hiv Htm HO HT HJ. set (enc := DataEncoder tmin tcod).
  destruct (SignedConstant_built enc v nm empty_world inv_empty) as (m & w & E & HB & HN & HL).
  cbn [w_neurons empty_world length Nat.add] in HN, HL. pose proof HN as HN'. unfold sk_nodes in HN'. nodes_eqs HN'.
  pose proof (b_syn _ _ _ _ HB) as ES. cbn [w_syns empty_world app] in ES.
  assert (EQ : forall stims T, session (SignedConstantNetwork enc v nm) sk_mod enc dt stims ord T = session (SignedConstantNetwork enc v nm) sk_mod enc dt (fun _ => stims m) ord T).
  { intros stims T'. unfold session. rewrite E. reflexivity. }
  assert (AV : 0 <= Rabs v * tcod) by (apply Rmult_le_pos; [apply Rabs_pos|lra]).
  set (st_of := fun (_ : unit) (t : R) => [SSpike (sk_recall m) t]).
  destruct (session_jobs (SignedConstantNetwork enc v nm) sk_mod m w _ enc dt ord E HB Hdt HO unit st_of (fun _ => True) (fun _ => k_span tmin tcod v dt)
     (fun n => n = sk_output_plus m \/ n = sk_output_minus m)
     (fun _ l => says_on enc (dt / tcod) v (l (sk_output_plus m)) (l (sk_output_minus m)))) with (js := map (fun t => (tt, t)) ts) (T := T) as (s & ls & Es & F & LG); auto.
  - intros y Hy. rewrite ES in Hy. unfold sk_syns in Hy. cbn [In] in Hy. destruct Hy as [<-|[<-|[]]]; cbn [s_delay syn enc DataEncoder Tmin Tcod]; netr; autorewrite with netR; change (nabs v) with (Rabs v); lra.
  - intros x t p _ Hp. unfold exts, st_of in Hp. cbn [flat_map stim_ext app In] in Hp. destruct Hp as [<-|[]]. cbn; lra.
  - intros x t _. unfold st_of. repeat constructor. cbn. lia.
  - intros x _. unfold k_span. lra.
  - intros n [->| ->]; lia.
  - intros n x t Hn. unfold exts, st_of. cbn [flat_map stim_ext app map fst In]. lia.
  - intros x l l' d Hl EL. rewrite (EL (sk_output_plus m)), (EL (sk_output_minus m)) by auto. apply says_on_shift. exact Hl.
  - intros x t K _ Ht HK. pose proof (sk_quiet tmin tcod v dt t K m w nm Hdt Htc Hiv Ht HK E HB HN HL) as HQ. rewrite <- HL in HQ.
    unfold k_span in HK. rewrite S_INR in HK.
    destruct (signed_constant_run tmin tcod v dt t (INR K * dt) nm ord Hdt Htc Ht Hiv HO ltac:(lra)) as (m' & s & Es & EM & _ & EN). fold enc in Es, EM.
    destruct (session_rests (SignedConstantNetwork enc v nm) sk_mod m w _ enc dt ord E HB Hdt HO (fun _ => st_of x t) K) as (s' & Es' & RS); auto; [unfold st_of; repeat constructor; cbn; lia|].
    assert (EE : Ok (m, s') = Ok (m', s)) by (rewrite <- Es', <- Es; rewrite (EQ (fun m0 => [SSpike (sk_recall m0) t])); reflexivity).
    injection EE as <- <-. exists s'. split; [exact Es'|]. split; [exact RS|]. unfold says_on. destruct (Rle_dec 0 v); auto.
  - exists m, s, (map (fun l => (l (sk_output_plus m), l (sk_output_minus m))) ls). split; [|split; [|split; [|split]]].
    + assert (EJ : map (fun t => SSpike (sk_recall m) t) ts = job_stims unit st_of (map (fun t => (tt, t)) ts)).
      { unfold job_stims, st_of. clear. induction ts as [|t ts IH]; cbn [map flat_map app fst snd]; [reflexivity|rewrite IH; reflexivity]. }
      rewrite EQ, EJ. exact Es.
    + rewrite map_length. apply f2len in F. rewrite map_length in F. auto.
    + rewrite map_map. apply LG; auto.
    + rewrite map_map. apply LG; auto.
    + clear -F. induction F; cbn [map]; constructor; auto.
Qed.

(** ** ConstantNetwork *)
Lemma k_quiet (tmin tcod v dt t0 : R) K m w nm :
  0 < dt -> 0 < tcod -> dt <= tmin + v * tcod -> 0 <= t0 -> t0 + (1 + (tmin + v * tcod) + 2 * dt) <= INR (S K) * dt ->
  let enc := DataEncoder tmin tcod in
  ConstantNetwork enc v nm empty_world = Ok (m, w) -> built empty_world w (k_mod m) (k_syns enc v m) -> k_nodes m = seq 0 2 -> length (w_neurons w) = 2%nat ->
  quiet (net_of w (exts enc [SSpike (k_recall m) t0]) dt) 2 K.
Proof.
  intros Hdt Htc Hiv Ht0 HT enc E HB HN HL. rewrite S_INR in HT.
  set (stims := fun m => [SSpike (k_recall m) t0]).
  pose proof HN as HN'. unfold k_nodes in HN'. nodes_eqs HN'.
  destruct (session_built (ConstantNetwork enc v nm) k_mod m w _ enc dt stims (fun _ l => l) (INR K * dt) E HB Hdt ltac:(lra)) as (s & Es & HSe).
  { repeat constructor. cbn. lia. } { intros i l. reflexivity. }
  change [SSpike (k_recall m) t0] with (stims m).
  set (N := net_of w (exts enc (stims m)) dt) in *. unfold stims in *.
  unfold k_syns in *.
  pose proof (b_syn _ _ _ _ HB) as ES. cbn [w_syns empty_world app] in ES.
  set (d := cTsyn + (v * tcod + tmin)).
  assert (Ed : d = 1 + (v * tcod + tmin)) by (unfold d; rewrite cTsyn_R; lra).
  assert (HA1 : arrs N (k_recall m) cTsyn [step_at dt (t0 + 1)]) by (src_solve HSe).
  assert (HA2 : arrs N (k_recall m) d [step_at dt (t0 + 1 + (tmin + v * tcod))]).
  { src_solve HSe. do 2 f_equal. lra. }
  destruct (step_diff dt (t0 + 1) (tmin + v * tcod) Hdt ltac:(lra) ltac:(lra)) as (Q1 & Q2 & Q3). specialize (Q3 Hiv).
  pose proof (step_time dt (t0 + 1 + (tmin + v * tcod)) Hdt ltac:(lra)) as Z2.
  pose proof (step_at_ge1 dt (t0 + 1)) as Hge.
  set (a1 := step_at dt (t0 + 1)) in *. set (a2 := step_at dt (t0 + 1 + (tmin + v * tcod))) in *.
  assert (HK : (a2 <= K)%nat).
  { assert (a2 < K + 1)%nat; [|lia]. apply INR_lt. rewrite plus_INR. apply Rmult_lt_reg_r with dt; auto. cbn [INR]. lra. }
  assert (HI : ins N (k_output m) [mks (k_recall m) (k_output m) SynV we cTsyn; mks (k_recall m) (k_output m) SynV we d]).
  { eapply own_ins; [apply (se_own _ _ _ _ _ _ _ _ HSe); [lia|]; ext_simp; reflexivity|]. cbn [filter s_post syn]. eqbs. reflexivity. }
  pose proof (const_output N _ _ _ HI _ _ HA1 HA2 Hge Q3) as HS.
  assert (SRC : in_syn N (k_recall m) = [] /\ t_prm N (k_recall m) = stdp).
  { split; [|cbn; apply prm_std; [apply HB|lia]]. eapply src_in; [exact ES|]. cbn [filter s_post syn]. eqbs. reflexivity. }
  constructor.
  - intros p y Hp Hy Ep. cbn [N net_of t_ext t_syns t_dt] in *. rewrite ES in Hy. unfold exts in Hp. cbn [flat_map stim_ext app In] in Hp. destruct Hp as [<-|[]]. cbn [snd].
    cbn [In] in Hy. destruct Hy as [<-|[<-|[]]]; cbn [s_delay syn mks].
    + rewrite cTsyn_R. fold a1. lia.
    + change (nadd cTsyn (nadd (nmul v (Tcod enc)) (Tmin enc))) with d. rewrite Ed. replace (t0 + (1 + (v * tcod + tmin))) with (t0 + 1 + (tmin + v * tcod)) by lra. exact HK.
  - intros q Hq. destruct (Nat.eq_dec q (k_output m)) as [->|Hne]; [|replace q with (k_recall m) by lia; apply src_settled; apply SRC; auto].
    eapply (ins_settled _ _ _ a2); [exact HI|eapply spk_last; [exact HS|right; left; auto]| |exact HK].
    repeat constructor; cbn [s_pre s_delay mks]; (eapply over_arrs; [eassumption|]); cbn [In]; intros ? [<-|[]]; lia.
  - intros y j Hy Hj Hs. cbn [N net_of t_syns t_dt] in *. rewrite ES in Hy. fold N in Hs. destruct SRC as [X1 X2].
    pose proof (source_silent N (k_recall m) X1 X2) as S0. cbn [In] in Hy. destruct Hy as [<-|[<-|[]]]; cbn [s_pre syn] in Hs; rewrite S0 in Hs; discriminate.
Qed.
Theorem constant_reuse (tmin tcod v dt T : R) (ts : list R) nm ord :
  0 < dt -> 0 < tcod -> dt <= tmin + v * tcod -> ord_ok ord -> 0 <= T ->
  jobs_ok unit (fun _ => True) (fun _ => 1 + (tmin + v * tcod) + 2 * dt) 0 (map (fun t => (tt, t)) ts) T ->
  exists m s ps,
    session (ConstantNetwork (DataEncoder tmin tcod) v nm) k_mod (DataEncoder tmin tcod) dt (fun m => map (fun t => SSpike (k_recall m) t) ts) ord T = Ok (m, s) /\
    length ps = length ts /\ spike_log s (k_output m) = concat ps /\
    Forall (fun p => pair_says (DataEncoder tmin tcod) v (dt / tcod) p) ps.
Proof.
  intros Hdt Htc Hiv HO HT HJ. set (enc := DataEncoder tmin tcod).
  destruct (Constant_built enc v nm empty_world inv_empty) as (m & w & E & HB & HN & HL).
  cbn [w_neurons empty_world length Nat.add] in HN, HL. pose proof HN as HN'. unfold k_nodes in HN'. nodes_eqs HN'.
  pose proof (b_syn _ _ _ _ HB) as ES. cbn [w_syns empty_world app] in ES.
  destruct (session_jobs1 (ConstantNetwork enc v nm) k_mod m w _ enc dt ord unit (fun m _ t => [SSpike (k_recall m) t]) (fun _ => True) (fun _ => 1 + (tmin + v * tcod) + 2 * dt)
     (k_output m) (fun _ l => pair_says enc v (dt / tcod) l) E HB Hdt HO) with (js := map (fun t => (tt, t)) ts) (T := T) as (s & ps & Es & LG & F); auto.
  - intros y Hy. rewrite ES in Hy. unfold k_syns in Hy. cbn [In] in Hy. destruct Hy as [<-|[<-|[]]]; cbn [s_delay syn enc DataEncoder Tmin Tcod]; netr; autorewrite with netR; lra.
  - intros x t p _ Hp. unfold exts in Hp. cbn [flat_map stim_ext app In] in Hp. destruct Hp as [<-|[]]. cbn; lra.
  - intros x t _. repeat constructor. cbn. lia.
  - intros x _. lra.
  - lia.
  - intros x t. unfold exts. cbn [flat_map stim_ext app map fst In]. lia.
  - intros x l d. apply says_shift.
  - intros x t K _ Ht HK. pose proof (k_quiet tmin tcod v dt t K m w nm Hdt Htc Hiv Ht HK E HB HN HL) as HQ. rewrite <- HL in HQ.
    rewrite S_INR in HK.
    destruct (constant_run tmin tcod v dt t (INR K * dt) nm ord Hdt Htc Ht Hiv HO ltac:(lra)) as (m' & s & Es & EM & _). fold enc in Es, EM.
    destruct (session_rests (ConstantNetwork enc v nm) k_mod m w _ enc dt ord E HB Hdt HO (fun m => [SSpike (k_recall m) t]) K) as (s' & Es' & RS); auto; [repeat constructor; cbn; lia|].
    rewrite Es' in Es. injection Es as <- <-. exists s'. auto.
  - exists m, s, ps. split; [|split; [|split]]; auto.
    + rewrite <- Es. unfold session. rewrite E. cbn [rbind fst snd].
      assert (EJ : map (fun t => SSpike (k_recall m) t) ts = flat_map (fun j : unit * R => [SSpike (k_recall m) (snd j)]) (map (fun t => (tt, t)) ts)).
      { clear. induction ts as [|t ts IH]; cbn [map flat_map app fst snd]; [reflexivity|rewrite IH; reflexivity]. }
      rewrite EJ. reflexivity.
    + apply f2len in F. rewrite map_length in F. auto.
    + clear -F. induction F; constructor; auto.
Qed.
