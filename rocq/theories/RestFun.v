(** ExponentialNetwork, LogNetwork and ScalarMultiplierNetwork come back to rest, so they can be used again and again (C27, C29, C30, C52). *)
From Coq Require Import Arith ZArith Bool List Reals Lra Lia Permutation.
From Verif Require Import Num Heapq Elements Simulator Networks Trace SimTrace SimProps TraceProps NeuronLib NetLib Build BuildNets Bridge MemoryProof GeLib GfLib Session SegLib SimpleNets InvMem Misc LnLib FuncNets ExpLog Restart MemReuse Reuse Jobs Settle.
Import ListNotations.
Open Scope R_scope.
Open Scope list_scope.

(** *** what a pair of spikes says *)
Definition pair_says (enc : encoder R) (v eps : R) (l : list R) : Prop :=
  exists t1 t2 y, l = [t1; t2] /\ t1 < t2 /\ decode_interval enc (t2 - t1) = Ok y /\ Rabs (y - v) <= eps.
Lemma emits_says s n enc v eps : emits s n enc v eps <-> pair_says enc v eps (spike_log s n).
Proof. reflexivity. Qed.
Lemma says_shift enc v eps l d : pair_says enc v eps l -> pair_says enc v eps (map (fun t => t + d) l).
Proof.
  intros (t1 & t2 & y & -> & H1 & H2 & H3). exists (t1 + d), (t2 + d), y. split; [reflexivity|]. split; [lra|]. split; auto.
  replace (t2 + d - (t1 + d)) with (t2 - t1) by lra. auto.
Qed.

(** the arrivals of an injected pair of spikes *)
Ltac over_tac :=
  first [ eapply over_arrs; [eassumption|cbn [In]; intros ? [<-|[<-|[]]]; lia]
        | eapply over_spk; [eapply ins_ext; eassumption|eassumption|cbn [In]; intros ? [<-|[]]; lia] ].

Section ExpRest.
Variable N : tnet.
Variable m : exp_net.
Variables Tc tmin : R.
Let dt := t_dt N.
Hypothesis Hdt : 0 < dt < 20.
Hypothesis HTc : 0 < Tc.
Hypothesis HM : ex_ins N (1000 / Tc) tmin m.
Variables a1 a2 : nat.
Let D1 := step_at dt 1.
Let D2 := step_at dt 2.
Let Dm := step_at dt (1 + tmin).
Hypothesis Hin : arrs N (ex_input m) 1 [a1; a2].
Hypothesis Ha1 : (1 <= a1)%nat.
Hypothesis Ha2 : (a1 + D1 <= a2)%nat.
Hypothesis Hee : (a1 + Dm <= a2 + D1)%nat.
Hypothesis Hsrc : in_syn N (ex_input m) = [] /\ t_prm N (ex_input m) = stdp.
Hypothesis Hlt : (a2 + D2 < ex_fire N Tc tmin a1 a2 + Dm)%nat.
Let f := ex_fire N Tc tmin a1 a2.
Lemma ex_rest n k : In n (ex_nodes m) -> (f + Dm <= k)%nat -> st N k n = init_nstate (t_prm N n).
Proof.
  pose proof (step_at_ge1 dt 1) as G1. fold D1 in G1. pose proof (step_at_ge1 dt (1 + tmin)) as Gm. fold Dm in Gm.
  pose proof (ex_first_spk N m Tc tmin HM a1 a2 Hin Ha1 Ha2) as S1. pose proof (ex_last_spk N m Tc tmin HM a1 a2 Hin Ha1 Ha2 Hee) as S2.
  pose proof (ex_acc_spk N m Tc tmin Hdt HTc HM a1 a2 Hin Ha1 Ha2 Hee) as S3. fold f in S3, Hlt.
  pose proof (ex_output_spk N m Tc tmin Hdt HTc HM a1 a2 Hin Ha1 Ha2 Hee ltac:(fold dt D2 Dm f; lia)) as S4. fold f dt D2 Dm in S4.
  assert (Hf : (a2 + D1 <= f)%nat).
  { unfold f, ex_fire. fold dt D1. assert (G5 : (1 <= ex_steps N Tc tmin a1 a2)%nat) by apply step_at_ge1. lia. }
  pose proof (xi_first _ _ _ _ HM) as I1. pose proof (xi_last _ _ _ _ HM) as I2. pose proof (xi_acc _ _ _ _ HM) as I3. pose proof (xi_output _ _ _ _ HM) as I4.
  unfold ex_nodes. cbn [In]. intros [<-|[<-|[<-|[<-|[<-|[]]]]]] Hk.
  - apply src_settled; apply Hsrc.
  - eapply first_settled; eauto. lia.
  - eapply (ins_settled _ _ _ a2); [exact I2|eapply spk_last; [exact S2|left; auto]| |lia].
    repeat constructor; cbn [s_pre s_delay mks]; rewrite cTsyn_R; over_tac.
  - eapply (ins_settled _ _ _ f); [exact I3|eapply spk_last; [exact S3|left; auto]| |lia].
    repeat constructor; cbn [s_pre s_delay mks]; autorewrite with netR;
      (eapply over_spk; [first [apply (ins_ext _ _ _ I1)|apply (ins_ext _ _ _ I2)]|eassumption|]); cbn [In]; intros ? [<-|[]]; fold dt D1 Dm; lia.
  - eapply (ins_settled _ _ _ (f + Dm)); [exact I4|eapply spk_last; [exact S4|right; left; auto]| |lia].
    repeat constructor; cbn [s_pre s_delay mks]; autorewrite with netR;
      (eapply over_spk; [first [apply (ins_ext _ _ _ I3)|apply (ins_ext _ _ _ I2)]|eassumption|]); cbn [In]; intros ? [<-|[]]; rewrite ?Rmult_1_r; fold dt D2 Dm; lia.
Qed.
End ExpRest.

Lemma in_seq0 n K l : l = seq 0 K -> (n < K)%nat -> In n l.
Proof. intros -> H. apply in_seq. lia. Qed.
Lemma src_in (w : world R) L enc dt l n : w_syns w = L -> filter (fun y => (s_post y =? n)%nat) L = [] -> in_syn (net_of w (exts enc l) dt) n = [].
Proof. intros E H. unfold in_syn. cbn [net_of t_syns]. rewrite E. exact H. Qed.

Definition exp_span (tmin tcod dt : R) : R := 5 + 2 * (tmin + tcod) + 11 * dt.
Lemma exp_quiet (tmin tcod x dt t0 : R) K m w nm :
  0 < dt <= 1 / 2 -> 0 < tcod -> 1 + dt <= tmin -> 4 * dt <= tmin -> 0 <= x <= 1 -> 0 <= t0 ->
  aligned dt tmin \/ 2 * dt <= x * tcod -> t0 + 5 + 2 * (tmin + tcod) + 10 * dt <= INR K * dt ->
  let enc := DataEncoder tmin tcod in
  ExponentialNetwork enc nm empty_world = Ok (m, w) -> built empty_world w (ex_mod m) (ex_syns enc m) -> ex_nodes m = seq 0 5 -> length (w_neurons w) = 5%nat ->
  quiet (net_of w (exts enc [SValue x (ex_input m) t0]) dt) 5 K.
Proof.
  intros [Hdt Hdt2] Htc Htm Htm2 Hx Ht0 HA HT enc E HB HN HL.
  set (stims := fun m => [SValue x (ex_input m) t0]).
  pose proof HN as HN'. unfold ex_nodes in HN'. nodes_eqs HN'.
  destruct (session_built (ExponentialNetwork enc nm) ex_mod m w _ enc dt stims (fun _ l => l) (INR K * dt) E HB Hdt ltac:(lra)) as (s & Es & HSe).
  { stims_ok. } { intros i l. reflexivity. }
  change [SValue x (ex_input m) t0] with (stims m).
  set (N := net_of w (exts enc (stims m)) dt) in *.
  set (iv := tmin + x * tcod) in *. unfold stims in *.
  assert (Hxc : 0 <= x * tcod <= tcod) by (split; [apply Rmult_le_pos; lra|rewrite <- (Rmult_1_l tcod) at 2; apply Rmult_le_compat_r; lra]).
  assert (Hiv : 1 + dt <= iv <= tmin + tcod) by (unfold iv; lra).
  assert (HA1 : arrs N (ex_input m) 1 [step_at dt (t0 + 1); step_at dt (t0 + 1 + iv)]).
  { src_solve HSe. do 3 f_equal. fold iv. unfold enc; cbn [DataEncoder Tmin Tcod]. unfold iv. lra. }
  assert (HM : ex_ins N (1000 / tcod) tmin m).
  { rewrite <- (wbar_R tmin). apply (ex_ins_of N enc m 0); auto. intros n Hn. apply (se_own _ _ _ _ _ _ _ _ HSe).
    - unfold ex_internal in Hn. cbn [In] in Hn. intuition lia.
    - unfold ex_internal in Hn. cbn [In] in Hn. destruct Hn as [<-|[<-|[<-|[<-|[]]]]]; ext_simp; reflexivity. }
  destruct (step_diff dt (t0 + 1) iv Hdt ltac:(lra) ltac:(lra)) as (Q1 & Q2 & _).
  assert (Ha12 : (step_at dt (t0 + 1) + step_at dt 1 <= step_at dt (t0 + 1 + iv))%nat).
  { apply step_diff_ge; try lra; try apply step_at_ge1. pose proof (step_time dt 1 Hdt ltac:(lra)). unfold iv. lra. }
  pose proof (step_at_ge1 dt (t0 + 1)) as G1.
  pose proof (step_at_bounds dt (t0 + 1 + iv) Hdt ltac:(lra)) as BA2.
  destruct (pair_gap dt tmin (x * tcod) (step_at dt (t0 + 1)) (step_at dt (t0 + 1 + iv)) Hdt ltac:(lra) Q2) as (C1 & C2).
  { destruct HA as [HA|HA]; auto. left. apply steps_aligned_gap; auto; lra. }
  assert (Hd20 : 0 < t_dt N < 20) by (cbn; lra).
  assert (SRC : in_syn N (ex_input m) = [] /\ t_prm N (ex_input m) = stdp).
  { split; [|cbn; apply prm_std; [apply HB|lia]]. pose proof (b_syn _ _ _ _ HB) as ES. cbn [w_syns empty_world app] in ES. eapply src_in; [exact ES|]. syn_simp. }
  pose proof (ex_first_spk N m tcod tmin HM _ _ HA1 G1 Ha12) as S1. pose proof (ex_last_spk N m tcod tmin HM _ _ HA1 G1 Ha12 C1) as S2.
  pose proof (ex_acc_spk N m tcod tmin Hd20 Htc HM _ _ HA1 G1 Ha12 C1) as S3.
  pose proof (fun H1 => ex_rest N m tcod tmin Hd20 Htc HM _ _ HA1 G1 Ha12 C1 SRC H1) as RS.
  unfold ex_fire, ex_steps, rho in S3, RS. cbn [N net_of t_dt] in S3, RS. fold N in S3, RS.
  set (a1 := step_at dt (t0 + 1)) in *. set (a2 := step_at dt (t0 + 1 + iv)) in *.
  set (n := (a2 + step_at dt 1 - (a1 + step_at dt (1 + tmin)))%nat) in *.
  assert (Hr : 0 < (1 - dt / 20) ^ n <= 1).
  { split; [apply pow_lt; lra|]. apply pow_le1. lra. }
  assert (HTr : 0 < tcod * (1 - dt / 20) ^ n) by (apply Rmult_lt_0_compat; lra).
  pose proof (step_at_bounds dt _ Hdt HTr) as BJ.
  assert (HTr2 : tcod * (1 - dt / 20) ^ n <= tcod) by nra.
  destruct (out_timing dt tmin a2 (step_at dt (tcod * (1 - dt / 20) ^ n)) Hdt Htm2) as (C3 & C4).
  specialize (RS ltac:(lia)).
  pose proof (step_at_bounds dt 2 Hdt ltac:(lra)) as BD2. pose proof (step_at_ge1 dt 1) as D1p.
  assert (HKf : (a2 + step_at dt 1 - 1 + step_at dt (tcod * (1 - dt / 20) ^ n) + step_at dt (1 + tmin) <= K)%nat).
  { apply INR_le. apply Rmult_le_reg_r with dt; auto. apply Rabs_le2 in C4. rewrite (plus_INR a2 (step_at dt 2)) in C4. lra. }
  pose proof (step_at_ge1 dt (tcod * (1 - dt / 20) ^ n)) as GJ.
  constructor.
  - intros p y Hp Hy Ep. cbn [N net_of t_ext t_syns t_dt] in *. pose proof (b_syn _ _ _ _ HB) as ES. cbn [w_syns empty_world app] in ES. rewrite ES in Hy.
    assert (HP : s_delay y = 1).
    { unfold exts in Hp. cbn [flat_map stim_ext app In] in Hp. assert (Efst : fst p = ex_input m) by (destruct Hp as [<-|[<-|[]]]; reflexivity).
      rewrite Efst in Ep. unfold ex_syns in Hy. cbn [In] in Hy. repeat destruct Hy as [<-|Hy]; try destruct Hy; cbn [s_pre s_delay syn mks] in *; autorewrite with netR; try lra; exfalso; lia. }
    rewrite HP. unfold exts in Hp. cbn [flat_map stim_ext app In] in Hp. destruct Hp as [<-|[<-|[]]]; cbn [snd].
    + fold a1. lia.
    + replace (t0 + (Tmin enc + x * Tcod enc) + 1) with (t0 + 1 + iv) by (unfold iv, enc; cbn; lra). fold a2. lia.
  - intros q Hq. apply RS; auto. rewrite HN. apply in_seq. lia.
  - intros y j Hy Hj Hs. cbn [N net_of t_syns t_dt] in *. pose proof (b_syn _ _ _ _ HB) as ES. cbn [w_syns empty_world app] in ES. rewrite ES in Hy.
    fold N in Hs. pose proof (source_silent N (ex_input m) (proj1 SRC) (proj2 SRC)) as S0.
    unfold ex_syns in Hy. cbn [In] in Hy. repeat destruct Hy as [<-|Hy]; try destruct Hy; cbn [s_pre s_delay syn mks] in *; autorewrite with netR; rewrite ?Rmult_1_r;
      first [rewrite S0 in Hs | rewrite S1 in Hs | rewrite S2 in Hs | rewrite S3 in Hs];
      cbn [memb existsb] in Hs; try discriminate; rewrite orb_false_r in Hs; apply Nat.eqb_eq in Hs; subst j; cbn [enc DataEncoder Tmin]; lia.
Qed.

Theorem exponential_reuse (tmin tcod dt T : R) (js : list (R * R)) nm ord :
  0 < dt <= 1 / 2 -> 0 < tcod -> 1 + dt <= tmin -> 4 * dt <= tmin -> ord_ok ord -> 0 <= T ->
  jobs_ok R (fun x => 0 <= x <= 1 /\ (aligned dt tmin \/ 2 * dt <= x * tcod)) (fun _ => exp_span tmin tcod dt) 0 js T ->
  exists m s ps,
    session (ExponentialNetwork (DataEncoder tmin tcod) nm) ex_mod (DataEncoder tmin tcod) dt
      (fun m => flat_map (fun j => [SValue (fst j) (ex_input m) (snd j)]) js) ord T = Ok (m, s) /\
    spike_log s (ex_output m) = concat ps /\
    Forall2 (fun j p => pair_says (DataEncoder tmin tcod) (exp (- (fst j * tcod / 20))) (3 * dt / tcod + 3 * dt / 20) p) js ps.
Proof.
  intros Hdt Htc Htm Htm2 HO HT HJ. set (enc := DataEncoder tmin tcod).
  assert (HTc : tcod <> 0) by lra.
  destruct (Exp_built enc nm empty_world inv_empty (neq0 _ HTc)) as (m & w & E & HB & HN & HL).
  cbn [w_neurons empty_world length Nat.add] in HN, HL.
  pose proof HN as HN'. unfold ex_nodes in HN'. nodes_eqs HN'.
  pose proof (b_syn _ _ _ _ HB) as ES. cbn [w_syns empty_world app] in ES.
  destruct (session_jobs1 (ExponentialNetwork enc nm) ex_mod m w _ enc dt ord R (fun m x t => [SValue x (ex_input m) t])
     (fun x => 0 <= x <= 1 /\ (aligned dt tmin \/ 2 * dt <= x * tcod)) (fun _ => exp_span tmin tcod dt) (ex_output m)
     (fun x l => pair_says enc (exp (- (x * tcod / 20))) (3 * dt / tcod + 3 * dt / 20) l) E HB ltac:(lra) HO) with (js := js) (T := T) as (s & ps & Es & LG & F); auto.
  - intros y Hy. rewrite ES in Hy. unfold ex_syns in Hy. cbn [In] in Hy. repeat destruct Hy as [<-|Hy]; try destruct Hy; cbn [s_delay syn mks enc DataEncoder Tmin]; autorewrite with netR; lra.
  - intros x t d. apply later_pair.
  - intros x t p [Hx _] Hp. unfold exts in Hp. cbn [flat_map stim_ext app In enc DataEncoder Tmin Tcod] in Hp. assert (0 <= x * tcod) by (apply Rmult_le_pos; lra).
    destruct Hp as [<-|[<-|[]]]; cbn [snd]; lra.
  - intros x t [Hx _]. stims_ok.
  - intros x _. unfold exp_span. lra.
  - lia.
  - intros x t. unfold exts. cbn [flat_map stim_ext app map fst In]. lia.
  - intros x l d. apply says_shift.
  - intros x t K [Hx HA] Ht HK. rewrite S_INR in HK. unfold exp_span in HK.
    destruct (exponential_run tmin tcod x dt t (INR K * dt) nm ord Hdt Htc Htm Htm2 Hx Ht HO HA ltac:(lra)) as (m' & s & Es & _ & _ & EM).
    pose proof (exp_quiet tmin tcod x dt t K m w nm Hdt Htc Htm Htm2 Hx Ht HA ltac:(lra) E HB HN HL) as HQ. rewrite <- HL in HQ.
    destruct (session_rests (ExponentialNetwork enc nm) ex_mod m w _ enc dt ord E HB ltac:(lra) HO (fun m => [SValue x (ex_input m) t]) K) as (s' & Es' & RS); auto; [stims_ok|].
    fold enc in Es. rewrite Es' in Es. injection Es as <- <-. exists s'. auto.
  - exists m, s, ps. auto.
Qed.

(** ** ScalarMultiplierNetwork *)
Ltac over_list := cbn [In]; intros ? [<-|[]]; rewrite ?Rmult_1_r.
Section ScRest.
Variable N : tnet.
Variable m : smul_net.
Variables Tmax tmin f : R.
Let dt := t_dt N.
Hypothesis Hdt : 0 < dt.
Hypothesis HTmax : 0 < Tmax.
Hypothesis Hf : 0 < f.
Hypothesis HM : sc_ins N (1000 / Tmax) tmin f m.
Variables a1 a2 : nat.
Let D1 := step_at dt 1.
Let D2 := step_at dt 2.
Let Dm := step_at dt (1 + tmin).
Hypothesis Hin : arrs N (sc_input m) 1 [a1; a2].
Hypothesis Ha1 : (1 <= a1)%nat.
Hypothesis Ha2 : (a1 + D1 <= a2)%nat.
Let f1 := sc_fire1 N Tmax tmin f a1.
Let f2 := sc_fire2 N Tmax tmin f a1 a2.
Hypothesis Hbe : (a2 + D2 <= f1 + D1)%nat.
Hypothesis Hleft : 0 < sc_left N Tmax tmin f a1 a2.
Hypothesis Hsrc : in_syn N (sc_input m) = [] /\ t_prm N (sc_input m) = stdp.
Hypothesis Hlt : (f1 + D2 < f2 + Dm)%nat.
Lemma sc_f12 : (f1 + D1 <= f2)%nat /\ (a1 + Dm <= f1)%nat.
Proof.
  assert (G5 : (1 <= sc_steps N Tmax tmin f a1 a2)%nat) by apply step_at_ge1. unfold f2, f1, sc_fire2, sc_fire1. fold dt D1 Dm.
  pose proof (step_at_ge1 dt (1 + tmin)) as Gm. fold Dm in Gm. pose proof (step_at_ge1 dt (Tmax / f)). pose proof (step_at_ge1 dt 1). fold D1 in H0. lia.
Qed.
Lemma sc_rest n k : In n (sc_nodes m) -> (f2 + Dm <= k)%nat -> st N k n = init_nstate (t_prm N n).
Proof.
  pose proof (step_at_ge1 dt 1) as G1. fold D1 in G1. pose proof (step_at_ge1 dt (1 + tmin)) as Gm. fold Dm in Gm. pose proof (step_at_ge1 dt 2) as G2. fold D2 in G2.
  pose proof (sc_first_spk N m Tmax tmin f HM a1 a2 Hin Ha1 Ha2) as S1. pose proof (sc_last_spk N m Tmax tmin f HM a1 a2 Hin Ha1 Ha2 Hbe) as S2.
  pose proof (sc_acc_spk N m Tmax tmin f Hdt HTmax Hf HM a1 a2 Hin Ha1 Ha2 Hbe) as S3. fold f1 in S3.
  pose proof (sc_acc2_spk N m Tmax tmin f Hdt HTmax Hf HM a1 a2 Hin Ha1 Ha2 Hbe Hleft) as S4. fold f2 in S4.
  pose proof (sc_output_spk N m Tmax tmin f Hdt HTmax Hf HM a1 a2 Hin Ha1 Ha2 Hbe Hleft ltac:(fold dt D2 Dm f1 f2; lia)) as S5. fold f1 f2 dt D2 Dm in S5.
  destruct sc_f12 as [F1 F2].
  pose proof (ci_first _ _ _ _ _ HM) as I1. pose proof (ci_last _ _ _ _ _ HM) as I2. pose proof (ci_acc _ _ _ _ _ HM) as I3. pose proof (ci_acc2 _ _ _ _ _ HM) as I4. pose proof (ci_output _ _ _ _ _ HM) as I5.
  unfold sc_nodes. cbn [In]. intros [<-|[<-|[<-|[<-|[<-|[<-|[]]]]]]] Hk.
  - apply src_settled; apply Hsrc.
  - eapply first_settled; eauto. lia.
  - eapply (ins_settled _ _ _ a2); [exact I2|eapply spk_last; [exact S2|left; auto]| |lia].
    repeat constructor; cbn [s_pre s_delay mks]; rewrite cTsyn_R; over_tac.
  - eapply (ins_settled _ _ _ f1); [exact I3|eapply spk_last; [exact S3|left; auto]| |lia].
    repeat constructor; cbn [s_pre s_delay mks]; autorewrite with netR; (eapply over_spk; [apply (ins_ext _ _ _ I1)|eassumption|]); over_list; fold dt Dm; lia.
  - eapply (ins_settled _ _ _ f2); [exact I4|eapply spk_last; [exact S4|left; auto]| |lia].
    repeat constructor; cbn [s_pre s_delay mks]; autorewrite with netR;
      (eapply over_spk; [first [apply (ins_ext _ _ _ I2)|apply (ins_ext _ _ _ I3)]|eassumption|]); over_list; fold dt D1 D2; lia.
  - eapply (ins_settled _ _ _ (f2 + Dm)); [exact I5|eapply spk_last; [exact S5|right; left; auto]| |lia].
    repeat constructor; cbn [s_pre s_delay mks]; autorewrite with netR;
      (eapply over_spk; [first [apply (ins_ext _ _ _ I3)|apply (ins_ext _ _ _ I4)]|eassumption|]); over_list; fold dt D2 Dm; lia.
Qed.
End ScRest.

Definition sc_span (tmin tcod f dt : R) : R := 5 + 3 * tmin + (tmin + tcod) / f + tcod + 6 * dt.
Lemma sc_quiet (tmin tcod f x dt t0 : R) K m w nm :
  0 < dt <= 1 / 2 -> 0 < tcod -> 0 < f -> 1 + dt <= tmin -> (3 + 3 * f) * dt <= tmin -> 0 <= x <= 1 -> f * x <= 1 -> 0 <= t0 ->
  aligned dt tmin \/ 3 * dt <= x * tcod ->
  t0 + 5 + 3 * tmin + (tmin + tcod) / f + tcod + 5 * dt <= INR K * dt ->
  let enc := DataEncoder tmin tcod in
  ScalarMultiplierNetwork f enc nm empty_world = Ok (m, w) -> built empty_world w (sc_mod m) (sc_syns enc f m) -> sc_nodes m = seq 0 6 -> length (w_neurons w) = 6%nat ->
  quiet (net_of w (exts enc [SValue x (sc_input m) t0]) dt) 6 K.
Proof.
  intros [Hdt Hdt2] Htc Hf Htm Htm2 Hx Hfx Ht0 HA HT enc E HB HN HL.
  set (stims := fun m => [SValue x (sc_input m) t0]).
  pose proof HN as HN'. unfold sc_nodes in HN'. nodes_eqs HN'.
  assert (HTf : 0 < (tmin + tcod) / f) by (apply Rmult_lt_0_compat; [lra|apply Rinv_0_lt_compat; auto]).
  destruct (session_built (ScalarMultiplierNetwork f enc nm) sc_mod m w _ enc dt stims (fun _ l => l) (INR K * dt) E HB Hdt ltac:(lra)) as (s & Es & HSe).
  { stims_ok. } { intros i l. reflexivity. }
  change [SValue x (sc_input m) t0] with (stims m).
  set (N := net_of w (exts enc (stims m)) dt) in *.
  set (iv := tmin + x * tcod) in *. unfold stims in *.
  assert (Hxc : 0 <= x * tcod <= tcod) by (split; [apply Rmult_le_pos; lra|rewrite <- (Rmult_1_l tcod) at 2; apply Rmult_le_compat_r; lra]).
  assert (Hiv : 1 + dt <= iv <= tmin + tcod) by (unfold iv; lra).
  assert (HA1 : arrs N (sc_input m) 1 [step_at dt (t0 + 1); step_at dt (t0 + 1 + iv)]).
  { src_solve HSe. do 3 f_equal. fold iv. unfold enc; cbn [DataEncoder Tmin Tcod]. unfold iv. lra. }
  assert (HM : sc_ins N (1000 / (tmin + tcod)) tmin f m).
  { rewrite <- wacc_R. apply (sc_ins_of N enc f m 0); auto. intros n Hn. apply (se_own _ _ _ _ _ _ _ _ HSe).
    - unfold sc_internal in Hn. cbn [In] in Hn. intuition lia.
    - unfold sc_internal in Hn. cbn [In] in Hn. destruct Hn as [<-|[<-|[<-|[<-|[<-|[]]]]]]; ext_simp; reflexivity. }
  destruct (step_diff dt (t0 + 1) iv Hdt ltac:(lra) ltac:(lra)) as (Q1 & Q2 & _).
  assert (Ha12 : (step_at dt (t0 + 1) + step_at dt 1 <= step_at dt (t0 + 1 + iv))%nat).
  { apply step_diff_ge; try lra; try apply step_at_ge1. pose proof (step_time dt 1 Hdt ltac:(lra)). unfold iv. lra. }
  pose proof (step_at_bounds dt (t0 + 1) Hdt ltac:(lra)) as BA1.
  pose proof (step_at_ge1 dt (t0 + 1)) as G1.
  destruct (sc_timing dt tmin tcod x f (step_at dt (t0 + 1)) (step_at dt (t0 + 1 + iv)) Hdt Htc Hf Hx Hfx Htm2 Q2) as (C1 & C2 & C3 & C4 & C5).
  { destruct HA as [HA|HA]; auto. left. split; [apply steps_aligned_gap; auto; lra|].
    destruct (aligned_steps dt tmin Hdt ltac:(lra) HA) as (p & q & E1 & E2 & _). lia. }
  assert (SRC : in_syn N (sc_input m) = [] /\ t_prm N (sc_input m) = stdp).
  { split; [|cbn; apply prm_std; [apply HB|lia]]. pose proof (b_syn _ _ _ _ HB) as ES. cbn [w_syns empty_world app] in ES. eapply src_in; [exact ES|]. syn_simp. }
  assert (HTm : 0 < tmin + tcod) by lra.
  pose proof (sc_first_spk N m (tmin + tcod) tmin f HM _ _ HA1 G1 Ha12) as S1. pose proof (sc_last_spk N m (tmin + tcod) tmin f HM _ _ HA1 G1 Ha12 C1) as S2.
  pose proof (sc_acc_spk N m (tmin + tcod) tmin f Hdt HTm Hf HM _ _ HA1 G1 Ha12 C1) as S3.
  pose proof (sc_acc2_spk N m (tmin + tcod) tmin f Hdt HTm Hf HM _ _ HA1 G1 Ha12 C1 C2) as S4.
  pose proof (sc_rest N m (tmin + tcod) tmin f Hdt HTm Hf HM _ _ HA1 G1 Ha12 C1 C2 SRC C3) as RS.
  assert (F12 : (sc_fire1 N (tmin + tcod) tmin f (step_at dt (t0 + 1)) + step_at dt 1 <= sc_fire2 N (tmin + tcod) tmin f (step_at dt (t0 + 1)) (step_at dt (t0 + 1 + iv)) /\
    step_at dt (t0 + 1) + step_at dt (1 + tmin) <= sc_fire1 N (tmin + tcod) tmin f (step_at dt (t0 + 1)))%nat) by (eapply (sc_f12 N); eauto).
  destruct F12 as [F1 F2].
  cbn [N net_of t_dt] in F1, F2, RS. fold N in F1, F2, RS.
  change (step_at dt (t0 + 1) + step_at dt (1 + tmin) - 1 + step_at dt ((tmin + tcod) / f))%nat with (sc_fire1 N (tmin + tcod) tmin f (step_at dt (t0 + 1))) in C1, C3, C4, C5.
  set (a1 := step_at dt (t0 + 1)) in *. set (a2 := step_at dt (t0 + 1 + iv)) in *.
  set (f1 := sc_fire1 N (tmin + tcod) tmin f a1) in *.
  match type of C3 with (_ < ?e)%nat => change e with (sc_fire2 N (tmin + tcod) tmin f a1 a2 + step_at dt (1 + tmin))%nat in C3, C4 end.
  set (f2 := sc_fire2 N (tmin + tcod) tmin f a1 a2) in *.
  pose proof (step_at_ge1 dt 2) as G2. pose proof (step_at_bounds dt 2 Hdt ltac:(lra)) as BD2. pose proof (step_at_ge1 dt 1) as D1p. pose proof (step_at_ge1 dt (1 + tmin)) as Dmp.
  assert (Hfx2 : f * x * tcod <= tcod) by (rewrite <- (Rmult_1_l tcod) at 2; apply Rmult_le_compat_r; lra).
  assert (HKf : (f2 + step_at dt (1 + tmin) <= K)%nat).
  { apply INR_le. apply Rmult_le_reg_r with dt; auto. apply Rabs_le2 in C4. rewrite (plus_INR f1) in C4. lra. }
  constructor.
  - intros p y Hp Hy Ep. cbn [N net_of t_ext t_syns t_dt] in *. pose proof (b_syn _ _ _ _ HB) as ES. cbn [w_syns empty_world app] in ES. rewrite ES in Hy.
    assert (HP : s_delay y = 1).
    { unfold exts in Hp. cbn [flat_map stim_ext app In] in Hp. assert (Efst : fst p = sc_input m) by (destruct Hp as [<-|[<-|[]]]; reflexivity).
      rewrite Efst in Ep. unfold sc_syns in Hy. cbn [In] in Hy. repeat destruct Hy as [<-|Hy]; try destruct Hy; cbn [s_pre s_delay syn mks] in *; autorewrite with netR; try lra; exfalso; lia. }
    rewrite HP. unfold exts in Hp. cbn [flat_map stim_ext app In] in Hp. destruct Hp as [<-|[<-|[]]]; cbn [snd].
    + fold a1. lia.
    + replace (t0 + (Tmin enc + x * Tcod enc) + 1) with (t0 + 1 + iv) by (unfold iv, enc; cbn; lra). fold a2. lia.
  - intros q Hq. apply RS; auto. rewrite HN. apply in_seq. lia.
  - intros y j Hy Hj Hs. cbn [N net_of t_syns t_dt] in *. pose proof (b_syn _ _ _ _ HB) as ES. cbn [w_syns empty_world app] in ES. rewrite ES in Hy.
    fold N in Hs. pose proof (source_silent N (sc_input m) (proj1 SRC) (proj2 SRC)) as S0.
    unfold sc_syns in Hy. cbn [In] in Hy. repeat destruct Hy as [<-|Hy]; try destruct Hy; cbn [s_pre s_delay syn mks] in *; autorewrite with netR; rewrite ?Rmult_1_r;
      first [rewrite S0 in Hs | rewrite S1 in Hs | rewrite S2 in Hs | rewrite S3 in Hs | rewrite S4 in Hs];
      cbn [memb existsb] in Hs; try discriminate; rewrite orb_false_r in Hs; apply Nat.eqb_eq in Hs; subst j; cbn [enc DataEncoder Tmin]; fold f1 f2; lia.
Qed.
Theorem scalar_mul_reuse (tmin tcod f dt T : R) (js : list (R * R)) nm ord :
  0 < dt <= 1 / 2 -> 0 < tcod -> 0 < f -> 1 + dt <= tmin -> (3 + 3 * f) * dt <= tmin -> ord_ok ord -> 0 <= T ->
  jobs_ok R (fun x => 0 <= x <= 1 /\ f * x <= 1 /\ (aligned dt tmin \/ 3 * dt <= x * tcod)) (fun _ => sc_span tmin tcod f dt) 0 js T ->
  exists m s ps,
    session (ScalarMultiplierNetwork f (DataEncoder tmin tcod) nm) sc_mod (DataEncoder tmin tcod) dt
      (fun m => flat_map (fun j => [SValue (fst j) (sc_input m) (snd j)]) js) ord T = Ok (m, s) /\
    spike_log s (sc_output m) = concat ps /\
    Forall2 (fun j p => pair_says (DataEncoder tmin tcod) (f * fst j) ((2 + 3 * f) * dt / tcod) p) js ps.
Proof.
  intros Hdt Htc Hf Htm Htm2 HO HT HJ. set (enc := DataEncoder tmin tcod).
  assert (HTm : tmin + tcod <> 0) by lra.
  assert (HTf : 0 < (tmin + tcod) / f) by (apply Rmult_lt_0_compat; [lra|apply Rinv_0_lt_compat; auto]).
  destruct (ScalarMul_built f enc nm empty_world inv_empty (neq0 _ HTm)) as (m & w & E & HB & HN & HL).
  cbn [w_neurons empty_world length Nat.add] in HN, HL.
  pose proof HN as HN'. unfold sc_nodes in HN'. nodes_eqs HN'.
  pose proof (b_syn _ _ _ _ HB) as ES. cbn [w_syns empty_world app] in ES.
  destruct (session_jobs1 (ScalarMultiplierNetwork f enc nm) sc_mod m w _ enc dt ord R (fun m x t => [SValue x (sc_input m) t])
     (fun x => 0 <= x <= 1 /\ f * x <= 1 /\ (aligned dt tmin \/ 3 * dt <= x * tcod)) (fun _ => sc_span tmin tcod f dt) (sc_output m)
     (fun x l => pair_says enc (f * x) ((2 + 3 * f) * dt / tcod) l) E HB ltac:(lra) HO) with (js := js) (T := T) as (s & ps & Es & LG & F); auto.
  - intros y Hy. rewrite ES in Hy. unfold sc_syns in Hy. cbn [In] in Hy. repeat destruct Hy as [<-|Hy]; try destruct Hy; cbn [s_delay syn mks enc DataEncoder Tmin]; autorewrite with netR; lra.
  - intros x t d. apply later_pair.
  - intros x t p [Hx _] Hp. unfold exts in Hp. cbn [flat_map stim_ext app In enc DataEncoder Tmin Tcod] in Hp. assert (0 <= x * tcod) by (apply Rmult_le_pos; lra).
    destruct Hp as [<-|[<-|[]]]; cbn [snd]; lra.
  - intros x t [Hx _]. stims_ok.
  - intros x _. unfold sc_span. lra.
  - lia.
  - intros x t. unfold exts. cbn [flat_map stim_ext app map fst In]. lia.
  - intros x l d. apply says_shift.
  - intros x t K (Hx & Hfx & HA) Ht HK. rewrite S_INR in HK. unfold sc_span in HK.
    destruct (scalar_mul_run tmin tcod f x dt t (INR K * dt) nm ord Hdt Htc Hf Htm Htm2 Hx Hfx Ht HO HA ltac:(lra)) as (m' & s & Es & EM).
    pose proof (sc_quiet tmin tcod f x dt t K m w nm Hdt Htc Hf Htm Htm2 Hx Hfx Ht HA ltac:(lra) E HB HN HL) as HQ. rewrite <- HL in HQ.
    destruct (session_rests (ScalarMultiplierNetwork f enc nm) sc_mod m w _ enc dt ord E HB ltac:(lra) HO (fun m => [SValue x (sc_input m) t]) K) as (s' & Es' & RS); auto; [stims_ok|].
    fold enc in Es. rewrite Es' in Es. injection Es as <- <-. exists s'. auto.
  - exists m, s, ps. auto.
Qed.

(** ** LogNetwork: 1 is excluded (its accumulator fires before the inhibition arrives) and so is 0 *)
Section LgRest.
Variable N : tnet.
Variable m : log_net.
Variables Tc tmin : R.
Let dt := t_dt N.
Hypothesis HM : lg_ins N (1000 / Tc) tmin m.
Variables a1 a2 : nat.
Let D1 := step_at dt 1.
Let D2 := step_at dt 2.
Let Dm := step_at dt (1 + tmin).
Hypothesis Hin : arrs N (lg_input m) 1 [a1; a2].
Hypothesis Ha1 : (1 <= a1)%nat.
Hypothesis Ha2 : (a1 + D1 <= a2)%nat.
Hypothesis Hee : (a1 + Dm <= a2 + D1)%nat.
Hypothesis Hsrc : in_syn N (lg_input m) = [] /\ t_prm N (lg_input m) = stdp.
Variable f : nat.
Hypothesis S3 : spikes_at N (lg_acc m) [f].
Hypothesis Hf : (a2 + D1 <= f)%nat.
Hypothesis Hlt : (a2 + D2 < f + Dm)%nat.
Lemma lg_rest n k : In n (lg_nodes m) -> (f + Dm <= k)%nat -> st N k n = init_nstate (t_prm N n).
Proof.
  pose proof (step_at_ge1 dt 1) as G1. fold D1 in G1. pose proof (step_at_ge1 dt (1 + tmin)) as Gm. fold Dm in Gm.
  assert (S1 : spikes_at N (lg_first m) [a1]) by (eapply lg_first_spk; eauto).
  assert (S2 : spikes_at N (lg_last m) [a2]) by (eapply lg_last_spk; eauto).
  assert (S4 : spikes_at N (lg_output m) [(a2 + D2)%nat; (f + Dm)%nat]) by (eapply lg_output_spk; eauto; fold dt D2 Dm; lia).
  pose proof (gi_first _ _ _ _ HM) as I1. pose proof (gi_last _ _ _ _ HM) as I2. pose proof (gi_acc _ _ _ _ HM) as I3. pose proof (gi_output _ _ _ _ HM) as I4.
  unfold lg_nodes. cbn [In]. intros [<-|[<-|[<-|[<-|[<-|[]]]]]] Hk.
  - apply src_settled; apply Hsrc.
  - eapply first_settled; eauto. lia.
  - eapply (ins_settled _ _ _ a2); [exact I2|eapply spk_last; [exact S2|left; auto]| |lia].
    repeat constructor; cbn [s_pre s_delay mks]; rewrite cTsyn_R; over_tac.
  - eapply (ins_settled _ _ _ f); [exact I3|eapply spk_last; [exact S3|left; auto]| |lia].
    repeat constructor; cbn [s_pre s_delay mks]; autorewrite with netR;
      (eapply over_spk; [first [apply (ins_ext _ _ _ I1)|apply (ins_ext _ _ _ I2)]|eassumption|]); over_list; fold dt D1 Dm; lia.
  - eapply (ins_settled _ _ _ (f + Dm)); [exact I4|eapply spk_last; [exact S4|right; left; auto]| |lia].
    repeat constructor; cbn [s_pre s_delay mks]; autorewrite with netR;
      (eapply over_spk; [first [apply (ins_ext _ _ _ I3)|apply (ins_ext _ _ _ I2)]|eassumption|]); over_list; fold dt D2 Dm; lia.
Qed.
End LgRest.

Definition log_span (tmin tcod dt x : R) : R := 25 + 2 * tmin + tcod + (20 + dt) * - ln x + 11 * dt.
Lemma log_quiet (tmin tcod x dt t0 : R) K m w nm :
  0 < dt <= 1 / 2 -> 0 < tcod -> 1 + dt <= tmin -> 6 * dt <= tmin -> 0 < x <= 1 -> 4 * dt <= x * tcod -> x * tcod + 2 * dt <= tcod -> 0 <= t0 ->
  t0 + 25 + 2 * tmin + tcod + (20 + dt) * - ln x + 10 * dt <= INR K * dt ->
  let enc := DataEncoder tmin tcod in
  LogNetwork enc nm empty_world = Ok (m, w) -> built empty_world w (lg_mod m) (lg_syns enc m) -> lg_nodes m = seq 0 5 -> length (w_neurons w) = 5%nat ->
  quiet (net_of w (exts enc [SValue x (lg_input m) t0]) dt) 5 K.
Proof.
  intros [Hdt Hdt2] Htc Htm Htm2 Hx Hxt Hx1 Ht0 HT enc E HB HN HL.
  pose proof (ln_neg x Hx) as Hln. assert (Hln2 : 0 <= dt * - ln x) by (apply Rmult_le_pos; lra).
  set (stims := fun m => [SValue x (lg_input m) t0]).
  pose proof HN as HN'. unfold lg_nodes in HN'. nodes_eqs HN'.
  destruct (session_built (LogNetwork enc nm) lg_mod m w _ enc dt stims (fun _ l => l) (INR K * dt) E HB Hdt ltac:(lra)) as (s & Es & HSe).
  { stims_ok. } { intros i l. reflexivity. }
  change [SValue x (lg_input m) t0] with (stims m).
  set (N := net_of w (exts enc (stims m)) dt) in *.
  set (iv := tmin + x * tcod) in *. unfold stims in *.
  assert (Hxc : 0 <= x * tcod <= tcod) by (split; [apply Rmult_le_pos; lra|rewrite <- (Rmult_1_l tcod) at 2; apply Rmult_le_compat_r; lra]).
  assert (Hiv : 1 + dt <= iv <= tmin + tcod) by (unfold iv; lra).
  assert (HA1 : arrs N (lg_input m) 1 [step_at dt (t0 + 1); step_at dt (t0 + 1 + iv)]).
  { src_solve HSe. do 3 f_equal. fold iv. unfold enc; cbn [DataEncoder Tmin Tcod]. unfold iv. lra. }
  assert (HM : lg_ins N (1000 / tcod) tmin m).
  { rewrite <- (wbar_R tmin). apply (lg_ins_of N enc m 0); auto. intros n Hn. apply (se_own _ _ _ _ _ _ _ _ HSe).
    - unfold lg_internal in Hn. cbn [In] in Hn. intuition lia.
    - unfold lg_internal in Hn. cbn [In] in Hn. destruct Hn as [<-|[<-|[<-|[<-|[]]]]]; ext_simp; reflexivity. }
  destruct (step_diff dt (t0 + 1) iv Hdt ltac:(lra) ltac:(lra)) as (Q1 & Q2 & _).
  assert (Ha12 : (step_at dt (t0 + 1) + step_at dt 1 <= step_at dt (t0 + 1 + iv))%nat).
  { apply step_diff_ge; try lra; try apply step_at_ge1. pose proof (step_time dt 1 Hdt ltac:(lra)). unfold iv. lra. }
  pose proof (step_at_ge1 dt (t0 + 1)) as G1.
  pose proof (step_at_bounds dt (t0 + 1 + iv) Hdt ltac:(lra)) as BA2. pose proof (step_at_bounds dt 2 Hdt ltac:(lra)) as BD2.
  pose proof (step_at_ge1 dt 2) as G2. pose proof (step_at_ge1 dt 1) as D1p.
  destruct (log_timing N m dt tmin tcod x _ _ eq_refl ltac:(lra) Htc Htm2 Hx Hxt HM HA1 G1 Ha12 Q2) as (o & O1 & O2 & O3).
  assert (Hq : 0 <= 80 * dt / (x * tcod) <= 20).
  { assert (0 < x * tcod) by lra. split; [apply Rmult_le_pos; [lra|left; apply Rinv_0_lt_compat; auto]|].
    apply Rmult_le_reg_r with (x * tcod); auto. unfold Rdiv. rewrite Rmult_assoc, Rinv_l by lra. lra. }
  assert (HoK : (o <= K)%nat).
  { apply INR_le. apply Rmult_le_reg_r with dt; auto. apply Rabs_le2 in O3. rewrite plus_INR in O3. lra. }
  destruct (pair_gap dt tmin (x * tcod) _ _ Hdt ltac:(lra) Q2 ltac:(right; lra)) as [C1 C2].
  assert (SRC : in_syn N (lg_input m) = [] /\ t_prm N (lg_input m) = stdp).
  { split; [|cbn; apply prm_std; [apply HB|lia]]. pose proof (b_syn _ _ _ _ HB) as ES. cbn [w_syns empty_world app] in ES. eapply src_in; [exact ES|]. syn_simp. }
  destruct (lg_acc_spk N m tcod tmin ltac:(cbn; lra) Htc HM _ _ HA1 G1 Ha12 C1) as (_ & HF & _). change (t_dt N) with dt in HF.
  set (a1 := step_at dt (t0 + 1)) in *. set (a2 := step_at dt (t0 + 1 + iv)) in *.
  set (n := (a2 + step_at dt 1 - (a1 + step_at dt (1 + tmin)))%nat) in *.
  assert (Hc : 0 < INR n * (dt / tcod) < 1).
  { apply Rabs_def2 in C2. replace (INR n * (dt / tcod)) with (INR n * dt / tcod) by (field; lra). split.
    - apply Rdiv_lt_0_compat; lra.
    - apply Rmult_lt_reg_r with tcod; auto. unfold Rdiv. rewrite Rmult_assoc, Rinv_l by lra. lra. }
  assert (Hrb : 0 < rho N < 1) by (unfold rho; cbn; lra).
  destruct (least_pow (rho N) _ Hrb (proj1 Hc)) as (j & J1 & J2).
  assert (Hj : (1 <= j)%nat) by (destruct j; [cbn in J1; lra|lia]).
  specialize (HF j (proj2 Hc) J1 J2). set (f := (a2 + step_at dt 1 - 1 + j)%nat) in *.
  assert (Hfa : (a2 + step_at dt 1 <= f)%nat) by (unfold f; lia).
  destruct (out_timing dt tmin a2 j Hdt ltac:(lra)) as (C3 & _). fold f in C3.
  assert (S4 : spikes_at N (lg_output m) [(a2 + step_at dt 2)%nat; (f + step_at dt (1 + tmin))%nat]) by (eapply lg_output_spk; eauto; change (t_dt N) with dt; lia).
  assert (Ho : (f + step_at dt (1 + tmin) <= K)%nat).
  { pose proof (spk_last _ _ _ (f + step_at dt (1 + tmin))%nat S4 ltac:(right; left; auto)) as Hsp. rewrite O1 in Hsp. apply memb_In in Hsp. destruct Hsp as [Hsp|[Hsp|[]]]; lia. }
  pose proof (lg_rest N m tcod tmin HM a1 a2 HA1 G1 Ha12 C1 SRC f HF Hfa C3) as RS. change (t_dt N) with dt in RS.
  assert (S1 : spikes_at N (lg_first m) [a1]) by (eapply lg_first_spk; eauto).
  assert (S2 : spikes_at N (lg_last m) [a2]) by (eapply lg_last_spk; eauto).
  constructor.
  - intros p y Hp Hy Ep. cbn [N net_of t_ext t_syns t_dt] in *. pose proof (b_syn _ _ _ _ HB) as ES. cbn [w_syns empty_world app] in ES. rewrite ES in Hy.
    assert (HP : s_delay y = 1).
    { unfold exts in Hp. cbn [flat_map stim_ext app In] in Hp. assert (Efst : fst p = lg_input m) by (destruct Hp as [<-|[<-|[]]]; reflexivity).
      rewrite Efst in Ep. unfold lg_syns in Hy. cbn [In] in Hy. repeat destruct Hy as [<-|Hy]; try destruct Hy; cbn [s_pre s_delay syn mks] in *; autorewrite with netR; try lra; exfalso; lia. }
    rewrite HP. unfold exts in Hp. cbn [flat_map stim_ext app In] in Hp. destruct Hp as [<-|[<-|[]]]; cbn [snd].
    + fold a1. lia.
    + replace (t0 + (Tmin enc + x * Tcod enc) + 1) with (t0 + 1 + iv) by (unfold iv, enc; cbn; lra). fold a2. lia.
  - intros q Hq0. apply RS; auto. rewrite HN. apply in_seq. lia.
  - intros y j' Hy Hj' Hs. cbn [N net_of t_syns t_dt] in *. pose proof (b_syn _ _ _ _ HB) as ES. cbn [w_syns empty_world app] in ES. rewrite ES in Hy.
    fold N in Hs. pose proof (source_silent N (lg_input m) (proj1 SRC) (proj2 SRC)) as S0.
    unfold lg_syns in Hy. cbn [In] in Hy. repeat destruct Hy as [<-|Hy]; try destruct Hy; cbn [s_pre s_delay syn mks] in *; autorewrite with netR; rewrite ?Rmult_1_r;
      first [rewrite S0 in Hs | rewrite S1 in Hs | rewrite S2 in Hs | rewrite HF in Hs];
      cbn [memb existsb] in Hs; try discriminate; rewrite orb_false_r in Hs; apply Nat.eqb_eq in Hs; subst j'; cbn [enc DataEncoder Tmin]; lia.
Qed.
Theorem log_reuse (tmin tcod dt T : R) (js : list (R * R)) nm ord :
  0 < dt <= 1 / 2 -> 0 < tcod -> 1 + dt <= tmin -> 6 * dt <= tmin -> ord_ok ord -> 0 <= T ->
  jobs_ok R (fun x => 0 < x <= 1 /\ 4 * dt <= x * tcod /\ x * tcod + 2 * dt <= tcod) (log_span tmin tcod dt) 0 js T ->
  exists m s ps,
    session (LogNetwork (DataEncoder tmin tcod) nm) lg_mod (DataEncoder tmin tcod) dt
      (fun m => flat_map (fun j => [SValue (fst j) (lg_input m) (snd j)]) js) ord T = Ok (m, s) /\
    spike_log s (lg_output m) = concat ps /\
    Forall2 (fun j p => pair_says (DataEncoder tmin tcod) (20 * - ln (fst j) / tcod) (((4 + - ln (fst j)) * dt + 80 * dt / (fst j * tcod)) / tcod) p) js ps.
Proof.
  intros Hdt Htc Htm Htm2 HO HT HJ. set (enc := DataEncoder tmin tcod).
  assert (HTc : tcod <> 0) by lra.
  destruct (Log_built enc nm empty_world inv_empty (neq0 _ HTc)) as (m & w & E & HB & HN & HL).
  cbn [w_neurons empty_world length Nat.add] in HN, HL.
  pose proof HN as HN'. unfold lg_nodes in HN'. nodes_eqs HN'.
  pose proof (b_syn _ _ _ _ HB) as ES. cbn [w_syns empty_world app] in ES.
  destruct (session_jobs1 (LogNetwork enc nm) lg_mod m w _ enc dt ord R (fun m x t => [SValue x (lg_input m) t])
     (fun x => 0 < x <= 1 /\ 4 * dt <= x * tcod /\ x * tcod + 2 * dt <= tcod) (log_span tmin tcod dt) (lg_output m)
     (fun x l => pair_says enc (20 * - ln x / tcod) (((4 + - ln x) * dt + 80 * dt / (x * tcod)) / tcod) l) E HB ltac:(lra) HO) with (js := js) (T := T) as (s & ps & Es & LG & F); auto.
  - intros y Hy. rewrite ES in Hy. unfold lg_syns in Hy. cbn [In] in Hy. repeat destruct Hy as [<-|Hy]; try destruct Hy; cbn [s_delay syn mks enc DataEncoder Tmin]; autorewrite with netR; lra.
  - intros x t d. apply later_pair.
  - intros x t p [Hx _] Hp. unfold exts in Hp. cbn [flat_map stim_ext app In enc DataEncoder Tmin Tcod] in Hp. assert (0 <= x * tcod) by (apply Rmult_le_pos; lra).
    destruct Hp as [<-|[<-|[]]]; cbn [snd]; lra.
  - intros x t [Hx _]. stims_ok.
  - intros x [Hx _]. unfold log_span. pose proof (ln_neg x Hx). assert (0 <= (20 + dt) * - ln x) by (apply Rmult_le_pos; lra). lra.
  - lia.
  - intros x t. unfold exts. cbn [flat_map stim_ext app map fst In]. lia.
  - intros x l d. apply says_shift.
  - intros x t K (Hx & Hx4 & Hx2) Ht HK. rewrite S_INR in HK. unfold log_span in HK.
    destruct (log_run tmin tcod x dt t (INR K * dt) nm ord Hdt Htc Htm Htm2 Hx Hx4 Ht HO ltac:(lra)) as (m' & s & Es & EM).
    pose proof (log_quiet tmin tcod x dt t K m w nm Hdt Htc Htm Htm2 Hx Hx4 Hx2 Ht ltac:(lra) E HB HN HL) as HQ. rewrite <- HL in HQ.
    destruct (session_rests (LogNetwork enc nm) lg_mod m w _ enc dt ord E HB ltac:(lra) HO (fun m => [SValue x (lg_input m) t]) K) as (s' & Es' & RS); auto; [stims_ok|].
    fold enc in Es. rewrite Es' in Es. injection Es as <- <-. exists s'. auto.
  - exists m, s, ps. auto.
Qed.
