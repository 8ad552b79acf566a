(** SignedMultiplierNormNetwork used for a list of products (C67): the end of one product, and the whole list. *)
From Coq Require Import Arith ZArith Bool List Reals Lra Lia Permutation.
From Verif Require Import Num Heapq Elements Simulator Networks Trace SimTrace SimProps TraceProps NeuronLib NetLib Build BuildNets Bridge MemoryProof GeLib GfLib Session SimpleNets InvMem Misc LnLib FuncNets SegLib SubNet ExpLog MulNet MulRun SMem SignMul SignRun SignProd NormNet NormVal NormRun NormTop Restart MemReuse Reuse Jobs Settle RestFun SubReuse MulReuse DivReuse SignReuse NormReuse.
Import ListNotations.
Open Scope R_scope.
Open Scope list_scope.

(** the network and its operands in steps, as sn_sess in NormRun.v, for the network that was built *)
Lemma sn_facts (tmin tcod f x1 x2 dt ta tb T : R) (p1 p2 : bool) nm m w s :
  0 < dt <= 1 / 2 -> 0 < tcod -> 1 + dt <= tmin -> 4 * dt <= tmin -> 0 < f -> 0 <= x1 <= 1 -> 0 <= x2 <= 1 -> 0 <= ta -> 0 <= tb ->
  let enc := DataEncoder tmin tcod in let iv1 := tmin + x1 * tcod in let iv2 := tmin + x2 * tcod in
  SignedMultiplierNormNetwork enc f nm empty_world = Ok (m, w) -> built empty_world w (sn_mod m) (sn_syns enc f m) ->
  mu_nodes (sn_mn m) ++ sc_nodes (sn_scmn m) ++ sn_own m = seq 0 28 -> length (w_neurons w) = 28%nat ->
  sess m w (sn_syns enc f m) enc dt (sn_stims p1 p2 x1 x2 ta tb m) T s ->
  let N := net_of w (exts enc (sn_stims p1 p2 x1 x2 ta tb m)) dt in
  sn_at N m p1 p2 dt tmin tcod f (step_at dt (ta + 1)) (step_at dt (ta + 1 + iv1)) (step_at dt (tb + 1)) (step_at dt (tb + 1 + iv2)).
Proof.
  intros [Hdt Hdt2] Htc Htm Htm2 Hf Hx1 Hx2 Hta Htb enc iv1 iv2 E HB HN HL HSe N.
  pose proof HN as HN'. unfold mu_nodes, sc_nodes, sn_own in HN'. cbn [app] in HN'. nodes_eqs HN'.
  unfold sn_stims in *.
  assert (Hxc : forall x, 0 <= x <= 1 -> 0 <= x * tcod <= tcod) by (intros x Hx; split; [apply Rmult_le_pos; lra|rewrite <- (Rmult_1_l tcod) at 2; apply Rmult_le_compat_r; lra]).
  pose proof (Hxc x1 Hx1) as Hc1. pose proof (Hxc x2 Hx2) as Hc2.
  assert (Hiv1 : 1 + dt <= iv1) by (unfold iv1; lra). assert (Hiv2 : 1 + dt <= iv2) by (unfold iv2; lra).
  assert (HG : forall t iv, 0 <= t -> 1 + dt <= iv -> (step_at dt (t + 1) + step_at dt 1 <= step_at dt (t + 1 + iv))%nat).
  { intros t iv Ht Hv. apply step_diff_ge; try lra; try apply step_at_ge1. pose proof (step_time dt 1 Hdt ltac:(lra)). lra. }
  assert (HI : forall n, In n (sn_internal m) -> (n < 28)%nat /\ ext_spikes (exts enc [SValue x1 (sn_in1 m p1) ta; SValue x2 (sn_in2 m p2) tb]) n = []).
  { intros n Hn. unfold sn_internal, mu_internal, sc_nodes in Hn. cbn [In app] in Hn. split; [intuition lia|].
    destruct p1, p2; cbn [sn_in1 sn_in2]; repeat (destruct Hn as [<-|Hn]; [ext_simp; reflexivity|]); destruct Hn. }
  assert (HM : sn_ins N (1000 / tcod) (1000 / (tmin + tcod)) tmin f m).
  { rewrite <- (wbar_R tmin), <- wacc_R. apply (sn_ins_of N enc f m 0 HN). intros n Hn. apply (se_own _ _ _ _ _ _ _ _ HSe); [rewrite HL|]; apply HI; auto. }
  assert (HA1 : forall d, arrs N (sn_in1 m p1) d [step_at dt (ta + d); step_at dt (ta + iv1 + d)]).
  { intros d. unfold sn_syns, sign_syns, sout_syns in HSe. destruct p1, p2; cbn [sn_in1 sn_in2] in *; src_solve HSe. }
  assert (HA0 : forall d, arrs N (sn_in1 m (negb p1)) d []).
  { intros d. unfold sn_syns, sign_syns, sout_syns in HSe. destruct p1, p2; cbn [sn_in1 sn_in2 negb] in *; src_solve HSe. }
  assert (HB1 : forall d, arrs N (sn_in2 m p2) d [step_at dt (tb + d); step_at dt (tb + iv2 + d)]).
  { intros d. unfold sn_syns, sign_syns, sout_syns in HSe. destruct p1, p2; cbn [sn_in1 sn_in2] in *; src_solve HSe. }
  assert (HB0 : forall d, arrs N (sn_in2 m (negb p2)) d []).
  { intros d. unfold sn_syns, sign_syns, sout_syns in HSe. destruct p1, p2; cbn [sn_in1 sn_in2 negb] in *; src_solve HSe. }
  assert (Sw : forall t iv d, t + iv + d = t + d + iv) by (intros; lra).
  setoid_rewrite Sw in HA1. setoid_rewrite Sw in HB1.
  pose proof (HG ta iv1 Hta Hiv1) as G1. pose proof (HG tb iv2 Htb Hiv2) as G2.
  pose proof (step_at_ge1 dt (ta + 1)) as Ga. pose proof (step_at_ge1 dt (tb + 1)) as Gb.
  constructor; auto.
Qed.

(** operands of size x1, x2 and sign p1, p2 (true is plus), given d1 and d2 after the start of the job *)
Definition nmul_ok (tcod f dt : R) (x : ((R * R) * (R * R)) * (bool * bool)) : Prop :=
  let '((x1, x2), (d1, d2), _) := x in
  0 < x1 /\ 0 < x2 /\ 4 * dt <= x1 * tcod <= tcod - 2 * dt /\ 4 * dt <= x2 * tcod <= tcod - 2 * dt /\ exp (-14) <= x1 * x2 /\
  10 * dt + dt / 10 * tcod <= x1 * x2 * tcod /\ x1 * x2 * tcod + 7 * dt + dt / 10 * tcod <= tcod /\ f * (x1 * x2 * tcod + 7 * dt + dt / 10 * tcod) <= tcod /\
  0 <= d1 /\ 0 <= d2.
Definition nmul_span (tmin tcod f : R) (x : ((R * R) * (R * R)) * (bool * bool)) : R :=
  Rmax (fst (snd (fst x))) (snd (snd (fst x))) + 356 + 5 * tmin + 4 * tcod + (tmin + tcod) / f.
Definition nmul_job (x : ((R * R) * (R * R)) * (bool * bool)) (t : R) (m : smultn_net) : list stim :=
  sn_stims (fst (snd x)) (snd (snd x)) (fst (fst (fst x))) (snd (fst (fst x))) (t + fst (snd (fst x))) (t + snd (snd (fst x))) m.

Lemma sn_quiet (tmin tcod f x1 x2 d1 d2 dt t0 : R) (p1 p2 : bool) K m w nm :
  0 < dt <= 1 / 2 -> 0 < tcod -> 1 + dt <= tmin -> 4 * dt <= tmin -> 0 < f -> (3 + 3 * f) * dt <= tmin -> nmul_ok tcod f dt ((x1, x2), (d1, d2), (p1, p2)) -> 0 <= t0 ->
  t0 + nmul_span tmin tcod f ((x1, x2), (d1, d2), (p1, p2)) <= INR (S K) * dt ->
  let enc := DataEncoder tmin tcod in
  SignedMultiplierNormNetwork enc f nm empty_world = Ok (m, w) -> built empty_world w (sn_mod m) (sn_syns enc f m) ->
  mu_nodes (sn_mn m) ++ sc_nodes (sn_scmn m) ++ sn_own m = seq 0 28 -> length (w_neurons w) = 28%nat ->
  quiet (net_of w (exts enc (nmul_job ((x1, x2), (d1, d2), (p1, p2)) t0 m)) dt) 28 K.
Proof.
  intros [Hdt Hdt2] Htc Htm Htm2 Hf Htm3 (Hp1 & Hp2 & Hx1 & Hx2 & Hxx & Hlo & Hhi & Hfh & Hd1 & Hd2) Ht0 HK enc E HB HN HL.
  unfold nmul_span in HK. cbn [fst snd] in HK. rewrite S_INR in HK.
  pose proof (Rmax_l d1 d2) as M1. pose proof (Rmax_r d1 d2) as M2. set (dm := Rmax d1 d2) in *. clearbody dm.
  assert (L1 : x1 <= 1) by (apply Rmult_le_reg_r with tcod; lra). assert (L2 : x2 <= 1) by (apply Rmult_le_reg_r with tcod; lra).
  destruct (ln_prod_bound x1 x2 14 Hp1 Hp2 ltac:(exact Hxx)) as [LB LE].
  assert (Hq : 0 < (tmin + tcod) / f) by (apply Rdiv_lt_0_compat; lra).
  unfold nmul_job. cbn [fst snd].
  set (ta := t0 + d1). set (tb := t0 + d2). assert (Hta : 0 <= ta <= t0 + dm) by (unfold ta; lra). assert (Htb : 0 <= tb <= t0 + dm) by (unfold tb; lra).
  clearbody ta tb.
  set (stims := sn_stims p1 p2 x1 x2 ta tb).
  pose proof HN as HN'. unfold mu_nodes, sc_nodes, sn_own in HN'. cbn [app] in HN'. nodes_eqs HN'.
  destruct (session_built (SignedMultiplierNormNetwork enc f nm) sn_mod m w _ enc dt stims (fun _ l => l) (INR K * dt) E HB Hdt ltac:(apply Rmult_le_pos; [apply pos_INR|lra])) as (s & Es & HSe).
  { unfold stims, sn_stims, sn_in1, sn_in2. destruct p1, p2; stims_ok. } { intros i l. reflexivity. }
  pose proof (sn_facts tmin tcod f x1 x2 dt ta tb (INR K * dt) p1 p2 nm m w s (conj Hdt Hdt2) Htc Htm Htm2 Hf ltac:(lra) ltac:(lra) ltac:(lra) ltac:(lra) E HB HN HL HSe) as HA.
  fold stims in HA. fold enc in HA.
  set (N := net_of w (exts enc (stims m)) dt) in *.
  set (iv1 := tmin + x1 * tcod) in *. set (iv2 := tmin + x2 * tcod) in *.
  assert (Hv1 : 1 + dt <= iv1 <= tmin + tcod) by (unfold iv1; lra). assert (Hv2 : 1 + dt <= iv2 <= tmin + tcod) by (unfold iv2; lra).
  destruct (step_diff dt (ta + 1) iv1 Hdt ltac:(lra) ltac:(lra)) as (_ & Qa & _). destruct (step_diff dt (tb + 1) iv2 Hdt ltac:(lra) ltac:(lra)) as (_ & Qb & _).
  pose proof (step_at_bounds dt (ta + 1 + iv1) Hdt ltac:(lra)) as BA. pose proof (step_at_bounds dt (tb + 1 + iv2) Hdt ltac:(lra)) as BB.
  assert (MA : INR (Nat.max (step_at dt (ta + 1 + iv1)) (step_at dt (tb + 1 + iv2))) * dt <= t0 + dm + 1 + (tmin + tcod) + dt) by (apply max_time; auto; split; lra).
  destruct (sn_settle N m p1 p2 dt tmin tcod f _ _ _ _ x1 x2 K HA ltac:(lra) Hp1 Hp2 Hx1 Hx2 Qa Qb LB Hlo Hhi Hfh Htm3) as [RS RY]; [lra|].
  pose proof (na_i1 _ _ _ _ _ _ _ _ _ _ _ _ HA) as Gi1. pose proof (na_i2 _ _ _ _ _ _ _ _ _ _ _ _ HA) as Gi2. pose proof (na_j2 _ _ _ _ _ _ _ _ _ _ _ _ HA) as Gj2.
  pose proof (step_at_ge1 dt 1) as G1.
  set (i1 := step_at dt (ta + 1)) in *. set (i2 := step_at dt (ta + 1 + iv1)) in *. set (j1 := step_at dt (tb + 1)) in *. set (j2 := step_at dt (tb + 1 + iv2)) in *.
  assert (HKi : (i2 <= K)%nat) by (nat_le dt Hdt; lra). assert (HKj : (j2 <= K)%nat) by (nat_le dt Hdt; lra).
  pose proof (b_syn _ _ _ _ HB) as ES. cbn [w_syns empty_world app] in ES.
  assert (SRC : forall n, In n [sn_input1_plus m; sn_input1_minus m; sn_input2_plus m; sn_input2_minus m] -> in_syn N n = [] /\ t_prm N n = stdp).
  { intros n Hn. unfold sn_syns, sign_syns, sout_syns in ES. cbn [In] in Hn. repeat destruct Hn as [<-|Hn]; try destruct Hn;
      (split; [eapply src_in; [exact ES|]; syn_simp|cbn; apply prm_std; [apply HB|lia]]). }
  constructor.
  - intros p y Hp Hy Ep. cbn [N net_of t_ext t_syns t_dt] in *. rewrite ES in Hy.
    unfold exts, stims, sn_stims in Hp. cbn [flat_map stim_ext app In] in Hp.
    assert (HP : s_delay y = 1).
    { assert (Efst : fst p = sn_input1_plus m \/ fst p = sn_input1_minus m \/ fst p = sn_input2_plus m \/ fst p = sn_input2_minus m).
      { destruct Hp as [<-|[<-|[<-|[<-|[]]]]]; cbn [fst]; destruct p1, p2; cbn [sn_in1 sn_in2]; auto. }
      clear RS RY. unfold sn_syns, sign_syns, sout_syns, mu_syns, sc_syns in Hy. cbv zeta in Hy. cbn [In app] in Hy.
      repeat destruct Hy as [<-|Hy]; try destruct Hy; cbn [s_pre s_delay syn mks] in *; autorewrite with netR; try lra; exfalso; lia. }
    rewrite HP; destruct Hp as [<-|[<-|[<-|[<-|[]]]]]; cbn [snd].
    + fold i1. lia.
    + replace (ta + (Tmin enc + x1 * Tcod enc) + 1) with (ta + 1 + iv1) by (unfold iv1, enc; cbn; lra). fold i2. lia.
    + fold j1. lia.
    + replace (tb + (Tmin enc + x2 * Tcod enc) + 1) with (tb + 1 + iv2) by (unfold iv2, enc; cbn; lra). fold j2. lia.
  - intros n Hn. assert (In n (mu_nodes (sn_mn m) ++ sc_nodes (sn_scmn m) ++ sn_own m)) as Hin by (rewrite HN; apply in_seq; lia).
    assert (Hc : In n [sn_input1_plus m; sn_input1_minus m; sn_input2_plus m; sn_input2_minus m] \/
      In n (mu_nodes (sn_mn m) ++ sc_nodes (sn_scmn m) ++ [sn_sign1 m; sn_sign2 m; sn_sign3 m; sn_sign4 m; sn_output_plus m; sn_output_minus m])).
    { rewrite !in_app_iff in *. unfold sn_own in Hin. cbn [In] in *. clear - Hin. tauto. }
    destruct Hc as [Hc|Hc]; [|apply RS; exact Hc]. apply src_settled; apply SRC; exact Hc.
  - intros y j Hy Hjk Hs. cbn [N net_of t_syns t_dt] in *. rewrite ES in Hy. fold N in Hs.
    assert (S0 : forall n, In n [sn_input1_plus m; sn_input1_minus m; sn_input2_plus m; sn_input2_minus m] -> spk N j n = false).
    { intros n Hn. apply source_silent; apply SRC; auto. }
    apply (RY y j Hy Hs); intros b Hb; (rewrite S0 in Hb; [discriminate Hb|]); destruct b; cbn [sn_in1 sn_in2 In]; tauto.
Qed.

(** what the two outputs say for operands of size x1, x2 and sign p1, p2 *)
Definition nmul_says (enc : encoder R) (f eps x1 x2 : R) (p1 p2 : bool) (plus minus : list R) : Prop :=
  if Bool.eqb p1 p2 then pair_says enc (f * (x1 * x2)) eps plus /\ minus = [] else plus = [] /\ pair_says enc (f * (x1 * x2)) eps minus.
Theorem signed_norm_reuse (tmin tcod f dt T : R) (js : list ((((R * R) * (R * R)) * (bool * bool)) * R)) nm ord :
  0 < dt <= 1 / 2 -> 0 < tcod -> 1 + dt <= tmin -> 4 * dt <= tmin -> 0 < f -> (3 + 3 * f) * dt <= tmin -> ord_ok ord -> 0 <= T ->
  jobs_ok _ (nmul_ok tcod f dt) (nmul_span tmin tcod f) 0 js T ->
  exists m s ps,
    session (SignedMultiplierNormNetwork (DataEncoder tmin tcod) f nm) sn_mod (DataEncoder tmin tcod) dt (fun m => flat_map (fun j => nmul_job (fst j) (snd j) m) js) ord T = Ok (m, s) /\
    spike_log s (sn_output_plus m) = concat (map fst ps) /\ spike_log s (sn_output_minus m) = concat (map snd ps) /\
    Forall2 (fun j p => let '((x1, x2), _, (p1, p2)) := fst j in nmul_says (DataEncoder tmin tcod) f ((2 + 10 * f) * dt / tcod + f * dt / 10) x1 x2 p1 p2 (fst p) (snd p)) js ps.
Proof.
  intros Hdt Htc Htm Htm2 Hf Htm3 HO HT HJ. set (enc := DataEncoder tmin tcod).
  assert (HTc : tcod <> 0) by lra. assert (HTm : Tmax enc <> 0) by (unfold enc; cbn; lra).
  assert (Hq : 0 < (tmin + tcod) / f) by (apply Rdiv_lt_0_compat; lra).
  destruct (SignedMultNorm_built enc f nm empty_world inv_empty (neq0 _ HTm) (neq0 _ HTc)) as (m & w & E & HB & HN & HL).
  cbn [w_neurons empty_world length Nat.add] in HN, HL.
  pose proof HN as HN'. unfold mu_nodes, sc_nodes, sn_own in HN'. cbn [app] in HN'. nodes_eqs HN'.
  pose proof (b_syn _ _ _ _ HB) as ES. cbn [w_syns empty_world app] in ES.
  assert (EQ : forall stims T, session (SignedMultiplierNormNetwork enc f nm) sn_mod enc dt stims ord T = session (SignedMultiplierNormNetwork enc f nm) sn_mod enc dt (fun _ => stims m) ord T).
  { intros stims T'. unfold session. rewrite E. reflexivity. }
  destruct (session_jobs (SignedMultiplierNormNetwork enc f nm) sn_mod m w _ enc dt ord E HB ltac:(lra) HO _ (fun x t => nmul_job x t m) (nmul_ok tcod f dt) (nmul_span tmin tcod f)
     (fun n => n = sn_output_plus m \/ n = sn_output_minus m)
     (fun x l => let '((x1, x2), _, (p1, p2)) := x in nmul_says enc f ((2 + 10 * f) * dt / tcod + f * dt / 10) x1 x2 p1 p2 (l (sn_output_plus m)) (l (sn_output_minus m)))) with (js := js) (T := T) as (s & ls & Es & F & LG); auto.
  - intros y Hy. rewrite ES in Hy. unfold sn_syns, sign_syns, sout_syns, mu_syns, sc_syns in Hy. cbv zeta in Hy. cbn [In app] in Hy. repeat destruct Hy as [<-|Hy]; try destruct Hy; cbn [s_delay syn mks enc DataEncoder Tmin]; netr; autorewrite with netR; lra.
  - intros x t d. unfold exts, later, nmul_job, sn_stims. cbn [flat_map stim_ext app map fst snd]. repeat (f_equal; try lra).
  - intros [[[x1 x2] [d1 d2]] [p1 p2]] t p (Hp1 & Hp2 & Hx1 & Hx2 & _ & _ & _ & _ & Hd1 & Hd2) Hp. unfold exts, nmul_job, sn_stims in Hp. cbn [flat_map stim_ext app In enc DataEncoder Tmin Tcod fst snd] in Hp.
    destruct Hp as [<-|[<-|[<-|[<-|[]]]]]; cbn [snd]; lra.
  - intros [[[x1 x2] [d1 d2]] [p1 p2]] t (Hp1 & Hp2 & Hx1 & Hx2 & _ & _ & _ & _ & Hd1 & Hd2).
    assert (L1 : x1 <= 1) by (apply Rmult_le_reg_r with tcod; lra). assert (L2 : x2 <= 1) by (apply Rmult_le_reg_r with tcod; lra).
    unfold nmul_job, sn_stims, sn_in1, sn_in2. cbn [fst snd]. destruct p1, p2; stims_ok.
  - intros [[[x1 x2] [d1 d2]] [p1 p2]] (_ & _ & _ & _ & _ & _ & _ & _ & Hd1 & Hd2). unfold nmul_span. cbn [fst snd]. pose proof (Rmax_l d1 d2). lra.
  - intros n [->| ->]; lia.
  - intros n [x [p1 p2]] t Hn. unfold exts, nmul_job, sn_stims. cbn [flat_map stim_ext app map fst snd In]. destruct p1, p2; cbn [sn_in1 sn_in2]; lia.
  - intros [[[x1 x2] [d1 d2]] [p1 p2]] l l' d Hl EL. cbv beta in *. rewrite (EL (sn_output_plus m)), (EL (sn_output_minus m)) by auto. unfold nmul_says in *.
    destruct (Bool.eqb p1 p2); destruct Hl as [A B]; [split; [apply says_shift; auto|rewrite B; reflexivity]|split; [rewrite A; reflexivity|apply says_shift; auto]].
  - intros [[[x1 x2] [d1 d2]] [p1 p2]] t K Hx Ht HK. cbn [fst snd] in *.
    pose proof (sn_quiet tmin tcod f x1 x2 d1 d2 dt t p1 p2 K m w nm Hdt Htc Htm Htm2 Hf Htm3 Hx Ht HK E HB HN HL) as HQ. rewrite <- HL in HQ.
    destruct Hx as (Hp1 & Hp2 & Hx1 & Hx2 & Hxx & Hlo & Hhi & Hfh & Hd1 & Hd2).
    assert (L1 : x1 <= 1) by (apply Rmult_le_reg_r with tcod; lra). assert (L2 : x2 <= 1) by (apply Rmult_le_reg_r with tcod; lra).
    unfold nmul_span in HK. cbn [fst snd] in *. rewrite S_INR in HK.
    destruct (ln_prod_bound x1 x2 14 Hp1 Hp2 ltac:(exact Hxx)) as [LB LE].
    assert (Hxc : 0 <= f * (x1 * x2 * tcod)) by (apply Rmult_le_pos; [lra|]; apply Rmult_le_pos; [apply Rmult_le_pos; lra|lra]).
    assert (Hfe : 7 * (f * dt) + f * (dt / 10) * tcod <= tcod) by (apply Rle_trans with (2 := Hfh); replace (f * (x1 * x2 * tcod + 7 * dt + dt / 10 * tcod)) with (f * (x1 * x2 * tcod) + (7 * (f * dt) + f * (dt / 10) * tcod)) by ring; lra).
    destruct (signed_norm_run tmin tcod f x1 x2 dt (t + d1) (t + d2) (INR K * dt) p1 p2 nm ord Hdt Htc Htm Htm2 Hf Htm3 ltac:(lra) ltac:(lra) HO Hp1 Hp2 Hx1 Hx2 Hxx Hlo Hhi Hfh) as (m' & s & Es & EM & EM0).
    { replace (Rmax (t + d1) (t + d2)) with (t + Rmax d1 d2) by (unfold Rmax; destruct (Rle_dec d1 d2), (Rle_dec (t + d1) (t + d2)); lra). rewrite LE. lra. }
    destruct (session_rests (SignedMultiplierNormNetwork enc f nm) sn_mod m w _ enc dt ord E HB ltac:(lra) HO (fun _ => nmul_job ((x1, x2), (d1, d2), (p1, p2)) t m) K) as (s' & Es' & RS); auto.
    { unfold nmul_job, sn_stims, sn_in1, sn_in2. cbn [fst snd]. destruct p1, p2; stims_ok. }
    fold enc in Es, EM. rewrite (EQ (sn_stims p1 p2 x1 x2 (t + d1) (t + d2))) in Es.
    assert (EE : Ok (m, s') = Ok (m', s)) by (rewrite <- Es', <- Es; reflexivity).
    injection EE as <- <-. exists s'. split; [exact Es'|]. split; [exact RS|].
    unfold nmul_says. destruct (Bool.eqb p1 p2); cbn [negb sn_out] in EM, EM0; [split; [exact EM|exact EM0]|split; [exact EM0|exact EM]].
  - exists m, s, (map (fun l => (l (sn_output_plus m), l (sn_output_minus m))) ls). rewrite EQ. split; [exact Es|].
    rewrite !map_map. cbn [fst snd]. split; [apply LG; auto|]. split; [apply LG; auto|].
    clear -F. induction F as [|[[[[x1 x2] dd] [p1 p2]] t] l js ls HF F IH]; cbn [map]; constructor; auto.
Qed.
