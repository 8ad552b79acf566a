(** SignedMultiplierNetwork used for a list of products (C66): the end of one product, and the whole list. *)
From Coq Require Import Arith ZArith Bool List Reals Lra Lia Permutation.
From Verif Require Import Num Heapq Elements Simulator Networks Trace SimTrace SimProps TraceProps NeuronLib NetLib Build BuildNets Bridge MemoryProof GeLib GfLib Session SimpleNets InvMem Misc LnLib FuncNets SegLib SubNet ExpLog MulNet MulRun SMem SignMul SignRun SignProd Restart MemReuse Reuse Jobs Settle RestFun SubReuse MulReuse DivReuse SignReuse.
Import ListNotations.
Open Scope R_scope.
Open Scope list_scope.

(** operands of size x1, x2 and sign p1, p2 (true is plus), given d1 and d2 after the start of the job *)
Definition smul_span (tmin tcod : R) (x : ((R * R) * (R * R)) * (bool * bool)) : R := Rmax (fst (snd (fst x))) (snd (snd (fst x))) + 356 + 2 * tmin + 3 * tcod.
Definition smul_job (x : ((R * R) * (R * R)) * (bool * bool)) (t : R) (m : smult_net) : list stim :=
  sx_stims (fst (snd x)) (snd (snd x)) (fst (fst (fst x))) (snd (fst (fst x))) (t + fst (snd (fst x))) (t + snd (snd (fst x))) m.

Lemma sx_quiet (tmin tcod x1 x2 d1 d2 dt t0 : R) (p1 p2 : bool) K m w nm :
  0 < dt <= 1 / 2 -> 0 < tcod -> 1 + dt <= tmin -> 4 * dt <= tmin -> mul_ok tcod dt ((x1, x2), (d1, d2)) -> 0 <= t0 ->
  t0 + smul_span tmin tcod ((x1, x2), (d1, d2), (p1, p2)) <= INR (S K) * dt ->
  let enc := DataEncoder tmin tcod in
  SignedMultiplierNetwork enc nm empty_world = Ok (m, w) -> built empty_world w (sx_mod m) (sx_syns enc m) -> mu_nodes (sx_mn m) ++ sx_own m = seq 0 23 -> length (w_neurons w) = 23%nat ->
  quiet (net_of w (exts enc (smul_job ((x1, x2), (d1, d2), (p1, p2)) t0 m)) dt) 23 K.
Proof.
  intros [Hdt Hdt2] Htc Htm Htm2 (Hp1 & Hp2 & Hx1 & Hx2 & Hxx & Hd1 & Hd2) Ht0 HK enc E HB HN HL.
  unfold smul_span in HK. cbn [fst snd] in HK. rewrite S_INR in HK.
  pose proof (Rmax_l d1 d2) as M1. pose proof (Rmax_r d1 d2) as M2. set (dm := Rmax d1 d2) in *. clearbody dm.
  assert (L1 : x1 <= 1) by (apply Rmult_le_reg_r with tcod; lra). assert (L2 : x2 <= 1) by (apply Rmult_le_reg_r with tcod; lra).
  destruct (ln_prod_bound x1 x2 14 Hp1 Hp2 ltac:(exact Hxx)) as [LB LE].
  pose proof (ln_neg x1 ltac:(lra)) as N1. pose proof (ln_neg x2 ltac:(lra)) as N2.
  unfold smul_job. cbn [fst snd].
  set (ta := t0 + d1). set (tb := t0 + d2). assert (Hta : 0 <= ta <= t0 + dm) by (unfold ta; lra). assert (Htb : 0 <= tb <= t0 + dm) by (unfold tb; lra).
  clearbody ta tb.
  set (stims := sx_stims p1 p2 x1 x2 ta tb).
  pose proof HN as HN'. unfold mu_nodes, sx_own in HN'. cbn [app] in HN'. nodes_eqs HN'.
  destruct (session_built (SignedMultiplierNetwork enc nm) sx_mod m w _ enc dt stims (fun _ l => l) (INR K * dt) E HB Hdt ltac:(apply Rmult_le_pos; [apply pos_INR|lra])) as (s & Es & HSe).
  { unfold stims, sx_stims, sx_in1, sx_in2. destruct p1, p2; stims_ok. } { intros i l. reflexivity. }
  destruct (sx_facts tmin tcod x1 x2 dt ta tb (INR K * dt) p1 p2 nm m w s Hdt Htc Htm Htm2 Hdt2 ltac:(lra) ltac:(lra) ltac:(lra) ltac:(lra) E HB HN HL HSe)
    as (HA & I1 & I2 & HA1 & HA0 & HB1 & HB0). fold stims in HA, I1, I2, HA1, HA0, HB1, HB0. fold enc in HA, I1, I2, HA1, HA0, HB1, HB0.
  set (N := net_of w (exts enc (stims m)) dt) in *.
  set (iv1 := tmin + x1 * tcod) in *. set (iv2 := tmin + x2 * tcod) in *.
  assert (Hv1 : 1 + dt <= iv1 <= tmin + tcod) by (unfold iv1; lra). assert (Hv2 : 1 + dt <= iv2 <= tmin + tcod) by (unfold iv2; lra).
  destruct (step_diff dt (ta + 1) iv1 Hdt ltac:(lra) ltac:(lra)) as (_ & Qa & _). destruct (step_diff dt (tb + 1) iv2 Hdt ltac:(lra) ltac:(lra)) as (_ & Qb & _).
  pose proof (max_window dt ta tb iv1 iv2 Hdt ltac:(lra) ltac:(lra) ltac:(lra) ltac:(lra)) as MW.
  pose proof (step_at_bounds dt (ta + 1 + iv1) Hdt ltac:(lra)) as BA. pose proof (step_at_bounds dt (tb + 1 + iv2) Hdt ltac:(lra)) as BB.
  pose proof (step_at_bounds dt (ta + 350 + iv1) Hdt ltac:(lra)) as BZ1. pose proof (step_at_bounds dt (tb + 350 + iv2) Hdt ltac:(lra)) as BZ2.
  assert (MA : INR (Nat.max (step_at dt (ta + 1 + iv1)) (step_at dt (tb + 1 + iv2))) * dt <= t0 + dm + 1 + (tmin + tcod) + dt) by (apply max_time; auto; split; lra).
  assert (MZ : INR (Nat.max (step_at dt (ta + 350 + iv1)) (step_at dt (tb + 350 + iv2))) * dt <= t0 + dm + 350 + (tmin + tcod) + dt) by (apply max_time; auto; split; lra).
  pose proof (sa_i _ _ _ _ _ _ _ _ _ _ _ _ _ _ _ HA) as Hi. pose proof (sa_j _ _ _ _ _ _ _ _ _ _ _ _ _ _ _ HA) as Hj.
  pose proof (sa_ins _ _ _ _ _ _ _ _ _ _ _ _ _ _ _ HA) as HM. pose proof (sa_mul _ _ _ _ _ _ _ _ _ _ _ _ _ _ _ HA) as HMu.
  pose proof (sa_z12 _ _ _ _ _ _ _ _ _ _ _ _ _ _ _ HA) as Hz12. pose proof (sa_z34 _ _ _ _ _ _ _ _ _ _ _ _ _ _ _ HA) as Hz34.
  pose proof (sa_P _ _ _ _ _ _ _ _ _ _ _ _ _ _ _ HA) as SP. pose proof (sa_A _ _ _ _ _ _ _ _ _ _ _ _ _ _ _ HA) as SA.
  pose proof (sa_B _ _ _ _ _ _ _ _ _ _ _ _ _ _ _ HA) as SB. pose proof (sa_Z _ _ _ _ _ _ _ _ _ _ _ _ _ _ _ HA) as SZ.
  set (i1 := step_at dt (ta + 1)) in *. set (i2 := step_at dt (ta + 1 + iv1)) in *. set (j1 := step_at dt (tb + 1)) in *. set (j2 := step_at dt (tb + 1 + iv2)) in *.
  set (z1 := step_at dt (ta + 350)) in *. set (z2 := step_at dt (ta + 350 + iv1)) in *. set (z3 := step_at dt (tb + 350)) in *. set (z4 := step_at dt (tb + 350 + iv2)) in *.
  pose proof (step_at_ge1 dt 1) as G1. pose proof (step_at_ge1 dt 2) as G2. pose proof (step_at_bounds dt 1 Hdt ltac:(lra)) as B1. pose proof (step_at_bounds dt 2 Hdt ltac:(lra)) as B2.
  pose proof (step_at_bounds dt 3 Hdt ltac:(lra)) as B3. pose proof (step_at_bounds dt (1 + tmin) Hdt ltac:(lra)) as Bm. pose proof (step_at_bounds dt 350 Hdt ltac:(lra)) as BP.
  destruct (mul_fire N (sx_mn m) dt tmin tcod _ _ _ _ _ _ x1 x2 HMu Hp1 Hp2 Hx1 Hx2) as (Ca & Cb & f1 & f2 & fe & F1 & F2 & F3 & R1 & R2 & R3 & R4 & R5 & R6 & Tf2 & Tfe).
  { rewrite !plus_INR. replace (_ - _) with (INR i2 * dt - INR i1 * dt - (tmin + x1 * tcod)) by ring. exact Qa. }
  { rewrite !plus_INR. replace (_ - _) with (INR j2 * dt - INR j1 * dt - (tmin + x2 * tcod)) by ring. exact Qb. }
  { rewrite !Nat.add_max_distr_r. inr. lra. }
  rewrite !Nat.add_max_distr_r in *. 
  assert (MA' : (i2 <= Nat.max i2 j2)%nat /\ (j2 <= Nat.max i2 j2)%nat) by lia.
  set (A := Nat.max i2 j2) in *. set (Z := Nat.max z2 z4) in *. assert (MZ' : (z2 <= Z)%nat /\ (z4 <= Z)%nat) by (unfold Z; lia).
  assert (EV1 : forall j, arrs N (mu_input1 (sx_mn m)) j [(i1 + step_at dt j)%nat; (i2 + step_at dt j)%nat]) by (intros j; eapply arrs_2; [apply HM|exact I1|reflexivity|lia|lia|lia]).
  assert (EV2 : forall j, arrs N (mu_input2 (sx_mn m)) j [(j1 + step_at dt j)%nat; (j2 + step_at dt j)%nat]) by (intros j; eapply arrs_2; [apply HM|exact I2|reflexivity|lia|lia|lia]).
  pose proof (ma_a2 _ _ _ _ _ _ _ _ _ _ _ HMu) as Ha2. pose proof (ma_b2 _ _ _ _ _ _ _ _ _ _ _ HMu) as Hb2.
  assert (HMm : mu_ins N (1000 / tcod) tmin (sx_mn m)) by apply HM.
  set (D1 := step_at dt 1) in *. set (D2 := step_at dt 2) in *. set (D3 := step_at dt 3) in *. set (Dm := step_at dt (1 + tmin)) in *. set (P := step_at dt 350) in *.
  rewrite plus_INR in Tf2.
  assert (HKs : t0 + dm + 356 + 2 * tmin + 3 * tcod - dt <= INR K * dt) by lra.
  assert (HK1 : (fe + Dm + D1 + D1 <= K)%nat) by (nat_le dt Hdt; lra).
  assert (HK2 : (Z <= K)%nat) by (nat_le dt Hdt; lra).
  assert (HK3 : (A + P <= K)%nat) by (nat_le dt Hdt; lra).
  assert (HAZ : (A + D1 <= Z)%nat) by (nat_le dt Hdt; lra).
  assert (HOZ : (f2 + D2 + D1 + D1 <= Z)%nat) by (nat_le dt Hdt; lra).
  pose proof (b_syn _ _ _ _ HB) as ES. cbn [w_syns empty_world app] in ES.
  assert (SRC : forall n, In n [sx_input1_plus m; sx_input1_minus m; sx_input2_plus m; sx_input2_minus m] -> in_syn N n = [] /\ t_prm N n = stdp).
  { intros n Hn. unfold sx_syns, sign_syns, sout_syns in ES. cbn [In] in Hn. repeat destruct Hn as [<-|Hn]; try destruct Hn;
      (split; [eapply src_in; [exact ES|]; syn_simp|cbn; apply prm_std; [apply HB|lia]]). }
  assert (RL1 : forall k, (i2 <= k)%nat -> st N k (mu_input1 (sx_mn m)) = init_nstate (t_prm N (mu_input1 (sx_mn m)))).
  { intros k Hk. eapply (ins_settled _ _ _ i2); [apply (xi_in1 _ _ _ _ HM)|eapply spk_last; [exact I1|right; left; auto]| |lia].
    pose proof (HA1 1) as Q1. pose proof (HA0 1) as Q0. fold i1 i2 in Q1.
    destruct p1; cbn [sx_in1 negb] in Q1, Q0; repeat (apply Forall_cons || apply Forall_nil); cbn [s_pre s_delay mks]; rewrite cTsyn_R; (eapply over_arrs; [eassumption|]); cbn [In]; intros ? Hq; repeat destruct Hq as [<-|Hq]; try destruct Hq; lia. }
  assert (RL2 : forall k, (j2 <= k)%nat -> st N k (mu_input2 (sx_mn m)) = init_nstate (t_prm N (mu_input2 (sx_mn m)))).
  { intros k Hk. eapply (ins_settled _ _ _ j2); [apply (xi_in2 _ _ _ _ HM)|eapply spk_last; [exact I2|right; left; auto]| |lia].
    pose proof (HB1 1) as Q1. pose proof (HB0 1) as Q0. fold j1 j2 in Q1.
    destruct p2; cbn [sx_in2 negb] in Q1, Q0; repeat (apply Forall_cons || apply Forall_nil); cbn [s_pre s_delay mks]; rewrite cTsyn_R; (eapply over_arrs; [eassumption|]); cbn [In]; intros ? Hq; repeat destruct Hq as [<-|Hq]; try destruct Hq; lia. }
  (* the inner multiplier *)
  pose proof (mr_rest N (sx_mn m) tcod tmin HMm (i1 + D1) (i2 + D1) (j1 + D1) (j2 + D1) (i1 + P) (i2 + P) (j1 + P) (j2 + P)) as RS. change (t_dt N) with dt in RS. fold D1 D2 D3 Dm in RS.
  rewrite !Nat.add_max_distr_r in RS. fold A in RS.
  specialize (RS (EV1 1) (EV2 1) ltac:(lia) Ha2 ltac:(lia) Hb2 Ca Cb (EV1 350) (EV2 350) ltac:(lia) f1 f2 fe F1 F2 F3 R1 R2 R3 R4 R5 R6 K ltac:(lia) HK3
    (fun k Hk => RL1 k ltac:(lia)) (fun k Hk => RL2 k ltac:(lia))).
  pose proof (mr_spk N (sx_mn m) tcod tmin HMm (i1 + D1) (i2 + D1) (j1 + D1) (j2 + D1)) as SPk. change (t_dt N) with dt in SPk. fold D1 Dm in SPk. rewrite !Nat.add_max_distr_r in SPk. fold A in SPk.
  assert (SP' : spikes_at N (mu_first1 (sx_mn m)) [(i1 + D1)%nat] /\ spikes_at N (mu_last1 (sx_mn m)) [(i2 + D1)%nat] /\ spikes_at N (mu_first2 (sx_mn m)) [(j1 + D1)%nat] /\
    spikes_at N (mu_last2 (sx_mn m)) [(j2 + D1)%nat] /\ spikes_at N (mu_sync (sx_mn m)) [(A + D1 + D1)%nat]) by (apply SPk; auto; [apply EV1|apply EV2|lia|lia]).
  clear SPk. destruct SP' as (P1 & P2 & P3 & P4 & P5).
  pose proof (mr_out N (sx_mn m) tcod tmin HMm (i1 + D1) (i2 + D1) (j1 + D1) (j2 + D1) (i1 + P) (i2 + P) (j1 + P) (j2 + P)) as OU. change (t_dt N) with dt in OU. fold D1 D2 D3 Dm in OU.
  rewrite !Nat.add_max_distr_r in OU. fold A in OU.
  assert (OU' : spikes_at N (mu_output (sx_mn m)) [(f2 + D2)%nat; (fe + Dm)%nat] /\ spikes_at N (mu_zero (sx_mn m)) []).
  { apply (OU ltac:(lia) Ha2 ltac:(lia) Hb2 Ca Cb (EV1 350) (EV2 350) ltac:(lia) f1 f2 fe F2 F3 R1 R2 R3 R4 R5 R6 K ltac:(lia) HK3). }
  clear OU. destruct OU' as [P6 P7].
  destruct (sx_product _ _ _ _ _ _ _ _ _ _ _ _ _ _ _ (f2 + D2) (fe + Dm) HA P6) as [SO SN]; [fold A; lia|fold D1 Z; lia|].
  destruct (sx_out_rest _ _ _ _ _ _ _ _ _ _ _ _ _ _ _ (f2 + D2) (fe + Dm) HA P6) as [SZe ORS]; [fold A; lia|fold D1 Z; lia|]. fold D1 Z in SO, ORS.
  pose proof (sg_rest N _ _ _ _ _ _ _ _ _ _ _ _ (sx_sg N _ _ m p1 p2 HM) (HA1 1) (HA0 1) (HB1 1) (HB0 1) ltac:(fold i1 i2; lia) ltac:(fold j1 j2; lia)) as SGR.
  fold i2 j2 in SGR. fold A in SGR. change (t_dt N) with dt in SGR. fold D1 in SGR.
  assert (SO1 : forall n v, spikes_at N n [v] -> forall j, spk N j n = true -> j = v).
  { intros n v HS j Hsp. rewrite HS in Hsp. cbn [memb existsb] in Hsp. rewrite orb_false_r in Hsp. apply Nat.eqb_eq in Hsp. auto. }
  assert (SO2 : forall n u v, spikes_at N n [u; v] -> forall j, spk N j n = true -> j = u \/ j = v).
  { intros n u v HS j Hsp. rewrite HS in Hsp. apply memb_In in Hsp. cbn [In] in Hsp. intuition auto. }
  assert (SO0 : forall n, spikes_at N n [] -> forall j, spk N j n = true -> False).
  { intros n HS j Hsp. rewrite HS in Hsp. discriminate Hsp. }
  assert (SGN : forall b1 b2 j, spk N j (sx_sign m b1 b2) = true -> (j + D1 <= K)%nat).
  { assert (Q : forall b1 b2, spikes_at N (sx_sign m b1 b2) [A] \/ spikes_at N (sx_sign m b1 b2) []) by (clear - SP SA SB SZ; destruct p1, p2; cbn [negb] in *; intros [] []; auto).
    intros b1 b2 j Hsp. destruct (Q b1 b2) as [q|q]; [apply (SO1 _ _ q) in Hsp; lia|apply (SO0 _ q) in Hsp; destruct Hsp]. }
  assert (SON : forall b j, spk N j (sx_out m b) = true -> (j + D1 <= K)%nat).
  { assert (Q : forall b, spikes_at N (sx_out m b) [(f2 + D2 + D1)%nat; (fe + Dm + D1)%nat] \/ spikes_at N (sx_out m b) []) by (clear - SO SN; destruct (Bool.eqb p1 p2); cbn [negb] in *; intros []; auto).
    intros b j Hsp. destruct (Q b) as [q|q]; [apply (SO2 _ _ _ q) in Hsp; lia|apply (SO0 _ q) in Hsp; destruct Hsp]. }
  constructor.
  - intros p y Hp Hy Ep. cbn [N net_of t_ext t_syns t_dt] in *. rewrite ES in Hy.
    unfold exts, stims, sx_stims in Hp. cbn [flat_map stim_ext app In] in Hp.
    assert (HP : s_delay y = 1 \/ s_delay y = 350).
    { assert (Efst : fst p = sx_input1_plus m \/ fst p = sx_input1_minus m \/ fst p = sx_input2_plus m \/ fst p = sx_input2_minus m).
      { destruct Hp as [<-|[<-|[<-|[<-|[]]]]]; cbn [fst]; destruct p1, p2; cbn [sx_in1 sx_in2]; auto. }
      clear ORS SGR RS HA1 HA0 HB1 HB0 EV1 EV2. unfold sx_syns, sign_syns, sout_syns, mu_syns in Hy. cbn [In app] in Hy.
      repeat destruct Hy as [<-|Hy]; try destruct Hy; cbn [s_pre s_delay syn mks] in *; autorewrite with netR; try lra; exfalso; lia. }
    destruct HP as [HP|HP]; rewrite HP; destruct Hp as [<-|[<-|[<-|[<-|[]]]]]; cbn [snd].
    + fold i1. lia.
    + replace (ta + (Tmin enc + x1 * Tcod enc) + 1) with (ta + 1 + iv1) by (unfold iv1, enc; cbn; lra). fold i2. lia.
    + fold j1. lia.
    + replace (tb + (Tmin enc + x2 * Tcod enc) + 1) with (tb + 1 + iv2) by (unfold iv2, enc; cbn; lra). fold j2. lia.
    + fold z1. lia.
    + replace (ta + (Tmin enc + x1 * Tcod enc) + 350) with (ta + 350 + iv1) by (unfold iv1, enc; cbn; lra). fold z2. lia.
    + fold z3. lia.
    + replace (tb + (Tmin enc + x2 * Tcod enc) + 350) with (tb + 350 + iv2) by (unfold iv2, enc; cbn; lra). fold z4. lia.
  - intros n Hn. assert (In n (mu_nodes (sx_mn m) ++ sx_own m)) as Hin by (rewrite HN; apply in_seq; lia).
    apply in_app_or in Hin. destruct Hin as [Hin|Hin]; [apply RS; auto|].
    unfold sx_own in Hin. cbn [In] in Hin.
    assert (SG : forall b1 b2, st N K (sx_sign m b1 b2) = init_nstate (t_prm N (sx_sign m b1 b2))).
    { intros b1 b2. apply SGR; [clear; destruct p1, p2, b1, b2; cbn [negb In]; auto|lia]. }
    repeat destruct Hin as [<-|Hin]; try destruct Hin; try (apply src_settled; apply SRC; cbn [In]; tauto);
      try (apply ORS; [cbn [In]; tauto|lia|lia]).
    + exact (SG true true).
    + exact (SG false true).
    + exact (SG true false).
    + exact (SG false false).
  - intros y j Hy Hjk Hs. cbn [N net_of t_syns t_dt] in *. rewrite ES in Hy. fold N in Hs.
    assert (S0 : forall n, In n [sx_input1_plus m; sx_input1_minus m; sx_input2_plus m; sx_input2_minus m] -> spk N j n = false).
    { intros n Hn. apply source_silent; apply SRC; auto. }
    pose proof (S0 (sx_input1_plus m) ltac:(cbn [In]; tauto)) as X1. pose proof (S0 (sx_input1_minus m) ltac:(cbn [In]; tauto)) as X2.
    pose proof (S0 (sx_input2_plus m) ltac:(cbn [In]; tauto)) as X3. pose proof (S0 (sx_input2_minus m) ltac:(cbn [In]; tauto)) as X4.
    pose proof (SGN true true j) as Y1. pose proof (SGN false true j) as Y2. pose proof (SGN true false j) as Y3. pose proof (SGN false false j) as Y4. cbn [sx_sign] in Y1, Y2, Y3, Y4.
    pose proof (SON true j) as Y5. pose proof (SON false j) as Y6. cbn [sx_out] in Y5, Y6.
    pose proof (SO2 _ _ _ I1 j) as Z1. pose proof (SO2 _ _ _ I2 j) as Z2. pose proof (SO2 _ _ _ P6 j) as Z3.
    pose proof (SO1 _ _ P1 j) as W1. pose proof (SO1 _ _ P2 j) as W2. pose proof (SO1 _ _ P3 j) as W3. pose proof (SO1 _ _ P4 j) as W4. pose proof (SO1 _ _ P5 j) as W5.
    pose proof (SO1 _ _ F1 j) as W6. pose proof (SO1 _ _ F2 j) as W7. pose proof (SO1 _ _ F3 j) as W8.
    assert (V1 : (i1 + Dm <= i2 + D1)%nat) by lia. assert (V2 : (j1 + Dm <= j2 + D1)%nat) by lia.
    assert (V3 : (f2 + D2 + D1 <= K)%nat) by lia. assert (V4 : (A + D1 + D1 + D3 <= K)%nat) by lia.
    clear - Hy Hs X1 X2 X3 X4 Y1 Y2 Y3 Y4 Y5 Y6 Z1 Z2 Z3 W1 W2 W3 W4 W5 W6 W7 W8 P7 SZe HK1 HK2 HK3 R1 R2 R3 R4 V1 V2 V3 V4 MA' G1 G2 Hi Hj.
    unfold sx_syns, sign_syns, sout_syns, mu_syns in Hy. cbn [In app] in Hy.
    repeat destruct Hy as [<-|Hy]; try destruct Hy; cbn [s_pre s_delay syn mks] in *; cbn [enc DataEncoder Tmin];
      autorewrite with netR; rewrite ?Rmult_1_r, ?(Rplus_comm tmin 1); fold D1 D2 D3 Dm P;
      first [ rewrite X1 in Hs; discriminate Hs | rewrite X2 in Hs; discriminate Hs | rewrite X3 in Hs; discriminate Hs | rewrite X4 in Hs; discriminate Hs
            | rewrite P7 in Hs; discriminate Hs | rewrite SZe in Hs; discriminate Hs
            | exact (Y1 Hs) | exact (Y2 Hs) | exact (Y3 Hs) | exact (Y4 Hs) | exact (Y5 Hs) | exact (Y6 Hs)
            | specialize (Z1 Hs); lia | specialize (Z2 Hs); lia | specialize (Z3 Hs); lia
            | specialize (W1 Hs); lia | specialize (W2 Hs); lia | specialize (W3 Hs); lia | specialize (W4 Hs); lia | specialize (W5 Hs); lia | specialize (W6 Hs); lia | specialize (W7 Hs); lia | specialize (W8 Hs); lia ].
Qed.

(** what the two outputs say for operands of size x1, x2 and sign p1, p2 *)
Definition smul_says (enc : encoder R) (eps x1 x2 : R) (p1 p2 : bool) (plus minus : list R) : Prop :=
  if Bool.eqb p1 p2 then pair_says enc (x1 * x2) eps plus /\ minus = [] else plus = [] /\ pair_says enc (x1 * x2) eps minus.
Theorem signed_multiplier_reuse (tmin tcod dt T : R) (js : list ((((R * R) * (R * R)) * (bool * bool)) * R)) nm ord :
  0 < dt <= 1 / 2 -> 0 < tcod -> 1 + dt <= tmin -> 4 * dt <= tmin -> ord_ok ord -> 0 <= T ->
  jobs_ok _ (fun x => mul_ok tcod dt (fst x)) (smul_span tmin tcod) 0 js T ->
  exists m s ps,
    session (SignedMultiplierNetwork (DataEncoder tmin tcod) nm) sx_mod (DataEncoder tmin tcod) dt (fun m => flat_map (fun j => smul_job (fst j) (snd j) m) js) ord T = Ok (m, s) /\
    spike_log s (sx_output_plus m) = concat (map fst ps) /\ spike_log s (sx_output_minus m) = concat (map snd ps) /\
    Forall2 (fun j p => let '((x1, x2), _, (p1, p2)) := fst j in smul_says (DataEncoder tmin tcod) (7 * dt / tcod + dt / 10) x1 x2 p1 p2 (fst p) (snd p)) js ps.
Proof.
  intros Hdt Htc Htm Htm2 HO HT HJ. set (enc := DataEncoder tmin tcod).
  assert (HTc : tcod <> 0) by lra.
  destruct (SignedMultiplier_built enc nm empty_world inv_empty (neq0 _ HTc)) as (m & w & E & HB & HN & HL).
  cbn [w_neurons empty_world length Nat.add] in HN, HL.
  pose proof HN as HN'. unfold mu_nodes, sx_own in HN'. cbn [app] in HN'. nodes_eqs HN'.
  pose proof (b_syn _ _ _ _ HB) as ES. cbn [w_syns empty_world app] in ES.
  assert (EQ : forall stims T, session (SignedMultiplierNetwork enc nm) sx_mod enc dt stims ord T = session (SignedMultiplierNetwork enc nm) sx_mod enc dt (fun _ => stims m) ord T).
  { intros stims T'. unfold session. rewrite E. reflexivity. }
  destruct (session_jobs (SignedMultiplierNetwork enc nm) sx_mod m w _ enc dt ord E HB ltac:(lra) HO _ (fun x t => smul_job x t m) (fun x => mul_ok tcod dt (fst x)) (smul_span tmin tcod)
     (fun n => n = sx_output_plus m \/ n = sx_output_minus m)
     (fun x l => let '((x1, x2), _, (p1, p2)) := x in smul_says enc (7 * dt / tcod + dt / 10) x1 x2 p1 p2 (l (sx_output_plus m)) (l (sx_output_minus m)))) with (js := js) (T := T) as (s & ls & Es & F & LG); auto.
  - intros y Hy. rewrite ES in Hy. unfold sx_syns, sign_syns, sout_syns, mu_syns in Hy. cbn [In app] in Hy. repeat destruct Hy as [<-|Hy]; try destruct Hy; cbn [s_delay syn mks enc DataEncoder Tmin]; netr; autorewrite with netR; lra.
  - intros x t d. unfold exts, later, smul_job, sx_stims. cbn [flat_map stim_ext app map fst snd]. repeat (f_equal; try lra).
  - intros [[[x1 x2] [d1 d2]] [p1 p2]] t p (Hp1 & Hp2 & Hx1 & Hx2 & _ & Hd1 & Hd2) Hp. unfold exts, smul_job, sx_stims in Hp. cbn [flat_map stim_ext app In enc DataEncoder Tmin Tcod fst snd] in Hp.
    destruct Hp as [<-|[<-|[<-|[<-|[]]]]]; cbn [snd]; lra.
  - intros [[[x1 x2] [d1 d2]] [p1 p2]] t (Hp1 & Hp2 & Hx1 & Hx2 & _ & Hd1 & Hd2).
    assert (L1 : x1 <= 1) by (apply Rmult_le_reg_r with tcod; lra). assert (L2 : x2 <= 1) by (apply Rmult_le_reg_r with tcod; lra).
    unfold smul_job, sx_stims, sx_in1, sx_in2. cbn [fst snd]. destruct p1, p2; stims_ok.
  - intros [[[x1 x2] [d1 d2]] [p1 p2]] (_ & _ & _ & _ & _ & Hd1 & Hd2). unfold smul_span. cbn [fst snd]. pose proof (Rmax_l d1 d2). lra.
  - intros n [->| ->]; lia.
  - intros n [x [p1 p2]] t Hn. unfold exts, smul_job, sx_stims. cbn [flat_map stim_ext app map fst snd In]. destruct p1, p2; cbn [sx_in1 sx_in2]; lia.
  - intros [[[x1 x2] [d1 d2]] [p1 p2]] l l' d Hl EL. cbv beta in *. rewrite (EL (sx_output_plus m)), (EL (sx_output_minus m)) by auto. unfold smul_says in *.
    destruct (Bool.eqb p1 p2); destruct Hl as [A B]; [split; [apply says_shift; auto|rewrite B; reflexivity]|split; [rewrite A; reflexivity|apply says_shift; auto]].
  - intros [[[x1 x2] [d1 d2]] [p1 p2]] t K Hx Ht HK. cbn [fst snd] in *.
    pose proof (sx_quiet tmin tcod x1 x2 d1 d2 dt t p1 p2 K m w nm Hdt Htc Htm Htm2 Hx Ht HK E HB HN HL) as HQ. rewrite <- HL in HQ.
    destruct Hx as (Hp1 & Hp2 & Hx1 & Hx2 & Hxx & Hd1 & Hd2).
    assert (L1 : x1 <= 1) by (apply Rmult_le_reg_r with tcod; lra). assert (L2 : x2 <= 1) by (apply Rmult_le_reg_r with tcod; lra).
    unfold smul_span in HK. cbn [fst snd] in *. rewrite S_INR in HK.
    destruct (ln_prod_bound x1 x2 14 Hp1 Hp2 ltac:(exact Hxx)) as [LB LE].
    destruct (signed_multiplier_run tmin tcod x1 x2 dt (t + d1) (t + d2) (INR K * dt) p1 p2 nm ord Hdt Htc Htm Htm2 ltac:(lra) ltac:(lra) HO Hp1 Hp2 Hx1 Hx2 Hxx) as (m' & s & Es & EM & EM0).
    { replace (Rmax (t + d1) (t + d2)) with (t + Rmax d1 d2) by (unfold Rmax; destruct (Rle_dec d1 d2), (Rle_dec (t + d1) (t + d2)); lra). rewrite LE. lra. }
    destruct (session_rests (SignedMultiplierNetwork enc nm) sx_mod m w _ enc dt ord E HB ltac:(lra) HO (fun _ => smul_job ((x1, x2), (d1, d2), (p1, p2)) t m) K) as (s' & Es' & RS); auto.
    { unfold smul_job, sx_stims, sx_in1, sx_in2. cbn [fst snd]. destruct p1, p2; stims_ok. }
    fold enc in Es, EM. rewrite (EQ (sx_stims p1 p2 x1 x2 (t + d1) (t + d2))) in Es.
    assert (EE : Ok (m, s') = Ok (m', s)) by (rewrite <- Es', <- Es; reflexivity).
    injection EE as <- <-. exists s'. split; [exact Es'|]. split; [exact RS|].
    unfold smul_says. destruct (Bool.eqb p1 p2); cbn [negb sx_out] in EM, EM0; [split; [exact EM|exact EM0]|split; [exact EM0|exact EM]].
  - exists m, s, (map (fun l => (l (sx_output_plus m), l (sx_output_minus m))) ls). rewrite EQ. split; [exact Es|].
    rewrite !map_map. cbn [fst snd]. split; [apply LG; auto|]. split; [apply LG; auto|].
    clear -F. induction F as [|[[[[x1 x2] dd] [p1 p2]] t] l js ls HF F IH]; cbn [map]; constructor; auto.
Qed.
