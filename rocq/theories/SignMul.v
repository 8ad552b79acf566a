(** Sign logic and value of SignedMultiplierNetwork (C46). *)
From Coq Require Import Arith ZArith Bool List Reals Lra Lia Permutation.
From Verif Require Import Num Heapq Elements Simulator Networks Trace SimTrace SimProps TraceProps NeuronLib NetLib Build BuildNets Bridge MemoryProof GeLib GfLib Session SimpleNets InvMem Misc LnLib FuncNets SegLib SubNet ExpLog MulNet MulRun SMem.
Import ListNotations.
Open Scope R_scope.
Open Scope list_scope.

(** ** the product as spike steps of the multiplier's output, wherever its inputs come from *)
Lemma mul_value N m dt tmin tcod a1 a2 b1 b2 z2 z4 x1 x2 : mul_at N m dt tmin tcod a1 a2 b1 b2 z2 z4 ->
  0 < x1 -> 0 < x2 -> 4 * dt <= x1 * tcod <= tcod - 2 * dt -> 4 * dt <= x2 * tcod <= tcod - 2 * dt ->
  Rabs (INR a2 * dt - INR a1 * dt - (tmin + x1 * tcod)) < dt -> Rabs (INR b2 * dt - INR b1 * dt - (tmin + x2 * tcod)) < dt ->
  INR (Nat.max a2 b2) * dt + 54 + 20 * (- ln x1 + - ln x2) <= INR (Nat.max z2 z4) * dt ->
  exists o1 o2, spikes_at N (mu_output m) [o1; o2] /\ (Nat.max a2 b2 < o1 < o2)%nat /\
    INR o1 * dt <= INR (Nat.max a2 b2) * dt + 52 + 20 * (- ln x1 + - ln x2) /\
    Rabs (INR o2 * dt - INR o1 * dt - (tmin + x1 * x2 * tcod)) <= 7 * dt + dt / 10 * tcod.
Proof.
  intros HA Hp1 Hp2 Hx1 Hx2 Qa Qb HW. destruct (in_D N m dt tmin tcod _ _ _ _ _ _ HA) as ([Hdt Hdt2] & Htc & Htm2 & _).
  assert (L1 : x1 <= 1) by (apply Rmult_le_reg_r with tcod; lra). assert (L2 : x2 <= 1) by (apply Rmult_le_reg_r with tcod; lra).
  pose proof (ln_neg x1 ltac:(lra)) as N1. pose proof (ln_neg x2 ltac:(lra)) as N2.
  destruct (charge_of dt tmin tcod x1 _ _ Hdt Htc ltac:(lra) ltac:(lra) ltac:(lra) Qa) as (Ca & Ca0 & Ca1 & Ca2 & Ca3).
  destruct (charge_of dt tmin tcod x2 _ _ Hdt Htc ltac:(lra) ltac:(lra) ltac:(lra) Qb) as (Cb & Cb0 & Cb1 & Cb2 & Cb3).
  specialize (Ca3 ltac:(lra)). specialize (Cb3 ltac:(lra)).
  set (c1 := INR (a2 + step_at dt 1 - (a1 + step_at dt (1 + tmin))) * (dt / tcod)) in *. set (c2 := INR (b2 + step_at dt 1 - (b1 + step_at dt (1 + tmin))) * (dt / tcod)) in *.
  destruct (in_product N m dt tmin tcod _ _ _ _ _ _ HA Ca Cb) as (f2 & k & p1 & p2 & HS & Hf & Hft & Hk & P1 & P2 & He).
  { fold c1. lra. } { fold c2. lra. } { fold c1 c2. lra. }
  fold c1 c2 in Hft, P1, P2. set (r := 1 - dt / 20) in *. set (e := (3 * step_at dt 1 - step_at dt 3)%nat) in *.
  assert (Hr : 0 < r < 1) by (unfold r; lra).
  assert (Hre : 1 - dt / 10 <= r ^ e <= 1).
  { split; [|apply pow_le1; auto]. apply Rle_trans with (r ^ 2); [unfold r; cbn; clear - Hdt Hdt2; nra|apply pow_anti; auto]. }
  assert (Hrk : 0 < r ^ k <= 1) by (split; [apply pow_lt; lra|apply pow_le1; auto]).
  assert (Hdc : 0 < 2 * dt / tcod) by (apply Rdiv_lt_0_compat; lra).
  assert (HPv : Rabs (r ^ k - x1 * x2) <= dt / 10 + 4 * dt / tcod).
  { rewrite Hk. assert (U : 0 <= p1 * p2 - c1 * c2 <= 2 * (dt / 20)) by (apply prod_gap; lra).
    assert (V : - (2 * (2 * dt / tcod)) <= c1 * c2 - x1 * x2 <= 2 * (2 * dt / tcod)) by (apply prod_err; lra).
    assert (W : 0 <= p1 * p2 <= 1) by (split; [apply Rmult_le_pos; lra|rewrite <- (Rmult_1_l 1); apply Rmult_le_compat; lra]).
    pose proof (prod_shrink (p1 * p2) (r ^ e) (dt / 10) W Hre) as W2.
    apply Rabs_le. lra. }
  assert (HTr : 0 < tcod * r ^ k) by (apply Rmult_lt_0_compat; lra). assert (HTr2 : tcod * r ^ k <= tcod) by (apply shrink; lra).
  pose proof (step_at_bounds dt _ Hdt HTr) as BJ. set (q := step_at dt (tcod * r ^ k)) in *.
  destruct (out_timing dt tmin f2 q Hdt Htm2) as (C3 & C4).
  exists (f2 + step_at dt 2)%nat, (f2 + step_at dt 1 - 1 + q + step_at dt (1 + tmin))%nat. split; [exact HS|].
  pose proof (step_at_bounds dt 2 Hdt ltac:(lra)) as BD2.
  split; [lia|]. split; [inr; lra|].
  apply Rabs_le2 in C4. apply Rabs_le2 in HPv.
  assert (- (dt / 10 * tcod + 4 * dt) <= r ^ k * tcod - x1 * x2 * tcod <= dt / 10 * tcod + 4 * dt).
  { replace (dt / 10 * tcod + 4 * dt) with ((dt / 10 + 4 * dt / tcod) * tcod) by (field; lra).
    replace (r ^ k * tcod - x1 * x2 * tcod) with ((r ^ k - x1 * x2) * tcod) by ring.
    rewrite <- Ropp_mult_distr_l_reverse. split; apply Rmult_le_compat_r; lra. }
  apply Rabs_le. lra.
Qed.
Lemma mul_value_grid N m dt tmin tcod a1 a2 b1 b2 z2 z4 x1 x2 : mul_at N m dt tmin tcod a1 a2 b1 b2 z2 z4 -> aligned dt tmin ->
  0 < x1 < 1 -> 0 < x2 < 1 ->
  INR a2 * dt - INR a1 * dt = tmin + x1 * tcod -> INR b2 * dt - INR b1 * dt = tmin + x2 * tcod ->
  INR (Nat.max a2 b2) * dt + 14 + 20 * (- ln x1 + - ln x2) <= INR (Nat.max z2 z4) * dt ->
  exists o1 o2, spikes_at N (mu_output m) [o1; o2] /\ (Nat.max a2 b2 < o1 < o2)%nat /\ (o1 + step_at dt (1 + tmin) <= o2 + step_at dt 1)%nat /\
    INR o1 * dt <= INR (Nat.max a2 b2) * dt + 12 + 20 * (- ln x1 + - ln x2) /\
    Rabs (INR o2 * dt - INR o1 * dt - (tmin + x1 * x2 * tcod)) <= dt + dt / 10 * tcod.
Proof.
  intros HA HAl Hp1 Hp2 Qa Qb HW. destruct (in_D N m dt tmin tcod _ _ _ _ _ _ HA) as ([Hdt Hdt2] & Htc & Htm2 & _).
  pose proof (ln_neg x1 ltac:(lra)) as N1. pose proof (ln_neg x2 ltac:(lra)) as N2.
  destruct (aligned_steps dt tmin Hdt ltac:(lra) HAl) as (p & q & E1 & E2 & E3 & Em & Ep & Eq).
  destruct (charge_grid dt tmin tcod x1 _ _ Hdt Htc ltac:(lra) HAl ltac:(lra) Qa) as (Ca & Ca0).
  destruct (charge_grid dt tmin tcod x2 _ _ Hdt Htc ltac:(lra) HAl ltac:(lra) Qb) as (Cb & Cb0).
  destruct (in_product N m dt tmin tcod _ _ _ _ _ _ HA Ca Cb) as (f2 & k & p1 & p2 & HS & Hf & Hft & Hk & P1 & P2 & He); rewrite ?Ca0, ?Cb0 in *; try lra.
  set (r := 1 - dt / 20) in *. assert (Hr : 0 < r < 1) by (unfold r; lra).
  replace (3 * step_at dt 1 - step_at dt 3)%nat with 0%nat in Hk by (rewrite E1, E3; lia). rewrite Rmult_1_r in Hk.
  assert (Hrk : 0 < r ^ k <= 1) by (split; [apply pow_lt; lra|apply pow_le1; auto]).
  assert (UU : 0 <= p1 * p2 - x1 * x2 <= 2 * (dt / 20)) by (apply prod_gap; lra). assert (U : p1 * p2 - x1 * x2 <= dt / 10) by lra.
  assert (HTr : 0 < tcod * r ^ k) by (apply Rmult_lt_0_compat; lra). assert (HTr2 : tcod * r ^ k <= tcod) by (apply shrink; lra).
  pose proof (step_at_bounds dt _ Hdt HTr) as BJ. pose proof (step_at_ge1 dt (tcod * r ^ k)) as GJ. set (j := step_at dt (tcod * r ^ k)) in *.
  destruct (out_timing dt tmin f2 j Hdt Htm2) as (C3 & C4).
  exists (f2 + step_at dt 2)%nat, (f2 + step_at dt 1 - 1 + j + step_at dt (1 + tmin))%nat. split; [exact HS|].
  pose proof (step_at_bounds dt 2 Hdt ltac:(lra)) as BD2.
  split; [lia|]. split; [rewrite E1, E2, Em; lia|]. split; [inr; lra|].
  rewrite E1, E2, Em. assert (1 <= p)%nat by (destruct p; [cbn in Ep; lra|lia]).
  assert (0 <= r ^ k * tcod - x1 * x2 * tcod <= dt / 10 * tcod).
  { replace (r ^ k * tcod - x1 * x2 * tcod) with ((r ^ k - x1 * x2) * tcod) by ring. rewrite Hk. split; [apply Rmult_le_pos; lra|apply Rmult_le_compat_r; lra]. }
  inr. apply Rabs_le. lra.
Qed.

(** ** the four sign neurons: iu, ju are the used inputs of the two operands, io, jo the others;
    P sees both used inputs, A and B one each, Z none *)
Record sg_ins (N : tnet) (iu io ju jo sP sA sB sZ : nat) : Prop := {
  gi_P : ins N sP [mks iu sP SynV (quarter we) cTsyn; mks ju sP SynV (quarter we) cTsyn; mks sA sP SynV (half wi) cTsyn; mks sB sP SynV (half wi) cTsyn];
  gi_A : ins N sA [mks iu sA SynV (quarter we) cTsyn; mks jo sA SynV (quarter we) cTsyn; mks sP sA SynV (half wi) cTsyn; mks sZ sA SynV (half wi) cTsyn];
  gi_B : ins N sB [mks io sB SynV (quarter we) cTsyn; mks ju sB SynV (quarter we) cTsyn; mks sP sB SynV (half wi) cTsyn; mks sZ sB SynV (half wi) cTsyn];
  gi_Z : ins N sZ [mks io sZ SynV (quarter we) cTsyn; mks jo sZ SynV (quarter we) cTsyn; mks sA sZ SynV (half wi) cTsyn; mks sB sZ SynV (half wi) cTsyn]
}.
Lemma sg_spk N iu io ju jo sP sA sB sZ (a1 a2 b1 b2 : nat) :
  sg_ins N iu io ju jo sP sA sB sZ -> arrs N iu 1 [a1; a2] -> arrs N io 1 [] -> arrs N ju 1 [b1; b2] -> arrs N jo 1 [] ->
  (1 <= a1 < a2)%nat -> (1 <= b1 < b2)%nat ->
  spikes_at N sP [Nat.max a2 b2] /\ spikes_at N sA [] /\ spikes_at N sB [] /\ spikes_at N sZ [].
Proof.
  intros HG Iu Io Ju Jo Ha Hb. pose proof (gi_P _ _ _ _ _ _ _ _ _ HG) as HP. pose proof (gi_A _ _ _ _ _ _ _ _ _ HG) as HA.
  pose proof (gi_B _ _ _ _ _ _ _ _ _ HG) as HB. pose proof (gi_Z _ _ _ _ _ _ _ _ _ HG) as HZ.
  set (D1 := step_at (t_dt N) 1). set (Mx := Nat.max a2 b2). assert (HMx : (a2 <= Mx /\ b2 <= Mx)%nat) by (unfold Mx; lia).
  set (LP := [(a1, 5/2); (a2, 5/2); (b1, 5/2); (b2, 5/2)]). set (LA := [(a1, 5/2); (a2, 5/2); ((Mx + D1)%nat, -5)]). set (LB := [(b1, 5/2); (b2, 5/2); ((Mx + D1)%nat, -5)]).
  set (gp := {| g_n := sP; g_S := [Mx]; g_L := LP |}). set (ga := {| g_n := sA; g_S := []; g_L := LA |}). set (gb := {| g_n := sB; g_S := []; g_L := LB |}). set (gz := {| g_n := sZ; g_S := []; g_L := [] |}).
  assert (R : forall g, In g [gp; ga; gb; gz] -> spikes_at N (g_n g) (g_S g)).
  { apply seg_group.
    - intros g Hg. assert (G : t_prm N (g_n g) = stdp /\ vonly N (g_n g)).
      { destruct Hg as [<-|[<-|[<-|[<-|[]]]]]; cbn [g_n gp ga gb gz]; (split; [apply HG|eapply ins_vonly; [apply HG|repeat constructor]]). }
      split; [apply G|]. split; [apply G|]. destruct Hg as [<-|[<-|[<-|[<-|[]]]]]; cbn [g_L g_S gp ga gb gz].
      + unfold LP. clear - Ha Hb HMx. destruct (Nat.le_gt_cases a2 b2); unfold Mx in *; [rewrite Nat.max_r in * by lia|rewrite Nat.max_l in * by lia]; segs_solve.
      + unfold LA. clear - Ha HMx. segs_solve.
      + unfold LB. clear - Hb HMx. segs_solve.
      + segs_solve.
    - intros K HK.
      assert (AP : INR (arr N sP 1 (S K)) = cnt (S K) [(Mx + D1)%nat]).
      { apply (arr_upto N sP 1 [Mx] K); auto.
        - apply HP.
        - intros j Hj. apply (HK gp); auto. left; auto.
        - intros j [<-|[]]; lia.
        - repeat constructor; cbn [In]; intuition lia. }
      assert (A0 : forall g n, In g [ga; gb; gz] -> g_n g = n -> INR (arr N n 1 (S K)) = cnt (S K) []).
      { intros g n Hg <-. assert (Hs : g_S g = []) by (destruct Hg as [<-|[<-|[<-|[]]]]; reflexivity).
        apply (arr_upto N (g_n g) 1 [] K); auto; [destruct Hg as [<-|[<-|[<-|[]]]]; apply HG| |intros j []|constructor].
        intros j Hj. rewrite <- Hs. apply (HK g); auto. right; auto. }
      pose proof (A0 ga sA ltac:(cbn; auto) eq_refl) as AA. pose proof (A0 gb sB ltac:(cbn; auto) eq_refl) as AB. pose proof (A0 gz sZ ltac:(cbn; auto) eq_refl) as AZ.
      intros g [<-|[<-|[<-|[<-|[]]]]]; cbn [g_n g_S g_L gp ga gb gz].
      + ev_input HP. rewrite cTsyn_R, Iu, Ju, AA, AB by lia. unfold LP. netr. autorewrite with netR. ev_simpl. lra.
      + ev_input HA. rewrite cTsyn_R, Iu, Jo, AP, AZ by lia. unfold LA. netr. autorewrite with netR. ev_simpl. lra.
      + ev_input HB. rewrite cTsyn_R, Io, Ju, AP, AZ by lia. unfold LB. netr. autorewrite with netR. ev_simpl. lra.
      + ev_input HZ. rewrite cTsyn_R, Io, Jo, AA, AB by lia. netr. autorewrite with netR. ev_simpl. lra. }
  split; [apply (R gp); cbn; auto|]. split; [apply (R ga); cbn; auto|]. split; [apply (R gb); cbn; auto|apply (R gz); cbn; auto].
Qed.

(** ** SignedMultiplierNetwork *)
Record sx_ins (N : tnet) (w tmin : R) (m : smult_net) : Prop := {
  xi_mul : mu_ins N w tmin (sx_mn m);
  xi_in1 : ins N (mu_input1 (sx_mn m)) [mks (sx_input1_plus m) (mu_input1 (sx_mn m)) SynV we cTsyn; mks (sx_input1_minus m) (mu_input1 (sx_mn m)) SynV we cTsyn];
  xi_in2 : ins N (mu_input2 (sx_mn m)) [mks (sx_input2_plus m) (mu_input2 (sx_mn m)) SynV we cTsyn; mks (sx_input2_minus m) (mu_input2 (sx_mn m)) SynV we cTsyn];
  xi_s1 : ins N (sx_sign1 m) [mks (sx_input1_plus m) (sx_sign1 m) SynV (quarter we) cTsyn; mks (sx_input2_plus m) (sx_sign1 m) SynV (quarter we) cTsyn;
                              mks (sx_sign2 m) (sx_sign1 m) SynV (half wi) cTsyn; mks (sx_sign3 m) (sx_sign1 m) SynV (half wi) cTsyn];
  xi_s2 : ins N (sx_sign2 m) [mks (sx_input1_minus m) (sx_sign2 m) SynV (quarter we) cTsyn; mks (sx_input2_plus m) (sx_sign2 m) SynV (quarter we) cTsyn;
                              mks (sx_sign1 m) (sx_sign2 m) SynV (half wi) cTsyn; mks (sx_sign4 m) (sx_sign2 m) SynV (half wi) cTsyn];
  xi_s3 : ins N (sx_sign3 m) [mks (sx_input1_plus m) (sx_sign3 m) SynV (quarter we) cTsyn; mks (sx_input2_minus m) (sx_sign3 m) SynV (quarter we) cTsyn;
                              mks (sx_sign1 m) (sx_sign3 m) SynV (half wi) cTsyn; mks (sx_sign4 m) (sx_sign3 m) SynV (half wi) cTsyn];
  xi_s4 : ins N (sx_sign4 m) [mks (sx_input1_minus m) (sx_sign4 m) SynV (quarter we) cTsyn; mks (sx_input2_minus m) (sx_sign4 m) SynV (quarter we) cTsyn;
                              mks (sx_sign2 m) (sx_sign4 m) SynV (half wi) cTsyn; mks (sx_sign3 m) (sx_sign4 m) SynV (half wi) cTsyn];
  xi_plus : ins N (sx_output_plus m) [mks (mu_output (sx_mn m)) (sx_output_plus m) SynV we cTsyn; mks (sx_sign2 m) (sx_output_plus m) SynV (twice wi) cTsyn;
                              mks (sx_sign3 m) (sx_output_plus m) SynV (twice wi) cTsyn; mks (sx_zero m) (sx_output_plus m) SynV cVt cTsyn;
                              mks (sx_zero m) (sx_output_plus m) SynV cVt (nadd cTsyn tmin)];
  xi_minus : ins N (sx_output_minus m) [mks (mu_output (sx_mn m)) (sx_output_minus m) SynV we cTsyn; mks (sx_sign1 m) (sx_output_minus m) SynV (twice wi) cTsyn;
                              mks (sx_sign4 m) (sx_output_minus m) SynV (twice wi) cTsyn];
  xi_zero : ins N (sx_zero m) [mks (sx_input1_plus m) (sx_zero m) SynV (ndiv cVt (nofZ 4)) max_prop_delay; mks (sx_input1_minus m) (sx_zero m) SynV (ndiv cVt (nofZ 4)) max_prop_delay;
                              mks (sx_input2_plus m) (sx_zero m) SynV (ndiv cVt (nofZ 4)) max_prop_delay; mks (sx_input2_minus m) (sx_zero m) SynV (ndiv cVt (nofZ 4)) max_prop_delay;
                              mks (sx_output_plus m) (sx_zero m) SynV (ndiv (nopp cVt) (nofZ 2)) cTsyn; mks (sx_output_minus m) (sx_zero m) SynV (ndiv (nopp cVt) (nofZ 2)) cTsyn]
}.
Definition sx_internal (m : smult_net) := mu_internal (sx_mn m) ++ [mu_input1 (sx_mn m); mu_input2 (sx_mn m); sx_sign1 m; sx_sign2 m; sx_sign3 m; sx_sign4 m; sx_output_plus m; sx_output_minus m; sx_zero m].
Lemma sx_ins_of N enc m b : mu_nodes (sx_mn m) ++ sx_own m = seq b 23 -> (forall n, In n (sx_internal m) -> own N (sx_syns enc m) n) -> sx_ins N (wbar_of enc) (Tmin enc) m.
Proof.
  intros HN HO. unfold mu_nodes, sx_own in HN. cbn [app] in HN. nodes_eqs HN. unfold sx_internal, mu_internal in HO. cbn [app] in HO. unfold sx_syns, sign_syns, sout_syns in HO.
  constructor; [constructor|..]; own_solve HO.
Qed.
(** the neurons by sign: true is plus *)
Definition sx_in1 (m : smult_net) (p : bool) := if p then sx_input1_plus m else sx_input1_minus m.
Definition sx_in2 (m : smult_net) (p : bool) := if p then sx_input2_plus m else sx_input2_minus m.
Definition sx_sign (m : smult_net) (p1 p2 : bool) := if p1 then (if p2 then sx_sign1 m else sx_sign3 m) else (if p2 then sx_sign2 m else sx_sign4 m).
Definition sx_out (m : smult_net) (p : bool) := if p then sx_output_plus m else sx_output_minus m.
Lemma sx_sg N w tmin m p1 p2 : sx_ins N w tmin m ->
  sg_ins N (sx_in1 m p1) (sx_in1 m (negb p1)) (sx_in2 m p2) (sx_in2 m (negb p2)) (sx_sign m p1 p2) (sx_sign m p1 (negb p2)) (sx_sign m (negb p1) p2) (sx_sign m (negb p1) (negb p2)).
Proof.
  intros H. destruct p1, p2; cbn [negb sx_in1 sx_in2 sx_sign]; constructor;
  first [apply H | eapply ins_perm; [apply H|do 2 apply perm_skip; apply perm_swap]].
Qed.
Section Sx.
Variable N : tnet.
Variables w tmin : R.
Variable m : smult_net.
Hypothesis HM : sx_ins N w tmin m.
Let D1 := step_at (t_dt N) 1.
Let Dm := step_at (t_dt N) (1 + tmin).
(** outputs and zero detector, from the arrivals O of the multiplier's result, the inhibition Jp, Jm and the arrivals Zs of the inputs at the zero detector *)
Lemma sx_group (O Jp Jm Zs F G Z : list nat) :
  arrs N (mu_output (sx_mn m)) 1 O ->
  (forall k, (1 <= k)%nat -> INR (arr N (sx_sign2 m) 1 k) + INR (arr N (sx_sign3 m) 1 k) = cnt k Jp) ->
  (forall k, (1 <= k)%nat -> INR (arr N (sx_sign1 m) 1 k) + INR (arr N (sx_sign4 m) 1 k) = cnt k Jm) ->
  (forall k, (1 <= k)%nat -> INR (arr N (sx_input1_plus m) 350 k) + INR (arr N (sx_input1_minus m) 350 k) + (INR (arr N (sx_input2_plus m) 350 k) + INR (arr N (sx_input2_minus m) 350 k)) = cnt k Zs) ->
  segs (map (fun a => (a, 10)) O ++ map (fun a => (a, -20)) Jp ++ map (fun z => ((z + D1)%nat, 10)) Z ++ map (fun z => ((z + Dm)%nat, 10)) Z) 0 F ->
  segs (map (fun a => (a, 10)) O ++ map (fun a => (a, -20)) Jm) 0 G ->
  segs (map (fun a => (a, 5/2)) Zs ++ map (fun o => ((o + D1)%nat, -5)) F ++ map (fun o => ((o + D1)%nat, -5)) G) 0 Z ->
  spikes_at N (sx_output_plus m) F /\ spikes_at N (sx_output_minus m) G /\ spikes_at N (sx_zero m) Z.
Proof.
  intros AO AJp AJm AZs SF SG SZ. pose proof (xi_plus _ _ _ _ HM) as HP. pose proof (xi_minus _ _ _ _ HM) as HQ. pose proof (xi_zero _ _ _ _ HM) as HZe.
  set (LF := map (fun a => (a, 10)) O ++ map (fun a => (a, -20)) Jp ++ _) in SF. set (LG := map (fun a => (a, 10)) O ++ _) in SG. set (LZ := map (fun a => (a, 5/2)) Zs ++ _) in SZ.
  set (gp := {| g_n := sx_output_plus m; g_S := F; g_L := LF |}). set (gm := {| g_n := sx_output_minus m; g_S := G; g_L := LG |}). set (gz := {| g_n := sx_zero m; g_S := Z; g_L := LZ |}).
  assert (R : forall g, In g [gp; gm; gz] -> spikes_at N (g_n g) (g_S g)).
  { apply seg_group.
    - intros g [<-|[<-|[<-|[]]]]; cbn [g_n g_S g_L gp gm gz]; (split; [apply HM|split; [eapply ins_vonly; [apply HM|repeat constructor]|auto]]).
    - intros K HK.
      assert (ND : forall L S, segs L 0 S -> NoDup S /\ forall j, In j S -> (1 <= j)%nat).
      { intros L S HS. pose proof (segs_strict _ _ _ HS) as ST. split; [eapply strict_NoDup; eauto|]. intros j Hj. pose proof (strict_In _ _ ST _ Hj). lia. }
      assert (ED1 : step_at (t_dt N) cTsyn = D1) by reflexivity. assert (EDm : step_at (t_dt N) (nadd cTsyn tmin) = Dm) by reflexivity.
      assert (AF : INR (arr N (sx_output_plus m) cTsyn (S K)) = cnt (S K) (map (fun j => (j + D1)%nat) F)).
      { rewrite <- ED1. apply (arr_upto N (sx_output_plus m) cTsyn F K); [exact (ins_ext _ _ _ HP)| |lia|exact (proj2 (ND _ _ SF))|exact (proj1 (ND _ _ SF))]. intros j Hj. apply (HK gp); auto. left; auto. }
      assert (AG : INR (arr N (sx_output_minus m) cTsyn (S K)) = cnt (S K) (map (fun j => (j + D1)%nat) G)).
      { rewrite <- ED1. apply (arr_upto N (sx_output_minus m) cTsyn G K); [exact (ins_ext _ _ _ HQ)| |lia|exact (proj2 (ND _ _ SG))|exact (proj1 (ND _ _ SG))]. intros j Hj. apply (HK gm); auto. right; left; auto. }
      assert (AZ1 : INR (arr N (sx_zero m) cTsyn (S K)) = cnt (S K) (map (fun j => (j + D1)%nat) Z)).
      { rewrite <- ED1. apply (arr_upto N (sx_zero m) cTsyn Z K); [exact (ins_ext _ _ _ HZe)| |lia|exact (proj2 (ND _ _ SZ))|exact (proj1 (ND _ _ SZ))]. intros j Hj. apply (HK gz); auto. right; right; left; auto. }
      assert (AZ2 : INR (arr N (sx_zero m) (nadd cTsyn tmin) (S K)) = cnt (S K) (map (fun j => (j + Dm)%nat) Z)).
      { rewrite <- EDm. apply (arr_upto N (sx_zero m) (nadd cTsyn tmin) Z K); [exact (ins_ext _ _ _ HZe)| |lia|exact (proj2 (ND _ _ SZ))|exact (proj1 (ND _ _ SZ))]. intros j Hj. apply (HK gz); auto. right; right; left; auto. }
      specialize (AJp (S K) ltac:(lia)). specialize (AJm (S K) ltac:(lia)). specialize (AZs (S K) ltac:(lia)). specialize (AO (S K) ltac:(lia)).
      assert (EV : forall (A : Type) (f : A -> nat) (c : R) l k, evw (map (fun a => (f a, c)) l) k = c * cnt k (map f l)).
      { intros A f c l k. rewrite <- evw_map_cnt, map_map. reflexivity. }
      intros g [<-|[<-|[<-|[]]]]; cbn [g_n g_S g_L gp gm gz].
      + ev_input HP. rewrite AZ1, AZ2. unfold LF. rewrite !evw_app, !EV, !map_id. rewrite <- AJp, <- AO. change cTsyn with 1. netr. lra.
      + ev_input HQ. unfold LG. rewrite !evw_app, !EV, !map_id. rewrite <- AJm, <- AO. change cTsyn with 1. netr. lra.
      + ev_input HZe. rewrite AF, AG. unfold LZ. rewrite !evw_app, !EV, !map_id. rewrite <- AZs. change max_prop_delay with 350. netr. lra. }
  split; [apply (R gp); cbn; auto|]. split; [apply (R gm); cbn; auto|apply (R gz); cbn; auto].
Qed.
End Sx.
