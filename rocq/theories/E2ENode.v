(** One compiled node inside the network of a plan (C49): from the arrivals of its operands to its output spikes. *)
From Coq Require Import Arith ZArith Bool String List Reals Lra Lia Permutation.
From Verif Require Import Num Heapq Elements Simulator Networks Scalar ScalarProofs Compiler Trace SimTrace SimProps TraceProps NeuronLib NetLib Build BuildNets Bridge MemoryProof GeLib GfLib Session SimpleNets InvMem Misc LnLib FuncNets SegLib SubNet ExpLog MulNet MulRun SMem SignMul SignRun SignProd NormNet NormVal NormRun SyncNet LinComb LinRun CompilerProofs E2EAdd E2ELib.
Import ListNotations.
Open Scope list_scope.
Open Scope R_scope.

(** what is needed of the network: [E2ELib] establishes it *)
Record plan_net (h : list (scalar R)) (norm : R) (nodes : list nat) (pl : nat -> placed) (N : tnet) (dt : R) (g : nat) : Prop := {
  pn_dt : t_dt N = dt;
  pn_dt0 : 0 < dt;
  pn_dt1 : dt < / 50;
  pn_g : 1 = INR g * dt;
  pn_own : forall v n s, In v nodes -> rngv pl v n -> nth_error h v = Some s -> x_op s <> OLoad ->
    (forall i, In i (pl_ins (pl v)) -> fst i <> n /\ snd i <> n) -> own N (pl_own (pl v)) n;
  pn_in : forall v n s y, In v nodes -> rngv pl v n -> nth_error h v = Some s -> x_op s <> OLoad ->
    filter (fun y => (s_post y =? n)%nat) (pl_own (pl v)) = [] -> filter (fun y => (s_post y =? n)%nat) (wires_of h pl v) = [y] -> ins N n [y]
}.
Definition outn (pl : nat -> placed) (v : nat) (s : bool) : nat := if s then fst (pl_out (pl v)) else snd (pl_out (pl v)).
(** node v sends, on its output of sign s, two spikes 10 + k/g time units apart that arrive at step a; its other output is silent *)
Record sig (pl : nat -> placed) (N : tnet) (g : nat) (v : nat) (s : bool) (a k : nat) : Prop := {
  sg_on : arrs N (outn pl v s) 1 [a; (a + 10 * g + k)%nat];
  sg_off : arrs N (outn pl v (negb s)) 1 [];
  sg_a : (g <= a)%nat
}.
(** the spikes themselves *)
Record fires (pl : nat -> placed) (N : tnet) (g : nat) (v : nat) (s : bool) (b k : nat) : Prop := {
  fi_on : spikes_at N (outn pl v s) [b; (b + 10 * g + k)%nat];
  fi_off : spikes_at N (outn pl v (negb s)) [];
  fi_b : (1 <= b)%nat
}.
Lemma gsteps dt g : 0 < dt -> 1 = INR g * dt -> (1 <= g)%nat /\ step_at dt 1 = g /\ 10 = INR (10 * g) * dt /\ 100 = INR (100 * g) * dt.
Proof.
  intros Hdt Eg. assert (1 <= g)%nat by (destruct g; [cbn in Eg; lra|lia]). split; auto. split.
  - rewrite Eg at 1. apply step_at_grid; auto.
  - rewrite !mult_INR, !Rmult_assoc, <- Eg. replace (INR 10) with 10 by (rewrite INR_IZR_INZ; reflexivity). replace (INR 100) with 100 by (rewrite INR_IZR_INZ; reflexivity). lra.
Qed.
Section Node.
Variables (h : list (scalar R)) (norm : R) (nodes : list nat) (pl : nat -> placed) (N : tnet) (dt : R) (g : nat).
Hypothesis HN : plan_net h norm nodes pl N dt g.
Hypothesis HP : forall v, In v nodes -> placed_ok h norm v (pl v).

Lemma wire_arrs n src l : ins N n [vsyn src n] -> arrs N src 1 l -> strict 0 l -> arrs N n 1 (map (fun j => (j + g)%nat) l).
Proof.
  intros H HA HS. destruct (gsteps dt g (pn_dt0 _ _ _ _ _ _ _ HN) (pn_g _ _ _ _ _ _ _ HN)) as (_ & E & _).
  assert (E1 : g = step_at (t_dt N) 1) by (rewrite (pn_dt _ _ _ _ _ _ _ HN); auto). rewrite E1.
  eapply (relay_arrs N n src 10 1 l 1); auto. lra.
Qed.
Lemma wire_sig u s a k (n : bool -> nat) : sig pl N g u s a k -> (forall b, ins N (n b) [vsyn (outn pl u b) (n b)]) ->
  arrs N (n s) 1 [(a + g)%nat; (a + 10 * g + k + g)%nat] /\ arrs N (n (negb s)) 1 [].
Proof.
  intros [S1 S2 S3] H. destruct (gsteps dt g (pn_dt0 _ _ _ _ _ _ _ HN) (pn_g _ _ _ _ _ _ _ HN)) as (G & _). split.
  - apply (wire_arrs _ _ _ (H s) S1). cbn. lia.
  - apply (wire_arrs _ _ _ (H (negb s)) S2). exact I.
Qed.
Lemma fires_sig v s b k sc : In v nodes -> nth_error h v = Some sc -> x_op sc <> OLoad ->
  (forall i, In i (pl_ins (pl v)) -> forall b, fst i <> outn pl v b /\ snd i <> outn pl v b) ->
  fires pl N g v s b k -> sig pl N g v s (b + g) k.
Proof.
  intros Hv E Ho HI [F1 F2 F3]. destruct (gsteps dt g (pn_dt0 _ _ _ _ _ _ _ HN) (pn_g _ _ _ _ _ _ _ HN)) as (G & ES & _).
  assert (HX : forall c, ext_of N (outn pl v c) = []).
  { intros c. apply (own_ext _ (pl_own (pl v))). apply (pn_own _ _ _ _ _ _ _ HN v _ sc Hv); auto. destruct (HP v Hv) as (? & _ & _ & _ & _ & _ & R). cbv zeta in R. destruct R as (A & B & _). destruct c; assumption. }
  assert (E1 : step_at (t_dt N) 1 = g) by (rewrite (pn_dt _ _ _ _ _ _ _ HN); auto).
  assert (A1 : arrs N (outn pl v s) 1 (map (fun j => (j + step_at (t_dt N) 1)%nat) [b; (b + 10 * g + k)%nat])).
  { apply arrs_spikes; [apply HX|exact F1|intros j [<-|[<-|[]]]; lia|]. repeat constructor; [intros [?|[]]; lia|intros []]. }
  assert (A2 : arrs N (outn pl v (negb s)) 1 (map (fun j => (j + step_at (t_dt N) 1)%nat) [])).
  { apply arrs_spikes; [apply HX|exact F2|intros j []|constructor]. }
  rewrite E1 in A1, A2. constructor; [|exact A2|lia].
  replace (b + g + 10 * g + k)%nat with (b + 10 * g + k + g)%nat by lia. exact A1.
Qed.

(** a node with one operand *)
Lemma wires_1 v s u i : nth_error h v = Some s -> x_prev s = [u] -> pl_ins (pl v) = [i] -> wires_of h pl v = wire (pl_out (pl u)) i.
Proof. intros E Ep Ei. unfold wires_of. rewrite E, Ep, Ei. reflexivity. Qed.
Lemma wires_2 v s u1 u2 i1 i2 : nth_error h v = Some s -> x_prev s = [u1; u2] -> pl_ins (pl v) = [i1; i2] -> wires_of h pl v = wire (pl_out (pl u1)) i1 ++ wire (pl_out (pl u2)) i2.
Proof. intros E Ep Ei. unfold wires_of. rewrite E, Ep, Ei. cbn [combine flat_map]. rewrite app_nil_r. reflexivity. Qed.
Ltac vfilt := repeat first [rewrite filt_nil | rewrite filt_ne by (cbn [s_post vsyn fst snd]; lia) | rewrite filt_eq by (cbn [s_post vsyn fst snd]; lia)].

(** SignFlipper *)
Lemma node_neg v s u sg a k : In v nodes -> nth_error h v = Some s -> x_op s = ONeg -> x_prev s = [u] -> sig pl N g u sg a k ->
  fires pl N g v (negb sg) (a + g) k /\ sig pl N g v (negb sg) (a + g + g) k.
Proof.
  intros Hv E Eo Ep HS. destruct (kind_neg h norm v (pl v) s (HP v Hv) E Eo) as [f [M1 M2 M3 M4 M5]].
  pose proof (wires_1 v s u _ E Ep M1) as W. unfold wire in W. cbn [fst snd] in W.
  assert (Ho : x_op s <> OLoad) by congruence. set (b := length (w_neurons (pl_w0 (pl v)))) in *.
  unfold sf_nodes in M4. nodes_eqs M4.
  assert (HI : forall c : bool, ins N (if c then sf_inp_plus f else sf_inp_minus f) [vsyn (outn pl u c) (if c then sf_inp_plus f else sf_inp_minus f)]).
  { intros c. eapply (pn_in _ _ _ _ _ _ _ HN v); eauto.
    - unfold rngv. fold b. destruct c; lia.
    - rewrite M3. unfold sf_syns. destruct c; filt; reflexivity.
    - rewrite W. destruct c; vfilt; reflexivity. }
  assert (HO : forall c : bool, ins N (outn pl v c) [mks (if c then sf_inp_minus f else sf_inp_plus f) (outn pl v c) SynV we cTsyn]).
  { intros c. unfold outn. rewrite M2. cbn [fst snd]. eapply own_ins; [eapply (pn_own _ _ _ _ _ _ _ HN v); eauto|].
    - unfold rngv. fold b. destruct c; lia.
    - rewrite M1. intros i [<-|[]]. cbn [fst snd]. destruct c; lia.
    - rewrite M3. unfold sf_syns. destruct c; filt; reflexivity. }
  destruct (wire_sig u sg a k (fun c : bool => if c then sf_inp_plus f else sf_inp_minus f) HS HI) as [A1 A2]. cbv beta in A1, A2.
  assert (HF : fires pl N g v (negb sg) (a + g) k).
  { pose proof (sg_a _ _ _ _ _ _ _ HS). destruct (gsteps dt g (pn_dt0 _ _ _ _ _ _ _ HN) (pn_g _ _ _ _ _ _ _ HN)) as (G & _).
    constructor; [| |lia].
    - replace (a + g + 10 * g + k)%nat with (a + 10 * g + k + g)%nat by lia.
      eapply relay; [apply HO|rewrite we_R; lra| |cbn; lia]. destruct sg; exact A1.
    - rewrite negb_involutive. eapply relay; [apply HO|rewrite we_R; lra| |exact I]. destruct sg; exact A2. }
  split; auto. eapply fires_sig; eauto. rewrite M1. intros i [<-|[]] c. unfold outn. rewrite M2. cbn [fst snd]. destruct c; lia.
Qed.

(** AdderNetwork *)
Lemma add_inputs (l : lin_net) (enc : encoder R) b i c : lc_own l = seq b 10 -> sy_sync (lc_sync_net l) = (10 + b)%nat -> cells_at (11 + b) (sy_cells (lc_sync_net l)) ->
  length (sy_cells (lc_sync_net l)) = 2%nat -> sb_nodes (lc_sub_net l) = seq (31 + b) 9 -> lcells_at (40 + b) (lc_cells l) -> length (lc_cells l) = 2%nat ->
  (c < 2)%nat -> filter (fun y => (s_post y =? 40 + b + 6 * i + c)%nat) (lc_syns enc 2 [1; 1] l) = [].
Proof.
  intros E1 E2 E3 E4 E5 E6 E7 Hc. apply filter_post_out. intros y Hy. unfold lc_syns in Hy. cbv zeta in Hy.
  apply in_app_or in Hy as [Hy|Hy].
  { destruct (sy_posts enc 2 _ _ y _ E3 Hy) as [Z|(j & Hj & Z)]; [rewrite Z, E2; lia|]. rewrite E4 in Hj. lia. }
  apply in_app_or in Hy as [Hy|Hy]; [pose proof (sb_posts _ _ _ _ E5 Hy); lia|].
  apply in_app_or in Hy as [Hy|Hy].
  { pose proof E1 as E1'. unfold lc_own in E1'. nodes_eqs E1'. pose proof E5 as E5'. unfold sb_nodes in E5'. nodes_eqs E5'.
    pose proof (cells_at_nth _ _ 0 E3 ltac:(lia)) as (C0 & _). pose proof (cells_at_nth _ _ 1 E3 ltac:(lia)) as (C1 & _).
    change (cel (sy_cells (lc_sync_net l)) 0) with (lc_ch l 0) in *. change (cel (sy_cells (lc_sync_net l)) 1) with (lc_ch l 1) in *.
    cbn [In] in Hy. repeat (destruct Hy as [<-|Hy]; [cbn [s_post syn]; lia|]). destruct Hy. }
  pose proof E1 as E1'. unfold lc_own in E1'. nodes_eqs E1'.
  rewrite (flat_map_nth_seq _ (0, lcell0)) in Hy. apply in_flat_map in Hy as (j & Hj & Hy). apply in_seq in Hj. rewrite combine_length, E7 in Hj. cbn [length Nat.min] in Hj.
  rewrite combine_nth in Hy by (rewrite E7; reflexivity). pose proof (lcells_at_nth _ _ j E6 ltac:(lia)) as X. cbv zeta in X.
  destruct (lcell_posts _ _ _ _ _ _ _ _ _ X Hy) as [?|[?|[?|?]]]; lia.
Qed.
Lemma node_add v s u1 u2 s1 s2 a1 a2 k1 k2 : In v nodes -> nth_error h v = Some s -> x_op s = OAdd -> x_prev s = [u1; u2] ->
  sig pl N g u1 s1 a1 k1 -> sig pl N g u2 s2 a2 k2 ->
  let P := (pick s1 k1 + pick s2 k2)%nat in let M := (pick (negb s1) k1 + pick (negb s2) k2)%nat in
  INR P * dt <= 100 -> INR M * dt <= 100 ->
  (forall (sg : bool) (k : nat), (if sg then (M <= P)%nat /\ k = (P - M)%nat else 1 / 100 + 2 * dt <= INR M * dt - INR P * dt /\ k = (M - P)%nat) ->
   exists b, fires pl N g v sg b k /\ sig pl N g v sg (b + g) k /\ INR (b + 10 * g + k) * dt <= INR (Nat.max a1 a2) * dt + 481) /\
  (dt <= INR M * dt - INR P * dt -> INR M * dt - INR P * dt + 2 * dt <= 1 / 100 -> forall c, spikes_at N (outn pl v c) []).
Proof.
  intros Hv E Eo Ep S1 S2 P M HPP HMM. destruct (kind_add h norm v (pl v) s (HP v Hv) E Eo) as [f [M1 M2 M3 M4 M5]].
  pose proof (wires_2 v s u1 u2 _ _ E Ep M1) as W. unfold wire in W. cbn [fst snd app] in W.
  assert (Ho : x_op s <> OLoad) by congruence. cbv zeta in M4. set (l := ad_lin f) in *. set (b := length (w_neurons (pl_w0 (pl v)))) in *.
  destruct M4 as (E1 & E2 & E3 & E4 & E5 & E6 & E7 & EP & EM & I1 & I2 & I3 & I4).
  pose proof (lcells_at_nth _ _ 0 E6 ltac:(lia)) as C0. pose proof (lcells_at_nth _ _ 1 E6 ltac:(lia)) as C1. cbv zeta in C0, C1.
  assert (X1 : ad_input1_plus f = li_p (lcl (lc_cells l) 0)).
  { rewrite I1, EP. rewrite (nth_indep _ 0%nat (li_p lcell0)) by (rewrite map_length; lia). apply map_nth. }
  assert (X2 : ad_input1_minus f = li_m (lcl (lc_cells l) 0)).
  { rewrite I2, EM. rewrite (nth_indep _ 0%nat (li_m lcell0)) by (rewrite map_length; lia). apply map_nth. }
  assert (X3 : ad_input2_plus f = li_p (lcl (lc_cells l) 1)).
  { rewrite I3, EP. rewrite (nth_indep _ 0%nat (li_p lcell0)) by (rewrite map_length; lia). apply map_nth. }
  assert (X4 : ad_input2_minus f = li_m (lcl (lc_cells l) 1)).
  { rewrite I4, EM. rewrite (nth_indep _ 0%nat (li_m lcell0)) by (rewrite map_length; lia). apply map_nth. }
  rewrite X1, X2, X3, X4 in M1, W. clear X1 X2 X3 X4 I1 I2 I3 I4.
  set (c0 := lcl (lc_cells l) 0) in *. set (c1 := lcl (lc_cells l) 1) in *. nodes_eqs C0. nodes_eqs C1.
  assert (Lr : forall n, (b <= n < b + 52)%nat -> rngv pl v n) by (intros n Hn; unfold rngv; fold b; rewrite M5; exact Hn).
  assert (HI0 : forall c : bool, ins N (lis c c0) [vsyn (outn pl u1 c) (lis c c0)]).
  { intros c. eapply (pn_in _ _ _ _ _ _ _ HN v); eauto.
    - apply Lr. destruct c; cbn [lis]; lia.
    - rewrite M3. replace (lis c c0) with (40 + b + 6 * 0 + (if c then 0 else 1))%nat by (destruct c; cbn [lis]; lia). apply add_inputs; auto. destruct c; lia.
    - rewrite W. destruct c; cbn [lis]; vfilt; reflexivity. }
  assert (HI1 : forall c : bool, ins N (lis c c1) [vsyn (outn pl u2 c) (lis c c1)]).
  { intros c. eapply (pn_in _ _ _ _ _ _ _ HN v); eauto.
    - apply Lr. destruct c; cbn [lis]; lia.
    - rewrite M3. replace (lis c c1) with (40 + b + 6 * 1 + (if c then 0 else 1))%nat by (destruct c; cbn [lis]; lia). apply add_inputs; auto. destruct c; lia.
    - rewrite W. destruct c; cbn [lis]; vfilt; reflexivity. }
  assert (HOW : forall n, (b <= n < b + 52)%nat -> n <> (40 + b)%nat -> n <> (41 + b)%nat -> n <> (46 + b)%nat -> n <> (47 + b)%nat -> own N (lc_syns DefaultEncoder 2 [1; 1] l) n).
  { intros n Hn N1 N2 N3 N4. change (lc_syns DefaultEncoder 2 [1; 1] l) with (lc_syns (DefaultEncoder (T := R)) 2 [nofZ 1; nofZ 1] l). rewrite <- M3.
    eapply (pn_own _ _ _ _ _ _ _ HN v); eauto. rewrite M1. intros i [<-|[<-|[]]]; cbn [fst snd]; lia. }
  destruct (gsteps dt g (pn_dt0 _ _ _ _ _ _ _ HN) (pn_g _ _ _ _ _ _ _ HN)) as (G & G1 & G10 & G100).
  pose proof (pn_dt0 _ _ _ _ _ _ _ HN) as D0. pose proof (pn_dt1 _ _ _ _ _ _ _ HN) as D1.
  assert (HLC : lc_in N (1000 / (10 + 100)) 10 l [1; 1]).
  { change (lc_in N (1000 / (10 + 100)) (Tmin (DefaultEncoder (T := R))) l [1; 1]). rewrite <- (wacc_R 10 100). change (DataEncoder 10 100) with (DefaultEncoder (T := R)). apply (lc_ins_of N (DefaultEncoder (T := R)) [1; 1] l b); auto.
    intros n [Hn|(i & c & Hi & Hc & ->)]; apply HOW; cbn [length] in *; lia. }
  destruct (wire_sig u1 s1 a1 k1 (fun c : bool => lis c c0) S1 HI0) as [A1 A1']. destruct (wire_sig u2 s2 a2 k2 (fun c : bool => lis c c1) S2 HI1) as [A2 A2'].
  cbv beta in A1, A1', A2, A2'.
  replace (a1 + 10 * g + k1 + g)%nat with (a1 + g + 10 * g + k1)%nat in A1 by lia. replace (a2 + 10 * g + k2 + g)%nat with (a2 + g + 10 * g + k2)%nat in A2 by lia.
  pose proof (sg_a _ _ _ _ _ _ _ S1). pose proof (sg_a _ _ _ _ _ _ _ S2).
  destruct (add_grid N l dt 10 100 g (10 * g) k1 k2 (a1 + g) (a2 + g) s1 s2 (pn_dt _ _ _ _ _ _ _ HN) D0 D1 ltac:(lra) (pn_g _ _ _ _ _ _ _ HN) G10 ltac:(lra)
    HLC A1 A1' A2 A2' ltac:(lia) ltac:(lia) HPP HMM) as (CP & CM & CL). fold P M in CP, CM, CL.
  assert (Emx : INR (Nat.max (a1 + g) (a2 + g)) * dt = INR (Nat.max a1 a2) * dt + 1).
  { rewrite Nat.add_max_distr_r, plus_INR, Rmult_plus_distr_r, <- (pn_g _ _ _ _ _ _ _ HN). reflexivity. }
  split; [intros sg k Hsg|intros L1 L2 c; destruct (CL L1 L2); unfold outn; rewrite M2; cbn [fst snd]; destruct c; assumption].
  assert (HF : exists b', fires pl N g v sg b' k /\ INR (b' + 10 * g + k) * dt <= INR (Nat.max a1 a2) * dt + 481).
  { destruct sg; destruct Hsg as [Hc ->].
    - destruct (CP Hc) as (b' & B1 & B2 & B3 & B4). exists b'. split; [|rewrite Emx in B4; lra].
      constructor; auto; unfold outn; rewrite M2; cbn [negb fst snd]; assumption.
    - destruct (CM Hc) as (b' & B1 & B2 & B3 & B4). exists b'. split; [|rewrite Emx in B4; lra].
      constructor; auto; unfold outn; rewrite M2; cbn [negb fst snd]; assumption. }
  destruct HF as (b' & F & T). exists b'. split; auto. split; auto.
  unfold lc_own in E1. nodes_eqs E1. apply (fires_sig v sg b' k s); auto. rewrite M1. intros i Hi c. unfold outn. rewrite M2. cbn [fst snd].
  destruct Hi as [<-|[<-|[]]]; destruct c; cbn [fst snd]; lia.
Qed.

(** SignedMultiplierNormNetwork *)
Lemma mul_inputs m (enc : encoder R) f b n : mu_nodes (sn_mn m) ++ sc_nodes (sn_scmn m) ++ sn_own m = seq b 28 ->
  In n [sn_input1_plus m; sn_input1_minus m; sn_input2_plus m; sn_input2_minus m] -> filter (fun y => (s_post y =? n)%nat) (sn_syns enc f m) = [].
Proof.
  intros HE Hn. unfold mu_nodes, sc_nodes, sn_own in HE. cbn [app] in HE. nodes_eqs HE. apply filter_post_out. intros y Hy.
  assert (b + 18 <= n < b + 22)%nat by (cbn [In] in Hn; clear Hy; intuition lia). clear Hn.
  unfold sn_syns, mu_syns, sc_syns, sign_syns, sout_syns in Hy. cbn [In app] in Hy. posts Hy.
Qed.
Lemma mul_at v s u1 u2 s1 s2 a1 a2 k1 k2 : In v nodes -> nth_error h v = Some s -> x_op s = OMul -> x_prev s = [u1; u2] -> 0 < norm ->
  sig pl N g u1 s1 a1 k1 -> sig pl N g u2 s2 a2 k2 ->
  exists m, mod_mul norm (pl v) m /\ (forall c, outn pl v c = sn_out m c) /\
    sn_at N m s1 s2 dt 10 100 norm (a1 + g) (a1 + g + 10 * g + k1) (a2 + g) (a2 + g + 10 * g + k2) /\
    (forall i, In i (pl_ins (pl v)) -> forall b, fst i <> outn pl v b /\ snd i <> outn pl v b).
Proof.
  intros Hv E Eo Ep Hf S1 S2. destruct (kind_mul h norm v (pl v) s (HP v Hv) E Eo) as [m MM]. pose proof MM as [M1 M2 M3 M4 M5].
  pose proof (wires_2 v s u1 u2 _ _ E Ep M1) as W. unfold wire in W. cbn [fst snd app] in W.
  assert (Ho : x_op s <> OLoad) by congruence. set (b := length (w_neurons (pl_w0 (pl v)))) in *.
  pose proof M4 as M4'. unfold mu_nodes, sc_nodes, sn_own in M4'. cbn [app] in M4'. nodes_eqs M4'.
  assert (Lr : forall n, (b <= n < b + 28)%nat -> rngv pl v n) by (intros n Hn; unfold rngv; fold b; rewrite M5; exact Hn).
  assert (HI1 : forall c : bool, ins N (sn_in1 m c) [vsyn (outn pl u1 c) (sn_in1 m c)]).
  { intros c. eapply (pn_in _ _ _ _ _ _ _ HN v); eauto.
    - apply Lr. destruct c; cbn [sn_in1]; lia.
    - rewrite M3. eapply mul_inputs; eauto. destruct c; cbn; tauto.
    - rewrite W. destruct c; cbn [sn_in1]; vfilt; reflexivity. }
  assert (HI2 : forall c : bool, ins N (sn_in2 m c) [vsyn (outn pl u2 c) (sn_in2 m c)]).
  { intros c. eapply (pn_in _ _ _ _ _ _ _ HN v); eauto.
    - apply Lr. destruct c; cbn [sn_in2]; lia.
    - rewrite M3. eapply mul_inputs; eauto. destruct c; cbn; tauto.
    - rewrite W. destruct c; cbn [sn_in2]; vfilt; reflexivity. }
  assert (HM : sn_ins N (1000 / 100) (1000 / (10 + 100)) 10 norm m).
  { change (sn_ins N (1000 / 100) (1000 / (10 + 100)) (Tmin (DefaultEncoder (T := R))) norm m). rewrite <- (wbar_R 10), <- wacc_R. change (DataEncoder 10 100) with (DefaultEncoder (T := R)). apply (sn_ins_of N (DefaultEncoder (T := R)) norm m b M4). intros n Hn. rewrite <- M3.
    eapply (pn_own _ _ _ _ _ _ _ HN v); eauto.
    - apply Lr. unfold sn_internal, mu_internal, sc_nodes in Hn. cbn [In app] in Hn. intuition lia.
    - rewrite M1. intros i Hi. assert (n < b + 18 \/ b + 22 <= n)%nat by (unfold sn_internal, mu_internal, sc_nodes in Hn; cbn [In app] in Hn; clear Hi; intuition lia).
      destruct Hi as [<-|[<-|[]]]; cbn [fst snd]; lia. }
  destruct (gsteps dt g (pn_dt0 _ _ _ _ _ _ _ HN) (pn_g _ _ _ _ _ _ _ HN)) as (G & G1 & G10 & G100).
  pose proof (pn_dt0 _ _ _ _ _ _ _ HN) as D0. pose proof (pn_dt1 _ _ _ _ _ _ _ HN) as D1.
  destruct (wire_sig u1 s1 a1 k1 (fun c : bool => sn_in1 m c) S1 HI1) as [A1 A1']. destruct (wire_sig u2 s2 a2 k2 (fun c : bool => sn_in2 m c) S2 HI2) as [A2 A2'].
  cbv beta in A1, A1', A2, A2'.
  replace (a1 + 10 * g + k1 + g)%nat with (a1 + g + 10 * g + k1)%nat in A1 by lia. replace (a2 + 10 * g + k2 + g)%nat with (a2 + g + 10 * g + k2)%nat in A2 by lia.
  exists m. split; auto. split; [intros c; unfold outn; rewrite M2; destruct c; reflexivity|]. split.
  - constructor; auto; try lra; try lia. apply (pn_dt _ _ _ _ _ _ _ HN).
  - rewrite M1. intros i Hi c. unfold outn. rewrite M2. destruct Hi as [<-|[<-|[]]]; destruct c; cbn [fst snd]; lia.
Qed.
End Node.
