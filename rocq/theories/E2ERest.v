(** A compiled plan comes back to rest (C68): every neuron of every node, every synapse. *)
From Coq Require Import Arith ZArith Bool String List Reals Lra Lia Permutation.
From Verif Require Import Num Heapq Elements Simulator Networks Scalar ScalarProofs Compiler Trace SimTrace SimProps TraceProps NeuronLib NetLib Build BuildNets Bridge MemoryProof GeLib GfLib Session SimpleNets InvMem Misc LnLib FuncNets SegLib SubNet ExpLog MulNet MulRun SMem SignMul SignRun SignProd NormNet NormVal NormRun SyncNet LinComb LinRun CompilerProofs E2EAdd E2ELib E2ENode E2ESpec E2ESound Restart MemReuse Reuse Jobs Settle RestFun SubReuse SyncReuse LinReuse LinJobs NormReuse.
Import ListNotations.
Open Scope R_scope.
Open Scope list_scope.

(** a spike arrives *)
Lemma arrs_spk N p d l j : arrs N p d l -> spk N j p = true -> In (j + step_at (t_dt N) d)%nat l.
Proof.
  intros HA HS. destruct j as [|j]; [rewrite spk_0 in HS; discriminate|].
  pose proof (step_at_ge1 (t_dt N) d) as G. specialize (HA (S j + step_at (t_dt N) d)%nat ltac:(lia)). rewrite arr_eq in HA.
  rewrite (proj2 (Nat.ltb_lt _ _)) in HA by lia. replace (S j + step_at (t_dt N) d - step_at (t_dt N) d)%nat with (S j) in HA by lia.
  rewrite HS in HA. cbn [andb] in HA. rewrite plus_INR in HA. change (INR 1) with 1 in HA. pose proof (pos_INR (ext_count N p d (S j + step_at (t_dt N) d))) as P.
  destruct (in_dec Nat.eq_dec (S j + step_at (t_dt N) d)%nat l) as [|Hn]; auto. exfalso.
  rewrite (cnt_nIn _ l Hn) in HA. lra.
Qed.
(** a relay *)
Lemma relay_rest N n src l K : ins N n [vsyn src n] -> arrs N src 1 l -> l = [] \/ (exists a1 a2, l = [a1; a2] /\ (1 <= a1 < a2)%nat /\ (a2 <= K)%nat) ->
  (forall k, (K <= k)%nat -> st N k n = init_nstate (t_prm N n)) /\ (forall j, spk N j n = true -> In j l).
Proof.
  intros H HA HL. assert (HS : strict 0 l) by (destruct HL as [->|(a1 & a2 & -> & ? & _)]; [exact I|cbn; lia]).
  assert (SP : spikes_at N n l) by (eapply (relay N n src 10 1); eauto; lra). split.
  - intros k Hk. destruct HL as [->|(a1 & a2 & -> & ? & ?)].
    + eapply none_settled; [exact H|]. intros y [<-|[]]. exact HA.
    + eapply (ins_settled _ _ _ a2); [exact H|eapply spk_last; [exact SP|right; left; reflexivity]| |lia].
      repeat constructor. cbn [s_pre s_delay vsyn]. eapply over_arrs; [exact HA|]. intros j [<-|[<-|[]]]; lia.
  - intros j Hj. rewrite SP in Hj. apply memb_In in Hj. exact Hj.
Qed.

(** AdderNetwork inside a larger network *)
Lemma add_rest N (l : lin_net) dt tmin tcod (p q k1 k2 a1 a2 K : nat) (s1 s2 : bool) :
  t_dt N = dt -> 0 < dt -> dt < / 50 -> 0 < tcod -> 1 = INR p * dt -> tmin = INR q * dt -> 1 + 3 * dt <= tmin ->
  lc_in N (1000 / (tmin + tcod)) tmin l [1; 1] ->
  arrs N (lis s1 (lcl (lc_cells l) 0)) 1 [a1; (a1 + q + k1)%nat] -> arrs N (lis (negb s1) (lcl (lc_cells l) 0)) 1 [] ->
  arrs N (lis s2 (lcl (lc_cells l) 1)) 1 [a2; (a2 + q + k2)%nat] -> arrs N (lis (negb s2) (lcl (lc_cells l) 1)) 1 [] ->
  (p <= a1)%nat -> (p <= a2)%nat ->
  let P := (pick s1 k1 + pick s2 k2)%nat in let M := (pick (negb s1) k1 + pick (negb s2) k2)%nat in
  INR P * dt <= tcod -> INR M * dt <= tcod -> ((M <= P)%nat \/ 1 / 100 + 2 * dt <= INR M * dt - INR P * dt) ->
  INR (Nat.max a1 a2) * dt + 4 * (tmin + tcod) + 2 * tmin + 20 <= INR K * dt ->
  ins N (lc_start l) [mks (sb_output_plus (lc_sub_net l)) (lc_start l) SynV we cTsyn; mks (sb_output_minus (lc_sub_net l)) (lc_start l) SynV we cTsyn; mks (lc_start l) (lc_start l) SynV wi cTsyn] ->
  (forall i b, (i < 2)%nat -> (forall k, (K <= k)%nat -> st N k (lis b (lcl (lc_cells l) i)) = init_nstate (t_prm N (lis b (lcl (lc_cells l) i)))) /\
    (forall j, spk N j (lis b (lcl (lc_cells l) i)) = true -> (j + step_at dt 1 <= K)%nat)) ->
  (forall n, lr_node l [1; 1] n -> st N K n = init_nstate (t_prm N n)) /\
  (forall enc y j, Tmin enc = tmin -> In y (lc_syns enc 2 [1; 1] l) -> spk N j (s_pre y) = true -> (j + step_at dt (s_delay y) <= K)%nat).
Proof.
  intros HD Hdt0 Hdt1 Htc Ep Eq Htm HL A1 A1' A2 A2' Hp1 Hp2 P M HP HM HDe HKK Hst HSS.
  set (cs := [1; 1]). set (kk := fun i : nat => match i with O => k1 | _ => k2 end). set (ss := fun i : nat => match i with O => s1 | _ => s2 end).
  set (aa := fun i : nat => match i with O => a1 | _ => a2 end).
  set (v := fun i => sval (ss i) (INR (kk i) * dt / tcod)). set (t := fun i => INR (aa i) * dt - 1).
  assert (Haa : forall i, (p <= aa i)%nat) by (intros [|i]; auto).
  assert (Hpos : forall k : nat, 0 <= INR k * dt / tcod).
  { intros. apply Rmult_le_pos; [apply Rmult_le_pos; [apply pos_INR|lra]|left; apply Rinv_0_lt_compat; lra]. }
  assert (Ek : forall k : nat, INR k * dt / tcod * tcod = INR k * dt) by (intros; field; lra).
  assert (Evt : forall i, Rabs (v i) * tcod = INR (kk i) * dt) by (intros i; unfold v; rewrite sval_abs; auto).
  assert (Hp0 : (1 <= p)%nat) by (destruct p; [cbn in Ep; lra|lia]).
  destruct (rmax_pos s1 k1 dt tcod Hdt0 Htc) as [X1 Y1]. destruct (rmax_pos s2 k2 dt tcod Hdt0 Htc) as [X2 Y2].
  assert (DP : dot_pos cs v * tcod = INR P * dt).
  { assert (E : dot_pos cs v = Rmax 0 (1 * v 0%nat) + Rmax 0 (1 * v 1%nat)) by (unfold dot_pos, cs, sumf; cbn; lra). rewrite E. unfold v, ss, kk, P. rewrite plus_INR, !Rmult_plus_distr_r, X1, X2. lra. }
  assert (DN : dot_neg cs v * tcod = INR M * dt).
  { assert (E : dot_neg cs v = Rmax 0 (- (1 * v 0%nat)) + Rmax 0 (- (1 * v 1%nat))) by (unfold dot_neg, cs, sumf; cbn; lra). rewrite E. unfold v, ss, kk, M. rewrite plus_INR, !Rmult_plus_distr_r, Y1, Y2. lra. }
  assert (Hv : forall i, (i < length cs)%nat -> Rabs (v i) <= 1).
  { intros i Hi. apply Rmult_le_reg_r with tcod; auto. rewrite Evt, Rmult_1_l.
    assert (HK : forall k : nat, (k <= P)%nat \/ (k <= M)%nat -> INR k * dt <= tcod).
    { intros k [Hk|Hk]; apply le_INR in Hk; apply Rmult_le_compat_r with (r := dt) in Hk; lra. }
    apply HK. unfold kk, P, M, pick. destruct i, s1, s2; cbn [negb]; lia. }
  set (tl := INR (Nat.max a1 a2) * dt - 1).
  assert (Ht : forall i, (i < length cs)%nat -> 0 <= t i <= tl).
  { intros i _. unfold t, tl. specialize (Haa i). apply le_INR in Haa. apply Rmult_le_compat_r with (r := dt) in Haa; [|lra]. split; [lra|].
    apply Rplus_le_compat_r, Rmult_le_compat_r; [lra|apply le_INR; unfold aa; destruct i; lia]. }
  assert (Eal : forall i, al N t i = aa i).
  { intros i. unfold al, t. rewrite HD. replace (INR (aa i) * dt - 1 + 1) with (INR (aa i) * dt) by ring. specialize (Haa i). apply step_at_grid; auto. lia. }
  assert (Ebe : forall i, be N tmin tcod v t i = (aa i + q + kk i)%nat).
  { intros i. unfold be, t. rewrite HD, Evt, Eq. replace (INR (aa i) * dt - 1 + 1 + (INR q * dt + INR (kk i) * dt)) with (INR (aa i + q + kk i) * dt) by (rewrite !plus_INR; ring).
    specialize (Haa i). apply step_at_grid; auto. lia. }
  assert (Hgap : forall i, (i < length cs)%nat -> Rabs (t_dt N * (INR (be N tmin tcod v t i + step_at (t_dt N) 1) - INR (al N t i + step_at (t_dt N) (1 + tmin))) - Rabs (v i) * tcod) <= 0).
  { intros i Hi. unfold be, al. rewrite HD. destruct (Ht i Hi). apply (gap_grid dt tmin tcod (t i) _ q (kk i)); auto; lra. }
  assert (HIN : forall i, (i < length cs)%nat -> arrs N (lis (ss i) (lcl (lc_cells l) i)) 1 [al N t i; be N tmin tcod v t i]).
  { intros i Hi. rewrite Eal, Ebe. destruct i as [|[|i]]; cbn in Hi; [exact A1|exact A2|lia]. }
  assert (HNO : forall i, (i < length cs)%nat -> arrs N (lis (negb (ss i)) (lcl (lc_cells l) i)) 1 []).
  { intros i Hi. destruct i as [|[|i]]; cbn in Hi; [exact A1'|exact A2'|lia]. }
  assert (Hgv : forall i, (i < length cs)%nat -> sgn_ok (ss i) (v i)) by (intros i _; apply sval_ok; auto).


  assert (RR : (forall p, lr_node l cs p -> st N K p = init_nstate (t_prm N p)) /\
    (forall enc y j, Tmin enc = tmin -> In y (lc_syns enc (length cs) cs l) -> spk N j (s_pre y) = true -> (j + step_at (t_dt N) (s_delay y) <= K)%nat) /\
    (forall i, (i < length cs)%nat -> (al N t i <= K)%nat /\ (be N tmin tcod v t i <= K)%nat)).
  { eapply (lin_run_rest N tmin tcod tl 0 K v t cs) with (gv := ss) (l := l); rewrite ?HD; auto; try exact Hgv; try (rewrite HD in Hgap; exact Hgap); try exact HIN; try exact HNO; try exact HSS; try (cbn; lia); rewrite ?Rmult_0_l, ?DP, ?DN; try lra.
    - unfold tl. lra.
    - destruct HDe as [HDe|HDe]; [left|right; lra]. apply le_INR in HDe. apply Rmult_le_compat_r with (r := dt) in HDe; lra. }
  destruct RR as (RS & QS & _). rewrite HD in QS. split; auto.
Qed.

Section NodeRest.
Variables (h : list (scalar R)) (norm : R) (nodes : list nat) (pl : nat -> placed) (N : tnet) (dt : R) (g : nat).
Hypothesis HN : plan_net h norm nodes pl N dt g.
Hypothesis HP : forall v, In v nodes -> placed_ok h norm v (pl v).
Variable K : nat.
(** every neuron of node v is in its initial state at step K, and nothing it sent inside its module is still on its way *)
Definition settled (v : nat) : Prop :=
  (forall n, rngv pl v n -> st N K n = init_nstate (t_prm N n)) /\
  (forall y j, In y (pl_own (pl v)) -> spk N j (s_pre y) = true -> (j + step_at dt (s_delay y) <= K)%nat).
Ltac vfilt := repeat first [rewrite filt_nil | rewrite filt_ne by (cbn [s_post vsyn fst snd]; lia) | rewrite filt_eq by (cbn [s_post vsyn fst snd]; lia)].

(** the relays behind the output of node u *)
Lemma wire_rest u s a k (n : bool -> nat) : sig pl N g u s a k -> (a + 10 * g + k + 2 * g <= K)%nat -> (forall b, ins N (n b) [vsyn (outn pl u b) (n b)]) ->
  forall b, (forall k, (K <= k)%nat -> st N k (n b) = init_nstate (t_prm N (n b))) /\ (forall j, spk N j (n b) = true -> (j + g <= K)%nat).
Proof.
  intros [S1 S2 S3] HK HI b. destruct (gsteps dt g (pn_dt0 _ _ _ _ _ _ _ HN) (pn_g _ _ _ _ _ _ _ HN)) as (G & _).
  destruct (Bool.eqb_spec b s) as [->|Hne].
  - destruct (relay_rest N (n s) (outn pl u s) _ K (HI s) S1) as [R1 R2]; [right; do 2 eexists; split; [reflexivity|lia]|].
    split; auto. intros j Hj. apply R2 in Hj. cbn [In] in Hj. lia.
  - assert (b = negb s) by (destruct b, s; auto; congruence). subst b.
    destruct (relay_rest N (n (negb s)) (outn pl u (negb s)) _ K (HI _) S2) as [R1 R2]; [left; reflexivity|].
    split; auto. intros j Hj. apply R2 in Hj. destruct Hj.
Qed.

Lemma load_rest v s : In v nodes -> nth_error h v = Some s -> x_op s = OLoad -> (forall b, in_syn N (outn pl v b) = [] /\ t_prm N (outn pl v b) = stdp) -> settled v.
Proof.
  intros Hv E Eo HS. destruct (kind_load h norm v (pl v) s (HP v Hv) E Eo) as [i [M1 M2 M3 M4 M5]].
  split; [|rewrite M3; intros y j []].
  intros n Hn. unfold rngv in Hn. rewrite M5 in Hn. unfold ij_nodes in M4. nodes_eqs M4. unfold outn in HS. rewrite M2 in HS. cbn [fst snd] in HS.
  pose proof (HS true) as [X1 X2]. pose proof (HS false) as [Y1 Y2]. cbv iota in X1, X2, Y1, Y2.
  assert (HC : n = ij_plus i \/ n = ij_minus i) by lia. destruct HC as [-> | ->]; apply src_settled; auto.
Qed.

Lemma neg_rest v s u sg a k : In v nodes -> nth_error h v = Some s -> x_op s = ONeg -> x_prev s = [u] -> sig pl N g u sg a k ->
  (a + 10 * g + k + 2 * g <= K)%nat -> settled v.
Proof.
  intros Hv E Eo Ep HS HK. destruct (kind_neg h norm v (pl v) s (HP v Hv) E Eo) as [f [M1 M2 M3 M4 M5]].
  pose proof (wires_1 h pl v s u _ E Ep M1) as W. unfold wire in W. cbn [fst snd] in W.
  assert (Ho : x_op s <> OLoad) by congruence. set (b := length (w_neurons (pl_w0 (pl v)))) in *.
  unfold sf_nodes in M4. nodes_eqs M4.
  assert (HI : forall c : bool, ins N (if c then sf_inp_plus f else sf_inp_minus f) [vsyn (outn pl u c) (if c then sf_inp_plus f else sf_inp_minus f)]).
  { intros c. eapply (pn_in _ _ _ _ _ _ _ HN v); eauto.
    - unfold rngv. fold b. destruct c; lia.
    - rewrite M3. unfold sf_syns. destruct c; filt; reflexivity.
    - rewrite W. destruct c; vfilt; reflexivity. }
  assert (HO : forall c : bool, ins N (outn pl v c) [vsyn (if c then sf_inp_minus f else sf_inp_plus f) (outn pl v c)]).
  { intros c. replace (vsyn (if c then sf_inp_minus f else sf_inp_plus f) (outn pl v c)) with (mks (if c then sf_inp_minus f else sf_inp_plus f) (outn pl v c) SynV we cTsyn)
      by (rewrite we_R, cTsyn_R; reflexivity).
    unfold outn. rewrite M2. cbn [fst snd]. eapply own_ins; [eapply (pn_own _ _ _ _ _ _ _ HN v); eauto|].
    - unfold rngv. fold b. destruct c; lia.
    - rewrite M1. intros i [<-|[]]. cbn [fst snd]. destruct c; lia.
    - rewrite M3. unfold sf_syns. destruct c; filt; reflexivity. }
  destruct (gsteps dt g (pn_dt0 _ _ _ _ _ _ _ HN) (pn_g _ _ _ _ _ _ _ HN)) as (G & G1 & _).
  pose proof (wire_rest u sg a k (fun c : bool => if c then sf_inp_plus f else sf_inp_minus f) HS HK HI) as RI. cbv beta in RI.
  destruct (wire_sig _ _ _ _ _ _ _ HN u sg a k (fun c : bool => if c then sf_inp_plus f else sf_inp_minus f) HS HI) as [A1 A2]. cbv beta in A1, A2.
  assert (RO : forall c, forall k, (K <= k)%nat -> st N k (outn pl v c) = init_nstate (t_prm N (outn pl v c))).
  { intros c. destruct (Bool.eqb_spec c sg) as [->|Hne].
    - destruct (relay_rest N (outn pl v sg) (if sg then sf_inp_minus f else sf_inp_plus f) [] K (HO sg)) as [R1 _]; auto. destruct sg; exact A2.
    - assert (c = negb sg) by (destruct c, sg; auto; congruence). subst c.
      destruct (relay_rest N (outn pl v (negb sg)) (if negb sg then sf_inp_minus f else sf_inp_plus f) [(a + g)%nat; (a + 10 * g + k + g)%nat] K (HO _)) as [R1 _]; auto.
      + destruct sg; exact A1.
      + pose proof (sg_a _ _ _ _ _ _ _ HS). right. do 2 eexists. split; [reflexivity|lia]. }
  destruct (RI true) as [P1 P2]. destruct (RI false) as [Q1 Q2]. cbv iota in P1, P2, Q1, Q2.
  pose proof (RO true K (le_n _)) as O1. pose proof (RO false K (le_n _)) as O2. unfold outn in O1, O2. rewrite M2 in O1, O2. cbn [fst snd] in O1, O2.
  split.
  - intros n Hn. unfold rngv in Hn. fold b in Hn. rewrite M5 in Hn.
    assert (HC : n = sf_inp_plus f \/ n = sf_inp_minus f \/ n = sf_outp_plus f \/ n = sf_outp_minus f) by lia. destruct HC as [-> |[-> |[-> | ->]]]; auto.
  - intros y j Hy Hs. rewrite M3 in Hy. unfold sf_syns in Hy. cbn [In] in Hy.
    repeat destruct Hy as [<-|Hy]; try destruct Hy; cbn [s_pre s_delay syn mks] in *; autorewrite with netR; rewrite G1; auto.
Qed.

Lemma add_node_rest v s u1 u2 s1 s2 a1 a2 k1 k2 : In v nodes -> nth_error h v = Some s -> x_op s = OAdd -> x_prev s = [u1; u2] ->
  sig pl N g u1 s1 a1 k1 -> sig pl N g u2 s2 a2 k2 ->
  let P := (pick s1 k1 + pick s2 k2)%nat in let M := (pick (negb s1) k1 + pick (negb s2) k2)%nat in
  INR P * dt <= 100 -> INR M * dt <= 100 -> (M <= P)%nat \/ 1 / 100 + 2 * dt <= INR M * dt - INR P * dt ->
  (a1 + 10 * g + k1 + 2 * g <= K)%nat /\ (a2 + 10 * g + k2 + 2 * g <= K)%nat -> INR (Nat.max a1 a2) * dt + 481 <= INR K * dt -> settled v.
Proof.
  intros Hv E Eo Ep S1 S2 P M HPP HMM HDe HK1 HK2. destruct (kind_add h norm v (pl v) s (HP v Hv) E Eo) as [f [M1 M2 M3 M4 M5]].
  pose proof (wires_2 h pl v s u1 u2 _ _ E Ep M1) as W. unfold wire in W. cbn [fst snd app] in W.
  assert (Ho : x_op s <> OLoad) by congruence. cbv zeta in M4. set (l := ad_lin f) in *. set (b := length (w_neurons (pl_w0 (pl v)))) in *.
  destruct M4 as (E1 & E2 & E3 & E4 & E5 & E6 & E7 & EP & EM & I1 & I2 & I3 & I4).
  pose proof (lcells_at_nth _ _ 0 E6 ltac:(lia)) as C0. pose proof (lcells_at_nth _ _ 1 E6 ltac:(lia)) as C1. cbv zeta in C0, C1.
  assert (X1 : ad_input1_plus f = li_p (lcl (lc_cells l) 0)).
  { rewrite I1, EP. rewrite (nth_indep _ 0%nat (li_p lcell0)) by (rewrite map_length; lia). apply map_nth. }
  assert (X2 : ad_input1_minus f = li_m (lcl (lc_cells l) 0)).
  { rewrite I2, EM. rewrite (nth_indep _ 0%nat (li_m lcell0)) by (rewrite map_length; lia). apply map_nth. }
  assert (X3 : ad_input2_plus f = li_p (lcl (lc_cells l) 1)).
  { rewrite I3, EP. rewrite (nth_indep _ 0%nat (li_p lcell0)) by (rewrite map_length; lia). apply map_nth. }
  assert (X4 : ad_input2_minus f = li_m (lcl (lc_cells l) 1)).
  { rewrite I4, EM. rewrite (nth_indep _ 0%nat (li_m lcell0)) by (rewrite map_length; lia). apply map_nth. }
  rewrite X1, X2, X3, X4 in M1, W. clear X1 X2 X3 X4 I1 I2 I3 I4.
  set (c0 := lcl (lc_cells l) 0) in *. set (c1 := lcl (lc_cells l) 1) in *. nodes_eqs C0. nodes_eqs C1.
  assert (Lr : forall n, (b <= n < b + 52)%nat -> rngv pl v n) by (intros n Hn; unfold rngv; fold b; rewrite M5; exact Hn).
  assert (HI0 : forall c : bool, ins N (lis c c0) [vsyn (outn pl u1 c) (lis c c0)]).
  { intros c. eapply (pn_in _ _ _ _ _ _ _ HN v); eauto.
    - apply Lr. destruct c; cbn [lis]; lia.
    - rewrite M3. replace (lis c c0) with (40 + b + 6 * 0 + (if c then 0 else 1))%nat by (destruct c; cbn [lis]; lia). apply add_inputs; auto. destruct c; lia.
    - rewrite W. destruct c; cbn [lis]; vfilt; reflexivity. }
  assert (HI1 : forall c : bool, ins N (lis c c1) [vsyn (outn pl u2 c) (lis c c1)]).
  { intros c. eapply (pn_in _ _ _ _ _ _ _ HN v); eauto.
    - apply Lr. destruct c; cbn [lis]; lia.
    - rewrite M3. replace (lis c c1) with (40 + b + 6 * 1 + (if c then 0 else 1))%nat by (destruct c; cbn [lis]; lia). apply add_inputs; auto. destruct c; lia.
    - rewrite W. destruct c; cbn [lis]; vfilt; reflexivity. }
  assert (HOW : forall n, (b <= n < b + 52)%nat -> n <> (40 + b)%nat -> n <> (41 + b)%nat -> n <> (46 + b)%nat -> n <> (47 + b)%nat -> own N (lc_syns DefaultEncoder 2 [1; 1] l) n).
  { intros n Hn N1 N2 N3 N4. change (lc_syns DefaultEncoder 2 [1; 1] l) with (lc_syns (DefaultEncoder (T := R)) 2 [nofZ 1; nofZ 1] l). rewrite <- M3.
    eapply (pn_own _ _ _ _ _ _ _ HN v); eauto. rewrite M1. intros i [<-|[<-|[]]]; cbn [fst snd]; lia. }
  destruct (gsteps dt g (pn_dt0 _ _ _ _ _ _ _ HN) (pn_g _ _ _ _ _ _ _ HN)) as (G & G1 & G10 & G100).
  pose proof (pn_dt0 _ _ _ _ _ _ _ HN) as D0. pose proof (pn_dt1 _ _ _ _ _ _ _ HN) as D1.
  assert (HLC : lc_in N (1000 / (10 + 100)) 10 l [1; 1]).
  { change (lc_in N (1000 / (10 + 100)) (Tmin (DefaultEncoder (T := R))) l [1; 1]). rewrite <- (wacc_R 10 100). change (DataEncoder 10 100) with (DefaultEncoder (T := R)). apply (lc_ins_of N (DefaultEncoder (T := R)) [1; 1] l b); auto.
    intros n [Hn|(i & c & Hi & Hc & ->)]; apply HOW; cbn [length] in *; lia. }
  destruct (wire_sig h norm nodes pl N dt g HN u1 s1 a1 k1 (fun c : bool => lis c c0) S1 HI0) as [A1 A1']. destruct (wire_sig h norm nodes pl N dt g HN u2 s2 a2 k2 (fun c : bool => lis c c1) S2 HI1) as [A2 A2'].
  cbv beta in A1, A1', A2, A2'.
  replace (a1 + 10 * g + k1 + g)%nat with (a1 + g + 10 * g + k1)%nat in A1 by lia. replace (a2 + 10 * g + k2 + g)%nat with (a2 + g + 10 * g + k2)%nat in A2 by lia.
  pose proof (sg_a _ _ _ _ _ _ _ S1). pose proof (sg_a _ _ _ _ _ _ _ S2).

  assert (Hst : ins N (lc_start l) [mks (sb_output_plus (lc_sub_net l)) (lc_start l) SynV we cTsyn; mks (sb_output_minus (lc_sub_net l)) (lc_start l) SynV we cTsyn; mks (lc_start l) (lc_start l) SynV wi cTsyn]).
  { apply (lc_start_ins N (DefaultEncoder (T := R)) [1; 1] l b); auto. apply HOW; pose proof E1 as E1'; unfold lc_own in E1'; nodes_eqs E1'; lia. }
  pose proof (wire_rest u1 s1 a1 k1 (fun c : bool => lis c c0) S1 (proj1 HK1) HI0) as RI0. pose proof (wire_rest u2 s2 a2 k2 (fun c : bool => lis c c1) S2 (proj2 HK1) HI1) as RI1. cbv beta in RI0, RI1.
  assert (Emx : INR (Nat.max (a1 + g) (a2 + g)) * dt = INR (Nat.max a1 a2) * dt + 1).
  { rewrite Nat.add_max_distr_r, plus_INR, Rmult_plus_distr_r, <- (pn_g _ _ _ _ _ _ _ HN). reflexivity. }
  destruct (add_rest N l dt 10 100 g (10 * g) k1 k2 (a1 + g) (a2 + g) K s1 s2 (pn_dt _ _ _ _ _ _ _ HN) D0 D1 ltac:(lra) (pn_g _ _ _ _ _ _ _ HN) G10 ltac:(lra)
    HLC A1 A1' A2 A2' ltac:(lia) ltac:(lia) HPP HMM HDe ltac:(lra) Hst) as [RS QS].
  { intros i c Hi. rewrite G1. destruct i as [|[|i]]; [apply RI0|apply RI1|lia]. }
  split.
  - intros q Hq. apply RS. unfold rngv in Hq. fold b in Hq. rewrite M5 in Hq. unfold lr_node.
    pose proof (cells_at_nth _ _ 0 E3 ltac:(lia)) as (D0' & D0m & D0n). pose proof (cells_at_nth _ _ 1 E3 ltac:(lia)) as (D1' & D1m & D1n).
    change (cel (sy_cells (lc_sync_net l)) 0) with (lc_ch l 0) in *. change (cel (sy_cells (lc_sync_net l)) 1) with (lc_ch l 1) in *.
    destruct (Nat.lt_ge_cases q (10 + b)) as [H'|H'1]; [left; rewrite E1; apply in_seq; lia|right].
    destruct (Nat.eq_dec q (10 + b)) as [H'|H'2]; [left; lia|right].
    destruct (Nat.lt_ge_cases q (31 + b)) as [H'|H'3]; [left|right].
    { destruct (Nat.lt_ge_cases q (21 + b)) as [H''|H''].
      - exists true. cbn [ix]. rewrite D0', D0m, D0n. destruct (Nat.eq_dec q (11 + b)) as [->|]; [left; lia|right].
        cbn [In]. destruct (Nat.eq_dec q (12 + b)); [left; lia|right]. apply in_seq. lia.
      - exists false. cbn [ix]. rewrite D1', D1m, D1n. destruct (Nat.eq_dec q (21 + b)) as [->|]; [left; lia|right].
        cbn [In]. destruct (Nat.eq_dec q (22 + b)); [left; lia|right]. apply in_seq. lia. }
    destruct (Nat.lt_ge_cases q (33 + b)) as [H'|H'4]; [left|right].
    { pose proof E5 as E5'. unfold sb_nodes in E5'. nodes_eqs E5'. destruct (Nat.eq_dec q (31 + b)) as [->|]; [exists true|exists false]; cbn [sbi]; lia. }
    destruct (Nat.lt_ge_cases q (40 + b)) as [H'|H'5]; [left|right].
    { pose proof E5 as E5'. unfold sb_nodes in E5'. nodes_eqs E5'. unfold sb_internal. cbn [In]. lia. }
    fold c0. fold c1.
    assert (HC : (q = 40 + b \/ q = 41 + b \/ q = 42 + b \/ q = 43 + b \/ q = 44 + b \/ q = 45 + b \/ q = 46 + b \/ q = 47 + b \/ q = 48 + b \/ q = 49 + b \/ q = 50 + b \/ q = 51 + b)%nat) by lia.
    destruct HC as [HC|[HC|[HC|[HC|[HC|[HC|[HC|[HC|[HC|[HC|[HC|HC]]]]]]]]]]];
      [exists 0%nat, true; split; [cbn; lia|left]|exists 0%nat, false; split; [cbn; lia|left]|exists 0%nat, true; split; [cbn; lia|right; left]
      |exists 0%nat, false; split; [cbn; lia|right; left]|exists 0%nat, true; split; [cbn; lia|right; right]|exists 0%nat, false; split; [cbn; lia|right; right]
      |exists 1%nat, true; split; [cbn; lia|left]|exists 1%nat, false; split; [cbn; lia|left]|exists 1%nat, true; split; [cbn; lia|right; left]
      |exists 1%nat, false; split; [cbn; lia|right; left]|exists 1%nat, true; split; [cbn; lia|right; right]|exists 1%nat, false; split; [cbn; lia|right; right]];
      change (lcl (lc_cells l) 0) with c0; change (lcl (lc_cells l) 1) with c1; cbn [lis lfs lls]; lia.
  - intros y j Hy Hs. rewrite M3 in Hy. apply (QS (DefaultEncoder (T := R)) y j ltac:(exact_no_check (@eq_refl R 10)) Hy Hs).
Qed.

Lemma mul_in_at v s u1 u2 m : In v nodes -> nth_error h v = Some s -> x_op s = OMul -> x_prev s = [u1; u2] -> mod_mul norm (pl v) m ->
  (forall c : bool, ins N (sn_in1 m c) [vsyn (outn pl u1 c) (sn_in1 m c)]) /\ (forall c : bool, ins N (sn_in2 m c) [vsyn (outn pl u2 c) (sn_in2 m c)]).
Proof.
  intros Hv E Eo Ep [M1 M2 M3 M4 M5].
  pose proof (wires_2 h pl v s u1 u2 _ _ E Ep M1) as W. unfold wire in W. cbn [fst snd app] in W.
  assert (Ho : x_op s <> OLoad) by congruence. set (b := length (w_neurons (pl_w0 (pl v)))) in *.
  pose proof M4 as M4'. unfold mu_nodes, sc_nodes, sn_own in M4'. cbn [app] in M4'. nodes_eqs M4'.
  assert (Lr : forall n, (b <= n < b + 28)%nat -> rngv pl v n) by (intros n Hn; unfold rngv; fold b; rewrite M5; exact Hn).
  split; intros c; eapply (pn_in _ _ _ _ _ _ _ HN v); eauto.
  - apply Lr. destruct c; cbn [sn_in1]; lia.
  - rewrite M3. eapply mul_inputs; eauto. destruct c; cbn; tauto.
  - rewrite W. destruct c; cbn [sn_in1]; vfilt; reflexivity.
  - apply Lr. destruct c; cbn [sn_in2]; lia.
  - rewrite M3. eapply mul_inputs; eauto. destruct c; cbn; tauto.
  - rewrite W. destruct c; cbn [sn_in2]; vfilt; reflexivity.
Qed.
Lemma mul_node_rest v s u1 u2 s1 s2 a1 a2 k1 k2 x1 x2 : In v nodes -> nth_error h v = Some s -> x_op s = OMul -> x_prev s = [u1; u2] -> 0 < norm ->
  sig pl N g u1 s1 a1 k1 -> sig pl N g u2 s2 a2 k2 -> x1 * 100 = INR k1 * dt -> x2 * 100 = INR k2 * dt ->
  4 * dt <= x1 * 100 <= 100 - 2 * dt -> 4 * dt <= x2 * 100 <= 100 - 2 * dt -> - ln x1 + - ln x2 <= 14 ->
  10 * dt + dt / 10 * 100 <= x1 * x2 * 100 -> x1 * x2 * 100 + 7 * dt + dt / 10 * 100 <= 100 ->
  norm * (x1 * x2 * 100 + 7 * dt + dt / 10 * 100) <= 100 -> (3 + 3 * norm) * dt <= 10 ->
  (a1 + 10 * g + k1 + 2 * g <= K)%nat /\ (a2 + 10 * g + k2 + 2 * g <= K)%nat ->
  INR (Nat.max (a1 + g + 10 * g + k1) (a2 + g + 10 * g + k2)) * dt + 352 + 4 * 10 + 3 * 100 + (10 + 100) / norm <= INR K * dt -> settled v.
Proof.
  intros Hv E Eo Ep Hf S1 S2 X1 X2 R1 R2 HL HA1 HA2 HA3 HA4 HK1 HK.
  destruct (mul_at h norm nodes pl N dt g HN HP v s u1 u2 s1 s2 a1 a2 k1 k2 Hv E Eo Ep Hf S1 S2) as (m & MM & _ & SA & _).
  destruct (mul_in_at v s u1 u2 m Hv E Eo Ep MM) as [HI1 HI2].
  pose proof (wire_rest u1 s1 a1 k1 (fun c => sn_in1 m c) S1 (proj1 HK1) HI1) as RI1. pose proof (wire_rest u2 s2 a2 k2 (fun c => sn_in2 m c) S2 (proj2 HK1) HI2) as RI2. cbv beta in RI1, RI2.
  destruct (gsteps dt g (pn_dt0 _ _ _ _ _ _ _ HN) (pn_g _ _ _ _ _ _ _ HN)) as (G & G1 & G10 & G100).
  pose proof (pn_dt0 _ _ _ _ _ _ _ HN) as D0.
  assert (GP : forall a k, INR (a + g + 10 * g + k) * dt - INR (a + g) * dt - (10 + INR k * dt) = 0) by (intros a k; rewrite !plus_INR, !Rmult_plus_distr_r, <- G10; lra).
  destruct (sn_settle N m s1 s2 dt 10 100 norm _ _ _ _ x1 x2 K SA ltac:(lra) ltac:(lra) ltac:(lra) R1 R2) as [RS QS]; auto.
  { rewrite X1, GP, Rabs_R0. exact D0. }
  { rewrite X2, GP, Rabs_R0. exact D0. }
  destruct MM as [M1 M2 M3 M4 M5]. split.
  - intros n Hn. unfold rngv in Hn. rewrite M5 in Hn. assert (HIn : In n (seq (length (w_neurons (pl_w0 (pl v)))) 28)) by (apply in_seq; exact Hn).
    rewrite <- M4 in HIn. apply in_app_or in HIn as [HIn|HIn]; [apply RS, in_or_app; auto|].
    apply in_app_or in HIn as [HIn|HIn]; [apply RS, in_or_app; right; apply in_or_app; auto|].
    unfold sn_own in HIn. cbn [In] in HIn.
    destruct HIn as [<-|[<-|[<-|[<-|HIn]]]]; [apply (RI1 true); auto|apply (RI1 false); auto|apply (RI2 true); auto|apply (RI2 false); auto|].
    apply RS, in_or_app; right; apply in_or_app; right. cbn [In]. tauto.
  - intros y j Hy Hs. rewrite M3 in Hy. change (DefaultEncoder (T := R)) with (DataEncoder (T := R) 10 100) in Hy. rewrite G1 in QS.
    apply (QS y j Hy Hs); intros b Hb; [apply (proj2 (RI1 b) j Hb)|apply (proj2 (RI2 b) j Hb)].
Qed.
End NodeRest.
