(** Compiled expressions compute their value (C49): the error of each node, and its soundness. *)
From Coq Require Import Arith ZArith Bool String List Reals Lra Lia Permutation.
From Verif Require Import Num Heapq Elements Simulator Networks Scalar ScalarProofs Compiler Trace SimTrace SimProps TraceProps NeuronLib NetLib Build BuildNets Bridge MemoryProof GeLib GfLib Session SimpleNets InvMem Misc LnLib FuncNets SegLib SubNet ExpLog MulNet MulRun SMem SignMul SignRun SignProd NormNet NormVal NormRun SyncNet LinComb LinRun CompilerProofs E2EAdd E2ELib E2ENode E2ESpec.
Import ListNotations.
Open Scope list_scope.
Open Scope R_scope.

Lemma accurate_data h norm dt v x e tau : heap_wf h -> 0 < norm -> accurate h norm dt v x e tau -> exists s, nth_error h v = Some s /\ x = x_data s / norm.
Proof.
  intros W Hn. induction 1 as [v s E Eo|v s k E Eo|v s u x e tau E Eo Ep _ (su & Eu & ->)|v s u1 u2 x1 e1 tau1 x2 e2 tau2 E Eo Ep _ (s1 & E1 & ->) _ (s2 & E2 & ->)
    |v s u1 u2 x1 e1 tau1 x2 e2 tau2 E Eo Ep _ (s1 & E1 & ->) _ (s2 & E2 & ->)|v s u1 u2 x1 e1 tau1 x2 e2 tau2 E Eo Ep _ (s1 & E1 & ->) _ (s2 & E2 & ->) _ _ Hz|v x e tau e' tau' _ IH]; eauto.
  - exists s. split; auto. specialize (W v s E). unfold node_ok in W. rewrite Eo in W. destruct W as (a & da & Q & _ & (sa & Ea & <-) & ->).
    rewrite Ep in Q. injection Q as <-. rewrite Eu in Ea. injection Ea as <-. cbn. field. lra.
  - exists s. split; auto. specialize (W v s E). unfold node_ok in W. rewrite Eo in W. destruct W as (a & b & da & db & Q & _ & _ & (sa & Ea & <-) & (sb & Eb & <-) & ->).
    rewrite Ep in Q. injection Q as <- <-. rewrite E1 in Ea. injection Ea as <-. rewrite E2 in Eb. injection Eb as <-. cbn. field. lra.
  - exists s. split; auto. specialize (W v s E). unfold node_ok in W. rewrite Eo in W. destruct W as (a & b & da & db & Q & _ & _ & (sa & Ea & <-) & (sb & Eb & <-) & ->).
    rewrite Ep in Q. injection Q as <- <-. rewrite E1 in Ea. injection Ea as <-. rewrite E2 in Eb. injection Eb as <-. cbn. field. lra.
  - exists s. split; auto. specialize (W v s E). unfold node_ok in W. rewrite Eo in W. destruct W as (a & b & da & db & Q & _ & _ & (sa & Ea & <-) & (sb & Eb & <-) & ->).
    rewrite Ep in Q. injection Q as <- <-. rewrite E1 in Ea. injection Ea as <-. rewrite E2 in Eb. injection Eb as <-. cbn.
    assert (Z : forall q, q / norm = 0 -> q = 0) by (intros q Hq; apply Rmult_eq_reg_r with (/ norm); [unfold Rdiv in Hq; lra|apply Rinv_neq_0_compat; lra]).
    destruct Hz as [[Hz _]|[Hz _]]; apply Z in Hz; rewrite Hz; field; lra.
Qed.
(** every Scalar the result depends on has a compiled kind, and inputs are in range *)
Lemma accurate_reach h norm dt v x e tau : heap_wf h -> accurate h norm dt v x e tau -> forall u s, reaches h v u -> nth_error h u = Some s ->
  supported (x_op s) /\ (x_op s = OLoad -> Rabs (x_data s) <= norm).
Proof.
  intros W. assert (HR : forall v s u, nth_error h v = Some s -> reaches h v u -> u = v \/ exists p, In p (x_prev s) /\ reaches h p u).
  { intros v' s' u E R. inversion R as [|a p b HO HR]; subst; [left; auto|right]. destruct HO as (s'' & E' & HI). rewrite E in E'. injection E' as <-. eauto. }
  induction 1 as [v s E Eo Hr|v s k E Eo Hr|v s u x e tau E Eo Ep _ IH|v s u1 u2 x1 e1 tau1 x2 e2 tau2 E Eo Ep _ IH1 _ IH2
    |v s u1 u2 x1 e1 tau1 x2 e2 tau2 E Eo Ep _ IH1 _ IH2|v s u1 u2 x1 e1 tau1 x2 e2 tau2 E Eo Ep _ IH1 _ IH2|v x e tau e' tau' _ IH]; auto; intros u' s' R E'.
  1,2: destruct (HR _ _ _ E R) as [->|(p & HI & _)]; [rewrite E in E'; injection E' as <-; unfold supported; rewrite Eo; auto|].
  1,2: specialize (W v s E); unfold node_ok in W; rewrite Eo in W; rewrite W in HI; destruct HI.
  all: destruct (HR _ _ _ E R) as [->|(p & HI & R')]; [rewrite E in E'; injection E' as <-; unfold supported; rewrite Eo; split; [tauto|discriminate]|].
  all: rewrite Ep in HI; cbn [In] in HI.
  - destruct HI as [<-|[]]. eauto.
  - destruct HI as [<-|[<-|[]]]; eauto.
  - destruct HI as [<-|[<-|[]]]; eauto.
  - destruct HI as [<-|[<-|[]]]; eauto.
Qed.

Lemma pick_val s k dt : let c := sval s (INR k * dt / 100) in 0 < dt ->
  c = (INR (pick s k) * dt - INR (pick (negb s) k) * dt) / 100 /\ INR (pick s k) * dt = 100 * Rmax 0 c /\ INR (pick (negb s) k) * dt = 100 * Rmax 0 (- c).
Proof.
  intros c Hdt. assert (0 <= INR k * dt) by (apply Rmult_le_pos; [apply pos_INR|lra]).
  unfold c. destruct s; cbn [sval pick negb]; change (INR 0) with 0; (split; [lra|]).
  - rewrite Rmax_right, Rmax_left; lra.
  - rewrite Rmax_left, Rmax_right; lra.
Qed.
Lemma sval_mul s1 s2 a b : sval s1 a * sval s2 b = sval (Bool.eqb s1 s2) (a * b).
Proof. destruct s1, s2; cbn; lra. Qed.
Lemma sval_err s a b : Rabs (sval s a - sval s b) = Rabs (a - b).
Proof. destruct s; cbn [sval]; auto. replace (- a - - b) with (- (a - b)) by lra. apply Rabs_Ropp. Qed.

Lemma rmax_lip x y e : Rabs (x - y) <= e -> Rmax 0 x <= Rmax 0 y + e /\ Rmax 0 (- x) <= Rmax 0 (- y) + e.
Proof. intros H. apply Rabs_le_btw in H. unfold Rmax. repeat destruct (Rle_dec _ _); lra. Qed.
Lemma prod_err x1 x2 c1 c2 e1 e2 : Rabs (c1 - x1) <= e1 -> Rabs (c2 - x2) <= e2 -> Rabs (c1 * c2 - x1 * x2) <= Rabs x1 * e2 + Rabs x2 * e1 + e1 * e2.
Proof.
  intros H1 H2. replace (c1 * c2 - x1 * x2) with (x1 * (c2 - x2) + x2 * (c1 - x1) + (c1 - x1) * (c2 - x2)) by ring.
  pose proof (Rabs_pos (c1 - x1)). pose proof (Rabs_pos (c2 - x2)).
  eapply Rle_trans; [apply Rabs_triang|]. apply Rplus_le_compat.
  - eapply Rle_trans; [apply Rabs_triang|]. rewrite !Rabs_mult. apply Rplus_le_compat; apply Rmult_le_compat_l; auto using Rabs_pos.
  - rewrite Rabs_mult. apply Rmult_le_compat; auto.
Qed.

Section Sound.
Variables (h : list (scalar R)) (norm : R) (nodes : list nat) (pl : nat -> placed) (N : tnet) (dt : R) (g : nat).
Hypothesis HN : plan_net h norm nodes pl N dt g.
Hypothesis HP : forall v, In v nodes -> placed_ok h norm v (pl v).
Hypothesis Hnorm : 0 < norm.
Hypothesis Hclosed : forall v s u, In v nodes -> nth_error h v = Some s -> In u (x_prev s) -> In u nodes.
Definition lsign (s : scalar R) : bool := if Rle_dec 0 (x_data s) then true else false.
Hypothesis Hload : forall v s, In v nodes -> nth_error h v = Some s -> x_op s = OLoad ->
  (forall b, in_syn N (outn pl v b) = [] /\ t_prm N (outn pl v b) = stdp) /\
  ext_of N (outn pl v (lsign s)) = [0; 10 + Rabs (x_data s) / norm * 100] /\ ext_of N (outn pl v (negb (lsign s))) = [].

Definition carries (v : nat) (x e tau : R) : Prop := exists s a k, sig pl N g v s a k /\ Rabs (sval s (INR k * dt / 100) - x) <= e /\ INR (a + 10 * g + k) * dt <= tau /\
  forall sc, nth_error h v = Some sc -> x_op sc <> OLoad -> exists b, a = (b + g)%nat /\ fires pl N g v s b k.

Lemma lsign_val s : x_data s = sval (lsign s) (Rabs (x_data s)).
Proof. unfold lsign. destruct (Rle_dec _ _); cbn [sval]; [rewrite Rabs_right; lra|rewrite Rabs_left; lra]. Qed.
Lemma load_carries v s : In v nodes -> nth_error h v = Some s -> x_op s = OLoad -> Rabs (x_data s) <= norm ->
  carries v (x_data s / norm) (dt / 100) 112 /\ (forall k, Rabs (x_data s) / norm * 100 = INR k * dt -> carries v (x_data s / norm) 0 112).
Proof.
  intros Hv E Eo Hr. destruct (Hload v s Hv E Eo) as (HS & X1 & X0).
  destruct (gsteps dt g (pn_dt0 _ _ _ _ _ _ _ HN) (pn_g _ _ _ _ _ _ _ HN)) as (G & G1 & G10 & G100).
  pose proof (pn_dt0 _ _ _ _ _ _ _ HN) as D0. pose proof (pn_dt1 _ _ _ _ _ _ _ HN) as D1. pose proof (pn_g _ _ _ _ _ _ _ HN) as Eg.
  set (m := Rabs (x_data s) / norm) in *. assert (Hm : 0 <= m <= 1).
  { unfold m. split; [apply Rmult_le_pos; [apply Rabs_pos|left; apply Rinv_0_lt_compat; auto]|]. apply Rmult_le_reg_r with norm; auto. unfold Rdiv. rewrite Rmult_assoc, Rinv_l by lra. lra. }
  assert (Em : x_data s / norm = sval (lsign s) m).
  { rewrite (lsign_val s) at 1. unfold m. destruct (lsign s); cbn [sval]; lra. }
  set (q := step_at dt (1 + m * 100)).
  destruct (step_diff dt 1 (m * 100) D0 ltac:(lra) ltac:(lra)) as (Q1 & Q2 & _). fold q in Q1, Q2. rewrite G1, <- Eg in Q2. rewrite G1 in Q1.
  pose proof (step_at_bounds dt (1 + m * 100) D0 ltac:(lra)) as B. fold q in B.
  assert (A1 : arrs N (outn pl v (lsign s)) 1 [g; (g + 10 * g + (q - g))%nat]).
  { destruct (HS (lsign s)) as [Hi Hq]. pose proof (source_arrs N _ 1 Hi Hq) as A. rewrite X1, (pn_dt _ _ _ _ _ _ _ HN) in A. cbn [map] in A.
    rewrite Rplus_0_l, G1 in A. replace (10 + m * 100 + 1) with (1 + m * 100 + INR (10 * g) * dt) in A by lra. rewrite step_exact in A by lra. fold q in A.
    replace (g + 10 * g + (q - g))%nat with (q + 10 * g)%nat by lia. exact A. }
  assert (A0 : arrs N (outn pl v (negb (lsign s))) 1 []).
  { destruct (HS (negb (lsign s))) as [Hi Hq]. pose proof (source_arrs N _ 1 Hi Hq) as A. rewrite X0 in A. exact A. }
  assert (SG : sig pl N g v (lsign s) g (q - g)) by (constructor; auto).
  assert (T : INR (g + 10 * g + (q - g)) * dt <= 112).
  { replace (g + 10 * g + (q - g))%nat with (q + 10 * g)%nat by lia. rewrite plus_INR, Rmult_plus_distr_r, <- G10. lra. }
  assert (EQ : INR (q - g) * dt = INR q * dt - 1) by (rewrite minus_INR, Rmult_minus_distr_r by auto; lra).
  split; [|intros k Ek]; exists (lsign s), g, (q - g)%nat; (split; [exact SG|split; [|split; [exact T|intros sc Es Ho; rewrite E in Es; injection Es as <-; contradiction]]]).
  - rewrite Em, sval_err, EQ. replace ((INR q * dt - 1) / 100 - m) with ((INR q * dt - 1 - m * 100) / 100) by lra.
    unfold Rdiv. rewrite Rabs_mult, (Rabs_right (/ 100)) by lra. apply Rmult_le_compat_r; lra.
  - rewrite Em, sval_err. assert (Eqk : q = (g + k)%nat) by (unfold q; rewrite Ek, step_exact, G1 by lra; reflexivity).
    replace (q - g)%nat with k by lia. rewrite <- Ek. replace (m * 100 / 100 - m) with 0 by lra. rewrite Rabs_R0. lra.
Qed.
Lemma carries_weaken v x e tau e' tau' : carries v x e tau -> e <= e' -> tau <= tau' -> carries v x e' tau'.
Proof. intros (s & a & k & A & B & C & D) He Ht. exists s, a, k. split; auto. split; [lra|]. split; [lra|]. exact D. Qed.

Lemma neg_carries v s u x e tau : In v nodes -> nth_error h v = Some s -> x_op s = ONeg -> x_prev s = [u] -> carries u x e tau -> carries v (- x) e (tau + 2).
Proof.
  intros Hv E Eo Ep (sg & a & k & A & B & C & _). destruct (node_neg h norm nodes pl N dt g HN HP v s u sg a k Hv E Eo Ep A) as [F S].
  exists (negb sg), (a + g + g)%nat, k. split; [exact S|]. split; [|split; [|intros _ _ _; exists (a + g)%nat; auto]].
  - replace (sval (negb sg) (INR k * dt / 100) - - x) with (- (sval sg (INR k * dt / 100) - x)) by (destruct sg; cbn; lra). rewrite Rabs_Ropp. exact B.
  - replace (a + g + g + 10 * g + k)%nat with (a + 10 * g + k + (g + g))%nat by lia. rewrite plus_INR, Rmult_plus_distr_r, (plus_INR g g), Rmult_plus_distr_r, <- (pn_g _ _ _ _ _ _ _ HN). lra.
Qed.
Lemma arr_first a k : INR a * dt <= INR (a + 10 * g + k) * dt.
Proof. apply Rmult_le_compat_r; [left; apply (pn_dt0 _ _ _ _ _ _ _ HN)|apply le_INR; lia]. Qed.

Lemma add_carries v s u1 u2 x1 e1 tau1 x2 e2 tau2 : In v nodes -> nth_error h v = Some s -> x_op s = OAdd -> x_prev s = [u1; u2] ->
  carries u1 x1 e1 tau1 -> carries u2 x2 e2 tau2 ->
  Rmax 0 x1 + Rmax 0 x2 + (e1 + e2) <= 1 -> Rmax 0 (- x1) + Rmax 0 (- x2) + (e1 + e2) <= 1 ->
  e1 + e2 <= x1 + x2 \/ x1 + x2 <= - (e1 + e2) - (1 / 100 + 2 * dt) / 100 -> carries v (x1 + x2) (e1 + e2) (Rmax tau1 tau2 + 482).
Proof.
  intros Hv E Eo Ep (s1 & a1 & k1 & A1 & B1 & C1 & _) (s2 & a2 & k2 & A2 & B2 & C2 & _) HPp HMm Hsgn.
  pose proof (pn_dt0 _ _ _ _ _ _ _ HN) as D0. pose proof (pn_g _ _ _ _ _ _ _ HN) as Eg.
  destruct (pick_val s1 k1 dt D0) as (V1 & P1 & M1). destruct (pick_val s2 k2 dt D0) as (V2 & P2 & M2).
  set (c1 := sval s1 (INR k1 * dt / 100)) in *. set (c2 := sval s2 (INR k2 * dt / 100)) in *.
  destruct (rmax_lip _ _ _ B1) as [L1 L1']. destruct (rmax_lip _ _ _ B2) as [L2 L2'].
  pose proof (node_add h norm nodes pl N dt g HN HP v s u1 u2 s1 s2 a1 a2 k1 k2 Hv E Eo Ep A1 A2) as H. cbv zeta in H.
  set (P := (pick s1 k1 + pick s2 k2)%nat) in *. set (M := (pick (negb s1) k1 + pick (negb s2) k2)%nat) in *.
  assert (EP : INR P * dt = INR (pick s1 k1) * dt + INR (pick s2 k2) * dt) by (unfold P; rewrite plus_INR; ring).
  assert (EM : INR M * dt = INR (pick (negb s1) k1) * dt + INR (pick (negb s2) k2) * dt) by (unfold M; rewrite plus_INR; ring).
  specialize (H ltac:(lra) ltac:(lra)).
  assert (EC : INR P * dt - INR M * dt = 100 * (c1 + c2)) by lra.
  assert (B12 : Rabs (c1 + c2 - (x1 + x2)) <= e1 + e2).
  { replace (c1 + c2 - (x1 + x2)) with ((c1 - x1) + (c2 - x2)) by ring. eapply Rle_trans; [apply Rabs_triang|lra]. }
  pose proof (Rabs_le_btw _ _ B12) as B12'.
  assert (HK : exists (sg : bool) (k : nat), (if sg then (M <= P)%nat /\ k = (P - M)%nat else 1 / 100 + 2 * dt <= INR M * dt - INR P * dt /\ k = (M - P)%nat) /\ sval sg (INR k * dt / 100) = c1 + c2).
  { destruct Hsgn as [Hs|Hs].
    - assert (M <= P)%nat by (apply INR_le, Rmult_le_reg_r with dt; auto; lra).
      exists true, (P - M)%nat. split; [split; auto|]. cbn [sval]. rewrite minus_INR, Rmult_minus_distr_r by auto. lra.
    - assert (1 / 100 + 2 * dt <= INR M * dt - INR P * dt) by lra.
      assert (P <= M)%nat by (apply INR_le, Rmult_le_reg_r with dt; auto; lra).
      exists false, (M - P)%nat. split; [split; auto|]. cbn [sval]. rewrite minus_INR, Rmult_minus_distr_r by auto. lra. }
  destruct HK as (sg & k & Hc & Hk). destruct (proj1 H sg k Hc) as (b & F & S & T). exists sg, (b + g)%nat, k. split; [exact S|]. split; [rewrite Hk; exact B12|]. split; [|intros _ _ _; exists b; auto].
  replace (b + g + 10 * g + k)%nat with (b + 10 * g + k + g)%nat by lia. rewrite plus_INR, Rmult_plus_distr_r, <- Eg.
  assert (INR (Nat.max a1 a2) * dt <= Rmax tau1 tau2); [|lra].
  apply max_time; auto. pose proof (arr_first a1 k1). pose proof (arr_first a2 k2). pose proof (Rmax_l tau1 tau2). pose proof (Rmax_r tau1 tau2). lra.
Qed.

(** a tiny negative sum: silence *)
Lemma add_silent v s u1 u2 x1 e1 tau1 x2 e2 tau2 : In v nodes -> nth_error h v = Some s -> x_op s = OAdd -> x_prev s = [u1; u2] ->
  carries u1 x1 e1 tau1 -> carries u2 x2 e2 tau2 ->
  Rmax 0 x1 + Rmax 0 x2 + (e1 + e2) <= 1 -> Rmax 0 (- x1) + Rmax 0 (- x2) + (e1 + e2) <= 1 ->
  e1 + e2 + dt / 100 <= - (x1 + x2) -> - (x1 + x2) + (e1 + e2) + 2 * dt / 100 <= 1 / 100 / 100 -> forall c, spikes_at N (outn pl v c) [].
Proof.
  intros Hv E Eo Ep (s1 & a1 & k1 & A1 & B1 & C1 & _) (s2 & a2 & k2 & A2 & B2 & C2 & _) HPp HMm Hs1 Hs2.
  pose proof (pn_dt0 _ _ _ _ _ _ _ HN) as D0. pose proof (pn_g _ _ _ _ _ _ _ HN) as Eg.
  destruct (pick_val s1 k1 dt D0) as (V1 & P1 & M1). destruct (pick_val s2 k2 dt D0) as (V2 & P2 & M2).
  set (c1 := sval s1 (INR k1 * dt / 100)) in *. set (c2 := sval s2 (INR k2 * dt / 100)) in *.
  destruct (rmax_lip _ _ _ B1) as [L1 L1']. destruct (rmax_lip _ _ _ B2) as [L2 L2'].
  pose proof (node_add h norm nodes pl N dt g HN HP v s u1 u2 s1 s2 a1 a2 k1 k2 Hv E Eo Ep A1 A2) as H. cbv zeta in H.
  set (P := (pick s1 k1 + pick s2 k2)%nat) in *. set (M := (pick (negb s1) k1 + pick (negb s2) k2)%nat) in *.
  assert (EP : INR P * dt = INR (pick s1 k1) * dt + INR (pick s2 k2) * dt) by (unfold P; rewrite plus_INR; ring).
  assert (EM : INR M * dt = INR (pick (negb s1) k1) * dt + INR (pick (negb s2) k2) * dt) by (unfold M; rewrite plus_INR; ring).
  specialize (H ltac:(lra) ltac:(lra)).
  assert (B12 : Rabs (c1 + c2 - (x1 + x2)) <= e1 + e2).
  { replace (c1 + c2 - (x1 + x2)) with ((c1 - x1) + (c2 - x2)) by ring. eapply Rle_trans; [apply Rabs_triang|lra]. }
  pose proof (Rabs_le_btw _ _ B12) as B12'. apply (proj2 H); lra.
Qed.

(** from two output spikes at least Tmin apart *)
Lemma mul_out v s m sg e1 e2 x e tau : In v nodes -> nth_error h v = Some s -> x_op s = OMul ->
  (forall c, outn pl v c = sn_out m c) -> (forall i, In i (pl_ins (pl v)) -> forall b, fst i <> outn pl v b /\ snd i <> outn pl v b) ->
  spikes_at N (sn_out m sg) [e1; e2] -> spikes_at N (sn_out m (negb sg)) [] -> (1 <= e1)%nat -> INR e1 * dt + 10 <= INR e2 * dt ->
  Rabs (sval sg ((INR e2 * dt - INR e1 * dt - 10) / 100) - x) <= e -> INR e2 * dt + 1 <= tau -> carries v x e tau.
Proof.
  intros Hv E Eo HO HI F1 F2 H1 H2 HE HT. destruct (gsteps dt g (pn_dt0 _ _ _ _ _ _ _ HN) (pn_g _ _ _ _ _ _ _ HN)) as (G & G1 & G10 & G100).
  pose proof (pn_dt0 _ _ _ _ _ _ _ HN) as D0. pose proof (pn_g _ _ _ _ _ _ _ HN) as Eg.
  assert (Hk : (e1 + 10 * g <= e2)%nat). { apply INR_le, Rmult_le_reg_r with dt; auto. rewrite plus_INR, Rmult_plus_distr_r. lra. }
  set (k := (e2 - e1 - 10 * g)%nat). assert (E2 : e2 = (e1 + 10 * g + k)%nat) by (unfold k; lia).
  assert (HF : fires pl N g v sg e1 k) by (constructor; auto; rewrite HO, ?HO, <- ?E2; auto).
  exists sg, (e1 + g)%nat, k. split; [eapply fires_sig; eauto; congruence|].
  assert (Ek : INR k * dt = INR e2 * dt - INR e1 * dt - 10) by (rewrite E2, !plus_INR, !Rmult_plus_distr_r, <- G10; lra).
  split; [rewrite Ek; exact HE|]. split; [|intros _ _ _; exists e1; auto].
  replace (e1 + g + 10 * g + k)%nat with (e2 + g)%nat by lia. rewrite plus_INR, Rmult_plus_distr_r, <- Eg. exact HT.
Qed.
Lemma aligned10 : aligned dt 10.
Proof. destruct (gsteps dt g (pn_dt0 _ _ _ _ _ _ _ HN) (pn_g _ _ _ _ _ _ _ HN)) as (G & G1 & G10 & G100). exists g, (10 * g)%nat. split; auto. apply (pn_g _ _ _ _ _ _ _ HN). Qed.
Lemma mul_facts a k s x e tau : Rabs (sval s (INR k * dt / 100) - x) <= e -> INR (a + 10 * g + k) * dt <= tau ->
  INR (a + g + 10 * g + k) * dt - INR (a + g) * dt = 10 + INR k * dt / 100 * 100 /\ 0 <= INR k * dt / 100 /\ Rabs x - e <= INR k * dt / 100 <= Rabs x + e /\
  INR (a + g + 10 * g + k) * dt <= tau + 1.
Proof.
  intros HB HT. destruct (gsteps dt g (pn_dt0 _ _ _ _ _ _ _ HN) (pn_g _ _ _ _ _ _ _ HN)) as (G & G1 & G10 & G100). pose proof (pn_dt0 _ _ _ _ _ _ _ HN) as D0. pose proof (pn_g _ _ _ _ _ _ _ HN) as Eg.
  assert (0 <= INR k * dt) by (apply Rmult_le_pos; [apply pos_INR|lra]). split; [rewrite !plus_INR, !Rmult_plus_distr_r, <- G10; lra|]. split; [lra|]. split.
  - set (c := sval s (INR k * dt / 100)) in *. assert (Ec : INR k * dt / 100 = Rabs c) by (unfold c; rewrite sval_abs; lra). rewrite Ec.
    pose proof (Rabs_triang_inv c x). pose proof (Rabs_triang_inv x c). rewrite (Rabs_minus_sym x c) in *. lra.
  - replace (a + g + 10 * g + k)%nat with (a + 10 * g + k + g)%nat by lia. rewrite plus_INR, Rmult_plus_distr_r, <- Eg. lra.
Qed.
Lemma mul_carries v s u1 u2 x1 e1 tau1 x2 e2 tau2 : In v nodes -> nth_error h v = Some s -> x_op s = OMul -> x_prev s = [u1; u2] ->
  carries u1 x1 e1 tau1 -> carries u2 x2 e2 tau2 ->
  0 < Rabs x1 - e1 -> Rabs x1 + e1 < 1 -> 0 < Rabs x2 - e2 -> Rabs x2 + e2 < 1 -> exp (- 16) <= (Rabs x1 - e1) * (Rabs x2 - e2) ->
  (Rabs x1 + e1) * (Rabs x2 + e2) * 100 + 11 * dt <= 100 -> norm * ((Rabs x1 + e1) * (Rabs x2 + e2) * 100 + 11 * dt) <= 100 -> (3 + 3 * norm) * dt <= 10 ->
  carries v (norm * (x1 * x2)) (norm * (Rabs x1 * e2 + Rabs x2 * e1 + e1 * e2) + ((2 + 4 * norm) * dt + norm * dt * 10) / 100) (Rmax tau1 tau2 + 474 + 110 / norm).
Proof.
  intros Hv E Eo Ep (s1 & a1 & k1 & A1 & B1 & C1 & _) (s2 & a2 & k2 & A2 & B2 & C2 & _) R1 R1' R2 R2' HX HM HF H3.
  destruct (mul_at h norm nodes pl N dt g HN HP v s u1 u2 s1 s2 a1 a2 k1 k2 Hv E Eo Ep Hnorm A1 A2) as (m & MM & HO & HA & HI).
  pose proof (pn_dt0 _ _ _ _ _ _ _ HN) as D0. pose proof (pn_dt1 _ _ _ _ _ _ _ HN) as D1.
  destruct (mul_facts a1 k1 s1 x1 e1 tau1 B1 C1) as (I1 & P1 & Q1 & T1). destruct (mul_facts a2 k2 s2 x2 e2 tau2 B2 C2) as (I2 & P2 & Q2 & T2).
  set (m1 := INR k1 * dt / 100) in *. set (m2 := INR k2 * dt / 100) in *.
  assert (Hlo : (Rabs x1 - e1) * (Rabs x2 - e2) <= m1 * m2) by (apply Rmult_le_compat; lra).
  assert (Hhi : m1 * m2 <= (Rabs x1 + e1) * (Rabs x2 + e2)) by (apply Rmult_le_compat; lra).
  set (U := (Rabs x1 + e1) * (Rabs x2 + e2)) in *. assert (Hmm : 0 < m1 * m2) by (apply Rmult_lt_0_compat; lra).
  destruct (ln_prod_bound m1 m2 16 ltac:(lra) ltac:(lra) ltac:(exact (Rle_trans _ _ _ HX Hlo))) as [LB _].
  assert (Hnu : norm * (m1 * m2) <= norm * U) by (apply Rmult_le_compat_l; lra).
  assert (Hnm : 0 < norm * (m1 * m2)) by (apply Rmult_lt_0_compat; auto).
  assert (Hnd : 0 < norm * dt) by (apply Rmult_lt_0_compat; auto).
  assert (HF' : norm * U * 100 + 11 * (norm * dt) <= 100) by lra.
  destruct (sn_value_grid N m s1 s2 dt 10 100 norm _ _ _ _ m1 m2 HA aligned10 ltac:(lra) ltac:(lra) ltac:(lra) I1 I2 LB ltac:(lra) ltac:(lra) H3) as (o1 & o2 & F1 & F0 & Ho & TT & EE & GG).
  assert (HMX : INR (Nat.max (a1 + g + 10 * g + k1) (a2 + g + 10 * g + k2)) * dt <= Rmax tau1 tau2 + 1).
  { apply max_time; auto. pose proof (Rmax_l tau1 tau2). pose proof (Rmax_r tau1 tau2). lra. }
  pose proof (Rabs_le_btw _ _ EE) as EB.
  eapply (mul_out v s m (Bool.eqb s1 s2) o1 o2); eauto; [lia| |].
  - set (q := (INR o2 * dt - INR o1 * dt - 10) / 100).
    assert (Hq : Rabs (q - norm * (m1 * m2)) <= ((2 + 4 * norm) * dt + norm * dt * 10) / 100).
    { unfold q. apply Rabs_le; lra. }
    pose proof (prod_err x1 x2 _ _ e1 e2 B1 B2) as PE. rewrite sval_mul in PE. fold m1 m2 in PE.
    set (sg := Bool.eqb s1 s2) in *.
    replace (sval sg q - norm * (x1 * x2)) with ((sval sg q - sval sg (norm * (m1 * m2))) + norm * (sval sg (m1 * m2) - x1 * x2)) by (destruct sg; cbn; ring).
    eapply Rle_trans; [apply Rabs_triang|]. rewrite sval_err, Rabs_mult, (Rabs_right norm) by lra.
    apply Rmult_le_compat_l with (r := norm) in PE; lra.
  - lra.
Qed.
Lemma mul_zero_carries v s u1 u2 x1 e1 tau1 x2 e2 tau2 : In v nodes -> nth_error h v = Some s -> x_op s = OMul -> x_prev s = [u1; u2] ->
  carries u1 x1 e1 tau1 -> carries u2 x2 e2 tau2 -> Rabs x1 + e1 < 1 -> Rabs x2 + e2 < 1 -> x1 = 0 /\ e1 = 0 \/ x2 = 0 /\ e2 = 0 -> (3 + 3 * norm) * dt <= 10 ->
  carries v 0 ((2 + 3 * norm) * dt / 100) (Rmax tau1 tau2 + 474 + 110 / norm).
Proof.
  intros Hv E Eo Ep (s1 & a1 & k1 & A1 & B1 & C1 & _) (s2 & a2 & k2 & A2 & B2 & C2 & _) R1 R2 Hz H3.
  destruct (mul_at h norm nodes pl N dt g HN HP v s u1 u2 s1 s2 a1 a2 k1 k2 Hv E Eo Ep Hnorm A1 A2) as (m & MM & HO & HA & HI).
  pose proof (pn_dt0 _ _ _ _ _ _ _ HN) as D0. pose proof (pn_dt1 _ _ _ _ _ _ _ HN) as D1.
  destruct (mul_facts a1 k1 s1 x1 e1 tau1 B1 C1) as (I1 & P1 & Q1 & T1). destruct (mul_facts a2 k2 s2 x2 e2 tau2 B2 C2) as (I2 & P2 & Q2 & T2).
  set (m1 := INR k1 * dt / 100) in *. set (m2 := INR k2 * dt / 100) in *.
  assert (HZ : m1 * 100 = 0 \/ m2 * 100 = 0).
  { destruct Hz as [[-> ->]|[-> ->]]; rewrite Rabs_R0 in *; [left|right]; lra. }
  destruct (sn_zero N m s1 s2 dt 10 100 norm _ _ _ _ (m1 * 100) (m2 * 100) HA aligned10 ltac:(lra) I1 I2 ltac:(lra) ltac:(lra) HZ H3) as (o1 & o2 & F1 & F0 & Ho & TT & EE & GG).
  assert (HMX : INR (Nat.max (a1 + g + 10 * g + k1) (a2 + g + 10 * g + k2)) * dt <= Rmax tau1 tau2 + 1).
  { apply max_time; auto. pose proof (Rmax_l tau1 tau2). pose proof (Rmax_r tau1 tau2). lra. }
  pose proof (Rabs_le_btw _ _ EE) as EB.
  assert (Hnd : 0 < norm * dt) by (apply Rmult_lt_0_compat; auto).
  eapply (mul_out v s m (Bool.eqb s1 s2) o1 o2); eauto; [lia| |lra].
  rewrite Rminus_0_r, sval_abs by lra. lra.
Qed.

Theorem accurate_carries v x e tau : accurate h norm dt v x e tau -> In v nodes -> carries v x e tau.
Proof.
  induction 1 as [v s E Eo Hr|v s k E Eo Hr Hk|v s u x e tau E Eo Ep _ IH|v s u1 u2 x1 e1 tau1 x2 e2 tau2 E Eo Ep _ IH1 _ IH2
    |v s u1 u2 x1 e1 tau1 x2 e2 tau2 E Eo Ep _ IH1 _ IH2|v s u1 u2 x1 e1 tau1 x2 e2 tau2 E Eo Ep _ IH1 _ IH2|v x e tau e' tau' _ IH He Ht]; intros Hv.
  - apply (load_carries v s); auto.
  - apply (proj2 (load_carries v s Hv E Eo Hr) k Hk).
  - apply (neg_carries v s u); auto. apply IH. apply (Hclosed v s u); auto. rewrite Ep. left; auto.
  - apply (add_carries v s u1 u2 x1 e1 tau1 x2 e2 tau2); auto; [apply IH1|apply IH2]; apply (Hclosed v s _ Hv E); rewrite Ep; cbn; auto.
  - apply (mul_carries v s u1 u2 x1 e1 tau1 x2 e2 tau2); auto; [apply IH1|apply IH2]; apply (Hclosed v s _ Hv E); rewrite Ep; cbn; auto.
  - apply (mul_zero_carries v s u1 u2 x1 e1 tau1 x2 e2 tau2); auto; [apply IH1|apply IH2]; apply (Hclosed v s _ Hv E); rewrite Ep; cbn; auto.
  - eapply carries_weaken; eauto.
Qed.
End Sound.
