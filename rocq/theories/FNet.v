(** Networks run in binary64: neuron dynamics and event arrival times of a whole simulation,
    as correctly rounded real arithmetic (built on the step-by-step semantics of GTrace.v
    and on F64.v). *)
From Coq Require Import Arith ZArith Bool List Reals Lra Lia Permutation.
From Flocq Require Import Core BinarySingleNaN PrimFloat.
From Coq Require Import Floats Uint63.
From Verif Require Import Num NumOrd Elements Simulator Networks Trace SimTrace AnySim F64 F64Thms GTrace TraceProps NeuronLib NetLib MemoryProof SegLib Build BuildNets Bridge.
Import ListNotations.
Open Scope list_scope.
Open Scope R_scope.

(** ** representable numbers *)
Lemma fmt_scale z e : (Z.abs z < 2 ^ 53)%Z -> (-1074 <= e)%Z -> rnd (IZR z * bpow radix2 e) = IZR z * bpow radix2 e.
Proof.
  intros Hz He. apply round_generic; [typeclasses eauto|].
  apply (generic_format_FLT radix2 (3 - FloatOps.emax - FloatOps.prec) FloatOps.prec).
  exists (Float radix2 z e); cbn; [reflexivity| |exact He].
  change (Z.pow_pos 2 53) with (2 ^ 53)%Z. lia.
Qed.
Lemma fmt_q z : (Z.abs z <= 2 ^ 40)%Z -> rnd (IZR z * (5 / 2)) = IZR z * (5 / 2).
Proof.
  intros Hz. replace (IZR z * (5 / 2)) with (IZR (5 * z) * bpow radix2 (-1)) by (rewrite mult_IZR; cbn; lra).
  apply fmt_scale; lia.
Qed.
Lemma fmt_double x : rnd (2 * FR x) = 2 * FR x.
Proof.
  apply round_generic; [typeclasses eauto|].
  pose proof (FR_format x) as F.
  apply (FLT_format_generic radix2 (3 - FloatOps.emax - FloatOps.prec) FloatOps.prec) in F.
  destruct F as [[m e] E1 E2 E3]. cbn in E2, E3.
  apply (generic_format_FLT radix2 (3 - FloatOps.emax - FloatOps.prec) FloatOps.prec).
  exists (Float radix2 m (e + 1)); cbn; [|exact E2|lia].
  rewrite E1. unfold F2R; cbn [Fnum Fexp]. rewrite bpow_plus. change (bpow radix2 1) with 2. ring.
Qed.
Lemma fmt_double_Z x z : (Z.abs z <= 2)%Z -> rnd (IZR z * FR x) = IZR z * FR x.
Proof.
  intros Hz. assert (z = -2 \/ z = -1 \/ z = 0 \/ z = 1 \/ z = 2)%Z as [->|[->|[->|[->| ->]]]] by lia.
  - replace (-2 * FR x) with (- (2 * FR x)) by ring. rewrite rnd_opp, fmt_double. auto.
  - replace (-1 * FR x) with (- FR x) by ring. rewrite rnd_opp, rnd_FR. auto.
  - rewrite Rmult_0_l. apply rnd_0.
  - rewrite Rmult_1_l. apply rnd_FR.
  - apply fmt_double.
Qed.

(** ** sums of event weights *)
Fixpoint radds (v : R) (ws : list R) (v' : R) : Prop :=
  match ws with [] => v = v' | w :: r => Rabs (v + w) <= big /\ radds (rnd (v + w)) r v' end.
(** whatever the order of the additions, the float sum is v' *)
Definition sums_to (v : R) (ws : list R) (v' : R) : Prop := forall ws', Permutation ws' ws -> radds v ws' v'.
Lemma sums_nil v : sums_to v [] v.
Proof. intros ws' H. apply Permutation_sym, Permutation_nil in H. subst. reflexivity. Qed.
Definition sumZ (l : list Z) : Z := fold_right Z.add 0%Z l.
Definition sumabs (l : list Z) : Z := fold_right (fun z a => (Z.abs z + a)%Z) 0%Z l.
Lemma sumabs_pos l : (0 <= sumabs l)%Z. Proof. unfold sumabs. induction l; cbn; lia. Qed.
Lemma sums_grid u N z zs : (forall z, (Z.abs z <= N)%Z -> rnd (IZR z * u) = IZR z * u /\ Rabs (IZR z * u) <= big) ->
  (Z.abs z + sumabs zs <= N)%Z -> sums_to (IZR z * u) (map (fun z => IZR z * u) zs) (IZR (z + sumZ zs) * u).
Proof.
  intros HG HN ws' HP.
  assert (exists zs', ws' = map (fun z => IZR z * u) zs' /\ Permutation zs' zs) as (zs' & -> & HP').
  { destruct (Permutation_map_inv _ _ HP) as (l & E & P). exists l. split; auto. symmetry; auto. }
  assert (E1 : sumZ zs' = sumZ zs) by (clear -HP'; unfold sumZ; induction HP'; cbn; lia).
  assert (E2 : sumabs zs' = sumabs zs) by (clear -HP'; unfold sumabs; induction HP'; cbn; lia).
  rewrite <- E1. rewrite <- E2 in HN. clear HP HP' E1 E2 zs. revert z HN.
  induction zs' as [|a l IH]; intros z HN; cbn [map radds sumZ fold_right].
  - rewrite Z.add_0_r. reflexivity.
  - cbn [sumabs fold_right] in HN. fold (sumabs l) in HN. pose proof (sumabs_pos l).
    replace (IZR z * u + IZR a * u) with (IZR (z + a) * u) by (rewrite plus_IZR; ring).
    destruct (HG (z + a)%Z ltac:(lia)) as [R1 R2]. split; [exact R2|]. rewrite R1.
    rewrite Z.add_assoc. fold (sumZ l).
    apply IH. lia.
Qed.

(** ** one neuron *)
(** the float state s stands for voltage v and conductance g; gf and gate are zero *)
Record nst (s : nstate float) (v g : R) : Prop := {
  ns_v : fin (V s) /\ FR (V s) = v;
  ns_g : fin (ge s) /\ FR (ge s) = g;
  ns_f : fin (gf s) /\ FR (gf s) = 0;
  ns_a : fin (gate s) /\ FR (gate s) = 0
}.
(** voltage gained in one step: dt * ge / tm, each operation rounded *)
Definition inc (d g : R) : R := rnd (rnd (d * g) / 100).
Lemma inc_0 d : inc d 0 = 0.
Proof. unfold inc. rewrite Rmult_0_r, rnd_0. unfold Rdiv. rewrite Rmult_0_l. apply rnd_0. Qed.
Lemma ofZ_small z : (0 <= z <= 2 ^ 53)%Z -> FR (nofZ z) = IZR z /\ fin (nofZ z).
Proof. apply ofZ_FR. Qed.

Lemma rnd_bound a e : (-1074 <= e)%Z -> Rabs a <= bpow radix2 e -> Rabs (rnd a) <= bpow radix2 e.
Proof. intros He H. apply abs_round_le_generic; [typeclasses eauto|typeclasses eauto|apply bpow_format; auto|exact H]. Qed.
Lemma inc_bound d g e : (-1000 <= e)%Z -> Rabs (d * g) <= bpow radix2 e -> Rabs (inc d g) <= bpow radix2 e.
Proof.
  intros He H. unfold inc. apply rnd_bound; [lia|]. apply (rnd_bound _ e) in H; [|lia].
  unfold Rdiv. rewrite Rabs_mult, (Rabs_right (/ 100)) by lra. pose proof (Rabs_pos (rnd (d * g))). lra.
Qed.
Lemma upd_F dt s v g : fin dt -> 0 <= FR dt <= p2 16 -> nst s v g -> Rabs v <= p2 60 -> Rabs g <= p2 60 ->
  let v2 := rnd (v + inc (FR dt) g) in
  (10 <= v2 -> snd (upd std_params dt s) = true /\ nst (fst (upd std_params dt s)) 0 0) /\
  (v2 < 10 -> snd (upd std_params dt s) = false /\ nst (fst (upd std_params dt s)) v2 g).
Proof.
  intros Hdt Hd [[V1 V2] [G1 G2] [F1 F2] [A1 A2]] Bv Bg v2.
  destruct (ofZ_small 0 ltac:(lia)) as [Z1 Z2].
  destruct (ofZ_small 10 ltac:(lia)) as [T1 T2]. destruct (ofZ_small 100 ltac:(lia)) as [M1 M2].
  destruct (mul_FR (gate s) (gf s) A1 F1) as [P1 P2].
  { rewrite A2, Rmult_0_l, Rabs_R0. apply bpow_ge_0. }
  rewrite A2, Rmult_0_l, rnd_0 in P1.
  destruct (add_FR (ge s) (PrimFloat.mul (gate s) (gf s)) G1 P2) as [Q1 Q2].
  { rewrite P1, Rplus_0_r, G2. eapply Rle_trans; [exact Bg|]. apply p2_big. lia. }
  rewrite P1, Rplus_0_r, rnd_FR, G2 in Q1.
  assert (B1 : Rabs (FR dt * g) <= p2 76).
  { rewrite Rabs_mult, (Rabs_pos_eq (FR dt)) by lra. change 76%Z with (16 + 60)%Z. rewrite bpow_plus.
    apply Rmult_le_compat; try lra. apply Rabs_pos. }
  destruct (mul_FR dt (PrimFloat.add (ge s) (PrimFloat.mul (gate s) (gf s))) Hdt Q2) as [R1 R2].
  { rewrite Q1. eapply Rle_trans; [exact B1|]. apply p2_big. lia. }
  rewrite Q1 in R1.
  destruct (div_FR (PrimFloat.mul dt (PrimFloat.add (ge s) (PrimFloat.mul (gate s) (gf s)))) (nofZ 100) R2) as [S1 S2].
  { rewrite M1. lra. }
  { rewrite R1, M1. pose proof (rnd_bound _ 76 ltac:(lia) B1) as B2. unfold Rdiv. rewrite Rabs_mult, (Rabs_right (/ 100)) by lra.
    apply Rle_trans with (p2 76); [|apply p2_big; lia]. pose proof (Rabs_pos (rnd (FR dt * g))). lra. }
  rewrite R1, M1 in S1. fold (inc (FR dt) g) in S1.
  pose proof (inc_bound _ _ 76 ltac:(lia) B1) as B2.
  destruct (add_FR (V s) (PrimFloat.div (PrimFloat.mul dt (PrimFloat.add (ge s) (PrimFloat.mul (gate s) (gf s)))) (nofZ 100)) V1 S2) as [U1 U2].
  { rewrite V2, S1. eapply Rle_trans; [apply Rabs_triang|]. apply Rle_trans with (p2 77); [|apply p2_big; lia].
    change 77%Z with (76 + 1)%Z. rewrite bpow_plus. change (p2 1) with 2.
    assert (p2 60 <= p2 76) by (apply bpow_le; lia). lra. }
  rewrite V2, S1 in U1. fold v2 in U1.
  assert (EG : neqb (gate s) nzero = true).
  { cbn [neqb F_num]. rewrite eqb_FR by auto. unfold nzero. rewrite A2, Z1. apply Req_bool_true. auto. }
  assert (EV : nleb (nofZ 10) (PrimFloat.add (V s) (PrimFloat.div (PrimFloat.mul dt (PrimFloat.add (ge s) (PrimFloat.mul (gate s) (gf s)))) (nofZ 100))) = Rle_bool 10 v2).
  { cbn [nleb F_num]. rewrite leb_FR by auto. rewrite U1, T1. reflexivity. }
  unfold upd. cbn [Vt tm tf std_params nadd nmul ndiv F_num]. unfold cVt, ctm. rewrite EG, EV. split; intros Hv.
  - rewrite Rle_bool_true by auto. split; [reflexivity|]. constructor; cbn [fst reset V ge gf gate Vreset std_params]; auto.
  - rewrite Rle_bool_false by auto. split; [reflexivity|]. constructor; cbn [fst V ge gf gate]; auto.
Qed.

(** receiving events *)
Definition wof (ty : syntype) (evs : list (event float)) : list R :=
  map (fun e => FR (e_w e)) (filter (fun e => syntype_eqb (e_ty e) ty) evs).
Lemma rcv_F evs : forall s v g v1 g1, nst s v g ->
  (forall e, In e evs -> fin (e_w e) /\ (e_ty e = SynV \/ e_ty e = SynGe)) ->
  radds v (wof SynV evs) v1 -> radds g (wof SynGe evs) g1 -> nst (fold_left rcv evs s) v1 g1.
Proof.
  induction evs as [|e evs IH]; intros s v g v1 g1 HS HE HV HG; cbn [fold_left].
  { cbn in HV, HG. subst. auto. }
  destruct (HE e (or_introl eq_refl)) as [Hw Hty]. unfold wof in HV, HG. cbn [filter] in HV, HG.
  destruct HS as [[V1 V2] [G1 G2] [F1 F2] [A1 A2]].
  destruct Hty as [Ht|Ht]; rewrite Ht in HV, HG; cbn [syntype_eqb map radds] in HV, HG.
  - destruct HV as [B HV]. apply (IH _ (rnd (v + FR (e_w e))) g); auto; [|intros; apply HE; right; auto].
    unfold rcv. rewrite Ht. constructor; cbn [V ge gf gate nadd F_num]; auto.
    rewrite <- V2 in *. destruct (add_FR (V s) (e_w e) V1 Hw B). auto.
  - destruct HG as [B HG]. apply (IH _ v (rnd (g + FR (e_w e)))); auto; [|intros; apply HE; right; auto].
    unfold rcv. rewrite Ht. constructor; cbn [V ge gf gate nadd F_num]; auto.
    rewrite <- G2 in *. destruct (add_FR (ge s) (e_w e) G1 Hw B). auto.
Qed.
Lemma wof_perm ty evs evs' : Permutation evs evs' -> Permutation (wof ty evs) (wof ty evs').
Proof. intros H. apply Permutation_map. apply filter_perm. auto. Qed.

(** ** a whole network *)
Definition eta : R := p2 (-36).
Definition cn (k : nat) (A : list nat) : nat := length (filter (Nat.eqb k) A).
Lemma cn_app k A B : cn k (A ++ B) = (cn k A + cn k B)%nat.
Proof. unfold cn. rewrite filter_app, app_length. auto. Qed.
Lemma cn_cons k a A : cn k (a :: A) = ((if (k =? a)%nat then 1 else 0) + cn k A)%nat.
Proof. unfold cn. cbn [filter]. destruct (k =? a)%nat; reflexivity. Qed.

(** a network whose times, delays and inputs are finite and moderate: dt at least 2^-12 ms,
    all times at most 2^16 ms; every neuron has the standard parameters *)
Record netok (c : cfg float) (ext : list (nat * float)) (ord : nat -> list nat -> list nat) (KM : nat) : Prop := {
  n_dtf : fin (c_dt c);
  n_dt : p2 (-12) <= FR (c_dt c);
  n_KM : INR KM * FR (c_dt c) <= p2 16;
  n_K1 : (1 <= KM)%nat;
  n_healthy : healthy c;
  n_syn : forall y, In y (w_syns (c_world c)) -> fin (s_delay y) /\ 0 <= FR (s_delay y) <= p2 16 /\ (s_pre y < length (w_neurons (c_world c)))%nat;
  n_ext : forall n t, In (n, t) ext -> fin t /\ 0 <= FR t <= p2 16 /\ (n < length (w_neurons (c_world c)))%nat;
  n_ord : ord_ok ord;
  n_std : forall n, (n < length (w_neurons (c_world c)))%nat -> gprm c n = std_params
}.

Section Net.
Variable c : cfg float.
Variable ext : list (nat * float).
Variable ord : nat -> list nat -> list nat.
Variable KM : nat.
Hypothesis OK : netok c ext ord KM.
Let d := FR (c_dt c).
Let w := c_world c.
Let NN := length (w_neurons w).
Let Hdf : fin (c_dt c) := n_dtf _ _ _ _ OK.
Let Hd : p2 (-12) <= d := n_dt _ _ _ _ OK.
Let HKM : INR KM * d <= p2 16 := n_KM _ _ _ _ OK.
Let HK1 : (1 <= KM)%nat := n_K1 _ _ _ _ OK.
Let HH : healthy c := n_healthy _ _ _ _ OK.
Let HY : forall y, In y (w_syns w) -> fin (s_delay y) /\ 0 <= FR (s_delay y) <= p2 16 /\ (s_pre y < NN)%nat := n_syn _ _ _ _ OK.
Let HE : forall n t, In (n, t) ext -> fin t /\ 0 <= FR t <= p2 16 /\ (n < NN)%nat := n_ext _ _ _ _ OK.
Let Hord : ord_ok ord := n_ord _ _ _ _ OK.
Let Hstd : forall n, (n < NN)%nat -> gprm c n = std_params := n_std _ _ _ _ OK.

Notation gst := (GTrace.gst c ext ord).
Notation gspk := (GTrace.gspk c ext ord).
Notation tt := (GTrace.tt c).
Notation src := (GTrace.src c ext ord).
Notation arrs := (GTrace.arrs c ext ord).
Notation due_at := (GTrace.due_at c).
Definition tau (k : nat) : R := FR (tt k).

Lemma d_pos : 0 < d. Proof. pose proof (bpow_gt_0 radix2 (-12)). lra. Qed.
Lemma d_le : d <= p2 16.
Proof.
  pose proof d_pos. apply Rle_trans with (INR KM * d); auto. rewrite <- (Rmult_1_l d) at 1. apply Rmult_le_compat_r; [lra|].
  change 1 with (INR 1). apply le_INR. auto.
Qed.
Lemma KM_small : (Z.of_nat KM <= 2 ^ 28)%Z.
Proof.
  apply le_IZR. rewrite <- INR_IZR_INZ. change (IZR (2 ^ 28)) with (p2 28). 
  apply Rmult_le_reg_r with (p2 (-12)); [apply bpow_gt_0|]. rewrite <- bpow_plus. change (28 + -12)%Z with 16%Z.
  eapply Rle_trans; [|exact HKM]. apply Rmult_le_compat_l; [apply pos_INR|]. exact Hd.
Qed.
Lemma kd_le k : (k <= KM)%nat -> 0 <= INR k * d <= p2 16.
Proof.
  intros Hk. pose proof d_pos. split; [apply Rmult_le_pos; [apply pos_INR|lra]|].
  eapply Rle_trans; [|exact HKM]. apply Rmult_le_compat_r; [lra|]. apply le_INR; auto.
Qed.
Lemma tau_spec k : (1 <= k <= KM)%nat -> fin (tt k) /\ Rabs (tau k - INR k * d) <= p2 (-38) /\ 0 <= tau k <= p2 16.
Proof.
  intros Hk. pose proof KM_small. pose proof (kd_le k ltac:(lia)) as B. unfold tau, GTrace.tt.
  destruct (time64 c (k - 1) Hdf) as [T1 T2].
  - pose proof d_pos. fold d. lra.
  - lia.
  - fold d. replace (S (k - 1)) with k by lia. eapply Rle_trans; [apply B|]. apply p2_big. lia.
  - fold d in T1. replace (S (k - 1)) with k in T1 by lia. rewrite T1. split; auto. split.
    + change (-38)%Z with (16 - 54)%Z. apply rnd_abs; [lia|]. apply Rabs_pos_le; apply B.
    + split; [apply rnd_pos, B|]. rewrite <- (rnd_bpow 16) by lia. apply rnd_le, B.
Qed.
Lemma tt_mono k : (1 <= k < KM)%nat -> nltb (tt (S k)) (tt k) = false.
Proof.
  intros Hk. destruct (tau_spec k) as (A1 & _); [lia|]. destruct (tau_spec (S k)) as (B1 & _); [lia|].
  assert (L : nltb (tt k) (tt (S k)) = true).
  { unfold GTrace.tt. apply time64_lt; auto; fold d.
    - apply Rle_trans with (p2 (-12)); auto. apply bpow_le; lia.
    - lia.
    - pose proof KM_small. lia.
    - replace (S (S k - 1)) with (S k) by lia. eapply Rle_trans; [apply kd_le; lia|]. apply p2_big; lia. }
  cbn [nltb F_num] in *. rewrite ltb_FR in * by auto. apply Rlt_bool_false. destruct (Rlt_bool_spec (FR (tt k)) (FR (tt (S k)))); [lra|discriminate].
Qed.
Lemma tau_le j k : (1 <= j)%nat -> (j <= k)%nat -> (k <= KM)%nat -> tau j <= tau k.
Proof.
  intros H1 H2. induction H2 as [|k H2 IH]; intros H3; [lra|]. apply Rle_trans with (tau k); [apply IH; lia|].
  pose proof (tt_mono k ltac:(lia)) as M. cbn [nltb F_num] in M. 
  destruct (tau_spec k) as (A1 & _); [lia|]. destruct (tau_spec (S k)) as (B1 & _); [lia|].
  rewrite ltb_FR in M by auto. destruct (Rlt_bool_spec (FR (tt (S k))) (FR (tt k))); [discriminate|auto].
Qed.

Lemma trace : forall K, (K <= KM)%nat ->
  sim_steps c ord 0 K (inputs_of c ext, []) = Ok (rs c ext ord K) /\
  (forall k n, (k < K)%nat -> (n < NN)%nat -> gstep c ext ord k n) /\
  (forall n, (n < NN)%nat -> spike_log (fst (rs c ext ord K)) n =
     map snd (filter (fun p => (fst p =? n)%nat) ext) ++ map tt (filter (fun k => gspk k n) (seq 1 K))).
Proof.
  apply (gtrace Fok F_ord c ext ord KM); auto.
  - apply times_ok64; auto. intros y Hy. apply HY; auto.
  - intros n t y Hn Hy. apply add_ok; [apply fin_ok, (HE n t); auto|apply HY; auto].
  - apply tt_mono.
  - intros y Hy. apply HY; auto.
  - apply fin_ok. apply zero_FR.
Qed.

(** number of spikes of m whose event over delay dl is due at step k *)
Definition arrc (m : nat) (dl : float) (k : nat) : nat :=
  length (filter (fun p => due_at (nadd (snd p) dl) (fst p) k) (src m (k - 1))).
Definition insyn (n : nat) : list (synapse float) := filter (fun y => (s_post y =? n)%nat) (w_syns w).
Definition wts (ty : syntype) (n k : nat) : list R :=
  flat_map (fun y => if syntype_eqb (s_ty y) ty then repeat (FR (s_w y)) (arrc (s_pre y) (s_delay y) k) else []) (insyn n).
Lemma wof_arrs ty n k : wof ty (arrs n k) = wts ty n k.
Proof.
  unfold GTrace.arrs, wts, insyn, wof. rewrite filter_flat_map, map_flat_map. fold w. apply flat_map_ext. intros y.
  rewrite filter_map. cbn [e_ty syn_event]. unfold arrc. set (l := filter _ (src (s_pre y) (k - 1))).
  destruct (syntype_eqb (s_ty y) ty).
  - rewrite filter_true by auto. rewrite map_map. cbn [e_w syn_event]. induction l as [|p l IH]; cbn; congruence.
  - rewrite filter_false by auto. reflexivity.
Qed.

(** ** one step of one neuron *)
Definition vg_only (n : nat) : Prop := forall y, In y (insyn n) -> fin (s_w y) /\ (s_ty y = SynV \/ s_ty y = SynGe).
Lemma fstep k n v g v1 g1 : (k < KM)%nat -> (n < NN)%nat -> vg_only n -> nst (gst k n) v g -> v < 10 ->
  sums_to v (wts SynV n (S k)) v1 -> sums_to g (wts SynGe n (S k)) g1 -> Rabs v1 <= p2 60 -> Rabs g1 <= p2 60 ->
  let v2 := rnd (v1 + inc d g1) in
  (10 <= v2 -> gspk (S k) n = true /\ nst (gst (S k) n) 0 0) /\
  (v2 < 10 -> gspk (S k) n = false /\ nst (gst (S k) n) v2 g1).
Proof.
  intros Hk Hn HO HS Hv SV SG Bv Bg v2.
  destruct (trace KM (Nat.le_refl _)) as (_ & HT & _). destruct (HT k n Hk Hn) as (evs & HP & HC).
  assert (RV : radds v (wof SynV evs) v1). { apply SV. rewrite <- wof_arrs. apply wof_perm; auto. }
  assert (RG : radds g (wof SynGe evs) g1). { apply SG. rewrite <- wof_arrs. apply wof_perm; auto. }
  destruct HC as [(E1 & E2 & E3 & E4)|(_ & E)].
  - subst evs. cbn in RV, RG. subst v1 g1. pose proof HS as [[V1 V2] [G1 G2] [F1 F2] [A1 A2]].
    assert (G0 : g = 0).
    { unfold is_active in E2. rewrite !orb_false_iff, !negb_false_iff in E2. destruct E2 as [[E2 _] _].
      cbn [neqb F_num] in E2. destruct zero_FR as [Z1 Z2]. rewrite eqb_FR in E2 by auto.
      rewrite G2, Z1 in E2. destruct (Req_bool_spec g 0); [auto|discriminate]. }
    assert (EV : v2 = v). { unfold v2. rewrite G0, inc_0, Rplus_0_r, <- V2. apply rnd_FR. }
    rewrite E3, E4, EV. split; intros; [lra|]. split; auto.
  - assert (HN : nst (fold_left rcv evs (gst k n)) v1 g1).
    { eapply rcv_F; eauto. intros e He. apply (Permutation_in _ HP) in He. unfold GTrace.arrs in He.
      apply in_flat_map in He. destruct He as (y & Hy & He). apply in_map_iff in He. destruct He as (p & <- & _).
      cbn [e_w e_ty syn_event]. apply HO. exact Hy. }
    rewrite Hstd in E by auto.
    pose proof d_pos as D0. pose proof d_le as D1.
    pose proof (upd_F (c_dt c) _ v1 g1 Hdf (conj (Rlt_le _ _ D0) D1) HN Bv Bg) as U. fold d in U. cbv zeta in U. fold v2 in U. rewrite <- E in U. cbn [fst snd] in U. exact U.
Qed.
Lemma gst0 n : (n < NN)%nat -> nst (gst 0 n) 0 0.
Proof.
  intros Hn. rewrite (gst_0 c ext ord n) by auto. rewrite Hstd by auto.
  destruct zero_FR as [Z1 Z2]. constructor; cbn [init_nstate reset V ge gf gate std_params Vreset]; auto.
Qed.

(** ** when an event is due *)
Definition dstep (e : float) (j : nat) : nat :=
  match find (fun k => nleb e (tt k)) (seq (S j) (KM - j)) with Some k => k | None => S (KM + j) end.
Lemma find_first (f : nat -> bool) a m k : find f (seq a m) = Some k ->
  (a <= k < a + m)%nat /\ f k = true /\ forall i, (a <= i < k)%nat -> f i = false.
Proof.
  revert a. induction m as [|m IH]; intros a; cbn [seq find]; [discriminate|].
  destruct (f a) eqn:E.
  - intros X. injection X as <-. repeat split; auto; lia.
  - intros X. apply IH in X. destruct X as (X1 & X2 & X3). repeat split; auto; try lia.
    intros i Hi. destruct (Nat.eq_dec i a) as [->|]; auto. apply X3. lia.
Qed.
Lemma leb_tau e k : fin e -> (1 <= k <= KM)%nat -> nleb e (tt k) = Rle_bool (FR e) (tau k).
Proof. intros He Hk. cbn [nleb F_num]. apply leb_FR; auto. apply tau_spec; auto. Qed.
Lemma dstep_gt e j : (j < dstep e j)%nat.
Proof. unfold dstep. destruct (find _ _) eqn:E; [|lia]. apply find_first in E. lia. Qed.
Lemma due_dstep e j k : fin e -> (1 <= k <= KM)%nat -> due_at e j k = (k =? dstep e j)%nat.
Proof.
  intros He Hk. unfold GTrace.due_at, dstep. destruct (find _ _) as [k0|] eqn:E.
  - apply find_first in E. destruct E as (E1 & E2 & E3). rewrite leb_tau in E2 by (auto; lia).
    destruct (Nat.ltb_spec j k); cbn [andb]; [|destruct (Nat.eqb_spec k k0); auto; lia].
    rewrite (leb_tau e k) by auto. destruct (Rle_bool_spec (FR e) (tau k0)) as [L|]; [|discriminate].
    destruct (lt_eq_lt_dec k k0) as [[Hlt|Heq]|Hgt].
    + specialize (E3 k ltac:(lia)). rewrite leb_tau in E3 by auto. rewrite E3. cbn [andb]. destruct (Nat.eqb_spec k k0); auto; lia.
    + subst k0. rewrite Nat.eqb_refl. rewrite Rle_bool_true by auto. cbn [andb].
      destruct (Nat.eqb_spec k (S j)); auto. cbn [orb]. rewrite E3 by lia. auto.
    + rewrite (proj2 (Nat.eqb_neq k k0)) by lia. rewrite (proj2 (Nat.eqb_neq k (S j))) by lia. cbn [orb].
      rewrite (leb_tau e (k - 1)) by (auto; lia). rewrite (Rle_bool_true (FR e) (tau (k - 1))); [apply andb_false_r|].
      apply Rle_trans with (tau k0); auto. apply tau_le; lia.
  - assert (EK : (k =? S (KM + j))%nat = false) by (apply Nat.eqb_neq; lia). rewrite EK.
    destruct (Nat.ltb_spec j k); cbn [andb]; auto. 
    pose proof (find_none _ _ E k) as X. cbv beta in X. rewrite X; auto. apply in_seq. lia.
Qed.
Lemma dstep_spec e j : fin e -> (j < KM)%nat -> FR e <= tau KM ->
  let k := dstep e j in (j < k <= KM)%nat /\ FR e <= tau k /\ (k = S j \/ (S j <= k - 1)%nat /\ tau (k - 1) < FR e).
Proof.
  intros He Hj HL k. unfold k, dstep. destruct (find _ _) as [k0|] eqn:E.
  - apply find_first in E. destruct E as (E1 & E2 & E3). rewrite leb_tau in E2 by (auto; lia).
    split; [lia|]. split; [destruct (Rle_bool_spec (FR e) (tau k0)); [auto|discriminate]|].
    destruct (Nat.eq_dec k0 (S j)); [auto|]. right. split; [lia|]. specialize (E3 (k0 - 1)%nat ltac:(lia)).
    rewrite leb_tau in E3 by (auto; lia). destruct (Rle_bool_spec (FR e) (tau (k0 - 1))); [discriminate|auto].
  - exfalso. pose proof (find_none _ _ E KM) as X. cbv beta in X. rewrite leb_tau in X by (auto; lia).
    rewrite Rle_bool_true in X by auto. discriminate X. apply in_seq. lia.
Qed.
(** the step at which an event is delivered, up to rounding *)
Lemma due_bounds e j t : fin e -> (j < KM)%nat -> Rabs (FR e - t) <= p2 (-37) + p2 (-38) -> t + eta <= INR KM * d -> INR j * d <= t ->
  let k := dstep e j in (j < k <= KM)%nat /\ t - eta <= INR k * d < t + d + eta.
Proof.
  intros He Hj Ht HM Hjt k. unfold eta in *.
  assert (P : p2 (-37) + p2 (-38) + p2 (-38) = p2 (-36)) by (cbn; lra).
  pose proof (bpow_gt_0 radix2 (-36)).
  destruct (tau_spec KM) as (_ & M2 & _); [lia|]. apply Rabs_le_inv in Ht, M2.
  destruct (dstep_spec e j He Hj) as (A & B & C); [lra|]. fold k in A, B, C. split; auto.
  destruct (tau_spec k) as (_ & K2 & _); [lia|]. apply Rabs_le_inv in K2. split; [lra|].
  destruct C as [->|[C1 C2]].
  - rewrite S_INR. lra.
  - destruct (tau_spec (k - 1)) as (_ & L2 & _); [lia|]. apply Rabs_le_inv in L2.
    assert (INR k = INR (k - 1) + 1) by (rewrite minus_INR by lia; cbn [INR]; lra).
    replace (INR k * d) with (INR (k - 1) * d + d) by (rewrite H0; ring). lra.
Qed.
Lemma add_time t dl : fin t -> fin dl -> 0 <= FR t <= p2 16 -> 0 <= FR dl <= p2 16 ->
  fin (nadd t dl) /\ Rabs (FR (nadd t dl) - (FR t + FR dl)) <= p2 (-37).
Proof.
  intros F1 F2 B1 B2. assert (B : Rabs (FR t + FR dl) <= p2 17).
  { apply Rabs_pos_le; [lra|]. change 17%Z with (16 + 1)%Z. rewrite bpow_plus. change (p2 1) with 2. lra. }
  destruct (add_FR t dl F1 F2) as [A1 A2]; [eapply Rle_trans; [exact B|]; apply p2_big; lia|].
  cbn [nadd F_num]. split; auto. rewrite A1. change (-37)%Z with (17 - 54)%Z. apply rnd_abs; [lia|auto].
Qed.
Definition dspk (dl : float) (j : nat) : nat := dstep (nadd (tt j) dl) j.
Definition dext (dl : float) (t : float) : nat := dstep (nadd t dl) 0.
Lemma dspk_bounds dl j : fin dl -> 0 <= FR dl <= p2 16 -> (1 <= j <= KM)%nat -> INR j * d + FR dl + eta <= INR KM * d ->
  let k := dspk dl j in (j < k <= KM)%nat /\ INR j * d + FR dl - eta <= INR k * d < INR j * d + FR dl + d + eta.
Proof.
  intros F1 B1 Hj HM k. destruct (tau_spec j Hj) as (T1 & T2 & T3).
  destruct (add_time (tt j) dl T1 F1 T3 B1) as [A1 A2]. fold (tau j) in A2.
  assert (j < KM)%nat.
  { apply INR_lt. apply Rmult_lt_reg_r with d; [apply d_pos|]. pose proof (bpow_gt_0 radix2 (-36)). unfold eta in HM. lra. }
  apply due_bounds; auto; [|lra]. apply Rabs_le_inv in T2, A2. apply Rabs_le. lra.
Qed.
Lemma dext_bounds dl t : fin dl -> 0 <= FR dl <= p2 16 -> fin t -> 0 <= FR t <= p2 16 -> FR t + FR dl + eta <= INR KM * d ->
  let k := dext dl t in (0 < k <= KM)%nat /\ FR t + FR dl - eta <= INR k * d < FR t + FR dl + d + eta.
Proof.
  intros F1 B1 F2 B2 HM k. destruct (add_time t dl F2 F1 B2 B1) as [A1 A2].
  apply due_bounds; auto; [|cbn [INR]; lra]. pose proof (bpow_gt_0 radix2 (-38)). apply Rabs_le_inv in A2. apply Rabs_le. lra.
Qed.

(** arrivals from a neuron whose spikes are known up to step K *)
Definition extsp (m : nat) : list float := map snd (filter (fun p => (fst p =? m)%nat) ext).
Definition spkK (K m : nat) (l : list nat) : Prop := forall j, (1 <= j <= K)%nat -> gspk j m = memb j l.
Definition arrK (K m : nat) (dl : float) (A : list nat) : Prop := forall k, (1 <= k <= K)%nat -> arrc m dl k = cn k A.
Lemma arr_of K m dl l : fin dl -> 0 <= FR dl <= p2 16 -> spkK K m l -> strict 0 l ->
  forall k, (1 <= k <= S K)%nat -> (k <= KM)%nat -> arrc m dl k = cn k (map (dext dl) (extsp m) ++ map (dspk dl) l).
Proof.
  intros F1 B1 HS HT k Hk HkM. unfold arrc, GTrace.src. rewrite filter_app, app_length, cn_app. f_equal.
  - unfold extsp, cn. rewrite !filter_map, !map_length. rewrite !filter_filter. f_equal. apply filter_ext_in.
    intros [n t] Hp. cbn [fst snd]. destruct (Nat.eqb_spec n m); [|rewrite ?andb_false_r; auto]. cbn [andb]. 
    destruct (HE n t Hp) as (E1 & E2 & _).
    rewrite due_dstep; auto; [|lia]. apply (add_time t dl); auto.
  - rewrite filter_map, map_length. unfold cn. rewrite filter_map, map_length.
    rewrite (filter_ext_in (fun j => gspk j m) (fun j => memb j l)).
    2:{ intros j Hj. apply in_seq in Hj. apply HS. lia. }
    rewrite (Bridge.filter_memb_seq l 0 (k - 1) HT). rewrite filter_filter. f_equal. apply filter_ext_in.
    intros j Hj. pose proof (strict_In _ _ HT _ Hj) as Hj0. cbn [fst snd]. unfold dspk.
    destruct (Nat.leb_spec j (0 + (k - 1))); cbn [andb].
    + rewrite due_dstep; [apply andb_true_r| |lia]. destruct (tau_spec j) as (T1 & T2 & T3); [lia|]. apply (add_time (tt j) dl); auto.
    + pose proof (dstep_gt (nadd (tt j) dl) j). destruct (Nat.eqb_spec k (dstep (nadd (tt j) dl) j)); auto; lia.
Qed.
Lemma arrK_of m dl l : fin dl -> 0 <= FR dl <= p2 16 -> spkK KM m l -> strict 0 l -> arrK KM m dl (map (dext dl) (extsp m) ++ map (dspk dl) l).
Proof. intros F B HS HT k Hk. apply (arr_of KM); auto; lia. Qed.

(** ** voltage-only neurons whose weights are multiples of 2.5: [P] gives for each incoming
    synapse its weight (in units of 2.5) and the steps at which its events arrive *)
Definition evz (P : list (Z * list nat)) : list (nat * Z) := flat_map (fun p => map (fun a => (a, fst p)) (snd p)) P.
Definition evr (P : list (Z * list nat)) : list (nat * R) := map (fun p => (fst p, IZR (snd p) * (5 / 2))) (evz P).
Definition vin (K n : nat) (P : list (Z * list nat)) : Prop :=
  Forall2 (fun y p => s_ty y = SynV /\ fin (s_w y) /\ FR (s_w y) = IZR (fst p) * (5 / 2) /\ arrK K (s_pre y) (s_delay y) (snd p)) (insyn n) P.
Definition zat (P : list (Z * list nat)) (k : nat) : list Z := map snd (filter (fun p => (k =? fst p)%nat) (evz P)).
Lemma vin_wts K n P k : vin K n P -> (1 <= k <= K)%nat -> wts SynV n k = map (fun z => IZR z * (5 / 2)) (zat P k) /\ wts SynGe n k = [].
Proof.
  unfold vin, wts, zat, evz. intros HF Hk. induction HF as [|y p ys P (H1 & H2 & H3 & H4) HF IH]; [auto|].
  destruct IH as [I1 I2]. cbn [flat_map]. rewrite I1, I2, H1. cbn [syntype_eqb]. split; [|reflexivity].
  rewrite filter_app, !map_app. f_equal. rewrite (H4 k Hk), H3. unfold cn. rewrite filter_map, !map_map. cbn [fst snd].
  induction (filter (Nat.eqb k) (snd p)) as [|a l IHl]; cbn; congruence.
Qed.
Lemma vin_only K n P : vin K n P -> vg_only n.
Proof.
  unfold vin, vg_only. intros HF. induction HF as [|y p ys P (H1 & H2 & H3 & H4) HF IH]; [intros ? []|].
  intros z [<-|Hz]; auto.
Qed.
Lemma vin_le K K' n P : vin K n P -> (K' <= K)%nat -> vin K' n P.
Proof.
  unfold vin. intros HF HK. induction HF as [|y p ys P (H1 & H2 & H3 & H4) HF IH]; constructor; auto.
  repeat split; auto. intros j Hj. apply H4. lia.
Qed.
Definition tot (P : list (Z * list nat)) : Z := sumabs (map snd (evz P)).
Lemma sumabs_filter (f : nat * Z -> bool) l : (sumabs (map snd (filter f l)) <= sumabs (map snd l))%Z.
Proof. unfold sumabs. induction l as [|a l IH]; cbn; [lia|]. destruct (f a); cbn; lia. Qed.
Lemma zat_tot P k : (sumabs (zat P k) <= tot P)%Z. Proof. apply sumabs_filter. Qed.
Definition vz (P : list (Z * list nat)) (a k : nat) : Z :=
  sumZ (map snd (filter (fun p => (a <? fst p)%nat && (fst p <=? k)%nat) (evz P))).
Lemma vsum_vz P a k : vsum (evr P) a k = IZR (vz P a k) * (5 / 2).
Proof.
  unfold evr, vz, vsum, sumf, sumR, sumZ. induction (evz P) as [|[t z] l IH]; cbn [map filter fold_right fst snd]; [lra|].
  rewrite IH. destruct ((a <? t)%nat && (t <=? k)%nat); cbn [map fold_right snd]; rewrite ?plus_IZR; lra.
Qed.
Lemma vz_split P a k : (a <= k)%nat -> (vz P a (S k) = vz P a k + sumZ (zat P (S k)))%Z /\ (Z.abs (vz P a k) + sumabs (zat P (S k)) <= tot P)%Z.
Proof.
  intros Hk. unfold vz, zat, tot, sumZ, sumabs. induction (evz P) as [|[t z] l IH]; cbn [map filter fold_right fst snd]; [lia|].
  destruct IH as [I1 I2].
  destruct (Nat.ltb_spec a t), (Nat.leb_spec t (S k)), (Nat.leb_spec t k), (Nat.eqb_spec (S k) t); cbn [andb map fold_right snd]; lia.
Qed.
Lemma grid25 z : (Z.abs z <= 2 ^ 40)%Z -> rnd (IZR z * (5 / 2)) = IZR z * (5 / 2) /\ Rabs (IZR z * (5 / 2)) <= p2 60.
Proof.
  intros Hz. split; [apply fmt_q; auto|]. rewrite Rabs_mult, <- abs_IZR, (Rabs_right (5 / 2)) by lra.
  apply Rle_trans with (IZR (2 ^ 40) * (5 / 2)); [apply Rmult_le_compat_r; [lra|]; apply IZR_le; auto|].
  change (IZR (2 ^ 40)) with (p2 40). replace (p2 60) with (p2 40 * p2 20) by (rewrite <- bpow_plus; reflexivity).
  apply Rmult_le_compat_l; [apply bpow_ge_0|]. cbn; lra.
Qed.
Lemma vstep K n P a k : (K <= KM)%nat -> (n < NN)%nat -> vin K n P -> (tot P <= 2 ^ 40)%Z -> (a <= k < K)%nat ->
  nst (gst k n) (vsum (evr P) a k) 0 -> vsum (evr P) a k < 10 ->
  (10 <= vsum (evr P) a (S k) -> gspk (S k) n = true /\ nst (gst (S k) n) 0 0) /\
  (vsum (evr P) a (S k) < 10 -> gspk (S k) n = false /\ nst (gst (S k) n) (vsum (evr P) a (S k)) 0).
Proof.
  intros HK Hn HV HT Hk HS Hv. destruct (vin_wts K n P (S k) HV ltac:(lia)) as [W1 W2].
  destruct (vz_split P a k ltac:(lia)) as [Z1 Z2]. pose proof (sumabs_pos (zat P (S k))).
  assert (ZB : (Z.abs (vz P a (S k)) <= 2 ^ 40)%Z).
  { destruct (vz_split P a (S k) ltac:(lia)) as [_ Z3]. pose proof (sumabs_pos (zat P (S (S k)))). lia. }
  destruct (grid25 _ ZB) as [G1 G2].
  destruct (fstep k n (vsum (evr P) a k) 0 (vsum (evr P) a (S k)) 0) as [A B]; auto; try lia.
  - eapply vin_only; eauto.
  - rewrite W1, !vsum_vz, Z1. apply (sums_grid (5 / 2) (2 ^ 40)); [|lia].
    intros z Hz. destruct (grid25 z Hz) as [R1 R2]. split; auto. eapply Rle_trans; [exact R2|]. apply p2_big; lia.
  - rewrite W2. apply sums_nil.
  - rewrite vsum_vz. auto.
  - rewrite Rabs_R0. apply bpow_ge_0.
  - rewrite inc_0, Rplus_0_r in A, B. rewrite vsum_vz in A, B |- *. rewrite G1 in A, B. auto.
Qed.
Lemma vquiet K n P a : (K <= KM)%nat -> (n < NN)%nat -> vin K n P -> (tot P <= 2 ^ 40)%Z -> nst (gst a n) 0 0 ->
  (forall k, (a < k <= K)%nat -> vsum (evr P) a k < 10) ->
  forall k, (a <= k <= K)%nat -> nst (gst k n) (vsum (evr P) a k) 0 /\ ((a < k)%nat -> gspk k n = false).
Proof.
  intros HK Hn HV HT HS HQ k. induction k as [|k IH]; intros Hk.
  - assert (a = 0)%nat by lia. subst. rewrite vsum_self. split; auto; lia.
  - destruct (Nat.eq_dec a (S k)) as [<-|]; [rewrite vsum_self; split; auto; lia|].
    destruct IH as [IH _]; [lia|].
    assert (Hv : vsum (evr P) a k < 10).
    { destruct (Nat.eq_dec a k) as [<-|]; [rewrite vsum_self; lra|apply HQ; lia]. }
    destruct (vstep K n P a k HK Hn HV HT ltac:(lia) IH Hv) as [_ H]. destruct H; auto. apply HQ; lia.
Qed.
(** [segs] (SegLib.v): the neuron fires at the steps F, where the weights received since the
    last firing reach the threshold *)
Lemma vsegs_from K n P : (K <= KM)%nat -> (n < NN)%nat -> vin K n P -> (tot P <= 2 ^ 40)%Z ->
  forall F a, nst (gst a n) 0 0 -> segs (evr P) a F -> forall k, (a < k <= K)%nat -> gspk k n = memb k F.
Proof.
  intros HK Hn HV HT. induction F as [|f F IH]; intros a HS HG k Hk.
  - apply (vquiet K n P a HK Hn HV HT HS); [intros; apply HG; lia|lia|lia].
  - destruct HG as (G1 & G2 & G3 & G4). rewrite memb_cons.
    destruct (Nat.lt_ge_cases k f) as [Hkf|Hkf].
    + rewrite (proj2 (Nat.eqb_neq k f)) by lia. cbn [orb].
      rewrite (proj2 (memb_nIn k F)) by (intros Hin; pose proof (strict_In _ _ (segs_strict _ _ _ G4) _ Hin); lia).
      assert (HV' : vin k n P) by (apply (vin_le K); auto; lia).
      apply (vquiet k n P a ltac:(lia) Hn HV' HT HS); [intros; apply G2; lia|lia|lia].
    + assert (HV' : vin (f - 1) n P) by (apply (vin_le K); auto; lia).
      destruct (vquiet (f - 1) n P a ltac:(lia) Hn HV' HT HS) with (k := (f - 1)%nat) as [A _]; [intros; apply G2; lia|lia|].
      assert (Hv : vsum (evr P) a (f - 1) < 10).
      { destruct (Nat.eq_dec a (f - 1)) as [<-|]; [rewrite vsum_self; lra|apply G2; lia]. }
      destruct (vstep K n P a (f - 1) HK Hn HV HT ltac:(lia) A Hv) as [B _]. replace (S (f - 1)) with f in B by lia.
      destruct (B G3) as [B1 B2].
      destruct (Nat.eqb_spec k f) as [->|Hne]; cbn [orb]; auto. apply (IH f); auto; lia.
Qed.
Lemma vspikes K n P F : (K <= KM)%nat -> (n < NN)%nat -> vin K n P -> (tot P <= 2 ^ 40)%Z -> segs (evr P) 0 F -> spkK K n F.
Proof. intros HK Hn HV HT HG k Hk. apply (vsegs_from K n P HK Hn HV HT F 0); auto using gst0. Qed.
(** a neuron without incoming synapses only shows injected spikes *)
Lemma source_spk n : (n < NN)%nat -> insyn n = [] -> spkK KM n [].
Proof.
  intros Hn HI. apply (vspikes KM n [] []); auto.
  - unfold vin. rewrite HI. constructor.
  - cbn. lia.
  - intros k Hk. cbn. unfold vsum, sumf, sumR. cbn. lra.
Qed.
(** the spike log at the end *)
Lemma spike_log_of n l : (n < NN)%nat -> extsp n = [] -> spkK KM n l -> strict 0 l -> (forall k, In k l -> (k <= KM)%nat) ->
  spike_log (fst (rs c ext ord KM)) n = map tt l.
Proof.
  intros Hn HX HS HT HL. destruct (trace KM (Nat.le_refl _)) as (_ & _ & T). rewrite T by auto. 
  unfold extsp in HX. rewrite HX. cbn [app]. f_equal.
  rewrite (filter_ext_in (fun k => gspk k n) (fun k => memb k l)) by (intros j Hj; apply in_seq in Hj; apply HS; lia).
  rewrite (Bridge.filter_memb_seq l 0 KM HT). apply filter_true. intros x Hx. apply Nat.leb_le. auto.
Qed.
End Net.
