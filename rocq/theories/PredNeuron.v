(** The predictive neuron: fast-forward (C16), spike prediction (C17). *)
From Coq Require Import Arith ZArith Bool List Reals Lra Lia.
From Verif Require Import Num Heapq Elements Simulator CancelQueue PredSim Misc.
Import ListNotations.
Open Scope list_scope.
Open Scope R_scope.

(** ** C16 *)
Definition ffV (p : nparams R) (s : nstate R) (x : R) : R :=
  if Req_EM_T (gate s) 0 then V s + ge s / tm p * x
  else V s + ge s / tm p * x + gf s * tf p / tm p * (1 - exp (- x / tf p)).
Definition ffG (p : nparams R) (s : nstate R) (x : R) : R := gf s * exp (- x / tf p).
Lemma ff_eq p s x : tm p <> 0 -> tf p <> 0 -> fast_forward p s x = Ok (ffV p s x, ffG p s x).
Proof.
  intros Hm Hf. unfold fast_forward, pdiv, nzero, ffV, ffG. cbn [neqb R_num nofZ].
  rewrite !(proj2 (Reqb_false _ 0)) by auto. cbn [rbind]. unfold Reqb.
  destruct (Req_EM_T (gate s) 0); cbn [negb]; reflexivity.
Qed.
Lemma exp_lin_der a x : derivable_pt_lim (fun y => exp (- y / a)) x (- / a * exp (- x / a)).
Proof.
  assert (H : derivable_pt_lim (comp exp (fun y => - / a * y)) x (exp (- / a * x) * (- / a * 1))).
  { apply derivable_pt_lim_comp.
    - apply (derivable_pt_lim_scal id (- / a) x 1). apply derivable_pt_lim_id.
    - apply derivable_pt_lim_exp. }
  replace (- / a * exp (- x / a)) with (exp (- / a * x) * (- / a * 1)).
  2: { replace (- / a * x) with (- x / a) by (unfold Rdiv; ring). ring. }
  eapply derivable_pt_lim_ext; [|exact H].
  intros y. unfold comp. f_equal. unfold Rdiv. ring.
Qed.
Lemma ffG_der p s x : derivable_pt_lim (ffG p s) x (- ffG p s x / tf p).
Proof.
  unfold ffG. replace (- (gf s * exp (- x / tf p)) / tf p) with (gf s * (- / tf p * exp (- x / tf p))) by (unfold Rdiv; ring).
  apply (derivable_pt_lim_scal (fun y => exp (- y / tf p)) (gf s)). apply exp_lin_der.
Qed.
Lemma lin_der a b x : derivable_pt_lim (fun y => a + b * y) x b.
Proof.
  apply derivable_pt_lim_ext with (f := (fct_cte a + (fun y => b * y)%R)%F); [intros; unfold plus_fct, fct_cte; ring|].
  assert (D : forall l, l = b -> derivable_pt_lim (fct_cte a + (fun y => b * y)%R)%F x l -> derivable_pt_lim (fct_cte a + (fun y => b * y)%R)%F x b) by (intros l ->; auto).
  apply (D (0 + b * 1)); [ring|]. clear D.
  apply derivable_pt_lim_plus.
  - apply derivable_pt_lim_const.
  - apply (derivable_pt_lim_scal id b x 1). apply derivable_pt_lim_id.
Qed.
Lemma ffV_der p s x : tm p <> 0 -> tf p <> 0 -> derivable_pt_lim (ffV p s) x
  ((ge s + (if Req_EM_T (gate s) 0 then 0 else 1) * ffG p s x) / tm p).
Proof.
  intros Hm Hf. unfold ffV, ffG. destruct (Req_EM_T (gate s) 0).
  - replace ((ge s + 0 * (gf s * exp (- x / tf p))) / tm p) with (ge s / tm p) by (field; auto). apply lin_der.
  - set (k := gf s * tf p / tm p).
    apply derivable_pt_lim_ext with (f := ((fun y => V s + ge s / tm p * y)%R + (fun y => k + - k * exp (- y / tf p))%R)%F).
    { intros y. unfold plus_fct. ring. }
    replace ((ge s + 1 * (gf s * exp (- x / tf p))) / tm p) with
      (ge s / tm p + (0 + - k * (- / tf p * exp (- x / tf p)))) by (unfold k; field; auto).
    apply derivable_pt_lim_plus; [apply lin_der|].
    apply derivable_pt_lim_ext with (f := (fct_cte k + (fun y => - k * exp (- y / tf p))%R)%F); [intros; unfold plus_fct, fct_cte; ring|].
    apply derivable_pt_lim_plus; [apply derivable_pt_lim_const|].
    apply (derivable_pt_lim_scal (fun y => exp (- y / tf p)) (- k)). apply exp_lin_der.
Qed.
(** the whole of C16 for gate 0 or 1 *)
Lemma fast_forward_ode p s : tm p <> 0 -> tf p <> 0 -> gate s = 0 \/ gate s = 1 ->
  exists Vs Gs : R -> R,
    (forall x, fast_forward p s x = Ok (Vs x, Gs x)) /\ Vs 0 = V s /\ Gs 0 = gf s /\
    (forall x, derivable_pt_lim Vs x ((ge s + gate s * Gs x) / tm p)) /\
    (forall x, derivable_pt_lim Gs x (- Gs x / tf p)).
Proof.
  intros Hm Hf Hg. exists (ffV p s), (ffG p s). split; [intros; apply ff_eq; auto|].
  assert (E0 : exp (- 0 / tf p) = 1) by (replace (- 0 / tf p) with 0 by (field; auto); apply exp_0).
  split; [|split; [|split]].
  - unfold ffV. rewrite E0. destruct (Req_EM_T (gate s) 0); ring.
  - unfold ffG. rewrite E0. ring.
  - intros x. pose proof (ffV_der p s x Hm Hf) as D. destruct (Req_EM_T (gate s) 0) as [E|E].
    + rewrite E. exact D.
    + destruct Hg as [Hg|Hg]; [contradiction|]. rewrite Hg. exact D.
  - intros x. apply ffG_der.
Qed.
Lemma fast_forward_compose p s a b : tm p <> 0 -> tf p <> 0 ->
  exists Va ga, fast_forward p s a = Ok (Va, ga) /\
    fast_forward p {| V := Va; ge := ge s; gf := ga; gate := gate s |} b = fast_forward p s (a + b).
Proof.
  intros Hm Hf. exists (ffV p s a), (ffG p s a). split; [apply ff_eq; auto|]. rewrite !ff_eq by auto.
  assert (EX : exp (- (a + b) / tf p) = exp (- a / tf p) * exp (- b / tf p)).
  { rewrite <- exp_plus. f_equal. field; auto. }
  unfold ffV, ffG. cbn [V ge gf gate]. rewrite EX. destruct (Req_EM_T (gate s) 0); f_equal; f_equal; field; auto.
Qed.
(** for any other gate value the potential follows the equation of gate 1 *)
Lemma fast_forward_gate_ignored p V0 ge0 gf0 g x : g <> 0 ->
  fast_forward p {| V := V0; ge := ge0; gf := gf0; gate := g |} x = fast_forward p {| V := V0; ge := ge0; gf := gf0; gate := 1 |} x.
Proof.
  intros Hg. unfold fast_forward, nzero. cbn [V ge gf gate neqb R_num nofZ].
  rewrite (proj2 (Reqb_false g 0)) by auto. rewrite (proj2 (Reqb_false 1 0)) by lra. reflexivity.
Qed.
Lemma fast_forward_gate2_wrong : exists p s (Vs : R -> R), tm p > 0 /\ tf p > 0 /\ gate s = 2 /\
  (forall x, exists G, fast_forward p s x = Ok (Vs x, G)) /\ Vs 0 = V s /\
  ~ derivable_pt_lim Vs 0 ((ge s + gate s * gf s) / tm p).
Proof.
  set (p := {| Vt := 10; tm := 1; tf := 1; Vreset := 0 |} : nparams R).
  set (s := {| V := 0; ge := 0; gf := 1; gate := 2 |} : nstate R).
  exists p, s, (ffV p s). cbn [tm tf p]. split; [lra|]. split; [lra|]. split; [reflexivity|]. split; [|split].
  - intros x. exists (ffG p s x). apply ff_eq; cbn; lra.
  - unfold ffV. cbn. destruct (Req_EM_T 2 0); [lra|]. replace (- 0 / 1) with 0 by field. rewrite exp_0. field.
  - intros D. pose proof (ffV_der p s 0 ltac:(cbn; lra) ltac:(cbn; lra)) as D2.
    pose proof (uniqueness_limite _ _ _ _ D D2) as E. unfold ffG in E. cbn in E.
    destruct (Req_EM_T 2 0); [lra|]. replace (- 0 / 1) with 0 in E by field. rewrite exp_0 in E. lra.
Qed.
(** the predictor and the fast-forward use the same trajectory when gate is 0 or 1 *)
Lemma predicted_V_eq p s dt k : tm p <> 0 -> tf p <> 0 ->
  predicted_V p s dt k = Ok (V s + ge s / tm p * (IZR k * dt) + gate s * (if Req_EM_T (gate s) 0 then 0 else gf s) * tf p / tm p * (1 - exp (- (IZR k * dt) / tf p))).
Proof.
  intros Hm Hf. unfold predicted_V, pdiv, nzero. cbn [neqb R_num nofZ].
  rewrite !(proj2 (Reqb_false _ 0)) by auto. cbn [rbind]. unfold Reqb.
  destruct (Req_EM_T (gate s) 0); cbn [negb]; reflexivity.
Qed.
Lemma predict_consistent p s dt k : tm p <> 0 -> tf p <> 0 -> gate s = 0 \/ gate s = 1 ->
  exists v g, fast_forward p s (IZR k * dt) = Ok (v, g) /\ predicted_V p s dt k = Ok v.
Proof.
  intros Hm Hf Hg. rewrite ff_eq, predicted_V_eq by auto. do 2 eexists. split; [reflexivity|]. f_equal. unfold ffV.
  destruct (Req_EM_T (gate s) 0) as [E|E].
  - rewrite E. unfold Rdiv. ring.
  - destruct Hg as [Hg|Hg]; [contradiction|]. rewrite Hg. unfold Rdiv. ring.
Qed.

(** ** C17 *)
Open Scope Z_scope.
Section Search.
Variable f : Z -> bool.
Variable m : Z.
Hypothesis Hm : 0 <= m.
Let up := forall i j, 0 <= i -> i <= j -> j < m -> f i = true -> f j = true.
Lemma search_gap k : forall lo hi, 0 <= lo -> lo <= hi + 1 -> hi <= m -> (hi < m -> f hi = true) ->
   (lo = hi + 1 -> hi = m) -> hi - lo < 2 ^ Z.of_nat k ->
   exists r, search (fun z => Ok (f z)) k lo hi = Ok r /\ lo <= r <= m + 1 /\ (r < m -> f r = true) /\
     (up -> (forall j, 0 <= j < lo -> j < m -> f j = false) -> forall j, 0 <= j < r -> j < m -> f j = false).
Proof.
  induction k as [|k IH]; intros lo hi H0 H1 H2 H3 H4 HG.
  - exists lo. cbn [search]. assert (hi <= lo) by (cbn in HG; lia). split; auto. split; [lia|]. split; [|auto].
    intros HL. destruct (Z.eq_dec lo hi) as [->|]; [apply H3; lia|]. lia.
  - rewrite Nat2Z.inj_succ, Z.pow_succ_r in HG by lia. cbn [search rbind]; cbv zeta. set (mid := (lo + hi) / 2).
    assert (Hmid : mid * 2 <= lo + hi < mid * 2 + 2).
    { unfold mid. pose proof (Z.div_mod (lo + hi) 2 ltac:(lia)). pose proof (Z.mod_pos_bound (lo + hi) 2 ltac:(lia)). lia. }
    destruct (f mid) eqn:Ef.
    + destruct (Z.eq_dec lo (hi + 1)) as [E|E].
      * specialize (H4 E). subst hi. assert (mid = m) by lia. rewrite H in *.
        destruct (IH lo m) as (r & E1 & E2 & E3 & E4); try lia; auto. exists r. split; auto.
      * destruct (IH lo mid) as (r & E1 & E2 & E3 & E4); try lia; auto. exists r. auto.
    + destruct (IH (mid + 1) hi) as (r & E1 & E2 & E3 & E4); try lia; auto.
      { intros E. destruct (Z.eq_dec hi m); auto. exfalso. assert (mid = hi) by lia. rewrite H in Ef. rewrite H3 in Ef by lia. discriminate. }
      exists r. split; auto. split; [lia|]. split; auto. intros U B. apply E4; auto.
      intros j Hj Hjm. destruct (Z_lt_le_dec j lo); [apply B; lia|].
      destruct (f j) eqn:Ej; auto. exfalso. destruct (Z_lt_le_dec mid m).
      * assert (f mid = true) by (eapply U; [| | |exact Ej]; lia). congruence.
      * assert (hi = m) by lia. assert (mid <= hi \/ lo = hi + 1) by lia. destruct H5; [|lia].
        assert (mid = m) by lia. (* mid = m means lo+hi >= 2m, so lo >= m *) lia.
Qed.
Lemma search_correct : m < 2 ^ 64 ->
  exists r, search (fun z => Ok (f z)) 64 0 m = Ok r /\ 0 <= r /\ (r < m -> f r = true) /\
    (up -> forall j, 0 <= j < r -> j < m -> f j = false).
Proof.
  intros HB. destruct (search_gap 64 0 m) as (r & E1 & E2 & E3 & E4); try lia.
  exists r. split; auto. split; [lia|]. split; auto. intros U. apply E4; auto. lia.
Qed.
End Search.
Lemma search_ext f g k : (forall z, f z = g z) -> forall lo hi, search f k lo hi = search g k lo hi.
Proof.
  intros E. induction k as [|k IH]; intros lo hi; cbn [search]; auto. rewrite E.
  destruct (g ((lo + hi) / 2)) as [[|]|]; cbn [rbind]; auto.
Qed.
Open Scope R_scope.

(** potential predicted k steps ahead *)
Definition traj (p : nparams R) (s : nstate R) (dt : R) (k : Z) : R :=
  V s + ge s / tm p * (IZR k * dt) + gate s * gf s * tf p / tm p * (1 - exp (- (IZR k * dt) / tf p)).
Lemma predicted_traj p s dt k : tm p <> 0 -> tf p <> 0 -> predicted_V p s dt k = Ok (traj p s dt k).
Proof.
  intros Hm Hf. rewrite predicted_V_eq by auto. unfold traj. f_equal. destruct (Req_EM_T (gate s) 0) as [E|E]; auto.
  rewrite E. unfold Rdiv. ring.
Qed.
Lemma predict_eq p s dt m : tm p <> 0 -> tf p <> 0 ->
  predict_spike p s dt m = let* lo := search (fun k => Ok (Rleb (Vt p) (traj p s dt k))) 64 0 m in
     Ok (if (lo <? m)%Z then Some (IZR lo * dt) else None).
Proof.
  intros Hm Hf. unfold predict_spike. f_equal. apply search_ext. intros k. rewrite predicted_traj by auto. reflexivity.
Qed.
(** no hypothesis on the trajectory: a predicted spike is at a grid point above threshold *)
Lemma predict_sound p s dt m : tm p <> 0 -> tf p <> 0 -> (0 <= m < 2 ^ 64)%Z ->
  exists r, predict_spike p s dt m = Ok r /\
    forall d, r = Some d -> exists k, (0 <= k < m)%Z /\ d = IZR k * dt /\ Vt p <= traj p s dt k.
Proof.
  intros Hm Hf HB. rewrite predict_eq by auto.
  destruct (search_correct (fun k => Rleb (Vt p) (traj p s dt k)) m ltac:(lia) ltac:(lia)) as (r & E & H0 & H1 & _).
  rewrite E. cbn [rbind]. eexists. split; [reflexivity|]. intros d Hd. destruct (Z.ltb_spec r m); [|discriminate].
  injection Hd as <-. exists r. split; [lia|]. split; auto. apply Rleb_true. auto.
Qed.
(** once above, always above (up to the horizon): the least grid point is returned *)
Lemma predict_least p s dt m : tm p <> 0 -> tf p <> 0 -> (0 <= m < 2 ^ 64)%Z ->
  (forall i j, (0 <= i <= j)%Z -> (j < m)%Z -> Vt p <= traj p s dt i -> Vt p <= traj p s dt j) ->
  (exists k, (0 <= k < m)%Z /\ predict_spike p s dt m = Ok (Some (IZR k * dt)) /\ Vt p <= traj p s dt k /\
      forall j, (0 <= j < k)%Z -> traj p s dt j < Vt p) \/
  (predict_spike p s dt m = Ok None /\ forall j, (0 <= j < m)%Z -> traj p s dt j < Vt p).
Proof.
  intros Hm Hf HB U. rewrite predict_eq by auto.
  destruct (search_correct (fun k => Rleb (Vt p) (traj p s dt k)) m ltac:(lia) ltac:(lia)) as (r & E & H0 & H1 & H2).
  rewrite E. cbn [rbind].
  assert (H3 : forall j, (0 <= j < r)%Z -> (j < m)%Z -> traj p s dt j < Vt p).
  { intros j Hj Hjm. apply Rleb_false. apply H2; auto. intros i k A B C D. apply Rleb_true. apply Rleb_true in D. apply (U i k); auto; lia. }
  destruct (Z.ltb_spec r m).
  - left. exists r. split; [lia|]. split; auto. split; [apply Rleb_true; auto|]. intros j Hj. apply H3; lia.
  - right. split; auto. intros j Hj. apply H3; lia.
Qed.
(** excitatory drive gives such a trajectory *)
Lemma traj_mono p s dt i j : 0 < tm p -> 0 < tf p -> 0 <= dt -> 0 <= ge s -> 0 <= gate s * gf s -> (i <= j)%Z -> traj p s dt i <= traj p s dt j.
Proof.
  intros Hm Hf Hdt Hg Hgf Hij. unfold traj. apply IZR_le in Hij.
  assert (Hx : IZR i * dt <= IZR j * dt) by (apply Rmult_le_compat_r; auto).
  apply Rplus_le_compat.
  - apply Rplus_le_compat_l. apply Rmult_le_compat_l; auto. apply Rmult_le_pos; auto. left; apply Rinv_0_lt_compat; auto.
  - apply Rmult_le_compat_l.
    + apply Rmult_le_pos; [apply Rmult_le_pos; lra|]. left; apply Rinv_0_lt_compat; auto.
    + apply Rplus_le_compat_l, Ropp_le_contravar.
      destruct (Req_dec (IZR i * dt) (IZR j * dt)) as [E|E]; [rewrite E; right; auto|].
      left. apply exp_increasing. unfold Rdiv. apply Rmult_lt_compat_r; [apply Rinv_0_lt_compat; auto|]. lra.
Qed.
Lemma predict_excitatory p s dt m : 0 < tm p -> 0 < tf p -> 0 <= dt -> 0 <= ge s -> 0 <= gate s * gf s -> (0 <= m < 2 ^ 64)%Z ->
  (exists k, (0 <= k < m)%Z /\ predict_spike p s dt m = Ok (Some (IZR k * dt)) /\ Vt p <= traj p s dt k /\
      forall j, (0 <= j < k)%Z -> traj p s dt j < Vt p) \/
  (predict_spike p s dt m = Ok None /\ forall j, (0 <= j < m)%Z -> traj p s dt j < Vt p).
Proof.
  intros. apply predict_least; auto; try lra. intros i j Hij Hjm HV. eapply Rle_trans; [exact HV|]. apply traj_mono; auto; lia.
Qed.
(** a crossing that is missed *)
Lemma search_never f k : forall lo hi, (3 <= lo <= hi)%Z -> (forall z, (3 <= z <= hi)%Z -> f z = false) ->
  exists r, search (fun z => Ok (f z)) k lo hi = Ok r /\ (hi - lo < 2 ^ Z.of_nat k -> hi <= r)%Z.
Proof.
  induction k as [|k IH]; intros lo hi HL HF.
  - exists lo. split; auto. cbn. lia.
  - cbn [search rbind]; cbv zeta. set (mid := ((lo + hi) / 2)%Z).
    assert (Hmid : (mid * 2 <= lo + hi < mid * 2 + 2)%Z).
    { unfold mid. pose proof (Z.div_mod (lo + hi) 2 ltac:(lia)). pose proof (Z.mod_pos_bound (lo + hi) 2 ltac:(lia)). lia. }
    rewrite HF by lia. destruct (Z.eq_dec mid hi) as [E|E].
    + rewrite E. clear IH. exists (hi + 1)%Z. split; [|lia]. clear -HF HL E.
      assert (G : forall k, search (fun z => Ok (f z)) k (hi + 1) hi = Ok (hi + 1)%Z).
      { assert (EM : ((hi + 1 + hi) / 2)%Z = hi) by (symmetry; apply Z.div_unique with 1%Z; lia).
        intros k0. induction k0 as [|k0 IH]; [reflexivity|]. cbn [search]. rewrite EM. cbn [rbind]. rewrite HF by lia. exact IH. }
      apply G.
    + destruct (IH (mid + 1)%Z hi) as (r & E1 & E2); [lia| |].
      { intros z Hz. apply HF. lia. }
      exists r. split; auto. intros HG. apply E2. rewrite Nat2Z.inj_succ, Z.pow_succ_r in HG by lia. lia.
Qed.
Lemma search_S f k lo hi : search f (S k) lo hi = let* b := f ((lo + hi) / 2)%Z in
  if b then search f k lo ((lo + hi) / 2)%Z else search f k ((lo + hi) / 2 + 1)%Z hi.
Proof. reflexivity. Qed.
Lemma predict_misses : exists p s dt m, tm p > 0 /\ tf p > 0 /\ dt > 0 /\ (0 < m < 2 ^ 64)%Z /\
  (exists k, (0 <= k < m)%Z /\ Vt p <= traj p s dt k) /\ predict_spike p s dt m = Ok None.
Proof.
  set (p := {| Vt := 1; tm := 1; tf := 1; Vreset := 0 |} : nparams R).
  set (s := {| V := 0; ge := -1; gf := 4; gate := 1 |} : nstate R).
  exists p, s, 1, 500%Z. split; [cbn; lra|]. split; [cbn; lra|]. split; [lra|]. split; [lia|]. split.
  - exists 1%Z. split; [lia|]. unfold traj. cbn.
    replace (- (1 * 1) / 1) with (Ropp 1) by field. rewrite exp_Ropp.
    assert (H1 : / exp 1 <= / 2).
    { apply Rinv_le_contravar; [lra|]. pose proof (exp_ineq1_le 1). lra. }
    replace (1 * 4 * 1 / 1) with 4 by field. lra.
  - rewrite predict_eq by (cbn; lra).
    assert (HF : forall z, (3 <= z <= 500)%Z -> Rleb (Vt p) (traj p s 1 z) = false).
    { intros z Hz. apply Rleb_false. unfold traj. cbn. pose proof (exp_pos (- (IZR z * 1) / 1)).
      assert (3 <= IZR z) by (apply IZR_le; lia). replace (1 * 4 * 1 / 1) with 4 by field. lra. }
    destruct (search_never (fun z => Rleb (Vt p) (traj p s 1 z)) 63 251 500) as (r & E & HR); [lia|intros; apply HF; lia|].
    change 64%nat with (S 63). rewrite search_S. change ((0 + 500) / 2)%Z with 250%Z. cbn [rbind].
    rewrite HF by lia. change (250 + 1)%Z with 251%Z.
    rewrite E. cbn [rbind]. destruct (Z.ltb_spec r 500); auto.
    assert (500 <= r)%Z by (apply HR; cbn; lia). lia.
Qed.
