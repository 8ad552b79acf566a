(** Conductance-driven neurons in binary64: ramps, and integrators that are started,
    stopped and restarted (accumulators of the memory networks). *)
From Coq Require Import Arith ZArith Bool List Reals Lra Lia Permutation.
From Flocq Require Import Core BinarySingleNaN PrimFloat.
From Coq Require Import Floats Uint63.
From Verif Require Import Num NumOrd Elements Simulator Networks Trace SimTrace AnySim F64 F64Thms GTrace TraceProps NeuronLib NetLib MemoryProof SegLib Build BuildNets Bridge FNet FSession.
Import ListNotations.
Open Scope list_scope.
Open Scope R_scope.

(** n additions of the increment i, each rounded *)
Fixpoint ramp64 (i : R) (n : nat) : R := match n with O => 0 | S n => rnd (ramp64 i n + i) end.
Lemma inc_opp d g : inc d (- g) = - inc d g.
Proof.
  unfold inc. replace (d * - g) with (- (d * g)) by ring. rewrite rnd_opp.
  replace (- rnd (d * g) / 100) with (- (rnd (d * g) / 100)) by (unfold Rdiv; ring). apply rnd_opp.
Qed.
Lemma inc_sign d W z : (Z.abs z <= 1)%Z -> inc d (IZR z * W) = IZR z * inc d W.
Proof.
  intros Hz. assert (z = -1 \/ z = 0 \/ z = 1)%Z as [->|[->| ->]] by lia.
  - replace (-1 * W) with (- W) by ring. rewrite inc_opp. ring.
  - rewrite !Rmult_0_l. apply inc_0.
  - rewrite !Rmult_1_l. auto.
Qed.
Lemma rnd_rnd a : rnd (rnd a) = rnd a.
Proof. apply round_generic; [typeclasses eauto|]. apply generic_format_round; typeclasses eauto. Qed.
Lemma fmt2 a : rnd a = a -> rnd (2 * a) = 2 * a.
Proof.
  intros H. apply round_generic; [typeclasses eauto|].
  assert (F : generic_format radix2 (SpecFloat.fexp FloatOps.prec FloatOps.emax) a) by (rewrite <- H; apply generic_format_round; typeclasses eauto).
  apply (FLT_format_generic radix2 (3 - FloatOps.emax - FloatOps.prec) FloatOps.prec) in F.
  destruct F as [[m e] E1 E2 E3]. cbn in E2, E3.
  apply (generic_format_FLT radix2 (3 - FloatOps.emax - FloatOps.prec) FloatOps.prec).
  exists (Float radix2 m (e + 1)); cbn; [|exact E2|lia].
  rewrite E1. unfold F2R; cbn [Fnum Fexp]. rewrite bpow_plus. change (bpow radix2 1) with 2. ring.
Qed.
(** voltage after a net number n of increments, n possibly slightly negative *)
Definition rv (i : R) (n : Z) : R := if (n <? 0)%Z then IZR n * i else ramp64 i (Z.to_nat n).
Lemma rv_rnd i n : rnd i = i -> (-2 <= n)%Z -> rnd (rv i n) = rv i n.
Proof.
  intros Hi Hn. unfold rv. destruct (Z.ltb_spec n 0).
  - assert (n = -1 \/ n = -2)%Z as [->| ->] by lia.
    + replace (-1 * i) with (- i) by ring. rewrite rnd_opp, Hi. auto.
    + replace (-2 * i) with (- (2 * i)) by ring. rewrite rnd_opp, fmt2; auto.
  - destruct (Z.to_nat n); cbn [ramp64]; [apply rnd_0|apply rnd_rnd].
Qed.
Lemma rv_step i n z : rnd i = i -> (Z.abs z <= 1)%Z -> (-2 <= n)%Z -> (z = -1 -> n = 0 \/ n = -1)%Z ->
  rnd (rv i n + IZR z * i) = rv i (n + z).
Proof.
  intros Hi Hz Hn Hm. assert (z = -1 \/ z = 0 \/ z = 1)%Z as [->|[->| ->]] by lia.
  - destruct (Hm eq_refl) as [->| ->]; unfold rv; cbn [Z.ltb Z.compare Z.add Z.to_nat ramp64 Z.opp Pos.compare Pos.compare_cont].
    + rewrite Rplus_0_l. replace (-1 * i) with (- i) by ring. rewrite rnd_opp, Hi. auto.
    + change (-1 + -1)%Z with (-2)%Z. cbn. replace (-1 * i + -1 * i) with (- (2 * i)) by ring. rewrite rnd_opp, fmt2 by auto. ring.
  - rewrite Rmult_0_l, Rplus_0_r, Z.add_0_r. apply rv_rnd; auto.
  - rewrite Rmult_1_l. unfold rv. destruct (Z.ltb_spec n 0).
    + assert (n = -1 \/ n = -2)%Z as [->| ->] by lia; cbn.
      * replace (-1 * i + i) with 0 by ring. apply rnd_0.
      * replace (-2 * i + i) with (- i) by ring. rewrite rnd_opp, Hi. ring.
    + destruct (Z.ltb_spec (n + 1) 0); [lia|]. replace (Z.to_nat (n + 1)) with (S (Z.to_nat n)) by lia. reflexivity.
Qed.

(** ** how long a ramp takes *)
Lemma least (P : nat -> Prop) n : (forall n, {P n} + {~ P n}) -> P n -> exists m, (m <= n)%nat /\ P m /\ forall j, (j < m)%nat -> ~ P j.
Proof.
  intros D. induction n as [n IH] using lt_wf_ind. intros H.
  destruct (Nat.eq_dec n 0) as [->|Hn]; [exists 0%nat; repeat split; auto; lia|].
  assert (X : forall j, (exists i, (i < j)%nat /\ P i) \/ forall i, (i < j)%nat -> ~ P i).
  { induction j as [|j IHj]; [right; lia|]. destruct IHj as [(i & Hi & Pi)|Hj].
    - left. exists i. split; auto.
    - destruct (D j); [left; exists j; auto|]. right. intros i Hi. destruct (Nat.eq_dec i j) as [->|]; auto. apply Hj. lia. }
  destruct (X n) as [(i & Hi & Pi)|Hj].
  - destruct (IH i Hi Pi) as (m & M1 & M2 & M3). exists m. repeat split; auto. lia.
  - exists n. repeat split; auto.
Qed.
Lemma ramp_err i n : 0 <= i <= 6 -> (forall j, (j < n)%nat -> ramp64 i j < 10) -> 0 <= ramp64 i n /\ Rabs (ramp64 i n - INR n * i) <= INR n * p2 (-50).
Proof.
  intros Hi. induction n as [|n IH]; intros H.
  - cbn [ramp64 INR]. rewrite !Rmult_0_l, Rminus_0_r, Rabs_R0. lra.
  - destruct IH as [I1 I2]; [intros; apply H; lia|]. cbn [ramp64]. specialize (H n ltac:(lia)).
    split; [apply rnd_pos; lra|]. rewrite S_INR.
    assert (E : Rabs (rnd (ramp64 i n + i) - (ramp64 i n + i)) <= p2 (-50)).
    { change (-50)%Z with (4 - 54)%Z. apply rnd_abs; [lia|]. apply Rabs_pos_le; [lra|]. change (p2 4) with 16. lra. }
    replace (rnd (ramp64 i n + i) - (INR n + 1) * i) with ((rnd (ramp64 i n + i) - (ramp64 i n + i)) + (ramp64 i n - INR n * i)) by ring.
    eapply Rle_trans; [apply Rabs_triang|]. lra.
Qed.
(** N increments are needed to reach 10 *)
Definition takes (i : R) (N : nat) : Prop := (1 <= N)%nat /\ 10 <= ramp64 i N /\ forall j, (j < N)%nat -> ramp64 i j < 10.
Lemma takes_exists i n : 0 <= i <= 6 -> 10 <= INR n * (i - p2 (-50)) -> exists N, takes i N /\ (N <= n)%nat /\
  10 <= INR N * (i + p2 (-50)) /\ INR (N - 1) * (i - p2 (-50)) < 10.
Proof.
  intros Hi Hn.
  assert (X : exists m, (m <= n)%nat /\ 10 <= ramp64 i m).
  { destruct (least (fun j => 10 <= ramp64 i j \/ j = n) n) as (m & M1 & M2 & M3).
    - intros j. destruct (Rle_dec 10 (ramp64 i j)); [left; auto|]. destruct (Nat.eq_dec j n); [left; auto|]. right. intros [?|?]; auto.
    - right; auto.
    - exists m. split; auto. destruct M2 as [M2| ->]; auto.
      destruct (ramp_err i n Hi) as [_ E]; [intros j Hj; specialize (M3 j Hj); destruct (Rlt_dec (ramp64 i j) 10); auto; exfalso; apply M3; left; lra|].
      apply Rabs_le_inv in E. lra. }
  destruct X as (m0 & Hm0 & Pm0).
  destruct (least (fun j => 10 <= ramp64 i j) m0) as (N & M1 & M2 & M3); auto.
  { intros j. apply Rle_dec. }
  assert (M4 : forall j, (j < N)%nat -> ramp64 i j < 10) by (intros j Hj; specialize (M3 j Hj); lra).
  assert (N1 : (1 <= N)%nat). { destruct N; [cbn in M2; lra|lia]. }
  exists N. split; [|split; [lia|]].
  - split; auto.
  - destruct (ramp_err i N Hi M4) as [_ E]. apply Rabs_le_inv in E. split; [lra|].
    destruct (ramp_err i (N - 1) Hi) as [_ E']; [intros; apply M4; lia|]. apply Rabs_le_inv in E'.
    specialize (M4 (N - 1)%nat ltac:(lia)). lra.
Qed.
Lemma ramp_bound i n : 0 <= i <= 6 -> (forall j, (j <= n)%nat -> ramp64 i j < 10) -> Rabs (ramp64 i n) <= p2 4.
Proof.
  intros Hi H. destruct (ramp_err i n Hi) as [E _]; [intros; apply H; lia|]. specialize (H n ltac:(lia)).
  apply Rabs_pos_le; auto. change (p2 4) with 16. lra.
Qed.

Section Integ.
Variable c : cfg float.
Variable ex : list (nat * float).
Variable ord : nat -> list nat -> list nat.
Variable KM : nat.
Hypothesis OK : netok c ex ord KM.
Let d := FR (c_dt c).
Let NN := length (w_neurons (c_world c)).
Notation gst := (GTrace.gst c ex ord).
Notation gspk := (GTrace.gspk c ex ord).

(** neuron n receives conductance events only, of weights z * W *)
Definition gin (W : R) (K n : nat) (P : list (Z * list nat)) : Prop :=
  Forall2 (fun y p => s_ty y = SynGe /\ fin (s_w y) /\ FR (s_w y) = IZR (fst p) * W /\ arrK c ex ord K (s_pre y) (s_delay y) (snd p)) (insyn c n) P.
Lemma gin_wts W K n P k : gin W K n P -> (1 <= k <= K)%nat ->
  wts c ex ord SynGe n k = map (fun z => IZR z * W) (zat P k) /\ wts c ex ord SynV n k = [].
Proof.
  unfold gin, wts, zat, evz. intros HF Hk. induction HF as [|y p ys P (H1 & H2 & H3 & H4) HF IH]; [auto|].
  destruct IH as [I1 I2]. cbn [flat_map]. rewrite I1, I2, H1. cbn [syntype_eqb]. split; [|reflexivity].
  rewrite filter_app, !map_app. f_equal. rewrite (H4 k Hk), H3. unfold cn. rewrite filter_map, !map_map. cbn [fst snd].
  induction (filter (Nat.eqb k) (snd p)) as [|a l IHl]; cbn; congruence.
Qed.
Lemma gin_only W K n P : gin W K n P -> vg_only c n.
Proof.
  unfold gin, vg_only. intros HF. induction HF as [|y p ys P (H1 & H2 & H3 & H4) HF IH]; [intros ? []|].
  intros z [<-|Hz]; auto.
Qed.

Variable Wf : float.
Hypothesis FW : fin Wf.
Let W := FR Wf.
Hypothesis HW : Rabs W <= p2 50.
Let i := inc d W.

Lemma gone n P k v zg : (n < NN)%nat -> gin W KM n P -> (k < KM)%nat -> nst (gst k n) v (IZR zg * W) -> v < 10 -> Rabs v <= p2 60 ->
  (Z.abs zg + sumabs (zat P (S k)) <= 2)%Z -> let z := (zg + sumZ (zat P (S k)))%Z in (Z.abs z <= 1)%Z ->
  let v2 := rnd (v + IZR z * i) in
  (10 <= v2 -> gspk (S k) n = true /\ nst (gst (S k) n) 0 0) /\
  (v2 < 10 -> gspk (S k) n = false /\ nst (gst (S k) n) v2 (IZR z * W)).
Proof.
  intros Hn HG Hk HS Hv Bv HZ z Hz v2. destruct (gin_wts W KM n P (S k) HG ltac:(lia)) as [W1 W2].
  assert (HR : forall z, (Z.abs z <= 2)%Z -> rnd (IZR z * W) = IZR z * W /\ Rabs (IZR z * W) <= p2 60).
  { intros y Hy. split; [apply fmt_double_Z; auto|]. rewrite Rabs_mult, <- abs_IZR.
    apply Rle_trans with (2 * p2 50); [apply Rmult_le_compat; auto; [apply IZR_le; lia|apply Rabs_pos|apply IZR_le; auto]|].
    change 60%Z with (50 + 10)%Z. rewrite bpow_plus. change (p2 10) with 1024. pose proof (bpow_gt_0 radix2 50). lra. }
  destruct (fstep c ex ord KM OK k n v (IZR zg * W) v (IZR z * W)) as [A B]; auto.
  - eapply gin_only; eauto.
  - rewrite W2. apply sums_nil.
  - rewrite W1. apply (sums_grid W 2); auto. intros y Hy. destruct (HR y Hy). split; auto.
    eapply Rle_trans; [eassumption|]. apply p2_big; lia.
  - apply HR. lia.
  - fold d in A, B. rewrite inc_sign in A, B by auto. fold i in A, B. auto.
Qed.

Hypothesis Hi : 0 <= i <= 6.
Lemma i_rnd : rnd i = i. Proof. unfold i, inc. apply rnd_rnd. Qed.
Variable N : nat.
Hypothesis HN : takes i N.
Lemma rv_lt n : (-2 <= n < Z.of_nat N)%Z -> rv i n < 10 /\ Rabs (rv i n) <= p2 60.
Proof.
  intros Hn. destruct HN as (N1 & N2 & N3). unfold rv. assert (p2 4 <= p2 60) by (apply bpow_le; lia). destruct (Z.ltb_spec n 0).
  - assert (-2 <= IZR n < 0) by (split; [apply IZR_le; lia|apply IZR_lt; lia]). split.
    + assert (IZR n * i <= 0); [|lra]. rewrite <- (Rmult_0_l i). apply Rmult_le_compat_r; lra.
    + apply Rle_trans with (p2 4); auto. rewrite Rabs_mult, (Rabs_left (IZR n)), (Rabs_pos_eq i) by lra. change (p2 4) with 16.
      apply Rle_trans with (2 * 6); [|lra]. apply Rmult_le_compat; lra.
  - split; [apply N3; lia|]. eapply Rle_trans; [apply ramp_bound; auto; intros; apply N3; lia|auto].
Qed.

(** an integrator with bookkeeping: net conductance zg k and net count cnt k after step k;
    it fires at f, when the count reaches N, and never again *)
Lemma integ n P (zg cnt : nat -> Z) f : (n < NN)%nat -> gin W KM n P -> zg 0%nat = 0%Z -> cnt 0%nat = 0%Z -> (1 <= f)%nat ->
  (forall k, (k < f)%nat -> (zg (S k) = zg k + sumZ (zat P (S k)) /\ Z.abs (zg k) + sumabs (zat P (S k)) <= 2 /\
      Z.abs (zg (S k)) <= 1 /\ cnt (S k) = cnt k + zg (S k) /\ -2 <= cnt k < Z.of_nat N /\ (zg (S k) = -1 -> cnt k = 0 \/ cnt k = -1))%Z) ->
  cnt f = Z.of_nat N -> (forall k, (f < k)%nat -> zat P k = []) ->
  spkK c ex ord KM n [f].
Proof.
  intros Hn HG Z0 C0 Hf HS HC HE.
  assert (A : forall k, (k < f)%nat -> (k <= KM)%nat -> nst (gst k n) (rv i (cnt k)) (IZR (zg k) * W) /\ ((1 <= k)%nat -> gspk k n = false)).
  { induction k as [|k IH]; intros H1 H2.
    - rewrite Z0, C0, Rmult_0_l. split; [apply (gst0 c ex ord KM OK); auto|lia].
    - destruct IH as [IH _]; [lia|lia|]. destruct (HS k ltac:(lia)) as (S1 & S2 & S3 & S4 & S5 & S6).
      destruct (HS (S k) H1) as (_ & _ & _ & _ & S7 & _).
      destruct (rv_lt (cnt k) S5) as [L1 L2]. destruct (rv_lt (cnt (S k)) S7) as [L3 _].
      destruct (gone n P k (rv i (cnt k)) (zg k) Hn HG ltac:(lia) IH L1 L2 S2) as [_ B]; rewrite <- S1 in *; auto.
      rewrite rv_step in B; auto using i_rnd; try lia; try lra. rewrite <- S4 in B. destruct (B L3). auto. }
  assert (F : (f <= KM)%nat -> gspk f n = true /\ nst (gst f n) 0 0).
  { intros HfK. destruct f as [|k]; [lia|]. destruct (A k ltac:(lia) ltac:(lia)) as [IH _].
    destruct (HS k ltac:(lia)) as (S1 & S2 & S3 & S4 & S5 & S6). destruct (rv_lt (cnt k) S5) as [L1 L2].
    destruct (gone n P k (rv i (cnt k)) (zg k) Hn HG ltac:(lia) IH L1 L2 S2) as [B _]; rewrite <- S1 in *; auto.
    rewrite rv_step in B; auto using i_rnd; try lia; try lra. rewrite <- S4, HC in B. apply B. unfold rv.
    destruct (Z.ltb_spec (Z.of_nat N) 0); [lia|]. rewrite Nat2Z.id. apply HN. }
  assert (G : forall k, (f <= k)%nat -> (k <= KM)%nat -> nst (gst k n) 0 0 /\ ((f < k)%nat -> gspk k n = false)).
  { intros k Hk. induction Hk as [|k Hk IH]; intros HkM; [split; [apply F; auto|lia]|].
    destruct IH as [IH _]; [lia|].
    assert (IH' : nst (gst k n) 0 (IZR 0 * W)) by (rewrite Rmult_0_l; auto).
    destruct (gone n P k 0 0 Hn HG ltac:(lia) IH') as [_ B]; rewrite ?(HE (S k)) by lia; cbn; try lia; try lra.
    { rewrite Rabs_R0. lra. }
    rewrite (HE (S k)) in B by lia. cbn in B. rewrite !Rmult_0_l, Rplus_0_r, rnd_0 in B. destruct B; [lra|]. auto. }
  intros k Hk. destruct (lt_eq_lt_dec k f) as [[H|H]|H].
  - rewrite (proj2 (A k H ltac:(lia))) by lia. symmetry. apply memb_nIn. intros [<-|[]]. lia.
  - subst. rewrite (proj1 (F ltac:(lia))). symmetry. apply memb_In. left; auto.
  - rewrite (proj2 (G k ltac:(lia) ltac:(lia))) by lia. symmetry. apply memb_nIn. intros [<-|[]]. lia.
Qed.

Lemma cat_cons z A P k : zat ((z, A) :: P) k = repeat z (cn k A) ++ zat P k.
Proof.
  unfold zat, evz. cbn [flat_map fst snd]. rewrite filter_app, map_app. f_equal. unfold cn. rewrite filter_map, map_map. cbn [fst snd].
  induction (filter (Nat.eqb k) A) as [|a l IH]; cbn; congruence.
Qed.

(** started once at e *)
Lemma ramp_once n e : (n < NN)%nat -> gin W KM n [(1%Z, [e])] -> (1 <= e)%nat -> spkK c ex ord KM n [(e + N - 1)%nat].
Proof.
  intros Hn HG He. destruct HN as (N1 & _).
  apply (integ n [(1%Z, [e])] (fun k => if (e <=? k)%nat then 1 else 0)%Z (fun k => Z.max 0 (Z.of_nat k - Z.of_nat e + 1)) (e + N - 1)); auto; try lia.
  - destruct (Nat.leb_spec e 0); [lia|auto].
  - intros k Hk. rewrite cat_cons, cn_cons. unfold cn. cbn [filter length]. cbn [zat evz flat_map filter map].
    destruct (Nat.leb_spec e k), (Nat.leb_spec e (S k)), (Nat.eqb_spec (S k) e); cbn [Nat.add repeat app sumZ sumabs fold_right]; try lia.
  - intros k Hk. rewrite cat_cons, cn_cons. unfold cn. cbn [filter length]. destruct (Nat.eqb_spec k e); [lia|reflexivity].
Qed.
(** started at l, stopped at m (in either order, l at most 2 steps late), restarted at r *)
Lemma ramp_stop n l m r : (n < NN)%nat -> gin W KM n [(1%Z, [l]); ((-1)%Z, [m]); (1%Z, [r])] -> (1 <= l)%nat -> (1 <= m)%nat ->
  (l < r)%nat -> (m < r)%nat -> (l <= m + 2)%nat -> (m < l + N)%nat ->
  spkK c ex ord KM n [(r + N + l - m - 1)%nat].
Proof.
  intros Hn HG Hl Hm Hlr Hmr Hlm Hml. destruct HN as (N1 & _).
  apply (integ n [(1%Z, [l]); ((-1)%Z, [m]); (1%Z, [r])] (fun k => (if (l <=? k)%nat then 1 else 0) - (if (m <=? k)%nat then 1 else 0) + (if (r <=? k)%nat then 1 else 0))%Z
     (fun k => Z.max 0 (Z.of_nat k - Z.of_nat l + 1) - Z.max 0 (Z.of_nat k - Z.of_nat m + 1) + Z.max 0 (Z.of_nat k - Z.of_nat r + 1))%Z
     (r + N + l - m - 1)); auto; try lia.
  - destruct (Nat.leb_spec l 0), (Nat.leb_spec m 0), (Nat.leb_spec r 0); try lia; auto.
  - intros k Hk. rewrite !cat_cons, !cn_cons. unfold cn. cbn [filter length]. cbn [zat evz flat_map filter map].
    destruct (Nat.leb_spec l k), (Nat.leb_spec l (S k)), (Nat.eqb_spec (S k) l); try lia;
    destruct (Nat.leb_spec m k), (Nat.leb_spec m (S k)), (Nat.eqb_spec (S k) m); try lia;
    destruct (Nat.leb_spec r k), (Nat.leb_spec r (S k)), (Nat.eqb_spec (S k) r); cbn [Nat.add repeat app sumZ sumabs fold_right]; try lia.
  - intros k Hk. rewrite !cat_cons, !cn_cons. unfold cn. cbn [filter length].
    destruct (Nat.eqb_spec k l), (Nat.eqb_spec k m), (Nat.eqb_spec k r); try lia; reflexivity.
Qed.
End Integ.
