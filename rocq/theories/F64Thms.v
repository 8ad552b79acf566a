(** Theorems about the code run in binary64 (the arithmetic Python uses). *)
From Coq Require Import Arith ZArith Bool List Reals Lra Lia Sorting.Sorted.
From Flocq Require Import Core BinarySingleNaN PrimFloat.
From Coq Require Import Floats Uint63.
From Verif Require Import Num NumOrd Elements Simulator SimTrace AnySim F64.
Import ListNotations.
Open Scope list_scope.
Open Scope R_scope.

Notation p2 := (bpow radix2).

Lemma Rabs_pos_le a b : 0 <= a -> a <= b -> Rabs a <= b.
Proof. intros. rewrite Rabs_pos_eq; auto. Qed.
Lemma rnd_pos a : 0 <= a -> 0 <= rnd a.
Proof. intros. rewrite <- rnd_0. apply rnd_le; auto. Qed.
Lemma rnd_le_fmt a x : a <= FR x -> rnd a <= FR x.
Proof. intros. rewrite <- (rnd_FR x). apply rnd_le; auto. Qed.
Lemma rnd_ge_fmt a x : FR x <= a -> FR x <= rnd a.
Proof. intros. rewrite <- (rnd_FR x). apply rnd_le; auto. Qed.
Lemma p2_big e : (e <= 1023)%Z -> p2 e <= big.
Proof. intros. apply bpow_le; auto. Qed.

(** ** C01: the encoder *)
Section Encoder.
Variables tmin tcod : float.
Variable e : Z.
Hypothesis Hm : fin tmin. Hypothesis Hc : fin tcod.
Hypothesis Hm0 : 0 <= FR tmin. Hypothesis Hc0 : 0 < FR tcod.
Hypothesis He : (-960 <= e <= 1000)%Z.
Hypothesis Hsum : FR tmin + FR tcod <= p2 e.
Hypothesis Hprec : p2 (e - 50) <= FR tcod.

Let E := DataEncoder tmin tcod.

Lemma zero_FR : FR nzero = 0 /\ fin nzero.
Proof. apply (ofZ_FR 0). lia. Qed.
Lemma one_FR : FR n_one = 1 /\ fin n_one.
Proof. apply (ofZ_FR 1). lia. Qed.

Section One.
Variable x : float.
Hypothesis Hx : fin x. Hypothesis Hx01 : 0 <= FR x <= 1.

Let p := rnd (FR x * FR tcod).
Let b := rnd (FR tmin + p).
Let y := rnd (b - FR tmin).

Lemma xc_bound : 0 <= FR x * FR tcod <= FR tcod.
Proof. split; [apply Rmult_le_pos; lra|]. rewrite <- (Rmult_1_l (FR tcod)) at 2. apply Rmult_le_compat_r; lra. Qed.
Lemma p_bound : 0 <= p <= FR tcod.
Proof. pose proof xc_bound. split; [apply rnd_pos; lra|apply rnd_le_fmt; lra]. Qed.
Lemma p_err : Rabs (p - FR x * FR tcod) <= p2 (e - 54).
Proof. pose proof xc_bound. apply rnd_abs; [lia|]. apply Rabs_pos_le; lra. Qed.
Lemma b_bound : FR tmin <= b <= p2 e.
Proof.
  pose proof p_bound. split; [apply rnd_ge_fmt; lra|].
  rewrite <- (rnd_bpow e) by lia. apply rnd_le. lra.
Qed.
Lemma b_err : Rabs (b - (FR tmin + p)) <= p2 (e - 54).
Proof. pose proof p_bound. apply rnd_abs; [lia|]. apply Rabs_pos_le; lra. Qed.
Lemma y_bound : 0 <= y <= p2 e.
Proof.
  pose proof b_bound. split; [apply rnd_pos; lra|].
  rewrite <- (rnd_bpow e) by lia. apply rnd_le. lra.
Qed.
Lemma y_err : Rabs (y - (b - FR tmin)) <= p2 (e - 54).
Proof. pose proof b_bound. apply rnd_abs; [lia|]. apply Rabs_pos_le; lra. Qed.
Lemma y_total : Rabs (y - FR x * FR tcod) <= 3 * p2 (e - 54).
Proof.
  pose proof p_err as H1. pose proof b_err as H2. pose proof y_err as H3. revert H1 H2 H3.
  generalize y, b, p, (FR x * FR tcod), (p2 (e - 54)). intros y' b' p' z d. unfold Rabs. 
  repeat destruct (Rcase_abs _); lra.
Qed.
Definition dec : R := rnd (y / FR tcod).
Lemma q_bound : Rabs (y / FR tcod - FR x) <= 3 * p2 (e - 54) / FR tcod.
Proof.
  replace (y / FR tcod - FR x) with ((y - FR x * FR tcod) / FR tcod) by (field; lra).
  unfold Rdiv. rewrite Rabs_mult, (Rabs_pos_eq (/ FR tcod)) by (left; apply Rinv_0_lt_compat; lra).
  apply Rmult_le_compat_r; [left; apply Rinv_0_lt_compat; lra|]. apply y_total.
Qed.
Lemma small_bound : 3 * p2 (e - 54) / FR tcod <= 1.
Proof.
  apply Rmult_le_reg_r with (FR tcod); [lra|]. unfold Rdiv. rewrite Rmult_assoc, Rinv_l, Rmult_1_r, Rmult_1_l by lra.
  apply Rle_trans with (p2 (e - 50)); [|auto].
  replace (e - 50)%Z with (4 + (e - 54))%Z by lia. rewrite bpow_plus. change (p2 4) with 16.
  pose proof (bpow_ge_0 radix2 (e - 54)). lra.
Qed.
Lemma dec_err : Rabs (dec - FR x) <= 3 * p2 (e - 54) / FR tcod + p2 (-53).
Proof.
  pose proof q_bound as H1. pose proof small_bound as H2.
  assert (H3 : Rabs (y / FR tcod) <= p2 1).
  { change (p2 1) with 2. apply Rabs_le. apply Rabs_le_inv in H1. lra. }
  pose proof (rnd_abs (y / FR tcod) 1 ltac:(lia) H3) as H4. change (1 - 54)%Z with (-53)%Z in H4.
  unfold dec. apply Rabs_le. apply Rabs_le_inv in H1, H4. lra.
Qed.

Lemma encode_F : exists bf, encode_value E x = Ok (nzero, bf) /\ FR bf = b /\ fin bf.
Proof.
  destruct zero_FR as [Z1 Z2]. destruct one_FR as [O1 O2].
  unfold encode_value, ngeb. cbn [nleb F_num].
  rewrite (leb_FR nzero x), (leb_FR x n_one), Z1, O1 by auto.
  rewrite !Rle_bool_true by lra. cbn [andb]. eexists. split; [reflexivity|].
  cbn [nadd nmul F_num E DataEncoder Tmin Tcod].
  assert (PB := p2_big e ltac:(lia)).
  destruct (mul_FR x tcod Hx Hc) as [M1 M2].
  { pose proof xc_bound. apply Rabs_pos_le; lra. }
  destruct (add_FR tmin (x * tcod) Hm M2) as [A1 A2].
  { rewrite M1. fold p. pose proof p_bound. apply Rabs_pos_le; lra. }
  rewrite M1 in A1. split; auto.
Qed.
Lemma decode_F bf : FR bf = b -> fin bf ->
  exists v, decode_interval E (nsub bf nzero) = Ok v /\ FR v = dec /\ fin v.
Proof.
  intros B1 B2. destruct zero_FR as [Z1 Z2].
  assert (PB := p2_big e ltac:(lia)). pose proof b_bound as BB.
  destruct (sub_FR bf nzero B2 Z2) as [S1 S2]. { rewrite Z1. apply Rabs_pos_le; lra. }
  rewrite Z1, Rminus_0_r, rnd_FR in S1.
  destruct (sub_FR (bf - nzero) tmin S2 Hm) as [D1 D2]. { rewrite S1. apply Rabs_pos_le; lra. }
  rewrite S1, B1 in D1. fold y in D1.
  unfold decode_interval, pdiv. cbn [E DataEncoder Tmin Tcod nsub ndiv neqb F_num].
  rewrite (eqb_FR tcod nzero Hc Z2), Z1. rewrite Req_bool_false by lra.
  eexists. split; [reflexivity|].
  destruct (div_FR (bf - nzero - tmin) tcod D2) as [V1 V2]; [lra| |].
  { rewrite D1. pose proof q_bound as Q. pose proof small_bound. apply Rabs_le_inv in Q.
    apply Rle_trans with (p2 1); [|apply p2_big; lia]. change (p2 1) with 2. apply Rabs_le. lra. }
  rewrite D1 in V1. split; auto.
Qed.
End One.
End Encoder.

Lemma roundtrip64 tmin tcod e x : fin tmin -> fin tcod -> 0 <= FR tmin -> 0 < FR tcod ->
  (-960 <= e <= 1000)%Z -> FR tmin + FR tcod <= p2 e -> p2 (e - 50) <= FR tcod ->
  fin x -> 0 <= FR x <= 1 ->
  exists b v, encode_value (DataEncoder tmin tcod) x = Ok (nzero, b) /\ fin b /\
    FR tmin <= FR b <= FR (Tmax (DataEncoder tmin tcod)) /\
    decode_interval (DataEncoder tmin tcod) (nsub b nzero) = Ok v /\ fin v /\
    Rabs (FR v - FR x) <= 3 * p2 (e - 54) / FR tcod + p2 (-53).
Proof.
  intros Hm Hc Hm0 Hc0 He Hsum Hp Hx Hx01.
  destruct (encode_F tmin tcod e Hm Hc Hm0 Hc0 He Hsum x Hx Hx01) as (b & E1 & B1 & B2).
  destruct (decode_F tmin tcod e Hm Hc Hm0 Hc0 He Hsum Hp x Hx01 b B1 B2) as (v & D1 & V1 & V2).
  exists b, v. repeat split; auto.
  - rewrite B1. eapply (b_bound tmin tcod e); eauto.
  - cbn [Tmax DataEncoder nadd F_num].
    destruct (add_FR tmin tcod Hm Hc) as [A1 A2]. { apply Rabs_pos_le; [lra|]. pose proof (p2_big e ltac:(lia)). lra. }
    rewrite A1, B1. apply rnd_le. pose proof (p_bound tcod Hc0 x Hx01). lra.
  - rewrite V1. apply dec_err; auto.
Qed.

Lemma default64 x : fin x -> 0 <= FR x <= 1 ->
  exists b v, encode_value DefaultEncoder x = Ok (nzero, b) /\ 10 <= FR b <= 110 /\
    decode_interval DefaultEncoder (nsub b nzero) = Ok v /\ Rabs (FR v - FR x) <= p2 (-51).
Proof.
  intros Hx Hx01. destruct (ofZ_FR 10) as [T1 T2]; [lia|]. destruct (ofZ_FR 100) as [C1 C2]; [lia|].
  destruct (roundtrip64 (F_ofZ 10) (F_ofZ 100) 7 x) as (b & v & E1 & F1 & B1 & D1 & V1 & R1); auto; try lia;
    rewrite ?T1, ?C1; try lra; try (change (p2 7) with 128; lra).
  - apply Rle_trans with (p2 0); [apply bpow_le; lia|]. cbn. lra.
  - exists b, v. repeat split; auto.
    + rewrite T1 in B1. apply B1.
    + eapply Rle_trans; [apply B1|]. cbn [Tmax DataEncoder nadd F_num].
      destruct (add_FR (F_ofZ 10) (F_ofZ 100) T2 C2) as [A1 A2].
      { rewrite T1, C1. apply Rabs_pos_le; [lra|]. apply Rle_trans with (p2 7); [change (p2 7) with 128; lra|apply p2_big; lia]. }
      rewrite A1, T1, C1. replace (10 + 100) with 110 by lra. rewrite rnd_Z by lia. lra.
    + eapply Rle_trans; [exact R1|]. rewrite C1.
      replace (-51)%Z with (2 + -53)%Z by lia. rewrite (bpow_plus radix2 2). change (p2 2) with 4.
      replace (7 - 54)%Z with (6 + -53)%Z by lia. rewrite (bpow_plus radix2 6). change (p2 6) with 64.
      pose proof (bpow_gt_0 radix2 (-53)). lra.
Qed.

Lemma monotone64 tmin tcod e x x' : fin tmin -> fin tcod -> 0 <= FR tmin -> 0 < FR tcod ->
  (-960 <= e <= 1000)%Z -> FR tmin + FR tcod <= p2 e -> p2 (e - 50) <= FR tcod ->
  fin x -> fin x' -> 0 <= FR x -> FR x <= FR x' -> FR x' <= 1 ->
  exists b v b' v',
    encode_value (DataEncoder tmin tcod) x = Ok (nzero, b) /\
    encode_value (DataEncoder tmin tcod) x' = Ok (nzero, b') /\ nleb b b' = true /\
    decode_interval (DataEncoder tmin tcod) (nsub b nzero) = Ok v /\
    decode_interval (DataEncoder tmin tcod) (nsub b' nzero) = Ok v' /\ nleb v v' = true.
Proof.
  intros Hm Hc Hm0 Hc0 He Hsum Hp Hx Hx' H0 H1 H2.
  destruct (encode_F tmin tcod e Hm Hc Hm0 Hc0 He Hsum x Hx ltac:(lra)) as (b & E1 & B1 & B2).
  destruct (decode_F tmin tcod e Hm Hc Hm0 Hc0 He Hsum Hp x ltac:(lra) b B1 B2) as (v & D1 & V1 & V2).
  destruct (encode_F tmin tcod e Hm Hc Hm0 Hc0 He Hsum x' Hx' ltac:(lra)) as (b' & E1' & B1' & B2').
  destruct (decode_F tmin tcod e Hm Hc Hm0 Hc0 He Hsum Hp x' ltac:(lra) b' B1' B2') as (v' & D1' & V1' & V2').
  exists b, v, b', v'. repeat split; auto; cbn [nleb F_num]; rewrite leb_FR by auto; apply Rle_bool_true.
  - rewrite B1, B1'. apply rnd_le. apply Rplus_le_compat_l. apply rnd_le. apply Rmult_le_compat_r; lra.
  - rewrite V1, V1'. unfold dec. apply rnd_le. apply Rmult_le_compat_r; [left; apply Rinv_0_lt_compat; lra|].
    apply rnd_le. apply Rplus_le_compat_r. apply rnd_le. apply Rplus_le_compat_l. apply rnd_le. apply Rmult_le_compat_r; lra.
Qed.

(** everything else is rejected, infinities and NaN included *)
Lemma rejects64 tmin tcod x : (fin x -> FR x < 0 \/ 1 < FR x) -> encode_value (DataEncoder tmin tcod) x = Err EAssert.
Proof.
  intros H. unfold encode_value, ngeb. cbn [nleb F_num].
  destruct (BinarySingleNaN.is_finite (Prim2B x)) eqn:F.
  - destruct zero_FR as [Z1 Z2]. destruct one_FR as [O1 O2]. specialize (H F).
    rewrite (leb_FR nzero x), (leb_FR x n_one), Z1, O1 by auto.
    destruct H as [H|H].
    + rewrite (Rle_bool_false 0) by lra. reflexivity.
    + rewrite (Rle_bool_false (FR x)) by lra. rewrite andb_false_r. reflexivity.
  - rewrite !leb_equiv. unfold Bleb, SFleb. destruct (Prim2B x) as [s|s| |s m ex Hb] eqn:EX; cbn in F; try discriminate.
    + destruct zero_FR as [_ Z2]. destruct one_FR as [_ O2]. unfold fin in *.
      destruct (Prim2B nzero) as [s0|s0| |s0 m0 e0 H0]; cbn in Z2; try discriminate;
      destruct (Prim2B n_one) as [s1|s1| |s1 m1 e1 H1]; cbn in O2; try discriminate; destruct s; reflexivity.
    + destruct (Prim2B nzero); reflexivity.
Qed.

(** ** simulated times *)
Lemma time64 c i : fin (c_dt c) -> 0 <= FR (c_dt c) -> (Z.of_nat i < 2 ^ 53)%Z -> INR (S i) * FR (c_dt c) <= big ->
  FR (time_of c i) = rnd (INR (S i) * FR (c_dt c)) /\ fin (time_of c i).
Proof.
  intros Hf H0 Hi Hb. unfold time_of. cbn [nmul nofZ F_num].
  destruct (ofZ_FR (Z.of_nat (i + 1))) as [N1 N2]; [lia|].
  assert (EN : IZR (Z.of_nat (i + 1)) = INR (S i)) by (rewrite INR_IZR_INZ; f_equal; lia).
  destruct (mul_FR (F_ofZ (Z.of_nat (i + 1))) (c_dt c) N2 Hf) as [M1 M2].
  { rewrite N1, EN. apply Rabs_pos_le; auto. apply Rmult_le_pos; auto. apply pos_INR. }
  rewrite N1, EN in M1. auto.
Qed.

Lemma time64_lt c i j : fin (c_dt c) -> p2 (-1022) <= FR (c_dt c) -> (i < j)%nat -> (Z.of_nat j < 2 ^ 52)%Z ->
  INR (S j) * FR (c_dt c) <= big -> nltb (time_of c i) (time_of c j) = true.
Proof.
  intros Hf Hd Hij Hj Hb. pose proof (bpow_gt_0 radix2 (-1022)) as P0.
  assert (Hle : INR (S (S i)) <= INR (S j)) by (apply le_INR; lia).
  assert (Hb1 : INR (S (S i)) * FR (c_dt c) <= big).
  { eapply Rle_trans; [|exact Hb]. apply Rmult_le_compat_r; lra. }
  assert (HS : INR (S (S i)) = INR (S i) + 1) by (rewrite S_INR; auto).
  assert (Hb0 : INR (S i) * FR (c_dt c) <= big).
  { eapply Rle_trans; [|exact Hb1]. apply Rmult_le_compat_r; lra. }
  destruct (time64 c i) as [A1 A2]; auto; [lra|lia|].
  destruct (time64 c j) as [B1 B2]; auto; [lra|lia|].
  cbn [nltb F_num]. rewrite ltb_FR by auto. apply Rlt_bool_true. rewrite A1, B1.
  apply Rlt_le_trans with (rnd (INR (S (S i)) * FR (c_dt c))).
  2:{ apply rnd_le. apply Rmult_le_compat_r; lra. }
  set (d := FR (c_dt c)) in *. set (n := INR (S i)) in *. rewrite HS in *.
  assert (Hn : 1 <= n) by (unfold n; rewrite S_INR; pose proof (pos_INR i); lra).
  assert (Hn2 : n <= p2 52 - 1).
  { unfold n. rewrite INR_IZR_INZ. replace (p2 52 - 1) with (IZR (2 ^ 52 - 1)) by (cbn; lra). apply IZR_le. lia. }
  assert (X1 : Rabs (n * d) = n * d) by (apply Rabs_pos_eq, Rmult_le_pos; lra).
  assert (X2 : Rabs ((n + 1) * d) = (n + 1) * d) by (apply Rabs_pos_eq, Rmult_le_pos; lra).
  assert (nd : d <= n * d) by (rewrite <- (Rmult_1_l d) at 1; apply Rmult_le_compat_r; lra).
  assert (E1 : Rabs (rnd (n * d) - n * d) <= p2 (-53) * (n * d)).
  { rewrite <- X1 at 3. apply rnd_rel. rewrite X1. lra. }
  assert (E2 : Rabs (rnd ((n + 1) * d) - (n + 1) * d) <= p2 (-53) * ((n + 1) * d)).
  { rewrite <- X2 at 3. apply rnd_rel. rewrite X2. lra. }
  apply Rabs_le_inv in E1, E2.
  assert (K : p2 (-53) * (n * d) + p2 (-53) * ((n + 1) * d) < d).
  { replace (p2 (-53) * (n * d) + p2 (-53) * ((n + 1) * d)) with ((p2 (-53) * (2 * n + 1)) * d) by ring.
    rewrite <- (Rmult_1_l d) at 2. apply Rmult_lt_compat_r; [lra|].
    apply Rle_lt_trans with (p2 (-53) * (p2 53 - 1)).
    - apply Rmult_le_compat_l; [apply bpow_ge_0|]. replace (p2 53) with (2 * p2 52) by (cbn; lra). lra.
    - rewrite Rmult_minus_distr_l, <- bpow_plus. change (p2 (-53 + 53)) with 1. pose proof (bpow_gt_0 radix2 (-53)). lra. }
  lra.
Qed.

(** ** the number of steps *)
Lemma steps64 dt tt : fin dt -> fin tt -> 0 < FR dt -> 0 <= FR tt -> FR tt / FR dt <= p2 52 ->
  exists k, num_steps dt tt = Ok k /\ INR k <= rnd (FR tt / FR dt) < INR k + 1.
Proof.
  intros Hd Ht Hd0 Ht0 Hq. destruct zero_FR as [Z1 Z2].
  assert (Q0 : 0 <= FR tt / FR dt) by (apply Rmult_le_pos; auto; left; apply Rinv_0_lt_compat; auto).
  unfold num_steps, pdiv. cbn [neqb ndiv F_num]. rewrite (eqb_FR dt nzero Hd Z2), Z1, Req_bool_false by lra.
  cbn [rbind]. destruct (div_FR tt dt Ht) as [D1 D2]; [lra| |].
  { apply Rabs_pos_le; auto. eapply Rle_trans; [exact Hq|]. apply p2_big. lia. }
  cbn [ntrunc F_num]. rewrite trunc_FR by auto. rewrite D1.
  assert (R0 := rnd_pos _ Q0). rewrite Ztrunc_floor by auto.
  assert (ZF : (0 <= Zfloor (rnd (FR tt / FR dt)))%Z) by (apply Zfloor_lub; auto).
  eexists. split; [reflexivity|]. rewrite INR_IZR_INZ, Z2Nat.id by auto.
  split; [apply Zfloor_lb|apply Zfloor_ub].
Qed.
Lemma rel_small a : 0 <= a -> Rabs (rnd a - a) <= p2 (-53) * a + p2 (-1074).
Proof.
  intros Ha. destruct (Rle_dec (p2 (-1022)) a) as [H|H].
  - pose proof (rnd_rel a) as X. rewrite (Rabs_pos_eq a Ha) in X. specialize (X H).
    pose proof (bpow_ge_0 radix2 (-1074)). lra.
  - pose proof (rnd_abs a (-1021) ltac:(lia)) as X. rewrite (Rabs_pos_eq a Ha) in X.
    assert (L : p2 (-1022) <= p2 (-1021)) by (apply bpow_le; lia).
    specialize (X ltac:(lra)). 
    assert (L2 : p2 (-1021 - 54) <= p2 (-1074)) by (apply bpow_le; lia).
    pose proof (Rmult_le_pos _ _ (bpow_ge_0 radix2 (-53)) Ha). lra.
Qed.

(** simulating up to the k-th simulated time runs k - 1 or k steps *)
Lemma steps_to_time64 c k : fin (c_dt c) -> p2 (-960) <= FR (c_dt c) <= p2 900 -> (0 < k)%nat -> (Z.of_nat k <= 2 ^ 50)%Z ->
  num_steps (c_dt c) (time_of c (k - 1)) = Ok k \/ num_steps (c_dt c) (time_of c (k - 1)) = Ok (k - 1)%nat.
Proof.
  intros Hf [Hd Hd2] Hk Hk2. pose proof (bpow_gt_0 radix2 (-960)) as P0.
  assert (HK : 1 <= INR k <= p2 50).
  { split; [apply (le_INR 1); lia|]. rewrite INR_IZR_INZ. change (p2 50) with (IZR (2 ^ 50)). apply IZR_le. lia. }
  assert (Hb : INR k * FR (c_dt c) <= p2 950).
  { change (p2 950) with (p2 (50 + 900)). rewrite bpow_plus. apply Rmult_le_compat; lra. }
  destruct (time64 c (k - 1)) as [A1 A2]; auto; [lra|lia| |].
  { replace (S (k - 1)) with k by lia. eapply Rle_trans; [exact Hb|apply p2_big; lia]. }
  replace (S (k - 1)) with k in A1 by lia.
  set (d := FR (c_dt c)) in *.
  assert (KD : d <= INR k * d) by (rewrite <- (Rmult_1_l d) at 1; apply Rmult_le_compat_r; lra).
  assert (E1 : Rabs (rnd (INR k * d) - INR k * d) <= p2 (-53) * (INR k * d)).
  { rewrite <- (Rabs_pos_eq (INR k * d)) at 3 by (apply Rmult_le_pos; lra). apply rnd_rel.
    rewrite Rabs_pos_eq by (apply Rmult_le_pos; lra).
    apply Rle_trans with (p2 (-960)); [apply bpow_le; lia|lra]. }
  set (q := FR (time_of c (k - 1)) / d) in *.
  assert (Eq : q * d = rnd (INR k * d)) by (unfold q; rewrite <- A1; field; lra).
  assert (U : p2 (-53) * p2 50 = / 8) by (rewrite <- bpow_plus; change (p2 (-53 + 50)) with (/ 8); lra).
  assert (UK : p2 (-53) * INR k <= / 8) by (rewrite <- U; apply Rmult_le_compat_l; [apply bpow_ge_0|lra]).
  assert (Q1 : Rabs (q - INR k) <= / 8).
  { replace (q - INR k) with ((rnd (INR k * d) - INR k * d) / d) by (rewrite <- Eq; field; lra).
    unfold Rdiv. rewrite Rabs_mult, (Rabs_pos_eq (/ d)) by (left; apply Rinv_0_lt_compat; lra).
    apply Rmult_le_reg_r with d; [lra|]. rewrite Rmult_assoc, Rinv_l, Rmult_1_r by lra.
    eapply Rle_trans; [exact E1|]. rewrite <- Rmult_assoc. apply Rmult_le_compat_r; lra. }
  apply Rabs_le_inv in Q1.
  assert (Q2 : Rabs (rnd q - q) <= / 8 + / 8).
  { pose proof (rnd_abs q 51 ltac:(lia)) as X. change (51 - 54)%Z with (-3)%Z in X. change (p2 (-3)) with (/ 8) in X.
    assert (Rabs q <= p2 51). { replace (p2 51) with (2 * p2 50) by (cbn; lra). apply Rabs_le. lra. }
    specialize (X H). lra. }
  apply Rabs_le_inv in Q2.
  destruct (steps64 (c_dt c) (time_of c (k - 1))) as (m & Em & Hm); auto; fold d; try lra.
  { rewrite A1. apply rnd_pos. lra. }
  { fold q. replace (p2 52) with (4 * p2 50) by (cbn; lra). lra. }
  fold d in Hm. fold q in Hm. rewrite Em.
  assert (m = k \/ m = (k - 1)%nat) as [->| ->]; auto.
  assert (B1 : INR m < INR (k + 1)) by (rewrite plus_INR; cbn [INR]; lra). apply INR_lt in B1.
  assert (B2 : INR k < INR (m + 2)) by (rewrite plus_INR; cbn [INR]; lra). apply INR_lt in B2. lia.
Qed.

(** ** no NaN can appear among the times of a network with finite dt and delays *)
Lemma Fok_B x : Fok x <-> BinarySingleNaN.is_nan (Prim2B x) = false.
Proof. unfold Fok. rewrite <- B2SF_Prim2B. destruct (Prim2B x); cbn; split; congruence. Qed.
Lemma ofZ_fin i : fin (F_ofZ (Z.of_nat i)).
Proof.
  unfold F_ofZ. destruct (Z.leb_spec 0 (Z.of_nat i)); [|lia].
  unfold fin. rewrite of_int63_equiv.
  pose proof (Uint63.to_Z_bounded (Uint63.of_Z (Z.of_nat i))) as B. change wB with (2 ^ 63)%Z in B.
  set (z := Uint63.to_Z _) in *.
  pose proof (binary_normalize_correct _ _ PrimFloat.Hprec Hmax mode_NE z 0 false) as X. cbv zeta in X.
  change (round_mode mode_NE) with ZnearestE in X.
  assert (EF : F2R (Float radix2 z 0) = IZR z) by (unfold F2R; cbn; lra).
  rewrite EF in X. fold (rnd (IZR z)) in X. rewrite no_overflow in X; [apply X|].
  rewrite <- abs_IZR, Z.abs_eq by lia. apply Rle_trans with (bpow radix2 63).
  - change (bpow radix2 63) with (IZR (2 ^ 63)). apply IZR_le; lia.
  - apply bpow_le. lia.
Qed.
Lemma mul_ok x y : fin x -> fin y -> Fok (PrimFloat.mul x y).
Proof.
  intros Hx Hy. apply Fok_B. rewrite mul_equiv.
  pose proof (Bmult_correct _ _ PrimFloat.Hprec Hmax mode_NE (Prim2B x) (Prim2B y)) as X.
  destruct (Rlt_bool _ _).
  - destruct X as (_ & X & _). unfold fin in *. rewrite Hx, Hy in X.
    revert X. destruct (Bmult _ _ _); cbn; congruence.
  - revert X. destruct (Bmult _ _ _); cbn; congruence.
Qed.
Lemma add_ok x y : Fok x -> fin y -> Fok (PrimFloat.add x y).
Proof.
  intros Hx Hy. apply Fok_B. apply Fok_B in Hx. rewrite add_equiv.
  destruct (BinarySingleNaN.is_finite (Prim2B x)) eqn:F.
  - pose proof (Bplus_correct _ _ PrimFloat.Hprec Hmax mode_NE (Prim2B x) (Prim2B y) F Hy) as X.
    destruct (Rlt_bool _ _).
    + destruct X as (_ & X & _). revert X. destruct (Bplus _ _ _); cbn; congruence.
    + destruct X as [X _]. revert X. destruct (Bplus _ _ _); cbn; congruence.
  - unfold fin in Hy. destruct (Prim2B x) as [s|s| |s m e H]; cbn in F, Hx; try discriminate.
    destruct (Prim2B y) as [s'|s'| |s' m' e' H']; cbn in Hy; try discriminate; reflexivity.
Qed.
Lemma times_ok64 c : fin (c_dt c) -> (forall y, In y (w_syns (c_world c)) -> fin (s_delay y)) -> times_ok Fok c.
Proof.
  intros Hd Hy i. assert (A : Fok (time_of c i)) by (apply mul_ok; auto; apply ofZ_fin).
  split; auto. intros y Iy. apply add_ok; auto.
Qed.

Lemma fin_ok x : fin x -> Fok x.
Proof. rewrite Fok_B. unfold fin. destruct (Prim2B x); cbn; congruence. Qed.

Lemma no_overdue64 c ord ext tt k s : fin (c_dt c) ->
  (forall y, In y (w_syns (c_world c)) -> fin (s_delay y)) -> (forall n t, In (n, t) ext -> fin t) ->
  num_steps (c_dt c) tt = Ok (S k) -> simulate c ord (inputs_of c ext) tt = Ok s ->
  forall e, In e (s_q s) -> nleb (e_time e) (time_of c k) = false \/
    exists y, In y (w_syns (c_world c)) /\ e = syn_event (time_of c k) y /\ In (time_of c k) (spike_log s (s_pre y)).
Proof.
  intros Hd Hy He. apply (no_overdue Fok F_ord); [apply times_ok64; auto|].
  intros n t y Hn Iy. apply add_ok; auto. apply fin_ok. eauto.
Qed.

(** ** spike times are strictly increasing *)
Definition flt (a b : float) : Prop := nltb a b = true.
Lemma increasing64 c ord s tt k s' n : ord_ok ord -> fin (c_dt c) -> p2 (-1022) <= FR (c_dt c) ->
  num_steps (c_dt c) tt = Ok k -> (Z.of_nat k <= 2 ^ 52)%Z -> INR k * FR (c_dt c) <= big ->
  simulate c ord s tt = Ok s' ->
  exists new, spike_log s' n = spike_log s n ++ new /\ StronglySorted flt new.
Proof.
  intros Hord Hd Hd0 EK Hk Hb E. apply simulate_inv in E. destruct E as (k' & act & EK' & E).
  rewrite EK in EK'. injection EK' as <-.
  destruct (steps_neuron c ord n Hord _ _ _ _ _ _ (NoDup_nil _) E) as (log & L1 & L2 & L3 & _).
  eexists. split; [exact L3|]. clear L3 E.
  induction log as [|[i [b v]] log IH]; cbn [filter map]; [constructor|].
  cbn [map fst] in L1. inversion L1 as [|? ? S1 S2]; subst. inversion L2 as [|? ? [X1 X2] X3]; subst.
  cbn [fst snd] in *. specialize (IH S1 X3). destruct b; auto. cbn [map fst]. constructor; auto.
  apply Forall_map. rewrite Forall_forall in *. intros [j y] Hj. apply filter_In in Hj. destruct Hj as [Hj _].
  cbn [fst]. specialize (X3 _ Hj). cbn [fst] in X3. apply time64_lt; auto; [|lia|].
  - apply S2. apply (in_map fst) in Hj. exact Hj.
  - eapply Rle_trans; [|exact Hb]. apply Rmult_le_compat_r; [pose proof (bpow_ge_0 radix2 (-1022)); lra|].
    apply le_INR. lia.
Qed.
