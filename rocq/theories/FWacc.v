(** The weight wacc = Vt * tm / Tmax and the length of the ramp it drives, in binary64. *)
From Coq Require Import Arith ZArith Bool List Reals Lra Lia Permutation.
From Flocq Require Import Core BinarySingleNaN PrimFloat.
From Coq Require Import Floats Uint63.
From Verif Require Import Num NumOrd Elements Simulator Networks Trace SimTrace AnySim F64 F64Thms GTrace TraceProps NeuronLib NetLib MemoryProof SegLib Build BuildNets Bridge FNet FSession FRamp.
Import ListNotations.
Open Scope list_scope.
Open Scope R_scope.

(** a is b up to the relative error u *)
Definition rel (a b u : R) : Prop := (1 - u) * b <= a <= (1 + u) * b.
Lemma rel_rnd a b u v : 0 <= u <= / 8 -> v = u + p2 (-52) -> p2 (-900) <= b -> rel a b u -> rel (rnd a) b v.
Proof.
  intros Hu -> Hb [A1 A2].
  assert (P : 0 < p2 (-900)) by apply bpow_gt_0.
  assert (B1 : b / 2 <= a). { apply Rle_trans with (2 := A1). assert (u * b <= / 8 * b) by (apply Rmult_le_compat_r; lra). lra. }
  assert (B2 : a <= 2 * b). { apply Rle_trans with (1 := A2). assert (u * b <= / 8 * b) by (apply Rmult_le_compat_r; lra). lra. }
  pose proof (rnd_rel a) as X. rewrite Rabs_pos_eq in X by lra.
  assert (Q : p2 (-1022) <= a).
  { apply Rle_trans with (p2 (-901)); [apply bpow_le; lia|]. replace (p2 (-901)) with (p2 (-900) / 2); [lra|].
    change (-900)%Z with (-901 + 1)%Z. rewrite bpow_plus. change (p2 1) with 2. lra. }
  specialize (X Q). apply Rabs_le_inv in X.
  assert (Y : p2 (-53) * a <= p2 (-52) * b).
  { replace (p2 (-52)) with (p2 (-53) * 2) by (cbn; lra). rewrite Rmult_assoc. apply Rmult_le_compat_l; [apply bpow_ge_0|lra]. }
  unfold rel. split; lra.
Qed.
Lemma rel_scale a b u k : 0 <= k -> rel a b u -> rel (k * a) (k * b) u.
Proof.
  intros Hk [A1 A2]. split; (eapply Rle_trans; [|apply Rmult_le_compat_l; [exact Hk|eassumption]]) || (eapply Rle_trans; [apply Rmult_le_compat_l; [exact Hk|eassumption]|]); right; ring.
Qed.
Lemma rel_inv a b u k : 0 < k -> 0 < b -> 0 <= u <= / 8 -> rel a b u -> rel (k / a) (k / b) (2 * u).
Proof.
  intros Hk Hb Hu [A1 A2].
  assert (Ha : 0 < a). { apply Rlt_le_trans with (2 := A1). apply Rmult_lt_0_compat; lra. }
  assert (U2 : u * u <= / 8 * u) by (apply Rmult_le_compat_r; lra).
  assert (G : forall c p q, 0 < p -> p * q <= c -> q <= c / p).
  { intros c p q Hp H. apply Rmult_le_reg_l with p; auto. unfold Rdiv. replace (p * (c * / p)) with c by (field; lra). auto. }
  assert (G' : forall c p q, 0 < p -> c <= p * q -> c / p <= q).
  { intros c p q Hp H. apply Rmult_le_reg_l with p; auto. unfold Rdiv. replace (p * (c * / p)) with c by (field; lra). auto. }
  split.
  - apply G; auto. replace (a * ((1 - 2 * u) * (k / b))) with (k * ((1 - 2 * u) * (a / b))) by (field; lra).
    rewrite <- (Rmult_1_r k) at 2. apply Rmult_le_compat_l; [lra|].
    apply Rle_trans with ((1 - 2 * u) * (1 + u)).
    + apply Rmult_le_compat_l; [lra|]. apply G'; lra.
    + replace ((1 - 2 * u) * (1 + u)) with (1 - u - 2 * (u * u)) by ring. assert (0 <= u * u) by (apply Rmult_le_pos; lra). lra.
  - apply G'; auto. replace (a * ((1 + 2 * u) * (k / b))) with (k * ((1 + 2 * u) * (a / b))) by (field; lra).
    rewrite <- (Rmult_1_r k) at 1. apply Rmult_le_compat_l; [lra|].
    apply Rle_trans with ((1 + 2 * u) * (1 - u)).
    + replace ((1 + 2 * u) * (1 - u)) with (1 + u - 2 * (u * u)) by ring. lra.
    + apply Rmult_le_compat_l; [lra|]. apply G; lra.
Qed.

Definition zeta : R := p2 (-15).
Lemma wacc_F tmin tcod : fin tmin -> fin tcod -> 0 <= FR tmin -> 0 <= FR tcod -> 1 <= FR tmin + FR tcod <= p2 12 ->
  let Wf := wacc_of (DataEncoder tmin tcod) in
  fin Wf /\ rel (FR Wf) (1000 / (FR tmin + FR tcod)) (p2 (-49)) /\ neqb (Tmax (DataEncoder tmin tcod)) nzero = false.
Proof.
  intros F1 F2 H1 H2 HS Wf. set (S := FR tmin + FR tcod) in *.
  assert (C12 : p2 12 = 4096) by (cbn; lra). rewrite C12 in HS.
  destruct (add_FR tmin tcod F1 F2) as [A1 A2].
  { apply Rabs_pos_le; [fold S; lra|]. apply Rle_trans with (p2 12); [fold S; lra|apply p2_big; lia]. }
  fold S in A1.
  assert (B : rel (FR (PrimFloat.add tmin tcod)) S (p2 (-52))).
  { rewrite A1. apply (rel_rnd S S 0); [split; lra|lra| |unfold rel; lra]. apply Rle_trans with 1; [|lra]. change 1 with (p2 0). apply bpow_le; lia. }
  assert (U : 0 <= p2 (-52) <= / 8) by (cbn; lra).
  assert (B0 : 0 < FR (PrimFloat.add tmin tcod)). { destruct B as [B _]. apply Rlt_le_trans with (2 := B). apply Rmult_lt_0_compat; lra. }
  assert (EK : nmul (T := float) cVt ctm = nofZ 1000) by (vm_compute; reflexivity).
  destruct (ofZ_small 1000 ltac:(lia)) as [K1 K2].
  assert (C : rel (1000 / FR (PrimFloat.add tmin tcod)) (1000 / S) (2 * p2 (-52))) by (apply rel_inv; auto; lra).
  assert (IS : 1000 / 4096 <= 1000 / S <= 1000).
  { split.
    - unfold Rdiv. apply Rmult_le_compat_l; [lra|]. apply Rinv_le_contravar; lra.
    - apply Rmult_le_reg_r with S; [lra|]. unfold Rdiv. rewrite Rmult_assoc, Rinv_l by lra. lra. }
  assert (IB : 0 <= 1000 / FR (PrimFloat.add tmin tcod) <= 2000).
  { destruct C as [C1 C2]. assert (0 <= (1 - 2 * p2 (-52)) * (1000 / S)) by (apply Rmult_le_pos; lra).
    assert (p2 (-52) * (1000 / S) <= / 8 * (1000 / S)) by (apply Rmult_le_compat_r; lra). lra. }
  destruct (div_FR (nofZ 1000) (PrimFloat.add tmin tcod) K2) as [D1 D2]; [lra| |].
  { rewrite K1. apply Rabs_pos_le; [lra|]. apply Rle_trans with (p2 12); [lra|apply p2_big; lia]. }
  unfold Wf, wacc_of. rewrite EK. cbn [Tmax DataEncoder ndiv nadd F_num]. split; [exact D2|]. split.
  - rewrite D1, K1. 
    assert (X : rel (rnd (1000 / FR (PrimFloat.add tmin tcod))) (1000 / S) (2 * p2 (-52) + p2 (-52))).
    { apply (rel_rnd _ _ (2 * p2 (-52))); auto; [cbn; lra|]. apply Rle_trans with (p2 (-3)); [apply bpow_le; lia|]. change (p2 (-3)) with (/ 8). lra. }
    assert (Y : 3 * p2 (-52) * (1000 / S) <= p2 (-49) * (1000 / S)) by (apply Rmult_le_compat_r; [lra|cbn; lra]).
    destruct X as [X1 X2]. unfold rel. split; lra.
  - cbn [neqb F_num]. destruct zero_FR as [Z1 Z2]. rewrite eqb_FR by auto. rewrite Z1. apply Req_bool_false. lra.
Qed.

Lemma inc_rel d W q : p2 (-12) <= d <= 1 / 8 -> p2 (-49) * 2 <= 1 -> 1000 / 4096 <= q <= 1000 -> rel W q (p2 (-49)) -> rel (inc d W) (d * q / 100) (p2 (-48)).
Proof.
  intros Hd _ Hq HW. unfold inc.
  assert (C12 : p2 (-12) = / 4096) by (cbn; lra). rewrite C12 in Hd.
  assert (L : / 4096 * (1000 / 4096) <= d * q) by (apply Rmult_le_compat; lra).
  assert (X : rel (rnd (d * W)) (d * q) (p2 (-49) + p2 (-52))).
  { apply (rel_rnd _ _ (p2 (-49))); auto; [cbn; lra| |apply rel_scale; auto; lra].
    apply Rle_trans with (p2 (-20)); [apply bpow_le; lia|]. cbn. lra. }
  assert (Y : rel (rnd (d * W) / 100) (d * q / 100) (p2 (-49) + p2 (-52))).
  { unfold Rdiv. rewrite !(Rmult_comm _ (/ 100)). apply rel_scale; auto. lra. }
  assert (Z : rel (rnd (rnd (d * W) / 100)) (d * q / 100) (p2 (-49) + p2 (-52) + p2 (-52))).
  { apply (rel_rnd _ _ (p2 (-49) + p2 (-52))); auto; [cbn; lra|].
    apply Rle_trans with (p2 (-30)); [apply bpow_le; lia|]. cbn. lra. }
  assert (Q : (p2 (-49) + p2 (-52) + p2 (-52)) * (d * q / 100) <= p2 (-48) * (d * q / 100)) by (apply Rmult_le_compat_r; [lra|cbn; lra]).
  destruct Z as [Z1 Z2]. split; lra.
Qed.

(** the ramp driven by wacc takes N steps, and N * d is Tmax up to one step *)
Lemma ramp_length d W Tm : p2 (-12) <= d <= 1 / 8 -> 1 <= Tm <= p2 12 -> rel W (1000 / Tm) (p2 (-49)) ->
  0 <= inc d W <= 6 /\ exists N, takes (inc d W) N /\ Tm - zeta <= INR N * d <= Tm + d + zeta.
Proof.
  intros Hd HT HW. set (i := inc d W).
  assert (C12 : p2 12 = 4096) by (cbn; lra). rewrite C12 in HT.
  assert (D12 : p2 (-12) = / 4096) by (cbn; lra). pose proof Hd as Hd'. rewrite D12 in Hd'.
  assert (IS : 1000 / 4096 <= 1000 / Tm <= 1000).
  { split.
    - unfold Rdiv. apply Rmult_le_compat_l; [lra|]. apply Rinv_le_contravar; lra.
    - apply Rmult_le_reg_r with Tm; [lra|]. unfold Rdiv. rewrite Rmult_assoc, Rinv_l by lra. lra. }
  pose proof (inc_rel d W (1000 / Tm) Hd ltac:(cbn; lra) IS HW) as X. fold i in X.
  set (q := d * (1000 / Tm) / 100) in *.
  assert (Eq : q * Tm = 10 * d) by (unfold q; field; lra).
  assert (Lq : / 4096 * (1000 / 4096) / 100 <= q).
  { unfold q. assert (/ 4096 * (1000 / 4096) <= d * (1000 / Tm)) by (apply Rmult_le_compat; lra). lra. }
  assert (Uq : q <= 1 / 8 * 1000 / 100).
  { unfold q. assert (d * (1000 / Tm) <= 1 / 8 * 1000) by (apply Rmult_le_compat; lra). lra. }
  (* i +- 2^-50 is q up to 2^-29 *)
  assert (P50 : p2 (-50) <= p2 (-29) * q).
  { apply Rle_trans with (p2 (-29) * (/ 4096 * (1000 / 4096) / 100)); [cbn; lra|]. apply Rmult_le_compat_l; [apply bpow_ge_0|auto]. }
  assert (P48 : p2 (-48) * q <= p2 (-29) * q) by (apply Rmult_le_compat_r; [lra|apply bpow_le; lia]).
  assert (P29 : 2 * p2 (-29) = p2 (-28)) by (cbn; lra).
  assert (P29q : p2 (-28) * q = 2 * (p2 (-29) * q)) by (rewrite <- P29; ring).
  assert (P29' : 0 < p2 (-28) <= / 1024) by (cbn; lra).
  destruct X as [X1 X2].
  assert (U : i + p2 (-50) <= (1 + p2 (-28)) * q) by lra.
  assert (L : (1 - p2 (-28)) * q <= i - p2 (-50)) by lra.
  assert (Pq : p2 (-28) * q <= / 1024 * q) by (apply Rmult_le_compat_r; lra).
  assert (Pq' : 0 <= p2 (-28) * q) by (apply Rmult_le_pos; lra).
  assert (P50' : 0 < p2 (-50)) by apply bpow_gt_0.
  assert (Hi : 0 <= i <= 6) by lra. split; auto.
  assert (E : exists n : nat, 10 <= INR n * (i - p2 (-50))).
  { destruct (archimed (10 / (i - p2 (-50)))) as [Hn _]. exists (Z.to_nat (up (10 / (i - p2 (-50))))).
    assert (Hp : 0 < 10 / (i - p2 (-50))) by (apply Rdiv_lt_0_compat; lra).
    assert (Hz : (0 < up (10 / (i - p2 (-50))))%Z) by (apply lt_IZR; lra).
    rewrite INR_IZR_INZ, Z2Nat.id by lia. unfold Rdiv in *.
    apply Rmult_lt_compat_r with (r := i - p2 (-50)) in Hn; [|lra]. unfold Rdiv in Hn. rewrite Rmult_assoc, Rinv_l in Hn by lra. lra. }
  destruct E as [n Hn]. destruct (takes_exists i n Hi Hn) as (N & N1 & N2 & N3 & N4). exists N. split; auto.
  assert (PN : (1 <= N)%nat) by apply N1. rewrite minus_INR in N4 by lia. cbn [INR] in N4.
  assert (PN' : 1 <= INR N) by (change 1 with (INR 1); apply le_INR; auto).
  assert (A : 10 <= INR N * ((1 + p2 (-28)) * q)) by (apply Rle_trans with (1 := N3); apply Rmult_le_compat_l; lra).
  assert (B : (INR N - 1) * ((1 - p2 (-28)) * q) < 10) by (apply Rle_lt_trans with (2 := N4); apply Rmult_le_compat_l; lra).
  apply Rmult_le_compat_r with (r := Tm) in A; [|lra]. apply Rmult_lt_compat_r with (r := Tm) in B; [|lra].
  replace (INR N * ((1 + p2 (-28)) * q) * Tm) with (10 * ((1 + p2 (-28)) * (INR N * d))) in A.
  2:{ replace (INR N * ((1 + p2 (-28)) * q) * Tm) with (INR N * (1 + p2 (-28)) * (q * Tm)) by ring. rewrite Eq. ring. }
  replace ((INR N - 1) * ((1 - p2 (-28)) * q) * Tm) with (10 * ((1 - p2 (-28)) * (INR N * d - d))) in B.
  2:{ replace ((INR N - 1) * ((1 - p2 (-28)) * q) * Tm) with ((INR N - 1) * (1 - p2 (-28)) * (q * Tm)) by ring. rewrite Eq. ring. }
  assert (Z : zeta = 8192 * p2 (-28)) by (unfold zeta; cbn; lra). rewrite Z.
  set (u := p2 (-28)) in *. set (y := INR N * d) in *.
  assert (A' : Tm <= (1 + u) * y) by lra. assert (B' : (1 - u) * (y - d) < Tm) by lra.
  split.
  - destruct (Rle_dec (Tm - 8192 * u) y) as [|Hc]; auto. exfalso. apply Rnot_le_lt in Hc.
    assert ((1 + u) * y < (1 + u) * (Tm - 8192 * u)) by (apply Rmult_lt_compat_l; lra).
    assert (u * Tm <= u * 4096) by (apply Rmult_le_compat_l; lra).
    assert (0 <= u * u) by (apply Rmult_le_pos; lra). lra.
  - destruct (Rle_dec y (Tm + d + 8192 * u)) as [|Hc]; auto. exfalso. apply Rnot_le_lt in Hc.
    assert ((1 - u) * (Tm + 8192 * u) < (1 - u) * (y - d)) by (apply Rmult_lt_compat_l; lra).
    assert (u * Tm <= u * 4096) by (apply Rmult_le_compat_l; lra).
    assert (u * u <= u * / 1024) by (apply Rmult_le_compat_l; lra). lra.
Qed.
