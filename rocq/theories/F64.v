(** Binary64 arithmetic ([F_num]) related to the reals through Flocq: every operation of
    the model's float instance is the correctly rounded real operation. *)
From Coq Require Import ZArith Bool Reals Lra Lia.
From Flocq Require Import Core Relative BinarySingleNaN PrimFloat.
From Coq Require Import Floats Uint63.
From Verif Require Import Num NumOrd.
Open Scope R_scope.

(** the real number a float stands for, and finiteness *)
Definition FR (x : float) : R := B2R (Prim2B x).
Definition fin (x : float) : Prop := BinarySingleNaN.is_finite (Prim2B x) = true.
(** rounding to nearest even in binary64 *)
Definition rnd (a : R) : R := round radix2 (SpecFloat.fexp FloatOps.prec FloatOps.emax) ZnearestE a.
Definition big : R := bpow radix2 1023.

#[export] Existing Instance Hprec.
#[export] Instance fexp_ok : Valid_exp (SpecFloat.fexp FloatOps.prec FloatOps.emax).
Proof. apply (FLT_exp_valid (3 - FloatOps.emax - FloatOps.prec) FloatOps.prec). Qed.

Lemma rnd_le a b : a <= b -> rnd a <= rnd b.
Proof. apply round_le; typeclasses eauto. Qed.
Lemma rnd_0 : rnd 0 = 0. Proof. apply round_0. typeclasses eauto. Qed.
Lemma rnd_opp a : rnd (- a) = - rnd a. Proof. apply round_NE_opp. Qed.
Lemma FR_format x : generic_format radix2 (SpecFloat.fexp FloatOps.prec FloatOps.emax) (FR x).
Proof. apply generic_format_B2R. Qed.
Lemma rnd_FR x : rnd (FR x) = FR x.
Proof. apply round_generic; [typeclasses eauto|apply FR_format]. Qed.
Lemma bpow_format e : (-1074 <= e)%Z ->
  generic_format radix2 (SpecFloat.fexp FloatOps.prec FloatOps.emax) (bpow radix2 e).
Proof. intros. apply (generic_format_FLT_bpow radix2 (3 - FloatOps.emax - FloatOps.prec) FloatOps.prec); auto. Qed.
Lemma rnd_bpow e : (-1074 <= e)%Z -> rnd (bpow radix2 e) = bpow radix2 e.
Proof. intros. apply round_generic; [typeclasses eauto|apply bpow_format; auto]. Qed.
Lemma Z_format z : (Z.abs z <= 2 ^ 53)%Z -> 
  generic_format radix2 (SpecFloat.fexp FloatOps.prec FloatOps.emax) (IZR z).
Proof.
  intros Hz. destruct (Z.eq_dec (Z.abs z) (2 ^ 53)) as [E|N].
  - assert (IZR (Z.abs z) = bpow radix2 53) as EB by (rewrite E; reflexivity).
    apply generic_format_abs_inv. rewrite <- abs_IZR, EB. apply bpow_format. lia.
  - apply (generic_format_FLT radix2 (3 - FloatOps.emax - FloatOps.prec) FloatOps.prec).
    exists (Float radix2 z 0); cbn; [unfold F2R; cbn; lra| |lia].
    change (Z.pow_pos 2 53) with (2 ^ 53)%Z. lia.
Qed.
Lemma rnd_Z z : (Z.abs z <= 2 ^ 53)%Z -> rnd (IZR z) = IZR z.
Proof. intros. apply round_generic; [typeclasses eauto|apply Z_format; auto]. Qed.

Lemma no_overflow a : Rabs a <= big -> Rlt_bool (Rabs (rnd a)) (bpow radix2 FloatOps.emax) = true.
Proof.
  intros H. apply Rlt_bool_true. apply Rle_lt_trans with big.
  - unfold rnd. apply abs_round_le_generic; [typeclasses eauto|typeclasses eauto|apply bpow_format; lia|exact H].
  - apply bpow_lt. reflexivity.
Qed.

Lemma mul_FR x y : fin x -> fin y -> Rabs (FR x * FR y) <= big ->
  FR (PrimFloat.mul x y) = rnd (FR x * FR y) /\ fin (PrimFloat.mul x y).
Proof.
  unfold FR, fin. intros Hx Hy H. rewrite mul_equiv.
  pose proof (Bmult_correct _ _ Hprec Hmax mode_NE (Prim2B x) (Prim2B y)) as X.
  change (round_mode mode_NE) with ZnearestE in X. fold (rnd (B2R (Prim2B x) * B2R (Prim2B y))) in X.
  rewrite (no_overflow _ H) in X. destruct X as (X1 & X2 & _). split; [exact X1|]. rewrite X2, Hx, Hy. reflexivity.
Qed.
Lemma add_FR x y : fin x -> fin y -> Rabs (FR x + FR y) <= big ->
  FR (PrimFloat.add x y) = rnd (FR x + FR y) /\ fin (PrimFloat.add x y).
Proof.
  unfold FR, fin. intros Hx Hy H. rewrite add_equiv.
  pose proof (Bplus_correct _ _ Hprec Hmax mode_NE (Prim2B x) (Prim2B y) Hx Hy) as X.
  change (round_mode mode_NE) with ZnearestE in X. fold (rnd (B2R (Prim2B x) + B2R (Prim2B y))) in X.
  rewrite (no_overflow _ H) in X. destruct X as (X1 & X2 & _). split; [exact X1|exact X2].
Qed.
Lemma sub_FR x y : fin x -> fin y -> Rabs (FR x - FR y) <= big ->
  FR (PrimFloat.sub x y) = rnd (FR x - FR y) /\ fin (PrimFloat.sub x y).
Proof.
  unfold FR, fin. intros Hx Hy H. rewrite sub_equiv.
  pose proof (Bminus_correct _ _ Hprec Hmax mode_NE (Prim2B x) (Prim2B y) Hx Hy) as X.
  change (round_mode mode_NE) with ZnearestE in X. fold (rnd (B2R (Prim2B x) - B2R (Prim2B y))) in X.
  rewrite (no_overflow _ H) in X. destruct X as (X1 & X2 & _). split; [exact X1|exact X2].
Qed.
Lemma div_FR x y : fin x -> FR y <> 0 -> Rabs (FR x / FR y) <= big ->
  FR (PrimFloat.div x y) = rnd (FR x / FR y) /\ fin (PrimFloat.div x y).
Proof.
  unfold FR, fin. intros Hx Hy H. rewrite div_equiv.
  pose proof (Bdiv_correct _ _ Hprec Hmax mode_NE (Prim2B x) (Prim2B y) Hy) as X.
  change (round_mode mode_NE) with ZnearestE in X. fold (rnd (B2R (Prim2B x) / B2R (Prim2B y))) in X.
  rewrite (no_overflow _ H) in X. destruct X as (X1 & X2 & _). split; [exact X1|]. rewrite X2, Hx. reflexivity.
Qed.
Lemma leb_FR x y : fin x -> fin y -> PrimFloat.leb x y = Rle_bool (FR x) (FR y).
Proof. intros. rewrite leb_equiv. apply Bleb_correct; auto. Qed.
Lemma ltb_FR x y : fin x -> fin y -> PrimFloat.ltb x y = Rlt_bool (FR x) (FR y).
Proof. intros. rewrite ltb_equiv. apply Bltb_correct; auto. Qed.
Lemma eqb_FR x y : fin x -> fin y -> PrimFloat.eqb x y = Req_bool (FR x) (FR y).
Proof.
  intros Hx Hy. rewrite eqb_equiv. unfold Beqb, SFeqb. 
  pose proof (Bcompare_correct _ _ _ _ Hx Hy) as C. unfold Bcompare in C. rewrite C.
  unfold Req_bool. fold (FR x) (FR y). destruct (Rcompare (FR x) (FR y)); reflexivity.
Qed.

(** of integers *)
Lemma ofZ_FR z : (0 <= z <= 2 ^ 53)%Z -> FR (F_ofZ z) = IZR z /\ fin (F_ofZ z).
Proof.
  intros Hz. unfold F_ofZ. destruct (Z.leb_spec 0 z); [|lia].
  unfold FR, fin. rewrite of_int63_equiv.
  rewrite Uint63.of_Z_spec. rewrite Z.mod_small by (change wB with (2 ^ 63)%Z; lia).
  pose proof (binary_normalize_correct _ _ Hprec Hmax mode_NE z 0 false) as X.
  change (round_mode mode_NE) with ZnearestE in X.
  cbv zeta in X. assert (EF : F2R (Float radix2 z 0) = IZR z) by (unfold F2R; cbn; lra).
  rewrite EF in X. fold (rnd (IZR z)) in X. rewrite no_overflow in X.
  - destruct X as (X1 & X2 & _). split; auto. rewrite X1. apply rnd_Z. lia.
  - rewrite <- abs_IZR, Z.abs_eq by lia. apply Rle_trans with (bpow radix2 53).
    + change (bpow radix2 53) with (IZR (2 ^ 53)). apply IZR_le; lia.
    + apply bpow_le. lia.
Qed.

(** int(x) *)
Lemma trunc_FR x : fin x -> F_trunc x = Some (Ztrunc (FR x)).
Proof.
  unfold fin, FR, F_trunc. rewrite <- B2SF_Prim2B. destruct (Prim2B x) as [s|s| |s m e H]; cbn; intros Hf; try discriminate.
  - change 0 with (IZR 0). rewrite Ztrunc_IZR. auto.
  - f_equal.
    assert (P : Ztrunc (F2R (Float radix2 (Zpos m) e)) =
                if Z.leb 0 e then (Zpos m * 2 ^ e)%Z else (Zpos m / 2 ^ (- e))%Z).
    { unfold F2R. cbn [Fnum Fexp]. destruct (Z.leb_spec 0 e) as [He|He].
      - rewrite <- (IZR_Zpower radix2 e He), <- mult_IZR, Ztrunc_IZR. reflexivity.
      - replace e with (- (- e))%Z at 1 by lia. rewrite bpow_opp, <- (IZR_Zpower radix2 (- e)) by lia.
        change (IZR (Zpos m) * / IZR (radix2 ^ - e)) with (IZR (Zpos m) / IZR (radix2 ^ - e)).
        rewrite Ztrunc_floor.
        + rewrite Zfloor_div; [reflexivity|]. change (radix_val radix2) with 2%Z.
          pose proof (Z.pow_pos_nonneg 2 (- e)). lia.
        + apply Rmult_le_pos; [apply IZR_le; lia|]. left. apply Rinv_0_lt_compat. apply IZR_lt.
          change (radix_val radix2) with 2%Z. apply Z.pow_pos_nonneg; lia. }
    destruct s; cbn [cond_Zopp].
    + change (Zneg m) with (- Zpos m)%Z. rewrite F2R_Zopp, Ztrunc_opp, P. reflexivity.
    + rewrite P. reflexivity.
Qed.

(** error of one rounding *)
Lemma rnd_rel a : bpow radix2 (-1022) <= Rabs a -> Rabs (rnd a - a) <= bpow radix2 (-53) * Rabs a.
Proof.
  intros H. unfold rnd.
  pose proof (relative_error_N_FLT radix2 (3 - FloatOps.emax - FloatOps.prec) FloatOps.prec (eq_refl _) (fun z => negb (Z.even z)) a H) as X.
  change (/ 2 * bpow radix2 (- FloatOps.prec + 1)) with (/ 2 * bpow radix2 (- 52)) in X.
  replace (/ 2 * bpow radix2 (- 52)) with (bpow radix2 (- 53)) in X.
  - exact X.
  - change (/ 2) with (bpow radix2 (-1)). rewrite <- bpow_plus. reflexivity.
Qed.
(** absolute error below 2^e *)
Lemma rnd_abs a e : (-1021 <= e)%Z -> Rabs a <= bpow radix2 e -> Rabs (rnd a - a) <= bpow radix2 (e - 54).
Proof.
  intros He Ha. destruct (Rle_lt_or_eq_dec _ _ Ha) as [Hlt|Heq].
  - pose proof (error_le_half_ulp radix2 (SpecFloat.fexp FloatOps.prec FloatOps.emax) (fun z => negb (Z.even z)) a) as X.
    eapply Rle_trans; [exact X|].
    assert (U : Ulp.ulp radix2 (SpecFloat.fexp FloatOps.prec FloatOps.emax) a <= bpow radix2 (e - 53)).
    { destruct (Req_dec a 0) as [->|N].
      - change (SpecFloat.fexp FloatOps.prec FloatOps.emax) with (FLT_exp (-1074) 53).
        rewrite ulp_FLT_0; [|reflexivity]. apply bpow_le. lia.
      - rewrite ulp_neq_0 by auto. apply bpow_le. unfold cexp, SpecFloat.fexp, SpecFloat.emin.
        pose proof (mag_le_bpow radix2 a e N Hlt). unfold FloatOps.prec, FloatOps.emax. lia. }
    replace (bpow radix2 (e - 54)) with (/ 2 * bpow radix2 (e - 53)).
    + lra.
    + change (/ 2) with (bpow radix2 (-1)). rewrite <- bpow_plus. f_equal. lia.
  - assert (rnd a = a) as ->.
    { unfold rnd. apply round_generic; [typeclasses eauto|]. apply generic_format_abs_inv. rewrite Heq.
      apply bpow_format. lia. }
    replace (a - a) with 0 by lra. rewrite Rabs_R0. apply bpow_ge_0.
Qed.
