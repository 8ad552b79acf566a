(** SignedConstantNetwork and SignFlipperNetwork in binary64 (C60). *)
From Coq Require Import Arith ZArith Bool List Reals Lra Lia Permutation.
From Flocq Require Import Core BinarySingleNaN PrimFloat.
From Coq Require Import Floats Uint63.
From Verif Require Import Num NumOrd Elements Simulator Networks Trace SimTrace AnySim F64 F64Thms GTrace TraceProps NeuronLib NetLib MemoryProof SegLib Build BuildNets Bridge FNet FSession FConst FRamp FWacc FMem FIMem.
Import ListNotations.
Open Scope list_scope.
Open Scope R_scope.

Lemma abs_FR x : FR (PrimFloat.abs x) = Rabs (FR x) /\ (fin x -> fin (PrimFloat.abs x)).
Proof. unfold FR, fin. rewrite abs_equiv. rewrite B2R_Babs, is_finite_Babs. auto. Qed.

Section SConst.
Variables (tmin tcod v dt t0 T : float) (ord : nat -> list nat -> list nat).
Hypothesis Ftmin : fin tmin. Hypothesis Ftcod : fin tcod. Hypothesis Fv : fin v.
Hypothesis Fdt : fin dt. Hypothesis Ft0 : fin t0. Hypothesis FT : fin T.
Hypothesis Hdt : p2 (-12) <= FR dt <= 1 / 2.
Hypothesis Htmin : 0 <= FR tmin. Hypothesis Htcod : p2 (-20) <= FR tcod.
Hypothesis Hsum : FR tmin + FR tcod <= p2 14.
Hypothesis Hv : Rabs (FR v) <= 1.
Hypothesis Ht0 : 0 <= FR t0.
Hypothesis Hiv : FR dt + p2 (-30) <= FR tmin + Rabs (FR v) * FR tcod.
Hypothesis HT : FR t0 + 1 + (FR tmin + Rabs (FR v) * FR tcod) + 2 * FR dt + p2 (-30) <= FR T <= p2 15.
Hypothesis HO : ord_ok ord.

Theorem signed_constant64 nm :
  exists k s, session64 (SignedConstantNetwork (DataEncoder tmin tcod) v nm) sk_mod (DataEncoder tmin tcod) dt (fun k => [FSpike (sk_recall k) t0]) ord T = Ok (k, s) /\
    (0 <= FR v -> emits64 s (sk_output_plus k) (DataEncoder tmin tcod) (FR v) ((FR dt + p2 (-30)) / FR tcod) /\ spike_log s (sk_output_minus k) = []) /\
    (FR v < 0 -> emits64 s (sk_output_minus k) (DataEncoder tmin tcod) (- FR v) ((FR dt + p2 (-30)) / FR tcod) /\ spike_log s (sk_output_plus k) = []).
Proof.
  set (enc := DataEncoder tmin tcod). set (av := Rabs (FR v)) in *. set (iv := FR tmin + av * FR tcod) in *.
  assert (Pv : 0 <= av) by apply Rabs_pos. destruct (abs_FR v) as [Fa1 Fa2]. specialize (Fa2 Fv). fold av in Fa1.
  set (va := nabs v). change (PrimFloat.abs v) with va in Fa1, Fa2.
  pose proof (bpow_gt_0 radix2 (-12)) as P12. pose proof (bpow_gt_0 radix2 (-20)) as P20. pose proof (bpow_gt_0 radix2 (-30)) as P30.
  assert (Hvc : 0 <= av * FR tcod <= FR tcod).
  { split; [apply Rmult_le_pos; lra|]. rewrite <- (Rmult_1_l (FR tcod)) at 2. apply Rmult_le_compat_r; lra. }
  destruct (SignedConstant_built enc v nm empty_world inv_empty) as (k & w & E & HB & HN & HL).
  cbn [w_neurons empty_world length Nat.add] in HN, HL. unfold sk_nodes in HN. nodes_eqs HN.
  destruct (interval_F tmin tcod va) as [(I1 & I2 & I3) _]; auto; try lra; try (rewrite Fa1; lra).
  set (iv' := nadd (nmul va tcod) tmin) in *. rewrite Fa1 in I2. fold iv in I2.
  destruct cTsyn_F as [T1 T2]. destruct we_F as [W1 W2].
  assert (C16 : 1 + p2 14 <= p2 15) by (cbn; lra). assert (C17 : p2 15 <= p2 16) by (apply bpow_le; lia).
  destruct (add_small cTsyn iv' 15) as (D1 & D2 & D3); auto; try lra; try lia.
  set (d2 := nadd cTsyn iv') in *. rewrite T2 in D2. change (15 - 54)%Z with (-39)%Z in D2.
  assert (Htg : (sk_tgt v k = 1 \/ sk_tgt v k = 2)%nat) by (unfold sk_tgt; destruct (ngeb v nzero); lia).
  destruct (session64_ok (SignedConstantNetwork enc v nm) sk_mod k w _ enc dt (fun k => [FSpike (sk_recall k) t0]) ord T E HB)
    as (c & KM & OK & C1 & C2 & C3 & C4 & C5); auto; try lra.
  { constructor; [exact I|constructor]. }
  { intros y [<-|[<-|[]]]; cbn [s_delay syn]; [rewrite T2; split; [auto|lra]|]. change (nadd cTsyn _) with d2. split; [auto|lra]. }
  { intros n t [X|[]]. injection X as <- <-. split; [auto|]. split; [lra|lia]. }
  { assert (X : FR T / FR dt * FR dt = FR T) by (field; lra). apply Rmult_le_reg_r with (FR dt); [lra|].
    replace ((FR T / FR dt - 1) * FR dt) with (FR T / FR dt * FR dt - FR dt) by ring. rewrite X. lra. }
  cbv beta in *. set (ex := exts64 enc [FSpike (sk_recall k) t0]) in *.
  exists k. eexists. split; [exact C5|].
  assert (Q : p2 (-39) <= p2 (-36) /\ 4 * p2 (-36) <= p2 (-30) /\ 0 < p2 (-36) /\ 0 < p2 (-39) /\ 2 * p2 (-36) + 2 * p2 (-39) + p2 (-35) <= p2 (-30) /\ 0 < p2 (-35) /\ p2 (-30) <= 1 / 2) by (cbn; lra).
  apply Rabs_le_inv in I2, D2. unfold eta in C4.
  rewrite <- C2 in C4.
  destruct (dext_bounds c ex ord KM OK cTsyn t0 T1) as (A1 & A2); auto; try (rewrite T2; lra); [lra|unfold eta; rewrite T2, C2 in *; lra|].
  destruct (dext_bounds c ex ord KM OK d2 t0 D1) as (B1 & B2); auto; try lra; [unfold eta; rewrite C2 in *; lra|].
  rewrite T2 in A2. unfold eta in A2, B2. rewrite C2 in A2, B2.
  set (a1 := dext c KM cTsyn t0) in *. set (a2 := dext c KM d2 t0) in *.
  assert (Hlt : (a1 < a2)%nat).
  { apply INR_lt. apply Rmult_lt_reg_r with (FR dt); [lra|]. lra. }
  assert (NN : length (w_neurons (c_world c)) = 3%nat) by (rewrite C1; lia).
  assert (IN : forall n, insyn c n = if (sk_tgt v k =? n)%nat then sk_syns enc v k else []).
  { intros n. unfold insyn. rewrite C1, C3. unfold sk_syns. cbn [filter s_post syn]. destruct (sk_tgt v k =? n)%nat; reflexivity. }
  assert (EX : forall n, extsp ex n = if (n =? sk_recall k)%nat then [t0] else []).
  { intros n. unfold extsp, ex. cbn [exts64 stim_ext64 flat_map app filter fst]. rewrite (Nat.eqb_sym n). destruct (sk_recall k =? n)%nat; reflexivity. }
  assert (B16 : 0 <= FR (cTsyn (T := float)) <= p2 16) by (rewrite T2; lra).
  assert (IR : insyn c (sk_recall k) = []) by (rewrite IN; destruct (Nat.eqb_spec (sk_tgt v k) (sk_recall k)); [lia|reflexivity]).
  assert (AR : forall dl, fin dl -> 0 <= FR dl <= p2 16 -> arrK c ex ord KM (sk_recall k) dl [dext c KM dl t0]).
  { intros dl G1 G2. pose proof (arr_ext c ex ord KM OK (sk_recall k) dl G1 G2 ltac:(lia) IR) as Y. rewrite EX, Nat.eqb_refl in Y. exact Y. }
  assert (Sp : spkK c ex ord KM (sk_tgt v k) [a1; a2]).
  { apply (pair_spk c ex ord KM OK); [lia| |lia]. unfold vin. rewrite IN, Nat.eqb_refl. unfold sk_syns.
    constructor; [|constructor; [|constructor]]; cbn [s_ty s_w s_pre s_delay syn fst snd];
      (split; [reflexivity|]); (split; [exact W1|]); (split; [exact W2|]).
    - apply (AR cTsyn T1 B16).
    - apply (AR d2 D1). lra. }
  assert (LG : forall n, (1 <= n <= 2)%nat -> spike_log (fst (rs c ex ord KM)) n = if (n =? sk_tgt v k)%nat then map (tt c) [a1; a2] else []).
  { intros n Hn. destruct (Nat.eqb_spec n (sk_tgt v k)) as [->|Hne].
    - apply (spike_log_of c ex ord KM OK); auto; [lia|rewrite EX; destruct (Nat.eqb_spec (sk_tgt v k) (sk_recall k)); [lia|reflexivity]|cbn; lia|]. intros j [<-|[<-|[]]]; lia.
    - change (@nil float) with (map (tt c) []). apply (spike_log_of c ex ord KM OK); auto; [lia|rewrite EX; destruct (Nat.eqb_spec n (sk_recall k)); [lia|reflexivity]| |exact I|intros ? []].
      apply (source_spk c ex ord KM OK); [lia|]. rewrite IN. destruct (Nat.eqb_spec (sk_tgt v k) n); [congruence|reflexivity]. }
  assert (EE : (FR dt + p2 (-30)) / FR tcod = (FR dt + (p2 (-30) - p2 (-35)) + p2 (-35)) / FR tcod) by (f_equal; ring).
  assert (EM : spike_log (fst (rs c ex ord KM)) (sk_tgt v k) = map (tt c) [a1; a2] -> emits64 (fst (rs c ex ord KM)) (sk_tgt v k) enc av ((FR dt + p2 (-30)) / FR tcod)).
  { intros G. rewrite EE. apply (emits64_intro c ex ord KM _ _ tmin tcod a1 a2); auto; try lia; try lra.
    rewrite C2. apply Rabs_le. fold iv. rewrite Rmult_minus_distr_r. lra. }
  destruct zero_FR as [Z1 Z2].
  assert (TG : ngeb v nzero = Rle_bool 0 (FR v)) by (unfold ngeb; cbn [nleb F_num]; rewrite leb_FR, Z1 by auto; reflexivity).
  split.
  - intros Hp. assert (G : sk_tgt v k = sk_output_plus k) by (unfold sk_tgt; rewrite TG, Rle_bool_true by auto; reflexivity).
    rewrite G in EM, LG. unfold av in EM. rewrite Rabs_pos_eq in EM by auto. split; [apply EM; rewrite LG by lia; rewrite Nat.eqb_refl; reflexivity|].
    rewrite LG by lia. destruct (Nat.eqb_spec (sk_output_minus k) (sk_output_plus k)); [lia|reflexivity].
  - intros Hp. assert (G : sk_tgt v k = sk_output_minus k) by (unfold sk_tgt; rewrite TG, Rle_bool_false by auto; reflexivity).
    rewrite G in EM, LG. unfold av in EM. rewrite Rabs_left in EM by auto. split; [apply EM; rewrite LG by lia; rewrite Nat.eqb_refl; reflexivity|].
    rewrite LG by lia. destruct (Nat.eqb_spec (sk_output_plus k) (sk_output_minus k)); [lia|reflexivity].
Qed.
End SConst.

Section Flip.
Variables (tmin tcod x dt t0 T : float) (neg : bool) (ord : nat -> list nat -> list nat).
Hypothesis Ftmin : fin tmin. Hypothesis Ftcod : fin tcod. Hypothesis Fx : fin x.
Hypothesis Fdt : fin dt. Hypothesis Ft0 : fin t0. Hypothesis FT : fin T.
Hypothesis Hdt : p2 (-12) <= FR dt <= 1 / 2.
Hypothesis Htmin : FR dt + p2 (-30) <= FR tmin. Hypothesis Htcod : p2 (-20) <= FR tcod.
Hypothesis Hsum : 1 <= FR tmin + FR tcod <= p2 12.
Hypothesis Hx : 0 <= FR x <= 1.
Hypothesis Ht0 : 0 <= FR t0.
Hypothesis HT : FR t0 + FR tmin + FR tcod + 3 <= FR T <= p2 15.
Hypothesis HO : ord_ok ord.

Theorem sign_flipper64 nm :
  exists m s, session64 (SignFlipperNetwork (DataEncoder tmin tcod) nm) sf_mod (DataEncoder tmin tcod) dt
      (fun m => [FValue x (if neg then sf_inp_minus m else sf_inp_plus m) t0]) ord T = Ok (m, s) /\
    emits64 s (if neg then sf_outp_plus m else sf_outp_minus m) (DataEncoder tmin tcod) (FR x) ((FR dt + p2 (-30)) / FR tcod) /\
    spike_log s (if neg then sf_outp_minus m else sf_outp_plus m) = [].
Proof.
  set (enc := DataEncoder tmin tcod).
  pose proof (bpow_gt_0 radix2 (-12)) as P12. pose proof (bpow_gt_0 radix2 (-20)) as P20. pose proof (bpow_gt_0 radix2 (-30)) as P30.
  assert (C12 : p2 12 = 4096) by (cbn; lra). assert (C14 : p2 12 <= p2 14) by (apply bpow_le; lia).
  assert (C15 : p2 15 = 32768) by (cbn; lra). assert (C16 : p2 16 = 65536) by (cbn; lra).
  destruct (wacc_F tmin tcod) as (FW & RW & HNZ); auto; try lra. fold enc in HNZ.
  destruct zero_FR as [Z1 Z2].
  assert (HCZ : neqb (Tcod enc) nzero = false).
  { cbn [neqb F_num]. change (Tcod enc) with tcod. rewrite (eqb_FR tcod nzero Ftcod Z2), Z1, Req_bool_false by lra. reflexivity. }
  destruct (SignFlipper_built enc nm empty_world inv_empty HNZ HCZ) as (m & w & E & HB & HN & HL).
  cbn [w_neurons empty_world length Nat.add] in HN, HL. unfold sf_nodes in HN. nodes_eqs HN.
  destruct (value_ext tmin tcod x t0) as (X1 & X2 & X3 & X4 & X5); auto; try lra.
  set (ta := nadd t0 nzero) in *. set (tb := nadd t0 (nadd tmin (nmul x tcod))) in *.
  assert (PX : 0 <= FR x * FR tcod <= FR tcod). { split; [apply Rmult_le_pos; lra|]. rewrite <- (Rmult_1_l (FR tcod)) at 2. apply Rmult_le_compat_r; lra. }
  destruct cTsyn_F as [T1 T2]. destruct we_F as [W1 W2].
  assert (Hin : (((if neg then sf_inp_minus m else sf_inp_plus m) < 2)%nat)) by (destruct neg; lia).
  destruct (session64_ok (SignFlipperNetwork enc nm) sf_mod m w _ enc dt (fun m => [FValue x (if neg then sf_inp_minus m else sf_inp_plus m) t0]) ord T E HB)
    as (c & KM & OK & C1 & C2 & C3 & C4 & C5); auto; try lra.
  { constructor; [split; auto|constructor]. }
  { intros y [<-|[<-|[]]]; cbn [s_delay syn]; rewrite T2; split; [auto|lra|auto|lra]. }
  { intros n t [Y|[Y|[]]]; injection Y as <- <-.
    - change (fin ta /\ 0 <= FR ta <= p2 16 /\ ((if neg then sf_inp_minus m else sf_inp_plus m) < length (w_neurons w))%nat). split; [auto|]. split; [lra|lia].
    - change (fin tb /\ 0 <= FR tb <= p2 16 /\ ((if neg then sf_inp_minus m else sf_inp_plus m) < length (w_neurons w))%nat). split; [auto|]. split; [lra|lia]. }
  { assert (X : FR T / FR dt * FR dt = FR T) by (field; lra). apply Rmult_le_reg_r with (FR dt); [lra|].
    replace ((FR T / FR dt - 1) * FR dt) with (FR T / FR dt * FR dt - FR dt) by ring. rewrite X. lra. }
  cbv beta in *. set (inp := if neg then sf_inp_minus m else sf_inp_plus m) in *. set (ex := exts64 enc [FValue x inp t0]) in *.
  exists m. eexists. split; [exact C5|].
  set (out := if neg then sf_outp_plus m else sf_outp_minus m). set (oth := if neg then sf_outp_minus m else sf_outp_plus m).
  set (inp' := if neg then sf_inp_plus m else sf_inp_minus m).
  set (d := FR dt) in *. assert (Ed : FR (c_dt c) = d) by (rewrite C2; reflexivity). assert (Pd : 0 < d) by lra.
  assert (Eta : 16 * eta <= p2 (-30) /\ 0 < eta /\ 2 * p2 (-37) = eta /\ p2 (-30) * 16 <= p2 (-12) /\ p2 (-35) = 2 * eta) by (unfold eta; cbn; lra).
  apply Rabs_le_inv in X4.
  destruct (dext_bounds c ex ord KM OK cTsyn ta T1) as (A1 & A2); auto; try (rewrite ?T2, ?Ed; lra).
  destruct (dext_bounds c ex ord KM OK cTsyn tb T1) as (A3 & A4); auto; try (rewrite ?T2, ?Ed; lra).
  rewrite ?T2, ?Ed in A2, A4. set (a := dext c KM cTsyn ta) in *. set (b := dext c KM cTsyn tb) in *.
  assert (Hab : (a < b)%nat) by (apply (lt_steps _ _ d); auto; lra).
  assert (NN : length (w_neurons (c_world c)) = 4%nat) by (rewrite C1; lia).
  assert (NE : (inp < 2 /\ inp' < 2 /\ inp <> inp' /\ 2 <= out < 4 /\ 2 <= oth < 4 /\ out <> oth)%nat) by (unfold inp, inp', out, oth; destruct neg; lia).
  assert (EX : forall n, extsp ex n = if (n =? inp)%nat then [ta; tb] else []).
  { intros n. unfold extsp, ex. cbn [exts64 stim_ext64 flat_map app filter fst]. rewrite (Nat.eqb_sym n).
    change (Tmin enc) with tmin. change (Tcod enc) with tcod. fold ta tb. destruct (inp =? n)%nat; reflexivity. }
  assert (IN : insyn c out = [syn inp out SynV we cTsyn] /\ insyn c oth = [syn inp' oth SynV we cTsyn] /\ insyn c inp = [] /\ insyn c inp' = []).
  { unfold insyn. rewrite C1, C3. unfold sf_syns, inp, inp', out, oth. destruct neg; (split; [filtf; reflexivity|]); (split; [filtf; reflexivity|]); (split; filtf; reflexivity). }
  destruct IN as (IN1 & IN2 & IN3 & IN4).
  assert (B16 : 0 <= FR (cTsyn (T := float)) <= p2 16) by (rewrite T2; lra).
  pose proof (arr_ext c ex ord KM OK inp cTsyn T1 B16 ltac:(lia) IN3) as AI. rewrite EX, Nat.eqb_refl in AI. cbn [map] in AI. fold a b in AI.
  pose proof (arr_ext c ex ord KM OK inp' cTsyn T1 B16 ltac:(lia) IN4) as AJ. rewrite EX, (proj2 (Nat.eqb_neq inp' inp)) in AJ by lia. cbn [map] in AJ.
  assert (EXO : forall n, (2 <= n)%nat -> extsp ex n = []) by (intros n Hn; rewrite EX, (proj2 (Nat.eqb_neq n inp)) by lia; reflexivity).
  assert (SO : spkK c ex ord KM out [a; b]).
  { apply (vspikes c ex ord KM OK KM out [(4%Z, [a; b])]); auto; [lia| |cbn; lia|fsegs].
    unfold vin. rewrite IN1. constructor; [|constructor]; cbn [s_ty s_w s_pre s_delay syn fst snd]. auto. }
  assert (SQ : spkK c ex ord KM oth []).
  { apply (vspikes c ex ord KM OK KM oth [(4%Z, [])]); auto; [lia| |cbn; lia|fsegs].
    unfold vin. rewrite IN2. constructor; [|constructor]; cbn [s_ty s_w s_pre s_delay syn fst snd]. auto. }
  split.
  - assert (LG : spike_log (fst (rs c ex ord KM)) out = map (tt c) [a; b]).
    { apply (spike_log_of c ex ord KM OK); auto; [lia|apply EXO; lia|cbn; lia|]. intros j [<-|[<-|[]]]; lia. }
    replace ((d + p2 (-30)) / FR tcod) with ((d + (p2 (-30) - p2 (-35)) + p2 (-35)) / FR tcod) by (f_equal; ring).
    apply (emits64_intro c ex ord KM _ _ tmin tcod a b); auto; try lia; try lra.
    rewrite Ed. apply Rabs_le. rewrite Rmult_minus_distr_r. lra.
  - change (@nil float) with (map (tt c) []). apply (spike_log_of c ex ord KM OK); auto; [lia|apply EXO; lia|exact I|intros ? []].
Qed.
End Flip.
