(** InvertingMemoryNetwork in binary64 (C23). *)
From Coq Require Import Arith ZArith Bool List Reals Lra Lia Permutation.
From Flocq Require Import Core BinarySingleNaN PrimFloat.
From Coq Require Import Floats Uint63.
From Verif Require Import Num NumOrd Elements Simulator Networks Trace SimTrace AnySim F64 F64Thms GTrace TraceProps NeuronLib NetLib MemoryProof SegLib Build BuildNets Bridge FNet FSession FConst FRamp FWacc FMem.
Import ListNotations.
Open Scope list_scope.
Open Scope R_scope.

Lemma cTneu_F : fin (cTneu (T := float)) /\ Rabs (FR cTneu - / 100) <= p2 (-54) /\ 0 <= FR cTneu <= 1.
Proof.
  unfold cTneu. assert (E : nlit (T := float) 1 100 = PrimFloat.div (nofZ 1) (nofZ 100)) by (vm_compute; reflexivity). rewrite E.
  destruct (ofZ_small 1 ltac:(lia)) as [A1 A2]. destruct (ofZ_small 100 ltac:(lia)) as [B1 B2].
  destruct (div_FR (nofZ 1) (nofZ 100) A2) as [D1 D2]; [rewrite B1; lra| |].
  { rewrite A1, B1. apply Rabs_pos_le; [lra|]. apply Rle_trans with (p2 0); [cbn; lra|apply p2_big; lia]. }
  rewrite A1, B1 in D1. rewrite D1. split; [exact D2|].
  assert (X : Rabs (rnd (1 / 100) - 1 / 100) <= p2 (0 - 54)).
  { apply rnd_abs; [lia|]. apply Rabs_pos_le; [lra|]. cbn. lra. }
  assert (Y : 0 <= p2 (-54) <= / 1024) by (cbn; lra).
  change (0 - 54)%Z with (-54)%Z in X. replace (/ 100) with (1 / 100) by lra. split; [exact X|]. apply Rabs_le_inv in X. lra.
Qed.
Lemma T2neu_F : let q := nadd (twice (T := float) cTsyn) cTneu in fin q /\ Rabs (FR q - (2 + / 100)) <= p2 (-50) /\ 0 <= FR q <= 4.
Proof.
  destruct twice_Tsyn_F as [A1 A2]. destruct cTneu_F as (B1 & B2 & B3). destruct (add_small (twice cTsyn) cTneu 2) as (D1 & D2 & D3); auto; try lra; try lia.
  { rewrite A2. change (p2 2) with 4. lra. }
  change (2 - 54)%Z with (-52)%Z in D2. rewrite A2 in D2. apply Rabs_le_inv in B2, D2.
  assert (p2 (-52) + p2 (-54) <= p2 (-50)) by (cbn; lra). cbv zeta. split; [exact D1|]. split; [apply Rabs_le; lra|].
  change (p2 2) with 4 in D3. exact D3.
Qed.

Section IMem.
Variables (tmin tcod x dt t0 tr T : float) (ord : nat -> list nat -> list nat).
Hypothesis Ftmin : fin tmin. Hypothesis Ftcod : fin tcod. Hypothesis Fx : fin x.
Hypothesis Fdt : fin dt. Hypothesis Ft0 : fin t0. Hypothesis Ftr : fin tr. Hypothesis FT : fin T.
Hypothesis Hdt : p2 (-12) <= FR dt <= 1 / 8.
Hypothesis Htmin : 1 + FR dt + p2 (-30) <= FR tmin. Hypothesis Htcod : p2 (-20) <= FR tcod.
Hypothesis Hsum : FR tmin + FR tcod <= p2 12.
Hypothesis Hx : 0 <= FR x. Hypothesis Hx1 : FR x <= 1.
Hypothesis Ht0 : 0 <= FR t0.
Hypothesis Htr : FR t0 + 1 + (FR tmin + FR tcod) + 2 * FR dt + p2 (-30) <= FR tr.
Hypothesis HT : FR tr + (FR tmin + FR tcod) + 4 + 4 * FR dt <= FR T <= p2 15.
Hypothesis HO : ord_ok ord.

Theorem inverting_memory64 nm :
  exists m s, session64 (InvertingMemoryNetwork (DataEncoder tmin tcod) nm) im_mod (DataEncoder tmin tcod) dt
      (fun m => [FValue x (im_input m) t0; FSpike (im_recall m) tr]) ord T = Ok (m, s) /\
    emits64 s (im_output m) (DataEncoder tmin tcod) (1 - FR x) ((4 * FR dt + / 100 + p2 (-13)) / FR tcod).
Proof.
  set (enc := DataEncoder tmin tcod).
  pose proof (bpow_gt_0 radix2 (-12)) as P12. pose proof (bpow_gt_0 radix2 (-14)) as P14. pose proof (bpow_gt_0 radix2 (-20)) as P20. pose proof (bpow_gt_0 radix2 (-30)) as P30.
  assert (Hxt : 0 <= FR x * FR tcod) by (apply Rmult_le_pos; lra).
  assert (Hx' : 0 <= FR x <= 1) by lra.
  assert (Hxt' : FR x * FR tcod <= FR tcod) by (rewrite <- (Rmult_1_l (FR tcod)) at 2; apply Rmult_le_compat_r; lra).
  assert (C12 : p2 12 = 4096) by (cbn; lra). assert (C14 : p2 12 <= p2 14) by (apply bpow_le; lia).
  assert (C15 : p2 15 <= p2 16) by (apply bpow_le; lia). assert (C15' : p2 15 = 32768) by (cbn; lra). assert (C13 : p2 13 = 8192) by (cbn; lra). assert (C16 : p2 16 = 65536) by (cbn; lra).
  destruct (wacc_F tmin tcod) as (FW & RW & HNZ); auto; try lra. fold enc in FW, RW, HNZ.
  destruct (InvMemory_built enc nm empty_world inv_empty HNZ) as (m & w & E & HB & HN & HL).
  cbn [w_neurons empty_world length Nat.add] in HN, HL. unfold im_nodes in HN. nodes_eqs HN.
  destruct (value_ext tmin tcod x t0) as (X1 & X2 & X3 & X4 & X5); auto; try lra.
  set (ta := nadd t0 nzero) in *. set (tb := nadd t0 (nadd tmin (nmul x tcod))) in *.
  destruct cTsyn_F as [T1 T2]. destruct twice_Tsyn_F as [TT1 TT2]. destruct we_F as [W1 W2].
  destruct T2neu_F as (TN1 & TN2 & TN3). set (tn := nadd (twice cTsyn) cTneu) in *. apply Rabs_le_inv in TN2.
  destruct (add_small cTsyn tmin 13) as (D1 & D2 & D3); auto; try lra; try lia.
  set (td := nadd cTsyn tmin) in *. change (13 - 54)%Z with (-41)%Z in D2. rewrite T2 in D2. apply Rabs_le_inv in D2.
  destruct (session64_ok (InvertingMemoryNetwork enc nm) im_mod m w _ enc dt (fun m => [FValue x (im_input m) t0; FSpike (im_recall m) tr]) ord T E HB)
    as (c & KM & OK & C1 & C2 & C3 & C4 & C5); auto; try lra.
  { constructor; [split; auto|constructor; [exact I|constructor]]. }
  { intros y Hy. unfold im_syns in Hy. change (Tmin enc) with tmin in Hy. fold td tn in Hy.
    repeat (destruct Hy as [<-|Hy]; [cbn [s_delay syn]; first [rewrite T2; split; [exact T1|lra]|split; [exact TN1|lra]|split; [exact D1|lra]]|]). destruct Hy. }
  { intros n t [Y|[Y|[Y|[]]]]; injection Y as <- <-.
    - change (fin ta /\ 0 <= FR ta <= p2 16 /\ (im_input m < length (w_neurons w))%nat). split; [auto|]. split; [lra|lia].
    - change (fin tb /\ 0 <= FR tb <= p2 16 /\ (im_input m < length (w_neurons w))%nat). split; [auto|]. split; [lra|lia].
    - split; [auto|]. split; [lra|lia]. }
  { assert (X : FR T / FR dt * FR dt = FR T) by (field; lra). apply Rmult_le_reg_r with (FR dt); [lra|].
    replace ((FR T / FR dt - 1) * FR dt) with (FR T / FR dt * FR dt - FR dt) by ring. rewrite X. lra. }
  cbv beta in *. set (ex := exts64 enc [FValue x (im_input m) t0; FSpike (im_recall m) tr]) in *.
  exists m. eexists. split; [exact C5|].
  set (d := FR dt) in *. assert (Ed : FR (c_dt c) = d) by (rewrite C2; reflexivity).
  assert (Pd : 0 < d) by lra.
  assert (EX : forall n, extsp ex n = (if (n =? im_input m)%nat then [ta; tb] else []) ++ (if (n =? im_recall m)%nat then [tr] else [])).
  { intros n. unfold extsp, ex. cbn [exts64 stim_ext64 flat_map app filter fst]. rewrite (Nat.eqb_sym n), (Nat.eqb_sym n).
    change (Tmin enc) with tmin. change (Tcod enc) with tcod. fold ta tb.
    destruct (im_input m =? n)%nat, (im_recall m =? n)%nat; reflexivity. }
  assert (IN : forall n, insyn c n = filter (fun y => (s_post y =? n)%nat) (im_syns enc m)).
  { intros n. unfold insyn. rewrite C1, C3. reflexivity. }
  assert (NN : length (w_neurons (c_world c)) = 6%nat) by (rewrite C1; lia).
  assert (HTm : 1 <= FR tmin + FR tcod <= p2 12) by lra.
  set (Tm := FR tmin + FR tcod) in *.
  destruct (ramp_length d (FR (wacc_of enc)) Tm Hdt HTm RW) as (HI & N & TK & HN).
  assert (N1 : (1 <= N)%nat) by apply TK.
  assert (Eta : 16 * eta <= p2 (-30) /\ 0 < eta /\ 4 * p2 (-37) <= p2 (-30) /\ 0 < p2 (-37) /\ p2 (-30) <= p2 (-20) /\ p2 (-20) * 64 <= p2 (-14) /\ 2 * zeta = p2 (-14) /\ p2 (-14) < 1 /\ 4 * p2 (-37) = 2 * eta /\ p2 (-35) = 2 * eta /\ p2 (-13) = 2 * p2 (-14) /\ p2 (-50) <= eta /\ p2 (-41) <= eta /\ p2 (-14) <= p2 (-12)) by (unfold eta, zeta; cbn; lra).
  assert (Zt : 0 < zeta) by lra.
  apply Rabs_le_inv in X4.
  set (b := FR tmin + FR x * FR tcod) in *.
  assert (HTmin : FR tmin <= Tm) by (unfold Tm; lra). assert (Hbt : FR tmin <= b) by (unfold b; lra).   assert (Hb : b <= Tm) by (unfold b, Tm; lra). assert (Etb : Tm - b = (1 - FR x) * FR tcod) by (unfold b, Tm; ring). assert (Hb1 : 1 + d + p2 (-30) <= b) by (unfold b; lra).
  assert (B16 : 0 <= 1 <= p2 16) by (cbn; lra). assert (B16' : 0 <= 2 <= p2 16) by (cbn; lra).
  (* steps *)
  destruct (dext_bounds c ex ord KM OK cTsyn ta T1) as (A1 & A2); auto; try (rewrite ?T2, ?Ed; lra).
  destruct (dext_bounds c ex ord KM OK cTsyn tb T1) as (A3 & A4); auto; try (rewrite ?T2, ?Ed; lra).
  destruct (dext_bounds c ex ord KM OK cTsyn tr T1) as (A5 & A6); auto; try (rewrite ?T2, ?Ed; lra).
  destruct (dext_bounds c ex ord KM OK tn tr TN1) as (A7 & A8); auto; try (rewrite ?Ed; lra).
  rewrite ?T2, ?TT2, ?Ed in A2, A4, A6, A8.
  set (a1 := dext c KM cTsyn ta) in *. set (a2 := dext c KM cTsyn tb) in *. set (r := dext c KM cTsyn tr) in *.
  set (q1 := dext c KM tn tr) in *.
  destruct (dspk_bounds c ex ord KM OK cTsyn a1 T1) as (S1 & S2); auto; try (rewrite ?T2, ?Ed; lra); try lia.
  rewrite ?T2, ?Ed in S2. set (s := dspk c KM cTsyn a1) in *.
  assert (Hs : (s <= a2)%nat). { assert (s < a2 + 1)%nat; [|lia]. apply (lt_steps2 _ _ _ d); auto. cbn [INR]. lra. }
  destruct (dspk_bounds c ex ord KM OK td a1 D1) as (L1 & L2); auto; try (rewrite ?Ed; lra); try lia.
  rewrite ?Ed in L2. set (l := dspk c KM td a1) in *.
  destruct (dspk_bounds c ex ord KM OK cTsyn a2 T1) as (M1 & M2); auto; try (rewrite ?T2, ?Ed; lra); try lia.
  rewrite ?T2, ?Ed in M2. set (g := dspk c KM cTsyn a2) in *.
  assert (Hlg : (l <= g + 2)%nat). { assert (l < g + 3)%nat; [|lia]. apply (lt_steps2 _ _ _ d); auto. cbn [INR]. lra. }
  assert (Hgl : (g < l + N)%nat). { apply (lt_steps2 _ _ _ d); auto. unfold b, Tm in *. lra. }
  assert (Hlr : (l < r)%nat) by (apply (lt_steps _ _ d); auto; lra).
  assert (Hgr : (g < r)%nat) by (apply (lt_steps _ _ d); auto; lra).
  set (f := (r + N + l - g - 1)%nat).
  assert (Ef : INR f * d = INR r * d + INR N * d + INR l * d - INR g * d - d).
  { unfold f. rewrite minus_INR, minus_INR, !plus_INR by lia. cbn [INR]. ring. }
  assert (Hf1 : (1 <= f)%nat) by (unfold f; lia).
  assert (HfK : (f < KM)%nat) by (apply (lt_steps _ _ d); auto; lra).
  destruct (dspk_bounds c ex ord KM OK cTsyn f T1) as (Q1 & Q2); auto; try (rewrite ?T2, ?Ed; lra); try lia.
  rewrite ?T2, ?Ed in Q2. set (q2 := dspk c KM cTsyn f) in *.
  assert (Hq : (q1 < q2)%nat) by (apply (lt_steps _ _ d); auto; lra).
  (* spikes *)
  assert (HX : forall n, (n <> im_input m)%nat -> (n <> im_recall m)%nat -> extsp ex n = []).
  { intros n Y1 Y2. rewrite EX. destruct (Nat.eqb_spec n (im_input m)); [lia|]. destruct (Nat.eqb_spec n (im_recall m)); [lia|]. reflexivity. }
  assert (AI : arrK c ex ord KM (im_input m) cTsyn [a1; a2]).
  { pose proof (arr_ext c ex ord KM OK (im_input m) cTsyn T1 ltac:(rewrite T2; auto) ltac:(lia)) as Y. rewrite EX in Y.
    rewrite Nat.eqb_refl in Y. destruct (Nat.eqb_spec (im_input m) (im_recall m)); [lia|]. apply Y. rewrite IN. unfold im_syns. filtf. reflexivity. }
  assert (AR : forall dl, fin dl -> 0 <= FR dl <= p2 16 -> arrK c ex ord KM (im_recall m) dl [dext c KM dl tr]).
  { intros dl Y1 Y2. pose proof (arr_ext c ex ord KM OK (im_recall m) dl Y1 Y2 ltac:(lia)) as Y. rewrite EX in Y.
    rewrite Nat.eqb_refl in Y. destruct (Nat.eqb_spec (im_recall m) (im_input m)); [lia|]. apply Y. rewrite IN. unfold im_syns. filtf. reflexivity. }
  assert (SF : spkK c ex ord KM (im_first m) [a1]).
  { apply (first_spk c ex ord KM OK (im_first m) (im_input m) a1 a2); auto; try lia; [apply HX; lia|]. rewrite IN. unfold im_syns. filtf. reflexivity. }
  assert (SL : spkK c ex ord KM (im_last m) [a2]).
  { apply (last_spk c ex ord KM OK (im_last m) (im_input m) a1 a2); auto; try lia. rewrite IN. unfold im_syns. filtf. reflexivity. }
  assert (BW : Rabs (FR (wacc_of enc)) <= p2 50).
  { destruct RW as [R1 R2]. assert (1000 / Tm <= 1000).
    { apply Rmult_le_reg_r with Tm; [lra|]. unfold Rdiv. rewrite Rmult_assoc, Rinv_l by lra. lra. }
    assert (0 < 1000 / Tm) by (apply Rdiv_lt_0_compat; lra).
    apply Rle_trans with 2000; [|cbn; lra].
    assert (0 <= p2 (-49) <= 1) by (cbn; lra).
    assert (0 <= p2 (-49) * (1000 / Tm)) by (apply Rmult_le_pos; lra).
    assert (p2 (-49) * (1000 / Tm) <= 1 * (1000 / Tm)) by (apply Rmult_le_compat_r; lra).
    apply Rabs_pos_le; lra. }
  rewrite <- Ed in HI, TK.
  destruct (opp_FR (wacc_of enc)) as [NW1 NW2]. specialize (NW2 FW).
  assert (SB : spkK c ex ord KM (im_acc m) [f]).
  { apply (ramp_stop c ex ord KM OK (wacc_of enc) BW HI N TK (im_acc m) l g r); auto; try lia.
    unfold gin. rewrite IN. unfold im_syns. filtf.
    constructor; [|constructor; [|constructor; [|constructor]]]; cbn [s_ty s_w s_pre s_delay syn fst snd]; (split; [reflexivity|]).
    - split; [exact FW|]. split; [ring|]. change (nadd cTsyn (Tmin enc)) with td.
      apply (arr_spk c ex ord KM OK _ _ [a1]); auto; [lra|apply HX; lia|cbn; lia].
    - split; [exact NW2|]. split; [cbn [nopp F_num]; rewrite NW1; ring|].
      apply (arr_spk c ex ord KM OK _ _ [a2]); auto; [rewrite T2; auto|apply HX; lia|cbn; lia].
    - split; [exact FW|]. split; [ring|]. apply AR; auto. rewrite T2; auto. }
  assert (SO : spkK c ex ord KM (im_output m) [q1; q2]).
  { apply (pair_spk' c ex ord KM OK); [lia| |lia]. unfold vin. rewrite IN. unfold im_syns. filtf.
    constructor; [|constructor; [|constructor]]; cbn [s_ty s_w s_pre s_delay syn fst snd];
      (split; [reflexivity|]); (split; [exact W1|]); (split; [exact W2|]).
    - apply (arr_spk c ex ord KM OK _ _ [f]); auto; [rewrite T2; auto|apply HX; lia|cbn; lia].
    - fold tn. apply AR; auto. lra. }
  assert (LG : spike_log (fst (rs c ex ord KM)) (im_output m) = map (tt c) [q1; q2]).
  { apply (spike_log_of c ex ord KM OK); auto; [lia|apply HX; lia|cbn; lia|]. intros j [<-|[<-|[]]]; lia. }
  replace ((4 * d + / 100 + p2 (-13)) / FR tcod) with ((4 * d + / 100 + (p2 (-13) - p2 (-35)) + p2 (-35)) / FR tcod) by (f_equal; ring).
  apply (emits64_intro c ex ord KM _ _ tmin tcod q1 q2); auto; try lia; try lra; try (fold Tm; lra).
  rewrite Ed. apply Rabs_le. rewrite <- Etb. unfold b, Tm in *. rewrite Rmult_minus_distr_r. lra.
Qed.
End IMem.
