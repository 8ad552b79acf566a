(** MemoryNetwork in binary64 (C22). *)
From Coq Require Import Arith ZArith Bool List Reals Lra Lia Permutation.
From Flocq Require Import Core BinarySingleNaN PrimFloat.
From Coq Require Import Floats Uint63.
From Verif Require Import Num NumOrd Elements Simulator Networks Trace SimTrace AnySim F64 F64Thms GTrace TraceProps NeuronLib NetLib MemoryProof SegLib Build BuildNets Bridge FNet FSession FConst FRamp FWacc.
Import ListNotations.
Open Scope list_scope.
Open Scope R_scope.

(** ** the first/last pair that separates the two spikes of a value *)
Section Pair.
Variable c : cfg float.
Variable ex : list (nat * float).
Variable ord : nat -> list nat -> list nat.
Variable KM : nat.
Hypothesis OK : netok c ex ord KM.
Let NN := length (w_neurons (c_world c)).

Lemma dspk_gt dl j : (j < dspk c KM dl j)%nat. Proof. apply (dstep_gt c ex ord KM OK). Qed.
Lemma first_spk n inp a1 a2 : (n < NN)%nat -> extsp ex n = [] ->
  insyn c n = [syn inp n SynV we cTsyn; syn n n SynV wi cTsyn] -> arrK c ex ord KM inp cTsyn [a1; a2] ->
  (1 <= a1)%nat -> (dspk c KM cTsyn a1 <= a2)%nat -> spkK c ex ord KM n [a1].
Proof.
  intros Hn HX HI HA H1 H2. destruct cTsyn_F as [T1 T2]. destruct we_F as [W1 W2]. destruct wi_F as [V1 V2].
  pose proof (dspk_gt cTsyn a1) as Hs. set (s := dspk c KM cTsyn a1) in *.
  assert (G : forall K, (K <= KM)%nat -> spkK c ex ord K n [a1]).
  { induction K as [|K IH]; intros HK; [intros j Hj; lia|].
    specialize (IH ltac:(lia)).
    apply (vspikes c ex ord KM OK (S K) n [(4%Z, [a1; a2]); ((-4)%Z, [s])]); auto; [|cbn; lia|fsegs].
    unfold vin. rewrite HI. constructor; [|constructor; [|constructor]]; cbn [s_ty s_w s_pre s_delay syn fst snd].
    - split; [reflexivity|]. split; [exact W1|]. split; [exact W2|]. intros k Hk. apply HA. lia.
    - split; [reflexivity|]. split; [exact V1|]. split; [exact V2|]. intros k Hk.
      pose proof (arr_of c ex ord KM OK K n cTsyn [a1] T1 ltac:(rewrite T2; cbn; lra) IH ltac:(cbn; lia) k ltac:(lia) ltac:(lia)) as X.
      rewrite HX in X. exact X. }
  apply G; auto.
Qed.
Lemma last_spk n inp a1 a2 : (n < NN)%nat ->
  insyn c n = [syn inp n SynV (half we) cTsyn] -> arrK c ex ord KM inp cTsyn [a1; a2] ->
  (1 <= a1 < a2)%nat -> spkK c ex ord KM n [a2].
Proof.
  intros Hn HI HA H1. destruct half_we_F as [W1 W2].
  apply (vspikes c ex ord KM OK KM n [(2%Z, [a1; a2])]); auto; [|cbn; lia|fsegs].
  unfold vin. rewrite HI. constructor; [|constructor]; cbn [s_ty s_w s_pre s_delay syn fst snd]. auto.
Qed.
Lemma arr_spk m dl l : fin dl -> 0 <= FR dl <= p2 16 -> extsp ex m = [] -> spkK c ex ord KM m l -> strict 0 l ->
  arrK c ex ord KM m dl (map (dspk c KM dl) l).
Proof. intros F B HX HS HT. pose proof (arrK_of c ex ord KM OK m dl l F B HS HT) as X. rewrite HX in X. exact X. Qed.
Lemma arr_ext m dl : fin dl -> 0 <= FR dl <= p2 16 -> (m < NN)%nat -> insyn c m = [] ->
  arrK c ex ord KM m dl (map (dext c KM dl) (extsp ex m)).
Proof.
  intros F B Hm HI. pose proof (arrK_of c ex ord KM OK m dl [] F B (source_spk c ex ord KM OK m Hm HI) I) as X.
  cbn [map] in X. rewrite app_nil_r in X. exact X.
Qed.
Lemma relay_spk n A : (n < NN)%nat -> vin c ex ord KM n [(4%Z, [A])] -> (1 <= A)%nat -> spkK c ex ord KM n [A].
Proof. intros Hn HV HA. apply (vspikes c ex ord KM OK KM n [(4%Z, [A])]); auto; [cbn; lia|fsegs]. Qed.
Lemma pair_spk n A A' : (n < NN)%nat -> vin c ex ord KM n [(4%Z, [A]); (4%Z, [A'])] -> (1 <= A < A')%nat -> spkK c ex ord KM n [A; A'].
Proof. intros Hn HV HA. apply (vspikes c ex ord KM OK KM n [(4%Z, [A]); (4%Z, [A'])]); auto; [cbn; lia|fsegs]. Qed.
Lemma pair_spk' n A A' : (n < NN)%nat -> vin c ex ord KM n [(4%Z, [A']); (4%Z, [A])] -> (1 <= A < A')%nat -> spkK c ex ord KM n [A; A'].
Proof. intros Hn HV HA. apply (vspikes c ex ord KM OK KM n [(4%Z, [A']); (4%Z, [A])]); auto; [cbn; lia|fsegs]. Qed.
End Pair.

Lemma lt_steps (j k : nat) d : 0 < d -> INR j * d < INR k * d -> (j < k)%nat.
Proof. intros Hd H. apply INR_lt. apply Rmult_lt_reg_r with d; auto. Qed.
Lemma lt_steps2 (j k z : nat) d : 0 < d -> INR j * d < INR k * d + INR z * d -> (j < k + z)%nat.
Proof. intros Hd H. apply INR_lt. rewrite plus_INR. apply Rmult_lt_reg_r with d; auto. lra. Qed.
(** the two spike times of an input value *)
Lemma value_ext tmin tcod x t0 : fin tmin -> fin tcod -> fin x -> fin t0 -> 0 <= FR tmin -> 0 <= FR tcod -> FR tmin + FR tcod <= p2 14 ->
  0 <= FR x <= 1 -> 0 <= FR t0 <= p2 15 ->
  let ta := nadd t0 nzero in let tb := nadd t0 (nadd tmin (nmul x tcod)) in
  fin ta /\ FR ta = FR t0 /\ fin tb /\ Rabs (FR tb - (FR t0 + (FR tmin + FR x * FR tcod))) <= p2 (-37) /\ 0 <= FR tb <= p2 16.
Proof.
  intros F1 F2 F3 F4 Hm Hc Hs Hx H0 ta tb.
  destruct (add_zero t0 F4) as [A1 A2]. { apply Rabs_pos_le; [lra|]. apply Rle_trans with (p2 15); [lra|apply bpow_le; lia]. }
  destruct (interval_F tmin tcod x) as [_ (I1 & I2 & I3)]; auto.
  destruct (add_small t0 (nadd tmin (nmul x tcod)) 16) as (D1 & D2 & D3); auto; try lra; try lia.
  { cbn in H0, I3 |- *. lra. }
  change (16 - 54)%Z with (-38)%Z in D2.
  split; [exact A1|]. split; [exact A2|]. split; [exact D1|]. split; [|exact D3].
  assert (Q : p2 (-39) + p2 (-38) <= p2 (-37)) by (cbn; lra).
  apply Rabs_le_inv in I2, D2. apply Rabs_le. unfold tb. lra.
Qed.

Section Mem.
Variables (tmin tcod x dt t0 tr T : float) (ord : nat -> list nat -> list nat).
Hypothesis Ftmin : fin tmin. Hypothesis Ftcod : fin tcod. Hypothesis Fx : fin x.
Hypothesis Fdt : fin dt. Hypothesis Ft0 : fin t0. Hypothesis Ftr : fin tr. Hypothesis FT : fin T.
Hypothesis Hdt : p2 (-12) <= FR dt <= 1 / 8.
Hypothesis Htmin : 1 + FR dt + p2 (-30) <= FR tmin. Hypothesis Htcod : p2 (-20) <= FR tcod.
Hypothesis Hsum : FR tmin + FR tcod <= p2 12.
Hypothesis Hx : 0 <= FR x. Hypothesis Hx1 : FR x * FR tcod + p2 (-14) <= FR tcod.
Hypothesis Ht0 : 0 <= FR t0.
Hypothesis Htr : FR t0 + 2 + (FR tmin + FR tcod) + 3 * FR dt + p2 (-14) <= FR tr.
Hypothesis HT : FR tr + (FR tmin + FR tcod) + 4 + 4 * FR dt <= FR T <= p2 15.
Hypothesis HO : ord_ok ord.

Theorem memory64 nm :
  exists m s, session64 (MemoryNetwork (DataEncoder tmin tcod) nm) mm_mod (DataEncoder tmin tcod) dt
      (fun m => [FValue x (mm_input m) t0; FSpike (mm_recall m) tr]) ord T = Ok (m, s) /\
    emits64 s (mm_output m) (DataEncoder tmin tcod) (FR x) ((4 * FR dt + p2 (-30)) / FR tcod) /\
    (exists t, spike_log s (mm_ready m) = [t] /\ FR t < FR tr + 1).
Proof.
  set (enc := DataEncoder tmin tcod).
  pose proof (bpow_gt_0 radix2 (-12)) as P12. pose proof (bpow_gt_0 radix2 (-14)) as P14. pose proof (bpow_gt_0 radix2 (-20)) as P20. pose proof (bpow_gt_0 radix2 (-30)) as P30.
  assert (Hxt : 0 <= FR x * FR tcod) by (apply Rmult_le_pos; lra).
  assert (Hx' : 0 <= FR x <= 1).
  { split; auto. apply Rmult_le_reg_r with (FR tcod); lra. }
  assert (C12 : p2 12 = 4096) by (cbn; lra). assert (C14 : p2 12 <= p2 14) by (apply bpow_le; lia).
  assert (C15 : p2 15 <= p2 16) by (apply bpow_le; lia). assert (C15' : p2 15 = 32768) by (cbn; lra).
  destruct (wacc_F tmin tcod) as (FW & RW & HNZ); auto; try lra. fold enc in FW, RW, HNZ.
  destruct (Memory_built enc nm empty_world inv_empty HNZ) as (m & w & E & HB & HN & HL).
  cbn [w_neurons empty_world length Nat.add] in HN, HL. unfold mm_nodes in HN. nodes_eqs HN.
  destruct (value_ext tmin tcod x t0) as (X1 & X2 & X3 & X4 & X5); auto; try lra.
  set (ta := nadd t0 nzero) in *. set (tb := nadd t0 (nadd tmin (nmul x tcod))) in *.
  destruct cTsyn_F as [T1 T2]. destruct twice_Tsyn_F as [TT1 TT2]. destruct we_F as [W1 W2].
  destruct (session64_ok (MemoryNetwork enc nm) mm_mod m w _ enc dt (fun m => [FValue x (mm_input m) t0; FSpike (mm_recall m) tr]) ord T E HB)
    as (c & KM & OK & C1 & C2 & C3 & C4 & C5); auto; try lra.
  { constructor; [split; auto|constructor; [exact I|constructor]]. }
  { intros y Hy. unfold mm_syns in Hy.
    repeat (destruct Hy as [<-|Hy]; [cbn [s_delay syn]; first [rewrite T2; split; [exact T1|lra]|rewrite TT2; split; [exact TT1|lra]]|]). destruct Hy. }
  { intros n t [Y|[Y|[Y|[]]]]; injection Y as <- <-.
    - change (fin ta /\ 0 <= FR ta <= p2 16 /\ (mm_input m < length (w_neurons w))%nat). split; [auto|]. split; [lra|lia].
    - change (fin tb /\ 0 <= FR tb <= p2 16 /\ (mm_input m < length (w_neurons w))%nat). split; [auto|]. split; [lra|lia].
    - split; [auto|]. split; [lra|lia]. }
  { assert (X : FR T / FR dt * FR dt = FR T) by (field; lra). apply Rmult_le_reg_r with (FR dt); [lra|].
    replace ((FR T / FR dt - 1) * FR dt) with (FR T / FR dt * FR dt - FR dt) by ring. rewrite X. lra. }
  cbv beta in *. set (ex := exts64 enc [FValue x (mm_input m) t0; FSpike (mm_recall m) tr]) in *.
  exists m. eexists. split; [exact C5|].
  set (d := FR dt) in *. assert (Ed : FR (c_dt c) = d) by (rewrite C2; reflexivity).
  assert (Pd : 0 < d) by lra.
  assert (EX : forall n, extsp ex n = (if (n =? mm_input m)%nat then [ta; tb] else []) ++ (if (n =? mm_recall m)%nat then [tr] else [])).
  { intros n. unfold extsp, ex. cbn [exts64 stim_ext64 flat_map app filter fst]. rewrite (Nat.eqb_sym n), (Nat.eqb_sym n).
    change (Tmin enc) with tmin. change (Tcod enc) with tcod. fold ta tb.
    destruct (mm_input m =? n)%nat, (mm_recall m =? n)%nat; reflexivity. }
  assert (IN : forall n, insyn c n = filter (fun y => (s_post y =? n)%nat) (mm_syns (wacc_of enc) m)).
  { intros n. unfold insyn. rewrite C1, C3. reflexivity. }
  assert (NN : length (w_neurons (c_world c)) = 8%nat) by (rewrite C1; lia).
  assert (HTm : 1 <= FR tmin + FR tcod <= p2 12) by lra.
  set (Tm := FR tmin + FR tcod) in *.
  destruct (ramp_length d (FR (wacc_of enc)) Tm Hdt HTm RW) as (HI & N & TK & HN).
  assert (N1 : (1 <= N)%nat) by apply TK.
  assert (Eta : 16 * eta <= p2 (-30) /\ 0 < eta /\ 4 * p2 (-37) <= p2 (-30) /\ 0 < p2 (-37) /\ p2 (-30) <= p2 (-20) /\ p2 (-20) * 64 <= p2 (-14) /\ 2 * zeta = p2 (-14) /\ p2 (-14) < 1 /\ 4 * p2 (-37) = 2 * eta /\ p2 (-35) = 2 * eta) by (unfold eta, zeta; cbn; lra).
  assert (Zt : 0 < zeta) by lra.
  apply Rabs_le_inv in X4.
  set (b := FR tmin + FR x * FR tcod) in *.
  assert (Hb : b + p2 (-14) <= Tm) by (unfold b, Tm; lra). assert (Hb1 : 1 + d + p2 (-30) <= b) by (unfold b; lra).
  assert (B16 : 0 <= 1 <= p2 16) by (cbn; lra). assert (B16' : 0 <= 2 <= p2 16) by (cbn; lra).
  (* steps *)
  destruct (dext_bounds c ex ord KM OK cTsyn ta T1) as (A1 & A2); auto; try (rewrite ?T2, ?Ed; lra).
  destruct (dext_bounds c ex ord KM OK cTsyn tb T1) as (A3 & A4); auto; try (rewrite ?T2, ?Ed; lra).
  destruct (dext_bounds c ex ord KM OK cTsyn tr T1) as (A5 & A6); auto; try (rewrite ?T2, ?Ed; lra).
  destruct (dext_bounds c ex ord KM OK (twice cTsyn) tr TT1) as (A7 & A8); auto; try (rewrite ?TT2, ?Ed; lra).
  rewrite ?T2, ?TT2, ?Ed in A2, A4, A6, A8.
  set (a1 := dext c KM cTsyn ta) in *. set (a2 := dext c KM cTsyn tb) in *. set (r := dext c KM cTsyn tr) in *.
  set (q1 := dext c KM (twice cTsyn) tr) in *.
  destruct (dspk_bounds c ex ord KM OK cTsyn a1 T1) as (S1 & S2); auto; try (rewrite ?T2, ?Ed; lra); try lia.
  rewrite ?T2, ?Ed in S2. set (s := dspk c KM cTsyn a1) in *.
  assert (Hs : (s <= a2)%nat). { assert (s < a2 + 1)%nat; [|lia]. apply (lt_steps2 _ _ _ d); auto. cbn [INR]. lra. }
  set (F := (s + N - 1)%nat).
  assert (EF : INR F * d = INR s * d + INR N * d - d).
  { unfold F. rewrite minus_INR, plus_INR by lia. cbn [INR]. ring. }
  assert (HF1 : (1 <= F)%nat) by (unfold F; lia).
  assert (HFK : (F < KM)%nat) by (apply (lt_steps _ _ d); auto; lra).
  destruct (dspk_bounds c ex ord KM OK (twice cTsyn) a2 TT1) as (L1 & L2); auto; try (rewrite ?TT2, ?Ed; lra); try lia.
  rewrite ?TT2, ?Ed in L2. set (l := dspk c KM (twice cTsyn) a2) in *.
  destruct (dspk_bounds c ex ord KM OK cTsyn F T1) as (M1 & M2); auto; try (rewrite ?T2, ?Ed; lra); try lia.
  rewrite ?T2, ?Ed in M2. set (g := dspk c KM cTsyn F) in *.
  assert (Hlg : (l <= g + 2)%nat). { assert (l < g + 3)%nat; [|lia]. apply (lt_steps2 _ _ _ d); auto. cbn [INR]. lra. }
  assert (Hgl : (g < l + N)%nat). { apply (lt_steps2 _ _ _ d); auto. lra. }
  assert (Hlr : (l < r)%nat) by (apply (lt_steps _ _ d); auto; lra).
  assert (Hgr : (g < r)%nat) by (apply (lt_steps _ _ d); auto; lra).
  set (f := (r + N + l - g - 1)%nat).
  assert (Ef : INR f * d = INR r * d + INR N * d + INR l * d - INR g * d - d).
  { unfold f. rewrite minus_INR, minus_INR, !plus_INR by lia. cbn [INR]. ring. }
  assert (Hf1 : (1 <= f)%nat) by (unfold f; lia).
  assert (HfK : (f < KM)%nat) by (apply (lt_steps _ _ d); auto; lra).
  destruct (dspk_bounds c ex ord KM OK cTsyn f T1) as (Q1 & Q2); auto; try (rewrite ?T2, ?Ed; lra); try lia.
  rewrite ?T2, ?Ed in Q2. set (q2 := dspk c KM cTsyn f) in *.
  assert (Hq : (q1 < q2)%nat) by (apply (lt_steps _ _ d); auto; lra).
  (* spikes *)
  assert (HX : forall n, (n <> mm_input m)%nat -> (n <> mm_recall m)%nat -> extsp ex n = []).
  { intros n Y1 Y2. rewrite EX. destruct (Nat.eqb_spec n (mm_input m)); [lia|]. destruct (Nat.eqb_spec n (mm_recall m)); [lia|]. reflexivity. }
  assert (AI : arrK c ex ord KM (mm_input m) cTsyn [a1; a2]).
  { pose proof (arr_ext c ex ord KM OK (mm_input m) cTsyn T1 ltac:(rewrite T2; auto) ltac:(lia)) as Y. rewrite EX in Y.
    rewrite Nat.eqb_refl in Y. destruct (Nat.eqb_spec (mm_input m) (mm_recall m)); [lia|]. apply Y. rewrite IN. unfold mm_syns. filtf. reflexivity. }
  assert (AR : forall dl, fin dl -> 0 <= FR dl <= p2 16 -> arrK c ex ord KM (mm_recall m) dl [dext c KM dl tr]).
  { intros dl D1 D2. pose proof (arr_ext c ex ord KM OK (mm_recall m) dl D1 D2 ltac:(lia)) as Y. rewrite EX in Y.
    rewrite Nat.eqb_refl in Y. destruct (Nat.eqb_spec (mm_recall m) (mm_input m)); [lia|]. apply Y. rewrite IN. unfold mm_syns. filtf. reflexivity. }
  assert (SF : spkK c ex ord KM (mm_first m) [a1]).
  { apply (first_spk c ex ord KM OK (mm_first m) (mm_input m) a1 a2); auto; try lia; [apply HX; lia|]. rewrite IN. unfold mm_syns. filtf. reflexivity. }
  assert (SL : spkK c ex ord KM (mm_last m) [a2]).
  { apply (last_spk c ex ord KM OK (mm_last m) (mm_input m) a1 a2); auto; try lia. rewrite IN. unfold mm_syns. filtf. reflexivity. }
  assert (BW : Rabs (FR (wacc_of enc)) <= p2 50).
  { destruct RW as [R1 R2]. assert (1000 / Tm <= 1000).
    { apply Rmult_le_reg_r with Tm; [lra|]. unfold Rdiv. rewrite Rmult_assoc, Rinv_l by lra. lra. }
    assert (0 < 1000 / Tm) by (apply Rdiv_lt_0_compat; lra).
    apply Rle_trans with 2000; [|cbn; lra].
    assert (0 <= p2 (-49) <= 1) by (cbn; lra).
    assert (0 <= p2 (-49) * (1000 / Tm)) by (apply Rmult_le_pos; lra).
    assert (p2 (-49) * (1000 / Tm) <= 1 * (1000 / Tm)) by (apply Rmult_le_compat_r; lra).
    apply Rabs_pos_le; lra. }
  rewrite <- Ed in HI, TK.
  destruct (opp_FR (wacc_of enc)) as [NW1 NW2]. specialize (NW2 FW).
  assert (SA : spkK c ex ord KM (mm_acc m) [F]).
  { apply (ramp_once c ex ord KM OK (wacc_of enc) BW HI N TK); [lia| |lia].
    unfold gin. rewrite IN. unfold mm_syns. filtf. constructor; [|constructor]; cbn [s_ty s_w s_pre s_delay syn fst snd].
    split; [reflexivity|]. split; [exact FW|]. split; [ring|].
    apply (arr_spk c ex ord KM OK _ _ [a1]); auto; [rewrite T2; auto|apply HX; lia|cbn; lia]. }
  assert (AA : arrK c ex ord KM (mm_acc m) cTsyn [g]).
  { apply (arr_spk c ex ord KM OK _ _ [F]); auto; [rewrite T2; auto|apply HX; lia|cbn; lia]. }
  assert (SB : spkK c ex ord KM (mm_acc2 m) [f]).
  { apply (ramp_stop c ex ord KM OK (wacc_of enc) BW HI N TK (mm_acc2 m) l g r); auto; try lia.
    unfold gin. rewrite IN. unfold mm_syns. filtf.
    constructor; [|constructor; [|constructor; [|constructor]]]; cbn [s_ty s_w s_pre s_delay syn fst snd]; (split; [reflexivity|]).
    - split; [exact FW|]. split; [ring|].
      apply (arr_spk c ex ord KM OK _ _ [a2]); auto; [rewrite TT2; auto|apply HX; lia|cbn; lia].
    - split; [exact NW2|]. split; [cbn [nopp F_num]; rewrite NW1; ring|]. exact AA.
    - split; [exact FW|]. split; [ring|]. apply AR; auto. rewrite T2; auto. }
  assert (SO : spkK c ex ord KM (mm_output m) [q1; q2]).
  { apply (pair_spk c ex ord KM OK); [lia| |lia]. unfold vin. rewrite IN. unfold mm_syns. filtf.
    constructor; [|constructor; [|constructor]]; cbn [s_ty s_w s_pre s_delay syn fst snd];
      (split; [reflexivity|]); (split; [exact W1|]); (split; [exact W2|]).
    - apply AR; auto. rewrite TT2; auto.
    - apply (arr_spk c ex ord KM OK _ _ [f]); auto; [rewrite T2; auto|apply HX; lia|cbn; lia]. }
  assert (SR : spkK c ex ord KM (mm_ready m) [g]).
  { apply (relay_spk c ex ord KM OK); [lia| |lia]. unfold vin. rewrite IN. unfold mm_syns. filtf.
    constructor; [|constructor]; cbn [s_ty s_w s_pre s_delay syn fst snd]. auto. }
  split.
  - assert (LG : spike_log (fst (rs c ex ord KM)) (mm_output m) = map (tt c) [q1; q2]).
    { apply (spike_log_of c ex ord KM OK); auto; [lia|apply HX; lia|cbn; lia|]. intros j [<-|[<-|[]]]; lia. }
    replace ((4 * d + p2 (-30)) / FR tcod) with ((4 * d + (p2 (-30) - p2 (-35)) + p2 (-35)) / FR tcod) by (f_equal; ring).
    apply (emits64_intro c ex ord KM _ _ tmin tcod q1 q2); auto; try lia; try lra; try (fold Tm; lra).
    rewrite Ed. apply Rabs_le. fold b. rewrite Rmult_minus_distr_r. lra.
  - exists (tt c g). split.
    + apply (spike_log_of c ex ord KM OK (mm_ready m) [g]); auto; [lia|apply HX; lia|cbn; lia|]. intros j [<-|[]]; lia.
    + destruct (tau_spec c ex ord KM OK g) as (_ & Y & _); [lia|]. rewrite Ed in Y. apply Rabs_le_inv in Y.
      unfold tau in Y. assert (p2 (-38) <= eta) by (unfold eta; cbn; lra). lra.
Qed.
End Mem.
