(** ConstantNetwork in binary64 (C20). *)
From Coq Require Import Arith ZArith Bool List Reals Lra Lia Permutation.
From Flocq Require Import Core BinarySingleNaN PrimFloat.
From Coq Require Import Floats Uint63.
From Verif Require Import Num NumOrd Elements Simulator Networks Trace SimTrace AnySim F64 F64Thms GTrace TraceProps NeuronLib NetLib MemoryProof SegLib Build BuildNets Bridge FNet FSession.
Import ListNotations.
Open Scope list_scope.
Open Scope R_scope.

Ltac filtf := cbn [filter s_post syn]; eqbs; cbn [app].
(** solve [segs (evr P) 0 F] for an explicit P *)
Ltac fsegs := unfold evr, evz; cbn [flat_map map app fst snd]; segs_solve.

Section Const.
Variables (tmin tcod v dt t0 T : float) (ord : nat -> list nat -> list nat).
Hypothesis Ftmin : fin tmin. Hypothesis Ftcod : fin tcod. Hypothesis Fv : fin v.
Hypothesis Fdt : fin dt. Hypothesis Ft0 : fin t0. Hypothesis FT : fin T.
Hypothesis Hdt : p2 (-12) <= FR dt <= 1 / 2.
Hypothesis Htmin : 0 <= FR tmin. Hypothesis Htcod : p2 (-20) <= FR tcod.
Hypothesis Hsum : FR tmin + FR tcod <= p2 14.
Hypothesis Hv : 0 <= FR v <= 1.
Hypothesis Ht0 : 0 <= FR t0.
Hypothesis Hiv : FR dt + p2 (-30) <= FR tmin + FR v * FR tcod.
Hypothesis HT : FR t0 + 1 + (FR tmin + FR v * FR tcod) + 2 * FR dt + p2 (-30) <= FR T <= p2 15.
Hypothesis HO : ord_ok ord.

Theorem constant64 nm :
  exists k s, session64 (ConstantNetwork (DataEncoder tmin tcod) v nm) k_mod (DataEncoder tmin tcod) dt (fun k => [FSpike (k_recall k) t0]) ord T = Ok (k, s) /\
    emits64 s (k_output k) (DataEncoder tmin tcod) (FR v) ((FR dt + p2 (-30)) / FR tcod).
Proof.
  set (enc := DataEncoder tmin tcod). set (iv := FR tmin + FR v * FR tcod) in *.
  pose proof (bpow_gt_0 radix2 (-12)) as P12. pose proof (bpow_gt_0 radix2 (-20)) as P20. pose proof (bpow_gt_0 radix2 (-30)) as P30.
  assert (Hvc : 0 <= FR v * FR tcod <= FR tcod).
  { split; [apply Rmult_le_pos; lra|]. rewrite <- (Rmult_1_l (FR tcod)) at 2. apply Rmult_le_compat_r; lra. }
  destruct (Constant_built enc v nm empty_world inv_empty) as (k & w & E & HB & HN & HL).
  cbn [w_neurons empty_world length Nat.add] in HN, HL. unfold k_nodes in HN. nodes_eqs HN.
  destruct (interval_F tmin tcod v) as [(I1 & I2 & I3) _]; auto; try lra.
  set (iv' := nadd (nmul v tcod) tmin) in *. fold iv in I2.
  destruct cTsyn_F as [T1 T2]. destruct we_F as [W1 W2].
  assert (C16 : 1 + p2 14 <= p2 15) by (cbn; lra). assert (C17 : p2 15 <= p2 16) by (apply bpow_le; lia).
  destruct (add_small cTsyn iv' 15) as (D1 & D2 & D3); auto; try lra; try lia.
  set (d2 := nadd cTsyn iv') in *. rewrite T2 in D2. change (15 - 54)%Z with (-39)%Z in D2.
  destruct (session64_ok (ConstantNetwork enc v nm) k_mod k w _ enc dt (fun k => [FSpike (k_recall k) t0]) ord T E HB)
    as (c & KM & OK & C1 & C2 & C3 & C4 & C5); auto; try lra.
  { constructor; [exact I|constructor]. }
  { intros y [<-|[<-|[]]]; cbn [s_delay syn]; [rewrite T2; split; [auto|lra]|]. change (nadd cTsyn _) with d2. split; [auto|lra]. }
  { intros n t [X|[]]. injection X as <- <-. split; [auto|]. split; [lra|lia]. }
  { assert (X : FR T / FR dt * FR dt = FR T) by (field; lra). apply Rmult_le_reg_r with (FR dt); [lra|].
    replace ((FR T / FR dt - 1) * FR dt) with (FR T / FR dt * FR dt - FR dt) by ring. rewrite X. lra. }
  cbv beta in *. set (ex := exts64 enc [FSpike (k_recall k) t0]) in *.
  exists k. eexists. split; [exact C5|].
  assert (Q : p2 (-39) <= p2 (-36) /\ 4 * p2 (-36) <= p2 (-30) /\ 0 < p2 (-36) /\ 0 < p2 (-39) /\ 2 * p2 (-36) + 2 * p2 (-39) + p2 (-35) <= p2 (-30)) by (cbn; lra).
  apply Rabs_le_inv in I2, D2. unfold eta in C4.
  rewrite <- C2 in C4.
  destruct (dext_bounds c ex ord KM OK cTsyn t0 T1) as (A1 & A2); auto; try (rewrite T2; lra); [lra|unfold eta; rewrite T2, C2 in *; lra|].
  destruct (dext_bounds c ex ord KM OK d2 t0 D1) as (B1 & B2); auto; try lra; [unfold eta; rewrite C2 in *; lra|].
  rewrite T2 in A2. unfold eta in A2, B2. rewrite C2 in A2, B2.
  set (a1 := dext c KM cTsyn t0) in *. set (a2 := dext c KM d2 t0) in *.
  assert (Hlt : (a1 < a2)%nat).
  { apply INR_lt. apply Rmult_lt_reg_r with (FR dt); [lra|]. lra. }
  assert (HS : spkK c ex ord KM (k_recall k) []).
  { apply (source_spk c ex ord KM OK); [rewrite C1; lia|]. unfold insyn. rewrite C1, C3. unfold k_syns. filtf. reflexivity. }
  assert (EX : extsp ex (k_recall k) = [t0]) by (unfold extsp, ex; cbn [exts64 stim_ext64 flat_map app filter fst]; eqbs; reflexivity).
  assert (Sp : spkK c ex ord KM (k_output k) [a1; a2]).
  { apply (vspikes c ex ord KM OK KM (k_output k) [(4%Z, [a1]); (4%Z, [a2])]); auto; [rewrite C1; lia| |cbn; lia|fsegs].
    unfold vin, insyn. rewrite C1, C3. unfold k_syns. filtf.
    constructor; [|constructor; [|constructor]]; cbn [s_ty s_w s_pre s_delay syn fst snd];
      (split; [reflexivity|]); (split; [exact W1|]); (split; [exact W2|]).
    - pose proof (arrK_of c ex ord KM OK (k_recall k) cTsyn [] T1) as X. rewrite EX in X. apply X; auto; [rewrite T2; lra|exact I].
    - pose proof (arrK_of c ex ord KM OK (k_recall k) d2 [] D1) as X. rewrite EX in X. apply X; auto; [lra|exact I]. }
  assert (LG : spike_log (fst (rs c ex ord KM)) (k_output k) = map (tt c) [a1; a2]).
  { apply (spike_log_of c ex ord KM OK); auto.
    - rewrite C1. lia.
    - unfold extsp, ex. cbn [exts64 stim_ext64 flat_map app filter fst]. eqbs. reflexivity.
    - cbn. lia.
    - intros j [<-|[<-|[]]]; lia. }
  assert (X : (FR dt + p2 (-30)) / FR tcod = (FR dt + (p2 (-30) - p2 (-35)) + p2 (-35)) / FR tcod) by (f_equal; ring). rewrite X.
  apply (emits64_intro c ex ord KM _ _ tmin tcod a1 a2); auto; try lia.
  - cbn in Q |- *. lra.
  - rewrite C2. apply Rabs_le. fold iv. rewrite Rmult_minus_distr_r. lra.
Qed.
End Const.
