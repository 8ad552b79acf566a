(** User scripts run in binary64: the specification vocabulary of the binary64 network
    theorems, and the reduction of a script to FNet.v. *)
From Coq Require Import Arith ZArith Bool List Reals Lra Lia Permutation.
From Flocq Require Import Core BinarySingleNaN PrimFloat.
From Coq Require Import Floats Uint63.
From Verif Require Import Num NumOrd Elements Simulator Networks Trace SimTrace AnySim F64 F64Thms GTrace TraceProps NeuronLib NetLib MemoryProof SegLib Build BuildNets Bridge FNet.
Import ListNotations.
Open Scope list_scope.
Open Scope R_scope.

(** one call of apply_input_value or apply_input_spike (simulator.py:52-82) *)
Inductive stim64 := FValue (v : float) (n : nat) (t0 : float) | FSpike (n : nat) (t : float).
Definition feed64 (c : cfg float) (s : sim float) (x : stim64) : res (sim float) :=
  match x with
  | FValue v n t0 => apply_input_value c s v n t0
  | FSpike n t => Ok (apply_input_spike c s n t)
  end.
(** net = bl(); sim = Simulator(net, enc, dt); inputs; sim.simulate(T): what Python computes *)
Definition session64 {A} (bl : B float A) (md : A -> nat) (enc : encoder float) (dt : float) (stims : A -> list stim64)
  (ord : nat -> list nat -> list nat) (T : float) : res (A * sim float) :=
  let* aw := bl empty_world in
  let* cs := mk_simulator (snd aw) (md (fst aw)) enc dt in
  let* s1 := rfold (feed64 (fst cs)) (stims (fst aw)) (snd cs) in
  let* s2 := simulate (fst cs) ord s1 T in
  Ok (fst aw, s2).
(** the log of neuron n is a pair of spikes whose interval decodes, in binary64, to a finite
    number within eps of v *)
Definition emits64 (s : sim float) (n : nat) (enc : encoder float) (v eps : R) : Prop :=
  exists t1 t2 y, spike_log s n = [t1; t2] /\ nltb t1 t2 = true /\
    decode_interval enc (nsub t2 t1) = Ok y /\ fin y /\ Rabs (FR y - v) <= eps.

(** ** reduction *)
Definition stim_ext64 (enc : encoder float) (x : stim64) : list (nat * float) :=
  match x with
  | FValue v n t0 => [(n, nadd t0 nzero); (n, nadd t0 (nadd (Tmin enc) (nmul v (Tcod enc))))]
  | FSpike n t => [(n, t)]
  end.
Definition exts64 enc (l : list stim64) : list (nat * float) := flat_map (stim_ext64 enc) l.
Definition stim_ok64 (x : stim64) : Prop := match x with FValue v n t0 => fin v /\ 0 <= FR v <= 1 | FSpike n t => True end.
Lemma in_range64 v : fin v -> 0 <= FR v <= 1 -> nleb nzero v = true /\ nleb v n_one = true.
Proof.
  intros Hf Hv. destruct zero_FR as [Z1 Z2]. destruct one_FR as [O1 O2]. cbn [nleb F_num].
  rewrite !leb_FR, Z1, O1 by auto. rewrite !Rle_bool_true by lra. auto.
Qed.
Lemma feed_all64 c l : Forall stim_ok64 l -> forall s, rfold (feed64 c) l s =
  Ok (fold_left (fun s p => apply_input_spike c s (fst p) (snd p)) (exts64 (c_enc c) l) s).
Proof.
  induction 1 as [|x l Hx Hl IH]; intros s; [reflexivity|]. cbn [rfold exts64 flat_map].
  assert (E : feed64 c s x = Ok (fold_left (fun s p => apply_input_spike c s (fst p) (snd p)) (stim_ext64 (c_enc c) x) s)).
  { destruct x as [v n t0|n t]; cbn [feed64 stim_ext64 fold_left fst snd]; auto. destruct Hx as [Hf Hv].
    destruct (in_range64 v Hf Hv) as [R1 R2]. unfold apply_input_value, encode_value, ngeb. rewrite R1, R2. reflexivity. }
  rewrite E. cbn [rbind]. rewrite IH, fold_left_app. reflexivity.
Qed.

Lemma std_ok64 : neqb (tm (std_params (T := float))) nzero = false /\ neqb (tf (std_params (T := float))) nzero = false.
Proof. split; vm_compute; reflexivity. Qed.

Lemma session64_run {A} (bl : B float A) (md : A -> nat) a (w : world float) L enc dt stims ord T KM :
  bl empty_world = Ok (a, w) -> built empty_world w (md a) L -> num_steps dt T = Ok KM -> Forall stim_ok64 (stims a) ->
  exists c, c_world c = w /\ c_dt c = dt /\ healthy c /\ (forall n, (n < length (w_neurons w))%nat -> gprm c n = std_params) /\
    w_syns w = L /\ (forall y, In y L -> (s_pre y < length (w_neurons w))%nat) /\
    (sim_steps c ord 0 KM (inputs_of c (exts64 enc (stims a)), []) = Ok (rs c (exts64 enc (stims a)) ord KM) ->
     session64 bl md enc dt stims ord T = Ok (a, fst (rs c (exts64 enc (stims a)) ord KM))).
Proof.
  intros E HB HK HF. destruct HB as [I X Em Hl O ES _]. cbn in Em, ES.
  assert (O0 : owned 0 w) by (rewrite <- Em; auto). assert (Hl0 : (0 < length (w_mods w))%nat) by lia.
  destruct (covers_all w I O0 Hl0) as (keys & Ek & HKy).
  exists {| c_world := w; c_keys := keys; c_enc := enc; c_dt := dt |}. cbn [c_world c_dt]. split; auto. split; auto. split; [|split; [|split; [|split]]].
  - split; [|split]; cbn [c_world c_keys].
    + intros n Hn. apply HKy; auto.
    + intros nr Hn. apply In_nth_error in Hn. destruct Hn as [n Hn]. rewrite (i_prm _ I n nr Hn). apply std_ok64.
    + intros y Hy. destruct (i_syn _ I y Hy) as (_ & Y2 & Y3). split; auto. apply HKy; auto.
  - intros n Hn. unfold gprm. cbn [c_world]. destruct (nth_error (w_neurons w) n) as [nr|] eqn:En.
    + apply (i_prm _ I n nr En).
    + apply nth_error_None in En. lia.
  - auto.
  - intros y Hy. rewrite <- ES in Hy. apply (i_syn _ I y Hy).
  - intros HS. unfold session64. rewrite E. cbn [rbind fst snd]. unfold mk_simulator. rewrite Em, Ek. cbn [rbind fst snd].
    rewrite feed_all64 by auto. cbn [rbind c_enc]. unfold simulate. cbn [c_dt]. rewrite HK. cbn [rbind].
    unfold inputs_of in HS. cbn [c_world] in HS. rewrite HS. reflexivity.
Qed.

(** ** the number of steps *)
Lemma steps_bounds dt T : fin dt -> fin T -> p2 (-12) <= FR dt -> FR dt <= FR T <= p2 15 ->
  exists KM, num_steps dt T = Ok KM /\ FR T - FR dt - eta < INR KM * FR dt <= p2 16.
Proof.
  intros F1 F2 Hd HT. set (d := FR dt) in *. assert (D0 : 0 < d) by (pose proof (bpow_gt_0 radix2 (-12)); lra).
  assert (Q : 0 <= FR T / d <= p2 27).
  { split; [apply Rmult_le_pos; [lra|left; apply Rinv_0_lt_compat; auto]|].
    apply Rmult_le_reg_r with d; auto. unfold Rdiv. rewrite Rmult_assoc, Rinv_l, Rmult_1_r by lra.
    apply Rle_trans with (p2 27 * p2 (-12)); [rewrite <- bpow_plus; exact (proj2 HT)|]. apply Rmult_le_compat_l; [apply bpow_ge_0|auto]. }
  destruct (steps64 dt T F1 F2) as (K & EK & B); auto; try (fold d; lra).
  { fold d. eapply Rle_trans; [apply Q|]. apply bpow_le; lia. }
  fold d in B. exists K. split; auto.
  assert (ER : Rabs (rnd (FR T / d) - FR T / d) <= p2 (-53) * (FR T / d) + p2 (-1074)) by (apply rel_small; lra).
  apply Rabs_le_inv in ER.
  assert (EQ : FR T / d * d = FR T) by (field; lra).
  assert (P1 : p2 (-53) * (FR T / d) * d = p2 (-53) * FR T) by (rewrite Rmult_assoc, EQ; auto).
  assert (P2 : p2 (-53) * FR T <= p2 (-38)).
  { change (-38)%Z with (-53 + 15)%Z. rewrite bpow_plus. apply Rmult_le_compat_l; [apply bpow_ge_0|lra]. }
  assert (P3 : p2 (-1074) * d <= p2 (-1059)).
  { change (-1059)%Z with (-1074 + 15)%Z. rewrite bpow_plus. apply Rmult_le_compat_l; [apply bpow_ge_0|lra]. }
  assert (P4 : p2 (-1059) <= p2 (-38)) by (apply bpow_le; lia).
  assert (P5 : p2 (-38) + p2 (-38) < eta) by (unfold eta; cbn; lra).
  assert (P6 : p2 16 = 2 * p2 15) by (cbn; lra). assert (P7 : eta <= p2 15) by (apply bpow_le; lia).
  destruct B as [B1 B2]. split.
  - assert (X : FR T / d - (p2 (-53) * (FR T / d) + p2 (-1074)) < INR K + 1) by lra.
    apply Rmult_lt_compat_r with (r := d) in X; auto. 
    replace ((FR T / d - (p2 (-53) * (FR T / d) + p2 (-1074))) * d) with (FR T / d * d - p2 (-53) * (FR T / d) * d - p2 (-1074) * d) in X by ring.
    rewrite EQ, P1 in X. lra.
  - assert (X : INR K <= FR T / d + (p2 (-53) * (FR T / d) + p2 (-1074))) by lra.
    apply Rmult_le_compat_r with (r := d) in X; [|lra]. 
    replace ((FR T / d + (p2 (-53) * (FR T / d) + p2 (-1074))) * d) with (FR T / d * d + p2 (-53) * (FR T / d) * d + p2 (-1074) * d) in X by ring.
    rewrite EQ, P1 in X. lra.
Qed.

(** ** reading an emitted value *)
Lemma emits64_intro c ext ord KM s n tmin tcod a b x D : netok c ext ord KM ->
  fin tmin -> fin tcod -> 0 <= FR tmin -> p2 (-20) <= FR tcod -> FR tmin + FR tcod <= p2 14 -> 0 <= x <= 1 -> 0 <= D <= 1 ->
  spike_log s n = map (tt c) [a; b] -> (1 <= a < b)%nat -> (b <= KM)%nat ->
  Rabs ((INR b - INR a) * FR (c_dt c) - (FR tmin + x * FR tcod)) <= D ->
  emits64 s n (DataEncoder tmin tcod) x ((D + p2 (-35)) / FR tcod).
Proof.
  intros OK F1 F2 Hm Hc' Hs Hx HD HL Hab Hb HI.
  assert (Hc : 0 < FR tcod) by (pose proof (bpow_gt_0 radix2 (-20)); lra).
  pose proof (n_dtf _ _ _ _ OK) as Hdf. pose proof (n_dt _ _ _ _ OK) as Hd. pose proof (n_KM _ _ _ _ OK) as HKM. pose proof (n_K1 _ _ _ _ OK) as HK1.
  set (d := FR (c_dt c)) in *.
  destruct (tau_spec c ext ord KM OK a ltac:(lia)) as (A1 & A2 & A3).
  destruct (tau_spec c ext ord KM OK b ltac:(lia)) as (B1 & B2 & B3). fold d in A2, B2.
  unfold tau in *. set (ta := FR (tt c a)) in *. set (tb := FR (tt c b)) in *.
  assert (Hlt : nltb (tt c a) (tt c b) = true).
  { unfold tt. apply time64_lt; auto; fold d.
    - apply Rle_trans with (p2 (-12)); auto. apply bpow_le; lia.
    - lia.
    - pose proof (KM_small c ext ord KM OK). lia.
    - replace (S (b - 1)) with b by lia. eapply Rle_trans; [|apply (p2_big 16); lia]. eapply Rle_trans; [|exact HKM].
      apply Rmult_le_compat_r; [|apply le_INR; auto]. pose proof (bpow_gt_0 radix2 (-12)). lra. }
  assert (Lt : ta < tb).
  { cbn [nltb F_num] in Hlt. rewrite ltb_FR in Hlt by auto. fold ta tb in Hlt. destruct (Rlt_bool_spec ta tb); [auto|discriminate]. }
  apply Rabs_le_inv in A2, B2, HI.
  assert (Hxc : 0 <= x * FR tcod <= FR tcod).
  { split; [apply Rmult_le_pos; lra|]. rewrite <- (Rmult_1_l (FR tcod)) at 2. apply Rmult_le_compat_r; lra. }
  assert (E0 : 2 * p2 (-38) = p2 (-37)) by (cbn; lra).
  assert (P14 : p2 14 + 1 + p2 (-37) <= p2 15) by (cbn; lra).
  (* t2 - t1 *)
  destruct (sub_FR (tt c b) (tt c a) B1 A1) as [S1 S2].
  { fold ta tb. apply Rle_trans with (p2 16); [|apply p2_big; lia]. apply Rabs_pos_le; lra. }
  fold ta tb in S1. set (u := nsub (tt c b) (tt c a)). change (PrimFloat.sub (tt c b) (tt c a)) with u in S1, S2.
  assert (U : Rabs (FR u - (tb - ta)) <= p2 (-39)).
  { rewrite S1. change (-39)%Z with (15 - 54)%Z. apply rnd_abs; [lia|]. apply Rabs_pos_le; lra. }
  apply Rabs_le_inv in U.
  (* - tmin *)
  assert (E1 : p2 (-39) <= 1) by (apply (bpow_le radix2 (-39) 0); lia).
  assert (E37 : p2 (-37) <= 1) by (apply (bpow_le radix2 (-37) 0); lia).
  assert (P15 : p2 15 + 1 <= p2 16) by (cbn; lra).
  destruct (sub_FR u tmin S2 F1) as [W1 W2].
  { apply Rle_trans with (p2 16); [|apply p2_big; lia]. apply Rabs_le. lra. }
  set (z := nsub u tmin). change (PrimFloat.sub u tmin) with z in W1, W2.
  assert (Z : Rabs (FR z - (FR u - FR tmin)) <= p2 (-38)).
  { rewrite W1. change (-38)%Z with (16 - 54)%Z. apply rnd_abs; [lia|]. apply Rabs_le. lra. }
  apply Rabs_le_inv in Z.
  (* / tcod *)
  set (e := p2 (-37) + p2 (-38) + p2 (-39)).
  assert (ZE : Rabs (FR z - x * FR tcod) <= D + e) by (apply Rabs_le; unfold e; lra).
  assert (He : 0 < e <= 1) by (unfold e; cbn; lra).
  apply Rabs_le_inv in ZE.
  assert (Bz : Rabs (FR z) <= p2 15) by (apply Rabs_le; assert (p2 14 + 3 <= p2 15) by (cbn; lra); lra).
  assert (Bq : Rabs (FR z / FR tcod) <= p2 35).
  { unfold Rdiv. rewrite Rabs_mult, (Rabs_pos_eq (/ FR tcod)) by (left; apply Rinv_0_lt_compat; auto).
    change 35%Z with (15 + 20)%Z. rewrite bpow_plus. apply Rmult_le_compat; auto; [apply Rabs_pos|left; apply Rinv_0_lt_compat; auto|].
    change 20%Z with (- (-20))%Z. rewrite bpow_opp. apply Rinv_le; auto. apply bpow_gt_0. }
  destruct (div_FR z tcod W2) as [Y1 Y2]; [lra|eapply Rle_trans; [exact Bq|]; apply p2_big; lia|].
  exists (tt c a), (tt c b), (PrimFloat.div z tcod). split; [exact HL|]. split; [exact Hlt|]. split; [|split; [exact Y2|]].
  - unfold decode_interval, pdiv. cbn [DataEncoder Tcod Tmin]. destruct zero_FR as [Z1 Z2]. cbn [neqb F_num].
    rewrite (eqb_FR tcod nzero F2 Z2), Z1, Req_bool_false by lra. reflexivity.
  - rewrite Y1. set (q := FR z / FR tcod) in *.
    assert (EQ : q * FR tcod = FR z) by (unfold q; field; lra).
    assert (ER : Rabs (rnd q - q) <= p2 (-53) * Rabs q + p2 (-1074)).
    { destruct (Rle_dec 0 q) as [H|H]; [rewrite (Rabs_pos_eq q) by auto; apply rel_small; auto|].
      rewrite (Rabs_left q) by lra. rewrite <- Rabs_Ropp. replace (- (rnd q - q)) with (rnd (- q) - - q) by (rewrite rnd_opp; ring). apply rel_small. lra. }
    apply Rmult_le_reg_r with (FR tcod); auto. 
    replace ((D + p2 (-35)) / FR tcod * FR tcod) with (D + p2 (-35)) by (field; lra).
    assert (P1 : p2 (-53) * Rabs q * FR tcod <= p2 (-38)).
    { rewrite Rmult_assoc. replace (Rabs q * FR tcod) with (Rabs (FR z)) by (rewrite <- EQ, Rabs_mult, (Rabs_pos_eq (FR tcod)) by lra; auto).
      change (-38)%Z with (-53 + 15)%Z. rewrite bpow_plus. apply Rmult_le_compat_l; [apply bpow_ge_0|auto]. }
    assert (P2 : p2 (-1074) * FR tcod <= p2 (-1060)).
    { change (-1060)%Z with (-1074 + 14)%Z. rewrite bpow_plus. apply Rmult_le_compat_l; [apply bpow_ge_0|lra]. }
    assert (P3 : p2 (-1060) <= p2 (-60)) by (apply bpow_le; lia).
    assert (P4 : e + p2 (-38) + p2 (-60) <= p2 (-35)) by (unfold e; cbn; lra).
    apply Rmult_le_compat_r with (r := FR tcod) in ER; [|lra].
    replace (Rabs (rnd q - x) * FR tcod) with (Rabs ((rnd q - q) * FR tcod + (FR z - x * FR tcod))).
    2:{ rewrite <- (Rabs_pos_eq (FR tcod)) at 3 by lra. rewrite <- Rabs_mult. f_equal. rewrite <- EQ. ring. }
    eapply Rle_trans; [apply Rabs_triang|]. rewrite Rabs_mult, (Rabs_pos_eq (FR tcod)) by lra.
    assert (Rabs (FR z - x * FR tcod) <= D + e) by (apply Rabs_le; lra). lra.
Qed.

Lemma session64_ok {A} (bl : B float A) (md : A -> nat) a (w : world float) L enc dt stims ord T :
  bl empty_world = Ok (a, w) -> built empty_world w (md a) L ->
  fin dt -> fin T -> p2 (-12) <= FR dt -> FR dt <= FR T <= p2 15 -> ord_ok ord -> Forall stim_ok64 (stims a) ->
  (forall y, In y L -> fin (s_delay y) /\ 0 <= FR (s_delay y) <= p2 16) ->
  (forall n t, In (n, t) (exts64 enc (stims a)) -> fin t /\ 0 <= FR t <= p2 16 /\ (n < length (w_neurons w))%nat) ->
  (1 <= FR T / FR dt - 1) ->
  exists c KM, netok c (exts64 enc (stims a)) ord KM /\ c_world c = w /\ c_dt c = dt /\ w_syns w = L /\
    FR T - FR dt - eta < INR KM * FR dt /\
    session64 bl md enc dt stims ord T = Ok (a, fst (rs c (exts64 enc (stims a)) ord KM)).
Proof.
  intros E HB F1 F2 Hd HT HO HF HL HE H1.
  destruct (steps_bounds dt T F1 F2 Hd HT) as (KM & EK & K1 & K2).
  destruct (session64_run bl md a w L enc dt stims ord T KM E HB EK HF) as (c & C1 & C2 & C3 & C4 & C5 & C6 & C7).
  assert (D0 : 0 < FR dt) by (pose proof (bpow_gt_0 radix2 (-12)); lra).
  assert (OK : netok c (exts64 enc (stims a)) ord KM).
  { constructor; rewrite ?C1, ?C2, ?C5; auto.
    - destruct KM; [exfalso|lia]. cbn [INR] in K1. rewrite Rmult_0_l in K1.
      assert (X : FR T / FR dt * FR dt = FR T) by (field; lra).
      assert (Y : 2 * FR dt <= FR T). { rewrite <- X. apply Rmult_le_compat_r; lra. }
      assert (eta < FR dt). { apply Rlt_le_trans with (p2 (-12)); auto. apply bpow_lt. lia. } lra.
    - intros y Hy. destruct (HL y Hy). auto. }
  exists c, KM. split; [exact OK|]. split; auto. split; auto. split; auto. split; auto. apply C7.
  apply (trace c _ ord KM OK KM (Nat.le_refl _)).
Qed.

(** ** constants *)
Lemma opp_FR x : FR (PrimFloat.opp x) = - FR x /\ (fin x -> fin (PrimFloat.opp x)).
Proof. unfold FR, fin. rewrite opp_equiv. rewrite B2R_Bopp, is_finite_Bopp. auto. Qed.
Lemma we_F : fin (we (T := float)) /\ FR we = IZR 4 * (5 / 2).
Proof. unfold we, cVt. destruct (ofZ_small 10 ltac:(lia)) as [A1 A2]. rewrite A1. split; auto. lra. Qed.
Lemma wi_F : fin (wi (T := float)) /\ FR wi = IZR (-4) * (5 / 2).
Proof.
  unfold wi, cVt. destruct (ofZ_small 10 ltac:(lia)) as [A1 A2]. cbn [nopp F_num]. destruct (opp_FR (nofZ 10)) as [B1 B2].
  rewrite B1, A1. split; auto. lra.
Qed.
Lemma half_we_F : fin (half (T := float) we) /\ FR (half we) = IZR 2 * (5 / 2).
Proof.
  assert (E : half (T := float) we = nofZ 5) by (vm_compute; reflexivity). rewrite E.
  destruct (ofZ_small 5 ltac:(lia)) as [A1 A2]. rewrite A1. split; auto. lra.
Qed.
Lemma cTsyn_F : fin (cTsyn (T := float)) /\ FR cTsyn = 1.
Proof. unfold cTsyn. destruct (ofZ_small 1 ltac:(lia)) as [A1 A2]. auto. Qed.
Lemma twice_Tsyn_F : fin (twice (T := float) cTsyn) /\ FR (twice cTsyn) = 2.
Proof.
  assert (E : twice (T := float) cTsyn = nofZ 2) by (vm_compute; reflexivity). rewrite E.
  destruct (ofZ_small 2 ltac:(lia)) as [A1 A2]. auto.
Qed.

(** tmin + v * tcod computed in binary64, in either order of the addition *)
Lemma interval_F tmin tcod v : fin tmin -> fin tcod -> fin v -> 0 <= FR tmin -> 0 <= FR tcod -> FR tmin + FR tcod <= p2 14 -> 0 <= FR v <= 1 ->
  let b := nadd (nmul v tcod) tmin in let b' := nadd tmin (nmul v tcod) in
  (fin b /\ Rabs (FR b - (FR tmin + FR v * FR tcod)) <= p2 (-39) /\ FR tmin <= FR b <= p2 14) /\
  (fin b' /\ Rabs (FR b' - (FR tmin + FR v * FR tcod)) <= p2 (-39) /\ FR tmin <= FR b' <= p2 14).
Proof.
  intros F1 F2 F3 Hm Hc Hs Hv b b'.
  assert (Hx : 0 <= FR v * FR tcod <= FR tcod).
  { split; [apply Rmult_le_pos; lra|]. rewrite <- (Rmult_1_l (FR tcod)) at 2. apply Rmult_le_compat_r; lra. }
  assert (B14 : p2 14 <= big) by (apply p2_big; lia).
  destruct (mul_FR v tcod F3 F2) as [M1 M2]; [apply Rabs_pos_le; lra|].
  set (p := PrimFloat.mul v tcod) in *.
  assert (Ep : Rabs (FR p - FR v * FR tcod) <= p2 (-40)).
  { rewrite M1. change (-40)%Z with (14 - 54)%Z. apply rnd_abs; [lia|]. apply Rabs_pos_le; lra. }
  assert (Bp : 0 <= FR p <= FR tcod) by (rewrite M1; split; [apply rnd_pos; lra|apply rnd_le_fmt; lra]).
  assert (E2 : p2 (-40) + p2 (-40) = p2 (-39)) by (cbn; lra).
  assert (G : forall q, q = FR tmin + FR p -> Rabs (rnd q - (FR tmin + FR v * FR tcod)) <= p2 (-39) /\ FR tmin <= rnd q <= p2 14).
  { intros q ->. assert (Rabs (rnd (FR tmin + FR p) - (FR tmin + FR p)) <= p2 (-40)).
    { change (-40)%Z with (14 - 54)%Z. apply rnd_abs; [lia|]. apply Rabs_pos_le; lra. }
    apply Rabs_le_inv in H, Ep. split; [apply Rabs_le; lra|]. split; [apply rnd_ge_fmt; lra|].
    rewrite <- (rnd_bpow 14) by lia. apply rnd_le. lra. }
  split.
  - destruct (add_FR p tmin M2 F1) as [A1 A2]; [apply Rabs_pos_le; lra|]. unfold b. cbn [nadd nmul F_num]. fold p.
    rewrite A1. split; auto. apply G. ring.
  - destruct (add_FR tmin p F1 M2) as [A1 A2]; [apply Rabs_pos_le; lra|]. unfold b'. cbn [nadd nmul F_num]. fold p.
    rewrite A1. split; auto.
Qed.
Lemma add_small t b e : fin t -> fin b -> 0 <= FR t -> 0 <= FR b -> (0 <= e <= 100)%Z -> FR t + FR b <= p2 e ->
  fin (nadd t b) /\ Rabs (FR (nadd t b) - (FR t + FR b)) <= p2 (e - 54) /\ 0 <= FR (nadd t b) <= p2 e.
Proof.
  intros F1 F2 H1 H2 He H. destruct (add_FR t b F1 F2) as [A1 A2].
  { apply Rabs_pos_le; [lra|]. eapply Rle_trans; [exact H|]. apply p2_big; lia. }
  cbn [nadd F_num]. rewrite A1. split; auto. split; [apply rnd_abs; [lia|apply Rabs_pos_le; lra]|].
  split; [apply rnd_pos; lra|]. rewrite <- (rnd_bpow e) by lia. apply rnd_le. auto.
Qed.
Lemma add_zero t : fin t -> Rabs (FR t) <= p2 20 -> fin (nadd t nzero) /\ FR (nadd t nzero) = FR t.
Proof.
  intros F H. destruct zero_FR as [Z1 Z2]. destruct (add_FR t nzero F Z2) as [A1 A2].
  { rewrite Z1, Rplus_0_r. eapply Rle_trans; [exact H|]. apply p2_big; lia. }
  cbn [nadd F_num]. rewrite A1, Z1, Rplus_0_r, rnd_FR. auto.
Qed.
