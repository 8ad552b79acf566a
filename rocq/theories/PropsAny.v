(** Property theorems about the simulator and the encoder that hold in ANY arithmetic
    ([Num T]), and theorems about the code run in binary64, the arithmetic Python uses
    (C01, C06, C07, C08, C14).  In the binary64 statements [FR x] is the real number a
    float stands for (Flocq's [B2R]), [fin x] says that it is neither infinite nor NaN,
    [bpow radix2 e] is 2^e. *)
From Coq Require Import Arith ZArith Bool List Reals Lra Lia Sorting.Sorted.
From Flocq Require Import Core BinarySingleNaN PrimFloat.
From Coq Require Import Floats.
From Verif Require Import Num NumOrd Elements Simulator SimTrace Refute AnySim F64 F64Thms.
Import ListNotations.
Open Scope list_scope.

(** ** C06 conservation: after any history of apply_input_spike, apply_input_value and
    simulate calls (the iteration order of the sets may differ from call to call), for each
    synapse type the events processed plus the events still queued are exactly one per
    synapse of that type and logged spike of its source neuron *)
Theorem C06_any_conservation : forall (T : Type) (NT : Num T) (c : cfg T) (s : sim T), reachable c s ->
  forall ty, ty <> SynOther ->
  (cnt_of (s_cnt s) ty + length (filter (fun e => syntype_eqb (e_ty e) ty) (s_q s)) =
   list_sum (map (fun y => length (spike_log s (s_pre y)))
                 (filter (fun y => syntype_eqb (s_ty y) ty) (w_syns (c_world c)))))%nat.
Proof. exact @conservation_logs. Qed.
Print Assumptions C06_any_conservation.

(** ** C06 no overdue event: what is left in the queue after simulate is later than the last
    simulated time, or was sent in the last step itself *)
Theorem C06_binary64_no_overdue : forall (c : cfg float) ord ext tt k s, fin (c_dt c) ->
  (forall y, In y (w_syns (c_world c)) -> fin (s_delay y)) -> (forall n t, In (n, t) ext -> fin t) ->
  num_steps (c_dt c) tt = Ok (S k) ->
  simulate c ord (fold_left (fun s p => apply_input_spike c s (fst p) (snd p)) ext (new_sim (c_world c))) tt = Ok s ->
  forall e, In e (s_q s) -> nleb (e_time e) (time_of c k) = false \/
    exists y, In y (w_syns (c_world c)) /\ e = syn_event (time_of c k) y /\ In (time_of c k) (spike_log s (s_pre y)).
Proof. exact no_overdue64. Qed.
Print Assumptions C06_binary64_no_overdue.

(** ** C07: what simulate adds to a neuron's logs: at most one entry per step, in step
    order; a spike is stamped with the step's time and its voltage entry is Vreset; any
    other voltage entry is not at or above the threshold *)
Theorem C07_any_logs : forall (T : Type) (NT : Num T) (c : cfg T) ord s tt k s' n, ord_ok ord ->
  num_steps (c_dt c) tt = Ok k -> simulate c ord s tt = Ok s' ->
  exists log : list (nat * (bool * T))%type,
    StronglySorted lt (map fst log) /\
    Forall (fun x : nat * (bool * T) => (fst x < k)%nat /\ exists nr, nth_error (w_neurons (c_world c)) n = Some nr /\
        if fst (snd x) then snd (snd x) = Vreset (nr_params nr) else nleb (Vt (nr_params nr)) (snd (snd x)) = false) log /\
    spike_log s' n = spike_log s n ++
      map (fun x => nmul (nofZ (Z.of_nat (fst x + 1))) (c_dt c)) (filter (fun x => fst (snd x)) log) /\
    voltage_log s' n = voltage_log s n ++ map (fun x => (snd (snd x), fst x)) log.
Proof.
  intros T NT c ord s tt k s' n Hord EK E. apply simulate_inv in E. destruct E as (k' & act & EK' & E).
  rewrite EK in EK'. injection EK' as <-.
  destruct (steps_neuron c ord n Hord _ _ _ _ _ _ (NoDup_nil _) E) as (log & L1 & L2 & L3 & L4).
  exists log. repeat split; auto. eapply Forall_impl; [|exact L2]. cbn. intros x [X1 X2]. split; auto. lia.
Qed.
Print Assumptions C07_any_logs.
(** in binary64 the logged times of a neuron are strictly increasing, as long as dt is a
    normal number, there are at most 2^52 steps and the last time does not overflow *)
Theorem C07_binary64_increasing : forall (c : cfg float) ord s tt k s' n, ord_ok ord ->
  fin (c_dt c) -> (bpow radix2 (-1022) <= FR (c_dt c))%R ->
  num_steps (c_dt c) tt = Ok k -> (Z.of_nat k <= 2 ^ 52)%Z -> (INR k * FR (c_dt c) <= bpow radix2 1023)%R ->
  simulate c ord s tt = Ok s' ->
  exists new, spike_log s' n = spike_log s n ++ new /\ StronglySorted (fun a b => nltb a b = true) new.
Proof. exact increasing64. Qed.
Print Assumptions C07_binary64_increasing.

(** ** C08: simulating longer only extends the logs (same set order) *)
Theorem C08_any_prefix : forall (T : Type) (NT : Num T) (c : cfg T) ord s T1 T2 k1 k2 s2, ord_ok ord ->
  num_steps (c_dt c) T1 = Ok k1 -> num_steps (c_dt c) T2 = Ok k2 -> (k1 <= k2)%nat ->
  simulate c ord s T2 = Ok s2 ->
  exists s1, simulate c ord s T1 = Ok s1 /\
    forall n, (exists more, spike_log s2 n = spike_log s1 n ++ more) /\
              (exists more, voltage_log s2 n = voltage_log s1 n ++ more).
Proof. exact @prefix_any. Qed.
Print Assumptions C08_any_prefix.
(** simulating up to exactly the k-th simulated time, as computed in binary64, runs k or
    k - 1 steps: never more, never fewer *)
Theorem C08_binary64_steps : forall (c : cfg float) k, fin (c_dt c) ->
  (bpow radix2 (-960) <= FR (c_dt c) <= bpow radix2 900)%R -> (0 < k)%nat -> (Z.of_nat k <= 2 ^ 50)%Z ->
  num_steps (c_dt c) (time_of c (k - 1)) = Ok k \/ num_steps (c_dt c) (time_of c (k - 1)) = Ok (k - 1)%nat.
Proof. exact steps_to_time64. Qed.
Print Assumptions C08_binary64_steps.
(** and k - 1 does happen with the default step dt = 0.001: simulate(2001 * 0.001) stops
    before the step at that time, so a spike due exactly then is not logged, although the
    same simulation run a little longer logs it at exactly that time *)
Definition f_relay : world float :=
  mk_net [{| Vt := nofZ 10; tm := nofZ 1; tf := nofZ 1; Vreset := nofZ 0 |};
          {| Vt := nofZ 10; tm := nofZ 1; tf := nofZ 1; Vreset := nofZ 0 |}]
         [{| s_pre := 0; s_post := 1; s_ty := SynV; s_w := nofZ 10; s_delay := nlit 1 1000 |}]%nat [0; 1]%nat.
Theorem C08_binary64_last_step_refuted :
  let dt := nlit 1 1000 in
  let t := nmul (nofZ 2001) dt in
  num_steps dt t = Ok 2000%nat /\
  match run f_relay dt ord_id [(0%nat, nofZ 2)] [t], run f_relay dt ord_id [(0%nat, nofZ 2)] [nlit 20015 10000] with
  | Ok s1, Ok s2 => spike_log s1 1 = [] /\ spike_log s2 1 = [t] /\ nleb t t = true
  | _, _ => False
  end.
Proof. vm_compute. auto. Qed.
Print Assumptions C08_binary64_last_step_refuted.

(** ** C14: when simulate succeeds, in any arithmetic and from any reachable state: the only
    possible failure of a healthy network is the computation of the number of steps *)
Theorem C14_any_total : forall (T : Type) (NT : Num T) (c : cfg T) ord s tt,
  (forall n, In n (c_keys c) -> (n < length (w_neurons (c_world c)))%nat) ->
  (forall nr, In nr (w_neurons (c_world c)) ->
     neqb (tm (nr_params nr)) nzero = false /\ neqb (tf (nr_params nr)) nzero = false) ->
  (forall y, In y (w_syns (c_world c)) -> s_ty y <> SynOther /\ In (s_post y) (c_keys c)) ->
  ord_ok ord -> reachable c s ->
  match num_steps (c_dt c) tt with
  | Ok _ => exists s', simulate c ord s tt = Ok s'
  | Err e => simulate c ord s tt = Err e
  end.
Proof. intros T NT c ord s tt H1 H2 H3. apply total. repeat split; auto; apply H2 || apply H3; auto. Qed.
Print Assumptions C14_any_total.
(** in binary64 that computation succeeds for finite times and positive finite dt *)
Theorem C14_binary64_steps : forall dt tt, fin dt -> fin tt -> (0 < FR dt)%R -> (0 <= FR tt)%R ->
  (FR tt / FR dt <= bpow radix2 52)%R ->
  exists k, num_steps dt tt = Ok k /\ (INR k <= rnd (FR tt / FR dt) < INR k + 1)%R.
Proof. exact steps64. Qed.
Print Assumptions C14_binary64_steps.
Theorem C14_binary64_steps_fail :
  num_steps (nlit 1 1000) infinity = Err EOverflow /\ num_steps (nlit 1 1000) nan = Err EOverflow /\
  num_steps (nofZ 0) (nofZ 1) = Err EZeroDiv.
Proof. vm_compute. auto. Qed.
Print Assumptions C14_binary64_steps_fail.

(** ** C01 in binary64.  The encoder's interval stays within [Tmin, Tmax] and decoding it
    gives the value back up to 3 roundings at the magnitude of Tmax and one of the result *)
Open Scope R_scope.
Theorem C01_binary64_roundtrip : forall tmin tcod e x, fin tmin -> fin tcod -> 0 <= FR tmin -> 0 < FR tcod ->
  (-960 <= e <= 1000)%Z -> FR tmin + FR tcod <= bpow radix2 e -> bpow radix2 (e - 50) <= FR tcod ->
  fin x -> 0 <= FR x <= 1 ->
  exists b v, encode_value (DataEncoder tmin tcod) x = Ok (nzero, b) /\ fin b /\
    FR tmin <= FR b <= FR (Tmax (DataEncoder tmin tcod)) /\
    decode_interval (DataEncoder tmin tcod) (nsub b nzero) = Ok v /\ fin v /\
    Rabs (FR v - FR x) <= 3 * bpow radix2 (e - 54) / FR tcod + bpow radix2 (-53).
Proof. exact roundtrip64. Qed.
Print Assumptions C01_binary64_roundtrip.
(** default encoder: off by at most 2^-51 *)
Theorem C01_binary64_default : forall x, fin x -> 0 <= FR x <= 1 ->
  exists b v, encode_value DefaultEncoder x = Ok (nzero, b) /\ 10 <= FR b <= 110 /\
    decode_interval DefaultEncoder (nsub b nzero) = Ok v /\ Rabs (FR v - FR x) <= bpow radix2 (-51).
Proof. exact default64. Qed.
Print Assumptions C01_binary64_default.
Theorem C01_binary64_monotone : forall tmin tcod e x x', fin tmin -> fin tcod -> 0 <= FR tmin -> 0 < FR tcod ->
  (-960 <= e <= 1000)%Z -> FR tmin + FR tcod <= bpow radix2 e -> bpow radix2 (e - 50) <= FR tcod ->
  fin x -> fin x' -> 0 <= FR x -> FR x <= FR x' -> FR x' <= 1 ->
  exists b v b' v',
    encode_value (DataEncoder tmin tcod) x = Ok (nzero, b) /\
    encode_value (DataEncoder tmin tcod) x' = Ok (nzero, b') /\ nleb b b' = true /\
    decode_interval (DataEncoder tmin tcod) (nsub b nzero) = Ok v /\
    decode_interval (DataEncoder tmin tcod) (nsub b' nzero) = Ok v' /\ nleb v v' = true.
Proof. exact monotone64. Qed.
Print Assumptions C01_binary64_monotone.
(** every float outside [0, 1] is rejected, infinities and NaN included *)
Theorem C01_binary64_rejects : forall tmin tcod x, (fin x -> FR x < 0 \/ 1 < FR x) ->
  encode_value (DataEncoder tmin tcod) x = Err EAssert.
Proof. exact rejects64. Qed.
Print Assumptions C01_binary64_rejects.

(** ** the hypotheses can be met: dt = 0.001 in binary64, the relay network above *)
Definition f_dt : float := nlit 1 1000.
Definition f_cfg : cfg float := {| c_world := f_relay; c_keys := [0; 1]%nat; c_enc := DefaultEncoder; c_dt := f_dt |}.
Lemma f_dt_fin : fin f_dt. Proof. reflexivity. Qed.
Lemma f_dt_val : / 1024 <= FR f_dt <= / 512.
Proof.
  unfold f_dt. cbn [nlit nofZ ndiv F_num].
  destruct (ofZ_FR 1) as [A1 A2]; [lia|]. destruct (ofZ_FR 1000) as [B1 B2]; [lia|].
  destruct (div_FR (F_ofZ 1) (F_ofZ 1000) A2) as [D1 _]; [lra| |].
  - rewrite A1, B1. apply Rle_trans with (bpow radix2 0); [|apply bpow_le; lia]. rewrite Rabs_pos_eq; cbn; lra.
  - unfold nlit. cbn [nofZ ndiv F_num]. rewrite D1, A1, B1. split.
    + replace (/ 1024) with (rnd (bpow radix2 (-10))) by (rewrite rnd_bpow by lia; cbn; lra). apply rnd_le. cbn. lra.
    + replace (/ 512) with (rnd (bpow radix2 (-9))) by (rewrite rnd_bpow by lia; cbn; lra). apply rnd_le. cbn. lra.
Qed.
Example C07_binary64_case : exists k s', num_steps f_dt (nofZ 3) = Ok k /\
  simulate f_cfg ord_id (apply_input_spike f_cfg (new_sim f_relay) 0 (nofZ 2)) (nofZ 3) = Ok s' /\
  fin (c_dt f_cfg) /\ bpow radix2 (-1022) <= FR (c_dt f_cfg) /\ (Z.of_nat k <= 2 ^ 52)%Z /\
  INR k * FR (c_dt f_cfg) <= bpow radix2 1023 /\ spike_log s' 1 = [nmul (nofZ 2001) f_dt] /\
  reachable f_cfg s'.
Proof.
  assert (EK : num_steps f_dt (nofZ 3) = Ok 3000%nat) by (vm_compute; reflexivity).
  destruct (simulate f_cfg ord_id (apply_input_spike f_cfg (new_sim f_relay) 0 (nofZ 2)) (nofZ 3)) as [s'|] eqn:ES;
    [|vm_compute in ES; discriminate].
  exists 3000%nat, s'. pose proof f_dt_val as D. cbn [f_cfg c_dt] in *.
  split; [exact EK|]. split; [reflexivity|]. split; [exact f_dt_fin|].
  split; [apply Rle_trans with (bpow radix2 (-10)); [apply bpow_le; lia|change (bpow radix2 (-10)) with (/ 1024); lra]|].
  split; [lia|]. split.
  { apply Rle_trans with (bpow radix2 3); [|apply bpow_le; lia].
    rewrite INR_IZR_INZ. change (IZR (Z.of_nat 3000)) with 3000. change (bpow radix2 3) with 8. lra. }
  split.
  - assert (X : match simulate f_cfg ord_id (apply_input_spike f_cfg (new_sim f_relay) 0 (nofZ 2)) (nofZ 3) with
                | Ok z => spike_log z 1 = [nmul (nofZ 2001) f_dt] | Err _ => False end) by (vm_compute; reflexivity).
    rewrite ES in X. exact X.
  - apply (reach_simulate f_cfg (apply_input_spike f_cfg (new_sim f_relay) 0 (nofZ 2)) ord_id (nofZ 3) s'); [|intros i l; reflexivity|exact ES]. apply (reach_spike f_cfg), (reach_new f_cfg).
Qed.
Example C01_binary64_case : let x := nlit 1 3 in fin x /\ 0 <= FR x <= 1.
Proof.
  cbv zeta. destruct (ofZ_FR 1) as [A1 A2]; [lia|]. destruct (ofZ_FR 3) as [B1 B2]; [lia|].
  destruct (div_FR (F_ofZ 1) (F_ofZ 3) A2) as [D1 D2]; [lra| |].
  - rewrite A1, B1. apply Rle_trans with (bpow radix2 0); [|apply bpow_le; lia]. rewrite Rabs_pos_eq; cbn; lra.
  - unfold nlit. cbn [nofZ ndiv F_num]. split; auto. rewrite D1, A1, B1. split.
    + apply rnd_pos. lra.
    + replace 1 with (rnd 1) at 2 by (apply (rnd_Z 1); lia). apply rnd_le. lra.
Qed.
Example C08_binary64_case : fin (c_dt f_cfg) /\ bpow radix2 (-960) <= FR (c_dt f_cfg) <= bpow radix2 900.
Proof.
  pose proof f_dt_val as D. cbn [f_cfg c_dt]. split; [exact f_dt_fin|]. split.
  - apply Rle_trans with (bpow radix2 (-10)); [apply bpow_le; lia|change (bpow radix2 (-10)) with (/ 1024); lra].
  - apply Rle_trans with (bpow radix2 0); [change (bpow radix2 0) with 1; lra|apply bpow_le; lia].
Qed.
