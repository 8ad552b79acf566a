(** Property theorems C01-C15, C18, C19, C32, C35.  Statements only; proofs are in the
    files imported below.  [Example]s show that the hypotheses can be met. *)
From Coq Require Import Arith ZArith QArith Bool List Reals Lra Lia Permutation Sorting.Sorted Floats.
From Verif Require Import Num NumOrd Heapq HeapqProofs Elements Simulator CancelQueue QueueProofs CancelQueueProofs
  Trace SimTrace SimProps TraceProps SimRel Misc CoreExtra ModTree Scalar ScalarProofs Refute.
Import ListNotations.
Open Scope list_scope.
Open Scope R_scope.

(** ** C01 *)
Theorem C01_encode_accepts : forall tmin tcod x : R, 0 <= x <= 1 ->
  encode_value (DataEncoder tmin tcod) x = Ok (0, tmin + x * tcod).
Proof. exact encode_ok. Qed.
Print Assumptions C01_encode_accepts.
Theorem C01_encode_rejects : forall tmin tcod x : R, x < 0 \/ 1 < x ->
  encode_value (DataEncoder tmin tcod) x = Err EAssert.
Proof. exact encode_err. Qed.
Print Assumptions C01_encode_rejects.
Theorem C01_roundtrip : forall tmin tcod x : R, tcod <> 0 -> 0 <= x <= 1 ->
  exists a b, encode_value (DataEncoder tmin tcod) x = Ok (a, b) /\ a = 0 /\
    decode_interval (DataEncoder tmin tcod) (b - a) = Ok x /\
    (0 < tcod -> tmin <= b - a <= Tmax (DataEncoder tmin tcod)) /\
    (0 < tcod -> forall y, x < y <= 1 -> exists b', encode_value (DataEncoder tmin tcod) y = Ok (0, b') /\ b < b').
Proof. exact encode_roundtrip. Qed.
Print Assumptions C01_roundtrip.
Theorem C01_decode_zero_Tcod : forall tmin d : R, decode_interval (DataEncoder tmin 0) d = Err EZeroDiv.
Proof. exact decode_zero_err. Qed.
Print Assumptions C01_decode_zero_Tcod.
Theorem C01_binary64_roundtrip_refuted :
  match encode_value (DefaultEncoder (T:=float)) (nlit 1 3) with
  | Ok d => match decode_interval DefaultEncoder (nsub (snd d) (fst d)) with
            | Ok v => neqb v (nlit 1 3) = false
            | Err _ => False
            end
  | Err _ => False
  end.
Proof. exact roundtrip_float_refuted. Qed.
Print Assumptions C01_binary64_roundtrip_refuted.

(** ** C02: any history of add_event/pop_events on an initially empty queue, any
    totally ordered time type *)
Theorem C02_queue_history : forall (T : Type) (NT : Num T) (okT : T -> Prop), NumOrd T okT ->
  forall ops : list qop, Forall (qop_ok okT) ops ->
  exists pf : list (event T),
    spec_queue [] ops (fst (run_queue ops [])) pf /\
    Permutation pf (snd (run_queue ops [])) /\
    heap_ok event_lt (snd (run_queue ops [])).
Proof. exact (@queue_history). Qed.
Print Assumptions C02_queue_history.
Example C02_ordered_R : NumOrd R (fun _ => True). Proof. exact R_ord. Qed.
Example C02_ordered_binary64 : NumOrd float Fok. Proof. exact F_ord. Qed.
Example C02_ex : run_queue (T:=Q)
  [QAdd {| e_time := 3%Q; e_nid := 1; e_ty := SynV; e_w := 1%Q |};
   QAdd {| e_time := 1%Q; e_nid := 2; e_ty := SynV; e_w := 1%Q |};
   QAdd {| e_time := 2%Q; e_nid := 3; e_ty := SynGe; e_w := 1%Q |}; QPop 2%Q] [] =
  ([[{| e_time := 1%Q; e_nid := 2; e_ty := SynV; e_w := 1%Q |}; {| e_time := 2%Q; e_nid := 3; e_ty := SynGe; e_w := 1%Q |}]],
   [{| e_time := 3%Q; e_nid := 1; e_ty := SynV; e_w := 1%Q |}]).
Proof. vm_compute. reflexivity. Qed.

(** ** C03 *)
Theorem C03_cancelable_queue : forall (T : Type) (NT : Num T) (okT : T -> Prop), NumOrd T okT ->
  forall ops : list cop, Forall (cop_ok okT) ops ->
  spec_run_cq ([], []) ops (run_cq ops cq_empty).
Proof. exact (@run_cq_correct). Qed.
Print Assumptions C03_cancelable_queue.

Example C03_ex : run_cq (T:=Q)
  [CAdd {| u_id := 0; u_time := 2%Q; u_pl := Pred 1 |}; CAdd {| u_id := 1; u_time := 1%Q; u_pl := Pred 2 |};
   CAdd {| u_id := 2; u_time := 2%Q; u_pl := Hit 3 SynV 1%Q |}; CRemove {| u_id := 1; u_time := 1%Q; u_pl := Pred 2 |};
   CLen; CPop; CPop] cq_empty =
  [ODone; ODone; ODone; ODone; OLen 1;
   OEvents [{| u_id := 0; u_time := 2%Q; u_pl := Pred 1 |}; {| u_id := 2; u_time := 2%Q; u_pl := Hit 3 SynV 1%Q |}];
   OIndexError].
Proof. vm_compute. reflexivity. Qed.

(** ** the running example used to show that hypotheses can be met: 0 --V--> 1, 0 --ge--> 1 *)
Definition ex_prm : nparams R := {| Vt := 10; tm := 100; tf := 20; Vreset := 0 |}.
Definition ex_cfg : cfg R := {|
  c_world := {| w_neurons := [{| nr_params := ex_prm; nr_mod := Some 0%nat; nr_name := None |};
                              {| nr_params := ex_prm; nr_mod := Some 0%nat; nr_name := None |}];
                w_mods := [{| m_name := None; m_neurons := [0; 1]%nat; m_subs := [] |}];
                w_syns := [{| s_pre := 0; s_post := 1; s_ty := SynV; s_w := 10; s_delay := 1 |};
                           {| s_pre := 0; s_post := 1; s_ty := SynGe; s_w := 5; s_delay := 2 |}] |};
  c_keys := [0; 1]%nat; c_enc := DefaultEncoder; c_dt := / 10 |}.
Definition ex_ext : list (nat * R) := [(0%nat, 0); (0%nat, 3)].
Example ex_wf : wf ex_cfg ex_ext /\ ord_ok ord_id /\ ord_ok ord_rev /\ NoDup (c_keys ex_cfg).
Proof.
  split; [|split; [|split]].
  - constructor; cbn.
    + lra.
    + intros n [<-|[<-|[]]]; lia.
    + intros y [<-|[<-|[]]]; cbn; lia.
    + intros y [<-|[<-|[]]] _; cbn; split; (tauto || discriminate).
    + intros n Hn. destruct n as [|[|n]]; try lia; cbn; lra.
    + intros n [<-|[<-|[]]]; cbn; lra.
    + intros p [<-|[<-|[]]]; cbn; tauto.
  - intros i l. reflexivity.
  - intros i l. symmetry. apply Permutation_rev.
  - repeat constructor; cbn; intuition discriminate.
Qed.

(** ** C04 *)
Theorem C04_sparse_is_dense : forall c ext ord T, wf c ext -> ord_ok ord -> NoDup (c_keys c) ->
  exists s s',
    simulate c ord (inject c (new_sim (c_world c)) ext) T = Ok s /\
    simulate c (fun _ _ => c_keys c) (inject c (new_sim (c_world c)) ext) T = Ok s' /\
    (forall n, (n < length (w_neurons (c_world c)))%nat -> spike_log s n = spike_log s' n) /\
    s_sts s = s_sts s' /\ s_cnt s = s_cnt s' /\ count_spikes s = count_spikes s'.
Proof. exact sparse_dense. Qed.
Print Assumptions C04_sparse_is_dense.
Theorem C04_needs_reset_below_threshold_refuted :
  exists s1 s2, run w_hot 1%Q ord_id [] [3%Q] = Ok s1 /\
                run w_hot 1%Q (fun _ _ => [0%nat]) [] [3%Q] = Ok s2 /\
                spike_log s1 0 = [] /\ spike_log s2 0 = [1%Q; 2%Q; 3%Q].
Proof. exact sparse_dense_refuted. Qed.
Print Assumptions C04_needs_reset_below_threshold_refuted.

(** ** C05 *)
Theorem C05_order_irrelevant : forall c ext ord ord' T, wf c ext -> ord_ok ord -> ord_ok ord' ->
  exists s s',
    simulate c ord (inject c (new_sim (c_world c)) ext) T = Ok s /\
    simulate c ord' (inject c (new_sim (c_world c)) ext) T = Ok s' /\
    (forall n, (n < length (w_neurons (c_world c)))%nat -> spike_log s n = spike_log s' n) /\
    (forall n, (n < length (w_neurons (c_world c)))%nat -> voltage_log s n = voltage_log s' n) /\
    s_sts s = s_sts s' /\ s_cnt s = s_cnt s' /\ count_spikes s = count_spikes s'.
Proof. exact order_irrelevant. Qed.
Print Assumptions C05_order_irrelevant.
Theorem C05_binary64_order_refuted :
  match run w_order (nofZ 1) ord_id [(0%nat, nofZ 0)] [nofZ 4], run w_order (nofZ 1) (fun _ l => rev l) [(0%nat, nofZ 0)] [nofZ 4] with
  | Ok s1, Ok s2 => List.length (spike_log s1 4) <> List.length (spike_log s2 4)
  | _, _ => False
  end.
Proof. exact order_float_refuted. Qed.
Print Assumptions C05_binary64_order_refuted.

(** ** C06: the simulation computes the synchronous recurrence of Trace.v, in which a spike
    at step j over delay d arrives at step j + max(1, ceil(d/dt)) *)
Theorem C06_delivery : forall c ext ord T K, wf c ext -> ord_ok ord -> num_steps (c_dt c) T = Ok K ->
  exists s, simulate c ord (inject c (new_sim (c_world c)) ext) T = Ok s /\
    let N := net_of (c_world c) ext (c_dt c) in
    (forall n, (n < length (w_neurons (c_world c)))%nat ->
       nth_error (s_sts s) n = Some (st N K n) /\
       spike_log s n = ext_spikes ext n ++ map (fun k => INR k * c_dt c) (filter (fun k => spk N k n) (seq 1 K)) /\
       voltage_log s n = map (fun k => (V (st N k n), (k - 1)%nat)) (filter (fun k => touched N k n) (seq 1 K))) /\
    (forall ty, ty <> SynOther -> get_count (s_cnt s) ty =
       list_sum (map (fun y => list_sum (map (fun k => arr N (s_pre y) (s_delay y) k) (seq 1 K)))
                     (filter (fun y => syntype_eqb (s_ty y) ty) (w_syns (c_world c))))).
Proof. exact delivery. Qed.
Print Assumptions C06_delivery.
(** nothing is lost or duplicated: what a synapse from m with delay d delivers in K steps *)
Theorem C06_exactly_once : forall N m d K,
  list_sum (map (fun k => arr N m d k) (seq 1 K)) =
  (length (filter (fun p => (fst p =? m)%nat && (step_at (t_dt N) (snd p + d) <=? K)%nat) (t_ext N)) +
   length (filter (fun j => spk N j m && (j + step_at (t_dt N) d <=? K)%nat) (seq 1 K)))%nat.
Proof. exact arr_total. Qed.
Print Assumptions C06_exactly_once.
(** the arrival step is the first simulated time not before the event's due time *)
Theorem C06_arrival_step : forall dt x k, 0 < dt -> (1 <= k)%nat -> (step_at dt x <= k)%nat <-> x <= INR k * dt.
Proof. exact step_at_le. Qed.
Print Assumptions C06_arrival_step.

(** ** C07 *)
Theorem C07_spike_log : forall c ext ord T K, wf c ext -> ord_ok ord -> num_steps (c_dt c) T = Ok K ->
  exists s, simulate c ord (inject c (new_sim (c_world c)) ext) T = Ok s /\
  forall n, (n < length (w_neurons (c_world c)))%nat ->
    let N := net_of (c_world c) ext (c_dt c) in
    exists ks, spike_log s n = ext_spikes ext n ++ map (fun k => INR k * c_dt c) ks /\
      StronglySorted lt ks /\
      (forall k, In k ks <-> (1 <= k <= K)%nat /\ Vt (prm (c_world c) n) <= V_after N k n) /\
      (forall k, In k ks -> st N k n = {| V := Vreset (prm (c_world c) n); ge := 0; gf := 0; gate := 0 |} /\
                            In (Vreset (prm (c_world c) n), (k - 1)%nat) (voltage_log s n)) /\
      (forall v i, In (v, i) (voltage_log s n) -> v < Vt (prm (c_world c) n)).
Proof. exact spike_log_sound. Qed.
Print Assumptions C07_spike_log.

(** ** C08 *)
Theorem C08_longer_extends : forall c ext ord ord' T1 T2, wf c ext -> ord_ok ord -> ord_ok ord' -> T1 <= T2 ->
  exists s1 s2,
    simulate c ord (inject c (new_sim (c_world c)) ext) T1 = Ok s1 /\
    simulate c ord' (inject c (new_sim (c_world c)) ext) T2 = Ok s2 /\
    forall n, (n < length (w_neurons (c_world c)))%nat ->
      (exists more, spike_log s2 n = spike_log s1 n ++ more) /\
      (exists more, voltage_log s2 n = voltage_log s1 n ++ more).
Proof. exact longer_extends. Qed.
Print Assumptions C08_longer_extends.

(** ** C09 *)
Theorem C09_split_refuted :
  exists s1 s2, run w_ramp 1%Q ord_id [(0%nat, 0%Q)] [11%Q] = Ok s1 /\
                run w_ramp 1%Q ord_id [(0%nat, 0%Q)] [5%Q; 6%Q] = Ok s2 /\
                spike_log s1 1 = [10%Q] /\ spike_log s2 1 = [].
Proof. exact split_refuted. Qed.
Print Assumptions C09_split_refuted.
Theorem C09_clock_restarts_refuted :
  exists s1 s2, run w_relay 1%Q ord_id [(0%nat, 0%Q); (0%nat, 6%Q)] [10%Q] = Ok s1 /\
                run w_relay 1%Q ord_id [(0%nat, 0%Q); (0%nat, 6%Q)] [5%Q; 5%Q] = Ok s2 /\
                spike_log s1 1 = [1%Q; 7%Q] /\ spike_log s2 1 = [1%Q].
Proof. exact split_clock_refuted. Qed.
Print Assumptions C09_clock_restarts_refuted.

(** ** C10 *)
Theorem C10_rejects_out_of_range : forall (c : cfg R) s v n t0, v < 0 \/ 1 < v -> apply_input_value c s v n t0 = Err EValue.
Proof. exact apply_input_value_err. Qed.
Print Assumptions C10_rejects_out_of_range.
Theorem C10_input_value : forall (c : cfg R) s v n t0, 0 <= v <= 1 -> heap_ok event_lt (s_q s) ->
  exists s', apply_input_value c s v n t0 = Ok s' /\
    let t1 := t0 + (Tmin (c_enc c) + v * Tcod (c_enc c)) in
    let evs t := map (fun y => {| e_time := t + s_delay y; e_nid := s_post y; e_ty := s_ty y; e_w := s_w y |})
                     (filter (fun y => (s_pre y =? n)%nat) (w_syns (c_world c))) in
    spike_log s' n = spike_log s n ++ [t0; t1] /\
    (forall m, m <> n -> spike_log s' m = spike_log s m) /\
    Permutation (s_q s') (s_q s ++ evs t0 ++ evs t1) /\ heap_ok event_lt (s_q s') /\
    (forall m, voltage_log s' m = voltage_log s m) /\ s_sts s' = s_sts s /\ s_cnt s' = s_cnt s.
Proof. exact input_value_effect. Qed.
Print Assumptions C10_input_value.

(** ** C11 *)
Theorem C11_time_shift : forall c ext ord ord' T m, wf c ext -> ord_ok ord -> ord_ok ord' -> 0 <= T ->
  (forall p y, In p ext -> In y (w_syns (c_world c)) -> s_pre y = fst p -> 0 < snd p + s_delay y) ->
  exists s s',
    simulate c ord (inject c (new_sim (c_world c)) ext) T = Ok s /\
    simulate c ord' (inject c (new_sim (c_world c)) (map (fun p => (fst p, snd p + INR m * c_dt c)) ext))
                    (T + INR m * c_dt c) = Ok s' /\
    (forall n, (n < length (w_neurons (c_world c)))%nat ->
       spike_log s' n = map (fun t => t + INR m * c_dt c) (spike_log s n) /\
       voltage_log s' n = map (fun p => (fst p, (snd p + m)%nat)) (voltage_log s n)) /\
    s_sts s' = s_sts s /\ s_cnt s' = s_cnt s.
Proof. exact simulate_shift. Qed.
Print Assumptions C11_time_shift.
Example C11_ex : forall p y, In p ex_ext -> In y (w_syns (c_world ex_cfg)) -> s_pre y = fst p -> 0 < snd p + s_delay y.
Proof. intros p y [<-|[<-|[]]] [<-|[<-|[]]] _; cbn; lra. Qed.

(** ** C12 *)
Theorem C12_modules_do_not_interfere : forall f S c1 c2 ext1 ext2 ord1 ord2 T,
  same_module f S c1 c2 ext1 ext2 -> wf c1 ext1 -> wf c2 ext2 -> ord_ok ord1 -> ord_ok ord2 ->
  exists s1 s2,
    simulate c1 ord1 (inject c1 (new_sim (c_world c1)) ext1) T = Ok s1 /\
    simulate c2 ord2 (inject c2 (new_sim (c_world c2)) ext2) T = Ok s2 /\
    forall n, S n -> spike_log s2 (f n) = spike_log s1 n /\ voltage_log s2 (f n) = voltage_log s1 n /\
                     nth_error (s_sts s2) (f n) = nth_error (s_sts s1) n.
Proof. exact simulate_embed. Qed.
Print Assumptions C12_modules_do_not_interfere.
(** the example network, renamed by +1 behind an extra neuron that it drives *)
Definition ex_cfg2 : cfg R := {|
  c_world := {| w_neurons := {| nr_params := ex_prm; nr_mod := Some 0%nat; nr_name := None |} :: w_neurons (c_world ex_cfg);
                w_mods := [{| m_name := None; m_neurons := [0; 1; 2]%nat; m_subs := [] |}];
                w_syns := [{| s_pre := 2; s_post := 0; s_ty := SynV; s_w := 10; s_delay := 1 |};
                           {| s_pre := 1; s_post := 2; s_ty := SynV; s_w := 10; s_delay := 1 |};
                           {| s_pre := 1; s_post := 2; s_ty := SynGe; s_w := 5; s_delay := 2 |}] |};
  c_keys := [0; 1; 2]%nat; c_enc := DefaultEncoder; c_dt := / 10 |}.
Example C12_ex : same_module S (fun n => (n < 2)%nat) ex_cfg ex_cfg2 ex_ext [(1%nat, 0); (1%nat, 3); (0%nat, 7)].
Proof.
  constructor.
  - reflexivity.
  - intros n Hn. destruct n as [|[|n]]; [| |lia]; do 2 eexists; repeat split; reflexivity.
  - intros n Hn. destruct n as [|[|n]]; [| |lia]; cbn; reflexivity.
  - intros n y _ [<-|[<-|[]]] _; cbn; lia.
  - intros n Hn. destruct n as [|[|n]]; [| |lia]; cbn; reflexivity.
Qed.

(** ** C13 *)
Theorem C13_decode_output_error : forall (T : Type) (NT : Num T) (c : cfg T) s rd, neqb (Tcod (c_enc c)) nzero = false ->
  (decode_output c s rd = Err EValue <->
   (spike_log s (rd_plus rd) <> [] /\ spike_log s (rd_minus rd) <> []) \/
   (List.length (spike_log s (rd_plus rd)) <> 0%nat /\ List.length (spike_log s (rd_plus rd)) <> 2%nat) \/
   (List.length (spike_log s (rd_minus rd)) <> 0%nat /\ List.length (spike_log s (rd_minus rd)) <> 2%nat)).
Proof. exact (@decode_output_err). Qed.
Print Assumptions C13_decode_output_error.
Theorem C13_decode_output_none : forall (T : Type) (NT : Num T) (c : cfg T) s rd,
  decode_output c s rd = Ok None <-> spike_log s (rd_plus rd) = [] /\ spike_log s (rd_minus rd) = [].
Proof. exact (@decode_output_none). Qed.
Print Assumptions C13_decode_output_none.
Theorem C13_decode_output_value : forall (c : cfg R) s rd t1 t2, Tcod (c_enc c) <> 0 ->
  (spike_log s (rd_plus rd) = [t1; t2] -> spike_log s (rd_minus rd) = [] ->
     decode_output c s rd = Ok (Some (rd_norm rd * ((t2 - t1 - Tmin (c_enc c)) / Tcod (c_enc c))))) /\
  (spike_log s (rd_plus rd) = [] -> spike_log s (rd_minus rd) = [t1; t2] ->
     decode_output c s rd = Ok (Some (- rd_norm rd * ((t2 - t1 - Tmin (c_enc c)) / Tcod (c_enc c))))).
Proof. exact decode_output_value. Qed.
Print Assumptions C13_decode_output_value.
Theorem C13_count_spikes : forall (T : Type) (s : sim T) m, (forall p, In p (s_spk s) -> (fst p < m)%nat) ->
  count_spikes s = list_sum (map (fun n => List.length (spike_log s n)) (seq 0 m)).
Proof. exact (@count_spikes_sum). Qed.
Print Assumptions C13_count_spikes.

(** ** C14 *)
Theorem C14_simulate_total : forall c ext ord T, wf c ext -> ord_ok ord ->
  exists s, simulate c ord (inject c (new_sim (c_world c)) ext) T = Ok s.
Proof. exact simulate_total. Qed.
Print Assumptions C14_simulate_total.
Theorem C14_conditions_needed :
  (* target outside the net *)
  run (mk_net [qstd; qstd] [qsyn 0 1 SynV 10 1] [0%nat]) 1%Q ord_id [(0%nat, 0%Q)] [3%Q] = Err EKey /\
  (* unknown synapse type *)
  run (mk_net [qstd; qstd] [qsyn 0 1 SynOther 10 1] [0; 1]%nat) 1%Q ord_id [(0%nat, 0%Q)] [3%Q] = Err EValue /\
  (* tm = 0, tf = 0, dt = 0 *)
  run (mk_net [qstd; {| Vt := 10%Q; tm := 0%Q; tf := 2%Q; Vreset := 0%Q |}] [qsyn 0 1 SynV 1 1] [0; 1]%nat)
      1%Q ord_id [(0%nat, 0%Q)] [3%Q] = Err EZeroDiv /\
  run (mk_net [qstd; {| Vt := 10%Q; tm := 1%Q; tf := 0%Q; Vreset := 0%Q |}] [qsyn 0 1 SynGate 1 1] [0; 1]%nat)
      1%Q ord_id [(0%nat, 0%Q)] [3%Q] = Err EZeroDiv /\
  run w_relay 0%Q ord_id [(0%nat, 0%Q)] [3%Q] = Err EZeroDiv.
Proof. exact conditions_needed. Qed.
Print Assumptions C14_conditions_needed.

(** ** C15 *)
Theorem C15_closed_form_gate : forall p dt n V0 ge0 gf0, tm p <> 0 -> tf p <> 0 ->
  exists b, updates p dt n {| V := V0; ge := ge0; gf := gf0; gate := 1 |} =
    Ok ({| V := V0 + INR n * dt * ge0 / tm p + (gf0 * tf p / tm p) * (1 - (1 - dt / tf p) ^ n);
           ge := ge0; gf := gf0 * (1 - dt / tf p) ^ n; gate := 1 |}, b).
Proof. exact updates_gate1. Qed.
Print Assumptions C15_closed_form_gate.
Theorem C15_closed_form_no_gate : forall p dt n V0 ge0 gf0, tm p <> 0 ->
  exists b, updates p dt n {| V := V0; ge := ge0; gf := gf0; gate := 0 |} =
    Ok ({| V := V0 + INR n * dt * ge0 / tm p; ge := ge0; gf := gf0; gate := 0 |}, b).
Proof. exact updates_gate0. Qed.
Print Assumptions C15_closed_form_no_gate.
Theorem C15_distance_to_ode : forall p dt n V0 ge0 gf0, 0 < tm p -> 0 < tf p -> 0 <= dt <= tf p ->
  exists b s, updates p dt n {| V := V0; ge := ge0; gf := gf0; gate := 1 |} = Ok (s, b) /\
    Rabs (V s - (V0 + ge0 * (INR n * dt) / tm p + (gf0 * tf p / tm p) * (1 - exp (- (INR n * dt) / tf p))))
      <= Rabs gf0 * dt / tm p /\
    Rabs (gf s - gf0 * exp (- (INR n * dt) / tf p)) <= Rabs gf0 * dt / tf p /\ ge s = ge0 /\ gate s = 1.
Proof. exact euler_ode_gap. Qed.
Print Assumptions C15_distance_to_ode.

(** ** C18 *)
Theorem C18_neuron_uids : forall (T : Type) (NT : Num T) i j (n m : neuron T), neuron_uid i n = neuron_uid j m -> i = j.
Proof. exact (@neuron_uid_inj). Qed.
Print Assumptions C18_neuron_uids.
Theorem C18_module_uids : forall i j (n m : module), module_uid i n = module_uid j m -> i = j.
Proof. exact module_uid_inj. Qed.
Print Assumptions C18_module_uids.

(** ** C19 *)
Theorem C19_flatten : forall (A : Type) (x : nested A), exists ps, StronglySorted path_lt ps /\
  Forall2 (fun p a => leaf_at x p a) ps (flatten_nested x) /\ (forall p a, leaf_at x p a -> In p ps).
Proof. exact (@flatten_spec). Qed.
Print Assumptions C19_flatten.
Theorem C19_members : forall (T : Type) (w : world T) m l, neurons_of w m = Ok l ->
  forall n, In n l <-> exists d md, desc w m d /\ nth_error (w_mods w) d = Some md /\ In n (m_neurons md).
Proof. exact (@neurons_members). Qed.
Print Assumptions C19_members.
Theorem C19_own_first : forall (T : Type) (w : world T) m md l, nth_error (w_mods w) m = Some md -> neurons_of w m = Ok l ->
  exists rest, l = m_neurons md ++ rest /\
    forall ls, Forall2 (fun s x => neurons_of w s = Ok x) (m_subs md) ls -> rest = concat ls.
Proof. exact (@neurons_own_first). Qed.
Print Assumptions C19_own_first.
Theorem C19_once : forall (T : Type) (w : world T) m, subs_exist w -> (forall x, ~ pdesc w x x) ->
  tree_shaped w -> one_owner w -> (m < length (w_mods w))%nat ->
  exists l, neurons_of w m = Ok l /\ NoDup l.
Proof. exact (@neurons_once). Qed.
Print Assumptions C19_once.
Theorem C19_cycle_raises : forall (T : Type) (w : world T) m, subs_exist w -> pdesc w m m -> (m < length (w_mods w))%nat ->
  neurons_of w m = Err ERecursion.
Proof. exact (@neurons_cycle). Qed.
Print Assumptions C19_cycle_raises.

Example C19_ex : let w : world Q := {| w_neurons := []; w_syns := [];
     w_mods := [{| m_name := None; m_neurons := [4]%nat; m_subs := [1; 2]%nat |};
                {| m_name := None; m_neurons := [0; 1]%nat; m_subs := [] |};
                {| m_name := None; m_neurons := [3]%nat; m_subs := [3]%nat |};
                {| m_name := None; m_neurons := [2]%nat; m_subs := [] |}] |} in
  neurons_of w 0 = Ok [4; 0; 1; 3; 2]%nat /\ tree_shaped w /\ one_owner w.
Proof.
  split; [vm_compute; reflexivity|]. split; unfold tree_shaped, one_owner; cbn; repeat constructor; cbn; intuition discriminate.
Qed.

(** ** C32 *)
Theorem C32_trace : forall (T : Type) (NT : Num T) fuel cs (env : list (pyval T)) h root,
  run_cmds fuel cs [] [] = Ok (env, h) -> In (PScalar root) env ->
  exists nodes edges, trace h root = Ok (nodes, edges) /\ NoDup nodes /\ hd_error nodes = Some root /\
    (forall n, In n nodes <-> reaches h root n) /\ NoDup edges /\
    (forall p v, In (p, v) edges <-> In v nodes /\ operand_of h p v) /\
    (forall n, In n nodes -> exists s, nth_error h n = Some s /\ node_ok h n s).
Proof. exact (@trace_of_program). Qed.
Print Assumptions C32_trace.

Example C32_ex : exists env h,
  run_cmds (T:=Q) 5 [CNew 2%Q; CNew 3%Q; CBin BAdd (ARes 0) (ARes 1); CBin BMul (ARes 2) (ARes 2)] [] [] = Ok (env, h) /\
  nth_error env 3 = Some (PScalar 3) /\ trace h 3 = Ok ([3; 2; 0; 1]%nat, [(2, 3); (0, 2); (1, 2)]%nat).
Proof. do 2 eexists. split; [vm_compute; reflexivity|]. split; vm_compute; reflexivity. Qed.

(** ** C35 *)
Theorem C35_add : forall h a b (x y : R), heap_wf h -> val_ok h a -> val_ok h b -> has_data h a x -> has_data h b y ->
  (forall u v, (a, b) <> (PNum u, PNum v)) ->
  exists k h', py_add a b h = Ok (PScalar k, h') /\ heap_wf h' /\ grows h h' /\ data_at h' k (x + y).
Proof. exact py_add_ok. Qed.
Print Assumptions C35_add.
Theorem C35_sub : forall h a b (x y : R), heap_wf h -> val_ok h a -> val_ok h b -> has_data h a x -> has_data h b y ->
  (forall u v, (a, b) <> (PNum u, PNum v)) ->
  exists k h', py_sub a b h = Ok (PScalar k, h') /\ heap_wf h' /\ grows h h' /\ data_at h' k (x - y).
Proof. exact py_sub_ok. Qed.
Print Assumptions C35_sub.
Theorem C35_mul : forall h a b (x y : R), heap_wf h -> val_ok h a -> val_ok h b -> has_data h a x -> has_data h b y ->
  (forall u v, (a, b) <> (PNum u, PNum v)) ->
  exists k h', py_mul a b h = Ok (PScalar k, h') /\ heap_wf h' /\ grows h h' /\ data_at h' k (x * y).
Proof. exact py_mul_ok. Qed.
Print Assumptions C35_mul.
Theorem C35_neg : forall h i (x : R), heap_wf h -> data_at h i x ->
  exists k h', py_neg (PScalar i) h = Ok (PScalar k, h') /\ heap_wf h' /\ grows h h' /\ data_at h' k (- x).
Proof. exact py_neg_ok. Qed.
Print Assumptions C35_neg.
Theorem C35_scalar_div_any : forall fuel h i b (x y : R), heap_wf h -> val_ok h b -> has_data h (PScalar i) x -> has_data h b y -> y <> 0 ->
  exists k h', py_truediv (S fuel) (PScalar i) b h = Ok (PScalar k, h') /\ heap_wf h' /\ grows h h' /\ data_at h' k (x / y).
Proof. exact py_div_ok. Qed.
Print Assumptions C35_scalar_div_any.
Theorem C35_number_div_scalar_refuted : forall (T : Type) (NT : Num T) fuel (h : list (scalar T)) x i,
  py_truediv fuel (PNum x) (PScalar i) h = Err ERecursion.
Proof. exact (@py_rtruediv_diverges). Qed.
Print Assumptions C35_number_div_scalar_refuted.
Example C35_ex : exists h, heap_wf (T:=R) h /\ data_at h 0 3.
Proof.
  exists [{| x_data := 3; x_prev := []; x_op := OLoad |}]. split.
  - intros [|[|i]] s E; cbn in E; try discriminate. injection E as <-. reflexivity.
  - eexists. split; reflexivity.
Qed.
