(** Model of axon_sdk/simulator.py *)
From Coq Require Import Arith ZArith Bool List.
From Verif Require Import Num Heapq Elements.
Import ListNotations.
Open Scope list_scope.

Section Simulator.
Context {T : Type} `{Num T}.

(** simulator.py:22-25 the parts of a Simulator that never change after
    construction: the network (the object heap [c_world]), the encoder, dt, and
    [c_keys] = [net.neurons] at construction time, i.e. the keys of [voltage_log]
    (simulator.py:30-32). *)
Record cfg := { c_world : world T; c_keys : list nat; c_enc : encoder T; c_dt : T }.

(** simulator.py:29 processed_syn_per_type *)
Record counts := { cV : nat; cGe : nat; cGf : nat; cGate : nat }.

(** simulator.py:22-32 the mutable parts.  Logs are kept newest first and read
    through [spike_log]/[voltage_log] below; they are keyed by neuron index
    instead of uid string (uids are injective, see C18).  [s_sts] holds the state
    variables of the neuron objects (they live in the neurons in the code). *)
Record sim := {
  s_q : list (event T);          (* event_queue.events, the binary heap *)
  s_sts : list (nstate T);
  s_spk : list (nat * T);
  s_vlt : list (nat * (T * nat));
  s_cnt : counts
}.

(** simulator.py:27 / 136-140: dict view of the spike log. *)
Definition spike_log (s : sim) (n : nat) : list T :=
  rev (map snd (filter (fun p => fst p =? n) (s_spk s))).
(** simulator.py:28 / 142-145: dict view of the voltage log. *)
Definition voltage_log (s : sim) (n : nat) : list (T * nat) :=
  rev (map snd (filter (fun p => fst p =? n) (s_vlt s))).

(** simulator.py:19-32 constructor on freshly created neurons. *)
Definition new_sim (w : world T) : sim :=
  {| s_q := []; s_sts := map (fun n => init_nstate (nr_params n)) (w_neurons w);
     s_spk := []; s_vlt := []; s_cnt := {| cV := 0; cGe := 0; cGf := 0; cGate := 0 |} |}.
Definition mk_simulator (w : world T) (net : nat) (enc : encoder T) (dt : T) : res (cfg * sim) :=
  let* keys := neurons_of w net in
  Ok ({| c_world := w; c_keys := keys; c_enc := enc; c_dt := dt |}, new_sim w).

(** simulator.py:136-140 _log_spike_occurrence *)
Definition log_spike (s : sim) (n : nat) (t : T) : sim :=
  {| s_q := s_q s; s_sts := s_sts s; s_spk := (n, t) :: s_spk s; s_vlt := s_vlt s; s_cnt := s_cnt s |}.

(** the loop [for synapse in neuron.out_synapses: event_queue.add_event(...)]
    (simulator.py:63-69, 76-82, 117-123) *)
Definition syn_event (t : T) (y : synapse T) : event T :=
  {| e_time := nadd t (s_delay y); e_nid := s_post y; e_ty := s_ty y; e_w := s_w y |}.
Definition schedule (w : world T) (s : sim) (n : nat) (t : T) : sim :=
  {| s_q := fold_left (fun q y => add_event q (syn_event t y)) (out_syn w n) (s_q s);
     s_sts := s_sts s; s_spk := s_spk s; s_vlt := s_vlt s; s_cnt := s_cnt s |}.

(** simulator.py:71-82 apply_input_spike *)
Definition apply_input_spike (c : cfg) (s : sim) (n : nat) (t : T) : sim :=
  schedule (c_world c) (log_spike s n t) n t.

(** simulator.py:52-69 apply_input_value.  The range check precedes every
    mutation, so an error leaves the simulator as it was. *)
Definition apply_input_value (c : cfg) (s : sim) (value : T) (n : nat) (t0 : T) : res sim :=
  if negb (nleb nzero value && nleb value n_one) then Err EValue else
  let* iv := encode_value (c_enc c) value in
  let s1 := apply_input_spike c s n (nadd t0 (fst iv)) in
  Ok (apply_input_spike c s1 n (nadd t0 (snd iv))).

(** simulator.py:34-50 init_with_plan, on the plan's list of
    (trigger_neuron, normalized_value). *)
Definition apply_triggers (c : cfg) (s : sim) (trs : list (nat * T)) : res sim :=
  rfold (fun s tr => apply_input_value c s (snd tr) (fst tr) nzero) trs s.

(** simulator.py:29,102 *)
Definition count_syn (c : counts) (ty : syntype) : counts :=
  match ty with
  | SynV => {| cV := S (cV c); cGe := cGe c; cGf := cGf c; cGate := cGate c |}
  | SynGe => {| cV := cV c; cGe := S (cGe c); cGf := cGf c; cGate := cGate c |}
  | SynGf => {| cV := cV c; cGe := cGe c; cGf := S (cGf c); cGate := cGate c |}
  | SynGate => {| cV := cV c; cGe := cGe c; cGf := cGf c; cGate := S (cGate c) |}
  | SynOther => c
  end.

(** Python sets of neurons as duplicate-free lists. *)
Definition set_mem (n : nat) (l : list nat) : bool := existsb (Nat.eqb n) l.
Definition set_add (l : list nat) (n : nat) : list nat := if set_mem n l then l else n :: l.
Definition set_union (a b : list nat) : list nat := fold_left set_add b a.

(** simulator.py:97-103 one event of the delivery loop. *)
Definition deliver (acc : sim * list nat) (e : event T) : res (sim * list nat) :=
  let '(s, aff) := acc in
  match nth_error (s_sts s) (e_nid e) with
  | None => Err EAttribute
  | Some st =>
      let* st' := receive_synaptic_event st (e_ty e) (e_w e) in
      Ok ({| s_q := s_q s; s_sts := lset (s_sts s) (e_nid e) st'; s_spk := s_spk s;
             s_vlt := s_vlt s; s_cnt := count_syn (s_cnt s) (e_ty e) |},
          set_add aff (e_nid e))
  end.

(** simulator.py:128 *)
Definition is_active (st : nstate T) : bool :=
  negb (neqb (ge st) nzero) || negb (neqb (gf st) nzero) || negb (neqb (gate st) nzero).

(** simulator.py:142-145 _log_voltage_value; the dict lookup raises KeyError for a
    neuron outside the simulated net. *)
Definition log_voltage (c : cfg) (s : sim) (n : nat) (v : T) (i : nat) : res sim :=
  if set_mem n (c_keys c) then
    Ok {| s_q := s_q s; s_sts := s_sts s; s_spk := s_spk s; s_vlt := (n, (v, i)) :: s_vlt s;
          s_cnt := s_cnt s |}
  else Err EKey.

Definition set_state (s : sim) (n : nat) (st : nstate T) : sim :=
  {| s_q := s_q s; s_sts := lset (s_sts s) n st; s_spk := s_spk s; s_vlt := s_vlt s; s_cnt := s_cnt s |}.

(** simulator.py:110-129 one neuron of the update loop. *)
Definition update_neuron (c : cfg) (i : nat) (t : T) (acc : sim * list nat) (n : nat)
  : res (sim * list nat) :=
  let '(s, act) := acc in
  match nth_error (s_sts s) n, nth_error (w_neurons (c_world c)) n with
  | Some st, Some nr =>
      let p := nr_params nr in
      let* r := update_and_spike p (c_dt c) st in
      let '(st1, spike) := r in
      let st2 := if spike then reset p else st1 in
      let s1 := if spike
                then schedule (c_world c) (set_state (log_spike s n t) n st2) n t
                else set_state s n st2 in
      let* s2 := log_voltage c s1 n (V st2) i in
      Ok (s2, if is_active st2 then set_add act n else act)
  | _, _ => Err EAttribute
  end.

(** simulator.py:89 the i-th simulated time (i counted from 0): [(i + 1) * dt]. *)
Definition time_of (c : cfg) (i : nat) : T := nmul (nofZ (Z.of_nat (i + 1))) (c_dt c).

(** simulator.py:93-131 one iteration of the time loop.  [ord i l] is the order in
    which Python iterates the set [l] of neurons to simulate at iteration [i]. *)
Definition sim_step (c : cfg) (ord : nat -> list nat -> list nat) (i : nat)
    (acc : sim * list nat) : res (sim * list nat) :=
  let '(s, active) := acc in
  let t := time_of c i in
  let '(evs, q') := pop_events (s_q s) t in
  let s0 := {| s_q := q'; s_sts := s_sts s; s_spk := s_spk s; s_vlt := s_vlt s; s_cnt := s_cnt s |} in
  let* r := rfold deliver evs (s0, []) in
  let '(s1, affected) := r in
  rfold (update_neuron c i t) (ord i (set_union affected active)) (s1, []).

(** simulator.py:93 the time loop over i = i0, i0+1, ..., i0+k-1. *)
Fixpoint sim_steps (c : cfg) (ord : nat -> list nat -> list nat) (i0 k : nat)
    (acc : sim * list nat) : res (sim * list nat) :=
  match k with
  | 0 => Ok acc
  | S k' => let* acc' := sim_step c ord i0 acc in sim_steps c ord (S i0) k' acc'
  end.

(** simulator.py:88 num_steps = int(simulation_time / dt) *)
Definition num_steps (dt simulation_time : T) : res nat :=
  let* x := pdiv simulation_time dt in
  match ntrunc x with
  | Some z => Ok (Z.to_nat z)
  | None => Err EOverflow
  end.

(** simulator.py:84-131 simulate (visualisation, lines 133-134, not modelled). *)
Definition simulate (c : cfg) (ord : nat -> list nat -> list nat) (s : sim) (simulation_time : T)
  : res sim :=
  let* n := num_steps (c_dt c) simulation_time in
  let* r := sim_steps c ord 0 n (s, []) in
  Ok (fst r).

(** compilation/compiler.py OutputReader, see Compiler.v; simulator.py:161-185 decode_output. *)
Record reader := { rd_plus : nat; rd_minus : nat; rd_norm : T }.
Definition decode_output (c : cfg) (s : sim) (rd : reader) : res (option T) :=
  let sp := spike_log s (rd_plus rd) in
  let sm := spike_log s (rd_minus rd) in
  if negb (length sp =? 0) && negb (length sm =? 0) then Err EValue else
  match sp, sm with
  | [a; b], _ =>
      let* v := decode_interval (c_enc c) (nsub b a) in
      Ok (Some (nmul (rd_norm rd) v))
  | _ :: _, _ => Err EValue
  | [], [a; b] =>
      let* v := decode_interval (c_enc c) (nsub b a) in
      Ok (Some (nmul (nmul (nofZ (-1)) (rd_norm rd)) v))
  | [], _ :: _ => Err EValue
  | [], [] => Ok None
  end.

(** simulator.py:188-195 count_spikes: every logged spike belongs to exactly one
    entry of the dict. *)
Definition count_spikes (s : sim) : nat := length (s_spk s).

End Simulator.

Arguments cfg : clear implicits.
Arguments sim : clear implicits.
Arguments reader : clear implicits.

(** One admissible set iteration order: the list order. *)
Definition ord_id (i : nat) (l : list nat) : list nat := l.
Definition ord_rev (i : nat) (l : list nat) : list nat := rev l.
