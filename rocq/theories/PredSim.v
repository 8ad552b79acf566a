(** Model of axon_sdk/predictive_simulator.py and of the predictive half of
    axon_sdk/primitives/elements.py (_fast_forward, receive_synaptic_event_pred). *)
From Coq Require Import Arith ZArith Bool List Reals.
From Verif Require Import Num Heapq Elements CancelQueue.
Import ListNotations.
Open Scope list_scope.

(** [math.exp].  Only the real instance is given: binary64 [exp] is libm's and is not
    modelled; OverflowError for huge arguments is not modelled either. *)
Class NumExp (T : Type) := nexp : T -> T.
#[global] Instance R_exp : NumExp R := exp.

Section Pred.
Context {T : Type} `{Num T} `{NumExp T}.

(** primitives/elements.py:123-131 ExplicitNeuron._fast_forward *)
Definition fast_forward (p : nparams T) (s : nstate T) (interval : T) : res (T * T) :=
  let* x := pdiv (nopp interval) (tf p) in
  let decay := nexp x in
  let* r := pdiv (ge s) (tm p) in
  let new_V := nadd (V s) (nmul r interval) in
  let new_gf := nmul (gf s) decay in
  if negb (neqb (gate s) nzero) then
    let* g := pdiv (nmul (gf s) (tf p)) (tm p) in
    Ok (nadd new_V (nmul g (nsub n_one decay)), new_gf)
  else Ok (new_V, new_gf).

(** A neuron object as the predictive simulator sees it: state variables and
    [_last_synapse_time] (elements.py:112).  The debug lists log_V, log_ge, log_gf
    (elements.py:113-115) are write-only and not modelled. *)
Record pneuron := { pn_st : nstate T; pn_last : T }.

(** primitives/elements.py:132-148 receive_synaptic_event_pred *)
Definition receive_pred (p : nparams T) (n : pneuron) (ty : syntype) (w t0 : T) : res pneuron :=
  let* n1 := (if negb (neqb t0 (pn_last n)) then
                let* vg := fast_forward p (pn_st n) (nsub t0 (pn_last n)) in
                Ok {| pn_st := {| V := fst vg; ge := ge (pn_st n); gf := snd vg; gate := gate (pn_st n) |};
                      pn_last := t0 |}
              else Ok n) in
  let* st := receive_synaptic_event (pn_st n1) ty w in
  Ok {| pn_st := st; pn_last := pn_last n1 |}.

(** predictive_simulator.py:98-108: the loop [for _ in range(64)] of
    _predict_spike_steps_fixed; [above mid] is the test [V >= Vt] at time mid*dt. *)
Fixpoint search (above : Z -> res bool) (k : nat) (lo hi : Z) : res Z :=
  match k with
  | O => Ok lo
  | S k' =>
      let mid := Z.div (lo + hi) 2 in
      let* b := above mid in
      if b then search above k' lo mid else search above k' (mid + 1)%Z hi
  end.
(** predictive_simulator.py:91-107: membrane potential predicted after t = mid*dt *)
Definition predicted_V (p : nparams T) (s : nstate T) (dt : T) (mid : Z) : res T :=
  let gf0 := if negb (neqb (gate s) nzero) then gf s else nzero in
  let t := nmul (nofZ mid) dt in
  let* x := pdiv (nopp t) (tf p) in
  let exp_decay := nsub n_one (nexp x) in
  let* a := pdiv (ge s) (tm p) in
  let* b := pdiv (nmul (nmul (gate s) gf0) (tf p)) (tm p) in
  Ok (nadd (nadd (V s) (nmul a t)) (nmul b exp_decay)).
(** predictive_simulator.py:91-108 _predict_spike_steps_fixed *)
Definition predict_spike (p : nparams T) (s : nstate T) (dt : T) (max_steps : Z) : res (option T) :=
  let* lo := search (fun mid => let* v := predicted_V p s dt mid in Ok (ngeb v (Vt p))) 64 0 max_steps in
  Ok (if (lo <? max_steps)%Z then Some (nmul (nofZ lo) dt) else None).

(** predictive_simulator.py:43-44 _processed_synapses_log, five keys *)
Record pcounts := { pcV : nat; pcGe : nat; pcGf : nat; pcGm : nat; pcGate : nat }.
(** predictive_simulator.py:65-66; an unknown type raised earlier *)
Definition pcount (c : pcounts) (ty : syntype) : pcounts :=
  match ty with
  | SynV => {| pcV := S (pcV c); pcGe := pcGe c; pcGf := pcGf c; pcGm := pcGm c; pcGate := pcGate c |}
  | SynGe => {| pcV := pcV c; pcGe := S (pcGe c); pcGf := pcGf c; pcGm := pcGm c; pcGate := pcGate c |}
  | SynGf => {| pcV := pcV c; pcGe := pcGe c; pcGf := S (pcGf c); pcGm := pcGm c; pcGate := pcGate c |}
  | SynGate => {| pcV := pcV c; pcGe := pcGe c; pcGf := pcGf c; pcGm := pcGm c; pcGate := S (pcGate c) |}
  | SynOther => c
  end.

(** predictive_simulator.py:24-41: unchanging parts; [pc_keys] = net.neurons *)
Record pcfg := { pc_world : world T; pc_keys : list nat; pc_enc : encoder T; pc_dt : T; pc_max : Z }.
(** predictive_simulator.py:27-44: mutable parts.  [ps_next] is the process-wide event
    counter (events.py:52,59); [ps_poss] is _possible_spike_events_for; spikes are kept
    newest first.  voltage_log stays empty in the code and is not modelled. *)
Record psim := {
  ps_q : cqueue T; ps_next : nat; ps_nrs : list pneuron; ps_poss : list (option (uevent T));
  ps_spk : list (nat * T); ps_cnt : pcounts; ps_fin : bool
}.
Definition pspike_log (s : psim) (n : nat) : list T :=
  rev (map snd (filter (fun p => fst p =? n) (ps_spk s))).

(** predictive_simulator.py:21-44 __init__ on freshly created neurons *)
Definition new_psim (w : world T) : psim :=
  {| ps_q := cq_empty; ps_next := 0;
     ps_nrs := map (fun n => {| pn_st := init_nstate (nr_params n); pn_last := nzero |}) (w_neurons w);
     ps_poss := map (fun _ => None) (w_neurons w);
     ps_spk := []; ps_cnt := {| pcV := 0; pcGe := 0; pcGf := 0; pcGm := 0; pcGate := 0 |}; ps_fin := false |}.
Definition mk_pred_simulator (w : world T) (net : nat) (enc : encoder T) (dt : T) : res (pcfg * psim) :=
  let* x := pdiv (nofZ 500) dt in
  match ntrunc x with
  | None => Err EOverflow
  | Some m =>
      let* keys := neurons_of w net in
      Ok ({| pc_world := w; pc_keys := keys; pc_enc := enc; pc_dt := dt; pc_max := m |}, new_psim w)
  end.

(** add_event of a freshly constructed event (events.py:50-60, 103-108) *)
Definition enqueue (s : psim) (t : T) (pl : upayload T) : psim * uevent T :=
  let e := {| u_id := ps_next s; u_time := t; u_pl := pl |} in
  ({| ps_q := cq_add (ps_q s) e; ps_next := S (ps_next s); ps_nrs := ps_nrs s; ps_poss := ps_poss s;
      ps_spk := ps_spk s; ps_cnt := ps_cnt s; ps_fin := ps_fin s |}, e).

(** predictive_simulator.py:56-60 apply_input_spike *)
Definition p_input_spike (c : pcfg) (s : psim) (n : nat) (t : T) : res psim :=
  match nth_error (w_neurons (pc_world c)) n with
  | None => Err EAttribute
  | Some nr => Ok (fst (enqueue s t (Hit n SynV (Vt (nr_params nr)))))
  end.
(** predictive_simulator.py:46-54 apply_input_value (t0 is not used) *)
Definition p_input_value (c : pcfg) (s : psim) (value : T) (n : nat) (t0 : T) : res psim :=
  if negb (nleb nzero value && nleb value n_one) then Err EValue else
  let* iv := encode_value (pc_enc c) value in
  let* s1 := p_input_spike c s n (fst iv) in
  p_input_spike c s1 n (snd iv).

Definition set_poss (s : psim) (n : nat) (o : option (uevent T)) : psim :=
  {| ps_q := ps_q s; ps_next := ps_next s; ps_nrs := ps_nrs s; ps_poss := lset (ps_poss s) n o;
     ps_spk := ps_spk s; ps_cnt := ps_cnt s; ps_fin := ps_fin s |}.
Definition set_nr (s : psim) (n : nat) (x : pneuron) : psim :=
  {| ps_q := ps_q s; ps_next := ps_next s; ps_nrs := lset (ps_nrs s) n x; ps_poss := ps_poss s;
     ps_spk := ps_spk s; ps_cnt := ps_cnt s; ps_fin := ps_fin s |}.
Definition set_q (s : psim) (q : cqueue T) : psim :=
  {| ps_q := q; ps_next := ps_next s; ps_nrs := ps_nrs s; ps_poss := ps_poss s;
     ps_spk := ps_spk s; ps_cnt := ps_cnt s; ps_fin := ps_fin s |}.

(** predictive_simulator.py:81-89 _propagate_spikes_from *)
Definition propagate (c : pcfg) (s : psim) (t0 : T) (n : nat) : psim :=
  fold_left (fun s y => fst (enqueue s (nadd t0 (s_delay y)) (Hit (s_post y) (s_ty y) (s_w y))))
            (out_syn (pc_world c) n) s.

Definition in_keys (c : pcfg) (n : nat) : bool := existsb (Nat.eqb n) (pc_keys c).

(** predictive_simulator.py:119-123 one PredictedSpikeEvent.  The last line raises
    KeyError for a neuron outside the net. *)
Definition do_spike (c : pcfg) (s : psim) (t : T) (n : nat) : res psim :=
  match nth_error (ps_nrs s) n, nth_error (w_neurons (pc_world c)) n with
  | Some x, Some nr =>
      let s1 := set_nr s n {| pn_st := reset (nr_params nr); pn_last := pn_last x |} in
      let s2 := set_poss (propagate c s1 t n) n None in
      if in_keys c n then
        Ok {| ps_q := ps_q s2; ps_next := ps_next s2; ps_nrs := ps_nrs s2; ps_poss := ps_poss s2;
              ps_spk := (n, t) :: ps_spk s2; ps_cnt := ps_cnt s2; ps_fin := ps_fin s2 |}
      else Err EKey
  | _, _ => Err EAttribute
  end.

(** predictive_simulator.py:125-143 one SpikeHitEvent.  The dict lookup of line 76
    raises KeyError for a neuron outside the net. *)
Definition do_hit (c : pcfg) (s : psim) (t : T) (n : nat) (ty : syntype) (w : T) : res psim :=
  if negb (in_keys c n) then Err EKey else
  match nth_error (ps_nrs s) n, nth_error (ps_poss s) n, nth_error (w_neurons (pc_world c)) n with
  | Some x, Some po, Some nr =>
      let p := nr_params nr in
      let s1 := match po with Some e => set_q s (cq_remove (ps_q s) e) | None => s end in
      let s2 := set_poss s1 n None in
      let* x' := receive_pred p x ty w t in
      let s3 := set_nr s2 n x' in
      let* pr := predict_spike p (pn_st x') (pc_dt c) (pc_max c) in
      let s4 := {| ps_q := ps_q s3; ps_next := ps_next s3; ps_nrs := ps_nrs s3; ps_poss := ps_poss s3;
                   ps_spk := ps_spk s3; ps_cnt := pcount (ps_cnt s3) ty; ps_fin := ps_fin s3 |} in
      match pr with
      | None => Ok s4
      | Some d => let '(s5, e) := enqueue s4 (nadd t d) (Pred n) in Ok (set_poss s5 n (Some e))
      end
  | _, _, _ => Err EAttribute
  end.

(** predictive_simulator.py:119-143 processing of one popped batch: predicted spikes
    first, then hits *)
Definition step_spike (c : pcfg) (s : psim) (e : uevent T) : res psim :=
  match u_pl e with Pred n => do_spike c s (u_time e) n | Hit _ _ _ => Ok s end.
Definition step_hit (c : pcfg) (s : psim) (e : uevent T) : res psim :=
  match u_pl e with Hit n ty w => do_hit c s (u_time e) n ty w | Pred _ => Ok s end.
Definition process_batch (c : pcfg) (s : psim) (evs : list (uevent T)) : res psim :=
  let* s1 := rfold (step_spike c) evs s in rfold (step_hit c) evs s1.

(** predictive_simulator.py:114-143 one turn of the while loop; None when the loop ends *)
Definition pstep (c : pcfg) (s : psim) : option (res psim) :=
  if cq_len (ps_q s) =? 0 then None else
  Some (let* r := cq_pop (ps_q s) in
        let '(evs, q') := r in process_batch c (set_q s q') evs).
Fixpoint ploop (fuel : nat) (c : pcfg) (s : psim) : option (res psim) :=
  match pstep c s with
  | None => Some (Ok s)
  | Some (Err e) => Some (Err e)
  | Some (Ok s') => match fuel with O => None | S f => ploop f c s' end
  end.
(** predictive_simulator.py:110-145 simulate; None = still running after [fuel] turns
    (the loop need not terminate) *)
Definition psimulate (fuel : nat) (c : pcfg) (s : psim) : option (res psim) :=
  if ps_fin s then Some (Err EValue) else
  match ploop fuel c s with
  | Some (Ok s') => Some (Ok {| ps_q := ps_q s'; ps_next := ps_next s'; ps_nrs := ps_nrs s'; ps_poss := ps_poss s';
                                 ps_spk := ps_spk s'; ps_cnt := ps_cnt s'; ps_fin := true |})
  | r => r
  end.
End Pred.
Arguments pneuron : clear implicits.
Arguments pcfg : clear implicits.
Arguments psim : clear implicits.
