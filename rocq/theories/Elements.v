(** Model of axon_sdk/primitives/{encoders,elements,events,networks}.py *)
From Coq Require Import Arith ZArith Bool String DecimalString List.
From Verif Require Import Num Heapq.
Import ListNotations.
Open Scope list_scope.

Section Elements.
Context {T : Type} `{Num T}.

(* ------------------------------------------------------------------ *)
(** * encoders.py *)

(** primitives/encoders.py:2-5 DataEncoder.__init__; Tmax is stored at construction. *)
Record encoder := { Tmin : T; Tcod : T; Tmax : T }.
Definition DataEncoder (tmin tcod : T) : encoder :=
  {| Tmin := tmin; Tcod := tcod; Tmax := nadd tmin tcod |}.
(** primitives/encoders.py:2 default arguments Tmin=10.0, Tcod=100.0 *)
Definition DefaultEncoder : encoder := DataEncoder (nofZ 10) (nofZ 100).

(** primitives/encoders.py:7-10 encode_value (the assert is an AssertionError value). *)
Definition encode_value (e : encoder) (value : T) : res (T * T) :=
  if ngeb value nzero && nleb value n_one
  then Ok (nzero, nadd (Tmin e) (nmul value (Tcod e)))
  else Err EAssert.

(** primitives/encoders.py:12-14 decode_interval *)
Definition decode_interval (e : encoder) (spiking_interval : T) : res T :=
  pdiv (nsub spiking_interval (Tmin e)) (Tcod e).

(* ------------------------------------------------------------------ *)
(** * elements.py *)

(** Synapse types; any string other than the four known ones is [SynOther]. *)
Inductive syntype := SynV | SynGe | SynGf | SynGate | SynOther.
Definition syntype_eqb (a b : syntype) : bool :=
  match a, b with
  | SynV, SynV | SynGe, SynGe | SynGf, SynGf | SynGate, SynGate | SynOther, SynOther => true
  | _, _ => false
  end.

(** primitives/elements.py:29-32 immutable parameters of a neuron. *)
Record nparams := { Vt : T; tm : T; tf : T; Vreset : T }.
(** primitives/elements.py:35-38 state variables. *)
Record nstate := { V : T; ge : T; gf : T; gate : T }.

(** primitives/elements.py:35-38 initial state. *)
Definition init_nstate (p : nparams) : nstate :=
  {| V := Vreset p; ge := nzero; gf := nzero; gate := nzero |}.

(** primitives/elements.py:117-121 ExplicitNeuron.reset *)
Definition reset (p : nparams) : nstate :=
  {| V := Vreset p; ge := nzero; gf := nzero; gate := nzero |}.

(** primitives/elements.py:54-75 AbstractNeuron.update_and_spike.  Division by zero raises.
    Returns the new state and whether the neuron spikes (reset happens in the
    simulator). *)
Definition update_and_spike (p : nparams) (dt : T) (s : nstate) : res (nstate * bool) :=
  let* dV := pdiv (nmul dt (nadd (ge s) (nmul (gate s) (gf s)))) (tm p) in
  let V' := nadd (V s) dV in
  let* gf' := (if negb (neqb (gate s) nzero)
               then let* r := pdiv (gf s) (tf p) in Ok (nsub (gf s) (nmul dt r))
               else Ok (gf s)) in
  Ok ({| V := V'; ge := ge s; gf := gf'; gate := gate s |}, ngeb V' (Vt p)).

(** primitives/elements.py:77-94 AbstractNeuron.receive_synaptic_event *)
Definition receive_synaptic_event (s : nstate) (ty : syntype) (w : T) : res nstate :=
  match ty with
  | SynV => Ok {| V := nadd (V s) w; ge := ge s; gf := gf s; gate := gate s |}
  | SynGe => Ok {| V := V s; ge := nadd (ge s) w; gf := gf s; gate := gate s |}
  | SynGf => Ok {| V := V s; ge := ge s; gf := nadd (gf s) w; gate := gate s |}
  | SynGate => Ok {| V := V s; ge := ge s; gf := gf s; gate := nadd (gate s) w |}
  | SynOther => Err EValue
  end.

(** primitives/elements.py:151-173 Synapse (its uid is not modelled: nothing reads it) *)
Record synapse := { s_pre : nat; s_post : nat; s_ty : syntype; s_w : T; s_delay : T }.

(* ------------------------------------------------------------------ *)
(** * events.py: SpikeEvent, SpikeEventQueue (lines 7-48) *)

Record event := { e_time : T; e_nid : nat; e_ty : syntype; e_w : T }.
(** primitives/events.py:20-22 SpikeEvent.__lt__ *)
Definition event_lt (a b : event) : bool := nltb (e_time a) (e_time b).
(** primitives/events.py:29-42 add_event *)
Definition add_event (q : list event) (e : event) : list event := heappush event_lt q e.
(** primitives/events.py:44-48 pop_events; the while loop pops at most [length q] times. *)
Fixpoint pop_events_loop (fuel : nat) (q : list event) (t : T) (acc : list event)
  : list event * list event :=
  match fuel with
  | 0 => (rev acc, q)
  | S f =>
      match q with
      | [] => (rev acc, q)
      | top :: _ =>
          if nleb (e_time top) t then
            match heappop event_lt q with
            | Some (e, q') => pop_events_loop f q' t (e :: acc)
            | None => (rev acc, q)
            end
          else (rev acc, q)
      end
  end.
Definition pop_events (q : list event) (t : T) : list event * list event :=
  pop_events_loop (List.length q) q t [].

(* ------------------------------------------------------------------ *)
(** * networks.py: the object heap *)

(** A neuron object: parameters plus what its uid is made of (elements.py:40-45).
    Its index in [w_neurons] is the value of [AbstractNeuron._instance_count] at
    creation, since every creation increments the counter (elements.py:48). *)
Record neuron := {
  nr_params : nparams; nr_mod : option nat; nr_name : option string
}.
(** A module object (networks.py:26-35); its index in [w_mods] is its
    [instance_count]. *)
Record module := { m_name : option string; m_neurons : list nat; m_subs : list nat }.
(** All neuron, module and synapse objects created so far.
    Representation: [neuron.out_synapses] (elements.py:110) is the subsequence of
    [w_syns] with that pre-neuron; synapses are only ever appended
    (networks.py:119). *)
Record world := { w_neurons : list neuron; w_mods : list module; w_syns : list synapse }.
Definition empty_world : world := {| w_neurons := []; w_mods := []; w_syns := [] |}.

Definition out_syn (w : world) (n : nat) : list synapse :=
  filter (fun s => s_pre s =? n) (w_syns w).

(** primitives/elements.py:40-45 and primitives/networks.py:30-33: uid strings. *)
Definition str_nat (n : nat) : string := NilEmpty.string_of_uint (Nat.to_uint n).
Definition str_name (o : option string) : string :=
  match o with Some s => s | None => "None"%string end.
Definition neuron_uid (idx : nat) (n : neuron) : string :=
  match nr_mod n with
  | Some m => "(m" ++ str_nat m ++ ",n" ++ str_nat idx ++ ")_" ++ str_name (nr_name n)
  | None => "(n" ++ str_nat idx ++ ")_" ++ str_name (nr_name n)
  end%string.
Definition module_uid (idx : nat) (m : module) : string :=
  match m_name m with
  | Some nm => if String.eqb nm "" then "(m" ++ str_nat idx ++ ")"
               else "(m" ++ str_nat idx ++ ")_" ++ nm
  | None => "(m" ++ str_nat idx ++ ")"
  end%string.

(** State-and-error monad over the object heap, for constructors. *)
Definition B (A : Type) := world -> res (A * world).
Definition bret {A} (a : A) : B A := fun w => Ok (a, w).
Definition bbind {A C} (m : B A) (f : A -> B C) : B C :=
  fun w => match m w with Ok (a, w') => f a w' | Err e => Err e end.
Definition berr {A} (e : err) : B A := fun _ => Err e.
(** lift a computation that may raise *)
Definition bres {A} (r : res A) : B A := fun w => match r with Ok a => Ok (a, w) | Err e => Err e end.
(** [for x in l: body] threading an accumulator *)
Fixpoint bfold {A C} (f : A -> C -> B A) (l : list C) (a : A) : B A :=
  match l with
  | [] => bret a
  | x :: l' => bbind (f a x) (bfold f l')
  end.

(** primitives/networks.py:26-35 SpikingNetworkModule.__init__ *)
Definition new_module (name : option string) : B nat := fun w =>
  Ok (List.length (w_mods w),
   {| w_neurons := w_neurons w;
      w_mods := w_mods w ++ [{| m_name := name; m_neurons := []; m_subs := [] |}];
      w_syns := w_syns w |}).

Definition upd_module (ms : list module) (m : nat) (f : module -> module) : list module :=
  match nth_error ms m with
  | Some x => lset ms m (f x)
  | None => ms
  end.

(** primitives/elements.py:97-115 direct construction of an ExplicitNeuron (no module). *)
Definition new_neuron (p : nparams) (md : option nat) (name : option string) : B nat := fun w =>
  Ok (List.length (w_neurons w),
   {| w_neurons := w_neurons w ++ [{| nr_params := p; nr_mod := md; nr_name := name |}];
      w_mods := w_mods w; w_syns := w_syns w |}).

(** primitives/networks.py:82-99 add_neuron *)
Definition append_neuron (md n : nat) : B unit := fun w =>
  Ok (tt, {| w_neurons := w_neurons w;
         w_mods := upd_module (w_mods w) md
                     (fun m => {| m_name := m_name m; m_neurons := m_neurons m ++ [n]; m_subs := m_subs m |});
         w_syns := w_syns w |}).
Definition add_neuron (md : nat) (p : nparams) (name : option string) : B nat :=
  bbind (new_neuron p (Some md) name) (fun n =>
  bbind (append_neuron md n) (fun _ => bret n)).

(** primitives/networks.py:101-102 add_subnetwork *)
Definition add_subnetwork (md sub : nat) : B unit := fun w =>
  Ok (tt, {| w_neurons := w_neurons w;
          w_mods := upd_module (w_mods w) md
                      (fun m => {| m_name := m_name m; m_neurons := m_neurons m; m_subs := m_subs m ++ [sub] |});
          w_syns := w_syns w |}).

(** primitives/networks.py:104-119 connect_neurons (argument order of the code:
    pre, post, synapse_type, weight, delay). *)
Definition connect (pre post : nat) (ty : syntype) (weight delay : T) : B unit := fun w =>
  Ok (tt, {| w_neurons := w_neurons w; w_mods := w_mods w;
          w_syns := w_syns w ++ [{| s_pre := pre; s_post := post; s_ty := ty; s_w := weight; s_delay := delay |}] |}).

(** primitives/helpers.py:1-24 and primitives/networks.py:6-13 flatten_nested_list on nested lists. *)
Inductive nested (A : Type) := Leaf (a : A) | Nest (l : list (nested A)).
Fixpoint flatten_nested {A} (x : nested A) : list A :=
  match x with
  | Leaf _ a => [a]
  | Nest _ l => fold_left (fun flat_list item => flat_list ++ flatten_nested item) l []
  end.

(** primitives/networks.py:41-49 the [neurons] property: own neurons, then the submodules'
    recursively (flatten_nested_list of a list of flat lists of neurons is their
    concatenation, see [flatten_one_level]).  A cyclic hierarchy exhausts the fuel
    (Python: RecursionError). *)
Fixpoint module_neurons (fuel : nat) (w : world) (m : nat) : res (list nat) :=
  match fuel with
  | 0 => Err ERecursion
  | S f =>
      match nth_error (w_mods w) m with
      | None => Err EAttribute
      | Some md =>
          let* subs := rfold (fun acc s => let* l := module_neurons f w s in Ok (acc ++ l)) (m_subs md) [] in
          Ok (m_neurons md ++ subs)
      end
  end.
Definition neurons_of (w : world) (m : nat) : res (list nat) :=
  module_neurons (S (List.length (w_mods w))) w m.

End Elements.

Arguments encoder : clear implicits.
Arguments nparams : clear implicits.
Arguments nstate : clear implicits.
Arguments synapse : clear implicits.
Arguments event : clear implicits.
Arguments neuron : clear implicits.
Arguments world : clear implicits.
Arguments B : clear implicits.

Notation "x <- m ;; k" := (bbind m (fun x => k)) (at level 61, m at next level, right associativity).
Notation "m ;;; k" := (bbind m (fun _ => k)) (at level 61, right associativity).
