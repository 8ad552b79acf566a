(** Model of axon_sdk/compilation/compiler.py (InjectorNetwork is in Networks.v) *)
From Coq Require Import Arith ZArith Bool String List.
From Verif Require Import Num Heapq Elements Networks Simulator Scalar.
Import ListNotations.
Open Scope list_scope.

Section Compiler.
Context {T : Type} `{Num T}.

(** compilation/compiler.py:12-15 NeuronHeader *)
Record header := { h_plus : nat; h_minus : nat }.
(** compilation/compiler.py:18-30 InputTrigger: the pair (trigger_neuron, normalized_value) *)
Definition InputTrigger (value norm : T) (hd : header) : res (nat * T) :=
  let* q := pdiv value norm in
  if negb (nleb q (nofZ 1)) then Err EAssert else
  if negb (nleb norm (nofZ 100)) then Err EAssert else
  let* nv := pdiv (nabs value) norm in
  Ok (if ngeb value nzero then h_plus hd else h_minus hd, nv).

(** compilation/compiler.py:41-50 ExecutionPlan; the reader (33-38) is Simulator.reader. *)
Record plan := { p_net : nat; p_triggers : list (nat * T); p_reader : reader T }.

(** compilation/compiler.py:69-100.  Plugs are objects identified by a number; the
    assignment [plug.neuron_header = ...] is kept in a separate list (see
    [plugs] below).  Labels are not modelled.  A LoadOpModuleScaffold is a
    scaffold whose [os_value] is read. *)
Record scaffold := { os_op : optype; os_value : T; os_inps : list nat; os_outp : nat }.

Fixpoint index_of (n : nat) (l : list nat) : option nat :=
  match l with
  | [] => None
  | x :: l' => if x =? n then Some 0 else option_map S (index_of n l')
  end.

(** compilation/compiler.py:111-138 flatten.  init_plug_dict (103-108) numbers the
    output plugs 0..k-1 in the order of [nodes]; the plugs for the operands of
    each node are numbered next.  Returns ops, connections, the root's plug and
    the number of plugs. *)
Definition flatten_node (h : list (scalar T)) (nodes : list nat)
  (acc : list scaffold * list (nat * nat) * nat) (node : nat)
  : res (list scaffold * list (nat * nat) * nat) :=
  let '(ops, conns, k) := acc in
  match nth_error h node, index_of node nodes with
  | Some s, Some plug_o =>
      let plug_i := seq k (length (x_prev s)) in
      let* pres := rfold (fun l n => match index_of n nodes with Some p => Ok (l ++ [p]) | None => Err EKey end) (x_prev s) [] in
      Ok (ops ++ [{| os_op := x_op s; os_value := x_data s; os_inps := plug_i; os_outp := plug_o |}],
          conns ++ combine pres plug_i, k + length (x_prev s))
  | _, _ => Err EKey
  end.
Definition flatten (h : list (scalar T)) (root : nat) : res (list scaffold * list (nat * nat) * nat * nat) :=
  let* ne := trace h root in
  let nodes := fst ne in
  let* r := rfold (flatten_node h nodes) nodes ([], [], length nodes) in
  let '(ops, conns, k) := r in
  match index_of root nodes with
  | Some p => Ok (ops, conns, p, k)
  | None => Err EKey
  end.

(** compilation/compiler.py:141-182 spawn_stick_module: the module, the input headers and
    the output header.  The encoder is always the default one (line 142; the only
    caller passes none). *)
Definition spawn (op : optype) (norm : T) : B T (nat * list header * header) :=
  match op with
  | OAdd =>
      a <- AdderNetwork DefaultEncoder (Some "adder_mod"%string) ;;
      bret (lc_mod (ad_lin a),
            [{| h_plus := ad_input1_plus a; h_minus := ad_input1_minus a |};
             {| h_plus := ad_input2_plus a; h_minus := ad_input2_minus a |}],
            {| h_plus := lc_output_plus (ad_lin a); h_minus := lc_output_minus (ad_lin a) |})
  | OLoad =>
      i <- InjectorNetwork DefaultEncoder (Some "injector_mod"%string) ;;
      bret (ij_mod i, [], {| h_plus := ij_plus i; h_minus := ij_minus i |})
  | OMul =>
      m <- SignedMultiplierNormNetwork DefaultEncoder norm (Some "mul_norm_mod"%string) ;;
      bret (sn_mod m,
            [{| h_plus := sn_input1_plus m; h_minus := sn_input1_minus m |};
             {| h_plus := sn_input2_plus m; h_minus := sn_input2_minus m |}],
            {| h_plus := sn_output_plus m; h_minus := sn_output_minus m |})
  | ONeg =>
      f <- SignFlipperNetwork DefaultEncoder (Some "inv_mod"%string) ;;
      bret (sf_mod f, [{| h_plus := sf_inp_plus f; h_minus := sf_inp_minus f |}],
            {| h_plus := sf_outp_plus f; h_minus := sf_outp_minus f |})
  | _ => berr EGeneric
  end.

Definition plugs := list (option header).
(** compilation/compiler.py:199-200 the loop over zip(op.inp_plugs, in_header) *)
Definition set_plugs (ps : plugs) (l : list (nat * header)) : plugs :=
  fold_left (fun ps p => lset ps (fst p) (Some (snd p))) l ps.
(** compilation/compiler.py:185-202 fill_op_scafold, then line 211 add_subnetwork *)
Definition instantiate_op (net : nat) (norm : T) (ps : plugs) (op : scaffold) : B T plugs :=
  r <- spawn (os_op op) norm ;;
  let '(md, ins, out) := r in
  if negb (length (os_inps op) =? length ins) then berr EAssert else
  add_subnetwork net md ;;;
  bret (lset (set_plugs ps (combine (os_inps op) ins)) (os_outp op) (Some out)).
(** compilation/compiler.py:205-213 *)
Definition instantiate (net : nat) (norm : T) (ops : list scaffold) (ps : plugs) : B T plugs :=
  bfold (instantiate_op net norm) ops ps.

Definition plug_header (ps : plugs) (p : nat) : option header :=
  match nth_error ps p with Some o => o | None => None end.
(** compilation/compiler.py:216-230 wire_modules *)
Definition wire_conn (ps : plugs) (_ : unit) (c : nat * nat) : B T unit :=
  match plug_header ps (fst c), plug_header ps (snd c) with
  | Some pre, Some post =>
      connect (h_plus pre) (h_plus post) SynV we cTsyn ;;;
      connect (h_minus pre) (h_minus post) SynV we cTsyn
  | _, _ => bret tt
  end.
Definition wire_modules (ps : plugs) (conns : list (nat * nat)) : B T unit :=
  bfold (wire_conn ps) conns tt.

(** compilation/compiler.py:242-250 get_input_triggers *)
Definition get_trigger (ps : plugs) (norm : T) (acc : list (nat * T)) (op : scaffold) : res (list (nat * T)) :=
  match os_op op, plug_header ps (os_outp op) with
  | OLoad, Some hd => let* t := InputTrigger (os_value op) norm hd in Ok (acc ++ [t])
  | _, _ => Ok acc
  end.
Definition get_input_triggers (ps : plugs) (norm : T) (ops : list scaffold) : res (list (nat * T)) :=
  rfold (get_trigger ps norm) ops [].

(** compilation/compiler.py:260-276 compile_computation (with build_stick_net, 233-239, and
    get_output_reader, 253-257) *)
Definition compile_computation (h : list (scalar T)) (root : nat) (max_range : T) : B T plan :=
  if negb (nleb max_range (nofZ 100)) then berr EAssert else
  f <- bres (flatten h root) ;;
  let '(ops, conns, out_plug, k) := f in
  net <- new_module (Some "enclosing_module"%string) ;;
  ps <- instantiate net max_range ops (repeat None k) ;;
  wire_modules ps conns ;;;
  trs <- bres (get_input_triggers ps max_range ops) ;;
  match plug_header ps out_plug with
  | Some hd =>
      if length trs =? 0 then berr EGeneric else
      bret {| p_net := net; p_triggers := trs;
              p_reader := {| rd_plus := h_plus hd; rd_minus := h_minus hd; rd_norm := max_range |} |}
  | None => berr EGeneric
  end.

(** simulator.py:34-50 Simulator.init_with_plan *)
Definition init_with_plan (w : world T) (p : plan) (enc : encoder T) (dt : T) : res (cfg T * sim T) :=
  let* cs := mk_simulator w (p_net p) enc dt in
  let* s := apply_triggers (fst cs) (snd cs) (p_triggers p) in
  Ok (fst cs, s).
End Compiler.
Arguments plan : clear implicits.
