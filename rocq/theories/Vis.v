(** Model of axon_sdk/visualization/chronogram.py and topovis.py (the data they compute;
    drawing, HTTP server and JSON are not modelled), and of
    primitives/networks.py neurons_with_module_uid. *)
From Coq Require Import Arith ZArith Bool String List Lia.
From Verif Require Import Num Elements.
Import ListNotations.
Open Scope list_scope.

Section Vis.
Context {T : Type} {NT : Num T}.

(** sorted(entry_points, key=lambda pair: pair[1]): stable sort, as insertion sort *)
Fixpoint ins_key {A} (x : A * Z) (l : list (A * Z)) : list (A * Z) :=
  match l with
  | [] => [x]
  | y :: l' => if (snd x <=? snd y)%Z then x :: l else y :: ins_key x l'
  end.
Definition sort_key {A} (l : list (A * Z)) : list (A * Z) := fold_right ins_key [] l.
(** a dict built by successive assignments (key, value): the last one wins *)
Definition dict_get {K A} (eqb : K -> K -> bool) (d : list (K * A)) (k : K) : option A :=
  match find (fun p => eqb (fst p) k) (rev d) with Some p => Some (snd p) | None => None end.

(** visualization/chronogram.py:5-23 build_array.  Indices are ints (the simulator logs
    enumerate() indices). *)
Definition build_array (len : nat) (entries : list (T * Z)) : list T :=
  let sorted := sort_key entries in
  let d := map (fun t => (snd t, fst t)) sorted in
  fst (fold_left (fun (acc : list T * T) i =>
         let last := match dict_get Z.eqb d (Z.of_nat i) with Some v => v | None => snd acc end in
         (fst acc ++ [last], last)) (seq 0 len) ([], nzero)).

(** chronogram.py:26-62 plot_chronogram: the colour table; ZeroDivisionError for one neuron *)
Definition chronogram_colors (n : nat) : res (list T) :=
  rfold (fun acc i => let* q := pdiv (nofZ (Z.of_nat i)) (nofZ (Z.of_nat n - 1)) in Ok (acc ++ [q])) (seq 0 n) [].
(** chronogram.py:40-42: the plotted series of one neuron: the raw log when it has as many entries as there are
    timesteps, otherwise the reconstructed array *)
Inductive series := Raw (l : list (T * Z)) | Arr (l : list T).
Definition chronogram_series (steps : nat) (log : list (T * Z)) : series :=
  if (steps =? List.length log)%nat then Raw log else Arr (build_array steps log).

(** out_synapses of a neuron, as indices in [w_syns] (a synapse is appended to its
    pre-neuron's list, networks.py:119) *)
Definition out_idx (w : world T) (n : nat) : list nat :=
  filter (fun i => match nth_error (w_syns w) i with Some y => (s_pre y =? n)%nat | None => false end) (seq 0 (List.length (w_syns w))).

(** visualization/topovis.py:8-30 generate_mapping_neuron_to_net: assignments in program order *)
Definition mapping (w : world T) (net : nat) : res (list (nat * string)) :=
  match nth_error (w_mods w) net with
  | None => Err EAttribute
  | Some md =>
      rfold (fun acc s =>
        match nth_error (w_mods w) s with
        | None => Err EAttribute
        | Some sd => let* ns := neurons_of w s in Ok (acc ++ map (fun n => (n, module_uid s sd)) ns)
        end) (m_subs md) (map (fun n => (n, module_uid net md)) (m_neurons md))
  end.
Definition map_get (d : list (nat * string)) (n : nat) : res string :=
  match dict_get Nat.eqb d n with Some s => Ok s | None => Err EKey end.
(** Python sets of neurons and synapses, as duplicate-free lists (iteration order is not modelled) *)
Definition sadd (x : nat) (l : list nat) : list nat := if existsb (Nat.eqb x) l then l else l ++ [x].
(** visualization/topovis.py:33-58 get_neurons_and_synapses_to_display *)
Definition add_syn (y : synapse T) (i : nat) (acc : list nat * list nat) : list nat * list nat :=
  (sadd (s_post y) (sadd (s_pre y) (fst acc)), sadd i (snd acc)).
Definition to_display (w : world T) (net : nat) : res (list nat * list nat) :=
  match nth_error (w_mods w) net with
  | None => Err EAttribute
  | Some md =>
      let* a1 := rfold (fun acc n => rfold (fun acc i =>
          match nth_error (w_syns w) i with None => Err EAttribute | Some y => Ok (add_syn y i acc) end)
        (out_idx w n) acc) (m_neurons md) ([], []) in
      let* d := mapping w net in
      let* ns := neurons_of w net in
      rfold (fun acc n => rfold (fun acc i =>
          match nth_error (w_syns w) i with
          | None => Err EAttribute
          | Some y =>
              let* g1 := map_get d n in
              let* g2 := map_get d (s_post y) in
              if String.eqb g1 g2 then Ok acc else Ok (add_syn y i acc)
          end) (out_idx w n) acc) ns a1
  end.
(** visualization/topovis.py:61-75 get_groups_to_display *)
Definition groups_to_display (w : world T) (net : nat) (shown : list nat) : res (list (nat * string)) :=
  match nth_error (w_mods w) net with
  | None => Err EAttribute
  | Some md =>
      let* d := mapping w net in
      let* sel := rfold (fun acc n => let* g := map_get d n in Ok (acc ++ [(n, g)])) shown [] in
      Ok (filter (fun p => negb (String.eqb (snd p) (module_uid net md))) sel)
  end.
(** visualization/topovis.py:116-138 format_groups: (group id, its neurons), in order of first use *)
Fixpoint add_element (d : list (string * list nat)) (k : string) (v : nat) : list (string * list nat) :=
  match d with
  | [] => [(k, [v])]
  | (k', l) :: d' => if String.eqb k' k then (k', l ++ [v]) :: d' else (k', l) :: add_element d' k v
  end.
Definition format_groups (g : list (nat * string)) : list (string * list nat) :=
  fold_left (fun d p => add_element d (snd p) (fst p)) g [].
(** visualization/topovis.py:90-100 color_for_synapse *)
Definition color_for_synapse (ty : syntype) : string :=
  match ty with
  | SynV => "#000000" | SynGe => "#FF0830" | SynGf => "#006400" | SynGate => "#0E1AFE" | SynOther => "#000000"
  end%string.
(** visualization/topovis.py:141-153 vis_topology: node uids, edges (source uid, target uid, synapse), groups of uids *)
Definition uid_of (w : world T) (n : nat) : res string :=
  match nth_error (w_neurons w) n with Some x => Ok (neuron_uid n x) | None => Err EAttribute end.
Definition rmap {A C} (f : A -> res C) (l : list A) : res (list C) :=
  rfold (fun acc x => let* y := f x in Ok (acc ++ [y])) l [].
Definition graph_data (w : world T) (net : nat) : res (list string * list (string * string * string) * list (string * list string)) :=
  let* d := to_display w net in
  let* g := groups_to_display w net (fst d) in
  let* nodes := rmap (uid_of w) (fst d) in
  let* edges := rmap (fun i => match nth_error (w_syns w) i with
                               | None => Err EAttribute
                               | Some y => let* a := uid_of w (s_pre y) in let* b := uid_of w (s_post y) in Ok (a, b, color_for_synapse (s_ty y))
                               end) (snd d) in
  let* groups := rmap (fun p => let* l := rmap (uid_of w) (snd p) in Ok (fst p, l)) (format_groups g) in
  Ok (nodes, edges, groups).

(** primitives/networks.py:59-69 recurse_neurons_with_module_uid: the (neuron, uid) dicts in order *)
Fixpoint recurse_uid (fuel : nat) (w : world T) (m : nat) : res (list (nat * string)) :=
  match fuel with
  | 0 => Err ERecursion
  | S f =>
      match nth_error (w_mods w) m with
      | None => Err EAttribute
      | Some md =>
          let* subs := rfold (fun acc s => let* l := recurse_uid f w s in Ok (acc ++ l)) (m_subs md) [] in
          Ok (map (fun n => (n, module_uid m md)) (m_neurons md) ++ subs)
      end
  end.
(** primitives/networks.py:71-77 neurons_with_module_uid: lookup in the combined dict *)
Definition neuron_module_uid (w : world T) (m n : nat) : res (option string) :=
  let* l := recurse_uid (S (List.length (w_mods w))) w m in Ok (dict_get Nat.eqb l n).
End Vis.
