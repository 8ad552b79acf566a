(** Concrete witnesses, computed, for the properties the code does not have or whose
    side conditions are needed (C01, C04, C05, C09, C14). *)
From Coq Require Import Arith ZArith QArith Bool List Floats String.
Local Open Scope nat_scope.
From Verif Require Import Num Heapq Elements Simulator SimTrace.
Import ListNotations.
Open Scope list_scope.

Ltac compute_all := repeat (match goal with |- _ /\ _ => split; [vm_compute; reflexivity|] end); vm_compute; reflexivity.

(** injecting a list of external spikes with [apply_input_spike], any arithmetic *)
Definition inject_any {T} `{Num T} (c : cfg T) (s : sim T) (ext : list (nat * T)) : sim T :=
  fold_left (fun s p => apply_input_spike c s (fst p) (snd p)) ext s.

(** A small builder: one module, neurons with given parameters, synapses given by index. *)
Definition mk_net {T} `{Num T} (ps : list (nparams T)) (ys : list (synapse T)) (inside : list nat) : world T :=
  {| w_neurons := map (fun p => {| nr_params := p; nr_mod := Some 0; nr_name := None |}) ps;
     w_mods := [{| m_name := None; m_neurons := inside; m_subs := [] |}];
     w_syns := ys |}.
Definition run {T} `{Num T} (w : world T) (dt : T) (ord : nat -> list nat -> list nat)
    (ext : list (nat * T)) (durations : list T) : res (sim T) :=
  let* cs := mk_simulator w 0 DefaultEncoder dt in
  let '(c, s) := cs in
  rfold (fun s d => simulate c ord s d) durations (inject_any c s ext).

Section QW.
Let q (z : Z) : Q := inject_Z z.
Let std : nparams Q := {| Vt := q 10; tm := q 1; tf := q 2; Vreset := q 0 |}.
Let syn (a b : nat) ty (w d : Z) : synapse Q := {| s_pre := a; s_post := b; s_ty := ty; s_w := q w; s_delay := q d |}.

(** ** C09 a neuron ramping up across the boundary between two calls *)
Definition w_ramp : world Q := mk_net [std; std] [syn 0 1 SynGe 1 1] [0; 1]%nat.
Lemma split_refuted :
  exists s1 s2, run w_ramp (q 1) ord_id [(0%nat, q 0)] [q 11] = Ok s1 /\
                run w_ramp (q 1) ord_id [(0%nat, q 0)] [q 5; q 6] = Ok s2 /\
                spike_log s1 1 = [q 10] /\ spike_log s2 1 = [].
Proof. do 2 eexists. compute_all. Qed.
(** even when nothing is active at the boundary, the clock restarts: the second
    spike is logged 5 time units early *)
Definition w_relay : world Q := mk_net [std; std] [syn 0 1 SynV 10 1] [0; 1]%nat.
Lemma split_clock_refuted :
  exists s1 s2, run w_relay (q 1) ord_id [(0%nat, q 0); (0%nat, q 6)] [q 10] = Ok s1 /\
                run w_relay (q 1) ord_id [(0%nat, q 0); (0%nat, q 6)] [q 5; q 5] = Ok s2 /\
                spike_log s1 1 = [q 1; q 7] /\ spike_log s2 1 = [q 1].
Proof. do 2 eexists. compute_all. Qed.

(** ** C04 a neuron whose reset potential is not below its threshold *)
Definition w_hot : world Q := mk_net [{| Vt := q 10; tm := q 1; tf := q 2; Vreset := q 10 |}] [] [0%nat].
Lemma sparse_dense_refuted :
  exists s1 s2, run w_hot (q 1) ord_id [] [q 3] = Ok s1 /\
                run w_hot (q 1) (dense [0%nat]) [] [q 3] = Ok s2 /\
                spike_log s1 0 = [] /\ spike_log s2 0 = [q 1; q 2; q 3].
Proof. do 2 eexists. compute_all. Qed.

End QW.
Definition qstd : nparams Q := {| Vt := 10%Q; tm := 1%Q; tf := 2%Q; Vreset := 0%Q |}.
Definition qsyn (a b : nat) ty (w d : Q) : synapse Q := {| s_pre := a; s_post := b; s_ty := ty; s_w := w; s_delay := d |}.
Lemma conditions_needed :
  run (mk_net [qstd; qstd] [qsyn 0 1 SynV 10 1] [0%nat]) 1%Q ord_id [(0%nat, 0%Q)] [3%Q] = Err EKey /\
  run (mk_net [qstd; qstd] [qsyn 0 1 SynOther 10 1] [0; 1]%nat) 1%Q ord_id [(0%nat, 0%Q)] [3%Q] = Err EValue /\
  run (mk_net [qstd; {| Vt := 10%Q; tm := 0%Q; tf := 2%Q; Vreset := 0%Q |}] [qsyn 0 1 SynV 1 1] [0; 1]%nat)
      1%Q ord_id [(0%nat, 0%Q)] [3%Q] = Err EZeroDiv /\
  run (mk_net [qstd; {| Vt := 10%Q; tm := 1%Q; tf := 0%Q; Vreset := 0%Q |}] [qsyn 0 1 SynGate 1 1] [0; 1]%nat)
      1%Q ord_id [(0%nat, 0%Q)] [3%Q] = Err EZeroDiv /\
  run w_relay 0%Q ord_id [(0%nat, 0%Q)] [3%Q] = Err EZeroDiv.
Proof. compute_all. Qed.

(** ** C05 three simultaneous events with binary64 weights: (0.1+0.2)+0.3 <> (0.3+0.2)+0.1 *)
Section FW.
Let f (z : Z) : float := nofZ z.
Let std : nparams float := {| Vt := f 10; tm := f 1; tf := f 2; Vreset := f 0 |}.
Let syn (a b : nat) (w : float) : synapse float := {| s_pre := a; s_post := b; s_ty := SynV; s_w := w; s_delay := f 1 |}.
Definition w_order : world float :=
  mk_net [std; std; std; std;
          {| Vt := nadd (nadd (nlit 1 10) (nlit 2 10)) (nlit 3 10); tm := f 1; tf := f 2; Vreset := f 0 |}]
         [syn 0 1 (f 10); syn 0 2 (f 10); syn 0 3 (f 10);
          syn 1 4 (nlit 1 10); syn 2 4 (nlit 2 10); syn 3 4 (nlit 3 10)]%nat [0; 1; 2; 3; 4]%nat.
Definition ord_swap (i : nat) (l : list nat) : list nat := rev l.
Lemma order_float_refuted :
  match run w_order (f 1) ord_id [(0%nat, f 0)] [f 4], run w_order (f 1) ord_swap [(0%nat, f 0)] [f 4] with
  | Ok s1, Ok s2 => List.length (spike_log s1 4) <> List.length (spike_log s2 4)
  | _, _ => False
  end.
Proof. vm_compute. discriminate. Qed.

(** ** C01 the binary64 round trip is not exact *)
Lemma roundtrip_float_refuted :
  match encode_value (DefaultEncoder (T:=float)) (nlit 1 3) with
  | Ok d => match decode_interval DefaultEncoder (nsub (snd d) (fst d)) with
            | Ok v => neqb v (nlit 1 3) = false
            | Err _ => False
            end
  | Err _ => False
  end.
Proof. vm_compute. reflexivity. Qed.
End FW.
