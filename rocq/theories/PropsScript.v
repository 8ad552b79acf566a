(** Property C47: the construction API.  A script is a list of construction calls (Script.v); the k-th neuron, module created is number k. *)
From Coq Require Import Arith ZArith QArith Bool String List Lia.
From Verif Require Import Num Heapq Elements Script.
Import ListNotations.
Open Scope list_scope.
Open Scope nat_scope.

(** every neuron keeps the parameters, module and name it was created with; each module lists the neurons added to it and its submodules in call order;
    the outgoing synapses of a neuron are the connect_neurons calls with that pre-neuron, in call order, and nothing else *)
Theorem C47_script : forall (T : Type) (l : list (call T)), in_order 0 l -> exists w, do_calls l empty_world = Ok (tt, w) /\
  w_neurons w = map (fun x => {| nr_params := snd (fst x); nr_mod := Some (fst (fst x)); nr_name := snd x |}) (neurons_made l) /\
  length (w_mods w) = length (modules_made l) /\
  (forall m nm, nth_error (modules_made l) m = Some nm -> nth_error (w_mods w) m = Some {| m_name := nm;
     m_neurons := filter (fun k => match nth_error (neurons_made l) k with Some (md, _, _) => md =? m | None => false end) (seq 0 (length (neurons_made l)));
     m_subs := subs_made l m |}) /\
  (forall n, out_syn w n = conns_made l n).
Proof. exact (@script_world). Qed.
Print Assumptions C47_script.
(** hence what a call asks for is not affected by later calls *)
Theorem C47_calls_only_extend : forall (T : Type) (l l' : list (call T)), in_order 0 (l ++ l') -> exists w w', do_calls l empty_world = Ok (tt, w) /\ do_calls (l ++ l') empty_world = Ok (tt, w') /\
  (forall n x, nth_error (w_neurons w) n = Some x -> nth_error (w_neurons w') n = Some x) /\
  (forall n, exists more, out_syn w' n = out_syn w n ++ more) /\
  (forall m x, nth_error (w_mods w) m = Some x -> exists y mn ms, nth_error (w_mods w') m = Some y /\ m_name y = m_name x /\ m_neurons y = m_neurons x ++ mn /\ m_subs y = m_subs x ++ ms).
Proof.
  intros T l l' H. pose proof (proj1 (proj1 (in_order_app _ _ _) H)) as H0.
  destruct (script_world l H0) as (w & E & A1 & A2 & A3 & A4). destruct (script_world (l ++ l') H) as (w' & E' & B1 & B2 & B3 & B4).
  assert (EN : neurons_made (l ++ l') = neurons_made l ++ neurons_made l') by apply flat_map_app.
  exists w, w'. split; auto. split; auto. split; [|split].
  - intros n x Hx. rewrite B1, EN, map_app. rewrite A1 in Hx. rewrite nth_error_app1; auto. apply nth_error_Some. congruence.
  - intros n. exists (conns_made l' n). rewrite A4, B4. apply flat_map_app.
  - intros m x Hx. assert (Hm : m < length (modules_made l)) by (rewrite <- A2; apply nth_error_Some; congruence).
    destruct (nth_error (modules_made l) m) as [nm|] eqn:En; [|apply nth_error_None in En; lia].
    pose proof (A3 m nm En) as Am. assert (En' : nth_error (modules_made (l ++ l')) m = Some nm).
    { unfold modules_made. rewrite flat_map_app. fold (modules_made l). rewrite nth_error_app1; auto. }
    pose proof (B3 m nm En') as Bm. unfold module_is in Am, Bm. rewrite Am in Hx. injection Hx as <-.
    eexists. eexists. eexists. split; [exact Bm|]. cbn [m_name m_neurons m_subs]. split; auto. split; [|apply flat_map_app].
    rewrite EN, app_length, seq_app, filter_app. f_equal. apply filter_ext_in. intros k Hk. apply in_seq in Hk. rewrite nth_error_app1 by lia. reflexivity.
Qed.
Print Assumptions C47_calls_only_extend.

Example C47_ex : let p := {| tm := 100; tf := 20; Vt := 10; Vreset := 0 |} in
  let l := [CModule None; CNeuron 0 p (Some "a"%string); CModule (Some "sub"%string); CSub 0 1; CNeuron 1 p None; CNeuron 0 p None; CConnect 0 2 SynV 3 1; CConnect 1 0 SynGe 4 1; CConnect 0 1 SynV 5 2] in
  in_order 0 l /\ neurons_made (T := nat) l = [(0, p, Some "a"%string); (1, p, None); (0, p, None)] /\
  exists w, do_calls l empty_world = Ok (tt, w) /\ map m_neurons (w_mods w) = [[0; 2]; [1]] /\ map m_subs (w_mods w) = [[1]; []] /\ map s_post (out_syn w 0) = [2; 1].
Proof. cbn. split; [lia|]. split; auto. eexists. split; [reflexivity|]. cbn. auto. Qed.
