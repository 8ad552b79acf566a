(** The construction API (C47): what any sequence of construction calls leaves behind. *)
From Coq Require Import Arith ZArith Bool String List Lia.
From Verif Require Import Num Heapq Elements Build.
Import ListNotations.
Open Scope list_scope.

Section Script.
Context {T : Type}.
(** one construction call of a user script (networks.py:26-35, 82-119) *)
Inductive call :=
  | CModule (name : option string)
  | CNeuron (md : nat) (p : nparams T) (name : option string)
  | CSub (md sub : nat)
  | CConnect (pre post : nat) (ty : syntype) (weight delay : T).
Definition do_call (c : call) : B T unit :=
  match c with
  | CModule name => bbind (new_module name) (fun _ => bret tt)
  | CNeuron md p name => bbind (add_neuron md p name) (fun _ => bret tt)
  | CSub md sub => add_subnetwork md sub
  | CConnect pre post ty wt d => connect pre post ty wt d
  end.
Fixpoint do_calls (l : list call) : B T unit :=
  match l with [] => bret tt | c :: l' => bbind (do_call c) (fun _ => do_calls l') end.
(** what the calls ask for *)
Definition modules_made (l : list call) : list (option string) := flat_map (fun c => match c with CModule nm => [nm] | _ => [] end) l.
Definition neurons_made (l : list call) : list (nat * nparams T * option string) := flat_map (fun c => match c with CNeuron md p nm => [(md, p, nm)] | _ => [] end) l.
Definition subs_made (l : list call) (m : nat) : list nat := flat_map (fun c => match c with CSub md s => if md =? m then [s] else [] | _ => [] end) l.
Definition conns_made (l : list call) (n : nat) : list (synapse T) :=
  flat_map (fun c => match c with CConnect pre post ty wt d => if pre =? n then [{| s_pre := pre; s_post := post; s_ty := ty; s_w := wt; s_delay := d |}] else [] | _ => [] end) l.
(** a module is used only after its creation *)
Fixpoint in_order (k : nat) (l : list call) : Prop :=
  match l with
  | [] => True
  | CModule _ :: l' => in_order (S k) l'
  | CNeuron md _ _ :: l' => md < k /\ in_order k l'
  | CSub md _ :: l' => md < k /\ in_order k l'
  | CConnect _ _ _ _ _ :: l' => in_order k l'
  end.
Definition module_is (w : world T) (l : list call) (m : nat) (nm : option string) : Prop :=
  nth_error (w_mods w) m = Some {| m_name := nm;
    m_neurons := filter (fun k => match nth_error (neurons_made l) k with Some (md, _, _) => md =? m | None => false end) (seq 0 (length (neurons_made l)));
    m_subs := subs_made l m |}.

Lemma do_calls_app l1 l2 w : do_calls (l1 ++ l2) w = match do_calls l1 w with Ok (_, w') => do_calls l2 w' | Err e => Err e end.
Proof.
  revert w. induction l1 as [|c l1 IH]; intros w; [reflexivity|]. cbn [app do_calls]. unfold bbind at 1 2. destruct (do_call c w) as [[u w']|e]; auto.
Qed.
Lemma in_order_app l1 l2 : forall k, in_order k (l1 ++ l2) <-> in_order k l1 /\ in_order (k + length (modules_made l1)) l2.
Proof.
  induction l1 as [|c l1 IH]; intros k; cbn [app in_order]; [cbn; rewrite Nat.add_0_r; tauto|].
  destruct c; cbn [in_order]; rewrite IH; cbn [modules_made flat_map app length]; try (replace (S k + length (modules_made l1)) with (k + S (length (modules_made l1))) by lia); try tauto.
Qed.
Lemma upd_nth2 (ms : list module) md f m : nth_error (upd_module ms md f) m = match nth_error ms m with Some x => Some (if m =? md then f x else x) | None => None end.
Proof.
  unfold upd_module. destruct (nth_error ms md) as [y|] eqn:E.
  - rewrite nth_error_lset. destruct (Nat.eqb_spec m md) as [->|Hn]; [rewrite E|destruct (nth_error ms m); reflexivity].
    destruct (Nat.ltb_spec md (length ms)) as [|H]; auto. apply nth_error_None in H. congruence.
  - destruct (nth_error ms m) eqn:E2; auto. destruct (Nat.eqb_spec m md) as [->|]; [congruence|reflexivity].
Qed.
Theorem script_world l : in_order 0 l -> exists w, do_calls l empty_world = Ok (tt, w) /\
  w_neurons w = map (fun x => {| nr_params := snd (fst x); nr_mod := Some (fst (fst x)); nr_name := snd x |}) (neurons_made l) /\
  length (w_mods w) = length (modules_made l) /\
  (forall m nm, nth_error (modules_made l) m = Some nm -> module_is w l m nm) /\
  (forall n, out_syn w n = conns_made l n).
Proof.
  induction l as [|c l IH] using rev_ind; intros HO.
  - exists empty_world. cbn. split; auto. split; auto. split; auto. split; auto. intros [|m] nm H; discriminate.
  - apply in_order_app in HO as [H1 H2]. destruct (IH H1) as (w & E & A1 & A2 & A3 & A4).
    assert (EN : neurons_made (l ++ [c]) = neurons_made l ++ neurons_made [c]) by apply flat_map_app.
    assert (EM : modules_made (l ++ [c]) = modules_made l ++ modules_made [c]) by apply flat_map_app.
    assert (ES : forall m, subs_made (l ++ [c]) m = subs_made l m ++ subs_made [c] m) by (intros; apply flat_map_app).
    assert (EC : forall n, conns_made (l ++ [c]) n = conns_made l n ++ conns_made [c] n) by (intros; apply flat_map_app).
    rewrite do_calls_app, E. cbn [do_calls].
    destruct c as [nm|md p nm|md s|pre post ty wt d]; cbn [in_order] in H2; cbn [modules_made neurons_made subs_made conns_made flat_map app] in EN, EM, ES, EC;
      unfold module_is; rewrite ?EN, ?EM; rewrite ?app_nil_r.
    + eexists. split; [reflexivity|]. cbn [w_neurons w_mods w_syns]. split; auto. split; [rewrite !app_length; cbn; lia|].
      split; [|intros n; rewrite EC, app_nil_r; apply A4].
      intros m nm' Hm. rewrite ES, app_nil_r. destruct (Nat.lt_ge_cases m (length (modules_made l))) as [h|h].
      * rewrite nth_error_app1 in Hm by lia. rewrite nth_error_app1 by (rewrite A2; lia). apply A3; auto.
      * rewrite nth_error_app2 in Hm by lia. rewrite nth_error_app2 by (rewrite A2; lia). rewrite A2. destruct (m - length (modules_made l)) as [|j] eqn:Ej; [|destruct j; discriminate]. cbn in Hm |- *. injection Hm as <-. assert (m = length (modules_made l)) by lia. subst m. do 2 f_equal.
        { symmetry. rewrite (filter_ext_in _ (fun _ => false)); [induction (seq 0 (length (neurons_made l))); auto|].
          intros k Hk. destruct (nth_error (neurons_made l) k) as [[[md p] nm2]|] eqn:Ek; auto. apply Nat.eqb_neq. intros ->.
          clear - H1 Ek. assert (forall b, in_order b l -> forall k md p nm, nth_error (neurons_made l) k = Some (md, p, nm) -> md < b + length (modules_made l)).
          { clear. induction l as [|c l IH]; intros b HO k md p nm H; [destruct k; discriminate|]. destruct c; cbn in HO, H |- *; fold (modules_made l) (neurons_made l) in *.
            - specialize (IH (S b) HO _ _ _ _ H). lia.
            - destruct HO as [h1 h2]. destruct k; [cbn in H; injection H as <- <- <-; lia|]. cbn in H. apply (IH _ h2 _ _ _ _ H).
            - apply (IH b (proj2 HO) _ _ _ _ H).
            - apply (IH b HO _ _ _ _ H). }
          specialize (H 0 H1 _ _ _ _ Ek). cbn in H. lia. }
        { symmetry. clear - H1. assert (forall b, in_order b l -> forall m, b + length (modules_made l) <= m -> subs_made l m = []).
          { clear. induction l as [|c l IH]; intros b HO m Hm; auto. destruct c; cbn in HO, Hm |- *; fold (modules_made l) in *; fold (subs_made l m).
            - apply (IH (S b)); auto; lia.
            - apply (IH b (proj2 HO)); auto.
            - rewrite (proj2 (Nat.eqb_neq md m)) by lia. apply (IH b (proj2 HO)); auto.
            - apply (IH b HO); auto. }
          apply (H 0 H1). lia. }
    + eexists. split; [reflexivity|]. cbn [w_neurons w_mods w_syns]. split; [rewrite A1, map_app; reflexivity|].
      split; [rewrite upd_len; auto|]. split; [|intros n; rewrite EC, app_nil_r; apply A4].
      intros m nm' Hm. rewrite ES, app_nil_r, upd_nth2, (A3 m nm' Hm). f_equal. rewrite app_length. cbn [length]. rewrite seq_app, filter_app. cbn [seq filter Nat.add].
      rewrite nth_error_app2, Nat.sub_diag by lia. cbn [nth_error].
      assert (EF : filter (fun k => match nth_error (neurons_made l ++ [(md, p, nm)]) k with Some (md0, _, _) => md0 =? m | None => false end) (seq 0 (length (neurons_made l))) =
        filter (fun k => match nth_error (neurons_made l) k with Some (md0, _, _) => md0 =? m | None => false end) (seq 0 (length (neurons_made l)))).
      { apply filter_ext_in. intros k Hk. apply in_seq in Hk. rewrite nth_error_app1 by lia. reflexivity. }
      rewrite EF. assert (EL : length (w_neurons w) = length (neurons_made l)) by (rewrite A1; apply map_length). rewrite EL.
      rewrite (Nat.eqb_sym md m). destruct (m =? md); cbn [m_name m_neurons m_subs]; rewrite ?app_nil_r; reflexivity.
    + eexists. split; [reflexivity|]. cbn [w_neurons w_mods w_syns]. split; auto.
      split; [rewrite upd_len; auto|]. split; [|intros n; rewrite EC, app_nil_r; apply A4].
      intros m nm' Hm. rewrite ES, upd_nth2, (A3 m nm' Hm). f_equal. rewrite (Nat.eqb_sym md m).
      destruct (m =? md); cbn [m_name m_neurons m_subs]; rewrite ?app_nil_r; reflexivity.
    + eexists. split; [reflexivity|]. cbn [w_neurons w_mods w_syns]. split; auto. split; auto. split.
      * intros m nm' Hm. rewrite ES, app_nil_r. apply A3; auto.
      * intros n. rewrite EC. unfold out_syn in *. cbn [w_syns]. rewrite filter_app, A4. cbn [filter s_pre]. destruct (pre =? n); reflexivity.
Qed.
End Script.
Arguments call : clear implicits.
