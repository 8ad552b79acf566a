(** MemoryNetwork used again and again: after each recall the network is back in its initial state (C22). *)
From Coq Require Import Arith ZArith Bool List Reals Lra Lia Permutation.
From Verif Require Import Num Heapq Elements Simulator Networks Trace SimTrace SimProps TraceProps NeuronLib NetLib Build BuildNets Bridge Session MemoryProof SegLib SimpleNets Restart.
Import ListNotations.
Open Scope R_scope.
Open Scope list_scope.

(** ** Specification: a history of store/recall cycles *)
(** one cycle: value stored, time at which storing starts, time of the recall spike *)
Record cycle := { cy_x : R; cy_store : R; cy_recall : R }.
Section Spec.
Variables tmin tcod dt : R.
(** the recall comes after the memory is ready; the next value is stored after the replay is over *)
Fixpoint cycles_ok (from : R) (cs : list cycle) (T : R) : Prop :=
  match cs with
  | [] => from <= T
  | c :: cs' => 0 <= cy_x c <= 1 /\ from <= cy_store c /\ cy_store c + 2 + (tmin + tcod) + 3 * dt <= cy_recall c /\
                cycles_ok (cy_recall c + (tmin + tcod) + 4 + 4 * dt) cs' T
  end.
(** the pair of spikes p replays the value stored in cycle c, after its recall and before the next cycle may start *)
Definition replays (c : cycle) (p : R * R) : Prop :=
  cy_recall c < fst p /\ fst p < snd p /\ snd p < cy_recall c + (tmin + tcod) + 4 + 4 * dt /\
  exists y, decode_interval (DataEncoder tmin tcod) (snd p - fst p) = Ok y /\
    Rabs (y - cy_x c) <= 3 * dt / tcod /\
    (forall p, 1 = INR p * dt -> Rabs (y - cy_x c) <= dt / tcod) /\
    (forall p q, 1 = INR p * dt -> tmin + cy_x c * tcod = INR q * dt -> y = cy_x c).
(** the ready spike of cycle c: after the value is in, before the recall takes effect *)
Definition readies (c : cycle) (t : R) : Prop := cy_store c < t < cy_recall c + 1.
Definition cy_stims (m : memory_net) (cs : list cycle) : list stim :=
  flat_map (fun c => [SValue (cy_x c) (mm_input m) (cy_store c); SSpike (mm_recall m) (cy_recall c)]) cs.
Definition pairs (ps : list (R * R)) : list R := flat_map (fun p => [fst p; snd p]) ps.
End Spec.

(** ** Proof *)
(** no injected spike, no spike *)
Lemma no_ext_rest N (P : nat -> Prop) : t_ext N = [] -> (forall n, P n -> t_prm N n = stdp) -> (forall y, In y (t_syns N) -> P (s_pre y)) ->
  forall n, P n -> spikes_at N n [].
Proof.
  intros HE HP HS.
  assert (A : forall k n, P n -> st N k n = at_rest 0 /\ spk N k n = false).
  { induction k as [k IH] using lt_wf_ind. intros n Hn. destruct k as [|k]; [split; [apply init_rest; auto|reflexivity]|].
    assert (HI : no_input N n (S k)).
    { intros ty. unfold no_input. rewrite (input_of N N n ty (S k) (fun _ => 0)); auto.
      - rewrite (map_ext _ (fun _ => 0)) by (intros; lra). induction (filter _ _) as [|y l IHl]; [reflexivity|]. cbn [map]. unfold sumR in *. cbn [fold_right]. rewrite IHl. lra.
      - intros y Hy _. rewrite arr_eq. unfold ext_count. rewrite HE. cbn [filter length Nat.add].
        destruct (Nat.ltb_spec (step_at (t_dt N) (s_delay y)) (S k)); cbn [andb]; auto.
        rewrite (proj2 (IH (S k - step_at (t_dt N) (s_delay y))%nat ltac:(pose proof (step_at_ge1 (t_dt N) (s_delay y)); lia) (s_pre y) (HS y Hy))). reflexivity. }
    destruct (rest_quiet N n k 0 (HP n Hn) (proj1 (IH k ltac:(lia) n Hn)) ltac:(lra) (S k)) with (k := S k) as [A B]; try lia.
    - intros j Hj. replace j with (S k) by lia. auto.
    - split; auto. }
  intros n Hn k. apply A; auto.
Qed.

Section MemSettled.
Variable N : tnet.
Variable m : memory_net.
Variable Tmax : R.
Let dt := t_dt N.
Hypothesis Hdt : 0 < dt.
Hypothesis HTmax : 0 < Tmax.
Hypothesis HM : mem_in N (1000 / Tmax) m.
Variables a1 a2 : nat.
Let D1 := step_at dt 1.
Let D2 := step_at dt 2.
Let M := step_at dt Tmax.
Hypothesis Hin : arrs N (mm_input m) 1 [a1; a2].
Hypothesis Ha1 : (1 <= a1)%nat.
Hypothesis Ha2 : (a1 + D1 <= a2)%nat.
Variables r1 r2 : nat.
Hypothesis Hr1 : arrs N (mm_recall m) 1 [r1].
Hypothesis Hr2 : arrs N (mm_recall m) 2 [r2].
Hypothesis Hr2pos : (1 <= r2)%nat.
Hypothesis Hlate1 : (F N Tmax a1 + D1 < r1)%nat.
Hypothesis Hlate2 : (a2 + D2 < r1)%nat.
Hypothesis Hdist : (r2 < r1 + D2 - D1 + (a2 - a1))%nat.
Let b := (r1 + D2 - D1 + (a2 - a1))%nat.

Lemma dist_ok : (r2 + D1 <> r1 + D2 + (a2 - a1))%nat.
Proof. lia. Qed.
Lemma HD12 : (2 * D1 - 1 <= D2 <= 2 * D1)%nat. Proof. exact (D2_bounds N Tmax Hdt a1 a2 Ha1 Ha2 r1 r2 Hr2pos Hlate1 Hlate2 dist_ok). Qed.
Lemma HD1p : (1 <= D1)%nat. Proof. apply step_at_ge1. Qed.
Lemma set_first k : (a2 <= k)%nat -> st N k (mm_first m) = at_rest 0.
Proof.
  intros Hk. pose proof (mi_first _ _ _ HM) as H. pose proof HD1p. assert (HS : spikes_at N (mm_first m) [a1]) by (eapply mem_first; eauto).
  assert (HV : vonly N (mm_first m)) by (eapply ins_vonly; eauto; repeat constructor).
  set (L := [(a1, 10); ((a1 + D1)%nat, -10); (a2, 10)]).
  destruct (seg_quiet N (mm_first m) k L a1) with (k := k) as [A _]; auto.
  - apply H.
  - apply fired_rest; [apply H|]. rewrite HS. cbn. rewrite Nat.eqb_refl. reflexivity.
  - intros j Hj. ev_input H. rewrite (arrs_spikes N (mm_first m) cTsyn [a1]); auto.
    + autorewrite with netR. rewrite Hin by lia. unfold L. ev_simpl. fold dt D1. lra.
    + apply (ins_ext _ _ _ H).
    + intros i [<-|[]]; auto.
    + repeat constructor; auto.
    + lia.
  - intros j Hj. unfold L. vsum_simp. ltbs; leb_cases; cbn [andb]; first [lra | exfalso; lia].
  - lia.
  - rewrite A. f_equal. unfold L. vsum_simp. ltbs. lra.
Qed.
Lemma rest_after n f : t_prm N n = stdp -> spk N f n = true -> (forall k, (f < k)%nat -> no_input N n k) -> forall k, (f <= k)%nat -> st N k n = at_rest 0.
Proof. intros HP HS HI k Hk. rewrite (fired_init N n f HP HS HI k Hk), HP. reflexivity. Qed.
Lemma in_spk n l f : spikes_at N n l -> In f l -> spk N f n = true.
Proof. intros H Hf. rewrite H. apply memb_In. auto. Qed.
Lemma vonly_none n k : vonly N n -> input N n SynV k = 0 -> no_input N n k.
Proof. intros H HI ty. destruct ty; auto; apply input_no_ty; intros y Hy; rewrite (H y Hy); congruence. Qed.
Lemma set_last k : (a2 <= k)%nat -> st N k (mm_last m) = at_rest 0.
Proof.
  pose proof (mi_last _ _ _ HM) as H. pose proof HD1p. apply rest_after; [apply H| |].
  - eapply in_spk; [eapply mem_last; eauto|left; auto].
  - intros j Hj. apply vonly_none; [eapply ins_vonly; eauto; repeat constructor|]. ev_input H. autorewrite with netR. rewrite Hin by lia. ev_simpl. rewrite !ind_ne by lia. lra.
Qed.
Lemma F_ge : (a1 + D1 <= F N Tmax a1)%nat.
Proof. unfold F. pose proof (step_at_ge1 (t_dt N) Tmax). change (step_at (t_dt N) 1) with D1. lia. Qed.
Lemma set_acc k : (F N Tmax a1 <= k)%nat -> st N k (mm_acc m) = at_rest 0.
Proof.
  pose proof (mi_acc _ _ _ HM) as H. assert (HF : spikes_at N (mm_first m) [a1]) by (eapply mem_first; eauto). pose proof HD1p. pose proof F_ge. apply rest_after; [apply H| |].
  - eapply in_spk; [eapply mem_acc; eauto|left; auto].
  - intros j Hj. apply geonly_none; [eapply ins_geonly; eauto; repeat constructor|]. ev_input H.
    rewrite (arrs_spikes N (mm_first m) cTsyn [a1]); auto.
    + autorewrite with netR. ev_simpl. fold dt D1. rewrite !ind_ne by lia. lra.
    + apply (ins_ext _ _ _ (mi_first _ _ _ HM)).
    + intros i [<-|[]]; auto.
    + repeat constructor; auto.
    + lia.
Qed.
Lemma set_ready k : (F N Tmax a1 + D1 <= k)%nat -> st N k (mm_ready m) = at_rest 0.
Proof.
  pose proof (mi_ready _ _ _ HM) as H. assert (HF : spikes_at N (mm_acc m) [F N Tmax a1]) by (eapply mem_acc; eauto). pose proof HD1p. pose proof F_ge. apply rest_after; [apply H| |].
  - eapply in_spk; [eapply mem_ready; eauto|left; auto].
  - intros j Hj. apply vonly_none; [eapply ins_vonly; eauto; repeat constructor|]. ev_input H.
    rewrite (arrs_spikes N (mm_acc m) cTsyn [F N Tmax a1]); auto.
    + autorewrite with netR. ev_simpl. fold dt D1. rewrite !ind_ne by lia. lra.
    + apply (ins_ext _ _ _ (mi_acc _ _ _ HM)).
    + intros i [<-|[]]; lia.
    + repeat constructor; auto.
    + lia.
Qed.
Lemma G_b : (G N Tmax a1 a2 r1 + D1 = b)%nat.
Proof. exact (G_eq N Tmax Hdt a1 a2 Ha1 Ha2 r1 r2 Hr2pos Hlate1 Hlate2 dist_ok). Qed.
Lemma set_acc2 k : (G N Tmax a1 a2 r1 <= k)%nat -> st N k (mm_acc2 m) = at_rest 0.
Proof.
  pose proof (mi_acc2 _ _ _ HM) as H. pose proof HD1p. pose proof F_ge. pose proof G_b. pose proof HD12. apply rest_after; [apply H| |].
  - eapply in_spk; [exact (mem_acc2 N m Tmax Hdt HTmax HM a1 a2 Hin Ha1 Ha2 r1 r2 Hr1 Hr2pos Hlate1 Hlate2 dist_ok)|left; auto].
  - intros j Hj. apply geonly_none; [eapply ins_geonly; eauto; repeat constructor|]. unfold b in *. rewrite (acc2_input N m Tmax Hdt HTmax HM a1 a2 Hin Ha1 Ha2 r1 r2 Hr1 Hr2pos Hlate1 Hlate2 dist_ok) by lia.
    fold dt D1 D2. rewrite !ind_ne by lia. lra.
Qed.
Lemma set_output k : (b <= k)%nat -> st N k (mm_output m) = at_rest 0.
Proof.
  pose proof (mi_output _ _ _ HM) as H. pose proof (mem_acc2 N m Tmax Hdt HTmax HM a1 a2 Hin Ha1 Ha2 r1 r2 Hr1 Hr2pos Hlate1 Hlate2 dist_ok) as HF. pose proof HD1p. pose proof F_ge. pose proof G_b. pose proof HD12. apply rest_after; [apply H| |].
  - eapply in_spk; [exact (mem_output N m Tmax Hdt HTmax HM a1 a2 Hin Ha1 Ha2 r1 r2 Hr1 Hr2 Hr2pos Hlate1 Hlate2 dist_ok)|right; left; reflexivity].
  - intros j Hj. apply vonly_none; [eapply ins_vonly; eauto; repeat constructor|]. ev_input H.
    rewrite (arrs_spikes N (mm_acc2 m) cTsyn [G N Tmax a1 a2 r1]); auto.
    + autorewrite with netR. rewrite !Rmult_1_r. rewrite (Hr2 j) by lia. ev_simpl. fold dt D1. rewrite !ind_ne by (unfold b in *; lia). lra.
    + apply (ins_ext _ _ _ (mi_acc2 _ _ _ HM)).
    + intros i [<-|[]]. unfold b in *. lia.
    + repeat constructor; auto.
    + lia.
Qed.
Lemma mem_settled n k : In n (mm_internal m) -> (b <= k)%nat -> st N k n = at_rest 0.
Proof.
  pose proof HD1p. pose proof HD12. pose proof G_b. pose proof F_ge. intros Hn Hk. unfold mm_internal in Hn. cbn [In] in Hn.
  destruct Hn as [<-|[<-|[<-|[<-|[<-|[<-|[]]]]]]].
  - apply set_first; lia.
  - apply set_last; lia.
  - apply set_acc; lia.
  - apply set_acc2; lia.
  - apply set_ready; lia.
  - apply set_output; lia.
Qed.
End MemSettled.

Section Cycles.
Variables tmin tcod dt : R.
Let enc := DataEncoder tmin tcod.
Variable nm : option String.string.
Variable m : memory_net.
Variable w : world R.
Hypothesis E : MemoryNetwork enc nm empty_world = Ok (m, w).
Hypothesis HB : built empty_world w (mm_mod m) (mm_syns (wacc_of enc) m).
Hypothesis HN : mm_nodes m = seq 0 8.
Hypothesis HL : length (w_neurons w) = 8%nat.
Hypothesis Hdt : 0 < dt <= 1 / 2.
Hypothesis Htc : 0 < tcod.
Hypothesis Htm : 1 + dt <= tmin.

Definition cy_ext (cs : list cycle) : list (nat * R) := exts enc (cy_stims m cs).
Lemma cy_ext_cons c cs : cy_ext (c :: cs) = cy_ext [c] ++ cy_ext cs.
Proof. unfold cy_ext, cy_stims, exts. cbn [flat_map]. rewrite !flat_map_app, app_nil_r. reflexivity. Qed.
Definition shift_cy (d : R) (c : cycle) : cycle := {| cy_x := cy_x c; cy_store := cy_store c - d; cy_recall := cy_recall c - d |}.
Lemma cy_ext_shift d cs : shift d (cy_ext cs) = cy_ext (map (shift_cy d) cs).
Proof.
  induction cs as [|c cs IH]; [reflexivity|]. cbn [map]. rewrite cy_ext_cons, (cy_ext_cons (shift_cy d c)), <- IH. unfold shift. rewrite map_app. f_equal.
  unfold cy_ext, cy_stims, exts, shift_cy. cbn [flat_map app stim_ext map fst snd cy_x cy_store cy_recall]. repeat (f_equal; try lra).
Qed.
Lemma cycles_ok_shift d cs : forall from T, cycles_ok tmin tcod dt from cs T -> cycles_ok tmin tcod dt (from - d) (map (shift_cy d) cs) (T - d).
Proof.
  induction cs as [|c cs IH]; cbn [cycles_ok map]; intros from T H; [lra|]. destruct H as (Hx & Hf & Hr & Hc). cbn [shift_cy cy_x cy_store cy_recall].
  split; [auto|split; [lra|split; [lra|]]]. replace (cy_recall c - d + (tmin + tcod) + 4 + 4 * dt) with (cy_recall c + (tmin + tcod) + 4 + 4 * dt - d) by lra. auto.
Qed.
Lemma cycles_ok_from cs : forall from from' T, from' <= from -> cycles_ok tmin tcod dt from cs T -> cycles_ok tmin tcod dt from' cs T.
Proof. destruct cs as [|c cs]; cbn [cycles_ok]; intros from from' T Hf H; [lra|]. intuition lra. Qed.

Definition st_pair (p : nat * nat) : R * R := (INR (fst p) * dt, INR (snd p) * dt).
Definition flat (ps : list (nat * nat)) : list nat := flat_map (fun p => [fst p; snd p]) ps.

Lemma one_cycle c : let N := net_of w (cy_ext [c]) dt in
  0 <= cy_x c <= 1 -> 0 <= cy_store c -> cy_store c + 2 + (tmin + tcod) + 3 * dt <= cy_recall c ->
  exists p r, replays tmin tcod dt c (st_pair p) /\ readies c (INR r * dt) /\
    spikes_at N (mm_output m) [fst p; snd p] /\ spikes_at N (mm_ready m) [r] /\
    (1 <= fst p)%nat /\ (1 <= r < snd p)%nat /\
    forall K, (snd p <= K)%nat -> (forall n, (n < 8)%nat -> st N K n = init_nstate (t_prm N n)) /\
      (forall y j, In y (t_syns N) -> (j <= K)%nat -> spk N j (s_pre y) = true -> (j + step_at dt (s_delay y) <= K)%nat).
Proof.
  intros N Hx Ht0 Htr. destruct c as [x t0 tr]. cbn [cy_x cy_store cy_recall] in *. destruct Hdt as [Hd0 Hd2].
  pose proof HN as HN'. unfold mm_nodes in HN'. nodes_eqs HN'.
  set (iv := tmin + x * tcod).
  assert (EXT : t_ext N = [(mm_input m, t0); (mm_input m, t0 + iv); (mm_recall m, tr)]) by reflexivity.
  assert (Hxc : 0 <= x * tcod <= tcod) by (split; [apply Rmult_le_pos; lra|rewrite <- (Rmult_1_l tcod) at 2; apply Rmult_le_compat_r; lra]).
  assert (Hiv : 1 + dt <= iv <= tmin + tcod) by (unfold iv; lra).
  pose proof (b_syn _ _ _ _ HB) as ES. cbn [w_syns empty_world app] in ES.
  assert (HI0 : forall n, n = mm_input m \/ n = mm_recall m -> in_syn N n = [] /\ t_prm N n = stdp).
  { intros n Hn. split; [|cbn; apply prm_std; [apply HB|lia]]. unfold in_syn. cbn [N net_of t_syns]. rewrite ES.
    destruct Hn as [-> | ->]; syn_simp. }
  assert (HA1 : arrs N (mm_input m) 1 [step_at dt (t0 + 1); step_at dt (t0 + 1 + iv)]).
  { destruct (HI0 (mm_input m)) as [Q1 Q2]; auto. pose proof (source_arrs N (mm_input m) 1 Q1 Q2) as Q. unfold ext_of in Q. rewrite EXT in Q. cbn [filter fst] in Q.
    rewrite !Nat.eqb_refl, (proj2 (Nat.eqb_neq (mm_recall m) (mm_input m))) in Q by lia. cbn [map snd] in Q. replace (t0 + 1 + iv) with (t0 + iv + 1) by lra. exact Q. }
  assert (HRd : forall d, arrs N (mm_recall m) d [step_at dt (tr + d)]).
  { intros d. destruct (HI0 (mm_recall m)) as [Q1 Q2]; auto. pose proof (source_arrs N (mm_recall m) d Q1 Q2) as Q. unfold ext_of in Q. rewrite EXT in Q. cbn [filter fst] in Q.
    rewrite !Nat.eqb_refl, (proj2 (Nat.eqb_neq (mm_input m) (mm_recall m))) in Q by lia. exact Q. }
  pose proof (HRd 1) as HR1. pose proof (HRd 2) as HR2.
  assert (HM : mem_in N (1000 / (tmin + tcod)) m).
  { pose proof HB as HB'. unfold enc in HB'. rewrite wacc_R in HB'. apply (mem_in_of _ _ _ 0); auto. intros n Hn. eapply own_built; [exact E|exact HB'|rewrite HL|].
    - unfold mm_internal in Hn. cbn [In] in Hn. intuition lia.
    - change (cy_ext [{| cy_x := x; cy_store := t0; cy_recall := tr |}]) with (t_ext N). rewrite EXT.
      unfold mm_internal in Hn. cbn [In] in Hn. destruct Hn as [<-|[<-|[<-|[<-|[<-|[<-|[]]]]]]]; unfold ext_spikes; cbn [filter fst]; eqbs; reflexivity. }
  destruct (step_diff dt (t0 + 1) iv Hd0 ltac:(lra) ltac:(lra)) as (Q1 & Q2 & _).
  assert (GD : forall q, iv = INR q * dt -> INR (step_at dt (t0 + 1 + iv)) * dt - INR (step_at dt (t0 + 1)) * dt = iv)
    by (intros q Eq; eapply grid_diff; eauto; lra).
  assert (Ha12 : (step_at dt (t0 + 1) + step_at dt 1 <= step_at dt (t0 + 1 + iv))%nat).
  { apply step_diff_ge; try lra; try apply step_at_ge1. pose proof (step_time dt 1 Hd0 ltac:(lra)). unfold iv. lra. }
  pose proof (step_at_bounds dt 1 Hd0 ltac:(lra)) as BD1. pose proof (step_at_bounds dt 2 Hd0 ltac:(lra)) as BD2.
  pose proof (step_at_bounds dt (t0 + 1) Hd0 ltac:(lra)) as BA1. pose proof (step_at_bounds dt (t0 + 1 + iv) Hd0 ltac:(lra)) as BA2.
  pose proof (step_at_bounds dt (tr + 1) Hd0 ltac:(lra)) as BR1. pose proof (step_at_bounds dt (tr + 2) Hd0 ltac:(lra)) as BR2.
  pose proof (step_at_bounds dt (tmin + tcod) Hd0 ltac:(lra)) as BM.
  pose proof (step_at_ge1 dt (t0 + 1)) as G1. pose proof (step_at_ge1 dt 1) as G2. pose proof (step_at_ge1 dt (tr + 2)) as G3.
  pose proof (step_at_ge1 dt (tmin + tcod)) as G4.
  assert (GR : forall p, 1 = INR p * dt -> (step_at dt 2 = 2 * p /\ step_at dt 1 = p /\ step_at dt (tr + 2) = step_at dt (tr + 1) + p)%nat).
  { intros p Ep. assert (p <> 0)%nat by (intros ->; cbn in Ep; lra). repeat split.
    - replace 2 with (INR (2 * p) * dt) by (rewrite mult_INR; cbn [INR]; lra). apply step_at_grid; auto. lia.
    - rewrite Ep at 1. apply step_at_grid; auto. lia.
    - replace (tr + 2) with (tr + 1 + INR p * dt) by lra. apply step_exact; lra. }
  set (a1 := step_at dt (t0 + 1)) in *. set (a2 := step_at dt (t0 + 1 + iv)) in *.
  set (r1 := step_at dt (tr + 1)) in *. set (r2 := step_at dt (tr + 2)) in *.
  assert (HFr : (F N (tmin + tcod) a1 + step_at dt 1 < r1)%nat).
  { unfold F. cbn [N net_of t_dt]. apply INR_lt. rewrite plus_INR, plus_INR, minus_INR, plus_INR by lia. cbn [INR].
    apply Rmult_lt_reg_r with dt; auto. lra. }
  assert (HFt : INR (F N (tmin + tcod) a1 + step_at dt 1) * dt < tr + 1).
  { unfold F. cbn [N net_of t_dt]. rewrite plus_INR, plus_INR, minus_INR, plus_INR by lia. cbn [INR]. lra. }
  assert (HFt0 : t0 < INR (F N (tmin + tcod) a1 + step_at dt 1) * dt).
  { unfold F. cbn [N net_of t_dt]. rewrite plus_INR, plus_INR, minus_INR, plus_INR by lia. cbn [INR]. lra. }
  assert (Hle2 : (a2 + step_at dt 2 < r1)%nat).
  { apply INR_lt. rewrite plus_INR. apply Rmult_lt_reg_r with dt; auto. unfold iv in BA2. lra. }
  assert (HD : (step_at dt 1 <= step_at dt 2)%nat) by (apply step_at_mono; lra).
  assert (Hord : (r2 < r1 + step_at dt 2 - step_at dt 1 + (a2 - a1))%nat).
  { apply INR_lt. rewrite plus_INR, !minus_INR, plus_INR by lia. apply Rmult_lt_reg_r with dt; auto. apply Rabs_def2 in Q2. unfold iv in Q2. lra. }
  assert (HTm : 0 < tmin + tcod) by lra.
  pose proof (mem_output N m (tmin + tcod) Hd0 HTm HM a1 a2 HA1 G1 Ha12 r1 r2 HR1 HR2 G3 HFr Hle2 ltac:(cbn [N net_of t_dt]; lia)) as HOut.
  pose proof (mem_ready N m (tmin + tcod) Hd0 HTm HM a1 a2 HA1 G1 Ha12) as HRy.
  pose proof (mem_first N m (tmin + tcod) HM a1 a2 HA1 G1 Ha12) as HSf.
  pose proof (mem_last N m (tmin + tcod) HM a1 a2 HA1 G1 Ha12) as HSl.
  pose proof (mem_acc N m (tmin + tcod) Hd0 HTm HM a1 a2 HA1 G1 Ha12) as HSa.
  pose proof (mem_acc2 N m (tmin + tcod) Hd0 HTm HM a1 a2 HA1 G1 Ha12 r1 r2 HR1 G3 HFr Hle2 ltac:(cbn [N net_of t_dt]; lia)) as HSa2.
  pose proof (G_b N (tmin + tcod) Hd0 a1 a2 G1 Ha12 r1 r2 G3 HFr Hle2 Hord) as HGb.
  pose proof (mem_settled N m (tmin + tcod) Hd0 HTm HM a1 a2 HA1 G1 Ha12 r1 r2 HR1 HR2 G3 HFr Hle2 Hord) as HSet.
  change (t_dt N) with dt in HOut, HRy, HSet, HGb.
  set (b := (r1 + step_at dt 2 - step_at dt 1 + (a2 - a1))%nat) in *.
  assert (EI : INR b * dt - INR r2 * dt = (INR a2 * dt - INR a1 * dt) + (INR r1 * dt + INR (step_at dt 2) * dt - INR (step_at dt 1) * dt - INR r2 * dt)).
  { unfold b. rewrite plus_INR, !minus_INR, plus_INR by lia. lra. }
  exists (r2, b), (F N (tmin + tcod) a1 + step_at dt 1)%nat.
  assert (Hb : INR b * dt < tr + (tmin + tcod) + 4 + 4 * dt) by (apply Rabs_def2 in Q2; lra).
  set (Fq := F N (tmin + tcod) a1) in *.
  assert (Hbr : (r1 < b)%nat) by (unfold b; lia).
  assert (BS : forall c, 0 < c -> forall eps, Rabs (INR b * dt - INR r2 * dt - iv) <= eps -> Rabs ((INR b * dt - INR r2 * dt - tmin) / tcod - x) <= eps / tcod).
  { intros _ _ eps HE. replace ((INR b * dt - INR r2 * dt - tmin) / tcod - x) with ((INR b * dt - INR r2 * dt - iv) / tcod) by (unfold iv; field; lra).
    unfold Rdiv. rewrite Rabs_mult, (Rabs_right (/ tcod)) by (left; apply Rinv_0_lt_compat; auto). apply Rmult_le_compat_r; auto. left. apply Rinv_0_lt_compat; auto. }
  split; [|split; [|split; [|split; [|split; [|split]]]]]; cbn [fst snd]; auto.
  - unfold replays, st_pair. cbn [fst snd cy_x cy_recall]. split; [lra|]. split; [apply Rmult_lt_compat_r; auto; apply lt_INR; auto|]. split; [auto|].
    exists ((INR b * dt - INR r2 * dt - tmin) / tcod). split; [|split; [|split]].
    + unfold decode_interval, pdiv, nzero. cbn [neqb nofZ R_num DataEncoder Tcod Tmin nsub ndiv]. rewrite (proj2 (Reqb_false _ _)) by lra. reflexivity.
    + apply (BS 1); [lra|]. rewrite EI. apply Rabs_def2 in Q2. apply Rabs_le. lra.
    + intros p Ep. destruct (GR p Ep) as (K1 & K2 & K3). apply (BS 1); [lra|]. rewrite EI, K1, K2, K3.
      rewrite plus_INR, mult_INR. cbn [INR]. apply Rabs_def2 in Q2. apply Rabs_le. lra.
    + intros p q Ep Eq. destruct (GR p Ep) as (K1 & K2 & K3). fold iv in Eq. rewrite EI, K1, K2, K3.
      rewrite plus_INR, mult_INR. cbn [INR]. rewrite (GD q Eq). unfold iv. field. lra.
  - unfold readies. cbn [cy_store cy_recall]. lra.
  - lia.
  - intros K HK. split.
    + intros n Hn. assert (HP : t_prm N n = stdp) by (cbn; apply prm_std; [apply HB|lia]). rewrite HP. change (init_nstate stdp) with (at_rest 0).
      assert (Hc : (n = mm_input m \/ n = mm_recall m) \/ In n (mm_internal m)) by (unfold mm_internal; cbn [In]; lia).
      destruct Hc as [Hc|Hc]; [|apply HSet; auto]. destruct (HI0 n Hc) as [S1 S2]. apply silent; auto.
      intros k Hk ty. rewrite input_in, S1. reflexivity.
    + intros y j Hy Hj Hs. cbn [N net_of t_syns] in Hy. rewrite ES in Hy. unfold mm_syns in Hy. cbn [In] in Hy.
      assert (SI : spikes_at N (mm_input m) []) by (destruct (HI0 (mm_input m)); auto; apply source_silent; auto).
      assert (SR : spikes_at N (mm_recall m) []) by (destruct (HI0 (mm_recall m)); auto; apply source_silent; auto).
      repeat destruct Hy as [<-|Hy]; try destruct Hy; cbn [s_pre s_delay syn mks] in Hs |- *; autorewrite with netR;
        first [rewrite SI in Hs | rewrite SR in Hs | rewrite HSf in Hs | rewrite HSl in Hs | rewrite HSa in Hs | rewrite HSa2 in Hs];
        cbn [memb existsb] in Hs; try discriminate; rewrite orb_false_r in Hs; apply Nat.eqb_eq in Hs; subst j; fold Fq; rewrite ?Rmult_1_r; lia.
Qed.

Lemma pre_lt : forall y, In y (w_syns w) -> (s_pre y < 8)%nat /\ 1 <= s_delay y <= 2.
Proof.
  intros y Hy. pose proof HN as HN'. unfold mm_nodes in HN'. nodes_eqs HN'. pose proof (b_syn _ _ _ _ HB) as ES. cbn [w_syns empty_world app] in ES.
  rewrite ES in Hy. unfold mm_syns in Hy. cbn [In] in Hy. repeat destruct Hy as [<-|Hy]; try destruct Hy; cbn [s_pre s_delay syn mks]; autorewrite with netR; (split; [lia|lra]).
Qed.
Lemma replays_shift d c p : replays tmin tcod dt (shift_cy d c) p -> replays tmin tcod dt c (fst p + d, snd p + d).
Proof.
  unfold replays. cbn [shift_cy cy_x cy_recall fst snd]. intros (A & B & C & y & D & R). split; [lra|split; [lra|split; [lra|]]].
  exists y. replace (snd p + d - (fst p + d)) with (snd p - fst p) by lra. auto.
Qed.
Lemma strict_app_shift K l : forall l', strict 0 l -> (forall k, In k l -> (k <= K)%nat) -> strict 0 l' -> strict 0 (l ++ map (fun j => (K + j)%nat) l').
Proof.
  intros l' H1 HK H2. assert (H3 : strict K (map (fun j => (K + j)%nat) l')).
  { clear -H2. replace K with (K + 0)%nat at 1 by lia. revert H2. generalize 0%nat. induction l' as [|x l IH]; intros a H; cbn in *; auto. split; [lia|]. apply IH. apply H. }
  clear H2. revert H1. assert (Ha : (0 <= K)%nat) by lia. revert Ha. generalize 0%nat. induction l as [|x l IH]; intros a Ha H; cbn [app].
  - clear -H3 Ha. destruct (map _ l') as [|z zs]; cbn in *; auto. split; [lia|apply H3].
  - cbn in H |- *. split; [apply H|]. apply IH; [intros; apply HK; right; auto|apply HK; left; auto|apply H].
Qed.
Lemma flat_shift K ps : flat (map (fun p => (K + fst p, K + snd p)%nat) ps) = map (fun j => (K + j)%nat) (flat ps).
Proof. unfold flat. induction ps as [|p ps IH]; [reflexivity|]. cbn [map flat_map app fst snd]. rewrite IH. reflexivity. Qed.

Theorem cycles_run n : forall cs T, length cs = n -> 0 <= T -> cycles_ok tmin tcod dt 0 cs T -> let N := net_of w (cy_ext cs) dt in
  exists ps rs, Forall2 (replays tmin tcod dt) cs (map st_pair ps) /\ Forall2 readies cs (map (fun r => INR r * dt) rs) /\
    spikes_at N (mm_output m) (flat ps) /\ spikes_at N (mm_ready m) rs /\ strict 0 (flat ps) /\ strict 0 rs /\
    (forall k, In k (flat ps) \/ In k rs -> INR k * dt <= T).
Proof.
  induction n as [|n IH]; intros cs T Hlen HT Hok N.
  - destruct cs; [|discriminate]. pose proof HN as HN'. unfold mm_nodes in HN'. nodes_eqs HN'.
    assert (Z : forall n, (n < 8)%nat -> spikes_at N n []).
    { apply (no_ext_rest N (fun n => (n < 8)%nat)); [reflexivity|intros k Hk; cbn; apply prm_std; [apply HB|lia]|]. intros y Hy. apply (pre_lt y Hy). }
    exists [], []. cbn [map flat flat_map]. split; [constructor|split; [constructor|split; [apply Z; lia|split; [apply Z; lia|split; [exact I|split; [exact I|]]]]]]. intros k [[]|[]].
  - destruct cs as [|c cs]; [discriminate|]. cbn [length] in Hlen. injection Hlen as Hlen.
    cbn [cycles_ok] in Hok. destruct Hok as (Hx & Hf & Hr & Hc).
    destruct (one_cycle c Hx Hf Hr) as (p & r & RP & RD & SO & SY & P1 & P2 & SET).
    set (from := cy_recall c + (tmin + tcod) + 4 + 4 * dt) in *.
    assert (Hfrom : 0 < from) by (unfold from; lra).
    pose proof (step_at_bounds dt from (proj1 Hdt) Hfrom) as [BK1 BK2]. pose proof (step_at_ge1 dt from) as BK3.
    set (K := (step_at dt from - 1)%nat).
    assert (HK1 : INR K * dt < from) by (unfold K; rewrite minus_INR by lia; cbn [INR]; lra).
    assert (HK2 : from <= INR (S K) * dt) by (unfold K; replace (S (step_at dt from - 1)) with (step_at dt from) by lia; lra).
    assert (LT : forall j, INR j * dt < from -> (j <= K)%nat).
    { intros j H1. assert (H : INR j < INR (S K)); [|apply INR_lt in H; lia]. apply Rmult_lt_reg_r with dt; lra. }
    assert (Hp12 : (fst p < snd p <= K)%nat).
    { destruct RP as (_ & R1 & R2 & _). cbn [st_pair fst snd] in R1, R2. split; [|apply LT; exact R2]. apply INR_lt. apply Rmult_lt_reg_r with dt; lra. }
    destruct (SET K (proj2 Hp12)) as [Z1 Z2].
    set (d := INR K * dt) in *.
    destruct (IH (map (shift_cy d) cs) (T - d)) as (ps & rs & A1 & A2 & A3 & A4 & A5 & A6 & A7).
    { rewrite map_length. auto. }
    { assert (from <= T); [|lra]. clear -Hc Hdt Htc Htm. clearbody from. revert Hc. generalize from. induction cs as [|c' cs IHc]; cbn [cycles_ok]; intros f Hc; auto.
      destruct Hc as (_ & C1 & C2 & C3). apply IHc in C3. lra. }
    { apply (cycles_ok_from _ (from - d)); [lra|]. apply cycles_ok_shift. auto. }
    assert (HTf : from <= T).
    { clear -Hc Hdt Htc Htm. clearbody from. revert Hc. generalize from. induction cs as [|c' cs IHc]; cbn [cycles_ok]; intros f Hc; auto.
      destruct Hc as (_ & C1 & C2 & C3). apply IHc in C3. lra. }
    assert (RS : forall n S1 S2, (n < 8)%nat -> spikes_at (net_of w (cy_ext [c]) dt) n S1 -> spikes_at (net_of w (cy_ext (map (shift_cy d) cs)) dt) n S2 ->
      (forall k, In k S1 -> (k <= K)%nat) -> (forall k, In k S2 -> (1 <= k)%nat) -> spikes_at N n (S1 ++ map (fun j => (K + j)%nat) S2)).
    { intros q S1 S2 Hq B1 B2 B3 B4. apply (restart N (proj1 Hdt) (fun n => (n < 8)%nat) ) with (e1 := cy_ext [c]) (e2 := cy_ext cs); auto.
      - intros y Hy. apply (pre_lt y Hy).
      - intros pp y Hpp Hy Hpre. destruct (pre_lt y Hy) as [_ [L1 L2]]. apply LT.
        assert (Hs : 0 <= snd pp <= cy_recall c).
        { assert (Hxc : 0 <= cy_x c * tcod <= tcod) by (split; [apply Rmult_le_pos; lra|rewrite <- (Rmult_1_l tcod) at 2; apply Rmult_le_compat_r; lra]).
          unfold cy_ext, cy_stims, exts in Hpp. cbn [flat_map app stim_ext In] in Hpp. unfold enc in Hpp. cbn [DataEncoder Tmin Tcod] in Hpp.
          destruct Hpp as [<-|[<-|[<-|[]]]]; cbn [snd]; lra. }
        change (t_dt N) with dt. pose proof (step_at_bounds dt (snd pp + s_delay y) (proj1 Hdt) ltac:(lra)). unfold from. lra.
      - intros pp y Hpp Hy Hpre. destruct (pre_lt y Hy) as [_ [L1 L2]]. change (t_dt N) with dt. fold d.
        assert (Hs : from <= snd pp); [|lra].
        clear -Hc Hpp Hdt Htc Htm. clearbody from. revert Hc. generalize from. induction cs as [|c' cs IHc]; [destruct Hpp|]. intros f Hc. cbn [cycles_ok] in Hc. destruct Hc as (C0 & C1 & C2 & C3).
        rewrite cy_ext_cons in Hpp. apply in_app_or in Hpp as [Hpp|Hpp]; [|specialize (IHc Hpp _ C3); lra].
        assert (Hxc : 0 <= cy_x c' * tcod <= tcod) by (split; [apply Rmult_le_pos; lra|rewrite <- (Rmult_1_l tcod) at 2; apply Rmult_le_compat_r; lra]).
        unfold cy_ext, cy_stims, exts in Hpp. cbn [flat_map app stim_ext In] in Hpp. unfold enc in Hpp. cbn [DataEncoder Tmin Tcod] in Hpp.
        destruct Hpp as [<-|[<-|[<-|[]]]]; cbn [snd]; lra.
      - change (t_dt N) with dt. fold d. rewrite cy_ext_shift. exact B2. }
    pose proof HN as HN'. unfold mm_nodes in HN'. nodes_eqs HN'.
    assert (Hge : forall a l k, strict a l -> In k l -> (1 <= k)%nat) by (intros a l k U1 U2; pose proof (strict_In _ _ U1 _ U2); lia).
    exists (p :: map (fun p => (K + fst p, K + snd p)%nat) ps), (r :: map (fun j => (K + j)%nat) rs).
    change (flat (p :: map (fun p => (K + fst p, K + snd p)%nat) ps)) with ([fst p; snd p] ++ flat (map (fun p => (K + fst p, K + snd p)%nat) ps)). rewrite flat_shift.
    split; [|split; [|split; [|split; [|split; [|split]]]]].
    + cbn [map]. constructor; auto. rewrite map_map. clear -A1. revert cs A1. induction ps as [|q ps IHp]; intros cs A1; destruct cs as [|c' cs]; cbn [map] in A1; inversion A1; subst; cbn [map]; constructor; auto.
      apply replays_shift in H2. unfold st_pair in *. cbn [fst snd] in *. rewrite !plus_INR, !Rmult_plus_distr_r, (Rplus_comm (INR K * dt)), (Rplus_comm (INR K * dt) (INR (snd q) * dt)). exact H2.
    + cbn [map]. constructor; auto. rewrite map_map. clear -A2. revert cs A2. induction rs as [|q rs IHp]; intros cs A2; destruct cs as [|c' cs]; cbn [map] in A2; inversion A2; subst; cbn [map]; constructor; auto.
      unfold readies in *. cbn [shift_cy cy_store cy_recall] in *. rewrite plus_INR, Rmult_plus_distr_r. fold d. lra.
    + apply RS; auto; [lia| |eauto]. intros k [<-|[<-|[]]]; lia.
    + apply (RS (mm_ready m) [r] rs); auto; [lia| |eauto]. intros k [<-|[]]; lia.
    + apply strict_app_shift; auto; [cbn; lia|]. intros k [<-|[<-|[]]]; lia.
    + apply (strict_app_shift K [r] rs); auto; [cbn; lia|]. intros k [<-|[]]; lia.
    + assert (U : forall k, (k <= K)%nat -> INR k * dt <= T).
      { intros k Hk. apply le_INR in Hk. apply Rmult_le_compat_r with (r := dt) in Hk; [|lra]. fold d in Hk. lra. }
      assert (V : forall k, INR k * dt <= T - d -> INR (K + k) * dt <= T) by (intros k Hk; rewrite plus_INR, Rmult_plus_distr_r; fold d; lra).
      intros k [Hk|Hk].
      * apply in_app_or in Hk as [[<-|[<-|[]]]|Hk]; try (apply U; lia). apply in_map_iff in Hk as (j & <- & Hj). apply V, A7. auto.
      * destruct Hk as [<-|Hk]; [apply U; lia|]. apply in_map_iff in Hk as (j & <- & Hj). apply V, A7. auto.
Qed.
End Cycles.

Theorem memory_reuse (tmin tcod dt T : R) (cs : list cycle) nm ord :
  0 < dt <= 1 / 2 -> 0 < tcod -> 1 + dt <= tmin -> ord_ok ord -> 0 <= T -> cycles_ok tmin tcod dt 0 cs T ->
  exists m s ps rs,
    session (MemoryNetwork (DataEncoder tmin tcod) nm) mm_mod (DataEncoder tmin tcod) dt (fun m => cy_stims m cs) ord T = Ok (m, s) /\
    spike_log s (mm_output m) = pairs ps /\ Forall2 (replays tmin tcod dt) cs ps /\
    spike_log s (mm_ready m) = rs /\ Forall2 readies cs rs.
Proof.
  intros Hdt Htc Htm HO HT Hok. set (enc := DataEncoder tmin tcod).
  assert (HTm : tmin + tcod <> 0) by lra.
  destruct (Memory_built enc nm empty_world inv_empty (neq0 _ HTm)) as (m & w & E & HB & HN & HL).
  cbn [w_neurons empty_world length Nat.add] in HN, HL.
  pose proof HN as HN'. unfold mm_nodes in HN'. nodes_eqs HN'.
  assert (EX : forall cs f, cycles_ok tmin tcod dt f cs T -> Forall (stim_ok 8) (cy_stims m cs)).
  { clear cs Hok. induction cs as [|c cs IH]; intros f Hc; [constructor|]. cbn [cycles_ok] in Hc. destruct Hc as (C0 & C1 & C2 & C3).
    unfold cy_stims. cbn [flat_map app]. constructor; [cbn; split; [auto|lia]|]. constructor; [cbn; lia|]. eapply IH; eauto. }
  destruct (session_built (MemoryNetwork enc nm) mm_mod m w _ enc dt (fun m => cy_stims m cs) ord T E HB (proj1 Hdt) HT) as (s & Es & HSe).
  { rewrite HL. eapply EX; eauto. } { auto. }
  destruct (cycles_run tmin tcod dt nm m w E HB HN HL Hdt Htc Htm _ cs T eq_refl HT Hok) as (ps & rs & A1 & A2 & A3 & A4 & A5 & A6 & A7).
  assert (XN : forall n, n <> mm_input m -> n <> mm_recall m -> ext_spikes (exts enc (cy_stims m cs)) n = []).
  { intros n N1 N2. unfold ext_spikes. rewrite filter_none; [reflexivity|]. intros pp Hpp. apply in_flat_map in Hpp as (x & Hx & Hp). apply in_flat_map in Hx as (c & Hc & Hx).
    cbn [In] in Hx. apply Nat.eqb_neq. destruct Hx as [<-|[<-|[]]]; cbn [stim_ext In] in Hp; [destruct Hp as [<-|[<-|[]]]|destruct Hp as [<-|[]]]; cbn [fst]; auto. }
  exists m, s, (map (st_pair dt) ps), (map (fun r => INR r * dt) rs). split; [exact Es|]. split; [|split; [auto|split; [|auto]]].
  - rewrite (se_log _ _ _ _ _ _ _ _ HSe (mm_output m) (flat ps)); auto; [|lia|apply XN; lia].
    unfold times, pairs, flat. clear. induction ps as [|p ps IH]; [reflexivity|]. cbn [flat_map map app st_pair fst snd]. rewrite IH. reflexivity.
  - rewrite (se_log _ _ _ _ _ _ _ _ HSe (mm_ready m) rs); auto; [lia|apply XN; lia].
Qed.
