(** SynchronizerNetwork on PredSimulator (C56). *)
From Coq Require Import Arith ZArith Bool List Reals Lra Lia Permutation Sorted.
From Verif Require Import Num NumOrd Heapq Elements Networks CancelQueue PredSim PredNeuron NeuronLib NetLib Build BuildNets Trace SimTrace TraceProps Bridge Session SimpleNets InvMem PredProofs PredRun PredNet PredMem PredGroup PredSub PredSimple.
Import ListNotations.
Open Scope list_scope.
Open Scope R_scope.

(** ** the neurons of a memory whose input arrives at a and a + iv and which is recalled at tr *)
Section Cell.
Variables tmin tcod dt a iv tr : R.
Hypothesis Hdt : 0 < dt. Hypothesis HM : (horizon dt < 2 ^ 64)%Z. Hypothesis Hd5 : tmin + tcod + 2 * dt <= 500.
Hypothesis Htc : 0 < tcod. Hypothesis Htm : 1 < tmin. Hypothesis Htd : dt < tmin. Hypothesis Ha : 0 <= a.
Definition cw : R := 1000 / (tmin + tcod).
Definition cg : R := INR (step_at dt (tmin + tcod)) * dt.
Hypothesis Hiv : tmin <= iv <= cg.
Definition ck : R := INR (step_at dt (tmin + tcod - (cg - iv))) * dt.
Lemma cg_b : tmin + tcod <= cg < tmin + tcod + dt.
Proof. pose proof (step_at_bounds dt (tmin + tcod) Hdt ltac:(lra)) as HB. unfold cg. lra. Qed.
Lemma ck_b : tmin + tcod - (cg - iv) <= ck < tmin + tcod - (cg - iv) + dt /\ 0 <= cg - iv < tmin + tcod.
Proof. pose proof cg_b. pose proof (step_at_bounds dt (tmin + tcod - (cg - iv)) Hdt ltac:(lra)) as HB. unfold ck. lra. Qed.
Lemma cw_pos : 0 < cw. Proof. unfold cw. apply Rdiv_lt_0_compat; lra. Qed.
Lemma cw_ramp0 : ramp dt 0 cw = step_at dt (tmin + tcod).
Proof. unfold ramp. f_equal. unfold cw. field. lra. Qed.
Lemma cell_first : resp dt rest0 [(a + 1, (SynV, 10)); (a + iv + 1, (SynV, 10)); (a + 1 + 1, (SynV, -10))] [a + 1].
Proof. rewrite rest0_pn. rfire Hdt HM (@nil (R * (syntype * R))) [(a + 1, (SynV, 10))] [(a + iv + 1, (SynV, 10)); (a + 1 + 1, (SynV, -10))]. rsilent Hdt HM. Qed.
Lemma cell_acc : resp dt rest0 [(a + 1 + 1, (SynGe, cw))] [a + 2 + cg].
Proof.
  pose proof cg_b. pose proof cw_pos. exists [(a + 2, [(SynGe, cw)])]. split; [sorted|]. split; [intros h [<-|[]]; discriminate|]. split; [cbn; perms|]. rewrite rest0_pn.
  eapply (r_hit dt Hdt HM) with (v' := 0) (g' := cw); [lra|left; lra|wsums; ring|wsums; ring|wsums; lra|wsums; lra|].
  eapply r_ramp; auto; [lra|rewrite cw_ramp0; reflexivity|rewrite cw_ramp0; fold cg; lra|intros h []|apply r_end; auto; lra].
Qed.
Hypothesis Htr : a + cg + 2 < tr.
Lemma cell_acc2 : resp dt rest0 [(a + iv + 3, (SynGe, cw)); (a + 3 + cg, (SynGe, - cw)); (tr + 1, (SynGe, cw))] [tr + 1 + ck].
Proof.
  pose proof cg_b as Hg. pose proof ck_b as [Hk Hd]. pose proof cw_pos as Hw.
  set (v := 10 * (cg - iv) / (tmin + tcod)).
  assert (Hv : v < 10).
  { unfold v. apply Rmult_lt_reg_r with (tmin + tcod); [lra|]. unfold Rdiv. rewrite Rmult_assoc, Rinv_l by lra. lra. }
  assert (ER : INR (ramp dt v cw) * dt = ck).
  { unfold ramp, ck. f_equal. f_equal. f_equal. unfold v, cw. field. lra. }
  assert (FIN : nat_run dt (pn v cw (tr + 1)) [] [tr + 1 + ck]).
  { eapply r_ramp; eauto; [rewrite ER; reflexivity|rewrite ER; lra|intros h []|apply r_end; auto; lra]. }
  destruct (Req_dec cg iv) as [E0|E0].
  - exists [(a + iv + 3, [(SynGe, cw); (SynGe, - cw)]); (tr + 1, [(SynGe, cw)])]. split; [sorted; lra|]. split; [intros h [<-|[<-|[]]]; discriminate|]. split; [cbn; perms|]. rewrite rest0_pn.
    eapply (r_hit dt Hdt HM) with (v' := 0) (g' := 0); [lra|left; lra|wsums; ring|wsums; ring|wsums; lra|wsums; lra|].
    eapply (r_hit dt Hdt HM) with (v' := v) (g' := cw); [wsums; lra|left; wsums; lra|wsums; ring|wsums; ring| |wsums; lra|exact FIN].
    wsums. unfold v. rewrite E0. unfold Rdiv. ring.
  - exists [(a + iv + 3, [(SynGe, cw)]); (a + 3 + cg, [(SynGe, - cw)]); (tr + 1, [(SynGe, cw)])]. split; [sorted; lra|]. split; [intros h [<-|[<-|[<-|[]]]]; discriminate|]. split; [cbn; perms|]. rewrite rest0_pn.
    eapply (r_hit dt Hdt HM) with (v' := 0) (g' := cw); [lra|left; lra|wsums; ring|wsums; ring|wsums; lra|wsums; lra|].
    eapply (r_hit dt Hdt HM) with (v' := v) (g' := 0); [wsums; lra| |wsums; ring|wsums; ring| |wsums; lra|].
    + right. rewrite cw_ramp0. fold cg. lra.
    + wsums. unfold v, cw. field. lra.
    + eapply (r_hit dt Hdt HM) with (v' := v) (g' := cw); [exact Hv|left; lra|wsums; ring|wsums; ring|wsums; lra|wsums; lra|exact FIN].
Qed.
End Cell.

(** ** hits from the synapses of a subnetwork *)
Definition recv (L : list (synapse R)) (F : nat -> list R) (n : nat) : list (R * (syntype * R)) :=
  flat_map (fun y => if (s_post y =? n)%nat then map (fun t => (t + s_delay y, (s_ty y, s_w y))) (F (s_pre y)) else []) L.
Definition insof (ins : list (nat * R)) (n : nat) : list (R * (syntype * R)) := flat_map (fun p => if (fst p =? n)%nat then [(snd p, (SynV, 10))] else []) ins.
Lemma received_split L ins F n : received 10 L ins F n = insof ins n ++ recv L F n. Proof. reflexivity. Qed.
Lemma recv_app L1 L2 F n : recv (L1 ++ L2) F n = recv L1 F n ++ recv L2 F n. Proof. apply flat_map_app. Qed.
Lemma recv_fm {A} (f : A -> list (synapse R)) l F n : recv (flat_map f l) F n = flat_map (fun x => recv (f x) F n) l. Proof. apply fm_fm. Qed.
Definition shs (b : nat) (y : synapse R) : synapse R := syn (s_pre y + b) (s_post y + b) (s_ty y) (s_w y) (s_delay y).
Lemma recv_shift b L F r : recv (map (shs b) L) F (r + b) = recv L (fun i => F (i + b)%nat) r.
Proof.
  induction L as [|y L IH]; auto. unfold recv in *. cbn [map flat_map]. rewrite IH. f_equal. cbn [shs syn s_post s_pre s_delay s_ty s_w].
  destruct (Nat.eqb_spec (s_post y + b) (r + b)), (Nat.eqb_spec (s_post y) r); auto; lia.
Qed.
Lemma recv_out L F n : (forall y, In y L -> s_post y <> n) -> recv L F n = [].
Proof.
  intros H. induction L as [|y L IH]; auto. unfold recv in *. cbn [flat_map]. rewrite IH by (intros; apply H; right; auto).
  destruct (Nat.eqb_spec (s_post y) n); auto. destruct (H y (or_introl eq_refl)); auto.
Qed.
Lemma fm_only {A B} (f : A -> list B) (d : A) : forall l k, (k < length l)%nat -> (forall j, (j < length l)%nat -> j <> k -> f (nth j l d) = []) -> flat_map f l = f (nth k l d).
Proof.
  induction l as [|a l IH]; intros k Hk H; cbn in Hk; [lia|]. cbn [flat_map]. destruct k as [|k].
  - cbn [nth]. replace (flat_map f l) with (@nil B); [apply app_nil_r|]. symmetry. clear IH Hk.
    assert (H' : forall x, In x l -> f x = []).
    { intros x Hx. apply (In_nth _ _ d) in Hx as (j & Hj & <-). apply (H (S j)); cbn; lia. }
    clear H. induction l as [|b l IH]; auto. cbn. rewrite H', IH; auto; [|left; auto]. intros; apply H'; right; auto.
  - change a with (nth 0 (a :: l) d) at 1. rewrite (H 0%nat) by (cbn; lia). cbn [app nth]. apply IH; [lia|]. intros j Hj Hn. apply (H (S j)); cbn; lia.
Qed.
Lemma fm_none {A B} (f : A -> list B) l : (forall x, In x l -> f x = []) -> flat_map f l = [].
Proof. induction l as [|a l IH]; intros H; auto. cbn. rewrite H by (left; auto). apply IH. intros; apply H; right; auto. Qed.
Lemma fm_ext_in {A B} (f g : A -> list B) l : (forall x, In x l -> f x = g x) -> flat_map f l = flat_map g l.
Proof. induction l as [|a l IH]; intros H; auto. cbn. rewrite H by (left; auto). f_equal. apply IH. intros; apply H; right; auto. Qed.
Lemma fm_seq_only {B} (f : nat -> list B) N k : (k < N)%nat -> (forall j, (j < N)%nat -> j <> k -> f j = []) -> flat_map f (seq 0 N) = f k.
Proof.
  intros Hk H. rewrite (fm_only f 0%nat _ k); [rewrite seq_nth; auto|rewrite seq_length; auto|].
  rewrite seq_length. intros j Hj Hn. rewrite seq_nth by auto. apply H; auto.
Qed.

(** ** one channel: input 0, output 1, memory 2..9; released by neuron z *)
Definition ch_local (w : R) : list (synapse R) :=
  [syn 2 3 SynV 10 1; syn 2 4 SynV 5 1; syn 3 3 SynV (-10) 1; syn 3 5 SynGe w 1; syn 4 6 SynGe w 2; syn 5 6 SynGe (- w) 1;
   syn 7 6 SynGe w 1; syn 7 9 SynV 10 2; syn 6 9 SynV 10 1; syn 5 8 SynV 10 1; syn 0 2 SynV 10 1; syn 9 1 SynV 10 1].
Definition ch_syns (w ws : R) (z b : nat) : list (synapse R) := map (shs b) (ch_local w) ++ [syn (8 + b) z SynV ws 1; syn z (7 + b) SynV 10 1].
Definition ch_at (b : nat) : cell := (b, S b, Build_memory_net 0 (2 + b) (3 + b) (4 + b) (5 + b) (6 + b) (7 + b) (8 + b) (9 + b)).
Lemma ch_syns_R tmin tcod N z b c : tmin + tcod <> 0 -> c_in c = b -> c_out c = S b -> mm_nodes (c_mem c) = seq (2 + b) 8 ->
  cell_syns (DataEncoder tmin tcod) N z c = ch_syns (cw tmin tcod) (10 / INR N + / 10000) z b.
Proof.
  intros HT H1 H2 H3. destruct c as [[c1 c2] [a i0 i1 i2 i3 i4 i5 i6 i7]]. cbn [c_in c_out c_mem fst snd] in *. subst c1 c2.
  unfold mm_nodes in H3. cbn in H3. injection H3 as -> -> -> -> -> -> -> ->.
  unfold cell_syns, ch_syns, mm_syns, ch_local, sync_w. cbn [c_in c_out c_mem fst snd mm_input mm_first mm_last mm_acc mm_acc2 mm_recall mm_ready mm_output map app shs syn s_pre s_post s_ty s_w s_delay Nat.add].
  rewrite wacc_R. consts. fold (cw tmin tcod). rewrite <- INR_IZR_INZ.
  unfold shs, syn. cbn [s_pre s_post s_ty s_w s_delay Nat.add]. repeat (f_equal; try lra).
Qed.
(** A: when the input arrives and how long its interval is, if at all; S: when the channels are released, if at all *)
Section Channel.
Variables tmin tcod dt : R.
Hypothesis Hdt : 0 < dt. Hypothesis HM : (horizon dt < 2 ^ 64)%Z. Hypothesis Hd5 : tmin + tcod + 2 * dt <= 500.
Hypothesis Htc : 0 < tcod. Hypothesis Htm : 1 < tmin. Hypothesis Htd : dt < tmin.
Local Notation g := (cg tmin tcod dt).
Local Notation w := (cw tmin tcod).
Definition held (A : option (R * R)) : R := match A with Some (_, iv) => ck tmin tcod dt iv | None => g end.
Definition chF (A : option (R * R)) (S : option R) (r : nat) : list R :=
  match r, A, S with
  | 0%nat, Some (a, iv), _ => [a; a + iv]
  | 1%nat, _, Some s => [s + 4; s + 4 + held A]
  | 2%nat, Some (a, iv), _ => [a + 1; a + iv + 1]
  | 3%nat, Some (a, iv), _ => [a + 2]
  | 4%nat, Some (a, iv), _ => [a + iv + 2]
  | 5%nat, Some (a, iv), _ => [a + 3 + g]
  | 6%nat, _, Some s => [s + 2 + held A]
  | 7%nat, _, Some s => [s + 1]
  | 8%nat, Some (a, iv), _ => [a + 4 + g]
  | 9%nat, _, Some s => [s + 3; s + 3 + held A]
  | _, _, _ => []
  end.
Definition ch_in (A : option (R * R)) (S : option R) (r : nat) : list (R * (syntype * R)) :=
  match r, A, S with
  | 0%nat, Some (a, iv), _ => [(a, (SynV, 10)); (a + iv, (SynV, 10))]
  | 7%nat, _, Some s => [(s + 1, (SynV, 10))]
  | _, _, _ => []
  end.
Definition ch_ok (A : option (R * R)) (S : option R) : Prop :=
  (forall a iv, A = Some (a, iv) -> 0 <= a /\ tmin <= iv <= g) /\ (forall s, S = Some s -> 0 <= s /\ forall a iv, A = Some (a, iv) -> a + g + 5 <= s).
Lemma held_b A S : ch_ok A S -> 0 < held A < tmin + tcod + dt.
Proof.
  intros [H1 _]. pose proof (cg_b tmin tcod dt Hdt Htc Htm) as Hg. destruct A as [[a iv]|]; cbn [held]; [|lra].
  destruct (H1 a iv eq_refl) as [_ Hi]. pose proof (ck_b tmin tcod dt iv Hdt Htc Htm Htd Hi). lra.
Qed.
Lemma ch_resp A S r : ch_ok A S -> (r < 10)%nat -> resp dt rest0 (ch_in A S r ++ recv (ch_local w) (chF A S) r) (chF A S r).
Proof.
  intros HO Hr. pose proof (held_b A S HO) as Hh. destruct HO as [HA HS].
  pose proof (cg_b tmin tcod dt Hdt Htc Htm) as Hg. pose proof (cw_pos tmin tcod Htc Htm) as Hw. assert (Hd : dt <= 500) by lra.
  assert (ACC2 : forall s, S = Some s -> A = None -> resp dt rest0 [(s + 1 + 1, (SynGe, w))] [s + 2 + g]).
  { intros s -> ->. apply (cell_acc tmin tcod dt s); auto. }
  assert (SIL : forall a iv, A = Some (a, iv) -> resp dt rest0 [(a + iv + 2 + 2, (SynGe, w)); (a + 3 + g + 1, (SynGe, - w))] []).
  { intros a iv E. destruct (HA a iv E) as [Ha Hi]. destruct (Req_dec g iv) as [E0|E0].
    - exists [(a + iv + 4, [(SynGe, w); (SynGe, - w)])]. split; [sorted; lra|]. split; [intros h [<-|[]]; discriminate|]. split; [cbn; perms|]. rewrite rest0_pn.
      eapply (r_hit dt Hdt HM) with (v' := 0) (g' := 0); [lra|left; lra|wsums; ring|wsums; ring|wsums; lra|wsums; lra|]. apply r_end; auto; lra.
    - exists [(a + iv + 4, [(SynGe, w)]); (a + 4 + g, [(SynGe, - w)])]. split; [sorted; lra|]. split; [intros h [<-|[<-|[]]]; discriminate|]. split; [cbn; perms|]. rewrite rest0_pn.
      set (v := 10 * (g - iv) / (tmin + tcod)).
      assert (Hv : v < 10). { unfold v. apply Rmult_lt_reg_r with (tmin + tcod); [lra|]. unfold Rdiv. rewrite Rmult_assoc, Rinv_l by lra. lra. }
      eapply (r_hit dt Hdt HM) with (v' := 0) (g' := w); [lra|left; lra|wsums; ring|wsums; ring|wsums; lra|wsums; lra|].
      eapply (r_hit dt Hdt HM) with (v' := v) (g' := 0); [wsums; lra| |wsums; ring|wsums; ring| |wsums; lra|apply r_end; auto; lra].
      + right. rewrite (cw_ramp0 tmin tcod dt Htc Htm). fold g. lra.
      + wsums. unfold v, cw. field. lra. }
  assert (ACC2' : forall a iv s, S = Some s -> A = Some (a, iv) -> resp dt rest0 [(a + iv + 2 + 2, (SynGe, w)); (a + 3 + g + 1, (SynGe, - w)); (s + 1 + 1, (SynGe, w))] [s + 2 + held A]).
  { intros a iv s ES EA. destruct (HA a iv EA) as [Ha Hi]. destruct (HS s ES) as [Hs Hs']. specialize (Hs' a iv EA). rewrite EA. cbn [held].
    replace (s + 2 + ck tmin tcod dt iv) with (s + 1 + 1 + ck tmin tcod dt iv) by lra.
    eapply resp_perm; [|apply (cell_acc2 tmin tcod dt (a + 1) iv (s + 1)); auto; lra]. perms. }
  destruct A as [[a iv]|], S as [s|].
  - destruct (HA a iv eq_refl) as [Ha Hi]. destruct (HS s eq_refl) as [Hs Hs']. specialize (Hs' a iv eq_refl).
    destruct r as [|[|[|[|[|[|[|[|[|[|r]]]]]]]]]]; [..|exfalso; lia];
      unfold recv, ch_local; cbn [ch_in flat_map syn s_post s_pre s_ty s_w s_delay Nat.eqb fst snd app map chF].
    + apply relay2; auto; lra.
    + eapply resp_perm; [|apply (relay2 dt Hdt HM Hd (s + 4) (s + 4 + held (Some (a, iv)))); lra]. perms.
    + eapply resp_perm; [|apply (relay2 dt Hdt HM Hd (a + 1) (a + iv + 1)); lra]. perms.
    + eapply resp_perm; [|replace (a + 2) with (a + 1 + 1) by lra; apply (cell_first tmin tcod dt (a + 1) iv); auto; lra]. perms.
    + eapply resp_perm; [|replace (a + iv + 2) with (a + iv + 1 + 1) by lra; apply (half2 dt Hdt HM Hd (a + 1 + 1) (a + iv + 1 + 1)); lra]. perms.
    + replace (a + 3 + g) with (a + 1 + 2 + g) by lra. eapply resp_perm; [|apply (cell_acc tmin tcod dt (a + 1)); auto; lra]. perms.
    + apply ACC2'; auto.
    + apply relay1; auto; lra.
    + eapply resp_perm; [|apply (relay1 dt (a + 4 + g)); auto; lra]. perms.
    + eapply resp_perm; [|apply (relay2 dt Hdt HM Hd (s + 3) (s + 3 + held (Some (a, iv)))); lra]. perms.
  - destruct (HA a iv eq_refl) as [Ha Hi].
    destruct r as [|[|[|[|[|[|[|[|[|[|r]]]]]]]]]]; [..|exfalso; lia];
      unfold recv, ch_local; cbn [ch_in flat_map syn s_post s_pre s_ty s_w s_delay Nat.eqb fst snd app map chF]; try (apply none; auto; fail).
    + apply relay2; auto; lra.
    + eapply resp_perm; [|apply (relay2 dt Hdt HM Hd (a + 1) (a + iv + 1)); lra]. perms.
    + eapply resp_perm; [|replace (a + 2) with (a + 1 + 1) by lra; apply (cell_first tmin tcod dt (a + 1) iv); auto; lra]. perms.
    + eapply resp_perm; [|replace (a + iv + 2) with (a + iv + 1 + 1) by lra; apply (half2 dt Hdt HM Hd (a + 1 + 1) (a + iv + 1 + 1)); lra]. perms.
    + replace (a + 3 + g) with (a + 1 + 2 + g) by lra. eapply resp_perm; [|apply (cell_acc tmin tcod dt (a + 1)); auto; lra]. perms.
    + apply (SIL a iv); auto.
    + eapply resp_perm; [|apply (relay1 dt (a + 4 + g)); auto; lra]. perms.
  - destruct (HS s eq_refl) as [Hs _]. cbn [held] in Hh.
    destruct r as [|[|[|[|[|[|[|[|[|[|r]]]]]]]]]]; [..|exfalso; lia];
      unfold recv, ch_local; cbn [ch_in flat_map syn s_post s_pre s_ty s_w s_delay Nat.eqb fst snd app map chF held]; try (apply none; auto; fail).
    + eapply resp_perm; [|apply (relay2 dt Hdt HM Hd (s + 4) (s + 4 + g)); lra]. perms.
    + apply ACC2; auto.
    + apply relay1; auto; lra.
    + eapply resp_perm; [|apply (relay2 dt Hdt HM Hd (s + 3) (s + 3 + g)); lra]. perms.
  - destruct r as [|[|[|[|[|[|[|[|[|[|r]]]]]]]]]]; [..|exfalso; lia];
      unfold recv, ch_local; cbn [ch_in flat_map syn s_post s_pre s_ty s_w s_delay Nat.eqb fst snd app map chF]; apply none; auto.
Qed.
End Channel.

(** ** the network *)
Lemma recv_ext L F G n : (forall y, In y L -> F (s_pre y) = G (s_pre y)) -> recv L F n = recv L G n.
Proof.
  intros H. induction L as [|y L IH]; auto. unfold recv in *. cbn [flat_map]. rewrite IH by (intros; apply H; right; auto). rewrite (H y (or_introl eq_refl)). reflexivity.
Qed.
Definition optl (S : option R) : list R := match S with Some s => [s] | None => [] end.
Lemma ch_local_b w y : In y (ch_local w) -> (s_pre y < 10 /\ s_post y < 10)%nat.
Proof. intros H. cbn in H. repeat (destruct H as [<-|H]; [cbn; lia|]). destruct H. Qed.
(** what a channel at b delivers *)
Lemma recv_ch_out w ws z b F n : (n < b \/ 10 + b <= n)%nat -> n <> z -> recv (ch_syns w ws z b) F n = [].
Proof.
  intros Hn Hz. apply recv_out. intros y Hy. unfold ch_syns in Hy. apply in_app_or in Hy as [Hy|Hy].
  - apply in_map_iff in Hy as (x & <- & Hx). apply ch_local_b in Hx. cbn. lia.
  - destruct Hy as [<-|[<-|[]]]; cbn; lia.
Qed.
Lemma recv_ch_z w ws z b F : (z < b)%nat -> recv (ch_syns w ws z b) F z = map (fun t => (t + 1, (SynV, ws))) (F (8 + b)%nat).
Proof.
  intros Hz. unfold ch_syns. rewrite recv_app, recv_out.
  - unfold recv. cbn [app flat_map syn s_post s_pre s_ty s_w s_delay]. rewrite Nat.eqb_refl. destruct (Nat.eqb_spec (7 + b) z); [lia|]. rewrite !app_nil_r. reflexivity.
  - intros y Hy. apply in_map_iff in Hy as (x & <- & Hx). cbn. lia.
Qed.
Lemma recv_ch_in w ws z b F G r : (z < b)%nat -> (r < 10)%nat -> (forall i, (i < 10)%nat -> F (i + b)%nat = G i) ->
  recv (ch_syns w ws z b) F (r + b) = recv (ch_local w) G r ++ (if (r =? 7)%nat then map (fun t => (t + 1, (SynV, 10))) (F z) else []).
Proof.
  intros Hz Hr HF. unfold ch_syns. rewrite recv_app, recv_shift. f_equal.
  - apply recv_ext. intros y Hy. apply HF. apply ch_local_b in Hy. lia.
  - unfold recv. cbn [flat_map syn s_post s_pre s_ty s_w s_delay]. destruct (Nat.eqb_spec z (r + b)); [lia|].
    destruct (Nat.eqb_spec (7 + b) (r + b)), (Nat.eqb_spec r 7); try lia; rewrite ?app_nil_r; reflexivity.
Qed.
Section Sync.
Variables tmin tcod dt : R. Variable N : nat. Variable A : nat -> option (R * R). Variable S : option R. Variable ins : list (nat * R).
Hypothesis Hdt : 0 < dt. Hypothesis HM : (horizon dt < 2 ^ 64)%Z. Hypothesis Hd5 : tmin + tcod + 2 * dt <= 500.
Hypothesis Htc : 0 < tcod. Hypothesis Htm : 1 < tmin. Hypothesis Htd : dt < tmin.
Hypothesis HA : forall k, (k < N)%nat -> ch_ok tmin tcod dt (A k) S.
Hypothesis HI : forall k, (k < N)%nat -> Permutation (ch_in (A k) S 0) (insof ins (1 + 10 * k)).
Hypothesis HI0 : forall n, (forall k, (k < N)%nat -> n <> (1 + 10 * k)%nat) -> insof ins n = [].
Let ws := 10 / INR N + / 10000.
Definition sync_hits : list (R * (syntype * R)) :=
  flat_map (fun k => match A k with Some (a, iv) => [(a + 4 + cg tmin tcod dt + 1, (SynV, ws))] | None => [] end) (seq 0 N).
Hypothesis HS : resp dt rest0 sync_hits (optl S).
Definition sy_F (n : nat) : list R := match n with 0%nat => optl S | Datatypes.S m => chF tmin tcod dt (A (m / 10)) S (m mod 10) end.
Lemma sy_F_ch k i : (i < 10)%nat -> sy_F (i + (1 + 10 * k)) = chF tmin tcod dt (A k) S i.
Proof.
  intros Hi. replace (i + (1 + 10 * k))%nat with (Datatypes.S (i + k * 10)) by lia. cbn [sy_F].
  rewrite Nat.div_add, Nat.mod_add by lia. rewrite Nat.div_small, Nat.mod_small by auto. reflexivity.
Qed.
Definition sy_L : list (synapse R) := flat_map (fun k => ch_syns (cw tmin tcod) ws 0 (1 + 10 * k)) (seq 0 N).
Lemma sy_resp n : (n < 1 + 10 * N)%nat -> resp dt rest0 (received 10 sy_L ins sy_F n) (sy_F n).
Proof.
  intros Hn. rewrite received_split. unfold sy_L. rewrite recv_fm. destruct (Nat.eq_dec n 0) as [->|H0].
  - rewrite HI0 by (intros; lia). cbn [app]. eapply resp_perm; [|exact HS]. unfold sync_hits. apply fm_perm. intros k Hk.
    rewrite recv_ch_z by lia. rewrite (sy_F_ch k 8) by lia. cbn [chF]. destruct (A k) as [[a iv]|]; cbn [map]; apply Permutation_refl.
  - set (k := ((n - 1) / 10)%nat). set (r := ((n - 1) mod 10)%nat).
    assert (Hr : (r < 10)%nat) by (apply Nat.mod_upper_bound; lia).
    assert (En : n = (r + (1 + 10 * k))%nat) by (pose proof (Nat.div_mod (n - 1) 10 ltac:(lia)); fold k r in H; lia).
    assert (Hk : (k < N)%nat) by lia. rewrite En.
    rewrite (fm_seq_only _ N k Hk) by (intros j Hj Hjk; apply recv_ch_out; lia).
    rewrite (recv_ch_in _ _ 0 (1 + 10 * k) sy_F (chF tmin tcod dt (A k) S) r); [|lia|auto|intros i Hi; apply sy_F_ch; auto].
    rewrite sy_F_ch by auto. eapply resp_perm; [|apply (ch_resp tmin tcod dt Hdt HM Hd5 Htc Htm Htd (A k) S r); auto].
    destruct (Nat.eq_dec r 0) as [E0|E0].
    + rewrite E0. cbn [Nat.eqb]. change (recv (ch_local (cw tmin tcod)) (chF tmin tcod dt (A k) S) 0) with (@nil (R * (syntype * R))). rewrite !app_nil_r. apply HI; auto.
    + rewrite HI0 by (intros; lia). cbn [app]. destruct (Nat.eqb_spec r 7) as [->|E7].
      * cbn [ch_in sy_F]. destruct (A k) as [[a iv]|]; destruct S; cbn [optl map]; rewrite ?app_nil_r; try apply Permutation_refl; apply Permutation_app_comm.
      * rewrite app_nil_r. destruct r as [|[|[|[|[|[|[|[|[|[|r']]]]]]]]]]; try lia; destruct (A k) as [[a iv]|]; cbn [ch_in app]; apply Permutation_refl.
Qed.
End Sync.

(** ** the release neuron: equal V hits *)
Section Release.
Variables dt ws : R.
Hypothesis Hdt : 0 < dt. Hypothesis HM : (horizon dt < 2 ^ 64)%Z. Hypothesis Hd5 : dt <= 500. Hypothesis Hw : 0 < ws.
Definition whit (h : R * (syntype * R)) : Prop := 0 <= fst h /\ snd h = (SynV, ws).
Lemma U_count H s : (forall h, In h H -> whit h) -> U H s <= INR (length H) * ws.
Proof.
  induction H as [|h H IH]; intros HH; [unfold U, sumf, sumR; cbn; lra|]. unfold U in *. rewrite sumf_cons. change (length (h :: H)) with (S (length H)). rewrite S_INR.
  specialize (IH (fun e He => HH e (or_intror He))). destruct (HH h (or_introl eq_refl)) as [_ E]. unfold infl in *. rewrite E. cbn [fst snd]. destruct (Rle_dec (fst h) s); lra.
Qed.
Lemma U_all H s : (forall h, In h H -> whit h /\ fst h <= s) -> U H s = INR (length H) * ws.
Proof.
  induction H as [|h H IH]; intros HH; [unfold U, sumf, sumR; cbn; lra|]. unfold U in *. rewrite sumf_cons. change (length (h :: H)) with (S (length H)). rewrite S_INR.
  specialize (IH (fun e He => HH e (or_intror He))). destruct (HH h (or_introl eq_refl)) as [[_ E] Hs]. unfold infl in *. rewrite E. cbn [fst snd]. destruct (Rle_dec (fst h) s); lra.
Qed.
Lemma release_silent H : (forall h, In h H -> whit h) -> INR (length H) * ws < 10 -> resp dt rest0 H [].
Proof.
  intros HH HL. rewrite rest0_pn. apply resp_silent; auto; [|lra|].
  - intros h Hh. destruct (HH h Hh) as [X Y]. split; auto. unfold vonly. rewrite Y. reflexivity.
  - intros t _. pose proof (U_count H t HH). lra.
Qed.
Lemma release_fire H tm : (forall h, In h H -> whit h /\ fst h <= tm) -> (exists h, In h H /\ fst h = tm) -> 10 <= INR (length H) * ws ->
  INR (length H - 1) * ws < 10 \/ (forall h, In h H -> fst h = tm) -> resp dt rest0 H [tm].
Proof.
  intros HH (hm & Hm & Em) HL HC. set (f := fun h : R * (syntype * R) => if Rlt_dec (fst h) tm then true else false).
  set (A := filter f H). set (G := filter (fun h => negb (f h)) H).
  assert (HP : Permutation H (A ++ G)) by apply filter_split.
  assert (HA : forall h, In h A -> whit h /\ fst h < tm).
  { intros h Hh. apply filter_In in Hh as [Hh E]. unfold f in E. destruct (Rlt_dec (fst h) tm); [|discriminate]. split; auto. apply HH; auto. }
  assert (HG : forall h, In h G -> whit h /\ fst h = tm).
  { intros h Hh. apply filter_In in Hh as [Hh E]. unfold f in E. destruct (Rlt_dec (fst h) tm); [discriminate|]. destruct (HH h Hh). split; auto. lra. }
  assert (HmG : In hm G). { apply filter_In. split; auto. unfold f. destruct (Rlt_dec (fst hm) tm); auto. lra. }
  pose proof (Permutation_length HP) as Hlen. rewrite app_length in Hlen.
  assert (HGl : (1 <= length G)%nat) by (destruct G; [destruct HmG|cbn; lia]).
  assert (HAl : INR (length A) * ws < 10).
  { destruct HC as [HC|HC].
    - apply Rle_lt_trans with (INR (length H - 1) * ws); auto. apply Rmult_le_compat_r; [lra|]. apply le_INR. lia.
    - destruct A as [|a A']; [cbn; lra|]. exfalso. destruct (HA a (or_introl eq_refl)) as [_ Ha]. rewrite (HC a) in Ha; [lra|]. apply (Permutation_in _ (Permutation_sym HP)). left. auto. }
  assert (H0 : 0 <= tm) by (destruct (HH hm Hm) as [[X _] _]; lra).
  rewrite rest0_pn. eapply resp_perm; [symmetry; rewrite <- (app_nil_r G) in HP; exact HP|].
  apply (resp_fire dt Hdt HM A G []); auto; [|lra| | | | | |].
  - intros h Hh. destruct (HA h Hh) as [[X Y] Z]. repeat split; auto. unfold vonly. rewrite Y. reflexivity.
  - intros s _. assert (U A s <= INR (length A) * ws) by (apply U_count; intros h Hh; apply HA; auto). lra.
  - destruct G; [destruct HmG|discriminate].
  - intros h Hh. destruct (HG h Hh) as [[X Y] Z]. split; auto. unfold vonly. rewrite Y. reflexivity.
  - rewrite Rplus_0_l. rewrite <- U_app, U_all; [rewrite app_length, <- Hlen; auto|].
    intros h Hh. apply in_app_or in Hh as [Hh|Hh]; [destruct (HA h Hh)|destruct (HG h Hh)]; split; auto; lra.
  - intros h [].
  - apply resp_silent; auto; [intros h []|lra|intros; unfold U, sumf, sumR; cbn; lra].
Qed.
End Release.

(** ** sessions *)
Lemma cells_at_syns tmin tcod N z : tmin + tcod <> 0 -> forall cs b, cells_at b cs ->
  flat_map (cell_syns (DataEncoder tmin tcod) N z) cs = flat_map (fun k => ch_syns (cw tmin tcod) (10 / INR N + / 10000) z (b + 10 * k)) (seq 0 (length cs)).
Proof.
  intros HT. induction cs as [|c cs IH]; intros b HC; auto. cbn [cells_at] in HC. destruct HC as (H1 & H2 & H3 & HC).
  cbn [length seq flat_map]. rewrite (ch_syns_R tmin tcod N z b c HT H1 H2 H3), (IH _ HC). replace (b + 10 * 0)%nat with b by lia. f_equal.
  rewrite <- (seq_shift (length cs) 0), flat_map_concat_map, flat_map_concat_map, map_map. f_equal. apply map_ext. intros k. f_equal. lia.
Qed.
Lemma cells_at_nth : forall cs b k, cells_at b cs -> (k < length cs)%nat -> nth k (map c_in cs) 0%nat = (b + 10 * k)%nat /\ nth k (map c_out cs) 0%nat = (S b + 10 * k)%nat.
Proof.
  induction cs as [|c cs IH]; intros b k HC Hk; cbn in Hk; [lia|]. cbn [cells_at] in HC. destruct HC as (H1 & H2 & _ & HC). destruct k as [|k]; cbn [map nth].
  - lia.
  - destruct (IH _ k HC ltac:(lia)) as [-> ->]. lia.
Qed.
(** two spikes per given channel *)
Definition two_spikes (given : list nat) (p1 p2 : nat -> R) : list (nat * R) := flat_map (fun i => [((1 + 10 * i)%nat, p1 i); ((1 + 10 * i)%nat, p2 i)]) given.
Lemma insof_two given p1 p2 k : NoDup given -> insof (two_spikes given p1 p2) (1 + 10 * k) = if in_dec Nat.eq_dec k given then [(p1 k, (SynV, 10)); (p2 k, (SynV, 10))] else [].
Proof.
  induction given as [|i l IH]; intros ND; [reflexivity|]. apply NoDup_cons_iff in ND as [Hi ND]. specialize (IH ND).
  unfold insof, two_spikes in *. cbn [flat_map app]. cbn [fst snd]. rewrite IH. clear IH.
  destruct (Nat.eqb_spec (1 + 10 * i) (1 + 10 * k)) as [E|E].
  - assert (i = k) by lia. subst i. destruct (in_dec Nat.eq_dec k (k :: l)) as [_|C]; [|destruct C; left; auto]. destruct (in_dec Nat.eq_dec k l); [contradiction|reflexivity].
  - assert (i <> k) by lia. destruct (in_dec Nat.eq_dec k (i :: l)) as [C|C], (in_dec Nat.eq_dec k l) as [D|D]; cbn [app]; auto; destruct C; auto; try contradiction. right; auto.
Qed.
Lemma insof_two0 given p1 p2 n : (forall k, In k given -> n <> (1 + 10 * k)%nat) -> insof (two_spikes given p1 p2) n = [].
Proof.
  intros H. unfold insof, two_spikes. rewrite fm_fm. apply fm_none. intros k Hk. cbn [flat_map app fst]. specialize (H k Hk). destruct (Nat.eqb_spec (1 + 10 * k) n); [lia|reflexivity].
Qed.
Definition gv (given : list nat) (t iv : nat -> R) (k : nat) : option (R * R) := if in_dec Nat.eq_dec k given then Some (t k, iv k) else None.
Lemma sync_hits_len tmin tcod dt N given t iv : NoDup given -> (forall k, In k given -> (k < N)%nat) -> length (sync_hits tmin tcod dt N (gv given t iv)) = length given.
Proof.
  intros ND HI. unfold sync_hits. rewrite flat_map_concat_map.
  set (f := fun k => match gv given t iv k with Some (a, _) => [(a + 4 + cg tmin tcod dt + 1, (SynV, 10 / INR N + / 10000))] | None => [] end).
  assert (E : forall l, length (concat (map f l)) = length (filter (fun k => if in_dec Nat.eq_dec k given then true else false) l)).
  { induction l as [|k l IH]; auto. cbn [map concat filter]. rewrite app_length, IH. unfold f, gv. destruct (in_dec Nat.eq_dec k given); reflexivity. }
  rewrite E. apply Permutation_length. apply NoDup_Permutation; auto; [apply NoDup_filter, seq_NoDup|].
  intros k. rewrite filter_In, in_seq. destruct (in_dec Nat.eq_dec k given) as [C|C]; [|intuition congruence]. specialize (HI k C). intuition lia.
Qed.
Lemma sync_hits_in tmin tcod dt N given t iv h : In h (sync_hits tmin tcod dt N (gv given t iv)) -> exists k, In k given /\ h = (t k + 4 + cg tmin tcod dt + 1, (SynV, 10 / INR N + / 10000)).
Proof.
  intros H. unfold sync_hits in H. apply in_flat_map in H as (k & _ & H). unfold gv in H. destruct (in_dec Nat.eq_dec k given) as [C|C]; [|destruct H]. destruct H as [<-|[]]. eauto.
Qed.
Lemma sync_hits_has tmin tcod dt N given t iv k : In k given -> (k < N)%nat -> In (t k + 4 + cg tmin tcod dt + 1, (SynV, 10 / INR N + / 10000)) (sync_hits tmin tcod dt N (gv given t iv)).
Proof. intros H HN. unfold sync_hits. apply in_flat_map. exists k. split; [apply in_seq; lia|]. unfold gv. destruct (in_dec Nat.eq_dec k given); [left; auto|contradiction]. Qed.

Lemma sync_session (tmin tcod dt : R) (N : nat) given (t iv : nat -> R) S nm (st : sync_net -> list stim) :
  dt_ok dt -> 0 < tcod -> 1 < tmin -> dt < tmin -> tmin + tcod + 2 * dt <= 500 -> (1 <= N)%nat ->
  NoDup given -> (forall i, In i given -> (i < N)%nat /\ 0 <= t i /\ tmin <= iv i <= tmin + tcod) ->
  (forall m, length (sy_inputs m) = N -> (forall i, (i < N)%nat -> nth i (sy_inputs m) 0%nat = (1 + 10 * i)%nat) ->
     Forall (stim_ok (1 + 10 * N)) (st m) /\ pins (DataEncoder tmin tcod) (st m) = two_spikes given t (fun i => t i + iv i)) ->
  (forall s, S = Some s -> 0 <= s /\ forall i, In i given -> t i + cg tmin tcod dt + 5 <= s) ->
  resp dt rest0 (sync_hits tmin tcod dt N (gv given t iv)) (optl S) ->
  pruns (SynchronizerNetwork (DataEncoder tmin tcod) N nm) sy_mod (DataEncoder tmin tcod) dt st
    (fun m s => length (sy_outputs m) = N /\ forall i, (i < N)%nat -> pspike_log s (nth i (sy_outputs m) 0%nat) = chF tmin tcod dt (gv given t iv i) S 1).
Proof.
  intros HD Htc Htm Htd H5 HN ND HG HSt HS HR. destruct (dt_ok_horizon dt HD) as [Hdt HM]. set (enc := DataEncoder tmin tcod). assert (HT : tmin + tcod <> 0) by lra.
  destruct (Synchronizer_built enc N nm empty_world inv_empty (neq0 _ HT)) as (m & w & E & HB & Hz & HC & HL & Hi & Ho & _ & HW).
  cbn [w_neurons empty_world length Nat.add] in Hz, HC, HW.
  unfold sy_syns, enc in HB. rewrite (cells_at_syns tmin tcod N _ HT _ _ HC), HL, Hz in HB.
  assert (Hin : forall i, (i < N)%nat -> nth i (sy_inputs m) 0%nat = (1 + 10 * i)%nat) by (intros i Hlt; rewrite Hi; apply (cells_at_nth _ 1 i HC); lia).
  destruct (HSt m ltac:(rewrite Hi, map_length; auto) Hin) as [St1 St2].
  assert (HOk : forall k, (k < N)%nat -> ch_ok tmin tcod dt (gv given t iv k) S).
  { intros k Hk. unfold gv. destruct (in_dec Nat.eq_dec k given) as [C|C].
    - destruct (HG k C) as (X & Y & Z). pose proof (cg_b tmin tcod dt Hdt Htc Htm) as Hg. split; [intros a j EE; injection EE as <- <-; split; [auto|lra]|]. intros s ES. destruct (HS s ES) as [P Q]. split; auto. intros a j EE. injection EE as <- <-. auto.
    - split; [discriminate|]. intros s ES. destruct (HS s ES) as [P Q]. split; auto. discriminate. }
  edestruct (psession_resp (SynchronizerNetwork enc N nm) sy_mod m w _ enc dt st (sy_F tmin tcod dt (gv given t iv) S) E HB Hdt HM) as [M HRun].
  - rewrite HW. exact St1.
  - intros y Hy. apply in_flat_map in Hy as (k & _ & Hy). unfold ch_syns in Hy. apply in_app_or in Hy as [Hy|[<-|[<-|[]]]]; [|cbn; lra|cbn; lra].
    apply in_map_iff in Hy as (x & <- & Hx). cbn in Hx. repeat (destruct Hx as [<-|Hx]; [cbn; lra|]). destruct Hx.
  - rewrite HW. intros n Hn. fold enc in St2. rewrite St2. apply (sy_resp tmin tcod dt N (gv given t iv) S); auto.
    + intros k Hk. rewrite insof_two by auto. unfold gv. destruct (in_dec Nat.eq_dec k given); apply Permutation_refl.
    + intros n' Hn'. apply insof_two0. intros k Hk. apply Hn'. apply HG; auto.
  - exists M. intros fuel Hf. destruct (HRun fuel Hf) as (s & Es & HLg). exists m, s. split; [exact Es|]. split; [rewrite Ho, map_length; auto|].
    intros i Hlt. rewrite Ho. rewrite (proj2 (cells_at_nth _ 1 i HC ltac:(lia))). rewrite HLg by lia.
    replace (2 + 10 * i)%nat with (1 + (1 + 10 * i))%nat by lia. apply sy_F_ch. lia.
Qed.
Lemma ws_all N : (1 <= N)%nat -> 0 < 10 / INR N + / 10000 /\ 10 <= INR N * (10 / INR N + / 10000).
Proof.
  intros H. apply le_INR in H. cbn in H. assert (0 < 10 / INR N) by (apply Rdiv_lt_0_compat; lra). split; [lra|].
  replace (INR N * (10 / INR N + / 10000)) with (10 + INR N / 10000) by (field; lra). lra.
Qed.
Lemma ws_few N m : (1 <= N <= 316)%nat -> (m < N)%nat -> INR m * (10 / INR N + / 10000) < 10.
Proof.
  intros [H1 H2] H. destruct (ws_all N H1) as [Hp _]. apply le_INR in H1, H2. cbn in H1. rewrite (INR_IZR_INZ 316) in H2. cbn in H2.
  assert (Hm : INR m <= INR N - 1). { replace (INR N - 1) with (INR (N - 1)) by (rewrite minus_INR by lia; cbn; lra). apply le_INR. lia. }
  apply Rle_lt_trans with ((INR N - 1) * (10 / INR N + / 10000)); [apply Rmult_le_compat_r; lra|].
  apply Rmult_lt_reg_r with (INR N); [lra|]. replace ((INR N - 1) * (10 / INR N + / 10000) * INR N) with ((INR N - 1) * (10 + INR N / 10000)) by (field; lra).
  assert ((INR N - 1) * INR N <= 315 * 316) by (apply Rmult_le_compat; lra). lra.
Qed.
Lemma ws_many N : (317 <= N)%nat -> 10 <= INR (N - 1) * (10 / INR N + / 10000).
Proof.
  intros H. rewrite minus_INR by lia. apply le_INR in H. rewrite (INR_IZR_INZ 317) in H. cbn in H. change (INR 1) with 1.
  apply Rmult_le_reg_r with (INR N); [lra|]. replace ((INR N - 1) * (10 / INR N + / 10000) * INR N) with ((INR N - 1) * (10 + INR N / 10000)) by (field; lra).
  assert (316 * 317 <= (INR N - 1) * INR N) by (apply Rmult_le_compat; lra). lra.
Qed.
(** apply_input_spike twice per channel *)
Definition spike_pairs (given : list nat) (t iv : nat -> R) (m : sync_net) : list stim :=
  flat_map (fun i => [SSpike (nth i (sy_inputs m) 0%nat) (t i); SSpike (nth i (sy_inputs m) 0%nat) (t i + iv i)]) given.
Lemma spike_pairs_ok tmin tcod N given t iv m : (forall i, In i given -> (i < N)%nat /\ 0 <= t i /\ tmin <= iv i <= tmin + tcod) -> (forall i, (i < N)%nat -> nth i (sy_inputs m) 0%nat = (1 + 10 * i)%nat) ->
  0 < tmin -> Forall (stim_ok (1 + 10 * N)) (spike_pairs given t iv m) /\ pins (DataEncoder tmin tcod) (spike_pairs given t iv m) = two_spikes given t (fun i => t i + iv i).
Proof.
  intros HG Hin Htm. split.
  - apply Forall_forall. intros x Hx. apply in_flat_map in Hx as (i & Hi & Hx). destruct (HG i Hi) as (A1 & A2 & A3). rewrite Hin in Hx by auto.
    destruct Hx as [<-|[<-|[]]]; cbn; repeat split; try lra; lia.
  - unfold pins, spike_pairs, two_spikes. rewrite fm_fm. apply fm_ext_in. intros i Hi. rewrite Hin by (apply HG; auto). reflexivity.
Qed.
Lemma values_ok tmin tcod N given x t0 m : 0 < tcod -> (forall i, In i given -> (i < N)%nat /\ 0 <= x i <= 1) -> (forall i, (i < N)%nat -> nth i (sy_inputs m) 0%nat = (1 + 10 * i)%nat) ->
  Forall (stim_ok (1 + 10 * N)) (map (fun i => SValue (x i) (nth i (sy_inputs m) 0%nat) (t0 i)) given) /\
  pins (DataEncoder tmin tcod) (map (fun i => SValue (x i) (nth i (sy_inputs m) 0%nat) (t0 i)) given) = two_spikes given (fun _ => 0) (fun i => 0 + (tmin + x i * tcod)).
Proof.
  intros Htc HG Hin. split.
  - apply Forall_forall. intros y Hy. apply in_map_iff in Hy as (i & <- & Hi). destruct (HG i Hi) as (A1 & A2). rewrite Hin by auto. cbn. repeat split; try lra; lia.
  - unfold pins, two_spikes. rewrite (fm_single _ given), fm_fm. apply fm_ext_in. intros i Hi. rewrite Hin by (apply HG; auto).
    cbn [flat_map pstim DataEncoder Tmin Tcod app]. rewrite Rplus_0_l. reflexivity.
Qed.
Lemma iv_range tmin tcod v : 0 < tcod -> 0 <= v <= 1 -> tmin <= tmin + v * tcod <= tmin + tcod.
Proof. intros Ht Hv. assert (0 <= v * tcod) by (apply Rmult_le_pos; lra). assert (v * tcod <= 1 * tcod) by (apply Rmult_le_compat_r; lra). lra. Qed.
(** the output of a channel that was given *)
Lemma given_emits tmin tcod dt s n u v eps : 0 < dt -> 0 < tcod -> 1 < tmin -> dt < tmin -> 0 <= v <= 1 -> dt / tcod <= eps ->
  pspike_log s n = [u; u + ck tmin tcod dt (tmin + v * tcod)] -> pemits s n (DataEncoder tmin tcod) v eps.
Proof.
  intros Hdt Htc Htm Htd Hv He E. pose proof (iv_range tmin tcod v Htc Hv) as Hi. pose proof (cg_b tmin tcod dt Hdt Htc Htm) as Hg.
  destruct (ck_b tmin tcod dt (tmin + v * tcod) Hdt Htc Htm Htd ltac:(lra)) as [Hk Hd].
  eapply pemits_intro; [auto|exact E|lra|]. apply (Rmult_le_compat_r tcod) in He; [|lra]. unfold Rdiv in He. rewrite Rmult_assoc, Rinv_l in He by lra. apply Rabs_le. lra.
Qed.
Lemma last_of (N : nat) (t : nat -> R) : (1 <= N)%nat -> exists k, (k < N)%nat /\ forall i, (i < N)%nat -> t i <= t k.
Proof.
  induction N as [|N IH]; intros H; [lia|]. destruct (Nat.eq_dec N 0) as [->|H0]; [exists 0%nat; split; [lia|]; intros i Hi; replace i with 0%nat by lia; lra|].
  destruct IH as (k & Hk & Hm); [lia|]. destruct (Rle_lt_dec (t N) (t k)) as [C|C].
  - exists k. split; [lia|]. intros i Hi. destruct (Nat.eq_dec i N) as [->|]; auto. apply Hm. lia.
  - exists N. split; [lia|]. intros i Hi. destruct (Nat.eq_dec i N) as [->|]; [lra|]. specialize (Hm i ltac:(lia)). lra.
Qed.
(** all inputs arrive: after the last one every output starts at the same instant *)
Lemma sync_all (tmin tcod dt : R) (N : nat) (x t : nat -> R) nm (st : sync_net -> list stim) :
  dt_ok dt -> 0 < tcod -> 1 < tmin -> dt < tmin -> tmin + tcod + 2 * dt <= 500 -> (1 <= N)%nat ->
  (N <= 316)%nat \/ (forall i j, (i < N)%nat -> (j < N)%nat -> t i = t j) ->
  (forall i, (i < N)%nat -> 0 <= x i <= 1 /\ 0 <= t i) ->
  (forall m, length (sy_inputs m) = N -> (forall i, (i < N)%nat -> nth i (sy_inputs m) 0%nat = (1 + 10 * i)%nat) ->
     Forall (stim_ok (1 + 10 * N)) (st m) /\ pins (DataEncoder tmin tcod) (st m) = two_spikes (seq 0 N) t (fun i => t i + (tmin + x i * tcod))) ->
  pruns (SynchronizerNetwork (DataEncoder tmin tcod) N nm) sy_mod (DataEncoder tmin tcod) dt st
    (fun m s => exists tau, (forall i, (i < N)%nat -> t i + (tmin + x i * tcod) < tau) /\
       forall i, (i < N)%nat -> (exists t2, pspike_log s (nth i (sy_outputs m) 0%nat) = [tau; t2]) /\
                                pemits s (nth i (sy_outputs m) 0%nat) (DataEncoder tmin tcod) (x i) (dt / tcod)).
Proof.
  intros HD Htc Htm Htd H5 HN HE HG HSt. destruct (dt_ok_horizon dt HD) as [Hdt HM]. destruct (last_of N t HN) as (k & Hk & Hmax).
  pose proof (cg_b tmin tcod dt Hdt Htc Htm) as Hg. set (g := cg tmin tcod dt) in *. set (iv := fun i => tmin + x i * tcod).
  assert (HIn : forall i, In i (seq 0 N) <-> (i < N)%nat) by (intros; rewrite in_seq; lia). destruct (ws_all N HN) as [Wp W1].
  destruct (sync_session tmin tcod dt N (seq 0 N) t iv (Some (t k + 4 + g + 1)) nm st) as [M HR]; auto.
  - apply seq_NoDup.
  - intros i Hi. apply HIn in Hi. destruct (HG i Hi). split; auto. split; auto. apply iv_range; auto.
  - intros s Es. injection Es as <-. split; [destruct (HG k Hk); lra|]. intros i Hi. apply HIn in Hi. specialize (Hmax i Hi). fold g. lra.
  - cbn [optl]. assert (HL : length (sync_hits tmin tcod dt N (gv (seq 0 N) t iv)) = N) by (rewrite sync_hits_len; [apply seq_length|apply seq_NoDup|intros; apply HIn; auto]).
    apply (release_fire dt (10 / INR N + / 10000) Hdt HM); [apply HD|auto| | | |].
    + intros h Hh. apply sync_hits_in in Hh as (j & Hj & ->). apply HIn in Hj. destruct (HG j Hj). specialize (Hmax j Hj). fold g. repeat split; cbn; lra.
    + eexists. split; [apply (sync_hits_has tmin tcod dt N (seq 0 N) t iv k); [apply HIn|]; auto|]. reflexivity.
    + rewrite HL. exact W1.
    + rewrite HL. destruct HE as [HE|HE]; [left; apply ws_few; lia|right].
      intros h Hh. apply sync_hits_in in Hh as (j & Hj & ->). apply HIn in Hj. cbn. fold g. rewrite (HE j k); auto.
  - exists M. intros fuel Hf. destruct (HR fuel Hf) as (m & s & Es & HLn & HLog). exists m, s. split; auto. exists (t k + 4 + g + 1 + 4). split.
    + intros i Hi. specialize (Hmax i Hi). destruct (HG i Hi). pose proof (iv_range tmin tcod (x i) Htc ltac:(lra)). lra.
    + intros i Hi. specialize (HLog i Hi). unfold gv in HLog. destruct (in_dec Nat.eq_dec i (seq 0 N)) as [C|C]; [|destruct C; apply HIn; auto]. cbn [chF held] in HLog.
      split; [eexists; exact HLog|]. destruct (HG i Hi). apply (given_emits tmin tcod dt s _ (t k + 4 + g + 1 + 4) (x i)); auto; apply Rle_refl.
Qed.
Theorem pred_synchronizer (tmin tcod dt : R) (N : nat) (x t : nat -> R) nm :
  dt_ok dt -> 0 < tcod -> 1 < tmin -> dt < tmin -> tmin + tcod + 2 * dt <= 500 -> (1 <= N <= 316)%nat -> (forall i, (i < N)%nat -> 0 <= x i <= 1 /\ 0 <= t i) ->
  pruns (SynchronizerNetwork (DataEncoder tmin tcod) N nm) sy_mod (DataEncoder tmin tcod) dt
    (fun m => flat_map (fun i => [SSpike (nth i (sy_inputs m) 0%nat) (t i); SSpike (nth i (sy_inputs m) 0%nat) (t i + (tmin + x i * tcod))]) (seq 0 N))
    (fun m s => exists tau, (forall i, (i < N)%nat -> t i + (tmin + x i * tcod) < tau) /\
       forall i, (i < N)%nat -> (exists t2, pspike_log s (nth i (sy_outputs m) 0%nat) = [tau; t2]) /\
                                pemits s (nth i (sy_outputs m) 0%nat) (DataEncoder tmin tcod) (x i) (dt / tcod)).
Proof.
  intros HD Htc Htm Htd H5 HN HG. apply (sync_all tmin tcod dt N x t nm (spike_pairs (seq 0 N) t (fun i => tmin + x i * tcod))); auto; try lia.
  intros m _ Hin. apply spike_pairs_ok; auto; [|lra]. intros i Hi. apply in_seq in Hi. destruct (HG i ltac:(lia)). split; [lia|]. split; auto. apply iv_range; auto.
Qed.
Theorem pred_synchronizer_values (tmin tcod dt : R) (N : nat) (x t0 : nat -> R) nm :
  dt_ok dt -> 0 < tcod -> 1 < tmin -> dt < tmin -> tmin + tcod + 2 * dt <= 500 -> (1 <= N)%nat -> (forall i, (i < N)%nat -> 0 <= x i <= 1) ->
  pruns (SynchronizerNetwork (DataEncoder tmin tcod) N nm) sy_mod (DataEncoder tmin tcod) dt
    (fun m => map (fun i => SValue (x i) (nth i (sy_inputs m) 0%nat) (t0 i)) (seq 0 N))
    (fun m s => exists tau, (forall i, (i < N)%nat -> tmin + x i * tcod < tau) /\
       forall i, (i < N)%nat -> (exists t2, pspike_log s (nth i (sy_outputs m) 0%nat) = [tau; t2]) /\
                                pemits s (nth i (sy_outputs m) 0%nat) (DataEncoder tmin tcod) (x i) (dt / tcod)).
Proof.
  intros HD Htc Htm Htd H5 HN HG.
  destruct (sync_all tmin tcod dt N x (fun _ => 0) nm (fun m => map (fun i => SValue (x i) (nth i (sy_inputs m) 0%nat) (t0 i)) (seq 0 N))) as [M HR]; auto.
  - intros i Hi. split; auto. lra.
  - intros m _ Hin. apply values_ok; auto. intros i Hi. apply in_seq in Hi. split; [lia|]. apply HG. lia.
  - exists M. intros fuel Hf. destruct (HR fuel Hf) as (m & s & Es & tau & H1 & H2). exists m, s. split; auto. exists tau. split; auto. intros i Hi. specialize (H1 i Hi). lra.
Qed.
(** as long as one input is missing nothing is released *)
Theorem pred_synchronizer_waits (tmin tcod dt : R) (N : nat) (given : list nat) (x t : nat -> R) nm :
  dt_ok dt -> 0 < tcod -> 1 < tmin -> dt < tmin -> tmin + tcod + 2 * dt <= 500 -> (N <= 316)%nat -> NoDup given -> (length given < N)%nat ->
  (forall i, In i given -> (i < N)%nat /\ 0 <= x i <= 1 /\ 0 <= t i) ->
  pruns (SynchronizerNetwork (DataEncoder tmin tcod) N nm) sy_mod (DataEncoder tmin tcod) dt
    (fun m => flat_map (fun i => [SSpike (nth i (sy_inputs m) 0%nat) (t i); SSpike (nth i (sy_inputs m) 0%nat) (t i + (tmin + x i * tcod))]) given)
    (fun m s => forall i, (i < N)%nat -> pspike_log s (nth i (sy_outputs m) 0%nat) = []).
Proof.
  intros HD Htc Htm Htd H5 HN ND Hlen HG. destruct (dt_ok_horizon dt HD) as [Hdt HM]. destruct (ws_all N ltac:(lia)) as [Wp W1]. pose proof (cg_b tmin tcod dt Hdt Htc Htm) as Hg.
  assert (HG' : forall i, In i given -> (i < N)%nat /\ 0 <= t i /\ tmin <= tmin + x i * tcod <= tmin + tcod).
  { intros i Hi. destruct (HG i Hi) as (P & Q & T). split; auto. split; auto. apply iv_range; auto. }
  destruct (sync_session tmin tcod dt N given t (fun i => tmin + x i * tcod) None nm (spike_pairs given t (fun i => tmin + x i * tcod))) as [M HR]; auto; try lia.
  - intros m _ Hin. apply spike_pairs_ok; auto. lra.
  - discriminate.
  - cbn [optl]. apply (release_silent dt (10 / INR N + / 10000) Hdt HM); auto.
    + intros h Hh. apply sync_hits_in in Hh as (j & Hj & ->). destruct (HG j Hj) as (P & Q & T). split; cbn; [lra|auto].
    + rewrite sync_hits_len; auto; [apply ws_few; lia|]. intros; apply HG; auto.
  - exists M. intros fuel Hf. destruct (HR fuel Hf) as (m & s & Es & _ & HLog). exists m, s. split; auto.
Qed.
(** from 317 channels on, all but one suffice, and the missing channel answers with the value 1 *)
Theorem pred_synchronizer_early (tmin tcod dt : R) (N : nat) (x t0 : nat -> R) nm :
  dt_ok dt -> 0 < tcod -> 1 < tmin -> dt < tmin -> tmin + tcod + 2 * dt <= 500 -> (317 <= N)%nat -> (forall i, (i < N - 1)%nat -> 0 <= x i <= 1) ->
  pruns (SynchronizerNetwork (DataEncoder tmin tcod) N nm) sy_mod (DataEncoder tmin tcod) dt
    (fun m => map (fun i => SValue (x i) (nth i (sy_inputs m) 0%nat) (t0 i)) (seq 0 (N - 1)))
    (fun m s => (forall i, (i < N - 1)%nat -> pemits s (nth i (sy_outputs m) 0%nat) (DataEncoder tmin tcod) (x i) (dt / tcod)) /\
                pemits s (nth (N - 1) (sy_outputs m) 0%nat) (DataEncoder tmin tcod) 1 (dt / tcod)).
Proof.
  intros HD Htc Htm Htd H5 HN HG. destruct (dt_ok_horizon dt HD) as [Hdt HM]. destruct (ws_all N ltac:(lia)) as [Wp W1].
  pose proof (cg_b tmin tcod dt Hdt Htc Htm) as Hg. set (g := cg tmin tcod dt) in *. set (iv := fun i => tmin + x i * tcod).
  assert (HIn : forall i, In i (seq 0 (N - 1)) <-> (i < N - 1)%nat) by (intros; rewrite in_seq; lia).
  destruct (sync_session tmin tcod dt N (seq 0 (N - 1)) (fun _ => 0) iv (Some (0 + 4 + g + 1)) nm (fun m => map (fun i => SValue (x i) (nth i (sy_inputs m) 0%nat) (t0 i)) (seq 0 (N - 1)))) as [M HR]; auto; try lia.
  - apply seq_NoDup.
  - intros i Hi. apply HIn in Hi. split; [lia|]. split; [lra|]. apply iv_range; auto.
  - intros m _ Hin. apply values_ok; auto. intros i Hi. apply HIn in Hi. split; [lia|]. apply HG. lia.
  - intros s Es. injection Es as <-. split; [lra|]. intros i Hi. fold g. lra.
  - cbn [optl]. assert (HL : length (sync_hits tmin tcod dt N (gv (seq 0 (N - 1)) (fun _ => 0) iv)) = (N - 1)%nat) by (rewrite sync_hits_len; [apply seq_length|apply seq_NoDup|intros k Hk; apply HIn in Hk; lia]).
    apply (release_fire dt (10 / INR N + / 10000) Hdt HM); [apply HD|auto| | | |].
    + intros h Hh. apply sync_hits_in in Hh as (j & Hj & ->). fold g. repeat split; cbn; lra.
    + eexists. split; [apply (sync_hits_has tmin tcod dt N (seq 0 (N - 1)) (fun _ => 0) iv 0%nat); [apply HIn|]; lia|]. reflexivity.
    + rewrite HL. apply ws_many; auto.
    + right. intros h Hh. apply sync_hits_in in Hh as (j & Hj & ->). reflexivity.
  - exists M. intros fuel Hf. destruct (HR fuel Hf) as (m & s & Es & HLn & HLog). exists m, s. split; auto. split.
    + intros i Hi. specialize (HLog i ltac:(lia)). unfold gv in HLog. destruct (in_dec Nat.eq_dec i (seq 0 (N - 1))) as [C|C]; [|destruct C; apply HIn; auto]. cbn [chF held] in HLog.
      apply (given_emits tmin tcod dt s _ (0 + 4 + g + 1 + 4) (x i)); auto; apply Rle_refl.
    + specialize (HLog (N - 1)%nat ltac:(lia)). unfold gv in HLog. destruct (in_dec Nat.eq_dec (N - 1)%nat (seq 0 (N - 1))) as [C|C]; [apply HIn in C; lia|]. cbn [chF held] in HLog. fold g in HLog.
      eapply pemits_intro; [auto|exact HLog|lra|]. unfold Rdiv. rewrite Rmult_assoc, Rinv_l by lra. apply Rabs_le. lra.
Qed.
