(** LinearCombinatorNetwork and AdderNetwork run on their own (C28). *)
From Coq Require Import Arith ZArith Bool List Reals Lra Lia Permutation.
From Verif Require Import Num Heapq Elements Simulator Networks Trace SimTrace SimProps TraceProps NeuronLib NetLib Build BuildNets Bridge MemoryProof Session SimpleNets GeLib InvMem FuncNets SegLib SubNet SMem SyncNet LinComb.
Import ListNotations.
Open Scope R_scope.
Open Scope list_scope.

Definition nneg (x : R) : bool := if Rle_dec 0 x then true else false.
(** the plain sums the theorems talk about *)
Definition dot (cs : list R) (v : nat -> R) : R := sumf (fun i => nth i cs 0 * v i) (seq 0 (length cs)).
Definition dot_pos (cs : list R) (v : nat -> R) : R := sumf (fun i => Rmax 0 (nth i cs 0 * v i)) (seq 0 (length cs)).
Definition dot_neg (cs : list R) (v : nat -> R) : R := sumf (fun i => Rmax 0 (- (nth i cs 0 * v i))) (seq 0 (length cs)).
Definition norm1 (cs : list R) : R := sumf (fun i => Rabs (nth i cs 0)) (seq 0 (length cs)).

Lemma dot_split cs v : dot cs v = dot_pos cs v - dot_neg cs v.
Proof.
  unfold dot, dot_pos, dot_neg. induction (seq 0 (length cs)) as [|i l IH]; [unfold sumf; cbn; lra|]. rewrite !sumf_cons, IH.
  unfold Rmax. destruct (Rle_dec 0 (nth i cs 0 * v i)), (Rle_dec 0 (- (nth i cs 0 * v i))); lra.
Qed.
(** an operand of value v comes on the '+' input (g = true) or on the '-' input *)
Definition sgn_ok (g : bool) (v : R) : Prop := if g then 0 <= v else v <= 0.
Lemma sgn_nneg v : sgn_ok (nneg v) v.
Proof. unfold sgn_ok, nneg. destruct (Rle_dec 0 v); lra. Qed.
Lemma sel_term (s g : bool) c v : sgn_ok g v -> (if Bool.eqb (Bool.eqb s (cpos c)) g then Rabs c * Rabs v else 0) = Rmax 0 (if s then c * v else - (c * v)).
Proof.
  intros Hg. rewrite <- Rabs_mult. unfold cpos. change (ngtb c nzero) with (Rltb 0 c).
  assert (HC : Rltb 0 c = true /\ 0 < c \/ Rltb 0 c = false /\ c <= 0).
  { destruct (Rltb 0 c) eqn:E; [left; split; auto; apply Rltb_true in E; auto|right; split; auto; apply Rltb_false in E; lra]. }
  destruct g; cbn [sgn_ok] in Hg; destruct HC as [[-> Hc]|[-> Hc]]; destruct s; cbn [Bool.eqb];
    unfold Rmax; destruct (Rle_dec _ _) as [Hm|Hm]; try reflexivity; unfold Rabs; destruct (Rcase_abs (c * v)); nra.
Qed.
Lemma sumf_sel2 (P : nat -> bool) f l : sumf (fun i => if P i then f i else 0) l + sumf (fun i => if negb (P i) then f i else 0) l = sumf f l.
Proof. induction l as [|i l IH]; [unfold sumf; cbn; lra|]. rewrite !sumf_cons. destruct (P i); cbn [negb]; lra. Qed.

Lemma Rabs_le_btw x y : Rabs x <= y -> - y <= x <= y.
Proof. unfold Rabs. destruct (Rcase_abs x); lra. Qed.

Section Run.
Variable N : tnet.
Let dt := t_dt N.
Variables tmin tcod T tl eta : R.
Variables v t : nat -> R.
Variable cs : list R.
Let n := length cs.
Let Tmax := tmin + tcod.
Hypothesis Hdt0 : 0 < dt.
Hypothesis Hdt1 : dt < / 50.
Hypothesis Htc : 0 < tcod.
Hypothesis Hn : (1 <= n)%nat.
Hypothesis Hv : forall i, (i < n)%nat -> Rabs (v i) <= 1.
Hypothesis Ht : forall i, (i < n)%nat -> 0 <= t i <= tl.
Hypothesis Heta : 0 <= eta.
Hypothesis Htm : 1 + 3 * dt + eta * norm1 cs <= tmin.
Hypothesis Hp : dot_pos cs v * tcod + eta * norm1 cs <= tcod.
Hypothesis Hm : dot_neg cs v * tcod + eta * norm1 cs <= tcod.
Hypothesis HT : tl + 4 * (tmin + tcod) + 2 * tmin + 21 <= T.
Variable gv : nat -> bool.
Hypothesis Hgv : forall i, (i < n)%nat -> sgn_ok (gv i) (v i).
Definition al (i : nat) : nat := step_at dt (t i + 1).
Definition be (i : nat) : nat := step_at dt (t i + 1 + (tmin + Rabs (v i) * tcod)).
Let D1 := step_at dt 1.
Let D2 := step_at dt 2.
Let Dm := step_at dt (1 + tmin).
Let M := step_at dt Tmax.
Let Dn := step_at dt (/ 100).
Let Dnn := step_at dt (2 * / 100).
Let D3 := step_at dt (3 * 1 + 2 * / 100).
Let DM := step_at dt (tmin + (3 * 1 + 2 * / 100)).
Hypothesis Hgap : forall i, (i < n)%nat -> Rabs (dt * (INR (be i + D1) - INR (al i + Dm)) - Rabs (v i) * tcod) <= eta.
Variable l : lin_net.
Hypothesis HL : lc_in N (1000 / Tmax) tmin l cs.
Hypothesis Hin : forall i, (i < n)%nat -> arrs N (lis (gv i) (lcl (lc_cells l) i)) 1 [al i; be i].
Hypothesis Hnone : forall i, (i < n)%nat -> arrs N (lis (negb (gv i)) (lcl (lc_cells l) i)) 1 [].

Lemma vt i : (i < n)%nat -> 0 <= Rabs (v i) * tcod <= tcod.
Proof. intros Hi. pose proof (Hv i Hi). pose proof (Rabs_pos (v i)). split; [apply Rmult_le_pos; lra|rewrite <- (Rmult_1_l tcod) at 2; apply Rmult_le_compat_r; lra]. Qed.
Lemma sumf_ge0 (h : nat -> R) k : (forall i, 0 <= h i) -> 0 <= sumf h k.
Proof. intros H. rewrite <- (sumf_0 k). apply sumf_le. auto. Qed.
Lemma en_pos : 0 <= eta * norm1 cs.
Proof. apply Rmult_le_pos; auto. apply sumf_ge0. intros; apply Rabs_pos. Qed.
Definition Asel (s : bool) : R := sumf (fun i => if sel cs gv s i then Rabs (nth i cs 0) else 0) (seq 0 n).
Lemma Asel_split : Asel true + Asel false = norm1 cs.
Proof.
  unfold Asel, norm1. fold n. rewrite <- (sumf_sel2 (sel cs gv true) (fun i => Rabs (nth i cs 0))). f_equal. apply sumf_ext. intros i _.
  replace (sel cs gv false i) with (negb (sel cs gv true i)); auto. unfold sel. destruct (cpos _), (gv i); reflexivity.
Qed.
Lemma Asel_pos s : 0 <= Asel s.
Proof. apply sumf_ge0. intros i. destruct (sel cs gv s i); [apply Rabs_pos|lra]. Qed.
Lemma Asel_le s : eta * Asel s <= eta * norm1 cs.
Proof. apply Rmult_le_compat_l; auto. pose proof Asel_split. pose proof (Asel_pos true). pose proof (Asel_pos false). destruct s; lra. Qed.
Definition dots (s : bool) := if s then dot_pos cs v else dot_neg cs v.
Lemma dots_sel s : dots s * tcod = sumf (fun i => if sel cs gv s i then Rabs (nth i cs 0) * (Rabs (v i) * tcod) else 0) (seq 0 n).
Proof.
  rewrite Rmult_comm. unfold dots. transitivity (tcod * sumf (fun i => Rmax 0 (if s then nth i cs 0 * v i else - (nth i cs 0 * v i))) (seq 0 n)).
  - destruct s; reflexivity.
  - rewrite <- sumf_mult. apply sumf_ext. intros i Hi. apply in_seq in Hi. rewrite <- (sel_term s (gv i)) by (apply Hgv; lia). unfold sel. destruct (Bool.eqb _ _); ring.
Qed.
Lemma dots_pos s : 0 <= dots s.
Proof. destruct s; apply sumf_ge0; intros; apply Rmax_l. Qed.
Lemma dots_hyp s : dots s * tcod + eta * norm1 cs <= tcod.
Proof. destruct s; auto. Qed.
(** the collected charge is the sum of the selected terms up to eta per unit of coefficient *)
Lemma Psum_bound s : Rabs (dt * Psum N tmin cs gv al be s - dots s * tcod) <= eta * Asel s.
Proof.
  rewrite dots_sel. unfold Psum, Asel. fold n. rewrite <- !sumf_mult.
  assert (HI : forall i, In i (seq 0 n) -> (i < n)%nat) by (intros i Hi; apply in_seq in Hi; lia).
  induction (seq 0 n) as [|i k IH]; [unfold sumf; cbn; rewrite Rminus_0_r, Rabs_R0; lra|]. rewrite !sumf_cons.
  specialize (IH ltac:(intros; apply HI; right; auto)). specialize (Hgap i (HI i (or_introl eq_refl))).
  pose proof (Rabs_pos (nth i cs 0)) as HA. set (a := Rabs (nth i cs 0)) in *.
  fold (evB N be i) (evA N tmin al i) in Hgap. change (be i + D1)%nat with (evB N be i) in Hgap. change (al i + Dm)%nat with (evA N tmin al i) in Hgap.
  set (x := INR (evB N be i) - INR (evA N tmin al i)) in *.
  match goal with |- Rabs (?p + ?q - (?r + ?u)) <= _ => replace (p + q - (r + u)) with ((p - r) + (q - u)) by ring end.
  eapply Rle_trans; [apply Rabs_triang|]. apply Rplus_le_compat; [|exact IH].
  destruct (sel cs gv s i); [|rewrite !Rmult_0_r, Rminus_0_r, Rabs_R0; lra].
  replace (dt * (a * x) - a * (Rabs (v i) * tcod)) with (a * (dt * x - Rabs (v i) * tcod)) by ring.
  rewrite Rabs_mult, (Rabs_right a) by lra. rewrite (Rmult_comm eta). apply Rmult_le_compat_l; auto.
Qed.
Let r := rr N tmin tcod cs gv al be.
Let i_ := iv N tmin tcod cs gv al be.
(** spikes of both outputs, with timing *)
Lemma lin_timing :
  exists st : nat,
    (dot_neg cs v * tcod + eta * norm1 cs <= dot_pos cs v * tcod ->
      spikes_at N (lc_output_plus l) [(st + i_ false + D3)%nat; (st + i_ true + DM)%nat] /\ spikes_at N (lc_output_minus l) []) /\
    (dot_pos cs v * tcod + eta * norm1 cs + 1 / 100 + 2 * dt <= dot_neg cs v * tcod ->
      spikes_at N (lc_output_minus l) [(st + i_ true + D3)%nat; (st + i_ false + DM)%nat] /\ spikes_at N (lc_output_plus l) []) /\
    (forall s, INR (st + i_ s + DM) * dt <= T) /\
    (forall s, (1 <= st)%nat /\ (i_ s + r s + D1 = M + Dm)%nat) /\
    (dot_pos cs v * tcod + eta * norm1 cs + dt <= dot_neg cs v * tcod -> dot_neg cs v * tcod + eta * norm1 cs + 2 * dt <= dot_pos cs v * tcod + 1 / 100 ->
      spikes_at N (lc_output_minus l) [] /\ spikes_at N (lc_output_plus l) []).
Proof.
  pose proof en_pos as EP.
  assert (Htm0 : 0 < tmin) by lra.
  pose proof (step_at_bounds dt 1 Hdt0 ltac:(lra)) as B1. pose proof (step_at_bounds dt 2 Hdt0 ltac:(lra)) as B2.
  pose proof (step_at_bounds dt (1 + tmin) Hdt0 ltac:(lra)) as Bm. pose proof (step_at_bounds dt Tmax Hdt0 ltac:(unfold Tmax; lra)) as BM.
  pose proof (step_at_ge1 dt Tmax) as GM. fold D1 in B1. fold D2 in B2. fold Dm in Bm. fold M in BM, GM.
  destruct (sb_facts dt tmin ltac:(lra) ltac:(lra)) as ((F1 & F2 & F3 & F4 & F5) & FZ & _ & FN & FD & ZM). specialize (FZ ltac:(lra)).
  fold D1 Dn Dnn D3 DM in F1, F2, F3, F4, F5, FZ, FN, FD, ZM.
  assert (HDD : (1 < D1 /\ D1 < D2 /\ D2 <= 2 * D1)%nat).
  { split; [nat_lt dt Hdt0; lra|]. split; [nat_lt dt Hdt0; lra|]. assert (D2 < 2 * D1 + 1)%nat; [|lia]. nat_lt dt Hdt0. lra. }
  assert (Hal : forall i, (i < n)%nat -> (1 <= al i)%nat) by (intros; apply step_at_ge1).
  assert (HQ : forall i, (i < n)%nat -> (al i + D1 <= be i)%nat /\ (al i + Dm <= be i + D1 + 1)%nat /\ INR (be i) * dt <= tl + 1 + Tmax + dt).
  { intros i Hi. destruct (Ht i Hi). destruct (vt i Hi).
    destruct (step_diff dt (t i + 1) (tmin + Rabs (v i) * tcod) Hdt0 ltac:(lra) ltac:(lra)) as (_ & Q & _).
    fold (al i) (be i) in Q. apply Rabs_def2 in Q. pose proof (step_at_bounds dt (t i + 1) Hdt0 ltac:(lra)) as BA. fold (al i) in BA.
    pose proof (step_time dt (t i + 1 + (tmin + Rabs (v i) * tcod)) Hdt0 ltac:(lra)) as ZB. fold (be i) in ZB.
    split; [|split].
    - assert (al i + D1 < be i + 1)%nat; [|lia]. nat_lt dt Hdt0. lra.
    - assert (al i + Dm < be i + D1 + 2)%nat; [|lia]. nat_lt dt Hdt0. lra.
    - unfold Tmax. lra. }
  destruct (max_index (fun i => (be i + D1)%nat) n Hn) as (f & Hf1 & Hf2).
  assert (Hf3 : INR f * dt <= tl + 1 + Tmax + dt + (1 + dt)).
  { destruct Hf2 as (i & Hi & <-). destruct (HQ i Hi) as (_ & _ & Z). inr. lra. }
  set (d := fun i => (Rabs (v i) * tcod + eta) / dt).
  assert (Hd : forall i, (i < n)%nat -> 0 <= d i /\ INR (evB N be i) - INR (evA N tmin al i) <= d i).
  { intros i Hi. destruct (vt i Hi). split; [apply Rmult_le_pos; [lra|left; apply Rinv_0_lt_compat; auto]|].
    pose proof (Hgap i Hi) as G. change (be i + D1)%nat with (evB N be i) in G. change (al i + Dm)%nat with (evA N tmin al i) in G.
    assert (G2 : dt * (INR (evB N be i) - INR (evA N tmin al i)) <= Rabs (v i) * tcod + eta).
    { pose proof (Rle_abs (dt * (INR (evB N be i) - INR (evA N tmin al i)) - Rabs (v i) * tcod)). lra. }
    apply Rmult_le_reg_l with dt; auto. unfold d. replace (dt * ((Rabs (v i) * tcod + eta) / dt)) with (Rabs (v i) * tcod + eta) by (field; lra). exact G2. }
  assert (HAB : forall i, (i < n)%nat -> (evA N tmin al i <= evB N be i + 1)%nat).
  { intros i Hi. unfold evA, evB. fold dt D1 Dm. apply HQ; auto. }
  assert (Hsum : forall s, dt * sumf (fun i => if sel cs gv s i then Rabs (nth i cs 0) * d i else 0) (seq 0 n) <= tcod).
  { intros s. eapply Rle_trans; [|apply (dots_hyp s)]. rewrite dots_sel. rewrite <- sumf_mult.
    pose proof (Asel_le s) as AL. eapply Rle_trans; [|apply Rplus_le_compat_l; exact AL].
    unfold Asel. rewrite <- sumf_mult, <- sumf_add. right. apply sumf_ext. intros i _. destruct (sel cs gv s i); [|ring]. unfold d. field. lra. }
  pose proof (rr_bounds N tmin tcod cs Hdt0 Htm0 Hn gv al be HDD d Hd Hsum) as RB. fold r dt Tmax in RB.
  assert (PB : forall s, - (eta * norm1 cs) <= dt * Psum N tmin cs gv al be s - dots s * tcod <= eta * norm1 cs).
  { intros s. pose proof (Psum_bound s) as B. pose proof (Asel_le s). apply Rabs_le_btw in B. lra. }
  assert (P0 : forall s, - (eta * norm1 cs) <= dt * Psum N tmin cs gv al be s <= tcod).
  { intros s. pose proof (PB s). pose proof (dots_pos s). assert (0 <= dots s * tcod) by (apply Rmult_le_pos; lra). pose proof (dots_hyp s). lra. }
  assert (Hr1 : forall s, (r s + 2 * D1 <= M + Dm)%nat).
  { intros s. destruct (RB s). specialize (P0 s). assert (r s + 2 * D1 < M + Dm + 1)%nat; [|lia]. nat_lt dt Hdt0. lra. }
  assert (Hr2 : forall s, (Dm <= r s + D1 + 1)%nat).
  { intros s. destruct (RB s). specialize (P0 s). nat_le dt Hdt0. unfold Tmax in *. lra. }
  pose proof (lin_plus N tmin tcod l cs Hdt0 Htm0 Htc Hn HL gv al be Hin Hnone Hal (fun i Hi => proj1 (HQ i Hi)) HDD f Hf1 Hf2 d Hd HAB Hsum Hr1 Hr2 F1 F2 F3 F4 F5) as CP.
  pose proof (lin_minus N tmin tcod l cs Hdt0 Htm0 Htc Hn HL gv al be Hin Hnone Hal (fun i Hi => proj1 (HQ i Hi)) HDD f Hf1 Hf2 d Hd HAB Hsum Hr1 Hr2 F1 F2 F3 F4 F5) as CM.
  pose proof (lin_lost N tmin tcod l cs Hdt0 Htm0 Htc Hn HL gv al be Hin Hnone Hal (fun i Hi => proj1 (HQ i Hi)) HDD f Hf1 Hf2 d Hd HAB Hsum Hr1 Hr2 F1 F2 F3 F4 F5) as CL.
  fold dt D1 Dn Dnn D3 DM i_ in CP, CM, CL. set (sa0 := sa N tmin tcod cs gv al be f) in *.
  assert (IR : forall s, (i_ s + r s + D1 = M + Dm)%nat).
  { intros s. unfold i_, iv. fold dt Tmax M Dm D1. change (rr N tmin tcod cs gv al be s) with (r s). specialize (Hr1 s). lia. }
  assert (AS : Asel true + Asel false = norm1 cs) by apply Asel_split.
  assert (BT : dots true * tcod - eta * Asel true <= dt * Psum N tmin cs gv al be true <= dots true * tcod + eta * Asel true).
  { pose proof (Psum_bound true) as B. apply Rabs_le_btw in B. lra. }
  assert (BF : dots false * tcod - eta * Asel false <= dt * Psum N tmin cs gv al be false <= dots false * tcod + eta * Asel false).
  { pose proof (Psum_bound false) as B. apply Rabs_le_btw in B. lra. }
  assert (EA : eta * Asel true + eta * Asel false = eta * norm1 cs) by (rewrite <- Rmult_plus_distr_l, AS; auto).
  exists (sa0 + D1)%nat. split; [|split; [|split; [|split]]].
  - intros HS. replace (sa0 + D1 + i_ false + D3)%nat with (sa0 + i_ false + D3 + D1)%nat by lia.
    replace (sa0 + D1 + i_ true + DM)%nat with (sa0 + i_ true + DM + D1)%nat by lia. apply CP.
    assert (RL : (r true <= r false)%nat).
    { unfold r, rr. fold dt. apply step_at_mono; auto. cbn [dots] in BT, BF. lra. }
    pose proof (IR true). pose proof (IR false). lia.
  - intros HS. replace (sa0 + D1 + i_ true + D3)%nat with (sa0 + i_ true + D3 + D1)%nat by lia.
    replace (sa0 + D1 + i_ false + DM)%nat with (sa0 + i_ false + DM + D1)%nat by lia.
    pose proof (IR true). pose proof (IR false). cbn [dots] in BT, BF. pose proof (RB true). pose proof (RB false).
    assert (i_ true + Dnn <= i_ false + Dn)%nat.
    { assert (r false + Dnn < r true + Dn + 1)%nat; [|lia]. nat_lt dt Hdt0. lra. }
    apply CM; lia.
  - intros s. pose proof (IR s) as I1. apply (f_equal INR) in I1. rewrite !plus_INR in I1.
    pose proof (RB s) as R1. pose proof (P0 s) as P1. 
    assert (MX : INR (Nat.max (r true) (r false)) * dt <= Tmax + eta * norm1 cs + dt).
    { destruct (Nat.max_spec (r true) (r false)) as [[_ ->]|[_ ->]]; [pose proof (RB false); pose proof (P0 false)|pose proof (RB true); pose proof (P0 true)]; lra. }
    assert (GF : (1 <= f)%nat) by (destruct Hf2 as (i & _ & <-); lia).
    assert (ESA : INR sa0 = INR f + INR (Nat.max (r true) (r false)) + 12 * INR D1 + INR M + INR D2 - 2).
    { unfold sa0, sa, rel. fold dt D1 D2. change (step_at dt (tmin + tcod)) with M. change (rr N tmin tcod cs gv al be) with r.
      replace (f + D1 - 1 + Nat.max (r true) (r false) + 3 * D1 + 4 * D1 - 1 + M + D1 + D2 + 3 * D1)%nat with (f + Nat.max (r true) (r false) + 12 * D1 + M + D2 - 2)%nat by lia.
      rewrite minus_INR by lia. rewrite !plus_INR, mult_INR. cbn [INR]. lra. }
    rewrite !plus_INR, ESA. unfold Tmax in *.
    assert (INR (i_ s) * dt + INR (r s) * dt + INR D1 * dt = INR M * dt + INR Dm * dt) by (rewrite <- !Rmult_plus_distr_r; rewrite I1; ring).
    rewrite !Rmult_plus_distr_r. unfold Rminus. rewrite !Rmult_plus_distr_r. rewrite (Rmult_assoc 12). lra.
  - intros s. split; [lia|apply IR].
  - intros HS HS'. pose proof (IR true). pose proof (IR false). cbn [dots] in BT, BF. pose proof (RB true) as RT. pose proof (RB false) as RF.
    apply CL.
    + assert (r false + 1 <= r true)%nat; [|lia]. unfold r, rr. fold dt.
      replace (tmin + tcod - dt * Psum N tmin cs gv al be true) with (tmin + tcod - dt * Psum N tmin cs gv al be true - INR 1 * dt + INR 1 * dt) by lra.
      assert (X : 0 < tmin + tcod - dt * Psum N tmin cs gv al be true - INR 1 * dt) by (pose proof (P0 true); cbn [INR]; lra).
      rewrite step_exact by auto. apply Nat.add_le_mono_r, step_at_mono; auto. cbn [INR]. lra.
    + assert (r true + Dn < r false + Dnn)%nat; [|lia]. nat_lt dt Hdt0. lra.
Qed.
End Run.

Definition lin_stims (cs : list R) (v t : nat -> R) (l : lin_net) : list stim :=
  map (fun i => SValue (Rabs (v i)) (nth i (if Rle_dec 0 (v i) then lc_input_plus l else lc_input_minus l) 0%nat) (t i)) (seq 0 (length cs)).

Definition gv (v : nat -> R) (i : nat) : bool := nneg (v i).
Section Sess.
Context {A : Type}.
Variable bl : B R A.
Variable md : A -> nat.
Variable stims : A -> list stim.
Variables (a : A) (w : world R) (l : lin_net).
Variables tmin tcod dt T tl eta : R.
Variables v t : nat -> R.
Variable cs : list R.
Variable ord : nat -> list nat -> list nat.
Let n := length cs.
Let enc := DataEncoder tmin tcod.
Hypothesis Ebl : bl empty_world = Ok (a, w).
Hypothesis Emd : md a = lc_mod l.
Hypothesis HB : built empty_world w (lc_mod l) (lc_syns enc n cs l).
Hypothesis E1 : lc_own l = seq 0 10.
Hypothesis E2 : sy_sync (lc_sync_net l) = 10%nat.
Hypothesis E3 : cells_at 11 (sy_cells (lc_sync_net l)).
Hypothesis E4 : length (sy_cells (lc_sync_net l)) = 2%nat.
Hypothesis E5 : sb_nodes (lc_sub_net l) = seq 31 9.
Hypothesis E6 : lcells_at 40 (lc_cells l).
Hypothesis E7 : length (lc_cells l) = n.
Hypothesis E8 : lc_input_plus l = map li_p (lc_cells l).
Hypothesis E9 : lc_input_minus l = map li_m (lc_cells l).
Hypothesis EL : length (w_neurons w) = (40 + 6 * n)%nat.
Hypothesis ES : stims a = lin_stims cs v t l.
Hypothesis Hdt0 : 0 < dt.
Hypothesis Hdt1 : dt < / 50.
Hypothesis Htc : 0 < tcod.
Hypothesis Hn : (1 <= n)%nat.
Hypothesis Hv : forall i, (i < n)%nat -> Rabs (v i) <= 1.
Hypothesis Ht : forall i, (i < n)%nat -> 0 <= t i <= tl.
Hypothesis Heta : 0 <= eta.
Hypothesis Htm : 1 + 3 * dt + eta * norm1 cs <= tmin.
Hypothesis Hp : dot_pos cs v * tcod + eta * norm1 cs <= tcod.
Hypothesis Hm : dot_neg cs v * tcod + eta * norm1 cs <= tcod.
Hypothesis HT : tl + 4 * (tmin + tcod) + 2 * tmin + 21 <= T.
Hypothesis HO : ord_ok ord.
Hypothesis Hgap : forall i, (i < n)%nat -> Rabs (dt * (INR (step_at dt (t i + 1 + (tmin + Rabs (v i) * tcod)) + step_at dt 1) -
  INR (step_at dt (t i + 1) + step_at dt (1 + tmin))) - Rabs (v i) * tcod) <= eta.

Lemma lin_sess : exists s, session bl md enc dt stims ord T = Ok (a, s) /\
  let err := (eta * norm1 cs + 2 * dt) / tcod in
  (eta * norm1 cs <= dot cs v * tcod ->
     emits s (lc_output_plus l) enc (dot cs v) err /\ spike_log s (lc_output_minus l) = [] /\
     (forall q k1 k2, eta = 0 -> tmin = INR q * dt -> dot_pos cs v * tcod = INR k1 * dt -> dot_neg cs v * tcod = INR k2 * dt -> emits s (lc_output_plus l) enc (dot cs v) 0)) /\
  (1 / 100 + 2 * dt + eta * norm1 cs <= - (dot cs v * tcod) ->
     emits s (lc_output_minus l) enc (- dot cs v) err /\ spike_log s (lc_output_plus l) = [] /\
     (forall q k1 k2, eta = 0 -> tmin = INR q * dt -> dot_pos cs v * tcod = INR k1 * dt -> dot_neg cs v * tcod = INR k2 * dt -> emits s (lc_output_minus l) enc (- dot cs v) 0)) /\
  (eta * norm1 cs + dt <= - (dot cs v * tcod) -> - (dot cs v * tcod) + eta * norm1 cs + 2 * dt <= 1 / 100 ->
     spike_log s (lc_output_plus l) = [] /\ spike_log s (lc_output_minus l) = []).
Proof.
  assert (Htl : 0 <= tl) by (destruct (Ht 0%nat ltac:(lia)); lra).
  assert (En0 : 0 <= eta * norm1 cs).
  { apply Rmult_le_pos; auto. rewrite <- (sumf_0 (seq 0 (length cs))). apply sumf_le. intros; apply Rabs_pos. }
  set (nin := fun i => (40 + 6 * i + (if nneg (v i) then 0 else 1))%nat).
  assert (Hcell : forall i, (i < n)%nat -> let x := lcl (lc_cells l) i in [li_p x; li_m x; lf_p x; lf_m x; ll_p x; ll_m x] = seq (40 + 6 * i) 6).
  { intros i Hi. apply lcells_at_nth; auto. rewrite E7. auto. }
  assert (Hni : forall i b, (i < n)%nat -> lis b (lcl (lc_cells l) i) = (40 + 6 * i + if b then 0 else 1)%nat).
  { intros i b Hi. pose proof (Hcell i Hi) as X. cbv zeta in X. nodes_eqs X. destruct b; cbn [lis]; lia. }
  assert (ESt : stims a = map (fun i => SValue (Rabs (v i)) (nin i) (t i)) (seq 0 n)).
  { rewrite ES. unfold lin_stims. fold n. apply map_ext_in. intros i Hi. apply in_seq in Hi. f_equal. rewrite E8, E9.
    unfold nin, nneg. pose proof (Hni i true ltac:(lia)) as N1. pose proof (Hni i false ltac:(lia)) as N2. cbn [lis] in N1, N2.
    destruct (Rle_dec 0 (v i)); [change 0%nat with (li_p lcell0) at 1|change 0%nat with (li_m lcell0) at 1]; rewrite map_nth; fold (lcl (lc_cells l) i); auto. }
  assert (EX : forall k, ext_spikes (exts enc (stims a)) k = flat_map (fun i => if (nin i =? k)%nat then [t i; t i + (tmin + Rabs (v i) * tcod)] else []) (seq 0 n)).
  { intros k. rewrite ESt. rewrite (exts_values enc (fun i => Rabs (v i)) nin t). reflexivity. }
  assert (Hinj : forall i j c, (c < 6)%nat -> nin i = (40 + 6 * j + c)%nat -> i = j /\ c = (if nneg (v i) then 0 else 1)%nat).
  { intros i j c Hc. unfold nin. destruct (nneg (v i)); lia. }
  assert (HX1 : forall k, (k < 40)%nat -> ext_spikes (exts enc (stims a)) k = []).
  { intros k Hk. rewrite EX. apply flat_none. intros i _. apply Nat.eqb_neq. unfold nin. lia. }
  assert (HX2 : forall j c, (c < 6)%nat -> c <> (if nneg (v j) then 0 else 1)%nat -> ext_spikes (exts enc (stims a)) (40 + 6 * j + c) = []).
  { intros j c Hc Hne. rewrite EX. apply flat_none. intros i _. apply Nat.eqb_neq. intros Ei. apply Hinj in Ei as [-> ?]; auto. }
  assert (HX3 : forall i, (i < n)%nat -> ext_spikes (exts enc (stims a)) (nin i) = [t i; t i + (tmin + Rabs (v i) * tcod)]).
  { intros i Hi. rewrite EX. apply (flat_one (fun j => (nin j =? nin i)%nat) (fun j => [t j; t j + (tmin + Rabs (v j) * tcod)]) (seq 0 n) i); [apply seq_NoDup|apply in_seq; lia|].
    intros j Hj. rewrite Nat.eqb_eq. split; [|intros ->; auto]. intros Ei. unfold nin in Ei at 2. apply Hinj in Ei; [tauto|destruct (nneg (v i)); lia]. }
  rewrite <- Emd in HB.
  destruct (session_built bl md a w _ enc dt stims ord T Ebl HB Hdt0) as (s & Es & HSe); auto; [lra| |].
  { rewrite ESt. apply Forall_map. rewrite Forall_forall. intros i Hi. apply in_seq in Hi. cbn [stim_ok]. rewrite EL. split; [split; [apply Rabs_pos|apply Hv; lia]|].
    unfold nin. destruct (nneg (v i)); lia. }
  exists s. split; [exact Es|]. set (N := net_of w (exts enc (stims a)) dt) in *.
  assert (HF0 : forall i c, (i < n)%nat -> (c < 2)%nat -> filter (fun y => (s_post y =? 40 + 6 * i + c)%nat) (lc_syns enc n cs l) = []).
  { intros i c Hi Hc. apply filter_post_out. intros y Hy. unfold lc_syns in Hy. cbv zeta in Hy.
    apply in_app_or in Hy as [Hy|Hy].
    { destruct (sy_posts enc 2 _ _ y _ E3 Hy) as [Z|(j & Hj & Z)]; [rewrite Z, E2; lia|]. rewrite E4 in Hj. lia. }
    apply in_app_or in Hy as [Hy|Hy]; [pose proof (sb_posts _ _ _ _ E5 Hy); lia|].
    apply in_app_or in Hy as [Hy|Hy].
    { pose proof E1 as E1'. unfold lc_own in E1'. nodes_eqs E1'. pose proof E5 as E5'. unfold sb_nodes in E5'. nodes_eqs E5'.
      pose proof (cells_at_nth _ _ 0 E3 ltac:(lia)) as (C0 & _). pose proof (cells_at_nth _ _ 1 E3 ltac:(lia)) as (C1 & _).
      change (cel (sy_cells (lc_sync_net l)) 0) with (lc_ch l 0) in *. change (cel (sy_cells (lc_sync_net l)) 1) with (lc_ch l 1) in *.
      cbn [In] in Hy. repeat (destruct Hy as [<-|Hy]; [cbn [s_post syn]; lia|]). destruct Hy. }
    pose proof E1 as E1'. unfold lc_own in E1'. nodes_eqs E1'.
    rewrite (flat_map_nth_seq _ (0, lcell0)) in Hy. apply in_flat_map in Hy as (j & Hj & Hy). apply in_seq in Hj. rewrite combine_length, E7 in Hj. fold n in Hj.
    rewrite combine_nth in Hy by (rewrite E7; reflexivity). pose proof (Hcell j ltac:(lia)) as X. cbv zeta in X.
    destruct (lcell_posts _ _ _ _ _ _ _ _ _ X Hy) as [?|[?|[?|?]]]; lia. }
  assert (HIN : forall i, (i < n)%nat -> arrs N (lis (gv v i) (lcl (lc_cells l) i)) 1 [al N t i; be N tmin tcod v t i]).
  { intros i Hi. rewrite Hni by auto. fold (nin i). change (40 + 6 * i + (if gv v i then 0 else 1))%nat with (nin i).
    eapply (se_arrs _ _ _ _ _ _ _ _ HSe); [|unfold nin; apply HF0; auto; destruct (nneg (v i)); lia|apply HX3; auto|].
    - rewrite EL. unfold nin. destruct (nneg (v i)); lia.
    - cbn [map]. unfold al, be. cbn [N net_of t_dt]. fold N. do 3 f_equal. lra. }
  assert (HNO : forall i, (i < n)%nat -> arrs N (lis (negb (gv v i)) (lcl (lc_cells l) i)) 1 []).
  { intros i Hi. rewrite Hni by auto.
    eapply (se_arrs _ _ _ _ _ _ _ _ HSe); [|apply HF0; auto; destruct (negb (gv v i)); lia|apply HX2|reflexivity].
    - rewrite EL. destruct (negb _); lia.
    - destruct (negb _); lia.
    - unfold gv. destruct (nneg (v i)); cbn [negb]; lia. }
  assert (HLC : lc_in N (1000 / (tmin + tcod)) tmin l cs).
  { rewrite <- (wacc_R tmin tcod). apply (lc_ins_of N enc cs l 0); auto.
    intros k [Hk|(i & c & Hi & Hc & ->)].
    - apply (se_own _ _ _ _ _ _ _ _ HSe); [rewrite EL; lia|]. apply HX1. lia.
    - replace (40 + 0 + 6 * i + c)%nat with (40 + 6 * i + c)%nat by lia. apply (se_own _ _ _ _ _ _ _ _ HSe); [rewrite EL; unfold n; lia|]. apply HX2; [lia|destruct (nneg (v i)); lia]. }
  destruct (lin_timing N tmin tcod T tl eta v t cs Hdt0 Hdt1 Htc Hn Hv Ht Heta Htm Hp Hm HT (gv v) (fun i _ => sgn_nneg (v i)) Hgap l HLC HIN HNO) as (st & CP & CM & TT & Hst & CL).
  cbn [N net_of t_dt] in CP, CM, TT, Hst. fold N in CP, CM, TT, Hst.
  pose proof (step_at_bounds dt (tmin + tcod) Hdt0 ltac:(lra)) as BM.
  destruct (sb_facts dt tmin ltac:(lra) ltac:(lra)) as ((F1 & F2 & F3 & F4 & F5) & _ & _ & _ & FD & _).
  assert (EDM : forall q, tmin = INR q * dt -> INR (step_at dt (tmin + (3 * 1 + 2 * / 100))) * dt - INR (step_at dt (3 * 1 + 2 * / 100)) * dt = tmin).
  { intros q Eq. rewrite (Rplus_comm tmin). apply (grid_diff dt _ tmin q); auto. lra. }
  set (D3 := step_at dt (3 * 1 + 2 * / 100)) in *. set (DM := step_at dt (tmin + (3 * 1 + 2 * / 100))) in *.
  set (i_ := iv N tmin tcod cs (gv v) (al N t) (be N tmin tcod v t)) in *. set (r := rr N tmin tcod cs (gv v) (al N t) (be N tmin tcod v t)) in *.
  pose proof (Psum_bound N tmin tcod eta v t cs Hn (gv v)) as PB.
  assert (PB' : forall b, Rabs (dt * Psum N tmin cs (gv v) (al N t) (be N tmin tcod v t) b - dots v cs b * tcod) <= eta * Asel cs (gv v) b) by (intros b; eapply PB; eauto; intros; apply sgn_nneg).
  pose proof (Asel_split cs (gv v)) as AS. pose proof (Asel_pos cs (gv v)) as AP.
  assert (EA : eta * Asel cs (gv v) true + eta * Asel cs (gv v) false = eta * norm1 cs) by (rewrite <- Rmult_plus_distr_l, AS; auto).
  assert (RB : forall b, INR (r b) * dt - dt < tmin + tcod - dt * Psum N tmin cs (gv v) (al N t) (be N tmin tcod v t) b <= INR (r b) * dt).
  { intros b. unfold r, rr. cbn [N net_of t_dt]. fold N. apply step_at_bounds; auto. pose proof (Rabs_le_btw _ _ (PB' b)) as B.
    assert (eta * Asel cs (gv v) b <= eta * norm1 cs). { pose proof (Rmult_le_pos _ _ Heta (AP true)). pose proof (Rmult_le_pos _ _ Heta (AP false)). destruct b; lra. }
    assert (dots v cs b * tcod + eta * norm1 cs <= tcod) by (destruct b; auto). lra. }
  assert (IR : INR (i_ true) - INR (i_ false) = INR (r false) - INR (r true)).
  { destruct (Hst true) as [_ H1]. destruct (Hst false) as [_ H2]. apply (f_equal INR) in H1. apply (f_equal INR) in H2. rewrite !plus_INR in H1, H2. lra. }
  pose proof (Rabs_le_btw _ _ (PB' true)) as BT. pose proof (Rabs_le_btw _ _ (PB' false)) as BF. pose proof (RB true) as RT. pose proof (RB false) as RF. cbn [dots] in BT, BF.
  pose proof (dot_split cs v) as DS. apply Rabs_def2 in FD.
  assert (IRd : INR (i_ true) * dt - INR (i_ false) * dt = INR (r false) * dt - INR (r true) * dt).
  { replace (INR (i_ true) * dt - INR (i_ false) * dt) with ((INR (i_ true) - INR (i_ false)) * dt) by ring. rewrite IR. ring. }
  assert (EXR : forall q k1 k2, eta = 0 -> tmin = INR q * dt -> dot_pos cs v * tcod = INR k1 * dt -> dot_neg cs v * tcod = INR k2 * dt ->
     INR (r false) * dt - INR (r true) * dt = dot cs v * tcod).
  { intros q k1 k2 Ez Eq Ek1 Ek2. 
    assert (PT : dt * Psum N tmin cs (gv v) (al N t) (be N tmin tcod v t) true = INR k1 * dt) by (rewrite Ez in *; lra).
    assert (PF : dt * Psum N tmin cs (gv v) (al N t) (be N tmin tcod v t) false = INR k2 * dt) by (rewrite Ez in *; lra).
    unfold r, rr. cbn [N net_of t_dt]. fold N. rewrite PT, PF.
    assert (H0 : 0 < tmin + tcod - INR k1 * dt /\ 0 < tmin + tcod - INR k2 * dt) by lra.
    destruct (Nat.le_ge_cases k1 k2) as [Hk|Hk].
    - replace (tmin + tcod - INR k1 * dt) with (tmin + tcod - INR k2 * dt + INR (k2 - k1) * dt) by (rewrite minus_INR by auto; ring).
      rewrite step_exact, plus_INR, minus_INR by tauto. rewrite DS. lra.
    - replace (tmin + tcod - INR k2 * dt) with (tmin + tcod - INR k1 * dt + INR (k1 - k2) * dt) by (rewrite minus_INR by auto; ring).
      rewrite step_exact, plus_INR, minus_INR by tauto. rewrite DS. lra. }
  assert (HLo : (lc_output_plus l < 40)%nat /\ (lc_output_minus l < 40)%nat).
  { pose proof E1 as E1'. unfold lc_own in E1'. nodes_eqs E1'. lia. }
  assert (ERR : (eta * norm1 cs + 2 * dt) / tcod * tcod = eta * norm1 cs + 2 * dt) by (field; lra).
  assert (TT' : forall b, INR (st + i_ b + D3) * dt <= T).
  { intros b. eapply Rle_trans; [|apply (TT b)]. apply Rmult_le_compat_r; [lra|]. apply le_INR. lia. }
  assert (DSt : dot cs v * tcod = dot_pos cs v * tcod - dot_neg cs v * tcod) by (rewrite DS; ring).
  cbv zeta. split; [|split]; intros HS.
  - assert (RL : (r true <= r false)%nat) by (unfold r, rr; cbn [N net_of t_dt]; fold N; apply step_at_mono; auto; lra).
    assert (IL : (i_ false <= i_ true)%nat) by (destruct (Hst true) as [_ H1]; destruct (Hst false) as [_ H2]; lia).
    destruct CP as [C1 C2]; [lra|].
    assert (LG : spike_log s (lc_output_plus l) = times dt [(st + i_ false + D3)%nat; (st + i_ true + DM)%nat]).
    { apply (se_log _ _ _ _ _ _ _ _ HSe); [rewrite EL; lia|apply HX1; tauto|exact C1|cbn; lia|]. intros k [<-|[<-|[]]]; [apply TT'|apply TT]. }
    assert (LT : (st + i_ false + D3 < st + i_ true + DM)%nat) by lia.
    assert (EI : INR (st + i_ true + DM) * dt - INR (st + i_ false + D3) * dt = INR (r false) * dt - INR (r true) * dt + (INR DM * dt - INR D3 * dt)) by (inr; lra).
    split; [|split].
    + eapply (emits_intro _ _ _ _ dt); [auto|auto|exact LG|exact LT|]. rewrite EI. rewrite ERR. apply Rabs_le. lra.
    + apply (se_log _ _ _ _ _ _ _ _ HSe _ []); [rewrite EL; lia|apply HX1; tauto|exact C2|cbn; auto|intros k []].
    + intros q k1 k2 Ez Eq Ek1 Ek2. eapply (emits_exact _ _ _ _ dt); [auto|auto|exact LG|exact LT|]. rewrite EI. rewrite (EXR q k1 k2); auto. rewrite (EDM q); auto. lra.
  - assert (RL : (r false <= r true)%nat) by (unfold r, rr; cbn [N net_of t_dt]; fold N; apply step_at_mono; auto; lra).
    assert (IL : (i_ true <= i_ false)%nat) by (destruct (Hst true) as [_ H1]; destruct (Hst false) as [_ H2]; lia).
    destruct CM as [C1 C2]; [lra|].
    assert (LG : spike_log s (lc_output_minus l) = times dt [(st + i_ true + D3)%nat; (st + i_ false + DM)%nat]).
    { apply (se_log _ _ _ _ _ _ _ _ HSe); [rewrite EL; lia|apply HX1; tauto|exact C1|cbn; lia|]. intros k [<-|[<-|[]]]; [apply TT'|apply TT]. }
    assert (LT : (st + i_ true + D3 < st + i_ false + DM)%nat) by lia.
    assert (EI : INR (st + i_ false + DM) * dt - INR (st + i_ true + D3) * dt = INR (r true) * dt - INR (r false) * dt + (INR DM * dt - INR D3 * dt)) by (inr; lra).
    split; [|split].
    + eapply (emits_intro _ _ _ _ dt); [auto|auto|exact LG|exact LT|]. rewrite EI. rewrite ERR. apply Rabs_le. lra.
    + apply (se_log _ _ _ _ _ _ _ _ HSe _ []); [rewrite EL; lia|apply HX1; tauto|exact C2|cbn; auto|intros k []].
    + intros q k1 k2 Ez Eq Ek1 Ek2. eapply (emits_exact _ _ _ _ dt); [auto|auto|exact LG|exact LT|]. rewrite EI.
      pose proof (EXR q k1 k2 Ez Eq Ek1 Ek2). pose proof (EDM q Eq). lra.
  - intros HS'. cbn [N net_of t_dt] in CL. destruct CL as [C1 C2]; [lra|lra|].
    split; apply (se_log _ _ _ _ _ _ _ _ HSe _ []); auto; try (rewrite EL; lia); try (apply HX1; tauto); try (cbn; auto; fail); intros k [].
Qed.
End Sess.

Lemma gap_general dt tmin tcod t0 x : 0 < dt -> 0 < tmin -> 0 <= t0 -> 0 <= x * tcod ->
  Rabs (dt * (INR (step_at dt (t0 + 1 + (tmin + x * tcod)) + step_at dt 1) - INR (step_at dt (t0 + 1) + step_at dt (1 + tmin))) - x * tcod) <= 2 * dt.
Proof.
  intros Hdt Htm Ht Hx. destruct (step_diff dt (t0 + 1) (tmin + x * tcod) Hdt ltac:(lra) ltac:(lra)) as (_ & Q & _).
  destruct (step_diff dt 1 tmin Hdt ltac:(lra) ltac:(lra)) as (_ & Q' & _). apply Rabs_def2 in Q. apply Rabs_def2 in Q'.
  rewrite !plus_INR. apply Rabs_le. lra.
Qed.
Lemma gap_grid dt tmin tcod t0 x q k : 0 < dt -> 0 < tmin -> 0 <= t0 -> tmin = INR q * dt -> x * tcod = INR k * dt ->
  Rabs (dt * (INR (step_at dt (t0 + 1 + (tmin + x * tcod)) + step_at dt 1) - INR (step_at dt (t0 + 1) + step_at dt (1 + tmin))) - x * tcod) <= 0.
Proof.
  intros Hdt Htm Ht Eq Ek. pose proof (grid_diff dt (t0 + 1) (tmin + x * tcod) (q + k) Hdt ltac:(lra)) as G1. rewrite plus_INR in G1. specialize (G1 ltac:(lra)).
  pose proof (grid_diff dt 1 tmin q Hdt ltac:(lra) Eq) as G2. rewrite !plus_INR.
  match goal with |- Rabs ?e <= 0 => replace e with 0 by lra end. rewrite Rabs_R0. lra.
Qed.
Lemma sum_grid (h : nat -> R) dt l : 0 < dt -> (forall i, In i l -> exists k, h i = INR k * dt) -> exists k, sumf h l = INR k * dt.
Proof.
  intros Hdt. induction l as [|i l IH]; intros H; [exists 0%nat; unfold sumf; cbn; lra|].
  destruct (H i (or_introl eq_refl)) as (k & Ek). destruct IH as (k' & Ek'); [intros; apply H; right; auto|].
  exists (k + k')%nat. rewrite sumf_cons, Ek, Ek', plus_INR. ring.
Qed.
Lemma rmax_grid x tcod dt z : 0 < dt -> 0 < tcod -> x * tcod = IZR z * dt -> exists k, Rmax 0 x * tcod = INR k * dt.
Proof.
  intros Hdt Htc E. unfold Rmax. destruct (Rle_dec 0 x) as [H|H]; [|exists 0%nat; cbn; lra]. exists (Z.to_nat z).
  rewrite INR_IZR_INZ, Z2Nat.id; auto. apply le_IZR. apply Rmult_le_reg_r with dt; auto. rewrite <- E, Rmult_0_l. apply Rmult_le_pos; lra.
Qed.
Lemma dot_grid cs v tcod dt : 0 < dt -> 0 < tcod -> (forall i, (i < length cs)%nat -> exists z, nth i cs 0 * v i * tcod = IZR z * dt) ->
  exists k1 k2, dot_pos cs v * tcod = INR k1 * dt /\ dot_neg cs v * tcod = INR k2 * dt.
Proof.
  intros Hdt Htc H. destruct (sum_grid (fun i => tcod * Rmax 0 (nth i cs 0 * v i)) dt (seq 0 (length cs)) Hdt) as (k1 & E1).
  { intros i Hi. apply in_seq in Hi. destruct (H i ltac:(lia)) as (z & Ez). destruct (rmax_grid _ _ _ _ Hdt Htc Ez) as (k & Ek). exists k. lra. }
  destruct (sum_grid (fun i => tcod * Rmax 0 (- (nth i cs 0 * v i))) dt (seq 0 (length cs)) Hdt) as (k2 & E2).
  { intros i Hi. apply in_seq in Hi. destruct (H i ltac:(lia)) as (z & Ez).
    destruct (rmax_grid (- (nth i cs 0 * v i)) tcod dt (- z) Hdt Htc) as (k & Ek); [rewrite opp_IZR; lra|]. exists k. lra. }
  exists k1, k2. rewrite sumf_mult in E1, E2. unfold dot_pos, dot_neg. lra.
Qed.

(** C28: any coefficients, any number of inputs, signed inputs arriving at any times *)
Theorem linear_combinator_run (tmin tcod dt tl T : R) (cs : list R) (v t : nat -> R) nm ord :
  0 < dt < / 50 -> 0 < tcod -> (1 <= length cs)%nat ->
  (forall i, (i < length cs)%nat -> Rabs (v i) <= 1 /\ 0 <= t i <= tl) ->
  1 + 3 * dt + 2 * dt * norm1 cs <= tmin ->
  dot_pos cs v * tcod + 2 * dt * norm1 cs <= tcod -> dot_neg cs v * tcod + 2 * dt * norm1 cs <= tcod ->
  tl + 4 * (tmin + tcod) + 2 * tmin + 21 <= T -> ord_ok ord ->
  exists l s,
    session (LinearCombinatorNetwork (DataEncoder tmin tcod) (length cs) cs nm) lc_mod (DataEncoder tmin tcod) dt (lin_stims cs v t) ord T = Ok (l, s) /\
    (2 * dt * norm1 cs <= dot cs v * tcod ->
       emits s (lc_output_plus l) (DataEncoder tmin tcod) (dot cs v) ((2 * dt * norm1 cs + 2 * dt) / tcod) /\ spike_log s (lc_output_minus l) = []) /\
    (1 / 100 + 2 * dt + 2 * dt * norm1 cs <= - (dot cs v * tcod) ->
       emits s (lc_output_minus l) (DataEncoder tmin tcod) (- dot cs v) ((2 * dt * norm1 cs + 2 * dt) / tcod) /\ spike_log s (lc_output_plus l) = []).
Proof.
  intros [Hdt0 Hdt1] Htc Hn HV Htm Hp Hm HT HO.
  assert (N0 : 0 <= 2 * dt * norm1 cs).
  { apply Rmult_le_pos; [lra|]. rewrite <- (sumf_0 (seq 0 (length cs))). apply sumf_le. intros; apply Rabs_pos. }
  assert (HTm : Tmax (DataEncoder tmin tcod) <> 0) by (unfold Tmax; cbn; lra).
  destruct (LinComb_built (DataEncoder tmin tcod) (length cs) cs nm empty_world inv_empty (neq0 (Tmax (DataEncoder tmin tcod)) HTm) (Nat.le_refl _))
    as (l & w & E & HB & H1 & H2 & H3 & H4 & H5 & H6 & H7 & H8 & H9 & H10).
  rewrite firstn_all in HB. cbn [w_neurons empty_world length Nat.add] in H1, H2, H3, H5, H6, H10.
  destruct (lin_sess (LinearCombinatorNetwork (DataEncoder tmin tcod) (length cs) cs nm) lc_mod (lin_stims cs v t) l w l tmin tcod dt T tl (2 * dt) v t cs ord
    E eq_refl HB H1 H2 H3 H4 H5 H6 H7 H8 H9 H10 eq_refl Hdt0 Hdt1 Htc Hn (fun i Hi => proj1 (HV i Hi)) (fun i Hi => proj2 (HV i Hi)) ltac:(lra) Htm Hp Hm HT HO)
    as (s & Es & CP & CM & CL).
  { intros i Hi. destruct (HV i Hi). apply gap_general; try lra. apply Rmult_le_pos; [apply Rabs_pos|lra]. }
  exists l, s. split; [exact Es|]. split; intros HS; [destruct (CP HS) as (X1 & X2 & _)|destruct (CM HS) as (X1 & X2 & _)]; auto.
Qed.
(** a negative sum closer to 0 than 1/100 time units is lost: no output at all *)
Theorem linear_combinator_lost (tmin tcod dt tl T : R) (cs : list R) (v t : nat -> R) nm ord :
  0 < dt < / 50 -> 0 < tcod -> (1 <= length cs)%nat ->
  (forall i, (i < length cs)%nat -> Rabs (v i) <= 1 /\ 0 <= t i <= tl) ->
  1 + 3 * dt + 2 * dt * norm1 cs <= tmin ->
  dot_pos cs v * tcod + 2 * dt * norm1 cs <= tcod -> dot_neg cs v * tcod + 2 * dt * norm1 cs <= tcod ->
  tl + 4 * (tmin + tcod) + 2 * tmin + 21 <= T -> ord_ok ord ->
  2 * dt * norm1 cs + dt <= - (dot cs v * tcod) <= 1 / 100 - 2 * dt - 2 * dt * norm1 cs ->
  exists l s,
    session (LinearCombinatorNetwork (DataEncoder tmin tcod) (length cs) cs nm) lc_mod (DataEncoder tmin tcod) dt (lin_stims cs v t) ord T = Ok (l, s) /\
    spike_log s (lc_output_plus l) = [] /\ spike_log s (lc_output_minus l) = [].
Proof.
  intros [Hdt0 Hdt1] Htc Hn HV Htm Hp Hm HT HO HD.
  assert (N0 : 0 <= 2 * dt * norm1 cs).
  { apply Rmult_le_pos; [lra|]. rewrite <- (sumf_0 (seq 0 (length cs))). apply sumf_le. intros; apply Rabs_pos. }
  assert (HTm : Tmax (DataEncoder tmin tcod) <> 0) by (unfold Tmax; cbn; lra).
  destruct (LinComb_built (DataEncoder tmin tcod) (length cs) cs nm empty_world inv_empty (neq0 (Tmax (DataEncoder tmin tcod)) HTm) (Nat.le_refl _))
    as (l & w & E & HB & H1 & H2 & H3 & H4 & H5 & H6 & H7 & H8 & H9 & H10).
  rewrite firstn_all in HB. cbn [w_neurons empty_world length Nat.add] in H1, H2, H3, H5, H6, H10.
  destruct (lin_sess (LinearCombinatorNetwork (DataEncoder tmin tcod) (length cs) cs nm) lc_mod (lin_stims cs v t) l w l tmin tcod dt T tl (2 * dt) v t cs ord
    E eq_refl HB H1 H2 H3 H4 H5 H6 H7 H8 H9 H10 eq_refl Hdt0 Hdt1 Htc Hn (fun i Hi => proj1 (HV i Hi)) (fun i Hi => proj2 (HV i Hi)) ltac:(lra) Htm Hp Hm HT HO)
    as (s & Es & CP & CM & CL).
  { intros i Hi. destruct (HV i Hi). apply gap_general; try lra. apply Rmult_le_pos; [apply Rabs_pos|lra]. }
  exists l, s. split; [exact Es|]. apply CL; lra.
Qed.
(** the same when the operands are multiples of the time step: the error no longer grows with the coefficients,
    and vanishes when the products are multiples of the time step too *)
Theorem linear_combinator_grid (tmin tcod dt tl T : R) (q : nat) (cs : list R) (v t : nat -> R) (k : nat -> nat) nm ord :
  0 < dt < / 50 -> 0 < tcod -> (1 <= length cs)%nat ->
  tmin = INR q * dt -> 1 + 3 * dt <= tmin ->
  (forall i, (i < length cs)%nat -> Rabs (v i) <= 1 /\ Rabs (v i) * tcod = INR (k i) * dt /\ 0 <= t i <= tl) ->
  dot_pos cs v <= 1 -> dot_neg cs v <= 1 ->
  tl + 4 * (tmin + tcod) + 2 * tmin + 21 <= T -> ord_ok ord ->
  exists l s,
    session (LinearCombinatorNetwork (DataEncoder tmin tcod) (length cs) cs nm) lc_mod (DataEncoder tmin tcod) dt (lin_stims cs v t) ord T = Ok (l, s) /\
    (0 <= dot cs v ->
       emits s (lc_output_plus l) (DataEncoder tmin tcod) (dot cs v) (2 * dt / tcod) /\ spike_log s (lc_output_minus l) = []) /\
    (1 / 100 + 2 * dt <= - (dot cs v * tcod) ->
       emits s (lc_output_minus l) (DataEncoder tmin tcod) (- dot cs v) (2 * dt / tcod) /\ spike_log s (lc_output_plus l) = []) /\
    ((forall i, (i < length cs)%nat -> exists z, nth i cs 0 * v i * tcod = IZR z * dt) ->
       (0 <= dot cs v -> emits s (lc_output_plus l) (DataEncoder tmin tcod) (dot cs v) 0) /\
       (1 / 100 + 2 * dt <= - (dot cs v * tcod) -> emits s (lc_output_minus l) (DataEncoder tmin tcod) (- dot cs v) 0)).
Proof.
  intros [Hdt0 Hdt1] Htc Hn Eq Htm HV Hp Hm HT HO.
  assert (HTm : Tmax (DataEncoder tmin tcod) <> 0) by (unfold Tmax; cbn; lra).
  destruct (LinComb_built (DataEncoder tmin tcod) (length cs) cs nm empty_world inv_empty (neq0 (Tmax (DataEncoder tmin tcod)) HTm) (Nat.le_refl _))
    as (l & w & E & HB & H1 & H2 & H3 & H4 & H5 & H6 & H7 & H8 & H9 & H10).
  rewrite firstn_all in HB. cbn [w_neurons empty_world length Nat.add] in H1, H2, H3, H5, H6, H10.
  destruct (lin_sess (LinearCombinatorNetwork (DataEncoder tmin tcod) (length cs) cs nm) lc_mod (lin_stims cs v t) l w l tmin tcod dt T tl 0 v t cs ord
    E eq_refl HB H1 H2 H3 H4 H5 H6 H7 H8 H9 H10 eq_refl Hdt0 Hdt1 Htc Hn (fun i Hi => proj1 (HV i Hi)) (fun i Hi => proj2 (proj2 (HV i Hi))) ltac:(lra)
    ltac:(lra) ltac:(rewrite Rmult_0_l; nra) ltac:(rewrite Rmult_0_l; nra) HT HO) as (s & Es & CP & CM & CL).
  { intros i Hi. destruct (HV i Hi) as (_ & K1 & K2). apply (gap_grid dt tmin tcod (t i) _ q (k i)); try lra. }
  rewrite !Rmult_0_l, ?Rplus_0_l in CP, CM. rewrite ?Rplus_0_r in CM.
  assert (CP' : 0 <= dot cs v -> 0 <= dot cs v * tcod) by (intros; apply Rmult_le_pos; lra).
  exists l, s. split; [exact Es|]. split; [|split].
  - intros HS. destruct (CP (CP' HS)) as (X1 & X2 & _); auto.
  - intros HS. destruct (CM HS) as (X1 & X2 & _); auto.
  - intros HZ. destruct (dot_grid cs v tcod dt Hdt0 Htc HZ) as (k1 & k2 & Ek1 & Ek2). split; intros HS.
    + destruct (CP (CP' HS)) as (_ & _ & X). apply (X q k1 k2); auto.
    + destruct (CM HS) as (_ & _ & X). apply (X q k1 k2); auto.
Qed.

(** AdderNetwork *)
Definition add_stims (x y t1 t2 : R) (a : adder_net) : list stim :=
  [SValue (Rabs x) (if Rle_dec 0 x then ad_input1_plus a else ad_input1_minus a) t1;
   SValue (Rabs y) (if Rle_dec 0 y then ad_input2_plus a else ad_input2_minus a) t2].
Theorem adder_run (tmin tcod dt tl T x y t1 t2 : R) (q k1 k2 : nat) nm ord :
  0 < dt < / 50 -> 0 < tcod -> tmin = INR q * dt -> 1 + 3 * dt <= tmin ->
  Rabs x <= 1 -> Rabs y <= 1 -> Rabs (x + y) <= 1 ->
  Rabs x * tcod = INR k1 * dt -> Rabs y * tcod = INR k2 * dt -> 0 <= t1 <= tl -> 0 <= t2 <= tl ->
  tl + 4 * (tmin + tcod) + 2 * tmin + 21 <= T -> ord_ok ord ->
  exists a s,
    session (AdderNetwork (DataEncoder tmin tcod) nm) (fun a => lc_mod (ad_lin a)) (DataEncoder tmin tcod) dt (add_stims x y t1 t2) ord T = Ok (a, s) /\
    (0 <= x + y -> emits s (lc_output_plus (ad_lin a)) (DataEncoder tmin tcod) (x + y) 0 /\ spike_log s (lc_output_minus (ad_lin a)) = []) /\
    (1 / 100 + 2 * dt <= - ((x + y) * tcod) -> emits s (lc_output_minus (ad_lin a)) (DataEncoder tmin tcod) (- (x + y)) 0 /\ spike_log s (lc_output_plus (ad_lin a)) = []).
Proof.
  intros [Hdt0 Hdt1] Htc Eq Htm Hx Hy Hxy Ex Ey Ht1 Ht2 HT HO.
  assert (HTm : Tmax (DataEncoder tmin tcod) <> 0) by (unfold Tmax; cbn; lra).
  destruct (Adder_built (DataEncoder tmin tcod) nm empty_world inv_empty (neq0 (Tmax (DataEncoder tmin tcod)) HTm))
    as (a & w & E & HB & H1 & H2 & H3 & H4 & H5 & H6 & H7 & H8 & H9 & A1 & A2 & A3 & A4 & H10).
  cbn [w_neurons empty_world length Nat.add] in H1, H2, H3, H5, H6, H10.
  set (v := fun i : nat => match i with O => x | _ => y end). set (t := fun i : nat => match i with O => t1 | _ => t2 end).
  set (cs := [1; 1]).
  assert (ED : dot cs v = x + y) by (unfold dot, cs, sumf; cbn; lra).
  assert (EP : dot_pos cs v = Rmax 0 x + Rmax 0 y) by (unfold dot_pos, cs, sumf; cbn; rewrite !Rmult_1_l; lra).
  assert (EN : dot_neg cs v = Rmax 0 (- x) + Rmax 0 (- y)) by (unfold dot_neg, cs, sumf; cbn; rewrite !Rmult_1_l; lra).
  apply Rabs_le_btw in Hxy. pose proof (Rabs_le_btw _ _ Hx) as Hx'. pose proof (Rabs_le_btw _ _ Hy) as Hy'.
  assert (P1 : dot_pos cs v <= 1) by (rewrite EP; unfold Rmax; destruct (Rle_dec 0 x), (Rle_dec 0 y); lra).
  assert (P2 : dot_neg cs v <= 1) by (rewrite EN; unfold Rmax; destruct (Rle_dec 0 (- x)), (Rle_dec 0 (- y)); lra).
  assert (ESt : add_stims x y t1 t2 a = lin_stims cs v t (ad_lin a)).
  { unfold add_stims, lin_stims. cbn [cs length seq map v t]. rewrite A1, A2, A3, A4. destruct (Rle_dec 0 x), (Rle_dec 0 y); reflexivity. }
  assert (HVi : forall i, (i < length cs)%nat -> Rabs (v i) <= 1 /\ 0 <= t i <= tl) by (intros i _; destruct i; auto).
  destruct (lin_sess (AdderNetwork (DataEncoder tmin tcod) nm) (fun a => lc_mod (ad_lin a)) (add_stims x y t1 t2) a w (ad_lin a) tmin tcod dt T tl 0 v t cs ord
    E eq_refl HB H1 H2 H3 H4 H5 H6 H7 H8 H9 H10 ESt Hdt0 Hdt1 Htc ltac:(cbn; lia) (fun i Hi => proj1 (HVi i Hi)) (fun i Hi => proj2 (HVi i Hi)) ltac:(lra)
    ltac:(lra) ltac:(rewrite Rmult_0_l; nra) ltac:(rewrite Rmult_0_l; nra) HT HO) as (s & Es & CP & CM & CL).
  { intros i Hi. destruct i; cbn [v t]; [apply (gap_grid dt tmin tcod t1 _ q k1)|apply (gap_grid dt tmin tcod t2 _ q k2)]; lra. }
  rewrite !Rmult_0_l, ?Rplus_0_l, ED in CP, CM. rewrite ?Rplus_0_r in CM.
  destruct (dot_grid cs v tcod dt Hdt0 Htc) as (m1 & m2 & Em1 & Em2).
  { assert (Z : forall u k, Rabs u * tcod = INR k * dt -> exists z, 1 * u * tcod = IZR z * dt).
    { intros u k Eu. unfold Rabs in Eu. destruct (Rcase_abs u); [exists (- Z.of_nat k)%Z; rewrite opp_IZR|exists (Z.of_nat k)]; rewrite <- INR_IZR_INZ; lra. }
    intros i Hi. destruct i as [|[|]]; [apply (Z x k1 Ex)|apply (Z y k2 Ey)|cbn in Hi; lia]. }
  exists a, s. split; [exact Es|]. split; intros HS.
  - destruct CP as (_ & X2 & X); [apply Rmult_le_pos; lra|]. split; auto. apply (X q m1 m2); auto.
  - destruct (CM HS) as (_ & X2 & X). split; auto. apply (X q m1 m2); auto.
Qed.
