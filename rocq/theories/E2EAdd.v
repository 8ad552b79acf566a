(** AdderNetwork inside a larger network, fed by pairs of spikes on the time grid (C49). *)
From Coq Require Import Arith ZArith Bool List Reals Lra Lia Permutation.
From Verif Require Import Num Heapq Elements Simulator Networks Trace SimTrace SimProps TraceProps NeuronLib NetLib Build BuildNets Bridge MemoryProof Session SimpleNets GeLib InvMem FuncNets SegLib SubNet SMem SyncNet LinComb LinRun.
Import ListNotations.
Open Scope R_scope.
Open Scope list_scope.

(** value of k steps on the output of sign s *)
Definition sval (s : bool) (x : R) : R := if s then x else - x.
Definition pick (s : bool) (k : nat) : nat := if s then k else 0%nat.
Lemma sval_ok s x : 0 <= x -> sgn_ok s (sval s x).
Proof. destruct s; cbn; lra. Qed.
Lemma sval_abs s x : 0 <= x -> Rabs (sval s x) = x.
Proof. intros. destruct s; cbn [sval]; [apply Rabs_right; lra|rewrite Rabs_Ropp; apply Rabs_right; lra]. Qed.
Lemma rmax_pos s k dt tcod : 0 < dt -> 0 < tcod -> Rmax 0 (1 * sval s (INR k * dt / tcod)) * tcod = INR (pick s k) * dt /\
  Rmax 0 (- (1 * sval s (INR k * dt / tcod))) * tcod = INR (pick (negb s) k) * dt.
Proof.
  intros Hdt Htc. assert (0 <= INR k * dt / tcod).
  { apply Rmult_le_pos; [apply Rmult_le_pos; [apply pos_INR|lra]|left; apply Rinv_0_lt_compat; lra]. }
  assert (E : INR k * dt / tcod * tcod = INR k * dt) by (field; lra).
  assert (E0 : 0 * tcod = INR 0 * dt) by (cbn; lra).
  destruct s; cbn [sval pick negb]; rewrite Rmult_1_l, ?Ropp_involutive; split;
    first [rewrite Rmax_right by lra; exact E | rewrite Rmax_left by lra; exact E0].
Qed.

Lemma add_grid N (l : lin_net) dt tmin tcod (p q k1 k2 a1 a2 : nat) (s1 s2 : bool) :
  t_dt N = dt -> 0 < dt -> dt < / 50 -> 0 < tcod -> 1 = INR p * dt -> tmin = INR q * dt -> 1 + 3 * dt <= tmin ->
  lc_in N (1000 / (tmin + tcod)) tmin l [1; 1] ->
  arrs N (lis s1 (lcl (lc_cells l) 0)) 1 [a1; (a1 + q + k1)%nat] -> arrs N (lis (negb s1) (lcl (lc_cells l) 0)) 1 [] ->
  arrs N (lis s2 (lcl (lc_cells l) 1)) 1 [a2; (a2 + q + k2)%nat] -> arrs N (lis (negb s2) (lcl (lc_cells l) 1)) 1 [] ->
  (p <= a1)%nat -> (p <= a2)%nat ->
  let P := (pick s1 k1 + pick s2 k2)%nat in let M := (pick (negb s1) k1 + pick (negb s2) k2)%nat in
  INR P * dt <= tcod -> INR M * dt <= tcod ->
  ((M <= P)%nat -> exists b, spikes_at N (lc_output_plus l) [b; (b + q + (P - M))%nat] /\ spikes_at N (lc_output_minus l) [] /\ (1 <= b)%nat /\
     INR (b + q + (P - M)) * dt <= INR (Nat.max a1 a2) * dt + 4 * (tmin + tcod) + 2 * tmin + 20) /\
  (1 / 100 + 2 * dt <= INR M * dt - INR P * dt -> exists b, spikes_at N (lc_output_minus l) [b; (b + q + (M - P))%nat] /\ spikes_at N (lc_output_plus l) [] /\ (1 <= b)%nat /\
     INR (b + q + (M - P)) * dt <= INR (Nat.max a1 a2) * dt + 4 * (tmin + tcod) + 2 * tmin + 20) /\
  (dt <= INR M * dt - INR P * dt -> INR M * dt - INR P * dt + 2 * dt <= 1 / 100 -> spikes_at N (lc_output_plus l) [] /\ spikes_at N (lc_output_minus l) []).
Proof.
  intros HD Hdt0 Hdt1 Htc Ep Eq Htm HL A1 A1' A2 A2' Hp1 Hp2 P M HP HM.
  set (cs := [1; 1]). set (kk := fun i : nat => match i with O => k1 | _ => k2 end). set (ss := fun i : nat => match i with O => s1 | _ => s2 end).
  set (aa := fun i : nat => match i with O => a1 | _ => a2 end).
  set (v := fun i => sval (ss i) (INR (kk i) * dt / tcod)). set (t := fun i => INR (aa i) * dt - 1).
  assert (Haa : forall i, (p <= aa i)%nat) by (intros [|i]; auto).
  assert (Hpos : forall k : nat, 0 <= INR k * dt / tcod).
  { intros. apply Rmult_le_pos; [apply Rmult_le_pos; [apply pos_INR|lra]|left; apply Rinv_0_lt_compat; lra]. }
  assert (Ek : forall k : nat, INR k * dt / tcod * tcod = INR k * dt) by (intros; field; lra).
  assert (Evt : forall i, Rabs (v i) * tcod = INR (kk i) * dt) by (intros i; unfold v; rewrite sval_abs; auto).
  assert (Hp0 : (1 <= p)%nat) by (destruct p; [cbn in Ep; lra|lia]).
  destruct (rmax_pos s1 k1 dt tcod Hdt0 Htc) as [X1 Y1]. destruct (rmax_pos s2 k2 dt tcod Hdt0 Htc) as [X2 Y2].
  assert (DP : dot_pos cs v * tcod = INR P * dt).
  { assert (E : dot_pos cs v = Rmax 0 (1 * v 0%nat) + Rmax 0 (1 * v 1%nat)) by (unfold dot_pos, cs, sumf; cbn; lra). rewrite E. unfold v, ss, kk, P. rewrite plus_INR, !Rmult_plus_distr_r, X1, X2. lra. }
  assert (DN : dot_neg cs v * tcod = INR M * dt).
  { assert (E : dot_neg cs v = Rmax 0 (- (1 * v 0%nat)) + Rmax 0 (- (1 * v 1%nat))) by (unfold dot_neg, cs, sumf; cbn; lra). rewrite E. unfold v, ss, kk, M. rewrite plus_INR, !Rmult_plus_distr_r, Y1, Y2. lra. }
  assert (Hv : forall i, (i < length cs)%nat -> Rabs (v i) <= 1).
  { intros i Hi. apply Rmult_le_reg_r with tcod; auto. rewrite Evt, Rmult_1_l.
    assert (HK : forall k : nat, (k <= P)%nat \/ (k <= M)%nat -> INR k * dt <= tcod).
    { intros k [Hk|Hk]; apply le_INR in Hk; apply Rmult_le_compat_r with (r := dt) in Hk; lra. }
    apply HK. unfold kk, P, M, pick. destruct i, s1, s2; cbn [negb]; lia. }
  set (tl := INR (Nat.max a1 a2) * dt - 1).
  assert (Ht : forall i, (i < length cs)%nat -> 0 <= t i <= tl).
  { intros i _. unfold t, tl. specialize (Haa i). apply le_INR in Haa. apply Rmult_le_compat_r with (r := dt) in Haa; [|lra]. split; [lra|].
    apply Rplus_le_compat_r, Rmult_le_compat_r; [lra|apply le_INR; unfold aa; destruct i; lia]. }
  assert (Eal : forall i, al N t i = aa i).
  { intros i. unfold al, t. rewrite HD. replace (INR (aa i) * dt - 1 + 1) with (INR (aa i) * dt) by ring. specialize (Haa i). apply step_at_grid; auto. lia. }
  assert (Ebe : forall i, be N tmin tcod v t i = (aa i + q + kk i)%nat).
  { intros i. unfold be, t. rewrite HD, Evt, Eq. replace (INR (aa i) * dt - 1 + 1 + (INR q * dt + INR (kk i) * dt)) with (INR (aa i + q + kk i) * dt) by (rewrite !plus_INR; ring).
    specialize (Haa i). apply step_at_grid; auto. lia. }
  assert (Hgap : forall i, (i < length cs)%nat -> Rabs (t_dt N * (INR (be N tmin tcod v t i + step_at (t_dt N) 1) - INR (al N t i + step_at (t_dt N) (1 + tmin))) - Rabs (v i) * tcod) <= 0).
  { intros i Hi. unfold be, al. rewrite HD. destruct (Ht i Hi). apply (gap_grid dt tmin tcod (t i) _ q (kk i)); auto; lra. }
  assert (HIN : forall i, (i < length cs)%nat -> arrs N (lis (ss i) (lcl (lc_cells l) i)) 1 [al N t i; be N tmin tcod v t i]).
  { intros i Hi. rewrite Eal, Ebe. destruct i as [|[|i]]; cbn in Hi; [exact A1|exact A2|lia]. }
  assert (HNO : forall i, (i < length cs)%nat -> arrs N (lis (negb (ss i)) (lcl (lc_cells l) i)) 1 []).
  { intros i Hi. destruct i as [|[|i]]; cbn in Hi; [exact A1'|exact A2'|lia]. }
  assert (Hgv : forall i, (i < length cs)%nat -> sgn_ok (ss i) (v i)) by (intros i _; apply sval_ok; auto).
  set (T := tl + 4 * (tmin + tcod) + 2 * tmin + 21).
  destruct (lin_timing N tmin tcod T tl 0 v t cs ltac:(lra) ltac:(lra) Htc ltac:(cbn; lia) Hv Ht ltac:(lra) ltac:(lra) ltac:(lra) ltac:(lra) ltac:(unfold T; lra)
    ss Hgv Hgap l HL HIN HNO) as (st & CP & CM & TT & Hst & CL).
  assert (PB : forall s, t_dt N * Psum N tmin cs ss (al N t) (be N tmin tcod v t) s = dots v cs s * tcod).
  { intros s. pose proof (Psum_bound N tmin tcod 0 v t cs ltac:(cbn; lia) ss Hgv Hgap s) as B. apply Rabs_le_btw in B. lra. }
  rewrite HD in *.
  assert (RR : forall s, (rr N tmin tcod cs ss (al N t) (be N tmin tcod v t) s + (if s then P else M) = step_at dt (tmin + tcod))%nat).
  { intros s. unfold rr. rewrite HD, PB.
    assert (Ed : dots v cs s * tcod = INR (if s then P else M) * dt) by (destruct s; cbn [dots]; auto). rewrite Ed.
    assert (INR (if s then P else M) * dt <= tcod) by (destruct s; auto).
    rewrite <- step_exact; auto; [|lra]. f_equal. lra. }
  assert (EDM : step_at dt (tmin + (3 * 1 + 2 * / 100)) = (step_at dt (3 * 1 + 2 * / 100) + q)%nat).
  { rewrite <- step_exact; auto; [|lra]. f_equal. lra. }
  rewrite EDM in *. set (D3 := step_at dt (3 * 1 + 2 * / 100)) in *.
  set (i_ := iv N tmin tcod cs ss (al N t) (be N tmin tcod v t)) in *. set (r := rr N tmin tcod cs ss (al N t) (be N tmin tcod v t)) in *.
  pose proof (RR true) as R1. pose proof (RR false) as R2. cbv iota in R1, R2. destruct (Hst true) as [S0 S1]. destruct (Hst false) as [_ S2].
  rewrite DP, DN, !Rmult_0_l, !Rplus_0_r in *. split; [|split]; intros HS.
  - destruct CP as [C1 C2]; [apply Rmult_le_compat_r; [lra|apply le_INR; auto]|]. exists (st + i_ false + D3)%nat.
    replace (st + i_ false + D3 + q + (P - M))%nat with (st + i_ true + (D3 + q))%nat by lia. split; auto. split; auto. split; [lia|].
    specialize (TT true). unfold T, tl in TT. lra.
  - destruct CM as [C1 C2]; [lra|]. assert (P <= M)%nat. { apply INR_le, Rmult_le_reg_r with dt; auto. lra. }
    exists (st + i_ true + D3)%nat.
    replace (st + i_ true + D3 + q + (M - P))%nat with (st + i_ false + (D3 + q))%nat by lia. split; auto. split; auto. split; [lia|].
    specialize (TT false). unfold T, tl in TT. lra.
  - intros HS'. destruct CL as [C1 C2]; [lra|lra|]. auto.
Qed.
