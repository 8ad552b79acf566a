(** LinearCombinatorNetwork and AdderNetwork on PredSimulator (C56). *)
From Coq Require Import Arith ZArith Bool List Reals Lra Lia Permutation Sorted.
From Verif Require Import Num NumOrd Heapq Elements Networks CancelQueue PredSim PredNeuron NeuronLib NetLib Build BuildNets Trace SimTrace TraceProps Bridge Session SimpleNets InvMem LinComb LinRun PredProofs PredRun PredNet PredMem PredGroup PredSub PredSimple PredSync.
Import ListNotations.
Open Scope list_scope.
Open Scope R_scope.

(** ** an accumulator charged by intervals, then driven to its threshold *)
Section Acc.
Variables dt w : R.
Hypothesis Hdt : 0 < dt. Hypothesis HM : (horizon dt < 2 ^ 64)%Z. Hypothesis Hd5 : dt <= 500. Hypothesis Hw : 0 < w.
(** charged with weight u between b and e *)
Definition span : Type := (R * R * R)%type.
Definition span_hits (p : span) : list (R * (syntype * R)) := [(fst (fst p), (SynGe, snd p)); (snd (fst p), (SynGe, - snd p))].
Definition span_v (p : span) : R := snd p / 100 * (snd (fst p) - fst (fst p)).
Definition span_ok (tl : R) (p : span) : Prop := 0 <= fst (fst p) <= snd (fst p) /\ snd (fst p) <= tl /\ 0 <= snd p.
Lemma U_span tl p t : span_ok tl p -> 0 <= U (span_hits p) t <= span_v p.
Proof.
  destruct p as [[b e] u]. intros (H1 & H2 & H3). cbn [fst snd] in *. unfold span_hits, span_v. usum; cbn [fst snd] in *; rewrite ?Rplus_0_r.
  - replace (u / 100 * (t - b) + - u / 100 * (t - e)) with (u / 100 * (e - b)) by field. split; [apply Rmult_le_pos; lra|lra].
  - split; [apply Rmult_le_pos; lra|]. apply Rmult_le_compat_l; lra.
  - split; [lra|]. rewrite ?Rplus_0_l. apply Rmult_le_pos; lra.
Qed.
Lemma U_spans tl ps t : Forall (span_ok tl) ps -> 0 <= U (flat_map span_hits ps) t <= sumf span_v ps.
Proof.
  induction 1 as [|p ps Hp HF IH]; [unfold U, sumf, sumR; cbn; lra|]. cbn [flat_map]. rewrite U_app, sumf_cons. pose proof (U_span tl p t Hp). lra.
Qed.
Lemma U_spans_end tl ps t : Forall (span_ok tl) ps -> tl <= t -> U (flat_map span_hits ps) t = sumf span_v ps.
Proof.
  intros HF Ht. induction HF as [|p ps Hp HF IH]; [unfold U, sumf, sumR; cbn; lra|]. cbn [flat_map]. rewrite U_app, sumf_cons, IH. f_equal.
  destruct p as [[b e] u]. destruct Hp as (H1 & H2 & H3). unfold span_hits, span_v. cbn [fst snd] in *. usum; cbn [fst snd]; lra.
Qed.
Lemma Upre_ge A t : (forall h, In h A -> fst (snd h) = SynGe) -> Upre A t = U A t.
Proof.
  intros H. apply sumf_ext. intros h Hh. unfold infl. rewrite (H h Hh). destruct (Rlt_dec (fst h) t), (Rle_dec (fst h) t); try lra. replace (fst h) with t by lra. lra.
Qed.
Lemma acc_spans ps tl : 0 <= tl -> Forall (span_ok tl) ps -> sumf span_v ps < 10 -> INR (ramp dt (sumf span_v ps) w) * dt + dt <= 500 ->
  resp dt rest0 (flat_map span_hits ps ++ [(tl, (SynGe, w))]) [tl + INR (ramp dt (sumf span_v ps) w) * dt].
Proof.
  intros Htl HF HV H5. rewrite rest0_pn. set (A := flat_map span_hits ps ++ [(tl, (SynGe, w))]).
  assert (HA : forall h, In h A -> 0 <= fst h <= tl /\ fst (snd h) = SynGe).
  { intros h Hh. unfold A in Hh. apply in_app_or in Hh as [Hh|[<-|[]]]; [|cbn; repeat split; lra]. apply in_flat_map in Hh as (p & Hp & Hh).
    rewrite Forall_forall in HF. destruct (HF p Hp) as (H1 & H2 & H3). destruct Hh as [<-|[<-|[]]]; cbn; repeat split; lra. }
  assert (EG : Gsum A = w).
  { unfold A. rewrite Gsum_app. replace (Gsum (flat_map span_hits ps)) with 0; [unfold Gsum, sumf, sumR; cbn; lra|].
    unfold Gsum. rewrite sumf_flat_map. symmetry. rewrite (sumf_ext _ (fun _ => 0)); [apply sumf_0|]. intros p _. unfold span_hits, sumf, sumR. cbn. lra. }
  assert (EU : forall t, t <= tl -> U A t = U (flat_map span_hits ps) t).
  { intros t Ht. unfold A. rewrite U_app. replace (U [(tl, (SynGe, w))] t) with 0; [lra|]. symmetry. unfold U, sumf, sumR, infl; cbn. destruct (Rle_dec tl t); [|lra]. replace t with tl by lra. lra. }
  rewrite <- (app_nil_r A). replace (sumf span_v ps) with (0 + 0 / 100 * (tl - 0) + U A tl) in * by (rewrite EU, (U_spans_end tl) by (auto; lra); lra).
  replace w with (0 + Gsum A) in H5 |- * at 1 by (rewrite EG; lra).
  eapply (resp_ramp dt Hdt HM A 0 0 0 tl); auto.
  - unfold A. destruct (flat_map span_hits ps); discriminate.
  - intros h Hh. destruct (HA h Hh). split; auto. right; auto.
  - exists (tl, (SynGe, w)). split; auto. unfold A. apply in_or_app. right. left. auto.
  - intros t Ht. rewrite Upre_ge by (intros; apply HA; auto). rewrite EU by lra. pose proof (U_spans tl ps t HF). rewrite (EU tl), (U_spans_end tl) in HV by (auto; lra). split; lra.
  - rewrite EG. lra.
  - intros h [].
  - apply resp_silent; auto; [intros h []|lra|intros; unfold U, sumf, sumR; cbn; lra].
Qed.
End Acc.

(** ** one input cell: plus and minus inputs 0, 1; first spikes 2, 3; last spikes 4, 5 *)
Definition ic_local : list (synapse R) := [syn 0 2 SynV 10 1; syn 0 4 SynV 5 1; syn 1 3 SynV 10 1; syn 1 5 SynV 5 1; syn 2 2 SynV (-10) 1; syn 3 3 SynV (-10) 1].
Definition ic_tgt (c : R) (plus : bool) : nat := if Bool.eqb plus (if Rlt_dec 0 c then true else false) then 0%nat else 1%nat.
Definition ic_out (tmin w : R) (N : nat) (c : R) (b : nat) : list (synapse R) :=
  [syn (4 + b) 9 SynV (10 / INR N) 1; syn (5 + b) 9 SynV (10 / INR N) 1;
   syn (2 + b) (ic_tgt c true) SynGe (Rabs c * w) (1 + tmin); syn (4 + b) (ic_tgt c true) SynGe (- Rabs c * w) 1;
   syn (3 + b) (ic_tgt c false) SynGe (Rabs c * w) (1 + tmin); syn (5 + b) (ic_tgt c false) SynGe (- Rabs c * w) 1].
Definition ic_syns tmin w N c b := map (shs b) ic_local ++ ic_out tmin w N c b.
Lemma ic_syns_R tmin tcod N c x b : tmin + tcod <> 0 -> [li_p x; li_m x; lf_p x; lf_m x; ll_p x; ll_m x] = seq b 6 ->
  lcell_syns (DataEncoder tmin tcod) N 9 0 1 (c, x) = ic_syns tmin (cw tmin tcod) N c b.
Proof.
  intros HT Hx. destruct x as [[[x0 x1] [x2 x3]] [x4 x5]]. cbn [li_p li_m lf_p lf_m ll_p ll_m fst snd seq] in Hx. injection Hx as -> -> -> -> -> ->.
  unfold lcell_syns, ic_syns, ic_out, ic_local, ic_tgt. cbn [li_p li_m lf_p lf_m ll_p ll_m fst snd map app]. rewrite wacc_R.
  unfold ngtb. cbn [nltb R_num]. unfold Rltb, nzero. cbn [nofZ R_num nabs]. fold (cw tmin tcod). destruct (Rlt_dec 0 c); cbn [Bool.eqb]; consts; rewrite <- INR_IZR_INZ; unfold shs, syn; cbn [s_pre s_post s_ty s_w s_delay Nat.add]; repeat (f_equal; try lra).
Qed.
Definition icF (side : bool) (t iv : R) (r : nat) : list R :=
  match r, side with
  | 0%nat, true | 1%nat, false => [t; t + iv]
  | 2%nat, true | 3%nat, false => [t + 1]
  | 4%nat, true | 5%nat, false => [t + iv + 1]
  | _, _ => [] end.
Definition ic_in (side : bool) (t iv : R) (r : nat) : list (R * (syntype * R)) :=
  match r, side with 0%nat, true | 1%nat, false => [(t, (SynV, 10)); (t + iv, (SynV, 10))] | _, _ => [] end.
Lemma ic_resp dt side t iv r : 0 < dt -> (horizon dt < 2 ^ 64)%Z -> dt <= 500 -> 1 < iv -> 0 <= t -> (r < 6)%nat ->
  resp dt rest0 (ic_in side t iv r ++ recv ic_local (icF side t iv) r) (icF side t iv r).
Proof.
  intros Hdt HM Hd Hiv Ht Hr. assert (F1 : resp dt rest0 [(t + 1, (SynV, 10)); (t + iv + 1, (SynV, 10)); (t + 1 + 1, (SynV, -10))] [t + 1]).
  { rewrite rest0_pn. rfire Hdt HM (@nil (R * (syntype * R))) [(t + 1, (SynV, 10))] [(t + iv + 1, (SynV, 10)); (t + 1 + 1, (SynV, -10))]. rsilent Hdt HM. }
  destruct r as [|[|[|[|[|[|r]]]]]]; [..|exfalso; lia]; destruct side; unfold recv, ic_local; cbn [ic_in flat_map syn s_post s_pre s_ty s_w s_delay Nat.eqb fst snd app map icF]; try (apply none; auto; fail).
  1, 2: apply relay2; auto; lra.
  1, 2: exact F1.
  1, 2: apply half2; auto; lra.
Qed.
Lemma ic_local_b y : In y ic_local -> (s_pre y < 6 /\ 2 <= s_post y < 6)%nat.
Proof. intros H. cbn in H. repeat (destruct H as [<-|H]; [cbn; lia|]). destruct H. Qed.
Lemma ic_tgt_b c p : (ic_tgt c p <= 1)%nat. Proof. unfold ic_tgt. destruct (Bool.eqb _ _); lia. Qed.
Lemma ic_shift_out b F n : (n < 2 + b \/ 6 + b <= n)%nat -> recv (map (shs b) ic_local) F n = [].
Proof. intros H. apply recv_out. intros y Hy. apply in_map_iff in Hy as (x & <- & Hx). apply ic_local_b in Hx. cbn. lia. Qed.
Lemma ic_out_no tmin w N c b F n : (2 <= n)%nat -> n <> 9%nat -> recv (ic_out tmin w N c b) F n = [].
Proof.
  intros H1 H2. apply recv_out. intros y Hy. pose proof (ic_tgt_b c true). pose proof (ic_tgt_b c false). unfold ic_out in Hy. cbn [In] in Hy. repeat (destruct Hy as [<-|Hy]; [cbn; lia|]). destruct Hy.
Qed.
Section IC.
Variables tmin w : R. Variable N : nat. Variable c : R. Variable b : nat. Variable side : bool. Variables t iv : R. Variable F : nat -> list R.
Hypothesis HF : forall i, (i < 6)%nat -> F (i + b)%nat = icF side t iv i. Hypothesis Hb : (10 <= b)%nat.
Lemma recv_ic_sync : recv (ic_syns tmin w N c b) F 9 = [(t + iv + 1 + 1, (SynV, 10 / INR N))].
Proof.
  unfold ic_syns. rewrite recv_app, ic_shift_out by lia. pose proof (ic_tgt_b c true). pose proof (ic_tgt_b c false).
  unfold recv, ic_out. cbn [flat_map syn s_post s_pre s_ty s_w s_delay app Nat.eqb]. rewrite (HF 4), (HF 5) by lia.
  destruct (Nat.eqb_spec (ic_tgt c true) 9), (Nat.eqb_spec (ic_tgt c false) 9); try lia. destruct side; reflexivity.
Qed.
Lemma recv_ic_acc n : (n <= 1)%nat -> recv (ic_syns tmin w N c b) F n = if (ic_tgt c side =? n)%nat then span_hits (t + 1 + (1 + tmin), t + iv + 1 + 1, Rabs c * w) else [].
Proof.
  intros Hn. unfold ic_syns. rewrite recv_app, ic_shift_out by lia. unfold recv, ic_out. cbn [flat_map syn s_post s_pre s_ty s_w s_delay app].
  rewrite (HF 2), (HF 3), (HF 4), (HF 5) by lia. replace (9 =? n)%nat with false by (symmetry; apply Nat.eqb_neq; lia). cbn [app].
  unfold span_hits. cbn [fst snd]. rewrite <- Ropp_mult_distr_l. destruct side; cbn [icF map]; destruct (ic_tgt c true =? n)%nat, (ic_tgt c false =? n)%nat; reflexivity.
Qed.
Lemma recv_ic_in r : (r < 6)%nat -> recv (ic_syns tmin w N c b) F (r + b) = recv ic_local (icF side t iv) r.
Proof.
  intros Hr. unfold ic_syns. rewrite recv_app, recv_shift, ic_out_no, app_nil_r by lia. apply recv_ext. intros y Hy. apply HF. apply ic_local_b in Hy. lia.
Qed.
Lemma recv_ic_out n : (2 <= n)%nat -> n <> 9%nat -> (n < b \/ 6 + b <= n)%nat -> recv (ic_syns tmin w N c b) F n = [].
Proof. intros. unfold ic_syns. rewrite recv_app, ic_shift_out, ic_out_no by lia. reflexivity. Qed.
End IC.

(** ** the links between the parts: accumulators 0-3, inter_minus 4, inter_plus 5, outputs 6, 7, start 8, sync 9, synchronizer 10-30, subtractor 31-39 *)
Definition lc_links (tmin w : R) : list (synapse R) :=
  [syn 12 31 SynV 10 1; syn 22 32 SynV 10 1; syn 37 8 SynV 10 1; syn 38 8 SynV 10 1; syn 37 6 SynV 10 1; syn 38 7 SynV 10 1; syn 8 8 SynV (-10) 1;
   syn 5 11 SynV 10 1; syn 4 21 SynV 10 1; syn 9 0 SynGe w 1; syn 9 1 SynGe w 1; syn 9 2 SynGe w 1; syn 9 3 SynGe w 1;
   syn 0 5 SynV 10 1; syn 1 4 SynV 10 1; syn 2 5 SynV 10 (1 + tmin); syn 3 4 SynV 10 (1 + tmin)].
Definition lc_L (tmin tcod : R) (cs : list R) : list (synapse R) :=
  flat_map (fun k => ch_syns (cw tmin tcod) (10 / INR 2 + / 10000) 10 (11 + 10 * k)) (seq 0 2) ++ map (shs 31) (sb_syns_num tmin) ++ lc_links tmin (cw tmin tcod) ++
  flat_map (fun i => ic_syns tmin (cw tmin tcod) (length cs) (nth i cs 0) (40 + 6 * i)) (seq 0 (length cs)).
Lemma lcells_syns tmin tcod N : tmin + tcod <> 0 -> forall cs xs b, lcells_at b xs -> length xs = length cs ->
  flat_map (lcell_syns (DataEncoder tmin tcod) N 9 0 1) (combine cs xs) = flat_map (fun i => ic_syns tmin (cw tmin tcod) N (nth i cs 0) (b + 6 * i)) (seq 0 (length cs)).
Proof.
  intros HT. induction cs as [|c cs IH]; intros [|x xs] b HC HL; try discriminate; auto. cbn [lcells_at] in HC. destruct HC as [Hx HC].
  cbn [combine length seq flat_map]. rewrite (ic_syns_R tmin tcod N c x b HT Hx). replace (b + 6 * 0)%nat with b by lia. cbn [nth]. f_equal.
  rewrite (IH xs _ HC) by (injection HL; auto). rewrite <- (seq_shift (length cs) 0), !flat_map_concat_map, map_map. f_equal. apply map_ext. intros k. cbn [nth]. f_equal. lia.
Qed.
Lemma lc_syns_R tmin tcod cs (l : lin_net) : tmin + tcod <> 0 -> lc_own l = seq 0 10 -> sy_sync (lc_sync_net l) = 10%nat -> cells_at 11 (sy_cells (lc_sync_net l)) ->
  length (sy_cells (lc_sync_net l)) = 2%nat -> sb_nodes (lc_sub_net l) = seq 31 9 -> lcells_at 40 (lc_cells l) -> length (lc_cells l) = length cs ->
  lc_syns (DataEncoder tmin tcod) (length cs) cs l = lc_L tmin tcod cs.
Proof.
  intros HT Ho Hz HC HCl Hs HX HXl. unfold lc_syns, lc_L. unfold lc_own in Ho. cbn [seq] in Ho. injection Ho as -> -> -> -> -> -> -> -> -> ->.
  rewrite (lcells_syns tmin tcod _ HT cs _ _ HX HXl). unfold sy_syns. rewrite Hz. rewrite (cells_at_syns tmin tcod 2 10 HT _ _ HC), HCl.
  unfold lc_ch. destruct (sy_cells (lc_sync_net l)) as [|[[x1 y1] m1] [|[[x2 y2] m2] [|]]]; try discriminate. cbn [cells_at c_in c_out c_mem fst snd] in HC. destruct HC as (-> & -> & _ & -> & -> & _).
  destruct (lc_sub_net l) as [a j0 j1 j2 j3 j4 j5 j6 j7 j8]. unfold sb_nodes in Hs. cbn in Hs. injection Hs as -> -> -> -> -> -> -> -> ->.
  f_equal. f_equal; [|f_equal].
  - unfold sb_syns, sb_syns_num, sb_d3. cbn [sb_input1 sb_input2 sb_sync1 sb_sync2 sb_inb1 sb_inb2 sb_output_plus sb_output_minus sb_zero]. consts.
    unfold shs, syn. cbn [map s_pre s_post s_ty s_w s_delay Nat.add]. repeat (f_equal; try lra).
  - unfold lc_links. cbn [nth c_in c_out fst snd sb_input1 sb_input2 sb_output_plus sb_output_minus]. rewrite wacc_R. fold (cw tmin tcod). consts. unfold syn. repeat (f_equal; try lra).
Qed.

(** ** the subtractor with both inputs starting at e *)
Definition lsF (tmin e h1 h2 : R) (n : nat) : list R :=
  match n with
  | 0%nat => [e; e + h1] | 1%nat => [e; e + h2] | 2%nat => [e + h1 + 1] | 3%nat => [e + h2 + 1]
  | 4%nat => inb1F (e + h1 + 1) (e + h2 + 1) | 5%nat => inb2F (e + h1 + 1) (e + h2 + 1)
  | 6%nat => plusF tmin (e + h1 + 1) (e + h2 + 1) | 7%nat => minusF tmin (e + h1 + 1) (e + h2 + 1) | 8%nat => zeroF (e + h1 + 1) (e + h2 + 1) | _ => [] end.
Definition ls_in (e h1 h2 : R) (n : nat) : list (R * (syntype * R)) :=
  match n with 0%nat => [(e, (SynV, 10)); (e + h1, (SynV, 10))] | 1%nat => [(e, (SynV, 10)); (e + h2, (SynV, 10))] | _ => [] end.
Lemma ls_resp dt tmin e h1 h2 n : 0 < dt -> (horizon dt < 2 ^ 64)%Z -> dt <= 500 -> 0 < tmin -> 0 <= e -> 0 < h1 -> 0 < h2 -> (n < 9)%nat ->
  resp dt rest0 (ls_in e h1 h2 n ++ recv (sb_syns_num tmin) (lsF tmin e h1 h2) n) (lsF tmin e h1 h2 n).
Proof.
  intros Hdt HM Hd5 Htm He H1 H2 Hn. set (s1 := e + h1 + 1). set (s2 := e + h2 + 1).
  assert (P1 : 0 <= s1) by (unfold s1; lra). assert (P2 : 0 <= s2) by (unfold s2; lra).
  destruct n as [|[|[|[|[|[|[|[|[|n]]]]]]]]]; [..|exfalso; lia]; unfold recv, sb_syns_num; cbn [ls_in flat_map syn s_post s_pre s_ty s_w s_delay Nat.eqb fst snd app map lsF]; fold s1 s2.
  - apply relay2; auto; lra.
  - apply relay2; auto; lra.
  - eapply resp_perm; [|apply (half2 dt Hdt HM Hd5 (e + 1) s1); unfold s1; lra]. unfold s1; perms.
  - eapply resp_perm; [|apply (half2 dt Hdt HM Hd5 (e + 1) s2); unfold s2; lra]. unfold s2; perms.
  - eapply resp_perm; [|apply (core_inb1 dt tmin s1 s2 Hdt HM Hd5 Htm P1 P2)]. unfold inb1H, V1. cbn [map app]. rewrite ?app_nil_r. apply Permutation_refl.
  - eapply resp_perm; [|apply (core_inb2 dt tmin s1 s2 Hdt HM Hd5 Htm P1 P2)]. unfold inb2H, V1. cbn [map app]. rewrite ?app_nil_r. apply Permutation_refl.
  - eapply resp_perm; [|apply (core_plus dt tmin s1 s2 Hdt HM Hd5 Htm P1 P2)]. unfold plusH, V1. cbn [map app]. rewrite ?app_nil_r. apply Permutation_refl.
  - eapply resp_perm; [|apply (core_minus dt tmin s1 s2 Hdt HM Hd5 Htm P1 P2)]. unfold minusH, V1. cbn [map app]. rewrite ?app_nil_r. apply Permutation_refl.
  - eapply resp_perm; [|apply (core_zero dt s1 s2 Hdt HM Hd5 P1 P2)]. unfold zeroH, V1. cbn [map app]. rewrite ?app_nil_r. apply Permutation_refl.
Qed.
Lemma sb_num_b tmin y : In y (sb_syns_num tmin) -> (s_pre y < 9 /\ s_post y < 9)%nat.
Proof. intros H. cbn in H. repeat (destruct H as [<-|H]; [cbn; lia|]). destruct H. Qed.
Lemma recv_sb_out tmin b F n : (n < b \/ 9 + b <= n)%nat -> recv (map (shs b) (sb_syns_num tmin)) F n = [].
Proof. intros H. apply recv_out. intros y Hy. apply in_map_iff in Hy as (x & <- & Hx). apply sb_num_b in Hx. cbn. lia. Qed.
(** at most one output fires, twice, more than 1 ms apart *)
Lemma pm_cases tmin s1 s2 : 1 < tmin -> 0 <= s1 -> 0 <= s2 ->
  (exists p q, plusF tmin s1 s2 = [p; q] /\ minusF tmin s1 s2 = [] /\ 0 <= p /\ p + 1 < q) \/ (exists p q, plusF tmin s1 s2 = [] /\ minusF tmin s1 s2 = [p; q] /\ 0 <= p /\ p + 1 < q) \/ (plusF tmin s1 s2 = [] /\ minusF tmin s1 s2 = []).
Proof.
  intros Ht H1 H2. unfold plusF, minusF. destruct (Rle_dec s2 s1).
  - left. eexists. eexists. split; [reflexivity|]. split; auto. lra.
  - right. destruct (Rlt_dec (s2 - s1) (/ 100)); [right; auto|left]. eexists. eexists. split; auto. split; [reflexivity|]. lra.
Qed.

Section Lin.
Variables tmin tcod dt s : R. Variable cs : list R. Variables v t : nat -> R. Variable ins : list (nat * R).
Hypothesis Hdt : 0 < dt. Hypothesis HM : (horizon dt < 2 ^ 64)%Z. Hypothesis Hd5 : tmin + tcod + 2 * dt <= 500.
Hypothesis Htc : 0 < tcod. Hypothesis Htm : 1 < tmin. Hypothesis Htd : dt < tmin.
Local Notation N := (length cs).
Local Notation g := (cg tmin tcod dt).
Local Notation w := (cw tmin tcod).
Definition liv (i : nat) : R := tmin + Rabs (v i) * tcod.
Definition lside (i : nat) : bool := if Rle_dec 0 (v i) then true else false.
Hypothesis HN : (1 <= N)%nat.
Hypothesis Hv : forall i, (i < N)%nat -> 0 <= t i /\ t i + liv i + 2 <= s.
Hypothesis Hlast : exists i, (i < N)%nat /\ t i + liv i + 2 = s.
Hypothesis Hp : dot_pos cs v <= 1. Hypothesis Hm : dot_neg cs v <= 1.
Hypothesis HI : forall i r, (i < N)%nat -> (r < 6)%nat -> Permutation (ic_in (lside i) (t i) (liv i) r) (insof ins (r + (40 + 6 * i))).
Hypothesis HI0 : forall n, (n < 40)%nat -> insof ins n = [].
Definition kp : R := INR (step_at dt (tmin + tcod - dot_pos cs v * tcod)) * dt.
Definition km : R := INR (step_at dt (tmin + tcod - dot_neg cs v * tcod)) * dt.
Definition Ap : option (R * R) := Some (s + 3 + kp, tmin + g - kp).
Definition Am : option (R * R) := Some (s + 3 + km, tmin + g - km).
Definition rel : R := Rmax (s + 3 + kp) (s + 3 + km) + 4 + g + 1.
Definition hp : R := ck tmin tcod dt (tmin + g - kp).
Definition hm : R := ck tmin tcod dt (tmin + g - km).
Local Notation e := (rel + 5).
Local Notation PF := (plusF tmin (e + hp + 1) (e + hm + 1)).
Local Notation MF := (minusF tmin (e + hp + 1) (e + hm + 1)).
Definition lcF (n : nat) : list R :=
  match n with
  | 0%nat => [s + 1 + kp] | 1%nat => [s + 1 + km] | 2%nat | 3%nat => [s + 1 + g]
  | 4%nat => [s + 2 + km; s + 2 + tmin + g] | 5%nat => [s + 2 + kp; s + 2 + tmin + g]
  | 6%nat => map (fun u => u + 1) PF | 7%nat => map (fun u => u + 1) MF | 8%nat => firstn 1 (map (fun u => u + 1) (PF ++ MF)) | 9%nat => [s] | 10%nat => [rel]
  | _ => if (n <? 21)%nat then chF tmin tcod dt Ap (Some rel) (n - 11) else if (n <? 31)%nat then chF tmin tcod dt Am (Some rel) (n - 21) else
         if (n <? 40)%nat then lsF tmin e hp hm (n - 31) else icF (lside ((n - 40) / 6)) (t ((n - 40) / 6)%nat) (liv ((n - 40) / 6)) ((n - 40) mod 6)
  end.
Lemma lcF_big n : (11 <= n)%nat -> lcF n = if (n <? 21)%nat then chF tmin tcod dt Ap (Some rel) (n - 11) else if (n <? 31)%nat then chF tmin tcod dt Am (Some rel) (n - 21) else
         if (n <? 40)%nat then lsF tmin e hp hm (n - 31) else icF (lside ((n - 40) / 6)) (t ((n - 40) / 6)%nat) (liv ((n - 40) / 6)) ((n - 40) mod 6).
Proof. intros H. do 11 (destruct n as [|n]; [lia|]). reflexivity. Qed.
Lemma lcF_p r : (r < 10)%nat -> lcF (r + 11) = chF tmin tcod dt Ap (Some rel) r.
Proof. intros H. rewrite lcF_big by lia. destruct (Nat.ltb_spec (r + 11) 21); [|lia]. f_equal. lia. Qed.
Lemma lcF_m r : (r < 10)%nat -> lcF (r + 21) = chF tmin tcod dt Am (Some rel) r.
Proof. intros H. rewrite lcF_big by lia. destruct (Nat.ltb_spec (r + 21) 21); [lia|]. destruct (Nat.ltb_spec (r + 21) 31); [|lia]. f_equal. lia. Qed.
Lemma lcF_s r : (r < 9)%nat -> lcF (r + 31) = lsF tmin e hp hm r.
Proof. intros H. rewrite lcF_big by lia. destruct (Nat.ltb_spec (r + 31) 21); [lia|]. destruct (Nat.ltb_spec (r + 31) 31); [lia|]. destruct (Nat.ltb_spec (r + 31) 40); [|lia]. f_equal. lia. Qed.
Lemma lcF_i i r : (r < 6)%nat -> lcF (r + (40 + 6 * i)) = icF (lside i) (t i) (liv i) r.
Proof.
  intros H. rewrite lcF_big by lia. destruct (Nat.ltb_spec (r + (40 + 6 * i)) 21); [lia|]. destruct (Nat.ltb_spec (r + (40 + 6 * i)) 31); [lia|]. destruct (Nat.ltb_spec (r + (40 + 6 * i)) 40); [lia|].
  replace (r + (40 + 6 * i) - 40)%nat with (r + i * 6)%nat by lia. rewrite Nat.div_add, Nat.mod_add, Nat.div_small, Nat.mod_small by lia. reflexivity.
Qed.
(** bounds *)
Lemma dots_pos : 0 <= dot_pos cs v /\ 0 <= dot_neg cs v.
Proof. unfold dot_pos, dot_neg. split; (induction (seq 0 N) as [|i l IH]; [unfold sumf, sumR; cbn; lra|]); rewrite sumf_cons; apply Rplus_le_le_0_compat; auto; apply Rmax_l. Qed.
Lemma k_b d : 0 <= d <= 1 -> tmin <= tmin + tcod - d * tcod <= INR (step_at dt (tmin + tcod - d * tcod)) * dt /\ INR (step_at dt (tmin + tcod - d * tcod)) * dt < tmin + tcod - d * tcod + dt /\ INR (step_at dt (tmin + tcod - d * tcod)) * dt <= g.
Proof.
  intros Hd. assert (0 <= d * tcod <= tcod) by (split; [apply Rmult_le_pos; lra|rewrite <- (Rmult_1_l tcod) at 2; apply Rmult_le_compat_r; lra]).
  pose proof (step_at_bounds dt (tmin + tcod - d * tcod) Hdt ltac:(lra)). split; [lra|]. split; [lra|]. unfold cg. apply Rmult_le_compat_r; [lra|]. apply le_INR, step_at_mono; auto. lra.
Qed.
Lemma kp_b : tmin <= kp <= g. Proof. pose proof dots_pos. pose proof (k_b (dot_pos cs v) ltac:(lra)) as (A & B & C). fold kp in *. lra. Qed.
Lemma km_b : tmin <= km <= g. Proof. pose proof dots_pos. pose proof (k_b (dot_neg cs v) ltac:(lra)) as (A & B & C). fold km in *. lra. Qed.
Lemma iv_big i : tmin <= liv i. Proof. unfold liv. assert (0 <= Rabs (v i) * tcod) by (apply Rmult_le_pos; [apply Rabs_pos|lra]). lra. Qed.
Lemma s_pos : 0 <= s.
Proof. destruct Hlast as (i & Hi & <-). destruct (Hv i Hi). pose proof (iv_big i). lra. Qed.
Lemma s_ge1 : 1 <= s.
Proof. destruct Hlast as (i & Hi & <-). destruct (Hv i Hi). pose proof (iv_big i). lra. Qed.
Lemma ap_ok : ch_ok tmin tcod dt Ap (Some rel) /\ ch_ok tmin tcod dt Am (Some rel).
Proof.
  pose proof kp_b. pose proof km_b. pose proof s_pos. pose proof (cg_b tmin tcod dt Hdt Htc Htm). pose proof (Rmax_l (s + 3 + kp) (s + 3 + km)). pose proof (Rmax_r (s + 3 + kp) (s + 3 + km)).
  split; (split; [intros a j EE; injection EE as <- <-; lra|]); intros q EE; injection EE as <-; (split; [unfold rel; lra|]); intros a j EE; injection EE as <- <-; unfold rel; lra.
Qed.
Lemma h_pos : 0 < hp /\ 0 < hm.
Proof. destruct ap_ok as [A B]. apply (held_b tmin tcod dt Hdt Htc Htm Htd) in A, B. cbn [held Ap Am] in A, B. fold hp hm in *. lra. Qed.
Definition spans (n : nat) : list span :=
  flat_map (fun i => if (ic_tgt (nth i cs 0%R) (lside i) =? n)%nat then [(t i + 1 + (1 + tmin), t i + liv i + 1 + 1, Rabs (nth i cs 0) * w)] else []) (seq 0 N).
Lemma spans_v : sumf span_v (spans 0) = w / 100 * (dot_pos cs v * tcod) /\ sumf span_v (spans 1) = w / 100 * (dot_neg cs v * tcod).
Proof.
  assert (G : forall n d, (forall i, (if (ic_tgt (nth i cs 0%R) (lside i) =? n)%nat then Rabs (nth i cs 0) * Rabs (v i) else 0) = d i) -> sumf span_v (spans n) = w / 100 * (sumf d (seq 0 N) * tcod)).
  { intros n d H. unfold spans. rewrite sumf_flat_map. replace (w / 100 * (sumf d (seq 0 N) * tcod)) with (w / 100 * tcod * sumf d (seq 0 N)) by ring. rewrite <- sumf_mult.
    apply sumf_ext. intros i _. rewrite <- H. destruct (ic_tgt (nth i cs 0%R) (lside i) =? n)%nat; unfold sumf, sumR; cbn [map fold_right]; [|ring]. unfold span_v. cbn [fst snd]. unfold liv. field. }
  split; apply G; intros i; unfold ic_tgt, lside; set (c := nth i cs 0%R).
  - destruct (Rle_dec 0 (v i)) as [P|P], (Rlt_dec 0 c) as [Q|Q]; cbn [Bool.eqb Nat.eqb]; rewrite <- ?Rabs_mult.
    + assert (0 <= c * v i) by (apply Rmult_le_pos; lra). rewrite Rmax_right, Rabs_right by lra. reflexivity.
    + assert (0 <= (- c) * v i) by (apply Rmult_le_pos; lra). rewrite Rmax_left by lra. reflexivity.
    + assert (0 <= c * (- v i)) by (apply Rmult_le_pos; lra). rewrite Rmax_left by lra. reflexivity.
    + assert (0 <= (- c) * (- v i)) by (apply Rmult_le_pos; lra). rewrite Rmax_right, Rabs_right by lra. reflexivity.
  - destruct (Rle_dec 0 (v i)) as [P|P], (Rlt_dec 0 c) as [Q|Q]; cbn [Bool.eqb Nat.eqb]; rewrite <- ?Rabs_mult.
    + assert (0 <= c * v i) by (apply Rmult_le_pos; lra). rewrite Rmax_left by lra. reflexivity.
    + assert (0 <= (- c) * v i) by (apply Rmult_le_pos; lra). rewrite Rmax_right by lra. rewrite <- Rabs_Ropp, Rabs_right by lra. reflexivity.
    + assert (0 <= c * (- v i)) by (apply Rmult_le_pos; lra). rewrite Rmax_right by lra. rewrite <- Rabs_Ropp, Rabs_right by lra. reflexivity.
    + assert (0 <= (- c) * (- v i)) by (apply Rmult_le_pos; lra). rewrite Rmax_left by lra. reflexivity.
Qed.
Lemma spans_ok n : Forall (span_ok (s + 1)) (spans n).
Proof.
  apply Forall_forall. intros p H. unfold spans in H. apply in_flat_map in H as (i & Hi & H). apply in_seq in Hi. destruct (Hv i ltac:(lia)) as [H1 H2]. pose proof (iv_big i). pose proof (cw_pos tmin tcod Htc Htm).
  destruct (ic_tgt _ _ =? n)%nat; [|destruct H]. destruct H as [<-|[]]. unfold span_ok. cbn [fst snd]. repeat split; try lra. apply Rmult_le_pos; [apply Rabs_pos|lra].
Qed.
Lemma ramp_d d : 0 <= d <= 1 -> ramp dt (w / 100 * (d * tcod)) w = step_at dt (tmin + tcod - d * tcod) /\ w / 100 * (d * tcod) < 10.
Proof.
  intros Hd. split; [unfold ramp; f_equal; unfold cw; field; lra|]. assert (0 <= d * tcod <= tcod) by (split; [apply Rmult_le_pos; lra|rewrite <- (Rmult_1_l tcod) at 2; apply Rmult_le_compat_r; lra]).
  unfold cw. apply Rmult_lt_reg_r with (tmin + tcod); [lra|]. replace (1000 / (tmin + tcod) / 100 * (d * tcod) * (tmin + tcod)) with (10 * (d * tcod)) by (field; lra). lra.
Qed.
Lemma acc_resp : resp dt rest0 (flat_map span_hits (spans 0) ++ [(s + 1, (SynGe, w))]) [s + 1 + kp] /\ resp dt rest0 (flat_map span_hits (spans 1) ++ [(s + 1, (SynGe, w))]) [s + 1 + km].
Proof.
  pose proof dots_pos as Hd. pose proof (cw_pos tmin tcod Htc Htm) as Hw. pose proof s_pos as Hs. destruct spans_v as [E0 E1]. pose proof (cg_b tmin tcod dt Hdt Htc Htm).
  destruct (ramp_d (dot_pos cs v) ltac:(lra)) as [R0 L0]. destruct (ramp_d (dot_neg cs v) ltac:(lra)) as [R1 L1].
  pose proof kp_b as K0. pose proof km_b as K1. split.
  - replace kp with (INR (ramp dt (sumf span_v (spans 0)) w) * dt) by (rewrite E0, R0; reflexivity).
    apply (acc_spans dt w Hdt HM); auto; try lra; [apply spans_ok|rewrite E0, R0; fold kp; lra].
  - replace km with (INR (ramp dt (sumf span_v (spans 1)) w) * dt) by (rewrite E1, R1; reflexivity).
    apply (acc_spans dt w Hdt HM); auto; try lra; [apply spans_ok|rewrite E1, R1; fold km; lra].
Qed.
Lemma sync_fires : resp dt rest0 (flat_map (fun i => [(t i + liv i + 1 + 1, (SynV, 10 / INR N))]) (seq 0 N)) [s].
Proof.
  assert (HL : length (flat_map (fun i => [(t i + liv i + 1 + 1, (SynV, 10 / INR N))]) (seq 0 N)) = N).
  { rewrite <- (fm_single (fun i => (t i + liv i + 1 + 1, (SynV, 10 / INR N)))), map_length, seq_length. reflexivity. }
  assert (HNR : 1 <= INR N) by (apply (le_INR 1); auto). assert (Hw : 0 < 10 / INR N) by (apply Rdiv_lt_0_compat; lra).
  apply (release_fire dt (10 / INR N) Hdt HM); [lra|auto| | | |].
  - intros h Hh. apply in_flat_map in Hh as (i & Hi & [<-|[]]). apply in_seq in Hi. destruct (Hv i ltac:(lia)). pose proof (iv_big i). repeat split; cbn; lra.
  - destruct Hlast as (i & Hi & E). eexists. split; [apply in_flat_map; exists i; split; [apply in_seq; lia|left; reflexivity]|]. cbn. lra.
  - rewrite HL. apply Req_le. field. lra.
  - left. rewrite HL, minus_INR by auto. change (INR 1) with 1. replace ((INR N - 1) * (10 / INR N)) with (10 - 10 / INR N) by (field; lra). lra.
Qed.
Lemma rel_fires : resp dt rest0 [(s + 3 + kp + 4 + g + 1, (SynV, 10 / INR 2 + / 10000)); (s + 3 + km + 4 + g + 1, (SynV, 10 / INR 2 + / 10000))] [rel].
Proof.
  pose proof kp_b. pose proof km_b. pose proof s_pos. pose proof (cg_b tmin tcod dt Hdt Htc Htm). change (INR 2) with 2.
  pose proof (Rmax_l (s + 3 + kp) (s + 3 + km)). pose proof (Rmax_r (s + 3 + kp) (s + 3 + km)).
  apply (release_fire dt (10 / 2 + / 10000) Hdt HM); [lra|lra| | | |].
  - intros h [<-|[<-|[]]]; repeat split; cbn; unfold rel; lra.
  - unfold rel, Rmax. destruct (Rle_dec (s + 3 + kp) (s + 3 + km)); [exists (s + 3 + km + 4 + g + 1, (SynV, 10 / 2 + / 10000))|exists (s + 3 + kp + 4 + g + 1, (SynV, 10 / 2 + / 10000))]; (split; [|reflexivity]); [right; left|left]; reflexivity.
  - cbn. lra.
  - left. cbn. lra.
Qed.
Lemma start_resp : resp dt rest0 (map (fun u => (u + 1, (SynV, 10))) PF ++ map (fun u => (u + 1, (SynV, 10))) MF ++ map (fun u => (u + 1, (SynV, -10))) (firstn 1 (map (fun u => u + 1) (PF ++ MF)))) (firstn 1 (map (fun u => u + 1) (PF ++ MF))).
Proof.
  assert (Hd : dt <= 500) by lra.
  assert (F1 : forall p q, 0 <= p -> p + 1 < q -> resp dt rest0 [(p + 1, (SynV, 10)); (q + 1, (SynV, 10)); (p + 1 + 1, (SynV, -10))] [p + 1]).
  { intros p q H0 H1. rewrite rest0_pn. rfire Hdt HM (@nil (R * (syntype * R))) [(p + 1, (SynV, 10))] [(q + 1, (SynV, 10)); (p + 1 + 1, (SynV, -10))]. rsilent Hdt HM. }
  assert (E0 : 0 <= e). { pose proof s_pos. pose proof kp_b. pose proof (Rmax_l (s + 3 + kp) (s + 3 + km)). pose proof (cg_b tmin tcod dt Hdt Htc Htm). unfold rel. lra. }
  destruct h_pos as [Hhp Hhm].
  destruct (pm_cases tmin (e + hp + 1) (e + hm + 1) Htm ltac:(lra) ltac:(lra)) as [(p & q & -> & -> & H0 & H1)|[(p & q & -> & -> & H0 & H1)|[-> ->]]]; cbn [map app firstn]; auto.
  apply none; auto.
Qed.
(** what every neuron receives *)
Local Notation Lk := (lc_links tmin w).
Local Notation Lc := (fun i => ic_syns tmin w N (nth i cs 0) (40 + 6 * i)).
Local Notation wz := (10 / INR 2 + / 10000).
Lemma cells_none n : (2 <= n < 40)%nat -> n <> 9%nat -> flat_map (fun i => recv (Lc i) lcF n) (seq 0 N) = [].
Proof. intros H1 H2. apply fm_none. intros i _. apply recv_ic_out; lia. Qed.
Lemma cells_acc n : (n <= 1)%nat -> flat_map (fun i => recv (Lc i) lcF n) (seq 0 N) = flat_map span_hits (spans n).
Proof.
  intros H. unfold spans. rewrite fm_fm. apply fm_ext_in. intros i Hi. rewrite (recv_ic_acc tmin w N (nth i cs 0) (40 + 6 * i) (lside i) (t i) (liv i) lcF); [|intros r Hr; apply lcF_i; auto|lia|auto].
  destruct (ic_tgt (nth i cs 0%R) (lside i) =? n)%nat; cbn [flat_map]; rewrite ?app_nil_r; reflexivity.
Qed.
Lemma cells_sync : flat_map (fun i => recv (Lc i) lcF 9) (seq 0 N) = flat_map (fun i => [(t i + liv i + 1 + 1, (SynV, 10 / INR N))]) (seq 0 N).
Proof. apply fm_ext_in. intros i Hi. apply (recv_ic_sync tmin w N (nth i cs 0) (40 + 6 * i) (lside i) (t i) (liv i) lcF); [intros r Hr; apply lcF_i; auto|lia]. Qed.
Lemma links_out n : (n < 40)%nat \/ recv Lk lcF n = [].
Proof.
  destruct (Nat.ltb_spec n 40) as [H|H]; [left; auto|right]. apply recv_out. intros y Hy. unfold lc_links in Hy. cbn [In] in Hy. repeat (destruct Hy as [<-|Hy]; [cbn; lia|]). destruct Hy.
Qed.
Lemma lc_split n : received 10 (lc_L tmin tcod cs) ins lcF n =
  insof ins n ++ (recv (ch_syns w wz 10 11) lcF n ++ recv (ch_syns w wz 10 21) lcF n) ++ recv (map (shs 31) (sb_syns_num tmin)) lcF n ++ recv Lk lcF n ++ flat_map (fun i => recv (Lc i) lcF n) (seq 0 N).
Proof.
  rewrite received_split. unfold lc_L. rewrite !recv_app, !recv_fm. f_equal. f_equal. cbn [seq flat_map]. rewrite app_nil_r. reflexivity.
Qed.
Lemma sorted_pm : StronglySorted Rlt PF /\ StronglySorted Rlt MF.
Proof.
  assert (E0 : 0 <= e). { pose proof s_pos. pose proof kp_b. pose proof (Rmax_l (s + 3 + kp) (s + 3 + km)). pose proof (cg_b tmin tcod dt Hdt Htc Htm). unfold rel. lra. }
  destruct h_pos as [Hhp Hhm].
  destruct (pm_cases tmin (e + hp + 1) (e + hm + 1) Htm ltac:(lra) ltac:(lra)) as [(p & q & -> & -> & H0 & H1)|[(p & q & -> & -> & H0 & H1)|[-> ->]]]; split; repeat (apply SSorted_cons || apply SSorted_nil); repeat (apply Forall_cons || apply Forall_nil); lra.
Qed.
Lemma sorted_map (l : list R) : StronglySorted Rlt l -> StronglySorted Rlt (map (fun u => u + 1) l).
Proof. induction 1 as [|a l Hs IH HF]; cbn [map]; constructor; auto. apply Forall_forall. intros y Hy. apply in_map_iff in Hy as (x & <- & Hx). rewrite Forall_forall in HF. specialize (HF x Hx). lra. Qed.
Lemma own_resp n : (n < 11)%nat -> resp dt rest0 (received 10 (lc_L tmin tcod cs) ins lcF n) (lcF n).
Proof.
  intros Hn. assert (Hd : dt <= 500) by lra. pose proof kp_b as Kp. pose proof km_b as Km. pose proof s_pos as Hs. pose proof (cg_b tmin tcod dt Hdt Htc Htm) as Hg. pose proof (cw_pos tmin tcod Htc Htm) as Hw.
  rewrite lc_split, HI0, recv_sb_out by lia. cbn [app].
  destruct (Nat.eq_dec n 10) as [->|N10].
  - rewrite !recv_ch_z by lia. rewrite cells_none by lia. rewrite (lcF_p 8), (lcF_m 8) by lia. cbn [chF Ap Am map]. unfold recv, lc_links. cbn [flat_map syn s_post s_pre s_ty s_w s_delay Nat.eqb app]. exact rel_fires.
  - rewrite !recv_ch_out by lia. cbn [app]. assert (SG : 0 <= s - 1) by (pose proof s_ge1; lra). destruct n as [|[|[|[|[|[|[|[|[|[|n]]]]]]]]]]; [..|exfalso; lia].
    + rewrite cells_acc by lia. unfold recv at 1, lc_links. cbn [flat_map syn s_post s_pre s_ty s_w s_delay Nat.eqb app]. change (lcF 9) with [s]. cbn [map]. eapply resp_perm; [|apply acc_resp]. apply Permutation_app_comm.
    + rewrite cells_acc by lia. unfold recv at 1, lc_links. cbn [flat_map syn s_post s_pre s_ty s_w s_delay Nat.eqb app]. change (lcF 9) with [s]. cbn [map]. eapply resp_perm; [|apply acc_resp]. apply Permutation_app_comm.
    + rewrite cells_none by lia. unfold recv, lc_links. cbn [flat_map syn s_post s_pre s_ty s_w s_delay Nat.eqb app]. change (lcF 9) with [s]. cbn [map lcF].
      pose proof (cell_acc tmin tcod dt (s - 1) Hdt HM Hd5 Htc Htm) as CA. replace (s - 1 + 1 + 1) with (s + 1) in CA by ring. replace (s - 1 + 2 + g) with (s + 1 + g) in CA by ring. exact CA.
    + rewrite cells_none by lia. unfold recv, lc_links. cbn [flat_map syn s_post s_pre s_ty s_w s_delay Nat.eqb app]. change (lcF 9) with [s]. cbn [map lcF].
      pose proof (cell_acc tmin tcod dt (s - 1) Hdt HM Hd5 Htc Htm) as CA. replace (s - 1 + 1 + 1) with (s + 1) in CA by ring. replace (s - 1 + 2 + g) with (s + 1 + g) in CA by ring. exact CA.
    + rewrite cells_none by lia. unfold recv, lc_links. cbn [flat_map syn s_post s_pre s_ty s_w s_delay Nat.eqb app map lcF].
      replace (s + 1 + km + 1) with (s + 2 + km) by ring. replace (s + 1 + g + (1 + tmin)) with (s + 2 + tmin + g) by ring. apply relay2; auto; lra.
    + rewrite cells_none by lia. unfold recv, lc_links. cbn [flat_map syn s_post s_pre s_ty s_w s_delay Nat.eqb app map lcF].
      replace (s + 1 + kp + 1) with (s + 2 + kp) by ring. replace (s + 1 + g + (1 + tmin)) with (s + 2 + tmin + g) by ring. apply relay2; auto; lra.
    + rewrite cells_none by lia. unfold recv, lc_links. cbn [flat_map syn s_post s_pre s_ty s_w s_delay Nat.eqb app]. rewrite !app_nil_r. change (lcF 37) with PF. change (lcF 6) with (map (fun u => u + 1) PF).
      apply (relays dt 10 Hdt HM Hd ltac:(lra)); [apply sorted_map, sorted_pm|]. rewrite map_map. apply Permutation_refl.
    + rewrite cells_none by lia. unfold recv, lc_links. cbn [flat_map syn s_post s_pre s_ty s_w s_delay Nat.eqb app]. rewrite !app_nil_r. change (lcF 38) with MF. change (lcF 7) with (map (fun u => u + 1) MF).
      apply (relays dt 10 Hdt HM Hd ltac:(lra)); [apply sorted_map, sorted_pm|]. rewrite map_map. apply Permutation_refl.
    + rewrite cells_none by lia. unfold recv, lc_links. cbn [flat_map syn s_post s_pre s_ty s_w s_delay Nat.eqb app]. rewrite !app_nil_r. change (lcF 37) with PF. change (lcF 38) with MF. change (lcF 8) with (firstn 1 (map (fun u => u + 1) (PF ++ MF))).
      exact start_resp.
    + rewrite cells_sync. unfold recv, lc_links. cbn [flat_map syn s_post s_pre s_ty s_w s_delay Nat.eqb app lcF]. exact sync_fires.
Qed.
(** what the other parts receive over the links *)
Lemma links_ch k r : (k = 11 \/ k = 21)%nat -> (r < 10)%nat -> recv Lk lcF (r + k) = if (r =? 0)%nat then ch_in (if (k =? 11)%nat then Ap else Am) (Some rel) 0 else [].
Proof.
  intros Hk Hr. pose proof (eq_refl : lcF 5 = [s + 2 + kp; s + 2 + tmin + g]) as E5. pose proof (eq_refl : lcF 4 = [s + 2 + km; s + 2 + tmin + g]) as E4.
  destruct (Nat.eqb_spec r 0) as [->|H0].
  - unfold recv, lc_links. destruct Hk as [-> | ->]; cbn [flat_map syn s_post s_pre s_ty s_w s_delay Nat.eqb Nat.add app]; rewrite ?E4, ?E5; cbn [ch_in Ap Am map app]; repeat (f_equal; try ring).
  - apply recv_out. intros y Hy. unfold lc_links in Hy. cbn [In] in Hy. destruct Hk as [-> | ->]; repeat (destruct Hy as [<-|Hy]; [cbn; lia|]); destruct Hy.
Qed.
Lemma links_sub r : (r < 9)%nat -> recv Lk lcF (r + 31) = ls_in e hp hm r.
Proof.
  intros Hr. pose proof (lcF_p 1 ltac:(lia)) as E5. pose proof (lcF_m 1 ltac:(lia)) as E4. cbn [Nat.add chF held Ap Am] in E4, E5. fold hp in E5. fold hm in E4.
  unfold recv, lc_links. destruct r as [|[|[|[|[|[|[|[|[|r]]]]]]]]]; [..|exfalso; lia]; cbn [flat_map syn s_post s_pre s_ty s_w s_delay Nat.eqb Nat.add app]; rewrite ?E4, ?E5; cbn [ls_in map app]; repeat (f_equal; try ring).
Qed.
Lemma lc_resp n : (n < 40 + 6 * N)%nat -> resp dt rest0 (received 10 (lc_L tmin tcod cs) ins lcF n) (lcF n).
Proof.
  intros Hn. assert (Hd : dt <= 500) by lra. destruct (Nat.ltb_spec n 11) as [C|C]; [apply own_resp; auto|].
  destruct ap_ok as [Okp Okm]. rewrite lc_split. destruct (Nat.ltb_spec n 21) as [C1|C1].
  - replace n with (n - 11 + 11)%nat by lia. set (r := (n - 11)%nat). assert (Hr : (r < 10)%nat) by (unfold r; lia).
    rewrite HI0, cells_none, recv_sb_out, (recv_ch_out _ _ 10 21), links_ch by lia. rewrite (recv_ch_in w wz 10 11 lcF (chF tmin tcod dt Ap (Some rel)) r); [|lia|auto|intros; apply lcF_p; auto].
    rewrite lcF_p by auto. cbn [app Nat.eqb]. rewrite !app_nil_r. eapply resp_perm; [|apply (ch_resp tmin tcod dt Hdt HM Hd5 Htc Htm Htd Ap (Some rel) r); auto].
    change (lcF 10) with [rel]. destruct r as [|[|[|[|[|[|[|[|[|[|r']]]]]]]]]]; [..|exfalso; lia]; cbn [Nat.eqb ch_in map app Ap]; rewrite ?app_nil_r; try apply Permutation_refl; apply Permutation_app_comm.
  - destruct (Nat.ltb_spec n 31) as [C2|C2]; [|destruct (Nat.ltb_spec n 40) as [C3|C3]].
    + replace n with (n - 21 + 21)%nat by lia. set (r := (n - 21)%nat). assert (Hr : (r < 10)%nat) by (unfold r; lia).
      rewrite HI0, cells_none, recv_sb_out, (recv_ch_out _ _ 10 11), links_ch by lia. rewrite (recv_ch_in w wz 10 21 lcF (chF tmin tcod dt Am (Some rel)) r); [|lia|auto|intros; apply lcF_m; auto].
      rewrite lcF_m by auto. cbn [app Nat.eqb]. rewrite !app_nil_r. eapply resp_perm; [|apply (ch_resp tmin tcod dt Hdt HM Hd5 Htc Htm Htd Am (Some rel) r); auto].
      change (lcF 10) with [rel]. destruct r as [|[|[|[|[|[|[|[|[|[|r']]]]]]]]]]; [..|exfalso; lia]; cbn [Nat.eqb ch_in map app Am]; rewrite ?app_nil_r; try apply Permutation_refl; apply Permutation_app_comm.
    + replace n with (n - 31 + 31)%nat by lia. set (r := (n - 31)%nat). assert (Hr : (r < 9)%nat) by (unfold r; lia).
      rewrite HI0, cells_none, !recv_ch_out, links_sub, recv_shift, lcF_s by lia. cbn [app]. rewrite app_nil_r.
      rewrite (recv_ext _ _ (lsF tmin e hp hm)) by (intros y Hy; apply lcF_s; apply sb_num_b in Hy; lia).
      eapply resp_perm; [apply Permutation_app_comm|]. destruct h_pos. apply ls_resp; auto; try lra. pose proof s_pos. pose proof kp_b. pose proof (Rmax_l (s + 3 + kp) (s + 3 + km)). pose proof (cg_b tmin tcod dt Hdt Htc Htm). unfold rel. lra.
    + set (i := ((n - 40) / 6)%nat). set (r := ((n - 40) mod 6)%nat). assert (Hr : (r < 6)%nat) by (apply Nat.mod_upper_bound; lia).
      assert (En : n = (r + (40 + 6 * i))%nat) by (pose proof (Nat.div_mod (n - 40) 6 ltac:(lia)); fold i r in H; lia). assert (Hi : (i < N)%nat) by lia. rewrite En.
      rewrite recv_sb_out, !recv_ch_out by lia. destruct (links_out (r + (40 + 6 * i))) as [K| ->]; [lia|]. cbn [app].
      rewrite (fm_seq_only _ N i Hi) by (intros j Hj Hji; apply recv_ic_out; lia). rewrite (recv_ic_in tmin w N (nth i cs 0) (40 + 6 * i) (lside i) (t i) (liv i) lcF); [|intros q Hq; apply lcF_i; auto|lia|auto].
      rewrite lcF_i by auto. eapply resp_perm; [apply Permutation_app_tail, HI; auto|]. destruct (Hv i Hi). pose proof (iv_big i). apply ic_resp; auto; lra.
Qed.
End Lin.

(** ** sessions *)
Section LinSession.
Variables tmin tcod dt : R. Variable cs : list R. Variables v t : nat -> R.
Hypothesis HD : dt_ok dt. Hypothesis Hd5 : tmin + tcod + 2 * dt <= 500.
Hypothesis Htc : 0 < tcod. Hypothesis Htm : 1 < tmin. Hypothesis Htd : dt < tmin.
Local Notation N := (length cs).
Hypothesis HN : (1 <= N)%nat.
Hypothesis Ht : forall i, (i < N)%nat -> 0 <= t i.
Hypothesis Hp : dot_pos cs v <= 1. Hypothesis Hm : dot_neg cs v <= 1.
Local Notation g := (cg tmin tcod dt).
Local Notation P := (kp tmin tcod dt cs v).
Local Notation M := (km tmin tcod dt cs v).
(** the synchronizer turns (Tmin + g - k) into C - k *)
Lemma ck_shift k : (INR k * dt <= g) -> ck tmin tcod dt (tmin + g - INR k * dt) = INR (step_at dt (2 * tmin + tcod)) * dt - INR k * dt.
Proof.
  intros Hk. destruct (dt_ok_horizon dt HD) as [Hdt HM]. unfold ck. pose proof (cg_b tmin tcod dt Hdt Htc Htm).
  pose proof (step_at_plus dt (2 * tmin + tcod - INR k * dt) k Hdt ltac:(lra)) as E. replace (2 * tmin + tcod - INR k * dt + INR k * dt) with (2 * tmin + tcod) in E by ring. rewrite E, plus_INR.
  replace (tmin + tcod - (g - (tmin + g - INR k * dt))) with (2 * tmin + tcod - INR k * dt) by ring. ring.
Qed.
Lemma h_diff : hp tmin tcod dt cs v - hm tmin tcod dt cs v = M - P.
Proof.
  destruct (dt_ok_horizon dt HD) as [Hdt HM]. pose proof (kp_b tmin tcod dt cs v Hdt Htc Htm Hp) as A. pose proof (km_b tmin tcod dt cs v Hdt Htc Htm Hm) as B.
  unfold hp, hm. unfold kp, km in *. rewrite !ck_shift by lra. ring.
Qed.
Definition lnode (i : nat) : nat := ((if lside v i then 0 else 1) + (40 + 6 * i))%nat.
Definition lins : list (nat * R) := flat_map (fun i => [(lnode i, t i); (lnode i, t i + liv tmin tcod v i)]) (seq 0 N).
Lemma lins_in i r : (i < N)%nat -> (r < 6)%nat -> insof lins (r + (40 + 6 * i)) = ic_in (lside v i) (t i) (liv tmin tcod v i) r.
Proof.
  intros Hi Hr. unfold insof, lins. rewrite fm_fm. rewrite (fm_seq_only _ N i Hi).
  - unfold lnode. set (b := (40 + 6 * i)%nat). cbn [flat_map fst snd]. destruct (lside v i).
    + destruct (Nat.eqb_spec (0 + b) (r + b)) as [E|E]; [replace r with 0%nat by lia; reflexivity|]. destruct r as [|[|r]]; [lia|reflexivity|]. destruct r as [|[|[|[|]]]]; reflexivity.
    + destruct (Nat.eqb_spec (1 + b) (r + b)) as [E|E]; [replace r with 1%nat by lia; reflexivity|]. destruct r as [|[|r]]; [reflexivity|lia|]. destruct r as [|[|[|[|]]]]; reflexivity.
  - intros j Hj Hji. cbn [flat_map fst snd]. unfold lnode. destruct (Nat.eqb_spec ((if lside v j then 0 else 1) + (40 + 6 * j)) (r + (40 + 6 * i))) as [E|E]; [destruct (lside v j); lia|reflexivity].
Qed.
Lemma lins_out n : (n < 40)%nat -> insof lins n = [].
Proof.
  intros Hn. unfold insof, lins. rewrite fm_fm. apply fm_none. intros i _. cbn [flat_map fst snd]. unfold lnode.
  destruct (Nat.eqb_spec ((if lside v i then 0 else 1) + (40 + 6 * i)) n) as [E|E]; [destruct (lside v i); lia|reflexivity].
Qed.
Lemma lin_psession {A} (bl : B R A) md (st : A -> list stim) a w (l : lin_net) :
  bl empty_world = Ok (a, w) -> built empty_world w (md a) (lc_syns (DataEncoder tmin tcod) N cs l) ->
  lc_own l = seq 0 10 -> sy_sync (lc_sync_net l) = 10%nat -> cells_at 11 (sy_cells (lc_sync_net l)) ->
  length (sy_cells (lc_sync_net l)) = 2%nat -> sb_nodes (lc_sub_net l) = seq 31 9 -> lcells_at 40 (lc_cells l) -> length (lc_cells l) = N ->
  length (w_neurons w) = (40 + 6 * N)%nat -> Forall (stim_ok (40 + 6 * N)) (st a) -> pins (DataEncoder tmin tcod) (st a) = lins ->
  exists K, forall fuel, (K <= fuel)%nat -> exists s u, psession bl md (DataEncoder tmin tcod) dt st fuel = Some (Ok (a, s)) /\
    pspike_log s (lc_output_plus l) = map (fun x => x + 1) (plusF tmin (u + (M - P)) u) /\ pspike_log s (lc_output_minus l) = map (fun x => x + 1) (minusF tmin (u + (M - P)) u).
Proof.
  intros E HB H1 H2 H3 H4 H5 H6 H7 H8 HF HPi. destruct (dt_ok_horizon dt HD) as [Hdt HM]. assert (HT : tmin + tcod <> 0) by lra.
  destruct (last_of N (fun i => t i + liv tmin tcod v i + 2) HN) as (j & Hj & Hmax). cbv beta in Hmax. set (s0 := t j + liv tmin tcod v j + 2).
  rewrite (lc_syns_R tmin tcod cs l HT H1 H2 H3 H4 H5 H6 H7) in HB.
  edestruct (psession_resp bl md a w _ (DataEncoder tmin tcod) dt st (lcF tmin tcod dt s0 cs v t) E HB Hdt HM) as [K HK].
  - rewrite H8. exact HF.
  - intros y Hy. unfold lc_L in Hy. rewrite !in_app_iff in Hy. destruct Hy as [Hy|[Hy|[Hy|Hy]]].
    + apply in_flat_map in Hy as (k & _ & Hy). unfold ch_syns in Hy. apply in_app_or in Hy as [Hy|[<-|[<-|[]]]]; [|cbn; lra|cbn; lra].
      apply in_map_iff in Hy as (x & <- & Hx). cbn in Hx. repeat (destruct Hx as [<-|Hx]; [cbn; lra|]). destruct Hx.
    + apply in_map_iff in Hy as (x & <- & Hx). cbn in Hx. repeat (destruct Hx as [<-|Hx]; [cbn; lra|]). destruct Hx.
    + cbn in Hy. repeat (destruct Hy as [<-|Hy]; [cbn; lra|]). destruct Hy.
    + apply in_flat_map in Hy as (k & _ & Hy). unfold ic_syns in Hy. apply in_app_or in Hy as [Hy|Hy].
      * apply in_map_iff in Hy as (x & <- & Hx). cbn in Hx. repeat (destruct Hx as [<-|Hx]; [cbn; lra|]). destruct Hx.
      * cbn in Hy. repeat (destruct Hy as [<-|Hy]; [cbn; lra|]). destruct Hy.
  - rewrite H8, HPi. intros n Hn. 
    assert (X1 : forall i, (i < N)%nat -> 0 <= t i /\ t i + liv tmin tcod v i + 2 <= s0) by (intros i Hi; split; [apply Ht; auto|apply Hmax; auto]).
    assert (X2 : exists i, (i < N)%nat /\ t i + liv tmin tcod v i + 2 = s0) by (exists j; split; auto).
    assert (X3 : forall i r, (i < N)%nat -> (r < 6)%nat -> Permutation (ic_in (lside v i) (t i) (liv tmin tcod v i) r) (insof lins (r + (40 + 6 * i)))) by (intros i r Hi Hr; rewrite lins_in by auto; apply Permutation_refl).
    apply lc_resp; auto using lins_out.
  - exists K. intros fuel Hf. destruct (HK fuel Hf) as (s & Es & HL). exists s, (rel tmin tcod dt s0 cs v + 5 + hm tmin tcod dt cs v + 1). split; [exact Es|].
    unfold lc_own in H1. cbn [seq] in H1. injection H1 as _ _ _ _ _ _ -> -> _ _. rewrite !HL by lia. cbn [lcF].
    pose proof h_diff as HH. split; f_equal; f_equal; lra.
Qed.
(** the two counts against the weighted sums *)
Lemma PM_diff : dot cs v * tcod - dt < M - P < dot cs v * tcod + dt /\ (0 <= dot cs v -> P <= M) /\ (P <= M \/ dt <= P - M).
Proof.
  destruct (dt_ok_horizon dt HD) as [Hdt HM]. pose proof (dots_pos cs v) as [D1 D2]. rewrite dot_split.
  destruct (k_b tmin tcod dt Hdt Htc Htm (dot_pos cs v) ltac:(lra)) as (A1 & A2 & A3). destruct (k_b tmin tcod dt Hdt Htc Htm (dot_neg cs v) ltac:(lra)) as (B1 & B2 & B3).
  unfold kp, km. split; [rewrite Rmult_minus_distr_r; lra|]. split.
  - intros H0. apply Rmult_le_compat_r; [lra|]. apply le_INR, step_at_mono; auto. assert (dot_neg cs v * tcod <= dot_pos cs v * tcod) by (apply Rmult_le_compat_r; lra). lra.
  - destruct (Nat.le_gt_cases (step_at dt (tmin + tcod - dot_pos cs v * tcod)) (step_at dt (tmin + tcod - dot_neg cs v * tcod))) as [C|C].
    + left. apply Rmult_le_compat_r; [lra|]. apply le_INR; auto.
    + right. apply (le_INR (S _)) in C. rewrite S_INR in C. rewrite <- Rmult_minus_distr_r. rewrite <- (Rmult_1_l dt) at 1. apply Rmult_le_compat_r; lra.
Qed.
Definition lin_result (s : psim R) (p m : nat) : Prop :=
  (0 <= dot cs v -> pemits s p (DataEncoder tmin tcod) (dot cs v) (dt / tcod) /\ pspike_log s m = []) /\
  (/ 100 + dt <= - (dot cs v * tcod) \/ / 100 <= dt <= - (dot cs v * tcod) -> pemits s m (DataEncoder tmin tcod) (- dot cs v) (dt / tcod) /\ pspike_log s p = []) /\
  (dt <= - (dot cs v * tcod) <= / 100 - dt -> pspike_log s p = [] /\ pspike_log s m = []).
Lemma lin_result_intro s p m u : pspike_log s p = map (fun x => x + 1) (plusF tmin (u + (M - P)) u) -> pspike_log s m = map (fun x => x + 1) (minusF tmin (u + (M - P)) u) -> lin_result s p m.
Proof.
  intros H1 H2. destruct (dt_ok_horizon dt HD) as [Hdt HM]. destruct PM_diff as (A & B & C). unfold plusF in H1. unfold minusF in H2. assert (Et : dt / tcod * tcod = dt) by (field; lra). split; [|split].
  - intros H0. specialize (B H0). destruct (Rle_dec u (u + (M - P))); [|lra]. split; auto. eapply pemits_intro; [auto|exact H1|lra|]. rewrite Et. apply Rabs_le. lra.
  - intros H0. assert (HK : dt <= P - M) by (destruct C; lra). destruct (Rle_dec u (u + (M - P))); [lra|]. destruct (Rlt_dec (u - (u + (M - P))) (/ 100)) as [X|X]; [lra|]. split; auto.
    eapply pemits_intro; [auto|exact H2|lra|]. rewrite Et. apply Rabs_le. lra.
  - intros H0. destruct (Rle_dec u (u + (M - P))); [lra|]. destruct (Rlt_dec (u - (u + (M - P))) (/ 100)) as [X|X]; [|lra]. split; auto.
Qed.
End LinSession.

(** a value per channel (its start time is ignored), or two spikes per channel at any time *)
Definition lin_ch (v : nat -> R) (l : lin_net) (i : nat) : nat := nth i (if Rle_dec 0 (v i) then lc_input_plus l else lc_input_minus l) 0%nat.
Definition lin_spikes (tmin tcod : R) (cs : list R) (v t : nat -> R) (l : lin_net) : list stim :=
  flat_map (fun i => [SSpike (lin_ch v l i) (t i); SSpike (lin_ch v l i) (t i + (tmin + Rabs (v i) * tcod))]) (seq 0 (length cs)).
Lemma lin_ch_node v l i : lcells_at 40 (lc_cells l) -> (i < length (lc_cells l))%nat -> lc_input_plus l = map li_p (lc_cells l) -> lc_input_minus l = map li_m (lc_cells l) -> lin_ch v l i = lnode v i.
Proof.
  intros HC Hi E8 E9. pose proof (lcells_at_nth (lc_cells l) 40 i HC Hi) as X. cbv zeta in X. unfold lin_ch, lnode, lside. rewrite E8, E9.
  cbn [seq] in X. assert (X1 : li_p (lcl (lc_cells l) i) = (40 + 6 * i)%nat) by congruence. assert (X2 : li_m (lcl (lc_cells l) i) = S (40 + 6 * i)) by congruence.
  destruct (Rle_dec 0 (v i)); [change 0%nat with (li_p lcell0) at 1|change 0%nat with (li_m lcell0) at 1]; rewrite map_nth; fold (lcl (lc_cells l) i); auto.
Qed.
Section LinTheorems.
Variables tmin tcod dt : R. Variable cs : list R. Variables v : nat -> R.
Hypothesis HD : dt_ok dt. Hypothesis Htc : 0 < tcod. Hypothesis Htm : 1 < tmin. Hypothesis Htd : dt < tmin. Hypothesis Hd5 : tmin + tcod + 2 * dt <= 500.
Local Notation N := (length cs).
Hypothesis HN : (1 <= N)%nat.
Hypothesis Hp : dot_pos cs v <= 1. Hypothesis Hm : dot_neg cs v <= 1.
Section Net.
Variable l : lin_net.
Hypothesis H6 : lcells_at 40 (lc_cells l). Hypothesis H7 : length (lc_cells l) = N.
Hypothesis H8 : lc_input_plus l = map li_p (lc_cells l). Hypothesis H9 : lc_input_minus l = map li_m (lc_cells l).
Lemma node_b i : (i < N)%nat -> (lnode v i < 40 + 6 * N)%nat. Proof. unfold lnode. destruct (lside v i); lia. Qed.
Lemma values_stims t0 : (forall i, (i < N)%nat -> Rabs (v i) <= 1) ->
  Forall (stim_ok (40 + 6 * N)) (lin_stims cs v t0 l) /\ pins (DataEncoder tmin tcod) (lin_stims cs v t0 l) = lins tmin tcod cs v (fun _ => 0).
Proof.
  intros Hv. split.
  - apply Forall_forall. intros y Hy. apply in_map_iff in Hy as (i & <- & Hi). apply in_seq in Hi. fold (lin_ch v l i). rewrite lin_ch_node by (auto; lia). cbn. split; [split; [apply Rabs_pos|apply Hv; lia]|apply node_b; lia].
  - unfold pins, lin_stims, lins. rewrite (fm_single _ (seq 0 N)), fm_fm. apply fm_ext_in. intros i Hi. apply in_seq in Hi. fold (lin_ch v l i). rewrite lin_ch_node by (auto; lia).
    cbn [flat_map pstim DataEncoder Tmin Tcod app]. unfold liv. rewrite Rplus_0_l. reflexivity.
Qed.
Lemma spikes_stims t : Forall (stim_ok (40 + 6 * N)) (lin_spikes tmin tcod cs v t l) /\ pins (DataEncoder tmin tcod) (lin_spikes tmin tcod cs v t l) = lins tmin tcod cs v t.
Proof.
  split.
  - apply Forall_forall. intros y Hy. apply in_flat_map in Hy as (i & Hi & Hy). apply in_seq in Hi. rewrite lin_ch_node in Hy by (auto; lia). destruct Hy as [<-|[<-|[]]]; cbn; apply node_b; lia.
  - unfold pins, lin_spikes, lins. rewrite fm_fm. apply fm_ext_in. intros i Hi. apply in_seq in Hi. rewrite lin_ch_node by (auto; lia). reflexivity.
Qed.
End Net.
Theorem pred_linear_combinator (t0 : nat -> R) nm : (forall i, (i < N)%nat -> Rabs (v i) <= 1) ->
  pruns (LinearCombinatorNetwork (DataEncoder tmin tcod) N cs nm) lc_mod (DataEncoder tmin tcod) dt (lin_stims cs v t0)
    (fun l s => lin_result tmin tcod dt cs v s (lc_output_plus l) (lc_output_minus l)).
Proof.
  intros Hv. assert (HT : Tmax (DataEncoder tmin tcod) <> 0) by (unfold Tmax; cbn; lra).
  destruct (LinComb_built (DataEncoder tmin tcod) N cs nm empty_world inv_empty (neq0 _ HT) (Nat.le_refl _)) as (l & w & E & HB & H1 & H2 & H3 & H4 & H5 & H6 & H7 & H8 & H9 & H10).
  rewrite firstn_all in HB. cbn [w_neurons empty_world length Nat.add] in H1, H2, H3, H5, H6, H10. destruct (values_stims l H6 H7 H8 H9 t0 Hv) as [S1 S2].
  destruct (lin_psession tmin tcod dt cs v (fun _ => 0) HD Hd5 Htc Htm Htd HN ltac:(intros; lra) Hp Hm _ lc_mod (lin_stims cs v t0) l w l E HB H1 H2 H3 H4 H5 H6 H7 H10 S1 S2) as [K HK].
  exists K. intros fuel Hf. destruct (HK fuel Hf) as (s & u & Es & L1 & L2). exists l, s. split; [exact Es|]. eapply lin_result_intro; eauto.
Qed.
Theorem pred_linear_combinator_spikes (t : nat -> R) nm : (forall i, (i < N)%nat -> 0 <= t i) ->
  pruns (LinearCombinatorNetwork (DataEncoder tmin tcod) N cs nm) lc_mod (DataEncoder tmin tcod) dt (lin_spikes tmin tcod cs v t)
    (fun l s => lin_result tmin tcod dt cs v s (lc_output_plus l) (lc_output_minus l)).
Proof.
  intros Ht. assert (HT : Tmax (DataEncoder tmin tcod) <> 0) by (unfold Tmax; cbn; lra).
  destruct (LinComb_built (DataEncoder tmin tcod) N cs nm empty_world inv_empty (neq0 _ HT) (Nat.le_refl _)) as (l & w & E & HB & H1 & H2 & H3 & H4 & H5 & H6 & H7 & H8 & H9 & H10).
  rewrite firstn_all in HB. cbn [w_neurons empty_world length Nat.add] in H1, H2, H3, H5, H6, H10. destruct (spikes_stims l H6 H7 H8 H9 t) as [S1 S2].
  destruct (lin_psession tmin tcod dt cs v t HD Hd5 Htc Htm Htd HN Ht Hp Hm _ lc_mod (lin_spikes tmin tcod cs v t) l w l E HB H1 H2 H3 H4 H5 H6 H7 H10 S1 S2) as [K HK].
  exists K. intros fuel Hf. destruct (HK fuel Hf) as (s & u & Es & L1 & L2). exists l, s. split; [exact Es|]. eapply lin_result_intro; eauto.
Qed.
End LinTheorems.
Theorem pred_adder (tmin tcod dt x y t1 t2 : R) nm : dt_ok dt -> 0 < tcod -> 1 < tmin -> dt < tmin -> tmin + tcod + 2 * dt <= 500 ->
  Rabs x <= 1 -> Rabs y <= 1 -> Rabs (x + y) <= 1 ->
  pruns (AdderNetwork (DataEncoder tmin tcod) nm) (fun a => lc_mod (ad_lin a)) (DataEncoder tmin tcod) dt (add_stims x y t1 t2)
    (fun a s =>
      (0 <= x + y -> pemits s (lc_output_plus (ad_lin a)) (DataEncoder tmin tcod) (x + y) (dt / tcod) /\ pspike_log s (lc_output_minus (ad_lin a)) = []) /\
      (/ 100 + dt <= - ((x + y) * tcod) \/ / 100 <= dt <= - ((x + y) * tcod) ->
         pemits s (lc_output_minus (ad_lin a)) (DataEncoder tmin tcod) (- (x + y)) (dt / tcod) /\ pspike_log s (lc_output_plus (ad_lin a)) = []) /\
      (dt <= - ((x + y) * tcod) <= / 100 - dt -> pspike_log s (lc_output_plus (ad_lin a)) = [] /\ pspike_log s (lc_output_minus (ad_lin a)) = [])).
Proof.
  intros HD Htc Htm Htd Hd5 Hx Hy Hxy. assert (HT : Tmax (DataEncoder tmin tcod) <> 0) by (unfold Tmax; cbn; lra).
  destruct (Adder_built (DataEncoder tmin tcod) nm empty_world inv_empty (neq0 _ HT)) as (a & w & E & HB & H1 & H2 & H3 & H4 & H5 & H6 & H7 & H8 & H9 & A1 & A2 & A3 & A4 & H10).
  cbn [w_neurons empty_world length Nat.add] in H1, H2, H3, H5, H6, H10.
  set (v := fun i : nat => match i with O => x | _ => y end). set (t := fun i : nat => match i with O => t1 | _ => t2 end). set (cs := [1; 1]).
  assert (ED : dot cs v = x + y) by (unfold dot, cs, sumf; cbn; lra).
  assert (EP : dot_pos cs v = Rmax 0 x + Rmax 0 y) by (unfold dot_pos, cs, sumf; cbn; rewrite !Rmult_1_l; lra).
  assert (EN : dot_neg cs v = Rmax 0 (- x) + Rmax 0 (- y)) by (unfold dot_neg, cs, sumf; cbn; rewrite !Rmult_1_l; lra).
  apply Rabs_le_btw in Hxy. pose proof (Rabs_le_btw _ _ Hx) as Hx'. pose proof (Rabs_le_btw _ _ Hy) as Hy'.
  assert (P1 : dot_pos cs v <= 1) by (rewrite EP; unfold Rmax; destruct (Rle_dec 0 x), (Rle_dec 0 y); lra).
  assert (P2 : dot_neg cs v <= 1) by (rewrite EN; unfold Rmax; destruct (Rle_dec 0 (- x)), (Rle_dec 0 (- y)); lra).
  assert (ESt : add_stims x y t1 t2 a = lin_stims cs v t (ad_lin a)).
  { unfold add_stims, lin_stims. cbn [cs length seq map v t]. rewrite A1, A2, A3, A4. destruct (Rle_dec 0 x), (Rle_dec 0 y); reflexivity. }
  assert (HVi : forall i, (i < length cs)%nat -> Rabs (v i) <= 1) by (intros i _; destruct i; auto).
  destruct (values_stims tmin tcod cs v ltac:(cbn; lia) (ad_lin a) H6 H7 H8 H9 t HVi) as [S1 S2]. rewrite <- ESt in S1, S2.
  destruct (lin_psession tmin tcod dt cs v (fun _ => 0) HD Hd5 Htc Htm Htd ltac:(cbn; lia) ltac:(intros; lra) P1 P2 _ (fun a => lc_mod (ad_lin a)) (add_stims x y t1 t2) a w (ad_lin a) E HB H1 H2 H3 H4 H5 H6 H7 H10 S1 S2) as [K HK].
  exists K. intros fuel Hf. destruct (HK fuel Hf) as (s & u & Es & L1 & L2). exists a, s. split; [exact Es|].
  pose proof (lin_result_intro tmin tcod dt cs v HD Htc Htm Htd P1 P2 s _ _ u L1 L2) as R. unfold lin_result in R. rewrite ED in R. exact R.
Qed.
