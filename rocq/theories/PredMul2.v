(** MultiplierNetwork on PredSimulator with an operand 1 (C58). *)
From Coq Require Import Arith ZArith Bool List Reals Lra Lia Permutation Sorted.
From Verif Require Import Num NumOrd Heapq Elements Networks CancelQueue PredSim PredNeuron NeuronLib NetLib Build BuildNets Trace SimTrace TraceProps Bridge Session SimpleNets InvMem ExpLog PredProofs PredRun PredNet PredMem PredFun PredGroup PredSub PredSimple PredMul.
Import ListNotations.
Open Scope list_scope.
Open Scope R_scope.

Section One.
Variables tcod dt : R.
Hypothesis Hdt : 0 < dt. Hypothesis HM : (horizon dt < 2 ^ 64)%Z. Hypothesis Hd5 : dt <= 500.
Hypothesis Htc : 0 < tcod. Hypothesis H5 : tcod + 2 * dt <= 500.
Let wb := 1000 / tcod.
(** the ramp ends exactly at the threshold: on a grid through tcod the spike comes before the last hits, otherwise with them *)
Lemma lg_one_run u T F : 0 <= u -> (forall h, In h T -> u + tcod < fst h) -> (forall g, g = 0 \/ g = - wb -> nat_run dt (pn 0 g (u + tcod)) T F) ->
  nat_run dt rest0 ((u, [(SynGe, wb)]) :: (u + tcod, [(SynGe, - wb)]) :: T) ((u + tcod) :: F).
Proof.
  intros Hu HT HF. assert (Hw : 0 < wb) by (unfold wb; apply Rdiv_lt_0_compat; lra). rewrite rest0_pn, pn_px.
  eapply (x_hit dt Hdt) with (a' := 0) (g' := wb) (v' := 0) (f' := 0); auto; try (wsums; lra); [intros d Hd; unfold pot; lra|wsums; unfold pot; lra|].
  pose proof (step_at_bounds dt tcod Hdt Htc) as HB. set (k := step_at dt tcod) in *.
  assert (ER : ramp dt 0 wb = k) by (unfold ramp, k; f_equal; unfold wb; field; lra).
  destruct (Req_dec (INR k * dt) tcod) as [Eq|Ne].
  - rewrite <- pn_px. apply r_ramp; auto; [lra|rewrite ER, Eq; lra|rewrite ER; lra|intros h [<-|Hh]; [cbn [fst]; lra|left; auto]|].
    eapply (r_hit dt Hdt HM) with (v' := 0) (g' := - wb); [lra|left; lra|wsums; lra|wsums; lra|wsums; lra|wsums; lra|]. apply HF. auto.
  - rewrite <- pn_px. eapply nr_hit.
    + intros f Hf. rewrite pend_ramp in Hf by (auto; lra). destruct (Z.ltb _ _); [|discriminate]. injection Hf as <-. rewrite ER. lra.
    + rewrite pn_px, advance_px by auto. apply x_now; auto.
      * wsums. lra.
      * wsums. lra.
      * wsums. unfold pot. replace (u + tcod - u) with tcod by lra. unfold wb. right. field. lra.
      * intros h Hh. left. auto.
Qed.
Lemma lg_one u : 0 <= u -> resp dt rest0 [(u, (SynGe, wb)); (u + tcod, (SynGe, - wb))] [u + tcod].
Proof.
  intros Hu. assert (Hw : 0 < wb) by (unfold wb; apply Rdiv_lt_0_compat; lra).
  exists [(u, [(SynGe, wb)]); (u + tcod, [(SynGe, - wb)])]. split; [sorted; lra|]. split; [intros h [<-|[<-|[]]]; discriminate|]. split; [cbn; perms|].
  apply lg_one_run; auto; [intros h []|]. intros g Hg. apply r_end; auto; lra.
Qed.
(** the gate opening after the spike has no effect *)
Lemma lg_one_late u g : 0 <= u -> u + tcod < g -> resp dt rest0 [(u, (SynGe, wb)); (u + tcod, (SynGe, - wb)); (g, (SynGf, 50)); (g, (SynGate, 1))] [u + tcod].
Proof.
  intros Hu Hg. assert (Hw : 0 < wb) by (unfold wb; apply Rdiv_lt_0_compat; lra).
  exists [(u, [(SynGe, wb)]); (u + tcod, [(SynGe, - wb)]); (g, [(SynGf, 50); (SynGate, 1)])]. split; [sorted; lra|]. split; [intros h [<-|[<-|[<-|[]]]]; discriminate|]. split; [cbn; perms|].
  apply lg_one_run; auto; [intros h [<-|[]]; cbn; auto|]. intros g0 Hg0. rewrite pn_px.
  assert (PP : forall d, 0 <= d -> g0 * d <= 0) by (intros d Hd; destruct Hg0 as [Hz|Hz]; rewrite Hz; [lra|]; pose proof (Rmult_le_pos wb d); lra).
  eapply (x_hit dt Hdt) with (a' := 1) (g' := g0) (v' := g0 / 100 * (g - (u + tcod))) (f' := 50); auto; try (wsums; lra).
  - intros d Hd. unfold pot. specialize (PP d ltac:(lra)). lra.
  - wsums. unfold pot. lra.
  - apply x_end; auto. intros d Hd. unfold pot. pose proof (exp_pos (- d / 20)). pose proof (PP d Hd). pose proof (PP (g - (u + tcod)) ltac:(lra)). lra.
Qed.
(** the ramp starts before the gate opens: tcod later the neuron fires, whatever the gate *)
Lemma ex_early p q : 0 <= p < q -> exists k, tcod <= k < tcod + dt /\
  resp dt rest0 [(p, (SynGate, -1)); (p, (SynGe, wb)); (q, (SynGate, 1)); (q, (SynGf, 50))] [p + k].
Proof.
  intros Hpq. assert (Hw : 0 < wb) by (unfold wb; apply Rdiv_lt_0_compat; lra).
  assert (EW : wb / 100 * tcod = 10) by (unfold wb; field; lra).
  assert (Hlin : forall v f a d, a * f = 0 -> pot v wb f a d = v + wb / 100 * d) by (intros v f a d E; unfold pot; rewrite E; lra).
  assert (Hup : forall v, v < 10 -> 0 <= v -> exists e, 0 < e <= tcod /\ v + wb / 100 * e = 10 /\ (forall e', 0 <= e' < e -> v + wb / 100 * e' < 10) /\ e = tcod - v * (tcod / 10)).
  { intros v Hv Hv0. exists (tcod - v * (tcod / 10)). assert (0 < (10 - v) * (tcod / 10)) by (apply Rmult_lt_0_compat; lra). assert (0 <= v * (tcod / 10)) by (apply Rmult_le_pos; lra).
    assert (v + wb / 100 * (tcod - v * (tcod / 10)) = 10) by (unfold wb; field; lra).
    split; [lra|]. split; auto. split; [|reflexivity]. intros e' He'. assert (wb / 100 * e' < wb / 100 * (tcod - v * (tcod / 10))) by (apply Rmult_lt_compat_l; lra). lra. }
  set (h := [(p, [(SynGate, -1); (SynGe, wb)]); (q, [(SynGate, 1); (SynGf, 50)])]).
  assert (Hh : tsorted h /\ filled h /\ Permutation (ungroup h) [(p, (SynGate, -1)); (p, (SynGe, wb)); (q, (SynGate, 1)); (q, (SynGf, 50))]).
  { unfold h. split; [sorted; lra|]. split; [intros g [<-|[<-|[]]]; discriminate|cbn; perms]. }
  assert (START : forall F, nat_run dt (px 0 wb 0 (-1) p) [(q, [(SynGate, 1); (SynGf, 50)])] F -> nat_run dt rest0 h F).
  { intros F HF. rewrite rest0_pn, pn_px. eapply (x_hit dt Hdt) with (a' := -1) (g' := wb) (v' := 0) (f' := 0); auto; try (wsums; lra); [intros d Hd; unfold pot; lra|wsums; unfold pot; lra]. }
  pose proof (step_at_bounds dt tcod Hdt Htc) as HB. set (K := step_at dt tcod) in *.
  destruct (Hup 0 ltac:(lra) ltac:(lra)) as (e0 & He0 & E0 & L0 & Ee0). assert (e0 = tcod) by lra. subst e0.
  destruct (Rle_lt_dec (p + INR K * dt) q) as [C|C].
  - exists (INR K * dt). split; [lra|]. exists h. destruct Hh as (h1 & h2 & h3). split; auto. split; auto. split; auto. apply START.
    apply (x_fire dt Hdt HM _ _ _ _ _ tcod K); auto; try lra.
    + rewrite Hlin by lra. lra.
    + intros e He. rewrite Hlin by lra. apply L0. lra.
    + intros g [<-|[]]. cbn. lra.
    + rewrite pn_px. eapply (x_hit dt Hdt) with (a' := 1) (g' := 0) (v' := 0) (f' := 50); auto; try (wsums; lra); [intros d Hd; unfold pot; lra|wsums; unfold pot; lra|].
      apply x_end; auto. intros d Hd. unfold pot. pose proof (exp_pos (- d / 20)). lra.
  - set (v := wb / 100 * (q - p)).
    assert (STEP : forall F, nat_run dt (px v wb 50 0 q) [] F -> resp dt rest0 [(p, (SynGate, -1)); (p, (SynGe, wb)); (q, (SynGate, 1)); (q, (SynGf, 50))] F).
    { intros F HF. exists h. destruct Hh as (h1 & h2 & h3). split; auto. split; auto. split; auto. apply START. apply nr_hit.
      - intros u0 E. destruct (pend_px dt Hdt HM _ _ _ _ _ _ E) as (k & Hk & -> & HP). rewrite Hlin in HP by lra.
        assert (Hk1 : tcod <= IZR k * dt).
        { destruct (Rle_lt_dec tcod (IZR k * dt)); auto. exfalso. assert (0 <= IZR k * dt) by (apply Rmult_le_pos; [apply IZR_le; lia|lra]). specialize (L0 (IZR k * dt) ltac:(lra)). lra. }
        assert (Ek : IZR k = INR (Z.to_nat k)) by (rewrite INR_IZR_INZ, Z2Nat.id by lia; reflexivity). rewrite Ek in *.
        assert (Hk2 : (0 < Z.to_nat k)%nat). { destruct (Z.to_nat k); [cbn in Hk1; lra|lia]. }
        assert (Hk3 : (K <= Z.to_nat k)%nat) by (apply step_at_le; auto). apply le_INR in Hk3. apply (Rmult_le_compat_r dt) in Hk3; lra.
      - replace (advance stdp (px 0 wb 0 (-1) p) q [(SynGate, 1); (SynGf, 50)]) with (px v wb 50 0 q); auto.
        unfold advance, px. cbn [pn_st pn_last]. f_equal. unfold ffV, ffG. cbn [V ge gf gate tm tf stdp]. wsums. destruct (Req_EM_T (-1) 0); [lra|]. f_equal; try lra. unfold v. field. }
    assert (Hv0 : 0 < v) by (unfold v; apply Rmult_lt_0_compat; lra).
    destruct (Rle_lt_dec 10 v) as [Cv|Cv].
    + exists (q - p). assert (tcod <= q - p).
      { apply Rmult_le_reg_l with (wb / 100); [lra|]. fold v. lra. }
      split; [lra|]. replace (p + (q - p)) with q by lra. apply STEP. apply x_now; auto; try lra; [intros g []|apply r_end; auto; lra].
    + destruct (Hup v Cv ltac:(lra)) as (e & He & E1 & L1 & Ee). assert (Ev : v * (tcod / 10) = q - p) by (unfold v, wb; field; lra).
      pose proof (step_at_bounds dt e Hdt ltac:(lra)) as HB'. exists (q - p + INR (step_at dt e) * dt). split; [lra|]. apply STEP.
      apply (x_fire dt Hdt HM _ _ _ _ _ e (step_at dt e)); auto; try lra.
      * rewrite Hlin by lra. lra.
      * intros e' He'. rewrite Hlin by lra. apply L1. lra.
      * intros g [].
      * apply r_end; auto; lra.
Qed.
End One.

(** ** second operand 1: the output says 1 *)
Section Second.
Variables tmin tcod dt x1 a1 a2 : R.
Hypothesis Hdt : 0 < dt. Hypothesis HM : (horizon dt < 2 ^ 64)%Z. Hypothesis Hd5 : dt <= 500.
Hypothesis Htc : 0 < tcod. Hypothesis Htm : 1 < tmin. Hypothesis H5 : tcod + 2 * dt <= 500.
Hypothesis Hx1 : 0 <= x1 < 1. Hypothesis Ha1 : 0 <= a1. Hypothesis Ha2 : 0 <= a2.
Let M := mu_last tmin tcod x1 1 a1 a2. Let b2 := mb tmin tcod a2 1. Let b1 := mb tmin tcod a1 x1.
Definition mu_sec (k : R) : nat -> list R :=
  mu_F tmin tcod x1 1 a1 a2 (if Rlt_dec 0 x1 then [M + 3 + lgD dt x1] else []) [] [b2 + 2] [b2 + 3 + k] [b2 + 4; b2 + 3 + k + (tmin + 1)].
Lemma mu_sec_resp : (0 < x1 -> 20 * - ln x1 + 2 * dt <= 500) -> exists k, tcod <= k < tcod + dt /\
  forall n, (n < 12)%nat -> resp dt rest0 (received 10 (mu_num tmin tcod) (mu_ins tmin tcod x1 1 a1 a2) (mu_sec k) n) (mu_sec k n).
Proof.
  intros HL. pose proof (mbs tmin tcod x1 1 a1 a2 Htc ltac:(lra) ltac:(lra)) as HB. fold M b1 b2 in HB. destruct HB as (B1 & B2 & B3 & B4 & B5).
  destruct (ex_early tcod dt Hdt HM Hd5 Htc H5 (b2 + 3) (M + 5)) as (k & Hk & HE); [lra|]. exists k. split; auto. intros n Hn.
  assert (HD1 : 0 < x1 -> 0 < 20 * - ln x1 <= lgD dt x1 /\ lgD dt x1 < 20 * - ln x1 + dt) by (intros; apply lgD_bounds; lra).
  assert (Eb : b2 = a2 + tmin + tcod) by (unfold b2, mb; lra).
  destruct n as [|[|[|[|[|[|[|[|[|[|[|[|n]]]]]]]]]]]]; [..|exfalso; lia]; unfold mu_num, mu_ins, mu_sec; rcbn; cbn [mu_F map app]; fold M b1 b2.
  - apply relay2; auto; lra.
  - apply relay2; auto; lra.
  - apply mu_first; auto; lra.
  - apply half2; auto; lra.
  - destruct (Rlt_dec 0 x1).
    + eapply resp_perm; [|apply (lg_fire tcod dt Hdt HM Htc x1 (a1 + 1 + (1 + tmin)) (M + 3)); unfold b1, mb in *; lra]. unfold b1, mb. perms.
    + assert (x1 = 0) as E by lra. eapply resp_perm; [|apply (lg_zero tcod dt Hdt HM (a1 + 1 + (1 + tmin)) (M + 3)); lra]. unfold b1, mb. rewrite E. perms.
  - eapply resp_perm; [|apply (mu_zero_silent tmin tcod dt x1 1 a1 a2 Hdt HM Htc Htm ltac:(lra) ltac:(lra) Ha1 Ha2 (b2 + 4 + 1) (b2 + 3 + k + (tmin + 1) + 1)); fold M; lra]. unfold qs. fold b1 b2. cbn [app]. perms.
  - apply mu_first; auto; lra.
  - apply half2; auto; lra.
  - replace (b2 + 2) with (a2 + 1 + (1 + tmin) + tcod) by lra. destruct (Rlt_dec 0 x1); cbn [map app].
    + eapply resp_perm; [|apply (lg_one_late tcod dt Hdt HM Hd5 Htc H5 (a2 + 1 + (1 + tmin)) (M + 3 + lgD dt x1 + 1)); lra]. perms.
    + eapply resp_perm; [|apply (lg_one tcod dt Hdt HM Hd5 Htc H5 (a2 + 1 + (1 + tmin))); lra]. perms.
  - apply mu_half; auto; lra.
  - eapply resp_perm; [|exact HE]. perms.
  - eapply resp_perm; [|apply (relay2 dt Hdt HM Hd5 (b2 + 4) (b2 + 3 + k + (tmin + 1))); lra]. perms.
Qed.
End Second.
(** ** first operand 1, the two operands starting together: the charge of the exponential is 1 ms short *)
Section First.
Variables tmin tcod dt x2 a : R.
Hypothesis Hdt : 0 < dt. Hypothesis HM : (horizon dt < 2 ^ 64)%Z. Hypothesis Hd5 : dt <= 500.
Hypothesis Htc : 0 < tcod. Hypothesis Htm : 1 < tmin. Hypothesis H5 : tcod + 2 * dt <= 500.
Hypothesis Hx2 : 0 < x2 < 1. Hypothesis Ha : 0 <= a.
Hypothesis HL : 1 < 20 * - ln x2. Hypothesis HL2 : 20 * - ln x2 + 2 * dt <= 343.
Let b1 := mb tmin tcod a 1. Let b2 := mb tmin tcod a x2.
Let A2 := b1 + 3 + lgD dt x2. Let E := A2 + 1 + exK tcod dt (lgD dt x2 - 1).
Definition mu_fst : nat -> list R := mu_F tmin tcod 1 x2 a a [b1 + 2] [] [A2] [E] [A2 + 2; E + (tmin + 1)].
Lemma mu_fst_resp n : (n < 12)%nat -> resp dt rest0 (received 10 (mu_num tmin tcod) (mu_ins tmin tcod 1 x2 a a) mu_fst n) (mu_fst n).
Proof.
  intros Hn. assert (x2 * tcod < 1 * tcod) by (apply Rmult_lt_compat_r; lra).
  assert (EM : mu_last tmin tcod 1 x2 a a = b1) by (unfold mu_last; apply Rmax_left; unfold b1, mb; lra).
  pose proof (mbs tmin tcod 1 x2 a a Htc ltac:(lra) ltac:(lra)) as HB. rewrite EM in HB. fold b1 b2 in HB. destruct HB as (B1 & B2 & _ & B4 & _).
  pose proof (lgD_bounds dt Hdt x2 Hx2) as D2. pose proof (exK_bounds tcod dt Hdt Htc (lgD dt x2 - 1) ltac:(lra)) as HK.
  assert (Eb : b1 = a + tmin + tcod) by (unfold b1, mb; lra).
  assert (HA : b1 + 4 < A2) by (unfold A2; lra). assert (HE : A2 + 1 < E) by (unfold E; lra). assert (HA3 : A2 + 3 < b1 + 350) by (unfold A2; lra).
  destruct n as [|[|[|[|[|[|[|[|[|[|[|[|n]]]]]]]]]]]]; [..|exfalso; lia]; unfold mu_num, mu_ins, mu_fst; rcbn; cbn [mu_F map app]; rewrite ?EM; fold b1 b2.
  - apply relay2; auto; lra.
  - apply relay2; auto; lra.
  - apply mu_first; auto; lra.
  - apply half2; auto; lra.
  - replace (b1 + 2) with (a + 1 + (1 + tmin) + tcod) by lra. eapply resp_perm; [|apply (lg_one_late tcod dt Hdt HM Hd5 Htc H5 (a + 1 + (1 + tmin)) (b1 + 3)); lra]. perms.
  - eapply resp_perm; [|apply (mu_zero_silent tmin tcod dt 1 x2 a a Hdt HM Htc Htm ltac:(lra) ltac:(lra) Ha Ha (A2 + 2 + 1) (E + (tmin + 1) + 1)); rewrite ?EM; lra]. unfold qs. fold b1 b2. cbn [app]. perms.
  - apply mu_first; auto; lra.
  - apply half2; auto; lra.
  - eapply resp_perm; [|apply (lg_fire tcod dt Hdt HM Htc x2 (a + 1 + (1 + tmin)) (b1 + 3)); unfold b2, mb in *; lra]. unfold b2, mb. perms.
  - apply mu_half; auto; lra.
  - replace E with (b1 + 5 + (lgD dt x2 - 1) + exK tcod dt (lgD dt x2 - 1)) by (unfold E, A2; ring).
    eapply resp_perm; [|apply (ex_fire tcod dt Hdt HM Htc (b1 + 5) (lgD dt x2 - 1)); lra]. unfold A2. perms.
  - apply relay2; auto; lra.
Qed.
Lemma mu_fst_value : let v := x2 * exp (/ 20) in - (v * (dt / 20)) * tcod <= exK tcod dt (lgD dt x2 - 1) - v * tcod <= dt.
Proof.
  cbv zeta. set (v := x2 * exp (/ 20)). set (c := lgD dt x2 - 1). pose proof (lgD_bounds dt Hdt x2 Hx2) as D2. assert (Hc : 0 < c) by (unfold c; lra). pose proof (exK_bounds tcod dt Hdt Htc c Hc) as HK.
  assert (Ev : v = exp (ln x2 + / 20)) by (unfold v; rewrite exp_plus, exp_ln by lra; reflexivity).
  assert (Hv : 0 < v) by (rewrite Ev; apply exp_pos).
  assert (HU : exY c <= v).
  { rewrite Ev. unfold exY. assert (- c / 20 <= ln x2 + / 20) by (unfold c; lra). destruct (Rle_lt_or_eq_dec _ _ H) as [L|L]; [left; apply exp_increasing; auto|rewrite L; right; auto]. }
  assert (HLo : v * (1 - dt / 20) <= exY c).
  { unfold exY. assert (ln x2 + / 20 + - (dt / 20) <= - c / 20) by (unfold c; lra).
    assert (v * exp (- (dt / 20)) <= exp (- c / 20)).
    { rewrite Ev, <- exp_plus. destruct (Rle_lt_or_eq_dec _ _ H) as [L|L]; [left; apply exp_increasing; auto|rewrite L; right; auto]. }
    pose proof (exp_ineq1_le (- (dt / 20))) as X. apply (Rmult_le_compat_l v) in X; lra. }
  apply (Rmult_le_compat_r tcod) in HU; [|lra]. apply (Rmult_le_compat_r tcod) in HLo; [|lra]. lra.
Qed.
End First.

Section OneThm.
Variables tmin tcod dt : R.
Hypothesis HD : dt_ok dt. Hypothesis Htc : 0 < tcod. Hypothesis Htm : 1 < tmin. Hypothesis H5 : tcod + 2 * dt <= 500.
(** second operand 1: the output says 1 whatever the first operand below 1 *)
Theorem pred_multiplier_second_one x1 t1 t2 nm : 0 <= t1 -> 0 <= t2 -> 0 <= x1 < 1 -> (0 < x1 -> 20 * - ln x1 + 2 * dt <= 500) ->
  pruns (MultiplierNetwork (DataEncoder tmin tcod) nm) mu_mod (DataEncoder tmin tcod) dt (fun m => two_spikes tmin tcod (mu_input1 m) x1 t1 ++ two_spikes tmin tcod (mu_input2 m) 1 t2)
    (fun m s => pemits s (mu_output m) (DataEncoder tmin tcod) 1 (dt / tcod)).
Proof.
  intros Ht1 Ht2 Hx1 HL. destruct (dt_ok_horizon dt HD) as [Hdt HM]. assert (Hd5 : dt <= 500) by apply HD.
  destruct (mu_sec_resp tmin tcod dt x1 t1 t2 Hdt HM Hd5 Htc Htm H5 Hx1 Ht1 Ht2 HL) as (k & Hk & HR).
  destruct (mul_pred tmin tcod dt x1 1 t1 t2 nm (fun m => two_spikes tmin tcod (mu_input1 m) x1 t1 ++ two_spikes tmin tcod (mu_input2 m) 1 t2) (mu_sec tmin tcod dt x1 t1 t2 k)) as [N HN]; try lra; auto; [mulstims|].
  exists N. intros fuel Hf. destruct (HN fuel Hf) as (m & s & Es & HLg). exists m, s. split; auto. cbn [mu_sec mu_F] in HLg.
  eapply pemits_intro; [auto|exact HLg|lra|]. replace (dt / tcod * tcod) with dt by (field; lra). apply Rabs_le. lra.
Qed.
(** first operand 1, same start: about 5 percent too large *)
Theorem pred_multiplier_first_one x2 t nm : 0 <= t -> 0 < x2 <= 9 / 10 -> 20 * - ln x2 + 2 * dt <= 343 ->
  pruns (MultiplierNetwork (DataEncoder tmin tcod) nm) mu_mod (DataEncoder tmin tcod) dt (fun m => two_spikes tmin tcod (mu_input1 m) 1 t ++ two_spikes tmin tcod (mu_input2 m) x2 t)
    (fun m s => pemits s (mu_output m) (DataEncoder tmin tcod) (x2 * exp (/ 20)) (Rmax (dt / tcod) (x2 * exp (/ 20) * (dt / 20)))).
Proof.
  intros Ht Hx HL. destruct (dt_ok_horizon dt HD) as [Hdt HM]. assert (Hd5 : dt <= 500) by apply HD.
  assert (HL1 : 1 < 20 * - ln x2).
  { assert (ln x2 < - / 20); [|lra]. rewrite <- (ln_exp (- / 20)). apply ln_increasing; [lra|]. pose proof (exp_ineq1 (- / 20) ltac:(lra)). lra. }
  destruct (mul_pred tmin tcod dt 1 x2 t t nm (fun m => two_spikes tmin tcod (mu_input1 m) 1 t ++ two_spikes tmin tcod (mu_input2 m) x2 t) (mu_fst tmin tcod dt x2 t)) as [N HN]; try lra; auto; [mulstims|intros n Hn; apply mu_fst_resp; auto; lra|].
  exists N. intros fuel Hf. destruct (HN fuel Hf) as (m & s & Es & HLg). exists m, s. split; auto. cbn [mu_fst mu_F] in HLg.
  pose proof (mu_fst_value tcod dt x2 Hdt Htc ltac:(lra) HL1) as HV. cbv zeta in HV. set (v := x2 * exp (/ 20)) in *.
  pose proof (lgD_bounds dt Hdt x2 ltac:(lra)). pose proof (exK_bounds tcod dt Hdt Htc (lgD dt x2 - 1) ltac:(lra)) as HK.
  pose proof (Rmax_l (dt / tcod) (v * (dt / 20))) as M1. pose proof (Rmax_r (dt / tcod) (v * (dt / 20))) as M2.
  apply (Rmult_le_compat_r tcod) in M1; [|lra]. apply (Rmult_le_compat_r tcod) in M2; [|lra]. replace (dt / tcod * tcod) with dt in M1 by (field; lra).
  eapply pemits_intro; [auto|exact HLg|lra|]. apply Rabs_le. lra.
Qed.
End OneThm.
