(** ConstantNetwork, SignedConstantNetwork, SignFlipperNetwork and ScalarMultiplierNetwork on PredSimulator (C54). *)
From Coq Require Import Arith ZArith Bool List Reals Lra Lia Permutation Sorted.
From Verif Require Import Num NumOrd Heapq Elements Networks CancelQueue PredSim PredNeuron NeuronLib NetLib Build BuildNets Trace SimTrace TraceProps Bridge Session SimpleNets InvMem PredProofs PredRun PredNet PredMem PredGroup PredSub.
Import ListNotations.
Open Scope list_scope.
Open Scope R_scope.

Lemma relay1 dt a : 0 < dt -> (horizon dt < 2 ^ 64)%Z -> dt <= 500 -> 0 <= a -> resp dt rest0 [(a, (SynV, 10))] [a].
Proof. intros Hdt HM Hd5 Ha. rewrite rest0_pn. rfire Hdt HM (@nil (R * (syntype * R))) [(a, (SynV, 10))] (@nil (R * (syntype * R))). rsilent Hdt HM. Qed.
Lemma none dt : 0 < dt -> (horizon dt < 2 ^ 64)%Z -> resp dt rest0 [] [].
Proof. intros Hdt HM. rewrite rest0_pn. rsilent Hdt HM. Qed.
Ltac rcbn := unfold received, pins; cbn [flat_map pstim syn s_post s_pre s_ty s_w s_delay Nat.eqb fst snd app map].

(** ** constants *)
Theorem pred_constant (tmin tcod v dt t : R) nm : dt_ok dt -> 0 < tcod -> 0 < tmin + v * tcod -> 0 <= t ->
  pruns (ConstantNetwork (DataEncoder tmin tcod) v nm) k_mod (DataEncoder tmin tcod) dt (fun k => [SSpike (k_recall k) t])
    (fun k s => pemits s (k_output k) (DataEncoder tmin tcod) v 0).
Proof.
  intros HD Htc Hv Ht. destruct (dt_ok_horizon dt HD) as [Hdt HM]. set (enc := DataEncoder tmin tcod).
  destruct (Constant_built enc v nm empty_world inv_empty) as (m & w & E & HB & HN & HL).
  cbn [w_neurons empty_world length Nat.add] in HN, HL. destruct m as [a i0 i1]. unfold k_nodes in HN. cbn in HN. injection HN as -> ->.
  set (F := fun n : nat => match n with 0%nat => [t] | _ => [t + 1; t + (1 + (v * tcod + tmin))] end).
  edestruct (psession_resp (ConstantNetwork enc v nm) k_mod _ w _ enc dt (fun k => [SSpike (k_recall k) t]) F E HB Hdt HM) as [N HR].
  - rewrite HL. cbn. stims_ok.
  - unfold k_syns. cbn. consts. intros y Hy. repeat (destruct Hy as [<-|Hy]; [cbn; lra|]). destruct Hy.
  - rewrite HL. intros n Hn. destruct n as [|[|n]]; [..|exfalso; lia]; unfold k_syns; unfold F, enc; cbn [k_recall k_output]; rcbn; consts.
    + apply relay1; auto. apply HD.
    + eapply resp_perm; [|apply (relay2 dt Hdt HM (proj2 HD) (t + 1) (t + (1 + (v * tcod + tmin)))); lra]. perms.
  - exists N. intros fuel Hf. destruct (HR fuel Hf) as (s & Es & HLg). eexists. exists s. split; [exact Es|]. cbn [k_output].
    eapply pemits_intro; [auto|apply (HLg 1%nat); lia|lra|]. rewrite Rmult_0_l. apply Req_le. rewrite <- Rabs_R0. f_equal. ring.
Qed.
Theorem pred_signed_constant (tmin tcod v dt t : R) nm : dt_ok dt -> 0 < tcod -> 0 < tmin + Rabs v * tcod -> 0 <= t ->
  pruns (SignedConstantNetwork (DataEncoder tmin tcod) v nm) sk_mod (DataEncoder tmin tcod) dt (fun k => [SSpike (sk_recall k) t])
    (fun k s => let out := if Rle_dec 0 v then sk_output_plus k else sk_output_minus k in
                let other := if Rle_dec 0 v then sk_output_minus k else sk_output_plus k in
                pemits s out (DataEncoder tmin tcod) (Rabs v) 0 /\ pspike_log s other = []).
Proof.
  intros HD Htc Hv Ht. destruct (dt_ok_horizon dt HD) as [Hdt HM]. set (enc := DataEncoder tmin tcod).
  destruct (SignedConstant_built enc v nm empty_world inv_empty) as (m & w & E & HB & HN & HL).
  cbn [w_neurons empty_world length Nat.add] in HN, HL. destruct m as [a i0 i1 i2]. unfold sk_nodes in HN. cbn in HN. injection HN as -> -> ->.
  set (o := [t + 1; t + (1 + (Rabs v * tcod + tmin))]).
  set (F := fun n : nat => match n with 0%nat => [t] | 1%nat => if Rle_dec 0 v then o else [] | _ => if Rle_dec 0 v then [] else o end).
  edestruct (psession_resp (SignedConstantNetwork enc v nm) sk_mod _ w _ enc dt (fun k => [SSpike (sk_recall k) t]) F E HB Hdt HM) as [N HR].
  - rewrite HL. cbn. stims_ok.
  - unfold sk_syns. cbn [sk_recall]. consts. cbn [nabs R_num]. intros y Hy. repeat (destruct Hy as [<-|Hy]; [cbn; lra|]). destruct Hy.
  - rewrite HL. assert (ES : forall a, sk_tgt v (Build_sconstant_net a 0 1 2) = if Rle_dec 0 v then 1%nat else 2%nat).
    { intros b. unfold sk_tgt, ngeb, nzero. cbn [nleb R_num nofZ sk_output_plus sk_output_minus]. unfold Rleb. destruct (Rle_dec 0 v); reflexivity. }
    intros n Hn. unfold sk_syns. rewrite ES. unfold F, enc, o.
    destruct n as [|[|[|n]]]; [..|exfalso; lia]; destruct (Rle_dec 0 v); cbn [sk_recall nabs R_num]; rcbn; consts; try (apply none; auto).
    1, 2: apply relay1; auto; apply HD.
    all: eapply resp_perm; [|apply (relay2 dt Hdt HM (proj2 HD) (t + 1) (t + (1 + (Rabs v * tcod + tmin)))); lra]; perms.
  - exists N. intros fuel Hf. destruct (HR fuel Hf) as (s & Es & HLg). eexists. exists s. split; [exact Es|]. cbn [sk_output_plus sk_output_minus].
    pose proof (HLg 1%nat ltac:(lia)) as L1. pose proof (HLg 2%nat ltac:(lia)) as L2. unfold F in L1, L2.
    destruct (Rle_dec 0 v); (split; [|auto]); (eapply pemits_intro; [auto|unfold o in *; eassumption|lra|]); rewrite Rmult_0_l; apply Req_le; rewrite <- Rabs_R0; f_equal; ring.
Qed.

(** ** sign flip *)
Theorem pred_sign_flip (tmin tcod x dt t0 : R) nm (plus : bool) : dt_ok dt -> 0 < tcod -> 0 < tmin -> 0 <= x <= 1 ->
  pruns (SignFlipperNetwork (DataEncoder tmin tcod) nm) sf_mod (DataEncoder tmin tcod) dt (fun f => [SValue x (if plus then sf_inp_plus f else sf_inp_minus f) t0])
    (fun f s => pemits s (if plus then sf_outp_minus f else sf_outp_plus f) (DataEncoder tmin tcod) x 0 /\
                pspike_log s (if plus then sf_outp_plus f else sf_outp_minus f) = []).
Proof.
  intros HD Htc Htm Hx. destruct (dt_ok_horizon dt HD) as [Hdt HM]. set (enc := DataEncoder tmin tcod).
  assert (0 <= x * tcod) by (apply Rmult_le_pos; lra).
  destruct (SignFlipper_built enc nm empty_world inv_empty) as (m & w & E & HB & HN & HL); [apply neq0; cbn; lra|apply neq0; cbn; lra|].
  cbn [w_neurons empty_world length Nat.add] in HN, HL. destruct m as [a i0 i1 i2 i3]. unfold sf_nodes in HN. cbn in HN. injection HN as -> -> -> ->.
  set (i := [0; tmin + x * tcod]). set (o := [0 + 1; tmin + x * tcod + 1]).
  set (F := fun n : nat => match n with 0%nat => if plus then i else [] | 1%nat => if plus then [] else i | 2%nat => if plus then [] else o | _ => if plus then o else [] end).
  edestruct (psession_resp (SignFlipperNetwork enc nm) sf_mod _ w _ enc dt (fun f => [SValue x (if plus then sf_inp_plus f else sf_inp_minus f) t0]) F E HB Hdt HM) as [N HR].
  - rewrite HL. destruct plus; cbn; stims_ok.
  - unfold sf_syns. consts. intros y Hy. repeat (destruct Hy as [<-|Hy]; [cbn; lra|]). destruct Hy.
  - rewrite HL. intros n Hn. unfold sf_syns, F, i, o, enc.
    destruct n as [|[|[|[|n]]]]; [..|exfalso; lia]; destruct plus; cbn [sf_inp_plus sf_inp_minus sf_outp_plus sf_outp_minus Tmin Tcod DataEncoder]; rcbn; consts; try (apply none; auto).
    all: apply relay2; auto; try lra; apply HD.
  - exists N. intros fuel Hf. destruct (HR fuel Hf) as (s & Es & HLg). eexists. exists s. split; [exact Es|].
    pose proof (HLg 2%nat ltac:(lia)) as L1. pose proof (HLg 3%nat ltac:(lia)) as L2. unfold F in L1, L2.
    destruct plus; cbn [sf_outp_plus sf_outp_minus]; (split; [|auto]); (eapply pemits_intro; [auto|unfold o in *; eassumption|lra|]); rewrite Rmult_0_l; apply Req_le; match goal with |- Rabs ?e = 0 => replace e with 0 by ring end; apply Rabs_R0.
Qed.

(** ** scalar multiplication *)
Lemma first_resp dt iv : 0 < dt -> (horizon dt < 2 ^ 64)%Z -> dt <= 500 -> 1 < iv -> resp dt rest0 [(1, (SynV, 10)); (iv + 1, (SynV, 10)); (2, (SynV, -10))] [1].
Proof. intros Hdt HM Hd5 Hi. rewrite rest0_pn. rfire Hdt HM (@nil (R * (syntype * R))) [(1, (SynV, 10))] [(iv + 1, (SynV, 10)); (2, (SynV, -10))]. rsilent Hdt HM. Qed.
Lemma relays dt w : 0 < dt -> (horizon dt < 2 ^ 64)%Z -> dt <= 500 -> 10 <= w -> forall ts L, StronglySorted Rlt ts -> Permutation (map (fun t => (t, (SynV, w))) ts) L -> resp dt rest0 L ts.
Proof.
  intros Hdt HM Hd5 Hw ts L HS HP. exists (map (fun t => (t, [(SynV, w)])) ts). rewrite rest0_pn. split; [|split; [|split]].
  - clear -HS. induction HS as [|t ts HS IH HF]; cbn; constructor; auto. apply Forall_forall. intros g Hg. apply in_map_iff in Hg as (u & <- & Hu). rewrite Forall_forall in HF. cbn. auto.
  - intros g Hg. apply in_map_iff in Hg as (u & <- & Hu). discriminate.
  - rewrite <- HP. unfold ungroup. rewrite flat_map_concat_map, map_map. cbn [fst snd map]. clear. induction ts; cbn; auto.
  - apply r_relay; auto.
Qed.
Section SMul.
Variables tmin tcod f x dt : R.
Hypothesis Hdt : 0 < dt. Hypothesis HM : (horizon dt < 2 ^ 64)%Z. Hypothesis Hd5 : dt <= 500.
Hypothesis Htc : 0 < tcod. Hypothesis Htm : 1 < tmin. Hypothesis Hf : 0 < f. Hypothesis Hx : 0 <= x <= 1. Hypothesis Hfx : f * x <= 1.
Let iv := tmin + x * tcod.
Let w := 1000 / (tmin + tcod).
Let M : nat := step_at dt ((tmin + tcod) / f).
Let g := INR M * dt.
Let a := tmin + 2 + g.
Lemma sc_xc : 0 <= x * tcod < (tmin + tcod) / f.
Proof.
  split; [apply Rmult_le_pos; lra|]. apply Rmult_lt_reg_r with f; auto. unfold Rdiv. rewrite (Rmult_assoc (tmin + tcod)), Rinv_l by lra.
  assert (f * x * tcod <= 1 * tcod) by (apply Rmult_le_compat_r; lra). lra.
Qed.
Lemma sc_g : (tmin + tcod) / f <= g < (tmin + tcod) / f + dt.
Proof.
  assert (0 < (tmin + tcod) / f) by (apply Rdiv_lt_0_compat; lra).
  pose proof (step_at_bounds dt ((tmin + tcod) / f) Hdt H) as HB. fold M in HB. fold g in HB. lra.
Qed.
Lemma sc_w : 0 < w. Proof. unfold w. apply Rdiv_lt_0_compat; lra. Qed.
Lemma sc_ramp0 : ramp dt 0 (f * w) = M.
Proof. unfold ramp, M, w. f_equal. field. lra. Qed.
Lemma sc_acc : g + dt <= 500 -> resp dt rest0 [(1 + (1 + tmin), (SynGe, f * w))] [a].
Proof.
  intros H5. pose proof sc_g. pose proof sc_w. exists [(tmin + 2, [(SynGe, f * w)])]. split; [sorted|]. split; [intros h [<-|[]]; discriminate|]. split; [cbn; perms|]. rewrite rest0_pn.
  assert (0 < f * w) by (apply Rmult_lt_0_compat; auto).
  eapply (r_hit dt Hdt HM) with (v' := 0) (g' := f * w); [lra|left; lra|wsums; ring|wsums; ring|wsums; lra|wsums; lra|].
  eapply r_ramp; auto; [lra|rewrite sc_ramp0; fold g; unfold a; reflexivity|rewrite sc_ramp0; fold g; auto|intros h []|apply r_end; auto; lra].
Qed.
Lemma sc_acc_lost : 500 <= (tmin + tcod) / f -> resp dt rest0 [(1 + (1 + tmin), (SynGe, f * w))] [].
Proof.
  intros H5. pose proof sc_g. pose proof sc_w. exists [(tmin + 2, [(SynGe, f * w)])]. split; [sorted|]. split; [intros h [<-|[]]; discriminate|]. split; [cbn; perms|]. rewrite rest0_pn.
  assert (0 < f * w) by (apply Rmult_lt_0_compat; auto).
  eapply (r_hit dt Hdt HM) with (v' := 0) (g' := f * w); [lra|left; lra|wsums; ring|wsums; ring|wsums; lra|wsums; lra|].
  apply r_far; auto; [lra|]. rewrite sc_ramp0. fold g. lra.
Qed.
(** the delay of acc2 after acc: D up to the resolution *)
Let D := tmin + tcod - f * (g - x * tcod).
Definition sc_K : R := if Rle_dec D 0 then 0 else INR (step_at dt D) * dt.
Lemma sc_D : f * x * tcod - f * dt < D <= f * x * tcod.
Proof.
  pose proof sc_g as [G1 G2]. apply (Rmult_le_compat_l f) in G1; [|lra]. apply (Rmult_lt_compat_l f) in G2; auto. rewrite Rmult_plus_distr_l in G2.
  replace (f * ((tmin + tcod) / f)) with (tmin + tcod) in G1, G2 by (field; lra). unfold D. lra.
Qed.
Lemma sc_Kb : 0 <= sc_K < tcod + dt /\ Rabs (sc_K - f * x * tcod) <= Rmax 1 f * dt.
Proof.
  pose proof sc_D as HD. assert (f * x * tcod <= 1 * tcod) by (apply Rmult_le_compat_r; lra). assert (0 <= f * x * tcod) by (apply Rmult_le_pos; [apply Rmult_le_pos|]; lra).
  assert (M1 : 1 * dt <= Rmax 1 f * dt) by (apply Rmult_le_compat_r; [lra|apply Rmax_l]). assert (M2 : f * dt <= Rmax 1 f * dt) by (apply Rmult_le_compat_r; [lra|apply Rmax_r]).
  unfold sc_K. destruct (Rle_dec D 0) as [C|C]; [split; [lra|apply Rabs_le; lra]|].
  pose proof (step_at_bounds dt D Hdt ltac:(lra)). split; [lra|]. apply Rabs_le. lra.
Qed.
Definition sc_acc2H := [(iv + 1 + 2, (SynGe, f * w)); (a + 1, (SynGe, - (f * w))); (a + 1, (SynGe, w))].
Definition sc_h := [(iv + 3, [(SynGe, f * w)]); (a + 1, [(SynGe, - (f * w)); (SynGe, w)])].
Lemma sc_h_ok : tsorted sc_h /\ filled sc_h /\ Permutation (ungroup sc_h) sc_acc2H.
Proof.
  pose proof sc_xc. pose proof sc_g. unfold sc_h, sc_acc2H. split; [sorted; unfold iv, a; lra|]. split; [intros h [<-|[<-|[]]]; discriminate|]. cbn. perms.
Qed.
Lemma sc_acc2 : 0 < x -> tcod + 2 * dt <= 500 -> resp dt rest0 sc_acc2H [a + 1 + sc_K].
Proof.
  intros Hx0 H5. pose proof sc_xc. pose proof sc_g as Hg. pose proof sc_w as Hw. pose proof sc_D as HD. pose proof sc_Kb as [HK _]. destruct sc_h_ok as (h1 & h2 & h3). exists sc_h. split; auto. split; auto. split; auto. rewrite rest0_pn.
  assert (0 < f * w) by (apply Rmult_lt_0_compat; auto). assert (0 < x * tcod) by (apply Rmult_lt_0_compat; auto).
  set (v := f * w / 100 * (g - x * tcod)). assert (Hv : 10 - v = w / 100 * D). { unfold v, D, w. field. lra. }
  eapply (r_hit dt Hdt HM) with (v' := 0) (g' := f * w); [lra|left; lra|wsums; ring|wsums; ring|wsums; lra|wsums; lra|].
  eapply (r_hit dt Hdt HM) with (v' := v) (g' := w); [lra| |wsums; ring|wsums; ring| |wsums; lra|].
  - right. rewrite sc_ramp0. fold g. unfold a, iv. lra.
  - wsums. unfold v, a, iv. field.
  - unfold sc_K in *. destruct (Rle_dec D 0) as [C|C].
    + rewrite Rplus_0_r. apply r_now; auto; [|lra|intros h []|apply r_end; auto; lra]. assert (0 <= w / 100 * - D) by (apply Rmult_le_pos; lra). lra.
    + assert (0 < w / 100 * D) by (apply Rmult_lt_0_compat; lra).
      assert (ER : ramp dt v w = step_at dt D). { unfold ramp. f_equal. rewrite Hv. field. lra. }
      assert (0 <= f * x * tcod <= 1 * tcod) by (split; [apply Rmult_le_pos; [apply Rmult_le_pos|]; lra|apply Rmult_le_compat_r; lra]).
      pose proof (step_at_bounds dt D Hdt ltac:(lra)).
      eapply r_ramp; auto; [lra|rewrite ER; reflexivity|rewrite ER; lra|intros h []|apply r_end; auto; lra].
Qed.
(** x = 0: acc2 reaches its threshold at the very time acc stops it, and fires *)
Lemma sc_acc2_zero F : x = 0 -> g + dt <= 500 -> nat_run dt (pn 0 (w - f * w) (a + 1)) [] F -> resp dt rest0 sc_acc2H (a + 1 :: F).
Proof.
  intros Hx0 H5 HF. pose proof sc_xc as Hxc. pose proof sc_g as Hg. pose proof sc_w as Hw. destruct sc_h_ok as (h1 & h2 & h3). exists sc_h. split; auto. split; auto. split; auto. rewrite rest0_pn.
  assert (0 < f * w) by (apply Rmult_lt_0_compat; auto). assert (Eiv : iv = tmin) by (unfold iv; rewrite Hx0; ring).
  eapply (r_hit dt Hdt HM) with (v' := 0) (g' := f * w); [lra|left; lra|wsums; ring|wsums; ring|wsums; lra|wsums; lra|].
  eapply r_ramp; auto; [lra|rewrite sc_ramp0; fold g; unfold a; rewrite Eiv; ring|rewrite sc_ramp0; fold g; auto|intros h [<-|[]]; cbn; lra|].
  eapply (r_hit dt Hdt HM) with (v' := 0) (g' := w - f * w); [lra|left; lra|wsums; ring|wsums; ring|wsums; lra|wsums; ring|exact HF].
Qed.
(** the network, for given spikes of acc and acc2 *)
Definition sc_syns_num : list (synapse R) :=
  [syn 0 1 SynV 10 1; syn 0 2 SynV 5 1; syn 1 1 SynV (-10) 1; syn 1 3 SynGe (f * w) (1 + tmin); syn 2 4 SynGe (f * w) 2; syn 3 4 SynGe (- (f * w)) 1;
   syn 4 5 SynV 10 (1 + tmin); syn 3 4 SynGe w 1; syn 3 5 SynV 10 2].
Definition sc_F (A A2 O : list R) (n : nat) : list R :=
  match n with 0%nat => [0; iv] | 1%nat => [1] | 2%nat => [iv + 1] | 3%nat => A | 4%nat => A2 | 5%nat => O | _ => [] end.
Lemma sc_resp A A2 O n : (n < 6)%nat -> resp dt rest0 [(1 + (1 + tmin), (SynGe, f * w))] A ->
  resp dt rest0 ((iv + 1 + 2, (SynGe, f * w)) :: map (fun t => (t + 1, (SynGe, - (f * w)))) A ++ map (fun t => (t + 1, (SynGe, w))) A) A2 ->
  resp dt rest0 (map (fun t => (t + (1 + tmin), (SynV, 10))) A2 ++ map (fun t => (t + 2, (SynV, 10))) A) O ->
  resp dt rest0 (received 10 sc_syns_num [(0%nat, 0); (0%nat, iv)] (sc_F A A2 O) n) (sc_F A A2 O n).
Proof.
  intros Hn HA HA2 HO. pose proof sc_xc as [Hxc _]. assert (1 < iv) by (unfold iv; lra).
  destruct n as [|[|[|[|[|[|n]]]]]]; [..|exfalso; lia]; unfold received, sc_syns_num, sc_F; cbn [flat_map syn s_post s_pre s_ty s_w s_delay Nat.eqb fst snd app map]; rewrite ?app_nil_r.
  - apply relay2; auto. lra.
  - eapply resp_perm; [|apply (first_resp dt iv); auto]. perms.
  - eapply resp_perm; [|apply (half2 dt Hdt HM Hd5 1 (iv + 1)); lra]. perms.
  - exact HA.
  - exact HA2.
  - exact HO.
Qed.
End SMul.
Lemma sc_syns_R tmin tcod f b : tmin + tcod <> 0 -> sc_syns (DataEncoder tmin tcod) f (Build_smul_net b 0 1 2 3 4 5) = sc_syns_num tmin tcod f.
Proof.
  intros H. unfold sc_syns, sc_syns_num. cbn [sc_input sc_first sc_last sc_acc sc_acc2 sc_output]. rewrite wacc_R. consts.
  repeat (f_equal; try lra).
Qed.
Lemma smul_pred (tmin tcod f x dt t0 : R) nm A A2 O : dt_ok dt -> 0 < tcod -> 1 < tmin -> 0 < f -> 0 <= x <= 1 -> f * x <= 1 ->
  (let iv := tmin + x * tcod in let w := 1000 / (tmin + tcod) in
   resp dt rest0 [(1 + (1 + tmin), (SynGe, f * w))] A /\
   resp dt rest0 ((iv + 1 + 2, (SynGe, f * w)) :: map (fun t => (t + 1, (SynGe, - (f * w)))) A ++ map (fun t => (t + 1, (SynGe, w))) A) A2 /\
   resp dt rest0 (map (fun t => (t + (1 + tmin), (SynV, 10))) A2 ++ map (fun t => (t + 2, (SynV, 10))) A) O) ->
  pruns (ScalarMultiplierNetwork f (DataEncoder tmin tcod) nm) sc_mod (DataEncoder tmin tcod) dt (fun m => [SValue x (sc_input m) t0])
    (fun m s => pspike_log s (sc_output m) = O).
Proof.
  intros HD Htc Htm Hf Hx Hfx HR. destruct (dt_ok_horizon dt HD) as [Hdt HM]. set (enc := DataEncoder tmin tcod). assert (HTm : tmin + tcod <> 0) by lra.
  destruct (ScalarMul_built f enc nm empty_world inv_empty (neq0 _ HTm)) as (m & w & E & HB & HN & HL).
  cbn [w_neurons empty_world length Nat.add] in HN, HL. destruct m as [b i0 i1 i2 i3 i4 i5]. unfold sc_nodes in HN. cbn in HN. injection HN as -> -> -> -> -> ->.
  unfold enc in HB. rewrite (sc_syns_R tmin tcod f b HTm) in HB.
  edestruct (psession_resp (ScalarMultiplierNetwork f enc nm) sc_mod _ w _ enc dt (fun m => [SValue x (sc_input m) t0]) (sc_F tmin tcod x A A2 O) E HB Hdt HM) as [N HN].
  - rewrite HL. cbn. stims_ok.
  - intros y Hy. unfold sc_syns_num in Hy. cbn [In] in Hy. repeat (destruct Hy as [<-|Hy]; [cbn; lra|]). destruct Hy.
  - rewrite HL. intros n Hn. destruct HR as (R1 & R2 & R3). apply sc_resp; auto. apply HD.
  - exists N. intros fuel Hfu. destruct (HN fuel Hfu) as (s & Es & HLg). eexists. exists s. split; [exact Es|]. apply (HLg 5%nat). lia.
Qed.
Theorem pred_scalar_multiplier (tmin tcod f x dt t0 : R) nm : dt_ok dt -> 0 < tcod -> 1 < tmin -> 0 < f -> 0 <= x <= 1 -> f * x <= 1 -> 0 < x \/ 1 <= f ->
  (tmin + tcod) / f + 2 * dt <= 500 -> tcod + 2 * dt <= 500 ->
  pruns (ScalarMultiplierNetwork f (DataEncoder tmin tcod) nm) sc_mod (DataEncoder tmin tcod) dt (fun m => [SValue x (sc_input m) t0])
    (fun m s => pemits s (sc_output m) (DataEncoder tmin tcod) (f * x) (Rmax 1 f * dt / tcod)).
Proof.
  intros HD Htc Htm Hf Hx Hfx Hx0 H5 H5'. destruct (dt_ok_horizon dt HD) as [Hdt HM]. assert (Hd5 : dt <= 500) by apply HD.
  pose proof (sc_g tmin tcod f dt Hdt Htc Htm Hf) as Hg. pose proof (sc_w tmin tcod Htc Htm) as Hw.
  set (a := tmin + 2 + INR (step_at dt ((tmin + tcod) / f)) * dt) in *.
  pose proof (sc_Kb tmin tcod f x dt Hdt Htc Htm Hf Hx Hfx) as [HK1 HK2].
  set (k := if Req_EM_T x 0 then 0 else sc_K tmin tcod f x dt).
  assert (Hk : 0 <= k /\ Rabs (k - f * x * tcod) <= Rmax 1 f * dt).
  { unfold k. destruct (Req_EM_T x 0) as [->|]; [|split; [apply HK1|exact HK2]]. split; [lra|]. replace (0 - f * 0 * tcod) with 0 by ring. rewrite Rabs_R0.
    apply Rmult_le_pos; [|lra]. apply Rle_trans with 1; [lra|apply Rmax_l]. }
  destruct (smul_pred tmin tcod f x dt t0 nm [a] [a + 1 + k] [a + 2; a + 1 + k + (1 + tmin)] HD Htc Htm Hf Hx Hfx) as [N HN].
  - cbv zeta. split; [|split].
    + apply sc_acc; auto. lra.
    + change (resp dt rest0 (sc_acc2H tmin tcod f x dt) [a + 1 + k]). unfold k. destruct (Req_EM_T x 0) as [E0|E0].
      * rewrite Rplus_0_r. apply sc_acc2_zero; auto; [lra|]. apply r_end; auto; [lra|].
        assert (0 <= (f - 1) * (1000 / (tmin + tcod))) by (apply Rmult_le_pos; lra). lra.
      * apply sc_acc2; auto. lra.
    + cbn [map app]. eapply resp_perm; [|apply (relay2 dt Hdt HM Hd5 (a + 2) (a + 1 + k + (1 + tmin)))]; [perms|]. assert (0 < (tmin + tcod) / f) by (apply Rdiv_lt_0_compat; lra). unfold a. lra.
  - exists N. intros fuel Hfu. destruct (HN fuel Hfu) as (m & s & Es & HO). exists m, s. split; auto.
    eapply pemits_intro; [auto|exact HO|lra|]. replace (Rmax 1 f * dt / tcod * tcod) with (Rmax 1 f * dt) by (field; lra).
    replace (a + 1 + k + (1 + tmin) - (a + 2) - (tmin + f * x * tcod)) with (k - f * x * tcod) by ring. apply Hk.
Qed.
(** 0 times a factor below 1: a third spike follows *)
Theorem pred_scalar_zero_extra (tmin tcod f dt t0 : R) nm : dt_ok dt -> 0 < tcod -> 1 < tmin -> 0 < f < 1 ->
  (tmin + tcod) / f + 2 * dt <= 500 -> (tmin + tcod) / (1 - f) + 2 * dt <= 500 ->
  pruns (ScalarMultiplierNetwork f (DataEncoder tmin tcod) nm) sc_mod (DataEncoder tmin tcod) dt (fun m => [SValue 0 (sc_input m) t0])
    (fun m s => exists t k, pspike_log s (sc_output m) = [t; t + tmin; t + tmin + k] /\ (tmin + tcod) / (1 - f) <= k < (tmin + tcod) / (1 - f) + dt).
Proof.
  intros HD Htc Htm Hf H5 H5'. destruct (dt_ok_horizon dt HD) as [Hdt HM]. assert (Hd5 : dt <= 500) by apply HD.
  assert (Hf0 : 0 < f) by lra. assert (Hx : 0 <= 0 <= 1) by lra. assert (Hfx : f * 0 <= 1) by lra.
  pose proof (sc_g tmin tcod f dt Hdt Htc Htm Hf0) as Hg. pose proof (sc_w tmin tcod Htc Htm) as Hw.
  set (a := tmin + 2 + INR (step_at dt ((tmin + tcod) / f)) * dt) in *. set (w := 1000 / (tmin + tcod)) in *.
  assert (H1 : 0 < (tmin + tcod) / (1 - f)) by (apply Rdiv_lt_0_compat; lra).
  assert (H2 : 0 < (tmin + tcod) / f) by (apply Rdiv_lt_0_compat; lra).
  pose proof (step_at_bounds dt _ Hdt H1) as HB. set (k := INR (step_at dt ((tmin + tcod) / (1 - f))) * dt) in *.
  destruct (smul_pred tmin tcod f 0 dt t0 nm [a] [a + 1; a + 1 + k] [a + 2; a + 2 + tmin; a + 2 + tmin + k] HD Htc Htm Hf0 Hx Hfx) as [N HN].
  - cbv zeta. split; [|split].
    + apply sc_acc; auto. lra.
    + change (resp dt rest0 (sc_acc2H tmin tcod f 0 dt) [a + 1; a + 1 + k]). apply sc_acc2_zero; auto; [lra|]. fold w.
      assert (0 < (1 - f) * w) by (apply Rmult_lt_0_compat; lra).
      assert (ER : ramp dt 0 (w - f * w) = step_at dt ((tmin + tcod) / (1 - f))). { unfold ramp, w. f_equal. field. lra. }
      eapply r_ramp; auto; [lra|lra|rewrite ER; reflexivity|rewrite ER; fold k; lra|intros h []|apply r_end; auto; lra].
    + cbn [map app]. apply (relays dt 10 Hdt HM Hd5 ltac:(lra)); [|cbn [map]; perms]. repeat (apply SSorted_cons || apply SSorted_nil); repeat (apply Forall_cons || apply Forall_nil); unfold a; lra.
  - exists N. intros fuel Hfu. destruct (HN fuel Hfu) as (m & s & Es & HO). exists m, s. split; auto. exists (a + 2), k. split; auto. lra.
Qed.
(** a first ramp longer than the prediction horizon: no output at all *)
Theorem pred_scalar_lost (tmin tcod f x dt t0 : R) nm : dt_ok dt -> 0 < tcod -> 1 < tmin -> 0 < f -> 0 <= x <= 1 -> f * x <= 1 ->
  500 <= (tmin + tcod) / f ->
  pruns (ScalarMultiplierNetwork f (DataEncoder tmin tcod) nm) sc_mod (DataEncoder tmin tcod) dt (fun m => [SValue x (sc_input m) t0])
    (fun m s => pspike_log s (sc_output m) = []).
Proof.
  intros HD Htc Htm Hf Hx Hfx H5. destruct (dt_ok_horizon dt HD) as [Hdt HM]. assert (Hd5 : dt <= 500) by apply HD.
  pose proof (sc_w tmin tcod Htc Htm) as Hw. assert (Hxc : 0 <= x * tcod) by (apply Rmult_le_pos; lra).
  apply (smul_pred tmin tcod f x dt t0 nm [] [] [] HD Htc Htm Hf Hx Hfx). cbv zeta. set (w := 1000 / (tmin + tcod)) in *. split; [|split].
  - apply (sc_acc_lost tmin tcod f dt); auto.
  - cbn [map app]. exists [(tmin + x * tcod + 1 + 2, [(SynGe, f * w)])]. split; [sorted|]. split; [intros h [<-|[]]; discriminate|]. split; [cbn; perms|]. rewrite rest0_pn.
    assert (0 < f * w) by (apply Rmult_lt_0_compat; auto). pose proof (sc_ramp0 tmin tcod f dt Htc Htm Hf) as HRm. fold w in HRm. pose proof (sc_g tmin tcod f dt Hdt Htc Htm Hf) as Hg.
    eapply (r_hit dt Hdt HM) with (v' := 0) (g' := f * w); [lra|left; lra|wsums; ring|wsums; ring|wsums; lra|wsums; lra|].
    apply r_far; auto; [lra|]. rewrite HRm. lra.
  - cbn [map app]. apply none; auto.
Qed.
