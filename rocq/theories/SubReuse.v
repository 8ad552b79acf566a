(** SubtractorNetwork comes back to rest, so that it can be used again and again (C25, C52, C61). *)
From Coq Require Import Arith ZArith Bool List Reals Lra Lia Permutation.
From Verif Require Import Num Heapq Elements Simulator Networks Trace SimTrace SimProps TraceProps NeuronLib NetLib Build BuildNets Bridge MemoryProof Session SimpleNets InvMem FuncNets SegLib SubNet Restart MemReuse Reuse Jobs Settle RestFun.
Import ListNotations.
Open Scope R_scope.
Open Scope list_scope.

(** *** a V-only neuron after its last spike holds the sum of what came later *)
Definition lastsp (F : list nat) (a : nat) : nat := fold_left (fun _ x => x) F a.
Lemma segs_last L F : forall a, segs L a F -> segs L (lastsp F a) [] /\ (F = [] \/ In (lastsp F a) F).
Proof.
  induction F as [|f F IH]; intros a H; [split; [exact H|left; auto]|].
  destruct H as (_ & _ & _ & H). destruct (IH f H) as [A B]. split; [exact A|]. right. cbn [lastsp fold_left]. fold (lastsp F f).
  destruct B as [->|B]; [left; reflexivity|right; exact B].
Qed.
Lemma seg_rest N n L F : t_prm N n = stdp -> vonly N n -> segs L 0 F -> spikes_at N n F -> (forall k, (1 <= k)%nat -> input N n SynV k = evw L k) ->
  forall k, (lastsp F 0 <= k)%nat -> st N k n = at_rest (vsum L (lastsp F 0) k).
Proof.
  intros HP HV HG HS HI k Hk. destruct (segs_last _ _ _ HG) as [A B].
  apply (seg_quiet N n k L (lastsp F 0)); auto.
  - destruct B as [->|B]; [apply init_rest; auto|]. apply fired_rest; auto. eapply spk_last; eauto.
  - intros j Hj. apply HI. lia.
  - intros j Hj. apply A. lia.
Qed.
Lemma seg_group_rest N (G : list guess) :
  (forall g, In g G -> t_prm N (g_n g) = stdp /\ vonly N (g_n g) /\ segs (g_L g) 0 (g_S g)) ->
  (forall K, (forall g k, In g G -> (k <= K)%nat -> spk N k (g_n g) = memb k (g_S g)) ->
     forall g, In g G -> input N (g_n g) SynV (S K) = evw (g_L g) (S K)) ->
  forall g, In g G -> spikes_at N (g_n g) (g_S g) /\ forall k, (lastsp (g_S g) 0 <= k)%nat -> st N k (g_n g) = at_rest (vsum (g_L g) (lastsp (g_S g) 0) k).
Proof.
  intros HG HI g Hg. pose proof (seg_group N G HG HI) as HS. split; [auto|]. destruct (HG g Hg) as (A & B & C).
  apply seg_rest; auto. intros k Hk. replace k with (S (k - 1)) by lia. apply HI; auto. intros g' k' Hg' _. apply HS; auto.
Qed.

Section SubRest.
Variable N : tnet.
Variable m : sub_net.
Variable tmin : R.
Let dt := t_dt N.
Hypothesis HM : sb_ins N tmin m.
Variables a1 s1 a2 s2 : nat.
Let D1 := step_at dt 1.
Let Dn := step_at dt (/ 100).
Let Dnn := step_at dt (2 * / 100).
Let D3 := step_at dt (3 * 1 + 2 * / 100).
Let DM := step_at dt (tmin + (3 * 1 + 2 * / 100)).
Hypothesis Hin1 : arrs N (sb_input1 m) 1 [a1; s1].
Hypothesis Hin2 : arrs N (sb_input2 m) 1 [a2; s2].
Hypothesis Ha1 : (1 <= a1 < s1)%nat.
Hypothesis Ha2 : (1 <= a2 < s2)%nat.
Lemma sb_group_all Si1 Si2 Sp Sm Sz :
  segs (L_inb1 N s1 s2 Sm) 0 Si1 -> segs (L_inb2 N s1 s2 Sp Sz) 0 Si2 -> segs (L_plus N tmin s1 s2 Si1) 0 Sp -> segs (L_minus N tmin s1 s2 Si2 Sz) 0 Sm -> segs (L_zero N s1 s2 Sz) 0 Sz ->
  Forall (fun g => spikes_at N (g_n g) (g_S g) /\ forall k, (lastsp (g_S g) 0 <= k)%nat -> st N k (g_n g) = at_rest (vsum (g_L g) (lastsp (g_S g) 0) k))
   [{| g_n := sb_inb1 m; g_S := Si1; g_L := L_inb1 N s1 s2 Sm |}; {| g_n := sb_inb2 m; g_S := Si2; g_L := L_inb2 N s1 s2 Sp Sz |};
    {| g_n := sb_output_plus m; g_S := Sp; g_L := L_plus N tmin s1 s2 Si1 |}; {| g_n := sb_output_minus m; g_S := Sm; g_L := L_minus N tmin s1 s2 Si2 Sz |};
    {| g_n := sb_zero m; g_S := Sz; g_L := L_zero N s1 s2 Sz |}].
Proof.
  intros G1 G2 G3 G4 G5.
  set (G := [{| g_n := sb_inb1 m; g_S := Si1; g_L := L_inb1 N s1 s2 Sm |}; {| g_n := sb_inb2 m; g_S := Si2; g_L := L_inb2 N s1 s2 Sp Sz |};
             {| g_n := sb_output_plus m; g_S := Sp; g_L := L_plus N tmin s1 s2 Si1 |}; {| g_n := sb_output_minus m; g_S := Sm; g_L := L_minus N tmin s1 s2 Si2 Sz |};
             {| g_n := sb_zero m; g_S := Sz; g_L := L_zero N s1 s2 Sz |}]).
  apply Forall_forall. change (forall g, In g G -> spikes_at N (g_n g) (g_S g) /\ forall k, (lastsp (g_S g) 0 <= k)%nat -> st N k (g_n g) = at_rest (vsum (g_L g) (lastsp (g_S g) 0) k)).
  { apply seg_group_rest.
    - intros g Hg. unfold G in Hg. cbn [In] in Hg.
      destruct Hg as [<-|[<-|[<-|[<-|[<-|[]]]]]]; cbn [g_n g_S g_L]; repeat apply conj; auto; try apply HM; (eapply ins_vonly; [apply HM|repeat constructor]).
    - intros K HK.
      assert (HS : forall g, In g G -> forall j, In j (g_S g) -> (1 <= j)%nat /\ NoDup (g_S g)).
      { intros g Hg j Hj. assert (HST : strict 0 (g_S g)).
        { unfold G in Hg. cbn [In] in Hg. destruct Hg as [<-|[<-|[<-|[<-|[<-|[]]]]]]; cbn [g_n g_S g_L]; eauto using segs_strict. }
        split; [apply (strict_In _ _ HST _ Hj)|eapply strict_NoDup; eauto]. }
      assert (AR : forall g d, In g G -> ext_of N (g_n g) = [] -> INR (arr N (g_n g) d (S K)) = cnt (S K) (map (fun j => (j + step_at dt d)%nat) (g_S g))).
      { intros g d Hg He. apply (arr_upto N (g_n g) d (g_S g) K); auto.
        - intros j Hj. apply (HS g Hg j Hj).
        - destruct (g_S g) as [|j l] eqn:E; [constructor|]. rewrite <- E. apply (HS g Hg j). rewrite E. left; auto. }
      assert (A1 := fun d => AR {| g_n := sb_inb1 m; g_S := Si1; g_L := L_inb1 N s1 s2 Sm |} d ltac:(cbn; auto) (ins_ext _ _ _ (bi_inb1 _ _ _ HM))).
      assert (A2 := fun d => AR {| g_n := sb_inb2 m; g_S := Si2; g_L := L_inb2 N s1 s2 Sp Sz |} d ltac:(cbn; auto) (ins_ext _ _ _ (bi_inb2 _ _ _ HM))).
      assert (A3 := fun d => AR {| g_n := sb_output_plus m; g_S := Sp; g_L := L_plus N tmin s1 s2 Si1 |} d ltac:(cbn; auto) (ins_ext _ _ _ (bi_plus _ _ _ HM))).
      assert (A4 := fun d => AR {| g_n := sb_output_minus m; g_S := Sm; g_L := L_minus N tmin s1 s2 Si2 Sz |} d ltac:(cbn; auto) (ins_ext _ _ _ (bi_minus _ _ _ HM))).
      assert (A5 := fun d => AR {| g_n := sb_zero m; g_S := Sz; g_L := L_zero N s1 s2 Sz |} d ltac:(cbn; auto 6) (ins_ext _ _ _ (bi_zero _ _ _ HM))).
      cbn [g_n g_S] in A1, A2, A3, A4, A5.
      assert (Q1 : forall d, INR (arr N (sb_sync1 m) d (S K)) = cnt (S K) [(s1 + step_at dt d)%nat]).
      { intros d. apply (arrs_spikes N (sb_sync1 m) d [s1]); try lia; [apply (bi_sync1 _ _ _ HM)|eapply sb_sync1_spk; eauto| |repeat constructor; auto].
        intros j [<-|[]]; lia. }
      assert (Q2 : forall d, INR (arr N (sb_sync2 m) d (S K)) = cnt (S K) [(s2 + step_at dt d)%nat]).
      { intros d. apply (arrs_spikes N (sb_sync2 m) d [s2]); try lia; [apply (bi_sync2 _ _ _ HM)|eapply sb_sync2_spk; eauto| |repeat constructor; auto].
        intros j [<-|[]]; lia. }
      intros g Hg. unfold G in Hg. cbn [In] in Hg. destruct Hg as [<-|[<-|[<-|[<-|[<-|[]]]]]]; cbn [g_n g_S g_L].
      + ev_input (bi_inb1 _ _ _ HM). rewrite Q1, Q2, A4. unfold L_inb1, sb_d3. netr. autorewrite with netR. rewrite evw_app, evw_map_shift. ev_simpl. fold dt D1. lra.
      + ev_input (bi_inb2 _ _ _ HM). rewrite Q1, Q2, A3, A5. unfold L_inb2, sb_d3. netr. autorewrite with netR. rewrite !evw_app, !evw_map_shift. ev_simpl. fold dt D1 Dn. lra.
      + ev_input (bi_plus _ _ _ HM). rewrite Q1, Q2, A1. unfold L_plus, sb_d3. netr. autorewrite with netR. rewrite !evw_app, !evw_map_shift. ev_simpl. fold dt D1 DM D3. lra.
      + ev_input (bi_minus _ _ _ HM). rewrite Q1, Q2, A2, A5. unfold L_minus, sb_d3. netr. autorewrite with netR. rewrite !evw_app, !evw_map_shift. ev_simpl. fold dt D1 DM D3 Dn. lra.
      + ev_input (bi_zero _ _ _ HM). rewrite !Q1, !Q2, A5. unfold L_zero, sb_d3. netr. autorewrite with netR. rewrite !evw_app, !evw_map_shift. ev_simpl. fold dt Dn Dnn. lra. }
Qed.

Hypothesis F1 : (1 <= D1 /\ 1 <= Dn)%nat.
Hypothesis F2 : (2 * D1 < D3)%nat.
Hypothesis F3 : (2 * Dn <= D3 /\ 3 * Dn <= D1 + 1)%nat.
Hypothesis F4 : (D3 < DM)%nat.
Hypothesis F5 : (2 * Dn <= Dnn + 1 /\ Dnn <= 2 * Dn /\ Dn <= Dnn)%nat.
Hypothesis Hord : ((s1 < s2 /\ s1 + Dnn <= s2 + Dn) \/ s2 < s1 \/ (s1 = s2 /\ Dn < Dnn))%nat.
Variable B : nat.
Hypothesis HB1 : (s1 + DM + D1 <= B)%nat.
Hypothesis HB2 : (s2 + DM + D1 <= B)%nat.
Ltac go := unfold L_inb1, L_inb2, L_plus, L_minus, L_zero; fold dt D1 Dn Dnn D3 DM; cbn [map app]; segs_solve.
Ltac fin := let k := fresh "k" in let Hk := fresh "Hk" in intros k Hk; unfold L_inb1, L_inb2, L_plus, L_minus, L_zero; fold dt D1 Dn Dnn D3 DM; cbn [map app lastsp fold_left];
  vsum_simp; ltbs; lra.
(** every neuron's spikes end [D1] before B at the latest, and every neuron is at rest from B on *)
Lemma sb_five n : In n [sb_inb1 m; sb_inb2 m; sb_output_plus m; sb_output_minus m; sb_zero m] ->
  (exists l, spikes_at N n l /\ forall j, In j l -> (j + D1 <= B)%nat) /\ forall k, (B <= k)%nat -> st N k n = at_rest 0.
Proof.
  assert (W : exists Si1 Si2 Sp Sm Sz,
    Forall (fun g => spikes_at N (g_n g) (g_S g) /\ forall k, (lastsp (g_S g) 0 <= k)%nat -> st N k (g_n g) = at_rest (vsum (g_L g) (lastsp (g_S g) 0) k))
   [{| g_n := sb_inb1 m; g_S := Si1; g_L := L_inb1 N s1 s2 Sm |}; {| g_n := sb_inb2 m; g_S := Si2; g_L := L_inb2 N s1 s2 Sp Sz |};
    {| g_n := sb_output_plus m; g_S := Sp; g_L := L_plus N tmin s1 s2 Si1 |}; {| g_n := sb_output_minus m; g_S := Sm; g_L := L_minus N tmin s1 s2 Si2 Sz |};
    {| g_n := sb_zero m; g_S := Sz; g_L := L_zero N s1 s2 Sz |}] /\
    ((forall k, (B <= k)%nat -> vsum (L_inb1 N s1 s2 Sm) (lastsp Si1 0) k = 0) /\ (forall k, (B <= k)%nat -> vsum (L_inb2 N s1 s2 Sp Sz) (lastsp Si2 0) k = 0) /\
     (forall k, (B <= k)%nat -> vsum (L_plus N tmin s1 s2 Si1) (lastsp Sp 0) k = 0) /\ (forall k, (B <= k)%nat -> vsum (L_minus N tmin s1 s2 Si2 Sz) (lastsp Sm 0) k = 0) /\
     (forall k, (B <= k)%nat -> vsum (L_zero N s1 s2 Sz) (lastsp Sz 0) k = 0)) /\
    forall j, In j (Si1 ++ Si2 ++ Sp ++ Sm ++ Sz) -> (j + D1 <= B)%nat).
  { destruct Hord as [[H1 H2]|[H1|[H1 H2]]].
    - exists [(s1 + D1)%nat], [], [], [(s1 + D3)%nat; (s2 + DM)%nat], []. split; [|split].
      + apply sb_group_all; go.
      + repeat match goal with |- _ /\ _ => split end; fin.
      + cbn [app In]. intros j [<-|[<-|[<-|[]]]]; lia.
    - destruct (Nat.le_gt_cases (s2 + Dnn) (s1 + Dn)) as [H2|H2].
      + exists [], [(s2 + D1)%nat], [(s2 + D3)%nat; (s1 + DM)%nat], [], []. split; [|split].
        * apply sb_group_all; go.
        * repeat match goal with |- _ /\ _ => split end; fin.
        * cbn [app In]. intros j [<-|[<-|[<-|[]]]]; lia.
      + exists [], [], [(s2 + D3)%nat; (s1 + DM)%nat], [], [(s1 + Dn)%nat]. split; [|split].
        * apply sb_group_all; go.
        * repeat match goal with |- _ /\ _ => split end; fin.
        * cbn [app In]. intros j [<-|[<-|[<-|[]]]]; lia.
    - exists [], [], [(s2 + D3)%nat; (s1 + DM)%nat], [], [(s1 + Dn)%nat]. split; [|split].
      + apply sb_group_all; go.
      + repeat match goal with |- _ /\ _ => split end; fin.
      + cbn [app In]. intros j [<-|[<-|[<-|[]]]]; lia. }
  destruct W as (Si1 & Si2 & Sp & Sm & Sz & W & V & HJ). destruct V as (V1 & V2 & V3 & V4 & V5).
  assert (LB : forall l, (forall j, In j l -> In j (Si1 ++ Si2 ++ Sp ++ Sm ++ Sz)) -> forall k, (B <= k)%nat -> (lastsp l 0 <= k)%nat).
  { intros l Hl k Hk. assert (Q : lastsp l 0 = 0%nat \/ In (lastsp l 0) l).
    { clear. assert (G : forall a, lastsp l a = a \/ In (lastsp l a) l); [|apply G]. induction l as [|x l IH]; intros a; [left; reflexivity|].
      cbn [lastsp fold_left In]. fold (lastsp l x). destruct (IH x) as [->|Q]; auto. }
    destruct Q as [->|Q]; [lia|]. apply Hl, HJ in Q. lia. }
  rewrite !Forall_cons_iff in W. cbn [g_n g_S g_L] in W. destruct W as ([W1 R1] & [W2 R2] & [W3 R3] & [W4 R4] & [W5 R5] & _).
  assert (I1 : forall j, In j Si1 -> In j (Si1 ++ Si2 ++ Sp ++ Sm ++ Sz)) by (intros j Hj; rewrite !in_app_iff; auto).
  assert (I2 : forall j, In j Si2 -> In j (Si1 ++ Si2 ++ Sp ++ Sm ++ Sz)) by (intros j Hj; rewrite !in_app_iff; auto).
  assert (I3 : forall j, In j Sp -> In j (Si1 ++ Si2 ++ Sp ++ Sm ++ Sz)) by (intros j Hj; rewrite !in_app_iff; auto).
  assert (I4 : forall j, In j Sm -> In j (Si1 ++ Si2 ++ Sp ++ Sm ++ Sz)) by (intros j Hj; rewrite !in_app_iff; auto).
  assert (I5 : forall j, In j Sz -> In j (Si1 ++ Si2 ++ Sp ++ Sm ++ Sz)) by (intros j Hj; rewrite !in_app_iff; auto).
  cbn [In]. intros [<-|[<-|[<-|[<-|[<-|[]]]]]].
  - split; [exists Si1; split; [exact W1|intros j Hj; apply HJ, I1, Hj]|]. intros k Hk. rewrite R1 by (apply LB; [exact I1|exact Hk]). rewrite V1 by exact Hk. reflexivity.
  - split; [exists Si2; split; [exact W2|intros j Hj; apply HJ, I2, Hj]|]. intros k Hk. rewrite R2 by (apply LB; [exact I2|exact Hk]). rewrite V2 by exact Hk. reflexivity.
  - split; [exists Sp; split; [exact W3|intros j Hj; apply HJ, I3, Hj]|]. intros k Hk. rewrite R3 by (apply LB; [exact I3|exact Hk]). rewrite V3 by exact Hk. reflexivity.
  - split; [exists Sm; split; [exact W4|intros j Hj; apply HJ, I4, Hj]|]. intros k Hk. rewrite R4 by (apply LB; [exact I4|exact Hk]). rewrite V4 by exact Hk. reflexivity.
  - split; [exists Sz; split; [exact W5|intros j Hj; apply HJ, I5, Hj]|]. intros k Hk. rewrite R5 by (apply LB; [exact I5|exact Hk]). rewrite V5 by exact Hk. reflexivity.
Qed.
Lemma sb_rest n k : In n (sb_internal m) -> (B <= k)%nat -> st N k n = init_nstate (t_prm N n).
Proof.
  intros Hn Hk.
  assert (FV : In n [sb_inb1 m; sb_inb2 m; sb_output_plus m; sb_output_minus m; sb_zero m] -> t_prm N n = stdp -> st N k n = init_nstate (t_prm N n)).
  { intros H HP. rewrite HP. change (init_nstate stdp) with (at_rest 0). apply sb_five; auto. }
  unfold sb_internal in Hn. cbn [In] in Hn, FV.
  destruct Hn as [<-|[<-|[<-|[<-|[<-|[<-|[<-|[]]]]]]]];
    try (apply FV; [tauto|first [apply (ins_prm _ _ _ (bi_inb1 _ _ _ HM))|apply (ins_prm _ _ _ (bi_inb2 _ _ _ HM))|apply (ins_prm _ _ _ (bi_plus _ _ _ HM))|apply (ins_prm _ _ _ (bi_minus _ _ _ HM))|apply (ins_prm _ _ _ (bi_zero _ _ _ HM))]]).
  - eapply (ins_settled _ _ _ s1); [apply (bi_sync1 _ _ _ HM)|eapply spk_last; [eapply sb_sync1_spk; eauto|left; reflexivity]| |lia].
    repeat constructor; cbn [s_pre s_delay mks]; rewrite cTsyn_R. eapply over_arrs; [exact Hin1|]. cbn [In]. intros ? [<-|[<-|[]]]; lia.
  - eapply (ins_settled _ _ _ s2); [apply (bi_sync2 _ _ _ HM)|eapply spk_last; [eapply sb_sync2_spk; eauto|left; reflexivity]| |lia].
    repeat constructor; cbn [s_pre s_delay mks]; rewrite cTsyn_R. eapply over_arrs; [exact Hin2|]. cbn [In]. intros ? [<-|[<-|[]]]; lia.
Qed.
End SubRest.

Definition sub_span (tmin tcod dt : R) : R := 6 + 2 * tmin + tcod + 4 * dt.
(** the operands whose difference the network can tell *)
Definition sub_ok (tcod dt : R) (x : R * R) : Prop :=
  0 <= fst x <= 1 /\ 0 <= snd x <= 1 /\ (snd x <= fst x \/ / 100 + 2 * dt <= (snd x - fst x) * tcod).
Lemma sub_quiet (tmin tcod x1 x2 dt t0 : R) K m w nm :
  0 < dt < / 50 -> 0 < tcod -> dt <= tmin -> sub_ok tcod dt (x1, x2) -> 0 <= t0 -> t0 + sub_span tmin tcod dt <= INR (S K) * dt ->
  let enc := DataEncoder tmin tcod in
  SubtractorNetwork enc nm empty_world = Ok (m, w) -> built empty_world w (sb_mod m) (sb_syns enc m) -> sb_nodes m = seq 0 9 -> length (w_neurons w) = 9%nat ->
  quiet (net_of w (exts enc [SValue x1 (sb_input1 m) t0; SValue x2 (sb_input2 m) t0]) dt) 9 K.
Proof.
  intros Hdt Htc Htm (Hx1 & Hx2 & HD) Ht0 HK enc E HB HN HL. cbn [fst snd] in Hx1, Hx2, HD. unfold sub_span in HK. rewrite S_INR in HK.
  destruct Hdt as [Hdt0 Hdt2].
  set (stims := fun m => [SValue x1 (sb_input1 m) t0; SValue x2 (sb_input2 m) t0]).
  pose proof HN as HN'. unfold sb_nodes in HN'. nodes_eqs HN'.
  destruct (session_built (SubtractorNetwork enc nm) sb_mod m w _ enc dt stims (fun _ l => l) (INR K * dt) E HB Hdt0 ltac:(lra)) as (s & Es & HSe).
  { unfold stims. stims_ok. } { intros i l. reflexivity. }
  change [SValue x1 (sb_input1 m) t0; SValue x2 (sb_input2 m) t0] with (stims m).
  set (N := net_of w (exts enc (stims m)) dt) in *. unfold stims in *.
  assert (Hxc : forall x, 0 <= x <= 1 -> 0 <= x * tcod <= tcod).
  { intros x Hx. split; [apply Rmult_le_pos; lra|rewrite <- (Rmult_1_l tcod) at 2; apply Rmult_le_compat_r; lra]. }
  pose proof (Hxc x1 Hx1) as Hc1. pose proof (Hxc x2 Hx2) as Hc2.
  set (s1 := step_at dt (t0 + 1 + (tmin + x1 * tcod))). set (s2 := step_at dt (t0 + 1 + (tmin + x2 * tcod))).
  assert (HA1 : arrs N (sb_input1 m) 1 [step_at dt (t0 + 1); s1]).
  { src_solve HSe. do 3 f_equal. unfold s1. f_equal. unfold enc; cbn [DataEncoder Tmin Tcod]. lra. }
  assert (HA2 : arrs N (sb_input2 m) 1 [step_at dt (t0 + 1); s2]).
  { src_solve HSe. do 3 f_equal. unfold s2. f_equal. unfold enc; cbn [DataEncoder Tmin Tcod]. lra. }
  assert (HM : sb_ins N tmin m).
  { apply (sb_ins_of N enc m 0); auto. intros n Hn. apply (se_own _ _ _ _ _ _ _ _ HSe).
    - unfold sb_internal in Hn. cbn [In] in Hn. intuition lia.
    - unfold sb_internal in Hn. cbn [In] in Hn. repeat destruct Hn as [<-|Hn]; try destruct Hn; ext_simp; reflexivity. }
  destruct (step_diff dt (t0 + 1) (tmin + x1 * tcod) Hdt0 ltac:(lra) ltac:(lra)) as (_ & _ & R1). specialize (R1 ltac:(lra)). fold s1 in R1.
  destruct (step_diff dt (t0 + 1) (tmin + x2 * tcod) Hdt0 ltac:(lra) ltac:(lra)) as (_ & _ & R2). specialize (R2 ltac:(lra)). fold s2 in R2.
  pose proof (step_time dt (t0 + 1 + (tmin + x1 * tcod)) Hdt0 ltac:(lra)) as Z1. fold s1 in Z1.
  pose proof (step_time dt (t0 + 1 + (tmin + x2 * tcod)) Hdt0 ltac:(lra)) as Z2. fold s2 in Z2.
  pose proof (step_at_bounds dt 1 Hdt0 ltac:(lra)) as ZD.
  pose proof (step_at_ge1 dt (t0 + 1)) as G1.
  destruct (sb_facts dt tmin ltac:(lra) Htm) as ((F1 & F2 & F3 & F4 & F5) & K1 & _ & K2 & _ & ZM). specialize (K1 ltac:(lra)).
  assert (Q1 := conj G1 R1). assert (Q2 := conj G1 R2).
  pose proof (b_syn _ _ _ _ HB) as ES. cbn [w_syns empty_world app] in ES.
  assert (SRC1 : in_syn N (sb_input1 m) = [] /\ t_prm N (sb_input1 m) = stdp).
  { split; [|cbn; apply prm_std; [apply HB|lia]]. eapply src_in; [exact ES|]. syn_simp. }
  assert (SRC2 : in_syn N (sb_input2 m) = [] /\ t_prm N (sb_input2 m) = stdp).
  { split; [|cbn; apply prm_std; [apply HB|lia]]. eapply src_in; [exact ES|]. syn_simp. }
  set (D1 := step_at dt 1) in *. set (Dn := step_at dt (/ 100)) in *. set (Dnn := step_at dt (2 * / 100)) in *.
  set (D3 := step_at dt (3 * 1 + 2 * / 100)) in *. set (DM := step_at dt (tmin + (3 * 1 + 2 * / 100))) in *.
  assert (ORD : ((s1 < s2 /\ s1 + Dnn <= s2 + Dn) \/ s2 < s1 \/ (s1 = s2 /\ Dn < Dnn))%nat).
  { destruct HD as [HD|HD].
    - right. assert (Hdd : 0 <= (x1 - x2) * tcod) by (apply Rmult_le_pos; lra).
      destruct (step_diff dt (t0 + 1 + (tmin + x2 * tcod)) ((x1 - x2) * tcod) ltac:(lra) ltac:(lra) Hdd) as (P1 & _).
      replace (t0 + 1 + (tmin + x2 * tcod) + (x1 - x2) * tcod) with (t0 + 1 + (tmin + x1 * tcod)) in P1 by lra. fold s1 s2 in P1. lia.
    - left. destruct (step_diff dt (t0 + 1 + (tmin + x1 * tcod)) ((x2 - x1) * tcod) ltac:(lra) ltac:(lra) ltac:(lra)) as (P1 & P2 & P3).
      specialize (P3 ltac:(lra)). replace (t0 + 1 + (tmin + x1 * tcod) + (x2 - x1) * tcod) with (t0 + 1 + (tmin + x2 * tcod)) in * by lra. fold s1 s2 in P1, P2, P3.
      apply Rabs_def2 in P2. split; [exact P3|]. nat_le dt Hdt0. lra. }
  assert (HB1 : (s1 + DM + D1 <= K)%nat) by (assert (s1 + DM + D1 < K + 1)%nat; [|lia]; nat_lt dt Hdt0; lra).
  assert (HB2 : (s2 + DM + D1 <= K)%nat) by (assert (s2 + DM + D1 < K + 1)%nat; [|lia]; nat_lt dt Hdt0; lra).
  pose proof (sb_rest N m tmin HM _ _ _ _ HA1 HA2 Q1 Q2 F1 F2 F3 F4 F5 ORD K HB1 HB2) as RS.
  pose proof (sb_five N m tmin HM _ _ _ _ HA1 HA2 Q1 Q2 F1 F2 F3 F4 F5 ORD K HB1 HB2) as FV.
  assert (SS1 : spikes_at N (sb_sync1 m) [s1]) by (eapply sb_sync1_spk; eauto). assert (SS2 : spikes_at N (sb_sync2 m) [s2]) by (eapply sb_sync2_spk; eauto).
  constructor.
  - intros p y Hp Hy Ep. cbn [N net_of t_ext t_syns t_dt] in *. rewrite ES in Hy.
    assert (HP : s_delay y = 1).
    { unfold exts in Hp. cbn [flat_map stim_ext app In] in Hp. assert (Efst : fst p = sb_input1 m \/ fst p = sb_input2 m) by (destruct Hp as [<-|[<-|[<-|[<-|[]]]]]; cbn; auto).
      unfold sb_syns in Hy. cbn [In] in Hy. repeat destruct Hy as [<-|Hy]; try destruct Hy; cbn [s_pre s_delay syn mks] in *; autorewrite with netR; try lra; exfalso; lia. }
    rewrite HP. unfold exts in Hp. cbn [flat_map stim_ext app In] in Hp. destruct Hp as [<-|[<-|[<-|[<-|[]]]]]; cbn [snd].
    + lia.
    + replace (t0 + (Tmin enc + x1 * Tcod enc) + 1) with (t0 + 1 + (tmin + x1 * tcod)) by (unfold enc; cbn; lra). fold s1. lia.
    + lia.
    + replace (t0 + (Tmin enc + x2 * Tcod enc) + 1) with (t0 + 1 + (tmin + x2 * tcod)) by (unfold enc; cbn; lra). fold s2. lia.
  - intros q Hq. assert (Hc : q = sb_input1 m \/ q = sb_input2 m \/ In q (sb_internal m)) by (unfold sb_internal; cbn [In]; lia).
    destruct Hc as [->|[->|Hc]]; [apply src_settled; apply SRC1|apply src_settled; apply SRC2|apply RS; auto].
  - intros y j Hy Hj Hs. cbn [N net_of t_syns t_dt] in *. rewrite ES in Hy. fold N in Hs.
    pose proof (source_silent N (sb_input1 m) (proj1 SRC1) (proj2 SRC1)) as S1. pose proof (source_silent N (sb_input2 m) (proj1 SRC2) (proj2 SRC2)) as S2.
    assert (FB : forall n, In n [sb_inb1 m; sb_inb2 m; sb_output_plus m; sb_output_minus m; sb_zero m] -> spk N j n = true -> (j + D1 <= K)%nat).
    { intros n Hn Hsp. destruct (FV n Hn) as ((l & A & B) & _). apply B. rewrite A in Hsp. apply memb_In in Hsp. exact Hsp. }
    unfold sb_syns in Hy. cbn [In] in Hy. unfold sb_d3 in Hy. repeat destruct Hy as [<-|Hy]; try destruct Hy; cbn [s_pre s_delay syn mks] in *; cbn [enc DataEncoder Tmin]; netr; autorewrite with netR;
      fold D1 Dn Dnn D3 DM;
      first [ rewrite S1 in Hs; discriminate | rewrite S2 in Hs; discriminate
            | rewrite SS1 in Hs; cbn [memb existsb] in Hs; rewrite orb_false_r in Hs; apply Nat.eqb_eq in Hs; subst j; lia
            | rewrite SS2 in Hs; cbn [memb existsb] in Hs; rewrite orb_false_r in Hs; apply Nat.eqb_eq in Hs; subst j; lia
            | (assert (j + D1 <= K)%nat by (eapply FB; [|exact Hs]; cbn [In]; tauto)); lia ].
Qed.

(** what the two outputs say for operands x1, x2 *)
Definition sub_says (enc : encoder R) (eps x1 x2 : R) (plus minus : list R) : Prop :=
  if Rle_dec x2 x1 then pair_says enc (x1 - x2) eps plus /\ minus = [] else plus = [] /\ pair_says enc (x2 - x1) eps minus.
Theorem subtractor_reuse (tmin tcod dt T : R) (js : list ((R * R) * R)) nm ord :
  0 < dt < / 50 -> 0 < tcod -> dt <= tmin -> ord_ok ord -> 0 <= T ->
  jobs_ok (R * R) (sub_ok tcod dt) (fun _ => sub_span tmin tcod dt) 0 js T ->
  exists m s ps,
    session (SubtractorNetwork (DataEncoder tmin tcod) nm) sb_mod (DataEncoder tmin tcod) dt
      (fun m => flat_map (fun j => [SValue (fst (fst j)) (sb_input1 m) (snd j); SValue (snd (fst j)) (sb_input2 m) (snd j)]) js) ord T = Ok (m, s) /\
    spike_log s (sb_output_plus m) = concat (map fst ps) /\ spike_log s (sb_output_minus m) = concat (map snd ps) /\
    Forall2 (fun j p => sub_says (DataEncoder tmin tcod) (2 * dt / tcod) (fst (fst j)) (snd (fst j)) (fst p) (snd p)) js ps.
Proof.
  intros Hdt Htc Htm HO HT HJ. set (enc := DataEncoder tmin tcod).
  destruct (Subtractor_built enc nm empty_world inv_empty) as (m & w & E & HB & HN & HL).
  cbn [w_neurons empty_world length Nat.add] in HN, HL.
  pose proof HN as HN'. unfold sb_nodes in HN'. nodes_eqs HN'.
  pose proof (b_syn _ _ _ _ HB) as ES. cbn [w_syns empty_world app] in ES.
  set (st_of := fun (x : R * R) t => [SValue (fst x) (sb_input1 m) t; SValue (snd x) (sb_input2 m) t]).
  assert (EQ : forall stims T, session (SubtractorNetwork enc nm) sb_mod enc dt stims ord T = session (SubtractorNetwork enc nm) sb_mod enc dt (fun _ => stims m) ord T).
  { intros stims T'. unfold session. rewrite E. reflexivity. }
  destruct (session_jobs (SubtractorNetwork enc nm) sb_mod m w _ enc dt ord E HB ltac:(lra) HO (R * R) st_of (sub_ok tcod dt) (fun _ => sub_span tmin tcod dt)
     (fun n => n = sb_output_plus m \/ n = sb_output_minus m)
     (fun x l => sub_says enc (2 * dt / tcod) (fst x) (snd x) (l (sb_output_plus m)) (l (sb_output_minus m)))) with (js := js) (T := T) as (s & ls & Es & F & LG); auto.
  - intros y Hy. rewrite ES in Hy. unfold sb_syns, sb_d3 in Hy. cbn [In] in Hy. repeat destruct Hy as [<-|Hy]; try destruct Hy; cbn [s_delay syn mks enc DataEncoder Tmin]; netr; autorewrite with netR; lra.
  - intros x t d. unfold exts, later, st_of. cbn [flat_map stim_ext app map fst snd]. repeat (f_equal; try lra).
  - intros x t p (Hx1 & Hx2 & _) Hp. unfold exts, st_of in Hp. cbn [flat_map stim_ext app In enc DataEncoder Tmin Tcod] in Hp.
    assert (0 <= fst x * tcod) by (apply Rmult_le_pos; lra). assert (0 <= snd x * tcod) by (apply Rmult_le_pos; lra).
    destruct Hp as [<-|[<-|[<-|[<-|[]]]]]; cbn [snd]; lra.
  - intros [x1 x2] t (Hx1 & Hx2 & _). cbn [fst snd] in Hx1, Hx2. unfold st_of. cbn [fst snd]. stims_ok.
  - intros x _. unfold sub_span. lra.
  - intros n [->| ->]; lia.
  - intros n x t Hn. unfold exts, st_of. cbn [flat_map stim_ext app map fst In]. lia.
  - intros x l l' d Hl EL. cbv beta in *. rewrite (EL (sb_output_plus m)), (EL (sb_output_minus m)) by auto. unfold sub_says in *.
    destruct (Rle_dec (snd x) (fst x)); destruct Hl as [A B]; [split; [apply says_shift; auto|rewrite B; reflexivity]|split; [rewrite A; reflexivity|apply says_shift; auto]].
  - intros [x1 x2] t K Hx Ht HK. cbn [fst snd].
    pose proof (sub_quiet tmin tcod x1 x2 dt t K m w nm Hdt Htc Htm Hx Ht HK E HB HN HL) as HQ. rewrite <- HL in HQ.
    destruct Hx as (Hx1 & Hx2 & HD). cbn [fst snd] in Hx1, Hx2, HD.
    unfold sub_span in HK. rewrite S_INR in HK.
    destruct (subtractor_run tmin tcod x1 x2 dt t (INR K * dt) nm ord Hdt Htc Htm Hx1 Hx2 Ht HO HD ltac:(lra)) as (m' & s & Es & EM). fold enc in Es, EM.
    destruct (session_rests (SubtractorNetwork enc nm) sb_mod m w _ enc dt ord E HB ltac:(lra) HO (fun _ => st_of (x1, x2) t) K) as (s' & Es' & RS); auto; [unfold st_of; cbn [fst snd]; stims_ok|].
    assert (EE : Ok (m, s') = Ok (m', s)) by (rewrite <- Es', <- Es; rewrite (EQ (fun m0 => [SValue x1 (sb_input1 m0) t; SValue x2 (sb_input2 m0) t])); reflexivity).
    injection EE as <- <-. exists s'. split; [exact Es'|]. split; [exact RS|].
    cbv zeta in EM. unfold sub_says. destruct (Rle_dec x2 x1) as [Hle|Hgt]; destruct EM as (A & _ & B).
    + split; [|exact B]. rewrite Rabs_right in A by lra. exact A.
    + split; [exact B|]. rewrite Rabs_left in A by lra. replace (- (x1 - x2)) with (x2 - x1) in A by lra. exact A.
  - exists m, s, (map (fun l => (l (sb_output_plus m), l (sb_output_minus m))) ls). rewrite EQ. split; [exact Es|].
    rewrite !map_map. cbn [fst snd]. split; [apply LG; auto|]. split; [apply LG; auto|].
    clear -F. induction F; cbn [map]; constructor; auto.
Qed.
