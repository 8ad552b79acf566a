(** SubtractorNetwork (C25): the spikes of every neuron, for all input timings. *)
From Coq Require Import Arith ZArith Bool List Reals Lra Lia Permutation.
From Verif Require Import Num Heapq Elements Simulator Networks Trace SimTrace SimProps TraceProps NeuronLib NetLib Build BuildNets Bridge MemoryProof Session SimpleNets InvMem FuncNets SegLib.
Import ListNotations.
Open Scope R_scope.
Open Scope list_scope.

Record sb_ins (N : tnet) (tmin : R) (m : sub_net) : Prop := {
  bi_sync1 : ins N (sb_sync1 m) [mks (sb_input1 m) (sb_sync1 m) SynV (half we) cTsyn];
  bi_sync2 : ins N (sb_sync2 m) [mks (sb_input2 m) (sb_sync2 m) SynV (half we) cTsyn];
  bi_inb1 : ins N (sb_inb1 m) [mks (sb_sync1 m) (sb_inb1 m) SynV we cTsyn; mks (sb_sync2 m) (sb_inb1 m) SynV wi cTsyn;
                               mks (sb_output_minus m) (sb_inb1 m) SynV (half we) cTsyn];
  bi_inb2 : ins N (sb_inb2 m) [mks (sb_sync2 m) (sb_inb2 m) SynV we cTsyn; mks (sb_sync1 m) (sb_inb2 m) SynV wi cTsyn;
                               mks (sb_output_plus m) (sb_inb2 m) SynV (half we) cTsyn; mks (sb_zero m) (sb_inb2 m) SynV wi cTneu];
  bi_plus : ins N (sb_output_plus m) [mks (sb_sync1 m) (sb_output_plus m) SynV we (nadd tmin sb_d3);
                               mks (sb_sync2 m) (sb_output_plus m) SynV we sb_d3; mks (sb_inb1 m) (sb_output_plus m) SynV (twice wi) cTsyn];
  bi_minus : ins N (sb_output_minus m) [mks (sb_sync2 m) (sb_output_minus m) SynV we (nadd tmin sb_d3);
                               mks (sb_sync1 m) (sb_output_minus m) SynV we sb_d3; mks (sb_inb2 m) (sb_output_minus m) SynV (twice wi) cTsyn;
                               mks (sb_zero m) (sb_output_minus m) SynV (twice wi) cTneu];
  bi_zero : ins N (sb_zero m) [mks (sb_zero m) (sb_zero m) SynV we cTneu; mks (sb_sync1 m) (sb_zero m) SynV (half wi) (twice cTneu);
                               mks (sb_sync2 m) (sb_zero m) SynV (half wi) (twice cTneu);
                               mks (sb_sync1 m) (sb_zero m) SynV (half we) cTneu; mks (sb_sync2 m) (sb_zero m) SynV (half we) cTneu]
}.
Lemma evw_app L L' k : evw (L ++ L') k = evw L k + evw L' k.
Proof. apply sumf_app. Qed.
Lemma evw_map_shift w d l k : evw (map (fun j => ((j + d)%nat, w)) l) k = w * cnt k (map (fun j => (j + d)%nat) l).
Proof. induction l as [|t l IH]; cbn [map]; [rewrite evw_nil, cnt_nil; lra|]. rewrite evw_cons, cnt_cons, IH. lra. Qed.

Section Sub.
Variable N : tnet.
Variable m : sub_net.
Variable tmin : R.
Let dt := t_dt N.
Hypothesis HM : sb_ins N tmin m.
Variables a1 s1 a2 s2 : nat.
Let D1 := step_at dt 1.
Let Dn := step_at dt (/ 100).
Let Dnn := step_at dt (2 * / 100).
Let D3 := step_at dt (3 * 1 + 2 * / 100).
Let DM := step_at dt (tmin + (3 * 1 + 2 * / 100)).
Hypothesis Hin1 : arrs N (sb_input1 m) 1 [a1; s1].
Hypothesis Hin2 : arrs N (sb_input2 m) 1 [a2; s2].
Hypothesis Ha1 : (1 <= a1 < s1)%nat.
Hypothesis Ha2 : (1 <= a2 < s2)%nat.

Lemma sb_sync1_spk : spikes_at N (sb_sync1 m) [s1].
Proof. eapply last_spikes; [apply (bi_sync1 _ _ _ HM)|rewrite cTsyn_R; eauto|lia|lia]. Qed.
Lemma sb_sync2_spk : spikes_at N (sb_sync2 m) [s2].
Proof. eapply last_spikes; [apply (bi_sync2 _ _ _ HM)|rewrite cTsyn_R; eauto|lia|lia]. Qed.

(** any assignment of spike trains consistent with the five recurrences is the actual one *)
Definition L_inb1 (Sm : list nat) := [((s1 + D1)%nat, 10); ((s2 + D1)%nat, -10)] ++ map (fun j => ((j + D1)%nat, 5)) Sm.
Definition L_inb2 (Sp Sz : list nat) := [((s2 + D1)%nat, 10); ((s1 + D1)%nat, -10)] ++ map (fun j => ((j + D1)%nat, 5)) Sp ++ map (fun j => ((j + Dn)%nat, -10)) Sz.
Definition L_plus (Si1 : list nat) := [((s1 + DM)%nat, 10); ((s2 + D3)%nat, 10)] ++ map (fun j => ((j + D1)%nat, -20)) Si1.
Definition L_minus (Si2 Sz : list nat) := [((s2 + DM)%nat, 10); ((s1 + D3)%nat, 10)] ++ map (fun j => ((j + D1)%nat, -20)) Si2 ++ map (fun j => ((j + Dn)%nat, -20)) Sz.
Definition L_zero (Sz : list nat) := [((s1 + Dnn)%nat, -5); ((s2 + Dnn)%nat, -5); ((s1 + Dn)%nat, 5); ((s2 + Dn)%nat, 5)] ++ map (fun j => ((j + Dn)%nat, 10)) Sz.
Lemma sb_group Si1 Si2 Sp Sm Sz :
  segs (L_inb1 Sm) 0 Si1 -> segs (L_inb2 Sp Sz) 0 Si2 -> segs (L_plus Si1) 0 Sp -> segs (L_minus Si2 Sz) 0 Sm -> segs (L_zero Sz) 0 Sz ->
  spikes_at N (sb_output_plus m) Sp /\ spikes_at N (sb_output_minus m) Sm.
Proof.
  intros G1 G2 G3 G4 G5.
  set (G := [{| g_n := sb_inb1 m; g_S := Si1; g_L := L_inb1 Sm |}; {| g_n := sb_inb2 m; g_S := Si2; g_L := L_inb2 Sp Sz |};
             {| g_n := sb_output_plus m; g_S := Sp; g_L := L_plus Si1 |}; {| g_n := sb_output_minus m; g_S := Sm; g_L := L_minus Si2 Sz |};
             {| g_n := sb_zero m; g_S := Sz; g_L := L_zero Sz |}]).
  assert (R : forall g, In g G -> spikes_at N (g_n g) (g_S g)).
  { apply seg_group.
    - intros g Hg. unfold G in Hg. cbn [In] in Hg.
      destruct Hg as [<-|[<-|[<-|[<-|[<-|[]]]]]]; cbn [g_n g_S g_L]; repeat apply conj; auto; try apply HM; (eapply ins_vonly; [apply HM|repeat constructor]).
    - intros K HK.
      assert (HS : forall g, In g G -> forall j, In j (g_S g) -> (1 <= j)%nat /\ NoDup (g_S g)).
      { intros g Hg j Hj. assert (HST : strict 0 (g_S g)).
        { unfold G in Hg. cbn [In] in Hg. destruct Hg as [<-|[<-|[<-|[<-|[<-|[]]]]]]; cbn [g_n g_S g_L]; eauto using segs_strict. }
        split; [apply (strict_In _ _ HST _ Hj)|eapply strict_NoDup; eauto]. }
      assert (AR : forall g d, In g G -> ext_of N (g_n g) = [] -> INR (arr N (g_n g) d (S K)) = cnt (S K) (map (fun j => (j + step_at dt d)%nat) (g_S g))).
      { intros g d Hg He. apply (arr_upto N (g_n g) d (g_S g) K); auto.
        - intros j Hj. apply (HS g Hg j Hj).
        - destruct (g_S g) as [|j l] eqn:E; [constructor|]. rewrite <- E. apply (HS g Hg j). rewrite E. left; auto. }
      assert (A1 := fun d => AR {| g_n := sb_inb1 m; g_S := Si1; g_L := L_inb1 Sm |} d ltac:(cbn; auto) (ins_ext _ _ _ (bi_inb1 _ _ _ HM))).
      assert (A2 := fun d => AR {| g_n := sb_inb2 m; g_S := Si2; g_L := L_inb2 Sp Sz |} d ltac:(cbn; auto) (ins_ext _ _ _ (bi_inb2 _ _ _ HM))).
      assert (A3 := fun d => AR {| g_n := sb_output_plus m; g_S := Sp; g_L := L_plus Si1 |} d ltac:(cbn; auto) (ins_ext _ _ _ (bi_plus _ _ _ HM))).
      assert (A4 := fun d => AR {| g_n := sb_output_minus m; g_S := Sm; g_L := L_minus Si2 Sz |} d ltac:(cbn; auto) (ins_ext _ _ _ (bi_minus _ _ _ HM))).
      assert (A5 := fun d => AR {| g_n := sb_zero m; g_S := Sz; g_L := L_zero Sz |} d ltac:(cbn; auto 6) (ins_ext _ _ _ (bi_zero _ _ _ HM))).
      cbn [g_n g_S] in A1, A2, A3, A4, A5.
      assert (Q1 : forall d, INR (arr N (sb_sync1 m) d (S K)) = cnt (S K) [(s1 + step_at dt d)%nat]).
      { intros d. apply (arrs_spikes N (sb_sync1 m) d [s1]); try lia; [apply (bi_sync1 _ _ _ HM)|apply sb_sync1_spk| |repeat constructor; auto].
        intros j [<-|[]]; lia. }
      assert (Q2 : forall d, INR (arr N (sb_sync2 m) d (S K)) = cnt (S K) [(s2 + step_at dt d)%nat]).
      { intros d. apply (arrs_spikes N (sb_sync2 m) d [s2]); try lia; [apply (bi_sync2 _ _ _ HM)|apply sb_sync2_spk| |repeat constructor; auto].
        intros j [<-|[]]; lia. }
      intros g Hg. unfold G in Hg. cbn [In] in Hg. destruct Hg as [<-|[<-|[<-|[<-|[<-|[]]]]]]; cbn [g_n g_S g_L].
      + ev_input (bi_inb1 _ _ _ HM). rewrite Q1, Q2, A4. unfold L_inb1, sb_d3. netr. autorewrite with netR. rewrite evw_app, evw_map_shift. ev_simpl. fold D1. lra.
      + ev_input (bi_inb2 _ _ _ HM). rewrite Q1, Q2, A3, A5. unfold L_inb2, sb_d3. netr. autorewrite with netR. rewrite !evw_app, !evw_map_shift. ev_simpl. fold D1 Dn. lra.
      + ev_input (bi_plus _ _ _ HM). rewrite Q1, Q2, A1. unfold L_plus, sb_d3. netr. autorewrite with netR. rewrite !evw_app, !evw_map_shift. ev_simpl. fold D1 DM D3. lra.
      + ev_input (bi_minus _ _ _ HM). rewrite Q1, Q2, A2, A5. unfold L_minus, sb_d3. netr. autorewrite with netR. rewrite !evw_app, !evw_map_shift. ev_simpl. fold D1 DM D3 Dn. lra.
      + ev_input (bi_zero _ _ _ HM). rewrite !Q1, !Q2, A5. unfold L_zero, sb_d3. netr. autorewrite with netR. rewrite !evw_app, !evw_map_shift. ev_simpl. fold Dn Dnn. lra. }
  split; [apply (R {| g_n := sb_output_plus m; g_S := Sp; g_L := L_plus Si1 |})|apply (R {| g_n := sb_output_minus m; g_S := Sm; g_L := L_minus Si2 Sz |})];
    unfold G; cbn [In]; auto.
Qed.

Hypothesis F1 : (1 <= D1 /\ 1 <= Dn)%nat.
Hypothesis F2 : (2 * D1 < D3)%nat.
Hypothesis F3 : (2 * Dn <= D3 /\ 3 * Dn <= D1 + 1)%nat.
Hypothesis F4 : (D3 < DM)%nat.
Hypothesis F5 : (2 * Dn <= Dnn + 1 /\ Dnn <= 2 * Dn /\ Dn <= Dnn)%nat.
Ltac go := unfold L_inb1, L_inb2, L_plus, L_minus, L_zero; cbn [map app]; segs_solve.
(** x2 > x1 by more than the resolution of the zero detector *)
Lemma sb_case_minus : (s1 < s2)%nat -> (s1 + Dnn <= s2 + Dn)%nat ->
  spikes_at N (sb_output_plus m) [] /\ spikes_at N (sb_output_minus m) [(s1 + D3)%nat; (s2 + DM)%nat].
Proof. intros H1 H2. apply (sb_group [(s1 + D1)%nat] [] [] [(s1 + D3)%nat; (s2 + DM)%nat] []); go. Qed.
Lemma sb_case_plus : (s2 < s1)%nat -> (s2 + Dnn <= s1 + Dn)%nat ->
  spikes_at N (sb_output_plus m) [(s2 + D3)%nat; (s1 + DM)%nat] /\ spikes_at N (sb_output_minus m) [].
Proof. intros H1 H2. apply (sb_group [] [(s2 + D1)%nat] [(s2 + D3)%nat; (s1 + DM)%nat] [] []); go. Qed.
Lemma sb_case_zero : s1 = s2 -> (Dn < Dnn)%nat ->
  spikes_at N (sb_output_plus m) [(s2 + D3)%nat; (s1 + DM)%nat] /\ spikes_at N (sb_output_minus m) [].
Proof. intros H1 H2. apply (sb_group [] [] [(s2 + D3)%nat; (s1 + DM)%nat] [] [(s1 + Dn)%nat]); go. Qed.
Lemma sb_case_small : (s2 < s1)%nat -> (s1 + Dn < s2 + Dnn)%nat ->
  spikes_at N (sb_output_plus m) [(s2 + D3)%nat; (s1 + DM)%nat] /\ spikes_at N (sb_output_minus m) [].
Proof. intros H1 H2. apply (sb_group [] [] [(s2 + D3)%nat; (s1 + DM)%nat] [] [(s1 + Dn)%nat]); go. Qed.
Lemma sb_case_lost : (s1 < s2)%nat -> (s2 + Dn < s1 + Dnn)%nat ->
  spikes_at N (sb_output_plus m) [] /\ spikes_at N (sb_output_minus m) [].
Proof. intros H1 H2. apply (sb_group [(s1 + D1)%nat] [] [] [] [(s2 + Dn)%nat]); go. Qed.
Lemma sb_case_both : s1 = s2 -> Dn = Dnn ->
  spikes_at N (sb_output_plus m) [(s2 + D3)%nat; (s1 + DM)%nat] /\ spikes_at N (sb_output_minus m) [(s1 + D3)%nat; (s2 + DM)%nat].
Proof. intros H1 H2. apply (sb_group [(s1 + DM + D1)%nat] [(s1 + DM + D1)%nat] [(s2 + D3)%nat; (s1 + DM)%nat] [(s1 + D3)%nat; (s2 + DM)%nat] []); go. Qed.
End Sub.

Lemma sb_facts dt tmin : 0 < dt <= 1 / 2 -> dt <= tmin ->
  let D1 := step_at dt 1 in let Dn := step_at dt (/ 100) in let Dnn := step_at dt (2 * / 100) in
  let D3 := step_at dt (3 * 1 + 2 * / 100) in let DM := step_at dt (tmin + (3 * 1 + 2 * / 100)) in
  ((1 <= D1 /\ 1 <= Dn) /\ 2 * D1 < D3 /\ (2 * Dn <= D3 /\ 3 * Dn <= D1 + 1) /\ D3 < DM /\ (2 * Dn <= Dnn + 1 /\ Dnn <= 2 * Dn /\ Dn <= Dnn))%nat /\
  (dt < / 50 -> (Dn < Dnn)%nat) /\ (/ 50 <= dt -> Dn = Dnn) /\
  / 100 - dt < INR Dnn * dt - INR Dn * dt < / 100 + dt /\
  Rabs (INR DM * dt - INR D3 * dt - tmin) < dt /\ INR DM * dt < tmin + 3 + 2 * / 100 + dt.
Proof.
  intros [Hdt H2] Htm. cbv zeta.
  pose proof (step_at_bounds dt 1 Hdt ltac:(lra)) as B1. pose proof (step_at_bounds dt (/ 100) Hdt ltac:(lra)) as Bn.
  pose proof (step_at_bounds dt (2 * / 100) Hdt ltac:(lra)) as Bnn. pose proof (step_at_bounds dt (3 * 1 + 2 * / 100) Hdt ltac:(lra)) as B3.
  pose proof (step_at_bounds dt (tmin + (3 * 1 + 2 * / 100)) Hdt ltac:(lra)) as BM.
  pose proof (step_at_ge1 dt 1) as G1. pose proof (step_at_ge1 dt (/ 100)) as Gn. pose proof (step_at_ge1 dt (2 * / 100)) as Gnn.
  set (D1 := step_at dt 1) in *. set (Dn := step_at dt (/ 100)) in *. set (Dnn := step_at dt (2 * / 100)) in *.
  set (D3 := step_at dt (3 * 1 + 2 * / 100)) in *. set (DM := step_at dt (tmin + (3 * 1 + 2 * / 100))) in *.
  assert (N1 : / 100 <= dt -> Dn = 1%nat).
  { intros H. assert (Dn < 2)%nat; [|lia]. nat_lt dt Hdt. lra. }
  assert (E1 : (2 <= D1)%nat) by (nat_le dt Hdt; lra).
  clearbody D1 Dn Dnn D3 DM.
  repeat match goal with |- _ /\ _ => split end; auto.
  - nat_lt dt Hdt. lra.
  - nat_le dt Hdt. lra.
  - destruct (Rle_lt_dec (/ 100) dt) as [H|H]; [rewrite N1 by auto; lia|]. nat_le dt Hdt. lra.
  - nat_lt dt Hdt. lra.
  - assert (2 * Dn < Dnn + 2)%nat; [|lia]. nat_lt dt Hdt. lra.
  - assert (Dnn < 2 * Dn + 1)%nat; [|lia]. nat_lt dt Hdt. lra.
  - assert (Dn < Dnn + 1)%nat; [|lia]. nat_lt dt Hdt. lra.
  - intros H. destruct (Rle_lt_dec (/ 100) dt) as [H'|H'].
    + rewrite N1 by auto. nat_lt dt Hdt. lra.
    + nat_lt dt Hdt. lra.
  - intros H. rewrite N1 by lra. assert (Dnn < 2)%nat; [|lia]. nat_lt dt Hdt. lra.
  - lra.
  - lra.
  - apply Rabs_def1; lra.
  - lra.
Qed.
Definition sb_internal (m : sub_net) := [sb_sync1 m; sb_sync2 m; sb_inb1 m; sb_inb2 m; sb_output_plus m; sb_output_minus m; sb_zero m].
Lemma sb_ins_of N enc m b : sb_nodes m = seq b 9 -> (forall n, In n (sb_internal m) -> own N (sb_syns enc m) n) -> sb_ins N (Tmin enc) m.
Proof. intros HN HO. unfold sb_nodes in HN. nodes_eqs HN. unfold sb_internal in HO. constructor; own_solve HO. Qed.

(** ** the subtractor on its own, both operands presented at t0 *)
Section SubRun.
Variables tmin tcod x1 x2 dt t0 T : R.
Variable nm : option String.string.
Variable ord : nat -> list nat -> list nat.
Hypothesis Hdt : 0 < dt <= 1 / 2.
Hypothesis Htc : 0 < tcod.
Hypothesis Htm : dt <= tmin.
Hypothesis Hx1 : 0 <= x1 <= 1.
Hypothesis Hx2 : 0 <= x2 <= 1.
Hypothesis Ht0 : 0 <= t0.
Hypothesis HO : ord_ok ord.
Hypothesis HT : t0 + 5 + 2 * tmin + tcod + 2 * dt <= T.
Let enc := DataEncoder tmin tcod.
Let stims := fun m => [SValue x1 (sb_input1 m) t0; SValue x2 (sb_input2 m) t0].
Let s1 := step_at dt (t0 + 1 + (tmin + x1 * tcod)).
Let s2 := step_at dt (t0 + 1 + (tmin + x2 * tcod)).
Let D3 := step_at dt (3 * 1 + 2 * / 100).
Let DM := step_at dt (tmin + (3 * 1 + 2 * / 100)).
Let Dn := step_at dt (/ 100).
Let Dnn := step_at dt (2 * / 100).

Lemma sb_session : exists m s, session (SubtractorNetwork enc nm) sb_mod enc dt stims ord T = Ok (m, s) /\
  ((s1 < s2 -> s1 + Dnn <= s2 + Dn -> spike_log s (sb_output_plus m) = [] /\ spike_log s (sb_output_minus m) = times dt [s1 + D3; s2 + DM]) /\
   ((s2 < s1 \/ (s1 = s2 /\ Dn < Dnn)) -> spike_log s (sb_output_plus m) = times dt [s2 + D3; s1 + DM] /\ spike_log s (sb_output_minus m) = []) /\
   (s1 < s2 -> s2 + Dn < s1 + Dnn -> spike_log s (sb_output_plus m) = [] /\ spike_log s (sb_output_minus m) = []) /\
   (s1 = s2 -> Dn = Dnn -> spike_log s (sb_output_plus m) = times dt [s2 + D3; s1 + DM] /\ spike_log s (sb_output_minus m) = times dt [s1 + D3; s2 + DM]))%nat.
Proof.
  destruct Hdt as [Hdt0 Hdt2].
  destruct (Subtractor_built enc nm empty_world inv_empty) as (m & w & E & HB & HN & HL).
  cbn [w_neurons empty_world length Nat.add] in HN, HL.
  pose proof HN as HN'. unfold sb_nodes in HN'. nodes_eqs HN'.
  destruct (session_built (SubtractorNetwork enc nm) sb_mod m w _ enc dt stims ord T E HB Hdt0 ltac:(lra)) as (s & Es & HSe).
  { unfold stims. stims_ok. } { auto. }
  exists m, s. split; [exact Es|].
  set (N := net_of w (exts enc (stims m)) dt) in *. unfold stims in *.
  assert (Hxc : forall x, 0 <= x <= 1 -> 0 <= x * tcod <= tcod).
  { intros x Hx. split; [apply Rmult_le_pos; lra|rewrite <- (Rmult_1_l tcod) at 2; apply Rmult_le_compat_r; lra]. }
  pose proof (Hxc x1 Hx1) as Hc1. pose proof (Hxc x2 Hx2) as Hc2.
  assert (HA1 : arrs N (sb_input1 m) 1 [step_at dt (t0 + 1); s1]).
  { src_solve HSe. do 3 f_equal. unfold s1. f_equal. unfold enc; cbn [DataEncoder Tmin Tcod]. lra. }
  assert (HA2 : arrs N (sb_input2 m) 1 [step_at dt (t0 + 1); s2]).
  { src_solve HSe. do 3 f_equal. unfold s2. f_equal. unfold enc; cbn [DataEncoder Tmin Tcod]. lra. }
  assert (HM : sb_ins N tmin m).
  { apply (sb_ins_of N enc m 0); auto. intros n Hn. apply (se_own _ _ _ _ _ _ _ _ HSe).
    - unfold sb_internal in Hn. cbn [In] in Hn. intuition lia.
    - unfold sb_internal in Hn. cbn [In] in Hn. repeat destruct Hn as [<-|Hn]; try destruct Hn; ext_simp; reflexivity. }
  destruct (step_diff dt (t0 + 1) (tmin + x1 * tcod) Hdt0 ltac:(lra) ltac:(lra)) as (_ & _ & R1). specialize (R1 ltac:(lra)). fold s1 in R1.
  destruct (step_diff dt (t0 + 1) (tmin + x2 * tcod) Hdt0 ltac:(lra) ltac:(lra)) as (_ & _ & R2). specialize (R2 ltac:(lra)). fold s2 in R2.
  pose proof (step_time dt (t0 + 1 + (tmin + x1 * tcod)) Hdt0 ltac:(lra)) as Z1. fold s1 in Z1.
  pose proof (step_time dt (t0 + 1 + (tmin + x2 * tcod)) Hdt0 ltac:(lra)) as Z2. fold s2 in Z2.
  pose proof (step_at_ge1 dt (t0 + 1)) as G1.
  destruct (sb_facts dt tmin Hdt Htm) as ((F1 & F2 & F3 & F4 & F5) & _ & _ & _ & _ & ZM).
  assert (Q1 := conj G1 R1). assert (Q2 := conj G1 R2).
  assert (LG : forall n sp, In n (sb_internal m) -> spikes_at N n sp -> strict 0 sp -> (forall k, In k sp -> INR k * dt <= T) -> spike_log s n = times dt sp).
  { intros n sp Hn HS Hs1 Hs2. apply (se_log _ _ _ _ _ _ _ _ HSe); auto.
    - unfold sb_internal in Hn. cbn [In] in Hn. intuition lia.
    - unfold sb_internal in Hn. cbn [In] in Hn. repeat destruct Hn as [<-|Hn]; try destruct Hn; ext_simp; reflexivity. }
  assert (IP : In (sb_output_plus m) (sb_internal m)) by (unfold sb_internal; cbn; auto 10).
  assert (IM : In (sb_output_minus m) (sb_internal m)) by (unfold sb_internal; cbn; auto 10).
  assert (BT : forall a b k, (a = s1 \/ a = s2) -> (b = D3 \/ b = DM) -> In k [(a + b)%nat] -> INR k * dt <= T).
  { intros a b k Ha Hb [<-|[]]. rewrite plus_INR, Rmult_plus_distr_r.
    assert (INR a * dt <= t0 + 1 + tmin + tcod + dt) by (destruct Ha; subst a; lra).
    assert (INR b * dt < tmin + 3 + 2 * / 100 + dt).
    { destruct Hb; subst b; auto. apply Rle_lt_trans with (INR DM * dt); auto. apply Rmult_le_compat_r; [lra|apply le_INR; unfold D3, DM; lia]. }
    lra. }
  assert (ND : (D3 < DM)%nat) by exact F4.
  assert (L2 : forall n a b, In n (sb_internal m) -> (a = s1 \/ a = s2) -> (b = s1 \/ b = s2) -> (a <= b)%nat -> spikes_at N n [(a + D3)%nat; (b + DM)%nat] -> spike_log s n = times dt [(a + D3)%nat; (b + DM)%nat]).
  { intros n a b Hn Ha Hb Hab HS. apply LG; auto; [cbn; lia|]. intros k [<-|[<-|[]]]; [apply (BT a D3)|apply (BT b DM)]; cbn [In]; auto. }
  assert (L0 : forall n, In n (sb_internal m) -> spikes_at N n [] -> spike_log s n = []).
  { intros n Hn HS. apply (LG n []); auto; [cbn; auto|]. intros k []. }
  pose proof (sb_case_minus N m tmin HM _ _ _ _ HA1 HA2 Q1 Q2 F1 F2 F3 F4 F5) as CA.
  pose proof (sb_case_plus N m tmin HM _ _ _ _ HA1 HA2 Q1 Q2 F1 F2 F3 F4 F5) as CB.
  pose proof (sb_case_zero N m tmin HM _ _ _ _ HA1 HA2 Q1 Q2 F1 F2 F3 F4 F5) as CC.
  pose proof (sb_case_small N m tmin HM _ _ _ _ HA1 HA2 Q1 Q2 F1 F2 F3 F4 F5) as CD.
  pose proof (sb_case_lost N m tmin HM _ _ _ _ HA1 HA2 Q1 Q2 F1 F2 F3 F4 F5) as CE.
  pose proof (sb_case_both N m tmin HM _ _ _ _ HA1 HA2 Q1 Q2 F1 F2 F3 F4 F5) as CF.
  cbn [N net_of t_dt] in CA, CB, CC, CD, CE, CF. fold N D3 DM Dn Dnn in CA, CB, CC, CD, CE, CF.
  split; [|split; [|split]].
  - intros J1 J2. destruct (CA J1 J2) as [A B]. split; [apply L0; auto|apply L2; auto; lia].
  - intros J1.
    assert (W : spikes_at N (sb_output_plus m) [(s2 + D3)%nat; (s1 + DM)%nat] /\ spikes_at N (sb_output_minus m) []).
    { destruct J1 as [J1|[J1 J2]]; [|apply CC; auto]. destruct (Nat.le_gt_cases (s2 + Dnn) (s1 + Dn)); auto. }
    destruct W as [A B]. split; [apply L2; auto; lia|apply L0; auto].
  - intros J1 J2. destruct (CE J1 J2) as [A B]. split; apply L0; auto.
  - intros J1 J2. destruct (CF J1 J2) as [A B]. split; apply L2; auto; lia.
Qed.
End SubRun.

Theorem subtractor_run (tmin tcod x1 x2 dt t0 T : R) nm ord :
  0 < dt < / 50 -> 0 < tcod -> dt <= tmin -> 0 <= x1 <= 1 -> 0 <= x2 <= 1 -> 0 <= t0 -> ord_ok ord ->
  x2 <= x1 \/ / 100 + 2 * dt <= (x2 - x1) * tcod ->
  t0 + 5 + 2 * tmin + tcod + 2 * dt <= T ->
  exists m s,
    session (SubtractorNetwork (DataEncoder tmin tcod) nm) sb_mod (DataEncoder tmin tcod) dt
      (fun m => [SValue x1 (sb_input1 m) t0; SValue x2 (sb_input2 m) t0]) ord T = Ok (m, s) /\
    let out := if Rle_dec x2 x1 then sb_output_plus m else sb_output_minus m in
    let other := if Rle_dec x2 x1 then sb_output_minus m else sb_output_plus m in
    emits s out (DataEncoder tmin tcod) (Rabs (x1 - x2)) (2 * dt / tcod) /\
    (forall q k, tmin = INR q * dt -> Rabs (x1 - x2) * tcod = INR k * dt -> emits s out (DataEncoder tmin tcod) (Rabs (x1 - x2)) 0) /\
    spike_log s other = [].
Proof.
  intros Hdt Htc Htm Hx1 Hx2 Ht0 HO HD HT.
  destruct (sb_session tmin tcod x1 x2 dt t0 T nm ord) as (m & s & E & CA & CB & _); auto; [lra|].
  exists m, s. split; [exact E|]. cbv zeta.
  destruct (sb_facts dt tmin ltac:(lra) Htm) as ((F1 & F2 & F3 & F4 & F5) & K1 & _ & K2 & K3 & _).
  specialize (K1 ltac:(lra)).
  assert (Hxc : forall x, 0 <= x <= 1 -> 0 <= x * tcod <= tcod).
  { intros x Hx. split; [apply Rmult_le_pos; lra|rewrite <- (Rmult_1_l tcod) at 2; apply Rmult_le_compat_r; lra]. }
  assert (EX : forall q, tmin = INR q * dt -> INR (step_at dt (tmin + (3 * 1 + 2 * / 100))) * dt - INR (step_at dt (3 * 1 + 2 * / 100)) * dt = tmin).
  { intros q Hq. rewrite (Rplus_comm tmin). apply (grid_diff dt _ tmin q); lra. }
  pose proof (Hxc x1 Hx1) as Hc1. pose proof (Hxc x2 Hx2) as Hc2.
  set (D3 := step_at dt (3 * 1 + 2 * / 100)) in *. set (DM := step_at dt (tmin + (3 * 1 + 2 * / 100))) in *.
  set (Dn := step_at dt (/ 100)) in *. set (Dnn := step_at dt (2 * / 100)) in *.
  apply Rabs_def2 in K3.
  destruct (Rle_dec x2 x1) as [Hle|Hgt].
  - assert (EA : Rabs (x1 - x2) = x1 - x2) by (apply Rabs_right; lra). rewrite EA.
    assert (Hdd : 0 <= (x1 - x2) * tcod) by (apply Rmult_le_pos; lra).
    destruct (step_diff dt (t0 + 1 + (tmin + x2 * tcod)) ((x1 - x2) * tcod) ltac:(lra) ltac:(lra) Hdd) as (P1 & P2 & _).
    assert (EY : forall k, (x1 - x2) * tcod = INR k * dt -> INR (step_at dt (t0 + 1 + (tmin + x2 * tcod) + (x1 - x2) * tcod)) * dt - INR (step_at dt (t0 + 1 + (tmin + x2 * tcod))) * dt = (x1 - x2) * tcod)
      by (intros k Hk; apply (grid_diff dt _ _ k); lra).
    replace (t0 + 1 + (tmin + x2 * tcod) + (x1 - x2) * tcod) with (t0 + 1 + (tmin + x1 * tcod)) in * by lra.
    set (s1 := step_at dt (t0 + 1 + (tmin + x1 * tcod))) in *. set (s2 := step_at dt (t0 + 1 + (tmin + x2 * tcod))) in *.
    apply Rabs_def2 in P2.
    destruct CB as [B1 B2]. { destruct (Nat.eq_dec s1 s2); [right|left]; lia. }
    split; [|split; auto].
    + eapply (emits_intro _ _ _ _ dt (s2 + D3) (s1 + DM)); eauto; [lra|lia|].
      replace (2 * dt / tcod * tcod) with (2 * dt) by (field; lra). rewrite !plus_INR. apply Rabs_le. lra.
    + intros q k Hq Hk. specialize (EX q Hq). specialize (EY k Hk).
      eapply (emits_exact _ _ _ _ dt (s2 + D3) (s1 + DM)); eauto; [lra|lia|]. rewrite !plus_INR. lra.
  - assert (EA : Rabs (x1 - x2) = x2 - x1) by (rewrite Rabs_left; lra). rewrite EA.
    assert (Hdd : / 100 + 2 * dt <= (x2 - x1) * tcod) by (destruct HD; lra).
    destruct (step_diff dt (t0 + 1 + (tmin + x1 * tcod)) ((x2 - x1) * tcod) ltac:(lra) ltac:(lra) ltac:(lra)) as (P1 & P2 & P3).
    specialize (P3 ltac:(lra)).
    assert (EY : forall k, (x2 - x1) * tcod = INR k * dt -> INR (step_at dt (t0 + 1 + (tmin + x1 * tcod) + (x2 - x1) * tcod)) * dt - INR (step_at dt (t0 + 1 + (tmin + x1 * tcod))) * dt = (x2 - x1) * tcod)
      by (intros k Hk; apply (grid_diff dt _ _ k); lra).
    replace (t0 + 1 + (tmin + x1 * tcod) + (x2 - x1) * tcod) with (t0 + 1 + (tmin + x2 * tcod)) in * by lra.
    set (s1 := step_at dt (t0 + 1 + (tmin + x1 * tcod))) in *. set (s2 := step_at dt (t0 + 1 + (tmin + x2 * tcod))) in *.
    apply Rabs_def2 in P2.
    assert (W : (s1 + Dnn <= s2 + Dn)%nat).
    { destruct Hdt as [Hdt _]. nat_le dt Hdt. lra. }
    destruct (CA P3 W) as [B1 B2].
    split; [|split; auto].
    + eapply (emits_intro _ _ _ _ dt (s1 + D3) (s2 + DM)); eauto; [lra|lia|].
      replace (2 * dt / tcod * tcod) with (2 * dt) by (field; lra). rewrite !plus_INR. apply Rabs_le. lra.
    + intros q k Hq Hk. specialize (EX q Hq). specialize (EY k Hk).
      eapply (emits_exact _ _ _ _ dt (s1 + D3) (s2 + DM)); eauto; [lra|lia|]. rewrite !plus_INR. lra.
Qed.

(** x2 slightly above x1: neither output ever spikes *)
Theorem subtractor_lost (tmin tcod x1 x2 dt t0 T : R) nm ord :
  0 < dt -> 0 < tcod -> dt <= tmin -> 0 <= x1 <= 1 -> 0 <= x2 <= 1 -> 0 <= t0 -> ord_ok ord ->
  dt <= (x2 - x1) * tcod <= / 100 - 2 * dt ->
  t0 + 5 + 2 * tmin + tcod + 2 * dt <= T ->
  exists m s,
    session (SubtractorNetwork (DataEncoder tmin tcod) nm) sb_mod (DataEncoder tmin tcod) dt
      (fun m => [SValue x1 (sb_input1 m) t0; SValue x2 (sb_input2 m) t0]) ord T = Ok (m, s) /\
    spike_log s (sb_output_plus m) = [] /\ spike_log s (sb_output_minus m) = [].
Proof.
  intros Hdt Htc Htm Hx1 Hx2 Ht0 HO HD HT.
  destruct (sb_session tmin tcod x1 x2 dt t0 T nm ord) as (m & s & E & _ & _ & CE & _); auto; [lra|].
  exists m, s. split; [exact E|].
  destruct (sb_facts dt tmin ltac:(lra) Htm) as ((F1 & F2 & F3 & F4 & F5) & _ & _ & K2 & _ & _).
  assert (Hc1 : 0 <= x1 * tcod) by (apply Rmult_le_pos; lra).
  destruct (step_diff dt (t0 + 1 + (tmin + x1 * tcod)) ((x2 - x1) * tcod) ltac:(lra) ltac:(lra) ltac:(lra)) as (P1 & P2 & P3).
  specialize (P3 ltac:(lra)).
  replace (t0 + 1 + (tmin + x1 * tcod) + (x2 - x1) * tcod) with (t0 + 1 + (tmin + x2 * tcod)) in * by lra.
  apply Rabs_def2 in P2. apply CE; auto. nat_lt dt Hdt. lra.
Qed.
(** equal operands with a coarse timestep: both outputs spike *)
Theorem subtractor_both (tmin tcod x dt t0 T : R) nm ord :
  / 50 <= dt <= 1 / 2 -> 0 < tcod -> dt <= tmin -> 0 <= x <= 1 -> 0 <= t0 -> ord_ok ord ->
  t0 + 5 + 2 * tmin + tcod + 2 * dt <= T ->
  exists m s,
    session (SubtractorNetwork (DataEncoder tmin tcod) nm) sb_mod (DataEncoder tmin tcod) dt
      (fun m => [SValue x (sb_input1 m) t0; SValue x (sb_input2 m) t0]) ord T = Ok (m, s) /\
    emits s (sb_output_plus m) (DataEncoder tmin tcod) 0 (dt / tcod) /\ emits s (sb_output_minus m) (DataEncoder tmin tcod) 0 (dt / tcod).
Proof.
  intros Hdt Htc Htm Hx Ht0 HO HT.
  destruct (sb_session tmin tcod x x dt t0 T nm ord) as (m & s & E & _ & _ & _ & CF); auto; [lra|].
  exists m, s. split; [exact E|].
  destruct (sb_facts dt tmin ltac:(lra) Htm) as ((F1 & F2 & F3 & F4 & F5) & _ & K1 & _ & K3 & _).
  destruct CF as [A B]; auto; [apply K1; lra|]. apply Rabs_def2 in K3.
  split; (eapply (emits_intro _ _ _ _ dt); eauto; [lra|lia|]; replace (dt / tcod * tcod) with dt by (field; lra); rewrite !plus_INR; apply Rabs_le; lra).
Qed.
