(** MultiplierNetwork comes back to rest after a product of two values strictly between 0 and 1, so it can be used again and again (C31, C52, C64). *)
From Coq Require Import Arith ZArith Bool List Reals Lra Lia Permutation.
From Verif Require Import Num Heapq Elements Simulator Networks Trace SimTrace SimProps TraceProps NeuronLib NetLib Build BuildNets Bridge MemoryProof GeLib GfLib Session SimpleNets InvMem Misc LnLib FuncNets SegLib SubNet ExpLog MulNet MulRun Restart MemReuse Reuse Jobs Settle RestFun SubReuse.
Import ListNotations.
Open Scope R_scope.
Open Scope list_scope.

Section MulRest.
Variable N : tnet.
Variable m : mul_net.
Variables Tc tmin : R.
Let dt := t_dt N.
Hypothesis HM : mu_ins N (1000 / Tc) tmin m.
Variables a1 a2 b1 b2 z1 z2 z3 z4 : nat.
Let D1 := step_at dt 1.
Let D2 := step_at dt 2.
Let D3 := step_at dt 3.
Let Dm := step_at dt (1 + tmin).
Hypothesis Hin1 : arrs N (mu_input1 m) 1 [a1; a2].
Hypothesis Hin2 : arrs N (mu_input2 m) 1 [b1; b2].
Hypothesis Ha1 : (1 <= a1)%nat.
Hypothesis Ha2 : (a1 + D1 <= a2)%nat.
Hypothesis Hb1 : (1 <= b1)%nat.
Hypothesis Hb2 : (b1 + D1 <= b2)%nat.
Hypothesis Hea : (a1 + Dm <= a2 + D1)%nat.
Hypothesis Heb : (b1 + Dm <= b2 + D1)%nat.
Hypothesis Hz1 : arrs N (mu_input1 m) 350 [z1; z2].
Hypothesis Hz2 : arrs N (mu_input2 m) 350 [z3; z4].
Hypothesis Hz : (1 <= z1 < z2)%nat /\ (1 <= z3 < z4)%nat.
Let A := Nat.max a2 b2.
Variables f1 f2 fe : nat.
Hypothesis S1 : spikes_at N (mu_acc_log1 m) [f1].
Hypothesis S2 : spikes_at N (mu_acc_log2 m) [f2].
Hypothesis S3 : spikes_at N (mu_acc_exp m) [fe].
Hypothesis Hf1 : (A + D1 + D1 <= f1)%nat.
Hypothesis Hf2 : (f1 + D1 <= f2)%nat.
Hypothesis Hf3 : (A + D3 <= f2)%nat.
Hypothesis Hfe : (f2 + D1 <= fe)%nat.
Hypothesis Hlt : (f2 + D2 < fe + Dm)%nat.
Hypothesis Hzm : (f2 + D2 + D1 <= Nat.max z2 z4)%nat.
Variable K : nat.
Hypothesis HK1 : (fe + Dm + D1 <= K)%nat.
Hypothesis HK2 : (Nat.max z2 z4 <= K)%nat.
Hypothesis Hsrc1 : forall k, (K <= k)%nat -> st N k (mu_input1 m) = init_nstate (t_prm N (mu_input1 m)).
Hypothesis Hsrc2 : forall k, (K <= k)%nat -> st N k (mu_input2 m) = init_nstate (t_prm N (mu_input2 m)).

Lemma mr_spk : spikes_at N (mu_first1 m) [a1] /\ spikes_at N (mu_last1 m) [a2] /\ spikes_at N (mu_first2 m) [b1] /\ spikes_at N (mu_last2 m) [b2] /\
  spikes_at N (mu_sync m) [(A + D1)%nat].
Proof.
  split; [eapply mu_first1_spk; eauto|]. split; [eapply mu_last1_spk; eauto|]. split; [eapply mu_first2_spk; eauto|]. split; [eapply mu_last2_spk; eauto|].
  unfold A. rewrite <- Nat.add_max_distr_r. eapply mu_sync_spk; eauto.
Qed.
(** the output pair takes back from the zero detector exactly what the four operand spikes give it *)
Let Lz := [(z1, 10 / 4); (z2, 10 / 4); (z3, 10 / 4); (z4, 10 / 4); ((f2 + D2 + D1)%nat, - 5); ((fe + Dm + D1)%nat, - 5)].
Lemma mr_segs : segs Lz 0 [].
Proof.
  pose proof (step_at_ge1 dt 1) as G1. fold D1 in G1. unfold Lz. cbn [segs]. intros k Hk.
  destruct (Nat.le_gt_cases z2 z4) as [C|C]; [rewrite Nat.max_r in * by lia|rewrite Nat.max_l in * by lia];
  vsum_simp; ltbs; leb_cases; cbn [andb]; first [lra | exfalso; lia].
Qed.
Lemma mr_out : spikes_at N (mu_output m) [(f2 + D2)%nat; (fe + Dm)%nat] /\ spikes_at N (mu_zero m) [].
Proof.
  pose proof (step_at_ge1 dt 1) as G1. fold D1 in G1.
  assert (X2 : forall j, In j [f2] -> (1 <= j)%nat) by (intros j [<-|[]]; lia). assert (Xe : forall j, In j [fe] -> (1 <= j)%nat) by (intros j [<-|[]]; lia).
  assert (N2 : NoDup [f2]) by (repeat constructor; auto). assert (Ne : NoDup [fe]) by (repeat constructor; auto).
  pose proof mr_segs as SZ. eapply mu_out_group with (A := [f2]) (E := [fe]) (a1 := a1) (a2 := a2) (b1 := b1) (b2 := b2); try eassumption.
  cbn [map app]. fold dt D1 D2 Dm. segs_solve.
Qed.
Lemma mr_rest n k : In n (mu_nodes m) -> (K <= k)%nat -> st N k n = init_nstate (t_prm N n).
Proof.
  pose proof (step_at_ge1 dt 1) as G1. fold D1 in G1. pose proof (step_at_ge1 dt 2) as G2. fold D2 in G2.
  destruct mr_spk as (F1 & L1 & F2 & L2 & SY). destruct mr_out as [OU ZE].
  assert (HAa : (a2 <= A)%nat) by (unfold A; lia). assert (HAb : (b2 <= A)%nat) by (unfold A; lia).
  pose proof (ui_first1 _ _ _ _ HM) as I1. pose proof (ui_last1 _ _ _ _ HM) as I2. pose proof (ui_first2 _ _ _ _ HM) as I3. pose proof (ui_last2 _ _ _ _ HM) as I4.
  pose proof (ui_sync _ _ _ _ HM) as I5. pose proof (ui_log1 _ _ _ _ HM) as I6. pose proof (ui_log2 _ _ _ _ HM) as I7. pose proof (ui_exp _ _ _ _ HM) as I8.
  pose proof (ui_zero _ _ _ _ HM) as I9. pose proof (ui_output _ _ _ _ HM) as I10.
  unfold mu_nodes. cbn [In]. intros Hn Hk.
  assert (OV : forall p L d l f, ins N p L -> spikes_at N p l -> (forall j, In j l -> (j + step_at dt d <= f)%nat) -> over N p d f).
  { intros p L d l f HI HS Hl. eapply over_spk; [apply (ins_ext _ _ _ HI)|exact HS|exact Hl]. }
  repeat destruct Hn as [<-|Hn]; try destruct Hn.
  - apply Hsrc1; auto.
  - apply Hsrc2; auto.
  - eapply first_settled; eauto. lia.
  - eapply (ins_settled _ _ _ a2); [exact I2|eapply spk_last; [exact L1|left; auto]| |lia].
    repeat constructor; cbn [s_pre s_delay mks]; rewrite cTsyn_R; over_tac.
  - eapply (ins_settled _ _ _ f1); [exact I6|eapply spk_last; [exact S1|left; auto]| |lia].
    repeat constructor; cbn [s_pre s_delay mks]; autorewrite with netR;
      (eapply OV; [eassumption|eassumption|]); over_list; fold dt D1 Dm; lia.
  - change (init_nstate (t_prm N (mu_zero m))) with (init_nstate (t_prm N (mu_zero m))). rewrite (ins_prm _ _ _ I9). change (init_nstate stdp) with (at_rest 0).
    rewrite (seg_rest N (mu_zero m) Lz []); auto; [| apply I9 | eapply ins_vonly; [exact I9|repeat constructor] | exact mr_segs | | cbn; lia].
    + f_equal. unfold Lz. cbn [lastsp fold_left].
      destruct (Nat.le_gt_cases z2 z4) as [C|C]; [rewrite Nat.max_r in * by lia|rewrite Nat.max_l in * by lia]; vsum_simp; ltbs; leb_cases; cbn [andb]; first [lra | exfalso; lia].
    + intros j Hj. ev_input I9. assert (E350 : @max_prop_delay R _ = 350) by reflexivity. rewrite E350, (Hz1 j), (Hz2 j) by lia.
      rewrite (arrs_l N _ _ _ D1 [(f2 + D2)%nat; (fe + Dm)%nat] I10 OU); auto.
      * unfold Lz. netr. ev_simpl. lra.
      * intros q [<-|[<-|[]]]; lia.
      * repeat constructor; cbn [In]; lia.
  - eapply first_settled; eauto. lia.
  - eapply (ins_settled _ _ _ b2); [exact I4|eapply spk_last; [exact L2|left; auto]| |lia].
    repeat constructor; cbn [s_pre s_delay mks]; rewrite cTsyn_R; over_tac.
  - eapply (ins_settled _ _ _ f2); [exact I7|eapply spk_last; [exact S2|left; auto]| |lia].
    repeat constructor; cbn [s_pre s_delay mks]; autorewrite with netR;
      (eapply OV; [eassumption|eassumption|]); over_list; fold dt D1 Dm; lia.
  - eapply (ins_settled _ _ _ (A + D1)); [exact I5|eapply spk_last; [exact SY|left; auto]| |lia].
    repeat constructor; cbn [s_pre s_delay mks]; autorewrite with netR;
      (eapply OV; [eassumption|eassumption|]); over_list; fold dt D1 Dm; lia.
  - eapply (ins_settled _ _ _ fe); [exact I8|eapply spk_last; [exact S3|left; auto]| |lia].
    repeat constructor; cbn [s_pre s_delay mks]; autorewrite with netR;
      (eapply OV; [eassumption|eassumption|]); over_list; fold dt D1 Dm; lia.
  - eapply (ins_settled _ _ _ (fe + Dm)); [exact I10|eapply spk_last; [exact OU|right; left; auto]| |lia].
    apply Forall_cons; [|apply Forall_cons; [|apply Forall_cons; [|apply Forall_cons; [|apply Forall_nil]]]]; cbn [s_pre s_delay mks]; autorewrite with netR.
    + eapply OV; [exact I7|exact S2|]. over_list. fold dt D2 Dm. lia.
    + eapply OV; [exact I8|exact S3|]. over_list. replace (tmin + 1) with (1 + tmin) by lra. fold dt D2 Dm. lia.
    + eapply OV; [exact I9|exact ZE|]. intros ? [].
    + eapply OV; [exact I9|exact ZE|]. intros ? [].
Qed.
End MulRest.

(** operands x1, x2 strictly between 0 and 1 (by the margin the code needs), given d1 and d2 after the start of the job *)
Definition mul_ok (tcod dt : R) (x : (R * R) * (R * R)) : Prop :=
  let '((x1, x2), (d1, d2)) := x in
  0 < x1 /\ 0 < x2 /\ 4 * dt <= x1 * tcod <= tcod - 2 * dt /\ 4 * dt <= x2 * tcod <= tcod - 2 * dt /\ exp (-14) <= x1 * x2 /\ 0 <= d1 /\ 0 <= d2.
Definition mul_span (tmin tcod : R) (x : (R * R) * (R * R)) : R := Rmax (fst (snd x)) (snd (snd x)) + 355 + 2 * (tmin + tcod).
Definition mul_job (x : (R * R) * (R * R)) (t : R) (m : mul_net) : list stim :=
  [SValue (fst (fst x)) (mu_input1 m) (t + fst (snd x)); SValue (snd (fst x)) (mu_input2 m) (t + snd (snd x))].

Lemma mul_quiet (tmin tcod x1 x2 d1 d2 dt t0 : R) K m w nm :
  0 < dt <= 1 / 2 -> 0 < tcod -> 1 + dt <= tmin -> 4 * dt <= tmin -> mul_ok tcod dt ((x1, x2), (d1, d2)) -> 0 <= t0 ->
  t0 + mul_span tmin tcod ((x1, x2), (d1, d2)) <= INR (S K) * dt ->
  let enc := DataEncoder tmin tcod in
  MultiplierNetwork enc nm empty_world = Ok (m, w) -> built empty_world w (mu_mod m) (mu_syns enc m) -> mu_nodes m = seq 0 12 -> length (w_neurons w) = 12%nat ->
  quiet (net_of w (exts enc (mul_job ((x1, x2), (d1, d2)) t0 m)) dt) 12 K.
Proof.
  intros [Hdt Hdt2] Htc Htm Htm2 (Hp1 & Hp2 & Hx1 & Hx2 & Hxx & Hd1 & Hd2) Ht0 HK enc E HB HN HL.
  unfold mul_span in HK. cbn [fst snd] in HK. rewrite S_INR in HK.
  pose proof (Rmax_l d1 d2) as M1. pose proof (Rmax_r d1 d2) as M2. set (dm := Rmax d1 d2) in *. clearbody dm.
  assert (L1 : x1 <= 1) by (apply Rmult_le_reg_r with tcod; lra). assert (L2 : x2 <= 1) by (apply Rmult_le_reg_r with tcod; lra).
  destruct (ln_prod_bound x1 x2 14 Hp1 Hp2 ltac:(exact Hxx)) as [LB LE].
  pose proof (ln_neg x1 ltac:(lra)) as N1. pose proof (ln_neg x2 ltac:(lra)) as N2.
  set (ta := t0 + d1). set (tb := t0 + d2). assert (Hta : 0 <= ta <= t0 + dm) by (unfold ta; lra). assert (Htb : 0 <= tb <= t0 + dm) by (unfold tb; lra).
  set (stims := mul_stims x1 x2 ta tb). change (mul_job (x1, x2, (d1, d2)) t0 m) with (stims m).
  pose proof HN as HN'. unfold mu_nodes in HN'. nodes_eqs HN'.
  destruct (session_built (MultiplierNetwork enc nm) mu_mod m w _ enc dt stims (fun _ l => l) (INR K * dt) E HB Hdt ltac:(apply Rmult_le_pos; [apply pos_INR|lra])) as (s & Es & HSe).
  { unfold stims, mul_stims. stims_ok. } { intros i l. reflexivity. }
  set (N := net_of w (exts enc (stims m)) dt) in *. unfold stims, mul_stims in *.
  set (iv1 := tmin + x1 * tcod) in *. set (iv2 := tmin + x2 * tcod) in *.
  assert (Hv1 : 1 + dt <= iv1 <= tmin + tcod) by (unfold iv1; lra). assert (Hv2 : 1 + dt <= iv2 <= tmin + tcod) by (unfold iv2; lra).
  assert (HG : forall t iv, 0 <= t -> 1 + dt <= iv -> (step_at dt (t + 1) + step_at dt 1 <= step_at dt (t + 1 + iv))%nat).
  { intros t iv Ht Hv. apply step_diff_ge; try lra; try apply step_at_ge1. pose proof (step_time dt 1 Hdt ltac:(lra)). lra. }
  assert (HZ : forall t iv, 0 <= t -> 1 + dt <= iv -> (1 <= step_at dt (t + 350) < step_at dt (t + 350 + iv))%nat).
  { intros t iv Ht Hv. split; [apply step_at_ge1|]. apply (step_diff dt (t + 350) iv Hdt); lra. }
  pose proof (HG ta iv1 ltac:(lra) ltac:(lra)) as Ha2. pose proof (HG tb iv2 ltac:(lra) ltac:(lra)) as Hb2.
  pose proof (HZ ta iv1 ltac:(lra) ltac:(lra)) as Hz12. pose proof (HZ tb iv2 ltac:(lra) ltac:(lra)) as Hz34.
  assert (HM : mu_ins N (1000 / tcod) tmin m).
  { rewrite <- (wbar_R tmin). apply (mu_ins_of N enc m 0); auto. intros n Hn. apply (se_own _ _ _ _ _ _ _ _ HSe).
    - unfold mu_internal in Hn. cbn [In] in Hn. intuition lia.
    - unfold mu_internal in Hn. cbn [In] in Hn. repeat (destruct Hn as [<-|Hn]; [ext_simp; reflexivity|]). destruct Hn. }
  assert (A1 : arrs N (mu_input1 m) 1 [step_at dt (ta + 1); step_at dt (ta + 1 + iv1)]).
  { src_solve HSe. do 3 f_equal. unfold enc; cbn [DataEncoder Tmin Tcod]. unfold iv1. lra. }
  assert (A2 : arrs N (mu_input2 m) 1 [step_at dt (tb + 1); step_at dt (tb + 1 + iv2)]).
  { src_solve HSe. do 3 f_equal. unfold enc; cbn [DataEncoder Tmin Tcod]. unfold iv2. lra. }
  assert (A3 : arrs N (mu_input1 m) 350 [step_at dt (ta + 350); step_at dt (ta + 350 + iv1)]).
  { src_solve HSe. do 3 f_equal. unfold enc; cbn [DataEncoder Tmin Tcod]. unfold iv1. lra. }
  assert (A4 : arrs N (mu_input2 m) 350 [step_at dt (tb + 350); step_at dt (tb + 350 + iv2)]).
  { src_solve HSe. do 3 f_equal. unfold enc; cbn [DataEncoder Tmin Tcod]. unfold iv2. lra. }
  destruct (step_diff dt (ta + 1) iv1 Hdt ltac:(lra) ltac:(lra)) as (_ & Qa & _). destruct (step_diff dt (tb + 1) iv2 Hdt ltac:(lra) ltac:(lra)) as (_ & Qb & _).
  destruct (charge_of dt tmin tcod x1 _ _ Hdt Htc ltac:(lra) ltac:(lra) ltac:(lra) Qa) as (Ca & Ca0 & Ca1 & Ca2 & Ca3).
  destruct (charge_of dt tmin tcod x2 _ _ Hdt Htc ltac:(lra) ltac:(lra) ltac:(lra) Qb) as (Cb & Cb0 & Cb1 & Cb2 & Cb3).
  specialize (Ca3 ltac:(lra)). specialize (Cb3 ltac:(lra)).
  pose proof (max_window dt ta tb iv1 iv2 Hdt ltac:(lra) ltac:(lra) ltac:(lra) ltac:(lra)) as MW.
  pose proof (step_at_bounds dt (ta + 1 + iv1) Hdt ltac:(lra)) as BA. pose proof (step_at_bounds dt (tb + 1 + iv2) Hdt ltac:(lra)) as BB.
  pose proof (step_at_bounds dt (ta + 350 + iv1) Hdt ltac:(lra)) as BZ1. pose proof (step_at_bounds dt (tb + 350 + iv2) Hdt ltac:(lra)) as BZ2.
  assert (MA : INR (Nat.max (step_at dt (ta + 1 + iv1)) (step_at dt (tb + 1 + iv2))) * dt <= t0 + dm + 1 + (tmin + tcod) + dt) by (apply max_time; auto; split; lra).
  assert (MZ : INR (Nat.max (step_at dt (ta + 350 + iv1)) (step_at dt (tb + 350 + iv2))) * dt <= t0 + dm + 350 + (tmin + tcod) + dt) by (apply max_time; auto; split; lra).
  pose proof (step_at_ge1 dt (ta + 1)) as Ga. pose proof (step_at_ge1 dt (tb + 1)) as Gb.
  assert (HA : mul_at N m dt tmin tcod (step_at dt (ta + 1)) (step_at dt (ta + 1 + iv1)) (step_at dt (tb + 1)) (step_at dt (tb + 1 + iv2)) (step_at dt (ta + 350 + iv1)) (step_at dt (tb + 350 + iv2))).
  { constructor; auto; eauto. }
  set (a1 := step_at dt (ta + 1)) in *. set (a2 := step_at dt (ta + 1 + iv1)) in *. set (b1 := step_at dt (tb + 1)) in *. set (b2 := step_at dt (tb + 1 + iv2)) in *.
  set (z1 := step_at dt (ta + 350)) in *. set (z2 := step_at dt (ta + 350 + iv1)) in *. set (z3 := step_at dt (tb + 350)) in *. set (z4 := step_at dt (tb + 350 + iv2)) in *.
  pose proof (step_at_ge1 dt 1) as G1. pose proof (step_at_ge1 dt 2) as G2. pose proof (step_at_bounds dt 1 Hdt ltac:(lra)) as B1. pose proof (step_at_bounds dt 2 Hdt ltac:(lra)) as B2.
  pose proof (step_at_bounds dt 3 Hdt ltac:(lra)) as B3. pose proof (step_at_bounds dt (1 + tmin) Hdt ltac:(lra)) as Bm. 
  destruct (w_log1 N m dt tmin tcod a1 a2 b1 b2 z2 z4 HA Ca Cb) as (_ & W1 & _).
  set (D1 := step_at dt 1) in *. set (D2 := step_at dt 2) in *. set (D3 := step_at dt 3) in *. set (Dm := step_at dt (1 + tmin)) in *. set (A := Nat.max a2 b2) in *.
  set (c1 := INR (a2 + D1 - (a1 + Dm)) * (dt / tcod)) in *. set (c2 := INR (b2 + D1 - (b1 + Dm)) * (dt / tcod)) in *.
  set (r := 1 - dt / 20) in *. assert (Hr : 0 < r < 1) by (unfold r; lra).
  destruct (least_pow r c1 Hr Ca0) as (j1 & J1 & J1'). destruct (least_pow r c2 Hr Cb0) as (j2 & J2 & J2').
  destruct (least_ln (dt / 20) c1 j1 ltac:(lra) ltac:(lra) J1 J1') as [_ LL1]. destruct (least_ln (dt / 20) c2 j2 ltac:(lra) ltac:(lra) J2 J2') as [_ LL2].
  destruct (W1 j1 Ca3 J1 J1') as [K1 F1]. clear W1.
  assert (Ab2 : (b2 <= A)%nat) by (unfold A; lia). assert (Aa2 : (a2 <= A)%nat) by (unfold A; lia).
  destruct (w_log2 N m dt tmin tcod a1 a2 b1 b2 z2 z4 _ HA Ca Cb F1 ltac:(lia) ltac:(lia)) as (_ & W2 & _).
  fold D1 Dm c2 r in W2. destruct (W2 j2 Cb3 J2 J2') as [K2 F2]. clear W2.
  set (f1 := (A + D1 + D1 - 1 + j1)%nat) in *. set (f2 := (f1 + D1 - 1 + j2)%nat) in *.
  assert (H3D : (D3 <= 3 * D1)%nat) by (apply Nat.lt_succ_r; nat_lt dt Hdt; cbn [INR]; lra).
  destruct (w_exp N m dt tmin tcod a1 a2 b1 b2 z2 z4 f2 HA Ca Cb F2 ltac:(unfold f2, f1; lia)) as (W3 & _).
  fold A D1 D3 r in W3. specialize (W3 ltac:(unfold f2, f1; lia)). set (k := (f2 - (A + D3))%nat) in *.
  assert (Hrk : 0 < r ^ k <= 1) by (split; [apply pow_lt; lra|apply pow_le1; auto]).
  assert (HTr : 0 < tcod * r ^ k) by (apply Rmult_lt_0_compat; lra). assert (HTr2 : tcod * r ^ k <= tcod) by (apply shrink; lra).
  pose proof (step_at_bounds dt _ Hdt HTr) as BJ. pose proof (step_at_ge1 dt (tcod * r ^ k)) as GJ. set (q := step_at dt (tcod * r ^ k)) in *.
  set (fe := (f2 + D1 - 1 + q)%nat) in *.
  assert (Hf2t : INR f2 * dt <= INR A * dt + 9 + 20 * (- ln c1 + - ln c2)) by (unfold f2, f1; inr; lra).
  assert (Hf1 : (A + D1 + D1 <= f1)%nat) by (unfold f1; lia). assert (Hf2 : (f1 + D1 <= f2)%nat) by (unfold f2; lia).
  assert (Hf3 : (A + D3 <= f2)%nat) by (unfold f2, f1; lia). assert (Hfe : (f2 + D1 <= fe)%nat) by (unfold fe; lia).
  assert (Hfet : INR fe * dt <= INR f2 * dt + 1 + dt + tcod + dt) by (unfold fe; inr; lra).
  destruct (out_timing dt tmin f2 q Hdt Htm2) as (C3 & _). fold D1 D2 Dm fe in C3.
  assert (Hzm : (f2 + D2 + D1 <= Nat.max z2 z4)%nat) by (nat_le dt Hdt; lra).
  assert (HK1 : (fe + Dm + D1 <= K)%nat) by (assert (fe + Dm + D1 < K + 1)%nat; [|lia]; nat_lt dt Hdt; cbn [INR]; lra).
  assert (HK2 : (Nat.max z2 z4 <= K)%nat) by (assert (Nat.max z2 z4 < K + 1)%nat; [|lia]; nat_lt dt Hdt; cbn [INR]; lra).
  assert (HK3 : (f1 + D1 <= K)%nat /\ (f2 + D2 <= K)%nat /\ (A + D1 + D3 <= K)%nat /\ (A + D1 <= K)%nat /\ (a1 + Dm <= K)%nat /\ (b1 + Dm <= K)%nat /\ (z1 <= K)%nat /\ (z3 <= K)%nat).
  { lia. }
  pose proof (b_syn _ _ _ _ HB) as ES. cbn [w_syns empty_world app] in ES.
  assert (SRC1 : in_syn N (mu_input1 m) = [] /\ t_prm N (mu_input1 m) = stdp).
  { split; [|cbn; apply prm_std; [apply HB|lia]]. eapply src_in; [exact ES|]. syn_simp. }
  assert (SRC2 : in_syn N (mu_input2 m) = [] /\ t_prm N (mu_input2 m) = stdp).
  { split; [|cbn; apply prm_std; [apply HB|lia]]. eapply src_in; [exact ES|]. syn_simp. }
  pose proof (mr_rest N m tcod tmin HM a1 a2 b1 b2 z1 z2 z3 z4) as RS. change (t_dt N) with dt in RS. fold D1 D2 D3 Dm A in RS.
  specialize (RS A1 A2 Ga Ha2 Gb Hb2 Ca Cb A3 A4 (conj Hz12 Hz34) f1 f2 fe F1 F2 W3 Hf1 Hf2 Hf3 Hfe C3 Hzm K HK1 HK2
    (fun k _ => src_settled N (mu_input1 m) k (proj1 SRC1) (proj2 SRC1)) (fun k _ => src_settled N (mu_input2 m) k (proj1 SRC2) (proj2 SRC2))).
  pose proof (mr_spk N m tcod tmin HM a1 a2 b1 b2) as SP. change (t_dt N) with dt in SP. fold D1 Dm A in SP.
  assert (SP' : spikes_at N (mu_first1 m) [a1] /\ spikes_at N (mu_last1 m) [a2] /\ spikes_at N (mu_first2 m) [b1] /\ spikes_at N (mu_last2 m) [b2] /\ spikes_at N (mu_sync m) [(A + D1)%nat]) by (apply SP; auto).
  clear SP. destruct SP' as (P1 & P2 & P3 & P4 & P5).
  pose proof (mr_out N m tcod tmin HM a1 a2 b1 b2 z1 z2 z3 z4) as OU. change (t_dt N) with dt in OU. fold D1 D2 D3 Dm A in OU.
  assert (OU' : spikes_at N (mu_output m) [(f2 + D2)%nat; (fe + Dm)%nat] /\ spikes_at N (mu_zero m) []) by (eapply OU; eauto).
  clear OU. destruct OU' as [P6 P7].
  constructor.
  - intros p y Hp Hy Ep. cbn [N net_of t_ext t_syns t_dt] in *. rewrite ES in Hy.
    unfold exts in Hp. cbn [flat_map stim_ext app In] in Hp.
    assert (HP : (fst p = mu_input1 m \/ fst p = mu_input2 m) /\ (s_delay y = 1 \/ s_delay y = 350)).
    { assert (Efst : fst p = mu_input1 m \/ fst p = mu_input2 m) by (destruct Hp as [<-|[<-|[<-|[<-|[]]]]]; cbn; auto). split; [exact Efst|].
      unfold mu_syns in Hy. cbn [In] in Hy. repeat destruct Hy as [<-|Hy]; try destruct Hy; cbn [s_pre s_delay syn mks] in *; autorewrite with netR; try lra; exfalso; lia. }
    destruct HP as [_ [HP|HP]]; rewrite HP; destruct Hp as [<-|[<-|[<-|[<-|[]]]]]; cbn [snd].
    + fold a1. lia.
    + replace (ta + (Tmin enc + x1 * Tcod enc) + 1) with (ta + 1 + iv1) by (unfold iv1, enc; cbn; lra). fold a2. lia.
    + fold b1. lia.
    + replace (tb + (Tmin enc + x2 * Tcod enc) + 1) with (tb + 1 + iv2) by (unfold iv2, enc; cbn; lra). fold b2. lia.
    + fold z1. lia.
    + replace (ta + (Tmin enc + x1 * Tcod enc) + 350) with (ta + 350 + iv1) by (unfold iv1, enc; cbn; lra). fold z2. lia.
    + fold z3. lia.
    + replace (tb + (Tmin enc + x2 * Tcod enc) + 350) with (tb + 350 + iv2) by (unfold iv2, enc; cbn; lra). fold z4. lia.
  - intros n Hn. apply RS; [|lia]. rewrite HN. apply in_seq. lia.
  - intros y j Hy Hj Hs. cbn [N net_of t_syns t_dt] in *. rewrite ES in Hy. fold N in Hs.
    pose proof (source_silent N (mu_input1 m) (proj1 SRC1) (proj2 SRC1)) as S1. pose proof (source_silent N (mu_input2 m) (proj1 SRC2) (proj2 SRC2)) as S2.
    assert (SO : forall n v, spikes_at N n [v] -> spk N j n = true -> j = v).
    { intros n v HS Hsp. rewrite HS in Hsp. cbn [memb existsb] in Hsp. rewrite orb_false_r in Hsp. apply Nat.eqb_eq in Hsp. auto. }
    assert (SOut : spk N j (mu_output m) = true -> (j + D1 <= K)%nat).
    { intros Hsp. rewrite P6 in Hsp. apply memb_In in Hsp. cbn [In] in Hsp. lia. }
    unfold mu_syns in Hy. cbn [In] in Hy. repeat destruct Hy as [<-|Hy]; try destruct Hy; cbn [s_pre s_delay syn mks] in *; cbn [enc DataEncoder Tmin];
      autorewrite with netR; rewrite ?Rmult_1_r, ?(Rplus_comm tmin 1); fold D1 D2 D3 Dm;
      first [ rewrite S1 in Hs; discriminate Hs | rewrite S2 in Hs; discriminate Hs | rewrite P7 in Hs; discriminate Hs | exact (SOut Hs)
            | apply (SO _ _ P1) in Hs; subst j; lia | apply (SO _ _ P2) in Hs; subst j; lia | apply (SO _ _ P3) in Hs; subst j; lia | apply (SO _ _ P4) in Hs; subst j; lia
            | apply (SO _ _ P5) in Hs; subst j; lia | apply (SO _ _ F1) in Hs; subst j; lia | apply (SO _ _ F2) in Hs; subst j; lia | apply (SO _ _ W3) in Hs; subst j; lia ].
Qed.

Theorem multiplier_reuse (tmin tcod dt T : R) (js : list (((R * R) * (R * R)) * R)) nm ord :
  0 < dt <= 1 / 2 -> 0 < tcod -> 1 + dt <= tmin -> 4 * dt <= tmin -> ord_ok ord -> 0 <= T ->
  jobs_ok _ (mul_ok tcod dt) (mul_span tmin tcod) 0 js T ->
  exists m s ps,
    session (MultiplierNetwork (DataEncoder tmin tcod) nm) mu_mod (DataEncoder tmin tcod) dt (fun m => flat_map (fun j => mul_job (fst j) (snd j) m) js) ord T = Ok (m, s) /\
    spike_log s (mu_output m) = concat ps /\
    Forall2 (fun j p => pair_says (DataEncoder tmin tcod) (fst (fst (fst j)) * snd (fst (fst j))) (7 * dt / tcod + dt / 10) p) js ps.
Proof.
  intros Hdt Htc Htm Htm2 HO HT HJ. set (enc := DataEncoder tmin tcod).
  assert (HTc : tcod <> 0) by lra.
  destruct (Multiplier_built enc nm empty_world inv_empty (neq0 _ HTc)) as (m & w & E & HB & HN & HL).
  cbn [w_neurons empty_world length Nat.add] in HN, HL.
  pose proof HN as HN'. unfold mu_nodes in HN'. nodes_eqs HN'.
  pose proof (b_syn _ _ _ _ HB) as ES. cbn [w_syns empty_world app] in ES.
  destruct (session_jobs1 (MultiplierNetwork enc nm) mu_mod m w _ enc dt ord _ (fun m x t => mul_job x t m) (mul_ok tcod dt) (mul_span tmin tcod) (mu_output m)
     (fun x l => pair_says enc (fst (fst x) * snd (fst x)) (7 * dt / tcod + dt / 10) l) E HB ltac:(lra) HO) with (js := js) (T := T) as (s & ps & Es & LG & F); auto.
  - intros y Hy. rewrite ES in Hy. unfold mu_syns in Hy. cbn [In] in Hy. repeat destruct Hy as [<-|Hy]; try destruct Hy; cbn [s_delay syn mks enc DataEncoder Tmin]; autorewrite with netR; lra.
  - intros x t d. unfold exts, later, mul_job. cbn [flat_map stim_ext app map fst snd]. repeat (f_equal; try lra).
  - intros [[x1 x2] [d1 d2]] t p (Hp1 & Hp2 & Hx1 & Hx2 & _ & Hd1 & Hd2) Hp. unfold exts, mul_job in Hp. cbn [flat_map stim_ext app In enc DataEncoder Tmin Tcod fst snd] in Hp.
    destruct Hp as [<-|[<-|[<-|[<-|[]]]]]; cbn [snd]; lra.
  - intros [[x1 x2] [d1 d2]] t (Hp1 & Hp2 & Hx1 & Hx2 & _ & Hd1 & Hd2).
    assert (L1 : x1 <= 1) by (apply Rmult_le_reg_r with tcod; lra). assert (L2 : x2 <= 1) by (apply Rmult_le_reg_r with tcod; lra).
    unfold mul_job. cbn [fst snd]. stims_ok.
  - intros [[x1 x2] [d1 d2]] (_ & _ & _ & _ & _ & Hd1 & Hd2). unfold mul_span. cbn [fst snd]. pose proof (Rmax_l d1 d2). lra.
  - lia.
  - intros x t. unfold exts, mul_job. cbn [flat_map stim_ext app map fst In]. lia.
  - intros x l d. apply says_shift.
  - intros [[x1 x2] [d1 d2]] t K Hx Ht HK.
    pose proof (mul_quiet tmin tcod x1 x2 d1 d2 dt t K m w nm Hdt Htc Htm Htm2 Hx Ht HK E HB HN HL) as HQ. rewrite <- HL in HQ.
    destruct Hx as (Hp1 & Hp2 & Hx1 & Hx2 & Hxx & Hd1 & Hd2).
    assert (L1 : x1 <= 1) by (apply Rmult_le_reg_r with tcod; lra). assert (L2 : x2 <= 1) by (apply Rmult_le_reg_r with tcod; lra).
    unfold mul_span in HK. cbn [fst snd] in *. rewrite S_INR in HK.
    destruct (ln_prod_bound x1 x2 14 Hp1 Hp2 ltac:(exact Hxx)) as [LB LE].
    destruct (multiplier_run tmin tcod x1 x2 dt (t + d1) (t + d2) (INR K * dt) nm ord Hdt Htc Htm Htm2 ltac:(lra) ltac:(lra) HO Hp1 Hp2 Hx1 Hx2 Hxx) as (m' & s & Es & EM).
    { replace (Rmax (t + d1) (t + d2)) with (t + Rmax d1 d2) by (unfold Rmax; destruct (Rle_dec d1 d2), (Rle_dec (t + d1) (t + d2)); lra). rewrite LE. lra. }
    destruct (session_rests (MultiplierNetwork enc nm) mu_mod m w _ enc dt ord E HB ltac:(lra) HO (fun m => mul_job ((x1, x2), (d1, d2)) t m) K) as (s' & Es' & RS); auto; [unfold mul_job; cbn [fst snd]; stims_ok|].
    fold enc in Es. unfold mul_stims in Es. unfold mul_job in Es'. cbn [fst snd] in Es'. rewrite Es' in Es. injection Es as <- <-. exists s'. split; [exact Es'|]. split; [exact RS|]. exact EM.
  - exists m, s, ps. auto.
Qed.
