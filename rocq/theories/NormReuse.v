(** SignedMultiplierNormNetwork comes back to rest after a scaled product of two values of either sign, strictly between 0 and 1 in size, so it can be
    used again and again (C48, C67): the state every neuron is left in. *)
From Coq Require Import Arith ZArith Bool List Reals Lra Lia Permutation.
From Verif Require Import Num Heapq Elements Simulator Networks Trace SimTrace SimProps TraceProps NeuronLib NetLib Build BuildNets Bridge MemoryProof GeLib GfLib Session SimpleNets InvMem Misc LnLib FuncNets SegLib SubNet ExpLog MulNet MulRun SMem SignMul SignRun SignProd NormNet NormVal NormRun Restart MemReuse Reuse Jobs Settle RestFun SubReuse MulReuse DivReuse SignReuse.
Import ListNotations.
Open Scope R_scope.
Open Scope list_scope.

(** a neuron fires at the steps of two different lists only if they are the same list *)
Lemma spikes_pair N n (a b c d : nat) : spikes_at N n [a; b] -> spikes_at N n [c; d] -> (a < b)%nat -> (c < d)%nat -> a = c /\ b = d.
Proof.
  intros H1 H2 Hab Hcd. assert (E : forall k, memb k [a; b] = memb k [c; d]) by (intros k; rewrite <- H1; apply H2).
  assert (Q : forall k, In k [a; b] <-> In k [c; d]) by (intros k; rewrite <- !memb_In, E; tauto).
  pose proof (Q a) as Qa. pose proof (Q b) as Qb. pose proof (Q c) as Qc. pose proof (Q d) as Qd. cbn [In] in *. lia.
Qed.
(** the neurons of the scalar multiplier behind its input, as sc_rest in RestFun.v *)
Section ScIn.
Variable N : tnet.
Variable m : smul_net.
Variables Tmax tmin f : R.
Let dt := t_dt N.
Hypothesis Hdt : 0 < dt.
Hypothesis HTmax : 0 < Tmax.
Hypothesis Hf : 0 < f.
Hypothesis HM : sc_ins N (1000 / Tmax) tmin f m.
Variables a1 a2 : nat.
Let D1 := step_at dt 1.
Let D2 := step_at dt 2.
Let Dm := step_at dt (1 + tmin).
Hypothesis Hin : arrs N (sc_input m) 1 [a1; a2].
Hypothesis Ha1 : (1 <= a1)%nat.
Hypothesis Ha2 : (a1 + D1 <= a2)%nat.
Let f1 := sc_fire1 N Tmax tmin f a1.
Let f2 := sc_fire2 N Tmax tmin f a1 a2.
Hypothesis Hbe : (a2 + D2 <= f1 + D1)%nat.
Hypothesis Hleft : 0 < sc_left N Tmax tmin f a1 a2.
Hypothesis Hlt : (f1 + D2 < f2 + Dm)%nat.
Lemma si_facts : spikes_at N (sc_first m) [a1] /\ spikes_at N (sc_last m) [a2] /\ spikes_at N (sc_acc m) [f1] /\ spikes_at N (sc_acc2 m) [f2] /\
  spikes_at N (sc_output m) [(f1 + D2)%nat; (f2 + Dm)%nat] /\ (f1 + D1 <= f2)%nat /\ (a1 + Dm <= f1)%nat /\
  forall n k, In n (sc_internal m) -> (f2 + Dm <= k)%nat -> st N k n = init_nstate (t_prm N n).
Proof.
  pose proof (step_at_ge1 dt 1) as G1. fold D1 in G1. pose proof (step_at_ge1 dt (1 + tmin)) as Gm. fold Dm in Gm. pose proof (step_at_ge1 dt 2) as G2. fold D2 in G2.
  pose proof (sc_first_spk N m Tmax tmin f HM a1 a2 Hin Ha1 Ha2) as S1. pose proof (sc_last_spk N m Tmax tmin f HM a1 a2 Hin Ha1 Ha2 Hbe) as S2.
  pose proof (sc_acc_spk N m Tmax tmin f Hdt HTmax Hf HM a1 a2 Hin Ha1 Ha2 Hbe) as S3. fold f1 in S3.
  pose proof (sc_acc2_spk N m Tmax tmin f Hdt HTmax Hf HM a1 a2 Hin Ha1 Ha2 Hbe Hleft) as S4. fold f2 in S4.
  pose proof (sc_output_spk N m Tmax tmin f Hdt HTmax Hf HM a1 a2 Hin Ha1 Ha2 Hbe Hleft ltac:(fold dt D2 Dm f1 f2; lia)) as S5. fold f1 f2 dt D2 Dm in S5.
  assert (F12 : (f1 + D1 <= f2)%nat /\ (a1 + Dm <= f1)%nat).
  { assert (G5 : (1 <= sc_steps N Tmax tmin f a1 a2)%nat) by apply step_at_ge1. unfold f2, f1, sc_fire2, sc_fire1. fold dt D1 Dm.
    pose proof (step_at_ge1 dt (Tmax / f)). lia. }
  destruct F12 as [F1 F2].
  pose proof (ci_first _ _ _ _ _ HM) as I1. pose proof (ci_last _ _ _ _ _ HM) as I2. pose proof (ci_acc _ _ _ _ _ HM) as I3. pose proof (ci_acc2 _ _ _ _ _ HM) as I4. pose proof (ci_output _ _ _ _ _ HM) as I5.
  repeat (split; [assumption|]).
  unfold sc_internal. cbn [In]. intros n k [<-|[<-|[<-|[<-|[<-|[]]]]]] Hk.
  - eapply first_settled; eauto. lia.
  - eapply (ins_settled _ _ _ a2); [exact I2|eapply spk_last; [exact S2|left; auto]| |lia].
    repeat constructor; cbn [s_pre s_delay mks]; rewrite cTsyn_R; over_tac.
  - eapply (ins_settled _ _ _ f1); [exact I3|eapply spk_last; [exact S3|left; auto]| |lia].
    repeat constructor; cbn [s_pre s_delay mks]; autorewrite with netR; (eapply over_spk; [apply (ins_ext _ _ _ I1)|eassumption|]); over_list; fold dt Dm; lia.
  - eapply (ins_settled _ _ _ f2); [exact I4|eapply spk_last; [exact S4|left; auto]| |lia].
    repeat constructor; cbn [s_pre s_delay mks]; autorewrite with netR;
      (eapply over_spk; [first [apply (ins_ext _ _ _ I2)|apply (ins_ext _ _ _ I3)]|eassumption|]); over_list; fold dt D1 D2; lia.
  - eapply (ins_settled _ _ _ (f2 + Dm)); [exact I5|eapply spk_last; [exact S5|right; left; auto]| |lia].
    repeat constructor; cbn [s_pre s_delay mks]; autorewrite with netR;
      (eapply over_spk; [first [apply (ins_ext _ _ _ I3)|apply (ins_ext _ _ _ I4)]|eassumption|]); over_list; fold dt D2 Dm; lia.
Qed.
End ScIn.

(** the outputs: as sn_outs in NormNet.v, and the state they are left in *)
Lemma sn_out_rest N m p1 p2 dt tmin tcod f i1 i2 j1 j2 s1 s2 : sn_at N m p1 p2 dt tmin tcod f i1 i2 j1 j2 ->
  spikes_at N (sc_output (sn_scmn m)) [s1; s2] -> (Nat.max i2 j2 < s1 < s2)%nat ->
  forall n k, In n [sn_output_plus m; sn_output_minus m] -> (s2 + step_at dt 1 <= k)%nat -> st N k n = init_nstate (t_prm N n).
Proof.
  intros HA HS Hs. destruct (sn_inhib _ _ _ _ _ _ _ _ _ _ _ _ HA) as [Jp Jm].
  destruct (sn_outs _ _ _ _ _ _ _ _ _ _ _ _ HA s1 s2 HS Hs) as [SO SN].
  destruct HA as [HD Hdt Htc Htm Hf HM Ia Ia0 Ib Ib0 A1 A2 B1 B2].
  set (D := step_at dt 1) in *. assert (GD : (1 <= D)%nat) by apply step_at_ge1.
  assert (AO : arrs N (sc_output (sn_scmn m)) 1 [(s1 + D)%nat; (s2 + D)%nat]).
  { unfold D. eapply arrs_2; [apply (ci_output _ _ _ _ _ (ni_sc _ _ _ _ _ _ HM))|exact HS|rewrite HD; reflexivity|lia|lia|lia]. }
  pose proof (ni_plus _ _ _ _ _ _ HM) as HP. pose proof (ni_minus _ _ _ _ _ _ HM) as HQ.
  set (O := [(s1 + D)%nat; (s2 + D)%nat]) in *.
  set (e := Bool.eqb p1 p2) in *.
  assert (HMx : (1 <= Nat.max i2 j2)%nat) by lia. set (Mx := Nat.max i2 j2) in *. clearbody Mx.
  set (J1 := if e then [] else [(Mx + D)%nat]) in *. set (J2 := if e then [(Mx + D)%nat] else []) in *.
  assert (S1 : spikes_at N (sn_output_plus m) (if e then O else [])) by (clear - SO SN; destruct e; cbn [negb sn_out] in *; auto).
  assert (S2 : spikes_at N (sn_output_minus m) (if e then [] else O)) by (clear - SO SN; destruct e; cbn [negb sn_out] in *; auto).
  assert (EV : forall (c : R) l k, evw (map (fun a => (a, c)) l) k = c * cnt k l) by (intros; rewrite <- evw_map_cnt; reflexivity).
  intros n k Hn Hk. cbn [In] in Hn. repeat destruct Hn as [<-|Hn]; try destruct Hn.
  - rewrite (ins_prm _ _ _ HP). change (init_nstate stdp) with (at_rest 0).
    set (L := map (fun a => (a, 10)) O ++ map (fun a => (a, -20)) J1).
    rewrite (seg_rest N (sn_output_plus m) L (if e then O else [])); auto; [|apply HP|eapply ins_vonly; [exact HP|repeat constructor]| | |].
    + f_equal. unfold L, O, J1. destruct e; cbn [lastsp fold_left map app]; vsum_simp; ltbs; leb_cases; cbn [andb]; first [lra|exfalso; lia].
    + unfold L, O, J1. clearbody e D. destruct e; cbn [map app]; clear - Hs HMx; segs_solve.
    + intros j Hj. ev_input HP. unfold L. rewrite evw_app, !EV. rewrite ?cTsyn_R.
      pose proof (Jp j Hj) as Q. fold J1 in Q. rewrite (AO j) by lia. rewrite <- Q. netr. lra.
    + unfold O. destruct e; cbn [lastsp fold_left]; lia.
  - rewrite (ins_prm _ _ _ HQ). change (init_nstate stdp) with (at_rest 0).
    set (L := map (fun a => (a, 10)) O ++ map (fun a => (a, -20)) J2).
    rewrite (seg_rest N (sn_output_minus m) L (if e then [] else O)); auto; [|apply HQ|eapply ins_vonly; [exact HQ|repeat constructor]| | |].
    + f_equal. unfold L, O, J2. destruct e; cbn [lastsp fold_left map app]; vsum_simp; ltbs; leb_cases; cbn [andb]; first [lra|exfalso; lia].
    + unfold L, O, J2. clearbody e D. destruct e; cbn [map app]; clear - Hs HMx; segs_solve.
    + intros j Hj. ev_input HQ. unfold L. rewrite evw_app, !EV. rewrite ?cTsyn_R.
      pose proof (Jm j Hj) as Q. fold J2 in Q. rewrite (AO j) by lia. rewrite <- Q. netr. lra.
    + unfold O. destruct e; cbn [lastsp fold_left]; lia.
Qed.

(** from step K on every neuron behind the inputs is in its initial state, and nothing is on its way any more *)
Lemma sn_settle N m p1 p2 dt tmin tcod f i1 i2 j1 j2 x1 x2 K : sn_at N m p1 p2 dt tmin tcod f i1 i2 j1 j2 -> 1 <= tmin ->
  0 < x1 -> 0 < x2 -> 4 * dt <= x1 * tcod <= tcod - 2 * dt -> 4 * dt <= x2 * tcod <= tcod - 2 * dt ->
  Rabs (INR i2 * dt - INR i1 * dt - (tmin + x1 * tcod)) < dt -> Rabs (INR j2 * dt - INR j1 * dt - (tmin + x2 * tcod)) < dt ->
  - ln x1 + - ln x2 <= 14 -> 10 * dt + dt / 10 * tcod <= x1 * x2 * tcod -> x1 * x2 * tcod + 7 * dt + dt / 10 * tcod <= tcod ->
  f * (x1 * x2 * tcod + 7 * dt + dt / 10 * tcod) <= tcod -> (3 + 3 * f) * dt <= tmin ->
  INR (Nat.max i2 j2) * dt + 352 + 4 * tmin + 3 * tcod + (tmin + tcod) / f <= INR K * dt ->
  (forall n, In n (mu_nodes (sn_mn m) ++ sc_nodes (sn_scmn m) ++ [sn_sign1 m; sn_sign2 m; sn_sign3 m; sn_sign4 m; sn_output_plus m; sn_output_minus m]) ->
     st N K n = init_nstate (t_prm N n)) /\
  (forall y j, In y (sn_syns (DataEncoder tmin tcod) f m) -> spk N j (s_pre y) = true ->
     (forall b, spk N j (sn_in1 m b) = true -> (j + step_at dt 1 <= K)%nat) -> (forall b, spk N j (sn_in2 m b) = true -> (j + step_at dt 1 <= K)%nat) -> (j + step_at dt (s_delay y) <= K)%nat).
Proof.
  intros HA Ht1 Hp1 Hp2 Hx1 Hx2 Qa Qb HL Hlow Hhi Hfh Htm3 HK. pose proof (sn_mul _ _ _ _ _ _ _ _ _ _ _ _ HA) as HMu.
  destruct (in_D N _ dt tmin tcod _ _ _ _ _ _ HMu) as ([Hdt Hdt2] & Htc & Htm2 & _). pose proof (na_f _ _ _ _ _ _ _ _ _ _ _ _ HA) as Hf.
  pose proof HA as HA'. destruct HA' as [HD _ _ Htm4 _ HM Ia Ia0 Ib Ib0 A1 A2 B1 B2]. 
  pose proof (step_at_bounds dt 1 Hdt ltac:(lra)) as BD. pose proof (step_at_bounds dt 350 Hdt ltac:(lra)) as BP. pose proof (step_at_bounds dt 2 Hdt ltac:(lra)) as BD2.
  pose proof (step_at_bounds dt 3 Hdt ltac:(lra)) as BD3. pose proof (step_at_bounds dt (1 + tmin) Hdt ltac:(lra)) as Bm.
  pose proof (step_at_ge1 dt 1) as G1. pose proof (step_at_ge1 dt 2) as G2. pose proof (step_at_ge1 dt (1 + tmin)) as Gm.
  assert (L1 : x1 <= 1) by (apply Rmult_le_reg_r with tcod; lra). assert (L2 : x2 <= 1) by (apply Rmult_le_reg_r with tcod; lra).
  pose proof (ln_neg x1 ltac:(lra)) as N1. pose proof (ln_neg x2 ltac:(lra)) as N2.
  assert (Hq : 0 < (tmin + tcod) / f) by (apply Rdiv_lt_0_compat; lra).
  assert (I1 : spikes_at N (mu_input1 (sn_mn m)) [i1; i2]).
  { destruct p1; cbn [sn_in1 negb] in Ia, Ia0; eapply relay2; [apply HM|apply Ia|apply Ia0|auto|cbn; lia|apply HM|apply Ia0|apply Ia|auto|cbn; lia]. }
  assert (I2 : spikes_at N (mu_input2 (sn_mn m)) [j1; j2]).
  { destruct p2; cbn [sn_in2 negb] in Ib, Ib0; eapply relay2; [apply HM|apply Ib|apply Ib0|auto|cbn; lia|apply HM|apply Ib0|apply Ib|auto|cbn; lia]. }
  assert (HWin : INR (Nat.max (i2 + step_at dt 1) (j2 + step_at dt 1)) * dt + 54 + 20 * (- ln x1 + - ln x2) <= INR (Nat.max (i2 + step_at dt 350) (j2 + step_at dt 350)) * dt).
  { rewrite !Nat.add_max_distr_r. inr. lra. }
  destruct (mul_fire N (sn_mn m) dt tmin tcod _ _ _ _ _ _ x1 x2 HMu Hp1 Hp2 Hx1 Hx2) as (Ca & Cb & f1 & f2 & fe & F1 & F2 & F3 & R1 & R2 & R3 & R4 & R5 & R6 & Tf2 & Tfe); [| |exact HWin|].
  { rewrite !plus_INR. replace (_ - _) with (INR i2 * dt - INR i1 * dt - (tmin + x1 * tcod)) by ring. exact Qa. }
  { rewrite !plus_INR. replace (_ - _) with (INR j2 * dt - INR j1 * dt - (tmin + x2 * tcod)) by ring. exact Qb. }
  destruct (mul_value N (sn_mn m) dt tmin tcod _ _ _ _ _ _ x1 x2 HMu Hp1 Hp2 Hx1 Hx2) as (o1 & o2 & HSo & Ho & Ht & He); [| |exact HWin|].
  { rewrite !plus_INR. replace (_ - _) with (INR i2 * dt - INR i1 * dt - (tmin + x1 * tcod)) by ring. exact Qa. }
  { rewrite !plus_INR. replace (_ - _) with (INR j2 * dt - INR j1 * dt - (tmin + x2 * tcod)) by ring. exact Qb. }
  rewrite !Nat.add_max_distr_r in *. rewrite plus_INR in Ht, Tf2.
  assert (MA' : (i2 <= Nat.max i2 j2)%nat /\ (j2 <= Nat.max i2 j2)%nat) by lia.
  set (A := Nat.max i2 j2) in *.
  assert (EV1 : forall j, arrs N (mu_input1 (sn_mn m)) j [(i1 + step_at dt j)%nat; (i2 + step_at dt j)%nat]) by (intros j; eapply arrs_2; [apply HM|exact I1|rewrite HD; reflexivity|lia|lia|lia]).
  assert (EV2 : forall j, arrs N (mu_input2 (sn_mn m)) j [(j1 + step_at dt j)%nat; (j2 + step_at dt j)%nat]) by (intros j; eapply arrs_2; [apply HM|exact I2|rewrite HD; reflexivity|lia|lia|lia]).
  pose proof (ma_a2 _ _ _ _ _ _ _ _ _ _ _ HMu) as Ha2. pose proof (ma_b2 _ _ _ _ _ _ _ _ _ _ _ HMu) as Hb2.
  assert (HMm : mu_ins N (1000 / tcod) tmin (sn_mn m)) by apply HM.
  set (D1 := step_at dt 1) in *. set (D2 := step_at dt 2) in *. set (D3 := step_at dt 3) in *. set (Dm := step_at dt (1 + tmin)) in *. set (P := step_at dt 350) in *.
  (* the inner multiplier *)
  pose proof (mr_out N (sn_mn m) tcod tmin HMm (i1 + D1) (i2 + D1) (j1 + D1) (j2 + D1) (i1 + P) (i2 + P) (j1 + P) (j2 + P)) as OU. rewrite HD in OU. fold D1 D2 D3 Dm in OU.
  rewrite !Nat.add_max_distr_r in OU. fold A in OU.
  pose proof (mr_rest N (sn_mn m) tcod tmin HMm (i1 + D1) (i2 + D1) (j1 + D1) (j2 + D1) (i1 + P) (i2 + P) (j1 + P) (j2 + P)) as RS. rewrite HD in RS. fold D1 D2 D3 Dm in RS.
  rewrite !Nat.add_max_distr_r in RS. fold A in RS.
  pose proof (mr_spk N (sn_mn m) tcod tmin HMm (i1 + D1) (i2 + D1) (j1 + D1) (j2 + D1)) as SPk. rewrite HD in SPk. fold D1 Dm in SPk. rewrite !Nat.add_max_distr_r in SPk. fold A in SPk.
  assert (SP' : spikes_at N (mu_first1 (sn_mn m)) [(i1 + D1)%nat] /\ spikes_at N (mu_last1 (sn_mn m)) [(i2 + D1)%nat] /\ spikes_at N (mu_first2 (sn_mn m)) [(j1 + D1)%nat] /\
    spikes_at N (mu_last2 (sn_mn m)) [(j2 + D1)%nat] /\ spikes_at N (mu_sync (sn_mn m)) [(A + D1 + D1)%nat]) by (apply SPk; auto; [apply EV1|apply EV2|lia|lia]).
  clear SPk. destruct SP' as (P1 & P2 & P3 & P4 & P5).
  assert (HKm : (fe + Dm + D1 <= K)%nat) by (nat_le dt Hdt; lra).
  assert (HKp : (A + P <= K)%nat) by (nat_le dt Hdt; lra).
  assert (OU' : spikes_at N (mu_output (sn_mn m)) [(f2 + D2)%nat; (fe + Dm)%nat] /\ spikes_at N (mu_zero (sn_mn m)) []).
  { apply (OU ltac:(lia) Ha2 ltac:(lia) Hb2 Ca Cb (EV1 350) (EV2 350) ltac:(lia) f1 f2 fe F2 F3 R1 R2 R3 R4 R5 R6 K HKm HKp). }
  clear OU. destruct OU' as [P6 P7].
  destruct (spikes_pair _ _ _ _ _ _ HSo P6 ltac:(lia) R5) as [Eo1 Eo2].
  (* the scalar multiplier *)
  apply Rabs_le2 in He.
  set (v := (INR o2 * dt - INR o1 * dt - tmin) / tcod). assert (Hv : v * tcod = INR o2 * dt - INR o1 * dt - tmin) by (unfold v; field; lra).
  assert (Hv0 : 0 <= v) by (apply Rmult_le_reg_r with tcod; lra). assert (Hv1 : v <= 1) by (apply Rmult_le_reg_r with tcod; lra).
  assert (Hdc : 0 < dt / 10 * tcod) by (apply Rmult_lt_0_compat; lra).
  assert (Hfv : f * v * tcod <= tcod).
  { rewrite Rmult_assoc. apply Rle_trans with (2 := Hfh). apply Rmult_le_compat_l; lra. }
  assert (Hfv1 : f * v <= 1) by (apply Rmult_le_reg_r with tcod; lra).
  assert (AI : arrs N (mu_output (sn_mn m)) 1 [(o1 + D1)%nat; (o2 + D1)%nat]).
  { unfold D1. eapply arrs_2; [apply (ni_mul _ _ _ _ _ _ HM)|exact HSo|rewrite HD; reflexivity|lia|lia|lia]. }
  assert (SI : spikes_at N (sc_input (sn_scmn m)) [(o1 + D1)%nat; (o2 + D1)%nat]).
  { eapply relay; [apply HM| |rewrite cTsyn_R; exact AI|cbn; lia]. netr. lra. }
  assert (AS : arrs N (sc_input (sn_scmn m)) 1 [(o1 + D1 + D1)%nat; (o2 + D1 + D1)%nat]).
  { unfold D1 at 2 4. eapply arrs_2; [apply HM|exact SI|rewrite HD; reflexivity|lia|lia|lia]. }
  assert (Hog : (o1 + D1 <= o2)%nat) by (nat_le dt Hdt; lra).
  destruct (sc_timing dt tmin tcod v f (o1 + D1 + D1) (o2 + D1 + D1) Hdt Htc Hf (conj Hv0 Hv1) Hfv1 Htm3) as (C1 & C2 & C3 & C4 & C5).
  { replace (INR (o2 + D1 + D1) * dt - INR (o1 + D1 + D1) * dt - (tmin + v * tcod)) with 0 by (inr; lra). rewrite Rabs_R0. lra. }
  { right. lra. }
  pose proof (si_facts N (sn_scmn m) (tmin + tcod) tmin f) as SF. rewrite HD in SF.
  specialize (SF Hdt ltac:(lra) Hf (ni_sc _ _ _ _ _ _ HM) _ _ AS ltac:(lia) ltac:(fold D1; lia)).
  unfold sc_fire2, sc_steps, sc_left, sc_gap, sc_fire1 in SF. rewrite HD in SF. fold D1 D2 Dm in SF, C1, C2, C3, C4, C5.
  specialize (SF C1 C2 C3). destruct SF as (T1 & T2 & T3 & T4 & T5 & T6 & T7 & TR).
  match type of T3 with spikes_at _ _ [?a] => set (g1 := a) in * end. match type of T4 with spikes_at _ _ [?a] => set (g2 := a) in * end.
  assert (Hgs : (A < g1 + D2 < g2 + Dm)%nat) by (split; [lia|exact C3]).
  pose proof (sn_out_rest _ _ _ _ _ _ _ _ _ _ _ _ _ _ HA T5 Hgs) as ORS. fold D1 in ORS.
  assert (Hfd : 3 * f * dt <= tmin - 3 * dt) by lra.
  assert (HKs : (g2 + Dm + D1 <= K)%nat).
  { nat_le dt Hdt. apply Rabs_le2 in C4. rewrite (plus_INR g1), (plus_INR g2) in C4. rewrite (plus_INR (o1 + D1) D1), (plus_INR o1 D1) in C5. lra. }
  clearbody g1 g2.
  assert (RL1 : forall k, (K <= k)%nat -> st N k (mu_input1 (sn_mn m)) = init_nstate (t_prm N (mu_input1 (sn_mn m)))).
  { intros k Hk. eapply (ins_settled _ _ _ i2); [apply (ni_in1 _ _ _ _ _ _ HM)|eapply spk_last; [exact I1|right; left; auto]| |lia].
    destruct p1; cbn [sn_in1 negb] in Ia, Ia0; repeat (apply Forall_cons || apply Forall_nil); cbn [s_pre s_delay mks]; rewrite cTsyn_R; (eapply over_arrs; [eassumption|]); cbn [In]; intros ? Hz; repeat destruct Hz as [<-|Hz]; try destruct Hz; lia. }
  assert (RL2 : forall k, (K <= k)%nat -> st N k (mu_input2 (sn_mn m)) = init_nstate (t_prm N (mu_input2 (sn_mn m)))).
  { intros k Hk. eapply (ins_settled _ _ _ j2); [apply (ni_in2 _ _ _ _ _ _ HM)|eapply spk_last; [exact I2|right; left; auto]| |lia].
    destruct p2; cbn [sn_in2 negb] in Ib, Ib0; repeat (apply Forall_cons || apply Forall_nil); cbn [s_pre s_delay mks]; rewrite cTsyn_R; (eapply over_arrs; [eassumption|]); cbn [In]; intros ? Hz; repeat destruct Hz as [<-|Hz]; try destruct Hz; lia. }
  specialize (RS (EV1 1) (EV2 1) ltac:(lia) Ha2 ltac:(lia) Hb2 Ca Cb (EV1 350) (EV2 350) ltac:(lia) f1 f2 fe F1 F2 F3 R1 R2 R3 R4 R5 R6 K HKm HKp RL1 RL2).
  pose proof (sg_rest N _ _ _ _ _ _ _ _ _ _ _ _ (sn_sg N _ _ _ _ m p1 p2 HM) Ia Ia0 Ib Ib0 ltac:(lia) ltac:(lia)) as SGR. rewrite HD in SGR. fold A D1 in SGR.
  destruct (sg_spk N _ _ _ _ _ _ _ _ _ _ _ _ (sn_sg N _ _ _ _ m p1 p2 HM) Ia Ia0 Ib Ib0 ltac:(lia) ltac:(lia)) as (SP & SA & SB & SZ). fold A in SP.
  assert (RSI : st N K (sc_input (sn_scmn m)) = init_nstate (t_prm N (sc_input (sn_scmn m)))).
  { eapply (ins_settled _ _ _ (o2 + D1)); [apply (ni_scin _ _ _ _ _ _ HM)|eapply spk_last; [exact SI|right; left; auto]| |lia].
    repeat (apply Forall_cons || apply Forall_nil); cbn [s_pre s_delay mks]; rewrite cTsyn_R; (eapply over_arrs; [exact AI|]); cbn [In]; intros ? Hz; repeat destruct Hz as [<-|Hz]; try destruct Hz; lia. }
  assert (SGS : forall b1 b2, st N K (sn_sign m b1 b2) = init_nstate (t_prm N (sn_sign m b1 b2))).
  { intros b1 b2. apply SGR; [clear; destruct p1, p2, b1, b2; cbn [negb In]; auto|lia]. }
  assert (SO1 : forall n u, spikes_at N n [u] -> forall j, spk N j n = true -> j = u).
  { intros n u HS j Hsp. rewrite HS in Hsp. cbn [memb existsb] in Hsp. rewrite orb_false_r in Hsp. apply Nat.eqb_eq in Hsp. auto. }
  assert (SO2 : forall n u u', spikes_at N n [u; u'] -> forall j, spk N j n = true -> j = u \/ j = u').
  { intros n u u' HS j Hsp. rewrite HS in Hsp. apply memb_In in Hsp. cbn [In] in Hsp. intuition auto. }
  assert (SO0 : forall n, spikes_at N n [] -> forall j, spk N j n = true -> False).
  { intros n HS j Hsp. rewrite HS in Hsp. discriminate Hsp. }
  assert (SGN : forall b1 b2 j, spk N j (sn_sign m b1 b2) = true -> (j + D1 <= K)%nat).
  { assert (Q : forall b1 b2, spikes_at N (sn_sign m b1 b2) [A] \/ spikes_at N (sn_sign m b1 b2) []) by (clear - SP SA SB SZ; destruct p1, p2; cbn [negb] in *; intros [] []; auto).
    intros b1 b2 j Hsp. destruct (Q b1 b2) as [q|q]; [apply (SO1 _ _ q) in Hsp; lia|apply (SO0 _ q) in Hsp; destruct Hsp]. }
  split.
  - intros n Hn. apply in_app_or in Hn. destruct Hn as [Hn|Hn]; [apply RS; auto|]. apply in_app_or in Hn. destruct Hn as [Hn|Hn].
    + assert (Hn' : n = sc_input (sn_scmn m) \/ In n (sc_internal (sn_scmn m))) by (unfold sc_nodes in Hn; unfold sc_internal; cbn [In] in *; intuition auto).
      destruct Hn' as [->|Hn']; [exact RSI|]. apply TR; auto. lia.
    + pose proof (SGS true true) as Y1. pose proof (SGS false true) as Y2. pose proof (SGS true false) as Y3. pose proof (SGS false false) as Y4. cbn [sn_sign] in Y1, Y2, Y3, Y4.
      cbn [In] in Hn. repeat destruct Hn as [<-|Hn]; try destruct Hn; auto; apply ORS; cbn [In]; auto; lia.
  - intros y j Hy Hs X1 X2.
    pose proof (X1 true) as X1t. pose proof (X1 false) as X1f. pose proof (X2 true) as X2t. pose proof (X2 false) as X2f. cbn [sn_in1 sn_in2] in X1t, X1f, X2t, X2f.
    pose proof (SGN true true j) as Y1. pose proof (SGN false true j) as Y2. pose proof (SGN true false j) as Y3. pose proof (SGN false false j) as Y4. cbn [sn_sign] in Y1, Y2, Y3, Y4.
    pose proof (SO2 _ _ _ I1 j) as Z1. pose proof (SO2 _ _ _ I2 j) as Z2. pose proof (SO2 _ _ _ P6 j) as Z3. pose proof (SO2 _ _ _ SI j) as Z4. pose proof (SO2 _ _ _ T5 j) as Z5.
    pose proof (SO1 _ _ P1 j) as W1. pose proof (SO1 _ _ P2 j) as W2. pose proof (SO1 _ _ P3 j) as W3. pose proof (SO1 _ _ P4 j) as W4. pose proof (SO1 _ _ P5 j) as W5.
    pose proof (SO1 _ _ F1 j) as W6. pose proof (SO1 _ _ F2 j) as W7. pose proof (SO1 _ _ F3 j) as W8.
    pose proof (SO1 _ _ T1 j) as V1. pose proof (SO1 _ _ T2 j) as V2. pose proof (SO1 _ _ T3 j) as V3. pose proof (SO1 _ _ T4 j) as V4.
    assert (U1 : (i1 + Dm <= i2 + D1)%nat) by lia. assert (U2 : (j1 + Dm <= j2 + D1)%nat) by lia.
    assert (U3 : (A + D1 + D1 + D3 <= K)%nat) by (assert (D3 <= P)%nat by (unfold D3, P; apply step_at_mono; lra); nat_le dt Hdt; lra).
    assert (U4 : (D1 <= P)%nat) by (nat_le dt Hdt; lra).
    clear - Hy Hs X1t X1f X2t X2f Y1 Y2 Y3 Y4 Z1 Z2 Z3 Z4 Z5 W1 W2 W3 W4 W5 W6 W7 W8 V1 V2 V3 V4 P7 HKm HKp HKs R1 R2 R3 R4 U1 U2 U3 U4 MA' G1 G2 T6 T7 C1 Hog Eo1 Eo2 A2 B2 Hgs.
    unfold sn_syns, sign_syns, sout_syns, mu_syns, sc_syns in Hy. cbv zeta in Hy. cbn [In app] in Hy.
    repeat destruct Hy as [<-|Hy]; try destruct Hy; cbn [s_pre s_delay syn mks] in *; cbn [DataEncoder Tmin];
      autorewrite with netR; rewrite ?Rmult_1_r, ?(Rplus_comm tmin 1); fold D1 D2 D3 Dm P;
      first [ exact (X1t Hs) | exact (X1f Hs) | exact (X2t Hs) | exact (X2f Hs)
            | rewrite P7 in Hs; discriminate Hs
            | exact (Y1 Hs) | exact (Y2 Hs) | exact (Y3 Hs) | exact (Y4 Hs)
            | specialize (Z1 Hs); lia | specialize (Z2 Hs); lia | specialize (Z3 Hs); lia | specialize (Z4 Hs); lia | specialize (Z5 Hs); lia
            | specialize (W1 Hs); lia | specialize (W2 Hs); lia | specialize (W3 Hs); lia | specialize (W4 Hs); lia | specialize (W5 Hs); lia | specialize (W6 Hs); lia | specialize (W7 Hs); lia | specialize (W8 Hs); lia
            | specialize (V1 Hs); lia | specialize (V2 Hs); lia | specialize (V3 Hs); lia | specialize (V4 Hs); lia ].
Qed.
