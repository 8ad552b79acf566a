(** SignedMultiplierNetwork comes back to rest after a product of two values of either sign, strictly between 0 and 1 in size, so it can be used
    again and again (C46, C66). *)
From Coq Require Import Arith ZArith Bool List Reals Lra Lia Permutation.
From Verif Require Import Num Heapq Elements Simulator Networks Trace SimTrace SimProps TraceProps NeuronLib NetLib Build BuildNets Bridge MemoryProof GeLib GfLib Session SimpleNets InvMem Misc LnLib FuncNets SegLib SubNet ExpLog MulNet MulRun SMem SignMul SignRun SignProd Restart MemReuse Reuse Jobs Settle RestFun SubReuse MulReuse DivReuse.
Import ListNotations.
Open Scope R_scope.
Open Scope list_scope.

(** when the accumulators of the inner multiplier fire (see mul_value in SignMul.v for what its output says) *)
Lemma mul_fire N m dt tmin tcod a1 a2 b1 b2 z2 z4 x1 x2 : mul_at N m dt tmin tcod a1 a2 b1 b2 z2 z4 ->
  0 < x1 -> 0 < x2 -> 4 * dt <= x1 * tcod <= tcod - 2 * dt -> 4 * dt <= x2 * tcod <= tcod - 2 * dt ->
  Rabs (INR a2 * dt - INR a1 * dt - (tmin + x1 * tcod)) < dt -> Rabs (INR b2 * dt - INR b1 * dt - (tmin + x2 * tcod)) < dt ->
  INR (Nat.max a2 b2) * dt + 54 + 20 * (- ln x1 + - ln x2) <= INR (Nat.max z2 z4) * dt ->
  (a1 + step_at dt (1 + tmin) <= a2 + step_at dt 1)%nat /\ (b1 + step_at dt (1 + tmin) <= b2 + step_at dt 1)%nat /\
  exists f1 f2 fe, spikes_at N (mu_acc_log1 m) [f1] /\ spikes_at N (mu_acc_log2 m) [f2] /\ spikes_at N (mu_acc_exp m) [fe] /\
    (Nat.max a2 b2 + step_at dt 1 + step_at dt 1 <= f1)%nat /\ (f1 + step_at dt 1 <= f2)%nat /\ (Nat.max a2 b2 + step_at dt 3 <= f2)%nat /\
    (f2 + step_at dt 1 <= fe)%nat /\ (f2 + step_at dt 2 < fe + step_at dt (1 + tmin))%nat /\ (f2 + step_at dt 2 + step_at dt 1 <= Nat.max z2 z4)%nat /\
    INR f2 * dt <= INR (Nat.max a2 b2) * dt + 49 + 20 * (- ln x1 + - ln x2) /\ INR fe * dt <= INR f2 * dt + 1 + dt + tcod + dt.
Proof.
  intros HA Hp1 Hp2 Hx1 Hx2 Qa Qb HW. destruct (in_D N m dt tmin tcod _ _ _ _ _ _ HA) as ([Hdt Hdt2] & Htc & Htm2 & _).
  assert (L1 : x1 <= 1) by (apply Rmult_le_reg_r with tcod; lra). assert (L2 : x2 <= 1) by (apply Rmult_le_reg_r with tcod; lra).
  pose proof (ln_neg x1 ltac:(lra)) as N1. pose proof (ln_neg x2 ltac:(lra)) as N2.
  destruct (charge_of dt tmin tcod x1 _ _ Hdt Htc ltac:(lra) ltac:(lra) ltac:(lra) Qa) as (Ca & Ca0 & Ca1 & Ca2 & Ca3).
  destruct (charge_of dt tmin tcod x2 _ _ Hdt Htc ltac:(lra) ltac:(lra) ltac:(lra) Qb) as (Cb & Cb0 & Cb1 & Cb2 & Cb3).
  specialize (Ca3 ltac:(lra)). specialize (Cb3 ltac:(lra)). split; [exact Ca|]. split; [exact Cb|].
  pose proof (step_at_ge1 dt 1) as G1. pose proof (step_at_ge1 dt 2) as G2. pose proof (step_at_bounds dt 1 Hdt ltac:(lra)) as B1. pose proof (step_at_bounds dt 2 Hdt ltac:(lra)) as B2.
  pose proof (step_at_bounds dt 3 Hdt ltac:(lra)) as B3.
  destruct (w_log1 N m dt tmin tcod a1 a2 b1 b2 z2 z4 HA Ca Cb) as (_ & W1 & _).
  set (D1 := step_at dt 1) in *. set (D2 := step_at dt 2) in *. set (D3 := step_at dt 3) in *. set (Dm := step_at dt (1 + tmin)) in *. set (A := Nat.max a2 b2) in *.
  set (c1 := INR (a2 + D1 - (a1 + Dm)) * (dt / tcod)) in *. set (c2 := INR (b2 + D1 - (b1 + Dm)) * (dt / tcod)) in *.
  set (r := 1 - dt / 20) in *. assert (Hr : 0 < r < 1) by (unfold r; lra).
  destruct (least_pow r c1 Hr Ca0) as (j1 & J1 & J1'). destruct (least_pow r c2 Hr Cb0) as (j2 & J2 & J2').
  destruct (least_ln (dt / 20) c1 j1 ltac:(lra) ltac:(lra) J1 J1') as [_ LL1]. destruct (least_ln (dt / 20) c2 j2 ltac:(lra) ltac:(lra) J2 J2') as [_ LL2].
  destruct (W1 j1 Ca3 J1 J1') as [K1 F1]. clear W1.
  assert (Ab2 : (b2 <= A)%nat) by (unfold A; lia). assert (Aa2 : (a2 <= A)%nat) by (unfold A; lia).
  destruct (w_log2 N m dt tmin tcod a1 a2 b1 b2 z2 z4 _ HA Ca Cb F1 ltac:(lia) ltac:(lia)) as (_ & W2 & _).
  fold D1 Dm c2 r in W2. destruct (W2 j2 Cb3 J2 J2') as [K2 F2]. clear W2.
  set (f1 := (A + D1 + D1 - 1 + j1)%nat) in *. set (f2 := (f1 + D1 - 1 + j2)%nat) in *.
  assert (H3D : (D3 <= 3 * D1)%nat) by (apply Nat.lt_succ_r; nat_lt dt Hdt; cbn [INR]; lra).
  destruct (w_exp N m dt tmin tcod a1 a2 b1 b2 z2 z4 f2 HA Ca Cb F2 ltac:(unfold f2, f1; lia)) as (W3 & _).
  fold A D1 D3 r in W3. specialize (W3 ltac:(unfold f2, f1; lia)). set (k := (f2 - (A + D3))%nat) in *.
  assert (Hrk : 0 < r ^ k <= 1) by (split; [apply pow_lt; lra|apply pow_le1; auto]).
  assert (HTr : 0 < tcod * r ^ k) by (apply Rmult_lt_0_compat; lra). assert (HTr2 : tcod * r ^ k <= tcod) by (apply shrink; lra).
  pose proof (step_at_bounds dt _ Hdt HTr) as BJ. pose proof (step_at_ge1 dt (tcod * r ^ k)) as GJ. set (q := step_at dt (tcod * r ^ k)) in *.
  set (fe := (f2 + D1 - 1 + q)%nat) in *.
  assert (Hf2t : INR f2 * dt <= INR A * dt + 9 + 20 * (- ln c1 + - ln c2)) by (unfold f2, f1; inr; lra).
  destruct (out_timing dt tmin f2 q Hdt Htm2) as (C3 & _). fold D1 D2 Dm fe in C3.
  exists f1, f2, fe. split; [exact F1|]. split; [exact F2|]. split; [exact W3|].
  split; [unfold f1; lia|]. split; [unfold f2; lia|]. split; [unfold f2, f1; lia|]. split; [unfold fe; lia|]. split; [exact C3|].
  split; [nat_le dt Hdt; lra|]. split; [lra|]. unfold fe; inr; lra.
Qed.

(** the four sign neurons are back in their initial state one synaptic delay after the last operand spike *)
Lemma sg_rest N iu io ju jo sP sA sB sZ (a1 a2 b1 b2 : nat) :
  sg_ins N iu io ju jo sP sA sB sZ -> arrs N iu 1 [a1; a2] -> arrs N io 1 [] -> arrs N ju 1 [b1; b2] -> arrs N jo 1 [] ->
  (1 <= a1 < a2)%nat -> (1 <= b1 < b2)%nat ->
  forall n k, In n [sP; sA; sB; sZ] -> (Nat.max a2 b2 + step_at (t_dt N) 1 <= k)%nat -> st N k n = init_nstate (t_prm N n).
Proof.
  intros HG Iu Io Ju Jo Ha Hb n k Hn Hk. destruct (sg_spk _ _ _ _ _ _ _ _ _ _ _ _ _ HG Iu Io Ju Jo Ha Hb) as (SP & SA & SB & SZ).
  pose proof (gi_P _ _ _ _ _ _ _ _ _ HG) as HP. pose proof (gi_A _ _ _ _ _ _ _ _ _ HG) as HA.
  pose proof (gi_B _ _ _ _ _ _ _ _ _ HG) as HB. pose proof (gi_Z _ _ _ _ _ _ _ _ _ HG) as HZ.
  set (D1 := step_at (t_dt N) 1) in *. assert (HMx : (a2 <= Nat.max a2 b2 /\ b2 <= Nat.max a2 b2)%nat) by lia.
  assert (E1 : step_at (t_dt N) cTsyn = D1) by reflexivity.
  assert (AP : arrs N sP 1 [(Nat.max a2 b2 + D1)%nat]) by (eapply arrs_1; [exact HP|exact SP|reflexivity|lia]).
  assert (AA : arrs N sA 1 []) by (eapply arrs_0; [exact HA|exact SA]). assert (AB : arrs N sB 1 []) by (eapply arrs_0; [exact HB|exact SB]).
  assert (AZ : arrs N sZ 1 []) by (eapply arrs_0; [exact HZ|exact SZ]).
  set (Mx := Nat.max a2 b2) in *. 
  cbn [In] in Hn. repeat destruct Hn as [<-|Hn]; try destruct Hn.
  - eapply (ins_settled _ _ _ Mx); [exact HP|eapply spk_last; [exact SP|left; auto]| |lia].
    repeat (apply Forall_cons || apply Forall_nil); cbn [s_pre s_delay mks]; rewrite cTsyn_R; (eapply over_arrs; [eassumption|]); cbn [In]; intros ? Hj; repeat destruct Hj as [<-|Hj]; try destruct Hj; lia.
  - rewrite (ins_prm _ _ _ HA). change (init_nstate stdp) with (at_rest 0).
    set (LA := [(a1, 5/2); (a2, 5/2); ((Mx + D1)%nat, -5)]).
    assert (SG : segs LA 0 []) by (unfold LA; clear - Ha HMx; segs_solve).
    rewrite (seg_rest N sA LA []); auto; [|apply HA|eapply ins_vonly; [exact HA|repeat constructor]| |cbn; lia].
    + f_equal. unfold LA. cbn [lastsp fold_left]. vsum_simp; ltbs; leb_cases; cbn [andb]; first [lra|exfalso; lia].
    + intros j Hj. ev_input HA. rewrite cTsyn_R, Iu, Jo, AP, AZ by lia. unfold LA. netr. autorewrite with netR. ev_simpl. lra.
  - rewrite (ins_prm _ _ _ HB). change (init_nstate stdp) with (at_rest 0).
    set (LB := [(b1, 5/2); (b2, 5/2); ((Mx + D1)%nat, -5)]).
    assert (SG : segs LB 0 []) by (unfold LB; clear - Hb HMx; segs_solve).
    rewrite (seg_rest N sB LB []); auto; [|apply HB|eapply ins_vonly; [exact HB|repeat constructor]| |cbn; lia].
    + f_equal. unfold LB. cbn [lastsp fold_left]. vsum_simp; ltbs; leb_cases; cbn [andb]; first [lra|exfalso; lia].
    + intros j Hj. ev_input HB. rewrite cTsyn_R, Io, Ju, AP, AZ by lia. unfold LB. netr. autorewrite with netR. ev_simpl. lra.
  - rewrite (ins_prm _ _ _ HZ). change (init_nstate stdp) with (at_rest 0).
    assert (SG : segs [] 0 []) by segs_solve.
    rewrite (seg_rest N sZ [] [] ltac:(apply HZ) ltac:(eapply ins_vonly; [exact HZ|repeat constructor]) SG SZ); [reflexivity| |cbn; lia].
    + intros j Hj. ev_input HZ. rewrite cTsyn_R, Io, Jo, AA, AB by lia. netr. autorewrite with netR. ev_simpl. lra.
Qed.

(** outputs and zero detector: as sx_product in SignProd.v, and the state they are left in *)
Lemma sx_out_rest N m p1 p2 dt tmin tcod i1 i2 j1 j2 z1 z2 z3 z4 o1 o2 : sx_at N m p1 p2 dt tmin tcod i1 i2 j1 j2 z1 z2 z3 z4 ->
  spikes_at N (mu_output (sx_mn m)) [o1; o2] -> (Nat.max i2 j2 < o1 < o2)%nat -> (o1 + step_at dt 1 + step_at dt 1 <= Nat.max z2 z4)%nat ->
  spikes_at N (sx_zero m) [] /\
  forall n k, In n [sx_output_plus m; sx_output_minus m; sx_zero m] -> (o2 + step_at dt 1 + step_at dt 1 <= k)%nat -> (Nat.max z2 z4 <= k)%nat -> st N k n = init_nstate (t_prm N n).
Proof.
  intros HA HS Ho Hz. pose proof (sa_ins _ _ _ _ _ _ _ _ _ _ _ _ _ _ _ HA) as HM. pose proof (sa_dt _ _ _ _ _ _ _ _ _ _ _ _ _ _ _ HA) as HD.
  pose proof (sa_i _ _ _ _ _ _ _ _ _ _ _ _ _ _ _ HA) as Hi. pose proof (sa_z12 _ _ _ _ _ _ _ _ _ _ _ _ _ _ _ HA) as Hz12. pose proof (sa_z34 _ _ _ _ _ _ _ _ _ _ _ _ _ _ _ HA) as Hz34.
  destruct (sx_inhib _ _ _ _ _ _ _ _ _ _ _ _ _ _ _ HA) as [Jp Jm]. pose proof (sa_zs _ _ _ _ _ _ _ _ _ _ _ _ _ _ _ HA) as HZ.
  destruct (sx_product _ _ _ _ _ _ _ _ _ _ _ _ _ _ _ _ _ HA HS Ho Hz) as [SO SN].
  set (D := step_at dt 1) in *. assert (GD : (1 <= D)%nat) by apply step_at_ge1.
  assert (AO : arrs N (mu_output (sx_mn m)) 1 [(o1 + D)%nat; (o2 + D)%nat]).
  { eapply arrs_2; [apply HM|exact HS|rewrite HD; reflexivity|lia|lia|lia]. }
  set (O := [(o1 + D)%nat; (o2 + D)%nat]) in *.
  set (e := Bool.eqb p1 p2) in *.
  assert (ZQ : segs [(z1, 5/2); (z2, 5/2); (z3, 5/2); (z4, 5/2); ((o1 + D + D)%nat, -5); ((o2 + D + D)%nat, -5)] 0 []) by (apply zero_quiet; lia).
  destruct (sx_group N (1000 / tcod) tmin m HM O _ _ _ (if e then O else []) (if e then [] else O) [] AO Jp Jm HZ) as (S1 & S2 & S3).
  { unfold O. clearbody e D. destruct e; cbn [map app]; clear - Ho Hi; segs_solve. }
  { unfold O. clearbody e D. destruct e; cbn [map app]; clear - Ho Hi; segs_solve. }
  { rewrite HD. fold D. destruct e; cbn [map app O]; exact ZQ. }
  pose proof (xi_plus _ _ _ _ HM) as HP. pose proof (xi_minus _ _ _ _ HM) as HQ. pose proof (xi_zero _ _ _ _ HM) as HZe.
  assert (AZ1 : arrs N (sx_zero m) 1 []) by (eapply arrs_0; [exact HZe|exact S3]).
  assert (AZ2 : arrs N (sx_zero m) (nadd cTsyn tmin) []) by (eapply arrs_0; [exact HZe|exact S3]).
  assert (APM : forall k, (1 <= k)%nat -> INR (arr N (sx_output_plus m) 1 k) + INR (arr N (sx_output_minus m) 1 k) = cnt k [(o1 + D + D)%nat; (o2 + D + D)%nat]).
  { intros k Hk. assert (Q2 : forall n L, ins N n L -> spikes_at N n O -> arrs N n 1 [(o1 + D + D)%nat; (o2 + D + D)%nat]).
    { intros n L HI HSn. unfold O in HSn. eapply arrs_2; [exact HI|exact HSn|rewrite HD; reflexivity|lia|lia|lia]. }
    assert (Q0 : forall n L, ins N n L -> spikes_at N n [] -> arrs N n 1 []) by (intros n L HI HSn; eapply arrs_0; eauto).
    destruct e; [rewrite (Q2 _ _ HP S1 k Hk), (Q0 _ _ HQ S2 k Hk)|rewrite (Q0 _ _ HP S1 k Hk), (Q2 _ _ HQ S2 k Hk)]; rewrite cnt_nil; lra. }
  split; [exact S3|].
  assert (HMx : (1 <= Nat.max i2 j2)%nat) by lia. set (Mx := Nat.max i2 j2) in *. clearbody Mx.
  set (J1 := if e then [] else [(Mx + D)%nat]) in *. set (J2 := if e then [(Mx + D)%nat] else []) in *.
  assert (EV : forall (c : R) l k, evw (map (fun a => (a, c)) l) k = c * cnt k l).
  { intros c l k. rewrite <- evw_map_cnt. reflexivity. }
  intros n k Hn Hk Hk2. cbn [In] in Hn. repeat destruct Hn as [<-|Hn]; try destruct Hn.
  - rewrite (ins_prm _ _ _ HP). change (init_nstate stdp) with (at_rest 0).
    set (L := map (fun a => (a, 10)) O ++ map (fun a => (a, -20)) J1).
    rewrite (seg_rest N (sx_output_plus m) L (if e then O else [])); auto; [|apply HP|eapply ins_vonly; [exact HP|repeat constructor]| | |].
    + f_equal. unfold L, O, J1. destruct e; cbn [lastsp fold_left map app]; vsum_simp; ltbs; leb_cases; cbn [andb]; first [lra|exfalso; lia].
    + unfold L, O, J1. clearbody e D. destruct e; cbn [map app]; clear - Ho HMx; segs_solve.
    + intros j Hj. ev_input HP. unfold L. rewrite evw_app, !EV. rewrite (AZ2 j), ?cTsyn_R by lia.
      pose proof (Jp j Hj) as Q. fold J1 in Q. rewrite (AO j), (AZ1 j), cnt_nil by lia. rewrite <- Q. netr. lra.
    + unfold O. destruct e; cbn [lastsp fold_left]; lia.
  - rewrite (ins_prm _ _ _ HQ). change (init_nstate stdp) with (at_rest 0).
    set (L := map (fun a => (a, 10)) O ++ map (fun a => (a, -20)) J2).
    rewrite (seg_rest N (sx_output_minus m) L (if e then [] else O)); auto; [|apply HQ|eapply ins_vonly; [exact HQ|repeat constructor]| | |].
    + f_equal. unfold L, O, J2. destruct e; cbn [lastsp fold_left map app]; vsum_simp; ltbs; leb_cases; cbn [andb]; first [lra|exfalso; lia].
    + unfold L, O, J2. clearbody e D. destruct e; cbn [map app]; clear - Ho HMx; segs_solve.
    + intros j Hj. ev_input HQ. unfold L. rewrite evw_app, !EV. rewrite ?cTsyn_R.
      pose proof (Jm j Hj) as Q. fold J2 in Q. rewrite (AO j) by lia. rewrite <- Q. netr. lra.
    + unfold O. destruct e; cbn [lastsp fold_left]; lia.
  - rewrite (ins_prm _ _ _ HZe). change (init_nstate stdp) with (at_rest 0).
    rewrite (seg_rest N (sx_zero m) _ [] ltac:(apply HZe) ltac:(eapply ins_vonly; [exact HZe|repeat constructor]) ZQ S3); [| |cbn; lia].
    + f_equal. cbn [lastsp fold_left]. assert (z2 <= k /\ z4 <= k)%nat by lia. vsum_simp; ltbs; leb_cases; cbn [andb]; first [lra|exfalso; lia].
    + intros j Hj. ev_input HZe. pose proof (APM j Hj) as Q1. pose proof (HZ j Hj) as Q2. change max_prop_delay with 350. change cTsyn with 1.
      rewrite !cnt_cons, cnt_nil in *. ev_simpl. netr. lra.
Qed.

(** the network and its operands in steps, as sx_sess in SignRun.v, for the network that was built *)
Lemma sx_facts (tmin tcod x1 x2 dt ta tb T : R) (p1 p2 : bool) nm m w s :
  0 < dt -> 0 < tcod -> 1 + dt <= tmin -> 4 * dt <= tmin -> dt <= 1 / 2 -> 0 <= x1 <= 1 -> 0 <= x2 <= 1 -> 0 <= ta -> 0 <= tb ->
  let enc := DataEncoder tmin tcod in let iv1 := tmin + x1 * tcod in let iv2 := tmin + x2 * tcod in
  SignedMultiplierNetwork enc nm empty_world = Ok (m, w) -> built empty_world w (sx_mod m) (sx_syns enc m) -> mu_nodes (sx_mn m) ++ sx_own m = seq 0 23 -> length (w_neurons w) = 23%nat ->
  sess m w (sx_syns enc m) enc dt (sx_stims p1 p2 x1 x2 ta tb m) T s ->
  let N := net_of w (exts enc (sx_stims p1 p2 x1 x2 ta tb m)) dt in
  sx_at N m p1 p2 dt tmin tcod (step_at dt (ta + 1)) (step_at dt (ta + 1 + iv1)) (step_at dt (tb + 1)) (step_at dt (tb + 1 + iv2))
      (step_at dt (ta + 350)) (step_at dt (ta + 350 + iv1)) (step_at dt (tb + 350)) (step_at dt (tb + 350 + iv2)) /\
  spikes_at N (mu_input1 (sx_mn m)) [step_at dt (ta + 1); step_at dt (ta + 1 + iv1)] /\
  spikes_at N (mu_input2 (sx_mn m)) [step_at dt (tb + 1); step_at dt (tb + 1 + iv2)] /\
  (forall d, arrs N (sx_in1 m p1) d [step_at dt (ta + d); step_at dt (ta + d + iv1)]) /\ (forall d, arrs N (sx_in1 m (negb p1)) d []) /\
  (forall d, arrs N (sx_in2 m p2) d [step_at dt (tb + d); step_at dt (tb + d + iv2)]) /\ (forall d, arrs N (sx_in2 m (negb p2)) d []).
Proof.
  intros Hdt Htc Htm Htm2 Hdt2 Hx1 Hx2 Hta Htb enc iv1 iv2 E HB HN HL HSe N.
  pose proof HN as HN'. unfold mu_nodes, sx_own in HN'. cbn [app] in HN'. nodes_eqs HN'.
  unfold sx_stims in *.
  assert (Hxc : forall x, 0 <= x <= 1 -> 0 <= x * tcod <= tcod) by (intros x Hx; split; [apply Rmult_le_pos; lra|rewrite <- (Rmult_1_l tcod) at 2; apply Rmult_le_compat_r; lra]).
  pose proof (Hxc x1 Hx1) as Hc1. pose proof (Hxc x2 Hx2) as Hc2.
  assert (Hiv1 : 1 + dt <= iv1) by (unfold iv1; lra). assert (Hiv2 : 1 + dt <= iv2) by (unfold iv2; lra).
  assert (HG : forall t iv, 0 <= t -> 1 + dt <= iv -> (step_at dt (t + 1) + step_at dt 1 <= step_at dt (t + 1 + iv))%nat).
  { intros t iv Ht Hv. apply step_diff_ge; try lra; try apply step_at_ge1. pose proof (step_time dt 1 Hdt ltac:(lra)). lra. }
  assert (HZ : forall t iv, 0 <= t -> 1 + dt <= iv -> (1 <= step_at dt (t + 350) < step_at dt (t + 350 + iv))%nat).
  { intros t iv Ht Hv. split; [apply step_at_ge1|]. apply (step_diff dt (t + 350) iv Hdt); lra. }
  assert (HI : forall n, In n (sx_internal m) -> (n < 23)%nat /\ ext_spikes (exts enc [SValue x1 (sx_in1 m p1) ta; SValue x2 (sx_in2 m p2) tb]) n = []).
  { intros n Hn. unfold sx_internal, mu_internal in Hn. cbn [In app] in Hn. split; [intuition lia|].
    destruct p1, p2; cbn [sx_in1 sx_in2]; repeat (destruct Hn as [<-|Hn]; [ext_simp; reflexivity|]); destruct Hn. }
  assert (HM : sx_ins N (1000 / tcod) tmin m).
  { rewrite <- (wbar_R tmin). apply (sx_ins_of N enc m 0 HN). intros n Hn. apply (se_own _ _ _ _ _ _ _ _ HSe); [rewrite HL|]; apply HI; auto. }
  assert (HA1 : forall d, arrs N (sx_in1 m p1) d [step_at dt (ta + d); step_at dt (ta + iv1 + d)]).
  { intros d. unfold sx_syns, sign_syns, sout_syns in HSe. destruct p1, p2; cbn [sx_in1 sx_in2] in *; src_solve HSe. }
  assert (HA0 : forall d, arrs N (sx_in1 m (negb p1)) d []).
  { intros d. unfold sx_syns, sign_syns, sout_syns in HSe. destruct p1, p2; cbn [sx_in1 sx_in2 negb] in *; src_solve HSe. }
  assert (HB1 : forall d, arrs N (sx_in2 m p2) d [step_at dt (tb + d); step_at dt (tb + iv2 + d)]).
  { intros d. unfold sx_syns, sign_syns, sout_syns in HSe. destruct p1, p2; cbn [sx_in1 sx_in2] in *; src_solve HSe. }
  assert (HB0 : forall d, arrs N (sx_in2 m (negb p2)) d []).
  { intros d. unfold sx_syns, sign_syns, sout_syns in HSe. destruct p1, p2; cbn [sx_in1 sx_in2 negb] in *; src_solve HSe. }
  assert (Sw : forall t iv d, t + iv + d = t + d + iv) by (intros; lra).
  setoid_rewrite Sw in HA1. setoid_rewrite Sw in HB1.
  pose proof (HG ta iv1 Hta Hiv1) as G1. pose proof (HG tb iv2 Htb Hiv2) as G2.
  pose proof (step_at_ge1 dt (ta + 1)) as Ga. pose proof (step_at_ge1 dt (tb + 1)) as Gb. pose proof (step_at_ge1 dt 1) as GD. pose proof (step_at_ge1 dt 350) as GZ.
  assert (I1 : spikes_at N (mu_input1 (sx_mn m)) [step_at dt (ta + 1); step_at dt (ta + 1 + iv1)]).
  { destruct p1; cbn [sx_in1 negb] in HA1, HA0; eapply relay2; [apply HM|apply HA1|apply HA0|auto|cbn; lia|apply HM|apply HA0|apply HA1|auto|cbn; lia]. }
  assert (I2 : spikes_at N (mu_input2 (sx_mn m)) [step_at dt (tb + 1); step_at dt (tb + 1 + iv2)]).
  { destruct p2; cbn [sx_in2 negb] in HB1, HB0; eapply relay2; [apply HM|apply HB1|apply HB0|auto|cbn; lia|apply HM|apply HB0|apply HB1|auto|cbn; lia]. }
  destruct (sg_spk N _ _ _ _ _ _ _ _ _ _ _ _ (sx_sg N _ _ m p1 p2 HM) (HA1 1) (HA0 1) (HB1 1) (HB0 1) ltac:(lia) ltac:(lia)) as (SP & SA & SB & SZ).
  split; [|auto 8].
  constructor; auto; try lia.
  - constructor; auto; try lia.
    + apply HM.
    + eapply arrs_2; [apply HM|exact I1|reflexivity|lia|lia|lia].
    + eapply arrs_2; [apply HM|exact I2|reflexivity|lia|lia|lia].
    + exists (step_at dt (ta + 1) + step_at dt 350)%nat. split; [|lia]. eapply arrs_2; [apply HM|exact I1|reflexivity|lia|lia|lia].
    + exists (step_at dt (tb + 1) + step_at dt 350)%nat. split; [|lia]. eapply arrs_2; [apply HM|exact I2|reflexivity|lia|lia|lia].
  - intros k Hk. pose proof (HA1 350 k Hk) as Y1. pose proof (HA0 350 k Hk) as Y2. pose proof (HB1 350 k Hk) as Y3. pose proof (HB0 350 k Hk) as Y4.
    rewrite cnt_nil in Y2, Y4. rewrite !cnt_cons, cnt_nil in *.
    destruct p1, p2; cbn [sx_in1 sx_in2 negb] in *; lra.
Qed.

