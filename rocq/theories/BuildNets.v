(** What each network constructor creates: its neurons (consecutive, in the order of
    creation) and its synapses. *)
From Coq Require Import Arith ZArith Bool String List Lia Permutation.
From Verif Require Import Num Heapq Elements Networks Build.
Import ListNotations.
Open Scope list_scope.

Section BuildNets.
Context {T : Type} `{Num T}.
Implicit Types w : world T.
Implicit Types enc : encoder T.

Definition wacc_of enc : T := ndiv (nmul cVt ctm) (Tmax enc).
Definition wbar_of enc : T := ndiv (nmul cVt ctm) (Tcod enc).
Lemma go_wacc {A} enc (f : T -> B T A) w : neqb (Tmax enc) nzero = false -> bbind (mk_wacc enc) f w = f (wacc_of enc) w.
Proof. intros E. unfold mk_wacc, bbind, bres, pdiv. rewrite E. reflexivity. Qed.
Lemma go_wbar {A} enc (f : T -> B T A) w : neqb (Tcod enc) nzero = false -> bbind (mk_wacc_bar enc) f w = f (wbar_of enc) w.
Proof. intros E. unfold mk_wacc_bar, bbind, bres, pdiv. rewrite E. reflexivity. Qed.

Ltac go_start :=
  match goal with
  | HI : inv ?w |- context [bbind (new_module ?nm) ?f ?w] =>
      let w1 := fresh "w" in let E := fresh "E" in let H1 := fresh "HA" in
      destruct (go_new w nm f HI) as (w1 & E & H1); rewrite E; clear E; cbv beta
  end.
Ltac go_all := repeat first [go_step | rewrite go_wacc by assumption; cbv beta | rewrite go_wbar by assumption; cbv beta].
Ltac go_fin :=
  match goal with
  | HA : at_ _ _ _ _ [] ?w |- _ =>
      rewrite bret_eq; eexists; eexists; split; [reflexivity|];
      let B1 := fresh in let B2 := fresh in
      destruct (go_end _ _ _ _ _ HA) as [B1 B2]; cbn [app] in B1;
      split; [exact B1|split; [reflexivity|rewrite B2; cbn [List.length]; lia]]
  end.

(** *** ConstantNetwork *)
Definition k_nodes (k : constant_net) := [k_recall k; k_output k].
Definition k_syns enc (value : T) (k : constant_net) : list (synapse T) :=
  [syn (k_recall k) (k_output k) SynV we cTsyn;
   syn (k_recall k) (k_output k) SynV we (nadd cTsyn (nadd (nmul value (Tcod enc)) (Tmin enc)))].
Lemma Constant_built enc v nm w : inv w -> exists k w', ConstantNetwork enc v nm w = Ok (k, w') /\
  built w w' (k_mod k) (k_syns enc v k) /\ k_nodes k = seq (List.length (w_neurons w)) 2 /\
  List.length (w_neurons w') = List.length (w_neurons w) + 2.
Proof. intros I. unfold ConstantNetwork. go_start. go_all. go_fin. Qed.

(** *** SignedConstantNetwork *)
Definition sk_nodes (k : sconstant_net) := [sk_recall k; sk_output_plus k; sk_output_minus k].
Definition sk_tgt (value : T) (k : sconstant_net) := if ngeb value nzero then sk_output_plus k else sk_output_minus k.
Definition sk_syns enc (value : T) (k : sconstant_net) : list (synapse T) :=
  [syn (sk_recall k) (sk_tgt value k) SynV we cTsyn;
   syn (sk_recall k) (sk_tgt value k) SynV we (nadd cTsyn (nadd (nmul (nabs value) (Tcod enc)) (Tmin enc)))].
Lemma SignedConstant_built enc v nm w : inv w -> exists k w', SignedConstantNetwork enc v nm w = Ok (k, w') /\
  built w w' (sk_mod k) (sk_syns enc v k) /\ sk_nodes k = seq (List.length (w_neurons w)) 3 /\
  List.length (w_neurons w') = List.length (w_neurons w) + 3.
Proof.
  intros I. unfold SignedConstantNetwork. go_start. go_all. cbv zeta.
  unfold sk_syns, sk_tgt. destruct (ngeb v nzero) eqn:E; go_all; rewrite bret_eq; eexists; eexists; (split; [reflexivity|]);
  match goal with HA : at_ _ _ _ _ [] _ |- _ => destruct (go_end _ _ _ _ _ HA) as [B1 B2]; cbn [app] in B1 end;
  cbn [sk_recall sk_output_plus sk_output_minus sk_mod];
  (split; [exact B1|split; [reflexivity|rewrite B2; lia]]).
Qed.

(** *** MemoryNetwork *)
Definition mm_nodes (m : memory_net) :=
  [mm_input m; mm_first m; mm_last m; mm_acc m; mm_acc2 m; mm_recall m; mm_ready m; mm_output m].
Definition mm_syns (wacc : T) (m : memory_net) : list (synapse T) :=
  [syn (mm_input m) (mm_first m) SynV we cTsyn;
   syn (mm_input m) (mm_last m) SynV (half we) cTsyn;
   syn (mm_first m) (mm_first m) SynV wi cTsyn;
   syn (mm_first m) (mm_acc m) SynGe wacc cTsyn;
   syn (mm_last m) (mm_acc2 m) SynGe wacc (twice cTsyn);
   syn (mm_acc m) (mm_acc2 m) SynGe (nopp wacc) cTsyn;
   syn (mm_recall m) (mm_acc2 m) SynGe wacc cTsyn;
   syn (mm_recall m) (mm_output m) SynV we (twice cTsyn);
   syn (mm_acc2 m) (mm_output m) SynV we cTsyn;
   syn (mm_acc m) (mm_ready m) SynV we cTsyn].
Lemma Memory_built enc nm w : inv w -> neqb (Tmax enc) nzero = false -> exists m w', MemoryNetwork enc nm w = Ok (m, w') /\
  built w w' (mm_mod m) (mm_syns (wacc_of enc) m) /\ mm_nodes m = seq (List.length (w_neurons w)) 8 /\
  List.length (w_neurons w') = List.length (w_neurons w) + 8.
Proof. intros I HT. unfold MemoryNetwork. go_start. go_all. go_fin. Qed.

(** *** InvertingMemoryNetwork *)
Definition im_nodes (m : invmem_net) := [im_input m; im_first m; im_last m; im_acc m; im_recall m; im_output m].
Definition im_syns enc (m : invmem_net) : list (synapse T) :=
  [syn (im_input m) (im_first m) SynV we cTsyn;
   syn (im_input m) (im_last m) SynV (half we) cTsyn;
   syn (im_first m) (im_first m) SynV wi cTsyn;
   syn (im_first m) (im_acc m) SynGe (wacc_of enc) (nadd cTsyn (Tmin enc));
   syn (im_last m) (im_acc m) SynGe (nopp (wacc_of enc)) cTsyn;
   syn (im_recall m) (im_acc m) SynGe (wacc_of enc) cTsyn;
   syn (im_acc m) (im_output m) SynV we cTsyn;
   syn (im_recall m) (im_output m) SynV we (nadd (twice cTsyn) cTneu)].
Lemma InvMemory_built enc nm w : inv w -> neqb (Tmax enc) nzero = false -> exists m w', InvertingMemoryNetwork enc nm w = Ok (m, w') /\
  built w w' (im_mod m) (im_syns enc m) /\ im_nodes m = seq (List.length (w_neurons w)) 6 /\
  List.length (w_neurons w') = List.length (w_neurons w) + 6.
Proof. intros I HT. unfold InvertingMemoryNetwork. go_start. go_all. go_fin. Qed.

(** *** SignFlipperNetwork *)
Definition sf_nodes (m : flip_net) := [sf_inp_plus m; sf_inp_minus m; sf_outp_plus m; sf_outp_minus m].
Definition sf_syns (m : flip_net) : list (synapse T) :=
  [syn (sf_inp_plus m) (sf_outp_minus m) SynV we cTsyn;
   syn (sf_inp_minus m) (sf_outp_plus m) SynV we cTsyn].
Lemma SignFlipper_built enc nm w : inv w -> neqb (Tmax enc) nzero = false -> neqb (Tcod enc) nzero = false ->
  exists m w', SignFlipperNetwork enc nm w = Ok (m, w') /\
  built w w' (sf_mod m) (sf_syns m) /\ sf_nodes m = seq (List.length (w_neurons w)) 4 /\
  List.length (w_neurons w') = List.length (w_neurons w) + 4.
Proof. intros I HT HC. unfold SignFlipperNetwork. go_start. go_all. go_fin. Qed.

(** *** SubtractorNetwork *)
Definition sb_nodes (m : sub_net) := [sb_input1 m; sb_input2 m; sb_sync1 m; sb_sync2 m; sb_inb1 m; sb_inb2 m;
  sb_output_plus m; sb_output_minus m; sb_zero m].
Definition sb_d3 : T := nadd (thrice cTsyn) (twice cTneu).
Definition sb_syns enc (m : sub_net) : list (synapse T) :=
  [syn (sb_input1 m) (sb_sync1 m) SynV (half we) cTsyn;
   syn (sb_input2 m) (sb_sync2 m) SynV (half we) cTsyn;
   syn (sb_sync1 m) (sb_inb1 m) SynV we cTsyn;
   syn (sb_sync2 m) (sb_inb2 m) SynV we cTsyn;
   syn (sb_sync1 m) (sb_inb2 m) SynV wi cTsyn;
   syn (sb_sync2 m) (sb_inb1 m) SynV wi cTsyn;
   syn (sb_sync1 m) (sb_output_plus m) SynV we (nadd (Tmin enc) sb_d3);
   syn (sb_sync2 m) (sb_output_minus m) SynV we (nadd (Tmin enc) sb_d3);
   syn (sb_sync2 m) (sb_output_plus m) SynV we sb_d3;
   syn (sb_sync1 m) (sb_output_minus m) SynV we sb_d3;
   syn (sb_inb2 m) (sb_output_minus m) SynV (twice wi) cTsyn;
   syn (sb_inb1 m) (sb_output_plus m) SynV (twice wi) cTsyn;
   syn (sb_output_plus m) (sb_inb2 m) SynV (half we) cTsyn;
   syn (sb_output_minus m) (sb_inb1 m) SynV (half we) cTsyn;
   syn (sb_zero m) (sb_zero m) SynV we cTneu;
   syn (sb_sync1 m) (sb_zero m) SynV (half wi) (twice cTneu);
   syn (sb_sync2 m) (sb_zero m) SynV (half wi) (twice cTneu);
   syn (sb_sync1 m) (sb_zero m) SynV (half we) cTneu;
   syn (sb_sync2 m) (sb_zero m) SynV (half we) cTneu;
   syn (sb_zero m) (sb_output_minus m) SynV (twice wi) cTneu;
   syn (sb_zero m) (sb_inb2 m) SynV wi cTneu].
Lemma Subtractor_built enc nm w : inv w -> exists m w', SubtractorNetwork enc nm w = Ok (m, w') /\
  built w w' (sb_mod m) (sb_syns enc m) /\ sb_nodes m = seq (List.length (w_neurons w)) 9 /\
  List.length (w_neurons w') = List.length (w_neurons w) + 9.
Proof. intros I. unfold SubtractorNetwork. go_start. go_all. cbv zeta. go_all. go_fin. Qed.

(** *** ScalarMultiplierNetwork *)
Definition sc_nodes (m : smul_net) := [sc_input m; sc_first m; sc_last m; sc_acc m; sc_acc2 m; sc_output m].
Definition sc_syns enc (factor : T) (m : smul_net) : list (synapse T) :=
  let wl := nmul factor (wacc_of enc) in
  [syn (sc_input m) (sc_first m) SynV we cTsyn;
   syn (sc_input m) (sc_last m) SynV (half we) cTsyn;
   syn (sc_first m) (sc_first m) SynV wi cTsyn;
   syn (sc_first m) (sc_acc m) SynGe wl (nadd cTsyn (Tmin enc));
   syn (sc_last m) (sc_acc2 m) SynGe wl (twice cTsyn);
   syn (sc_acc m) (sc_acc2 m) SynGe (nopp wl) cTsyn;
   syn (sc_acc2 m) (sc_output m) SynV we (nadd cTsyn (Tmin enc));
   syn (sc_acc m) (sc_acc2 m) SynGe (wacc_of enc) cTsyn;
   syn (sc_acc m) (sc_output m) SynV we (twice cTsyn)].
Lemma ScalarMul_built factor enc nm w : inv w -> neqb (Tmax enc) nzero = false ->
  exists m w', ScalarMultiplierNetwork factor enc nm w = Ok (m, w') /\
  built w w' (sc_mod m) (sc_syns enc factor m) /\ sc_nodes m = seq (List.length (w_neurons w)) 6 /\
  List.length (w_neurons w') = List.length (w_neurons w) + 6.
Proof. intros I HT. unfold ScalarMultiplierNetwork. go_start. go_all. cbv zeta. go_all. go_fin. Qed.

(** *** ExponentialNetwork, LogNetwork *)
Definition ex_nodes (m : exp_net) := [ex_input m; ex_first m; ex_last m; ex_acc m; ex_output m].
Definition ex_syns enc (m : exp_net) : list (synapse T) :=
  [syn (ex_input m) (ex_first m) SynV we cTsyn;
   syn (ex_input m) (ex_last m) SynV (half we) cTsyn;
   syn (ex_first m) (ex_first m) SynV wi cTsyn;
   syn (ex_first m) (ex_acc m) SynGf gmult (nadd cTsyn (Tmin enc));
   syn (ex_first m) (ex_acc m) SynGate (nofZ 1) (nadd cTsyn (Tmin enc));
   syn (ex_last m) (ex_acc m) SynGate (nofZ (-1)) cTsyn;
   syn (ex_last m) (ex_acc m) SynGe (wbar_of enc) cTsyn;
   syn (ex_acc m) (ex_output m) SynV we (nadd cTsyn (Tmin enc));
   syn (ex_last m) (ex_output m) SynV we (twice cTsyn)].
Lemma Exp_built enc nm w : inv w -> neqb (Tcod enc) nzero = false -> exists m w', ExponentialNetwork enc nm w = Ok (m, w') /\
  built w w' (ex_mod m) (ex_syns enc m) /\ ex_nodes m = seq (List.length (w_neurons w)) 5 /\
  List.length (w_neurons w') = List.length (w_neurons w) + 5.
Proof. intros I HT. unfold ExponentialNetwork. go_start. go_all. go_fin. Qed.
Definition lg_nodes (m : log_net) := [lg_input m; lg_first m; lg_last m; lg_acc m; lg_output m].
Definition lg_syns enc (m : log_net) : list (synapse T) :=
  [syn (lg_input m) (lg_first m) SynV we cTsyn;
   syn (lg_input m) (lg_last m) SynV (half we) cTsyn;
   syn (lg_first m) (lg_first m) SynV wi cTsyn;
   syn (lg_first m) (lg_acc m) SynGe (wbar_of enc) (nadd cTsyn (Tmin enc));
   syn (lg_last m) (lg_acc m) SynGate (nofZ 1) cTsyn;
   syn (lg_last m) (lg_acc m) SynGe (nopp (wbar_of enc)) cTsyn;
   syn (lg_last m) (lg_acc m) SynGf gmult cTsyn;
   syn (lg_acc m) (lg_output m) SynV we (nadd cTsyn (Tmin enc));
   syn (lg_last m) (lg_output m) SynV we (twice cTsyn)].
Lemma Log_built enc nm w : inv w -> neqb (Tcod enc) nzero = false -> exists m w', LogNetwork enc nm w = Ok (m, w') /\
  built w w' (lg_mod m) (lg_syns enc m) /\ lg_nodes m = seq (List.length (w_neurons w)) 5 /\
  List.length (w_neurons w') = List.length (w_neurons w) + 5.
Proof. intros I HT. unfold LogNetwork. go_start. go_all. go_fin. Qed.

(** *** MultiplierNetwork *)
Definition mu_nodes (m : mul_net) := [mu_input1 m; mu_input2 m; mu_first1 m; mu_last1 m; mu_acc_log1 m; mu_zero m;
  mu_first2 m; mu_last2 m; mu_acc_log2 m; mu_sync m; mu_acc_exp m; mu_output m].
Definition mu_syns enc (m : mul_net) : list (synapse T) :=
  let dTm := nadd cTsyn (Tmin enc) in
  [syn (mu_input1 m) (mu_first1 m) SynV we cTsyn;
   syn (mu_input1 m) (mu_last1 m) SynV (half we) cTsyn;
   syn (mu_first1 m) (mu_first1 m) SynV wi cTsyn;
   syn (mu_first1 m) (mu_acc_log1 m) SynGe (wbar_of enc) dTm;
   syn (mu_last1 m) (mu_acc_log1 m) SynGe (nopp (wbar_of enc)) cTsyn;
   syn (mu_last1 m) (mu_sync m) SynV (half we) cTsyn;
   syn (mu_input2 m) (mu_first2 m) SynV we cTsyn;
   syn (mu_input2 m) (mu_last2 m) SynV (half we) cTsyn;
   syn (mu_first2 m) (mu_first2 m) SynV wi cTsyn;
   syn (mu_first2 m) (mu_acc_log2 m) SynGe (wbar_of enc) dTm;
   syn (mu_last2 m) (mu_acc_log2 m) SynGe (nopp (wbar_of enc)) cTsyn;
   syn (mu_last2 m) (mu_sync m) SynV (half we) cTsyn;
   syn (mu_acc_log1 m) (mu_acc_log2 m) SynGf gmult cTsyn;
   syn (mu_acc_log1 m) (mu_acc_log2 m) SynGate (nofZ 1) cTsyn;
   syn (mu_acc_log2 m) (mu_acc_exp m) SynGate (nofZ (-1)) cTsyn;
   syn (mu_acc_log2 m) (mu_acc_exp m) SynGe (wbar_of enc) cTsyn;
   syn (mu_acc_log2 m) (mu_output m) SynV we (twice cTsyn);
   syn (mu_sync m) (mu_acc_log1 m) SynGf gmult cTsyn;
   syn (mu_sync m) (mu_acc_log1 m) SynGate (nofZ 1) cTsyn;
   syn (mu_sync m) (mu_acc_exp m) SynGate (nofZ 1) (thrice cTsyn);
   syn (mu_sync m) (mu_acc_exp m) SynGf gmult (thrice cTsyn);
   syn (mu_acc_exp m) (mu_output m) SynV we (nadd (Tmin enc) cTsyn);
   syn (mu_input1 m) (mu_zero m) SynV (ndiv cVt (nofZ 4)) max_prop_delay;
   syn (mu_input2 m) (mu_zero m) SynV (ndiv cVt (nofZ 4)) max_prop_delay;
   syn (mu_output m) (mu_zero m) SynV (ndiv (nopp cVt) (nofZ 2)) cTsyn;
   syn (mu_zero m) (mu_output m) SynV cVt cTsyn;
   syn (mu_zero m) (mu_output m) SynV cVt dTm].
Lemma Multiplier_built enc nm w : inv w -> neqb (Tcod enc) nzero = false -> exists m w', MultiplierNetwork enc nm w = Ok (m, w') /\
  built w w' (mu_mod m) (mu_syns enc m) /\ mu_nodes m = seq (List.length (w_neurons w)) 12 /\
  List.length (w_neurons w') = List.length (w_neurons w) + 12.
Proof. intros I HT. unfold MultiplierNetwork. go_start. go_all. cbv zeta. go_all. go_fin. Qed.

(** *** LogAndSyncNetwork *)
Definition ls_nodes (m : logsync_net) := [ls_input1 m; ls_first1 m; ls_last1 m; ls_acc1 m; ls_output1 m;
  ls_input2 m; ls_first2 m; ls_last2 m; ls_acc2 m; ls_output2 m; ls_sync m].
Definition ls_syns enc (m : logsync_net) : list (synapse T) :=
  let dTm := nadd cTsyn (Tmin enc) in
  [syn (ls_input1 m) (ls_first1 m) SynV we cTsyn;
   syn (ls_first1 m) (ls_first1 m) SynV wi cTsyn;
   syn (ls_input1 m) (ls_last1 m) SynV (half we) cTsyn;
   syn (ls_first1 m) (ls_acc1 m) SynGe (wbar_of enc) dTm;
   syn (ls_last1 m) (ls_acc1 m) SynGe (nopp (wbar_of enc)) cTsyn;
   syn (ls_input2 m) (ls_first2 m) SynV we cTsyn;
   syn (ls_first2 m) (ls_first2 m) SynV wi cTsyn;
   syn (ls_input2 m) (ls_last2 m) SynV (half we) cTsyn;
   syn (ls_first2 m) (ls_acc2 m) SynGe (wbar_of enc) dTm;
   syn (ls_last2 m) (ls_acc2 m) SynGe (nopp (wbar_of enc)) cTsyn;
   syn (ls_last1 m) (ls_sync m) SynV (half we) cTsyn;
   syn (ls_last2 m) (ls_sync m) SynV (half we) cTsyn;
   syn (ls_sync m) (ls_output1 m) SynV we (twice cTsyn);
   syn (ls_sync m) (ls_output2 m) SynV we (twice cTsyn);
   syn (ls_sync m) (ls_acc1 m) SynGf gmult cTsyn;
   syn (ls_sync m) (ls_acc1 m) SynGate (nofZ 1) cTsyn;
   syn (ls_acc1 m) (ls_output1 m) SynV we dTm;
   syn (ls_sync m) (ls_acc2 m) SynGf gmult cTsyn;
   syn (ls_sync m) (ls_acc2 m) SynGate (nofZ 1) cTsyn;
   syn (ls_acc2 m) (ls_output2 m) SynV we dTm].
Lemma LogSync_built enc nm w : inv w -> neqb (Tmax enc) nzero = false -> neqb (Tcod enc) nzero = false ->
  exists m w', LogAndSyncNetwork enc nm w = Ok (m, w') /\
  built w w' (ls_mod m) (ls_syns enc m) /\ ls_nodes m = seq (List.length (w_neurons w)) 11 /\
  List.length (w_neurons w') = List.length (w_neurons w) + 11.
Proof. intros I HT HC. unfold LogAndSyncNetwork. go_start. go_all. cbv zeta. go_all. go_fin. Qed.

(** *** InjectorNetwork *)
Definition ij_nodes (m : inj_net) := [ij_plus m; ij_minus m].
Lemma Injector_built enc nm w : inv w -> exists m w', InjectorNetwork enc nm w = Ok (m, w') /\
  built w w' (ij_mod m) [] /\ ij_nodes m = seq (List.length (w_neurons w)) 2 /\
  List.length (w_neurons w') = List.length (w_neurons w) + 2.
Proof. intros I. unfold InjectorNetwork. go_start. go_all. go_fin. Qed.

(** ** Networks with submodules *)
Ltac inj_nodes HN := cbn [seq] in HN; injection HN; intros; clear HN.
(** run the constructor of a submodule described by a [_built] lemma *)
Ltac go_sub lem :=
  match goal with
  | HA : at_ _ _ _ _ _ ?w |- context [bbind _ ?f ?w] =>
      let m := fresh "sub" in let w1 := fresh "w" in let E := fresh "E" in let HB := fresh "HB" in
      let HN := fresh "HN" in let HL := fresh "HL" in let HA' := fresh "HA" in let Hlt := fresh "Hlt" in let E' := fresh "E" in
      destruct (lem w (a_inv _ _ _ _ _ _ HA)) as (m & w1 & E & HB & HN & HL);
      rewrite (a_nrn _ _ _ _ _ _ HA) in HN, HL;
      destruct (go_build _ _ _ _ _ _ _ _ _ _ _ _ f HA E HB HL) as (E' & HA' & Hlt);
      rewrite E'; clear E' E HA HL HB; cbv beta; inj_nodes HN
  end.
Ltac go_att :=
  match goal with
  | HA : at_ _ _ _ _ ?P ?w |- context [bbind (add_subnetwork _ ?m) ?f ?w] =>
      let w1 := fresh "w" in let E := fresh "E" in let H1 := fresh "HA" in
      first [ destruct (go_attach _ _ _ _ [] m _ _ f HA) as (w1 & E & H1)
            | destruct (go_attach _ _ _ _ _ m [] _ f HA) as (w1 & E & H1) ];
      rewrite E; clear E HA; cbn [app] in H1; cbv beta
  end.

(** *** SignedMemoryNetwork *)
Definition sm_own (m : smem_net) := [sm_input_pos m; sm_input_neg m; sm_ready_pos m; sm_ready_neg m; sm_recall m;
  sm_output_pos m; sm_output_neg m; sm_ready m].
Definition sm_syns enc (m : smem_net) : list (synapse T) :=
  let mem := sm_mem m in
  mm_syns (wacc_of enc) mem ++
  [syn (sm_input_pos m) (sm_ready_pos m) SynV we cTsyn;
   syn (sm_input_neg m) (sm_ready_neg m) SynV we cTsyn;
   syn (sm_input_pos m) (sm_ready_neg m) SynV (quarter we) cTsyn;
   syn (sm_input_neg m) (sm_ready_pos m) SynV (quarter we) cTsyn;
   syn (sm_ready_pos m) (sm_ready_neg m) SynV (half wi) cTsyn;
   syn (sm_ready_neg m) (sm_ready_pos m) SynV (half wi) cTsyn;
   syn (sm_recall m) (sm_ready_pos m) SynV (half we) cTsyn;
   syn (sm_recall m) (sm_ready_neg m) SynV (half we) cTsyn;
   syn (sm_input_pos m) (mm_input mem) SynV we cTsyn;
   syn (sm_input_neg m) (mm_input mem) SynV we cTsyn;
   syn (sm_recall m) (mm_recall mem) SynV we cTsyn;
   syn (mm_output mem) (sm_output_pos m) SynV we cTsyn;
   syn (mm_output mem) (sm_output_neg m) SynV we cTsyn;
   syn (sm_ready_pos m) (sm_output_neg m) SynV (twice wi) cTsyn;
   syn (sm_ready_neg m) (sm_output_pos m) SynV (twice wi) cTsyn;
   syn (mm_output mem) (sm_ready m) SynV we cTsyn].
Lemma SignedMemory_built enc nm w : inv w -> neqb (Tmax enc) nzero = false -> exists m w', SignedMemoryNetwork enc nm w = Ok (m, w') /\
  built w w' (sm_mod m) (sm_syns enc m) /\
  (sm_own m ++ mm_nodes (sm_mem m) = seq (List.length (w_neurons w)) 16 /\
  List.length (w_neurons w') = List.length (w_neurons w) + 16).
Proof.
  intros I HT. unfold SignedMemoryNetwork. go_start. go_all.
  go_sub (fun w HI => Memory_built enc None w HI HT). go_att. go_all.
  rewrite bret_eq. eexists. eexists. split; [reflexivity|].
  match goal with HA : at_ _ _ _ _ [] _ |- _ => destruct (go_end _ _ _ _ _ HA) as [B1 B2] end.
  rewrite <- !app_assoc in B1. cbn [app] in B1. unfold sm_syns. cbn [sm_mod sm_mem sm_input_pos sm_input_neg sm_ready_pos sm_ready_neg sm_recall sm_output_pos sm_output_neg sm_ready].
  split; [exact B1|]. split; [|rewrite B2; lia].
  unfold sm_own, mm_nodes. cbn [sm_mod sm_mem sm_input_pos sm_input_neg sm_ready_pos sm_ready_neg sm_recall sm_output_pos sm_output_neg sm_ready app seq].
  repeat f_equal; assumption.
Qed.

(** *** DivNetwork *)
Definition dv_syns enc (m : div_net) : list (synapse T) :=
  ls_syns enc (dv_ls m) ++ sb_syns enc (dv_sub m) ++ ex_syns enc (dv_exp m) ++
  [syn (ls_output1 (dv_ls m)) (sb_input1 (dv_sub m)) SynV we cTsyn;
   syn (ls_output2 (dv_ls m)) (sb_input2 (dv_sub m)) SynV we cTsyn;
   syn (sb_output_plus (dv_sub m)) (ex_input (dv_exp m)) SynV we cTsyn].
Ltac go_fin_sub :=
  rewrite bret_eq; eexists; eexists; split; [reflexivity|];
  match goal with HA : at_ _ _ _ _ [] _ |- _ =>
    let B1 := fresh "B1" in let B2 := fresh "B2" in
    destruct (go_end _ _ _ _ _ HA) as [B1 B2]; rewrite <- ?app_assoc in B1; cbn [app] in B1;
    split; [exact B1|]; repeat split; auto; try (rewrite B2; lia) end.
Lemma Div_built enc nm w : inv w -> neqb (Tmax enc) nzero = false -> neqb (Tcod enc) nzero = false ->
  exists m w', DivNetwork enc nm w = Ok (m, w') /\
  built w w' (dv_mod m) (dv_syns enc m) /\
  (ls_nodes (dv_ls m) ++ sb_nodes (dv_sub m) ++ ex_nodes (dv_exp m) = seq (List.length (w_neurons w)) 25 /\
   dv_input1 m = ls_input1 (dv_ls m) /\ dv_input2 m = ls_input2 (dv_ls m) /\ dv_output m = ex_output (dv_exp m) /\
   List.length (w_neurons w') = List.length (w_neurons w) + 25).
Proof.
  intros I HT HC. unfold DivNetwork. go_start. go_all.
  go_sub (fun w HI => LogSync_built enc (Some "log_and_sync_net"%string) w HI HT HC).
  go_sub (fun w HI => Subtractor_built enc (Some "sub_net"%string) w HI).
  go_sub (fun w HI => Exp_built enc (Some "exp_net"%string) w HI HC).
  go_att. go_att. go_att. go_all. go_fin_sub.
  unfold ls_nodes, sb_nodes, ex_nodes; cbn [dv_ls dv_sub dv_exp app seq]; repeat f_equal; lia.
Qed.

(** *** SignedMultiplierNetwork, SignedMultiplierNormNetwork *)
Definition sign_syns (i1p i1m i2p i2m s1 s2 s3 s4 : nat) : list (synapse T) :=
  [syn i1p s1 SynV (quarter we) cTsyn; syn i1p s3 SynV (quarter we) cTsyn;
   syn i1m s2 SynV (quarter we) cTsyn; syn i1m s4 SynV (quarter we) cTsyn;
   syn i2p s1 SynV (quarter we) cTsyn; syn i2p s2 SynV (quarter we) cTsyn;
   syn i2m s3 SynV (quarter we) cTsyn; syn i2m s4 SynV (quarter we) cTsyn;
   syn s1 s2 SynV (half wi) cTsyn; syn s1 s3 SynV (half wi) cTsyn;
   syn s2 s1 SynV (half wi) cTsyn; syn s2 s4 SynV (half wi) cTsyn;
   syn s3 s1 SynV (half wi) cTsyn; syn s3 s4 SynV (half wi) cTsyn;
   syn s4 s2 SynV (half wi) cTsyn; syn s4 s3 SynV (half wi) cTsyn].
Definition sout_syns (s1 s2 s3 s4 op om : nat) : list (synapse T) :=
  [syn s1 om SynV (twice wi) cTsyn; syn s2 op SynV (twice wi) cTsyn;
   syn s3 op SynV (twice wi) cTsyn; syn s4 om SynV (twice wi) cTsyn].
Lemma go_signs {A} w0 r L b P w i1p i1m i2p i2m s1 s2 s3 s4 (f : unit -> B T A) : at_ w0 r L b P w ->
  i1p < b -> i1m < b -> i2p < b -> i2m < b -> s1 < b -> s2 < b -> s3 < b -> s4 < b ->
  exists w', bbind (connect_signs i1p i1m i2p i2m s1 s2 s3 s4) f w = f tt w' /\
    at_ w0 r (L ++ sign_syns i1p i1m i2p i2m s1 s2 s3 s4) b P w'.
Proof.
  intros HA ? ? ? ? ? ? ? ?.
  assert (forall g : B T A, exists w', connect_signs i1p i1m i2p i2m s1 s2 s3 s4 w = Ok (tt, w') /\
    at_ w0 r (L ++ sign_syns i1p i1m i2p i2m s1 s2 s3 s4) b P w') as HX.
  { intros _. unfold connect_signs. go_all.
    match goal with HA : at_ _ _ _ _ _ ?w |- context [connect ?a ?c ?ty ?x ?d ?w] =>
      destruct (go_conn _ _ _ _ _ _ a c ty x d bret HA) as (wz & Ez & Hz); [lia|lia|discriminate|] end.
    exists wz. rewrite <- ?app_assoc in Hz. cbn [app] in Hz. split; auto. }
  destruct (HX (f tt)) as (wz & Ez & Hz). exists wz. split; auto. apply bbind_ok; auto.
Qed.
Lemma go_souts {A} w0 r L b P w s1 s2 s3 s4 op om (f : unit -> B T A) : at_ w0 r L b P w ->
  s1 < b -> s2 < b -> s3 < b -> s4 < b -> op < b -> om < b ->
  exists w', bbind (connect_sign_outputs s1 s2 s3 s4 op om) f w = f tt w' /\
    at_ w0 r (L ++ sout_syns s1 s2 s3 s4 op om) b P w'.
Proof.
  intros HA ? ? ? ? ? ?.
  assert (forall g : B T A, exists w', connect_sign_outputs s1 s2 s3 s4 op om w = Ok (tt, w') /\
    at_ w0 r (L ++ sout_syns s1 s2 s3 s4 op om) b P w') as HX.
  { intros _. unfold connect_sign_outputs. go_all.
    match goal with HA : at_ _ _ _ _ _ ?w |- context [connect ?a ?c ?ty ?x ?d ?w] =>
      destruct (go_conn _ _ _ _ _ _ a c ty x d bret HA) as (wz & Ez & Hz); [lia|lia|discriminate|] end.
    exists wz. rewrite <- ?app_assoc in Hz. cbn [app] in Hz. split; auto. }
  destruct (HX (f tt)) as (wz & Ez & Hz). exists wz. split; auto. apply bbind_ok; auto.
Qed.
Ltac go_sg :=
  match goal with
  | HA : at_ _ _ _ _ _ ?w |- context [bbind (connect_signs ?a ?b ?c ?d ?e ?g ?h ?i) ?f ?w] =>
      let w1 := fresh "w" in let E := fresh "E" in let H1 := fresh "HA" in
      destruct (go_signs _ _ _ _ _ _ a b c d e g h i f HA) as (w1 & E & H1); [lia..|]; rewrite E; clear E HA; cbv beta
  | HA : at_ _ _ _ _ _ ?w |- context [bbind (connect_sign_outputs ?a ?b ?c ?d ?e ?g) ?f ?w] =>
      let w1 := fresh "w" in let E := fresh "E" in let H1 := fresh "HA" in
      destruct (go_souts _ _ _ _ _ _ a b c d e g f HA) as (w1 & E & H1); [lia..|]; rewrite E; clear E HA; cbv beta
  end.

Definition sx_own (m : smult_net) := [sx_input1_plus m; sx_input1_minus m; sx_input2_plus m; sx_input2_minus m;
  sx_output_plus m; sx_output_minus m; sx_zero m; sx_sign1 m; sx_sign2 m; sx_sign3 m; sx_sign4 m].
Definition sx_syns enc (m : smult_net) : list (synapse T) :=
  mu_syns enc (sx_mn m) ++
  [syn (sx_input1_plus m) (mu_input1 (sx_mn m)) SynV we cTsyn;
   syn (sx_input1_minus m) (mu_input1 (sx_mn m)) SynV we cTsyn;
   syn (sx_input2_plus m) (mu_input2 (sx_mn m)) SynV we cTsyn;
   syn (sx_input2_minus m) (mu_input2 (sx_mn m)) SynV we cTsyn] ++
  sign_syns (sx_input1_plus m) (sx_input1_minus m) (sx_input2_plus m) (sx_input2_minus m)
            (sx_sign1 m) (sx_sign2 m) (sx_sign3 m) (sx_sign4 m) ++
  [syn (mu_output (sx_mn m)) (sx_output_plus m) SynV we cTsyn;
   syn (mu_output (sx_mn m)) (sx_output_minus m) SynV we cTsyn] ++
  sout_syns (sx_sign1 m) (sx_sign2 m) (sx_sign3 m) (sx_sign4 m) (sx_output_plus m) (sx_output_minus m) ++
  [syn (sx_input1_plus m) (sx_zero m) SynV (ndiv cVt (nofZ 4)) max_prop_delay;
   syn (sx_input1_minus m) (sx_zero m) SynV (ndiv cVt (nofZ 4)) max_prop_delay;
   syn (sx_input2_plus m) (sx_zero m) SynV (ndiv cVt (nofZ 4)) max_prop_delay;
   syn (sx_input2_minus m) (sx_zero m) SynV (ndiv cVt (nofZ 4)) max_prop_delay;
   syn (sx_output_plus m) (sx_zero m) SynV (ndiv (nopp cVt) (nofZ 2)) cTsyn;
   syn (sx_output_minus m) (sx_zero m) SynV (ndiv (nopp cVt) (nofZ 2)) cTsyn;
   syn (sx_zero m) (sx_output_plus m) SynV cVt cTsyn;
   syn (sx_zero m) (sx_output_plus m) SynV cVt (nadd cTsyn (Tmin enc))].
Lemma SignedMultiplier_built enc nm w : inv w -> neqb (Tcod enc) nzero = false -> exists m w', SignedMultiplierNetwork enc nm w = Ok (m, w') /\
  built w w' (sx_mod m) (sx_syns enc m) /\
  (mu_nodes (sx_mn m) ++ sx_own m = seq (List.length (w_neurons w)) 23 /\
  List.length (w_neurons w') = List.length (w_neurons w) + 23).
Proof.
  intros I HC. unfold SignedMultiplierNetwork. go_start. go_all.
  go_sub (fun w HI => Multiplier_built enc (Some "mul_net"%string) w HI HC). go_att. go_all. go_sg. go_all. go_sg. go_all.
  go_fin_sub.
  unfold mu_nodes, sx_own; cbn [sx_mn sx_input1_plus sx_input1_minus sx_input2_plus sx_input2_minus sx_output_plus
    sx_output_minus sx_zero sx_sign1 sx_sign2 sx_sign3 sx_sign4 app seq]; repeat f_equal; lia.
Qed.

Definition sn_own (m : smultn_net) := [sn_input1_plus m; sn_input1_minus m; sn_input2_plus m; sn_input2_minus m;
  sn_output_plus m; sn_output_minus m; sn_sign1 m; sn_sign2 m; sn_sign3 m; sn_sign4 m].
Definition sn_syns enc (factor : T) (m : smultn_net) : list (synapse T) :=
  mu_syns enc (sn_mn m) ++ sc_syns enc factor (sn_scmn m) ++
  [syn (sn_input1_plus m) (mu_input1 (sn_mn m)) SynV we cTsyn;
   syn (sn_input1_minus m) (mu_input1 (sn_mn m)) SynV we cTsyn;
   syn (sn_input2_plus m) (mu_input2 (sn_mn m)) SynV we cTsyn;
   syn (sn_input2_minus m) (mu_input2 (sn_mn m)) SynV we cTsyn] ++
  sign_syns (sn_input1_plus m) (sn_input1_minus m) (sn_input2_plus m) (sn_input2_minus m)
            (sn_sign1 m) (sn_sign2 m) (sn_sign3 m) (sn_sign4 m) ++
  [syn (mu_output (sn_mn m)) (sc_input (sn_scmn m)) SynV we cTsyn;
   syn (sc_output (sn_scmn m)) (sn_output_plus m) SynV we cTsyn;
   syn (sc_output (sn_scmn m)) (sn_output_minus m) SynV we cTsyn] ++
  sout_syns (sn_sign1 m) (sn_sign2 m) (sn_sign3 m) (sn_sign4 m) (sn_output_plus m) (sn_output_minus m).
Lemma SignedMultNorm_built enc factor nm w : inv w -> neqb (Tmax enc) nzero = false -> neqb (Tcod enc) nzero = false ->
  exists m w', SignedMultiplierNormNetwork enc factor nm w = Ok (m, w') /\
  built w w' (sn_mod m) (sn_syns enc factor m) /\
  (mu_nodes (sn_mn m) ++ sc_nodes (sn_scmn m) ++ sn_own m = seq (List.length (w_neurons w)) 28 /\
  List.length (w_neurons w') = List.length (w_neurons w) + 28).
Proof.
  intros I HT HC. unfold SignedMultiplierNormNetwork. go_start. go_all.
  go_sub (fun w HI => Multiplier_built enc (Some "mul_net"%string) w HI HC). go_att.
  go_sub (fun w HI => ScalarMul_built factor enc (Some "scalar_mul"%string) w HI HT). go_att.
  go_all. go_sg. go_all. go_sg. go_all.
  go_fin_sub.
  unfold mu_nodes, sc_nodes, sn_own; cbn [sn_mn sn_scmn sn_input1_plus sn_input1_minus sn_input2_plus sn_input2_minus sn_output_plus
    sn_output_minus sn_sign1 sn_sign2 sn_sign3 sn_sign4 app seq]; repeat f_equal; lia.
Qed.

(** *** SynchronizerNetwork: one cell (input, output, memory) per channel *)
Definition cell : Type := nat * nat * memory_net.
Definition c_in (c : cell) := fst (fst c).
Definition c_out (c : cell) := snd (fst c).
Definition c_mem (c : cell) := snd c.
Definition sync_w (N : nat) : T := nadd (ndiv we (nofZ (Z.of_nat N))) (nlit 1 10000).
Definition cell_syns enc (N sync : nat) (c : cell) : list (synapse T) :=
  mm_syns (wacc_of enc) (c_mem c) ++
  [syn (c_in c) (mm_input (c_mem c)) SynV we cTsyn;
   syn (mm_output (c_mem c)) (c_out c) SynV we cTsyn;
   syn (mm_ready (c_mem c)) sync SynV (sync_w N) cTsyn;
   syn sync (mm_recall (c_mem c)) SynV we cTsyn].
Fixpoint cells_at (b : nat) (cs : list cell) : Prop :=
  match cs with
  | [] => True
  | c :: cs' => c_in c = b /\ c_out c = S b /\ mm_nodes (c_mem c) = seq (2 + b) 8 /\ cells_at (10 + b) cs'
  end.
Lemma cells_at_app cs cs' : forall b, cells_at b cs -> cells_at (b + 10 * List.length cs) cs' -> cells_at b (cs ++ cs').
Proof.
  induction cs as [|c cs IH]; intros b H1 H2; cbn [app List.length cells_at] in *.
  - rewrite Nat.mul_0_r, Nat.add_0_r in H2. auto.
  - destruct H1 as (? & ? & ? & ?). repeat split; auto. apply IH; auto.
    replace (10 + b + 10 * List.length cs) with (b + 10 * S (List.length cs)) by lia. auto.
Qed.
Lemma sync_loop enc N r sync w0 : neqb (Tmax enc) nzero = false -> forall l ins outs mems L b w,
  at_ w0 r L b [] w -> sync < b ->
  exists cs w', bfold (sync_iter enc N r sync) l (ins, outs, mems) w =
      Ok ((ins ++ map c_in cs, outs ++ map c_out cs, mems ++ map c_mem cs), w') /\
    at_ w0 r (L ++ flat_map (cell_syns enc N sync) cs) (b + 10 * List.length l) [] w' /\
    cells_at b cs /\ List.length cs = List.length l.
Proof.
  intros HT. induction l as [|i l IH]; intros ins outs mems L b w HA Hs.
  - exists [], w. cbn [map flat_map List.length bfold cells_at]. rewrite !app_nil_r, Nat.mul_0_r, Nat.add_0_r. auto.
  - cbn [bfold]. 
    assert (HI : exists c w', sync_iter enc N r sync (ins, outs, mems) i w =
        Ok ((ins ++ [c_in c], outs ++ [c_out c], mems ++ [c_mem c]), w') /\
        at_ w0 r (L ++ cell_syns enc N sync c) (b + 10) [] w' /\ c_in c = b /\ c_out c = S b /\ mm_nodes (c_mem c) = seq (2 + b) 8).
    { unfold sync_iter. go_all. go_sub (fun w HI => Memory_built enc (Some ("mem_" ++ str_nat i)%string) w HI HT). go_att. go_all.
      rewrite bret_eq. exists (b, S b, sub). cbn [c_in c_out c_mem fst snd]. eexists. split; [reflexivity|].
      match goal with HA : at_ _ _ _ _ [] _ |- _ => rename HA into HF end.
      rewrite <- !app_assoc in HF. cbn [app] in HF. unfold cell_syns, sync_w. cbn [c_in c_out c_mem fst snd]. rewrite <- ?app_assoc. cbn [app].
      replace (b + 10) with (S (S b) + 8) by lia. split; [exact HF|]. repeat split; auto.
      unfold mm_nodes. cbn [seq Nat.add]. repeat f_equal; lia. }
    destruct HI as (c & w1 & E1 & HA1 & Hc1 & Hc2 & Hc3).
    rewrite (bbind_ok _ _ _ _ _ E1).
    destruct (IH (ins ++ [c_in c]) (outs ++ [c_out c]) (mems ++ [c_mem c]) _ _ _ HA1 ltac:(lia)) as (cs & w2 & E2 & HA2 & HC & HL).
    exists (c :: cs), w2. rewrite E2. rewrite <- !app_assoc in *. cbn [map app flat_map List.length cells_at].
    split; auto. replace (b + 10 * S (List.length l)) with (b + 10 + 10 * List.length l) by lia. split; auto.
    split; [|lia]. repeat split; auto. rewrite (Nat.add_comm 10 b). auto.
Qed.
Definition sy_cells (s : sync_net) : list cell := combine (combine (sy_inputs s) (sy_outputs s)) (sy_mems s).
Definition sy_syns enc (N : nat) (s : sync_net) : list (synapse T) := flat_map (cell_syns enc N (sy_sync s)) (sy_cells s).
Lemma combine_cells (cs : list cell) : combine (combine (map c_in cs) (map c_out cs)) (map c_mem cs) = cs.
Proof. induction cs as [|[[? ?] ?] cs IH]; cbn [map combine]; [auto|rewrite IH; reflexivity]. Qed.
Lemma Synchronizer_built enc N nm w : inv w -> neqb (Tmax enc) nzero = false ->
  exists s w', SynchronizerNetwork enc N nm w = Ok (s, w') /\
  built w w' (sy_mod s) (sy_syns enc N s) /\
  (sy_sync s = List.length (w_neurons w) /\ cells_at (1 + List.length (w_neurons w)) (sy_cells s) /\
   List.length (sy_cells s) = N /\
   sy_inputs s = map c_in (sy_cells s) /\ sy_outputs s = map c_out (sy_cells s) /\ sy_mems s = map c_mem (sy_cells s) /\
   List.length (w_neurons w') = List.length (w_neurons w) + 1 + 10 * N).
Proof.
  intros I HT. unfold SynchronizerNetwork. go_start. go_all.
  match goal with HA : at_ _ _ _ _ [] _ |- _ =>
    destruct (sync_loop enc N _ (List.length (w_neurons w)) w HT (seq 0 N) [] [] [] _ _ _ HA ltac:(lia)) as (cs & w2 & E & HA2 & HC & HL) end.
  rewrite (bbind_ok _ _ _ _ _ E). rewrite bret_eq. eexists. eexists. split; [reflexivity|].
  destruct (go_end _ _ _ _ _ HA2) as [B1 B2]. cbn [app fst snd] in *. unfold sy_syns, sy_cells.
  cbn [sy_inputs sy_outputs sy_mems sy_sync sy_mod]. rewrite combine_cells.
  rewrite seq_length in *. split; [exact B1|]. repeat split; auto. lia.
Qed.

(** *** LinearCombinatorNetwork: one cell of six neurons per input *)
Definition lcell : Type := nat * nat * (nat * nat) * (nat * nat).
Definition li_p (x : lcell) := fst (fst (fst x)).
Definition li_m (x : lcell) := snd (fst (fst x)).
Definition lf_p (x : lcell) := fst (snd (fst x)).
Definition lf_m (x : lcell) := snd (snd (fst x)).
Definition ll_p (x : lcell) := fst (snd x).
Definition ll_m (x : lcell) := snd (snd x).
Definition lcell_syns enc (N sync a1p a1m : nat) (p : T * lcell) : list (synapse T) :=
  let c := fst p in let x := snd p in let a := nabs c in
  let tp := if ngtb c nzero then a1p else a1m in
  let tm := if ngtb c nzero then a1m else a1p in
  [syn (li_p x) (lf_p x) SynV we cTsyn;
   syn (li_p x) (ll_p x) SynV (half we) cTsyn;
   syn (li_m x) (lf_m x) SynV we cTsyn;
   syn (li_m x) (ll_m x) SynV (half we) cTsyn;
   syn (lf_p x) (lf_p x) SynV wi cTsyn;
   syn (lf_m x) (lf_m x) SynV wi cTsyn;
   syn (ll_p x) sync SynV (ndiv we (nofZ (Z.of_nat N))) cTsyn;
   syn (ll_m x) sync SynV (ndiv we (nofZ (Z.of_nat N))) cTsyn;
   syn (lf_p x) tp SynGe (nmul a (wacc_of enc)) (nadd cTsyn (Tmin enc));
   syn (ll_p x) tp SynGe (nmul (nopp a) (wacc_of enc)) cTsyn;
   syn (lf_m x) tm SynGe (nmul a (wacc_of enc)) (nadd cTsyn (Tmin enc));
   syn (ll_m x) tm SynGe (nmul (nopp a) (wacc_of enc)) cTsyn].
Fixpoint lcells_at (b : nat) (xs : list lcell) : Prop :=
  match xs with
  | [] => True
  | x :: xs' => [li_p x; li_m x; lf_p x; lf_m x; ll_p x; ll_m x] = seq b 6 /\ lcells_at (6 + b) xs'
  end.
Lemma lin_loop enc N coeff r sync a1p a1m w0 : forall cs i0 acc L b w,
  at_ w0 r L b [] w -> sync < b -> a1p < b -> a1m < b ->
  (forall j, j < List.length cs -> nth_error coeff (i0 + j) = nth_error cs j) ->
  exists xs w', bfold (lin_iter enc (wacc_of enc) N coeff r sync a1p a1m) (seq i0 (List.length cs)) acc w = Ok (acc ++ xs, w') /\
    at_ w0 r (L ++ flat_map (lcell_syns enc N sync a1p a1m) (combine cs xs)) (b + 6 * List.length cs) [] w' /\
    lcells_at b xs /\ List.length xs = List.length cs.
Proof.
  induction cs as [|c cs IH]; intros i0 acc L b w HA Hs Hp Hm HC.
  - exists [], w. cbn [combine flat_map List.length bfold lcells_at seq]. rewrite !app_nil_r, Nat.mul_0_r, Nat.add_0_r. auto.
  - cbn [bfold seq List.length].
    assert (Ec : nth_error coeff i0 = Some c) by (rewrite <- (Nat.add_0_r i0), HC; cbn; auto; lia).
    assert (HI : exists x w', lin_iter enc (wacc_of enc) N coeff r sync a1p a1m acc i0 w = Ok (acc ++ [x], w') /\
        at_ w0 r (L ++ lcell_syns enc N sync a1p a1m (c, x)) (b + 6) [] w' /\ [li_p x; li_m x; lf_p x; lf_m x; ll_p x; ll_m x] = seq b 6).
    { unfold lin_iter. rewrite Ec. cbv zeta. go_all.
      destruct (ngtb c nzero) eqn:Egt; go_all; rewrite bret_eq; 
      exists (b, S b, (S (S b), S (S (S b))), (S (S (S (S b))), S (S (S (S (S b)))))); eexists; (split; [reflexivity|]);
      match goal with HA : at_ _ _ _ _ [] _ |- _ => rename HA into HF end;
      rewrite <- !app_assoc in HF; cbn [app] in HF; unfold lcell_syns; cbn [li_p li_m lf_p lf_m ll_p ll_m fst snd]; rewrite Egt;
      (replace (b + 6) with (S (S (S (S (S (S b)))))) by lia); (split; [exact HF|reflexivity]). }
    destruct HI as (x & w1 & E1 & HA1 & Hx).
    rewrite (bbind_ok _ _ _ _ _ E1).
    destruct (IH (S i0) (acc ++ [x]) _ _ _ HA1 ltac:(lia) ltac:(lia) ltac:(lia)) as (xs & w2 & E2 & HA2 & HC2 & HL).
    { intros j Hj. specialize (HC (S j) ltac:(cbn; lia)). cbn in HC. rewrite <- HC. f_equal. lia. }
    exists (x :: xs), w2. rewrite E2. rewrite <- !app_assoc in *. cbn [combine app flat_map List.length lcells_at] in *.
    split; auto. replace (b + 6 * S (List.length cs)) with (b + 6 + 6 * List.length cs) by lia. split; auto.
    split; [|lia]. repeat split; auto. rewrite (Nat.add_comm 6 b). auto.
Qed.

Definition lc_own (l : lin_net) := [lc_acc1_plus l; lc_acc1_minus l; lc_acc2_plus l; lc_acc2_minus l; lc_inter_minus l;
  lc_inter_plus l; lc_output_plus l; lc_output_minus l; lc_start l; lc_sync l].
Fixpoint zip6 (a b c d e f : list nat) : list lcell :=
  match a, b, c, d, e, f with
  | a1 :: a, b1 :: b, c1 :: c, d1 :: d, e1 :: e, f1 :: f => (a1, b1, (c1, d1), (e1, f1)) :: zip6 a b c d e f
  | _, _, _, _, _, _ => []
  end.
Definition lc_cells (l : lin_net) : list lcell :=
  zip6 (lc_input_plus l) (lc_input_minus l) (lc_first_plus l) (lc_first_minus l) (lc_last_plus l) (lc_last_minus l).
Lemma zip6_map (xs : list lcell) :
  zip6 (map (fun x => fst (fst (fst x))) xs) (map (fun x => snd (fst (fst x))) xs) (map (fun x => fst (snd (fst x))) xs)
    (map (fun x => snd (snd (fst x))) xs) (map (fun x => fst (snd x)) xs) (map (fun x => snd (snd x)) xs) = xs.
Proof. induction xs as [|[[[? ?] [? ?]] [? ?]] xs IH]; cbn [map zip6]; [auto|rewrite IH; reflexivity]. Qed.
(** the two synchronizer channels *)
Definition lc_ch (l : lin_net) (i : nat) : cell := nth i (sy_cells (lc_sync_net l)) (0, 0, Build_memory_net 0 0 0 0 0 0 0 0 0).
Definition lc_syns enc (N : nat) (cs : list T) (l : lin_net) : list (synapse T) :=
  let sy := lc_sync_net l in let sb := lc_sub_net l in let wacc := wacc_of enc in
  sy_syns enc 2 sy ++ sb_syns enc sb ++
  [syn (c_out (lc_ch l 0)) (sb_input1 sb) SynV we cTsyn;
   syn (c_out (lc_ch l 1)) (sb_input2 sb) SynV we cTsyn;
   syn (sb_output_plus sb) (lc_start l) SynV we cTsyn;
   syn (sb_output_minus sb) (lc_start l) SynV we cTsyn;
   syn (sb_output_plus sb) (lc_output_plus l) SynV we cTsyn;
   syn (sb_output_minus sb) (lc_output_minus l) SynV we cTsyn;
   syn (lc_start l) (lc_start l) SynV wi cTsyn;
   syn (lc_inter_plus l) (c_in (lc_ch l 0)) SynV we cTsyn;
   syn (lc_inter_minus l) (c_in (lc_ch l 1)) SynV we cTsyn;
   syn (lc_sync l) (lc_acc1_plus l) SynGe wacc cTsyn;
   syn (lc_sync l) (lc_acc1_minus l) SynGe wacc cTsyn;
   syn (lc_sync l) (lc_acc2_plus l) SynGe wacc cTsyn;
   syn (lc_sync l) (lc_acc2_minus l) SynGe wacc cTsyn;
   syn (lc_acc1_plus l) (lc_inter_plus l) SynV we cTsyn;
   syn (lc_acc1_minus l) (lc_inter_minus l) SynV we cTsyn;
   syn (lc_acc2_plus l) (lc_inter_plus l) SynV we (nadd cTsyn (Tmin enc));
   syn (lc_acc2_minus l) (lc_inter_minus l) SynV we (nadd cTsyn (Tmin enc))] ++
  flat_map (lcell_syns enc N (lc_sync l) (lc_acc1_plus l) (lc_acc1_minus l)) (combine cs (lc_cells l)).
Lemma LinComb_built enc N coeff nm w : inv w -> neqb (Tmax enc) nzero = false -> N <= List.length coeff ->
  exists l w', LinearCombinatorNetwork enc N coeff nm w = Ok (l, w') /\
  built w w' (lc_mod l) (lc_syns enc N (firstn N coeff) l) /\
  (let b := List.length (w_neurons w) in
   lc_own l = seq b 10 /\ sy_sync (lc_sync_net l) = 10 + b /\ cells_at (11 + b) (sy_cells (lc_sync_net l)) /\
   List.length (sy_cells (lc_sync_net l)) = 2 /\ sb_nodes (lc_sub_net l) = seq (31 + b) 9 /\
   lcells_at (40 + b) (lc_cells l) /\ List.length (lc_cells l) = N /\
   lc_input_plus l = map li_p (lc_cells l) /\ lc_input_minus l = map li_m (lc_cells l) /\
   List.length (w_neurons w') = b + 40 + 6 * N).
Proof.
  intros I HT HN. unfold LinearCombinatorNetwork. go_start. go_all.
  match goal with HA : at_ _ _ _ _ _ ?w1 |- context [bbind (SynchronizerNetwork enc 2 ?nm) ?f _] =>
    destruct (Synchronizer_built enc 2 nm w1 (a_inv _ _ _ _ _ _ HA) HT) as (sy & wS & E & HB & Hs & HC & HCl & Hi & Ho & _ & HL);
    rewrite (a_nrn _ _ _ _ _ _ HA) in Hs, HC, HL;
    destruct (go_build _ _ _ _ _ _ _ _ _ _ _ _ f HA E HB HL) as (E' & HA' & Hlt);
    rewrite E'; clear E' E HA HL HB; cbv beta
  end.
  go_sub (fun w HI => Subtractor_built enc (Some "sub_net"%string) w HI).
  go_att. go_att.
  destruct (sy_cells sy) as [|[[x1 y1] m1] [|[[x2 y2] m2] [|]]] eqn:Ecs; try discriminate. clear HCl.
  cbn [map c_in c_out fst snd] in Hi, Ho.
  pose proof HC as HC'. cbn [cells_at c_in c_out c_mem fst snd] in HC'. destruct HC' as (Q1 & Q2 & _ & Q3 & Q4 & _).
  rewrite Hi, Ho. cbn [nth]. go_all.
  match goal with HA : at_ _ _ _ _ [] _ |- context [bbind (bfold (lin_iter enc _ N coeff ?r ?s ?p ?m) _ _)] =>
    destruct (lin_loop enc N coeff r s p m w (firstn N coeff) 0 [] _ _ _ HA ltac:(lia) ltac:(lia) ltac:(lia)) as (xs & wX & E & HA2 & HX & HXl)
  end.
  { intros j Hj. rewrite firstn_length in Hj. cbn [Nat.add]. symmetry.
    rewrite <- (firstn_skipn N coeff) at 2. rewrite nth_error_app1; auto. rewrite firstn_length. lia. }
  rewrite firstn_length, Nat.min_l in E, HXl, HA2 by auto.
  rewrite (bbind_ok _ _ _ _ _ E). rewrite bret_eq. eexists. eexists. split; [reflexivity|].
  destruct (go_end _ _ _ _ _ HA2) as [B1 B2]. rewrite <- !app_assoc in B1. cbn [app] in B1, B2.
  unfold lc_syns, lc_cells, lc_own, lc_ch.
  cbn [lc_mod lc_acc1_plus lc_acc1_minus lc_acc2_plus lc_acc2_minus lc_inter_minus lc_inter_plus lc_output_plus lc_output_minus
       lc_start lc_sync lc_sync_net lc_sub_net lc_input_plus lc_input_minus lc_first_plus lc_first_minus lc_last_plus lc_last_minus].
  cbn [app]. rewrite zip6_map, Ecs. cbn [nth c_in c_out fst snd]. split; [exact B1|].
  cbv zeta. split; [reflexivity|]. split; [exact Hs|]. split; [exact HC|]. split; [reflexivity|].
  split; [unfold sb_nodes; cbn [seq Nat.add]; repeat f_equal; lia|].
  split; [|split; [exact HXl|split; [reflexivity|split; [reflexivity|rewrite B2; lia]]]].
  replace (40 + List.length (w_neurons w)) with (S (S (S (S (S (S (S (S (S (S (List.length (w_neurons w))))))))))) + 1 + 10 * 2 + 9) by lia.
  exact HX.
Qed.
Lemma Adder_built enc nm w : inv w -> neqb (Tmax enc) nzero = false ->
  exists a w', AdderNetwork enc nm w = Ok (a, w') /\
  let l := ad_lin a in
  built w w' (lc_mod l) (lc_syns enc 2 [nofZ 1; nofZ 1] l) /\
  (let b := List.length (w_neurons w) in
   lc_own l = seq b 10 /\ sy_sync (lc_sync_net l) = 10 + b /\ cells_at (11 + b) (sy_cells (lc_sync_net l)) /\
   List.length (sy_cells (lc_sync_net l)) = 2 /\ sb_nodes (lc_sub_net l) = seq (31 + b) 9 /\
   lcells_at (40 + b) (lc_cells l) /\ List.length (lc_cells l) = 2 /\
   lc_input_plus l = map li_p (lc_cells l) /\ lc_input_minus l = map li_m (lc_cells l) /\
   ad_input1_plus a = nth 0 (lc_input_plus l) 0 /\ ad_input1_minus a = nth 0 (lc_input_minus l) 0 /\
   ad_input2_plus a = nth 1 (lc_input_plus l) 0 /\ ad_input2_minus a = nth 1 (lc_input_minus l) 0 /\
   List.length (w_neurons w') = b + 52).
Proof.
  intros I HT. destruct (LinComb_built enc 2 [nofZ 1; nofZ 1] nm w I HT ltac:(cbn; lia)) as (l & w' & E & HB & HR).
  exists {| ad_lin := l;
          ad_input1_plus := nth 0 (lc_input_plus l) 0; ad_input1_minus := nth 0 (lc_input_minus l) 0;
          ad_input2_plus := nth 1 (lc_input_plus l) 0; ad_input2_minus := nth 1 (lc_input_minus l) 0 |}, w'.
  split; [unfold AdderNetwork; rewrite (bbind_ok _ _ _ _ _ E); reflexivity|].
  cbn [ad_lin ad_input1_plus ad_input1_minus ad_input2_plus ad_input2_minus].
  cbn [firstn] in HB. split; auto. destruct HR as (A1 & A2 & A3 & A4 & A5 & A6 & A7 & A8 & A9 & A10).
  cbv zeta. refine (conj A1 (conj A2 (conj A3 (conj A4 (conj A5 (conj A6 (conj A7 (conj A8 (conj A9 _))))))))).
  repeat split; auto. rewrite A10. lia.
Qed.
End BuildNets.
