(** LinearCombinatorNetwork and AdderNetwork (C28), any number of inputs. *)
From Coq Require Import Arith ZArith Bool List Reals Lra Lia Permutation.
From Verif Require Import Num Heapq Elements Simulator Networks Trace SimTrace SimProps TraceProps NeuronLib NetLib Build BuildNets Bridge MemoryProof Session SimpleNets GeLib InvMem FuncNets SegLib SubNet SMem SyncNet.
Import ListNotations.
Open Scope R_scope.
Open Scope list_scope.

Definition lcell0 : lcell := (0%nat, 0%nat, (0%nat, 0%nat), (0%nat, 0%nat)).
Definition lcl (xs : list lcell) (i : nat) : lcell := nth i xs lcell0.
Definition lis (b : bool) (x : lcell) := if b then li_p x else li_m x.
Definition lfs (b : bool) (x : lcell) := if b then lf_p x else lf_m x.
Definition lls (b : bool) (x : lcell) := if b then ll_p x else ll_m x.
Definition cpos (c : R) : bool := ngtb c nzero.
Definition acc1 (s : bool) l := if s then lc_acc1_plus l else lc_acc1_minus l.
Definition acc2 (s : bool) l := if s then lc_acc2_plus l else lc_acc2_minus l.
Definition inter (s : bool) l := if s then lc_inter_plus l else lc_inter_minus l.
Definition outp (s : bool) l := if s then lc_output_plus l else lc_output_minus l.
Definition sbo (s : bool) m := if s then sb_output_plus m else sb_output_minus m.
Definition sbi (s : bool) m := if s then sb_input1 m else sb_input2 m.
Definition ix (s : bool) : nat := if s then 0%nat else 1%nat.

Record lc_in (N : tnet) (w tmin : R) (l : lin_net) (cs : list R) : Prop := {
  ci_len : length (lc_cells l) = length cs;
  ci_first : forall i b, (i < length cs)%nat -> let x := lcl (lc_cells l) i in
    ins N (lfs b x) [mks (lis b x) (lfs b x) SynV we cTsyn; mks (lfs b x) (lfs b x) SynV wi cTsyn];
  ci_last : forall i b, (i < length cs)%nat -> let x := lcl (lc_cells l) i in
    ins N (lls b x) [mks (lis b x) (lls b x) SynV (half we) cTsyn];
  ci_sync : ins N (lc_sync l) (flat_map (fun x => [mks (ll_p x) (lc_sync l) SynV (10 / INR (length cs)) cTsyn;
                                                   mks (ll_m x) (lc_sync l) SynV (10 / INR (length cs)) cTsyn]) (lc_cells l));
  ci_acc1 : forall s, ins N (acc1 s l) (mks (lc_sync l) (acc1 s l) SynGe w cTsyn ::
    flat_map (fun p => let b := Bool.eqb s (cpos (fst p)) in
      [mks (lfs b (snd p)) (acc1 s l) SynGe (Rabs (fst p) * w) (nadd cTsyn tmin); mks (lls b (snd p)) (acc1 s l) SynGe (- Rabs (fst p) * w) cTsyn])
      (combine cs (lc_cells l)));
  ci_acc2 : forall s, ins N (acc2 s l) [mks (lc_sync l) (acc2 s l) SynGe w cTsyn];
  ci_inter : forall s, ins N (inter s l) [mks (acc1 s l) (inter s l) SynV we cTsyn; mks (acc2 s l) (inter s l) SynV we (nadd cTsyn tmin)];
  ci_cin : forall s, ins N (c_in (lc_ch l (ix s))) [mks (inter s l) (c_in (lc_ch l (ix s))) SynV we cTsyn];
  ci_sbi : forall s, ins N (sbi s (lc_sub_net l)) [mks (c_out (lc_ch l (ix s))) (sbi s (lc_sub_net l)) SynV we cTsyn];
  ci_out : forall s, ins N (outp s l) [mks (sbo s (lc_sub_net l)) (outp s l) SynV we cTsyn];
  ci_sb : sb_ins N tmin (lc_sub_net l);
  ci_two : length (sy_cells (lc_sync_net l)) = 2%nat;
  ci_ssync : ins N (sy_sync (lc_sync_net l)) (map (fun c => mks (mm_ready (c_mem c)) (sy_sync (lc_sync_net l)) SynV (sync_w 2) cTsyn) (sy_cells (lc_sync_net l)));
  ci_cells : forall i, (i < 2)%nat -> cell_in N w (sy_sync (lc_sync_net l)) (cel (sy_cells (lc_sync_net l)) i)
}.

Lemma flat_map_nth_seq {A B} (g : A -> list B) (d : A) l : flat_map g l = flat_map (fun i => g (nth i l d)) (seq 0 (length l)).
Proof. rewrite !flat_map_concat_map. f_equal. apply map_nth_seq. Qed.
Lemma first_none N i f : ins N f [mks i f SynV we cTsyn; mks f f SynV wi cTsyn] -> arrs N i 1 [] -> spikes_at N f [].
Proof.
  intros H A0. set (g := {| g_n := f; g_S := []; g_L := [] |}). apply (seg_group N [g]) with (g := g); [| |left; auto].
  - intros g' [<-|[]]. cbn [g g_n g_S g_L]. split; [apply H|split; [eapply ins_vonly; [apply H|repeat constructor]|]]. segs_solve.
  - intros K HK g' [<-|[]]. cbn [g g_n g_S g_L]. ev_input H. rewrite cTsyn_R, A0 by lia.
    rewrite (arr_upto N f 1 [] K); auto; [ev_simpl; lra|apply H|intros j Hj; apply (HK g); auto; left; auto|intros j []|constructor].
Qed.
Lemma last_none N i f w : ins N f [mks i f SynV w cTsyn] -> arrs N i 1 [] -> spikes_at N f [].
Proof.
  intros H A0. apply (seg_spikes N _ []); [apply H|eapply ins_vonly; [apply H|repeat constructor]|segs_solve|].
  intros k Hk. ev_input H. rewrite cTsyn_R, A0 by auto. ev_simpl. lra.
Qed.
Lemma evw_flat_map {C} (g : C -> list (nat * R)) l k : evw (flat_map g l) k = sumf (fun i => evw (g i) k) l.
Proof. apply sumf_flat_map. Qed.
Lemma vlin_flat_map {C} (g : C -> list (nat * R)) l k : vlin (flat_map g l) k = sumf (fun i => vlin (g i) k) l.
Proof. apply sumf_flat_map. Qed.
Lemma sumf_le {A} (f g : A -> R) l : (forall x, In x l -> f x <= g x) -> sumf f l <= sumf g l.
Proof.
  induction l as [|a l IH]; intros H; [unfold sumf; cbn; lra|]. rewrite !sumf_cons.
  pose proof (H a (or_introl eq_refl)). specialize (IH (fun x Hx => H x (or_intror Hx))). lra.
Qed.

Section Lin.
Variable N : tnet.
Variables (tmin tcod : R) (l : lin_net) (cs : list R).
Let dt := t_dt N.
Let Tmax := tmin + tcod.
Let n := length cs.
Let xs := lc_cells l.
Hypothesis Hdt : 0 < dt.
Hypothesis Htm : 0 < tmin.
Hypothesis Htc : 0 < tcod.
Hypothesis Hn : (1 <= n)%nat.
Hypothesis HL : lc_in N (1000 / Tmax) tmin l cs.
Variable g : nat -> bool.
Variables al be : nat -> nat.
Let D1 := step_at dt 1.
Let D2 := step_at dt 2.
Let Dm := step_at dt (1 + tmin).
Let M := step_at dt Tmax.
Let Dn := step_at dt (/ 100).
Let Dnn := step_at dt (2 * / 100).
Let D3 := step_at dt (3 * 1 + 2 * / 100).
Let DM := step_at dt (tmin + (3 * 1 + 2 * / 100)).
Hypothesis Hin : forall i, (i < n)%nat -> arrs N (lis (g i) (lcl xs i)) 1 [al i; be i].
Hypothesis Hnone : forall i, (i < n)%nat -> arrs N (lis (negb (g i)) (lcl xs i)) 1 [].
Hypothesis Hal : forall i, (i < n)%nat -> (1 <= al i)%nat.
Hypothesis Hbe : forall i, (i < n)%nat -> (al i + D1 <= be i)%nat.
Hypothesis HD1 : (1 < D1 /\ D1 < D2 /\ D2 <= 2 * D1)%nat.

Lemma lin_first i b d : (i < n)%nat -> arrs N (lfs b (lcl xs i)) d (if Bool.eqb b (g i) then [(al i + step_at dt d)%nat] else []).
Proof.
  intros Hi. pose proof (ci_first _ _ _ _ _ HL i b Hi) as F. cbv zeta in F. fold xs in F.
  destruct (Bool.eqb_spec b (g i)) as [->|Hb].
  - eapply arrs_1; [exact F| |reflexivity|auto]. eapply first_spikes; [exact F|rewrite cTsyn_R; apply Hin; auto|auto|apply Hbe; auto].
  - assert (b = negb (g i)) by (destruct b, (g i); auto; congruence). subst b.
    eapply arrs_0; [exact F|]. eapply first_none; [exact F|apply Hnone; auto].
Qed.
Lemma lin_last i b d : (i < n)%nat -> arrs N (lls b (lcl xs i)) d (if Bool.eqb b (g i) then [(be i + step_at dt d)%nat] else []).
Proof.
  intros Hi. pose proof (ci_last _ _ _ _ _ HL i b Hi) as F. cbv zeta in F. fold xs in F. pose proof (Hal i Hi) as X1. pose proof (Hbe i Hi) as X2.
  destruct (Bool.eqb_spec b (g i)) as [->|Hb].
  - eapply arrs_1; [exact F| |reflexivity|lia]. eapply last_spikes; [exact F|rewrite cTsyn_R; apply Hin; auto|auto|lia].
  - assert (b = negb (g i)) by (destruct b, (g i); auto; congruence). subst b.
    eapply arrs_0; [exact F|]. eapply last_none; [exact F|apply Hnone; auto].
Qed.

(** the common synchronisation spike *)
Variable f : nat.
Hypothesis Hf1 : forall i, (i < n)%nat -> (be i + D1 <= f)%nat.
Hypothesis Hf2 : exists i, (i < n)%nat /\ (be i + D1)%nat = f.
Lemma lin_sync : spikes_at N (lc_sync l) [f].
Proof.
  pose proof (ci_sync _ _ _ _ _ HL) as HS.
  assert (HnR : 1 <= INR n) by (change 1 with (INR 1); apply le_INR; auto).
  apply (seg_spikes N _ (map (fun i => ((be i + D1)%nat, 10 / INR n)) (seq 0 n))); [apply HS| | |].
  - eapply ins_vonly; [exact HS|]. apply Forall_flat_map. rewrite Forall_forall. intros x _. repeat constructor.
  - apply (all_needed (fun i => (be i + D1)%nat)); auto.
    + apply Rlt_le. apply Rdiv_lt_0_compat; lra.
    + rewrite minus_INR by lia. cbn [INR]. replace ((INR n - 1) * (10 / INR n)) with (10 - 10 / INR n) by (field; lra).
      assert (0 < 10 / INR n) by (apply Rdiv_lt_0_compat; lra). lra.
    + right. field. lra.
    + intros i Hi. pose proof (Hf1 i Hi). lia.
  - intros k Hk. rewrite (ins_input _ _ _ _ _ HS). rewrite (flat_map_nth_seq _ lcell0). rewrite (ci_len _ _ _ _ _ HL). fold n xs.
    rewrite sumf_flat_map. unfold evw. rewrite sumf_map. apply sumf_ext. intros i Hi. apply in_seq in Hi.
    rewrite !sumf_cons. change (sumf _ []) with 0. cbn [s_ty s_w s_pre s_delay mks syntype_eqb fst snd]. rewrite cTsyn_R.
    change (nth i xs lcell0) with (lcl xs i).
    pose proof (lin_last i true 1 ltac:(lia) k Hk) as L1. pose proof (lin_last i false 1 ltac:(lia) k Hk) as L2. cbn [lls] in L1, L2. rewrite L1, L2.
    fold D1. destruct (g i); cbn [Bool.eqb]; rewrite ?cnt_cons, ?cnt_nil; lra.
Qed.
Lemma lin_sync_arrs : arrs N (lc_sync l) 1 [(f + D1)%nat].
Proof.
  destruct Hf2 as (i & Hi & E). eapply arrs_1; [apply HL|apply lin_sync|reflexivity|lia].
Qed.

Let a := fun i => Rabs (nth i cs 0).
Definition sel (s : bool) (i : nat) : bool := Bool.eqb (Bool.eqb s (cpos (nth i cs 0))) (g i).
Definition evA (i : nat) : nat := (al i + Dm)%nat.
Definition evB (i : nat) : nat := (be i + D1)%nat.
Definition Psum (s : bool) : R := sumf (fun i => if sel s i then a i * (INR (evB i) - INR (evA i)) else 0) (seq 0 n).
Variable d : nat -> R.
Hypothesis Hd : forall i, (i < n)%nat -> 0 <= d i /\ INR (evB i) - INR (evA i) <= d i.
Hypothesis HAB : forall i, (i < n)%nat -> (evA i <= evB i + 1)%nat.
Hypothesis Hsum : forall s, dt * sumf (fun i => if sel s i then a i * d i else 0) (seq 0 n) <= tcod.
Definition rr (s : bool) : nat := step_at dt (Tmax - dt * Psum s).
Let w := 1000 / Tmax.
Definition Lacc (s : bool) : list (nat * R) :=
  ((f + D1)%nat, w) :: flat_map (fun i => if sel s i then [(evA i, a i * w); (evB i, - a i * w)] else []) (seq 0 n).
Lemma lin_acc1_input s k : (1 <= k)%nat -> input N (acc1 s l) SynGe k = evw (Lacc s) k.
Proof.
  intros Hk. rewrite (ins_input _ _ _ _ _ (ci_acc1 _ _ _ _ _ HL s)). unfold Lacc. rewrite sumf_cons, evw_cons.
  cbn [s_ty s_w s_pre s_delay mks syntype_eqb]. rewrite cTsyn_R, (lin_sync_arrs k Hk), cnt_cons, cnt_nil. fold w.
  f_equal; [lra|]. rewrite evw_flat_map.
  rewrite (flat_map_nth_seq _ (0, lcell0)). rewrite combine_length, (ci_len _ _ _ _ _ HL). fold n xs. rewrite Nat.min_id.
  rewrite sumf_flat_map. apply sumf_ext. intros i Hi. apply in_seq in Hi.
  rewrite combine_nth by (unfold xs; rewrite (ci_len _ _ _ _ _ HL); reflexivity). cbn [fst snd]. fold (lcl xs i).
  rewrite !sumf_cons. change (sumf _ []) with 0. cbn [s_ty s_w s_pre s_delay mks syntype_eqb]. rewrite ?cTsyn_R. change (nadd 1 tmin) with (1 + tmin).
  set (b := Bool.eqb s (cpos (nth i cs 0))). rewrite (lin_first i b (1 + tmin) ltac:(lia) k Hk), (lin_last i b 1 ltac:(lia) k Hk).
  unfold sel. fold b. fold Dm D1. fold (evA i) (evB i). fold (a i). destruct (Bool.eqb b (g i)); ev_simpl; lra.
Qed.
(** charge collected up to step k *)
Lemma lin_vlin s k : vlin (Lacc s) k = w * (sumf (fun i => if sel s i then a i * (INR (S k - evA i) - INR (S k - evB i)) else 0) (seq 0 n) + INR (S k - (f + D1))).
Proof.
  unfold Lacc. rewrite vlin_cons, vlin_flat_map.
  rewrite (sumf_ext _ (fun i => w * (if sel s i then a i * (INR (S k - evA i) - INR (S k - evB i)) else 0))).
  - rewrite sumf_mult. ring.
  - intros i _. destruct (sel s i); [rewrite !vlin_cons|]; rewrite vlin_nil; ring.
Qed.
Lemma a_nonneg i : 0 <= a i. Proof. apply Rabs_pos. Qed.
Lemma lin_P_le s : dt * Psum s <= tcod.
Proof.
  eapply Rle_trans; [|apply (Hsum s)]. apply Rmult_le_compat_l; [lra|]. unfold Psum. apply sumf_le. intros i Hi. apply in_seq in Hi.
  destruct (sel s i); [|lra]. apply Rmult_le_compat_l; [apply a_nonneg|]. apply Hd. lia.
Qed.
Lemma unitR x : x * dt < Tmax <-> dt / 100 * (w * x) < 10.
Proof.
  assert (HT : 0 < Tmax) by (unfold Tmax; lra).
  unfold w. replace (dt / 100 * (1000 / Tmax * x)) with (10 * (x * dt / Tmax)) by (field; lra). split; intros H.
  - assert (x * dt / Tmax < 1); [|lra]. apply Rmult_lt_reg_r with Tmax; auto. unfold Rdiv. rewrite Rmult_assoc, Rinv_l by lra. lra.
  - assert (x * dt / Tmax < 1) by lra. apply Rmult_lt_compat_r with (r := Tmax) in H0; auto. unfold Rdiv in H0. rewrite Rmult_assoc, Rinv_l in H0 by lra. lra.
Qed.
Lemma rr_bounds s : INR (rr s) * dt - dt < Tmax - dt * Psum s <= INR (rr s) * dt.
Proof. unfold rr. pose proof (lin_P_le s). apply step_at_bounds; auto. unfold Tmax. lra. Qed.
Lemma rr_ge1 s : (1 <= rr s)%nat. Proof. apply step_at_ge1. Qed.
Lemma ev_le_f i : (i < n)%nat -> (evB i <= f)%nat /\ (evA i <= f + 1)%nat.
Proof. intros Hi. pose proof (Hf1 i Hi). pose proof (HAB i Hi). unfold evB in *. lia. Qed.
Lemma lin_acc1 s : spikes_at N (acc1 s l) [(f + D1 - 1 + rr s)%nat].
Proof.
  pose proof (ci_acc1 _ _ _ _ _ HL s) as H1. pose proof (rr_bounds s) as [R1 R2]. pose proof (rr_ge1 s) as R0.
  assert (HG : geonly N (acc1 s l)).
  { eapply ins_geonly; [exact H1|]. constructor; [reflexivity|]. apply Forall_flat_map. rewrite Forall_forall. intros x _. repeat constructor. }
  assert (Hlate : forall k, (f + D1 <= S k)%nat -> dt / 100 * vlin (Lacc s) k = dt / 100 * (w * (Psum s + INR (S k - (f + D1))))).
  { intros k Hk. rewrite lin_vlin. do 3 f_equal. unfold Psum. apply sumf_ext. intros i Hi. apply in_seq in Hi.
    destruct (ev_le_f i ltac:(lia)). destruct (sel s i); auto. rewrite !minus_INR by lia. ring. }
  assert (Hev : forall p, In p (Lacc s) -> (1 <= fst p <= f + D1)%nat).
  { intros p [<-|Hp]; [cbn [fst]; lia|]. apply in_flat_map in Hp as (i & Hi & Hp). apply in_seq in Hi.
    destruct (ev_le_f i ltac:(lia)). pose proof (Hal i ltac:(lia)). pose proof (Hbe i ltac:(lia)). unfold evA, evB in *.
    destruct (sel s i); [|destruct Hp]. destruct Hp as [<-|[<-|[]]]; cbn [fst]; lia. }
  apply (geonly_once N (acc1 s l) (Lacc s)); auto.
  - apply H1.
  - intros p Hp. apply Hev; auto.
  - lia.
  - intros k Hk. apply lin_acc1_input; auto.
  - fold dt. intros k Hk. destruct (Nat.le_gt_cases (f + D1) (S k)) as [Hc|Hc].
    + rewrite Hlate by auto. apply unitR.
      assert (INR (S k - (f + D1)) <= INR (rr s) - 1).
      { replace (INR (rr s) - 1) with (INR (rr s - 1)) by (rewrite minus_INR by lia; cbn; lra). apply le_INR. lia. }
      assert (INR (S k - (f + D1)) * dt <= (INR (rr s) - 1) * dt) by (apply Rmult_le_compat_r; lra). lra.
    + rewrite lin_vlin. replace (S k - (f + D1))%nat with 0%nat by lia. cbn [INR]. rewrite Rplus_0_r. apply unitR.
      apply Rle_lt_trans with tcod; [|unfold Tmax; lra]. eapply Rle_trans; [|apply (Hsum s)]. rewrite Rmult_comm. apply Rmult_le_compat_l; [lra|].
      apply sumf_le. intros i Hi. apply in_seq in Hi. destruct (sel s i); [|lra]. apply Rmult_le_compat_l; [apply a_nonneg|].
      destruct (Hd i ltac:(lia)) as [d0 d1]. clear - d0 d1.
      destruct (Nat.le_gt_cases (S k) (evA i)).
      * replace (S k - evA i)%nat with 0%nat by lia. pose proof (pos_INR (S k - evB i)). cbn [INR]. lra.
      * destruct (Nat.le_gt_cases (S k) (evB i)).
        -- replace (S k - evB i)%nat with 0%nat by lia. cbn [INR]. rewrite minus_INR by lia. assert (INR (S k) <= INR (evB i)) by (apply le_INR; lia). lra.
        -- rewrite !minus_INR by lia. lra.
  - fold dt. rewrite Hlate by lia. replace (S (f + D1 - 1 + rr s) - (f + D1))%nat with (rr s) by lia.
    apply Rnot_lt_le. rewrite <- unitR. lra.
  - intros p Hp. specialize (Hev p Hp). lia.
Qed.
Lemma lin_acc2 s : spikes_at N (acc2 s l) [(f + D1 - 1 + M)%nat].
Proof.
  pose proof (ci_acc2 _ _ _ _ _ HL s) as H2. pose proof (step_at_ge1 dt Tmax) as GM. fold M in GM.
  assert (HT : 0 < Tmax) by (unfold Tmax; lra).
  assert (HG : geonly N (acc2 s l)) by (eapply ins_geonly; [exact H2|repeat constructor]).
  apply (geonly_once N (acc2 s l) [((f + D1)%nat, w)]); auto.
  - apply H2.
  - evb.
  - lia.
  - intros k Hk. ev_input H2. rewrite cTsyn_R, (lin_sync_arrs k Hk). ev_simpl. fold w. lra.
  - fold dt. intros k Hk. rewrite vlin_cons, vlin_nil, Rplus_0_r. rewrite INR_IZR_INZ. apply unit_lt; auto. fold M. lia.
  - fold dt. rewrite vlin_cons, vlin_nil, Rplus_0_r. rewrite INR_IZR_INZ. apply unit_ge; auto. fold M. lia.
  - evb.
Qed.
Hypothesis Hr1 : forall s, (rr s + 2 * D1 <= M + Dm)%nat.
Hypothesis Hr2 : forall s, (Dm <= rr s + D1 + 1)%nat.
Lemma lin_inter s : spikes_at N (inter s l) [(f + D1 - 1 + rr s + D1)%nat; (f + D1 - 1 + M + Dm)%nat].
Proof.
  pose proof (ci_inter _ _ _ _ _ HL s) as H2. specialize (Hr1 s). pose proof (rr_ge1 s).
  apply two_spikes; [apply H2|eapply ins_vonly; [exact H2|repeat constructor]|lia|lia|lia|].
  intros k Hk. ev_input H2. rewrite !cTsyn_R. change (nadd 1 tmin) with (1 + tmin).
  rewrite (arrs_1 N _ _ 1 D1 _ (ci_acc1 _ _ _ _ _ HL s) (lin_acc1 s)), (arrs_1 N _ _ _ Dm _ (ci_acc2 _ _ _ _ _ HL s) (lin_acc2 s)); auto; try lia.
  netr. ev_simpl. lra.
Qed.
Definition cb1 (i : nat) : nat := (f + D1 - 1 + rr (i =? 0)%nat + 3 * D1)%nat.
Definition cb2 (i : nat) : nat := (f + D1 - 1 + M + Dm + 2 * D1)%nat.
Lemma lin_cin i : (i < 2)%nat -> arrs N (c_in (cel (sy_cells (lc_sync_net l)) i)) 1 [cb1 i; cb2 i].
Proof.
  intros Hi. set (s := (i =? 0)%nat). assert (E : cel (sy_cells (lc_sync_net l)) i = lc_ch l (ix s)).
  { unfold s. destruct i as [|[|]]; [reflexivity|reflexivity|lia]. }
  rewrite E. pose proof (ci_cin _ _ _ _ _ HL s) as H2. pose proof (Hr1 s) as Q. pose proof (rr_ge1 s).
  assert (A : arrs N (inter s l) 1 [(f + D1 - 1 + rr s + D1 + D1)%nat; (f + D1 - 1 + M + Dm + D1)%nat]).
  { eapply arrs_2; [apply (ci_inter _ _ _ _ _ HL s)|apply lin_inter|reflexivity|lia|lia|lia]. }
  assert (S2 : spikes_at N (c_in (lc_ch l (ix s))) [(f + D1 - 1 + rr s + D1 + D1)%nat; (f + D1 - 1 + M + Dm + D1)%nat]).
  { eapply relay; [exact H2|rewrite we_R; lra|rewrite cTsyn_R; exact A|cbn; lia]. }
  unfold cb1, cb2. fold s.
  replace (f + D1 - 1 + rr s + 3 * D1)%nat with (f + D1 - 1 + rr s + D1 + D1 + D1)%nat by lia.
  replace (f + D1 - 1 + M + Dm + 2 * D1)%nat with (f + D1 - 1 + M + Dm + D1 + D1)%nat by lia.
  eapply arrs_2; [exact H2|exact S2|reflexivity|lia|lia|lia].
Qed.
Definition iv (s : bool) : nat := (M + Dm - rr s - D1)%nat.
(** both partial sums leave the synchronizer at the same step *)
Definition rel : nat := (f + D1 - 1 + Nat.max (rr true) (rr false) + 3 * D1 + 4 * D1 - 1 + M)%nat.
Lemma lin_cout s : spikes_at N (c_out (lc_ch l (ix s))) [(rel + D1 + D2 + D1)%nat; (rel + D1 + D2 + iv s + D1)%nat].
Proof.
  assert (HT : 0 < Tmax) by (unfold Tmax; lra).
  pose proof (ci_two _ _ _ _ _ HL) as H2.
  assert (E : lc_ch l (ix s) = cel (sy_cells (lc_sync_net l)) (ix s)) by reflexivity. rewrite E.
  assert (Hs : (ix s < 2)%nat) by (destruct s; cbn; lia).
  assert (IG : forall i, In i [0; 1]%nat -> (i < 2)%nat) by (intros i [<-|[<-|[]]]; lia).
  assert (rd0 : forall i, (i < 2)%nat -> (i = 0 \/ i = 1)%nat) by lia.
  pose proof (sync_out N Tmax (sync_w 2) (sy_sync (lc_sync_net l)) (sy_cells (lc_sync_net l)) [0%nat; 1%nat] Hdt HT
    (ci_ssync _ _ _ _ _ HL)) as SO. rewrite H2 in SO. specialize (SO (ci_cells _ _ _ _ _ HL) cb1 cb2 IG).
  fold dt D1 D2 M in SO.
  specialize (SO ltac:(repeat constructor; cbn; lia) (fun i Hi => lin_cin i (IG i Hi)) ltac:(intros i Hi Hni; exfalso; apply Hni; cbn; lia)).
  specialize (SO ltac:(intros i Hi; unfold cb1; pose proof (rr_ge1 (i =? 0)%nat); lia)).
  specialize (SO ltac:(intros i Hi; unfold cb1, cb2; pose proof (Hr1 (i =? 0)%nat); lia)).
  specialize (SO ltac:(intros i Hi; unfold cb1, cb2; pose proof (Hr2 (i =? 0)%nat); lia) HD1 rel).
  assert (RD : forall i, (i < 2)%nat -> rdy N Tmax cb1 i = (f + D1 - 1 + rr (i =? 0)%nat + 3 * D1 + 4 * D1 - 1 + M)%nat).
  { intros i Hi. unfold rdy, cb1. fold dt D1 M. pose proof (rr_ge1 (i =? 0)%nat). lia. }
  assert (MX : forall i, (i < 2)%nat -> (rdy N Tmax cb1 i <= rel)%nat).
  { intros i Hi. rewrite RD by auto. unfold rel. destruct (rd0 i Hi) as [-> | ->]; cbn [Nat.eqb]; lia. }
  assert (HW : sync_w (T := R) 2 = 10 / 2 + / 10000) by (rewrite sync_w_R; cbn [INR]; lra).
  replace (iv s) with (cb2 (ix s) - cb1 (ix s))%nat.
  2:{ unfold cb1, cb2, iv. replace (ix s =? 0)%nat with s by (destruct s; reflexivity). pose proof (Hr1 s). pose proof (rr_ge1 s). lia. }
  apply SO.
  - unfold sync_ev. apply (all_needed (rdy N Tmax cb1) (sync_w 2) 2 rel).
    + rewrite HW. lra.
    + lia.
    + rewrite HW. cbn [INR Nat.sub]. lra.
    + rewrite HW. cbn [INR]. lra.
    + intros i Hi. split; auto. rewrite RD by auto. pose proof (rr_ge1 (i =? 0)%nat). lia.
    + destruct (Nat.le_ge_cases (rr false) (rr true)).
      * exists 0%nat. split; [lia|]. rewrite RD by lia. cbn [Nat.eqb]. unfold rel. lia.
      * exists 1%nat. split; [lia|]. rewrite RD by lia. cbn [Nat.eqb]. unfold rel. lia.
  - intros i Hi. apply MX. auto.
  - destruct s; cbn; auto.
Qed.
Definition sa : nat := (rel + D1 + D2 + 3 * D1)%nat.
Lemma lin_sbin s : arrs N (sbi s (lc_sub_net l)) 1 [sa; (sa + iv s)%nat].
Proof.
  pose proof (ci_sbi _ _ _ _ _ HL s) as H2. assert (HI : (1 <= iv s)%nat) by (unfold iv; pose proof (Hr1 s); lia).
  assert (OUT : ins N (c_out (lc_ch l (ix s))) [mks (mm_output (c_mem (lc_ch l (ix s)))) (c_out (lc_ch l (ix s))) SynV we cTsyn]).
  { apply (li_out _ _ _ _ (ci_cells _ _ _ _ _ HL (ix s) ltac:(destruct s; cbn; lia))). }
  assert (A : arrs N (c_out (lc_ch l (ix s))) 1 [(rel + D1 + D2 + D1 + D1)%nat; (rel + D1 + D2 + iv s + D1 + D1)%nat]).
  { eapply arrs_2; [exact OUT|apply lin_cout|reflexivity|lia|lia|lia]. }
  assert (S2 : spikes_at N (sbi s (lc_sub_net l)) [(rel + D1 + D2 + D1 + D1)%nat; (rel + D1 + D2 + iv s + D1 + D1)%nat]).
  { eapply relay; [exact H2|rewrite we_R; lra|rewrite cTsyn_R; exact A|cbn; lia]. }
  unfold sa. replace (rel + D1 + D2 + 3 * D1)%nat with (rel + D1 + D2 + D1 + D1 + D1)%nat by lia.
  replace (rel + D1 + D2 + D1 + D1 + D1 + iv s)%nat with (rel + D1 + D2 + iv s + D1 + D1 + D1)%nat by lia.
  eapply arrs_2; [exact H2|exact S2|reflexivity|lia|lia|lia].
Qed.
Hypothesis F1 : (1 <= D1 /\ 1 <= Dn)%nat.
Hypothesis F2 : (2 * D1 < D3)%nat.
Hypothesis F3 : (2 * Dn <= D3 /\ 3 * Dn <= D1 + 1)%nat.
Hypothesis F4 : (D3 < DM)%nat.
Hypothesis F5 : (2 * Dn <= Dnn + 1 /\ Dnn <= 2 * Dn /\ Dn <= Dnn)%nat.
Lemma lin_relay s sp : spikes_at N (sbo s (lc_sub_net l)) sp -> strict 0 sp -> spikes_at N (outp s l) (map (fun j => (j + D1)%nat) sp).
Proof.
  intros HS Hst. pose proof (ci_out _ _ _ _ _ HL s) as H2.
  assert (HI : exists L, ins N (sbo s (lc_sub_net l)) L) by (destruct s; eexists; apply (ci_sb _ _ _ _ _ HL)).
  destruct HI as (L & HI).
  eapply relay; [exact H2|rewrite we_R; lra| |apply strict_map_add; auto]. rewrite cTsyn_R.
  eapply arrs_l; eauto; [intros j Hj; apply (strict_In 0 sp Hst j Hj)|eapply strict_NoDup; eauto].
Qed.
(** sum of the positive terms at least that of the negative terms *)
Lemma lin_plus : (iv false < iv true \/ (iv true = iv false /\ Dn < Dnn))%nat ->
  spikes_at N (lc_output_plus l) [(sa + iv false + D3 + D1)%nat; (sa + iv true + DM + D1)%nat] /\ spikes_at N (lc_output_minus l) [].
Proof.
  intros H. pose proof (ci_sb _ _ _ _ _ HL) as HM.
  assert (HI : forall s, (1 <= iv s)%nat) by (intros s; unfold iv; pose proof (Hr1 s); lia).
  assert (SA : (1 <= sa)%nat) by (unfold sa; lia).
  assert (Q1 : (1 <= sa < sa + iv true)%nat) by (specialize (HI true); lia). assert (Q2 : (1 <= sa < sa + iv false)%nat) by (specialize (HI false); lia).
  pose proof (sb_case_plus N (lc_sub_net l) tmin HM sa (sa + iv true) sa (sa + iv false) (lin_sbin true) (lin_sbin false) Q1 Q2 F1 F2 F3 F4 F5) as CB.
  pose proof (sb_case_zero N (lc_sub_net l) tmin HM sa (sa + iv true) sa (sa + iv false) (lin_sbin true) (lin_sbin false) Q1 Q2 F1 F2 F3 F4 F5) as CC.
  pose proof (sb_case_small N (lc_sub_net l) tmin HM sa (sa + iv true) sa (sa + iv false) (lin_sbin true) (lin_sbin false) Q1 Q2 F1 F2 F3 F4 F5) as CD.
  fold dt Dn Dnn D3 DM in CB, CC, CD.
  assert (W : spikes_at N (sb_output_plus (lc_sub_net l)) [(sa + iv false + D3)%nat; (sa + iv true + DM)%nat] /\ spikes_at N (sb_output_minus (lc_sub_net l)) []).
  { destruct H as [H|[H1 H2]]; [|apply CC; auto; lia]. destruct (Nat.le_gt_cases (sa + iv false + Dnn) (sa + iv true + Dn)); [apply CB|apply CD]; lia. }
  destruct W as [A B]. split.
  - apply (lin_relay true _ A). cbn. lia.
  - apply (lin_relay false _ B). cbn. auto.
Qed.
Lemma lin_minus : (iv true < iv false)%nat -> (iv true + Dnn <= iv false + Dn)%nat ->
  spikes_at N (lc_output_minus l) [(sa + iv true + D3 + D1)%nat; (sa + iv false + DM + D1)%nat] /\ spikes_at N (lc_output_plus l) [].
Proof.
  intros H H'. pose proof (ci_sb _ _ _ _ _ HL) as HM.
  assert (HI : forall s, (1 <= iv s)%nat) by (intros s; unfold iv; pose proof (Hr1 s); lia).
  assert (SA : (1 <= sa)%nat) by (unfold sa; lia).
  assert (Q1 : (1 <= sa < sa + iv true)%nat) by (specialize (HI true); lia). assert (Q2 : (1 <= sa < sa + iv false)%nat) by (specialize (HI false); lia).
  pose proof (sb_case_minus N (lc_sub_net l) tmin HM sa (sa + iv true) sa (sa + iv false) (lin_sbin true) (lin_sbin false) Q1 Q2 F1 F2 F3 F4 F5) as CB.
  fold dt Dn Dnn D3 DM in CB. destruct CB as [A B]; [lia|lia|]. split.
  - apply (lin_relay false _ B). cbn. lia.
  - apply (lin_relay true _ A). cbn. auto.
Qed.
Lemma lin_lost : (iv true < iv false)%nat -> (iv false + Dn < iv true + Dnn)%nat ->
  spikes_at N (lc_output_minus l) [] /\ spikes_at N (lc_output_plus l) [].
Proof.
  intros H H'. pose proof (ci_sb _ _ _ _ _ HL) as HM.
  assert (HI : forall s, (1 <= iv s)%nat) by (intros s; unfold iv; pose proof (Hr1 s); lia).
  assert (SA : (1 <= sa)%nat) by (unfold sa; lia).
  assert (Q1 : (1 <= sa < sa + iv true)%nat) by (specialize (HI true); lia). assert (Q2 : (1 <= sa < sa + iv false)%nat) by (specialize (HI false); lia).
  pose proof (sb_case_lost N (lc_sub_net l) tmin HM sa (sa + iv true) sa (sa + iv false) (lin_sbin true) (lin_sbin false) Q1 Q2 F1 F2 F3 F4 F5) as CB.
  fold dt Dn Dnn D3 DM in CB. destruct CB as [A B]; [lia|lia|]. split.
  - apply (lin_relay false _ B). cbn. auto.
  - apply (lin_relay true _ A). cbn. auto.
Qed.
End Lin.

(** *** the wiring, read off the synapse list *)
Lemma lcells_at_nth xs : forall b i, lcells_at b xs -> (i < length xs)%nat ->
  let x := lcl xs i in [li_p x; li_m x; lf_p x; lf_m x; ll_p x; ll_m x] = seq (b + 6 * i) 6.
Proof.
  induction xs as [|c xs IH]; intros b i H Hi; [cbn in Hi; lia|]. destruct H as (H1 & H2). destruct i as [|i].
  - rewrite Nat.mul_0_r, Nat.add_0_r. auto.
  - cbn [length] in Hi. specialize (IH (6 + b)%nat i H2 ltac:(lia)). replace (b + 6 * S i)%nat with (6 + b + 6 * i)%nat by lia. exact IH.
Qed.
Lemma lcell_posts enc K sy ap am (c : R) x b y : [li_p x; li_m x; lf_p x; lf_m x; ll_p x; ll_m x] = seq b 6 ->
  In y (lcell_syns enc K sy ap am (c, x)) -> s_post y = sy \/ s_post y = ap \/ s_post y = am \/ (b + 2 <= s_post y < b + 6)%nat.
Proof.
  intros H3 Hy. nodes_eqs H3. unfold lcell_syns in Hy. cbn [fst snd] in Hy. cbn [app In] in Hy.
  repeat (destruct Hy as [<-|Hy]; [cbn [s_post syn]; first [right; right; right; lia | left; reflexivity|destruct (ngtb c nzero); auto]|]). destruct Hy.
Qed.
Lemma lcells_posts enc K sy ap am y : forall (cs : list R) xs b, lcells_at b xs ->
  In y (flat_map (lcell_syns enc K sy ap am) (combine cs xs)) -> s_post y = sy \/ s_post y = ap \/ s_post y = am \/ (b + 2 <= s_post y)%nat.
Proof.
  induction cs as [|c cs IH]; intros xs b H Hy; [destruct Hy|]. destruct xs as [|x xs]; [destruct Hy|]. destruct H as [H1 H2].
  cbn [combine flat_map] in Hy. apply in_app_or in Hy as [Hy|Hy].
  - destruct (lcell_posts _ _ _ _ _ _ _ _ _ H1 Hy) as [?|[?|[?|?]]]; auto. right; right; right. lia.
  - destruct (IH _ _ H2 Hy) as [?|[?|[?|?]]]; auto. right; right; right. lia.
Qed.
Lemma own_nth {C} N (g : C -> list (synapse R)) d cs i n : (i < length cs)%nat -> own N (flat_map g cs) n ->
  (forall j y, (j < length cs)%nat -> j <> i -> In y (g (nth j cs d)) -> s_post y <> n) -> own N (g (nth i cs d)) n.
Proof.
  intros Hi HO HN. assert (E : exists l1 l2, flat_map g cs = l1 ++ g (nth i cs d) ++ l2 /\ (forall y, In y l1 \/ In y l2 -> s_post y <> n)).
  { clear HO. revert i Hi HN. induction cs as [|c cs IH]; intros i Hi HN; [cbn in Hi; lia|]. destruct i as [|i].
    - exists [], (flat_map g cs). split; [reflexivity|]. intros y [[]|Hy]. apply in_flat_map in Hy as (c' & Hc & Hy).
      apply (In_nth _ _ d) in Hc as (j & Hj & <-). apply (HN (S j) y); cbn; auto; lia.
    - cbn [length] in Hi. destruct (IH i ltac:(lia)) as (l1 & l2 & E & HE).
      + intros j y Hj Hji Hy. apply (HN (S j) y); cbn; auto; lia.
      + exists (g c ++ l1), l2. cbn [flat_map nth]. rewrite E, app_assoc. split; auto. intros y [Hy|Hy]; [|apply HE; auto].
        apply in_app_or in Hy as [Hy|Hy]; [|apply HE; auto]. apply (HN 0%nat y); cbn; auto; lia. }
  destruct E as (l1 & l2 & E & HE). rewrite E in HO. apply own_app_r in HO; [|intros y Hy; apply HE; auto]. apply own_app_l in HO; auto.
Qed.
Lemma lc_sync_filter enc K sy ap am : forall (cs : list R) xs b, lcells_at b xs -> length xs = length cs -> (sy < b)%nat -> sy <> ap -> sy <> am ->
  filter (fun y => (s_post y =? sy)%nat) (flat_map (lcell_syns enc K sy ap am) (combine cs xs)) =
  flat_map (fun x => [mks (ll_p x) sy SynV (ndiv we (nofZ (Z.of_nat K))) cTsyn; mks (ll_m x) sy SynV (ndiv we (nofZ (Z.of_nat K))) cTsyn]) xs.
Proof.
  induction cs as [|c cs IH]; intros xs b H HL H1 H2 H3; destruct xs as [|x xs]; try discriminate HL; [reflexivity|].
  destruct H as [E H]. cbn [combine flat_map]. rewrite filter_app, (IH _ (6 + b)%nat); auto; try lia. f_equal.
  nodes_eqs E. unfold lcell_syns. cbn [fst snd]. destruct (ngtb c nzero); filt; reflexivity.
Qed.
Lemma lc_acc_filter enc K sy ap am s : forall (cs : list R) xs b, lcells_at b xs -> length xs = length cs -> (ap < b)%nat -> (am < b)%nat -> sy <> ap -> sy <> am -> ap <> am ->
  let t := if s : bool then ap else am in
  filter (fun y => (s_post y =? t)%nat) (flat_map (lcell_syns enc K sy ap am) (combine cs xs)) =
  flat_map (fun p => let b := Bool.eqb s (cpos (fst p)) in
      [mks (lfs b (snd p)) t SynGe (Rabs (fst p) * wacc_of enc) (nadd cTsyn (Tmin enc)); mks (lls b (snd p)) t SynGe (- Rabs (fst p) * wacc_of enc) cTsyn])
      (combine cs xs).
Proof.
  induction cs as [|c cs IH]; intros xs b H HL H1 H2 H3 H4 H5 t; destruct xs as [|x xs]; try discriminate HL; [reflexivity|].
  destruct H as [E H]. cbn [combine flat_map]. rewrite filter_app. unfold t. rewrite (IH _ (6 + b)%nat); auto; try lia. f_equal.
  nodes_eqs E. unfold lcell_syns, cpos. cbn [fst snd]. destruct (ngtb c nzero), s; cbn [Bool.eqb lfs lls]; filt; reflexivity.
Qed.
Lemma sb_posts enc m b y : sb_nodes m = seq b 9 -> In y (sb_syns (T := R) enc m) -> (b + 2 <= s_post y < b + 9)%nat.
Proof.
  intros H3 Hy. unfold sb_nodes in H3. nodes_eqs H3. unfold sb_syns in Hy. cbn [In] in Hy.
  repeat (destruct Hy as [<-|Hy]; [cbn [s_post syn]; lia|]). destruct Hy.
Qed.
Lemma sy_posts enc K sync cs y : forall b, cells_at b cs -> In y (flat_map (cell_syns (T := R) enc K sync) cs) ->
  s_post y = sync \/ exists i, (i < length cs)%nat /\ (b + 10 * i < s_post y < b + 10 * i + 10)%nat.
Proof.
  intros b HC Hy. apply in_flat_map in Hy as (c & Hc & Hy). apply (In_nth _ _ cell0) in Hc as (j & Hj & <-).
  destruct (cells_at_nth cs b j HC Hj) as (F1 & F2 & F3). destruct (cell_posts enc K sync _ _ y F1 F2 F3 Hy) as [?|?]; auto. right. exists j. auto.
Qed.

Lemma lc_ins_of N (enc : encoder R) (cs : list R) l b :
  lc_own l = seq b 10 -> sy_sync (lc_sync_net l) = (10 + b)%nat -> cells_at (11 + b) (sy_cells (lc_sync_net l)) ->
  length (sy_cells (lc_sync_net l)) = 2%nat -> sb_nodes (lc_sub_net l) = seq (31 + b) 9 ->
  lcells_at (40 + b) (lc_cells l) -> length (lc_cells l) = length cs ->
  (forall n, (b <= n < b + 40)%nat \/ (exists i c, (i < length cs)%nat /\ (2 <= c < 6)%nat /\ n = (40 + b + 6 * i + c)%nat) ->
     own N (lc_syns enc (length cs) cs l) n) ->
  lc_in N (wacc_of enc) (Tmin enc) l cs.
Proof.
  intros E1 E2 E3 E4 E5 E6 E7 HO.
  set (SY := sy_syns enc 2 (lc_sync_net l)) in *. set (SB := sb_syns enc (lc_sub_net l)) in *.
  set (LC := flat_map (lcell_syns enc (length cs) (lc_sync l) (lc_acc1_plus l) (lc_acc1_minus l)) (combine cs (lc_cells l))).
  match eval unfold lc_syns in (lc_syns enc (length cs) cs l) with context [_ ++ _ ++ ?M ++ _] => set (MID := M : list (synapse R)) end.
  assert (EA : lc_syns enc (length cs) cs l = SY ++ SB ++ MID ++ LC) by reflexivity.
  assert (PSY : forall y, In y SY -> (10 + b <= s_post y < 31 + b)%nat /\ s_post y <> (11 + b)%nat /\ s_post y <> (21 + b)%nat).
  { intros y Hy. destruct (sy_posts enc 2 _ _ y _ E3 Hy) as [Z|(i & Hi & Z)]; [rewrite Z, E2; lia|]. rewrite E4 in Hi. destruct i as [|[|]]; lia. }
  assert (PSB : forall y, In y SB -> (33 + b <= s_post y < 40 + b)%nat).
  { intros y Hy. pose proof (sb_posts _ _ _ _ E5 Hy). lia. }
  unfold lc_own in E1. nodes_eqs E1.
  assert (PLC : forall y, In y LC -> (42 + b <= s_post y)%nat \/ s_post y = lc_sync l \/ s_post y = lc_acc1_plus l \/ s_post y = lc_acc1_minus l).
  { intros y Hy. destruct (lcells_posts _ _ _ _ _ _ _ _ _ E6 Hy) as [?|[?|[?|?]]]; auto. left. lia. }
  pose proof (cells_at_nth _ _ 0 E3 ltac:(lia)) as (C0 & C0' & C0m). pose proof (cells_at_nth _ _ 1 E3 ltac:(lia)) as (C1 & C1' & C1m).
  change (cel (sy_cells (lc_sync_net l)) 0) with (lc_ch l 0) in *. change (cel (sy_cells (lc_sync_net l)) 1) with (lc_ch l 1) in *.
  pose proof E5 as E5'. unfold sb_nodes in E5'. nodes_eqs E5'.
  assert (PM : forall y, In y MID -> (s_post y < 10 + b)%nat \/ s_post y = (11 + b)%nat \/ s_post y = (21 + b)%nat \/ s_post y = (31 + b)%nat \/ s_post y = (32 + b)%nat).
  { intros y Hy. unfold MID in Hy. cbn [In] in Hy. repeat (destruct Hy as [<-|Hy]; [cbn [s_post syn]; lia|]). destruct Hy. }
  assert (PM' : forall y, In y MID -> s_post y <> lc_sync l).
  { intros y Hy. unfold MID in Hy. cbn [In] in Hy. repeat (destruct Hy as [<-|Hy]; [cbn [s_post syn]; lia|]). destruct Hy. }
  (* ownership by part *)
  assert (OSY : forall n, (10 + b <= n < 31 + b)%nat -> n <> (11 + b)%nat -> n <> (21 + b)%nat -> own N SY n).
  { intros n Hn N1 N2. pose proof (HO n ltac:(left; lia)) as O. rewrite EA in O. apply own_app_l in O; auto.
    intros y Hy. apply in_app_or in Hy as [Hy|Hy]; [apply PSB in Hy; lia|]. apply in_app_or in Hy as [Hy|Hy]; [apply PM in Hy; lia|apply PLC in Hy; lia]. }
  assert (OSB : forall n, (33 + b <= n < 40 + b)%nat -> own N SB n).
  { intros n Hn. pose proof (HO n ltac:(left; lia)) as O. rewrite EA in O. apply own_app_r in O; [|intros y Hy; apply PSY in Hy; lia]. apply own_app_l in O; auto.
    intros y Hy. apply in_app_or in Hy as [Hy|Hy]; [apply PM in Hy; lia|apply PLC in Hy; lia]. }
  assert (OML : forall n, (n < 10 + b \/ n = 11 + b \/ n = 21 + b \/ n = 31 + b \/ n = 32 + b)%nat -> (b <= n)%nat -> own N (MID ++ LC) n).
  { intros n Hn Hb. pose proof (HO n ltac:(left; lia)) as O. rewrite EA in O. apply own_app_r in O; [|intros y Hy; apply PSY in Hy; lia].
    apply own_app_r in O; auto. intros y Hy. apply PSB in Hy. lia. }
  assert (OM : forall n, (n < 10 + b \/ n = 11 + b \/ n = 21 + b \/ n = 31 + b \/ n = 32 + b)%nat -> (b <= n)%nat ->
    n <> lc_sync l -> n <> lc_acc1_plus l -> n <> lc_acc1_minus l -> own N MID n).
  { intros n Hn Hb N1 N2 N3. eapply own_app_l; [apply OML; eauto|]. intros y Hy. apply PLC in Hy. lia. }
  assert (OLC : forall i c, (i < length cs)%nat -> (2 <= c < 6)%nat ->
    own N (lcell_syns enc (length cs) (lc_sync l) (lc_acc1_plus l) (lc_acc1_minus l) (nth i cs 0, lcl (lc_cells l) i)) (40 + b + 6 * i + c)).
  { intros i c Hi Hc. set (n := (40 + b + 6 * i + c)%nat). pose proof (HO n ltac:(right; exists i, c; auto)) as O. rewrite EA in O.
    apply own_app_r in O; [|intros y Hy; apply PSY in Hy; unfold n; lia]. apply own_app_r in O; [|intros y Hy; apply PSB in Hy; unfold n; lia].
    apply own_app_r in O; [|intros y Hy; apply PM in Hy; unfold n; lia]. unfold LC in O.
    unfold lcl. rewrite <- combine_nth by auto. apply own_nth; auto; [rewrite combine_length; lia|].
    intros j y Hj Hji Hy. rewrite combine_length in Hj. rewrite combine_nth in Hy by auto.
    pose proof (lcells_at_nth _ _ j E6 ltac:(lia)) as X. cbv zeta in X. destruct (lcell_posts _ _ _ _ _ _ _ _ _ X Hy); unfold n; lia. }
  assert (MN : forall n L, own N MID n -> filter (fun y => (s_post y =? n)%nat) MID = L -> ins N n L) by (intros; eapply own_ins; eauto).
  destruct (sy_ins_of N enc 2 (sy_sync (lc_sync_net l)) (sy_cells (lc_sync_net l)) (11 + b) E3 ltac:(lia)) as [HI1 HI2].
  { apply OSY; lia. }
  { intros i n Hi Hn. apply OSY.
    all: rewrite E4 in Hi; unfold c_internal in Hn; destruct i as [|[|]]; [change (cel (sy_cells (lc_sync_net l)) 0) with (lc_ch l 0) in *; rewrite C0', C0m in Hn
      |change (cel (sy_cells (lc_sync_net l)) 1) with (lc_ch l 1) in *; rewrite C1', C1m in Hn|lia]; destruct Hn as [<-|Hn]; try (apply in_seq in Hn); lia. }
  constructor; auto.
  - intros i bb Hi x. pose proof (lcells_at_nth _ _ i E6 ltac:(lia)) as X. cbv zeta in X. fold x in X. nodes_eqs X.
    destruct bb; cbn [lfs lis].
    + eapply own_ins; [replace (lf_p x) with (40 + b + 6 * i + 2)%nat by lia; apply OLC; lia|]. fold x. unfold lcell_syns. cbn [fst snd].
      destruct (ngtb _ _); filt; reflexivity.
    + eapply own_ins; [replace (lf_m x) with (40 + b + 6 * i + 3)%nat by lia; apply OLC; lia|]. fold x. unfold lcell_syns. cbn [fst snd].
      destruct (ngtb _ _); filt; reflexivity.
  - intros i bb Hi x. pose proof (lcells_at_nth _ _ i E6 ltac:(lia)) as X. cbv zeta in X. fold x in X. nodes_eqs X.
    destruct bb; cbn [lls lis].
    + eapply own_ins; [replace (ll_p x) with (40 + b + 6 * i + 4)%nat by lia; apply OLC; lia|]. fold x. unfold lcell_syns. cbn [fst snd].
      destruct (ngtb _ _); filt; reflexivity.
    + eapply own_ins; [replace (ll_m x) with (40 + b + 6 * i + 5)%nat by lia; apply OLC; lia|]. fold x. unfold lcell_syns. cbn [fst snd].
      destruct (ngtb _ _); filt; reflexivity.
  - eapply own_ins; [eapply own_app_r; [apply OML; lia|exact PM']|]. unfold LC. rewrite (lc_sync_filter _ _ _ _ _ _ _ _ E6 E7) by lia.
    rewrite ndiv_R, nofZ_R, <- INR_IZR_INZ. reflexivity.
  - intros s. eapply own_ins; [apply OML; destruct s; cbn [acc1]; lia|]. rewrite filter_app. unfold LC.
    pose proof (lc_acc_filter enc (length cs) (lc_sync l) (lc_acc1_plus l) (lc_acc1_minus l) s cs (lc_cells l) (40 + b) E6 E7) as Z.
    cbv zeta in Z. unfold acc1. rewrite Z by lia. match goal with |- ?x ++ _ = ?h :: _ => assert (x = [h]) as -> ; [|reflexivity] end.
    unfold MID. destruct s; filt; reflexivity.
  - intros s. apply MN; [apply OM; destruct s; cbn [acc2]; lia|]. unfold MID. destruct s; cbn [acc2]; filt; reflexivity.
  - intros s. apply MN; [apply OM; destruct s; cbn [inter]; lia|]. unfold MID. destruct s; cbn [inter acc1 acc2]; filt; reflexivity.
  - intros s. apply MN; [apply OM; destruct s; cbn [ix]; lia|]. unfold MID. destruct s; cbn [ix inter]; filt; reflexivity.
  - intros s. apply MN; [apply OM; destruct s; cbn [sbi]; lia|]. unfold MID. destruct s; cbn [sbi ix]; filt; reflexivity.
  - intros s. apply MN; [apply OM; destruct s; cbn [outp]; lia|]. unfold MID. destruct s; cbn [outp sbo]; filt; reflexivity.
  - apply (sb_ins_of N enc _ (31 + b)); auto. intros n Hn. apply OSB. unfold sb_internal in Hn. cbn [In] in Hn. lia.
  - rewrite E4 in HI2. auto.
Qed.
