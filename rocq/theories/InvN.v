(** InvertingMemoryNetwork: any number of stores before one recall (C71): the stored values add up. *)
From Coq Require Import Arith ZArith Bool List Reals Lra Lia Permutation.
From Verif Require Import Num Heapq Elements Simulator Networks Trace SimTrace SimProps TraceProps NeuronLib NetLib Build BuildNets Bridge MemoryProof GeLib Session SegLib SimpleNets InvMem Restart MemReuse Reuse Jobs Settle RestFun LinComb MemTwo MemSpur InvTwo.
Import ListNotations.
Open Scope R_scope.
Open Scope list_scope.

(** pairs of arrivals, each pair D or more apart and after the one before *)
Fixpoint chain (D lo : nat) (l : list (nat * nat)) : Prop :=
  match l with [] => True | (a, b) :: r => (lo < a)%nat /\ (a + D <= b)%nat /\ chain D b r end.
Definition flat2 (l : list (nat * nat)) : list nat := flat_map (fun p => [fst p; snd p]) l.

Definition Lf (D : nat) (l : list (nat * nat)) : list (nat * R) := flat_map (fun p => [(fst p, 10); ((fst p + D)%nat, -10); (snd p, 10)]) l.
Definition Ll (l : list (nat * nat)) : list (nat * R) := flat_map (fun p => [(fst p, 5); (snd p, 5)]) l.

Lemma chain_late D l : forall lo, chain D lo l -> forall p, In p l -> (lo < fst p)%nat /\ (lo < snd p)%nat.
Proof.
  induction l as [|[a b] l IH]; intros lo H p Hp; [destruct Hp|]. destruct H as (H1 & H2 & H3). destruct Hp as [<-|Hp]; cbn [fst snd]; [lia|].
  destruct (IH b H3 p Hp). lia.
Qed.
Lemma vsum_late L a k : (forall p, In p L -> (k < fst p)%nat) -> vsum L a k = 0.
Proof.
  intros H. unfold vsum. rewrite (sumf_ext _ (fun _ => 0)); [apply sumf_0|]. intros p Hp. specialize (H p Hp).
  rewrite (proj2 (Nat.leb_gt _ _)) by lia. rewrite andb_false_r. reflexivity.
Qed.
Lemma segs_old p L F : forall a, (fst p <= a)%nat -> segs L a F -> segs (p :: L) a F.
Proof.
  assert (E : forall a k, (fst p <= a)%nat -> vsum (p :: L) a k = vsum L a k).
  { intros a k Ha. destruct p as [t w]. cbn [fst] in Ha. rewrite vsum_cons. rewrite (proj2 (Nat.ltb_ge _ _)) by lia. cbn [andb]. lra. }
  induction F as [|f F IH]; intros a Ha H; cbn [segs] in *.
  - intros k Hk. rewrite E by auto. apply H; auto.
  - destruct H as (H1 & H2 & H3 & H4). split; [auto|]. split; [intros k Hk; rewrite E by auto; apply H2; auto|]. split; [rewrite E by auto; auto|]. apply IH; auto. lia.
Qed.
Lemma Lf_late D l k : (forall p, In p l -> (k < fst p)%nat /\ (k < snd p)%nat) -> forall q, In q (Lf D l) -> (k < fst q)%nat.
Proof.
  intros H q Hq. unfold Lf in Hq. apply in_flat_map in Hq. destruct Hq as (p & Hp & Hq). destruct (H p Hp).
  cbn [In] in Hq. destruct Hq as [<-|[<-|[<-|[]]]]; cbn [fst]; lia.
Qed.
Lemma Ll_late l k : (forall p, In p l -> (k < fst p)%nat /\ (k < snd p)%nat) -> forall q, In q (Ll l) -> (k < fst q)%nat.
Proof.
  intros H q Hq. unfold Ll in Hq. apply in_flat_map in Hq. destruct Hq as (p & Hp & Hq). destruct (H p Hp).
  cbn [In] in Hq. destruct Hq as [<-|[<-|[]]]; cbn [fst]; lia.
Qed.
Lemma Lf_cons D a b l : Lf D ((a, b) :: l) = (a, 10) :: ((a + D)%nat, -10) :: (b, 10) :: Lf D l. Proof. reflexivity. Qed.
Lemma Ll_cons a b l : Ll ((a, b) :: l) = (a, 5) :: (b, 5) :: Ll l. Proof. reflexivity. Qed.

Lemma segs_Lf D l : (1 <= D)%nat -> forall c b, (c + D <= b)%nat -> chain D b l -> segs (((c + D)%nat, -10) :: (b, 10) :: Lf D l) c (map fst l).
Proof.
  intros HD. induction l as [|[a b'] l IH]; intros c b Hcb H; cbn [map segs fst].
  - intros k Hk. cbn [Lf flat_map]. rewrite !vsum_cons, vsum_nil. ltbs; leb_cases; cbn [andb]; first [lra|exfalso; lia].
  - destruct H as (H1 & H2 & H3). pose proof (chain_late _ _ _ H3) as HL.
    assert (Z : forall k, (k <= b')%nat -> vsum (Lf D l) c k = 0).
    { intros k Hk. apply vsum_late. apply Lf_late. intros p Hp. destruct (HL p Hp). lia. }
    split; [lia|]. split; [|split].
    + intros k Hk. rewrite Lf_cons, !vsum_cons, Z by lia. ltbs; leb_cases; cbn [andb]; first [lra|exfalso; lia].
    + rewrite Lf_cons, !vsum_cons, Z by lia. ltbs; leb_cases; cbn [andb]; first [lra|exfalso; lia].
    + rewrite Lf_cons. apply segs_old; [cbn; lia|]. apply segs_old; [cbn; lia|]. apply segs_old; [cbn; lia|]. apply IH; auto.
Qed.
Lemma segs_Lf0 D l : (1 <= D)%nat -> chain D 0 l -> segs (Lf D l) 0 (map fst l).
Proof.
  intros HD H. destruct l as [|[a b] l].
  - cbn [map segs Lf flat_map]. intros k Hk. rewrite vsum_nil. lra.
  - destruct H as (H1 & H2 & H3). pose proof (chain_late _ _ _ H3) as HL.
    assert (Z : forall k, (k <= b)%nat -> vsum (Lf D l) 0 k = 0).
    { intros k Hk. apply vsum_late. apply Lf_late. intros p Hp. destruct (HL p Hp). lia. }
    cbn [map segs fst]. split; [lia|]. split; [|split].
    + intros k Hk. rewrite Lf_cons, !vsum_cons, Z by lia. ltbs; leb_cases; cbn [andb]; first [lra|exfalso; lia].
    + rewrite Lf_cons, !vsum_cons, Z by lia. ltbs; leb_cases; cbn [andb]; first [lra|exfalso; lia].
    + rewrite Lf_cons. apply segs_old; [cbn; lia|]. apply segs_Lf; auto.
Qed.
Lemma segs_Ll D l : (1 <= D)%nat -> forall lo, chain D lo l -> segs (Ll l) lo (map snd l).
Proof.
  intros HD. induction l as [|[a b] l IH]; intros lo H; cbn [map segs snd].
  - intros k Hk. cbn [Ll flat_map]. rewrite vsum_nil. lra.
  - destruct H as (H1 & H2 & H3). pose proof (chain_late _ _ _ H3) as HL.
    assert (Z : forall k, (k <= b)%nat -> vsum (Ll l) lo k = 0).
    { intros k Hk. apply vsum_late. apply Ll_late. intros p Hp. destruct (HL p Hp). lia. }
    split; [lia|]. split; [|split].
    + intros k Hk. rewrite Ll_cons, !vsum_cons, Z by lia. ltbs; leb_cases; cbn [andb]; first [lra|exfalso; lia].
    + rewrite Ll_cons, !vsum_cons, Z by lia. ltbs; leb_cases; cbn [andb]; first [lra|exfalso; lia].
    + rewrite Ll_cons. apply segs_old; [cbn; lia|]. apply segs_old; [cbn; lia|]. apply IH; auto.
Qed.
Lemma chain_fst_nodup D l : forall lo, chain D lo l -> NoDup (map fst l) /\ (forall j, In j (map fst l) -> (lo < j)%nat).
Proof.
  induction l as [|[a b] l IH]; intros lo H; cbn [map fst]; [split; [constructor|intros j []]|]. destruct H as (H1 & H2 & H3). destruct (IH b H3) as [N1 N2].
  split; [constructor; auto; intros Hi; specialize (N2 a Hi); lia|]. intros j [<-|Hj]; [lia|]. specialize (N2 j Hj). lia.
Qed.
Lemma chain_snd_nodup D l : (1 <= D)%nat -> forall lo, chain D lo l -> NoDup (map snd l) /\ (forall j, In j (map snd l) -> (lo < j)%nat).
Proof.
  intros HD. induction l as [|[a b] l IH]; intros lo H; cbn [map snd]; [split; [constructor|intros j []]|]. destruct H as (H1 & H2 & H3). destruct (IH b H3) as [N1 N2].
  split; [constructor; auto; intros Hi; specialize (N2 b Hi); lia|]. intros j [<-|Hj]; [lia|]. specialize (N2 j Hj). lia.
Qed.
Lemma evw_Lf D l k : evw (Lf D l) k = 10 * cnt k (flat2 l) - 10 * cnt k (map (fun j => (j + D)%nat) (map fst l)).
Proof.
  induction l as [|[a b] l IH]; [unfold flat2, Lf, Ll; cbn [flat_map map]; rewrite evw_nil, ?cnt_nil; lra|]. rewrite Lf_cons. unfold flat2 in *. cbn [flat_map map fst snd app]. rewrite !evw_cons, !cnt_cons, IH. lra.
Qed.
Lemma evw_Ll l k : evw (Ll l) k = 5 * cnt k (flat2 l).
Proof.
  induction l as [|[a b] l IH]; [unfold flat2, Lf, Ll; cbn [flat_map map]; rewrite evw_nil, ?cnt_nil; lra|]. rewrite Ll_cons. unfold flat2 in *. cbn [flat_map map fst snd app]. rewrite !evw_cons, !cnt_cons, IH. lra.
Qed.
Lemma first_n N i f l : ins N f [mks i f SynV we cTsyn; mks f f SynV wi cTsyn] ->
  arrs N i cTsyn (flat2 l) -> chain (step_at (t_dt N) 1) 0 l -> spikes_at N f (map fst l).
Proof.
  intros H HA HC. pose proof (step_at_ge1 (t_dt N) 1) as HD. set (D1 := step_at (t_dt N) 1) in *.
  assert (HV : vonly N f) by (eapply ins_vonly; eauto; repeat constructor).
  destruct (chain_fst_nodup _ _ _ HC) as [ND NP].
  set (g0 := {| g_n := f; g_S := map fst l; g_L := Lf D1 l |}).
  apply (seg_group N [g0]) with (g := g0); [| |left; auto].
  - intros g [<-|[]]. cbn [g_n g_L g_S g0]. repeat split; auto; try apply H. apply segs_Lf0; auto.
  - intros K HK g [<-|[]]. cbn [g_n g_L g_S g0]. ev_input H. rewrite HA by lia.
    rewrite (arr_upto N f cTsyn (map fst l) K (S K)); try apply H; auto.
    + rewrite evw_Lf. autorewrite with netR. fold D1. lra.
    + intros j Hj. apply (HK g0); auto. left; auto.
Qed.
Lemma last_n N i f l D : (1 <= D)%nat -> ins N f [mks i f SynV (half we) cTsyn] ->
  arrs N i cTsyn (flat2 l) -> chain D 0 l -> spikes_at N f (map snd l).
Proof.
  intros HD H HA HC. apply (seg_spikes N f (Ll l)); [apply H|eapply ins_vonly; eauto; repeat constructor| |].
  - eapply segs_Ll; eauto.
  - intros k Hk. ev_input H. rewrite HA by auto. rewrite evw_Ll. autorewrite with netR. lra.
Qed.

(** ** the accumulator *)
Lemma evw_app L L' k : evw (L ++ L') k = evw L k + evw L' k.
Proof. unfold evw. apply sumf_app. Qed.
Definition La (Dm D1 : nat) (w : R) (l : list (nat * nat)) : list (nat * R) := flat_map (fun p => [((fst p + Dm)%nat, w); ((snd p + D1)%nat, - w)]) l.
Fixpoint chg (Dm D1 k : nat) (l : list (nat * nat)) : Z :=
  match l with [] => 0%Z | (a, b) :: r => (Z.of_nat (k - (a + Dm)) - Z.of_nat (k - (b + D1)) + chg Dm D1 k r)%Z end.
(** the charge a store leaves, and its positive part *)
Definition lft (Dm D1 : nat) (p : nat * nat) : Z := (Z.of_nat (snd p + D1) - Z.of_nat (fst p + Dm))%Z.
Fixpoint tot (Dm D1 : nat) (l : list (nat * nat)) : Z := match l with [] => 0%Z | p :: r => (lft Dm D1 p + tot Dm D1 r)%Z end.
Fixpoint ptot (Dm D1 : nat) (l : list (nat * nat)) : Z := match l with [] => 0%Z | p :: r => (Z.max 0 (lft Dm D1 p) + ptot Dm D1 r)%Z end.
Lemma chg_le Dm D1 k l : (chg Dm D1 k l <= ptot Dm D1 l)%Z.
Proof. induction l as [|[a b] l IH]; cbn [chg ptot]; [lia|]. unfold lft. cbn [fst snd]. lia. Qed.
Lemma chg_tot Dm D1 k l : (forall p, In p l -> (fst p + Dm <= k)%nat /\ (snd p + D1 <= k)%nat) -> chg Dm D1 k l = tot Dm D1 l.
Proof.
  induction l as [|[a b] l IH]; intros H; cbn [chg tot]; [reflexivity|]. rewrite IH by (intros; apply H; right; auto).
  destruct (H (a, b) (or_introl eq_refl)) as [A B]. cbn [fst snd] in *. unfold lft. cbn [fst snd]. lia.
Qed.
Lemma tot_ptot Dm D1 l : (tot Dm D1 l <= ptot Dm D1 l)%Z.
Proof. induction l as [|p l IH]; cbn [tot ptot]; lia. Qed.
Lemma vlin_La Dm D1 w l k : vlin (La Dm D1 w l) k = w * IZR (chg Dm D1 (S k) l).
Proof.
  induction l as [|[a b] l IH]; cbn [La flat_map chg].
  - rewrite vlin_nil. lra.
  - cbn [app fst snd]. rewrite !vlin_cons. change (flat_map _ l) with (La Dm D1 w l). rewrite IH, plus_IZR, minus_IZR, <- !INR_IZR_INZ. lra.
Qed.
Lemma evw_La Dm D1 w l k : evw (La Dm D1 w l) k = w * cnt k (map (fun j => (j + Dm)%nat) (map fst l)) - w * cnt k (map (fun j => (j + D1)%nat) (map snd l)).
Proof.
  induction l as [|[a b] l IH]; cbn [La flat_map map fst snd]; [rewrite evw_nil, !cnt_nil; lra|].
  cbn [app]. rewrite !evw_cons, !cnt_cons. change (flat_map _ l) with (La Dm D1 w l). rewrite IH. lra.
Qed.

Section IN.
Variable N : tnet.
Variable m : invmem_net.
Variables Tmax tmin : R.
Let dt := t_dt N.
Hypothesis Hdt : 0 < dt.
Hypothesis HTmax : 0 < Tmax.
Hypothesis HM : invm_in N (1000 / Tmax) tmin m.
Let D1 := step_at dt 1.
Let Dm := step_at dt (1 + tmin).
Let M := step_at dt Tmax.
Variable l : list (nat * nat).
Hypothesis Hin : arrs N (im_input m) 1 (flat2 l).
Hypothesis Hc : chain D1 0 l.
Variables r1 q : nat.
Hypothesis Hr1 : arrs N (im_recall m) 1 [r1].
Hypothesis Hq : arrs N (im_recall m) (2 + / 100) [q].
Hypothesis Hq1 : (1 <= q)%nat.
Hypothesis Hr1p : (1 <= r1)%nat.
Hypothesis Hlate : forall p, In p l -> (fst p + Dm < r1)%nat /\ (snd p + D1 < r1)%nat.
Hypothesis Hp : (ptot Dm D1 l < Z.of_nat M)%Z.
Let G := Z.to_nat (Z.of_nat r1 - 1 + Z.of_nat M - tot Dm D1 l).
Lemma in_first : spikes_at N (im_first m) (map fst l).
Proof. eapply first_n; [apply (ii_first _ _ _ _ HM)|rewrite cTsyn_R; eauto|auto]. Qed.
Lemma in_last : spikes_at N (im_last m) (map snd l).
Proof. eapply last_n; [apply (step_at_ge1 dt 1)|apply (ii_last _ _ _ _ HM)|rewrite cTsyn_R; eauto|auto]. Qed.
Lemma in_acc : spikes_at N (im_acc m) [G].
Proof.
  pose proof (ii_acc _ _ _ _ HM) as H. pose proof (step_at_ge1 dt 1) as G1. fold D1 in G1. pose proof (step_at_ge1 dt (1 + tmin)) as G2. fold Dm in G2.
  pose proof (tot_ptot Dm D1 l) as TP. destruct (chain_fst_nodup _ _ _ Hc) as [N1 N2]. destruct (chain_snd_nodup _ _ G1 _ Hc) as [N3 N4].
  set (w := 1000 / Tmax). set (L := La Dm D1 w l ++ [(r1, w)]).
  assert (V : forall k, vlin L k = w * IZR (chg Dm D1 (S k) l + Z.of_nat (S k - r1))).
  { intros k. unfold L. rewrite vlin_app, vlin_La, vlin_cons, vlin_nil, plus_IZR, <- INR_IZR_INZ. lra. }
  assert (EG : (Z.of_nat G = Z.of_nat r1 - 1 + Z.of_nat M - tot Dm D1 l)%Z) by (unfold G; rewrite Z2Nat.id; lia).
  assert (HL : forall p, In p L -> (1 <= fst p)%nat /\ (fst p <= r1)%nat).
  { intros p Hi. unfold L in Hi. apply in_app_iff in Hi. destruct Hi as [Hi|[<-|[]]]; [|cbn; lia].
    unfold La in Hi. apply in_flat_map in Hi. destruct Hi as (x & Hx & Hi). destruct (Hlate x Hx). cbn [In] in Hi. destruct Hi as [<-|[<-|[]]]; cbn [fst]; lia. }
  apply (geonly_once N (im_acc m) L).
  - apply H.
  - eapply ins_geonly; eauto; repeat constructor.
  - intros p Hi. apply HL; auto.
  - lia.
  - intros k Hk. ev_input H.
    rewrite (arrs_spikes N (im_first m) (nadd cTsyn tmin) (map fst l)); auto using in_first; [|apply (ins_ext _ _ _ (ii_first _ _ _ _ HM))].
    rewrite (arrs_spikes N (im_last m) cTsyn (map snd l)); auto using in_last; [|apply (ins_ext _ _ _ (ii_last _ _ _ _ HM))].
    autorewrite with netR. rewrite (Hr1 k Hk). unfold L. rewrite evw_app, evw_La. ev_simpl. fold dt D1 w. change (step_at dt (nadd 1%R tmin)) with Dm. lra.
  - intros k Hk. fold dt. rewrite V. apply unit_lt; auto. fold M. destruct (Nat.lt_ge_cases (S k) r1) as [C|C].
    + pose proof (chg_le Dm D1 (S k) l). lia.
    + rewrite chg_tot; [|intros p Hi; destruct (Hlate p Hi); lia]. lia.
  - fold dt. rewrite V. apply unit_ge; auto. fold M. rewrite chg_tot; [|intros p Hi; destruct (Hlate p Hi); lia]. lia.
  - intros p Hi. destruct (HL p Hi). lia.
Qed.
Lemma in_output : q <> (G + D1)%nat -> spikes_at N (im_output m) [q; (G + D1)%nat].
Proof.
  intros Hne. pose proof (ii_output _ _ _ _ HM) as H. pose proof (tot_ptot Dm D1 l) as TP.
  assert (G1 : (1 <= G)%nat) by (unfold G; lia).
  apply two_spikes; auto; [apply H| |lia|].
  - eapply ins_vonly; eauto; repeat constructor.
  - intros k Hk. ev_input H.
    rewrite (arrs_1 N _ _ _ D1 G (ii_acc _ _ _ _ HM) in_acc); auto.
    netr. replace (2 * 1 + / 100) with (2 + / 100) by lra. rewrite (Hq k Hk). ev_simpl. lra.
Qed.
End IN.

(** ** on Simulator *)
Definition sumx (sts : list (R * R)) : R := fold_right (fun p s => fst p + s) 0 sts.
(** values in range, each store after the one before it is complete, the recall after the last *)
Fixpoint stores_ok (tmin tcod dt from : R) (sts : list (R * R)) (tr : R) : Prop :=
  match sts with
  | [] => from + 1 <= tr
  | (x, t) :: r => 0 <= x <= 1 /\ from <= t /\ stores_ok tmin tcod dt (t + (tmin + tcod) + 3 * dt) r tr
  end.
Definition in_prs (tmin tcod dt : R) (sts : list (R * R)) : list (nat * nat) :=
  map (fun p => (step_at dt (snd p + 1), step_at dt (snd p + (tmin + fst p * tcod) + 1))) sts.
Section InSess.
Variables tmin tcod dt : R.
Hypothesis Hdt : 0 < dt <= 1 / 4.
Hypothesis Htc : 0 < tcod.
Hypothesis Htm : 1 + dt <= tmin.
Let D1 := step_at dt 1.
Let Dm := step_at dt (1 + tmin).
Lemma xtc x : 0 <= x <= 1 -> 0 <= x * tcod <= tcod.
Proof. intros. split; [apply Rmult_le_pos; lra|rewrite <- (Rmult_1_l tcod) at 2; apply Rmult_le_compat_r; lra]. Qed.
Lemma stores_from sts tr : forall from, stores_ok tmin tcod dt from sts tr -> from + 1 <= tr.
Proof. induction sts as [|[x t] sts IH]; intros from H; cbn [stores_ok] in H; [auto|]. destruct H as (_ & H1 & H2). apply IH in H2. lra. Qed.
Lemma stores_facts sts tr : forall from lo, 0 <= from -> stores_ok tmin tcod dt from sts tr -> INR lo * dt < from + 1 ->
  let l := in_prs tmin tcod dt sts in
  chain D1 lo l /\ (forall p, In p l -> (fst p + Dm < step_at dt (tr + 1))%nat /\ (snd p + D1 < step_at dt (tr + 1))%nat) /\
  IZR (ptot Dm D1 l) * dt <= sumx sts * tcod + 2 * INR (length sts) * dt /\
  Rabs (IZR (tot Dm D1 l) * dt - sumx sts * tcod) <= 2 * INR (length sts) * dt /\
  Forall (fun p => 0 <= fst p <= 1 /\ 0 <= snd p) sts.
Proof.
  destruct Hdt as [Hd Hd2].
  pose proof (step_at_bounds dt 1 Hd ltac:(lra)) as BD1. pose proof (step_at_bounds dt (1 + tmin) Hd ltac:(lra)) as BDm. fold D1 in BD1. fold Dm in BDm.
  assert (NL : forall i j, INR i * dt < INR j * dt + dt -> (i <= j)%nat).
  { intros i j Q. apply Nat.lt_succ_r. apply INR_lt. apply Rmult_lt_reg_r with dt; auto. rewrite S_INR. lra. }
  induction sts as [|[x t] sts IH]; intros from lo Hf H Hlo; cbn [stores_ok] in H; cbn [in_prs map chain sumx fold_right length tot ptot].
  - split; [auto|]. split; [intros p []|]. cbn [INR]. replace (0 * dt - 0 * tcod) with 0 by lra. rewrite Rabs_R0. split; [lra|]. split; [lra|constructor].
  - destruct H as (Hx & Ht & H). pose proof (xtc x Hx) as Hxc. pose proof (stores_from _ _ _ H) as HF. cbn [fst snd].
    pose proof (step_at_bounds dt (t + 1) Hd ltac:(lra)) as BA. pose proof (step_at_bounds dt (t + (tmin + x * tcod) + 1) Hd ltac:(lra)) as BB.
    pose proof (step_at_bounds dt (tr + 1) Hd ltac:(lra)) as BR.
    set (a := step_at dt (t + 1)) in *. set (b := step_at dt (t + (tmin + x * tcod) + 1)) in *. set (r1 := step_at dt (tr + 1)) in *.
    destruct (IH (t + (tmin + tcod) + 3 * dt) b ltac:(lra) H ltac:(lra)) as (I1 & I2 & I3 & I4 & I5). fold (in_prs tmin tcod dt sts).
    change (fold_right (fun p s => fst p + s) 0 sts) with (sumx sts).
    assert (EL : IZR (lft Dm D1 (a, b)) * dt = INR b * dt + INR D1 * dt - INR a * dt - INR Dm * dt).
    { unfold lft. cbn [fst snd]. rewrite minus_IZR, <- !INR_IZR_INZ, !plus_INR. lra. }
    split; [|split; [|split; [|split]]].
    + split; [|split].
      * apply NL. rewrite S_INR. lra.
      * apply NL. rewrite plus_INR. lra.
      * exact I1.
    + intros p [<-|Hp]; [|apply I2; auto]. cbn [fst snd]. split; apply NL; rewrite S_INR, plus_INR; lra.
    + rewrite plus_IZR, S_INR. rewrite (Rmult_plus_distr_r (IZR _)), (Rmult_plus_distr_r x).
      assert (IZR (Z.max 0 (lft Dm D1 (a, b))) * dt <= x * tcod + 2 * dt); [|lra].
      destruct (Z.max_spec 0 (lft Dm D1 (a, b))) as [[_ ->]|[_ ->]]; [rewrite EL; lra|lra].
    + rewrite plus_IZR, S_INR. apply Rabs_le. apply Rabs_def2' in I4 || (pose proof (Rle_abs (IZR (tot Dm D1 (in_prs tmin tcod dt sts)) * dt - sumx sts * tcod)) as U1; pose proof (Rle_abs (- (IZR (tot Dm D1 (in_prs tmin tcod dt sts)) * dt - sumx sts * tcod))) as U2; rewrite Rabs_Ropp in U2).
      rewrite (Rmult_plus_distr_r (IZR _)), (Rmult_plus_distr_r x). rewrite EL. lra.
    + constructor; [cbn [fst snd]; lra|exact I5].
Qed.
End InSess.

Definition in_stims (m : invmem_net) (sts : list (R * R)) (tr : R) : list stim :=
  map (fun p => SValue (fst p) (im_input m) (snd p)) sts ++ [SSpike (im_recall m) tr].
Lemma in_exts tmin tcod m sts tr n : im_input m <> im_recall m ->
  ext_spikes (exts (DataEncoder tmin tcod) (in_stims m sts tr)) n =
  if (n =? im_input m)%nat then flat_map (fun p => [snd p; snd p + (tmin + fst p * tcod)]) sts else if (n =? im_recall m)%nat then [tr] else [].
Proof.
  intros Hne. unfold in_stims, exts, ext_spikes. induction sts as [|[x t] sts IH].
  - cbn [map app flat_map stim_ext filter fst snd]. destruct (Nat.eqb_spec n (im_input m)), (Nat.eqb_spec n (im_recall m)), (Nat.eqb_spec (im_recall m) n); try congruence; reflexivity.
  - cbn [map app flat_map stim_ext filter fst snd DataEncoder Tmin Tcod].
    destruct (Nat.eqb_spec n (im_input m)), (Nat.eqb_spec (im_input m) n); try congruence; cbn [map app flat_map fst snd] in *; rewrite IH; reflexivity.
Qed.

Theorem invmemory_stores (tmin tcod dt : R) (sts : list (R * R)) (tr T : R) nm ord :
  0 < dt <= 1 / 4 -> 0 < tcod -> 1 + dt <= tmin -> stores_ok tmin tcod dt 0 sts tr ->
  (2 * INR (length sts) + 3) * dt + / 100 <= tmin + (1 - sumx sts) * tcod ->
  tr + 2 + (tmin + tcod) + (2 * INR (length sts) + 2) * dt <= T -> ord_ok ord ->
  exists m s, session (InvertingMemoryNetwork (DataEncoder tmin tcod) nm) im_mod (DataEncoder tmin tcod) dt
      (fun m => map (fun p => SValue (fst p) (im_input m) (snd p)) sts ++ [SSpike (im_recall m) tr]) ord T = Ok (m, s) /\
    pair_says (DataEncoder tmin tcod) (1 - sumx sts) (((2 * INR (length sts) + 2) * dt + / 100) / tcod) (spike_log s (im_output m)).
Proof.
  intros Hdt' Htc Htm HS Hsum HT HO. pose proof Hdt' as [Hdt Hdt2]. set (enc := DataEncoder tmin tcod). set (n := INR (length sts)) in *.
  assert (Hn : 0 <= n) by apply pos_INR. assert (Hnd : 0 <= n * dt) by (apply Rmult_le_pos; lra).
  assert (HTm : tmin + tcod <> 0) by lra.
  destruct (InvMemory_built enc nm empty_world inv_empty (neq0 _ HTm)) as (m & w & E & HB & HN & HL).
  cbn [w_neurons empty_world length Nat.add] in HN, HL.
  pose proof HN as HN'. unfold im_nodes in HN'. nodes_eqs HN'.
  destruct (stores_facts tmin tcod dt Hdt' Htc Htm sts tr 0 0 ltac:(lra) HS ltac:(cbn [INR]; lra)) as (F1 & F2 & F3 & F4 & F5).
  pose proof (stores_from tmin tcod dt Hdt' Htc Htm sts tr 0 HS) as HF.
  assert (HX : 0 <= sumx sts * tcod).
  { apply Rmult_le_pos; [|lra]. clear -F5. unfold sumx. induction F5 as [|p l H _ IH]; cbn [fold_right]; lra. }
  fold n in F3, F4. pose proof (Rle_abs (IZR (tot (step_at dt (1 + tmin)) (step_at dt 1) (in_prs tmin tcod dt sts)) * dt - sumx sts * tcod)) as U1.
  pose proof (Rle_abs (- (IZR (tot (step_at dt (1 + tmin)) (step_at dt 1) (in_prs tmin tcod dt sts)) * dt - sumx sts * tcod))) as U2. rewrite Rabs_Ropp in U2.
  destruct (session_built (InvertingMemoryNetwork enc nm) im_mod m w _ enc dt (fun m => in_stims m sts tr) ord T E HB Hdt) as (s & Es & HSe); auto.
  { rewrite !Rmult_plus_distr_r in *. lra. }
  { unfold in_stims. apply Forall_app. split; [|stims_ok]. apply Forall_map. eapply Forall_impl; [|exact F5]. intros [x t] [HHx _]. cbn [stim_ok fst snd] in *. split; [exact HHx|lia]. }
  exists m, s. split; [exact Es|]. rewrite <- emits_says.
  assert (Hne : im_input m <> im_recall m) by lia.
  set (N := net_of w (exts enc (in_stims m sts tr)) dt) in *.
  assert (HA1 : arrs N (im_input m) 1 (flat2 (in_prs tmin tcod dt sts))).
  { eapply (se_arrs _ _ _ _ _ _ _ _ HSe); [lia|syn_simp|apply in_exts; auto|]. rewrite Nat.eqb_refl.
    clear. unfold flat2, in_prs. induction sts as [|[x t] l IH]; cbn [map flat_map app fst snd]; [reflexivity|]. rewrite IH. reflexivity. }
  assert (HR : forall d, arrs N (im_recall m) d [step_at dt (tr + d)]).
  { intros d. eapply (se_arrs _ _ _ _ _ _ _ _ HSe); [lia|syn_simp|apply in_exts; auto|]. rewrite Nat.eqb_refl, (proj2 (Nat.eqb_neq _ _)) by auto. reflexivity. }
  assert (NE : forall k, k <> im_input m -> k <> im_recall m -> ext_spikes (exts enc (in_stims m sts tr)) k = []).
  { intros k K1 K2. unfold enc. rewrite in_exts by auto. rewrite !(proj2 (Nat.eqb_neq _ _)) by auto. reflexivity. }
  assert (HM : invm_in N (1000 / (tmin + tcod)) tmin m).
  { rewrite <- wacc_R. apply (invm_in_of N enc m 0); auto. intros k Hk. apply (se_own _ _ _ _ _ _ _ _ HSe).
    - unfold im_internal in Hk. cbn [In] in Hk. intuition lia.
    - unfold im_internal in Hk. cbn [In] in Hk. apply NE; intuition lia. }
  pose proof (step_at_bounds dt 1 Hdt ltac:(lra)) as BD1. pose proof (step_at_bounds dt (tr + 1) Hdt ltac:(lra)) as BR1.
  pose proof (step_at_bounds dt (tr + (2 + / 100)) Hdt ltac:(lra)) as BR2. pose proof (step_at_bounds dt (tmin + tcod) Hdt ltac:(lra)) as BM.
  pose proof (step_at_ge1 dt (tr + (2 + / 100))) as P2. pose proof (step_at_ge1 dt (tr + 1)) as P3.
  pose proof (in_output N m (tmin + tcod) tmin Hdt ltac:(lra) HM _ HA1 F1 _ _ (HR 1) (HR (2 + / 100)) P2 P3 F2) as OUT.
  change (t_dt N) with dt in OUT.
  set (l := in_prs tmin tcod dt sts) in *. set (D1 := step_at dt 1) in *. set (Dm := step_at dt (1 + tmin)) in *. set (M := step_at dt (tmin + tcod)) in *.
  set (r1 := step_at dt (tr + 1)) in *. set (q := step_at dt (tr + (2 + / 100))) in *.
  pose proof (tot_ptot Dm D1 l) as TP.
  assert (PM : (ptot Dm D1 l < Z.of_nat M)%Z).
  { apply lt_IZR. rewrite <- INR_IZR_INZ. apply Rmult_lt_reg_r with dt; auto. rewrite !Rmult_plus_distr_r in *. lra. }
  specialize (OUT PM). set (G := Z.to_nat (Z.of_nat r1 - 1 + Z.of_nat M - tot Dm D1 l)) in *.
  assert (EG : INR G = INR r1 - 1 + INR M - IZR (tot Dm D1 l)).
  { rewrite !INR_IZR_INZ. unfold G. rewrite Z2Nat.id by lia. rewrite minus_IZR, plus_IZR, minus_IZR. reflexivity. }
  assert (EE : INR (G + D1) * dt = INR r1 * dt - dt + INR M * dt - IZR (tot Dm D1 l) * dt + INR D1 * dt) by (rewrite plus_INR, EG; lra).
  rewrite !Rmult_plus_distr_r, ?Rmult_minus_distr_r in *.
  assert (Hqe : (q < G + D1)%nat) by (apply INR_lt; apply Rmult_lt_reg_r with dt; auto; rewrite EE; lra).
  specialize (OUT ltac:(lia)).
  assert (HLg : spike_log s (im_output m) = times dt [q; (G + D1)%nat]).
  { apply (se_log _ _ _ _ _ _ _ _ HSe); auto; [lia|apply NE; lia|cbn; lia|].
    assert (QT : INR q * dt < INR (G + D1) * dt) by (apply Rmult_lt_compat_r; auto; apply lt_INR; auto).
    assert (ET : INR (G + D1) * dt <= T) by (rewrite EE; lra).
    intros j [<-|[<-|[]]]; lra. }
  eapply (emits_intro _ _ _ _ dt q (G + D1)); auto. rewrite EE.
  replace ((2 * n * dt + 2 * dt + / 100) / tcod * tcod) with (2 * n * dt + 2 * dt + / 100) by (field; lra).
  replace ((1 - sumx sts) * tcod) with (tcod - sumx sts * tcod) by lra.
  apply Rabs_le. lra.
Qed.
