(** Neurons on PredSimulator against an unordered list of hits (C54): the grouping into a timetable is found here once. *)
From Coq Require Import Arith ZArith Bool List Reals Lra Lia Permutation Sorted.
From Verif Require Import Num NumOrd Heapq Elements Networks CancelQueue PredSim PredNeuron NeuronLib Build BuildNets Trace SimTrace TraceProps Session PredProofs PredRun PredNet.
Import ListNotations.
Open Scope list_scope.
Open Scope R_scope.

Definition tsorted : list (R * list (syntype * R)) -> Prop := StronglySorted (fun a b => fst a < fst b).
Definition filled (h : list (R * list (syntype * R))) : Prop := forall g, In g h -> snd g <> [].
(** from state x, the neuron answers the hits L with the spikes F *)
Definition resp (dt : R) (x : pneuron R) (L : list (R * (syntype * R))) (F : list R) : Prop :=
  exists h, tsorted h /\ filled h /\ Permutation (ungroup h) L /\ nat_run dt x h F.
Lemma resp_perm dt x L L' F : Permutation L L' -> resp dt x L F -> resp dt x L' F.
Proof. intros HP (h & A & B & C & D). exists h. repeat split; auto. etransitivity; eauto. Qed.

Lemma choose_fun {A} (d : A) (P : nat -> A -> Prop) N : (forall n, (n < N)%nat -> exists a, P n a) -> exists f, forall n, (n < N)%nat -> P n (f n).
Proof.
  induction N as [|N IH]; intros H; [exists (fun _ => d); intros; lia|]. destruct IH as [f Hf]; [intros; apply H; lia|].
  destruct (H N ltac:(lia)) as [a Ha]. exists (fun n => if (n =? N)%nat then a else f n). intros n Hn. destruct (Nat.eqb_spec n N) as [->|]; auto. apply Hf. lia.
Qed.
Lemma psession_resp {A} (bl : B R A) (md : A -> nat) a (w : world R) L enc dt stims (F : nat -> list R) :
  bl empty_world = Ok (a, w) -> built empty_world w (md a) L -> 0 < dt -> (horizon dt < 2 ^ 64)%Z ->
  Forall (stim_ok (length (w_neurons w))) (stims a) -> (forall y, In y L -> 0 < s_delay y) ->
  (forall n, (n < length (w_neurons w))%nat -> resp dt rest0 (received 10 L (pins enc (stims a)) F n) (F n)) ->
  exists N, forall fuel, (N <= fuel)%nat -> exists s, psession bl md enc dt stims fuel = Some (Ok (a, s)) /\
    forall n, (n < length (w_neurons w))%nat -> pspike_log s n = F n.
Proof.
  intros E HB Hdt HM HF HD HR.
  destruct (choose_fun [] (fun n h => tsorted h /\ filled h /\ Permutation (ungroup h) (received 10 L (pins enc (stims a)) F n) /\ nat_run dt rest0 h (F n)) _ HR) as [hits HH].
  eapply (psession_solves bl md a w L enc dt stims hits F E HB Hdt HM HF HD).
  - intros n Hn. apply HH; auto.
  - intros n Hn. apply (HH n Hn).
  - intros n g Hn. apply (HH n Hn).
  - intros n Hn. apply HH; auto.
Qed.

(** ** the potential of a neuron under V and ge hits *)
Definition infl (h : R * (syntype * R)) (t : R) : R :=
  match fst (snd h) with SynV => snd (snd h) | SynGe => snd (snd h) / 100 * (t - fst h) | _ => 0 end.
(** hits up to and including t; hits strictly before t *)
Definition U (A : list (R * (syntype * R))) (t : R) : R := sumf (fun h => if Rle_dec (fst h) t then infl h t else 0) A.
Definition Upre (A : list (R * (syntype * R))) (t : R) : R := sumf (fun h => if Rlt_dec (fst h) t then infl h t else 0) A.
Definition Gsum (A : list (R * (syntype * R))) : R := sumf (fun h => if syntype_eqb (fst (snd h)) SynGe then snd (snd h) else 0) A.
Definition vge (h : R * (syntype * R)) : Prop := fst (snd h) = SynV \/ fst (snd h) = SynGe.

Lemma U_perm A B t : Permutation A B -> U A t = U B t. Proof. apply sumf_perm. Qed.
Lemma Upre_perm A B t : Permutation A B -> Upre A t = Upre B t. Proof. apply sumf_perm. Qed.
Lemma Gsum_perm A B : Permutation A B -> Gsum A = Gsum B. Proof. apply sumf_perm. Qed.
Lemma U_app A B t : U (A ++ B) t = U A t + U B t. Proof. apply sumf_app. Qed.
Lemma Upre_app A B t : Upre (A ++ B) t = Upre A t + Upre B t. Proof. apply sumf_app. Qed.
Lemma Gsum_app A B : Gsum (A ++ B) = Gsum A + Gsum B. Proof. apply sumf_app. Qed.
Lemma U_late A t : (forall h, In h A -> t < fst h) -> U A t = 0.
Proof. intros H. unfold U. rewrite (sumf_ext _ (fun _ => 0)); [apply sumf_0|]. intros h Hh. destruct (Rle_dec (fst h) t); auto. specialize (H h Hh). lra. Qed.
Lemma Upre_late A t : (forall h, In h A -> t <= fst h) -> Upre A t = 0.
Proof. intros H. unfold Upre. rewrite (sumf_ext _ (fun _ => 0)); [apply sumf_0|]. intros h Hh. destruct (Rlt_dec (fst h) t); auto. specialize (H h Hh). lra. Qed.
Lemma U_early A t : (forall h, In h A -> fst h < t) -> U A t = Upre A t.
Proof. intros H. apply sumf_ext. intros h Hh. specialize (H h Hh). destruct (Rle_dec (fst h) t), (Rlt_dec (fst h) t); auto; lra. Qed.
Lemma same_time A t1 t : (forall h, In h A -> fst h = t1 /\ vge h) -> t1 <= t ->
  U A t = wsum SynV (map snd A) + wsum SynGe (map snd A) / 100 * (t - t1) /\ Gsum A = wsum SynGe (map snd A) /\ wsum SynGf (map snd A) = 0 /\ wsum SynGate (map snd A) = 0.
Proof.
  intros H Ht. unfold U, Gsum, wsum. rewrite !sumf_map. induction A as [|h A IH]; [unfold sumf, sumR; cbn; lra|].
  destruct IH as (I1 & I2 & I3 & I4); [intros; apply H; right; auto|]. destruct (H h (or_introl eq_refl)) as [Ht1 Hty]. rewrite !sumf_cons, I1, I3, I4.
  unfold infl. destruct (Rle_dec (fst h) t); [|lra]. rewrite Ht1. destruct Hty as [E|E]; rewrite E; cbn [syntype_eqb]; lra.
Qed.
Lemma same_timepre A t1 t : (forall h, In h A -> fst h = t1) -> t1 < t -> Upre A t = U A t.
Proof. intros H Ht. apply sumf_ext. intros h Hh. rewrite (H h Hh). destruct (Rlt_dec t1 t), (Rle_dec t1 t); auto; lra. Qed.
Lemma first_time (A : list (R * (syntype * R))) : A <> [] -> exists h, In h A /\ forall h', In h' A -> fst h <= fst h'.
Proof.
  induction A as [|a A IH]; intros H; [congruence|]. destruct A as [|b A]; [exists a; split; [left; auto|intros h' [<-|[]]; lra]|].
  destruct IH as (h & Hi & Hm); [congruence|]. destruct (Rle_lt_dec (fst a) (fst h)) as [C|C].
  - exists a. split; [left; auto|]. intros h' [<-|Hh]; [lra|]. specialize (Hm h' Hh). lra.
  - exists h. split; [right; auto|]. intros h' [<-|Hh]; [lra|]. auto.
Qed.
Lemma last_before (A : list (R * (syntype * R))) l t : l < t -> exists t', l <= t' < t /\ forall h, In h A -> (fst h < t <-> fst h <= t') \/ fst h < l.
Proof.
  intros Hl. induction A as [|a A (t' & Ht & IH)]; [exists l; split; [lra|intros h []]|].
  destruct (Rlt_le_dec (fst a) t) as [C|C].
  - exists (Rmax t' (fst a)). assert (M1 := Rmax_l t' (fst a)). assert (M2 := Rmax_r t' (fst a)). assert (M3 : Rmax t' (fst a) < t) by (apply Rmax_lub_lt; lra).
    split; [lra|]. intros h [<-|Hh]; [left; lra|]. destruct (IH h Hh) as [D|D]; [left|right; auto]. split; intros; lra.
  - exists t'. split; auto. intros h [<-|Hh]; [left; lra|auto].
Qed.
Lemma filter_split {A} (f : A -> bool) l : Permutation l (filter f l ++ filter (fun x => negb (f x)) l).
Proof.
  induction l as [|a l IH]; cbn; [constructor|]. destruct (f a); cbn; [constructor; auto|]. apply Permutation_cons_app. auto.
Qed.
Lemma regroup A (t1 : R) : (forall h : R * (syntype * R), In h A -> fst h = t1) -> map (fun x => (t1, x)) (map snd A) = A.
Proof. induction A as [|a A IH]; intros H; cbn; auto. rewrite IH by (intros; apply H; right; auto). rewrite <- (H a (or_introl eq_refl)). destruct a. reflexivity. Qed.
Lemma ungroup_cons g h : ungroup (g :: h) = map (fun x => (fst g, x)) (snd g) ++ ungroup h. Proof. reflexivity. Qed.
Lemma ungroup_app a b : ungroup (a ++ b) = ungroup a ++ ungroup b. Proof. apply flat_map_app. Qed.
Lemma in_ungroup h g L : filled h -> In g h -> Permutation (ungroup h) L -> exists e, In e L /\ fst e = fst g.
Proof.
  intros HF Hg HP. specialize (HF g Hg). destruct (snd g) as [|x xs] eqn:E; [congruence|]. exists (fst g, x). split; auto.
  eapply Permutation_in; [exact HP|]. apply in_flat_map. exists g. split; auto. rewrite E. left. auto.
Qed.
Lemma tsorted_app a b t : tsorted a -> tsorted b -> (forall g, In g a -> fst g < t) -> (forall g, In g b -> t <= fst g) -> tsorted (a ++ b).
Proof.
  intros Ha Hb H1 H2. induction Ha as [|g a Ha IH HF]; cbn; auto. constructor.
  - apply IH. intros; apply H1; right; auto.
  - apply Forall_app. split; auto. apply Forall_forall. intros e He. specialize (H1 g (or_introl eq_refl)). specialize (H2 e He). lra.
Qed.

Section Rules.
Variable dt : R.
Hypothesis Hdt : 0 < dt.
Hypothesis HM : (horizon dt < 2 ^ 64)%Z.
Local Notation run := (nat_run dt).
(** hits that never bring the neuron to threshold are added up *)
Lemma absorb : forall k A v g l, (length A <= k)%nat -> (forall h, In h A -> l <= fst h /\ vge h) ->
  (forall t, l <= t -> (exists h, In h A /\ t <= fst h) -> v + g / 100 * (t - l) + U A t < 10 /\ v + g / 100 * (t - l) + Upre A t < 10) ->
  exists h tl, tsorted h /\ filled h /\ Permutation (ungroup h) A /\ l <= tl /\ (A = [] -> tl = l) /\ (A <> [] -> exists a, In a A /\ tl = fst a) /\ (forall a, In a A -> fst a <= tl) /\
    forall T F, run (pn (v + g / 100 * (tl - l) + U A tl) (g + Gsum A) tl) T F -> run (pn v g l) (h ++ T) F.
Proof.
  induction k as [|k IH]; intros A v g l Hk HA HC.
  - destruct A as [|a A]; [|cbn in Hk; lia]. exists [], l. split; [constructor|]. split; [intros g' []|]. split; [constructor|]. split; [lra|]. split; [auto|]. split; [congruence|]. split; [intros a []|].
    intros T F HR. cbn [app]. replace (v + g / 100 * (l - l) + U [] l) with v in HR by (unfold U, sumf, sumR; cbn; ring).
    replace (g + Gsum []) with g in HR by (unfold Gsum, sumf, sumR; cbn; ring). exact HR.
  - destruct (list_eq_dec (fun x y : R * (syntype * R) => ltac:(repeat decide equality; apply Req_EM_T) : {x = y} + {x <> y}) A []) as [->|HN].
    { apply IH; auto. cbn; lia. }
    destruct (first_time A HN) as (a & Ha & Hmin). set (t1 := fst a). set (f := fun h : R * (syntype * R) => if Req_EM_T (fst h) t1 then true else false).
    set (A1 := filter f A). set (A' := filter (fun h => negb (f h)) A).
    assert (HP : Permutation A (A1 ++ A')) by apply filter_split.
    assert (H1 : forall h, In h A1 -> fst h = t1 /\ vge h).
    { intros h Hh. apply filter_In in Hh as [Hh E]. unfold f in E. destruct (Req_EM_T (fst h) t1); [|discriminate]. split; auto. apply HA; auto. }
    assert (H2 : forall h, In h A' -> t1 < fst h /\ vge h).
    { intros h Hh. apply filter_In in Hh as [Hh E]. unfold f in E. destruct (Req_EM_T (fst h) t1); [discriminate|]. split; [|apply HA; auto]. specialize (Hmin h Hh). fold t1 in Hmin. lra. }
    assert (Ha1 : In a A1). { apply filter_In. split; auto. unfold f. destruct (Req_EM_T (fst a) t1); auto. }
    assert (Hl : l <= t1) by (apply HA; auto).
    pose proof (fun t Ht => same_time A1 t1 t H1 Ht) as ST. destruct (ST t1 ltac:(lra)) as (_ & EG & EF & EGt).
    set (v' := v + g / 100 * (t1 - l) + wsum SynV (map snd A1)). set (g' := g + wsum SynGe (map snd A1)).
    assert (EU : forall t, t1 <= t -> v + g / 100 * (t - l) + U A t = v' + g' / 100 * (t - t1) + U A' t).
    { intros t Ht. rewrite (U_perm _ _ t HP), U_app. destruct (ST t Ht) as (-> & _). unfold v', g'. lra. }
    assert (EP : forall t, t1 < t -> v + g / 100 * (t - l) + Upre A t = v' + g' / 100 * (t - t1) + Upre A' t).
    { intros t Ht. rewrite (Upre_perm _ _ t HP), Upre_app, (same_timepre A1 t1 t) by (auto; apply H1). destruct (ST t ltac:(lra)) as (-> & _). unfold v', g'. lra. }
    assert (Hlen' : (length A' <= k)%nat).
    { apply Permutation_length in HP. rewrite app_length in HP. destruct A1; [destruct Ha1|]. cbn in HP. lia. }
    destruct (IH A' v' g' t1 Hlen') as (h & tl & S1 & S2 & S3 & S4 & S5 & S6 & S7 & S8).
    { intros h Hh. destruct (H2 h Hh). split; auto; lra. }
    { intros t Ht (h & Hh & Hth). assert (Hh' : In h A) by (apply (Permutation_in _ (Permutation_sym HP)), in_or_app; auto).
      destruct (HC t ltac:(lra) ltac:(eauto)) as [C1 C2]. split; [rewrite <- EU by auto; exact C1|].
      destruct (Req_dec t t1) as [->|Hne].
      - rewrite Upre_late by (intros e He; specialize (H2 e He); lra). rewrite EU in C1 by lra. rewrite U_late in C1 by (intros e He; apply (H2 e He)). exact C1.
      - rewrite <- EP by lra. exact C2. }
    exists ((t1, map snd A1) :: h), tl.
    assert (Hin : forall g0, In g0 h -> t1 < fst g0).
    { intros g0 Hg. destruct (in_ungroup h g0 A' S2 Hg S3) as (e & He & <-). apply (H2 e He). }
    split; [constructor; auto; apply Forall_forall; auto|].
    split; [intros g0 [<-|Hg]; [cbn; destruct A1; [destruct Ha1|discriminate]|apply S2; auto]|].
    split. { rewrite ungroup_cons. cbn [fst snd]. rewrite regroup by (apply H1). rewrite HP. apply Permutation_app_head. exact S3. }
    split; [lra|]. split; [congruence|].
    assert (HL : forall e, In e A -> fst e <= tl).
    { intros e He. apply (Permutation_in _ HP) in He. apply in_app_or in He as [He|He]; [rewrite (proj1 (H1 e He)); lra|apply S7; auto]. }
    split. { intros _. destruct A' as [|b A''] eqn:EA; [exists a; split; auto; rewrite S5 by auto; auto|]. destruct S6 as (b' & Hb & ->); [discriminate|].
             exists b'. split; auto. apply (Permutation_in _ (Permutation_sym HP)), in_or_app. right. exact Hb. }
    split; auto. intros T F HR. cbn [app].
    assert (HV : v < 10).
    { destruct (HC l ltac:(lra)) as [_ C2]; [exists a; split; auto|]. rewrite Upre_late in C2 by (intros e He; apply HA; auto). lra. }
    eapply (r_hit dt Hdt HM) with (v' := v') (g' := g'); [exact HV| |exact EF|exact EGt|reflexivity|reflexivity|].
    + destruct (Rle_lt_dec g 0) as [Hg|Hg]; [left; auto|right].
      destruct (HC t1 Hl) as [_ C2]; [exists a; split; auto; unfold t1; lra|]. rewrite Upre_late in C2 by (intros e He; apply Hmin; auto).
      assert (0 < (10 - v) * 100 / g) by (apply Rdiv_lt_0_compat; lra). pose proof (step_at_bounds dt _ Hdt H) as HB. fold (ramp dt v g) in HB.
      assert (t1 - l < (10 - v) * 100 / g); [|lra]. apply Rmult_lt_reg_r with (g / 100); [lra|]. replace ((10 - v) * 100 / g * (g / 100)) with (10 - v) by (field; lra). lra.
    + apply S8. replace (g' + Gsum A') with (g + Gsum A). { rewrite <- EU by auto. exact HR. }
      rewrite (Gsum_perm _ _ HP), Gsum_app, EG. unfold g'. ring.
Qed.
(** V hits only *)
Definition vonly (h : R * (syntype * R)) : Prop := fst (snd h) = SynV.
Lemma vonly_G A : (forall h, In h A -> vonly h) -> Gsum A = 0.
Proof. intros H. unfold Gsum. rewrite (sumf_ext _ (fun _ => 0)); [apply sumf_0|]. intros h Hh. rewrite (H h Hh). reflexivity. Qed.
Lemma vonly_pre A l t : (forall h, In h A -> l <= fst h /\ vonly h) -> l < t -> exists t', l <= t' < t /\ Upre A t = U A t'.
Proof.
  intros HA Ht. destruct (last_before A l t Ht) as (t' & Ht' & HB). exists t'. split; auto. apply sumf_ext. intros h Hh. destruct (HA h Hh) as [H1 H2].
  unfold infl. rewrite H2. destruct (HB h Hh) as [D|D]; [|lra]. destruct (Rlt_dec (fst h) t), (Rle_dec (fst h) t'); auto; tauto.
Qed.
Lemma absorbV A v l : (forall h, In h A -> l <= fst h /\ vonly h) -> v < 10 -> (forall t, l <= t -> v + U A t < 10) ->
  exists h tl, tsorted h /\ filled h /\ Permutation (ungroup h) A /\ l <= tl /\ (A = [] -> tl = l) /\ (A <> [] -> exists a, In a A /\ tl = fst a) /\ (forall a, In a A -> fst a <= tl) /\
    forall T F, run (pn (v + U A tl) 0 tl) T F -> run (pn v 0 l) (h ++ T) F.
Proof.
  intros HA Hv HC. destruct (absorb (length A) A v 0 l (le_n _)) as (h & tl & S1 & S2 & S3 & S4 & S5 & S6 & S7 & S8).
  - intros h Hh. destruct (HA h Hh). split; auto. left; auto.
  - intros t Ht _. replace (v + 0 / 100 * (t - l)) with v by lra. split; auto. destruct (Req_dec t l) as [->|Hne].
    + rewrite Upre_late by (intros h Hh; apply HA; auto). lra.
    + destruct (vonly_pre A l t HA ltac:(lra)) as (t' & Ht' & ->). apply HC. lra.
  - exists h, tl. repeat (split; auto). intros T F HR. apply S8. rewrite vonly_G by (intros; apply HA; auto).
    replace (v + 0 / 100 * (tl - l) + U A tl) with (v + U A tl) by lra. rewrite Rplus_0_r. exact HR.
Qed.
Lemma resp_silent A v l : (forall h, In h A -> l <= fst h /\ vonly h) -> v < 10 -> (forall t, l <= t -> v + U A t < 10) -> resp dt (pn v 0 l) A [].
Proof.
  intros HA Hv HC. destruct (absorbV A v l HA Hv HC) as (h & tl & S1 & S2 & S3 & S4 & S5 & S6 & S7 & S8). exists h. repeat (split; auto).
  rewrite <- (app_nil_r h). apply S8. apply r_end; auto. lra.
Qed.
(** the hits G at time t bring the neuron to threshold *)
Lemma resp_fire A G B v l t F : dt <= 500 -> (forall h, In h A -> l <= fst h < t /\ vonly h) -> v < 10 -> (forall s, l <= s < t -> v + U A s < 10) ->
  G <> [] -> (forall h, In h G -> fst h = t /\ vonly h) -> l <= t -> 10 <= v + U A t + U G t -> (forall h, In h B -> t < fst h) ->
  resp dt (pn 0 0 t) B F -> resp dt (pn v 0 l) (A ++ G ++ B) (t :: F).
Proof.
  intros Hd5 HA Hv HC HG HGt Hlt H10 HB (hb & B1 & B2 & B3 & B4).
  destruct (absorbV A v l) as (h & tl & S1 & S2 & S3 & S4 & S5 & S6 & S7 & S8); auto.
  { intros e He. destruct (HA e He) as [[X Y] Z]. auto. }
  { intros s Hs. destruct (Rlt_le_dec s t) as [C|C]; [apply HC; auto|].
    destruct (Req_dec l t) as [->|Hne]. { destruct A as [|a A]; [unfold U, sumf, sumR; cbn; lra|]. destruct (HA a (or_introl eq_refl)) as [[X Y] _]. lra. }
    destruct (vonly_pre A l t) as (t' & Ht' & E); [intros e He; destruct (HA e He) as [[X Y] Z]; auto|lra|].
    replace (U A s) with (U A t'); [apply HC; auto|]. rewrite <- E. apply sumf_ext. intros e He. destruct (HA e He) as [[X Y] Z]. unfold infl. rewrite Z.
    destruct (Rlt_dec (fst e) t), (Rle_dec (fst e) s); auto; lra. }
  assert (EA : U A t = U A tl).
  { apply sumf_ext. intros e He. destruct (HA e He) as [[X Y] Z]. specialize (S7 e He). unfold infl. rewrite Z. destruct (Rle_dec (fst e) t), (Rle_dec (fst e) tl); auto; lra. }
  assert (Htl : tl <= t).
  { destruct A as [|a A]; [rewrite S5 by auto; auto|]. destruct S6 as (b & Hb & ->); [discriminate|]. destruct (HA b Hb) as [[X Y] _]. lra. }
  destruct (same_time G t t) as (E1 & E2 & E3 & E4); [intros e He; destruct (HGt e He); split; auto; left; auto|lra|].
  rewrite vonly_G in E2 by (intros; apply HGt; auto).
  assert (HBt : forall g, In g hb -> t < fst g) by (intros g Hg; destruct (in_ungroup hb g B B2 Hg B3) as (e & He & <-); auto).
  exists (h ++ (t, map snd G) :: hb). split; [|split; [|split]].
  - apply (tsorted_app h ((t, map snd G) :: hb) t); auto.
    + constructor; auto. apply Forall_forall. auto.
    + intros g Hg. destruct (in_ungroup h g A S2 Hg S3) as (e & He & <-). destruct (HA e He) as [[X Y] _]. auto.
    + intros g [<-|Hg]; [cbn; lra|]. specialize (HBt g Hg). lra.
  - intros g Hg. apply in_app_or in Hg as [Hg|[<-|Hg]]; auto. cbn. destruct G; [congruence|discriminate].
  - rewrite ungroup_app, ungroup_cons. cbn [fst snd]. rewrite regroup by apply HGt. rewrite S3, B3. apply Permutation_refl.
  - apply S8. rewrite EA in H10.
    assert (Hvt : v + U A tl < 10).
    { destruct A as [|a A]; [unfold U, sumf, sumR; cbn; lra|]. apply HC. destruct S6 as (b & Hb & ->); [discriminate|]. apply (HA b Hb). }
    eapply (r_hit dt Hdt HM); [exact Hvt|left; lra|exact E3|exact E4|reflexivity|reflexivity|].
    apply r_now; auto.
    + rewrite E1, <- E2 in H10. lra.
    + rewrite <- E2. lra.
    + intros g Hg. specialize (HBt g Hg). lra.
Qed.
(** a ge drive absorbed up to its last hit, then one ramp to the threshold *)
Lemma resp_ramp A v g l tl k F B : dt <= 500 -> A <> [] -> (forall h, In h A -> l <= fst h <= tl /\ vge h) -> (exists h, In h A /\ fst h = tl) ->
  (forall t, l <= t <= tl -> v + g / 100 * (t - l) + U A t < 10 /\ v + g / 100 * (t - l) + Upre A t < 10) ->
  0 < g + Gsum A -> k = ramp dt (v + g / 100 * (tl - l) + U A tl) (g + Gsum A) -> INR k * dt + dt <= 500 -> (forall h, In h B -> tl + INR k * dt < fst h) -> 
  resp dt (pn 0 0 tl) B F -> resp dt (pn v g l) (A ++ B) (tl + INR k * dt :: F).
Proof.
  intros Hd5 HN HA (hl & Hhl & Ehl) HC HG Hk H5 HB (hb & B1 & B2 & B3 & B4).
  destruct (absorb (length A) A v g l (le_n _)) as (h & tl' & S1 & S2 & S3 & S4 & S5 & S6 & S7 & S8).
  { intros e He. destruct (HA e He) as [[X Y] Z]. auto. }
  { intros t Ht (e & He & Hte). destruct (HA e He) as [[X Y] Z]. apply HC. lra. }
  assert (E : tl' = tl). { destruct (S6 HN) as (b & Hb & E). destruct (HA b Hb) as [[X Y] _]. specialize (S7 hl Hhl). lra. }
  subst tl'. assert (Hd : 0 <= INR k * dt) by (apply Rmult_le_pos; [apply pos_INR|lra]).
  assert (HBt : forall g, In g hb -> tl + INR k * dt < fst g) by (intros g0 Hg; destruct (in_ungroup hb g0 B B2 Hg B3) as (e & He & <-); auto).
  assert (Kp : 0 < INR k * dt). { apply Rmult_lt_0_compat; auto. rewrite Hk. pose proof (step_at_ge1 dt ((10 - (v + g / 100 * (tl - l) + U A tl)) * 100 / (g + Gsum A))) as K1. unfold ramp. apply lt_0_INR. lia. }
  exists (h ++ hb). split; [|split; [|split]].
  - apply (tsorted_app h hb (tl + INR k * dt)); auto.
    + intros g0 Hg. destruct (in_ungroup h g0 A S2 Hg S3) as (e & He & <-). destruct (HA e He) as [[X Y] _]. lra.
    + intros g0 Hg. specialize (HBt g0 Hg). lra.
  - intros g0 Hg. apply in_app_or in Hg as [Hg|Hg]; auto.
  - rewrite ungroup_app, S3, B3. apply Permutation_refl.
  - apply S8. apply r_ramp; auto.
    + apply HC. lra.
    + rewrite Hk. reflexivity.
    + rewrite <- Hk. auto.
    + intros g0 Hg. specialize (HBt g0 Hg). lra.
Qed.
End Rules.
