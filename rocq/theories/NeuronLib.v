(** Reasoning toolkit for single neurons inside the recurrence of Trace.v. *)
From Coq Require Import Arith ZArith Bool List Reals Lra Lia Permutation.
From Verif Require Import Num Heapq Elements Networks Trace SimTrace TraceProps.
Import ListNotations.
Open Scope R_scope.
Open Scope list_scope.

(** standard parameters, over the reals *)
Definition stdp : nparams R := {| Vt := 10; tm := 100; tf := 20; Vreset := 0 |}.
Lemma std_params_R : @std_params R R_num = stdp.
Proof. reflexivity. Qed.

(** ** Event lists *)
Definition memb (k : nat) (l : list nat) : bool := existsb (Nat.eqb k) l.
Lemma memb_In k l : memb k l = true <-> In k l.
Proof. apply (set_mem_In k l). Qed.
Lemma memb_nIn k l : memb k l = false <-> ~ In k l.
Proof. apply (set_mem_nIn k l). Qed.
Lemma memb_cons k a l : memb k (a :: l) = (k =? a)%nat || memb k l.
Proof. reflexivity. Qed.
Definition ind (k a : nat) : R := if (k =? a)%nat then 1 else 0.
Definition cnt (k : nat) (l : list nat) : R := sumf (ind k) l.
Definition evw (L : list (nat * R)) (k : nat) : R := sumf (fun p => snd p * ind k (fst p)) L.
Lemma cnt_nil k : cnt k [] = 0. Proof. reflexivity. Qed.
Lemma cnt_cons k a l : cnt k (a :: l) = ind k a + cnt k l. Proof. reflexivity. Qed.
Lemma evw_nil k : evw [] k = 0. Proof. reflexivity. Qed.
Lemma evw_cons t w L k : evw ((t, w) :: L) k = w * ind k t + evw L k. Proof. reflexivity. Qed.
Lemma ind_eq k : ind k k = 1. Proof. unfold ind. rewrite Nat.eqb_refl. auto. Qed.
Lemma ind_ne k a : k <> a -> ind k a = 0.
Proof. intros H. unfold ind. rewrite (proj2 (Nat.eqb_neq _ _)); auto. Qed.
Lemma cnt_nIn k l : ~ In k l -> cnt k l = 0.
Proof.
  induction l as [|a l IH]; intros H; [reflexivity|]. rewrite cnt_cons, IH, ind_ne; [lra| |]; intro; apply H; [left|right]; auto.
Qed.
Lemma cnt_NoDup k l : NoDup l -> cnt k l = if memb k l then 1 else 0.
Proof.
  induction l as [|a l IH]; intros H; [reflexivity|]. inversion H; subst. rewrite cnt_cons, memb_cons.
  unfold ind. destruct (Nat.eqb_spec k a) as [->|]; cbn [orb].
  - rewrite cnt_nIn by auto. lra.
  - rewrite IH by auto. lra.
Qed.

(** strictly increasing event times, all after a *)
Fixpoint incr (a : nat) (L : list (nat * R)) : Prop :=
  match L with [] => True | p :: L' => (a < fst p)%nat /\ incr (fst p) L' end.
Lemma incr_gt L : forall a b, incr a L -> (b <= a)%nat -> forall p, In p L -> (b < fst p)%nat.
Proof.
  induction L as [|q L IH]; intros a b H Hb p Hp; [destruct Hp|].
  destruct H as [H1 H2]. destruct Hp as [<-|Hp]; [lia|]. eapply IH; eauto. lia.
Qed.
Lemma incr_weaken L a b : incr a L -> (b <= a)%nat -> incr b L.
Proof. destruct L; cbn; auto. intros [H1 H2] H. split; auto. lia. Qed.
Lemma evw_out L k : (forall p, In p L -> fst p <> k) -> evw L k = 0.
Proof.
  intros H. unfold evw. rewrite (sumf_ext _ (fun _ => 0)); [apply sumf_0|].
  intros p Hp. rewrite ind_ne; [lra|]. intros E. apply (H p Hp). auto.
Qed.

(** arrival times of the spikes of n over delay d *)
Definition arrs (N : tnet) (n : nat) (d : R) (l : list nat) : Prop := forall k, (1 <= k)%nat -> INR (arr N n d k) = cnt k l.
Definition spikes_at (N : tnet) (n : nat) (l : list nat) : Prop := forall k, spk N k n = memb k l.

Lemma spikes_at_perm N n l l' : Permutation l l' -> spikes_at N n l -> spikes_at N n l'.
Proof.
  intros H HS k. rewrite HS. apply eq_true_iff_eq. rewrite !memb_In. split; apply Permutation_in; [|symmetry]; auto.
Qed.

Section Neu.
Variable N : tnet.
Let dt := t_dt N.
Let D (d : R) := step_at dt d.

(** arrivals up to step K from spikes up to step K - 1 *)
Lemma arr_upto n d l K k :
  ext_of N n = [] -> (forall j, (j <= K)%nat -> spk N j n = memb j l) -> (k <= S K)%nat -> (forall j, In j l -> (1 <= j)%nat) -> NoDup l ->
  INR (arr N n d k) = cnt k (map (fun j => (j + D d)%nat) l).
Proof.
  intros HE HS Hk Hl ND. rewrite arr_eq, ext_count_of, HE. cbn [filter length Nat.add].
  pose proof (step_at_ge1 dt d) as HD. fold (D d) in HD. change (step_at (t_dt N) d) with (D d).
  assert (ND' : NoDup (map (fun j => (j + D d)%nat) l)).
  { apply FinFun.Injective_map_NoDup; auto. intros x y. lia. }
  rewrite cnt_NoDup by auto.
  destruct (memb k (map (fun j => (j + D d)%nat) l)) eqn:E.
  - apply memb_In in E. apply in_map_iff in E as (j & <- & Hj). pose proof (Hl j Hj).
    destruct (Nat.ltb_spec (D d) (j + D d)); [|lia]. cbn [andb].
    replace (j + D d - D d)%nat with j by lia. rewrite HS by lia.
    rewrite (proj2 (memb_In j l)) by auto. reflexivity.
  - destruct (Nat.ltb_spec (D d) k); cbn [andb]; [|reflexivity].
    rewrite HS by lia. destruct (memb (k - D d) l) eqn:E'; [|reflexivity]. exfalso.
    apply memb_In in E'. apply memb_nIn in E. apply E. apply in_map_iff. exists (k - D d)%nat. split; auto. lia.
Qed.
Lemma arrs_spikes n d l : ext_of N n = [] -> spikes_at N n l -> (forall j, In j l -> (1 <= j)%nat) -> NoDup l ->
  arrs N n d (map (fun j => (j + D d)%nat) l).
Proof. intros HE HS Hl ND k Hk. eapply (arr_upto n d l k k); auto. Qed.

(** arrivals from external spikes only *)
Lemma arrs_ext n d : (forall k, spk N k n = false) -> arrs N n d (map (fun t => step_at dt (t + d)) (ext_of N n)).
Proof.
  intros HS k Hk. rewrite arr_eq, ext_count_of, HS, andb_false_r, Nat.add_0_r. fold dt.
  induction (ext_of N n) as [|t l IH]; [reflexivity|]. cbn [filter map]. rewrite cnt_cons. unfold ind.
  rewrite (Nat.eqb_sym k). destruct (step_at dt (t + d) =? k)%nat.
  - cbn [length]. rewrite S_INR, IH. lra.
  - rewrite IH. lra.
Qed.
Lemma arrs_none n d : ext_of N n = [] -> (forall k, spk N k n = false) -> arrs N n d [].
Proof. intros HE HS. pose proof (arrs_ext n d HS) as H. rewrite HE in H. exact H. Qed.

(** ** Inputs absent when no synapse of that type comes in *)
Lemma input_no_ty n ty k : (forall y, In y (in_syn N n) -> s_ty y <> ty) -> input N n ty k = 0.
Proof.
  intros H. rewrite input_in. rewrite (sumf_ext _ (fun _ => 0)); [apply sumf_0|].
  intros y Hy. destruct (syntype_eqb (s_ty y) ty) eqn:E; auto. apply syntype_eqb_eq in E. exfalso. eapply H; eauto.
Qed.

(** ** Neurons with only V synapses *)
Definition vonly (n : nat) : Prop := forall y, In y (in_syn N n) -> s_ty y = SynV.
Definition at_rest (v : R) : nstate R := {| V := v; ge := 0; gf := 0; gate := 0 |}.
Lemma init_rest n : t_prm N n = stdp -> st N 0 n = at_rest 0.
Proof. intros H. rewrite st_0, H. reflexivity. Qed.
Lemma vonly_inputs n k : vonly n -> input N n SynGe k = 0 /\ input N n SynGf k = 0 /\ input N n SynGate k = 0.
Proof. intros H. repeat split; apply input_no_ty; intros y Hy; rewrite (H y Hy); discriminate. Qed.
Lemma vonly_step n k v : t_prm N n = stdp -> vonly n -> st N k n = at_rest v ->
  (10 <= v + input N n SynV (S k) -> spk N (S k) n = true /\ st N (S k) n = at_rest 0) /\
  (v + input N n SynV (S k) < 10 -> spk N (S k) n = false /\ st N (S k) n = at_rest (v + input N n SynV (S k))).
Proof.
  intros HP HV HS. pose proof (step_eq N k n) as E. destruct (vonly_inputs n (S k) HV) as (E1 & E2 & E3).
  rewrite HS, HP, E1, E2, E3 in E. unfold nstep, at_rest, stdp in E. cbn [V ge gf gate Vt tm tf Vreset] in E.
  replace (v + input N n SynV (S k) + t_dt N * (0 + 0 + (0 + 0) * (0 + 0)) / 100) with (v + input N n SynV (S k)) in E by field.
  rewrite !(Rplus_0_r 0), Reqb_refl in E. split; intros H.
  - rewrite (proj2 (Rleb_true _ _) H) in E. injection E as -> ->. auto.
  - rewrite (proj2 (Rleb_false _ _) H) in E. injection E as -> ->. auto.
Qed.

Fixpoint vrun (v : R) (L : list (nat * R)) : list nat :=
  match L with
  | [] => []
  | p :: L' => if Rleb 10 (v + snd p) then fst p :: vrun 0 L' else vrun (v + snd p) L'
  end.
Lemma vrun_gt L : forall a v k, incr a L -> In k (vrun v L) -> (a < k)%nat.
Proof.
  induction L as [|p L IH]; intros a v k H Hk; [destruct Hk|]. destruct H as [H1 H2]. cbn in Hk.
  destruct (Rleb 10 (v + snd p)).
  - destruct Hk as [<-|Hk]; auto. pose proof (IH (fst p) _ _ H2 Hk). lia.
  - pose proof (IH (fst p) _ _ H2 Hk). lia.
Qed.
Lemma vrun_NoDup L : forall a v, incr a L -> NoDup (vrun v L).
Proof.
  induction L as [|p L IH]; intros a v H; cbn; [constructor|]. destruct H as [H1 H2].
  destruct (Rleb 10 (v + snd p)); [|eapply IH; eauto]. constructor; [|eapply IH; eauto].
  intros Hk. pose proof (vrun_gt _ _ _ _ H2 Hk). lia.
Qed.
(** potential after the events up to step k *)
Fixpoint vval (v : R) (L : list (nat * R)) (k : nat) : R :=
  match L with
  | [] => v
  | p :: L' => if (k <? fst p)%nat then v else if Rleb 10 (v + snd p) then vval 0 L' k else vval (v + snd p) L' k
  end.

Lemma vquiet n a b v : t_prm N n = stdp -> vonly n -> st N a n = at_rest v -> v < 10 ->
  (forall k, (a < k <= b)%nat -> input N n SynV k = 0) ->
  forall k, (a <= k <= b)%nat -> st N k n = at_rest v /\ (a < k -> spk N k n = false)%nat.
Proof.
  intros HP HV HS Hv HI k. induction k as [|k IH]; intros Hk.
  - assert (a = 0%nat) by lia. subst. split; auto; lia.
  - destruct (Nat.eq_dec a (S k)) as [<-|]; [split; auto; lia|].
    destruct IH as [IH _]; [lia|]. destruct (vonly_step n k v HP HV IH) as [_ H].
    rewrite HI, Rplus_0_r in H by lia. destruct H; auto.
Qed.

Lemma vonly_from n K : t_prm N n = stdp -> vonly n -> forall L a v,
  st N a n = at_rest v -> v < 10 -> incr a L ->
  (forall k, (a < k <= K)%nat -> input N n SynV k = evw L k) ->
  forall k, (a < k <= K)%nat -> spk N k n = memb k (vrun v L) /\ st N k n = at_rest (vval v L k).
Proof.
  intros HP HV. induction L as [|[t w] L IH]; intros a v HS Hv Hi HI k Hk.
  - destruct (vquiet n a K v HP HV HS Hv HI k) as [H1 H2]; [lia|]. cbn. rewrite H2 by lia. auto.
  - destruct Hi as [Ht Hi]. cbn [fst] in *.
    assert (Hlt : forall j, (a < j < t)%nat -> (j <= K)%nat -> input N n SynV j = 0).
    { intros j Hj HjK. rewrite HI by lia. rewrite evw_cons, ind_ne by lia. rewrite evw_out; [lra|].
      intros p Hp. pose proof (incr_gt L t t Hi (Nat.le_refl _) p Hp). lia. }
    destruct (Nat.lt_ge_cases k t) as [Hkt|Hkt].
    + destruct (vquiet n a k v HP HV HS Hv) with (k := k) as [H1 H2]; [intros; apply Hlt; lia|lia|].
      rewrite H2, H1 by lia. cbn [vval fst snd]. rewrite (proj2 (Nat.ltb_lt k t)) by auto. split; auto.
      symmetry. apply memb_nIn. intros Hin.
      assert ((t - 1 < k)%nat) by (eapply vrun_gt; [|exact Hin]; cbn; split; [lia|auto]). lia.
    + destruct (vquiet n a (t - 1) v HP HV HS Hv) with (k := (t - 1)%nat) as [H1 _]; [intros; apply Hlt; lia|lia|].
      destruct (vonly_step n (t - 1) v HP HV H1) as [HA HB].
      replace (S (t - 1)) with t in HA, HB by lia.
      rewrite HI, evw_cons, ind_eq, evw_out in HA, HB by
        (try lia; intros p Hp; pose proof (incr_gt L t t Hi (Nat.le_refl _) p Hp); lia).
      replace (v + (w * 1 + 0)) with (v + w) in HA, HB by lra.
      assert (HI' : forall j, (t < j <= K)%nat -> input N n SynV j = evw L j).
      { intros j Hj. rewrite HI by lia. rewrite evw_cons, ind_ne by lia. lra. }
      cbn [vrun vval fst snd]. rewrite (proj2 (Nat.ltb_ge k t)) by auto.
      destruct (Rleb 10 (v + w)) eqn:El.
      * apply Rleb_true in El. destruct (HA El) as [HA1 HA2]. rewrite memb_cons.
        destruct (Nat.eqb_spec k t) as [->|Hne]; cbn [orb].
        -- split; auto. rewrite HA2. f_equal. destruct L as [|[t' w'] L]; cbn [vval fst]; auto.
           destruct Hi as [Hi _]. cbn in Hi. rewrite (proj2 (Nat.ltb_lt t t')) by auto. auto.
        -- apply (IH t 0); auto; [lra|lia].
      * apply Rleb_false in El. destruct (HB El) as [HB1 HB2].
        destruct (Nat.eq_dec k t) as [->|Hne].
        -- rewrite HB1, HB2. split.
           ++ symmetry. apply memb_nIn. intros Hin. eapply vrun_gt in Hin; eauto. lia.
           ++ f_equal. destruct L as [|[t' w'] L]; cbn [vval fst]; auto.
              destruct Hi as [Hi _]. cbn in Hi. rewrite (proj2 (Nat.ltb_lt t t')) by auto. auto.
        -- apply (IH t (v + w)); auto. lia.
Qed.

(** a V-only neuron whose events are known spikes as computed by [vrun] *)
Lemma vonly_spikes n L : t_prm N n = stdp -> vonly n -> incr 0 L ->
  (forall k, (1 <= k)%nat -> input N n SynV k = evw L k) -> spikes_at N n (vrun 0 L).
Proof.
  intros HP HV Hi HI k. destruct (Nat.eq_dec k 0) as [->|].
  - rewrite spk_0. symmetry. apply memb_nIn. intros H. eapply vrun_gt in H; eauto. lia.
  - destruct (vonly_from n k HP HV L 0 0) with (k := k) as [H _]; auto using init_rest; try lra; try lia.
    intros j Hj. apply HI. lia.
Qed.

(** groups of mutually connected V-only neurons: guess their spikes and event lists *)
Record guess := { g_n : nat; g_S : list nat; g_L : list (nat * R) }.
Lemma vonly_group (G : list guess) :
  (forall g, In g G -> t_prm N (g_n g) = stdp /\ vonly (g_n g) /\ incr 0 (g_L g) /\ vrun 0 (g_L g) = g_S g) ->
  (forall K, (forall g k, In g G -> (k <= K)%nat -> spk N k (g_n g) = memb k (g_S g)) ->
     forall g, In g G -> input N (g_n g) SynV (S K) = evw (g_L g) (S K)) ->
  forall g, In g G -> spikes_at N (g_n g) (g_S g).
Proof.
  intros HG HI.
  assert (HA : forall K g k, In g G -> (k <= K)%nat -> spk N k (g_n g) = memb k (g_S g)).
  { induction K as [|K IH]; intros g k Hg Hk.
    - assert (k = 0%nat) by lia. subst. rewrite spk_0. symmetry. apply memb_nIn.
      destruct (HG g Hg) as (_ & _ & H1 & <-). intros H. eapply vrun_gt in H; eauto. lia.
    - destruct (Nat.eq_dec k (S K)) as [->|]; [|apply IH; auto; lia].
      destruct (HG g Hg) as (H1 & H2 & H3 & <-).
      assert (HI' : forall j, (0 < j <= S K)%nat -> input N (g_n g) SynV j = evw (g_L g) j).
      { intros j Hj. replace j with (S (j - 1)) by lia. apply HI; auto.
        intros g' k' Hg' Hk'. apply IH; auto. lia. }
      destruct (vonly_from (g_n g) (S K) H1 H2 (g_L g) 0 0) with (k := S K) as [H _]; auto using init_rest; try lra; try lia. }
  intros g Hg k. eapply HA; eauto.
Qed.

(** ** Quiet evolution of any neuron (C15) *)
Definition rho : R := 1 - dt / 20.
Definition traj (s : nstate R) (i : nat) : nstate R :=
  {| V := V s + INR i * (dt * ge s / 100) + gate s * gf s / 5 * (1 - (if Reqb (gate s) 0 then 1 else rho ^ i));
     ge := ge s;
     gf := gf s * (if Reqb (gate s) 0 then 1 else rho ^ i);
     gate := gate s |}.
Lemma traj_0 s : traj s 0 = s.
Proof. destruct s; unfold traj; cbn. destruct (Reqb gate 0); cbn; f_equal; lra. Qed.
Definition no_input (n k : nat) : Prop := forall ty, input N n ty k = 0.

Lemma ustep_traj s i : ustep stdp dt (traj s i) =
  if Rleb 10 (V (traj s (S i))) then (at_rest 0, true) else (traj s (S i), false).
Proof.
  unfold ustep. cbn [stdp Vt tm tf Vreset]. cbn [traj ge gate gf]. set (x := V (traj s (S i))).
  assert (E : V (traj s i) + dt * (ge s + gate s * (gf s * (if Reqb (gate s) 0 then 1 else rho ^ i))) / 100 = x).
  { subst x. unfold traj. cbn [V]. rewrite S_INR. cbn [pow]. generalize (rho ^ i) as y. intros y.
    destruct (Reqb (gate s) 0) eqn:E.
    - apply Reqb_true in E. rewrite E. field.
    - unfold rho. field. }
  rewrite E. destruct (Rleb 10 x); [reflexivity|]. f_equal. unfold traj. fold x. f_equal.
  cbn [pow]. destruct (Reqb (gate s) 0); [reflexivity|]. generalize (rho ^ i) as y. intros y. unfold rho. field.
Qed.

Lemma recv_none n k s : no_input n k ->
  recv s (input N n SynV k) (input N n SynGe k) (input N n SynGf k) (input N n SynGate k) = s.
Proof. intros H. rewrite !H. apply recv_0. Qed.

(** state just after the inputs of step k+1 *)
Definition recvd (n k : nat) : nstate R :=
  recv (st N k n) (input N n SynV (S k)) (input N n SynGe (S k)) (input N n SynGf (S k)) (input N n SynGate (S k)).

Lemma phase n k s j : t_prm N n = stdp -> recvd n k = s ->
  (forall i, (1 < i <= j)%nat -> no_input n (k + i)) ->
  (forall i, (1 <= i <= j)%nat -> V (traj s i) < 10) ->
  forall i, (1 <= i <= j)%nat -> st N (k + i) n = traj s i /\ spk N (k + i) n = false.
Proof.
  intros HP HR HI HV i. induction i as [|i IH]; intros Hi; [lia|].
  pose proof (step_eq N (k + i) n) as E. rewrite nstep_ustep, HP in E.
  assert (Er : recv (st N (k + i) n) (input N n SynV (S (k + i))) (input N n SynGe (S (k + i)))
                    (input N n SynGf (S (k + i))) (input N n SynGate (S (k + i))) = traj s i).
  { destruct (Nat.eq_dec i 0) as [->|].
    - rewrite Nat.add_0_r, traj_0. exact HR.
    - rewrite recv_none; [apply IH; lia|]. rewrite <- Nat.add_succ_r. apply HI. lia. }
  rewrite Er in E. fold dt in E. rewrite ustep_traj in E.
  rewrite (proj2 (Rleb_false _ _) (HV (S i) Hi)) in E. rewrite <- Nat.add_succ_r in E. injection E as -> ->. auto.
Qed.
Lemma phase_fire n k s j : t_prm N n = stdp -> recvd n k = s -> (1 <= j)%nat ->
  (forall i, (1 < i <= j)%nat -> no_input n (k + i)) ->
  (forall i, (1 <= i < j)%nat -> V (traj s i) < 10) -> 10 <= V (traj s j) ->
  (forall i, (1 <= i < j)%nat -> st N (k + i) n = traj s i /\ spk N (k + i) n = false) /\
  spk N (k + j) n = true /\ st N (k + j) n = at_rest 0.
Proof.
  intros HP HR Hj HI HV HF.
  assert (HA : forall i, (1 <= i < j)%nat -> st N (k + i) n = traj s i /\ spk N (k + i) n = false).
  { intros i Hi. apply (phase n k s (j - 1)); auto; intros; try apply HI; try apply HV; lia. }
  split; auto.
  pose proof (step_eq N (k + (j - 1)) n) as E. rewrite nstep_ustep, HP in E.
  assert (Er : recv (st N (k + (j - 1)) n) (input N n SynV (S (k + (j - 1)))) (input N n SynGe (S (k + (j - 1))))
                    (input N n SynGf (S (k + (j - 1)))) (input N n SynGate (S (k + (j - 1)))) = traj s (j - 1)).
  { destruct (Nat.eq_dec j 1) as [->|].
    - replace (k + (1 - 1))%nat with k by lia. cbn [Nat.sub]. rewrite traj_0. exact HR.
    - rewrite recv_none; [apply HA; lia|]. replace (S (k + (j - 1))) with (k + j)%nat by lia. apply HI. lia. }
  rewrite Er in E. fold dt in E. rewrite ustep_traj in E. replace (S (k + (j - 1))) with (k + j)%nat in E by lia.
  replace (S (j - 1)) with j in E by lia. rewrite (proj2 (Rleb_true _ _) HF) in E. injection E as -> ->. auto.
Qed.

(** resting neuron without inputs stays silent *)
Lemma rest_quiet n a v : t_prm N n = stdp -> st N a n = at_rest v -> v < 10 ->
  forall b, (forall k, (a < k <= b)%nat -> no_input n k) ->
  forall k, (a <= k <= b)%nat -> st N k n = at_rest v /\ (a < k -> spk N k n = false)%nat.
Proof.
  intros HP HS Hv b HI k Hk. destruct (Nat.eq_dec k a) as [->|]; [split; auto; lia|].
  assert (HT : forall i, traj (at_rest v) i = at_rest v).
  { intros i. unfold traj, at_rest. cbn. rewrite (Reqb_refl 0). f_equal; lra. }
  destruct (phase n a (at_rest v) (k - a)) with (i := (k - a)%nat) as [H1 H2]; auto.
  - unfold recvd. rewrite HS. apply recv_none. apply HI. lia.
  - intros i Hi. apply HI. lia.
  - intros i Hi. rewrite HT. exact Hv.
  - lia.
  - replace (a + (k - a))%nat with k in H1, H2 by lia. rewrite HT in H1. split; auto.
Qed.
Lemma no_input_of n k : input N n SynV k = 0 -> input N n SynGe k = 0 -> input N n SynGf k = 0 -> input N n SynGate k = 0 ->
  input N n SynOther k = 0 -> no_input n k.
Proof. intros ? ? ? ? ? []; auto. Qed.
End Neu.
