(** LogNetwork and ExponentialNetwork on PredSimulator (C53). *)
From Coq Require Import Arith ZArith Bool List Reals Lra Lia Permutation Sorted.
From Verif Require Import Num NumOrd Heapq Elements Networks CancelQueue PredSim PredNeuron NeuronLib NetLib Build BuildNets Trace SimTrace TraceProps Bridge Session SimpleNets InvMem ExpLog PredProofs PredRun PredNet PredMem.
Import ListNotations.
Open Scope list_scope.
Open Scope R_scope.

(** ** neurons with gf and gate *)
Definition px (v g f a l : R) : pneuron R := {| pn_st := {| V := v; ge := g; gf := f; gate := a |}; pn_last := l |}.
Lemma pn_px v g l : pn v g l = px v g 0 0 l. Proof. reflexivity. Qed.
(** predicted potential after d ms *)
Definition pot (v g f a d : R) : R := v + g / 100 * d + a * f / 5 * (1 - exp (- d / 20)).
Lemma traj_px v g f a dt k : PredNeuron.traj stdp {| V := v; ge := g; gf := f; gate := a |} dt k = pot v g f a (IZR k * dt).
Proof. unfold PredNeuron.traj, pot. cbn [V ge gf gate tm tf stdp]. field. Qed.
Lemma advance_px v g f a l t hs : a = 0 \/ a = 1 ->
  advance stdp (px v g f a l) t hs = px (pot v g f a (t - l) + wsum SynV hs) (g + wsum SynGe hs) (f * exp (- (t - l) / 20) + wsum SynGf hs) (a + wsum SynGate hs) t.
Proof.
  intros Ha. unfold advance, px. cbn [pn_st pn_last V ge gf gate]. f_equal. f_equal.
  unfold ffV, pot. cbn [V ge gf gate tm tf stdp]. destruct (Req_EM_T a 0) as [->|]; [lra|]. destruct Ha as [Ha|Ha]; [congruence|]. subst a. field.
Qed.
Section Rules.
Variable dt : R.
Hypothesis Hdt : 0 < dt.
Hypothesis HM : (horizon dt < 2 ^ 64)%Z.
Local Notation P := (pend stdp dt (horizon dt)).
Local Notation run := (nat_run dt).
Lemma pend_px v g f a l t : P (px v g f a l) = Some t -> exists k, (0 <= k)%Z /\ t = l + IZR k * dt /\ 10 <= pot v g f a (IZR k * dt).
Proof.
  intros E0. destruct (predict_sound stdp (pn_st (px v g f a l)) dt (horizon dt)) as (r & E & Hr); [cbn; lra|cbn; lra|split; [apply horizon_pos; auto|auto]|].
  rewrite (pend_eq dt _ _ E) in E0. destruct r as [d|]; [|discriminate]. destruct (Hr d eq_refl) as (k & Hk & -> & H). cbn [px pn_st] in H. rewrite traj_px in H. cbn [Vt stdp] in H.
  injection E0 as <-. exists k. split; [lia|]. split; auto.
Qed.
Lemma x_end v g f a l : (forall d, 0 <= d -> pot v g f a d < 10) -> run (px v g f a l) [] [].
Proof.
  intros H. apply nr_end. destruct (P (px v g f a l)) as [t|] eqn:E; auto. exfalso. destruct (pend_px _ _ _ _ _ _ E) as (k & Hk & _ & HP).
  specialize (H (IZR k * dt)). assert (0 <= IZR k * dt) by (apply Rmult_le_pos; [apply IZR_le; lia|lra]). specialize (H H0). lra.
Qed.
Lemma x_hit v g f a l t hs tl F v' g' f' a' : a = 0 \/ a = 1 -> (forall d, 0 <= d <= t - l -> pot v g f a d < 10) ->
  v' = pot v g f a (t - l) + wsum SynV hs -> g' = g + wsum SynGe hs -> f' = f * exp (- (t - l) / 20) + wsum SynGf hs -> a' = a + wsum SynGate hs ->
  run (px v' g' f' a' t) tl F -> run (px v g f a l) ((t, hs) :: tl) F.
Proof.
  intros Ha Hd -> -> -> -> HR. apply nr_hit.
  - intros u E. destruct (pend_px _ _ _ _ _ _ E) as (k & Hk & -> & HP). destruct (Rle_lt_dec (IZR k * dt) (t - l)) as [C|C]; [|lra]. exfalso.
    assert (0 <= IZR k * dt) by (apply Rmult_le_pos; [apply IZR_le; lia|lra]). specialize (Hd (IZR k * dt) (conj H C)). lra.
  - rewrite advance_px by auto. exact HR.
Qed.
(** excitatory drive that reaches the threshold after exactly d ms fires at the first grid point from d on *)
Lemma pot_mono v g f a d e : 0 <= g -> 0 <= a * f -> d <= e -> pot v g f a d <= pot v g f a e.
Proof.
  intros Hg Ha Hd. unfold pot. apply Rplus_le_compat.
  - apply Rplus_le_compat_l. apply Rmult_le_compat_l; lra.
  - apply Rmult_le_compat_l; [lra|]. apply Rplus_le_compat_l, Ropp_le_contravar. destruct (Req_dec d e) as [->|Hne]; [right; auto|].
    left. apply exp_increasing. lra.
Qed.
Lemma x_fire v g f a l d K t tl F : 0 <= g -> 0 <= a * f -> 0 < d -> pot v g f a d = 10 -> (forall e, 0 <= e < d -> pot v g f a e < 10) ->
  K = step_at dt d -> INR K * dt + dt <= 500 -> t = l + INR K * dt -> (forall h, In h tl -> t <= fst h) ->
  run (pn 0 0 l) tl F -> run (px v g f a l) tl (t :: F).
Proof.
  intros Hg Ha Hd0 Hd Hlt EK HK -> Hl HR. apply nr_fire; auto. pose proof (step_at_bounds dt d Hdt Hd0) as HB. rewrite <- EK in HB.
  pose proof (step_at_ge1 dt d) as K1. rewrite <- EK in K1. pose proof (horizon_lt dt K Hdt HK) as HH.
  destruct (predict_excitatory stdp (pn_st (px v g f a l)) dt (horizon dt)) as [(k & Hk & E & H1 & H2)|(E & H1)]; cbn [px pn_st V ge gf gate tm tf stdp]; try lra.
  - split; [apply horizon_pos; auto|auto].
  - rewrite (pend_eq dt _ _ E). f_equal. f_equal. f_equal. cbn [px pn_st] in H1, H2. rewrite traj_px in H1. cbn [Vt stdp] in H1, H2.
    rewrite INR_IZR_INZ. f_equal. apply Z.le_antisymm.
    + destruct (Z.le_gt_cases k (Z.of_nat K)) as [|C]; auto. exfalso. specialize (H2 (Z.of_nat K) ltac:(lia)). rewrite traj_px, <- INR_IZR_INZ in H2.
      pose proof (pot_mono v g f a d (INR K * dt) Hg Ha ltac:(lra)). lra.
    + destruct (Z.le_gt_cases (Z.of_nat K) k) as [|C]; auto. exfalso.
      assert (IZR k * dt <= INR K * dt - dt).
      { assert (IZR k + 1 <= INR K). { rewrite INR_IZR_INZ. change 1 with (IZR 1). rewrite <- plus_IZR. apply IZR_le. lia. }
        apply (Rmult_le_compat_r dt) in H; lra. }
      assert (0 <= IZR k * dt) by (apply Rmult_le_pos; [apply IZR_le; lia|lra]). specialize (Hlt (IZR k * dt)). lra.
  - exfalso. specialize (H1 (Z.of_nat K) ltac:(lia)). cbn [px pn_st] in H1. rewrite traj_px, <- INR_IZR_INZ in H1. cbn [Vt stdp] in H1.
    pose proof (pot_mono v g f a d (INR K * dt) Hg Ha ltac:(lra)). lra.
Qed.
Lemma x_now v g f a l tl F : 0 <= g -> 0 <= a * f -> 10 <= v -> dt <= 500 -> (forall h, In h tl -> l <= fst h) ->
  run (pn 0 0 l) tl F -> run (px v g f a l) tl (l :: F).
Proof.
  intros Hg Ha Hv Hd Hl HR. apply nr_fire; auto. assert (H0 : (0 < horizon dt)%Z) by (apply (horizon_lt dt 0); cbn; lra).
  destruct (predict_excitatory stdp (pn_st (px v g f a l)) dt (horizon dt)) as [(k & Hk & E & H1 & H2)|(E & H1)]; cbn [px pn_st V ge gf gate tm tf stdp]; try lra.
  - split; [apply horizon_pos; auto|auto].
  - rewrite (pend_eq dt _ _ E). f_equal. cbn [pn_last px]. destruct (Z.eq_dec k 0) as [->|Hne]; [ring|]. exfalso. specialize (H2 0%Z ltac:(lia)).
    cbn [px pn_st] in H2. rewrite traj_px in H2. cbn [Vt stdp] in H2. pose proof (pot_mono v g f a 0 (0 * dt) Hg Ha ltac:(lra)). unfold pot at 1 in H.
    replace (- 0 / 20) with 0 in H by lra. rewrite exp_0 in H. lra.
  - exfalso. specialize (H1 0%Z ltac:(lia)). cbn [px pn_st] in H1. rewrite traj_px in H1. cbn [Vt stdp] in H1. pose proof (pot_mono v g f a 0 (0 * dt) Hg Ha ltac:(lra)). unfold pot at 1 in H.
    replace (- 0 / 20) with 0 in H by lra. rewrite exp_0 in H. lra.
Qed.
End Rules.

(** ** the two networks: five neurons input, first, last, acc, output *)
Section Fun.
Variables tmin tcod x dt : R.
Hypothesis Hdt : 0 < dt. Hypothesis HM : (horizon dt < 2 ^ 64)%Z. Hypothesis Hd5 : dt <= 500.
Hypothesis Htc : 0 < tcod. Hypothesis Htm : 1 < tmin. Hypothesis Hx : 0 <= x <= 1.
Let iv := tmin + x * tcod.
Let wb := 1000 / tcod.
(** spike times when the accumulator fires e ms after the last hit *)
Definition fn_F (e : option R) (n : nat) : list R :=
  match n with
  | 0%nat => [0; iv] | 1%nat => [1] | 2%nat => [iv + 1]
  | 3%nat => match e with Some d => [iv + 2 + d] | None => [] end
  | 4%nat => match e with Some d => [iv + 3; iv + 3 + tmin + d] | None => [iv + 3] end
  | _ => [] end.
Definition two (A B : list (syntype * R)) : list (R * list (syntype * R)) :=
  if Req_EM_T x 0 then [(tmin + 2, A ++ B)] else [(tmin + 2, A); (iv + 2, B)].
Definition fn_hits (A B : list (syntype * R)) (e : option R) (n : nat) : list (R * list (syntype * R)) :=
  match n with
  | 0%nat => [(0, [(SynV, 10)]); (iv, [(SynV, 10)])]
  | 1%nat => [(1, [(SynV, 10)]); (2, [(SynV, -10)]); (iv + 1, [(SynV, 10)])]
  | 2%nat => [(1, [(SynV, 5)]); (iv + 1, [(SynV, 5)])]
  | 3%nat => two A B
  | 4%nat => match e with Some d => [(iv + 3, [(SynV, 10)]); (iv + 3 + tmin + d, [(SynV, 10)])] | None => [(iv + 3, [(SynV, 10)])] end
  | _ => [] end.
Definition front : list (synapse R) := [syn 0 1 SynV 10 1; syn 0 2 SynV 5 1; syn 1 1 SynV (-10) 1].
Definition lgA := [(SynGe, wb)].
Definition lgB := [(SynGate, 1); (SynGe, - wb); (SynGf, 50)].
Definition exA := [(SynGf, 50); (SynGate, 1)].
Definition exB := [(SynGate, -1); (SynGe, wb)].
Definition lg_num : list (synapse R) := front ++ [syn 1 3 SynGe wb (1 + tmin); syn 2 3 SynGate 1 1; syn 2 3 SynGe (- wb) 1; syn 2 3 SynGf 50 1; syn 3 4 SynV 10 (1 + tmin); syn 2 4 SynV 10 2].
Definition ex_num : list (synapse R) := front ++ [syn 1 3 SynGf 50 (1 + tmin); syn 1 3 SynGate 1 (1 + tmin); syn 2 3 SynGate (-1) 1; syn 2 3 SynGe wb 1; syn 3 4 SynV 10 (1 + tmin); syn 2 4 SynV 10 2].
Lemma fn_xc : 0 <= x * tcod <= tcod.
Proof. split; [apply Rmult_le_pos; lra|rewrite <- (Rmult_1_l tcod) at 2; apply Rmult_le_compat_r; lra]. Qed.
Lemma fn_runs A B e n : (n < 5)%nat -> (forall d, e = Some d -> 0 <= d) -> nat_run dt rest0 (two A B) (fn_F e 3) -> nat_run dt rest0 (fn_hits A B e n) (fn_F e n).
Proof.
  intros Hn He HA. pose proof fn_xc as Hxc. assert (Hiv : 1 < iv) by (unfold iv; lra).
  destruct n as [|[|[|[|[|n]]]]]; [..|exfalso; lia]; cbn [fn_hits]; [ | | |exact HA|]; rewrite rest0_pn.
  - apply (r_relay dt Hdt HM [0; iv] 0 10); auto; [lra|]. sorted; lra.
  - eapply r_hit; [exact Hdt|exact HM|lra|left; lra|wsums; ring|wsums; ring|reflexivity|reflexivity|].
    apply r_now; auto; [wsums; lra|wsums; lra|inlist; lra|].
    eapply r_hit; [exact Hdt|exact HM|lra|left; lra|wsums; ring|wsums; ring|reflexivity|reflexivity|].
    eapply r_hit; [exact Hdt|exact HM|wsums; lra|left; wsums; lra|wsums; ring|wsums; ring|reflexivity|reflexivity|].
    apply r_end; auto; wsums; lra.
  - eapply r_hit; [exact Hdt|exact HM|lra|left; lra|wsums; ring|wsums; ring|reflexivity|reflexivity|].
    eapply r_hit; [exact Hdt|exact HM|wsums; lra|left; wsums; lra|wsums; ring|wsums; ring|reflexivity|reflexivity|].
    apply r_now; auto; [wsums; lra|wsums; lra|inlist|]. apply r_end; auto; lra.
  - destruct e as [d|]; cbn [fn_F].
    + specialize (He d eq_refl). apply (r_relay dt Hdt HM [iv + 3; iv + 3 + tmin + d] 0 10); auto; [lra|]. sorted; lra.
    + apply (r_relay dt Hdt HM [iv + 3] 0 10); auto; [lra|]. sorted; lra.
Qed.
Lemma fn_sorted A B e n : (n < 5)%nat -> (forall d, e = Some d -> 0 <= d) -> StronglySorted (fun a b => fst a < fst b) (fn_hits A B e n).
Proof.
  intros Hn He. pose proof fn_xc as Hxc. assert (Hiv : 1 < iv) by (unfold iv; lra).
  destruct n as [|[|[|[|[|n]]]]]; [..|exfalso; lia]; cbn [fn_hits]; try (sorted; lra).
  - unfold two. destruct (Req_EM_T x 0) as [E|E]; sorted; try lra.
    assert (0 < x * tcod) by (apply Rmult_lt_0_compat; lra). unfold iv. lra.
  - destruct e as [d|]; sorted; try lra. specialize (He d eq_refl). lra.
Qed.
Lemma fn_nonempty A B e n g : A <> [] -> B <> [] -> (n < 5)%nat -> In g (fn_hits A B e n) -> snd g <> [].
Proof.
  intros HA HB Hn. destruct n as [|[|[|[|[|n]]]]]; [..|exfalso; lia]; cbn [fn_hits].
  4:{ unfold two. destruct (Req_EM_T x 0); cbn [In]; intros H.
      - destruct H as [<-|H]; [|destruct H]. cbn [snd]. destruct A; [congruence|discriminate].
      - destruct H as [<-|[<-|H]]; [exact HA|exact HB|destruct H]. }
  all: try destruct e; cbn [In]; intros H; repeat (destruct H as [<-|H]; [discriminate|]); destruct H.
Qed.
Lemma lg_perm e n : (n < 5)%nat -> Permutation (ungroup (fn_hits lgA lgB e n)) (received 10 lg_num [(0%nat, 0); (0%nat, iv)] (fn_F e) n).
Proof.
  intros Hn. destruct n as [|[|[|[|[|n]]]]]; [..|exfalso; lia].
  4: cbn [fn_hits]; unfold two; destruct (Req_EM_T x 0) as [E|E].
  all: destruct e; cbn; unfold iv; try rewrite E; perms.
Qed.
Lemma ex_perm e n : (n < 5)%nat -> Permutation (ungroup (fn_hits exA exB e n)) (received 10 ex_num [(0%nat, 0); (0%nat, iv)] (fn_F e) n).
Proof.
  intros Hn. destruct n as [|[|[|[|[|n]]]]]; [..|exfalso; lia].
  4: cbn [fn_hits]; unfold two; destruct (Req_EM_T x 0) as [E|E].
  all: destruct e; cbn; unfold iv; try rewrite E; perms.
Qed.

(** *** exponential: charging for x*tcod, then a ramp *)
Definition ex_y : R := exp (- (x * tcod) / 20).
Lemma pot0 v g f a : pot v g f a 0 = v.
Proof. unfold pot. replace (- 0 / 20) with 0 by lra. rewrite exp_0. ring. Qed.
Lemma ex_acc_run : INR (step_at dt (ex_y * tcod)) * dt + dt <= 500 -> nat_run dt rest0 (two exA exB) (fn_F (Some (INR (step_at dt (ex_y * tcod)) * dt)) 3).
Proof.
  intros HK. pose proof fn_xc as Hxc. rewrite rest0_pn, pn_px. cbn [fn_F].
  assert (Hy : 0 < ex_y) by apply exp_pos. assert (Hyt : 0 < ex_y * tcod) by (apply Rmult_lt_0_compat; auto).
  assert (Hw : 0 < wb) by (unfold wb; apply Rdiv_lt_0_compat; lra).
  assert (FIN : forall f, nat_run dt (px (10 * (1 - ex_y)) wb f 0 (iv + 2)) [] [iv + 2 + INR (step_at dt (ex_y * tcod)) * dt]).
  { intros f. assert (EP : forall d, pot (10 * (1 - ex_y)) wb f 0 d = 10 + 10 / tcod * (d - ex_y * tcod)) by (intros d; unfold pot, wb; field; lra).
    apply (x_fire dt Hdt HM _ _ _ _ _ (ex_y * tcod) (step_at dt (ex_y * tcod))); auto; try lra.
    - rewrite EP. lra.
    - intros e [He1 He2]. rewrite EP. assert (0 < 10 / tcod * (ex_y * tcod - e)) by (apply Rmult_lt_0_compat; [apply Rdiv_lt_0_compat; lra|lra]). lra.
    - intros h [].
    - apply r_end; auto; lra. }
  unfold two, exA, exB. destruct (Req_EM_T x 0) as [E|E].
  - assert (Ey : ex_y = 1) by (unfold ex_y; rewrite E; replace (- (0 * tcod) / 20) with 0 by lra; apply exp_0).
    eapply (x_hit dt Hdt) with (a' := 0) (g' := wb) (v' := 10 * (1 - ex_y)); auto.
    + intros d Hd. unfold pot. lra.
    + cbn [app]. wsums. unfold pot. rewrite Ey. lra.
    + cbn [app]. wsums. lra.
    + cbn [app]. wsums. lra.
    + replace (tmin + 2) with (iv + 2) by (unfold iv; rewrite E; lra). apply FIN.
  - eapply (x_hit dt Hdt) with (a' := 1) (g' := 0) (v' := 0) (f' := 50); auto.
    + intros d Hd. unfold pot. lra.
    + wsums. unfold pot. lra.
    + wsums. lra.
    + wsums. lra.
    + wsums. lra.
    + eapply (x_hit dt Hdt) with (a' := 0) (g' := wb) (v' := 10 * (1 - ex_y)); auto.
      * intros d Hd. unfold pot. pose proof (exp_pos (- d / 20)). lra.
      * wsums. unfold pot, ex_y. replace (iv + 2 - (tmin + 2)) with (x * tcod) by (unfold iv; lra). lra.
      * wsums. lra.
      * wsums. lra.
Qed.
(** *** logarithm: a ramp for x*tcod, then charging *)
Lemma lg_acc_run : 0 < x < 1 -> INR (step_at dt (20 * - ln x)) * dt + dt <= 500 -> nat_run dt rest0 (two lgA lgB) (fn_F (Some (INR (step_at dt (20 * - ln x)) * dt)) 3).
Proof.
  intros Hx1 HK. pose proof fn_xc as Hxc. rewrite rest0_pn, pn_px. cbn [fn_F].
  assert (Hw : 0 < wb) by (unfold wb; apply Rdiv_lt_0_compat; lra). assert (Hl : ln x < 0) by (rewrite <- ln_1; apply ln_increasing; lra).
  unfold two, lgA, lgB. destruct (Req_EM_T x 0) as [E|E]; [lra|].
  eapply (x_hit dt Hdt) with (a' := 0) (g' := wb) (v' := 0) (f' := 0); auto.
  - intros d Hd. unfold pot. lra.
  - wsums. unfold pot. lra.
  - wsums. lra.
  - wsums. lra.
  - wsums. lra.
  - eapply (x_hit dt Hdt) with (a' := 1) (g' := 0) (v' := 10 * x) (f' := 50); auto.
    + intros d Hd. unfold pot. replace (iv + 2 - (tmin + 2)) with (x * tcod) in Hd by (unfold iv; lra).
      assert (wb / 100 * d <= wb / 100 * (x * tcod)) by (apply Rmult_le_compat_l; lra). replace (wb / 100 * (x * tcod)) with (10 * x) in H by (unfold wb; field; lra). lra.
    + wsums. unfold pot. replace (iv + 2 - (tmin + 2)) with (x * tcod) by (unfold iv; lra). unfold wb. field. lra.
    + wsums. lra.
    + wsums. lra.
    + wsums. lra.
    + apply (x_fire dt Hdt HM _ _ _ _ _ (20 * - ln x) (step_at dt (20 * - ln x))); auto; try lra.
      * unfold pot. replace (- (20 * - ln x) / 20) with (ln x) by lra. rewrite exp_ln by lra. lra.
      * intros e [He1 He2]. unfold pot. assert (x < exp (- e / 20)); [|lra]. rewrite <- (exp_ln x) at 1 by lra. apply exp_increasing. lra.
      * intros h [].
      * apply r_end; auto; lra.
Qed.
Lemma lg_acc_far : 0 < x < 1 -> 500 <= 20 * - ln x -> nat_run dt rest0 (two lgA lgB) (fn_F None 3).
Proof.
  intros Hx1 HK. pose proof fn_xc as Hxc. rewrite rest0_pn, pn_px. cbn [fn_F].
  assert (Hw : 0 < wb) by (unfold wb; apply Rdiv_lt_0_compat; lra).
  unfold two, lgA, lgB. destruct (Req_EM_T x 0) as [E|E]; [lra|].
  eapply (x_hit dt Hdt) with (a' := 0) (g' := wb) (v' := 0) (f' := 0); auto.
  - intros d Hd. unfold pot. lra.
  - wsums. unfold pot. lra.
  - wsums. lra.
  - wsums. lra.
  - wsums. lra.
  - eapply (x_hit dt Hdt) with (a' := 1) (g' := 0) (v' := 10 * x) (f' := 50); auto.
    + intros d Hd. unfold pot. replace (iv + 2 - (tmin + 2)) with (x * tcod) in Hd by (unfold iv; lra).
      assert (wb / 100 * d <= wb / 100 * (x * tcod)) by (apply Rmult_le_compat_l; lra). replace (wb / 100 * (x * tcod)) with (10 * x) in H by (unfold wb; field; lra). lra.
    + wsums. unfold pot. replace (iv + 2 - (tmin + 2)) with (x * tcod) by (unfold iv; lra). unfold wb. field. lra.
    + wsums. lra.
    + wsums. lra.
    + wsums. lra.
    + apply nr_end. destruct (pend stdp dt (horizon dt) (px (10 * x) 0 50 1 (iv + 2))) as [t|] eqn:E2; auto. exfalso.
      destruct (predict_sound stdp (pn_st (px (10 * x) 0 50 1 (iv + 2))) dt (horizon dt)) as (r & Er & Hr); [cbn; lra|cbn; lra|split; [apply horizon_pos; auto|auto]|].
      rewrite (pend_eq dt _ _ Er) in E2. destruct r as [d|]; [|discriminate]. destruct (Hr d eq_refl) as (k & Hk & _ & H). cbn [px pn_st] in H. rewrite traj_px in H. cbn [Vt stdp] in H.
      assert (IZR k * dt < 500).
      { destruct (Rlt_le_dec (IZR k * dt) 500) as [|C]; auto. exfalso. pose proof (horizon_ge dt (Z.to_nat k) Hdt). rewrite INR_IZR_INZ, Z2Nat.id in H0 by lia. specialize (H0 C). lia. }
      unfold pot in H. assert (x < exp (- (IZR k * dt) / 20)); [|lra]. rewrite <- (exp_ln x) at 1 by lra. apply exp_increasing. lra.
Qed.
Lemma lg_acc_zero : x = 0 -> nat_run dt rest0 (two lgA lgB) (fn_F None 3).
Proof.
  intros E. rewrite rest0_pn, pn_px. cbn [fn_F].
  unfold two, lgA, lgB. destruct (Req_EM_T x 0) as [_|C]; [|congruence].
  eapply (x_hit dt Hdt) with (a' := 1) (g' := 0) (v' := 0) (f' := 50); auto.
  - intros d Hd. unfold pot. lra.
  - cbn [app]; wsums. unfold pot. lra.
  - cbn [app]; wsums. lra.
  - cbn [app]; wsums. lra.
  - cbn [app]; wsums. lra.
  - apply x_end; auto. intros d Hd. unfold pot. pose proof (exp_pos (- d / 20)). lra.
Qed.
(** the input 1: the ramp ends exactly at the threshold; on a grid through tcod it fires before the last hits are applied *)
Lemma lg_acc_one : x = 1 -> tcod + 2 * dt <= 500 -> nat_run dt rest0 (two lgA lgB) (fn_F (Some 0) 3).
Proof.
  intros E H5. rewrite rest0_pn, pn_px. cbn [fn_F]. assert (Hw : 0 < wb) by (unfold wb; apply Rdiv_lt_0_compat; lra).
  assert (Eiv : iv = tmin + tcod) by (unfold iv; rewrite E; lra).
  unfold two, lgA, lgB. destruct (Req_EM_T x 0) as [C|_]; [lra|].
  eapply (x_hit dt Hdt) with (a' := 0) (g' := wb) (v' := 0) (f' := 0); auto.
  - intros d Hd. unfold pot. lra.
  - wsums. unfold pot. lra.
  - wsums. lra.
  - wsums. lra.
  - wsums. lra.
  - pose proof (step_at_bounds dt tcod Hdt Htc) as HB. set (k := step_at dt tcod) in *.
    assert (ER : ramp dt 0 wb = k) by (unfold ramp, k; f_equal; unfold wb; field; lra).
    destruct (Req_dec (INR k * dt) tcod) as [Eq|Ne].
    + rewrite <- pn_px. apply r_ramp; auto; [lra|rewrite ER, Eq, Eiv; lra|rewrite ER; lra|intros h [<-|[]]; cbn [fst]; lra|].
      rewrite pn_px. eapply (x_hit dt Hdt) with (a' := 1) (g' := - wb) (v' := 0) (f' := 50); auto.
      * intros d Hd. unfold pot. lra.
      * wsums. unfold pot. lra.
      * wsums. lra.
      * wsums. lra.
      * wsums. lra.
      * apply x_end; auto. intros d Hd. unfold pot. pose proof (exp_pos (- d / 20)). assert (0 <= wb * d) by (apply Rmult_le_pos; lra). lra.
    + rewrite <- pn_px. eapply nr_hit.
      * intros f Hf. rewrite pend_ramp in Hf by (auto; lra). destruct (Z.ltb _ _); [|discriminate]. injection Hf as <-. rewrite ER, Eiv. lra.
      * rewrite pn_px, advance_px by auto. replace (iv + 2 + 0) with (iv + 2) by lra. apply x_now; auto.
        -- wsums. lra.
        -- wsums. lra.
        -- wsums. unfold pot. rewrite Eiv. replace (tmin + tcod + 2 - (tmin + 2)) with tcod by lra. unfold wb. right. field. lra.
        -- intros h [].
        -- apply r_end; auto; lra.
Qed.
End Fun.
Lemma lg_syns_R tmin tcod a : tcod <> 0 -> lg_syns (DataEncoder tmin tcod) (Build_log_net a 0 1 2 3 4) = lg_num tmin tcod.
Proof.
  intros H. unfold lg_syns, lg_num, front. cbn [lg_input lg_first lg_last lg_acc lg_output app]. rewrite wbar_R. unfold gmult, ctm, ctf. consts.
  repeat (f_equal; try lra).
Qed.
Lemma ex_syns_R tmin tcod a : tcod <> 0 -> ex_syns (DataEncoder tmin tcod) (Build_exp_net a 0 1 2 3 4) = ex_num tmin tcod.
Proof.
  intros H. unfold ex_syns, ex_num, front. cbn [ex_input ex_first ex_last ex_acc ex_output app]. rewrite wbar_R. unfold gmult, ctm, ctf. consts.
  repeat (f_equal; try lra).
Qed.
Lemma log_pred (tmin tcod x dt t0 : R) nm e :
  dt_ok dt -> 0 < tcod -> 1 < tmin -> 0 <= x <= 1 -> (forall d, e = Some d -> 0 <= d) ->
  nat_run dt rest0 (two tmin tcod x (lgA tcod) (lgB tcod)) (fn_F tmin tcod x e 3) ->
  pruns (LogNetwork (DataEncoder tmin tcod) nm) lg_mod (DataEncoder tmin tcod) dt (fun m => [SValue x (lg_input m) t0])
      (fun m s => pspike_log s (lg_output m) = fn_F tmin tcod x e 4).
Proof.
  intros HD Htc Htm Hx He HA. destruct (dt_ok_horizon dt HD) as [Hdt HM]. set (enc := DataEncoder tmin tcod).
  assert (HTm : tcod <> 0) by lra.
  destruct (Log_built enc nm empty_world inv_empty (neq0 _ HTm)) as (m & w & E & HB & HN & HL).
  cbn [w_neurons empty_world length Nat.add] in HN, HL. destruct m as [a i0 i1 i2 i3 i4]. unfold lg_nodes in HN. cbn in HN. injection HN as -> -> -> -> ->.
  unfold enc in HB. rewrite (lg_syns_R tmin tcod a HTm) in HB.
  edestruct (psession_solves (LogNetwork enc nm) lg_mod _ w _ enc dt (fun m => [SValue x (lg_input m) t0])
    (fn_hits tmin tcod x (lgA tcod) (lgB tcod) e) (fn_F tmin tcod x e) E HB Hdt HM) as [N HR].
  - rewrite HL. cbn. stims_ok.
  - cbn. intros y Hy. repeat (destruct Hy as [<-|Hy]; [cbn; lra|]). destruct Hy.
  - rewrite HL. intros n Hn. apply fn_runs; auto. apply HD.
  - rewrite HL. intros n Hn. apply fn_sorted; auto.
  - rewrite HL. intros n g Hn. apply fn_nonempty; auto; discriminate.
  - rewrite HL. intros n Hn. apply lg_perm; auto.
  - exists N. intros fuel Hf. destruct (HR fuel Hf) as (s & Es & HLg). eexists. exists s. split; [exact Es|]. cbn [lg_output]. apply HLg. lia.
Qed.
Theorem pred_log (tmin tcod x dt t0 : R) nm :
  dt_ok dt -> 0 < tcod -> 1 < tmin -> 0 < x <= 1 -> 20 * - ln x + 2 * dt <= 500 -> tcod + 2 * dt <= 500 ->
  pruns (LogNetwork (DataEncoder tmin tcod) nm) lg_mod (DataEncoder tmin tcod) dt (fun m => [SValue x (lg_input m) t0])
      (fun m s => pemits s (lg_output m) (DataEncoder tmin tcod) (20 * - ln x / tcod) (dt / tcod)).
Proof.
  intros HD Htc Htm Hx HK H5. destruct (dt_ok_horizon dt HD) as [Hdt HM]. assert (Hd5 : dt <= 500) by apply HD.
  assert (CASE : exists d, 20 * - ln x <= d <= 20 * - ln x + dt /\ 0 <= d /\ nat_run dt rest0 (two tmin tcod x (lgA tcod) (lgB tcod)) (fn_F tmin tcod x (Some d) 3)).
  { destruct (Req_dec x 1) as [E|E].
    - exists 0. split; [|split; [lra|apply lg_acc_one; auto; lra]]. rewrite E, ln_1. lra.
    - assert (ln x < 0) by (rewrite <- ln_1; apply ln_increasing; lra).
      pose proof (step_at_bounds dt (20 * - ln x) Hdt ltac:(lra)) as HB. exists (INR (step_at dt (20 * - ln x)) * dt). split; [lra|]. split; [lra|]. apply lg_acc_run; auto; try lra. }
  destruct CASE as (d & Hd & Hd0 & HA).
  destruct (log_pred tmin tcod x dt t0 nm (Some d) HD Htc Htm ltac:(lra)) as [N HN]; [intros d' Ed; injection Ed as <-; auto|exact HA|].
  exists N. intros fuel Hf. destruct (HN fuel Hf) as (m & s & Es & HL). exists m, s. split; auto. cbn [fn_F] in HL.
  eapply pemits_intro; [auto|exact HL|lra|]. unfold Rdiv. rewrite !Rmult_assoc, Rinv_l, !Rmult_1_r by lra. apply Rabs_le. lra.
Qed.
(** no result spike for 0, nor for values whose logarithm lies beyond the prediction horizon *)
Theorem pred_log_lost (tmin tcod x dt t0 : R) nm :
  dt_ok dt -> 0 < tcod -> 1 < tmin -> x = 0 \/ (0 < x <= 1 /\ 500 <= 20 * - ln x) ->
  pruns (LogNetwork (DataEncoder tmin tcod) nm) lg_mod (DataEncoder tmin tcod) dt (fun m => [SValue x (lg_input m) t0])
      (fun m s => pspike_log s (lg_output m) = [tmin + x * tcod + 3]).
Proof.
  intros HD Htc Htm Hx. destruct (dt_ok_horizon dt HD) as [Hdt HM].
  assert (Hx1 : 0 <= x <= 1) by lra.
  assert (HA : nat_run dt rest0 (two tmin tcod x (lgA tcod) (lgB tcod)) (fn_F tmin tcod x None 3)).
  { destruct Hx as [E|[H1 H2]]; [apply lg_acc_zero; auto|]. apply lg_acc_far; auto. split; [lra|]. destruct (Req_dec x 1) as [E|E]; [|lra]. rewrite E, ln_1 in H2. lra. }
  destruct (log_pred tmin tcod x dt t0 nm None HD Htc Htm Hx1) as [N HN]; [discriminate|exact HA|].
  exists N. intros fuel Hf. destruct (HN fuel Hf) as (m & s & Es & HL). exists m, s. split; auto.
Qed.
Theorem pred_exponential (tmin tcod x dt t0 : R) nm :
  dt_ok dt -> 0 < tcod -> 1 < tmin -> 0 <= x <= 1 -> tcod + 2 * dt <= 500 ->
  pruns (ExponentialNetwork (DataEncoder tmin tcod) nm) ex_mod (DataEncoder tmin tcod) dt (fun m => [SValue x (ex_input m) t0])
      (fun m s => pemits s (ex_output m) (DataEncoder tmin tcod) (exp (- (x * tcod) / 20)) (dt / tcod)).
Proof.
  intros HD Htc Htm Hx H5. destruct (dt_ok_horizon dt HD) as [Hdt HM]. set (enc := DataEncoder tmin tcod).
  assert (HTm : tcod <> 0) by lra. assert (Hxc := fn_xc tcod x Htc Hx).
  assert (Hy : 0 < ex_y tcod x <= 1).
  { split; [apply exp_pos|]. unfold ex_y. rewrite <- exp_0. destruct (Req_dec (x * tcod) 0) as [->|]; [right; f_equal; lra|]. left. apply exp_increasing. lra. }
  assert (Hyt : 0 < ex_y tcod x * tcod <= tcod).
  { split; [apply Rmult_lt_0_compat; lra|]. pose proof (Rmult_le_compat_r tcod (ex_y tcod x) 1). lra. }
  pose proof (step_at_bounds dt (ex_y tcod x * tcod) Hdt ltac:(lra)) as HBd. set (K := INR (step_at dt (ex_y tcod x * tcod)) * dt) in *.
  destruct (Exp_built enc nm empty_world inv_empty (neq0 _ HTm)) as (m & w & E & HB & HN & HL).
  cbn [w_neurons empty_world length Nat.add] in HN, HL. destruct m as [a i0 i1 i2 i3 i4]. unfold ex_nodes in HN. cbn in HN. injection HN as -> -> -> -> ->.
  unfold enc in HB. rewrite (ex_syns_R tmin tcod a HTm) in HB.
  edestruct (psession_solves (ExponentialNetwork enc nm) ex_mod _ w _ enc dt (fun m => [SValue x (ex_input m) t0])
    (fn_hits tmin tcod x exA (exB tcod) (Some K)) (fn_F tmin tcod x (Some K)) E HB Hdt HM) as [N HR].
  - rewrite HL. cbn. stims_ok.
  - cbn. intros y Hy'. repeat (destruct Hy' as [<-|Hy']; [cbn; lra|]). destruct Hy'.
  - rewrite HL. intros n Hn. apply fn_runs; auto; [apply HD|intros d Ed; injection Ed as <-; lra|]. apply ex_acc_run; auto. unfold K in *. lra.
  - rewrite HL. intros n Hn. apply fn_sorted; auto. intros d Ed; injection Ed as <-; lra.
  - rewrite HL. intros n g Hn. apply fn_nonempty; auto; discriminate.
  - rewrite HL. intros n Hn. apply ex_perm; auto.
  - exists N. intros fuel Hf. destruct (HR fuel Hf) as (s & Es & HLg). eexists. exists s. split; [exact Es|]. cbn [ex_output].
    assert (E4 := HLg 4%nat ltac:(lia)). cbn [fn_F] in E4. fold (ex_y tcod x).
    eapply pemits_intro; [auto|exact E4|lra|]. unfold Rdiv. rewrite !Rmult_assoc, Rinv_l, !Rmult_1_r by lra. apply Rabs_le. lra.
Qed.
