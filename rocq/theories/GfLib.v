(** Accumulators with the exponential (gated) current: the logarithm accumulator
    (ge charge, then gated decay) and the exponential accumulator (gated decay, then
    ge ramp).  [rho N] = 1 - dt/tf. *)
From Coq Require Import Arith ZArith Bool List Reals Lra Lia Permutation.
From Verif Require Import Num Heapq Elements Networks Trace SimTrace TraceProps NeuronLib NetLib MemoryProof GeLib.
Import ListNotations.
Open Scope R_scope.
Open Scope list_scope.

Lemma rho_bounds N : 0 < t_dt N < 20 -> 0 < rho N < 1.
Proof. intros H. unfold rho. lra. Qed.
Lemma pow_pos' x n : 0 < x -> 0 < x ^ n. Proof. apply pow_lt. Qed.
Lemma pow_le1 x n : 0 < x < 1 -> x ^ n <= 1.
Proof. intros H. rewrite <- (pow1 n). apply pow_incr. lra. Qed.
Lemma pow_anti x a b : 0 < x < 1 -> (a <= b)%nat -> x ^ b <= x ^ a.
Proof.
  intros H Hab. replace b with (a + (b - a))%nat by lia. rewrite pow_add.
  rewrite <- (Rmult_1_r (x ^ a)) at 2. apply Rmult_le_compat_l; [left; apply pow_lt; lra|apply pow_le1; auto].
Qed.
Lemma pow_anti_lt x a b : 0 < x < 1 -> (a < b)%nat -> x ^ b < x ^ a.
Proof.
  intros H Hab. apply Rle_lt_trans with (x ^ S a); [apply pow_anti; auto|]. cbn.
  assert (0 < x ^ a) by (apply pow_lt; lra). nra.
Qed.
(** least exponent reaching below c *)
Lemma least_pow x c : 0 < x < 1 -> 0 < c -> exists j, x ^ j <= c /\ forall i, (i < j)%nat -> c < x ^ i.
Proof.
  intros Hx Hc.
  assert (HE : exists n, x ^ n <= c).
  { destruct (pow_lt_1_zero x ltac:(rewrite Rabs_right; lra) c Hc) as [n Hn]. exists n.
    specialize (Hn n (Nat.le_refl _)). rewrite Rabs_right in Hn; [lra|]. left. apply pow_lt. lra. }
  destruct HE as [n Hn]. revert Hn. induction n as [|n IH]; intros Hn.
  - exists 0%nat. split; auto. intros i Hi. lia.
  - destruct (Rle_dec (x ^ n) c) as [H|H]; [apply IH; auto|].
    exists (S n). split; auto. intros i Hi. apply Rlt_le_trans with (x ^ n); [lra|]. apply pow_anti; auto. lia.
Qed.

Definition gst (v e f g : R) : nstate R := {| V := v; ge := e; gf := f; gate := g |}.
Lemma recvd_eq N n k v e f g iv ie if_ ig : st N k n = gst v e f g -> input N n SynV (S k) = iv -> input N n SynGe (S k) = ie ->
  input N n SynGf (S k) = if_ -> input N n SynGate (S k) = ig -> recvd N n k = gst (v + iv) (e + ie) (f + if_) (g + ig).
Proof. intros HS <- <- <- <-. unfold recvd. rewrite HS. reflexivity. Qed.
(** trajectories with gate open and closed *)
Lemma traj_gate1 N v e f i : traj N (gst v e f 1) i = gst (v + INR i * (t_dt N * e / 100) + f / 5 * (1 - rho N ^ i)) e (f * rho N ^ i) 1.
Proof. unfold traj, gst. cbn [V ge gf gate]. rewrite (proj2 (Reqb_false 1 0)) by lra. f_equal. lra. Qed.
Lemma traj_gate0 N v e f i : traj N (gst v e f 0) i = gst (v + INR i * (t_dt N * e / 100)) e f 0.
Proof. unfold traj, gst. cbn [V ge gf gate]. rewrite (Reqb_refl 0). f_equal; lra. Qed.
Lemma rest_gst v : at_rest v = gst v 0 0 0. Proof. reflexivity. Qed.

Section Gf.
Variable N : tnet.
Variable n : nat.
Variable Tc : R.
Hypothesis HP : t_prm N n = stdp.
Hypothesis Hdt : 0 < t_dt N < 20.
Hypothesis HTc : 0 < Tc.
Let dt := t_dt N.
Let w := 1000 / Tc.
Hypothesis HO : forall k, (1 <= k)%nat -> input N n SynOther k = 0.
Hypothesis HV : forall k, (1 <= k)%nat -> input N n SynV k = 0.

Lemma w_step : dt * w / 100 = 10 * (dt / Tc).
Proof. unfold w. field. lra. Qed.

(** *** logarithm accumulator *)
Variables e1 e2 g : nat.
Section Log.
Hypothesis He1 : (1 <= e1)%nat.
Hypothesis He : (e1 <= e2)%nat.
Hypothesis Hg : (e2 <= g)%nat.
Hypothesis IGe : forall k, (1 <= k)%nat -> input N n SynGe k = w * ind k e1 + - w * ind k e2.
Hypothesis IGf : forall k, (1 <= k)%nat -> input N n SynGf k = 50 * ind k g.
Hypothesis IGa : forall k, (1 <= k)%nat -> input N n SynGate k = 1 * ind k g.
Let c := INR (e2 - e1) * (dt / Tc).   (* stored fraction of the threshold *)

Lemma log_none k : (1 <= k)%nat -> k <> e1 -> k <> e2 -> k <> g -> no_input N n k.
Proof.
  intros Hk H1 H2 H3. apply no_input_of; auto; rewrite ?IGe, ?IGf, ?IGa, ?ind_ne by auto; lra.
Qed.
Lemma log_pre k : (k < e1)%nat -> spk N k n = false /\ st N k n = at_rest 0.
Proof. apply rest_before; auto. intros j Hj. apply log_none; lia. Qed.
Lemma dtTc : 0 < dt / Tc. Proof. apply Rmult_lt_0_compat; [unfold dt; lra|apply Rinv_0_lt_compat; auto]. Qed.

(** before the gate opens the charge is held *)
Lemma log_charge : (e1 < e2)%nat -> c < 1 ->
  st N (e2 - 1) n = gst (10 * c) w 0 0 /\ (forall k, (k < e2)%nat -> spk N k n = false).
Proof.
  intros Hlt Hc.
  assert (HS : st N (e1 - 1) n = gst 0 0 0 0) by (apply log_pre; lia).
  assert (HR : recvd N n (e1 - 1) = gst 0 w 0 0).
  { rewrite (recvd_eq N n (e1 - 1) 0 0 0 0 0 w 0 0); auto; try (f_equal; lra); replace (S (e1 - 1)) with e1 by lia.
    - apply HV; auto.
    - rewrite IGe, ind_eq, ind_ne by lia. lra.
    - rewrite IGf, ind_ne by lia. lra.
    - rewrite IGa, ind_ne by lia. lra. }
  assert (HB : forall i, (i <= e2 - e1)%nat -> 0 + INR i * (t_dt N * w / 100) < 10).
  { intros i Hi. fold dt. rewrite w_step. assert (INR i * (dt / Tc) <= c) by (apply Rmult_le_compat_r; [left; apply dtTc|apply le_INR; auto]). lra. }
  assert (PH := phase N n (e1 - 1) _ (e2 - e1) HP HR).
  specialize (PH ltac:(intros i Hi; apply log_none; lia)).
  specialize (PH ltac:(intros i Hi; rewrite traj_gate0; cbn [V gst]; apply HB; lia)).
  split.
  - destruct (PH (e2 - e1)%nat ltac:(lia)) as [A _]. replace (e1 - 1 + (e2 - e1))%nat with (e2 - 1)%nat in A by lia.
    rewrite A, traj_gate0. f_equal. fold dt. rewrite w_step. unfold c. lra.
  - intros k Hk. destruct (Nat.lt_ge_cases k e1); [apply log_pre; auto|].
    replace k with (e1 - 1 + (k - (e1 - 1)))%nat by lia. apply PH. lia.
Qed.
Lemma log_hold : c < 1 ->
  recvd N n (g - 1) = gst (10 * c) 0 50 1 /\ (forall k, (k < g)%nat -> spk N k n = false).
Proof.
  intros Hc. destruct (Nat.eq_dec e1 e2) as [E|E].
  - (* charge zero *)
    assert (Ec : c = 0) by (unfold c; replace (e2 - e1)%nat with 0%nat by lia; cbn; lra).
    assert (HB : forall k, (k < g)%nat -> spk N k n = false /\ st N k n = at_rest 0).
    { apply rest_before; auto. intros j Hj. apply no_input_of; auto; try (apply HV; lia); try (apply HO; lia).
      - rewrite IGe, E by lia. lra.
      - rewrite IGf, ind_ne by lia. lra.
      - rewrite IGa, ind_ne by lia. lra. }
    split; [|intros k Hk; apply HB; auto].
    rewrite (recvd_eq N n (g - 1) 0 0 0 0 0 0 50 1); [rewrite Ec; f_equal; lra|apply HB; lia| | | |]; replace (S (g - 1)) with g by lia.
    + apply HV; lia.
    + rewrite IGe, E by lia. lra.
    + rewrite IGf, ind_eq by lia. lra.
    + rewrite IGa, ind_eq by lia. lra.
  - destruct (log_charge ltac:(lia) Hc) as [HS HN].
    destruct (Nat.eq_dec e2 g) as [Eg|Eg].
    + split; [|intros k Hk; apply HN; lia]. replace (g - 1)%nat with (e2 - 1)%nat by lia.
      rewrite (recvd_eq N n (e2 - 1) (10 * c) w 0 0 0 (- w) 50 1); auto; try (f_equal; lra); replace (S (e2 - 1)) with e2 by lia.
      * apply HV; lia.
      * rewrite IGe, ind_eq, ind_ne by lia. lra.
      * rewrite IGf, Eg, ind_eq by lia. lra.
      * rewrite IGa, Eg, ind_eq by lia. lra.
    + assert (HR : recvd N n (e2 - 1) = gst (10 * c) 0 0 0).
      { rewrite (recvd_eq N n (e2 - 1) (10 * c) w 0 0 0 (- w) 0 0); auto; try (f_equal; lra); replace (S (e2 - 1)) with e2 by lia.
        - apply HV; lia.
        - rewrite IGe, ind_eq, ind_ne by lia. lra.
        - rewrite IGf, ind_ne by lia. lra.
        - rewrite IGa, ind_ne by lia. lra. }
      assert (PH := phase N n (e2 - 1) _ (g - e2) HP HR).
      specialize (PH ltac:(intros i Hi; apply log_none; lia)).
      assert (ET : forall i, traj N (gst (10 * c) 0 0 0) i = gst (10 * c) 0 0 0) by (intros; rewrite traj_gate0; f_equal; lra).
      specialize (PH ltac:(intros i Hi; rewrite ET; cbn [V gst]; lra)).
      split.
      * destruct (PH (g - e2)%nat ltac:(lia)) as [A _]. replace (e2 - 1 + (g - e2))%nat with (g - 1)%nat in A by lia. rewrite ET in A.
        rewrite (recvd_eq N n (g - 1) (10 * c) 0 0 0 0 0 50 1); auto; try (f_equal; lra); replace (S (g - 1)) with g by lia.
        -- apply HV; lia.
        -- rewrite IGe, !ind_ne by lia. lra.
        -- rewrite IGf, ind_eq by lia. lra.
        -- rewrite IGa, ind_eq by lia. lra.
      * intros k Hk. destruct (Nat.lt_ge_cases k e2); [apply HN; auto|].
        replace k with (e2 - 1 + (k - (e2 - 1)))%nat by lia. apply PH. lia.
Qed.
(** fires j steps after the gate opens, j least with rho^j <= c *)
Lemma log_fire j : c < 1 -> rho N ^ j <= c -> (forall i, (i < j)%nat -> c < rho N ^ i) ->
  (1 <= j)%nat /\ spikes_at N n [(g - 1 + j)%nat].
Proof.
  intros Hc Hj Hi. pose proof (rho_bounds N Hdt) as Hr.
  assert (H1 : (1 <= j)%nat) by (destruct j; [cbn in Hj; lra|lia]). split; auto.
  destruct (log_hold Hc) as [HR HN].
  assert (EV : forall i, V (traj N (gst (10 * c) 0 50 1) i) = 10 * c + 10 * (1 - rho N ^ i)).
  { intros i. rewrite traj_gate1. cbn [V gst]. lra. }
  destruct (phase_fire N n (g - 1) _ j HP HR H1) as (A & B & C).
  - intros i Hi'. apply log_none; lia.
  - intros i Hi'. rewrite EV. specialize (Hi i ltac:(lia)). lra.
  - rewrite EV. lra.
  - intros k. cbn [memb existsb]. rewrite orb_false_r.
    destruct (Nat.lt_trichotomy k (g - 1 + j)) as [Hk|[->|Hk]].
    + rewrite (proj2 (Nat.eqb_neq _ _)) by lia. destruct (Nat.lt_ge_cases k g); [apply HN; auto|].
      replace k with (g - 1 + (k - (g - 1)))%nat by lia. apply A. lia.
    + rewrite Nat.eqb_refl. auto.
    + rewrite (proj2 (Nat.eqb_neq _ _)) by lia. eapply (rest_forever N n (g - 1 + j) 0); eauto; try lra.
      intros i Hi'. apply log_none; lia.
Qed.
(** no charge: never fires *)
Lemma log_zero : e1 = e2 -> spikes_at N n [].
Proof.
  intros E k. pose proof (rho_bounds N Hdt) as Hr.
  assert (Ec : c = 0) by (unfold c; replace (e2 - e1)%nat with 0%nat by lia; cbn; lra).
  destruct (log_hold ltac:(lra)) as [HR HN]. destruct (Nat.lt_ge_cases k g); [apply HN; auto|].
  replace k with (g - 1 + (k - (g - 1)))%nat by lia. cbn [memb existsb].
  apply (phase N n (g - 1) _ (k - (g - 1)) HP HR); try lia.
  - intros i Hi. apply log_none; lia.
  - intros i Hi. rewrite traj_gate1. cbn [V gst]. rewrite Ec. assert (0 < rho N ^ i) by (apply pow_lt; lra). lra.
Qed.
(** full charge: fires when the charge completes, once *)
Lemma log_full : 1 <= c -> (step_at dt Tc <= e2 - e1)%nat /\ spikes_at N n [(e1 - 1 + step_at dt Tc)%nat].
Proof.
  intros Hc. pose proof (rho_bounds N Hdt) as Hr. pose proof dtTc as Hp.
  assert (Hdt0 : 0 < dt) by (unfold dt; lra).
  assert (Hlt : (e1 < e2)%nat).
  { destruct (Nat.eq_dec e1 e2); [|lia]. unfold c in Hc. replace (e2 - e1)%nat with 0%nat in Hc by lia. cbn in Hc. lra. }
  assert (HMl : (step_at dt Tc <= e2 - e1)%nat).
  { apply step_at_le; auto; [lia|]. unfold c in Hc. apply Rmult_le_compat_r with (r := Tc) in Hc; [|lra].
    replace (INR (e2 - e1) * (dt / Tc) * Tc) with (INR (e2 - e1) * dt) in Hc by (field; lra). lra. }
  split; auto. pose proof (step_at_ge1 dt Tc) as HM1. pose proof (step_at_bounds dt Tc Hdt0 HTc) as [BM1 BM2].
  set (M := step_at dt Tc) in *.
  assert (HS : st N (e1 - 1) n = gst 0 0 0 0) by (apply log_pre; lia).
  assert (HR : recvd N n (e1 - 1) = gst 0 w 0 0).
  { rewrite (recvd_eq N n (e1 - 1) 0 0 0 0 0 w 0 0); auto; try (f_equal; lra); replace (S (e1 - 1)) with e1 by lia.
    - apply HV; auto.
    - rewrite IGe, ind_eq, ind_ne by lia. lra.
    - rewrite IGf, ind_ne by lia. lra.
    - rewrite IGa, ind_ne by lia. lra. }
  assert (EV : forall i, V (traj N (gst 0 w 0 0) i) = 10 * (INR i * (dt / Tc))).
  { intros i. rewrite traj_gate0. cbn [V gst]. fold dt. rewrite w_step. lra. }
  destruct (phase_fire N n (e1 - 1) _ M HP HR ltac:(lia)) as (A & B & CM).
  - intros i Hi. apply log_none; lia.
  - intros i Hi. rewrite EV. assert (INR i * (dt / Tc) < 1); [|lra].
    apply Rmult_lt_reg_r with Tc; auto. replace (INR i * (dt / Tc) * Tc) with (INR i * dt) by (field; lra).
    assert (INR i + 1 <= INR M) by (rewrite <- S_INR; apply le_INR; lia). nra.
  - rewrite EV. assert (1 <= INR M * (dt / Tc)); [|lra].
    apply Rmult_le_reg_r with Tc; auto. replace (INR M * (dt / Tc) * Tc) with (INR M * dt) by (field; lra). lra.
  - pose proof (rest_quiet N n (e1 - 1 + M) 0 HP CM ltac:(lra) (e2 - 1) ltac:(intros k Hk; apply log_none; lia)) as HQ.
    assert (C : st N (e2 - 1) n = at_rest 0) by (apply HQ; lia).
    assert (Hafter : forall k, (e2 <= k)%nat -> spk N k n = false).
    { (* after the reset only a negative ramp and the gated current remain *)
      assert (EP : forall i, 0 <= INR i * (dt / Tc)) by (intros; apply Rmult_le_pos; [apply pos_INR|lra]).
      assert (EW : forall i, INR i * (t_dt N * - w / 100) = - (10 * (INR i * (dt / Tc)))).
      { intros i. fold dt. replace (dt * - w / 100) with (- (dt * w / 100)) by lra. rewrite w_step. lra. }
      destruct (Nat.eq_dec e2 g) as [Eg|Eg].
      - assert (HR2 : recvd N n (e2 - 1) = gst 0 (- w) 50 1).
        { rewrite (recvd_eq N n (e2 - 1) 0 0 0 0 0 (- w) 50 1); auto; try (f_equal; lra); replace (S (e2 - 1)) with e2 by lia.
          - apply HV; lia.
          - rewrite IGe, ind_eq, ind_ne by lia. lra.
          - rewrite IGf, Eg, ind_eq by lia. lra.
          - rewrite IGa, Eg, ind_eq by lia. lra. }
        intros k Hk. replace k with (e2 - 1 + (k - (e2 - 1)))%nat by lia.
        apply (phase N n (e2 - 1) _ (k - (e2 - 1)) HP HR2); try lia.
        + intros i Hi. apply log_none; lia.
        + intros i Hi. rewrite traj_gate1. cbn [V gst]. rewrite EW. specialize (EP i).
          assert (0 < rho N ^ i) by (apply pow_lt; lra). lra.
      - assert (HR2 : recvd N n (e2 - 1) = gst 0 (- w) 0 0).
        { rewrite (recvd_eq N n (e2 - 1) 0 0 0 0 0 (- w) 0 0); auto; try (f_equal; lra); replace (S (e2 - 1)) with e2 by lia.
          - apply HV; lia.
          - rewrite IGe, ind_eq, ind_ne by lia. lra.
          - rewrite IGf, ind_ne by lia. lra.
          - rewrite IGa, ind_ne by lia. lra. }
        assert (PH := phase N n (e2 - 1) _ (g - e2) HP HR2).
        specialize (PH ltac:(intros i Hi; apply log_none; lia)).
        specialize (PH ltac:(intros i Hi; rewrite traj_gate0; cbn [V gst]; rewrite EW; specialize (EP i); lra)).
        intros k Hk. destruct (Nat.lt_ge_cases k g).
        + replace k with (e2 - 1 + (k - (e2 - 1)))%nat by lia. apply PH. lia.
        + destruct (PH (g - e2)%nat ltac:(lia)) as [HS3 _]. replace (e2 - 1 + (g - e2))%nat with (g - 1)%nat in HS3 by lia.
          rewrite traj_gate0, EW in HS3.
          assert (HR3 : recvd N n (g - 1) = gst (- (10 * (INR (g - e2) * (dt / Tc)))) (- w) 50 1).
          { rewrite (recvd_eq N n (g - 1) _ _ _ _ 0 0 50 1 HS3); try (f_equal; lra); replace (S (g - 1)) with g by lia.
            - apply HV; lia.
            - rewrite IGe, !ind_ne by lia. lra.
            - rewrite IGf, ind_eq by lia. lra.
            - rewrite IGa, ind_eq by lia. lra. }
          replace k with (g - 1 + (k - (g - 1)))%nat by lia.
          apply (phase N n (g - 1) _ (k - (g - 1)) HP HR3); try lia.
          * intros i Hi. apply log_none; lia.
          * intros i Hi. rewrite traj_gate1. cbn [V gst]. rewrite EW. pose proof (EP i). pose proof (EP (g - e2)%nat).
            assert (0 < rho N ^ i) by (apply pow_lt; lra). lra. }
    intros k. cbn [memb existsb]. rewrite orb_false_r.
    destruct (Nat.lt_trichotomy k (e1 - 1 + M)) as [Hk|[->|Hk]].
    + rewrite (proj2 (Nat.eqb_neq _ _)) by lia. destruct (Nat.lt_ge_cases k e1); [apply log_pre; auto|].
      replace k with (e1 - 1 + (k - (e1 - 1)))%nat by lia. apply A. lia.
    + rewrite Nat.eqb_refl. auto.
    + rewrite (proj2 (Nat.eqb_neq _ _)) by lia. destruct (Nat.lt_ge_cases k e2); [apply HQ; lia|apply Hafter; lia].
Qed.
End Log.

(** *** exponential accumulator: gate opens at e1, closes at e2 when the ramp starts *)
Section Exp.
Hypothesis He1 : (1 <= e1)%nat.
Hypothesis He : (e1 <= e2)%nat.
Hypothesis IGe : forall k, (1 <= k)%nat -> input N n SynGe k = w * ind k e2.
Hypothesis IGf : forall k, (1 <= k)%nat -> input N n SynGf k = 50 * ind k e1.
Hypothesis IGa : forall k, (1 <= k)%nat -> input N n SynGate k = 1 * ind k e1 + -1 * ind k e2.
Definition exp_steps : nat := step_at dt (Tc * rho N ^ (e2 - e1)).
Lemma exp_fire : (1 <= exp_steps)%nat /\ spikes_at N n [(e2 - 1 + exp_steps)%nat].
Proof.
  pose proof (rho_bounds N Hdt) as Hr. pose proof dtTc as Hp. unfold exp_steps. set (k := (e2 - e1)%nat).
  assert (Hrk : 0 < rho N ^ k) by (apply pow_lt; lra).
  assert (HTr : 0 < Tc * rho N ^ k) by (apply Rmult_lt_0_compat; auto).
  pose proof (step_at_bounds dt _ ltac:(unfold dt; lra) HTr) as [B1 B2]. pose proof (step_at_ge1 dt (Tc * rho N ^ k)) as H1.
  set (j := step_at dt (Tc * rho N ^ k)) in *. split; auto.
  assert (HNo : forall i, (1 <= i)%nat -> i <> e1 -> i <> e2 -> no_input N n i).
  { intros i Hi A B. apply no_input_of; auto; rewrite ?IGe, ?IGf, ?IGa, ?ind_ne by auto; lra. }
  assert (HPre : forall i, (i < e1)%nat -> spk N i n = false /\ st N i n = at_rest 0).
  { apply rest_before; auto. intros i Hi. apply HNo; lia. }
  assert (HR : recvd N n (e2 - 1) = gst (10 * (1 - rho N ^ k)) w (50 * rho N ^ k) 0 /\ forall i, (i < e2)%nat -> spk N i n = false).
  { destruct (Nat.eq_dec e1 e2) as [E|E].
    - split; [|intros i Hi; apply HPre; lia]. assert (Ek : k = 0%nat) by (unfold k; lia). rewrite Ek. cbn [pow].
      rewrite (recvd_eq N n (e2 - 1) 0 0 0 0 0 w 50 0); [f_equal; lra|apply HPre; lia| | | |]; replace (S (e2 - 1)) with e2 by lia.
      + apply HV; lia.
      + rewrite IGe, ind_eq by lia. lra.
      + rewrite IGf, E, ind_eq by lia. lra.
      + rewrite IGa, E by lia. lra.
    - assert (HR1 : recvd N n (e1 - 1) = gst 0 0 50 1).
      { rewrite (recvd_eq N n (e1 - 1) 0 0 0 0 0 0 50 1); [f_equal; lra|apply HPre; lia| | | |]; replace (S (e1 - 1)) with e1 by lia.
        - apply HV; lia.
        - rewrite IGe, ind_ne by lia. lra.
        - rewrite IGf, ind_eq by lia. lra.
        - rewrite IGa, ind_eq, ind_ne by lia. lra. }
      assert (PH := phase N n (e1 - 1) _ k HP HR1).
      specialize (PH ltac:(intros i Hi; apply HNo; lia)).
      specialize (PH ltac:(intros i Hi; rewrite traj_gate1; cbn [V gst]; assert (0 < rho N ^ i) by (apply pow_lt; lra); lra)).
      split.
      + destruct (PH k ltac:(lia)) as [A _]. rewrite traj_gate1 in A. replace (e1 - 1 + k)%nat with (e2 - 1)%nat in A by lia.
        rewrite (recvd_eq N n (e2 - 1) _ _ _ _ 0 w 0 (-1) A); try (f_equal; lra); replace (S (e2 - 1)) with e2 by lia.
        * apply HV; lia.
        * rewrite IGe, ind_eq by lia. lra.
        * rewrite IGf, ind_ne by lia. lra.
        * rewrite IGa, ind_eq, ind_ne by lia. lra.
      + intros i Hi. destruct (Nat.lt_ge_cases i e1); [apply HPre; auto|].
        replace i with (e1 - 1 + (i - (e1 - 1)))%nat by lia. apply PH. lia. }
  destruct HR as [HR HN2].
  assert (EV : forall i, V (traj N (gst (10 * (1 - rho N ^ k)) w (50 * rho N ^ k) 0) i) = 10 + 10 * ((INR i * dt - Tc * rho N ^ k) / Tc)).
  { intros i. rewrite traj_gate0. cbn [V gst]. fold dt. rewrite w_step. field. lra. }
  destruct (phase_fire N n (e2 - 1) _ j HP HR H1) as (A & B & C).
  - intros i Hi. apply HNo; lia.
  - intros i Hi. rewrite EV.
    assert (INR i * dt - Tc * rho N ^ k < 0).
    { assert (INR i + 1 <= INR j) by (rewrite <- S_INR; apply le_INR; lia). assert (0 < dt) by (unfold dt; lra). nra. }
    assert (0 < / Tc) by (apply Rinv_0_lt_compat; auto). unfold Rdiv. nra.
  - rewrite EV. assert (0 < / Tc) by (apply Rinv_0_lt_compat; auto). unfold Rdiv.
    assert (0 <= (INR j * dt - Tc * rho N ^ k) * / Tc) by (apply Rmult_le_pos; lra). lra.
  - intros i. cbn [memb existsb]. rewrite orb_false_r.
    destruct (Nat.lt_trichotomy i (e2 - 1 + j)) as [Hk|[->|Hk]].
    + rewrite (proj2 (Nat.eqb_neq _ _)) by lia. destruct (Nat.lt_ge_cases i e2); [apply HN2; auto|].
      replace i with (e2 - 1 + (i - (e2 - 1)))%nat by lia. apply A. lia.
    + rewrite Nat.eqb_refl. auto.
    + rewrite (proj2 (Nat.eqb_neq _ _)) by lia. eapply (rest_forever N n (e2 - 1 + j) 0); eauto; try lra.
      intros i' Hi'. apply HNo; lia.
Qed.
End Exp.
End Gf.
