(** A LinearCombinatorNetwork and an AdderNetwork can be used again and again (C62).
    Reading aid (all of it specification, none of it taken from the proofs):
    - [jobs_ok X ok span from js T] (Jobs.v): js is a list of computations (argument, start time); every argument is ok, the first
      starts at [from] or later, each later one starts [span] or more after the one before it, and T leaves time for the last;
    - a computation of the LinearCombinator is (v, o): input i gets the signed value v i at o i after the start of the computation;
      [lin_stims cs v t l] (LinRun.v) sends |v i| to the plus or to the minus input i according to its sign, at t i;
    - [lin_ok tcod tl dt eta cs (v, o)]: |v i| <= 1, 0 <= o i <= tl, the positive and the negative part of the sum stay in the coding
      range, and the sum is not so close to 0 that the network cannot tell its sign (C28_small_negative_lost);
    - [dot cs v] is the sum of the c_i * v_i, [norm1 cs] the sum of the |c_i|;
    - [signed_says enc eps d plus minus]: the output of the sign of d carries one pair of spikes that decodes to |d| up to eps, the
      other output is silent. *)
From Coq Require Import Arith ZArith Bool List Reals Lra Lia.
From Flocq Require Import Core.
From Verif Require Import Num Elements Simulator Networks Trace SimTrace SimProps NeuronLib NetLib MemoryProof Session SegLib LinComb LinRun Jobs RestFun LinJobs PropsCore PropsNets PropsRest FSession PropsF64Net PropsF64Net2.
From Coq Require Import Floats.
Import ListNotations.
Open Scope R_scope.
Open Scope list_scope.
Local Notation ms := (/ 1000).

Theorem C62_linear_combinator_reuse : forall (tmin tcod dt tl T : R) (cs : list R) (js : list (((nat -> R) * (nat -> R)) * R)) nm ord,
  0 < dt < / 50 -> 0 < tcod -> (1 <= length cs)%nat -> 1 + 3 * dt + 2 * dt * norm1 cs <= tmin -> ord_ok ord -> 0 <= T ->
  jobs_ok _ (lin_ok tcod tl dt (2 * dt) cs) (fun _ => tl + 4 * (tmin + tcod) + 2 * tmin + 21 + dt) 0 js T ->
  exists l s ps,
    session (LinearCombinatorNetwork (DataEncoder tmin tcod) (length cs) cs nm) lc_mod (DataEncoder tmin tcod) dt
      (fun l => flat_map (fun j => lin_stims cs (fst (fst j)) (fun i => snd j + snd (fst j) i) l) js) ord T = Ok (l, s) /\
    spike_log s (lc_output_plus l) = concat (map fst ps) /\ spike_log s (lc_output_minus l) = concat (map snd ps) /\
    Forall2 (fun j p => signed_says (DataEncoder tmin tcod) ((2 * dt * norm1 cs + 2 * dt) / tcod) (dot cs (fst (fst j))) (fst p) (snd p)) js ps.
Proof. exact linear_combinator_reuse. Qed.
Print Assumptions C62_linear_combinator_reuse.

Lemma dot2 a b v : dot [a; b] v = a * v 0%nat + b * v 1%nat.
Proof. unfold dot, sumf; cbn; lra. Qed.
Lemma dotp2 a b v : dot_pos [a; b] v = Rmax 0 (a * v 0%nat) + Rmax 0 (b * v 1%nat).
Proof. unfold dot_pos, sumf; cbn; lra. Qed.
Lemma dotn2 a b v : dot_neg [a; b] v = Rmax 0 (- (a * v 0%nat)) + Rmax 0 (- (b * v 1%nat)).
Proof. unfold dot_neg, sumf; cbn; lra. Qed.
Lemma norm2 a b : norm1 [a; b] = Rabs a + Rabs b.
Proof. unfold norm1, sumf; cbn; lra. Qed.
(** 2 x0 - x1/2: first 2 * 0.25 - 0.5 * 0.5 = 0.25, then 2 * (-0.25) - 0.5 * 0.5 = -0.75, inputs arriving in the opposite order *)
Example C62_linear_ex : exists l s p q,
  session (LinearCombinatorNetwork (DataEncoder 10 100) 2 [2; - (1/2)] None) lc_mod (DataEncoder 10 100) ms
    (fun l => flat_map (fun j => lin_stims [2; - (1/2)] (fst (fst j)) (fun i => snd j + snd (fst j) i) l)
       [((pr2 (1/4, 1/2), pr2 (0, 50)), 0); ((pr2 (- (1/4), 1/2), pr2 (50, 0)), 600)]) id_ord 1200 = Ok (l, s) /\
  spike_log s (lc_output_plus l) = p /\ spike_log s (lc_output_minus l) = q /\
  pair_says (DataEncoder 10 100) (1/4) (7 * ms / 100) p /\ pair_says (DataEncoder 10 100) (3/4) (7 * ms / 100) q.
Proof.
  assert (NM : norm1 [2; - (1/2)] = 5/2) by (rewrite norm2, Rabs_Ropp, !Rabs_right; lra).
  destruct (C62_linear_combinator_reuse 10 100 ms 50 1200 [2; - (1/2)] [((pr2 (1/4, 1/2), pr2 (0, 50)), 0); ((pr2 (- (1/4), 1/2), pr2 (50, 0)), 600)] None id_ord)
    as (l & s & ps & E & LP & LM & F); try lra; try (cbn; lia); [apply id_ord_ok| |].
  - cbn [jobs_ok fst snd]. unfold lin_ok. rewrite NM, !dot2, !dotp2, !dotn2. cbn [fst snd pr2].
    split; [split; [|split; [|split]]|split; [lra|split; [split; [|split; [|split]]|split; lra]]].
    + intros i _. destruct i; cbn [pr2 fst snd]; rewrite Rabs_right; lra.
    + unfold Rmax. destruct (Rle_dec _ _), (Rle_dec _ _); lra.
    + unfold Rmax. destruct (Rle_dec _ _), (Rle_dec _ _); lra.
    + left. lra.
    + intros i _. destruct i; cbn [pr2 fst snd]; [rewrite Rabs_Ropp|]; rewrite Rabs_right; lra.
    + unfold Rmax. destruct (Rle_dec _ _), (Rle_dec _ _); lra.
    + unfold Rmax. destruct (Rle_dec _ _), (Rle_dec _ _); lra.
    + right. lra.
  - inversion F as [|j p js' ps' S1 F1]; subst. inversion F1 as [|j2 p2 js2 ps2 S2 F2]; subst. inversion F2; subst.
    cbn [fst snd] in S1, S2. rewrite dot2, NM in S1, S2. cbn [pr2 fst snd] in S1, S2.
    replace (2 * (1/4) + - (1/2) * (1/2)) with (1/4) in S1 by lra. replace (2 * - (1/4) + - (1/2) * (1/2)) with (- (3/4)) in S2 by lra.
    unfold signed_says in S1, S2. destruct (Rle_dec 0 (1/4)) as [_|C]; [|lra]. destruct (Rle_dec 0 (- (3/4))) as [C|_]; [lra|].
    destruct S1 as [S1 M1]. destruct S2 as [P2 S2]. rewrite Ropp_involutive in S2.
    cbn [map concat] in LP, LM. rewrite M1, app_nil_r in LM. rewrite P2, !app_nil_r in LP. cbn [app] in LM.
    replace (2 * ms * (5/2) + 2 * ms) with (7 * ms) in S1, S2 by lra.
    exists l, s, (fst p), (snd p2). split; [exact E|]. auto.
Qed.

(** AdderNetwork, operands that are multiples of the time step: every sum is exact *)
Theorem C62_adder_reuse : forall (tmin tcod dt tl T : R) (q : nat) (js : list (((R * R) * (R * R)) * R)) nm ord,
  0 < dt < / 50 -> 0 < tcod -> tmin = INR q * dt -> 1 + 3 * dt <= tmin -> ord_ok ord -> 0 <= T ->
  jobs_ok _ (add_ok tcod tl dt) (fun _ => tl + 4 * (tmin + tcod) + 2 * tmin + 21 + dt) 0 js T ->
  exists a s ps,
    session (AdderNetwork (DataEncoder tmin tcod) nm) (fun a => lc_mod (ad_lin a)) (DataEncoder tmin tcod) dt
      (fun a => flat_map (fun j => add_job_stims (fst j) (snd j) a) js) ord T = Ok (a, s) /\
    spike_log s (lc_output_plus (ad_lin a)) = concat (map fst ps) /\ spike_log s (lc_output_minus (ad_lin a)) = concat (map snd ps) /\
    Forall2 (fun j p => signed_says (DataEncoder tmin tcod) 0 (fst (fst (fst j)) + snd (fst (fst j))) (fst p) (snd p)) js ps.
Proof. exact adder_reuse. Qed.
Print Assumptions C62_adder_reuse.
(** 0.75 + 0.25, then 0.5 + (-0.5), then -0.5 + 0.25 *)
Example C62_adder_ex : exists a s p1 p2 q,
  session (AdderNetwork (DataEncoder 10 100) None) (fun a => lc_mod (ad_lin a)) (DataEncoder 10 100) ms
    (fun a => flat_map (fun j => add_job_stims (fst j) (snd j) a)
       [(((3/4, 1/4), (0, 20)), 0); (((1/2, - (1/2)), (0, 0)), 600); (((- (1/2), 1/4), (20, 0)), 1200)]) id_ord 1800 = Ok (a, s) /\
  spike_log s (lc_output_plus (ad_lin a)) = p1 ++ p2 /\ spike_log s (lc_output_minus (ad_lin a)) = q /\
  pair_says (DataEncoder 10 100) 1 0 p1 /\ pair_says (DataEncoder 10 100) 0 0 p2 /\ pair_says (DataEncoder 10 100) (1/4) 0 q.
Proof.
  assert (AB : forall x, 0 <= x -> Rabs x = x /\ Rabs (- x) = x) by (intros x Hx; rewrite Rabs_Ropp, Rabs_right by lra; auto).
  assert (GR : forall k x, x * 100 = INR k * ms -> exists k, x * 100 = INR k * ms) by (intros; eauto).
  destruct (C62_adder_reuse 10 100 ms 20 1800 (Pos.to_nat 10000) [(((3/4, 1/4), (0, 20)), 0); (((1/2, - (1/2)), (0, 0)), 600); (((- (1/2), 1/4), (20, 0)), 1200)] None id_ord)
    as (a & s & ps & E & LP & LM & F); try lra; [rewrite INR_IZR_INZ, positive_nat_Z; lra|apply id_ord_ok| |].
  - cbn [jobs_ok fst snd]. unfold add_ok.
    replace (3/4 + 1/4) with 1 by lra. replace (1/2 + - (1/2)) with 0 by lra. replace (- (1/2) + 1/4) with (- (1/4)) by lra.
    destruct (AB 1 ltac:(lra)) as [-> _]. destruct (AB 0 ltac:(lra)) as [-> _]. destruct (AB (1/4) ltac:(lra)) as [-> ->].
    destruct (AB (1/2) ltac:(lra)) as [-> ->]. destruct (AB (3/4) ltac:(lra)) as [-> _].
    assert (K1 : exists k, 1/4 * 100 = INR k * ms) by (exists (Pos.to_nat 25000); rewrite INR_IZR_INZ, positive_nat_Z; lra).
    assert (K2 : exists k, 1/2 * 100 = INR k * ms) by (exists (Pos.to_nat 50000); rewrite INR_IZR_INZ, positive_nat_Z; lra).
    assert (K3 : exists k, 3/4 * 100 = INR k * ms) by (exists (Pos.to_nat 75000); rewrite INR_IZR_INZ, positive_nat_Z; lra).
    split; [|split; [lra|split; [|split; [lra|split; [|split; lra]]]]]; (split; [lra|split; [lra|split; [lra|split; [auto|split; [auto|split; [lra|split; [lra|]]]]]]]); [left|left|right]; lra.
  - inversion F as [|j p js' ps' S1 F1]; subst. inversion F1 as [|j2 p2 js2 ps2 S2 F2]; subst. inversion F2 as [|j3 p3 js3 ps3 S3 F3]; subst. inversion F3; subst.
    cbn [fst snd] in S1, S2, S3. replace (3/4 + 1/4) with 1 in S1 by lra. replace (1/2 + - (1/2)) with 0 in S2 by lra. replace (- (1/2) + 1/4) with (- (1/4)) in S3 by lra.
    unfold signed_says in S1, S2, S3. destruct (Rle_dec 0 1) as [_|C]; [|lra]. destruct (Rle_dec 0 0) as [_|C]; [|lra]. destruct (Rle_dec 0 (- (1/4))) as [C|_]; [lra|].
    destruct S1 as [S1 M1]. destruct S2 as [S2 M2]. destruct S3 as [P3 S3]. rewrite Ropp_involutive in S3.
    cbn [map concat] in LP, LM. rewrite M1, M2, app_nil_r in LM. rewrite P3, !app_nil_r in LP. cbn [app] in LM.
    exists a, s, (fst p), (fst p2), (snd p3). split; [exact E|]. auto.
Qed.

(** The restriction on sums just below 0 is needed: such a sum is lost (C28), and the subtractor inside is then not at rest
    (C61_reuse_after_lost_refuted). *)
