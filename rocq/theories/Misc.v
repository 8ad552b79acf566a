(** Encoder (C01), decode_output and count_spikes (C13), Euler dynamics (C15),
    uids (C18). *)
From Coq Require Import Arith ZArith Bool List Reals Lra Lia Permutation String Ascii DecimalString DecimalNat.
From Verif Require Import Num Heapq Elements Simulator Trace SimTrace.
Import ListNotations.
Open Scope list_scope.
Open Scope R_scope.

(** ** Encoder *)
Lemma encode_ok (tmin tcod x : R) : 0 <= x <= 1 ->
  encode_value (DataEncoder tmin tcod) x = Ok (0, tmin + x * tcod).
Proof.
  intros [H1 H2]. unfold encode_value, ngeb, nzero, n_one. cbn [nleb R_num nofZ].
  rewrite (proj2 (Rleb_true 0 x)), (proj2 (Rleb_true x 1)) by auto. reflexivity.
Qed.
Lemma encode_err (tmin tcod x : R) : x < 0 \/ 1 < x -> encode_value (DataEncoder tmin tcod) x = Err EAssert.
Proof.
  intros H. unfold encode_value, ngeb, nzero, n_one. cbn [nleb R_num nofZ]. destruct H as [H|H].
  - rewrite (proj2 (Rleb_false 0 x)) by auto. reflexivity.
  - rewrite (proj2 (Rleb_false x 1)) by auto. rewrite andb_false_r. reflexivity.
Qed.
Lemma decode_ok (tmin tcod d : R) : tcod <> 0 -> decode_interval (DataEncoder tmin tcod) d = Ok ((d - tmin) / tcod).
Proof.
  intros H. unfold decode_interval, pdiv, nzero. cbn. rewrite (proj2 (Reqb_false _ _)) by auto. reflexivity.
Qed.
Lemma decode_zero_err (tmin d : R) : decode_interval (DataEncoder tmin 0) d = Err EZeroDiv.
Proof. unfold decode_interval, pdiv, nzero. cbn. rewrite Reqb_refl. reflexivity. Qed.

(** ** decode_output, count_spikes *)
Section Decode.
Context {T : Type} `{Num T}.
Implicit Types (c : cfg T) (s : sim T) (rd : reader T).
Lemma decode_output_err c s rd : neqb (Tcod (c_enc c)) nzero = false ->
  (decode_output c s rd = Err EValue <->
   (spike_log s (rd_plus rd) <> [] /\ spike_log s (rd_minus rd) <> []) \/
   (List.length (spike_log s (rd_plus rd)) <> 0%nat /\ List.length (spike_log s (rd_plus rd)) <> 2%nat) \/
   (List.length (spike_log s (rd_minus rd)) <> 0%nat /\ List.length (spike_log s (rd_minus rd)) <> 2%nat)).
Proof.
  intros HZ. unfold decode_output.
  destruct (spike_log s (rd_plus rd)) as [|a [|b [|d l]]], (spike_log s (rd_minus rd)) as [|a' [|b' [|d' l']]];
    cbn [List.length Nat.eqb negb andb]; unfold decode_interval, pdiv; rewrite ?HZ; cbn [rbind];
    split; intros X; try discriminate; try reflexivity;
    try (left; split; discriminate); try (right; left; split; discriminate); try (right; right; split; discriminate);
    try (exfalso; intuition congruence).
Qed.
Lemma decode_output_none c s rd :
  decode_output c s rd = Ok None <-> spike_log s (rd_plus rd) = [] /\ spike_log s (rd_minus rd) = [].
Proof.
  unfold decode_output.
  destruct (spike_log s (rd_plus rd)) as [|a [|b [|d l]]], (spike_log s (rd_minus rd)) as [|a' [|b' [|d' l']]];
    cbn [List.length Nat.eqb negb andb]; unfold decode_interval, pdiv;
    try destruct (neqb (Tcod (c_enc c)) nzero); cbn [rbind];
    split; intros X; try discriminate; try (destruct X; discriminate); auto.
Qed.
Lemma decode_output_plus c s rd t1 t2 v :
  spike_log s (rd_plus rd) = [t1; t2] -> spike_log s (rd_minus rd) = [] -> decode_interval (c_enc c) (nsub t2 t1) = Ok v ->
  decode_output c s rd = Ok (Some (nmul (rd_norm rd) v)).
Proof. intros E1 E2 E3. unfold decode_output. rewrite E1, E2. cbn [List.length Nat.eqb negb andb]. rewrite E3. reflexivity. Qed.
Lemma decode_output_minus c s rd t1 t2 v :
  spike_log s (rd_plus rd) = [] -> spike_log s (rd_minus rd) = [t1; t2] -> decode_interval (c_enc c) (nsub t2 t1) = Ok v ->
  decode_output c s rd = Ok (Some (nmul (nmul (nofZ (-1)) (rd_norm rd)) v)).
Proof. intros E1 E2 E3. unfold decode_output. rewrite E1, E2. cbn [List.length Nat.eqb negb andb]. rewrite E3. reflexivity. Qed.

Lemma count_sum (l : list (nat * T)) m : (forall p, In p l -> (fst p < m)%nat) ->
  List.length l = list_sum (map (fun n => List.length (filter (fun p => (fst p =? n)%nat) l)) (seq 0 m)).
Proof.
  induction l as [|p l IH]; intros HL.
  - cbn. symmetry. clear HL. induction (seq 0 m) as [|a l IH]; cbn; auto.
  - cbn [List.length]. rewrite IH by (intros; apply HL; right; auto).
    assert (Hp : (fst p < m)%nat) by (apply HL; left; auto).
    transitivity (list_sum (map (fun n => ((if (fst p =? n)%nat then 1 else 0) + List.length (filter (fun p => (fst p =? n)%nat) l))%nat) (seq 0 m))).
    + assert (G : forall (f : nat -> nat) a, (a <= fst p < a + m)%nat ->
        list_sum (map (fun n => ((if (fst p =? n)%nat then 1 else 0) + f n)%nat) (seq a m)) = S (list_sum (map f (seq a m)))).
      { clear. intros f. revert m. assert (Z : forall m a, (fst p < a)%nat -> list_sum (map (fun n => ((if (fst p =? n)%nat then 1 else 0) + f n)%nat) (seq a m)) = list_sum (map f (seq a m))).
        { unfold list_sum. induction m as [|m IH]; intros a Ha; cbn [seq map fold_right]; auto. rewrite IH by lia. destruct (Nat.eqb_spec (fst p) a); lia. }
        unfold list_sum in *.
        induction m as [|m IH0]; intros a Ha; cbn [seq map fold_right]; [lia|].
        destruct (Nat.eqb_spec (fst p) a) as [E|E]; [rewrite Z by lia; lia|]. rewrite IH0 by lia. lia. }
      rewrite G by lia. reflexivity.
    + f_equal. apply map_ext. intros n. cbn [filter]. destruct (Nat.eqb_spec (fst p) n); cbn [List.length]; lia.
Qed.
Lemma count_spikes_sum s m : (forall p, In p (s_spk s) -> (fst p < m)%nat) ->
  count_spikes s = list_sum (map (fun n => List.length (spike_log s n)) (seq 0 m)).
Proof.
  intros HL. unfold count_spikes. rewrite (count_sum _ m HL). f_equal. apply map_ext. intros n.
  unfold spike_log. rewrite rev_length, map_length. reflexivity.
Qed.
End Decode.

(** ** Euler dynamics *)
Fixpoint updates (p : nparams R) (dt : R) (n : nat) (s : nstate R) : res (nstate R * bool) :=
  match n with
  | O => Ok (s, false)
  | S m => let* r := updates p dt m s in
           let* r' := update_and_spike p dt (fst r) in Ok (fst r', snd r || snd r')
  end.
Lemma updates_gate1 p dt n V0 ge0 gf0 : tm p <> 0 -> tf p <> 0 ->
  exists b, updates p dt n {| V := V0; ge := ge0; gf := gf0; gate := 1 |} =
    Ok ({| V := V0 + INR n * dt * ge0 / tm p + (gf0 * tf p / tm p) * (1 - (1 - dt / tf p) ^ n);
           ge := ge0; gf := gf0 * (1 - dt / tf p) ^ n; gate := 1 |}, b).
Proof.
  intros Hm Hf. induction n as [|n (b & IH)].
  - exists false. cbn. do 3 f_equal; field; auto.
  - cbn [updates]. rewrite IH. cbn [rbind]. unfold update_and_spike, pdiv, nzero. cbn [fst neqb R_num nofZ V ge gf gate tm tf Vt].
    rewrite (proj2 (Reqb_false (tm p) 0)), (proj2 (Reqb_false (tf p) 0)), (proj2 (Reqb_false 1 0)) by (auto; lra). cbn [rbind negb].
    eexists. cbn [fst snd]. cbn [nadd nmul ndiv nsub R_num]. apply f_equal; apply f_equal2; [|reflexivity].
    apply (f_equal2 (fun a b => {| V := a; ge := ge0; gf := b; gate := 1 |})).
    + rewrite S_INR. cbn [pow]. set (r := (1 - dt / tf p) ^ n). field. auto.
    + cbn [pow]. set (r := (1 - dt / tf p) ^ n). field. auto.
Qed.
Lemma updates_gate0 p dt n V0 ge0 gf0 : tm p <> 0 ->
  exists b, updates p dt n {| V := V0; ge := ge0; gf := gf0; gate := 0 |} =
    Ok ({| V := V0 + INR n * dt * ge0 / tm p; ge := ge0; gf := gf0; gate := 0 |}, b).
Proof.
  intros Hm. induction n as [|n (b & IH)].
  - exists false. cbn. do 3 f_equal; field; auto.
  - cbn [updates]. rewrite IH. cbn [rbind]. unfold update_and_spike, pdiv, nzero. cbn [fst neqb R_num nofZ V ge gf gate tm tf Vt].
    rewrite (proj2 (Reqb_false (tm p) 0)), Reqb_refl by auto. cbn [rbind negb].
    eexists. cbn [fst snd]. cbn [nadd nmul ndiv nsub R_num]. apply f_equal; apply f_equal2; [|reflexivity].
    apply (f_equal (fun a => {| V := a; ge := ge0; gf := gf0; gate := 0 |})). rewrite S_INR. field. auto.
Qed.
(** gap between the Euler decay factor and the exponential *)
Lemma exp_le_quad x : 0 <= x -> exp (- x) <= 1 - x + x * x.
Proof.
  intros H. rewrite exp_Ropp. pose proof (exp_ineq1_le x). pose proof (exp_pos x).
  assert (1 <= (1 - x + x * x) * exp x).
  { apply Rle_trans with ((1 - x + x * x) * (1 + x)); [nra|]. apply Rmult_le_compat_l; nra. }
  apply Rmult_le_reg_r with (exp x); auto. rewrite Rinv_l by lra. auto.
Qed.
Lemma pow_gap a b n : 0 <= b <= a -> a ^ S n - b ^ S n <= INR (S n) * (a - b) * a ^ n.
Proof.
  intros H. induction n as [|n IH].
  - cbn. lra.
  - assert (0 <= a ^ n) by (apply pow_le; lra). assert (Hb : b ^ S n <= a ^ S n) by (apply pow_incr; lra).
    change (a ^ S (S n)) with (a * a ^ S n). change (b ^ S (S n)) with (b * b ^ S n).
    rewrite (S_INR (S n)). change (a ^ S n) with (a * a ^ n) in *.
    assert (0 <= b ^ S n) by (apply pow_le; lra).
    replace (a * (a * a ^ n) - b * b ^ S n) with (a * (a * a ^ n - b ^ S n) + (a - b) * b ^ S n) by ring.
    apply Rle_trans with (a * (INR (S n) * (a - b) * a ^ n) + (a - b) * (a * a ^ n)).
    + apply Rplus_le_compat; apply Rmult_le_compat_l; lra.
    + right. ring.
Qed.
Lemma exp_pow x n : exp (- (INR n * x)) = exp (- x) ^ n.
Proof.
  induction n as [|n IH].
  - cbn. rewrite Rmult_0_l, Ropp_0, exp_0. reflexivity.
  - rewrite S_INR. cbn [pow]. rewrite <- IH, <- exp_plus. f_equal. ring.
Qed.
Lemma euler_gap x n : 0 <= x <= 1 -> 0 <= exp (- (INR n * x)) - (1 - x) ^ n <= x.
Proof.
  intros H. pose proof (exp_ineq1_le (- x)) as H1. destruct n as [|n].
  - cbn. rewrite Rmult_0_l, Ropp_0, exp_0. lra.
  - assert (HI : (1 - x) ^ S n <= exp (- x) ^ S n) by (apply pow_incr; lra).
    rewrite exp_pow. split; [lra|].
    pose proof (pow_gap (exp (- x)) (1 - x) n ltac:(lra)) as G.
    eapply Rle_trans; [exact G|]. pose proof (exp_le_quad x ltac:(lra)).
    assert (Hp : 0 <= exp (- x) ^ n) by (apply pow_le; left; apply exp_pos).
    assert (Hn : 0 <= INR (S n)) by apply pos_INR.
    apply Rle_trans with (x * (INR (S n) * x * exp (- x) ^ n)).
    { replace (x * (INR (S n) * x * exp (- x) ^ n)) with (INR (S n) * (x * x) * exp (- x) ^ n) by ring.
      apply Rmult_le_compat_r; auto. apply Rmult_le_compat_l; auto. lra. }
    apply Rle_trans with (x * 1); [|lra]. apply Rmult_le_compat_l; [lra|].
    assert (E : exp (- x) ^ n = exp (- (INR (S n) * x)) * exp x).
    { rewrite <- exp_pow, <- exp_plus. f_equal. rewrite S_INR. ring. }
    rewrite E. set (y := INR (S n) * x). pose proof (exp_ineq1_le (y - 1)) as Hy.
    assert (Hxy : exp (- y) * exp x * exp (y - 1) <= 1).
    { rewrite <- !exp_plus. replace (- y + x + (y - 1)) with (x - 1) by ring.
      apply Rle_trans with (exp 0); [|rewrite exp_0; lra].
      destruct (Req_dec x 1) as [Ex|]; [right; f_equal; lra|left; apply exp_increasing; lra]. }
    assert (0 < exp (- y) * exp x) by (apply Rmult_lt_0_compat; apply exp_pos).
    apply Rle_trans with (exp (- y) * exp x * exp (y - 1)); auto. rewrite Rmult_comm.
    rewrite (Rmult_comm (exp (- y) * exp x) (exp (y - 1))) , (Rmult_comm _ y). apply Rmult_le_compat_r; lra.
Qed.

(** ** uids *)
Definition is_digit (a : ascii) : bool := (48 <=? nat_of_ascii a)%nat && (nat_of_ascii a <=? 57)%nat.
Fixpoint all_digits (s : string) : bool :=
  match s with EmptyString => true | String a s' => is_digit a && all_digits s' end.
Lemma uint_digits d : all_digits (NilEmpty.string_of_uint d) = true.
Proof. induction d; cbn; auto. Qed.
Lemma str_nat_digits n : all_digits (str_nat n) = true.
Proof. apply uint_digits. Qed.
Lemma str_nat_inj a b : str_nat a = str_nat b -> a = b.
Proof.
  unfold str_nat. intros E. assert (X : NilEmpty.uint_of_string (NilEmpty.string_of_uint (Nat.to_uint a)) = NilEmpty.uint_of_string (NilEmpty.string_of_uint (Nat.to_uint b))) by congruence.
  rewrite !NilEmpty.usu in X. injection X as X. apply DecimalNat.Unsigned.to_uint_inj. auto.
Qed.
Lemma digits_split s1 s2 c1 c2 r1 r2 : all_digits s1 = true -> all_digits s2 = true -> is_digit c1 = false -> is_digit c2 = false ->
  (s1 ++ String c1 r1 = s2 ++ String c2 r2)%string -> s1 = s2 /\ String c1 r1 = String c2 r2.
Proof.
  revert s2. induction s1 as [|a s1 IH]; intros [|b s2] H1 H2 N1 N2 E; cbn [append all_digits] in *.
  - auto.
  - injection E as -> E. apply andb_true_iff in H2 as [H2 _]. congruence.
  - injection E as <- E. apply andb_true_iff in H1 as [H1 _]. congruence.
  - injection E as <- E. apply andb_true_iff in H1 as [_ H1]. apply andb_true_iff in H2 as [_ H2].
    destruct (IH s2 H1 H2 N1 N2 E) as [-> ->]. auto.
Qed.
Lemma neuron_uid_inj {T} `{Num T} i j (n m : neuron T) : neuron_uid i n = neuron_uid j m -> i = j.
Proof.
  unfold neuron_uid. destruct (nr_mod n) as [a|], (nr_mod m) as [b|]; intros E; cbn [append] in E; try discriminate E.
  - injection E as E.
    apply (digits_split (str_nat a) (str_nat b)) in E; [|apply str_nat_digits|apply str_nat_digits|reflexivity|reflexivity].
    destruct E as [_ E]. cbn [append] in E. injection E as E.
    apply (digits_split (str_nat i) (str_nat j)) in E; [|apply str_nat_digits|apply str_nat_digits|reflexivity|reflexivity].
    apply str_nat_inj, E.
  - injection E as E.
    apply (digits_split (str_nat i) (str_nat j)) in E; [|apply str_nat_digits|apply str_nat_digits|reflexivity|reflexivity].
    apply str_nat_inj, E.
Qed.
Lemma module_uid_inj i j (n m : module) : module_uid i n = module_uid j m -> i = j.
Proof.
  assert (F : forall k (x : module), exists r, module_uid k x = ("(m" ++ str_nat k ++ ")" ++ r)%string).
  { intros k x. unfold module_uid. destruct (m_name x) as [s|]; [destruct (String.eqb s "")|].
    - exists ""%string. reflexivity.
    - exists ("_" ++ s)%string. reflexivity.
    - exists ""%string. reflexivity. }
  destruct (F i n) as [r ->]. destruct (F j m) as [r' ->]. cbn [append]. intros E. injection E as E.
  apply (digits_split (str_nat i) (str_nat j)) in E; [|apply str_nat_digits|apply str_nat_digits|reflexivity|reflexivity].
  apply str_nat_inj, E.
Qed.
Lemma encode_roundtrip (tmin tcod x : R) : tcod <> 0 -> 0 <= x <= 1 ->
  exists a b, encode_value (DataEncoder tmin tcod) x = Ok (a, b) /\ a = 0 /\
    decode_interval (DataEncoder tmin tcod) (b - a) = Ok x /\
    (0 < tcod -> tmin <= b - a <= Tmax (DataEncoder tmin tcod)) /\
    (0 < tcod -> forall y, x < y <= 1 -> exists b', encode_value (DataEncoder tmin tcod) y = Ok (0, b') /\ b < b').
Proof.
  intros Hc Hx. exists 0, (tmin + x * tcod). split; [apply encode_ok; auto|]. split; [auto|]. split.
  { rewrite decode_ok by auto. f_equal. field. auto. }
  split.
  - intros H. cbn. nra.
  - intros H y Hy. exists (tmin + y * tcod). split; [apply encode_ok; lra|]. nra.
Qed.
Lemma decode_output_value (c : cfg R) s rd t1 t2 : Tcod (c_enc c) <> 0 ->
  (spike_log s (rd_plus rd) = [t1; t2] -> spike_log s (rd_minus rd) = [] ->
     decode_output c s rd = Ok (Some (rd_norm rd * ((t2 - t1 - Tmin (c_enc c)) / Tcod (c_enc c))))) /\
  (spike_log s (rd_plus rd) = [] -> spike_log s (rd_minus rd) = [t1; t2] ->
     decode_output c s rd = Ok (Some (- rd_norm rd * ((t2 - t1 - Tmin (c_enc c)) / Tcod (c_enc c))))).
Proof.
  intros HZ. assert (D : decode_interval (c_enc c) (nsub t2 t1) = Ok ((t2 - t1 - Tmin (c_enc c)) / Tcod (c_enc c))).
  { unfold decode_interval, pdiv, nzero. cbn. rewrite (proj2 (Reqb_false _ _)) by auto. reflexivity. }
  split; intros E1 E2.
  - rewrite (decode_output_plus c s rd t1 t2 _ E1 E2 D). reflexivity.
  - rewrite (decode_output_minus c s rd t1 t2 _ E1 E2 D). cbn. do 2 f_equal. ring.
Qed.
