(** C51: the matrix product example (axon_sdk/networks/examples/matmul.py).
    [holds h v x]: the Python value v is a Scalar whose data is x; [mat_holds h M a b c d]: M is
    the 2x2 matrix of Scalars with data [[a, b], [c, d]]; [extends h h']: all Scalars of h are
    unchanged in h'. *)
From Coq Require Import Arith ZArith Bool List Reals Lra Lia Floats.
From Verif Require Import Num Elements Scalar ScalarProofs CompilerProofs Compiler Build PropsCompiler Matmul.
Import ListNotations.
Open Scope R_scope.
Open Scope list_scope.

(** regular_matmul computes the matrix product, in any arithmetic entry by entry as written *)
Theorem C51_regular_product : forall (T : Type) (NT : Num T) (h : list (scalar T)) A B a00 a01 a10 a11 b00 b01 b10 b11,
  mat_holds h A a00 a01 a10 a11 -> mat_holds h B b00 b01 b10 b11 ->
  exists C h', regular_matmul A B h = Ok (C, h') /\ extends h h' /\
    mat_holds h' C (nadd (nmul a00 b00) (nmul a01 b10)) (nadd (nmul a00 b01) (nmul a01 b11))
                   (nadd (nmul a10 b00) (nmul a11 b10)) (nadd (nmul a10 b01) (nmul a11 b11)).
Proof. exact @regular_spec. Qed.
Print Assumptions C51_regular_product.

(** strassen_matmul computes the same product (exact arithmetic) *)
Lemma strassen_R (h : list (scalar R)) A B a00 a01 a10 a11 b00 b01 b10 b11 :
  mat_holds h A a00 a01 a10 a11 -> mat_holds h B b00 b01 b10 b11 ->
  exists C h', strassen_matmul A B h = Ok (C, h') /\ extends h h' /\
    mat_holds h' C (a00 * b00 + a01 * b10) (a00 * b01 + a01 * b11)
                   (a10 * b00 + a11 * b10) (a10 * b01 + a11 * b11).
Proof.
  intros HA HB. destruct (strassen_spec h A B _ _ _ _ _ _ _ _ HA HB) as (C & h' & E & X & M).
  exists C, h'. split; [exact E|]. split; [exact X|]. cbn [nadd nmul nofZ R_num] in M.
  match type of M with mat_holds _ _ ?p ?q ?r ?s =>
    replace (a00 * b00 + a01 * b10) with p by ring; replace (a00 * b01 + a01 * b11) with q by ring;
    replace (a10 * b00 + a11 * b10) with r by ring; replace (a10 * b01 + a11 * b11) with s by ring end.
  exact M.
Qed.
Theorem C51_strassen_product : forall (h : list (scalar R)) A B a00 a01 a10 a11 b00 b01 b10 b11,
  mat_holds h A a00 a01 a10 a11 -> mat_holds h B b00 b01 b10 b11 ->
  exists C h', strassen_matmul A B h = Ok (C, h') /\ extends h h' /\
    mat_holds h' C (a00 * b00 + a01 * b10) (a00 * b01 + a01 * b11)
                   (a10 * b00 + a11 * b10) (a10 * b01 + a11 * b11).
Proof. exact strassen_R. Qed.
Print Assumptions C51_strassen_product.

(** in binary64 the two differ: with A = [[1, 0], [0, 2^53]] and B the identity, regular_matmul
    gives A and strassen_matmul gives [[-1, 0], [0, 2^53 - 2]] *)
Definition f_data (r : res (mat (T := float) * list (scalar float))) : option (list float) :=
  match r with
  | Ok (C, h) => Some (map (fun v => match v with PScalar i => match nth_error h i with Some s => x_data s | None => nofZ 7 end | _ => nofZ 7 end) (concat C))
  | Err _ => None
  end.
Definition f_heap (l : list float) : list (scalar float) := map (fun x => {| x_data := x; x_prev := []; x_op := OLoad |}) l.
Theorem C51_binary64_strassen_refuted :
  let big := nofZ (2 ^ 53) in
  let h := f_heap [nofZ 1; nofZ 0; nofZ 0; big; nofZ 1; nofZ 0; nofZ 0; nofZ 1] in
  let A := [[PScalar 0; PScalar 1]; [PScalar 2; PScalar 3]]%nat in
  let B := [[PScalar 4; PScalar 5]; [PScalar 6; PScalar 7]]%nat in
  f_data (regular_matmul A B h) = Some [nofZ 1; nofZ 0; nofZ 0; big] /\
  f_data (strassen_matmul A B h) = Some [nofZ (-1); nofZ 0; nofZ 0; nofZ (2 ^ 53 - 2)].
Proof. cbv zeta. split; vm_compute; reflexivity. Qed.
Print Assumptions C51_binary64_strassen_refuted.

(** sum_mat adds up all entries of a rectangular matrix of any size, row by row *)
Theorem C51_sum_mat : forall (T : Type) (NT : Num T) (h : list (scalar T)) M rows w,
  Forall2 (Forall2 (holds h)) M rows -> Forall (fun r => length r = w) rows ->
  exists v h', sum_mat M h = Ok (v, h') /\ extends h h' /\ holds h' v (fold_left nadd (concat rows) nzero).
Proof.
  intros T NT h M rows w H1 H2. destruct (sum_spec h M rows w (conj H1 H2)) as (v & h' & E & X & Hv).
  exists v, h'. split; [exact E|]. split; [exact X|].
  replace (fold_left nadd (concat rows) nzero) with (fold_left (fun acc r => fold_left nadd r acc) rows nzero); [exact Hv|].
  generalize (nzero (T := T)) as z. clear. induction rows as [|r rows IH]; intros z; cbn; auto. rewrite fold_left_app. apply IH.
Qed.
Print Assumptions C51_sum_mat.

(** ** the example's __main__ (matmul.py:61-88), for any entries: both products are formed, the
    entries of the Strassen product are summed and the result is compiled *)
Definition demo (a11 a12 a21 a22 b11 b12 b21 b22 : R) : SM (T := R) (pyval R) :=
  sbind (mnew a11) (fun x1 => sbind (mnew a12) (fun x2 => sbind (mnew a21) (fun x3 => sbind (mnew a22) (fun x4 =>
  sbind (mnew b11) (fun y1 => sbind (mnew b12) (fun y2 => sbind (mnew b21) (fun y3 => sbind (mnew b22) (fun y4 =>
  let A := [[x1; x2]; [x3; x4]] in let B := [[y1; y2]; [y3; y4]] in
  sbind (regular_matmul A B) (fun C => sbind (strassen_matmul A B) (fun C_str => sum_mat C_str)))))))))).

Definition r_ (k : nat) : operand R := ARes k.
Definition demo_cmds (a11 a12 a21 a22 b11 b12 b21 b22 : R) : list (cmd R) :=
  let mul a b := CBin BMul (r_ a) (r_ b) in let add a b := CBin BAdd (r_ a) (r_ b) in let sub a b := CBin BSub (r_ a) (r_ b) in
  [CNew a11; CNew a12; CNew a21; CNew a22; CNew b11; CNew b12; CNew b21; CNew b22;
   CNew 0%R; CNew 0%R; CNew 0%R; CNew 0%R;
   mul 0 4; mul 1 6; add 12 13; mul 0 5; mul 1 7; add 15 16; mul 2 4; mul 3 6; add 18 19; mul 2 5; mul 3 7; add 21 22;
   add 0 3; add 4 7; mul 24 25; add 2 3; mul 27 4; sub 5 7; mul 0 29; sub 6 4; mul 3 31; add 0 1; mul 33 7;
   sub 2 0; add 4 5; mul 35 36; sub 1 3; add 6 7; mul 38 39;
   add 26 32; sub 41 34; add 42 40; add 30 34; add 28 32; sub 26 28; add 46 30; add 47 37;
   CNew 0%R; add 49 43; add 50 44; add 51 45; add 52 48]%nat.
Definition demo_heap (a11 a12 a21 a22 b11 b12 b21 b22 : R) : list (scalar R) :=
  match run_cmds 1 (demo_cmds a11 a12 a21 a22 b11 b12 b21 b22) [] [] with Ok (_, h) => h | Err _ => [] end.

(** a boolean that implies reachability *)
Fixpoint reach_b (fuel : nat) (ps : list (list nat)) (v w : nat) : bool :=
  (v =? w)%nat || match fuel with O => false | S f => existsb (fun p => reach_b f ps p w) (nth v ps []) end.
Lemma reach_b_sound (h : list (scalar R)) fuel : forall v w, reach_b fuel (map x_prev h) v w = true -> reaches h v w.
Proof.
  induction fuel as [|f IH]; intros v w; cbn [reach_b]; rewrite orb_true_iff; intros [E|E].
  - apply Nat.eqb_eq in E. subst. constructor.
  - discriminate.
  - apply Nat.eqb_eq in E. subst. constructor.
  - apply existsb_exists in E. destruct E as (p & Hp & E). apply r_step with p; [|apply IH; auto].
    destruct (nth_error h v) as [s|] eqn:Es.
    + exists s. split; auto. rewrite (nth_error_nth (map x_prev h) v [] (map_nth_error x_prev v h Es)) in Hp. exact Hp.
    + exfalso. rewrite nth_overflow in Hp; [destruct Hp|]. rewrite map_length. apply nth_error_None. exact Es.
Qed.

Lemma in_combine_seq {A} (l : list A) : forall k v x, nth_error l v = Some x -> In ((k + v)%nat, x) (combine (seq k (length l)) l).
Proof.
  induction l as [|a l IH]; intros k v x E; [destruct v; discriminate|]. destruct v as [|v]; cbn in *.
  - injection E as ->. left. f_equal. lia.
  - right. replace (k + S v)%nat with (S k + v)%nat by lia. apply IH. exact E.
Qed.
Definition load_list (l : list (scalar R)) : list (nat * R) :=
  map (fun p => (fst p, x_data (snd p))) (filter (fun p => match x_op (snd p) with OLoad => true | _ => false end) (combine (seq 0 (length l)) l)).
Lemma in_load_list (l : list (scalar R)) v s : nth_error l v = Some s -> x_op s = OLoad -> In (v, x_data s) (load_list l).
Proof.
  intros Es Ho. unfold load_list. apply in_map_iff. exists (v, s). split; [reflexivity|]. apply filter_In. split.
  - apply (in_combine_seq l 0 v s Es).
  - cbn. rewrite Ho. reflexivity.
Qed.
Section Demo.
Variables a11 a12 a21 a22 b11 b12 b21 b22 : R.
Let h := demo_heap a11 a12 a21 a22 b11 b12 b21 b22.
Lemma demo_eq : demo a11 a12 a21 a22 b11 b12 b21 b22 [] = Ok (PScalar 59, h).
Proof. vm_compute. reflexivity. Qed.
Lemma demo_env : match run_cmds 1 (demo_cmds a11 a12 a21 a22 b11 b12 b21 b22) [] [] with Ok (env, _) => nth_error env 53 | _ => None end = Some (PScalar 59).
Proof. vm_compute. reflexivity. Qed.
Lemma demo_program : program h 59.
Proof.
  pose proof demo_env as E. unfold h, demo_heap.
  destruct (run_cmds 1 (demo_cmds a11 a12 a21 a22 b11 b12 b21 b22) [] []) as [[env hh]|e] eqn:ER; [|discriminate].
  exists 1%nat, (demo_cmds a11 a12 a21 a22 b11 b12 b21 b22), env. split; [exact ER|]. eapply nth_error_In; exact E.
Qed.
Lemma demo_data : match nth_error h 59 with Some s => x_data s | None => -1 end =
  (a11 * b11 + a12 * b21) + (a11 * b12 + a12 * b22) + (a21 * b11 + a22 * b21) + (a21 * b12 + a22 * b22).
Proof.
  assert (E : forall r, r = (a11 * b11 + a12 * b21) + (a11 * b12 + a12 * b22) + (a21 * b11 + a22 * b21) + (a21 * b12 + a22 * b22) -> 
     match nth_error h 59 with Some s => x_data s | None => -1 end = r ->
     match nth_error h 59 with Some s => x_data s | None => -1 end = (a11 * b11 + a12 * b21) + (a11 * b12 + a12 * b22) + (a21 * b11 + a22 * b21) + (a21 * b12 + a22 * b22)).
  { intros r E1 E2. congruence. }
  eapply E; [|vm_compute; reflexivity]. change R0 with (IZR 0). change R1 with (IZR 1). ring.
Qed.
Definition demo_loads : list (nat * R) :=
  [(0, a11); (1, a12); (2, a21); (3, a22); (4, b11); (5, b12); (6, b21); (7, b22); (8, 0%R); (9, 0%R); (10, 0%R); (11, 0%R); (55, 0%R)]%nat.
Lemma demo_load_list : load_list h = demo_loads.
Proof. vm_compute. reflexivity. Qed.
Lemma demo_supported : uses_only_supported h 59.
Proof.
  assert (E : forallb (fun s => match x_op s with ODiv => false | _ => true end) h = true) by (vm_compute; reflexivity).
  rewrite forallb_forall in E. intros v s _ Es Ho. specialize (E s (nth_error_In _ _ Es)). rewrite Ho in E. discriminate.
Qed.
Lemma demo_guard mr : 0 < mr -> (loads_at_most h 59 mr <->
  a11 <= mr /\ a12 <= mr /\ a21 <= mr /\ a22 <= mr /\ b11 <= mr /\ b12 <= mr /\ b21 <= mr /\ b22 <= mr).
Proof.
  intros Hm. split.
  - intros HL.
    assert (R0 : forallb (fun w => reach_b 12 (map x_prev h) 59 w) (seq 0 8) = true) by (vm_compute; reflexivity).
    rewrite forallb_forall in R0.
    assert (G : forall v x, (v < 8)%nat -> nth_error (map (fun s => (x_op s, x_data s)) h) v = Some (OLoad, x) -> x <= mr).
    { intros v x Hv E. destruct (nth_error h v) as [s|] eqn:Es.
      - rewrite (map_nth_error _ v h Es) in E. injection E as E1 E2. rewrite <- E2. apply (HL v s); auto.
        apply reach_b_sound with 12%nat. apply R0. apply in_seq. lia.
      - rewrite (proj2 (nth_error_None _ v)) in E; [discriminate|]. rewrite map_length. apply nth_error_None. exact Es. }
    split; [apply (G 0%nat); [lia|vm_compute; reflexivity]|]. split; [apply (G 1%nat); [lia|vm_compute; reflexivity]|].
    split; [apply (G 2%nat); [lia|vm_compute; reflexivity]|]. split; [apply (G 3%nat); [lia|vm_compute; reflexivity]|].
    split; [apply (G 4%nat); [lia|vm_compute; reflexivity]|]. split; [apply (G 5%nat); [lia|vm_compute; reflexivity]|].
    split; [apply (G 6%nat); [lia|vm_compute; reflexivity]|]. apply (G 7%nat); [lia|vm_compute; reflexivity].
  - intros (L0 & L1 & L2 & L3 & L4 & L5 & L6 & L7) v s _ Es Ho.
    pose proof (in_load_list h v s Es Ho) as I.
    rewrite demo_load_list in I. unfold demo_loads in I. cbn [In] in I.
    repeat (destruct I as [I|I]; [injection I as _ <-; lra|]). destruct I.
Qed.
End Demo.

(** The whole example for any entries: the Scalar it compiles holds the sum of the entries of A*B,
    and compile_computation(out, max_range) succeeds exactly if all entries are at most max_range
    and max_range is at most 100; otherwise it fails an assertion. *)
Theorem C51_demo : forall a11 a12 a21 a22 b11 b12 b21 b22 mr : R, 0 < mr ->
  exists root h s, demo a11 a12 a21 a22 b11 b12 b21 b22 [] = Ok (PScalar root, h) /\
    nth_error h root = Some s /\
    x_data s = (a11 * b11 + a12 * b21) + (a11 * b12 + a12 * b22) + (a21 * b11 + a22 * b21) + (a21 * b12 + a22 * b22) /\
    let fits := (a11 <= mr /\ a12 <= mr /\ a21 <= mr /\ a22 <= mr /\ b11 <= mr /\ b12 <= mr /\ b21 <= mr /\ b22 <= mr) /\ mr <= 100 in
    (fits <-> exists r, compile_computation h root mr empty_world = Ok r) /\
    (~ fits <-> compile_computation h root mr empty_world = Err EAssert).
Proof.
  intros a11 a12 a21 a22 b11 b12 b21 b22 mr Hm.
  pose proof (demo_data a11 a12 a21 a22 b11 b12 b21 b22) as D.
  destruct (nth_error (demo_heap a11 a12 a21 a22 b11 b12 b21 b22) 59) as [s|] eqn:Es;
    [|exfalso; assert (E : (59 < length (demo_heap a11 a12 a21 a22 b11 b12 b21 b22))%nat) by (vm_compute; repeat constructor);
      apply nth_error_None in Es; lia].
  exists 59%nat, (demo_heap a11 a12 a21 a22 b11 b12 b21 b22), s.
  split; [apply demo_eq|]. split; [exact Es|]. split; [exact D|].
  cbv zeta. rewrite <- (demo_guard a11 a12 a21 a22 b11 b12 b21 b22 mr Hm).
  apply (C34_range_guard _ 59 mr empty_world (demo_program _ _ _ _ _ _ _ _) inv_empty Hm (demo_supported _ _ _ _ _ _ _ _)).
Qed.
Print Assumptions C51_demo.
(** the values of the script: the sum is 32, and max_range = 100 compiles *)
Example C51_demo_ex : exists root h s, demo 2 3 2 1 1 2 3 2 [] = Ok (PScalar root, h) /\ nth_error h root = Some s /\ x_data s = 32 /\
  exists r, compile_computation h root 100 empty_world = Ok r.
Proof.
  destruct (C51_demo 2 3 2 1 1 2 3 2 100 ltac:(lra)) as (root & h & s & E1 & E2 & E3 & G & _).
  exists root, h, s. split; [exact E1|]. split; [exact E2|]. split; [rewrite E3; lra|]. apply G. split; [|lra].
  repeat match goal with |- _ /\ _ => split end; lra.
Qed.
(** mat_holds is met by the matrices of that script *)
Example C51_mat_ex : let h := map (fun x => {| x_data := x; x_prev := []; x_op := OLoad |}) [2; 3; 2; 1; 1; 2; 3; 2] in
  mat_holds h [[PScalar 0; PScalar 1]; [PScalar 2; PScalar 3]]%nat 2 3 2 1 /\
  mat_holds h [[PScalar 4; PScalar 5]; [PScalar 6; PScalar 7]]%nat 1 2 3 2.
Proof.
  cbv zeta. split; eexists _, _, _, _; (split; [reflexivity|]);
    repeat match goal with |- _ /\ _ => split end; eexists _, _; (split; [reflexivity|]); (split; [reflexivity|]); reflexivity.
Qed.
