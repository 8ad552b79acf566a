(** C33, C34: what compile_computation produces *)
From Coq Require Import Arith ZArith Bool String List Lia Reals Lra.
From Verif Require Import Num Heapq Elements Networks Simulator Scalar ScalarProofs Compiler Build BuildNets SimpleNets.
Import ListNotations.
Open Scope list_scope.
Open Scope nat_scope.

(** ** Specification *)
(** operators documented as supported and really compiled *)
Definition supported (op : optype) : Prop := op = OLoad \/ op = OAdd \/ op = OMul \/ op = ONeg.
(** the network a node must be compiled to: which constructor is called, and which of its
    neurons are the operands' '+'/'-' inputs (in order) and the '+'/'-' outputs *)
Definition network_for (op : optype) (norm : R) (w w' : world R) (md : nat) (ins : list (nat * nat)) (out : nat * nat) : Prop :=
  match op with
  | OLoad => exists i, InjectorNetwork DefaultEncoder (Some "injector_mod"%string) w = Ok (i, w') /\
      md = ij_mod i /\ ins = [] /\ out = (ij_plus i, ij_minus i)
  | OAdd => exists a, AdderNetwork DefaultEncoder (Some "adder_mod"%string) w = Ok (a, w') /\
      md = lc_mod (ad_lin a) /\ ins = [(ad_input1_plus a, ad_input1_minus a); (ad_input2_plus a, ad_input2_minus a)] /\
      out = (lc_output_plus (ad_lin a), lc_output_minus (ad_lin a))
  | OMul => exists m, SignedMultiplierNormNetwork DefaultEncoder norm (Some "mul_norm_mod"%string) w = Ok (m, w') /\
      md = sn_mod m /\ ins = [(sn_input1_plus m, sn_input1_minus m); (sn_input2_plus m, sn_input2_minus m)] /\
      out = (sn_output_plus m, sn_output_minus m)
  | ONeg => exists f, SignFlipperNetwork DefaultEncoder (Some "inv_mod"%string) w = Ok (f, w') /\
      md = sf_mod f /\ ins = [(sf_inp_plus f, sf_inp_minus f)] /\ out = (sf_outp_plus f, sf_outp_minus f)
  | _ => False
  end.
(** one compiled node: the objects before and after its constructor call, its module, its
    inputs and outputs and the synapses it owns *)
Record placed := { pl_w0 : world R; pl_w1 : world R; pl_md : nat; pl_ins : list (nat * nat); pl_out : nat * nat; pl_own : list (synapse R) }.
Definition placed_ok (h : list (scalar R)) (norm : R) (v : nat) (p : placed) : Prop :=
  exists s, nth_error h v = Some s /\ network_for (x_op s) norm (pl_w0 p) (pl_w1 p) (pl_md p) (pl_ins p) (pl_out p) /\
    length (pl_ins p) = length (x_prev s) /\ w_syns (pl_w1 p) = w_syns (pl_w0 p) ++ pl_own p /\ inv (pl_w0 p) /\
    let within n := length (w_neurons (pl_w0 p)) <= n < length (w_neurons (pl_w1 p)) in
    within (fst (pl_out p)) /\ within (snd (pl_out p)) /\ (forall i, In i (pl_ins p) -> within (fst i) /\ within (snd i)) /\
    (forall y, In y (pl_own p) -> within (s_pre y) /\ within (s_post y)).
Definition vsyn (a b : nat) : synapse R := {| s_pre := a; s_post := b; s_ty := SynV; s_w := 10%R; s_delay := 1%R |}.
(** '+' to '+' and '-' to '-' *)
Definition wire (o i : nat * nat) : list (synapse R) := [vsyn (fst o) (fst i); vsyn (snd o) (snd i)].
(** the wires of node v: the k-th operand's output to v's k-th input *)
Definition wires_of (h : list (scalar R)) (pl : nat -> placed) (v : nat) : list (synapse R) :=
  match nth_error h v with
  | Some s => flat_map (fun pi => wire (pl_out (pl (fst pi))) (snd pi)) (combine (x_prev s) (pl_ins (pl v)))
  | None => []
  end.
(** the trigger of a Load node *)
Definition trigger_for (h : list (scalar R)) (norm : R) (pl : nat -> placed) (v : nat) : list (nat * R) :=
  match nth_error h v with
  | Some s => match x_op s with
      | OLoad => [(if Rle_dec 0 (x_data s) then fst (pl_out (pl v)) else snd (pl_out (pl v)), (Rabs (x_data s) / norm)%R)]
      | _ => [] end
  | None => []
  end.

(** ** flatten *)
Definition idx (all : list nat) (v : nat) : nat := match index_of v all with Some i => i | None => 0 end.
Lemma index_of_in v l : In v l -> exists i, index_of v l = Some i /\ nth_error l i = Some v.
Proof.
  induction l as [|x l IH]; intros Hin; [destruct Hin|]. cbn [index_of]. destruct (Nat.eqb_spec x v) as [->|Hne].
  - exists 0. auto.
  - destruct Hin as [?|Hin]; [congruence|]. destruct (IH Hin) as (i & E & En). rewrite E. exists (S i). auto.
Qed.
Lemma idx_nth v l : In v l -> index_of v l = Some (idx l v) /\ nth_error l (idx l v) = Some v.
Proof. intros Hin. unfold idx. destruct (index_of_in v l Hin) as (i & E & En). rewrite E. auto. Qed.
Lemma idx_lt v l : In v l -> idx l v < length l.
Proof. intros Hin. apply nth_error_Some. destruct (idx_nth v l Hin) as [_ E]. congruence. Qed.
Lemma idx_app pre v suf : ~ In v pre -> idx (pre ++ v :: suf) v = length pre.
Proof.
  intros Hn. unfold idx. assert (E : index_of v (pre ++ v :: suf) = Some (length pre)).
  { clear -Hn. induction pre as [|x pre IH]; cbn [app index_of length]; [rewrite Nat.eqb_refl; auto|].
    destruct (Nat.eqb_spec x v) as [->|]; [exfalso; apply Hn; left; auto|]. rewrite IH; auto. intros ?; apply Hn; right; auto. }
  rewrite E. auto.
Qed.
Definition prev_of (h : list (scalar R)) v := match nth_error h v with Some s => x_prev s | None => [] end.
Fixpoint scafs (h : list (scalar R)) (all : list nat) (k : nat) (l : list nat) : list (scaffold (T := R)) :=
  match l with
  | [] => []
  | v :: r => match nth_error h v with
      | Some s => {| os_op := x_op s; os_value := x_data s; os_inps := seq k (length (x_prev s)); os_outp := idx all v |} :: scafs h all (k + length (x_prev s)) r
      | None => [] end
  end.
Fixpoint conns_of (h : list (scalar R)) (all : list nat) (k : nat) (l : list nat) : list (nat * nat) :=
  match l with
  | [] => []
  | v :: r => combine (map (idx all) (prev_of h v)) (seq k (length (prev_of h v))) ++ conns_of h all (k + length (prev_of h v)) r
  end.
Definition nplugs (h : list (scalar R)) (l : list nat) : nat := list_sum (map (fun v => length (prev_of h v)) l).
Lemma rfold_pres all (l : list nat) : (forall n, In n l -> In n all) -> forall acc,
  rfold (fun l n => match index_of n all with Some p => Ok (l ++ [p]) | None => Err EKey end) l acc = Ok (acc ++ map (idx all) l).
Proof.
  induction l as [|x l IH]; intros HI acc; cbn [rfold map]; [rewrite app_nil_r; auto|].
  destruct (idx_nth x all (HI x (or_introl eq_refl))) as [-> _]. cbn [rbind]. rewrite IH by (intros; apply HI; right; auto).
  rewrite <- app_assoc. auto.
Qed.
Lemma flatten_loop h all : forall l ops conns k,
  (forall v, In v l -> In v all /\ exists s, nth_error h v = Some s /\ forall n, In n (x_prev s) -> In n all) ->
  rfold (flatten_node h all) l (ops, conns, k) = Ok (ops ++ scafs h all k l, conns ++ conns_of h all k l, k + nplugs h l).
Proof.
  induction l as [|v l IH]; intros ops conns k HI; cbn [rfold scafs conns_of].
  - unfold nplugs. cbn. rewrite !app_nil_r, Nat.add_0_r. auto.
  - destruct (HI v (or_introl eq_refl)) as (Hv & s & Es & Hp). unfold flatten_node at 1. rewrite Es.
    destruct (idx_nth v all Hv) as [-> _]. rewrite rfold_pres by auto. cbn [rbind app]. rewrite IH by (intros; apply HI; right; auto).
    unfold nplugs. cbn [map list_sum fold_right]. unfold prev_of at 3 4. rewrite Es. rewrite <- !app_assoc. cbn [app].
    assert (EP : prev_of h v = x_prev s) by (unfold prev_of; rewrite Es; auto). rewrite EP.
    f_equal. f_equal. rewrite <- Nat.add_assoc. reflexivity.
Qed.
Lemma flatten_spec h root nodes edges : trace h root = Ok (nodes, edges) -> In root nodes ->
  (forall v, In v nodes -> exists s, nth_error h v = Some s /\ forall n, In n (x_prev s) -> In n nodes) ->
  flatten h root = Ok (scafs h nodes (length nodes) nodes, conns_of h nodes (length nodes) nodes, idx nodes root, length nodes + nplugs h nodes).
Proof.
  intros E Hr HI. unfold flatten. rewrite E. cbn [rbind fst]. rewrite flatten_loop by (intros; split; auto).
  cbn [rbind app]. destruct (idx_nth root nodes Hr) as [-> _]. reflexivity.
Qed.

(** ** spawn *)
Definition hpair (hd : header) : nat * nat := (h_plus hd, h_minus hd).
Lemma seq_range a n (l : list nat) : l = seq a n -> forall x, In x l -> a <= x < a + n.
Proof. intros -> x Hx. apply in_seq in Hx. lia. Qed.
Lemma Tmax_default : neqb (Tmax (DefaultEncoder (T := R))) nzero = false.
Proof. apply neq0. cbn. lra. Qed.
Lemma Tcod_default : neqb (Tcod (DefaultEncoder (T := R))) nzero = false.
Proof. apply neq0. cbn. lra. Qed.
Definition rng (b c : nat) (y : synapse R) : Prop := (b <= s_pre y < c) /\ (b <= s_post y < c).
Ltac rng_solve := repeat (apply Forall_cons; [split; cbn [s_pre s_post syn]; lia|]); try apply Forall_nil.
Lemma rng_mono b c b' c' l : b' <= b -> c <= c' -> Forall (rng b c) l -> Forall (rng b' c') l.
Proof. intros Hb Hc. apply Forall_impl. intros y [A B]. split; lia. Qed.
Lemma nodes_rng (l : list nat) b n : l = seq b n -> Forall (fun x => b <= x < b + n) l.
Proof. intros ->. apply Forall_forall. intros x Hx. apply in_seq in Hx. lia. Qed.
Ltac nodes_rng H := apply nodes_rng in H; repeat (apply Forall_cons_iff in H; let H1 := fresh "Hr" in destruct H as [H1 H]); clear H.
Lemma sf_rng (m : flip_net) b : sf_nodes m = seq b 4 -> Forall (rng b (b + 4)) (sf_syns m).
Proof. intros E. unfold sf_nodes in E. nodes_rng E. unfold sf_syns. rng_solve. Qed.
Lemma mm_rng wa (m : memory_net) b : mm_nodes m = seq b 8 -> Forall (rng b (b + 8)) (mm_syns wa m).
Proof. intros E. unfold mm_nodes in E. nodes_rng E. unfold mm_syns. rng_solve. Qed.
Lemma sb_rng enc (m : sub_net) b : sb_nodes m = seq b 9 -> Forall (rng b (b + 9)) (sb_syns enc m).
Proof. intros E. unfold sb_nodes in E. nodes_rng E. unfold sb_syns. cbv zeta. rng_solve. Qed.
Lemma sc_rng enc f (m : smul_net) b : sc_nodes m = seq b 6 -> Forall (rng b (b + 6)) (sc_syns enc f m).
Proof. intros E. unfold sc_nodes in E. nodes_rng E. unfold sc_syns. cbv zeta. rng_solve. Qed.
Lemma mu_rng enc (m : mul_net) b : mu_nodes m = seq b 12 -> Forall (rng b (b + 12)) (mu_syns enc m).
Proof. intros E. unfold mu_nodes in E. nodes_rng E. unfold mu_syns. cbv zeta. rng_solve. Qed.

Lemma sg_rng (a b c d e f g i : nat) lo hi : Forall (fun x => lo <= x < hi) [a; b; c; d; e; f; g; i] -> Forall (rng lo hi) (sign_syns a b c d e f g i).
Proof. intros E. repeat (apply Forall_cons_iff in E; let H1 := fresh "Hr" in destruct E as [H1 E]). unfold sign_syns. cbv zeta. rng_solve. Qed.
Lemma so_rng (a b c d e f : nat) lo hi : Forall (fun x => lo <= x < hi) [a; b; c; d; e; f] -> Forall (rng lo hi) (sout_syns a b c d e f).
Proof. intros E. repeat (apply Forall_cons_iff in E; let H1 := fresh "Hr" in destruct E as [H1 E]). unfold sout_syns. cbv zeta. rng_solve. Qed.
Lemma seq_split {A} (l1 l2 : list A) (l : list A) k : l1 ++ l2 = l -> length l1 = k -> l1 = firstn k l /\ l2 = skipn k l.
Proof. intros <- <-. rewrite firstn_app, skipn_app, Nat.sub_diag, firstn_all, skipn_all. cbn. rewrite app_nil_r. auto. Qed.
Lemma sn_rng enc f (m : smultn_net) b : mu_nodes (sn_mn m) ++ sc_nodes (sn_scmn m) ++ sn_own m = seq b 28 -> Forall (rng b (b + 28)) (sn_syns enc f m).
Proof.
  intros E. destruct (seq_split _ _ _ 12 E eq_refl) as [E1 E2]. destruct (seq_split _ _ _ 6 E2 eq_refl) as [E3 E4].
  cbn [seq firstn skipn] in E1, E3, E4.
  pose proof (mu_rng enc (sn_mn m) b E1) as R1. pose proof (sc_rng enc f (sn_scmn m) (b + 12)) as R2.
  unfold sn_syns. apply Forall_app. split; [eapply rng_mono; [| |exact R1]; lia|].
  apply Forall_app. split; [eapply rng_mono; [| |apply R2]; try lia; rewrite E3; cbn [seq]; repeat f_equal; lia|].
  apply nodes_rng in E. unfold mu_nodes, sc_nodes, sn_own in E. cbn [app] in E.
  repeat (apply Forall_cons_iff in E; let H1 := fresh "Hr" in destruct E as [H1 E]). clear E R1 R2 E1 E2 E3 E4.
  repeat (apply Forall_app; split); try (apply sg_rng || apply so_rng; repeat (apply Forall_cons; [assumption|]); apply Forall_nil); rng_solve.
Qed.
Lemma cells_rng enc K sync cs : forall b lo, cells_at b cs -> lo <= sync < b -> Forall (rng lo (b + 10 * length cs)) (flat_map (cell_syns enc K sync) cs).
Proof.
  induction cs as [|c cs IH]; intros b lo HC Hs; cbn [flat_map length]; [constructor|].
  destruct HC as (E1 & E2 & E3 & HC). apply Forall_app. split.
  - unfold cell_syns. apply Forall_app. split; [eapply rng_mono; [| |apply mm_rng; exact E3]; lia|].
    unfold mm_nodes in E3. nodes_rng E3. rng_solve.
  - eapply rng_mono; [| |apply (IH (10 + b) lo HC); lia]; lia.
Qed.
Lemma lcells_rng enc K sync a1 a2 : forall xs (cs : list R) b lo, lcells_at b xs -> lo <= sync < b -> lo <= a1 < b -> lo <= a2 < b ->
  Forall (rng lo (b + 6 * length xs)) (flat_map (lcell_syns enc K sync a1 a2) (combine cs xs)).
Proof.
  induction xs as [|x xs IH]; intros cs b lo HC Hs H1 H2; destruct cs as [|c cs]; cbn [combine flat_map length]; try apply Forall_nil.
  destruct HC as (E & HC). apply Forall_app. split.
  - nodes_rng E. unfold lcell_syns. cbn [fst snd]. cbv zeta. destruct (ngtb c nzero); rng_solve.
  - eapply rng_mono; [| |apply (IH cs (6 + b) lo HC); lia]; lia.
Qed.
Lemma lc_rng enc N cs (l : lin_net) b : lc_own l = seq b 10 -> sy_sync (lc_sync_net l) = 10 + b -> cells_at (11 + b) (sy_cells (lc_sync_net l)) ->
  length (sy_cells (lc_sync_net l)) = 2 -> sb_nodes (lc_sub_net l) = seq (31 + b) 9 -> lcells_at (40 + b) (lc_cells l) -> length (lc_cells l) = N ->
  Forall (rng b (b + 40 + 6 * N)) (lc_syns enc N cs l).
Proof.
  intros E1 E2 E3 E4 E5 E6 E7. unfold lc_own in E1. nodes_rng E1.
  assert (HC : forall i, i < 2 -> b <= c_in (lc_ch l i) < b + 40 /\ b <= c_out (lc_ch l i) < b + 40).
  { intros i Hi. unfold lc_ch. destruct (sy_cells (lc_sync_net l)) as [|c1 [|c2 [|]]]; try discriminate.
    destruct E3 as (? & ? & _ & ? & ? & _). destruct i as [|[|]]; cbn [nth]; lia. }
  pose proof (HC 0 ltac:(lia)) as HC0. pose proof (HC 1 ltac:(lia)) as HC1. clear HC.
  unfold lc_syns. cbv zeta. apply Forall_app. split.
  - eapply rng_mono; [| |apply (cells_rng enc 2 (sy_sync (lc_sync_net l)) _ (11 + b) b E3); lia]; lia.
  - apply Forall_app. split; [eapply rng_mono; [| |apply sb_rng; exact E5]; lia|]. apply Forall_app. split.
    + unfold sb_nodes in E5. nodes_rng E5. rng_solve.
    + eapply rng_mono; [| |apply (lcells_rng enc N _ _ _ (lc_cells l) cs (40 + b) b E6); lia]; lia.
Qed.
(** running spawn_stick_module on a supported operator *)
Lemma spawn_ok op norm (w : world R) : inv w -> supported op ->
  exists md ins out w' L, spawn op norm w = Ok ((md, ins, out), w') /\ built w w' md L /\
    network_for op norm w w' md (map hpair ins) (hpair out) /\
    length ins = match op with OAdd | OMul => 2 | ONeg => 1 | _ => 0 end /\
    let within n := length (w_neurons w) <= n < length (w_neurons w') in
    within (h_plus out) /\ within (h_minus out) /\ (forall i, In i ins -> within (h_plus i) /\ within (h_minus i)) /\
    Forall (rng (length (w_neurons w)) (length (w_neurons w'))) L.
Proof.
  intros I [-> | [-> | [-> | -> ]]]; unfold spawn.
  - destruct (Injector_built DefaultEncoder (Some "injector_mod"%string) w I) as (i & w' & E & HB & HN & HL).
    rewrite (bbind_ok _ _ _ _ _ E), bret_eq. do 5 eexists. split; [reflexivity|]. split; [exact HB|].
    split; [cbn [network_for]; exists i; auto|]. split; [reflexivity|]. unfold ij_nodes in HN. nodes_rng HN. cbv zeta. cbn [h_plus h_minus].
    split; [lia|]. split; [lia|]. split; [intros ? []|constructor].
  - destruct (Adder_built DefaultEncoder (Some "adder_mod"%string) w I Tmax_default) as (a & w' & E & HB & HR).
    rewrite (bbind_ok _ _ _ _ _ E), bret_eq. do 5 eexists. split; [reflexivity|]. split; [exact HB|].
    split; [cbn [network_for]; exists a; auto|]. split; [reflexivity|]. cbv zeta in HR. destruct HR as (E1 & E2 & E3 & E4 & E5 & E6 & E7 & E8 & E9 & E10 & E11 & E12 & E13 & HL).
    cbv zeta. cbn [h_plus h_minus].
    pose proof (lc_rng DefaultEncoder 2 [nofZ 1; nofZ 1] (ad_lin a) _ E1 E2 E3 E4 E5 E6 E7) as RL.
    unfold lc_own in E1. nodes_rng E1. split; [lia|]. split; [lia|]. split.
    + rewrite E8, E9 in *. destruct (lc_cells (ad_lin a)) as [|x1 [|x2 [|]]]; try discriminate. cbn [map nth] in *.
      destruct E6 as (Q1 & Q2 & _). nodes_rng Q1. nodes_rng Q2.
      intros i [<-|[<-|[]]]; cbn [h_plus h_minus]; rewrite ?E10, ?E11, ?E12, ?E13; lia.
    + eapply rng_mono; [| |exact RL]; lia.
  - destruct (SignedMultNorm_built DefaultEncoder norm (Some "mul_norm_mod"%string) w I Tmax_default Tcod_default) as (m & w' & E & HB & HN & HL).
    rewrite (bbind_ok _ _ _ _ _ E), bret_eq. do 5 eexists. split; [reflexivity|]. split; [exact HB|].
    split; [cbn [network_for]; exists m; auto|]. split; [reflexivity|]. cbv zeta. cbn [h_plus h_minus].
    pose proof (sn_rng DefaultEncoder norm m _ HN) as RL. apply nodes_rng in HN. apply Forall_app in HN as [_ HN]. apply Forall_app in HN as [_ HN].
    unfold sn_own in HN. repeat (apply Forall_cons_iff in HN; let H1 := fresh "Hr" in destruct HN as [H1 HN]).
    split; [lia|]. split; [lia|]. split.
    + intros i [<-|[<-|[]]]; cbn [h_plus h_minus]; lia.
    + eapply rng_mono; [| |exact RL]; lia.
  - destruct (SignFlipper_built DefaultEncoder (Some "inv_mod"%string) w I Tmax_default Tcod_default) as (m & w' & E & HB & HN & HL).
    rewrite (bbind_ok _ _ _ _ _ E), bret_eq. do 5 eexists. split; [reflexivity|]. split; [exact HB|].
    split; [cbn [network_for]; exists m; auto|]. split; [reflexivity|]. cbv zeta. cbn [h_plus h_minus].
    pose proof (sf_rng m _ HN) as RL. unfold sf_nodes in HN. nodes_rng HN.
    split; [lia|]. split; [lia|]. split.
    + intros i [<-|[]]; cbn [h_plus h_minus]; lia.
    + eapply rng_mono; [| |exact RL]; lia.
Qed.

(** ** instantiate_stick_modules *)
Definition mkhd (p : nat * nat) : header := {| h_plus := fst p; h_minus := snd p |}.
Lemma mkhd_hpair hd : mkhd (hpair hd) = hd. Proof. destruct hd; reflexivity. Qed.
Lemma lset_app {A} (l1 l2 : list A) x y : lset (l1 ++ x :: l2) (length l1) y = l1 ++ y :: l2.
Proof. induction l1; cbn; [auto|]. rewrite IHl1. auto. Qed.
Lemma set_plugs_block ins : forall (A B : plugs), set_plugs (A ++ repeat None (length ins) ++ B) (combine (seq (length A) (length ins)) ins) = A ++ map Some ins ++ B.
Proof.
  induction ins as [|x ins IH]; intros A B; cbn [length repeat seq combine map app]; [reflexivity|].
  unfold set_plugs. cbn [fold_left fst snd]. rewrite lset_app. fold (set_plugs (A ++ Some x :: repeat None (length ins) ++ B) (combine (seq (S (length A)) (length ins)) ins)).
  specialize (IH (A ++ [Some x]) B). rewrite app_length in IH. cbn [length] in IH. rewrite Nat.add_1_r, <- !app_assoc in IH. exact IH.
Qed.
Definition arity (op : optype) : nat := match op with OAdd | OMul => 2 | ONeg => 1 | _ => 0 end.
(** what holds of a freshly compiled node *)
Record fresh_node (op : optype) (norm : R) (p : placed) : Prop := {
  fn_net : network_for op norm (pl_w0 p) (pl_w1 p) (pl_md p) (pl_ins p) (pl_out p);
  fn_ar : length (pl_ins p) = arity op;
  fn_inv : inv (pl_w0 p);
  fn_built : built (pl_w0 p) (pl_w1 p) (pl_md p) (pl_own p);
  fn_out : (length (w_neurons (pl_w0 p)) <= fst (pl_out p) < length (w_neurons (pl_w1 p))) /\ (length (w_neurons (pl_w0 p)) <= snd (pl_out p) < length (w_neurons (pl_w1 p)));
  fn_ins : forall i, In i (pl_ins p) -> (length (w_neurons (pl_w0 p)) <= fst i < length (w_neurons (pl_w1 p))) /\ (length (w_neurons (pl_w0 p)) <= snd i < length (w_neurons (pl_w1 p)));
  fn_own : Forall (rng (length (w_neurons (pl_w0 p))) (length (w_neurons (pl_w1 p)))) (pl_own p)
}.
Lemma inst_step w0 r L b (w : world R) norm ps op : at_ w0 r L b [] w -> supported (os_op op) -> length (os_inps op) = arity (os_op op) ->
  exists p w', instantiate_op r norm ps op w = Ok (lset (set_plugs ps (combine (os_inps op) (map mkhd (pl_ins p)))) (os_outp op) (Some (mkhd (pl_out p))), w') /\
    fresh_node (os_op op) norm p /\ pl_w0 p = w /\ w' = w_addsub (pl_w1 p) r (pl_md p) /\ at_ w0 r (L ++ pl_own p) (length (w_neurons (pl_w1 p))) [] w'.
Proof.
  intros HA HS HL. destruct (spawn_ok (os_op op) norm w (a_inv _ _ _ _ _ _ HA) HS) as (md & ins & out & w1 & L1 & E & HB & HN & HI & HR).
  cbv zeta in HR. destruct HR as (R1 & R2 & R3 & R4).
  set (p := {| pl_w0 := w; pl_w1 := w1; pl_md := md; pl_ins := map hpair ins; pl_out := hpair out; pl_own := L1 |}).
  destruct (go_build _ _ _ _ _ _ _ _ _ _ _ _ (fun _ => bret tt) HA E HB eq_refl) as (_ & HA' & Hlt). cbn [app] in HA'.
  destruct (go_attach _ _ _ _ [] md [] _ (fun _ => bret tt) HA') as (w2 & E2 & HA2).
  exists p, w2. assert (Ew : w2 = w_addsub w1 r md) by (rewrite bbind_addsub, !bret_eq in E2; congruence). subst w2.
  split; [|split; [|split; [reflexivity|split; [reflexivity|exact HA2]]]].
  - unfold instantiate_op. rewrite (bbind_ok _ _ _ _ _ E). rewrite HL, HI. fold (arity (os_op op)). rewrite Nat.eqb_refl. cbn [negb].
    rewrite bbind_addsub, bret_eq. cbn [p pl_ins pl_out]. rewrite map_map, mkhd_hpair.
    rewrite (map_ext (fun x => mkhd (hpair x)) (fun x => x)) by (intros; apply mkhd_hpair). rewrite map_id. reflexivity.
  - constructor; cbn [p pl_w0 pl_w1 pl_md pl_ins pl_out pl_own]; auto.
    + rewrite map_length. auto.
    + apply (a_inv _ _ _ _ _ _ HA).
    + intros i Hi. apply in_map_iff in Hi as (hd & <- & Hi). apply (R3 hd Hi).
Qed.
(** everything made for a node is still there in w *)
Record kept (r : nat) (p : placed) (w : world R) : Prop := {
  kp_nrn : exists l, w_neurons w = w_neurons (pl_w1 p) ++ l;
  kp_syn : exists l, w_syns w = w_syns (pl_w1 p) ++ l;
  kp_mod : forall j, r < j < length (w_mods (pl_w1 p)) -> nth_error (w_mods w) j = nth_error (w_mods (pl_w1 p)) j
}.
Definition before (p q : placed) : Prop := length (w_neurons (pl_w1 p)) <= length (w_neurons (pl_w0 q)).
Lemma inst_loop h all norm w0 r nm : NoDup all -> forall l pre outs insc subs L b (w : world R),
  all = pre ++ l ->
  (forall v, In v l -> exists s, nth_error h v = Some s /\ supported (x_op s) /\ length (x_prev s) = arity (x_op s)) ->
  length outs = length pre -> at_ w0 r L b [] w ->
  nth_error (w_mods w) r = Some {| m_name := nm; m_neurons := []; m_subs := subs |} ->
  exists pls w',
    instantiate r norm (scafs h all (length all + length insc) l) (map Some outs ++ repeat None (length l) ++ map Some insc ++ repeat None (nplugs h l)) w =
      Ok (map Some (outs ++ map (fun p => mkhd (pl_out p)) pls) ++ map Some (insc ++ flat_map (fun p => map mkhd (pl_ins p)) pls), w') /\
    Forall2 (fun v p => exists s, nth_error h v = Some s /\ fresh_node (x_op s) norm p) l pls /\
    at_ w0 r (L ++ flat_map pl_own pls) (length (w_neurons w')) [] w' /\
    nth_error (w_mods w') r = Some {| m_name := nm; m_neurons := []; m_subs := subs ++ map pl_md pls |} /\
    Forall (fun p => b <= length (w_neurons (pl_w0 p)) /\ kept r p w') pls /\ ForallOrdPairs before pls /\
    (exists x, w_neurons w' = w_neurons w ++ x) /\ (exists x, w_syns w' = w_syns w ++ x) /\
    (forall j, r < j < length (w_mods w) -> nth_error (w_mods w') j = nth_error (w_mods w) j) /\ length (w_mods w) <= length (w_mods w').
Proof.
  intros ND. induction l as [|v l IH]; intros pre outs insc subs L b w EA HV HO HA HM.
  - exists [], w. unfold instantiate. cbn [scafs bfold map flat_map length repeat nplugs list_sum fold_right]. unfold nplugs. cbn [map list_sum fold_right repeat].
    rewrite !app_nil_r. cbn [app]. split; [reflexivity|]. split; [constructor|]. split; [rewrite (a_nrn _ _ _ _ _ _ HA); exact HA|]. split; [exact HM|].
    split; [constructor|]. split; [constructor|]. split; [exists []; rewrite app_nil_r; auto|]. split; [exists []; rewrite app_nil_r; auto|]. split; auto.
  - destruct (HV v (or_introl eq_refl)) as (s & Es & HSu & HAr).
    cbn [scafs]. rewrite Es. unfold instantiate. cbn [bfold].
    set (op := {| os_op := x_op s; os_value := x_data s; os_inps := seq (length all + length insc) (length (x_prev s)); os_outp := idx all v |}).
    match goal with |- context [bbind (instantiate_op r norm ?ps op)] =>
      destruct (inst_step w0 r L b w norm ps op HA HSu ltac:(cbn [op os_inps]; rewrite seq_length; exact HAr)) as (p & w1 & E & FN & Ep & Ew1 & HA1) end.
    cbn [op os_op os_inps os_outp] in E, FN. rewrite (bbind_ok _ _ _ _ _ E). clear E.
    assert (Hlen : length (map mkhd (pl_ins p)) = length (x_prev s)) by (rewrite map_length, (fn_ar _ _ _ FN); auto).
    assert (EN : nplugs h (v :: l) = length (x_prev s) + nplugs h l) by (unfold nplugs; cbn [map list_sum fold_right]; unfold prev_of at 1; rewrite Es; auto).
    assert (Eidx : idx all v = length outs).
    { rewrite HO, EA. apply idx_app. rewrite EA in ND. apply NoDup_remove_2 in ND. intros Hin. apply ND, in_app_iff. auto. }
    match goal with |- context [bfold _ _ ?ps] =>
      assert (EP : ps = map Some (outs ++ [mkhd (pl_out p)]) ++ repeat None (length l) ++ map Some (insc ++ map mkhd (pl_ins p)) ++ repeat None (nplugs h l)) end.
    { rewrite EN, repeat_app.
      replace (map Some outs ++ repeat None (length (v :: l)) ++ map Some insc ++ repeat None (length (x_prev s)) ++ repeat None (nplugs h l))
        with ((map Some outs ++ repeat None (length (v :: l)) ++ map Some insc) ++ repeat None (length (map mkhd (pl_ins p))) ++ repeat None (nplugs h l))
        by (rewrite Hlen, <- !app_assoc; reflexivity).
      replace (seq (length all + length insc) (length (x_prev s))) with (seq (length (map Some outs ++ repeat None (length (v :: l)) ++ map Some insc)) (length (map mkhd (pl_ins p)))).
      2: { rewrite Hlen. f_equal. rewrite !app_length, !map_length, repeat_length, EA, app_length. lia. }
      rewrite set_plugs_block. cbn [length repeat]. rewrite <- !app_assoc. cbn [app]. rewrite Eidx.
      replace (length outs) with (length (map (@Some header) outs)) by apply map_length. rewrite lset_app.
      rewrite !map_app. cbn [map]. rewrite <- !app_assoc. reflexivity. }
    rewrite EP. clear EP.
    assert (HM1 : nth_error (w_mods w1) r = Some {| m_name := nm; m_neurons := []; m_subs := subs ++ [pl_md p] |}).
    { rewrite Ew1. cbn [w_addsub w_mods]. rewrite upd_nth, Nat.eqb_refl.
      rewrite (b_old _ _ _ _ (fn_built _ _ _ FN)); [rewrite Ep, HM; reflexivity|].
      rewrite (b_mod _ _ _ _ (fn_built _ _ _ FN)), Ep. apply (a_len _ _ _ _ _ _ HA). }
    destruct (IH (pre ++ [v]) (outs ++ [mkhd (pl_out p)]) (insc ++ map mkhd (pl_ins p)) (subs ++ [pl_md p]) (L ++ pl_own p) (length (w_neurons (pl_w1 p))) w1) as
      (pls & w' & E & F2 & HA' & HM' & FK & FO & K1 & K2 & K3 & K4); auto.
    { rewrite <- app_assoc. exact EA. }
    { intros v' Hv'. apply HV. right; auto. }
    { rewrite !app_length, HO. reflexivity. }
    exists (p :: pls), w'. unfold instantiate in E. rewrite app_length, Hlen in E. rewrite Nat.add_assoc in E. rewrite E.
    pose proof (fn_built _ _ _ FN) as HB. pose proof (x_len _ _ (b_ext _ _ _ _ HB)) as XL.
    assert (Kw : length (w_mods w1) = length (w_mods (pl_w1 p))) by (rewrite Ew1; cbn; apply upd_len).
    assert (Kp : kept r p w').
    { constructor.
      - destruct K1 as [x K1]. exists x. rewrite K1, Ew1. reflexivity.
      - destruct K2 as [x K2]. exists x. rewrite K2, Ew1. reflexivity.
      - intros j Hj. rewrite K3 by (rewrite Kw; lia). rewrite Ew1. cbn [w_addsub w_mods]. rewrite upd_nth. destruct (Nat.eqb_spec j r); [lia|auto]. }
    split; [|split; [|split; [|split; [|split; [|split; [|split; [|split; [|split]]]]]]]].
    + cbn [map flat_map]. rewrite <- !app_assoc. reflexivity.
    + constructor; eauto.
    + cbn [flat_map]. rewrite app_assoc. exact HA'.
    + rewrite HM'. cbn [map]. rewrite <- app_assoc. reflexivity.
    + constructor.
      * rewrite Ep, (a_nrn _ _ _ _ _ _ HA). auto.
      * eapply Forall_impl; [|exact FK]. intros q [Q1 Q2]. split; auto. 
        pose proof (ext_nlen _ _ (b_ext _ _ _ _ HB)) as Q. rewrite Ep, (a_nrn _ _ _ _ _ _ HA) in Q. lia.
    + constructor; auto. eapply Forall_impl; [|exact FK]. intros q [Q1 _]. exact Q1.
    + destruct K1 as [x K1]. destruct (x_nrn _ _ (b_ext _ _ _ _ HB)) as [y Y]. exists (y ++ x). rewrite K1, Ew1. cbn [w_addsub w_neurons]. rewrite Y, Ep, app_assoc. auto.
    + destruct K2 as [x K2]. destruct (x_syn _ _ (b_ext _ _ _ _ HB)) as [y Y]. exists (y ++ x). rewrite K2, Ew1. cbn [w_addsub w_syns]. rewrite Y, Ep, app_assoc. auto.
    + rewrite Ep in XL. pose proof (b_mod _ _ _ _ HB) as Bm. rewrite Ep in Bm. intros j Hj. rewrite K3 by lia. rewrite Ew1. cbn [w_addsub w_mods]. rewrite upd_nth. destruct (Nat.eqb_spec j r); [lia|].
      rewrite (b_old _ _ _ _ HB) by lia. rewrite Ep. auto.
    + rewrite Ep in XL. lia.
Qed.

(** ** wire_modules *)
Lemma vsyn_eq a b : syn (T := R) a b SynV we cTsyn = vsyn a b.
Proof. unfold syn, vsyn. f_equal; cbn; lra. Qed.
Lemma wire_conn_ok w0 r L b (w : world R) ps c pre post : at_ w0 r L b [] w ->
  plug_header ps (fst c) = Some (mkhd pre) -> plug_header ps (snd c) = Some (mkhd post) ->
  fst pre < b -> snd pre < b -> fst post < b -> snd post < b ->
  exists w', wire_conn ps tt c w = Ok (tt, w') /\ at_ w0 r (L ++ wire pre post) b [] w' /\
    w_neurons w' = w_neurons w /\ w_mods w' = w_mods w /\ w_syns w' = w_syns w ++ wire pre post.
Proof.
  intros HA E1 E2 A1 A2 B1 B2. unfold wire_conn. rewrite E1, E2. cbn [mkhd h_plus h_minus].
  destruct (go_conn _ _ _ _ _ _ (fst pre) (fst post) SynV we cTsyn (fun _ => connect (snd pre) (snd post) SynV we cTsyn) HA) as (w1 & F1 & HA1); [auto|auto|discriminate|].
  destruct (go_conn _ _ _ _ _ _ (snd pre) (snd post) SynV we cTsyn (fun _ => bret tt) HA1) as (w2 & F2 & HA2); [auto|auto|discriminate|].
  rewrite bbind_connect. exists (w_conn (w_conn w (vsyn (fst pre) (fst post))) (vsyn (snd pre) (snd post))).
  split; [rewrite <- !vsyn_eq; reflexivity|].
  rewrite bbind_connect in F1. unfold connect in F1. 
  rewrite bbind_connect, !bret_eq in F2. injection F2 as <-. injection F1 as F1a F1b F1c.
  assert (Ew : w1 = w_conn w (vsyn (fst pre) (fst post))).
  { destruct w1 as [n1 m1 s1]. unfold w_conn in *. cbn [w_neurons w_mods w_syns] in *. subst n1 m1. f_equal. rewrite <- vsyn_eq.
    apply app_inj_tail in F1c as [<- _]. reflexivity. }
  subst w1. rewrite !vsyn_eq, <- app_assoc in HA2. cbn [app] in HA2.
  split; [exact HA2|]. cbn [w_conn w_neurons w_mods w_syns]. split; [reflexivity|]. split; [reflexivity|]. rewrite <- app_assoc. reflexivity.
Qed.
Definition all_lt (b : nat) (p : nat * nat) : Prop := fst p < b /\ snd p < b.
Definition wire_list (pl : nat -> placed) (prevs : list nat) (ins : list (nat * nat)) : list (synapse R) :=
  flat_map (fun pi => wire (pl_out (pl (fst pi))) (snd pi)) (combine prevs ins).
Record wired (w0 : world R) (r : nat) (L : list (synapse R)) (b : nat) (w w' : world R) (W : list (synapse R)) : Prop := {
  wd_at : at_ w0 r (L ++ W) b [] w';
  wd_n : w_neurons w' = w_neurons w;
  wd_m : w_mods w' = w_mods w;
  wd_s : w_syns w' = w_syns w ++ W
}.
Lemma bfold_app {A C} (f : A -> C -> B R A) l1 l2 : forall a w a' w', bfold f l1 a w = Ok (a', w') -> bfold f (l1 ++ l2) a w = bfold f l2 a' w'.
Proof.
  induction l1 as [|x l1 IH]; intros a w a' w' E; cbn [bfold app] in *.
  - injection E as <- <-. auto.
  - unfold bbind in *. destruct (f a x w) as [[a1 w1]|]; [|discriminate]. apply IH; auto.
Qed.
Lemma wire_node all pl ps b (w0 : world R) r : forall ins prevs X Y L (w : world R),
  ps = X ++ map (fun i => Some (mkhd i)) ins ++ Y -> length ins = length prevs ->
  (forall p, In p prevs -> plug_header ps (idx all p) = Some (mkhd (pl_out (pl p))) /\ all_lt b (pl_out (pl p))) ->
  (forall i, In i ins -> all_lt b i) -> at_ w0 r L b [] w ->
  exists w', bfold (wire_conn ps) (combine (map (idx all) prevs) (seq (length X) (length prevs))) tt w = Ok (tt, w') /\
    wired w0 r L b w w' (wire_list pl prevs ins).
Proof.
  induction ins as [|i ins IH]; intros prevs X Y L w EP EL HP HI HA.
  - destruct prevs; [|discriminate]. exists w. split; [reflexivity|]. cbn. constructor; rewrite ?app_nil_r; auto.
  - destruct prevs as [|p prevs]; [discriminate|]. cbn [map length seq combine bfold].
    destruct (HP p (or_introl eq_refl)) as [E1 [B1 B2]]. destruct (HI i (or_introl eq_refl)) as [B3 B4].
    assert (E2 : plug_header ps (length X) = Some (mkhd i)).
    { unfold plug_header. rewrite EP, nth_error_app2, Nat.sub_diag by lia. reflexivity. }
    destruct (wire_conn_ok w0 r L b w ps (idx all p, length X) (pl_out (pl p)) i HA E1 E2 B1 B2 B3 B4) as (w1 & F & HA1 & N1 & M1 & S1).
    rewrite (bbind_ok _ _ _ _ _ F).
    destruct (IH prevs (X ++ [Some (mkhd i)]) Y (L ++ wire (pl_out (pl p)) i) w1) as (w2 & F2 & [W1 W2 W3 W4]); auto.
    { rewrite EP, <- app_assoc. reflexivity. }
    { intros q Hq. apply HP. right; auto. }
    { intros q Hq. apply HI. right; auto. }
    exists w2. rewrite app_length in F2. cbn [length] in F2. rewrite Nat.add_1_r in F2. split; [exact F2|].
    unfold wire_list in *. cbn [combine flat_map fst snd]. constructor.
    + rewrite app_assoc. auto.
    + congruence.
    + congruence.
    + rewrite W4, S1, app_assoc. auto.
Qed.
Lemma wire_all h all pl ps b (w0 : world R) r : forall l X Y L (w : world R),
  ps = X ++ flat_map (fun v => map (fun i => Some (mkhd i)) (pl_ins (pl v))) l ++ Y ->
  (forall v, In v l -> length (pl_ins (pl v)) = length (prev_of h v) /\ (forall i, In i (pl_ins (pl v)) -> all_lt b i) /\
     forall p, In p (prev_of h v) -> plug_header ps (idx all p) = Some (mkhd (pl_out (pl p))) /\ all_lt b (pl_out (pl p))) ->
  at_ w0 r L b [] w ->
  exists w', bfold (wire_conn ps) (conns_of h all (length X) l) tt w = Ok (tt, w') /\
    wired w0 r L b w w' (flat_map (fun v => wire_list pl (prev_of h v) (pl_ins (pl v))) l).
Proof.
  induction l as [|v l IH]; intros X Y L w EP HV HA; cbn [conns_of flat_map] in *.
  - exists w. split; [reflexivity|]. constructor; rewrite ?app_nil_r; auto.
  - destruct (HV v (or_introl eq_refl)) as (H1 & H2 & H3).
    destruct (wire_node all pl ps b w0 r (pl_ins (pl v)) (prev_of h v) X (flat_map (fun v => map (fun i => Some (mkhd i)) (pl_ins (pl v))) l ++ Y) L w) as (w1 & F1 & [A1 A2 A3 A4]); auto.
    { rewrite EP, <- app_assoc. reflexivity. }
    rewrite (bfold_app _ _ _ _ _ _ _ F1).
    destruct (IH (X ++ map (fun i => Some (mkhd i)) (pl_ins (pl v))) Y (L ++ wire_list pl (prev_of h v) (pl_ins (pl v))) w1) as (w2 & F2 & [B1 B2 B3 B4]); auto.
    { rewrite EP, <- !app_assoc. reflexivity. }
    { intros q Hq. apply HV. right; auto. }
    exists w2. rewrite app_length, map_length, H1 in F2. split; [exact F2|]. constructor.
    + rewrite app_assoc. auto.
    + congruence.
    + congruence.
    + rewrite B4, A4, app_assoc. auto.
Qed.

(** ** get_input_triggers *)
Lemma le1 (v norm : R) : (0 < norm)%R -> (v / norm <= 1 <-> v <= norm)%R.
Proof.
  intros Hn. assert (E : (v = v / norm * norm)%R) by (field; lra). split; intros Hv.
  - rewrite E. nra.
  - apply Rmult_le_reg_r with norm; [auto|]. lra.
Qed.
Lemma InputTrigger_ok (v norm : R) hd : (0 < norm <= 100)%R -> (v <= norm)%R ->
  InputTrigger v norm (mkhd hd) = Ok (if Rle_dec 0 v then fst hd else snd hd, (Rabs v / norm)%R).
Proof.
  intros Hn Hv. unfold InputTrigger, pdiv, nzero, ngeb. cbn.
  rewrite (proj2 (Reqb_false norm 0)) by lra. cbn [rbind].
  rewrite (proj2 (Rleb_true (v / norm) 1)) by (apply le1; lra). rewrite (proj2 (Rleb_true norm 100)) by lra. cbn [negb rbind].
  unfold Rleb. destruct (Rle_dec 0 v); reflexivity.
Qed.
Lemma InputTrigger_err (v norm : R) hd : (0 < norm <= 100)%R -> (norm < v)%R -> InputTrigger v norm hd = Err EAssert.
Proof.
  intros Hn Hv. unfold InputTrigger, pdiv, nzero, ngeb. cbn.
  rewrite (proj2 (Reqb_false norm 0)) by lra. cbn [rbind].
  rewrite (proj2 (Rleb_false (v / norm) 1)); [reflexivity|]. apply Rnot_le_lt. rewrite le1; lra.
Qed.
Lemma trig_loop h all pl ps norm : (0 < norm <= 100)%R -> forall l k acc,
  (forall v, In v l -> exists s, nth_error h v = Some s /\ plug_header ps (idx all v) = Some (mkhd (pl_out (pl v))) /\ (x_op s = OLoad -> (x_data s <= norm)%R)) ->
  rfold (get_trigger ps norm) (scafs h all k l) acc = Ok (acc ++ flat_map (trigger_for h norm pl) l).
Proof.
  intros Hn. induction l as [|v l IH]; intros k acc HV; cbn [scafs flat_map]; [cbn; rewrite app_nil_r; auto|].
  destruct (HV v (or_introl eq_refl)) as (s & Es & Ep & Hd). rewrite Es. cbn [rfold].
  assert (E : get_trigger ps norm acc {| os_op := x_op s; os_value := x_data s; os_inps := seq k (length (x_prev s)); os_outp := idx all v |} =
              Ok (acc ++ trigger_for h norm pl v)).
  { unfold get_trigger, trigger_for. cbn [os_op os_outp os_value]. rewrite Ep, Es. destruct (x_op s); rewrite ?app_nil_r; auto.
    rewrite InputTrigger_ok by auto. reflexivity. }
  rewrite E. cbn [rbind]. rewrite IH by (intros; apply HV; right; auto). rewrite app_assoc. auto.
Qed.
Lemma trig_loop_err h all pl ps norm v0 s0 : (0 < norm <= 100)%R -> nth_error h v0 = Some s0 -> x_op s0 = OLoad -> (norm < x_data s0)%R -> forall l k acc,
  In v0 l ->
  (forall v, In v l -> exists s, nth_error h v = Some s /\ plug_header ps (idx all v) = Some (mkhd (pl_out (pl v)))) ->
  rfold (get_trigger ps norm) (scafs h all k l) acc = Err EAssert.
Proof.
  intros Hn E0 O0 D0. induction l as [|v l IH]; intros k acc Hin HV; [destruct Hin|]. cbn [scafs].
  destruct (HV v (or_introl eq_refl)) as (s & Es & Ep). rewrite Es. cbn [rfold]. unfold get_trigger at 1. cbn [os_op os_outp os_value]. rewrite Ep.
  destruct Hin as [->|Hin].
  - rewrite E0 in Es. injection Es as <-. rewrite O0, InputTrigger_err by auto. reflexivity.
  - destruct (x_op s) eqn:Eo; cbn [rbind]; try (apply IH; auto; intros; apply HV; right; auto).
    destruct (Rle_dec (x_data s) norm).
    + rewrite InputTrigger_ok by auto. cbn [rbind]. apply IH; auto. intros; apply HV; right; auto.
    + rewrite InputTrigger_err by (auto; lra). reflexivity.
Qed.

(** ** compile_computation *)
(** The specification of a compilation result. *)
Definition compiled (h : list (scalar R)) (root : nat) (norm : R) (w : world R) (p : plan R) (w' : world R) : Prop :=
  exists (nodes : list nat) (pl : nat -> placed),
    NoDup nodes /\ (forall v, In v nodes <-> reaches h root v) /\
    (* one network of the right kind per node, all of them kept to the end *)
    (forall v, In v nodes -> placed_ok h norm v (pl v) /\ kept (p_net p) (pl v) w' /\ length (w_neurons w) <= length (w_neurons (pl_w0 (pl v)))) /\
    (* different nodes share no neuron *)
    (forall u v n, In u nodes -> In v nodes -> u <> v ->
       length (w_neurons (pl_w0 (pl u))) <= n < length (w_neurons (pl_w1 (pl u))) ->
       ~ length (w_neurons (pl_w0 (pl v))) <= n < length (w_neurons (pl_w1 (pl v)))) /\
    (* the enclosing module consists of exactly these modules *)
    nth_error (w_mods w') (p_net p) = Some {| m_name := Some "enclosing_module"%string; m_neurons := []; m_subs := map (fun v => pl_md (pl v)) nodes |} /\
    (* the synapses made are those of the modules and the wires *)
    w_syns w' = w_syns w ++ flat_map (fun v => pl_own (pl v)) nodes ++ flat_map (wires_of h pl) nodes /\
    p_triggers p = flat_map (trigger_for h norm pl) nodes /\
    p_reader p = {| rd_plus := fst (pl_out (pl root)); rd_minus := snd (pl_out (pl root)); rd_norm := norm |}.

Lemma map_idx_nth {A} (d : A) nodes : NoDup nodes -> forall l, length l = length nodes -> map (fun v => nth (idx nodes v) l d) nodes = l.
Proof.
  intros ND l EL. apply nth_ext with (d := d) (d' := d).
  - rewrite map_length. auto.
  - intros n Hn. rewrite map_length in Hn.
    rewrite (nth_indep _ d (nth (idx nodes 0) l d)) by (rewrite map_length; auto).
    rewrite (map_nth (fun v => nth (idx nodes v) l d)). f_equal.
    assert (Hin : In (nth n nodes 0) nodes) by (apply nth_In; auto).
    destruct (idx_nth _ _ Hin) as [_ E]. apply (proj1 (NoDup_nth_error nodes) ND).
    + apply idx_lt; auto.
    + rewrite E. symmetry. apply nth_error_nth'. auto.
Qed.
Lemma supported_arity (h : list (scalar R)) v s : heap_wf h -> nth_error h v = Some s -> length (x_prev s) = arity (x_op s) \/ x_op s = ODiv.
Proof.
  intros W E. specialize (W v s E). unfold node_ok in W. destruct (x_op s) eqn:Eo; cbn [arity].
  - rewrite W. auto.
  - destruct W as (a & b & da & db & -> & _). auto.
  - destruct W as (a & b & da & db & -> & _). auto.
  - destruct W.
  - destruct W as (a & da & -> & _). auto.
  - auto.
Qed.
Lemma Forall2_nth_l {A B} (P : A -> B -> Prop) l l' i x d : Forall2 P l l' -> nth_error l i = Some x -> P x (nth i l' d).
Proof. intros F. revert i. induction F; intros [|i] E; cbn in *; try discriminate; [injection E as <-; auto|eauto]. Qed.
Lemma reaches_trans (h : list (scalar R)) a b c : reaches h a b -> reaches h b c -> reaches h a c.
Proof. induction 1; auto. intros. econstructor 2; eauto. Qed.
Lemma flat_map_map {A B C} (f : B -> list C) (g : A -> B) l : flat_map f (map g l) = flat_map (fun x => f (g x)) l.
Proof. induction l; cbn; [auto|rewrite IHl; auto]. Qed.
Lemma map_flat_map {A B C} (f : B -> C) (g : A -> list B) l : map f (flat_map g l) = flat_map (fun x => map f (g x)) l.
Proof. induction l; cbn; [auto|rewrite map_app, IHl; auto]. Qed.

(** everything up to the triggers *)
Lemma compile_front (h : list (scalar R)) root norm (w : world R) : heap_wf h -> root < length h -> inv w ->
  (forall v s, reaches h root v -> nth_error h v = Some s -> supported (x_op s)) ->
  let r := length (w_mods w) in
  exists nodes pl ps w1 wi wf,
    trace h root = Ok nodes /\ NoDup (fst nodes) /\ (forall v, In v (fst nodes) <-> reaches h root v) /\
    flatten h root = Ok (scafs h (fst nodes) (length (fst nodes)) (fst nodes), conns_of h (fst nodes) (length (fst nodes)) (fst nodes), idx (fst nodes) root, length (fst nodes) + nplugs h (fst nodes)) /\
    (forall A (f : nat -> B R A), bbind (new_module (Some "enclosing_module"%string)) f w = f r w1) /\
    instantiate r norm (scafs h (fst nodes) (length (fst nodes)) (fst nodes)) (repeat None (length (fst nodes) + nplugs h (fst nodes))) w1 = Ok (ps, wi) /\
    wire_modules ps (conns_of h (fst nodes) (length (fst nodes)) (fst nodes)) wi = Ok (tt, wf) /\
    (forall v, In v (fst nodes) -> plug_header ps (idx (fst nodes) v) = Some (mkhd (pl_out (pl v)))) /\
    (forall v, In v (fst nodes) -> placed_ok h norm v (pl v) /\ kept r (pl v) wf /\ length (w_neurons w) <= length (w_neurons (pl_w0 (pl v)))) /\
    (forall u v n, In u (fst nodes) -> In v (fst nodes) -> u <> v ->
       length (w_neurons (pl_w0 (pl u))) <= n < length (w_neurons (pl_w1 (pl u))) ->
       ~ length (w_neurons (pl_w0 (pl v))) <= n < length (w_neurons (pl_w1 (pl v)))) /\
    nth_error (w_mods wf) r = Some {| m_name := Some "enclosing_module"%string; m_neurons := []; m_subs := map (fun v => pl_md (pl v)) (fst nodes) |} /\
    built w wf r (flat_map (fun v => pl_own (pl v)) (fst nodes) ++ flat_map (wires_of h pl) (fst nodes)).
Proof.
  intros W Hr I HS r.
  destruct (trace_spec h root (wf_acyclic h W) Hr) as (ns & es & T1 & T2 & T3 & T4 & T5 & T6 & T7).
  assert (HN : forall v, In v ns -> exists s, nth_error h v = Some s /\ supported (x_op s) /\ length (x_prev s) = arity (x_op s) /\ (forall n, In n (x_prev s) -> In n ns)).
  { intros v Hv. pose proof (T7 v Hv) as Hl. destruct (nth_error h v) as [s|] eqn:Es; [|apply nth_error_None in Es; lia].
    assert (Hsu : supported (x_op s)) by (eapply HS; eauto; apply T4; auto).
    exists s. split; auto. split; auto. split.
    - destruct (supported_arity h v s W Es) as [?|Ed]; auto. rewrite Ed in Hsu. destruct Hsu as [?|[?|[?|?]]]; discriminate.
    - intros n Hn. apply T4. apply reaches_trans with v; [apply T4; auto|]. econstructor 2; [|constructor]. exists s. auto. }
  assert (Hroot : In root ns) by (apply T4; constructor).
  pose proof (flatten_spec h root ns es T1 Hroot) as EF.
  assert (HNc : forall v, In v ns -> exists s, nth_error h v = Some s /\ forall n, In n (x_prev s) -> In n ns).
  { intros v Hv. destruct (HN v Hv) as (s & A & _ & _ & B). eauto. }
  specialize (EF HNc). clear HNc.
  destruct (go_new w (Some "enclosing_module"%string) (fun n => bret n) I) as (w1 & E1 & HA1). fold r in E1, HA1.
  rewrite bbind_newmod, !bret_eq in E1. injection E1 as E1.
  destruct (inst_loop h ns norm w r (Some "enclosing_module"%string) T2 ns [] [] [] [] [] (length (w_neurons w)) w1) as
    (pls & wi & F1 & F2 & HAi & HMi & FK & FO & K1 & K2 & K3 & K4); auto.
  { intros v Hv. destruct (HN v Hv) as (s & A & B & C & _). eauto. }
  { rewrite <- E1. cbn. rewrite nth_error_app2, Nat.sub_diag by auto. reflexivity. }
  cbn [map app length] in F1, HMi, HAi. rewrite Nat.add_0_r, <- repeat_app in F1.
  set (dp := {| pl_w0 := w; pl_w1 := w; pl_md := 0; pl_ins := []; pl_out := (0, 0); pl_own := [] |}).
  set (pl := fun v => nth (idx ns v) pls dp).
  assert (LP : length pls = length ns) by (clear -F2; induction F2; cbn; auto).
  assert (EM : map pl ns = pls) by (apply map_idx_nth; auto).
  assert (HP : forall v, In v ns -> exists s, nth_error h v = Some s /\ fresh_node (x_op s) norm (pl v)).
  { intros v Hv. destruct (idx_nth v ns Hv) as [_ En]. apply (Forall2_nth_l _ _ _ _ _ dp F2 En). }
  assert (HIn : forall v, In v ns -> In (pl v) pls) by (intros v Hv; rewrite <- EM; apply in_map; auto).
  rewrite <- EM in F1, HAi, HMi. rewrite !map_map in F1. rewrite map_map in HMi. rewrite flat_map_map in HAi. rewrite flat_map_map in F1.
  match type of F1 with _ = Ok (?p, _) => set (ps := p) in F1 end.
  assert (HPS : forall v, In v ns -> plug_header ps (idx ns v) = Some (mkhd (pl_out (pl v)))).
  { intros v Hv. unfold plug_header, ps. destruct (idx_nth v ns Hv) as [_ En]. pose proof (idx_lt v ns Hv).
    rewrite nth_error_app1 by (rewrite !map_length; auto).
    rewrite !nth_error_map, En. reflexivity. }
  assert (HKl : forall v, In v ns -> length (w_neurons (pl_w1 (pl v))) <= length (w_neurons wi)).
  { intros v Hv. rewrite Forall_forall in FK. destruct (FK _ (HIn v Hv)) as [_ Hk]. destruct (kp_nrn _ _ _ Hk) as [x ->]. rewrite app_length. lia. }
  destruct (wire_all h ns pl ps (length (w_neurons wi)) w r ns (map Some (map (fun v => mkhd (pl_out (pl v))) ns)) [] (flat_map (fun v => pl_own (pl v)) ns) wi) as (wf & G1 & [G2 G3 G4 G5]); [| |exact HAi|].
  { unfold ps. rewrite app_nil_r. rewrite map_map. f_equal. rewrite map_flat_map. apply flat_map_ext. intros v. rewrite map_map. reflexivity. }
  { intros v Hv. destruct (HP v Hv) as (s & Es & FN). pose proof (HKl v Hv).
    destruct (HN v Hv) as (s' & Es' & _ & Ar & Cl). rewrite Es in Es'. injection Es' as <-.
    unfold prev_of. rewrite Es. split; [rewrite (fn_ar _ _ _ FN); auto|]. split.
    - intros i Hi. destruct (fn_ins _ _ _ FN i Hi). split; lia.
    - intros q Hq. split; [apply HPS, Cl, Hq|]. destruct (HP q (Cl q Hq)) as (s' & _ & FN'). pose proof (HKl q (Cl q Hq)).
      destruct (fn_out _ _ _ FN'). split; lia. }
  rewrite !map_length in G1.
  assert (EW : flat_map (fun v => wire_list pl (prev_of h v) (pl_ins (pl v))) ns = flat_map (wires_of h pl) ns).
  { apply flat_map_ext. intros v. unfold wires_of, wire_list, prev_of. destruct (nth_error h v); auto. }
  rewrite EW in G2, G5.
  exists (ns, es), pl, ps, w1, wi, wf. cbn [fst].
  split; [exact T1|]. split; [exact T2|]. split; [exact T4|]. split; [exact EF|].
  split; [intros A f; rewrite bbind_newmod, E1; reflexivity|]. split; [exact F1|]. split; [exact G1|]. split; [exact HPS|].
  assert (Hn1 : length (w_neurons w1) = length (w_neurons w)) by (rewrite <- E1; reflexivity).
  split; [|split; [|split]].
  - intros v Hv. destruct (HP v Hv) as (s & Es & FN). rewrite Forall_forall in FK. destruct (FK _ (HIn v Hv)) as [Hk1 Hk2].
    destruct (HN v Hv) as (s' & Es' & _ & Ar & Cl). rewrite Es in Es'. injection Es' as <-.
    split; [|split; [|exact Hk1]].
    + exists s. split; auto. split; [apply (fn_net _ _ _ FN)|]. split; [rewrite (fn_ar _ _ _ FN); auto|]. split; [apply (fn_built _ _ _ FN)|]. split; [apply (fn_inv _ _ _ FN)|].
      cbv zeta. destruct (fn_out _ _ _ FN). split; auto. split; auto. split; [apply (fn_ins _ _ _ FN)|].
      intros y Hy. pose proof (fn_own _ _ _ FN) as FO'. rewrite Forall_forall in FO'. apply (FO' y Hy).
    + destruct Hk2 as [[x X] [y Y] Z]. constructor.
      * exists x. rewrite G3. auto.
      * eexists. rewrite G5, Y, <- app_assoc. reflexivity.
      * intros j Hj. rewrite G4. auto.
  - assert (HD : forall u v, In u ns -> In v ns -> u <> v -> before (pl u) (pl v) \/ before (pl v) (pl u)).
    { intros u v Hu Hv Hne. rewrite <- EM in FO. clearbody pl. clear -FO Hu Hv Hne.
      induction ns as [|x ns IH]; [destruct Hu|]. cbn [map] in FO. inversion FO as [|? ? F1 F2 E]; subst. rewrite Forall_forall in F1.
      destruct Hu as [->|Hu], Hv as [->|Hv]; [congruence| | |].
      - left. apply F1, in_map; auto.
      - right. apply F1, in_map; auto.
      - apply IH; auto. }
    intros u v n Hu Hv Hne Hn. destruct (HD u v Hu Hv Hne) as [Hb|Hb]; unfold before in Hb; lia.
  - rewrite G4. exact HMi.
  - apply (go_end _ _ _ _ _ G2).
Qed.

Lemma reach_load (h : list (scalar R)) : heap_wf h -> forall root, root < length h -> (forall v s, reaches h root v -> nth_error h v = Some s -> supported (x_op s)) ->
  exists v s, reaches h root v /\ nth_error h v = Some s /\ x_op s = OLoad.
Proof.
  intros W root. induction root as [root IH] using lt_wf_ind. intros Hr HS.
  destruct (nth_error h root) as [s|] eqn:Es; [|apply nth_error_None in Es; lia].
  assert (Hsu := HS root s (r_refl h root) Es). pose proof (W root s Es) as N. unfold node_ok in N.
  assert (HX : x_op s = OLoad \/ exists a, In a (x_prev s) /\ a < root).
  { destruct (x_op s); auto; right.
    - destruct N as (a & b & da & db & -> & Ha & _). exists a. cbn; auto.
    - destruct N as (a & b & da & db & -> & Ha & _). exists a. cbn; auto.
    - destruct N.
    - destruct N as (a & da & -> & Ha & _). exists a. cbn; auto.
    - destruct N as (a & b & da & db & -> & Ha & _). exists a. cbn; auto. }
  destruct HX as [HL|(a & Hin & Ha)]; [exists root, s; split; [constructor|auto]|].
  assert (Hop : operand_of h a root) by (exists s; auto).
  destruct (IH a Ha ltac:(lia)) as (v & s' & A & B & C).
  - intros v s' Hv E. apply (HS v s'); auto. econstructor 2; eauto.
  - exists v, s'. split; auto. econstructor 2; eauto.
Qed.
Lemma w_syns_built (w w' : world R) m L : built w w' m L -> w_syns w' = w_syns w ++ L. Proof. intros [? ? ? ? ? E ?]. exact E. Qed.

Lemma norm_ok (norm : R) : (norm <= 100)%R -> nleb norm (nofZ 100) = true. Proof. intros; apply Rleb_true; auto. Qed.
Lemma norm_bad (norm : R) : (100 < norm)%R -> nleb norm (nofZ 100) = false. Proof. intros; apply Rleb_false; auto. Qed.
(** success *)
Theorem compile_ok (h : list (scalar R)) root norm (w : world R) : heap_wf h -> root < length h -> inv w -> (0 < norm <= 100)%R ->
  (forall v s, reaches h root v -> nth_error h v = Some s -> supported (x_op s) /\ (x_op s = OLoad -> (x_data s <= norm)%R)) ->
  exists p w', compile_computation h root norm w = Ok (p, w') /\ compiled h root norm w p w' /\
    (exists L, built w w' (p_net p) L) /\ (forall t, In t (p_triggers p) -> exists v s, reaches h root v /\ nth_error h v = Some s /\ x_op s = OLoad /\ snd t = (Rabs (x_data s) / norm)%R) /\
    (forall v s, reaches h root v -> nth_error h v = Some s -> x_op s = OLoad -> exists t, In t (p_triggers p) /\ snd t = (Rabs (x_data s) / norm)%R).
Proof.
  intros W Hr I Hn HS.
  destruct (compile_front h root norm w W Hr I (fun v s A B => proj1 (HS v s A B))) as
    (nodes & pl & ps & w1 & wi & wf & T1 & T2 & T4 & EF & EN & EI & EW & HPS & HP & HD & HM & HB).
  assert (ET : get_input_triggers ps norm (scafs h (fst nodes) (length (fst nodes)) (fst nodes)) = Ok (flat_map (trigger_for h norm pl) (fst nodes))).
  { unfold get_input_triggers. rewrite (trig_loop h (fst nodes) pl ps norm Hn); [reflexivity|].
    intros v Hv. destruct (HP v Hv) as ((s & Es & _) & _). exists s. split; auto. split; auto. apply (HS v s); auto. apply T4; auto. }
  destruct (reach_load h W root Hr (fun v s A B => proj1 (HS v s A B))) as (vl & sl & L1 & L2 & L3).
  assert (HIT : forall v s, reaches h root v -> nth_error h v = Some s -> x_op s = OLoad ->
     exists t, In t (flat_map (trigger_for h norm pl) (fst nodes)) /\ snd t = (Rabs (x_data s) / norm)%R).
  { intros v s A B C. eexists. split; [apply in_flat_map; exists v; split; [apply T4; auto|]; unfold trigger_for; rewrite B, C; left; reflexivity|]. reflexivity. }
  assert (HL : length (flat_map (trigger_for h norm pl) (fst nodes)) =? 0 = false).
  { destruct (HIT vl sl L1 L2 L3) as (t & Ht & _). destruct (flat_map (trigger_for h norm pl) (fst nodes)); [destruct Ht|reflexivity]. }
  exists {| p_net := length (w_mods w); p_triggers := flat_map (trigger_for h norm pl) (fst nodes);
            p_reader := {| rd_plus := fst (pl_out (pl root)); rd_minus := snd (pl_out (pl root)); rd_norm := norm |} |}, wf.
  split; [|split; [|split; [|split]]].
  - unfold compile_computation. rewrite (norm_ok norm) by lra. cbn [negb].
    rewrite (bres_ok _ _ _ _ EF). rewrite EN. rewrite (bbind_ok _ _ _ _ _ EI). rewrite (bbind_ok _ _ _ _ _ EW).
    rewrite (bres_ok _ _ _ _ ET). rewrite HPS by (apply T4; constructor). rewrite HL. reflexivity.
  - exists (fst nodes), pl. cbn [p_net p_triggers p_reader]. repeat (split; [assumption|]). 
    split; [exact (w_syns_built _ _ _ _ HB)|]. split; reflexivity.
  - eexists. exact HB.
  - cbn [p_triggers]. intros t Ht. apply in_flat_map in Ht as (v & Hv & Ht). unfold trigger_for in Ht.
    destruct (nth_error h v) as [s|] eqn:Es; [|destruct Ht]. destruct (x_op s) eqn:Eo; try destruct Ht; try contradiction.
    exists v, s. split; [apply T4; auto|]. split; auto. split; auto. subst t. reflexivity.
  - exact HIT.
Qed.
(** an input above the range *)
Theorem compile_range_err (h : list (scalar R)) root norm (w : world R) v0 s0 : heap_wf h -> root < length h -> inv w -> (0 < norm <= 100)%R ->
  (forall v s, reaches h root v -> nth_error h v = Some s -> supported (x_op s)) ->
  reaches h root v0 -> nth_error h v0 = Some s0 -> x_op s0 = OLoad -> (norm < x_data s0)%R ->
  compile_computation h root norm w = Err EAssert.
Proof.
  intros W Hr I Hn HS R0 E0 O0 D0.
  destruct (compile_front h root norm w W Hr I HS) as
    (nodes & pl & ps & w1 & wi & wf & T1 & T2 & T4 & EF & EN & EI & EW & HPS & HP & HD & HM & HB).
  assert (ET : get_input_triggers ps norm (scafs h (fst nodes) (length (fst nodes)) (fst nodes)) = Err EAssert).
  { unfold get_input_triggers. apply (trig_loop_err h (fst nodes) pl ps norm v0 s0); auto; [apply T4; auto|].
    intros v Hv. destruct (HP v Hv) as ((s & Es & _) & _). exists s. auto. }
  unfold compile_computation. rewrite (norm_ok norm) by lra. cbn [negb].
  rewrite (bres_ok _ _ _ _ EF). rewrite EN. rewrite (bbind_ok _ _ _ _ _ EI). rewrite (bbind_ok _ _ _ _ _ EW).
  unfold bbind, bres. rewrite ET. reflexivity.
Qed.
(** the range parameter *)
Theorem compile_norm_err (h : list (scalar R)) root norm (w : world R) : (100 < norm)%R -> compile_computation h root norm w = Err EAssert.
Proof. intros Hn. unfold compile_computation. rewrite (norm_bad norm) by lra. reflexivity. Qed.

(** unsupported operators *)
Lemma inst_err h all norm w0 r : forall l ps k L b (w : world R), at_ w0 r L b [] w ->
  (forall v, In v l -> exists s, nth_error h v = Some s /\ (supported (x_op s) /\ length (x_prev s) = arity (x_op s) \/ x_op s = ODiv)) ->
  (exists v s, In v l /\ nth_error h v = Some s /\ x_op s = ODiv) ->
  instantiate r norm (scafs h all k l) ps w = Err EGeneric.
Proof.
  induction l as [|v l IH]; intros ps k L b w HA HV (v0 & s0 & Hin & E0 & O0); [destruct Hin|].
  destruct (HV v (or_introl eq_refl)) as (s & Es & Hop). cbn [scafs]. rewrite Es. unfold instantiate. cbn [bfold].
  destruct Hop as [[Hs Ha]|Hd].
  - set (op := {| os_op := x_op s; os_value := x_data s; os_inps := seq k (length (x_prev s)); os_outp := idx all v |}).
    destruct (inst_step w0 r L b w norm ps op HA Hs ltac:(cbn [op os_inps]; rewrite seq_length; exact Ha)) as (p & w1 & E & FN & Ep & Ew1 & HA1).
    rewrite (bbind_ok _ _ _ _ _ E). eapply IH; eauto; [intros; apply HV; right; auto|].
    destruct Hin as [->|Hin]; [|exists v0, s0; auto]. rewrite E0 in Es. injection Es as <-. rewrite O0 in Hs. destruct Hs as [?|[?|[?|?]]]; discriminate.
  - unfold bbind, instantiate_op. cbn [os_op]. rewrite Hd. reflexivity.
Qed.
Theorem compile_div_err (h : list (scalar R)) root norm (w : world R) v0 s0 : heap_wf h -> root < length h -> inv w -> (norm <= 100)%R ->
  reaches h root v0 -> nth_error h v0 = Some s0 -> x_op s0 = ODiv ->
  compile_computation h root norm w = Err EGeneric.
Proof.
  intros W Hr I Hn R0 E0 O0.
  destruct (trace_spec h root (wf_acyclic h W) Hr) as (ns & es & T1 & T2 & T3 & T4 & T5 & T6 & T7).
  assert (HN : forall v, In v ns -> exists s, nth_error h v = Some s /\ forall n, In n (x_prev s) -> In n ns).
  { intros v Hv. pose proof (T7 v Hv) as Hl. destruct (nth_error h v) as [s|] eqn:Es; [|apply nth_error_None in Es; lia].
    exists s. split; auto. intros n Hin. apply T4. apply reaches_trans with v; [apply T4; auto|]. econstructor 2; [|constructor]. exists s. auto. }
  assert (Hroot : In root ns) by (apply T4; constructor).
  pose proof (flatten_spec h root ns es T1 Hroot HN) as EF.
  unfold compile_computation. rewrite (norm_ok norm) by lra. cbn [negb].
  rewrite (bres_ok _ _ _ _ EF).
  match goal with |- bbind (new_module _) ?f w = _ => destruct (go_new w (Some "enclosing_module"%string) f I) as (w1 & E1 & HA1) end.
  rewrite E1. unfold bbind at 1. rewrite (inst_err h ns norm w _ ns _ _ _ _ _ HA1); [reflexivity| |].
  - intros v Hv. destruct (HN v Hv) as (s & Es & _). exists s. split; auto. destruct (supported_arity h v s W Es) as [Ha|Hd]; auto.
    pose proof (W v s Es) as N. unfold node_ok in N. unfold supported. destruct (x_op s); auto 10. destruct N.
  - exists v0, s0. split; auto. apply T4; auto.
Qed.

(** ** loading the plan in a simulator *)
Lemma apply_value_ok (c : cfg R) s (x : R) n : (0 <= x <= 1)%R -> exists s', apply_input_value c s x n nzero = Ok s'.
Proof.
  intros Hx. unfold apply_input_value, encode_value, ngeb. change nzero with 0%R. change (n_one (T := R)) with 1%R.
  change (nleb (T := R)) with Rleb. rewrite (proj2 (Rleb_true 0 x)), (proj2 (Rleb_true x 1)) by lra. cbn. eexists. reflexivity.
Qed.
Lemma apply_value_err (c : cfg R) s (x : R) n : (1 < x)%R -> apply_input_value c s x n nzero = Err EValue.
Proof.
  intros Hx. unfold apply_input_value. change nzero with 0%R. change (n_one (T := R)) with 1%R.
  change (nleb (T := R)) with Rleb. rewrite (proj2 (Rleb_false x 1)) by lra. rewrite andb_false_r. reflexivity.
Qed.
Lemma triggers_ok (c : cfg R) trs : Forall (fun t => 0 <= snd t <= 1)%R trs -> forall s, exists s', apply_triggers c s trs = Ok s'.
Proof.
  induction 1 as [|t trs Ht F IH]; intros s; unfold apply_triggers; cbn [rfold]; [eauto|]. destruct (apply_value_ok c s (snd t) (fst t) Ht) as [s' E]. rewrite E. cbn [rbind]. apply IH.
Qed.
Lemma triggers_err (c : cfg R) trs : Forall (fun t => 0 <= snd t)%R trs -> (exists t, In t trs /\ 1 < snd t)%R -> forall s, apply_triggers c s trs = Err EValue.
Proof.
  induction 1 as [|t trs Ht F IH]; intros (t0 & Hin & H1) s; [destruct Hin|]. unfold apply_triggers; cbn [rfold].
  destruct (Rle_dec (snd t) 1).
  - destruct (apply_value_ok c s (snd t) (fst t) ltac:(lra)) as [s' E]. rewrite E. cbn [rbind]. apply IH.
    destruct Hin as [->|Hin]; [lra|eauto].
  - rewrite apply_value_err by lra. reflexivity.
Qed.
Lemma abs_range (x norm : R) : (0 < norm)%R -> ((Rabs x / norm <= 1 <-> Rabs x <= norm) /\ 0 <= Rabs x / norm)%R.
Proof. intros Hn. split; [apply le1; auto|]. apply Rmult_le_pos; [apply Rabs_pos|]. left. apply Rinv_0_lt_compat; auto. Qed.
Lemma covers_net (w w' : world R) m L enc dt : built w w' m L -> exists c, mk_simulator w' m enc dt = Ok (c, new_sim w').
Proof.
  intros [I X Em Hl O ES EO]. destruct (covers w' m I O Hl) as (keys & Ek & _). unfold mk_simulator. rewrite Ek. cbn. eauto.
Qed.
Theorem load_ok (h : list (scalar R)) root norm (w : world R) enc dt : heap_wf h -> root < length h -> inv w -> (0 < norm <= 100)%R ->
  (forall v s, reaches h root v -> nth_error h v = Some s -> supported (x_op s) /\ (x_op s = OLoad -> (x_data s <= norm)%R)) ->
  exists p w', compile_computation h root norm w = Ok (p, w') /\
    ((forall v s, reaches h root v -> nth_error h v = Some s -> x_op s = OLoad -> (- norm <= x_data s)%R) ->
       exists cs, init_with_plan w' p enc dt = Ok cs) /\
    ((exists v s, reaches h root v /\ nth_error h v = Some s /\ x_op s = OLoad /\ (x_data s < - norm)%R) ->
       init_with_plan w' p enc dt = Err EValue).
Proof.
  intros W Hr I Hn HS. destruct (compile_ok h root norm w W Hr I Hn HS) as (p & w' & E & _ & (L & HB) & HT1 & HT2).
  exists p, w'. split; auto. destruct (covers_net _ _ _ _ enc dt HB) as (c & Ec).
  assert (HF : Forall (fun t => 0 <= snd t)%R (p_triggers p)).
  { apply Forall_forall. intros t Ht. destruct (HT1 t Ht) as (v & s & _ & _ & _ & ->). apply abs_range. lra. }
  split.
  - intros HV. unfold init_with_plan. rewrite Ec. cbn [rbind fst snd].
    destruct (triggers_ok c (p_triggers p)) with (s := new_sim w') as [s' ->]; [|eexists; reflexivity].
    apply Forall_forall. intros t Ht. rewrite Forall_forall in HF. split; [apply HF; auto|]. destruct (HT1 t Ht) as (v & s & A & B & C & ->).
    apply abs_range; [lra|]. apply Rabs_le. split; [apply (HV v s); auto|]. apply (proj2 (HS v s A B) C).
  - intros (v & s & A & B & C & D). unfold init_with_plan. rewrite Ec. cbn [rbind fst snd].
    rewrite triggers_err; auto. destruct (HT2 v s A B C) as (t & Ht & Et). exists t. split; auto. rewrite Et.
    apply Rnot_le_lt. intros Hle. apply (proj1 (abs_range _ _ (proj1 Hn))) in Hle. rewrite Rabs_left in Hle; lra.
Qed.
