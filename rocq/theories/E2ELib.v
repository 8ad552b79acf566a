(** A compiled plan in the simulator (C49): the synapses into each neuron of the module made for a
    node, the spikes injected, and the module of each kind of node. *)
From Coq Require Import Arith ZArith Bool String List Reals Lra Lia Permutation.
From Verif Require Import Num Heapq Elements Simulator Networks Scalar ScalarProofs Compiler Trace SimTrace SimProps TraceProps NeuronLib NetLib Build BuildNets Bridge MemoryProof Session SimpleNets CompilerProofs.
Import ListNotations.
Open Scope list_scope.
Open Scope nat_scope.

Lemma filter_flat_one {A B} (f : A -> list B) (P : B -> bool) v l : NoDup l -> In v l ->
  (forall u, In u l -> u <> v -> filter P (f u) = []) -> filter P (flat_map f l) = filter P (f v).
Proof.
  induction l as [|x l IH]; intros ND HI HU; [destruct HI|]. inversion ND as [|? ? Hx ND']; subst. cbn [flat_map]. rewrite filter_app.
  destruct HI as [->|HI].
  - assert (E : filter P (flat_map f l) = []); [|rewrite E, app_nil_r; auto]. clear IH ND ND'.
    assert (HU' : forall u, In u l -> filter P (f u) = []) by (intros u Hu; apply HU; [right; auto|intros ->; auto]). clear HU Hx.
    induction l as [|y l IH]; [reflexivity|]. cbn [flat_map]. rewrite filter_app, (HU' y) by (left; auto). apply IH. intros; apply HU'; right; auto.
  - rewrite HU by (auto using in_eq; intros ->; auto). apply IH; auto. intros; apply HU; auto. right; auto.
Qed.

(** injected values of a plan *)
Definition plan_stims (trs : list (nat * R)) : list stim := map (fun t => SValue (snd t) (fst t) 0%R) trs.
Lemma apply_triggers_feed (c : cfg R) trs : forall s, apply_triggers c s trs = rfold (feed c) (plan_stims trs) s.
Proof.
  induction trs as [|t trs IH]; intros s; [reflexivity|]. unfold apply_triggers in *. cbn [plan_stims map rfold feed].
  change (@nzero R R_num) with 0%R. destruct (apply_input_value c s (snd t) (fst t) 0%R); cbn [rbind]; auto.
Qed.

(** the module of each node *)
Lemma app_same {A} (l a b : list A) : l ++ a = l ++ b -> a = b. Proof. apply app_inv_head. Qed.
Record mod_load (p : placed) (i : inj_net) : Prop := {
  ml_ins : pl_ins p = []; ml_out : pl_out p = (ij_plus i, ij_minus i); ml_own : pl_own p = [];
  ml_nodes : ij_nodes i = seq (length (w_neurons (pl_w0 p))) 2; ml_len : length (w_neurons (pl_w1 p)) = length (w_neurons (pl_w0 p)) + 2 }.
Record mod_neg (p : placed) (f : flip_net) : Prop := {
  mg_ins : pl_ins p = [(sf_inp_plus f, sf_inp_minus f)]; mg_out : pl_out p = (sf_outp_plus f, sf_outp_minus f); mg_own : pl_own p = sf_syns f;
  mg_nodes : sf_nodes f = seq (length (w_neurons (pl_w0 p))) 4; mg_len : length (w_neurons (pl_w1 p)) = length (w_neurons (pl_w0 p)) + 4 }.
Record mod_add (p : placed) (a : adder_net) : Prop := {
  ma_ins : pl_ins p = [(ad_input1_plus a, ad_input1_minus a); (ad_input2_plus a, ad_input2_minus a)];
  ma_out : pl_out p = (lc_output_plus (ad_lin a), lc_output_minus (ad_lin a));
  ma_own : pl_own p = lc_syns DefaultEncoder 2 [nofZ 1; nofZ 1] (ad_lin a);
  ma_nodes : let l := ad_lin a in let b := length (w_neurons (pl_w0 p)) in
   lc_own l = seq b 10 /\ sy_sync (lc_sync_net l) = 10 + b /\ cells_at (11 + b) (sy_cells (lc_sync_net l)) /\
   length (sy_cells (lc_sync_net l)) = 2 /\ sb_nodes (lc_sub_net l) = seq (31 + b) 9 /\
   lcells_at (40 + b) (lc_cells l) /\ length (lc_cells l) = 2 /\
   lc_input_plus l = map li_p (lc_cells l) /\ lc_input_minus l = map li_m (lc_cells l) /\
   ad_input1_plus a = nth 0 (lc_input_plus l) 0 /\ ad_input1_minus a = nth 0 (lc_input_minus l) 0 /\
   ad_input2_plus a = nth 1 (lc_input_plus l) 0 /\ ad_input2_minus a = nth 1 (lc_input_minus l) 0;
  ma_len : length (w_neurons (pl_w1 p)) = length (w_neurons (pl_w0 p)) + 52 }.
Record mod_mul (norm : R) (p : placed) (m : smultn_net) : Prop := {
  mm_ins : pl_ins p = [(sn_input1_plus m, sn_input1_minus m); (sn_input2_plus m, sn_input2_minus m)];
  mm_out : pl_out p = (sn_output_plus m, sn_output_minus m);
  mm_own : pl_own p = sn_syns DefaultEncoder norm m;
  mm_nod : mu_nodes (sn_mn m) ++ sc_nodes (sn_scmn m) ++ sn_own m = seq (length (w_neurons (pl_w0 p))) 28;
  mm_len : length (w_neurons (pl_w1 p)) = length (w_neurons (pl_w0 p)) + 28 }.
Section Kinds.
Variables (h : list (scalar R)) (norm : R) (v : nat) (p : placed) (s : scalar R).
Hypothesis HP : placed_ok h norm v p.
Hypothesis Hs : nth_error h v = Some s.
Lemma placed_kind : network_for (x_op s) norm (pl_w0 p) (pl_w1 p) (pl_md p) (pl_ins p) (pl_out p) /\ inv (pl_w0 p) /\ w_syns (pl_w1 p) = w_syns (pl_w0 p) ++ pl_own p.
Proof. destruct HP as (s' & E & N & _ & A & I & _). rewrite Hs in E. injection E as <-. auto. Qed.
Ltac kind H lem := let I := fresh in let A := fresh in destruct placed_kind as (N & I & A); rewrite H in N; cbn [network_for] in N;
  let m := fresh "m" in let m' := fresh "m" in let w' := fresh "w" in let E := fresh "E" in
  destruct N as (m & E & _ & Hi & Ho); destruct (lem _ I) as (m' & w' & E' & HB & HN); rewrite E in E'; injection E' as <- <-; exists m;
  pose proof (b_syn _ _ _ _ HB) as BS; rewrite A in BS; apply app_same in BS.
Lemma kind_load : x_op s = OLoad -> exists i, mod_load p i.
Proof. intros H. kind H (Injector_built (DefaultEncoder (T := R)) (Some "injector_mod"%string)). destruct HN. constructor; auto. Qed.
Lemma kind_neg : x_op s = ONeg -> exists i, mod_neg p i.
Proof. intros H. kind H (fun w I => SignFlipper_built (DefaultEncoder (T := R)) (Some "inv_mod"%string) w I Tmax_default Tcod_default). destruct HN. constructor; auto. Qed.
Lemma kind_mul : x_op s = OMul -> exists i, mod_mul norm p i.
Proof. intros H. kind H (fun w I => SignedMultNorm_built (DefaultEncoder (T := R)) norm (Some "mul_norm_mod"%string) w I Tmax_default Tcod_default). destruct HN. constructor; auto. Qed.
Lemma kind_add : x_op s = OAdd -> exists i, mod_add p i.
Proof. intros H. kind H (fun w I => Adder_built (DefaultEncoder (T := R)) (Some "adder_mod"%string) w I Tmax_default). cbv zeta in HN. constructor; auto; cbv zeta; tauto. Qed.
End Kinds.

Section Plan.
Variables (h : list (scalar R)) (root : nat) (norm : R) (p : plan R) (w' : world R) (nodes : list nat) (pl : nat -> placed) (dt : R).
Hypothesis ND : NoDup nodes.
Hypothesis HP : forall v, In v nodes -> placed_ok h norm v (pl v).
Hypothesis Hdis : forall u v n, In u nodes -> In v nodes -> u <> v ->
       length (w_neurons (pl_w0 (pl u))) <= n < length (w_neurons (pl_w1 (pl u))) ->
       ~ length (w_neurons (pl_w0 (pl v))) <= n < length (w_neurons (pl_w1 (pl v))).
Hypothesis HS : w_syns w' = flat_map (fun v => pl_own (pl v)) nodes ++ flat_map (wires_of h pl) nodes.
Hypothesis HT : p_triggers p = flat_map (trigger_for h norm pl) nodes.
Hypothesis I' : inv w'.
Hypothesis HK : forall v, In v nodes -> length (w_neurons (pl_w1 (pl v))) <= length (w_neurons w').
Definition rngv (v n : nat) : Prop := length (w_neurons (pl_w0 (pl v))) <= n < length (w_neurons (pl_w1 (pl v))).
Definition pext : list (nat * R) := exts DefaultEncoder (plan_stims (p_triggers p)).
Definition pnet : tnet := net_of w' pext dt.

Lemma wires_post v y : In v nodes -> In y (wires_of h pl v) -> exists i, In i (pl_ins (pl v)) /\ (s_post y = fst i \/ s_post y = snd i).
Proof.
  intros Hv Hy. unfold wires_of in Hy. destruct (nth_error h v) as [s|]; [|destruct Hy]. apply in_flat_map in Hy as ([u i] & Hi & Hy).
  apply in_combine_r in Hi. exists i. split; auto. cbn [fst snd wire] in Hy. destruct Hy as [<-|[<-|[]]]; cbn; auto.
Qed.
Lemma wires_rng v y : In v nodes -> In y (wires_of h pl v) -> rngv v (s_post y).
Proof.
  intros Hv Hy. destruct (wires_post v y Hv Hy) as (i & Hi & Hp). destruct (HP v Hv) as (s & _ & _ & _ & _ & _ & R). cbv zeta in R.
  destruct R as (_ & _ & R & _). destruct (R i Hi). unfold rngv. destruct Hp as [-> | ->]; auto.
Qed.
Lemma own_rng v y : In v nodes -> In y (pl_own (pl v)) -> rngv v (s_post y).
Proof.
  intros Hv Hy. destruct (HP v Hv) as (s & _ & _ & _ & _ & _ & R). cbv zeta in R. destruct R as (_ & _ & _ & R). apply (R y Hy).
Qed.
Lemma out_rng v : In v nodes -> rngv v (fst (pl_out (pl v))) /\ rngv v (snd (pl_out (pl v))).
Proof. intros Hv. destruct (HP v Hv) as (s & _ & _ & _ & _ & _ & R). cbv zeta in R. destruct R as (A & B & _). split; assumption. Qed.
Lemma node_syn v n : In v nodes -> rngv v n ->
  in_syn pnet n = filter (fun y => s_post y =? n) (pl_own (pl v)) ++ filter (fun y => s_post y =? n) (wires_of h pl v).
Proof.
  intros Hv Hn. unfold in_syn, pnet. cbn [net_of t_syns]. rewrite HS, filter_app. f_equal.
  - apply (filter_flat_one (fun v => pl_own (pl v))); auto. intros u Hu Hne. apply filter_post_out. intros y Hy E. apply (own_rng u y Hu) in Hy. rewrite E in Hy.
    apply (Hdis v u n); auto.
  - apply (filter_flat_one (wires_of h pl)); auto. intros u Hu Hne. apply filter_post_out. intros y Hy E. apply (wires_rng u y Hu) in Hy. rewrite E in Hy.
    apply (Hdis v u n); auto.
Qed.
Definition vstims (v : nat) : list (nat * R) := exts DefaultEncoder (plan_stims (trigger_for h norm pl v)).
Lemma pext_flat : pext = flat_map vstims nodes.
Proof.
  unfold pext, vstims, plan_stims, exts. rewrite HT. clear -nodes. induction nodes as [|v l IH]; [reflexivity|]. cbn [flat_map]. rewrite map_app, flat_map_app, IH. reflexivity.
Qed.
Lemma vstims_rng v q : In v nodes -> In q (vstims v) -> rngv v (fst q).
Proof.
  intros Hv Hq. destruct (out_rng v Hv). unfold vstims, trigger_for in Hq. destruct (nth_error h v) as [s|]; [|destruct Hq].
  destruct (x_op s); unfold exts in Hq; cbn [plan_stims map flat_map stim_ext app In] in Hq; try contradiction. destruct (Rle_dec 0 (x_data s)); destruct Hq as [<-|[<-|[]]]; cbn [fst]; auto.
Qed.
Lemma node_ext v n : In v nodes -> rngv v n -> ext_of pnet n = ext_spikes (vstims v) n.
Proof.
  intros Hv Hn. change (ext_of pnet n) with (ext_spikes pext n). rewrite pext_flat. unfold ext_spikes. f_equal.
  apply (filter_flat_one vstims); auto. intros u Hu Hne. apply filter_none. intros q Hq. apply Nat.eqb_neq. intros E.
  apply (vstims_rng u q Hu) in Hq. rewrite E in Hq. apply (Hdis v u n); auto.
Qed.
Lemma node_prm v n : In v nodes -> rngv v n -> t_prm pnet n = stdp.
Proof. intros Hv [_ Hn]. cbn. apply prm_std; auto. pose proof (HK v Hv). lia. Qed.
Lemma node_noext v n s : In v nodes -> rngv v n -> nth_error h v = Some s -> x_op s <> OLoad -> ext_of pnet n = [].
Proof.
  intros Hv Hn E Ho. rewrite (node_ext v n Hv Hn). unfold vstims, trigger_for. rewrite E. destruct (x_op s); try reflexivity. congruence.
Qed.
(** neurons that are not inputs of the module *)
Lemma node_own v n s : In v nodes -> rngv v n -> nth_error h v = Some s -> x_op s <> OLoad ->
  (forall i, In i (pl_ins (pl v)) -> fst i <> n /\ snd i <> n) -> own pnet (pl_own (pl v)) n.
Proof.
  intros Hv Hn E Ho HI. constructor.
  - rewrite (node_syn v n Hv Hn). rewrite (filter_post_out (wires_of h pl v)), app_nil_r; auto.
    intros y Hy Ey. destruct (wires_post v y Hv Hy) as (i & Hi & Hp). destruct (HI i Hi). destruct Hp; congruence.
  - eapply node_prm; eauto.
  - eapply node_noext; eauto.
Qed.
(** neurons that only receive a wire *)
Lemma node_in v n s y : In v nodes -> rngv v n -> nth_error h v = Some s -> x_op s <> OLoad ->
  filter (fun y => s_post y =? n) (pl_own (pl v)) = [] -> filter (fun y => s_post y =? n) (wires_of h pl v) = [y] -> ins pnet n [y].
Proof.
  intros Hv Hn E Ho H1 H2. constructor.
  - rewrite (node_syn v n Hv Hn), H1, H2. reflexivity.
  - eapply node_prm; eauto.
  - eapply node_noext; eauto.
Qed.
End Plan.
