(** Model of axon_sdk/networks: every network constructor, as a program that
    allocates neurons, modules and synapses.  The record returned by each builder
    holds the public attributes through which users reach the neurons.
    Constants that a constructor computes but never uses are omitted unless their
    computation can raise (division by Tmax or Tcod). *)
From Coq Require Import Arith ZArith Bool String List.
From Verif Require Import Num Heapq Elements.
Import ListNotations.
Open Scope list_scope.

Section Networks.
Context {T : Type} `{Num T}.

(** The constants Vt=10.0, tm=100.0, tf=20.0, Tsyn=1.0, Tneu=0.01 are repeated in
    every constructor (e.g. memory/memory.py:13-20, functional/subtractor.py:10-14). *)
Definition cVt : T := nofZ 10.
Definition ctm : T := nofZ 100.
Definition ctf : T := nofZ 20.
Definition cTsyn : T := nofZ 1.
Definition cTneu : T := nlit 1 100.
Definition we : T := cVt.
Definition wi : T := nopp cVt.
Definition half (x : T) : T := nmul (nlit 1 2) x.      (* 0.5 * x *)
Definition quarter (x : T) : T := nmul (nlit 1 4) x.   (* 0.25 * x *)
Definition twice (x : T) : T := nmul (nofZ 2) x.       (* 2 * x *)
Definition thrice (x : T) : T := nmul (nofZ 3) x.      (* 3 * x *)

(** Neuron parameters used by all constructors; Vreset defaults to 0.0
    (primitives/networks.py:87). *)
Definition std_params : nparams T := {| Vt := cVt; tm := ctm; tf := ctf; Vreset := nofZ 0 |}.
Definition addn (m : nat) (nm : string) : B T nat := add_neuron m std_params (Some nm).

(** [Vt * tm / encoder.Tmax] and [Vt * tm / encoder.Tcod] *)
Definition mk_wacc (enc : encoder T) : B T T := bres (pdiv (nmul cVt ctm) (Tmax enc)).
Definition mk_wacc_bar (enc : encoder T) : B T T := bres (pdiv (nmul cVt ctm) (Tcod enc)).
(** [(Vt * tm) / tf] *)
Definition gmult : T := ndiv (nmul cVt ctm) ctf.

(* ------------------------------------------------------------------ *)
(** networks/memory/constant.py:8-31 *)
Record constant_net := { k_mod : nat; k_recall : nat; k_output : nat }.
Definition ConstantNetwork (enc : encoder T) (value : T) (name : option string) : B T constant_net :=
  m <- new_module name ;;
  recall <- addn m "recall" ;;
  output <- addn m "output" ;;
  connect recall output SynV we cTsyn ;;;
  connect recall output SynV we (nadd cTsyn (nadd (nmul value (Tcod enc)) (Tmin enc))) ;;;
  bret {| k_mod := m; k_recall := recall; k_output := output |}.

(** networks/memory/signed_constant.py:9-40 *)
Record sconstant_net := { sk_mod : nat; sk_recall : nat; sk_output_plus : nat; sk_output_minus : nat }.
Definition SignedConstantNetwork (enc : encoder T) (value : T) (name : option string) : B T sconstant_net :=
  m <- new_module name ;;
  recall <- addn m "recall" ;;
  output_plus <- addn m "output_plus" ;;
  output_minus <- addn m "output_minus" ;;
  let d2 := nadd cTsyn (nadd (nmul (nabs value) (Tcod enc)) (Tmin enc)) in
  let tgt := if ngeb value nzero then output_plus else output_minus in
  connect recall tgt SynV we cTsyn ;;;
  connect recall tgt SynV we d2 ;;;
  bret {| sk_mod := m; sk_recall := recall; sk_output_plus := output_plus; sk_output_minus := output_minus |}.

(** networks/memory/memory.py:9-70 (attributes lines 67-70; the internal neurons
    are local variables of the constructor and are exposed here for reasoning) *)
Record memory_net := {
  mm_mod : nat; mm_input : nat; mm_first : nat; mm_last : nat; mm_acc : nat; mm_acc2 : nat;
  mm_recall : nat; mm_ready : nat; mm_output : nat }.
Definition MemoryNetwork (enc : encoder T) (name : option string) : B T memory_net :=
  m <- new_module name ;;
  wacc <- mk_wacc enc ;;
  input <- addn m "input" ;;
  first <- addn m "first" ;;
  last <- addn m "last" ;;
  acc <- addn m "acc" ;;
  acc2 <- addn m "acc2" ;;
  recall <- addn m "recall" ;;
  ready <- addn m "ready" ;;
  output <- addn m "output" ;;
  connect input first SynV we cTsyn ;;;
  connect input last SynV (half we) cTsyn ;;;
  connect first first SynV wi cTsyn ;;;
  connect first acc SynGe wacc cTsyn ;;;
  connect last acc2 SynGe wacc (twice cTsyn) ;;;
  connect acc acc2 SynGe (nopp wacc) cTsyn ;;;
  connect recall acc2 SynGe wacc cTsyn ;;;
  connect recall output SynV we (twice cTsyn) ;;;
  connect acc2 output SynV we cTsyn ;;;
  connect acc ready SynV we cTsyn ;;;
  bret {| mm_mod := m; mm_input := input; mm_first := first; mm_last := last; mm_acc := acc;
          mm_acc2 := acc2; mm_recall := recall; mm_ready := ready; mm_output := output |}.

(** networks/memory/inverting_memory.py:9-42 *)
Record invmem_net := {
  im_mod : nat; im_input : nat; im_first : nat; im_last : nat; im_acc : nat; im_recall : nat; im_output : nat }.
Definition InvertingMemoryNetwork (enc : encoder T) (name : option string) : B T invmem_net :=
  m <- new_module name ;;
  wacc <- mk_wacc enc ;;
  input <- addn m "input" ;;
  first <- addn m "first" ;;
  last <- addn m "last" ;;
  acc <- addn m "acc" ;;
  recall <- addn m "recall" ;;
  output <- addn m "output" ;;
  connect input first SynV we cTsyn ;;;
  connect input last SynV (half we) cTsyn ;;;
  connect first first SynV wi cTsyn ;;;
  connect first acc SynGe wacc (nadd cTsyn (Tmin enc)) ;;;
  connect last acc SynGe (nopp wacc) cTsyn ;;;
  connect recall acc SynGe wacc cTsyn ;;;
  connect acc output SynV we cTsyn ;;;
  connect recall output SynV we (nadd (twice cTsyn) cTneu) ;;;
  bret {| im_mod := m; im_input := input; im_first := first; im_last := last; im_acc := acc;
          im_recall := recall; im_output := output |}.

(** networks/memory/signed_memory.py:9-72 *)
Record smem_net := {
  sm_mod : nat; sm_input_pos : nat; sm_input_neg : nat; sm_ready_pos : nat; sm_ready_neg : nat;
  sm_recall : nat; sm_output_pos : nat; sm_output_neg : nat; sm_ready : nat; sm_mem : memory_net }.
Definition SignedMemoryNetwork (enc : encoder T) (name : option string) : B T smem_net :=
  m <- new_module name ;;
  input_pos <- addn m "input+" ;;
  input_neg <- addn m "input-" ;;
  ready_pos <- addn m "ready+" ;;
  ready_neg <- addn m "ready-" ;;
  recall <- addn m "recall" ;;
  output_pos <- addn m "output+" ;;
  output_neg <- addn m "output-" ;;
  ready_out <- addn m "ready" ;;
  mem <- MemoryNetwork enc None ;;
  add_subnetwork m (mm_mod mem) ;;;
  connect input_pos ready_pos SynV we cTsyn ;;;
  connect input_neg ready_neg SynV we cTsyn ;;;
  connect input_pos ready_neg SynV (quarter we) cTsyn ;;;
  connect input_neg ready_pos SynV (quarter we) cTsyn ;;;
  connect ready_pos ready_neg SynV (half wi) cTsyn ;;;
  connect ready_neg ready_pos SynV (half wi) cTsyn ;;;
  connect recall ready_pos SynV (half we) cTsyn ;;;
  connect recall ready_neg SynV (half we) cTsyn ;;;
  connect input_pos (mm_input mem) SynV we cTsyn ;;;
  connect input_neg (mm_input mem) SynV we cTsyn ;;;
  connect recall (mm_recall mem) SynV we cTsyn ;;;
  connect (mm_output mem) output_pos SynV we cTsyn ;;;
  connect (mm_output mem) output_neg SynV we cTsyn ;;;
  connect ready_pos output_neg SynV (twice wi) cTsyn ;;;
  connect ready_neg output_pos SynV (twice wi) cTsyn ;;;
  connect (mm_output mem) ready_out SynV we cTsyn ;;;
  bret {| sm_mod := m; sm_input_pos := input_pos; sm_input_neg := input_neg; sm_ready_pos := ready_pos;
          sm_ready_neg := ready_neg; sm_recall := recall; sm_output_pos := output_pos;
          sm_output_neg := output_neg; sm_ready := ready_out; sm_mem := mem |}.

(** networks/functional/signflip.py:6-32 *)
Record flip_net := { sf_mod : nat; sf_inp_plus : nat; sf_inp_minus : nat; sf_outp_plus : nat; sf_outp_minus : nat }.
Definition SignFlipperNetwork (enc : encoder T) (name : option string) : B T flip_net :=
  m <- new_module name ;;
  _ <- mk_wacc enc ;;
  _ <- mk_wacc_bar enc ;;
  inp_plus <- addn m "inp_plus" ;;
  inp_minus <- addn m "inp_minus" ;;
  outp_plus <- addn m "outp_plus" ;;
  outp_minus <- addn m "outp_minus" ;;
  connect inp_plus outp_minus SynV we cTsyn ;;;
  connect inp_minus outp_plus SynV we cTsyn ;;;
  bret {| sf_mod := m; sf_inp_plus := inp_plus; sf_inp_minus := inp_minus;
          sf_outp_plus := outp_plus; sf_outp_minus := outp_minus |}.

(** networks/functional/subtractor.py:4-86 *)
Record sub_net := {
  sb_mod : nat; sb_input1 : nat; sb_input2 : nat; sb_sync1 : nat; sb_sync2 : nat; sb_inb1 : nat; sb_inb2 : nat;
  sb_output_plus : nat; sb_output_minus : nat; sb_zero : nat }.
Definition SubtractorNetwork (enc : encoder T) (name : option string) : B T sub_net :=
  m <- new_module name ;;
  input1 <- addn m "input1" ;;
  input2 <- addn m "input2" ;;
  sync1 <- addn m "sync1" ;;
  sync2 <- addn m "sync2" ;;
  inb1 <- addn m "inb1" ;;
  inb2 <- addn m "inb2" ;;
  output_plus <- addn m "output_plus" ;;
  output_minus <- addn m "output_minus" ;;
  zero <- addn m "zero" ;;
  let d3 := nadd (thrice cTsyn) (twice cTneu) in
  connect input1 sync1 SynV (half we) cTsyn ;;;
  connect input2 sync2 SynV (half we) cTsyn ;;;
  connect sync1 inb1 SynV we cTsyn ;;;
  connect sync2 inb2 SynV we cTsyn ;;;
  connect sync1 inb2 SynV wi cTsyn ;;;
  connect sync2 inb1 SynV wi cTsyn ;;;
  connect sync1 output_plus SynV we (nadd (Tmin enc) d3) ;;;
  connect sync2 output_minus SynV we (nadd (Tmin enc) d3) ;;;
  connect sync2 output_plus SynV we d3 ;;;
  connect sync1 output_minus SynV we d3 ;;;
  connect inb2 output_minus SynV (twice wi) cTsyn ;;;
  connect inb1 output_plus SynV (twice wi) cTsyn ;;;
  connect output_plus inb2 SynV (half we) cTsyn ;;;
  connect output_minus inb1 SynV (half we) cTsyn ;;;
  connect zero zero SynV we cTneu ;;;
  connect sync1 zero SynV (half wi) (twice cTneu) ;;;
  connect sync2 zero SynV (half wi) (twice cTneu) ;;;
  connect sync1 zero SynV (half we) cTneu ;;;
  connect sync2 zero SynV (half we) cTneu ;;;
  connect zero output_minus SynV (twice wi) cTneu ;;;
  connect zero inb2 SynV wi cTneu ;;;
  bret {| sb_mod := m; sb_input1 := input1; sb_input2 := input2; sb_sync1 := sync1; sb_sync2 := sync2;
          sb_inb1 := inb1; sb_inb2 := inb2; sb_output_plus := output_plus; sb_output_minus := output_minus;
          sb_zero := zero |}.

(** networks/connecting/synchronizer.py:7-52.  [we / N] is only evaluated inside the
    loop, where N >= 1. *)
Record sync_net := {
  sy_mod : nat; sy_sync : nat; sy_inputs : list nat; sy_outputs : list nat; sy_mems : list memory_net }.
Definition sync_iter (enc : encoder T) (N m sync : nat) (acc : list nat * list nat * list memory_net) (i : nat)
  : B T (list nat * list nat * list memory_net) :=
  let '(ins, outs, mems) := acc in
  input_neuron <- addn m ("input_" ++ str_nat i)%string ;;
  output_neuron <- addn m ("output_" ++ str_nat i)%string ;;
  mem <- MemoryNetwork enc (Some ("mem_" ++ str_nat i)%string) ;;
  add_subnetwork m (mm_mod mem) ;;;
  connect input_neuron (mm_input mem) SynV we cTsyn ;;;
  connect (mm_output mem) output_neuron SynV we cTsyn ;;;
  connect (mm_ready mem) sync SynV (nadd (ndiv we (nofZ (Z.of_nat N))) (nlit 1 10000)) cTsyn ;;;
  connect sync (mm_recall mem) SynV we cTsyn ;;;
  bret (ins ++ [input_neuron], outs ++ [output_neuron], mems ++ [mem]).
Definition SynchronizerNetwork (enc : encoder T) (N : nat) (name : option string) : B T sync_net :=
  m <- new_module name ;;
  sync <- addn m "sync" ;;
  r <- bfold (sync_iter enc N m sync) (seq 0 N) ([], [], []) ;;
  bret {| sy_mod := m; sy_sync := sync; sy_inputs := fst (fst r); sy_outputs := snd (fst r); sy_mems := snd r |}.

(** networks/functional/scalar_multiplier.py:6-60 *)
Record smul_net := {
  sc_mod : nat; sc_input : nat; sc_first : nat; sc_last : nat; sc_acc : nat; sc_acc2 : nat; sc_output : nat }.
Definition ScalarMultiplierNetwork (factor : T) (enc : encoder T) (name : option string) : B T smul_net :=
  m <- new_module name ;;
  wacc <- mk_wacc enc ;;
  let wacc_long := nmul factor wacc in
  input <- addn m "input" ;;
  first <- addn m "first" ;;
  last <- addn m "last" ;;
  acc <- addn m "acc" ;;
  acc2 <- addn m "acc" ;;
  output <- addn m "output" ;;
  connect input first SynV we cTsyn ;;;
  connect input last SynV (half we) cTsyn ;;;
  connect first first SynV wi cTsyn ;;;
  connect first acc SynGe wacc_long (nadd cTsyn (Tmin enc)) ;;;
  connect last acc2 SynGe wacc_long (twice cTsyn) ;;;
  connect acc acc2 SynGe (nopp wacc_long) cTsyn ;;;
  connect acc2 output SynV we (nadd cTsyn (Tmin enc)) ;;;
  connect acc acc2 SynGe wacc cTsyn ;;;
  connect acc output SynV we (twice cTsyn) ;;;
  bret {| sc_mod := m; sc_input := input; sc_first := first; sc_last := last; sc_acc := acc; sc_acc2 := acc2;
          sc_output := output |}.

(** networks/functional/linear_combinator.py:7-174 *)
Record lin_net := {
  lc_mod : nat; lc_acc1_plus : nat; lc_acc1_minus : nat; lc_acc2_plus : nat; lc_acc2_minus : nat;
  lc_inter_minus : nat; lc_inter_plus : nat; lc_output_plus : nat; lc_output_minus : nat;
  lc_start : nat; lc_sync : nat; lc_sync_net : sync_net; lc_sub_net : sub_net;
  lc_input_plus : list nat; lc_input_minus : list nat;
  (* local variables of the constructor's loop, exposed for reasoning: *)
  lc_first_plus : list nat; lc_first_minus : list nat; lc_last_plus : list nat; lc_last_minus : list nat }.
(** linear_combinator.py:115-174, the body of [for i in range(N)] *)
Definition lin_iter (enc : encoder T) (wacc : T) (N : nat) (coeff : list T) (m sync acc1p acc1m : nat)
  (acc : list (nat * nat * (nat * nat) * (nat * nat))) (i : nat)
  : B T (list (nat * nat * (nat * nat) * (nat * nat))) :=
  match nth_error coeff i with
  | None => berr EIndex
  | Some c_i =>
      let a_i := nabs c_i in
      input_plus <- addn m ("input_plus_" ++ str_nat i)%string ;;
      input_minus <- addn m ("input_minus_" ++ str_nat i)%string ;;
      first_plus <- addn m ("first_plus_" ++ str_nat i)%string ;;
      first_minus <- addn m ("first_minus_" ++ str_nat i)%string ;;
      last_plus <- addn m ("last_plus_" ++ str_nat i)%string ;;
      last_minus <- addn m ("last_minus_" ++ str_nat i)%string ;;
      connect input_plus first_plus SynV we cTsyn ;;;
      connect input_plus last_plus SynV (half we) cTsyn ;;;
      connect input_minus first_minus SynV we cTsyn ;;;
      connect input_minus last_minus SynV (half we) cTsyn ;;;
      connect first_plus first_plus SynV wi cTsyn ;;;
      connect first_minus first_minus SynV wi cTsyn ;;;
      connect last_plus sync SynV (ndiv we (nofZ (Z.of_nat N))) cTsyn ;;;
      connect last_minus sync SynV (ndiv we (nofZ (Z.of_nat N))) cTsyn ;;;
      let target_plus := if ngtb c_i nzero then acc1p else acc1m in
      let target_minus := if ngtb c_i nzero then acc1m else acc1p in
      connect first_plus target_plus SynGe (nmul a_i wacc) (nadd cTsyn (Tmin enc)) ;;;
      connect last_plus target_plus SynGe (nmul (nopp a_i) wacc) cTsyn ;;;
      connect first_minus target_minus SynGe (nmul a_i wacc) (nadd cTsyn (Tmin enc)) ;;;
      connect last_minus target_minus SynGe (nmul (nopp a_i) wacc) cTsyn ;;;
      bret (acc ++ [(input_plus, input_minus, (first_plus, first_minus), (last_plus, last_minus))])
  end.
Definition LinearCombinatorNetwork (enc : encoder T) (N : nat) (coeff : list T) (name : option string) : B T lin_net :=
  m <- new_module name ;;
  wacc <- mk_wacc enc ;;
  acc1_plus <- addn m "acc1_plus" ;;
  acc1_minus <- addn m "acc1_minus" ;;
  acc2_plus <- addn m "acc2_plus" ;;
  acc2_minus <- addn m "acc2_minus" ;;
  inter_minus <- addn m "inter_minus" ;;
  inter_plus <- addn m "inter_plus" ;;
  output_plus <- addn m "output_plus" ;;
  output_minus <- addn m "output_minus" ;;
  start <- addn m "start" ;;
  sync <- addn m "sync" ;;
  sync_network <- SynchronizerNetwork enc 2 (Some "sync_net"%string) ;;
  subtractor_network <- SubtractorNetwork enc (Some "sub_net"%string) ;;
  add_subnetwork m (sy_mod sync_network) ;;;
  add_subnetwork m (sb_mod subtractor_network) ;;;
  connect (nth 0 (sy_outputs sync_network) 0) (sb_input1 subtractor_network) SynV we cTsyn ;;;
  connect (nth 1 (sy_outputs sync_network) 0) (sb_input2 subtractor_network) SynV we cTsyn ;;;
  connect (sb_output_plus subtractor_network) start SynV we cTsyn ;;;
  connect (sb_output_minus subtractor_network) start SynV we cTsyn ;;;
  connect (sb_output_plus subtractor_network) output_plus SynV we cTsyn ;;;
  connect (sb_output_minus subtractor_network) output_minus SynV we cTsyn ;;;
  connect start start SynV wi cTsyn ;;;
  connect inter_plus (nth 0 (sy_inputs sync_network) 0) SynV we cTsyn ;;;
  connect inter_minus (nth 1 (sy_inputs sync_network) 0) SynV we cTsyn ;;;
  connect sync acc1_plus SynGe wacc cTsyn ;;;
  connect sync acc1_minus SynGe wacc cTsyn ;;;
  connect sync acc2_plus SynGe wacc cTsyn ;;;
  connect sync acc2_minus SynGe wacc cTsyn ;;;
  connect acc1_plus inter_plus SynV we cTsyn ;;;
  connect acc1_minus inter_minus SynV we cTsyn ;;;
  connect acc2_plus inter_plus SynV we (nadd cTsyn (Tmin enc)) ;;;
  connect acc2_minus inter_minus SynV we (nadd cTsyn (Tmin enc)) ;;;
  r <- bfold (lin_iter enc wacc N coeff m sync acc1_plus acc1_minus) (seq 0 N) [] ;;
  bret {| lc_mod := m; lc_acc1_plus := acc1_plus; lc_acc1_minus := acc1_minus; lc_acc2_plus := acc2_plus;
          lc_acc2_minus := acc2_minus; lc_inter_minus := inter_minus; lc_inter_plus := inter_plus;
          lc_output_plus := output_plus; lc_output_minus := output_minus; lc_start := start; lc_sync := sync;
          lc_sync_net := sync_network; lc_sub_net := subtractor_network;
          lc_input_plus := map (fun x => fst (fst (fst x))) r; lc_input_minus := map (fun x => snd (fst (fst x))) r;
          lc_first_plus := map (fun x => fst (snd (fst x))) r; lc_first_minus := map (fun x => snd (snd (fst x))) r;
          lc_last_plus := map (fun x => fst (snd x)) r; lc_last_minus := map (fun x => snd (snd x)) r |}.

(** networks/functional/adder.py:7-19 *)
Record adder_net := {
  ad_lin : lin_net; ad_input1_plus : nat; ad_input1_minus : nat; ad_input2_plus : nat; ad_input2_minus : nat }.
Definition AdderNetwork (enc : encoder T) (name : option string) : B T adder_net :=
  l <- LinearCombinatorNetwork enc 2 [nofZ 1; nofZ 1] name ;;
  bret {| ad_lin := l;
          ad_input1_plus := nth 0 (lc_input_plus l) 0; ad_input1_minus := nth 0 (lc_input_minus l) 0;
          ad_input2_plus := nth 1 (lc_input_plus l) 0; ad_input2_minus := nth 1 (lc_input_minus l) 0 |}.

(** networks/functional/exponential.py:7-50 *)
Record exp_net := { ex_mod : nat; ex_input : nat; ex_first : nat; ex_last : nat; ex_acc : nat; ex_output : nat }.
Definition ExponentialNetwork (enc : encoder T) (name : option string) : B T exp_net :=
  m <- new_module name ;;
  wacc_bar <- mk_wacc_bar enc ;;
  input <- addn m "input" ;;
  first <- addn m "first" ;;
  last <- addn m "last" ;;
  acc <- addn m "acc" ;;
  output <- addn m "output" ;;
  connect input first SynV we cTsyn ;;;
  connect input last SynV (half we) cTsyn ;;;
  connect first first SynV wi cTsyn ;;;
  connect first acc SynGf gmult (nadd cTsyn (Tmin enc)) ;;;
  connect first acc SynGate (nofZ 1) (nadd cTsyn (Tmin enc)) ;;;
  connect last acc SynGate (nofZ (-1)) cTsyn ;;;
  connect last acc SynGe wacc_bar cTsyn ;;;
  connect acc output SynV we (nadd cTsyn (Tmin enc)) ;;;
  connect last output SynV we (twice cTsyn) ;;;
  bret {| ex_mod := m; ex_input := input; ex_first := first; ex_last := last; ex_acc := acc; ex_output := output |}.

(** networks/functional/natural_log.py:11-50 *)
Record log_net := { lg_mod : nat; lg_input : nat; lg_first : nat; lg_last : nat; lg_acc : nat; lg_output : nat }.
Definition LogNetwork (enc : encoder T) (name : option string) : B T log_net :=
  m <- new_module name ;;
  wacc_bar <- mk_wacc_bar enc ;;
  input <- addn m "input" ;;
  first <- addn m "first" ;;
  last <- addn m "last" ;;
  acc <- addn m "acc" ;;
  output <- addn m "output" ;;
  connect input first SynV we cTsyn ;;;
  connect input last SynV (half we) cTsyn ;;;
  connect first first SynV wi cTsyn ;;;
  connect first acc SynGe wacc_bar (nadd cTsyn (Tmin enc)) ;;;
  connect last acc SynGate (nofZ 1) cTsyn ;;;
  connect last acc SynGe (nopp wacc_bar) cTsyn ;;;
  connect last acc SynGf gmult cTsyn ;;;
  connect acc output SynV we (nadd cTsyn (Tmin enc)) ;;;
  connect last output SynV we (twice cTsyn) ;;;
  bret {| lg_mod := m; lg_input := input; lg_first := first; lg_last := last; lg_acc := acc; lg_output := output |}.

(** networks/functional/multiplier.py:6-76 *)
Record mul_net := {
  mu_mod : nat; mu_input1 : nat; mu_input2 : nat; mu_first1 : nat; mu_last1 : nat; mu_acc_log1 : nat;
  mu_zero : nat; mu_first2 : nat; mu_last2 : nat; mu_acc_log2 : nat; mu_sync : nat; mu_acc_exp : nat;
  mu_output : nat }.
Definition max_prop_delay : T := nofZ 350.
Definition MultiplierNetwork (enc : encoder T) (name : option string) : B T mul_net :=
  m <- new_module name ;;
  wacc_bar <- mk_wacc_bar enc ;;
  input1 <- addn m "input1" ;;
  input2 <- addn m "input2" ;;
  first1 <- addn m "first1" ;;
  last1 <- addn m "last1" ;;
  acc_log1 <- addn m "acc_log1" ;;
  zero <- addn m "zero" ;;
  first2 <- addn m "first2" ;;
  last2 <- addn m "last2" ;;
  acc_log2 <- addn m "acc_log2" ;;
  sync <- addn m "sync" ;;
  acc_exp <- addn m "acc_exp" ;;
  output <- addn m "output" ;;
  let dTm := nadd cTsyn (Tmin enc) in
  connect input1 first1 SynV we cTsyn ;;;
  connect input1 last1 SynV (half we) cTsyn ;;;
  connect first1 first1 SynV wi cTsyn ;;;
  connect first1 acc_log1 SynGe wacc_bar dTm ;;;
  connect last1 acc_log1 SynGe (nopp wacc_bar) cTsyn ;;;
  connect last1 sync SynV (half we) cTsyn ;;;
  connect input2 first2 SynV we cTsyn ;;;
  connect input2 last2 SynV (half we) cTsyn ;;;
  connect first2 first2 SynV wi cTsyn ;;;
  connect first2 acc_log2 SynGe wacc_bar dTm ;;;
  connect last2 acc_log2 SynGe (nopp wacc_bar) cTsyn ;;;
  connect last2 sync SynV (half we) cTsyn ;;;
  connect acc_log1 acc_log2 SynGf gmult cTsyn ;;;
  connect acc_log1 acc_log2 SynGate (nofZ 1) cTsyn ;;;
  connect acc_log2 acc_exp SynGate (nofZ (-1)) cTsyn ;;;
  connect acc_log2 acc_exp SynGe wacc_bar cTsyn ;;;
  connect acc_log2 output SynV we (twice cTsyn) ;;;
  connect sync acc_log1 SynGf gmult cTsyn ;;;
  connect sync acc_log1 SynGate (nofZ 1) cTsyn ;;;
  connect sync acc_exp SynGate (nofZ 1) (thrice cTsyn) ;;;
  connect sync acc_exp SynGf gmult (thrice cTsyn) ;;;
  connect acc_exp output SynV we (nadd (Tmin enc) cTsyn) ;;;
  connect input1 zero SynV (ndiv cVt (nofZ 4)) max_prop_delay ;;;
  connect input2 zero SynV (ndiv cVt (nofZ 4)) max_prop_delay ;;;
  connect output zero SynV (ndiv (nopp cVt) (nofZ 2)) cTsyn ;;;
  connect zero output SynV cVt cTsyn ;;;
  connect zero output SynV cVt dTm ;;;
  bret {| mu_mod := m; mu_input1 := input1; mu_input2 := input2; mu_first1 := first1; mu_last1 := last1;
          mu_acc_log1 := acc_log1; mu_zero := zero; mu_first2 := first2; mu_last2 := last2;
          mu_acc_log2 := acc_log2; mu_sync := sync; mu_acc_exp := acc_exp; mu_output := output |}.

(** networks/functional/divider.py:7-81 *)
Record logsync_net := {
  ls_mod : nat; ls_input1 : nat; ls_first1 : nat; ls_last1 : nat; ls_acc1 : nat; ls_output1 : nat;
  ls_input2 : nat; ls_first2 : nat; ls_last2 : nat; ls_acc2 : nat; ls_output2 : nat; ls_sync : nat }.
Definition LogAndSyncNetwork (enc : encoder T) (name : option string) : B T logsync_net :=
  m <- new_module name ;;
  _ <- mk_wacc enc ;;
  wacc_bar <- mk_wacc_bar enc ;;
  let dTm := nadd cTsyn (Tmin enc) in
  input1 <- addn m "input1" ;;
  first1 <- addn m "first1" ;;
  last1 <- addn m "last1" ;;
  acc1 <- addn m "acc1" ;;
  output1 <- addn m "output1" ;;
  connect input1 first1 SynV we cTsyn ;;;
  connect first1 first1 SynV wi cTsyn ;;;
  connect input1 last1 SynV (half we) cTsyn ;;;
  connect first1 acc1 SynGe wacc_bar dTm ;;;
  connect last1 acc1 SynGe (nopp wacc_bar) cTsyn ;;;
  input2 <- addn m "input2" ;;
  first2 <- addn m "first2" ;;
  last2 <- addn m "last2" ;;
  acc2 <- addn m "acc2" ;;
  output2 <- addn m "output2" ;;
  connect input2 first2 SynV we cTsyn ;;;
  connect first2 first2 SynV wi cTsyn ;;;
  connect input2 last2 SynV (half we) cTsyn ;;;
  connect first2 acc2 SynGe wacc_bar dTm ;;;
  connect last2 acc2 SynGe (nopp wacc_bar) cTsyn ;;;
  sync <- addn m "sync" ;;
  connect last1 sync SynV (half we) cTsyn ;;;
  connect last2 sync SynV (half we) cTsyn ;;;
  connect sync output1 SynV we (twice cTsyn) ;;;
  connect sync output2 SynV we (twice cTsyn) ;;;
  connect sync acc1 SynGf gmult cTsyn ;;;
  connect sync acc1 SynGate (nofZ 1) cTsyn ;;;
  connect acc1 output1 SynV we dTm ;;;
  connect sync acc2 SynGf gmult cTsyn ;;;
  connect sync acc2 SynGate (nofZ 1) cTsyn ;;;
  connect acc2 output2 SynV we dTm ;;;
  bret {| ls_mod := m; ls_input1 := input1; ls_first1 := first1; ls_last1 := last1; ls_acc1 := acc1;
          ls_output1 := output1; ls_input2 := input2; ls_first2 := first2; ls_last2 := last2; ls_acc2 := acc2;
          ls_output2 := output2; ls_sync := sync |}.

(** networks/functional/divider.py:84-133 *)
Record div_net := { dv_mod : nat; dv_input1 : nat; dv_input2 : nat; dv_output : nat;
                    dv_ls : logsync_net; dv_sub : sub_net; dv_exp : exp_net }.
Definition DivNetwork (enc : encoder T) (name : option string) : B T div_net :=
  m <- new_module name ;;
  _ <- mk_wacc enc ;;
  _ <- mk_wacc_bar enc ;;
  logsync <- LogAndSyncNetwork enc (Some "log_and_sync_net"%string) ;;
  sub <- SubtractorNetwork enc (Some "sub_net"%string) ;;
  exp <- ExponentialNetwork enc (Some "exp_net"%string) ;;
  add_subnetwork m (ls_mod logsync) ;;;
  add_subnetwork m (sb_mod sub) ;;;
  add_subnetwork m (ex_mod exp) ;;;
  connect (ls_output1 logsync) (sb_input1 sub) SynV we cTsyn ;;;
  connect (ls_output2 logsync) (sb_input2 sub) SynV we cTsyn ;;;
  connect (sb_output_plus sub) (ex_input exp) SynV we cTsyn ;;;
  bret {| dv_mod := m; dv_input1 := ls_input1 logsync; dv_input2 := ls_input2 logsync;
          dv_output := ex_output exp; dv_ls := logsync; dv_sub := sub; dv_exp := exp |}.

(** The four sign neurons shared by SignedMultiplierNetwork
    (signed_multiplier.py:49-71) and SignedMultiplierNormNetwork
    (signed_multipler_norm.py:77-99): the same 16 connections in the same order. *)
Definition connect_signs (i1p i1m i2p i2m sign1 sign2 sign3 sign4 : nat) : B T unit :=
  connect i1p sign1 SynV (quarter we) cTsyn ;;;
  connect i1p sign3 SynV (quarter we) cTsyn ;;;
  connect i1m sign2 SynV (quarter we) cTsyn ;;;
  connect i1m sign4 SynV (quarter we) cTsyn ;;;
  connect i2p sign1 SynV (quarter we) cTsyn ;;;
  connect i2p sign2 SynV (quarter we) cTsyn ;;;
  connect i2m sign3 SynV (quarter we) cTsyn ;;;
  connect i2m sign4 SynV (quarter we) cTsyn ;;;
  connect sign1 sign2 SynV (half wi) cTsyn ;;;
  connect sign1 sign3 SynV (half wi) cTsyn ;;;
  connect sign2 sign1 SynV (half wi) cTsyn ;;;
  connect sign2 sign4 SynV (half wi) cTsyn ;;;
  connect sign3 sign1 SynV (half wi) cTsyn ;;;
  connect sign3 sign4 SynV (half wi) cTsyn ;;;
  connect sign4 sign2 SynV (half wi) cTsyn ;;;
  connect sign4 sign3 SynV (half wi) cTsyn.
(** signed_multiplier.py:76-79, signed_multipler_norm.py:105-108 *)
Definition connect_sign_outputs (sign1 sign2 sign3 sign4 op om : nat) : B T unit :=
  connect sign1 om SynV (twice wi) cTsyn ;;;
  connect sign2 op SynV (twice wi) cTsyn ;;;
  connect sign3 op SynV (twice wi) cTsyn ;;;
  connect sign4 om SynV (twice wi) cTsyn.

(** networks/functional/signed_multiplier.py:9-101 *)
Record smult_net := {
  sx_mod : nat; sx_mn : mul_net; sx_input1_plus : nat; sx_input1_minus : nat; sx_input2_plus : nat;
  sx_input2_minus : nat; sx_output_plus : nat; sx_output_minus : nat; sx_zero : nat;
  sx_sign1 : nat; sx_sign2 : nat; sx_sign3 : nat; sx_sign4 : nat }.
Definition SignedMultiplierNetwork (enc : encoder T) (name : option string) : B T smult_net :=
  m <- new_module name ;;
  mn <- MultiplierNetwork enc (Some "mul_net"%string) ;;
  add_subnetwork m (mu_mod mn) ;;;
  i1p <- addn m "input1_plus" ;;
  i1m <- addn m "input1_minus" ;;
  i2p <- addn m "input2_plus" ;;
  i2m <- addn m "input2_minus" ;;
  op <- addn m "output_plus" ;;
  om <- addn m "output_minus" ;;
  zero <- addn m "zero" ;;
  sign1 <- addn m "sign1" ;;
  sign2 <- addn m "sign2" ;;
  sign3 <- addn m "sign3" ;;
  sign4 <- addn m "sign4" ;;
  connect i1p (mu_input1 mn) SynV we cTsyn ;;;
  connect i1m (mu_input1 mn) SynV we cTsyn ;;;
  connect i2p (mu_input2 mn) SynV we cTsyn ;;;
  connect i2m (mu_input2 mn) SynV we cTsyn ;;;
  connect_signs i1p i1m i2p i2m sign1 sign2 sign3 sign4 ;;;
  connect (mu_output mn) op SynV we cTsyn ;;;
  connect (mu_output mn) om SynV we cTsyn ;;;
  connect_sign_outputs sign1 sign2 sign3 sign4 op om ;;;
  connect i1p zero SynV (ndiv cVt (nofZ 4)) max_prop_delay ;;;
  connect i1m zero SynV (ndiv cVt (nofZ 4)) max_prop_delay ;;;
  connect i2p zero SynV (ndiv cVt (nofZ 4)) max_prop_delay ;;;
  connect i2m zero SynV (ndiv cVt (nofZ 4)) max_prop_delay ;;;
  connect op zero SynV (ndiv (nopp cVt) (nofZ 2)) cTsyn ;;;
  connect om zero SynV (ndiv (nopp cVt) (nofZ 2)) cTsyn ;;;
  connect zero op SynV cVt cTsyn ;;;
  connect zero op SynV cVt (nadd cTsyn (Tmin enc)) ;;;
  bret {| sx_mod := m; sx_mn := mn; sx_input1_plus := i1p; sx_input1_minus := i1m; sx_input2_plus := i2p;
          sx_input2_minus := i2m; sx_output_plus := op; sx_output_minus := om; sx_zero := zero;
          sx_sign1 := sign1; sx_sign2 := sign2; sx_sign3 := sign3; sx_sign4 := sign4 |}.

(** networks/functional/signed_multipler_norm.py:9-108 *)
Record smultn_net := {
  sn_mod : nat; sn_mn : mul_net; sn_scmn : smul_net; sn_input1_plus : nat; sn_input1_minus : nat;
  sn_input2_plus : nat; sn_input2_minus : nat; sn_output_plus : nat; sn_output_minus : nat;
  sn_sign1 : nat; sn_sign2 : nat; sn_sign3 : nat; sn_sign4 : nat }.
Definition SignedMultiplierNormNetwork (enc : encoder T) (factor : T) (name : option string) : B T smultn_net :=
  m <- new_module name ;;
  mn <- MultiplierNetwork enc (Some "mul_net"%string) ;;
  add_subnetwork m (mu_mod mn) ;;;
  scmn <- ScalarMultiplierNetwork factor enc (Some "scalar_mul"%string) ;;
  add_subnetwork m (sc_mod scmn) ;;;
  i1p <- addn m "input1_plus" ;;
  i1m <- addn m "input1_minus" ;;
  i2p <- addn m "input2_plus" ;;
  i2m <- addn m "input2_minus" ;;
  op <- addn m "output_plus" ;;
  om <- addn m "output_minus" ;;
  sign1 <- addn m "sign1" ;;
  sign2 <- addn m "sign2" ;;
  sign3 <- addn m "sign3" ;;
  sign4 <- addn m "sign4" ;;
  connect i1p (mu_input1 mn) SynV we cTsyn ;;;
  connect i1m (mu_input1 mn) SynV we cTsyn ;;;
  connect i2p (mu_input2 mn) SynV we cTsyn ;;;
  connect i2m (mu_input2 mn) SynV we cTsyn ;;;
  connect_signs i1p i1m i2p i2m sign1 sign2 sign3 sign4 ;;;
  connect (mu_output mn) (sc_input scmn) SynV we cTsyn ;;;
  connect (sc_output scmn) op SynV we cTsyn ;;;
  connect (sc_output scmn) om SynV we cTsyn ;;;
  connect_sign_outputs sign1 sign2 sign3 sign4 op om ;;;
  bret {| sn_mod := m; sn_mn := mn; sn_scmn := scmn; sn_input1_plus := i1p; sn_input1_minus := i1m;
          sn_input2_plus := i2p; sn_input2_minus := i2m; sn_output_plus := op; sn_output_minus := om;
          sn_sign1 := sign1; sn_sign2 := sign2; sn_sign3 := sign3; sn_sign4 := sign4 |}.

(** compilation/compiler.py:53-66 *)
Record inj_net := { ij_mod : nat; ij_plus : nat; ij_minus : nat }.
Definition InjectorNetwork (enc : encoder T) (name : option string) : B T inj_net :=
  m <- new_module name ;;
  p <- addn m "inject_input_plus" ;;
  n <- addn m "inject_input_minus" ;;
  bret {| ij_mod := m; ij_plus := p; ij_minus := n |}.

(** networks/functional/integrator.py:5-49: line 48 calls LinearCombinatorNetwork with
    the keyword [prefix], which that constructor does not have
    (linear_combinator.py:8-14), so the constructor always raises TypeError (unless
    [SignedConstantNetwork] raised before, which it cannot). *)
Definition IntegratorNetwork (enc : encoder T) (constant : T) (coeffs : list T) (prefix : string) : B T unit :=
  m <- new_module None ;;
  _ <- bres (pdiv (nmul cVt ctm) (Tcod enc)) ;;
  _ <- addn m "init" ;;
  _ <- addn m (prefix ++ "input_plus")%string ;;
  _ <- addn m (prefix ++ "input_minus")%string ;;
  _ <- addn m (prefix ++ "start")%string ;;
  _ <- addn m (prefix ++ "output_plus")%string ;;
  _ <- addn m (prefix ++ "output_minus")%string ;;
  _ <- addn m (prefix ++ "new_input")%string ;;
  _ <- SignedConstantNetwork enc constant (Some (prefix ++ "sc")%string) ;;
  berr EType.

End Networks.
