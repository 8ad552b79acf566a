(** Model of axon_sdk/usagereport/power_metrics.py and usagereport.py.
    Python ints are Z, floats are reals (simplification: no rounding).  Printing is
    modelled by the printed data; number formatting ("{:.3f}") is not modelled. *)
From Coq Require Import Arith ZArith Bool String List Reals Lra Lia.
From Verif Require Import Num Heapq Elements Trace PredSim Scalar.
Import ListNotations.
Open Scope list_scope.
Open Scope R_scope.

(** usagereport/power_metrics.py:5-11 delays_dict *)
Definition d_encoding := 2%Z.
Definition d_decoding := 2%Z.
Definition d_scheduling := 1%Z.
Definition d_sram_access := 1%Z.
Definition d_computation := 1%Z.

(** math.log2 of an int: ValueError for n <= 0 *)
Definition log2R (n : Z) : res R := if (n <=? 0)%Z then Err EValue else Ok (ln (IZR n) / ln 2).

(** usagereport/power_metrics.py:88-92 *)
Record perf := { pf_updates : Z; pf_cycles : Z; pf_time : R }.
(** usagereport/power_metrics.py:35-92 estimate_performance *)
Definition estimate_performance (v ge gf gm steps : Z) (clock : R) (batch : Z) : res perf :=
  let* l := log2R steps in
  let log_updates := ceilZ l in
  let g_updates := (log_updates * (ge + gf + gm))%Z in
  let total := (v + g_updates)%Z in
  let* q := pdiv (IZR total) (IZR batch) in
  let updates := ceilZ q in
  let per_update := (d_sram_access + d_computation + d_scheduling)%Z in
  let update_cycles := (updates * per_update)%Z in
  let pipeline := (d_encoding + d_decoding + d_scheduling)%Z in
  let cycles := (update_cycles + pipeline)%Z in
  let* t := pdiv (IZR cycles) (clock * 1000000) in
  Ok {| pf_updates := total; pf_cycles := cycles; pf_time := t |}.

(** usagereport/power_metrics.py:95-127 estimate_power_and_energy, before formatting *)
Record power := { pw_leak : R; pw_idle : R; pw_dyn : R; pw_total : R; pw_energy : R; pw_current : R; pw_rsop : R }.
Definition pico : R := / 1000000000000.
Definition micro : R := / 1000000.
Definition estimate_power_and_energy (p : perf) (clock e_sop_pj p_leak_uw p_idle_uw vdd : R) : res power :=
  let* r_sop := (if Rlt_dec 0 (pf_time p) then pdiv (IZR (pf_updates p)) (pf_time p) else Ok 0) in
  let e_sop := e_sop_pj * pico in
  let leak := p_leak_uw * micro in
  let idle := p_idle_uw * clock * micro in
  let dyn := e_sop * r_sop in
  let total := leak + idle + dyn in
  let energy := total * pf_time p in
  let* cur := pdiv total vdd in
  Ok {| pw_leak := leak; pw_idle := idle; pw_dyn := dyn; pw_total := total; pw_energy := energy; pw_current := cur; pw_rsop := r_sop |}.

(** usagereport/power_metrics.py:14-32 human_readable: scaled value and prefix *)
Definition prefixes : list (R * string) :=
  [(pico, "p"); (/ 1000000000, "n"); (micro, "u"); (/ 1000, "m"); (1, ""); (1000, "K"); (1000000, "M"); (1000000000, "G")]%string.
Definition human_readable (value : R) : R * string :=
  match find (fun fp => Rleb (fst fp) value || Reqb (fst fp) pico) (rev prefixes) with
  | Some (factor, prefix) => (value / factor, prefix)
  | None => (value / pico, "p"%string)
  end.

(** usagereport/usagereport.py:58-86: module classes known to the tables; [KOther] is any other *)
Inductive mkind := KInjector | KSignFlipper | KMulNorm | KAdder | KDiv | KOther.
Definition module_to_total_spikes (k : mkind) : res Z :=
  match k with
  | KInjector => Ok 2 | KSignFlipper => Ok 4 | KMulNorm => Ok 29 | KAdder => Ok 58 | KDiv => Ok 31 | KOther => Err EValue
  end%Z.
(** usagereport/usagereport.py:73-86 _module_to_spikes: V, ge, gf, gm *)
Definition module_to_spikes (k : mkind) : res (Z * Z * Z * Z) :=
  match k with
  | KInjector => Ok (0, 0, 0, 0) | KSignFlipper => Ok (2, 0, 0, 0) | KMulNorm => Ok (42, 9, 3, 4)
  | KAdder => Ok (76, 16, 0, 0) | KDiv => Ok (48, 5, 3, 4) | KOther => Err EValue
  end%Z.
(** usagereport/usagereport.py:89-111 report_spike_estimation_for_net: the printed total; the net is
    given by the classes of its submodules *)
Definition spike_estimation (subs : list mkind) : res Z :=
  rfold (fun acc k => let* s := module_to_total_spikes k in Ok (acc + s)%Z) subs 0%Z.
(** usagereport/usagereport.py:163-194 _report_energy_and_latency *)
Definition report_energy_latency (v ge gf gm : Z) : res (perf * power) :=
  let* p := estimate_performance v ge gf gm 5000 200 1 in
  let* e := estimate_power_and_energy p 200 12 27 178 (9 / 10) in
  Ok (p, e).
(** usagereport/usagereport.py:128-149 report_energy_and_latency_estimation_for_net *)
Definition net_estimation_counts (subs : list mkind) : res (Z * Z * Z * Z) :=
  rfold (fun acc k => let* s := module_to_spikes k in
     let '(v, ge, gf, gm) := acc in let '(v', ge', gf', gm') := s in Ok (v + v', ge + ge', gf + gf', gm + gm')%Z) subs (0, 0, 0, 0)%Z.
Definition report_energy_latency_net (subs : list mkind) : res (perf * power) :=
  let* c := net_estimation_counts subs in let '(v, ge, gf, gm) := c in report_energy_latency v ge gf gm.
(** usagereport/usagereport.py:152-160 report_energy_and_latency_for_simulation *)
Definition report_energy_latency_sim (s : psim R) : res (perf * power) :=
  report_energy_latency (Z.of_nat (pcV (ps_cnt s))) (Z.of_nat (pcGe (ps_cnt s))) (Z.of_nat (pcGf (ps_cnt s))) (Z.of_nat (pcGm (ps_cnt s))).
(** usagereport/usagereport.py:114-125 report_spike_usage_for_simulation: printed total *)
Definition report_spike_usage (c : pcfg R) (s : psim R) : res nat :=
  if negb (ps_fin s) then Err EValue else
  Ok (list_sum (map (fun n => List.length (pspike_log s n)) (pc_keys c))).

(** usagereport/usagereport.py:45-55 _print_neurons: printed lines (indent, module, number of
    neurons or own neurons).  The recursive call does not pass max_recursion, so it is
    1 from the second level on. *)
Inductive line := LTotal (indent : nat) (m : nat) (count : nat) | LOwn (indent : nat) (count : nat).
Fixpoint print_neurons (fuel : nat) (w : world R) (net : nat) (max_recursion indent rec_level : nat) : res (list line) :=
  match fuel with
  | O => Err ERecursion
  | S f =>
      match nth_error (w_mods w) net with
      | None => Err EAttribute
      | Some md =>
          let* ns := neurons_of w net in
          let head := [LTotal indent net (List.length ns)] in
          if (rec_level <? max_recursion)%nat then
            let own := if (List.length (m_subs md) =? 0)%nat then [] else [LOwn (indent + 4) (List.length (m_neurons md))] in
            let* subs := rfold (fun acc s => let* l := print_neurons f w s 1 (indent + 4) (rec_level + 1) in Ok (acc ++ l)) (m_subs md) [] in
            Ok (head ++ own ++ subs)
          else Ok head
      end
  end.
