(** Model of axon_sdk/primitives/events.py:51-124: UniqueEvent, SpikeHitEvent,
    PredictedSpikeEvent, CancelableEventQueue. *)
From Coq Require Import Arith ZArith Bool List.
From Verif Require Import Num Heapq Elements.
Import ListNotations.
Open Scope list_scope.

Section CQ.
Context {T : Type} `{Num T}.

(** events.py:66-82 payloads of the two event classes *)
Inductive upayload := Hit (n : nat) (ty : syntype) (w : T) | Pred (n : nat).
(** events.py:51-59; the id is drawn from a process-wide counter. *)
Record uevent := { u_id : nat; u_time : T; u_pl : upayload }.

(** events.py:91-93.  The dict is an association list without duplicate keys; keys
    are compared with [==] ([neqb]). *)
Record cqueue := { cq_heap : list T; cq_map : list (T * list uevent) }.
Definition cq_empty : cqueue := {| cq_heap := []; cq_map := [] |}.

Fixpoint dget (m : list (T * list uevent)) (t : T) : option (list uevent) :=
  match m with
  | [] => None
  | (k, v) :: m' => if neqb k t then Some v else dget m' t
  end.
Fixpoint dset (m : list (T * list uevent)) (t : T) (v : list uevent) : list (T * list uevent) :=
  match m with
  | [] => [(t, v)]
  | (k, v0) :: m' => if neqb k t then (k, v) :: m' else (k, v0) :: dset m' t v
  end.
Definition ddel (m : list (T * list uevent)) (t : T) : list (T * list uevent) :=
  filter (fun kv => negb (neqb (fst kv) t)) m.

(** [list.remove(event)] with object identity: the first occurrence. *)
Fixpoint remove_first (l : list uevent) (i : nat) : list uevent :=
  match l with
  | [] => []
  | e :: l' => if u_id e =? i then l' else e :: remove_first l' i
  end.

(** events.py:95-101 remove ([remove_first] leaves the list unchanged when the
    event is not in it, which merges the two conditions) *)
Definition cq_remove (q : cqueue) (e : uevent) : cqueue :=
  match dget (cq_map q) (u_time e) with
  | None => q
  | Some l => {| cq_heap := cq_heap q; cq_map := dset (cq_map q) (u_time e) (remove_first l (u_id e)) |}
  end.

(** events.py:103-108 add_event *)
Definition cq_add (q : cqueue) (e : uevent) : cqueue :=
  match dget (cq_map q) (u_time e) with
  | None => {| cq_heap := heappush nltb (cq_heap q) (u_time e);
               cq_map := dset (cq_map q) (u_time e) [e] |}
  | Some l => {| cq_heap := cq_heap q; cq_map := dset (cq_map q) (u_time e) (l ++ [e]) |}
  end.

(** events.py:110-118 pop: the loop runs at most once per entry of the heap. *)
Fixpoint cq_pop_loop (fuel : nat) (q : cqueue) (events : list uevent) : res (list uevent * cqueue) :=
  match fuel with
  | 0 => Ok (events, q)
  | S f =>
      match cq_heap q, events with
      | [], _ => Ok (events, q)
      | _, _ :: _ => Ok (events, q)
      | _ :: _, [] =>
          match heappop nltb (cq_heap q) with
          | None => Err EIndex
          | Some (t, h') =>
              match dget (cq_map q) t with
              | None => Err EKey
              | Some l => cq_pop_loop f {| cq_heap := h'; cq_map := ddel (cq_map q) t |} l
              end
          end
      end
  end.
Definition cq_pop (q : cqueue) : res (list uevent * cqueue) :=
  match cq_heap q with
  | [] => Err EIndex
  | _ => cq_pop_loop (length (cq_heap q)) q []
  end.

(** events.py:120-124 __len__ *)
Definition cq_len (q : cqueue) : nat :=
  length (filter (fun t => match dget (cq_map q) t with
                           | Some l => negb (length l =? 0) | None => false end) (cq_heap q)).
End CQ.
Arguments uevent : clear implicits.
Arguments upayload : clear implicits.
Arguments cqueue : clear implicits.
