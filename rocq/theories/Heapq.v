(** Model of CPython's [heapq] (standard library, Lib/heapq.py), used by
    /repo/axon_sdk/primitives/events.py lines 1, 42, 47, 106, 115.
    [heappush], [heappop], [_siftdown], [_siftup] are transcribed; the loops are
    recursion on fuel that is proved sufficient in HeapqProofs.v. *)
From Coq Require Import List Arith Bool.
Import ListNotations.

Section Heapq.
  Context {A : Type} (lt : A -> A -> bool).

  (** [heap[i] = x] *)
  Fixpoint lset (l : list A) (i : nat) (x : A) : list A :=
    match l, i with
    | [], _ => []
    | _ :: l', 0 => x :: l'
    | a :: l', S i' => a :: lset l' i' x
    end.

  (** heapq._siftdown(heap, 0, pos): newitem moves toward the root. *)
  Fixpoint siftdown (fuel : nat) (heap : list A) (newitem : A) (pos : nat) : list A :=
    match fuel with
    | 0 => lset heap pos newitem
    | S f =>
        if pos =? 0 then lset heap pos newitem
        else
          let parentpos := (pos - 1) / 2 in
          let parent := nth parentpos heap newitem in
          if lt newitem parent
          then siftdown f (lset heap pos parent) newitem parentpos
          else lset heap pos newitem
    end.

  (** first loop of heapq._siftup(heap, 0): smaller children bubble up until the
      hole reaches a leaf; returns the list and the position of the hole. *)
  Fixpoint siftup_hole (fuel : nat) (heap : list A) (newitem : A) (pos : nat) : list A * nat :=
    match fuel with
    | 0 => (heap, pos)
    | S f =>
        let childpos := 2 * pos + 1 in
        if childpos <? length heap then
          let rightpos := childpos + 1 in
          let c := if (rightpos <? length heap)
                      && negb (lt (nth childpos heap newitem) (nth rightpos heap newitem))
                   then rightpos else childpos in
          siftup_hole f (lset heap pos (nth c heap newitem)) newitem c
        else (heap, pos)
    end.

  Definition siftup (heap : list A) (newitem : A) : list A :=
    let '(h, p) := siftup_hole (length heap) heap newitem 0 in
    siftdown (S p) (lset h p newitem) newitem p.

  Definition heappush (heap : list A) (x : A) : list A :=
    siftdown (S (length heap)) (heap ++ [x]) x (length heap).

  (** heappop on an empty list raises IndexError (None here). *)
  Definition heappop (heap : list A) : option (A * list A) :=
    match heap with
    | [] => None
    | top :: _ =>
        let lastelt := last heap top in
        let heap' := removelast heap in
        match heap' with
        | [] => Some (lastelt, [])
        | ret :: _ => Some (ret, siftup (lset heap' 0 lastelt) lastelt)
        end
    end.
End Heapq.
