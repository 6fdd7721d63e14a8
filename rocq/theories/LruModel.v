(** The packed least-recently-used list of a HashCache bucket.

    Models [DoublyLinkedList] in src/hash_table/bucket.rs L87-89 and L1072-1214, and the three
    call sites that thread the tail word through [metadata.removed_bitmap]:
    [evict_lru_head] L260-278 (only the list part), [update_lru_tail] L285-298 and
    [remove_from_lru_list] L546-559.

    The 32 cells hold pairs of u8, modelled as [nat * nat]; the tail word ("1-based index of the
    most recently used entry", 0 = nil) is a [nat].  [None] stands for an index-out-of-bounds
    panic or an arithmetic underflow.  The [debug_assert]s are not modelled. *)
From stdpp Require Import prelude list.

Notation dll := (list (nat * nat)).

(** L1075-1077. *)
Definition read (l : dll) (i : nat) : option (nat * nat) := l !! i.

(** L1081-1083 specialised to the closures used by the callers. *)
Definition write (l : dll) (i : nat) (f : nat * nat -> nat * nat) : option dll :=
  v ← l !! i; Some (<[i := f v]> l).
Definition set_0 (x : nat) (v : nat * nat) : nat * nat := (x, v.2).
Definition set_1 (x : nat) (v : nat * nat) : nat * nat := (v.1, x).

Definition eqp (a b : nat * nat) : bool := (a.1 =? b.1)%nat && (a.2 =? b.2)%nat.

(** [evict], L1088-1114.  Result: new cells and [Some (evicted slot, new tail)]. *)
Definition dll_evict (l : dll) (tail : nat) : option (dll * option (nat * nat)) :=
  if (tail =? 0)%nat then Some (l, None)
  else
    c ← read l (tail - 1);
    let lru := c.1 in
    p ← (if (tail - 1 =? lru)%nat then Some (l, 0)
         else
           c' ← read l lru;
           let new_lru := c'.1 in
           l1 ← write l new_lru (set_1 (tail - 1));
           l2 ← write l1 (tail - 1) (set_0 new_lru);
           Some (l2, tail));
    let '(l2, new_tail) := p in
    l3 ← write l2 lru (fun _ => (0, 0));
    Some (l3, Some (lru, new_tail)).

(** [remove], L1117-1159.  Result: new cells and the optional new tail. *)
Definition dll_remove (l : dll) (tail entry : nat) : option (dll * option nat) :=
  e ← read l entry;
  z ← read l 0;
  if (tail =? 0)%nat
     || (eqp e (0, 0) &&
         (negb (eqp z (entry, entry)) ||
          (negb (tail =? 1)%nat && negb (tail =? entry + 1)%nat)))
  then Some (l, None)
  else if (e.1 =? entry)%nat then
    l1 ← write l entry (fun _ => (0, 0));
    Some (l1, Some 0)
  else
    let prev := e.1 in
    let next := e.2 in
    l1 ← write l prev (set_1 next);
    l2 ← write l1 next (set_0 prev);
    let new_tail := if (tail =? entry + 1)%nat then Some (next + 1) else None in
    l3 ← write l2 entry (fun _ => (0, 0));
    Some (l3, new_tail).

(** [promote], L1162-1213. *)
Definition dll_promote (l : dll) (tail entry : nat) : option (dll * option nat) :=
  if (tail =? entry + 1)%nat then Some (l, None)
  else if (tail =? 0)%nat then
    l1 ← write l entry (fun _ => (entry, entry));
    Some (l1, Some (entry + 1))
  else
    e ← read l entry;
    z ← read l 0;
    l2 ← (if negb (eqp e (0, 0)) || (eqp z (entry, entry) && (tail =? 1)%nat) then
            let prev := e.1 in
            let next := e.2 in
            l1 ← write l prev (set_1 next);
            write l1 next (set_0 prev)
          else Some l);
    t ← read l2 (tail - 1);
    let oldest := t.1 in
    l3 ← write l2 oldest (set_1 entry);
    l4 ← write l3 entry (set_0 oldest);
    l5 ← write l4 (tail - 1) (set_0 entry);
    l6 ← write l5 entry (set_1 (tail - 1));
    Some (l6, Some (entry + 1)).

(** ** The recency state of a bucket: cells and tail word *)
Record lru := Lru { cells : dll; tail : nat }.

(** Fresh bucket: zeroed memory (bucket_array.rs L48 [alloc_zeroed]). *)
Definition lru_new : lru := Lru (replicate 32 (0, 0)) 0.

(** [evict_lru_head] L264-271: the slot taken from the list, or [None] when the list is empty
    (the caller then evicts slot 0). *)
Definition lru_evict (s : lru) : option (lru * option nat) :=
  r ← dll_evict (cells s) (tail s);
  match r with
  | (l, Some (slot, new_tail)) => Some (Lru l new_tail, Some slot)
  | (l, None) => Some (Lru l (tail s), None)
  end.

(** [remove_from_lru_list] L546-559 for an entry of the main block. *)
Definition lru_remove (s : lru) (entry : nat) : option lru :=
  r ← dll_remove (cells s) (tail s) entry;
  Some (Lru r.1 (default (tail s) r.2)).

(** [update_lru_tail] L285-298 for an entry of the main block. *)
Definition lru_promote (s : lru) (entry : nat) : option lru :=
  r ← dll_promote (cells s) (tail s) entry;
  Some (Lru r.1 (default (tail s) r.2)).

Inductive lru_op := Touch (slot : nat) | Forget (slot : nat) | Evict.

(** One operation; the output is the evicted slot, if any. *)
Definition lru_step (s : lru) (o : lru_op) : option (lru * option nat) :=
  match o with
  | Touch e => s' ← lru_promote s e; Some (s', None)
  | Forget e => s' ← lru_remove s e; Some (s', None)
  | Evict => lru_evict s
  end.

Fixpoint lru_run (s : lru) (os : list lru_op) : option (lru * list (option nat)) :=
  match os with
  | [] => Some (s, [])
  | o :: os' =>
      r ← lru_step s o;
      r' ← lru_run r.1 os';
      Some (r'.1, r.2 :: r'.2)
  end.
