(** A TreeIndex leaf: fourteen slots and one metadata word.

    Models /repo/src/tree_index/leaf.rs.  Conventions and simplifications:
    - The metadata word (L23-37) is shown as fourteen ranks and the frozen and retired bits.
      [Dimension]'s functions (L771-820) act on that record; the early exits
      [if mutable_metadata == 0 { break; }] only skip slots whose rank is [uninit].
    - [usize::BITS] is 64, so [DIMENSION] (L835-856) is 14 entries of 4 bits.
    - A slot of [EntryArray] (L859-862) is an [option]: [None] = never written or taken out.
    - Keys are compared by [cmp]; queries have the key type ([Q = K]), except in [range_contains].
    - The link to the next leaf (L36) is modelled in the tree, not here.
    - Every function here works on one snapshot of the metadata.  The functions that read and
      update the word several times are split accordingly: the sequential composition is here, the
      interleaved one in LeafConc.v; both are made of the same pieces. *)
From stdpp Require Import prelude list.

(** [DIMENSION.num_entries], [Dimension::uninit_rank] L802, [removed_rank] L807. *)
Definition num_entries : nat := 14.
Definition uninit_rank : nat := 0.
Definition removed_rank : nat := 15.

Record meta := Meta { ranks : list nat; frozen : bool; retired : bool }.
Global Instance meta_eq_dec : EqDecision meta.
Proof. solve_decision. Defined.

Definition new_meta : meta := Meta (replicate num_entries uninit_rank) false false.
(** [Dimension::augment] L812. *)
Definition augment (m : meta) (i r : nat) : meta := Meta (<[i := r]> (ranks m)) (frozen m) (retired m).
(** [Dimension::freeze] L778, [thaw] L783, [retire] L793. *)
Definition freeze (m : meta) : meta := Meta (ranks m) true (retired m).
Definition thaw (m : meta) : meta := Meta (ranks m) false (retired m).
Definition retire (m : meta) : meta := Meta (ranks m) (frozen m) true.

(** [rank != uninit && rank != removed]. *)
Definition live (r : nat) : bool := negb (r =? uninit_rank)%nat && negb (r =? removed_rank)%nat.

(** The first slot with the rank [uninit]: the loop of [insert] L353-372. *)
Fixpoint first_uninit (rs : list nat) (i : nat) : option nat :=
  match rs with
  | [] => None
  | r :: rs' => if (r =? uninit_rank)%nat then Some i else first_uninit rs' (S i)
  end.

(** The loops below run over the ranks, from slot [i] on.  [cf i] is the order of the key in slot
    [i] relative to the key searched for ([Leaf::compare] L732-737). *)

(** [search_slot] L699-730; [lo] is [max_min_rank], [hi] is [min_max_rank]. *)
Fixpoint search_loop (cf : nat -> comparison) (rs : list nat) (i lo hi : nat) : option nat :=
  match rs with
  | [] => None
  | r :: rs' =>
    if (r <? hi)%nat && (lo <? r)%nat then
      match cf i with
      | Lt => search_loop cf rs' (S i) r hi
      | Gt => search_loop cf rs' (S i) lo r
      | Eq => Some i
      end
    else search_loop cf rs' (S i) lo hi
  end.

(** The loop of [post_insert] L653-677: [None] on an equal key, else the new ranks and
    [max_min_rank]. *)
Fixpoint post_loop (cf : nat -> comparison) (rs : list nat) (i lo hi : nat) : option (list nat * nat) :=
  match rs with
  | [] => Some ([], lo)
  | r :: rs' =>
    if (r <? hi)%nat && (lo <? r)%nat then
      match cf i with
      | Lt => z ← post_loop cf rs' (S i) r hi; Some (r :: z.1, z.2)
      | Gt => z ← post_loop cf rs' (S i) lo r; Some (S r :: z.1, z.2)
      | Eq => None
      end
    else z ← post_loop cf rs' (S i) lo hi;
      Some ((if negb (r =? removed_rank)%nat && (hi <? r)%nat then S r else r) :: z.1, z.2)
  end.
(** L648-681: the final metadata for the new entry in the slot [free]. *)
Definition post (cf : nat -> comparison) (m : meta) (free : nat) : option meta :=
  z ← post_loop cf (ranks m) 0 0 removed_rank;
  Some (augment (Meta z.1 (frozen m) (retired m)) free (S z.2)).

(** The loop of [max_less] L524-557; the last argument is [max_min_index]. *)
Fixpoint max_less_loop (cf : nat -> comparison) (rs : list nat) (i lo hi best : nat) : nat :=
  match rs with
  | [] => best
  | r :: rs' =>
    if (r <? hi)%nat && (lo <? r)%nat then
      match cf i with
      | Lt => max_less_loop cf rs' (S i) r hi i
      | Gt | Eq => max_less_loop cf rs' (S i) lo r best
      end
    else max_less_loop cf rs' (S i) lo hi best
  end.

(** The loop of [min_greater_equal] L564-606; the last argument is [min_max_index]. *)
Fixpoint min_ge_loop (cf : nat -> comparison) (rs : list nat) (i lo hi best : nat) : nat :=
  match rs with
  | [] => best
  | r :: rs' =>
    if (r <? hi)%nat && (lo <? r)%nat then
      match cf i with
      | Lt => min_ge_loop cf rs' (S i) r hi best
      | Gt => min_ge_loop cf rs' (S i) lo r i
      | Eq => i
      end
    else min_ge_loop cf rs' (S i) lo hi best
  end.

(** The loop of [max_entry] L166-185. *)
Fixpoint max_loop (rs : list nat) (i mx best : nat) : nat :=
  match rs with
  | [] => best
  | r :: rs' =>
    if (mx <? r)%nat && negb (r =? removed_rank)%nat then max_loop rs' (S i) r i
    else max_loop rs' (S i) mx best
  end.

(** [Leaf::next] L303-332. *)
Fixpoint next_loop (cr index : nat) (rs : list nat) (i nr best : nat) : nat :=
  match rs with
  | [] => best
  | r :: rs' =>
    if negb (i =? index)%nat && negb (r =? uninit_rank)%nat && (r <? nr)%nat then
      if (r =? S cr)%nat then i
      else if (cr <? r)%nat then next_loop cr index rs' (S i) r i
      else next_loop cr index rs' (S i) nr best
    else next_loop cr index rs' (S i) nr best
  end.
Definition next (index : nat) (m : meta) : nat :=
  let cr := if (index =? num_entries)%nat then 0%nat else nth index (ranks m) 0%nat in
  if (cr <? num_entries)%nat then next_loop cr index (ranks m) 0 removed_rank num_entries
  else num_entries.

(** [optimal_boundary] L237-256.  [boundary -= 1] cannot go below zero. *)
Fixpoint boundary_loop (rs : list nat) (b prev : nat) : nat :=
  match rs with
  | [] => b
  | r :: rs' =>
    if live r then
      boundary_loop rs' (if (r <=? prev)%nat then b - 1 else if (prev =? 0)%nat then b else b + 1) r
    else boundary_loop rs' b prev
  end.
Definition optimal_boundary (m : meta) : nat :=
  Nat.min (Nat.max (boundary_loop (ranks m) num_entries 0) (num_entries / 2 + 1))
    (num_entries + num_entries / 2 - 1) - num_entries / 2.

(** [remove_if] L418-438: no other slot is live. *)
Fixpoint others_empty (rs : list nat) (i skip : nat) : bool :=
  match rs with
  | [] => true
  | r :: rs' => ((i =? skip)%nat || negb (live r)) && others_empty rs' (S i) skip
  end.
(** L440-443: [metadata | rank_mask(i)], retired if nothing is left. *)
Definition removal (m : meta) (i : nat) : meta :=
  let m' := augment m i removed_rank in
  if others_empty (ranks m) 0 i then retire m' else m'.

(** [is_empty] L143-157. *)
Definition no_live (m : meta) : bool := forallb (fun r => negb (live r)) (ranks m).

(** ** Ranges, L81-95. *)
Inductive bound (A : Type) := Included (a : A) | Excluded (a : A) | Unbounded.
Arguments Included {A} _. Arguments Excluded {A} _. Arguments Unbounded {A}.
Definition range_contains {Q K : Type} (qcmp : Q -> K -> comparison) (r : bound Q * bound Q) (k : K) : bool :=
  match r.1 with
  | Included a => match qcmp a k with Gt => false | _ => true end
  | Excluded a => match qcmp a k with Lt => true | _ => false end
  | Unbounded => true
  end &&
  match r.2 with
  | Included b => match qcmp b k with Lt => false | _ => true end
  | Excluded b => match qcmp b k with Gt => true | _ => false end
  | Unbounded => true
  end.

(** Results, L46-79. *)
Inductive ins_res := ISuccess | IDuplicate | IFull | IFrozen | IRetired.
Inductive rem_res := RSuccess | RRetired | RFail | RFrozen.

Section leaf.
Context {K V : Type} (cmp : K -> K -> comparison).

Record leaf := Leaf { md : meta; slots : list (option (K * V)) }.

(** [Leaf::new] L97-109. *)
Definition new_leaf : leaf := Leaf new_meta (replicate num_entries None).

(** [key_at]/[value_at] L259-266. *)
Definition entry_at (ss : list (option (K * V))) (i : nat) : option (K * V) := mjoin (ss !! i).
(** [compare] L732-737: [key.compare(slot).reverse()].  A slot without an entry is uninitialised
    memory; only live slots are compared, and those hold entries ([coherent], LeafOps.v). *)
Definition compare_at (ss : list (option (K * V))) (k : K) (i : nat) : comparison :=
  match entry_at ss i with Some e => CompOpp (cmp k e.1) | None => Gt end.

(** [search_slot], [search_entry], [search_value] L503-521. *)
Definition search_slot (ss : list (option (K * V))) (k : K) (m : meta) : option nat :=
  search_loop (compare_at ss k) (ranks m) 0 0 removed_rank.
Definition search_entry (l : leaf) (k : K) : option (K * V) :=
  i ← search_slot (slots l) k (md l); entry_at (slots l) i.

Definition max_less (l : leaf) (k : K) : nat :=
  max_less_loop (compare_at (slots l) k) (ranks (md l)) 0 0 removed_rank num_entries.
Definition min_greater_equal_slot (l : leaf) (k : K) : nat :=
  min_ge_loop (compare_at (slots l) k) (ranks (md l)) 0 0 removed_rank num_entries.
Definition min_greater_equal (l : leaf) (k : K) : option (K * V) :=
  let i := min_greater_equal_slot l k in
  if (i =? num_entries)%nat then None else entry_at (slots l) i.
Definition max_entry (l : leaf) : option (K * V) :=
  let i := max_loop (ranks (md l)) 0 0 num_entries in
  if (i =? num_entries)%nat then None else entry_at (slots l) i.
Definition is_empty (l : leaf) : bool := no_live (md l).

(** [rollback] L287-300. *)
Definition rollback_result (m : meta) : ins_res :=
  if retired m then IRetired else if frozen m then IFrozen else IDuplicate.
Definition rollback (l : leaf) (i : nat) : leaf * ins_res :=
  let m := augment (md l) i uninit_rank in
  (Leaf m (<[i := None]> (slots l)), rollback_result m).

(** [insert] L342-379 and [post_insert] L645-696 without interference. *)
Definition insert (l : leaf) (k : K) (v : V) : leaf * ins_res :=
  if retired (md l) then (l, IRetired)
  else if frozen (md l) then (l, IFrozen)
  else match first_uninit (ranks (md l)) 0 with
       | Some i =>
         let l1 := Leaf (augment (md l) i removed_rank) (<[i := Some (k, v)]> (slots l)) in
         match post (compare_at (slots l1) k) (md l1) i with
         | Some m => (Leaf m (slots l1), ISuccess)
         | None => rollback l1 i
         end
       | None =>
         if search_slot (slots l) k (md l) then (l, IDuplicate) else (l, IFull)
       end.

(** [insert_unchecked] L191-197. *)
Definition insert_unchecked (l : leaf) (k : K) (v : V) (i : nat) : leaf :=
  Leaf (augment (md l) i (S i)) (<[i := Some (k, v)]> (slots l)).

(** [remove_if] L383-475 without interference. *)
Definition remove_if (l : leaf) (k : K) (cond : V -> bool) : leaf * rem_res :=
  if frozen (md l) then (l, RFrozen)
  else match search_slot (slots l) k (md l) with
       | None => (l, RFail)
       | Some i =>
         match entry_at (slots l) i with
         | None => (l, RFail)
         | Some e =>
           if cond e.2 then
             (Leaf (removal (md l) i) (slots l),
              if others_empty (ranks (md l)) 0 i then RRetired else RSuccess)
           else (l, RFail)
         end
       end.

(** [remove_range] L481-499: over the ranks read at the start. *)
Fixpoint remove_range_loop (r : bound K * bound K) (rs : list nat) (i : nat) (l : leaf) : leaf :=
  match rs with
  | [] => l
  | rk :: rs' =>
    remove_range_loop r rs' (S i)
      (if live rk then
         match entry_at (slots l) i with
         | Some e => if range_contains cmp r e.1 then (remove_if l e.1 (fun _ => true)).1 else l
         | None => l
         end
       else l)
  end.
Definition remove_range (l : leaf) (r : bound K * bound K) : leaf :=
  remove_range_loop r (ranks (md l)) 0 l.

(** [Scanner] L865-1000 on one leaf: the entries from the one after [index] on. *)
Fixpoint scan_from (fuel : nat) (m : meta) (ss : list (option (K * V))) (index : nat) : list (K * V) :=
  match fuel with
  | O => []
  | S f =>
    let i := next index m in
    if (i =? num_entries)%nat then []
    else match entry_at ss i with
         | Some e => e :: scan_from f m ss i
         | None => []
         end
  end.
Definition scan (l : leaf) : list (K * V) := scan_from (S num_entries) (md l) (slots l) num_entries.

(** [freeze_and_distribute] L610-642: the frozen leaf, the lower leaf and the upper one if needed. *)
Fixpoint fill (l : leaf) (es : list (K * V)) (i : nat) : leaf :=
  match es with
  | [] => l
  | e :: es' => fill (insert_unchecked l e.1 e.2 i) es' (S i)
  end.
Definition distribute (l : leaf) : leaf * leaf * option leaf :=
  let b := optimal_boundary (md l) in
  let es := scan l in
  (Leaf (freeze (md l)) (slots l), fill new_leaf (take b es) 0,
   match drop b es with [] => None | hs => Some (fill new_leaf hs 0) end).

End leaf.
Arguments leaf : clear implicits.
Arguments Leaf {K V} _ _.
Arguments new_leaf {K V}.
