(** Threads operating on one TreeIndex leaf: every load, compare-and-swap and fetch-and-op of the
    metadata word is one step; steps of different threads interleave arbitrarily.

    Models leaf.rs as LeafModel.v does.  Simplifications:
    - sequential consistency;
    - the comparisons of keys a thread makes between two accesses to the metadata are one step with
      the next access (they read slots that LeafConcFacts.v proves not to change);
    - taking the entry out and clearing the rank ([rollback] L287-300) is one step: nobody else
      looks at the slot;
    - conditions are functions of the value. *)
From stdpp Require Import prelude list.
From Verif Require Import LeafModel.

Section conc.
Context {K V : Type} (cmp : K -> K -> comparison).

Inductive op :=
| OpSearch (k : K)
| OpInsert (k : K) (v : V)
| OpRemove (k : K) (cond : V -> bool)
| OpFreeze (* L210-222; L617-626 *)
| OpThaw (* L123-134 *).
Inductive res := RsFound (o : option V) | RsIns (r : ins_res) | RsRem (r : rem_res) | RsBool (b : bool).

(** What a thread is about to do. *)
Inductive pc :=
| PIdle
| PStart (o : op)                                (* the first load *)
| PSearch (k : K) (m : meta)                     (* search_slot L699 *)
| PInsert (k : K) (v : V) (m : meta)             (* L344-378 with [metadata = m] *)
| PWrite (k : K) (v : V) (i : nat) (m : meta)    (* L368 *)
| PPost (k : K) (v : V) (i : nat) (m : meta)     (* L647-690 with [prev_metadata = m] *)
| PRoll (k : K) (v : V) (i : nat)                (* L287-300 *)
| PRemove (k : K) (c : V -> bool) (m : meta)     (* L392-413 with [metadata = m] *)
| PTake (k : K) (c : V -> bool) (i : nat) (m : meta) (* L415-470: the loop for the slot [i] *)
| PDone (r : res).

Record state := State { lf : leaf K V; pcs : list pc }.
Inductive event := Call (t : nat) (o : op) | Ret (t : nat) (r : res).
Inductive action := ACall (t : nat) (o : op) | AStep (t : nat).

Definition set_md (l : leaf K V) (m : meta) : leaf K V := Leaf m (slots l).

(** One step of a thread: the leaf and what the thread does next. *)
Definition tstep (l : leaf K V) (p : pc) : option (leaf K V * pc) :=
  match p with
  | PIdle => None
  | PStart (OpSearch k) => Some (l, PSearch k (md l))
  | PStart (OpInsert k v) => Some (l, PInsert k v (md l))
  | PStart (OpRemove k c) => Some (l, PRemove k c (md l))
  | PStart OpFreeze =>
    if frozen (md l) then Some (l, PDone (RsBool false))
    else Some (set_md l (freeze (md l)), PDone (RsBool true))
  | PStart OpThaw =>
    if frozen (md l) then Some (set_md l (thaw (md l)), PDone (RsBool true))
    else Some (l, PDone (RsBool false))
  | PSearch k m =>
    Some (l, PDone (RsFound (i ← search_slot cmp (slots l) k m; snd <$> entry_at (slots l) i)))
  | PInsert k v m =>
    if retired m then Some (l, PDone (RsIns IRetired))
    else if frozen m then Some (l, PDone (RsIns IFrozen))
    else match first_uninit (ranks m) 0 with
         | Some i =>
           if decide (md l = m)
           then let m' := augment m i removed_rank in Some (set_md l m', PWrite k v i m')
           else Some (l, PInsert k v (md l))
         | None =>
           Some (l, PDone (RsIns (if search_slot cmp (slots l) k m then IDuplicate else IFull)))
         end
  | PWrite k v i m => Some (Leaf (md l) (<[i := Some (k, v)]> (slots l)), PPost k v i m)
  | PPost k v i m =>
    match post (compare_at cmp (slots l) k) m i with
    | None => Some (l, PRoll k v i)
    | Some m' =>
      if decide (md l = m) then Some (set_md l m', PDone (RsIns ISuccess))
      else if frozen (md l) || retired (md l) then Some (l, PRoll k v i)
      else Some (l, PPost k v i (md l))
    end
  | PRoll k v i => let z := rollback l i in Some (z.1, PDone (RsIns z.2))
  | PRemove k c m =>
    if frozen m then Some (l, PDone (RsRem RFrozen))
    else match search_slot cmp (slots l) k m with
         | None => Some (l, PDone (RsRem RFail))
         | Some i => Some (l, PTake k c i m)
         end
  | PTake k c i m =>
    match entry_at (slots l) i with
    | None => None
    | Some e =>
      if c e.2 then
        if decide (md l = m)
        then Some (set_md l (removal m i), PDone (RsRem (if others_empty (ranks m) 0 i then RRetired else RSuccess)))
        else if (nth i (ranks (md l)) 0 =? removed_rank)%nat then Some (l, PDone (RsRem RFail))
        else if frozen (md l) then Some (l, PDone (RsRem RFrozen))
        else Some (l, PTake k c i (md l))
      else Some (l, PDone (RsRem RFail))
    end
  | PDone _ => None
  end.

Definition step (s : state) (a : action) : option (state * list event) :=
  match a with
  | ACall t o =>
    match pcs s !! t with
    | Some PIdle => Some (State (lf s) (<[t := PStart o]> (pcs s)), [Call t o])
    | _ => None
    end
  | AStep t =>
    match pcs s !! t with
    | Some (PDone r) => Some (State (lf s) (<[t := PIdle]> (pcs s)), [Ret t r])
    | Some p => z ← tstep (lf s) p; Some (State z.1 (<[t := z.2]> (pcs s)), [])
    | None => None
    end
  end.

Fixpoint run (s : state) (as_ : list action) : option (state * list event) :=
  match as_ with
  | [] => Some (s, [])
  | a :: as' => z ← step s a; y ← run z.1 as'; Some (y.1, z.2 ++ y.2)
  end.
(** [n] threads on a leaf holding [es]. *)
Definition init (n : nat) (es : list (K * V)) : state :=
  State (fill new_leaf es 0) (replicate n PIdle).
End conc.
Arguments op : clear implicits.
Arguments res : clear implicits.
Arguments pc : clear implicits.
Arguments state : clear implicits.
Arguments event : clear implicits.
Arguments action : clear implicits.
