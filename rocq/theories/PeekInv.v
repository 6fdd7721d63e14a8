(** The invariant of the lock-free reads: buckets, writers, arrays, guards. *)
From Coq Require Import NArith.
From stdpp Require Import prelude list numbers.
From Verif Require BucketSpec BucketFacts BucketOps.
From Verif Require Import PeekModel PeekSpec.
Notation tb := BucketSpec.tb.

Section inv.
Context {K V : Type} `{EqDecision K} (hash : K -> N).
Notation obj := (obj K V).
Notation node := (node K V).
Notation bucket := (bucket K V).

Definition size (n : nat) : nat := match n with O => 32 | _ => 8 end.
Definition nwf (n : nat) (nd : node) : Prop :=
  length (cells nd) = size n /\ length (data nd) = size n /\
  (forall j, tb (occ nd) j = true -> exists x, data nd !! j = Some (Some x)).
(** [c] are the links behind block [n]. *)
Fixpoint path (ns : list node) (n : nat) (c : list nat) : Prop :=
  exists nd, ns !! n = Some nd /\
  match c with [] => next nd = None | q :: c' => next nd = Some q /\ path ns q c' end.
(** The number of reachable entries. *)
Definition count (nd : node) : nat := length (filter (fun j => live_in nd j = true) (seq 0 32)).
Definition total (ns : list node) : nat := sum_list_with count ns.

(** [I]: the keys that belong to the bucket; [X]: the slots exempted, as they are being inserted or
    removed. *)
Definition well_cells (I : K -> Prop) (X : nat -> nat -> Prop) (b : bucket) : Prop :=
  forall n j x nd, nodes b !! n = Some nd -> live_at b n j = Some x -> ~ X n j ->
  cells nd !! j = Some (partial_hash (hash (okey x))) /\ I (okey x) /\ 1 <= blen b.
Definition linked_up (X : nat -> nat -> Prop) (b : bucket) : Prop :=
  exists c, path (nodes b) 0 c /\ NoDup (0 :: c) /\ forall n j x, live_at b n j = Some x -> ~ X n j -> n ∈ 0 :: c.
Record good (I : K -> Prop) (X : nat -> nat -> Prop) (b : bucket) : Prop := Good {
  g_wf : forall n nd, nodes b !! n = Some nd -> nwf n nd;
  g_cells : well_cells I X b;
  g_chain : linked_up X b }.
Definition none (n j : nat) : Prop := False.
(** Only occupied slots are marked as removed. *)
Definition tidy (b : bucket) : Prop := forall n nd j, nodes b !! n = Some nd -> tb (rem nd) j = true -> tb (occ nd) j = true.
Definition idle (I : K -> Prop) (b : bucket) : Prop := good I none b /\ blen b = total (nodes b) /\ tidy b.

(** What holds of a store at the time it is made: [E] is the epoch, [g] the epoch of the guard of the
    writer, [ex] the slots exempted, [bs] the locked buckets. *)
Definition pre (E g : N) (ex : list (nat * nat * nat)) (bs : list bucket) (h : nat) (b : bucket) (w : write K V) : Prop :=
  match w with
  | WData n j _ => frozen b = false /\ exists nd, nodes b !! n = Some nd /\ tb (occ nd) j = false
  | WCell n j _ => frozen b = false /\ exists nd, nodes b !! n = Some nd /\ tb (occ nd) j = false
  | WStamp n j => frozen b = false /\ (h, n, j) ∈ ex /\ exists nd, nodes b !! n = Some nd /\ tb (rem nd) j = false
  | WOcc n m => exists nd, nodes b !! n = Some nd /\
    ((frozen b = false /\ exists j x, m = N.lor (occ nd) (bit j) /\ tb (occ nd) j = false /\ tb (rem nd) j = false /\
        data nd !! j = Some (Some x) /\ (h, n, j) ∈ ex) \/
     (frozen b = false /\ exists d, m = N.ldiff (occ nd) d /\ forall j, tb d j = true -> tb (rem nd) j = true /\ (h, n, j) ∉ ex) \/
     (frozen b = true /\ h = 0 /\ exists j x, m = N.ldiff (occ nd) (bit j) /\ live_at b n j = Some x /\
        exists t n' j', bs !! 1 = Some t /\ live_at t n' j' = Some x /\ (1, n', j') ∉ ex))
  | WRem n m => frozen b = false /\ exists nd, nodes b !! n = Some nd /\
    ((exists j r, m = N.lor (rem nd) (bit j) /\ (h, n, j) ∈ ex /\ tb (occ nd) j = true /\ cells nd !! j = Some (byte r) /\ (g <= r <= E)%N) \/
     (exists d, m = N.ldiff (rem nd) d /\ forall j, tb d j = true -> tb (occ nd) j = false))
  | WLen _ => True
  | WNext n q => frozen b = false /\ exists nd, nodes b !! n = Some nd /\
    ((q = None /\ exists u ud, next nd = Some u /\ nodes b !! u = Some ud /\ occ ud = 0%N /\ next ud = None) \/
     (next nd = None /\ exists u ud, q = Some u /\ nodes b !! u = Some ud) \/
     (exists u ud, q = Some u /\ nodes b !! u = Some ud /\ next ud = next nd /\ n <> u))
  | WNew nd => frozen b = false /\ forall q, next nd = Some q -> exists qd, nodes b !! q = Some qd
  | WDrop n j => frozen b = false /\ exists nd, nodes b !! n = Some nd /\ tb (occ nd) j = false
  end.
Definition cov (mine : list nat) (ex : list (nat * nat * nat)) (bs : list bucket) : Prop :=
  forall h n j b x, bs !! h = Some b -> live_at b n j = Some x -> (h, n, j) ∈ ex ->
  x.1 ∈ mine \/ exists h' n' j' b', bs !! h' = Some b' /\ live_at b' n' j' = Some x /\ (h', n', j') ∉ ex.
Definition exh (ex : list (nat * nat * nat)) (h : nat) (n j : nat) : Prop := (h, n, j) ∈ ex.
Fixpoint safe (E g : N) (mine : list nat) (Is : nat -> K -> Prop) (ex : list (nat * nat * nat)) (bs : list bucket)
  (l : list (nat * write K V)) : Prop :=
  (forall h b, bs !! h = Some b -> good (Is h) (exh ex h) b) /\ cov mine ex bs /\
  match l with
  | [] => ex = [] /\ forall h b, bs !! h = Some b -> idle (Is h) b
  | (h, w) :: l' =>
    exists b, bs !! h = Some b /\ pre E g ex bs h b w /\
    forall e, (E <= e)%N -> exists b' ex', store e b w = Some b' /\ ex' ⊆ ex /\ safe e g mine Is ex' (<[h := b']> bs) l'
  end.
End inv.
