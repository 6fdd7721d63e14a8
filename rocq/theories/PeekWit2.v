(** Schedules for the examples: an entry that stays while it is moved, a slot that is kept for a guard. *)
From Coq Require Import NArith.
From stdpp Require Import prelude list numbers.
From Verif Require Import PeekModel PeekSpec PeekWit.

(** The entry is in one of the slots, and no thread inserts or removes it. *)
Definition slot_is (s : st) (x : obj N N) (c : nat * nat * nat * nat) : bool :=
  let '(a, i, n, j) := c in
  (bool_decide (cur s = Some a) || bool_decide (old_of s = Some a)) &&
  match mem s !! a with
  | Some ar => match bks ar !! i with
    | Some b => match nodes b !! n with
      | Some nd => N.testbit (occ nd) (N.of_nat j) && negb (N.testbit (rem nd) (N.of_nat j)) && bool_decide (data nd !! j = Some (Some x))
      | None => false end
    | None => false end
  | None => false end.
Definition rests (s : st) (l : list (nat * nat * nat * nat)) (x : obj N N) : bool :=
  existsb (slot_is s x) l && forallb (fun th => match work th with Write w => negb (bool_decide (x.1 ∈ mine w)) | _ => true end) (threads s).
Lemma rests_settled s l x : rests s l x = true -> settled s x.
Proof.
  unfold rests. intros H. apply andb_prop in H as [H B]. split.
  - apply existsb_exists in H as ([[[a i] n] j] & _ & H). unfold slot_is in H. apply andb_prop in H as [C H].
    destruct (mem s !! a) as [ar|] eqn:Ea; [|done]. destruct (bks ar !! i) as [b|] eqn:Eb; [|done].
    destruct (nodes b !! n) as [nd|] eqn:En; [|done]. apply andb_prop in H as [H D]. apply andb_prop in H as [O R].
    apply negb_true_iff in R. apply bool_decide_eq_true in D. exists a, i, n, j, ar, b, nd. split; [|done].
    apply orb_prop in C as [C|C]; apply bool_decide_eq_true in C; auto.
  - intros (t & th & w & Et & W & M). rewrite forallb_forall in B. specialize (B th). rewrite W in B.
    apply elem_of_list_lookup_2, elem_of_list_In in Et. specialize (B Et). apply negb_true_iff in B. by apply bool_decide_eq_false in B.
Qed.
Definition holds (t : nat) (s : st) : bool := match threads s !! t with Some th => pinned th | None => false end.
Lemma holds_guarded t s : holds t s = true -> guarded t s.
Proof. unfold holds. destruct (threads s !! t) as [th|] eqn:E; [|done]. intros P. by exists th. Qed.

(** Three entries; a read of the first has loaded the array.  Another entry is inserted and removed, the
    table is resized, all entries are moved, the old array is detached. *)
Definition call_acts : list act := Eval vm_compute in
  schedule (init 3) [One (ACreate 0); ins 1 5; ins 2 6; One (AGuard 1); One (APeek 1 1%N)].
Definition stay_acts : list act := Eval vm_compute in
  schedule (reach 3 call_acts)
    [More 1 2; ins 3 7; Do (AOp 0 (OMark 0 0 0 1)) 0; One (AResize 1); One (AFreeze 0); Do (AOp 2 (OMove 0 0 0)) 2;
     Do (AOp 0 (OMove 0 0 2)) 0; One AUnlink; Rest 1].

(** A guard, the removal of an entry, an epoch, the clean-up of the block, an insertion. *)
Definition hold_acts : list act := Eval vm_compute in schedule (init 3) [One (ACreate 0); ins 1 5; One (AGuard 1)].
Definition kept_acts : list act := Eval vm_compute in
  schedule (reach 3 hold_acts) [Do (AOp 0 (OMark 0 0 0 0)) 0; One AEpoch; Do (AOp 0 (OClear 0 0 0)) 0; ins 2 6].
(** The same without the guard, and with the epochs that are then possible. *)
Definition lost_acts : list act := Eval vm_compute in
  schedule (reach 3 hold_acts)
    [One (ARelease 1); Do (AOp 0 (OMark 0 0 0 0)) 0; One AEpoch; One AEpoch; One AEpoch; One AEpoch; Do (AOp 0 (OClear 0 0 0)) 0; ins 2 6].

(** All entries in the memory pass a test. *)
Definition every (f : obj N N -> bool) (s : st) : bool :=
  forallb (fun ar => forallb (fun b => forallb (fun nd => forallb (fun d => match d with Some x => f x | None => true end) (data nd)) (nodes b)) (bks ar)) (mem s).
Lemma every_stored f s x : every f s = true -> stored s x -> f x = true.
Proof.
  unfold every. intros F (a & i & n & j & ar & b & nd & _ & Ea & Eb & En & _ & _ & D).
  apply elem_of_list_lookup_2, elem_of_list_In in Ea, Eb, En, D.
  rewrite forallb_forall in F. specialize (F ar Ea). rewrite forallb_forall in F. specialize (F b Eb). rewrite forallb_forall in F.
  specialize (F nd En). rewrite forallb_forall in F. exact (F _ D).
Qed.
Definition alone (s : st) (x : obj N N) : bool := every (fun y => negb (okey y =? okey x)%N || bool_decide (y = x)) s.
Lemma alone_only s x : alone s x = true -> forall y, stored s y -> okey y = okey x -> y = x.
Proof.
  intros A y Sy Ky. pose proof (every_stored _ _ _ A Sy) as H. cbn in H. rewrite Ky, N.eqb_refl in H. cbn in H. by apply bool_decide_eq_true in H.
Qed.
Definition lacks (s : st) (k : N) : bool := every (fun y => negb (okey y =? k)%N) s.
Lemma lacks_absent s k : lacks s k = true -> forall y, stored s y -> okey y <> k.
Proof. intros A y Sy Ky. pose proof (every_stored _ _ _ A Sy) as H. cbn in H. by rewrite Ky, N.eqb_refl in H. Qed.
(** A read of another key while the entry is moved. *)
Definition miss_acts : list act := Eval vm_compute in schedule (init 3) [One (ACreate 0); ins 1 5; One (AGuard 1); One (APeek 1 9%N)].
Definition missed_acts : list act := Eval vm_compute in
  schedule (reach 3 miss_acts) [More 1 2; One (AResize 1); One (AFreeze 0); Do (AOp 2 (OMove 0 0 0)) 2; Rest 1].
(** A read that has compared the partial hashes when the entry is moved and the array detached. *)
Definition probe_acts : list act := Eval vm_compute in
  call_acts ++ schedule (reach 3 call_acts)
    [More 1 38; Do (AOp 0 (OMark 0 0 0 1)) 0; One (AResize 1); One (AFreeze 0); Do (AOp 2 (OMove 0 0 0)) 2; One AUnlink].
