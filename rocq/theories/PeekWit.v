(** Schedules for the examples. *)
From Coq Require Import NArith.
From stdpp Require Import prelude list numbers.
From Verif Require Import PeekModel PeekSpec.

Definition low (k : N) : N := (k mod 256)%N.
Lemma low_64 k : (low k < 2 ^ 64)%N.
Proof. unfold low. pose proof (N.mod_lt k 256). transitivity 256%N; [lia|done]. Qed.

Notation st := (state N N).
Notation act := (action N N).
(** The number of steps a thread needs to end what it is doing. *)
Fixpoint need (f : nat) (s : st) (t : nat) : option nat :=
  match f with
  | O => None
  | S f => th ← threads s !! t;
           match work th with
           | Idle | Peek _ (PDone _) => Some 0
           | _ => s' ← step low s (AStep t); n ← need f s' t; Some (S n)
           end
  end.
Inductive part := Do (c : act) (t : nat) | One (c : act) | More (t n : nat) | Rest (t : nat).
Fixpoint plan (s : st) (l : list part) : option (list act) :=
  match l with
  | [] => Some []
  | c :: l' =>
    acts ← match c with
           | Do c t => s' ← step low s c; n ← need 300 s' t; Some (c :: replicate n (AStep t))
           | One c => Some [c]
           | More t n => Some (replicate n (AStep t))
           | Rest t => n ← need 300 s t; Some (replicate n (AStep t))
           end;
    s' ← run low s acts; q ← plan s' l'; Some (acts ++ q)
  end.
Definition schedule (s : st) (l : list part) : list act := match plan s l with Some a => a | None => [] end.
Definition reach (n : nat) (l : list act) : st := match run low (init n) l with Some s => s | None => init n end.

(** A check at every instant. *)
Fixpoint along (f : st -> bool) (s : st) (l : list act) : bool :=
  f s && match l with [] => true | c :: l' => match step low s c with Some s' => along f s' l' | None => true end end.
Lemma along_during (f : st -> bool) (P : st -> Prop) : (forall s, f s = true -> P s) ->
  forall l s, along f s l = true -> during low s l P.
Proof.
  intros F l. induction l as [|c l IH]; intros s A p q s' E R; cbn [along] in A; apply andb_prop in A as [A1 A2].
  - destruct p; [|done]. cbn in R. injection R as <-. by apply F.
  - destruct p as [|c' p]; cbn in R; [injection R as <-; by apply F|].
    cbn in E. injection E as <- ->. destruct (step low s c) as [s1|]; [|done]. by eapply (IH s1 A2 p q).
Qed.

(** Slots to look at, and a check that one of them has an entry with the key. *)
Definition slot_has (s : st) (k : N) (c : nat * nat * nat * nat) : bool :=
  let '(a, i, n, j) := c in
  bool_decide (cur s = Some a) &&
  match mem s !! a with
  | Some ar => match bks ar !! i with
    | Some b => match nodes b !! n with
      | Some nd => N.testbit (occ nd) (N.of_nat j) && negb (N.testbit (rem nd) (N.of_nat j)) &&
                   match data nd !! j with Some (Some x) => (okey x =? k)%N | _ => false end
      | None => false end
    | None => false end
  | None => false end.
Lemma slot_has_stored s k c : slot_has s k c = true -> exists x, okey x = k /\ stored s x.
Proof.
  destruct c as [[[a i] n] j]. unfold slot_has. intros H. apply andb_prop in H as [C H]. apply bool_decide_eq_true in C.
  destruct (mem s !! a) as [ar|] eqn:Ea; [|done]. destruct (bks ar !! i) as [b|] eqn:Eb; [|done].
  destruct (nodes b !! n) as [nd|] eqn:En; [|done]. apply andb_prop in H as [H1 H2]. apply andb_prop in H1 as [O R].
  apply negb_true_iff in R. destruct (data nd !! j) as [[x|]|] eqn:Ex; try done. apply N.eqb_eq in H2.
  exists x. split; [done|]. exists a, i, n, j, ar, b, nd. repeat split; auto.
Qed.
Definition has (s : st) (k : N) (l : list (nat * nat * nat * nat)) : bool := existsb (slot_has s k) l.
Lemma has_stored s k l : has s k l = true -> exists x, okey x = k /\ stored s x.
Proof. intros H. apply existsb_exists in H as (c & _ & H). by eapply slot_has_stored. Qed.

(** 33 keys in one bucket: the last one is in a link; one of the main block is removed, and four epochs
    pass.  A read of the last key has passed the main block. *)
Definition ins (k v : N) : part := Do (AOp 0 (OInsert 0 k v)) 0.
Definition crowded : list part :=
  One (ACreate 1) :: map (fun i => ins (N.of_nat i) 0) (seq 0 33) ++
  [Do (AOp 0 (OMark 0 0 0 5)) 0; One AEpoch; One AEpoch; One AEpoch; One AEpoch; One (AGuard 1); One (APeek 1 32%N)].
Definition passing : list act := Eval vm_compute in schedule (init 3) crowded.
(** [update] on the last key: the clean-up and the insertion of [insert], and [mark_removed]. *)
Definition updating : list part :=
  [More 1 37; Do (AOp 0 (OClear 0 0 1)) 0; Do (AOp 0 (OClear 0 0 0)) 0; ins 32 7; Do (AOp 0 (OMark 0 0 1 0)) 0; Rest 1].
Definition update_acts : list act := Eval vm_compute in schedule (reach 3 passing) updating.

(** An insertion into a bucket that has become empty: one reader saw the former length. *)
Definition early : list part :=
  [One (ACreate 1); ins 1 0; One (AGuard 1); One (AGuard 2); One (APeek 1 2%N); More 1 3; Do (AOp 0 (OMark 0 0 0 0)) 0;
   One (AOp 0 (OInsert 0 2%N 9%N)); More 0 3; Rest 1; One (APeek 2 2%N)].
Definition early_acts : list act := Eval vm_compute in schedule (init 3) early.
Definition late_acts : list act := Eval vm_compute in schedule (reach 3 early_acts) [Rest 2].
(** The operations that a schedule starts. *)
Definition op_of (c : action N N) : option (op N N) := match c with AOp _ o => Some o | _ => None end.
