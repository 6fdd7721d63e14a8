(** * Suspended operations: the glue *)

Require Import List Arith Bool Lia.
Import ListNotations.
Require Import Verif.SuspModel Verif.SuspSpec Verif.SuspRun.

Lemma lC61_careful bidx n l : indexes bidx -> careful bidx n l -> harmless bidx n l.
Proof. intro H. exact (careful_harmless bidx H n l). Qed.

(** Buckets are selected by the remainder, in the examples. *)
Definition bx (h n : nat) : nat := h mod n.

Lemma bx_ok : indexes bx.
Proof. intros h n H. apply Nat.mod_upper_bound. lia. Qed.

Definition st (t n : nat) : list action := repeat (AStep t true) n.
Definition nb (t n : nat) : list action := repeat (AStep t false) n.

(** An iteration under shared locks (task 0) waits for a bucket of the only array.  The array is
    replaced; task 2 moves and kills the bucket, unlinks the array and lets go of it. *)
Definition scan_run : list action :=
  [ANew 0 0; AStart 1 (Key 0); AStart 0 ScanR] ++ nb 1 4 ++ nb 0 4 ++
  [AResize 1 1; AStart 2 (Key 0)] ++ st 2 4 ++ st 0 1 ++ st 1 1 ++ st 2 12.

Lemma lC61_scan : exists l s,
  run bx (init 3) (l ++ [AFree 0] ++ st 0 2) = Some s /\ err s = Some (EUaf 0 0) /\
  exists s1, run bx (init 3) l = Some s1 /\ kd (tks s1 0) = ScanR /\ at_ (tks s1 0) = PLk true 0 /\
             gd (tks s1 0) = None.
Proof.
  exists scan_run. destruct (run bx (init 3) (scan_run ++ [AFree 0] ++ st 0 2)) as [s|] eqn:E; [|vm_compute in E; discriminate E].
  exists s. split; [reflexivity|]. split.
  - vm_compute in E. injection E as <-. reflexivity.
  - clear E. destruct (run bx (init 3) scan_run) as [s1|] eqn:E; [|vm_compute in E; discriminate E].
    exists s1. vm_compute in E. injection E as <-. repeat split.
Qed.

(** A keyed operation (task 0) waits for an old bucket that task 1 moves; it is the last one to leave
    the rehashing and unlinks the old array, without a guard.  Before it goes on, the current array is
    replaced, emptied and reclaimed. *)
Definition key_run : list action :=
  [ANew 0 0; AResize 1 1; AStart 0 (Key 0); AStart 1 (Key 0)] ++ nb 0 3 ++ nb 1 6 ++
  st 0 1 ++ st 1 6 ++ st 0 5 ++ [AResize 2 2; AStart 1 (Key 0)] ++ st 1 17 ++ [AFree 1] ++ st 0 2.

Lemma lC61_key : exists l s,
  (forall t k, In (AStart t k) l -> exists h, k = Key h) /\
  run bx (init 2) l = Some s /\ err s = Some (EUaf 0 1).
Proof.
  exists key_run. destruct (run bx (init 2) key_run) as [s|] eqn:E; [|vm_compute in E; discriminate E].
  exists s. split; [|split; [reflexivity|]].
  - intros t k I.
    assert (B : forallb (fun x => match x with AStart _ (Key _) => true | AStart _ _ => false | _ => true end) key_run = true)
      by (vm_compute; reflexivity).
    rewrite forallb_forall in B. specialize (B _ I). destruct k; try discriminate B. now exists h.
  - vm_compute in E. injection E as <-. reflexivity.
Qed.

(** An iteration under exclusive locks (task 0) that is at bucket 2 of an array of four buckets.  That
    array is reclaimed, an array of two buckets is allocated at its address, and the iteration takes the
    one for the other. *)
Definition aba_run : list action :=
  [ANew 1 0; AStart 4 (Key 1); AStart 0 ScanW] ++ nb 4 4 ++ nb 0 6 ++ [AStart 1 (Key 0)] ++ nb 0 3 ++ nb 1 4 ++
  [AResize 2 1; AStart 2 (Key 0); AStart 3 (Key 2)] ++ st 2 4 ++ st 3 6 ++ st 0 1 ++ st 4 1 ++ st 3 7 ++
  st 0 2 ++ [ACancel 2] ++
  st 0 4 ++ [AStart 3 (Key 0)] ++ st 3 6 ++ st 0 1 ++ st 1 1 ++ st 3 7 ++ st 0 6 ++
  [AResize 0 2; AStart 1 (Key 0)] ++ st 1 21 ++ [AFree 1; AResize 1 1] ++ st 0 4.

Lemma lC61_aba : exists l s t a i,
  run bx (init 5) l = Some s /\ err s = Some (EOob t a i) /\ kd (tks s t) = ScanW /\ ln (arrs s a) <= i.
Proof.
  destruct (run bx (init 5) aba_run) as [s|] eqn:E; [|vm_compute in E; discriminate E].
  exists aba_run, s. vm_compute in E. injection E as <-. exists 0, 2, 1. repeat split. vm_compute. constructor.
Qed.

(** Carefulness of a given run can be computed. *)
Fixpoint carefulb (bidx : nat -> nat -> nat) (n : nat) (s : state) (l : list action) : bool :=
  match l with
  | [] => true
  | x :: l =>
      match x with
      | AFree a => forallb (fun t => negb (exposed (tks s t) a)) (seq 0 n)
      | _ => true
      end &&
      match step bidx s x with None => true | Some s => carefulb bidx n s l end
  end.

Lemma carefulb_ok bidx n l : forall s0, carefulb bidx n s0 l = true ->
  forall l1 x l2 s, l = l1 ++ AFree x :: l2 -> run bidx s0 l1 = Some s ->
  forall t, t < n -> exposed (tks s t) x = false.
Proof.
  induction l as [|y l IH]; intros s0 B l1 x l2 s E R t T.
  - destruct l1; discriminate E.
  - cbn [carefulb] in B. apply andb_true_iff in B as [B1 B2]. destruct l1 as [|z l1].
    + cbn in E. injection E as -> ->. cbn in R. injection R as <-.
      rewrite forallb_forall in B1. assert (J : In t (seq 0 n)) by (apply in_seq; lia).
      specialize (B1 t J). cbn beta in B1. now apply negb_true_iff in B1.
    + cbn in E. injection E as <- ->. cbn [run] in R.
      destruct (step bidx s0 y) as [s1|]; [|discriminate R].
      exact (IH s1 B2 l1 x l2 s eq_refl R t T).
Qed.

(** A careful run in which an iteration is suspended, an array is replaced and reclaimed, and the
    iteration ends in the new array. *)
Definition ok_run : list action :=
  [ANew 0 0; AStart 1 (Key 0); AStart 0 ScanW] ++ nb 1 4 ++ nb 0 4 ++
  [AResize 1 1; AStart 2 (Key 0)] ++ st 2 4 ++ st 0 1 ++ st 1 1 ++ st 2 12 ++ [AFree 0] ++ st 0 14.

Lemma lC61_ex : careful bx 3 ok_run /\
  exists s, run bx (init 3) ok_run = Some s /\ fr (arrs s 0) = true /\ at_ (tks s 0) = PDone /\ rf (tks s 0) = 1 /\
            ix (tks s 0) = 2.
Proof.
  split.
  - intros l1 x l2 s. apply carefulb_ok. vm_compute. reflexivity.
  - destruct (run bx (init 3) ok_run) as [s|] eqn:E; [|vm_compute in E; discriminate E].
    exists s. vm_compute in E. injection E as <-. repeat split.
Qed.
