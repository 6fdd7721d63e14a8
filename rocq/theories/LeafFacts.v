(** The loops over the ranks of a leaf. *)
From stdpp Require Import prelude list sorting.
From Verif Require Import LeafModel LeafSpec.

Lemma live_spec r : live r = true <-> r <> 0 /\ r <> 15.
Proof. unfold live, uninit_rank, removed_rank. rewrite andb_true_iff, !negb_true_iff, !Nat.eqb_neq. done. Qed.
Lemma live_bnd r : r <= 15 -> live r = true <-> 0 < r < 15.
Proof. intros. rewrite live_spec. lia. Qed.

(** Ranks and an order of the slots relative to a key that agree. *)
Section loops.
Variables (R : list nat) (cf : nat -> comparison).
Hypothesis Rle : forall i r, R !! i = Some r -> r <= 15.
Hypothesis Rinj : forall i j r, R !! i = Some r -> R !! j = Some r -> live r = true -> i = j.
Hypothesis mono_lt : forall i j r r', R !! i = Some r -> R !! j = Some r' ->
  live r = true -> live r' = true -> r < r' -> cf j <> Gt -> cf i = Lt.
Hypothesis mono_gt : forall i j r r', R !! i = Some r -> R !! j = Some r' ->
  live r = true -> live r' = true -> r < r' -> cf i <> Lt -> cf j = Gt.

Definition lo_ok (lo : nat) := lo = 0 \/ exists j, R !! j = Some lo /\ live lo = true /\ cf j = Lt.
Definition hi_ok (i hi : nat) := hi = 15 \/ exists j, j < i /\ R !! j = Some hi /\ live hi = true /\ cf j = Gt.
(** The slots before [i] have been told apart. *)
Definition told (i lo hi : nat) := forall j r, j < i -> R !! j = Some r -> live r = true ->
  (cf j = Lt /\ r <= lo) \/ (cf j = Gt /\ hi <= r).

Lemma told_0 lo hi : told 0 lo hi.
Proof. intros j r H. lia. Qed.
Lemma lo_0 : lo_ok 0.
Proof. by left. Qed.
Lemma hi_15 i : hi_ok i 15.
Proof. by left. Qed.
Lemma hi_weak i hi : hi_ok i hi -> hi_ok (S i) hi.
Proof. intros [->|(j & ? & ?)]; [by left|]. right. exists j. split; [lia|done]. Qed.
Lemma lo_bound i lo hi : lo_ok lo -> hi_ok i hi -> lo < hi.
Proof.
  intros [->|(j & Hj & Lj & Cj)] [->|(j' & _ & Hj' & Lj' & Cj')].
  - lia.
  - apply live_spec in Lj'. lia.
  - pose proof (Rle _ _ Hj). apply live_spec in Lj. lia.
  - destruct (decide (lo < hi)) as [|Hn]; [done|].
    destruct (decide (lo = hi)) as [->|].
    + rewrite (Rinj _ _ _ Hj Hj' Lj) in Cj. congruence.
    + exfalso. assert (cf j = Gt); [|congruence].
      eapply (mono_gt j' j hi lo); eauto; [lia|congruence].
Qed.
(** A slot outside the bracket is told by its rank. *)
Lemma told_skip i r lo hi : R !! i = Some r -> lo_ok lo -> hi_ok i hi -> told i lo hi ->
  ~ (lo < r < hi) -> told (S i) lo hi.
Proof.
  intros Hi Lo Hi' T N j r' Hj Hr Lv.
  destruct (decide (j = i)) as [->|]; [|apply T; auto; lia].
  rewrite Hi in Hr. injection Hr as <-.
  pose proof (Rle _ _ Hi) as Hle. apply (live_bnd _ Hle) in Lv as Lv'.
  destruct (decide (r <= lo)) as [H|H].
  - destruct Lo as [->|(j & Hj' & Lj & Cj)]; [lia|].
    left. split; [|done].
    destruct (decide (r = lo)) as [->|]; [by rewrite (Rinj _ _ _ Hi Hj' Lv)|].
    eapply (mono_lt i j r lo); eauto; [lia|congruence].
  - assert (hi <= r) by lia.
    destruct Hi' as [->|(j & _ & Hj' & Lj & Cj)]; [lia|].
    right. split; [|done].
    destruct (decide (r = hi)) as [->|]; [by rewrite (Rinj _ _ _ Hi Hj' Lv)|].
    eapply (mono_gt j i hi r); eauto; [lia|congruence].
Qed.
Lemma told_lt i r lo hi : R !! i = Some r -> hi_ok i hi -> told i lo hi -> lo < r < hi -> cf i = Lt ->
  lo_ok r /\ told (S i) r hi.
Proof.
  intros Hi Hh T B C.
  pose proof (Rle _ _ Hi) as Hle.
  assert (live r = true) as Lv.
  { apply (live_bnd _ Hle). split; [lia|]. destruct Hh as [->|(j & _ & Hj' & Lj & Cj)]; [lia|].
    pose proof (Rle _ _ Hj'). apply live_spec in Lj. lia. }
  split; [right; eauto|].
  intros j r' Hj Hr Lj. destruct (decide (j = i)) as [->|].
  - rewrite Hi in Hr. injection Hr as <-. left. split; [done|lia].
  - destruct (T j r') as [[? ?]|]; auto; [lia|]. left. split; [done|lia].
Qed.
Lemma told_gt i r lo hi : R !! i = Some r -> hi_ok i hi -> told i lo hi -> lo < r < hi -> cf i = Gt ->
  hi_ok (S i) r /\ told (S i) lo r.
Proof.
  intros Hi Hh T B C.
  pose proof (Rle _ _ Hi) as Hle.
  assert (live r = true) as Lv.
  { apply (live_bnd _ Hle). split; [lia|]. destruct Hh as [->|(j & _ & Hj' & Lj & Cj)]; [lia|].
    pose proof (Rle _ _ Hj'). apply live_spec in Lj. lia. }
  split; [right; exists i; repeat split; [lia|done..]|].
  intros j r' Hj Hr Lj. destruct (decide (j = i)) as [->|].
  - rewrite Hi in Hr. injection Hr as <-. right. split; [done|lia].
  - destruct (T j r') as [|[? ?]]; auto; [lia|]. right. split; [done|lia].
Qed.
Lemma in_live i r lo hi : R !! i = Some r -> hi_ok i hi -> lo < r < hi -> live r = true.
Proof.
  intros Hi Hh B. pose proof (Rle _ _ Hi) as Hle. apply (live_bnd _ Hle).
  split; [lia|]. destruct Hh as [->|(j & _ & Hj' & Lj & Cj)]; [lia|].
  pose proof (Rle _ _ Hj'). apply live_spec in Lj. lia.
Qed.

Lemma bracket_true r lo hi : (r <? hi) && (lo <? r) = true <-> lo < r < hi.
Proof. rewrite andb_true_iff, !Nat.ltb_lt. lia. Qed.
Lemma bracket_false r lo hi : (r <? hi) && (lo <? r) = false <-> ~ (lo < r < hi).
Proof. rewrite <-bracket_true. by destruct (_ && _). Qed.

Lemma drop_cons_inv i r (rs : list nat) : drop i R = r :: rs -> R !! i = Some r /\ rs = drop (S i) R.
Proof.
  intros E. assert (R !! i = Some r) as H.
  { rewrite <-(Nat.add_0_r i), <-lookup_drop, E. done. }
  split; [done|]. by rewrite (drop_S _ _ _ H) in E; injection E.
Qed.

Lemma search_loop_spec rs : forall i lo hi, rs = drop i R -> lo_ok lo -> hi_ok i hi -> told i lo hi ->
  match search_loop cf rs i lo hi with
  | Some j => cf j = Eq /\ exists r, R !! j = Some r /\ live r = true
  | None => forall j r, R !! j = Some r -> live r = true -> cf j <> Eq
  end.
Proof.
  induction rs as [|r rs IH]; intros i lo hi E Lo Hi T; cbn [search_loop].
  - intros j r Hj Lv. destruct (T j r) as [[-> _]|[-> _]]; auto.
    assert (j < length R) by (by eapply lookup_lt_Some).
    assert (length (drop i R) = 0) by (by rewrite <-E). rewrite drop_length in H0. lia.
  - destruct (drop_cons_inv i r rs) as [Hr ->]; [done|].
    destruct ((r <? hi) && (lo <? r)) eqn:B.
    + apply bracket_true in B. destruct (cf i) eqn:C.
      * split; [done|]. exists r. split; [done|]. by eapply in_live.
      * destruct (told_lt _ _ _ _ Hr Hi T B C). apply IH; auto using hi_weak.
      * destruct (told_gt _ _ _ _ Hr Hi T B C). apply IH; auto using hi_weak.
    + apply bracket_false in B. apply IH; auto using hi_weak. by eapply told_skip.
Qed.

Definition bumped (j r : nat) : nat := if live r then match cf j with Gt => S r | _ => r end else r.
Lemma post_loop_spec rs : forall i lo hi, rs = drop i R -> lo_ok lo -> hi_ok i hi -> told i lo hi ->
  match post_loop cf rs i lo hi with
  | Some (z, lo') => length z = length rs /\ (forall j r, R !! (i + j) = Some r -> z !! j = Some (bumped (i + j) r)) /\
      lo_ok lo' /\ (forall j r, R !! j = Some r -> live r = true -> (cf j = Lt /\ r <= lo') \/ (cf j = Gt /\ lo' < r))
  | None => exists j r, R !! j = Some r /\ live r = true /\ cf j = Eq
  end.
Proof.
  induction rs as [|r rs IH]; intros i lo hi E Lo Hi T; cbn [post_loop].
  - split; [done|]. assert (length R <= i) as Hl.
    { assert (length (drop i R) = 0) by (by rewrite <-E). rewrite drop_length in H. lia. }
    split; [|split; [done|]].
    + intros j r Hj. apply lookup_lt_Some in Hj. lia.
    + intros j r Hj Lv. destruct (T j r) as [[-> ?]|[-> ?]]; auto.
      * apply lookup_lt_Some in Hj. lia.
      * right. split; [done|]. pose proof (lo_bound _ _ _ Lo Hi). lia.
  - destruct (drop_cons_inv i r rs) as [Hr ->]; [done|].
    assert (forall lo' hi' (u : nat), lo_ok lo' -> hi_ok (S i) hi' -> told (S i) lo' hi' -> u = bumped i r ->
      match (z ← post_loop cf (drop (S i) R) (S i) lo' hi'; Some (u :: z.1, z.2)) with
      | Some (z, lo') => length z = length (r :: drop (S i) R) /\ (forall j r, R !! (i + j) = Some r -> z !! j = Some (bumped (i + j) r)) /\
         lo_ok lo' /\ (forall j r, R !! j = Some r -> live r = true -> (cf j = Lt /\ r <= lo') \/ (cf j = Gt /\ lo' < r))
      | None => exists j r, R !! j = Some r /\ live r = true /\ cf j = Eq
      end) as Step.
    { intros lo' hi' u Lo' Hi' T' ->. specialize (IH (S i) lo' hi' eq_refl Lo' Hi' T').
      destruct (post_loop cf (drop (S i) R) (S i) lo' hi') as [[z l]|]; cbn [mbind option_bind]; [|done].
      destruct IH as (Ln & Z & Lo'' & F). cbn [fst snd length]. split; [lia|]. split; [|done].
      intros [|j] r' Hj.
      - rewrite Nat.add_0_r in Hj |- *. rewrite Hr in Hj. injection Hj as <-. done.
      - rewrite <-Nat.add_succ_comm in Hj |- *. by apply Z. }
    destruct ((r <? hi) && (lo <? r)) eqn:B.
    + apply bracket_true in B. pose proof (in_live _ _ _ _ Hr Hi B) as Lv. destruct (cf i) eqn:C.
      * eauto.
      * destruct (told_lt _ _ _ _ Hr Hi T B C). apply (Step r hi); auto using hi_weak. unfold bumped. by rewrite Lv, C.
      * destruct (told_gt _ _ _ _ Hr Hi T B C). apply (Step lo r); auto. unfold bumped. by rewrite Lv, C.
    + apply bracket_false in B. pose proof (told_skip _ _ _ _ Hr Lo Hi T B) as T'.
      apply (Step lo hi); auto using hi_weak. unfold bumped. pose proof (Rle _ _ Hr) as Hle.
      destruct (live r) eqn:Lv.
      * apply (live_bnd _ Hle) in Lv as Lv'. assert (r <> removed_rank) as Nr by (unfold removed_rank; lia).
        apply Nat.eqb_neq in Nr. rewrite Nr. cbn [negb andb].
        destruct (T' i r) as [[-> ?]|[-> ?]]; auto; try lia.
        -- assert (hi <? r = false) as ->; [|done]. apply Nat.ltb_ge.
           pose proof (lo_bound _ _ _ Lo Hi). lia.
        -- assert (hi <? r = true) as ->; [|done]. apply Nat.ltb_lt.
           destruct (decide (hi = r)) as [->|]; [|lia]. exfalso.
           destruct Hi as [->|(j & Hji & Hj & Lj & Cj)]; [lia|].
           rewrite (Rinj _ _ _ Hj Hr Lj) in Hji. lia.
      * assert (negb (r =? removed_rank) && (hi <? r) = false) as ->; [|done].
        destruct (decide (r = 15)) as [->|]; [done|]. assert (r = 0) as -> by (destruct (decide (r = 0)); [done|]; exfalso; assert (live r = true); [apply live_spec; lia|congruence]).
        apply andb_false_iff. right. apply Nat.ltb_ge. lia.
Qed.

Definition best_lt (b : nat) : Prop :=
  (b = 14 /\ forall j r, R !! j = Some r -> live r = true -> cf j <> Lt) \/
  (exists rb, R !! b = Some rb /\ live rb = true /\ cf b = Lt /\
     forall j r, R !! j = Some r -> live r = true -> cf j = Lt -> r <= rb).
Lemma max_less_loop_spec rs : (forall j, cf j <> Eq) -> forall i lo hi b, rs = drop i R ->
  lo_ok lo -> hi_ok i hi -> told i lo hi ->
  (b = 14 /\ lo = 0) \/ (R !! b = Some lo /\ live lo = true /\ cf b = Lt) ->
  best_lt (max_less_loop cf rs i lo hi b).
Proof.
  intros NE. induction rs as [|r rs IH]; intros i lo hi b E Lo Hi T Hb; cbn [max_less_loop].
  - assert (length R <= i) as Hl.
    { assert (length (drop i R) = 0) by (by rewrite <-E). rewrite drop_length in H. lia. }
    destruct Hb as [[-> ->]|(Hb & Lb & Cb)].
    + left. split; [done|]. intros j r Hj Lv C.
      destruct (T j r) as [[_ ?]|[? _]]; auto; [apply lookup_lt_Some in Hj; lia| |congruence].
      apply live_spec in Lv. lia.
    + right. exists lo. repeat split; auto. intros j r Hj Lv C.
      destruct (T j r) as [[_ ?]|[? _]]; auto; [apply lookup_lt_Some in Hj; lia|congruence].
  - destruct (drop_cons_inv i r rs) as [Hr ->]; [done|].
    destruct ((r <? hi) && (lo <? r)) eqn:B.
    + apply bracket_true in B. pose proof (in_live _ _ _ _ Hr Hi B) as Lv. destruct (cf i) eqn:C.
      * by destruct (NE i).
      * destruct (told_lt _ _ _ _ Hr Hi T B C). apply IH; auto using hi_weak.
      * destruct (told_gt _ _ _ _ Hr Hi T B C). apply IH; auto using hi_weak.
    + apply bracket_false in B. apply IH; auto using hi_weak. by eapply told_skip.
Qed.

Definition best_ge (b : nat) : Prop :=
  (b = 14 /\ forall j r, R !! j = Some r -> live r = true -> cf j = Lt) \/
  (exists rb, R !! b = Some rb /\ live rb = true /\ cf b <> Lt /\
     forall j r, R !! j = Some r -> live r = true -> cf j <> Lt -> rb <= r).
Lemma min_ge_loop_spec rs : forall i lo hi b, rs = drop i R ->
  lo_ok lo -> hi_ok i hi -> told i lo hi ->
  (b = 14 /\ hi = 15) \/ (R !! b = Some hi /\ live hi = true /\ cf b = Gt) ->
  best_ge (min_ge_loop cf rs i lo hi b).
Proof.
  induction rs as [|r rs IH]; intros i lo hi b E Lo Hi T Hb; cbn [min_ge_loop].
  - assert (length R <= i) as Hl.
    { assert (length (drop i R) = 0) by (by rewrite <-E). rewrite drop_length in H. lia. }
    destruct Hb as [[-> ->]|(Hb & Lb & Cb)].
    + left. split; [done|]. intros j r Hj Lv.
      destruct (T j r) as [[? _]|[_ ?]]; auto; [apply lookup_lt_Some in Hj; lia|].
      pose proof (Rle _ _ Hj). apply live_spec in Lv. lia.
    + right. exists hi. repeat split; auto; [congruence|]. intros j r Hj Lv C.
      destruct (T j r) as [[? _]|[_ ?]]; auto; [apply lookup_lt_Some in Hj; lia|congruence].
  - destruct (drop_cons_inv i r rs) as [Hr ->]; [done|].
    destruct ((r <? hi) && (lo <? r)) eqn:B.
    + apply bracket_true in B. pose proof (in_live _ _ _ _ Hr Hi B) as Lv. destruct (cf i) eqn:C.
      * right. exists r. repeat split; auto; [congruence|]. intros j r' Hj Lj Cj.
        destruct (decide (r <= r')); [done|]. exfalso. apply Cj.
        eapply (mono_lt j i r' r); eauto; [lia|congruence].
      * destruct (told_lt _ _ _ _ Hr Hi T B C). apply IH; auto using hi_weak.
      * destruct (told_gt _ _ _ _ Hr Hi T B C). apply IH; auto using hi_weak.
    + apply bracket_false in B. apply IH; auto using hi_weak. by eapply told_skip.
Qed.

Definition best_max (b : nat) : Prop :=
  (b = 14 /\ forall j r, R !! j = Some r -> live r = false) \/
  (exists rb, R !! b = Some rb /\ live rb = true /\ forall j r, R !! j = Some r -> live r = true -> r <= rb).
Lemma max_loop_spec rs : forall i mx b, rs = drop i R ->
  (b = 14 /\ mx = 0) \/ (R !! b = Some mx /\ live mx = true) ->
  (forall j r, j < i -> R !! j = Some r -> live r = true -> r <= mx) ->
  best_max (max_loop rs i mx b).
Proof.
  induction rs as [|r rs IH]; intros i mx b E Hb T; cbn [max_loop].
  - assert (length R <= i) as Hl.
    { assert (length (drop i R) = 0) by (by rewrite <-E). rewrite drop_length in H. lia. }
    destruct Hb as [[-> ->]|(Hb & Lb)].
    + left. split; [done|]. intros j r Hj. apply not_true_is_false. intros Lv.
      pose proof (T j r ltac:(apply lookup_lt_Some in Hj; lia) Hj Lv). apply live_spec in Lv. lia.
    + right. exists mx. repeat split; auto. intros j r Hj Lv. apply (T j); auto. apply lookup_lt_Some in Hj. lia.
  - destruct (drop_cons_inv i r rs) as [Hr ->]; [done|]. pose proof (Rle _ _ Hr).
    destruct ((mx <? r) && negb (r =? removed_rank)) eqn:B.
    + apply andb_true_iff in B as [B1 B2]. apply Nat.ltb_lt in B1. apply negb_true_iff, Nat.eqb_neq in B2.
      unfold removed_rank in B2.
      apply IH; auto.
      * right. split; [done|]. apply live_spec. lia.
      * intros j r' Hj Hr' Lv. destruct (decide (j = i)) as [->|]; [rewrite Hr in Hr'; injection Hr' as <-; lia|].
        pose proof (T j r' ltac:(lia) Hr' Lv). lia.
    + apply IH; auto.
      intros j r' Hj Hr' Lv. destruct (decide (j = i)) as [->|]; [|apply (T j); auto; lia].
      rewrite Hr in Hr'. injection Hr' as <-. apply live_spec in Lv.
      apply andb_false_iff in B as [B|B]; [by apply Nat.ltb_ge in B|].
      apply negb_false_iff, Nat.eqb_eq in B. unfold removed_rank in B. lia.
Qed.

(** The slot with the least live rank above [cr]. *)
Definition succ_slot (cr b : nat) : Prop :=
  (b = 14 /\ forall j r, R !! j = Some r -> live r = true -> r <= cr) \/
  (exists rb, R !! b = Some rb /\ live rb = true /\ cr < rb /\
     forall j r, R !! j = Some r -> live r = true -> cr < r -> rb <= r).
Lemma next_loop_spec cr index rs : (forall r, R !! index = Some r -> r = cr) -> forall i nr b, rs = drop i R ->
  (b = 14 /\ nr = 15) \/ (R !! b = Some nr /\ live nr = true /\ cr < nr) ->
  (forall j r, j < i -> R !! j = Some r -> live r = true -> cr < r -> nr <= r) ->
  succ_slot cr (next_loop cr index rs i nr b).
Proof.
  intros Hx. induction rs as [|r rs IH]; intros i nr b E Hb T; cbn [next_loop].
  - assert (length R <= i) as Hl.
    { assert (length (drop i R) = 0) by (by rewrite <-E). rewrite drop_length in H. lia. }
    destruct Hb as [[-> ->]|(Hb & Lb & Cb)].
    + left. split; [done|]. intros j r Hj Lv. destruct (decide (r <= cr)); [done|].
      pose proof (Rle _ _ Hj). apply lookup_lt_Some in Hj as Hl'.
      pose proof (T j r ltac:(lia) Hj Lv ltac:(lia)). apply live_spec in Lv. lia.
    + right. exists nr. repeat split; auto. intros j r Hj Lv C. apply (T j); auto. apply lookup_lt_Some in Hj. lia.
  - destruct (drop_cons_inv i r rs) as [Hr ->]; [done|]. pose proof (Rle _ _ Hr) as Hle.
    assert (nr <= 15) as Hnr by (destruct Hb as [[_ ->]|(Hb & _)]; [done|by eapply Rle]).
    destruct (negb (i =? index) && negb (r =? uninit_rank) && (r <? nr)) eqn:B.
    + apply andb_true_iff in B as [B1 B3]. apply andb_true_iff in B1 as [B1 B2].
      apply negb_true_iff, Nat.eqb_neq in B2. apply Nat.ltb_lt in B3. unfold uninit_rank in B2.
      assert (live r = true) as Lv by (apply live_spec; lia).
      destruct (r =? S cr) eqn:B4; [|destruct (cr <? r) eqn:B5].
      * apply Nat.eqb_eq in B4. right. exists r. repeat split; auto; [lia|]. intros; lia.
      * apply Nat.ltb_lt in B5. apply IH; auto.
        intros j r' Hj Hr' Lv' C. destruct (decide (j = i)) as [->|]; [rewrite Hr in Hr'; injection Hr' as <-; lia|].
        pose proof (T j r' ltac:(lia) Hr' Lv' C). lia.
      * apply Nat.ltb_ge in B5. apply IH; auto.
        intros j r' Hj Hr' Lv' C. destruct (decide (j = i)) as [->|]; [rewrite Hr in Hr'; injection Hr' as <-; lia|].
        apply (T j); auto. lia.
    + apply IH; auto.
      intros j r' Hj Hr' Lv' C. destruct (decide (j = i)) as [->|]; [|apply (T j); auto; lia].
      rewrite Hr in Hr'. injection Hr' as <-. destruct (i =? index) eqn:B1.
      { apply Nat.eqb_eq in B1 as ->. rewrite (Hx _ Hr) in C. lia. }
      destruct (r =? uninit_rank) eqn:B2.
      { apply Nat.eqb_eq in B2. unfold uninit_rank in B2. lia. }
      cbn [negb andb] in B. by apply Nat.ltb_ge in B.
Qed.
End loops.

Lemma max_less_loop_noeq cf rs : forall i lo hi b,
  max_less_loop cf rs i lo hi b = max_less_loop (fun j => match cf j with Eq => Gt | c => c end) rs i lo hi b.
Proof.
  induction rs as [|r rs IH]; intros i lo hi b; cbn [max_less_loop]; [done|].
  destruct (_ && _); [|apply IH]. destruct (cf i); apply IH.
Qed.

Lemma first_uninit_spec rs : forall i,
  match first_uninit rs i with
  | Some j => i <= j /\ rs !! (j - i) = Some 0
  | None => forall j r, rs !! j = Some r -> r <> 0
  end.
Proof.
  induction rs as [|r rs IH]; intros i; cbn [first_uninit]; [done|].
  destruct (r =? uninit_rank) eqn:E.
  - apply Nat.eqb_eq in E as ->. split; [done|]. by rewrite Nat.sub_diag.
  - apply Nat.eqb_neq in E. specialize (IH (S i)). destruct (first_uninit rs (S i)) as [j|].
    + destruct IH as [H1 H2]. split; [lia|]. by replace (j - i) with (S (j - S i)) by lia.
    + intros [|j] r' H; [by injection H as <-|]. by eapply IH.
Qed.
Lemma first_uninit_0 rs : match first_uninit rs 0 with
  | Some j => rs !! j = Some 0
  | None => forall j r, rs !! j = Some r -> r <> 0
  end.
Proof.
  pose proof (first_uninit_spec rs 0) as H. destruct (first_uninit rs 0) as [j|]; [|done].
  destruct H as [_ H]. by rewrite Nat.sub_0_r in H.
Qed.

Lemma others_empty_spec rs : forall i skip, others_empty rs i skip = true <->
  (forall j r, rs !! j = Some r -> i + j <> skip -> live r = false).
Proof.
  induction rs as [|r rs IH]; intros i skip; cbn [others_empty]; [by split|].
  rewrite andb_true_iff, orb_true_iff, Nat.eqb_eq, negb_true_iff, IH. split.
  - intros [H1 H2] [|j] r' Hj N; [injection Hj as <-; rewrite Nat.add_0_r in N; by destruct H1|].
    apply (H2 j); [done|lia].
  - intros H. split.
    + destruct (decide (i = skip)); [by left|]. right. apply (H 0 r); [done|lia].
    + intros j r' Hj N. apply (H (S j) r'); [done|lia].
Qed.
Lemma no_live_spec m : no_live m = true <-> forall j r, ranks m !! j = Some r -> live r = false.
Proof.
  unfold no_live. rewrite forallb_forall. split.
  - intros H j r Hj. apply negb_true_iff, H. by apply elem_of_list_In, elem_of_list_lookup_2 with j.
  - intros H r Hr. apply elem_of_list_In, elem_of_list_lookup_1 in Hr as [j Hj]. apply negb_true_iff. by eapply H.
Qed.
Lemma optimal_boundary_range m : 1 <= optimal_boundary m <= 13.
Proof. unfold optimal_boundary, num_entries. change (14 / 2) with 7. lia. Qed.
