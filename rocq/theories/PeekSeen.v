(** The readers: what has been seen is protected, and the answer was stored during the read. *)
From Coq Require Import NArith Lia.
From stdpp Require Import prelude list numbers.
From Verif Require BucketSpec BucketFacts BucketOps.
From Verif Require Import PeekModel PeekSpec PeekInv PeekGood PeekOps PeekOps2 PeekStore PeekGlob PeekStart PeekTrans PeekSteps PeekStepInv PeekRead.

Section seen.
Context {K V : Type} `{EqDecision K} (hash : K -> N) (hash64 : forall k, (hash k < 2 ^ 64)%N).
Notation obj := (obj K V).
Notation node := (node K V).
Notation bucket := (bucket K V).
Notation array := (array K V).
Notation state := (state K V).
Notation writer := (writer K V).
Implicit Types (b : bucket) (nd : node) (x y : obj) (n j h : nat) (w : writer) (st : state) (S : obj -> Prop).
Implicit Types (E g e : N) (exs : nat -> list (nat * nat * nat)) (k : K) (p : peek K V).
Local Arguments live_at : simpl never.
Local Arguments lv : simpl never.
Local Arguments bucket_at : simpl never.
Local Arguments BucketModel.trailing_zeros : simpl never.
Local Arguments BucketModel.bit : simpl never.
Local Arguments BucketSpec.tb : simpl never.

Lemma live_stored st exs q b n j x : inv hash st exs -> bucket_at (mem st) q = Some b -> live_at b n j = Some x -> stored st x.
Proof.
  intros I Eb Lv. destruct q as [a i]. assert (exists ar, mem st !! a = Some ar) as (ar & Ea).
  { unfold bucket_at in Eb. cbn in Eb. destruct (mem st !! a) as [ar|]; [eauto|done]. }
  destruct (live_at_inv _ _ _ _ Lv) as (nd & En & Ln). apply lv_some in Ln as (O & R & D).
  exists a, i, n, j, ar, b, nd. split.
  - destruct (decide (cur st = Some a)); [by left|]. destruct (decide (old_of st = Some a)); [by right|].
    destruct (v_dead _ _ _ I (a, i) b Eb) as (_ & Nl & _); [done|done|]. by rewrite Nl in Lv.
  - split; [done|]. split; [by apply (at_some_bucket _ _ ar) in Eb|]. done.
Qed.

(** Where the reader is. *)
Definition block st k s m ar b nd : Prop := mem st !! s = Some ar /\ bks ar !! place hash ar k = Some b /\ nodes b !! m = Some nd.
Definition shape st k p : Prop :=
  match p with
  | PCur | PDone _ => True
  | PLinked a | PReload a => a < length (mem st)
  | PLen a s => a < length (mem st) /\ s < length (mem st)
  | PRem a s m | POcc a s m _ | PCells a s m _ _ | PProbe a s m _ | PNext a s m => a < length (mem st) /\ exists ar b nd, block st k s m ar b nd
  end.
(** What it has seen; [S] are the entries stored since the call. *)
Definition seen st g S k p : Prop :=
  match p with
  | POcc a s m r => forall ar b nd j, block st k s m ar b nd -> tb r j = false -> free nd j \/ exists x, S x /\ prot st g (s, place hash ar k) m j x
  | PCells a s m _ bm | PProbe a s m bm => forall ar j, mem st !! s = Some ar -> tb bm j = true -> exists x, S x /\ prot st g (s, place hash ar k) m j x
  | PDone (Some y) => S y /\ okey y = k
  | _ => True
  end.

Lemma block_at st k s m ar b nd : block st k s m ar b nd -> bucket_at (mem st) (s, place hash ar k) = Some b.
Proof. intros (Ea & Eb & _). by apply (at_some_bucket _ _ ar). Qed.
Lemma block_fun st k s m ar b nd ar' b' nd' : block st k s m ar b nd -> block st k s m ar' b' nd' -> ar' = ar /\ b' = b /\ nd' = nd.
Proof. intros (A1 & A2 & A3) (B1 & B2 & B3). rewrite A1 in B1. injection B1 as <-. rewrite A2 in B2. injection B2 as <-. split_and!; congruence. Qed.
Lemma block_trans st exs st' exs' k s m ar b nd : trans st exs st' exs' -> block st k s m ar b nd ->
  exists ar' b' nd', block st' k s m ar' b' nd' /\ place hash ar' k = place hash ar k /\ forall j, free nd j -> free nd' j \/ exists x, live_at b' m j = Some x.
Proof.
  intros T B. pose proof (block_at _ _ _ _ _ _ _ B) as Eb. destruct B as (Ea & _ & En).
  destruct (t_arr _ _ _ _ T _ _ Ea) as (ar' & Ea' & Bi). assert (place hash ar' k = place hash ar k) as Pl by (unfold place; by rewrite Bi).
  destruct (t_bkt _ _ _ _ T _ _ Eb) as (b' & Eb' & Kp). destruct (k_free _ _ Kp m nd En) as (nd' & En' & F).
  exists ar', b', nd'. split; [|done]. split; [done|]. split; [|done]. rewrite Pl. by apply (at_some_bucket _ _ ar') in Eb'.
Qed.
Lemma shape_trans st exs st' exs' k p : trans st exs st' exs' -> shape st k p -> shape st' k p.
Proof.
  intros T. pose proof (fun a => mem_grows _ _ _ _ a T) as M.
  assert (forall a s m, a < length (mem st) /\ (exists ar b nd, block st k s m ar b nd) -> a < length (mem st') /\ exists ar b nd, block st' k s m ar b nd) as A.
  { intros a s m (L & ar & b & nd & B). split; [by apply M|]. destruct (block_trans _ _ _ _ _ _ _ _ _ _ T B) as (ar' & b' & nd' & B' & _). eauto. }
  destruct p; cbn [shape]; try done; try apply A; try apply M. intros [? ?]. split; by apply M.
Qed.
Lemma seen_trans st exs st' exs' g S S' k p : inv hash st exs -> inv hash st' exs' -> trans st exs st' exs' -> (g <= epoch st <= g + 1)%N ->
  (forall x, S x -> S' x) -> (forall x, stored st' x -> S' x) -> shape st k p -> seen st g S k p -> seen st' g S' k p.
Proof.
  intros I I' T Lg Sub St Sh.
  assert (forall a s m bm, a < length (mem st) /\ (exists ar b nd, block st k s m ar b nd) ->
    (forall ar j, mem st !! s = Some ar -> tb bm j = true -> exists x, S x /\ prot st g (s, place hash ar k) m j x) ->
    (forall ar j, mem st' !! s = Some ar -> tb bm j = true -> exists x, S' x /\ prot st' g (s, place hash ar k) m j x)) as A.
  { intros a s m bm (_ & ar0 & b0 & nd0 & B0) Se ar j Ea Bm. destruct (block_trans _ _ _ _ _ _ _ _ _ _ T B0) as (ar1 & b1 & nd1 & (Ea1 & _) & Pl & _).
    rewrite Ea in Ea1. injection Ea1 as <-. rewrite Pl. destruct (Se ar0 j) as (x & Sx & Px); [by destruct B0|done|]. exists x. split; [by apply Sub|].
    by apply (t_prot _ _ _ _ T). }
  destruct p as [|a|a s|a s m|a s m r|a s m c0 bm|a s m bm|a s m|a|[r|]]; cbn [shape seen] in *; try done.
  - intros Se ar b nd j B Rj. destruct Sh as (_ & ar0 & b0 & nd0 & B0). destruct (block_trans _ _ _ _ _ _ _ _ _ _ T B0) as (ar1 & b1 & nd1 & B1 & Pl & Fr).
    destruct (block_fun _ _ _ _ _ _ _ _ _ _ B B1) as (-> & -> & ->). clear B1.
    destruct (Se ar0 b0 nd0 j B0 Rj) as [F|(x & Sx & Px)].
    + destruct (Fr j F) as [F'|(x & Lv)]; [by left|]. right. exists x. pose proof (block_at _ _ _ _ _ _ _ B) as Eb.
      split; [apply St; by eapply live_stored|]. by eapply live_prot.
    + right. exists x. split; [by apply Sub|]. rewrite Pl. by apply (t_prot _ _ _ _ T).
  - by apply (A a).
  - by apply (A a).
  - intros [? ?]. auto.
Qed.

(** A read does not get stuck. *)
Lemma seen_read st exs g S k p : inv hash st exs -> (forall x, stored st x -> S x) -> shape st k p -> seen st g S k p ->
  (exists r, p = PDone r) \/ exists p', read hash st k p = Some p' /\ shape st k p' /\ seen st g S k p'.
Proof.
  intros I St Sh Se.
  assert (forall a, a < length (mem st) -> exists ar b, mem st !! a = Some ar /\ bks ar !! place hash ar k = Some b) as Ar.
  { intros a L. apply lookup_lt_is_Some in L as (ar & Ea). destruct (place_some _ hash64 _ _ _ _ k I Ea) as (b & Eb). eauto. }
  assert (forall a s, a < length (mem st) -> shape st k (if (s =? a)%nat then PReload a else PLen a a) /\ seen st g S k (if (s =? a)%nat then PReload a else PLen a a)) as Fl.
  { intros a s L. by destruct (s =? a)%nat. }
  destruct p as [|a|a s|a s m|a s m r|a s m c0 bm|a s m bm|a s m|a|r]; cbn [shape seen] in Sh, Se; [right..|by left; eauto]; cbn [read].
  - eexists. split; [done|]. destruct (cur st) as [a|] eqn:C; [|done]. cbn. split; [by apply (v_cur _ _ _ I)|done].
  - destruct (Ar a Sh) as (ar & b & Ea & _). rewrite Ea. cbn [mbind option_bind]. eexists. split; [done|].
    destruct (linked ar) as [o|] eqn:Ln; [|done]. destruct (v_arr _ _ _ I a ar Ea) as (_ & _ & Lo). destruct (Lo o Ln) as [Lo1 _]. done.
  - destruct Sh as [La Ls]. destruct (Ar s Ls) as (ar & b & Ea & Eb). rewrite Ea. cbn [mbind option_bind]. rewrite Eb. cbn [mbind option_bind].
    eexists. split; [done|]. destruct (blen b =? 0)%nat; [by apply Fl|]. split; [|done]. cbn. split; [done|].
    assert (bucket_at (mem st) (s, place hash ar k) = Some b) as Eq by (by apply (at_some_bucket _ _ ar)).
    destruct (bucket_good _ _ _ _ _ I Eq) as [_ _ (c & Pc & _)]. destruct c; destruct Pc as (nd & En & _); by exists ar, b, nd.
  - destruct Sh as (La & ar & b & nd & B). pose proof B as (Ea & Eb & En). rewrite Ea. cbn [mbind option_bind]. rewrite Eb. cbn [mbind option_bind]. rewrite En. cbn [mbind option_bind].
    eexists. split; [done|]. split; [cbn; eauto|]. cbn. intros ar' b' nd' j B' Rj. destruct (block_fun _ _ _ _ _ _ _ _ _ _ B B') as (-> & -> & ->).
    pose proof (block_at _ _ _ _ _ _ _ B) as Eq. destruct (bucket_good _ _ _ _ _ I Eq) as [W _ _]. destruct (tb (occ nd) j) eqn:Oj; [|by left].
    right. destruct (W m nd En) as (_ & _ & D). destruct (D j Oj) as (x & Dx). exists x.
    assert (live_at b m j = Some x) as Lv by (rewrite (live_at_lv _ _ _ _ En); by apply lv_some).
    split; [apply St; by eapply live_stored|by eapply live_prot].
  - destruct Sh as (La & ar & b & nd & B). pose proof B as (Ea & Eb & En). rewrite Ea. cbn [mbind option_bind]. rewrite Eb. cbn [mbind option_bind]. rewrite En. cbn [mbind option_bind].
    eexists. split; [done|]. split; [cbn; eauto|]. cbn. intros ar' j Ea' Bm. rewrite Ea in Ea'. injection Ea' as <-.
    rewrite BucketFacts.tb_ldiff in Bm. apply andb_prop in Bm as [Oj Rj]. apply negb_true_iff in Rj.
    destruct (Se ar b nd j B Rj) as [[F _]|P]; [congruence|done].
  - destruct Sh as (La & ar & b & nd & B). pose proof B as (Ea & Eb & En). rewrite Ea. cbn [mbind option_bind]. rewrite Eb. cbn [mbind option_bind]. rewrite En. cbn [mbind option_bind].
    eexists. split; [done|]. destruct (cells nd !! c0) as [y|]; cbn; (split; [by eauto|]); [|done].
    intros ar' j Ea' Bm. apply (Se ar' j Ea'). destruct (y =? _)%N; [done|]. rewrite BucketFacts.tb_ldiff in Bm. by apply andb_prop in Bm as [? _].
  - destruct (Nat.eqb_spec (trailing_zeros bm) 32) as [Z|Z]; [eexists; split; [done|]; by split|].
    destruct Sh as (La & ar & b & nd & B). pose proof B as (Ea & Eb & En). rewrite Ea. cbn [mbind option_bind]. rewrite Eb. cbn [mbind option_bind]. rewrite En. cbn [mbind option_bind].
    destruct (BucketFacts.trailing_zeros_spec bm) as (T1 & _ & T3). destruct (Se ar (trailing_zeros bm) Ea) as (x & Sx & Px); [apply T3; lia|].
    destruct Px as (b' & nd' & Eb' & En' & Dx & _). pose proof (block_at _ _ _ _ _ _ _ B) as Eq. rewrite Eq in Eb'. injection Eb' as <-.
    rewrite En in En'. injection En' as <-. rewrite Dx. cbn [mbind option_bind]. eexists. split; [done|].
    destruct (decide (k = okey x)) as [->|D]; [done|]. cbn. split; [by eauto|]. intros ar' j Ea' Bm. apply (Se ar' j Ea').
    rewrite BucketFacts.tb_ldiff in Bm. by apply andb_prop in Bm as [? _].
  - destruct Sh as (La & ar & b & nd & B). pose proof B as (Ea & Eb & En). rewrite Ea. cbn [mbind option_bind]. rewrite Eb. cbn [mbind option_bind]. rewrite En. cbn [mbind option_bind].
    eexists. split; [done|]. destruct (next nd) as [q|] eqn:Nx; [|by apply Fl]. split; [|done]. cbn. split; [done|].
    pose proof (block_at _ _ _ _ _ _ _ B) as Eq. destruct (v_next _ _ _ I _ _ Eq m nd q En Nx) as (qd & Ed). by exists ar, b, qd.
  - eexists. split; [done|]. destruct (cur st) as [c|] eqn:C; [|done]. destruct (a =? c)%nat; [done|]. cbn. split; [by apply (v_cur _ _ _ I)|done].
Qed.
End seen.
