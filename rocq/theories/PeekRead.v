(** The readers: an entry that stays is ahead of the reader, and what the reader has seen is protected. *)
From Coq Require Import NArith Lia.
From stdpp Require Import prelude list numbers.
From Verif Require BucketSpec BucketFacts BucketOps.
From Verif Require Import PeekModel PeekSpec PeekInv PeekGood PeekOps PeekOps2 PeekStore PeekGlob PeekStart PeekTrans PeekSteps PeekStepInv.

Section read.
Context {K V : Type} `{EqDecision K} (hash : K -> N) (hash64 : forall k, (hash k < 2 ^ 64)%N).
Notation obj := (obj K V).
Notation node := (node K V).
Notation bucket := (bucket K V).
Notation array := (array K V).
Notation state := (state K V).
Notation writer := (writer K V).
Implicit Types (b : bucket) (nd : node) (x y : obj) (n j h : nat) (w : writer) (st : state) (p : nat * nat).
Implicit Types (E g e : N) (exs : nat -> list (nat * nat * nat)).
Local Arguments live_at : simpl never.
Local Arguments lv : simpl never.
Local Arguments bucket_at : simpl never.
Local Arguments BucketModel.trailing_zeros : simpl never.
Local Arguments BucketModel.bit : simpl never.
Local Arguments BucketSpec.tb : simpl never.

(** ** An entry that nobody inserts or removes is in a slot that is not exempted *)
Lemma exm_inv st exs t w h p n j : inv hash st exs -> writes st t w -> held w !! h = Some p -> exm st exs p n j -> (h, n, j) ∈ exs t.
Proof.
  intros I Wt Lh (t' & w' & h' & Wt' & Lh' & M). assert (t = t') as <-.
  { apply (v_dis _ _ _ I t t' w w' p Wt Wt'); by eapply elem_of_list_lookup_2. }
  assert (w = w') as <-. { destruct Wt as (th & Et & W), Wt' as (th' & Et' & W'). congruence. }
  destruct (writer_bs _ _ _ _ _ I Wt) as (N & _). by rewrite (NoDup_lookup _ _ _ _ N Lh Lh').
Qed.
Lemma exm_dec st exs p n j : inv hash st exs -> exm st exs p n j \/ ~ exm st exs p n j.
Proof.
  intros I. destruct (held_or_not st p) as [U|(t & w & Wt & M)].
  - right. intros (t & w & h & Wt & Lh & _). apply (U t w Wt). by eapply elem_of_list_lookup_2.
  - apply elem_of_list_lookup in M as (h & Lh). destruct (decide ((h, n, j) ∈ exs t)).
    + left. by exists t, w, h.
    + right. intros X. by eapply exm_inv in X.
Qed.
Lemma live_solid st exs p b n j x : inv hash st exs -> bucket_at (mem st) p = Some b -> live_at b n j = Some x -> ~ busy st x ->
  exists p' n' j', solid st exs p' n' j' x.
Proof.
  intros I Eb Lv Nb. destruct (exm_dec st exs p n j I) as [X|X].
  2:{ exists p, n, j, b. done. }
  destruct X as (t & w & h & Wt & Lh & M). destruct (writer_bs _ _ _ _ _ I Wt) as (N & th & bs & Et & Wk & _ & L & S & _).
  destruct (safe_cov _ _ _ _ _ _ _ _ S h n j b x) as [Mi|(h' & n' & j' & b' & Lb' & Lv' & NX)]; [by eapply locked_at|done|done| |].
  - exfalso. apply Nb. by exists t, th, w.
  - destruct (locked_held _ _ _ _ _ L Lb') as (p' & Lp' & Eb'). exists p', n', j', b'. split; [done|]. split; [done|]. intros X.
    apply NX. by eapply exm_inv.
Qed.
Lemma solid_where st exs p n j x : inv hash st exs -> solid st exs p n j x -> cur st = Some p.1 \/ old_of st = Some p.1.
Proof.
  intros I (b & Eb & Lv & _). destruct (decide (cur st = Some p.1)); [by left|]. destruct (decide (old_of st = Some p.1)); [by right|].
  destruct (v_dead _ _ _ I p b Eb) as (_ & Nl & _); [done|done|]. by rewrite Nl in Lv.
Qed.
Lemma settled_solid st exs x : inv hash st exs -> settled st x -> exists p n j, solid st exs p n j x.
Proof.
  intros I ((a & i & n & j & ar & b & nd & _ & Ea & Eb & En & O & R & D) & Nb).
  apply (live_solid st exs (a, i) b n j); try done; [by apply (at_some_bucket _ _ ar)|].
  rewrite (live_at_lv _ _ _ _ En). by apply lv_some.
Qed.
(** What is known of such a slot. *)
Lemma solid_in st exs p n j x : inv hash st exs -> solid st exs p n j x -> exists ar b nd, mem st !! p.1 = Some ar /\ p.2 = place hash ar (okey x) /\
  bks ar !! p.2 = Some b /\ bucket_at (mem st) p = Some b /\ nodes b !! n = Some nd /\ cells nd !! j = Some (partial_hash (hash (okey x))) /\ 1 <= blen b /\
  tb (occ nd) j = true /\ tb (rem nd) j = false /\ data nd !! j = Some (Some x) /\ j < 32 /\ behind (nodes b) 0 n /\ live_at b n j = Some x.
Proof.
  intros I (b & Eb & Lv & NX). pose proof (bucket_good _ _ _ _ _ I Eb) as [W C (c & Pc & _ & Lc)].
  destruct (live_at_inv _ _ _ _ Lv) as (nd & En & Ln). apply lv_some in Ln as (O & R & D).
  destruct (C n j x nd En Lv NX) as (Ce & (ar & Ea & Pl) & Bl). exists ar, b, nd.
  split; [done|]. split; [done|]. split; [destruct p; by apply (at_some_bucket _ _ ar) in Eb|]. split; [done|]. split; [done|]. split; [done|]. split; [done|].
  split; [done|]. split; [done|]. split; [done|]. split.
  - destruct (W n nd En) as (_ & L & _). apply lookup_lt_Some in D. rewrite L in D. destruct n; cbn in D; lia.
  - split; [|done]. eapply path_behind; [done|]. by eapply Lc.
Qed.
Lemma old_not_cur st exs a : inv hash st exs -> old_of st = Some a -> cur st <> Some a.
Proof. intros I O. destruct (old_some _ _ O) as (c & ar & Ec & Ea & L). by destruct (v_arr _ _ _ I c ar Ea) as (_ & _ & A); apply A. Qed.

(** ** Stable entries *)
Section stable.
Context (x : obj).
Notation k := (okey x).
Definition at_place st exs s (Q : bucket -> nat -> nat -> Prop) : Prop := exists i b n j, bucket_at (mem st) (s, i) = Some b /\ solid st exs (s, i) n j x /\ Q b n j.
Definition ahead st exs a s (Q : bucket -> nat -> nat -> Prop) : Prop :=
  a < length (mem st) /\ s < length (mem st) /\
  (cur st = Some a -> (s <> a /\ at_place st exs a (fun _ _ _ => True)) \/ at_place st exs s Q).
Definition R st exs (p : peek K V) : Prop :=
  match p with
  | PCur => True
  | PLinked a => a < length (mem st)
  | PLen a s => ahead st exs a s (fun _ _ _ => True)
  | PRem a s m => ahead st exs a s (fun b n j => behind (nodes b) m n)
  | POcc a s m r => ahead st exs a s (fun b n j => behind (nodes b) m n /\ (n = m -> tb r j = false))
  | PCells a s m _ bm | PProbe a s m bm => ahead st exs a s (fun b n j => behind (nodes b) m n /\ (n = m -> tb bm j = true))
  | PNext a s m => ahead st exs a s (fun b n j => behind (nodes b) m n /\ n <> m)
  | PReload a => a < length (mem st) /\ cur st <> Some a
  | PDone r => r <> None
  end.

Lemma mem_grows st exs st' exs' a : trans st exs st' exs' -> a < length (mem st) -> a < length (mem st').
Proof.
  intros T L. apply lookup_lt_is_Some in L as (ar & Ea). destruct (t_arr _ _ _ _ T a ar Ea) as (ar' & Ea' & _). by eapply lookup_lt_Some.
Qed.
Lemma cur_back st exs st' exs' a : trans st exs st' exs' -> a < length (mem st) -> cur st' = Some a -> cur st = Some a.
Proof. intros T L C. destruct (t_cur _ _ _ _ T) as [Z|[Z|Z]]; [congruence|congruence|]. rewrite C in Z. injection Z as ->. lia. Qed.
Lemma at_cur_trans st exs st' exs' a : inv hash st exs -> trans st exs st' exs' -> ~ busy st' x -> cur st = Some a ->
  at_place st exs a (fun _ _ _ => True) -> at_place st' exs' a (fun _ _ _ => True).
Proof.
  intros I T Nb C (i & b & n & j & Eb & So & _). destruct (t_solid _ _ _ _ T _ _ _ _ So) as [B|[So'|(O & _)]]; [done| |].
  - destruct So' as (b' & Eb' & R'). exists i, b', n, j. split; [done|]. split; [by exists b'|done].
  - cbn in O. by apply (old_not_cur _ _ _ I) in O.
Qed.
Lemma ahead_trans st exs st' exs' a s (Q : bucket -> nat -> nat -> Prop) : inv hash st exs -> inv hash st' exs' -> trans st exs st' exs' -> ~ busy st' x ->
  (forall b b' n j, kept b b' -> live_at b n j = Some x -> Q b n j -> Q b' n j) ->
  ahead st exs a s Q -> ahead st' exs' a s Q.
Proof.
  intros I I' T Nb Mo (La & Ls & Ah). split; [by apply (mem_grows _ _ _ _ _ T)|]. split; [by apply (mem_grows _ _ _ _ _ T)|]. intros C'.
  assert (cur st = Some a) as C by (by apply (cur_back _ _ _ _ _ T)). destruct (Ah C) as [[D At]|(i & b & n & j & Eb & So & Qn)].
  - left. split; [done|]. by apply (at_cur_trans _ _ _ _ _ I T).
  - destruct (t_bkt _ _ _ _ T _ _ Eb) as (b' & Eb' & Kp). destruct (t_solid _ _ _ _ T _ _ _ _ So) as [B|[So'|(O & Cc & q & n' & j' & Cq & So')]]; [done| |].
    + right. exists i, b', n, j. split; [done|]. split; [done|]. destruct So as (b1 & Eb1 & Lv & _). rewrite Eb in Eb1. injection Eb1 as <-. by eapply Mo.
    + left. cbn in O. split; [intros ->; by apply (old_not_cur _ _ _ I) in O|]. rewrite C in Cq. injection Cq as ->.
      destruct q as [c i']. destruct So' as (b1 & Eb1 & R1). exists i', b1, n', j'. split; [done|]. split; [by exists b1|done].
Qed.
Lemma R_trans st exs st' exs' (p : peek K V) : inv hash st exs -> inv hash st' exs' -> trans st exs st' exs' -> ~ busy st' x -> R st exs p -> R st' exs' p.
Proof.
  intros I I' T Nb. pose proof (fun a s Q => ahead_trans st exs st' exs' a s Q I I' T Nb) as A.
  destruct p; cbn [R]; intros Hr; try done.
  - by apply (mem_grows _ _ _ _ _ T).
  - by apply A.
  - apply A; [|done]. intros b b' n0 j Kp Lv Q. by eapply (k_behind _ _ Kp).
  - apply A; [|done]. intros b b' n0 j Kp Lv [Q1 Q2]. split; [|done]. by eapply (k_behind _ _ Kp).
  - apply A; [|done]. intros b b' n0 j Kp Lv [Q1 Q2]. split; [|done]. by eapply (k_behind _ _ Kp).
  - apply A; [|done]. intros b b' n0 j Kp Lv [Q1 Q2]. split; [|done]. by eapply (k_behind _ _ Kp).
  - apply A; [|done]. intros b b' n0 j Kp Lv [Q1 Q2]. split; [|done]. by eapply (k_behind _ _ Kp).
  - destruct Hr as [L C]. split; [by apply (mem_grows _ _ _ _ _ T)|]. intros Z. apply C. by apply (cur_back _ _ _ _ _ T).
Qed.

(** After a failed search. *)
Lemma R_fail st exs a s (Q : bucket -> nat -> nat -> Prop) : inv hash st exs -> ahead st exs a s Q -> ~ (cur st = Some a /\ at_place st exs s Q) ->
  R st exs (if (s =? a)%nat then PReload a else PLen a a).
Proof.
  intros I (La & Ls & Ah) N. destruct (Nat.eqb_spec s a) as [->|D]; cbn [R].
  - split; [done|]. intros C. destruct (Ah C) as [[D _]|At]; [done|]. by apply N.
  - split; [done|]. split; [done|]. intros C. right. destruct (Ah C) as [[_ At]|At]; [done|]. exfalso. by apply N.
Qed.
Lemma ahead_mono st exs a s (Q Q' : bucket -> nat -> nat -> Prop) : inv hash st exs -> ahead st exs a s Q ->
  (forall ar b n j nd, mem st !! s = Some ar -> bks ar !! place hash ar k = Some b -> nodes b !! n = Some nd -> cells nd !! j = Some (partial_hash (hash k)) ->
     1 <= blen b -> tb (occ nd) j = true -> tb (rem nd) j = false -> data nd !! j = Some (Some x) -> j < 32 -> behind (nodes b) 0 n -> Q b n j -> Q' b n j) ->
  ahead st exs a s Q'.
Proof.
  intros I (La & Ls & Ah) M. split; [done|]. split; [done|]. intros C. destruct (Ah C) as [D|(i & b & n & j & Eb & So & Qn)]; [by left|]. right.
  exists i, b, n, j. split; [done|]. split; [done|].
  destruct (solid_in _ _ _ _ _ _ I So) as (ar & b1 & nd & Ea & Pl & Ek & Eb1 & En & Ce & Bl & O & Re & Da & Lj & Bh & _). cbn in *. subst i.
  rewrite Eb in Eb1. injection Eb1 as <-. eapply M; done.
Qed.
Lemma R_read st exs (p p' : peek K V) : inv hash st exs -> settled st x -> R st exs p -> read hash st k p = Some p' -> R st exs p'.
Proof.
  intros I Se Hr Rd.
  assert (exists c, cur st = Some c) as (c & Ec). { destruct Se as ((a & ? & ? & ? & ? & ? & ? & [C|O] & _) & _); [by exists a|]. destruct (old_some _ _ O) as (? & ? & ? & _). eauto. }
  destruct p as [|a|a s|a s m|a s m r|a s m c0 bm|a s m bm|a s m|a|r]; cbn [R read] in Hr, Rd.
  - rewrite Ec in Rd. injection Rd as <-. cbn. by apply (v_cur _ _ _ I).
  - destruct (mem st !! a) as [ar|] eqn:Ea; [|done]. cbn [mbind option_bind] in Rd. injection Rd as <-.
    destruct (settled_solid _ _ _ I Se) as ([s i] & n & j & So). pose proof (solid_where _ _ _ _ _ _ I So) as Wh. cbn in Wh.
    pose proof So as (b & Eb & _). assert (at_place st exs s (fun _ _ _ => True)) as At by (by exists i, b, n, j).
    destruct (linked ar) as [o|] eqn:Ln; cbn [R].
    + destruct (v_arr _ _ _ I a ar Ea) as (_ & _ & Lo). destruct (Lo o Ln) as [Lo1 Lo2]. split; [done|]. split; [done|]. intros C.
      assert (old_of st = Some o) as Old by (unfold old_of; rewrite C; cbn; by rewrite Ea).
      destruct Wh as [Wh|Wh].
      * left. rewrite C in Wh. injection Wh as ->. split; [congruence|done].
      * right. rewrite Old in Wh. by injection Wh as ->.
    + split; [done|]. split; [done|]. intros C. right. destruct Wh as [Wh|Wh].
      * rewrite C in Wh. by injection Wh as ->.
      * exfalso. unfold old_of in Wh. rewrite C in Wh. cbn in Wh. rewrite Ea in Wh. cbn in Wh. congruence.
  - destruct (mem st !! s) as [ar|] eqn:Ea; [|done]. cbn [mbind option_bind] in Rd. destruct (bks ar !! place hash ar k) as [b|] eqn:Eb; [|done].
    cbn [mbind option_bind] in Rd. injection Rd as <-. destruct (Nat.eqb_spec (blen b) 0) as [Z|Z].
    + eapply R_fail; [done|done|]. intros (C & i & b0 & n & j & Eb0 & So & _).
      destruct (solid_in _ _ _ _ _ _ I So) as (ar1 & b1 & nd & Ea1 & Pl & Ek & Eb1 & En & Ce & Bl & _). cbn in *. subst i. rewrite Ea in Ea1. injection Ea1 as <-.
      rewrite Eb in Ek. injection Ek as <-. lia.
    + cbn [R]. eapply ahead_mono; [done|done|]. done.
  - destruct (mem st !! s) as [ar|] eqn:Ea; [|done]. cbn [mbind option_bind] in Rd. destruct (bks ar !! place hash ar k) as [b|] eqn:Eb; [|done].
    cbn [mbind option_bind] in Rd. destruct (nodes b !! m) as [md|] eqn:Em; [|done]. cbn [mbind option_bind] in Rd. injection Rd as <-. cbn [R].
    eapply ahead_mono; [done|done|]. cbn. intros ar1 b1 n j nd Ea1 Eb1 En Ce Bl O Re Da Lj Bh Q. rewrite Ea in Ea1. injection Ea1 as <-. rewrite Eb in Eb1. injection Eb1 as <-.
    split; [done|]. intros ->. congruence.
  - destruct (mem st !! s) as [ar|] eqn:Ea; [|done]. cbn [mbind option_bind] in Rd. destruct (bks ar !! place hash ar k) as [b|] eqn:Eb; [|done].
    cbn [mbind option_bind] in Rd. destruct (nodes b !! m) as [md|] eqn:Em; [|done]. cbn [mbind option_bind] in Rd. injection Rd as <-. cbn [R].
    eapply ahead_mono; [done|done|]. cbn. intros ar1 b1 n j nd Ea1 Eb1 En Ce Bl O Re Da Lj Bh [Q1 Q2]. rewrite Ea in Ea1. injection Ea1 as <-. rewrite Eb in Eb1. injection Eb1 as <-.
    split; [done|]. intros ->. rewrite Em in En. injection En as <-. rewrite BucketFacts.tb_ldiff, O, Q2; done.
  - destruct (mem st !! s) as [ar|] eqn:Ea; [|done]. cbn [mbind option_bind] in Rd. destruct (bks ar !! place hash ar k) as [b|] eqn:Eb; [|done].
    cbn [mbind option_bind] in Rd. destruct (nodes b !! m) as [md|] eqn:Em; [|done]. cbn [mbind option_bind] in Rd. injection Rd as <-.
    destruct (cells md !! c0) as [y|] eqn:Ec0; [|exact Hr]. cbn [R].
    eapply ahead_mono; [done|done|]. cbn. intros ar1 b1 n j nd Ea1 Eb1 En Ce Bl O Re Da Lj Bh [Q1 Q2]. rewrite Ea in Ea1. injection Ea1 as <-. rewrite Eb in Eb1. injection Eb1 as <-.
    split; [done|]. intros ->. rewrite Em in En. injection En as <-. destruct (N.eqb_spec y (partial_hash (hash k))) as [->|D]; [by apply Q2|].
    rewrite BucketFacts.tb_ldiff, Q2 by done. rewrite BucketFacts.tb_bit, bool_decide_eq_false_2; [done|]. congruence.
  - destruct (Nat.eqb_spec (trailing_zeros bm) 32) as [Z|Z].
    + injection Rd as <-. cbn [R]. eapply ahead_mono; [done|done|]. cbn. intros ar1 b1 n j nd Ea1 Eb1 En Ce Bl O Re Da Lj Bh [Q1 Q2]. split; [done|]. intros ->.
      destruct (BucketFacts.trailing_zeros_spec bm) as (_ & T & _). rewrite T in Q2; [by specialize (Q2 eq_refl)|]. rewrite Z. done.
    + destruct (mem st !! s) as [ar|] eqn:Ea; [|done]. cbn [mbind option_bind] in Rd. destruct (bks ar !! place hash ar k) as [b|] eqn:Eb; [|done].
      cbn [mbind option_bind] in Rd. destruct (nodes b !! m) as [md|] eqn:Em; [|done]. cbn [mbind option_bind] in Rd.
      destruct (data md !! trailing_zeros bm) as [d|] eqn:Ed; [|done]. cbn [mbind option_bind] in Rd. destruct d as [y|]; [|done]. cbn [mbind option_bind] in Rd. injection Rd as <-.
      destruct (decide (k = okey y)) as [Ky|Ky]; [done|]. cbn [R].
      eapply ahead_mono; [done|done|]. cbn. intros ar1 b1 n j nd Ea1 Eb1 En Ce Bl O Re Da Lj Bh [Q1 Q2]. rewrite Ea in Ea1. injection Ea1 as <-. rewrite Eb in Eb1. injection Eb1 as <-.
      split; [done|]. intros ->. rewrite Em in En. injection En as <-.
      rewrite BucketFacts.tb_ldiff, Q2 by done. rewrite BucketFacts.tb_bit, bool_decide_eq_false_2; [done|]. intros Zj.
      rewrite Zj, Da in Ed. congruence.
  - destruct (mem st !! s) as [ar|] eqn:Ea; [|done]. cbn [mbind option_bind] in Rd. destruct (bks ar !! place hash ar k) as [b|] eqn:Eb; [|done].
    cbn [mbind option_bind] in Rd. destruct (nodes b !! m) as [md|] eqn:Em; [|done]. cbn [mbind option_bind] in Rd. injection Rd as <-.
    destruct (next md) as [q|] eqn:Nx.
    + cbn [R]. eapply ahead_mono; [done|done|]. cbn. intros ar1 b1 n j nd Ea1 Eb1 En Ce Bl O Re Da Lj Bh [Q1 Q2]. rewrite Ea in Ea1. injection Ea1 as <-. rewrite Eb in Eb1. injection Eb1 as <-.
      destruct Q1 as [|m md' q' n Em' Nx' B]; [done|]. rewrite Em in Em'. injection Em' as <-. rewrite Nx in Nx'. by injection Nx' as <-.
    + eapply R_fail; [done|done|]. intros (C & i & b0 & n & j & Eb0 & So & Q1 & Q2).
      destruct (solid_in _ _ _ _ _ _ I So) as (ar1 & b1 & nd & Ea1 & Pl & Ek & Eb1 & _). cbn in *. subst i. rewrite Ea in Ea1. injection Ea1 as <-.
      rewrite Eb in Ek. injection Ek as <-. rewrite Eb0 in Eb1. injection Eb1 as ->.
      destruct Q1 as [|m md' q' n Em' Nx' B]; [done|]. congruence.
  - rewrite Ec in Rd. injection Rd as <-. destruct Hr as [L N]. destruct (Nat.eqb_spec a c) as [->|D]; [done|]. cbn. by apply (v_cur _ _ _ I).
  - done.
Qed.
End stable.
End read.
