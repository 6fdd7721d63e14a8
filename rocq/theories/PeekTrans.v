(** What every step keeps for the readers; steps of writers. *)
From Coq Require Import NArith Lia.
From stdpp Require Import prelude list numbers.
From Verif Require BucketSpec BucketFacts BucketOps.
From Verif Require Import PeekModel PeekSpec PeekInv PeekGood PeekOps PeekOps2 PeekStore PeekGlob PeekStart.

Section trans.
Context {K V : Type} `{EqDecision K} (hash : K -> N) (hash64 : forall k, (hash k < 2 ^ 64)%N).
Notation obj := (obj K V).
Notation node := (node K V).
Notation bucket := (bucket K V).
Notation array := (array K V).
Notation state := (state K V).
Notation writer := (writer K V).
Implicit Types (b : bucket) (nd : node) (x : obj) (n j h : nat) (w : writer) (st : state) (m : list array) (p : nat * nat).
Implicit Types (E g e : N) (bs : list bucket) (ex : list (nat * nat * nat)) (exs : nat -> list (nat * nat * nat)).
Local Arguments BucketModel.bit : simpl never.
Local Arguments BucketModel.trailing_ones : simpl never.
Local Arguments BucketSpec.tb : simpl never.
Local Arguments N.lor : simpl never.
Local Arguments N.ldiff : simpl never.
Local Arguments live_at : simpl never.
Local Arguments lv : simpl never.
Local Arguments byte : simpl never.
Local Arguments doomed : simpl never.
Local Arguments bucket_at : simpl never.

(** An entry that is reachable and not being inserted or removed. *)
Definition exm st exs p n j : Prop := exists t w h, writes st t w /\ held w !! h = Some p /\ (h, n, j) ∈ exs t.
Definition solid st exs p n j x : Prop := exists b, bucket_at (mem st) p = Some b /\ live_at b n j = Some x /\ ~ exm st exs p n j.
(** A slot that a guard of epoch [g] may have a reference to. *)
Definition quiet st p n j : Prop := forall t w h o, writes st t w -> held w !! h = Some p -> (h, WOcc n o) ∈ todo w -> tb o j = true.
Definition prot st g p n j x : Prop := exists b nd, bucket_at (mem st) p = Some b /\ nodes b !! n = Some nd /\ data nd !! j = Some (Some x) /\
  (frozen b = true \/ (held_back (epoch st) g nd j /\ quiet st p n j)).
Record kept b b' : Prop := Kept {
  k_behind : forall i n j x, live_at b n j = Some x -> behind (nodes b) i n -> behind (nodes b') i n;
  k_free : forall n nd, nodes b !! n = Some nd -> exists nd', nodes b' !! n = Some nd' /\
           forall j, free nd j -> free nd' j \/ exists x, live_at b' n j = Some x }.
Record trans st exs st' exs' : Prop := Trans {
  t_cur : cur st' = cur st \/ cur st' = None \/ cur st' = Some (length (mem st));
  t_old : cur st' = cur st -> old_of st' = old_of st \/ old_of st' = None;
  t_arr : forall a ar, mem st !! a = Some ar -> exists ar', mem st' !! a = Some ar' /\ bits ar' = bits ar;
  t_bkt : forall p b, bucket_at (mem st) p = Some b -> exists b', bucket_at (mem st') p = Some b' /\ kept b b';
  t_solid : forall p n j x, solid st exs p n j x -> busy st' x \/ solid st' exs' p n j x \/
            (old_of st = Some p.1 /\ cur st' = cur st /\ exists q n' j', cur st = Some q.1 /\ solid st' exs' q n' j' x);
  t_prot : forall g p n j x, (g <= epoch st <= g + 1)%N -> prot st g p n j x -> prot st' g p n j x }.

(** ** Memory *)
Lemma bucket_at_set m p b b0 q : bucket_at m p = Some b0 -> bucket_at (set_bucket m p b) q = if decide (q = p) then Some b else bucket_at m q.
Proof.
  intros E. unfold bucket_at, set_bucket in *. destruct p as [a i], q as [a' i']. cbn in *.
  destruct (m !! a) as [ar|] eqn:Ea; [|done]. cbn in E. destruct (decide (a' = a)) as [->|D].
  - rewrite list_lookup_alter, Ea. cbn. destruct (decide (i' = i)) as [->|D].
    + rewrite decide_True by done. apply list_lookup_insert. by eapply lookup_lt_Some.
    + rewrite decide_False by congruence. by rewrite list_lookup_insert_ne.
  - rewrite decide_False by congruence. by rewrite list_lookup_alter_ne.
Qed.
Lemma set_bucket_arr m p b a : set_bucket m p b !! a = (fun ar => if decide (a = p.1) then Arr (bits ar) (<[p.2 := b]> (bks ar)) (linked ar) else ar) <$> m !! a.
Proof.
  unfold set_bucket. destruct (decide (a = p.1)) as [->|D]; [by rewrite list_lookup_alter|].
  rewrite list_lookup_alter_ne by done. by destruct (m !! a).
Qed.
Lemma Ip_mono m m' p k : (forall a ar, m !! a = Some ar -> exists ar', m' !! a = Some ar' /\ bits ar' = bits ar) -> Ip hash m p k -> Ip hash m' p k.
Proof.
  intros A (ar & Ea & P). destruct (A _ _ Ea) as (ar' & Ea' & B). exists ar'. split; [done|]. unfold place in *. by rewrite B.
Qed.
Lemma Isw_mono m m' w h k : (forall a ar, m !! a = Some ar -> exists ar', m' !! a = Some ar' /\ bits ar' = bits ar) -> Isw hash m w h k -> Isw hash m' w h k.
Proof. intros A. unfold Isw. destruct (held w !! h); [by apply Ip_mono|done]. Qed.
Lemma bucket_at_some m p : (exists ar, m !! p.1 = Some ar /\ p.2 < length (bks ar)) <-> exists b, bucket_at m p = Some b.
Proof.
  unfold bucket_at. split.
  - intros (ar & Ea & L). rewrite Ea. cbn. by apply lookup_lt_is_Some.
  - intros (b & E). destruct (m !! p.1) as [ar|]; [|done]. exists ar. split; [done|]. by eapply lookup_lt_Some.
Qed.
Lemma locked_at m w bs h p b : locked m w bs -> held w !! h = Some p -> bucket_at m p = Some b -> bs !! h = Some b.
Proof. intros L Lp Eb. destruct (Forall2_lookup_l _ _ _ _ _ L Lp) as (b' & Lb & Eb'). congruence. Qed.
Lemma locked_held m w bs h b : locked m w bs -> bs !! h = Some b -> exists p, held w !! h = Some p /\ bucket_at m p = Some b.
Proof. intros L Lb. destruct (Forall2_lookup_r _ _ _ _ _ L Lb) as (p & Lp & Eb). eauto. Qed.
Lemma locked_ext m m' w bs : locked m w bs -> (forall p, p ∈ held w -> bucket_at m' p = bucket_at m p) -> locked m' w bs.
Proof.
  intros L A. unfold locked in *. apply Forall2_same_length_lookup_2; [by eapply Forall2_length|].
  intros h p b Lp Lb. rewrite A by (by eapply elem_of_list_lookup_2). destruct (Forall2_lookup_l _ _ _ _ _ L Lp) as (b' & Lb' & Eb). congruence.
Qed.
Lemma wok_ext m m' E E' g w ex : wok hash m E g w ex -> (E <= E')%N ->
  (forall a ar, m !! a = Some ar -> exists ar', m' !! a = Some ar' /\ bits ar' = bits ar) ->
  (forall p, p ∈ held w -> bucket_at m' p = bucket_at m p) -> wok hash m' E' g w ex.
Proof.
  intros [N (bs & L & S & C)] LE A B. split; [done|]. exists bs. split; [by eapply locked_ext|]. split; [|done].
  eapply safe_mono; [|done|done]. intros h k. by apply Isw_mono.
Qed.
Lemma kept_refl b : kept b b.
Proof. split; [done|]. intros n nd En. exists nd. split; [done|]. intros j F. by left. Qed.

(** ** The writer of a bucket *)
Lemma held_or_not st p : unheld st p \/ exists t w, writes st t w /\ p ∈ held w.
Proof.
  destruct (is_held st p) eqn:H; [right|left; by apply is_held_false].
  unfold is_held in H. apply existsb_exists in H as (th & M & H). apply elem_of_list_In, elem_of_list_lookup in M as (t & Et).
  destruct (work th) as [| |w] eqn:W; try done. apply bool_decide_eq_true in H. exists t, w. split; [|done]. by exists th.
Qed.
Lemma writer_bs st exs t w : inv hash st exs -> writes st t w -> NoDup (held w) /\ exists th bs, threads st !! t = Some th /\ work th = Write w /\
  pinned th = true /\ locked (mem st) w bs /\ safe hash (epoch st) (pin th) (mine w) (Isw hash (mem st) w) (exs t) bs (todo w) /\ calm (todo w) bs.
Proof.
  intros I (th & Et & Wt). destruct (v_wr _ _ _ I t th w Et Wt) as (P & [N (bs & L & S & C)]). split; [done|]. exists th, bs. done.
Qed.
Lemma safe_good (E g : N) mine (Is : nat -> K -> Prop) ex bs l : safe hash E g mine Is ex bs l -> forall h b, bs !! h = Some b -> good hash (Is h) (exh ex h) b.
Proof. by destruct l as [|[] l]; intros (G & _). Qed.
Lemma safe_cov (E g : N) mine (Is : nat -> K -> Prop) ex bs l : safe hash E g mine Is ex bs l -> cov mine ex bs.
Proof. by destruct l as [|[] l]; intros (_ & C & _). Qed.
(** Every bucket is well-formed up to the slots exempted. *)
Lemma bucket_good st exs p b : inv hash st exs -> bucket_at (mem st) p = Some b -> good hash (Ip hash (mem st) p) (exm st exs p) b.
Proof.
  intros I Eb. destruct (held_or_not st p) as [U|(t & w & Wt & M)].
  - destruct (v_idle _ _ _ I p b Eb U) as (G & _). eapply good_weaken; [|done]. intros n j [].
  - destruct (writer_bs _ _ _ _ I Wt) as (N & th & bs & Et & Wk & Pn & L & S & C).
    apply elem_of_list_lookup in M as (h & Lh). pose proof (locked_at _ _ _ _ _ _ L Lh Eb) as Lb.
    pose proof (safe_good _ _ _ _ _ _ _ S h b Lb) as G.
    apply (good_weaken _ _ (exh (exs t) h)). { intros n j X. exists t, w, h. done. }
    eapply good_mono; [|done]. intros k. unfold Isw. by rewrite Lh.
Qed.
(** Reachable entries are protected. *)
Lemma live_prot st exs g p b n j x : inv hash st exs -> bucket_at (mem st) p = Some b -> live_at b n j = Some x -> prot st g p n j x.
Proof.
  intros I Eb Lv. destruct (live_at_inv _ _ _ _ Lv) as (nd & En & Ln). apply lv_some in Ln as (Oj & Rj & Dj).
  exists b, nd. repeat split; try done. destruct (frozen b) eqn:F; [by left|]. right. split; [split; [done|congruence]|].
  intros t w h o Wt Lh M. destruct (writer_bs _ _ _ _ I Wt) as (N & th & bs & _ & _ & _ & L & _ & C).
  destruct C as (_ & C). apply (C h b n nd j o); try done. by eapply locked_at.
Qed.

(** ** A step of a writer *)
Lemma calm_step E g ex bs h b y l b' : calm ((h, y) :: l) bs -> bs !! h = Some b -> pre E g ex bs h b y -> store E b y = Some b' ->
  calm l (<[h := b']> bs).
Proof.
  intros [O C] Lb P S. split.
  - intros h' z l1 l2 El Pz n' o' M. apply (O h' z ((h, y) :: l1) l2) with (n' := n') (o' := o'); [by rewrite El|done|done].
  - intros h' b1 n nd' j o Lb1 F En' Oj Rj M. destruct (decide (h' = h)) as [->|D].
    2:{ rewrite list_lookup_insert_ne in Lb1 by done. apply (C h' b1 n nd' j o); try done. by right. }
    rewrite list_lookup_insert in Lb1 by (by eapply lookup_lt_Some). injection Lb1 as <-.
    rewrite (store_frozen _ _ _ _ S) in F.
    destruct (pub y) eqn:Py. { exfalso. by apply (O h y [] l eq_refl Py n o). }
    destruct (store_back _ _ _ _ _ _ S En') as [(nd & En)|[-> _]]; [|done].
    destruct (store_at _ _ _ _ _ _ S En) as (nd'' & En'' & Q). rewrite En' in En''. injection En'' as <-.
    apply (C h b n nd j o); try done; [| |by right].
    + destruct Q as [[_ ->]|[_ ->]]; [done|]. by destruct y.
    + destruct Q as [[_ ->]|[T ->]]; [done|]. destruct y as [m i z|m i c|m i|m o'|m r|l'|m q|d|m i]; try done. cbn in *. injection T as ->.
      destruct P as (_ & nd0 & E0 & P). rewrite En in E0. injection E0 as <-.
      destruct P as [(i & r0 & -> & _)|(d & -> & D)].
      * rewrite BucketFacts.tb_lor in Rj. by apply orb_false_iff in Rj as [Rj _].
      * rewrite BucketFacts.tb_ldiff in Rj. destruct (tb (rem nd) j) eqn:R; [|done]. cbn in Rj. apply negb_false_iff in Rj.
        apply D in Rj. congruence.
Qed.
Definition upd exs t ex : nat -> list (nat * nat * nat) := fun t' => if decide (t' = t) then ex else exs t'.
Lemma store_step st exs t th w h y l p b b' ids' gone' :
  inv hash st exs -> threads st !! t = Some th -> work th = Write w -> todo w = (h, y) :: l -> held w !! h = Some p ->
  bucket_at (mem st) p = Some b -> store (epoch st) b y = Some b' ->
  let st' := State (set_bucket (mem st) p b') (cur st) (epoch st) ids' gone'
              (<[t := Thread (depth th) (pin th) (Write (Writer (mine w) (held w) l))]> (threads st)) in
  exists exs', inv hash st' exs' /\ trans st exs st' exs'.
Proof.
  intros I Et Wt Td Lh Eb St st'.
  destruct (v_wr _ _ _ I t th w Et Wt) as (Pn & [Nd (bs & Lk & Sf & Cm)]). rewrite Td in Sf, Cm.
  pose proof (locked_at _ _ _ _ _ _ Lk Lh Eb) as Lb.
  destruct Sf as (Gd & Cv & b0 & Lb0 & Pr & Nx). rewrite Lb in Lb0. injection Lb0 as <-.
  destruct (Nx (epoch st)) as (b1 & ex' & St1 & Sub & Sf'); [lia|]. rewrite St in St1. injection St1 as <-.
  assert (t < length (threads st)) as Lt by (by eapply lookup_lt_Some).
  set (w' := Writer (mine w) (held w) l) in *. set (th' := Thread (depth th) (pin th) (Write w')) in *.
  assert (forall q, bucket_at (mem st') q = if decide (q = p) then Some b' else bucket_at (mem st) q) as Bq.
  { intros q. cbn. by eapply bucket_at_set. }
  assert (forall a ar, mem st !! a = Some ar -> exists ar', mem st' !! a = Some ar' /\ bits ar' = bits ar /\ linked ar' = linked ar /\ length (bks ar') = length (bks ar)) as Am.
  { intros a ar Ea. cbn. rewrite set_bucket_arr, Ea. cbn. eexists. split; [done|]. destruct (decide (a = p.1)); [|done]. cbn. by rewrite insert_length. }
  assert (forall a ar, mem st' !! a = Some ar -> exists ar', mem st !! a = Some ar' /\ bits ar' = bits ar /\ linked ar' = linked ar /\ length (bks ar') = length (bks ar)) as Am'.
  { intros a ar Ea. cbn in Ea. rewrite set_bucket_arr in Ea. destruct (mem st !! a) as [ar0|]; [|done]. cbn in Ea. injection Ea as <-.
    exists ar0. split; [done|]. destruct (decide (a = p.1)); [|done]. cbn. by rewrite insert_length. }
  assert (forall a ar, mem st !! a = Some ar -> exists ar', mem st' !! a = Some ar' /\ bits ar' = bits ar) as Ab.
  { intros a ar Ea. destruct (Am a ar Ea) as (ar' & ? & ? & _). eauto. }
  assert (length (mem st') = length (mem st)) as Lm by (cbn; unfold set_bucket; apply alter_length).
  assert (old_of st' = old_of st) as Old.
  { unfold old_of. change (cur st') with (cur st). destruct (cur st) as [a|] eqn:Ec; [|done]. cbn [mbind option_bind].
    destruct (mem st !! a) as [ar|] eqn:Ea.
    - destruct (Am a ar Ea) as (ar' & -> & _ & Lr & _). cbn. done.
    - cbn. rewrite set_bucket_arr, Ea. done. }
  assert (forall t' v, writes st' t' v <-> (t' = t /\ v = w') \/ (t' <> t /\ writes st t' v)) as Ws.
  { intros t' v. unfold writes. cbn. destruct (decide (t' = t)) as [->|D].
    - rewrite list_lookup_insert by done. split.
      + intros (z & [= <-] & Wz). cbn in Wz. injection Wz as <-. by left.
      + intros [[_ ->]|[? _]]; [|done]. by exists th'.
    - rewrite list_lookup_insert_ne by done. split; [intros Z; by right|]. by intros [[? _]|[_ Z]]. }
  assert (writes st t w) as Wst by (by exists th).
  assert (forall q, unheld st' q <-> unheld st q) as Uq.
  { intros q. split; intros U t' v Wv M.
    - destruct (decide (t' = t)) as [->|D]; [|by apply (U t' v); [apply Ws; right|]].
      destruct Wv as (z & Ez & Wz). rewrite Et in Ez. injection Ez as <-. rewrite Wt in Wz. injection Wz as <-.
      apply (U t w'); [apply Ws; by left|done].
    - apply Ws in Wv as [[-> ->]|[D Wv]]; [by apply (U t w)|by apply (U t' v)]. }
  assert (p ∈ held w) as Mp by (by eapply elem_of_list_lookup_2).
  assert (forall t' v, t' <> t -> writes st t' v -> p ∉ held v) as Ot.
  { intros t' v D Wv M. apply D. by apply (v_dis _ _ _ I t' t v w p). }
  set (exs' := upd exs t ex'). assert (exs' t = ex') as Xt by (unfold exs', upd; by rewrite decide_True).
  assert (forall t', t' <> t -> exs' t' = exs t') as Xo by (intros t' D; unfold exs', upd; by rewrite decide_False).
  assert (forall q n j, exm st' exs' q n j -> exm st exs q n j) as Xm.
  { intros q n j (t' & v & h' & Wv & Lv & M). apply Ws in Wv as [[-> ->]|[D Wv]].
    - exists t, w, h'. rewrite Xt in M. split; [done|]. split; [done|].
      destruct (decide ((h', n, j) ∈ exs t)); [done|]. by apply Sub in M.
    - exists t', v, h'. rewrite Xo in M by done. done. }
  assert (wok hash (mem st') (epoch st') (pin th') w' ex') as Wk'.
  { split; [done|]. exists (<[h := b']> bs). split; [|split].
    - apply Forall2_same_length_lookup_2; [rewrite insert_length; by eapply Forall2_length|].
      intros h' q z Lq Lz. rewrite Bq. change (held w') with (held w) in Lq. destruct (decide (h' = h)) as [->|D].
      + rewrite Lh in Lq. injection Lq as <-. rewrite decide_True by done. rewrite list_lookup_insert in Lz by (by eapply lookup_lt_Some). done.
      + rewrite list_lookup_insert_ne in Lz by done. rewrite decide_False.
        * destruct (locked_held _ _ _ _ _ Lk Lz) as (q' & Lq' & Eq). congruence.
        * intros ->. apply D. by eapply NoDup_lookup.
    - eapply safe_mono; [|apply N.le_refl|exact Sf']. intros h' k Z. change (Isw hash (mem st') w h' k). by eapply Isw_mono.
    - by eapply calm_step. }
  exists exs'. split.
  { split.
    - intros a Ec. rewrite Lm. by apply (v_cur _ _ _ I).
    - intros a ar Ea. destruct (Am' a ar Ea) as (ar0 & Ea0 & <- & <- & <-). rewrite Lm. by apply (v_arr _ _ _ I a).
    - intros q z Eq U. apply Uq in U. rewrite Bq in Eq. destruct (decide (q = p)) as [->|D]; [exfalso; by apply (U t w)|].
      eapply idle_mono; [|by apply (v_idle _ _ _ I)]. intros k. by apply Ip_mono.
    - intros t' z v Ez Wz. cbn in Ez. destruct (decide (t' = t)) as [->|D].
      + rewrite list_lookup_insert in Ez by done. injection Ez as <-. cbn in Wz. injection Wz as <-. rewrite Xt. split; [done|exact Wk'].
      + rewrite list_lookup_insert_ne in Ez by done. rewrite Xo by done. destruct (v_wr _ _ _ I t' z v Ez Wz) as (Pz & Wz').
        split; [done|]. eapply wok_ext; [done|apply N.le_refl|done|]. intros q M. rewrite Bq, decide_False; [done|].
        intros ->. by apply (Ot t' v D); [exists z|].
    - intros t1 t2 w1 w2 q W1 W2 M1 M2. apply Ws in W1 as [[-> ->]|[D1 W1]], W2 as [[-> ->]|[D2 W2]]; [done| | |].
      + by apply (v_dis _ _ _ I t t2 w w2 q).
      + by apply (v_dis _ _ _ I t1 t w1 w q).
      + by apply (v_dis _ _ _ I t1 t2 w1 w2 q).
    - intros q z Eq Cq Oq. rewrite Old in Oq. change (cur st') with (cur st) in Cq. rewrite Bq in Eq. destruct (decide (q = p)) as [->|D].
      + exfalso. destruct (v_dead _ _ _ I p b Eb Cq Oq) as (_ & _ & U). by apply (U t w).
      + destruct (v_dead _ _ _ I q z Eq Cq Oq) as (? & ? & U). split; [done|]. split; [done|]. by apply Uq.
    - intros t' v q1 q2 Wv L1 L2. rewrite Old. change (cur st') with (cur st). apply Ws in Wv as [[-> ->]|[D Wv]].
      + by apply (v_two _ _ _ I t w).
      + by apply (v_two _ _ _ I t' v).
    - intros q z Eq. rewrite Bq in Eq. destruct (decide (q = p)) as [->|D]; [|by apply (v_next _ _ _ I q)].
      injection Eq as <-. eapply store_nexts; [done|done|]. by apply (v_next _ _ _ I p).
    - intros t' z Ez Pz. cbn in Ez. change (epoch st') with (epoch st). destruct (decide (t' = t)) as [->|D].
      + rewrite list_lookup_insert in Ez by done. injection Ez as <-. by apply (v_pin _ _ _ I t th).
      + rewrite list_lookup_insert_ne in Ez by done. by apply (v_pin _ _ _ I t' z). }
  split.
  - by left.
  - intros _. by left.
  - done.
  - intros q z Eq. rewrite Bq. destruct (decide (q = p)) as [->|D]; [|exists z; split; [done|apply kept_refl]].
    rewrite Eb in Eq. injection Eq as <-. exists b'. split; [done|]. split.
    + intros m n j x Lv Bh. destruct (live_at_inv _ _ _ _ Lv) as (nd & En & Ln). eapply store_behind; try done.
      apply lv_some in Ln as (Oj & _). intros Z. rewrite Z in Oj. by rewrite BucketFacts.tb_0 in Oj.
    + intros n nd En. destruct (store_at _ _ _ _ _ _ St En) as (nd' & En' & _). exists nd'. split; [done|]. intros j F.
      destruct (store_free _ _ _ _ _ _ _ _ _ _ _ _ Pr St En F) as (nd'' & En'' & Q). rewrite En' in En''. injection En'' as <-. done.
  - intros q n j x (z & Eq & Lv & NX). right. destruct (decide (q = p)) as [->|D].
    2:{ left. exists z. rewrite Bq, decide_False by done. split; [done|]. split; [done|]. intros X. by apply NX, Xm. }
    rewrite Eb in Eq. injection Eq as <-. assert ((h, n, j) ∉ exs t) as NX'. { intros M. apply NX. exists t, w, h. done. }
    destruct (store_live _ _ _ _ _ _ _ _ _ _ _ _ Pr St Lv NX') as [Lv'|(F & -> & t1 & n' & j' & Lt1 & Lv' & NX1)].
    { left. exists b'. rewrite Bq, decide_True by done. split; [done|]. split; [done|]. intros X. by apply NX, Xm. }
    right. destruct (locked_held _ _ _ _ _ Lk Lt1) as (q & Lq & Eq).
    destruct (v_two _ _ _ I t w p q Wst Lh Lq) as [O1 C1]. split; [done|]. split; [done|]. exists q, n', j'. split; [done|].
    exists t1. split; [|split; [done|]].
    + rewrite Bq, decide_False; [done|]. intros ->. pose proof (NoDup_lookup _ _ _ _ Nd Lh Lq). done.
    + intros X. apply Xm in X as (t' & v & h' & Wv & Lv2 & M). assert (t' = t) as ->.
      { apply (v_dis _ _ _ I t' t v w q); try done; by eapply elem_of_list_lookup_2. }
      destruct Wv as (z & Ez & Wz). rewrite Et in Ez. injection Ez as <-. rewrite Wt in Wz. injection Wz as <-.
      pose proof (NoDup_lookup _ _ _ _ Nd Lv2 Lq) as ->. done.
  - intros g q n j x Lg (z & nd & Eq & En & Dj & Q). unfold prot. rewrite Bq. destruct (decide (q = p)) as [->|D].
    2:{ exists z, nd. repeat split; try done. destruct Q as [F|[Hb Qt]]; [by left|right]. split; [done|].
        intros t' v h' o Wv Lv M. apply Ws in Wv as [[-> ->]|[D' Wv]].
        - apply (Qt t w h' o Wst Lv). rewrite Td. by right.
        - by apply (Qt t' v h' o). }
    rewrite Eb in Eq. injection Eq as <-. destruct Q as [F|[Hb Qt]].
    + destruct (store_frozen_data _ _ _ _ _ _ _ _ _ _ _ Pr St F En) as (nd' & En' & Dd).
      exists b', nd'. split; [done|]. split; [done|]. split; [by rewrite Dd|]. left. by rewrite (store_frozen _ _ _ _ St).
    + destruct (v_pin _ _ _ I t th Et Pn) as [P1 P2].
      destruct (store_held (epoch st) (pin th) (exs t) bs h b y b' g n nd j) as (nd' & En' & Dd & Hb'); try done; [lia| |].
      { intros o ->. apply (Qt t w h o Wst Lh). rewrite Td. left. }
      exists b', nd'. split; [done|]. split; [done|]. split; [by rewrite Dd|]. right. split; [done|].
      intros t' v h' o Wv Lv M. apply Ws in Wv as [[-> ->]|[D' Wv]].
      * apply (Qt t w h' o Wst Lv). rewrite Td. by right.
      * by apply (Qt t' v h' o).
Qed.
End trans.
