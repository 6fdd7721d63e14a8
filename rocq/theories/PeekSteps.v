(** Every step keeps the invariant. *)
From Coq Require Import NArith Lia.
From stdpp Require Import prelude list numbers.
From Verif Require BucketSpec BucketFacts BucketOps.
From Verif Require Import PeekModel PeekSpec PeekInv PeekGood PeekOps PeekOps2 PeekStore PeekGlob PeekStart PeekTrans.

Section steps.
Context {K V : Type} `{EqDecision K} (hash : K -> N) (hash64 : forall k, (hash k < 2 ^ 64)%N).
Notation obj := (obj K V).
Notation node := (node K V).
Notation bucket := (bucket K V).
Notation array := (array K V).
Notation state := (state K V).
Notation writer := (writer K V).
Implicit Types (b : bucket) (nd : node) (x : obj) (n j h : nat) (w : writer) (st : state) (p : nat * nat).
Implicit Types (E g e : N) (bs : list bucket) (ex : list (nat * nat * nat)) (exs : nat -> list (nat * nat * nat)).
Local Arguments BucketModel.bit : simpl never.
Local Arguments BucketModel.trailing_ones : simpl never.
Local Arguments BucketSpec.tb : simpl never.
Local Arguments N.lor : simpl never.
Local Arguments N.ldiff : simpl never.
Local Arguments live_at : simpl never.
Local Arguments lv : simpl never.
Local Arguments byte : simpl never.
Local Arguments doomed : simpl never.
Local Arguments bucket_at : simpl never.
Local Arguments total : simpl never.

(** ** Steps that change neither memory nor writers *)
Lemma still_step st exs st' : inv hash st exs -> mem st' = mem st -> cur st' = cur st -> (epoch st <= epoch st')%N ->
  (forall t th w, threads st' !! t = Some th -> work th = Write w ->
     exists th0, threads st !! t = Some th0 /\ work th0 = Write w /\ pin th = pin th0 /\ pinned th = true) ->
  (forall t w, writes st t w -> writes st' t w) ->
  (forall t th, threads st' !! t = Some th -> pinned th = true -> (pin th <= epoch st' <= pin th + 1)%N) ->
  inv hash st' exs /\ trans st exs st' exs.
Proof.
  intros I M C Ep W1 W2 Pn.
  assert (forall t w, writes st' t w <-> writes st t w) as Ws.
  { intros t w. split; [|apply W2]. intros (th & Et & Wt). destruct (W1 t th w Et Wt) as (th0 & ? & ? & _). by exists th0. }
  assert (forall p, unheld st' p <-> unheld st p) as Us. { intros p. split; intros U t w Wt; (apply (U t w); by apply Ws). }
  assert (old_of st' = old_of st) as Old by (unfold old_of; by rewrite C, M).
  assert (forall p n j, exm st' exs p n j <-> exm st exs p n j) as Xs.
  { intros p n j. split; intros (t & w & h & Wt & R); exists t, w, h; (split; [by apply Ws|done]). }
  split; split; try rewrite M; try rewrite C; try rewrite Old.
  - apply (v_cur _ _ _ I).
  - apply (v_arr _ _ _ I).
  - intros p b Eb U. apply (v_idle _ _ _ I); [done|]. by apply Us.
  - intros t th w Et Wt. destruct (W1 t th w Et Wt) as (th0 & Et0 & Wt0 & -> & P). split; [done|].
    destruct (v_wr _ _ _ I t th0 w Et0 Wt0) as (_ & Wk). eapply wok_ext; [done|done| |done]. eauto.
  - intros t t' w w' p Wt Wt'. apply (v_dis _ _ _ I); by apply Ws.
  - intros p b Eb Cp Op. destruct (v_dead _ _ _ I p b Eb Cp Op) as (? & ? & U). split; [done|]. split; [done|]. by apply Us.
  - intros t w p q Wt. apply (v_two _ _ _ I t). by apply Ws.
  - apply (v_next _ _ _ I).
  - done.
  - by left.
  - intros _. by left.
  - eauto.
  - intros p b Eb. exists b. split; [done|apply kept_refl].
  - intros p n j x (b & Eb & Lv & NX). right; left. exists b. rewrite M. split; [done|]. split; [done|]. by rewrite Xs.
  - intros g p n j x Lg (b & nd & Eb & En & Dj & Q). exists b, nd. rewrite M. repeat split; try done.
    destruct Q as [F|[[Oj Rj] Qt]]; [by left|]. right. split.
    + split; [done|]. intros R. destruct (Rj R) as (r & ? & ? & ?). exists r. repeat split; try done; lia.
    + intros t w h o Wt. apply (Qt t w h o). by apply Ws.
Qed.

(** ** The end of an operation *)
Lemma finish_step st exs t th w : inv hash st exs -> threads st !! t = Some th -> work th = Write w -> todo w = [] ->
  inv hash (with_thread st t (leave th Idle)) exs /\ trans st exs (with_thread st t (leave th Idle)) exs.
Proof.
  intros I Et Wt Td. set (st' := with_thread st t (leave th Idle)).
  assert (t < length (threads st)) as Lt by (by eapply lookup_lt_Some).
  assert (forall t' v, writes st' t' v <-> t' <> t /\ writes st t' v) as Ws.
  { intros t' v. unfold writes. cbn. destruct (decide (t' = t)) as [->|D].
    - rewrite list_lookup_insert by done. split; [by intros (z & [= <-] & Wz)|]. by intros [? _].
    - rewrite list_lookup_insert_ne by done. split; [done|]. by intros [_ ?]. }
  destruct (v_wr _ _ _ I t th w Et Wt) as (Pn & [Nd (bs & Lk & Sf & Cm)]). rewrite Td in Sf. destruct Sf as (_ & _ & Ex & Id).
  assert (forall p n j, exm st' exs p n j <-> exm st exs p n j) as Xs.
  { intros p n j. split; intros (t' & v & h & Wv & R).
    - exists t', v, h. apply Ws in Wv as [_ Wv]. done.
    - exists t', v, h. split; [|done]. apply Ws. split; [|done]. intros ->. rewrite Ex in R. destruct R as [_ R]. by apply elem_of_nil in R. }
  assert (forall p, unheld st p -> unheld st' p) as Us. { intros p U t' v Wv. apply Ws in Wv as [_ Wv]. by apply (U t' v). }
  split; split; try (exact (v_cur _ _ _ I)); try (exact (v_arr _ _ _ I)); try (exact (v_next _ _ _ I)).
  - intros p b Eb U. destruct (held_or_not st p) as [U'|(t' & v & Wv & M)]; [by apply (v_idle _ _ _ I)|].
    destruct (decide (t' = t)) as [->|D]; [|exfalso; by apply (U t' v); [apply Ws|]].
    destruct Wv as (z & Ez & Wz). rewrite Et in Ez. injection Ez as <-. rewrite Wt in Wz. injection Wz as <-.
    apply elem_of_list_lookup in M as (h & Lh). eapply idle_mono; [|apply (Id h); by eapply locked_at]. intros k. unfold Isw. by rewrite Lh.
  - intros t' z v Ez Wz. cbn in Ez. destruct (decide (t' = t)) as [->|D].
    + rewrite list_lookup_insert in Ez by done. by injection Ez as <-.
    + rewrite list_lookup_insert_ne in Ez by done. by apply (v_wr _ _ _ I).
  - intros t1 t2 w1 w2 p W1 W2. apply Ws in W1 as [_ W1], W2 as [_ W2]. by apply (v_dis _ _ _ I).
  - intros p b Eb Cp Op. destruct (v_dead _ _ _ I p b Eb Cp Op) as (? & ? & U). split; [done|]. split; [done|]. by apply Us.
  - intros t' v p q Wv. apply Ws in Wv as [_ Wv]. by apply (v_two _ _ _ I t').
  - intros t' z Ez Pz. cbn in Ez. destruct (decide (t' = t)) as [->|D].
    + rewrite list_lookup_insert in Ez by done. injection Ez as <-. by apply (v_pin _ _ _ I t th).
    + rewrite list_lookup_insert_ne in Ez by done. by apply (v_pin _ _ _ I t' z).
  - by left.
  - intros _. by left.
  - eauto.
  - intros p b Eb. exists b. split; [done|apply kept_refl].
  - intros p n j x (b & Eb & Lv & NX). right; left. exists b. split; [done|]. split; [done|]. by rewrite Xs.
  - intros g p n j x Lg (b & nd & Eb & En & Dj & Q). exists b, nd. repeat split; try done. destruct Q as [F|[Hb Qt]]; [by left|right].
    split; [done|]. intros t' v h o Wv. apply Ws in Wv as [_ Wv]. by apply (Qt t' v h o).
Qed.

(** ** The start of an operation *)
Lemma op_step st exs t th o w ids' : inv hash st exs -> threads st !! t = Some th -> work th = Idle -> start hash st o = Some w ->
  let st' := State (mem st) (cur st) (epoch st) ids' (gone st) (<[t := enter (epoch st) th (Write w)]> (threads st)) in
  exists exs', inv hash st' exs' /\ trans st exs st' exs'.
Proof.
  intros I Et Wt Ss st'. set (th' := enter (epoch st) th (Write w)) in *.
  assert (t < length (threads st)) as Lt by (by eapply lookup_lt_Some).
  assert (pin th' <= epoch st <= pin th' + 1)%N as Lp.
  { cbn. destruct (pinned th) eqn:P; [by apply (v_pin _ _ _ I t th)|lia]. }
  destruct (start_fresh hash st exs o w (pin th') I) as (ex & Fr); [lia|done|].
  assert (forall t' v, writes st' t' v <-> (t' = t /\ v = w) \/ (t' <> t /\ writes st t' v)) as Ws.
  { intros t' v. unfold writes. cbn. destruct (decide (t' = t)) as [->|D].
    - rewrite list_lookup_insert by done. split.
      + intros (z & [= <-] & Wz). cbn in Wz. injection Wz as <-. by left.
      + intros [[_ ->]|[? _]]; [|done]. by exists th'.
    - rewrite list_lookup_insert_ne by done. split; [intros Z; by right|]. by intros [[? _]|[_ Z]]. }
  assert (forall t' v, writes st t' v -> t' <> t) as Nt.
  { intros t' v (z & Ez & Wz) ->. rewrite Et in Ez. injection Ez as <-. congruence. }
  assert (forall p, unheld st' p -> unheld st p) as Us.
  { intros p U t' v Wv. apply (U t' v). apply Ws. right. split; [by eapply Nt|done]. }
  set (exs' := upd exs t ex). assert (exs' t = ex) as Xt by (unfold exs', upd; by rewrite decide_True).
  assert (forall t', t' <> t -> exs' t' = exs t') as Xo by (intros t' D; unfold exs', upd; by rewrite decide_False).
  exists exs'. split; split; try (exact (v_cur _ _ _ I)); try (exact (v_arr _ _ _ I)); try (exact (v_next _ _ _ I)).
  - intros p b Eb U. apply (v_idle _ _ _ I); [done|]. by apply Us.
  - intros t' z v Ez Wz. cbn in Ez. destruct (decide (t' = t)) as [->|D].
    + rewrite list_lookup_insert in Ez by done. injection Ez as <-. cbn in Wz. injection Wz as <-. split; [done|]. rewrite Xt. apply (f_ok _ _ _ _ _ Fr).
    + rewrite list_lookup_insert_ne in Ez by done. rewrite Xo by done. by apply (v_wr _ _ _ I).
  - intros t1 t2 w1 w2 p W1 W2 M1 M2. apply Ws in W1 as [[-> ->]|[D1 W1]], W2 as [[-> ->]|[D2 W2]]; [done| | |].
    + exfalso. destruct (f_open _ _ _ _ _ Fr p M1) as [U _]. by apply (U t2 w2).
    + exfalso. destruct (f_open _ _ _ _ _ Fr p M2) as [U _]. by apply (U t1 w1).
    + by apply (v_dis _ _ _ I t1 t2 w1 w2 p).
  - intros p b Eb Cp Op. destruct (v_dead _ _ _ I p b Eb Cp Op) as (? & ? & U). split; [done|]. split; [done|].
    intros t' v Wv M. apply Ws in Wv as [[-> ->]|[_ Wv]]; [|by apply (U t' v)].
    destruct (f_open _ _ _ _ _ Fr p M) as [_ [Z|Z]]; done.
  - intros t' v p q Wv Lp' Lq. apply Ws in Wv as [[-> ->]|[_ Wv]]; [by apply (f_two _ _ _ _ _ Fr)|by apply (v_two _ _ _ I t' v)].
  - intros t' z Ez Pz. cbn in Ez. destruct (decide (t' = t)) as [->|D].
    + rewrite list_lookup_insert in Ez by done. by injection Ez as <-.
    + rewrite list_lookup_insert_ne in Ez by done. by apply (v_pin _ _ _ I t' z).
  - by left.
  - intros _. by left.
  - eauto.
  - intros p b Eb. exists b. split; [done|apply kept_refl].
  - intros p n j x (b & Eb & Lv & NX). destruct (decide (x.1 ∈ mine w)) as [Mi|NM].
    { left. exists t, th', w. split; [cbn; by apply list_lookup_insert|]. done. }
    right; left. exists b. split; [done|]. split; [done|]. intros (t' & v & h & Wv & Lh & M). apply Ws in Wv as [[-> ->]|[D Wv]].
    + rewrite Xt in M. by apply NM, (f_mine _ _ _ _ _ Fr h p b n j).
    + rewrite Xo in M by done. apply NX. by exists t', v, h.
  - intros g p n j x Lg (b & nd & Eb & En & Dj & Q). exists b, nd. repeat split; try done. destruct (frozen b) eqn:F; [by left|].
    destruct Q as [?|[Hb Qt]]; [done|right]. split; [done|]. intros t' v h o' Wv Lh M. apply Ws in Wv as [[-> ->]|[_ Wv]].
    + apply (f_quiet _ _ _ _ _ Fr g h p b n nd j o'); try done. lia.
    + by apply (Qt t' v h o').
Qed.

(** ** Changes of the table *)
(** A bucket that nobody uses is frozen, or loses links after it has been relocated. *)
Record soft b b' : Prop := Soft {
  s_frozen : frozen b' = true;
  s_nodes : forall n nd, nodes b !! n = Some nd -> exists nd', nodes b' !! n = Some nd' /\ occ nd' = occ nd /\ rem nd' = rem nd /\ cells nd' = cells nd /\ data nd' = data nd;
  s_length : length (nodes b) = length (nodes b');
  s_nexts : nexts b -> nexts b';
  s_idle : forall I, idle hash I b -> idle hash I b';
  s_behind : forall i n j x, live_at b n j = Some x -> behind (nodes b) i n -> behind (nodes b') i n }.
Lemma soft_live b b' n j x : soft b b' -> live_at b n j = Some x -> live_at b' n j = Some x.
Proof.
  intros S Lv. destruct (live_at_inv _ _ _ _ Lv) as (nd & En & Ln). destruct (s_nodes _ _ S n nd En) as (nd' & En' & O & R & C & D).
  rewrite (live_at_lv _ _ _ _ En'). unfold lv, live_in in *. by rewrite O, R, D.
Qed.
Lemma soft_kept b b' : soft b b' -> kept b b'.
Proof.
  intros S. split; [apply (s_behind _ _ S)|]. intros n nd En. destruct (s_nodes _ _ S n nd En) as (nd' & En' & O & R & _).
  exists nd'. split; [done|]. intros j [F1 F2]. left. split; congruence.
Qed.
Lemma freeze_soft b : soft b (Bkt (blen b) (nodes b) true).
Proof.
  split; try done.
  - intros n nd En. by exists nd.
  - intros I (G & Ln & Ti). split; [by apply good_freeze|done].
Qed.
Lemma path_cut (ns : list node) c : forall m n nd, path ns m c -> NoDup (m :: c) -> ns !! n = Some nd ->
  exists c', path (<[n := set_next nd None]> ns) m c' /\ NoDup (m :: c') /\ forall q, q ∈ c' -> q ∈ c.
Proof.
  assert (forall m n nd, ns !! n = Some nd -> m = n -> path (<[n := set_next nd None]> ns) m []) as Z.
  { intros m n nd En ->. exists (set_next nd None). split; [|done]. apply list_lookup_insert. by eapply lookup_lt_Some. }
  induction c as [|q c IH]; intros m n nd P N En; destruct (decide (m = n)) as [D|D].
  - exists []. split; [by apply Z|]. split; [apply NoDup_singleton|done].
  - exists []. split; [|split; [apply NoDup_singleton|done]]. destruct P as (md & Em & Nm). exists md. by rewrite list_lookup_insert_ne.
  - exists []. split; [by apply Z|]. split; [apply NoDup_singleton|]. intros q' M. by apply elem_of_nil in M.
  - destruct P as (md & Em & Nm & P). apply list.NoDup_cons in N as [N1 N2]. destruct (IH q n nd P N2 En) as (c' & P' & N' & S).
    exists (q :: c'). split; [|split].
    + exists md. rewrite list_lookup_insert_ne by done. done.
    + apply list.NoDup_cons. split; [|done]. intros M. apply N1. apply elem_of_cons in M as [->|M]; [left|right; auto].
    + intros z M. apply elem_of_cons in M as [->|M]; [left|right; auto].
Qed.
Lemma strip_soft e b n b' : frozen b = true -> (forall n j, live_at b n j = None) -> store e b (WNext n None) = Some b' -> soft b b'.
Proof.
  intros F Nl S. cbn in S. unfold put in S. destruct (nodes b !! n) as [nd|] eqn:En; [|done]. cbn in S. injection S as <-.
  change (Node (occ nd) (rem nd) (cells nd) (data nd) None) with (set_next nd None). set (b' := Bkt _ _ _).
  assert (forall m j, live_at b' m j = None) as Nl'.
  { intros m j. change b' with (set_node b n (set_next nd None)). rewrite (live_set_next _ _ _ _ _ _ En). apply Nl. }
  split; try done.
  - intros m md Em. destruct (decide (m = n)) as [->|D].
    + rewrite En in Em. injection Em as <-. exists (set_next nd None). split; [|done]. apply list_lookup_insert. by eapply lookup_lt_Some.
    + exists md. split; [|done]. cbn. by rewrite list_lookup_insert_ne.
  - cbn. by rewrite insert_length.
  - intros N m md q Em Nx. cbn in Em. destruct (decide (m = n)) as [->|D].
    + rewrite list_lookup_insert in Em by (by eapply lookup_lt_Some). by injection Em as <-.
    + rewrite list_lookup_insert_ne in Em by done. destruct (N m md q Em Nx) as (qd & Eq). cbn.
      apply lookup_lt_is_Some. rewrite insert_length. by eapply lookup_lt_Some.
  - intros I ([W C (c & P & N & L)] & Ln & Ti). split; [split|split].
    + intros m md Em. destruct (set_node_lookup b n nd _ m md En Em) as [[-> ->]|[_ Em']]; [by apply (W n nd)|by apply W].
    + intros m j x md Em Lv. by rewrite Nl' in Lv.
    + destruct (path_cut _ _ _ n nd P N En) as (c' & P' & N' & _). exists c'. split; [done|]. split; [done|]. intros m j x Lv. by rewrite Nl' in Lv.
    + cbn. pose proof (total_insert (nodes b) n nd (set_next nd None) En) as T. rewrite (count_eq (set_next nd None) nd) in T by done. lia.
    + intros m md j Em R. destruct (set_node_lookup b n nd _ m md En Em) as [[-> ->]|[_ Em']]; [by apply (Ti n nd)|by apply (Ti m md)].
  - intros i m j x Lv. by rewrite Nl in Lv.
Qed.
Lemma new_bucket_idle (I : K -> Prop) : idle hash I (new_bucket (K:=K) (V:=V)).
Proof.
  assert (forall n j, live_at (new_bucket (K:=K) (V:=V)) n j = None) as Nl.
  { intros n j. unfold live_at. destruct n as [|n]; cbn; [|done]. done. }
  split; [split|split].
  - intros n nd En. destruct n as [|n]; [|done]. cbn in En. injection En as <-. split; [done|]. split; [done|].
    intros j Q. cbn in Q. by rewrite BucketFacts.tb_0 in Q.
  - intros n j x nd En Lv. by rewrite Nl in Lv.
  - exists []. split; [by exists (new_node 32)|]. split; [apply NoDup_singleton|]. intros n j x Lv. by rewrite Nl in Lv.
  - reflexivity.
  - intros n nd j En R. destruct n as [|n]; [|done]. cbn in En. injection En as <-. cbn in R. by rewrite BucketFacts.tb_0 in R.
Qed.
Lemma new_bucket_nexts : nexts (new_bucket (K:=K) (V:=V)).
Proof. intros n nd q En Nx. destruct n as [|n]; [|done]. cbn in En. injection En as <-. done. Qed.

Lemma table_step st exs st' : inv hash st exs -> threads st' = threads st -> epoch st' = epoch st ->
  (forall a, cur st' = Some a -> a < length (mem st')) ->
  (forall a ar, mem st' !! a = Some ar -> length (bks ar) = 2 ^ bits ar /\ bits ar <= 64 /\
     forall o, linked ar = Some o -> o < length (mem st') /\ cur st' <> Some o) ->
  (forall a ar, mem st !! a = Some ar -> exists ar', mem st' !! a = Some ar' /\ bits ar' = bits ar) ->
  (forall p b, bucket_at (mem st) p = Some b -> exists b', bucket_at (mem st') p = Some b' /\ (b' = b \/ (unheld st p /\ soft b b'))) ->
  (forall p b', bucket_at (mem st') p = Some b' -> (exists b, bucket_at (mem st) p = Some b) \/ b' = new_bucket) ->
  (forall p b', bucket_at (mem st') p = Some b' -> cur st' <> Some p.1 -> old_of st' <> Some p.1 ->
     frozen b' = true /\ (forall n j, live_at b' n j = None) /\ unheld st p) ->
  (forall t w p q, writes st t w -> held w !! 0 = Some p -> held w !! 1 = Some q -> old_of st' = Some p.1 /\ cur st' = Some q.1) ->
  (cur st' = cur st \/ cur st' = None \/ cur st' = Some (length (mem st))) ->
  (cur st' = cur st -> old_of st' = old_of st \/ old_of st' = None) ->
  inv hash st' exs /\ trans st exs st' exs.
Proof.
  intros I Th Ep Vc Va Ab Bf Bb Vd Vt Tc To.
  assert (forall t w, writes st' t w <-> writes st t w) as Ws by (intros t w; unfold writes; by rewrite Th).
  assert (forall p, unheld st' p <-> unheld st p) as Us. { intros p. split; intros U t w Wt; (apply (U t w); by apply Ws). }
  assert (forall p n j, exm st' exs p n j <-> exm st exs p n j) as Xs.
  { intros p n j. split; intros (t & w & h & Wt & R); exists t, w, h; (split; [by apply Ws|done]). }
  split; split; try done.
  - intros p b' Eb' U. apply Us in U. destruct (Bb p b' Eb') as [(b & Eb)| ->]; [|apply new_bucket_idle].
    destruct (Bf p b Eb) as (b2 & Eb2 & Q). rewrite Eb' in Eb2. injection Eb2 as <-.
    assert (idle hash (Ip hash (mem st') p) b) as Id. { eapply idle_mono; [|by apply (v_idle _ _ _ I)]. intros k. by apply Ip_mono. }
    destruct Q as [->|[_ S]]; [done|]. by apply (s_idle _ _ S).
  - intros t th w Et Wt. rewrite Th in Et. rewrite Ep. destruct (v_wr _ _ _ I t th w Et Wt) as (P & Wk). split; [done|].
    eapply wok_ext; [done|apply N.le_refl|done|]. intros p M. destruct Wk as [_ (bs & Lk & _)].
    pose proof M as M'. apply elem_of_list_lookup in M' as (h & Lh). destruct (Forall2_lookup_l _ _ _ _ _ Lk Lh) as (b & _ & Eb).
    destruct (Bf p b Eb) as (b' & Eb' & [->|[U _]]); [congruence|]. exfalso. apply (U t w); [by exists th|done].
  - intros t t' w w' p Wt Wt'. apply (v_dis _ _ _ I); by apply Ws.
  - intros p b' Eb' Cp Op. destruct (Vd p b' Eb' Cp Op) as (? & ? & U). split; [done|]. split; [done|]. by apply Us.
  - intros t w p q Wt. apply Vt with (t := t). by apply Ws.
  - intros p b' Eb'. destruct (Bb p b' Eb') as [(b & Eb)| ->]; [|apply new_bucket_nexts].
    destruct (Bf p b Eb) as (b2 & Eb2 & Q). rewrite Eb' in Eb2. injection Eb2 as <-.
    destruct Q as [->|[_ S]]; [by apply (v_next _ _ _ I p)|]. apply (s_nexts _ _ S). by apply (v_next _ _ _ I p).
  - intros t th Et P. rewrite Th in Et. rewrite Ep. by apply (v_pin _ _ _ I t).
  - intros p b Eb. destruct (Bf p b Eb) as (b' & Eb' & Q). exists b'. split; [done|]. destruct Q as [->|[_ S]]; [apply kept_refl|by apply soft_kept].
  - intros p n j x (b & Eb & Lv & NX). right; left. destruct (Bf p b Eb) as (b' & Eb' & Q). exists b'. split; [done|]. rewrite Xs. split; [|done].
    destruct Q as [->|[_ S]]; [done|by eapply soft_live].
  - intros g p n j x Lg (b & nd & Eb & En & Dj & Q). destruct (Bf p b Eb) as (b' & Eb' & [->|[_ S]]).
    + exists b, nd. repeat split; try done. destruct Q as [F|[Hb Qt]]; [by left|right]. rewrite Ep. split; [done|].
      intros t w h o Wt. apply (Qt t w h o). by apply Ws.
    + destruct (s_nodes _ _ S n nd En) as (nd' & En' & _ & _ & _ & Dd). exists b', nd'. split; [done|]. split; [done|].
      split; [by rewrite Dd|]. left. apply (s_frozen _ _ S).
Qed.
End steps.
