(** An entry of a HashIndex stays in the table as long as nobody removes it, also while it is being inserted. *)
From Coq Require Import NArith Lia.
From stdpp Require Import prelude list numbers.
From Verif Require BucketSpec BucketFacts BucketOps.
From Verif Require Import PeekModel PeekSpec PeekInv PeekGood PeekOps PeekOps2 PeekStore PeekGlob PeekStart PeekTrans PeekSteps PeekStepInv PeekRead PeekSeen PeekRun PkSpec.

Section stay.
Context {K V : Type} `{EqDecision K} (hash : K -> N) (hash64 : forall k, (hash k < 2 ^ 64)%N).
Notation obj := (obj K V).
Notation node := (node K V).
Notation bucket := (bucket K V).
Notation array := (array K V).
Notation state := (state K V).
Notation writer := (writer K V).
Implicit Types (b : bucket) (nd : node) (x : obj) (n j h : nat) (st : state) (p : nat * nat).
Implicit Types (E g e : N) (bs : list bucket) (ex : list (nat * nat * nat)) (exs : nat -> list (nat * nat * nat)).
Local Arguments live_at : simpl never.
Local Arguments lv : simpl never.
Local Arguments bucket_at : simpl never.
Local Arguments BucketModel.trailing_zeros : simpl never.
Local Arguments BucketModel.bit : simpl never.
Local Arguments BucketSpec.tb : simpl never.
Local Arguments N.lor : simpl never.
Local Arguments N.ldiff : simpl never.

Lemma store_keep E g ex bs h b (w : write K V) b' e n j x : pre E g ex bs h b w -> store e b w = Some b' ->
  live_at b n j = Some x ->
  live_at b' n j = Some x \/
  (h = 0 /\ exists t n' j', bs !! 1 = Some t /\ live_at t n' j' = Some x) \/
  exists m, w = WRem n m.
Proof.
  intros P S Lv. destruct (live_at_inv _ _ _ _ Lv) as (nd & En & Ln). destruct (store_at _ _ _ _ _ _ S En) as (nd' & En' & Q).
  rewrite (live_at_lv _ _ _ _ En'). destruct Q as [[_ ->]|[T ->]]; [by left|].
  pose proof Ln as Ln'. apply lv_some in Ln as (Oj & Rj & Dj).
  destruct w as [m i y|m i c|m i|m o|m r|l|m q|d|m i]; cbn in T; try done; injection T as ->; cbn in P.
  - destruct P as (_ & nd0 & E0 & O0). rewrite En in E0. injection E0 as <-. left. apply lv_some. cbn. repeat split; try done.
    rewrite list_lookup_insert_ne; [done|]. intros ->. congruence.
  - left. by apply lv_some.
  - left. by apply lv_some.
  - destruct P as (nd0 & E0 & P). rewrite En in E0. injection E0 as <-.
    destruct P as [(_ & i & y & -> & _)|[(_ & d & -> & D)|(F & Z & i & y & -> & Ly & t & n' & j' & Ht & Lt & Nt)]].
    + left. apply lv_some. cbn. by rewrite BucketFacts.tb_lor, Oj.
    + left. apply lv_some. cbn. rewrite BucketFacts.tb_ldiff, Oj. destruct (tb d j) eqn:Dd; [|done].
      destruct (D j Dd) as [? _]. congruence.
    + destruct (decide (i = j)) as [->|Nj].
      * right. left. split; [done|]. exists t, n', j'. rewrite Lv in Ly. injection Ly as <-. done.
      * left. apply lv_some. cbn. by rewrite BucketFacts.tb_ldiff, BucketFacts.tb_bit, Oj, bool_decide_eq_false_2 by done.
  - right. right. eauto.
  - left. by apply lv_some.
  - destruct P as (_ & nd0 & E0 & O0). rewrite En in E0. injection E0 as <-. left. apply lv_some. cbn. repeat split; try done.
    rewrite list_lookup_insert_ne; [done|]. intros ->. congruence.
Qed.

(** Somewhere in memory. *)
Definition alive (m : list array) x : Prop := exists p b n j, bucket_at m p = Some b /\ live_at b n j = Some x.
Lemma stored_alive st x : stored st x -> alive (mem st) x.
Proof.
  intros (a & i & n & j & ar & b & nd & _ & Ea & Eb & En & O & R & D). exists (a, i), b, n, j.
  split; [by apply (at_some_bucket _ _ ar)|]. rewrite (live_at_lv _ _ _ _ En). by apply lv_some.
Qed.
Lemma alive_ext m m' x : (forall p b, bucket_at m p = Some b -> exists b', bucket_at m' p = Some b' /\ forall n j, live_at b n j = Some x -> live_at b' n j = Some x) ->
  alive m x -> alive m' x.
Proof. intros A (p & b & n & j & Eb & Lv). destruct (A p b Eb) as (b' & Eb' & L). exists p, b', n, j. auto. Qed.
Lemma alive_write st exs t th w h y l p b b' x : inv hash st exs -> threads st !! t = Some th -> work th = Write w -> todo w = (h, y) :: l ->
  held w !! h = Some p -> bucket_at (mem st) p = Some b -> store (epoch st) b y = Some b' -> ~ removing st x ->
  alive (mem st) x -> alive (set_bucket (mem st) p b') x.
Proof.
  intros I Et Wt Td Lh Eb St Nr.
  destruct (v_wr _ _ _ I t th w Et Wt) as (Pn & [Nd (bs & Lk & Sf & Cm)]). rewrite Td in Sf.
  pose proof (locked_at _ _ _ _ _ _ Lk Lh Eb) as Lb.
  destruct Sf as (Gd & Cv & b0 & Lb0 & Pr & _). rewrite Lb in Lb0. injection Lb0 as <-.
  assert (forall q, bucket_at (set_bucket (mem st) p b') q = if decide (q = p) then Some b' else bucket_at (mem st) q) as Bq
    by (intros q; by eapply bucket_at_set).
  (* an entry of another locked bucket *)
  assert (forall h' b1 n j, h' <> h -> bs !! h' = Some b1 -> live_at b1 n j = Some x -> alive (set_bucket (mem st) p b') x) as Ot.
  { intros h' b1 n j D L1 Lv. destruct (locked_held _ _ _ _ _ Lk L1) as (p' & Lp' & Eb'). exists p', b1, n, j. split; [|done].
    rewrite Bq, decide_False; [done|]. intros ->. apply D. by eapply (NoDup_lookup _ _ _ _ Nd). }
  (* one that is not exempted *)
  assert (forall h' b1 n j, bs !! h' = Some b1 -> live_at b1 n j = Some x -> (h', n, j) ∉ exs t -> alive (set_bucket (mem st) p b') x) as Ne.
  { intros h' b1 n j L1 Lv X. destruct (decide (h' = h)) as [->|D]; [|by eapply Ot]. rewrite Lb in L1. injection L1 as <-.
    destruct (store_live _ _ _ _ _ _ _ _ _ _ _ _ Pr St Lv X) as [Lv'|(_ & -> & t1 & n' & j' & L1 & Lv' & _)].
    - exists p, b', n, j. split; [|done]. by rewrite Bq, decide_True.
    - by apply (Ot 1 t1 n' j'). }
  intros (q & b1 & n & j & Eq & Lv). destruct (decide (q = p)) as [->|D].
  2:{ exists q, b1, n, j. split; [|done]. by rewrite Bq, decide_False. }
  rewrite Eb in Eq. injection Eq as <-. destruct (decide ((h, n, j) ∈ exs t)) as [X|X]; [|by apply (Ne h b n j)].
  destruct (Cv h n j b x Lb Lv X) as [Mi|(h' & n' & j' & b1 & L1 & Lv1 & X1)]; [|by apply (Ne h' b1 n' j')].
  destruct (store_keep _ _ _ _ _ _ _ _ _ _ _ _ Pr St Lv) as [Lv'|[(-> & t1 & n' & j' & L1 & Lv')|(m & ->)]].
  - exists p, b', n, j. split; [|done]. by rewrite Bq, decide_True.
  - by apply (Ot 1 t1 n' j').
  - exfalso. apply Nr. exists t, th, w, h, n, m. split; [done|]. split; [done|]. split; [done|]. rewrite Td. left.
Qed.
Lemma store_next e b n q b' m j x : store e b (WNext n q) = Some b' -> live_at b m j = Some x -> live_at b' m j = Some x.
Proof.
  intros S Lv. destruct (live_at_inv _ _ _ _ Lv) as (nd & En & Ln). destruct (store_at _ _ _ _ _ _ S En) as (nd' & En' & Q).
  rewrite (live_at_lv _ _ _ _ En'). destruct Q as [[_ ->]|[T ->]]; [done|]. apply lv_some in Ln. by apply lv_some.
Qed.
Lemma alive_step st exs c st' x : inv hash st exs -> step hash st c = Some st' -> ~ removing st x -> alive (mem st) x -> alive (mem st') x.
Proof.
  intros I S Nr A.
  destruct c as [t|t|t k|t|t o|t|bt|bt| |i| |o y|a i n| ]; cbn [step] in S.
  - destruct (threads st !! t) as [th|] eqn:Et; [|done]. cbn [mbind option_bind] in S. destruct (work th) eqn:Wt; try done. by injection S as <-.
  - destruct (threads st !! t) as [th|] eqn:Et; [|done]. cbn [mbind option_bind] in S. destruct (work th) eqn:Wt; try done.
    destruct (pinned th) eqn:P; [|done]. by injection S as <-.
  - destruct (threads st !! t) as [th|] eqn:Et; [|done]. cbn [mbind option_bind] in S. destruct (work th) eqn:Wt; try done.
    destruct (pinned th) eqn:P; [|done]. by injection S as <-.
  - destruct (threads st !! t) as [th|] eqn:Et; [|done]. cbn [mbind option_bind] in S. destruct (work th) as [|k p|] eqn:Wt; try done.
    destruct p; try done. by injection S as <-.
  - destruct (threads st !! t) as [th|] eqn:Et; [|done]. cbn [mbind option_bind] in S. destruct (work th) eqn:Wt; try done.
    destruct (start hash st o) as [w|] eqn:Ss; [|done]. cbn [mbind option_bind] in S. by injection S as <-.
  - destruct (threads st !! t) as [th|] eqn:Et; [|done]. cbn [mbind option_bind] in S. destruct (work th) as [|k p|w] eqn:Wt; [done| |].
    + destruct (read hash st k p) as [p'|]; [|done]. cbn [mbind option_bind] in S. by injection S as <-.
    + destruct (todo w) as [|[h y] l] eqn:Td; [by injection S as <-|].
      destruct (held w !! h) as [p|] eqn:Lh; [|done]. cbn [mbind option_bind] in S.
      destruct (bucket_at (mem st) p) as [b|] eqn:Eb; [|done]. cbn [mbind option_bind] in S.
      destruct (store (epoch st) b y) as [b'|] eqn:Sb; [|done]. cbn [mbind option_bind] in S. injection S as <-. by eapply alive_write.
  - destruct (cur st) eqn:Ec; [done|]. destruct (bt <=? 64) eqn:Lb; [|done]. injection S as <-. revert A. apply alive_ext.
    intros p b Eb. exists b. split; [|done]. cbn. rewrite app_at; [done|]. by eapply at_lt.
  - destruct (cur st) as [a|] eqn:Ec; [|done]. cbn [mbind option_bind] in S. destruct (old_of st) eqn:Old; [done|].
    destruct (bt <=? 64) eqn:Lb; [|done]. injection S as <-. revert A. apply alive_ext.
    intros p b Eb. exists b. split; [|done]. cbn. rewrite app_at; [done|]. by eapply at_lt.
  - destruct (cur st) as [a|] eqn:Ec; [|done]. cbn [mbind option_bind] in S. destruct (mem st !! a) as [ar|] eqn:Ea; [|done]. cbn [mbind option_bind] in S.
    destruct (linked ar) eqn:Ln; [done|]. destruct (forallb _ _) eqn:Fa; [|done]. injection S as <-. revert A. apply alive_ext.
    assert (a < length (mem st)) as La by (by eapply lookup_lt_Some).
    intros [c i] b Eb. unfold bucket_at in *. cbn in *. destruct (decide (c = a)) as [->|D].
    + rewrite list_lookup_insert by done. rewrite Ea in Eb. cbn in *. rewrite list_lookup_fmap, Eb. cbn. eexists. split; [done|]. done.
    + rewrite list_lookup_insert_ne by done. eauto.
  - destruct (old_of st) as [o|] eqn:Old; [|done]. cbn [mbind option_bind] in S. destruct (open_bucket st (o, i) false) as [b|] eqn:Ob; [|done].
    cbn [mbind option_bind] in S. injection S as <-. apply open_some in Ob as (Eb & U & F). revert A. apply alive_ext.
    intros q b1 Eq. cbn [mem with_mem]. rewrite (bucket_at_set _ _ _ _ _ Eb). destruct (decide (q = (o, i))) as [->|D]; [|eauto].
    rewrite Eb in Eq. injection Eq as <-. eexists. split; [done|]. done.
  - destruct (cur st) as [a|] eqn:Ec; [|done]. cbn [mbind option_bind] in S. destruct (old_of st) as [o|] eqn:Old; [|done]. cbn [mbind option_bind] in S.
    destruct (mem st !! o) as [ao|] eqn:Eo; [|done]. cbn [mbind option_bind] in S. destruct (forallb _ _) eqn:Fa; [|done]. injection S as <-.
    revert A. apply alive_ext. intros p b Eb. exists b. cbn. by rewrite set_link_at.
  - destruct (detached st o && _); [|done]. injection S as <-. revert A. apply alive_ext. intros p b Eb. exists b. cbn. by rewrite set_link_at.
  - destruct (bucket_at (mem st) (a, i)) as [b|] eqn:Eb; [|done]. cbn [mbind option_bind] in S. destruct (done_bucket st (a, i)) eqn:Db; [|done].
    destruct (store (epoch st) b (WNext n None)) as [b'|] eqn:Sb; [|done]. cbn [mbind option_bind] in S. injection S as <-. revert A. apply alive_ext.
    intros q b1 Eq. cbn [mem with_mem]. rewrite (bucket_at_set _ _ _ _ _ Eb). destruct (decide (q = (a, i))) as [->|D]; [|eauto].
    rewrite Eb in Eq. injection Eq as <-. eexists. split; [done|]. intros m j. by eapply store_next.
  - destruct (forallb _ _) eqn:Fa; [|done]. by injection S as <-.
Qed.
Lemma stored_step st exs c st' x : inv hash st exs -> step hash st c = Some st' -> ~ removing st x -> stored st x -> stored st' x.
Proof.
  intros I S Nr St. destruct (step_inv _ _ _ _ _ I S) as (exs' & I' & _).
  destruct (alive_step _ _ _ _ _ I S Nr (stored_alive _ _ St)) as (p & b & n & j & Eb & Lv). by eapply live_stored.
Qed.
Lemma stored_run l : forall st exs st' x, inv hash st exs -> run hash st l = Some st' -> during hash st l (fun s => ~ removing s x) -> stored st x -> stored st' x.
Proof.
  induction l as [|c l IH]; intros st exs st' x I; cbn [run]; [by intros [= <-]|].
  destruct (step hash st c) as [s|] eqn:S; [|done]. cbn [mbind option_bind]. intros R D St.
  destruct (step_inv _ _ _ _ _ I S) as (exs' & I' & _). apply (IH s exs' st' x I' R); [by eapply during_cons|].
  apply (stored_step st exs c s x I S); [exact (during_here _ _ _ _ D)|done].
Qed.
Lemma kept_stored n l0 st l st' x : run hash (init n) l0 = Some st -> stored st x -> during hash st l (fun s => ~ removing s x) ->
  run hash st l = Some st' -> stored st' x.
Proof. intros R0 St D R. destruct (reached_inv _ _ _ _ R0) as (exs & I). by eapply stored_run. Qed.

Lemma later_found n l0 st t k l1 st1 y l2 st2 u l3 st3 r :
  run hash (init n) l0 = Some st -> called st t k -> run hash st l1 = Some st1 -> answered st1 t k (Some y) ->
  run hash st1 l2 = Some st2 -> called st2 u k -> run hash st2 l3 = Some st3 -> answered st3 u k r ->
  during hash st (l1 ++ l2 ++ l3) (fun s => ~ removing s y) -> during hash st2 l3 (fun s => ~ busy s y) ->
  exists z, r = Some z /\ okey z = k /\ at_some hash st2 l3 (fun s => stored s z).
Proof.
  intros R0 C R1 A1 R2 C2 R3 A3 Nr Nb.
  destruct (answer_stored hash hash64 n l0 st t k l1 st1 y R0 C R1 A1) as (<- & p & q & s & -> & Rp & Sy).
  assert (run hash (init n) (l0 ++ p) = Some s) as R0p by (rewrite run_app, R0; done).
  assert (run hash s q = Some st1) as Rq by (rewrite run_app, Rp in R1; done).
  assert (run hash s (q ++ l2) = Some st2) as Rs by (rewrite run_app, Rq; done).
  assert (run hash (init n) ((l0 ++ p) ++ q ++ l2) = Some st2) as R02 by (rewrite run_app, R0p; done).
  destruct (stable_found hash hash64 n _ st2 u y l3 st3 r R02 C2 R3) as (z & -> & Kz & Az); [|done|by exists z].
  intros a c s' -> Ra. split; [|by apply (Nb a c)].
  apply (kept_stored n (l0 ++ p) s (q ++ l2 ++ a) s' y R0p Sy).
  - intros a' c' s2 E Ra'. apply (Nr (p ++ a') (c' ++ c) s2).
    + rewrite <- !app_assoc. f_equal. rewrite (app_assoc a'), <- E, <- !app_assoc. done.
    + rewrite run_app, Rp. done.
  - rewrite app_assoc, run_app, Rs. done.
Qed.
Lemma removing_busy st x : removing st x -> busy st x.
Proof. intros (t & th & w & h & n & m & Et & Wt & M & _). by exists t, th, w. Qed.
Lemma undisturbed_found n l0 st t x l st' r : run hash (init n) l0 = Some st -> called st t (okey x) -> stored st x ->
  during hash st l (fun s => ~ busy s x) -> run hash st l = Some st' -> answered st' t (okey x) r ->
  exists y, r = Some y /\ okey y = okey x /\ at_some hash st l (fun s => stored s y).
Proof.
  intros R0 C St Nb R A. apply (stable_found hash hash64 n l0 st t x l st' r R0 C R); [|done].
  intros a c s -> Ra. split; [|by apply (Nb a c)]. apply (kept_stored n l0 st a s x R0 St); [|done].
  intros a' c' s2 -> Ra' Rm. apply (Nb a' (c' ++ c) s2); [by rewrite app_assoc|done|]. by apply removing_busy.
Qed.
Lemma update_seen n l0 st t x y l st' r : run hash (init n) l0 = Some st -> called st t (okey x) -> okey y = okey x ->
  (stored st x /\ during hash st l (fun s => ~ busy s x)) \/ (stored st y /\ during hash st l (fun s => ~ busy s y)) ->
  during hash st l (fun s => forall z, stored s z -> okey z = okey x -> z = x \/ z = y) ->
  run hash st l = Some st' -> answered st' t (okey x) r -> r = Some x \/ r = Some y.
Proof.
  intros R0 C Ky Q On R A.
  assert (exists z, r = Some z /\ okey z = okey x /\ at_some hash st l (fun s => stored s z)) as (z & -> & Kz & p & q & s & E & Rp & Sz).
  { destruct Q as [[St Nb]|[St Nb]]; [by apply (undisturbed_found n l0 st t x l st')|]. rewrite <- Ky in *. by apply (undisturbed_found n l0 st t y l st'). }
  destruct (On p q s E Rp z Sz Kz) as [->| ->]; auto.
Qed.
End stay.
