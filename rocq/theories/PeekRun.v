(** Histories: reads and guards. *)
From Coq Require Import NArith Lia.
From stdpp Require Import prelude list numbers.
From Verif Require Import PeekModel PeekSpec PeekInv PeekGood PeekStore PeekGlob PeekTrans PeekSteps PeekStepInv PeekRead PeekSeen.

Section run.
Context {K V : Type} `{EqDecision K} (hash : K -> N) (hash64 : forall k, (hash k < 2 ^ 64)%N).
Notation obj := (obj K V).
Notation state := (state K V).
Notation action := (action K V).
Implicit Types (x y : obj) (n j t : nat) (st : state) (S : obj -> Prop) (c : action) (l : list action).
Implicit Types (g e : N) (exs : nat -> list (nat * nat * nat)) (k : K) (p : peek K V).

Lemma run_app st l l' : run hash st (l ++ l') = s ← run hash st l; run hash s l'.
Proof. revert st. induction l as [|c l IH]; intros st; cbn; [done|]. destruct (step hash st c) as [s|]; [|done]. cbn. apply IH. Qed.
Lemma run_inv l : forall st exs st', inv hash st exs -> run hash st l = Some st' -> exists exs', inv hash st' exs'.
Proof.
  induction l as [|c l IH]; intros st exs st' I; cbn; [intros [= <-]; eauto|]. destruct (step hash st c) as [s|] eqn:S; [|done]. cbn.
  destruct (step_inv _ _ _ _ _ I S) as (exs1 & I1 & _). by apply IH with exs1.
Qed.
Lemma reached_inv n l st : run hash (init n) l = Some st -> exists exs, inv hash st exs.
Proof. intros R. eapply run_inv; [apply init_inv|done]. Qed.

(** ** What a step does to a thread *)
Lemma thread_step st c st' t th' : step hash st c = Some st' -> threads st' !! t = Some th' ->
  (exists th, threads st !! t = Some th /\ (pinned th = true -> pinned th' = true -> pin th' = pin th)) /\
  forall k p', work th' = Peek k p' -> (pinned th' = true /\ p' = PCur) \/
    exists th p, threads st !! t = Some th /\ work th = Peek k p /\ pinned th' = pinned th /\ pin th' = pin th /\ (p' = p \/ read hash st k p = Some p').
Proof.
  intros S Et'.
  assert (forall t0 th0 th1, threads st !! t0 = Some th0 -> threads st' = <[t0 := th1]> (threads st) ->
    (pinned th0 = true -> pinned th1 = true -> pin th1 = pin th0) ->
    (forall k p', work th1 = Peek k p' -> (pinned th1 = true /\ p' = PCur) \/
      exists p, work th0 = Peek k p /\ pinned th1 = pinned th0 /\ pin th1 = pin th0 /\ (p' = p \/ read hash st k p = Some p')) ->
    (exists th, threads st !! t = Some th /\ (pinned th = true -> pinned th' = true -> pin th' = pin th)) /\
    forall k p', work th' = Peek k p' -> (pinned th' = true /\ p' = PCur) \/
    exists th p, threads st !! t = Some th /\ work th = Peek k p /\ pinned th' = pinned th /\ pin th' = pin th /\ (p' = p \/ read hash st k p = Some p')) as One.
  { intros t0 th0 th1 E0 E1 P W. pose proof Et' as Et. rewrite E1 in Et. destruct (decide (t = t0)) as [->|D].
    - rewrite list_lookup_insert in Et by (by eapply lookup_lt_Some). injection Et as <-. split; [eauto|]. intros k p' Wk.
      destruct (W k p' Wk) as [?|(p & ?)]; [by left|right; by exists th0, p].
    - rewrite list_lookup_insert_ne in Et by done. split; [exists th'; by split|]. intros k p' Wk. right. exists th', p'. by split_and!; auto. }
  assert (threads st' = threads st ->
    (exists th, threads st !! t = Some th /\ (pinned th = true -> pinned th' = true -> pin th' = pin th)) /\
    forall k p', work th' = Peek k p' -> (pinned th' = true /\ p' = PCur) \/
    exists th p, threads st !! t = Some th /\ work th = Peek k p /\ pinned th' = pinned th /\ pin th' = pin th /\ (p' = p \/ read hash st k p = Some p')) as Same.
  { intros E. rewrite E in Et'. split; [exists th'; by split|]. intros k p' Wk. right. exists th', p'. by split_and!; auto. }
  destruct c as [t0|t0|t0 k|t0|t0 o|t0|bt|bt| |i| |o x|a i n| ]; cbn [step] in S.
  - destruct (threads st !! t0) as [th|] eqn:Et; [|done]. cbn [mbind option_bind] in S. destruct (work th) eqn:Wt; try done. injection S as <-.
    apply (One t0 th _ Et eq_refl); cbn; [by intros ->|done].
  - destruct (threads st !! t0) as [th|] eqn:Et; [|done]. cbn [mbind option_bind] in S. destruct (work th) eqn:Wt; try done.
    destruct (pinned th) eqn:P; [|done]. injection S as <-. by apply (One t0 th _ Et eq_refl).
  - destruct (threads st !! t0) as [th|] eqn:Et; [|done]. cbn [mbind option_bind] in S. destruct (work th) eqn:Wt; try done.
    destruct (pinned th) eqn:P; [|done]. injection S as <-. apply (One t0 th _ Et eq_refl); [done|]. cbn. intros k0 p' [= <- <-]. by left.
  - destruct (threads st !! t0) as [th|] eqn:Et; [|done]. cbn [mbind option_bind] in S. destruct (work th) as [|k p|] eqn:Wt; try done.
    destruct p; try done. injection S as <-. by apply (One t0 th _ Et eq_refl).
  - destruct (threads st !! t0) as [th|] eqn:Et; [|done]. cbn [mbind option_bind] in S. destruct (work th) eqn:Wt; try done.
    destruct (start hash st o) as [w|] eqn:Ss; [|done]. cbn [mbind option_bind] in S. injection S as <-. apply (One t0 th _ Et eq_refl); cbn; [by intros ->|done].
  - destruct (threads st !! t0) as [th|] eqn:Et; [|done]. cbn [mbind option_bind] in S. destruct (work th) as [|k p|w] eqn:Wt; [done| |].
    + destruct (read hash st k p) as [p1|] eqn:Rd; [|done]. cbn [mbind option_bind] in S. injection S as <-.
      apply (One t0 th _ Et eq_refl); [done|]. cbn. intros k0 p' [= <- <-]. right. exists p. by split_and!; auto.
    + destruct (todo w) as [|[h y] l] eqn:Td.
      * injection S as <-. by apply (One t0 th _ Et eq_refl).
      * destruct (held w !! h) as [p|] eqn:Lh; [|done]. cbn [mbind option_bind] in S.
        destruct (bucket_at (mem st) p) as [b|] eqn:Eb; [|done]. cbn [mbind option_bind] in S.
        destruct (store (epoch st) b y) as [b'|] eqn:Sb; [|done]. cbn [mbind option_bind] in S. injection S as <-. by apply (One t0 th _ Et eq_refl).
  - destruct (cur st) eqn:Ec; [done|]. destruct (bt <=? 64) eqn:Lb; [|done]. injection S as <-. by apply Same.
  - destruct (cur st) as [a|] eqn:Ec; [|done]. cbn [mbind option_bind] in S. destruct (old_of st) eqn:Old; [done|].
    destruct (bt <=? 64) eqn:Lb; [|done]. injection S as <-. by apply Same.
  - destruct (cur st) as [a|] eqn:Ec; [|done]. cbn [mbind option_bind] in S. destruct (mem st !! a) as [ar|] eqn:Ea; [|done]. cbn [mbind option_bind] in S.
    destruct (linked ar) eqn:Ln; [done|]. destruct (forallb _ _) eqn:Fa; [|done]. injection S as <-. by apply Same.
  - destruct (old_of st) as [o|] eqn:Old; [|done]. cbn [mbind option_bind] in S. destruct (open_bucket st (o, i) false) as [b|] eqn:Ob; [|done].
    cbn [mbind option_bind] in S. injection S as <-. by apply Same.
  - destruct (cur st) as [a|] eqn:Ec; [|done]. cbn [mbind option_bind] in S. destruct (old_of st) as [o|] eqn:Old; [|done]. cbn [mbind option_bind] in S.
    destruct (mem st !! o) as [ao|] eqn:Eo; [|done]. cbn [mbind option_bind] in S. destruct (forallb _ _) eqn:Fa; [|done]. injection S as <-. by apply Same.
  - destruct (detached st o) eqn:Do; [|done]. cbn [andb] in S. destruct (match x with Some y => detached st y | None => true end) eqn:Dx; [|done].
    injection S as <-. by apply Same.
  - destruct (bucket_at (mem st) (a, i)) as [b|] eqn:Eb; [|done]. cbn [mbind option_bind] in S. destruct (done_bucket st (a, i)) eqn:Db; [|done].
    destruct (store (epoch st) b (WNext n None)) as [b'|] eqn:Sb; [|done]. cbn [mbind option_bind] in S. injection S as <-. by apply Same.
  - destruct (forallb _ _) eqn:Fa; [|done]. injection S as <-. by apply Same.
Qed.

(** ** Parts of a history *)
Lemma during_here st l (P : state -> Prop) : during hash st l P -> P st.
Proof. intros D. by apply (D [] l). Qed.
Lemma during_cons st c l s (P : state -> Prop) : during hash st (c :: l) P -> step hash st c = Some s -> during hash s l P.
Proof. intros D S p q s' -> R. apply (D (c :: p) q); [done|]. cbn. by rewrite S. Qed.
Lemma during_end st l s (P : state -> Prop) : during hash st l P -> run hash st l = Some s -> P s.
Proof. intros D R. apply (D l []); [by rewrite app_nil_r|done]. Qed.
Lemma at_some_here st l (P : state -> Prop) : P st -> at_some hash st l P.
Proof. intros Ps. by exists [], l, st. Qed.
Lemma at_some_cons st c l s (P : state -> Prop) : step hash st c = Some s -> at_some hash s l P -> at_some hash st (c :: l) P.
Proof. intros S (p & q & s' & -> & R & Ps). exists (c :: p), q, s'. split; [done|]. cbn. by rewrite S. Qed.

(** ** Reads *)
Definition reading t st S : Prop := forall th k p, threads st !! t = Some th -> work th = Peek k p -> pinned th = true /\ shape hash st k p /\ seen hash st (pin th) S k p.
Lemma seen_mono st g S S' k p : (forall x, S x -> S' x) -> seen hash st g S k p -> seen hash st g S' k p.
Proof.
  intros Sub. destruct p as [|a|a s|a s m|a s m r|a s m c0 bm|a s m bm|a s m|a|[r|]]; cbn; try done.
  - intros A ar b nd j B R. destruct (A ar b nd j B R) as [?|(x & ? & ?)]; [by left|right; eauto].
  - intros A ar j B R. destruct (A ar j B R) as (x & ? & ?); eauto.
  - intros A ar j B R. destruct (A ar j B R) as (x & ? & ?); eauto.
  - intros [? ?]. auto.
Qed.
Lemma reading_mono t st S S' : (forall x, S x -> S' x) -> reading t st S -> reading t st S'.
Proof. intros Sub R th k p Et W. destruct (R th k p Et W) as (? & ? & ?). split_and!; try done. by eapply seen_mono. Qed.
Lemma reading_step t st exs c st' S S' : inv hash st exs -> step hash st c = Some st' -> (forall x, stored st x -> S x) ->
  (forall x, S x -> S' x) -> (forall x, stored st' x -> S' x) -> reading t st S -> exists exs', inv hash st' exs' /\ trans st exs st' exs' /\ reading t st' S'.
Proof.
  intros I Sp St Sub St' Rd. destruct (step_inv _ _ _ _ _ I Sp) as (exs' & I' & T). exists exs'. split; [done|]. split; [done|].
  intros th' k p' Et' W'. destruct (thread_step _ _ _ _ _ Sp Et') as [_ A]. destruct (A k p' W') as [[P ->]|(th & p & Et & W & P1 & P2 & Q)]; [done|].
  destruct (Rd th k p Et W) as (Pn & Sh & Se). split; [congruence|]. pose proof (v_pin _ _ _ I t th Et Pn) as Lp. rewrite P2.
  assert (shape hash st k p' /\ seen hash st (pin th) S k p') as [Sh' Se'].
  { destruct Q as [->|Q]; [done|]. destruct (seen_read _ hash64 _ _ _ _ _ _ I St Sh Se) as [(r & ->)|(p1 & E1 & Z)]; [done|]. rewrite Q in E1. injection E1 as <-. done. }
  split; [by eapply shape_trans|]. eapply (seen_trans _ st exs st' exs' (pin th) S S'); done.
Qed.
Lemma reading_run t l : forall st exs st' S, inv hash st exs -> (forall x, stored st x -> S x) -> reading t st S -> run hash st l = Some st' ->
  reading t st' (fun x => S x \/ at_some hash st l (fun s => stored s x)).
Proof.
  induction l as [|c l IH]; intros st exs st' S I St Rd; cbn [run].
  - intros [= <-]. eapply reading_mono; [|done]. auto.
  - destruct (step hash st c) as [s|] eqn:Sp; [|done]. cbn [mbind option_bind]. intros Rn.
    destruct (reading_step t st exs c s S (fun x => S x \/ stored s x) I Sp St) as (exs1 & I1 & _ & Rd1); [auto|auto|done|].
    apply (reading_mono t st' (fun x => (S x \/ stored s x) \/ at_some hash s l (fun s => stored s x))); [|apply (IH s exs1 st' _ I1); auto].
    intros x [[Sx|Sx]|A]; [by left|right..].
    + apply (at_some_cons _ _ _ _ _ Sp). by apply at_some_here.
    + by apply (at_some_cons _ _ _ _ _ Sp).
Qed.
Lemma init_reading t n S : reading t (init n) S.
Proof. intros th k p Et W. cbn in Et. apply lookup_replicate in Et as [-> _]. done. Qed.
(** The answer of a read. *)
Lemma answer_stored n l0 st t k l st' y : run hash (init n) l0 = Some st -> called st t k -> run hash st l = Some st' -> answered st' t k (Some y) ->
  okey y = k /\ at_some hash st l (fun s => stored s y).
Proof.
  intros R0 (th & Et & W) R (th' & Et' & W'). destruct (reached_inv _ _ _ R0) as (exs & I).
  pose proof (reading_run t l0 _ _ st (fun _ => True) (init_inv hash n) (fun _ _ => Logic.I) (init_reading t n _) R0 th k PCur Et W) as (P & _).
  assert (reading t st (fun x => stored st x)) as Rd.
  { intros th1 k1 p1 Et1 W1. rewrite Et in Et1. injection Et1 as <-. rewrite W in W1. injection W1 as <- <-. done. }
  destruct (reading_run t l st exs st' _ I (fun x Sx => Sx) Rd R th' k (PDone (Some y)) Et' W') as (_ & _ & [Sy Ky]).
  split; [done|]. destruct Sy as [Sy|Sy]; [by apply at_some_here|done].
Qed.
(** A read can go on. *)
Lemma read_on n l st t th k p : run hash (init n) l = Some st -> threads st !! t = Some th -> work th = Peek k p -> (forall r, p <> PDone r) ->
  exists st', step hash st (AStep t) = Some st'.
Proof.
  intros R Et W N. destruct (reached_inv _ _ _ R) as (exs & I).
  pose proof (reading_run t l _ _ st (fun _ => True) (init_inv hash n) (fun _ _ => Logic.I) (init_reading t n _) R th k p Et W) as (P & Sh & Se).
  destruct (seen_read _ hash64 _ _ _ _ _ _ I (fun x _ => or_introl Logic.I) Sh Se) as [(r & ->)|(p' & E & _)]; [by destruct (N r)|].
  cbn [step]. rewrite Et. cbn [mbind option_bind]. rewrite W, E. cbn [mbind option_bind]. eauto.
Qed.

(** ** Entries that stay *)
Definition ahead_of t x st exs : Prop := forall th p, threads st !! t = Some th -> work th = Peek (okey x) p -> R x st exs p.
Lemma ahead_run t x l : forall st exs st', inv hash st exs -> during hash st l (fun s => settled s x) -> ahead_of t x st exs -> run hash st l = Some st' ->
  exists exs', inv hash st' exs' /\ ahead_of t x st' exs'.
Proof.
  induction l as [|c l IH]; intros st exs st' I D A; cbn [run].
  - intros [= <-]. eauto.
  - destruct (step hash st c) as [s|] eqn:Sp; [|done]. cbn [mbind option_bind]. intros Rn. pose proof (during_cons _ _ _ _ _ D Sp) as D1.
    destruct (step_inv _ _ _ _ _ I Sp) as (exs1 & I1 & T). apply (IH s exs1 st' I1 D1); [|done].
    intros th' p' Et' W'. destruct (thread_step _ _ _ _ _ Sp Et') as [_ B]. destruct (B _ p' W') as [[_ ->]|(th & p & Et & W & _ & _ & Q)]; [done|].
    apply (R_trans _ x st exs s exs1 p' I I1 T). { by destruct (during_here _ _ _ D1). }
    destruct Q as [->|Q]; [by apply (A th)|]. eapply R_read; [done|by apply (during_here _ _ _ D)|by apply (A th)|done].
Qed.
Lemma stable_found n l0 st t x l st' r : run hash (init n) l0 = Some st -> called st t (okey x) -> run hash st l = Some st' ->
  during hash st l (fun s => settled s x) -> answered st' t (okey x) r -> exists y, r = Some y /\ okey y = okey x /\ at_some hash st l (fun s => stored s y).
Proof.
  intros R0 C R D An. destruct (reached_inv _ _ _ R0) as (exs & I). pose proof C as (th & Et & W).
  destruct (ahead_run t x l st exs st' I D) as (exs' & I' & A); [|done|].
  { intros th1 p1 Et1 W1. rewrite Et in Et1. injection Et1 as <-. rewrite W in W1. injection W1 as <-. done. }
  pose proof An as (th' & Et' & W'). specialize (A th' (PDone r) Et' W'). cbn in A. destruct r as [y|]; [|done]. exists y. split; [done|].
  by eapply answer_stored.
Qed.

(** ** Guards *)
Lemma guard_run t g a i n j x l : forall st exs st', inv hash st exs -> during hash st l (guarded t) ->
  (exists th, threads st !! t = Some th /\ pin th = g) -> prot st g (a, i) n j x -> run hash st l = Some st' -> prot st' g (a, i) n j x.
Proof.
  induction l as [|c l IH]; intros st exs st' I D G P; cbn [run].
  - intros [= <-]. done.
  - destruct (step hash st c) as [s|] eqn:Sp; [|done]. cbn [mbind option_bind]. intros Rn. pose proof (during_cons _ _ _ _ _ D Sp) as D1.
    destruct (step_inv _ _ _ _ _ I Sp) as (exs1 & I1 & T). destruct G as (th & Et & <-). destruct (during_here _ _ _ D) as (th0 & Et0 & Pn).
    rewrite Et in Et0. injection Et0 as <-. destruct (during_here _ _ _ D1) as (th' & Et' & Pn'). destruct (thread_step _ _ _ _ _ Sp Et') as [(th0 & Et0 & Pp) _].
    rewrite Et in Et0. injection Et0 as <-. apply (IH s exs1 st' I1 D1); [exists th'; auto| |done].
    apply (t_prot _ _ _ _ T); [|done]. by apply (v_pin _ _ _ I t).
Qed.
Lemma guard_keeps m l0 st t a i n j x ar b nd l st' : run hash (init m) l0 = Some st -> run hash st l = Some st' -> during hash st l (guarded t) ->
  mem st !! a = Some ar -> bks ar !! i = Some b -> nodes b !! n = Some nd -> N.testbit (occ nd) (N.of_nat j) = true -> N.testbit (rem nd) (N.of_nat j) = false ->
  data nd !! j = Some (Some x) -> contains st' a i n j x.
Proof.
  intros R0 R D Ea Eb En O Re Da. destruct (reached_inv _ _ _ R0) as (exs & I). destruct (during_here _ _ _ D) as (th & Et & Pn).
  assert (bucket_at (mem st) (a, i) = Some b) as Eq by (by apply (at_some_bucket _ _ ar)).
  assert (prot st (pin th) (a, i) n j x) as P. { eapply live_prot; [done|done|]. rewrite (live_at_lv _ _ _ _ En). by apply lv_some. }
  destruct (guard_run t (pin th) a i n j x l st exs st' I D) as (b' & nd' & Eb' & En' & D' & _); [eauto|done|done|].
  unfold bucket_at in Eb'. cbn in Eb'. destruct (mem st' !! a) as [ar'|] eqn:Ea'; [|done]. cbn in Eb'. by exists ar', b', nd'.
Qed.
End run.
