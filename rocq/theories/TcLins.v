(** The order of the calls: by the instants at which they took effect. *)
From Coq Require Import List Arith Bool Lia.
From Verif Require Import TcModel TcRoute TcSpec TcOps TcRun TcLin.
Import ListNotations.

(** ** Lists *)
Lemma choose {A B} (P : A -> B -> Prop) (b0 : B) (eqd : forall x y : A, {x = y} + {x <> y}) l :
  (forall a, In a l -> exists b, P a b) -> exists f, forall a, In a l -> P a (f a).
Proof.
  induction l as [|a l IH]; intros H; [exists (fun _ => b0); intros _ []|].
  destruct IH as [f Hf]; [intros x Hx; apply H; now right|]. destruct (H a (or_introl eq_refl)) as [b Hb].
  exists (fun x => if eqd x a then b else f x). intros x Hx. destruct (eqd x a) as [->|N]; auto.
  destruct Hx as [->|Hx]; [congruence|auto].
Qed.
Lemma nodup_flat {A B} (f : A -> list B) l : NoDup l -> (forall a, In a l -> NoDup (f a)) ->
  (forall a b x, In a l -> In b l -> In x (f a) -> In x (f b) -> a = b) -> NoDup (flat_map f l).
Proof.
  induction l as [|a l IH]; intros Hn Hf Hd; cbn; [constructor|]. inversion Hn as [|? ? Ha Hl]; subst.
  assert (NoDup (flat_map f l)) as H1.
  { apply IH; auto; [intros b Hb; apply Hf; now right|]. intros b c x Hb Hc. apply Hd; now right. }
  assert (forall x, In x (f a) -> ~ In x (flat_map f l)) as H2.
  { intros x Hx Hi. apply in_flat_map in Hi as (b & Hb & Hi).
    assert (a = b) by (apply (Hd a b x); auto; [now left|now right]). congruence. }
  assert (NoDup (f a)) as H3 by (apply Hf; now left).
  induction H3 as [|x r Hx Hr IHr]; cbn; auto. constructor.
  - rewrite in_app_iff. intros [D|D]; auto. apply (H2 x); auto. now left.
  - apply IHr. intros y Hy. apply H2. now right.
Qed.
Lemma filter_flat {A B C} (g : B -> C) (P : B -> bool) (f : A -> list B) l :
  map g (filter P (flat_map f l)) = flat_map (fun a => map g (filter P (f a))) l.
Proof.
  induction l as [|a l IH]; cbn; auto. rewrite filter_app, map_app. now rewrite IH.
Qed.
Lemma fop_app {A} (R : A -> A -> Prop) a b : ForallOrdPairs R a -> ForallOrdPairs R b ->
  (forall x y, In x a -> In y b -> R x y) -> ForallOrdPairs R (a ++ b).
Proof.
  intros Ha Hb H. induction Ha as [|x l Hx Hl IH]; cbn; auto. constructor.
  - apply Forall_app. split; auto. apply Forall_forall. intros y Hy. apply H; auto. now left.
  - apply IH. intros y z Hy. apply H. now right.
Qed.
Lemma fop_flat {A} (R : A -> A -> Prop) (f : nat -> list A) n : forall i,
  (forall j, ForallOrdPairs R (f j)) -> (forall j k x y, j < k -> In x (f j) -> In y (f k) -> R x y) ->
  ForallOrdPairs R (flat_map f (seq i n)).
Proof.
  induction n as [|n IH]; intros i H1 H2; cbn; [constructor|]. apply fop_app; auto.
  intros x y Hx Hy. apply in_flat_map in Hy as (k & Hk & Hy). apply in_seq in Hk. apply (H2 i k); auto. lia.
Qed.
Lemma fop_one {A} (R : A -> A -> Prop) l : length l <= 1 -> ForallOrdPairs R l.
Proof. destruct l as [|x [|y l]]; cbn; intros H; [constructor|repeat constructor|lia]. Qed.
Lemma fop_flat_map {A B} (R : A -> A -> Prop) (S : B -> B -> Prop) (f : A -> list B) l :
  ForallOrdPairs R l -> (forall a, length (f a) <= 1) ->
  (forall a b x y, R a b -> In x (f a) -> In y (f b) -> S x y) -> ForallOrdPairs S (flat_map f l).
Proof.
  intros H H1 H2. induction H as [|a l Ha Hl IH]; cbn; [constructor|]. apply fop_app; auto; [now apply fop_one|].
  intros x y Hx Hy. apply in_flat_map in Hy as (b & Hb & Hy). rewrite Forall_forall in Ha. eauto.
Qed.

Section lins.
Context {K V : Type} (leb : K -> K -> bool) (HO : tord leb).
Notation st := (st K V).
Notation op := (op K V).
Notation act := (act K V).
Notation elt := (nat * (opk K V * res V))%type.
Implicit Types (s : st) (p : op) (t : nat) (l : list act) (lg : list (ev K V)).

Lemma at_succ lg i e : ev_i lg i = Some e -> at_i lg (S i) = e :: at_i lg i.
Proof.
  induction lg as [|a lg IH]; intros H; [destruct i; discriminate|].
  apply ev_cons in H as [[L H]|[-> ->]].
  - rewrite !at_cons by lia. auto.
  - rewrite (at_cons a lg (length lg)), at_len by lia. exact (at_len (a :: lg)).
Qed.
Lemma at_zero lg : at_i lg 0 = [].
Proof. unfold at_i. rewrite Nat.sub_0_r. apply skipn_all. Qed.

(** ** The calls in the order in which they began *)
Definition begun l : list nat := flat_map (fun a => match a with AInv t _ => [t] | _ => [] end) l.

Lemma ops_take s n o b s' : take s n o b = Some s' -> ops s' = ops s /\ log s' = log s.
Proof.
  unfold take. destruct (jb (hp s n)); try discriminate. destruct (ptr (hp s n) o); [|discriminate].
  destruct (lvl (hp s n0)) eqn:L; [discriminate|]. destruct (jb (hp s n0)) as [| | | | | | |? ? ? ? ? [?|] ?| |]; try discriminate.
  destruct (build _ _ _ _ _ _ _) as [[[? ?] ?]|]; [|discriminate]. intros [= <-]. auto.
Qed.
Lemma ops_ins s n s' : ins_low leb s n = Some s' -> ops s' = ops s /\ log s' = log s.
Proof. unfold ins_low. destruct (jb (hp s n)); try discriminate. destruct (has_key _ _ _); intros [= <-]; auto. Qed.
Lemma ops_commit s c : ops (commit_child s c) = ops s /\ log (commit_child s c) = log s.
Proof. unfold commit_child. destruct (jb (hp s c)); auto. Qed.
Lemma ops_swap s n s' : swap_high s n = Some s' -> ops s' = ops s /\ log s' = log s.
Proof.
  unfold swap_high. destruct (jb (hp s n)) as [| | | | | |? ? ? ? ? []| | |]; try discriminate; intros [= <-]; auto. cbn.
  apply ops_commit.
Qed.
Lemma ops_sys a s s' : actor a = None -> (forall t q, a <> AInv t q) -> step_sys leb a s = Some s' ->
  ops s' = ops s /\ log s' = log s.
Proof.
  intros A N H. destruct a; try discriminate A; cbn [step_sys] in H; try (eapply ops_ins; eauto; fail);
    try (eapply ops_swap; eauto; fail); try (eapply ops_take; eauto; fail); try (now destruct (N t q)).
  all: try (revert H; repeat match goal with |- match ?x with _ => _ end = _ -> _ => destruct x | |- (if ?x then _ else _) = _ -> _ => destruct x end; intros [= <-]; cbn; rewrite ?(proj1 (ops_commit _ _)), ?(proj2 (ops_commit _ _)); cbn; auto; fail).
  - destruct (jb (hp s n)); try discriminate. injection H as <-. destruct (lvl (hp s n) =? 1); auto.
  - destruct (root s); [|discriminate]. destruct (jb (hp s n)) as [| | | | | | |? ? ? ? ? [?|] ?| |]; try discriminate.
    destruct (take _ _ _ _) as [s1|] eqn:E1; [|discriminate]. cbn [bind] in H. apply ops_take in E1 as [A1 B1].
    destruct (ins_low _ _ _) as [s2|] eqn:E2; [|discriminate]. cbn [bind] in H. apply ops_ins in E2 as [A2 B2].
    cbn in *. destruct (err s2).
    + injection H as <-. split; congruence.
    + apply ops_swap in H as [A3 B3]. split; congruence.
Qed.
Definition nextop s t p s' : Prop :=
  exists p', (forall u, ops s' u = if u =? t then Some p' else ops s u) /\ kind p' = kind p /\ t0 p' = t0 p
    /\ (forall r e, pc p <> PDone r e) /\ (log s' = log s \/ exists e, log s' = e :: log s).
Lemma next_op s t p s' c s1 : (forall r e, pc p <> PDone r e) -> log s1 = log s \/ (exists e, log s1 = e :: log s) ->
  ops s1 = ops s -> Some (with_op s1 t c) = Some s' -> kind c = kind p -> t0 c = t0 p -> nextop s t p s'.
Proof. intros N L Eo [= <-] Ek Et. exists c. cbn. rewrite Eo. repeat split; auto. Qed.
Lemma ops_op a s t p s' : ops s t = Some p -> step_op leb a s t p = Some s' -> nextop s t p s'.
Proof.
  intros E H. destruct a; try discriminate H; destruct (pc p) eqn:P; cbn [step_op] in H; rewrite ?P in H; try discriminate H.
  all: try (revert H; cbn; unfold fin, goto; repeat match goal with |- match ?x with _ => _ end = _ -> _ => destruct x eqn:? | |- (if ?x then _ else _) = _ -> _ => destruct x eqn:? end;
    try discriminate; intros H; refine (next_op _ _ _ _ _ _ _ _ _ H _ _); cbn; eauto; congruence).
  cbn in H. destruct (kind p) eqn:Ek; try discriminate. destruct (root s); [discriminate|]. injection H as <-.
  exists p. cbn. rewrite Ek. repeat split; auto; [|intros; congruence].
  intros u. destruct (Nat.eqb_spec u t) as [->|]; auto.
Qed.
Lemma step_ops a s s' : step leb a s = Some s' ->
  (forall t p, ops s t = Some p -> exists p', ops s' t = Some p' /\ kind p' = kind p /\ t0 p' = t0 p /\ (forall r e, pc p = PDone r e -> p' = p))
  /\ (forall t, ops s t = None -> ops s' t = None \/ exists q p', a = AInv t q /\ ops s' t = Some p' /\ t0 p' = length (log s))
  /\ length (log s) <= length (log s').
Proof.
  intros H. unfold step in H. destruct (err s); [discriminate|].
  destruct (actor a) as [t|] eqn:A.
  - assert (match ops s t with Some p => step_op leb a s t p | None => None end = Some s') as H'
      by (destruct a; try discriminate A; rewrite <- H; congruence). clear H.
    destruct (ops s t) as [p|] eqn:E; [|discriminate]. destruct (ops_op _ _ _ _ _ E H') as (p' & H1 & Ek & Et & Np & Hl).
    split; [|split].
    + intros u q Hq. rewrite H1. destruct (Nat.eqb_spec u t) as [->|N].
      * exists p'. assert (q = p) as -> by congruence. repeat split; auto. intros r e D. now destruct (Np r e).
      * exists q. auto.
    + intros u Hu. left. rewrite H1. destruct (Nat.eqb_spec u t) as [->|N]; auto. congruence.
    + destruct Hl as [->|[e ->]]; cbn; lia.
  - destruct a; try discriminate A.
    1: { destruct (ops s t) eqn:E; [discriminate|]. injection H as <-. cbn. split; [|split; auto].
      - intros u q' Hq. unfold upd. destruct (Nat.eqb_spec u t) as [->|N]; [congruence|]. exists q'. auto.
      - intros u Hu. unfold upd. destruct (Nat.eqb_spec u t) as [->|N]; auto. right. eauto 7. }
    all: apply ops_sys in H as [H1 H2]; auto; [|intros ? ?; discriminate]; rewrite H1, H2; split; [intros u q Hq; exists q; auto|split; auto].
Qed.
Lemma run_ops l : forall s s', run leb l s = Some s' ->
  (forall t p, ops s t = Some p -> exists p', ops s' t = Some p' /\ kind p' = kind p /\ t0 p' = t0 p /\ (forall r e, pc p = PDone r e -> p' = p))
  /\ (forall t p, ops s t = None -> ops s' t = Some p -> length (log s) <= t0 p)
  /\ (forall t, ops s' t <> None <-> ops s t <> None \/ In t (begun l))
  /\ NoDup (begun l) /\ (forall t, In t (begun l) -> ops s t = None)
  /\ length (log s) <= length (log s').
Proof.
  induction l as [|a l IH]; intros s s' H; cbn in H.
  - injection H as <-. repeat split; auto; try (intros; congruence); try constructor; try tauto.
    + intros t p E. exists p. auto.
    + intros t [].
  - destruct (step leb a s) as [s1|] eqn:E; [|discriminate]. destruct (IH _ _ H) as (A1 & A2 & A3 & A4 & A5 & A6).
    pose proof E as E0. apply step_ops in E as (B1 & B2 & B3).
    assert (forall t, ops s t = None -> ops s1 t = None \/ In t (begun [a])) as B4.
    { intros t Ht. destruct (B2 t Ht) as [D|(q & p' & -> & D & _)]; auto. right. now left. }
    assert (forall t, In t (begun [a]) -> ops s t = None /\ ops s1 t <> None) as B5.
    { intros t Ht. unfold begun in Ht. cbn in Ht. rewrite app_nil_r in Ht. destruct a; try destruct Ht as [->|[]]; try destruct Ht.
      unfold step in E0. destruct (err s); [discriminate|]. destruct (ops s t) eqn:E1; [discriminate|]. split; auto.
      injection E0 as <-. cbn. unfold upd. rewrite Nat.eqb_refl. discriminate. }
    change (begun (a :: l)) with (begun ([a] ++ l)). unfold begun at 1 2 3. rewrite flat_map_app. fold (begun [a]) (begun l).
    split; [|split; [|split; [|split; [|split]]]].
    + intros t p Hp. destruct (B1 _ _ Hp) as (p1 & C1 & C2 & C3 & C4). destruct (A1 _ _ C1) as (p2 & D1 & D2 & D3 & D4).
      exists p2. repeat split; try congruence. intros r e P. pose proof (C4 _ _ P) as ->. eauto.
    + intros t p Hn Hp. destruct (B2 t Hn) as [D|(q & p' & -> & D & Dt)].
      * specialize (A2 t p D Hp). lia.
      * destruct (A1 _ _ D) as (p2 & D1 & _ & D3 & _). assert (p2 = p) as -> by congruence. lia.
    + intros t. rewrite in_app_iff, A3. split.
      * intros [D|D]; auto. destruct (ops s t) eqn:Et; [left; discriminate|]. destruct (B4 t Et); auto.
      * intros [D|[D|D]]; auto; left; [|now apply B5]. destruct (ops s t) as [p|] eqn:Et; [|tauto].
        destruct (B1 _ _ Et) as (p1 & C1 & _). congruence.
    + assert (NoDup (begun [a])) as N1. { unfold begun. cbn. rewrite app_nil_r. destruct a; repeat constructor; auto. }
      assert (forall t, In t (begun [a]) -> ~ In t (begun l)) as N2.
      { intros t Ht Hl. apply B5 in Ht as [_ Ht]. apply A5 in Hl. tauto. }
      revert N1 N2. generalize (begun [a]). intros b N1 N2. induction N1 as [|x b Hx Hb IHb]; cbn; auto. constructor.
      * rewrite in_app_iff. intros [D|D]; auto. apply (N2 x); auto. now left.
      * apply IHb. intros y Hy. apply N2. now right.
    + intros t Ht. apply in_app_iff in Ht as [Ht|Ht]; [now apply B5|]. apply A5 in Ht. destruct (ops s t) as [p|] eqn:Et; auto.
      destruct (B1 _ _ Et) as (p1 & C1 & _). congruence.
    + lia.
Qed.

Lemma before_time l s a b : run leb l init = Some s -> before leb l a b ->
  exists r p e, ops s a = Some p /\ pc p = PDone r e /\ forall q, ops s b = Some q -> e <= t0 q.
Proof.
  intros H (l1 & l2 & s1 & -> & H1 & (r & p & e & Hp & Pp) & Hb).
  assert (run leb l2 s1 = Some s) as H2.
  { revert H H1. generalize (@init K V). induction l1 as [|x l1 IH]; intros s0 H H1; cbn in *; [congruence|].
    destruct (step leb x s0); [|discriminate]. eauto. }
  destruct (run_ops _ _ _ H2) as (A1 & A2 & _). destruct (A1 _ _ Hp) as (p' & D1 & _ & _ & D4).
  pose proof (D4 _ _ Pp) as ->. 
  pose proof (o_log _ _ _ _ _ _ (i_op _ _ (inv_run leb HO l1 _ _ (inv_init leb) H1) _ _ Hp)) as X. rewrite Pp in X.
  destruct X as [[_ X] _]. exists r, p, e. repeat split; auto. intros q Eb. specialize (A2 _ _ Hb Eb). lia.
Qed.
Lemma before_begun l s a b : run leb l init = Some s -> before leb l a b ->
  exists x y, begun l = x ++ y /\ In a x /\ ~ In b x.
Proof.
  intros H (l1 & l2 & s1 & -> & H1 & (r & p & e & Hp & Pp) & Hb).
  exists (begun l1), (begun l2). unfold begun at 1. rewrite flat_map_app. split; [reflexivity|].
  destruct (run_ops _ _ _ H1) as (_ & _ & A3 & _). split.
  - assert (ops s1 a <> None) as D by congruence. apply A3 in D as [D|D]; auto. cbn in D. tauto.
  - intros D. assert (ops s1 b <> None) as D' by (apply A3; auto). congruence.
Qed.
Lemma begun_time l s : run leb l init = Some s -> ForallOrdPairs (fun a b => ~ before leb l b a) (begun l).
Proof.
  intros H. destruct (run_ops _ _ _ H) as (_ & _ & _ & N & _).
  assert (forall z w, begun l = z ++ w -> ForallOrdPairs (fun a b => ~ before leb l b a) w) as Q; [|apply (Q []); auto].
  intros z w. revert z. induction w as [|a w IH]; intros z E; [constructor|]. constructor.
  - apply Forall_forall. intros b Hb D. destruct (before_begun _ _ _ _ H D) as (x & y & Exy & Hbx & Nax).
    rewrite E in Exy. clear IH D H. rewrite E in N. clear E. revert x Exy Hbx Nax N. induction z as [|c z IH]; intros x Exy Hbx Nax N.
    + destruct x as [|c x]; [destruct Hbx|]. injection Exy as -> _. apply Nax. now left.
    + destruct x as [|c' x]; [destruct Hbx|]. cbn in Exy. injection Exy as <- Exy. cbn in N. inversion N as [|? ? Nc Nz]; subst.
      destruct Hbx as [->|Hbx].
      * apply Nc. apply in_app_iff. right. now right.
      * apply (IH x); auto. intros D. apply Nax. now right.
  - apply (IH (z ++ [a])). rewrite <- app_assoc. exact E.
Qed.

(** ** The order *)
Section build.
Context (l : list act) (s : st) (H : run leb l init = Some s).
Notation lg := (log s).
Lemma Is : Inv leb s.
Proof. exact (inv_run leb HO l _ _ (inv_init leb) H). Qed.

(** Calls that have returned without an update. *)
Definition rd t : option (opk K V * res V) :=
  match ops s t with
  | Some p =>
      match pc p with
      | PDone (RIns true) _ | PDone (RRem true) _ => None
      | PDone r _ => Some (kind p, r)
      | _ => None
      end
  | None => None
  end.
Definition read_ok strict m (x : opk K V * res V) : Prop := forall r : list (opk K V * res V), replay leb strict m r -> replay leb strict m (x :: r).
Definition point strict t i : Prop := forall x, rd t = Some x -> quiet lg t /\ exists p r e, ops s t = Some p /\ pc p = PDone r e /\
  x = (kind p, r) /\ t0 p <= i <= e /\ e <= length lg /\ read_ok strict (abs leb (at_i lg i)) x.
Context (strict : bool) (Sp : strict = true -> forall t, ~ returned s t RSpur).
Lemma points t : exists i, point strict t i.
Proof.
  destruct (rd t) as [x|] eqn:R; [|exists 0; intros x D; congruence]. unfold rd in R.
  destruct (ops s t) as [p|] eqn:E; [|discriminate]. pose proof (o_log _ _ _ _ _ _ (i_op _ _ Is _ _ E)) as X.
  destruct (pc p) as [| |x1|x1 M|x1 M c|x1| |r e] eqn:P; try discriminate. destruct X as [[X1 X2] X].
  assert (forall i, quiet lg t -> t0 p <= i <= e -> read_ok strict (abs leb (at_i lg i)) (kind p, r) -> x = (kind p, r) -> point strict t i) as Q.
  { intros i Hq Hi Hr -> y Hy. split; auto. exists p, r, e. unfold rd in Hy. rewrite E, P in Hy.
    assert (y = (kind p, r)) as -> by (destruct r as [|[]| |[]]; congruence). auto 10. }
  destruct (kind p) as [k|k v|k cond] eqn:Ek, r as [v'|[]| |[]]; try tauto; try discriminate; injection R as <-.
  - destruct X as (Hq & i & Hi & Hv). exists i. apply Q; auto. intros r Hr. cbn. auto.
  - destruct X as (Hq & i & Hi & Hv). exists i. apply Q; auto. intros r Hr. cbn. auto.
  - exists (t0 p). apply Q; auto. intros r Hr. cbn. split; auto. intros Es. exfalso. apply (Sp Es t). exists p, e. auto.
  - destruct X as (Hq & i & Hi & Hv). exists i. apply Q; auto. intros r Hr. cbn. split; auto.
    intros v Ev. destruct Hv as [Hv|(w & Hw & Hc)]; congruence.
Qed.
Context (pt : nat -> nat) (Pt : forall t, In t (begun l) -> point strict t (pt t)).
Definition reads i : list elt :=
  flat_map (fun t => match rd t with Some x => if pt t =? i then [(t, x)] else [] | None => [] end) (begun l).
Definition upds i : list elt :=
  match ev_i lg i with
  | Some (EIns t k v) => [(t, (OIns k v, RIns true))]
  | Some (ERem t k) => match ops s t with Some p => [(t, (kind p, RRem true))] | None => [] end
  | None => []
  end.
Definition chunk i : list elt := reads i ++ upds i.
Definition whole : list elt := flat_map chunk (seq 0 (S (length lg))).

Lemma in_reads i t x : In (t, x) (reads i) <-> In t (begun l) /\ rd t = Some x /\ pt t = i.
Proof.
  unfold reads. rewrite in_flat_map. split.
  - intros (u & Hu & D). destruct (rd u) as [y|] eqn:R; [|destruct D]. destruct (Nat.eqb_spec (pt u) i) as [E|]; [|destruct D].
    destruct D as [[= -> ->]|[]]. auto.
  - intros (Hu & R & E). exists t. split; auto. rewrite R. rewrite (proj2 (Nat.eqb_eq _ _) E). now left.
Qed.
(** An element of the order that stands for an update. *)
Lemma in_upds i t x : In (t, x) (upds i) -> exists p a, ops s t = Some p /\ ev_i lg i = Some a /\ by_call t a
  /\ fits (kind p) (abs leb (at_i lg i)) a /\ t0 p <= i
  /\ (forall r e, pc p = PDone r e -> i < e /\ x = (kind p, r))
  /\ x = (kind p, match a with EIns _ _ _ => RIns true | ERem _ _ => RRem true end).
Proof.
  unfold upds. intros D. destruct (ev_i lg i) as [a|] eqn:Ev; [|destruct D].
  destruct (i_sound _ _ Is _ _ Ev) as (u & q & b & B1 & B2 & B3 & B4).
  unfold calls in B2. destruct (ops s u) as [p|] eqn:E; [|discriminate]. injection B2 as Eq Eb. subst q b.
  assert (t = u /\ x = (kind p, match a with EIns _ _ _ => RIns true | ERem _ _ => RRem true end)) as [-> Ex].
  { destruct a as [u' k v|u' k]; cbn in B1; subst u'.
    - destruct D as [[= <- <-]|[]]. split; auto. now destruct B4 as [-> _].
    - rewrite E in D. destruct D as [[= <- <-]|[]]. auto. }
  exists p, a. repeat split; auto.
  - intros. pose proof (o_log _ _ _ _ _ _ (i_op _ _ Is _ _ E)) as X. rewrite H0 in X. destruct X as [X1 X].
    destruct (kind p) as [k|k v|k cond], r as [v'|[]| |[]]; try tauto; try (destruct X as [X _]; exfalso; eapply X; eauto; fail).
    + destruct X as (j & Hj & Ej & Hu). rewrite (Hu _ _ Ev B1). lia.
    + exfalso. eapply X; eauto.
    + destruct X as (_ & X). destruct (X _ _ Ev B1). lia.
  - pose proof (o_log _ _ _ _ _ _ (i_op _ _ Is _ _ E)) as X. rewrite H0 in X. destruct X as [X1 X].
    rewrite Ex. destruct (kind p) as [k|k v|k cond], r as [v'|[]| |[]]; try tauto; try (destruct X as [X _]; exfalso; eapply X; eauto; fail).
    + destruct a as [u' k' v'|u' k']; auto. destruct B4 as (c & w & D1 & _). discriminate.
    + exfalso. eapply X; eauto.
    + destruct a as [u' k' v'|u' k']; auto. destruct B4 as [D1 _]. discriminate.
Qed.
Lemma upds_one i : length (upds i) <= 1.
Proof. unfold upds. destruct (ev_i lg i) as [[t k v|t k]|]; auto. destruct (ops s t); auto. Qed.
Lemma reads_nodup i : NoDup (map fst (reads i)).
Proof.
  destruct (run_ops _ _ _ H) as (_ & _ & _ & N & _). unfold reads. clear Pt.
  induction N as [|t b Ht Hb IH]; cbn; [constructor|]. rewrite map_app.
  destruct (rd t) as [y|] eqn:R; [|exact IH]. destruct (pt t =? i); [|exact IH]. cbn. constructor; auto.
  intros D. apply in_map_iff in D as ([u z] & <- & D). apply in_flat_map in D as (w & Hw & D).
  destruct (rd w); [|destruct D]. destruct (pt w =? i); [|destruct D]. destruct D as [[= <- <-]|[]]. auto.
Qed.
(** The window of an element. *)
Lemma chunk_win i t x : In (t, x) (chunk i) -> exists p, ops s t = Some p /\ t0 p <= i /\ (forall r e, pc p = PDone r e -> i <= e)
  /\ fst x = kind p /\ forall r e, pc p = PDone r e -> x = (kind p, r).
Proof.
  unfold chunk. rewrite in_app_iff. intros [D|D].
  - apply in_reads in D as (Ht & R & E). destruct (Pt t Ht x R) as (Hq & p & r & e & A1 & A2 & A3 & A4 & _).
    exists p. subst i. split; auto. split; [lia|]. split; [intros r' e' P; assert (e' = e) by congruence; lia|].
    split; [now rewrite A3|]. intros r' e' P. congruence.
  - apply in_upds in D as (p & a & A1 & A2 & A3 & A4 & A5 & A6 & A7). exists p. split; auto. split; auto.
    split; [intros r e P; destruct (A6 _ _ P); lia|]. split; [now rewrite A7|]. intros r e P. now destruct (A6 _ _ P).
Qed.
Lemma whole_in t x : In (t, x) whole <-> exists i, i <= length lg /\ In (t, x) (chunk i).
Proof.
  unfold whole. rewrite in_flat_map. split; intros (i & Hi & D); exists i; split; auto; [apply in_seq in Hi|apply in_seq]; lia.
Qed.
Lemma whole_time : ForallOrdPairs (fun x y => ~ before leb l (fst y) (fst x)) whole.
Proof.
  apply fop_flat.
  - intros i. unfold chunk. apply fop_app.
    + unfold reads. eapply fop_flat_map; [apply (begun_time _ _ H)| |].
      * intros t. destruct (rd t); auto. destruct (pt t =? i); auto.
      * intros a b x y R Hx Hy. cbn in R. destruct (rd a); [|destruct Hx]. destruct (pt a =? i); [|destruct Hx]. destruct Hx as [<-|[]].
        destruct (rd b); [|destruct Hy]. destruct (pt b =? i); [|destruct Hy]. destruct Hy as [<-|[]]. exact R.
    + apply fop_one, upds_one.
    + intros [t x] [u y] Hx Hy B. cbn in B. destruct (before_time _ _ _ _ H B) as (r & p & e & Ep & Pp & Bt).
      destruct (chunk_win i t x) as (q & Eq & Tq & _); [apply in_app_iff; auto|]. specialize (Bt _ Eq).
      apply in_upds in Hy as (p' & a & A1 & A2 & A3 & A4 & A5 & A6 & A7). assert (p' = p) as -> by congruence.
      destruct (A6 _ _ Pp). lia.
  - intros j k [t x] [u y] Hjk Hx Hy B. cbn in B. destruct (before_time _ _ _ _ H B) as (r & p & e & Ep & Pp & Bt).
    apply chunk_win in Hx as (q & Eq & Tq & _). specialize (Bt _ Eq).
    apply chunk_win in Hy as (p' & Ep' & _ & Te & _). assert (p' = p) as -> by congruence. specialize (Te _ _ Pp). lia.
Qed.
Lemma reads_replay i r : i <= length lg -> replay leb strict (abs leb (at_i lg i)) r ->
  replay leb strict (abs leb (at_i lg i)) (map snd (reads i) ++ r).
Proof.
  intros Hi Hr. unfold reads. assert (forall t, In t (begun l) -> In t (begun l)) as Hb by auto. revert Hb.
  generalize (begun l) at 1 3. intros b Hb. induction b as [|t b IH]; cbn; auto. rewrite map_app.
  assert (replay leb strict (abs leb (at_i lg i)) (map snd (flat_map (fun t => match rd t with Some x => if pt t =? i then [(t, x)] else [] | None => [] end) b) ++ r)) as IH'.
  { apply IH. intros u Hu. apply Hb. now right. }
  destruct (rd t) as [x|] eqn:R; auto. destruct (Nat.eqb_spec (pt t) i) as [E|]; auto. cbn.
  destruct (Pt t (Hb _ (or_introl eq_refl)) x R) as (_ & p & r' & e & _ & _ & _ & _ & _ & Ro). rewrite E in Ro. apply Ro. exact IH'.
Qed.
Lemma whole_replay : replay leb strict (fun _ => None) (map snd whole).
Proof.
  assert (forall n i, i + n = length lg -> replay leb strict (abs leb (at_i lg i)) (map snd (flat_map chunk (seq i (S n))))) as Q.
  { induction n as [|n IH]; intros i Hi.
    - cbn. rewrite app_nil_r. unfold chunk. rewrite map_app. apply reads_replay; [lia|].
      assert (upds i = []) as ->; [|exact Logic.I]. unfold upds. destruct (ev_i lg i) eqn:E; auto. apply ev_len in E. lia.
    - change (seq i (S (S n))) with (i :: seq (S i) (S n)). cbn [flat_map]. rewrite map_app. unfold chunk at 1. rewrite map_app, <- app_assoc.
      apply reads_replay; [lia|]. specialize (IH (S i) ltac:(lia)).
      destruct (ev_i lg i) as [a|] eqn:Ev.
      2:{ exfalso. unfold ev_i in Ev. apply nth_error_None in Ev. rewrite rev_length in Ev. lia. }
      rewrite (at_succ _ _ _ Ev) in IH. destruct (i_sound _ _ Is _ _ Ev) as (u & q & b & B1 & B2 & B3 & B4).
      unfold calls in B2. destruct (ops s u) as [p|] eqn:E; [|discriminate]. injection B2 as Eq Eb. subst q b.
      unfold upds. rewrite Ev. destruct a as [t k v|t k]; cbn in B1; subst t; cbn in B4.
      + cbn. split; [apply B4|exact IH].
      + rewrite E. destruct B4 as (cond & w & D1 & D2 & D3). cbn. rewrite D1. split; [eauto|exact IH]. }
  specialize (Q (length lg) 0 eq_refl). rewrite at_zero in Q. exact Q.
Qed.
Lemma whole_all t r : returned s t r -> exists q, In (t, (q, r)) whole.
Proof.
  intros (p & e & E & P).
  assert (In t (begun l)) as Ht.
  { destruct (run_ops _ _ _ H) as (_ & _ & A3 & _). assert (ops s t <> None) as D by congruence. apply A3 in D as [D|D]; auto. cbn in D. tauto. }
  exists (kind p). apply whole_in. destruct (rd t) as [x|] eqn:R.
  - destruct (Pt t Ht x R) as (_ & p' & r' & e' & A1 & A2 & A3 & A4 & A5 & _). exists (pt t). split; [lia|].
    apply in_app_iff. left. apply in_reads. split; auto. split; auto. congruence.
  - pose proof (o_log _ _ _ _ _ _ (i_op _ _ Is _ _ E)) as X. rewrite P in X. destruct X as [X1 X].
    unfold rd in R. rewrite E, P in R. 
    destruct (kind p) as [k|k v|k cond] eqn:Ek, r as [v'|[]| |[]]; try tauto; try discriminate.
    + destruct X as (i & Hi & Ev & _). exists i. split; [lia|]. apply in_app_iff. right. unfold upds. rewrite Ev. now left.
    + destruct X as ((i & Hi & Ev) & _). exists i. split; [lia|]. apply in_app_iff. right. unfold upds. rewrite Ev, E, Ek. now left.
Qed.
Lemma whole_once : (strict = true -> forall t i j a b, ev_i lg i = Some a -> ev_i lg j = Some b -> by_call t a -> by_call t b -> i = j) ->
  NoDup (map fst (filter (counts strict) whole)).
Proof.
  intros U. unfold whole. rewrite filter_flat.
  assert (forall i t, In t (map fst (filter (counts strict) (chunk i))) -> exists x, In (t, x) (chunk i) /\ counts strict (t, x) = true) as Q.
  { intros i t D. apply in_map_iff in D as ([u x] & <- & D). apply filter_In in D. eauto. }
  assert (forall t i j x y, In (t, x) (reads i) -> In (t, y) (upds j) -> False) as Q1.
  { intros t i j x y Hx Hy. apply in_reads in Hx as (Ht & R & _). destruct (Pt t Ht x R) as (Hq & _).
    apply in_upds in Hy as (p & a & A1 & A2 & A3 & _). eapply Hq; eauto. }
  apply nodup_flat.
  - apply seq_NoDup.
  - intros i _. unfold chunk. rewrite filter_app, map_app.
    assert (NoDup (map fst (filter (counts strict) (reads i)))) as N1.
    { pose proof (reads_nodup i) as N. induction (reads i) as [|x r IH]; cbn in *; [constructor|]. inversion N; subst.
      destruct (counts strict x); auto. cbn. constructor; auto. intros D. apply H2. apply in_map_iff in D as (y & Ey & D).
      apply filter_In in D as [D _]. rewrite <- Ey. now apply in_map. }
    pose proof (upds_one i) as L. destruct (upds i) as [|[t x] [|? ?]] eqn:Eu; cbn in L; try lia; cbn; [now rewrite app_nil_r|].
    destruct (counts strict (t, x)); cbn; [|now rewrite app_nil_r].
    apply NoDup_rev in N1. rewrite <- (rev_involutive (_ ++ _)), rev_app_distr. apply NoDup_rev. cbn. constructor; auto.
    rewrite <- in_rev. intros D. apply in_map_iff in D as ([u y] & Ey & D). cbn in Ey. subst u. apply filter_In in D as [D _].
    eapply (Q1 t i i); eauto. rewrite Eu. now left.
  - intros i j t _ _ Hi Hj. apply Q in Hi as (x & Hi & Ci), Hj as (y & Hj & Cj). unfold chunk in *.
    apply in_app_iff in Hi as [Hi|Hi], Hj as [Hj|Hj]; try (exfalso; eapply Q1; eauto; fail).
    + apply in_reads in Hi as (_ & _ & <-), Hj as (_ & _ & <-). auto.
    + apply in_upds in Hi as (p & a & A1 & A2 & A3 & A4 & A5 & A6 & A7), Hj as (p' & a' & B1 & B2 & B3 & B4 & B5 & B6 & B7).
      assert (p' = p) as -> by congruence. destruct strict eqn:Es; [eapply U; eauto|].
      subst x y. cbn in Ci, Cj. destruct a as [u k v|]; [|discriminate]. destruct a' as [u' k' v'|]; [|discriminate].
      cbn in A4. destruct A4 as [Ek _].
      pose proof (o_log _ _ _ _ _ _ (i_op _ _ Is _ _ A1)) as X.
      destruct (pc p) eqn:P; try (unfold pend in X; rewrite Ek in X; destruct X as [_ X]; exfalso; eapply X; eauto; fail).
      destruct X as [_ X]. rewrite Ek in X. destruct r as [|[]| |[]]; try tauto; try (destruct X as [X _]; exfalso; eapply X; eauto; fail).
      * destruct X as (m & _ & _ & Hm). rewrite (Hm _ _ A2 A3), (Hm _ _ B2 B3). auto.
      * exfalso. eapply X; eauto.
Qed.
Lemma whole_order : (strict = true -> forall t i j a b, ev_i lg i = Some a -> ev_i lg j = Some b -> by_call t a -> by_call t b -> i = j) ->
  order leb strict l s whole.
Proof.
  intros U. constructor.
  - intros t q r D. apply whole_in in D as (i & Hi & D). apply chunk_win in D as (p & A1 & A2 & A3 & A4 & A5).
    exists p. split; auto. split; [auto|]. intros r' (p' & e & E' & P'). assert (p' = p) as -> by congruence.
    specialize (A5 _ _ P'). congruence.
  - apply whole_all.
  - now apply whole_once.
  - apply whole_time.
  - apply whole_replay.
Qed.
End build.

Lemma lin_gen l s strict : run leb l init = Some s -> (strict = true -> forall t, ~ returned s t RSpur) ->
  (strict = true -> forall t i j a b, ev_i (log s) i = Some a -> ev_i (log s) j = Some b -> by_call t a -> by_call t b -> i = j) ->
  linearizable leb strict l s.
Proof.
  intros H Sp U. destruct (choose (point s strict) 0 Nat.eq_dec (begun l)) as [pt Pt].
  - intros t _. eapply points; eauto.
  - exists (whole l s pt). apply whole_order; auto.
Qed.
End lins.
