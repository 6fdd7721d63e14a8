(** What is known about a position in the list of leaves, while other threads work on the tree: every
    entry that has been there all the time has been yielded, is about to be, or lies ahead. *)
From Coq Require Import List Arith Bool Lia.
From Verif Require Import TcModel TcRoute TcSpec TcInv TcTree TcFrame TcFz TcExt TcSys TcOps TcRun TiModel TiInv TiList TiMove TiBlk TiStep TiSys TiExt TiTs.
Import ListNotations.

Section cur.
Context {K V : Type} (leb : K -> K -> bool) (HO : tord leb).
Notation klt := (klt leb).
Notation SI := (SI leb).
Notation Inv := (Inv leb).
Notation H := (fun s => hp (tc s)).
Implicit Types (s : ls K V) (e j : K * V) (c y z b n L lo hi : nat) (D : K * V -> Prop).

(** [e] has been in the tree since the instant [b]. *)
Definition Stb s b e : Prop := forall i, b <= i <= length (log (tc s)) -> abs leb (at_i (log (tc s)) i) (fst e) = Some (snd e).
(** [e] has been in the tree at some instant since [b]. *)
Definition Pres s b e : Prop := exists i, b <= i <= length (log (tc s)) /\ abs leb (at_i (log (tc s)) i) (fst e) = Some (snd e).

(** [c]: the leaf; [strict]: whether it has been read; [D]: the entries that have been yielded or are
    about to be. *)
Record Cur s b c (strict : bool) D : Prop := {
  c_lt : c < fresh (tc s); c_lv : lvl (hp (tc s) c) = 0;
  c_cov : forall e, Stb s b e -> D e \/ exists y, dl s y = false /\ In e (ents (hp (tc s) y)) /\ (Nx (link s) c y \/ strict = false /\ y = c);
  c_vis : strict = true -> forall e, Stb s b e -> dl s c = false -> In e (ents (hp (tc s) c)) -> D e;
  c_vk : forall e n o L m lo hi, Stb s b e -> Open_job (hp (tc s)) n o L (Some m) lo hi -> c = lo \/ c = hi -> In e (ents (hp (tc s) L)) -> D e }.
(** About to read the leaf. *)
Record Fst s b c D : Prop := {
  f_cur : Cur s b c false D;
  f_ord : forall e j, Stb s b e -> In j (ents (hp (tc s) c)) -> klt (fst e) (fst j) -> D e \/ In e (ents (hp (tc s) c));
  f_pres : forall e, In e (ents (hp (tc s) c)) -> Pres s b e }.

Lemma cur_mono s b c st D D' : (forall e, Stb s b e -> D e -> D' e) -> Cur s b c st D -> Cur s b c st D'.
Proof.
  intros M [A1 A2 A3 A4 A5]. constructor; auto.
  - intros e S. destruct (A3 e S); auto.
  - intros e n o L m lo hi S J Hc Hi. apply M; auto. eapply A5; eauto.
Qed.

Section facts.
Context s (I : SI s).
Notation h := (hp (tc s)).
Notation tp := (tpf h (sg s)).
Lemma LI : LInv leb h (fresh (tc s)) (root (tc s)) (link s) (dl s) (sg s) tp.
Proof. exact (s_l _ _ _ _ _ _ _ (proj2 I)). Qed.
Lemma HIs : HInv leb h (fresh (tc s)) (root (tc s)) (log (tc s)).
Proof. exact (i_h _ _ (proj1 I)). Qed.
Lemma nx_leaf a b : Nx (link s) a b -> a < fresh (tc s) /\ b < fresh (tc s) /\ lvl (h a) = 0 /\ lvl (h b) = 0.
Proof.
  induction 1 as [a b E|a b c E N IH].
  - exact (q_lt _ _ _ _ _ _ _ _ LI a b E).
  - pose proof (q_lt _ _ _ _ _ _ _ _ LI a b E). tauto.
Qed.
Lemma open_tp n o L om lo hi : Open_job h n o L om lo hi -> tp n = Some (L, lo, hi).
Proof. intros (A & B & C & D). eapply tp_of; eauto. Qed.
Lemma open_blk n o L om lo hi : Open_job h n o L om lo hi -> Blk leb h (root (tc s)) (fresh (tc s)) (link s) (dl s) (sg s n) n L lo hi.
Proof. intros J. apply (q_blk _ _ _ _ _ _ _ _ LI). eapply open_tp; eauto. Qed.
(** A split that can be rolled back: its origin is not deleted, and two halves. *)
Lemma open_dl n o L m lo hi : Open_job h n o L (Some m) lo hi -> dl s L = false /\ lo <> hi /\ sg s n <> GDel.
Proof.
  intros J. pose proof (open_blk _ _ _ _ _ _ J) as B. destruct J as (A & J & Is & Ov).
  assert (sg s n <> GDel) as G.
  { pose proof (s_g _ _ _ _ _ _ _ (proj2 I) n) as G. rewrite A in G. cbn in G. intros E. rewrite E in G.
    destruct (jb (h n)) as [| | | | | |? ? ? ? ? [|]|? ? ? ? ? [|] ?|? ? ? ? [|]|]; cbn in J, Is; try discriminate;
      repeat (destruct G as [G|G]; try discriminate); discriminate. }
  split; [|split; auto].
  - destruct (dl s L) eqn:E; auto. apply (b_dL _ _ _ _ _ _ _ _ _ _ _ B) in E. tauto.
  - assert (n < fresh (tc s)) as Hn by (apply (lvl1_lt h _ (i_f _ _ (proj1 I))); lia).
    apply (l_neq _ _ _ _ _ _ _ _ _ (h_hld _ _ _ _ _ HIs _ _ _ _ _ _ Hn J)). discriminate.
Qed.
End facts.

Lemma stb_now s b e : b <= length (log (tc s)) -> Stb s b e -> abs leb (log (tc s)) (fst e) = Some (snd e).
Proof. intros B S. specialize (S (length (log (tc s)))). rewrite at_len in S. apply S. lia. Qed.
Lemma pres_now s b e : b <= length (log (tc s)) -> abs leb (log (tc s)) (fst e) = Some (snd e) -> Pres s b e.
Proof. intros B A. exists (length (log (tc s))). rewrite at_len. auto. Qed.
Lemma stb_pres s b e j : Stb s b e -> Pres s b j -> fst j = fst e -> j = e.
Proof.
  intros S (i & Hi & A) E. specialize (S i Hi). rewrite E in A. rewrite A in S. injection S as S. destruct e, j; cbn in *; congruence.
Qed.

(** ** Steps of the tree *)
Section tree.
Context s s' (I : SI s) (I' : SI s') (T : TS leb (tc s) (tc s')) (El : link s' = link s) (Ed : dl s' = dl s) (b : nat) (B : b <= length (log (tc s))).
Lemma stb_t e : Stb s' b e -> Stb s b e.
Proof.
  intros S i Hi. destruct (ts_log _ _ _ T) as [l E]. specialize (S i). rewrite E, app_length, at_app in S by lia. apply S. lia.
Qed.
Lemma pres_t e : Pres s b e -> Pres s' b e.
Proof. intros (i & Hi & A). destruct (ts_log _ _ _ T) as [l E]. exists i. rewrite E, app_length, at_app by lia. split; auto. lia. Qed.
Lemma B' : b <= length (log (tc s')).
Proof. destruct (ts_log _ _ _ T) as [l E]. rewrite E, app_length. lia. Qed.
Lemma in_t e y : Stb s' b e -> y < fresh (tc s) -> lvl (hp (tc s) y) = 0 -> In e (ents (hp (tc s') y)) <-> In e (ents (hp (tc s) y)).
Proof. intros S Hy Ly. apply (ts_e _ _ _ T); auto; apply (stb_now _ b); auto using stb_t, B'. Qed.
Lemma cur_t c st D : Cur s b c st D -> Cur s' b c st D.
Proof.
  intros [A1 A2 A3 A4 A5]. pose proof (ts_x _ _ _ T) as X. constructor.
  - pose proof (x_f _ _ _ _ _ _ _ X). lia.
  - rewrite (x_lvl _ _ _ _ _ _ _ X); auto.
  - intros e S. destruct (A3 e (stb_t e S)) as [|(y & Y1 & Y2 & Y3)]; auto. right. exists y. rewrite El, Ed. split; auto. split; auto.
    assert (y < fresh (tc s) /\ lvl (hp (tc s) y) = 0) as [Hy Ly].
    { destruct Y3 as [N|[_ ->]]; auto. pose proof (nx_leaf s I _ _ N). tauto. }
    now apply in_t.
  - intros E e S. rewrite Ed. intros Dc Hi. apply in_t in Hi; auto. apply A4; auto using stb_t.
  - intros e n o L m lo hi S J Hc Hi. destruct (ts_j _ _ _ T _ _ _ _ _ _ J) as [J0|[J1 J2]]; [|destruct Hc; lia].
    pose proof (open_blk s I _ _ _ _ _ _ J0) as Bk. apply in_t in Hi; auto; [|apply (b_lt _ _ _ _ _ _ _ _ _ _ _ Bk)|apply (b_lv _ _ _ _ _ _ _ _ _ _ _ Bk)].
    eapply A5; eauto using stb_t.
Qed.
(** The order of what lies ahead follows from the order of the list, unless the leaf is deleted. *)
Lemma ord_of s0 c D : SI s0 -> Cur s0 b c false D -> dl s0 c = false ->
  forall e j, Stb s0 b e -> In j (ents (hp (tc s0) c)) -> klt (fst e) (fst j) -> D e \/ In e (ents (hp (tc s0) c)).
Proof.
  intros I0 C Dc e j S Hj Hk. destruct (c_cov _ _ _ _ _ C e S) as [|(y & Y1 & Y2 & [N|[_ ->]])]; auto.
  right. exact (along leb HO _ _ _ _ _ _ _ (LI s0 I0) c y j e Dc Y1 N Hj Y2 Hk).
Qed.
Lemma fst_t c D : Fst s b c D -> Fst s' b c D.
Proof.
  intros [C O P]. pose proof (cur_t _ _ _ C) as C'. constructor; auto.
  - destruct (dl s c) eqn:Dc; [|apply (ord_of s' c D); auto; congruence].
    intros e j S Hj Hk. pose proof (q_dfz _ _ _ _ _ _ _ _ (LI s I) c Dc (c_lv _ _ _ _ _ C)) as Z.
    rewrite (ts_z _ _ _ T) in * by (auto; apply C). apply (O e j); auto using stb_t.
  - intros e He. destruct (ts_n _ _ _ T c e (c_lt _ _ _ _ _ C) (c_lv _ _ _ _ _ C) He) as [He'|He'].
    + apply pres_t. auto.
    + apply pres_now; auto using B'.
Qed.
End tree.

(** ** List operations *)
Section list.
Context s s' (I : SI s) (b : nat) (Et : tc s' = tc s).
Lemma cur_keep c st D : dl s' = dl s -> (forall x y, Nx (link s) x y -> Nx (link s') x y) -> Cur s b c st D -> Cur s' b c st D.
Proof.
  intros Ed N [A1 A2 A3 A4 A5]. unfold Stb in *. constructor; rewrite ?Et, ?Ed in *; auto.
  - intros e S. unfold Stb in S. rewrite Et in S. destruct (A3 e S) as [|(y & Y1 & Y2 & Y3)]; auto. right. exists y. split; auto. split; auto. destruct Y3; auto.
  - intros E e S. unfold Stb in S. rewrite Et in S. auto.
  - intros e n o L m lo hi S. unfold Stb in S. rewrite Et in S. eauto.
Qed.
(** One leaf [d] is deleted, and what it has lies elsewhere. *)
Lemma cur_del d c st D : dl s' = upd (dl s) d true -> link s' = link s -> Cur s b c st D ->
  (forall e, Stb s b e -> dl s d = false -> In e (ents (hp (tc s) d)) -> Nx (link s) c d \/ st = false /\ d = c -> D e \/ exists y, y <> d /\ dl s y = false /\ In e (ents (hp (tc s) y)) /\ (Nx (link s) c y \/ st = false /\ y = c)) ->
  Cur s' b c st D.
Proof.
  intros Ed El [A1 A2 A3 A4 A5] Q. unfold Stb in *. constructor; rewrite ?Et, ?Ed, ?El in *; auto.
  - intros e S. unfold Stb in S. rewrite Et in S. destruct (A3 e S) as [|(y & Y1 & Y2 & Y3)]; auto. destruct (Nat.eq_dec y d) as [->|Nd].
    + destruct (Q e S Y1 Y2 Y3) as [|(y & Z1 & Z2 & Z3 & Z4)]; auto. right. exists y. rewrite upd_ne by auto. auto.
    + right. exists y. rewrite upd_ne by auto. auto.
  - intros E e S. unfold Stb in S. rewrite Et in S. intros Dc. apply A4; auto. destruct (Nat.eq_dec c d) as [->|Nd]; [now rewrite upd_eq in Dc|now rewrite upd_ne in Dc].
  - intros e n o L m lo hi S. unfold Stb in S. rewrite Et in S. eauto.
Qed.
End list.

Lemma push_nx (nx : nat -> option nat) y x : unl nx x -> y <> x -> forall a c, Nx nx a c -> Nx (upd (upd nx x (nx y)) y (Some x)) a c.
Proof. intros U Ne a c N. now apply (p_keep nx y x U Ne). Qed.

(** Full and not taken up by the parent. *)
Lemma full_open s n o c m lo hi lns : SI s -> lvl (hp (tc s) n) = 1 -> jb (hp (tc s) n) = Full o c m lo hi None lns ->
  Open_job (hp (tc s)) n o c (Some m) lo hi.
Proof.
  intros I L J. assert (n < fresh (tc s)) as Hn by (apply (lvl1_lt _ _ (i_f _ _ (proj1 I))); lia).
  unfold Open_job. rewrite J. repeat split; auto. destruct (over (hp (tc s) n)) eqn:O; auto.
  destruct (w_over1 _ _ _ _ (h_wf _ _ _ _ _ (HIs s I) n Hn) O) as [_ W]; [lia|]. rewrite J in W. contradiction.
Qed.
Lemma cur_l a s s' b c st D : SI s -> lstep a s = Some s' -> Cur s b c st D -> Cur s' b c st D.
Proof.
  intros I St C. pose proof (q_inj _ _ _ _ _ _ _ _ (LI s I)) as Inj.
  destruct a; cbn [lstep] in St; unfold is1, nd in St.
  - destruct (Nat.eqb_spec (lvl (hp (tc s) n)) 1) as [L|]; [|discriminate].
    destruct (jb (hp (tc s) n)) as [| | | | |o c0 m low high| | | |] eqn:J; try discriminate.
    destruct (sg s n) eqn:G; try discriminate. injection St as <-.
    assert (tpf (hp (tc s)) (sg s) n = Some (c0, low, high)) as T by (eapply tp_of; eauto; rewrite J; reflexivity).
    destruct (q_blk _ _ _ _ _ _ _ _ (LI s I) _ _ _ _ T) as [_ B]. pose proof (b_nx _ _ _ _ _ _ _ _ _ _ _ B) as N. rewrite G in N.
    apply (cur_keep s); auto. apply push_nx; [tauto|]. apply (b_ne _ _ _ _ _ _ _ _ _ _ _ B).
  - destruct (Nat.eqb_spec (lvl (hp (tc s) n)) 1) as [L|]; [|discriminate].
    assert (forall L0 lo hi, tpf (hp (tc s)) (sg s) n = Some (L0, lo, hi) -> sg s n = GHi \/ sg s n = G0 ->
      Cur (with_sg (set_mk (push s L0 lo) L0 true) n GLo) b c st D) as Q.
    { intros L0 lo hi T G. destruct (q_blk _ _ _ _ _ _ _ _ (LI s I) _ _ _ _ T) as [_ B]. pose proof (b_nx _ _ _ _ _ _ _ _ _ _ _ B) as N.
      apply (cur_keep s); auto. apply push_nx; [|apply (b_ne _ _ _ _ _ _ _ _ _ _ _ B)]. destruct G as [G|G]; rewrite G in N; tauto. }
    destruct (jb (hp (tc s) n)) as [| | | |o c0 low|o c0 m low high| | | |] eqn:J; try discriminate;
    destruct (sg s n) eqn:G; try discriminate; injection St as <-.
    + apply (Q c0 low low); auto. eapply tp_of; eauto. rewrite J. reflexivity.
    + apply (Q c0 low high); auto. eapply tp_of; eauto. rewrite J. reflexivity.
  - destruct (Nat.eqb_spec (lvl (hp (tc s) n)) 1) as [L|]; [|discriminate].
    assert (forall L0 lo hi, tpf (hp (tc s)) (sg s) n = Some (L0, lo, hi) -> sg s n = GLo ->
      Cur (with_sg (set_dl s L0) n GDel) b c st D) as Q.
    { intros L0 lo hi T G. destruct (q_blk _ _ _ _ _ _ _ _ (LI s I) _ _ _ _ T) as [_ B]. pose proof (b_nx _ _ _ _ _ _ _ _ _ _ _ B) as N.
      rewrite G in *. destruct (b_ne _ _ _ _ _ _ _ _ _ _ _ B) as [Ne1 Ne2].
      assert (dl s lo = false) as D1 by (apply (b_dlo _ _ _ _ _ _ _ _ _ _ _ B); discriminate).
      assert (dl s hi = false) as D2 by (apply (b_dhi _ _ _ _ _ _ _ _ _ _ _ B); discriminate).
      destruct N as [N1 N2]. assert (Nx (link s) L0 lo) as M1 by now constructor.
      assert (Nx (link s) L0 hi) as M2 by (destruct N2 as [<-|N2]; auto; eapply NxS; eauto; now constructor).
      refine (cur_del s _ b _ L0 c st D _ _ C _); try reflexivity. intros e S _ He P. right.
      assert (forall y, Nx (link s) L0 y -> Nx (link s) c y) as Tr.
      { intros y Y. destruct P as [P|[_ <-]]; auto. eapply nx_trans; eauto. }
      apply (b_cont _ _ _ _ _ _ _ _ _ _ _ B) in He as [He|He]; [| |discriminate]; [exists lo|exists hi]; repeat split; auto. }
    destruct (jb (hp (tc s) n)) as [| | | |o c0 low| |o c0 m low high [|]| |c0 low high lns [|i]|] eqn:J; try discriminate;
    destruct (sg s n) eqn:G; try discriminate; injection St as <-.
    + apply (Q c0 low low); auto. eapply tp_of; eauto. rewrite J. reflexivity.
    + apply (Q c0 low high); auto. eapply tp_of; eauto. rewrite J. reflexivity.
    + apply (Q c0 low high); auto. unfold tpf. rewrite L, J, G. reflexivity.
  - destruct (Nat.eqb_spec (lvl (hp (tc s) n)) 1) as [L|]; [|discriminate].
    destruct (jb (hp (tc s) n)) as [| | | | | | |o c0 m low high [tk|] lns| |] eqn:J; try discriminate.
    destruct (sg s n) eqn:G; try discriminate. injection St as <-.
    pose proof (full_open s n o c0 m low high lns I L J) as Jo. pose proof (open_blk s I _ _ _ _ _ _ Jo) as B.
    destruct (open_dl s I _ _ _ _ _ _ Jo) as (Dl & Ne & _). destruct (b_ne _ _ _ _ _ _ _ _ _ _ _ B) as [Ne1 Ne2].
    pose proof (b_nx _ _ _ _ _ _ _ _ _ _ _ B) as N. rewrite G in N. destruct N as [N1 [N2|N2]]; [congruence|].
    refine (cur_del s _ b _ high c st D _ _ C _); try reflexivity. intros e S _ He P.
    assert (In e (ents (hp (tc s) c0))) as Hc by (apply (b_cont _ _ _ _ _ _ _ _ _ _ _ B); auto; congruence).
    destruct P as [P|[_ <-]]; [|left; eapply (c_vk _ _ _ _ _ C); eauto].
    destruct (nx_pred _ Inj _ _ _ N2 P) as [->|P1]; [left; eapply (c_vk _ _ _ _ _ C); eauto|].
    destruct (nx_pred _ Inj _ _ _ N1 P1) as [->|P2].
    + destruct st; [left; eapply (c_vis _ _ _ _ _ C); eauto|]. right. exists c0. auto 6.
    + right. exists c0. auto 6.
  - destruct (Nat.eqb_spec (lvl (hp (tc s) n)) 1) as [L|]; [|discriminate].
    destruct (jb (hp (tc s) n)) as [| | | | | | |o c0 m low high [tk|] lns| |] eqn:J; try discriminate.
    destruct (sg s n) eqn:G; try discriminate. injection St as <-.
    pose proof (full_open s n o c0 m low high lns I L J) as Jo. pose proof (open_blk s I _ _ _ _ _ _ Jo) as B.
    destruct (open_dl s I _ _ _ _ _ _ Jo) as (Dl & Ne & _). destruct (b_ne _ _ _ _ _ _ _ _ _ _ _ B) as [Ne1 Ne2].
    pose proof (b_nx _ _ _ _ _ _ _ _ _ _ _ B) as N. rewrite G in N. destruct N as [N1 [N2|N2]]; [congruence|].
    refine (cur_del s _ b _ low c st D _ _ C _); try reflexivity. intros e S _ He P.
    assert (In e (ents (hp (tc s) c0))) as Hc by (apply (b_cont _ _ _ _ _ _ _ _ _ _ _ B); auto; congruence).
    destruct P as [P|[_ <-]]; [|left; eapply (c_vk _ _ _ _ _ C); eauto].
    destruct (nx_pred _ Inj _ _ _ N1 P) as [->|P2].
    + destruct st; [left; eapply (c_vis _ _ _ _ _ C); eauto|]. right. exists c0. auto 6.
    + right. exists c0. auto 6.
  - destruct (sg s n) eqn:G; try discriminate. injection St as <-. apply (cur_keep s); auto.
  - destruct (Nat.eqb_spec (lvl (hp (tc s) n)) 1) as [L|]; [|discriminate].
    destruct (jb (hp (tc s) n)) eqn:J; try discriminate. destruct (sg s n) eqn:G; try discriminate.
    destruct (ptr (hp (tc s) n) o) as [c0|] eqn:Hp; [|discriminate]. destruct (_ && _) eqn:R; [|discriminate]. injection St as <-.
    apply andb_true_iff in R as [R _]. refine (cur_del s _ b _ c0 c st D _ _ C _); try reflexivity. intros e S _ He P. exfalso.
    assert (n < fresh (tc s)) as Hn by (apply (lvl1_lt _ _ (i_f _ _ (proj1 I))); lia).
    assert (c0 < fresh (tc s)) as Hc. { apply (w_kids _ _ _ _ (h_wf _ _ _ _ _ (HIs s I) n Hn)). eapply in_kids; eauto. }
    rewrite (w_ret _ _ _ _ (h_wf _ _ _ _ _ (HIs s I) c0 Hc) R) in He. destruct He.
Qed.
Lemma l_tc a s s' : lstep a s = Some s' -> tc s' = tc s.
Proof.
  intros St. destruct a; cbn [lstep] in St; unfold is1, nd in St;
    repeat match type of St with context [match ?e with _ => _ end] => destruct e; try discriminate end; injection St as <-; reflexivity.
Qed.
Lemma fst_l a s s' b c D : SI s -> lstep a s = Some s' -> Fst s b c D -> Fst s' b c D.
Proof.
  intros I St [C O P]. pose proof (l_tc _ _ _ St) as Et. constructor.
  - eapply cur_l; eauto.
  - unfold Stb in *. rewrite Et. exact O.
  - unfold Pres in *. rewrite Et. exact P.
Qed.

(** ** Along a link *)
Lemma cur_next s b z z' D : SI s -> Cur s b z true D -> link s z = Some z' -> Cur s b z' false D.
Proof.
  intros I [A1 A2 A3 A4 A5] E. pose proof (q_lt _ _ _ _ _ _ _ _ (LI s I) _ _ E) as Lt. pose proof (q_inj _ _ _ _ _ _ _ _ (LI s I)) as Inj.
  constructor; try tauto.
  - intros e S. destruct (A3 e S) as [|(y & Y1 & Y2 & [Y3|[Y3 _]])]; [auto| |discriminate]. right. exists y. split; auto. split; auto.
    destruct (nx_succ _ _ _ _ E Y3); auto.
  - discriminate.
  - intros e n o L m lo hi S J Hc Hi. pose proof (open_blk s I _ _ _ _ _ _ J) as B.
    destruct (open_dl s I _ _ _ _ _ _ J) as (Dl & Ne & _). pose proof (b_nx _ _ _ _ _ _ _ _ _ _ _ B) as N.
    assert (z = L -> D e) as Q1 by (intros ->; apply A4; auto).
    assert (z = lo -> D e) as Q2 by (intros ->; eapply A5; eauto).
    assert (forall y, z' = y -> unl (link s) y -> False) as Q3 by (intros y -> [_ U]; exact (U z E)).
    destruct (b_g _ _ _ _ _ _ _ _ _ _ _ B) as [G|[[G _]|G]].
    + rewrite G in N. exfalso. destruct N as [U1 U2]. destruct Hc; eauto.
    + rewrite G in N. destruct N as [N1 U]. destruct Hc as [Hc|Hc]; [exfalso; eauto|]. subst z'. apply Q1. eapply Inj; eauto.
    + assert (link s L = Some lo /\ (lo = hi \/ link s lo = Some hi)) as [N1 N2] by (destruct G as [G|[G|[G|G]]]; rewrite G in N; exact N).
      destruct Hc as [Hc|Hc]; subst z'; [apply Q1; eapply Inj; eauto|]. destruct N2 as [N2|N2]; [congruence|]. apply Q2. eapply Inj; eauto.
Qed.
(** The leaf is deleted: go on behind it. *)
Lemma cur_skip s b z D : dl s z = true -> Cur s b z false D -> Cur s b z true D.
Proof.
  intros Dz [A1 A2 A3 A4 A5]. constructor; auto.
  - intros e S. destruct (A3 e S) as [|(y & Y1 & Y2 & [Y3|[_ ->]])]; auto; [|congruence]. right. exists y. auto.
  - intros _ e S. congruence.
Qed.
(** The leaf is read. *)
Lemma cur_read s b z D P : (forall e, In e P <-> In e (ents (hp (tc s) z))) -> Cur s b z false D -> Cur s b z true (fun e => D e \/ In e P).
Proof.
  intros E [A1 A2 A3 A4 A5]. constructor; auto.
  - intros e S. destruct (A3 e S) as [|(y & Y1 & Y2 & [Y3|[_ ->]])]; auto. right. exists y. auto. rewrite E. auto.
  - intros _ e S _ He. right. now apply E.
  - intros. left. eauto.
Qed.
(** The leaf is not deleted. *)
Lemma fst_of s b z D : SI s -> b <= length (log (tc s)) -> dl s z = false -> Cur s b z false D -> Fst s b z D.
Proof.
  intros I B Dz C. constructor; auto.
  - apply (ord_of b s z D I C Dz).
  - intros e He. destruct (q_rz _ _ _ _ _ _ _ _ (LI s I) z e (c_lt _ _ _ _ _ C) (c_lv _ _ _ _ _ C) Dz He) as (y & O & L & Hy & _).
    apply pres_now; auto. rewrite <- (h_abs1 _ _ _ _ _ (HIs s I) _ _ O L). apply (in_get leb HO); auto.
    apply (q_nd _ _ _ _ _ _ _ _ (LI s I)).
Qed.
End cur.
