(** The invariant of the tree with its list of leaves, and what steps have to do to keep it. *)
From Coq Require Import List Arith Bool Lia.
From Verif Require Import TcModel TcRoute TcSpec TcInv TcTree TcFrame TcKeep TcJobs TcSplit TcFrz TcMove TcGrow TcFz TcFzs TcExt TcSys TiModel TiInv TiConv TiList TiMove TiBlk TiPush.
Import ListNotations.

Section step.
Context {K V : Type} (leb : K -> K -> bool) (HO : tord leb).
Notation heap := (nat -> obj K V).
Notation On := (On leb).
Notation Live := (Live leb).
Notation klt := (klt leb).
Notation HInv := (HInv leb).
Implicit Types (h : heap) (k : K) (y z w n L lo hi : nat).

(** The stages that go with a job. *)
Definition stgok (l : nat) (j : job K) (g : stg) : Prop :=
  match l with
  | 1 =>
    match j with
    | Idle | NewLk => g = G0
    | CUb _ => False
    | Poison => g = G0 \/ g = GDel
    | Locked => g = G0 \/ (exists c, g = GUm c) \/ exists o, g = GRet o
    | Swap0 _ _ _ => g = G0 \/ g = GLo \/ g = GDel
    | Split _ _ _ _ _ => g = G0 \/ g = GHi \/ g = GLo
    | Ins _ _ _ _ _ false => g = GLo \/ g = GDel
    | Ins _ _ _ _ _ true => g = GDel
    | Full _ _ _ _ _ None _ => g = GLo \/ g = GRb1 \/ g = GRb2
    | Full _ _ _ _ _ (Some _) _ => g = GLo
    | Commit _ _ _ _ 0 => g = GLo \/ g = GDel
    | Commit _ _ _ _ (S _) => g = GDel
    end
  | _ => g = G0
  end.
Definition cut (j : job K) : Prop :=
  match j with Split _ _ _ _ _ | Full _ _ _ _ _ _ _ | Commit _ _ _ _ _ => True | _ => False end.

Record SJ h (f : nat) r (nx : nat -> option nat) (dl : nat -> bool) (sg : nat -> stg) : Prop := {
  s_l : LInv leb h f r nx dl sg (tpf h sg);
  s_g : forall n, stgok (lvl (h n)) (jb (h n)) (sg n);
  s_ne : forall n L lo hi, tpf h sg n = Some (L, lo, hi) -> cut (jb (h n)) ->
    ents (h lo) <> [] /\ ents (h hi) <> [] /\ lo <> hi;
  s_in : forall n o c m lo hi b, lvl (h n) = 1 -> jb (h n) = Ins o c m lo hi b ->
    In lo (kids (h n)) /\ forall k1 k2, On h r k1 lo -> On h r k2 c -> klt k1 k2;
  s_rd : forall k y, On h r k y -> lvl (h y) = 0 -> dl y = true ->
    (exists n lo hi, tpf h sg n = Some (y, lo, hi) /\ sg n = GDel)
    \/ exists p o, p < f /\ sg p = GRet o /\ ptr (h p) o = Some y;
  s_rb : forall n L lo hi, tpf h sg n = Some (L, lo, hi) ->
    (sg n = GRb1 -> dl hi = true) /\ (sg n = GRb2 -> dl lo = true /\ dl hi = true);
  s_cm : forall n c lo hi lns i, lvl (h n) = 1 -> jb (h n) = Commit c lo hi lns i ->
    (i = 0 -> dl lo = false) /\ (i <= 1 -> dl hi = false);
  s_un : forall x, x < f -> lvl (h x) = 1 -> ub (h x) = UNull -> r = Some x }.

Lemma tp_of h sg n o c om lo hi : lvl (h n) = 1 -> jv (jb (h n)) = Some (o, c, om, lo, hi) -> tpf h sg n = Some (c, lo, hi).
Proof. intros L J. unfold tpf. rewrite L. cbn. destruct (jb (h n)); cbn in J; try discriminate; injection J as <- <- <- <- <-; auto. Qed.
Lemma tp_inv h sg n L lo hi : tpf h sg n = Some (L, lo, hi) -> lvl (h n) = 1 /\
  ((exists o om, jv (jb (h n)) = Some (o, L, om, lo, hi)) \/ exists lns, jb (h n) = Commit L lo hi lns 0 /\ sg n = GLo).
Proof.
  unfold tpf. destruct (Nat.eqb_spec (lvl (h n)) 1) as [El|]; [|discriminate]. intros T. split; auto.
  destruct (jb (h n)) as [| | | | | | | |? ? ? ? [|?]|]; try discriminate; try (injection T as <- <- <-; cbn; eauto; fail).
  destruct (sg n); try discriminate. injection T as <- <- <-. eauto.
Qed.
Lemma tp_ext h h' sg sg' n : lvl (h' n) = lvl (h n) -> jb (h' n) = jb (h n) -> sg' n = sg n -> tpf h' sg' n = tpf h sg n.
Proof. intros A B C. unfold tpf. now rewrite A, B, C. Qed.

(** What may happen to the job and the stage of one node. *)
Record jstep h h' sg sg' (dl : nat -> bool) n : Prop := {
  t_tp : tpf h' sg' n = tpf h sg n;
  t_sg : tpf h sg n = None \/ sg' n = sg n;
  t_ok : stgok (lvl (h' n)) (jb (h' n)) (sg' n);
  t_cut : tpf h sg n <> None -> cut (jb (h' n)) -> cut (jb (h n));
  t_ins : forall o c m lo hi b, lvl (h' n) = 1 -> jb (h' n) = Ins o c m lo hi b -> exists b', jb (h n) = Ins o c m lo hi b';
  t_ret : forall o, sg n = GRet o -> sg' n = GRet o;
  t_cm : forall c lo hi lns i, lvl (h' n) = 1 -> jb (h' n) = Commit c lo hi lns i ->
    (exists j, j <= i /\ jb (h n) = Commit c lo hi lns j) \/ (tpf h sg n = Some (c, lo, hi) /\ sg n = GLo) }.

Section one.
Context h (f : nat) r (nx : nat -> option nat) (dl : nat -> bool) (sg : nat -> stg) (S : SJ h f r nx dl sg)
  (lg : list (ev K V)) (HI : HInv h f r lg) (FI : FInv h f).
Notation tp := (tpf h sg).
Notation LI := (s_l _ _ _ _ _ _ S).
Lemma j_same h' sg' n : lvl (h' n) = lvl (h n) -> jb (h' n) = jb (h n) -> sg' n = sg n -> jstep h h' sg sg' dl n.
Proof.
  intros A B C. constructor; auto.
  - now apply tp_ext.
  - rewrite A, B, C. apply S.
  - now rewrite B.
  - rewrite B. eauto.
  - rewrite C. auto.
  - rewrite B. eauto.
Qed.
Lemma blk n L lo hi : tp n = Some (L, lo, hi) -> n < f /\ Blk leb h r f nx dl (sg n) n L lo hi.
Proof. apply (q_blk _ _ _ _ _ _ _ _ LI). Qed.
Lemma pub_dl n L lo hi y : tp n = Some (L, lo, hi) -> pub sg n -> y = lo \/ y = hi -> dl y = false.
Proof.
  intros T P D. destruct (blk _ _ _ _ T) as [_ B].
  assert (sg n <> GRb1 /\ sg n <> GRb2) as [N1 N2] by (destruct P as [->| ->]; split; discriminate).
  destruct D as [->| ->]; [apply (b_dlo _ _ _ _ _ _ _ _ _ _ _ B)|apply (b_dhi _ _ _ _ _ _ _ _ _ _ _ B)]; auto.
Qed.
Lemma lvl1_lt n : lvl (h n) <> 0 -> n < f.
Proof. intros L. destruct (lt_dec n f) as [|N]; auto. rewrite (f_blank _ _ FI n) in L by lia. now destruct L. Qed.

(** A half that is not published is not reached. *)
Lemma half_dead n o c m lo hi : lvl (h n) <> 0 -> jv (jb (h n)) = Some (o, c, Some m, lo, hi) -> isIns (jb (h n)) = false ->
  over (h n) = false -> ~ Live h r lo /\ ~ Live h r hi.
Proof.
  intros Ln J Is O. pose proof (lvl1_lt n Ln) as Hn. split; [|eapply open_half; eauto].
  pose proof (h_job _ _ _ _ _ HI _ _ _ _ _ _ Hn J O) as Jb. pose proof (h_hld _ _ _ _ _ HI _ _ _ _ _ _ Hn J) as Hl.
  assert (Rep leb h n m n c lo) as R.
  { split; [constructor|]. exists o, (Some m), lo, hi. split; auto. split; [now apply (l_pos _ _ _ _ _ _ _ _ _ Hl)|]. cbn. now rewrite (leb_refl leb HO). }
  apply (j_img _ _ _ _ _ _ _ _ _ Jb _ _ _ _ R). intros C. congruence.
Qed.
(** A replaced leaf whose split is over is not reached. *)
Lemma over_dead L n : lvl (h L) = 0 -> fz (h L) = Orig n -> over (h L) = true -> jv (jb (h n)) = None -> ~ Live h r L.
Proof.
  intros L0 F O J (k & H). destruct H as [q Hq|u z Hu Hz].
  - destruct (h_root _ _ _ _ _ HI q Hq) as (_ & ? & _). congruence.
  - destruct (h_over _ _ _ _ _ HI k u z Hu Hz O) as (o & om & lo & hi & Ju & _).
    pose proof (h_hld _ _ _ _ _ HI _ _ _ _ _ _ (on_lt leb h f r lg HI _ _ Hu) Ju) as Hl.
    pose proof (l_held _ _ _ _ _ _ _ _ _ Hl) as Hh. unfold held in Hh. rewrite L0 in Hh. congruence.
Qed.
(** An open leaf of a split that is reached is the low one, just put into the node. *)
Lemma open_live n L lo hi y : tp n = Some (L, lo, hi) -> mem L lo hi y -> fz (h y) = Open -> Live h r y ->
  exists o m, jb (h n) = Ins o L m lo hi true /\ y = lo /\ over (h n) = false /\ ~ Live h r hi.
Proof.
  intros T M F Lv. destruct (blk _ _ _ _ T) as [Hn B]. destruct (tp_inv _ _ _ _ _ _ T) as (L1 & D).
  assert (y <> L) as Ny. { intros ->. rewrite (b_fz _ _ _ _ _ _ _ _ _ _ _ B) in F. discriminate. }
  assert (y = lo \/ y = hi) as M' by (destruct M; tauto). clear M.
  pose proof (h_fz _ _ _ _ _ HI n Hn L1) as Fz.
  destruct D as [(o & om & J)|(lns & J & G)].
  - assert (lvl (h n) <> 0) as Ln by lia.
    pose proof (noover leb h f r lg HI n Hn Ln) as No.
    destruct (jb (h n)) as [| | | |o' c' lo'|o' c' m' lo' hi'|o' c' m' lo' hi' b|o' c' m' lo' hi' tk lns| |] eqn:Ej; cbn in J; try discriminate; injection J as <- <- <- <- <-.
    + exfalso. assert (jv (jb (h n)) = Some (o', c', None, lo', lo')) as Jv by now rewrite Ej.
      apply (open_half leb HO h f r lg HI n o' c' None lo' lo' Hn Jv (No Logic.I)). destruct M' as [->| ->]; auto.
    + exfalso. assert (jv (jb (h n)) = Some (o', c', Some m', lo', hi')) as Jv by now rewrite Ej.
      destruct (half_dead n o' c' m' lo' hi' Ln Jv) as [A A']; [now rewrite Ej|auto|]. destruct M' as [->| ->]; auto.
    + assert (jv (jb (h n)) = Some (o', c', Some m', lo', hi')) as Jv by now rewrite Ej.
      pose proof (open_half leb HO h f r lg HI n o' c' (Some m') lo' hi' Hn Jv (No Logic.I)) as A.
      destruct M' as [->| ->]; [|tauto]. destruct b; [exists o', m'; auto|]. destruct Fz as [Fz _]. rewrite Fz in F; [discriminate|auto].
    + exfalso. destruct Fz as [F1 F2]. destruct M' as [->| ->]; congruence.
  - exfalso. rewrite J in Fz. destruct Fz as (_ & _ & _ & F1 & F2). 
    destruct M' as [->| ->]; [rewrite F1 in F by auto|rewrite F2 in F by lia]; discriminate.
Qed.

Lemma gret_1 p o : sg p = GRet o -> lvl (h p) = 1 /\ jb (h p) = Locked.
Proof.
  intros G. pose proof (s_g _ _ _ _ _ _ S p) as G'. rewrite G in G'. unfold stgok in G'.
  destruct (lvl (h p)) as [|[|]]; try discriminate. split; auto.
  destruct (jb (h p)) as [| | | | | |? ? ? ? ? [|]|? ? ? ? ? [|] ?|? ? ? ? [|]|]; auto; repeat (destruct G' as [G'|G']; try discriminate); try discriminate; contradiction.
Qed.
Lemma g0_not1 p : lvl (h p) <> 1 -> sg p = G0.
Proof. intros N. pose proof (s_g _ _ _ _ _ _ S p) as G. unfold stgok in G. destruct (lvl (h p)) as [|[|]]; tauto. Qed.
(** ** All but the list *)
Section rest.
Context h' (f' : nat) (r' : option nat) (sg' : nat -> stg) (HI' : HInv h' f' r' lg).
Context (Hf : f <= f').
Context (Hl : forall y, y < f -> lvl (h' y) = lvl (h y) /\ (lvl (h y) = 0 -> ents (h' y) = ents (h y))).
Context (Hn : forall y, f <= y -> y < f' -> lvl (h' y) <> 0).
Context (Rev : forall k y, On h' r' k y -> lvl (h' y) = 0 -> (exists k', On h r k' y /\ On h' r' k' y)
  \/ exists n L lo hi om, tp n = Some (L, lo, hi) /\ pub sg n /\ (isIns (jb (h n)) = true -> isIns (jb (h' n)) = false)
       /\ On h r k L /\ y = sel leb om lo hi k).
Context (T1 : forall n L lo hi, tp n = Some (L, lo, hi) ->
  (tpf h' sg' n = Some (L, lo, hi) /\ sg' n = sg n) \/ sg n <> GDel \/ ~ Live h' r' L).
Context (T2 : forall n L lo hi, tpf h' sg' n = Some (L, lo, hi) -> tp n = Some (L, lo, hi) /\ sg' n = sg n).
Context (T3 : forall n L lo hi, tpf h' sg' n = Some (L, lo, hi) -> cut (jb (h' n)) -> cut (jb (h n))).
Context (T4 : forall n, stgok (lvl (h' n)) (jb (h' n)) (sg' n)).
Context (T5 : forall n o c m lo hi b, lvl (h' n) = 1 -> jb (h' n) = Ins o c m lo hi b ->
  In lo (kids (h' n)) /\ (lvl (h n) = 1 /\ (exists b', jb (h n) = Ins o c m lo hi b')
    \/ forall k1 k2, On h' r' k1 lo -> On h' r' k2 c -> klt k1 k2)).
Context (T6 : forall p o y, p < f -> sg p = GRet o -> ptr (h p) o = Some y ->
  (sg' p = GRet o /\ ptr (h' p) o = Some y) \/ ~ Live h' r' y).
Context (T7 : forall n c lo hi lns i, lvl (h' n) = 1 -> jb (h' n) = Commit c lo hi lns i ->
    (exists j, lvl (h n) = 1 /\ j <= i /\ jb (h n) = Commit c lo hi lns j) \/ (tp n = Some (c, lo, hi) /\ sg n = GLo)).
Context (T8 : forall x, x < f' -> lvl (h' x) = 1 -> ub (h' x) = UNull -> r' = Some x).
Context (LI' : LInv leb h' f' r' nx dl sg' (tpf h' sg')).
Lemma r_leaf y : y < f' -> lvl (h' y) = 0 -> y < f /\ lvl (h y) = 0.
Proof. intros H L. destruct (lt_dec y f) as [A|A]; [destruct (Hl y A); split; congruence|]. exfalso. apply (Hn y); auto. lia. Qed.
Lemma sj_rest : SJ h' f' r' nx dl sg'.
Proof.
  constructor; auto.
  - intros n L lo hi T C. pose proof (T3 _ _ _ _ T C) as C'. destruct (T2 _ _ _ _ T) as [T' _].
    destruct (blk _ _ _ _ T') as [_ B]. destruct (b_lt _ _ _ _ _ _ _ _ _ _ _ B) as (_ & B2 & B3). destruct (b_lv _ _ _ _ _ _ _ _ _ _ _ B) as (_ & B5 & B6).
    destruct (Hl lo B2) as [_ E1]. destruct (Hl hi B3) as [_ E2]. rewrite E1, E2 by auto. exact (s_ne _ _ _ _ _ _ S _ _ _ _ T' C').
  - intros n o c m lo hi b L1 J. destruct (T5 _ _ _ _ _ _ _ L1 J) as [Hk [(L1' & b' & J')|Sp]]; split; auto.
    destruct (s_in _ _ _ _ _ _ S _ _ _ _ _ _ _ L1' J') as [_ Sp].
    assert (tp n = Some (c, lo, hi)) as T by (eapply tp_of; eauto; rewrite J'; reflexivity).
    destruct (blk _ _ _ _ T) as [Hn' B]. destruct (b_lt _ _ _ _ _ _ _ _ _ _ _ B) as (B1 & B2 & B3). destruct (b_lv _ _ _ _ _ _ _ _ _ _ _ B) as (B4 & B5 & B6).
    destruct (b_ne _ _ _ _ _ _ _ _ _ _ _ B) as [N1 N2].
    intros k1 k2 O1 O2. destruct (Hl lo B2) as [El _]. destruct (Hl c B1) as [Ec _].
    assert (exists k', On h r k' lo /\ On h' r' k' lo) as (k1' & P1 & P1').
    { destruct (Rev k1 lo O1) as [?|(n' & L' & lo' & hi' & om & T' & P & Is & _ & E)]; [congruence|auto|]. exfalso.
      destruct (bd leb h f r nx dl sg tp LI n' n L' lo' hi' c lo hi lo) as (-> & _); auto; try (unfold mem; auto; fail).
      - destruct (sel_in leb om lo' hi' k1) as [E'|E']; rewrite E' in E; unfold mem; auto.
      - rewrite J', J in Is. specialize (Is eq_refl). discriminate. }
    assert (exists k', On h r k' c /\ On h' r' k' c) as (k2' & P2 & P2').
    { destruct (Rev k2 c O2) as [?|(n' & L' & lo' & hi' & om & T' & P & Is & _ & E)]; [congruence|auto|]. exfalso.
      assert (c = lo' \/ c = hi') as E1 by (destruct (sel_in leb om lo' hi' k2) as [E'|E']; rewrite E' in E; auto).
      destruct (bd leb h f r nx dl sg tp LI n' n L' lo' hi' c lo hi c) as (_ & _ & E2 & E3); auto; try (unfold mem; tauto).
      rewrite E2, E3 in E1. tauto. }
    apply (apart leb HO h' f' r' lg k1' k1 k2' k2 lo c HI'); auto; congruence.
  - intros k y O Ly D. destruct (r_leaf y) as [Hy Ly0]; auto. { eapply on_lt; eauto. }
    destruct (Rev k y O Ly) as [(k' & A & _)|(n & L0 & lo & hi & om & T & P & _ & _ & E)].
    + assert (Live h' r' y) as Lv by (now exists k).
      destruct (s_rd _ _ _ _ _ _ S k' y A Ly0 D) as [(n & lo & hi & T & G)|(p & o & Hp & G & P)].
      * destruct (T1 _ _ _ _ T) as [[T' G']|[?|?]]; try tauto. left. exists n, lo, hi. split; auto. congruence.
      * destruct (T6 _ _ _ Hp G P) as [[G' P']|?]; [|tauto]. right. exists p, o. split; [lia|auto].
    + exfalso. assert (dl y = false) as D'; [|congruence]. apply (pub_dl n L0 lo hi); auto.
      destruct (sel_in leb om lo hi k) as [E'|E']; rewrite E' in E; auto.
  - intros n L lo hi T. destruct (T2 _ _ _ _ T) as [T' G]. rewrite G. exact (s_rb _ _ _ _ _ _ S _ _ _ _ T').
  - intros n c lo hi lns i L1 J. destruct (T7 _ _ _ _ _ _ L1 J) as [(j & L1' & Hj & J')|[T G]].
    + destruct (s_cm _ _ _ _ _ _ S _ _ _ _ _ _ L1' J') as [A B]. split; intros; [apply A|apply B]; lia.
    + split; intros _; apply (pub_dl n c lo hi); auto; now left.
Qed.
End rest.

(** Steps that leave the splits of leaf nodes as they are. *)
Section move.
Context h' (f' : nat) (r' : option nat) (sg' : nat -> stg) (HI' : HInv h' f' r' lg).
Context (Hf : f <= f').
Context (Hl : forall y, y < f -> lvl (h' y) = lvl (h y) /\ (lvl (h y) = 0 -> ents (h' y) = ents (h y) /\ ret (h' y) = ret (h y))).
Context (Hn : forall y, f <= y -> y < f' -> lvl (h' y) <> 0).
Context (Hb : forall y, f' <= y -> ents (h' y) = ents (h y)).
Context (Hfz : forall y, (exists n lo hi, tp n = Some (y, lo, hi)) -> fz (h' y) = fz (h y)).
Context (Hfd : forall y, dl y = true -> fz (h' y) = fz (h y) \/ fz (h' y) <> Open).
Context (Fwd : forall k y, On h r k y -> lvl (h y) = 0 -> On h' r' k y \/ ret (h y) = true
  \/ exists n lo hi om, tp n = Some (y, lo, hi) /\ pub sg n /\ On h' r' k (sel leb om lo hi k)).
Context (Rev : forall k y, On h' r' k y -> lvl (h' y) = 0 -> (exists k', On h r k' y /\ On h' r' k' y)
  \/ exists n L lo hi om, tp n = Some (L, lo, hi) /\ pub sg n /\ (isIns (jb (h n)) = true -> isIns (jb (h' n)) = false)
       /\ On h r k L /\ y = sel leb om lo hi k).
Lemma li_move : LInv leb h' f' r' nx dl sg tp.
Proof.
  apply (l_move leb HO h f r nx dl sg tp LI lg HI h' f' r'); auto.
  - intros y. destruct (lt_dec y f) as [A|A].
    + destruct (Hl y A) as [El E]. destruct (Nat.eq_dec (lvl (h y)) 0) as [E0|E0]; [left; now apply E|right].
      apply (w_node _ _ _ _ (h_wf _ _ _ _ _ HI' y ltac:(lia))). congruence.
    + destruct (lt_dec y f') as [B|B]; [right|left; apply Hb; lia].
      apply (w_node _ _ _ _ (h_wf _ _ _ _ _ HI' y B)). apply Hn; lia.
  - intros k y O Ly. destruct (Rev k y O Ly) as [?|(n & L & lo & hi & om & A & B & _ & C & D)]; auto. right. eauto 10.
Qed.
Context (Js : forall n, jstep h h' sg sg' dl n).
Context (Hs : forall n, lvl (h n) = 1 -> (forall y, In y (kids (h n)) -> In y (kids (h' n))) /\ forall o, ptr (h' n) o = ptr (h n) o).
Context (T8 : forall x, x < f' -> lvl (h' x) = 1 -> ub (h' x) = UNull -> r' = Some x).
Lemma sj_move : SJ h' f' r' nx dl sg'.
Proof.
  apply (sj_rest h' f' r' sg'); auto.
  - intros y Hy. destruct (Hl y Hy) as [A B]. split; auto. intros E. now destruct (B E).
  - intros n L lo hi T. left. rewrite (t_tp _ _ _ _ _ _ (Js n)). split; auto. destruct (t_sg _ _ _ _ _ _ (Js n)); congruence.
  - intros n L lo hi T. rewrite (t_tp _ _ _ _ _ _ (Js n)) in T. split; auto. destruct (t_sg _ _ _ _ _ _ (Js n)); congruence.
  - intros n L lo hi T. rewrite (t_tp _ _ _ _ _ _ (Js n)) in T. apply (t_cut _ _ _ _ _ _ (Js n)). congruence.
  - intros n. apply (Js n).
  - intros n o c m lo hi b L1 J. destruct (t_ins _ _ _ _ _ _ (Js n) o c m lo hi b L1 J) as [b' J'].
    destruct (Nat.eq_dec (lvl (h n)) 1) as [E|E].
    + split; [|left; eauto]. apply Hs; auto. exact (proj1 (s_in _ _ _ _ _ _ S _ _ _ _ _ _ _ E J')).
    + exfalso. assert (n < f) as Hn' by (apply (jb_lt h f FI); congruence). destruct (Hl n Hn'). congruence.
  - intros p o y Hp G P. left. split; [now apply (t_ret _ _ _ _ _ _ (Js p))|]. rewrite <- P. apply Hs. apply (gret_1 p o G).
  - intros n c lo hi lns i L1 J. destruct (t_cm _ _ _ _ _ _ (Js n) _ _ _ _ _ L1 J) as [(j & Hj & J')|?]; auto. left. exists j.
    split; auto. assert (n < f) as Hn' by (apply (jb_lt h f FI); congruence). destruct (Hl n Hn'). congruence.
  - apply (l_ext leb h' f' r' nx dl sg tp li_move); intros n; apply (Js n).
Qed.
End move.

(** Steps that keep all ways. *)
Lemma on_iff h' k y : (forall y, y < f -> same (h' y) (h y)) -> On h' r k y <-> On h r k y.
Proof.
  intros Sm. split; [|apply (on_same leb h f r lg HI); auto].
  intros H. induction H as [q Hq|u z Hu IH Hz]; [now constructor|]. eapply On_step; eauto.
  unfold nxt in *. rewrite <- Hz. symmetry. apply same_nx, Sm. eapply on_lt; eauto.
Qed.
Lemma sj_same h' f' sg' : HInv h' f' r lg -> f <= f' -> (forall y, y < f -> same (h' y) (h y) /\ ret (h' y) = ret (h y)) ->
  (forall y, f <= y -> y < f' -> lvl (h' y) <> 0 /\ (lvl (h' y) = 1 -> ub (h' y) <> UNull)) -> (forall y, f' <= y -> h' y = h y) ->
  (forall y, (exists n lo hi, tp n = Some (y, lo, hi)) -> fz (h' y) = fz (h y)) ->
  (forall y, dl y = true -> fz (h' y) = fz (h y) \/ fz (h' y) <> Open) ->
  (forall n, jstep h h' sg sg' dl n) -> SJ h' f' r nx dl sg'.
Proof.
  intros HI' Hf Hs Hn Hb Hfz Hfd Js.
  assert (forall k y, On h' r k y <-> On h r k y) as Oi by (intros; apply on_iff; intros; now apply Hs).
  apply (sj_move h' f' r sg'); auto.
  - intros y Hy. destruct (Hs y Hy) as [(A & B & _) C]. auto.
  - intros y A B. now apply Hn.
  - intros y A. now rewrite Hb.
  - intros k y O _. left. now apply Oi.
  - intros k y O _. left. exists k. split; auto. now apply Oi.
  - intros n L1. assert (n < f) as Hn' by (apply lvl1_lt; lia). destruct (Hs n Hn') as [Sm _]. split.
    + intros y. now rewrite (same_kids _ _ Sm).
    + intros o. now apply same_ptr.
  - intros x Hx L1 U. destruct (lt_dec x f) as [A|A].
    + destruct (Hs x A) as [(E1 & _ & _ & E2) _]. apply (s_un _ _ _ _ _ _ S); congruence.
    + destruct (Hn x) as [_ Hn']; [lia|auto|]. now destruct (Hn' L1).
Qed.
End one.
End step.
