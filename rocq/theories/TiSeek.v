(** The first leaf: what a descent along the first children knows. *)
From Coq Require Import List Arith Bool Lia.
From Verif Require Import TcModel TcRoute TcSpec TcInv TcTree TcFrame TcFz TcExt TcSys TcKeep TcOps TcRun TiModel TiInv TiConv TiList TiMove TiBlk TiStep TiSys TiExt TiTs TiCur.
Import ListNotations.

Section seek.
Context {K V : Type} (leb : K -> K -> bool) (HO : tord leb).
Notation klt := (klt leb).
Notation SI := (SI leb).
Notation Stb := (Stb leb).
Notation Fst := (Fst leb).
Notation On s := (On leb (hp (tc s)) (root (tc s))).
Implicit Types (s : ls K V) (e j : K * V) (k : K) (c x y z b n L lo hi : nat) (D : K * V -> Prop).

Definition First (o : obj K V) : option nat := match cells o with e :: _ => Some (cchild e) | [] => uto (ub o) end.

(** The way to [x] is the first one, up to [k]; or [x] has been replaced. *)
Inductive Gmk s b D k : nat -> Prop :=
| M_on x k0 : leb k0 k = true -> On s k0 x -> Gmk s b D k x
| M_leaf x : closed (hp (tc s) x) -> lvl (hp (tc s) x) = 0 -> Fst s b x D -> Gmk s b D k x
| M_node x z : closed (hp (tc s) x) -> lvl (hp (tc s) x) <> 0 -> First (hp (tc s) x) = Some z -> Gmk s b D k z -> Gmk s b D k x
| M_none x : closed (hp (tc s) x) -> lvl (hp (tc s) x) <> 0 -> First (hp (tc s) x) = None -> Gmk s b D k x.
Definition Gm s b D x : Prop := x < fresh (tc s) /\ forall k, Gmk s b D k x.

Lemma gmk_mono s b D k k' x : leb k k' = true -> Gmk s b D k x -> Gmk s b D k' x.
Proof.
  intros Hk. induction 1 as [x k0 A B|x A B C|x z A B C G IH|x A B C].
  - apply (M_on _ _ _ _ x k0); auto. eapply (t_trans leb HO); eauto.
  - now apply M_leaf.
  - now apply (M_node _ _ _ _ x z).
  - now apply M_none.
Qed.
Lemma leb_le k k' : leb k k' = true \/ leb k' k = true.
Proof. destruct (klt_dec leb k k') as [A|A]; auto. left. now apply (klt_leb leb HO). Qed.

Section facts.
Context s (I : SI s).
Notation h := (hp (tc s)).
Notation tp := (tpf h (sg s)).
Notation LI := (LI leb s I).
Notation HI := (HIs leb s I).

Lemma first_nxt x k : (forall a r, cells (h x) = a :: r -> leb k (ckey a) = true) -> nxt leb h x k = First (h x).
Proof.
  intros Q. unfold nxt, nx, First, pos. cbn. destruct (cells (h x)) as [|a r] eqn:E; cbn; auto.
  rewrite (Q a r eq_refl). cbn. rewrite E. cbn. now rewrite Nat.eqb_refl.
Qed.
Lemma gm_next b D x z : Gm s b D x -> First (h x) = Some z -> Gm s b D z.
Proof.
  intros [Hx G] F.
  assert (In z (kids (h x))) as Hz.
  { unfold First in F. unfold kids. destruct (cells (h x)) as [|a r]; cbn in *.
    - destruct (ub (h x)); try discriminate. injection F as <-. cbn. auto.
    - injection F as <-. auto. }
  destruct (kid_lvl leb _ _ _ _ HI x z Hx Hz) as [Lz Hf]. split; auto. intros k.
  assert (exists k', leb k' k = true /\ forall a r, cells (h x) = a :: r -> leb k' (ckey a) = true) as (k' & K1 & K2).
  { destruct (cells (h x)) as [|a r]; [exists k; split; [apply (leb_refl leb HO)|discriminate]|].
    destruct (leb_le k (ckey a)) as [A|A].
    - exists k. split; [apply (leb_refl leb HO)|]. now intros ? ? [= <- <-].
    - exists (ckey a). split; auto. intros ? ? [= <- <-]. apply (leb_refl leb HO). }
  apply (gmk_mono _ _ _ k'); auto. destruct (G k') as [x k0 A B|x A B C|x z' A B C G'|x A B C]; try congruence; try lia.
  apply (M_on _ _ _ _ z k0); auto. eapply On_step; eauto. rewrite <- F. apply first_nxt. intros a r E. eapply (t_trans leb HO); eauto.
Qed.
Lemma gm_root b D n : root (tc s) = Some n -> Gm s b D n.
Proof.
  intros R. split; [apply (h_root _ _ _ _ _ HI n R)|]. intros k. apply (M_on _ _ _ _ n k); [apply (leb_refl leb HO)|]. now constructor.
Qed.

(** ** A leaf reached this way is the first one *)
(** The entry of [e] in the list: a leaf that is not deleted, [z] itself or behind it. *)
Lemma listed z e : On s (fst e) z -> lvl (h z) = 0 -> In e (ents (h z)) -> dl s z = true ->
  exists n lo hi y, tp n = Some (z, lo, hi) /\ sg s n = GDel /\ (y = lo \/ y = hi) /\ dl s y = false /\ In e (ents (h y)).
Proof.
  intros O L0 He Dz.
  pose proof (on_lt leb _ _ _ _ HI _ _ O) as Hz.
  destruct (q_dl _ _ _ _ _ _ _ _ LI _ _ O L0 Dz) as [(n & lo & hi & T & G)|R].
  2:{ rewrite (w_ret _ _ _ _ (h_wf _ _ _ _ _ HI z Hz) R) in He. destruct He. }
  destruct (q_blk _ _ _ _ _ _ _ _ LI _ _ _ _ T) as [Hn B]. destruct (tp_inv _ _ _ _ _ _ T) as (L1 & Dj).
  destruct Dj as [(o & om & J)|(lns & J & G')]; [|congruence].
  assert (over (h n) = false) as Ov.
  { apply (noover leb h _ _ _ HI n Hn); [lia|]. pose proof (s_g _ _ _ _ _ _ _ (proj2 I) n) as Sg. rewrite L1, G in Sg. cbn in Sg.
    destruct (jb (h n)) as [| | | | | |? ? ? ? ? [|]|? ? ? ? ? [|] ?|? ? ? ? [|]|]; cbn in J; auto; try discriminate;
      repeat (destruct Sg as [Sg|Sg]; try discriminate); discriminate. }
  pose proof (h_job _ _ _ _ _ HI _ _ _ _ _ _ Hn J Ov) as Jb.
  destruct (up leb HO h _ _ _ HI (fst e) _ _ _ _ _ _ Hn J (or_introl Ov) O) as (P1 & P2 & P3).
  exists n, lo, hi, (sel leb om lo hi (fst e)). split; auto. split; auto.
  assert (sel leb om lo hi (fst e) = lo \/ sel leb om lo hi (fst e) = hi) as Sl by apply sel_in. split; auto. split.
  - destruct Sl as [-> | ->]; [apply (b_dlo _ _ _ _ _ _ _ _ _ _ _ B)|apply (b_dhi _ _ _ _ _ _ _ _ _ _ _ B)]; congruence.
  - assert (Rep leb h n (fst e) n z (sel leb om lo hi (fst e))) as R.
    { split; [constructor|]. exists o, om, lo, hi. auto. }
    destruct (j_img _ _ _ _ _ _ _ _ _ Jb _ _ _ _ R) as (_ & _ & Q & _).
    + intros Ii. apply (j_ins _ _ _ _ _ _ _ _ _ Jb Ii); auto.
    + destruct (Q L0) as [Q1 _]. apply (get_in' leb HO). rewrite Q1. apply (in_get leb HO); auto. apply (q_nd _ _ _ _ _ _ _ _ LI).
Qed.
Lemma half_live n L lo hi y : tp n = Some (L, lo, hi) -> y = lo \/ y = hi -> Live leb h (root (tc s)) y ->
  (sg s n = GLo \/ sg s n = GDel) /\ dl s lo = false /\ dl s hi = false /\ Nx (link s) L lo /\ Nx (link s) L hi /\ (lo = hi \/ Nx (link s) lo hi).
Proof.
  intros T Y Lv. destruct (q_blk _ _ _ _ _ _ _ _ LI _ _ _ _ T) as [Hn B].
  assert (~ (~ Live leb h (root (tc s)) lo /\ ~ Live leb h (root (tc s)) hi)) as Nl by (intros [N1 N2]; destruct Y as [->| ->]; auto).
  assert (sg s n = GLo \/ sg s n = GDel) as G.
  { destruct (tp_inv _ _ _ _ _ _ T) as (L1 & Dj). pose proof (s_g _ _ _ _ _ _ _ (proj2 I) n) as Sg. rewrite L1 in Sg. cbn in Sg.
    assert (sg s n = G0 \/ sg s n = GHi -> False) as Q by (intros G; apply Nl; now apply (b_nl _ _ _ _ _ _ _ _ _ _ _ B)).
    destruct Dj as [(o & om & J)|(lns & J & G)]; auto.
    destruct (jb (h n)) as [| | | |? ? ?| |? ? ? ? ? [|]|? ? ? ? ? [tk|] ?|? ? ? ? [|]|] eqn:Ej; cbn in J; try discriminate; try tauto.
    exfalso. injection J as <- <- <- <- <-. pose proof (full_open leb s n _ _ _ _ _ _ I L1 Ej) as (_ & J & Ii & Ov).
    apply Nl. eapply (half_dead leb HO); eauto; [apply HI|apply I|lia]. }
  split; auto. pose proof (b_nx _ _ _ _ _ _ _ _ _ _ _ B) as N.
  assert (link s L = Some lo /\ (lo = hi \/ link s lo = Some hi)) as [N1 N2] by (destruct G as [G|G]; rewrite G in N; exact N). clear N.
  assert (Nx (link s) L lo) as M by now constructor.
  split; [apply (b_dlo _ _ _ _ _ _ _ _ _ _ _ B); destruct G; congruence|].
  split; [apply (b_dhi _ _ _ _ _ _ _ _ _ _ _ B); destruct G; congruence|]. split; auto.
  destruct N2 as [<-|N2]; auto. assert (Nx (link s) lo hi) as M2 by now constructor. split; auto. eapply nx_trans; eauto.
Qed.
Lemma in_blk n L lo hi c z k0 e : tp n = Some (L, lo, hi) -> mem L lo hi c -> mem L lo hi z -> c <> z ->
  lvl (h z) = 0 -> lvl (h c) = 0 -> On s k0 c -> On s (fst e) z -> klt k0 (fst e) -> In e (ents (h z)) ->
  exists y, dl s y = false /\ In e (ents (h y)) /\ (Nx (link s) c y \/ y = c).
Proof.
  intros T Mc Mz Ne Lz Lc Oc Oz Hk He. destruct (q_blk _ _ _ _ _ _ _ _ LI _ _ _ _ T) as [Hn B].
  assert (exists y, (y = lo \/ y = hi) /\ Live leb h (root (tc s)) y) as (y1 & Y1 & Lv).
  { destruct Mc as [->|Mc]; [|exists c; split; auto; eexists; eauto]. destruct Mz as [->|Mz]; [congruence|]. exists z. split; auto. eexists; eauto. }
  destruct (half_live n L lo hi y1 T Y1 Lv) as (G & D1 & D2 & N1 & N2 & N3).
  assert (exists y, (y = lo \/ y = hi) /\ In e (ents (h y))) as (y & Y & Ey).
  { destruct Mz as [->|Mz]; [|exists z; auto]. destruct G as [G|G].
    - apply (b_cont _ _ _ _ _ _ _ _ _ _ _ B) in He; [|congruence]. destruct He; eauto.
    - assert (dl s L = true) as Dl by now apply (b_dL _ _ _ _ _ _ _ _ _ _ _ B).
      destruct (listed L e Oz Lz He Dl) as (n' & lo' & hi' & y & T' & _ & Y & _ & Ey).
      destruct (bd leb _ _ _ _ _ _ _ LI _ _ _ _ _ _ _ _ L T T') as (-> & _ & -> & ->); [left; auto|left; auto|]. eauto. }
  assert (dl s y = false) as Dy by (destruct Y as [->| ->]; auto).
  destruct Mc as [->|[->| ->]].
  - exists y. split; auto. split; auto. left. destruct Y as [->| ->]; auto.
  - exists y. split; auto. split; auto. destruct Y as [->| ->]; auto. destruct N3; auto.
  - exists y. split; auto. split; auto. destruct Y as [->| ->]; auto. destruct N3 as [<-|N3]; auto. exfalso.
    assert (lo <> hi) as Nlh. { intros ->. now apply (q_acy _ _ _ _ _ _ _ _ LI) in N3. }
    assert (Live leb h (root (tc s)) hi) as Lh by (eexists; eauto).
    assert (cut (jb (h n)) /\ fz (h hi) = Hold n) as [Ct Fz].
    { destruct (tp_inv _ _ _ _ _ _ T) as (L1 & Dj). pose proof (h_fz _ _ _ _ _ HI n Hn L1) as Fz. 
      destruct Dj as [(o & om & J)|(lns & J & _)].
      - destruct (over (h n)) eqn:Ov; [|exfalso; exact (open_half leb HO h _ _ _ HI n _ _ _ _ _ Hn J Ov Lh)].
        destruct (w_over1 _ _ _ _ (h_wf _ _ _ _ _ HI n Hn) Ov) as [_ W]; [lia|].
        destruct (jb (h n)); try contradiction; cbn in J; try discriminate. injection J as <- <- <- <- <-. split; [exact Logic.I|]. apply Fz.
      - rewrite J in *. split; [exact Logic.I|]. apply Fz. lia. }
    destruct (s_ne _ _ _ _ _ _ _ (proj2 I) _ _ _ _ T Ct) as (_ & E2 & _).
    destruct (ents (h hi)) as [|j r] eqn:Eh; [tauto|].
    assert (In j (ents (h hi))) as Hj by (rewrite Eh; now left).
    pose proof (b_sep _ _ _ _ _ _ _ _ _ _ _ B Nlh _ _ Ey Hj) as Sp.
    assert (hi < fresh (tc s)) as Hh by (apply (b_lt _ _ _ _ _ _ _ _ _ _ _ B)).
    pose proof (h_wf _ _ _ _ _ HI hi Hh) as W.
    assert (over (h hi) = false) as Ov. { destruct (over (h hi)) eqn:Ov; auto. destruct (w_over0 _ _ _ _ W Ov Lc). congruence. }
    assert (On s (fst j) hi) as Oj.
    { apply (h_ent _ _ _ _ _ HI); auto; [now apply in_map|]. rewrite (w_wlo _ _ _ _ W Ov). exact Logic.I. }
    assert (On s (fst e) hi) as Oe by (eapply (conv leb HO) with (k1 := k0) (k3 := fst j); eauto; try apply HI; try (apply (klt_leb leb HO); assumption)).
    apply Ne. eapply on_uniq; eauto; [apply HI|congruence].
Qed.
Lemma ahead c k0 e : lvl (h c) = 0 -> On s k0 c -> leb k0 (fst e) = true -> abs leb (log (tc s)) (fst e) = Some (snd e) ->
  exists y, dl s y = false /\ In e (ents (h y)) /\ (Nx (link s) c y \/ y = c).
Proof.
  intros Lc Oc Hk Ab. destruct (h_abs2 _ _ _ _ _ HI (fst e)) as (z & Oz & Lz); [congruence|].
  assert (In e (ents (h z))) as He.
  { apply (get_in' leb HO). rewrite (h_abs1 _ _ _ _ _ HI _ _ Oz Lz). exact Ab. }
  assert (exists y, dl s y = false /\ In e (ents (h y)) /\ (y = z \/ exists n lo hi, tp n = Some (z, lo, hi) /\ sg s n = GDel /\ Nx (link s) z y /\ (y = lo \/ y = hi)))
    as (y & Dy & Ey & Y).
  { destruct (dl s z) eqn:Dz; [|eauto 6]. destruct (listed z e Oz Lz He Dz) as (n & lo & hi & y & T & G & Y & Dy & Ey).
    exists y. split; auto. split; auto. right. exists n, lo, hi. split; auto. split; auto. split; auto.
    destruct (q_blk _ _ _ _ _ _ _ _ LI _ _ _ _ T) as [Hn B]. pose proof (b_nx _ _ _ _ _ _ _ _ _ _ _ B) as N. rewrite G in N. destruct N as [N1 N2].
    assert (Nx (link s) z lo) as M by now constructor. destruct Y as [->| ->]; auto. destruct N2 as [<-|N2]; auto. eapply nx_trans; eauto. now constructor. }
  destruct (Nat.eq_dec c z) as [->|Ne].
  { exists y. split; auto. split; auto. destruct Y as [->|(n & lo & hi & _ & _ & N & _)]; auto. }
  assert (klt k0 (fst e)) as Hlt.
  { destruct (klt_dec leb k0 (fst e)) as [A|A]; auto. exfalso. apply Ne. pose proof (t_anti _ HO _ _ Hk A) as E. rewrite <- E in Oz. eapply on_uniq; eauto; [apply HI|congruence]. }
  destruct (pt_ex leb _ _ _ _ _ _ _ LI c) as [wc Pc]. destruct (pt_ex leb _ _ _ _ _ _ _ LI z) as [wz Pz].
  destruct (q_ord _ _ _ _ _ _ _ _ LI _ _ _ _ _ _ Hlt Oc Oz Lc Lz Pc Pz) as [E|N].
  - subst wz. destruct Pc as [(n & L & lo & T & M)|[-> Pc]].
    + assert (lmem (sg s n) L lo wc z) as Mz.
      { eapply (pt_in leb _ _ _ _ _ _ _ LI); eauto. destruct (sg s n); cbn in M |- *; unfold mem in *; tauto. }
      apply (in_blk n L lo wc c z k0 e); auto; eapply lmem_mem; eauto.
    + exfalso. destruct Pz as [(n & L & lo & T & M)|[-> _]]; [|now apply Ne]. apply (Pc _ _ _ _ T).
      destruct (sg s n); cbn in M |- *; unfold mem in *; tauto.
  - exists y. split; auto. split; auto. left.
    assert (Nx (link s) c wz) as Nc.
    { destruct Pc as [(n & L & lo & T & M)|[-> _]]; auto. destruct (blk_reach leb _ _ _ _ _ _ _ LI _ _ _ _ _ T M) as [->|R]; auto. eapply nx_trans; eauto. }
    destruct Pz as [(n & L & lo & T & M)|[-> Pz]].
    + assert (lmem (sg s n) L lo wz y) as My.
      { destruct Y as [->|(n' & lo' & hi' & T' & G & _ & Y)]; auto.
        destruct (bd leb _ _ _ _ _ _ _ LI _ _ _ _ _ _ _ _ z T T') as (-> & -> & -> & ->); [eapply lmem_mem; eauto|left; auto|].
        rewrite G. cbn. unfold mem. tauto. }
      apply (blk_into leb _ _ _ _ _ _ _ LI _ _ _ _ T); auto.
      intros Mc. assert (Pt (tpf h (sg s)) (sg s) c wz) as Pc'. { left. eauto. }
      pose proof (pt_fun leb _ _ _ _ _ _ _ LI _ _ _ Pc Pc') as ->. now apply (q_acy _ _ _ _ _ _ _ _ LI) in N.
    + destruct Y as [->|(n' & lo' & hi' & T' & G & _ & Y)]; auto. exfalso. apply (Pz _ _ _ _ T'). rewrite G. cbn. left. auto.
Qed.
(** The keys of a leaf reached this way are found in it. *)
Lemma own_keys c k0 j : lvl (h c) = 0 -> On s k0 c -> In j (ents (h c)) -> leb k0 (fst j) = true -> On s (fst j) c.
Proof.
  intros Lc Oc Hj Hk. apply (h_ent _ _ _ _ _ HI); [eexists; eauto|now apply in_map|].
  pose proof (h_wl _ _ _ _ _ HI _ _ Oc) as W. destruct (wlo (h c)) as [m|]; cbn in *; auto.
  destruct (leb (fst j) m) eqn:E; auto. rewrite (t_trans _ HO _ _ _ Hk E) in W. discriminate.
Qed.
Lemma gm_leaf b D x : b <= length (log (tc s)) -> lvl (h x) = 0 -> Gm s b D x -> Fst s b x D.
Proof.
  intros Bl L0 [Hx G].
  assert (forall k (Q : Prop), (Fst s b x D -> Q) -> (forall k0, leb k0 k = true -> On s k0 x -> Q) -> Q) as By.
  { intros k Q Q1 Q2. destruct (G k) as [x k0 A B|x A B C|x z A B C _|x A B C]; eauto; congruence. }
  constructor; [constructor| |]; auto.
  - intros e S. apply (By (fst e)); [intros F; now apply (c_cov _ _ _ _ _ _ (f_cur _ _ _ _ _ F))|]. intros k0 Hk Oc. right.
    destruct (ahead x k0 e L0 Oc Hk (stb_now leb s b e Bl S)) as (y & Y1 & Y2 & Y3). exists y. split; auto. split; auto. destruct Y3; auto.
  - discriminate.
  - intros e n o L m lo hi S J Hc He. apply (By (fst e)); [intros F; now apply (c_vk _ _ _ _ _ _ (f_cur _ _ _ _ _ F) e n o L m lo hi)|]. intros k0 Hk Oc. exfalso.
    destruct J as (J1 & J2 & J3 & J4). destruct (half_dead leb HO h _ _ _ HI (i_f _ _ (proj1 I)) n _ _ _ _ _ ltac:(lia) J2 J3 J4) as [N1 N2].
    assert (Live leb h (root (tc s)) x) as Lv by (eexists; eauto). destruct Hc as [->| ->]; auto.
  - intros e j S Hj Hk. apply (By (fst e)); [intros F; now apply (f_ord _ _ _ _ _ F e j)|]. intros k0 Hk0 Oc. right.
    assert (leb (fst e) (fst j) = true) as Hej by now apply (klt_leb leb HO).
    assert (On s (fst j) x) as Oj by (apply (own_keys x k0); auto; eapply (t_trans _ HO); eauto).
    assert (On s (fst e) x) as Oe by (eapply (conv leb HO) with (k1 := k0) (k3 := fst j); eauto; apply HI).
    apply (get_in' leb HO). rewrite (h_abs1 _ _ _ _ _ HI _ _ Oe L0). now apply (stb_now leb s b).
  - intros e He. apply (By (fst e)); [intros F; now apply (f_pres _ _ _ _ _ F)|]. intros k0 Hk Oc. apply pres_now; auto.
    pose proof (own_keys x k0 e L0 Oc He Hk) as Oe. rewrite <- (h_abs1 _ _ _ _ _ HI _ _ Oe L0). apply (in_get leb HO); auto.
    apply (q_nd _ _ _ _ _ _ _ _ LI).
Qed.
End facts.

(** ** Steps *)
Lemma gm_t s s' b D x : SI s -> SI s' -> TS leb (tc s) (tc s') -> link s' = link s -> dl s' = dl s -> b <= length (log (tc s)) ->
  Gm s b D x -> Gm s' b D x.
Proof.
  intros I I' T El Ed Bl. pose proof (ts_x _ _ _ T) as X.
  remember (lvl (hp (tc s) x)) as d eqn:Hd. revert x Hd. induction d as [d IH] using lt_wf_ind. intros x Hd G. pose proof G as [Hx Gk].
  split; [pose proof (x_f _ _ _ _ _ _ _ X); lia|]. intros k.
  assert (closed (hp (tc s') x) /\ same (hp (tc s') x) (hp (tc s) x) -> Gmk s' b D k x) as Q.
  { intros [C S]. pose proof S as (Sl & Se & Sc & Su). destruct (Nat.eq_dec (lvl (hp (tc s) x)) 0) as [L|L].
    - apply M_leaf; auto; [congruence|]. eapply (fst_t leb HO s s'); eauto. now apply gm_leaf.
    - assert (First (hp (tc s') x) = First (hp (tc s) x)) as Ef by (unfold First; now rewrite Sc, Su).
      destruct (First (hp (tc s) x)) as [z|] eqn:F; [|apply M_none; auto; congruence].
      pose proof (gm_next s I b D x z G F) as Gz.
      assert (lvl (hp (tc s) z) < d) as Lz.
      { assert (In z (kids (hp (tc s) x))) as Hz.
        { clear -F. unfold First in F. unfold kids. destruct (cells (hp (tc s) x)) as [|a r]; cbn in *.
          - destruct (ub (hp (tc s) x)); try discriminate. injection F as <-. cbn. auto.
          - injection F as <-. auto. }
        destruct (kid_lvl leb _ _ _ _ (HIs leb s I) x z Hx Hz) as [Lz _]. lia. }
      apply (M_node _ _ _ _ x z); auto; [congruence|]. now apply (IH _ Lz z eq_refl Gz). }
  destruct (Gk k) as [x k0 A B|x A B C|x z A B C _|x A B C].
  - destruct (x_on _ _ _ _ _ _ _ X k0 x B) as [B'|B']; auto. now apply (M_on _ _ _ _ x k0).
  - apply Q. now apply (x_cl _ _ _ _ _ _ _ X).
  - apply Q. now apply (x_cl _ _ _ _ _ _ _ X).
  - apply Q. now apply (x_cl _ _ _ _ _ _ _ X).
Qed.
Lemma gm_l a s s' b D x : SI s -> lstep a s = Some s' -> Gm s b D x -> Gm s' b D x.
Proof.
  intros I St [Hx G]. pose proof (l_tc _ _ _ St) as Et. split; [now rewrite Et|]. intros k. specialize (G k). clear Hx.
  induction G as [x k0 A B|x A B C|x z A B C Gz IH|x A B C].
  - apply (M_on _ _ _ _ x k0); auto. now rewrite Et.
  - apply M_leaf; rewrite ?Et; auto. eapply fst_l; eauto.
  - apply (M_node _ _ _ _ x z); rewrite ?Et; auto.
  - apply M_none; now rewrite ?Et.
Qed.
End seek.
