(** Consequences of the invariant: every position of a live node is on the way of some key, held
    children are reached only through their holder, and chains of splits. *)
From Coq Require Import List Arith Bool Lia Sorting.Sorted.
From Verif Require Import TcModel TcRoute TcSpec TcInv.
Import ListNotations.

Section tree.
Context {K V : Type} (leb : K -> K -> bool) (HO : tord leb).
Notation heap := (nat -> obj K V).
Notation pos := (pos leb).
Notation nx := (nx leb).
Notation nxt := (nxt leb).
Notation On := (On leb).
Notation Live := (Live leb).
Notation Path := (Path leb).
Notation Rep := (Rep leb).
Notation sel := (sel leb).
Notation wlt := (wlt leb).
Notation Job := (Job leb).
Notation HInv := (HInv leb).
Implicit Types (k s m : K) (x y z u v w c p a lo hi : nat).

Lemma sel_lo m lo hi k : leb k m = true -> sel (Some m) lo hi k = lo.
Proof. cbn. now intros ->. Qed.
Lemma sel_hi om lo hi k : wlt om k -> sel om lo hi k = hi.
Proof. destruct om; cbn; [|reflexivity]. now intros ->. Qed.
Lemma wlt_dec om k : wlt om k \/ exists m, om = Some m /\ leb k m = true.
Proof. destruct om as [m|]; cbn; [|auto]. destruct (leb k m) eqn:E; eauto. Qed.

Context (h : heap) (f : nat) (r : option nat) (lg : list (ev K V)) (HI : HInv h f r lg).
Notation "'on' k x" := (On h r k x) (at level 10, k at level 9, x at level 9).
Notation live := (Live h r).

Lemma nxt_kid x k z : nxt h x k = Some z -> In z (kids (h x)).
Proof. apply in_kids. Qed.
Lemma on_lt k x : on k x -> x < f.
Proof.
  induction 1 as [n Hn|u z Hu IH Hz].
  - now apply (h_root _ _ _ _ _ HI).
  - apply nxt_kid in Hz. now apply (w_kids _ _ _ _ (h_wf _ _ _ _ _ HI u IH)).
Qed.
Lemma live_lt x : live x -> x < f.
Proof. intros [k Hk]. eapply on_lt; eauto. Qed.
Lemma wf k x : on k x -> wfo leb h f x.
Proof. intros H. apply (h_wf _ _ _ _ _ HI), (on_lt _ _ H). Qed.
Lemma wfl x : live x -> wfo leb h f x.
Proof. intros H. apply (h_wf _ _ _ _ _ HI), (live_lt _ H). Qed.
Lemma kid_lvl x z : x < f -> In z (kids (h x)) -> lvl (h x) = S (lvl (h z)) /\ z < f.
Proof. intros Hx Hz. destruct (w_kids _ _ _ _ (h_wf _ _ _ _ _ HI x Hx) z Hz). auto. Qed.
Lemma nxt_lvl k x z : on k x -> nxt h x k = Some z -> lvl (h x) = S (lvl (h z)).
Proof. intros Hx Hz. apply (kid_lvl x z); [eapply on_lt; eauto|]. eapply nxt_kid; eauto. Qed.
Lemma on_root_lvl k x n : on k x -> r = Some n -> lvl (h x) <= lvl (h n).
Proof.
  induction 1 as [n' Hn|u z Hu IH Hz]; intros E.
  - replace n' with n by congruence. lia.
  - specialize (IH E). apply (nxt_lvl k) in Hz; auto. lia.
Qed.
Lemma on_root_ex k x : on k x -> exists n, r = Some n.
Proof. induction 1; eauto. Qed.
Lemma on_top k x n : on k x -> r = Some n -> lvl (h x) = lvl (h n) -> x = n.
Proof.
  destruct 1 as [n' Hn|u z Hu Hz]; intros E; [congruence|].
  pose proof (on_root_lvl _ _ _ Hu E). apply (nxt_lvl k) in Hz; auto. lia.
Qed.
(** One node of every level is on the way of a key. *)
Lemma on_uniq k x : on k x -> forall y, on k y -> lvl (h x) = lvl (h y) -> x = y.
Proof.
  induction 1 as [n Hn|u z Hu IH Hz]; intros y Hy E.
  - symmetry. eapply on_top; eauto.
  - destruct Hy as [n' Hn'|v y Hv Hy].
    + pose proof (on_root_lvl _ _ _ Hu Hn'). apply (nxt_lvl k) in Hz; auto. lia.
    + assert (u = v) as ->.
      { apply IH; auto. apply (nxt_lvl k) in Hz, Hy; auto. lia. }
      congruence.
Qed.
(** The parent of a node on the way of [k]. *)
Lemma on_parent k x z : x < f -> In z (kids (h x)) -> live x -> on k z ->
  exists u, on k u /\ nxt h u k = Some z.
Proof.
  intros Hx Hz [k' Hk'] Ho. destruct Ho as [n Hn|u z Hu Hn]; [|eauto].
  pose proof (on_root_lvl _ _ _ Hk' Hn). destruct (kid_lvl x n Hx Hz). lia.
Qed.
Lemma on_nxt_parent k x z y : on k x -> nxt h x k = Some z -> on k y -> nxt h y k = Some z -> x = y.
Proof.
  intros. eapply on_uniq; eauto.
  assert (lvl (h x) = S (lvl (h z))) by (eapply nxt_lvl; eauto).
  assert (lvl (h y) = S (lvl (h z))) by (eapply nxt_lvl; eauto). lia.
Qed.
Lemma on_below k x y : on k x -> on k y -> lvl (h y) < lvl (h x) -> nxt h x k <> None.
Proof.
  intros Hx Hy. revert x Hx. induction Hy as [n Hn|u z Hu IH Hz]; intros x Hx L.
  - pose proof (on_root_lvl _ _ _ Hx Hn). lia.
  - assert (lvl (h u) = S (lvl (h z))) by (eapply nxt_lvl; eauto).
    destruct (Nat.eq_dec (lvl (h u)) (lvl (h x))) as [E|E].
    + assert (u = x) as <- by (eapply on_uniq; eauto). congruence.
    + apply IH; auto. lia.
Qed.
Lemma no_leaf_abs k x : on k x -> nxt h x k = None -> lvl (h x) <> 0 -> abs leb lg k = None.
Proof.
  intros Hx Hn Hl. destruct (abs leb lg k) eqn:E; [|reflexivity].
  destruct (h_abs2 _ _ _ _ _ HI k) as (y & Hy & Ly); [congruence|].
  exfalso. eapply (on_below k x y); eauto. lia.
Qed.

(** Every position above the ghost bound is on the way of some key. *)
Lemma every_pos x k : live x -> wlt (wlo (h x)) k -> exists k5, on k5 x /\ pos (h x) k5 = pos (h x) k.
Proof.
  intros Hl Hw. destruct (pos (h x) k) as [j|] eqn:E.
  - destruct (route_some leb _ _ _ E) as (e & He & Hj & Hk).
    exists (ckey e). assert (W := w_wfc _ _ _ _ (wfl x Hl)). destruct W as (Hs & Hn & _). split.
    + apply (h_sep _ _ _ _ _ HI); auto; [now apply in_map|].
      destruct (wlo (h x)) as [m|]; cbn in *; [|auto]. kord HO.
    + rewrite pos_rts, (route_key leb HO) by auto. now rewrite Hj.
  - destruct (h_wu _ _ _ _ _ HI x Hl) as (k5 & ? & ? & _). eauto.
Qed.
Lemma every_kid x z : live x -> over (h x) = false -> In z (kids (h x)) ->
  exists k5, on k5 x /\ nxt h x k5 = Some z.
Proof.
  intros Hl Ho Hz. pose proof (wfl x Hl) as W.
  pose proof (w_wlo _ _ _ _ W Ho) as Hw. destruct (w_wfc _ _ _ _ W) as (Hs & Hn & _).
  destruct (kids_ptr _ _ Hn Hz) as [Hp|(e & He & Hc & Hp)].
  - destruct (h_wu _ _ _ _ _ HI x Hl) as (k & Hk & Hkp & _). exists k. split; auto.
    unfold nxt, TcInv.nxt, TcRoute.nx. now rewrite Hkp.
  - exists (ckey e). split.
    + apply (h_sep _ _ _ _ _ HI); auto; [now apply in_map|]. now rewrite Hw.
    + unfold nxt, TcInv.nxt, TcRoute.nx. rewrite pos_rts, (route_key leb HO); auto.
Qed.
Lemma live_kid x z : live x -> over (h x) = false -> In z (kids (h x)) -> live z.
Proof.
  intros Hl Ho Hz. destruct (every_kid x z Hl Ho Hz) as (k & Hk & Hn). exists k.
  eapply On_step; eauto.
Qed.

Lemma jv_active (j : job K) t : jv j = Some t -> active j = true.
Proof. destruct j; cbn; congruence. Qed.
Lemma jv_nd x t : x < f -> jv (jb (h x)) = Some t -> NoDup (kids (h x)).
Proof.
  intros Hx Hj. pose proof (w_nd _ _ _ _ (h_wf _ _ _ _ _ HI x Hx)) as W.
  destruct (jb (h x)); auto. discriminate.
Qed.
Lemma kid_ub x z : x < f -> In z (kids (h x)) -> exists u, ub (h x) = UTo u.
Proof.
  intros Hx Hz. pose proof (w_ub _ _ _ _ (h_wf _ _ _ _ _ HI x Hx)) as W.
  unfold kids in Hz. destruct (ub (h x)) eqn:E; [| |eauto];
    (rewrite W in Hz by congruence; destruct Hz).
Qed.
Lemma act_live x : x < f -> active (jb (h x)) = true -> over (h x) = false ->
  (exists z, In z (kids (h x))) -> live x.
Proof.
  intros Hx Ha Ho [z Hz]. destruct (h_act _ _ _ _ _ HI x Hx Ha Ho) as [?|E]; auto.
  destruct (kid_ub x z Hx Hz). congruence.
Qed.
Lemma job_live x o c om lo hi : x < f -> jv (jb (h x)) = Some (o, c, om, lo, hi) ->
  over (h x) = false -> live x.
Proof.
  intros Hx Hj Ho. pose proof (h_hld _ _ _ _ _ HI _ _ _ _ _ _ Hx Hj) as L.
  apply act_live; auto; [now apply jv_active in Hj|]. exists c. eapply in_kids, l_ptr, L.
Qed.
Lemma held_uniq x y c : held h x c -> held h y c -> x = y.
Proof.
  unfold held. destruct (lvl (h c)); [congruence|].
  intros (? & ? & ? & ? & ? & ? & E1) (? & ? & ? & ? & ? & ? & E2). congruence.
Qed.
Lemma jv_c_lt x o c om lo hi : x < f -> jv (jb (h x)) = Some (o, c, om, lo, hi) ->
  c < f /\ lvl (h x) = S (lvl (h c)).
Proof.
  intros Hx Hj. pose proof (h_hld _ _ _ _ _ HI _ _ _ _ _ _ Hx Hj) as L.
  apply (w_kids _ _ _ _ (h_wf _ _ _ _ _ HI x Hx)). eapply in_kids, l_ptr, L.
Qed.
Lemma nd_pos x o c k : NoDup (kids (h x)) -> ptr (h x) o = Some c -> nxt h x k = Some c -> pos (h x) k = o.
Proof. intros Hn Hp Hk. eapply ptr_inj; eauto. Qed.

(** A held child is reached only through its holder. *)
Lemma up k p o a om lo hi : p < f -> jv (jb (h p)) = Some (o, a, om, lo, hi) ->
  (over (h p) = false \/ over (h a) = true) -> on k a -> on k p /\ pos (h p) k = o /\ nxt h p k = Some a.
Proof.
  intros Hp Hj Hc Hk. pose proof (h_hld _ _ _ _ _ HI _ _ _ _ _ _ Hp Hj) as L.
  pose proof (l_ptr _ _ _ _ _ _ _ _ _ L) as Hptr. pose proof (in_kids _ _ _ Hptr) as Hkid.
  assert (on k p /\ nxt h p k = Some a) as [H1 H2].
  { destruct Hc as [Hc|Hc].
    - pose proof (job_live _ _ _ _ _ _ Hp Hj Hc) as Hl.
      destruct (on_parent k p a Hp Hkid Hl Hk) as (u & Hu & Hn).
      destruct (every_kid p a Hl Hc Hkid) as (k5 & H5 & N5).
      assert (u = p) as -> by (eapply (h_tree _ _ _ _ _ HI); eauto). auto.
    - destruct Hk as [n Hn|u a Hu Hn].
      + apply (h_root _ _ _ _ _ HI) in Hn as (_ & _ & ?). congruence.
      + destruct (h_over _ _ _ _ _ HI _ _ _ Hu Hn Hc) as (o' & om' & lo' & hi' & Hj' & _).
        assert (u < f) as Hlt by (eapply on_lt; eauto).
        pose proof (h_hld _ _ _ _ _ HI _ _ _ _ _ _ Hlt Hj') as L'.
        assert (u = p) as ->; [|auto].
        eapply held_uniq; eapply l_held; eauto. }
  split; [auto|]. split; [|auto]. eapply nd_pos; eauto. eapply jv_nd; eauto.
Qed.

(** Keys that are routed through live nodes stay above the ghost bounds. *)
Lemma grow x k z : live x -> wlt (wlo (h x)) k -> nxt h x k = Some z -> live z /\ wlt (wlo (h z)) k.
Proof.
  intros Hl Hw Hn. destruct (every_pos x k Hl Hw) as (k5 & H5 & E5).
  assert (nxt h x k5 = Some z) as N5.
  { unfold nxt, TcInv.nxt, TcRoute.nx in *. now rewrite E5. }
  assert (on k5 z) as Hz by (eapply On_step; eauto). split; [exists k5; auto|].
  destruct (over (h z)) eqn:Eo.
  - destruct (h_over _ _ _ _ _ HI _ _ _ H5 N5 Eo) as (o & om & lo & hi & Hj & [[E1 E2]|[E1 E2]]).
    + now rewrite <- E2.
    + pose proof (live_lt _ Hl) as Hx.
      pose proof (h_job _ _ _ _ _ HI _ _ _ _ _ _ Hx Hj E1) as J.
      destruct (j_ins _ _ _ _ _ _ _ _ _ J E2) as (A & _ & B). rewrite B. apply A.
      pose proof (h_hld _ _ _ _ _ HI _ _ _ _ _ _ Hx Hj) as L.
      eapply nd_pos; eauto; [eapply jv_nd; eauto|]. eapply l_ptr, L.
  - rewrite (w_wlo _ _ _ _ (wfl z (ex_intro _ k5 Hz)) Eo). exact I.
Qed.

(** ** Chains *)
Lemma chain_full x a : x < f -> Chain h x a -> a < f
  /\ (lvl (h a) = 0 \/ exists o c m lo hi q lns, jb (h a) = Full o c m lo hi (Some q) lns)
  /\ lvl (h a) < lvl (h x).
Proof.
  intros Hx. assert (forall p o a om lo hi, p < f -> jv (jb (h p)) = Some (o, a, om, lo, hi) ->
    a < f /\ (lvl (h a) = 0 \/ exists o c m lo hi q lns, jb (h a) = Full o c m lo hi (Some q) lns)
    /\ lvl (h a) < lvl (h p)) as Hs.
  { intros p o a' om lo hi Hp Hj. destruct (jv_c_lt _ _ _ _ _ _ Hp Hj). split; auto. split; [|lia].
    pose proof (l_held _ _ _ _ _ _ _ _ _ (h_hld _ _ _ _ _ HI _ _ _ _ _ _ Hp Hj)) as Hh.
    unfold held in Hh. destruct (lvl (h a')); [now left|right].
    destruct Hh as (? & ? & ? & ? & ? & ? & E). eauto 10. }
  induction 1 as [o c om lo hi Hj|a o c om lo hi Hc IH Hj].
  - eapply Hs; eauto.
  - destruct IH as (Ha & _ & Hl). destruct (Hs _ _ _ _ _ _ Ha Hj) as (? & ? & ?).
    split; auto. split; auto. lia.
Qed.
Lemma chain_top x a : x < f -> Chain h x a ->
  exists p o om lo hi, (p = x \/ Chain h x p) /\ p < f /\ jv (jb (h p)) = Some (o, a, om, lo, hi).
Proof.
  intros Hx [o c om lo hi Hj|p o c om lo hi Hc Hj].
  - exists x. eauto 10.
  - exists p. destruct (chain_full x p Hx Hc). eauto 10.
Qed.
Lemma chain_jv_eq p o a om lo hi q o' om' lo' hi' : p < f -> q < f ->
  jv (jb (h p)) = Some (o, a, om, lo, hi) -> jv (jb (h q)) = Some (o', a, om', lo', hi') -> p = q.
Proof.
  intros Hp Hq H1 H2. eapply held_uniq; eapply l_held; eapply (h_hld _ _ _ _ _ HI); eauto.
Qed.
Definition nofull x : Prop := match jb (h x) with Full _ _ _ _ _ _ _ => False | _ => True end.
Lemma chain_no_top x y : x < f -> nofull y -> lvl (h y) <> 0 -> ~ Chain h x y.
Proof.
  intros Hx Hn Hl Hc. destruct (chain_full x y Hx Hc) as (_ & [?|(? & ? & ? & ? & ? & ? & ? & E)] & _);
    [lia|]. unfold nofull in Hn. now rewrite E in Hn.
Qed.
(** Chains with a common node: one of the tops is in the chain of the other. *)
Lemma chain_meet x y a : x < f -> y < f -> Chain h x a -> Chain h y a ->
  x = y \/ Chain h x y \/ Chain h y x.
Proof.
  intros Hx Hy H1. induction H1 as [o c om lo hi Hj|a o c om lo hi Hc IH Hj]; intros H2.
  - destruct (chain_top _ _ Hy H2) as (q & o' & om' & lo' & hi' & Hq & Hlt & Hj').
    assert (x = q) as -> by (eapply chain_jv_eq; eauto). destruct Hq; auto.
  - destruct (chain_top _ _ Hy H2) as (q & o' & om' & lo' & hi' & Hq & Hlt & Hj').
    destruct (chain_full _ _ Hx Hc) as (Ha & _).
    assert (a = q) as -> by (eapply chain_jv_eq; eauto).
    destruct Hq as [->|Hq]; auto.
Qed.
Lemma path_chain x k p : Path h x k p -> p = x \/ Chain h x p.
Proof.
  induction 1 as [|p o a om lo hi Hp IH Hj Ho]; [now left|right].
  destruct IH as [->|IH]; [eapply C1; eauto|eapply C2; eauto].
Qed.
Lemma path_lt x k p : x < f -> Path h x k p -> p < f.
Proof. intros Hx Hp. destruct (path_chain _ _ _ Hp) as [->|Hc]; auto. eapply chain_full; eauto. Qed.
Lemma rep_chain x k p a u : Rep h x k p a u -> Chain h x a.
Proof.
  intros (Hp & o & om & lo & hi & Hj & _). destruct (path_chain _ _ _ Hp) as [->|Hc];
    [eapply C1; eauto|eapply C2; eauto].
Qed.
Lemma rep_own x k p a u : x < f -> Rep h x k p a u ->
  own (h u) = p /\ lvl (h u) = lvl (h a) /\ u < f /\ a < f /\ p < f /\ lvl (h p) = S (lvl (h a)).
Proof.
  intros Hx (Hp & o & om & lo & hi & Hj & _ & ->). pose proof (path_lt _ _ _ Hx Hp) as Hlt.
  pose proof (h_hld _ _ _ _ _ HI _ _ _ _ _ _ Hlt Hj) as L.
  destruct (jv_c_lt _ _ _ _ _ _ Hlt Hj).
  unfold sel, TcInv.sel. destruct om as [m|]; [destruct (leb k m)|]; repeat split; auto; apply L.
Qed.
(** Same replacement, same replacements above. *)
Definition jsel p k : option nat :=
  match jv (jb (h p)) with Some (_, _, om, lo, hi) => Some (sel om lo hi k) | None => None end.
Lemma link x k1 p : x < f -> Path h x k1 p -> forall k2, Path h x k2 p ->
  jv (jb (h p)) <> None -> pos (h p) k1 = pos (h p) k2 -> jsel p k1 = jsel p k2 -> jsel x k1 = jsel x k2.
Proof.
  intros Hx. induction 1 as [|p o a om lo hi Hp IH Hj Ho]; intros k2 H2 Hja Hpos Hs; [auto|].
  pose proof (path_lt _ _ _ Hx Hp) as Hlt.
  destruct (jv_c_lt _ _ _ _ _ _ Hlt Hj) as [Ha _].
  assert (Path h x k2 p /\ pos (h p) k2 = o) as [H2p Ho2].
  { inversion H2 as [|p' o' a' om' lo' hi' Hp' Hj' Ho' E].
    - subst a. exfalso. destruct (path_chain _ _ _ Hp) as [->|Hc].
      + destruct (jv_c_lt _ _ _ _ _ _ Hx Hj) as [_ ?]. lia.
      + destruct (chain_full _ _ Hx Hc) as (_ & _ & ?). destruct (jv_c_lt _ _ _ _ _ _ Hlt Hj). lia.
    - subst a'. assert (p = p') as <-.
      { pose proof (path_lt _ _ _ Hx Hp'). eapply chain_jv_eq; eauto. }
      split; auto. congruence. }
  apply IH; auto; [congruence|congruence|].
  unfold jsel. rewrite Hj. f_equal. unfold sel, TcInv.sel. destruct om as [m|]; [|reflexivity].
  pose proof (h_hld _ _ _ _ _ HI _ _ _ _ _ _ Hlt Hj) as L.
  destruct (jv (jb (h a))) as [[[[[oa ca] oma] loa] hia]|] eqn:Hja'; [|congruence].
  pose proof (h_hld _ _ _ _ _ HI _ _ _ _ _ _ Ha Hja') as La.
  destruct (w_wfc _ _ _ _ (h_wf _ _ _ _ _ HI a Ha)) as (Ws & Wn & _).
  unfold jsel in Hs. rewrite Hja' in Hs. injection Hs as Hs.
  assert (forall k1 k2, pos (h a) k1 = pos (h a) k2 -> sel oma loa hia k1 = sel oma loa hia k2 ->
    leb k1 m = true -> leb k2 m = false -> False) as Hx'.
  { clear -HO L La Hja' Ws Wn. intros k1 k2 Hpos Hs E1 E2.
    destruct (l_sep _ _ _ _ _ _ _ _ _ L m _ _ _ _ _ eq_refl Hja') as [Hi|Hm].
    - exact (route_sep leb HO (cells (h a)) m k1 k2 Ws Wn Hi E1 E2 Hpos).
    - subst oma. cbn in Hs. rewrite E1, E2 in Hs. apply (l_neq _ _ _ _ _ _ _ _ _ La); congruence. }
  destruct (leb k1 m) eqn:E1, (leb k2 m) eqn:E2; auto; exfalso;
    [exact (Hx' k1 k2 Hpos Hs E1 E2)|exact (Hx' k2 k1 (eq_sym Hpos) (eq_sym Hs) E2 E1)].
Qed.

(** Below a top that is not replaced, nothing is replaced. *)
Lemma job_c_over x o c om lo hi : x < f -> jv (jb (h x)) = Some (o, c, om, lo, hi) ->
  over (h x) = false -> isIns (jb (h x)) = false -> over (h c) = false.
Proof.
  intros Hx Hj Ho Hi. destruct (over (h c)) eqn:E; auto. exfalso.
  pose proof (h_job _ _ _ _ _ HI _ _ _ _ _ _ Hx Hj Ho) as J.
  destruct (j_w _ _ _ _ _ _ _ _ _ J) as (k0 & H0 & _).
  destruct (up k0 _ _ _ _ _ _ Hx Hj (or_introl Ho) H0) as (H1 & H2 & H3).
  destruct (h_over _ _ _ _ _ HI _ _ _ H1 H3 E) as (o' & om' & lo' & hi' & Hj' & [[? _]|[_ ?]]); congruence.
Qed.
Lemma chain_not_over x a : x < f -> over (h x) = false -> isIns (jb (h x)) = false -> Chain h x a ->
  over (h a) = false.
Proof.
  intros Hx Ho Hi. induction 1 as [o c om lo hi Hj|a o c om lo hi Hc IH Hj].
  - eapply job_c_over; eauto.
  - destruct (chain_full x a Hx Hc) as (Ha & [Hl|(? & ? & ? & ? & ? & ? & ? & E)] & _).
    + destruct (w_leaf _ _ _ _ (h_wf _ _ _ _ _ HI a Ha) Hl) as (_ & _ & E). rewrite E in Hj. discriminate.
    + eapply job_c_over; eauto. now rewrite E.
Qed.
Lemma chain_over x a : x < f -> over (h x) = false -> isIns (jb (h x)) = true -> Chain h x a ->
  over (h a) = true.
Proof.
  intros Hx Ho Hi. induction 1 as [o c om lo hi Hj|a o c om lo hi Hc IH Hj].
  - eapply j_ins; eauto. eapply (h_job _ _ _ _ _ HI); eauto.
  - eapply l_over; eauto. eapply (h_hld _ _ _ _ _ HI); eauto. eapply chain_full; eauto.
Qed.
(** A live node of a chain is reached through the chain. *)
Lemma up_chain x a k : x < f -> over (h x) = false -> Chain h x a -> on k a ->
  exists p u, Rep h x k p a u /\ on k p /\ on k x.
Proof.
  intros Hx Ho Hc. revert k. induction Hc as [o c om lo hi Hj|a o c om lo hi Hc IH Hj]; intros k Hk.
  - destruct (up k _ _ _ _ _ _ Hx Hj (or_introl Ho) Hk) as (H1 & H2 & H3).
    exists x, (sel om lo hi k). split; [|auto]. split; [apply P0|]. exists o, om, lo, hi. auto.
  - destruct (chain_full x a Hx Hc) as (Ha & _ & _).
    assert (on k a /\ pos (h a) k = o) as [H1 H2].
    { destruct (isIns (jb (h x))) eqn:Ei.
      - destruct (up k _ _ _ _ _ _ Ha Hj) as (? & ? & ?); auto.
        right. apply (chain_over x c); auto. eapply C2; eauto.
      - destruct (up k _ _ _ _ _ _ Ha Hj) as (? & ? & ?); auto.
        left. apply (chain_not_over x a); auto. }
    destruct (IH k H1) as (p & u & (Hp & o' & om' & lo' & hi' & Hj' & Ho' & _) & Hkp & Hkx).
    exists a, (sel om lo hi k). split; [|auto]. split.
    + eapply PS; eauto.
    + exists o, om, lo, hi. auto.
Qed.
Lemma chain_live x a : x < f -> over (h x) = false -> Chain h x a -> live a \/ over (h a) = true.
Proof.
  intros Hx Ho Hc. destruct (isIns (jb (h x))) eqn:Ei; [right; now apply (chain_over x)|left].
  destruct (chain_top x a Hx Hc) as (p & o & om & lo & hi & Hp & Hl & Hj).
  assert (over (h p) = false) as Op by (destruct Hp as [->|Hp]; [auto|now apply (chain_not_over x)]).
  destruct (j_w _ _ _ _ _ _ _ _ _ (h_job _ _ _ _ _ HI _ _ _ _ _ _ Hl Hj Op)) as (k0 & H0 & _).
  now exists k0.
Qed.
Lemma chain_wlo x o c om lo hi a k : x < f -> over (h x) = false ->
  jv (jb (h x)) = Some (o, c, om, lo, hi) -> Chain h x a -> on k a ->
  wlo (h a) = if isIns (jb (h x)) then om else None.
Proof.
  intros Hx Ho Hj Hc. destruct (isIns (jb (h x))) eqn:Ei.
  - revert k. induction Hc as [o1 c1 om1 lo1 hi1 Hj1|a o1 c1 om1 lo1 hi1 Hc IH Hj1]; intros k Hk.
    + replace c1 with c by congruence. eapply j_ins; eauto. eapply (h_job _ _ _ _ _ HI); eauto.
    + destruct (chain_full x a Hx Hc) as (Ha & _ & _).
      assert (over (h c1) = true) as Oc by (apply (chain_over x c1); auto; eapply C2; eauto).
      destruct (up k _ _ _ _ _ _ Ha Hj1 (or_intror Oc) Hk) as (H1 & H2 & H3).
      destruct (h_over _ _ _ _ _ HI _ _ _ H1 H3 Oc) as (o2 & om2 & lo2 & hi2 & J2 & [[A B]|[A B]]).
      * rewrite <- B. eauto.
      * rewrite (chain_over x a) in A by auto. discriminate.
  - intros Hk. apply (w_wlo _ _ _ _ (wf k a Hk)). now apply (chain_not_over x).
Qed.
(** The separating key of a job is on the way to the child. *)
Lemma mid_c x o c m lo hi : x < f -> jv (jb (h x)) = Some (o, c, Some m, lo, hi) ->
  isIns (jb (h x)) = false -> live x -> wlt (wlo (h x)) m -> on m x /\ on m c /\ pos (h x) m = o.
Proof.
  intros Hx Hj Hi Hl Hw. pose proof (h_mid _ _ _ _ _ HI _ _ _ _ _ _ Hx Hj Hi Hl Hw) as Hm.
  pose proof (h_hld _ _ _ _ _ HI _ _ _ _ _ _ Hx Hj) as L.
  pose proof (l_pos _ _ _ _ _ _ _ _ _ L Hi m eq_refl) as Hp.
  split; auto. split; auto. eapply On_step; eauto. unfold nxt, TcInv.nxt, TcRoute.nx. rewrite Hp. apply L.
Qed.
(** Keys at the same position away from the job are on the same side. *)
Lemma side_pos p o a om lo hi oa ca oma loa hia k1 k2 : p < f ->
  jv (jb (h p)) = Some (o, a, om, lo, hi) -> jv (jb (h a)) = Some (oa, ca, oma, loa, hia) ->
  isIns (jb (h a)) = false -> pos (h a) k1 = pos (h a) k2 -> pos (h a) k1 <> oa ->
  sel om lo hi k1 = sel om lo hi k2.
Proof.
  intros Hp Hj Hja Hi Hpos Hne. destruct om as [m|]; [|reflexivity].
  pose proof (h_hld _ _ _ _ _ HI _ _ _ _ _ _ Hp Hj) as L.
  destruct (jv_c_lt _ _ _ _ _ _ Hp Hj) as [Ha _].
  pose proof (h_hld _ _ _ _ _ HI _ _ _ _ _ _ Ha Hja) as La.
  destruct (w_wfc _ _ _ _ (h_wf _ _ _ _ _ HI a Ha)) as (Ws & Wn & _).
  assert (forall k1 k2, pos (h a) k1 = pos (h a) k2 -> pos (h a) k1 <> oa ->
    leb k1 m = true -> leb k2 m = false -> False) as X.
  { clear -HO L La Hja Ws Wn Hi. intros k1 k2 Hpos Hne E1 E2.
    destruct (l_sep _ _ _ _ _ _ _ _ _ L m _ _ _ _ _ eq_refl Hja) as [Hs|Hm].
    - exact (route_sep leb HO (cells (h a)) m k1 k2 Ws Wn Hs E1 E2 Hpos).
    - apply Hne. rewrite <- (l_pos _ _ _ _ _ _ _ _ _ La Hi m Hm). symmetry.
      apply (route_between leb HO (cells (h a)) k1 m k2 Ws Wn Hpos E1). kord HO. }
  cbn. destruct (leb k1 m) eqn:E1, (leb k2 m) eqn:E2; auto; exfalso;
    [exact (X k1 k2 Hpos Hne E1 E2)|exact (X k2 k1 (eq_sym Hpos) (ltac:(congruence)) E2 E1)].
Qed.
End tree.
