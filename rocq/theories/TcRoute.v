(** Facts about routing by the children of a node: positions, inserted, removed and replaced
    children, and the two halves of a node. *)
From Coq Require Import List Arith Bool Lia Sorting.Sorted.
From Verif Require Import TcModel.
Import ListNotations.

(** A total order. *)
Record tord {K} (leb : K -> K -> bool) : Prop := {
  t_total : forall a b, leb a b = true \/ leb b a = true;
  t_trans : forall a b c, leb a b = true -> leb b c = true -> leb a c = true;
  t_anti : forall a b, leb a b = true -> leb b a = true -> a = b }.

Section route.
Context {K V : Type} (leb : K -> K -> bool) (HO : tord leb).
Implicit Types (a b k s m : K) (x : obj K V) (cs : list (cell K)).

Lemma leb_refl k : leb k k = true.
Proof. destruct (t_total _ HO k k); auto. Qed.
Lemma leb_flip a b : leb a b = false -> leb b a = true.
Proof. destruct (t_total _ HO a b); congruence. Qed.
Lemma keqb_refl k : keqb leb k k = true.
Proof. unfold keqb. now rewrite leb_refl. Qed.
Lemma keqb_eq a b : keqb leb a b = true -> a = b.
Proof. unfold keqb. rewrite andb_true_iff. intros [? ?]. now apply (t_anti _ HO). Qed.
Lemma keqb_neq a b : a <> b -> keqb leb a b = false.
Proof. intros. destruct (keqb leb a b) eqn:E; auto. now apply keqb_eq in E. Qed.
Lemma keq_dec a b : a = b \/ a <> b.
Proof.
  destruct (keqb leb a b) eqn:E; [left; now apply keqb_eq|right; intros ->].
  rewrite keqb_refl in E. congruence.
Qed.
End route.

(** Solve a goal about the order. *)
Ltac kflip HO :=
  repeat match goal with
  | H : ?leb ?a ?b = false |- _ =>
      lazymatch goal with
      | _ : leb b a = true |- _ => fail
      | _ => pose proof (leb_flip leb HO a b H)
      end
  end.
Ltac ktr HO :=
  repeat match goal with
  | H : ?leb ?a ?b = true, H' : ?leb ?b ?c = true |- _ =>
      lazymatch goal with
      | _ : leb a c = true |- _ => fail
      | _ => pose proof (t_trans leb HO a b c H H')
      end
  end.
Ltac kcontra := match goal with
  | H : ?leb ?a ?b = false, H' : ?leb ?a ?b = true |- _ => exfalso; congruence
  end.
Ltac kord HO :=
  try match goal with
  | |- ?leb ?a ?b = true => let E := fresh in destruct (leb a b) eqn:E; [reflexivity|exfalso]
  | |- ?leb ?a ?b = false => let E := fresh in destruct (leb a b) eqn:E; [exfalso|reflexivity]
  | |- ?a <> ?b => let E := fresh in intro E; try subst a; try subst b
  end;
  repeat match goal with
  | H : ?leb ?a ?a = false |- _ => exfalso; pose proof (leb_refl leb HO a); congruence
  end;
  kflip HO; ktr HO; try kcontra;
  try match goal with
  | |- ?a = ?b => apply (t_anti _ HO); assumption
  | H : ?leb ?a ?a = false |- _ => exfalso; pose proof (leb_refl leb HO a); congruence
  end.

Section route2.
Context {K V : Type} (leb : K -> K -> bool) (HO : tord leb).
Implicit Types (k s m : K) (x : obj K V) (cs : list (cell K)).
Local Notation pos := (pos leb).
Local Notation route := (route leb).

Definition rts cs : list (K * nat) := map (fun e => (ckey e, cslot e)) cs.
Definition keys cs : list K := map ckey cs.
Definition slots cs : list nat := map cslot cs.
Definition childs cs : list nat := map cchild cs.
Definition kids x : list nat :=
  childs (cells x) ++ match ub x with UTo c => [c] | _ => [] end.
Definition klt a b := leb b a = false.
Definition srt cs := StronglySorted klt (keys cs).

(** Well-formed children. *)
Definition wfc cs (n : nat) : Prop :=
  srt cs /\ NoDup (slots cs) /\ (forall j, In j (slots cs) -> j < n).

Lemma pos_rts x k : pos x k = route (rts (cells x)) k.
Proof. reflexivity. Qed.

Lemma srt_cons e cs : srt (e :: cs) <-> srt cs /\ forall s, In s (keys cs) -> klt (ckey e) s.
Proof.
  unfold srt; cbn. split.
  - intros H. inversion H; subst. now rewrite Forall_forall in *.
  - intros [? ?]. constructor; auto. now rewrite Forall_forall.
Qed.

Lemma route_some cs k j : route (rts cs) k = PSlot j ->
  exists e, In e cs /\ cslot e = j /\ leb k (ckey e) = true.
Proof.
  induction cs as [|e cs IH]; cbn; [discriminate|].
  destruct (leb k (ckey e)) eqn:E.
  - intros [= <-]. exists e. auto.
  - intros H. destruct (IH H) as (e' & ? & ? & ?). exists e'. auto.
Qed.
Lemma route_slot_in cs k j : route (rts cs) k = PSlot j -> In j (slots cs).
Proof. intros H. destruct (route_some _ _ _ H) as (e & ? & <- & _). now apply in_map. Qed.

(** The key of a slot is routed to the slot. *)
Lemma route_key cs e : srt cs -> In e cs -> route (rts cs) (ckey e) = PSlot (cslot e).
Proof.
  induction cs as [|a cs IH]; cbn; [tauto|]. intros Hs Hi.
  apply srt_cons in Hs as [Hs Hl].
  destruct Hi as [->|Hi]; [now rewrite (leb_refl _ HO)|].
  rewrite (Hl (ckey e)); [auto|]. now apply in_map.
Qed.

(** Positions are monotone: keys between two keys of a position have that position. *)
Lemma route_ub_mono cs k1 k2 : route (rts cs) k1 = PUb -> leb k1 k2 = true -> route (rts cs) k2 = PUb.
Proof.
  induction cs as [|a cs IH]; cbn; [auto|]. destruct (leb k1 (ckey a)) eqn:E; [discriminate|].
  intros. assert (leb k2 (ckey a) = false) as -> by kord HO. auto.
Qed.
Lemma route_ub_keys cs k : route (rts cs) k = PUb <-> (forall s, In s (keys cs) -> leb k s = false).
Proof.
  induction cs as [|a cs IH]; cbn; [tauto|]. destruct (leb k (ckey a)) eqn:E.
  - split; [discriminate|]. intros H. rewrite H in E; auto; discriminate.
  - rewrite IH. split; [intros H s [<-|?]; auto|intros H s ?; auto].
Qed.
Lemma route_between cs k1 k k2 : srt cs -> NoDup (slots cs) ->
  route (rts cs) k1 = route (rts cs) k2 -> leb k1 k = true -> leb k k2 = true ->
  route (rts cs) k = route (rts cs) k1.
Proof.
  induction cs as [|a cs IH]; cbn; [auto|]. intros Hs Hn.
  apply srt_cons in Hs as [Hs Hl]. inversion Hn; subst.
  destruct (leb k1 (ckey a)) eqn:E1; destruct (leb k2 (ckey a)) eqn:E2; intros.
  - assert (leb k (ckey a) = true) as -> by kord HO. auto.
  - symmetry in H. apply route_slot_in in H. contradiction.
  - exfalso. kord HO.
  - assert (leb k (ckey a) = false) as -> by kord HO. auto.
Qed.
(** A key of the node separates positions. *)
Lemma route_sep cs s k1 k2 : srt cs -> NoDup (slots cs) -> In s (keys cs) ->
  leb k1 s = true -> leb k2 s = false -> route (rts cs) k1 <> route (rts cs) k2.
Proof.
  induction cs as [|a cs IH]; cbn; [tauto|]. intros Hs Hn Hi H1 H2.
  apply srt_cons in Hs as [Hs Hl]. inversion Hn; subst.
  destruct Hi as [<-|Hi].
  - rewrite H1, H2. intros Heq. symmetry in Heq. now apply route_slot_in in Heq.
  - pose proof (Hl s Hi) as L. unfold klt in L.
    assert (leb k2 (ckey a) = false) as -> by kord HO.
    destruct (leb k1 (ckey a)) eqn:E1; [|eauto].
    intros Heq. symmetry in Heq. now apply route_slot_in in Heq.
Qed.

(** Children by slots. *)
Lemma sc_in cs j c : slot_child cs j = Some c -> exists e, In e cs /\ cslot e = j /\ cchild e = c.
Proof.
  induction cs as [|a cs IH]; cbn; [discriminate|]. destruct (cslot a =? j) eqn:E.
  - intros [= <-]. apply Nat.eqb_eq in E. exists a; auto.
  - intros H. destruct (IH H) as (e & ? & ? & ?). exists e; auto.
Qed.
Lemma sc_of cs e : NoDup (slots cs) -> In e cs -> slot_child cs (cslot e) = Some (cchild e).
Proof.
  induction cs as [|a cs IH]; cbn; [tauto|]. intros Hn Hi. inversion Hn; subst.
  destruct Hi as [->|Hi]; [now rewrite Nat.eqb_refl|].
  destruct (cslot a =? cslot e) eqn:E; [|auto].
  apply Nat.eqb_eq in E. exfalso. apply H1. rewrite E. now apply in_map.
Qed.
Lemma sc_none cs j : slot_child cs j = None <-> ~ In j (slots cs).
Proof.
  induction cs as [|a cs IH]; cbn; [tauto|]. destruct (cslot a =? j) eqn:E.
  - apply Nat.eqb_eq in E. split; [discriminate|tauto].
  - apply Nat.eqb_neq in E. tauto.
Qed.

Lemma in_kids x o c : ptr x o = Some c -> In c (kids x).
Proof.
  unfold kids. rewrite in_app_iff. destruct o as [j|]; cbn.
  - intros H. left. apply sc_in in H as (e & ? & ? & <-). now apply in_map.
  - intros H. right. destruct (ub x); cbn in H; try discriminate. injection H as ->. now left.
Qed.
Lemma kids_ptr x c : NoDup (slots (cells x)) -> In c (kids x) ->
  ptr x PUb = Some c \/ exists e, In e (cells x) /\ cchild e = c /\ ptr x (PSlot (cslot e)) = Some c.
Proof.
  unfold kids. rewrite in_app_iff. intros Hn [Hi|Hi].
  - right. apply in_map_iff in Hi as (e & <- & Hi). exists e. cbn. now rewrite sc_of.
  - left. cbn. destruct (ub x); cbn in *; tauto || (destruct Hi as [->|[]]; reflexivity).
Qed.
(** With different children, a child determines its position. *)
Lemma ptr_inj x o1 o2 c : NoDup (kids x) -> ptr x o1 = Some c -> ptr x o2 = Some c -> o1 = o2.
Proof.
  unfold kids. intros Hn H1 H2.
  assert (forall j, slot_child (cells x) j = Some c -> uto (ub x) = Some c -> False) as Hx.
  { intros j Hj Hu. apply sc_in in Hj as (e & Hi & _ & <-).
    destruct (ub x); cbn in Hu; try discriminate. injection Hu as ->.
    apply NoDup_remove_2 in Hn. apply Hn. rewrite app_nil_r. now apply in_map. }
  destruct o1 as [j1|], o2 as [j2|]; cbn in *; try (exfalso; eauto; fail); [|reflexivity].
  f_equal. assert (NoDup (childs (cells x))) as Hn'.
  { clear -Hn. induction (childs (cells x)) as [|a l IH]; constructor; cbn in Hn; inversion Hn; subst; auto.
    intros ?. apply H1. apply in_or_app; auto. }
  apply sc_in in H1 as (e1 & I1 & <- & C1). apply sc_in in H2 as (e2 & I2 & <- & C2).
  assert (e1 = e2) as ->; [|reflexivity]. clear Hx Hn.
  induction (cells x) as [|a l IH]; [destruct I1|]. cbn in Hn'. inversion Hn'; subst.
  destruct I1 as [<-|I1], I2 as [<-|I2]; auto.
  - exfalso. apply H1. rewrite <- C2. now apply in_map.
  - exfalso. apply H1. rewrite C2. now apply in_map.
Qed.

(** ** Storing a child pointer *)
Definition nx x k : option nat := ptr x (pos x k).

Lemma set_ptr_rts x o c : rts (cells (set_ptr x o c)) = rts (cells x).
Proof.
  destruct o as [j|]; cbn; [|reflexivity]. unfold rts. rewrite map_map. apply map_ext.
  intros [s [i d]]; cbn. now destruct (i =? j).
Qed.
Lemma set_ptr_keys x o c : keys (cells (set_ptr x o c)) = keys (cells x).
Proof.
  destruct o as [j|]; cbn; [|reflexivity]. unfold keys. rewrite map_map. apply map_ext.
  intros [s [i d]]; cbn. now destruct (i =? j).
Qed.
Lemma set_ptr_slots x o c : slots (cells (set_ptr x o c)) = slots (cells x).
Proof.
  destruct o as [j|]; cbn; [|reflexivity]. unfold slots. rewrite map_map. apply map_ext.
  intros [s [i d]]; cbn. now destruct (i =? j).
Qed.
Lemma set_ptr_pos x o c k : pos (set_ptr x o c) k = pos x k.
Proof. rewrite !pos_rts, set_ptr_rts. reflexivity. Qed.

Definition lpos_eqb (a b : lpos) : bool :=
  match a, b with PUb, PUb => true | PSlot i, PSlot j => i =? j | _, _ => false end.
Lemma lpos_eqb_eq a b : lpos_eqb a b = true <-> a = b.
Proof.
  destruct a, b; cbn; split; try discriminate; auto.
  - now intros ->%Nat.eqb_eq.
  - intros [= ->]. apply Nat.eqb_refl.
Qed.
Lemma lpos_eqb_neq a b : lpos_eqb a b = false <-> a <> b.
Proof. rewrite <- not_true_iff_false, lpos_eqb_eq. tauto. Qed.

Lemma set_ptr_ptr x o c d o' : ptr x o = Some d ->
  ptr (set_ptr x o c) o' = if lpos_eqb o' o then Some c else ptr x o'.
Proof.
  destruct o as [j|]; cbn; intros Hd.
  - destruct o' as [i|]; cbn; [|reflexivity].
    revert Hd. induction (cells x) as [|[s [a b]] l IH]; cbn; [discriminate|].
    destruct (a =? j) eqn:Ej; cbn.
    + apply Nat.eqb_eq in Ej. subst a. intros _.
      destruct (j =? i) eqn:Ei.
      * apply Nat.eqb_eq in Ei. subst. now rewrite Nat.eqb_refl.
      * rewrite (Nat.eqb_sym i j), Ei.
        clear -Ei. induction l as [|[s' [a' b']] l IH]; cbn; [reflexivity|].
        destruct (a' =? j) eqn:E; cbn; destruct (a' =? i) eqn:E2; auto.
        apply Nat.eqb_eq in E, E2. subst. rewrite Nat.eqb_refl in Ei. discriminate.
    + intros Hd. unfold cslot; cbn. destruct (a =? i) eqn:Ei; [|auto].
      apply Nat.eqb_eq in Ei. subst. now rewrite Ej.
  - destruct o' as [i|]; reflexivity.
Qed.
Lemma set_ptr_nx x o c d k : ptr x o = Some d ->
  nx (set_ptr x o c) k = if lpos_eqb (pos x k) o then Some c else nx x k.
Proof. intros. unfold nx. rewrite set_ptr_pos. now apply set_ptr_ptr with d. Qed.
Lemma set_ptr_kids x o c d : ptr x o = Some d -> ~ In c (kids x) -> NoDup (kids x) ->
  NoDup (slots (cells x)) -> NoDup (kids (set_ptr x o c)).
Proof.
  unfold kids. destruct o as [j|]; cbn.
  - set (u := match ub x with UTo c => [c] | _ => [] end). intros Hd Hi Hn Hs.
    assert (map cchild (map (fun e : cell K => if cslot e =? j then (ckey e, (cslot e, c)) else e)
      (cells x)) = map (fun e => if cslot e =? j then c else cchild e) (cells x)) as ->.
    { unfold childs. rewrite map_map. apply map_ext. intros e. now destruct (cslot e =? j). }
    clear Hd. revert Hi Hn Hs. induction (cells x) as [|a l IH]; cbn; [auto|].
    intros Hi Hn Hs. inversion Hn; subst. inversion Hs; subst.
    destruct (cslot a =? j) eqn:E.
    + apply Nat.eqb_eq in E. subst j.
      assert (map (fun e : cell K => if cslot e =? cslot a then c else cchild e) l = childs l) as Hl.
      { unfold childs. apply map_ext_in. intros e He. destruct (cslot e =? cslot a) eqn:E'; auto.
        apply Nat.eqb_eq in E'. exfalso. apply H3. rewrite <- E'. now apply in_map. }
      rewrite Hl. constructor; auto.
    + constructor; [|apply IH; auto].
      rewrite in_app_iff in *. intros [Hx|Hx]; [|tauto].
      apply in_map_iff in Hx as (e & Hx & He). destruct (cslot e =? j).
      * subst c. apply Hi. now left.
      * apply H1. left. rewrite <- Hx. now apply in_map.
  - intros Hd Hi Hn Hs. destruct (ub x) as [| |u]; cbn in *; try discriminate.
    injection Hd as ->. rewrite in_app_iff in Hi.
    apply NoDup_remove in Hn as [Hn _]. rewrite app_nil_r in Hn.
    change (NoDup (childs (cells x) ++ [c])).
    clear Hs. revert Hi. induction (childs (cells x)) as [|a l IH]; intros Hi; cbn.
    + repeat constructor. auto.
    + inversion Hn; subst. cbn in Hi. constructor; [|apply IH; auto; tauto].
      rewrite in_app_iff. cbn. intros [?|[->|[]]]; tauto.
Qed.
Lemma set_ptr_in_kids x o c y : In y (kids (set_ptr x o c)) -> y = c \/ In y (kids x).
Proof.
  unfold kids. rewrite !in_app_iff. destruct o as [j|]; cbn.
  - intros [Hi|Hi]; [|tauto]. unfold childs in Hi. rewrite map_map in Hi.
    apply in_map_iff in Hi as (e & <- & He). destruct (cslot e =? j); cbn; auto.
    right. left. now apply in_map.
  - intros [Hi|[->|[]]]; auto.
Qed.

(** ** Inserting a child *)
Lemma ins_in e cs a : In a (ins_cell leb e cs) <-> a = e \/ In a cs.
Proof.
  induction cs as [|b cs IH]; cbn; [intuition congruence|].
  destruct (leb (ckey e) (ckey b)); cbn; rewrite ?IH; intuition congruence.
Qed.
Lemma ins_keys e cs s : In s (keys (ins_cell leb e cs)) <-> s = ckey e \/ In s (keys cs).
Proof.
  unfold keys. rewrite !in_map_iff. split.
  - intros (a & <- & Ha). apply ins_in in Ha as [->|Ha]; eauto.
  - intros [->|(a & <- & Ha)]; eexists; (split; [reflexivity|]); apply ins_in; auto.
Qed.
Lemma ins_wfc m low cs n : wfc cs n -> ~ In m (keys cs) -> wfc (ins_cell leb (m, (n, low)) cs) (S n).
Proof.
  intros (Hs & Hn & Hl) Hm. repeat split.
  - clear Hn Hl. induction cs as [|b cs IH]; cbn [ins_cell].
    + constructor; [constructor|constructor].
    + apply srt_cons in Hs as [Hs Hb]. cbn in Hm.
      replace (ckey (m, (n, low))) with m by reflexivity. destruct (leb m (ckey b)) eqn:E.
      * assert (klt m (ckey b)) as Lb.
        { unfold klt. destruct (leb (ckey b) m) eqn:E'; auto. exfalso. apply Hm. left. kord HO. }
        apply srt_cons. split; [apply srt_cons; auto|]. cbn. intros s [<-|Hi]; [auto|].
        specialize (Hb s Hi). unfold klt in *. cbn. kord HO.
      * apply srt_cons. split; [apply IH; tauto|]. intros s Hi. apply ins_keys in Hi as [->|Hi]; auto.
  - assert (~ In n (slots cs)) as Hx by (intros Hi; apply Hl in Hi; lia). clear Hs Hl Hm.
    induction cs as [|b cs IH]; cbn; [repeat constructor; auto|].
    inversion Hn; subst. cbn in Hx. destruct (leb _ _); cbn.
    + constructor; auto.
    + constructor; [|apply IH; tauto]. intros Hi. apply in_map_iff in Hi as (a & Ha & Hi).
      apply ins_in in Hi as [->|Hi]; cbn in Ha; [subst; tauto|]. apply H1. rewrite <- Ha. now apply in_map.
  - intros j Hj. apply in_map_iff in Hj as (a & <- & Ha). apply ins_in in Ha as [->|Ha]; cbn; [lia|].
    assert (cslot a < n) by (apply Hl; now apply in_map). lia.
Qed.
Lemma ins_route m n low cs k : srt cs -> NoDup (slots cs) -> ~ In m (keys cs) ->
  route (rts (ins_cell leb (m, (n, low)) cs)) k
  = if lpos_eqb (route (rts cs) k) (route (rts cs) m) && leb k m then PSlot n else route (rts cs) k.
Proof.
  intros Hs Hn Hm. induction cs as [|b cs IH]; cbn.
  - cbn. now destruct (leb k m).
  - apply srt_cons in Hs as [Hs Hb]. inversion Hn; subst. cbn in Hm.
    assert (H0 : forall e : cell K, ckey (ckey e, (n, low)) = ckey e) by reflexivity.
    replace (ckey (m, (n, low))) with m by reflexivity.
    destruct (leb m (ckey b)) eqn:Em; cbn.
    + unfold ckey at 1, cslot at 1; cbn. destruct (leb k m) eqn:Ek.
      * assert (leb k (ckey b) = true) as -> by kord HO. cbn. now rewrite Nat.eqb_refl.
      * rewrite andb_false_r. reflexivity.
    + fold (rts cs). destruct (leb k (ckey b)) eqn:Ek.
      * destruct (lpos_eqb (PSlot (cslot b)) (route (rts cs) m)) eqn:E; [|reflexivity].
        apply lpos_eqb_eq in E. symmetry in E. now apply route_slot_in in E.
      * apply IH; auto.
Qed.
Lemma ins_sc m n low cs j : ~ In n (slots cs) -> NoDup (slots cs) ->
  slot_child (ins_cell leb (m, (n, low)) cs) j = if j =? n then Some low else slot_child cs j.
Proof.
  intros Hi Hn. induction cs as [|b cs IH]; cbn.
  - rewrite Nat.eqb_sym. reflexivity.
  - inversion Hn; subst. cbn in Hi. destruct (leb _ _); cbn.
    + rewrite Nat.eqb_sym. reflexivity.
    + rewrite IH by tauto. destruct (cslot b =? j) eqn:E; [|reflexivity].
      apply Nat.eqb_eq in E. subst. destruct (cslot b =? n) eqn:E; [|reflexivity].
      apply Nat.eqb_eq in E. subst. tauto.
Qed.
Definition put_low x m low := set_cells x (ins_cell leb (m, (nsl x, low)) (cells x)) (S (nsl x)).
Lemma put_low_nx x m low k : wfc (cells x) (nsl x) -> ~ In m (keys (cells x)) ->
  nx (put_low x m low) k =
    if lpos_eqb (pos x k) (pos x m) && leb k m then Some low else nx x k.
Proof.
  intros (Hs & Hn & Hl) Hm. unfold nx. rewrite !pos_rts. cbn. rewrite ins_route by auto.
  destruct (lpos_eqb _ _ && leb k m); cbn.
  - rewrite ins_sc; auto; [now rewrite Nat.eqb_refl|]. intros Hi. apply Hl in Hi. lia.
  - destruct (route (rts (cells x)) k) as [j|] eqn:E; cbn; [|reflexivity].
    rewrite ins_sc; auto; [|intros Hi; apply Hl in Hi; lia].
    apply route_slot_in, Hl in E. destruct (j =? nsl x) eqn:E'; [|reflexivity].
    apply Nat.eqb_eq in E'. lia.
Qed.
Lemma put_low_pos x m low k : wfc (cells x) (nsl x) -> ~ In m (keys (cells x)) ->
  pos (put_low x m low) k =
    if lpos_eqb (pos x k) (pos x m) && leb k m then PSlot (nsl x) else pos x k.
Proof. intros (Hs & Hn & Hl) Hm. rewrite !pos_rts. cbn. now rewrite ins_route by auto. Qed.
Lemma put_low_ptr x m low o c : wfc (cells x) (nsl x) -> ptr x o = Some c ->
  ptr (put_low x m low) o = Some c.
Proof.
  intros (Hs & Hn & Hl). destruct o as [j|]; cbn; auto. intros H.
  rewrite ins_sc; auto; [|intros Hi; apply Hl in Hi; lia].
  destruct (j =? nsl x) eqn:E; auto. apply Nat.eqb_eq in E. subst j.
  apply sc_in in H as (e & He & Hj & _). assert (cslot e < nsl x) by (apply Hl; now apply in_map). lia.
Qed.
Lemma put_low_in_kids x m low y : In y (kids (put_low x m low)) <-> y = low \/ In y (kids x).
Proof.
  unfold kids. rewrite !in_app_iff. cbn. unfold childs at 1. rewrite in_map_iff. split.
  - intros [(e & <- & He)|Hu]; [|tauto]. apply ins_in in He as [->|He]; [now left|].
    right. left. now apply in_map.
  - intros [->|[Hi|Hu]]; [left| |tauto].
    + exists (m, (nsl x, low)). split; [reflexivity|]. apply ins_in. now left.
    + left. apply in_map_iff in Hi as (e & <- & He). exists e. split; auto. apply ins_in. now right.
Qed.
Lemma put_low_nodup x m low : NoDup (kids x) -> ~ In low (kids x) -> NoDup (kids (put_low x m low)).
Proof.
  unfold kids. cbn. set (u := match ub x with UTo c => [c] | _ => [] end). intros Hn Hl.
  induction (cells x) as [|b cs IH]; cbn in *; [constructor; auto|].
  inversion Hn; subst. destruct (leb _ _); cbn; [constructor; auto|].
  constructor; [|apply IH; auto]. rewrite in_app_iff in *. intros [Hx|Hx]; [|tauto].
  apply in_map_iff in Hx as (e & Hx & He). apply ins_in in He as [->|He].
  - cbn in Hx. subst low. tauto.
  - apply H1. left. rewrite <- Hx. now apply in_map.
Qed.
Lemma has_key_in m cs : has_key leb m cs = true <-> In m (keys cs).
Proof.
  unfold has_key. rewrite existsb_exists. unfold keys. rewrite in_map_iff. split.
  - intros (e & He & Heq). apply (keqb_eq _ HO) in Heq. eauto.
  - intros (e & <- & He). exists e. split; auto. apply (keqb_refl _ HO).
Qed.

(** ** Removing a child *)
Lemma del_in j cs e : In e (del_slot j cs) <-> In e cs /\ cslot e <> j.
Proof.
  unfold del_slot. rewrite filter_In, negb_true_iff, Nat.eqb_neq. tauto.
Qed.
Lemma del_wfc j cs n : wfc cs n -> wfc (del_slot j cs) n.
Proof.
  intros (Hs & Hn & Hl). repeat split.
  - clear Hn Hl. induction cs as [|b cs IH]; cbn; [constructor|].
    apply srt_cons in Hs as [Hs Hb]. destruct (cslot b =? j); cbn; [auto|].
    apply srt_cons. split; auto. intros s Hi. apply Hb. unfold keys in *.
    apply in_map_iff in Hi as (e & <- & He). apply del_in in He as [He _]. now apply in_map.
  - clear Hs Hl. induction cs as [|b cs IH]; cbn; [constructor|]. inversion Hn; subst.
    destruct (cslot b =? j); cbn; [auto|]. constructor; auto. intros Hi.
    apply in_map_iff in Hi as (e & Hx & He). apply del_in in He as [He _].
    apply H1. rewrite <- Hx. now apply in_map.
  - intros i Hi. apply in_map_iff in Hi as (e & <- & He). apply del_in in He as [He _].
    apply Hl. now apply in_map.
Qed.
Lemma del_route j cs k : route (rts cs) k <> PSlot j -> route (rts (del_slot j cs)) k = route (rts cs) k.
Proof.
  induction cs as [|b cs IH]; cbn; [auto|]. destruct (leb k (ckey b)) eqn:E; intros H.
  - destruct (cslot b =? j) eqn:Ej; cbn; [apply Nat.eqb_eq in Ej; congruence|]. now rewrite E.
  - destruct (cslot b =? j) eqn:Ej; cbn; [auto|]. rewrite E. auto.
Qed.
Lemma del_route_neq j cs k : route (rts (del_slot j cs)) k <> PSlot j.
Proof.
  intros H. apply route_slot_in in H. apply in_map_iff in H as (e & Hx & He).
  apply del_in in He as [_ He]. auto.
Qed.
Lemma del_sc j cs i : i <> j -> slot_child (del_slot j cs) i = slot_child cs i.
Proof.
  intros Hi. induction cs as [|b cs IH]; cbn; [auto|]. destruct (cslot b =? j) eqn:Ej; cbn.
  - apply Nat.eqb_eq in Ej. destruct (cslot b =? i) eqn:E; auto. apply Nat.eqb_eq in E. congruence.
  - fold (del_slot j cs). now rewrite IH.
Qed.
Definition drop_low x j := set_cells x (del_slot j (cells x)) (nsl x).
Lemma drop_nx_same x j k : pos x k <> PSlot j -> nx (drop_low x j) k = nx x k.
Proof.
  rewrite !pos_rts. intros H. unfold nx. rewrite !pos_rts. cbn. rewrite del_route by auto.
  destruct (route (rts (cells x)) k) as [i|]; cbn; auto. apply del_sc. congruence.
Qed.
(** Keys of the removed slot go to another position of the node. *)
Lemma drop_nx_moved x j k : exists o, o <> PSlot j /\ nx (drop_low x j) k = ptr x o
  /\ (o = PUb \/ exists e, In e (cells x) /\ o = PSlot (cslot e) /\ leb k (ckey e) = true).
Proof.
  exists (pos (drop_low x j) k). unfold nx.
  change (pos (drop_low x j) k) with (route (rts (del_slot j (cells x))) k).
  destruct (route (rts (del_slot j (cells x))) k) as [i|] eqn:E; cbn.
  - split; [intros [= ->]; now apply del_route_neq in E|]. split.
    + apply del_sc. intros ->. now apply del_route_neq in E.
    + right. destruct (route_some _ _ _ E) as (e & He & <- & Hk). apply del_in in He as [He _]. eauto.
  - split; [discriminate|auto].
Qed.
Lemma drop_kids x j y : In y (kids (drop_low x j)) -> In y (kids x).
Proof.
  unfold kids. rewrite !in_app_iff. cbn. intros [Hi|?]; [left|tauto].
  apply in_map_iff in Hi as (e & <- & He). apply del_in in He as [He _]. now apply in_map.
Qed.
Lemma drop_nodup x j : NoDup (kids x) -> NoDup (kids (drop_low x j)).
Proof.
  unfold kids. cbn. set (u := match ub x with UTo c => [c] | _ => [] end). intros Hn.
  induction (cells x) as [|b cs IH]; cbn in *; [auto|]. inversion Hn; subst.
  destruct (cslot b =? j); cbn; [auto|]. constructor; auto.
  rewrite in_app_iff in *. intros [Hx|Hx]; [|tauto]. apply H1. left.
  apply in_map_iff in Hx as (e & <- & He). apply del_in in He as [He _]. now apply in_map.
Qed.

(** ** The halves of a node *)
(** Routing by a list of keys and children. *)
Fixpoint look (es : list (K * nat)) (u : option nat) k : option nat :=
  match es with [] => u | (s, c) :: r => if leb k s then Some c else look r u k end.
Definition kc (e : cell K) := (ckey e, cchild e).

Lemma nx_look x k : NoDup (slots (cells x)) -> nx x k = look (map kc (cells x)) (uto (ub x)) k.
Proof.
  unfold nx. rewrite pos_rts. unfold ptr. intros Hn.
  induction (cells x) as [|b cs IH]; cbn; [reflexivity|]. inversion Hn; subst.
  destruct (leb k (ckey b)); [now rewrite Nat.eqb_refl|]. rewrite <- IH by auto. fold (rts cs).
  destruct (route (rts cs) k) as [j|] eqn:E; [|reflexivity].
  destruct (cslot b =? j) eqn:Ej; [|reflexivity].
  apply Nat.eqb_eq in Ej. subst. now apply route_slot_in in E.
Qed.

Lemma number_kc i es : map kc (number i es) = es.
Proof.
  revert i. induction es as [|[s c] es IH]; intros i; cbn; [reflexivity|]. unfold kc at 1; cbn.
  now rewrite IH.
Qed.
Lemma number_keys i es : keys (number i es) = map fst es.
Proof. revert i. induction es as [|[s c] es IH]; intros i; cbn; [|rewrite IH]; reflexivity. Qed.
Lemma number_childs i es : childs (number i es) = map snd es.
Proof. revert i. induction es as [|[s c] es IH]; intros i; cbn; [|rewrite IH]; reflexivity. Qed.
Lemma number_slots i es : NoDup (slots (number i es))
  /\ forall j, In j (slots (number i es)) -> i <= j < i + length es.
Proof.
  revert i. induction es as [|[s c] es IH]; intros i; cbn.
  - split; [constructor|tauto].
  - destruct (IH (S i)) as [Hn Hl]. split.
    + constructor; auto. intros Hi. apply Hl in Hi. cbn in Hi. lia.
    + intros j [<-|Hj]; cbn; [lia|]. apply Hl in Hj. lia.
Qed.
Lemma mk_nx h es u j w k : nx (mk_node (V := V) h es u j w) k = look es (uto u) k.
Proof. rewrite nx_look; cbn; [now rewrite number_kc|]. apply number_slots. Qed.

Lemma repl_look x o m low high k : srt (cells x) -> NoDup (slots (cells x)) -> pos x m = o ->
  let '(es, u) := repl x o m low high in
  look es (uto u) k =
    if lpos_eqb (pos x k) o then Some (if leb k m then low else high) else nx x k.
Proof.
  intros Hs Hn Hm. rewrite nx_look by auto. unfold repl. rewrite !pos_rts in *.
  destruct o as [j|].
  - revert Hm. induction (cells x) as [|b cs IH]; cbn; [discriminate|].
    apply srt_cons in Hs as [Hs Hb]. inversion Hn; subst. fold (rts cs).
    destruct (leb m (ckey b)) eqn:Em.
    + intros [= <-]. rewrite Nat.eqb_refl. cbn.
      assert (flat_map (fun e : cell K => if cslot e =? cslot b then [(m, low); (ckey e, high)]
        else [(ckey e, cchild e)]) cs = map kc cs) as ->.
      { clear -H1. induction cs as [|a cs IH]; cbn; [reflexivity|]. cbn in H1.
        destruct (cslot a =? cslot b) eqn:E; [apply Nat.eqb_eq in E; tauto|]. cbn. rewrite IH by tauto.
        reflexivity. }
      destruct (leb k m) eqn:Ek; destruct (leb k (ckey b)) eqn:Ekb; try (exfalso; kord HO; fail).
      * cbn. now rewrite Nat.eqb_refl.
      * cbn. now rewrite Nat.eqb_refl.
      * destruct (lpos_eqb (route (rts cs) k) (PSlot (cslot b))) eqn:E; [|reflexivity].
        apply lpos_eqb_eq in E. now apply route_slot_in in E.
    + intros Hm. destruct (cslot b =? j) eqn:Ej.
      { apply Nat.eqb_eq in Ej. subst. now apply route_slot_in in Hm. }
      cbn. destruct (leb k (ckey b)) eqn:Ek; [cbn; now rewrite Ej|]. apply IH; auto.
  - revert Hm. induction (cells x) as [|b cs IH]; cbn.
    + intros _. now destruct (leb k m).
    + apply srt_cons in Hs as [Hs Hb]. inversion Hn; subst. fold (rts cs).
      destruct (leb m (ckey b)) eqn:Em; [discriminate|]. intros Hm.
      destruct (leb k (ckey b)); [reflexivity|]. apply IH; auto.
Qed.
Lemma repl_keys x o m low high s : NoDup (slots (cells x)) -> pos x m = o ->
  In s (map fst (fst (repl x o m low high))) <-> In s (keys (cells x)) \/ s = m.
Proof.
  intros Hn Hm. unfold repl. rewrite pos_rts in Hm. destruct o as [j|]; cbn.
  - apply route_slot_in in Hm. induction (cells x) as [|b cs IH]; cbn in *; [tauto|].
    inversion Hn; subst. rewrite map_app, in_app_iff.
    destruct (cslot b =? j) eqn:E; cbn.
    + apply Nat.eqb_eq in E. subst j.
      assert (flat_map (fun e : cell K => if cslot e =? cslot b then [(m, low); (ckey e, high)]
        else [(ckey e, cchild e)]) cs = map kc cs) as ->.
      { clear -H1. induction cs as [|a cs IH]; cbn; [reflexivity|]. cbn in H1.
        destruct (cslot a =? cslot b) eqn:E; [apply Nat.eqb_eq in E; tauto|]. cbn. rewrite IH by tauto.
        reflexivity. }
      rewrite map_map. cbn. unfold keys. intuition.
    + apply Nat.eqb_neq in E. destruct Hm as [?|Hm]; [tauto|]. rewrite IH by auto. intuition.
  - rewrite map_app, map_map, in_app_iff. cbn. unfold keys. intuition.
Qed.
Lemma repl_sorted x o m low high : srt (cells x) -> NoDup (slots (cells x)) -> pos x m = o ->
  ~ In m (keys (cells x)) -> StronglySorted klt (map fst (fst (repl x o m low high))).
Proof.
  intros Hs Hn Hm Hi. unfold repl. rewrite pos_rts in Hm. destruct o as [j|]; cbn.
  - induction (cells x) as [|b cs IH]; cbn in *; [constructor|].
    apply srt_cons in Hs as [Hs Hb]. inversion Hn; subst. destruct (leb m (ckey b)) eqn:Em.
    + injection Hm as <-. rewrite Nat.eqb_refl. cbn.
      assert (flat_map (fun e : cell K => if cslot e =? cslot b then [(m, low); (ckey e, high)]
        else [(ckey e, cchild e)]) cs = map kc cs) as ->.
      { clear -H1. induction cs as [|a cs IH]; cbn; [reflexivity|]. cbn in H1.
        destruct (cslot a =? cslot b) eqn:E; [apply Nat.eqb_eq in E; tauto|]. cbn. rewrite IH by tauto.
        reflexivity. }
      rewrite map_map. cbn. change (map (fun x0 : cell K => ckey x0) cs) with (keys cs).
      assert (klt m (ckey b)) as L.
      { unfold klt. destruct (leb (ckey b) m) eqn:E; auto. exfalso. apply Hi. left. kord HO. }
      constructor; [constructor; auto; now rewrite Forall_forall|].
      rewrite Forall_forall. intros s [<-|Hx]; [auto|]. specialize (Hb s Hx). unfold klt in *. kord HO.
    + destruct (cslot b =? j) eqn:Ej.
      { apply Nat.eqb_eq in Ej. subst. now apply route_slot_in in Hm. }
      cbn. constructor; [apply IH; auto; tauto|]. rewrite Forall_forall. intros s Hx.
      assert (In s (map fst (fst (repl (node0 (V := V) 0 cs 0 UNull Idle 0) (PSlot j) m low high)))) as Hy
        by exact Hx.
      apply repl_keys in Hy as [Hy|Hy]; auto. subst. exact Em.
  - rewrite map_app, map_map. cbn. change (map (fun x0 : cell K => ckey x0) (cells x)) with (keys (cells x)).
    rewrite route_ub_keys in Hm. unfold srt in Hs. clear Hi Hn. revert Hm.
    induction Hs as [|a l Hl IH Ha]; cbn; intros Hm; [repeat constructor|].
    constructor; [apply IH; intros s Hx; apply Hm; auto|]. rewrite Forall_forall in *. intros s Hx.
    + apply in_app_iff in Hx as [Hx|[<-|[]]]; [auto|]. unfold klt. auto.
Qed.

Definition ukid (u : uptr) : list nat := match u with UTo c => [c] | _ => [] end.
Lemma repl_childs x o m low high d : ptr x o = Some d -> NoDup (slots (cells x)) ->
  NoDup (kids x) -> ~ In low (kids x) -> ~ In high (kids x) -> low <> high ->
  let '(es, u) := repl x o m low high in
  NoDup (map snd es ++ ukid u)
  /\ (forall c, In c (map snd es ++ ukid u) -> c = low \/ c = high \/ In c (kids x)).
Proof.
  unfold kids. intros Hd Hs Hn H1 H2 H3. unfold repl. destruct o as [j|]; cbn in Hd.
  - fold (ukid (ub x)) in *. set (u := ukid (ub x)) in *. clear Hd.
    set (g := fun e : cell K => if cslot e =? j then [(m, low); (ckey e, high)] else [(ckey e, cchild e)]).
    assert (forall c cs, In c (map snd (flat_map g cs)) ->
      (c = low /\ In j (slots cs)) \/ (c = high /\ In j (slots cs)) \/ In c (childs cs)) as Hc.
    { intros c cs. induction cs as [|b cs IH]; cbn; [tauto|]. rewrite map_app, in_app_iff.
      unfold g at 1. destruct (cslot b =? j) eqn:E; cbn.
      - apply Nat.eqb_eq in E. intuition.
      - intuition. }
    split.
    + induction (cells x) as [|b cs IH]; cbn in *; [auto|]. inversion Hs; subst. inversion Hn; subst.
      unfold g at 1. destruct (cslot b =? j) eqn:E; cbn.
      * apply Nat.eqb_eq in E. subst j.
        assert (forall c, In c (map snd (flat_map g cs) ++ u) -> In c (childs cs ++ u)) as Hsub.
        { intros c. rewrite !in_app_iff. intros [Hi|?]; [|auto]. apply Hc in Hi. tauto. }
        constructor; [intros [Hx|Hx]; [congruence|apply Hsub in Hx; tauto]|].
        constructor; [intros Hx; apply Hsub in Hx; tauto|]. apply IH; auto.
      * constructor; [|apply IH; tauto]. rewrite in_app_iff in *. intros [Hx|Hx]; [|tauto].
        apply Hc in Hx. intuition congruence.
    + intros c. rewrite !in_app_iff. intros [Hi|Hi]; [|tauto]. apply Hc in Hi. tauto.
  - destruct (ub x) as [| |u]; cbn in Hd; try discriminate. injection Hd as ->.
    cbn [ukid]. rewrite map_app, map_map. cbn.
    change (map (fun x0 : cell K => cchild x0) (cells x)) with (childs (cells x)).
    apply NoDup_remove in Hn as [Hn _]. rewrite app_nil_r in Hn. split.
    + rewrite in_app_iff in H1, H2. rewrite <- app_assoc. cbn.
      induction (childs (cells x)) as [|a l IH]; cbn in *.
      * constructor; [intros [?|[]]; congruence|repeat constructor; auto].
      * inversion Hn; subst. constructor; [|apply IH; tauto]. rewrite in_app_iff; cbn. intuition.
    + intros c. rewrite !in_app_iff. cbn. intuition.
Qed.

Lemma look_firstn es u k b mid c : nth_error es b = Some (mid, c) ->
  StronglySorted klt (map fst es) -> leb k mid = true ->
  look (firstn b es) (Some c) k = look es u k.
Proof.
  revert b. induction es as [|[s d] es IH]; intros [|b]; cbn; try discriminate.
  - intros [= -> ->] _ Hk. now rewrite Hk.
  - intros Hn Hs Hk. inversion Hs; subst. destruct (leb k s); [reflexivity|]. now apply IH.
Qed.
Lemma look_skipn es u k b mid c : nth_error es b = Some (mid, c) ->
  StronglySorted klt (map fst es) -> leb k mid = false ->
  look (skipn (S b) es) u k = look es u k.
Proof.
  revert b. induction es as [|[s d] es IH]; intros [|b]; cbn; try discriminate.
  - intros [= -> ->] _ Hk. now rewrite Hk.
  - intros Hn Hs Hk. inversion Hs; subst. destruct (leb k s) eqn:E.
    + assert (In mid (map fst es)) as Hi.
      { apply nth_error_In in Hn. change mid with (fst (mid, c)). now apply in_map. }
      rewrite Forall_forall in H2. specialize (H2 mid Hi). unfold klt in H2. exfalso. kord HO.
    + now apply IH.
Qed.
Lemma sorted_cut (l : list K) b mid : nth_error l b = Some mid -> StronglySorted klt l ->
  (forall s, In s (firstn b l) -> klt s mid) /\ (forall s, In s (skipn (S b) l) -> klt mid s)
  /\ StronglySorted klt (firstn b l) /\ StronglySorted klt (skipn (S b) l).
Proof.
  revert b. induction l as [|a l IH]; intros [|b]; cbn; try discriminate.
  - intros [= ->] Hs. inversion Hs; subst. rewrite Forall_forall in H2. repeat split; auto; tauto || constructor.
  - intros Hn Hs. inversion Hs; subst. destruct (IH b Hn H1) as (A & B & C & D).
    rewrite Forall_forall in H2. repeat split; auto.
    + intros s [<-|?]; auto. apply H2. now apply nth_error_In in Hn.
    + constructor; auto. rewrite Forall_forall. intros s Hi. apply H2.
      rewrite <- (firstn_skipn b l), in_app_iff. auto.
Qed.
Lemma nodup_app_l {A} (l1 l2 : list A) : NoDup (l1 ++ l2) -> NoDup l1.
Proof.
  induction l1 as [|a l IH]; cbn; [constructor|]. intros H. inversion H; subst. constructor; auto.
  rewrite in_app_iff in H2. tauto.
Qed.
Lemma nodup_app_r {A} (l1 l2 : list A) : NoDup (l1 ++ l2) -> NoDup l2.
Proof. induction l1 as [|a l IH]; cbn; [auto|]. intros H. inversion H; auto. Qed.
Lemma nodup_skip {A} n (l1 l2 : list A) : NoDup (l1 ++ l2) -> NoDup (skipn n l1 ++ l2).
Proof.
  revert n. induction l1 as [|a l IH]; intros [|n]; cbn; auto. intros H. inversion H; auto.
Qed.
Lemma nth_firstn_app {A} b (l : list A) c : nth_error l b = Some c ->
  exists r, l = firstn b l ++ c :: r.
Proof.
  revert b. induction l as [|a l IH]; intros [|b]; cbn; try discriminate.
  - intros [= ->]. now exists l.
  - intros H. destruct (IH b H) as [r Hr]. exists r. now rewrite <- Hr.
Qed.

Lemma mk_wfc h es u j w : StronglySorted klt (map fst es) ->
  wfc (cells (mk_node (V := V) h es u j w)) (nsl (mk_node (V := V) h es u j w)).
Proof.
  intros H. destruct (number_slots 0 es) as [A B]. split; [|split]; cbn [cells nsl mk_node node0].
  - unfold srt. now rewrite number_keys.
  - exact A.
  - intros i Hi. apply B in Hi. lia.
Qed.

Lemma build_spec x o m low high b w d mid xl xh :
  wfc (cells x) (nsl x) -> ptr x o = Some d -> (exists u, ub x = UTo u) -> pos x m = o ->
  ~ In m (keys (cells x)) -> NoDup (kids x) -> ~ In low (kids x) -> ~ In high (kids x) -> low <> high ->
  build x o m low high b w = Some (mid, xl, xh) ->
  let j := match lvl x with 1 => NewLk | _ => Idle end in
  (exists es c, xl = mk_node (lvl x) es (UTo c) j w)
  /\ (exists es c, xh = mk_node (lvl x) es (UTo c) j w)
  /\ wfc (cells xl) (nsl xl) /\ wfc (cells xh) (nsl xh)
  /\ NoDup (kids xl) /\ NoDup (kids xh)
  /\ (forall c, In c (kids xl) \/ In c (kids xh) -> c = low \/ c = high \/ In c (kids x))
  /\ (In mid (keys (cells x)) \/ mid = m)
  /\ (forall s, In s (keys (cells xl)) -> (In s (keys (cells x)) \/ s = m) /\ leb mid s = false)
  /\ (forall s, In s (keys (cells xh)) -> (In s (keys (cells x)) \/ s = m) /\ leb s mid = false)
  /\ (forall k, nx (if leb k mid then xl else xh) k
       = if lpos_eqb (pos x k) o then Some (if leb k m then low else high) else nx x k).
Proof.
  intros (Hs & Hsl & Hlt) Hd [u0 Hu] Hm Hmk Hn H1 H2 H3. unfold build.
  pose proof (repl_childs x o m low high d Hd Hsl Hn H1 H2 H3) as Hc.
  pose proof (fun k => repl_look x o m low high k Hs Hsl Hm) as Hl.
  pose proof (fun s => repl_keys x o m low high s Hsl Hm) as Hk.
  pose proof (repl_sorted x o m low high Hs Hsl Hm Hmk) as Hso.
  assert (exists c, snd (repl x o m low high) = UTo c) as [cu Hcu].
  { unfold repl. destruct o; cbn; eauto. }
  destruct (repl x o m low high) as [es u]. cbn in Hk, Hso, Hcu. subst u. destruct Hc as [Hc1 Hc2].
  destruct b as [|b]; [discriminate|]. destruct (nth_error es b) as [[mid' c]|] eqn:En; [|discriminate].
  remember (skipn (S b) es) as sk eqn:Esk. injection 1 as <- <- <-. cbn zeta. rewrite Esk.
  assert (nth_error (map fst es) b = Some mid') as En1 by now rewrite nth_error_map, En.
  assert (nth_error (map snd es) b = Some c) as En2 by now rewrite nth_error_map, En.
  destruct (sorted_cut _ _ _ En1 Hso) as (A & B & C & D).
  assert (forall s, In s (firstn b (map fst es)) -> In s (map fst es)) as Hf.
  { intros s Hi. rewrite <- (firstn_skipn b (map fst es)), in_app_iff. auto. }
  assert (forall s, In s (skipn (S b) (map fst es)) -> In s (map fst es)) as Hsk.
  { intros s Hi. rewrite <- (firstn_skipn (S b) (map fst es)), in_app_iff. auto. }
  destruct (nth_firstn_app _ _ _ En2) as [r Hr].
  split; [eauto|]. split; [eauto|].
  split. { apply mk_wfc. rewrite <- firstn_map. auto. }
  split. { apply mk_wfc. rewrite <- skipn_map. auto. }
  assert (kids (mk_node (V := V) (lvl x) (firstn b es) (UTo c) match lvl x with 1 => NewLk | _ => Idle end w)
    = firstn b (map snd es) ++ [c]) as Ek1.
  { unfold kids. cbn. rewrite number_childs, firstn_map. reflexivity. }
  assert (kids (mk_node (V := V) (lvl x) (skipn (S b) es) (UTo cu) match lvl x with 1 => NewLk | _ => Idle end w)
    = skipn (S b) (map snd es) ++ [cu]) as Ek2.
  { unfold kids. cbn [ub cells mk_node node0]. now rewrite number_childs, skipn_map. }
  split. { rewrite Ek1. rewrite Hr in Hc1. replace (firstn b (map snd es) ++ c :: r)
    with ((firstn b (map snd es) ++ [c]) ++ r) in Hc1 by now rewrite <- app_assoc.
    now apply nodup_app_l, nodup_app_l in Hc1. }
  split. { rewrite Ek2. now apply nodup_skip. }
  split. { intros z Hz. apply Hc2. rewrite in_app_iff. rewrite Ek1, Ek2, !in_app_iff in Hz. cbn in Hz.
    destruct Hz as [[Hz|[<-|[]]]|[Hz|[<-|[]]]].
    - left. rewrite <- (firstn_skipn b (map snd es)), in_app_iff. auto.
    - left. now apply nth_error_In in En2.
    - left. rewrite <- (firstn_skipn (S b) (map snd es)), in_app_iff. auto.
    - right. cbn. auto. }
  split. { apply Hk. now apply nth_error_In in En1. }
  split. { cbn [cells mk_node node0]. intros s. rewrite number_keys, <- firstn_map. intros Hi. split.
    - apply Hk. auto. - now apply A. }
  split. { cbn [cells mk_node node0]. intros s. rewrite number_keys, <- skipn_map. intros Hi. split.
    - apply Hk. auto. - now apply B. }
  intros k. rewrite <- Hl. destruct (leb k mid') eqn:E; rewrite mk_nx; cbn [uto].
  - eapply look_firstn; eauto.
  - eapply look_skipn; eauto.
Qed.

Lemma kids_look_ub x u : ub x = UTo u -> In u (kids x).
Proof. intros H. unfold kids. rewrite H, in_app_iff. cbn. auto. Qed.

(** ** The last child *)
Lemma last_route cs s j d k : NoDup (slots (cs ++ [(s, (j, d))])) -> srt (cs ++ [(s, (j, d))]) ->
  route (rts (del_slot j (cs ++ [(s, (j, d))]))) k
  = if lpos_eqb (route (rts (cs ++ [(s, (j, d))])) k) (PSlot j) then PUb
    else route (rts (cs ++ [(s, (j, d))])) k.
Proof.
  induction cs as [|b cs IH].
  - cbn. rewrite Nat.eqb_refl. cbn. unfold ckey, cslot; cbn. destruct (leb k s); cbn; [now rewrite Nat.eqb_refl|reflexivity].
  - intros Hn Hs. cbn [app] in *. inversion Hn; subst. apply srt_cons in Hs as [Hs Hb].
    assert (cslot b <> j) as Hj.
    { intros Hj. apply H1. rewrite Hj. unfold slots. rewrite map_app, in_app_iff. right. now left. }
    cbn [del_slot filter]. apply Nat.eqb_neq in Hj. rewrite Hj. cbn [negb rts map route].
    destruct (leb k (ckey b)); [cbn; now rewrite Hj|]. apply IH; auto.
Qed.

(** ** Entries of leaves *)
Lemma get_in es k (v : V) : get leb es k = Some v -> In (k, v) es.
Proof.
  induction es as [|[a b] es IH]; cbn; [discriminate|]. destruct (keqb leb k a) eqn:E.
  - intros [= ->]. apply (keqb_eq _ HO) in E. subst. auto.
  - auto.
Qed.
Lemma get_none (es : list (K * V)) k : get leb es k = None <-> ~ In k (map fst es).
Proof.
  induction es as [|[a b] es IH]; cbn; [tauto|]. destruct (keqb leb k a) eqn:E.
  - apply (keqb_eq _ HO) in E. subst. split; [discriminate|tauto].
  - rewrite IH. assert (a <> k) by (intros ->; rewrite (keqb_refl _ HO) in E; discriminate). tauto.
Qed.
Lemma get_filter (f : K -> bool) (es : list (K * V)) k : f k = true ->
  get leb (filter (fun e => f (fst e)) es) k = get leb es k.
Proof.
  intros Hf. induction es as [|[a b] es IH]; cbn; [reflexivity|]. destruct (keqb leb k a) eqn:E.
  - pose proof (keqb_eq _ HO _ _ E). subst. rewrite Hf. cbn. now rewrite E.
  - destruct (f a); cbn; [rewrite E|]; auto.
Qed.
Lemma get_filter_none (f : K -> bool) (es : list (K * V)) k : f k = false ->
  get leb (filter (fun e => f (fst e)) es) k = None.
Proof.
  intros Hf. apply get_none. intros Hi. apply in_map_iff in Hi as ([a b] & Ha & Hi). cbn in Ha. subst.
  apply filter_In in Hi as [_ Hi]. cbn in Hi. congruence.
Qed.
End route2.
