(** The stores of the operations are safe. *)
From Coq Require Import NArith Lia.
From stdpp Require Import prelude list numbers.
From Verif Require BucketSpec BucketFacts BucketOps.
From Verif Require Import PeekModel PeekSpec PeekInv PeekGood.

Section ops.
Context {K V : Type} `{EqDecision K} (hash : K -> N).
Notation obj := (obj K V).
Notation node := (node K V).
Notation bucket := (bucket K V).
Implicit Types (b : bucket) (nd : node) (x : obj) (n j h : nat) (I : K -> Prop) (X : nat -> nat -> Prop).
Implicit Types (E g : N) (Is : nat -> K -> Prop) (bs : list bucket) (ex : list (nat * nat * nat)).
Local Arguments count : simpl never.
Local Arguments total : simpl never.
Local Arguments size : simpl never.
Local Arguments BucketModel.bit : simpl never.
Local Arguments BucketModel.trailing_ones : simpl never.
Local Arguments BucketSpec.tb : simpl never.
Local Arguments N.lor : simpl never.
Local Arguments N.ldiff : simpl never.
Local Arguments live_at : simpl never.
Local Arguments lv : simpl never.

Definition others Is h bs : Prop := forall h' b', h' <> h -> bs !! h' = Some b' -> good hash (Is h') none b'.
Definition only h ex : Prop := forall h' n j, (h', n, j) ∈ ex -> h' = h.
Lemma others_insert Is h bs b : others Is h bs -> others Is h (<[h := b]> bs).
Proof. intros O h' b' N L. rewrite list_lookup_insert_ne in L by done. by apply O. Qed.
Lemma goods Is h bs b ex : others Is h bs -> bs !! h = Some b -> only h ex -> good hash (Is h) (exh ex h) b ->
  forall h' b', bs !! h' = Some b' -> good hash (Is h') (exh ex h') b'.
Proof.
  intros O L S G h' b' L'. destruct (decide (h' = h)) as [->|N]; [congruence|].
  apply (good_weaken hash _ none); [done|]. by apply O.
Qed.
Lemma goods_insert Is h bs b ex : others Is h bs -> h < length bs -> only h ex -> good hash (Is h) (exh ex h) b ->
  forall h' b', <[h := b]> bs !! h' = Some b' -> good hash (Is h') (exh ex h') b'.
Proof.
  intros O L S G. eapply goods; [by apply others_insert|by apply list_lookup_insert|done|done].
Qed.
Lemma only_1 h n j : only h [(h, n, j)].
Proof. intros h' n' j' M. apply elem_of_list_singleton in M. congruence. Qed.
Lemma set_node_set b n nd nd' : set_node (set_node b n nd) n nd' = set_node b n nd'.
Proof. unfold set_node. cbn. by rewrite list_insert_insert. Qed.
Lemma set_node_same b n nd nd' : nodes b !! n = Some nd -> nodes (set_node b n nd') !! n = Some nd'.
Proof. intros E. cbn. apply list_lookup_insert. by eapply lookup_lt_Some. Qed.
(** No entry is at the slots exempted. *)
Lemma cov_free mine ex bs h b n j : bs !! h = Some b -> live_at b n j = None -> cov mine [(h, n, j)] bs.
Proof. intros L N h' n' j' b' x L' Lv M. apply elem_of_list_singleton in M as [= -> -> ->]. congruence. Qed.
Lemma cov_nil mine bs : cov mine [] bs.
Proof. intros h n j b x _ _ M. by apply elem_of_nil in M. Qed.

(** ** Insertion into a free slot *)
Lemma insert_slot_safe E g mine Is h bs b n nd x rest j c :
  bs !! h = Some b -> idle hash (Is h) b -> frozen b = false -> others Is h bs -> nodes b !! n = Some nd ->
  n ∈ 0 :: chain b -> j < size n -> tb (occ nd) j = false -> c = partial_hash (hash (okey x)) -> Is h (okey x) ->
  (x.1 ∈ mine \/ exists h' n' j' b', h' <> h /\ bs !! h' = Some b' /\ live_at b' n' j' = Some x) ->
  (forall b', idle hash (Is h) b' -> live_at b' n j = Some x -> forall e, (E <= e)%N -> safe hash e g mine Is [] (<[h := b']> bs) rest) ->
  safe hash E g mine Is [(h, n, j)] bs
    (map (pair h) [WData n j x; WCell n j c; WOcc n (N.lor (occ nd) (bit j)); WLen (S (blen b))] ++ rest).
Proof.
  intros L (G & Ln & Ti) Fz O En Ch J Oj Hc Ik Mi Fin.
  pose proof (g_wf _ _ _ _ G n nd En) as Wn. destruct Wn as (Wc & Wd & Wo).
  assert (h < length bs) as Hl by (by eapply lookup_lt_Some).
  assert (tb (rem nd) j = false) as Rj.
  { destruct (tb (rem nd) j) eqn:R; [|done]. rewrite (Ti n nd j En R) in Oj. done. }
  assert (lv nd j = None) as Lj.
  { destruct (lv nd j) as [y|] eqn:Y; [|done]. apply lv_some in Y as (Y & _). congruence. }
  set (ex := [(h, n, j)]).
  assert (good hash (Is h) (exh ex h) b) as G0 by (by apply (good_weaken hash _ none)).
  set (nd1 := Node (occ nd) (rem nd) (cells nd) (<[j := Some x]> (data nd)) (next nd)).
  set (nd2 := Node (occ nd) (rem nd) (<[j := c]> (cells nd)) (<[j := Some x]> (data nd)) (next nd)).
  set (nd3 := Node (N.lor (occ nd) (bit j)) (rem nd) (<[j := c]> (cells nd)) (<[j := Some x]> (data nd)) (next nd)).
  assert (nwf n nd1) as W1.
  { split; [done|]. split; [cbn; by rewrite insert_length|]. intros i Oi. cbn in *. destruct (decide (i = j)) as [->|N]; [congruence|].
    rewrite list_lookup_insert_ne by done. by apply Wo. }
  assert (nwf n nd2) as W2.
  { split; [cbn; by rewrite insert_length|]. apply W1. }
  assert (nwf n nd3) as W3.
  { split; [cbn; by rewrite insert_length|]. split; [apply W1|]. intros i Oi. cbn in *. destruct (decide (i = j)) as [->|N].
    - exists x. apply list_lookup_insert. lia.
    - rewrite list_lookup_insert_ne by done. apply Wo. rewrite BucketFacts.tb_lor, BucketFacts.tb_bit in Oi.
      rewrite bool_decide_eq_false_2 in Oi by done. by rewrite orb_false_r in Oi. }
  assert (forall i, i <> j -> lv nd1 i = lv nd i) as L1.
  { intros i N. unfold lv. cbn. by rewrite list_lookup_insert_ne. }
  assert (forall i, lv nd2 i = lv nd1 i) as L2 by done.
  assert (forall i, i <> j -> lv nd3 i = lv nd i) as L3.
  { intros i N. unfold lv. rewrite !live_in_tb. cbn. rewrite BucketFacts.tb_lor, BucketFacts.tb_bit.
    rewrite bool_decide_eq_false_2 by done. rewrite orb_false_r. by rewrite list_lookup_insert_ne. }
  assert (lv nd1 j = None) as L1j.
  { unfold lv. rewrite live_in_tb. cbn. by rewrite Oj. }
  assert (lv nd3 j = Some x) as L3j.
  { apply lv_some. cbn. rewrite BucketFacts.tb_lor, BucketFacts.tb_bit, bool_decide_eq_true_2, orb_true_r by done.
    repeat split; [done|]. apply list_lookup_insert. lia. }
  assert (forall i y, ~ exh ex h n i -> lv nd i = Some y -> i <> j) as Nj by (intros i y NX Y ->; congruence).
  assert (forall i, ~ exh ex h n i -> i <> j) as Nx by (intros i NX ->; apply NX; left).
  assert (good hash (Is h) (exh ex h) (set_node b n nd1)) as G1.
  { eapply good_node; try done. intros i y Y NX. rewrite L1 in Y by (by apply Nx). done. }
  assert (good hash (Is h) (exh ex h) (set_node b n nd2)) as G2.
  { eapply good_node; try done. intros i y Y NX. pose proof (Nx i NX). rewrite L2, L1 in Y by done. split; [done|].
    cbn. by rewrite list_lookup_insert_ne. }
  assert (good hash (Is h) (exh ex h) (set_node b n nd3)) as G3.
  { eapply good_node; try done. intros i y Y NX. pose proof (Nx i NX). rewrite L3 in Y by done. split; [done|].
    cbn. by rewrite list_lookup_insert_ne. }
  assert (chain (set_node b n nd3) = chain b) as Ch3.
  { destruct (g_chain _ _ _ _ G) as (c0 & P & N & _). rewrite (chain_path b c0 P N). apply chain_path; [|done].
    by eapply path_set. }
  set (b4 := Bkt (S (blen b)) (nodes (set_node b n nd3)) (frozen b)).
  assert (idle hash (Is h) b4) as I4.
  { split; [|split].
    - apply (good_strengthen hash _ (exh ex h)).
      + apply (good_len hash _ _ (set_node b n nd3) (S (blen b)) G3). intros. lia.
      + intros m i y Lv _ Y. apply elem_of_list_singleton in Y as [= -> ->].
        exists nd3. split; [by eapply set_node_same|].
        assert (y = x) as ->.
        { change (live_at (set_node b n nd3) n j = Some y) in Lv. rewrite (live_set_eq _ _ _ _ _ En) in Lv. congruence. }
        split; [cbn; rewrite <- Hc; apply list_lookup_insert; lia|]. split; [done|]. split; [cbn; lia|].
        change (chain b4) with (chain (set_node b n nd3)). by rewrite Ch3.
      + intros m i. unfold exh. apply _.
    - cbn. pose proof (total_insert (nodes b) n nd nd3 En) as T.
      assert (count nd3 = S (count nd)) as C.
      { apply (count_set nd nd3 j); [pose proof (size_32 n); lia| | |].
        - rewrite live_in_tb. by rewrite Oj.
        - rewrite live_in_tb. cbn. by rewrite BucketFacts.tb_lor, BucketFacts.tb_bit, bool_decide_eq_true_2, orb_true_r, Rj.
        - intros i N. rewrite !live_in_tb. cbn. by rewrite BucketFacts.tb_lor, BucketFacts.tb_bit, bool_decide_eq_false_2, orb_false_r. }
      lia.
    - intros m d i M R. destruct (set_node_lookup b n nd nd3 m d En M) as [[-> ->]|[_ M']].
      + cbn in *. rewrite BucketFacts.tb_lor. by rewrite (Ti n nd i En R).
      + by apply (Ti m d i). }
  assert (forall nd', lv nd' j = None -> live_at (set_node b n nd') n j = None) as Fr.
  { intros nd' Q. by rewrite (live_set_eq _ _ _ _ _ En). }
  cbn [map app]. split; [apply (goods _ _ _ _ _ O L (only_1 h n j) G0)|]. split; [apply (cov_free _ ex _ _ b); [done|by rewrite (live_at_lv _ _ _ _ En)]|].
  exists b. split; [done|]. split; [split; [done|by exists nd]|]. intros e1 He1. exists (set_node b n nd1), ex.
  split; [cbn; by rewrite (put_some _ _ _ _ En)|]. split; [done|].
  split; [apply (goods_insert _ _ _ _ _ O Hl (only_1 h n j) G1)|]. split; [eapply (cov_free _ ex); [by apply list_lookup_insert|by apply Fr]|].
  exists (set_node b n nd1). split; [by apply list_lookup_insert|].
  split; [split; [done|exists nd1; split; [by eapply set_node_same|done]]|].
  intros e2 He2. exists (set_node b n nd2), ex.
  split; [cbn; rewrite (put_some _ _ _ nd1) by (by eapply set_node_same); by rewrite set_node_set|]. split; [done|].
  rewrite list_insert_insert. split; [apply (goods_insert _ _ _ _ _ O Hl (only_1 h n j) G2)|].
  split; [eapply (cov_free _ ex); [by apply list_lookup_insert|by apply Fr]|].
  exists (set_node b n nd2). split; [by apply list_lookup_insert|]. split.
  { exists nd2. split; [by eapply set_node_same|]. left. split; [done|]. exists j, x. repeat split; try done.
    - apply list_lookup_insert. lia.
    - left. }
  intros e3 He3. exists (set_node b n nd3), ex.
  split; [cbn; rewrite (put_some _ _ _ nd2) by (by eapply set_node_same); by rewrite set_node_set|]. split; [done|].
  rewrite list_insert_insert. split; [apply (goods_insert _ _ _ _ _ O Hl (only_1 h n j) G3)|]. split.
  { intros h' n' j' b' y Lb Lv M. apply elem_of_list_singleton in M as [= -> -> ->].
    rewrite list_lookup_insert in Lb by done. injection Lb as <-. rewrite (live_set_eq _ _ _ _ _ En), L3j in Lv. injection Lv as <-.
    destruct Mi as [Mi|(h' & n' & j' & b' & D & Lb & Lv)]; [by left|]. right. exists h', n', j', b'.
    rewrite list_lookup_insert_ne by done. repeat split; try done. intros M. apply elem_of_list_singleton in M. congruence. }
  exists (set_node b n nd3). split; [by apply list_lookup_insert|]. split; [done|].
  intros e4 He4. exists b4, []. split; [done|]. split; [apply list_subseteq_nil|]. rewrite list_insert_insert.
  apply Fin; [done| |lia]. change (live_at (set_node b n nd3) n j = Some x). by rewrite (live_set_eq _ _ _ _ _ En).
Qed.

(** ** Insertion with a new link *)
Lemma path_retail (ns ns' : list node) n m nd md c : ns !! n = Some nd -> ns' !! m = Some md -> next md = next nd ->
  (forall q d, q ∈ c -> ns !! q = Some d -> exists d', ns' !! q = Some d' /\ next d' = next d) -> path ns n c -> path ns' m c.
Proof.
  intros En Em Nx A P. destruct c as [|q c]; destruct P as (nd0 & E0 & P); rewrite En in E0; injection E0 as <-.
  - exists md. split; [done|congruence].
  - exists md. split; [done|]. destruct P as [P1 P2]. split; [congruence|]. apply (path_ext ns); [|done].
    intros r d R. by apply A.
Qed.
Lemma insert_new_safe E g mine Is h bs b m x rest c :
  bs !! h = Some b -> idle hash (Is h) b -> frozen b = false -> others Is h bs -> nodes b !! 0 = Some m ->
  c = partial_hash (hash (okey x)) -> Is h (okey x) ->
  (x.1 ∈ mine \/ exists h' n' j' b', h' <> h /\ bs !! h' = Some b' /\ live_at b' n' j' = Some x) ->
  (forall b', idle hash (Is h) b' -> live_at b' (length (nodes b)) 0 = Some x -> forall e, (E <= e)%N -> safe hash e g mine Is [] (<[h := b']> bs) rest) ->
  safe hash E g mine Is [(h, length (nodes b), 0)] bs
    (map (pair h) [WNew (Node 1 0 (c :: replicate 7 0%N) (Some x :: replicate 7 None) (next m));
                   WNext 0 (Some (length (nodes b))); WLen (S (blen b))] ++ rest).
Proof.
  intros L (G & Ln & Ti) Fz O E0 Hc Ik Mi Fin. set (n := length (nodes b)).
  set (nd := Node 1 0 (c :: replicate 7 0%N) (Some x :: replicate 7 None) (next m)).
  assert (h < length bs) as Hl by (by eapply lookup_lt_Some).
  assert (0 < n) as Np by (apply lookup_lt_Some in E0; done).
  set (ex := [(h, n, 0)]).
  assert (good hash (Is h) (exh ex h) b) as G0 by (by apply (good_weaken hash _ none)).
  assert (forall i, tb (occ nd) i = true -> i = 0) as O1.
  { intros i. cbn. change 1%N with (bit 0). rewrite BucketFacts.tb_bit. intros Q. apply bool_decide_eq_true in Q. done. }
  assert (lv nd 0 = Some x) as Lx by done.
  assert (forall i y, lv nd i = Some y -> i = 0) as Li.
  { intros i y Y. apply lv_some in Y as (Y & _). by apply O1. }
  assert (nwf n nd) as Wn.
  { destruct n as [|n']; [lia|]. split; [done|]. split; [done|]. intros i Q. rewrite (O1 i Q). by exists x. }
  assert (good hash (Is h) (exh ex h) (add_node b nd)) as G1.
  { apply good_new; [done|done|]. intros i y Y. rewrite (Li i y Y). left. }
  destruct (g_chain _ _ _ _ G) as (c0 & P & N & Lc).
  set (b1 := add_node b nd). set (b2 := set_node b1 0 (set_next m (Some n))).
  assert (nodes b1 !! 0 = Some m) as E1 by (by apply add_node_old).
  assert (nodes b1 !! n = Some nd) as En by apply add_node_new.
  assert (nodes b2 !! n = Some nd) as En2.
  { cbn. rewrite list_lookup_insert_ne by lia. done. }
  assert (path (nodes b2) 0 (n :: c0)) as P2.
  { exists (set_next m (Some n)). split; [by eapply set_node_same|]. split; [done|].
    apply (path_retail (nodes b) _ 0 n m nd); [done|done|done| |done].
    intros q d Q Eq. exists d. split; [|done]. cbn. rewrite list_lookup_insert_ne.
    - by apply lookup_app_l_Some.
    - apply list.NoDup_cons in N as [N _]. intros <-. done. }
  assert (NoDup (0 :: n :: c0)) as N2.
  { pose proof (path_lt _ _ _ P) as F. rewrite list.Forall_forall in F. apply list.NoDup_cons in N as [N0 N1].
    apply list.NoDup_cons. split; [|apply list.NoDup_cons; split; [|done]].
    - intros M. apply elem_of_cons in M as [M|M]; [lia|done].
    - intros M. assert (n ∈ 0 :: c0) as M' by (by right). specialize (F n M'). unfold n in F. lia. }
  assert (good hash (Is h) (exh ex h) b2) as G2.
  { apply (good_next hash _ _ b1 0 m (Some n) (n :: c0)); [done|done|done|done|].
    intros k j y Lv NX M. destruct (decide (k = n)) as [->|D]; [right; left|].
    unfold b1 in Lv. rewrite live_add in Lv by done.
    assert (k ∈ 0 :: c0) as Q by (apply (Lc k j y); [done|intros []]). apply elem_of_cons in Q as [->|Q]; [left|right; by right]. }
  set (b3 := Bkt (S (blen b)) (nodes b2) (frozen b)).
  assert (live_at b3 n 0 = Some x) as L3 by (by rewrite (live_at_lv b3 n 0 nd)).
  assert (idle hash (Is h) b3) as I3.
  { split; [|split].
    - apply (good_strengthen hash _ (exh ex h)).
      + apply (good_len hash _ _ b2 (S (blen b)) G2). intros. lia.
      + intros k i y Lv _ Y. apply elem_of_list_singleton in Y. injection Y as -> ->.
        exists nd. split; [done|]. rewrite L3 in Lv. injection Lv as <-.
        split; [cbn; by rewrite Hc|]. split; [done|]. split; [cbn; lia|].
        rewrite (chain_path b3 (n :: c0) P2 N2). right; left.
      + intros k i. unfold exh. apply _.
    - change (S (blen b) = total (nodes b2)). pose proof (total_insert (nodes b1) 0 m (set_next m (Some n)) E1) as T.
      rewrite (count_eq (set_next m (Some n)) m) in T by done. unfold b1, add_node in T. cbn in T. rewrite total_app in T.
      unfold b2, b1, add_node, set_node. cbn. assert (count nd = 1) as C by reflexivity. lia.
    - intros k d i M R. destruct (set_node_lookup b1 0 m _ k d E1 M) as [[-> ->]|[_ M']].
      + cbn in *. by apply (Ti 0 m i).
      + destruct (add_node_lookup _ _ _ _ M') as [[-> ->]|[_ M'']]; [|by apply (Ti k d i)].
        cbn in R. unfold BucketSpec.tb in R. by rewrite N.bits_0 in R. }
  assert (forall b', (b' = b1 \/ b' = b2) -> live_at b' n 0 = Some x) as Lb.
  { intros b' [->| ->]; by rewrite (live_at_lv _ n 0 nd). }
  assert (forall b' h' n' j' b'' y, (b' = b1 \/ b' = b2) -> <[h := b']> bs !! h' = Some b'' -> live_at b'' n' j' = Some y -> (h', n', j') ∈ ex ->
    y.1 ∈ mine \/ exists h' n' j' b'', <[h := b']> bs !! h' = Some b'' /\ live_at b'' n' j' = Some y /\ (h', n', j') ∉ ex) as Cv.
  { intros b' h' n' j' b'' y Q Lb' Lv M. apply elem_of_list_singleton in M as [= -> -> ->].
    rewrite list_lookup_insert in Lb' by done. injection Lb' as <-. rewrite (Lb b' Q) in Lv. injection Lv as <-.
    destruct Mi as [Mi|(h' & n' & j' & b'' & D & Lb' & Lv)]; [by left|]. right. exists h', n', j', b''.
    rewrite list_lookup_insert_ne by done. repeat split; try done. intros M. apply elem_of_list_singleton in M. congruence. }
  cbn [map app]. split; [apply (goods _ _ _ _ _ O L (only_1 h n 0) G0)|].
  split. { apply (cov_free _ ex _ _ b); [done|]. unfold live_at. by rewrite lookup_ge_None_2. }
  exists b. split; [done|]. split.
  { split; [done|]. intros q Nq. cbn in Nq. destruct c0 as [|q' c0]; destruct P as (m0 & Em & P); rewrite E0 in Em; injection Em as <-; [congruence|].
    destruct P as [P1 P']. destruct (path_head _ _ _ P') as (qd & Eq). exists qd. congruence. }
  intros e1 He1. exists b1, ex. split; [done|]. split; [done|].
  split; [apply (goods_insert _ _ _ _ _ O Hl (only_1 h n 0) G1)|].
  split; [intros h' n' j' b'' y; apply Cv; by left|].
  exists b1. split; [by apply list_lookup_insert|]. split.
  { split; [done|]. exists m. split; [done|]. right; right. exists n, nd. repeat split; try done. lia. }
  intros e2 He2. exists b2, ex. split; [cbn [store]; by rewrite (put_some _ _ _ m) by done|]. split; [done|].
  rewrite list_insert_insert. split; [apply (goods_insert _ _ _ _ _ O Hl (only_1 h n 0) G2)|].
  split; [intros h' n' j' b'' y; apply Cv; by right|].
  exists b2. split; [by apply list_lookup_insert|]. split; [done|].
  intros e3 He3. exists b3, []. split; [done|]. split; [apply list_subseteq_nil|]. rewrite list_insert_insert.
  apply Fin; [done|done|lia].
Qed.

(** Both cases. *)
Lemma ones_lt n nd : nwf n nd -> trailing_ones (occ nd) <= size n.
Proof.
  intros (_ & Wd & Wo). destruct (BucketFacts.trailing_ones_spec (occ nd)) as (T1 & T2 & _).
  destruct (decide (trailing_ones (occ nd) <= size n)); [done|]. exfalso.
  destruct (Wo (size n)) as (x & Q); [apply T2; lia|]. apply lookup_lt_Some in Q. lia.
Qed.
Lemma insert_safe E g mine Is h bs b x rest c l :
  bs !! h = Some b -> idle hash (Is h) b -> frozen b = false -> others Is h bs -> insert_writes b x c = Some l ->
  c = partial_hash (hash (okey x)) -> Is h (okey x) ->
  (x.1 ∈ mine \/ exists h' n' j' b', h' <> h /\ bs !! h' = Some b' /\ live_at b' n' j' = Some x) ->
  (forall b' n' j', idle hash (Is h) b' -> live_at b' n' j' = Some x -> forall e, (E <= e)%N -> safe hash e g mine Is [] (<[h := b']> bs) rest) ->
  exists ex, safe hash E g mine Is ex bs (map (pair h) l ++ rest) /\ only h ex /\ (forall n j, (h, n, j) ∈ ex -> live_at b n j = None).
Proof.
  intros L Id Fz O W Hc Ik Mi Fin. pose proof Id as (G & _ & _). unfold insert_writes in W.
  destruct (nodes b !! 0) as [m|] eqn:E0; [|done]. cbn [mbind option_bind] in W.
  pose proof (ones_lt 0 m (g_wf _ _ _ _ G 0 m E0)) as T0. change (size 0) with 32 in T0.
  destruct (trailing_ones (occ m) =? 32)%nat eqn:T.
  - destruct (list_find (fun n => room b n = true) (chain b)) as [[i n]|] eqn:F.
    + apply list_find_Some in F as (Q & R & _). unfold room in R. destruct (nodes b !! n) as [nd|] eqn:En; [|done].
      cbn [mbind option_bind] in W. injection W as <-. apply negb_true_iff, Nat.eqb_neq in R.
      assert (n ∈ chain b) as M by (by eapply elem_of_list_lookup_2).
      assert (n <> 0) as N0.
      { destruct (g_chain _ _ _ _ G) as (c0 & P & N & _). rewrite (chain_path b c0 P N) in M. apply list.NoDup_cons in N as [N _]. by intros ->. }
      pose proof (ones_lt n nd (g_wf _ _ _ _ G n nd En)) as Tn. assert (size n = 8) as S8 by (by destruct n).
      destruct (BucketFacts.trailing_ones_spec (occ nd)) as (_ & _ & T3).
      exists [(h, n, trailing_ones (occ nd))]. split; [|split; [apply only_1|]].
      * apply (insert_slot_safe E g mine Is h bs b n nd x rest); try done; [by right|lia|apply T3; lia|].
        intros b' I' L'. by apply (Fin b' n (trailing_ones (occ nd))).
      * intros n' j' M'. apply elem_of_list_singleton in M' as [= -> ->]. rewrite (live_at_lv _ _ _ _ En).
        destruct (lv nd (trailing_ones (occ nd))) as [y|] eqn:Y; [|done]. apply lv_some in Y as (Y & _). rewrite T3 in Y; [done|lia].
    + injection W as <-. exists [(h, length (nodes b), 0)]. split; [|split; [apply only_1|]].
      * apply (insert_new_safe E g mine Is h bs b m x rest); try done. intros b' I' L'. by apply (Fin b' (length (nodes b)) 0).
      * intros n' j' M'. apply elem_of_list_singleton in M' as [= -> ->]. unfold live_at. by rewrite lookup_ge_None_2.
  - injection W as <-. apply Nat.eqb_neq in T. destruct (BucketFacts.trailing_ones_spec (occ m)) as (_ & _ & T3).
    exists [(h, 0, trailing_ones (occ m))]. split; [|split; [apply only_1|]].
    + apply (insert_slot_safe E g mine Is h bs b 0 m x rest); try done; [left|change (size 0) with 32; lia|apply T3; lia|].
      intros b' I' L'. by apply (Fin b' 0 (trailing_ones (occ m))).
    + intros n' j' M'. apply elem_of_list_singleton in M' as [= -> ->]. rewrite (live_at_lv _ _ _ _ E0).
      destruct (lv m (trailing_ones (occ m))) as [y|] eqn:Y; [|done]. apply lv_some in Y as (Y & _). rewrite T3 in Y; [done|lia].
Qed.
End ops.
