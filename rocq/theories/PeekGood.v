(** Well-formedness of a bucket is kept by the single stores. *)
From Coq Require Import NArith Lia.
From stdpp Require Import prelude list numbers.
From Verif Require BucketSpec BucketFacts BucketOps.
From Verif Require Import PeekModel PeekSpec PeekInv.

Section good.
Context {K V : Type} `{EqDecision K} (hash : K -> N).
Notation obj := (obj K V).
Notation node := (node K V).
Notation bucket := (bucket K V).
Implicit Types (b : bucket) (nd : node) (x : obj) (n j : nat) (I : K -> Prop) (X : nat -> nat -> Prop).

(** ** Entries of a block *)
Definition lv nd j : option obj := if live_in nd j then s ← data nd !! j; s else None.
Lemma live_in_tb nd j : live_in nd j = tb (occ nd) j && negb (tb (rem nd) j).
Proof. reflexivity. Qed.
Lemma live_at_lv b n j nd : nodes b !! n = Some nd -> live_at b n j = lv nd j.
Proof. intros E. unfold live_at. by rewrite E. Qed.
Lemma live_at_inv b n j x : live_at b n j = Some x -> exists nd, nodes b !! n = Some nd /\ lv nd j = Some x.
Proof. unfold live_at. destruct (nodes b !! n) as [nd|] eqn:E; [|done]. intros L. by exists nd. Qed.
Lemma lv_some nd j x : lv nd j = Some x <-> tb (occ nd) j = true /\ tb (rem nd) j = false /\ data nd !! j = Some (Some x).
Proof.
  unfold lv. rewrite live_in_tb. destruct (tb (occ nd) j), (tb (rem nd) j); cbn; try (split; [done|by intros (? & ? & _)]).
  destruct (data nd !! j) as [[y|]|]; cbn; (split; [intros [= ->]; auto|intros (_ & _ & E); by injection E as ->]) || (split; [done|by intros (_ & _ & ?)]).
Qed.
Lemma lv_lt n nd j x : nwf n nd -> lv nd j = Some x -> j < size n.
Proof. intros (_ & D & _) L. apply lv_some in L as (_ & _ & L). rewrite <- D. by eapply lookup_lt_Some. Qed.
Lemma size_32 n : size n <= 32.
Proof. destruct n; cbn; lia. Qed.
Lemma live_is_some n nd j : nwf n nd -> live_in nd j = true -> exists x, lv nd j = Some x.
Proof.
  intros (_ & _ & D) L. rewrite live_in_tb in L. apply andb_prop in L as [O R]. apply negb_true_iff in R.
  destruct (D j O) as (x & E). exists x. by apply lv_some.
Qed.
Definition set_node b n nd : bucket := Bkt (blen b) (<[n := nd]> (nodes b)) (frozen b).
Lemma put_some b n f nd : nodes b !! n = Some nd -> put b n f = Some (set_node b n (f nd)).
Proof. intros E. unfold put. by rewrite E. Qed.
Lemma live_set_eq b n nd nd' j : nodes b !! n = Some nd -> live_at (set_node b n nd') n j = lv nd' j.
Proof. intros E. apply live_at_lv. cbn. apply list_lookup_insert. by eapply lookup_lt_Some. Qed.
Lemma live_set_ne b n m nd' j : n <> m -> live_at (set_node b n nd') m j = live_at b m j.
Proof. intros N. unfold live_at. cbn. by rewrite list_lookup_insert_ne. Qed.
Lemma set_node_lookup b n nd nd' m d : nodes b !! n = Some nd -> nodes (set_node b n nd') !! m = Some d ->
  (m = n /\ d = nd') \/ (m <> n /\ nodes b !! m = Some d).
Proof.
  intros E L. cbn in L. destruct (decide (m = n)) as [->|N].
  - rewrite list_lookup_insert in L by (by eapply lookup_lt_Some). injection L as <-. by left.
  - rewrite list_lookup_insert_ne in L by done. by right.
Qed.

(** ** Chains *)
Lemma path_head (ns : list node) n c : path ns n c -> exists nd, ns !! n = Some nd.
Proof. destruct c; intros (nd & E & _); by exists nd. Qed.
(** [path] depends only on the links of the blocks it goes through. *)
Lemma path_ext (ns ns' : list node) c : forall n,
  (forall m nd, m ∈ n :: c -> ns !! m = Some nd -> exists nd', ns' !! m = Some nd' /\ next nd' = next nd) ->
  path ns n c -> path ns' n c.
Proof.
  induction c as [|q c IH]; intros n A (nd & E & P).
  - destruct (A n nd) as (nd' & E' & N); [left|done|]. exists nd'. split; [done|congruence].
  - destruct (A n nd) as (nd' & E' & N); [left|done|]. exists nd'. split; [done|]. destruct P as [P1 P2].
    split; [congruence|]. apply IH; [|done]. intros m d M. apply A. by right.
Qed.
Lemma path_set (ns : list node) n nd nd' m c : ns !! n = Some nd -> next nd' = next nd -> path ns m c -> path (<[n := nd']> ns) m c.
Proof.
  intros E N. apply path_ext. intros q d _ Q. destruct (decide (q = n)) as [->|D].
  - exists nd'. rewrite E in Q. injection Q as <-. split; [|done]. apply list_lookup_insert. by eapply lookup_lt_Some.
  - exists d. by rewrite list_lookup_insert_ne.
Qed.
Lemma path_app (ns : list node) l m c : path ns m c -> path (ns ++ l) m c.
Proof. apply path_ext. intros q d _ Q. exists d. split; [|done]. by apply lookup_app_l_Some. Qed.
Lemma path_fun (ns : list node) c : forall n c', path ns n c -> path ns n c' -> c = c'.
Proof.
  induction c as [|q c IH]; intros n [|q' c'] (nd & E & P) (nd' & E' & P'); rewrite E in E'; injection E' as <-; try done.
  - destruct P' as [P' _]. congruence.
  - destruct P as [P _]. congruence.
  - destruct P as [P1 P2], P' as [P1' P2']. rewrite P1 in P1'. injection P1' as <-. f_equal. by eapply IH.
Qed.
Lemma path_lt (ns : list node) c : forall n, path ns n c -> Forall (fun q => q < length ns) (n :: c).
Proof.
  induction c as [|q c IH]; intros n (nd & E & P); constructor; try (by eapply lookup_lt_Some); [done|].
  apply IH. apply P.
Qed.
Lemma chain_from_path (ns : list node) c : forall n f, path ns n c -> length c < f -> chain_from f ns n = c.
Proof.
  induction c as [|q c IH]; intros n [|f] (nd & E & P) L; cbn in L; try lia; cbn [chain_from]; rewrite E; cbn.
  - by rewrite P.
  - destruct P as [-> P]. f_equal. apply IH; [done|lia].
Qed.
Lemma nodup_lt_length (l : list nat) m : NoDup l -> Forall (fun q => q < m) l -> length l <= m.
Proof.
  intros N F. rewrite <- (seq_length m 0). apply submseteq_length. apply NoDup_submseteq; [done|].
  intros q Q. rewrite list.Forall_forall in F. apply elem_of_seq. specialize (F q Q). lia.
Qed.
Lemma chain_path b c : path (nodes b) 0 c -> NoDup (0 :: c) -> chain b = c.
Proof.
  intros P N. apply chain_from_path; [done|]. pose proof (nodup_lt_length _ _ N (path_lt _ _ _ P)) as L. cbn in L. lia.
Qed.

(** ** Good buckets *)
Lemma good_weaken I X X' b : (forall n j, X n j -> X' n j) -> good hash I X b -> good hash I X' b.
Proof.
  intros A [W C (c & P & N & L)]. split; [done| |].
  - intros n j x nd E Lv NX. apply (C n j x nd); auto.
  - exists c. repeat split; auto. intros n j x Lv NX. apply (L n j x); auto.
Qed.
Lemma good_ext I X X' b : (forall n j, X n j <-> X' n j) -> good hash I X b -> good hash I X' b.
Proof. intros A. apply good_weaken. intros n j. apply A. Qed.
(** A change of one block that keeps its link and adds no entry except exempted ones. *)
Lemma good_node I X b n nd nd' : good hash I X b -> nodes b !! n = Some nd -> nwf n nd' -> next nd' = next nd ->
  (forall j x, lv nd' j = Some x -> ~ X n j -> lv nd j = Some x /\ cells nd' !! j = cells nd !! j) ->
  good hash I X (set_node b n nd').
Proof.
  intros [W C (c & P & N & L)] E W' Nx A. split.
  - intros m d M. destruct (set_node_lookup _ _ _ _ _ _ E M) as [[-> ->]|[_ M']]; [done|by eapply W].
  - intros m j x d M Lv NX. destruct (set_node_lookup _ _ _ _ _ _ E M) as [[-> ->]|[D M']].
    + rewrite (live_set_eq _ _ _ _ _ E) in Lv. destruct (A j x Lv NX) as [Lv' Ce].
      rewrite Ce. apply (C n j x nd); [done| |done]. by rewrite (live_at_lv _ _ _ _ E).
    + rewrite live_set_ne in Lv by done. by apply (C m j x d).
  - exists c. split; [by eapply path_set|]. split; [done|]. intros m j x Lv NX.
    destruct (decide (m = n)) as [->|D].
    + rewrite (live_set_eq _ _ _ _ _ E) in Lv. destruct (A j x Lv NX) as [Lv' _].
      apply (L n j x); [|done]. by rewrite (live_at_lv _ _ _ _ E).
    + rewrite live_set_ne in Lv by done. by apply (L m j x).
Qed.
Lemma good_len I X b l : good hash I X b -> (forall n j x, live_at b n j = Some x -> ~ X n j -> 1 <= l) ->
  good hash I X (Bkt l (nodes b) (frozen b)).
Proof.
  intros [W C (c & P & N & L)] A. split; [done| |].
  - intros n j x nd E Lv NX. destruct (C n j x nd E Lv NX) as (C1 & C2 & _). repeat split; try done. cbn. by apply (A n j x).
  - exists c. repeat split; auto.
Qed.
Lemma good_freeze I X b f : good hash I X b -> good hash I X (Bkt (blen b) (nodes b) f).
Proof. intros [W C L]. by split. Qed.
(** Fewer exemptions. *)
Lemma good_strengthen I X X' b : good hash I X b ->
  (forall n j x, live_at b n j = Some x -> ~ X' n j -> X n j -> exists nd, nodes b !! n = Some nd /\
     cells nd !! j = Some (partial_hash (hash (okey x))) /\ I (okey x) /\ 1 <= blen b /\ n ∈ 0 :: chain b) ->
  (forall n j, Decision (X n j)) -> good hash I X' b.
Proof.
  intros [W C (c & P & N & L)] A D. split; [done| |].
  - intros n j x nd E Lv NX. destruct (decide (X n j)) as [Y|Y]; [|by apply (C n j x nd)].
    destruct (A n j x Lv NX Y) as (nd' & E' & ? & ? & ? & _). rewrite E in E'. injection E' as <-. done.
  - exists c. repeat split; auto. intros n j x Lv NX. destruct (decide (X n j)) as [Y|Y]; [|by apply (L n j x)].
    destruct (A n j x Lv NX Y) as (nd' & E' & _ & _ & _ & M). by rewrite (chain_path b c P N) in M.
Qed.
(** A new block. *)
Definition add_node b nd : bucket := Bkt (blen b) (nodes b ++ [nd]) (frozen b).
Lemma live_add b nd n j : n <> length (nodes b) -> live_at (add_node b nd) n j = live_at b n j.
Proof.
  intros N. unfold live_at. cbn. destruct (decide (n < length (nodes b))).
  - by rewrite lookup_app_l.
  - rewrite lookup_app_r by lia. rewrite (lookup_ge_None_2 (nodes b)) by lia.
    destruct (n - length (nodes b)) eqn:Q; [lia|done].
Qed.
Lemma add_node_new b nd : nodes (add_node b nd) !! length (nodes b) = Some nd.
Proof. cbn. by rewrite lookup_app_r, Nat.sub_diag by lia. Qed.
Lemma add_node_old b nd n d : nodes b !! n = Some d -> nodes (add_node b nd) !! n = Some d.
Proof. intros E. cbn. by apply lookup_app_l_Some. Qed.
Lemma add_node_lookup b nd n d : nodes (add_node b nd) !! n = Some d ->
  (n = length (nodes b) /\ d = nd) \/ (n <> length (nodes b) /\ nodes b !! n = Some d).
Proof.
  cbn. intros L. destruct (decide (n < length (nodes b))).
  - rewrite lookup_app_l in L by done. right. split; [lia|done].
  - rewrite lookup_app_r in L by lia. destruct (n - length (nodes b)) eqn:Q; [|done]. cbn in L. injection L as <-.
    left. split; [lia|done].
Qed.
Lemma good_new I X b nd : good hash I X b -> nwf (length (nodes b)) nd ->
  (forall j x, lv nd j = Some x -> X (length (nodes b)) j) -> good hash I X (add_node b nd).
Proof.
  intros [W C (c & P & N & L)] W' A.
  assert (forall n j x, live_at (add_node b nd) n j = Some x -> ~ X n j -> n <> length (nodes b)) as D.
  { intros n j x Lv NX ->. apply NX, (A j x). by rewrite (live_at_lv _ _ _ _ (add_node_new b nd)) in Lv. }
  split.
  - intros n d M. destruct (add_node_lookup _ _ _ _ M) as [[-> ->]|[_ M']]; [done|by eapply W].
  - intros n j x d M Lv NX. pose proof (D n j x Lv NX) as Ne. destruct (add_node_lookup _ _ _ _ M) as [[-> ->]|[_ M']]; [done|].
    rewrite live_add in Lv by done. by apply (C n j x d).
  - exists c. split; [by apply path_app|]. split; [done|]. intros n j x Lv NX. pose proof (D n j x Lv NX).
    rewrite live_add in Lv by done. by apply (L n j x).
Qed.
(** Changes of links. *)
Definition set_next nd q : node := Node (occ nd) (rem nd) (cells nd) (data nd) q.
Lemma live_set_next b n nd q m j : nodes b !! n = Some nd -> live_at (set_node b n (set_next nd q)) m j = live_at b m j.
Proof.
  intros E. destruct (decide (n = m)) as [<-|D]; [|by apply live_set_ne].
  rewrite (live_set_eq _ _ _ _ _ E), (live_at_lv _ _ _ _ E). reflexivity.
Qed.
Lemma good_next I X b n nd q c : good hash I X b -> nodes b !! n = Some nd ->
  path (nodes (set_node b n (set_next nd q))) 0 c -> NoDup (0 :: c) ->
  (forall m j x, live_at b m j = Some x -> ~ X m j -> m ∈ 0 :: chain b -> m ∈ 0 :: c) ->
  good hash I X (set_node b n (set_next nd q)).
Proof.
  intros [W C (c0 & P & N & L)] E P' N' A. split.
  - intros m d M. destruct (set_node_lookup _ _ _ _ _ _ E M) as [[-> ->]|[_ M']]; [apply (W n nd E)|by eapply W].
  - intros m j x d M Lv NX. rewrite (live_set_next _ _ _ _ _ _ E) in Lv.
    destruct (set_node_lookup _ _ _ _ _ _ E M) as [[-> ->]|[_ M']]; [by apply (C n j x nd)|by apply (C m j x d)].
  - exists c. split; [done|]. split; [done|]. intros m j x Lv NX. rewrite (live_set_next _ _ _ _ _ _ E) in Lv.
    apply (A m j x); [done|done|]. rewrite (chain_path b c0 P N). by apply (L m j x).
Qed.

(** ** Counting *)
Local Arguments count : simpl never.
Lemma total_insert (ns : list node) n nd nd' : ns !! n = Some nd -> total (<[n := nd']> ns) + count nd = total ns + count nd'.
Proof.
  revert n. induction ns as [|d ns IH]; intros [|n] E; try done.
  - injection E as ->. unfold total. change (<[0 := nd']> (nd :: ns)) with (nd' :: ns). cbn. lia.
  - specialize (IH n E). change (<[S n := nd']> (d :: ns)) with (d :: <[n := nd']> ns). unfold total in *. cbn. lia.
Qed.
Lemma total_app (ns : list node) nd : total (ns ++ [nd]) = total ns + count nd.
Proof. unfold total. induction ns as [|d ns IH]; cbn in *; lia. Qed.
Lemma total_ge (ns : list node) n nd : ns !! n = Some nd -> count nd <= total ns.
Proof.
  revert n. unfold total. induction ns as [|d ns IH]; intros [|n] E; try done; cbn in *.
  - injection E as ->. lia.
  - specialize (IH n E). lia.
Qed.
Lemma count_pos n nd j x : nwf n nd -> lv nd j = Some x -> 1 <= count nd.
Proof.
  intros W Lv. unfold count. assert (j ∈ filter (fun j => live_in nd j = true) (seq 0 32)) as M.
  { apply elem_of_list_filter. split; [|apply elem_of_seq; pose proof (lv_lt _ _ _ _ W Lv); pose proof (size_32 n); lia].
    rewrite live_in_tb. apply lv_some in Lv as (-> & -> & _). done. }
  destruct (filter _ _); [by apply elem_of_nil in M|cbn; lia].
Qed.
Lemma total_pos b n j x : (forall n nd, nodes b !! n = Some nd -> nwf n nd) -> live_at b n j = Some x -> 1 <= total (nodes b).
Proof.
  intros W L. destruct (live_at_inv _ _ _ _ L) as (nd & E & Lv). pose proof (total_ge _ _ _ E).
  pose proof (count_pos n nd j x (W n nd E) Lv). lia.
Qed.
Lemma count_eq nd nd' : (forall j, live_in nd j = live_in nd' j) -> count nd = count nd'.
Proof. intros A. unfold count. f_equal. apply BucketFacts.filter_ext_in. intros j _. by rewrite A. Qed.
Lemma count_set nd nd' j : j < 32 -> live_in nd j = false -> live_in nd' j = true ->
  (forall i, i <> j -> live_in nd' i = live_in nd i) -> count nd' = S (count nd).
Proof.
  intros J F T A. unfold count. apply (BucketFacts.filter_seq_clear _ _ _ _ j); [|done|lia].
  intros i. destruct (decide (i = j)) as [->|N]; [rewrite F; split; [done|by intros [_ ?]]|].
  rewrite A by done. tauto.
Qed.
End good.
