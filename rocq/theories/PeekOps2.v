(** The stores of removal, transfer, clean-up and reservation are safe. *)
From Coq Require Import NArith Lia.
From stdpp Require Import prelude list numbers.
From Verif Require BucketSpec BucketFacts BucketOps.
From Verif Require Import PeekModel PeekSpec PeekInv PeekGood PeekOps.

Section ops.
Context {K V : Type} `{EqDecision K} (hash : K -> N).
Notation obj := (obj K V).
Notation node := (node K V).
Notation bucket := (bucket K V).
Implicit Types (b : bucket) (nd : node) (x : obj) (n j h : nat) (I : K -> Prop) (X : nat -> nat -> Prop).
Implicit Types (E g : N) (Is : nat -> K -> Prop) (bs : list bucket) (ex : list (nat * nat * nat)).
Local Arguments count : simpl never.
Local Arguments total : simpl never.
Local Arguments size : simpl never.
Local Arguments BucketModel.bit : simpl never.
Local Arguments BucketModel.trailing_ones : simpl never.
Local Arguments BucketSpec.tb : simpl never.
Local Arguments N.lor : simpl never.
Local Arguments N.ldiff : simpl never.
Local Arguments live_at : simpl never.
Local Arguments lv : simpl never.

Lemma others_1 Is b : others hash Is 0 [b].
Proof. intros [|h] b' N L; [done|]. by destruct h. Qed.
Lemma exh_nil h n j : exh [] h n j <-> none n j.
Proof. unfold exh, none. split; [apply not_elem_of_nil|done]. Qed.
Lemma good_nil I h b : good hash I none b -> good hash I (exh [] h) b.
Proof. apply good_weaken. intros n j []. Qed.
(** Removing the entry of one slot. *)
Lemma total_minus b n nd nd' j x : (forall n nd, nodes b !! n = Some nd -> nwf n nd) -> nodes b !! n = Some nd -> lv nd j = Some x ->
  live_in nd' j = false -> (forall i, i <> j -> live_in nd' i = live_in nd i) ->
  total (nodes b) = S (total (<[n := nd']> (nodes b))).
Proof.
  intros W En Lv F A. pose proof (total_insert (nodes b) n nd nd' En) as T.
  assert (count nd = S (count nd')) as C.
  { apply (count_set nd' nd j); [pose proof (lv_lt n nd j x (W n nd En) Lv); pose proof (size_32 n); lia|done| |].
    - rewrite live_in_tb. apply lv_some in Lv as (-> & -> & _). done.
    - intros i N. by rewrite A. }
  lia.
Qed.

(** ** Removal *)
Lemma mark_safe E g mine Is b n j x nd :
  idle hash (Is 0) b -> frozen b = false -> nodes b !! n = Some nd -> live_at b n j = Some x -> x.1 ∈ mine -> (g <= E)%N ->
  safe hash E g mine Is [(0, n, j)] [b]
    (map (pair 0) [WLen (pred (blen b)); WStamp n j; WRem n (N.lor (rem nd) (bit j))]).
Proof.
  intros (G & Ln & Ti) Fz En Lv Mi Ge. set (ex := [(0, n, j)]).
  pose proof (g_wf _ _ _ _ G) as W. destruct (W n nd En) as (Wc & Wd & Wo).
  assert (lv nd j = Some x) as Lj by (by rewrite <- (live_at_lv _ _ _ _ En)).
  pose proof (lv_lt n nd j x (W n nd En) Lj) as Js. apply lv_some in Lj as (Oj & Rj & Dj).
  assert (good hash (Is 0) (exh ex 0) b) as G0 by (by apply (good_weaken hash _ none)).
  set (nd2 := fun e => Node (occ nd) (rem nd) (<[j := byte e]> (cells nd)) (data nd) (next nd)).
  set (nd3 := fun e => Node (occ nd) (N.lor (rem nd) (bit j)) (<[j := byte e]> (cells nd)) (data nd) (next nd)).
  assert (forall e, nwf n (nd2 e)) as W2 by (intros e; split; [cbn; by rewrite insert_length|done]).
  assert (forall e, nwf n (nd3 e)) as W3 by (intros e; split; [cbn; by rewrite insert_length|done]).
  assert (forall e i, i <> j -> live_in (nd3 e) i = live_in nd i) as A3.
  { intros e i N. rewrite !live_in_tb. cbn. by rewrite BucketFacts.tb_lor, BucketFacts.tb_bit, bool_decide_eq_false_2, orb_false_r. }
  assert (forall e, live_in (nd3 e) j = false) as F3.
  { intros e. rewrite live_in_tb. cbn. rewrite BucketFacts.tb_lor, BucketFacts.tb_bit, bool_decide_eq_true_2, orb_true_r by done. by rewrite andb_false_r. }
  assert (forall e i, i <> j -> lv (nd3 e) i = lv nd i) as L3 by (intros e i N; unfold lv; by rewrite A3).
  assert (forall e, total (nodes b) = S (total (<[n := nd3 e]> (nodes b)))) as T3.
  { intros e. apply (total_minus b n nd (nd3 e) j x); auto. apply lv_some. auto. }
  set (l := pred (blen b)).
  assert (forall m i y, live_at b m i = Some y -> ~ exh ex 0 m i -> 1 <= l) as Pos.
  { intros m i y Ly NX. specialize (T3 0%N).
    assert (live_at (set_node b n (nd3 0%N)) m i = Some y) as Q.
    { destruct (decide (n = m)) as [<-|D]; [|by rewrite live_set_ne].
      rewrite (live_set_eq _ _ _ _ _ En), L3; [by rewrite <- (live_at_lv _ _ _ _ En)|]. intros ->. apply NX. left. }
    apply total_pos in Q; [unfold l; rewrite Ln; cbn in Q; lia|].
    intros m' d M. destruct (set_node_lookup b n nd _ m' d En M) as [[-> ->]|[_ M']]; [apply W3|by apply W]. }
  set (b1 := Bkt l (nodes b) (frozen b)).
  assert (nodes b1 !! n = Some nd) as En1 by done.
  assert (good hash (Is 0) (exh ex 0) b1) as G1 by (by apply good_len).
  assert (forall e, good hash (Is 0) (exh ex 0) (set_node b1 n (nd2 e))) as G2.
  { intros e. apply (good_node hash _ _ b1 n nd); try done. intros i y Y NX. split; [done|]. cbn.
    rewrite list_lookup_insert_ne; [done|]. intros <-. apply NX. left. }
  assert (forall e, idle hash (Is 0) (set_node b1 n (nd3 e))) as I3.
  { intros e. split; [|split].
    - apply (good_strengthen hash _ (exh ex 0)).
      + apply (good_node hash _ _ b1 n nd); try done. intros i y Y NX.
        assert (i <> j) as N by (intros ->; apply NX; left). rewrite L3 in Y by done. split; [done|].
        cbn. by rewrite list_lookup_insert_ne.
      + intros m i y Ly _ Y. exfalso. apply elem_of_list_singleton in Y as [= -> ->].
        rewrite (live_set_eq b1 _ _ _ _ En1) in Ly. unfold lv in Ly. by rewrite F3 in Ly.
      + intros m i. unfold exh. apply _.
    - cbn. specialize (T3 e). unfold l. rewrite Ln, T3. done.
    - intros m d i M R. destruct (set_node_lookup b1 n nd _ m d En1 M) as [[-> ->]|[_ M']].
      + cbn in *. rewrite BucketFacts.tb_lor, BucketFacts.tb_bit in R. apply orb_prop in R as [R|R]; [by apply (Ti n nd i)|].
        apply bool_decide_eq_true in R. by subst.
      + by apply (Ti m d i). }
  assert (forall b', (b' = b \/ b' = b1 \/ exists e, b' = set_node b1 n (nd2 e)) -> cov mine ex [b']) as Cv.
  { intros b' Q h m i b'' y Lb Ly M. apply elem_of_list_singleton in M. injection M as -> -> ->.
    cbn in Lb. injection Lb as <-. assert (live_at b' n j = Some x) as Lx.
    { destruct Q as [->|[->|(e & ->)]]; [done|done|]. rewrite (live_set_eq b1 _ _ _ _ En1). apply lv_some. done. }
    rewrite Lx in Ly. injection Ly as <-. by left. }
  cbn [map]. split; [apply (goods hash _ 0 _ _ _ (others_1 Is b) eq_refl (only_1 0 n j) G0)|]. split; [apply Cv; by left|].
  exists b. split; [done|]. split; [done|]. intros e1 He1. exists b1, ex. split; [done|]. split; [done|].
  split; [apply (goods hash _ 0 _ _ _ (others_1 Is b1) eq_refl (only_1 0 n j) G1)|]. split; [apply Cv; right; by left|].
  exists b1. split; [done|]. split. { split; [done|]. split; [left|]. by exists nd. }
  intros e2 He2. exists (set_node b1 n (nd2 e2)), ex. split; [cbn [store]; by rewrite (put_some _ _ _ nd)|]. split; [done|].
  split; [apply (goods hash _ 0 _ _ _ (others_1 Is _) eq_refl (only_1 0 n j) (G2 e2))|]. split; [apply Cv; right; right; by exists e2|].
  exists (set_node b1 n (nd2 e2)). split; [done|]. split.
  { split; [done|]. exists (nd2 e2). split; [by eapply set_node_same|]. left. exists j, e2. repeat split; try done; [left| |lia].
    cbn. apply list_lookup_insert. lia. }
  intros e3 He3. exists (set_node b1 n (nd3 e2)), [].
  split. { cbn [store]. rewrite (put_some _ _ _ (nd2 e2)) by (by eapply set_node_same). by rewrite set_node_set. }
  split; [apply list_subseteq_nil|]. split.
  { apply (goods hash _ 0 _ _ _ (others_1 Is _) eq_refl); [intros ? ? ? M; by apply elem_of_nil in M|]. apply good_nil, I3. }
  split; [apply cov_nil|]. split; [done|]. intros [|h] b' Lb; [|by destruct h]. cbn in Lb. injection Lb as <-. apply I3.
Qed.

(** ** Transfer, after the insertion *)
Lemma out_safe E g mine Is s t n j x nd n' j' :
  idle hash (Is 0) s -> frozen s = true -> idle hash (Is 1) t -> nodes s !! n = Some nd -> live_at s n j = Some x ->
  live_at t n' j' = Some x ->
  safe hash E g mine Is [] [s; t] (map (pair 0) [WOcc n (N.ldiff (occ nd) (bit j)); WLen (pred (blen s))]).
Proof.
  intros (G & Ln & Ti) Fz It En Lv Lt.
  pose proof (g_wf _ _ _ _ G) as W. destruct (W n nd En) as (Wc & Wd & Wo).
  assert (lv nd j = Some x) as Lj by (by rewrite <- (live_at_lv _ _ _ _ En)).
  set (nd1 := Node (N.ldiff (occ nd) (bit j)) (rem nd) (cells nd) (data nd) (next nd)).
  assert (forall i, tb (occ nd1) i = tb (occ nd) i && negb (bool_decide (j = i))) as O1.
  { intros i. cbn. by rewrite BucketFacts.tb_ldiff, BucketFacts.tb_bit. }
  assert (nwf n nd1) as W1.
  { split; [done|]. split; [done|]. intros i Q. rewrite O1 in Q. apply andb_prop in Q as [Q _]. by apply Wo. }
  assert (forall i, i <> j -> live_in nd1 i = live_in nd i) as A1.
  { intros i N. rewrite !live_in_tb, O1, bool_decide_eq_false_2 by done. cbn. by rewrite andb_true_r. }
  assert (live_in nd1 j = false) as F1.
  { rewrite live_in_tb, O1, bool_decide_eq_true_2 by done. by rewrite andb_false_r. }
  assert (forall i y, lv nd1 i = Some y -> lv nd i = Some y) as L1.
  { intros i y Y. destruct (decide (i = j)) as [->|N]; [unfold lv in Y; by rewrite F1 in Y|]. unfold lv in *. by rewrite A1 in Y. }
  assert (total (nodes s) = S (total (<[n := nd1]> (nodes s)))) as T1.
  { apply (total_minus s n nd nd1 j x); auto. }
  set (s1 := set_node s n nd1).
  assert (good hash (Is 0) none s1) as G1.
  { apply (good_node hash _ _ s n nd); try done. intros i y Y _. split; [by apply L1|done]. }
  set (s2 := Bkt (pred (blen s)) (nodes s1) (frozen s)).
  assert (idle hash (Is 0) s2) as I2.
  { split; [|split].
    - apply (good_len hash _ _ s1 (pred (blen s))); [done|]. intros m i y Ly _. apply total_pos in Ly; [|apply (g_wf _ _ _ _ G1)].
      rewrite Ln. cbn in Ly. lia.
    - cbn. rewrite Ln, T1. done.
    - intros m d i M R. destruct (set_node_lookup s n nd nd1 m d En M) as [[-> ->]|[_ M']].
      + rewrite O1. cbn in R. rewrite (Ti n nd i En R). apply lv_some in Lj as (_ & Rj & _).
        rewrite bool_decide_eq_false_2; [done|]. intros ->. congruence.
      + by apply (Ti m d i). }
  assert (forall s', good hash (Is 0) none s' -> forall h b, [s'; t] !! h = Some b -> good hash (Is h) (exh [] h) b) as Gs.
  { intros s' G' [|[|h]] b Lb; cbn in Lb; [| |by destruct h]; injection Lb as <-; apply good_nil; [done|apply It]. }
  cbn [map]. split; [by apply Gs|]. split; [apply cov_nil|]. exists s. split; [done|]. split.
  { exists nd. split; [done|]. right; right. split; [done|]. split; [done|]. exists j, x. split; [done|]. split; [done|].
    exists t, n', j'. repeat split; try done. apply not_elem_of_nil. }
  intros e1 He1. exists s1, []. split; [cbn [store]; by rewrite (put_some _ _ _ nd)|]. split; [done|].
  split; [by apply Gs|]. split; [apply cov_nil|]. exists s1. split; [done|]. split; [done|].
  intros e2 He2. exists s2, []. split; [done|]. split; [done|]. split; [apply Gs, I2|]. split; [apply cov_nil|].
  split; [done|]. intros [|[|h]] b Lb; cbn in Lb; [| |by destruct h]; injection Lb as <-; done.
Qed.

(** ** Reservation *)
Lemma last_default {A} (l : list A) (a b : A) : default a (list.last (b :: l)) = default b (list.last l).
Proof. rewrite last_cons. by destruct (list.last l). Qed.
Lemma path_last (ns : list node) c : forall m, path ns m c -> exists nd, ns !! (default m (list.last c)) = Some nd /\ next nd = None.
Proof.
  induction c as [|q c IH]; intros m P.
  - destruct P as (nd & E & N). by exists nd.
  - destruct P as (nd & E & _ & P). destruct (IH q P) as (d & Ed & Nd). exists d. split; [|done].
    by rewrite last_default.
Qed.
Lemma path_extend (ns : list node) c : forall m L nd, path ns m c -> NoDup (m :: c) -> ns !! L = Some nd -> next nd = None -> L ∉ m :: c ->
  forall pd, ns !! (default m (list.last c)) = Some pd -> path (<[default m (list.last c) := set_next pd (Some L)]> ns) m (c ++ [L]).
Proof.
  induction c as [|q c IH]; intros m L nd P N EL NL NI pd Ep.
  - cbn in *. exists (set_next pd (Some L)). split; [apply list_lookup_insert; by eapply lookup_lt_Some|]. split; [done|].
    exists nd. split; [|done]. rewrite list_lookup_insert_ne; [done|]. intros ->. apply NI. left.
  - destruct P as (d & E & Q & P). rewrite last_default in *.
    set (p := default q (list.last c)) in *. apply list.NoDup_cons in N as [N1 N2].
    assert (p ∈ q :: c) as Pi.
    { unfold p. destruct (list.last c) as [z|] eqn:Z; cbn; [right; by apply last_Some_elem_of|left]. }
    exists d. split; [rewrite list_lookup_insert_ne; [done|]; intros ->; done|]. split; [done|].
    apply (IH q L nd); try done. intros M. apply NI. by right.
Qed.
Lemma reserve_safe E g mine Is b n :
  idle hash (Is 0) b -> frozen b = false -> list.last (chain b) = Some n ->
  safe hash E g mine Is [] [b] (map (pair 0) [WNew (new_node 8); WNext n (Some (length (nodes b)))]).
Proof.
  intros (G & Ln & Ti) Fz La. destruct (g_chain _ _ _ _ G) as (c & P & N & Lc). rewrite (chain_path b c P N) in La.
  set (L := length (nodes b)). set (nn := new_node (K:=K) (V:=V) 8). set (b1 := add_node b nn).
  destruct (path_last _ _ _ P) as (nd & En & Nn). rewrite La in En. cbn in En.
  assert (L <> 0) as L0.
  { destruct (path_head _ _ _ P) as (d & Ed). apply lookup_lt_Some in Ed. unfold L. lia. }
  assert (forall j, lv nn j = None) as Le by (intros j; unfold lv; by rewrite live_in_tb).
  assert (good hash (Is 0) none b1) as G1.
  { apply good_new; [done| |].
    - change (length (nodes b)) with L. destruct L as [|L']; [done|]. split; [done|]. split; [done|]. intros j Q. by rewrite BucketFacts.tb_0 in Q.
    - intros j x Q. by rewrite Le in Q. }
  assert (nodes b1 !! n = Some nd) as En1 by (by apply add_node_old).
  set (b2 := set_node b1 n (set_next nd (Some L))).
  assert (L ∉ 0 :: c) as NI.
  { intros M. pose proof (path_lt _ _ _ P) as F. rewrite list.Forall_forall in F. specialize (F L M). unfold L in F. lia. }
  assert (path (nodes b2) 0 (c ++ [L])) as P2.
  { pose proof (path_extend (nodes b1) c 0 L nn) as X. rewrite La in X. cbn in X. apply X; try done.
    - by apply path_app.
    - apply add_node_new. }
  assert (NoDup (0 :: c ++ [L])) as N2.
  { change (NoDup ((0 :: c) ++ [L])). apply NoDup_app. repeat split; [done| |apply NoDup_singleton].
    intros z Z1 Z2. apply elem_of_list_singleton in Z2 as ->. done. }
  assert (good hash (Is 0) none b2) as G2.
  { apply (good_next hash _ _ b1 n nd (Some L) (c ++ [L])); try done.
    intros m j x Lv NX _. assert (m <> L) as D.
    { intros ->. rewrite (live_at_lv _ _ _ _ (add_node_new b nn)) in Lv. by rewrite Le in Lv. }
    unfold b1 in Lv. rewrite live_add in Lv by done. change (m ∈ (0 :: c) ++ [L]). apply elem_of_app. left. by apply (Lc m j x). }
  assert (total (nodes b2) = total (nodes b)) as T2.
  { pose proof (total_insert (nodes b1) n nd (set_next nd (Some L)) En1) as T. rewrite (count_eq (set_next nd (Some L)) nd) in T by done.
    unfold b2, b1 in *. cbn in *. rewrite total_app in T. assert (count nn = 0) by reflexivity. lia. }
  assert (idle hash (Is 0) b2) as I2.
  { split; [done|]. split; [cbn; unfold b2, b1 in T2; cbn in T2; lia|].
    intros m d i M R. destruct (set_node_lookup b1 n nd _ m d En1 M) as [[-> ->]|[_ M']]; [by apply (Ti n nd i)|].
    destruct (add_node_lookup _ _ _ _ M') as [[-> ->]|[_ M'']]; [|by apply (Ti m d i)]. by rewrite BucketFacts.tb_0 in R. }
  assert (forall b', good hash (Is 0) none b' -> forall h b'', [b'] !! h = Some b'' -> good hash (Is h) (exh [] h) b'') as Gs.
  { intros b' G' [|h] b'' Lb; cbn in Lb; [|by destruct h]; injection Lb as <-; by apply good_nil. }
  cbn [map]. split; [by apply Gs|]. split; [apply cov_nil|]. exists b. split; [done|]. split; [by split|].
  intros e1 _. exists b1, []. split; [done|]. split; [done|]. split; [by apply Gs|]. split; [apply cov_nil|].
  exists b1. split; [done|]. split. { split; [done|]. exists nd. split; [done|]. right. left. split; [done|]. exists L, nn. split; [done|]. apply add_node_new. }
  intros e2 _. exists b2, []. split; [cbn [store]; by rewrite (put_some _ _ _ nd)|]. split; [done|].
  split; [by apply Gs|]. split; [apply cov_nil|]. split; [done|].
  intros [|h] b' Lb; [|by destruct h]. cbn in Lb. injection Lb as <-. done.
Qed.

(** ** Clean-up *)
Lemma drops_safe E g mine Is b n nd rest js :
  idle hash (Is 0) b -> frozen b = false -> nodes b !! n = Some nd -> Forall (fun j => tb (occ nd) j = false) js ->
  (forall b' nd', idle hash (Is 0) b' -> frozen b' = false -> b' = set_node b n nd' -> occ nd' = occ nd -> next nd' = next nd ->
     forall e, (E <= e)%N -> safe hash e g mine Is [] [b'] rest) ->
  safe hash E g mine Is [] [b] (map (pair 0) (map (WDrop n) js) ++ rest).
Proof.
  revert E b nd. induction js as [|j js IH]; intros E b nd Id Fz En F Fin.
  - cbn [map app]. apply (Fin b nd); try done. unfold set_node. rewrite list_insert_id by done. by destruct b.
  - inversion_clear F as [|? ? Fj Fjs]. cbn [map app].
    set (nd' := Node (occ nd) (rem nd) (cells nd) (<[j := None]> (data nd)) (next nd)). destruct Id as (G & Ln & Ti).
    destruct (g_wf _ _ _ _ G n nd En) as (Wc & Wd & Wo).
    assert (forall i, lv nd' i = lv nd i) as Lv.
    { intros i. unfold lv. rewrite !live_in_tb. cbn. destruct (decide (i = j)) as [->|D]; [by rewrite Fj|]. by rewrite list_lookup_insert_ne. }
    assert (idle hash (Is 0) (set_node b n nd')) as I'.
    { split; [|split].
      - apply (good_node hash _ _ b n nd); try done.
        + split; [done|]. split; [cbn; by rewrite insert_length|]. intros i Q. cbn in *. rewrite list_lookup_insert_ne; [by apply Wo|]. intros <-. congruence.
        + intros i y Y _. split; [by rewrite <- Lv|done].
      - cbn. pose proof (total_insert (nodes b) n nd nd' En) as T. rewrite (count_eq nd' nd) in T by done. lia.
      - intros m d i M R. destruct (set_node_lookup b n nd _ m d En M) as [[-> ->]|[_ M']]; [by apply (Ti n nd i)|by apply (Ti m d i)]. }
    split. { intros [|h] b'' Lb; cbn in Lb; [|by destruct h]; injection Lb as <-; by apply good_nil. }
    split; [apply cov_nil|]. exists b. split; [done|]. split; [split; [done|by exists nd]|].
    intros e He. exists (set_node b n nd'), []. split; [cbn [store]; by rewrite (put_some _ _ _ nd)|]. split; [done|].
    change (<[0 := set_node b n nd']> [b]) with [set_node b n nd'].
    apply (IH e (set_node b n nd') nd'); [done|done|by eapply set_node_same|done|].
    intros b' nd'' Ib Fb Eb Oc Nx e' He'. apply (Fin b' nd''); try done; [by rewrite Eb, set_node_set|lia].
Qed.
Lemma pred_in_spec (ns : list node) c : forall m n nd, path ns m c -> NoDup (m :: c) -> n ∈ c -> ns !! n = Some nd -> next nd = None ->
  exists c1 pd, c = c1 ++ [n] /\ ns !! pred_in c m n = Some pd /\ next pd = Some n /\ pred_in c m n <> n /\
  path (<[pred_in c m n := set_next pd None]> ns) m c1.
Proof.
  induction c as [|q c IH]; intros m n nd P N M En Nn; [by apply elem_of_nil in M|].
  destruct P as (d & E & Q & P). apply list.NoDup_cons in N as [N1 N2]. cbn [pred_in].
  destruct (q =? n)%nat eqn:Z.
  - apply Nat.eqb_eq in Z as ->. assert (c = []) as ->.
    { destruct c; [done|]. destruct P as (d' & E' & Q' & _). congruence. }
    exists [], d. repeat split; try done.
    + intros ->. apply N1. left.
    + exists (set_next d None). split; [|done]. apply list_lookup_insert. by eapply lookup_lt_Some.
  - apply Nat.eqb_neq in Z. apply elem_of_cons in M as [M|M]; [congruence|].
    destruct (IH q n nd P N2 M En Nn) as (c1 & pd & -> & Ep & Np & D & P1).
    exists (q :: c1), pd. repeat split; try done. exists d. split; [|done]. rewrite list_lookup_insert_ne; [done|].
    intros Y. apply N1. clear -Y. assert (forall l a, pred_in l a n ∈ a :: l) as A.
    { induction l as [|z l IHl]; intros a; cbn [pred_in]; [left|]. destruct (z =? n)%nat; [left|right; apply IHl]. }
    rewrite <- Y. apply A.
Qed.
Lemma doomed_sub nd e j : tb (doomed nd e) j = true -> tb (rem nd) j = true.
Proof. unfold doomed. rewrite BucketOps.gen_mask_spec. intros Q. by apply andb_prop in Q as [Q _]. Qed.
Lemma clear_safe E g mine Is b n e0 l :
  idle hash (Is 0) b -> frozen b = false -> n ∈ 0 :: chain b -> clear_writes b n e0 = Some l ->
  safe hash E g mine Is [] [b] (map (pair 0) l).
Proof.
  intros Id Fz Ch Wr. pose proof Id as (G & Ln & Ti). unfold clear_writes in Wr. destruct (nodes b !! n) as [nd|] eqn:En; [|done].
  cbn [mbind option_bind] in Wr. injection Wr as <-. set (d := doomed nd e0). set (js := filter (fun j => N.testbit d (N.of_nat j) = true) (seq 0 (length (cells nd)))).
  set (tl := if _ && _ && bool_decide (next nd = None) then _ else _).
  destruct (g_wf _ _ _ _ G n nd En) as (Wc & Wd & Wo).
  set (nd1 := Node (N.ldiff (occ nd) d) (rem nd) (cells nd) (data nd) (next nd)).
  set (nd2 := Node (N.ldiff (occ nd) d) (N.ldiff (rem nd) d) (cells nd) (data nd) (next nd)).
  assert (forall i, tb (N.ldiff (occ nd) d) i = true -> tb (occ nd) i = true) as Sub.
  { intros i Q. rewrite BucketFacts.tb_ldiff in Q. by apply andb_prop in Q as [Q _]. }
  assert (forall i, live_in nd1 i = live_in nd i) as A1.
  { intros i. rewrite !live_in_tb. cbn. rewrite BucketFacts.tb_ldiff. destruct (tb d i) eqn:D; cbn; [|by rewrite andb_true_r].
    rewrite (doomed_sub nd e0 i D). by rewrite !andb_false_r. }
  assert (forall i, live_in nd2 i = live_in nd i) as A2.
  { intros i. rewrite !live_in_tb. cbn. rewrite !BucketFacts.tb_ldiff. destruct (tb d i) eqn:D; cbn; [|by rewrite !andb_true_r].
    rewrite (doomed_sub nd e0 i D). by rewrite !andb_false_r. }
  assert (forall i, lv nd1 i = lv nd i) as L1 by (intros i; unfold lv; by rewrite A1).
  assert (forall i, lv nd2 i = lv nd i) as L2 by (intros i; unfold lv; by rewrite A2).
  assert (good hash (Is 0) none (set_node b n nd1)) as G1.
  { apply (good_node hash _ _ b n nd); try done.
    - split; [done|]. split; [done|]. intros i Q. apply Wo, Sub, Q.
    - intros i y Y _. split; [by rewrite <- L1|done]. }
  assert (idle hash (Is 0) (set_node b n nd2)) as I2.
  { split; [|split].
    - apply (good_node hash _ _ b n nd); try done.
      + split; [done|]. split; [done|]. intros i Q. apply Wo, Sub, Q.
      + intros i y Y _. split; [by rewrite <- L2|done].
    - cbn. pose proof (total_insert (nodes b) n nd nd2 En) as T. rewrite (count_eq nd2 nd) in T by done. lia.
    - intros m d' i M R. destruct (set_node_lookup b n nd _ m d' En M) as [[-> ->]|[_ M']]; [|by apply (Ti m d' i)].
      cbn in *. rewrite BucketFacts.tb_ldiff in *. apply andb_prop in R as [R1 R2]. by rewrite (Ti n nd i En R1). }
  assert (forall b', good hash (Is 0) none b' -> forall h b'', [b'] !! h = Some b'' -> good hash (Is h) (exh [] h) b'') as Gs.
  { intros b' G' [|h] b'' Lb; cbn in Lb; [|by destruct h]; injection Lb as <-; by apply good_nil. }
  cbn [map app]. rewrite map_app. split; [by apply Gs|]. split; [apply cov_nil|]. exists b. split; [done|]. split.
  { exists nd. split; [done|]. right; left. split; [done|]. exists d. split; [done|]. intros j D.
    split; [by eapply doomed_sub|apply not_elem_of_nil]. }
  intros e1 He1. exists (set_node b n nd1), []. split; [cbn [store]; by rewrite (put_some _ _ _ nd)|]. split; [done|].
  split; [by apply Gs|]. split; [apply cov_nil|]. exists (set_node b n nd1). split; [done|]. split.
  { split; [done|]. exists nd1. split; [by eapply set_node_same|]. right. exists d. split; [done|]. intros j D. cbn.
    by rewrite BucketFacts.tb_ldiff, D, andb_false_r. }
  intros e2 He2. exists (set_node b n nd2), [].
  split. { cbn [store]. rewrite (put_some _ _ _ nd1) by (by eapply set_node_same). by rewrite set_node_set. }
  split; [done|]. change (<[0 := set_node b n nd2]> (<[0 := set_node b n nd1]> [b])) with [set_node b n nd2].
  apply (drops_safe e2 g mine Is (set_node b n nd2) n nd2); [done|done|by eapply set_node_same| |].
  { apply list.Forall_forall. intros j M. unfold js in M. apply elem_of_list_filter in M as [M _]. cbn.
    rewrite BucketFacts.tb_ldiff. change (tb d j = true) in M. by rewrite M, andb_false_r. }
  intros b' nd' Ib Fb Eb Oc Nx e3 He3. rewrite set_node_set in Eb. unfold tl.
  destruct (negb (n =? 0)%nat && (N.ldiff (occ nd) d =? 0)%N && bool_decide (next nd = None)) eqn:Cn.
  2:{ cbn [map]. split; [apply Gs, Ib|]. split; [apply cov_nil|]. split; [done|]. intros [|h] b'' Lb; [|by destruct h]. cbn in Lb. by injection Lb as <-. }
  apply andb_prop in Cn as [Cn N3]. apply andb_prop in Cn as [N1 N2]. apply negb_true_iff, Nat.eqb_neq in N1. apply N.eqb_eq in N2.
  apply bool_decide_eq_true in N3. apply elem_of_cons in Ch as [->|Ch]; [done|].
  destruct (g_chain _ _ _ _ G) as (c & P & Nd & _). pose proof (chain_path b c P Nd) as Chc. rewrite Chc in *.
  destruct Ib as (Gb & Lb & Tb).
  assert (path (nodes b') 0 c) as P'. { rewrite Eb. eapply path_set; [done| |done]. by rewrite Nx. }
  assert (nodes b' !! n = Some nd') as En'. { rewrite Eb. by eapply set_node_same. }
  destruct (pred_in_spec (nodes b') c 0 n nd' P' Nd Ch En') as (c1 & pd & Ec & Ep & Np & Dp & P1); [by rewrite Nx|].
  set (p := pred_in c 0 n) in *. set (b4 := set_node b' p (set_next pd None)).
  assert (good hash (Is 0) none b4) as G4.
  { apply (good_next hash _ _ b' p pd None c1); try done.
    - rewrite Ec in Nd. change (NoDup ((0 :: c1) ++ [n])) in Nd. by apply NoDup_app in Nd as (Nd & _).
    - intros m j x Lv _ M. rewrite (chain_path b' c P' Nd), Ec in M. change (m ∈ (0 :: c1) ++ [n]) in M.
      apply elem_of_app in M as [M|M]; [done|]. exfalso. apply elem_of_list_singleton in M as ->.
      rewrite (live_at_lv _ _ _ _ En') in Lv. apply lv_some in Lv as (Lv & _). rewrite Oc in Lv. cbn in Lv. rewrite N2 in Lv. by rewrite BucketFacts.tb_0 in Lv. }
  cbn [map]. split; [by apply Gs|]. split; [apply cov_nil|]. exists b'. split; [done|]. split.
  { split; [done|]. exists pd. split; [done|]. left. split; [done|]. exists n, nd'. repeat split; try done; [by rewrite Oc|by rewrite Nx]. }
  intros e4 He4. exists b4, []. split; [cbn [store]; by rewrite (put_some _ _ _ pd)|]. split; [done|].
  change (<[0 := b4]> [b']) with [b4]. split; [by apply Gs|]. split; [apply cov_nil|]. split; [done|].
  intros [|h] b'' Lb'; [|by destruct h]. cbn in Lb'. injection Lb' as <-. split; [done|]. split.
  - cbn. pose proof (total_insert (nodes b') p pd (set_next pd None) Ep) as T. rewrite (count_eq (set_next pd None) pd) in T by done. lia.
  - intros m d' i M R. destruct (set_node_lookup b' p pd _ m d' Ep M) as [[-> ->]|[_ M']]; [by apply (Tb p pd i)|by apply (Tb m d' i)].
Qed.
End ops.
