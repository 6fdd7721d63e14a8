(** An insertion that unwound: lookups are as before, iterators are not. *)
From stdpp Require Import prelude list sorting.
From Verif Require Import LeafModel LeafSpec LeafFacts OrdFacts LeafOps LeafSeq TreeLeaf TreeModel TreeHeap TreeLink TreeSplit TreeShape TreeIns TreeIter TreeCalls TreeRun TreeThms TreeUnwind.
Opaque scan scan_from fill.

Section facts.
Context {K V : Type} (cmp : K -> K -> comparison) (T : total_order cmp).
Implicit Types (h : heap K V) (t : treeindex K V).

Lemma split_unwound h id c h' : h !! id = Some c -> c_tag c <> TSecond -> frozen (md (c_leaf c)) = false ->
  split_leaf_unwound h id = Some h' -> forall j, j < length h -> leaf_at h' j = leaf_at h j.
Proof.
  intros Hc Tg Fr E j Lj. unfold split_leaf_unwound, distribute in E. rewrite (leaf_at_lookup _ _ _ Hc) in E.
  destruct (drop _ _) as [|e es]; [done|]. injection E as <-.
  set (hl := fill new_leaf (e :: es) 0). set (lo := fill new_leaf (take _ _) 0).
  set (fz := Leaf (freeze (md (c_leaf c))) (slots (c_leaf c))).
  destruct (h3_cells h id c fz lo hl Hc Tg) as (C1 & C2 & C3 & C4).
  destruct (thaw_cells _ id _ C1) as [T1 T2]. destruct (decide (j = id)) as [->|N].
  - rewrite (leaf_at_lookup _ _ _ T1), (leaf_at_lookup _ _ _ Hc). cbn [c_leaf]. unfold fz, with_flag. cbn.
    destruct (c_leaf c) as [[r f g] s]. cbn in *. by rewrite Fr.
  - unfold leaf_at. rewrite T2 by done. by rewrite C4.
Qed.
Lemma node_unwound_leaves d k v h h' : forall u A B (n : tree K d), kwf cmp (S d) n -> linked cmp h (A ++ flat d u n ++ B) ->
  TreeHeap.below cmp A k -> kle cmp k u -> node_unwound cmp d k v h n = Some h' -> forall j, j < length h -> leaf_at h' j = leaf_at h j.
Proof.
  induction d as [|d IH]; intros u A B n W Lk Bl Lu E.
  - destruct (route cmp T 0 u A B h n k W Lk Bl Lu) as (p & id & X & s & Y & Ep & Pl & Bx & Ls & _ & Ef & Et & Bt).
    cbn [node_unwound] in E. rewrite Ep in E. cbn [snd] in E. rewrite Et in Lk. cbn [kflat app] in Lk.
    destruct (core_at _ _ _ _ _ (proj1 Lk)) as (c & Hc & G & Fr & Tg & _). cbn [snd] in *.
    destruct (insert cmp (leaf_at h id) k v) as [l r]. cbn [snd] in E. destruct r; try done.
    by apply (split_unwound h id c).
  - destruct (route cmp T (S d) u A B h n k W Lk Bl Lu) as (p & c & X & s & Y & Ep & Pl & Bx & Ls & Wc & Ef & Et & Bt).
    cbn [node_unwound] in E. rewrite Ep in E. cbn [snd] in E. rewrite Et in Lk. change (kflat (S d) s c) with (flat d s c) in *.
    by apply (IH s (A ++ gflat (kflat (S d)) X) (gflat (kflat (S d)) Y ++ B) c).
Qed.
Lemma search_same d k h h' : (forall j, j < length h -> leaf_at h' j = leaf_at h j) ->
  forall u A B (n : tree K d), kwf cmp (S d) n -> linked cmp h (A ++ flat d u n ++ B) -> TreeHeap.below cmp A k -> kle cmp k u ->
  search cmp d h' n k = search cmp d h n k.
Proof.
  intros Same. induction d as [|d IH]; intros u A B n W Lk Bl Lu.
  - destruct (route cmp T 0 u A B h n k W Lk Bl Lu) as (p & id & X & s & Y & Ep & Pl & Bx & Ls & _ & Ef & Et & Bt).
    cbn [search]. rewrite Ep. cbn [snd]. rewrite Et in Lk. cbn [kflat app] in Lk.
    pose proof (core_at _ _ _ _ _ (proj1 Lk)) as O. apply ok_lt in O. cbn [snd] in O. by rewrite Same.
  - destruct (route cmp T (S d) u A B h n k W Lk Bl Lu) as (p & c & X & s & Y & Ep & Pl & Bx & Ls & Wc & Ef & Et & Bt).
    cbn [search]. rewrite Ep. cbn [snd]. rewrite Et in Lk. change (kflat (S d) s c) with (flat d s c) in *.
    by apply (IH s (A ++ gflat (kflat (S d)) X) (gflat (kflat (S d)) Y ++ B) c).
Qed.
Lemma lC54_peek (os : list (top K V)) k v t' : insert_unwound cmp (tafter cmp os) k v = Some t' ->
  forall k', peek cmp t' k' = peek cmp (tafter cmp os) k'.
Proof.
  intros E k'. pose proof (after_ok cmp T os) as Ok. destruct (tafter cmp os) as [h [[d n]|]]; [|done].
  destruct Ok as [W Lk]. cbn [root hp] in *. unfold insert_unwound in E. cbn [root hp] in E.
  destruct (node_unwound cmp d k v h n) as [h'|] eqn:En; [|done]. injection E as <-.
  unfold peek, peek_entry. cbn [root hp]. f_equal. rewrite <-(app_nil_mid (flat d None n)) in Lk.
  eapply search_same; [|done|exact Lk|by intros a ?%elem_of_nil|done].
  eapply node_unwound_leaves; [done|exact Lk|by intros a ?%elem_of_nil|done|done].
Qed.
End facts.

Definition unwind_ks : list nat := seq 1 14.
Definition unwind_mid : option (treeindex nat nat) := insert_unwound Nat.compare (inserts Nat.compare unwind_ks 0) 15 0.
Lemma lC54_refuted : exists (t t' : treeindex nat nat) k k' v,
  t = inserts Nat.compare (seq 1 14) 0 /\ insert_unwound Nat.compare t k v = Some t' /\
  let t1 := (remove_if_sync Nat.compare t' k' (fun _ => true)).1 in
  let t2 := (insert_sync Nat.compare t1 k v).1 in
  peek Nat.compare t1 k' = None /\ (k', 0) ∈ iter_all Nat.compare t1 /\
  iter_all Nat.compare t2 = map (fun x => (x, 0)) (seq 1 13 ++ [15] ++ seq 1 14).
Proof.
  exists (inserts Nat.compare (seq 1 14) 0), (default new_tree unwind_mid), 15, 14, 0. split; [reflexivity|].
  split; [vm_compute; reflexivity|]. split; [vm_compute; reflexivity|]. split; [|vm_compute; reflexivity].
  apply elem_of_list_lookup. exists 13. vm_compute. reflexivity.
Qed.
