(** Nodes as lists of children, trees as lists of leaves. *)
From stdpp Require Import prelude list sorting.
From Verif Require Import LeafModel LeafSpec LeafFacts OrdFacts LeafOps LeafSeq TreeLeaf TreeModel TreeHeap.
Opaque scan fill.

Section facts.
Context {K : Type} (cmp : K -> K -> comparison) (T : total_order cmp).
Notation good := (good cmp). Notation kle := (kle cmp). Notation klt := (klt cmp).

Section node.
Context {C : Type} (P : C -> Prop).
Implicit Types (n : inode K C) (u s : option K) (X : list (option K * C)) (es : list (K * C)).

(** The children with their separators; that of the unbounded child is given. *)
Definition lab (e : K * C) : option K * C := (Some e.1, e.2).
Definition ub_kid u n : list (option K * C) := match ub n with To c => [(u, c)] | _ => [] end.
Definition ukids u n : list (option K * C) := map lab (scan (ch n)) ++ ub_kid u n.
(** A node in use. *)
Record nwf n : Prop := {
  nw_good : good (ch n);
  nw_frozen : frozen (md (ch n)) = false;
  nw_ub : exists c, ub n = To c /\ P c;
  nw_kids : forall e, e ∈ scan (ch n) -> P e.2 }.
Lemma nwf_ukids n u p : nwf n -> p ∈ ukids u n -> P p.2.
Proof.
  intros [G F (c & E & Pc) Ks] H. unfold ukids, ub_kid in H. rewrite E in H. apply elem_of_app in H as [H|H].
  - apply elem_of_list_In, in_map_iff in H as (e & <- & H). apply Ks. by apply elem_of_list_In.
  - by apply elem_of_list_singleton in H as ->.
Qed.

(** [c] is the child at the position [p] and has the separator [s]. *)
Definition place n u (p : pos K) s c X Y : Prop :=
  match p with
  | AtSlot i key => s = Some key /\ at_slot (ch n) i (key, c) /\
      exists es1 es2, scan (ch n) = es1 ++ (key, c) :: es2 /\ X = map lab es1 /\ Y = map lab es2 ++ ub_kid u n
  | AtUb => s = u /\ ub n = To c /\ X = map lab (scan (ch n)) /\ Y = []
  end.
Lemma place_ukids n u p s c X Y : place n u p s c X Y -> ukids u n = X ++ (s, c) :: Y.
Proof.
  destruct p as [i key|]; cbn.
  - intros (-> & _ & es1 & es2 & E & -> & ->). unfold ukids. rewrite E, map_app, map_cons, <-app_assoc. done.
  - intros (-> & E & -> & ->). unfold ukids, ub_kid. by rewrite E.
Qed.
(** All separators are below a key. *)
Definition kbelow X (k : K) : Prop := forall a, a ∈ X -> exists ka, a.1 = Some ka /\ cmp ka k = Lt.
Lemma kbelow_lab es k : (forall e, e ∈ es -> cmp e.1 k = Lt) <-> kbelow (map lab es) k.
Proof.
  split.
  - intros H a Ha. apply elem_of_list_In, in_map_iff in Ha as (e & <- & He). exists e.1. split; [done|]. apply H. by apply elem_of_list_In.
  - intros H e He. destruct (H (lab e)) as (ka & E & L); [apply elem_of_list_In, in_map_iff; exists e; split; [done|]; by apply elem_of_list_In|].
    cbn in E. by injection E as <-.
Qed.

Lemma pick_spec n u k : nwf n -> kle k u ->
  exists p c X s Y, pick cmp n k = (p, To c) /\ place n u p s c X Y /\ kbelow X k /\ kle k s.
Proof.
  intros W Lk. destruct (nw_ub _ W) as (c & E & _). unfold pick.
  destruct (min_ge_spec cmp T (ch n) k (nw_good _ W)) as [[-> H]|([key c'] & es1 & es2 & At & Sc & H1 & H2)].
  - exists AtUb, c, (map lab (scan (ch n))), u, []. cbn [Nat.eqb num_entries]. rewrite E. split; [done|]. split; [done|].
    split; [|done]. by apply kbelow_lab.
  - pose proof (at_slot_lt cmp _ _ _ (nw_good _ W) At) as Lt_.
    set (i := min_greater_equal_slot cmp (ch n) k) in *.
    exists (AtSlot i key), c', (map lab es1), (Some key), (map lab es2 ++ ub_kid u n).
    assert (i =? num_entries = false) as -> by (apply Nat.eqb_neq; unfold num_entries; lia).
    rewrite (at_slot_entry _ _ _ At). split; [done|]. split; [|split].
    + cbn. split; [done|]. split; [done|]. by exists es1, es2.
    + by apply kbelow_lab.
    + cbn. cbn in H2. intros G. apply (cmp_gt cmp T) in G. done.
Qed.

Lemma put_spec n u p s c c' X Y : nwf n -> place n u p s c X Y -> P c' ->
  nwf (put n p c') /\ place (put n p c') u p s c' X Y.
Proof.
  intros [G F U Ks] Pl Pc. destruct p as [i key|]; cbn in *.
  - destruct Pl as (-> & At & es1 & es2 & Sc & -> & ->).
    destruct (set_slot_spec cmp T (ch n) i key c c' es1 es2 G At Sc) as (G' & Sc' & At').
    split; [split; [done|done|done|]|].
    + cbn [ch]. intros e He. rewrite Sc' in He. apply elem_of_app in He as [He|He]; [apply Ks; rewrite Sc; apply elem_of_app; by left|].
      apply elem_of_cons in He as [->|He]; [done|]. apply Ks. rewrite Sc. apply elem_of_app. right. by right.
    + split; [done|]. split; [done|]. exists es1, es2. done.
  - destruct Pl as (-> & E & -> & ->). split; [split; [done|done| |done]|done]. cbn. eauto.
Qed.

(** The children of a node and of a pending split. *)
Definition opkids u n (op : split_op K C) : list (option K * C) :=
  map lab (bounded_children cmp n op) ++ match last_child n op with To c => [(u, c)] | _ => [] end.
Record op_ok n (op : split_op K C) : Prop := {
  op_asc : ascending cmp (bounded_children cmp n op);
  op_len : 1 <= length (bounded_children cmp n op) <= 15;
  op_kids : forall e, e ∈ bounded_children cmp n op -> P e.2;
  op_last : exists c, last_child n op = To c /\ P c }.

Lemma replaced_others (op : split_op K C) key es : so_origin op = Some key -> (forall e, e ∈ es -> e.1 <> key) ->
  concat (map (replaced (key_eqb cmp) op) es) = es.
Proof.
  intros E H. induction es as [|e es IH]; cbn; [done|]. unfold replaced at 1. rewrite E.
  assert (key_eqb cmp e.1 key = false) as ->.
  { unfold key_eqb. destruct (cmp e.1 key) eqn:C0; [|done..]. apply (cmp_eq cmp T) in C0. exfalso. by apply (H e); [left|]. }
  cbn. f_equal. apply IH. intros x Hx. apply H. by right.
Qed.
Lemma replaced_none (op : split_op K C) es : so_origin op = None -> concat (map (replaced (key_eqb cmp) op) es) = es.
Proof. intros E. induction es as [|e es IH]; cbn; [done|]. unfold replaced at 1. rewrite E. cbn. by f_equal. Qed.

(** Making room for a new child. *)
Lemma asc_put es1 key (c low high : C) es2 mid : ascending cmp (es1 ++ (key, c) :: es2) ->
  (forall e, e ∈ es1 -> cmp e.1 mid = Lt) -> cmp mid key = Lt ->
  ascending cmp (es1 ++ (mid, low) :: (key, high) :: es2).
Proof.
  rewrite !asc_app, !asc_cons. intros (A1 & [A2 A4] & A3) H1 H2. split; [done|]. split.
  - split; [split; [done|done]|]. intros x Hx. apply elem_of_cons in Hx as [->|Hx]; [done|].
    eapply (cmp_trans cmp T); [exact H2|]. by apply (A4 x Hx).
  - intros x y Hx Hy. apply elem_of_cons in Hy as [->|Hy]; [by apply H1|].
    apply elem_of_cons in Hy as [->|Hy]; [apply (A3 x (key, c) Hx); by left|]. apply A3; [done|]. by right.
Qed.
Lemma asc_snoc es mid (low : C) : ascending cmp es -> (forall e, e ∈ es -> cmp e.1 mid = Lt) -> ascending cmp (es ++ [(mid, low)]).
Proof.
  intros A H. apply asc_app. split; [done|]. split; [apply asc_cons; split; [apply asc_nil|]; intros x Hx; by apply elem_of_nil in Hx|].
  intros x y Hx Hy. apply elem_of_list_singleton in Hy as ->. auto.
Qed.
Lemma push_split_spec n u p s c X Y mid low high ls : nwf n -> place n u p s c X Y -> P low -> P high ->
  kbelow X mid -> klt mid s ->
  match push_split cmp n p mid low high ls with
  | (n', NRetry) => nwf n' /\ ukids u n' = X ++ (Some mid, low) :: (s, high) :: Y
  | (n', NFull op) => n' = n /\ so_leaves op = ls /\ op_ok n op /\ opkids u n op = X ++ (Some mid, low) :: (s, high) :: Y
  | _ => False
  end.
Proof.
  intros W Pl Pl_ Ph Bl Lt_. pose proof W as [G F (cu & Eu & Pu) Ks]. unfold push_split.
  pose proof (scan_asc cmp _ G) as Asc.
  assert (mid ∉ (scan (ch n)).*1) as Nm.
  { intros Hm. apply elem_of_list_fmap in Hm as (x & -> & Hx). destruct p as [i key|]; cbn in Pl.
    - destruct Pl as (-> & _ & es1 & es2 & Sc & -> & _). rewrite Sc in Asc, Hx. apply asc_app in Asc as (_ & A2 & _).
      apply asc_cons in A2 as [_ A2]. cbn in Lt_. apply elem_of_app in Hx as [Hx|Hx].
      + pose proof (proj2 (kbelow_lab es1 x.1) Bl x Hx) as H. by rewrite (cmp_refl cmp T) in H.
      + apply elem_of_cons in Hx as [->|Hx]; [by rewrite (cmp_refl cmp T) in Lt_|].
        specialize (A2 x Hx). cbn in A2. by apply (cmp_asym cmp T) in A2.
    - destruct Pl as (_ & _ & -> & _). pose proof (proj2 (kbelow_lab _ x.1) Bl x Hx) as H. by rewrite (cmp_refl cmp T) in H. }
  destruct (insert_spec cmp T (ch n) mid low G) as (G' & F' & R' & I). pose proof (insert_keeps cmp T (ch n) mid low) as Keep.
  destruct (insert cmp (ch n) mid low) as [ch' r]. cbn [fst snd] in *.
  (* the pending split *)
  assert (let op := SplitOp (pos_key p) mid low high ls in
    op_ok n op /\ opkids u n op = X ++ (Some mid, low) :: (s, high) :: Y) as Op.
  { pose proof (scan_length cmp T _ G) as Ln. destruct p as [i key|]; cbn [place pos_key] in *.
    - destruct Pl as (-> & At & es1 & es2 & Sc & -> & ->). pose proof (proj2 (kbelow_lab _ _) Bl) as Bl1. cbn in Lt_.
      rewrite Sc in Asc. apply asc_app in Asc as (A1 & A2 & A3). apply asc_cons in A2 as [A2 A4].
      set (op := SplitOp (Some key) mid low high ls).
      assert (bounded_children cmp n op = es1 ++ (mid, low) :: (key, high) :: es2) as Eb.
      { unfold bounded_children. cbn [so_origin op]. rewrite app_nil_r, Sc, map_app, map_cons, concat_app. cbn [concat].
        rewrite (replaced_others op key es1), (replaced_others op key es2); [|done| |done|].
        - unfold replaced. cbn. unfold key_eqb. rewrite (cmp_refl cmp T). done.
        - intros e He E. specialize (A4 e He). cbn in A4. rewrite E in A4. by rewrite (cmp_refl cmp T) in A4.
        - intros e He E. specialize (A3 e (key, c) He ltac:(by left)). cbn in A3. rewrite E in A3. by rewrite (cmp_refl cmp T) in A3. }
      split.
      + split; rewrite ?Eb.
        * apply (asc_put es1 key c); [|done|done]. apply asc_app. split; [done|]. split; [by apply asc_cons|done].
        * rewrite Sc, app_length in Ln. cbn in Ln. rewrite app_length. cbn. lia.
        * intros e He. apply elem_of_app in He as [He|He]; [apply Ks; rewrite Sc; apply elem_of_app; by left|].
          apply elem_of_cons in He as [->|He]; [done|]. apply elem_of_cons in He as [->|He]; [done|].
          apply Ks. rewrite Sc. apply elem_of_app. right. by right.
        * exists cu. cbn. done.
      + unfold opkids. rewrite Eb. cbn [last_child so_origin op]. rewrite map_app, !map_cons, <-app_assoc. done.
    - destruct Pl as (-> & E & -> & ->). pose proof (proj2 (kbelow_lab _ _) Bl) as Bl1. set (op := SplitOp None mid low high ls).
      assert (bounded_children cmp n op = scan (ch n) ++ [(mid, low)]) as Eb.
      { unfold bounded_children. cbn [so_origin op so_mid so_low]. by rewrite replaced_none. }
      split.
      + split; rewrite ?Eb.
        * by apply asc_snoc.
        * rewrite app_length. cbn. lia.
        * intros e He. apply elem_of_app in He as [He|He]; [by apply Ks|]. by apply elem_of_list_singleton in He as ->.
        * exists high. done.
      + unfold opkids. rewrite Eb. cbn [last_child so_origin op so_high]. rewrite map_app, <-app_assoc. done. }
  destruct r.
  - (* success *)
    destruct I as (_ & _ & _ & Sc'). destruct p as [i key|]; cbn [place put] in *.
    + destruct Pl as (-> & At & es1 & es2 & Sc & -> & ->). pose proof (proj2 (kbelow_lab _ _) Bl) as Bl1. cbn in Lt_.
      rewrite Sc in Sc', Asc. change ((key, c) :: es2) with ([] ++ (key, c) :: es2) in Sc'.
      assert (oput cmp (es1 ++ [] ++ (key, c) :: es2) mid low = es1 ++ oput cmp [] mid low ++ (key, c) :: es2) as Eo.
      { apply (oput_mid cmp T); [done|]. intros e He. apply elem_of_cons in He as [->|He]; [done|].
        apply asc_app in Asc as (_ & A2 & _). apply asc_cons in A2 as [_ A2]. eapply (cmp_trans cmp T); [exact Lt_|]. by apply (A2 e He). }
      rewrite Eo in Sc'. cbn in Sc'.
      assert (scan ch' = (es1 ++ [(mid, low)]) ++ (key, c) :: es2) as Sc2 by (rewrite Sc', <-app_assoc; done).
      pose proof (Keep i (key, c) G eq_refl At) as At'.
      destruct (set_slot_spec cmp T ch' i key c high _ es2 G' At' Sc2) as (G2 & Sc3 & At3).
      cbn [ch ub]. split.
      * split; cbn [ch ub]; [done|cbn [md]; by rewrite F'|eauto|]. intros e He. rewrite Sc3, <-app_assoc in He.
        apply elem_of_app in He as [He|He]; [apply Ks; rewrite Sc; apply elem_of_app; by left|]. cbn in He.
        apply elem_of_cons in He as [->|He]; [done|]. apply elem_of_cons in He as [->|He]; [done|].
        apply Ks. rewrite Sc. apply elem_of_app. right. by right.
      * unfold ukids. cbn [ch]. rewrite Sc3, !map_app, !map_cons, <-!app_assoc. done.
    + destruct Pl as (-> & E & -> & ->). pose proof (proj2 (kbelow_lab _ _) Bl) as Bl1.
      assert (oput cmp (scan (ch n) ++ [] ++ []) mid low = scan (ch n) ++ oput cmp [] mid low ++ []) as Eo.
      { apply (oput_mid cmp T); [done|]. intros e He. by apply elem_of_nil in He. }
      rewrite !app_nil_r in Eo. rewrite Eo in Sc'. cbn in Sc'. cbn [ch ub]. split.
      * split; cbn [ch ub]; [done|cbn [md]; by rewrite F'|eauto|]. intros e He. rewrite Sc' in He. apply elem_of_app in He as [He|He]; [by apply Ks|].
        by apply elem_of_list_singleton in He as ->.
      * unfold ukids. cbn [ch]. rewrite Sc', map_app, <-app_assoc. done.
  - by destruct I as (_ & _ & I & _).
  - split; [done|]. split; [done|]. apply Op.
  - destruct I as [I _]. congruence.
  - split; [done|]. split; [done|]. apply Op.
Qed.

Lemma divide_spec n u op : op_ok n op ->
  match divide cmp n op with
  | Some (mid, low, high) => nwf low /\ nwf high /\ opkids u n op = ukids (Some mid) low ++ ukids u high
  | None => False
  end.
Proof.
  intros [Asc Len Kids (cl & El & Pl)]. unfold divide, opkids. set (bs := bounded_children cmp n op) in *.
  pose proof (optimal_boundary_range (md (ch n))) as Bd. set (b := optimal_boundary (md (ch n))) in *.
  set (sp := Nat.min b (length bs)).
  assert (1 <= sp <= length bs) as Sp by (unfold sp; lia).
  destruct (bs !! (sp - 1)) as [[mid c]|] eqn:E; [|apply lookup_ge_None in E; lia]. cbn [fst snd].
  pose proof (take_drop_middle _ _ _ E) as Eb. replace (S (sp - 1)) with sp in Eb by lia.
  assert (sp <= 13) as Sp' by (unfold sp; lia).
  destruct (fill_spec cmp T (take (sp - 1) bs)) as (G1 & S1 & F1 & _ & _); [rewrite take_length; lia|by apply asc_take|].
  destruct (fill_spec cmp T (drop sp bs)) as (G2 & S2 & F2 & _ & _); [rewrite drop_length; lia|by apply asc_drop|].
  split; [|split].
  - split; cbn [ch ub]; [done|done| |].
    + exists c. split; [done|]. apply (Kids (mid, c)). by eapply elem_of_list_lookup_2.
    + intros e He. rewrite S1 in He. apply Kids. rewrite <-(take_drop (sp - 1) bs). apply elem_of_app. by left.
  - split; cbn [ch ub]; [done|done|eauto|]. intros e He. rewrite S2 in He. apply Kids. rewrite <-(take_drop sp bs).
    apply elem_of_app. by right.
  - unfold ukids, ub_kid. cbn [ch ub]. rewrite S1, S2, El. rewrite <-Eb at 1. rewrite map_app, map_cons, <-!app_assoc. done.
Qed.
End node.

(** ** Trees *)
Definition gflat {C} (f : option K -> C -> list (option K * nat)) (X : list (option K * C)) : list (option K * nat) :=
  concat (map (fun p => f p.1 p.2) X).
Lemma gflat_app {C} (f : option K -> C -> list (option K * nat)) X Y : gflat f (X ++ Y) = gflat f X ++ gflat f Y.
Proof. unfold gflat. by rewrite map_app, concat_app. Qed.
Lemma gflat_cons {C} (f : option K -> C -> list (option K * nat)) s c Y : gflat f ((s, c) :: Y) = f s c ++ gflat f Y.
Proof. done. Qed.
Fixpoint kflat (d : nat) (u : option K) : kid K d -> list (option K * nat) :=
  match d return kid K d -> list (option K * nat) with
  | O => fun i => [(u, i)]
  | S d' => fun n => gflat (kflat d') (ukids u n)
  end.
Fixpoint kwf (d : nat) : kid K d -> Prop :=
  match d return kid K d -> Prop with
  | O => fun _ => True
  | S d' => nwf (kwf d')
  end.
Definition flat (d : nat) (u : option K) (n : tree K d) : list (option K * nat) := gflat (kflat d) (ukids u n).
Lemma kflat_S d u (n : tree K d) : kflat (S d) u n = flat d u n.
Proof. done. Qed.
Lemma kflat_last d : forall u (n : kid K d), kwf d n -> exists F i, kflat d u n = F ++ [(u, i)].
Proof.
  induction d as [|d IH]; intros u n W.
  - exists [], n. done.
  - destruct (nw_ub _ _ W) as (c & E & Wc). destruct (IH u c Wc) as (F & i & Ef).
    exists (gflat (kflat d) (map lab (scan (ch n))) ++ F), i. change (kflat (S d) u n) with (flat d u n). unfold flat, ukids, ub_kid.
    change (@ub K (kid K d) n = To c) in E. rewrite E, gflat_app, gflat_cons, Ef.
    unfold gflat at 2. cbn. by rewrite app_nil_r, app_assoc.
Qed.
(** The separator of a child is one of its leaves. *)
Lemma gflat_sep d X s c : (s, c) ∈ X -> kwf d c -> exists i, (s, i) ∈ gflat (kflat d) X.
Proof.
  intros H W. destruct (kflat_last d s c W) as (F & i & E). exists i. apply elem_of_list_split in H as (X1 & X2 & ->).
  rewrite gflat_app, gflat_cons, E. apply elem_of_app. right. apply elem_of_app. left. apply elem_of_app. right. by left.
Qed.
Lemma flat_place d u (n : tree K d) p s c X Y : place n u p s c X Y ->
  flat d u n = gflat (kflat d) X ++ kflat d s c ++ gflat (kflat d) Y.
Proof. intros Pl. unfold flat. by rewrite (place_ukids _ _ _ _ _ _ _ Pl), gflat_app, gflat_cons. Qed.
Definition opflat (d : nat) (u : option K) (n : tree K d) (op : split_op K (kid K d)) : list (option K * nat) :=
  gflat (kflat d) (opkids u n op).
End facts.
