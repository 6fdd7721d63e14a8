(** TreeIndex, one thread: from the facts about single calls to histories. *)
From stdpp Require Import prelude list sorting.
From Verif Require Import LeafModel LeafSpec OrdFacts LeafSeq LeafThms TreeModel TreeHeap TreeIns TreeRem TreeIter TreeRange2 TreeRun TreeCalls.
Opaque scan fill.

Section thms.
Context {K V : Type} (cmp : K -> K -> comparison) (T : total_order cmp).
Implicit Types (os : list (top K V)) (o : top K V) (t : treeindex K V) (m es : list (K * V)) (r : bound K * bound K).
Notation tree_ok := (tree_ok cmp).

Lemma tents_asc t : tree_ok t -> ascending cmp (tents t).
Proof.
  intros Ok. destruct (tree_cases cmp t Ok) as [[_ ->]|(d & n & _ & _ & Lk & ->)]; [apply asc_nil|]. exact (core_asc cmp T _ _ (proj1 Lk)).
Qed.
Lemma oget_oput_ne k k0 (v0 : V) m : ascending cmp m -> k0 ∉ m.*1 -> k <> k0 -> oget cmp (oput cmp m k0 v0) k = oget cmp m k.
Proof.
  intros As N Ne. apply option_eq. intros v. rewrite !(oget_some cmp T) by (done || by apply (oput_asc cmp T)). rewrite (oput_elem cmp T) by done.
  naive_solver.
Qed.
Lemma inb_contains r k : inb cmp r k = range_contains cmp r k.
Proof.
  unfold inb, range_contains. destruct r as [[a|a|] [b|b|]]; cbn [fst snd]; try done.
  all: rewrite ?(to_opp _ T a k), ?(to_opp _ T k b); try (destruct (cmp a k); done); try (destruct (cmp k b); done).
  all: destruct (cmp a k), (cmp k b); done.
Qed.
Lemma inb_spec r k : inb cmp r k = true <-> in_range cmp r k.
Proof.
  unfold inb, in_range. rewrite andb_true_iff. f_equiv.
  - destruct r.1 as [a|a|]; [|by destruct (cmp a k)|done]. rewrite <-(to_eq _ T a k). destruct (cmp a k); naive_solver.
  - destruct r.2 as [b|b|]; [|by destruct (cmp k b)|done]. rewrite <-(to_eq _ T k b). destruct (cmp k b); naive_solver.
Qed.

Lemma new_ok : tree_ok (@new_tree K V) /\ tents (@new_tree K V) = [].
Proof. done. Qed.
Lemma clear_ok t : tree_ok t -> tree_ok (clear t) /\ tents (clear t) = [].
Proof. destruct t as [h [[d n]|]]; done. Qed.
Lemma step_ok t o : tree_ok t ->
  tree_ok (tstep cmp t o).1 /\ rstep cmp (tents t) o = (tents (tstep cmp t o).1, (tstep cmp t o).2).
Proof.
  intros Ok. pose proof (tents_asc t Ok) as As. destruct o as [k v|k|k cond|r|k|k|k| | | | |r]; cbn [tstep rstep fst snd].
  - destruct (insert_sync_ok cmp T t k v Ok) as [Ok' [(-> & N & ->)|(-> & I & ->)]]; split; try done.
    + by apply (oget_none cmp T) in N as ->; [|done].
    + destruct (oget cmp (tents t) k) eqn:E; [done|]. by apply (oget_none cmp T) in E; [|done].
  - destruct (remove_if_sync_ok cmp T t k (fun _ => true) Ok) as [Ok' [(-> & (v & Hv & _) & ->)|(-> & N & ->)]]; (split; [done|]).
    + by rewrite Hv.
    + destruct (oget cmp (tents t) k) as [v|] eqn:E; [|done]. by specialize (N v eq_refl).
  - destruct (remove_if_sync_ok cmp T t k cond Ok) as [Ok' [(-> & (v & Hv & Hc) & ->)|(-> & N & ->)]]; (split; [done|]).
    + by rewrite Hv, Hc.
    + destruct (oget cmp (tents t) k) as [v|] eqn:E; [|done]. by rewrite (N v eq_refl).
  - destruct (remove_range_sync_ok cmp T t r Ok) as (-> & Ok' & ->). split; [done|]. f_equal. apply List.filter_ext. intros e. by rewrite inb_contains.
  - split; [done|]. unfold peek. rewrite (peek_entry_ok cmp T t k Ok). by destruct (oget cmp (tents t) k).
  - split; [done|]. rewrite (peek_entry_ok cmp T t k Ok). by destruct (oget cmp (tents t) k).
  - split; [done|]. rewrite (peek_entry_ok cmp T t k Ok). by destruct (oget cmp (tents t) k).
  - split; [done|]. by rewrite (len_ok cmp T t Ok).
  - split; [done|]. pose proof (is_empty_ok cmp T t Ok) as E. destruct (tree_is_empty cmp t), (tents t); try done.
    + by pose proof (proj1 E eq_refl).
    + by pose proof (proj2 E eq_refl).
  - destruct (clear_ok t Ok) as [Ok' ->]. done.
  - split; [done|]. by rewrite (iter_all_ok cmp T t Ok).
  - split; [done|]. rewrite (range_all_ok cmp T t r Ok). do 2 f_equal. apply List.filter_ext. intros e. by rewrite inb_contains.
Qed.

Lemma run_ok os : forall t, tree_ok t ->
  tree_ok (trun cmp t os).1 /\ rrun cmp (tents t) os = (tents (trun cmp t os).1, (trun cmp t os).2).
Proof.
  induction os as [|o os IH]; intros t Ok; [done|]. cbn [trun rrun fst snd]. destruct (step_ok t o Ok) as [Ok1 ->]. cbn [fst snd].
  destruct (IH _ Ok1) as [Ok2 ->]. done.
Qed.
Lemma after_ok os : tree_ok (tafter cmp os).
Proof. by apply run_ok. Qed.
Lemma peek_ok t k : tree_ok t -> peek cmp t k = oget cmp (tents t) k.
Proof. intros Ok. unfold peek. rewrite (peek_entry_ok cmp T t k Ok). by destruct (oget cmp (tents t) k). Qed.
Lemma peek_elem t k v : tree_ok t -> peek cmp t k = Some v <-> (k, v) ∈ tents t.
Proof. intros Ok. rewrite peek_ok by done. apply (oget_some cmp T). by apply tents_asc. Qed.
Lemma tents_ext t t' : tree_ok t -> tree_ok t' -> (forall k, peek cmp t k = peek cmp t' k) <-> tents t = tents t'.
Proof.
  intros Ok Ok'. split.
  - intros H. apply (asc_ext cmp T); [by apply tents_asc|by apply tents_asc|]. intros [k v]. rewrite <-!peek_elem by done. by rewrite H.
  - intros H k. rewrite !peek_ok by done. by rewrite H.
Qed.

Lemma lC24_ordered_map os : (trun cmp (@new_tree K V) os).2 = (rrun cmp [] os).2.
Proof. destruct (run_ok os new_tree) as [_ E]; [done|]. change (tents (@new_tree K V)) with (@nil (K * V)) in E. by rewrite E. Qed.

(** A loop that ends before its fuel does has seen [None]. *)
Lemma iter_loop_calls t : forall f it, length (iter_loop cmp f t it) < f ->
  (iter_calls cmp (S (length (iter_loop cmp f t it))) t it).1 = map Some (iter_loop cmp f t it) ++ [None].
Proof.
  induction f as [|f IH]; intros it Hl; [lia|]. cbn [iter_loop] in *. cbn [iter_calls]. destruct (iter_next cmp t it) as [it' [e|]] eqn:E; cbn [fst snd length map app] in *.
  - f_equal. apply IH. lia.
  - done.
Qed.
Lemma range_loop_calls t r : forall f g, length (range_loop cmp f t r g) < f ->
  (range_calls cmp (S (length (range_loop cmp f t r g))) t r g).1 = map Some (range_loop cmp f t r g) ++ [None].
Proof.
  induction f as [|f IH]; intros g Hl; [lia|]. cbn [range_loop] in *. cbn [range_calls].
  destruct (range_next cmp (range_fuel t) t (hp t) r g) as [g' [e|]] eqn:E; cbn [fst snd length map app] in *.
  - f_equal. apply IH. lia.
  - done.
Qed.
Lemma lC25_iter os : let t := tafter cmp os in exists es : list (K * V),
  (iter_calls cmp (S (length es)) t None).1 = map Some es ++ [None] /\ ascending cmp es /\
  forall k v, (k, v) ∈ es <-> peek cmp t k = Some v.
Proof.
  intros t. pose proof (after_ok os) as Ok. fold t in Ok. exists (tents t). split; [|split; [by apply tents_asc|intros k v; by rewrite peek_elem]].
  rewrite <-(iter_all_ok cmp T t Ok). apply iter_loop_calls. change (iter_loop _ _ _ _) with (iter_all cmp t). rewrite (iter_all_ok cmp T t Ok).
  pose proof (tents_length cmp T t Ok) as Hl. change num_entries with 14. lia.
Qed.
Lemma filter_length_le {A} (f : A -> bool) (l : list A) : length (List.filter f l) <= length l.
Proof. induction l as [|x l IH]; cbn; [done|]. destruct (f x); cbn; lia. Qed.
Lemma lC25_range os r : let t := tafter cmp os in exists es : list (K * V),
  (range_calls cmp (S (length es)) t r new_range).1 = map Some es ++ [None] /\ ascending cmp es /\
  forall k v, (k, v) ∈ es <-> in_range cmp r k /\ peek cmp t k = Some v.
Proof.
  intros t. pose proof (after_ok os) as Ok. fold t in Ok. exists (range_all cmp t r).
  pose proof (tents_length cmp T t Ok) as Hl. pose proof (range_all_ok cmp T t r Ok) as E. split; [|rewrite E; split].
  - unfold range_all in *. apply range_loop_calls. rewrite E. pose proof (filter_length_le (fun e => range_contains cmp r e.1) (tents t)).
    unfold range_fuel. change num_entries with 14. lia.
  - apply asc_filter. by apply tents_asc.
  - intros k v. rewrite elem_of_list_In, filter_In, <-elem_of_list_In, <-inb_contains, inb_spec, peek_elem by done. cbn [fst]. tauto.
Qed.

Lemma trun_app os os' : forall t, (trun cmp t (os ++ os')).1 = (trun cmp (trun cmp t os).1 os').1.
Proof. induction os as [|o os IH]; intros t; [done|]. cbn [trun app fst]. apply IH. Qed.
Lemma after_snoc os o : tafter cmp (os ++ [o]) = (tstep cmp (tafter cmp os) o).1.
Proof. unfold tafter. by rewrite trun_app. Qed.

Lemma lC26_remove_range os r : let z := tstep cmp (tafter cmp os) (TRemoveRange r) in z.2 = OUnit /\
  (forall k : K, in_range cmp r k -> peek cmp z.1 k = None) /\ (forall k, ~ in_range cmp r k -> peek cmp z.1 k = peek cmp (tafter cmp os) k) /\
  iter_all cmp z.1 = List.filter (fun e : K * V => negb (inb cmp r e.1)) (iter_all cmp (tafter cmp os)).
Proof.
  intros z. pose proof (after_ok os) as Ok. destruct (step_ok (tafter cmp os) (TRemoveRange r) Ok) as [Ok' E]. fold z in Ok', E.
  assert (List.filter (fun e : K * V => negb (inb cmp r e.1)) (tents (tafter cmp os)) = tents z.1) as Et by exact (f_equal fst E).
  split; [symmetry; exact (f_equal snd E)|]. clear E. clearbody z.
  assert (forall k v, peek cmp z.1 k = Some v <-> peek cmp (tafter cmp os) k = Some v /\ ~ in_range cmp r k) as P.
  { intros k v. rewrite !peek_elem by done. rewrite <-Et, !elem_of_list_In, filter_In, negb_true_iff, <-inb_spec. cbn [fst]. destruct (inb cmp r k); naive_solver. }
  split; [|split].
  - intros k Ik. destruct (peek cmp z.1 k) as [v|] eqn:Ev; [|done]. apply P in Ev. tauto.
  - intros k Ik. apply option_eq. intros v. rewrite P. tauto.
  - by rewrite !(iter_all_ok cmp T) by done.
Qed.

Lemma same_entries_spec (eqv : V -> V -> bool) : (forall a b, eqv a b = true <-> a = b) -> forall es es', same_entries cmp eqv es es' = true <-> es = es'.
Proof.
  intros He. induction es as [|[k v] es IH]; intros [|[k' v'] es']; cbn [same_entries]; [done|done|done|].
  rewrite !andb_true_iff, He, IH. cbn [fst snd]. unfold key_eqb. pose proof (to_eq _ T k k'). destruct (cmp k k') eqn:E; naive_solver.
Qed.
Lemma lC34_tree_eq (eqv : V -> V -> bool) os os' : (forall a b, eqv a b = true <-> a = b) ->
  tree_eq cmp eqv (tafter cmp os) (tafter cmp os') = true <-> forall k, peek cmp (tafter cmp os) k = peek cmp (tafter cmp os') k.
Proof.
  intros He. unfold tree_eq. rewrite same_entries_spec by done. rewrite !(iter_all_ok cmp T) by apply after_ok. by rewrite tents_ext by apply after_ok.
Qed.
(** Inserting a list: the first value of a key stays. *)
Lemma insert_each_ok es : forall t, tree_ok t -> tree_ok (insert_each cmp t es) /\
  forall k, peek cmp (insert_each cmp t es) k = match peek cmp t k with Some v => Some v | None => oget cmp es k end.
Proof.
  induction es as [|[k0 v0] es IH]; intros t Ok; [split; [done|]; intros k; unfold insert_each, oget; cbn; by destruct (peek cmp t k)|].
  unfold insert_each. cbn [foldl fst snd]. change (foldl _ ?t' es) with (insert_each cmp t' es).
  destruct (insert_sync_ok cmp T t k0 v0 Ok) as [Ok1 H1]. destruct (IH _ Ok1) as [Ok2 H2]. split; [exact Ok2|]. intros k. rewrite H2, !peek_ok by done.
  assert (oget cmp ((k0, v0) :: es) k = match cmp k k0 with Eq => Some v0 | _ => oget cmp es k end) as ->.
  { unfold oget. cbn [List.find fst]. by destruct (cmp k k0). }
  destruct H1 as [(_ & N & ->)|(_ & I & ->)].
  - destruct (cmp k k0) eqn:E.
    + apply (to_eq _ T) in E as ->. assert (oget cmp (tents t) k0 = None) as -> by (by apply (oget_none cmp T); [apply tents_asc|]).
      assert (oget cmp (oput cmp (tents t) k0 v0) k0 = Some v0) as ->; [|done].
      apply (oget_some cmp T); [apply (oput_asc cmp T); [by apply tents_asc|done]|]. apply (oput_elem cmp T); [by apply tents_asc|done|by left].
    + assert (k <> k0) as Ne by (intros ->; by rewrite (order_irrefl cmp T) in E). by rewrite (oget_oput_ne k k0 v0 (tents t)) by (done || by apply tents_asc).
    + assert (k <> k0) as Ne by (intros ->; by rewrite (order_irrefl cmp T) in E). by rewrite (oget_oput_ne k k0 v0 (tents t)) by (done || by apply tents_asc).
  - destruct (cmp k k0) eqn:E; [|done|done]. apply (to_eq _ T) in E as ->. destruct (oget cmp (tents t) k0) eqn:Eg; [done|].
    by apply (oget_none cmp T) in Eg; [|apply tents_asc].
Qed.

Lemma run_same t t' os : tree_ok t -> tree_ok t' -> tents t = tents t' -> (trun cmp t os).2 = (trun cmp t' os).2.
Proof.
  intros Ok Ok' E. destruct (run_ok os t Ok) as [_ R]. destruct (run_ok os t' Ok') as [_ R']. rewrite E, R' in R. apply (f_equal snd) in R. symmetry. exact R.
Qed.
Lemma insert_each_tents es m : ascending cmp m -> (forall k, oget cmp m k = oget cmp es k) -> tents (insert_each cmp new_tree es) = m.
Proof.
  intros As H. destruct (insert_each_ok es new_tree) as [Ok P]; [done|]. apply (asc_ext cmp T); [by apply tents_asc|done|].
  intros [k v]. rewrite <-peek_elem by done. rewrite P, <-(oget_some cmp T) by done. by rewrite H.
Qed.
Lemma lC34_tree_clone (eqv : V -> V -> bool) os : (forall v, eqv v v = true) -> let t := tafter cmp os in
  tree_eq cmp eqv t (clone cmp t) = true /\ forall os', (trun cmp (clone cmp t) os').2 = (trun cmp t os').2.
Proof.
  intros Hr t. pose proof (after_ok os) as Ok. fold t in Ok. destruct (insert_each_ok (tents t) new_tree) as [Okc _]; [done|].
  assert (clone cmp t = insert_each cmp new_tree (tents t)) as Ec by (unfold clone; by rewrite (iter_all_ok cmp T t Ok)).
  assert (tents (clone cmp t) = tents t) as Et by (rewrite Ec; apply insert_each_tents; [by apply tents_asc|done]). rewrite <-Ec in Okc. split.
  - unfold tree_eq. rewrite !(iter_all_ok cmp T), Et by done. generalize (tents t). intros es. induction es as [|[k v] es IH]; [done|]. cbn [same_entries fst snd].
    unfold key_eqb. by rewrite (order_irrefl cmp T), Hr, IH.
  - intros os'. by apply run_same.
Qed.
Lemma lC35_tree_from_iter es m os : ascending cmp m -> (forall k, oget cmp m k = oget cmp es k) ->
  (trun cmp (insert_each cmp new_tree es) os).2 = (rrun cmp m os).2.
Proof.
  intros As H. destruct (insert_each_ok es new_tree) as [Ok _]; [done|]. destruct (run_ok os _ Ok) as [_ E].
  rewrite (insert_each_tents es m As H) in E. by rewrite E.
Qed.
Lemma lC35_tree_serde os : let t := tafter cmp os in let z := tserialize cmp t in
  z.1 = length z.2 /\ forall os', (trun cmp (tdeserialize cmp z.2) os').2 = (trun cmp t os').2.
Proof.
  intros t z. split; [done|]. intros os'. exact (proj2 (lC34_tree_clone (fun _ _ => true) os (fun _ => eq_refl)) os').
Qed.
Lemma lC40_tree os o k k' : tkey o = Some k -> k' <> k -> peek cmp (tafter cmp (os ++ [o])) k' = peek cmp (tafter cmp os) k'.
Proof.
  intros Ek Ne. rewrite after_snoc. pose proof (after_ok os) as Ok. destruct (step_ok _ o Ok) as [Ok' E]. rewrite !peek_ok by done.
  pose proof (tents_asc _ Ok) as As. apply (f_equal fst) in E. cbn [fst] in E. rewrite <-E. clear E Ok'.
  assert (forall m : list (K * V), ascending cmp m -> oget cmp (odel cmp m k) k' = oget cmp m k') as Hd.
  { intros m Am. apply option_eq. intros v. rewrite !(oget_some cmp T) by (done || by apply odel_asc). rewrite (odel_elem cmp T). naive_solver. }
  destruct o as [k0 v|k0|k0 cond| |k0|k0|k0| | | | |]; cbn in Ek; try discriminate Ek; injection Ek as ->; cbn [rstep]; try done.
  - destruct (oget cmp (tents (tafter cmp os)) k) eqn:E; [done|]. apply oget_oput_ne; [done|by apply (oget_none cmp T) in E|done].
  - destruct (oget cmp (tents (tafter cmp os)) k) eqn:E; [|done]. by apply Hd.
  - destruct (oget cmp (tents (tafter cmp os)) k) as [v|] eqn:E; [|done]. destruct (cond v); [|done]. by apply Hd.
Qed.
End thms.
