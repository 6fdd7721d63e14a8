(** The leaf theorems. *)
From stdpp Require Import prelude list.
From Verif Require Import LeafModel LeafSpec LeafFacts OrdFacts LeafOps LeafSeq LeafConc LeafLin LeafHist LeafConcFacts.

Section thms.
Context {K V : Type} (cmp : K -> K -> comparison) (T : total_order cmp).
Implicit Types (l : leaf K V).

Lemma remove_range_good r rs : forall i l, good cmp l -> good cmp (remove_range_loop cmp r rs i l).
Proof.
  induction rs as [|rk rs IH]; intros i l G; cbn [remove_range_loop]; [done|]. apply IH.
  destruct (live rk); [|done]. destruct (entry_at (slots l) i) as [e|]; [|done].
  destruct (range_contains cmp r e.1); [|done]. by apply (remove_if_spec cmp T).
Qed.
Lemma good_flag l f : good cmp l -> good cmp (Leaf (Meta (ranks (md l)) f (retired (md l))) (slots l)).
Proof. intros [c W]. exists c. by apply winv_flag. Qed.
Lemma built_good l : built cmp l -> good cmp l.
Proof.
  induction 1 as [|l k v B G|l k cond B G|l r B G|l B G|l B G|l B G|l h B G E].
  - apply new_good.
  - by apply (insert_spec cmp T).
  - by apply (remove_if_spec cmp T).
  - by apply remove_range_good.
  - by apply good_flag.
  - by apply good_flag.
  - pose proof (distribute_spec cmp T l G) as D. destruct (distribute l) as [[f lo] hi]. by destruct D as (_ & _ & _ & _ & D & _).
  - pose proof (distribute_spec cmp T l G) as D. destruct (distribute l) as [[f lo] hi]. cbn [snd] in E. subst hi.
    destruct D as (_ & _ & _ & _ & _ & _ & _ & _ & D & _). done.
Qed.

Definition roomy l := forall k v, (forall v', ~ stored l (k, v')) -> (insert cmp l k v).2 = ISuccess.
Lemma not_full_roomy l : good cmp l -> frozen (md l) = false -> retired (md l) = false -> ~ full (md l) -> roomy l.
Proof.
  intros G F R N k v A. destruct (insert_spec cmp T l k v G) as (_ & _ & _ & I).
  destruct ((insert cmp l k v).2); [done|..].
  - exfalso. destruct I as (_ & _ & I & _). apply (scan_key cmp) in I as [v' I]; [|done]. by apply (A v').
  - exfalso. by destruct I as (_ & _ & _ & _ & I).
  - exfalso. destruct I as [I _]. congruence.
  - exfalso. destruct I as [I _]. congruence.
Qed.

Lemma lC28_split l : built cmp l ->
  let '(_, lo, hi) := distribute l in
  exists es1 es2, ascending cmp (es1 ++ es2) /\
    (forall e, e ∈ es1 ++ es2 <-> stored l e) /\ (forall e, e ∈ es1 <-> stored lo e) /\
    (forall e, e ∈ es2 <-> exists h, hi = Some h /\ stored h e) /\ length es1 < 14 /\ length es2 < 14 /\
    (forall k v, (forall v', ~ stored lo (k, v')) -> (insert cmp lo k v).2 = ISuccess) /\
    (forall h, hi = Some h -> es1 <> [] /\ es2 <> [] /\
      forall k v, (forall v', ~ stored h (k, v')) -> (insert cmp h k v).2 = ISuccess).
Proof.
  intros B. pose proof (built_good l B) as G. pose proof (distribute_spec cmp T l G) as D.
  assert (length (scan l) <= 14) as Ln by (by apply (scan_length cmp T)).
  destruct (distribute l) as [[f lo] hi] eqn:Ed.
  assert (length (scan lo) < 14 /\ (forall h, hi = Some h -> length (scan h) < 14)) as [L1 L2].
  { unfold distribute in Ed. pose proof (optimal_boundary_range (md l)) as Bd. set (b := optimal_boundary (md l)) in *.
    pose proof (scan_asc cmp l G) as A.
    assert (length (take b (scan l)) < 14) as L1 by (rewrite take_length; lia).
    assert (length (drop b (scan l)) < 14) as L2 by (rewrite drop_length; lia).
    destruct (fill_spec cmp T (take b (scan l))) as (_ & S1 & _); [lia|by apply asc_take|].
    destruct (fill_spec cmp T (drop b (scan l))) as (_ & S2 & _); [lia|by apply asc_drop|].
    assert (lo = fill new_leaf (take b (scan l)) 0) as -> by congruence. rewrite S1. split; [exact L1|].
    assert (match drop b (scan l) with [] => None | hs => Some (fill new_leaf hs 0) end = hi) as Eh by congruence. intros h ->.
    destruct (drop b (scan l)) as [|x xs]; [done|].
    assert (h = fill new_leaf (x :: xs) 0) as -> by congruence. rewrite S2. exact L2. }
  destruct D as (_ & _ & _ & _ & G1 & F1 & R1 & N1 & D).
  exists (scan lo), (match hi with Some h => scan h | None => [] end).
  assert (scan l = scan lo ++ match hi with Some h => scan h | None => [] end) as Sc.
  { destruct hi as [h|]; [by apply D|]. rewrite app_nil_r. exact D. }
  rewrite <-Sc. split; [by apply scan_asc|]. split; [intros e; by apply (scan_elem cmp)|].
  split; [intros e; by apply (scan_elem cmp)|]. split; [|split; [done|split; [|split]]].
  - intros e. destruct hi as [h|].
    + destruct D as (Gh & _). rewrite (scan_elem cmp) by done. split; [eauto|]. by intros (h' & [= <-] & ?).
    + rewrite elem_of_nil. split; [done|]. by intros (h & ? & _).
  - destruct hi as [h|]; [by apply L2|simpl; lia].
  - by apply not_full_roomy.
  - intros h ->. destruct D as (Gh & Fh & Rh & Nh & E1 & E2 & _). split; [done|]. split; [done|]. by apply not_full_roomy.
Qed.
End thms.

Lemma lC32_range_contains {Q K O : Type} (ocmp : O -> O -> comparison) (fq : Q -> O) (fk : K -> O) :
  total_order ocmp -> forall r k,
  range_contains (fun q k => ocmp (fq q) (fk k)) r k = true <->
  in_range ocmp (bound_map fq r.1, bound_map fq r.2) (fk k).
Proof.
  intros T r k. rewrite <-(range_contains_spec ocmp T). unfold range_contains.
  destruct r as [[] []]; done.
Qed.

(** ** The history of an insertion that fails although the key is absent. *)
Section refute.
Context {K V : Type} (cmp : K -> K -> comparison).
Notation hev := (hev K V).
Definition mine (t : nat) (e : hev) : bool := who e =? t.
Lemma follows_proj t (h : list hev) : forall p q, follows t p h q -> follows t p (List.filter (mine t) h) q.
Proof.
  induction h as [|e h IH]; intros p q F; [by inversion F; constructor|]. simpl. unfold mine at 1.
  inversion F; subst; simpl; rewrite ?Nat.eqb_refl; try (constructor; by apply IH).
  match goal with N : _ <> t |- _ => apply Nat.eqb_neq in N; unfold who; rewrite N end. by apply IH.
Qed.
Definition emine (t : nat) (e : event K V) : bool := match e with Call u _ | Ret u _ => u =? t end.
Lemma erase_proj t (h : list hev) : erase (List.filter (mine t) h) = List.filter (emine t) (erase h).
Proof.
  unfold erase. induction h as [|e h IH]; [done|].
  destruct e as [u o|u o r|u r]; unfold mine; simpl; destruct (u =? t) eqn:E; simpl; rewrite ?E; try (f_equal; exact IH); exact IH.
Qed.
Lemma mine_all t (h : list hev) : Forall (fun e => who e = t) (List.filter (mine t) h).
Proof.
  apply List.Forall_forall. intros e H. apply filter_In in H as [_ H]. by apply Nat.eqb_eq.
Qed.
(** One completed call of a thread. *)
Lemma one_call t o r (g : list hev) q : Forall (fun e => who e = t) g -> follows t Out g q ->
  erase g = [Call t o; Ret t r] -> g = [HCall t o; HLin t o r; HRet t r].
Proof.
  intros A F E. unfold erase in E.
  destruct g as [|[u1 ?|u1 ? ?|u1 ?] g]; [done|..]; apply Forall_cons in A as [W1 A]; cbn [who] in W1; subst u1;
    inversion F as [|? ? ? F1| | |]; subst; try done.
  simpl in E. injection E as -> E.
  destruct g as [|[u1 ?|u1 ? ?|u1 ?] g]; [done|..]; apply Forall_cons in A as [W1 A]; cbn [who] in W1; subst u1;
    inversion F1 as [| |? ? ? ? F2| |]; subst; try done.
  simpl in E.
  destruct g as [|[u1 ?|u1 ? ?|u1 ?] g]; [done|..]; apply Forall_cons in A as [W1 A]; cbn [who] in W1; subst u1;
    inversion F2 as [| | |? ? ? F3|]; subst; try done.
  simpl in E. injection E as -> E.
  destruct g as [|[u1 ?|u1 ? ?|u1 ?] g]; [done|..]; apply Forall_cons in A as [W1 A]; cbn [who] in W1; subst u1;
    inversion F3; subst; done.
Qed.
(** Without an insertion that succeeds nothing is ever present. *)
Lemma nothing_present (h : list hev) : forall (a b : obj K V), legal cmp true a h b -> ents a = [] ->
  (forall t o, HLin t o (RsIns ISuccess) ∉ h) -> forall t k v, HLin t (OpInsert k v) (RsIns IDuplicate) ∉ h.
Proof.
  induction h as [|e h IH]; intros a b L E N t k v X; [by apply elem_of_nil in X|].
  assert (forall t o, HLin t o (RsIns ISuccess) ∉ h) as N' by (intros u o H; by apply (N u o), elem_of_cons; right).
  apply elem_of_cons in X as [<-|X].
  - inversion L; subst. simpl in *. match goal with H : _ /\ _ |- _ => destruct H as [H _]; by apply (H eq_refl); rewrite E end.
  - inversion L as [|a1 a2 a3 u o r h' Al L' E1 E2 E3|a1 a2 u o h' L' E1 E2 E3|a1 a2 u r h' L' E1 E2 E3]; subst.
    + eapply (IH a2 b); eauto. clear -E Al N.
      destruct o, r as [| [] | [] |]; simpl in Al; try done.
      all: repeat match goal with H : _ /\ _ |- _ => destruct H end; subst; simpl; try done.
      all: try (match goal with H : exists _, _ |- _ => destruct H as (? & H & _) end; by rewrite E in *).
      exfalso. eapply N, elem_of_cons. by left.
    + eapply (IH a b); eauto.
    + eapply (IH a b); eauto.
Qed.
Lemma legal_elem strict (h : list hev) : forall (a b : obj K V), legal cmp strict a h b ->
  forall t o r, HLin t o r ∈ h -> exists a1 a2, allowed cmp strict o r a1 a2.
Proof.
  induction 1; intros t' o' r' X; [by apply elem_of_nil in X|..]; apply elem_of_cons in X as [X|X]; try done; eauto.
  injection X as -> -> ->. eauto.
Qed.
Lemma follows_call t (h : list hev) : forall p q, follows t p h q -> forall o r, HLin t o r ∈ h ->
  p = Called o \/ HCall t o ∈ h.
Proof.
  induction 1 as [p|o h p F IH|o r h p F IH|r h p F IH|e h p q N F IH]; intros o' r' X; [by apply elem_of_nil in X|..];
    apply elem_of_cons in X as [X|X]; try done; try (apply IH in X as [X|X]; [|by right; apply elem_of_cons; right]); try done.
  - injection X as ->. right. apply elem_of_cons. by left.
  - injection X as -> ->. by left.
  - by subst e.
  - by left.
Qed.
Lemma call_erase t o (h : list hev) : HCall t o ∈ h -> Call t o ∈ erase h.
Proof. intros X. apply elem_of_list_omap. by exists (HCall t o). Qed.
End refute.

(** Thread 0 inserts; between the steps of its [post_insert] thread 1 freezes the leaf (for a split),
    and thaws it again (the split is rolled back) just before thread 0 rolls back. *)
Definition thaw_race : list (action nat nat) :=
  [ACall 0 (OpInsert 5 50); AStep 0; AStep 0; AStep 0; ACall 1 OpFreeze; AStep 1; AStep 1; AStep 0;
   ACall 1 OpThaw; AStep 1; AStep 1; AStep 0; AStep 0].
Lemma thaw_race_history : snd <$> run Nat.compare (init 2 []) thaw_race =
  Some [Call 0 (OpInsert 5 50); Call 1 OpFreeze; Ret 1 (RsBool true); Call 1 OpThaw; Ret 1 (RsBool true);
        Ret 0 (RsIns IDuplicate)].
Proof. vm_compute. reflexivity. Qed.

Lemma lC27_leaf_linearizable_refuted :
  exists acts s h, run Nat.compare (init 2 ([] : list (nat * nat))) acts = Some (s, h) /\
    Ret 0 (RsIns IDuplicate) ∈ h /\ ~ linearizable Nat.compare true [] h.
Proof.
  pose proof thaw_race_history as H. destruct (run Nat.compare (init 2 []) thaw_race) as [[s h]|] eqn:R; [|done].
  simpl in H. injection H as ->. exists thaw_race. eexists _, _. split; [exact R|].
  split; [do 5 (apply elem_of_cons; right); by apply elem_of_cons; left|].
  intros (lh & E & (a & L) & F).
  destruct (F 0) as [p F0]. apply follows_proj in F0.
  pose proof (erase_proj 0 lh) as E0. rewrite E in E0. simpl in E0.
  pose proof (one_call _ _ _ _ _ (mine_all 0 lh) F0 E0) as G0.
  assert (HLin 0 (OpInsert 5 50) (RsIns IDuplicate) ∈ lh) as X.
  { apply elem_of_list_In. eapply (proj1 (filter_In (mine 0) _ _)). rewrite G0. right. by left. }
  revert X. eapply nothing_present; [exact L|done|].
  intros t o Y.
  destruct (legal_elem Nat.compare true lh _ _ L _ _ _ Y) as (a1 & a2 & Al).
  destruct (F t) as [q Ft]. destruct (follows_call t lh _ _ Ft _ _ Y) as [?|C]; [done|].
  apply call_erase in C. rewrite E in C. clear -C Al Y G0.
  repeat (apply elem_of_cons in C as [[= -> ->]|C] || (apply elem_of_cons in C as [C|C]; [done|])); [|done|done|by apply elem_of_nil in C].
  assert (HLin 0 (OpInsert 5 50) (RsIns ISuccess) ∈ List.filter (mine 0) lh) as Y'.
  { apply elem_of_list_In, filter_In. split; [by apply elem_of_list_In|done]. }
  rewrite G0 in Y'. repeat (apply elem_of_cons in Y' as [Y'|Y']; [done|]). by apply elem_of_nil in Y'.
Qed.

(** No thread ever reads a slot that holds no entry, and none is ever stuck. *)
Lemma lC27_never_stuck {K V} (cmp : K -> K -> comparison) : total_order cmp ->
  forall n (es : list (K * V)) acts s h, length es <= 14 -> ascending cmp es ->
  run cmp (init n es) acts = Some (s, h) ->
  forall t p, pcs s !! t = Some p ->
    match p with
    | PIdle => forall o, exists s' e, step cmp s (ACall t o) = Some (s', e)
    | _ => exists s' e, step cmp s (AStep t) = Some (s', e)
    end.
Proof.
  intros T n es acts s h Ln A R t p Hp.
  assert (false = true -> forallb (@no_thaw K V) acts = true) as NT by done.
  pose proof (run_inv cmp T false (Obj es false false) acts _ [] s h (init_inv cmp T false n es Ln A) NT R) as [I _ _].
  destruct I as (c & lh & _ & _ & _ & P & _). destruct (P t p Hp) as [_ Iv]. clear P.
  unfold step. rewrite Hp.
  destruct p as [|o|k m|k v m|k v i m|k v i m|k v i|k cd m|k cd i m|r]; try (eexists _, _; done); cbn [tstep].
  - intros o. eexists _, _. done.
  - destruct o; try (eexists _, _; done); destruct (frozen _); eexists _, _; done.
  - destruct (retired m); [eexists _, _; done|]. destruct (frozen m); [eexists _, _; done|].
    destruct (first_uninit (ranks m) 0); [|eexists _, _; done]. case_decide; eexists _, _; done.
  - destruct (post _ _ _); [|eexists _, _; done]. case_decide; [eexists _, _; done|]. destruct (_ || _); eexists _, _; done.
  - destruct (frozen m); [eexists _, _; done|]. destruct (search_slot _ _ _ _); eexists _, _; done.
  - destruct Iv as (_ & _ & _ & (v & S) & _). unfold entry_at. rewrite S. cbn. destruct (cd v); [|eexists _, _; done].
    case_decide; [eexists _, _; done|]. destruct (nth _ _ _ =? _)%nat; [eexists _, _; done|].
    destruct (frozen (md (lf s))); eexists _, _; done.
Qed.

(** What a scan of the leaf sees at any moment. *)
Lemma lC27_scan_ordered {K V} (cmp : K -> K -> comparison) : total_order cmp ->
  forall n (es : list (K * V)) acts s h, length es <= 14 -> ascending cmp es ->
  run cmp (init n es) acts = Some (s, h) -> ascending cmp (scan (lf s)) /\
    forall e, e ∈ scan (lf s) <-> stored (lf s) e.
Proof.
  intros T n es acts s h Ln A R.
  assert (false = true -> forallb (@no_thaw K V) acts = true) as NT by done.
  pose proof (run_inv cmp T false (Obj es false false) acts _ [] s h (init_inv cmp T false n es Ln A) NT R) as [I _ _].
  destruct I as (c & lh & W & _). split; [apply scan_asc; by exists c|]. intros e. apply (scan_elem cmp). by exists c.
Qed.

Lemma lC27_no_thaw {K V} (cmp : K -> K -> comparison) : total_order cmp ->
  forall n (es : list (K * V)) acts s h, length es <= 14 -> ascending cmp es ->
  (forall t, ACall t OpThaw ∉ acts) ->
  run cmp (init n es) acts = Some (s, h) -> linearizable cmp true es h.
Proof.
  intros T n es acts s h Ln A N R. eapply run_linearizable; eauto. intros _. apply forallb_forall.
  intros [t o|t] X; [|done]. destruct o; simpl; try done. by apply elem_of_list_In, N in X.
Qed.
Lemma lC27_thaw {K V} (cmp : K -> K -> comparison) : total_order cmp ->
  forall n (es : list (K * V)) acts s h, length es <= 14 -> ascending cmp es ->
  run cmp (init n es) acts = Some (s, h) -> linearizable cmp false es h.
Proof. intros T n es acts s h Ln A R. by eapply run_linearizable. Qed.
