(** The invariant of threads operating on a leaf. *)
From stdpp Require Import prelude list.
From Verif Require Import LeafModel LeafSpec LeafFacts OrdFacts LeafOps LeafSeq LeafConc LeafLin LeafHist.

Section facts.
Context {K V : Type} (cmp : K -> K -> comparison) (T : total_order cmp) (strict : bool) (a0 : obj K V).
Notation op := (op K V). Notation res := (res V). Notation hev := (hev K V). Notation obj := (obj K V).
Notation legal := (legal cmp strict). Notation pc := (pc K V). Notation winv := (winv cmp).
Notation coherent := (coherent cmp). Notation seen := (seen cmp strict a0). Notation ext := (ext cmp strict a0).
Implicit Types (h : list hev) (a : obj) (t u : nat) (o : op) (l : leaf K V) (m : meta) (c : list bool).

Local Opaque scan.
Lemma obj_eq (es es' : list (K * V)) f r : es = es' -> Obj es f r = Obj es' f r.
Proof. by intros ->. Qed.

Definition describes m (ss : list (option (K * V))) a : Prop :=
  ascending cmp (ents a) /\ (forall e, e ∈ ents a <-> sstored m ss e) /\ fz a = frozen m /\ rt a = retired m.
Definition abs l : obj := Obj (scan l) (frozen (md l)) (retired (md l)).

Lemma abs_describes c l : winv c (md l) (slots l) -> describes (md l) (slots l) (abs l).
Proof.
  intros W. assert (good cmp l) as G by (by exists c). unfold describes, abs. cbn [ents fz rt].
  split; [by apply scan_asc|]. split; [|done]. intros e. rewrite scan_elem by done. done.
Qed.
Lemma describes_abs c l a : winv c (md l) (slots l) -> describes (md l) (slots l) a -> a = abs l.
Proof.
  intros W (A & E & F & R). destruct a as [es f r]. unfold abs. cbn [ents fz rt] in *. subst. f_equal.
  symmetry. apply (scan_eq cmp T); [apply W|done|]. intros e. rewrite E. done.
Qed.

Lemma winv_flag c m (ss : list (option (K * V))) f : winv c m ss -> winv c (Meta (ranks m) f (retired m)) ss.
Proof. intros [[] ]. split; try done. Qed.
Lemma scan_flag c l f : winv c (md l) (slots l) -> scan (Leaf (Meta (ranks (md l)) f (retired (md l))) (slots l)) = scan l.
Proof.
  intros W. apply (scan_eq cmp T); [apply (winv_flag _ _ _ f W)|apply scan_asc; by exists c|].
  intros e. rewrite scan_elem by (by exists c). done.
Qed.

Definition op_of (p : pc) : option op :=
  match p with
  | PIdle | PDone _ => None
  | PStart o => Some o
  | PSearch k _ => Some (OpSearch k)
  | PInsert k v _ | PWrite k v _ _ | PPost k v _ _ | PRoll k v _ => Some (OpInsert k v)
  | PRemove k cd _ | PTake k cd _ _ => Some (OpRemove k cd)
  end.
Definition phase_of (p : pc) : phase K V :=
  match p with PDone r => Taken r | _ => match op_of p with Some o => Called o | None => Out end end.
Definition owner (p : pc) : option nat :=
  match p with PWrite _ _ i _ | PPost _ _ i _ | PRoll _ _ i => Some i | _ => None end.

Definition owned c l (i : nat) : Prop := ranks (md l) !! i = Some 15 /\ c !! i = Some false.
Definition is_live m (i : nat) : Prop := exists r, ranks m !! i = Some r /\ live r = true.
Definition snap h c l t o m : Prop :=
  coherent m (slots l) /\ (forall i, is_live m i -> c !! i = Some true) /\ seen h t o (describes m (slots l)).

Definition linv h c l t (p : pc) : Prop :=
  match p with
  | PIdle | PStart _ | PDone _ => True
  | PSearch k m => snap h c l t (OpSearch k) m
  | PInsert k v m => snap h c l t (OpInsert k v) m
  | PWrite k v i m => snap h c l t (OpInsert k v) m /\ retired m = false /\ frozen m = false /\ owned c l i
  | PPost k v i m => snap h c l t (OpInsert k v) m /\ retired m = false /\ frozen m = false /\ owned c l i /\
                     slots l !! i = Some (Some (k, v))
  | PRoll k v i => owned c l i /\ (strict = true ->
      seen h t (OpInsert k v) (fun a => oget cmp (ents a) k <> None) \/ frozen (md l) = true \/ retired (md l) = true)
  | PRemove k cd m => snap h c l t (OpRemove k cd) m /\
      (forall i v, is_live m i -> slots l !! i = Some (Some (k, v)) ->
        is_live (md l) i \/ seen h t (OpRemove k cd) (fun a => oget cmp (ents a) k = None))
  | PTake k cd i m => snap h c l t (OpRemove k cd) m /\ frozen m = false /\ is_live m i /\
      (exists v, slots l !! i = Some (Some (k, v))) /\
      (is_live (md l) i \/ seen h t (OpRemove k cd) (fun a => oget cmp (ents a) k = None))
  end.

(** What a step of one thread may do to the leaf; [own] is the slot the thread has reserved. *)
Record shared (own : option nat) c l c' l' : Prop := {
  sh_c : forall i, c !! i = Some true -> c' !! i = Some true;
  sh_slot : forall i, c !! i = Some true -> slots l' !! i = slots l !! i;
  sh_len : length (slots l') = length (slots l);
  sh_own : forall i, own <> Some i -> owned c l i -> owned c' l' i /\ slots l' !! i = slots l !! i;
  sh_rt : retired (md l) = true -> retired (md l') = true;
  sh_fz : strict = true -> frozen (md l) = true -> frozen (md l') = true;
  sh_live : forall i k v, is_live (md l) i -> slots l !! i = Some (Some (k, v)) ->
    is_live (md l') i \/ oget cmp (scan l') k = None }.

Lemma shared_refl own c l : shared own c l c l.
Proof. constructor; auto. Qed.

Lemma coherent_stable m c l c' l' own : shared own c l c' l' -> (forall i, is_live m i -> c !! i = Some true) ->
  coherent m (slots l) -> coherent m (slots l').
Proof.
  intros S Lc C. assert (forall i r, ranks m !! i = Some r -> live r = true -> slots l' !! i = slots l !! i) as E.
  { intros i r Hr Lr. eapply sh_slot; [done|]. apply Lc. by exists r. }
  split; [apply C|rewrite (sh_len _ _ _ _ _ S); apply C|apply C| |apply C|].
  - intros i r Hr Lr. rewrite (E _ _ Hr Lr). by eapply co_init.
  - intros i j r r' e e' Hi Hj Li Lj. rewrite (E _ _ Hi Li), (E _ _ Hj Lj). by eapply co_ord.
Qed.
Lemma sstored_stable m c l c' l' own e : shared own c l c' l' -> (forall i, is_live m i -> c !! i = Some true) ->
  sstored m (slots l) e <-> sstored m (slots l') e.
Proof.
  intros S Lc. split; intros (i & r & Hr & Lr & He); exists i, r; do 2 (split; [done|]);
    rewrite <-He; [|symmetry]; apply (sh_slot _ _ _ _ _ S); apply Lc; by exists r.
Qed.
Lemma snap_stable h h' c l c' l' own t u o m : shared own c l c' l' -> ext t h h' -> u <> t ->
  snap h c l u o m -> snap h' c' l' u o m.
Proof.
  intros S X N (C & Lc & Se). split; [by eapply coherent_stable|]. split; [intros i Hi; eapply sh_c; eauto|].
  apply (ex_seen _ _ _ _ _ _ X); [done|]. eapply seen_mono; [|exact Se].
  intros a (A & E & F & R). split; [done|]. split; [|done]. intros e. rewrite E. by eapply sstored_stable.
Qed.
Lemma linv_stable h h' c l c' l' t u p own : shared own c l c' l' -> ext t h h' -> u <> t ->
  (forall i, owner p = Some i -> own <> Some i) -> legal a0 h' (abs l') -> follows u Out h (phase_of p) ->
  linv h c l u p -> linv h' c' l' u p.
Proof.
  intros S X N O Lg F I. destruct p as [|o|k m|k v m|k v i m|k v i m|k v i|k cd m|k cd i m|r]; simpl in *; try done.
  - by eapply snap_stable.
  - by eapply snap_stable.
  - destruct I as (I1 & I2 & I3 & I4). split; [by eapply snap_stable|]. do 2 (split; [done|]).
    eapply (sh_own _ _ _ _ _ S); auto.
  - destruct I as (I1 & I2 & I3 & I4 & I5). split; [by eapply snap_stable|]. do 2 (split; [done|]).
    destruct (sh_own _ _ _ _ _ S i) as [H1 H2]; auto. split; [done|]. by rewrite H2.
  - destruct I as (I1 & I2). split; [eapply (sh_own _ _ _ _ _ S); auto|]. intros St.
    destruct (I2 St) as [I3|[I3|I3]].
    + left. by apply (ex_seen _ _ _ _ _ _ X).
    + right. left. by eapply sh_fz.
    + right. right. by eapply sh_rt.
  - destruct I as (I1 & I2). split; [by eapply snap_stable|]. intros i v Hi Hs.
    assert (c !! i = Some true) as Ci by (by apply I1).
    rewrite (sh_slot _ _ _ _ _ S i Ci) in Hs. destruct (I2 i v Hi Hs) as [I5|I5].
    + destruct (sh_live _ _ _ _ _ S i k v I5 Hs) as [?|Hn]; [by left|]. right.
      eapply seen_now; [exact Lg| |exact Hn]. by apply (ex_follows _ _ _ _ _ _ X).
    + right. by apply (ex_seen _ _ _ _ _ _ X).
  - destruct I as (I1 & I2 & I3 & [v I4] & I5). split; [by eapply snap_stable|]. split; [done|]. split; [done|].
    assert (c !! i = Some true) as Ci by (by apply I1).
    rewrite (sh_slot _ _ _ _ _ S i Ci). split; [eauto|].
    destruct I5 as [I5|I5].
    + destruct (sh_live _ _ _ _ _ S i k v I5 I4) as [?|Hn]; [by left|]. right.
      eapply seen_now; [exact Lg| |exact Hn]. by apply (ex_follows _ _ _ _ _ _ X).
    + right. by apply (ex_seen _ _ _ _ _ _ X).
Qed.

Lemma post_none m (ss : list (option (K * V))) k i : coherent m ss -> post (compare_at cmp ss k) m i = None -> exists v, sstored m ss (k, v).
Proof.
  intros C. unfold post.
  pose proof (post_loop_spec (ranks m) (compare_at cmp ss k) (co_le _ _ _ C) (co_inj _ _ _ C)
    (co_mono_lt cmp T _ _ k C) (co_mono_gt cmp T _ _ k C) (ranks m) 0 0 removed_rank eq_refl
    (lo_0 _ _) (hi_15 _ _ _) (told_0 _ _ _ _)) as P.
  destruct (post_loop _ (ranks m) 0 0 removed_rank) as [[z lo]|]; [done|]. intros _.
  destruct P as (j & r & Hj & Lj & Ej). destruct (co_init _ _ _ C _ _ Hj Lj) as [[k' v'] He].
  rewrite (compare_at_some cmp T _ _ _ _ He) in Ej. apply cmp_eq in Ej; [|done]. simpl in Ej. subst k'.
  exists v', j, r. done.
Qed.

Lemma describes_get m (ss : list (option (K * V))) a k v : describes m ss a -> sstored m ss (k, v) <-> oget cmp (ents a) k = Some v.
Proof. intros (A & E & _). rewrite (oget_some cmp T) by done. by rewrite E. Qed.
Lemma describes_get_none m (ss : list (option (K * V))) a k : describes m ss a -> (forall v, ~ sstored m ss (k, v)) <-> oget cmp (ents a) k = None.
Proof.
  intros D. split.
  - intros H. destruct (oget cmp (ents a) k) as [v|] eqn:E; [|done]. by apply (describes_get _ _ _ _ _ D) in E; apply H in E.
  - intros H v Hs. apply (describes_get _ _ _ _ _ D) in Hs. congruence.
Qed.

(** The outcome of a step. *)
Definition step_ok h c l t p c' l' p' : Prop :=
  exists h', ext t h h' /\ winv c' (md l') (slots l') /\ legal a0 h' (abs l') /\ follows t Out h' (phase_of p') /\
    shared (owner p) c l c' l' /\ linv h' c' l' t p' /\
    (owner p' = None \/ owner p' = owner p \/ exists i, owner p' = Some i /\ ranks (md l) !! i = Some 0).

Section one.
Variables (h : list hev) (c : list bool) (l : leaf K V) (t : nat).
Hypothesis W : winv c (md l) (slots l).
Hypothesis L : legal a0 h (abs l).

(** A step that only changes what the thread knows. *)
Lemma ok_local p p' : follows t Out h (phase_of p) -> phase_of p' = phase_of p -> linv h c l t p' ->
  owner p' = None \/ owner p' = owner p -> step_ok h c l t p c l p'.
Proof.
  intros F E I O. exists h. split; [apply ext_refl|]. split; [done|]. split; [done|]. split; [by rewrite E|].
  split; [apply shared_refl|]. split; [done|]. by destruct O; auto.
Qed.
(** A step that returns an answer that was right at some instant. *)
Lemma ok_pure p o (r : res) : seen h t o (fun a => allowed cmp strict o r a a) -> step_ok h c l t p c l (PDone r).
Proof.
  intros S. destruct (pure_lin cmp strict a0 t h o r (abs l) L S) as (h' & X & L' & F).
  exists h'. split; [done|]. split; [done|]. split; [done|]. split; [done|]. split; [apply shared_refl|]. split; [done|]. by left.
Qed.
Lemma snap_now o : follows t Out h (Called o) -> snap h c l t o (md l).
Proof.
  intros F. split; [apply W|]. split; [intros i (r & Hr & Lr); by eapply wi_live|].
  eapply seen_now; [done|done|by eapply abs_describes].
Qed.
(** A step that takes effect. *)
Lemma ok_effect p o (r : res) c' l' : follows t Out h (Called o) -> winv c' (md l') (slots l') -> shared (owner p) c l c' l' ->
  allowed cmp strict o r (abs l) (abs l') -> step_ok h c l t p c' l' (PDone r).
Proof.
  intros F W' S A. exists (h ++ [HLin t o r]). split; [apply ext_lin|]. split; [done|].
  split; [by eapply legal_lin|]. split.
  { apply follows_app. eexists. split; [exact F|]. repeat constructor. }
  split; [done|]. split; [done|]. by left.
Qed.

Lemma oget_abs_some k v : sstored (md l) (slots l) (k, v) -> oget cmp (scan l) k = Some v.
Proof. intros H. by apply (describes_get _ _ _ k v (abs_describes _ _ W)). Qed.

Lemma tstep_ok p l' p' : (strict = true -> p <> PStart OpThaw) -> follows t Out h (phase_of p) -> linv h c l t p ->
  tstep cmp l p = Some (l', p') -> exists c', step_ok h c l t p c' l' p'.
Proof.
  intros NT F I E. destruct p as [|o|k m|k v m|k v i m|k v i m|k v i|k cd m|k cd i m|r]; try done.
  - (* first load *)
    destruct o as [k|k v|k cd| |]; simpl in E.
    + injection E as <- <-. exists c. apply ok_local; auto. by apply snap_now.
    + injection E as <- <-. exists c. apply ok_local; auto. by apply snap_now.
    + injection E as <- <-. exists c. apply ok_local; auto. simpl. split; [by apply snap_now|]. intros i v Hi _. by left.
    + destruct (frozen (md l)) eqn:Fz; injection E as <- <-; exists c.
      * eapply ok_pure. eapply seen_now; [exact L|exact F|]. unfold abs; simpl. rewrite Fz. done.
      * eapply ok_effect; [exact F| | |].
        -- by apply winv_flag.
        -- split; try done. intros i k v (r & Hr & Lr) Hs. left. by exists r.
        -- simpl. rewrite Fz. split; [done|]. unfold abs; simpl. unfold freeze, thaw, set_md. by rewrite (scan_flag c) by exact W.
    + destruct (frozen (md l)) eqn:Fz; injection E as <- <-; exists c.
      * eapply ok_effect; [exact F| | |].
        -- by apply winv_flag.
        -- split; try done.
           ++ intros St _. by destruct (NT St).
           ++ intros i k v (r & Hr & Lr) Hs. left. by exists r.
        -- simpl. rewrite Fz. split; [done|]. unfold abs; simpl. unfold freeze, thaw, set_md. by rewrite (scan_flag c) by exact W.
      * eapply ok_pure. eapply seen_now; [exact L|exact F|]. unfold abs; simpl. rewrite Fz. done.
  - (* search *)
    simpl in E. injection E as <- <-. exists c. destruct I as (C & Lc & S). eapply ok_pure.
    eapply seen_mono; [|exact S]. intros a D. simpl. split; [|done].
    pose proof (search_slot_spec cmp T _ _ k C) as Sp. destruct (search_slot cmp (slots l) k m) as [i|]; simpl.
    + destruct Sp as (r & v & Hr & Lr & He). apply entry_at_some in He as He'. rewrite He'. simpl. symmetry.
      apply (describes_get _ _ _ _ _ D). exists i, r. done.
    + symmetry. by apply (describes_get_none _ _ _ _ D).
  - (* insert: reserve a slot *)
    simpl in E. destruct I as (C & Lc & S).
    destruct (retired m) eqn:Rt.
    { injection E as <- <-. exists c. eapply ok_pure. eapply seen_mono; [|exact S]. intros a (_ & _ & _ & R). simpl. split; [congruence|done]. }
    destruct (frozen m) eqn:Fz.
    { injection E as <- <-. exists c. eapply ok_pure. eapply seen_mono; [|exact S]. intros a (_ & _ & R & _). simpl. split; [congruence|done]. }
    pose proof (first_uninit_0 (ranks m)) as Fu. destruct (first_uninit (ranks m) 0) as [i|].
    + destruct (decide (md l = m)) as [<-|Nm].
      * injection E as <- <-.
        destruct (lookup_lt_is_Some_2 (slots l) i) as [x Hx].
        { rewrite (co_slen _ _ _ C), <-(co_len _ _ _ C). by eapply lookup_lt_Some. }
        destruct (reserve_spec cmp c (md l) (slots l) i x W Fu) as (W' & Ci & S').
        rewrite list_insert_id in W', S' by done.
        set (l' := set_md l (augment (md l) i removed_rank)).
        assert (abs l' = abs l) as EA.
        { unfold abs, l', set_md. cbn [md augment frozen retired]. apply obj_eq.
          apply (scan_eq cmp T); [apply W'|apply scan_asc; by exists c|]. intros e. rewrite scan_elem by (by exists c).
          symmetry. apply S'. }
        assert (i < length (ranks (md l))) as Hi by (by eapply lookup_lt_Some).
        exists c, h. split; [apply ext_refl|]. split; [done|]. split; [by rewrite EA|]. split; [done|].
        split; [|split; [|right; right; exists i; done]].
        -- split; try done.
           ++ intros j _ [O1 O2]. split; [|done]. split; [|done]. cbn. rewrite list_lookup_insert_ne; [done|].
              intros ->. congruence.
           ++ intros j k' v' (r & Hr & Lr) Hs. left. exists r. split; [|done]. cbn. rewrite list_lookup_insert_ne; [done|].
              intros ->. rewrite Fu in Hr. by injection Hr as <-.
        -- simpl. split; [|split; [done|split; [done|]]].
           ++ split; [apply W'|]. split; [intros j (r & Hr & Lr); by eapply (wi_live _ _ _ _ W')|].
              eapply seen_now; [exact L|exact F|]. rewrite <-EA. eapply (abs_describes c l'). done.
           ++ split; [|done]. cbn. by apply list_lookup_insert.
      * injection E as <- <-. exists c. apply ok_local; auto. by apply snap_now.
    + injection E as <- <-. exists c. eapply ok_pure. eapply seen_mono; [|exact S]. intros a D.
      pose proof (search_slot_spec cmp T _ _ k C) as Sp. destruct (search_slot cmp (slots l) k m) as [i|]; simpl.
      * destruct Sp as (r & v' & Hr & Lr & He). split; [|done]. intros _.
        rewrite (proj1 (describes_get _ _ _ k v' D)); [done|]. exists i, r. done.
      * split; [|done]. by apply (describes_get_none _ _ _ _ D).
  - (* write *)
    simpl in E. injection E as <- <-. destruct I as ((C & Lc & S) & Rt & Fz & O1 & O2).
    set (l' := Leaf (md l) (<[i:=Some (k, v)]> (slots l))).
    assert (forall j, c !! j = Some true -> slots l' !! j = slots l !! j) as SJ.
    { intros j Hj. cbn. apply list_lookup_insert_ne. intros ->. congruence. }
    assert (shared (Some i) c l c l') as SH.
    { split; try done.
      - cbn. apply insert_length.
      - intros j Nj Hj. split; [done|]. cbn. apply list_lookup_insert_ne. congruence.
      - intros j k' v' Hl Hs. by left. }
    assert (coherent (md l) (slots l')) as C'.
    { eapply (coherent_stable (md l) c l c l'); [done| |apply W]. intros j (r & Hr & Lr). by eapply wi_live. }
    assert (winv c (md l') (slots l')) as W' by (destruct W; by split).
    assert (abs l' = abs l) as EA.
    { unfold abs. cbn [md l']. apply obj_eq. apply (scan_eq cmp T); [done|apply scan_asc; by exists c|].
      intros e. rewrite scan_elem by (by exists c). eapply (sstored_stable (md l) c l c l'); [done|].
      intros j (r & Hr & Lr). by eapply wi_live. }
    exists c, h. split; [apply ext_refl|]. split; [done|]. split; [by rewrite EA|]. split; [done|].
    split; [done|]. split; [|by right; left].
    clear EA. simpl. split; [|split; [exact Rt|split; [exact Fz|split; [exact (conj O1 O2)|]]]].
    + split; [by eapply (coherent_stable m c l c l')|]. split; [exact Lc|]. eapply seen_mono; [|exact S].
      intros a (A & Ea & D). split; [done|]. split; [|done]. intros e. rewrite Ea. by eapply (sstored_stable m c l c l').
    + apply list_lookup_insert. rewrite (co_slen _ _ _ C), <-(co_len _ _ _ (wi_co _ _ _ _ W)). by eapply lookup_lt_Some.
  - (* commit *)
    simpl in E. destruct I as ((C & Lc & S) & Rt & Fz & (O1 & O2) & Sl).
    destruct (post (compare_at cmp (slots l) k) m i) as [m'|] eqn:P.
    + destruct (decide (md l = m)) as [<-|Nm].
      * injection E as <- <-.
        pose proof (post_spec cmp T c (md l) (slots l) i k v W Rt O1 O2 Sl) as Q. rewrite P in Q.
        destruct Q as (W' & Fz' & Rt' & S' & N & O').
        assert (k ∉ (scan l).*1) as Nk.
        { rewrite scan_key by (done || by exists c). intros [v' Hv]. by apply (N v'). }
        exists (<[i:=true]> c). eapply ok_effect; [exact F|exact W'| |].
        -- split; try done.
           ++ intros j Hj. destruct (decide (j = i)) as [->|]; [congruence|]. by rewrite list_lookup_insert_ne.
           ++ intros j Nj [H1 H2]. assert (j <> i) as Nji by (simpl in Nj; congruence). split; [|done]. split.
              ** cbn. destruct (O' j Nji) as [(r & Hr & Lr)|E']; [|by rewrite E'].
                 rewrite H1 in Hr. by injection Hr as <-.
              ** by rewrite list_lookup_insert_ne.
           ++ intros H. congruence.
           ++ intros _ H. congruence.
           ++ intros j k' v' (r & Hr & Lr) Hs. left.
              destruct (proj2 (S' (k', v'))) as (j' & r' & Hr' & Lr' & Hs').
              { right. exists j, r. done. }
              assert (j' = j) as ->.
              { destruct (proj1 (S' (k', v'))) as [E'|(j2 & r2 & Hr2 & Lr2 & Hs2)]; [by exists j', r'| |].
                - exfalso. injection E' as -> ->. apply (N v). exists j, r. done.
                - assert (j2 = j) as -> by (by eapply (sstored_slot cmp T (md l) (slots l) j2 j r2 r)).
                  (* slot j' carries the key too *)
                  destruct (decide (j' = i)) as [->|Nj].
                  + exfalso. rewrite Sl in Hs'. injection Hs' as -> ->. apply (N v'). exists j, r. done.
                  + destruct (O' j' Nj) as [(r3 & Hr3 & Lr3)|E3].
                    * by eapply (sstored_slot cmp T (md l) (slots l) j' j r3 r).
                    * rewrite E3 in Hr'. by eapply (sstored_slot cmp T (md l) (slots l) j' j r' r). }
              exists r'. done.
        -- simpl. split; [apply (oget_none cmp T); [apply scan_asc; by exists c|done]|].
           split; [done|]. split; [done|]. unfold abs. cbn [set_md md]. rewrite Fz', Rt', Fz. apply obj_eq.
           apply (scan_eq cmp T); [apply W'|apply (oput_asc cmp T); [apply scan_asc; by exists c|done]|].
           intros e. rewrite (oput_elem cmp T) by (done || (apply scan_asc; by exists c)).
           rewrite scan_elem by (by exists c). symmetry. apply S'.
      * destruct (frozen (md l) || retired (md l)) eqn:FR.
        -- injection E as <- <-. exists c. apply ok_local; auto. simpl. split; [done|]. intros _. right.
           by apply orb_true_iff in FR.
        -- injection E as <- <-. apply orb_false_iff in FR as [F1 F2]. exists c. apply ok_local; auto. simpl.
           split; [by apply snap_now|]. done.
    + injection E as <- <-. exists c. apply ok_local; auto. simpl. split; [done|]. intros _. left.
      destruct (post_none _ _ _ _ C P) as [v' Hv]. eapply seen_mono; [|exact S]. intros a D.
      rewrite (proj1 (describes_get _ _ _ _ _ D) Hv). done.
  - (* roll back *)
    simpl in E. injection E as <- <-. destruct I as ((O1 & O2) & I).
    destruct (unreserve_spec cmp c _ _ i None W O2 O1) as (W' & S').
    set (l' := Leaf (augment (md l) i uninit_rank) (<[i:=None]> (slots l))).
    assert (abs l' = abs l) as EA.
    { unfold abs, l'. cbn [md augment frozen retired]. apply obj_eq.
      apply (scan_eq cmp T); [apply W'|apply scan_asc; by exists c|]. intros e. rewrite scan_elem by (by exists c).
      symmetry. apply S'. }
    assert (shared (Some i) c l c l') as SH.
    { split; try done.
      - intros j Hj. cbn. apply list_lookup_insert_ne. intros ->. congruence.
      - cbn. apply insert_length.
      - intros j Nj [H1 H2]. assert (j <> i) by congruence. split; [split; [|done]|]; cbn; by rewrite list_lookup_insert_ne.
      - intros j k' v' (r & Hr & Lr) Hs. left. exists r. split; [|done]. cbn. rewrite list_lookup_insert_ne; [done|].
        intros ->. rewrite O1 in Hr. by injection Hr as <-. }
    assert (seen h t (OpInsert k v) (fun a => allowed cmp strict (OpInsert k v)
      (RsIns (rollback_result (augment (md l) i uninit_rank))) a a)) as Wt.
    { unfold rollback_result. cbn [augment retired frozen].
      destruct (retired (md l)) eqn:Rt; [eapply seen_now; [exact L|exact F|]; unfold abs; simpl; by rewrite Rt|].
      destruct (frozen (md l)) eqn:Fz; [eapply seen_now; [exact L|exact F|]; unfold abs; simpl; by rewrite Fz|].
      destruct strict eqn:St.
      - destruct (I eq_refl) as [H|[H|H]]; [|done|done]. eapply seen_mono; [|exact H]. intros a Ha. by simpl.
      - eapply seen_now; [exact L|exact F|]. by simpl. }
    destruct (pure_lin cmp strict a0 t h _ _ (abs l) L Wt) as (h' & X & L' & F').
    exists c, h'. split; [done|]. split; [done|]. split; [by rewrite EA|]. split; [done|]. split; [done|]. split; [done|]. by left.
  - (* remove: find the slot *)
    simpl in E. destruct I as ((C & Lc & S) & I). destruct (frozen m) eqn:Fz.
    { injection E as <- <-. exists c. eapply ok_pure. eapply seen_mono; [|exact S]. intros a (_ & _ & R & _). simpl. split; [congruence|done]. }
    pose proof (search_slot_spec cmp T _ _ k C) as Sp. destruct (search_slot cmp (slots l) k m) as [i|].
    + injection E as <- <-. exists c. destruct Sp as (r & v & Hr & Lr & He). apply ok_local; auto. simpl.
      split; [done|]. split; [done|]. split; [by exists r|]. split; [eauto|].
      apply (I i v); [by exists r|done].
    + injection E as <- <-. exists c. eapply ok_pure. eapply seen_mono; [|exact S]. intros a D. simpl. split; [|done].
      intros v Hv. apply (describes_get _ _ _ _ _ D) in Hv. by apply Sp in Hv.
  - (* remove: take the slot *)
    simpl in E. destruct I as ((C & Lc & S) & Fz & Li & (v & Sl) & I).
    apply entry_at_some in Sl as Sl'. rewrite Sl' in E. simpl in E.
    destruct (cd v) eqn:Cv.
    2:{ injection E as <- <-. exists c. eapply ok_pure. eapply seen_mono; [|exact S]. intros a D. simpl. split; [|done].
        intros v' Hv. destruct Li as (r & Hr & Lr).
        rewrite (proj1 (describes_get _ _ _ k v D)) in Hv; [by injection Hv as <-|]. exists i, r. done. }
    destruct (decide (md l = m)) as [<-|Nm].
    + injection E as <- <-. destruct Li as (r & Hr & Lr).
      destruct (removal_spec cmp T c _ _ i r k v W Hr Lr Sl) as (W' & F' & R' & Rt & OE & O' & S').
      set (l' := set_md l (removal (md l) i)).
      assert (retired (md l) = false) as Rt0.
      { destruct (retired (md l)) eqn:E; [|done]. by rewrite (wi_ret _ _ _ _ W E _ _ Hr) in Lr. }
      assert (good cmp l) as G by (by exists c). assert (good cmp l') as G' by (by exists c).
      assert (scan l' = odel cmp (scan l) k) as Sc.
      { apply (scan_eq cmp T); [apply W'|by apply odel_asc, scan_asc|]. intros e.
        rewrite (odel_elem cmp T), scan_elem by done. symmetry. apply S'. }
      assert (scan l' = [] <-> forall e, ~ sstored (md l') (slots l') e) as E0.
      { split.
        - intros E e He0. apply (scan_elem cmp l' e G') in He0. rewrite E in He0. by apply elem_of_nil in He0.
        - intros H. apply (scan_eq cmp T); [apply W'|apply asc_nil|]. intros e. rewrite elem_of_nil. split; [done|].
          intros X. by apply (H e). }
      exists c. eapply ok_effect; [exact F|exact W'| |].
      * split; try done.
        -- intros j _ [H1 H2]. split; [|done]. split; [|done]. cbn. rewrite O'; [done|]. intros ->.
           rewrite Hr in H1. injection H1 as ->. done.
        -- congruence.
        -- intros _ H. cbn. by rewrite F'.
        -- intros j k' v' (r' & Hr' & Lr') Hs. destruct (decide (j = i)) as [->|Nj].
           ++ right. rewrite Sl in Hs. injection Hs as -> ->. apply (oget_none cmp T); [by apply scan_asc|].
              rewrite scan_key by done. intros [v2 Hv2]. apply S' in Hv2 as [_ Hv2]. done.
           ++ left. exists r'. split; [|done]. cbn. by rewrite O'.
      * assert (oget cmp (scan l) k = Some v) as Og by (apply oget_abs_some; exists i, r; done).
        destruct (others_empty (ranks (md l)) 0 i) eqn:Oe; simpl.
        -- assert (scan l' = []) as Z by (apply E0, OE; done).
           split; [done|]. split; [eauto|]. split; [by rewrite <-Sc|]. unfold abs. rewrite Z. cbn [md l' set_md].
           rewrite F', Fz. f_equal. by apply Rt.
        -- split; [done|]. split; [eauto|]. split.
           ++ rewrite <-Sc. intros Z. pose proof (proj2 OE (proj1 E0 Z)). done.
           ++ unfold abs. rewrite Sc. cbn [md l' set_md]. rewrite F', Fz, Rt0. f_equal.
              destruct (retired (removal (md l) i)) eqn:E'; [|done]. by pose proof (proj1 Rt eq_refl).
    + assert (c !! i = Some true) as Ci by (by apply Lc).
      destruct (lookup_lt_is_Some_2 (ranks (md l)) i) as [r' Hr'].
      { destruct Li as (r & Hr & _). rewrite (co_len _ _ _ (wi_co _ _ _ _ W)), <-(co_len _ _ _ C). by eapply lookup_lt_Some. }
      rewrite (nth_lookup_Some _ _ 0 _ Hr') in E. destruct (r' =? removed_rank) eqn:Rr.
      * injection E as <- <-. apply Nat.eqb_eq in Rr as ->. exists c. destruct I as [(r2 & Hr2 & Lr2)|I].
        { rewrite Hr' in Hr2. by injection Hr2 as <-. }
        eapply ok_pure. eapply seen_mono; [|exact I]. intros a Ha. simpl. split; [|done]. intros v'. by rewrite Ha.
      * assert (live r' = true) as Lr'.
        { apply live_spec. apply Nat.eqb_neq in Rr. split; [|done]. intros ->. by apply (wi_c _ _ _ _ W i Ci). }
        destruct (frozen (md l)) eqn:Fl.
        -- injection E as <- <-. exists c. eapply ok_pure. eapply seen_now; [exact L|exact F|]. unfold abs; simpl. by rewrite Fl.
        -- injection E as <- <-. exists c. apply ok_local; auto. simpl. split; [by apply snap_now|]. split; [done|].
           split; [by exists r'|]. split; [eauto|]. left. by exists r'.
Qed.
End one.

(** The whole state. *)
Record inv (s : state K V) (hs : list (event K V)) : Prop := Inv {
  iv_ex : exists c h, winv c (md (lf s)) (slots (lf s)) /\ erase h = hs /\ legal a0 h (abs (lf s)) /\
    (forall t p, pcs s !! t = Some p -> follows t Out h (phase_of p) /\ linv h c (lf s) t p) /\
    (forall t, pcs s !! t = None -> follows t Out h Out);
  iv_own : forall t u p q i, pcs s !! t = Some p -> pcs s !! u = Some q -> owner p = Some i -> owner q = Some i -> t = u;
  iv_thaw : strict = true -> forall t, pcs s !! t <> Some (PStart OpThaw) }.

Definition no_thaw (a : action K V) : bool := match a with ACall _ OpThaw => false | _ => true end.

Lemma call_seen h t o u o' (P : obj -> Prop) e : who e = t -> u <> t -> seen h u o' P -> seen (h ++ [e]) u o' P.
Proof. intros E N. apply seen_app. congruence. Qed.

(** Events of the thread [t] that are not effects. *)
Lemma linv_event h c l t u p e : who e = t -> u <> t -> legal a0 (h ++ [e]) (abs l) -> follows u Out h (phase_of p) ->
  linv h c l u p -> linv (h ++ [e]) c l u p.
Proof.
  intros E N Lg F I.
  assert (forall o (P : obj -> Prop), seen h u o P -> seen (h ++ [e]) u o P) as X.
  { intros o P. apply seen_app. congruence. }
  assert (forall o m, snap h c l u o m -> snap (h ++ [e]) c l u o m) as Y.
  { intros o m (? & ? & ?). split; [done|]. split; [done|]. auto. }
  destruct p; simpl in *; try done; auto.
  - destruct I as (? & I). split; auto.
  - destruct I as (? & I). split; auto.
  - destruct I as (? & I). split; [done|]. intros St. destruct (I St); auto.
  - destruct I as (? & I). split; [auto|]. intros i v Hi Hs. destruct (I i v Hi Hs); auto.
  - destruct I as (? & ? & ? & ? & I). split; [auto|]. do 3 (split; [done|]). destruct I; auto.
Qed.

Lemma step_inv s (ac : action K V) s' es hs : inv s hs -> (strict = true -> no_thaw ac = true) -> step cmp s ac = Some (s', es) ->
  inv s' (hs ++ es).
Proof.
  intros [(c & h & W & E & L & P & N) O Th] NT St. destruct ac as [t o|t]; simpl in St.
  - (* call *)
    destruct (pcs s !! t) as [p|] eqn:Ht; [|done]. destruct p; try done. injection St as <- <-.
    assert (t < length (pcs s)) as Hlt by (by eapply lookup_lt_Some).
    destruct (P _ _ Ht) as [F _]. split; cbn [lf pcs].
    + exists c, (h ++ [HCall t o]). split; [exact W|]. split.
      { unfold erase. rewrite omap_app. cbn. f_equal. exact E. }
      assert (legal a0 (h ++ [HCall t o]) (abs (lf s))) as L' by (by apply LeafHist.legal_call).
      split; [exact L'|]. split.
      * intros u q Hu. destruct (decide (u = t)) as [->|Nu].
        -- rewrite list_lookup_insert in Hu by done. injection Hu as <-. split; [|done]. simpl.
           apply follows_app. exists Out. split; [exact F|]. repeat constructor.
        -- rewrite list_lookup_insert_ne in Hu by done. destruct (P _ _ Hu) as [Fu Iu].
           split; [by apply follows_other|]. by eapply linv_event.
      * intros u Hu. assert (u <> t) by (intros ->; by rewrite list_lookup_insert in Hu).
        rewrite list_lookup_insert_ne in Hu by done. by apply follows_other; [|apply N].
    + intros t1 t2 p q i H1 H2 O1 O2. destruct (decide (t1 = t)) as [->|N1].
      { rewrite list_lookup_insert in H1 by done. by injection H1 as <-. }
      destruct (decide (t2 = t)) as [->|N2].
      { rewrite list_lookup_insert in H2 by done. by injection H2 as <-. }
      rewrite list_lookup_insert_ne in H1, H2 by done. by eapply O.
    + intros Str u Hu. destruct (decide (u = t)) as [->|Nu].
      * rewrite list_lookup_insert in Hu by done. injection Hu as ->. by specialize (NT Str).
      * rewrite list_lookup_insert_ne in Hu by done. by apply (Th Str u).
  - destruct (pcs s !! t) as [p|] eqn:Ht; [|done].
    assert (t < length (pcs s)) as Hlt by (by eapply lookup_lt_Some).
    destruct (P _ _ Ht) as [F I].
    assert ((exists r, p = PDone r) \/ ~ exists r, p = PDone r) as [[r ->]|Nd].
    { destruct p; try (right; intros [? ?]; done). left. eauto. }
    + (* return *)
      injection St as <- <-. split; cbn [lf pcs].
      * exists c, (h ++ [HRet t r]). split; [exact W|]. split.
        { unfold erase. rewrite omap_app. cbn. f_equal. exact E. }
        assert (legal a0 (h ++ [HRet t r]) (abs (lf s))) as L' by (by apply LeafHist.legal_ret).
        split; [exact L'|]. split.
        -- intros u q Hu. destruct (decide (u = t)) as [->|Nu].
           ++ rewrite list_lookup_insert in Hu by done. injection Hu as <-. split; [|done]. simpl.
              apply follows_app. exists (Taken r). split; [exact F|]. repeat constructor.
           ++ rewrite list_lookup_insert_ne in Hu by done. destruct (P _ _ Hu) as [Fu Iu].
              split; [by apply follows_other|]. by eapply linv_event.
        -- intros u Hu. assert (u <> t) by (intros ->; by rewrite list_lookup_insert in Hu).
           rewrite list_lookup_insert_ne in Hu by done. by apply follows_other; [|apply N].
      * intros t1 t2 p q i H1 H2 O1 O2. destruct (decide (t1 = t)) as [->|N1].
        { rewrite list_lookup_insert in H1 by done. by injection H1 as <-. }
        destruct (decide (t2 = t)) as [->|N2].
        { rewrite list_lookup_insert in H2 by done. by injection H2 as <-. }
        rewrite list_lookup_insert_ne in H1, H2 by done. by eapply O.
      * intros Str u Hu. destruct (decide (u = t)) as [->|Nu].
        -- by rewrite list_lookup_insert in Hu.
        -- rewrite list_lookup_insert_ne in Hu by done. by apply (Th Str u).
    + (* internal step *)
      assert (exists z, tstep cmp (lf s) p = Some z /\ s' = State z.1 (<[t := z.2]> (pcs s)) /\ es = []) as (z & Z & -> & ->).
      { destruct p; try (by destruct Nd; eauto); destruct (tstep cmp (lf s) _) as [z|]; try done;
          simpl in St; injection St as <- <-; eauto. }
      destruct z as [l' p']. cbn [fst snd]. rewrite app_nil_r.
      assert (strict = true -> p <> PStart OpThaw) as NT'.
      { intros Str ->. by apply (Th Str t). }
      destruct (tstep_ok h c (lf s) t W L p l' p' NT' F I Z) as (c' & h' & X & W' & L' & F' & S & I' & Ow).
      split; cbn [lf pcs].
      * exists c', h'. split; [exact W'|]. split; [by rewrite (ex_erase _ _ _ _ _ _ X)|]. split; [exact L'|]. split.
        -- intros u q Hu. destruct (decide (u = t)) as [->|Nu].
           ++ rewrite list_lookup_insert in Hu by done. injection Hu as <-. done.
           ++ rewrite list_lookup_insert_ne in Hu by done. destruct (P _ _ Hu) as [Fu Iu].
              split; [by apply (ex_follows _ _ _ _ _ _ X)|]. eapply (linv_stable h h' c (lf s) c' l' t); eauto.
        -- intros u Hu. assert (u <> t) by (intros ->; by rewrite list_lookup_insert in Hu).
           rewrite list_lookup_insert_ne in Hu by done. apply (ex_follows _ _ _ _ _ _ X); auto.
      * assert (forall u q i, u <> t -> pcs s !! u = Some q -> owner q = Some i -> owner p' <> Some i) as Z1.
        { intros u q i Nu Hu Hq Hp'. destruct Ow as [Ow|[Ow|(j & Ow & Hj)]].
          - congruence.
          - apply Nu. eapply O; eauto. congruence.
          - assert (j = i) as -> by congruence.
            destruct (P _ _ Hu) as [_ Iu]. destruct q; simpl in Hq; try done; injection Hq as ->; simpl in Iu.
            + destruct Iu as (_ & _ & _ & Hr & _). congruence.
            + destruct Iu as (_ & _ & _ & (Hr & _) & _). congruence.
            + destruct Iu as ((Hr & _) & _). congruence. }
        intros t1 t2 p1 q i H1 H2 O1 O2. destruct (decide (t1 = t)) as [->|N1]; destruct (decide (t2 = t)) as [->|N2].
        -- done.
        -- rewrite list_lookup_insert in H1 by done. injection H1 as <-. rewrite list_lookup_insert_ne in H2 by done.
           exfalso. by eapply Z1.
        -- rewrite list_lookup_insert in H2 by done. injection H2 as <-. rewrite list_lookup_insert_ne in H1 by done.
           exfalso. by eapply Z1.
        -- rewrite list_lookup_insert_ne in H1, H2 by done. by eapply O.
      * intros Str u Hu. destruct (decide (u = t)) as [->|Nu].
        -- rewrite list_lookup_insert in Hu by done. injection Hu as ->.
           clear -Z. destruct p as [|o| | | | | | | |]; simpl in Z; try done.
           ++ destruct o; simpl in Z; try done; destruct (frozen _); done.
           ++ destruct (retired _); [done|]. destruct (frozen _); [done|]. destruct (first_uninit _ _); [destruct (decide _)|]; done.
           ++ destruct (post _ _ _); [destruct (decide _); [|destruct (_ || _)]|]; done.
           ++ destruct (frozen _); [done|]. destruct (search_slot _ _ _ _); done.
           ++ destruct (entry_at _ _); [|done]. destruct (_ (snd _)); [|done]. destruct (decide _); [done|].
              destruct (_ =? _); [done|]. destruct (frozen _); done.
        -- rewrite list_lookup_insert_ne in Hu by done. by apply (Th Str u).
Qed.

Lemma run_inv acts : forall s hs s' es, inv s hs -> (strict = true -> forallb no_thaw acts = true) -> run cmp s acts = Some (s', es) ->
  inv s' (hs ++ es).
Proof.
  induction acts as [|ac acts IH]; intros s hs s' es Hi NT R; simpl in R.
  - injection R as <- <-. by rewrite app_nil_r.
  - destruct (step cmp s ac) as [[s1 es1]|] eqn:St; [|done]. simpl in R.
    destruct (run cmp s1 acts) as [[s2 es2]|] eqn:R2; [|done]. simpl in R. injection R as <- <-.
    rewrite app_assoc. eapply IH; [|intros Str; specialize (NT Str); simpl in NT; by apply andb_true_iff in NT as [? ?]|done].
    eapply step_inv; [done|intros Str; specialize (NT Str); simpl in NT; by apply andb_true_iff in NT as [? ?]|done].
Qed.
End facts.

Lemma init_inv {K V} (cmp : K -> K -> comparison) (T : total_order cmp) strict n (es : list (K * V)) :
  length es <= 14 -> ascending cmp es -> inv cmp strict (Obj es false false) (init n es) [].
Proof.
  intros Ln A. destruct (fill_spec cmp T es Ln A) as (G & S & F & R & _). destruct G as [c W].
  split.
  - exists c, []. split; [exact W|]. split; [done|]. split.
    { unfold abs, init. cbn [lf]. rewrite S, F, R. constructor. }
    split.
    + intros t p Hp. unfold init in Hp. cbn [pcs] in Hp. apply lookup_replicate in Hp as [-> _]. split; [constructor|done].
    + intros t _. constructor.
  - intros t u p q i H1 _ O1. unfold init in H1. cbn [pcs] in H1. apply lookup_replicate in H1 as [-> _]. done.
  - intros _ t H. unfold init in H. cbn [pcs] in H. apply lookup_replicate in H as [? _]. done.
Qed.

Lemma run_linearizable {K V} (cmp : K -> K -> comparison) (T : total_order cmp) strict n (es : list (K * V)) acts s h :
  length es <= 14 -> ascending cmp es -> (strict = true -> forallb no_thaw acts = true) ->
  run cmp (init n es) acts = Some (s, h) -> linearizable cmp strict es h.
Proof.
  intros Ln A NT R. pose proof (run_inv cmp T strict (Obj es false false) acts _ [] s h (init_inv cmp T strict n es Ln A) NT R) as [I _ _].
  destruct I as (c & lh & W & E & L & P & N). exists lh. split; [exact E|]. split; [eauto|].
  intros t. destruct (pcs s !! t) as [p|] eqn:Ht; [eexists; by apply P|eexists; by apply N].
Qed.
