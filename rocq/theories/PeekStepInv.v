(** The invariant holds of all states that are reached. *)
From Coq Require Import NArith Lia.
From stdpp Require Import prelude list numbers.
From Verif Require BucketSpec BucketFacts BucketOps.
From Verif Require Import PeekModel PeekSpec PeekInv PeekGood PeekOps PeekOps2 PeekStore PeekGlob PeekStart PeekTrans PeekSteps.

Section inv.
Context {K V : Type} `{EqDecision K} (hash : K -> N) (hash64 : forall k, (hash k < 2 ^ 64)%N).
Notation obj := (obj K V).
Notation node := (node K V).
Notation bucket := (bucket K V).
Notation array := (array K V).
Notation state := (state K V).
Notation writer := (writer K V).
Implicit Types (b : bucket) (nd : node) (x : obj) (n j h : nat) (w : writer) (st : state) (p : nat * nat).
Implicit Types (E g e : N) (exs : nat -> list (nat * nat * nat)).
Local Arguments live_at : simpl never.
Local Arguments bucket_at : simpl never.
Local Arguments total : simpl never.
Local Arguments Nat.pow : simpl never.

Lemma init_inv n : inv hash (init n : state) (fun _ => []).
Proof.
  assert (forall t (th : thread K V), threads (init n) !! t = Some th -> th = Thread 0 0 Idle) as T.
  { intros t th Et. cbn in Et. by apply lookup_replicate in Et as [-> _]. }
  split; try done.
  - intros t th w Et Wt. apply T in Et as ->. done.
  - intros t t' w w' p (th & Et & Wt). apply T in Et as ->. done.
  - intros t w p q (th & Et & Wt). apply T in Et as ->. done.
  - intros t th Et P. apply T in Et as ->. done.
Qed.

Lemma no_live_spec b n j : no_live b = true -> live_at b n j = None.
Proof.
  intros N. destruct (live_at b n j) as [x|] eqn:Lv; [|done]. exfalso. destruct (live_at_inv _ _ _ _ Lv) as (nd & En & Ln).
  unfold no_live in N. rewrite forallb_forall in N. specialize (N nd). rewrite forallb_forall in N.
  assert (negb (live_in nd j) = true) as Z.
  { apply N; [apply elem_of_list_In; by eapply elem_of_list_lookup_2|]. apply elem_of_list_In, elem_of_seq. apply lv_some in Ln as (_ & _ & Ln).
    apply lookup_lt_Some in Ln. lia. }
  unfold lv in Ln. by destruct (live_in nd j).
Qed.
Lemma done_spec st p : done_bucket st p = true -> exists b, bucket_at (mem st) p = Some b /\ frozen b = true /\ (forall n j, live_at b n j = None) /\ unheld st p.
Proof.
  unfold done_bucket. destruct (bucket_at (mem st) p) as [b|]; [|done]. intros D. apply andb_prop in D as [D D3]. apply andb_prop in D as [D1 D2].
  exists b. split; [done|]. split; [done|]. split; [intros n j; by apply no_live_spec|]. apply is_held_false. by apply negb_true_iff.
Qed.
Lemma app_at (m l : list array) p : p.1 < length m -> bucket_at (m ++ l) p = bucket_at m p.
Proof. intros L. unfold bucket_at. by rewrite lookup_app_l. Qed.
Lemma at_lt (m : list array) p b : bucket_at m p = Some b -> p.1 < length m.
Proof. unfold bucket_at. destruct (m !! p.1) eqn:E; [|done]. intros _. by eapply lookup_lt_Some. Qed.
Lemma new_at (m : list array) bt l p b : bucket_at (m ++ [new_array bt l]) p = Some b -> bucket_at m p = Some b \/ (p.1 = length m /\ b = new_bucket).
Proof.
  intros E. pose proof (at_lt _ _ _ E) as L. rewrite app_length in L. cbn in L. destruct (decide (p.1 < length m)).
  - left. by rewrite app_at in E.
  - right. assert (p.1 = length m) as Q by lia. split; [done|]. unfold bucket_at in E. rewrite Q, lookup_app_r, Nat.sub_diag in E by lia. cbn in E.
    by apply lookup_replicate in E as [-> _].
Qed.
Lemma old_some st o : old_of st = Some o -> exists a ar, cur st = Some a /\ mem st !! a = Some ar /\ linked ar = Some o.
Proof.
  unfold old_of. destruct (cur st) as [a|] eqn:Ec; [|done]. cbn. destruct (mem st !! a) as [ar|] eqn:Ea; [|done]. cbn. intros L. eauto.
Qed.
Lemma append_step st exs bt l : inv hash st exs -> bt <= 64 -> old_of st = None ->
  (match l with Some a => cur st = Some a | None => cur st = None end) ->
  inv hash (with_mem st (mem st ++ [new_array bt l]) (Some (length (mem st)))) exs /\
  trans st exs (with_mem st (mem st ++ [new_array bt l]) (Some (length (mem st)))) exs.
Proof.
  intros I Bt Old Cl. set (st' := with_mem _ _ _).
  assert (old_of st' = l) as Old'. { unfold old_of. cbn. by rewrite lookup_app_r, Nat.sub_diag by lia. }
  assert (length (mem st') = S (length (mem st))) as Lm. { cbn. rewrite app_length. cbn. lia. }
  apply table_step; try done.
  - intros a [= <-]. lia.
  - intros a ar Ea. rewrite Lm. cbn in Ea. apply lookup_app_Some in Ea as [Ea|[La Ea]].
    + destruct (v_arr _ _ _ I a ar Ea) as (A1 & A2 & A3). split; [done|]. split; [done|]. intros o Lo. destruct (A3 o Lo) as [A4 _].
      split; [lia|]. cbn. intros [= Z]. lia.
    + apply list_lookup_singleton_Some in Ea as [Za <-]. cbn. rewrite replicate_length. split; [done|]. split; [done|]. intros o ->. cbn.
      pose proof (v_cur _ _ _ I o Cl). split; [lia|]. intros [= Z]. lia.
  - intros a ar Ea. exists ar. split; [|done]. cbn. by apply lookup_app_l_Some.
  - intros p b Eb. exists b. split; [|by left]. cbn. rewrite app_at; [done|]. by eapply at_lt.
  - intros p b' Eb'. cbn in Eb'. apply new_at in Eb' as [Eb'|[_ ->]]; [left; eauto|by right].
  - intros p b' Eb' Cp Op. cbn in Eb'. apply new_at in Eb' as [Eb'|[Lp _]]; [|exfalso; apply Cp; cbn; by rewrite Lp].
    apply (v_dead _ _ _ I p b' Eb').
    + destruct l as [a|]; [|by rewrite Cl]. rewrite Old' in Op. by rewrite Cl.
    + by rewrite Old.
  - intros t w p q Wt Lp Lq. destruct (v_two _ _ _ I t w p q Wt Lp Lq) as [Z _]. congruence.
  - by right; right.
  - cbn. intros Z. symmetry in Z. apply (v_cur _ _ _ I) in Z. lia.
Qed.
Lemma set_link_arr (m : list array) a l c : set_link m a l !! c = (fun ar => if decide (c = a) then Arr (bits ar) (bks ar) l else ar) <$> m !! c.
Proof.
  unfold set_link. destruct (decide (c = a)) as [->|D]; [by rewrite list_lookup_alter|]. rewrite list_lookup_alter_ne by done. by destruct (m !! c).
Qed.
Lemma set_link_at (m : list array) a l p : bucket_at (set_link m a l) p = bucket_at m p.
Proof. unfold bucket_at. rewrite set_link_arr. destruct (m !! p.1); [|done]. cbn. by destruct (decide _). Qed.
Lemma soft_step st exs p b b' : inv hash st exs -> bucket_at (mem st) p = Some b -> unheld st p -> soft hash b b' ->
  inv hash (with_mem st (set_bucket (mem st) p b') (cur st)) exs /\ trans st exs (with_mem st (set_bucket (mem st) p b') (cur st)) exs.
Proof.
  intros I Eb U S. set (st' := with_mem _ _ _).
  assert (forall q, bucket_at (mem st') q = if decide (q = p) then Some b' else bucket_at (mem st) q) as Bq by (intros q; by eapply bucket_at_set).
  assert (length (mem st') = length (mem st)) as Lm by (cbn; unfold set_bucket; apply alter_length).
  assert (old_of st' = old_of st) as Old.
  { unfold old_of. cbn. destruct (cur st) as [a|]; [|done]. cbn. rewrite set_bucket_arr. destruct (mem st !! a) as [ar|]; [|done]. cbn. by destruct (decide _). }
  apply table_step; try done.
  - intros a Ca. rewrite Lm. by apply (v_cur _ _ _ I).
  - intros a ar Ea. cbn in Ea. rewrite set_bucket_arr in Ea. destruct (mem st !! a) as [ar0|] eqn:Ea0; [|done]. cbn in Ea. injection Ea as <-.
    rewrite Lm. pose proof (v_arr _ _ _ I a ar0 Ea0) as A. destruct (decide _); [|done]. cbn. by rewrite insert_length.
  - intros a ar Ea. cbn. rewrite set_bucket_arr, Ea. cbn. eexists. split; [done|]. by destruct (decide _).
  - intros q z Eq. rewrite Bq. destruct (decide (q = p)) as [->|D]; [|exists z; split; [done|by left]]. exists b'. split; [done|]. right.
    rewrite Eb in Eq. injection Eq as <-. done.
  - intros q z Eq. left. rewrite Bq in Eq. destruct (decide (q = p)) as [->|D]; eauto.
  - intros q z Eq Cq Oq. rewrite Old in Oq. rewrite Bq in Eq. destruct (decide (q = p)) as [->|D]; [|by apply (v_dead _ _ _ I q)].
    injection Eq as <-. destruct (v_dead _ _ _ I p b Eb Cq Oq) as (F & Nl & _). split; [apply (s_frozen _ _ _ S)|]. split; [|done].
    intros n j. destruct (live_at b' n j) as [x|] eqn:Lv; [|done]. exfalso.
    destruct (live_at_inv _ _ _ _ Lv) as (nd' & En' & Ln).
    (* the slots are the same *)
    destruct (nodes b !! n) as [nd|] eqn:En.
    + destruct (s_nodes _ _ _ S n nd En) as (nd2 & En2 & Oc & Rm & _ & Da). rewrite En' in En2. injection En2 as <-.
      assert (live_at b n j = Some x) as Z; [|by rewrite Nl in Z]. rewrite (live_at_lv _ _ _ _ En). unfold lv, live_in in *. by rewrite <- Oc, <- Rm, <- Da.
    + pose proof (s_idle _ _ _ S _ (v_idle _ _ _ I p b Eb U)) as (G' & Ln' & _).
      pose proof (total_pos _ _ _ _ (g_wf _ _ _ _ G') Lv) as T.
      assert (length (nodes b) = length (nodes b')) as Lg; [|apply lookup_ge_None in En; apply lookup_lt_Some in En'; lia].
      apply (s_length _ _ _ S).
  - intros t w q1 q2 Wt L1 L2. rewrite Old. by apply (v_two _ _ _ I t w).
  - by left.
  - intros _. by left.
Qed.

Theorem step_inv st exs c st' : inv hash st exs -> step hash st c = Some st' -> exists exs', inv hash st' exs' /\ trans st exs st' exs'.
Proof.
  intros I S.
  (* steps of one thread that leave the writers alone *)
  assert (forall t th th', threads st !! t = Some th -> (forall w, work th <> Write w) -> (forall w, work th' <> Write w) ->
    (pinned th' = true -> (pin th' <= epoch st <= pin th' + 1)%N) ->
    exists exs', inv hash (with_thread st t th') exs' /\ trans st exs (with_thread st t th') exs') as Still.
  { intros t th th' Et N N' P. exists exs. assert (t < length (threads st)) as Lt by (by eapply lookup_lt_Some). apply still_step; try done.
    - intros t' z w Ez Wz. cbn in Ez. destruct (decide (t' = t)) as [->|D].
      + rewrite list_lookup_insert in Ez by done. injection Ez as <-. by apply N' in Wz.
      + rewrite list_lookup_insert_ne in Ez by done. exists z. destruct (v_wr _ _ _ I t' z w Ez Wz) as [? _]. done.
    - intros t' w (z & Ez & Wz). exists z. split; [|done]. cbn. rewrite list_lookup_insert_ne; [done|]. intros <-.
      rewrite Et in Ez. injection Ez as <-. by apply N in Wz.
    - intros t' z Ez Pz. cbn in Ez. change (epoch (with_thread st t th')) with (epoch st). destruct (decide (t' = t)) as [->|D].
      + rewrite list_lookup_insert in Ez by done. injection Ez as <-. auto.
      + rewrite list_lookup_insert_ne in Ez by done. by apply (v_pin _ _ _ I t'). }
  destruct c as [t|t|t k|t|t o|t|bt|bt| |i| |o x|a i n| ]; cbn [step] in S.
  - destruct (threads st !! t) as [th|] eqn:Et; [|done]. cbn [mbind option_bind] in S. destruct (work th) eqn:Wt; try done. injection S as <-.
    apply (Still t th); [done|by rewrite Wt|done|]. intros _. cbn. destruct (pinned th) eqn:P; [by apply (v_pin _ _ _ I t)|lia].
  - destruct (threads st !! t) as [th|] eqn:Et; [|done]. cbn [mbind option_bind] in S. destruct (work th) eqn:Wt; try done.
    destruct (pinned th) eqn:P; [|done]. injection S as <-. apply (Still t th); [done|by rewrite Wt|done|]. intros _. exact (v_pin _ _ _ I t th Et P).
  - destruct (threads st !! t) as [th|] eqn:Et; [|done]. cbn [mbind option_bind] in S. destruct (work th) eqn:Wt; try done.
    destruct (pinned th) eqn:P; [|done]. injection S as <-. apply (Still t th); [done|by rewrite Wt|done|]. intros _. exact (v_pin _ _ _ I t th Et P).
  - destruct (threads st !! t) as [th|] eqn:Et; [|done]. cbn [mbind option_bind] in S. destruct (work th) as [|k p|] eqn:Wt; try done.
    destruct p; try done. injection S as <-. apply (Still t th); [done|by rewrite Wt|done|]. intros P. exact (v_pin _ _ _ I t th Et P).
  - destruct (threads st !! t) as [th|] eqn:Et; [|done]. cbn [mbind option_bind] in S. destruct (work th) eqn:Wt; try done.
    destruct (start hash st o) as [w|] eqn:Ss; [|done]. cbn [mbind option_bind] in S. injection S as <-. by eapply op_step.
  - destruct (threads st !! t) as [th|] eqn:Et; [|done]. cbn [mbind option_bind] in S. destruct (work th) as [|k p|w] eqn:Wt; [done| |].
    + destruct (read hash st k p) as [p'|]; [|done]. cbn [mbind option_bind] in S. injection S as <-.
      apply (Still t th); [done|by rewrite Wt|done|]. intros P. exact (v_pin _ _ _ I t th Et P).
    + destruct (todo w) as [|[h y] l] eqn:Td.
      * injection S as <-. exists exs. by eapply finish_step.
      * destruct (held w !! h) as [p|] eqn:Lh; [|done]. cbn [mbind option_bind] in S.
        destruct (bucket_at (mem st) p) as [b|] eqn:Eb; [|done]. cbn [mbind option_bind] in S.
        destruct (store (epoch st) b y) as [b'|] eqn:Sb; [|done]. cbn [mbind option_bind] in S. injection S as <-. by eapply store_step.
  - destruct (cur st) eqn:Ec; [done|]. destruct (bt <=? 64) eqn:Lb; [|done]. injection S as <-. exists exs. apply append_step; try done.
    + by apply Nat.leb_le.
    + unfold old_of. by rewrite Ec.
  - destruct (cur st) as [a|] eqn:Ec; [|done]. cbn [mbind option_bind] in S. destruct (old_of st) eqn:Old; [done|].
    destruct (bt <=? 64) eqn:Lb; [|done]. injection S as <-. exists exs. apply append_step; try done. by apply Nat.leb_le.
  - destruct (cur st) as [a|] eqn:Ec; [|done]. cbn [mbind option_bind] in S. destruct (mem st !! a) as [ar|] eqn:Ea; [|done]. cbn [mbind option_bind] in S.
    destruct (linked ar) eqn:Ln; [done|]. destruct (forallb _ _) eqn:Fa; [|done]. injection S as <-. exists exs.
    assert (a < length (mem st)) as La by (by eapply lookup_lt_Some).
    assert (old_of st = None) as Old by (unfold old_of; rewrite Ec; cbn; by rewrite Ea).
    assert (forall i b, bks ar !! i = Some b -> blen b = 0 /\ unheld st (a, i)) as Fb.
    { intros i b Eb. rewrite forallb_forall in Fa. assert (In i (seq 0 (length (bks ar)))) as Mi.
      { apply elem_of_list_In, elem_of_seq. apply lookup_lt_Some in Eb. lia. }
      specialize (Fa i Mi). rewrite Eb in Fa. apply andb_prop in Fa as [F1 F2]. split; [by apply Nat.eqb_eq|]. apply is_held_false. by apply negb_true_iff. }
    set (st' := with_mem _ _ _).
    assert (forall p, bucket_at (mem st') p = if decide (p.1 = a) then (fun b => Bkt (blen b) (nodes b) true) <$> bucket_at (mem st) p else bucket_at (mem st) p) as Bq.
    { intros [c i]. unfold bucket_at. cbn. destruct (decide (c = a)) as [->|D]; [|by rewrite list_lookup_insert_ne].
      rewrite list_lookup_insert, Ea by done. cbn. by rewrite list_lookup_fmap. }
    apply table_step; try done.
    + intros c arc Ec'. change (length (mem st')) with (length (<[a:=Arr (bits ar) (map (fun b => Bkt (blen b) (nodes b) true) (bks ar)) None]> (mem st))).
      rewrite insert_length. cbn in Ec'. destruct (decide (c = a)) as [->|D].
      * rewrite list_lookup_insert in Ec' by done. injection Ec' as <-. cbn. rewrite map_length. destruct (v_arr _ _ _ I a ar Ea) as (? & ? & _). done.
      * rewrite list_lookup_insert_ne in Ec' by done. destruct (v_arr _ _ _ I c arc Ec') as (? & ? & A). split; [done|]. split; [done|].
        intros o Lo. destruct (A o Lo). done.
    + intros c arc Ec'. cbn. destruct (decide (c = a)) as [->|D].
      * rewrite list_lookup_insert by done. rewrite Ea in Ec'. injection Ec' as <-. eexists. by split.
      * rewrite list_lookup_insert_ne by done. by exists arc.
    + intros p b Eb. rewrite Bq, Eb. destruct (decide (p.1 = a)) as [D|D]; [|exists b; split; [done|by left]].
      cbn. eexists. split; [done|]. right. split; [|apply freeze_soft]. destruct p as [c i]. cbn in D. subst c.
      apply (Fb i b). by apply (at_some_bucket (mem st) a ar).
    + intros p b Eb. left. rewrite Bq in Eb. destruct (decide _); [|eauto]. destruct (bucket_at (mem st) p); [eauto|done].
    + intros p b' Eb' _ _. rewrite Bq in Eb'. destruct (decide (p.1 = a)) as [D|D].
      * destruct (bucket_at (mem st) p) as [b|] eqn:Eb; [|done]. cbn in Eb'. injection Eb' as <-. destruct p as [c i]. cbn in D. subst c.
        destruct (Fb i b) as [L0 U]; [by apply (at_some_bucket (mem st) a ar)|]. split; [done|]. split; [|done].
        destruct (v_idle _ _ _ I (a, i) b Eb U) as (G & Lt & _). intros n j. destruct (live_at _ n j) as [x|] eqn:Lv; [|done]. exfalso.
        change (live_at b n j = Some x) in Lv. pose proof (total_pos _ _ _ _ (g_wf _ _ _ _ G) Lv). lia.
      * apply (v_dead _ _ _ I p b' Eb'); congruence.
    + intros t w p q Wt Lp Lq. destruct (v_two _ _ _ I t w p q Wt Lp Lq) as [Z _]. congruence.
    + right. by left.
    + rewrite Ec. done.
  - destruct (old_of st) as [o|] eqn:Old; [|done]. cbn [mbind option_bind] in S. destruct (open_bucket st (o, i) false) as [b|] eqn:Ob; [|done].
    cbn [mbind option_bind] in S. injection S as <-. apply open_some in Ob as (Eb & U & F). exists exs. eapply soft_step; try done. apply freeze_soft.
  - destruct (cur st) as [a|] eqn:Ec; [|done]. cbn [mbind option_bind] in S. destruct (old_of st) as [o|] eqn:Old; [|done]. cbn [mbind option_bind] in S.
    destruct (mem st !! o) as [ao|] eqn:Eo; [|done]. cbn [mbind option_bind] in S. destruct (forallb _ _) eqn:Fa; [|done]. injection S as <-. exists exs.
    destruct (old_some _ _ Old) as (a' & ar & Ec' & Ea & Ln). rewrite Ec in Ec'. injection Ec' as <-.
    assert (forall i b, bucket_at (mem st) (o, i) = Some b -> frozen b = true /\ (forall n j, live_at b n j = None) /\ unheld st (o, i)) as Fb.
    { intros i b Eb. rewrite forallb_forall in Fa. assert (In i (seq 0 (length (bks ao)))) as Mi.
      { apply (at_some_bucket (mem st) o ao) in Eb; [|done]. apply elem_of_list_In, elem_of_seq. apply lookup_lt_Some in Eb. lia. }
      destruct (done_spec _ _ (Fa i Mi)) as (b0 & Eb0 & R). rewrite Eb in Eb0. injection Eb0 as <-. done. }
    set (st' := with_mem _ _ _).
    assert (old_of st' = None) as Old'. { unfold old_of. cbn. rewrite set_link_arr, Ea. cbn. by rewrite decide_True. }
    assert (length (mem st') = length (mem st)) as Lm by (cbn; unfold set_link; apply alter_length).
    apply table_step; try done.
    + intros c Cc. rewrite Lm. apply (v_cur _ _ _ I). cbn in Cc. congruence.
    + intros c arc Ec'. rewrite Lm. cbn in Ec'. rewrite set_link_arr in Ec'. destruct (mem st !! c) as [ar0|] eqn:E0; [|done]. cbn in Ec'. injection Ec' as <-.
      destruct (v_arr _ _ _ I c ar0 E0) as (A1 & A2 & A3). cbn. rewrite <- Ec. destruct (decide (c = a)); [|done]. cbn. done.
    + intros c arc Ec'. cbn. rewrite set_link_arr, Ec'. cbn. eexists. split; [done|]. by destruct (decide _).
    + intros p b Eb. exists b. cbn. rewrite set_link_at. split; [done|by left].
    + intros p b Eb. cbn in Eb. rewrite set_link_at in Eb. left. eauto.
    + intros p b Eb Cp _. cbn in Eb, Cp. rewrite set_link_at in Eb. destruct p as [c i]. cbn in *. destruct (decide (c = o)) as [->|D]; [by apply (Fb i b)|].
      apply (v_dead _ _ _ I (c, i) b Eb); cbn; congruence.
    + intros t w p q Wt Lp Lq. exfalso. destruct (v_two _ _ _ I t w p q Wt Lp Lq) as [Z _]. rewrite Old in Z. injection Z as Z.
      destruct (writer_bs _ _ _ _ _ I Wt) as (_ & th & bs & _ & _ & _ & Lk & _). destruct (Forall2_lookup_l _ _ _ _ _ Lk Lp) as (b & _ & Eb).
      destruct p as [c i]. cbn in Z. subst c. destruct (Fb i b Eb) as (_ & _ & U). apply (U t w Wt). by eapply elem_of_list_lookup_2.
    + left. done.
    + intros _. by right.
  - destruct (detached st o) eqn:Do; [|done]. cbn [andb] in S. destruct (match x with Some y => detached st y | None => true end) eqn:Dx; [|done].
    injection S as <-. exists exs. unfold detached in Do. apply andb_prop in Do as [Do D3]. apply andb_prop in Do as [D1 D2].
    apply negb_true_iff, bool_decide_eq_false in D2, D3. set (st' := with_mem _ _ _).
    assert (old_of st' = old_of st) as Old.
    { unfold old_of. cbn. destruct (cur st) as [a|]; [|done]. cbn. rewrite set_link_arr. destruct (mem st !! a) as [ar|]; [|done]. cbn.
      rewrite decide_False; [done|congruence]. }
    assert (length (mem st') = length (mem st)) as Lm by (cbn; unfold set_link; apply alter_length).
    apply table_step; try done.
    + intros c Cc. rewrite Lm. by apply (v_cur _ _ _ I).
    + intros c arc Ec'. rewrite Lm. cbn in Ec'. rewrite set_link_arr in Ec'. destruct (mem st !! c) as [ar0|] eqn:E0; [|done]. cbn in Ec'. injection Ec' as <-.
      destruct (v_arr _ _ _ I c ar0 E0) as (A1 & A2 & A3). destruct (decide (c = o)); [|done]. cbn. split; [done|]. split; [done|]. intros y ->.
      unfold detached in Dx. apply andb_prop in Dx as [Dx _]. apply andb_prop in Dx as [X1 X2]. apply negb_true_iff, bool_decide_eq_false in X2.
      split; [by apply Nat.ltb_lt|done].
    + intros c arc Ec'. cbn. rewrite set_link_arr, Ec'. cbn. eexists. split; [done|]. by destruct (decide _).
    + intros p b Eb. exists b. cbn. rewrite set_link_at. split; [done|by left].
    + intros p b Eb. cbn in Eb. rewrite set_link_at in Eb. left. eauto.
    + intros p b Eb Cp Op. rewrite Old in Op. cbn in Eb. rewrite set_link_at in Eb. by apply (v_dead _ _ _ I p b Eb).
    + intros t w p q Wt Lp Lq. rewrite Old. by apply (v_two _ _ _ I t w).
    + by left.
    + intros _. by left.
  - destruct (bucket_at (mem st) (a, i)) as [b|] eqn:Eb; [|done]. cbn [mbind option_bind] in S. destruct (done_bucket st (a, i)) eqn:Db; [|done].
    destruct (store (epoch st) b (WNext n None)) as [b'|] eqn:Sb; [|done]. cbn [mbind option_bind] in S. injection S as <-. exists exs.
    destruct (done_spec _ _ Db) as (b0 & Eb0 & F & Nl & U). rewrite Eb in Eb0. injection Eb0 as <-.
    eapply soft_step; try done. by eapply strip_soft.
  - destruct (forallb _ _) eqn:Fa; [|done]. injection S as <-. exists exs. apply still_step; try done.
    + cbn. lia.
    + intros t th w Et Wt. exists th. destruct (v_wr _ _ _ I t th w Et Wt) as [? _]. done.
    + intros t th Et P. cbn in *. rewrite forallb_forall in Fa. specialize (Fa th). assert (In th (threads st)) as M.
      { apply elem_of_list_In. by eapply elem_of_list_lookup_2. }
      specialize (Fa M). rewrite P in Fa. cbn in Fa. apply N.eqb_eq in Fa. lia.
Qed.
End inv.
