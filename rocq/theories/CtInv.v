(** The invariant of the concurrent hash table. *)
From Coq Require Import NArith Lia.
From stdpp Require Import prelude list numbers.
From Verif Require CapModel CapSpec CapFacts.
From Verif Require Import CtModel CtSpec.
Local Open Scope N_scope.

(** ** Index ranges *)
Section range.
Notation table := CapSpec.table. Notation len := CapModel.array_len.
Notation rng a b i := (CapModel.from_index_to_range (len a) (len b) i).
Implicit Types a b : CapModel.arr.

Lemma table_wf a : table a -> CapFacts.wf_arr a.
Proof. intros [c H]. exact (CapFacts.arr_new_wf c a H). Qed.
Lemma table_pos a : table a -> 0 < len a.
Proof. intros H. apply table_wf in H as (k & s & -> & _). cbn. apply CapFacts.pow2_pos. Qed.
Lemma rng_in a b h : table a -> table b -> h < 2 ^ 64 ->
  (rng a b (CapModel.bucket_index a h)).1 <= CapModel.bucket_index b h < (rng a b (CapModel.bucket_index a h)).2
  /\ (rng a b (CapModel.bucket_index a h)).2 <= len b.
Proof.
  intros Ta Tb H. pose proof (CapFacts.range_contains_index a b h (table_wf a Ta) (table_wf b Tb) H) as R.
  destruct (rng a b _) as [x y]. exact R.
Qed.
Lemma rng_ok a b i : table a -> table b -> i < len a ->
  (rng a b i).1 < (rng a b i).2 /\ (rng a b i).2 <= len b.
Proof.
  intros Ta Tb H. destruct (CapFacts.bucket_index_surj a i (table_wf a Ta) H) as (h & Hh & <-).
  pose proof (rng_in a b h Ta Tb Hh). lia.
Qed.
Lemma rng_hash a b i j : table a -> table b -> i < len a -> (rng a b i).1 <= j < (rng a b i).2 ->
  exists h, h < 2 ^ 64 /\ CapModel.bucket_index a h = i /\ CapModel.bucket_index b h = j.
Proof.
  intros Ta Tb H J. apply (CapFacts.range_tight a b i j (table_wf a Ta) (table_wf b Tb) H).
  destruct (rng a b i). exact J.
Qed.
Lemma rng_sym a b i j : table a -> table b -> i < len a -> (rng a b i).1 <= j < (rng a b i).2 ->
  (rng b a j).1 <= i < (rng b a j).2.
Proof.
  intros Ta Tb H J. destruct (rng_hash a b i j Ta Tb H J) as (h & Hh & <- & <-).
  apply (rng_in b a h Tb Ta Hh).
Qed.
Lemma rng_one a b i : len b <= len a -> (rng a b i).2 = (rng a b i).1 + 1.
Proof.
  intros H. unfold CapModel.from_index_to_range. destruct (N.ltb_spec (len a) (len b)); [lia|reflexivity].
Qed.
Lemma rng_grow a b i i' j : table a -> table b -> i < len a -> i' < len a -> len a < len b ->
  (rng a b i).1 <= j < (rng a b i).2 -> (rng a b i').1 <= j < (rng a b i').2 -> i = i'.
Proof.
  intros Ta Tb H H' L J J'. apply (rng_sym a b i j Ta Tb H) in J. apply (rng_sym a b i' j Ta Tb H') in J'.
  rewrite rng_one in J, J' by lia. lia.
Qed.
Lemma rng_mono a b i j : i <= j -> (rng a b i).1 <= (rng a b j).1.
Proof.
  intros H. unfold CapModel.from_index_to_range. destruct (N.ltb_spec (len a) (len b)); cbn [fst].
  - apply N.mul_le_mono_r. exact H.
  - destruct (N.eq_dec (len a / len b) 0) as [->|]; [|by apply N.div_le_mono].
    destruct i, j; cbn; lia.
Qed.
End range.

Lemma land31 w : N.land w 31 = w mod 32.
Proof. change 31 with (N.ones 5). rewrite N.land_ones. reflexivity. Qed.
Lemma ldiff31 w : N.ldiff w 31 = w - w mod 32.
Proof.
  change 31 with (2 ^ 5 - 1). rewrite CapFacts.ldiff_ones_mul. change (2 ^ 5) with 32.
  pose proof (N.div_mod w 32 ltac:(discriminate)). lia.
Qed.
Lemma lor31 p r : p mod 32 = 0 -> r < 32 -> N.lor p r = p + r.
Proof.
  intros H R. pose proof (N.div_mod p 32 ltac:(discriminate)) as D. rewrite H, N.add_0_r in D.
  assert (E : N.land p r = 0).
  { apply N.bits_inj. intros n. rewrite N.land_spec, N.bits_0. destruct (N.lt_ge_cases n 5) as [L|L].
    - rewrite D, N.mul_comm. change 32 with (2 ^ 5). rewrite N.mul_pow2_bits_low by exact L. reflexivity.
    - replace (N.testbit r n) with false; [apply andb_false_r|]. symmetry.
      destruct (N.eq_dec r 0) as [->|]; [apply N.bits_0|].
      apply N.bits_above_log2. apply N.lt_le_trans with 5; [|exact L].
      apply N.log2_lt_pow2; [lia|exact R]. }
  rewrite N.add_nocarry_lxor by exact E. symmetry. apply N.lxor_lor. exact E.
Qed.

Section inv.
Context {K V : Type} `{EqDecision K} (hash : K -> N).
Hypothesis hash64 : forall k, hash k < 2 ^ 64.
Notation state := (state K V). Notation pc := (pc K V). Notation job := (job K V).
Notation cont := (cont K V). Notation kont := (kont K V).
Implicit Types (s : state) (p q : pc) (j : job) (x y a o : nat) (i n : N) (t u : nat).

Definition at_pc s t p : Prop := pcs s !! t = Some p.
Definition bi s x (k : K) : N := CapModel.bucket_index (sz (arr s x)) (hash k).
Definition dead s x i : Prop := lk (bks s x i) = LDead.
Definition alldead s x : Prop := forall i, i < alen s x -> dead s x i.
Notation jidx := (jidx hash).

(** ** What is known about a thread at each point *)

(** The old buckets overlapping bucket [idx] of [a] have been processed. *)
Definition ready s a idx : Prop := forall o, link (arr s a) = Some o -> forall i,
  (range s a o idx).1 <= i < (range s a o idx).2 -> dead s o i.
Definition wl s a o : Prop := (o < a < nxt s)%nat /\ (link (arr s a) = Some o \/ (link (arr s a) = None /\ alldead s o)).
Definition load_ok j : Prop :=
  match j with
  | JScan _ start prev _ =>
    (prev = 0 /\ start = 0) \/ exists z, CapSpec.table z /\ prev = CapModel.array_len z /\ start < prev
  | _ => True
  end.
Definition job_ok s a j : Prop :=
  (a < nxt s)%nat /\
  match j with JOp _ => True | JScan _ start prev _ => prev = alen s a /\ start < alen s a | JResize => False end.
Definition acc_ok s j a idx : Prop := job_ok s a j /\ idx = jidx s a j /\ ready s a idx.
Definition reh_ok s j a o prev i : Prop :=
  wl s a o /\ job_ok s a j /\ prev mod 32 = 0 /\ prev < alen s o /\
  prev <= i <= N.min (prev + 32) (alen s o) /\ forall i', prev <= i' < i -> dead s o i'.
Definition ded_ok s j a o i hi : Prop :=
  wl s a o /\ job_ok s a j /\ hi = (range s a o (jidx s a j)).2 /\
  (range s a o (jidx s a j)).1 <= i <= hi /\
  forall i', (range s a o (jidx s a j)).1 <= i' < i -> dead s o i'.
Definition cont_ok s (c : cont) a o i : Prop :=
  match c with
  | CRehash j prev => reh_ok s j a o prev i /\ i < N.min (prev + 32) (alen s o)
  | CDedup j hi => ded_ok s j a o i hi /\ i < hi
  end.
Definition kont_ok s (k : kont) : Prop :=
  match k with KAccess j a idx => acc_ok s j a idx | KRet _ _ => True end.
Definition pc_ok s p : Prop :=
  match p with
  | Idle | Done _ _ => True
  | Load j => load_ok j
  | Linked j a => job_ok s a j
  | Relink j a o | Claim j a o => wl s a o /\ job_ok s a j
  | Rehash j a o prev i => reh_ok s j a o prev i /\ i < N.min (prev + 32) (alen s o)
  | EndOk j a o prev => reh_ok s j a o prev (N.min (prev + 32) (alen s o))
  | Detach j a o => wl s a o /\ job_ok s a j /\ alldead s o
  | EndFail j a o prev _ => wl s a o /\ job_ok s a j /\ prev mod 32 = 0 /\ prev < alen s o
  | Dedup j a o i hi => ded_ok s j a o i hi /\ i < hi
  | OldLocked c a o i | TDrop c a o i => cont_ok s c a o i
  | TLock c a o i lo hi n w =>
    cont_ok s c a o i /\ lo = (range s o a i).1 /\ hi = (range s o a i).2 /\ lo <= n < hi /\ (w = true -> n = lo)
  | TBack c a o i m n => cont_ok s c a o i /\ (range s o a i).1 <= m /\ m <= n <= (range s o a i).2
  | TMove c a o i lo hi => cont_ok s c a o i /\ lo = (range s o a i).1 /\ hi = (range s o a i).2
  | TUnlock c a o i m hi =>
    cont_ok s c a o i /\ (range s o a i).1 <= m <= hi /\ hi = (range s o a i).2 /\ es (bks s o i) = []
  | TKill c a o i => cont_ok s c a o i /\ es (bks s o i) = []
  | Access j a idx | Crit j a idx | Out j a idx _ => acc_ok s j a idx
  | RzCheck k x | RzLink k x => kont_ok s k /\ (x < nxt s)%nat
  | RzLock k x | RzIn k x => kont_ok s k /\ (x < nxt s)%nat /\ link (arr s x) = None
  | RzDo k x => kont_ok s k /\ (x < nxt s)%nat /\ link (arr s x) = None /\ cur s = Some x
  | DLock k x n => kont_ok s k /\ (x < nxt s)%nat /\ link (arr s x) = None /\ cur s = Some x /\
    n <= alen s x /\ forall i, i < n -> es (bks s x i) = []
  | DSwap k x n => kont_ok s k /\ (x < nxt s)%nat /\ link (arr s x) = None /\ cur s = Some x /\
    n = alen s x /\ forall i, i < n -> es (bks s x i) = []
  | DUnlock k x n hi ok => kont_ok s k /\ (x < nxt s)%nat /\ link (arr s x) = None /\ hi <= alen s x /\
    (ok = true -> ~ live s x /\ forall i, n <= i < hi -> es (bks s x i) = [])
  | RzOut k => kont_ok s k
  | Crash => False
  end.

Definition claims_b o p : bool := match claims p with Some (o', _) => (o' =? o)%nat | None => false end.
Definition nclaims s o : nat := length (List.filter (claims_b o) (pcs s)).

(** The thread has set RESIZING. *)
Definition resizing p : bool :=
  match p with
  | RzIn _ _ | RzDo _ _ | DLock _ _ _ | DSwap _ _ _ | DUnlock _ _ _ _ _ | RzOut _ => true
  | _ => false
  end.
(** The thread relies on the current array staying the same. *)
Definition curdep p : bool := match p with RzDo _ _ | DLock _ _ _ | DSwap _ _ _ => true | _ => false end.
(** The thread has moved the entries of the bucket, which is not killed yet. *)
Definition moved p x i : Prop :=
  match p with TUnlock _ _ o i0 _ _ | TKill _ _ o i0 => x = o /\ i = i0 | _ => False end.
Definition dropping p x i : Prop :=
  match p with DUnlock _ y n hi true => x = y /\ n <= i < hi | _ => False end.

Record shape s : Prop := {
  i_cur : forall c, cur s = Some c -> (c < nxt s)%nat;
  i_sz : forall x, (x < nxt s)%nat -> CapSpec.table (sz (arr s x));
  i_link : forall x o, link (arr s x) = Some o -> cur s = Some x /\ (o < x < nxt s)%nat;
  i_fresh : forall x i, (nxt s <= x)%nat -> bks s x i = Bk [] LFree;
  i_dead : forall x i, dead s x i -> es (bks s x i) = [];
  i_curlive : forall c i, cur s = Some c -> ~ dead s c i;
  i_idx : forall x i k v, stored_at s x i k v -> bi s x k = i;
  i_nd : forall x i, NoDup (map fst (es (bks s x i)));
  i_live : forall x i k v, stored_at s x i k v -> live s x;
  i_excl : forall a o i k v, link (arr s a) = Some o -> stored_at s a i k v ->
    es (bks s o (bi s o k)) = [] /\ (dead s o (bi s o k) \/ exists t p, at_pc s t p /\ moved p o (bi s o k));
  i_gone : forall x i, (x < nxt s)%nat -> i < alen s x -> ~ live s x ->
    dead s x i \/ exists t p, at_pc s t p /\ dropping p x i }.
Record locks s : Prop := {
  i_holds : forall t p x i, at_pc s t p -> holds p x i -> lk (bks s x i) = LExcl t;
  i_holder : forall t x i, lk (bks s x i) = LExcl t -> exists p, at_pc s t p /\ holds p x i;
  i_reads : forall t p x i, at_pc s t p -> reads p x i -> exists ts, lk (bks s x i) = LRead ts /\ t ∈ ts;
  i_reader : forall ts x i, lk (bks s x i) = LRead ts -> ts <> [] /\ NoDup ts /\
    forall t, t ∈ ts -> exists p, at_pc s t p /\ reads p x i }.
Definition words s : Prop := forall o, (o < nxt s)%nat ->
    word (arr s o) mod 32 = N.of_nat (nclaims s o) /\ (nclaims s o < 32)%nat /\
    forall i, i < alen s o -> i < word (arr s o) - word (arr s o) mod 32 ->
      dead s o i \/ exists t p prev, at_pc s t p /\ claims p = Some (o, prev) /\ prev <= i < prev + 32.
Record resz s : Prop := {
  i_rsz : forall t p, at_pc s t p -> resizing p = true -> rsz s = true;
  i_rsz1 : forall t u p q, at_pc s t p -> at_pc s u q -> resizing p = true -> resizing q = true -> t = u }.
Record inv s : Prop := {
  i_shape : shape s; i_locks : locks s; i_words : words s; i_resz : resz s;
  i_pc : forall t p, at_pc s t p -> pc_ok s p }.

(** ** Stability *)
Record mono s s' : Prop := {
  m_nxt : (nxt s <= nxt s')%nat;
  m_sz : forall x, (x < nxt s)%nat -> sz (arr s' x) = sz (arr s x);
  m_dead : forall x i, dead s x i -> dead s' x i;
  m_link : forall x, (x < nxt s)%nat -> link (arr s' x) = link (arr s x) \/
    (link (arr s' x) = None /\ forall o, link (arr s x) = Some o -> alldead s' o);
  m_live : forall x, (x < nxt s)%nat -> live s' x -> live s x }.

Lemma alen_mono s s' x : mono s s' -> (x < nxt s)%nat -> alen s' x = alen s x.
Proof. intros M H. unfold alen. by rewrite (m_sz _ _ M x H). Qed.
Lemma range_mono s s' x y i : mono s s' -> (x < nxt s)%nat -> (y < nxt s)%nat -> range s' x y i = range s x y i.
Proof. intros M Hx Hy. unfold range. by rewrite !(alen_mono _ _ _ M). Qed.
Lemma jidx_mono s s' a j : mono s s' -> (a < nxt s)%nat -> jidx s' a j = jidx s a j.
Proof. intros M H. destruct j; [|done|done]. simpl. by rewrite (m_sz _ _ M a H). Qed.
Lemma alldead_mono s s' x : mono s s' -> (x < nxt s)%nat -> alldead s x -> alldead s' x.
Proof. intros M H A i Hi. rewrite (alen_mono _ _ _ M H) in Hi. by apply (m_dead _ _ M), A. Qed.
Lemma job_mono s s' a j : mono s s' -> job_ok s a j -> job_ok s' a j.
Proof.
  intros M [H J]. split; [pose proof (m_nxt _ _ M); lia|]. destruct j; try done.
  by rewrite (alen_mono _ _ _ M H).
Qed.
Lemma wl_mono s s' a o : mono s s' -> wl s a o -> wl s' a o.
Proof.
  intros M [H W]. split; [pose proof (m_nxt _ _ M); lia|].
  destruct W as [W|[W W']].
  - destruct (m_link _ _ M a ltac:(lia)) as [E|[E A]]; [left; by rewrite E|right; eauto].
  - right. split; [|apply (alldead_mono s); [done|lia|done]].
    destruct (m_link _ _ M a ltac:(lia)) as [E|[E A]]; congruence.
Qed.
Lemma ready_mono s s' a idx : (forall x o, link (arr s x) = Some o -> (o < x)%nat) ->
  mono s s' -> (a < nxt s)%nat -> ready s a idx -> ready s' a idx.
Proof.
  intros L M H R o E i I. destruct (m_link _ _ M a H) as [E'|[E' A]]; [|congruence].
  rewrite E' in E. pose proof (L _ _ E). rewrite (range_mono s s') in I; [|done|done|lia].
  eapply (m_dead _ _ M), R; eauto.
Qed.
Lemma acc_mono s s' j a idx : (forall x o, link (arr s x) = Some o -> (o < x)%nat) ->
  mono s s' -> acc_ok s j a idx -> acc_ok s' j a idx.
Proof.
  intros L M (J & -> & R). split; [by eapply job_mono|]. destruct J as [H J].
  split; [symmetry; by apply jidx_mono|]. by apply (ready_mono s).
Qed.
Lemma reh_mono s s' j a o prev i : mono s s' -> reh_ok s j a o prev i -> reh_ok s' j a o prev i.
Proof.
  intros M (W & J & P & L & I & D). pose proof W as [W1 _].
  split; [by eapply wl_mono|]. split; [by eapply job_mono|]. rewrite (alen_mono _ _ _ M) by lia.
  do 3 (split; [done|]). intros i' Hi. by apply (m_dead _ _ M), D.
Qed.
Lemma ded_mono s s' j a o i hi : mono s s' -> ded_ok s j a o i hi -> ded_ok s' j a o i hi.
Proof.
  intros M (W & J & P & L & D). pose proof W as [W1 _]. pose proof J as [J1 _].
  split; [by eapply wl_mono|]. split; [by eapply job_mono|].
  rewrite (jidx_mono s s'), (range_mono s s') by (done || lia). do 2 (split; [done|]).
  intros i' Hi. by apply (m_dead _ _ M), D.
Qed.
Lemma cont_mono s s' c a o i : mono s s' -> cont_ok s c a o i -> cont_ok s' c a o i.
Proof.
  intros M. destruct c; intros [C L]; (split; [by eapply reh_mono || by eapply ded_mono|]); [|done].
  destruct C as [[W _] _]. rewrite (alen_mono _ _ _ M) by lia. done.
Qed.
Lemma kont_mono s s' k : (forall x o, link (arr s x) = Some o -> (o < x)%nat) ->
  mono s s' -> kont_ok s k -> kont_ok s' k.
Proof. intros L M. destruct k; [|done]. by apply acc_mono. Qed.
Lemma cont_wl s c a o i : cont_ok s c a o i -> wl s a o.
Proof. destruct c; intros [[W _] _]; done. Qed.
Lemma cont_job_ok s c a o i : cont_ok s c a o i -> job_ok s a (cont_job c).
Proof. destruct c; intros [(_ & J & _) _]; done. Qed.

Lemma pc_stable s s' q :
  (forall x o, link (arr s x) = Some o -> (o < x)%nat) -> mono s s' ->
  (forall x i, holds q x i -> es (bks s' x i) = es (bks s x i)) ->
  (curdep q = true -> cur s' = cur s) -> pc_ok s q -> pc_ok s' q.
Proof.
  intros L M HE HC P.
  assert (NL : forall x, (x < nxt s)%nat -> link (arr s x) = None -> link (arr s' x) = None).
  { intros x X E. destruct (m_link _ _ M x X) as [E'|[E' _]]; congruence. }
  assert (NX : forall x, (x < nxt s)%nat -> (x < nxt s')%nat) by (pose proof (m_nxt _ _ M); lia).
  destruct q; cbn [pc_ok] in *; try done.
  - by eapply job_mono.
  - destruct P. split; [by eapply wl_mono|by eapply job_mono].
  - destruct P. split; [by eapply wl_mono|by eapply job_mono].
  - destruct P as [P1 P2]. split; [by eapply reh_mono|]. destruct P1 as [[W _] _].
    rewrite (alen_mono _ _ _ M) by lia. done.
  - pose proof P as [[W _] _]. rewrite (alen_mono _ _ _ M) by lia. by eapply reh_mono.
  - destruct P as (P1 & P2 & P3). pose proof P1 as [W _].
    split; [by eapply wl_mono|]. split; [by eapply job_mono|]. eapply alldead_mono; [done|lia|done].
  - destruct P as (P1 & P2 & P3 & P4). pose proof P1 as [W _].
    split; [by eapply wl_mono|]. split; [by eapply job_mono|]. rewrite (alen_mono _ _ _ M) by lia. done.
  - destruct P as [P1 P2]. split; [by eapply ded_mono|done].
  - by eapply cont_mono.
  - destruct P as (P1 & P2). pose proof (cont_wl _ _ _ _ _ P1) as [W _]. rewrite (range_mono s s') by (done || lia).
    split; [by eapply cont_mono|done].
  - destruct P as (P1 & P2). pose proof (cont_wl _ _ _ _ _ P1) as [W _]. rewrite (range_mono s s') by (done || lia).
    split; [by eapply cont_mono|done].
  - by eapply cont_mono.
  - destruct P as (P1 & P2). pose proof (cont_wl _ _ _ _ _ P1) as [W _]. rewrite (range_mono s s') by (done || lia).
    split; [by eapply cont_mono|done].
  - destruct P as (P1 & P2 & P3 & P4). pose proof (cont_wl _ _ _ _ _ P1) as [W _]. rewrite (range_mono s s') by (done || lia).
    split; [by eapply cont_mono|]. do 2 (split; [done|]). rewrite HE; [done|cbn; auto].
  - destruct P as (P1 & P2). split; [by eapply cont_mono|]. rewrite HE; [done|cbn; auto].
  - by eapply acc_mono.
  - by eapply acc_mono.
  - by eapply acc_mono.
  - destruct P. split; [by eapply kont_mono|auto].
  - destruct P. split; [by eapply kont_mono|auto].
  - destruct P as (P1 & P2 & P3). split; [by eapply kont_mono|]. auto.
  - destruct P as (P1 & P2 & P3). split; [by eapply kont_mono|]. auto.
  - destruct P as (P1 & P2 & P3 & P4). split; [by eapply kont_mono|]. rewrite HC by done. auto.
  - destruct P as (P1 & P2 & P3 & P4 & P5 & P6). split; [by eapply kont_mono|]. rewrite HC by done.
    rewrite (alen_mono _ _ _ M) by done. split; [auto|]. split; [auto|]. do 2 (split; [done|]).
    intros i Hi. rewrite HE; [auto|cbn; auto].
  - destruct P as (P1 & P2 & P3 & P4 & P5 & P6). split; [by eapply kont_mono|]. rewrite HC by done.
    rewrite (alen_mono _ _ _ M) by done. split; [auto|]. split; [auto|]. do 2 (split; [done|]).
    intros i Hi. rewrite HE; [auto|cbn; auto].
  - destruct P as (P1 & P2 & P3' & P3 & P4). split; [by eapply kont_mono|].
    rewrite (alen_mono _ _ _ M) by done. split; [auto|]. split; [auto|]. split; [done|].
    intros E. destruct (P4 E) as [Q1 Q2]. split; [intros X; by apply (m_live _ _ M) in X|].
    intros i Hi. rewrite HE; [auto|cbn; auto].
  - by eapply kont_mono.
Qed.
End inv.
