(** The invariant of all threads; starting an operation. *)
From Coq Require Import NArith Lia.
From stdpp Require Import prelude list numbers.
From Verif Require BucketSpec BucketFacts BucketOps.
From Verif Require Import PeekModel PeekSpec PeekInv PeekGood PeekOps PeekOps2 PeekStore.

Section glob.
Context {K V : Type} `{EqDecision K} (hash : K -> N) (hash64 : forall k, (hash k < 2 ^ 64)%N).
Notation obj := (obj K V).
Notation node := (node K V).
Notation bucket := (bucket K V).
Notation array := (array K V).
Notation state := (state K V).
Notation writer := (writer K V).
Implicit Types (b : bucket) (nd : node) (x : obj) (n j h : nat) (w : writer) (st : state) (m : list array) (p : nat * nat).
Implicit Types (E g e : N) (bs : list bucket) (ex : list (nat * nat * nat)) (exs : nat -> list (nat * nat * nat)).
Local Arguments BucketModel.bit : simpl never.
Local Arguments BucketModel.trailing_ones : simpl never.
Local Arguments BucketSpec.tb : simpl never.
Local Arguments N.lor : simpl never.
Local Arguments N.ldiff : simpl never.
Local Arguments live_at : simpl never.
Local Arguments lv : simpl never.
Local Arguments byte : simpl never.
Local Arguments doomed : simpl never.
Local Arguments bucket_at : simpl never.

(** ** Definitions *)
Definition writes st t w : Prop := exists th, threads st !! t = Some th /\ work th = Write w.
Definition unheld st p : Prop := forall t w, writes st t w -> p ∉ held w.
(** The keys that belong to a bucket. *)
Definition Ip m p (k : K) : Prop := exists ar, m !! p.1 = Some ar /\ place hash ar k = p.2.
Definition Isw m w h (k : K) : Prop := match held w !! h with Some p => Ip m p k | None => False end.
Definition locked m w bs : Prop := Forall2 (fun p b => bucket_at m p = Some b) (held w) bs.
(** Later stores do not hide reachable entries; entries are published by at most one store per bucket. *)
Definition pub (y : write K V) : bool := match y with WOcc _ _ | WNew _ => true | _ => false end.
Definition one_occ (l : list (nat * write K V)) : Prop :=
  forall h y l1 l2, l = l1 ++ (h, y) :: l2 -> pub y = true -> forall n' o', (h, WOcc n' o') ∉ l2.
Definition calm (l : list (nat * write K V)) bs : Prop :=
  one_occ l /\
  (forall h b n nd j o, bs !! h = Some b -> frozen b = false -> nodes b !! n = Some nd -> tb (occ nd) j = true -> tb (rem nd) j = false ->
     (h, WOcc n o) ∈ l -> tb o j = true).
Record wok m E g w ex : Prop := Wok {
  w_nd : NoDup (held w);
  w_bs : exists bs, locked m w bs /\ safe hash E g (mine w) (Isw m w) ex bs (todo w) /\ calm (todo w) bs }.
Record inv st exs : Prop := Inv {
  v_cur : forall a, cur st = Some a -> a < length (mem st);
  v_arr : forall a ar, mem st !! a = Some ar -> length (bks ar) = 2 ^ bits ar /\ bits ar <= 64 /\
          forall o, linked ar = Some o -> o < length (mem st) /\ cur st <> Some o;
  v_idle : forall p b, bucket_at (mem st) p = Some b -> unheld st p -> idle hash (Ip (mem st) p) b;
  v_wr : forall t th w, threads st !! t = Some th -> work th = Write w ->
         pinned th = true /\ wok (mem st) (epoch st) (pin th) w (exs t);
  v_dis : forall t t' w w' p, writes st t w -> writes st t' w' -> p ∈ held w -> p ∈ held w' -> t = t';
  v_dead : forall p b, bucket_at (mem st) p = Some b -> cur st <> Some p.1 -> old_of st <> Some p.1 ->
           frozen b = true /\ (forall n j, live_at b n j = None) /\ unheld st p;
  v_two : forall t w p q, writes st t w -> held w !! 0 = Some p -> held w !! 1 = Some q -> old_of st = Some p.1 /\ cur st = Some q.1;
  v_next : forall p b, bucket_at (mem st) p = Some b -> nexts b;
  v_pin : forall t th, threads st !! t = Some th -> pinned th = true -> (pin th <= epoch st <= pin th + 1)%N }.

(** ** Basics *)
Lemma idle_mono (I I' : K -> Prop) b : (forall k, I k -> I' k) -> idle hash I b -> idle hash I' b.
Proof.
  intros A ([W C L] & Ln & Ti). split; [|done]. split; [done| |done].
  intros n j x nd En Lv NX. destruct (C n j x nd En Lv NX) as (C1 & C2 & C3). auto.
Qed.
Lemma good_mono (I I' : K -> Prop) X b : (forall k, I k -> I' k) -> good hash I X b -> good hash I' X b.
Proof.
  intros A [W C L]. split; [done| |done].
  intros n j x nd En Lv NX. destruct (C n j x nd En Lv NX) as (C1 & C2 & C3). auto.
Qed.
Lemma pre_mono E E' g ex bs h b (x : write K V) : (E <= E')%N -> pre E g ex bs h b x -> pre E' g ex bs h b x.
Proof.
  intros L. destruct x as [n i y|n i c|n i|n o|n r|l|n q|d|n i]; cbn; try done.
  intros (F & nd & En & [(i & r0 & P)|P]); (split; [done|]); exists nd; (split; [done|]); [left|by right].
  exists i, r0. destruct P as (P1 & P2 & P3 & P4 & P5). repeat split; try done; lia.
Qed.
Lemma safe_mono mine (Is Is' : nat -> K -> Prop) g l : (forall h k, Is h k -> Is' h k) -> forall E E' ex bs,
  (E <= E')%N -> safe hash E g mine Is ex bs l -> safe hash E' g mine Is' ex bs l.
Proof.
  intros A. induction l as [|[h x] l IH]; intros E E' ex bs L (G & C & S).
  - split; [|split; [done|]].
    + intros h b Lb. eapply good_mono; [|by apply G]. auto.
    + destruct S as [-> S]. split; [done|]. intros h b Lb. eapply idle_mono; [|by apply S]. auto.
  - split; [|split; [done|]].
    + intros h' b Lb. eapply good_mono; [|by apply G]. auto.
    + destruct S as (b & Lb & P & S). exists b. split; [done|]. split; [by eapply pre_mono|].
      intros e Le. destruct (S e) as (b' & ex' & Q1 & Q2 & Q3); [lia|]. exists b', ex'. repeat split; try done.
      apply (IH e e); [lia|done].
Qed.
Lemma is_held_false st p : is_held st p = false <-> unheld st p.
Proof.
  unfold is_held, unheld, writes. split.
  - intros F t w (th & Et & Wt) M. assert (existsb (fun th => match work th with Write w => bool_decide (p ∈ held w) | _ => false end) (threads st) = true) as T.
    { apply existsb_exists. exists th. split; [apply elem_of_list_In; by eapply elem_of_list_lookup_2|]. rewrite Wt. by apply bool_decide_eq_true. }
    congruence.
  - intros A. destruct (existsb _ _) eqn:T; [|done]. exfalso. apply existsb_exists in T as (th & Mt & T).
    apply elem_of_list_In, elem_of_list_lookup in Mt as (t & Et). destruct (work th) as [| |w] eqn:Wt; try done.
    apply bool_decide_eq_true in T. apply (A t w); [by exists th|done].
Qed.
Lemma open_some st p f b : open_bucket st p f = Some b -> bucket_at (mem st) p = Some b /\ unheld st p /\ frozen b = f.
Proof.
  unfold open_bucket. destruct (bucket_at (mem st) p) as [b0|] eqn:Eb; [|done]. cbn.
  destruct (is_held st p) eqn:Hh; cbn; [done|]. destruct (Bool.eqb (frozen b0) f) eqn:F; [|done]. intros [= ->].
  split; [done|]. split; [by apply is_held_false|]. by apply eqb_prop.
Qed.
Lemma place_lt (ar : array) k : bits ar <= 64 -> place hash ar k < 2 ^ bits ar.
Proof.
  intros B. unfold place. rewrite N.shiftr_div_pow2.
  assert (hash k / 2 ^ (64 - N.of_nat (bits ar)) < 2 ^ N.of_nat (bits ar))%N as L.
  { apply N.div_lt_upper_bound; [apply N.pow_nonzero; lia|]. rewrite <- N.pow_add_r.
    replace (64 - N.of_nat (bits ar) + N.of_nat (bits ar))%N with 64%N by lia. apply hash64. }
  assert (N.to_nat (2 ^ N.of_nat (bits ar)) = 2 ^ bits ar) as <-.
  { rewrite N2Nat.inj_pow, Nat2N.id. reflexivity. }
  lia.
Qed.
Lemma place_some st exs a ar k : inv st exs -> mem st !! a = Some ar -> exists b, bks ar !! place hash ar k = Some b.
Proof.
  intros I Ea. destruct (v_arr _ _ I a ar Ea) as (L & B & _). apply lookup_lt_is_Some. rewrite L. by apply place_lt.
Qed.
Lemma at_some_bucket m a ar i b : m !! a = Some ar -> bucket_at m (a, i) = Some b <-> bks ar !! i = Some b.
Proof. intros Ea. unfold bucket_at. cbn. rewrite Ea. done. Qed.
Lemma same_gen_near E r : (r <= E)%N -> (E <= r + 2)%N -> same_gen E (byte r) = true.
Proof.
  intros L1 L2. unfold same_gen, byte. apply andb_true_iff. split; [apply N.ltb_lt, N.mod_lt; lia|]. apply N.ltb_lt.
  assert (exists d, E = r + d /\ d <= 2)%N as (d & -> & Ld) by (exists (E - r)%N; lia).
  pose proof (N.div_mod r 64 ltac:(lia)) as D. pose proof (N.mod_lt r 64 ltac:(lia)) as M. set (q := (r / 64)%N) in *. set (s := (r mod 64)%N) in *.
  destruct (decide (s + d < 64)%N) as [C|C].
  - replace ((r + d) mod 64)%N with (s + d)%N.
    2:{ apply (N.mod_unique _ _ q); lia. }
    replace (s + d + 64 - s)%N with (d + 1 * 64)%N by lia. rewrite N.mod_add, N.mod_small by lia. lia.
  - replace ((r + d) mod 64)%N with (s + d - 64)%N.
    2:{ apply (N.mod_unique _ _ (q + 1)); lia. }
    replace (s + d - 64 + 64 - s)%N with d by lia. rewrite N.mod_small by lia. lia.
Qed.
Lemma not_doomed E g nd j : held_back E g nd j -> (E <= g + 1)%N -> tb (doomed nd E) j = false.
Proof.
  intros (_ & R) L. unfold doomed. rewrite BucketOps.gen_mask_spec. destruct (tb (rem nd) j); [|done].
  destruct R as (r & C & L1 & L2); [done|]. rewrite Nat.sub_0_r, C, same_gen_near by lia.
  rewrite bool_decide_eq_false_2 by lia. done.
Qed.

(** ** Starting an operation *)
(** Everything about a fresh operation that the other threads and the readers need. *)
Record fresh st w g ex : Prop := Fresh {
  f_ok : wok (mem st) (epoch st) g w ex;
  f_open : forall p, p ∈ held w -> unheld st p /\ (cur st = Some p.1 \/ old_of st = Some p.1);
  f_mine : forall h p b n j x, held w !! h = Some p -> bucket_at (mem st) p = Some b -> (h, n, j) ∈ ex -> live_at b n j = Some x -> x.1 ∈ mine w;
  f_two : forall p q, held w !! 0 = Some p -> held w !! 1 = Some q -> old_of st = Some p.1 /\ cur st = Some q.1;
  f_quiet : forall g' h p b n nd j o, held w !! h = Some p -> bucket_at (mem st) p = Some b -> frozen b = false -> nodes b !! n = Some nd ->
            held_back (epoch st) g' nd j -> (epoch st <= g' + 1)%N -> (h, WOcc n o) ∈ todo w -> tb o j = true }.
Lemma calm_of st w bs g' : one_occ (todo w) -> locked (mem st) w bs -> (epoch st <= g' + 1)%N ->
  (forall h p b n nd j o, held w !! h = Some p -> bucket_at (mem st) p = Some b -> frozen b = false -> nodes b !! n = Some nd ->
     held_back (epoch st) g' nd j -> (epoch st <= g' + 1)%N -> (h, WOcc n o) ∈ todo w -> tb o j = true) -> calm (todo w) bs.
Proof.
  intros O L E Q. split; [done|]. intros h b n nd j o Lb F En Oj Rj M.
  destruct (Forall2_lookup_r _ _ _ _ _ L Lb) as (p & Lp & Bp). apply (Q h p b n nd j o); try done.
  split; [done|]. intros R. congruence.
Qed.

Definition occs (l : list (write K V)) : list (nat * N) := omap (fun x : write K V => match x with WOcc n o => Some (n, o) | _ => None end) l.
Lemma occs_in l h n o : (h, WOcc n o) ∈ map (pair h) l -> (n, o) ∈ occs l.
Proof.
  intros M. apply elem_of_list_fmap in M as (y & [= <-] & M). apply elem_of_list_omap. by exists (WOcc n o).
Qed.
Lemma in_map_h (l : list (write K V)) h h' y : (h, y) ∈ map (pair h') l -> h = h' /\ y ∈ l.
Proof. intros M. apply elem_of_list_fmap in M as (z & [= -> ->] & M). done. Qed.
Definition pubs (l : list (write K V)) : list (write K V) := filter (fun y => pub y = true) l.
Lemma one_occ_map l h : length (pubs l) <= 1 -> one_occ (map (pair h) l).
Proof.
  intros L h' y l1 l2 E Py n' o' M.
  apply map_eq_app in E as (k1 & k2 & -> & <- & E). apply map_eq_cons in E as (z & k3 & -> & [= <- ->] & <-).
  assert (WOcc n' o' ∈ pubs k3) as M'.
  { apply elem_of_list_filter. split; [done|]. by apply in_map_h in M as [_ M]. }
  unfold pubs in *. rewrite list.filter_app, filter_cons_True, app_length in L by done. cbn in L.
  destruct (filter _ k3); [by apply elem_of_nil in M'|cbn in L; lia].
Qed.
Lemma one_occ_app l1 l2 : one_occ l1 -> one_occ l2 -> (forall h y n' o', (h, y) ∈ l1 -> (h, WOcc n' o') ∈ l2 -> False) -> one_occ (l1 ++ l2).
Proof.
  intros O1 O2 D h y k1 k2 E Py n' o' M. apply app_eq_inv in E as [(k & E1 & E2)|(k & E1 & E2)].
  - destruct k as [|z k]; cbn in E2.
    + apply (O2 h y [] k2 (eq_sym E2) Py n' o' M).
    + injection E2 as <- ->. apply elem_of_app in M as [M|M].
      * by apply (O1 h y k1 k E1 Py n' o' M).
      * apply (D h y n' o'); [|done]. rewrite E1. apply elem_of_app. right. left.
  - by apply (O2 h y k k2 E2 Py n' o').
Qed.
Lemma insert_occs b x c l n o : insert_writes b x c = Some l -> (n, o) ∈ occs l ->
  exists nd, nodes b !! n = Some nd /\ o = N.lor (occ nd) (bit (trailing_ones (occ nd))).
Proof.
  unfold insert_writes. destruct (nodes b !! 0) as [m|] eqn:E0; [|done]. cbn [mbind option_bind].
  destruct (trailing_ones (occ m) =? 32); [destruct (list_find _ _) as [[i q]|] eqn:F|].
  - destruct (nodes b !! q) as [nd|] eqn:Eq; [|done]. cbn [mbind option_bind]. intros [= <-] M. cbn in M.
    apply elem_of_list_singleton in M as [= -> ->]. by exists nd.
  - intros [= <-] M. cbn in M. by apply elem_of_nil in M.
  - intros [= <-] M. cbn in M. apply elem_of_list_singleton in M as [= -> ->]. by exists m.
Qed.
Lemma insert_occs_1 b x c l : insert_writes b x c = Some l -> length (pubs l) <= 1.
Proof.
  unfold insert_writes. destruct (nodes b !! 0) as [m|]; [|done]. cbn [mbind option_bind].
  destruct (trailing_ones (occ m) =? 32); [destruct (list_find _ _) as [[i q]|]|].
  - destruct (nodes b !! q) as [nd|]; [|done]. cbn [mbind option_bind]. intros [= <-]. by apply Nat.leb_le.
  - intros [= <-]. by apply Nat.leb_le.
  - intros [= <-]. by apply Nat.leb_le.
Qed.
Lemma clear_occs b n e l : clear_writes b n e = Some l -> exists nd, nodes b !! n = Some nd /\ occs l = [(n, N.ldiff (occ nd) (doomed nd e))] /\ length (pubs l) <= 1.
Proof.
  unfold clear_writes. destruct (nodes b !! n) as [nd|] eqn:En; [|done]. cbn [mbind option_bind]. intros [= <-]. exists nd. split; [done|].
  split.
  2:{ unfold pubs. cbn [app]. rewrite filter_cons_True, filter_cons_False, list.filter_app by done. cbn [length]. rewrite app_length.
      assert (forall js, filter (fun y : write K V => pub y = true) (map (WDrop n) js) = []) as -> by (induction js; done).
      by destruct (negb _ && _ && _). }
  unfold occs. cbn [app omap list_omap]. f_equal. rewrite omap_app.
  assert (forall js, omap (fun x : write K V => match x with WOcc n o => Some (n, o) | _ => None end) (map (WDrop n) js) = []) as ->.
  { induction js; [done|]. done. }
  by destruct (negb _ && _ && _).
Qed.
Lemma not_dead st exs p b : inv st exs -> bucket_at (mem st) p = Some b -> frozen b = false -> cur st = Some p.1 \/ old_of st = Some p.1.
Proof.
  intros I Eb F. destruct (decide (cur st = Some p.1)); [by left|]. destruct (decide (old_of st = Some p.1)); [by right|].
  destruct (v_dead _ _ I p b) as (F' & _); try done. congruence.
Qed.
(** An operation on one bucket. *)
Lemma fresh_1 st exs p b mine l g ex : inv st exs -> (g <= epoch st)%N -> bucket_at (mem st) p = Some b -> unheld st p -> frozen b = false ->
  safe hash (epoch st) g mine (fun _ => Ip (mem st) p) ex [b] (map (pair 0) l) -> length (pubs l) <= 1 ->
  (forall n j x, (0, n, j) ∈ ex -> live_at b n j = Some x -> x.1 ∈ mine) ->
  (forall g' n nd j o, nodes b !! n = Some nd -> held_back (epoch st) g' nd j -> (epoch st <= g' + 1)%N -> (n, o) ∈ occs l -> tb o j = true) ->
  fresh st (Writer mine [p] (map (pair 0) l)) g ex.
Proof.
  intros I Gg Eb U F S O M Q.
  assert (forall g' h p' b n nd j o, held (Writer mine [p] (map (pair 0) l)) !! h = Some p' -> bucket_at (mem st) p' = Some b -> frozen b = false -> nodes b !! n = Some nd ->
            held_back (epoch st) g' nd j -> (epoch st <= g' + 1)%N -> (h, WOcc n o) ∈ todo (Writer mine [p] (map (pair 0) l)) -> tb o j = true) as Qt.
  { intros g' h p' b' n nd j o Lh Eb' F' En Hb Lg Mo. cbn in *. apply list_lookup_singleton_Some in Lh as [-> ->].
    rewrite Eb in Eb'. injection Eb' as <-. apply (Q g' n nd j o); try done. by eapply occs_in. }
  assert (locked (mem st) (Writer mine [p] (map (pair 0) l)) [b]) as Lk.
  { unfold locked. cbn. by repeat constructor. }
  split; [| | | |exact Qt].
  - split; [apply NoDup_singleton|]. exists [b]. split; [done|]. split.
    + cbn. eapply (safe_mono _ (fun h k => h = 0 /\ Ip (mem st) p k)).
      { intros h k (-> & Ik). unfold Isw. done. }
      { reflexivity. }
      clear -S. revert S. generalize (epoch st) as E. set (ll := map (pair 0) l). assert (Forall (fun y => y.1 = 0) ll) as Fl.
      { apply list.Forall_forall. intros y My. apply elem_of_list_fmap in My as (z & -> & _). done. }
      clearbody ll. revert Fl ex b. induction ll as [|[h y] ll IH]; intros Fl ex b E (G & C & S).
      * split; [|split; [done|]].
        -- intros [|h] b' Lb; [|by destruct h]. apply (good_mono (Ip (mem st) p)); [done|]. by apply (G 0).
        -- destruct S as [-> S]. split; [done|]. intros [|h] b' Lb; [|by destruct h]. apply (idle_mono (Ip (mem st) p)); [done|]. by apply (S 0).
      * inversion_clear Fl as [|? ? Hh Fl']. cbn in Hh. subst h. split; [|split; [done|]].
        -- intros [|h] b' Lb; [|by destruct h]. apply (good_mono (Ip (mem st) p)); [done|]. by apply (G 0).
        -- destruct S as (b0 & Lb & P & S). exists b0. split; [done|]. split; [done|]. intros e Le.
           destruct (S e Le) as (b' & ex' & S1 & S2 & S3). exists b', ex'. split; [done|]. split; [done|].
           change (<[0:=b']> [b]) with [b']. by apply IH.
    + apply (calm_of st _ _ (epoch st)); [by apply one_occ_map|done|lia|]. intros h p' b' n nd j o. apply Qt.
  - intros p' M'. cbn in M'. apply elem_of_list_singleton in M' as ->. split; [done|]. by eapply not_dead.
  - intros h p' b' n j x Lh Eb' Mx Lv. cbn in *. apply list_lookup_singleton_Some in Lh as [-> ->].
    rewrite Eb in Eb'. injection Eb' as <-. by eapply M.
  - intros p' q _ Lq. done.
Qed.
End glob.
