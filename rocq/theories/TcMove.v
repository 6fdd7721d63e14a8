(** Steps that change the routes keep the invariant. *)
From Coq Require Import List Arith Bool Lia.
From Verif Require Import TcModel TcRoute TcSpec TcInv TcTree TcFrame TcRedir TcRet TcKeep TcJobs TcSplit TcFrz.
Import ListNotations.

Section move.
Context {K V : Type} (leb : K -> K -> bool) (HO : tord leb).
Notation heap := (nat -> obj K V).
Notation pos := (pos leb).
Notation nxt := (nxt leb).
Notation On := (On leb).
Notation Live := (Live leb).
Notation sel := (sel leb).
Notation wlt := (wlt leb).
Notation HInv := (HInv leb).
Context (h : heap) (f : nat) (r : option nat) (lg : list (ev K V)) (HI : HInv h f r lg).
Notation "'on' k x" := (On h r k x) (at level 10, k at level 9, x at level 9).
Notation live := (Live h r).

Lemma job_over n t : n < f -> jv (jb (h n)) = Some t -> nofull h n -> over (h n) = false.
Proof.
  intros Hn J Nf. pose proof (jv_lvl leb h f r lg HI n _ Hn J) as Ln.
  apply (idle_noover leb h f r lg HI n Hn Ln). unfold nofull in Nf. destruct (jb (h n)); auto; discriminate.
Qed.

Lemma step_ins (h' : heap) n o c m lo hi th : n < f -> jb (h n) = Split o c m lo hi ->
  h' n = set_jb (Ins o c m lo hi th) (put_low leb (h n) m lo) ->
  (forall y, y <> n -> Chain h n y -> h' y = set_over (Some m) (h y)) ->
  (forall y, y <> n -> ~ Chain h n y -> h' y = h y) ->
  (forall y, Chain h n y \/ ~ Chain h n y) ->
  HInv h' f r lg
  /\ (forall k y, on k y -> On h' r k y \/ (closed (h' y) /\ same (h' y) (h y))) /\ MvR leb f h r h' n.
Proof.
  intros Hn J En Ec Eo Dec. assert (jv (jb (h n)) = Some (o, c, Some m, lo, hi)) as Jv by now rewrite J.
  assert (nofull h n) as Nf by (unfold nofull; now rewrite J).
  assert (isIns (jb (h n)) = false) as Is by now rewrite J.
  pose proof (jv_lvl leb h f r lg HI n _ Hn Jv) as Ln.
  pose proof (job_over n _ Hn Jv Nf) as On0.
  pose proof (h_hld _ _ _ _ _ HI _ _ _ _ _ _ Hn Jv) as L.
  pose proof (h_wf _ _ _ _ _ HI n Hn) as W.
  pose proof (job_live leb h f r lg HI n _ _ _ _ _ Hn Jv On0) as Lv.
  pose proof (mid_notkey leb HO h f r lg HI n _ _ _ _ _ Hn Jv On0 Is) as Nk.
  pose proof (l_pos _ _ _ _ _ _ _ _ _ L Is m eq_refl) as Pm.
  assert (lo <> hi) as Nlh by (apply L; congruence).
  pose proof (w_wfc _ _ _ _ W) as Wc.
  pose proof (jv_nd leb h f r lg HI n _ Hn Jv) as Nd.
  pose proof (l_lok _ _ _ _ _ _ _ _ _ L Is) as Nlo.
  pose proof (l_hik _ _ _ _ _ _ _ _ _ L) as Nhi.
  destruct (jv_c_lt leb h f r lg HI _ _ _ _ _ _ Hn Jv) as [Hc Lc].
  assert (forall y, y <> n -> h' y = h y \/ Chain h n y /\ h' y = set_over (Some m) (h y)) as Ecs.
  { intros y Ny. destruct (Dec y); auto. }
  assert (forall y, lvl (h' y) = lvl (h y) /\ fz (h' y) = fz (h y) /\ own (h' y) = own (h y)) as El.
  { intros y. destruct (Nat.eq_dec y n) as [->|Ny]; [rewrite En; auto|].
    destruct (Ecs y Ny) as [->|[_ ->]]; auto. }
  assert (forall y, y <> n -> jb (h' y) = jb (h y) /\ cells (h' y) = cells (h y)) as Ej.
  { intros y Ny. destruct (Ecs y Ny) as [->|[_ ->]]; auto. }
  assert (forall k, pos (h' n) k = if lpos_eqb (pos (h n) k) o && leb k m then PSlot (nsl (h n)) else pos (h n) k) as Ep.
  { intros k. rewrite En. change (pos (put_low leb (h n) m lo) k = if lpos_eqb (pos (h n) k) o && leb k m
      then PSlot (nsl (h n)) else pos (h n) k). rewrite put_low_pos, Pm; auto. }
  assert (wlo (h n) = None) as Wn by (apply W; auto).
  assert (c <> n) as Ncn by (intros ->; lia).
  assert (kids (h' n) = kids (put_low leb (h n) m lo)) as Ek by (rewrite En; reflexivity).
  apply (redirect_on leb HO h h' f r lg HI n o c (Some m) lo hi (fun k => leb k m)); auto.
  - intros y Hy Ny. destruct (Ecs y Ny) as [->|[_ ->]]; repeat split; auto.
  - intros y. destruct (El y) as (_ & A & B). auto.
  - rewrite En. auto.
  - intros k. unfold TcInv.nxt. rewrite En.
    change (nx leb (put_low leb (h n) m lo) k = if lpos_eqb (pos (h n) k) o && leb k m
      then Some (sel (Some m) lo hi k) else nx leb (h n) k).
    rewrite put_low_nx, Pm; auto. cbn. destruct (leb k m); [reflexivity|]. now rewrite !andb_false_r.
  - intros k _ _. rewrite Is. discriminate.
  - cbn. intros k1 k2 _ _ A. rewrite A. destruct (leb k2 m); auto.
  - rewrite En. cbn. intros s Hs. apply ins_keys in Hs as [->|Hs]; auto. right. cbn.
    apply (h_mid _ _ _ _ _ HI n o c m lo hi); auto. rewrite Wn. exact Logic.I.
  - destruct (h_wu _ _ _ _ _ HI n Lv) as (k & A & B & C). exists k. split; auto.
    rewrite Ep, (C _ _ _ _ _ Jv Is), andb_false_r. auto.
  - intros y Hy. destruct (Nat.eq_dec y n) as [->|Ny]; [left; rewrite En; auto|].
    destruct (Ecs y Ny) as [->|[C _]]; auto. right. split; auto.
    apply (chain_not_over leb HO h f r lg HI n y Hn On0 Is C).
  - intros y C. assert (y <> n) as Ny. { intros ->. destruct (chain_full leb h f r lg HI n n Hn C) as (_ & _ & ?). lia. }
    now rewrite (Ec y Ny C).
  - right. unfold instype. rewrite En. cbn. split; auto. split; auto. split; auto. split; [|split].
    + intros y C. assert (y <> n) as Ny. { intros ->. destruct (chain_full leb h f r lg HI n n Hn C) as (_ & _ & ?). lia. }
      now rewrite (Ec y Ny C).
    + tauto.
    + intros k Hk. change (pos (put_low leb (h n) m lo) k = o) in Hk. rewrite put_low_pos, Pm in Hk by auto.
      destruct (lpos_eqb (pos (h n) k) o && leb k m) eqn:E.
      * exfalso. pose proof (l_ptr _ _ _ _ _ _ _ _ _ L) as Hp. rewrite <- Hk in Hp. cbn in Hp.
        apply sc_in in Hp as (e & He & Hs & _). destruct Wc as (_ & _ & Wl).
        assert (In (nsl (h n)) (slots (cells (h n)))) as Hi by (rewrite <- Hs; now apply in_map).
        apply Wl in Hi. lia.
      * split; auto. rewrite Hk in E. rewrite (proj2 (lpos_eqb_eq o o) eq_refl) in E. cbn in E. exact E.
  - intros y Hy Ny. left. now apply Ej.
  - constructor; rewrite ?Ek; rewrite En; cbn; try (apply W; fail); try tauto.
    + intros q Hq. apply put_low_in_kids in Hq as [->|Hq].
      * destruct (El lo) as (-> & _). split; [apply L|]. rewrite (l_lvlo _ _ _ _ _ _ _ _ _ L). auto.
      * destruct (El q) as (-> & _). now apply W.
    + apply ins_wfc; auto.
    + intros U. exfalso. destruct (kid_ub leb h f r lg HI n c Hn) as [u Hu]; [|now apply (U u)].
      eapply in_kids. apply L.
    + congruence.
    + apply put_low_nodup; auto.
  - intros o' c' om' lo' hi' E. rewrite En in E. cbn in E. injection E as <- <- <- <- <-.
    destruct (El c) as (E1 & E2 & E3). destruct (Ej c Ncn) as [E4 E5].
    destruct (El lo) as (E6 & _ & E7). destruct (El hi) as (E8 & _ & E9).
    constructor; rewrite ?Ek, ?E1, ?E4, ?E5, ?E6, ?E7, ?E8, ?E9; try apply L.
    + rewrite En. change (ptr (put_low leb (h n) m lo) o = Some c). apply put_low_ptr; auto. apply L.
    + pose proof (l_held _ _ _ _ _ _ _ _ _ L) as Hh. unfold held in *. now rewrite E1, E2, E4.
    + intros Hi. apply put_low_in_kids in Hi as [Hi|Hi]; [congruence|tauto].
    + rewrite En. cbn. congruence.
    + rewrite En. cbn. congruence.
    + rewrite En. cbn. congruence.
  - unfold Fz. rewrite En. cbn. intros L1. pose proof (h_fz _ _ _ _ _ HI n Hn L1) as F. rewrite J in F.
    destruct (El lo) as (_ & -> & _). destruct (El hi) as (_ & -> & _). tauto.
Qed.

(** A node whose child pointer has been stored. *)
Lemma wfo_setptr (h' : heap) n o d u j : n < f -> ptr (h n) o = Some d -> u < f -> lvl (h n) = S (lvl (h u)) ->
  over (h n) = false -> lvl (h n) <> 0 -> ~ In u (kids (h n)) -> NoDup (kids (h n)) ->
  h' n = set_jb j (set_ptr (h n) o u) -> j = Locked -> (forall y, lvl (h' y) = lvl (h y)) -> wfo leb h' f n.
Proof.
  intros Hn Hp Hu Lu On0 Ln Nu Nd En -> El. pose proof (h_wf _ _ _ _ _ HI n Hn) as W.
  assert (lvl (h' n) = lvl (h n)) as E1 by auto.
  assert (ents (h' n) = ents (h n) /\ ret (h' n) = ret (h n) /\ wlo (h' n) = wlo (h n) /\ over (h' n) = over (h n)
    /\ nsl (h' n) = nsl (h n) /\ jb (h' n) = Locked /\ cells (h' n) = cells (set_ptr (h n) o u)
    /\ ub (h' n) = ub (set_ptr (h n) o u)) as (E2 & E3 & E4 & E5 & E6 & E7 & E8 & E9).
  { rewrite En. destruct o; repeat split; auto. }
  assert (kids (h' n) = kids (set_ptr (h n) o u)) as Ek by (unfold kids; now rewrite E8, E9).
  constructor; rewrite ?E1, ?E2, ?E3, ?E4, ?E5, ?E6, ?E7, ?Ek; try apply W; try tauto; try congruence.
  - intros q Hq. rewrite El. apply set_ptr_in_kids in Hq as [->|Hq]; auto. now apply W.
  - rewrite E8. destruct (w_wfc _ _ _ _ W) as (W1 & W2 & W3). split; [|split].
    + unfold srt. rewrite set_ptr_keys. auto.
    + now rewrite set_ptr_slots.
    + now rewrite set_ptr_slots.
  - intros U. rewrite E9 in U. rewrite E8. destruct o; cbn in *; [|now destruct (U u)].
    rewrite (w_ub _ _ _ _ W); auto.
  - eapply set_ptr_kids; eauto. apply (w_wfc _ _ _ _ W).
Qed.

Lemma step_swap0 (h' : heap) n o c lo : n < f -> jb (h n) = Swap0 o c lo ->
  h' n = set_jb Locked (set_ptr (h n) o lo) -> h' c = set_over None (h c) ->
  (forall y, y <> n -> y <> c -> h' y = h y) -> HInv h' f r lg
  /\ (forall k y, on k y -> On h' r k y \/ (closed (h' y) /\ same (h' y) (h y))) /\ MvR leb f h r h' n.
Proof.
  intros Hn J En Ec Eo. assert (jv (jb (h n)) = Some (o, c, None, lo, lo)) as Jv by now rewrite J.
  assert (nofull h n) as Nf by (unfold nofull; now rewrite J).
  assert (isIns (jb (h n)) = false) as Is by now rewrite J.
  pose proof (jv_lvl leb h f r lg HI n _ Hn Jv) as Ln.
  pose proof (job_over n _ Hn Jv Nf) as On0.
  pose proof (h_hld _ _ _ _ _ HI _ _ _ _ _ _ Hn Jv) as L.
  pose proof (job_live leb h f r lg HI n _ _ _ _ _ Hn Jv On0) as Lv.
  destruct (jv_c_lt leb h f r lg HI _ _ _ _ _ _ Hn Jv) as [Hc Lc].
  assert (c <> n) as Ncn by (intros ->; lia).
  pose proof (l_ptr _ _ _ _ _ _ _ _ _ L) as Hp.
  pose proof (l_none _ _ _ _ _ _ _ _ _ L eq_refl) as Lc0.
  destruct (w_leaf _ _ _ _ (h_wf _ _ _ _ _ HI c Hc) Lc0) as (_ & _ & Jc).
  assert (forall y, Chain h n y -> y = c) as Ch.
  { induction 1 as [o1 c1 om1 lo1 hi1 J1|a o1 c1 om1 lo1 hi1 Ha IH J1]; [congruence|].
    subst a. rewrite Jc in J1. discriminate. }
  assert (forall y, lvl (h' y) = lvl (h y) /\ fz (h' y) = fz (h y) /\ own (h' y) = own (h y)) as El.
  { intros y. destruct (Nat.eq_dec y n) as [->|Ny]; [rewrite En; destruct o; auto|].
    destruct (Nat.eq_dec y c) as [->|Nc]; [rewrite Ec; auto|rewrite Eo; auto]. }
  assert (forall k, pos (h' n) k = pos (h n) k) as Ep.
  { intros k. rewrite En. change (pos (set_ptr (h n) o lo) k = pos (h n) k). apply set_ptr_pos. }
  assert (jb (h' n) = Locked) as Jn by now rewrite En.
  apply (redirect_on leb HO h h' f r lg HI n o c None lo lo (fun _ => true)); auto.
  - intros y Hy Ny. destruct (Nat.eq_dec y c) as [->|Nc]; [rewrite Ec; repeat split; auto|rewrite Eo; repeat split; auto].
  - intros y. destruct (El y) as (_ & A & B). auto.
  - rewrite En. destruct o; auto.
  - intros k. unfold TcInv.nxt. rewrite En, andb_true_r.
    change (nx leb (set_ptr (h n) o lo) k = if lpos_eqb (pos (h n) k) o
      then Some (sel None lo lo k) else nx leb (h n) k).
    now rewrite (set_ptr_nx leb (h n) o lo c k Hp).
  - intros k _ _. rewrite Is. discriminate.
  - rewrite En. intros s Hs. left. change (In s (keys (cells (set_ptr (h n) o lo)))) in Hs. now rewrite set_ptr_keys in Hs.
  - destruct (h_wu _ _ _ _ _ HI n Lv) as (k & A & B & C). exists k. split; auto. now rewrite Ep.
  - intros y Hy. destruct (Nat.eq_dec y n) as [->|Ny]; [left; rewrite En; destruct o; auto|].
    destruct (Nat.eq_dec y c) as [->|Nc]; [|rewrite Eo; auto]. right. split; [eapply C1; eauto|].
    eapply (job_c_over leb HO h f r lg HI n); eauto.
  - intros y C. rewrite (Ch y C), Ec. auto.
  - left. split; auto. now rewrite Jn.
  - intros y Hy Ny. left. destruct (Nat.eq_dec y c) as [->|Nc]; [rewrite Ec; auto|rewrite Eo; auto].
  - apply (wfo_setptr h' n o c lo Locked); auto; try apply L.
    + rewrite (l_lvlo _ _ _ _ _ _ _ _ _ L). auto.
    + apply (jv_nd leb h f r lg HI n _ Hn Jv).
    + intros y. apply El.
  - rewrite Jn. discriminate.
  - unfold Fz. now rewrite Jn.
Qed.

Lemma step_swap (h' : heap) n o c m lo hi : n < f -> jb (h n) = Ins o c m lo hi true ->
  h' n = set_jb Locked (set_ptr (h n) o hi) ->
  h' c = match jb (h c) with Full _ d _ low high _ lns => set_jb (Commit d low high lns 0) (h c) | _ => h c end ->
  (forall y, y <> n -> y <> c -> h' y = h y) -> HInv h' f r lg
  /\ (forall k y, on k y -> On h' r k y \/ (closed (h' y) /\ same (h' y) (h y))) /\ MvR leb f h r h' n.
Proof.
  intros Hn J En Ec Eo. assert (jv (jb (h n)) = Some (o, c, Some m, lo, hi)) as Jv by now rewrite J.
  assert (nofull h n) as Nf by (unfold nofull; now rewrite J).
  assert (isIns (jb (h n)) = true) as Is by now rewrite J.
  pose proof (jv_lvl leb h f r lg HI n _ Hn Jv) as Ln.
  pose proof (job_over n _ Hn Jv Nf) as On0.
  pose proof (h_hld _ _ _ _ _ HI _ _ _ _ _ _ Hn Jv) as L.
  pose proof (h_job _ _ _ _ _ HI _ _ _ _ _ _ Hn Jv On0) as Jb.
  destruct (j_ins _ _ _ _ _ _ _ _ _ Jb Is) as (Jw & _ & _).
  pose proof (job_live leb h f r lg HI n _ _ _ _ _ Hn Jv On0) as Lv.
  destruct (jv_c_lt leb h f r lg HI _ _ _ _ _ _ Hn Jv) as [Hc Lc].
  assert (c <> n) as Ncn by (intros ->; lia).
  pose proof (l_ptr _ _ _ _ _ _ _ _ _ L) as Hp.
  assert (forall y, lvl (h' y) = lvl (h y) /\ fz (h' y) = fz (h y) /\ own (h' y) = own (h y)) as El.
  { intros y. destruct (Nat.eq_dec y n) as [->|Ny]; [rewrite En; destruct o; auto|].
    destruct (Nat.eq_dec y c) as [->|Nc]; [rewrite Ec; destruct (jb (h c)); auto|rewrite Eo; auto]. }
  assert (forall y, y <> n -> same (h' y) (h y) /\ ret (h' y) = ret (h y) /\ nsl (h' y) = nsl (h y)
    /\ over (h' y) = over (h y) /\ wlo (h' y) = wlo (h y)) as Es.
  { intros y Ny. destruct (Nat.eq_dec y c) as [->|Nc]; [rewrite Ec; destruct (jb (h c)); repeat split; auto|].
    rewrite Eo; repeat split; auto. }
  assert (forall k, pos (h' n) k = pos (h n) k) as Ep.
  { intros k. rewrite En. change (pos (set_ptr (h n) o hi) k = pos (h n) k). apply set_ptr_pos. }
  assert (jb (h' n) = Locked) as Jn by now rewrite En.
  assert (swaptype leb h h' n o (fun _ => true)) as Sw by (split; auto; now rewrite Jn).
  apply (redirect_on leb HO h h' f r lg HI n o c (Some m) lo hi (fun _ => true)); auto.
  - intros y Hy Ny. destruct (Es y Ny) as (A & B & C & _). auto.
  - intros y. destruct (El y) as (_ & A & B). auto.
  - rewrite En. destruct o; auto.
  - intros k. unfold TcInv.nxt. rewrite En, andb_true_r.
    change (nx leb (set_ptr (h n) o hi) k = if lpos_eqb (pos (h n) k) o
      then Some (sel (Some m) lo hi k) else nx leb (h n) k).
    rewrite (set_ptr_nx leb (h n) o hi c k Hp). destruct (lpos_eqb (pos (h n) k) o) eqn:E; auto.
    apply lpos_eqb_eq in E. rewrite (sel_hi leb (Some m) lo hi k); auto.
  - intros k Hk _ _. auto.
  - rewrite En. intros s Hs. left. change (In s (keys (cells (set_ptr (h n) o hi)))) in Hs. now rewrite set_ptr_keys in Hs.
  - destruct (h_wu _ _ _ _ _ HI n Lv) as (k & A & B & C). exists k. split; auto. now rewrite Ep.
  - intros y Hy. left. destruct (Nat.eq_dec y n) as [->|Ny]; [rewrite En; destruct o; auto|]. now apply Es.
  - intros y C. assert (y <> n) as Ny. { intros ->. destruct (chain_full leb h f r lg HI n n Hn C) as (_ & _ & ?). lia. }
    destruct (Es y Ny) as (_ & _ & _ & -> & _). apply (chain_over leb h f r lg HI n y); auto.
  - intros y Hy Ny. destruct (Nat.eq_dec y c) as [->|Nc]; [|left; now rewrite Eo].
    destruct (jb (h c)) eqn:Jc; try (left; rewrite Ec; auto; fail). right. split; auto. split; auto.
    rewrite Ec. cbn. eauto 12.
  - apply (wfo_setptr h' n o c hi Locked); auto; try apply L.
    + rewrite (l_lvhi _ _ _ _ _ _ _ _ _ L). auto.
    + apply (jv_nd leb h f r lg HI n _ Hn Jv).
    + intros y. apply El.
  - rewrite Jn. discriminate.
  - unfold Fz. now rewrite Jn.
Qed.

(** Coalescing. *)
Lemma step_rem (h' : heap) n j c : n < f -> jb (h n) = Locked -> slot_child (cells (h n)) j = Some c ->
  retired (h c) = true -> h' n = drop_low (h n) j -> (forall y, y <> n -> h' y = h y) -> HInv h' f r lg
  /\ (forall k y, on k y -> On h' r k y \/ (closed (h' y) /\ same (h' y) (h y))) /\ MvT leb h r h'.
Proof.
  intros Hn J Hs Hr En Eo. assert (ptr (h n) (PSlot j) = Some c) as Hp by auto.
  assert (In c (kids (h n))) as Hk by (eapply in_kids; eauto).
  destruct (kid_lvl leb h f r lg HI n c Hn Hk) as [Lc Hc]. assert (lvl (h n) <> 0) as Ln by lia.
  pose proof (lk_noover leb h f r lg HI n Hn J Ln) as On0.
  pose proof (lk_live leb h f r lg HI n c _ Hn J Ln Hp) as Lv.
  pose proof (lk_nd leb h f r lg HI n Hn J) as Nd.
  pose proof (h_wf _ _ _ _ _ HI n Hn) as W.
  apply (retire_on leb HO h h' f r lg HI n c); auto.
  - rewrite En. cbn. auto.
  - left. rewrite En. auto.
  - intros k Nk. unfold TcInv.nxt. rewrite En. apply drop_nx_same. intros E. apply Nk. unfold TcInv.nxt, nx. now rewrite E.
  - intros k Ek. destruct (drop_nx_moved leb (h n) j k) as (o' & No & Eo' & _).
    unfold TcInv.nxt at 1 2. rewrite En, Eo'. destruct (ptr (h n) o') as [d|] eqn:Ed; auto. right.
    destruct (every_kid leb HO h f r lg HI n d Lv On0) as (k' & A & B); [eapply in_kids; eauto|].
    exists d, k'. split; auto. intros ->. apply No. eapply ptr_inj; eauto.
  - rewrite En. cbn. intros s Hi. apply in_map_iff in Hi as (e & <- & He). apply del_in in He as [He _]. now apply in_map.
  - assert (forall y, lvl (h' y) = lvl (h y)) as El.
    { intros y. destruct (Nat.eq_dec y n) as [->|Ny]; [rewrite En; auto|rewrite Eo; auto]. }
    constructor; rewrite ?En; cbn; try (apply W; fail); try tauto; try congruence.
    + intros q Hq. apply drop_kids in Hq. rewrite El. now apply W.
    + apply del_wfc, W.
    + intros U. rewrite (w_ub _ _ _ _ W); auto.
    + rewrite J. now apply drop_nodup.
    + now rewrite J.
Qed.

Lemma step_ub (h' : heap) n pre s j c d : n < f -> jb (h n) = Locked -> ub (h n) = UTo c ->
  cells (h n) = pre ++ [(s, (j, d))] -> retired (h c) = true ->
  h' n = set_jb (CUb j) (set_ub (h n) (UTo d)) -> (forall y, y <> n -> h' y = h y) -> HInv h' f r lg
  /\ (forall k y, on k y -> On h' r k y \/ (closed (h' y) /\ same (h' y) (h y))) /\ MvT leb h r h'.
Proof.
  intros Hn J Hu Hcs Hr En Eo. assert (ptr (h n) PUb = Some c) as Hp by (cbn; now rewrite Hu).
  assert (In c (kids (h n))) as Hk by (eapply in_kids; eauto).
  destruct (kid_lvl leb h f r lg HI n c Hn Hk) as [Lc Hc]. assert (lvl (h n) <> 0) as Ln by lia.
  pose proof (lk_noover leb h f r lg HI n Hn J Ln) as On0.
  pose proof (lk_live leb h f r lg HI n c _ Hn J Ln Hp) as Lv.
  pose proof (lk_nd leb h f r lg HI n Hn J) as Nd.
  pose proof (h_wf _ _ _ _ _ HI n Hn) as W.
  assert (In (s, (j, d)) (cells (h n))) as Hi by (rewrite Hcs, in_app_iff; right; now left).
  assert (In d (kids (h n))) as Hd.
  { unfold kids. rewrite in_app_iff. left. change d with (cchild (s, (j, d))). now apply in_map. }
  assert (d <> c) as Ndc.
  { intros ->. unfold kids in Nd. rewrite Hu in Nd. apply NoDup_remove_2 in Nd. apply Nd. rewrite app_nil_r.
    change c with (cchild (s, (j, c))). now apply in_map. }
  apply (retire_on leb HO h h' f r lg HI n c); auto.
  - rewrite En. cbn. auto.
  - right. exists j. rewrite En. auto.
  - intros k Nk. unfold TcInv.nxt, nx in *. rewrite En. change (pos (set_jb (CUb j) (set_ub (h n) (UTo d))) k) with (pos (h n) k).
    destruct (pos (h n) k) as [i|]; auto. tauto.
  - intros k Ek. assert (pos (h n) k = PUb) as Ep by (eapply ptr_inj; eauto).
    right. destruct (every_kid leb HO h f r lg HI n d Lv On0 Hd) as (k' & A & B).
    exists d, k'. split; auto. split; auto. unfold TcInv.nxt, nx. rewrite En.
    change (pos (set_jb (CUb j) (set_ub (h n) (UTo d))) k) with (pos (h n) k). now rewrite Ep.
  - rewrite En. auto.
  - assert (forall y, lvl (h' y) = lvl (h y)) as El.
    { intros y. destruct (Nat.eq_dec y n) as [->|Ny]; [rewrite En; auto|rewrite Eo; auto]. }
    constructor; rewrite ?En; cbn; try (apply W; fail); try tauto; try congruence.
    + intros q Hq. assert (In q (kids (h n))) as Hq'.
      { unfold kids in *. cbn in Hq. rewrite in_app_iff in *. destruct Hq as [Hq|[<-|[]]]; auto. }
      rewrite El. now apply W.
    + split; [|eauto]. unfold kids in Nd. now apply nodup_app_l in Nd.
Qed.

Lemma step_ret (h' : heap) n c : n < f -> jb (h n) = Locked -> ub (h n) = UTo c -> cells (h n) = [] ->
  retired (h c) = true -> h' n = set_ub (h n) URet -> (forall y, y <> n -> h' y = h y) -> HInv h' f r lg
  /\ (forall k y, on k y -> On h' r k y \/ (closed (h' y) /\ same (h' y) (h y))) /\ MvT leb h r h'.
Proof.
  intros Hn J Hu Hcs Hr En Eo. assert (ptr (h n) PUb = Some c) as Hp by (cbn; now rewrite Hu).
  assert (In c (kids (h n))) as Hk by (eapply in_kids; eauto).
  destruct (kid_lvl leb h f r lg HI n c Hn Hk) as [Lc Hc]. assert (lvl (h n) <> 0) as Ln by lia.
  pose proof (lk_noover leb h f r lg HI n Hn J Ln) as On0.
  pose proof (h_wf _ _ _ _ _ HI n Hn) as W.
  assert (forall k, nxt h n k = Some c) as Nx.
  { intros k. unfold TcInv.nxt, nx. rewrite pos_rts, Hcs. cbn. now rewrite Hu. }
  apply (retire_on leb HO h h' f r lg HI n c); auto.
  - rewrite En. cbn. auto.
  - left. rewrite En. auto.
  - intros k Nk. now rewrite Nx in Nk.
  - intros k _. left. unfold TcInv.nxt, nx. rewrite pos_rts. rewrite En. cbn. now rewrite Hcs.
  - rewrite En. auto.
  - constructor; rewrite ?En; cbn; try (apply W; fail); try tauto; try congruence.
    + unfold kids. cbn. rewrite Hcs. cbn. tauto.
    + rewrite J. unfold kids. cbn. rewrite Hcs. constructor.
    + now rewrite J.
Qed.

Lemma del_last (pre : list (cell K)) s j (d : nat) :
  NoDup (slots (pre ++ [(s, (j, d))])) -> del_slot j (pre ++ [(s, (j, d))]) = pre.
Proof.
  intros Nd. unfold slots in Nd. rewrite map_app in Nd. cbn in Nd. apply NoDup_remove in Nd as [_ Nd]. rewrite app_nil_r in Nd.
  unfold del_slot. rewrite filter_app. cbn. rewrite Nat.eqb_refl. cbn. rewrite app_nil_r.
  induction pre as [|e pre IH]; cbn in *; auto. destruct (Nat.eqb_spec (cslot e) j); [tauto|]. cbn. rewrite IH; auto.
Qed.
Lemma step_ubrem (h' : heap) n j : n < f -> jb (h n) = CUb j -> 
  h' n = set_jb Locked (drop_low (h n) j) -> (forall y, y <> n -> h' y = h y) -> HInv h' f r lg /\ forall k y, nxt h' y k = nxt h y k.
Proof.
  intros Hn J En Eo. pose proof (h_wf _ _ _ _ _ HI n Hn) as W.
  assert (lvl (h n) <> 0) as Ln. { intros E. destruct (w_leaf _ _ _ _ W E) as (_ & _ & E'). congruence. }
  pose proof (w_nd _ _ _ _ W) as Wn. rewrite J in Wn. destruct Wn as (Nd & pre & s & d & Hcs & Hu).
  pose proof (idle_noover leb h f r lg HI n Hn Ln) as On0. rewrite J in On0. specialize (On0 Logic.I).
  assert (In d (kids (h n))) as Hd by (unfold kids; rewrite Hu, in_app_iff; right; now left).
  assert (live n) as Lv. { apply (act_live leb h f r lg HI n Hn); eauto. now rewrite J. }
  destruct (w_wfc _ _ _ _ W) as (W1 & W2 & W3).
  assert (cells (h' n) = pre) as Ecs. { rewrite En. cbn. rewrite Hcs in *. now apply del_last. }
  assert (forall k, pos (h' n) k = if lpos_eqb (pos (h n) k) (PSlot j) then PUb else pos (h n) k) as Ep.
  { intros k. rewrite En. rewrite !pos_rts. cbn. rewrite Hcs in *. now apply last_route. }
  assert (forall k, nxt h' n k = nxt h n k) as Nx.
  { intros k. unfold TcInv.nxt, nx. rewrite Ep. destruct (lpos_eqb (pos (h n) k) (PSlot j)) eqn:E.
    - apply lpos_eqb_eq in E. rewrite E. rewrite En. cbn. rewrite Hu. symmetry.
      assert (In (s, (j, d)) (cells (h n))) as Hi by (rewrite Hcs, in_app_iff; right; now left).
      apply (sc_of _ (s, (j, d)) W2 Hi).
    - apply lpos_eqb_neq in E. rewrite En. destruct (pos (h n) k) as [i|]; cbn; auto. apply del_sc. congruence. }
  assert (forall y, lvl (h' y) = lvl (h y)) as El.
  { intros y. destruct (Nat.eq_dec y n) as [->|Ny]; [rewrite En; auto|rewrite Eo; auto]. }
  assert (jb (h' n) = Locked) as Jn by now rewrite En.
  split. 2: { intros k y. destruct (Nat.eq_dec y n) as [->|Ny]; auto. unfold TcInv.nxt. now rewrite Eo. }
  apply (keep leb HO h h' f f r lg HI n); auto; try (intros; lia).
  - intros y Hy. destruct (Nat.eq_dec y n) as [->|Ny]; [|rewrite Eo; auto; repeat split; auto; intros; unfold TcInv.nxt; now rewrite Eo].
    split; auto. rewrite En at 1 2 3 4. cbn. repeat split; auto.
    rewrite Ecs, Hcs. unfold keys. rewrite map_app. intros q Hq. apply in_or_app. auto.
  - intros y Hy Ny. rewrite Eo; auto. apply same_refl.
  - intros y Hy. destruct (Nat.eq_dec y n) as [->|Ny].
    + constructor; rewrite ?Jn; rewrite ?En; cbn; try (apply W; fail); try tauto; try congruence.
      * intros q Hq. apply drop_kids in Hq. rewrite El. now apply W.
      * apply del_wfc, W.
      * rewrite En in Ecs. cbn in Ecs. rewrite Ecs, Hu.
        rewrite Hcs in Nd. unfold childs in *. rewrite map_app in Nd. exact Nd.
    + apply (wfo_keep leb h h' f f y); auto; rewrite ?Eo; auto using same_refl.
      * now apply (h_wf _ _ _ _ _ HI).
      * intros c Hc. split; auto. destruct (Nat.eq_dec c n) as [->|Nc]; [now rewrite En|now rewrite Eo].
      * intros c lo hi lns i J1 L1 Hc Hh. destruct (Nat.eq_dec c n) as [->|Nc]; [|now rewrite Eo].
        exfalso. apply (held_nofull h y n Hh Ln). unfold nofull. now rewrite J.
  - intros y Hy Ny. left. rewrite Eo; auto.
  - intros y o q om lo hi Hy Ny J1 _. assert (q <> n).
    { intros ->. apply (child_full leb h f r lg HI _ _ _ _ _ _ Hy J1 Ln). unfold nofull. now rewrite J. }
    rewrite Eo; auto.
  - intros y z _ _ _ _ _ _. destruct (Nat.eq_dec z n) as [->|Nz]; [now rewrite En|now rewrite Eo].
  - intros y z _ _ _. destruct (Nat.eq_dec z n) as [->|Nz]; [now rewrite En|now rewrite Eo].
  - intros y Hy Ny. left. now rewrite Eo.
  - intros _ _. now rewrite Jn.
  - intros ? ? ? ? ? _ E. rewrite Jn in E. discriminate.
  - intros ? ? ? ? ? _ E. rewrite Jn in E. discriminate.
  - intros ? ? ? ? ? _ E. rewrite Jn in E. discriminate.
  - intros _. destruct (h_wu _ _ _ _ _ HI n Lv) as (k & A & B & C). exists k. split; auto. rewrite Ep, B. split; auto.
    intros ? ? ? ? ? E. rewrite Jn in E. discriminate.
  - intros k z Hk Hz O. destruct (h_over _ _ _ _ _ HI _ _ _ Hk Hz O) as (? & ? & ? & ? & J1 & _).
    rewrite J in J1. discriminate.
Qed.
End move.
