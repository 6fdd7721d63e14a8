(** What one step of the tree does to leaves and to splits, as far as iterators see it. *)
From Coq Require Import List Arith Bool Lia.
From Verif Require Import TcModel TcRoute TcSpec TcInv TcTree TcFrame TcJobs TcFz TcFzs TcExt TcSys TcOps TcRun TiMove TiExt.
Import ListNotations.

Section run.
Context {K V : Type} (leb : K -> K -> bool) (HO : tord leb).
Notation heap := (nat -> obj K V).
Notation hist := (list (ev K V)).
Notation st := (st K V).
Notation op := (op K V).
Notation Inv := (Inv leb).
Implicit Types (h : heap) (lg : hist) (s : st) (p : op) (t x : nat) (r : option nat).

(** The node is at work on a split that can still be rolled back. *)
Definition Open_job h n o L om lo hi : Prop :=
  lvl (h n) = 1 /\ jv (jb (h n)) = Some (o, L, om, lo, hi) /\ isIns (jb (h n)) = false /\ over (h n) = false.
Definition JS s s' : Prop := forall n o L om lo hi, Open_job (hp s') n o L om lo hi ->
  Open_job (hp s) n o L om lo hi \/ (fresh s <= lo /\ fresh s <= hi).
Record TS s s' : Prop := {
  ts_log : exists l, log s' = l ++ log s;
  ts_x : X leb s s';
  ts_e : forall y e, y < fresh s -> lvl (hp s y) = 0 -> abs leb (log s) (fst e) = Some (snd e) -> abs leb (log s') (fst e) = Some (snd e) ->
    (In e (ents (hp s' y)) <-> In e (ents (hp s y)));
  ts_n : forall y e, y < fresh s -> lvl (hp s y) = 0 -> In e (ents (hp s' y)) -> In e (ents (hp s y)) \/ abs leb (log s') (fst e) = Some (snd e);
  ts_z : forall y, y < fresh s -> lvl (hp s y) = 0 -> fz (hp s y) <> Open \/ ret (hp s y) = true -> ents (hp s' y) = ents (hp s y);
  ts_j : JS s s' }.

Ltac eqs H := repeat match type of H with context [?a =? ?b] => destruct (Nat.eqb_spec a b); subst; cbn in H end.
Lemma js_same s s' : (forall n, jb (hp s' n) = jb (hp s n) /\ lvl (hp s' n) = lvl (hp s n) /\ over (hp s' n) = over (hp s n)) -> JS s s'.
Proof. intros E n o L om lo hi (A & B & C & D). destruct (E n) as (E1 & E2 & E3). left. unfold Open_job. rewrite <- E1, <- E2, <- E3. auto. Qed.
Ltac js0 := intros nn oo LL om llo hhi (jA & jB & jC & jD); cbn in jA, jB, jC, jD; unfold upd in jA, jB, jC, jD;
  repeat match type of jB with context [?a =? ?b] => destruct (Nat.eqb_spec a b); subst; cbn in jA, jB, jC, jD end;
  repeat match type of jA with context [?a =? ?b] => destruct (Nat.eqb_spec a b); subst; cbn in jA, jB, jC, jD end;
  try discriminate; try (left; repeat split; assumption).
Lemma js_take s n o b s' : take s n o b = Some s' -> JS s s'.
Proof.
  intros H. unfold take in H.
  destruct (jb (hp s n)) eqn:J; try discriminate. destruct (ptr (hp s n) o) as [c|] eqn:Hp; [|discriminate].
  destruct (lvl (hp s c)) as [|lc] eqn:Lc; [discriminate|].
  destruct (jb (hp s c)) as [| | | | | | |o1 c1 m1 lo1 hi1 [tk|] lns1| |] eqn:Jc; try discriminate.
  destruct (build (hp s c) o1 m1 lo1 hi1 b n) as [[[mid xl] xh]|] eqn:Hb; [|discriminate].
  assert (jv (jb xl) = None /\ jv (jb xh) = None) as [B1 B2].
  { revert Hb. unfold build. destruct (lvl (hp s c) =? 1); repeat match goal with |- context [match ?e with _ => _ end] => destruct e; try discriminate end;
    intros [= <- <- <-]; split; reflexivity. }
  injection H as <-. js0; try congruence.
  all: try (injection jB as <- <- <- <- <-; right; lia).
  all: try (injection jB as <- <- <- <- <-; left; unfold Open_job; rewrite Jc; repeat split; auto).
Qed.
Ltac jfin := try match goal with B : Some _ = Some _ |- _ => injection B as <- <- <- <- <-; left; unfold Open_job; repeat match goal with J : jb _ = _ |- _ => rewrite J end; repeat split; auto; fail end.
Lemma js_ins s n s' : ins_low leb s n = Some s' -> JS s s'.
Proof.
  intros H. unfold ins_low in H. destruct (jb (hp s n)) as [| | | | |o c mm low high| | | |] eqn:J; try discriminate.
  destruct (has_key _ _ _); injection H as <-; [now apply js_same|]. js0.
  assert (over (hp s nn) = false). { destruct (inch _ _ _ _); auto. discriminate. }
  left. destruct (inch _ _ _ _); try discriminate. repeat split; auto.
Qed.
Lemma js_swap s n s' : swap_high s n = Some s' -> JS s s'.
Proof.
  intros H. unfold swap_high in H.
  destruct (jb (hp s n)) as [| | | |o c low| |o c m low high [|]| | |] eqn:J; try discriminate; injection H as <-.
  - js0.
  - unfold commit_child. destruct (jb (hp s c)) eqn:Jc; js0.
Qed.
Lemma js_trans s s1 s' : fresh s <= fresh s1 -> JS s s1 -> JS s1 s' -> JS s s'.
Proof.
  intros F A B n o L om lo hi J. destruct (B _ _ _ _ _ _ J) as [J1|[J1 J2]]; [|right; lia]. apply (A _ _ _ _ _ _ J1).
Qed.
Lemma js_sys a s s' : Inv s -> step_sys leb a s = Some s' -> JS s s'.
Proof.
  intros I H. destruct a; try discriminate; cbn [step_sys] in H.
  - destruct (lvl (hp s n)) as [|ln] eqn:L; [discriminate|]. destruct (jb (hp s n)) eqn:J; try discriminate.
    destruct (_ || _) eqn:D; [|discriminate]. injection H as <-. js0.
  - destruct (jb (hp s n)) eqn:J; try discriminate. injection H as <-. js0.
  - assert (forall l, match (if negb (is_open (hp s l)) then Some (crash s) else
        match m with
        | None => Some (modi (alloc (modi s l (set_fz (Orig n))) (leaf0 (ents (hp s l)) Open n)) n (set_jb (Swap0 o l (fresh s))))
        | Some m =>
            match get leb (ents (hp s l)) m, above leb m (ents (hp s l)) with
            | Some _, _ :: _ => Some (modi (alloc (alloc (modi s l (set_fz (Orig n))) (leaf0 (upto leb m (ents (hp s l))) (Hold n) n))
                (leaf0 (above leb m (ents (hp s l))) Open n)) n (set_jb (Split o l m (fresh s) (S (fresh s)))))
            | _, _ => None
            end
        end) with Some s' => JS s s' | None => True end) as Q.
    { intros l. destruct (negb _); [now apply js_same|]. destruct m as [m|].
      - destruct (get leb (ents (hp s l)) m) as [v|]; auto. destruct (above leb m (ents (hp s l))) as [|e0 r0] eqn:Ab; auto.
        js0; injection jB as <- <- <- <- <-; right; lia.
      - js0; injection jB as <- <- <- <- <-; right; lia. }
    destruct (jb (hp s n)) eqn:J; destruct (ub (hp s n)) eqn:U; try discriminate;
      destruct (lvl (hp s n)) as [|[|ln]] eqn:L1; try discriminate;
      destruct (ptr (hp s n) o) as [l|] eqn:Hp; try discriminate;
      specialize (Q l); revert H Q;
      match goal with |- ?a = _ -> match ?b with _ => _ end -> _ => change b with a; destruct a; [|discriminate] end;
      intros [= <-] Q; exact Q.
  - eapply js_ins; eauto.
  - destruct (jb (hp s n)) as [| | | | |o c m low high| | | |] eqn:J; try discriminate. injection H as <-.
    destruct (lvl (hp s n) =? 1) eqn:L; js0; jfin.
  - destruct (jb (hp s n)) as [| | | | | |o c m low high [|]| | |] eqn:J; try discriminate. injection H as <-. js0.
  - eapply js_swap; eauto.
  - eapply js_take; eauto.
  - destruct (jb (hp s n)) as [| | | | | | | |c low high lns i|] eqn:J; try discriminate.
    destruct (Nat.eqb_spec (lvl (hp s n)) 1) as [L1|L1].
    + destruct i as [|[|[|[|i]]]]; try destruct lns as [[a b]|]; injection H as <-; js0; jfin.
    + injection H as <-. unfold commit_child. destruct (jb (hp (modi s n (set_jb Poison)) c)) eqn:Jc; js0.
  - destruct (jb (hp s n)) as [| | | | | | |o c m low high [tk|] lns| |] eqn:J; try discriminate. revert H.
    cbn [hp modi put with_hp]. destruct (lvl _ =? 1).
    + intros [= <-]. js0.
    + destruct (jb (upd (hp s) n (set_jb Locked (hp s n)) c)) eqn:Jc; intros [= <-]; js0.
      all: unfold upd in Jc; rewrite ?Nat.eqb_refl in Jc; try discriminate Jc;
        match type of Jc with context [?a =? ?b] => destruct (Nat.eqb_spec a b); subst; try discriminate Jc; jfin end.
  - destruct (jb (hp s n)) eqn:J; try discriminate. destruct (slot_child (cells (hp s n)) j) as [c|] eqn:Hs; [|discriminate].
    destruct (retired (hp s c)) eqn:R; [|discriminate]. injection H as <-. js0.
  - destruct (jb (hp s n)) eqn:J; try discriminate. destruct (lvl (hp s n)) as [|[|ln]] eqn:L; try discriminate.
    destruct (ub (hp s n)) as [| |c] eqn:U; try discriminate.
    destruct (rev (cells (hp s n))) as [|[sk [j d]] rr] eqn:Rv; [discriminate|].
    destruct (retired (hp s c)) eqn:R; [|discriminate]. injection H as <-. js0.
  - destruct (jb (hp s n)) eqn:J; try discriminate. injection H as <-. js0.
  - destruct (jb (hp s n)) eqn:J; try discriminate. destruct (cells (hp s n)) eqn:Hcs; [|discriminate].
    destruct (ub (hp s n)) as [| |c] eqn:U; try discriminate.
    destruct (retired (hp s c)) eqn:R; [|discriminate]. injection H as <-. js0.
  - destruct (root s) as [n|] eqn:Rt; [|discriminate].
    destruct (jb (hp s n)) as [| | | | | | |o c m low high [tk|] lns| |] eqn:J; try discriminate. revert H.
    set (s1 := with_root _ _). assert (JS s s1) as J1 by js0.
    destruct (take s1 (fresh s) PUb b) as [s2|] eqn:E2; [|discriminate]. cbn [bind].
    destruct (ins_low leb s2 (fresh s)) as [s3|] eqn:E3; [|discriminate]. cbn [bind].
    assert (fresh s <= fresh s1) as F1 by (cbn; lia).
    assert (fresh s1 <= fresh s2) as F2.
    { unfold take in E2. repeat match type of E2 with context [match ?e with _ => _ end] => destruct e; try discriminate end; injection E2 as <-; cbn; lia. }
    assert (fresh s2 <= fresh s3) as F3.
    { unfold ins_low in E3. repeat match type of E3 with context [match ?e with _ => _ end] => destruct e; try discriminate end; injection E3 as <-; cbn; lia. }
    assert (JS s s3) as J3.
    { eapply js_trans; [| |eapply js_ins; eauto]; [lia|]. eapply js_trans; [| |eapply js_take; eauto]; auto. }
    destruct (err s3); [intros [= <-]; auto|]. intros H. eapply js_trans; [| |eapply js_swap; eauto]; auto. lia.
  - destruct (root s) as [n|] eqn:Rt; [|discriminate]. destruct (jb (hp s n)) eqn:J; try discriminate.
    destruct (lvl (hp s n)) as [|[|ln]] eqn:L; try discriminate. destruct (cells (hp s n)) eqn:Hcs; [|discriminate].
    destruct (ub (hp s n)) as [| |c] eqn:U; try discriminate. injection H as <-. js0.
  - destruct (root s) as [n|] eqn:Rt; [|discriminate]. destruct (jb (hp s n)) eqn:J; try discriminate.
    destruct (ub (hp s n)) as [| |c] eqn:U; try discriminate. injection H as <-. js0; rewrite jA in jB; discriminate.
Qed.
Definition ES s s' : Prop := log s' = log s /\ forall y, y < fresh s -> ents (hp s' y) = ents (hp s y).
Lemma es_same s s' : log s' = log s -> hp s' = hp s -> ES s s'.
Proof. intros A B. split; auto. now rewrite B. Qed.
Ltac es0 := split; [reflexivity|]; intros yy hyy; cbn; unfold upd;
  repeat match goal with |- context [?a =? ?b] => destruct (Nat.eqb_spec a b); subst; cbn end; auto; try lia.
Lemma es_take s n o b s' : take s n o b = Some s' -> ES s s'.
Proof.
  intros H. split.
  - unfold take in H. repeat match type of H with context [match ?e with _ => _ end] => destruct e; try discriminate end; injection H as <-; reflexivity.
  - intros y Hy. eapply sm_take; eauto.
Qed.
Lemma es_ins s n s' : ins_low leb s n = Some s' -> ES s s'.
Proof.
  intros H. unfold ins_low in H. destruct (jb (hp s n)) as [| | | | |o c mm low high| | | |] eqn:J; try discriminate.
  destruct (has_key _ _ _); injection H as <-; [now apply es_same|]. es0; destruct (inch _ _ _ _); auto.
Qed.
Lemma es_swap s n s' : swap_high s n = Some s' -> ES s s'.
Proof.
  intros H. unfold swap_high in H.
  destruct (jb (hp s n)) as [| | | |o c low| |o c m low high [|]| | |] eqn:J; try discriminate; injection H as <-.
  - es0; destruct o; auto.
  - unfold commit_child. destruct (jb (hp s c)) eqn:Jc; es0; destruct o; auto.
Qed.
Lemma es_trans s s1 s' : fresh s <= fresh s1 -> ES s s1 -> ES s1 s' -> ES s s'.
Proof. intros F [A1 A2] [B1 B2]. split; [congruence|]. intros y Hy. rewrite B2, A2; auto. lia. Qed.
Lemma es_sys a s s' : Inv s -> step_sys leb a s = Some s' -> ES s s'.
Proof.
  intros I H. destruct a; try discriminate; cbn [step_sys] in H.
  - destruct (lvl (hp s n)) as [|ln] eqn:L; [discriminate|]. destruct (jb (hp s n)) eqn:J; try discriminate.
    destruct (_ || _) eqn:D; [|discriminate]. injection H as <-. es0.
  - destruct (jb (hp s n)) eqn:J; try discriminate. injection H as <-. es0.
  - assert (forall l, match (if negb (is_open (hp s l)) then Some (crash s) else
        match m with
        | None => Some (modi (alloc (modi s l (set_fz (Orig n))) (leaf0 (ents (hp s l)) Open n)) n (set_jb (Swap0 o l (fresh s))))
        | Some m =>
            match get leb (ents (hp s l)) m, above leb m (ents (hp s l)) with
            | Some _, _ :: _ => Some (modi (alloc (alloc (modi s l (set_fz (Orig n))) (leaf0 (upto leb m (ents (hp s l))) (Hold n) n))
                (leaf0 (above leb m (ents (hp s l))) Open n)) n (set_jb (Split o l m (fresh s) (S (fresh s)))))
            | _, _ => None
            end
        end) with Some s' => ES s s' | None => True end) as Q.
    { intros l. destruct (negb _); [now apply es_same|]. destruct m as [m|].
      - destruct (get leb (ents (hp s l)) m) as [v|]; auto. destruct (above leb m (ents (hp s l))) as [|e0 r0] eqn:Ab; auto.
        es0.
      - es0. }
    destruct (jb (hp s n)) eqn:J; destruct (ub (hp s n)) eqn:U; try discriminate;
      destruct (lvl (hp s n)) as [|[|ln]] eqn:L1; try discriminate;
      destruct (ptr (hp s n) o) as [l|] eqn:Hp; try discriminate;
      specialize (Q l); revert H Q;
      match goal with |- ?a = _ -> match ?b with _ => _ end -> _ => change b with a; destruct a; [|discriminate] end;
      intros [= <-] Q; exact Q.
  - eapply es_ins; eauto.
  - destruct (jb (hp s n)) as [| | | | |o c m low high| | | |] eqn:J; try discriminate. injection H as <-.
    destruct (lvl (hp s n) =? 1) eqn:L; es0.
  - destruct (jb (hp s n)) as [| | | | | |o c m low high [|]| | |] eqn:J; try discriminate. injection H as <-. es0.
  - eapply es_swap; eauto.
  - eapply es_take; eauto.
  - destruct (jb (hp s n)) as [| | | | | | | |c low high lns i|] eqn:J; try discriminate.
    destruct (Nat.eqb_spec (lvl (hp s n)) 1) as [L1|L1].
    + destruct i as [|[|[|[|i]]]]; try destruct lns as [[a b]|]; injection H as <-; es0.
    + injection H as <-. unfold commit_child. destruct (jb (hp (modi s n (set_jb Poison)) c)) eqn:Jc; es0.
  - destruct (jb (hp s n)) as [| | | | | | |o c m low high [tk|] lns| |] eqn:J; try discriminate. revert H.
    cbn [hp modi put with_hp]. destruct (lvl _ =? 1).
    + intros [= <-]. es0.
    + destruct (jb (upd (hp s) n (set_jb Locked (hp s n)) c)) eqn:Jc; intros [= <-]; es0.
  - destruct (jb (hp s n)) eqn:J; try discriminate. destruct (slot_child (cells (hp s n)) j) as [c|] eqn:Hs; [|discriminate].
    destruct (retired (hp s c)) eqn:R; [|discriminate]. injection H as <-. es0.
  - destruct (jb (hp s n)) eqn:J; try discriminate. destruct (lvl (hp s n)) as [|[|ln]] eqn:L; try discriminate.
    destruct (ub (hp s n)) as [| |c] eqn:U; try discriminate.
    destruct (rev (cells (hp s n))) as [|[sk [j d]] rr] eqn:Rv; [discriminate|].
    destruct (retired (hp s c)) eqn:R; [|discriminate]. injection H as <-. es0.
  - destruct (jb (hp s n)) eqn:J; try discriminate. injection H as <-. es0.
  - destruct (jb (hp s n)) eqn:J; try discriminate. destruct (cells (hp s n)) eqn:Hcs; [|discriminate].
    destruct (ub (hp s n)) as [| |c] eqn:U; try discriminate.
    destruct (retired (hp s c)) eqn:R; [|discriminate]. injection H as <-. es0.
  - destruct (root s) as [n|] eqn:Rt; [|discriminate].
    destruct (jb (hp s n)) as [| | | | | | |o c m low high [tk|] lns| |] eqn:J; try discriminate. revert H.
    set (s1 := with_root _ _). assert (ES s s1) as J1 by es0.
    destruct (take s1 (fresh s) PUb b) as [s2|] eqn:E2; [|discriminate]. cbn [bind].
    destruct (ins_low leb s2 (fresh s)) as [s3|] eqn:E3; [|discriminate]. cbn [bind].
    assert (fresh s <= fresh s1) as F1 by (cbn; lia).
    assert (fresh s1 <= fresh s2) as F2.
    { unfold take in E2. repeat match type of E2 with context [match ?e with _ => _ end] => destruct e; try discriminate end; injection E2 as <-; cbn; lia. }
    assert (fresh s2 <= fresh s3) as F3.
    { unfold ins_low in E3. repeat match type of E3 with context [match ?e with _ => _ end] => destruct e; try discriminate end; injection E3 as <-; cbn; lia. }
    assert (ES s s3) as J3.
    { eapply es_trans; [| |eapply es_ins; eauto]; [lia|]. eapply es_trans; [| |eapply es_take; eauto]; auto. }
    destruct (err s3); [intros [= <-]; auto|]. intros H. eapply es_trans; [| |eapply es_swap; eauto]; auto. lia.
  - destruct (root s) as [n|] eqn:Rt; [|discriminate]. destruct (jb (hp s n)) eqn:J; try discriminate.
    destruct (lvl (hp s n)) as [|[|ln]] eqn:L; try discriminate. destruct (cells (hp s n)) eqn:Hcs; [|discriminate].
    destruct (ub (hp s n)) as [| |c] eqn:U; try discriminate. injection H as <-. es0.
  - destruct (root s) as [n|] eqn:Rt; [|discriminate]. destruct (jb (hp s n)) eqn:J; try discriminate.
    destruct (ub (hp s n)) as [| |c] eqn:U; try discriminate. injection H as <-. es0.
Qed.

Lemma ts_es s s' : X leb s s' -> JS s s' -> ES s s' -> TS s s'.
Proof.
  intros A B [C D]. constructor; auto.
  - exists []. now rewrite C.
  - intros y e Hy _ _ _. now rewrite (D y Hy).
  - intros y e Hy _. rewrite (D y Hy). auto.
Qed.
Lemma ts_same s s' : hp s' = hp s -> fresh s' = fresh s -> root s' = root s -> log s' = log s -> TS s s'.
Proof.
  intros A B C D. apply ts_es; [now apply x_refl|apply js_same; intros; now rewrite A|now apply es_same].
Qed.
Lemma ts_write s l k0 es b e s' : Inv s -> On leb (hp s) (root s) k0 l -> lvl (hp s l) = 0 -> fz (hp s l) = Open -> ret (hp s l) = false ->
  (b = true -> es = []) ->
  (forall k, In k (map fst es) -> k = k0 \/ In k (map fst (ents (hp s l)))) ->
  (forall k, k <> k0 -> get leb es k = get leb (ents (hp s l)) k /\ abs leb (e :: log s) k = abs leb (log s) k) ->
  get leb es k0 = abs leb (e :: log s) k0 ->
  (forall j, fst j <> k0 -> In j es <-> In j (ents (hp s l))) ->
  (forall j, In j es -> In j (ents (hp s l)) \/ abs leb (e :: log s) (fst j) = Some (snd j)) ->
  (forall v w, abs leb (log s) k0 = Some v -> abs leb (e :: log s) k0 = Some w -> False) ->
  hp s' = upd (hp s) l (set_ents (hp s l) es b) -> fresh s' = fresh s -> root s' = root s -> log s' = e :: log s -> TS s s'.
Proof.
  intros I O L0 Fo Rt B1 B2 B3 B4 B5 B6 B7 E1 E2 E3 E4.
  destruct (ok_write leb HO _ _ _ _ (i_h leb s I) (i_f leb s I) l k0 es b (e :: log s) O L0 Fo Rt B1 B2 B3 B4) as (_ & _ & Xx & _).
  assert (forall y, y <> l -> ents (hp s' y) = ents (hp s y)) as N by (intros; rewrite E1, upd_ne; auto).
  assert (ents (hp s' l) = es) as N1 by (rewrite E1, upd_eq; auto).
  constructor.
  - exists [e]. now rewrite E4.
  - unfold X. rewrite E1, E2, E3. exact Xx.
  - intros y j Hy Ly A1 A2. rewrite E4 in A2. destruct (Nat.eq_dec y l) as [->|Ny]; [|now rewrite N]. rewrite N1. apply B5.
    intros Ej. rewrite Ej in *. eapply B7; eauto.
  - intros y j Hy Ly. rewrite E4. destruct (Nat.eq_dec y l) as [->|Ny]; [|rewrite N; auto]. rewrite N1. apply B6.
  - intros y Hy Ly D. apply N. intros ->. rewrite Fo, Rt in D. destruct D; congruence.
  - apply js_same. intros n. rewrite E1. unfold upd. destruct (Nat.eqb_spec n l) as [->|]; auto.
Qed.
Lemma ts_load s t p x M s' : Inv s -> ops s t = Some p -> pc p = PMeta x M -> step_op leb (ALoad t) s t p = Some s' -> TS s s'.
Proof.
  intros I E P H. cbn [step_op] in H. rewrite P in H. pose proof (i_op leb s I t p E) as OO.
  pose proof (i_h leb s I) as HI. pose proof (i_f leb s I) as FI.
  pose proof (o_pc _ _ _ _ _ _ OO) as Q. unfold at_pcs in Q. rewrite P in Q. destruct Q as [[Lx Gx] Mx].
  pose proof (good_lt leb _ _ _ _ HI FI _ _ _ Gx) as Hx. pose proof (h_wf _ _ _ _ _ HI x Hx) as W.
  destruct (route leb (fst M) (okey (kind p))) as [j|] eqn:Ro.
  - destruct (slot_child (cells (hp s x)) j) as [c|] eqn:Sc; injection H as <-; now apply ts_same.
  - destruct (ub (hp s x)) as [| |c] eqn:U.
    + destruct (kind p) as [a|a b|a cond] eqn:Ek; try (injection H as <-; now apply ts_same).
      destruct (Nat.eqb_spec (lvl (hp s x)) 1) as [L1|L1]; injection H as <-; [|now apply ts_same].
      assert (~ closed (hp s x)) as Nc.
      { intros [C|C]; [destruct (w_over1 _ _ _ _ W C Lx) as [[u Hu] _]; congruence|].
        unfold retired in C. now rewrite L1, U in C. }
      assert (On leb (hp s) (root s) (okey_ p) x) as Ox by (destruct Gx; tauto).
      assert (Live leb (hp s) (root s) x) as Lv by (eexists; eauto).
      pose proof (ok_newleaf leb _ _ _ _ HI FI x 0 Lv L1 U) as (_ & _ & Xx).
      apply ts_es; [exact Xx| |es0].
      js0.
    + destruct (kind p) as [a|a b|a cond] eqn:Ek; injection H as <-; now apply ts_same.
    + injection H as <-. now apply ts_same.
Qed.
Lemma ts_leaf s t p l full s' : Inv s -> (forall y, NoDup (map fst (ents (hp s y)))) -> ops s t = Some p -> pc p = PLeaf l -> step_op leb (ALeaf t full) s t p = Some s' -> TS s s'.
Proof.
  intros I Nd E P H. cbn [step_op] in H. rewrite P in H. pose proof (i_op leb s I t p E) as OO.
  pose proof (i_h leb s I) as HI. pose proof (i_f leb s I) as FI.
  pose proof (o_pc _ _ _ _ _ _ OO) as Q. unfold at_pcs in Q. rewrite P in Q. destruct Q as [L0 G].
  pose proof (good_lt leb _ _ _ _ HI FI _ _ _ G) as Hl. pose proof (h_wf _ _ _ _ _ HI l Hl) as W.
  assert (fz (hp s l) = Open -> ret (hp s l) = false -> On leb (hp s) (root s) (okey_ p) l) as Ol.
  { intros Fo Rt. destruct G as [y H0|y C L S0|y C L N S0|y z C L N G0]; auto; try tauto. exfalso. destruct C as [C|C].
    - destruct (w_over0 _ _ _ _ W C L0). congruence.
    - unfold retired in C. rewrite L0 in C. congruence. }
  destruct (kind p) as [a|a v|a cond] eqn:Ek.
  - injection H as <-. now apply ts_same.
  - assert (okey_ p = a) as Ka by (unfold okey_; now rewrite Ek). cbn [okey] in H. rewrite Ka in Ol.
    destruct (ret (hp s l)) eqn:Rt; [injection H as <-; now apply ts_same|]. cbn [orb] in H. unfold is_open in H.
    destruct (fz (hp s l)) eqn:Fo; cbn [negb] in H; try (injection H as <-; now apply ts_same).
    destruct (get leb (ents (hp s l)) a) as [w|] eqn:Gt; [injection H as <-; now apply ts_same|].
    destruct full; injection H as <-; [now apply ts_same|]. specialize (Ol eq_refl eq_refl).
    apply (ts_write s l a ((a, v) :: ents (hp s l)) false (EIns t a v)); auto; try discriminate.
    + cbn. intros k [<-|Hk]; auto.
    + intros k Nk. cbn. rewrite (keqb_neq leb HO k a) by auto. auto.
    + cbn. now rewrite (keqb_refl leb HO).
    + intros j Nj. cbn. split; auto. intros [<-|]; auto. now destruct Nj.
    + intros j [<-|Hj]; auto. right. cbn. now rewrite (keqb_refl leb HO).
    + intros v1 w1 A1 _. rewrite <- (h_abs1 _ _ _ _ _ HI _ _ Ol L0) in A1. congruence.
  - assert (okey_ p = a) as Ka by (unfold okey_; now rewrite Ek). cbn [okey] in H. unfold is_open in H. rewrite Ka in Ol.
    destruct (fz (hp s l)) eqn:Fo; cbn [negb] in H; try (injection H as <-; now apply ts_same).
    destruct (get leb (ents (hp s l)) a) as [w|] eqn:Gt; [|injection H as <-; now apply ts_same].
    destruct (cond w); [|injection H as <-; now apply ts_same].
    assert (ret (hp s l) = false) as Rt. { destruct (ret (hp s l)) eqn:Rt; auto. rewrite (w_ret _ _ _ _ W) in Gt by auto. discriminate. }
    specialize (Ol eq_refl Rt).
    assert (forall j, In j (del leb (ents (hp s l)) a) <-> In j (ents (hp s l)) /\ fst j <> a) as Dj.
    { intros j. unfold del. rewrite filter_In. split; intros [A B]; split; auto.
      - intros <-. rewrite (keqb_refl leb HO) in B. discriminate.
      - rewrite (keqb_neq leb HO) by auto. reflexivity. }
    assert (forall b s', (b = true -> del leb (ents (hp s l)) a = []) -> hp s' = upd (hp s) l (set_ents (hp s l) (del leb (ents (hp s l)) a) b) -> fresh s' = fresh s -> root s' = root s -> log s' = ERem t a :: log s -> TS s s') as Go.
    { intros b s1 Hb E1 E2 E3 E4. apply (ts_write s l a (del leb (ents (hp s l)) a) b (ERem t a)); auto.
      - intros k Hk. right. apply in_map_iff in Hk as (x & <- & Hx). apply Dj in Hx as [Hx _]. now apply in_map.
      - intros k Nk. split.
        + apply (get_filter leb HO (fun k' => negb (keqb leb a k'))). rewrite (keqb_neq leb HO a k) by auto. reflexivity.
        + cbn. now rewrite (keqb_neq leb HO).
      - cbn. rewrite (keqb_refl leb HO). apply (get_filter_none leb HO (fun k' => negb (keqb leb a k'))). now rewrite (keqb_refl leb HO).
      - intros j Nj. rewrite Dj. tauto.
      - intros j Hj. apply Dj in Hj. tauto.
      - intros v1 w1 _ A2. cbn in A2. rewrite (keqb_refl leb HO) in A2. discriminate. }
    destruct (del leb (ents (hp s l)) a) eqn:D; injection H as <-; eapply Go; try reflexivity; auto; discriminate.
Qed.
Lemma ts_op s t p a s' : Inv s -> (forall y, NoDup (map fst (ents (hp s y)))) -> ops s t = Some p -> step_op leb a s t p = Some s' -> TS s s'.
Proof.
  intros I Nd E Hs. pose proof Hs as H.
  destruct a; try discriminate H; destruct (pc p) as [| |y|y M|y M c|y| |] eqn:P; cbn [step_op] in H; try rewrite P in H; try discriminate H.
  - destruct (root s); [injection H as <-; now apply ts_same|]. destruct (kind p); try discriminate; injection H as <-; now apply ts_same.
  - destruct (kind p) as [k|k v|k c] eqn:Ek; try discriminate H. destruct (root s) as [n|] eqn:R; [discriminate|]. injection H as <-.
    pose proof (ok_inst leb _ _ _ _ (i_h leb s I) (i_f leb s I) 0 R) as (_ & _ & Xx).
    apply ts_es; [unfold X; rewrite R in *; exact Xx|js0|es0].
  - injection H as <-. now apply ts_same.
  - refine (ts_load s t p y M s' I E P _). cbn [step_op]. rewrite P. exact H.
  - destruct (meta_eqb _ _ _); [destruct (_ =? 1)|]; injection H as <-; now apply ts_same.
  - refine (ts_leaf s t p y full s' I Nd E P _). cbn [step_op]. rewrite P. exact H.
  - destruct (kind p); try discriminate; injection H as <-; now apply ts_same.
  - destruct (existsb _ _); [|discriminate]. injection H as <-; now apply ts_same.
  - injection H as <-. now apply ts_same.
  - destruct (root s); [|discriminate]. destruct (_ && _); [|discriminate]. injection H as <-. now apply ts_same.
Qed.
Lemma ts_step a s s' : Inv s -> (forall y, NoDup (map fst (ents (hp s y)))) -> step leb a s = Some s' -> TS s s'.
Proof.
  intros I Nd H. unfold step in H. destruct (err s); [discriminate|].
  destruct a; cbn [actor] in H;
    try (destruct (ops s t) as [p|] eqn:Ep; [|discriminate]; eapply ts_op; eauto; fail);
    try (apply ts_es; [eapply x_sys; eauto|eapply js_sys; eauto|eapply es_sys; eauto]; fail).
  destruct (ops s t); [discriminate|]. injection H as <-. now apply ts_same.
Qed.
End run.
