(** What one step of the tree does to the jobs of the leaf nodes and to the fields of a locked one. *)
From Coq Require Import List Arith Bool Lia.
From Verif Require Import TcModel TcRoute TcSpec TcInv TcTree TcFrame TcKeep TcJobs TcMove TcFz TcFzs TcExt TcSys TcOps TcRun TiMove TiExt TiModel TiInv TiStep TiSysA TiSys.
Import ListNotations.

Section job.
Context {K V : Type} (leb : K -> K -> bool) (HO : tord leb).
Notation st := (st K V).
Notation Inv := (Inv leb).
Implicit Types (s : st) (n p x y L lo hi : nat).

Definition jt (j : job K) : option (nat * nat * nat) :=
  match j with
  | Swap0 _ c lo => Some (c, lo, lo)
  | Split _ c _ lo hi | Ins _ c _ lo hi _ | Full _ c _ lo hi _ _ | Commit c lo hi _ _ => Some (c, lo, hi)
  | _ => None
  end.
Lemma jt_jv j o c om lo hi : jv j = Some (o, c, om, lo, hi) -> jt j = Some (c, lo, hi).
Proof. destruct j; cbn; try discriminate; intros H; injection H as <- <- <- <- <-; auto. Qed.

(** Jobs do not come from nowhere. *)
Definition JT x s s' : Prop := forall n t, n <> x -> lvl (hp s' n) = 1 -> jt (jb (hp s' n)) = Some t ->
  lvl (hp s n) = 1 /\ jt (jb (hp s n)) = Some t.
Definition JT' s s' : Prop := forall n t, lvl (hp s' n) = 1 -> jt (jb (hp s' n)) = Some t ->
  (lvl (hp s n) = 1 /\ jt (jb (hp s n)) = Some t) \/ jb (hp s n) = Locked.
Ltac brk := repeat match goal with
  | H : context [?a =? ?b] |- _ => destruct (Nat.eqb_spec a b); subst; cbn in H
  | |- context [?a =? ?b] => destruct (Nat.eqb_spec a b); subst; cbn end.
Ltac jt0 := let nn := fresh "nn" in let tt := fresh "tt" in intros nn tt; intros; cbn in *; unfold upd in *; brk; cbn in *; try discriminate; try congruence; auto;
  try (left; split; congruence).
Lemma build_jt s c o1 m1 lo1 hi1 b n mid xl xh : build (hp s c) o1 m1 lo1 hi1 b n = Some (mid, xl, xh) -> jt (jb xl) = None /\ jt (jb xh) = None.
Proof.
  unfold build. destruct (lvl (hp s c) =? 1); repeat match goal with |- context [match ?e with _ => _ end] => destruct e; try discriminate end;
  intros [= <- <- <-]; split; reflexivity.
Qed.
Lemma jt_take s n o b s' : take s n o b = Some s' -> JT n s s'.
Proof.
  intros H. unfold take in H.
  destruct (jb (hp s n)) eqn:J; try discriminate. destruct (ptr (hp s n) o) as [c|] eqn:Hp; [|discriminate].
  destruct (lvl (hp s c)) as [|lc] eqn:Lc; [discriminate|].
  destruct (jb (hp s c)) as [| | | | | | |o1 c1 m1 lo1 hi1 [tk|] lns1| |] eqn:Jc; try discriminate.
  destruct (build (hp s c) o1 m1 lo1 hi1 b n) as [[[mid xl] xh]|] eqn:Hb; [|discriminate].
  destruct (build_jt _ _ _ _ _ _ _ _ _ _ _ Hb) as [B1 B2]. injection H as <-.
  intros nn t Nn A B. cbn in A, B. unfold upd in A, B. brk; cbn in *; try congruence; auto. split; [congruence|]. now rewrite Jc.
Qed.
Lemma jt_ins s n s' : ins_low leb s n = Some s' -> JT n s s' /\ (lvl (hp s n) <> 1 \/ JT' s s').
Proof.
  intros H. unfold ins_low in H. destruct (jb (hp s n)) as [| | | | |o c mm low high| | | |] eqn:J; try discriminate.
  destruct (has_key _ _ _); injection H as <-; [split; [intros ? ? ?; auto|right; intros ? ?; auto]|].
  split; [|right].
  - intros nn t Nn A B. cbn in A, B. unfold upd in A, B. brk; cbn in *; try congruence. destruct (inch _ _ _ _); auto.
  - intros nn t A B. cbn in A, B. unfold upd in A, B. brk; cbn in *; left; destruct (inch _ _ _ _); cbn in *; auto; split; auto; rewrite J; auto.
Qed.
Lemma jt_swap s n s' : swap_high s n = Some s' -> JT n s s' /\ JT' s s'.
Proof.
  intros H. unfold swap_high in H.
  destruct (jb (hp s n)) as [| | | |o c low| |o c m low high [|]| | |] eqn:J; try discriminate; injection H as <-.
  - split; [intros nn t Nn A B|intros nn t A B]; cbn in A, B; unfold upd in A, B; brk; cbn in *; try congruence; try discriminate; auto.
  - unfold commit_child. destruct (jb (hp s c)) eqn:Jc;
    (split; [intros nn t Nn A B|intros nn t A B]; cbn in A, B; unfold upd in A, B; brk; cbn in *; try congruence; try discriminate; auto).
    + split; auto. now rewrite Jc.
    + left. split; auto. now rewrite Jc.
Qed.
Lemma lvl_swap s n s' m : swap_high s n = Some s' -> lvl (hp s' m) = lvl (hp s m).
Proof.
  intros H. unfold swap_high in H.
  destruct (jb (hp s n)) as [| | | |o c low| |o c mm low high [|]| | |] eqn:J; try discriminate; injection H as <-.
  - cbn. unfold upd. brk; destruct o; auto.
  - unfold commit_child. destruct (jb (hp s c)); cbn; unfold upd; brk; destruct o; auto.
Qed.
Lemma jt_sys a s s' : Inv s -> step_sys leb a s = Some s' -> JT' s s'.
Proof.
  intros I H. destruct a; try discriminate; cbn [step_sys] in H.
  - destruct (lvl (hp s n)) as [|ln] eqn:L; [discriminate|]. destruct (jb (hp s n)) eqn:J; try discriminate.
    destruct (_ || _) eqn:D; [|discriminate]. injection H as <-. jt0.
  - destruct (jb (hp s n)) eqn:J; try discriminate. injection H as <-. jt0.
  - assert (forall l, jb (hp s n) = Locked -> match (if negb (is_open (hp s l)) then Some (crash s) else
        match m with
        | None => Some (modi (alloc (modi s l (set_fz (Orig n))) (leaf0 (ents (hp s l)) Open n)) n (set_jb (Swap0 o l (fresh s))))
        | Some m =>
            match get leb (ents (hp s l)) m, above leb m (ents (hp s l)) with
            | Some _, _ :: _ => Some (modi (alloc (alloc (modi s l (set_fz (Orig n))) (leaf0 (upto leb m (ents (hp s l))) (Hold n) n))
                (leaf0 (above leb m (ents (hp s l))) Open n)) n (set_jb (Split o l m (fresh s) (S (fresh s)))))
            | _, _ => None
            end
        end) with Some s' => JT' s s' | None => True end) as Q.
    { intros l Jn. destruct (negb _); [intros ? ?; auto|]. destruct m as [m|].
      - destruct (get leb (ents (hp s l)) m) as [v|]; auto. destruct (above leb m (ents (hp s l))) as [|e0 r0] eqn:Ab; auto.
        jt0.
      - jt0. }
    destruct (jb (hp s n)) eqn:J; destruct (ub (hp s n)) eqn:U; try discriminate;
      destruct (lvl (hp s n)) as [|[|ln]] eqn:L1; try discriminate;
      destruct (ptr (hp s n) o) as [l|] eqn:Hp; try discriminate;
      specialize (Q l eq_refl); revert H Q;
      match goal with |- ?a = _ -> match ?b with _ => _ end -> _ => change b with a; destruct a; [|discriminate] end;
      intros [= <-] Q; exact Q.
  - unfold ins_low in H. destruct (jb (hp s n)) as [| | | | |o c mm low high| | | |] eqn:J; try discriminate.
    destruct (has_key _ _ _); injection H as <-; [intros ? ?; auto|].
    intros nn t A B. cbn in A, B. unfold upd in A, B. brk; cbn in *; left; destruct (inch _ _ _ _); cbn in *; auto; split; auto; rewrite J; auto.
  - destruct (jb (hp s n)) as [| | | | |o c m low high| | | |] eqn:J; try discriminate. injection H as <-.
    destruct (lvl (hp s n) =? 1) eqn:L; jt0; left; rewrite J; auto.
  - destruct (jb (hp s n)) as [| | | | | |o c m low high [|]| | |] eqn:J; try discriminate. injection H as <-. jt0; left; rewrite J; auto.
  - eapply jt_swap; eauto.
  - pose proof (jt_take _ _ _ _ _ H) as Q. intros nn t A B. destruct (Nat.eq_dec nn n) as [->|N]; [|left; now apply Q]. right.
    unfold take in H. destruct (jb (hp s n)); try discriminate. auto.
  - destruct (jb (hp s n)) as [| | | | | | | |c low high lns i|] eqn:J; try discriminate.
    destruct (Nat.eqb_spec (lvl (hp s n)) 1) as [L1|L1].
    + destruct i as [|[|[|[|i]]]]; try destruct lns as [[a b]|]; injection H as <-; jt0; left; rewrite J; auto.
    + injection H as <-. unfold commit_child. destruct (jb (hp (modi s n (set_jb Poison)) c)) eqn:Jc; jt0. left. rewrite Jc. auto.
  - destruct (jb (hp s n)) as [| | | | | | |o c m low high [tk|] lns| |] eqn:J; try discriminate. revert H.
    cbn [hp modi put with_hp]. destruct (lvl _ =? 1).
    + intros [= <-]. jt0.
    + destruct (jb (upd (hp s) n (set_jb Locked (hp s n)) c)) eqn:Jc; intros [= <-]; jt0.
      left. rewrite Jc. auto.
  - destruct (jb (hp s n)) eqn:J; try discriminate. destruct (slot_child (cells (hp s n)) j) as [c|] eqn:Hs; [|discriminate].
    destruct (retired (hp s c)) eqn:R; [|discriminate]. injection H as <-. jt0.
  - destruct (jb (hp s n)) eqn:J; try discriminate. destruct (lvl (hp s n)) as [|[|ln]] eqn:L; try discriminate.
    destruct (ub (hp s n)) as [| |c] eqn:U; try discriminate.
    destruct (rev (cells (hp s n))) as [|[sk [j d]] rr] eqn:Rv; [discriminate|].
    destruct (retired (hp s c)) eqn:R; [|discriminate]. injection H as <-. jt0.
  - destruct (jb (hp s n)) eqn:J; try discriminate. injection H as <-. jt0.
  - destruct (jb (hp s n)) eqn:J; try discriminate. destruct (cells (hp s n)) eqn:Hcs; [|discriminate].
    destruct (ub (hp s n)) as [| |c] eqn:U; try discriminate.
    destruct (retired (hp s c)) eqn:R; [|discriminate]. injection H as <-. jt0.
  - destruct (root s) as [n|] eqn:Rt; [|discriminate].
    destruct (jb (hp s n)) as [| | | | | | |o c m low high [tk|] lns| |] eqn:J; try discriminate. revert H.
    set (s1 := with_root _ _).
    destruct (h_root _ _ _ _ _ (i_h leb s I) n Rt) as (Hn & Ln & _).
    assert (JT (fresh s) s s1) as J1. { intros nn t Nn A B. unfold s1 in A, B. cbn in A, B. rewrite upd_ne in A, B by auto. auto. }
    destruct (take s1 (fresh s) PUb b) as [s2|] eqn:E2; [|discriminate]. cbn [bind].
    destruct (ins_low leb s2 (fresh s)) as [s3|] eqn:E3; [|discriminate]. cbn [bind].
    assert (JT (fresh s) s s3 /\ lvl (hp s3 (fresh s)) <> 1) as [J3 L3].
    { split.
      - intros nn t Nn A B. apply J1; auto; [apply (jt_take _ _ _ _ _ E2 nn t); auto; apply (proj1 (jt_ins _ _ _ E3) nn t); auto|].
        apply (jt_take _ _ _ _ _ E2 nn t); auto; apply (proj1 (jt_ins _ _ _ E3) nn t); auto.
      - rewrite (lvl_ins leb _ _ _ _ E3), (lvl_take _ _ _ _ _ _ E2); [|cbn; lia]. cbn. rewrite upd_eq. cbn. lia. }
    assert (forall nn t, lvl (hp s3 nn) = 1 -> jt (jb (hp s3 nn)) = Some t -> lvl (hp s nn) = 1 /\ jt (jb (hp s nn)) = Some t) as Q.
    { intros nn t A B. apply J3; auto. intros ->. congruence. }
    destruct (err s3); intros H; [injection H as <-; intros nn t A B; left; now apply Q|].
    intros nn t A B. left. rewrite (lvl_swap _ _ _ _ H) in A. apply Q; auto. apply (proj1 (jt_swap _ _ _ H) nn t); auto; [intros ->; congruence|].
    now rewrite (lvl_swap _ _ _ _ H).
  - destruct (root s) as [n|] eqn:Rt; [|discriminate]. destruct (jb (hp s n)) eqn:J; try discriminate.
    destruct (lvl (hp s n)) as [|[|ln]] eqn:L; try discriminate. destruct (cells (hp s n)) eqn:Hcs; [|discriminate].
    destruct (ub (hp s n)) as [| |c] eqn:U; try discriminate. injection H as <-. jt0.
  - destruct (root s) as [n|] eqn:Rt; [|discriminate]. destruct (jb (hp s n)) eqn:J; try discriminate.
    destruct (ub (hp s n)) as [| |c] eqn:U; try discriminate. injection H as <-. jt0.
Qed.

(** A job goes on, ends with its child replaced, or is rolled back. *)
Definition JK s s' : Prop := forall n t, n < fresh s -> jv (jb (hp s n)) = Some t -> jv (jb (hp s' n)) = Some t.
Definition JF s s' n : Prop := forall o L om lo hi, n < fresh s -> jv (jb (hp s n)) = Some (o, L, om, lo, hi) ->
  jv (jb (hp s' n)) = Some (o, L, om, lo, hi) \/ (jv (jb (hp s' n)) = None /\ over (hp s' L) = true /\ fz (hp s' L) = fz (hp s L)).
(** The fields of a locked leaf node stay. *)
Definition PK s s' p : Prop := forall o y, p < fresh s -> lvl (hp s p) = 1 -> jb (hp s p) = Locked -> ptr (hp s p) o = Some y -> ptr (hp s' p) o = Some y.
Lemma jf_jk s s' n : JK s s' -> JF s s' n.
Proof. intros H o L om lo hi A B. left. now apply H. Qed.

Ltac jk0 := let nn := fresh "nn" in let tt := fresh "tt" in intros nn tt; intros; cbn in *; unfold upd in *; brk; cbn in *; try discriminate; try congruence; try lia;
  repeat match goal with B : jv (jb (hp ?s ?y)) = Some _, J : jb (hp ?s ?y) = _ |- _ => rewrite J in B; cbn in B end; try discriminate; auto.
Ltac pk0 := let oo := fresh "oo" in let yy := fresh "yy" in intros oo yy; intros; cbn in *; unfold upd in *; brk; cbn in *; try discriminate; try congruence; try lia; auto;
  destruct oo; cbn in *; auto.
Lemma jk_take s n o b s' : take s n o b = Some s' -> JK s s' /\ fresh s <= fresh s' /\ (forall y, y < fresh s -> fz (hp s' y) = fz (hp s y)) /\ (forall p, PK s s' p) /\ forall p, p < fresh s -> p <> n -> jb (hp s p) = Locked -> jb (hp s' p) = Locked /\ lvl (hp s' p) = lvl (hp s p).
Proof.
  intros H. unfold take in H.
  destruct (jb (hp s n)) eqn:J; try discriminate. destruct (ptr (hp s n) o) as [c|] eqn:Hp; [|discriminate].
  destruct (lvl (hp s c)) as [|lc] eqn:Lc; [discriminate|].
  destruct (jb (hp s c)) as [| | | | | | |o1 c1 m1 lo1 hi1 [tk|] lns1| |] eqn:Jc; try discriminate.
  destruct (build (hp s c) o1 m1 lo1 hi1 b n) as [[[mid xl] xh]|] eqn:Hb; [|discriminate].
  injection H as <-. split; [jk0|split; [cbn; lia|split; [|split; [intros p; pk0|]]]].
  { intros y Hy. cbn. unfold upd. brk; cbn; auto; lia. }
  intros p Hf Np Jp. cbn. unfold upd. brk; cbn; auto; try lia; congruence.
Qed.
Lemma jk_ins s n s' : ins_low leb s n = Some s' -> JK s s' /\ fresh s' = fresh s /\ (forall y, y < fresh s -> fz (hp s' y) = fz (hp s y)) /\ (forall p, PK s s' p) /\ forall p, p < fresh s -> p <> n -> jb (hp s p) = Locked -> jb (hp s' p) = Locked /\ lvl (hp s' p) = lvl (hp s p).
Proof.
  intros H. unfold ins_low in H. destruct (jb (hp s n)) as [| | | | |o c mm low high| | | |] eqn:J; try discriminate.
  destruct (has_key _ _ _); injection H as <-; [split; [jk0|split; [cbn; lia|split; [auto|split; [intros p; pk0|auto]]]]|].
  split; [|split; [auto|split; [|split]]].
  - intros nn t Nn B. cbn. unfold upd. brk; cbn in *; try congruence; [now rewrite J in B|]. destruct (inch _ _ _ _); auto.
  - intros y Hy. cbn. unfold upd. brk; cbn; auto; destruct (inch _ _ _ _); auto.
  - intros p oo yy Hp L1 Jp P. cbn. unfold upd. brk; cbn in *; try congruence. destruct (inch _ _ _ _); auto.
  - intros p Hf Np Jp. cbn. unfold upd. brk; cbn; auto; try congruence. destruct (inch _ _ _ _); auto.
Qed.
Lemma split3 s b s' : Inv s -> step_sys leb (SRSplit b) s = Some s' -> exists n s1 s2 s3,
  root s = Some n /\ (exists o c m low high lns, jb (hp s n) = Full o c m low high None lns)
  /\ s1 = with_root (alloc s (node0 (S (lvl (hp s n))) [] 0 (UTo n) Locked 0)) (Some (fresh s)) /\ Inv s1
  /\ take s1 (fresh s) PUb b = Some s2 /\ Inv s2 /\ ins_low leb s2 (fresh s) = Some s3 /\ Inv s3 /\ swap_high s3 (fresh s) = Some s'.
Proof.
  intros I H. cbn [step_sys] in H. pose proof (i_k leb s I) as HK.
  destruct (root s) as [n|] eqn:Rt; [|discriminate].
  destruct (jb (hp s n)) as [| | | | | | |o c m low high [tk|] lns| |] eqn:J; try discriminate. revert H.
  destruct HK as [k]; [discriminate|].
  assert (Live leb (hp s) (Some n) n) as Lv by (exists k; now constructor).
  destruct (h_root _ _ _ _ _ (i_h leb s I) n Rt) as (Hn & Ln & _).
  set (s1 := with_root _ _). assert (Inv s1) as I1.
  { refine (inv_sys leb s _ _ _ I _ (fun _ => inhabits k)). rewrite Rt. pose proof (i_h leb s I) as HI. pose proof (i_f leb s I) as FI. rewrite Rt in HI. exact (ok_top leb _ _ _ _ HI FI n 0 eq_refl Lv). }
  destruct (take s1 (fresh s) PUb b) as [s2|] eqn:E2; [|discriminate]. cbn [bind].
  pose proof (inv_take leb HO _ _ _ _ _ I1 E2) as I2.
  destruct (ins_low leb s2 (fresh s)) as [s3|] eqn:E3; [|discriminate]. cbn [bind].
  pose proof (inv_ins leb HO _ _ _ I2 E3) as I3.
  rewrite (i_err leb s3 I3). intros H. exists n, s1, s2, s3. repeat (split; [solve [eauto 8]|]). exact H.
Qed.
Lemma jf_swap s n s' : Inv s -> swap_high s n = Some s' -> fresh s' = fresh s /\ (forall m, JF s s' m) /\ forall p, PK s s' p.
Proof.
  intros I H. unfold swap_high in H. pose proof (i_h leb s I) as HI. pose proof (i_f leb s I) as FI.
  destruct (jb (hp s n)) as [| | | |o c low| |o c m low high [|]| | |] eqn:J; try discriminate; injection H as <-.
  - assert (jv (jb (hp s n)) = Some (o, c, None, low, low)) as Jv by now rewrite J.
    destruct (locked_lt leb _ _ _ _ HI FI n) as [Hn Ln]; [congruence|].
    destruct (jv_c_lt leb _ _ _ _ HI _ _ _ _ _ _ Hn Jv) as [Hc Lc]. assert (c <> n) as Ncn by (intros ->; lia).
    split; [auto|split].
    + intros nn o1 L1 om1 lo1 hi1 A B. destruct (Nat.eq_dec nn n) as [->|Nn].
      * right. rewrite Jv in B. injection B as <- <- <- <- <-. cbn. unfold upd. rewrite !Nat.eqb_refl. cbn. destruct (Nat.eqb_spec c n); [congruence|]. cbn. auto.
      * left. cbn. unfold upd. brk; cbn; auto; congruence.
    + intros p; pk0.
  - assert (jv (jb (hp s n)) = Some (o, c, Some m, low, high)) as Jv by now rewrite J.
    destruct (locked_lt leb _ _ _ _ HI FI n) as [Hn Ln]; [congruence|].
    destruct (jv_c_lt leb _ _ _ _ HI _ _ _ _ _ _ Hn Jv) as [Hc Lc]. assert (c <> n) as Ncn by (intros ->; lia).
    assert (over (hp s n) = false) as On0 by (eapply (job_over leb _ _ _ _ HI n); eauto; unfold nofull; now rewrite J).
    pose proof (h_job _ _ _ _ _ HI _ _ _ _ _ _ Hn Jv On0) as Jb.
    destruct (j_ins _ _ _ _ _ _ _ _ _ Jb) as (_ & Oc & _); [now rewrite J|].
    set (s2 := commit_child s c).
    assert (forall y, over (hp s2 y) = over (hp s y) /\ fz (hp s2 y) = fz (hp s y) /\ (y <> c -> hp s2 y = hp s y) /\ (forall oo, ptr (hp s2 y) oo = ptr (hp s y) oo)) as Q.
    { intros y. unfold s2, commit_child. destruct (jb (hp s c)); cbn; unfold upd; brk; cbn; repeat split; auto; congruence. }
    assert (fresh s2 = fresh s) as F2 by (unfold s2, commit_child; destruct (jb (hp s c)); auto).
    assert (jv (jb (hp s2 c)) = jv (jb (hp s c)) \/ jv (jb (hp s2 c)) = None) as Jc.
    { unfold s2, commit_child. destruct (jb (hp s c)) eqn:E; cbn; unfold upd; rewrite ?Nat.eqb_refl; cbn; auto; rewrite E; auto. }
    assert (forall y, over (hp s2 y) = true -> over (hp (modi s2 n (fun x : obj K V => set_jb Locked (set_ptr x o high))) y) = true
       /\ fz (hp (modi s2 n (fun x : obj K V => set_jb Locked (set_ptr x o high))) y) = fz (hp s y)) as Q2.
    { intros y Oy. cbn. unfold upd. destruct (Q y) as (_ & E & _ & _). brk; cbn; auto. destruct o; cbn; auto. }
    clearbody s2. split; [auto|split].
    + intros nn o1 L1 om1 lo1 hi1 A B. destruct (Nat.eq_dec nn n) as [->|Nn].
      * right. rewrite Jv in B. injection B as <- <- <- <- <-. split; [cbn; now rewrite upd_eq|]. apply Q2. now rewrite (proj1 (Q c)).
      * assert (hp (modi s2 n (fun x : obj K V => set_jb Locked (set_ptr x o high))) nn = hp s2 nn) as E by (cbn; now rewrite upd_ne). 
        rewrite E. destruct (Nat.eq_dec nn c) as [->|Nc].
        { destruct Jc as [Jc|Jc]; [left; congruence|]. right. split; auto. apply Q2. rewrite (proj1 (Q L1)).
          apply (l_over _ _ _ _ _ _ _ _ _ (h_hld _ _ _ _ _ HI _ _ _ _ _ _ Hc B)); auto. }
        left. destruct (Q nn) as (_ & _ & E1 & _). now rewrite E1.
    + intros p oo yy Hp L1 Jp P. assert (p <> n) as Np by congruence. cbn. rewrite upd_ne by auto. destruct (Q p) as (_ & _ & _ & E). now rewrite E.
Qed.
Lemma jf_sys a s s' : Inv s -> step_sys leb a s = Some s' ->
  (forall n, JF s s' n \/ a = SRoll n) /\ forall p, lvl (hp s p) <> 1 \/ PK s s' p \/ (exists j, a = SRem p j) \/ a = SRet p.
Proof.
  intros I H.
  assert (JK s s' -> (forall n, JF s s' n \/ a = SRoll n)) as Kf by (intros Q n; left; now apply jf_jk).
  assert ((forall p, PK s s' p) -> forall p, lvl (hp s p) <> 1 \/ PK s s' p \/ (exists j, a = SRem p j) \/ a = SRet p) as Kp by (intros Q p; auto).
  destruct a; try discriminate; cbn [step_sys] in H.
  - destruct (lvl (hp s n)) as [|ln] eqn:L; [discriminate|]. destruct (jb (hp s n)) eqn:J; try discriminate.
    destruct (_ || _) eqn:D; [|discriminate]. injection H as <-. split; [apply Kf; jk0|apply Kp; intros p; pk0].
  - destruct (jb (hp s n)) eqn:J; try discriminate. injection H as <-. split; [apply Kf; jk0|apply Kp; intros p; pk0].
  - assert (forall l, jb (hp s n) = Locked -> match (if negb (is_open (hp s l)) then Some (crash s) else
        match m with
        | None => Some (modi (alloc (modi s l (set_fz (Orig n))) (leaf0 (ents (hp s l)) Open n)) n (set_jb (Swap0 o l (fresh s))))
        | Some m =>
            match get leb (ents (hp s l)) m, above leb m (ents (hp s l)) with
            | Some _, _ :: _ => Some (modi (alloc (alloc (modi s l (set_fz (Orig n))) (leaf0 (upto leb m (ents (hp s l))) (Hold n) n))
                (leaf0 (above leb m (ents (hp s l))) Open n)) n (set_jb (Split o l m (fresh s) (S (fresh s)))))
            | _, _ => None
            end
        end) with Some s' => JK s s' /\ forall p, PK s s' p | None => True end) as Q.
    { intros l Jn. destruct (negb _); [split; [jk0|intros p; pk0]|]. destruct m as [m|].
      - destruct (get leb (ents (hp s l)) m) as [v|]; auto. destruct (above leb m (ents (hp s l))) as [|e0 r0] eqn:Ab; auto.
        split; [jk0|intros p; pk0].
      - split; [jk0|intros p; pk0]. }
    destruct (jb (hp s n)) eqn:J; destruct (ub (hp s n)) eqn:U; try discriminate;
      destruct (lvl (hp s n)) as [|[|ln]] eqn:L1; try discriminate;
      destruct (ptr (hp s n) o) as [l|] eqn:Hp; try discriminate;
      specialize (Q l eq_refl); revert H Q;
      match goal with |- ?a = _ -> match ?b with _ => _ end -> _ => change b with a; destruct a; [|discriminate] end;
      intros [= <-] [Q1 Q2]; auto.
  - destruct (jk_ins _ _ _ H) as (A & _ & _ & B & _). auto.
  - destruct (jb (hp s n)) as [| | | | |o c m low high| | | |] eqn:J; try discriminate. injection H as <-.
    destruct (lvl (hp s n) =? 1) eqn:L; (split; [apply Kf; jk0|apply Kp; intros p; pk0]).
  - destruct (jb (hp s n)) as [| | | | | |o c m low high [|]| | |] eqn:J; try discriminate. injection H as <-. split; [apply Kf; jk0|apply Kp; intros p; pk0].
  - destruct (jf_swap _ _ _ I H) as (_ & A & B). auto.
  - destruct (jk_take _ _ _ _ _ H) as (A & _ & _ & B & _). auto.
  - destruct (jb (hp s n)) as [| | | | | | | |c low high lns i|] eqn:J; try discriminate.
    pose proof (i_h leb s I) as HI. pose proof (i_f leb s I) as FI.
    destruct (locked_lt leb _ _ _ _ HI FI n) as [Hn Ln]; [congruence|].
    pose proof (w_commit _ _ _ _ (h_wf _ _ _ _ _ HI n Hn)) as Wc. rewrite J in Wc.
    destruct (Nat.eqb_spec (lvl (hp s n)) 1) as [L1|L1].
    + split; [apply Kf|apply Kp].
      * destruct i as [|[|[|[|i]]]]; try destruct lns as [[a b]|]; injection H as <-; jk0;
          match goal with B : jv (jb (hp s ?y)) = Some _ |- _ => assert (jb (hp s y) = NewLk) as E by (apply (f_need _ _ FI n y); rewrite J; cbn; auto); rewrite E in B; discriminate end.
      * destruct i as [|[|[|[|i]]]]; try destruct lns as [[a b]|]; injection H as <-; intros p; pk0.
    + destruct Wc as [_ Wc]. destruct (Wc L1) as (Hc & Lc & Hh & Oc). injection H as <-.
      assert (c <> n) as Ncn. { intros ->. unfold held in Hh. destruct (lvl (hp s n)); [tauto|]. destruct Hh as (? & ? & ? & ? & ? & ? & Hh). congruence. }
      unfold commit_child. cbn [hp modi put with_hp]. rewrite upd_ne by auto. split.
      * intros nn. left. intros o1 L2 om1 lo1 hi1 A B. destruct (Nat.eq_dec nn n) as [->|Nn]; [rewrite J in B; discriminate|].
        destruct (Nat.eq_dec nn c) as [->|Nc].
        { pose proof (l_over _ _ _ _ _ _ _ _ _ (h_hld _ _ _ _ _ HI _ _ _ _ _ _ Hc B) Oc) as Ol.
          destruct (jb (hp s c)) eqn:Jc; cbn; unfold upd; brk; cbn; rewrite ?Jc; auto; discriminate. }
        left. destruct (jb (hp s c)) eqn:Jc; cbn; unfold upd; brk; cbn; auto; congruence.
      * intros p. right. left. destruct (jb (hp s c)) eqn:Jc; pk0.
  - destruct (jb (hp s n)) as [| | | | | | |o c m low high [tk|] lns| |] eqn:J; try discriminate. revert H.
    cbn [hp modi put with_hp]. destruct (lvl _ =? 1).
    + intros [= <-]. split; [|apply Kp; intros p; pk0]. intros nn. destruct (Nat.eq_dec nn n) as [->|Nn]; auto. left. intros o1 L2 om1 lo1 hi1 A B. left.
      cbn; unfold upd; brk; cbn; auto; congruence.
    + intros H. split.
      * intros nn. destruct (Nat.eq_dec nn n) as [->|Nn]; auto. left. intros o1 L2 om1 lo1 hi1 A B. left.
        destruct (jb (upd (hp s) n (set_jb Locked (hp s n)) c)) eqn:Jc; injection H as <-; cbn in *; unfold upd in *; brk; cbn in *; auto; try congruence.
        all: rewrite Jc in B; auto.
      * apply Kp. intros p. destruct (jb (upd (hp s) n (set_jb Locked (hp s n)) c)) eqn:Jc; injection H as <-; pk0.
  - destruct (jb (hp s n)) eqn:J; try discriminate. destruct (slot_child (cells (hp s n)) j) as [c|] eqn:Hs; [|discriminate].
    destruct (retired (hp s c)) eqn:R; [|discriminate]. injection H as <-. split; [apply Kf; jk0|].
    intros p. destruct (Nat.eq_dec p n) as [->|Np]; [eauto|]. right. left. pk0.
  - destruct (jb (hp s n)) eqn:J; try discriminate. destruct (lvl (hp s n)) as [|[|ln]] eqn:L; try discriminate.
    destruct (ub (hp s n)) as [| |c] eqn:U; try discriminate.
    destruct (rev (cells (hp s n))) as [|[sk [j d]] rr] eqn:Rv; [discriminate|].
    destruct (retired (hp s c)) eqn:R; [|discriminate]. injection H as <-. split; [apply Kf; jk0|].
    apply Kp. intros p; pk0.
  - destruct (jb (hp s n)) eqn:J; try discriminate. injection H as <-. split; [apply Kf; jk0|]. apply Kp; intros p; pk0.
  - destruct (jb (hp s n)) eqn:J; try discriminate. destruct (cells (hp s n)) eqn:Hcs; [|discriminate].
    destruct (ub (hp s n)) as [| |c] eqn:U; try discriminate.
    destruct (retired (hp s c)) eqn:R; [|discriminate]. injection H as <-. split; [apply Kf; jk0|].
    intros p. destruct (Nat.eq_dec p n) as [->|Np]; [auto|]. right. left. pk0.
  - destruct (split3 _ _ _ I H) as (n & s1 & s2 & s3 & Rt & _ & E1 & I1 & E2 & I2 & E3 & I3 & H').
    destruct (jk_take _ _ _ _ _ E2) as (A2 & F2 & Z2 & B2 & C2). destruct (jk_ins _ _ _ E3) as (A3 & F3 & Z3 & B3 & C3). destruct (jf_swap _ _ _ I3 H') as (F4 & A4 & B4).
    assert (fresh s1 = S (fresh s)) as F1 by now rewrite E1.
    assert (forall y, y < fresh s -> hp s1 y = hp s y) as Q1 by (intros y Hy; rewrite E1; cbn; rewrite upd_ne by lia; auto).
    assert (forall y, y < fresh s -> y <> fresh s) as Ny by (intros; lia).
    split.
    + intros nn. left. intros o1 L2 om1 lo1 hi1 A B.
      assert (jv (jb (hp s3 nn)) = Some (o1, L2, om1, lo1, hi1)) as B3'.
      { apply A3; [lia|]. apply A2; [lia|]. now rewrite Q1. }
      destruct (A4 nn o1 L2 om1 lo1 hi1) as [?|(G1 & G2 & G3)]; auto; [lia|]. right. repeat split; auto. rewrite G3.
      destruct (jv_c_lt leb _ _ _ _ (i_h leb s I) _ _ _ _ _ _ A B) as [HL _]. rewrite Z3, Z2, Q1 by lia. auto.
    + apply Kp. intros p oo yy Hp L1 Jp P.
      assert (jb (hp s2 p) = Locked /\ lvl (hp s2 p) = lvl (hp s p) /\ ptr (hp s2 p) oo = Some yy) as (J2 & L2 & P2).
      { destruct (C2 p) as [X1 X2]; [lia|auto|now rewrite Q1|]. rewrite Q1 in X2 by auto. split; auto. split; auto. apply B2; try rewrite Q1; auto. lia. }
      destruct (C3 p) as [J3 L3]; [lia|auto|auto|].
      apply B4; [lia|congruence|auto|]. apply B3; auto; [lia|congruence].
  - destruct (root s) as [n|] eqn:Rt; [|discriminate]. destruct (jb (hp s n)) eqn:J; try discriminate.
    destruct (lvl (hp s n)) as [|[|ln]] eqn:L; try discriminate. destruct (cells (hp s n)) eqn:Hcs; [|discriminate].
    destruct (ub (hp s n)) as [| |c] eqn:U; try discriminate. injection H as <-. split; [apply Kf; jk0|apply Kp; intros p; pk0].
  - destruct (root s) as [n|] eqn:Rt; [|discriminate]. destruct (jb (hp s n)) eqn:J; try discriminate.
    destruct (ub (hp s n)) as [| |c] eqn:U; try discriminate. injection H as <-. split; [apply Kf; jk0|apply Kp; intros p; pk0].
Qed.

(** The low half of a split has the separating key and no larger one until it is thawed. *)
Definition cj (j : job K) : option (K * nat) :=
  match j with Split _ _ m lo _ | Ins _ _ m lo _ false | Full _ _ m lo _ _ _ => Some (m, lo) | _ => None end.
Definition low_ok (x : obj K V) (m : K) : Prop := (exists v, In (m, v) (ents x)) /\ forall e, In e (ents x) -> leb (fst e) m = true.
Definition CJ x s s' : Prop := forall n m lo, n <> x -> lvl (hp s' n) = 1 -> cj (jb (hp s' n)) = Some (m, lo) -> cj (jb (hp s n)) = Some (m, lo) /\ lvl (hp s n) = 1.
Definition CJ' s s' : Prop := forall n m lo, lvl (hp s' n) = 1 -> cj (jb (hp s' n)) = Some (m, lo) ->
  (cj (jb (hp s n)) = Some (m, lo) /\ lvl (hp s n) = 1) \/ low_ok (hp s' lo) m.
Ltac cj0 := let nn := fresh "nn" in let tt := fresh "tt" in let lo := fresh "lo" in intros nn tt lo; intros; cbn in *; unfold upd in *; brk; cbn in *; try discriminate; try congruence; auto;
  try (left; split; congruence).
Lemma build_cj s c o1 m1 lo1 hi1 b n mid xl xh : build (hp s c) o1 m1 lo1 hi1 b n = Some (mid, xl, xh) -> cj (jb xl) = None /\ cj (jb xh) = None.
Proof.
  unfold build. destruct (lvl (hp s c) =? 1); repeat match goal with |- context [match ?e with _ => _ end] => destruct e; try discriminate end;
  intros [= <- <- <-]; split; reflexivity.
Qed.
Lemma cj_take s n o b s' : take s n o b = Some s' -> CJ n s s'.
Proof.
  intros H. unfold take in H.
  destruct (jb (hp s n)) eqn:J; try discriminate. destruct (ptr (hp s n) o) as [c|] eqn:Hp; [|discriminate].
  destruct (lvl (hp s c)) as [|lc] eqn:Lc; [discriminate|].
  destruct (jb (hp s c)) as [| | | | | | |o1 c1 m1 lo1 hi1 [tk|] lns1| |] eqn:Jc; try discriminate.
  destruct (build (hp s c) o1 m1 lo1 hi1 b n) as [[[mid xl] xh]|] eqn:Hb; [|discriminate].
  destruct (build_cj _ _ _ _ _ _ _ _ _ _ _ Hb) as [B1 B2]. injection H as <-.
  intros nn m lo Nn A B. cbn in A, B. unfold upd in A, B. brk; cbn in *; try congruence; auto. split; [now rewrite Jc|congruence].
Qed.
Lemma cj_ins s n s' : ins_low leb s n = Some s' -> CJ n s s' /\ CJ' s s'.
Proof.
  intros H. unfold ins_low in H. destruct (jb (hp s n)) as [| | | | |o c mm low high| | | |] eqn:J; try discriminate.
  destruct (has_key _ _ _); injection H as <-; [split; [intros ? ? ? ?; auto|intros ? ? ?; auto]|].
  split.
  - intros nn m lo Nn A B. cbn in A, B. unfold upd in A, B. brk; cbn in *; try congruence. destruct (inch _ _ _ _); auto.
  - intros nn m lo A B. cbn in A, B. unfold upd in A, B. destruct (Nat.eqb_spec nn n) as [->|Nn].
    + left. rewrite Nat.eqb_refl in *. cbn in *. destruct (lvl (hp s n) =? 1); [|discriminate]. rewrite J. split; auto. destruct (inch _ _ _ _); auto.
    + left. destruct (nn =? n); destruct (inch _ _ _ _); auto.
Qed.
Lemma cj_swap s n s' : swap_high s n = Some s' -> CJ n s s' /\ CJ' s s'.
Proof.
  intros H. unfold swap_high in H.
  destruct (jb (hp s n)) as [| | | |o c low| |o c m low high [|]| | |] eqn:J; try discriminate; injection H as <-.
  - split; [intros nn m lo Nn A B|intros nn m lo A B]; cbn in A, B; unfold upd in A, B; brk; cbn in *; try congruence; try discriminate; auto.
  - unfold commit_child. destruct (jb (hp s c)) eqn:Jc;
    (split; [intros nn m1 lo1 Nn A B|intros nn m1 lo1 A B]; cbn in A, B; unfold upd in A, B; brk; cbn in *; try congruence; try discriminate; auto).
Qed.
Lemma above_get m v (es : list (K * V)) : get leb es m = Some v -> In (m, v) (upto leb m es).
Proof.
  intros G. apply (get_in' leb HO es (m, v)) in G. unfold upto. apply filter_In. split; auto. apply (leb_refl leb HO).
Qed.
Lemma cj_sys a s s' : Inv s -> step_sys leb a s = Some s' -> CJ' s s'.
Proof.
  intros I H. destruct a; try discriminate; cbn [step_sys] in H.
  - destruct (lvl (hp s n)) as [|ln] eqn:L; [discriminate|]. destruct (jb (hp s n)) eqn:J; try discriminate.
    destruct (_ || _) eqn:D; [|discriminate]. injection H as <-. cj0.
  - destruct (jb (hp s n)) eqn:J; try discriminate. injection H as <-. cj0.
  - assert (forall l, jb (hp s n) = Locked -> match (if negb (is_open (hp s l)) then Some (crash s) else
        match m with
        | None => Some (modi (alloc (modi s l (set_fz (Orig n))) (leaf0 (ents (hp s l)) Open n)) n (set_jb (Swap0 o l (fresh s))))
        | Some m =>
            match get leb (ents (hp s l)) m, above leb m (ents (hp s l)) with
            | Some _, _ :: _ => Some (modi (alloc (alloc (modi s l (set_fz (Orig n))) (leaf0 (upto leb m (ents (hp s l))) (Hold n) n))
                (leaf0 (above leb m (ents (hp s l))) Open n)) n (set_jb (Split o l m (fresh s) (S (fresh s)))))
            | _, _ => None
            end
        end) with Some s' => CJ' s s' | None => True end) as Q.
    { intros l Jn. destruct (locked_lt leb _ _ _ _ (i_h leb s I) (i_f leb s I) n) as [Hn _]; [congruence|].
      destruct (negb _); [intros ? ? ?; auto|]. destruct m as [m|].
      - destruct (get leb (ents (hp s l)) m) as [v|] eqn:Gm; auto. destruct (above leb m (ents (hp s l))) as [|e0 r0] eqn:Ab; auto.
        intros nn mm lo A B. destruct (Nat.eq_dec nn n) as [->|Nn].
        + right. cbn in B. rewrite upd_eq in B. cbn in B. injection B as <- <-. cbn.
          rewrite upd_ne by lia. rewrite upd_ne by lia. rewrite upd_eq. cbn. split.
          * exists v. now apply above_get.
          * intros e He. unfold upto in He. now apply filter_In in He.
        + left. cbn in A, B. unfold upd in A, B. brk; cbn in *; try congruence; auto; discriminate.
      - cj0. }
    destruct (jb (hp s n)) eqn:J; destruct (ub (hp s n)) eqn:U; try discriminate;
      destruct (lvl (hp s n)) as [|[|ln]] eqn:L1; try discriminate;
      destruct (ptr (hp s n) o) as [l|] eqn:Hp; try discriminate;
      specialize (Q l eq_refl); revert H Q;
      match goal with |- ?a = _ -> match ?b with _ => _ end -> _ => change b with a; destruct a; [|discriminate] end;
      intros [= <-] Q; exact Q.
  - eapply cj_ins; eauto.
  - destruct (jb (hp s n)) as [| | | | |o c m low high| | | |] eqn:J; try discriminate. injection H as <-.
    destruct (lvl (hp s n) =? 1) eqn:L; cj0; left; rewrite J; auto.
  - destruct (jb (hp s n)) as [| | | | | |o c m low high [|]| | |] eqn:J; try discriminate. injection H as <-. cj0; left; rewrite J; auto.
  - eapply cj_swap; eauto.
  - pose proof (cj_take _ _ _ _ _ H) as Q. intros nn m lo A B. destruct (Nat.eq_dec nn n) as [->|N]; [|left; now apply Q]. exfalso.
    unfold take in H. destruct (jb (hp s n)) eqn:J; try discriminate. destruct (ptr (hp s n) o) as [c|] eqn:Hp; [|discriminate].
    destruct (lvl (hp s c)) as [|lc] eqn:Lc; [discriminate|].
    destruct (jb (hp s c)) as [| | | | | | |o1 c1 m1 lo1 hi1 [tk|] lns1| |] eqn:Jc; try discriminate.
    destruct (build (hp s c) o1 m1 lo1 hi1 b n) as [[[mid xl] xh]|] eqn:Hb; [|discriminate]. injection H as <-.
    destruct (locked_lt leb _ _ _ _ (i_h leb s I) (i_f leb s I) n) as [Hn _]; [congruence|].
    cbn in A. rewrite upd_eq in A. cbn in A. rewrite upd_ne in A by lia. rewrite upd_ne in A by lia.
    destruct (kid_lvl leb _ _ _ _ (i_h leb s I) n c Hn) as [E _]; [eapply in_kids; eauto|].
    unfold upd in A. destruct (Nat.eqb_spec n c) as [->|]; cbn in A; lia.
  - destruct (jb (hp s n)) as [| | | | | | | |c low high lns i|] eqn:J; try discriminate.
    destruct (Nat.eqb_spec (lvl (hp s n)) 1) as [L1|L1].
    + destruct i as [|[|[|[|i]]]]; try destruct lns as [[a b]|]; injection H as <-; cj0; left; rewrite J; auto.
    + injection H as <-. unfold commit_child. destruct (jb (hp (modi s n (set_jb Poison)) c)) eqn:Jc; cj0.
  - destruct (jb (hp s n)) as [| | | | | | |o c m low high [tk|] lns| |] eqn:J; try discriminate. revert H.
    cbn [hp modi put with_hp]. destruct (lvl _ =? 1).
    + intros [= <-]. cj0.
    + destruct (jb (upd (hp s) n (set_jb Locked (hp s n)) c)) eqn:Jc; intros [= <-]; cj0; left; rewrite Jc; auto.
  - destruct (jb (hp s n)) eqn:J; try discriminate. destruct (slot_child (cells (hp s n)) j) as [c|] eqn:Hs; [|discriminate].
    destruct (retired (hp s c)) eqn:R; [|discriminate]. injection H as <-. cj0.
  - destruct (jb (hp s n)) eqn:J; try discriminate. destruct (lvl (hp s n)) as [|[|ln]] eqn:L; try discriminate.
    destruct (ub (hp s n)) as [| |c] eqn:U; try discriminate.
    destruct (rev (cells (hp s n))) as [|[sk [j d]] rr] eqn:Rv; [discriminate|].
    destruct (retired (hp s c)) eqn:R; [|discriminate]. injection H as <-. cj0.
  - destruct (jb (hp s n)) eqn:J; try discriminate. injection H as <-. cj0.
  - destruct (jb (hp s n)) eqn:J; try discriminate. destruct (cells (hp s n)) eqn:Hcs; [|discriminate].
    destruct (ub (hp s n)) as [| |c] eqn:U; try discriminate.
    destruct (retired (hp s c)) eqn:R; [|discriminate]. injection H as <-. cj0.
  - destruct (split3 _ _ _ I H) as (n & s1 & s2 & s3 & Rt & _ & E1 & I1 & E2 & I2 & E3 & I3 & H').
    destruct (h_root _ _ _ _ _ (i_h leb s I) n Rt) as (Hn & Ln & _).
    intros nn m lo A B. left. rewrite (lvl_swap _ _ _ _ H') in A.
    assert (nn <> fresh s) as Nn.
    { intros ->. rewrite (lvl_ins leb _ _ _ _ E3), (lvl_take _ _ _ _ _ _ E2) in A; [|rewrite E1; cbn; lia]. rewrite E1 in A. cbn in A. rewrite upd_eq in A. cbn in A. lia. }
    destruct (proj1 (cj_swap _ _ _ H') nn m lo) as [B3 A3]; auto; [now rewrite (lvl_swap _ _ _ _ H')|].
    destruct (proj1 (cj_ins _ _ _ E3) nn m lo) as [B2 A2]; auto.
    destruct (cj_take _ _ _ _ _ E2 nn m lo) as [B1 A1]; auto.
    rewrite E1 in A1, B1. cbn in A1, B1. rewrite upd_ne in A1, B1 by auto. auto.
  - destruct (root s) as [n|] eqn:Rt; [|discriminate]. destruct (jb (hp s n)) eqn:J; try discriminate.
    destruct (lvl (hp s n)) as [|[|ln]] eqn:L; try discriminate. destruct (cells (hp s n)) eqn:Hcs; [|discriminate].
    destruct (ub (hp s n)) as [| |c] eqn:U; try discriminate. injection H as <-. cj0.
  - destruct (root s) as [n|] eqn:Rt; [|discriminate]. destruct (jb (hp s n)) eqn:J; try discriminate.
    destruct (ub (hp s n)) as [| |c] eqn:U; try discriminate. injection H as <-. cj0;
    match goal with H : cj _ = Some _ |- _ => revert H; destruct (lvl (hp s n)) as [|[|]]; discriminate end.
Qed.

(** Calls have no part in this. *)
Lemma op_jb a s t (p : op K V) s' : Inv s -> step_op leb a s t p = Some s' ->
  (forall n, jb (hp s' n) = jb (hp s n) /\ (n < fresh s -> lvl (hp s' n) = lvl (hp s n)) /\ (jb (hp s n) <> Idle -> lvl (hp s' n) = lvl (hp s n)))
  /\ (forall n, n < fresh s -> forall o y, ptr (hp s n) o = Some y -> ptr (hp s' n) o = Some y).
Proof.
  intros I H. pose proof (i_f leb s I) as FI.
  assert (hp s' = hp s -> (forall n, jb (hp s' n) = jb (hp s n) /\ (n < fresh s -> lvl (hp s' n) = lvl (hp s n)) /\ (jb (hp s n) <> Idle -> lvl (hp s' n) = lvl (hp s n)))
    /\ (forall n, n < fresh s -> forall o y, ptr (hp s n) o = Some y -> ptr (hp s' n) o = Some y)) as Sm by (intros ->; auto).
  assert (forall l es b, hp s' = upd (hp s) l (set_ents (hp s l) es b) -> (forall n, jb (hp s' n) = jb (hp s n) /\ (n < fresh s -> lvl (hp s' n) = lvl (hp s n)) /\ (jb (hp s n) <> Idle -> lvl (hp s' n) = lvl (hp s n)))
    /\ (forall n, n < fresh s -> forall o y, ptr (hp s n) o = Some y -> ptr (hp s' n) o = Some y)) as Wr.
  { intros l es b ->. split; intros n; unfold upd; destruct (Nat.eqb_spec n l) as [->|]; auto. }
  pose proof (f_blank _ _ FI (fresh s) (le_n _)) as Bf.
  destruct a; try discriminate H; destruct (pc p) as [| |y|y M|y M c|y| |] eqn:P; cbn [step_op] in H; try rewrite P in H; try discriminate H.
  - destruct (root s); [injection H as <-; now apply Sm|]. destruct (kind p); try discriminate; injection H as <-; now apply Sm.
  - destruct (kind p) as [k|k v|k c] eqn:Ek; try discriminate H. destruct (root s) as [n|] eqn:R; [discriminate|]. injection H as <-.
    cbn. split; intros n; unfold upd; destruct (Nat.eqb_spec n (fresh s)) as [->|]; auto; cbn; try lia.
    rewrite Bf. cbn. split; auto. split; [lia|congruence].
  - injection H as <-. now apply Sm.
  - destruct (route leb (fst M) (okey (kind p))) as [j|] eqn:Ro.
    + destruct (slot_child (cells (hp s y)) j) as [c|] eqn:Sc; injection H as <-; now apply Sm.
    + destruct (ub (hp s y)) as [| |c] eqn:U.
      * destruct (kind p) as [a|a b|a cond] eqn:Ek; try (injection H as <-; now apply Sm).
        destruct (Nat.eqb_spec (lvl (hp s y)) 1) as [L1|L1]; injection H as <-; [|now apply Sm].
        assert (y <> fresh s) as Ny. { intros ->. rewrite Bf in L1. discriminate. }
        cbn. split; intros n; unfold upd.
        { destruct (Nat.eqb_spec n y) as [->|]; cbn; (destruct (Nat.eqb_spec y (fresh s)); [congruence|]); auto.
          destruct (Nat.eqb_spec n (fresh s)) as [->|]; auto. rewrite Bf. auto. }
        { intros Hn o z Pz. destruct (Nat.eqb_spec n y) as [->|]; cbn; (destruct (Nat.eqb_spec y (fresh s)); [congruence|]).
          - destruct o; cbn in *; auto. rewrite U in Pz. discriminate.
          - destruct (Nat.eqb_spec n (fresh s)); [lia|auto]. }
      * destruct (kind p) as [a|a b|a cond] eqn:Ek; injection H as <-; now apply Sm.
      * injection H as <-. now apply Sm.
  - destruct (meta_eqb _ _ _); [destruct (_ =? 1)|]; injection H as <-; now apply Sm.
  - destruct (kind p) as [a|a v|a cond] eqn:Ek.
    + injection H as <-. now apply Sm.
    + destruct (_ || _); [injection H as <-; now apply Sm|]. destruct (get _ _ _); [injection H as <-; now apply Sm|].
      destruct full; injection H as <-; [now apply Sm|]. eapply Wr. reflexivity.
    + destruct (negb _); [injection H as <-; now apply Sm|]. destruct (get _ _ _); [|injection H as <-; now apply Sm].
      destruct (cond _); [|injection H as <-; now apply Sm]. destruct (del _ _ _) eqn:D; injection H as <-; eapply Wr; reflexivity.
  - destruct (kind p); try discriminate; injection H as <-; now apply Sm.
  - destruct (existsb _ _); [|discriminate]. injection H as <-; now apply Sm.
  - injection H as <-. now apply Sm.
  - destruct (root s); [|discriminate]. destruct (_ && _); [|discriminate]. injection H as <-. now apply Sm.
Qed.

(** ** All steps *)
Lemma jt_step a s s' : Inv s -> step leb a s = Some s' -> JT' s s'.
Proof.
  intros I H. unfold step in H. destruct (err s); [discriminate|].
  assert (forall t (p : op K V), step_op leb a s t p = Some s' -> JT' s s') as Op.
  { intros t p H'. destruct (op_jb a s t p s' I H') as [A _]. intros n tt L J. destruct (A n) as (A1 & _ & A2). rewrite A1 in J.
    left. split; auto. rewrite <- A2; auto. intros E. rewrite E in J. discriminate. }
  destruct a; cbn [actor] in H; try (destruct (ops s t) as [p|] eqn:Ep; [|discriminate]; eapply Op; eauto; fail); try (eapply jt_sys; eauto; fail).
  destruct (ops s t); [discriminate|]. injection H as <-. intros n tt; auto.
Qed.
Lemma cj_step a s s' : Inv s -> step leb a s = Some s' -> CJ' s s'.
Proof.
  intros I H. unfold step in H. destruct (err s); [discriminate|].
  assert (forall t (p : op K V), step_op leb a s t p = Some s' -> CJ' s s') as Op.
  { intros t p H'. destruct (op_jb a s t p s' I H') as [A _]. intros n tt lo L J. destruct (A n) as (A1 & _ & A2). rewrite A1 in J.
    left. split; auto. rewrite <- A2; auto. intros E. rewrite E in J. discriminate. }
  destruct a; cbn [actor] in H; try (destruct (ops s t) as [p|] eqn:Ep; [|discriminate]; eapply Op; eauto; fail); try (eapply cj_sys; eauto; fail).
  destruct (ops s t); [discriminate|]. injection H as <-. intros n tt; auto.
Qed.
Lemma jf_step a s s' : Inv s -> step leb a s = Some s' ->
  (forall n, JF s s' n \/ a = SRoll n) /\ forall p, lvl (hp s p) <> 1 \/ PK s s' p \/ (exists j, a = SRem p j) \/ a = SRet p.
Proof.
  intros I H. unfold step in H. destruct (err s); [discriminate|].
  assert (forall t (p : op K V), step_op leb a s t p = Some s' -> (forall n, JF s s' n \/ a = SRoll n) /\ forall p, lvl (hp s p) <> 1 \/ PK s s' p \/ (exists j, a = SRem p j) \/ a = SRet p) as Op.
  { intros t p H'. destruct (op_jb a s t p s' I H') as [A B]. split.
    - intros n. left. intros o L om lo hi Hn J. destruct (A n) as (A1 & _). left. now rewrite A1.
    - intros q. right. left. intros o y Hq _ _ P. now apply B. }
  destruct a; cbn [actor] in H; try (destruct (ops s t) as [p|] eqn:Ep; [|discriminate]; eapply Op; eauto; fail); try (eapply jf_sys; eauto; fail).
  destruct (ops s t); [discriminate|]. injection H as <-. split; [intros n; left; intros ? ? ? ? ? ? ?; auto|intros p; right; left; intros ? ? ? ? ? ?; auto].
Qed.
End job.
