(** Theorems about ranges without a lower bound whose search for the first leaf is as in the code. *)
From Coq Require Import List Arith Bool Lia.
From Verif Require Import TcModel TcRoute TcSpec TcWit TcLin TiModel TiSpec TiWit TiInv TiConv TiList TiMove TiBlk TiStep TiSys TiExt TiTs TiCur TiSeek TiLoop RgModel RgSpec RgFacts LbModel LbSpec LbThms ToSpec ToFacts TmFacts.
Import ListNotations.

Section thms.
Context {K V : Type} (leb : K -> K -> bool) (HO : tord leb).
Lemma bsi_step a (s s' : lbs K V) : SI leb (bl s) -> lbstep leb a s = Some s' -> SI leb (bl s').
Proof.
  intros I H. destruct a as [a|j lo up|j]; cbn [lbstep] in H.
  - destruct (lsstep leb a (bl s)) as [t|] eqn:E; [|discriminate]. injection H as <-. exact (si_step leb HO a _ _ I E).
  - destruct (lrs s j); [discriminate|]. now injection H as <-.
  - destruct (lrs s j) as [r|]; [|discriminate]. destruct (lnext leb s r); [|discriminate]. now injection H as <-.
Qed.
Lemma bsi_run l : forall s s' : lbs K V, SI leb (bl s) -> lbrun leb l s = Some s' -> SI leb (bl s').
Proof.
  induction l as [|a l IH]; cbn; intros s s' I H; [now injection H as <-|]. destruct (lbstep leb a s) as [s1|] eqn:E; [|discriminate].
  apply (IH s1); auto. now apply (bsi_step a s).
Qed.
Lemma span_lq la lb (sa s : lbs K V) i r : lbrun leb la lbinit = Some sa -> lrs sa i = None -> lbrun leb lb sa = Some s -> never_passes leb lb sa i ->
  lrs s i = Some r -> Lq leb (length (log (tc (bl sa)))) (strip (bl s)) r.
Proof.
  intros Ra Ni Rb N Hr. assert (LB leb i (length (log (tc (bl sa)))) sa) as B.
  { split; [apply (bsi_run la lbinit); auto; exact (si_init leb)|]. split; [lia|]. congruence. }
  now apply (lb_run leb HO i _ lb sa s B N Rb).
Qed.
End thms.

Lemma lC62_to_complete (K V : Type) (leb : K -> K -> bool) : tord leb ->
  forall (la lb : list (lbact K V)) sa s i u y k v, lbrun leb la lbinit = Some sa -> lrs sa i = None -> lbrun leb lb sa = Some s -> never_passes leb lb sa i ->
    spanned s i LNone u y -> span_over s i ->
    throughout leb (log (tc (bl s))) (length (log (tc (bl sa)))) (length (log (tc (bl s)))) k v -> in_upper leb u k -> In (k, v) y.
Proof.
  intros HO la lb sa s i u y k v Ra Ni Rb N (r & Hr & L & <- & <-) (r' & Hr' & Re) T B. apply (upper_ok leb HO) in B. assert (r' = r) as -> by congruence.
  destruct (span_lq leb HO la lb sa s i r Ra Ni Rb N Hr L) as [_ H]. destruct (ph r) as [d|x].
  - destruct H as (_ & _ & _ & H). destruct (H Re (k, v)). exact T.
  - destruct H as [[_ _ P] (tl & Ho & _ & _ & Q)]. cbn [atb ipos it0 out] in P.
    destruct (Q Re) as [[-> [t Pt]]|(e & z & rest & -> & Be & Pe)].
    + rewrite Pt in P. destruct P as (Le & P & _). rewrite app_nil_r in Ho. rewrite <- Ho. apply P. intros j Hj. change (log (tc (strip (bl s)))) with (log (tc (bl s))) in *. apply T. lia.
    + rewrite Pe in P. destruct P as [_ P].
      assert (In (k, v) (out x)) as I.
      { apply (P (fst e) eq_refl (k, v)); [exact T|]. cbn. destruct (t_total leb HO k (fst e)) as [|L1]; auto.
        rewrite (beyond_up leb HO (lup r) (fst e) k Be L1) in B. discriminate. }
      rewrite Ho in I. apply in_app_or in I as [I|[->|[]]]; auto. cbn in Be. congruence.
Qed.
Lemma lC62_to_sound (K V : Type) (leb : K -> K -> bool) : tord leb ->
  forall (la lb : list (lbact K V)) sa s i u y k v, lbrun leb la lbinit = Some sa -> lrs sa i = None -> lbrun leb lb sa = Some s -> never_passes leb lb sa i ->
    spanned s i LNone u y -> In (k, v) y -> sometime leb (log (tc (bl s))) (length (log (tc (bl sa)))) (length (log (tc (bl s)))) k v.
Proof.
  intros HO la lb sa s i u y k v Ra Ni Rb N (r & Hr & L & <- & <-) I.
  destruct (span_lq leb HO la lb sa s i r Ra Ni Rb N Hr L) as [_ H]. destruct (ph r) as [d|x].
  - destruct H as (E & _). rewrite E in I. destruct I.
  - destruct H as [[_ O _] (tl & Ho & _)]. apply (O (k, v)). cbn [atb out]. rewrite Ho. apply in_or_app. now left.
Qed.

(** ** A run *)
(** A leaf is split under a range up to 4. *)
Definition b2 : list (lbact nat nat) :=
  [BNew 0 LNone (UIncl 4)] ++ bts 9
  ++ bt ([AInv 4 (OIns 0 50)] ++ go2 4 true ++ [SLock 4 5; SFrz 5 PUb (Some 1)])
  ++ [BL (LL (LPushHi 5)); BL (LL (LPushLo 5)); BL (LT (SIns 5))] ++ bts 4
  ++ [BL (LL (LDelO 5))] ++ bt ([SThaw 5; SSwap 5; SUnlock 5] ++ go2 4 false
       ++ [AInv 5 (ORem 3 (fun _ => true))] ++ go2 5 false ++ [AInv 6 (OIns 5 50)] ++ go2 6 false) ++ bts 12.
Definition c2 := bfin b2 c0.
Definition passb (s : lbs nat nat) (i : nat) : bool :=
  match lrs s i with
  | Some r => match ph r with PD (MMeta _ (_ :: _) n _ [] _) => match ub (nd (bl s) n) with UTo _ => false | _ => true end | _ => false end
  | None => false
  end.
Lemma passb_ok s i : passes s i -> passb s i = true.
Proof.
  intros (r & rt & w & f & n & M & k & Hr & P & U). unfold passb. rewrite Hr, P. destruct (ub (nd (bl s) n)) as [| |c] eqn:E; auto. destruct (U c eq_refl).
Qed.
Fixpoint staysb (l : list (lbact nat nat)) (s : lbs nat nat) (i : nat) : bool :=
  match l with
  | [] => true
  | a :: l => match a with BNext j => negb ((i =? j) && passb s i) | _ => true end
              && match lbstep Nat.leb a s with Some s' => staysb l s' i | None => true end
  end.
Lemma staysb_ok l : forall s i, staysb l s i = true -> never_passes Nat.leb l s i.
Proof.
  induction l as [|a l IH]; intros s i H l1 l2 s' E R P; [destruct l1; discriminate|]. cbn in H. apply andb_true_iff in H as [H1 H2].
  destruct l1 as [|a' l1]; cbn in E; injection E as -> ->.
  - injection R as <-. rewrite (passb_ok _ _ P), Nat.eqb_refl in H1. discriminate.
  - cbn in R. destruct (lbstep Nat.leb a' s) as [s1|]; [|discriminate]. exact (IH s1 i H2 l1 l2 s' eq_refl R P).
Qed.
Definition bend (s : lbs nat nat) i := match lrs s i with Some r => lend r | None => false end.
Lemma bend_ok s i : bend s i = true -> span_over s i.
Proof. unfold bend, span_over. destruct (lrs s i) as [r|]; [eauto|discriminate]. Qed.
Lemma b2_run : lbrun Nat.leb b2 c0 = Some c2.
Proof. apply bfin_run. vm_compute. reflexivity. Qed.
Lemma c2_log : log (tc (bl c2)) = [EIns 6 5 50; ERem 5 3; EIns 4 0 50; EIns 3 3 30; EIns 2 4 40; EIns 1 2 20; EIns 0 1 10].
Proof. vm_compute. reflexivity. Qed.
Lemma lC62_to_ex : exists sa s, lbrun Nat.leb b0 lbinit = Some sa /\ lrs sa 0 = None /\ lbrun Nat.leb b2 sa = Some s /\ never_passes Nat.leb b2 sa 0
  /\ spanned s 0 LNone (UIncl 4) [(1, 10); (2, 20); (4, 40)] /\ span_over s 0
  /\ throughout Nat.leb (log (tc (bl s))) (length (log (tc (bl sa)))) (length (log (tc (bl s)))) 4 40
  /\ log (tc (bl s)) = [EIns 6 5 50; ERem 5 3; EIns 4 0 50; EIns 3 3 30; EIns 2 4 40; EIns 1 2 20; EIns 0 1 10].
Proof.
  exists c0, c2. split; [exact b0_run|]. split; [vm_compute; reflexivity|]. split; [exact b2_run|]. split; [apply staysb_ok; vm_compute; reflexivity|].
  split; [apply bobs_ok; vm_compute; reflexivity|]. split; [apply bend_ok; vm_compute; reflexivity|]. split; [|exact c2_log].
  rewrite c2_log. intros j [L H]. assert (length (log (tc (bl c0))) = 4) as E by (vm_compute; reflexivity). rewrite E in L. cbn [length] in H.
  assert (j = 4 \/ j = 5 \/ j = 6 \/ j = 7) as [-> | [-> | [-> | ->]]] by lia; vm_compute; reflexivity.
Qed.
