(** Theorems about iterators over a shared TreeIndex. *)
From Coq Require Import List Arith Bool.
From Verif Require Import TcModel TcRoute TcSpec TcLin TcOps TiModel TiSpec TiWit TiCur TiLoop TiAsc TiCalls.
Import ListNotations.
Lemma lC56_refuted : exists (l : list (lsact nat nat)) s b y, lsrun Nat.leb l linit = Some s /\ no_removals l /\ iterated s 0 b y
  /\ ~ ascending Nat.leb (map fst y) /\ ~ NoDup (map fst y).
Proof. exact wit_twice. Qed.
Lemma lC56_ordered (K V : Type) (leb : K -> K -> bool) : tord leb ->
  forall (l : list (lsact K V)) s i b y, lsrun leb l linit = Some s -> no_rollback l -> iterated s i b y -> ascending leb (map fst y).
Proof. intros HO l s i b y R N. exact (run_ascending leb HO l s i b y R N). Qed.
Definition no_unm (a : lsact nat nat) : bool := match a with LL (LUnm _) => false | _ => true end.
Definition is_push5 (a : lsact nat nat) : bool := match a with LL (LPushLo n) => n =? 5 | _ => false end.
Lemma lC56_ex : exists s, lsrun Nat.leb u2 linit = Some s /\ no_rollback u2 /\ iterated s 0 4 [(1, 10); (2, 20); (4, 40); (5, 50)]
  /\ u2 = u0 ++ u2b /\ In (LL (LPushLo 5)) u2b.
Proof.
  destruct u2_ok as (s & R & It & _). exists s. split; [exact R|]. split; [|split; [exact It|split; [reflexivity|]]].
  - intros n H. assert (forallb no_unm u2 = true) as F by (vm_compute; reflexivity).
    pose proof (proj1 (forallb_forall no_unm u2) F _ H) as E. discriminate E.
  - assert (existsb is_push5 u2b = true) as E by (vm_compute; reflexivity).
    apply (proj1 (existsb_exists is_push5 u2b)) in E as (a & Ha & E). destruct a as [|[ |n| | | | | ]|]; try discriminate E.
    cbn in E. apply Nat.eqb_eq in E. rewrite E in Ha. exact Ha.
Qed.

Lemma lC57_complete (K V : Type) (leb : K -> K -> bool) : tord leb ->
  forall (l : list (lsact K V)) s i b e y k v, lsrun leb l linit = Some s -> iterated s i b y -> finished s i e ->
    throughout leb (log (tc s)) b e k v -> In (k, v) y.
Proof.
  intros HO l s i b e y k v R (x & Hx & <- & <-) (x' & Hx' & P) T. assert (x' = x) as -> by congruence.
  destruct (ri_run leb HO l _ _ (ri_init leb) R) as [_ A]. destruct (A i x Hx) as [_ _ Q]. rewrite P in Q. destruct Q as (_ & Q & _). now apply Q.
Qed.
Lemma lC57_sound (K V : Type) (leb : K -> K -> bool) : tord leb ->
  forall (l : list (lsact K V)) s i b y k v, lsrun leb l linit = Some s -> iterated s i b y -> In (k, v) y ->
    sometime leb (log (tc s)) b (length (log (tc s))) k v /\ forall e, finished s i e -> sometime leb (log (tc s)) b e k v.
Proof.
  intros HO l s i b y k v R (x & Hx & <- & <-) Hy.
  destruct (ri_run leb HO l _ _ (ri_init leb) R) as [_ A]. destruct (A i x Hx) as [_ O Q]. split; [exact (O _ Hy)|].
  intros e (x' & Hx' & P). assert (x' = x) as -> by congruence. rewrite P in Q. destruct Q as (_ & _ & Q). exact (Q _ Hy).
Qed.

Lemma lC57_inserted (K V : Type) (leb : K -> K -> bool) : tord leb ->
  forall (la lb lc : list (lsact K V)) sa sb s t k v i b e y,
    lsrun leb la linit = Some sa -> lsrun leb lb sa = Some sb -> lsrun leb lc sb = Some s ->
    all_returned sa (removal k) -> none_begins sa s (removal k) ->
    ops (tc sa) t = None -> call sb t (OIns k v) -> returned (tc sb) t (RIns true) -> its sb i = None ->
    iterated s i b y -> finished s i e -> In (k, v) y.
Proof. intros HO la lb lc sa sb s t k v i b e y Ra Rb Rc. exact (seen_inserted leb HO la lb lc sa sb s Ra Rb Rc t k v i b e y). Qed.
Lemma lC57_removed (K V : Type) (leb : K -> K -> bool) : tord leb ->
  forall (la lb lc : list (lsact K V)) sa sb s t k c i b y w,
    lsrun leb la linit = Some sa -> lsrun leb lb sa = Some sb -> lsrun leb lc sb = Some s ->
    all_returned sa (insertion k) -> none_begins sa s (insertion k) ->
    ops (tc sa) t = None -> call sb t (ORem k c) -> returned (tc sb) t (RRem true) -> its sb i = None ->
    iterated s i b y -> ~ In (k, w) y.
Proof. intros HO la lb lc sa sb s t k c i b y w Ra Rb Rc. exact (skipped_removed leb HO la lb lc sa sb s Ra Rb Rc t k c i b y w). Qed.
