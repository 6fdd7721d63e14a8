(** The invariant of the concurrent tree. *)
From Coq Require Import List Arith Bool Lia Sorting.Sorted.
From Verif Require Import TcModel TcRoute TcSpec.
Import ListNotations.

Section inv.
Context {K V : Type} (leb : K -> K -> bool) (HO : tord leb).
Notation heap := (nat -> obj K V).
Implicit Types (k s m : K) (h : heap) (r : option nat) (x y z u v w c p a lo hi : nat).
Notation pos := (pos leb).
Notation nx := (nx leb).
Notation get := (get leb).

Definition nxt h x k : option nat := nx (h x) k.
(** The nodes on the way of [k] from the root. *)
Inductive On h r k : nat -> Prop :=
| On_root n : r = Some n -> On h r k n
| On_step u z : On h r k u -> nxt h u k = Some z -> On h r k z.
Definition Live h r x : Prop := exists k, On h r k x.

(** What a job is about: the field, the child, the separating key, the replacements. *)
Definition jv (j : job K) : option (lpos * nat * option K * nat * nat) :=
  match j with
  | Swap0 o c low => Some (o, c, None, low, low)
  | Split o c m lo hi | Ins o c m lo hi _ | Full o c m lo hi _ _ => Some (o, c, Some m, lo, hi)
  | _ => None
  end.
Definition isIns (j : job K) : bool := match j with Ins _ _ _ _ _ _ => true | _ => false end.
Definition active (j : job K) : bool :=
  match j with Locked | Swap0 _ _ _ | Split _ _ _ _ _ | Ins _ _ _ _ _ _ | Full _ _ _ _ _ _ _ | CUb _ => true
  | _ => false end.
Definition sel (om : option K) (lo hi : nat) k : nat :=
  match om with Some m => if leb k m then lo else hi | None => hi end.
Definition wlt (w : option K) k : Prop := match w with Some m => leb k m = false | None => True end.
(** [c] is held by the job of [x]. *)
Definition held h x c : Prop :=
  match lvl (h c) with
  | 0 => fz (h c) = Orig x
  | S _ => exists o d m lo hi lns, jb (h c) = Full o d m lo hi (Some x) lns
  end.

(** The nodes being split below [x]: those on the way of [k], and all of them. *)
Inductive Path h x k : nat -> Prop :=
| P0 : Path h x k x
| PS p o a om lo hi : Path h x k p -> jv (jb (h p)) = Some (o, a, om, lo, hi) ->
    pos (h p) k = o -> Path h x k a.
Inductive Chain h x : nat -> Prop :=
| C1 o c om lo hi : jv (jb (h x)) = Some (o, c, om, lo, hi) -> Chain h x c
| C2 a o c om lo hi : Chain h x a -> jv (jb (h a)) = Some (o, c, om, lo, hi) -> Chain h x c.
(** [u] replaces [a], child of [p], for [k]. *)
Definition Rep h x k p a u : Prop :=
  Path h x k p /\ exists o om lo hi,
    jv (jb (h p)) = Some (o, a, om, lo, hi) /\ pos (h p) k = o /\ u = sel om lo hi k.
(** [s] is on the same side of the separating key as the replacement [u]. *)
Definition side h p u s : Prop := forall o a om lo hi,
  jv (jb (h p)) = Some (o, a, om, lo, hi) -> sel om lo hi s = u.
Definition notmid h p s : Prop := forall o a m lo hi,
  jv (jb (h p)) = Some (o, a, Some m, lo, hi) -> s <> m.

Definition wgt (ins : bool) (om : option K) k : Prop := ins = true -> wlt om k.
Definition ImgOK h r (ins : bool) (om : option K) k p a u : Prop :=
  ~ Live h r u /\ over (h u) = false
  /\ (lvl (h a) = 0 -> get (ents (h u)) k = get (ents (h a)) k
      /\ forall e, In e (ents (h u)) -> In e (ents (h a)) /\ side h p u (fst e) /\ wgt ins om (fst e))
  /\ (forall o' a' om' lo' hi', jv (jb (h a)) = Some (o', a', om', lo', hi') ->
      nxt h u k = (if lpos_eqb (pos (h a) k) o' then Some (sel om' lo' hi' k) else nxt h a k)
      /\ forall s, In s (keys (cells (h u))) ->
           (In s (keys (cells (h a))) \/ om' = Some s) /\ side h p u s /\ wgt ins om s /\ notmid h p s).

Record Job h r x o c om lo hi : Prop := {
  j_w : exists k0, On h r k0 c /\ wlt om k0;
  j_ins : isIns (jb (h x)) = true ->
    (forall k, pos (h x) k = o -> wlt om k) /\ over (h c) = true /\ wlo (h c) = om;
  j_img : forall k p a u, Rep h x k p a u -> wgt (isIns (jb (h x))) om k ->
    ImgOK h r (isIns (jb (h x))) om k p a u }.

Record Hld h (f : nat) x o c om lo hi : Prop := {
  l_ptr : ptr (h x) o = Some c;
  l_held : held h x c;
  l_lo : lo < f; l_hi : hi < f;
  l_lvlo : lvl (h lo) = lvl (h c); l_lvhi : lvl (h hi) = lvl (h c);
  l_ownlo : own (h lo) = x; l_ownhi : own (h hi) = x;
  l_neq : om <> None -> lo <> hi;
  l_hik : ~ In hi (kids (h x));
  l_lok : isIns (jb (h x)) = false -> ~ In lo (kids (h x));
  l_pos : isIns (jb (h x)) = false -> forall m, om = Some m -> pos (h x) m = o;
  l_none : om = None -> lvl (h c) = 0;
  l_sep : forall m o' c' om' lo' hi', om = Some m -> jv (jb (h c)) = Some (o', c', om', lo', hi') ->
    In m (keys (cells (h c))) \/ om' = Some m;
  l_over : over (h x) = true -> over (h c) = true }.

(** Which leaves a job keeps frozen. *)
Definition Fz h x : Prop :=
  lvl (h x) = 1 ->
  match jb (h x) with
  | Swap0 _ _ lo => fz (h lo) = Open
  | Split _ _ _ lo hi => fz (h lo) = Hold x /\ fz (h hi) = Open
  | Ins _ _ _ lo hi th => (th = false -> fz (h lo) = Hold x) /\ fz (h hi) = Open
  | Full _ _ _ lo hi _ _ => fz (h lo) = Hold x /\ fz (h hi) = Hold x
  | Commit _ lo hi _ i =>
      lo <> hi /\ own (h lo) = x /\ own (h hi) = x /\
      (i = 0 -> fz (h lo) = Hold x) /\ (i <= 1 -> fz (h hi) = Hold x)
  | _ => True
  end.

Record wfo h (f : nat) x : Prop := {
  w_leaf : lvl (h x) = 0 -> cells (h x) = [] /\ ub (h x) = UNull /\ jb (h x) = Idle;
  w_node : lvl (h x) <> 0 -> ents (h x) = [];
  w_kids : forall c, In c (kids (h x)) -> c < f /\ lvl (h x) = S (lvl (h c));
  w_wfc : wfc leb (cells (h x)) (nsl (h x));
  w_ub : (forall u, ub (h x) <> UTo u) -> cells (h x) = [];
  w_ret : ret (h x) = true -> ents (h x) = [];
  w_wlo : over (h x) = false -> wlo (h x) = None;
  w_over0 : over (h x) = true -> lvl (h x) = 0 -> exists n, fz (h x) = Orig n;
  w_over1 : over (h x) = true -> lvl (h x) <> 0 -> (exists u, ub (h x) = UTo u)
    /\ match jb (h x) with Full _ _ _ _ _ (Some _) _ | Commit _ _ _ _ _ | Poison => True | _ => False end;
  w_nd : match jb (h x) with
    | CUb j => NoDup (childs (cells (h x)))
        /\ exists pre s d, cells (h x) = pre ++ [(s, (j, d))] /\ ub (h x) = UTo d
    | _ => NoDup (kids (h x)) end;
  w_commit : match jb (h x) with
    | Commit c lo hi _ _ => (over (h x) = true /\ lo < f /\ hi < f)
        /\ (lvl (h x) <> 1 -> c < f /\ lvl (h c) <> 0 /\ held h x c /\ over (h c) = true)
    | _ => True end }.

Record HInv h (f : nat) r (lg : list (ev K V)) : Prop := {
  h_wf : forall x, x < f -> wfo h f x;
  h_root : forall n, r = Some n -> n < f /\ lvl (h n) <> 0 /\ over (h n) = false;
  h_tree : forall k1 k2 u v w, On h r k1 u -> nxt h u k1 = Some w ->
    On h r k2 v -> nxt h v k2 = Some w -> u = v;
  h_sep : forall x s, Live h r x -> In s (keys (cells (h x))) -> wlt (wlo (h x)) s -> On h r s x;
  h_mid : forall x o c m lo hi, x < f -> jv (jb (h x)) = Some (o, c, Some m, lo, hi) ->
    isIns (jb (h x)) = false -> Live h r x -> wlt (wlo (h x)) m -> On h r m x;
  h_wu : forall x, Live h r x -> exists k, On h r k x /\ pos (h x) k = PUb
    /\ forall o c m lo hi, jv (jb (h x)) = Some (o, c, Some m, lo, hi) ->
         isIns (jb (h x)) = false -> leb k m = false;
  h_ent : forall x k, Live h r x -> In k (map fst (ents (h x))) -> wlt (wlo (h x)) k -> On h r k x;
  h_wl : forall k x, On h r k x -> wlt (wlo (h x)) k;
  h_abs1 : forall k x, On h r k x -> lvl (h x) = 0 -> get (ents (h x)) k = abs leb lg k;
  h_abs2 : forall k, abs leb lg k <> None -> exists x, On h r k x /\ lvl (h x) = 0;
  h_over : forall k u z, On h r k u -> nxt h u k = Some z -> over (h z) = true ->
    exists o om lo hi, jv (jb (h u)) = Some (o, z, om, lo, hi)
      /\ ((over (h u) = true /\ wlo (h u) = wlo (h z))
          \/ (over (h u) = false /\ isIns (jb (h u)) = true));
  h_act : forall x, x < f -> active (jb (h x)) = true -> over (h x) = false ->
    Live h r x \/ ub (h x) = URet;
  h_hld : forall x o c om lo hi, x < f -> jv (jb (h x)) = Some (o, c, om, lo, hi) ->
    Hld h f x o c om lo hi;
  h_fz : forall x, x < f -> Fz h x;
  h_job : forall x o c om lo hi, x < f -> jv (jb (h x)) = Some (o, c, om, lo, hi) ->
    over (h x) = false -> Job h r x o c om lo hi }.
End inv.
Global Arguments On_root {K V} leb h r k n _.
Global Arguments On_step {K V} leb h r k u z _ _.
