(** The reference for histories in which user code panics: an association list.  [out = None] says that
    the operation unwound. *)
From Coq Require Import NArith.
From stdpp Require Import prelude list numbers.
From Verif Require Import BucketModel TableModel MapSpec MapModel MapRef TuModel.

Section tu_spec.
Context {K V : Type} `{EqDecision K}.
Implicit Types m : list (K * V).

(** The operation took effect as usual. *)
Definition usual m (o : mop K V) m' (out : option (mout K V)) drops : Prop :=
  exists w, out = Some w /\ out_eq w (r_out (rstep m o)) /\ m' = r_map (rstep m o) /\ drops = r_drops (rstep m o).
(** The operation unwound and changed nothing. *)
Definition nothing m m' (out : option (mout K V)) (drops : list (K * V)) : Prop := out = None /\ m' = m /\ drops = [].

(** What a predicate makes of the entries [vs]: those that stay and those that are dropped. *)
Definition stay_of (p : K * V -> V * option bool) (vs : list (K * V)) : list (K * V) :=
  map (fun e => (e.1, (p e).1)) (filter (fun e => (p e).2 = Some true) vs).
Definition gone_of (p : K * V -> V * option bool) (vs : list (K * V)) : list (K * V) :=
  map (fun e => (e.1, (p e).1)) (filter (fun e => (p e).2 = Some false) vs).
(** [retain]: the entries are visited in some order.  All of them; or the predicate unwinds on [e]; or
    [Hash] unwinds after the entries [vs]. *)
Definition retained (p : K * V -> V * option bool) m m' (out : option (mout K V)) drops : Prop :=
  exists vs, (forall e, e ∈ vs -> (p e).2 <> None) /\ drops = gone_of p vs /\
    ((out = Some OUnit /\ m ≡ₚ vs /\ m' = stay_of p vs) \/
     (exists e rs, out = None /\ (p e).2 = None /\ m ≡ₚ vs ++ e :: rs /\ m' = stay_of p vs ++ (e.1, (p e).1) :: rs) \/
     (exists rs, out = None /\ m ≡ₚ vs ++ rs /\ m' = stay_of p vs ++ rs)).

Definition ref_step m (u : uop K V) m' (out : option (mout K V)) (drops : list (K * V)) : Prop :=
  match u with
  | UDone o => usual m o m' out drops
  | UHash _ (MRetain p) => retained (fun e => ((p e).1, Some (p e).2)) m m' out drops
  | UHash _ MClear => retained (fun e => (e.2, Some false)) m m' out drops
  | UHash _ o => usual m o m' out drops \/ nothing m m' out drops
  | UEq o => match key_of o with Some _ => nothing m m' out drops | None => usual m o m' out drops end
  | UUpdate k f =>
    drops = [] /\
    match assoc k m with
    | None => m' = m /\ out = Some (OValue None)
    | Some v => m' = put k (f k v).1 m /\ out = option_map (fun x => OValue (Some x)) (f k v).2
    end
  | URemoveIf k c =>
    drops = [] /\
    match assoc k m with
    | None => m' = m /\ out = Some (OEntry None)
    | Some v =>
      match (c v).2 with
      | None => m' = put k (c v).1 m /\ out = None
      | Some false => m' = put k (c v).1 m /\ out = Some (OEntry None)
      | Some true => m' = del k m /\ out = Some (OEntry (Some (k, (c v).1)))
      end
    end
  | UEntry k f => drops = [] /\ out = None /\ m' = match assoc k m with Some v => put k (f v) m | None => m end
  | URetain _ p => retained p m m' out drops
  end.
Inductive ref_run : list (K * V) -> list (uop K V) -> list (option (mout K V)) -> list (K * V) -> list (K * V) -> Prop :=
| RefNil m : ref_run m [] [] m []
| RefCons m u out m1 d1 us outs m2 d2 :
    ref_step m u m1 out d1 -> ref_run m1 us outs m2 d2 -> ref_run m (u :: us) (out :: outs) m2 (d1 ++ d2).
End tu_spec.
