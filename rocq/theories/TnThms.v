(** Nothing is yielded that was never inserted. *)
From Coq Require Import List Arith Bool.
From Verif Require Import TcModel TcRoute TcSpec TcLin TiModel TiSpec RgModel LbModel LbSpec LbThms TmModel TmSpec TmThms TnFacts.
Import ListNotations.

Lemma lC57_tn (K V : Type) (leb : K -> K -> bool) : tord leb ->
  forall (l : list (mact K V)) s i b y k v, mrun leb l minit = Some s -> walked s i b y -> In (k, v) y ->
    sometime leb (log (tc (ml s))) 0 (length (log (tc (ml s)))) k v.
Proof.
  intros HO l s i b y k v R (x & Hx & _ & Hy) Hin.
  destruct (wm_run leb l minit s) as [_ W]; auto. { split; [exact es_init|]. discriminate. }
  specialize (W i x Hx). apply (was_sometime leb HO _ (k, v)). unfold Wm, mout in *. rewrite <- Hy in Hin. destruct (mp x); try destruct Hin. now apply (proj1 W).
Qed.
Lemma lC62_tn (K V : Type) (leb : K -> K -> bool) : tord leb ->
  forall (l : list (lbact K V)) s i lo up y k v, lbrun leb l lbinit = Some s -> spanned s i lo up y -> In (k, v) y ->
    sometime leb (log (tc (bl s))) 0 (length (log (tc (bl s)))) k v.
Proof.
  intros HO l s i lo up y k v R (x & Hx & _ & _ & Hy) Hin.
  destruct (wb_run leb l lbinit s) as [_ W]; auto. { split; [exact es_init|]. discriminate. }
  apply (was_sometime leb HO _ (k, v)). apply (proj1 (W i x Hx)). now rewrite Hy.
Qed.

Definition stale : list (ev nat nat) :=
  [ERem 12 20; ERem 11 15; ERem 10 10; EIns 9 15 1; EIns 7 35 8; EIns 6 70 7; EIns 5 50 5; EIns 4 60 6; EIns 3 40 4;
   EIns 2 30 3; EIns 1 20 2; EIns 0 10 1].
Lemma lC57_tn_ex : exists s, mrun Nat.leb (xa ++ xb) minit = Some s /\ walked s 0 12 [(10, 1)] /\ log (tc (ml s)) = stale.
Proof.
  exists (mfin (xa ++ xb) minit). split; [apply mfin_run; vm_compute; reflexivity|].
  split; [apply mobs_ok; vm_compute; reflexivity|vm_compute; reflexivity].
Qed.
Lemma lC62_tn_ex : exists s, lbrun Nat.leb (za ++ zb) lbinit = Some s /\ spanned s 0 LNone (UIncl 25) [(10, 1)] /\ log (tc (bl s)) = stale.
Proof.
  exists (rfin (za ++ zb) lbinit). split; [apply rfin_run; vm_compute; reflexivity|].
  split; [apply robs_ok; vm_compute; reflexivity|vm_compute; reflexivity].
Qed.
