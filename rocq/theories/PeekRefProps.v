(** Lock-free reads of a HashIndex: what does not hold. *)
From Coq Require Import NArith.
From stdpp Require Import prelude list numbers.
From Verif Require Import PeekModel PeekSpec PeekWit.

(** ** C18 *)
(** One thread replaces the value of the key, an entry with the key is in the table at every instant of
    the call, and the call answers that there is none. *)
Theorem C18_update_refuted : exists (hash : N -> N) n acts (s : state N N) t k l s' v,
  (forall k, (hash k < 2 ^ 64)%N) /\ run hash (init n) acts = Some s /\ called s t k /\
  run hash s l = Some s' /\ AFinish t ∉ l /\
  omap op_of l = [OClear 0 0 1; OClear 0 0 0; OInsert 0 k v; OMark 0 0 1 0] /\
  during hash s l (fun s => exists x, okey x = k /\ stored s x) /\ answered s' t k None.
Proof.
  exists low, 3, passing, (reach 3 passing), 1, 32%N, update_acts. eexists. exists 7%N.
  split; [apply low_64|]. split; [vm_compute; reflexivity|].
  split; [eexists; split; vm_compute; reflexivity|]. split; [vm_compute; reflexivity|].
  split; [intros H; apply elem_of_list_In in H; vm_compute in H; repeat destruct H as [H|H]; done|].
  split; [vm_compute; reflexivity|]. split.
  - apply (along_during (fun s => has s 32%N [(0, 0, 0, 5); (0, 0, 1, 0)])); [intros; by eapply has_stored|vm_compute; reflexivity].
  - eexists. split; vm_compute; reflexivity.
Qed.
Print Assumptions C18_update_refuted.

(** ** C50 *)
(** A call has found the entry, nobody removes it, and a call that starts afterwards does not find it. *)
Theorem C50_found_then_missed_refuted : exists (hash : N -> N) n acts (s : state N N) t u k x l s',
  (forall k, (hash k < 2 ^ 64)%N) /\ run hash (init n) acts = Some s /\ answered s t k (Some x) /\
  called s u k /\ run hash s l = Some s' /\ omap op_of l = [] /\
  during hash s l (fun s => exists x, okey x = k /\ stored s x) /\ answered s' u k None.
Proof.
  exists low, 3, early_acts, (reach 3 early_acts), 1, 2, 2%N, (1, (2%N, 9%N)), late_acts. eexists.
  split; [apply low_64|]. split; [vm_compute; reflexivity|].
  split; [eexists; split; vm_compute; reflexivity|]. split; [eexists; split; vm_compute; reflexivity|].
  split; [vm_compute; reflexivity|]. split; [vm_compute; reflexivity|]. split.
  - apply (along_during (fun s => has s 2%N [(0, 0, 0, 0); (0, 0, 0, 1)])); [intros; by eapply has_stored|vm_compute; reflexivity].
  - eexists. split; vm_compute; reflexivity.
Qed.
Print Assumptions C50_found_then_missed_refuted.
