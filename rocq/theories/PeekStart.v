(** Starting an operation keeps the invariant. *)
From Coq Require Import NArith Lia.
From stdpp Require Import prelude list numbers.
From Verif Require BucketSpec BucketFacts BucketOps.
From Verif Require Import PeekModel PeekSpec PeekInv PeekGood PeekOps PeekOps2 PeekStore PeekGlob.

Section start.
Context {K V : Type} `{EqDecision K} (hash : K -> N) (hash64 : forall k, (hash k < 2 ^ 64)%N).
Notation obj := (obj K V).
Notation node := (node K V).
Notation bucket := (bucket K V).
Notation array := (array K V).
Notation state := (state K V).
Notation writer := (writer K V).
Implicit Types (b : bucket) (nd : node) (x : obj) (n j h : nat) (w : writer) (st : state) (m : list array) (p : nat * nat).
Implicit Types (E g e : N) (bs : list bucket) (ex : list (nat * nat * nat)) (exs : nat -> list (nat * nat * nat)).
Local Arguments BucketModel.bit : simpl never.
Local Arguments BucketModel.trailing_ones : simpl never.
Local Arguments BucketSpec.tb : simpl never.
Local Arguments N.lor : simpl never.
Local Arguments N.ldiff : simpl never.
Local Arguments live_at : simpl never.
Local Arguments lv : simpl never.
Local Arguments byte : simpl never.
Local Arguments doomed : simpl never.
Local Arguments bucket_at : simpl never.

Lemma start_fresh st exs o w g : inv hash st exs -> (g <= epoch st)%N -> start hash st o = Some w -> exists ex, fresh hash st w g ex.
Proof.
  intros I Lg S. destruct o as [a k v|a i n j|a i n|a i|i n j]; unfold start in S.
  - destruct (mem st !! a) as [ar|] eqn:Ea; [|done]. cbn [mbind option_bind] in S.
    destruct (open_bucket st (a, place hash ar k) false) as [b|] eqn:Ob; [|done]. cbn [mbind option_bind] in S.
    destruct (insert_writes b (ids st, (k, v)) (partial_hash (hash k))) as [l|] eqn:Wl; [|done]. cbn [mbind option_bind] in S. injection S as <-.
    apply open_some in Ob as (Eb & U & F). set (p := (a, place hash ar k)) in *.
    pose proof (v_idle _ _ _ I p b Eb U) as Id.
    destruct (insert_safe hash (epoch st) g [ids st] (fun _ => Ip hash (mem st) p) 0 [b] b (ids st, (k, v)) [] (partial_hash (hash k)) l) as (ex & Sf & On & Lx);
      try done; [apply others_1|by exists ar|left; left| |].
    { intros b' n' j' Ib _ e _. split; [|split; [apply cov_nil|split; [done|]]].
      - intros [|h] b'' Lb; [|by destruct h]. cbn in Lb. injection Lb as <-. apply good_nil, Ib.
      - intros [|h] b'' Lb; [|by destruct h]. cbn in Lb. by injection Lb as <-. }
    exists ex. rewrite app_nil_r in Sf. eapply fresh_1; try done; [by eapply insert_occs_1| |].
    + intros n j x Mx Lv. rewrite (Lx n j Mx) in Lv. done.
    + intros g' n nd j o En (Oj & _) _ Mo. destruct (insert_occs _ _ _ _ _ _ Wl Mo) as (nd' & En' & ->). rewrite En in En'. injection En' as <-.
      by rewrite BucketFacts.tb_lor, Oj.
  - destruct (open_bucket st (a, i) false) as [b|] eqn:Ob; [|done]. cbn [mbind option_bind] in S.
    destruct (live_at b n j) as [x|] eqn:Lv; [|done]. cbn [mbind option_bind] in S.
    unfold mark_writes in S. destruct (nodes b !! n) as [nd|] eqn:En; [|done]. cbn [mbind option_bind] in S. injection S as <-.
    apply open_some in Ob as (Eb & U & F). pose proof (v_idle _ _ _ I _ b Eb U) as Id. exists [(0, n, j)].
    apply (fresh_1 hash st exs (a, i) b [x.1] [WLen (pred (blen b)); WStamp n j; WRem n (N.lor (rem nd) (bit j))]); try done.
    + eapply mark_safe; try done. left.
    + by apply Nat.leb_le.
    + intros n' j' y My Ly. apply elem_of_list_singleton in My as [= -> ->]. rewrite Lv in Ly. injection Ly as <-. left.
    + intros g' n' nd' j' o _ _ _ Mo. cbn in Mo. by apply elem_of_nil in Mo.
  - destruct (open_bucket st (a, i) false) as [b|] eqn:Ob; [|done]. cbn [mbind option_bind] in S.
    destruct (bool_decide _) eqn:Ch; [|done]. apply bool_decide_eq_true in Ch.
    destruct (clear_writes b n (epoch st)) as [l|] eqn:Wl; [|done]. cbn [mbind option_bind] in S. injection S as <-.
    apply open_some in Ob as (Eb & U & F). pose proof (v_idle _ _ _ I _ b Eb U) as Id. exists [].
    destruct (clear_occs _ _ _ _ Wl) as (nd & En & Oc & Pc).
    eapply fresh_1; try done.
    + eapply clear_safe; done.
    + intros n' j' y My. by apply elem_of_nil in My.
    + intros g' n' nd' j o En' Hb Lg' Mo. rewrite Oc in Mo. apply elem_of_list_singleton in Mo as [= -> ->].
      rewrite En in En'. injection En' as <-. rewrite BucketFacts.tb_ldiff, (not_doomed _ _ _ _ Hb Lg'). by rewrite (proj1 Hb).
  - destruct (open_bucket st (a, i) false) as [b|] eqn:Ob; [|done]. cbn [mbind option_bind] in S.
    unfold reserve_writes in S. destruct (list.last (chain b)) as [n|] eqn:La; [|done]. cbn [mbind option_bind] in S. injection S as <-.
    apply open_some in Ob as (Eb & U & F). pose proof (v_idle _ _ _ I _ b Eb U) as Id. exists [].
    apply (fresh_1 hash st exs (a, i) b [] [WNew (new_node 8); WNext n (Some (length (nodes b)))]); try done.
    + eapply reserve_safe; done.
    + intros n' j' y My. by apply elem_of_nil in My.
    + intros g' n' nd' j' o _ _ _ Mo. cbn in Mo. by apply elem_of_nil in Mo.
  - destruct (cur st) as [a|] eqn:Ec; [|done]. cbn [mbind option_bind] in S.
    destruct (mem st !! a) as [ar|] eqn:Ea; [|done]. cbn [mbind option_bind] in S.
    destruct (linked ar) as [o|] eqn:Eo; [|done]. cbn [mbind option_bind] in S.
    destruct (open_bucket st (o, i) true) as [s|] eqn:Os; [|done]. cbn [mbind option_bind] in S.
    destruct (live_at s n j) as [x|] eqn:Lv; [|done]. cbn [mbind option_bind] in S.
    destruct (nodes s !! n) as [nd|] eqn:En; [|done]. cbn [mbind option_bind] in S.
    destruct (cells nd !! j) as [c|] eqn:Cj; [|done]. cbn [mbind option_bind] in S.
    destruct (open_bucket st (a, place hash ar (okey x)) false) as [t|] eqn:Ot; [|done]. cbn [mbind option_bind] in S.
    destruct (insert_writes t x c) as [l|] eqn:Wl; [|done]. cbn [mbind option_bind] in S.
    unfold out_writes in S. rewrite En in S. cbn [mbind option_bind] in S. injection S as <-.
    apply open_some in Os as (Es & Us & Fs). apply open_some in Ot as (Et & Ut & Ft).
    set (p := (o, i)) in *. set (q := (a, place hash ar (okey x))) in *.
    pose proof (v_idle _ _ _ I p s Es Us) as Ids. pose proof (v_idle _ _ _ I q t Et Ut) as Idt.
    set (W := Writer [] [p; q] _). assert (old_of st = Some o) as Old. { unfold old_of. rewrite Ec. cbn. by rewrite Ea. }
    assert (o <> a) as Doa. { intros ->. destruct (v_arr _ _ _ I a ar Ea) as (_ & _ & A). destruct (A a Eo) as [_ A2]. congruence. }
    assert (c = partial_hash (hash (okey x))) as Hc.
    { destruct Ids as (Gs & _). destruct (g_cells _ _ _ _ Gs n j x nd En Lv) as (C1 & _); [intros []|]. congruence. }
    assert (locked (mem st) W [s; t]) as Lk by (unfold locked; cbn; by repeat constructor).
    assert (one_occ (todo W)) as Oo.
    { change (one_occ (map (pair 1) l ++ map (pair 0) [WOcc n (N.ldiff (occ nd) (bit j)); WLen (pred (blen s))])). apply one_occ_app.
      - by eapply one_occ_map, insert_occs_1.
      - apply one_occ_map. by apply Nat.leb_le.
      - intros h y1 n2 o2 M1 M2. apply in_map_h in M1 as [-> _]. apply in_map_h in M2 as [? _]. done. }
    destruct (insert_safe hash (epoch st) g [] (Isw hash (mem st) W) 1 [s; t] t x
      (map (pair 0) [WOcc n (N.ldiff (occ nd) (bit j)); WLen (pred (blen s))]) c l) as (ex & Sf & On & Lx); try done.
    { intros [|[|h]] b' Dh Lb; cbn in Lb; [|done|by destruct h]. injection Lb as <-. apply Ids. }
    { by exists ar. }
    { right. exists 0, n, j, s. done. }
    { intros t' n' j' It' Lt' e Le. change (<[1:=t']> [s; t]) with [s; t']. eapply out_safe; try done. }
    assert (forall g' h p' b n nd j o, held W !! h = Some p' -> bucket_at (mem st) p' = Some b -> frozen b = false -> nodes b !! n = Some nd ->
            held_back (epoch st) g' nd j -> (epoch st <= g' + 1)%N -> (h, WOcc n o) ∈ todo W -> tb o j = true) as Qt.
    { intros g' h p' b' n1 nd1 j1 o1 Lh Eb' F' En1 (Oj & _) _ Mo. change ((h, WOcc n1 o1) ∈ map (pair 1) l ++ map (pair 0) [WOcc n (N.ldiff (occ nd) (bit j)); WLen (pred (blen s))]) in Mo. apply elem_of_app in Mo as [Mo|Mo].
      - pose proof (in_map_h _ _ _ _ Mo) as [-> _]. cbn in Lh. injection Lh as <-. rewrite Et in Eb'. injection Eb' as <-.
        apply occs_in in Mo. destruct (insert_occs _ _ _ _ _ _ Wl Mo) as (nd' & En' & ->). rewrite En1 in En'. injection En' as <-.
        by rewrite BucketFacts.tb_lor, Oj.
      - apply in_map_h in Mo as [-> _]. cbn in Lh. injection Lh as <-. congruence. }
    exists ex. split; [| | | |exact Qt].
    + split.
      * cbn. apply list.NoDup_cons. split; [|apply NoDup_singleton]. intros M. apply elem_of_list_singleton in M as [= Z _]. done.
      * exists [s; t]. split; [done|]. split; [done|]. apply (calm_of st _ _ (epoch st)); [done|done|lia|]. intros h p' b' n1 nd1 j1 o1. apply Qt.
    + intros p' M. cbn in M. apply elem_of_cons in M as [->|M]; [|apply elem_of_list_singleton in M as ->]; (split; [done|]); [by right|by left].
    + intros h p' b' n1 j1 y Lh Eb' My Ly. exfalso. pose proof (On _ _ _ My) as ->. cbn in Lh. injection Lh as <-. rewrite Et in Eb'. injection Eb' as <-.
      by rewrite (Lx _ _ My) in Ly.
    + intros p' q' Lp Lq. cbn in Lp, Lq. injection Lp as <-. injection Lq as <-. done.
Qed.
End start.
