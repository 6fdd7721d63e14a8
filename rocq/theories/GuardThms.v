(** Proofs about exit guards. *)
From Coq Require Import Lia.
From stdpp Require Import prelude list.
From Verif Require Import GuardModel GuardSpec.

Section facts.
Context {T : Type}.
Notation stmt := (stmt T). Notation local := (local T). Notation event := (event T).
Implicit Types (p d : list stmt) (gs : list local) (log : list event) (i j : nat).

Lemma about_app i log log' : about i (log ++ log') = about i log ++ about i log'.
Proof. unfold about. apply List.filter_app. Qed.
Lemma about_ran i j v : about i [Ran j v] = if decide (j = i) then [Ran j v] else [] :> list event.
Proof. unfold about. simpl. case_bool_decide; by destruct (decide _). Qed.
Lemma about_freed i j v : about i [Freed j v] = if decide (j = i) then [Freed j v] else [] :> list event.
Proof. unfold about. simpl. case_bool_decide; by destruct (decide _). Qed.

(** State of guard [i] after the statements [d]. *)
Definition ok1 d i (g : local) (log : list event) : Prop :=
  exists v, latest i d = Some v /\
    (g = Local (Full v) true /\ about i log = [] /\ ~ forgotten i d \/
     g = Local Empty false /\ about i log = [Ran i v] /\ ~ forgotten i d \/
     g = Local Empty false /\ about i log = [Freed i v] /\ forgotten i d).
Definition ok d gs log : Prop := length gs = length (initial d) /\
  (forall i g, gs !! i = Some g -> ok1 d i g log) /\ (forall i, length gs <= i -> about i log = [] /\ ~ forgotten i d /\ updates i d = []).

Lemma latest_app_other d x i : (forall f, x <> SMut i f) -> (forall v, x <> SNew v) ->
  latest i (d ++ [x]) = latest i d.
Proof.
  intros N1 N2. unfold latest, updates, initial. rewrite !omap_app. destruct x; simpl; rewrite ?app_nil_r; try done.
  - by edestruct N2.
  - destruct (decide (i0 = i)) as [->|]; [by edestruct N1|by rewrite app_nil_r].
Qed.
Lemma latest_app_new d v i : i < length (initial d) -> latest i (d ++ [SNew v]) = latest i d.
Proof.
  intros L. unfold latest, updates, initial in *. rewrite !omap_app. simpl. rewrite app_nil_r, lookup_app_l; done.
Qed.
Lemma latest_app_mut d f i v : latest i d = Some v -> latest i (d ++ [SMut i f]) = Some (f v).
Proof.
  unfold latest, updates, initial. rewrite !omap_app. simpl. rewrite decide_True by done. rewrite app_nil_r.
  destruct (_ !! i); simpl; [|done]. intros [= <-]. by rewrite fold_left_app.
Qed.
Lemma forgotten_app d x i : forgotten i (d ++ [x]) <-> forgotten i d \/ x = SForget i.
Proof. unfold forgotten. rewrite elem_of_app, elem_of_list_singleton. naive_solver. Qed.

(** A guard that was not dropped yet is dropped. *)
Lemma drop_ok d gs log i : ok d gs log -> is_owned i gs = true ->
  exists v, gs !! i = Some (Local (Full v) true) /\
    drop_guard i gs log = Some (<[i := Local Empty false]> gs, log ++ [Ran i v]) /\
    ok d (<[i := Local Empty false]> gs) (log ++ [Ran i v]).
Proof.
  intros (L & H & Hn) O. unfold is_owned in O. destruct (gs !! i) as [g|] eqn:G; [|done].
  destruct (H i g G) as (v & La & [(-> & Ab & Fo)|[(-> & _)|(-> & _)]]); try done.
  exists v. split; [done|]. split.
  - unfold drop_guard, move_out. rewrite G. unfold take_out.
    rewrite list_lookup_insert by (by eapply lookup_lt_Some). by rewrite list_insert_insert.
  - split; [by rewrite insert_length|]. split.
    + intros j g Gj. destruct (decide (j = i)) as [->|N].
      * rewrite list_lookup_insert in Gj by (by eapply lookup_lt_Some). injection Gj as <-.
        exists v. split; [done|]. right. left. rewrite about_app, about_ran, decide_True, Ab by done. done.
      * rewrite list_lookup_insert_ne in Gj by done. destruct (H j g Gj) as (w & Lw & C). exists w. split; [done|].
        rewrite about_app, about_ran, decide_False, app_nil_r by done. done.
    + rewrite insert_length. intros j Lj. rewrite about_app, about_ran, decide_False, app_nil_r; [by apply Hn|].
      intros ->. apply lookup_lt_Some in G. lia.
Qed.

(** ** Leaving the scope *)
Lemma leave_ok bad d i unw gs log log' o : ok d gs log -> i <= length gs ->
  (forall j, i <= j -> is_owned j gs = false) -> leave bad i unw gs log = (log', o) ->
  o <> UB /\ exists gs', ok d gs' log' /\ length gs' = length gs /\ (o <> Aborted -> forall j, is_owned j gs' = false).
Proof.
  revert unw gs log. induction i as [|i IH]; intros unw gs log Ok Li No E; simpl in E.
  - injection E as <- <-. split; [by destruct unw|]. exists gs. split; [done|]. split; [done|]. intros _ j. apply No. lia.
  - destruct (is_owned i gs) eqn:O.
    + destruct (drop_ok d gs log i Ok O) as (v & G & D & Ok'). rewrite D in E.
      assert (No' : forall j, i <= j -> is_owned j (<[i:=Local Empty false]> gs) = false).
      { intros j Lj. unfold is_owned. destruct (decide (j = i)) as [->|N].
        - by rewrite list_lookup_insert by (by eapply lookup_lt_Some).
        - rewrite list_lookup_insert_ne by done. apply (No j). lia. }
      assert (Rec : forall unw, leave bad i unw (<[i:=Local Empty false]> gs) (log ++ [Ran i v]) = (log', o) ->
        o <> UB /\ exists gs', ok d gs' log' /\ length gs' = length gs /\ (o <> Aborted -> forall j, is_owned j gs' = false)).
      { intros unw' E'. destruct (IH unw' _ _ Ok') as (X & gs' & Y1 & Y2 & Y3); [rewrite insert_length; lia|done|done|].
        split; [done|]. exists gs'. rewrite insert_length in Y2. done. }
      destruct (bad i); [destruct unw|]; [|by eapply Rec|by eapply Rec].
      injection E as <- <-. split; [done|]. eexists. split; [done|]. split; [by rewrite insert_length|done].
    + eapply IH; [done|lia| |done]. intros j Lj. destruct (decide (j = i)) as [->|]; [done|]. apply No. lia.
Qed.

(** ** The statements *)
Definition result d (m : nat) log' o : Prop :=
  o <> UB /\ exists gs', ok d gs' log' /\ length gs' = m /\ (o <> Aborted -> forall j, is_owned j gs' = false).
Lemma fin_ok bad d unw gs log log' o : ok d gs log -> leave bad (length gs) unw gs log = (log', o) -> result d (length gs) log' o.
Proof.
  intros Ok E. eapply (leave_ok bad d (length gs)); [done|lia| |done].
  intros j Lj. unfold is_owned. by rewrite lookup_ge_None_2.
Qed.
Lemma exec_ok bad crash p : forall d gs log n' m log' o, ok d gs log ->
  exec bad crash (length d) p gs log = Some (n', m, (log', o)) ->
  length d <= n' /\ result (d ++ take (n' - length d) p) m log' o.
Proof.
  induction p as [|x p IH]; intros d gs log n' m log' o Ok E; simpl in E.
  - assert (Q : exists unw, Some (length d, length gs, leave bad (length gs) unw gs log) = Some (n', m, (log', o))).
    { destruct (decide _); [by exists true|by exists false]. }
    destruct Q as (unw & Q). injection Q as <- <- Q. split; [done|]. rewrite take_nil, app_nil_r. by eapply fin_ok.
  - destruct (decide (crash = Some (length d))).
    { injection E as <- <- E. split; [done|]. rewrite Nat.sub_diag. simpl. rewrite app_nil_r. by eapply fin_ok. }
    assert (Step : forall gs1 log1, ok (d ++ [x]) gs1 log1 -> exec bad crash (S (length d)) p gs1 log1 = Some (n', m, (log', o)) ->
      length d <= n' /\ result (d ++ take (n' - length d) (x :: p)) m log' o).
    { intros gs1 log1 Ok1 E1. destruct (IH (d ++ [x]) gs1 log1 n' m log' o Ok1) as [L R].
      { rewrite app_length. simpl. by rewrite Nat.add_1_r. }
      rewrite app_length in L, R. simpl in L, R. split; [lia|].
      replace (n' - length d) with (S (n' - (length d + 1))) by lia. simpl. by rewrite <- app_assoc in R. }
    pose proof Ok as (L & H & Hn).
    assert (Other : (forall i f, x <> SMut i f) -> (forall v, x <> SNew v) -> (forall i, x <> SForget i) -> ok (d ++ [x]) gs log).
    { intros N1 N2 N3. split; [|split].
      - unfold initial in *. rewrite omap_app. destruct x; simpl; rewrite ?app_nil_r; try done. by edestruct N2.
      - intros i g G. destruct (H i g G) as (v & La & C). exists v. rewrite latest_app_other by auto. split; [done|].
        rewrite !forgotten_app. destruct C as [C|[C|C]]; naive_solver.
      - intros i Li. destruct (Hn i Li) as (A1 & A2 & A3). rewrite forgotten_app. split; [done|]. split; [naive_solver|].
        unfold updates in *. rewrite omap_app, A3. destruct x; try done. by edestruct N1. }
    destruct x as [v|i f|i|i|].
    + apply (Step (gs ++ [Local (Full v) true]) log); [|done]. split; [|split].
      * unfold initial in *. rewrite omap_app, !app_length, L. done.
      * intros i g G. apply lookup_app_Some in G as [G|[G1 G2]].
        -- destruct (H i g G) as (w & La & C). exists w. rewrite latest_app_new by (rewrite <- L; by eapply lookup_lt_Some).
           split; [done|]. rewrite !forgotten_app. destruct C as [C|[C|C]]; naive_solver.
        -- apply list_lookup_singleton_Some in G2 as [G2 <-]. assert (i = length gs) as -> by lia.
           destruct (Hn (length gs) ltac:(lia)) as (A1 & A2 & A3). exists v. split.
           ++ unfold latest, updates, initial in *. rewrite !omap_app, A3. simpl.
              rewrite lookup_app_r by lia. rewrite L, Nat.sub_diag. done.
           ++ left. rewrite forgotten_app. naive_solver.
      * intros i Li. rewrite app_length in Li. simpl in Li. destruct (Hn i ltac:(lia)) as (A1 & A2 & A3).
        rewrite forgotten_app. unfold updates in *. rewrite omap_app, A3. naive_solver.
    + destruct (is_owned i gs) eqn:O; [|discriminate]. unfold is_owned in O. destruct (gs !! i) as [g|] eqn:G; [|done].
      destruct (H i g G) as (v & La & C). destruct C as [(-> & Ab & Fo)|[(-> & _)|(-> & _)]]; try done.
      apply (Step (<[i:=Local (Full (f v)) true]> gs) log); [|done]. split; [|split].
      * unfold initial in *. rewrite omap_app, insert_length, app_nil_r. done.
      * intros j g Gj. destruct (decide (j = i)) as [->|N].
        -- rewrite list_lookup_insert in Gj by (by eapply lookup_lt_Some). injection Gj as <-.
           exists (f v). split; [by apply latest_app_mut|]. left. rewrite forgotten_app. naive_solver.
        -- rewrite list_lookup_insert_ne in Gj by done. destruct (H j g Gj) as (w & Lw & C). exists w.
           rewrite latest_app_other by naive_solver. split; [done|]. rewrite !forgotten_app. destruct C as [C|[C|C]]; naive_solver.
      * rewrite insert_length. intros j Lj. destruct (Hn j Lj) as (A1 & A2 & A3). rewrite forgotten_app.
        unfold updates in *. rewrite omap_app, A3. simpl. rewrite decide_False; [naive_solver|].
        intros ->. apply lookup_lt_Some in G. lia.
    + destruct (is_owned i gs) eqn:O; [|discriminate]. unfold is_owned in O. destruct (gs !! i) as [g|] eqn:G; [|done].
      destruct (H i g G) as (v & La & C). destruct C as [(-> & Ab & Fo)|[(-> & _)|(-> & _)]]; try done.
      assert (Ef : forget_guard i gs log = Some (<[i := Local Empty false]> gs, log ++ [Freed i v])).
      { unfold forget_guard, take_out, move_out. rewrite G, list_lookup_insert by (by eapply lookup_lt_Some).
        by rewrite list_insert_insert. }
      rewrite Ef in E. apply (Step (<[i:=Local Empty false]> gs) (log ++ [Freed i v])); [|done]. split; [|split].
      * unfold initial in *. rewrite omap_app, insert_length, app_nil_r. done.
      * intros j g Gj. destruct (decide (j = i)) as [->|N].
        -- rewrite list_lookup_insert in Gj by (by eapply lookup_lt_Some). injection Gj as <-.
           exists v. rewrite latest_app_other by naive_solver. split; [done|]. right. right.
           rewrite forgotten_app, about_app, about_freed, decide_True, Ab by done. naive_solver.
        -- rewrite list_lookup_insert_ne in Gj by done. destruct (H j g Gj) as (w & Lw & C). exists w.
           rewrite latest_app_other by naive_solver. split; [done|].
           rewrite !forgotten_app, about_app, about_freed, decide_False, app_nil_r by done. destruct C as [C|[C|C]]; naive_solver.
      * rewrite insert_length. intros j Lj. destruct (Hn j Lj) as (A1 & A2 & A3).
        assert (i <> j) by (intros ->; apply lookup_lt_Some in G; lia).
        rewrite forgotten_app, about_app, about_freed, decide_False, app_nil_r by done.
        unfold updates in *. rewrite omap_app, A3. naive_solver.
    + destruct (is_owned i gs) eqn:O; [|discriminate].
      destruct (drop_ok d gs log i Ok O) as (v & G & D & Ok'). rewrite D in E.
      assert (Ok1 : ok (d ++ [SDrop i]) (<[i := Local Empty false]> gs) (log ++ [Ran i v])).
      { destruct Ok' as (L' & H' & Hn'). split; [|split].
        - unfold initial in *. rewrite omap_app, app_nil_r. done.
        - intros j g Gj. destruct (H' j g Gj) as (w & Lw & C). exists w. rewrite latest_app_other by naive_solver.
          split; [done|]. rewrite !forgotten_app. destruct C as [C|[C|C]]; naive_solver.
        - intros j Lj. destruct (Hn' j Lj) as (A1 & A2 & A3). rewrite forgotten_app.
          unfold updates in *. rewrite omap_app, A3. naive_solver. }
      destruct (bad i); [|by eapply Step].
      injection E as <- <- E. split; [lia|]. replace (S (length d) - length d) with 1 by lia. simpl. rewrite take_0.
      by eapply fin_ok.
    + apply (Step gs log); [|done]. by apply Other.
Qed.

Lemma lC38_runs_once : forall bad crash (p : list stmt) n m log o,
  scope bad crash p = Some (n, m, (log, o)) ->
  o <> UB /\ m = length (initial (take n p)) /\
  forall i, i < m -> exists v, latest i (take n p) = Some v /\
    (forgotten i (take n p) -> about i log = [Freed i v]) /\
    (~ forgotten i (take n p) -> about i log = [Ran i v] \/ (o = Aborted /\ about i log = [])).
Proof.
  intros bad crash p n m log o E. destruct (exec_ok bad crash p [] [] [] n m log o) as [_ (U & gs & (L & H & _) & Lm & No)].
  { split; [done|]. split; [done|]. intros i _. split; [done|]. split; [|done]. intros F. by apply elem_of_nil in F. }
  { exact E. }
  rewrite Nat.sub_0_r in *. simpl in *. split; [done|]. split; [congruence|]. intros i Li.
  destruct (lookup_lt_is_Some_2 gs i ltac:(lia)) as (g & G). destruct (H i g G) as (v & La & C). exists v. split; [done|].
  destruct C as [(-> & Ab & Fo)|[(-> & Ab & Fo)|(-> & Ab & Fo)]].
  - split; [done|]. intros _. right. split; [|done].
    assert (O : is_owned i gs = true) by (unfold is_owned; by rewrite G).
    destruct o; [| |done|by destruct U]; by rewrite No in O.
  - split; [done|]. auto.
  - split; [done|]. done.
Qed.

Lemma leave_quiet i : forall unw gs log log' o, leave (fun _ => false) i unw gs log = (log', o) ->
  o <> UB -> o = if unw then Unwound else Normal.
Proof.
  induction i as [|i IH]; intros unw gs log log' o E U; simpl in E; [by injection E as <- <-|].
  destruct (is_owned i gs); [|by eapply IH]. destruct (drop_guard i gs log) as [[gs1 log1]|]; [by eapply IH|].
  by injection E as <- <-.
Qed.
Lemma exec_quiet crash p : forall n gs log n' m log' o,
  exec (fun _ => false) crash n p gs log = Some (n', m, (log', o)) -> o <> UB ->
  n <= n' /\ o = if decide (crash = Some n') then Unwound else Normal.
Proof.
  induction p as [|x p IH]; intros n gs log n' m log' o E U; simpl in E.
  - destruct (decide (crash = Some n)) as [->|N].
    + injection E as <- <- E. rewrite decide_True by done. by apply leave_quiet in E.
    + injection E as <- <- E. rewrite decide_False by done. by apply leave_quiet in E.
  - destruct (decide (crash = Some n)) as [->|N].
    { injection E as <- <- E. rewrite decide_True by done. by apply leave_quiet in E. }
    assert (R : forall gs1 log1, exec (fun _ => false) crash (S n) p gs1 log1 = Some (n', m, (log', o)) ->
      n <= n' /\ o = if decide (crash = Some n') then Unwound else Normal).
    { intros gs1 log1 E1. destruct (IH _ _ _ _ _ _ _ E1 U). split; [lia|done]. }
    destruct x; repeat first [exact (R _ _ E) | discriminate | (by injection E as <- <- <- <-) |
      match type of E with context [match ?y with _ => _ end] => destruct y end].
Qed.
Lemma lC38_quiet : forall crash (p : list stmt) n m log o,
  scope (fun _ => false) crash p = Some (n, m, (log, o)) ->
  o = (if decide (crash = Some n) then Unwound else Normal) /\
  forall i, i < m -> exists v, latest i (take n p) = Some v /\
    (forgotten i (take n p) -> about i log = [Freed i v]) /\
    (~ forgotten i (take n p) -> about i log = [Ran i v]).
Proof.
  intros crash p n m log o E. destruct (lC38_runs_once _ _ _ _ _ _ _ E) as (U & _ & H).
  destruct (exec_quiet _ _ _ _ _ _ _ _ _ E U) as [_ O]. split; [done|].
  intros i Li. destruct (H i Li) as (v & La & F1 & F2). exists v. split; [done|]. split; [done|].
  intros F. destruct (F2 F) as [|[A _]]; [done|]. rewrite O in A. by destruct (decide _).
Qed.
End facts.
