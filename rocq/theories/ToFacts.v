(** Ranges without a lower bound, with the search for the first leaf as in the code. *)
From Coq Require Import List Arith Bool Lia Sorted.
From Verif Require Import TcModel TcRoute TcSpec TcInv TcTree TcFrame TcFz TcExt TcSys TcKeep TcOps TcRun TcLin TiModel TiSpec TiInv TiConv TiList TiMove TiBlk TiStep TiSys TiExt TiTs TiCur TiSeek TiLoop RgModel RgFacts TmModel TmFacts LbModel LbSpec ToSpec.
Import ListNotations.

Section facts.
Context {K V : Type} (leb : K -> K -> bool) (HO : tord leb) (i b : nat).
Notation SI := (SI leb).
Notation It := (It leb).
Notation Ps := (Ps leb).
Notation Mi := (Mi leb).
Implicit Types (s : ls K V) (r : lr K V) (x : iter K V) (e : K * V).

Definition tom (d : @dsc K) : option (@mpos K V) :=
  match d with
  | DRoot => Some TmModel.MStart
  | MNode _ f n CTop => Some (TmModel.MNode f n)
  | MMeta _ f n M r CTop => Some (TmModel.MMeta f n M r)
  | MLoad _ f n M r u c CTop => Some (TmModel.MLoad f n M r u c)
  | MScan _ c CTop => Some (MGo (Iter (IFirst c) b []))
  | MLink _ c CTop => Some (MGo (Iter (ILink c None c) b []))
  | MHop _ c CTop => Some (MGo (Iter (IHop c None c) b []))
  | _ => None
  end.
Definition atb x : iter K V := Iter (ipos x) b (out x).
Definition PT x r : Prop := exists tl, out x = ly r ++ tl
  /\ (lpend r = None -> lend r = false -> tl = [])
  /\ (forall e, lpend r = Some e -> lend r = false /\ tl = [e] /\ exists z rest, ipos x = IAt z rest (Some (fst e)))
  /\ (lend r = true -> (tl = [] /\ exists t, ipos x = IEnd t)
       \/ exists e z rest, tl = [e] /\ beyond leb (lup r) (fst e) = true /\ ipos x = IAt z rest (Some (fst e))).
Definition Lq s r : Prop := llo r = LNone -> lchk r = false /\
  match ph r with
  | PD d => ly r = [] /\ lpend r = None /\ (lend r = false -> exists q, tom d = Some q /\ Mi s (Mit q b false))
            /\ (lend r = true -> forall e, ~ Stb leb s b e)
  | PI x => It s (atb x) /\ PT x r
  end.

Lemma lq_keep s s' r : Ps s s' b -> Lq s r -> Lq s' r.
Proof.
  intros P Q L. destruct (Q L) as [C H]. split; auto. destruct (ph r) as [d|x].
  - destruct H as (A1 & A2 & A3 & A4). split; auto. split; auto. split.
    + intros E. destruct (A3 E) as (q & Hq & M). exists q. split; auto. now apply (mi_keep leb s s').
    + intros E e S. apply (A4 E e). now apply (p_stb _ _ _ _ P).
  - destruct H as [A1 A2]. split; auto. now apply (it_keep leb s s').
Qed.
Lemma istep_b s x : istep leb s (atb x) = atb (istep leb s x).
Proof.
  unfold istep, atb. destruct x as [p b0 o]. cbn [ipos it0 out].
  repeat match goal with |- context [match ?e with _ => _ end] => destruct e end; reflexivity.
Qed.
Lemma pt_judge x r c e z rest : lchk r = false -> out x = ly r ++ [e] -> ipos x = IAt z rest (Some (fst e)) -> PT x (judge leb r c e x).
Proof.
  intros C Ho Hp. unfold judge. rewrite C. cbn [andb]. destruct (c && beyond leb (lup r) (fst e)) eqn:D.
  - exists [e]. cbn. split; auto. split; [discriminate|]. split; [discriminate|]. intros _. right. exists e, z, rest.
    apply andb_true_iff in D as [_ D]. auto.
  - exists []. cbn. rewrite app_nil_r. split; auto. split; auto. split; discriminate.
Qed.
Lemma judge_parts r c e x : lchk r = false -> lchk (judge leb r c e x) = false /\ ph (judge leb r c e x) = PI x.
Proof. intros C. unfold judge. rewrite C. cbn [andb]. destruct (_ && _); auto. Qed.
Lemma no_stb s q : Mi s (Mit (MGo (Iter (IEnd (length (log (tc s)))) b [])) b q) -> q = false -> forall e, ~ Stb leb s b e.
Proof.
  intros [_ M] -> e S. destruct (M eq_refl) as [_ [_ _ P]]. cbn in P. destruct P as (_ & P & _). apply (P (fst e) (snd e)). exact S.
Qed.

Lemma lq_d s d r : SI s -> llo r = LNone -> Lq s r -> lend r = false -> ph r = PD d ->
  (forall rt w f n M k, d = MMeta rt (w :: f) n M [] k -> exists c, ub (nd s n) = UTo c) ->
  match dstep leb LNone s d with
  | RGo d' => exists q, tom d' = Some q /\ Mi s (Mit q b false)
  | RAt c e rest => It s (Iter (IAt c rest (Some (fst e))) b [e])
  | ROver => forall e, ~ Stb leb s b e
  end.
Proof.
  intros I L Q E P N. destruct (Q L) as [_ H]. rewrite P in H. destruct H as (_ & _ & H & _). destruct (H E) as (q & Hq & M).
  pose proof (mi_step leb HO s _ I M) as M'.
  destruct d as [|? ? ?|? ? ? ?|? ? ? ? ?|? ? ? ?|rt f n [st|]|rt f n Mt rs [st|]|rt f n Mt rs u c [st|]|rt c [st|]|rt c [st|]|rt c [st|]]; cbn [tom] in Hq; try discriminate; injection Hq as <-; cbn [dstep lkey].
  - cbn [mstep mp m0 on] in M'. destruct (root (tc s)) as [n|].
    + eexists. split; [reflexivity|exact M'].
    + exact (no_stb s false M' eq_refl).
  - eexists. split; [reflexivity|exact M'].
  - cbn [mstep mp m0 on] in M'. destruct rs as [|[k j] rs].
    + destruct (ub (nd s n)) as [| |c] eqn:U.
      1,2: destruct f as [|[[n' M1] r'] f']; [cbn [no_min]; exact (no_stb s false M' eq_refl)|destruct (N _ _ _ _ _ _ eq_refl) as [c0 U0]; congruence].
      eexists. split; [reflexivity|exact M'].
    + destruct (slot_child _ _); eexists; (split; [reflexivity|exact M']).
  - cbn [mstep mp m0 on] in M'. destruct (meta_eqb _ _ _); [destruct (_ =? 1)|]; eexists; (split; [reflexivity|exact M']).
  - destruct M' as [B M']. specialize (M' eq_refl). cbn in M'. destruct M' as [_ Iy].
    pose proof (it_step leb HO s _ I Iy) as I2. cbn [istep ipos it0 out] in I2.
    destruct (sortk leb (ents (nd s c))) as [|e rest].
    + eexists. split; [reflexivity|]. split; [exact B|]. intros _. cbn. split; auto.
    + exact I2.
  - destruct M' as [B M']. specialize (M' eq_refl). cbn [mstep mp m0 on at_m istep ipos it0 out] in M'.
    destruct (link s c) as [z|]; destruct M' as [_ Iy].
    + eexists. split; [reflexivity|]. split; [exact B|]. intros _. cbn. split; auto. destruct Iy as [I1 I2 I3]. now constructor.
    + cbn. intros e S. destruct Iy as [_ _ P0]. cbn in P0. destruct P0 as (_ & P0 & _). apply (P0 (fst e) (snd e)). exact S.
  - destruct M' as [B M']. specialize (M' eq_refl). cbn [mstep mp m0 on at_m istep ipos it0 out] in M'.
    destruct (dl s c); destruct M' as [_ Iy]; (eexists; split; [reflexivity|]; split; [exact B|]; intros _; cbn; split; auto).
    destruct Iy as [I1 I2 I3]. constructor; auto. apply I3.
Qed.

Lemma lq_next (s : lbs K V) r r' : SI (bl s) -> lrs s i = Some r -> ~ passes s i -> Lq (bl s) r -> lnext leb s r = Some r' -> Lq (bl s) r'.
Proof.
  intros I Hr N Q H L.
  assert (llo r = LNone) as L0.
  { clear -H L. unfold lnext, judge in H. repeat match type of H with context [match ?e with _ => _ end] => destruct e; try discriminate end; injection H as <-; exact L. }
  destruct (Q L0) as [C A]. unfold lnext in H. destruct (lend r) eqn:E; [discriminate|]. destruct (ph r) as [d|x] eqn:P.
  - destruct A as (A1 & A2 & _). pose proof (lq_d (bl s) d r I L0 Q E P) as D. rewrite L0 in H.
    assert (match dstep leb LNone (bl s) d with
      | RGo d' => exists q, tom d' = Some q /\ Mi (bl s) (Mit q b false)
      | RAt c e rest => It (bl s) (Iter (IAt c rest (Some (fst e))) b [e])
      | ROver => forall e, ~ Stb leb (bl s) b e
      end) as D'.
    { apply D. intros rt w f n M k ->. destruct (ub (nd (bl s) n)) as [| |c] eqn:U; [| |eauto]; destruct N; exists r, rt, w, f, n, M, k; (split; [auto|]); (split; [auto|]); intros c; rewrite U; discriminate. }
    destruct (dstep leb LNone (bl s) d) as [d'|c e rest|]; injection H as <-; cbn; (split; [exact C|]).
    + split; auto. split; auto. split; [auto|discriminate].
    + split; [exact D'|]. exists [e]. cbn. rewrite A1. split; auto. split; [discriminate|]. split; [|discriminate]. intros e0 [= <-]. eauto.
    + split; auto. split; auto. split; [discriminate|auto].
  - destruct A as [Ix (tl & Ho & Q1 & Q2 & _)]. pose proof (it_step leb HO (bl s) _ I Ix) as Ix'. rewrite istep_b in Ix'.
    destruct (lpend r) as [e|] eqn:Pe.
    + destruct (Q2 e eq_refl) as (_ & -> & z & rest & Px). rewrite Px in H. injection H as <-.
      destruct (judge_parts r (bound_flag leb (lup r) (ents (nd (bl s) z))) e x C) as [J1 J2]. split; auto. rewrite J2. split; auto. eapply pt_judge; eauto.
    + rewrite (Q1 eq_refl E), app_nil_r in Ho. set (x' := istep leb (bl s) x) in *.
      assert (out x' = ly r -> Lq (bl s) (Lr (llo r) (lup r) (lchk r) (uchk r) None (ly r) (over x') (PI x'))) as Triv.
      { intros Ho' _. cbn. split; auto. split; auto. exists []. cbn. rewrite app_nil_r. split; auto. split; auto. split; [discriminate|].
        unfold over. destruct (ipos x') eqn:P'; try discriminate. intros _. left. eauto. }
      assert (forall e z rest r1, out x' = ly r ++ [e] -> ipos x' = IAt z rest (Some (fst e)) ->
        r1 = (if same_leaf x then judge leb r (uchk r) e x' else Lr (llo r) (lup r) (lchk r) (uchk r) (Some e) (ly r) false (PI x')) -> Lq (bl s) r1) as Em.
      { intros e z rest r1 O P1 -> _. destruct (same_leaf x).
        - destruct (judge_parts r (uchk r) e x' C) as [J1 J2]. split; auto. rewrite J2. split; auto. eapply pt_judge; eauto.
        - cbn. split; auto. split; auto. exists [e]. cbn. split; auto. split; [discriminate|]. split; [|discriminate]. intros e0 [= <-]. eauto. }
      assert (Lq (bl s) r') as G; [|exact (G L)].
      unfold emits in H. subst x'.
      destruct (ipos x) as [|top n|top n M|top n M c|c|c [|e rest] last|c last z|c last z|c last z|c last z es|e0] eqn:Px.
      6: { injection H as <-. apply Triv. unfold istep. rewrite Px. exact Ho. }
      6: { apply (Em e c rest); [unfold istep; rewrite Px; cbn; now rewrite Ho|unfold istep; rewrite Px; reflexivity|].
           unfold same_leaf in *. rewrite Px in *. destruct last; now injection H as <-. }
      9: { destruct (fresh_only leb (bl s) c last es) as [|e rest] eqn:Fo.
           - injection H as <-. apply Triv. unfold istep. rewrite Px, Fo. exact Ho.
           - apply (Em e z rest); [unfold istep; rewrite Px, Fo; cbn; now rewrite Ho|unfold istep; rewrite Px, Fo; reflexivity|].
             unfold same_leaf in *. rewrite Px in *. now injection H as <-. }
      all: injection H as <-; apply Triv; unfold istep; rewrite Px; cbv zeta;
        repeat match goal with |- context [match ?e with _ => _ end] => destruct e end; exact Ho.
Qed.

Definition LB (s : lbs K V) : Prop := SI (bl s) /\ b <= length (log (tc (bl s))) /\ forall r, lrs s i = Some r -> Lq (strip (bl s)) r.
Lemma lb_step a (s s' : lbs K V) : LB s -> lbstep leb a s = Some s' -> (a = BNext i -> ~ passes s i) -> LB s'.
Proof.
  intros (I & B & A) St N. destruct a as [a|j lo up|j]; cbn [lbstep] in St.
  - destruct (lsstep leb a (bl s)) as [t|] eqn:E; [|discriminate]. injection St as <-. pose proof (si_step leb HO a _ _ I E) as I'. split; [exact I'|]. cbn.
    destruct a as [a|a|[j|j]]; cbn [lsstep] in E.
    + destruct (t_parts leb _ _ _ E) as (E1 & E2 & E3 & E4).
      assert (TS leb (tc (bl s)) (tc t)) as T. { apply (ts_step leb HO a); auto; [apply I|]. intros y. apply (q_nd _ _ _ _ _ _ _ _ (LI leb (bl s) I)). }
      split. { destruct (ts_log _ _ _ T) as [l El]. rewrite El, app_length. lia. }
      intros r Hr. apply (lq_keep (strip (bl s))); [|now apply A]. now apply (ps_t leb HO).
    + destruct (l_its _ _ _ E) as (E1 & E2). split; [now rewrite (l_tc _ _ _ E)|]. intros r Hr. apply (lq_keep (strip (bl s))); [|now apply A]. now apply (ps_l leb a).
    + destruct (its (bl s) j); [discriminate|]. injection E as <-. auto.
    + destruct (its (bl s) j); [|discriminate]. injection E as <-. auto.
  - destruct (lrs s j) eqn:Ej; [discriminate|]. injection St as <-. split; [exact I|]. split; [exact B|]. intros r. cbn. unfold upd.
    destruct (Nat.eqb_spec i j) as [<-|Nj]; [|apply A]. intros [= <-] L. cbn in *. subst lo. split; auto. split; auto. split; auto. split; [|discriminate].
    intros _. eexists. split; [reflexivity|]. split; [exact B|]. intros _. exact Logic.I.
  - destruct (lrs s j) as [r0|] eqn:Ej; [|discriminate]. destruct (lnext leb s r0) as [r1|] eqn:Nx; [|discriminate]. injection St as <-.
    split; [exact I|]. split; [exact B|]. intros r. cbn. unfold upd. destruct (Nat.eqb_spec i j) as [<-|Nj]; [|apply A]. intros [= <-].
    apply (lq_next (Lb (strip (bl s)) (lrs s)) r0); auto.
Qed.
Lemma lb_run l : forall s s' : lbs K V, LB s -> never_passes leb l s i -> lbrun leb l s = Some s' -> LB s'.
Proof.
  induction l as [|a l IH]; cbn; intros s s' Q N H; [now injection H as <-|]. destruct (lbstep leb a s) as [s1|] eqn:E; [|discriminate].
  apply (IH s1); auto.
  - apply (lb_step a s); auto. intros ->. apply (N [] l); auto.
  - intros l1 l2 t -> R. apply (N (a :: l1) l2); auto. cbn. now rewrite E.
Qed.
End facts.
