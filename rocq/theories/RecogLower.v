(** The recognizer: what it finds at least, for grammars with strings of both kinds.
    Its definitions are means of proof and model no code. *)
From Coq Require Import ZArith Arith String Ascii Bool Relations List Lia.
From Verif Require Import Syntax Spec Num Term Printer PrintInj Deps Dag Cycle LowerLang PropTerm PropDag LeftRec Recog RecogProof RecogComplete RecogGlue Between Marked MarkCore RecogUpper.
Import ListNotations.
Local Open Scope list_scope.

(** Where no seed is in reach, what is found is derived. *)
Section Free.
  Variable G : grammar.
  Variable input : list Z.
  Variable gr : string -> option (list nat).
  Hypothesis W : wf_grammar G.
  Notation len := (length input).
  Notation der := (der G input).
  Definition free_from (e : elem) (i : nat) : Prop :=
    (forall n i', i < i' -> i' <= len -> gr (rkey (lower n) i') = None) /\
    (forall n, canon e = ERule (lower n) \/ corners G e (ERule n) -> gr (rkey (lower n) i) = None).
  Lemma free_later e i p e' : free_from e i -> i < p -> p <= len -> free_from e' p.
  Proof. intros [A _] L Hp. split; [intros n i' H H'; apply A; lia|]. intros n _. apply A; auto. Qed.
  Lemma free_corner e a i pre mn mx x post : free_from e i -> body G e a -> In (pre ++ Rep mn mx x :: post) a -> (forall r, In r pre -> in_rep G r []) -> free_from x i.
  Proof.
    intros [A B] Bd I P. split; auto. intros n H. apply B. right.
    assert (St : corners G e x) by (apply t_step; exists a, pre, mn, mx, x, post; auto).
    destruct H as [H|H]; [|eapply t_trans; eauto].
    eapply corners_canon; [reflexivity| |exact St]. rewrite H. reflexivity.
  Qed.
  Lemma free_der k : forall e i j, occ_or_rule G e -> i <= len -> free_from e i -> D G input gr k e i j -> der e i j.
  Proof.
    induction k as [|k IH]; intros e i j Oe Hi F H; [destruct H|].
    assert (LE : forall e p q, der e p q -> p <= len -> p <= q <= len) by (intros; eapply der_le; eauto).
    assert (A : forall a, body G e a -> occ_alt G a -> alt_rel (D G input gr k) a i j -> alt_rel der a i j).
    { intros a Bd Oa (c & I & C). exists c. split; auto.
      assert (Cc : forall c pre p q, In (pre ++ c) a -> i <= p -> p <= len -> (p = i -> forall r, In r pre -> in_rep G r []) -> cat_rel (D G input gr k) c p q -> cat_rel der c p q).
      { clear c I C. induction c as [|[mn mx x] c IHc]; intros pre p q I L Hp P C; [exact C|]. destruct C as (m & (n & N1 & N2 & Pw) & C).
        assert (Fx : forall u, i <= u -> u <= len -> (u = i -> p = i) -> free_from x u).
        { intros u Lu Hu E. destruct (Nat.eq_dec u i) as [->|Nu]; [|eapply free_later; [exact F| |]; lia]. eapply free_corner; eauto. }
        assert (Ox : occ_or_rule G x).
        { left. econstructor. apply (Oa _ (Rep mn mx x) I). apply in_app_iff. right. left. auto. }
        assert (Pw' : pow_rel (der x) n p m).
        { assert (Gp : forall n u, i <= u -> u <= len -> p <= u -> pow_rel (D G input gr k x) n u m -> pow_rel (der x) n u m).
          { clear N1 N2 Pw n. induction n as [|n IHn]; cbn [pow_rel]; intros u Lu Hu Lp Pw; auto. destruct Pw as (v & P1 & P2).
            assert (Q : der x u v) by (apply IH; auto; apply Fx; auto; lia). exists v. split; auto. apply LE in Q; auto. apply IHn; auto; lia. }
          apply Gp; auto. }
        assert (R : rep_rel der (Rep mn mx x) p m) by (exists n; auto).
        exists m. split; [exact R|]. pose proof (rep_rel_le input der LE (Rep mn mx x) p m R Hp) as Lm.
        apply (IHc (pre ++ [Rep mn mx x])); [rewrite <- app_assoc; auto|lia|lia| |exact C].
        intros E r Ir. assert (p = i) as Ep by lia. apply in_app_iff in Ir as [Ir|[<-|[]]]; [apply P; auto|].
        apply rep_der in R as (w & I' & Sp); auto. destruct Sp as (p0 & s & _ & _ & J). assert (w = []) as -> by (destruct w; auto; cbn in J; lia). exact I'. }
      apply (Cc c []); auto. intros _ r []. }
    destruct e as [n|a|a|s vs|b s0 es|v].
    - cbn [D] in H. rewrite (proj2 F n (or_introl eq_refl)) in H. destruct H as (r & Gr & H).
      apply A in H; [|constructor; apply (proj1 (get_rule_resolves G n (proj1 W))); auto|intros c x Ic Ix; eapply RecogProof.named_rule; eauto]. eapply rule_der; eauto.
    - destruct Oe as [Oe|(n & Oe)]; [|discriminate]. apply A in H; [|constructor|intros c x Ic Ix; eapply occ_rep_group; eauto].
      apply alt_der in H as (w & Q & Sp); auto. exists w. split; auto. constructor. auto.
    - destruct Oe as [Oe|(n & Oe)]; [|discriminate]. destruct H as [->|H].
      + exists []. split; [constructor|apply span_nil; auto].
      + apply A in H; [|constructor|intros c x Ic Ix; eapply occ_rep_option; eauto].
        apply alt_der in H as (w & Q & Sp); auto. exists w. split; auto. apply in_option_some. auto.
    - apply (match_term_spec G (EChar s vs)) in H; auto. constructor.
    - destruct Oe as [Oe|(n & Oe)]; [|discriminate]. apply (match_term_spec G (ENum b s0 es)) in H; auto. apply (wf_occ G W). auto.
    - discriminate H.
  Qed.
End Free.

Section Lower.
  Variable g : grammar.
  Variable input : list Z.
  Variable lr : string -> option (list string).
  Variable ord : nat -> list nat -> list nat.
  Hypothesis O : forall t l x, In x (ord t l) <-> In x l.
  Hypothesis W : wf_grammar g.
  Hypothesis LG : lex_grammar g = true.
  Notation t := (mark true (with_core g)).
  Notation h := (mark false g).
  Notation T := (mark_elem true).
  Notation len := (length input).
  Notation up := (wide g input).
  Notation low := (fun e => der t input (T e)).
  Notation lo := (fun gr e => RecogComplete.lo t input gr (T e)).
  Notation cor := (fun e e' => corners t (T e) (T e')).
  Notation named := (named g).
  Notation sound := (sound g input up).
  Notation named_alt := (named_alt g).
  Notation grow_map := (string -> option (list nat)).
  Hypothesis LI : forall n scc, lr n = Some scc -> In n scc.
  Hypothesis LC : forall n scc m, lr n = Some scc -> In m scc -> exists scc', lr m = Some scc' /\ forall x, In x scc' <-> In x scc.
  Hypothesis LL : forall n scc x, lr n = Some scc -> In x scc -> lex_name x = true.
  Hypothesis LLow : forall n scc x, lr n = Some scc -> In x scc -> lower x = x.
  Hypothesis L1 : forall n, lr (lower n) = None -> ~ corners t (ERule n) (ERule n).
  Hypothesis L2 : forall n scc m, lr (lower n) = Some scc -> corners t (ERule n) (ERule m) -> corners t (ERule m) (ERule n) -> In (lower m) scc.
  Hypothesis L3 : forall n scc x y, lr n = Some scc -> In x scc -> In y scc -> corners t (ERule x) (ERule y).
  Hypothesis L4 : forall n scc, lr n = Some scc -> NoDup scc.
  Hypothesis HG : forall e, occ_elem t e -> (exists a, e = EGroup a \/ e = EOption a) -> ~ corners t e e.
  Hypothesis RO : forall r, occ_rep g r -> repok input up r.

  Lemma up_le e p q : up e p q -> p <= q <= len.
  Proof. intros H. eapply der_le; eauto. Qed.
  Lemma up_string e e' i j : named e -> named e' -> elem_string e = elem_string e' -> up e i j -> up e' i j.
  Proof. intros N N'. apply wide_string; eapply named_lex; eauto. Qed.
  Lemma up_group a i j : i <= len -> alt_rel up a i j -> up (EGroup a) i j.
  Proof. intros Hi A. apply alt_wide, alt_der in A as (w & Q & S); auto. exists w. split; auto. cbn. constructor. exact Q. Qed.
  Lemma up_none a i : i <= len -> up (EOption a) i i.
  Proof. intros Hi. exists []. split; [constructor|apply span_nil; auto]. Qed.
  Lemma up_option a i j : i <= len -> alt_rel up a i j -> up (EOption a) i j.
  Proof. intros Hi A. apply alt_wide, alt_der in A as (w & Q & S); auto. exists w. split; auto. cbn. apply in_option_some. exact Q. Qed.
  Lemma up_rule n r i j : get_rule n g = Some r -> i <= len -> alt_rel up (rule_alt r) i j -> forall m, lower m = lower n -> up (ERule m) i j.
  Proof. intros. eapply wide_rule; eauto. Qed.
  Lemma up_term e i j : named e -> is_terminal e = true -> i <= len -> match_term e input i = Some j -> up e i j.
  Proof. intros N. apply wide_term. eapply named_wf; eauto. Qed.
  Lemma up_lower n i j : up (ERule (lower n)) i j <-> up (ERule n) i j.
  Proof.
    split; intros (w & I & Sp); exists w; split; auto; cbn in *; inversion I; subst; (econstructor; [|eassumption]).
    - apply (resolves_lower h (lower n) n); auto. unfold same_name. apply lower_lower.
    - apply (resolves_lower h n (lower n)); auto. unfold same_name. symmetry. apply lower_lower.
  Qed.
  Lemma low_lower n i j : low (ERule (lower n)) i j <-> low (ERule n) i j.
  Proof.
    split; intros (w & I & Sp); exists w; split; auto; cbn in *; inversion I; subst; (econstructor; [|eassumption]).
    - apply (resolves_lower t (lower n) n); auto. unfold same_name. apply lower_lower.
    - apply (resolves_lower t n (lower n)); auto. unfold same_name. symmetry. apply lower_lower.
  Qed.
  Definition reach_up f e i st := reach_elem_U g input lr ord O W LG LL up up_le up_string up_rule up_group up_none up_option up_term (fun n i j => proj1 (up_lower n i j)) f e i st.

  (** Elements with one key are marked alike. *)
  Lemma key_T e e' i i' : named e -> named e' -> ekey e i = ekey e' i' -> T e = T e' /\ i = i'.
  Proof.
    intros N N' E. apply rkey_inj in E as [E ->]. split; auto. apply elem_string_inj in E; [|eapply named_lex; eauto|eapply named_lex; eauto].
    rewrite <- (proj1 (mark_erase true) e), E. apply mark_erase.
  Qed.
  Lemma body_T e a : body g e a -> body t (T e) (malt true a).
  Proof. intros B. destruct B; cbn; constructor. apply t_resolves; auto. Qed.
  Lemma alt_T b (X : elem -> nat -> nat -> Prop) a i j : alt_rel X (malt b a) i j <-> alt_rel (fun e => X (mark_elem b e)) a i j.
  Proof.
    assert (C : forall c i j, cat_rel X (map (mark_rep b) c) i j <-> cat_rel (fun e => X (mark_elem b e)) c i j).
    { induction c as [|[mn mx e] c IH]; cbn [map cat_rel mark_rep]; intros p q; [tauto|].
      split; intros (k & R & Q); exists k; (split; [exact R|apply IH; exact Q]). }
    split; intros (c & I & Q).
    - apply in_map_iff in I as (d & <- & I). exists d. split; auto. apply C. exact Q.
    - exists (map (mark_rep b) c). split; [apply in_map; auto|apply C; exact Q].
  Qed.
  Lemma match_TF e i j : is_terminal e = true -> match_term (T e) input i = Some j -> match_term (mark_elem false e) input i = Some j.
  Proof. destruct e; try discriminate; cbn [mark_elem match_term]; auto. intros _. apply match_char_le. discriminate. Qed.
  Lemma match_T e i j : is_terminal e = true -> match_term (T e) input i = Some j -> match_term e input i = Some j.
  Proof. destruct e; try discriminate; cbn [mark_elem match_term]; auto. intros _. apply match_char_le. auto. Qed.
  Lemma T_terminal b e : is_terminal (mark_elem b e) = is_terminal e.
  Proof. destruct e; reflexivity. Qed.
  Lemma low_terminal e i j : is_terminal e = true -> wf_elem e -> low e i j -> match_term (T e) input i = Some j.
  Proof.
    intros Te We H. apply (match_term_spec t (T e)); auto; [rewrite T_terminal; auto| |].
    - destruct e; try discriminate; auto; constructor.
    - destruct H as (w & _ & S). apply span_le in S. lia.
  Qed.

  Lemma D_TF gr k : forall e i j, D t input gr k (T e) i j -> D h input gr k (mark_elem false e) i j.
  Proof.
    induction k as [|k IH]; intros e i j H; [destruct H|].
    assert (A : forall a p q, alt_rel (D t input gr k) (malt true a) p q -> alt_rel (D h input gr k) (malt false a) p q).
    { intros a p q Q. apply alt_T in Q. apply alt_T. eapply alt_mono; [|exact Q]. intros x u v. apply IH. }
    destruct e as [n|a|a|s vs|b s0 es|v].
    - cbn [D mark_elem] in *. destruct (gr (rkey (lower n) i)); auto. destruct H as (r' & G & H). apply (t_get_inv g W) in G as (r & G & E). rewrite E in H.
      apply (h_get g W) in G as (r2 & G & E2). exists r2. split; auto. rewrite E2. auto.
    - cbn [mark_elem] in *. change (alt_rel (D t input gr k) (malt true a) i j) in H. change (alt_rel (D h input gr k) (malt false a) i j). auto.
    - cbn [mark_elem] in *. change (j = i \/ alt_rel (D t input gr k) (malt true a) i j) in H. change (j = i \/ alt_rel (D h input gr k) (malt false a) i j). destruct H; auto.
    - exact (match_TF (EChar s vs) i j eq_refl H).
    - exact H.
    - exact H.
  Qed.
  Lemma lo_up gr e i j : (forall n i s j, i <= len -> gr (rkey (lower n) i) = Some s -> In j s -> up (ERule n) i j) ->
    named e -> i <= len -> lo gr e i j -> up e i j.
  Proof.
    intros GS N Hi (k & H). apply (lo_der h input gr (h_wf g W)).
    - intros n i' s j' Hi' G J. exact (GS n i' s j' Hi' G J).
    - destruct N as [N|(n & -> & _)]; [left; apply occ_h; auto|right; exists n; reflexivity].
    - exact Hi.
    - exists k. apply D_TF. exact H.
  Qed.
  Lemma low_lo gr e i j : named e -> closed_from t input gr (T e) i -> low e i j -> lo gr e i j.
  Proof.
    intros N C H. destruct N as [N|(n & -> & _)].
    - destruct (proj1 (occ_t g) e N) as [Ch|Oc].
      + destruct e; try discriminate. apply lo_term; [reflexivity|]. apply low_terminal; auto. constructor.
      + apply (der_lo t input gr (t_wf g W)); auto. left. exact Oc.
    - apply (der_lo t input gr (t_wf g W)); auto. right. exists n. reflexivity.
  Qed.

  Lemma free_low gr e i j : named e -> i <= len -> free_from t input gr (T e) i -> lo gr e i j -> low e i j.
  Proof.
    intros N Hi F (k & H). destruct N as [N|(n & -> & _)].
    - destruct (proj1 (occ_t g) e N) as [Ch|Oc].
      + destruct e as [m|a|a|cs cv|b s0 es|v]; try discriminate. apply (match_term_spec t (T (EChar cs cv))); auto; [constructor|]. destruct k; [destruct H|exact H].
      + apply (free_der t input gr (t_wf g W) k); auto. left. exact Oc.
    - apply (free_der t input gr (t_wf g W) k); auto. right. exists n. reflexivity.
  Qed.

  (** Stored sets are complete. *)
  Definition memoC (st : rstate) : Prop :=
    forall e i s, named e -> i <= len -> r_memo st (ekey e i) = Some s -> forall j, low e i j -> In j s.
  (** Rules grown together are stored together, and not while they grow. *)
  Definition memoU (st : rstate) : Prop :=
    forall n scc x i, lr n = Some scc -> In x scc -> r_memo st (rkey n i) <> None -> r_memo st (rkey x i) <> None.
  Definition memoD (gr : grow_map) (st : rstate) : Prop := forall x i s, gr (rkey x i) = Some s -> r_memo st (rkey x i) = None.
  Definition memI (gr : grow_map) (st : rstate) : Prop := memoC st /\ memoU st /\ memoD gr st.
  Definition Inv (gr : grow_map) (pr : string -> bool) (st : rstate) : Prop :=
    sound st /\ memI gr st /\ same_grow gr st /\ forall k, r_prog st k = pr k.
  Definition grlow (gr : grow_map) : Prop := forall x i s, gr (rkey x i) = Some s -> lower x = x /\ lex_name x = true /\ lr x <> None.
  (** Everything on the stack is at an earlier position or at a left corner above. *)
  Definition stk (gr : grow_map) (pr : string -> bool) (e : elem) (i : nat) : Prop :=
    (forall x i' s, gr (rkey x i') = Some s -> i' <= i /\ (i' = i -> cor (ERule x) e)) /\
    (forall e' i', named e' -> pr (ekey e' i') = true -> i' <= i /\ (i' = i -> cor e' e)).
  Definition above (e e0 : elem) : Prop := canon (T e) = canon (T e0) \/ cor e e0.
  Definition stk0 (gr : grow_map) (pr : string -> bool) (e0 : elem) (i : nat) : Prop :=
    (forall x i' s, gr (rkey x i') = Some s -> i' <= i /\ (i' = i -> above (ERule x) e0)) /\
    (forall e' i', named e' -> pr (ekey e' i') = true -> i' <= i /\ (i' = i -> above e' e0)).

  Lemma Inv_GS gr pr st : Inv gr pr st -> grlow gr -> forall n i s j, i <= len -> gr (rkey (lower n) i) = Some s -> In j s -> up (ERule n) i j.
  Proof.
    intros (S & _ & G & _) L n i s j Hi E J. apply up_lower. rewrite <- G in E.
    apply (S (rkey (lower n) i) s (or_intror E)); auto. right. exists (lower n). split; auto. rewrite G in E. apply (L _ _ _ E).
  Qed.
  (** Words of an empty span. *)
  Lemma cat_null pre : forall i, i <= len -> cat_rel up pre i i -> forall r, In r (map (mark_rep true) pre) -> in_rep t r [].
  Proof.
    induction pre as [|[mn mx e] pre IH]; intros i Hi C r I; [easy|]. destruct C as (k & R & C).
    assert (LE : forall e p q, up e p q -> p <= len -> p <= q <= len) by (intros e9 p9 q9 H9 _; exact (up_le e9 p9 q9 H9)).
    pose proof (rep_rel_le input up LE (Rep mn mx e) i k R Hi) as L1'. pose proof (cat_rel_le input up LE pre k i C ltac:(lia)) as L2'.
    assert (k = i) as -> by lia. cbn [map] in I. destruct I as [<-|I]; [|eapply IH; eauto].
    assert (R' : rep_rel (der h input) (mark_rep false (Rep mn mx e)) i i) by exact R.
    apply rep_der in R' as (w & I & Sp); auto. destruct Sp as (p & s & _ & _ & J). assert (w = []) as -> by (destruct w; auto; cbn in J; lia).
    apply (proj1 (proj2 (proj2 (proj2 (null_alike h t (alike_ht g))))) _ [] I eq_refl). rewrite !(proj2 (erase_mark _)). reflexivity.
  Qed.
  Lemma stk_step gr pr e0 a i : body g e0 a -> i <= len -> stk0 gr pr e0 i ->
    forall pre mn mx e post p n q, In (pre ++ Rep mn mx e :: post) a -> cat_rel up pre i p -> pow_rel (up e) n p q -> stk gr pr e q.
  Proof.
    intros B Hi [S1 S2] pre mn mx e post p n q I C P.
    assert (LE : forall e p q, up e p q -> p <= len -> p <= q <= len) by (intros e9 p9 q9 H9 _; exact (up_le e9 p9 q9 H9)).
    pose proof (cat_rel_le input up LE pre i p C Hi) as L1'. pose proof (proj1 (rel_le input up LE) e n p q P ltac:(lia)) as L2'.
    assert (St : q = i -> corner t (T e0) (T e)).
    { intros ->. assert (p = i) as -> by lia. exists (malt true a), (map (mark_rep true) pre), mn, mx, (T e), (map (mark_rep true) post).
      split; [apply body_T; auto|]. split; [|split; auto; eapply cat_null; eauto].
      apply (in_map (map (mark_rep true))) in I. rewrite map_app in I. exact I. }
    assert (Up : forall e1, above e1 e0 -> q = i -> cor e1 e).
    { intros e1 [A|A] Q; specialize (St Q).
      - apply t_step. eapply corner_canon; [symmetry; exact A|reflexivity|exact St].
      - eapply t_trans; [exact A|apply t_step; exact St]. }
    split.
    - intros x i' s G. destruct (S1 x i' s G) as [A B']. split; [lia|]. intros ->. apply Up; [apply B'|]; lia.
    - intros e' i' N G. destruct (S2 e' i' N G) as [A B']. split; [lia|]. intros ->. apply Up; [apply B'|]; lia.
  Qed.

  Section Body.
    Variable call : elem -> nat -> rstate -> rres (list nat).
    Hypothesis IHc : forall e i gr pr st, named e -> i <= len -> Inv gr pr st -> cls lr gr -> grlow gr -> stk gr pr e i ->
      good True True (call e i st) (fun s st' => Inv gr pr st' /\ (forall j, lo gr e i j -> In j s) /\ (forall j, In j s -> up e i j)).

    Lemma alt_C gr pr e0 a i st : body g e0 a -> named_alt a -> i <= len -> Inv gr pr st -> cls lr gr -> grlow gr -> stk0 gr pr e0 i ->
      good True True (reach_alt input ord call a i st)
        (fun s st' => Inv gr pr st' /\ (forall j, alt_rel (fun e => lo gr e) a i j -> In j s) /\ (forall j, In j s -> alt_rel up a i j)).
    Proof.
      intros B N Hi V C L S.
      set (lo' := fun e p q => lo gr e p q /\ up e p q).
      set (okc := fun e p => named e /\ p <= len /\ stk gr pr e p).
      assert (LE : forall e p q, up e p q -> p <= len -> p <= q <= len) by (intros e9 p9 q9 H9 _; exact (up_le e9 p9 q9 H9)).
      eapply good_weaken; [apply (reach_alt_good input ord O call (Inv gr pr) okc True True True lo' up); auto|].
      - intros e p st' V' (Ne & Hp & Sk). eapply good_weaken; [apply (IHc e p gr pr st'); auto|]. cbv beta.
        intros s st2 (V2 & A & D). split; auto. split; auto. intros _ j [J _]. auto.
      - intros _ e p q [_ H]. auto.
      - intros c r Ic Ir. eapply named_cat_ok; eauto.
      - intros _ c r Ic Ir. apply RO. eapply N; eauto.
      - intros pre mn mx e post p n q I Cr P. split; [|split].
        + left. econstructor. apply (N _ (Rep mn mx e) I). apply in_app_iff. right. left. auto.
        + pose proof (cat_rel_le input up LE pre i p Cr Hi). pose proof (proj1 (rel_le input up LE) e n p q P ltac:(lia)). lia.
        + eapply stk_step; eauto.
      - cbv beta. intros s st' (V' & A & D). split; auto. split; auto. intros j J. apply A; [exact Logic.I|].
        apply (alt_mono_le input (fun e => lo gr e) lo'); auto.
        + intros e p q [_ H]. exact (LE e p q H).
        + intros c mn mx e Ic Ir p q Hp H. split; auto. apply (lo_up gr); auto.
          * intros n i' s' j'. apply (Inv_GS gr pr st V L).
          * left. econstructor. eapply N; eauto.
    Qed.

    Definition plain (e : elem) : Prop := match e with ERule n => lr (lower n) = None | _ => True end.
    Lemma plain_acyclic e : named e -> plain e -> ~ cor e e.
    Proof.
      intros N P.
      assert (Tm : is_terminal e = true -> ~ cor e e).
      { intros Te H. apply clos_trans_t1n in H. assert (exists y, corner t (T e) y) as (y & a & pre & mn & mx & x & post & B & _) by (inversion H; eauto).
        destruct e; try discriminate; inversion B. }
      destruct e as [n|a|a|s vs|b s0 es|v]; try (apply Tm; reflexivity).
      - apply L1. exact P.
      - destruct N as [N|(n & E & _)]; [|discriminate]. destruct (proj1 (occ_t g) _ N) as [C|C]; [discriminate|]. apply HG; [exact C|]. cbn. eauto.
      - destruct N as [N|(n & E & _)]; [|discriminate]. destruct (proj1 (occ_t g) _ N) as [C|C]; [discriminate|]. apply HG; [exact C|]. cbn. eauto.
    Qed.

    Lemma compute_C gr pr e i st : named e -> plain e -> i <= len -> Inv gr pr st -> cls lr gr -> grlow gr -> stk0 gr pr e i ->
      (forall n, e = ERule n -> gr (rkey (lower n) i) = None) ->
      good True True (compute_elem g input ord call e i st) (fun s st' => Inv gr pr st' /\ (forall j, lo gr e i j -> In j s)).
    Proof.
      intros N P Hi V C L S Nn.
      assert (T : is_terminal e = true -> good True True (ROk (match match_term e input i with Some j => [j] | None => [] end) st) (fun s st' => Inv gr pr st' /\ forall j, lo gr e i j -> In j s)).
      { intros Te. cbn [Recog.good]. split; auto. intros j J. apply lo_term in J; [|rewrite T_terminal; auto]. apply match_T in J; auto. rewrite J. left. auto. }
      destruct e as [n|a|a|s vs|b s0 es|v]; try (apply T; reflexivity); cbn [compute_elem].
      - destruct (get_rule n g) as [r|] eqn:G.
        + assert (Bd : body g (ERule n) (rule_alt r)) by (constructor; apply (proj1 (get_rule_resolves g n (proj1 W))); auto).
          eapply good_weaken; [apply (alt_C gr pr (ERule n) (rule_alt r) i st Bd (named_rule g n r G)); auto|].
          cbv beta. intros s st' (V' & A & _). split; auto. intros j J. cbn [mark_elem] in J. apply lo_rule in J. rewrite (Nn n eq_refl) in J.
            destruct J as (r' & G' & J). apply (t_get_inv g W) in G' as (r2 & G' & E). assert (r2 = r) as -> by congruence. rewrite E in J. apply alt_T in J. auto.
        + cbn. split; auto. intros j J. apply lo_rule in J. rewrite (Nn n eq_refl) in J. destruct J as (r' & G' & J).
          apply (t_get_inv g W) in G' as (r2 & G' & _). congruence.
      - eapply good_weaken; [apply (alt_C gr pr (EGroup a)); auto; [constructor|eapply named_group; eauto]|].
        cbv beta. intros s st' (V' & A & _). split; auto. intros j J. cbn [mark_elem] in J. apply lo_group in J. apply alt_T in J. auto.
      - eapply good_bind; [apply (alt_C gr pr (EOption a)); auto; [constructor|eapply named_option; eauto]|].
        cbv beta. intros s st' (V' & A & _). cbn [Recog.good]. split; auto. intros j J. cbn [mark_elem] in J. apply lo_option in J. apply union_in.
        destruct J as [->|J]; [left; left; auto|right; apply alt_T in J; auto].
    Qed.

    Lemma plain_key e i x i' : named e -> plain e -> lr x <> None -> ekey e i <> rkey x i'.
    Proof.
      intros N P Lx E. destruct (lr x) as [scc|] eqn:El; [|congruence].
      assert (Ix : In x scc) by (eapply LI; eauto).
      assert (Nx : named (ERule x)) by (right; exists x; split; auto; eapply LL; eauto).
      destruct (key_T e (ERule x) i i' N Nx E) as [Et _]. destruct e; cbn in Et; try discriminate. injection Et as ->. cbn in P.
      rewrite (LLow x scc x El Ix) in P. congruence.
    Qed.
    Lemma plain_free gr pr e i : named e -> plain e -> grlow gr -> stk gr pr e i -> free_from t input gr (T e) i.
    Proof.
      intros N P L S. split.
      - intros n i' Lt Hi2. destruct (gr (rkey (lower n) i')) as [s|] eqn:G; auto. apply (proj1 S) in G as [G _]. lia.
      - intros n Cn. destruct (gr (rkey (lower n) i)) as [s|] eqn:G; auto. exfalso. apply (proj1 S) in G as [_ G]. specialize (G eq_refl).
        assert (G' : corners t (ERule n) (T e)) by (eapply corners_canon; [|reflexivity|exact G]; cbn; rewrite lower_lower; auto).
        apply (plain_acyclic e N P). destruct Cn as [Cn|Cn]; [|eapply t_trans; eauto].
        eapply corners_canon; [|reflexivity|exact G']. rewrite Cn. reflexivity.
    Qed.
    Lemma free_closed gr e i : free_from t input gr e i -> closed_from t input gr e i.
    Proof. intros [A B]. split; [intros n i' Lt Hi s G; rewrite A in G; auto; discriminate|]. intros n Cn s G. rewrite B in G; auto. discriminate. Qed.

    Lemma plain_C gr pr e i st : named e -> plain e -> i <= len -> Inv gr pr st -> cls lr gr -> grlow gr -> stk gr pr e i ->
      (forall n, e = ERule n -> gr (rkey (lower n) i) = None) ->
      good True True (reach_plain g input ord call e i st)
        (fun s st' => memI gr st' /\ (forall k, r_prog st' k = pr k) /\ (forall j, lo gr e i j -> In j s)).
    Proof.
      intros N P Hi V C L S Nn. pose proof V as (Vs & Vm & Vg & Vp). unfold reach_plain.
      pose proof (plain_free gr pr e i N P L S) as Fr.
      destruct (r_memo st (ekey e i)) as [v|] eqn:M.
      { cbn. split; auto. split; auto. intros j J. eapply (proj1 Vm); eauto. apply (free_low gr); auto. }
      destruct (r_prog st (ekey e i)) eqn:Pg.
      { exfalso. rewrite Vp in Pg. destruct (proj2 S e i N Pg) as [_ Cy]. exact (plain_acyclic e N P (Cy eq_refl)). }
      set (pr' := upd pr (ekey e i) true).
      assert (S' : stk0 gr pr' e i).
      { split.
        - intros x i' s G. destruct (proj1 S x i' s G) as [A B]. split; auto. intros E. right. auto.
        - intros e' i' N' G. unfold pr' in G. rewrite upd_case in G. destruct (String.eqb_spec (ekey e' i') (ekey e i)) as [E|E].
          + apply key_T in E as [Et ->]; auto. split; auto. intros _. left. rewrite Et. auto.
          + destruct (proj2 S e' i' N' G) as [A B]. split; auto. intros E'. right. auto. }
      assert (V' : Inv gr pr' (set_prog (ekey e i) true st)).
      { split; [exact Vs|]. split; [exact Vm|]. split; [exact Vg|]. intros k. cbn. unfold pr'. rewrite !upd_case. destruct (String.eqb k (ekey e i)); auto. }
      eapply good_bind; [apply (compute_C gr pr' e i); auto|]. cbv beta. intros out st' (V2 & A). cbn [Recog.good].
      pose proof V2 as (V2s & (V2m & V2u & V2d) & V2g & V2p). split; [|split; [|exact A]].
      - assert (Un : forall x i', lr x <> None -> r_memo (set_memo (ekey e i) out (set_prog (ekey e i) false st')) (rkey x i') = r_memo st' (rkey x i')).
        { intros x i' Lx. cbn. apply upd_other. intros E. symmetry in E. revert E. apply plain_key; auto. }
        split; [|split].
        + intros e' i' s N' Hi' Ms j J. cbn in Ms. rewrite upd_case in Ms. destruct (String.eqb_spec (ekey e' i') (ekey e i)) as [E|E].
          * injection Ms as <-. apply key_T in E as [Et ->]; auto. apply A. rewrite Et in J. apply (low_lo gr); auto. apply free_closed. exact Fr.
          * eapply V2m; eauto.
        + intros n scc x i' Ln Ix. destruct (LC n scc x Ln Ix) as (sc & Lx & _). rewrite !Un by congruence. eapply V2u; eauto.
        + intros x i' s G. rewrite Un by (apply (L x i' s G)). eapply V2d; eauto.
      - intros k. cbn. rewrite upd_case. destruct (String.eqb_spec k (ekey e i)) as [->|E]; [rewrite <- Vp; auto|].
        rewrite V2p. unfold pr'. apply upd_other. auto.
    Qed.

    (** *** Growth *)
    Definition closedx (gr : grow_map) (x : string) (i : nat) : Prop :=
      forall s r j, gr (rkey x i) = Some s -> get_rule x g = Some r -> alt_rel (fun e => lo gr e) (rule_alt r) i j -> In j s.
    Definition base (gr0 : grow_map) (full : list string) (i : nat) (gr : grow_map) : Prop :=
      (forall x, In x full -> is_some (gr (rkey x i)) = true) /\ (forall k, (forall x, In x full -> k <> rkey x i) -> gr k = gr0 k).

    Section Grow.
      Variables (n : string) (full : list string) (i : nat) (gr0 : grow_map) (pr : string -> bool).
      Hypothesis Lf : lr n = Some full.
      Hypothesis Hi : i <= len.
      Hypothesis C0 : cls lr gr0.
      Hypothesis L0 : grlow gr0.
      Hypothesis S0 : stk gr0 pr (ERule n) i.

      Lemma base_keys gr x i' s : base gr0 full i gr -> gr (rkey x i') = Some s -> (In x full /\ i' = i) \/ (~ (In x full /\ i' = i) /\ gr0 (rkey x i') = Some s).
      Proof.
        intros [_ B] G. destruct (in_dec string_dec x full) as [I|N]; [destruct (Nat.eq_dec i' i) as [->|E]|].
        - left. auto.
        - right. split; [tauto|]. rewrite B in G; auto. intros y Iy Ey. apply rkey_inj in Ey as [_ Ey]. auto.
        - right. split; [tauto|]. rewrite B in G; auto. intros y Iy Ey. apply rkey_inj in Ey as [<- _]. auto.
      Qed.
      Lemma base_grlow gr : base gr0 full i gr -> grlow gr.
      Proof.
        intros B x i' s G. destruct (base_keys gr x i' s B G) as [[I ->]|[_ G0]]; [|eapply L0; eauto].
        split; [eapply LLow; eauto|]. split; [eapply LL; eauto|]. destruct (LC n full x Lf I) as (sc & E & _). congruence.
      Qed.
      Lemma base_cls gr : base gr0 full i gr -> cls lr gr.
      Proof.
        intros B a scca b i' La Ib Sa. destruct (gr (rkey a i')) as [s|] eqn:Ga; [|discriminate].
        destruct (base_keys gr a i' s B Ga) as [[I ->]|[N G0]].
        - destruct (LC n full a Lf I) as (sc & La' & M). rewrite La in La'. inversion La'; subst sc. apply (proj1 B). apply M. auto.
        - assert (gr (rkey b i') = gr0 (rkey b i')) as ->; [|eapply C0; eauto; rewrite G0; auto].
          apply (proj2 B). intros y Iy E. apply rkey_inj in E as [<- ->]. apply N. split; auto.
          destruct (LC n full b Lf Iy) as (sb & Lb & Mb). destruct (LC a scca b La Ib) as (sb' & Lb' & Mb'). rewrite Lb in Lb'. inversion Lb'; subst sb'.
          apply Mb, Mb'. apply (LI a); auto.
      Qed.
      Lemma base_stk gr x : base gr0 full i gr -> In x full -> stk0 gr pr (ERule x) i.
      Proof.
        intros B Ix. assert (In n full) as In_ by (apply LI; auto). split.
        - intros y i' s G. destruct (base_keys gr y i' s B G) as [[I ->]|[_ G0]].
          + split; auto. intros _. right. eapply L3; eauto.
          + destruct (proj1 S0 y i' s G0) as [A Q]. split; auto. intros E. right. eapply t_trans; [apply Q; auto|]. eapply L3; eauto.
        - intros e' i' N' G. destruct (proj2 S0 e' i' N' G) as [A Q]. split; auto. intros E. right. eapply t_trans; [apply Q; auto|]. eapply L3; eauto.
      Qed.

      Lemma round_C : forall scc, (forall x, In x scc -> In x full) -> forall ch gr st, base gr0 full i gr -> Inv gr pr st ->
        good True True (grow_round g input ord call scc i ch st) (fun ch' st' => exists gr', base gr0 full i gr' /\ Inv gr' pr st' /\
          (ch' = false -> ch = false /\ (forall k, gr' k = gr k) /\ forall x, In x scc -> closedx gr x i)).
      Proof.
        induction scc as [|x scc IH]; intros Sub ch gr st B V; cbn [grow_round].
        { cbn. exists gr. split; auto. split; auto. intros ->. split; auto. split; auto. intros x []. }
        assert (Sub' : forall x, In x scc -> In x full) by (intros y Y; apply Sub; right; auto).
        assert (Ix : In x full) by (apply Sub; left; auto).
        destruct (get_rule x g) as [r|] eqn:G.
        2:{ eapply good_weaken; [apply (IH Sub' ch gr st B V)|]. cbv beta. intros ch' st' (gr' & B' & V' & H). exists gr'. split; auto. split; auto.
            intros E. destruct (H E) as (H1 & H2 & H3). split; auto. split; auto. intros y [<-|Iy]; auto. intros s r j _ Gx. congruence. }
        eapply good_bind.
        { apply (alt_C gr pr (ERule x) (rule_alt r) i st); auto using base_cls, base_grlow, base_stk.
          - constructor. apply (proj1 (get_rule_resolves g x (proj1 W))). auto.
          - eapply named_rule; eauto. }
        cbv beta. intros ns st1 (V1 & A1 & D1). pose proof V1 as (V1s & V1m & V1g & V1p).
        destruct (r_grow st1 (rkey x i)) as [cur|] eqn:Gc; [|destruct ns; [|exact Logic.I]].
        2:{ exfalso. pose proof (proj1 B x Ix) as Q. rewrite <- V1g, Gc in Q. discriminate. }
        destruct (existsb (fun e => negb (mem_nat e cur)) ns) eqn:Nw.
        - set (gr1 := upd gr (rkey x i) (Some (union cur ns))).
          assert (B1 : base gr0 full i gr1).
          { split.
            - intros y Iy. unfold gr1. rewrite upd_case. destruct (String.eqb (rkey y i) (rkey x i)); auto. apply (proj1 B). auto.
            - intros k Nk. unfold gr1. rewrite upd_other; [apply (proj2 B); auto|]. apply Nk. auto. }
          assert (V2 : Inv gr1 pr (set_grow (rkey x i) (Some (union cur ns)) st1)).
          { split; [|split; [|split; [|exact V1p]]].
            - apply sound_grow; auto; [apply up_string| |eapply LL; eauto]. intros j J _. apply union_in in J as [J|J].
              + apply (V1s (rkey x i) cur (or_intror Gc)); auto. right. exists x. split; auto. eapply LL; eauto.
              + eapply up_rule; eauto.
            - destruct V1m as (Ma & Mb & Mc). split; [exact Ma|]. split; [exact Mb|]. intros y i' s. unfold gr1. rewrite upd_case.
              destruct (String.eqb_spec (rkey y i') (rkey x i)) as [E|E]; [|apply Mc]. intros _. cbn. rewrite E. rewrite V1g in Gc. eapply Mc; eauto.
            - intros k. cbn. unfold gr1. rewrite !upd_case. destruct (String.eqb k (rkey x i)); auto. }
          eapply good_weaken; [apply (IH Sub' true gr1 _ B1 V2)|]. cbv beta. intros ch' st' (gr' & B' & V' & H). exists gr'. split; auto. split; auto.
          intros E. destruct (H E) as (H1 & _). discriminate.
        - eapply good_weaken; [apply (IH Sub' ch gr st1 B V1)|]. cbv beta. intros ch' st' (gr' & B' & V' & H). exists gr'. split; auto. split; auto.
          intros E. destruct (H E) as (H1 & H2 & H3). split; auto. split; auto. intros y [<-|Iy]; auto. intros s r' j Gs Gr Al.
          assert (r' = r) as -> by congruence. apply A1 in Al. rewrite <- V1g, Gc in Gs. injection Gs as <-.
          destruct (in_dec Nat.eq_dec j cur) as [Ij|Nj]; auto. exfalso.
          assert (existsb (fun e => negb (mem_nat e cur)) ns = true); [|congruence]. apply existsb_exists. exists j. split; auto.
          apply negb_true_iff. destruct (mem_nat j cur) eqn:Mj; auto. apply mem_nat_in in Mj. contradiction.
      Qed.
      Lemma grow_C : forall k gr st, base gr0 full i gr -> Inv gr pr st ->
        good True True (grow_loop g input ord call k full i st) (fun _ st' => exists gr', base gr0 full i gr' /\ Inv gr' pr st' /\ forall x, In x full -> closedx gr' x i).
      Proof.
        induction k as [|k IH]; intros gr st B V; cbn [grow_loop]; [exact Logic.I|].
        eapply good_bind; [apply (round_C full (fun x H => H) false gr st B V)|]. cbv beta. intros ch st1 (gr1 & B1 & V1 & H).
        destruct ch; [apply (IH gr1); auto|]. destruct (H eq_refl) as (_ & E & Cl). cbn. exists gr. split; auto. split; auto.
        destruct V1 as (A1 & A2 & A3 & A4). split; [exact A1|]. split; [|split; [|exact A4]].
        - destruct A2 as (Ma & Mb & Mc). split; [exact Ma|]. split; [exact Mb|]. intros x i' s Gx. apply (Mc x i' s). rewrite E. exact Gx.
        - intros x. rewrite A3. auto.
      Qed.
      (** At a fixpoint the seeds are exact. *)
      Lemma seeds_exact gr st : base gr0 full i gr -> Inv gr pr st -> (forall x, In x full -> closedx gr x i) ->
        forall x s j, In x full -> gr (rkey x i) = Some s -> low (ERule x) i j -> In j s.
      Proof.
        intros B V Cl x s j Ix Gx J. assert (Lx : lower x = x) by (eapply LLow; eauto).
        assert (A : lo gr (ERule x) i j).
        { apply (low_lo gr); auto; [right; exists x; split; auto; eapply LL; eauto|]. split.
          - intros m i' Lt Hi' s' G'. exfalso. destruct (base_keys gr (lower m) i' s' B G') as [[_ ->]|[_ G0]]; [lia|].
            apply (proj1 S0) in G0 as [G0 _]. lia.
          - intros m Cm s' G' r j' Gr Al.
            assert (In (lower m) full) as Im.
            { destruct (base_keys gr (lower m) i s' B G') as [[I _]|[N G0]]; auto. exfalso. apply N. split; auto.
              apply (proj1 S0) in G0 as [_ G0]. specialize (G0 eq_refl).
              assert (Lm : corners t (ERule m) (ERule n)) by (eapply corners_canon; [|reflexivity|exact G0]; cbn; rewrite lower_lower; auto).
              assert (In n full) as In_ by (apply LI; auto). assert (Ln : lower n = n) by (eapply LLow; eauto).
              destruct Cm as [Cm|Cm].
              - cbn in Cm. injection Cm as Cm. rewrite <- Cm, Lx. auto.
              - apply (L2 n full m); [rewrite Ln; auto| |exact Lm]. eapply t_trans; [|exact Cm]. eapply L3; eauto. }
            apply (t_get_inv g W) in Gr as (r0 & Gr & Er). apply (Cl (lower m) Im s' r0 j'); auto; [rewrite get_rule_lower; auto|]. rewrite Er in Al. apply alt_T in Al. exact Al. }
        cbn [mark_elem] in A. apply lo_rule in A. rewrite Lx, Gx in A. auto.
      Qed.
    End Grow.

    Lemma finish_C name i : i <= len -> forall scc, NoDup scc -> (forall x, In x scc -> lex_name x = true) ->
      forall result st, memoC st ->
      (forall x, In x scc -> is_some (r_grow st (rkey x i)) = true) ->
      (forall x s j, In x scc -> r_grow st (rkey x i) = Some s -> low (ERule x) i j -> In j s) ->
      (In name scc \/ forall j, low (ERule name) i j -> In j result) ->
      let '(res, st') := finish name scc i result st in memoC st' /\ (forall j, low (ERule name) i j -> In j res).
    Proof.
      intros Hi. induction scc as [|x scc IH]; intros Nd Lx result st M Sm Ex R; cbn [finish].
      { split; auto. destruct R as [[]|R]. auto. }
      inversion Nd as [|? ? Nx Nd']; subst.
      assert (Lx' : forall x, In x scc -> lex_name x = true) by (intros y Y; apply Lx; right; auto).
      assert (V : forall j, low (ERule x) i j -> In j (match r_grow st (rkey x i) with Some v => v | None => [] end)).
      { intros j J. pose proof (Sm x (or_introl eq_refl)) as Q. destruct (r_grow st (rkey x i)) as [v|] eqn:G; [|discriminate]. eapply Ex; eauto. left; auto. }
      set (v := match r_grow st (rkey x i) with Some v => v | None => [] end) in *.
      assert (Oth : forall y, In y scc -> r_grow (set_memo (rkey x i) v (set_grow (rkey x i) None st)) (rkey y i) = r_grow st (rkey y i)).
      { intros y Iy. cbn. apply upd_other. intros E. apply rkey_inj in E as [-> _]. contradiction. }
      apply IH; auto.
      - intros e i' s N' Hi' Ms j J. cbn in Ms. rewrite upd_case in Ms. destruct (String.eqb_spec (ekey e i') (rkey x i)) as [E|E]; [|eapply M; eauto].
        injection Ms as <-. destruct (key_T e (ERule x) i' i N') as [E1 E2]; [right; exists x; split; auto; apply Lx; left; auto|exact E|]. rewrite E1 in J. subst i'. apply V. exact J.
      - intros y Iy. rewrite Oth by auto. apply Sm. right. auto.
      - intros y s j Iy. rewrite Oth by auto. apply Ex. right. auto.
      - destruct (String.eqb_spec x name) as [->|Ne]; [right; auto|]. destruct R as [[E|R]|R]; [contradiction|auto|auto].
    Qed.

    Lemma finish_memo name i : forall scc result st,
      (forall x, In x scc -> r_memo (snd (finish name scc i result st)) (rkey x i) <> None) /\
      (forall k, r_memo st k <> None -> r_memo (snd (finish name scc i result st)) k <> None) /\
      (forall k, (forall x, In x scc -> k <> rkey x i) -> r_memo (snd (finish name scc i result st)) k = r_memo st k).
    Proof.
      induction scc as [|x scc IH]; intros result st; cbn [finish]; [split; [intros x []|split; auto]|].
      set (v := match r_grow st (rkey x i) with Some v => v | None => [] end).
      destruct (IH (if String.eqb x name then v else result) (set_memo (rkey x i) v (set_grow (rkey x i) None st))) as (A & B & C). split; [|split].
      - intros y [<-|I]; auto. apply B. cbn. rewrite upd_case, String.eqb_refl. discriminate.
      - intros k K. apply B. cbn. rewrite upd_case. destruct (String.eqb k (rkey x i)); [discriminate|exact K].
      - intros k K. rewrite C by (intros y I; apply K; right; auto). cbn. apply upd_other. apply K. left. auto.
    Qed.
    Lemma finish_prog name i : forall scc result st, forall k, r_prog (snd (finish name scc i result st)) k = r_prog st k.
    Proof. induction scc as [|x scc IH]; intros result st k; cbn [finish]; [auto|]. rewrite IH. reflexivity. Qed.

    Lemma left_rec_C gr pr n scc i st : lex_name n = true -> lr (lower n) = Some scc -> i <= len -> Inv gr pr st -> cls lr gr -> grlow gr -> stk gr pr (ERule n) i ->
      good True True (reach_left_rec g input ord call (lower n) scc i st)
        (fun s st' => memI gr st' /\ (forall k, r_prog st' k = pr k) /\ (forall j, lo gr (ERule n) i j -> In j s)).
    Proof.
      intros Ln L Hi V C Gl S. pose proof V as (Vs & Vm & Vg & Vp). unfold reach_left_rec.
      assert (Ld : gr (rkey (lower n) i) = None -> forall j, lo gr (ERule n) i j -> low (ERule (lower n)) i j).
      { intros Gn j J. apply low_lower. apply (free_low gr) in J; auto; [right; eauto|]. split.
        - intros m i' Lt Hi2. destruct (gr (rkey (lower m) i')) as [s|] eqn:Gm; auto. apply (proj1 S) in Gm as [Gm _]. lia.
        - intros m Cm. destruct (gr (rkey (lower m) i)) as [s|] eqn:Gm; auto. exfalso. pose proof Gm as Gs. apply (proj1 S) in Gm as [_ Gm]. specialize (Gm eq_refl).
          assert (Lm : corners t (ERule m) (ERule n)) by (eapply corners_canon; [|reflexivity|exact Gm]; cbn; rewrite lower_lower; auto).
          destruct Cm as [Cm|Cm]; [cbn in Cm; injection Cm as Cm; rewrite <- Cm, Gn in Gs; discriminate|].
          pose proof (L2 n scc m L Cm Lm) as Im. destruct (LC (lower n) scc (lower m) L Im) as (sc & Lmm & Q).
          assert (Q' : is_some (gr (rkey (lower n) i)) = true).
          { apply (C (lower m) sc (lower n) i Lmm); [apply Q; apply LI; auto|rewrite Gs; auto]. }
          rewrite Gn in Q'. discriminate. }
      assert (Nm : named (ERule (lower n))) by (right; exists (lower n); split; auto; rewrite lex_lower; auto).
      destruct (r_memo st (rkey (lower n) i)) as [v|] eqn:M.
      { cbn. split; auto. split; auto. intros j J. apply (proj1 Vm (ERule (lower n)) i v); auto. apply Ld; auto.
        destruct (gr (rkey (lower n) i)) as [s|] eqn:Gn; auto. apply (proj2 (proj2 Vm)) in Gn. congruence. }
      destruct (r_grow st (rkey (lower n) i)) as [v|] eqn:G.
      { cbn. split; auto. split; auto. intros j J. cbn [mark_elem] in J. apply lo_rule in J. rewrite <- Vg, G in J. auto. }
      set (st1 := seed_all scc i st).
      assert (S1 : forall k, r_grow st1 k = (if existsb (fun x => String.eqb k (rkey x i)) scc then Some [] else r_grow st k) /\ r_memo st1 k = r_memo st k /\ r_prog st1 k = r_prog st k) by (intros k; apply seed_all_grow).
      assert (Ex : forall k, existsb (fun x => String.eqb k (rkey x i)) scc = true <-> exists x, In x scc /\ k = rkey x i).
      { intros k. rewrite existsb_exists. split; intros (x & Ix & E); exists x; split; auto; [apply String.eqb_eq; auto|subst; apply String.eqb_refl]. }
      assert (S' : stk gr pr (ERule (lower n)) i).
      { split; intros a b; [intros s Q|intros N' Q].
        - destruct (proj1 S a b s Q) as [A B]. split; auto. intros E. eapply corners_canon; [reflexivity| |exact (B E)]. cbn. rewrite lower_lower. auto.
        - destruct (proj2 S a b N' Q) as [A B]. split; auto. intros E. eapply corners_canon; [reflexivity| |exact (B E)]. cbn. rewrite lower_lower. auto. }
      assert (B1 : base gr scc i (r_grow st1)).
      { split.
        - intros x Ix. rewrite (proj1 (S1 _)). assert (existsb (fun y => String.eqb (rkey x i) (rkey y i)) scc = true) as -> by (apply Ex; eauto). auto.
        - intros k Nk. rewrite (proj1 (S1 _)). destruct (existsb (fun y => String.eqb k (rkey y i)) scc) eqn:E; [|apply Vg].
          apply Ex in E as (x & Ix & ->). exfalso. eapply Nk; eauto. }
      assert (Lx : forall x, In x scc -> lex_name x = true) by (intros x; apply (LL (lower n)); auto).
      assert (V1 : Inv (r_grow st1) pr st1).
      { split; [apply seed_S; auto; apply up_string|]. split; [|split].
        - destruct Vm as (Ma & Mb & Mc). split; [|split].
          + intros e i' s N' Hi' Ms. rewrite (proj1 (proj2 (S1 _))) in Ms. eapply Ma; eauto.
          + intros m sc x i' Lm Ix. rewrite !(proj1 (proj2 (S1 _))). eapply Mb; eauto.
          + intros x i' s Gx. rewrite (proj1 (proj2 (S1 _))). rewrite (proj1 (S1 _)) in Gx. destruct (existsb _ scc) eqn:Ee; [|rewrite Vg in Gx; eapply Mc; eauto].
            apply Ex in Ee as (y & Iy & Ey). apply rkey_inj in Ey as [-> ->]. destruct (r_memo st (rkey y i)) as [v|] eqn:My; auto. exfalso.
            destruct (LC (lower n) scc y L Iy) as (sc & Ly & Q). apply (Mb y sc (lower n) i Ly); [apply Q; apply LI; auto|congruence|exact M].
        - intros k. reflexivity.
        - intros k. rewrite (proj2 (proj2 (S1 k))). apply Vp. }
      eapply good_bind; [apply (grow_C (lower n) scc i gr pr L Hi C Gl S' _ (r_grow st1) st1 B1 V1)|].
      cbv beta. intros _ st2 (gr2 & B2 & V2 & Cl). pose proof V2 as (V2s & V2m & V2g & V2p).
      pose proof (finish_C (lower n) i Hi scc (L4 _ _ L) Lx [] st2 (proj1 V2m)) as FC. pose proof (finish_memo (lower n) i scc [] st2) as FM. pose proof (finish_prog (lower n) i scc [] st2) as FP.
      destruct (finish (lower n) scc i [] st2) as [res st3]. cbn [snd] in FP, FM. cbn [Recog.good].
      destruct FC as [M3 R3].
      - intros x Ix. rewrite V2g. apply (proj1 B2). auto.
      - intros x s j Ix Gx. rewrite V2g in Gx. revert Gx. apply (seeds_exact (lower n) scc i gr pr L Hi S' gr2 st2); auto.
      - left. apply LI. auto.
      - assert (Gn : gr (rkey (lower n) i) = None) by (rewrite <- Vg; exact G).
        split; [|split; [intros k; rewrite FP; auto|auto]]. destruct V2m as (Ma & Mb & Mc). destruct FM as (F1 & F2 & F3). split; [exact M3|].
        assert (Dc : forall y i', (In y scc /\ i' = i) \/ (forall x, In x scc -> rkey y i' <> rkey x i)).
        { intros y i'. destruct (in_dec string_dec y scc) as [Iy|Ny]; [destruct (Nat.eq_dec i' i) as [->|Ne]; [auto|]|]; right; intros x Ix E; apply rkey_inj in E as [-> E']; auto. }
        split.
        + intros m sc x i' Lm Ix Mm. destruct (Dc m i') as [[Im ->]|Nm'].
          * apply F1. destruct (LC (lower n) scc m L Im) as (sc' & Lm' & Q). rewrite Lm in Lm'. injection Lm' as <-. apply Q. exact Ix.
          * apply F2. rewrite F3 in Mm by exact Nm'. eapply Mb; eauto.
        + intros x i' s Gx. destruct (Dc x i') as [[Ix ->]|Nx'].
          * exfalso. destruct (LC (lower n) scc x L Ix) as (sc' & Lx' & Q).
            assert (Q' : is_some (gr (rkey (lower n) i)) = true) by (apply (C x sc' (lower n) i Lx'); [apply Q; apply LI; auto|rewrite Gx; auto]).
            rewrite Gn in Q'. discriminate.
          * rewrite F3 by exact Nx'. apply (Mc x i' s). rewrite (proj2 B2) by exact Nx'. exact Gx.
    Qed.
  End Body.

  Theorem reach_elem_L : forall f e i gr pr st, named e -> i <= len -> Inv gr pr st -> cls lr gr -> grlow gr -> stk gr pr e i ->
    good True True (reach_elem g input lr ord f e i st) (fun s st' => Inv gr pr st' /\ (forall j, lo gr e i j -> In j s) /\ (forall j, In j s -> up e i j)).
  Proof.
    induction f as [|f IH]; intros e i gr pr st N Hi V C L S; [exact Logic.I|].
    assert (P : good True True (reach_elem g input lr ord (Datatypes.S f) e i st)
      (fun s st' => memI gr st' /\ (forall k, r_prog st' k = pr k) /\ (forall j, lo gr e i j -> In j s))).
    { cbn [reach_elem]. unfold reach_body, is_lr.
      assert (Pl : plain e -> good True True (reach_plain g input ord (reach_elem g input lr ord f) e i st)
        (fun s st' => memI gr st' /\ (forall k, r_prog st' k = pr k) /\ (forall j, lo gr e i j -> In j s))).
      { intros Pe. apply plain_C; auto. intros n ->. destruct (gr (rkey (lower n) i)) eqn:G; auto. exfalso. apply L in G as (_ & _ & G). exact (G Pe). }
      destruct e as [n|a|a|s vs|b s0 es|v]; try (apply Pl; exact Logic.I).
      destruct (lr (lower n)) as [scc|] eqn:El; [|apply Pl; exact El]. apply left_rec_C; auto. exact (named_lex g LG _ N). }
    pose proof (reach_up (Datatypes.S f) e i st N Hi (proj1 V)) as PS.
    pose proof (reach_elem_n g input lr ord O LI LC (Datatypes.S f) e i gr st C (proj1 (proj2 (proj2 V)))) as PN.
    pose proof (good_conj _ _ _ _ True True _ _ _ P PS (fun _ _ => Logic.I) (fun _ _ => Logic.I)) as P1.
    pose proof (good_conj _ _ _ _ True True _ _ _ P1 PN (fun _ _ => Logic.I) (fun _ _ => Logic.I)) as P2.
    eapply good_weaken; [exact P2|]. cbv beta. intros s st' (((A1 & A2 & A3) & B1 & B2) & C1). split; [|auto].
    split; [exact B1|]. split; auto.
  Qed.

  (** From an empty recognizer. *)
  Theorem recognizer_low f n : lex_name n = true ->
    good True True (reach_elem g input lr ord f (ERule n) 0 r_init) (fun s _ => forall j, der t input (ERule n) 0 j -> In j s).
  Proof.
    intros Ln.
    assert (V : Inv (fun _ => None) (fun _ => false) r_init).
    { split; [intros k s [H|H]; discriminate|]. split; [|split; intros k; reflexivity].
      split; [intros e i s _ _ H; discriminate|]. split; [intros m sc x i _ _ H; exfalso; apply H; reflexivity|intros x i s H; discriminate]. }
    eapply good_weaken; [apply (reach_elem_L f (ERule n) 0 (fun _ => None) (fun _ => false) r_init); auto|].
    - right. eauto.
    - lia.
    - intros a sc b i _ _ H. discriminate.
    - intros x i s H. discriminate.
    - split; intros; discriminate.
    - cbv beta. intros s st' (_ & A & _). intros j J. apply A.
      apply (low_lo (fun _ => None) (ERule n)); auto; [right; eauto|]. split; [intros m i' Q1 Q2 s' H'; discriminate H'|intros m Q1 s' H'; discriminate H'].
  Qed.
End Lower.
