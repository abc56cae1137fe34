(** The grammar a = aa aa, aa = aaa aaa, ... of QueryCostLow.v has no cycle in its sets of
    binary subtree elements.
    Its definitions are means of proof and model no code. *)
From Coq Require Import ZArith Arith String Bool List Lia.
From Verif Require Import Syntax Spec Utf8 Num Term Printer Slots PropTerm Gll GllUniv Bsr BsrProof BsrTerm LowerProof LowerLang
  Sppf SppfProof TreeSpec Tree Codegen BsrTree BsrCount BsrTreeProof QueryCostLow CostProof.
Import ListNotations.
Local Open Scope string_scope.
Local Open Scope list_scope.
Local Open Scope nat_scope.

(** The nonterminals of a production come after its own, and there are at most two. *)
Definition up (nts : list sgNT) : Prop := forall X nt p, nth_error nts X = Some nt -> In p (nt_alts nt) ->
  length p <= 2 /\ forall Y, In (SNonterm Y) p -> X < Y.
Lemma up_empty nts : up nts -> up (nts ++ [emptyNT]).
Proof.
  intros H X nt p N I. destruct (Nat.lt_ge_cases X (length nts)) as [L|L].
  - rewrite nth_error_app1 in N by auto. eapply H; eauto.
  - rewrite nth_error_app2 in N by auto. destruct (X - length nts) as [|[|]]; cbn in N; try discriminate. injection N as <-. destruct I.
Qed.
Lemma up_set nts i x : up nts -> (forall p, In p (nt_alts x) -> length p <= 2 /\ forall Y, In (SNonterm Y) p -> i < Y) -> up (set_nth i x nts).
Proof.
  intros H Hx. assert (Hs : forall n o j, nth_error (set_nth i x n) j = Some o -> (j = i /\ o = x) \/ nth_error n j = Some o).
  { clear. revert i. induction i as [|i IH]; intros [|y n] o j E; cbn [set_nth] in E; auto.
    - destruct j as [|j]; cbn in *; auto. injection E as <-. auto.
    - destruct j as [|j]; cbn [nth_error] in *; auto. destruct (IH n o j E) as [[-> ->]|]; auto. }
  intros X nt p N I. destruct (Hs _ _ _ N) as [[-> ->]|N']; [auto|eapply H; eauto].
Qed.

Lemma tower_up k : forall d i f st, d + i = k -> d < f -> length (ls_nts st) = i -> ls_index st = kidx i ->
  ls_over st = false -> up (ls_nts st) ->
  exists st', lower_rule (g_tower k) 0 f (nm i) st = Some (i, st') /\ length (ls_nts st') = S k /\ ls_index st' = kidx (S k) /\
    ls_over st' = false /\ up (ls_nts st').
Proof.
  induction d as [|d IH]; intros i f st Ed F Ln Ix Ov Sm; (destruct f as [|f]; [lia|]); cbn [lower_rule];
    unfold reserve; rewrite nm_lower; change (String.append "rule:" (nm i)) with (key i); rewrite Ix, assoc_key, Nat.ltb_irrefl, Ln;
    unfold budget_exceeded; cbn [ls_nts ls_index ls_over]; rewrite Ov; cbn [Z.ltb Z.compare andb orb].
  - cbn in Ed. subst i. rewrite get_last. unfold last_rule. cbn [rule_alt rule_name].
    cbn [lower_alts lower_cat mapM lower_rep lower_elem Z.eqb Pos.eqb andb nonempty_seq]. eexists. split; [reflexivity|].
    unfold set_nt. cbn [ls_nts ls_index ls_over]. rewrite set_nth_len, app_length, Ln. split; [cbn; lia|]. split; auto. split; auto.
    apply up_set; [apply up_empty; auto|]. intros p [<-|[]]. split; [cbn; lia|]. intros Y [E|[]]. discriminate.
  - rewrite get_step by lia. unfold step_rule. cbn [rule_alt rule_name].
    set (st2 := mkLS (ls_nts st ++ [emptyNT]) ((key i, i) :: kidx i) false).
    destruct (IH (S i) f st2) as (st3 & E3 & L3 & I3 & O3 & S3); try (cbn; lia); auto.
    { cbn. rewrite app_length. cbn. lia. }
    { cbn [st2 ls_nts]. apply up_empty; auto. }
    assert (E4 : lower_rule (g_tower k) 0 f (nm (S i)) st3 = Some (S i, st3)).
    { destruct f as [|f']; [lia|]. cbn [lower_rule]. unfold reserve. rewrite nm_lower. change (String.append "rule:" (nm (S i))) with (key (S i)).
      rewrite I3, assoc_key. destruct (Nat.ltb_spec (S i) (S k)); [auto|lia]. }
    unfold lower_alts, lower_cat. cbn [mapM lower_rep lower_elem Z.eqb Pos.eqb andb]. rewrite E3, E4. cbn [nonempty_seq].
    eexists. split; [reflexivity|]. unfold set_nt. cbn [ls_nts ls_index ls_over]. rewrite set_nth_len. split; auto. split; auto. split; auto.
    apply up_set; auto. intros p [<-|[]]. split; [cbn; lia|]. intros Y [E|[E|[]]]; injection E as <-; lia.
Qed.
Lemma tower_compile_up k fuel sg : S k <= fuel -> compile_slots (g_tower k) "a" 0 fuel = CS_ok sg -> up (sg_nts sg).
Proof.
  intros F C. destruct (tower_up k k 0 fuel ls_init) as (st & E & L & _ & O & Sm); try reflexivity; try lia.
  { intros X nt p N. destruct X; discriminate. }
  change (nm 0) with "a" in E. unfold compile_slots in C. destruct (get_rule "a" (g_tower k)); [|discriminate]. rewrite E, O in C. injection C as <-. exact Sm.
Qed.

Section Up.
  Variable sg : slot_grammar.
  Variable set : list belem.
  Hypothesis Up : up (sg_nts sg).
  Notation pd := (bf_prod_dot sg).
  Notation bc := (bf_complete sg).
  Notation pv := (bf_pivots set).
  Definition rank (id : qid slot) : nat := match id with QI s _ _ => s_nt s | QS x _ _ => x end.
  Lemma el_nt id e : In e (el slot bc pv id) -> s_nt (fst e) = rank id.
  Proof.
    unfold el. destruct id as [s l r|x l r]; cbn [elems rank].
    - intros I. apply in_map_iff in I as (k & <- & _). reflexivity.
    - destruct (bc x) as [sls|] eqn:B; [|intros []]. cbn [of_opt qbind]. intros I. apply in_flat_map in I as (s & Is & I).
      apply in_map_iff in I as (k & <- & _). cbn [fst]. apply (complete_in sg x sls s B) in Is. tauto.
  Qed.
  Lemma step_rank c id : step slot pd bf_before bc pv c id -> rank id < rank c.
  Proof.
    intros (e & Ie & Ic). apply el_nt in Ie. unfold kids, parts_of, parts in Ic. unfold bf_prod_dot in Ic.
    destruct (prod_of sg (fst e)) as [p|] eqn:P; [|destruct Ic]. unfold prod_of in P. destruct (nth_error (sg_nts sg) (s_nt (fst e))) as [nt|] eqn:N; [|discriminate].
    apply nth_error_In in P. destruct (Up _ _ _ N P) as [Lp Y]. rewrite Ie in Y.
    assert (Sy : forall s a b, In s (map qsym_of p) -> In c (o2l (node_of_part (PSym (K := slot) s a b))) -> rank id < rank c).
    { intros s a b Is I. apply in_map_iff in Is as (y & <- & Is). destruct y; cbn in I; try (destruct I; fail). destruct I as [<-|[]]. cbn [rank]. auto. }
    destruct (s_dot (fst e)) as [|d]; [destruct Ic|]. destruct (nth_error (map qsym_of p) d) as [last|] eqn:La; [|destruct Ic].
    assert (Dl : d < length (map qsym_of p)) by (apply nth_error_Some; congruence). rewrite map_length in Dl. apply nth_error_In in La.
    destruct d as [|[|d]]; [| |lia].
    - apply in_app_iff in Ic as [Ic|[]]. eapply Sy; eauto.
    - destruct (map qsym_of p) as [|y ys] eqn:Em; [destruct Ic|]. apply in_app_iff in Ic as [Ic|Ic]; [exact (Sy _ _ _ La Ic)|exact (Sy y _ _ (or_introl eq_refl) Ic)].
  Qed.
  Lemma no_cycle x : ~ below slot pd bf_before bc pv x x.
  Proof.
    intros (c & S1 & R). apply step_rank in S1. assert (H : forall a b, reach slot pd bf_before bc pv a b -> rank a <= rank b).
    { induction 1 as [|a c' b S' R' IH]; auto. apply step_rank in S'. lia. }
    apply H in R. lia.
  Qed.
End Up.
