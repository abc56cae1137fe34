(** C96: Parse followed by EvaluateABNF (grammar.go:108-131). *)
From Coq Require Import ZArith Arith String Ascii Bool Permutation List Lia.
From Verif Require Import Syntax Spec Term PropTerm Printer Check Slots Gll Bsr Sppf Tree Errors Deps Eval EvalProof ReadSpec TreeSpec TreeLang
  PropGll ForestUnique PropTree PropSem PropEval AbnfEval PropRead AbnfLocal PrintInj PropPrint ParseAbnf PropParse PropJoin PropSame Evaluate.
Import ListNotations.
Local Open Scope string_scope.
Local Open Scope list_scope.
Local Open Scope Z_scope.

(** On every input, the forest of the grammar of ABNF is evaluated as ParseABNF without validation does, whatever
    the options; where ParseABNF reports where the parse fails, EvaluateABNF reports ErrNoSolutionFound. *)
Theorem C96_halves : forall ord w, any_order ord -> exists f enough, forall fuel, (enough <= fuel)%nat ->
  parse ord fuel w abnf_grammar "rulelist" = PF_ok f /\
  forall ordE sh redefine validate core,
    evaluate_abnf fuel ordE redefine validate core w f =
    match parse_abnf ord ordE sh fuel redefine false core w with PA_parse _ => PA_no_solution | r => r end /\
    (forall e, parse_abnf ord ordE sh fuel redefine false core w = PA_parse e <-> f_parse_error f = Some e).
Proof.
  intros ord w O. destruct (abnf_forest ord w O) as (f & en & H). destruct (parse_abnf_tree ord w O) as [A B].
  destruct (H en (le_n _)) as [E0 L0]. pose proof (C05_forest_valid_exact_partial _ _ _ _ _ _ _ _ O abnf_wf abnf_lex abnf_apart E0) as V.
  destruct (f_valid f) eqn:Vf.
  - assert (Lw : Lang abnf_grammar "rulelist" w) by (apply V; reflexivity). destruct (A Lw) as (t & en' & D & P). exists f, (Nat.max en en').
    intros fuel F. destruct (H fuel ltac:(lia)) as [E L]. split; [exact E|]. intros ordE sh redefine validate core.
    pose proof (P fuel ordE sh redefine false core ltac:(lia)) as Q. assert (T : f_tree fuel f = Some (Some t)).
    { destruct (C11_tree_is_derivation_partial _ _ _ _ _ _ _ _ O abnf_wf abnf_lex abnf_apart E0) as [_ C].
      destruct (C Vf fuel) as (r & ts & T1 & _ & _ & _ & D'); [lia|]. rewrite T1. do 2 f_equal. eapply C55_abnf_unambiguous; [exact (D' abnf_counts)|exact D]. }
    split.
    + unfold evaluate_abnf. rewrite T, Q. destruct (eval_tree redefine ordE core w t); reflexivity.
    + intros e. rewrite Q. unfold f_parse_error. rewrite Vf. split; [|discriminate]. destruct (eval_tree redefine ordE core w t); discriminate.
  - exists f, en. intros fuel F. destruct (H fuel F) as [E L]. split; [exact E|]. intros ordE sh redefine validate core.
    assert (Q : parse_abnf ord ordE sh fuel redefine false core w = match f_parse_error f with Some e => PA_parse e | None => PA_panic end).
    { unfold parse_abnf. rewrite E. unfold f_parse_error. rewrite Vf. reflexivity. }
    split.
    + assert (T : f_tree fuel f = Some None).
      { destruct (C11_tree_is_derivation_partial _ _ _ _ _ _ _ _ O abnf_wf abnf_lex abnf_apart E0) as [C _]. apply C. exact Vf. }
      unfold evaluate_abnf. rewrite T, Q. unfold f_parse_error. rewrite Vf. reflexivity.
    + intros e. rewrite Q. unfold f_parse_error. rewrite Vf. split; congruence.
Qed.

(** So it does not panic on forests of the grammar of ABNF. *)
Theorem C96_no_panic : forall ord w, any_order ord -> exists f enough, forall fuel, (enough <= fuel)%nat ->
  parse ord fuel w abnf_grammar "rulelist" = PF_ok f /\
  forall ordE redefine validate core, match evaluate_abnf fuel ordE redefine validate core w f with
  | PA_ok _ | PA_no_solution => True
  | PA_eval e => exists ds d, text_says any_filler w ds /\ In d ds /\
      (e = EE_core_modify (rule_name (fst d)) \/ e = EE_duplicated (rule_name (fst d)) \/ e = EE_not_found (rule_name (fst d)))
  | _ => False
  end.
Proof.
  intros ord w O. destruct (C96_halves ord w O) as (f & en & H). destruct (H en (le_n _)) as [E0 _].
  pose proof (C05_forest_valid_exact_partial _ _ _ _ _ _ _ _ O abnf_wf abnf_lex abnf_apart E0) as V.
  destruct (f_valid f) eqn:Vf.
  - assert (Lw : Lang abnf_grammar "rulelist" w) by (apply V; reflexivity). apply C55_abnf_texts in Lw as (ds & S).
    destruct (C57_accepts ord w ds O S) as (en' & P). exists f, (Nat.max en en'). intros fuel F. destruct (H fuel ltac:(lia)) as [E Q]. split; [exact E|].
    intros ordE redefine validate core. destruct (Q ordE (fun _ g => g) redefine validate core) as [-> _].
    specialize (P fuel ordE (fun _ g => g) redefine false core ltac:(lia)).
    destruct (parse_abnf ord ordE (fun _ g => g) fuel redefine false core w) as [st| | | | | | |e|e| |]; try contradiction; auto.
    + destruct P as (d & I & X). exists ds, d. auto.
    + discriminate P.
  - exists f, en. intros fuel F. destruct (H fuel F) as [E Q]. split; [exact E|]. intros ordE redefine validate core.
    destruct (Q ordE (fun _ g => g) redefine validate core) as [-> X].
    destruct (f_parse_error f) as [e|] eqn:Pe; [|unfold f_parse_error in Pe; rewrite Vf in Pe; discriminate].
    rewrite (proj2 (X e) eq_refl). auto.
Qed.

(** A forest of another grammar whose root has no child named rule: an empty grammar, and no error. *)
Theorem C96_other_grammars : forall fuel ordE redefine validate core w f t, f_tree fuel f = Some (Some t) ->
  (forall c, In c (pt_children t) -> pt_rule c <> "rule") ->
  exists st, evaluate_abnf fuel ordE redefine validate core w f = PA_ok st /\ rules_of st = [] /\ e_core st = core.
Proof.
  intros fuel ordE redefine validate core w f t T N. exists (mkE core [] 0). split; [|auto]. unfold evaluate_abnf. rewrite T. unfold eval_tree.
  assert (X : forall cs st, (forall c, In c cs -> pt_rule c <> "rule") -> e_rulelist redefine ordE w cs st = EvOk st).
  { induction cs as [|c cs IH]; intros st Nc; [reflexivity|]. cbn [e_rulelist]. destruct (String.eqb_spec (pt_rule c) "rule") as [E|_].
    - exfalso. apply (Nc c); [left; reflexivity|exact E].
    - apply IH. intros c' I. apply Nc. right. exact I. }
  rewrite X by exact N. reflexivity.
Qed.

(** EvaluateABNF takes any forest; on one of another grammar it may panic: an element with a group that has
    no alternation (grammar.go:284, then 143 on a nil tree). *)
Definition g_panic : grammar :=
  [mkRule "rulelist" [[Rep 1 1 (ERule "rule")]]; mkRule "rule" [[Rep 1 1 (ERule "rulename"); Rep 1 1 (ERule "defined-as"); Rep 1 1 (ERule "elements")]];
   mkRule "rulename" [[Rep 1 1 (EChar false [97])]]; mkRule "defined-as" [[Rep 1 1 (EChar false [61])]]; mkRule "elements" [[Rep 1 1 (ERule "alternation")]];
   mkRule "alternation" [[Rep 1 1 (ERule "concatenation")]]; mkRule "concatenation" [[Rep 1 1 (ERule "repetition")]];
   mkRule "repetition" [[Rep 1 1 (ERule "element")]]; mkRule "element" [[Rep 1 1 (ERule "group")]]; mkRule "group" [[Rep 1 1 (EChar false [98])]]].
Theorem C96_no_panic_refuted : exists g w f, wf_grammar g /\ parse (fun _ l => l) 300 w g "rulelist" = PF_ok f /\ f_valid f = true /\
  forall ordE redefine validate core, evaluate_abnf 300 ordE redefine validate core w f = PA_panic.
Proof.
  exists g_panic, (bytes "a=b"). eexists. split; [apply wf_grammarb_spec; vm_compute; reflexivity|]. split; [vm_compute; reflexivity|]. split; [vm_compute; reflexivity|].
  intros. unfold evaluate_abnf. match goal with |- context [f_tree ?n ?x] => let v := eval vm_compute in (f_tree n x) in replace (f_tree n x) with v by (vm_compute; reflexivity) end.
  reflexivity.
Qed.

(** The option WithValidation is without effect on EvaluateABNF: it returns what ParseABNF with the same options
    refuses. *)
Theorem C96_validation_refuted : exists w, forall ord, any_order ord -> exists f enough, forall fuel, (enough <= fuel)%nat ->
  parse ord fuel w abnf_grammar "rulelist" = PF_ok f /\
  parse_abnf ord id_order (fun _ g => g) fuel false true core_rules w = PA_sem (SE_dependency "x") /\
  exists st, evaluate_abnf fuel id_order false true core_rules w f = PA_ok st.
Proof.
  exists xy_text. intros ord O. destruct (C96_halves ord xy_text O) as (f & en & H). destruct (reads_at ord _ _ O xy_says) as (e1 & A1).
  destruct (parse_abnf_tree ord xy_text O) as [A _]. destruct A as (t & e2 & D & A); [apply C55_abnf_texts; eexists; apply (says_any _ _ _ xy_says)|].
  exists f, (Nat.max en (Nat.max e1 e2)). intros fuel F. destruct (H fuel ltac:(lia)) as [E Q]. split; [exact E|]. split.
  - rewrite A by lia. rewrite (C56_evaluation_partial _ _ _ _ _ _ xy_says D). vm_compute. reflexivity.
  - destruct (Q id_order (fun _ g => g) false true core_rules) as [-> _]. rewrite A1 by lia. eexists. vm_compute. reflexivity.
Qed.

(** *** Cases *)
Example C96_case : forall ord, any_order ord -> exists f enough, forall fuel, (enough <= fuel)%nat ->
  parse ord fuel ex_text abnf_grammar "rulelist" = PF_ok f /\
  evaluate_abnf fuel id_order false false core_rules ex_text f = PA_ok (mkE core_rules [("ab", Own (mkRule "ab" ex_alt))] 1).
Proof.
  intros ord O. destruct (C96_halves ord ex_text O) as (f & en & H). destruct (reads_at ord _ _ O (ex_says _ quiet_space)) as (e1 & A1).
  exists f, (Nat.max en e1). intros fuel F. destruct (H fuel ltac:(lia)) as [E Q]. split; [exact E|].
  destruct (Q id_order (fun _ g => g) false false core_rules) as [-> _]. rewrite A1 by lia. vm_compute. reflexivity.
Qed.
Example C96_case_other : exists f t, parse (fun _ l => l) 100 (bytes "xy") [mkRule "s" [[Rep 1 1 (ERule "t"); Rep 1 1 (ERule "t")]]; mkRule "t" [[Rep 1 1 (ERule "ALPHA")]]] "s" = PF_ok f /\
  f_tree 100 f = Some (Some t) /\ map pt_rule (pt_children t) = ["t"; "t"].
Proof. eexists. eexists. split; [vm_compute; reflexivity|]. split; [vm_compute; reflexivity|reflexivity]. Qed.

Print Assumptions C96_halves.
Print Assumptions C96_no_panic.
Print Assumptions C96_other_grammars.
Print Assumptions C96_no_panic_refuted.
Print Assumptions C96_validation_refuted.
