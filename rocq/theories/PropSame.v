(** C95: ParseABNF and the error reports do not depend on map iteration order (grammar.go:80-106,
    162-194; sppf.go:700-705; errors.go:109-139). *)
From Coq Require Import ZArith Arith String Ascii Bool Permutation Sorted List Lia.
From Verif Require Import Syntax Spec Term PropTerm Printer Check Slots Gll Bsr Sppf SppfProof Tree Errors Deps Eval EvalProof ReadSpec TreeSpec TreeLang
  PropGll ForestUnique PropTree PropSem PropEval AbnfEval PropRead AbnfLocal PrintInj PropPrint ParseAbnf PropParse PropJoin PropOrder.
From Verif Require PropReport PropRedefine.
Import ListNotations.
Local Open Scope string_scope.
Local Open Scope list_scope.
Local Open Scope Z_scope.

(** *** Means of proof *)
Lemma first_at {A B} (bad : list A -> A -> B -> Prop) pre d post e pre' d' post' e' : pre ++ d :: post = pre' ++ d' :: post' ->
  bad pre d e -> bad pre' d' e' -> (forall p x q y, pre = p ++ x :: q -> ~ bad p x y) -> (forall p x q y, pre' = p ++ x :: q -> ~ bad p x y) -> pre = pre' /\ d = d'.
Proof.
  intros Q V V' K K'. assert (G : forall p p' : list A, p ++ d :: post = p' ++ d' :: post' ->
    (exists l, p' = p ++ d :: l) \/ (exists l, p = p' ++ d' :: l) \/ p = p' /\ d = d').
  { induction p as [|x p IH]; intros [|x' p'] E; cbn [app] in *.
    - injection E as <- _. auto.
    - injection E as <- E. left. exists p'. reflexivity.
    - injection E as <- E. right. left. exists p. reflexivity.
    - injection E as <- E. destruct (IH p' E) as [(l & ->)|[(l & ->)|[-> ->]]]; [left; exists l; reflexivity|right; left; exists l; reflexivity|auto]. }
  destruct (G _ _ Q) as [(l & El)|[(l & El)|El]]; [exfalso; exact (K' _ _ _ _ El V)|exfalso; exact (K _ _ _ _ El V')|exact El].
Qed.
Lemma violates_fun core pre d e e' : violates core pre d e -> violates core pre d e' -> e = e'.
Proof. intros [C|C S N|C S N] [C'|C' S' N'|C' S' N']; try reflexivity; try contradiction; congruence. Qed.
Lemma first_wrong core ds pre d post e pre' d' post' e' : ds = pre ++ d :: post -> defs_ok core pre -> violates core pre d e ->
  ds = pre' ++ d' :: post' -> defs_ok core pre' -> violates core pre' d' e' -> e = e'.
Proof.
  intros E K V E' K' V'. rewrite E in E'. destruct (first_at (violates core) _ _ _ _ _ _ _ _ E' V V' K K') as [<- <-]. eapply violates_fun; eauto.
Qed.

(** *** The properties *)

(** What ParseABNF returns: the same rules, the same parse error, or the same error about the
    definitions; if the validation refuses, it refuses in every order. *)
Theorem C95_parse : forall ord ord' w, any_order ord -> any_order ord' ->
  exists enough, forall fuel fuel' ordE ordE' sh sh' validate, (enough <= fuel)%nat -> (enough <= fuel')%nat ->
    any_order ordE -> any_order ordE' -> any_shuffle sh -> any_shuffle sh' ->
    match parse_abnf ord ordE sh fuel false validate core_rules w, parse_abnf ord' ordE' sh' fuel' false validate core_rules w with
    | PA_ok st, PA_ok st' => Permutation (rules_of st) (rules_of st')
    | PA_parse e, PA_parse e' => e = e'
    | PA_eval e, PA_eval e' => e = e'
    | PA_sem _, PA_sem _ => validate = true
    | _, _ => False
    end.
Proof.
  intros ord ord' w O O'. destruct (abnf_forest ord w O) as (f & en & H). destruct (abnf_forest ord' w O') as (f' & en' & H').
  destruct (H en (le_n _)) as [E0 L0]. destruct (H' en' (le_n _)) as [E0' L0'].
  pose proof (C05_forest_valid_exact_partial _ _ _ _ _ _ _ _ O abnf_wf abnf_lex abnf_apart E0) as V.
  destruct (f_valid f) eqn:Vf.
  - assert (Lw : Lang abnf_grammar "rulelist" w) by (apply V; reflexivity). apply C55_abnf_texts in Lw as (ds0 & S0).
    destruct (C56_taken w ds0 S0) as (ds & T & _). destruct (C57_reads ord w ds O T) as (e1 & P1). destruct (C57_reads ord' w ds O' T) as (e2 & P2).
    exists (Nat.max e1 e2). intros fuel fuel' ordE ordE' sh sh' validate F F' Oe Oe' Sh Sh'.
    specialize (P1 fuel ordE sh validate ltac:(lia) Oe Sh). specialize (P2 fuel' ordE' sh' validate ltac:(lia) Oe' Sh').
    destruct (parse_abnf ord ordE sh fuel false validate core_rules w) as [st| | | | | | |e|e| |]; try contradiction;
      destruct (parse_abnf ord' ordE' sh' fuel' false validate core_rules w) as [st'| | | | | | |e'|e'| |]; try contradiction.
    + destruct P1 as (_ & D & R & _). destruct P2 as (_ & D' & R' & _). apply same_perm; auto. intros r. rewrite R, R'. reflexivity.
    + destruct P1 as (K & _). destruct P2 as (pre & d & post & E & _ & Vi). exact (K _ _ _ _ E Vi).
    + destruct P1 as (_ & D & R & _ & Vd). destruct P2 as (X & _ & Y). exact (Y _ D R (Vd X)).
    + destruct P2 as (K & _). destruct P1 as (pre & d & post & E & _ & Vi). exact (K _ _ _ _ E Vi).
    + destruct P1 as (pre & d & post & E & K & Vi). destruct P2 as (pre' & d' & post' & E' & K' & Vi'). exact (first_wrong _ _ _ _ _ _ _ _ _ _ E K Vi E' K' Vi').
    + destruct P1 as (pre & d & post & E & _ & Vi). destruct P2 as (_ & K & _). exact (K _ _ _ _ E Vi).
    + destruct P2 as (_ & D & R & _ & Vd). destruct P1 as (X & _ & Y). exact (Y _ D R (Vd X)).
    + destruct P2 as (pre & d & post & E & _ & Vi). destruct P1 as (_ & K & _). exact (K _ _ _ _ E Vi).
    + apply P1.
  - exists (Nat.max en en'). intros fuel fuel' ordE ordE' sh sh' validate F F' Oe Oe' Sh Sh'. unfold parse_abnf.
    destruct (H fuel ltac:(lia)) as [-> _]. destruct (H' fuel' ltac:(lia)) as [-> _].
    rewrite <- (PropReport.C70_order_free _ _ _ _ _ _ _ _ _ _ _ _ _ O O' E0 E0'). unfold f_parse_error. rewrite Vf. reflexivity.
Qed.

(** The validation comes after everything else. *)
Lemma parse_validate ord ordE sh fuel redefine validate core w : parse_abnf ord ordE sh fuel redefine validate core w =
  match parse_abnf ord ordE sh fuel redefine false core w with
  | PA_ok st => if validate then match semval_abnf (sh 0%nat (rules_of st)) (sh 1%nat (rules_of st)) (rules_of st) with Some e => PA_sem e | None => PA_ok st end else PA_ok st
  | r => r
  end.
Proof.
  unfold parse_abnf. destruct (parse_forest ord fuel w abnf_grammar "rulelist" default_max_slots 0) as [f| | | |]; try reflexivity.
  destruct (f_parse_error f); [reflexivity|]. destruct (f_ambiguous fuel f) as [[|]|]; try reflexivity.
  destruct (f_tree fuel f) as [[t|]|]; try reflexivity. destruct (eval_tree redefine ordE core w t); reflexivity.
Qed.
(** What is redefined is written, or of a core rule. *)
Lemma redefined_wf ds r : Forall (fun d => wf_alt (rule_alt (fst d))) ds -> PropRedefine.redefined core_rules ds r -> wf_alt (rule_alt r).
Proof.
  intros F H. set (l := PropRedefine.defs_of (rule_name r) ds) in *.
  assert (Fl : Forall (fun d => wf_alt (rule_alt (fst d))) l).
  { apply Forall_forall. intros d I. rewrite Forall_forall in F. apply F. apply filter_In in I. tauto. }
  assert (Ap : forall a b, wf_alt a -> wf_alt b -> wf_alt (a ++ b)) by (intros a b; unfold wf_alt; rewrite Forall_app; auto).
  destruct H as [H|(_ & _ & I)].
  - fold l in H. assert (X : forall l v, Forall (fun d => wf_alt (rule_alt (fst d))) l -> (forall r0, v = Some r0 -> wf_alt (rule_alt r0)) ->
      PropRedefine.last_value v l = Some r -> wf_alt (rule_alt r)).
    { clear l Fl H. induction l as [|[x b] l IH]; intros v Fl V E; cbn [PropRedefine.last_value] in E; [apply V, E|].
      inversion Fl as [|? ? W Fl']; subst. cbn [fst] in W. destruct b; apply (IH _ Fl') in E; auto.
      - destruct v as [r0|]; intros r1 Q; [|discriminate]. injection Q as <-. cbn [rule_alt]. apply Ap; [apply V; reflexivity|exact W].
      - intros r1 Q. injection Q as <-. exact W. }
    apply (X l None Fl); [discriminate|exact H].
  - apply in_map_iff in I as (c & <- & I). cbn [rule_alt]. apply Ap.
    + pose proof LowerLang.core_wf as C. rewrite Forall_forall in C. apply C, I.
    + assert (X : forall l, Forall (fun d => wf_alt (rule_alt (fst d))) l -> wf_alt (PropRedefine.early l)).
      { clear. induction l as [|[x b] l IH]; intros Fl; [constructor|]. inversion Fl as [|? ? W Fl']; subst. destruct b; cbn [PropRedefine.early]; [|constructor].
        apply Forall_app. split; [exact W|apply IH, Fl']. }
      apply X. apply Forall_forall. intros d J. rewrite Forall_forall in F. apply F. apply filter_In in J. tauto.
Qed.

(** C73 with the validation, which WithRedefineCoreRules leaves on.  Missing for the full statement: core
    names redefined in another spelling, refuted by C73_spelling_refuted. *)
Theorem C73_validated_partial : forall ord w ds, any_order ord -> text_taken w ds -> PropRedefine.core_spelling core_rules ds ->
  exists enough, forall fuel ordE sh, (enough <= fuel)%nat -> any_order ordE -> any_shuffle sh ->
    match parse_abnf ord ordE sh fuel true true core_rules w with
    | PA_ok st => distinct_names (rules_of st) /\ (forall r, In r (rules_of st) <-> PropRedefine.redefined core_rules ds r) /\
        e_core st = PropRedefine.core_after core_rules ds /\ sound (rules_of st)
    | PA_sem _ => forall g, distinct_names g -> (forall r, In r g <-> PropRedefine.redefined core_rules ds r) -> ~ sound g
    | PA_eval e => exists pre d post, ds = pre ++ d :: post /\
        (forall p d' q e', pre = p ++ d' :: q -> ~ PropRedefine.faulty core_rules p d' e') /\ PropRedefine.faulty core_rules pre d e
    | _ => False
    end.
Proof.
  intros ord w ds O T Sp. destruct (PropRedefine.C73_parse_partial ord w ds O T Sp) as (en & P). exists en. intros fuel ordE sh F Oe Sh. specialize (P fuel ordE sh F Oe).
  rewrite parse_validate. destruct (parse_abnf ord ordE sh fuel true false core_rules w) as [st| | | | | | |e|e| |]; try contradiction; [|exact P].
  destruct P as (_ & D & R & C).
  assert (Wf : Forall (fun r => wf_alt (rule_alt r)) (rules_of st)).
  { apply Forall_forall. intros r I. apply (redefined_wf ds); [|apply R, I]. apply Forall_forall. intros d J. apply written_wf.
    pose proof (PropPrint.taken_written _ _ T) as X. rewrite Forall_forall in X. apply X, J. }
  pose proof (C17_semval_exact _ _ _ (Sh 0%nat _) (Sh 1%nat _) Wf) as V. destruct (semval_abnf (sh 0%nat (rules_of st)) _ _) as [e|].
  - intros g _ Rg Sd. apply (sound_same _ (rules_of st)) in Sd; [|intros r; rewrite Rg, R; reflexivity]. apply V in Sd. discriminate.
  - split; [exact D|]. split; [exact R|]. split; [exact C|]. apply V. reflexivity.
Qed.

(** With WithRedefineCoreRules.  Missing for the full statement: core names redefined in another spelling,
    refuted by C73_spelling_refuted. *)
Theorem C95_redefine_partial : forall ord ord' w ds, any_order ord -> any_order ord' -> text_taken w ds -> PropRedefine.core_spelling core_rules ds ->
  exists enough, forall fuel fuel' ordE ordE' sh sh' validate, (enough <= fuel)%nat -> (enough <= fuel')%nat -> any_order ordE -> any_order ordE' ->
    any_shuffle sh -> any_shuffle sh' ->
    match parse_abnf ord ordE sh fuel true validate core_rules w, parse_abnf ord' ordE' sh' fuel' true validate core_rules w with
    | PA_ok st, PA_ok st' => Permutation (rules_of st) (rules_of st') /\ e_core st = e_core st'
    | PA_eval e, PA_eval e' => e = e'
    | PA_sem _, PA_sem _ => validate = true
    | _, _ => False
    end.
Proof.
  intros ord ord' w ds O O' T Sp. destruct (PropRedefine.C73_parse_partial ord w ds O T Sp) as (e1 & P1). destruct (PropRedefine.C73_parse_partial ord' w ds O' T Sp) as (e2 & P2).
  exists (Nat.max e1 e2). intros fuel fuel' ordE ordE' sh sh' validate F F' Oe Oe' Sh Sh'. specialize (P1 fuel ordE sh ltac:(lia) Oe). specialize (P2 fuel' ordE' sh' ltac:(lia) Oe').
  rewrite (parse_validate ord), (parse_validate ord').
  destruct (parse_abnf ord ordE sh fuel true false core_rules w) as [st| | | | | | |e|e| |]; try contradiction;
    destruct (parse_abnf ord' ordE' sh' fuel' true false core_rules w) as [st'| | | | | | |e'|e'| |]; try contradiction.
  - destruct P1 as (_ & D & R & C). destruct P2 as (_ & D' & R' & C').
    assert (Same : forall r, In r (rules_of st) <-> In r (rules_of st')) by (intros r; rewrite R, R'; reflexivity).
    assert (Pm : Permutation (rules_of st) (rules_of st') /\ e_core st = e_core st') by (split; [apply same_perm; auto|congruence]).
    destruct validate; [|exact Pm].
    assert (W : Forall (fun d => wf_alt (rule_alt (fst d))) ds).
    { apply Forall_forall. intros d I. apply written_wf. pose proof (PropPrint.taken_written _ _ T) as X. rewrite Forall_forall in X. apply X, I. }
    assert (Wf : Forall (fun r => wf_alt (rule_alt r)) (rules_of st)) by (apply Forall_forall; intros r I; apply (redefined_wf ds); [exact W|apply R, I]).
    assert (Wf' : Forall (fun r => wf_alt (rule_alt r)) (rules_of st')) by (apply Forall_forall; intros r I; apply (redefined_wf ds); [exact W|apply R', I]).
    pose proof (C17_semval_exact _ _ _ (Sh 0%nat _) (Sh 1%nat _) Wf) as V. pose proof (C17_semval_exact _ _ _ (Sh' 0%nat _) (Sh' 1%nat _) Wf') as V'.
    destruct (semval_abnf (sh 0%nat (rules_of st)) _ _) as [e|], (semval_abnf (sh' 0%nat (rules_of st')) _ _) as [e'|]; auto.
    + pose proof (proj1 V' eq_refl) as X. apply (sound_same _ (rules_of st)) in X; [|intros r; symmetry; apply Same]. apply V in X. discriminate.
    + pose proof (proj1 V eq_refl) as X. apply (sound_same _ (rules_of st')) in X; [|exact Same]. apply V' in X. discriminate.
  - destruct P1 as (K & _). destruct P2 as (pre & d & post & E & _ & Vi). destruct (K _ _ _ _ E Vi).
  - destruct P2 as (K & _). destruct P1 as (pre & d & post & E & _ & Vi). destruct (K _ _ _ _ E Vi).
  - destruct P1 as (pre & d & post & E & K & Vi). destruct P2 as (pre' & d' & post' & E' & K' & Vi'). rewrite E in E'.
    destruct (first_at (PropRedefine.faulty core_rules) _ _ _ _ _ _ _ _ E' Vi Vi' K K') as [<- <-]. destruct Vi as [_ Vi]. destruct Vi' as [_ Vi']. eapply violates_fun; eauto.
Qed.

(** Which error the validation returns does depend on the order of the map. *)
Definition xy_text : list Z := bytes "a=x" ++ [13; 10] ++ bytes "b=y" ++ [13; 10].
Lemma xy_says : text_says quiet_filler xy_text [(mkRule "a" [[Rep 1 1 (ERule "x")]], false); (mkRule "b" [[Rep 1 1 (ERule "y")]], false)].
Proof.
  assert (Q : quiet_filler []) by (intros [|c p] s E; discriminate).
  split; [discriminate|]. apply (tl_rule quiet_filler _ (bytes "a=x" ++ [13; 10]) _ (bytes "b=y" ++ [13; 10])).
  { apply (text_rule_intro quiet_filler "a" [] false [] _ (bytes "x") [] [13; 10]); auto; try constructor. apply tc_one, tr_once. apply (te_rule "x"). reflexivity. }
  apply (tl_rule quiet_filler _ (bytes "b=y" ++ [13; 10]) [] []); [|constructor].
  apply (text_rule_intro quiet_filler "b" [] false [] _ (bytes "y") [] [13; 10]); auto; try constructor. apply tc_one, tr_once. apply (te_rule "y"). reflexivity.
Qed.
Theorem C95_validation_refuted : exists w sh sh', any_shuffle sh /\ any_shuffle sh' /\ forall ord, any_order ord ->
  exists enough, forall fuel, (enough <= fuel)%nat ->
    parse_abnf ord id_order sh fuel false true core_rules w = PA_sem (SE_dependency "x") /\
    parse_abnf ord id_order sh' fuel false true core_rules w = PA_sem (SE_dependency "y").
Proof.
  exists xy_text, (fun _ g => g), (fun _ g => rev g). split; [intros t g; reflexivity|]. split; [intros t g; symmetry; apply Permutation_rev|].
  intros ord O. destruct (parse_abnf_tree ord xy_text O) as [A _]. destruct A as (t & en & D & A); [apply C55_abnf_texts; eexists; apply (says_any _ _ _ xy_says)|].
  exists en. intros fuel F. rewrite !A by exact F. rewrite (C56_evaluation_partial _ _ _ _ _ _ xy_says D). split; vm_compute; reflexivity.
Qed.

(** *** Cases: a text that is read, and the same refused *)
Example C95_case : forall ord, any_order ord -> exists enough, forall fuel sh, (enough <= fuel)%nat ->
  exists st, parse_abnf ord id_order sh fuel false false core_rules xy_text = PA_ok st /\ length (rules_of st) = 2%nat.
Proof.
  intros ord O. destruct (reads_at ord _ _ O xy_says) as (en & A). exists en. intros fuel sh F. rewrite A by exact F. eexists. split; [vm_compute; reflexivity|reflexivity].
Qed.

(** [CR=x]: a core rule redefined. *)
Definition cr_text : list Z := bytes "CR=x" ++ [13; 10].
Example C95_case_redefine : text_taken cr_text [(mkRule "CR" [[Rep 1 1 (ERule "x")]], false)] /\
  PropRedefine.core_spelling core_rules [(mkRule "CR" [[Rep 1 1 (ERule "x")]], false)] /\
  forall ord, any_order ord -> exists enough, forall fuel sh, (enough <= fuel)%nat ->
    exists st, parse_abnf ord id_order sh fuel true false core_rules cr_text = PA_ok st /\ rules_of st = [mkRule "CR" [[Rep 1 1 (ERule "x")]]].
Proof.
  assert (T : text_says quiet_filler cr_text [(mkRule "CR" [[Rep 1 1 (ERule "x")]], false)]).
  { assert (Q : quiet_filler []) by (intros [|c p] s E; discriminate). split; [discriminate|]. apply (tl_rule quiet_filler _ cr_text [] []); [|constructor].
    apply (text_rule_intro quiet_filler "CR" [] false [] _ (bytes "x") [] [13; 10]); auto; try constructor. apply tc_one, tr_once. apply (te_rule "x"). reflexivity. }
  split; [apply quiet_taken, T|]. split.
  - intros d c [E|[]] I S. injection E as <-. cbn [rule_name] in *.
    assert (Q : forallb (fun c => negb (equal_fold "CR" (rule_name c)) || String.eqb "CR" (rule_name c)) core_rules = true) by (vm_compute; reflexivity).
    rewrite forallb_forall in Q. specialize (Q c I). apply equal_fold_iff in S. rewrite S in Q. apply String.eqb_eq, Q.
  - intros ord O. destruct (parse_abnf_tree ord cr_text O) as [A _]. destruct A as (t & en & D & A); [apply C55_abnf_texts; eexists; apply (says_any _ _ _ T)|].
    exists en. intros fuel sh F. rewrite A by exact F. rewrite (C56_evaluation_partial _ _ _ _ _ _ T D). eexists. split; [vm_compute; reflexivity|reflexivity].
Qed.

(** It refers to a rule that is not there: the validation refuses it. *)
Example C73_case_validated : forall ord, any_order ord -> exists enough, forall fuel, (enough <= fuel)%nat ->
  parse_abnf ord id_order (fun _ g => g) fuel true true core_rules cr_text = PA_sem (SE_dependency "x").
Proof.
  intros ord O. destruct C95_case_redefine as (_ & _ & C). destruct (C ord O) as (en & A). exists en. intros fuel F.
  destruct (A fuel (fun _ g => g) F) as (st & E & R). rewrite parse_validate, E, R. vm_compute. reflexivity.
Qed.

Print Assumptions C95_parse.
Print Assumptions C73_validated_partial.
Print Assumptions C95_redefine_partial.
Print Assumptions C95_validation_refuted.
