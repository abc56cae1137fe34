(** C97: from the text of a grammar to the verdicts on inputs (ParseABNF, grammar.go:80-106; ParseForest,
    sppf.go:668-691; ParseBSR, bsr.go:557-589; IsValid, recognize.go:123-292; Generate, generate.go:21-43).
    Its definitions are those of the statements and model no code. *)
From Coq Require Import ZArith Arith String Ascii Bool Permutation List Lia.
From Verif Require Import Syntax Spec Term PropTerm Printer Check Slots Gll Bsr Sppf Tree Errors Deps Eval EvalProof ReadSpec TreeSpec TreeLang
  PropGll ForestUnique PropTree PropSem PropEval AbnfEval PropRead AbnfLocal PrintInj PropPrint ParseAbnf PropParse PropJoin PropSame PropFromAbnf.
From Verif Require PropRuleOrder PropPart PropRecog LeftRec PropLeftRec Recog RecogProof RecogGlue Generate PropGenerate.
Import ListNotations.
Local Open Scope string_scope.
Local Open Scope list_scope.
Local Open Scope Z_scope.

(** [g] has the rules that the definitions [ds] give, each once. *)
Definition gives (ds : list (rule * bool)) (g : grammar) : Prop := distinct_names g /\ forall r, In r g <-> defined_as ds r.

(** Two texts that define the same rules, in whatever order and pieces: both are accepted, with the same rules, or
    both are refused by the validation. *)
Theorem C97_same_rules : forall ord ord' w w' ds ds', any_order ord -> any_order ord' -> text_taken w ds -> text_taken w' ds' ->
  defs_ok core_rules ds -> defs_ok core_rules ds' -> (forall r, defined_as ds r <-> defined_as ds' r) ->
  exists enough, forall fuel fuel' ordE ordE' sh sh' validate, (enough <= fuel)%nat -> (enough <= fuel')%nat ->
    any_order ordE -> any_order ordE' -> any_shuffle sh -> any_shuffle sh' ->
    match parse_abnf ord ordE sh fuel false validate core_rules w, parse_abnf ord' ordE' sh' fuel' false validate core_rules w' with
    | PA_ok st, PA_ok st' => Permutation (rules_of st) (rules_of st')
    | PA_sem _, PA_sem _ => validate = true
    | _, _ => False
    end.
Proof.
  intros ord ord' w w' ds ds' O O' T T' K K' Same. destruct (C57_reads ord w ds O T) as (e1 & P1). destruct (C57_reads ord' w' ds' O' T') as (e2 & P2).
  exists (Nat.max e1 e2). intros fuel fuel' ordE ordE' sh sh' validate F F' Oe Oe' Sh Sh'.
  specialize (P1 fuel ordE sh validate ltac:(lia) Oe Sh). specialize (P2 fuel' ordE' sh' validate ltac:(lia) Oe' Sh').
  destruct (parse_abnf ord ordE sh fuel false validate core_rules w) as [st| | | | | | |e|e| |]; try contradiction;
    destruct (parse_abnf ord' ordE' sh' fuel' false validate core_rules w') as [st'| | | | | | |e'|e'| |]; try contradiction.
  - destruct P1 as (_ & D & R & _). destruct P2 as (_ & D' & R' & _). apply same_perm; auto. intros r. rewrite R, R'. apply Same.
  - destruct P2 as (pre & d & post & E & _ & Vi). exact (K' _ _ _ _ E Vi).
  - destruct P1 as (_ & D & R & _ & Vd). destruct P2 as (X & _ & Y). apply (Y _ D); [|exact (Vd X)]. intros r. rewrite R. apply Same.
  - destruct P1 as (pre & d & post & E & _ & Vi). exact (K _ _ _ _ E Vi).
  - destruct P1 as (pre & d & post & E & _ & Vi). destruct (K _ _ _ _ E Vi).
  - destruct P1 as (pre & d & post & E & _ & Vi). exact (K _ _ _ _ E Vi).
  - destruct P2 as (_ & D & R & _ & Vd). destruct P1 as (X & _ & Y). apply (Y _ D); [|exact (Vd X)]. intros r. rewrite R, Same. reflexivity.
  - destruct P2 as (pre & d & post & E & _ & Vi). exact (K' _ _ _ _ E Vi).
  - apply P1.
Qed.

(** The verdicts of the two parsers and of IsValid, and the words of Generate, for every text ParseABNF
    accepts, against the language of the rules that its definitions give.  Missing for the full statement: the conditions of C02, C05, C06 and C29. *)
Theorem C97_verdicts_partial : forall ord w ds g, any_order ord -> text_taken w ds -> gives ds g ->
  exists enough, forall fuel ordE sh validate st, (enough <= fuel)%nat -> any_order ordE -> any_shuffle sh ->
    parse_abnf ord ordE sh fuel false validate core_rules w = PA_ok st ->
    forall root input,
    (told_apart g -> forall ord' fuel' max_slots max_nodes f, any_order ord' ->
       parse_forest ord' fuel' input (rules_of st) root max_slots max_nodes = PF_ok f -> f_valid f = true <-> Lang g root input) /\
    (told_apart g -> forall ord' fuel' max_slots max_nodes sg set, any_order ord' ->
       parse_bsr ord' fuel' input (rules_of st) root max_slots max_nodes = BSR_ok sg set -> bsr_valid sg (length input) set = true <-> Lang g root input) /\
    (same_flags g -> LeftRec.bounds_ok g -> PropRecog.groups_not_left_recursive g -> PropRecog.count_ok g input -> forall ordn order ord' fuel',
       any_order ordn -> PropLeftRec.name_order g order -> RecogGlue.fine_first g order -> any_order ord' -> (exists a, resolves g root a) -> (RecogProof.recog_fuel g input root <= fuel')%nat ->
       exists b, Recog.is_valid ordn order ord' fuel' (rules_of st) root input = Recog.VBool b /\ (b = true <-> Lang g root input)) /\
    (PropGenerate.generable g -> forall fuel' rnd rep_max threshold, (forall t, 0 <= rnd t) ->
       Generate.generate fuel' rnd rep_max threshold (rules_of st) root = Generate.Gen_ok input -> Lang g root input).
Proof.
  intros ord w ds g O T [Dg Gg]. destruct (C57_reads ord w ds O T) as (e1 & P1). destruct (C67_read_well_formed ord w O) as (e2 & P2).
  exists (Nat.max e1 e2). intros fuel ordE sh validate st F Oe Sh E root input.
  specialize (P1 fuel ordE sh validate ltac:(lia) Oe Sh). rewrite E in P1. destruct P1 as (_ & D & R & _). destruct (P2 fuel ordE sh validate st ltac:(lia) Oe Sh E) as (W & Lx & _ & _ & _).
  assert (Pm : Permutation (rules_of st) g) by (apply same_perm; auto; intros r; rewrite R, Gg; reflexivity).
  assert (Wg : wf_grammar g). { split; [exact Dg|]. apply Forall_forall. intros r I. destruct W as [_ W]. rewrite Forall_forall in W. apply W, (Permutation_in _ (Permutation_sym Pm)), I. }
  assert (Lg : lex_grammar g = true). { unfold lex_grammar in *. rewrite forallb_forall in *. intros r I. apply Lx, (Permutation_in _ (Permutation_sym Pm)), I. }
  destruct (PropRuleOrder.C92_parsers _ _ root Pm D) as (_ & Pf & Pb & _).
  split; [|split; [|split]].
  - intros A ord' fuel' ms mn f O' Ef. rewrite Pf in Ef. exact (C05_forest_valid_exact_partial _ _ _ _ _ _ _ _ O' Wg Lg A Ef).
  - intros A ord' fuel' ms mn sg set O' Ef. rewrite Pb in Ef. exact (C06_bsr_valid_exact_partial _ _ _ _ _ _ _ _ _ O' Wg Lg A Ef).
  - intros Sf Bo Gl Co ordn order ord' fuel' On No Ff O' Rs Fl.
    rewrite (PropRuleOrder.C92_valid _ _ ordn ordn order ord' fuel' root input Pm D On On).
    apply PropRecog.C02_valid_exact_partial; auto.
  - intros Ge fuel' rnd rm th Rn Eg. apply (PropGenerate.C29_generate_in_language_partial fuel' rnd rm th g root input Rn Ge).
    rewrite <- Eg. symmetry. apply PropPart.C90_generate; [exact D|apply PropRuleOrder.perm_part, Pm].
Qed.
(** *** Cases: [a=ALPHA], [a=/DIGIT] on two lines, and [a=ALPHA/DIGIT] *)
Definition t_two : list Z := (bytes "a=ALPHA" ++ [13; 10]) ++ bytes "a=/DIGIT" ++ [13; 10].
Definition t_one : list Z := bytes "a=ALPHA/DIGIT" ++ [13; 10].
Definition d_two : list (rule * bool) := [(mkRule "a" [[Rep 1 1 (ERule "ALPHA")]], false); (mkRule "a" [[Rep 1 1 (ERule "DIGIT")]], true)].
Definition d_one : list (rule * bool) := [(mkRule "a" [[Rep 1 1 (ERule "ALPHA")]; [Rep 1 1 (ERule "DIGIT")]], false)].
Definition g_one : grammar := [mkRule "a" [[Rep 1 1 (ERule "ALPHA")]; [Rep 1 1 (ERule "DIGIT")]]].
Lemma quiet_nil : quiet_filler [].
Proof. intros [|c p] s E; discriminate. Qed.
Lemma two_says : text_says quiet_filler t_two d_two.
Proof.
  pose proof quiet_nil as Q. split; [discriminate|]. apply (tl_rule quiet_filler _ (bytes "a=ALPHA" ++ [13; 10]) _ (bytes "a=/DIGIT" ++ [13; 10])).
  { apply (text_rule_intro quiet_filler "a" [] false [] _ (bytes "ALPHA") [] [13; 10]); auto; try constructor. apply tc_one, tr_once. apply (te_rule "ALPHA"). reflexivity. }
  apply (tl_rule quiet_filler _ (bytes "a=/DIGIT" ++ [13; 10]) [] []); [|constructor].
  apply (text_rule_intro quiet_filler "a" [] true [] _ (bytes "DIGIT") [] [13; 10]); auto; try constructor. apply tc_one, tr_once. apply (te_rule "DIGIT"). reflexivity.
Qed.
Lemma one_says : text_says quiet_filler t_one d_one.
Proof.
  pose proof quiet_nil as Q. split; [discriminate|]. apply (tl_rule quiet_filler _ t_one [] []); [|constructor].
  apply (text_rule_intro quiet_filler "a" [] false [] _ (bytes "ALPHA/DIGIT") [] [13; 10]); auto; try solve [constructor].
  apply (ta_more _ (bytes "ALPHA") [] [] _ (bytes "DIGIT")); [apply tc_one, tr_once, (te_rule "ALPHA"); reflexivity|constructor|constructor|apply ta_one, tc_one, tr_once, (te_rule "DIGIT"); reflexivity].
Qed.
Lemma gives_two : gives d_two g_one.
Proof.
  split; [apply PropRecog.wf_distinct; vm_compute; reflexivity|]. intros r. split.
  - intros [<-|[]]. eexists. split; [left; reflexivity|]. split; reflexivity.
  - intros (d & [E|[E|[]]] & N & A); [|discriminate]. injection E as <-. left. destruct r as [n a]. cbn [rule_name rule_alt] in *. subst. reflexivity.
Qed.
Lemma gives_one : gives d_one g_one.
Proof.
  split; [apply PropRecog.wf_distinct; vm_compute; reflexivity|]. intros r. split.
  - intros [<-|[]]. eexists. split; [left; reflexivity|]. split; reflexivity.
  - intros (d & [E|[]] & N & A). injection E as <-. left. destruct r as [n a]. cbn [rule_name rule_alt] in *. subst. reflexivity.
Qed.
Example C97_case_same : text_taken t_two d_two /\ text_taken t_one d_one /\ defs_ok core_rules d_two /\ defs_ok core_rules d_one /\
  forall r, defined_as d_two r <-> defined_as d_one r.
Proof.
  split; [apply quiet_taken, two_says|]. split; [apply quiet_taken, one_says|].
  assert (K : forall ds, match e_define_all false id_order ds (mkE core_rules [] 0) with EvOk _ => True | _ => False end -> defs_ok core_rules ds).
  { intros ds H. pose proof (C38_definitions_merge_partial core_rules id_order ds (fun _ l x => iff_refl _)) as M. destruct (e_define_all _ _ _ _); try contradiction. apply M. }
  split; [apply K; vm_compute; exact Logic.I|]. split; [apply K; vm_compute; exact Logic.I|].
  intros r. rewrite <- (proj2 gives_two r). apply gives_one.
Qed.
Example C97_case_verdicts : told_apart g_one /\ (exists f, parse_forest (fun _ l => l) 300 (bytes "7") g_one "a" default_max_slots 0 = PF_ok f /\ f_valid f = true) /\
  forall ord, any_order ord -> exists enough, forall fuel, (enough <= fuel)%nat ->
    exists st, parse_abnf ord id_order (fun _ g => g) fuel false true core_rules t_two = PA_ok st /\ rules_of st = g_one.
Proof.
  split; [apply Apart.told_apartb_spec; vm_compute; reflexivity|]. split; [eexists; split; [vm_compute; reflexivity|vm_compute; reflexivity]|].
  intros ord O. destruct (reads_at ord _ _ O two_says) as (en & A). exists en. intros fuel F. rewrite parse_validate, (A fuel _ F). eexists. split; [vm_compute; reflexivity|reflexivity].
Qed.

Print Assumptions C97_same_rules.
Print Assumptions C97_verdicts_partial.
