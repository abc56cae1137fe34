(** C90: only the rules that the root reaches matter. *)
(** The definitions here are those of statements, proofs and examples; they model no code. *)
From Coq Require Import ZArith Arith String Ascii Bool Relations List Lia.
From Verif Require Import Syntax Spec Num Term PropTerm Deps Dag Cycle PropDag Printer Check Apart LeftRec PropLeftRec LowerLang PrintInj Generate Slots Bsr Sppf Gll PropSem PropGll
  Recog RecogProof RecogComplete RecogGlue RecogCheck PropRecog Part PartProof PartRecog Tape Ast PropAst AstOrder.
From Verif Require Regex Graph Codegen Occ.
Import ListNotations.
Local Open Scope string_scope.
Local Open Scope list_scope.
Local Open Scope nat_scope.

(** The words of the root are the same. *)
Theorem C90_words : forall g g' root w, part g' g root -> (Lang g root w <-> Lang g' root w).
Proof. intros g g' root w P. apply (lang_shared g g' root P root w). apply (shared_root g g' root P). Qed.

(** Both parsers return the same, errors included, and the emitted parser is the same text: no rule
    outside the part counts towards MaxSlots. *)
Theorem C90_parsers : forall g g' root, distinct_names g -> part g' g root ->
  (forall ord fuel input max_slots max_nodes,
     parse_forest ord fuel input g root max_slots max_nodes = parse_forest ord fuel input g' root max_slots max_nodes) /\
  (forall ord fuel input max_slots max_nodes,
     parse_bsr ord fuel input g root max_slots max_nodes = parse_bsr ord fuel input g' root max_slots max_nodes) /\
  (forall fuel, Codegen.generate_go_parser fuel g root = Codegen.generate_go_parser fuel g' root).
Proof.
  intros g g' root D P. split; [|split].
  - intros. unfold parse_forest. rewrite (compile_part g g' root D P). reflexivity.
  - intros. unfold parse_bsr. rewrite (compile_part g g' root D P). reflexivity.
  - intros. unfold Codegen.generate_go_parser. rewrite (compile_part g g' root D P). reflexivity.
Qed.

(** Generate draws the same values and returns the same text or error. *)
Theorem C90_generate : forall g g' root fuel rnd rep_max threshold, distinct_names g -> part g' g root ->
  generate fuel rnd rep_max threshold g root = generate fuel rnd rep_max threshold g' root.
Proof. intros. apply (generate_part g g' root); assumption. Qed.

(** NewASTGenerator returns the same error or start rule, whatever the orders of its passes over all the
    rules, and the generators write the same.  Missing for the full claim: counts above 2^33 (see C91). *)
Theorem C90_ast_partial : forall g g' root ord ord', distinct_names g -> part g' g root ->
  (forall mn mx e, occ_rep g' (Rep mn mx e) -> (0 <= mn <= 2 ^ 33)%Z) -> any_order ord -> any_order ord' ->
  exists F, forall fuel, F <= fuel ->
  match new_ast fuel ord g root with
  | New_ok start m => exists m', new_ast fuel ord' g' root = New_ok start m' /\
      forall f md ml mr S_ (intn : Z -> S_ -> Z * S_) src, ast_walk f g start m md ml mr intn src = ast_walk f g' start m' md ml mr intn src
  | New_fuel => False
  | err => new_ast fuel ord' g' root = err
  end.
Proof.
  intros g g' root ord ord' D P Small O O'. destruct (C28_new_ends ord g root O) as (F & HF). destruct (C28_new_ends ord' g' root O') as (F' & HF').
  exists (max F F'). intros fuel L. assert (L1 : F <= fuel) by lia. assert (L2 : F' <= fuel) by lia. specialize (HF fuel L1). specialize (HF' fuel L2).
  pose proof (new_same g g' root (shared g g') (fun n H => occ_ok g g' root P _ H) (shared_root g g' root P) (get_part g g' root D P) Small ord ord' O O' fuel HF HF') as X.
  destruct (new_ast fuel ord g root) as [start m| | | |]; auto. destruct X as (m' & E & _ & W). exists m'. split; [exact E|exact W].
Qed.

(** RuleContainsCycle and Regex return the same, whatever the orders of iteration. *)
Theorem C90_regex : forall g g' root order order', distinct_names g -> distinct_names g' -> part g' g root ->
  key_order (dependency_graph g) order -> key_order (dependency_graph g') order' ->
  rule_contains_cycle g order root = rule_contains_cycle g' order' root /\
  forall fuel max_len, Regex.regex fuel g order max_len root = Regex.regex fuel g' order' max_len root.
Proof.
  intros g g' root order order' D D' P K K'. split; [apply (cycle_part g g' root)|intros; apply (regex_part g g' root)]; assumption.
Qed.

(** TransitionGraph returns the same, if SemvalABNF, which it runs on all the rules when they are
    deflated, finds both grammars valid. *)
Theorem C90_graph_partial : forall g g' root order order' fuel opts g1 g2 h1 h2, distinct_names g -> distinct_names g' -> part g' g root ->
  key_order (dependency_graph g) order -> key_order (dependency_graph g') order' ->
  (Graph.o_rules opts = true -> semval_abnf g1 g2 g = None /\ semval_abnf h1 h2 g' = None) ->
  Graph.transition_graph fuel opts g g1 g2 order root = Graph.transition_graph fuel opts g' h1 h2 order' root.
Proof. intros. apply (graph_part g g' root); assumption. Qed.

(** IsValid is exact if the part meets what C02 asks of the grammar.  Missing for the full claim: the
    whole grammar is asked for counts in order and for the first rule searched, as the analysis of left
    recursion reads all the rules. *)
Theorem C90_valid_partial : forall g g' n input ordn order ord fuel,
  distinct_names g -> bounds_ok g -> any_order ordn -> name_order g order -> fine_first g order -> any_order ord ->
  part g' g n -> wf_grammar g' -> lex_grammar g' = true -> same_flags g' -> groups_not_left_recursive g' -> count_ok g' input ->
  (exists a, resolves g n a) -> recog_fuel g input n <= fuel ->
  exists b, is_valid ordn order ord fuel g n input = VBool b /\ (b = true <-> Lang g n input).
Proof. intros. eapply valid_part; eassumption. Qed.

(** The parsers accept the words if the part meets what C05 and C06 ask. *)
Theorem C90_accepts_partial : forall g g' root input, distinct_names g -> part g' g root ->
  wf_grammar g' -> lex_grammar g' = true -> told_apart g' ->
  (forall ord fuel max_slots max_nodes f, any_order ord -> parse_forest ord fuel input g root max_slots max_nodes = PF_ok f ->
     (f_valid f = true <-> Lang g root input)) /\
  (forall ord fuel max_slots max_nodes sg set, any_order ord -> parse_bsr ord fuel input g root max_slots max_nodes = BSR_ok sg set ->
     (bsr_valid sg (length input) set = true <-> Lang g root input)).
Proof.
  intros g g' root input D P W L T. pose proof (C90_parsers g g' root D P) as (F & B & _). split.
  - intros ord fuel ms mn f O E. rewrite F in E. rewrite (C90_words g g' root input P). eapply C05_forest_valid_exact_partial; eauto.
  - intros ord fuel ms mn sg set O E. rewrite B in E. rewrite (C90_words g g' root input P). eapply C06_bsr_valid_exact_partial; eauto.
Qed.

(** ** Cases *)
Definition clearb (g' : grammar) (root : string) (r : rule) : bool :=
  (negb (equal_fold root (rule_name r)) &&
   forallb (fun x => match x with Rep _ _ (ERule n) => negb (equal_fold n (rule_name r)) | _ => true end) (Occ.grammar_reps g'))%bool.
Lemma clear_part g' more root : forallb (clearb g' root) more = true -> part g' (g' ++ more) root.
Proof.
  rewrite forallb_forall. intros H. split; [intros r I; apply in_or_app; auto|]. intros x X r I S. apply in_app_or in I as [I|I]; [exact I|]. exfalso.
  specialize (H r I). apply andb_true_iff in H as [A B]. destruct X as [X|X].
  - apply negb_true_iff in A. assert (E : equal_fold root (rule_name r) = true) by (apply equal_fold_iff; unfold same_name in *; congruence). congruence.
  - inversion X as [mn mx e O]; subst. apply Occ.occ_rep_listed in O. rewrite forallb_forall in B. specialize (B _ O). cbv beta iota in B.
    apply negb_true_iff in B. apply equal_fold_iff in S. congruence.
Qed.

(** Rules no part of [g_calc] names: a left-recursive group, a string of both kinds, a name without a rule. *)
Definition g_more : grammar :=
  [mkRule "bad" [[one (EGroup [[one (ERule "bad"); one (lit "x")]; [one (lit "y")]])]];
   mkRule "both" [[one (lit "z"); one (EChar true [122%Z]); one (ERule "expr"); one (ERule "nothing")]]].
Definition g_long : grammar := g_calc ++ g_more.
Lemma g_long_part : part g_calc g_long "expr".
Proof. apply clear_part. vm_compute. reflexivity. Qed.
Lemma g_long_distinct : distinct_names g_long.
Proof. apply wf_distinct. vm_compute. reflexivity. Qed.
Lemma g_long_order : name_order g_long (first_name "fac" g_long).
Proof. apply first_name_order; [exact g_long_distinct|vm_compute; auto 20]. Qed.
Lemma g_long_bounds : bounds_ok g_long.
Proof. apply bounds_dec. vm_compute. reflexivity. Qed.
Lemma g_long_fine : fine_first g_long (first_name "fac" g_long).
Proof.
  intros n rest _ _. 
  eapply (single_classes g_long idn (first_name "fac" g_long) "fac" _ 10);
    [exact idn_any|exact g_long_order|exact g_long_distinct|exact g_long_bounds|reflexivity|vm_compute; reflexivity|vm_compute; reflexivity].
Qed.

(** C02 does not apply to the grammar, as its strings and groups are not in order; C90 does. *)
Example C90_case :
  distinct_names g_long /\ bounds_ok g_long /\ any_order idn /\ name_order g_long (first_name "fac" g_long) /\ fine_first g_long (first_name "fac" g_long) /\ any_order idp /\
  part g_calc g_long "expr" /\ ~ same_flags g_long /\ ~ groups_not_left_recursive g_long /\
  count_ok g_calc (bytes "12+345!(99)+FfFz") /\ (exists a, resolves g_long "expr" a) /\
  Lang g_long "expr" (bytes "12+345!(99)+FfFz") /\ ~ Lang g_long "expr" (bytes "12+3456") /\
  (exists b, is_valid idn (first_name "fac" g_long) idp 200 g_long "expr" (bytes "12+345!(99)+FfFz") = VBool b /\ b = true).
Proof.
  split; [exact g_long_distinct|]. split; [exact g_long_bounds|]. split; [exact idn_any|]. split; [exact g_long_order|]. split; [exact g_long_fine|]. split; [exact idp_any|].
  split; [exact g_long_part|]. split; [|split; [|split; [|split; [|split; [|split]]]]].
  - intros F. assert (X : true = false); [|discriminate]. set (r := nth 1 g_more (mkRule "" [])). assert (I : In r (g_long ++ core_rules)) by (apply in_or_app; left; apply in_or_app; right; right; left; reflexivity).
    apply (F true false [122%Z]); apply (occ_elem_rep _ 1 1); eapply (occ_rep_rule g_long r); [exact I|left; reflexivity|right; left; reflexivity|exact I|left; reflexivity|left; reflexivity].
  - intros H. set (a := [[one (ERule "bad"); one (lit "x")]; [one (lit "y")]]). set (r := nth 0 g_more (mkRule "" [])).
    assert (I : In r g_long) by (apply in_or_app; right; left; reflexivity).
    assert (Ro : resolves g_long "bad" [[one (EGroup a)]]) by (left; exists r; split; [exact I|split; reflexivity]).
    apply (H (EGroup a)).
    + apply (occ_elem_rep _ 1 1). eapply (occ_rep_rule g_long r); [apply in_or_app; left; exact I|left; reflexivity|left; reflexivity].
    + exists a. left. reflexivity.
    + apply t_trans with (ERule "bad"); apply t_step.
      * exists a, [], 1%Z, 1%Z, (ERule "bad"), [one (lit "x")]. split; [constructor|]. split; [left; reflexivity|]. split; [intros x []|reflexivity].
      * exists [[one (EGroup a)]], [], 1%Z, 1%Z, (EGroup a), []. split; [constructor; exact Ro|]. split; [left; reflexivity|]. split; [intros x []|reflexivity].
  - apply count_okb_spec. vm_compute. reflexivity.
  - apply get_rule_some. eexists. reflexivity.
  - apply (C90_words g_long g_calc "expr" _ g_long_part). apply C02_case.
  - intros H. apply (C90_words g_long g_calc "expr" _ g_long_part) in H. revert H. apply C02_case.
  - eexists. split; vm_compute; reflexivity.
Qed.

(** What the entry points do on a grammar with a rule that names nothing, and on its part. *)
Definition g_two : grammar := [mkRule "a" [[one (lit "x"); one (ERule "b")]]; mkRule "b" [[Rep 0 3 (ERule "DIGIT")]; [one (lit "q")]]].
Definition g_two_more : grammar := g_two ++ [mkRule "c" [[one (ERule "nothing"); one (ERule "a")]]].
Definition deep : Graph.tgoptions := Graph.mkOpts true false false 64 0.

(** TransitionGraph fails for a rule the root does not reach. *)
Theorem C90_graph_refuted : exists g g' root order order' fuel opts t c,
  wf_grammar g /\ wf_grammar g' /\ part g' g root /\
  key_order (dependency_graph g) order /\ key_order (dependency_graph g') order' /\
  Graph.transition_graph fuel opts g g g order root = Graph.TG_err (Graph.TE_invalid (SE_dependency "nothing")) /\
  Graph.transition_graph fuel opts g' g' g' order' root = Graph.TG_ok t c.
Proof.
  exists g_two_more, g_two, "a", (map fst (dependency_graph g_two_more)), (map fst (dependency_graph g_two)), 10, deep. eexists _, _.
  split; [apply wf_grammarb_spec; vm_compute; reflexivity|]. split; [apply wf_grammarb_spec; vm_compute; reflexivity|].
  split; [apply clear_part; vm_compute; reflexivity|]. split; [intros x; reflexivity|]. split; [intros x; reflexivity|]. split; [vm_compute; reflexivity|]. vm_compute. reflexivity.
Qed.

(** The other entry points on it: the hypotheses hold and the results are not errors. *)
Example C90_case_others :
  distinct_names g_two_more /\ distinct_names g_two /\ wf_grammar g_two /\ lex_grammar g_two = true /\ told_apart g_two /\ part g_two g_two_more "a" /\
  key_order (dependency_graph g_two_more) (map fst (dependency_graph g_two_more)) /\ key_order (dependency_graph g_two) (map fst (dependency_graph g_two)) /\
  (exists f, parse_forest (fun _ l => l) 300 (bytes "X12") g_two_more "a" 13 0 = PF_ok f /\ f_valid f = true) /\
  parse_forest (fun _ l => l) 300 (bytes "X12") g_two_more "a" 3 0 = PF_grammar_too_large /\
  (exists sg set, parse_bsr (fun _ l => l) 300 (bytes "X12") g_two_more "a" 13 0 = BSR_ok sg set /\ bsr_valid sg 3 set = true) /\
  generate 10 (fun k => Z.of_nat (2 * k)) 16 256 g_two_more "a" = Generate.Gen_ok (bytes "X06") /\
  (exists s, Regex.regex 10 g_two_more (map fst (dependency_graph g_two_more)) 1000 "a" = Regex.Regex_text s).
Proof.
  split; [apply wf_distinct; vm_compute; reflexivity|]. split; [apply wf_distinct; vm_compute; reflexivity|]. split; [apply wf_grammarb_spec; vm_compute; reflexivity|].
  split; [vm_compute; reflexivity|]. split; [apply told_apartb_spec; vm_compute; reflexivity|]. split; [apply clear_part; vm_compute; reflexivity|].
  split; [intros x; reflexivity|]. split; [intros x; reflexivity|].
  split; [eexists; split; [vm_compute; reflexivity|vm_compute; reflexivity]|]. split; [vm_compute; reflexivity|].
  split; [eexists _, _; split; [vm_compute; reflexivity|vm_compute; reflexivity]|]. split; [vm_compute; reflexivity|]. eexists. vm_compute. reflexivity.
Qed.
(** NewASTGenerator, whose passes go over a rule that names nothing. *)
Example C90_case_ast : part g_two g_two_more "a" /\
  (forall mn mx e, occ_rep g_two (Rep mn mx e) -> (0 <= mn <= 2 ^ 33)%Z) /\ any_order id_order /\
  (exists start m m' s, new_ast 10 id_order g_two_more "a" = New_ok start m /\ new_ast 10 id_order g_two "a" = New_ok start m' /\ m <> m' /\
     ast_generate 10 g_two_more start m 8 100 4 [1; 0; 2; 3]%Z = A_ok s /\ ast_generate 10 g_two start m' 8 100 4 [1; 0; 2; 3]%Z = A_ok s /\ a_out s = bytes "X30").
Proof.
  split; [apply clear_part; vm_compute; reflexivity|]. split; [|split; [exact id_any|]].
  { intros mn mx e H. apply Occ.occ_rep_listed in H.
    assert (X : forallb (fun x => match x with Rep p _ _ => (0 <=? p) && (p <=? 2 ^ 33) end)%Z (Occ.grammar_reps g_two) = true) by (vm_compute; reflexivity).
    rewrite forallb_forall in X. specialize (X _ H). cbv beta iota in X. apply andb_true_iff in X as [A B]. apply Z.leb_le in A. apply Z.leb_le in B. lia. }
  eexists _, _, _, _. split; [vm_compute; reflexivity|]. split; [vm_compute; reflexivity|].
  split; [vm_compute; discriminate|]. split; [vm_compute; reflexivity|]. split; vm_compute; reflexivity.
Qed.
(** Both grammars valid, the rules deflated. *)
Example C90_case_graph : let g := g_two ++ [mkRule "c" [[one (ERule "a"); one (ERule "A")]]] in
  distinct_names g /\ part g_two g "a" /\ semval_abnf g g g = None /\ semval_abnf g_two g_two g_two = None /\
  key_order (dependency_graph g) (map fst (dependency_graph g)) /\
  exists t c, Graph.transition_graph 10 deep g g g (map fst (dependency_graph g)) "a" = Graph.TG_ok t c.
Proof.
  split; [apply wf_distinct; vm_compute; reflexivity|]. split; [apply clear_part; vm_compute; reflexivity|]. split; [vm_compute; reflexivity|]. split; [vm_compute; reflexivity|].
  split; [intros x; reflexivity|]. eexists _, _. vm_compute. reflexivity.
Qed.

Print Assumptions C90_words.
Print Assumptions C90_parsers.
Print Assumptions C90_generate.
Print Assumptions C90_ast_partial.
Print Assumptions C90_regex.
Print Assumptions C90_graph_partial.
Print Assumptions C90_graph_refuted.
Print Assumptions C90_valid_partial.
Print Assumptions C90_accepts_partial.
