(** C92: the order in which the rules are written does not matter. *)
From Coq Require Import ZArith Arith String Ascii Bool Relations Permutation List Lia.
From Verif Require Import Syntax Spec Num Term PropTerm Deps Dag Cycle PropDag Printer Check Apart LeftRec PropLeftRec LowerLang PrintInj Generate Slots Bsr Sppf Gll PropSem PropGll
  Recog RecogProof RecogComplete RecogGlue RecogCheck PropRecog Part PartProof PartRecog Tape Ast PropAst AstOrder PropPart RuleOrder.
From Verif Require Regex Graph Codegen Occ.
Import ListNotations.
Local Open Scope string_scope.
Local Open Scope list_scope.
Local Open Scope nat_scope.

Lemma perm_part g g' root : Permutation g g' -> part g' g root.
Proof.
  intros P. split; [intros r I; apply (Permutation_in r (Permutation_sym P) I)|]. intros x _ r I _. apply (Permutation_in r P I).
Qed.
Lemma perm_get g g' n : Permutation g g' -> distinct_names g -> get_rule n g = get_rule n g'.
Proof. intros P D. apply (get_part g g' n D (perm_part g g' n P)). intros r I _. apply (Permutation_in r P I). Qed.
Lemma perm_distinct g g' : Permutation g g' -> distinct_names g -> distinct_names g'.
Proof. intros P D. unfold distinct_names in *. eapply Permutation_NoDup; [|exact D]. apply Permutation_map, P. Qed.

(** IsValid reads the rules as a map: for every grammar, the order of the rules and the orders in which
    nullableRules (leftrec.go:18-41) iterates over them change nothing. *)
Theorem C92_valid : forall g g' ordn ordn' order ord fuel n input, Permutation g g' -> distinct_names g -> any_order ordn -> any_order ordn' ->
  is_valid ordn order ord fuel g n input = is_valid ordn' order ord fuel g' n input.
Proof. intros. apply valid_same; auto. intros x. apply perm_get; assumption. Qed.
(** In particular, with repeated names too. *)
Theorem C92_valid_nullable : forall g ordn ordn' order ord fuel n input, any_order ordn -> any_order ordn' ->
  is_valid ordn order ord fuel g n input = is_valid ordn' order ord fuel g n input.
Proof. intros. apply valid_same; auto. Qed.

Theorem C92_parsers : forall g g' root, Permutation g g' -> distinct_names g ->
  (forall w, Lang g root w <-> Lang g' root w) /\
  (forall ord fuel input max_slots max_nodes,
     parse_forest ord fuel input g root max_slots max_nodes = parse_forest ord fuel input g' root max_slots max_nodes) /\
  (forall ord fuel input max_slots max_nodes,
     parse_bsr ord fuel input g root max_slots max_nodes = parse_bsr ord fuel input g' root max_slots max_nodes) /\
  (forall fuel, Codegen.generate_go_parser fuel g root = Codegen.generate_go_parser fuel g' root).
Proof. intros g g' root P D. split; [intros w; apply C90_words, perm_part, P|]. apply C90_parsers; [exact D|apply perm_part, P]. Qed.

Theorem C92_others : forall g g' root order order', Permutation g g' -> distinct_names g ->
  key_order (dependency_graph g) order -> key_order (dependency_graph g') order' ->
  (forall fuel rnd rep_max threshold, generate fuel rnd rep_max threshold g root = generate fuel rnd rep_max threshold g' root) /\
  rule_contains_cycle g order root = rule_contains_cycle g' order' root /\
  (forall fuel max_len, Regex.regex fuel g order max_len root = Regex.regex fuel g' order' max_len root).
Proof.
  intros g g' root order order' P D K K'. split; [intros; apply C90_generate; [exact D|apply perm_part, P]|].
  apply C90_regex; auto; [eapply perm_distinct; eauto|apply perm_part, P].
Qed.

(** NewASTGenerator, for counts as in C91. *)
Theorem C92_ast_partial : forall g g' root ord ord', Permutation g g' -> distinct_names g ->
  (forall mn mx e, occ_rep g' (Rep mn mx e) -> (0 <= mn <= 2 ^ 33)%Z) -> any_order ord -> any_order ord' ->
  exists F, forall fuel, F <= fuel ->
  match new_ast fuel ord g root with
  | New_ok start m => exists m', new_ast fuel ord' g' root = New_ok start m' /\
      forall f md ml mr S_ (intn : Z -> S_ -> Z * S_) src, ast_walk f g start m md ml mr intn src = ast_walk f g' start m' md ml mr intn src
  | New_fuel => False
  | err => new_ast fuel ord' g' root = err
  end.
Proof. intros g g' root ord ord' P D. apply C90_ast_partial; [exact D|apply perm_part, P]. Qed.

(** SemvalABNF refuses both or none, and TransitionGraph returns the same or names an error each. *)
Theorem C92_semval : forall g g' g1 g2 h1 h2, Permutation g g' -> distinct_names g -> Forall (fun r => wf_alt (rule_alt r)) g ->
  Permutation g1 g -> Permutation g2 g -> Permutation h1 g' -> Permutation h2 g' ->
  (semval_abnf g1 g2 g = None <-> semval_abnf h1 h2 g' = None).
Proof.
  intros g g' g1 g2 h1 h2 P D W P1 P2 Q1 Q2. assert (W' : Forall (fun r => wf_alt (rule_alt r)) g').
  { rewrite Forall_forall in *. intros r I. apply W. apply (Permutation_in r (Permutation_sym P) I). }
  rewrite (semval_get g1 g2 g g' (fun n => perm_get g g' n P D)).
  rewrite (C17_semval_exact g' g1 g2 (Permutation_trans P1 P) (Permutation_trans P2 P) W'), (C17_semval_exact g' h1 h2 Q1 Q2 W'). reflexivity.
Qed.
Theorem C92_graph : forall g g' g1 g2 h1 h2 root order order' fuel opts, Permutation g g' -> distinct_names g -> Forall (fun r => wf_alt (rule_alt r)) g ->
  Permutation g1 g -> Permutation g2 g -> Permutation h1 g' -> Permutation h2 g' ->
  key_order (dependency_graph g) order -> key_order (dependency_graph g') order' ->
  Graph.transition_graph fuel opts g g1 g2 order root = Graph.transition_graph fuel opts g' h1 h2 order' root \/
  exists e e', Graph.transition_graph fuel opts g g1 g2 order root = Graph.TG_err (Graph.TE_invalid e) /\
               Graph.transition_graph fuel opts g' h1 h2 order' root = Graph.TG_err (Graph.TE_invalid e').
Proof.
  intros g g' g1 g2 h1 h2 root order order' fuel opts P D W P1 P2 Q1 Q2 K K'. pose proof (C92_semval g g' g1 g2 h1 h2 P D W P1 P2 Q1 Q2) as Sv.
  pose proof (C90_graph_partial g g' root order order' fuel opts g1 g2 h1 h2 D (perm_distinct g g' P D) (perm_part g g' root P) K K') as G.
  destruct (Graph.o_rules opts) eqn:R; [|left; apply G; discriminate].
  destruct (semval_abnf g1 g2 g) as [e|] eqn:E.
  - destruct (semval_abnf h1 h2 g') as [e'|] eqn:E'; [|destruct Sv as [_ Sv]; specialize (Sv eq_refl); discriminate].
    unfold Graph.transition_graph. rewrite (perm_get g g' root P D), R, E, E'. destruct (get_rule root g'); [right; eauto|left; reflexivity].
  - left. apply G. intros _. split; [reflexivity|]. apply Sv. reflexivity.
Qed.

(** ** Cases *)
(** A grammar whose rules, one left recursive, one left recursive through a group, one of no words, are
    written backwards. *)
Example C92_case : Permutation g_long (rev g_long) /\ distinct_names g_long /\ any_order idn /\ any_order (fun _ (l : list string) => rev l) /\
  g_long <> rev g_long /\
  is_valid idn (first_name "fac" g_long) idp 200 g_long "expr" (bytes "12+345!(99)+FfFz") = VBool true /\
  is_valid (fun _ l => rev l) (first_name "fac" g_long) idp 200 (rev g_long) "expr" (bytes "12+345!(99)+FfFz") = VBool true /\
  is_valid (fun _ l => rev l) (first_name "fac" g_long) idp 200 (rev g_long) "expr" (bytes "12+3456") = VBool false.
Proof.
  split; [apply Permutation_rev|]. split; [exact g_long_distinct|]. split; [exact idn_any|]. split; [intros t l x; symmetry; apply in_rev|]. split; [discriminate|].
  split; [vm_compute; reflexivity|]. split; [vm_compute; reflexivity|]. vm_compute. reflexivity.
Qed.
Example C92_case_others : let g := g_two ++ [mkRule "c" [[one (ERule "a"); one (ERule "A")]]] in let g' := rev g in
  Permutation g g' /\ distinct_names g /\ Forall (fun r => wf_alt (rule_alt r)) g /\ g <> g' /\
  key_order (dependency_graph g) (map fst (dependency_graph g)) /\ key_order (dependency_graph g') (map fst (dependency_graph g')) /\
  (exists f, parse_forest (fun _ l => l) 300 (bytes "X12") g' "a" 13 0 = PF_ok f /\ f_valid f = true) /\
  generate 10 (fun k => Z.of_nat (2 * k)) 16 256 g' "a" = Generate.Gen_ok (bytes "X06") /\
  (exists t c, Graph.transition_graph 10 deep g' g' g' (map fst (dependency_graph g')) "a" = Graph.TG_ok t c) /\
  (exists start m, new_ast 10 id_order g' "c" = New_ok start m).
Proof.
  cbv zeta. split; [apply Permutation_rev|]. split; [apply wf_distinct; vm_compute; reflexivity|]. split; [apply (fun H => proj2 (wf_grammarb_spec _ H)); vm_compute; reflexivity|]. split; [discriminate|].
  split; [intros x; reflexivity|]. split; [intros x; reflexivity|]. split; [eexists; split; [vm_compute; reflexivity|vm_compute; reflexivity]|].
  split; [vm_compute; reflexivity|]. split; [eexists _, _; vm_compute; reflexivity|]. eexists _, _. vm_compute. reflexivity.
Qed.
(** Which error is named does depend on the order. *)
Example C92_case_error : let g := [mkRule "a" [[one (ERule "x")]]; mkRule "b" [[one (ERule "y")]]] in
  semval_abnf g g g = Some (SE_dependency "x") /\ semval_abnf (rev g) (rev g) (rev g) = Some (SE_dependency "y").
Proof. vm_compute. auto. Qed.

Print Assumptions C92_valid.
Print Assumptions C92_valid_nullable.
Print Assumptions C92_parsers.
Print Assumptions C92_others.
Print Assumptions C92_ast_partial.
Print Assumptions C92_semval.
Print Assumptions C92_graph.
