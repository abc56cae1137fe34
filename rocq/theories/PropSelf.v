(** Claim C77: the grammar of ABNF reads its own definition
    (the test Test_U_ABNFParseItself of grammar_test.go:243-269, for every text and order). *)
From Coq Require Import ZArith Arith String Bool Permutation List Lia.
From Verif Require Import Syntax Spec Printer PrintInj PrintText ReadSpec Slots LowerBudget Sppf Tree Errors Deps Eval EvalProof ParseAbnf Check
  PropTerm PropSem PropEval PropPrint PropWritten PropRead PropGll PropParse.
Import ListNotations.
Local Open Scope string_scope.
Local Open Scope list_scope.
Local Open Scope Z_scope.

(** ** Grammars with the same rules are parsed alike *)
Lemma lower_rule_same g g' max : (forall n, get_rule n g = get_rule n g') -> forall f n st x,
  lower_rule g max f n st = Some x -> lower_rule g' max f n st = Some x.
Proof.
  intros G. induction f as [|f IH]; intros n st x; [discriminate|]. cbn [lower_rule].
  destruct (reserve _ _) as [[id []] st1]; auto. destruct (budget_exceeded _ _) as [[] st2]; auto.
  rewrite <- G. destruct (get_rule n g) as [r|]; auto.
  destruct (lower_alts max (lower_rule g max f) (rule_alt r) st2) as [[alts st3]|] eqn:E; [|discriminate].
  erewrite alts_mono; [..|exact E]; auto.
  apply Forall_forall. intros c _. apply Forall_forall. intros r0 _. apply lower_mono. exact (IH).
Qed.
Theorem C77_order_irrelevant : forall ord fuel w g g' root max_slots max_nodes, distinct_names g -> Permutation g g' ->
  parse_forest ord fuel w g root max_slots max_nodes = parse_forest ord fuel w g' root max_slots max_nodes.
Proof.
  intros ord fuel w g g' root ms mn D P. pose proof (fun n => C19_get_rule_order_independent n g g' D P) as G.
  assert (C : compile_slots g root ms fuel = compile_slots g' root ms fuel).
  { unfold compile_slots. rewrite <- G. destruct (get_rule root g); auto.
    destruct (lower_rule g ms fuel root ls_init) as [p|] eqn:E.
    - rewrite (lower_rule_same g g' ms G _ _ _ _ E). reflexivity.
    - destruct (lower_rule g' ms fuel root ls_init) as [p|] eqn:E'; auto.
      rewrite (lower_rule_same g' g ms (fun n => eq_sym (G n)) _ _ _ _ E') in E. discriminate. }
  unfold parse_forest. rewrite C. reflexivity.
Qed.

(** ** Reading *)
(** A text says the rules of ABNF: each is defined once, in any order and layout. *)
Definition says_itself (w : list Z) : Prop :=
  exists rs, Permutation rs abnf_grammar /\ text_says quiet_filler w (map (fun r => (r, false)) rs).

Lemma abnf_erased : Forall (fun r => erase_rule r = r) abnf_grammar.
Proof. repeat constructor. Qed.
Lemma abnf_written : Forall written_rule abnf_grammar.
Proof. apply written_all. vm_compute. reflexivity. Qed.
Lemma perm_names (g g' : grammar) : Permutation g g' -> distinct_names g -> distinct_names g'.
Proof. intros P. unfold distinct_names. apply Permutation_NoDup, Permutation_map, P. Qed.

(** Whatever the layout and the orders, the rules read are those of ABNF. *)
Theorem C77_reads_itself : forall ord w, any_order ord -> says_itself w ->
  exists enough, forall fuel ordE sh validate, (enough <= fuel)%nat -> any_order ordE -> any_shuffle sh ->
    exists st, parse_abnf ord ordE sh fuel false validate core_rules w = PA_ok st /\
      Permutation (rules_of st) abnf_grammar /\ e_core st = core_rules.
Proof.
  intros ord w O (rs & P & S). destruct (C57_reads_partial ord w _ O S) as [en H]. exists en.
  intros fuel ordE sh validate F Oe Sh. specialize (H fuel ordE sh validate F Oe Sh).
  pose proof (perm_names _ _ (Permutation_sym P) (proj1 abnf_wf)) as D.
  destruct (define_printed core_rules ordE rs Oe D) as (st1 & E1 & R1 & D1 & C1).
  { intros r I. apply (Permutation_in _ P) in I. intros (r0 & I0 & E0).
    assert (B : forallb (fun r => forallb (fun r0 => negb (String.eqb (lower (rule_name r)) (lower (rule_name r0)))) core_rules) abnf_grammar = true) by (vm_compute; reflexivity).
    rewrite forallb_forall in B. specialize (B r I). rewrite forallb_forall in B. specialize (B r0 I0).
    unfold same_name in E0. rewrite E0, String.eqb_refl in B. discriminate. }
  pose proof (C38_definitions_merge_partial core_rules ordE (map (fun r => (r, false)) rs) Oe) as M. rewrite E1 in M.
  destruct M as (Ok & _ & Rl & _).
  assert (A : forall r, In r abnf_grammar <-> defined_as (map (fun r => (r, false)) rs) r).
  { intros r. rewrite <- Rl, R1. split; apply Permutation_in; [symmetry|]; exact P. }
  assert (ND : forall g : grammar, distinct_names g -> NoDup g) by (intros g; apply NoDup_map_inv).
  destruct (parse_abnf ord ordE sh fuel false validate core_rules w) as [st| | | | | | |e|e| |] eqn:E; try contradiction.
  - exists st. split; auto. destruct H as (_ & Dn & Q & Ec & _). split; auto.
    apply NoDup_Permutation; [apply ND, Dn|apply ND, abnf_wf|]. intros r. rewrite Q, A. reflexivity.
  - destruct H as (pre & d & post & Es & _ & V). exfalso. exact (Ok _ _ _ _ Es V).
  - destruct H as (_ & _ & N). exfalso. apply (N abnf_grammar (proj1 abnf_wf) A).
    apply (C17_semval_exact abnf_grammar abnf_grammar abnf_grammar (Permutation_refl _) (Permutation_refl _) (proj2 abnf_wf)). vm_compute. reflexivity.
Qed.

(** What String prints says the rules of ABNF, whatever the order of the map ... *)
Theorem C77_string : forall rs, Permutation rs abnf_grammar -> says_itself (bytes (grammar_string rs)).
Proof.
  intros rs P. exists rs. split; auto. apply C40_printed_text_same.
  - intros ->. apply Permutation_nil in P. discriminate.
  - eapply Permutation_Forall; [symmetry; exact P|exact abnf_written].
  - eapply Permutation_Forall; [symmetry; exact P|exact abnf_erased].
Qed.
(** ... and so does what PrettyPrint prints; the keys of the map are the names of the rules
    (abnf.go:217-244). *)
Theorem C77_pretty : forall rs, Permutation rs abnf_grammar ->
  says_itself (bytes (pretty_string (map (fun r => (rule_name r, r)) rs))).
Proof.
  intros rs P. exists rs. split; auto.
  assert (W : Forall written_rule rs) by (eapply Permutation_Forall; [symmetry; exact P|exact abnf_written]).
  assert (E : Forall (fun r => erase_rule r = r) rs) by (eapply Permutation_Forall; [symmetry; exact P|exact abnf_erased]).
  replace (map (fun r => (r, false)) rs) with
    (map (fun kr => (mkRule (fst kr) (erase_alt (rule_alt (snd kr))), false)) (map (fun r => (rule_name r, r)) rs)).
  - apply C40_pretty_text_partial.
    + intros X. apply map_eq_nil in X. subst rs. apply Permutation_nil in P. discriminate.
    + rewrite Forall_map. eapply Forall_impl; [|exact W]. intros r H. exact H.
  - rewrite map_map. clear - E. induction E as [|r rs H E IH]; [reflexivity|]. cbn [map].
    rewrite <- IH. unfold erase_rule in H. cbn [fst snd]. rewrite H. reflexivity.
Qed.

(** The grammar read parses every text as the hardcoded one does: it takes exactly the ABNF texts. *)
Theorem C77_same_parser : forall ord fuel w g root max_slots max_nodes, Permutation g abnf_grammar ->
  parse_forest ord fuel w g root max_slots max_nodes = parse_forest ord fuel w abnf_grammar root max_slots max_nodes.
Proof.
  intros ord fuel w g root ms mn P. symmetry. apply C77_order_irrelevant; [apply abnf_wf|symmetry; exact P].
Qed.
Theorem C77_same_texts : forall ord g w, any_order ord -> Permutation g abnf_grammar ->
  exists f enough, forall fuel, (enough <= fuel)%nat -> parse_forest ord fuel w g "rulelist" default_max_slots 0 = PF_ok f /\
    (f_valid f = true <-> exists ds, text_says any_filler w ds).
Proof.
  intros ord g w O P. destruct (abnf_forest ord w O) as (f & en & H). exists f, en. intros fuel F. rewrite C77_same_parser by auto.
  destruct (H fuel F) as [E _]. split; auto. rewrite <- C55_abnf_texts.
  exact (C05_forest_valid_exact_partial _ _ _ _ _ _ _ _ O abnf_wf abnf_lex abnf_apart E).
Qed.

(** The texts exist, and none of the three is the other: the order of the map shows. *)
Example C77_case :
  Permutation (rev abnf_grammar) abnf_grammar /\ says_itself (bytes (grammar_string abnf_grammar)) /\
  says_itself (bytes (grammar_string (rev abnf_grammar))) /\
  bytes (grammar_string abnf_grammar) <> bytes (grammar_string (rev abnf_grammar)) /\
  length (bytes (grammar_string abnf_grammar)) = Z.to_nat 1073 /\
  firstn 46 (bytes (pretty_string (map (fun r => (rule_name r, r)) abnf_grammar))) = bytes "rulelist                = 1*(rule / (*WSP c-nl".
Proof.
  split; [apply Permutation_sym, Permutation_rev|]. split; [apply C77_string, Permutation_refl|].
  split; [apply C77_string, Permutation_sym, Permutation_rev|]. split; [vm_compute; discriminate|].
  split; vm_compute; reflexivity.
Qed.
Print Assumptions C77_order_irrelevant.
Print Assumptions C77_reads_itself.
Print Assumptions C77_string.
Print Assumptions C77_pretty.
Print Assumptions C77_same_parser.
Print Assumptions C77_same_texts.
