(** C84: names given by the caller.  strings.EqualFold (utils.go:147) folds more runes than
    strings.ToLower (dag.go:137) does. *)
(** The definitions here without a citation are those of statements, proofs and examples; they model no code. *)
From Coq Require Import ZArith Arith String Ascii Bool Relations List Lia.
From Verif Require Import Syntax Spec Deps Dag Cycle PropDag Regex Graph Names NamesProof.
Import ListNotations.
Local Open Scope string_scope.
Local Open Scope list_scope.
Local Open Scope Z_scope.

(** A rule reaches a cycle of references (as in C20). *)
Definition reaches_cycle (g : grammar) (n : string) : Prop :=
  exists m, clos_refl_trans _ (gref g) n m /\ clos_trans _ (gref g) m m.

(** ** GetRule finds a rule by a name exactly when the name is one of its ASCII spellings, in
    which U+017F may stand for s and U+212A for k. *)
Theorem C84_found : forall g n r, lex_grammar g = true ->
  (get_rule_u n g = Some r <-> exists b m, respell b n m /\ get_rule m g = Some r).
Proof.
  intros g n r L. split; [apply (get_found n g r L)|]. intros (b & m & R & G). rewrite (get_respell b n m g L R). exact G.
Qed.

(** ** On ASCII names the functions are those of the other files. *)
Theorem C84_ascii_names : forall lr fuel opts g g1 g2 order max n, go_lower lr -> lex_grammar g = true ->
  all_chars (fun c => cval c <? 128) n = true ->
  get_rule_u n g = get_rule n g /\
  rule_contains_cycle_u lr g order n = rule_contains_cycle g order n /\
  regex_u lr fuel g order max n = regex fuel g order max n /\
  transition_graph_u lr fuel opts g g1 g2 order n = transition_graph fuel opts g g1 g2 order n.
Proof.
  intros lr fuel opts g g1 g2 order max n Lr L A. pose proof (respell_refl n A) as R.
  pose proof (get_respell false n n g L R) as G. pose proof (rcc_plain lr g order n n Lr L R) as C.
  split; [exact G|]. split; [exact C|]. unfold regex_u, regex, transition_graph_u, transition_graph. rewrite C, G. split; reflexivity.
Qed.

(** ** A name with U+212A, and without U+017F, does what the plain name does. *)
Theorem C84_kelvin : forall lr fuel opts g g1 g2 order max n m, go_lower lr -> lex_grammar g = true ->
  respell false n m -> get_rule m g <> None ->
  rule_contains_cycle_u lr g order n = rule_contains_cycle g order m /\
  regex_u lr fuel g order max n = regex fuel g order max m /\
  transition_graph_u lr fuel opts g g1 g2 order n = transition_graph fuel opts g g1 g2 order m.
Proof.
  intros lr fuel opts g g1 g2 order max n m Lr L R F.
  pose proof (get_respell false n m g L R) as G. pose proof (rcc_plain lr g order n m Lr L R) as C.
  split; [exact C|]. unfold regex_u, regex, transition_graph_u, transition_graph. rewrite C, G. split; [reflexivity|].
  destruct (get_rule m g) as [r|] eqn:E; [|contradiction]. destruct (if o_rules opts then semval_abnf g1 g2 g else None); [reflexivity|].
  unfold rule_contains_cycle. rewrite E. destruct (tarjan (dependency_graph g) order); try reflexivity.
  destruct (rule_cycle_visit _ _ _ _ _) as [[[] ?]|]; reflexivity.
Qed.

(** ** Under a name with U+017F, RuleContainsCycle says that no rule has a cycle. *)
Theorem C84_long_s_cycle : forall lr g order n m, go_lower lr -> lex_grammar g = true ->
  key_order (dependency_graph g) order -> respell true n m -> get_rule m g <> None ->
  rule_contains_cycle_u lr g order n = RccBool false.
Proof. exact rcc_long. Qed.

(** ** Regex under such a name: as under the plain one if the rule reaches no cycle; else,
    where the plain name gives ErrCyclicRule, it never ends. *)
Theorem C84_long_s_regex : forall lr g order max n m, go_lower lr -> lex_grammar g = true -> distinct_names g ->
  key_order (dependency_graph g) order -> respell true n m -> get_rule m g <> None ->
  (~ reaches_cycle g m -> forall fuel, regex_u lr fuel g order max n = regex fuel g order max m) /\
  (reaches_cycle g m -> forall fuel, regex fuel g order max m = Regex_cyclic /\ regex_u lr fuel g order max n = Regex_fuel).
Proof.
  intros lr g order max n m Lr L D O R F. pose proof (rcc_long lr g order n m Lr L O R F) as C.
  pose proof (get_respell true n m g L R) as G. pose proof (C20_rule_contains_cycle_exact g order m D O) as K.
  destruct (get_rule m g) as [r|] eqn:E; [|contradiction].
  destruct (rule_contains_cycle g order m) as [|b|] eqn:Q.
  - exfalso. apply (K (rule_alt r)). apply (proj1 (get_rule_resolves g m D) r E).
  - destruct K as [_ K]. split; intros H fuel.
    + assert (b = false) as ->. { destruct b; [exfalso; apply H, K; reflexivity|reflexivity]. }
      unfold regex_u, regex. rewrite C, G, Q, E. reflexivity.
    + assert (b = true) as -> by (apply K, H). unfold regex_u, regex. rewrite C, G, Q. split; [reflexivity|].
      rewrite (build_diverges g D fuel m r E H). reflexivity.
  - contradiction.
Qed.

(** ** TransitionGraph under such a name, the references replaced by their graphs: as under
    the plain one if the rule reaches no cycle; else, where the plain name gives ErrCyclicRule
    (or the error of an invalid grammar), it returns no graph. *)
Theorem C84_long_s_graph : forall lr opts g g1 g2 order n m, go_lower lr -> lex_grammar g = true -> distinct_names g ->
  key_order (dependency_graph g) order -> respell true n m -> get_rule m g <> None ->
  (~ reaches_cycle g m -> forall fuel, transition_graph_u lr fuel opts g g1 g2 order n = transition_graph fuel opts g g1 g2 order m) /\
  (reaches_cycle g m -> o_rules opts = true -> forall fuel t c, transition_graph_u lr fuel opts g g1 g2 order n <> TG_ok t c).
Proof.
  intros lr opts g g1 g2 order n m Lr L D O R F. pose proof (rcc_long lr g order n m Lr L O R F) as C.
  pose proof (get_respell true n m g L R) as G. pose proof (C20_rule_contains_cycle_exact g order m D O) as K.
  destruct (get_rule m g) as [r|] eqn:E; [|contradiction]. split.
  - intros H fuel. unfold transition_graph_u, transition_graph. rewrite C, G, E.
    destruct (if o_rules opts then semval_abnf g1 g2 g else None); [reflexivity|].
    destruct (rule_contains_cycle g order m) as [|[|]|] eqn:Q; try reflexivity.
    + exfalso. apply (K (rule_alt r)). apply (proj1 (get_rule_resolves g m D) r E).
    + exfalso. apply H, K. reflexivity.
    + contradiction.
  - intros H Ru fuel t c. unfold transition_graph_u. rewrite C, G, Ru. destruct (semval_abnf g1 g2 g); [discriminate|].
    pose proof (graph_diverges g D opts Ru fuel m r E H) as N.
    destruct (alt_graph opts (rule_graph fuel opts g) (rule_alt r) (mkT [] [] 0)) as [i o st| | |]; try discriminate.
    exfalso. exact (N i o st eq_refl).
Qed.

(** ** A grammar meeting the hypotheses *)

(** One of the values unicode.ToLower may have on the other runes. *)
Definition lr0 (r : Z) : Z := if (65 <=? r) && (r <=? 90) then r + 32 else if r =? 0x212A then 107 else r.
Lemma lr0_ok : go_lower lr0.
Proof.
  split; [|split; reflexivity]. intros r H. unfold lr0. destruct ((65 <=? r) && (r <=? 90))%bool; [reflexivity|].
  destruct (Z.eqb_spec r 0x212A); [lia|reflexivity].
Qed.

(** s = s "x" / "x"; task = 2"y" *)
Definition g84 : grammar :=
  [mkRule "s" [[Rep 1 1 (ERule "s"); Rep 1 1 (EChar false [120])]; [Rep 1 1 (EChar false [120])]];
   mkRule "task" [[Rep 2 2 (EChar false [121])]]].
(** U+017F; ta U+017F U+212A; TAS U+212A. *)
Definition long_s : string := String "197" (String "191" "").
Definition ta_long_kelvin : string := "ta" ++ long_s ++ String "226" (String "132" (String "170" "")).
Definition tas_kelvin : string := "TAS" ++ String "226" (String "132" (String "170" "")).

Lemma g84_cycle : reaches_cycle g84 "s".
Proof.
  exists "s". split; [apply rt_refl|]. apply t_step.
  exists [[Rep 1 1 (ERule "s"); Rep 1 1 (EChar false [120])]; [Rep 1 1 (EChar false [120])]], "s". split; [|split; [|reflexivity]].
  - left. eexists. split; [left; reflexivity|]. split; reflexivity.
  - exists 1, 1. eapply rep_in_here; [left; reflexivity|]. left. reflexivity.
Qed.
Lemma g84_distinct : distinct_names g84.
Proof. unfold distinct_names. cbn. repeat constructor; cbn; intuition discriminate. Qed.
Lemma g84_s : respell true long_s "s".
Proof. apply (rs_long_s false "" ""). constructor. Qed.
Lemma g84_task : respell true ta_long_kelvin "task" /\ respell false tas_kelvin "TASk".
Proof.
  split.
  - apply rs_char; [reflexivity|]. apply rs_char; [reflexivity|]. apply (rs_long_s false). apply rs_kelvin. constructor.
  - apply rs_char; [reflexivity|]. apply rs_char; [reflexivity|]. apply rs_char; [reflexivity|]. apply rs_kelvin. constructor.
Qed.
Definition order84 : list string := map fst (dependency_graph g84).
Lemma order84_ok : key_order (dependency_graph g84) order84.
Proof. intros x. reflexivity. Qed.

Example C84_case : lex_grammar g84 = true /\ distinct_names g84 /\ key_order (dependency_graph g84) order84 /\
  respell true long_s "s" /\ reaches_cycle g84 "s" /\
  respell true ta_long_kelvin "task" /\ respell false tas_kelvin "TASk" /\
  get_rule_u ta_long_kelvin g84 = get_rule "task" g84 /\ get_rule "task" g84 <> None /\
  rule_contains_cycle g84 order84 "s" = RccBool true /\ rule_contains_cycle_u lr0 g84 order84 long_s = RccBool false /\
  regex_u lr0 9 g84 order84 0 ta_long_kelvin = Regex_text (bytes "[Yy]{2}") /\
  regex_u lr0 9 g84 order84 0 tas_kelvin = Regex_text (bytes "[Yy]{2}").
Proof.
  split; [reflexivity|]. split; [exact g84_distinct|]. split; [exact order84_ok|]. split; [exact g84_s|]. split; [exact g84_cycle|].
  split; [exact (proj1 g84_task)|]. split; [exact (proj2 g84_task)|]. split; [vm_compute; reflexivity|]. split; [discriminate|].
  split; [vm_compute; reflexivity|]. split; [vm_compute; reflexivity|]. split; vm_compute; reflexivity.
Qed.

(** ** That a name finds a rule only if it is the rule's name up to case (RFC 5234 2.1) is
    false. *)
Theorem C84_case_only_refuted : exists g n r, lex_grammar g = true /\ distinct_names g /\
  get_rule_u n g = Some r /\ ~ same_name n (rule_name r).
Proof. exists g84, long_s. eexists. split; [reflexivity|]. split; [exact g84_distinct|]. split; [vm_compute; reflexivity|]. discriminate. Qed.

(** ** That RuleContainsCycle is right (C20) under every name that finds the rule is false. *)
Theorem C84_cycle_refuted : exists g n r, lex_grammar g = true /\ distinct_names g /\
  get_rule_u n g = Some r /\ reaches_cycle g (rule_name r) /\
  forall lr order, go_lower lr -> key_order (dependency_graph g) order -> rule_contains_cycle_u lr g order n = RccBool false.
Proof.
  exists g84, long_s. eexists. split; [reflexivity|]. split; [exact g84_distinct|]. split; [vm_compute; reflexivity|]. split; [exact g84_cycle|].
  intros lr order Lr O. apply (rcc_long lr g84 order long_s "s" Lr eq_refl O g84_s). discriminate.
Qed.

(** ** That Regex and TransitionGraph end under every name, a budget being set, is false. *)
Theorem C84_ends_refuted : exists g n, lex_grammar g = true /\ distinct_names g /\ semval_abnf g g g = None /\
  forall lr order max budget fuel, go_lower lr -> key_order (dependency_graph g) order ->
  regex_u lr fuel g order max n = Regex_fuel /\
  transition_graph_u lr fuel (mkOpts true true true 256 budget) g g g order n = TG_fuel.
Proof.
  exists g84, long_s. split; [reflexivity|]. split; [exact g84_distinct|]. split; [vm_compute; reflexivity|].
  intros lr order max budget fuel Lr O. assert (F : get_rule "s" g84 <> None) by discriminate. split.
  - apply (C84_long_s_regex lr g84 order max long_s "s" Lr eq_refl g84_distinct O g84_s F). exact g84_cycle.
  - unfold transition_graph_u. rewrite (rcc_long lr g84 order long_s "s" Lr eq_refl O g84_s F).
    replace (get_rule_u long_s g84) with (get_rule "s" g84) by (vm_compute; reflexivity).
    replace (if o_rules (mkOpts true true true 256 budget) then semval_abnf g84 g84 g84 else None) with (@None sem_error) by (vm_compute; reflexivity).
    assert (K : forall fuel r, get_rule "s" g84 = Some r -> alt_graph (mkOpts true true true 256 budget) (rule_graph fuel (mkOpts true true true 256 budget) g84) (rule_alt r) (mkT [] [] 0) = T_fuel).
    { clear. induction fuel as [|f IH]; intros r E; pose proof E as E'; injection E as <-; [reflexivity|].
      specialize (IH _ E'). cbn [alt_graph rule_alt] in IH |- *. unfold alt_graph, alt_with in *. cbn [alt_loop cat_with] in IH |- *.
      assert (Q : rep_graph (mkOpts true true true 256 budget) (rule_graph (S f) (mkOpts true true true 256 budget) g84) (Rep 1 1 (ERule "s")) (mkT [] [] 0) = T_fuel).
      2:{ rewrite Q. reflexivity. }
      change (rep_graph (mkOpts true true true 256 budget) (rule_graph (S f) (mkOpts true true true 256 budget) g84) (Rep 1 1 (ERule "s")) (mkT [] [] 0)) with
        (match rule_graph (S f) (mkOpts true true true 256 budget) g84 "s" (mkT [] [] 0) with T_ok ei eo st1 => rep_build (mkOpts true true true 256 budget) 1 1 ei eo st1 | x => x end).
      cbn [rule_graph t_buf buf_get]. rewrite E'. cbn [rule_alt]. unfold alt_graph, alt_with. cbn [alt_loop cat_with]. rewrite IH. reflexivity. }
    destruct (get_rule "s" g84) as [r|] eqn:E; [|contradiction]. rewrite (K fuel r eq_refl). reflexivity.
Qed.

Print Assumptions C84_found.
Print Assumptions C84_ascii_names.
Print Assumptions C84_kelvin.
Print Assumptions C84_long_s_cycle.
Print Assumptions C84_long_s_regex.
Print Assumptions C84_long_s_graph.
Print Assumptions C84_case_only_refuted.
Print Assumptions C84_cycle_refuted.
Print Assumptions C84_ends_refuted.
