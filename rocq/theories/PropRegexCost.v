(** C82: what Regex costs (regex.go:22-54). *)
From Coq Require Import ZArith Arith String Ascii Bool Relations List Lia.
From Verif Require Import Syntax Spec Utf8 Num Tape Deps Dag Cycle PropDag Printer PropTerm Regex RegexBuild RegexRead LowerSize PropRegex QueryCostLow
  RegexCost RegexCostProof RegexCostLow.
Import ListNotations.
Local Open Scope string_scope.
Local Open Scope list_scope.
Local Open Scope nat_scope.

(** (specification) The size of a grammar and of the core rules: rules, concatenations,
    repetitions, groups, options and values, counted. *)
Definition weight (g : grammar) : nat := size g + length (g ++ core_rules).
(** (specification) The size of an expression: nodes and ranges, counted as often as they are written. *)
Fixpoint written (n : re) : nat :=
  match n with
  | RClass rs => 1 + length rs
  | RConcat ps => 1 + list_sum (map written ps)
  | RAlt os => 1 + list_sum (map written os)
  | RRepeat sub _ _ => 1 + written sub
  | REmpty | RNever => 1
  end.
Lemma written_size n : written n = re_size n.
Proof. reflexivity. Qed.

(** ** C82: nodes shared by pointers give the text that nodes copied give (PropRegex.v speaks
    of the latter). *)
Theorem C82_pointers_share : forall fuel g order max n, distinct_names g ->
  fst (h_regex fuel g order max n) = regex fuel g order max n.
Proof. intros fuel g order max n Dn. apply regex_shared, Dn. Qed.

(** ** C82: the builder makes a number of nodes linear in the size of the grammar, and the
    body of simplify runs at most once for each (regex.go:122, 226: "linear over the DAG"). *)
Theorem C82_nodes_linear : forall fuel g order max n, distinct_names g -> key_order (dependency_graph g) order ->
  c_build (snd (h_regex fuel g order max n)) <= 4 * weight g /\ c_bodies (snd (h_regex fuel g order max n)) <= 4 * weight g + 2.
Proof.
  intros fuel g order max n Dn O. pose proof (C20_rule_contains_cycle_exact g order n Dn O) as K.
  destruct (rule_contains_cycle g order n) as [|[|]|] eqn:C; try (unfold h_regex; rewrite C; cbn; lia).
  destruct (get_rule n g) as [r|] eqn:G; [|unfold h_regex; rewrite C, G; cbn; lia].
  destruct K as [_ K]. assert (Acy : ~ exists m, clos_refl_trans _ (gref g) n m /\ clos_trans _ (gref g) m m) by (intros H; apply K in H; discriminate).
  pose proof (root_sim g Dn fuel n r G h_init _ rel_init) as S1.
  destruct (build_alt (build_rule fuel g) (rule_alt r) (mkB [] false)) as [[x bt]|] eqn:Eb.
  - destruct (h_alt (h_rule fuel g) (rule_alt r) h_init) as [[p st]|] eqn:Eh; [|contradiction].
    destruct (build_cost g Dn fuel n r p st G Acy Eh) as [B1 B2]. fold (weight g) in *. unfold weight.
    destruct (b_err bt) eqn:Er.
    + destruct S1 as (Re & _). pose proof (rel_err _ _ Re) as Er'. rewrite Er in Er'.
      unfold h_regex. rewrite C, G, Eh, Er'. cbn [snd c_build c_bodies]. lia.
    + destruct (h_regex_run g Dn fuel order max n r x bt C G Eb Er) as (p' & st' & ss & Eh' & _ & _ & _ & _ & _ & Bb & _ & E).
      rewrite Eh in Eh'. injection Eh' as <- <-. rewrite E. cbn [snd c_build c_bodies]. lia.
  - destruct (h_alt (h_rule fuel g) (rule_alt r) h_init) as [[p st]|] eqn:Eh; [contradiction|]. unfold h_regex. rewrite C, G, Eh. cbn. lia.
Qed.

(** ** C82: what simplify appends, and the calls of render, are bounded by the expression
    written out: the node built, its shared parts copied. *)
Theorem C82_written_bound : forall fuel g order max n r x st, distinct_names g -> key_order (dependency_graph g) order ->
  get_rule n g = Some r -> build_alt (build_rule fuel g) (rule_alt r) (mkB [] false) = Some (x, st) ->
  c_appends (snd (h_regex fuel g order max n)) <= 3 * written x * (4 * weight g + 2) /\
  c_render (snd (h_regex fuel g order max n)) <= written x.
Proof.
  intros fuel g order max n r x bt Dn O G Eb. pose proof (C20_rule_contains_cycle_exact g order n Dn O) as K.
  destruct (rule_contains_cycle g order n) as [|[|]|] eqn:C; try (unfold h_regex; rewrite C; cbn [snd c_appends c_render c_none]; lia).
  destruct K as [_ K]. assert (Acy : ~ exists m, clos_refl_trans _ (gref g) n m /\ clos_trans _ (gref g) m m) by (intros H; apply K in H; discriminate).
  pose proof (root_sim g Dn fuel n r G h_init _ rel_init) as S1. rewrite Eb in S1.
  destruct (h_alt (h_rule fuel g) (rule_alt r) h_init) as [[p st]|] eqn:Eh; [|contradiction].
  destruct (build_cost g Dn fuel n r p st G Acy Eh) as [B1 B2].
  destruct (b_err bt) eqn:Er.
  - destruct S1 as (Re & _). pose proof (rel_err _ _ Re) as Er'. rewrite Er in Er'.
    unfold h_regex. rewrite C, G, Eh, Er'. cbn [snd c_appends c_render]. lia.
  - destruct (h_regex_run g Dn fuel order max n r x bt C G Eb Er) as (p' & st' & ss & Eh' & _ & _ & _ & _ & _ & _ & Ba & E).
    rewrite Eh in Eh'. injection Eh' as <- <-. rewrite E. cbn [snd c_appends c_render]. split.
    + etransitivity; [exact Ba|]. apply Nat.mul_le_mono_l. unfold weight. lia.
    + etransitivity; [apply render_calls_size|]. apply simplify_size.
Qed.

(** ** C82: but simplify is not linear over the DAG, nor polynomial (regex.go:226), and a
    budget does not make Regex fail fast (regex.go:18-19, README.md:142): flattening copies the parts
    before the budget is looked at.  For every polynomial there is a grammar with a rule
    whose expression has 18 bytes, and a rule whose expression is refused at once by a budget
    of one byte, where simplify appends more nodes than the polynomial of the size of the
    grammar, and in the second case render is called more often. *)
Theorem C82_linear_refuted : forall c d, exists g, wf_grammar g /\ lex_grammar g = true /\ refs_defined g /\ bounds_ordered g /\
  forall order, key_order (dependency_graph g) order -> exists enough, forall fuel, enough <= fuel ->
  (exists k, h_regex fuel g order 18 "r" = (Regex_text (bytes "[^\x00-\x{10ffff}]"), k) /\
     c * (weight g + 1) ^ d < c_appends k) /\
  (exists k, h_regex fuel g order 1 "a" = (Regex_too_large, k) /\
     c * (weight g + 1) ^ d < c_appends k /\ c * (weight g + 1) ^ d < c_render k).
Proof.
  intros c d. set (w0 := weight [] + 14). destruct (exp_beats (c * w0 ^ d) d) as [k Hk]. exists (g_dia (S k)).
  split; [apply dia_wf|]. split; [apply dia_lex|]. split; [apply dia_refs|]. split; [apply dia_bounds|]. intros order O.
  exists (S (S k)). intros fuel F.
  assert (Bd : c * (weight (g_dia (S k)) + 1) ^ d < 2 ^ k).
  { eapply Nat.le_lt_trans; [|exact Hk]. rewrite <- Nat.mul_assoc, <- Nat.pow_mul_l. apply Nat.mul_le_mono_l, Nat.pow_le_mono_l.
    unfold w0, weight. rewrite dia_size, dia_len. change ([] ++ core_rules) with core_rules. nia. }
  pose proof (dia_distinct (S k)) as Dn.
  destruct (d_simplify k) as (Sk & Fk & Nk & Ek). pose proof (pow_pos k) as Pp.
  assert (M0 : memo_ok (S k) (b_memo (mkB [] false))) by (intros i x _ H; discriminate).
  assert (Rr : forall n s, build_rep (build_rule fuel (g_dia (S k))) (Rep 1 1 (ERule n)) s =
      match build_rule fuel (g_dia (S k)) n s with Some (x, s') => Some (RRepeat x 1 1, s') | None => None end) by reflexivity.
  split.
  - pose proof (no_cycle (S k) order "r" O (or_introl eq_refl)) as C.
    destruct (dia_build (S k) (S k) 0 fuel (mkB [] false) ltac:(lia) ltac:(lia) M0 eq_refl) as (st1 & E1 & _ & Er1).
    change (nm 0) with "a" in E1.
    assert (Eb : build_alt (build_rule fuel (g_dia (S k))) (rule_alt dead_rule) (mkB [] false) =
      Some (RAlt [RConcat [RRepeat (d_tree (S k)) 1 1; RRepeat RNever 1 1]], st1)).
    { assert (Ec : build_cat (build_rule fuel (g_dia (S k))) [Rep 1 1 (ERule "a"); Rep 1 1 (ENum "x" StatSeries ["110000"])] (mkB [] false) =
        Some (RConcat [RRepeat (d_tree (S k)) 1 1; RRepeat RNever 1 1], st1)).
      { unfold build_cat. rewrite traverse_cons, Rr, E1, traverse_cons. reflexivity. }
      unfold build_alt. cbn [rule_alt dead_rule]. rewrite traverse_cons, Ec. reflexivity. }
    destruct (h_regex_run _ Dn fuel order 18 "r" dead_rule _ st1 C (dia_dead (S k)) Eb Er1) as (p & st & ss & _ & _ & L & T & Wf & Es & _ & _ & E).
    assert (Sn : simplify (RAlt [RConcat [RRepeat (d_tree (S k)) 1 1; RRepeat RNever 1 1]]) = RNever).
    { change (simplify (RAlt [RConcat [RRepeat (d_tree (S k)) 1 1; RRepeat RNever 1 1]])) with
        (join_alt [join_concat [join_repeat (simplify (d_tree (S k))) 1 1; RNever]]). unfold join_concat.
      cbn [existsb is_never]. rewrite orb_true_r. reflexivity. }
    eexists. split; [rewrite E, Sn; reflexivity|]. cbn [c_appends]. pose proof (concat_paid _ _ _ _ _ Wf L T Es) as Pd.
    eapply Nat.lt_le_trans; [exact Bd|]. etransitivity; [|exact Pd]. cbn [map]. rewrite simplify_repeat, Sk.
    change (2 ^ k <= length (flat_map flat_part [RConcat (repeat bang (2 ^ S k)); RNever])). cbn [flat_map flat_part]. rewrite !app_nil_r, repeat_length.
    cbn [Nat.pow]. lia.
  - pose proof (no_cycle (S k) order "a" O (or_intror eq_refl)) as C. pose proof (dia_step (S k) 0 ltac:(lia)) as G.
    change (nm 0) with "a" in G.
    destruct (dia_build (S k) k 1 fuel (mkB [] false) ltac:(lia) ltac:(lia) M0 eq_refl) as (st1 & E1 & M1 & Er1).
    destruct (dia_build (S k) k 1 fuel st1 ltac:(lia) ltac:(lia) M1 Er1) as (st2 & E2 & _ & Er2).
    assert (Eb : build_alt (build_rule fuel (g_dia (S k))) (rule_alt (step_rule 0)) (mkB [] false) = Some (d_tree (S k), st2)).
    { assert (Ec : build_cat (build_rule fuel (g_dia (S k))) [Rep 1 1 (ERule (nm 1)); Rep 1 1 (ERule (nm 1))] (mkB [] false) =
        Some (RConcat [RRepeat (d_tree k) 1 1; RRepeat (d_tree k) 1 1], st2)).
      { unfold build_cat. rewrite traverse_cons, Rr, E1, traverse_cons, Rr, E2. reflexivity. }
      unfold build_alt, step_rule. cbn [rule_alt]. rewrite traverse_cons, Ec. reflexivity. }
    destruct (h_regex_run _ Dn fuel order 1 "a" (step_rule 0) _ st2 C G Eb Er2) as (p & st & ss & _ & _ & L & T & Wf & Es & _ & _ & E).
    eexists. split; [rewrite E, Sk; cbv zeta; rewrite bangs_too_large by (cbn [Nat.pow]; lia); reflexivity|]. cbn [c_appends c_render]. split.
    + pose proof (concat_paid _ _ [RRepeat (d_tree k) 1 1; RRepeat (d_tree k) 1 1] _ _ Wf L T Es) as Pd.
      eapply Nat.lt_le_trans; [exact Bd|]. etransitivity; [|exact Pd]. cbn [map]. rewrite simplify_repeat.
      assert (Jr : join_repeat (simplify (d_tree k)) 1 1 = simplify (d_tree k)) by (unfold join_repeat; rewrite Nk, Ek; reflexivity).
      rewrite Jr. unfold concat_cost. cbn [flat_map]. rewrite Fk, app_nil_r, app_length, repeat_length. lia.
    + eapply Nat.lt_le_trans; [exact Bd|]. rewrite render_calls_concat by reflexivity. etransitivity; [|apply le_S, concat_calls_len].
      rewrite repeat_length. cbn [Nat.pow]. lia.
Qed.

(** The hypotheses hold, and the bounds say something: with ten rules, 42 bodies of simplify
    append 796 nodes for a text of 18 bytes, and a budget of one byte is refused after 540
    nodes and 257 calls of render. *)
Example C82_case : let g := g_dia 8 in
  distinct_names g /\ key_order (dependency_graph g) (keys g) /\
  h_regex 30 g (keys g) 18 "r" = (Regex_text (bytes "[^\x00-\x{10ffff}]"), mkC 58 42 796 1) /\
  h_regex 30 g (keys g) 1 "a" = (Regex_too_large, mkC 53 37 540 257) /\ weight g = 144.
Proof.
  cbv zeta. split; [apply dia_distinct|]. split; [apply keys_order|]. split; [vm_compute; reflexivity|]. split; vm_compute; reflexivity.
Qed.

Print Assumptions C82_pointers_share.
Print Assumptions C82_nodes_linear.
Print Assumptions C82_written_bound.
Print Assumptions C82_linear_refuted.
Print Assumptions C82_case.
