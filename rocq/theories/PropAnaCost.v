(** C83: what the analyses cost (dag.go:79-237, ast.go:99-122, generate.go:162-247). *)
From Coq Require Import ZArith Arith String Ascii Bool Relations List Lia.
From Verif Require Import Syntax Spec Utf8 Num Tape Deps Dag Cycle PropDag Occ PropTerm PropGll TreeSpec Printer LowerSize PropRegex Generate Ast AstCost
  QueryCostLow AnaCost AnaCostProof AnaCostLow.
Import ListNotations.
Local Open Scope string_scope.
Local Open Scope list_scope.
Local Open Scope nat_scope.

(** (specification) The size of a grammar and of the core rules: rules, concatenations,
    repetitions, groups, options and values, counted. *)
Definition weight (g : grammar) : nat := size g + length (g ++ core_rules).
(** (specification) All references of a dependency graph, in lower case. *)
Definition references (dg : depgraph) : list string := flat_map (fun kv => map lower (dn_deps (snd kv))) dg.

Lemma graph_length g : length (dependency_graph g) <= length (core_rules ++ g).
Proof.
  unfold dependency_graph.
  assert (S1 : forall k n m, length (dg_set k n m) <= S (length m)).
  { intros k n m. induction m as [|[k' n'] m IH]; cbn [dg_set length]; [lia|]. destruct (String.eqb k k'); cbn [length]; lia. }
  assert (H : forall l m, length (fold_left (fun m r => dg_set (lower (rule_name r)) (mkDN (rule_name r) (get_dependencies (rule_alt r))) m) l m) <= length m + length l).
  { induction l as [|r l IH]; intros m; cbn [fold_left length]; [lia|]. etransitivity; [apply IH|].
    pose proof (S1 (lower (rule_name r)) (mkDN (rule_name r) (get_dependencies (rule_alt r))) m). lia. }
  apply (H (core_rules ++ g) []).
Qed.
Lemma effective_length g : length (effective g) <= length (g ++ core_rules).
Proof.
  unfold effective. rewrite <- map_app, <- (map_length rule_name (g ++ core_rules)).
  assert (H : forall ns acc, length (effective_from g ns acc) <= length acc + length ns).
  { induction ns as [|n ns IH]; intros acc; cbn [effective_from length]; [lia|]. destruct (get_rule n g) as [r|]; [|specialize (IH acc); lia].
    etransitivity; [apply IH|]. destruct (existsb _ acc); [lia|]. rewrite app_length. cbn [length]. lia. }
  apply (H _ []).
Qed.

(** ** C83: the search for components calls strongconnect at most once for each rule, the core rules
    included, and once more (dag.go:188-237); [t_next] counts the calls (dag.go:200). *)
Theorem C83_search_linear : forall g order, key_order (dependency_graph g) order ->
  exists st, tarjan (dependency_graph g) order = TOk st /\ t_next st <= S (length (core_rules ++ g)).
Proof.
  intros g order O. destruct (tarjan_correct (dependency_graph g) order O) as (st & E & _). exists st. split; auto.
  pose proof (tarjan_calls (dependency_graph g) order st (fun x I => proj1 (O x) I) E). pose proof (graph_length g). lia.
Qed.

(** ** C83: ruleCycleVisit is called at most once for each reference of the grammar and once more (dag.go:140-147:
    "visited keeps each rule explored at most once"). *)
Theorem C83_visit_linear : forall g order n fuel st b seen, key_order (dependency_graph g) order ->
  tarjan (dependency_graph g) order = TOk st ->
  rule_cycle_visit (dependency_graph g) (t_sccs st) fuel (lower n) [] = Some (b, seen) ->
  NoDup seen /\ exists calls, rule_cycle_visits (dependency_graph g) (t_sccs st) fuel (lower n) [] = Some (b, seen, calls) /\
    calls <= S (length (references (dependency_graph g))).
Proof.
  intros g order n fuel st b seen O E V. rewrite visits_same in V.
  destruct (rule_cycle_visits _ _ fuel (lower n) []) as [[[b' v] k]|] eqn:Ev; [|discriminate]. injection V as -> ->.
  destruct (visits_bound _ _ _ _ _ _ _ _ (NoDup_nil _) Ev) as [N L]. split; auto. exists k. split; auto.
  pose proof (fans_all (dependency_graph g) seen N) as F. cbn [fans map list_sum fold_right] in L.
  assert (R : forall m, length (references m) = all_deps m).
  { induction m as [|[x y] m IH]; [reflexivity|]. change (references ((x, y) :: m)) with (map lower (dn_deps y) ++ references m).
    rewrite app_length, map_length, IH. reflexivity. }
  rewrite R. change (fans (dependency_graph g) []) with 0 in L. lia.
Qed.

(** ** C83: the loop of NewASTGenerator makes at most one pass for each rule and one more, whatever the
    order of the maps (ast.go:114-122), when no count makes a product overflow.  The bound does not depend
    on the costs, which go up to 2^30. *)
Theorem C83_passes_linear : forall g ord, (forall mn mx e, occ_rep g (Rep mn mx e) -> (0 <= mn <= 2 ^ 33)%Z) -> any_order ord ->
  exists passes m, passes <= S (length (g ++ core_rules)) /\ cost_loop passes g ord 0 (initial_costs g) = Some m.
Proof.
  intros g ord Sm Ord. destruct (passes_bound g ord Sm Ord) as (m & E). exists (S (length (effective g))), m. split; auto.
  pose proof (effective_length g). lia.
Qed.

(** ** C83: but the check before Generate is not polynomial (generate.go:162-247): it checks each alternative
    and keeps no result.  For every polynomial there is a grammar with a rule that has one word, of one byte,
    which Generate makes with at most two draws for each rule, where the check before makes more calls
    than the polynomial of the size of the grammar. *)
Theorem C83_check_polynomial_refuted : forall c d, exists g, wf_grammar g /\ lex_grammar g = true /\ refs_defined g /\ bounds_ordered g /\
  exists enough, forall fuel, enough <= fuel ->
  c * (weight g + 1) ^ d < generate_checks fuel g "a" /\
  forall rnd rep_max threshold, generate fuel rnd rep_max threshold g "a" = Gen_ok [33%Z] /\
    exists r s, get_rule "a" g = Some r /\ gen_alt fuel g rnd rep_max threshold (rule_alt r) (mkG [] 0) = G_ok s /\ g_tick s <= 2 * length g.
Proof.
  intros c d. set (w0 := weight [] + 14). destruct (exp_beats (c * w0 ^ d) d) as [k Hk]. exists (g_fork k).
  split; [apply fork_wf|]. split; [apply fork_lex|]. split; [apply fork_refs|]. split; [apply fork_bounds|].
  exists (S k). intros fuel F.
  assert (Bd : c * (weight (g_fork k) + 1) ^ d < 2 ^ k).
  { eapply Nat.le_lt_trans; [|exact Hk]. rewrite <- Nat.mul_assoc, <- Nat.pow_mul_l. apply Nat.mul_le_mono_l, Nat.pow_le_mono_l.
    unfold w0, weight. rewrite fork_size, fork_len. change ([] ++ core_rules) with core_rules. nia. }
  pose proof (fork_get k 0 ltac:(lia)) as G. change (nm 0) with "a" in G.
  destruct (fork_check k k 0 fuel ["a"] ltac:(lia) ltac:(lia)) as [C L].
  { intros x [<-|[]]. exists 0. split; auto. }
  split; [unfold generate_checks; rewrite G; lia|]. intros rnd rm thr.
  pose proof (fork_gen k rnd rm thr k 0 fuel (mkG [] 0) ltac:(lia) ltac:(lia)) as Eg. split.
  - unfold generate, check_can_generate. rewrite G, C, Eg. reflexivity.
  - eexists _, _. split; [exact G|]. split; [exact Eg|]. cbn [g_tick]. unfold g_fork. rewrite app_length, map_length, seq_length. cbn [length]. lia.
Qed.

(** *** Concrete cases *)
(** a = b, b = a / %s"!": strongconnect is called twice on the first rule, whose index is 0. *)
Definition g83 : grammar := [mkRule "a" [[Rep 1 1 (ERule "b")]]; mkRule "b" [[Rep 1 1 (ERule "a")]; [Rep 1 1 (EChar true [33%Z])]]].
(** a = b, b = c, c = %s"!": visited in this order, the costs need a pass for each rule, and one to see that none changes. *)
Definition g83c : grammar := [mkRule "a" [[Rep 1 1 (ERule "b")]]; mkRule "b" [[Rep 1 1 (ERule "c")]]; mkRule "c" [[Rep 1 1 (EChar true [33%Z])]]].
Example C83_case :
  match tarjan (dependency_graph g83) ("a" :: "b" :: map fst (dependency_graph g83)) with TOk st => t_next st | _ => 0 end = S (length (core_rules ++ g83)) /\
  (exists st, tarjan (dependency_graph g83c) ("a" :: map fst (dependency_graph g83c)) = TOk st /\
     rule_cycle_visit (dependency_graph g83c) (t_sccs st) 9 "a" [] = Some (false, ["c"; "b"; "a"]) /\
     rule_cycle_visits (dependency_graph g83c) (t_sccs st) 9 "a" [] = Some (false, ["c"; "b"; "a"], 3)) /\
  cost_loop 3 g83c (fun _ l => l) 0 (initial_costs g83c) = None /\
  (exists m, cost_loop 4 g83c (fun _ l => l) 0 (initial_costs g83c) = Some m /\ cost_get m "a" = Some 3%Z) /\
  generate_checks 9 (g_fork 6) "a" = 127 /\ generate 9 (fun _ => 5%Z) 16 256 (g_fork 6) "a" = Gen_ok [33%Z].
Proof.
  split; [vm_compute; reflexivity|]. split; [eexists; split; [vm_compute; reflexivity|]; split; vm_compute; reflexivity|].
  split; [vm_compute; reflexivity|]. split; [eexists; split; [vm_compute; reflexivity|]; vm_compute; reflexivity|].
  split; vm_compute; reflexivity.
Qed.

Print Assumptions C83_search_linear.
Print Assumptions C83_visit_linear.
Print Assumptions C83_passes_linear.
Print Assumptions C83_check_polynomial_refuted.
Print Assumptions C83_case.
