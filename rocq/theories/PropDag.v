(** C20, C21: cycles of references. *)
(** The definitions here are those of statements, proofs and examples; they model no code. *)
From Coq Require Import ZArith Arith String Bool Relations Sorted List Lia.
From Verif Require Import Syntax Spec Deps Dag Cycle LowerLang PropTerm PropSem.
Import ListNotations.
Local Open Scope string_scope.
Local Open Scope list_scope.

(** The definition of [n] refers to [m]. *)
Definition gref (g : grammar) (n m : string) : Prop :=
  exists a k, resolves g n a /\ refers a k /\ same_name k m.

(** An order in which Go may iterate the dependency graph: all its keys. *)
Definition key_order (dg : depgraph) (order : list string) : Prop :=
  forall x, In x order <-> In x (map fst dg).

Lemma get_rule_resolves g n : distinct_names g ->
  (forall r, get_rule n g = Some r -> resolves g n (rule_alt r)) /\
  (forall a, resolves g n a -> exists r, get_rule n g = Some r /\ rule_alt r = a).
Proof.
  intros D. unfold get_rule, get_rule_core, get_rule_in. split.
  - intros r. destruct (find _ g) as [r'|] eqn:F.
    + intros H; inversion H; subst. apply find_some in F as [A B]. left. exists r. split; auto. split; auto. apply equal_fold_iff; auto.
    + intros H. apply find_some in H as [A B]. right. split.
      * intros x I S. apply equal_fold_iff in S. eapply find_none in F; [|exact I]. cbn in F. congruence.
      * exists r. split; auto. split; auto. apply equal_fold_iff; auto.
  - assert (U : forall l r, distinct_names l -> In r l -> same_name n (rule_name r) -> find (fun r => equal_fold n (rule_name r)) l = Some r).
    { clear. induction l as [|x l IH]; intros r D I S; [easy|]. unfold distinct_names in D. cbn in D.
      inversion D as [|? ? D1 D2]; subst. cbn [find]. destruct I as [->|I].
      - apply equal_fold_iff in S. rewrite S. auto.
      - destruct (equal_fold n (rule_name x)) eqn:E; auto. exfalso. apply equal_fold_iff in E. apply D1.
        apply in_map_iff. exists r. split; auto. unfold same_name in *. congruence. }
    intros a [(r & I & S & E)|(N & r & I & S & E)].
    + rewrite (U g r); eauto.
    + destruct (find _ g) as [r'|] eqn:F.
      * exfalso. apply find_some in F as [A B]. apply (N r'); auto. apply equal_fold_iff; auto.
      * rewrite (U core_rules r); eauto. apply core_distinct.
Qed.

Lemma resolves_lower g n m a : same_name n m -> resolves g n a -> resolves g m a.
Proof.
  unfold same_name. intros E [(r & I & S & R)|(N & r & I & S & R)].
  - left. exists r. split; auto. split; auto. unfold same_name in *. congruence.
  - right. split.
    + intros x Ix Sx. apply (N x); auto. unfold same_name in *. congruence.
    + exists r. split; auto. split; auto. unfold same_name in *. congruence.
Qed.

Lemma path_resolves g n m : clos_trans _ (gref g) n m -> exists a, resolves g n a.
Proof. intros P. induction P as [n m (a & k & R & _)|]; eauto. Qed.

Section Graph.
  Variable g : grammar.
  Hypothesis D : distinct_names g.
  Notation dg := (dependency_graph g).

  Lemma node_lower x : node_in dg x -> lower x = x.
  Proof.
    unfold node_in, dependency_graph.
    assert (K : forall l m, (forall k, In k (map fst m) -> lower k = k) ->
      forall k, In k (map fst (fold_left (fun m r => dg_set (lower (rule_name r)) (mkDN (rule_name r) (get_dependencies (rule_alt r))) m) l m)) -> lower k = k).
    { induction l as [|r l IH]; cbn; intros m H k; auto. apply IH. intros k'.
      assert (S : forall m : depgraph, (forall k, In k (map fst m) -> lower k = k) -> In k' (map fst (dg_set (lower (rule_name r)) (mkDN (rule_name r) (get_dependencies (rule_alt r))) m)) -> lower k' = k').
      { clear. induction m as [|[k n] m IH]; cbn; intros H I.
        - destruct I as [<-|[]]. apply lower_lower.
        - destruct (String.eqb (lower (rule_name r)) k); cbn in I; destruct I as [<-|I]; auto; try apply lower_lower. }
      apply S. auto. }
    apply K. intros k [].
  Qed.
  Lemma node_resolves n : node_in dg (lower n) <-> exists a, resolves g n a.
  Proof.
    unfold node_in. rewrite dg_get_in. rewrite C22_dependency_graph_exact by auto.
    destruct (get_rule_resolves g n D) as [A B]. split.
    - intros (nd & H). destruct (get_rule n g) as [r|] eqn:E; [|discriminate]. exists (rule_alt r). auto.
    - intros (a & H). destruct (B a H) as (r & -> & _). eauto.
  Qed.
  Lemma deps_spec n m : In (lower m) (deps_of dg (lower n)) <-> gref g n m.
  Proof.
    unfold deps_of. rewrite C22_dependency_graph_exact by auto. destruct (get_rule_resolves g n D) as [A B]. split.
    - destruct (get_rule n g) as [r|] eqn:E; cbn; [|easy]. intros H. apply get_dependencies_spec in H as (k & R & S).
      exists (rule_alt r), k. split; [auto|]. split; [auto|symmetry; exact S].
    - intros (a & k & R & F & S). destruct (B a R) as (r & -> & <-). cbn. apply get_dependencies_spec. exists k.
      split; [auto|symmetry; exact S].
  Qed.
  Lemma edge_spec n m : edge dg (lower n) (lower m) <-> gref g n m /\ exists a, resolves g m a.
  Proof. unfold edge. rewrite deps_spec, node_resolves. reflexivity. Qed.

  Lemma deps_lower_g x y : In y (deps_of dg x) -> lower y = y.
  Proof.
    unfold deps_of. destruct (dg_get x dg) as [nd|] eqn:E; [|easy].
    assert (Dx : node_in dg x) by (apply dg_get_in; eauto). apply node_lower in Dx. rewrite <- Dx in E.
    rewrite C22_dependency_graph_exact in E by auto. destruct (get_rule x g) as [r|]; inversion E; subst. cbn.
    intros I. apply get_dependencies_spec in I as (k & _ & ->). apply lower_lower.
  Qed.

  Lemma gref_lower n m n' m' : same_name n n' -> same_name m m' -> gref g n m -> gref g n' m'.
  Proof.
    intros S1 S2 (a & k & R & F & S). exists a, k. split; [eapply resolves_lower; eauto|]. split; auto.
    unfold same_name in *. congruence.
  Qed.

  Lemma path1_edge n m : clos_trans _ (gref g) n m -> (exists a, resolves g m a) -> reach1 dg (lower n) (lower m).
  Proof.
    intros P R. apply clos_trans_t1n in P. induction P as [n m E|n k m E P IH].
    - apply t_step. apply edge_spec. auto.
    - apply t_trans with (lower k); [|apply IH; exact R]. apply t_step. apply edge_spec. split; auto.
      apply clos_t1n_trans in P. apply path_resolves in P. exact P.
  Qed.
  Lemma edge_path1 x y : reach1 dg x y -> lower x = x -> clos_trans _ (gref g) x y /\ lower y = y.
  Proof.
    intros R. apply clos_trans_t1n in R. induction R as [x y E|x z y E R IH]; intros L.
    - assert (Ly : lower y = y) by (apply node_lower; apply E). split; auto. apply t_step.
      rewrite <- L, <- Ly in E. apply edge_spec in E as [E _]. exact E.
    - assert (Lz : lower z = z) by (apply node_lower; apply E). destruct (IH Lz) as [P Ly]. split; auto.
      apply t_trans with z; [|exact P]. apply t_step. rewrite <- L, <- Lz in E. apply edge_spec in E as [E _]. exact E.
  Qed.

  (** Cycles of the graph are cycles of references. *)
  Lemma cyclic_spec n : (exists y, reach dg (lower n) y /\ reach1 dg y y) <->
    exists m, clos_refl_trans _ (gref g) n m /\ clos_trans _ (gref g) m m.
  Proof.
    split.
    - intros (y & R & C). assert (Ly : lower y = y).
      { apply node_lower. clear -C. induction C as [? ? E|]; auto. apply E. }
      destruct (edge_path1 _ _ C Ly) as [C' _]. exists y. split; auto.
      destruct (reach_cases _ _ _ R) as [<-|R1].
      + (* n itself, up to case *)
        apply clos_trans_t1n in C'. inversion C' as [? E|k ? E P]; subst.
        * apply rt_step. eapply gref_lower; [| |exact E]; unfold same_name; rewrite ?lower_lower; auto.
        * apply rt_trans with k; [apply rt_step; eapply gref_lower; [| |exact E]; unfold same_name; rewrite ?lower_lower; auto|].
          apply clos_t1n_trans in P. clear -P. induction P; [apply rt_step; auto|eapply rt_trans; eauto].
      + destruct (edge_path1 _ _ R1 (lower_lower n)) as [P _].
        apply clos_trans_t1n in P. inversion P as [? E|k ? E P']; subst.
        * apply rt_step. eapply gref_lower; [| |exact E]; unfold same_name; rewrite ?lower_lower; auto.
        * apply rt_trans with k; [apply rt_step; eapply gref_lower; [| |exact E]; unfold same_name; rewrite ?lower_lower; auto|].
          apply clos_t1n_trans in P'. clear -P'. induction P'; [apply rt_step; auto|eapply rt_trans; eauto].
    - intros (m & R & C). assert (Rm : exists a, resolves g m a).
      { apply path_resolves in C. exact C. }
      exists (lower m). split; [|apply path1_edge; auto].
      apply clos_rt_rt1n in R. inversion R as [|k ? E R']; subst; [apply rt_refl|].
      assert (P : clos_trans _ (gref g) n m).
      { apply clos_rt1n_rt in R'. apply clos_rt_rtn1 in R'. clear -E R'. induction R' as [|a b E' R' IH]; [apply t_step; auto|].
        apply t_trans with a; auto. apply t_step. auto. }
      apply path1_edge in P; auto. clear -P. induction P; [apply rt_step; auto|eapply rt_trans; eauto].
  Qed.
End Graph.

(** ** C20: RuleContainsCycle answers whether a rule reachable from the given one
    lies on a cycle of references, whatever order the maps are iterated in. *)
Theorem C20_rule_contains_cycle_exact : forall g order n, distinct_names g ->
  key_order (dependency_graph g) order ->
  match rule_contains_cycle g order n with
  | RccNotFound => forall a, ~ resolves g n a
  | RccBool b => (exists a, resolves g n a) /\
      (b = true <-> exists m, clos_refl_trans _ (gref g) n m /\ clos_trans _ (gref g) m m)
  | RccStuck => False
  end.
Proof.
  intros g order n D O. unfold rule_contains_cycle. destruct (get_rule_resolves g n D) as [A B].
  destruct (get_rule n g) as [r|] eqn:G.
  2:{ intros a R. destruct (B a R) as (r & H & _). discriminate. }
  destruct (tarjan_correct (dependency_graph g) order O) as (st & -> & So & Co).
  assert (So' : forall s, In s (t_sccs st) -> is_scc (dependency_graph g) s \/ s = [hd "" order]).
  { intros s I. destruct (So s I) as [H|(r0 & rest & -> & ->)]; auto. }
  assert (Dn : node_in (dependency_graph g) (lower n)) by (apply node_resolves; auto; eauto).
  destruct (visit_exact _ _ _ (deps_lower_g g D) So' Co (lower n) Dn) as (b & vis & -> & V).
  split; [eauto|]. rewrite V. apply cyclic_spec. auto.
Qed.

(** ** C21 *)

(** IsDAG says whether a reference cycle goes through two different rules.
    Missing for the full statement: a rule that refers to itself directly. *)
Theorem C21_is_dag_partial : forall g order, distinct_names g -> key_order (dependency_graph g) order ->
  exists b, is_dag g order = Some b /\
    (b = true <-> forall n m, clos_trans _ (gref g) n m -> clos_trans _ (gref g) m n -> same_name n m).
Proof.
  intros g order D O. unfold is_dag.
  destruct (tarjan_correct (dependency_graph g) order O) as (st & -> & So & Co).
  eexists. split; [reflexivity|]. rewrite forallb_forall. split.
  - intros H n m P Q.
    assert (Rn : exists a, resolves g n a).
    { apply path_resolves in P. exact P. }
    assert (Rm : exists a, resolves g m a).
    { apply path_resolves in Q. exact Q. }
    apply path1_edge in P; auto. apply path1_edge in Q; auto.
    destruct (Co (lower n)) as (s & Is & (Ne & ND & Dm & C) & In_).
    { apply node_resolves; auto. }
    assert (T : forall x y, reach1 (dependency_graph g) x y -> reach (dependency_graph g) x y).
    { intros x y R. induction R; [apply rt_step; auto|eapply rt_trans; eauto]. }
    assert (Im : In (lower m) s) by (apply (C _ In_); auto).
    specialize (H s Is). apply Nat.leb_le in H.
    destruct s as [|a [|b s]]; cbn in H; [easy| |lia]. destruct In_ as [E1|[]], Im as [E2|[]]. unfold same_name. congruence.
  - intros H s Is. apply Nat.leb_le.
    destruct (So s Is) as [(Ne & ND & Dm & C)|(r & rest & -> & ->)]; [|cbn; auto].
    destruct s as [|a [|b s]]; cbn; auto. exfalso.
    assert (Nab : a <> b) by (inversion ND as [|? ? X Y]; subst; intros ->; apply X; left; auto).
    assert (Ib : In b (a :: b :: s)) by (right; left; auto). apply (C a (or_introl eq_refl)) in Ib as [R1 R2].
    assert (La : lower a = a) by (apply (node_lower g); apply Dm; left; auto).
    assert (Lb : lower b = b) by (apply (node_lower g); apply Dm; right; left; auto).
    destruct (reach_cases _ _ _ R1) as [E|P]; [congruence|]. destruct (reach_cases _ _ _ R2) as [E|Q]; [congruence|].
    apply edge_path1 in P as [P _]; auto. apply edge_path1 in Q as [Q _]; auto.
    apply Nab. specialize (H a b P Q). unfold same_name in H. congruence.
Qed.

(** So IsDAG is exact on grammars in which no rule refers directly to itself. *)
Theorem C21_is_dag_no_self_partial : forall g order, distinct_names g -> key_order (dependency_graph g) order ->
  (forall n m, same_name n m -> ~ gref g n m) ->
  exists b, is_dag g order = Some b /\ (b = true <-> forall n, ~ clos_trans _ (gref g) n n).
Proof.
  intros g order D O NS. destruct (C21_is_dag_partial g order D O) as (b & E & H). exists b. split; auto. rewrite H. split.
  - intros K n C. apply clos_trans_t1n in C. inversion C as [? E'|k ? E' P]; subst.
    + apply (NS n n); auto. reflexivity.
    + apply clos_t1n_trans in P. apply (NS n k); auto. apply K; auto. apply t_step. auto.
  - intros K n m P Q. exfalso. apply (K n). eapply t_trans; eauto.
Qed.

(** Grammars of the cases. *)
Definition one (n : string) : rep := Rep 1%Z 1%Z (ERule n).
Definition g_cyc : grammar :=
  [mkRule "a" [[one "B"]]; mkRule "b" [[one "b"; one "c"]]; mkRule "c" [[one "B"]; [one "ALPHA"]]; mkRule "d" [[one "ALPHA"]]].
Definition g_self : grammar := [mkRule "a" [[Rep 1%Z 1%Z (EChar true [120%Z]); one "a"]]].

Lemma g_cyc_distinct : distinct_names g_cyc.
Proof. unfold distinct_names. cbn. repeat (constructor; [cbn; intuition discriminate|]). constructor. Qed.

(** Two iteration orders, both starting in the cycle: b is emitted twice. *)
Definition ord1 := rev (map fst (dependency_graph g_cyc)).
Definition ord2 := "b" :: map fst (dependency_graph g_cyc).
Example C20_case : key_order (dependency_graph g_cyc) ord1 /\ key_order (dependency_graph g_cyc) ord2 /\
  rule_contains_cycle g_cyc ord1 "A" = RccBool true /\ rule_contains_cycle g_cyc ord2 "a" = RccBool true /\
  rule_contains_cycle g_cyc ord2 "d" = RccBool false /\ rule_contains_cycle g_cyc ord2 "zz" = RccNotFound /\
  (exists st, tarjan (dependency_graph g_cyc) ord2 = TOk st /\ In ["b"] (t_sccs st) /\ In ["c"; "b"] (t_sccs st)).
Proof.
  split; [intros x; unfold ord1; rewrite <- in_rev; reflexivity|].
  split; [intros x; unfold ord2; cbn [In]; split; [intros [<-|H]; auto; vm_compute; tauto|auto]|].
  split; [vm_compute; reflexivity|]. split; [vm_compute; reflexivity|]. split; [vm_compute; reflexivity|].
  split; [vm_compute; reflexivity|]. eexists. split; [vm_compute; reflexivity|]. vm_compute. tauto.
Qed.

Theorem C21_is_dag_refuted : exists g order n, distinct_names g /\ key_order (dependency_graph g) order /\
  is_dag g order = Some true /\ clos_trans _ (gref g) n n.
Proof.
  exists g_self, (map fst (dependency_graph g_self)), "a". split; [repeat constructor; auto|].
  split; [intros x; reflexivity|]. split; [vm_compute; reflexivity|]. apply t_step.
  exists (rule_alt (mkRule "a" [[Rep 1%Z 1%Z (EChar true [120%Z]); one "a"]])), "a". split; [|split; [|reflexivity]].
  - left. eexists. split; [left; reflexivity|]. split; reflexivity.
  - exists 1%Z, 1%Z. apply rep_in_here with (c := [Rep 1%Z 1%Z (EChar true [120%Z]); one "a"]); [left; auto|right; left; auto].
Qed.
Example C21_case : is_dag g_cyc ord1 = Some false /\ is_dag [mkRule "a" [[one "b"; one "b"]]; mkRule "b" [[one "CRLF"]]]
  (map fst (dependency_graph [mkRule "a" [[one "b"; one "b"]]; mkRule "b" [[one "CRLF"]]])) = Some true.
Proof. split; vm_compute; reflexivity. Qed.

Print Assumptions C20_rule_contains_cycle_exact.
Print Assumptions C21_is_dag_partial.
Print Assumptions C21_is_dag_no_self_partial.
Print Assumptions C21_is_dag_refuted.
