(** C32: how many nodes TransitionGraph allocates. *)
(** The definitions here are those of statements, proofs and examples; they model no code. *)
From Coq Require Import ZArith Arith String Bool List Lia.
From Verif Require Import Syntax Spec Num Check Occ Deps Dag Cycle LeftRec PropSem PropDag RecogGlue PropRecog LowerLang RegexBuild RegexSpec Graph GraphSpec GraphRun GraphRepeat GraphBuild GraphAlloc PropGraph.
Import ListNotations.
Local Open Scope string_scope.
Local Open Scope list_scope.
Local Open Scope Z_scope.

(** All the nodes allocated, those left behind as originals of clones or made twice
    for one original included, are at most twice the count kept, itself within the
    budget: the limit of nodes bounds the memory of the construction. *)
Theorem C32_allocations_twice_partial : forall fuel opts g g1 g2 order n t c, wf_grammar g -> slices_small g ->
  0 < o_max opts < 2 ^ 63 -> o_threshold opts * o_max opts < 2 ^ 63 ->
  transition_graph fuel opts g g1 g2 order n = TG_ok t c ->
  Z.of_nat (length (tg_heap t)) <= 2 * c <= 2 * o_max opts.
Proof.
  intros fuel opts g g1 g2 order n t c Wf Ss B1 B2 E. destruct (ok_shape _ _ _ _ _ _ _ _ _ Wf E) as (R & _ & K). specialize (K (conj B1 B2) Ss).
  split; [|lia]. unfold transition_graph in E. destruct (get_rule n g) as [r|] eqn:G; [|discriminate].
  destruct (if o_rules opts then semval_abnf g1 g2 g else None); [discriminate|].
  destruct (rule_contains_cycle g order n) as [|[]|]; try discriminate.
  destruct (alt_graph opts (rule_graph fuel opts g) (rule_alt r) (mkT [] [] 0)) as [i o st|e| |] eqn:Ea; try discriminate.
  injection E as <- <-. exact (top_paid g opts (proj1 Wf) (proj2 (wf_occ g Wf)) fuel n r i o st (conj (conj B1 B2) Ss) G Ea).
Qed.

(** A case close to the bound: ten copies of six optional letters count 72
    nodes and allocate 116. *)
Definition g_copies : grammar :=
  [mkRule "a" [[Rep 10 10 (EGroup [map (fun v => Rep 0 inf (EChar true [v])) [97; 98; 99; 100; 101; 102]])]]].
Definition o_copies : tgoptions := mkOpts true true true 256 72.
Definition t_copies : tgraph := match transition_graph 30 o_copies g_copies g_copies g_copies (keys g_copies) "a" with TG_ok t _ => t | _ => mkTG [] [] [] end.
Example C32_case_allocations : wf_grammar g_copies /\ slices_small g_copies /\ 0 < o_max o_copies < 2 ^ 63 /\
  o_threshold o_copies * o_max o_copies < 2 ^ 63 /\
  transition_graph 30 o_copies g_copies g_copies g_copies (keys g_copies) "a" = TG_ok t_copies 72 /\ length (tg_heap t_copies) = 116%nat.
Proof.
  split; [apply wf_grammarb_spec; vm_compute; reflexivity|]. split; [apply slices_ok; vm_compute; reflexivity|].
  split; [cbn; lia|]. split; [cbn; lia|]. split; vm_compute; reflexivity.
Qed.

Print Assumptions C32_allocations_twice_partial.
Print Assumptions C32_case_allocations.
