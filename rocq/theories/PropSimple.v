(** C98: a transition graph has no edge, no entry point and no end point twice. *)
(** The definitions here without a citation are those of statements, proofs and examples; they model no code. *)
From Coq Require Import ZArith Arith String Bool List Lia.
From Verif Require Import Syntax Spec Num Check Occ Deps Dag Cycle LeftRec PropSem PropDag RecogGlue PropRecog LowerLang RegexBuild RegexSpec Graph GraphSpec GraphRun GraphClone GraphRep GraphRepeat GraphLive GraphBuild GraphAlloc GraphSimple PropGraph.
Import ListNotations.
Local Open Scope string_scope.
Local Open Scope list_scope.
Local Open Scope nat_scope.

(** All edges of a heap, one pair per item of a Nexts (transition_graph.go:28-33). *)
Definition edges (h : heap) : list (nat * nat) :=
  flat_map (fun a => match nth_error h a with Some n => map (pair a) (n_nexts n) | None => [] end) (seq 0 (length h)).
Lemma edges_in h a b : In (a, b) (edges h) <-> exists n, nth_error h a = Some n /\ In b (n_nexts n).
Proof.
  unfold edges. rewrite in_flat_map. split.
  - intros (x & _ & I). destruct (nth_error h x) as [n|] eqn:E; [|destruct I]. apply in_map_iff in I as (y & Q & I). injection Q as -> ->. exists n. auto.
  - intros (n & E & I). exists a. split; [apply in_seq; split; [lia|]; apply nth_error_Some; rewrite E; discriminate|]. rewrite E. apply in_map, I.
Qed.
Lemma edges_nodup h : simple h -> NoDup (edges h).
Proof.
  intros S. unfold edges. generalize (seq_NoDup (length h) 0). induction (seq 0 (length h)) as [|a l IH]; intros D; cbn [flat_map]; [constructor|].
  inversion D as [|? ? N D']; subst. apply nodup_keep; [|exact (IH D')|].
  - pose proof (proj1 (S a)) as Sa. unfold nexts in Sa. destruct (nth_error h a) as [n|]; [|constructor].
    induction Sa as [|b m Nb Sa IHm]; cbn [map]; constructor; [|exact IHm]. intros I. apply in_map_iff in I as (y & Q & I). injection Q as ->. contradiction.
  - intros [x y] I1 I2. destruct (nth_error h a); [|destruct I1]. apply in_map_iff in I1 as (z & Q & _). injection Q as <- <-.
    apply in_flat_map in I2 as (w & Iw & I2). destruct (nth_error h w); [|destruct I2]. apply in_map_iff in I2 as (z' & Q & _). injection Q as -> _. contradiction.
Qed.
Lemma edges_count h : simple h -> length (edges h) <= length h * length h.
Proof.
  intros S. replace (length h * length h) with (length (list_prod (seq 0 (length h)) (seq 0 (length h)))) by (rewrite prod_length, !seq_length; reflexivity). apply NoDup_incl_length; [apply edges_nodup, S|].
  intros [a b] I. apply edges_in in I as (n & E & I). apply in_prod; apply in_seq; (split; [lia|]).
  - apply nth_error_Some. rewrite E. discriminate.
  - apply (proj2 (S a)). unfold nexts. rewrite E. exact I.
Qed.
Lemma tg_neat fuel opts g g1 g2 order n t c : wf_grammar g -> transition_graph fuel opts g g1 g2 order n = TG_ok t c ->
  NoDup (tg_entry t) /\ NoDup (tg_ends t) /\ simple (tg_heap t).
Proof.
  intros Wf E. unfold transition_graph in E. destruct (get_rule n g) as [r|] eqn:G; [|discriminate].
  destruct (if o_rules opts then semval_abnf g1 g2 g else None); [discriminate|].
  destruct (rule_contains_cycle g order n) as [|[]|]; try discriminate.
  destruct (alt_graph opts (rule_graph fuel opts g) (rule_alt r) (mkT [] [] 0)) as [i o st|e| |] eqn:Ea; try discriminate.
  injection E as <- <-. exact (top_neat g opts (proj1 Wf) (proj2 (wf_occ g Wf)) fuel n r i o st G Ea).
Qed.

(** No entry point and no end point is listed twice, the empty node included, and no
    Nexts lists a node twice; every edge leads to a node of the graph.  So walking
    the lists visits each edge once, and the edges are at most the square of the
    nodes. *)
Theorem C98_no_edge_twice : forall fuel opts g g1 g2 order n t c, wf_grammar g -> transition_graph fuel opts g g1 g2 order n = TG_ok t c ->
  NoDup (tg_entry t) /\ NoDup (tg_ends t) /\ NoDup (edges (tg_heap t)) /\
  (forall a b, In (a, b) (edges (tg_heap t)) -> a < length (tg_heap t) /\ b < length (tg_heap t)) /\
  length (edges (tg_heap t)) <= length (tg_heap t) * length (tg_heap t).
Proof.
  intros fuel opts g g1 g2 order n t c Wf E. destruct (tg_neat _ _ _ _ _ _ _ _ _ Wf E) as (N1 & N2 & S).
  split; [exact N1|]. split; [exact N2|]. split; [apply edges_nodup, S|]. split; [|apply edges_count, S].
  intros a b I. apply edges_in in I as (x & Ex & I). split; [apply nth_error_Some; rewrite Ex; discriminate|]. apply (proj2 (S a)). unfold nexts. rewrite Ex. exact I.
Qed.
(** With the budget of C32, the edges are bounded by the limit of nodes too. *)
Theorem C98_edges_within_budget : forall fuel opts g g1 g2 order n t c, wf_grammar g -> slices_small g ->
  (0 < o_max opts < 2 ^ 63)%Z -> (o_threshold opts * o_max opts < 2 ^ 63)%Z -> transition_graph fuel opts g g1 g2 order n = TG_ok t c ->
  (Z.of_nat (length (edges (tg_heap t))) <= 4 * (o_max opts * o_max opts))%Z.
Proof.
  intros fuel opts g g1 g2 order n t c Wf Ss B1 B2 E. destruct (tg_neat _ _ _ _ _ _ _ _ _ Wf E) as (_ & _ & S). apply edges_count in S.
  assert (A : (Z.of_nat (length (tg_heap t)) <= 2 * o_max opts)%Z).
  { destruct (ok_shape _ _ _ _ _ _ _ _ _ Wf E) as (R & _ & K). specialize (K (conj B1 B2) Ss).
    unfold transition_graph in E. destruct (get_rule n g) as [r|] eqn:G; [|discriminate].
    destruct (if o_rules opts then semval_abnf g1 g2 g else None); [discriminate|].
    destruct (rule_contains_cycle g order n) as [|[]|]; try discriminate.
    destruct (alt_graph opts (rule_graph fuel opts g) (rule_alt r) (mkT [] [] 0)) as [i o st|e| |] eqn:Ea; try discriminate.
    injection E as <- <-. pose proof (top_paid g opts (proj1 Wf) (proj2 (wf_occ g Wf)) fuel n r i o st (conj (conj B1 B2) Ss) G Ea) as P. cbn [tg_heap] in *. lia. }
  apply Nat2Z.inj_le in S. rewrite Nat2Z.inj_mul in S. nia.
Qed.

(** Cases: a loop drawn over a loop ( *( *"a") ), copies looping on the last one
    (2*("a" ["b"])), letters of either case, and a rule named twice. *)
Definition g_loops : grammar :=
  [mkRule "r" [[Rep 0 inf (EGroup [[Rep 0 inf (ERule "x")]]); Rep 2 inf (EGroup [[Rep 1 1 (ERule "X"); Rep 1 1 (EOption [[Rep 1 1 (EChar false [98; 99]%Z)]])]])]];
   mkRule "x" [[Rep 1 1 (EChar false [97]%Z)]]].
Definition o_loops : tgoptions := mkOpts true true true 256 1000.
Definition t_loops : tgraph := match transition_graph 30 o_loops g_loops g_loops g_loops (keys g_loops) "r" with TG_ok t _ => t | _ => mkTG [] [] [] end.
Definition c_loops : Z := match transition_graph 30 o_loops g_loops g_loops g_loops (keys g_loops) "r" with TG_ok _ c => c | _ => 0%Z end.
Example C98_case_loops : wf_grammar g_loops /\ slices_small g_loops /\ (0 < o_max o_loops < 2 ^ 63)%Z /\ (o_threshold o_loops * o_max o_loops < 2 ^ 63)%Z /\
  transition_graph 30 o_loops g_loops g_loops g_loops (keys g_loops) "r" = TG_ok t_loops c_loops /\
  (length (tg_heap t_loops), length (edges (tg_heap t_loops)), length (tg_entry t_loops), length (tg_ends t_loops)) = (22, 48, 4, 4).
Proof.
  split; [apply wf_grammarb_spec; vm_compute; reflexivity|]. split; [apply slices_ok; vm_compute; reflexivity|].
  split; [cbn; lia|]. split; [cbn; lia|]. split; vm_compute; reflexivity.
Qed.

(** A case in which copies of the empty node arise on the way: an empty range followed
    by a character leaves the character as end point without entry point, and the clone
    of the rule, made when it is named again, has the empty node in place of each. *)
Definition g_lost : grammar :=
  let b v := [Rep 1 1 (ENum "x" StatRange ["32"; "31"]); Rep 1 1 (EChar true [v]%Z)] in
  [mkRule "a" [[Rep 1 1 (ERule "b")]; [Rep 1 1 (ERule "b")]]; mkRule "b" [b 120%Z; b 121%Z]].
Definition t_lost : tgraph := match transition_graph 30 o_loops g_lost g_lost g_lost (keys g_lost) "a" with TG_ok t _ => t | _ => mkTG [] [] [] end.
Definition c_lost : Z := match transition_graph 30 o_loops g_lost g_lost g_lost (keys g_lost) "a" with TG_ok _ c => c | _ => 0%Z end.
Example C98_case_lost : wf_grammar g_lost /\ transition_graph 30 o_loops g_lost g_lost g_lost (keys g_lost) "a" = TG_ok t_lost c_lost /\
  tg_ends t_lost = [Some 0; Some 1; None].
Proof. split; [apply wf_grammarb_spec; vm_compute; reflexivity|]. split; vm_compute; reflexivity. Qed.

Print Assumptions C98_no_edge_twice.
Print Assumptions C98_edges_within_budget.
Print Assumptions C98_case_loops.
Print Assumptions C98_case_lost.
