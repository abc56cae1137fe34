(** Claim C79: the cost of the queries on a parse forest. *)
(** The definitions here without a citation are those of statements, proofs and examples; they model no code. *)
From Coq Require Import ZArith Arith String Bool List Permutation Lia.
From Verif Require Import Syntax Spec Utf8 Num Term Printer Slots Gll GllUniv Bsr BsrProof BsrTerm Sppf SppfProof
  LowerProof LowerLang LowerBudget Check PropGll ParseAbnf TreeSpec Tree TreeProof TreeSound TreeCount PropTree PropNodes
  Cost CostProof PropCost QueryCost QueryCostProof QueryCostLow.
Import ListNotations.
Local Open Scope string_scope.
Local Open Scope list_scope.
Local Open Scope nat_scope.

(** The size of a forest: its nodes and the children in their packs. *)
Definition forest_links (f : forest) : nat := list_sum (map (fun x => length (concat (snd x))) (f_nodes f)).
Definition forest_size (f : forest) : nat := length (f_nodes f) + forest_links f.
(** The nodes of a tree. *)
Fixpoint tree_size (t : ptree) : nat := match t with PT _ _ _ cs => S (list_sum (map tree_size cs)) end.

Lemma order_in {A} (ord : nat -> list A -> list A) : map_order ord -> forall t l x, In x (ord t l) <-> In x l.
Proof. intros O t l x. split; apply Permutation_in; [apply O|apply Permutation_sym, O]. Qed.

(** What the proofs use of a parse. *)
Lemma forest_run ord fuel input g root ms mn f : map_order ord -> parse_forest ord fuel input g root ms mn = PF_ok f ->
  compile_slots g root ms fuel = CS_ok (f_sg f) /\ forest_core input f /\ NoDup (map fst (f_nodes f)) /\
  divides (f_nodes f) /\ few (f_nodes f) (2 * nS (f_sg f) + 1) /\
  length (f_nodes f) <= (2 * nS (f_sg f) + 1) * (S (length input) * S (length input)) /\
  forest_links f <= 2 * (length (f_nodes f) * (nS (f_sg f) * S (length input))).
Proof.
  intros O E. assert (AO : any_order ord) by (intros t l x; apply order_in; auto).
  pose proof (forest_core_ok _ _ _ _ _ _ _ _ AO E) as FC.
  apply parse_forest_ok in E as (C & st & B & A & _ & Nd & _). destruct (compile_ok_represents _ _ _ _ _ C) as [idx Rp].
  destruct (forest_cost (f_sg f) input mn ord O (nonempty _ _ _ _ Rp) (shape _ _ _ _ Rp) (start_plain _ _ _ _ Rp) fuel)
    as (ps & bs & m & HR & G & K & Ex & _). apply Ex in B. subst ps. rewrite Nd.
  split; auto. split; auto. split; [apply K|]. split; [eapply divides_ok; eauto|]. split; [eapply few_ok; eauto|].
  split; [exact (nodes_len (f_sg f) input st bs HR G K)|].
  pose proof (packs_len (p_nodes st) _ (proj1 K) (packs_bounded (f_sg f) input st bs HR G)) as P.
  pose proof (links_le (f_nodes f)) as L. rewrite Nd in L. specialize (L (proj1 K)).
  pose proof (fc_shape _ _ FC) as PS. rewrite Nd in PS. specialize (L PS).
  unfold forest_links. rewrite Nd. fold (links (p_nodes st)). lia.
Qed.

(** ** Nodes, Ambiguous and NumTrees: linear in the forest, cubic in the input *)
(** Each query answers, and its closure is called at most once for the root and once for
    each child in a pack. *)
Theorem C79_walks_linear : forall ord fuel input g root max_slots max_nodes f, map_order ord ->
  parse_forest ord fuel input g root max_slots max_nodes = PF_ok f ->
  forall fuel', length (f_nodes f) < fuel' ->
  (exists c, f_count_nodes fuel' f = Some c) /\ nodes_steps fuel' f <= 1 + forest_links f /\
  (exists b, f_ambiguous fuel' f = Some b) /\ ambiguous_steps fuel' f <= 1 + forest_links f /\
  (exists v, f_num_trees fuel' f = Some v) /\ num_trees_steps fuel' f <= 1 + forest_links f.
Proof.
  intros ord fuel input g root ms mn f O E fuel' F.
  destruct (forest_run _ _ _ _ _ _ _ _ O E) as (_ & FC & N & _). destruct FC as [PS TP FU CL FE ND Rt Kn].
  unfold f_count_nodes, nodes_steps, f_ambiguous, ambiguous_steps, f_num_trees, num_trees_steps.
  rewrite Rt. destruct (f_valid f) eqn:V; [|split; [eauto|split; [lia|split; [eauto|split; [lia|split; [eauto|lia]]]]]].
  set (r := NSym (sg_start (f_sg f)) 0 (length input)) in *. assert (Kr : known r (f_nodes f)) by (apply Kn; auto).
  assert (S0 : seen_ok (f_nodes f) []) by (split; [constructor|intros x []]).
  destruct (proj1 (walk_total (f_nodes f) CL fuel') r [] Kr S0 ltac:(cbn; lia)) as (s1 & W & _).
  destruct (proj1 (amb_total (f_nodes f) CL fuel') r [] Kr S0 ltac:(cbn; lia)) as (b & s2 & A & _).
  destruct (count_total (f_nodes f) CL fuel' r [] ([], false) Kr S0 ltac:(cbn; lia)) as (v & [mm inf] & C).
  destruct (nc_bound (f_nodes f) fuel' r [] s1 ltac:(constructor) W) as [N1 B1].
  destruct (ac_bound (f_nodes f) fuel' r [] b s2 ltac:(constructor) A) as [N2 B2].
  destruct (cc_bound (f_nodes f) fuel' r [] ([], false) v (mm, inf) ltac:(constructor) C) as (N3 & _ & B3).
  apply (wt_le (f_nodes f) _ N) in N1, N2, N3. change (links (f_nodes f)) with (forest_links f) in *.
  change (wt (f_nodes f) (ckeys ([], false))) with 0 in B3. change (wt (f_nodes f) []) with 0 in B1, B2. rewrite W, A, C.
  split; [eauto|]. split; [lia|]. split; [eauto|]. split; [lia|]. split; [eauto|]. lia.
Qed.

Theorem C79_walks_cubic : forall g root, exists K, forall ord fuel input max_slots max_nodes f, map_order ord ->
  parse_forest ord fuel input g root max_slots max_nodes = PF_ok f ->
  forall fuel', length (f_nodes f) < fuel' ->
  nodes_steps fuel' f + ambiguous_steps fuel' f + num_trees_steps fuel' f <= K * (length input + 1) ^ 3.
Proof.
  intros g root. destruct (one_lowering g root) as [sg0 U]. exists (3 * (1 + 2 * ((2 * nS sg0 + 1) * nS sg0))).
  intros ord fuel input ms mn f O E fuel' F.
  destruct (C79_walks_linear _ _ _ _ _ _ _ _ O E fuel' F) as (_ & A & _ & B & _ & C).
  destruct (forest_run _ _ _ _ _ _ _ _ O E) as (Cs & _ & _ & _ & _ & Ln & Lk). pose proof (U _ _ _ Cs). subst sg0.
  replace ((length input + 1) ^ 3) with (S (length input) * S (length input) * S (length input)) by (cbn [Nat.pow]; nia).
  set (n := S (length input)) in *. set (q := nS (f_sg f)) in *.
  assert (X : forest_links f <= 2 * ((2 * q + 1) * q) * (n * n * n)).
  { etransitivity; [exact Lk|]. etransitivity; [apply Nat.mul_le_mono_l, Nat.mul_le_mono_r; exact Ln|].
    apply Nat.eq_le_incl. ring. }
  assert (Y : 1 <= n * n * n) by (unfold n; nia). set (c := n * n * n) in *. set (p := 2 * ((2 * q + 1) * q)) in *. nia.
Qed.

(** ** Tree: linear in the input *)
Theorem C79_tree_linear : forall g root, exists K, forall ord fuel input max_slots max_nodes f fuel', map_order ord ->
  parse_forest ord fuel input g root max_slots max_nodes = PF_ok f ->
  tree_steps fuel' f <= K * (length input + 1).
Proof.
  intros g root. destruct (one_lowering g root) as [sg0 U]. set (M := 2 * nS sg0 + 1).
  exists (DD M + (M + 1) * (2 + EE M) + EE M).
  intros ord fuel input ms mn f fuel' O E.
  destruct (forest_run _ _ _ _ _ _ _ _ O E) as (Cs & FC & _ & DV & FW & _). pose proof (U _ _ _ Cs). subst sg0. fold M in FW.
  destruct FC as [PS TP FU CL FE ND Rt Kn]. unfold tree_steps. rewrite Rt. destruct (f_valid f) eqn:V; [|lia].
  set (r := NSym (sg_start (f_sg f)) 0 (length input)) in *. assert (Kr : known r (f_nodes f)) by (apply Kn; auto).
  etransitivity; [apply (tc_bound (f_nodes f) M DV FW CL FE fuel' r [r] [r] Kr (chain_one (f_nodes f) r Kr))|].
  unfold len. cbn [r n_start n_end]. rewrite Nat.sub_0_r. destruct (length input) as [|n] eqn:Ln.
  - pose proof (bb0_le M (M - length [r]) ltac:(lia)). lia.
  - cbn [BB length]. set (e := 2 + EE M). assert ((M - 1 + 1) * e <= (M + 1) * e) by (apply Nat.mul_le_mono_r; lia).
    set (d := DD M) in *. set (x := (M + 1) * e) in *. set (y := EE M) in *.
    replace ((d + x + y) * (S n + 1)) with (n * d + x + (2 * d + x * n + x + y * (n + 2))) by ring. lia.
Qed.

(** ** Tree: not polynomial in the forest *)
(** The documented bound (sppf.go:22-23) does not hold of the extraction: the constant above
    is exponential in the grammar, as the tree repeats what the forest shares.  No polynomial
    in the size of the forest bounds the tree of a = aa aa, aa = aaa aaa, ... on the empty
    input, whatever order Go ranges over its maps in. *)
Theorem C79_tree_refuted : forall c d, exists g root input, wf_grammar g /\ lex_grammar g = true /\
  forall ord, map_order ord -> exists enough, forall fuel, enough <= fuel ->
  exists f, parse_forest ord fuel input g root 0 0 = PF_ok f /\
  forall fuel', length (f_nodes f) <= fuel' -> exists t, f_tree fuel' f = Some (Some t) /\
    c * (forest_size f + 1) ^ d < tree_size t <= 1 + tree_steps fuel' f.
Proof.
  intros c d. destruct (exp_beats c (2 * d)) as [k Hk]. exists (g_tower k), "a", []. pose proof (tower_wf k) as Wf. pose proof (tower_lex k) as Lx.
  split; auto. split; auto. intros ord O. assert (AO : any_order ord) by (intros t l x; apply order_in; auto).
  destruct (C07_forest_terminates ord [] (g_tower k) "a" 0 0 AO) as [en En]. exists (Nat.max (S k) en). intros fuel F.
  specialize (En fuel ltac:(lia)). destruct (tower_compile k fuel ltac:(lia)) as (sg & C & Ns).
  assert (E : exists f, parse_forest ord fuel [] (g_tower k) "a" 0 0 = PF_ok f).
  { unfold parse_forest in *. rewrite C in *. destruct (p_parse sg [] 0 ord fuel) as [ps|] eqn:P; [|congruence].
    rewrite (parse_live sg [] 0 ord ltac:(lia) fuel ps P). eauto. }
  destruct E as [f E]. exists f. split; auto.
  destruct (forest_run _ _ _ _ _ _ _ _ O E) as (Cs & _ & _ & _ & _ & Ln & Lk). rewrite C in Cs. injection Cs as Esg.
  rewrite <- Esg in Ln, Lk.
  assert (V : f_valid f = true).
  { destruct (C05_forest_valid_exact_partial _ _ _ _ _ _ _ _ AO Wf Lx (PrintInj.flags_told_apart _ (tower_flags k)) E) as [_ V]. apply V. apply tower_lang. }
  intros fuel' F'. destruct (C11_tree_is_derivation_partial _ _ _ _ _ _ _ _ AO Wf Lx (PrintInj.flags_told_apart _ (tower_flags k)) E) as [_ T].
  destruct (T V fuel' F') as (r & ts & Et & _ & _ & D & _). eexists. split; [exact Et|].
  assert (TS : forall t, tree_size t = tsize t) by reflexivity. rewrite TS.
  pose proof (tower_tree k (spans_word (g_tower k) [])) as TT.
  assert (One : forall e i j n, spans_word (g_tower k) [] (Rep 1 1 e) i j n -> n = 1) by (intros e i j n (_ & H); apply H; reflexivity).
  specialize (TT One k 0 0 0 _ ltac:(lia) D). unfold tsizes in TT. cbn [map list_sum fold_right] in TT. rewrite Nat.add_0_r in TT.
  split.
  - eapply Nat.lt_le_trans; [|exact TT]. eapply Nat.le_lt_trans; [|exact Hk]. apply Nat.mul_le_mono_l.
    rewrite Nat.pow_mul_r. apply Nat.pow_le_mono_l. unfold forest_size. cbn [length] in *.
    set (q := nS sg) in *. set (l := length (f_nodes f)) in *. cbn [Nat.pow]. nia.
  - unfold f_tree in Et. unfold tree_steps. destruct (f_root f) as [rt|] eqn:Rt; [|discriminate].
    unfold emit_symbol in Et. destruct (collect (f_sg f) (f_nodes f) fuel' rt [rt]) as [us|] eqn:Eu; [|discriminate]. injection Et as E1 E2 E3 E4.
    subst us. cbn [tsize]. apply le_n_S.
    destruct (packs (f_nodes f) rt) as [|p q] eqn:P.
    + destruct fuel' as [|f1]; [discriminate|]. rewrite collect_S in Eu. rewrite P in Eu.
      assert (exists X s e, rt = NSym X s e) as (X & s & e & ->).
      { pose proof (forest_core_ok _ _ _ _ _ _ _ _ AO E) as FC. rewrite (fc_root _ _ FC), V in Rt. injection Rt as <-. eauto. }
      injection Eu as <-. cbn. lia.
    + apply (collect_size (f_sg f)); auto. congruence.
Qed.

(** Concretely: three inputs of s = s s / "a", and the towers of height 4 and 6. *)
Example C79_case : map_order (fun _ (l : list nkey) => rev l) /\
  map (fun n => match parse_forest (fun _ l => rev l) 1000 (repeat 97%Z n) g_double "s" default_max_slots 0 with
                | PF_ok f => (forest_links f, nodes_steps 100 f, ambiguous_steps 100 f, num_trees_steps 100 f, tree_steps 100 f)
                | _ => (0, 0, 0, 0, 0)
                end) [2; 4; 6] = [(4, 5, 5, 5, 4); (24, 25, 1, 25, 10); (76, 77, 1, 77, 16)] /\
  map (fun k => match parse_forest (fun _ l => rev l) 1000 [] (g_tower k) "a" 0 0 with
                | PF_ok f => (forest_size f, tree_steps 100 f)
                | _ => (0, 0)
                end) [4; 6] = [(15, 46); (21, 190)].
Proof.
  split; [intros t l; apply Permutation_sym, Permutation_rev|]. split; vm_compute; reflexivity.
Qed.
Print Assumptions C79_walks_linear.
Print Assumptions C79_walks_cubic.
Print Assumptions C79_tree_linear.
Print Assumptions C79_tree_refuted.
