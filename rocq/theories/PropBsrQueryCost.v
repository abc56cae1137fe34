(** Claim C85: the cost of the queries on a set of binary subtree elements. *)
(** The definitions here are those of statements, proofs and examples; they model no code. *)
From Coq Require Import ZArith Arith String Bool Permutation List Lia.
From Verif Require Import Syntax Spec Utf8 Num Term Printer Slots Gll GllUniv Bsr BsrProof BsrTerm Sppf SppfProof
  LowerProof LowerLang LowerBudget Check PropGll TreeSpec Tree TreeSound PropTree Cost CostProof PropCost QueryCostLow
  Codegen CodegenStmt CodegenProof CodegenGlue BsrTree BsrTreeSim BsrCount BsrTreeProof BsrOrder PropCodegen PropBsrTree PropOrder PropCodegenTree
  BsrQueryCost BsrQueryCostProof BsrQueryCostSim BsrTower.
Import ListNotations.
Local Open Scope string_scope.
Local Open Scope list_scope.
Local Open Scope nat_scope.

(** The nodes of a tree. *)
Fixpoint tree_size (t : ptree) : nat := match t with PT _ _ _ cs => S (list_sum (map tree_size cs)) end.

Lemma order_any {A} (ord : nat -> list A -> list A) : map_order ord -> forall t l x, In x (ord t l) <-> In x l.
Proof. intros O t l x. split; apply Permutation_in; [apply O|apply Permutation_sym, O]. Qed.
Lemma set_cubic ord fuel input g root ms mn sg set : map_order ord -> parse_bsr ord fuel input g root ms mn = BSR_ok sg set ->
  length set <= nS sg * (S (length input) * S (length input) * S (length input)).
Proof.
  intros O E. apply parse_bsr_ok in E as (C & st & B & _ & ->). destruct (compile_ok_represents _ _ _ _ _ C) as [idx Rp].
  apply (bsr_sizes sg input mn (fun t _ l => ord t l) (fun t _ l => O t l) (shape _ _ _ _ Rp) (start_plain _ _ _ _ Rp) fuel st B).
Qed.

Lemma drop_sizes : forall ts, tsizes (flat_map drop_empty ts) <= tsizes ts.
Proof.
  assert (L : forall t, tsizes (drop_empty t) <= tsize t).
  { fix IH 1. intros [nm a b cs]. assert (X : tsizes (flat_map drop_empty cs) <= tsizes cs).
    { induction cs as [|t cs IHc]; [cbn; lia|]. cbn [flat_map]. rewrite tsizes_app. specialize (IH t).
      change (tsizes (t :: cs)) with (tsize t + tsizes cs). lia. }
    cbn [drop_empty]. destruct (_ && _ && _)%bool; [cbn; lia|]. unfold tsizes at 1. cbn [map list_sum fold_right tsize]. fold (tsizes (flat_map drop_empty cs)) (tsizes cs). lia. }
  induction ts as [|t ts IH]; [cbn; lia|]. cbn [flat_map]. rewrite tsizes_app. specialize (L t). change (tsizes (t :: ts)) with (tsize t + tsizes ts). lia.
Qed.

(** ** NumTrees and Ambiguous: linear in the set, cubic in the input *)
(** Each query answers, and its closures are called at most three times for each element of
    the set, and once. *)
Theorem C85_walks_linear : forall ord fuel input g root max_slots max_nodes sg set set' fuel', any_order ord ->
  parse_bsr ord fuel input g root max_slots max_nodes = BSR_ok sg set -> Permutation set set' -> length set < fuel' ->
  (exists v, bf_num_trees sg set' (length input) fuel' = QVal v) /\
  bf_num_trees_steps sg set' (length input) fuel' <= 1 + 3 * length set /\
  (exists b, bf_ambiguous sg set' (length input) fuel' = QVal b) /\
  bf_ambiguous_steps sg set' (length input) fuel' <= 1 + 3 * length set.
Proof.
  intros ord fuel input g root ms mn sg set set' fuel' O E P F.
  destruct (bsr_answers _ _ _ _ _ _ _ _ _ _ _ O E P F) as (v & b & Ev & Eb).
  destruct (iworld_some _ _ _ _ _ _ _ _ _ _ O E P) as (nodes & H). rewrite (Permutation_length P) in *.
  split; [eauto|]. unfold bf_num_trees_steps, bf_ambiguous_steps. rewrite (w_valid _ _ _ _ H).
  destruct (bsr_valid sg (length input) set') eqn:V; [|split; [lia|]; split; [eauto|lia]].
  destruct (count_runs _ _ _ _ H V _ F) as (v1 & st & C & _). destruct (amb_runs _ _ _ _ H V _ F) as (b1 & s & A & _).
  pose proof (rt_U _ _ _ _ H V) as U0. pose proof (U_kids_ok sg input nodes set' (w_tbl _ _ _ _ H) (w_ok _ _ _ _ H)) as Uk.
  destruct (qcc_bound slot slot_eq_dec _ _ _ _ (U nodes) Uk fuel' _ [] ([], false) v1 st U0 ltac:(constructor) ltac:(constructor) C) as (N1 & F1 & _ & B1).
  destruct (qca_bound slot slot_eq_dec _ _ _ _ (U nodes) Uk fuel' _ [] b1 s U0 ltac:(constructor) ltac:(constructor) A) as (N2 & F2 & B2).
  apply (wt_le sg nodes set' (w_tbl _ _ _ _ H) (w_nd _ _ _ _ H)) in N1, N2; auto. split; [lia|]. split; [eauto|lia].
Qed.

Theorem C85_walks_cubic : forall g root, exists K, forall ord fuel input max_slots max_nodes sg set set' fuel', map_order ord ->
  parse_bsr ord fuel input g root max_slots max_nodes = BSR_ok sg set -> Permutation set set' -> length set < fuel' ->
  bf_num_trees_steps sg set' (length input) fuel' + bf_ambiguous_steps sg set' (length input) fuel' <= K * (length input + 1) ^ 3.
Proof.
  intros g root. destruct (one_lowering g root) as [sg0 Us]. exists (2 + 6 * nS sg0).
  intros ord fuel input ms mn sg set set' fuel' O E P F.
  destruct (C85_walks_linear _ _ _ _ _ _ _ _ _ _ _ (fun t l x => order_any ord O t l x) E P F) as (_ & A & _ & B).
  pose proof (set_cubic _ _ _ _ _ _ _ _ _ O E) as Sz. apply parse_bsr_ok in E as (C & _). pose proof (Us _ _ _ C). subst sg0.
  replace ((length input + 1) ^ 3) with (S (length input) * S (length input) * S (length input)) by (cbn [Nat.pow]; nia).
  assert (Y : 1 <= S (length input) * S (length input) * S (length input)) by nia.
  set (c := S (length input) * S (length input) * S (length input)) in *. set (q := nS sg) in *. nia.
Qed.

(** ** Tree: linear in the input *)
Theorem C85_tree_linear : forall g root, exists K, forall ord fuel input max_slots max_nodes sg set set' fuel', any_order ord ->
  parse_bsr ord fuel input g root max_slots max_nodes = BSR_ok sg set -> Permutation set set' ->
  bf_tree_steps sg set' (length input) fuel' <= K * (length input + 1).
Proof.
  intros g root. destruct (one_lowering g root) as [sg0 Us]. exists (BB sg0 + 2 * DD sg0).
  intros ord fuel input ms mn sg set set' fuel' O E P. destruct (iworld_some _ _ _ _ _ _ _ _ _ _ O E P) as (nodes & H).
  apply parse_bsr_ok in E as (C & _). pose proof (Us _ _ _ C). subst sg0. apply (tree_bound sg input set' (w_ok _ _ _ _ H)).
Qed.

(** ** Tree: not polynomial in the set *)
(** The constant above is exponential in the grammar, as the tree repeats what the set
    shares.  No polynomial in the number of elements bounds the tree of a = aa aa,
    aa = aaa aaa, ... on the empty input, whatever orders Go ranges over its maps in. *)
Theorem C85_tree_refuted : forall c d, exists g root input, wf_grammar g /\ lex_grammar g = true /\
  forall ord, map_order ord -> exists enough, forall fuel, enough <= fuel ->
  exists sg set, parse_bsr ord fuel input g root 0 0 = BSR_ok sg set /\
  forall set' fuel', Permutation set set' -> length set < fuel' ->
  exists t, bf_tree sg set' (length input) fuel' = QVal (Some t) /\
    c * (length set + 1) ^ d < tree_size t <= 1 + bf_tree_steps sg set' (length input) fuel'.
Proof.
  intros c d. destruct (exp_beats c d) as [k Hk]. exists (g_tower k), "a", []. pose proof (tower_wf k) as Wf. pose proof (tower_lex k) as Lx.
  split; auto. split; auto. intros ord O. assert (AO : any_order ord) by (intros t l x; apply order_any; auto).
  destruct (C07_bsr_terminates ord [] (g_tower k) "a" 0 0 AO) as [en En]. exists (Nat.max (S k) en). intros fuel F.
  specialize (En fuel ltac:(lia)). destruct (tower_compile k fuel ltac:(lia)) as (sg & C & Ns).
  assert (E : exists set, parse_bsr ord fuel [] (g_tower k) "a" 0 0 = BSR_ok sg set).
  { unfold parse_bsr in *. rewrite C in *. destruct (b_parse sg [] 0 (fun t _ l => ord t l) fuel) as [st|] eqn:B; [|congruence].
    destruct (b_aborted st) eqn:Ab; [|eauto]. destruct (bsr_abandons _ _ _ _ _ _ B Ab). lia. }
  destruct E as [set E]. exists sg, set. split; auto. intros set' fuel' P F'.
  pose proof (set_cubic _ _ _ _ _ _ _ _ _ O E) as Sz. cbn [length] in Sz.
  destruct (world_ok _ _ _ _ _ _ _ _ _ _ AO Wf Lx (PrintInj.flags_told_apart _ (tower_flags k)) E P) as (nodes & H).
  pose proof (w_lang _ _ _ _ _ _ H) as La. pose proof (proj2 La (tower_lang k)) as V.
  assert (Fl : length set' < fuel') by (rewrite <- (Permutation_length P); auto).
  assert (Nc : bf_num_trees sg set' 0 fuel' <> QVal (-1)%Z).
  { intros X. apply (num_cycle [] sg set' nodes (w_i _ _ _ _ _ _ H) V fuel' Fl) in X as (x & _ & X).
    revert X. apply no_cycle. eapply tower_compile_up; [|exact C]. lia. }
  destruct (tree_ok _ _ _ _ _ _ H V fuel' Fl Nc) as (r & ts & Et & _ & _ & D). cbn [length] in *. eexists. split; [exact Et|].
  assert (TS : forall t, tree_size t = tsize t) by reflexivity. rewrite TS. cbn [tsize]. fold (tsizes ts). split.
  - pose proof (tower_tree k (spans_word (g_tower k) [])) as TT.
    assert (One : forall e i j n, spans_word (g_tower k) [] (Rep 1 1 e) i j n -> n = 1) by (intros e i j n (_ & X); apply X; reflexivity).
    specialize (TT One k 0 0 0 _ ltac:(lia) D). unfold tsizes at 1 in TT. cbn [map tsize list_sum fold_right] in TT. rewrite Nat.add_0_r in TT.
    pose proof (drop_sizes ts) as Dz. unfold tsizes in Dz, TT |- *. eapply Nat.lt_le_trans; [|apply le_n_S; exact Dz]. eapply Nat.lt_le_trans; [|exact TT].
    eapply Nat.le_lt_trans; [|exact Hk]. apply Nat.mul_le_mono_l. apply Nat.pow_le_mono_l. lia.
  - unfold bf_tree, q_tree in Et. unfold bf_tree_steps. cbn [length] in *. destruct (q_valid _ _ _ 0) as [[]| |]; try discriminate. cbn [qbind] in Et.
    destruct (bf_complete sg (sg_start sg)) as [sls|]; [|discriminate]. cbn [of_opt qbind] in Et.
    destruct (first_elem (bf_pivots set') sls 0 0) as [[sl k0]|]; [|discriminate].
    destruct (collect_elem slot_eq_dec _ _ _ _ _ _ fuel' sl 0 k0 0 []) as [us| |] eqn:Eu; try discriminate. cbn [qbind] in Et.
    destruct (bf_rule_name sg (sg_start sg)); [|discriminate]. cbn [of_opt qbind] in Et. injection Et as _ ->.
    apply collect_elem_size in Eu. lia.
Qed.

(** ** The Result of an emitted parser *)
Lemma result_run gord g root fuel pg input mx f gset gs : wf_grammar g -> rune_values g -> any_order gord ->
  generate_go_parser fuel g root = Gen_ok pg -> g_parse input mx gord pg f = GP_ok gset ->
  (mx <= 0 \/ Z.of_nat (length gset) < mx)%Z -> Permutation gset gs ->
  exists sg set set' f', parse_bsr (nat_order gord) f' input g root 0 mx = BSR_ok sg set /\ Permutation set set' /\ length gset = length set /\
    forall n qf, gr_num_trees_steps pg gs n qf = bf_num_trees_steps sg set' n qf /\ gr_ambiguous_steps pg gs n qf = bf_ambiguous_steps sg set' n qf /\
      gr_tree_steps pg gs n qf = bf_tree_steps sg set' n qf.
Proof.
  intros W Rv O G P Bd Pg. destruct (gen_inv _ _ _ _ G) as (sg & C & Em).
  destruct (run_same fuel g root pg sg input mx gord W Rv O C Em) as (ids & slots & As & Ok & Run). specialize (Run f).
  destruct (b_parse sg input mx (fun t _ l => nat_order gord t l) f) as [st|] eqn:B; [|congruence]. destruct Run as (V & P' & A). rewrite P in P'.
  destruct (b_work st); [|discriminate]. injection P' as ->. rewrite map_length in Bd.
  assert (Ab : b_aborted st = false).
  { destruct (b_aborted st) eqn:Ab; auto. destruct (bsr_abandons _ _ _ _ _ _ B Ab). lia. }
  destruct (perm_map_inv _ _ _ Pg) as (s0 & P0 & ->). exists sg, (b_set st), s0, (Nat.max fuel f). split.
  { apply (bsr_free _ _ _ _ _ default_max_slots). unfold parse_bsr. rewrite (compile_mono g root default_max_slots fuel) by (try lia; congruence). rewrite C.
    unfold b_parse in *. rewrite (b_run_mono _ _ _ _ f (Nat.max fuel f) _ st B) by lia. rewrite Ab. reflexivity. }
  split; auto. split; [apply map_length|].
  assert (V0 : Forall (fun e => vslot sg (be_slot e)) s0).
  { apply Forall_forall. intros e I. pose proof (v_set _ _ _ V) as Vs. rewrite Forall_forall in Vs. apply Vs. eapply Permutation_in; [apply Permutation_sym; exact P0|exact I]. }
  intros n qf. pose proof (start_same sg ids slots pg As Em) as St.
  pose proof (coded_eq sg ids slots As) as Q1. pose proof (coded_prod sg ids slots pg As Em) as Q2. pose proof (coded_before sg ids slots As) as Q3.
  pose proof (coded_complete sg ids slots pg As Em) as Q4. pose proof (coded_pivots sg ids slots As s0 V0) as Q5.
  pose proof (valid_same _ _ (coded sg ids) _ _ _ _ (sg_start sg) n Q4 Q5) as Va.
  unfold bf_num_trees_steps, bf_ambiguous_steps, bf_tree_steps, gr_num_trees_steps, gr_ambiguous_steps, gr_tree_steps. rewrite St, <- Va.
  destruct (q_valid (bf_complete sg) (bf_pivots s0) (sg_start sg) n) as [[]| |]; auto.
  split; [|split].
  - symmetry. apply (qc_count_same _ _ (coded sg ids)); auto; [cbn; auto|split; cbn; auto].
  - symmetry. apply (qc_amb_same _ _ (coded sg ids)); auto. cbn; auto.
  - pose proof (Q4 (sg_start sg)) as Cs. destruct (bf_complete sg (sg_start sg)) as [sls|], (gr_complete pg (sg_start sg)) as [sls'|]; cbn [orel] in Cs; try contradiction; auto.
    pose proof (first_same _ _ (coded sg ids) _ _ Q5 _ _ 0 n Cs) as Fe.
    destruct (first_elem (bf_pivots s0) sls 0 n) as [[e ke]|], (first_elem (gr_pivots (map (ee ids) s0)) sls' 0 n) as [[e' ke']|]; cbn [orel] in Fe; try contradiction; auto.
    destruct Fe as [E1 E2]. cbn [fst snd] in E1, E2. subst ke'. symmetry. apply (qc_collect_same _ _ (coded sg ids)); auto.
Qed.

(** The same bounds on a Result that does not come from an exhausted budget (see C43):
    three calls for each element, and a constant for each byte. *)
Theorem C85_result_linear : forall g root, exists K, forall gord fuel pg input mx f gset gs qf,
  wf_grammar g -> rune_values g -> any_order gord ->
  generate_go_parser fuel g root = Gen_ok pg -> g_parse input mx gord pg f = GP_ok gset ->
  (mx <= 0 \/ Z.of_nat (length gset) < mx)%Z -> Permutation gset gs -> length gset < qf ->
  gr_num_trees_steps pg gs (length input) qf <= 1 + 3 * length gset /\
  gr_ambiguous_steps pg gs (length input) qf <= 1 + 3 * length gset /\
  gr_tree_steps pg gs (length input) qf <= K * (length input + 1).
Proof.
  intros g root. destruct (C85_tree_linear g root) as [K HK]. exists K. intros gord fuel pg input mx f gset gs qf W Rv O G P Bd Pg Q.
  destruct (result_run _ _ _ _ _ _ _ _ _ _ W Rv O G P Bd Pg) as (sg & set & set' & f' & E & Ps & Ln & Eq).
  destruct (Eq (length input) qf) as (-> & -> & ->). rewrite Ln in *.
  destruct (C85_walks_linear _ _ _ _ _ _ _ _ _ _ _ (nat_order_any gord O) E Ps Q) as (_ & A & _ & B). split; auto. split; auto.
  eapply HK; eauto using nat_order_any.
Qed.

(** Concretely: three inputs of s = s s / "a", the towers of height 4 and 6, and the emitted
    parser of the first grammar.  The third number of the second and third inputs is 1: the
    root has two elements, so that Ambiguous stops there. *)
Example C85_case : wf_grammar g_double /\ rune_values g_double /\ map_order (fun _ (l : list nat) => rev l) /\
  map (fun n => match parse_bsr (fun _ l => rev l) 1000 (repeat 97%Z n) g_double "s" default_max_slots 0 with
                | BSR_ok sg set => (length set, bf_num_trees_steps sg set n 100, bf_ambiguous_steps sg set n 100, bf_tree_steps sg (rev set) n 100)
                | _ => (0, 0, 0, 0)
                end) [2; 4; 6] = [(3, 6, 6, 7); (14, 35, 1, 17); (41, 112, 1, 27)] /\
  map (fun k => match parse_bsr (fun _ l => rev l) 1000 [] (g_tower k) "a" 0 0 with
                | BSR_ok sg set => (length set, bf_tree_steps sg set 0 100)
                | _ => (0, 0)
                end) [4; 6] = [(5, 77); (7, 317)] /\
  match generate_go_parser 100 g_double "s" with
  | Gen_ok pg => match g_parse (repeat 97%Z 4) 0 (fun _ l => l) pg 1000 with
                 | GP_ok gs => (length gs, gr_num_trees_steps pg gs 4 100, gr_ambiguous_steps pg gs 4 100, gr_tree_steps pg gs 4 100)
                 | _ => (0, 0, 0, 0)
                 end
  | _ => (0, 0, 0, 0)
  end = (14, 35, 1, 17).
Proof.
  split; [gwf|]. split; [grunes|]. split; [intros t l; apply Permutation_sym, Permutation_rev|]. split; [vm_compute; reflexivity|]. split; vm_compute; reflexivity.
Qed.
Print Assumptions C85_walks_linear.
Print Assumptions C85_walks_cubic.
Print Assumptions C85_tree_linear.
Print Assumptions C85_tree_refuted.
Print Assumptions C85_result_linear.
Print Assumptions C85_case.
