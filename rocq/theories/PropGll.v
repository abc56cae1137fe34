(** Properties of the lowering and of the GLL engines: C05, C06, C07, C08, C09, C10. *)
(** The definitions here are those of statements, proofs and examples; they model no code. *)
From Coq Require Import ZArith String Bool List Lia.
From Verif Require Import Syntax Spec Utf8 Num Term Printer Slots PropTerm Gll GllUniv Bsr BsrProof BsrTerm
  Sppf SppfProof LowerProof LowerLang LowerBudget PrintInj Check Apart.
Import ListNotations.
Local Open Scope string_scope.
Local Open Scope Z_scope.

(** A schedule may present the keys of a map in any order, each time anew. *)
Definition any_order {A} (ord : nat -> list A -> list A) : Prop :=
  forall t l x, In x (ord t l) <-> In x l.

(** The nonterminals of a slot grammar produced by the code. *)
Lemma compile_ok_represents g root ms fuel sg : compile_slots g root ms fuel = CS_ok sg ->
  exists idx, represents g root sg idx.
Proof.
  intros E. pose proof (compile_total g ms root (Nat.max fuel (lower_fuel g)) ltac:(lia)) as T.
  rewrite (compile_mono g root ms fuel) in T by (try lia; congruence). rewrite E in T. apply T.
Qed.

(** ** C09 *)
(** Missing for the full statement: grammars with two groups, options or counted repetitions
    that are the same but for [%s]; there it is false, see below. *)
Theorem C09_lowering_preserves_language_partial : forall g root max_slots fuel sg,
  wf_grammar g -> lex_grammar g = true -> told_apart g ->
  compile_slots g root max_slots fuel = CS_ok sg ->
  forall input, sg_accepts sg input <-> Lang g root input.
Proof.
  intros g root ms fuel sg W L F E input. destruct (compile_ok_represents _ _ _ _ _ E) as [idx R].
  eapply accepts_iff_lang; eauto. apply print_inj_lex; auto.
Qed.

(** A counted repetition of a group, through a nonterminal of its own. *)
Definition g_rep : grammar :=
  [mkRule "a" [[Rep 2 3 (EGroup [[Rep 1 1 (EChar false [120])]; [Rep 1 1 (ERule "A")]]); Rep 0 1 (EChar true [121])]]].
Example C09_case :
  wf_grammar g_rep /\ lex_grammar g_rep = true /\ told_apart g_rep /\
  exists sg, compile_slots g_rep "a" default_max_slots 30 = CS_ok sg /\ length (sg_nts sg) = 4%nat.
Proof.
  split; [apply wf_grammarb_spec; vm_compute; reflexivity|]. split; [vm_compute; reflexivity|].
  split; [apply told_apartb_spec; vm_compute; reflexivity|].
  eexists. split; vm_compute; reflexivity.
Qed.

(** The same strings with and without [%s], "A" also in HEXDIG: nothing forbids it. *)
Definition g_mixed : grammar :=
  [mkRule "a" [[Rep 1 1 (EChar true [65]); Rep 1 1 (EChar false [65])];
               [Rep 0 inf (EChar true [120]); Rep 1 1 (EChar false [120]); Rep 1 1 (ERule "HEXDIG")]]].
Example C09_case_mixed :
  wf_grammar g_mixed /\ lex_grammar g_mixed = true /\ told_apart g_mixed /\ ~ same_flags g_mixed /\
  exists sg, compile_slots g_mixed "a" default_max_slots 30 = CS_ok sg.
Proof.
  split; [apply wf_grammarb_spec; vm_compute; reflexivity|]. split; [vm_compute; reflexivity|].
  split; [apply told_apartb_spec; vm_compute; reflexivity|]. split; [|eexists; vm_compute; reflexivity].
  intros H. enough (true = false) by discriminate. apply (H true false [65]).
  - econstructor. eapply occ_rep_rule; [left; reflexivity|left; reflexivity|left; reflexivity].
  - econstructor. eapply occ_rep_rule; [left; reflexivity|left; reflexivity|right; left; reflexivity].
Qed.

(** [a = 2%s"x" / 2"x"] on "XX": the two repetitions print alike and share one
    nonterminal, so the second alternative is lost. *)
Definition g_flag : grammar :=
  [mkRule "a" [[Rep 2 2 (EChar true [120])]; [Rep 2 2 (EChar false [120])]]].
Lemma g_flag_lang : Lang g_flag "a" [88; 88].
Proof.
  eapply in_rule with (a := rule_alt (mkRule "a" [[Rep 2 2 (EChar true [120])]; [Rep 2 2 (EChar false [120])]])).
  - left. eexists. split; [left; reflexivity|]. split; reflexivity.
  - cbn. eapply in_alt_intro; [right; left; reflexivity|].
    change [88; 88] with ([88; 88] ++ [])%list. constructor; [|constructor].
    apply in_rep_intro with (n := 2%nat); try (right; cbn; lia); try lia.
    assert (X : in_elem g_flag (EChar false [120]) [88]).
    { change [88] with (utf8s [88]). constructor; [repeat constructor|constructor; [left; lia|constructor]]. }
    change [88; 88] with ([88] ++ [88] ++ [])%list. repeat (constructor; auto).
Qed.

Lemma parse_bsr_ok ord fuel input g root ms mn sg set :
  parse_bsr ord fuel input g root ms mn = BSR_ok sg set ->
  compile_slots g root ms fuel = CS_ok sg /\
  exists st, b_parse sg input mn (fun t _ l => ord t l) fuel = Some st /\ b_aborted st = false /\ set = b_set st.
Proof.
  intros E. unfold parse_bsr in E.
  destruct (compile_slots g root ms fuel) as [sg'| | |] eqn:C; try discriminate.
  destruct (b_parse sg' input mn (fun t _ l => ord t l) fuel) as [st|] eqn:B; [|discriminate].
  destruct (b_aborted st) eqn:A; [discriminate|]. inversion E; subst. split; auto. exists st. auto.
Qed.

Lemma bsr_accepts ord fuel input g root ms mn sg set : any_order ord ->
  parse_bsr ord fuel input g root ms mn = BSR_ok sg set ->
  (bsr_valid sg (length input) set = true <-> sg_accepts sg input).
Proof.
  intros O E. apply parse_bsr_ok in E as (C & st & B & A & ->).
  destruct (compile_ok_represents _ _ _ _ _ C) as [idx R].
  apply (bsr_correct sg input mn (fun t _ l => ord t l)) with (fuel := fuel); auto.
  - apply wf_reps. eapply shape; eauto.
  - eapply start_plain; eauto.
  - eapply nonempty; eauto.
Qed.

Lemma id_order {A} : any_order (fun _ (l : list A) => l).
Proof. intros t l x. reflexivity. Qed.

Theorem C09_lowering_preserves_language_refuted : exists g root sg input,
  wf_grammar g /\ lex_grammar g = true /\ compile_slots g root default_max_slots 30 = CS_ok sg /\
  Lang g root input /\ ~ sg_accepts sg input.
Proof.
  exists g_flag, "a". eexists. exists [88; 88].
  split; [apply wf_grammarb_spec; vm_compute; reflexivity|]. split; [vm_compute; reflexivity|].
  split; [vm_compute; reflexivity|]. split; [exact g_flag_lang|]. intros H.
  eapply (bsr_accepts (fun _ l => l) 100 [88; 88] g_flag "a" default_max_slots 0) in H;
    [|exact id_order|vm_compute; reflexivity].
  vm_compute in H. discriminate.
Qed.

(** ** C10 *)
Theorem C10_slot_budget : forall g root max_slots fuel sg, 0 < max_slots ->
  compile_slots g root max_slots fuel = CS_ok sg -> Z.of_nat (length (sg_nts sg)) <= max_slots.
Proof. intros. apply Z.lt_le_incl. eapply compile_budget; eauto. Qed.

(** Lowering needs one level of fuel per rule name, whatever the recursion. *)
Theorem C10_lowering_terminates : forall g root max_slots fuel,
  (S (length g + length core_rules) <= fuel)%nat -> compile_slots g root max_slots fuel <> CS_fuel.
Proof.
  intros g root ms fuel F E. pose proof (compile_total g ms root fuel F) as T. rewrite E in T. exact T.
Qed.

Example C10_case : compile_slots g_rep "a" 4 30 = CS_too_large /\
  (exists sg, compile_slots g_rep "a" 5 30 = CS_ok sg) /\
  (* recursive through every rule *)
  exists sg, compile_slots [mkRule "a" [[Rep 1 1 (ERule "b")]]; mkRule "b" [[Rep 0 (-1) (ERule "a")]]] "a" 5 30 = CS_ok sg.
Proof. split; [vm_compute; reflexivity|]. split; eexists; vm_compute; reflexivity. Qed.

(** ** C06 *)
(** Missing for the full statement: the same grammars as for C09. *)
Theorem C06_bsr_valid_exact_partial : forall ord fuel input g root max_slots max_nodes sg set,
  any_order ord -> wf_grammar g -> lex_grammar g = true -> told_apart g ->
  parse_bsr ord fuel input g root max_slots max_nodes = BSR_ok sg set ->
  (bsr_valid sg (length input) set = true <-> Lang g root input).
Proof.
  intros ord fuel input g root ms mn sg set O W L F E. pose proof (parse_bsr_ok _ _ _ _ _ _ _ _ _ E) as (C & _).
  rewrite <- (C09_lowering_preserves_language_partial g root ms fuel sg W L F C input).
  eapply bsr_accepts; eauto.
Qed.

Example C06_case : exists sg set, parse_bsr (fun _ l => rev l) 200 (bytes "xxxY") g_rep "a" default_max_slots 0 = BSR_ok sg set /\
  bsr_valid sg 4 set = false /\ length set = 20%nat.
Proof. eexists _, _. split; [vm_compute; reflexivity|]. split; vm_compute; reflexivity. Qed.
Example C06_case_valid : exists sg set, parse_bsr (fun _ l => rev l) 200 (bytes "xXy") g_rep "a" default_max_slots 0 = BSR_ok sg set /\
  bsr_valid sg 3 set = true.
Proof. eexists _, _. split; vm_compute; reflexivity. Qed.

Theorem C06_bsr_valid_refuted : exists g root input sg set,
  wf_grammar g /\ lex_grammar g = true /\
  parse_bsr (fun _ l => l) 100 input g root default_max_slots 0 = BSR_ok sg set /\
  Lang g root input /\ bsr_valid sg (length input) set = false.
Proof.
  exists g_flag, "a", [88; 88]. eexists _, _.
  split; [apply wf_grammarb_spec; vm_compute; reflexivity|]. split; [vm_compute; reflexivity|].
  split; [vm_compute; reflexivity|]. split; [exact g_flag_lang|]. vm_compute. reflexivity.
Qed.

(** ** C07, BSR engine *)
Theorem C07_bsr_terminates : forall ord input g root max_slots max_nodes, any_order ord ->
  exists enough, forall fuel, (enough <= fuel)%nat ->
    parse_bsr ord fuel input g root max_slots max_nodes <> BSR_fuel.
Proof.
  intros ord input g root ms mn O. pose proof (C10_lowering_terminates g root ms (lower_fuel g) (le_n _)) as T.
  destruct (compile_slots g root ms (lower_fuel g)) as [sg| | |] eqn:C; try congruence.
  - destruct (compile_ok_represents _ _ _ _ _ C) as [idx R].
    exists (Nat.max (lower_fuel g) (length (desc_univ sg input))). intros fuel F. unfold parse_bsr.
    rewrite (compile_mono g root ms (lower_fuel g)) by (try lia; congruence). rewrite C.
    destruct (bsr_terminates sg input mn (fun t _ l => ord t l) (fun t _ => O t) (shape _ _ _ _ R) (start_plain _ _ _ _ R) fuel ltac:(lia)) as [st ->].
    destruct (b_aborted st); discriminate.
  - exists (lower_fuel g). intros fuel F. unfold parse_bsr.
    rewrite (compile_mono g root ms (lower_fuel g)) by (try lia; congruence). rewrite C. discriminate.
  - exists (lower_fuel g). intros fuel F. unfold parse_bsr.
    rewrite (compile_mono g root ms (lower_fuel g)) by (try lia; congruence). rewrite C. discriminate.
Qed.

(** ** C08, BSR engine *)
Theorem C08_bsr_budget : forall ord fuel input g root max_slots max_nodes sg set, 0 < max_nodes ->
  parse_bsr ord fuel input g root max_slots max_nodes = BSR_ok sg set ->
  Z.of_nat (length set) <= max_nodes.
Proof.
  intros ord fuel input g root ms mn sg set M E. apply parse_bsr_ok in E as (C & st & B & A & ->).
  eapply bsr_budget; eauto.
Qed.

Example C08_bsr_case :
  parse_bsr (fun _ l => l) 200 (bytes "xXy") g_rep "a" default_max_slots 5 = BSR_forest_too_large /\
  exists sg set, parse_bsr (fun _ l => l) 200 (bytes "xXy") g_rep "a" default_max_slots 30 = BSR_ok sg set.
Proof. split; [vm_compute; reflexivity|]. eexists _, _. vm_compute. reflexivity. Qed.

(** ** The SPPF engine *)
Lemma parse_forest_ok ord fuel input g root ms mn f :
  parse_forest ord fuel input g root ms mn = PF_ok f ->
  compile_slots g root ms fuel = CS_ok (f_sg f) /\
  exists st, p_parse (f_sg f) input mn ord fuel = Some st /\ p_aborted st = false /\
    f_input f = input /\ f_nodes f = p_nodes st /\ f_built f = length (p_nodes st) /\
    f_maxpos f = p_maxpos st /\ f_expected f = p_expected st /\
    f_root f = (let k := NSym (sg_start (f_sg f)) 0 (length input) in
                match packs_of k (p_nodes st) with Some _ => Some k | None => None end).
Proof.
  intros E. unfold parse_forest in E.
  destruct (compile_slots g root ms fuel) as [sg'| | |] eqn:C; try discriminate.
  destruct (p_parse sg' input mn ord fuel) as [st|] eqn:B; [|discriminate].
  destruct (p_aborted st) eqn:A; [discriminate|]. inversion E; subst. cbn. split; auto.
  exists st. rewrite A. repeat split; auto.
Qed.

Lemma forest_accepts ord fuel input g root ms mn f : any_order ord ->
  parse_forest ord fuel input g root ms mn = PF_ok f ->
  (f_valid f = true <-> sg_accepts (f_sg f) input).
Proof.
  intros O E. apply parse_forest_ok in E as (C & st & B & A & _ & _ & _ & _ & _ & Rt).
  destruct (compile_ok_represents _ _ _ _ _ C) as [idx R].
  pose proof (wf_reps _ (shape _ _ _ _ R)) as W. pose proof (nonempty _ _ _ _ R) as NE.
  destruct (sppf_as_bsr (f_sg f) input mn ord O NE W fuel st B A) as (bs & Bb & HR).
  rewrite <- (bsr_correct (f_sg f) input 0 (ord' (f_sg f) ord)) with (fuel := fuel) (st := bs); auto.
  - rewrite <- (root_valid _ _ _ _ HR). unfold f_valid. rewrite Rt. cbv zeta.
    destruct (packs_of _ (p_nodes st)); split; congruence.
  - intros. apply ord'_in. auto.
  - eapply start_plain; eauto.
  - apply (r_ab _ _ _ HR).
Qed.

(** ** C05 *)
(** Missing for the full statement: the same grammars as for C09. *)
Theorem C05_forest_valid_exact_partial : forall ord fuel input g root max_slots max_nodes f,
  any_order ord -> wf_grammar g -> lex_grammar g = true -> told_apart g ->
  parse_forest ord fuel input g root max_slots max_nodes = PF_ok f ->
  (f_valid f = true <-> Lang g root input).
Proof.
  intros ord fuel input g root ms mn f O W L F E. pose proof (parse_forest_ok _ _ _ _ _ _ _ _ E) as (C & _).
  rewrite <- (C09_lowering_preserves_language_partial g root ms fuel (f_sg f) W L F C input).
  eapply forest_accepts; eauto.
Qed.

(** A left recursive, ambiguous, nullable and cyclic grammar. *)
Definition g_wild : grammar :=
  [mkRule "a" [[Rep 1 1 (ERule "a"); Rep 1 1 (ERule "a")]; [Rep 1 1 (ERule "a")]; [Rep 0 1 (EChar false [120])]]].
Example C05_case :
  (wf_grammar g_wild /\ lex_grammar g_wild = true /\ told_apart g_wild) /\
  (exists f, parse_forest (fun _ l => rev l) 400 (bytes "xXx") g_wild "a" default_max_slots 0 = PF_ok f /\ f_valid f = true) /\
  (exists f, parse_forest (fun _ l => rev l) 400 (bytes "xyx") g_wild "a" default_max_slots 0 = PF_ok f /\ f_valid f = false).
Proof.
  split; [split; [apply wf_grammarb_spec; vm_compute; reflexivity|]; split; [vm_compute; reflexivity|];
          apply told_apartb_spec; vm_compute; reflexivity|].
  split; eexists; split; vm_compute; reflexivity.
Qed.

Theorem C05_forest_valid_refuted : exists g root input f,
  wf_grammar g /\ lex_grammar g = true /\
  parse_forest (fun _ l => l) 100 input g root default_max_slots 0 = PF_ok f /\
  Lang g root input /\ f_valid f = false.
Proof.
  exists g_flag, "a", [88; 88]. eexists.
  split; [apply wf_grammarb_spec; vm_compute; reflexivity|]. split; [vm_compute; reflexivity|].
  split; [vm_compute; reflexivity|]. split; [exact g_flag_lang|]. vm_compute. reflexivity.
Qed.

(** The two engines agree on every grammar, input, budget and iteration order
    (second half of C06). *)
Theorem C06_engines_agree : forall ord ord2 fuel fuel2 input g root max_slots max_nodes max_nodes2 f sg set,
  any_order ord -> any_order ord2 ->
  parse_forest ord fuel input g root max_slots max_nodes = PF_ok f ->
  parse_bsr ord2 fuel2 input g root max_slots max_nodes2 = BSR_ok sg set ->
  f_valid f = bsr_valid sg (length input) set.
Proof.
  intros ord ord2 fuel fuel2 input g root ms mn mn2 f sg set O O2 E E2.
  pose proof (parse_forest_ok _ _ _ _ _ _ _ _ E) as (C & _).
  pose proof (parse_bsr_ok _ _ _ _ _ _ _ _ _ E2) as (C2 & _).
  assert (Eq : f_sg f = sg).
  { destruct (Nat.le_ge_cases fuel fuel2) as [Le|Le].
    - pose proof (compile_mono g root ms fuel fuel2 Le ltac:(congruence)). congruence.
    - pose proof (compile_mono g root ms fuel2 fuel Le ltac:(congruence)). congruence. }
  subst sg. apply eq_true_iff_eq.
  rewrite (forest_accepts _ _ _ _ _ _ _ _ O E), (bsr_accepts _ _ _ _ _ _ _ _ _ O2 E2). reflexivity.
Qed.

Example C06_agree_case : exists f sg set,
  parse_forest (fun _ l => l) 100 (bytes "xXy") g_rep "a" default_max_slots 40 = PF_ok f /\
  parse_bsr (fun _ l => rev l) 200 (bytes "xXy") g_rep "a" default_max_slots 30 = BSR_ok sg set /\
  f_valid f = true /\ length set = 12%nat.
Proof.
  eexists _, _, _. split; [vm_compute; reflexivity|]. split; [vm_compute; reflexivity|].
  split; vm_compute; reflexivity.
Qed.

(** ** C07, SPPF engine *)
Theorem C07_forest_terminates : forall ord input g root max_slots max_nodes, any_order ord ->
  exists enough, forall fuel, (enough <= fuel)%nat ->
    parse_forest ord fuel input g root max_slots max_nodes <> PF_fuel.
Proof.
  intros ord input g root ms mn O. pose proof (C10_lowering_terminates g root ms (lower_fuel g) (le_n _)) as T.
  destruct (compile_slots g root ms (lower_fuel g)) as [sg| | |] eqn:C; try congruence.
  - destruct (compile_ok_represents _ _ _ _ _ C) as [idx R].
    exists (Nat.max (lower_fuel g) (length (desc_univ sg input))). intros fuel F. unfold parse_forest.
    rewrite (compile_mono g root ms (lower_fuel g)) by (try lia; congruence). rewrite C.
    destruct (bsr_terminates sg input 0 (ord' sg ord) (fun t v => ord'_in sg ord O t v) (shape _ _ _ _ R) (start_plain _ _ _ _ R) fuel ltac:(lia)) as [bs B].
    destruct (sppf_total sg input mn ord O (nonempty _ _ _ _ R) (wf_reps _ (shape _ _ _ _ R)) fuel bs B) as [st ->].
    destruct (p_aborted st); discriminate.
  - exists (lower_fuel g). intros fuel F. unfold parse_forest.
    rewrite (compile_mono g root ms (lower_fuel g)) by (try lia; congruence). rewrite C. discriminate.
  - exists (lower_fuel g). intros fuel F. unfold parse_forest.
    rewrite (compile_mono g root ms (lower_fuel g)) by (try lia; congruence). rewrite C. discriminate.
Qed.

Example C07_case : exists f, parse_forest (fun _ l => l) 400 [] g_wild "a" default_max_slots 0 = PF_ok f /\ f_built f = 3%nat.
Proof. eexists. split; vm_compute; reflexivity. Qed.

(** ** C08, SPPF engine: [f_built] counts the nodes allocated, reachable or not. *)
Theorem C08_forest_budget : forall ord fuel input g root max_slots max_nodes f, 0 < max_nodes ->
  parse_forest ord fuel input g root max_slots max_nodes = PF_ok f ->
  Z.of_nat (length (f_nodes f)) <= max_nodes /\ f_built f = length (f_nodes f).
Proof.
  intros ord fuel input g root ms mn f M E. apply parse_forest_ok in E as (C & st & B & A & _ & N & Bu & _).
  destruct (sppf_budget (f_sg f) input mn ord fuel st M B) as [H|H]; [congruence|]. rewrite Bu, N. auto.
Qed.

Example C08_forest_case :
  parse_forest (fun _ l => l) 400 [] g_wild "a" default_max_slots 2 = PF_forest_too_large /\
  exists f, parse_forest (fun _ l => l) 400 [] g_wild "a" default_max_slots 3 = PF_ok f.
Proof. split; [vm_compute; reflexivity|]. eexists. vm_compute. reflexivity. Qed.

Print Assumptions C05_forest_valid_exact_partial.
Print Assumptions C05_forest_valid_refuted.
Print Assumptions C06_engines_agree.
Print Assumptions C07_forest_terminates.
Print Assumptions C08_forest_budget.
Print Assumptions C06_bsr_valid_exact_partial.
Print Assumptions C06_bsr_valid_refuted.
Print Assumptions C07_bsr_terminates.
Print Assumptions C08_bsr_budget.
Print Assumptions C09_lowering_preserves_language_partial.
Print Assumptions C09_lowering_preserves_language_refuted.
Print Assumptions C10_slot_budget.
Print Assumptions C10_lowering_terminates.
