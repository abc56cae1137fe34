(** Claim C67: GenerateGoParserFromABNF (codegen.go:16-22), from the text of a grammar to
    the emitted parser.  On the way: the grammars ParseABNF returns are well formed, which
    is what the theorems about the engines ask for. *)
(** The definitions here without a citation are those of statements, proofs and examples; they model no code. *)
From Coq Require Import ZArith Arith String Ascii Bool Permutation List Lia.
From Verif Require Import Syntax Spec Term Num Printer Check Slots Gll Bsr Sppf Tree Errors Deps Eval EvalProof ReadSpec TreeSpec TreeLang
  PropGll ForestUnique PropTree PropSem PropEval PropRead AbnfLocal PrintInj PropPrint ParseAbnf PropParse PropWritten LowerProof LowerLang Occ Apart.
From Verif Require Codegen CodegenGlue CodegenScope PropCodegen PropRegex GoScope.
Import ListNotations.
Local Open Scope string_scope.
Local Open Scope list_scope.
Local Open Scope Z_scope.

(** ** The grammars ParseABNF returns *)
Lemma read_small ord w : any_order ord ->
  exists enough, forall fuel ordE sh validate st, (enough <= fuel)%nat -> any_order ordE -> any_shuffle sh ->
    parse_abnf ord ordE sh fuel false validate core_rules w = PA_ok st ->
    wf_grammar (rules_of st) /\ lex_grammar (rules_of st) = true /\ Forall written_rule (rules_of st) /\ e_core st = core_rules /\
    (validate = true -> refs_defined (rules_of st) /\ bounds_ordered (rules_of st) /\ nums_in_unicode (rules_of st)) /\
    (Datatypes.S (length (rules_of st) + length core_rules) <= fuel)%nat.
Proof.
  intros O. destruct (abnf_forest ord w O) as (f & en0 & Hf). destruct (Hf en0 (le_n _)) as [E0 _].
  pose proof (C05_forest_valid_exact_partial _ _ _ _ _ _ _ _ O abnf_wf abnf_lex abnf_apart E0) as V.
  destruct (parse_abnf_tree ord w O) as [A A'].
  destruct (f_valid f) eqn:Vf.
  2:{ destruct A' as (e & en & P); [intros L; apply V in L; discriminate|]. exists en. intros fuel ordE sh v st F _ _ E. rewrite P in E by auto. discriminate. }
  assert (L : Lang abnf_grammar "rulelist" w) by (apply V; reflexivity).
  destruct (proj1 (C55_abnf_texts w) L) as (ds & Sa). destruct (A L) as (t & en & D & P).
  exists (Nat.max en (Datatypes.S (length ds + length core_rules))). intros fuel ordE sh v st F Oe Sh E. rewrite P in E by lia.
  destruct (C56_evaluation_rules w ds t false ordE core_rules Sa D) as (ds' & M & Ev). rewrite Ev in E.
  pose proof (C38_definitions_merge_partial core_rules ordE ds' Oe) as Mg.
  destruct (e_define_all false ordE ds' (mkE core_rules [] 0)) as [st'|e|]; try discriminate.
  destruct Mg as (_ & Dn & Rl & Ec). set (g := rules_of st') in *.
  assert (Wr : forall r, In r g -> written_rule r).
  { intros r I. apply Rl in I. eapply merged_written; [|exact I]. pose proof (says_written _ _ _ (proj2 Sa)) as Ws.
    rewrite Forall_forall in *. intros d Id. apply (in_map fst) in Id. rewrite M in Id. apply in_map_iff in Id as (d0 & <- & Id0). exact (Ws d0 Id0). }
  assert (Wf : Forall (fun r => wf_alt (rule_alt r)) g) by (apply Forall_forall; intros r I; apply written_wf, Wr, I).
  assert (Q : st = st' /\ (v = true -> semval_abnf (sh 0%nat g) (sh 1%nat g) g = None)).
  { destruct v; [|injection E as <-; split; [reflexivity|discriminate]].
    fold g in E. destruct (semval_abnf (sh 0%nat g) (sh 1%nat g) g); [discriminate|]. injection E as <-. auto. }
  destruct Q as [-> Q]. split; [split; assumption|]. split.
  { apply forallb_forall. intros r I. apply written_lex, Wr, I. }
  split; [apply Forall_forall; exact Wr|]. split; [exact Ec|]. split; [intros Hv; apply (C17_semval_exact g _ _ (Sh 0%nat g) (Sh 1%nat g) Wf), Q, Hv|].
  assert (Le : (length g <= length ds)%nat); [|fold g; lia].
  assert (Ld : length ds = length ds') by (rewrite <- (map_length fst ds), <- M; apply map_length).
  rewrite Ld, <- (map_length (fun r => lower (rule_name r)) g), <- (map_length (fun d => lower (rule_name (fst d))) ds').
  apply NoDup_incl_length; [exact Dn|]. intros n I. apply in_map_iff in I as (r & <- & I). apply Rl in I as (d & I & N & _).
  apply in_map_iff. exists (d, false). split; [cbn [fst]; congruence|exact I].
Qed.
(** With the default treatment of core rules, for every text and with or without
    validation. *)
Theorem C67_read_well_formed : forall ord w, any_order ord ->
  exists enough, forall fuel ordE sh validate st, (enough <= fuel)%nat -> any_order ordE -> any_shuffle sh ->
    parse_abnf ord ordE sh fuel false validate core_rules w = PA_ok st ->
    wf_grammar (rules_of st) /\ lex_grammar (rules_of st) = true /\ Forall written_rule (rules_of st) /\ e_core st = core_rules /\
    (validate = true -> refs_defined (rules_of st) /\ bounds_ordered (rules_of st) /\ nums_in_unicode (rules_of st)).
Proof.
  intros ord w O. destruct (read_small ord w O) as [en H]. exists en. intros fuel ordE sh v st F Oe Sh E.
  destruct (H fuel ordE sh v st F Oe Sh E) as (A & B & Wr & C & D & _). auto.
Qed.

(** ** GenerateGoParserFromABNF *)
Inductive fa_result : Type :=
| FA_ok (pg : Codegen.program)
| FA_parse (r : pa_result)                (* "parse ABNF source: ..." *)
| FA_gen (r : Codegen.gen_result).
(** codegen.go:16-22. *)
Definition generate_from_abnf (ord : nat -> list nkey -> list nkey) (ordE : nat -> rmap -> rmap) (sh : nat -> grammar -> grammar)
  (fuel : nat) (redefine validate : bool) (core : grammar) (src : list Z) (root : string) : fa_result :=
  match parse_abnf ord ordE sh fuel redefine validate core src with
  | PA_ok st => match Codegen.generate_go_parser fuel (rules_of st) root with Codegen.Gen_ok pg => FA_ok pg | r => FA_gen r end
  | r => FA_parse r
  end.

Lemma lex_runes g : lex_grammar g = true -> CodegenGlue.rune_values g.
Proof. intros L s vs Oc. apply Forall_forall. intros v Iv. pose proof (PropRegex.occ_char g s vs v L Oc Iv). lia. Qed.

(** Terminals of a validated grammar that the emitted file cannot match. *)
Definition no_prose_or_surrogate (g : grammar) : Prop := forall r mn mx e, In r g -> rep_in (rule_alt r) (Rep mn mx e) ->
  match e with EProse _ => False | ENum b StatSeries ns => forall s v, In s ns -> numeral b s = Some v -> ~ 0xD800 <= v <= 0xDFFF | _ => True end.

Lemma validated_emittable g : wf_grammar g -> lex_grammar g = true -> refs_defined g -> bounds_ordered g -> nums_in_unicode g ->
  no_prose_or_surrogate g -> CodegenScope.emittable_grammar g.
Proof.
  intros W Lx Rd Bo Nu Np. split; [exact Rd|]. split; [exact Bo|]. intros r I. split.
  { unfold lex_grammar in Lx. rewrite forallb_forall in Lx. specialize (Lx r I). apply andb_true_iff in Lx as [_ Lx].
    intros E. rewrite E in Lx. discriminate. }
  intros mn mx e Ri. assert (Oc : occ_rep g (Rep mn mx e)) by (apply Occ.occ_rep_in; exists r; split; [apply in_or_app; left|]; assumption).
  pose proof (proj2 (lex_occ g Lx) _ Oc) as Le. cbn [lex_rep] in Le. apply andb_true_iff in Le as [_ Le].
  pose proof (proj2 (wf_occ g W) _ Oc) as We. inversion We as [? ? ? _ _ We']; subst.
  specialize (Np r mn mx e I Ri).
  destruct e as [n|a|a|s vs|b [] ns|q]; cbn [CodegenScope.emittable]; auto.
  - intros ->. discriminate.
  - inversion We' as [| | | |? ? ? Wn|]; subst. destruct Wn as [Wn _]. rewrite Forall_forall in *. intros s Is.
    destruct (Wn s Is) as [v Nv]. exists v. split; [exact Nv|]. pose proof (numeral_nonneg _ _ _ Nv) as P. pose proof (Nu r mn mx b StatSeries ns s v I Ri Is Nv).
    specialize (Np s v Is Nv). unfold scalar. lia.
Qed.

(** Every text: the result is the parser of the grammar ParseABNF returns, an error of
    ParseABNF, or one of the two errors of the generator. *)
Theorem C67_from_abnf_any : forall ord w root, any_order ord ->
  exists enough, forall fuel ordE sh validate, (enough <= fuel)%nat -> any_order ordE -> any_shuffle sh ->
    match generate_from_abnf ord ordE sh fuel false validate core_rules w root with
    | FA_ok pg => exists st, parse_abnf ord ordE sh fuel false validate core_rules w = PA_ok st /\ (exists a, resolves (rules_of st) root a) /\
        (validate = true -> no_prose_or_surrogate (rules_of st) -> GoScope.compiles pg) /\
        (told_apart (rules_of st) -> forall gord input, any_order gord -> exists enough', forall fuel', (enough' <= fuel')%nat ->
           exists gset v, Codegen.g_parse input 0 gord pg fuel' = Codegen.GP_ok gset /\
             Codegen.g_valid pg (length input) gset = Some v /\ (v = true <-> Lang (rules_of st) root input))
    | FA_gen Codegen.Gen_rule_not_found => exists st, parse_abnf ord ordE sh fuel false validate core_rules w = PA_ok st /\ forall a, ~ resolves (rules_of st) root a
    | FA_gen Codegen.Gen_too_large => exists st, parse_abnf ord ordE sh fuel false validate core_rules w = PA_ok st /\ compile_slots (rules_of st) root default_max_slots fuel = CS_too_large
    | FA_gen _ => False
    | FA_parse r => parse_abnf ord ordE sh fuel false validate core_rules w = r /\ forall st, r <> PA_ok st
    end.
Proof.
  intros ord w root O. destruct (read_small ord w O) as [en H]. exists en. intros fuel ordE sh v F Oe Sh. unfold generate_from_abnf.
  destruct (parse_abnf ord ordE sh fuel false v core_rules w) as [st| | | | | | |e|e| |] eqn:E; try (split; [reflexivity|discriminate]).
  destruct (H fuel ordE sh v st F Oe Sh E) as (W & Lx & _ & Ec & Vd & Fl). pose proof (lex_runes _ Lx) as Rv.
  pose proof (PropCodegen.C42_generates (rules_of st) root fuel W Rv Fl) as G.
  destruct (Codegen.generate_go_parser fuel (rules_of st) root) as [pg| | | |] eqn:Gn; try contradiction.
  - exists st. split; [reflexivity|]. split; [|split].
    + destruct (get_rule root (rules_of st)) as [r|] eqn:Gr; [|congruence]. exists (rule_alt r). apply (proj1 (PropDag.get_rule_resolves _ _ (proj1 W))), Gr.
    + intros Hv Np. destruct (Vd Hv) as (Rd & Bo & Nu). eapply PropCodegen.C44_compiles_partial; eauto using validated_emittable.
    + intros Sf gord input Og. eapply PropCodegen.C42_valid_exact_partial; eauto.
  - exists st. split; [reflexivity|]. intros a Ra. destruct (proj2 (PropDag.get_rule_resolves _ root (proj1 W)) a Ra) as (r & Gr & _). congruence.
  - exists st. split; [reflexivity|exact G].
Qed.

(** The text is taken for the definitions [ds] (C56_taken): the file is emitted exactly when they make a
    grammar that has the root rule and is within the budget, and the emitted parser decides
    the language of that rule; the file compiles unless the grammar has prose-vals or
    surrogates.  Missing: groups, options or counted repetitions alike but for [%s]. *)
Theorem C67_from_abnf_partial : forall ord w ds root, any_order ord -> text_taken w ds ->
  exists enough, forall fuel ordE sh, (enough <= fuel)%nat -> any_order ordE -> any_shuffle sh ->
    match generate_from_abnf ord ordE sh fuel false true core_rules w root with
    | FA_ok pg => exists g, defs_ok core_rules ds /\ distinct_names g /\ (forall r, In r g <-> defined_as ds r) /\
        refs_defined g /\ bounds_ordered g /\ nums_in_unicode g /\ (exists a, resolves g root a) /\
        (no_prose_or_surrogate g -> GoScope.compiles pg) /\
        (told_apart g -> forall gord input, any_order gord -> exists enough', forall fuel', (enough' <= fuel')%nat ->
           exists gset v, Codegen.g_parse input 0 gord pg fuel' = Codegen.GP_ok gset /\
             Codegen.g_valid pg (length input) gset = Some v /\ (v = true <-> Lang g root input))
    | FA_gen Codegen.Gen_rule_not_found => exists g, distinct_names g /\ (forall r, In r g <-> defined_as ds r) /\ forall a, ~ resolves g root a
    | FA_gen Codegen.Gen_too_large => exists g, distinct_names g /\ (forall r, In r g <-> defined_as ds r) /\ compile_slots g root default_max_slots fuel = CS_too_large
    | FA_parse (PA_eval e) => exists pre d post, ds = pre ++ d :: post /\ defs_ok core_rules pre /\ violates core_rules pre d e
    | FA_parse (PA_sem _) => forall g, distinct_names g -> (forall r, In r g <-> defined_as ds r) -> ~ (refs_defined g /\ bounds_ordered g /\ nums_in_unicode g)
    | _ => False
    end.
Proof.
  intros ord w ds root O H. destruct (C67_from_abnf_any ord w root O) as [en1 A]. destruct (C57_reads ord w ds O H) as [en2 B].
  exists (Nat.max en1 en2). intros fuel ordE sh F Oe Sh. specialize (A fuel ordE sh true ltac:(lia) Oe Sh). specialize (B fuel ordE sh true ltac:(lia) Oe Sh).
  destruct (generate_from_abnf ord ordE sh fuel false true core_rules w root) as [pg|r|r].
  - destruct A as (st & E & Rs & Co & Ex). rewrite E in B. destruct B as (Ok & Dn & Rl & _ & Vd). destruct (Vd eq_refl) as (Rd & Bo & Nu).
    exists (rules_of st). repeat (split; [solve [auto]|]). exact Ex.
  - destruct A as [E N]. rewrite E in B. destruct r; try contradiction; auto.
    + exfalso. eapply N. reflexivity.
    + apply B.
  - destruct r; try contradiction.
    + destruct A as (st & E & N). rewrite E in B. destruct B as (_ & Dn & Rl & _). eauto.
    + destruct A as (st & E & N). rewrite E in B. destruct B as (_ & Dn & Rl & _). eauto.
Qed.

(** *** Cases *)
(** The printed text of a small grammar: the file is emitted, it compiles, and its parser
    accepts [9,pq] and rejects [9,]. *)
Definition rules67 : grammar :=
  [mkRule "a" [[Rep 1 1 (ERule "word"); Rep 0 inf (EGroup [[Rep 1 1 (EChar false [44]); Rep 1 1 (ERule "WORD")]])]];
   mkRule "word" [[Rep 1 2 (ERule "ALPHA")]; [Rep 1 1 (ENum "x" StatSeries ["39"])]]].
Definition text67 : list Z := bytes ("a = word *("","" WORD)" ++ crlf ++ "word = 1*2ALPHA / %x39" ++ crlf)%string.
Definition state67 : estate := match e_define_all false id_order (map (fun r => (r, false)) rules67) (mkE core_rules [] 0) with EvOk st => st | _ => mkE [] [] 0 end.
Lemma rules67_read ord : any_order ord -> exists enough, forall fuel sh, (enough <= fuel)%nat -> any_shuffle sh ->
  parse_abnf ord id_order sh fuel false true core_rules text67 = PA_ok state67.
Proof.
  intros O. assert (Sy : text_says quiet_filler text67 (map (fun r => (r, false)) rules67)).
  { apply (C40_printed_text_same rules67); [discriminate|apply written_all; vm_compute; reflexivity|].
    constructor; [reflexivity|]. constructor; [reflexivity|constructor]. }
  destruct (C57_reads_partial ord text67 _ O Sy) as [en1 P]. destruct (parse_abnf_tree ord text67 O) as [A _].
  pose proof (says_any _ _ _ Sy) as Sa. destruct A as (t & en & D & A); [apply C55_abnf_texts; eauto|].
  exists en. intros fuel sh F Sh. rewrite A, (C56_evaluation_partial _ _ _ _ _ _ Sy D) by auto.
  assert (E : e_define_all false id_order (map (fun r => (r, false)) rules67) (mkE core_rules [] 0) = EvOk state67) by (vm_compute; reflexivity).
  rewrite E. cbv iota beta zeta. assert (Rs : rules_of state67 = rules67) by (vm_compute; reflexivity). rewrite !Rs.
  assert (V : semval_abnf (sh 0%nat rules67) (sh 1%nat rules67) rules67 = None); [|rewrite V; reflexivity].
  assert (W : Forall (fun r => wf_alt (rule_alt r)) rules67) by (apply (wf_grammarb_spec rules67); vm_compute; reflexivity).
  apply (C17_semval_exact rules67 _ _ (Sh 0%nat rules67) (Sh 1%nat rules67) W).
  apply (C17_semval_exact rules67 rules67 rules67 (Permutation_refl _) (Permutation_refl _) W). vm_compute. reflexivity.
Qed.
Lemma gen_mono g root f f' r : (f <= f')%nat -> Codegen.generate_go_parser f g root = r -> r <> Codegen.Gen_fuel -> Codegen.generate_go_parser f' g root = r.
Proof.
  unfold Codegen.generate_go_parser. intros L <- N. rewrite (LowerBudget.compile_mono g root default_max_slots f f' L); [reflexivity|].
  intros E. rewrite E in N. apply N. reflexivity.
Qed.
Example C67_case : text_says quiet_filler text67 (map (fun r => (r, false)) rules67) /\
  forall ord, any_order ord -> exists pg enough, GoScope.compiles pg /\
    (forall fuel sh, (enough <= fuel)%nat -> any_shuffle sh -> generate_from_abnf ord id_order sh fuel false true core_rules text67 "A" = FA_ok pg) /\
    (forall fuel sh, (enough <= fuel)%nat -> any_shuffle sh -> generate_from_abnf ord id_order sh fuel false true core_rules text67 "b" = FA_gen Codegen.Gen_rule_not_found) /\
    (exists gset, Codegen.g_parse (bytes "9,pq") 0 (fun _ l => l) pg 500 = Codegen.GP_ok gset /\ Codegen.g_valid pg 4 gset = Some true) /\
    (exists gset, Codegen.g_parse (bytes "9,") 0 (fun _ l => l) pg 500 = Codegen.GP_ok gset /\ Codegen.g_valid pg 2 gset = Some false).
Proof.
  split.
  { apply (C40_printed_text_same rules67); [discriminate|apply written_all; vm_compute; reflexivity|].
    constructor; [reflexivity|]. constructor; [reflexivity|constructor]. }
  intros ord O. destruct (rules67_read ord O) as [en R].
  assert (Rs : rules_of state67 = rules67) by (vm_compute; reflexivity).
  assert (W : wf_grammar rules67) by (apply wf_grammarb_spec; vm_compute; reflexivity).
  assert (Lx : lex_grammar rules67 = true) by (vm_compute; reflexivity).
  set (pg := match Codegen.generate_go_parser 60 rules67 "A" with Codegen.Gen_ok pg => pg | _ => Codegen.mkProg false [] [] 0 [] [] [] [] end).
  assert (G : Codegen.generate_go_parser 60 rules67 "A" = Codegen.Gen_ok pg) by (vm_compute; reflexivity).
  exists pg, (Nat.max en 60). split.
  { eapply PropCodegen.C44_compiles_partial; [exact W|exact (lex_runes _ Lx)|apply PropCodegen.emit_of; vm_compute; reflexivity|exact G]. }
  split.
  { intros fuel sh F Sh. unfold generate_from_abnf. rewrite R, Rs by (auto; lia). rewrite (gen_mono _ _ 60 fuel _ ltac:(lia) G) by discriminate. reflexivity. }
  split.
  { intros fuel sh F Sh. unfold generate_from_abnf. rewrite R, Rs by (auto; lia).
    rewrite (gen_mono rules67 "b" 60 fuel Codegen.Gen_rule_not_found ltac:(lia)); [reflexivity|vm_compute; reflexivity|discriminate]. }
  split; eexists; (split; [vm_compute; reflexivity|]); vm_compute; reflexivity.
Qed.

(** Without [told_apart]: the two repetitions of [a = 2%s"x" / 2"x"] print alike, share a
    nonterminal (sppf.go:150), and the emitted parser refuses [XX]. *)
Definition rule_flags : rule := mkRule "a" [[Rep 2 2 (EChar true [120])]; [Rep 2 2 (EChar false [120])]].
Definition text_flags : list Z := bytes ("a = 2%s""x"" / 2""x""" ++ crlf)%string.
Lemma flags_says : text_says quiet_filler text_flags [(rule_flags, false)].
Proof.
  split; [discriminate|]. apply (tl_rule _ _ text_flags [] []); [|constructor].
  apply (text_rule_intro quiet_filler "a" [32] false [32] (rule_alt rule_flags) (bytes "2%s""x"" / 2""x""") [] [13; 10]);
    [reflexivity|apply (blanks_spaces 0)|apply (quiet_blank_spaces 0)|apply (blanks_spaces 0)|apply (quiet_blank_spaces 0)| |constructor|constructor].
  apply (ta_more _ (bytes "2%s""x""") [32] [32] _ (bytes "2""x""")); [|apply (blanks_spaces 0)|apply (blanks_spaces 0)|apply ta_one];
    apply tc_one.
  - apply (tr_repeat (bytes "2") 2 2 (EChar true [120]) (bytes "%s""x""")); [apply rd_exact; split; [discriminate|reflexivity]|].
    apply (te_char true [37; 115] [120]); [apply cm_s; left; reflexivity|constructor; [reflexivity|constructor]].
  - apply (tr_repeat (bytes "2") 2 2 (EChar false [120]) (bytes """x""")); [apply rd_exact; split; [discriminate|reflexivity]|].
    apply (te_char false [] [120]); [apply cm_none|constructor; [reflexivity|constructor]].
Qed.
Theorem C67_from_abnf_refuted : exists w ds root input g, text_says quiet_filler w ds /\ defs_ok core_rules ds /\ distinct_names g /\
  (forall r, In r g <-> defined_as ds r) /\ Lang g root input /\
  forall ord, any_order ord -> exists enough pg gset, Codegen.g_parse input 0 (fun _ l => l) pg 500 = Codegen.GP_ok gset /\
    Codegen.g_valid pg (length input) gset = Some false /\
    forall fuel sh, (enough <= fuel)%nat -> any_shuffle sh -> generate_from_abnf ord id_order sh fuel false true core_rules w root = FA_ok pg.
Proof.
  exists text_flags, [(rule_flags, false)], "a", (bytes "XX"), [rule_flags].
  split; [exact flags_says|].
  pose proof (C38_definitions_merge_partial core_rules id_order [(rule_flags, false)] (fun _ _ _ => iff_refl _)) as M.
  set (st := match e_define_all false id_order [(rule_flags, false)] (mkE core_rules [] 0) with EvOk st => st | _ => mkE [] [] 0 end).
  assert (E : e_define_all false id_order [(rule_flags, false)] (mkE core_rules [] 0) = EvOk st) by (vm_compute; reflexivity).
  rewrite E in M. assert (Rs : rules_of st = [rule_flags]) by (vm_compute; reflexivity). rewrite Rs in M. destruct M as (Ok & Dn & Rl & _).
  split; [exact Ok|]. split; [exact Dn|]. split; [exact Rl|]. split.
  { apply in_rule with (a := rule_alt rule_flags); [left; exists rule_flags; split; [left; reflexivity|split; reflexivity]|].
    apply in_alt_intro with [Rep 2 2 (EChar false [120])]; [right; left; reflexivity|].
    apply (in_cat_cons _ _ _ (bytes "XX") []); [|constructor]. apply (in_rep_intro _ 2 2 _ 2%nat); [lia|right; lia|].
    assert (X : in_elem [rule_flags] (EChar false [120]) [88]).
    { apply (in_char _ false [120] [88]); [constructor; [reflexivity|constructor]|constructor; [unfold scalar; lia|constructor]]. }
    apply (in_pow_S _ _ _ [88] [88]); [exact X|]. apply (in_pow_S _ _ _ [88] []); [exact X|constructor]. }
  intros ord O. destruct (parse_abnf_tree ord text_flags O) as [A _].
  pose proof (says_any _ _ _ flags_says) as Sa. destruct A as (t & en & D & A); [apply C55_abnf_texts; eauto|].
  set (pg := match Codegen.generate_go_parser 60 [rule_flags] "a" with Codegen.Gen_ok pg => pg | _ => Codegen.mkProg false [] [] 0 [] [] [] [] end).
  assert (G : Codegen.generate_go_parser 60 [rule_flags] "a" = Codegen.Gen_ok pg) by (vm_compute; reflexivity).
  exists (Nat.max en 60), pg. eexists. split; [vm_compute; reflexivity|]. split; [vm_compute; reflexivity|].
  intros fuel sh F Sh. unfold generate_from_abnf. rewrite A, (C56_evaluation_partial _ _ _ _ _ _ flags_says D) by lia. rewrite E. cbv iota beta zeta. rewrite !Rs.
  assert (W : Forall (fun r => wf_alt (rule_alt r)) [rule_flags]) by (apply (wf_grammarb_spec [rule_flags]); vm_compute; reflexivity).
  assert (V : semval_abnf (sh 0%nat [rule_flags]) (sh 1%nat [rule_flags]) [rule_flags] = None).
  { apply (C17_semval_exact [rule_flags] _ _ (Sh 0%nat [rule_flags]) (Sh 1%nat [rule_flags]) W).
    apply (C17_semval_exact [rule_flags] [rule_flags] [rule_flags] (Permutation_refl _) (Permutation_refl _) W). vm_compute. reflexivity. }
  rewrite V. rewrite Rs, (gen_mono _ _ 60 fuel _ ltac:(lia) G) by discriminate. reflexivity.
Qed.

Print Assumptions C67_from_abnf_refuted.
Print Assumptions C67_read_well_formed.
Print Assumptions C67_from_abnf_any.
Print Assumptions C67_from_abnf_partial.
