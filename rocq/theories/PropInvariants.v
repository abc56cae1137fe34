(** Claims C65 and C66: what the fuzz targets and the invariants of the test suite assert
    (generate_fuzz.go, grammar_fuzz.go, regex_fuzz.go, invariants_test.go), for every
    grammar, input and source of draws rather than for a corpus. *)
(** The definitions here without a citation are those of statements, proofs and examples; they model no code. *)
From Coq Require Import ZArith Arith String Ascii Bool Relations Sorted Permutation List Lia.
From Verif Require Import Syntax Spec Num Term Utf8 Printer Slots PrintInj Deps Dag Cycle LowerProof LowerLang Occ Check PropTerm PropSem PropDag LeftRec PropLeftRec
  Recog RecogProof RecogComplete RecogGlue RecogCheck PropRecog Gll Bsr BsrProof Sppf PropGll Eval ParseAbnf Generate PropGenerate
  ReadSpec AbnfLocal PropRead PropPrint PropParse.
From Verif Require Regex RegexSpec RegexRead PropRegex Codegen CodegenGlue PropCodegen.
Import ListNotations.
Local Open Scope string_scope.
Local Open Scope list_scope.
Local Open Scope nat_scope.

(** ** The hypotheses of C02, for grammars without left recursion *)
Definition rules_shallow (f : nat) (g : grammar) : bool := forallb (fun x => shallow g f (ERule x)) (LeftRec.all_names g).
Lemma shallow_fine g f order : distinct_names g -> name_order g order -> rules_shallow f g = true -> fine_first g order.
Proof.
  intros D K H n rest E R m _. exfalso. unfold rules_shallow in H. rewrite forallb_forall in H.
  assert (I : In (lower n) (LeftRec.all_names g)) by (apply (all_names_order g D), K; rewrite E; left; reflexivity).
  apply (shallow_not g D f (ERule n)); [|apply lc_corners, t_step, R].
  rewrite (shallow_canon g f (ERule n) (ERule (lower n))); [apply H, I|cbn; rewrite lower_lower; reflexivity].
Qed.
Definition small_counts (g : grammar) : bool := forallb (fun r => (rep_min r <=? 2)%Z) (RecogCheck.grammar_reps g).
Lemma small_count_ok g input : small_counts g = true -> count_ok g input.
Proof.
  intros H mn mx e Oc. apply RecogCheck.occ_rep_in in Oc. unfold small_counts in H. rewrite forallb_forall in H. specialize (H _ Oc).
  left. apply Z.leb_le, H.
Qed.
Lemma abnf_bounds : bounds_ok abnf_grammar.
Proof. apply bounds_dec. vm_compute. reflexivity. Qed.
Lemma abnf_groups : groups_not_left_recursive abnf_grammar.
Proof. refine (groups_shallow_ok abnf_grammar (proj1 abnf_wf) 40 _). vm_compute. reflexivity. Qed.
Lemma abnf_fine order : name_order abnf_grammar order -> fine_first abnf_grammar order.
Proof. intros K. apply (shallow_fine abnf_grammar 40); [exact (proj1 abnf_wf)|exact K|vm_compute; reflexivity]. Qed.
Lemma abnf_count input : count_ok abnf_grammar input.
Proof. apply small_count_ok. vm_compute. reflexivity. Qed.
Lemma abnf_generable : generable abnf_grammar.
Proof. apply generableb_spec. vm_compute. reflexivity. Qed.

(** ** C65: the fuzz targets *)

(** IsValid decides the grammar of ABNF exactly, from every one of its rules. *)
Theorem C65_abnf_valid_exact : forall n input ordn order ord fuel,
  any_order ordn -> name_order abnf_grammar order -> any_order ord ->
  (exists a, resolves abnf_grammar n a) -> recog_fuel abnf_grammar input n <= fuel ->
  exists b, is_valid ordn order ord fuel abnf_grammar n input = VBool b /\ (b = true <-> Lang abnf_grammar n input).
Proof.
  intros n input ordn order ord fuel On K O R F.
  exact (C02_valid_exact_partial abnf_grammar n input ordn order ord fuel abnf_wf abnf_lex abnf_flags abnf_bounds abnf_groups
    (abnf_count input) On K (abnf_fine order K) O R F).
Qed.

(** FuzzGeneratedValid (generate_fuzz.go:7-22): whatever the source draws, whatever the
    options and the rule, what Generate returns IsValid accepts. *)
Theorem C65_generated_valid : forall gfuel rnd rep_max threshold n out, (forall t, (0 <= rnd t)%Z) ->
  generate gfuel rnd rep_max threshold abnf_grammar n = Gen_ok out ->
  forall ordn order ord fuel, any_order ordn -> name_order abnf_grammar order -> any_order ord -> recog_fuel abnf_grammar out n <= fuel ->
    is_valid ordn order ord fuel abnf_grammar n out = VBool true.
Proof.
  intros gfuel rnd rm th n out Rn G ordn order ord fuel On K O F.
  pose proof (C29_generate_in_language_partial gfuel rnd rm th abnf_grammar n out Rn abnf_generable G) as L.
  destruct (C65_abnf_valid_exact n out ordn order ord fuel On K O) as (b & E & B); auto.
  - inversion L as [? a ? R _| | | | | |]; subst. eauto.
  - rewrite E. f_equal. apply B, L.
Qed.

(** FuzzParseABNF (grammar_fuzz.go:7-23): whatever the bytes and the options, ParseABNF
    returns a grammar, or a syntax error, or an error about the rules; never
    ErrMultipleSolutionsFound, ErrNoSolutionFound or a size error, and it never panics. *)
Theorem C65_parse_outcomes : forall ord w, any_order ord ->
  exists enough, forall fuel ordE sh redefine validate core, enough <= fuel ->
    match parse_abnf ord ordE sh fuel redefine validate core w with
    | PA_ok _ | PA_eval _ => Lang abnf_grammar "rulelist" w
    | PA_sem _ => validate = true /\ Lang abnf_grammar "rulelist" w
    | PA_parse _ => ~ Lang abnf_grammar "rulelist" w
    | _ => False
    end.
Proof.
  intros ord w O. destruct (abnf_forest ord w O) as (f & en0 & H). destruct (H en0 (le_n _)) as [E0 _].
  pose proof (C05_forest_valid_exact_partial _ _ _ _ _ _ _ _ O abnf_wf abnf_lex abnf_apart E0) as V.
  destruct (f_valid f) eqn:Vf.
  - assert (L : Lang abnf_grammar "rulelist" w) by (apply V; reflexivity).
    destruct (proj1 (C55_abnf_texts w) L) as (ds & Sa). destruct (C57_accepts ord w ds O Sa) as (en & P).
    exists en. intros fuel ordE sh rd v core F. specialize (P fuel ordE sh rd v core F).
    destruct (parse_abnf ord ordE sh fuel rd v core w); auto.
  - assert (L : ~ Lang abnf_grammar "rulelist" w) by (intros L; apply V in L; discriminate).
    destruct (C57_rejects ord w O) as (e & en & P); [intros X; apply L, C55_abnf_texts, X|].
    exists en. intros fuel ordE sh rd v core F. rewrite P by auto. exact L.
Qed.

(** FuzzGeneratedABNF (grammar_fuzz.go:25-45): a text that Generate makes of "rulelist" is
    never a syntax error for ParseABNF. *)
Theorem C65_generated_abnf : forall gfuel rnd rep_max threshold out, (forall t, (0 <= rnd t)%Z) ->
  generate gfuel rnd rep_max threshold abnf_grammar "rulelist" = Gen_ok out ->
  forall ord, any_order ord -> exists enough, forall fuel ordE sh redefine validate core, enough <= fuel ->
    match parse_abnf ord ordE sh fuel redefine validate core out with
    | PA_ok _ | PA_eval _ => True
    | PA_sem _ => validate = true
    | _ => False
    end.
Proof.
  intros gfuel rnd rm th out Rn G ord O.
  pose proof (C29_generate_in_language_partial gfuel rnd rm th abnf_grammar "rulelist" out Rn abnf_generable G) as L.
  destruct (C65_parse_outcomes ord out O) as (en & P). exists en. intros fuel ordE sh rd v core F. specialize (P fuel ordE sh rd v core F).
  destruct (parse_abnf ord ordE sh fuel rd v core out); tauto.
Qed.

(** FuzzRegex (regex_fuzz.go:8-34) fails on some draws: the target tolerates
    ErrRuleNotFound and ErrHandlingProseVal only, and the text [A=0A;] can be generated,
    is accepted by ParseABNF, validation included, and Regex answers ErrCyclicRule. *)
Theorem C65_regex_refuted : exists gfuel rnd out fuel st, (forall t, (0 <= rnd t)%Z) /\
  generate gfuel rnd 16 256 abnf_grammar "rulelist" = Gen_ok out /\
  parse_abnf (fun _ l => l) (fun _ l => l) (fun _ l => l) fuel false true core_rules out = PA_ok st /\
  forall rfuel order max, key_order (dependency_graph (rules_of st)) order ->
    Regex.regex rfuel (rules_of st) order max "A" = Regex.Regex_cyclic.
Proof.
  exists 40, (fun _ => 0%Z). eexists _, 400, _. split; [intros _; apply Z.le_refl|].
  split; [vm_compute; reflexivity|]. split; [vm_compute; reflexivity|].
  intros rfuel order max K.
  match goal with |- Regex.regex _ ?g _ _ _ = _ => change g with [mkRule "A" [[Rep 0 0 (ERule "A")]]] in * end.
  set (g := [mkRule "A" [[Rep 0 0 (ERule "A")]]]) in *.
  pose proof (C20_rule_contains_cycle_exact g order "A" ltac:(apply wf_distinct; vm_compute; reflexivity) K) as C.
  unfold Regex.regex. destruct (rule_contains_cycle g order "A") as [|[|]|].
  - exfalso. apply (C [[Rep 0 0 (ERule "A")]]). left. eexists. split; [left; reflexivity|]. split; reflexivity.
  - reflexivity.
  - exfalso. destruct C as [_ C]. assert (false = true); [|discriminate]. apply C. exists "A". split; [apply rt_refl|]. apply t_step.
    exists [[Rep 0 0 (ERule "A")]], "A". split; [left; eexists; split; [left; reflexivity|]; split; reflexivity|].
    split; [|reflexivity]. exists 0%Z, 0%Z. apply (rep_in_here _ [Rep 0 0 (ERule "A")]); left; reflexivity.
  - destruct C.
Qed.

(** ** C66: the invariants *)

(** One answer: IsValid, ParseForest, ParseBSR, the parser GenerateGoParser emits and the
    expression Regex writes all decide the language of the rule.  The hypotheses are those
    of C02 for IsValid, and those of C24 for Regex. *)
Theorem C66_engines_agree_partial : forall g n input,
  wf_grammar g -> lex_grammar g = true -> same_flags g -> bounds_ok g -> groups_not_left_recursive g -> count_ok g input ->
  (exists a, resolves g n a) -> forall order, name_order g order -> fine_first g order ->
  exists b, (b = true <-> Lang g n input) /\
    (forall ordn ord fuel, any_order ordn -> any_order ord -> recog_fuel g input n <= fuel ->
       is_valid ordn order ord fuel g n input = VBool b) /\
    (forall ord fuel max_slots max_nodes f, any_order ord ->
       parse_forest ord fuel input g n max_slots max_nodes = PF_ok f -> f_valid f = b) /\
    (forall ord fuel max_slots max_nodes sg set, any_order ord ->
       parse_bsr ord fuel input g n max_slots max_nodes = BSR_ok sg set -> bsr_valid sg (length input) set = b) /\
    (forall gord fuel pg, any_order gord -> Codegen.generate_go_parser fuel g n = Codegen.Gen_ok pg ->
       exists enough, forall fuel', enough <= fuel' ->
         exists gset, Codegen.g_parse input 0 gord pg fuel' = Codegen.GP_ok gset /\ Codegen.g_valid pg (length input) gset = Some b) /\
    (forall lim fuel korder max_len t, (1 <= lim)%Z -> refs_defined g -> PropRegex.counts_within lim g -> PropRegex.no_lone_surrogate g ->
       Regex.regex fuel g korder max_len n = Regex.Regex_text t ->
       exists x, RegexSpec.reads lim t x /\ (forall y, RegexSpec.reads lim t y -> y = x) /\ (b = true <-> RegexSpec.matches x input)).
Proof.
  intros g n input W L F B HG HC R order K FF.
  assert (T : forall ordn ord fuel, any_order ordn -> any_order ord -> recog_fuel g input n <= fuel ->
    exists b, is_valid ordn order ord fuel g n input = VBool b /\ (b = true <-> Lang g n input)).
  { intros ordn ord fuel On O Hf. exact (C02_valid_exact_partial g n input ordn order ord fuel W L F B HG HC On K FF O R Hf). }
  destruct (T idn idp _ idn_any idp_any (le_n _)) as (b & _ & Hb).
  assert (Eq : forall c, (c = true <-> Lang g n input) -> c = b).
  { intros c Hc. destruct b, c; auto.
    - apply Hc, Hb. reflexivity.
    - symmetry. apply Hb, Hc. reflexivity. }
  exists b. split; [exact Hb|]. split.
  { intros ordn ord fuel On O Hf. destruct (T ordn ord fuel On O Hf) as (c & -> & Hc). f_equal. apply Eq, Hc. }
  split.
  { intros ord fuel ms mn f O E. apply Eq. eapply C05_forest_valid_exact_partial; eauto. apply flags_told_apart; auto. }
  split.
  { intros ord fuel ms mn sg set O E. apply Eq. eapply C06_bsr_valid_exact_partial; eauto. apply flags_told_apart; auto. }
  split.
  { intros gord fuel pg O E.
    assert (Rv : CodegenGlue.rune_values g).
    { intros s vs Oc. apply Forall_forall. intros v Iv. pose proof (PropRegex.occ_char g s vs v L Oc Iv). lia. }
    destruct (PropCodegen.C42_valid_exact_partial gord input g n fuel pg W L (flags_told_apart g F) Rv O E) as (en & P). exists en. intros fuel' F'.
    destruct (P fuel' F') as (gset & v & E1 & E2 & Hv). exists gset. split; auto. rewrite E2. f_equal. apply Eq, Hv. }
  intros lim fuel korder ml t Lm Rd Cw Ns E.
  assert (Bo : bounds_ordered g).
  { intros r mn mx e Ir Ri Nf. destruct (proj1 B mn mx e) as [_ [Q|Q]]; [|contradiction|exact Q].
    apply Occ.occ_rep_in. exists r. split; [apply in_app_iff; auto|exact Ri]. }
  destruct (PropRegex.C24_C25_regex_text_partial lim fuel g korder ml n t Lm W L Rd Bo Cw Ns E) as (x & A1 & A2 & A3).
  exists x. split; auto. split; auto. rewrite Hb. apply A3.
Qed.

(** Outside these hypotheses they disagree: on [a = (a "x") / "y"] and [yx], which
    ParseForest and ParseBSR accept and IsValid refuses. *)
Theorem C66_engines_agree_refuted : exists g n input, wf_grammar g /\ lex_grammar g = true /\ same_flags g /\ bounds_ok g /\ refs_defined g /\
  (exists ordn order ord fuel, any_order ordn /\ name_order g order /\ any_order ord /\ is_valid ordn order ord fuel g n input = VBool false) /\
  (exists f, parse_forest (fun _ l => l) 200 input g n default_max_slots 0 = PF_ok f /\ f_valid f = true) /\
  (exists sg set, parse_bsr (fun _ l => l) 200 input g n default_max_slots 0 = BSR_ok sg set /\ bsr_valid sg (length input) set = true).
Proof.
  exists g_group, "a", (bytes "yx"). split; [apply wf_grammarb_spec; vm_compute; reflexivity|]. split; [vm_compute; reflexivity|].
  split; [apply same_flagsb_spec; vm_compute; reflexivity|]. split; [apply bounds_dec; vm_compute; reflexivity|].
  split; [apply PropRegex.refs_okb_spec; vm_compute; reflexivity|]. split.
  { exists idn, (LeftRec.all_names g_group), idp, 100. split; [exact idn_any|].
    split; [apply all_names_order, wf_distinct; vm_compute; reflexivity|]. split; [exact idp_any|]. vm_compute. reflexivity. }
  split.
  - eexists. split; [vm_compute; reflexivity|]. vm_compute. reflexivity.
  - eexists _, _. split; [vm_compute; reflexivity|]. vm_compute. reflexivity.
Qed.

(** Test_I_Generate_IsValid (invariants_test.go:101-117). *)
Theorem C66_generate_valid_partial : forall gfuel rnd rep_max threshold g n out, (forall t, (0 <= rnd t)%Z) -> generable g ->
  wf_grammar g -> lex_grammar g = true -> same_flags g -> bounds_ok g -> groups_not_left_recursive g -> count_ok g out ->
  generate gfuel rnd rep_max threshold g n = Gen_ok out ->
  forall ordn order ord fuel, any_order ordn -> name_order g order -> fine_first g order -> any_order ord -> recog_fuel g out n <= fuel ->
    is_valid ordn order ord fuel g n out = VBool true.
Proof.
  intros gfuel rnd rm th g n out Rn Gb W L F B HG HC G ordn order ord fuel On K FF O Hf.
  pose proof (C29_generate_in_language_partial gfuel rnd rm th g n out Rn Gb G) as Lo.
  destruct (C02_valid_exact_partial g n out ordn order ord fuel W L F B HG HC On K FF O) as (b & E & Hb); auto.
  - inversion Lo as [? a ? R _| | | | | |]; subst. eauto.
  - rewrite E. f_equal. apply Hb, Lo.
Qed.
(** [a = 3["x"]] generates the empty text, which IsValid refuses. *)
Theorem C66_generate_valid_refuted : exists gfuel rnd g n out, (forall t, (0 <= rnd t)%Z) /\ generable g /\
  wf_grammar g /\ lex_grammar g = true /\ same_flags g /\ bounds_ok g /\ refs_defined g /\
  generate gfuel rnd 6 64 g n = Gen_ok out /\
  exists ordn order ord fuel, any_order ordn /\ name_order g order /\ any_order ord /\ is_valid ordn order ord fuel g n out = VBool false.
Proof.
  exists 20, (fun _ => 1%Z), g_cap, "a", []. split; [intros _; lia|]. split; [apply generableb_spec; vm_compute; reflexivity|].
  split; [apply wf_grammarb_spec; vm_compute; reflexivity|]. split; [vm_compute; reflexivity|].
  split; [apply same_flagsb_spec; vm_compute; reflexivity|]. split; [apply bounds_dec; vm_compute; reflexivity|].
  split; [apply PropRegex.refs_okb_spec; vm_compute; reflexivity|]. split; [vm_compute; reflexivity|].
  exists idn, (LeftRec.all_names g_cap), idp, 100. split; [exact idn_any|].
  split; [apply all_names_order, wf_distinct; vm_compute; reflexivity|]. split; [exact idp_any|]. vm_compute. reflexivity.
Qed.

(** Test_I_String_Idempotent (invariants_test.go:121-131).  Grammar.String writes the rules
    in the order the map yields them, a different one each time. *)
Lemma erase_string : (forall e, elem_string (erase_elem e) = elem_string e) /\ (forall r, rep_string (erase_rep r) = rep_string r).
Proof.
  assert (A : forall a : alternation, Forall (Forall (fun r => rep_string (erase_rep r) = rep_string r)) a ->
    map (fun c => join " " (map rep_string c)) (map (map erase_rep) a) = map (fun c => join " " (map rep_string c)) a).
  { intros a H. rewrite map_map. apply map_ext_in. intros c Ic. f_equal. rewrite map_map. apply map_ext_in. intros r Ir.
    rewrite Forall_forall in H. specialize (H c Ic). rewrite Forall_forall in H. exact (H r Ir). }
  apply elem_rep_ind.
  - reflexivity.
  - intros a H. cbn [erase_elem elem_string]. rewrite (A a H). reflexivity.
  - intros a H. cbn [erase_elem elem_string]. rewrite (A a H). reflexivity.
  - reflexivity.
  - reflexivity.
  - reflexivity.
  - intros mn mx e H. cbn [erase_rep rep_string]. rewrite H. reflexivity.
Qed.
Lemma erase_rule_string r : rule_string (erase_rule r) = rule_string r.
Proof.
  unfold rule_string, erase_rule. cbn [rule_name rule_alt]. do 2 f_equal. unfold alt_string, erase_alt. f_equal. rewrite map_map. apply map_ext. intros c.
  unfold cat_string. f_equal. rewrite map_map. apply map_ext. intros x. apply erase_string.
Qed.
Lemma erase_grammar_string rs : grammar_string (map erase_rule rs) = grammar_string rs.
Proof. unfold grammar_string. f_equal. rewrite map_map. apply map_ext. intros r. rewrite erase_rule_string. reflexivity. Qed.
Lemma distinct_nodup g : distinct_names g -> NoDup g.
Proof. intros D. apply (NoDup_map_inv (fun r => lower (rule_name r))). exact D. Qed.
(** The text of what ParseABNF makes of a printed grammar is a text of the grammar, and it
    can be the very same.  It need not be: see the refutation. *)
Theorem C66_string_stable_partial : forall ord ord' w ds, any_order ord -> any_order ord' -> text_taken w ds ->
  exists enough, forall fuel ordE sh validate st, enough <= fuel -> any_order ordE -> any_shuffle sh ->
    parse_abnf ord ordE sh fuel false validate core_rules w = PA_ok st ->
    forall rs, Permutation rs (rules_of st) -> rs <> [] ->
    exists enough', forall fuel' ordE' sh', enough' <= fuel' -> any_order ordE' -> any_shuffle sh' ->
      exists st', parse_abnf ord' ordE' sh' fuel' false validate core_rules (bytes (grammar_string rs)) = PA_ok st' /\
        (exists rs', Permutation rs' (rules_of st') /\ grammar_string rs' = grammar_string rs) /\
        (forall rs', Permutation rs' (rules_of st') -> exists rs0, Permutation rs0 (rules_of st) /\ grammar_string rs' = grammar_string rs0).
Proof.
  intros ord ord' w ds O O' H. destruct (C57_round_trip ord ord' w ds O O' H) as (en & P).
  destruct (C57_reads ord w ds O H) as (en2 & Q).
  exists (Nat.max en en2). intros fuel ordE sh v st F Oe Sh E rs Pm NE.
  destruct (P fuel ordE sh v st ltac:(lia) Oe Sh E rs Pm NE) as (en' & P'). exists en'. intros fuel' ordE' sh' F' Oe' Sh'.
  destruct (P' fuel' ordE' sh' F' Oe' Sh') as (st' & E' & D' & R'). exists st'. split; auto.
  specialize (Q fuel ordE sh v ltac:(lia) Oe Sh). rewrite E in Q. destruct Q as (_ & D & _ & _).
  assert (Pe : Permutation (map erase_rule (rules_of st)) (rules_of st')).
  { apply NoDup_Permutation.
    - apply (NoDup_map_inv (fun r => lower (rule_name r))). rewrite map_map. exact D.
    - apply distinct_nodup, D'.
    - intros r. rewrite in_map_iff, R'. split; intros (r0 & A & B); exists r0; auto. }
  split.
  - exists (map erase_rule rs). split; [|apply erase_grammar_string]. rewrite <- Pe. apply Permutation_map, Pm.
  - intros rs' Pr. destruct (Permutation_map_inv erase_rule (rules_of st) (l1 := rs')) as (rs0 & -> & P0).
    + rewrite Pr. symmetry. exact Pe.
    + exists rs0. split; [symmetry; exact P0|apply erase_grammar_string].
Qed.
(** With two rules String need not return the same text again. *)
Definition two_rules : list Z := bytes "a=b" ++ [13; 10]%Z ++ bytes "b=a" ++ [13; 10]%Z.
Theorem C66_string_stable_refuted : exists w fuel st rs fuel' st' rs',
  parse_abnf (fun _ l => l) (fun _ l => l) (fun _ l => l) fuel false true core_rules w = PA_ok st /\ Permutation rs (rules_of st) /\
  parse_abnf (fun _ l => l) (fun _ l => l) (fun _ l => l) fuel' false true core_rules (bytes (grammar_string rs)) = PA_ok st' /\
  Permutation rs' (rules_of st') /\ grammar_string rs' <> grammar_string rs.
Proof.
  exists two_rules, 400. eexists. exists [mkRule "a" [[Rep 1 1 (ERule "b")]]; mkRule "b" [[Rep 1 1 (ERule "a")]]], 1500. eexists.
  exists [mkRule "b" [[Rep 1 1 (ERule "a")]]; mkRule "a" [[Rep 1 1 (ERule "b")]]].
  split; [vm_compute; reflexivity|]. split.
  { match goal with |- Permutation _ ?l => let l' := eval vm_compute in l in change l with l' end. first [apply perm_swap|apply Permutation_refl]. }
  split; [vm_compute; reflexivity|]. split.
  { match goal with |- Permutation _ ?l => let l' := eval vm_compute in l in change l with l' end. first [apply perm_swap|apply Permutation_refl]. }
  vm_compute. discriminate.
Qed.

(** ** Cases *)
(** A long text generated from draws that are not constant, accepted by IsValid. *)
Definition some_draws (t : nat) : Z := (let z := Z.of_nat t in (z * z * 7 + z * 3) mod 11)%Z.
Example C65_case : exists out, (forall t, (0 <= some_draws t)%Z) /\
  generate 60 some_draws 3 40 abnf_grammar "rule" = Gen_ok out /\ 20 < length out /\
  any_order idn /\ name_order abnf_grammar (LeftRec.all_names abnf_grammar) /\ any_order idp.
Proof.
  eexists. split; [intros t; apply Z.mod_pos_bound; lia|]. split; [vm_compute; reflexivity|]. split; [vm_compute; lia|].
  split; [exact idn_any|]. split; [apply all_names_order; exact (proj1 abnf_wf)|exact idp_any].
Qed.
(** [g_calc] of C02 is left recursive; [g_words] is in the domain of Regex too. *)
Definition g_words : grammar :=
  [mkRule "a" [[one (ERule "word"); Rep 0 (-1)%Z (EGroup [[one (lit ","); one (ERule "WORD")]])]]; mkRule "word" [[Rep 1 2 (ERule "ALPHA")]; [one (lit "9")]]].
Lemma g_words_wf : wf_grammar g_words.
Proof. apply wf_grammarb_spec. vm_compute. reflexivity. Qed.
Example C66_case : wf_grammar g_words /\ lex_grammar g_words = true /\ same_flags g_words /\ bounds_ok g_words /\ groups_not_left_recursive g_words /\
  (forall input, count_ok g_words input) /\ (exists a, resolves g_words "A" a) /\
  (forall order, name_order g_words order -> fine_first g_words order) /\ refs_defined g_words /\ generable g_words /\
  is_valid idn (LeftRec.all_names g_words) idp 200 g_words "A" (bytes "9,pq,9") = VBool true /\
  is_valid idn (LeftRec.all_names g_words) idp 200 g_words "A" (bytes "9,pqr") = VBool false /\
  exists t, Regex.regex 30 g_words (map fst (dependency_graph g_words)) 0 "A" = Regex.Regex_text t.
Proof.
  split; [exact g_words_wf|]. split; [vm_compute; reflexivity|]. split; [apply same_flagsb_spec; vm_compute; reflexivity|].
  split; [apply bounds_dec; vm_compute; reflexivity|].
  split; [refine (groups_shallow_ok g_words (proj1 g_words_wf) 20 _); vm_compute; reflexivity|].
  split; [intros input; apply small_count_ok; vm_compute; reflexivity|].
  split; [apply get_rule_some; eexists; reflexivity|].
  split; [intros order K; apply (shallow_fine g_words 20); [exact (proj1 g_words_wf)|exact K|vm_compute; reflexivity]|].
  split; [apply PropRegex.refs_okb_spec; vm_compute; reflexivity|]. split; [apply generableb_spec; vm_compute; reflexivity|].
  split; [vm_compute; reflexivity|]. split; [vm_compute; reflexivity|]. eexists. vm_compute. reflexivity.
Qed.

Print Assumptions C65_abnf_valid_exact.
Print Assumptions C65_generated_valid.
Print Assumptions C65_parse_outcomes.
Print Assumptions C65_generated_abnf.
Print Assumptions C65_regex_refuted.
Print Assumptions C66_engines_agree_partial.
Print Assumptions C66_engines_agree_refuted.
Print Assumptions C66_generate_valid_partial.
Print Assumptions C66_generate_valid_refuted.
Print Assumptions C66_string_stable_partial.
Print Assumptions C66_string_stable_refuted.
