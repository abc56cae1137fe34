(** C89: IsValid, Generate, NewASTGenerator, ParseForest and ParseBSR under every name that finds
    a rule. *)
(** The definitions here are those of statements, proofs and examples; they model no code. *)
From Coq Require Import ZArith Arith String Ascii Bool Relations List Lia.
From Verif Require Import Syntax Spec Utf8 Printer Check LeftRec PropLeftRec Generate Ast Slots Gll Bsr Sppf LowerLang Apart PropGll
  Names NamesProof PropNames Recog RecogProof RecogGlue RecogCheck PropRecog Spell SpellProof.
Import ListNotations.
Local Open Scope string_scope.
Local Open Scope list_scope.
Local Open Scope nat_scope.

(** ** On ASCII names the functions are those of the other files. *)
Theorem C89_ascii_names : forall lw ordn order ord fuel g n input rnd rm thr ords ordf ordb ms mn, go_lower lw -> lex_grammar g = true ->
  all_chars (fun c => (cval c <? 128)%Z) n = true ->
  is_valid_u lw ordn order ord fuel g n input = is_valid ordn order ord (S fuel) g n input /\
  generate_u fuel rnd rm thr g n = generate fuel rnd rm thr g n /\
  new_ast_u fuel ords g n = new_ast fuel ords g n /\
  parse_forest_u ordf fuel input g n ms mn = parse_forest ordf fuel input g n ms mn /\
  parse_bsr_u ordb fuel input g n ms mn = parse_bsr ordb fuel input g n ms mn.
Proof.
  intros lw ordn order ord fuel g n input rnd rm thr ords ordf ordb ms mn Lw L A. pose proof (respell_refl n A) as R.
  split; [exact (valid_same lw Lw ordn order ord fuel g n input L A)|].
  split; [destruct (generate_respell g false n n L R fuel rnd rm thr) as [E|[E1 E2]]; congruence|].
  split; [destruct (new_ast_respell g false n n L R fuel ords) as [E|[E1 E2]]; congruence|].
  unfold parse_forest_u, parse_forest, parse_bsr_u, parse_bsr. rewrite (compile_same g n ms fuel L A). split; reflexivity.
Qed.

(** ** IsValid, under the hypotheses of C02, answers for the rule GetRule finds, whatever the
    spelling of the name.  Missing: the grammars missing for C02; [C89_valid_refuted]. *)
Theorem C89_valid_partial : forall lw g n r input ordn order ord fuel, go_lower lw ->
  wf_grammar g -> lex_grammar g = true -> same_flags g -> bounds_ok g ->
  groups_not_left_recursive g -> count_ok g input ->
  any_order ordn -> name_order g order -> fine_first g order -> any_order ord ->
  get_rule_u n g = Some r -> recog_fuel g input (rule_name r) <= fuel ->
  exists v, is_valid_u lw ordn order ord fuel g n input = VBool v /\ (v = true <-> Lang g (rule_name r) input).
Proof.
  intros lw g n r input ordn order ord fuel Lw W L F B HG HC On K FF O G Hf.
  destruct (get_found n g r L G) as (b & m & Rs & Gm).
  rewrite (fuel_any g input (rule_name r) m) in Hf.
  destruct (valid_respell lw Lw g b n m input ordn order ord fuel W L F B HG HC On K FF O Rs) as (v & Ev & Hv); [apply get_rule_some; eauto|exact Hf|].
  exists v. split; [exact Ev|]. rewrite Hv. apply (lang_found g m r input Gm).
Qed.

(** ** Generate and NewASTGenerator do what they do for the ASCII name, but for the name in the
    error. *)
Theorem C89_generate : forall g b n m, lex_grammar g = true -> respell b n m -> forall fuel rnd rep_max threshold,
  generate_u fuel rnd rep_max threshold g n = generate fuel rnd rep_max threshold g m \/
  (generate_u fuel rnd rep_max threshold g n = Gen_cyclic n /\ generate fuel rnd rep_max threshold g m = Gen_cyclic m).
Proof. exact generate_respell. Qed.
Theorem C89_ast : forall g b n m, lex_grammar g = true -> respell b n m -> forall fuel ord,
  new_ast_u fuel ord g n = new_ast fuel ord g m \/
  (new_ast_u fuel ord g n = New_unproductive n /\ new_ast fuel ord g m = New_unproductive m).
Proof. exact new_ast_respell. Qed.

(** ** ParseForest and ParseBSR, when they return, are right about the rule GetRule finds.
    Missing: the grammars missing for C05 and C06. *)
Theorem C89_forest_partial : forall ord fuel input g n r max_slots max_nodes f, any_order ord ->
  wf_grammar g -> lex_grammar g = true -> told_apart g -> get_rule_u n g = Some r ->
  parse_forest_u ord fuel input g n max_slots max_nodes = PF_ok f ->
  (f_valid f = true <-> Lang g (rule_name r) input).
Proof.
  intros ord fuel input g n r ms mn f O W L T G E. destruct (get_found n g r L G) as (b & m & Rs & Gm).
  rewrite (forest_respell ord fuel input g b n m ms mn f O W L T Rs E). apply (lang_found g m r input Gm).
Qed.
Theorem C89_bsr_partial : forall ord fuel input g n r max_slots max_nodes sg set, any_order ord ->
  wf_grammar g -> lex_grammar g = true -> told_apart g -> get_rule_u n g = Some r ->
  parse_bsr_u ord fuel input g n max_slots max_nodes = BSR_ok sg set ->
  (bsr_valid sg (length input) set = true <-> Lang g (rule_name r) input).
Proof.
  intros ord fuel input g n r ms mn sg set O W L T G E. destruct (get_found n g r L G) as (b & m & Rs & Gm).
  rewrite (bsr_respell ord fuel input g b n m ms mn sg set O W L T Rs E). apply (lang_found g m r input Gm).
Qed.

(** ** They return, under every byte string as a name, and within their budget of nodes or
    elements. *)
Theorem C89_ends : forall ord ordb input g n max_slots max_nodes, any_order ord -> any_order ordb -> lex_grammar g = true ->
  exists enough, forall fuel, enough <= fuel ->
    parse_forest_u ord fuel input g n max_slots max_nodes <> PF_fuel /\ parse_bsr_u ordb fuel input g n max_slots max_nodes <> BSR_fuel.
Proof.
  intros ord ordb input g n ms mn O Ob L. destruct (forest_u_ends ord input g n ms mn O L) as (F & HF). destruct (bsr_u_ends ordb input g n ms mn Ob L) as (B & HB).
  exists (Nat.max F B). intros fuel Le. split; [apply HF; lia|apply HB; lia].
Qed.
Theorem C89_budget : forall input g n max_slots max_nodes, (0 < max_nodes)%Z ->
  (forall ord fuel f, parse_forest_u ord fuel input g n max_slots max_nodes = PF_ok f ->
     (Z.of_nat (length (f_nodes f)) <= max_nodes)%Z /\ f_built f = length (f_nodes f)) /\
  (forall ord fuel sg set, parse_bsr_u ord fuel input g n max_slots max_nodes = BSR_ok sg set -> (Z.of_nat (length set) <= max_nodes)%Z).
Proof.
  intros input g n ms mn M. split; [intros ord fuel f; apply forest_u_budget, M|intros ord fuel sg set; apply bsr_u_budget, M].
Qed.
(** The slots are within theirs. *)
Theorem C89_slot_budget : forall g n max fuel sg, (0 < max)%Z -> compile_slots_u g n max fuel = CS_ok sg -> (Z.of_nat (length (sg_nts sg)) <= max)%Z.
Proof. exact compile_u_budget. Qed.

(** ** A grammar meeting the hypotheses: s = s "x" / 1*3ok "y"; ok = "k" SP *)
Definition g89 : grammar :=
  [mkRule "s" [[one (ERule "s"); one (lit "x")]; [Rep 1 3 (ERule "ok"); one (lit "y")]];
   mkRule "ok" [[one (lit "k"); one (ERule "SP")]]].
(** o U+212A, and U+017F p for the core rule SP. *)
Definition o_kelvin : string := "o" ++ String "226" (String "132" (String "170" "")).
Definition long_sp : string := long_s ++ "p".
Lemma g89_wf : wf_grammar g89.
Proof. apply wf_grammarb_spec. vm_compute. reflexivity. Qed.
Lemma g89_flags : same_flags g89.
Proof. apply same_flagsb_spec. vm_compute. reflexivity. Qed.
Lemma g89_order : name_order g89 (first_name "ok" g89).
Proof. apply first_name_order; [exact (proj1 g89_wf)|vm_compute; auto 20]. Qed.
Lemma g89_bounds : bounds_ok g89.
Proof. apply bounds_dec. vm_compute. reflexivity. Qed.
Lemma g89_groups : groups_not_left_recursive g89.
Proof. refine (groups_shallow_ok g89 (proj1 g89_wf) 10 _). vm_compute. reflexivity. Qed.
Lemma g89_fine order : fine_first g89 order.
Proof.
  intros n rest _ _. eapply (single_classes g89 idn (first_name "ok" g89) "ok" _ 10);
    [exact idn_any|exact g89_order|exact (proj1 g89_wf)|exact g89_bounds|reflexivity|vm_compute; reflexivity|vm_compute; reflexivity].
Qed.
Example C89_case :
  go_lower lr0 /\ wf_grammar g89 /\ lex_grammar g89 = true /\ same_flags g89 /\ told_apart g89 /\ bounds_ok g89 /\ groups_not_left_recursive g89 /\
  count_ok g89 (bytes "k yx") /\ any_order idn /\ name_order g89 (first_name "ok" g89) /\ fine_first g89 (first_name "ok" g89) /\ any_order idp /\
  (respell true long_s "s" /\ respell false o_kelvin "ok" /\ respell true long_sp "sp") /\
  (option_map rule_name (get_rule_u long_s g89) = Some "s" /\ option_map rule_name (get_rule_u o_kelvin g89) = Some "ok" /\
   option_map rule_name (get_rule_u long_sp g89) = Some "SP") /\
  is_valid_u lr0 idn (first_name "ok" g89) idp 400 g89 long_s (bytes "k yx") = VBool true /\
  is_valid_u lr0 idn (first_name "ok" g89) idp 400 g89 long_s (bytes "k x") = VBool false /\
  is_valid_u lr0 idn (first_name "ok" g89) idp 400 g89 o_kelvin (bytes "K ") = VBool true /\
  is_valid_u lr0 idn (first_name "ok" g89) idp 400 g89 long_sp (bytes "x") = VBool false.
Proof.
  split; [exact lr0_ok|]. split; [exact g89_wf|]. split; [reflexivity|]. split; [exact g89_flags|]. split; [apply told_apartb_spec; vm_compute; reflexivity|]. split; [exact g89_bounds|].
  split; [exact g89_groups|]. split; [apply count_okb_spec; vm_compute; reflexivity|]. split; [exact idn_any|]. split; [exact g89_order|].
  split; [apply g89_fine|]. split; [exact idp_any|]. split.
  - split; [apply (rs_long_s false "" ""); constructor|]. split.
    + apply rs_char; [reflexivity|]. apply rs_kelvin. constructor.
    + apply (rs_long_s false "p" "p"). apply rs_char; [reflexivity|constructor].
  - split; [vm_compute; auto|]. split; [vm_compute; reflexivity|]. split; [vm_compute; reflexivity|]. split; vm_compute; reflexivity.
Qed.
(** The parsers, and the generators, under those names. *)
Example C89_case_parsers :
  (exists f, parse_forest_u (fun _ l => l) 200 (bytes "k yx") g89 long_s default_max_slots 0 = PF_ok f /\ f_valid f = true) /\
  (exists sg set, parse_bsr_u (fun _ l => l) 200 (bytes "k x") g89 long_s default_max_slots 0 = BSR_ok sg set /\ bsr_valid sg 3 set = false) /\
  generate_u 20 (fun _ => 0%Z) 16 256 g89 o_kelvin = Gen_ok (bytes "K ") /\
  generate_u 20 (fun _ => 0%Z) 16 256 [mkRule "s" [[one (ERule "s")]]] long_s = Gen_cyclic long_s /\
  new_ast_u 20 (fun _ l => l) [mkRule "s" [[one (ERule "s")]]] long_s = New_unproductive long_s.
Proof.
  split; [eexists; split; [vm_compute; reflexivity|vm_compute; reflexivity]|].
  split; [eexists _, _; split; [vm_compute; reflexivity|vm_compute; reflexivity]|].
  split; [vm_compute; reflexivity|]. split; vm_compute; reflexivity.
Qed.

Example C89_case_budget :
  parse_forest_u (fun _ l => l) 200 (bytes "k yx") g89 long_s default_max_slots 9 = PF_forest_too_large /\
  parse_bsr_u (fun _ l => l) 200 (bytes "k yx") g89 long_s default_max_slots 7 = BSR_forest_too_large /\
  (exists f, parse_forest_u (fun _ l => l) 200 (bytes "k yx") g89 long_s default_max_slots 40 = PF_ok f /\ length (f_nodes f) = 13) /\
  (exists sg set, parse_bsr_u (fun _ l => l) 200 (bytes "k yx") g89 long_s default_max_slots 40 = BSR_ok sg set /\ length set = 8) /\
  (exists sg, compile_slots_u g89 long_s 6 20 = CS_ok sg /\ length (sg_nts sg) = 5) /\ compile_slots_u g89 long_s 5 20 = CS_too_large.
Proof.
  split; [vm_compute; reflexivity|]. split; [vm_compute; reflexivity|].
  split; [eexists; split; [vm_compute; reflexivity|vm_compute; reflexivity]|].
  split; [eexists _, _; split; [vm_compute; reflexivity|vm_compute; reflexivity]|].
  split; [eexists; split; [vm_compute; reflexivity|vm_compute; reflexivity]|vm_compute; reflexivity].
Qed.

(** ** That IsValid answers as under the ASCII name, for every grammar, is false: s = (s "x") / "y"
    on yx.  Under U+017F the group is first met outside the search from s, and finds what the
    search from s does not. *)
Definition g89_group : grammar := [mkRule "s" [[one (EGroup [[one (ERule "s"); one (lit "x")]])]; [one (lit "y")]]].
Theorem C89_valid_refuted : exists g n m input order, wf_grammar g /\ lex_grammar g = true /\ same_flags g /\ name_order g order /\ respell true n m /\
  get_rule m g <> None /\ Lang g m input /\
  is_valid_u lr0 idn order idp 400 g n input = VBool true /\ is_valid idn order idp 400 g m input = VBool false.
Proof.
  exists g89_group, long_s, "s", (bytes "yx"), (all_names g89_group).
  split; [apply wf_grammarb_spec; vm_compute; reflexivity|]. split; [reflexivity|]. split; [apply same_flagsb_spec; vm_compute; reflexivity|].
  split; [apply all_names_order; apply wf_distinct; vm_compute; reflexivity|]. split; [exact g84_s|]. split; [discriminate|]. split.
  - destruct (parse_forest (fun _ l => l) 100 (bytes "yx") g89_group "s" default_max_slots 0) as [f| | | |] eqn:E; try (vm_compute in E; discriminate E).
    eapply (C05_forest_valid_exact_partial _ _ _ _ _ _ _ _ id_order); [| | |exact E|].
    + apply wf_grammarb_spec. vm_compute. reflexivity.
    + reflexivity.
    + apply told_apartb_spec. vm_compute. reflexivity.
    + vm_compute in E. injection E as <-. vm_compute. reflexivity.
  - split; vm_compute; reflexivity.
Qed.

(** ** That ParseForest and ParseBSR return under every name under the same budget of slots is
    false: a rule that refers to itself is lowered once more. *)
Theorem C89_slots_refuted : exists g n m max_slots f, wf_grammar g /\ lex_grammar g = true /\ respell true n m /\ get_rule m g <> None /\
  parse_forest (fun _ l => l) 200 (bytes "k yx") g m max_slots 0 = PF_ok f /\
  parse_forest_u (fun _ l => l) 200 (bytes "k yx") g n max_slots 0 = PF_grammar_too_large.
Proof.
  exists g89, long_s, "s", 5%Z. eexists. split; [exact g89_wf|]. split; [reflexivity|]. split; [exact g84_s|]. split; [discriminate|].
  split; [vm_compute; reflexivity|]. vm_compute. reflexivity.
Qed.

Print Assumptions C89_ascii_names.
Print Assumptions C89_valid_partial.
Print Assumptions C89_generate.
Print Assumptions C89_ast.
Print Assumptions C89_forest_partial.
Print Assumptions C89_bsr_partial.
Print Assumptions C89_ends.
Print Assumptions C89_budget.
Print Assumptions C89_slot_budget.
Print Assumptions C89_valid_refuted.
Print Assumptions C89_slots_refuted.
