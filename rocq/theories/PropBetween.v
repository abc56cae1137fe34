(** C86-C88: what the GLL engines and IsValid accept when definitions differ by [%s] only. *)
(** The definitions here without a citation are those of statements, proofs and examples; they model no code. *)
From Coq Require Import ZArith Arith String Ascii Bool List Lia.
From Verif Require Import Syntax Spec Check Utf8 Num Term Printer Slots Gll Bsr BsrProof BsrTerm Sppf LowerProof LowerLang PropGll Apart Between Marked
  Codegen CodegenGlue PropCodegen LeftRec PropLeftRec Recog RecogProof RecogComplete RecogGlue PropRecog MarkCore RecogUpper RecogLower.
From Verif Require RecogCheck PropRegex PropInvariants.
Import ListNotations.
Local Open Scope string_scope.
Local Open Scope list_scope.
Local Open Scope Z_scope.

(** The lowered grammar lies between any two told-apart grammars that bound the given one:
    [lo] has [%s] wherever [g] has, [hi] only where [g] has. *)
Theorem C86_lowering_between : forall lo g hi root max_slots fuel sg,
  wf_grammar g -> lex_grammar g = true -> narrows lo g -> narrows g hi -> told_apart lo -> told_apart hi ->
  compile_slots g root max_slots fuel = CS_ok sg ->
  forall input, (Lang lo root input -> sg_accepts sg input) /\ (sg_accepts sg input -> Lang hi root input).
Proof.
  intros lo g hi root ms fuel sg W L Nl Nh Al Ah C input.
  destruct (narrows_grammar_ok _ _ Nl) as [Wl Ll]. destruct (narrows_grammar_ok _ _ Nh) as [Wh Lh].
  pose proof (compile_le lo g root ms fuel Nl) as Cl. pose proof (compile_le g hi root ms fuel Nh) as Ch. rewrite C in Cl, Ch.
  destruct (compile_slots lo root ms fuel) as [sl| | |] eqn:El; try (destruct Cl; fail).
  destruct (compile_slots hi root ms fuel) as [sh| | |] eqn:Eh; try (destruct Ch; fail). split; intros H.
  - apply (accepts_le sl sg input Cl). apply (C09_lowering_preserves_language_partial lo root ms fuel sl); auto; [tauto|congruence].
  - apply (accepts_le sg sh input Ch) in H. apply (C09_lowering_preserves_language_partial hi root ms fuel sh) in H; auto; [tauto|congruence].
Qed.

(** Of every grammar: what is derived with [%s] on every string is accepted, and what is
    accepted is derived with [%s] on none. *)
Theorem C86_lowering : forall g root max_slots fuel sg, wf_grammar g -> lex_grammar g = true ->
  compile_slots g root max_slots fuel = CS_ok sg ->
  forall input, (Lang (mark true g) root input -> sg_accepts sg input) /\ (sg_accepts sg input -> Lang (mark false g) root input).
Proof.
  intros g root ms fuel sg W L C input. destruct (mark_narrows_grammar g) as [Nl Nh].
  eapply C86_lowering_between; eauto; apply mark_apart.
Qed.
(** The language of the grammar lies between the same two. *)
Theorem C86_bounds : forall g root input,
  (Lang (mark true g) root input -> Lang g root input) /\ (Lang g root input -> Lang (mark false g) root input).
Proof. intros g root input. split; apply lang_le, mark_narrows_grammar. Qed.
(** So the engines are right, whatever the grammar, on every input on which the two agree. *)
Theorem C86_agree : forall ord fuel input g root max_slots max_nodes f,
  any_order ord -> wf_grammar g -> lex_grammar g = true ->
  parse_forest ord fuel input g root max_slots max_nodes = PF_ok f ->
  (Lang (mark false g) root input -> Lang (mark true g) root input) ->
  (f_valid f = true <-> Lang g root input).
Proof.
  intros ord fuel input g root ms mn f O W L E A. pose proof (parse_forest_ok _ _ _ _ _ _ _ _ E) as (C & _).
  rewrite (forest_accepts ord fuel input g root ms mn f O E). pose proof (C86_lowering g root ms fuel _ W L C input). pose proof (C86_bounds g root input). tauto.
Qed.

(** ParseForest (sppf.go:668-692). *)
Theorem C86_forest : forall ord fuel input g root max_slots max_nodes f,
  any_order ord -> wf_grammar g -> lex_grammar g = true ->
  parse_forest ord fuel input g root max_slots max_nodes = PF_ok f ->
  (Lang (mark true g) root input -> f_valid f = true) /\ (f_valid f = true -> Lang (mark false g) root input).
Proof.
  intros ord fuel input g root ms mn f O W L E. pose proof (parse_forest_ok _ _ _ _ _ _ _ _ E) as (C & _).
  rewrite (forest_accepts ord fuel input g root ms mn f O E). eapply C86_lowering; eauto.
Qed.
(** ParseBSR (bsr.go:557-589). *)
Theorem C86_bsr : forall ord fuel input g root max_slots max_nodes sg set,
  any_order ord -> wf_grammar g -> lex_grammar g = true ->
  parse_bsr ord fuel input g root max_slots max_nodes = BSR_ok sg set ->
  (Lang (mark true g) root input -> bsr_valid sg (length input) set = true) /\
  (bsr_valid sg (length input) set = true -> Lang (mark false g) root input).
Proof.
  intros ord fuel input g root ms mn sg set O W L E. pose proof (parse_bsr_ok _ _ _ _ _ _ _ _ _ E) as (C & _).
  rewrite (bsr_accepts ord fuel input g root ms mn sg set O E). eapply C86_lowering; eauto.
Qed.
(** The parser emitted by GenerateGoParser, run without a budget. *)
Theorem C86_emitted : forall gord input g root fuel pg, wf_grammar g -> lex_grammar g = true -> rune_values g -> any_order gord ->
  generate_go_parser fuel g root = Gen_ok pg ->
  exists enough, forall fuel', (enough <= fuel')%nat ->
    exists gset v, g_parse input 0 gord pg fuel' = GP_ok gset /\ g_valid pg (length input) gset = Some v /\
      (Lang (mark true g) root input -> v = true) /\ (v = true -> Lang (mark false g) root input).
Proof.
  intros gord input g root fuel pg W Lx Rv O G. destruct (C42_same_run gord input 0 g root fuel pg W Rv O G) as (ord & Oo & H).
  destruct (C07_bsr_terminates ord input g root default_max_slots 0 Oo) as [n N]. exists (Nat.max fuel n). intros fuel' F.
  specialize (H fuel' ltac:(lia)). specialize (N fuel' ltac:(lia)).
  destruct (parse_bsr ord fuel' input g root default_max_slots 0) as [sg set| | | |] eqn:P; try contradiction; try congruence.
  - destruct H as (gset & E & _ & V). exists gset, (bsr_valid sg (length input) set). split; auto. split; auto.
    eapply C86_bsr; eauto.
  - exfalso. unfold parse_bsr in P. destruct (compile_slots _ _ _ _) as [sg| | |]; try discriminate.
    destruct (b_parse _ _ _ _ _) as [st|] eqn:B; [|discriminate]. destruct (b_aborted st) eqn:A; [|discriminate].
    destruct (bsr_abandons _ _ _ _ _ _ B A). lia.
Qed.

(** IsValid (grammar.go:19-40, recognize.go): the same upper bound, of every grammar. *)
Theorem C87_valid_upper : forall g n input ordn order ord fuel,
  wf_grammar g -> lex_grammar g = true -> any_order ordn -> name_order g order -> any_order ord ->
  is_valid ordn order ord fuel g n input = VBool true -> Lang (mark false g) n input.
Proof.
  intros g n input ordn order ord fuel W L On K O H. unfold is_valid in H.
  destruct (get_rule n g) as [r|] eqn:G; [|discriminate].
  destruct (analysis_total g ordn order On K) as (lr & E & LI & Nd & Lo). rewrite E in H.
  assert (Ln : lex_name n = true).
  { destruct (proj1 (get_rule_some g n)) as (a & R); [eauto|]. eapply resolves_lex; eauto. }
  assert (LL : forall m scc x, lr m = Some scc -> In x scc -> lex_name x = true).
  { intros m scc x Hm Ix. destruct (Lo m scc x Hm Ix) as [_ (a & R)]. eapply resolves_lex; eauto. }
  pose proof (reach_wide g input lr ord fuel n O W L LL Ln) as P.
  destruct (reach_elem g input lr ord fuel (ERule n) 0 r_init) as [ends st| |]; try discriminate.
  injection H as H. apply mem_nat_in in H. destruct (P _ H) as (w & I & Sp). apply span_whole in Sp. subst w. exact I.
Qed.
(** [a = "x" "z" / %s"x" "y"] accepts "Xy", which it does not derive (C01_valid_sound_refuted);
    it derives it without [%s]. *)
Example C87_valid_upper_case : wf_grammar g_flags /\ lex_grammar g_flags = true /\ name_order g_flags (all_names g_flags) /\
  is_valid idn (all_names g_flags) idp 50 g_flags "a" (bytes "Xy") = VBool true /\
  is_valid idn (all_names g_flags) idp 50 g_flags "a" (bytes "Xx") = VBool false.
Proof.
  split; [gwf|]. split; [vm_compute; reflexivity|]. split; [apply all_names_order; apply wf_distinct; vm_compute; reflexivity|].
  split; vm_compute; reflexivity.
Qed.

(** The lower bound, marking the core rules too: the store of the recognizer gives ["A"] of
    HEXDIG (rules.go:241-324) and a [%s"A"] of the grammar one key.  Missing, as for
    C02_valid_exact_partial and refuted there: left recursion through a group or option,
    counts above two outside [count_ok], the search order of [C45_mutual_refuted]. *)
Theorem C88_valid_between_partial : forall g n input ordn order ord fuel,
  wf_grammar g -> lex_grammar g = true -> bounds_ok g ->
  groups_not_left_recursive (mark true (with_core g)) -> count_ok (mark false g) input ->
  any_order ordn -> name_order g order -> fine_first g order -> any_order ord ->
  (exists a, resolves g n a) -> (recog_fuel g input n <= fuel)%nat ->
  exists b, is_valid ordn order ord fuel g n input = VBool b /\
    (Lang (mark true (with_core g)) n input -> b = true) /\ (b = true -> Lang (mark false g) n input).
Proof.
  intros g n input ordn order ord fuel W L B HG HC On K FF O R Hf.
  pose proof (C87_valid_upper g n input ordn order ord fuel W L On K O) as U. revert U. unfold is_valid.
  destruct (proj2 (get_rule_some g n) R) as (r & ->).
  destruct (class_facts g ordn order On K (proj1 W) B FF) as (lr & E & LI & LC & Lo & L1 & L2 & L3 & L4). rewrite E.
  assert (Ln : lex_name n = true) by (destruct R as (a & R); eapply resolves_lex; eauto).
  assert (LL : forall m scc x, lr m = Some scc -> In x scc -> lex_name x = true).
  { intros m scc x Hm Ix. destruct (Lo m scc x Hm Ix) as [_ (a & R')]. eapply resolves_lex; eauto. }
  assert (LLow : forall m scc x, lr m = Some scc -> In x scc -> lower x = x) by (intros m scc x Hm Ix; apply (Lo m scc x Hm Ix)).
  assert (RO : forall r, occ_rep g r -> repok input (wide g input) r).
  { intros [mn mx e] Oc. apply (proj2 (occ_h g)) in Oc. exact (count_repok (mark false g) input (h_wf g W) HC _ Oc). }
  assert (M1 : forall m, lr (lower m) = None -> ~ corners (mark true (with_core g)) (ERule m) (ERule m)).
  { intros m Hm H. apply (L1 m Hm). apply (corners_alike _ _ _ _ (alike_tg g)). exact H. }
  assert (M2 : forall x scc m, lr (lower x) = Some scc -> corners (mark true (with_core g)) (ERule x) (ERule m) ->
    corners (mark true (with_core g)) (ERule m) (ERule x) -> In (lower m) scc).
  { intros x scc m Hx H1 H2. apply (L2 x scc m Hx); apply (corners_alike _ _ _ _ (alike_tg g)); assumption. }
  assert (M3 : forall m scc x y, lr m = Some scc -> In x scc -> In y scc -> corners (mark true (with_core g)) (ERule x) (ERule y)).
  { intros m scc x y Hm Ix Iy. apply (corners_alike _ _ _ _ (alike_gt g)). eapply L3; eauto. }
  pose proof (recognizer_low g input lr ord O W L LI LC LL LLow M1 M2 M3 L4 HG RO fuel n Ln) as P.
  assert (T : good False True (reach_elem g input lr ord fuel (ERule n) 0 r_init) (fun _ _ => True)).
  { eapply good_weaken; [apply (reach_elem_t g input lr ord n O LI)|]; auto.
    - left. reflexivity.
    - lia.
    - intros k s [Q|Q]; discriminate.
    - pose proof (recog_fuel_enough g input n). lia. }
  assert (N : good True False (reach_elem g input lr ord fuel (ERule n) 0 r_init) (fun _ _ => True)).
  { eapply good_weaken; [apply (reach_elem_n g input lr ord O LI LC fuel (ERule n) 0 (fun _ => None))|]; auto.
    - intros a sc b i _ _ Q. discriminate.
    - intros k. reflexivity. }
  destruct (reach_elem g input lr ord fuel (ERule n) 0 r_init) as [ends st| |]; [|destruct T|destruct N].
  intros U. eexists. split; [reflexivity|]. split.
  - intros I. apply mem_nat_in. cbn in P. apply P. exists input. split; [exact I|apply span_self].
  - intros Hb. apply U. f_equal. exact Hb.
Qed.
(** The language of the grammar lies between the two, so IsValid is right wherever they agree. *)
Theorem C88_valid_agree_partial : forall g n input ordn order ord fuel,
  wf_grammar g -> lex_grammar g = true -> bounds_ok g ->
  groups_not_left_recursive (mark true (with_core g)) -> count_ok (mark false g) input ->
  any_order ordn -> name_order g order -> fine_first g order -> any_order ord ->
  (exists a, resolves g n a) -> (recog_fuel g input n <= fuel)%nat ->
  (Lang (mark false g) n input -> Lang (mark true (with_core g)) n input) ->
  exists b, is_valid ordn order ord fuel g n input = VBool b /\ (b = true <-> Lang g n input).
Proof.
  intros g n input ordn order ord fuel W L B HG HC On K FF O R Hf A.
  destruct (C88_valid_between_partial g n input ordn order ord fuel W L B HG HC On K FF O R Hf) as (b & E & H1 & H2).
  exists b. split; [exact E|]. split; intros H.
  - apply with_core_lang. apply (proj1 (C86_bounds (with_core g) n input)). auto.
  - apply H1, A. apply (C86_bounds g). exact H.
Qed.

(** [e = e "+" k / k], [k = "x" ["y"] / 2%s"x"]: left recursive and mixing both kinds.  "x+xx"
    is derived with [%s] everywhere and accepted; "x+y" is refused. *)
Definition g_mix : grammar :=
  [mkRule "e" [[one (ERule "e"); one (lit "+"); one (ERule "k")]; [one (ERule "k")]];
   mkRule "k" [[one (lit "x"); one (EOption [[one (lit "y")]])]; [Rep 2 2 (slit "x")]]].
Lemma g_mix_wf : wf_grammar g_mix.
Proof. gwf. Qed.
Lemma g_mix_order : name_order g_mix (first_name "k" g_mix).
Proof. apply first_name_order; [exact (proj1 g_mix_wf)|vm_compute; auto 20]. Qed.
Lemma g_mix_fine order : fine_first g_mix order.
Proof.
  intros n rest _ _. eapply (RecogCheck.single_classes g_mix idn (first_name "k" g_mix) "k" _ 10);
    [exact idn_any|exact g_mix_order|exact (proj1 g_mix_wf)|apply bounds_dec; vm_compute; reflexivity|reflexivity|vm_compute; reflexivity|vm_compute; reflexivity].
Qed.
Example C88_valid_between_case : wf_grammar g_mix /\ lex_grammar g_mix = true /\ ~ same_flags g_mix /\ bounds_ok g_mix /\
  groups_not_left_recursive (mark true (with_core g_mix)) /\ count_ok (mark false g_mix) (bytes "x+xx") /\
  any_order idn /\ name_order g_mix (first_name "k" g_mix) /\ fine_first g_mix (first_name "k" g_mix) /\ any_order idp /\
  (exists a, resolves g_mix "e" a) /\ Lang (mark true (with_core g_mix)) "e" (bytes "x+xx") /\
  is_valid idn (first_name "k" g_mix) idp 200 g_mix "e" (bytes "x+xx") = VBool true /\
  is_valid idn (first_name "k" g_mix) idp 200 g_mix "e" (bytes "x+y") = VBool false.
Proof.
  assert (Wt : wf_grammar (mark true (with_core g_mix))) by gwf.
  split; [exact g_mix_wf|]. split; [vm_compute; reflexivity|]. split.
  { intros F. enough (false = true) by discriminate. apply (F false true [120]).
    - apply (occ_elem_rep g_mix 1 1). eapply (occ_rep_rule g_mix); [right; left; reflexivity|left; reflexivity|left; reflexivity].
    - apply (occ_elem_rep g_mix 2 2). eapply (occ_rep_rule g_mix); [right; left; reflexivity|right; left; reflexivity|left; reflexivity]. }
  split; [apply bounds_dec; vm_compute; reflexivity|].
  split; [refine (RecogCheck.groups_shallow_ok _ (proj1 Wt) 10 _); vm_compute; reflexivity|].
  split; [apply count_okb_spec; vm_compute; reflexivity|]. split; [exact idn_any|]. split; [exact g_mix_order|]. split; [apply g_mix_fine|].
  split; [exact idp_any|]. split; [apply get_rule_some; eexists; reflexivity|].
  split; [|split; vm_compute; reflexivity].
  set (t := mark true (with_core g_mix)).
  assert (One : forall e c w w', in_elem t e w -> in_cat t c w' -> in_cat t (one e :: c) (w ++ w')) by (intros e c w w' I1 I2; constructor; [apply in_one; exact I1|exact I2]).
  assert (X : in_elem t (slit "x") (bytes "x")) by tword.
  assert (K : forall w, in_alt t [[one (slit "x"); one (EOption [[one (slit "y")]])]; [Rep 2 2 (slit "x")]] w -> in_elem t (ERule "k") w).
  { intros w I. apply (in_rule t "k" _ w) with (2 := I). left. eexists. split; [right; left; reflexivity|]. split; reflexivity. }
  assert (E : forall w, in_alt t [[one (ERule "e"); one (slit "+"); one (ERule "k")]; [one (ERule "k")]] w -> in_elem t (ERule "e") w).
  { intros w I. apply (in_rule t "e" _ w) with (2 := I). left. eexists. split; [left; reflexivity|]. split; reflexivity. }
  apply E. eapply in_alt_intro; [left; reflexivity|]. apply (One _ _ (bytes "x") (bytes "+xx")); [|apply (One _ _ (bytes "+") (bytes "xx")); [tword|]].
  - apply E. eapply in_alt_intro; [right; left; reflexivity|]. apply in_single. apply K. eapply in_alt_intro; [left; reflexivity|].
    apply (One _ _ (bytes "x") []); [exact X|]. apply in_single. constructor.
  - apply in_single. apply K. eapply in_alt_intro; [right; left; reflexivity|]. change (bytes "xx") with ((bytes "x" ++ bytes "x" ++ []) ++ []).
    constructor; [|constructor]. apply (in_rep_intro t 2 2 _ 2%nat); [lia|right; lia|]. constructor; [exact X|]. constructor; [exact X|constructor].
Qed.
(** The core rules have to be marked: [a = %s"A" "x" / HEXDIG] refuses "a", which it derives
    through HEXDIG however its own strings are marked. *)
Theorem C88_core_refuted : exists g n input ordn order ord fuel,
  wf_grammar g /\ lex_grammar g = true /\ bounds_ok g /\ groups_not_left_recursive (mark true (with_core g)) /\ count_ok (mark false g) input /\
  any_order ordn /\ name_order g order /\ fine_first g order /\ any_order ord /\
  is_valid ordn order ord fuel g n input = VBool false /\ Lang (mark true g) n input.
Proof.
  set (g := [mkRule "a" [[one (slit "A"); one (lit "x")]; [one (ERule "HEXDIG")]]]).
  assert (W : wf_grammar g) by gwf. assert (Wt : wf_grammar (mark true (with_core g))) by gwf.
  assert (K : name_order g (all_names g)) by (apply all_names_order; exact (proj1 W)).
  exists g, "a", (bytes "a"), idn, (all_names g), idp, 200%nat.
  split; [exact W|]. split; [vm_compute; reflexivity|]. split; [apply bounds_dec; vm_compute; reflexivity|].
  split; [refine (RecogCheck.groups_shallow_ok _ (proj1 Wt) 10 _); vm_compute; reflexivity|].
  split; [apply count_okb_spec; vm_compute; reflexivity|]. split; [exact idn_any|]. split; [exact K|].
  split; [apply (PropInvariants.shallow_fine g 10); [exact (proj1 W)|exact K|vm_compute; reflexivity]|]. split; [exact idp_any|]. split; [vm_compute; reflexivity|].
  user (mkRule "a" [[one (slit "A"); one (slit "x")]; [one (ERule "HEXDIG")]]).
  apply (in_alt_intro _ [one (ERule "HEXDIG")]); [right; left; reflexivity|]. apply in_single. user r_hexdig.
  apply (in_alt_intro _ [one (lit "A")]); [right; left; reflexivity|]. apply in_single. tword.
Qed.

(** [a = 2"x" 2%s"x"], not told apart: "xxxx" is derived with [%s] everywhere and accepted,
    "xxXX" is accepted though only derived with [%s] nowhere, "xxyx" is derived in neither way
    and refused. *)
Definition g_both : grammar := [mkRule "a" [[Rep 2 2 (EChar false [120]); Rep 2 2 (EChar true [120])]]].
Definition accepted (g : grammar) (input : list Z) : option bool :=
  match parse_forest (fun _ l => l) 200 input g "a" default_max_slots 0 with PF_ok f => Some (f_valid f) | _ => None end.
Example C86_case : wf_grammar g_both /\ lex_grammar g_both = true /\ ~ told_apart g_both /\
  accepted g_both (bytes "xxxx") = Some true /\ accepted g_both (bytes "xxXX") = Some true /\ accepted g_both (bytes "xxyx") = Some false /\
  mark true g_both = [mkRule "a" [[Rep 2 2 (EChar true [120]); Rep 2 2 (EChar true [120])]]] /\
  mark false g_both = [mkRule "a" [[Rep 2 2 (EChar false [120]); Rep 2 2 (EChar false [120])]]] /\
  exists pg, generate_go_parser 200 g_both "a" = Gen_ok pg.
Proof.
  split; [gwf|]. split; [vm_compute; reflexivity|]. split.
  { intros (_ & _ & H). enough (Rep 2 2 (EChar false [120]) = Rep 2 2 (EChar true [120])) by discriminate. apply H.
    - eapply occ_rep_rule; [left; reflexivity|left; reflexivity|left; reflexivity].
    - eapply occ_rep_rule; [left; reflexivity|left; reflexivity|right; left; reflexivity].
    - intros [E _]. cbn in E. discriminate.
    - reflexivity. }
  split; [vm_compute; reflexivity|]. split; [vm_compute; reflexivity|]. split; [vm_compute; reflexivity|].
  split; [reflexivity|]. split; [reflexivity|]. eexists. vm_compute. reflexivity.
Qed.

(** Neither bound is always met: [g_both] accepts "xxXX", which it does not derive, and
    [g_flag] refuses "XX", which it does (C05_forest_valid_refuted). *)
Theorem C86_accepts_more : exists g root input f, wf_grammar g /\ lex_grammar g = true /\
  parse_forest (fun _ l => l) 200 input g root default_max_slots 0 = PF_ok f /\ f_valid f = true /\ ~ Lang g root input.
Proof.
  exists g_both, "a", (bytes "xxXX"). eexists. split; [gwf|]. split; [vm_compute; reflexivity|]. split; [vm_compute; reflexivity|]. split; [vm_compute; reflexivity|].
  intros H. inversion H as [n a w R Ha| | | | | |]; subst. destruct R as [(r & [<-|[]] & _ & <-)|(F & _)]; [|apply (F _ (or_introl eq_refl)); reflexivity].
  inversion Ha as [c a w Ic Hc]; subst. cbn [g_both rule_alt In] in Ic. destruct Ic as [<-|[]]. inversion Hc as [|r c w1 w2 H1 H2 E1 E2]; subst. inversion H2 as [|r' c' w3 w4 H3 H4 E3 E4]; subst. inversion H4; subst. rewrite app_nil_r in E2.
  assert (One : forall w, in_elem g_both (EChar true [120]) w -> w = [120]).
  { intros w I. inversion I as [| | | |s vs rs F Sc| |]; subst. inversion F as [|v0 r0 vs0 rs0 C F']; subst. inversion F'; subst. cbn in C. subst. reflexivity. }
  inversion H3 as [mn mx e n w A B P]; subst. assert (n = 2%nat) as -> by (unfold inf in B; lia).
  inversion P as [|e n x y X P']; subst. inversion P' as [|e n x' y' X' P'']; subst. inversion P''; subst. apply One in X, X'. subst.
  apply (f_equal (@rev Z)) in E2. rewrite rev_app_distr in E2. vm_compute in E2. discriminate.
Qed.
Print Assumptions C86_lowering_between.
Print Assumptions C86_lowering.
Print Assumptions C86_bounds.
Print Assumptions C86_agree.
Print Assumptions C86_forest.
Print Assumptions C86_bsr.
Print Assumptions C86_emitted.
Print Assumptions C87_valid_upper.
Print Assumptions C88_valid_between_partial.
Print Assumptions C88_valid_agree_partial.
Print Assumptions C88_core_refuted.
Print Assumptions C86_accepts_more.
