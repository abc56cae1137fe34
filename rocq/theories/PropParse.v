(** C57: ParseABNF (grammar.go:80-106), from the text to the grammar.  ReadSpec.v says
    what a text says, EvalProof.v what definitions give (defs_ok, violates,
    defined_as), Spec.v what the validation asks. *)
(** The definitions here without a citation are those of statements, proofs and examples; they model no code. *)
From Coq Require Import ZArith Arith String Ascii Bool Permutation List Lia.
From Verif Require Import Syntax Spec Term Printer Check Slots Gll Bsr Sppf Tree Errors Deps Eval EvalProof ReadSpec TreeSpec TreeLang
  PropGll ForestUnique PropTree PropSem PropEval AbnfEval PropRead AbnfLocal PrintInj PropPrint ParseAbnf.
Import ListNotations.
Local Open Scope string_scope.
Local Open Scope list_scope.
Local Open Scope Z_scope.

Definition any_shuffle (sh : nat -> grammar -> grammar) : Prop := forall t g, Permutation (sh t g) g.

Lemma abnf_wf : wf_grammar abnf_grammar.
Proof. apply wf_grammarb_spec. vm_compute. reflexivity. Qed.
Lemma abnf_lex : lex_grammar abnf_grammar = true.
Proof. vm_compute. reflexivity. Qed.
Lemma abnf_flags : same_flags abnf_grammar.
Proof. apply same_flagsb_spec. vm_compute. reflexivity. Qed.
Lemma abnf_apart : told_apart abnf_grammar.
Proof. apply PrintInj.flags_told_apart, abnf_flags. Qed.
Definition compiles (g : grammar) (root : string) (mx : Z) (f : nat) : bool :=
  match compile_slots g root mx f with CS_ok _ => true | _ => false end.
Lemma compiles_ok g root mx f0 f : compiles g root mx f0 = true -> (f0 <= f)%nat -> exists sg, compile_slots g root mx f = CS_ok sg.
Proof.
  unfold compiles. destruct (compile_slots g root mx f0) as [sg| | |] eqn:E; try discriminate. intros _ L. exists sg.
  rewrite <- E. apply LowerBudget.compile_mono; auto. rewrite E. discriminate.
Qed.
Lemma abnf_compiles : compiles abnf_grammar "rulelist" default_max_slots 100 = true.
Proof. vm_compute. reflexivity. Qed.
Lemma abnf_slots f : (100 <= f)%nat -> exists sg, compile_slots abnf_grammar "rulelist" default_max_slots f = CS_ok sg.
Proof. exact (compiles_ok abnf_grammar "rulelist" default_max_slots 100 f abnf_compiles). Qed.

Lemma abnf_forest ord w : any_order ord -> exists f enough, forall fuel, (enough <= fuel)%nat ->
  parse_forest ord fuel w abnf_grammar "rulelist" default_max_slots 0 = PF_ok f /\ (length (f_nodes f) < fuel)%nat.
Proof.
  intros O. destruct (C07_forest_terminates ord w abnf_grammar "rulelist" default_max_slots 0 O) as [en T].
  assert (Le : exists e0, (en <= e0)%nat /\ (100 <= e0)%nat) by (exists (Nat.max en 100); lia). destruct Le as (e0 & Le & Lc). specialize (T e0 Le).
  pose proof (parse_forest_live ord e0 w abnf_grammar "rulelist" default_max_slots 0 (Z.le_refl 0)) as Li.
  destruct (abnf_slots e0 Lc) as (sg & Sg).
  destruct (parse_forest ord e0 w abnf_grammar "rulelist" default_max_slots 0) as [f| | | |] eqn:E; try congruence.
  - exists f, (Nat.max e0 (S (length (f_nodes f)))). intros fuel F. split; [|lia].
    eapply parse_forest_mono; [|exact E|discriminate]. lia.
  - exfalso. unfold parse_forest in E. rewrite Sg in E.
    destruct (p_parse _ _ _ _ _) as [st|]; [destruct (p_aborted st)|]; discriminate.
  - exfalso. unfold parse_forest in E. rewrite Sg in E.
    destruct (p_parse _ _ _ _ _) as [st|]; [destruct (p_aborted st)|]; discriminate.
Qed.

(** ABNF texts are read without ambiguity, whatever the parser's order: ParseABNF
    then evaluates the one derivation tree of the text. *)
Lemma parse_abnf_tree ord w : any_order ord ->
  (Lang abnf_grammar "rulelist" w -> exists t enough, Derivation abnf_grammar "rulelist" w t /\
     forall fuel ordE sh redefine validate core, (enough <= fuel)%nat ->
     parse_abnf ord ordE sh fuel redefine validate core w =
     match eval_tree redefine ordE core w t with
     | EvPanic => PA_panic
     | EvErr e => PA_eval e
     | EvOk st => if validate then match semval_abnf (sh 0%nat (rules_of st)) (sh 1%nat (rules_of st)) (rules_of st) with
                                   | Some e => PA_sem e | None => PA_ok st end
                  else PA_ok st
     end) /\
  (~ Lang abnf_grammar "rulelist" w -> exists e enough, forall fuel ordE sh redefine validate core, (enough <= fuel)%nat ->
     parse_abnf ord ordE sh fuel redefine validate core w = PA_parse e).
Proof.
  intros O. destruct (abnf_forest ord w O) as (f & en & H). destruct (H en (le_n _)) as [E0 L0].
  pose proof (C05_forest_valid_exact_partial _ _ _ _ _ _ _ _ O abnf_wf abnf_lex abnf_apart E0) as V. split.
  - intros Lw. apply V in Lw.
    assert (T : exists t, Derivation abnf_grammar "rulelist" w t /\ forall fuel, (en <= fuel)%nat -> f_tree fuel f = Some (Some t)).
    { destruct (C11_tree_is_derivation_partial _ _ _ _ _ _ _ _ O abnf_wf abnf_lex abnf_apart E0) as [_ C].
      destruct (C Lw en) as (r & ts & T1 & _ & _ & _ & D); [lia|]. eexists. split; [exact (D abnf_counts)|].
      intros fuel F. destruct (H fuel F) as [E1 L1].
      destruct (C Lw fuel) as (r' & ts' & T1' & _ & _ & _ & D'); [lia|]. rewrite T1'. do 2 f_equal.
      eapply C55_abnf_unambiguous; [exact (D' abnf_counts)|exact (D abnf_counts)]. }
    destruct T as (t & D & T). exists t, en. split; auto. intros fuel ordE sh redefine validate core F. unfold parse_abnf.
    destruct (H fuel F) as [E1 L1]. rewrite E1. unfold f_parse_error. rewrite Lw.
    rewrite (C13_undivided_not_ambiguous _ _ _ _ _ _ _ _ fuel O abnf_wf abnf_lex abnf_apart (abnf_undivided w) E1 L1).
    rewrite (T fuel F). reflexivity.
  - intros N. assert (Fv : f_valid f = false) by (destruct (f_valid f); auto; exfalso; apply N, V; auto).
    eexists. exists en. intros fuel ordE sh redefine validate core F. unfold parse_abnf.
    destruct (H fuel F) as [E1 L1]. rewrite E1. unfold f_parse_error. rewrite Fv. reflexivity.
Qed.

(** *** What is read can be validated *)
Lemma decimal_nonneg s : forall acc v, 0 <= acc -> decimal acc s = Some v -> 0 <= v.
Proof.
  induction s as [|c s IH]; intros acc v A; cbn [decimal]; [intros E; injection E as <-; auto|].
  destruct ((48 <=? c) && (c <=? 57)) eqn:D; [|discriminate]. apply IH. lia.
Qed.
Lemma digits_nonneg s v : digits_denote s v -> 0 <= v.
Proof. intros [_ H]. eapply decimal_nonneg; [|exact H]. lia. Qed.
Lemma saturate_nonneg v : 0 <= v -> 0 <= saturate v.
Proof. unfold saturate. change (2 ^ 63 - 1) with 9223372036854775807. change inf with (-1). destruct (Z.eqb_spec v (-1)); lia. Qed.
Lemma text_wf : (forall e w, text_elem e w -> wf_elem e) /\ (forall r w, text_rep r w -> wf_rep r) /\
  (forall c w, text_cat c w -> Forall wf_rep c) /\ (forall a w, text_alt a w -> wf_alt a).
Proof.
  apply text_mut; unfold wf_alt; intros; try (constructor; auto; fail).
  - constructor. split; auto.
  - constructor. split; [|reflexivity]. repeat apply Forall_cons; auto.
  - constructor; auto; lia.
  - assert (B : 0 <= mn /\ (mx = inf \/ 0 <= mx)).
    { match goal with H : repeat_denotes _ _ _ |- _ => destruct H end;
        repeat match goal with H : digits_denote _ _ |- _ => apply digits_nonneg in H end; auto using Z.le_refl. }
    destruct B as [B [->|B']]; constructor; auto using saturate_nonneg.
Qed.
Lemma written_wf r : PropPrint.written_rule r -> wf_alt (rule_alt r).
Proof. intros [_ [w H]]. eapply (proj2 (proj2 (proj2 text_wf))); eauto. Qed.

Lemma define_no_panic redefine ord ds : forall st, e_define_all redefine ord ds st <> EvPanic.
Proof.
  induction ds as [|d ds IH]; intros st; cbn [e_define_all]; [discriminate|].
  assert (N : e_define redefine ord d st <> EvPanic).
  { destruct d as [rl is]. unfold e_define. repeat match goal with |- context [match ?x with _ => _ end] => destruct x end; discriminate. }
  destruct (e_define redefine ord d st); [apply IH|discriminate|congruence].
Qed.

Lemma says_any (filler : list Z -> Prop) w ds : text_says filler w ds -> text_says any_filler w ds.
Proof.
  intros [N H]. split; auto. clear N. induction H as [|d w ds w' R T IH|ws nl ds w' W N T IH].
  - constructor.
  - apply tl_rule; auto. destruct R. apply text_rule_intro; auto; exact Logic.I.
  - apply tl_blank; auto.
Qed.

(** ** C57 *)

(** A text that is not an ABNF text is refused with a parse error. *)
Theorem C57_rejects : forall ord w, any_order ord ->
  ~ (exists ds, text_says any_filler w ds) ->
  exists e enough, forall fuel ordE sh redefine validate core, (enough <= fuel)%nat ->
    parse_abnf ord ordE sh fuel redefine validate core w = PA_parse e.
Proof. intros ord w O N. apply (parse_abnf_tree ord w O). intros L. apply N, C55_abnf_texts. exact L. Qed.

(** An ABNF text is never refused by the parser, never reported as having several
    meanings, and always evaluated: with every option, what is returned is a grammar
    or an error about its rules. *)
Theorem C57_accepts : forall ord w ds, any_order ord -> text_says any_filler w ds ->
  exists enough, forall fuel ordE sh redefine validate core, (enough <= fuel)%nat ->
    match parse_abnf ord ordE sh fuel redefine validate core w with
    | PA_ok st => True
    | PA_eval e => exists d, In d ds /\ (e = EE_core_modify (rule_name (fst d)) \/ e = EE_duplicated (rule_name (fst d)) \/ e = EE_not_found (rule_name (fst d)))
    | PA_sem _ => validate = true
    | _ => False
    end.
Proof.
  intros ord w ds O H. destruct (parse_abnf_tree ord w O) as [A _].
  destruct A as (t & en & D & A); [apply C55_abnf_texts; eauto|]. exists en. intros fuel ordE sh redefine validate core F.
  rewrite A by auto. destruct (C56_evaluation_rules w ds t redefine ordE core H D) as (ds' & M & E). rewrite E.
  destruct (e_define_all redefine ordE ds' (mkE core [] 0)) as [st|e|] eqn:Ev.
  - destruct validate; auto. destruct (semval_abnf _ _ _); auto.
  - assert (X : forall l st, e_define_all redefine ordE l st = EvErr e -> exists d, In d l /\
      (e = EE_core_modify (rule_name (fst d)) \/ e = EE_duplicated (rule_name (fst d)) \/ e = EE_not_found (rule_name (fst d)))).
    { clear. induction l as [|d l IH]; intros st; cbn [e_define_all]; [discriminate|].
      destruct (e_define redefine ordE d st) as [st'|e'|] eqn:E; [| |discriminate].
      - intros X. apply IH in X as (d' & I & X). exists d'. split; auto. right. auto.
      - intros X. injection X as ->. exists d. split; [left; auto|]. destruct d as [rl is]. unfold e_define in E. cbn [fst] in *.
        repeat match type of E with context [match ?x with _ => _ end] => destruct x end; try discriminate; injection E as <-; auto. }
    apply X in Ev as (d & I & Ev).
    assert (I' : In (fst d) (map fst ds)) by (rewrite <- M; apply in_map; auto). apply in_map_iff in I' as (d0 & Q & I').
    exists d0. split; auto. rewrite Q. exact Ev.
  - eapply define_no_panic; eauto.
Qed.

(** With the default options (the core rules may not be redefined), validation on or
    off, the result is exactly what the text is taken for (C56_taken). *)
Theorem C57_reads : forall ord w ds, any_order ord -> text_taken w ds ->
  exists enough, forall fuel ordE sh validate, (enough <= fuel)%nat -> any_order ordE -> any_shuffle sh ->
    match parse_abnf ord ordE sh fuel false validate core_rules w with
    | PA_ok st =>
        defs_ok core_rules ds /\ distinct_names (rules_of st) /\
        (forall r, In r (rules_of st) <-> defined_as ds r) /\ e_core st = core_rules /\
        (validate = true -> refs_defined (rules_of st) /\ bounds_ordered (rules_of st) /\ nums_in_unicode (rules_of st))
    | PA_eval e => exists pre d post, ds = pre ++ d :: post /\ defs_ok core_rules pre /\ violates core_rules pre d e
    | PA_sem _ =>
        validate = true /\ defs_ok core_rules ds /\
        forall g, distinct_names g -> (forall r, In r g <-> defined_as ds r) ->
          ~ (refs_defined g /\ bounds_ordered g /\ nums_in_unicode g)
    | _ => False
    end.
Proof.
  intros ord w ds O H. destruct (parse_abnf_tree ord w O) as [A _].
  destruct (taken_says _ _ H) as (da & Ha & _).
  destruct A as (t & en & D & A); [apply C55_abnf_texts; eauto|]. exists en. intros fuel ordE sh validate F Oe Sh.
  rewrite A, (C56_evaluation_exact w ds t false ordE core_rules H D) by auto.
  pose proof (C38_definitions_merge_partial core_rules ordE ds Oe) as M.
  destruct (e_define_all false ordE ds (mkE core_rules [] 0)) as [st|e|]; auto.
  destruct M as (Ok & Dn & Rl & Ec). set (g := rules_of st) in *.
  assert (Wf : Forall (fun r => wf_alt (rule_alt r)) g).
  { apply Forall_forall. intros r I. apply written_wf. eapply PropPrint.merged_written; [exact (PropPrint.taken_written _ _ H)|]. apply Rl. exact I. }
  destruct validate.
  - destruct (semval_abnf (sh 0%nat g) (sh 1%nat g) g) as [e|] eqn:S.
    + split; auto. split; auto. intros g' Dn' Rl' X.
      assert (Same : forall r, In r g' <-> In r g) by (intros r; rewrite Rl, Rl'; reflexivity).
      assert (Res : forall n a, resolves g' n a -> resolves g n a).
      { intros n a. unfold resolves. intros [(r & I & Y)|[N Y]]; [left; exists r; rewrite <- Same; auto|right].
        split; auto. intros r I. apply N. apply Same. auto. }
      assert (Y : refs_defined g /\ bounds_ordered g /\ nums_in_unicode g).
      { destruct X as (X1 & X2 & X3). split; [|split].
        - intros r n I Rf. destruct (X1 r n) as (a & Ra); [apply Same; auto|auto|]. eauto.
        - intros r mn mx e' I. apply X2. apply Same; auto.
        - intros r mn mx b s es s' v I. apply X3. apply Same; auto. }
      apply (C17_semval_exact g _ _ (Sh 0%nat g) (Sh 1%nat g) Wf) in Y. congruence.
    + apply (C17_semval_exact g _ _ (Sh 0%nat g) (Sh 1%nat g) Wf) in S. auto.
  - repeat (split; auto). all: discriminate.
Qed.

(** So it is what the text says.  Missing for the full statement:
    texts with a comment containing [=/] around a defining operator, and
    WithRedefineCoreRules on core names (C38, C39, C56 refutations). *)
Theorem C57_reads_partial : forall ord w ds, any_order ord -> text_says quiet_filler w ds ->
  exists enough, forall fuel ordE sh validate, (enough <= fuel)%nat -> any_order ordE -> any_shuffle sh ->
    match parse_abnf ord ordE sh fuel false validate core_rules w with
    | PA_ok st =>
        defs_ok core_rules ds /\ distinct_names (rules_of st) /\
        (forall r, In r (rules_of st) <-> defined_as ds r) /\ e_core st = core_rules /\
        (validate = true -> refs_defined (rules_of st) /\ bounds_ordered (rules_of st) /\ nums_in_unicode (rules_of st))
    | PA_eval e => exists pre d post, ds = pre ++ d :: post /\ defs_ok core_rules pre /\ violates core_rules pre d e
    | PA_sem _ =>
        validate = true /\ defs_ok core_rules ds /\
        forall g, distinct_names g -> (forall r, In r g <-> defined_as ds r) ->
          ~ (refs_defined g /\ bounds_ordered g /\ nums_in_unicode g)
    | _ => False
    end.
Proof. intros ord w ds O H. exact (C57_reads ord w ds O (quiet_taken _ _ H)). Qed.

(** The grammar read, printed with its rules in any order, is read again: the same
    rules, without their [%s]; validation accepts them again. *)
Lemma rep_in_erased a r : rep_in (erase_alt a) r -> exists r0, rep_in a r0 /\ r = erase_rep r0.
Proof.
  intros H. remember (erase_alt a) as a' eqn:E. revert a E.
  induction H as [a' c r Ic Ir|a' c mn mx b r Ic Ir H IH|a' c mn mx b r Ic Ir H IH]; intros a ->;
    apply in_map_iff in Ic as (c0 & <- & Ic); apply in_map_iff in Ir as (r0 & Er & Ir).
  - exists r0. split; [eapply rep_in_here; eauto|auto].
  - destruct r0 as [mn0 mx0 e0]. destruct e0; try discriminate. injection Er as <- <- <-.
    destruct (IH _ eq_refl) as (r0 & R & Q). exists r0. split; auto. eapply rep_in_group; eauto.
  - destruct r0 as [mn0 mx0 e0]. destruct e0; try discriminate. injection Er as <- <- <-.
    destruct (IH _ eq_refl) as (r0 & R & Q). exists r0. split; auto. eapply rep_in_option; eauto.
Qed.
Lemma valid_erased g g' : (forall r, In r g' <-> exists r0, In r0 g /\ r = erase_rule r0) ->
  refs_defined g /\ bounds_ordered g /\ nums_in_unicode g -> refs_defined g' /\ bounds_ordered g' /\ nums_in_unicode g'.
Proof.
  intros H (A & B & C). split; [|split].
  - intros r n I (mn & mx & Rf). apply H in I as (r0 & I & ->). apply rep_in_erased in Rf as ([mn0 mx0 e0] & Rf & E).
    destruct e0; try discriminate. injection E as <- <- <-. destruct (A r0 n I) as (a & Ra); [exists mn, mx; exact Rf|].
    exists (erase_alt a). destruct Ra as [(r1 & I1 & S & <-)|(N & r1 & I1 & S & <-)].
    + left. exists (erase_rule r1). split; [apply H; eauto|]. split; auto.
    + right. split.
      * intros r2 I2. apply H in I2 as (r3 & I3 & ->). exact (N r3 I3).
      * exists (erase_rule r1). split; [rewrite <- core_erased; apply in_map; auto|]. split; auto.
  - intros r mn mx e I Rf. apply H in I as (r0 & I & ->). apply rep_in_erased in Rf as ([mn0 mx0 e0] & Rf & E).
    injection E as -> -> ->. eapply B; eauto.
  - intros r mn mx b st es s v I Rf. apply H in I as (r0 & I & ->). apply rep_in_erased in Rf as ([mn0 mx0 e0] & Rf & E).
    destruct e0; try discriminate. injection E as <- <- <- <- <-. eapply C; eauto.
Qed.
Theorem C57_round_trip : forall ord ord' w ds, any_order ord -> any_order ord' -> text_taken w ds ->
  exists enough, forall fuel ordE sh validate st, (enough <= fuel)%nat -> any_order ordE -> any_shuffle sh ->
    parse_abnf ord ordE sh fuel false validate core_rules w = PA_ok st ->
    forall rs, Permutation rs (rules_of st) -> rs <> [] ->
    exists enough', forall fuel' ordE' sh', (enough' <= fuel')%nat -> any_order ordE' -> any_shuffle sh' ->
      exists st', parse_abnf ord' ordE' sh' fuel' false validate core_rules (bytes (grammar_string rs)) = PA_ok st' /\
        distinct_names (rules_of st') /\ forall r, In r (rules_of st') <-> exists r0, In r0 (rules_of st) /\ r = erase_rule r0.
Proof.
  intros ord ord' w ds O O' H. destruct (C57_reads ord w ds O H) as [en P].
  exists en. intros fuel ordE sh validate st F Oe Sh E rs Pm NE. specialize (P fuel ordE sh validate F Oe Sh). rewrite E in P.
  destruct P as (Ok & Dn & Rl & Ec & Vd).
  assert (Wr : Forall written_rule rs).
  { rewrite Forall_forall. intros r I. eapply merged_written; [exact (taken_written _ _ H)|]. apply Rl. eapply Permutation_in; eauto. }
  pose proof (C40_printed_text_partial rs NE Wr) as S.
  destruct (C57_reads_partial ord' _ _ O' S) as [en' P']. exists en'. intros fuel' ordE' sh' F' Oe' Sh'.
  specialize (P' fuel' ordE' sh' validate F' Oe' Sh').
  assert (EM : map (fun r => (erase_rule r, false)) rs = map (fun r => (r, false)) (map erase_rule rs)) by (rewrite map_map; reflexivity).
  rewrite EM in P'. destruct (define_printed core_rules ordE' (map erase_rule rs) Oe') as (st1 & E1 & R1 & D1 & _).
  { unfold distinct_names in *. rewrite map_map. cbn [erase_rule rule_name]. eapply Permutation_NoDup; [|exact Dn]. apply Permutation_map. symmetry. exact Pm. }
  { intros r I. apply in_map_iff in I as (r0 & <- & I). cbn [erase_rule rule_name].
    assert (D : defined_as ds r0) by (apply Rl; eapply Permutation_in; eauto). destruct D as (d & Id & N & _). rewrite N.
    intros C. apply in_split in Id as (pre & post & Es). eapply (Ok _ _ _ _ Es). apply v_core. exact C. }
  pose proof (C38_definitions_merge_partial core_rules ordE' (map (fun r => (r, false)) (map erase_rule rs)) Oe') as M. rewrite E1 in M.
  destruct M as (Ok' & _ & Rl' & _).
  assert (X : forall g, (forall r, In r g <-> defined_as (map (fun r => (r, false)) (map erase_rule rs)) r) ->
    forall r, In r g <-> exists r0, In r0 (rules_of st) /\ r = erase_rule r0).
  { intros g Q r. rewrite Q, <- Rl', R1, in_map_iff. split; intros (r0 & A & B).
    - exists r0. split; [eapply Permutation_in; eauto|auto].
    - exists r0. split; [auto|eapply Permutation_in; [symmetry; exact Pm|auto]]. }
  destruct (parse_abnf ord' ordE' sh' fuel' false validate core_rules (bytes (grammar_string rs))) as [st'| | | | | | |e|e| |] eqn:E'; try contradiction.
  - exists st'. split; auto. destruct P' as (_ & Dn' & Q & _). split; auto.
  - destruct P' as (pre & d & post & Es & _ & V). exfalso. exact (Ok' _ _ _ _ Es V).
  - destruct P' as (Vt & _ & N). exfalso. apply (N (rules_of st1) D1 Rl'). apply (valid_erased (rules_of st)); [apply X; exact Rl'|]. auto.
Qed.

(** Without [quiet_filler] it is false: the same definition of a rule is refused as
    an unknown rule to extend. *)
Theorem C57_reads_refuted : exists w ds, text_says any_filler w ds /\ defs_ok core_rules ds /\
  forall ord, any_order ord -> exists enough, forall fuel sh validate, (enough <= fuel)%nat ->
    parse_abnf ord id_order sh fuel false validate core_rules w = PA_eval (EE_not_found "a").
Proof.
  destruct C56_evaluation_refuted as (w & ds & t & S & T & (st & E) & Er). exists w, ds. split; auto. split.
  { pose proof (C38_definitions_merge_partial core_rules id_order ds) as M. rewrite E in M. apply M. intros n l x. reflexivity. }
  intros ord O. destruct (parse_abnf_tree ord w O) as [A _]. destruct A as (t' & en & D & A); [apply C55_abnf_texts; eauto|].
  exists en. intros fuel sh validate F. rewrite A by auto. rewrite (C55_abnf_unambiguous _ _ _ D T), Er. reflexivity.
Qed.

(** A text that is read whatever the options, and one refused because of an
    undefined name (the name [c] of [ex_text] has no rule). *)
Example C57_case : forall ord, any_order ord -> exists enough, forall fuel sh, (enough <= fuel)%nat ->
  parse_abnf ord id_order sh fuel false false core_rules ex_text = PA_ok (mkE core_rules [("ab", Own (mkRule "ab" ex_alt))] 1).
Proof.
  intros ord O. destruct C56_case as (t & T & S & E). destruct (parse_abnf_tree ord ex_text O) as [A _].
  destruct A as (t' & en & D & A); [apply C55_abnf_texts; eexists; apply (says_any _ _ _ S)|].
  exists en. intros fuel sh F. rewrite A by auto. rewrite (C55_abnf_unambiguous _ _ _ D T), E. reflexivity.
Qed.
Example C57_case_refs : forall ord, any_order ord -> exists enough, forall fuel sh, (enough <= fuel)%nat -> any_shuffle sh ->
  exists e, parse_abnf ord id_order sh fuel false true core_rules ex_text = PA_sem e.
Proof.
  intros ord O. destruct (C57_reads_partial ord ex_text _ O (ex_says _ quiet_space)) as (en & P).
  destruct C57_case with (ord := ord) as (en2 & C); auto. exists (Nat.max en en2). intros fuel sh F Sh.
  specialize (C fuel sh ltac:(lia)). unfold parse_abnf in *.
  destruct (parse_forest ord fuel ex_text abnf_grammar "rulelist" default_max_slots 0) as [f| | | |]; try discriminate.
  destruct (f_parse_error f); try discriminate. destruct (f_ambiguous fuel f) as [[|]|]; try discriminate.
  destruct (f_tree fuel f) as [[t|]|]; try discriminate. destruct (eval_tree false id_order core_rules ex_text t) as [st|e|]; try discriminate.
  injection C as ->. match goal with |- context [rules_of ?x] => change (rules_of x) with [mkRule "ab" ex_alt] end. destruct (semval_abnf _ _ _) as [e|] eqn:X; [eauto|]. exfalso.
  apply C17_semval_exact in X; [|apply Sh|apply Sh|].
  - destruct X as (X & _). destruct (X (mkRule "ab" ex_alt) "c") as (a & [(r & [<-|[]] & N & _)|(_ & r & I & N & _)]).
    + left. reflexivity.
    + exists 1, 1. eapply rep_in_group; [left; reflexivity|left; reflexivity|]. eapply rep_in_here; [left; reflexivity|left; reflexivity].
    + discriminate N.
    + revert N. cbv in I. repeat (destruct I as [<-|I]; [discriminate|]). destruct I.
  - constructor; [|constructor]. apply (written_wf (mkRule "ab" ex_alt)). split; [reflexivity|]. eexists. apply ex_alt_text.
Qed.
Example C57_case_rejected : ~ (exists ds, text_says any_filler (bytes "ab =") ds).
Proof. intros H. destruct C55_case as (_ & _ & _ & N). apply N, C55_abnf_texts, H. Qed.

Print Assumptions C57_rejects.
Print Assumptions C57_accepts.
Print Assumptions C57_reads.
Print Assumptions C57_reads_partial.
Print Assumptions C57_round_trip.
Print Assumptions C57_reads_refuted.
