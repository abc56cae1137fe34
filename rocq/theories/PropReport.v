(** Claims C70 and C71: what a rejected input is told (sppf.go:698-705, errors.go:41-140,
    grammar.go:88-90). *)
(** The definitions here without a citation are those of statements, proofs and examples; they model no code. *)
From Coq Require Import ZArith Arith String Ascii Bool Permutation Sorted List Lia.
From Verif Require Import Syntax Spec Utf8 Num Term Printer PrintInj Check Slots Gll GllUniv Bsr Sppf SppfProof LowerProof LowerLang LowerBudget PropTerm PropGll
  Deps Errors Furthest Front PropSem PropOrder PropPrint PropWritten CodegenGlue Apart.
From Verif Require PropComments ParseAbnf PropParse Tree Eval.
Import ListNotations.
Local Open Scope string_scope.
Local Open Scope list_scope.
Local Open Scope Z_scope.

(** ** The code *)
(** ParseError.Error (errors.go:64-82), with the text of ErrNoSolutionFound
    (errors.go:17) and of the hint (errors.go:134). *)
Definition error_text (e : parse_error) : string :=
  ("parse error at line " ++ itoa (pe_line e) ++ ", column " ++ itoa (pe_col e) ++ " (offset " ++ itoa (pe_offset e) ++ ")" ++
   match pe_expected e with
   | _ :: _ => ": expected " ++ join ", " (pe_expected e) ++ (if String.eqb (pe_found e) "" then "" else ", found " ++ pe_found e)
   | [] => if String.eqb (pe_found e) "" then ": no solution found, input ABNF grammar may be invalid" else ": unexpected " ++ pe_found e
   end ++
   (if pe_hint e then " (hint: input uses bare LF line endings, but ABNF requires CR LF (""\r\n""))" else ""))%string.

(** ** C70 *)
(** A left-to-right derivation of the rule has read input[0:i], the terminal [t] comes
    next, and no text of [t] stands there. *)
Definition fails_in (g : grammar) (root : string) (input : list Z) (t : elem) (i : nat) : Prop :=
  exists w, span input 0 i w /\ reaches g (ERule root) w t /\ ~ exists j v, in_elem g t v /\ span input i j v.

(** Missing for the full statement: grammars with two groups, options or counted repetitions
    that are the same but for [%s]; there it is false, see below. *)
Theorem C70_report_partial : forall ord fuel input g root max_slots max_nodes f,
  any_order ord -> wf_grammar g -> lex_grammar g = true -> told_apart g ->
  parse_forest ord fuel input g root max_slots max_nodes = PF_ok f ->
  (forall t i, fails_in g root input t i -> (i <= f_maxpos f)%nat) /\
  (forall x, In x (f_expected f) <-> exists t, fails_in g root input t (f_maxpos f) /\ x = elem_string t) /\
  (f_expected f = [] -> f_maxpos f = 0%nat) /\ NoDup (f_expected f).
Proof.
  intros ord fuel input g root ms mn f O W Lx Fl E.
  pose proof (parse_forest_ok _ _ _ _ _ _ _ _ E) as (C & _).
  destruct (compile_ok_represents _ _ _ _ _ C) as [idx R].
  pose proof (fails_iff g root (f_sg f) idx input W (print_inj_lex g Lx Fl) R) as Q.
  destruct (C48_furthest_failure_exact _ _ _ _ _ _ _ _ O E) as (H1 & H2 & H3 & H4 & H5).
  split; [|split; [|split]]; auto.
  - intros t i H. apply (H1 t). apply Q. exact H.
  - intros x. rewrite H2. split; intros (t & A & B); exists t; split; auto; apply Q; exact A.
Qed.

(** The report does not depend on the order maps are iterated in, nor on budgets
    that are not exceeded. *)
Lemma sorted_head a l : Sorted (fun a b => str_leb a b = true) (a :: l) -> forall x, In x l -> str_leb a x = true.
Proof.
  intros H. assert (S : StronglySorted (fun a b => str_leb a b = true) (a :: l)).
  { apply Sorted_StronglySorted; auto. intros x y z A B. unfold str_leb in *.
    destruct (String.compare x y) eqn:E1; try discriminate; destruct (String.compare y z) eqn:E2; try discriminate.
    - apply String.compare_eq_iff in E1, E2. subst. rewrite compare_refl. reflexivity.
    - apply String.compare_eq_iff in E1. subst. rewrite E2. reflexivity.
    - apply String.compare_eq_iff in E2. subst. rewrite E1. reflexivity.
    - assert (E : String.compare x z = Lt); [|rewrite E; reflexivity]. clear - E1 E2.
      revert y z E1 E2. induction x as [|c x IH]; intros [|d y] [|e z] E1 E2; try discriminate; auto.
      cbn in *. unfold Ascii.compare in *. destruct (N.compare_spec (N_of_ascii c) (N_of_ascii d)) as [Q|Q|Q]; try discriminate;
        destruct (N.compare_spec (N_of_ascii d) (N_of_ascii e)) as [Q'|Q'|Q']; try discriminate.
      + rewrite Q, Q', N.compare_refl. eapply IH; eauto.
      + rewrite Q. apply N.compare_lt_iff in Q'. rewrite Q'. reflexivity.
      + rewrite <- Q'. apply N.compare_lt_iff in Q. rewrite Q. reflexivity.
      + assert (X : (N_of_ascii c < N_of_ascii e)%N) by (eapply N.lt_trans; eauto). apply N.compare_lt_iff in X. rewrite X. reflexivity. }
  inversion S as [|? ? _ F]; subst. rewrite Forall_forall in F. exact F.
Qed.
Lemma leb_antisym a b : str_leb a b = true -> str_leb b a = true -> a = b.
Proof.
  unfold str_leb. rewrite (String.compare_antisym a b). destruct (String.compare b a) eqn:E; cbn; try discriminate.
  intros _ _. apply String.compare_eq_iff in E. auto.
Qed.
Lemma sorted_unique l : forall l', Permutation l l' -> Sorted (fun a b => str_leb a b = true) l -> Sorted (fun a b => str_leb a b = true) l' -> l = l'.
Proof.
  induction l as [|a l IH]; intros l' P S S'.
  - apply Permutation_nil in P. auto.
  - destruct l' as [|b l']; [apply Permutation_sym, Permutation_nil in P; discriminate|].
    assert (a = b).
    { assert (Ia : In a (b :: l')) by (eapply Permutation_in; eauto; left; auto).
      assert (Ib : In b (a :: l)) by (eapply Permutation_in; [apply Permutation_sym; eauto|left; auto]).
      destruct Ia as [Ia|Ia]; auto. destruct Ib as [Ib|Ib]; auto.
      apply leb_antisym; [apply (sorted_head a l S)|apply (sorted_head b l' S')]; auto. }
    subst b. f_equal. apply IH; [eapply Permutation_cons_inv; eauto|inversion S; auto|inversion S'; auto].
Qed.

Theorem C70_order_free : forall ord ord' fuel fuel' input g root max_slots max_slots' max_nodes max_nodes' f f',
  any_order ord -> any_order ord' ->
  parse_forest ord fuel input g root max_slots max_nodes = PF_ok f ->
  parse_forest ord' fuel' input g root max_slots' max_nodes' = PF_ok f' ->
  f_parse_error f = f_parse_error f'.
Proof.
  intros ord ord' fuel fuel' input g root ms ms' mn mn' f f' O O' E E'.
  destruct (C62_forest_order _ _ _ _ _ _ _ _ _ _ _ _ _ _ _ O O' E E' (Nat.lt_succ_diag_r _) (Nat.lt_succ_diag_r _)) as (Sg & _ & V & _).
  destruct (C48_furthest_failure_exact _ _ _ _ _ _ _ _ O E) as (H1 & H2 & H3 & H4 & H5).
  destruct (C48_furthest_failure_exact _ _ _ _ _ _ _ _ O' E') as (K1 & K2 & K3 & K4 & K5). rewrite Sg in *.
  assert (M : f_maxpos f = f_maxpos f').
  { destruct (f_expected f) as [|x l] eqn:X.
    - rewrite H3 by auto. rewrite K3 by auto. reflexivity.
    - destruct (proj1 (H2 x) (or_introl eq_refl)) as (t & A & _). assert (L1 := K1 _ _ A).
      destruct (f_expected f') as [|x' l'] eqn:X'; [exfalso; eapply K4; eauto|].
      destruct (proj1 (K2 x') (or_introl eq_refl)) as (t' & A' & _). assert (L2 := H1 _ _ A'). lia. }
  assert (P : Permutation (f_expected f) (f_expected f')).
  { apply NoDup_Permutation; auto. intros x. rewrite H2, K2, M. reflexivity. }
  assert (In1 : f_input f = f_input f').
  { pose proof (parse_forest_ok _ _ _ _ _ _ _ _ E) as (_ & st & _ & _ & I & _).
    pose proof (parse_forest_ok _ _ _ _ _ _ _ _ E') as (_ & st' & _ & _ & I' & _). congruence. }
  unfold f_parse_error. rewrite V, M, In1. destruct (f_valid f'); auto. f_equal.
  assert (S : sort_strings (f_expected f) = sort_strings (f_expected f')).
  { apply sorted_unique; [rewrite !sort_perm; exact P|apply sort_sorted..]. }
  unfold new_parse_error. rewrite S. reflexivity.
Qed.

(** [a = 2%s"x" / 2"x"] on "Xy": the second alternative is lost (C09), so the failure at
    offset 1 is not seen and offset 0 is reported. *)
Theorem C70_report_refuted : exists g root input f t i,
  wf_grammar g /\ lex_grammar g = true /\
  parse_forest (fun _ l => l) 100 input g root default_max_slots 0 = PF_ok f /\
  fails_in g root input t i /\ (f_maxpos f < i)%nat.
Proof.
  exists g_flag, "a", [88; 121]. eexists. exists (EChar false [120]), 1%nat.
  split; [apply wf_grammarb_spec; vm_compute; reflexivity|]. split; [vm_compute; reflexivity|].
  split; [vm_compute; reflexivity|]. split; [|vm_compute; lia].
  exists [88]. split; [exists [], [121]; auto|]. split.
  - apply reach_rule with (a := rule_alt (hd (mkRule "" []) g_flag)).
    { left. exists (hd (mkRule "" []) g_flag). split; [left; reflexivity|]. split; reflexivity. }
    change [88] with ([] ++ [88]). eapply reach_alt with (pre := []) (post := []); [right; left; reflexivity|constructor|].
    change [88] with ([88] ++ []). apply reach_rep with (k := 1%nat).
    + right. cbn. lia.
    + change [88] with ([88] ++ []). constructor; [|constructor]. change [88] with (utf8s [88]). constructor; [repeat constructor|constructor; [left; lia|constructor]].
    + constructor. reflexivity.
  - intros (j & v & H & Sp). inversion H as [| | | |s vs rs F S| |]; subst. inversion F as [|? r ? rs' C F']; subst. inversion F'; subst.
    destruct Sp as (p & s & E & L & _). destruct p as [|x [|]]; try discriminate. injection E as E1 E. unfold char_ok in C.
    assert (R : r = 120 \/ r = 88).
    { unfold fold_case in C. change ((65 <=? 120) && (120 <=? 90))%bool with false in C. cbv iota in C.
      destruct ((65 <=? r) && (r <=? 90))%bool eqn:Q; lia. }
    destruct R as [->| ->]; discriminate E.
Qed.

(** The documentation of Offset says it is the furthest position the parser was able to
    reach.  [a = "x"] on "xy": the parser reads "x", which is all of a sentence, and
    reports offset 0, with nothing expected and the x that it could read as the byte found. *)
Definition g_x : grammar := [mkRule "a" [[Rep 1 1 (EChar false [120])]]].
Theorem C70_reached_refuted : exists g root input f e k,
  wf_grammar g /\ lex_grammar g = true /\ told_apart g /\
  parse_forest (fun _ l => l) 100 input g root default_max_slots 0 = PF_ok f /\ f_parse_error f = Some e /\
  Lang g root (firstn k input) /\ pe_offset e < Z.of_nat k /\ pe_expected e = [] /\
  error_text e = "parse error at line 1, column 1 (offset 0): unexpected ""x""".
Proof.
  exists g_x, "a", [120; 121]. eexists. eexists. exists 1%nat.
  split; [apply wf_grammarb_spec; vm_compute; reflexivity|]. split; [vm_compute; reflexivity|].
  split; [apply told_apartb_spec; vm_compute; reflexivity|].
  split; [vm_compute; reflexivity|]. split; [vm_compute; reflexivity|]. split.
  - apply in_rule with (a := rule_alt (hd (mkRule "" []) g_x)).
    { left. exists (hd (mkRule "" []) g_x). split; [left; reflexivity|]. split; reflexivity. }
    econstructor; [left; reflexivity|]. cbn [firstn]. change [120] with ([120] ++ []). constructor; [|constructor].
    apply in_rep_one. change [120] with (utf8s [120]). constructor; [repeat constructor|constructor; [left; lia|constructor]].
  - split; [vm_compute; reflexivity|]. split; vm_compute; reflexivity.
Qed.

(** ParseABNF's own reports do not lose the prefix: after any prefix that is a whole
    rulelist another rule or comment could follow, so they name something expected and
    stand at or behind the longest such prefix. *)
Lemma abnf_resolves m r : get_rule m abnf_grammar = Some r -> resolves abnf_grammar m (rule_alt r).
Proof. apply (proj1 (PropDag.get_rule_resolves abnf_grammar m (proj1 PropParse.abnf_wf))). Qed.
Definition t_upper : elem := ENum "x" StatRange ["41"; "5A"].
Definition t_semi : elem := EChar false [59].
Lemma reach_first m a c e w t : resolves abnf_grammar m a -> In (Rep 1 1 e :: c) a -> reaches abnf_grammar e w t -> reaches abnf_grammar (ERule m) w t.
Proof.
  intros R I H. apply (reach_rule _ _ a); auto. change w with ([] ++ w). apply (reach_alt _ a [] (Rep 1 1 e) c); auto; [constructor|].
  change w with ([] ++ w). apply (reach_rep _ 1 1 e 0); [right; lia|constructor|exact H].
Qed.
Definition e_item : elem := EGroup [[Rep 1 1 (ERule "rule")]; [Rep 1 1 (EGroup [[Rep 0 (-1) (ERule "WSP"); Rep 1 1 (ERule "c-nl")]])]].
Lemma item_upper : reaches abnf_grammar e_item [] t_upper.
Proof.
  unfold e_item. apply reach_group. change (@nil Z) with (@nil Z ++ []). eapply (reach_alt _ _ [] _ []); [left; reflexivity|constructor|].
  change (@nil Z) with (@nil Z ++ []). apply (reach_rep _ 1 1 _ 0); [right; lia|constructor|].
  eapply (reach_first "rule"); [apply abnf_resolves; reflexivity|left; reflexivity|].
  eapply (reach_first "rulename"); [apply abnf_resolves; reflexivity|left; reflexivity|].
  eapply (reach_first "ALPHA"); [apply abnf_resolves; reflexivity|left; reflexivity|]. apply reach_here. reflexivity.
Qed.
Lemma item_semi : reaches abnf_grammar e_item [] t_semi.
Proof.
  unfold e_item. apply reach_group. change (@nil Z) with (@nil Z ++ []). eapply (reach_alt _ _ [] _ []); [right; left; reflexivity|constructor|].
  change (@nil Z) with (@nil Z ++ []). apply (reach_rep _ 1 1 _ 0); [right; lia|constructor|].
  apply reach_group. change (@nil Z) with (@nil Z ++ []). eapply (reach_alt _ _ [_] _ []); [left; reflexivity| |].
  { change (@nil Z) with (@nil Z ++ []). constructor; [|constructor]. apply in_rep_intro with (n := 0%nat); [lia|left; reflexivity|constructor]. }
  change (@nil Z) with (@nil Z ++ []). apply (reach_rep _ 1 1 _ 0); [right; lia|constructor|].
  eapply (reach_first "c-nl"); [apply abnf_resolves; reflexivity|left; reflexivity|].
  eapply (reach_first "comment"); [apply abnf_resolves; reflexivity|left; reflexivity|]. apply reach_here. reflexivity.
Qed.
Lemma list_upto n w t : in_pow abnf_grammar e_item n w -> reaches abnf_grammar e_item [] t -> reaches abnf_grammar (ERule "rulelist") w t.
Proof.
  intros P R. apply (reach_rule _ _ (rule_alt r_abnfRulelist)); [apply abnf_resolves; reflexivity|].
  change w with ([] ++ w). eapply (reach_alt _ _ [] _ []); [left; reflexivity|constructor|].
  rewrite <- (app_nil_r w). apply (reach_rep _ 1 (-1) e_item n); [left; reflexivity|exact P|exact R].
Qed.
Lemma list_pow w : Lang abnf_grammar "rulelist" w -> exists n, in_pow abnf_grammar e_item n w.
Proof.
  intros H. inversion H as [n a v R A| | | | | |]; subst.
  assert (a = rule_alt r_abnfRulelist) as -> by (eapply (resolves_fun abnf_grammar); [exact (proj1 PropParse.abnf_wf)|exact R|apply abnf_resolves; reflexivity]).
  inversion A as [c a v I C]; subst. destruct I as [<-|[]]. inversion C as [|r c w1 w2 Hr Hc]; subst. inversion Hc; subst.
  inversion Hr as [mn mx e n v L1 L2 P]; subst. rewrite app_nil_r. exists n. exact P.
Qed.
Lemma one_fails input i : (i <= length input)%nat -> match_term t_upper input i = None \/ match_term t_semi input i = None.
Proof.
  intros Hi. unfold t_upper, t_semi. cbn [match_term match_range match_char]. unfold match_range.
  destruct (Nat.leb (length input) i); auto. destruct (decode_rune (skipn i input)) as [r n].
  destruct (Z.eqb r RuneError && Nat.eqb n 1)%bool; auto.
  change (numval_to_rune "41" "x") with 65. change (numval_to_rune "5A" "x") with 90.
  destruct (Z.leb_spec 65 r); cbn [andb]; auto. destruct (Z.leb_spec r 90); auto. right.
  assert (Q : sensequal 59 r false = false); [|rewrite Q; reflexivity].
  destruct (sensequal 59 r false) eqn:Q; auto. apply sensequal_spec in Q. unfold char_ok, fold_case in Q.
  change ((65 <=? 59) && (59 <=? 90))%bool with false in Q. cbv iota in Q. destruct ((65 <=? r) && (r <=? 90))%bool eqn:B; [lia|].
  apply andb_false_iff in B as [B|B]; lia.
Qed.
Lemma item_fails input n i w : span input 0 i w -> in_pow abnf_grammar e_item n w -> exists t, fails_in abnf_grammar "rulelist" input t i.
Proof.
  intros Sp P. pose proof (span_le _ _ _ _ Sp) as Hi.
  assert (K : forall t, is_terminal t = true -> wf_elem t -> reaches abnf_grammar e_item [] t -> match_term t input i = None -> exists t, fails_in abnf_grammar "rulelist" input t i).
  { intros t T Wt R M. exists t, w. split; [exact Sp|]. split; [eapply list_upto; eauto|]. intros (j & v & I & S).
    assert (X : match_term t input i = Some j) by (apply (match_term_spec abnf_grammar t T Wt); [lia|eauto]). congruence. }
  destruct (one_fails input i ltac:(lia)) as [M|M].
  - apply (K t_upper); auto using item_upper. apply wf_b. reflexivity.
  - apply (K t_semi); auto using item_semi. constructor.
Qed.

Theorem C70_abnf_report : forall ord ordE sh fuel redefine validate core input e, any_order ord ->
  ParseAbnf.parse_abnf ord ordE sh fuel redefine validate core input = ParseAbnf.PA_parse e ->
  pe_expected e <> [] /\
  forall k, (k <= length input)%nat -> Lang abnf_grammar "rulelist" (firstn k input) -> Z.of_nat k <= pe_offset e.
Proof.
  intros ord ordE sh fuel rd v core input e O E. unfold ParseAbnf.parse_abnf in E.
  destruct (parse_forest ord fuel input abnf_grammar "rulelist" default_max_slots 0) as [f| | | |] eqn:F; try discriminate.
  destruct (f_parse_error f) as [e'|] eqn:Pe.
  2:{ destruct (Tree.f_ambiguous fuel f) as [[|]|]; try discriminate. destruct (Tree.f_tree fuel f) as [[t|]|]; try discriminate.
      destruct (Eval.eval_tree _ _ _ _ _); try discriminate. destruct v; try discriminate. destruct (semval_abnf _ _ _); discriminate. }
  injection E as ->.
  destruct (C70_report_partial _ _ _ _ _ _ _ _ O PropParse.abnf_wf PropParse.abnf_lex PropParse.abnf_apart F) as (H1 & H2 & H3 & _).
  destruct (C14_forest_error _ _ _ _ _ _ _ _ O F) as (_ & Q). destruct (Q _ Pe) as (Q1 & _ & Q3). split.
  - intros N. rewrite N in Q3. apply Permutation_nil in Q3. specialize (H3 Q3).
    destruct (item_fails input 0 0 []) as [t H]; [exists [], input; auto|constructor|].
    rewrite <- H3 in H. assert (X : In (elem_string t) (f_expected f)) by (apply H2; eauto). rewrite Q3 in X. exact X.
  - intros k Le L. destruct (list_pow _ L) as [n P]. destruct (item_fails input n k (firstn k input)) as [t H]; auto.
    + exists [], (skipn k input). cbn. rewrite firstn_skipn, firstn_length. split; auto. split; auto. lia.
    + apply H1 in H. lia.
Qed.

(** The case of C48: [a = 2*3"x" b / a %s"z"], [b = DIGIT / "y"] on "xx?": three
    terminals could come next after "xx". *)
Example C70_case : exists f,
  parse_forest (fun _ l => rev l) 400 (bytes "xx?") g_fail "a" default_max_slots 0 = PF_ok f /\
  wf_grammar g_fail /\ lex_grammar g_fail = true /\ told_apart g_fail /\ f_maxpos f = 2%nat /\ length (f_expected f) = 3%nat /\
  fails_in g_fail "a" (bytes "xx?") (EChar false [120]) 2.
Proof.
  assert (E : exists f, parse_forest (fun _ l => rev l) 400 (bytes "xx?") g_fail "a" default_max_slots 0 = PF_ok f /\ f_maxpos f = 2%nat /\ length (f_expected f) = 3%nat /\
    In """x""" (f_expected f)).
  { eexists. split; [vm_compute; reflexivity|]. split; [vm_compute; reflexivity|]. split; [vm_compute; reflexivity|]. vm_compute. auto. }
  destruct E as (f & E & M & N & X). exists f. split; [exact E|].
  split; [apply wf_grammarb_spec; vm_compute; reflexivity|]. split; [vm_compute; reflexivity|]. split; [apply told_apartb_spec; vm_compute; reflexivity|].
  split; [exact M|]. split; [exact N|]. exists (bytes "xx"). split; [exists [], (bytes "?"); split; [reflexivity|split; reflexivity]|]. split.
  - apply (reach_rule _ _ (rule_alt (hd (mkRule "" []) g_fail))).
    { left. exists (hd (mkRule "" []) g_fail). split; [left; reflexivity|]. split; reflexivity. }
    change (bytes "xx") with ([] ++ bytes "xx"). eapply (reach_alt _ _ []); [left; reflexivity|constructor|].
    change (bytes "xx") with (bytes "xx" ++ []). apply (reach_rep _ 2 3 _ 2); [right; lia| |apply reach_here; reflexivity].
    assert (Y : in_elem g_fail (EChar false [120]) [120]).
    { change [120] with (utf8s [120]) at 2. constructor; [repeat constructor|constructor; [left; lia|constructor]]. }
    change (bytes "xx") with ([120] ++ [120] ++ []). repeat (constructor; auto).
  - intros (j & v & I & S). assert (T : match_term (EChar false [120]) (bytes "xx?") 2 = Some j).
    { apply (match_term_spec g_fail); [reflexivity|constructor|vm_compute; lia|eauto]. }
    vm_compute in T. discriminate.
Qed.
(** "a" CRLF is not a rule; the first line feed of "a = b" CRLF CRLF "?" is fine. *)
Example C70_abnf_case : exists e,
  ParseAbnf.parse_abnf (fun _ l => l) (fun _ l => l) (fun _ l => l) 700 false false core_rules (bytes "a=b" ++ [13; 10; 13; 10; 63]) = ParseAbnf.PA_parse e /\
  pe_offset e = 7 /\ pe_expected e = [""";"""; "%x09"; "%x0D"; "%x20"; "%x41-5A"; "%x61-7A"] /\ pe_found e = """?""".
Proof. eexists. split; [vm_compute; reflexivity|]. vm_compute. auto. Qed.

(** ** C71 *)
Local Notation byte b := (0 <= b < 256).
(** [b] as an ABNF terminal: two hexadecimal digits, with the name of the character
    for the four white space bytes, or a Go string literal. *)
Definition describes (b : Z) (s : string) : Prop :=
  (32 < b < 127 /\ s = ("""" ++ (if ((b =? 34) || (b =? 92))%Z%bool then "\" else "") ++ String (ascii_of_N (Z.to_N b)) """")%string) \/
  ((b <= 32 \/ 127 <= b) /\ exists h nm, s = ("%x" ++ h ++ nm)%string /\ String.length h = 2%nat /\ numeral "x" h = Some b /\
     nm = (if b =? 13 then " (CR)" else if b =? 10 then " (LF)" else if b =? 9 then " (HTAB)" else if b =? 32 then " (SP)" else "")).
Definition describesb (b : Z) (s : string) : bool :=
  ((32 <? b) && (b <? 127) && String.eqb s ("""" ++ (if ((b =? 34) || (b =? 92))%Z%bool then "\" else "") ++ String (ascii_of_N (Z.to_N b)) """")%string) ||
  ((b <=? 32) || (127 <=? b)) && String.eqb s ("%x" ++ substring 2 2 s ++ substring 4 (String.length s - 4) s)%string &&
    (String.length (substring 2 2 s) =? 2)%nat && (match numeral "x" (substring 2 2 s) with Some v => v =? b | None => false end) &&
    String.eqb (substring 4 (String.length s - 4) s) (if b =? 13 then " (CR)" else if b =? 10 then " (LF)" else if b =? 9 then " (HTAB)" else if b =? 32 then " (SP)" else "").
Definition all_bytes : list Z := map Z.of_nat (seq 0 256).
Lemma in_bytes b : byte b -> In b all_bytes.
Proof. intros H. apply in_map_iff. exists (Z.to_nat b). split; [lia|]. apply in_seq. lia. Qed.
Theorem C71_describe : forall b, 0 <= b < 256 -> describes b (describe_byte b).
Proof.
  intros b H. assert (Q : forallb (fun b => describesb b (describe_byte b)) all_bytes = true) by (vm_compute; reflexivity).
  rewrite forallb_forall in Q. specialize (Q b (in_bytes b H)). unfold describesb in Q. set (s := describe_byte b) in *.
  apply orb_true_iff in Q as [Q|Q]; rewrite !andb_true_iff in Q.
  - left. destruct Q as [[Q1 Q2] Q3]. split; [lia|]. apply String.eqb_eq, Q3.
  - right. destruct Q as [[[[Q1 Q2] Q3] Q4] Q5]. split; [lia|]. exists (substring 2 2 s), (substring 4 (String.length s - 4) s).
    split; [apply String.eqb_eq, Q2|]. split; [apply Nat.eqb_eq, Q3|]. split; [|apply String.eqb_eq, Q5].
    destruct (numeral "x" (substring 2 2 s)) as [v|]; [|discriminate]. f_equal. lia.
Qed.
Lemma describe_inj b c : byte b -> byte c -> describe_byte b = describe_byte c -> b = c.
Proof.
  intros B C E. assert (Q : forallb (fun b => forallb (fun c => (b =? c) || negb (String.eqb (describe_byte b) (describe_byte c))) all_bytes) all_bytes = true) by (vm_compute; reflexivity).
  rewrite forallb_forall in Q. specialize (Q b (in_bytes b B)). rewrite forallb_forall in Q. specialize (Q c (in_bytes c C)).
  rewrite E, String.eqb_refl in Q. cbn [negb] in Q. rewrite orb_false_r in Q. lia.
Qed.
Lemma describe_eof b : byte b -> describe_byte b <> "EOF".
Proof.
  intros B E. assert (Q : forallb (fun b => negb (String.eqb (describe_byte b) "EOF")) all_bytes = true) by (vm_compute; reflexivity).
  rewrite forallb_forall in Q. specialize (Q b (in_bytes b B)). rewrite E in Q. discriminate.
Qed.
Lemma describe_plain b : byte b -> PropComments.plainly (describe_byte b) = true.
Proof.
  intros B. assert (Q : forallb (fun b => all_chars PropComments.comment_char (describe_byte b)) all_bytes = true) by (vm_compute; reflexivity).
  rewrite forallb_forall in Q. apply (Q b (in_bytes b B)).
Qed.

(** What was found is the byte at the offset, or the end of the input; the hint about
    line endings is given exactly at a line feed with no carriage return before it. *)
Theorem C71_found_exact : forall input offset expected e, Forall (fun b => 0 <= b < 256) input ->
  new_parse_error input offset expected = e ->
  (pe_found e = "EOF" <-> pe_offset e = Z.of_nat (length input)) /\
  (forall b, 0 <= b < 256 -> (pe_found e = describe_byte b <-> nth_error input (Z.to_nat (pe_offset e)) = Some b)) /\
  (pe_hint e = true <-> nth_error input (Z.to_nat (pe_offset e)) = Some 10 /\
     forall p, Z.to_nat (pe_offset e) = Datatypes.S p -> nth_error input p <> Some 13).
Proof.
  intros input offset expected e F E. destruct (C14_parse_error_exact _ _ _ _ E) as (B & _). subst e. revert B. unfold new_parse_error.
  set (o := if Z.of_nat (length input) <? (if offset <? 0 then 0 else offset) then Z.of_nat (length input) else if offset <? 0 then 0 else offset).
  destruct (line_col (Z.to_nat o) input 1 1) as [line col]. destruct (Z.ltb_spec o (Z.of_nat (length input))) as [L|L]; cbn [pe_found pe_offset pe_hint]; intros B.
  - assert (N : nth_error input (Z.to_nat o) = Some (nth (Z.to_nat o) input 0)) by (apply nth_error_nth'; lia).
    assert (Bb : byte (nth (Z.to_nat o) input 0)) by (rewrite Forall_forall in F; apply F, nth_In; lia).
    split; [split; intros H; [exfalso; exact (describe_eof _ Bb H)|lia]|]. split.
    + intros b Hb. rewrite N. split; intros H; [f_equal; apply describe_inj; auto|congruence].
    + rewrite N, andb_true_iff, orb_true_iff, negb_true_iff, Z.eqb_eq, Z.eqb_eq, Z.eqb_neq. split.
      * intros [H K]. split; [congruence|]. intros p P Q. destruct K as [K|K]; [lia|]. apply K.
        replace (Z.to_nat o - 1)%nat with p by lia. apply nth_error_nth with (d := 0) in Q. exact Q.
      * intros [H K]. split; [congruence|]. destruct (Z.eq_dec o 0) as [Z|Z]; [auto|]. right. intros Q.
        apply (K (Z.to_nat o - 1)%nat); [lia|]. rewrite <- Q. apply nth_error_nth'. lia.
  - assert (N : nth_error input (Z.to_nat o) = None) by (apply nth_error_None; lia).
    split; [split; intros H; [lia|reflexivity]|]. rewrite N. split; [|split; [discriminate|intros [? _]; discriminate]].
    intros b Hb. split; [intros H; exfalso; exact (describe_eof b Hb (eq_sym H))|discriminate].
Qed.

(** The text tells the position apart. *)
Theorem C71_text_position : forall e e', 0 <= pe_offset e -> 0 <= pe_line e -> 0 <= pe_col e -> 0 <= pe_offset e' -> 0 <= pe_line e' -> 0 <= pe_col e' ->
  error_text e = error_text e' -> pe_offset e = pe_offset e' /\ pe_line e = pe_line e' /\ pe_col e = pe_col e'.
Proof.
  intros e e' A B C A' B' C' E. unfold error_text in E.
  assert (St : forall a b c : string, (a ++ b = a ++ c)%string -> b = c) by (induction a; cbn; intros; auto; injection H; auto).
  apply St in E. apply (munch is_dig) in E as [E1 E]; [|apply itoa_digits; auto..|reflexivity|reflexivity]. apply St in E.
  apply (munch is_dig) in E as [E2 E]; [|apply itoa_digits; auto..|reflexivity|reflexivity]. apply St in E.
  apply (munch is_dig) in E as [E3 E]; [|apply itoa_digits; auto..|reflexivity|reflexivity].
  apply itoa_inj in E1, E2, E3; auto.
Qed.

(** For grammars that can be written the text is one line of printable ASCII. *)
Theorem C71_one_line : forall ord fuel input g root max_slots max_nodes f e, any_order ord -> Forall written_rule g ->
  Forall (fun b => 0 <= b < 256) input ->
  parse_forest ord fuel input g root max_slots max_nodes = PF_ok f -> f_parse_error f = Some e ->
  all_chars PropComments.comment_char (error_text e) = true.
Proof.
  intros ord fuel input g root ms mn f e O Wr By E P.
  pose proof (parse_forest_ok _ _ _ _ _ _ _ _ E) as (C & st & _ & _ & I & _).
  destruct (compile_ok_represents _ _ _ _ _ C) as [idx R].
  destruct (C48_furthest_failure_exact _ _ _ _ _ _ _ _ O E) as (_ & H2 & _).
  destruct (C14_forest_error _ _ _ _ _ _ _ _ O E) as (_ & H3). destruct (H3 e P) as (_ & _ & Pm).
  assert (X : Forall (fun s => PropComments.plainly s = true) (pe_expected e)).
  { apply Forall_forall. intros x J. apply (Permutation_in _ Pm) in J. apply H2 in J as (t & (L & rc & p & At & Ns & Nd & _) & ->).
    apply PropComments.printed_plain. apply (PropComments.occ_elem_printable g Wr).
    unfold prod_of in Ns. destruct (nth_error (sg_nts (f_sg f)) (s_nt L)) as [nt|] eqn:Nt; [|discriminate].
    apply (sg_term g root (f_sg f) idx R nt p t); [eapply nth_error_In; eauto..]. }
  unfold f_parse_error in P. destruct (f_valid f); [discriminate|]. injection P as P. rewrite I in P.
  destruct (C14_parse_error_exact _ _ _ _ P) as (B1 & _ & B2 & (last & _ & B3) & _).
  assert (Fo : PropComments.plainly (pe_found e) = true).
  { destruct (C71_found_exact _ _ _ _ By P) as (F1 & F2 & _).
    destruct (Z.eq_dec (pe_offset e) (Z.of_nat (length input))) as [Q|Q]; [apply F1 in Q; rewrite Q; reflexivity|].
    assert (N : nth_error input (Z.to_nat (pe_offset e)) = Some (nth (Z.to_nat (pe_offset e)) input 0)) by (apply nth_error_nth'; lia).
    assert (Bb : byte (nth (Z.to_nat (pe_offset e)) input 0)) by (rewrite Forall_forall in By; apply By, nth_In; lia).
    apply F2 in N; [|exact Bb]. rewrite N. apply describe_plain, Bb. }
  unfold error_text. rewrite !PropComments.plain_app, !PropComments.itoa_plain by lia.
  assert (Jn := PropComments.plain_join ", " (pe_expected e) eq_refl X). destruct (pe_expected e) as [|x l].
  - destruct (String.eqb (pe_found e) ""), (pe_hint e); rewrite ?PropComments.plain_app, ?Fo; reflexivity.
  - destruct (String.eqb (pe_found e) ""), (pe_hint e); rewrite ?PropComments.plain_app, ?Fo, Jn; reflexivity.
Qed.

(** Not for grammars built by hand: a quoted string with a line feed comes out as it is. *)
Definition g_line : grammar := [mkRule "a" [[Rep 1 1 (EChar false [10])]]].
Theorem C71_one_line_refuted : exists g root input f e, wf_grammar g /\ Forall (fun b => 0 <= b < 256) input /\
  parse_forest (fun _ l => l) 100 input g root default_max_slots 0 = PF_ok f /\ f_parse_error f = Some e /\
  In (ascii_of_N 10) (list_ascii_of_string (error_text e)).
Proof.
  exists g_line, "a", [120]. eexists. eexists. split; [apply wf_grammarb_spec; vm_compute; reflexivity|]. split; [repeat constructor; lia|].
  split; [vm_compute; reflexivity|]. split; [vm_compute; reflexivity|]. vm_compute. tauto.
Qed.

(** "a=b" with a bare line feed. *)
Example C71_case : exists f e, Forall written_rule abnf_grammar /\ Forall (fun b => 0 <= b < 256) (bytes "a=b" ++ [10]) /\
  parse_forest (fun _ l => l) 700 (bytes "a=b" ++ [10]) abnf_grammar "rulelist" default_max_slots 0 = PF_ok f /\ f_parse_error f = Some e /\
  error_text e = "parse error at line 1, column 4 (offset 3): expected ""-"", ""/"", "";"", %x09, %x0D, %x20, %x30-39, %x41-5A, %x61-7A, found %x0A (LF) (hint: input uses bare LF line endings, but ABNF requires CR LF (""\r\n""))".
Proof.
  eexists. eexists. split; [apply Forall_forall; intros r I; apply C40_written_exact; revert r I; apply forallb_forall; vm_compute; reflexivity|]. split; [repeat constructor; lia|]. split; [vm_compute; reflexivity|]. split; vm_compute; reflexivity.
Qed.
Example C71_bytes : map describe_byte [13; 10; 9; 32; 34; 92; 97; 0; 127; 233] =
  ["%x0D (CR)"; "%x0A (LF)"; "%x09 (HTAB)"; "%x20 (SP)"; """\"""""; """\\"""; """a"""; "%x00"; "%x7F"; "%xE9"].
Proof. vm_compute. reflexivity. Qed.

Print Assumptions C70_report_partial.
Print Assumptions C70_order_free.
Print Assumptions C70_report_refuted.
Print Assumptions C70_reached_refuted.
Print Assumptions C70_abnf_report.
Print Assumptions C71_describe.
Print Assumptions C71_found_exact.
Print Assumptions C71_text_position.
Print Assumptions C71_one_line.
Print Assumptions C71_one_line_refuted.
