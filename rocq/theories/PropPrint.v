(** C40: printing a grammar (abnf.go:33-194, grammar.go:46-75) and reading the text
    back.  ReadSpec.v says what a text says. *)
(** The definitions here without a citation are those of statements, proofs and examples; they model no code. *)
From Coq Require Import ZArith Arith String Ascii Bool List Lia Permutation.
From Verif Require Import Syntax Spec Term Printer PrintInj Eval EvalProof ReadSpec TreeSpec PropTerm PropGll PropEval PropTree AbnfRead AbnfEval PrintText PropRead.
Import ListNotations.
Local Open Scope string_scope.
Local Open Scope list_scope.
Local Open Scope Z_scope.

(** A rule that can be written: its name is one, and some text says its
    alternatives. *)
Definition written_alt (a : alternation) : Prop := exists w, text_alt a w.
Definition written_rule (r : rule) : Prop := lex_name (rule_name r) = true /\ written_alt (rule_alt r).
(** The rule with quoted strings taken as case-insensitive: [%s] dropped. *)
Definition erase_rule (r : rule) : rule := mkRule (rule_name r) (erase_alt (rule_alt r)).

(** *** Texts *)
Lemma quiet_blank_spaces n : quiet_filler (repeat 32 n ++ [32]).
Proof.
  intros p s E. assert (F : forall c, In c (repeat 32 n ++ [32]) -> c = 32).
  { intros c I. apply in_app_or in I as [I|[I|[]]]; [apply repeat_spec in I; auto|auto]. }
  assert (X : 61 = 32) by (apply F; rewrite E; apply in_or_app; right; left; reflexivity). discriminate.
Qed.
Lemma blanks_spaces n : blanks (repeat 32 n ++ [32]).
Proof.
  induction n as [|n IH]; [apply a_blank|]. cbn [repeat app]. apply (bs_cons [32]); [constructor; left; reflexivity|exact IH].
Qed.
Lemma spaces_bytes n : bytes (spaces n) = repeat 32 n.
Proof.
  induction n as [|n IH]; [reflexivity|]. change (spaces (S n)) with (String " " (spaces n)). rewrite bytes_cons, IH. reflexivity.
Qed.
Lemma printed_line n k a : lex_name n = true -> written_alt a ->
  text_rule quiet_filler (mkRule n (erase_alt a), false) (bytes n ++ (repeat 32 k ++ [32]) ++ operator false ++ [32] ++ bytes (alt_string a) ++ [] ++ [13; 10]).
Proof.
  intros L (w & W). apply text_rule_intro; auto.
  - apply blanks_spaces.
  - apply quiet_blank_spaces.
  - apply (blanks_spaces 0).
  - apply (quiet_blank_spaces 0).
  - apply print_text in W. exact W.
  - constructor.
Qed.

(** The printed grammar says the rules, in the order they are printed, without
    their [%s]: the full statement asks for the rules themselves, which the next
    theorem gives when there is no [%s]; see the refutation otherwise. *)
Theorem C40_printed_text_partial : forall rs, rs <> [] -> Forall written_rule rs ->
  text_says quiet_filler (bytes (grammar_string rs)) (map (fun r => (erase_rule r, false)) rs).
Proof.
  intros rs NE F. split.
  - destruct rs as [|r rs]; [congruence|]. inversion F as [|? ? [L _] _]; subst. unfold grammar_string. cbn [map cat_all].
    unfold rule_string. rewrite !bytes_sapp. destruct (rule_name r); [discriminate|discriminate].
  - clear NE. induction F as [|r rs [L W] F IH]; [constructor|]. unfold grammar_string in *. cbn [map cat_all]. rewrite bytes_sapp.
    apply tl_rule; [|exact IH]. pose proof (printed_line (rule_name r) 0 (rule_alt r) L W) as H. unfold rule_string. rewrite !bytes_sapp, <- !app_assoc. exact H.
Qed.
Theorem C40_printed_text_same : forall rs, rs <> [] -> Forall written_rule rs -> Forall (fun r => erase_rule r = r) rs ->
  text_says quiet_filler (bytes (grammar_string rs)) (map (fun r => (r, false)) rs).
Proof.
  intros rs NE F E. pose proof (C40_printed_text_partial rs NE F) as H.
  replace (map (fun r => (erase_rule r, false)) rs) with (map (fun r => (r, false)) rs) in H; auto.
  clear - E. induction E as [|r rs H E IH]; [reflexivity|]. cbn [map]. rewrite H, IH. reflexivity.
Qed.
(** PrettyPrint, which prints the keys of the map. *)
Theorem C40_pretty_text_partial : forall m, m <> [] ->
  Forall (fun kr => lex_name (fst kr) = true /\ written_alt (rule_alt (snd kr))) m ->
  text_says quiet_filler (bytes (pretty_string m)) (map (fun kr => (mkRule (fst kr) (erase_alt (rule_alt (snd kr))), false)) m).
Proof.
  intros m NE F. unfold pretty_string. set (wd := widest m). clearbody wd. split.
  - destruct m as [|[k r] m]; [congruence|]. inversion F as [|? ? [L _] _]; subst. cbn [fst snd map cat_all] in *. rewrite !bytes_sapp. destruct k; discriminate.
  - clear NE. induction F as [|[k r] m [L W] F IH]; [constructor|]. cbn [map cat_all]. rewrite bytes_sapp. apply tl_rule; [|exact IH].
    cbn [fst snd] in *. pose proof (printed_line k (wd - String.length k) (rule_alt r) L W) as H. rewrite !bytes_sapp, spaces_bytes.
    rewrite <- !app_assoc in H. exact H.
Qed.

(** Grammars that print the same differ by [%s] at most. *)
Theorem C40_same_print : forall rs rs', Forall written_rule rs -> Forall written_rule rs' ->
  grammar_string rs = grammar_string rs' -> map erase_rule rs = map erase_rule rs'.
Proof.
  assert (NE : forall r rs, Forall written_rule (r :: rs) -> grammar_string (r :: rs) <> "").
  { intros r rs F E. inversion F as [|? ? [L _] _]; subst. unfold grammar_string in E. cbn [map cat_all] in E. unfold rule_string in E.
    destruct (rule_name r); discriminate. }
  intros rs rs' F F' E. destruct rs as [|r rs], rs' as [|r' rs']; auto.
  - symmetry in E. exfalso. exact (NE _ _ F' E).
  - exfalso. exact (NE _ _ F E).
  - assert (Q : forall w ds, text_says quiet_filler w ds -> text_says any_filler w ds).
    { intros w ds [A B]. split; auto. clear A. induction B as [|d w ds w' T B IH|ws nl ds w' W N B IH]; constructor; auto.
      destruct T. constructor; auto; exact Logic.I. }
    pose proof (Q _ _ (C40_printed_text_partial (r :: rs) ltac:(discriminate) F)) as H. pose proof (Q _ _ (C40_printed_text_partial (r' :: rs') ltac:(discriminate) F')) as H'.
    rewrite E in H. pose proof (C55_one_meaning _ _ _ H H') as X. apply (f_equal (map fst)) in X. rewrite !map_map in X. exact X.
Qed.
Theorem C40_same_rule_print : forall r r', written_rule r -> written_rule r' ->
  rule_string r = rule_string r' -> erase_rule r = erase_rule r'.
Proof.
  intros r r' W W' E. assert (X : map erase_rule [r] = map erase_rule [r']).
  { apply C40_same_print; auto. unfold grammar_string. cbn [map cat_all]. rewrite E. reflexivity. }
  injection X. intros A B. destruct r, r'. unfold erase_rule in *. cbn in *. congruence.
Qed.

(** Dropping [%s] only adds words. *)
Lemma core_erased : map erase_rule core_rules = core_rules.
Proof. vm_compute. reflexivity. Qed.
Lemma resolves_erased g n a : resolves g n a -> resolves (map erase_rule g) n (erase_alt a).
Proof.
  intros [(r & A & B & <-)|(A & r & B & C & <-)].
  - left. exists (erase_rule r). split; [apply in_map; auto|]. auto.
  - right. split.
    + intros r' I. apply in_map_iff in I as (r0 & <- & I). apply (A r0 I).
    + exists (erase_rule r). split; [rewrite <- core_erased; apply in_map; auto|]. auto.
Qed.
Theorem C40_language_grows : forall g n w, Lang g n w -> Lang (map erase_rule g) n w.
Proof.
  intros g n w H. change (in_elem (map erase_rule g) (erase_elem (ERule n)) w).
  pose (G := map erase_rule g). fold G.
  assert (X : (forall e w, in_elem g e w -> in_elem G (erase_elem e) w) /\
    (forall a w, in_alt g a w -> in_alt G (erase_alt a) w) /\ (forall c w, in_cat g c w -> in_cat G (map erase_rep c) w) /\
    (forall r w, in_rep g r w -> in_rep G (erase_rep r) w) /\ (forall e k w, in_pow g e k w -> in_pow G (erase_elem e) k w)).
  { clear n w H. apply lang_mut.
    - intros m a w Rs _ IH. apply in_rule with (erase_alt a); auto. apply resolves_erased. exact Rs.
    - intros a w _ IH. apply (in_group G (erase_alt a)). exact IH.
    - intros a. apply (in_option_none G (erase_alt a)).
    - intros a w _ IH. apply (in_option_some G (erase_alt a)). exact IH.
    - intros s vs rs F Sc. apply in_char; auto. clear - F. induction F as [|v r vs rs C F IH]; constructor; auto.
      destruct s; cbn [char_ok] in *; congruence.
    - intros b ns rs F Sc. apply in_series; auto.
    - intros b lo hi l h r A B C D. eapply in_range; eauto.
    - intros c a w I _ IH. apply in_alt_intro with (map erase_rep c); auto. apply in_map. exact I.
    - constructor.
    - intros r c w1 w2 _ A _ B. apply in_cat_cons; auto.
    - intros mn mx e k w A B _ C. apply (in_rep_intro G mn mx (erase_elem e) k); auto.
    - intros e. constructor.
    - intros e k w1 w2 _ A _ B. apply in_pow_S; auto. }
  apply X. exact H.
Qed.

(** The text printed for a rule with [%s] says a rule with more words. *)
Definition sens : rule := mkRule "s" [[Rep 1 1 (EChar true [97])]].
Lemma sens_written : written_rule sens.
Proof.
  split; [reflexivity|]. exists (bytes "%s""a"""). apply ta_one, tc_one, tr_once.
  apply (te_char true [37; 115] [97]); [constructor; left; reflexivity|constructor; [reflexivity|constructor]].
Qed.
Lemma inv_alt g a w : in_alt g a w -> exists c, In c a /\ in_cat g c w.
Proof. intros H. inversion H; subst. eauto. Qed.
Lemma inv_cat g r c w : in_cat g (r :: c) w -> exists w1 w2, w = w1 ++ w2 /\ in_rep g r w1 /\ in_cat g c w2.
Proof. intros H. inversion H; subst. eauto. Qed.
Lemma inv_nil g w : in_cat g [] w -> w = [].
Proof. intros H. inversion H; subst. auto. Qed.
Lemma inv_one g e w : in_rep g (Rep 1 1 e) w -> in_elem g e w.
Proof.
  intros H. inversion H as [mn mx e0 k w0 B1 B2 P]; subst. destruct B2 as [B2|B2]; [discriminate|]. assert (k = 1%nat) by lia. subst k.
  inversion P as [|e0 k w3 w4 P1 P2]; subst. inversion P2; subst. rewrite app_nil_r. exact P1.
Qed.
Lemma inv_sens g w : in_elem g (EChar true [97]) w -> w = [97].
Proof.
  intros H. inversion H as [| | | |s vs rs F Sc| |]; subst. inversion F as [|v r vs rs' C0 F']; subst. inversion F'; subst.
  cbn [char_ok] in C0. subst r. reflexivity.
Qed.
Theorem C40_printed_text_refuted : exists rs ds w, Forall written_rule rs /\
  text_says quiet_filler (bytes (grammar_string rs)) ds /\ Lang (map fst ds) "s" w /\ ~ Lang rs "s" w.
Proof.
  exists [sens], [(erase_rule sens, false)], [65]. split; [constructor; [apply sens_written|constructor]|].
  split; [apply (C40_printed_text_partial [sens]); [discriminate|constructor; [apply sens_written|constructor]]|]. split.
  - apply in_rule with (erase_alt (rule_alt sens)).
    + left. exists (erase_rule sens). split; [left; reflexivity|]. split; reflexivity.
    + apply in_alt_intro with [Rep 1 1 (EChar false [97])]; [left; reflexivity|].
      apply (in_cat_cons _ _ _ [65] []); [|constructor]. apply (in_rep_intro _ 1 1 _ 1%nat); [lia|right; lia|].
      apply (in_pow_S _ _ _ [65] []); [|constructor]. apply (in_char _ false [97] [65]).
      * constructor; [reflexivity|constructor].
      * constructor; [unfold scalar; lia|constructor].
  - intros H. inversion H as [n a w Rs A| | | | | |]; subst.
    assert (a = rule_alt sens).
    { destruct Rs as [(r & [<-|[]] & _ & E)|(N & _)]; auto. exfalso. apply (N sens); [left; reflexivity|reflexivity]. }
    subst a. apply inv_alt in A as (c & Ic & C). destruct Ic as [<-|[]]. apply inv_cat in C as (w1 & w2 & Ew & C1 & C2). apply inv_nil in C2. subst w2.
    rewrite app_nil_r in Ew. subst w1. apply inv_one in C1. apply inv_sens in C1. discriminate.
Qed.
(** A grammar without rules prints as the empty text, which is not ABNF. *)
Theorem C40_empty_refuted : grammar_string [] = "" /\ ~ Lang abnf_grammar "rulelist" [].
Proof.
  split; [reflexivity|]. intros H. apply C55_abnf_texts in H as (ds & NE & _). congruence.
Qed.

(** ** The round trip *)
Lemma written_one c : (exists w, text_cat c w) -> written_alt [c].
Proof. intros (w & H). exists w. constructor. auto. Qed.
Lemma written_app a b : written_alt a -> written_alt b -> written_alt (a ++ b).
Proof.
  intros (w & H) (w' & H'). unfold written_alt. revert w' b H'.
  assert (X : (forall e w, text_elem e w -> True) /\ (forall r w, text_rep r w -> True) /\ (forall c w, text_cat c w -> True) /\
    (forall a w, text_alt a w -> forall w' b, text_alt b w' -> exists u, text_alt (a ++ b) u)).
  { apply text_mut; auto.
    - intros c u C _ u' b B. exists (u ++ [] ++ 47 :: [] ++ u'). constructor; auto; constructor.
    - intros c u b1 b2 a' u' C _ B1 B2 A IH u2 b B. destruct (IH _ _ B) as (u3 & U). exists (u ++ b1 ++ 47 :: b2 ++ u3). constructor; auto. }
  destruct X as (_ & _ & _ & X). intros w' b H'. eapply X; eauto.
Qed.
Lemma says_written filler w ds : text_lines filler ds w -> Forall (fun d => written_rule (fst d)) ds.
Proof.
  intros H. induction H as [|d w ds w' T H IH|ws nl ds w' W N H IH]; auto. constructor; auto.
  destruct T. split; [assumption|]. eexists. eassumption.
Qed.
Lemma taken_written w ds : text_taken w ds -> Forall (fun d => written_rule (fst d)) ds.
Proof.
  intros H. destruct (taken_says _ _ H) as (ds' & [_ S] & M). apply says_written in S. apply Forall_forall. intros d I.
  assert (J : In (fst d) (map fst ds')) by (rewrite M; apply in_map, I). apply in_map_iff in J as (d' & <- & J). rewrite Forall_forall in S. exact (S _ J).
Qed.
Lemma merged_written ds r : Forall (fun d => written_rule (fst d)) ds -> defined_as ds r -> written_rule r.
Proof.
  intros F (d & I & N & A). rewrite Forall_forall in F. split; [rewrite N; apply (F _ I)|]. rewrite A.
  assert (NE : exists d, In d ds /\ equal_fold (rule_name r) (rule_name (fst d)) = true).
  { exists (d, false). split; auto. cbn [fst]. rewrite N. apply equal_fold_iff. reflexivity. }
  assert (F' : forall d, In d ds -> written_alt (rule_alt (fst d))) by (intros d' I'; apply F; auto).
  clear - NE F'. unfold merged. induction ds as [|d ds IH]; [destruct NE as (? & [] & _)|]. cbn [flat_map].
  destruct (equal_fold (rule_name r) (rule_name (fst d))) eqn:E.
  - assert (D : flat_map (fun d => if equal_fold (rule_name r) (rule_name (fst d)) then rule_alt (fst d) else []) ds = [] \/
      exists d, In d ds /\ equal_fold (rule_name r) (rule_name (fst d)) = true).
    { clear. induction ds as [|d ds IH]; [left; reflexivity|]. cbn [flat_map].
      destruct (equal_fold (rule_name r) (rule_name (fst d))) eqn:E; [right; exists d; split; [left; auto|auto]|].
      destruct IH as [->|(d' & A & B)]; [left; reflexivity|right; exists d'; split; [right; auto|auto]]. }
    destruct D as [->|D]; [rewrite app_nil_r; apply F'; left; reflexivity|].
    apply written_app; [apply F'; left; reflexivity|]. apply IH; auto. intros d' I'. apply F'. right. exact I'.
  - apply IH; [|intros d' I'; apply F'; right; exact I']. destruct NE as (d' & [<-|I'] & E'); [congruence|eauto].
Qed.

(** The definitions printed for the rules of a grammar evaluate to these rules. *)
Lemma define_printed core ord rs : any_order ord -> distinct_names rs -> (forall r, In r rs -> ~ core_name core (rule_name r)) ->
  exists st, e_define_all false ord (map (fun r => (r, false)) rs) (mkE core [] 0) = EvOk st /\
    (forall r, In r (rules_of st) <-> In r rs) /\ distinct_names (rules_of st) /\ e_core st = core.
Proof.
  intros O D NC. pose proof (C38_definitions_merge_partial core ord (map (fun r => (r, false)) rs) O) as H.
  assert (Mg : forall r, In r rs -> merged (rule_name r) (map (fun r => (r, false)) rs) = rule_alt r).
  { clear - D. intros r I. unfold distinct_names in D. unfold merged. induction rs as [|r0 rs IH]; [destruct I|].
    cbn [map] in D. inversion D as [|? ? D1 D2]; subst.
    assert (Z : forall m, ~ In (lower m) (map (fun r => lower (rule_name r)) rs) ->
      flat_map (fun d => if equal_fold m (rule_name (fst d)) then rule_alt (fst d) else []) (map (fun r => (r, false)) rs) = []).
    { clear. intros m N. induction rs as [|r1 rs IH]; [reflexivity|]. cbn [map flat_map fst In] in *.
      destruct (equal_fold m (rule_name r1)) eqn:E; [|apply IH; tauto]. exfalso. apply N. left. apply equal_fold_iff in E. symmetry. exact E. }
    cbn [map flat_map fst]. destruct I as [->|I].
    - assert (E : equal_fold (rule_name r) (rule_name r) = true) by (apply equal_fold_iff; reflexivity). rewrite E, (Z _ D1). apply app_nil_r.
    - destruct (equal_fold (rule_name r) (rule_name r0)) eqn:E; [|apply IH; auto]. exfalso. apply D1. apply equal_fold_iff in E. unfold same_name in E. rewrite <- E.
      apply in_map_iff. exists r. auto. }
  destruct (e_define_all false ord _ _) as [st|e|]; [|exfalso|contradiction].
  - destruct H as (_ & Dn & R & C). exists st. split; auto. split; [|auto]. intros r. rewrite R. split.
    + intros (d & I & N & A). apply in_map_iff in I as (d' & E & I). injection E as ->. rewrite N, (Mg _ I) in A. destruct r, d. cbn in *. subst. exact I.
    + intros I. exists r. split; [apply in_map_iff; exists r; auto|]. split; auto. symmetry. apply Mg. exact I.
  - destruct H as (pre & d & post & E & _ & V).
    assert (Dd : exists r, d = (r, false) /\ In r rs).
    { assert (I : In d (map (fun r => (r, false)) rs)) by (rewrite E; apply in_or_app; right; left; reflexivity). apply in_map_iff in I as (r & <- & I). eauto. }
    destruct Dd as (r & -> & I). destruct V as [Vc|_ _ Vn|_ Vs _]; [eapply NC; eauto| |discriminate].
    destruct Vn as (d' & I' & Sn). cbn [fst] in Sn. clear - D E I' Sn. revert pre E I'. unfold distinct_names in D.
    induction rs as [|r0 rs IH]; intros [|p pre] E I'; try discriminate; [destruct I'|]. cbn [map app] in E. injection E as <- E. cbn [map] in D. inversion D as [|? ? D1 D2]; subst.
    destruct I' as [<-|I']; [|eapply IH; eauto]. apply D1. cbn [fst] in Sn. unfold same_name in Sn. rewrite <- Sn.
    assert (I : In (r, false) (map (fun r => (r, false)) rs)) by (rewrite E; apply in_or_app; right; left; reflexivity).
    apply in_map_iff in I as (r1 & X & I). injection X as ->. apply in_map_iff. exists r. auto.
Qed.

(** Reading a text, printing the grammar in any order of the rule map, and reading
    the printed text again gives the same rules, when no rule has a [%s] (otherwise
    the rules without their [%s]).  [rs] is the order Grammar.String meets the
    rules in. *)
Theorem C40_round_trip_partial : forall w ds t ord st rs t' ord',
  any_order ord -> any_order ord' ->
  text_taken w ds -> Derivation abnf_grammar "rulelist" w t ->
  eval_tree false ord core_rules w t = EvOk st -> Permutation rs (rules_of st) -> rs <> [] ->
  (exists u, Derivation abnf_grammar "rulelist" (bytes (grammar_string rs)) u) /\
  (Derivation abnf_grammar "rulelist" (bytes (grammar_string rs)) t' ->
   exists st', eval_tree false ord' core_rules (bytes (grammar_string rs)) t' = EvOk st' /\
     (forall r, In r (rules_of st') <-> exists r0, In r0 (rules_of st) /\ r = erase_rule r0) /\
     (Forall (fun r => erase_rule r = r) rs -> forall r, In r (rules_of st') <-> In r (rules_of st))).
Proof.
  intros w ds t ord st rs t' ord' O O' H T E P NE. rewrite (C56_evaluation_exact _ _ _ _ _ _ H T) in E.
  pose proof (C38_definitions_merge_partial core_rules ord ds O) as M. rewrite E in M. destruct M as (Ok & Dn & Rl & _).
  assert (Wr : Forall written_rule rs).
  { rewrite Forall_forall. intros r I. eapply merged_written; [exact (taken_written _ _ H)|]. apply Rl. eapply Permutation_in; eauto. }
  pose proof (C40_printed_text_partial rs NE Wr) as S. split.
  { apply text_tree in S as (u & _ & U & _). eauto. }
  intros T'. rewrite (C56_evaluation_partial _ _ _ _ _ _ S T').
  assert (EM : map (fun r => (erase_rule r, false)) rs = map (fun r => (r, false)) (map erase_rule rs)) by (rewrite map_map; reflexivity).
  rewrite EM. destruct (define_printed core_rules ord' (map erase_rule rs) O') as (st' & E' & R' & _).
  - unfold distinct_names in *. rewrite map_map. cbn [erase_rule rule_name]. eapply Permutation_NoDup; [|exact Dn]. apply Permutation_map. symmetry. exact P.
  - intros r I. apply in_map_iff in I as (r0 & <- & I). cbn [erase_rule rule_name].
    assert (D : defined_as ds r0) by (apply Rl; eapply Permutation_in; eauto). destruct D as (d & Id & N & _). rewrite N.
    intros C. apply in_split in Id as (pre & post & Es). eapply (Ok _ _ _ _ Es). apply v_core. exact C.
  - exists st'. split; auto.
    assert (X : forall r, In r (rules_of st') <-> exists r0, In r0 (rules_of st) /\ r = erase_rule r0).
    { intros r. rewrite R', in_map_iff. split; intros (r0 & A & B).
      - exists r0. split; [eapply Permutation_in; eauto|auto].
      - exists r0. split; [auto|]. eapply Permutation_in; [symmetry; exact P|auto]. }
    split; auto. intros F r. rewrite X. rewrite Forall_forall in F. split.
    + intros (r0 & A & ->). rewrite F; auto. eapply Permutation_in; [symmetry; exact P|auto].
    + intros A. exists r. split; auto. symmetry. apply F. eapply Permutation_in; [symmetry; exact P|auto].
Qed.

(** PrettyPrint aligns: every line is the name, spaces up to the length of the
    longest name (which needs none), and what String prints after the name. *)
Theorem C40_pretty_aligned : forall m, exists pads,
  pretty_string m = cat_all (map (fun p => fst (fst p) ++ snd p ++ " = " ++ alt_string (rule_alt (snd (fst p))) ++ crlf)%string (combine m pads)) /\
  length pads = length m /\
  (forall p, In p pads -> exists n, p = spaces n) /\
  (forall kr p kr' p', In (kr, p) (combine m pads) -> In (kr', p') (combine m pads) ->
     (String.length (fst kr) + String.length p = String.length (fst kr') + String.length p')%nat) /\
  (m <> [] -> exists kr, In (kr, EmptyString) (combine m pads)).
Proof.
  intros m. set (pad := fun kr : string * rule => spaces (widest m - String.length (fst kr))).
  assert (SL : forall n, String.length (spaces n) = n).
  { induction n as [|n IH]; [reflexivity|]. change (spaces (S n)) with (String " " (spaces n)). cbn [String.length]. now rewrite IH. }
  assert (WD : forall l kr, In kr l -> (String.length (fst kr) <= widest l)%nat).
  { induction l as [|x l IH]; intros kr [].
    - subst. cbn [widest fold_right]. apply Nat.le_max_l.
    - etransitivity; [apply IH; assumption|]. cbn [widest fold_right]. apply Nat.le_max_r. }
  assert (WA : forall l, l <> [] -> exists kr, In kr l /\ String.length (fst kr) = widest l).
  { induction l as [|x l IH]; [congruence|]. intros _. change (widest (x :: l)) with (Nat.max (String.length (fst x)) (widest l)).
    destruct (Nat.le_gt_cases (widest l) (String.length (fst x))) as [L|L].
    - exists x. split; [left; reflexivity|]. symmetry. apply Nat.max_l. exact L.
    - destruct l as [|y l]; [cbn in L; lia|]. destruct IH as (kr & A & B); [congruence|]. exists kr. split; [right; exact A|]. rewrite B. symmetry. apply Nat.max_r. lia. }
  assert (CB : forall l : list (string * rule), combine l (map pad l) = map (fun kr => (kr, pad kr)) l).
  { induction l as [|x l IH]; [reflexivity|]. cbn [map combine]. now rewrite IH. }
  exists (map pad m). rewrite CB. split; [|split; [|split; [|split]]].
  - rewrite map_map. reflexivity.
  - apply map_length.
  - intros p A. apply in_map_iff in A as (kr & <- & _). eexists. reflexivity.
  - intros kr p kr' p' A B. apply in_map_iff in A as (x & E & A). apply in_map_iff in B as (y & E' & B).
    injection E as <- <-. injection E' as <- <-. unfold pad. rewrite !SL. pose proof (WD m x A). pose proof (WD m y B). lia.
  - intros NE. destruct (WA m NE) as (kr & A & B). exists kr. apply in_map_iff. exists kr. split; [|exact A]. unfold pad. rewrite B, Nat.sub_diag. reflexivity.
Qed.

(** *** A case *)
Definition plain_rule : rule := mkRule "ab" [[Rep 2 3 (EGroup [[Rep 1 1 (ERule "c")]; [Rep 1 1 (ENum "x" StatRange ["41"; "5A"])]]); Rep 0 inf (EChar false [113])]].
Example C40_case :
  written_rule plain_rule /\ erase_rule plain_rule = plain_rule /\ written_rule sens /\
  rule_string plain_rule = "ab = 2*3(c / %x41-5A) *""q""" /\
  pretty_string [("ab", plain_rule); ("s", sens)] = ("ab = 2*3(c / %x41-5A) *""q""" ++ crlf ++ "s  = ""a""" ++ crlf)%string /\
  (exists t st, Derivation abnf_grammar "rulelist" ex_text t /\ eval_tree false id_order core_rules ex_text t = EvOk st /\
     grammar_string (rules_of st) = ("ab = 2*3(c / %x41-5A) ""q""" ++ crlf)%string).
Proof.
  split.
  { split; [reflexivity|]. exists (bytes "2*3(c / %x41-5A) *""q"""). unfold plain_rule. cbn [rule_alt]. apply ta_one.
    apply (tc_more _ (bytes "2*3(c / %x41-5A)") [32] [] _ (bytes "*""q""")); [|apply one_space|constructor|].
    - apply (tr_repeat (bytes "2*3") 2 3 _ (bytes "(c / %x41-5A)")).
      + apply (rd_both (bytes "2") 2 (bytes "3") 3); (split; [discriminate|vm_compute; reflexivity]).
      + apply (te_group _ [] (bytes "c / %x41-5A") []); [constructor| |constructor].
        apply (ta_more _ (bytes "c") [32] [32] _ (bytes "%x41-5A")); try apply a_space.
        * apply tc_one, tr_once. apply (te_rule "c"). reflexivity.
        * apply ta_one, tc_one, tr_once. apply (te_range "x" 120 "41" "5A"); [constructor; left; reflexivity| |]; eexists; vm_compute; reflexivity.
    - apply tc_one. apply (tr_repeat [42] 0 inf _ (bytes """q""")); [constructor|].
      apply (te_char false [] [113]); [constructor|constructor; [reflexivity|constructor]]. }
  split; [reflexivity|]. split; [apply sens_written|]. split; [vm_compute; reflexivity|]. split; [vm_compute; reflexivity|].
  destruct C56_case as (t & T & _ & E). exists t. eexists. split; [exact T|]. split; [exact E|]. vm_compute. reflexivity.
Qed.

Print Assumptions C40_printed_text_partial.
Print Assumptions C40_printed_text_same.
Print Assumptions C40_pretty_text_partial.
Print Assumptions C40_pretty_aligned.
Print Assumptions C40_same_print.
Print Assumptions C40_same_rule_print.
Print Assumptions C40_language_grows.
Print Assumptions C40_printed_text_refuted.
Print Assumptions C40_empty_refuted.
Print Assumptions C40_round_trip_partial.
