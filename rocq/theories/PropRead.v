(** C55, C56: the grammar of ABNF (rules.go:516-1866) and what is read from an
    ABNF text.  ReadSpec.v says what a text says; TreeSpec.v says what a derivation
    tree is. *)
(** The definitions here without a citation are those of statements, proofs and examples; they model no code. *)
From Coq Require Import ZArith Arith String Ascii Bool List Lia.
From Verif Require Import Syntax Spec Term Printer Eval EvalProof ReadSpec TreeSpec PropEval PropTree AbnfDen AbnfUnique AbnfRead AbnfForward AbnfEval.
Import ListNotations.
Local Open Scope string_scope.
Local Open Scope list_scope.
Local Open Scope Z_scope.

(** ** C55 *)

(** The grammar of ABNF is unambiguous: a text has at most one derivation tree. *)
Theorem C55_abnf_unambiguous : forall w t t',
  Derivation abnf_grammar "rulelist" w t -> Derivation abnf_grammar "rulelist" w t' -> t = t'.
Proof.
  intros w t t' H H'. destruct (rulelist_unique w 0%nat _ _ _ _ (le_n 0) H H' eq_refl eq_refl) as [_ E]. congruence.
Qed.

(** It has one exactly when the text is an ABNF text by the RFC, that is says
    something: the texts the grammar of rules.go accepts are the ABNF texts. *)
Theorem C55_abnf_texts : forall w,
  Lang abnf_grammar "rulelist" w <-> exists ds, text_says any_filler w ds.
Proof.
  intros w. rewrite <- C11_derivations_and_language. split.
  - intros (t & H). eapply tree_text; eauto.
  - intros (ds & H). apply text_tree in H as (t & _ & H & _). eauto.
Qed.

(** An ABNF text says one thing. *)
Lemma tree_defs_fun w cs ds : tree_defs w cs ds -> forall ds', tree_defs w cs ds' -> ds = ds'.
Proof.
  intros H. induction H as [|c cs d ds E R H IH|c cs ds E H IH]; intros ds' H'; inversion H'; subst; try congruence; auto.
  f_equal; [congruence|auto].
Qed.
Theorem C55_one_meaning : forall w ds ds', text_says any_filler w ds -> text_says any_filler w ds' -> ds = ds'.
Proof.
  intros w ds ds' H H'. apply text_tree in H as (t & d1 & T & D & M & O & _ & _). apply text_tree in H' as (t' & d2 & T' & D' & M' & O' & _ & _).
  assert (t' = t) by (eapply C55_abnf_unambiguous; eauto). subst t'. assert (d2 = d1) by (eapply tree_defs_fun; eauto). subst d2.
  rewrite M in M'. rewrite O in O'. clear - M' O'. revert ds' M' O'. induction ds as [|[r b] ds IH]; intros [|[r' b'] ds'] M O; try discriminate; auto.
  cbn [map fst snd] in M, O. injection M as <- M. injection O as <- O. f_equal. auto.
Qed.

(** ** C56 *)

(** Every text is taken for one list of definitions: those it says, except that [=] is taken
    for [=/] where these two characters stand in a comment around it. *)
Theorem C56_taken : forall w ds, text_says any_filler w ds ->
  exists ds', text_taken w ds' /\ map fst ds' = map fst ds /\ forall ds2, text_taken w ds2 -> ds2 = ds'.
Proof.
  intros w ds H. destruct (says_taken _ _ _ H) as (ds' & T & M & _). exists ds'. split; [exact T|]. split; [exact M|]. intros ds2 T2.
  destruct (taken_tree _ _ T) as (t & D & Td). destruct (taken_tree _ _ T2) as (t2 & D2 & Td2).
  assert (t2 = t) by (eapply C55_abnf_unambiguous; eauto). subst t2. eapply tree_defs_fun; eauto.
Qed.
(** Evaluating the derivation tree of any text defines, in order, the rules the text is taken
    for. *)
Theorem C56_evaluation_exact : forall w ds t redefine ord core, text_taken w ds ->
  Derivation abnf_grammar "rulelist" w t ->
  eval_tree redefine ord core w t = e_define_all redefine ord ds (mkE core [] 0).
Proof.
  intros w ds t redefine ord core H T. apply taken_tree in H as (t' & T' & D).
  assert (t' = t) by (eapply C55_abnf_unambiguous; eauto). subst t'. apply C38_tree_merge. exact D.
Qed.
(** Evaluating the derivation tree of a text defines, in order, the rules the text
    says.  Missing for the full statement: texts with a comment containing [=/]
    around a defining operator, see the refutation. *)
Theorem C56_evaluation_partial : forall w ds t redefine ord core, text_says quiet_filler w ds ->
  Derivation abnf_grammar "rulelist" w t ->
  eval_tree redefine ord core w t = e_define_all redefine ord ds (mkE core [] 0).
Proof.
  intros w ds t redefine ord core H T. apply C56_evaluation_exact; [apply quiet_taken; exact H|exact T].
Qed.
(** For every text the names and the alternatives are read as written; only the
    operator may be misread. *)
Theorem C56_evaluation_rules : forall w ds t redefine ord core, text_says any_filler w ds ->
  Derivation abnf_grammar "rulelist" w t ->
  exists ds', map fst ds' = map fst ds /\ eval_tree redefine ord core w t = e_define_all redefine ord ds' (mkE core [] 0).
Proof.
  intros w ds t redefine ord core H T. apply text_tree in H as (t' & d & T' & D & M & _ & _ & _).
  assert (t' = t) by (eapply C55_abnf_unambiguous; eauto). subst t'. exists d. split; auto. apply C38_tree_merge. exact D.
Qed.

(** *** A text *)
Definition ex_text : list Z := bytes "ab = 2*3(c / %x41-5A) %s""q"" ; end" ++ [13; 10].
Definition ex_alt : alternation :=
  [[Rep 2 3 (EGroup [[Rep 1 1 (ERule "c")]; [Rep 1 1 (ENum "x" StatRange ["41"; "5A"])]]); Rep 1 1 (EChar true [113])]].
Ltac body := repeat (apply Forall_cons; [first [left; left; reflexivity|right; vm_compute; split; discriminate]|]); apply Forall_nil.
Lemma one_space : blank [32].
Proof. constructor. left. reflexivity. Qed.
Lemma a_space : blanks [32].
Proof. apply (bs_cons [32] []); [apply one_space|constructor]. Qed.
Lemma ex_alt_text : text_alt ex_alt (bytes "2*3(c / %x41-5A) %s""q""").
Proof.
  unfold ex_alt. apply ta_one.
  apply (tc_more _ (bytes "2*3(c / %x41-5A)") [32] [] _ (bytes "%s""q""")); [|apply one_space|constructor|].
  - apply (tr_repeat (bytes "2*3") 2 3 _ (bytes "(c / %x41-5A)")).
    + apply (rd_both (bytes "2") 2 (bytes "3") 3); (split; [discriminate|vm_compute; reflexivity]).
    + apply (te_group _ [] (bytes "c / %x41-5A") []); [constructor| |constructor].
      apply (ta_more _ (bytes "c") [32] [32] _ (bytes "%x41-5A")); try apply a_space.
      * apply tc_one, tr_once. apply (te_rule "c"). reflexivity.
      * apply ta_one, tc_one, tr_once. apply (te_range "x" 120 "41" "5A"); [constructor; left; reflexivity| |];
          eexists; vm_compute; reflexivity.
  - apply tc_one, tr_once. apply (te_char true [37; 115] [113]); [constructor; left; reflexivity|].
    constructor; [reflexivity|constructor].
Qed.
Lemma ex_says (filler : list Z -> Prop) : filler [32] -> text_says filler ex_text [(mkRule "ab" ex_alt, false)].
Proof.
  intros F. split; [discriminate|]. apply (tl_rule filler _ ex_text [] []); [|constructor].
  apply (text_rule_intro filler "ab" [32] false [32] ex_alt (bytes "2*3(c / %x41-5A) %s""q""") [32] (bytes "; end" ++ [13; 10])); auto; try apply a_space.
  - apply ex_alt_text.
  - constructor; [left; reflexivity|constructor].
  - apply (nl_comment (bytes " end")). body.
Qed.
Lemma quiet_space : quiet_filler [32].
Proof. intros [|c [|c' p]] s E; discriminate. Qed.

Example C55_case :
  (exists t, Derivation abnf_grammar "rulelist" ex_text t) /\ Lang abnf_grammar "rulelist" ex_text /\
  text_says any_filler ex_text [(mkRule "ab" ex_alt, false)] /\
  ~ Lang abnf_grammar "rulelist" (bytes "ab =").
Proof.
  assert (L : Lang abnf_grammar "rulelist" ex_text) by (apply C55_abnf_texts; eexists; apply ex_says; exact Logic.I).
  split; [apply C11_derivations_and_language; exact L|]. split; [exact L|]. split; [apply ex_says; exact Logic.I|].
  intros H. apply C55_abnf_texts in H as (ds & _ & H).
  assert (E : forall ds w, text_lines any_filler ds w -> w <> [] -> exists p, w = p ++ [13; 10]).
  { clear. assert (N : forall nl, newline nl -> exists p, nl = p ++ [13; 10]).
    { intros nl [|body F]; [exists []; reflexivity|exists (59 :: body); reflexivity]. }
    intros ds w H. induction H as [|d w ds w' T H IH|ws nl ds w' W Nl H IH]; intros NE; [congruence| |].
    - destruct w' as [|c w'].
      + rewrite app_nil_r. destruct T as [n b1 inc b2 a w0 ws nl _ _ _ _ _ _ _ Nl]. apply N in Nl as (p & ->).
        exists (bytes n ++ b1 ++ operator inc ++ b2 ++ w0 ++ ws ++ p). rewrite <- !app_assoc. reflexivity.
      + destruct IH as (p & ->); [discriminate|]. exists (w ++ p). apply app_assoc.
    - destruct w' as [|c w'].
      + rewrite app_nil_r. apply N in Nl as (p & ->). exists (ws ++ p). apply app_assoc.
      + destruct IH as (p & ->); [discriminate|]. exists (ws ++ nl ++ p). rewrite <- !app_assoc. reflexivity. }
  destruct (E _ _ H) as (p & Ep); [discriminate|]. apply (f_equal (@rev Z)) in Ep. rewrite rev_app_distr in Ep. vm_compute in Ep. discriminate.
Qed.
Example C56_case : exists t, Derivation abnf_grammar "rulelist" ex_text t /\
  text_says quiet_filler ex_text [(mkRule "ab" ex_alt, false)] /\
  eval_tree false id_order core_rules ex_text t = EvOk (mkE core_rules [("ab", Own (mkRule "ab" ex_alt))] 1).
Proof.
  pose proof (ex_says quiet_filler quiet_space) as S. destruct C55_case as ((t & T) & _). exists t. split; auto. split; auto.
  rewrite (C56_evaluation_partial _ _ _ _ _ _ S T). vm_compute. reflexivity.
Qed.

(** A comment containing [=/] around the operator makes [=] read as [=/]
    (grammar.go:205: strings.Contains over the whole of defined-as). *)
Definition loud : list Z := bytes ";=/" ++ [13; 10; 32].
Definition loud_text : list Z := bytes "a" ++ loud ++ bytes "=" ++ loud ++ bytes "c" ++ [13; 10].
Theorem C56_evaluation_refuted : exists w ds t,
  text_says any_filler w ds /\ Derivation abnf_grammar "rulelist" w t /\
  (exists st, e_define_all false id_order ds (mkE core_rules [] 0) = EvOk st) /\
  eval_tree false id_order core_rules w t = EvErr (EE_not_found "a").
Proof.
  assert (B : blanks loud).
  { apply (bs_cons loud []); [|constructor]. apply (bl_folded (bytes ";=/" ++ [13; 10]) 32); [|left; reflexivity].
    apply (nl_comment (bytes "=/")). body. }
  assert (S : forall filler : list Z -> Prop, filler loud -> text_says filler loud_text [(mkRule "a" [[Rep 1 1 (ERule "c")]], false)]).
  { intros filler F. split; [discriminate|]. apply (tl_rule filler _ loud_text [] []); [|constructor].
    apply (text_rule_intro filler "a" loud false loud [[Rep 1 1 (ERule "c")]] (bytes "c") [] [13; 10]); auto.
    - apply ta_one, tc_one, tr_once. apply (te_rule "c"). reflexivity.
    - constructor. }
  pose proof (S (fun u => u = loud) eq_refl) as S'. apply text_tree in S' as (t & ds' & T & D & M & _ & _ & Ld).
  exists loud_text. eexists. exists t. split; [apply (S any_filler Logic.I)|]. split; [exact T|]. split; [eexists; vm_compute; reflexivity|].
  unfold eval_tree. rewrite (C38_tree_merge _ _ _ _ _ D).
  assert (F : Forall (fun d => snd d = true) ds') by (apply Ld; intros u ->; reflexivity).
  destruct ds' as [|[r b] [|d' ds']]; try discriminate. cbn [map fst] in M. injection M as ->.
  inversion F as [|? ? F1 F2]; subst. cbn [snd] in F1. subst b. vm_compute. reflexivity.
Qed.
(** That text is taken for the definition [a =/ c]. *)
Example C56_case_loud : text_taken loud_text [(mkRule "a" [[Rep 1 1 (ERule "c")]], true)].
Proof.
  assert (B : blanks loud).
  { apply (bs_cons loud []); [|constructor]. apply (bl_folded (bytes ";=/" ++ [13; 10]) 32); [|left; reflexivity].
    apply (nl_comment (bytes "=/")). body. }
  split; [discriminate|]. apply (kl_rule _ loud_text [] []); [|constructor].
  apply (taken_rule_intro "a" loud false loud [[Rep 1 1 (ERule "c")]] (bytes "c") [] [13; 10]); auto.
  - apply ta_one, tc_one, tr_once. apply (te_rule "c"). reflexivity.
  - constructor.
  - split; [|reflexivity]. intros _. right. left. exists [59], [13; 10; 32]. reflexivity.
Qed.

Print Assumptions C55_abnf_unambiguous.
Print Assumptions C55_abnf_texts.
Print Assumptions C55_one_meaning.
Print Assumptions C56_taken.
Print Assumptions C56_evaluation_exact.
Print Assumptions C56_evaluation_partial.
Print Assumptions C56_evaluation_rules.
Print Assumptions C56_evaluation_refuted.
