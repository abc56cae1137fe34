(** Claim C78: what the errors say. *)
(** The definitions here are those of statements, proofs and examples; they model no code. *)
From Coq Require Import ZArith String Ascii Bool Permutation List Lia.
From Verif Require Import Syntax Spec Num Printer PrintInj Deps Eval EvalProof Errors ErrText Check ReadSpec ParseAbnf
  PropTerm PropGll PropSem PropEval AbnfEval PropPrint PropRead PropParse.
Import ListNotations.
Local Open Scope string_scope.
Local Open Scope Z_scope.

(** ** The validation blames what is wrong *)
Inductive blames (g : grammar) : sem_error -> Prop :=
| bl_dependency r n : In r g -> refers (rule_alt r) n -> (forall a, ~ resolves g n a) -> blames g (SE_dependency (lower n))
| bl_repetition r mn mx e : In r g -> rep_in (rule_alt r) (Rep mn mx e) -> mx <> inf -> mx < mn ->
    blames g (SE_repetition (Rep mn mx e))
| bl_numeral r mn mx b st es s v : In r g -> rep_in (rule_alt r) (Rep mn mx (ENum b st es)) -> In s es ->
    numeral b s = Some v -> 0x10FFFF < v -> blames g (SE_bounds (trim_left0 s) b).

Lemma first_err_some {A} (f : A -> option sem_error) l e : first_err f l = Some e -> exists x, In x l /\ f x = Some e.
Proof.
  induction l as [|y l IH]; cbn; [discriminate|]. destruct (f y) eqn:E.
  - intros X. injection X as <-. eauto.
  - intros X. destruct (IH X) as (x & I & H). eauto.
Qed.

(** What the search of an alternation returns. *)
Definition bad_rep (e : sem_error) (r : rep) : Prop :=
  match r with
  | Rep mn mx x => (e = SE_repetition r /\ mx <> inf /\ mx < mn) \/
      exists b st es s, x = ENum b st es /\ In s es /\ check_bounds s b = false /\ e = SE_bounds (trim_left0 s) b
  end.
Lemma semval_found :
  (forall e err mn mx, semval_elem e = Some err -> exists r, (r = Rep mn mx e \/ (exists a, (e = EGroup a \/ e = EOption a) /\ rep_in a r)) /\ bad_rep err r) /\
  (forall r err, semval_rep r = Some err -> exists r', (r' = r \/ match r with Rep _ _ e => exists a, (e = EGroup a \/ e = EOption a) /\ rep_in a r' end) /\ bad_rep err r').
Proof.
  assert (G : forall (a : alternation) err, Forall (Forall (fun r => forall err, semval_rep r = Some err ->
      exists r', (r' = r \/ match r with Rep _ _ e => exists a, (e = EGroup a \/ e = EOption a) /\ rep_in a r' end) /\ bad_rep err r')) a ->
    first_err (fun c => first_err (fun r => semval_rep r) c) a = Some err -> exists r, rep_in a r /\ bad_rep err r).
  { intros a err F E. apply first_err_some in E as (c & Ic & E). apply first_err_some in E as (r & Ir & E).
    rewrite Forall_forall in F. specialize (F c Ic). rewrite Forall_forall in F. destruct (F r Ir err E) as (r' & [->|H] & B).
    - exists r. split; auto. eapply rep_in_here; eauto.
    - destruct r as [mn mx e]. destruct H as (b & [->| ->] & H); exists r'; (split; [|exact B]);
        [eapply rep_in_group|eapply rep_in_option]; eauto. }
  apply elem_rep_ind.
  - intros n err mn mx E. discriminate E.
  - intros a F err mn mx E. cbn in E. destruct (G a err F E) as (r & H & B). exists r. split; auto. right. exists a. auto.
  - intros a F err mn mx E. cbn in E. destruct (G a err F E) as (r & H & B). exists r. split; auto. right. exists a. auto.
  - intros s v err mn mx E. discriminate E.
  - intros b st es err mn mx E. cbn in E. apply first_err_some in E as (s & I & E).
    destruct (check_bounds s b) eqn:C; [discriminate|]. injection E as <-. exists (Rep mn mx (ENum b st es)). split; auto.
    right. exists b, st, es, s. auto.
  - intros v err mn mx E. discriminate E.
  - intros mn mx e IH err E. cbn in E. destruct (negb (mx =? inf) && (mx <? mn))%bool eqn:B.
    + injection E as <-. exists (Rep mn mx e). split; auto. left. apply andb_true_iff in B as [B1 B2].
      apply negb_true_iff, Z.eqb_neq in B1. apply Z.ltb_lt in B2. auto.
    + destruct (IH err mn mx E) as (r & [->|H] & Br); eexists; (split; [|exact Br]); auto.
Qed.
Lemma semval_alt_found a err : semval_alt a = Some err -> exists r, rep_in a r /\ bad_rep err r.
Proof.
  unfold semval_alt. intros E. apply first_err_some in E as (c & Ic & E). apply first_err_some in E as (r & Ir & E).
  destruct (proj2 semval_found r err E) as (r' & [->|H] & B).
  - exists r. split; auto. eapply rep_in_here; eauto.
  - destruct r as [mn mx e]. destruct H as (b & [->| ->] & H); exists r'; (split; [|exact B]);
      [eapply rep_in_group|eapply rep_in_option]; eauto.
Qed.

Theorem C78_validation_blames : forall g g1 g2 e, Permutation g1 g -> Permutation g2 g ->
  Forall (fun r => wf_alt (rule_alt r)) g -> semval_abnf g1 g2 g = Some e ->
  blames g e /\ (match e with SE_dependency _ => True | _ => refs_defined g end).
Proof.
  intros g g1 g2 e P1 P2 W E. unfold semval_abnf in E. rewrite Forall_forall in W.
  assert (D : first_err (fun r => first_err (fun d => match get_rule d g with None => Some (SE_dependency d) | Some _ => None end)
                (get_dependencies (rule_alt r))) g1 = None -> refs_defined g).
  { rewrite first_err_none. intros H r n Ir Rf. apply (Permutation_in _ (Permutation_sym P1)) in Ir. specialize (H _ Ir).
    rewrite first_err_none in H. specialize (H (lower n)).
    assert (X : In (lower n) (get_dependencies (rule_alt r))) by (apply get_dependencies_spec; eauto).
    specialize (H X). pose proof (C19_get_rule_exact (lower n) g) as G.
    destruct (get_rule (lower n) g) as [r'|]; [|discriminate]. destruct G as [G _].
    exists (rule_alt r'). unfold resolves, same_name in *. rewrite lower_lower in G.
    destruct G as [G|[G1 G2]]; [left; auto|right]. auto. }
  destruct (first_err _ g1) as [e1|] eqn:E1.
  - injection E as <-. apply first_err_some in E1 as (r & Ir & E1). apply first_err_some in E1 as (d & Id & E1).
    pose proof (C19_get_rule_exact d g) as G. destruct (get_rule d g) as [r'|]; [discriminate|]. injection E1 as <-.
    apply get_dependencies_spec in Id as (n & Rf & ->). split; auto.
    refine (bl_dependency g r n (Permutation_in _ P1 Ir) Rf _). intros a Ha. apply (G a).
    unfold resolves, same_name in *. rewrite lower_lower. exact Ha.
  - apply first_err_some in E as (r & Ir & E). apply (Permutation_in _ P2) in Ir.
    apply semval_alt_found in E as ([mn mx x] & Rr & [(-> & N & L)|(b & st & es & s & -> & Is & C & ->)]).
    + split; auto. eapply bl_repetition; eauto.
    + split; auto. pose proof (wf_rep_in _ _ Rr (W _ Ir)) as Wr. inversion Wr as [? ? ? ? ? We]; subst. inversion We as [| | | |? ? ? Wn|]; subst.
      destruct Wn as [Wn _]. rewrite Forall_forall in Wn. destruct (Wn _ Is) as [v Nu].
      eapply bl_numeral; eauto. pose proof (check_bounds_spec b s v Nu) as Hb.
      destruct (Z.lt_ge_cases 0x10FFFF v) as [Lt|Ge]; auto. exfalso. assert (X : check_bounds s b = true) by (apply Hb; exact Ge). congruence.
Qed.

(** ** The texts tell the errors apart *)
(** The fields an error can have: a repetition that can be written, a numeral, a limit. *)
Definition fields_ok (e : go_error) : Prop :=
  match e with
  | GE_repetition r => lex_rep r = true
  | GE_numeral b v => all_chars (fun c => negb (Ascii.eqb c " ")) v = true
  | GE_max_nodes m | GE_regex_too_large m | GE_forest_too_large m | GE_grammar_too_large m => 0 <= m
  | _ => True
  end.
(** The same error, but for the prefixes [%s] of a repetition, which are not printed (see C40). *)
Definition same_error (e e' : go_error) : Prop :=
  match e, e' with
  | GE_repetition r, GE_repetition r' => erase_rep r = erase_rep r'
  | _, _ => e = e'
  end.

Lemma slen (a b : string) : (String.length (a ++ b) = String.length a + String.length b)%nat.
Proof. induction a; cbn; auto. Qed.
Lemma sapp_inj_r (a b s : string) : a ++ s = b ++ s -> a = b.
Proof.
  revert b. induction a as [|c a IH]; intros [|c' b] H; auto.
  - exfalso. apply (f_equal String.length) in H. cbn in H. rewrite slen in H. lia.
  - exfalso. apply (f_equal String.length) in H. cbn in H. rewrite slen in H. lia.
  - cbn in H. injection H as -> H. f_equal. auto.
Qed.
(** The last characters. *)
Fixpoint srev (s acc : string) : string := match s with EmptyString => acc | String c s' => srev s' (String c acc) end.
Lemma srev_app a : forall b acc, srev (a ++ b) acc = srev b (srev a acc).
Proof. induction a as [|c a IH]; intros b acc; cbn; auto. Qed.
Lemma srev_acc b : forall acc, srev b acc = srev b "" ++ acc.
Proof.
  induction b as [|c b IH]; intros acc; cbn; auto. rewrite IH, (IH (String c "")). rewrite sapp_assoc. reflexivity.
Qed.
Lemma ends_apart a b s t : a ++ s = b ++ t -> exists u v, srev s "" ++ u = srev t "" ++ v.
Proof.
  intros H. apply (f_equal (fun x => srev x "")) in H. rewrite !srev_app in H. rewrite (srev_acc s), (srev_acc t) in H. eauto.
Qed.

Theorem C78_texts_distinct : forall e e', fields_ok e -> fields_ok e' -> go_error_text e = go_error_text e' -> same_error e e'.
Proof.
  intros e e' F F' E.
  destruct e, e'; cbn [go_error_text fields_ok same_error] in *; try reflexivity; try (cbn [append] in E; discriminate E).
  all: try (apply sapp_inj in E).
  all: try (apply sapp_inj_r in E; congruence).
  all: try (apply sapp_inj_r in E; apply itoa_inj in E; auto; congruence).
  all: try congruence.
  all: try (apply rep_string_inj; auto; fail).
  all: try (exfalso; apply ends_apart in E as (u & v & E); cbn in E; discriminate E).
  destruct (munch _ value value0 (" for base " ++ base) (" for base " ++ base0) F F' ltac:(reflexivity) ltac:(reflexivity) E) as [-> X]. apply sapp_inj in X. congruence.
Qed.

(** ** What ParseABNF says of a text it refuses *)
(** The error names the definition at fault, or something wrong in the rules the text defines. *)
Theorem C78_parse_abnf : forall ord w ds, any_order ord -> text_taken w ds ->
  exists enough, forall fuel ordE sh validate, (enough <= fuel)%nat -> any_order ordE -> any_shuffle sh ->
    match parse_abnf ord ordE sh fuel false validate core_rules w with
    | PA_ok _ => True
    | PA_eval e => exists pre d post, ds = (pre ++ d :: post)%list /\ defs_ok core_rules pre /\
        let n := rule_name (fst d) in
        (core_name core_rules n /\ go_error_text (of_eval e) = "core rule " ++ n ++ " can't be modified") \/
        (~ core_name core_rules n /\ snd d = false /\ named n pre /\
           go_error_text (of_eval e) = "rule " ++ n ++ " was already defined in grammar") \/
        (~ core_name core_rules n /\ snd d = true /\ ~ named n pre /\
           go_error_text (of_eval e) = "rule " ++ n ++ " was not found in grammar")
    | PA_sem e => defs_ok core_rules ds /\ exists g, distinct_names g /\ (forall r, In r g <-> defined_as ds r) /\ blames g e
    | _ => False
    end.
Proof.
  intros ord w ds O H. destruct (parse_abnf_tree ord w O) as [A _].
  destruct (taken_says _ _ H) as (da & Ha & _).
  destruct A as (t & en & D & A); [apply C55_abnf_texts; eauto|]. exists en. intros fuel ordE sh validate F Oe Sh.
  rewrite A, (C56_evaluation_exact w ds t false ordE core_rules H D) by auto.
  pose proof (C38_definitions_merge_partial core_rules ordE ds Oe) as M.
  destruct (e_define_all false ordE ds (mkE core_rules [] 0)) as [st|e|]; auto.
  - destruct M as (Ok & Dn & Rl & Ec). set (g := rules_of st) in *.
    assert (Wf : Forall (fun r => wf_alt (rule_alt r)) g).
    { apply Forall_forall. intros r I. apply written_wf. eapply PropPrint.merged_written; [exact (PropPrint.taken_written _ _ H)|]. apply Rl. exact I. }
    destruct validate; auto. destruct (semval_abnf (sh 0%nat g) (sh 1%nat g) g) as [e|] eqn:S; auto.
    split; auto. exists g. split; auto. split; auto.
    exact (proj1 (C78_validation_blames g _ _ e (Sh 0%nat g) (Sh 1%nat g) Wf S)).
  - destruct M as (pre & d & post & Es & Op & V). exists pre, d, post. split; auto. split; auto.
    cbv zeta. destruct V; cbn [of_eval go_error_text]; auto 8.
Qed.

(** ** Cases *)
Definition g_blame : grammar :=
  [mkRule "a" [[Rep 1 1 (ERule "DIGIT"); Rep 1 1 (EGroup [[Rep 1 1 (EOption [[Rep 3 2 (EChar false [120])]])]])]];
   mkRule "b" [[Rep 1 1 (ENum "x" StatSeries ["41"; "00110000"])]]].
Example C78_case :
  wf_grammar g_blame /\
  option_map (fun e => go_error_text (of_sem e)) (semval_abnf g_blame g_blame g_blame) =
    Some "invalid semantic of input ABNF grammar for repetition 3*2""x""" /\
  option_map (fun e => go_error_text (of_sem e)) (semval_abnf g_blame (rev g_blame) g_blame) =
    Some "too large numeral value 110000 for base x" /\
  option_map (fun e => go_error_text (of_sem e)) (semval_abnf [mkRule "a" [[Rep 1 1 (ERule "ZZ")]]] [] []) =
    Some "unsatisfied dependency (rule) zz" /\
  fields_ok (GE_numeral "x" "110000") /\ fields_ok (GE_repetition (Rep 3 2 (EChar false [120]))) /\
  go_error_text (GE_rule_not_found "a") <> go_error_text (GE_duplicated "a").
Proof.
  split; [apply wf_grammarb_spec; vm_compute; reflexivity|]. repeat (split; [vm_compute; reflexivity|]). vm_compute. discriminate.
Qed.
(** The conditions are needed: numerals of a grammar built by hand can hold anything, and the
    two prefixes of a quoted string are printed alike. *)
Theorem C78_texts_refuted : exists e e', go_error_text e = go_error_text e' /\ e <> e' /\
  exists f f', fields_ok f /\ fields_ok f' /\ go_error_text f = go_error_text f' /\ f <> f'.
Proof.
  exists (GE_numeral "x" "1 for base 2"), (GE_numeral "2 for base x" "1"). split; [reflexivity|]. split; [discriminate|].
  exists (GE_repetition (Rep 3 2 (EChar false [120]))), (GE_repetition (Rep 3 2 (EChar true [120]))).
  split; [reflexivity|]. split; [reflexivity|]. split; [reflexivity|discriminate].
Qed.
Print Assumptions C78_validation_blames.
Print Assumptions C78_texts_distinct.
Print Assumptions C78_parse_abnf.
Print Assumptions C78_texts_refuted.
