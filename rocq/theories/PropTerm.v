(** C15, C16, C18, C19: numerals, terminals, name resolution. *)
From Coq Require Import ZArith String Ascii Bool List Lia Permutation.
From Verif Require Import Syntax Spec Utf8 Num Term.
Import ListNotations.
Local Open Scope Z_scope.

(** C15. checkBounds accepts a literal exactly when its value is at most U+10FFFF. *)
Theorem C15_check_bounds_exact : forall base s v, numeral base s = Some v ->
  (check_bounds s base = true <-> v <= 0x10FFFF).
Proof. exact check_bounds_spec. Qed.

Example C15_case :
  numeral "x" "000010FFFF" = Some 0x10FFFF /\ numeral "d" "1114112" = Some 0x110000 /\
  check_bounds "000010FFFF" "x" = true /\ check_bounds "1114112" "d" = false.
Proof. vm_compute. auto. Qed.

(** C16. Reading a literal gives its value, saturated at the largest int32. *)
Theorem C16_numval_to_rune_exact : forall base s v, numeral base s = Some v ->
  numval_to_rune s base = Z.min v 2147483647.
Proof. exact numval_to_int32_spec. Qed.

(** C16. Writing a non-negative int32 in any base and reading it back. *)
Theorem C16_round_trip : forall base v, radix_of base <> None -> 0 <= v <= 2147483647 ->
  numeral base (int32_to_numval v base) = Some v /\ numval_to_rune (int32_to_numval v base) base = v.
Proof.
  intros base v R H. destruct (radix_of base) as [r|] eqn:E; [|congruence].
  pose proof (int32_to_numval_numeral base v r E H) as A. split; [exact A|].
  rewrite (C16_numval_to_rune_exact base _ v A). lia.
Qed.

Example C16_case : int32_to_numval 0x10FFFF "b" = "100001111111111111111"%string /\
  numval_to_rune "FFFFFFFFFFFFFFFFFFFF" "x" = 2147483647 /\ radix_of "b" <> None.
Proof. vm_compute. repeat split. discriminate. Qed.

(** C18. A terminal matches from [i] to [j] exactly when the bytes between are in its language. *)
Theorem C18_match_term_exact : forall g t,
  is_terminal t = true -> wf_elem t -> forall input i j, (i <= length input)%nat ->
  (match_term t input i = Some j <-> exists w, in_elem g t w /\ span input i j w).
Proof. exact match_term_spec. Qed.

Example C18_case :
  is_terminal (ENum "x" StatRange ["BF"; "7FF"]%string) = true /\
  wf_elem (ENum "x" StatRange ["BF"; "7FF"]%string) /\
  match_term (ENum "x" StatRange ["BF"; "7FF"]%string) [97; 0xC3; 0x80] 1 = Some 3%nat /\
  match_term (EChar false [107]) [0xE2; 0x84; 0xAA] 0 = None.
Proof.
  repeat split; try (vm_compute; reflexivity).
  constructor. split; [|reflexivity].
  repeat constructor; eexists; vm_compute; reflexivity.
Qed.

(** C19. GetRule: the result has the requested name up to case, user rules win,
    nil means there is no such rule. *)
Lemma equal_fold_iff a b : equal_fold a b = true <-> same_name a b.
Proof. unfold equal_fold, same_name. apply String.eqb_eq. Qed.

Theorem C19_get_rule_exact : forall name g,
  match get_rule name g with
  | Some r => resolves g name (rule_alt r) /\ same_name name (rule_name r)
  | None => forall a, ~ resolves g name a
  end.
Proof.
  intros name g. unfold get_rule, get_rule_core, get_rule_in.
  destruct (find _ g) as [r|] eqn:F.
  - apply find_some in F as [A B]. apply equal_fold_iff in B. split; auto.
    left. exists r. auto.
  - assert (N : forall r, In r g -> ~ same_name name (rule_name r)).
    { intros r H S. apply equal_fold_iff in S. pose proof (find_none _ _ F r H). cbn in H0. congruence. }
    destruct (find _ core_rules) as [r|] eqn:F2.
    + apply find_some in F2 as [A B]. apply equal_fold_iff in B. split; auto.
      right. split; auto. exists r. auto.
    + intros a [(r & A & B & C)|(_ & r & A & B & C)]; [exact (N r A B)|].
      apply equal_fold_iff in B. pose proof (find_none _ _ F2 r A). cbn in H. congruence.
Qed.

(** C19. With distinct names the result does not depend on the iteration order. *)
Lemma find_unique name g r r' : distinct_names g -> In r g -> In r' g ->
  same_name name (rule_name r) -> same_name name (rule_name r') -> r = r'.
Proof.
  unfold distinct_names, same_name. induction g as [|x g IH]; cbn; intros D A B E E'; [easy|].
  inversion D as [|? ? N D']; subst.
  destruct A as [<-|A], B as [<-|B]; auto.
  - exfalso. apply N. rewrite <- E, E'. apply in_map_iff. exists r'. auto.
  - exfalso. apply N. rewrite <- E', E. apply in_map_iff. exists r. auto.
Qed.

Lemma get_rule_in_perm name g g' : distinct_names g -> Permutation g g' ->
  get_rule_in name g = get_rule_in name g'.
Proof.
  intros D P. unfold get_rule_in.
  destruct (find _ g) as [r|] eqn:F, (find _ g') as [r'|] eqn:F'; auto.
  - apply find_some in F as [A B]. apply find_some in F' as [A' B'].
    apply equal_fold_iff in B, B'. f_equal. apply (find_unique name g); auto.
    eapply Permutation_in; [apply Permutation_sym; exact P|exact A'].
  - apply find_some in F as [A B]. eapply Permutation_in in A; [|exact P].
    pose proof (find_none _ _ F' r A). congruence.
  - apply find_some in F' as [A B]. eapply Permutation_in in A; [|apply Permutation_sym, P].
    pose proof (find_none _ _ F r' A). congruence.
Qed.

Theorem C19_get_rule_order_independent : forall name g g', distinct_names g -> Permutation g g' ->
  get_rule name g = get_rule name g'.
Proof.
  intros name g g' D P. unfold get_rule, get_rule_core.
  rewrite (get_rule_in_perm name g g' D P). reflexivity.
Qed.

Example C19_case :
  let g := [mkRule "digit" [[Rep 1 1 (EChar false [120])]]; mkRule "b" []] in
  distinct_names g /\ get_rule "DIGIT" g = Some (mkRule "digit" [[Rep 1 1 (EChar false [120])]]) /\
  get_rule "crlf" g = Some r_crlf /\ get_rule "zz" g = None.
Proof. repeat split; repeat constructor; cbn; intuition discriminate. Qed.

Print Assumptions C15_check_bounds_exact.
Print Assumptions C16_numval_to_rune_exact.
Print Assumptions C16_round_trip.
Print Assumptions C18_match_term_exact.
Print Assumptions C19_get_rule_exact.
Print Assumptions C19_get_rule_order_independent.
