(** C14, C17, C22, C48: error reports, semantic validation, dependencies. *)
(** The definitions here are those of statements, proofs and examples; they model no code. *)
From Coq Require Import ZArith String Ascii Bool List Lia Permutation Sorted.
From Verif Require Import Syntax Spec Utf8 Num Term Printer Slots Gll Bsr BsrProof BsrTerm GllUniv Sppf SppfProof
  LowerProof LowerLang LowerBudget PropTerm PropGll Deps Errors Furthest Check.
Import ListNotations.
Local Open Scope string_scope.
Local Open Scope Z_scope.

(** ** C14 *)
(** [before input o]: the bytes before offset [o]; [since_lf]: those after the
    last line feed among them. *)
Definition before (input : list Z) (o : Z) : list Z := firstn (Z.to_nat o) input.
Definition since_lf (w last : list Z) : Prop :=
  ~ In 10 last /\ (w = last \/ exists p, w = (p ++ 10 :: last)%list).

Theorem C14_parse_error_exact : forall input offset expected e,
  new_parse_error input offset expected = e ->
  0 <= pe_offset e <= Z.of_nat (length input) /\
  (0 <= offset <= Z.of_nat (length input) -> pe_offset e = offset) /\
  pe_line e = 1 + Z.of_nat (count_occ Z.eq_dec (before input (pe_offset e)) 10) /\
  (exists last, since_lf (before input (pe_offset e)) last /\ pe_col e = 1 + Z.of_nat (length last)) /\
  Permutation (pe_expected e) expected /\ Sorted (fun a b => str_leb a b = true) (pe_expected e).
Proof.
  intros input offset expected e <-. unfold new_parse_error.
  set (o1 := if offset <? 0 then 0 else offset).
  set (o := if Z.of_nat (length input) <? o1 then Z.of_nat (length input) else o1).
  assert (B : 0 <= o <= Z.of_nat (length input)).
  { assert (E1 : 0 <= o1) by (unfold o1; destruct (Z.ltb_spec offset 0); lia).
    unfold o. destruct (Z.ltb_spec (Z.of_nat (length input)) o1); lia. }
  destruct (line_col (Z.to_nat o) input 1 1) as [line col] eqn:LC.
  apply line_col_spec in LC as (L1 & pre & post & F & N & C); [|lia].
  assert (G : forall e, pe_offset e = o -> pe_line e = line -> pe_col e = col -> pe_expected e = sort_strings expected ->
    0 <= pe_offset e <= Z.of_nat (length input) /\
    (0 <= offset <= Z.of_nat (length input) -> pe_offset e = offset) /\
    pe_line e = 1 + Z.of_nat (count_occ Z.eq_dec (before input (pe_offset e)) 10) /\
    (exists last, since_lf (before input (pe_offset e)) last /\ pe_col e = 1 + Z.of_nat (length last)) /\
    Permutation (pe_expected e) expected /\ Sorted (fun a b => str_leb a b = true) (pe_expected e)).
  { intros e -> -> -> ->. split; [auto|]. split.
    { intros H. assert (E1 : o1 = offset) by (unfold o1; destruct (Z.ltb_spec offset 0); lia).
      unfold o. rewrite E1. destruct (Z.ltb_spec (Z.of_nat (length input)) offset); lia. }
    split; [auto|]. split; [|split; [apply sort_perm|apply sort_sorted]].
    exists post. unfold since_lf, before. rewrite F. split.
    - split; auto. destruct C as [[-> _]|[[p ->] _]]; [left; auto|right]. exists p. rewrite <- app_assoc. auto.
    - destruct C as [[_ ->]|[_ ->]]; auto. }
  destruct (o <? Z.of_nat (length input)); apply G; auto.
Qed.

Example C14_case :
  new_parse_error (bytes "ab" ++ [13; 10; 99; 10; 100; 101])%list 7 ["z"; "a"; "m"] =
  mkPE 7 3 2 ["a"; "m"; "z"] """e""" false.
Proof. vm_compute. reflexivity. Qed.

(** The error of a forest. *)
Theorem C14_forest_error : forall ord fuel input g root max_slots max_nodes f,
  any_order ord -> parse_forest ord fuel input g root max_slots max_nodes = PF_ok f ->
  (f_parse_error f = None <-> f_valid f = true) /\
  forall e, f_parse_error f = Some e ->
    pe_offset e = Z.of_nat (f_maxpos f) /\ (f_maxpos f <= length input)%nat /\
    Permutation (pe_expected e) (f_expected f).
Proof.
  intros ord fuel input g root ms mn f O E. pose proof (parse_forest_ok _ _ _ _ _ _ _ _ E) as (C & st & B & A & I & _ & _ & M & X & _).
  assert (Bd : (f_maxpos f <= length input)%nat).
  { destruct (compile_ok_represents _ _ _ _ _ C) as [idx R].
    pose proof (wf_reps _ (shape _ _ _ _ R)) as W.
    destruct (furthest_sound (f_sg f) input mn ord O W fuel st B) as (R1 & R2 & _). rewrite M.
    destruct (p_expected st) as [|x l]; [rewrite R2; auto; lia|].
    destruct (R1 x (or_introl eq_refl)) as (t & (L & rc & p & At & _) & _). eapply at_bounds; eauto. }
  unfold f_parse_error. split.
  - destruct (f_valid f); split; congruence.
  - intros e He. destruct (f_valid f); [discriminate|]. injection He as He.
    destruct (C14_parse_error_exact _ _ _ _ He) as (_ & Q & _ & _ & P & _). rewrite I in Q.
    rewrite Q by lia. auto.
Qed.

(** ** C48: the reported failure is the furthest one, and lists exactly the
    terminals that failed there. *)
Theorem C48_furthest_failure_exact : forall ord fuel input g root max_slots max_nodes f,
  any_order ord -> parse_forest ord fuel input g root max_slots max_nodes = PF_ok f ->
  (forall t i, fails_at (f_sg f) input t i -> (i <= f_maxpos f)%nat) /\
  (forall x, In x (f_expected f) <-> exists t, fails_at (f_sg f) input t (f_maxpos f) /\ x = elem_string t) /\
  ((forall t i, ~ fails_at (f_sg f) input t i) -> f_maxpos f = 0%nat) /\
  (f_expected f = [] -> forall t i, ~ fails_at (f_sg f) input t i) /\
  NoDup (f_expected f).
Proof.
  intros ord fuel input g root ms mn f O E. pose proof (parse_forest_ok _ _ _ _ _ _ _ _ E) as (C & st & B & A & I & _ & _ & M & X & _).
  destruct (compile_ok_represents _ _ _ _ _ C) as [idx R].
  pose proof (wf_reps _ (shape _ _ _ _ R)) as W. pose proof (nonempty _ _ _ _ R) as NE.
  destruct (furthest_sound (f_sg f) input mn ord O W fuel st B) as (R1 & R2 & R3).
  pose proof (furthest_complete (f_sg f) input mn ord O W NE fuel st B A) as Q.
  rewrite M, X. split; [|split; [|split; [|split]]]; auto.
  - intros t i H. destruct (Q t i H) as [H'|[H' _]]; lia.
  - intros x. split; auto. intros (t & H & ->). destruct (Q _ _ H) as [H'|[_ H']]; [lia|auto].
  - intros N. apply R2. destruct (p_expected st) as [|x l]; auto.
    destruct (R1 x (or_introl eq_refl)) as (t & H & _). exfalso. eapply N; eauto.
  - intros N t i H. specialize (R2 N). destruct (Q _ _ H) as [H'|[_ H']]; [lia|]. rewrite N in H'. exact H'.
Qed.

Definition g_fail : grammar :=
  [mkRule "a" [[Rep 2 3 (EChar false [120]); Rep 1 1 (ERule "b")]; [Rep 1 1 (ERule "a"); Rep 1 1 (EChar true [122])]];
   mkRule "b" [[Rep 1 1 (ERule "DIGIT")]; [Rep 1 1 (EChar false [121])]]].
Example C48_case : exists f,
  parse_forest (fun _ l => rev l) 400 (bytes "xx?") g_fail "a" default_max_slots 0 = PF_ok f /\
  f_maxpos f = 2%nat /\ length (f_expected f) = 3%nat /\ f_valid f = false /\
  match f_parse_error f with Some e => pe_expected e = ["""x"""; """y"""; "%x30-39"] | None => False end.
Proof. eexists. split; [vm_compute; reflexivity|]. vm_compute. repeat split; reflexivity. Qed.

(** ** C17 *)
Lemma wf_rep_in a r : rep_in a r -> wf_alt a -> wf_rep r.
Proof.
  unfold wf_alt. induction 1 as [a c r C R|a c mn mx b r C R H IH|a c mn mx b r C R H IH]; intros W.
  all: rewrite Forall_forall in W; specialize (W _ C); rewrite Forall_forall in W; specialize (W _ R); auto.
  all: inversion W as [? ? ? ? ? We]; subst; inversion We; subst; auto.
Qed.

Theorem C17_semval_exact : forall g g1 g2, Permutation g1 g -> Permutation g2 g ->
  Forall (fun r => wf_alt (rule_alt r)) g ->
  (semval_abnf g1 g2 g = None <-> refs_defined g /\ bounds_ordered g /\ nums_in_unicode g).
Proof.
  intros g g1 g2 P1 P2 W. unfold semval_abnf. rewrite Forall_forall in W.
  assert (D : first_err (fun r => first_err (fun d => match get_rule d g with None => Some (SE_dependency d) | Some _ => None end)
                (get_dependencies (rule_alt r))) g1 = None <-> refs_defined g).
  { rewrite first_err_none. unfold refs_defined. split.
    - intros H r n Ir Rf. apply (Permutation_in _ (Permutation_sym P1)) in Ir. specialize (H _ Ir).
      rewrite first_err_none in H. specialize (H (lower n)).
      assert (X : In (lower n) (get_dependencies (rule_alt r))) by (apply get_dependencies_spec; eauto).
      specialize (H X). pose proof (C19_get_rule_exact (lower n) g) as G.
      destruct (get_rule (lower n) g) as [r'|]; [|discriminate]. destruct G as [G _].
      exists (rule_alt r'). unfold resolves, same_name in *. rewrite lower_lower in G.
      destruct G as [G|[G1 G2]]; [left; auto|right]. auto.
    - intros H r Ir. rewrite first_err_none. intros x X. apply get_dependencies_spec in X as (n & Rf & ->).
      apply (Permutation_in _ P1) in Ir. destruct (H _ _ Ir Rf) as [a Ha].
      pose proof (C19_get_rule_exact (lower n) g) as G. destruct (get_rule (lower n) g); auto.
      exfalso. apply (G a). unfold resolves, same_name in *. rewrite lower_lower. auto. }
  assert (S : first_err (fun r => semval_alt (rule_alt r)) g2 = None <-> bounds_ordered g /\ nums_in_unicode g).
  { rewrite first_err_none. unfold bounds_ordered, nums_in_unicode. split.
    - intros H. split.
      + intros r mn mx e Ir Ri. apply (Permutation_in _ (Permutation_sym P2)) in Ir.
        specialize (H _ Ir). rewrite semval_alt_spec in H. apply (H _ Ri _ _ _ eq_refl).
      + intros r mn mx b st es s v Ir Ri Is Nu. apply (Permutation_in _ (Permutation_sym P2)) in Ir.
        specialize (H _ Ir). rewrite semval_alt_spec in H. destruct (H _ Ri _ _ _ eq_refl) as [_ H2].
        apply (check_bounds_spec b s v Nu). eapply H2; eauto.
    - intros [H1 H2] r Ir. apply (Permutation_in _ P2) in Ir. rewrite semval_alt_spec.
      intros q Q mn mx e ->. split; [eapply H1; eauto|]. intros b st es -> s Is.
      pose proof (wf_rep_in _ _ Q (W _ Ir)) as Wr. inversion Wr as [? ? ? ? ? We]; subst. inversion We as [| | | |? ? ? Wn|]; subst.
      destruct Wn as [Wn _]. rewrite Forall_forall in Wn. destruct (Wn _ Is) as [v Nu].
      apply (check_bounds_spec b s v Nu). eapply H2; eauto. }
  destruct (first_err _ g1) eqn:E.
  - split; [discriminate|]. intros (H & _). apply D in H. discriminate.
  - rewrite S. tauto.
Qed.

Definition g_sem : grammar :=
  [mkRule "a" [[Rep 2 3 (EGroup [[Rep 0 inf (ERule "B"); Rep 1 1 (ENum "x" StatRange ["30"; "10FFFF"])]]); Rep 1 1 (ERule "alpha")]];
   mkRule "b" [[Rep 1 1 (EOption [[Rep 4 5 (ERule "a")]])]]].
Example C17_case :
  Forall (fun r => wf_alt (rule_alt r)) g_sem /\ semval_abnf g_sem (rev g_sem) g_sem = None /\
  semval_abnf g_fail g_fail [] <> None /\
  (let g := [mkRule "a" [[Rep 1 1 (EGroup [[Rep 3 2 (ERule "a")]])]]] in semval_abnf g g g <> None).
Proof.
  split; [|vm_compute; repeat split; congruence].
  assert (wf_grammar g_sem) as [_ W] by (apply wf_grammarb_spec; vm_compute; reflexivity). exact W.
Qed.

(** ** C22 *)
Theorem C22_dependencies_exact : forall a,
  NoDup (get_dependencies a) /\
  forall x, In x (get_dependencies a) <-> exists n, refers a n /\ x = lower n.
Proof. intros a. split; [apply get_dependencies_nodup|]. apply get_dependencies_spec. Qed.

Lemma dg_fold_get l : forall m k, NoDup (map (fun r => lower (rule_name r)) l) ->
  dg_get k (fold_left (fun m r => dg_set (lower (rule_name r)) (mkDN (rule_name r) (get_dependencies (rule_alt r))) m) l m) =
  match find (fun r => String.eqb k (lower (rule_name r))) l with
  | Some r => Some (mkDN (rule_name r) (get_dependencies (rule_alt r)))
  | None => dg_get k m
  end.
Proof.
  induction l as [|r l IH]; intros m k D; cbn; auto. inversion D as [|? ? N D']; subst.
  rewrite IH by auto. destruct (find _ l) as [r'|] eqn:F.
  - apply find_some in F as [F1 F2]. apply String.eqb_eq in F2.
    destruct (String.eqb_spec k (lower (rule_name r))); auto. exfalso. apply N. apply in_map_iff. exists r'. split; congruence.
  - rewrite dg_get_set. destruct (String.eqb _ _); auto.
Qed.

(** The dependency graph has one node per rule name, user definitions shadowing
    the core rules, whatever order the two maps are iterated in. *)
Theorem C22_dependency_graph_exact : forall g n, distinct_names g ->
  dg_get (lower n) (dependency_graph g) =
  match get_rule n g with
  | Some r => Some (mkDN (rule_name r) (get_dependencies (rule_alt r)))
  | None => None
  end.
Proof.
  intros g n D. unfold dependency_graph. rewrite fold_left_app, dg_fold_get by auto.
  unfold get_rule, get_rule_core, get_rule_in, equal_fold.
  destruct (find (fun r => String.eqb (lower n) (lower (rule_name r))) g); auto.
  rewrite dg_fold_get by apply core_distinct. destruct (find _ core_rules); auto.
Qed.

Example C22_case : distinct_names g_sem /\
  get_dependencies (rule_alt (hd (mkRule "" []) g_sem)) = ["b"; "alpha"] /\
  dg_get "b" (dependency_graph g_sem) = Some (mkDN "b" ["a"]).
Proof. split; [|vm_compute; auto]. unfold distinct_names. repeat (constructor; [cbn; intuition discriminate|]). constructor. Qed.

Print Assumptions C14_parse_error_exact.
Print Assumptions C14_forest_error.
Print Assumptions C48_furthest_failure_exact.
Print Assumptions C17_semval_exact.
Print Assumptions C22_dependencies_exact.
Print Assumptions C22_dependency_graph_exact.
