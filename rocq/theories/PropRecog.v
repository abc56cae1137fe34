(** C01-C04: Grammar.IsValid. *)
(** The definitions here are those of statements, proofs and examples; they model no code. *)
From Coq Require Import ZArith Arith String Ascii Bool Relations Sorted List Lia.
From Verif Require Import Syntax Spec Num Term Printer PrintInj Deps Dag Cycle LowerLang Check PropTerm PropSem PropGll PropDag LeftRec PropLeftRec Recog RecogProof RecogComplete RecogGlue RecogCheck.
Import ListNotations.
Local Open Scope string_scope.
Local Open Scope list_scope.

(** *** C01: accepted words are words of the language *)

(** Missing for the full claim: grammars writing one quoted string both with and
    without [%s] (refuted below), and rules no ABNF text denotes. *)
Theorem C01_valid_sound_partial : forall g n input ordn order ord fuel,
  wf_grammar g -> lex_grammar g = true -> same_flags g ->
  any_order ordn -> name_order g order -> any_order ord ->
  is_valid ordn order ord fuel g n input = VBool true -> Lang g n input.
Proof.
  intros g n input ordn order ord fuel W L F On K O H. unfold is_valid in H.
  destruct (get_rule n g) as [r|] eqn:G; [|discriminate].
  destruct (analysis_total g ordn order On K) as (lr & E & LI & Nd & Lo). rewrite E in H.
  assert (Ln : lex_name n = true).
  { destruct (proj1 (get_rule_some g n)) as (a & R); [eauto|]. eapply resolves_lex; eauto. }
  assert (LL : forall m scc x, lr m = Some scc -> In x scc -> lex_name x = true).
  { intros m scc x Hm Ix. destruct (Lo m scc x Hm Ix) as [_ (a & R)]. eapply resolves_lex; eauto. }
  assert (S : sound g input r_init) by (intros k s [Q|Q]; discriminate).
  pose proof (reach_elem_S g input lr ord O W L F LL fuel (ERule n) 0 r_init) as P.
  destruct (reach_elem g input lr ord fuel (ERule n) 0 r_init) as [ends st| |]; try discriminate.
  injection H as H. apply mem_nat_in in H. destruct P as [_ P]; [right; eauto|lia|auto|].
  destruct (P _ H) as (w & I & Sp). apply span_whole in Sp. subst w. exact I.
Qed.

(** *** C02: words of the language are accepted *)

(** One level down, at the left: see [corner] in RecogComplete.v.  No group or
    option can begin a derivation of itself. *)
Definition groups_not_left_recursive (g : grammar) : Prop :=
  forall e, occ_elem g e -> (exists a, e = EGroup a \/ e = EOption a) -> ~ corners g e e.
(** Where the counting loop of a repetition finds every end. *)
Definition count_ok (g : grammar) (input : list Z) : Prop :=
  forall mn mx e, occ_rep g (Rep mn mx e) ->
    (mn <= 2)%Z \/
    ((mn = mx \/ forall w v, in_elem g e w -> in_elem g e (w ++ v) -> v = []) /\
     ((mn <= Z.of_nat (length input) + 2)%Z \/ ~ in_elem g e [])).

Lemma count_repok g input : wf_grammar g -> count_ok g input -> forall r, occ_rep g r -> repok input (der g input) r.
Proof.
  intros W H [mn mx e] Oc. split.
  - apply (wf_occ g W) in Oc. inversion Oc; auto.
  - destruct (H mn mx e Oc) as [A|[A B]]; [left; auto|right]. split.
    + destruct A as [A|A]; [left; auto|right]. intros p q q' (w & I & S) (w' & I' & S').
      assert (G : forall w w' q q', in_elem g e w -> in_elem g e w' -> span input p q w -> span input p q' w' -> q <= q' -> q = q').
      { clear w w' I I' S S' q q'. intros w w' q q' I I' S S' Lq.
        destruct S as (a & b & E1 & La & Q). destruct S' as (a' & b' & E2 & La' & Q').
        assert (a' = a) as ->.
        { assert (firstn p input = a) by (rewrite E1, <- La, firstn_app, firstn_all, Nat.sub_diag; cbn; apply app_nil_r).
          assert (firstn p input = a') by (rewrite E2, <- La', firstn_app, firstn_all, Nat.sub_diag; cbn; apply app_nil_r). congruence. }
        rewrite E1 in E2. apply app_inv_head in E2.
        assert (Pf : exists v, w' = w ++ v).
        { assert (Ll : length w <= length w') by lia. clear -E2 Ll. revert w' E2 Ll. induction w as [|x w IH]; intros w' E Ll; [exists w'; reflexivity|].
          destruct w' as [|y w']; [cbn [length] in Ll; lia|]. cbn [length] in Ll. injection E as -> E. destruct (IH w' E) as (v & ->); [lia|]. exists v. reflexivity. }
        destruct Pf as (v & ->). assert (v = []) as -> by exact (A w v I I'). rewrite app_nil_r in Q'. lia. }
      destruct (Nat.le_ge_cases q q') as [Lq|Lq]; [exact (G w w' q q' I I' S S' Lq)|symmetry; exact (G w' w q' q I' I S' S Lq)].
    + destruct B as [B|B]; [left; auto|right]. intros p (w & I & S). apply B.
      destruct S as (a & b & _ & _ & Q). assert (w = []) as -> by (destruct w; auto; cbn in Q; lia). auto.
Qed.

(** Missing for the full claim, each refuted below: strings written both with
    and without [%s]; left recursion through a group or option; minimum counts
    above two that differ from the maximum, or that exceed the length of the
    input for a nullable element; the search order of [C45_mutual_refuted]. *)
Theorem C02_valid_exact_partial : forall g n input ordn order ord fuel,
  wf_grammar g -> lex_grammar g = true -> same_flags g -> bounds_ok g ->
  groups_not_left_recursive g -> count_ok g input ->
  any_order ordn -> name_order g order -> fine_first g order -> any_order ord ->
  (exists a, resolves g n a) -> recog_fuel g input n <= fuel ->
  exists b, is_valid ordn order ord fuel g n input = VBool b /\ (b = true <-> Lang g n input).
Proof.
  intros g n input ordn order ord fuel W L F B HG HC On K FF O R Hf. unfold is_valid.
  destruct (proj2 (get_rule_some g n) R) as (r & ->).
  destruct (class_facts g ordn order On K (proj1 W) B FF) as (lr & E & LI & LC & Lo & L1 & L2 & L3 & L4). rewrite E.
  assert (Ln : lex_name n = true) by (destruct R as (a & R); eapply resolves_lex; eauto).
  assert (LL : forall m scc x, lr m = Some scc -> In x scc -> lex_name x = true).
  { intros m scc x Hm Ix. destruct (Lo m scc x Hm Ix) as [_ (a & R')]. eapply resolves_lex; eauto. }
  assert (LLow : forall m scc x, lr m = Some scc -> In x scc -> lower x = x) by (intros m scc x Hm Ix; apply (Lo m scc x Hm Ix)).
  pose proof (recognizer_complete g input lr ord O W L F LI LC LL LLow L1 L2 L3 L4 HG (count_repok g input W HC) fuel n Ln) as P.
  assert (T : good False True (reach_elem g input lr ord fuel (ERule n) 0 r_init) (fun _ _ => True)).
  { eapply good_weaken; [apply (reach_elem_t g input lr ord n O LI)|]; auto.
    - left. reflexivity.
    - lia.
    - intros k s [Q|Q]; discriminate.
    - pose proof (recog_fuel_enough g input n). lia. }
  assert (N : good True False (reach_elem g input lr ord fuel (ERule n) 0 r_init) (fun _ _ => True)).
  { eapply good_weaken; [apply (reach_elem_n g input lr ord O LI LC fuel (ERule n) 0 (fun _ => None))|]; auto.
    - intros a sc b i _ _ Q. discriminate.
    - intros k. reflexivity. }
  destruct (reach_elem g input lr ord fuel (ERule n) 0 r_init) as [ends st| |]; [|destruct T|destruct N].
  eexists. split; [reflexivity|]. rewrite mem_nat_in. cbn in P. rewrite <- P. split.
  - intros (w & I & Sp). apply span_whole in Sp. subst w. exact I.
  - intros I. exists input. split; [exact I|apply span_self].
Qed.

(** *** C03: IsValid returns *)

(** It ends on every grammar and every input. *)
Theorem C03_valid_terminates : forall g n input ordn order ord fuel,
  any_order ordn -> name_order g order -> any_order ord -> recog_fuel g input n <= fuel ->
  is_valid ordn order ord fuel g n input <> VFuel.
Proof.
  intros g n input ordn order ord fuel On K O Hf. unfold is_valid.
  destruct (get_rule n g) as [r|]; [|discriminate].
  destruct (analysis_total g ordn order On K) as (lr & E & LI & _). rewrite E.
  assert (T : good False True (reach_elem g input lr ord fuel (ERule n) 0 r_init) (fun _ _ => True)).
  { eapply good_weaken; [apply (reach_elem_t g input lr ord n O LI)|]; auto.
    - left. reflexivity.
    - lia.
    - intros k s [Q|Q]; discriminate.
    - pose proof (recog_fuel_enough g input n). lia. }
  destruct (reach_elem g input lr ord fuel (ERule n) 0 r_init); [discriminate|destruct T|discriminate].
Qed.

(** It does not panic, unless the search of the left-corner graph starts from a
    rule that is left recursive both directly and through another rule; see
    [C03_refuted]. *)
Theorem C03_valid_no_panic_partial : forall g n input ordn order ord fuel,
  distinct_names g -> bounds_ok g -> any_order ordn -> name_order g order -> fine_first g order -> any_order ord ->
  is_valid ordn order ord fuel g n input <> VPanic.
Proof.
  intros g n input ordn order ord fuel D B On K FF O. unfold is_valid.
  destruct (get_rule n g) as [r|]; [|discriminate].
  destruct (class_facts g ordn order On K D B FF) as (lr & E & LI & LC & _). rewrite E.
  assert (N : good True False (reach_elem g input lr ord fuel (ERule n) 0 r_init) (fun _ _ => True)).
  { eapply good_weaken; [apply (reach_elem_n g input lr ord O LI LC fuel (ERule n) 0 (fun _ => None))|]; auto.
    - intros a sc b i _ _ Q. discriminate.
    - intros k. reflexivity. }
  destruct (reach_elem g input lr ord fuel (ERule n) 0 r_init); [discriminate|discriminate|destruct N].
Qed.

(** *** C04: independence of iteration orders *)
(** No rule is left recursive both directly and through another rule. *)
Definition one_kind_of_recursion (g : grammar) : Prop :=
  forall n, lc_ref g n n -> forall m, mutually_left g n m -> same_name m n.

Theorem C04_valid_deterministic_partial : forall g n input,
  wf_grammar g -> lex_grammar g = true -> same_flags g -> bounds_ok g ->
  groups_not_left_recursive g -> count_ok g input -> one_kind_of_recursion g ->
  (exists a, resolves g n a) ->
  forall ordn order ord fuel ordn' order' ord' fuel',
  any_order ordn -> name_order g order -> any_order ord -> recog_fuel g input n <= fuel ->
  any_order ordn' -> name_order g order' -> any_order ord' -> recog_fuel g input n <= fuel' ->
  is_valid ordn order ord fuel g n input = is_valid ordn' order' ord' fuel' g n input.
Proof.
  intros g n input W L F B HG HC OK R ordn order ord fuel ordn' order' ord' fuel' A1 A2 A3 A4 B1 B2 B3 B4.
  assert (FF : forall o, fine_first g o) by (intros o m rest _; apply OK).
  destruct (C02_valid_exact_partial g n input ordn order ord fuel) as (b & -> & H); auto.
  destruct (C02_valid_exact_partial g n input ordn' order' ord' fuel') as (b' & -> & H'); auto.
  f_equal. apply eq_true_iff_eq. rewrite H, H'. reflexivity.
Qed.

(** *** Witnesses *)
Definition idn (t : nat) (l : list string) : list string := l.
Definition idp (t : nat) (l : list nat) : list nat := l.
Lemma idn_any : any_order idn.
Proof. intros t l x. reflexivity. Qed.
Lemma idp_any : any_order idp.
Proof. intros t l x. reflexivity. Qed.
Definition one (e : elem) : rep := Rep 1 1 e.
Definition lit (s : string) : elem := EChar false (bytes s).
Definition slit (s : string) : elem := EChar true (bytes s).
Definition first_name (x : string) (g : grammar) : list string := x :: filter (fun y => negb (String.eqb x y)) (all_names g).

Lemma first_name_order g x : distinct_names g -> In x (all_names g) -> name_order g (first_name x g).
Proof.
  intros D I. apply (name_order_same g (all_names g)); [|apply all_names_order; auto].
  intros y. unfold first_name. cbn. rewrite filter_In, negb_true_iff. split.
  - intros Iy. destruct (String.eqb_spec x y); auto.
  - intros [<-|[H _]]; auto.
Qed.
Lemma wf_distinct g : wf_grammarb g = true -> distinct_names g.
Proof. intros H. apply wf_grammarb_spec in H. apply H. Qed.
Lemma term_word g t w : is_terminal t = true -> wf_elem t -> match_term t w 0 = Some (length w) -> in_elem g t w.
Proof.
  intros T W M. apply (match_term_spec g t T W) in M as (v & I & S); [|lia]. apply span_whole in S. subst v. exact I.
Qed.
Lemma in_one g e w : in_rep g (one e) w <-> in_elem g e w.
Proof.
  split.
  - intros H. inversion H as [? ? ? n ? A B P]; subst. assert (n = 1) as -> by (destruct B as [B|B]; [discriminate B|lia]).
    inversion P as [|? ? w1 w2 P1 P2]; subst. inversion P2; subst. rewrite app_nil_r. auto.
  - intros H. apply (in_rep_intro g 1 1 e 1 w); [lia|right; lia|]. rewrite <- (app_nil_r w). constructor; [exact H|constructor].
Qed.
Lemma in_two g e e' w : in_cat g [one e; one e'] w <-> exists w1 w2, w = w1 ++ w2 /\ in_elem g e w1 /\ in_elem g e' w2.
Proof.
  split.
  - intros H. inversion H as [|? ? w1 w2 A B]; subst. inversion B as [|? ? w3 w4 C D]; subst. inversion D; subst.
    rewrite app_nil_r. exists w1, w3. rewrite <- !in_one. auto.
  - intros (w1 & w2 & -> & A & B). constructor; [apply in_one; auto|]. rewrite <- (app_nil_r w2). constructor; [apply in_one; auto|constructor].
Qed.
Lemma in_single g e w : in_cat g [one e] w <-> in_elem g e w.
Proof.
  split.
  - intros H. inversion H as [|? ? w1 w2 A B]; subst. inversion B; subst. rewrite app_nil_r. apply in_one. auto.
  - intros H. rewrite <- (app_nil_r w). constructor; [apply in_one; auto|constructor].
Qed.
Lemma lang_user g n r w : distinct_names g -> get_rule n g = Some r -> (Lang g n w <-> in_alt g (rule_alt r) w).
Proof.
  intros D G. destruct (get_rule_resolves g n D) as [A B]. split.
  - intros H. inversion H as [? a ? R I| | | | | |]; subst. destruct (B a R) as (r' & G' & <-). congruence.
  - intros H. econstructor; eauto.
Qed.

Lemma lit_inv g v w : (97 <= v <= 122)%Z -> in_elem g (EChar false [v]) w -> w = [v] \/ w = [(v - 32)%Z].
Proof.
  intros V H. inversion H as [| | | |s vs rs F Sc| |]; subst. inversion F as [|? r ? rs' C F']; subst. inversion F'; subst.
  unfold char_ok, fold_case in C. cbn [utf8s flat_map].
  replace ((65 <=? v) && (v <=? 90))%Z with false in C by (symmetry; apply andb_false_iff; right; apply Z.leb_gt; lia).
  unfold utf8. destruct ((65 <=? r) && (r <=? 90))%Z eqn:E.
  - assert (r = v - 32)%Z as -> by lia. replace (v - 32 <? 128)%Z with true by (symmetry; apply Z.ltb_lt; lia). auto.
  - subst r. replace (v <? 128)%Z with true by (symmetry; apply Z.ltb_lt; lia). auto.
Qed.
Lemma slit_inv g v w : in_elem g (EChar true [v]) w -> w = utf8 v.
Proof.
  intros H. inversion H as [| | | |s vs rs F Sc| |]; subst. inversion F as [|? r ? rs' C F']; subst. inversion F'; subst.
  cbn in C. subst r. cbn. apply app_nil_r.
Qed.
Ltac tword := apply term_word; [reflexivity|apply (proj1 wf_b); vm_compute; reflexivity|vm_compute; reflexivity].
Ltac user r := apply (lang_user _ _ r); [apply wf_distinct; vm_compute; reflexivity|reflexivity|].

(** A string with and without [%s]: [a = "x" "z" / %s"x" "y"] accepts [Xy]. *)
Definition g_flags : grammar := [mkRule "a" [[one (lit "x"); one (lit "z")]; [one (slit "x"); one (lit "y")]]].
Theorem C01_valid_sound_refuted : exists g n input ordn order ord fuel,
  wf_grammar g /\ lex_grammar g = true /\ any_order ordn /\ name_order g order /\ any_order ord /\
  is_valid ordn order ord fuel g n input = VBool true /\ ~ Lang g n input.
Proof.
  exists g_flags, "a", (bytes "Xy"), idn, (all_names g_flags), idp, 100.
  split; [apply wf_grammarb_spec; vm_compute; reflexivity|]. split; [vm_compute; reflexivity|]. split; [exact idn_any|].
  split; [apply all_names_order, wf_distinct; vm_compute; reflexivity|]. split; [exact idp_any|]. split; [vm_compute; reflexivity|].
  intros H. apply (lang_user g_flags "a" (mkRule "a" [[one (lit "x"); one (lit "z")]; [one (slit "x"); one (lit "y")]])) in H;
    [|apply wf_distinct; vm_compute; reflexivity|reflexivity].
  inversion H as [c a w I C]; subst. destruct I as [<-|[<-|[]]]; apply in_two in C as (w1 & w2 & E & A & B).
  - apply (lit_inv _ 120) in A; [|lia]. apply (lit_inv _ 122) in B; [|lia]. destruct A as [-> | ->], B as [-> | ->]; discriminate E.
  - apply (slit_inv _ 120) in A. subst w1. discriminate E.
Qed.

(** Four ways in which a word of the language is refused. *)

(** [a = %s"x" "z" / "x" "y"] refuses [Xy]: the memo of [%s"x"] answers for ["x"]. *)
Definition g_flags' : grammar := [mkRule "a" [[one (slit "x"); one (lit "z")]; [one (lit "x"); one (lit "y")]]].
Theorem C02_valid_complete_refuted_flags : exists g n input ordn order ord fuel,
  wf_grammar g /\ lex_grammar g = true /\ any_order ordn /\ name_order g order /\ any_order ord /\
  is_valid ordn order ord fuel g n input = VBool false /\ Lang g n input.
Proof.
  exists g_flags', "a", (bytes "Xy"), idn, (all_names g_flags'), idp, 100.
  split; [apply wf_grammarb_spec; vm_compute; reflexivity|]. split; [vm_compute; reflexivity|]. split; [exact idn_any|].
  split; [apply all_names_order, wf_distinct; vm_compute; reflexivity|]. split; [exact idp_any|]. split; [vm_compute; reflexivity|].
  user (mkRule "a" [[one (slit "x"); one (lit "z")]; [one (lit "x"); one (lit "y")]]).
  apply (in_alt_intro _ [one (lit "x"); one (lit "y")]); [right; left; reflexivity|]. apply in_two.
  exists (bytes "X"), (bytes "y"). split; [reflexivity|]. split; tword.
Qed.

(** [a = (a "x") / "y"] refuses [yx]: what the group reaches is memoized while the
    seed of [a] still grows. *)
Definition g_group : grammar := [mkRule "a" [[one (EGroup [[one (ERule "a"); one (lit "x")]])]; [one (lit "y")]]].
Theorem C02_valid_complete_refuted_group : exists g n input ordn order ord fuel,
  wf_grammar g /\ lex_grammar g = true /\ same_flags g /\ any_order ordn /\ name_order g order /\ any_order ord /\
  is_valid ordn order ord fuel g n input = VBool false /\ Lang g n input.
Proof.
  exists g_group, "a", (bytes "yx"), idn, (all_names g_group), idp, 100.
  split; [apply wf_grammarb_spec; vm_compute; reflexivity|]. split; [vm_compute; reflexivity|].
  split; [apply same_flagsb_spec; vm_compute; reflexivity|]. split; [exact idn_any|].
  split; [apply all_names_order, wf_distinct; vm_compute; reflexivity|]. split; [exact idp_any|]. split; [vm_compute; reflexivity|].
  user (mkRule "a" [[one (EGroup [[one (ERule "a"); one (lit "x")]])]; [one (lit "y")]]).
  eapply in_alt_intro; [left; reflexivity|]. apply in_single. constructor.
  eapply in_alt_intro; [left; reflexivity|]. apply in_two. exists (bytes "y"), (bytes "x"). split; [reflexivity|]. split; [|tword].
  user (mkRule "a" [[one (EGroup [[one (ERule "a"); one (lit "x")]])]; [one (lit "y")]]).
  eapply in_alt_intro; [right; left; reflexivity|]. apply in_single. tword.
Qed.

(** [a = 3["x"]] refuses the empty input: the loop stops at [len(input) + 2]. *)
Definition g_cap : grammar := [mkRule "a" [[Rep 3 3 (EOption [[one (lit "x")]])]]].
Theorem C02_valid_complete_refuted_cap : exists g n input ordn order ord fuel,
  wf_grammar g /\ lex_grammar g = true /\ same_flags g /\ any_order ordn /\ name_order g order /\ any_order ord /\
  is_valid ordn order ord fuel g n input = VBool false /\ Lang g n input.
Proof.
  exists g_cap, "a", (bytes ""), idn, (all_names g_cap), idp, 100.
  split; [apply wf_grammarb_spec; vm_compute; reflexivity|]. split; [vm_compute; reflexivity|].
  split; [apply same_flagsb_spec; vm_compute; reflexivity|]. split; [exact idn_any|].
  split; [apply all_names_order, wf_distinct; vm_compute; reflexivity|]. split; [exact idp_any|]. split; [vm_compute; reflexivity|].
  user (mkRule "a" [[Rep 3 3 (EOption [[one (lit "x")]])]]).
  eapply in_alt_intro; [left; reflexivity|]. change (bytes "") with ([] ++ [] : list Z). constructor; [|constructor].
  apply (in_rep_intro _ 3 3 _ 3); [lia|right; lia|]. change (@nil Z) with ([] ++ [] ++ [] ++ [] : list Z). repeat (constructor; [apply in_option_none|]). constructor.
Qed.

(** [a = 3*("a" / "b" / "cde" / "f" / "abcde")] refuses [abcdef]: the third occurrence ends
    only where others have ended before, and the loop stops. *)
Definition e_break : elem := EGroup [[one (lit "a")]; [one (lit "b")]; [one (lit "cde")]; [one (lit "f")]; [one (lit "abcde")]].
Definition g_break : grammar := [mkRule "a" [[Rep 3 (-1) e_break]]].
Theorem C02_valid_complete_refuted_break : exists g n input ordn order ord fuel,
  wf_grammar g /\ lex_grammar g = true /\ same_flags g /\ any_order ordn /\ name_order g order /\ any_order ord /\
  is_valid ordn order ord fuel g n input = VBool false /\ Lang g n input.
Proof.
  exists g_break, "a", (bytes "abcdef"), idn, (all_names g_break), idp, 100.
  split; [apply wf_grammarb_spec; vm_compute; reflexivity|]. split; [vm_compute; reflexivity|].
  split; [apply same_flagsb_spec; vm_compute; reflexivity|]. split; [exact idn_any|].
  split; [apply all_names_order, wf_distinct; vm_compute; reflexivity|]. split; [exact idp_any|]. split; [vm_compute; reflexivity|].
  user (mkRule "a" [[Rep 3 (-1) e_break]]).
  eapply in_alt_intro; [left; reflexivity|]. rewrite <- (app_nil_r (bytes "abcdef")). constructor; [|constructor].
  apply (in_rep_intro _ 3 (-1) _ 4); [lia|left; reflexivity|].
  change (bytes "abcdef") with (bytes "a" ++ bytes "b" ++ bytes "cde" ++ bytes "f" ++ []).
  constructor; [|constructor; [|constructor; [|constructor; [|constructor]]]]; constructor.
  - apply (in_alt_intro _ [one (lit "a")]); [cbn; auto|]. apply in_single. tword.
  - apply (in_alt_intro _ [one (lit "b")]); [cbn; auto|]. apply in_single. tword.
  - apply (in_alt_intro _ [one (lit "cde")]); [cbn; auto|]. apply in_single. tword.
  - apply (in_alt_intro _ [one (lit "f")]); [cbn; auto 10|]. apply in_single. tword.
Qed.

(** [a = a "x" / b "z" / "q"], [b = a "y"]: if the map [leftRecursiveSCCs] ranges over yields
    [a] first, [a] is a class of its own, and growing it writes to a nil map. *)
Definition g_split : grammar :=
  [mkRule "a" [[one (ERule "a"); one (lit "x")]; [one (ERule "b"); one (lit "z")]; [one (lit "q")]]; mkRule "b" [[one (ERule "a"); one (lit "y")]]].
Theorem C03_valid_no_panic_refuted : exists g n input ordn order ord fuel,
  wf_grammar g /\ lex_grammar g = true /\ same_flags g /\ bounds_ok g /\ any_order ordn /\ name_order g order /\ any_order ord /\
  is_valid ordn order ord fuel g n input = VPanic.
Proof.
  exists g_split, "a", (bytes "q"), idn, (first_name "a" g_split), idp, 100.
  split; [apply wf_grammarb_spec; vm_compute; reflexivity|]. split; [vm_compute; reflexivity|].
  split; [apply same_flagsb_spec; vm_compute; reflexivity|]. split; [apply bounds_dec; vm_compute; reflexivity|]. split; [exact idn_any|].
  split; [apply first_name_order; [apply wf_distinct; vm_compute; reflexivity|vm_compute; auto 20]|]. split; [exact idp_any|]. vm_compute; reflexivity.
Qed.
Theorem C04_valid_deterministic_refuted : exists g n input ordn order order' ord fuel,
  wf_grammar g /\ lex_grammar g = true /\ same_flags g /\ bounds_ok g /\ any_order ordn /\ name_order g order /\ name_order g order' /\ any_order ord /\
  is_valid ordn order ord fuel g n input = VBool true /\ is_valid ordn order' ord fuel g n input = VPanic.
Proof.
  exists g_split, "a", (bytes "qyz"), idn, (first_name "b" g_split), (first_name "a" g_split), idp, 100.
  split; [apply wf_grammarb_spec; vm_compute; reflexivity|]. split; [vm_compute; reflexivity|].
  split; [apply same_flagsb_spec; vm_compute; reflexivity|]. split; [apply bounds_dec; vm_compute; reflexivity|]. split; [exact idn_any|].
  split; [apply first_name_order; [apply wf_distinct; vm_compute; reflexivity|vm_compute; auto 20]|].
  split; [apply first_name_order; [apply wf_distinct; vm_compute; reflexivity|vm_compute; auto 20]|]. split; [exact idp_any|].
  split; vm_compute; reflexivity.
Qed.

(** ** Cases *)

(** [expr = expr "+" term / term], [term = 2*3DIGIT ["!"] *("(" expr ")") / 4fac],
    [fac = "f" [fac] / %x61-7A]. *)
Definition g_calc : grammar :=
  [mkRule "expr" [[one (ERule "expr"); one (lit "+"); one (ERule "term")]; [one (ERule "term")]];
   mkRule "term" [[Rep 2 3 (ERule "DIGIT"); one (EOption [[one (lit "!")]]); Rep 0 (-1) (EGroup [[one (lit "("); one (ERule "Expr"); one (lit ")")]])]; [Rep 4 4 (ERule "fac")]];
   mkRule "fac" [[one (lit "f"); one (EOption [[one (ERule "fac")]])]; [one (ENum "x" StatRange ["61"; "7A"])]]].
Definition count_okb (g : grammar) (input : list Z) : bool :=
  forallb (fun r => let 'Rep mn mx _ := r in ((mn <=? 2) || ((mn =? mx) && (mn <=? Z.of_nat (length input) + 2)))%Z) (grammar_reps g).
Lemma count_okb_spec g input : count_okb g input = true -> count_ok g input.
Proof.
  intros H mn mx e Oc. apply occ_rep_in in Oc. unfold count_okb in H. rewrite forallb_forall in H. specialize (H _ Oc). cbv beta iota in H.
  apply orb_true_iff in H as [H|H]; [left; lia|right]. apply andb_true_iff in H as [A B]. split; left; lia.
Qed.
Lemma g_calc_wf : wf_grammar g_calc.
Proof. apply wf_grammarb_spec. vm_compute. reflexivity. Qed.
Lemma g_calc_flags : same_flags g_calc.
Proof. apply same_flagsb_spec. vm_compute. reflexivity. Qed.
Lemma g_calc_bounds : bounds_ok g_calc.
Proof. apply bounds_dec. vm_compute. reflexivity. Qed.
Lemma g_calc_groups : groups_not_left_recursive g_calc.
Proof. refine (groups_shallow_ok g_calc (proj1 g_calc_wf) 10 _). vm_compute. reflexivity. Qed.
Lemma g_calc_order : name_order g_calc (first_name "fac" g_calc).
Proof. apply first_name_order; [exact (proj1 g_calc_wf)|vm_compute; auto 20]. Qed.
Lemma g_calc_classes : forall n m, mutually_left g_calc n m -> same_name m n.
Proof.
  eapply (single_classes g_calc idn (first_name "fac" g_calc) "fac" _ 10);
    [exact idn_any|exact g_calc_order|exact (proj1 g_calc_wf)|exact g_calc_bounds|reflexivity|vm_compute; reflexivity|vm_compute; reflexivity].
Qed.
Lemma g_calc_one : one_kind_of_recursion g_calc.
Proof. intros n _. apply g_calc_classes. Qed.
Lemma g_calc_fine order : fine_first g_calc order.
Proof. intros n rest _ _. apply g_calc_classes. Qed.

(** C01: the hypotheses hold, and the word is accepted. *)
Example C01_case :
  wf_grammar g_calc /\ lex_grammar g_calc = true /\ same_flags g_calc /\
  any_order idn /\ name_order g_calc (first_name "fac" g_calc) /\ any_order idp /\
  is_valid idn (first_name "fac" g_calc) idp 200 g_calc "EXPR" (bytes "12+345!(99)+FfFz") = VBool true.
Proof.
  split; [exact g_calc_wf|]. split; [vm_compute; reflexivity|]. split; [exact g_calc_flags|]. split; [exact idn_any|].
  split; [exact g_calc_order|]. split; [exact idp_any|]. vm_compute. reflexivity.
Qed.
(** C02 and C04, on a word and on a word that is not one. *)
Example C02_case :
  wf_grammar g_calc /\ lex_grammar g_calc = true /\ same_flags g_calc /\ bounds_ok g_calc /\ groups_not_left_recursive g_calc /\
  count_ok g_calc (bytes "12+345!(99)+FfFz") /\ count_ok g_calc (bytes "12+3456") /\
  any_order idn /\ name_order g_calc (first_name "fac" g_calc) /\ fine_first g_calc (first_name "fac" g_calc) /\ any_order idp /\
  (exists a, resolves g_calc "expr" a) /\ Lang g_calc "expr" (bytes "12+345!(99)+FfFz") /\ ~ Lang g_calc "expr" (bytes "12+3456").
Proof.
  assert (R : exists a, resolves g_calc "expr" a) by (apply get_rule_some; eexists; reflexivity).
  assert (C1 : count_ok g_calc (bytes "12+345!(99)+FfFz")) by (apply count_okb_spec; vm_compute; reflexivity).
  assert (C2 : count_ok g_calc (bytes "12+3456")) by (apply count_okb_spec; vm_compute; reflexivity).
  split; [exact g_calc_wf|]. split; [vm_compute; reflexivity|]. split; [exact g_calc_flags|]. split; [exact g_calc_bounds|].
  split; [exact g_calc_groups|]. split; [exact C1|]. split; [exact C2|]. split; [exact idn_any|]. split; [exact g_calc_order|].
  split; [apply g_calc_fine|]. split; [exact idp_any|]. split; [exact R|]. split.
  - apply (C01_valid_sound_partial g_calc "expr" _ idn (first_name "fac" g_calc) idp 200);
      [exact g_calc_wf|vm_compute; reflexivity|exact g_calc_flags|exact idn_any|exact g_calc_order|exact idp_any|vm_compute; reflexivity].
  - intros L. set (fu := recog_fuel g_calc (bytes "12+3456") "expr").
    destruct (C02_valid_exact_partial g_calc "expr" (bytes "12+3456") idn (first_name "fac" g_calc) idp fu) as (b & E & H);
      [exact g_calc_wf|vm_compute; reflexivity|exact g_calc_flags|exact g_calc_bounds|exact g_calc_groups|exact C2|exact idn_any|exact g_calc_order|
       apply g_calc_fine|exact idp_any|exact R|unfold fu; apply le_n|].
    apply H in L. subst b. revert E. unfold fu. clear. vm_compute. discriminate.
Qed.
Example C03_case : any_order idn /\ name_order g_calc (first_name "fac" g_calc) /\ any_order idp /\
  distinct_names g_calc /\ bounds_ok g_calc /\ fine_first g_calc (first_name "fac" g_calc) /\
  is_valid idn (first_name "fac" g_calc) idp 3 g_calc "expr" (bytes "12") = VFuel /\
  is_valid idn (first_name "fac" g_calc) idp (recog_fuel g_calc (bytes "12") "expr") g_calc "expr" (bytes "12") = VBool true.
Proof.
  split; [exact idn_any|]. split; [exact g_calc_order|]. split; [exact idp_any|]. split; [exact (proj1 g_calc_wf)|]. split; [exact g_calc_bounds|].
  split; [apply g_calc_fine|]. split; vm_compute; reflexivity.
Qed.
Example C04_case : one_kind_of_recursion g_calc /\ lc_ref g_calc "expr" "expr" /\
  any_order (fun _ l => rev l : list nat) /\ first_name "fac" g_calc <> all_names g_calc /\ name_order g_calc (all_names g_calc).
Proof.
  split; [exact g_calc_one|]. split.
  - exists (rule_alt (hd (mkRule "" []) g_calc)). split; [left; exists (hd (mkRule "" []) g_calc); split; [left; reflexivity|split; reflexivity]|].
    apply (lcr_cat g_calc _ [] 1 1 (ERule "expr") [one (lit "+"); one (ERule "term")]); [left; reflexivity|intros r []|constructor; reflexivity].
  - split; [intros t l x; split; intros H; [apply in_rev; exact H|apply in_rev in H; exact H]|]. split; [vm_compute; discriminate|].
    apply all_names_order. exact (proj1 g_calc_wf).
Qed.

Print Assumptions C01_valid_sound_partial.
Print Assumptions C01_valid_sound_refuted.
Print Assumptions C02_valid_exact_partial.
Print Assumptions C02_valid_complete_refuted_flags.
Print Assumptions C02_valid_complete_refuted_group.
Print Assumptions C02_valid_complete_refuted_cap.
Print Assumptions C02_valid_complete_refuted_break.
Print Assumptions C03_valid_terminates.
Print Assumptions C03_valid_no_panic_partial.
Print Assumptions C03_valid_no_panic_refuted.
Print Assumptions C04_valid_deterministic_partial.
Print Assumptions C04_valid_deterministic_refuted.
