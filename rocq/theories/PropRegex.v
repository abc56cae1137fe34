(** C24, C25, C46: Grammar.Regex. *)
(** The definitions here are those of statements, proofs and examples; they model no code. *)
From Coq Require Import ZArith Arith String Bool Relations List Lia.
From Verif Require Import Syntax Spec Utf8 Num PrintInj Check Occ Deps Dag Cycle LowerLang PropTerm PropSem PropDag RecogGlue PropRecog PropGenerate Regex RegexSpec RegexRead RegexSimp RegexBuild.
Import ListNotations.
Local Open Scope string_scope.
Local Open Scope list_scope.
Local Open Scope Z_scope.

(** The limits of the syntax: repetition counts, and a range of one value that is
    not a character, which has no text. *)
Definition counts_within (lim : Z) (g : grammar) : Prop :=
  forall r mn mx e, In r g -> rep_in (rule_alt r) (Rep mn mx e) -> mn <= lim /\ mx <= lim.
Definition no_lone_surrogate (g : grammar) : Prop :=
  forall r mn mx b lo hi v, In r g -> rep_in (rule_alt r) (Rep mn mx (ENum b StatRange [lo; hi])) ->
    numeral b lo = Some v -> numeral b hi = Some v -> v <= 0x10FFFF -> scalar v.

(** ** What the hypotheses give *)
Lemma occ_num g b st es : wf_grammar g -> occ_elem g (ENum b st es) -> wf_num b st es.
Proof.
  intros W O. pose proof (proj1 (wf_occ g W) _ O) as We. inversion We; subst. assumption.
Qed.
Lemma occ_char g s vs v : lex_grammar g = true -> occ_elem g (EChar s vs) -> In v vs -> 32 <= v <= 126.
Proof.
  intros L O I. destruct (lex_occ g L) as [Le _]. specialize (Le _ O). cbn [lex_elem] in Le.
  rewrite forallb_forall in Le. specialize (Le v I). unfold quotable in Le. rewrite !andb_true_iff, !Z.leb_le in Le. lia.
Qed.

(** ** C24 *)
(** The node built for a rule denotes the language of the rule, and simplifying it
    does not change the language. *)
Theorem C24_build_denotes_partial : forall fuel g n r x st, wf_grammar g -> lex_grammar g = true ->
  refs_defined g -> bounds_ordered g -> get_rule n g = Some r ->
  build_alt (build_rule fuel g) (rule_alt r) (mkB [] false) = Some (x, st) -> b_err st = false ->
  (forall w, Lang g n w <-> exists rs, re_lang x rs /\ w = utf8s rs) /\
  (forall w, Lang g n w <-> exists rs, re_lang (simplify x) rs /\ w = utf8s rs) /\
  leq (re_lang (simplify x)) (re_lang x).
Proof.
  intros fuel g n r x st W L Rd Bo G E Er. destruct (valid_facts g L Rd Bo) as (_ & F2 & _ & F4).
  destruct (build_ok g (fun mn mx => 0 <= mn /\ (mx = inf \/ mn <= mx)) (fun _ => True) (proj1 W) F2
    (fun b st es => occ_num g b st es W) F4 (conj (Z.le_refl 0) (or_intror Z.le_0_1)) (fun _ _ _ _ _ _ _ => Logic.I) (fun _ _ => Logic.I) (fun _ _ _ _ _ => Logic.I) fuel n r x st G E Er) as [D K].
  assert (O : ordered_re x).
  { clear - K. induction x as [rs|ps IH|os IH|s mn mx IH| |] using re_ind'; inversion K as [|? F|? F|? ? ? B Ks| |]; subst; constructor.
    - rewrite Forall_forall in *. auto.
    - rewrite Forall_forall in *. auto.
    - apply B.
    - apply B.
    - auto. }
  pose proof (simplify_lang x O) as S. split; [exact D|]. split; [|exact S].
  intros w. rewrite (D w). split; intros (rs & H & ->); exists rs; (split; [apply S; exact H|reflexivity]).
Qed.

(** The node can be written when the counts and ranges allow it. *)
Lemma build_good lim fuel g n r x st : 1 <= lim -> wf_grammar g -> lex_grammar g = true ->
  refs_defined g -> bounds_ordered g -> counts_within lim g -> no_lone_surrogate g -> get_rule n g = Some r ->
  build_alt (build_rule fuel g) (rule_alt r) (mkB [] false) = Some (x, st) -> b_err st = false -> good_re lim x.
Proof.
  intros Lm W L Rd Bo Cw Ns G E Er. destruct (valid_facts g L Rd Bo) as (_ & F2 & _ & F4).
  destruct (build_ok g (ok_bounds lim) good_ranges (proj1 W) F2
    (fun b st es => occ_num g b st es W)) with (fuel := fuel) (n := n) (r := r) (x := x) (st := st) as [_ K]; try assumption.
  - intros mn mx e O. destruct (F4 _ _ _ O) as [A1 A2].
    assert (A3 : mn <= lim /\ mx <= lim).
    { refine (occ_split g (fun x => rep_min x <= lim /\ rep_max x <= lim) _ _ (Rep mn mx e) O).
      - apply Forall_forall. intros y I. assert (K : forall y, In y (grammar_reps []) -> rep_min y <= 1 /\ rep_max y <= 1).
        { assert (X : forallb (fun y => (rep_min y <=? 1) && (rep_max y <=? 1))%bool (grammar_reps []) = true) by (vm_compute; reflexivity).
          rewrite forallb_forall in X. intros z Iz. specialize (X z Iz). rewrite andb_true_iff, !Z.leb_le in X. exact X. }
        specialize (K y I). lia.
      - intros r0 [mn0 mx0 e0] I0 R0. cbn [rep_min rep_max]. eapply Cw; eassumption. }
    split; [lia|]. destruct A2; [left; assumption|right; lia].
  - split; [lia|right; lia].
  - intros s vs v rs O I Ev. pose proof (occ_char g s vs v L O I) as Q.
    destruct (char_class_ranges v s) as (rs' & Ev' & _ & B & N). rewrite Ev in Ev'. injection Ev' as <-.
    assert (B' : forall p, In p rs -> fst p = snd p /\ 32 <= fst p <= 126).
    { intros [lo hi] Ip. destruct (B lo hi Ip) as [-> C]. cbn [fst snd]. split; [reflexivity|].
      unfold char_ok in C. destruct s; [subst; exact Q|]. unfold fold_case in C.
      destruct (Z.leb_spec 65 v), (Z.leb_spec v 90), (Z.leb_spec 65 hi), (Z.leb_spec hi 90); cbn [andb] in C; lia. }
    split; [exact N|]. split; apply Forall_forall; intros p Ip; destruct (B' p Ip) as [E1 E2].
    + unfold range_bound, char_bound. lia.
    + intros _. unfold scalar. lia.
  - intros c S. split; [discriminate|]. split; (constructor; [|constructor]); cbn [fst snd].
    + unfold range_bound, char_bound, scalar in *. cbn [fst snd]. lia.
    + auto.
  - intros b es rs O En. pose proof (occ_num g _ _ _ W O) as [Wn Ln]. destruct es as [|lo [|hi [|x0 es]]]; try discriminate Ln.
    cbn [num_node] in En. unfold numval_to_rune in En.
    inversion Wn as [|? ? (l & El) Wn']; subst. inversion Wn' as [|? ? (h & Eh) _]; subst.
    pose proof (numval_to_int32_spec _ _ _ El) as Ml. pose proof (numval_to_int32_spec _ _ _ Eh) as Mh.
    pose proof (numeral_nonneg _ _ _ El) as Pl. pose proof (numeral_nonneg _ _ _ Eh) as Ph.
    set (a := numval_to_int32 lo b) in *. set (c := numval_to_int32 hi b) in *. clearbody a c.
    unfold range_node in En. set (h' := Z.min c 0x10FFFF) in *. assert (Eh' : h' = Z.min c 0x10FFFF) by reflexivity. clearbody h'.
    destruct (Z.ltb_spec 0x10FFFF a) as [A|A]; [discriminate|]. destruct (Z.ltb_spec h' a) as [B|B]; [discriminate|]. cbn [orb] in En.
    injection En as <-. split; [discriminate|]. split; (constructor; [|constructor]).
    + unfold range_bound, char_bound. cbn [fst snd]. rewrite Ml in *. unfold MaxInt32 in *. lia.
    + cbn [fst snd]. intros Eq.
      destruct (Z.eq_dec a 0x10FFFF) as [->|Na]; [unfold scalar; lia|].
      assert (El' : l = a) by (rewrite Ml in *; unfold MaxInt32 in *; lia).
      assert (Eh'' : h = a) by (rewrite Mh in *; unfold MaxInt32 in *; lia).
      inversion O as [mn mx e O1]; subst e. apply occ_rep_in in O1 as (r0 & I0 & R0). apply in_app_or in I0 as [I0|I0].
      * eapply (Ns r0 mn mx b lo hi a); try eassumption; [congruence|congruence].
      * assert (X : forallb (fun y => match rep_elem y with ENum b StatRange [lo; hi] =>
          match numeral b lo with Some v => (v <? 0xD800) | None => true end | _ => true end) (grammar_reps []) = true) by (vm_compute; reflexivity).
        rewrite forallb_forall in X.
        assert (I : In (Rep mn mx (ENum b StatRange [lo; hi])) (grammar_reps [])) by (apply occ_rep_listed, occ_rep_in; exists r0; auto).
        specialize (X _ I). cbn [rep_elem] in X. rewrite El in X. apply Z.ltb_lt in X. unfold scalar. lia.
  - clear - K. induction x as [rs|ps IH|os IH|s mn mx IH| |] using re_ind'; inversion K as [|? F|? F|? ? ? B Ks| |]; subst; constructor; auto.
    + rewrite Forall_forall in *. auto.
    + rewrite Forall_forall in *. auto.
Qed.

(** ** C24 and C25: the text *)
(** Whatever node is written, the text is read in exactly one way, and means what
    the node means. *)
Theorem C25_render_reads : forall lim max n, wf_re lim n ->
  let st := render max n 1 (mkR 0 false []) in r_err st = false ->
  exists x, reads lim (r_out st) x /\ (forall y, reads lim (r_out st) y -> y = x) /\ leq (rx_lang x) (re_lang n).
Proof.
  intros lim max n W st Er. destruct (render_text max n) as [_ T]. fold st in T. rewrite (T Er).
  destruct (render_reads lim n W) as (x & R & L). exists x. split; [exact R|]. split; [|exact L].
  intros y Ry. eapply reads_unique; eassumption.
Qed.

(** The text Regex returns matches exactly the language of the rule. *)
Theorem C24_C25_regex_text_partial : forall lim fuel g order max n t, 1 <= lim -> wf_grammar g -> lex_grammar g = true ->
  refs_defined g -> bounds_ordered g -> counts_within lim g -> no_lone_surrogate g ->
  regex fuel g order max n = Regex_text t ->
  exists x, reads lim t x /\ (forall y, reads lim t y -> y = x) /\ forall w, Lang g n w <-> matches x w.
Proof.
  intros lim fuel g order max n t Lm W L Rd Bo Cw Ns E. unfold regex in E.
  destruct (rule_contains_cycle g order n) as [|[]|]; try discriminate.
  destruct (get_rule n g) as [r|] eqn:G; [|discriminate].
  destruct (build_alt (build_rule fuel g) (rule_alt r) (mkB [] false)) as [[x st]|] eqn:Eb; [|discriminate].
  destruct (b_err st) eqn:Er; [discriminate|]. cbn zeta in E.
  destruct (r_err (render max (simplify x) 1 (mkR 0 false []))) eqn:Rr; [discriminate|]. injection E as <-.
  destruct (C24_build_denotes_partial fuel g n r x st W L Rd Bo G Eb Er) as (_ & D & _).
  pose proof (simplify_wf lim x (build_good lim fuel g n r x st Lm W L Rd Bo Cw Ns G Eb Er)) as Wf.
  destruct (C25_render_reads lim max (simplify x) Wf Rr) as (y & Ry & U & Ly). exists y. split; [exact Ry|]. split; [exact U|].
  intros w. rewrite (D w). unfold matches. split; intros (rs & H & ->); exists rs; (split; [apply Ly; exact H|reflexivity]).
Qed.

(** Which outcome: enough fuel exists, and the outcome depends on the rule as it
    should. *)
Lemma traverse_err {A X} (f : A -> bstate -> option (X * bstate)) l :
  (forall x, In x l -> forall st n st', f x st = Some (n, st') -> b_err st = false -> b_err st' = false) ->
  forall st ns st', traverse f l st = Some (ns, st') -> b_err st = false -> b_err st' = false.
Proof.
  induction l as [|x l IH]; intros H st ns st' E Er; [injection E as <- <-; exact Er|].
  rewrite traverse_cons in E. destruct (f x st) as [[y s1]|] eqn:E1; [|discriminate].
  destruct (traverse f l s1) as [[ys s2]|] eqn:E2; [|discriminate]. injection E as <- <-.
  eapply (IH (fun z I => H z (or_intror I))); [exact E2|]. eapply (H x (or_introl eq_refl)); [exact E1|exact Er].
Qed.
Lemma build_alt_err call a :
  (forall c x, In c a -> In x c -> forall st n st', build_rep call x st = Some (n, st') -> b_err st = false -> b_err st' = false) ->
  forall st n st', build_alt call a st = Some (n, st') -> b_err st = false -> b_err st' = false.
Proof.
  intros H st n st' E Er. unfold build_alt in E. destruct (traverse (build_cat call) a st) as [[os s1]|] eqn:E1; [|discriminate].
  injection E as <- <-. revert E1 Er. apply traverse_err. intros c Ic s m s' E Er. unfold build_cat in E.
  destruct (traverse (build_rep call) c s) as [[ps s2]|] eqn:E2; [|discriminate]. injection E as <- <-.
  revert E2 Er. apply traverse_err. intros x Ix. apply (H c x Ic Ix).
Qed.
Lemma elem_err g call : (forall v, ~ occ_elem g (EProse v)) ->
  (forall n st x st', call n st = Some (x, st') -> b_err st = false -> b_err st' = false) ->
  (forall e, occ_elem g e -> forall st n st', build_elem call e st = Some (n, st') -> b_err st = false -> b_err st' = false) /\
  (forall r, occ_rep g r -> forall st n st', build_rep call r st = Some (n, st') -> b_err st = false -> b_err st' = false).
Proof.
  intros Np Hc. apply elem_rep_ind.
  - intros n _. apply Hc.
  - intros a F O st n st'. rewrite build_group. apply build_alt_err. intros c x Ic Ix.
    rewrite Forall_forall in F. specialize (F c Ic). rewrite Forall_forall in F. apply (F x Ix). eapply occ_rep_group; eassumption.
  - intros a F O st n st'. rewrite build_option. destruct (build_alt call a st) as [[y s1]|] eqn:E; [|discriminate]. intros K. injection K as <- <-.
    revert E. apply build_alt_err. intros c x Ic Ix.
    rewrite Forall_forall in F. specialize (F c Ic). rewrite Forall_forall in F. apply (F x Ix). eapply occ_rep_option; eassumption.
  - intros s vs _ st n st' E. injection E as <- <-. auto.
  - intros b k es _ st n st' E. injection E as <- <-. auto.
  - intros vs O. exfalso. exact (Np vs O).
  - intros mn mx e IH O st n st'. change (build_rep call (Rep mn mx e) st) with
      (match build_elem call e st with Some (n, st') => Some (RRepeat n mn mx, st') | None => None end).
    destruct (build_elem call e st) as [[y s1]|] eqn:E; [|discriminate]. intros K. injection K as <- <-.
    revert E. apply IH. econstructor. exact O.
Qed.
Lemma rule_err g fuel : (forall v, ~ occ_elem g (EProse v)) ->
  forall n st x st', build_rule fuel g n st = Some (x, st') -> b_err st = false -> b_err st' = false.
Proof.
  intros Np. induction fuel as [|f IH]; intros n st x st' E Er; [discriminate|]. cbn [build_rule] in E.
  destruct (memo_get _ _); [injection E as <- <-; exact Er|].
  destruct (get_rule n g) as [r|] eqn:G; [|injection E as <- <-; exact Er].
  destruct (build_alt (build_rule f g) (rule_alt r) st) as [[y s1]|] eqn:Eb; [|discriminate]. injection E as <- <-. cbn [b_err].
  revert Eb Er. apply build_alt_err. intros c z Ic Iz. apply (proj2 (elem_err g _ Np IH)).
  eapply occ_alt_reps; [eapply occ_alt_rule; exact G|exact Ic|exact Iz].
Qed.

Theorem C24_regex_outcome : forall fuel g order n, distinct_names g -> key_order (dependency_graph g) order ->
  (length (names g) < fuel)%nat -> (forall v, ~ occ_elem g (EProse v)) ->
  match regex fuel g order 0 n with
  | Regex_text _ => (exists a, resolves g n a) /\ ~ exists m, clos_refl_trans _ (gref g) n m /\ clos_trans _ (gref g) m m
  | Regex_cyclic => exists m, clos_refl_trans _ (gref g) n m /\ clos_trans _ (gref g) m m
  | Regex_not_found => forall a, ~ resolves g n a
  | Regex_prose | Regex_too_large | Regex_fuel => False
  end.
Proof.
  intros fuel g order n D O F Np. unfold regex. pose proof (C20_rule_contains_cycle_exact g order n D O) as C.
  destruct (rule_contains_cycle g order n) as [|[]|]; [exact C|apply C; reflexivity| |exact C].
  destruct C as [C1 C2].
  assert (A : ~ exists m, clos_refl_trans _ (gref g) n m /\ clos_trans _ (gref g) m m) by (rewrite <- C2; discriminate).
  pose proof C1 as C1'. apply get_rule_some in C1' as (r & G). rewrite G.
  pose proof (build_ends g D fuel n r (mkB [] false) G A F) as Ends.
  destruct (build_alt (build_rule fuel g) (rule_alt r) (mkB [] false)) as [[x st]|] eqn:Eb; [|congruence].
  assert (Er : b_err st = false).
  { revert Eb. generalize (eq_refl (b_err (mkB [] false))). change (b_err (mkB [] false)) with false at 1. intros _ Eb.
    apply (build_alt_err (build_rule fuel g) (rule_alt r)) with (st := mkB [] false) (n := x); [|exact Eb|reflexivity].
    intros c z Ic Iz. apply (proj2 (elem_err g _ Np (rule_err g fuel Np))).
    eapply occ_alt_reps; [eapply occ_alt_rule; exact G|exact Ic|exact Iz]. }
  rewrite Er. cbn zeta. destruct (render_text 0 (simplify x)) as [R _].
  rewrite (proj2 R); [split; assumption|]. unfold fits. lia.
Qed.

(** ** C46 *)
(** A limit only turns texts that are too long into an error. *)
Theorem C46_max_len : forall fuel g order max n,
  regex fuel g order max n =
    match regex fuel g order 0 n with
    | Regex_text t => if (0 <? max) && (max <? Z.of_nat (length t)) then Regex_too_large else Regex_text t
    | r => r
    end.
Proof.
  intros fuel g order max n. unfold regex. destruct (rule_contains_cycle g order n) as [|[]|]; try reflexivity.
  destruct (get_rule n g) as [r|]; [|reflexivity].
  destruct (build_alt (build_rule fuel g) (rule_alt r) (mkB [] false)) as [[x st]|]; [|reflexivity].
  destruct (b_err st); [reflexivity|]. cbn zeta.
  destruct (render_text 0 (simplify x)) as [R0 T0]. destruct (render_text max (simplify x)) as [R T].
  assert (E0 : r_err (render 0 (simplify x) 1 (mkR 0 false [])) = false) by (apply R0; left; lia).
  rewrite E0, (T0 E0). fold (len (re_text (simplify x) 1)).
  destruct (r_err (render max (simplify x) 1 (mkR 0 false []))) eqn:E.
  - destruct (Z.ltb_spec 0 max), (Z.ltb_spec max (len (re_text (simplify x) 1))); cbn [andb]; try reflexivity;
      (exfalso; assert (K : true = false) by (apply R; unfold fits; lia); discriminate).
  - rewrite (T eq_refl). assert (K : fits max (len (re_text (simplify x) 1))) by (apply R; reflexivity). unfold fits in K.
    destruct (Z.ltb_spec 0 max), (Z.ltb_spec max (len (re_text (simplify x) 1))); cbn [andb]; try reflexivity; lia.
Qed.
Corollary C46_max_len_bound : forall fuel g order max n t, 0 < max ->
  regex fuel g order max n = Regex_text t -> Z.of_nat (length t) <= max.
Proof.
  intros fuel g order max n t M E. rewrite C46_max_len in E. destruct (regex fuel g order 0 n); try discriminate.
  rewrite (proj2 (Z.ltb_lt 0 max) M) in E. cbn [andb] in E. destruct (Z.ltb_spec max (Z.of_nat (length t0))); [discriminate|]. injection E as <-. assumption.
Qed.

(** ** Cases *)
Definition g24 : grammar :=
  [mkRule "line" [[Rep 1 1 (ERule "verb"); Rep 1 3 (EGroup [[Rep 1 1 (EChar false [44])]; [Rep 1 1 (ERule "Digit")]; [Rep 1 1 (ERule "sub")]]);
                   Rep 1 1 (EOption [[Rep 2 inf (ERule "END")]])]];
   mkRule "verb" [[Rep 1 1 (EChar false [71; 111])]; [Rep 1 1 (EChar true [42])]; [Rep 1 1 (ENum "x" StatSeries ["E9"; "2E"])]];
   mkRule "sub" [[Rep 1 1 (ENum "x" StatRange ["61"; "66"])]; [Rep 1 1 (ENum "d" StatRange ["2000000"; "3000000"])]];
   mkRule "end" [[Rep 1 1 (EChar true [33]); Rep 0 inf (ERule "verb")]]].
Definition keys (g : grammar) : list string := map fst (dependency_graph g).
Definition refs_okb (g : grammar) : bool :=
  forallb (fun r => forallb (fun d => match get_rule d g with Some _ => true | None => false end) (get_dependencies (rule_alt r))) g.
Lemma refs_okb_spec g : refs_okb g = true -> refs_defined g.
Proof.
  unfold refs_okb. rewrite forallb_forall. intros H r n I R. specialize (H r I). rewrite forallb_forall in H.
  assert (X : In (lower n) (get_dependencies (rule_alt r))) by (apply get_dependencies_spec; eauto).
  specialize (H _ X). rewrite (LowerLang.get_rule_lower (lower n) n g) in H by apply lower_lower.
  destruct (get_rule n g) as [r'|] eqn:G; [|discriminate]. apply get_rule_some. eauto.
Qed.
Lemma listed g (P : rep -> bool) : forallb P (grammar_reps g) = true -> forall r x, In r g -> rep_in (rule_alt r) x -> P x = true.
Proof.
  rewrite forallb_forall. intros H r x I R. apply H. apply occ_rep_listed, occ_rep_in. exists r. split; [apply in_or_app; auto|exact R].
Qed.
Definition small_repb (lim : Z) (x : rep) : bool :=
  match x with Rep mn mx e => ((mx =? inf) || (mn <=? mx)) && (mn <=? lim) && (mx <=? lim) &&
    match e with ENum b StatRange [lo; hi] => match numeral b lo with Some v => (v <? 0xD800) || (0x10FFFF <? v) | None => true end | _ => true end end.
Lemma small_facts lim g : forallb (small_repb lim) (grammar_reps g) = true -> bounds_ordered g /\ counts_within lim g /\ no_lone_surrogate g.
Proof.
  intros H. pose proof (listed g _ H) as K. unfold small_repb in K. split; [|split].
  - intros r mn mx e I R N. specialize (K r _ I R). cbn beta iota in K. rewrite !andb_true_iff, orb_true_iff, !Z.leb_le, Z.eqb_eq in K. tauto.
  - intros r mn mx e I R. specialize (K r _ I R). cbn beta iota in K. rewrite !andb_true_iff, !Z.leb_le in K. tauto.
  - intros r mn mx b lo hi v I R E1 E2 V. specialize (K r _ I R). cbn beta iota in K. rewrite E1 in K.
    rewrite !andb_true_iff, (orb_true_iff (v <? _)), !Z.ltb_lt in K. destruct K as [_ K].
    pose proof (numeral_nonneg _ _ _ E1). unfold scalar. lia.
Qed.
Lemma keys_order g : key_order (dependency_graph g) (keys g).
Proof. intros x. reflexivity. Qed.

Example C24_C25_C46_case :
  wf_grammar g24 /\ lex_grammar g24 = true /\ refs_defined g24 /\ bounds_ordered g24 /\ counts_within 1000 g24 /\ no_lone_surrogate g24 /\
  (forall v, ~ occ_elem g24 (EProse v)) /\
  regex 30 g24 (keys g24) 74 "line" =
    Regex_text (bytes "(?:\*|[Gg][Oo]|" ++ [195; 169] ++ bytes "\.)[\x{2c}0-9a-f]{1,3}(?:(?:!(?:\*|[Gg][Oo]|" ++ [195; 169] ++ bytes "\.)*){2,})?") /\
  regex 30 g24 (keys g24) 73 "line" = Regex_too_large /\
  (exists w, Lang g24 "line" w) /\ (length (names g24) < 30)%nat.
Proof.
  split; [apply wf_grammarb_spec; vm_compute; reflexivity|]. split; [vm_compute; reflexivity|].
  split; [apply refs_okb_spec; vm_compute; reflexivity|].
  destruct (small_facts 1000 g24 ltac:(vm_compute; reflexivity)) as (S1 & S2 & S3).
  split; [exact S1|]. split; [exact S2|]. split; [exact S3|]. split.
  { intros v O. inversion O as [mn mx e O1]; subst. apply occ_rep_listed in O1.
    assert (X : forallb (fun x => match rep_elem x with EProse _ => false | _ => true end) (grammar_reps g24) = true) by (vm_compute; reflexivity).
    rewrite forallb_forall in X. specialize (X _ O1). discriminate X. }
  split; [vm_compute; reflexivity|]. split; [vm_compute; reflexivity|].
  split; [|vm_compute; lia].
  exists [42; 44]. apply (lang_user g24 "line" (mkRule "line" [[Rep 1 1 (ERule "verb"); Rep 1 3 (EGroup [[Rep 1 1 (EChar false [44])]; [Rep 1 1 (ERule "Digit")]; [Rep 1 1 (ERule "sub")]]);
                   Rep 1 1 (EOption [[Rep 2 inf (ERule "END")]])]])); [apply wf_distinct; vm_compute; reflexivity|reflexivity|].
  econstructor; [left; reflexivity|].
  apply (in_cat_cons g24 _ _ [42] [44]).
  - apply (in_rep_intro g24 1 1 _ 1 [42]); [lia|right; lia|]. apply (in_pow_S g24 _ 0 [42] []); [|constructor].
    eapply in_rule; [left; exists (mkRule "verb" [[Rep 1 1 (EChar false [71; 111])]; [Rep 1 1 (EChar true [42])]; [Rep 1 1 (ENum "x" StatSeries ["E9"; "2E"])]]); split; [right; left; reflexivity|split; reflexivity]|].
    econstructor; [right; left; reflexivity|]. apply (in_cat_cons g24 _ _ [42] []); [|constructor].
    apply (in_rep_intro g24 1 1 _ 1 [42]); [lia|right; lia|]. apply (in_pow_S g24 _ 0 [42] []); [|constructor].
    apply (in_char g24 true [42] [42]); repeat constructor; lia.
  - apply (in_cat_cons g24 _ _ [44] []).
    + apply (in_rep_intro g24 1 3 _ 1 [44]); [lia|right; lia|]. apply (in_pow_S g24 _ 0 [44] []); [|constructor].
      apply in_group. econstructor; [left; reflexivity|]. apply (in_cat_cons g24 _ _ [44] []); [|constructor].
      apply (in_rep_intro g24 1 1 _ 1 [44]); [lia|right; lia|]. apply (in_pow_S g24 _ 0 [44] []); [|constructor].
      apply (in_char g24 false [44] [44]); repeat constructor; lia.
    + apply (in_cat_cons g24 _ _ [] []); [|constructor].
      apply (in_rep_intro g24 1 1 _ 1 []); [lia|right; lia|]. apply (in_pow_S g24 _ 0 [] []); [|constructor]. apply in_option_none.
Qed.

(** ** What fails without the hypotheses *)
(** An undefined rule is taken to match the empty text. *)
Definition g_undef : grammar := [mkRule "a" [[Rep 1 1 (EChar true [120]); Rep 1 1 (ERule "b")]]].
Theorem C24_undefined_refuted : exists g n t x w, wf_grammar g /\ lex_grammar g = true /\ bounds_ordered g /\
  regex 30 g (keys g) 0 n = Regex_text t /\ reads 1000 t x /\ matches x w /\ ~ Lang g n w.
Proof.
  exists g_undef, "a", [120], (XCat (XChars false [(120, 120)]) XEmpty), [120].
  split; [apply wf_grammarb_spec; vm_compute; reflexivity|]. split; [vm_compute; reflexivity|].
  split; [apply (small_facts 1000); vm_compute; reflexivity|]. split; [vm_compute; reflexivity|].
  split; [exists 5%nat; vm_compute; reflexivity|]. split.
  - exists [120]. split; [|reflexivity]. exists [120], []. split; [reflexivity|]. split; [|reflexivity].
    exists 120. split; [reflexivity|]. split; [unfold scalar; lia|]. exists 120, 120. split; [left; reflexivity|lia].
  - intros H. apply (lang_user g_undef "a" _ _ ltac:(apply wf_distinct; vm_compute; reflexivity) eq_refl) in H.
    inversion H as [c ? ? I K]; subst. destruct I as [<-|[]]. inversion K as [|? ? w1 w2 K1 K2]; subst.
    inversion K2 as [|? ? w3 w4 K3 K4]; subst. inversion K3 as [? ? ? k ? B1 B2 P]; subst. destruct k; [lia|].
    inversion P as [|? ? w5 w6 P1 P2]; subst. inversion P1 as [? a ? R _| | | | | |]; subst.
    assert (X : exists a, resolves g_undef "b" a) by eauto. apply get_rule_some in X as (r & G). discriminate G.
Qed.
(** Bounds in the wrong order: the empty text is matched, the language is empty. *)
Definition g_rev : grammar := [mkRule "a" [[Rep 3 1 (EChar true [])]]].
Theorem C24_reversed_bounds_refuted : exists g n t x w, wf_grammar g /\ lex_grammar g = true /\ refs_defined g /\
  regex 30 g (keys g) 0 n = Regex_text t /\ reads 1000 t x /\ matches x w /\ ~ Lang g n w.
Proof.
  exists g_rev, "a", (bytes "(?:)"), (XCat XEmpty XEmpty), [].
  split; [apply wf_grammarb_spec; vm_compute; reflexivity|]. split; [vm_compute; reflexivity|].
  split; [apply refs_okb_spec; vm_compute; reflexivity|]. split; [vm_compute; reflexivity|].
  split; [exists 7%nat; vm_compute; reflexivity|]. split.
  - exists []. split; [|reflexivity]. exists [], []. split; [reflexivity|]. split; reflexivity.
  - intros H. apply (lang_user g_rev "a" _ _ ltac:(apply wf_distinct; vm_compute; reflexivity) eq_refl) in H.
    inversion H as [c ? ? I K]; subst. destruct I as [<-|[]]. inversion K as [|? ? w1 w2 K1 K2]; subst.
    inversion K1 as [? ? ? k ? B1 B2 P]; subst. unfold inf in B2. lia.
Qed.
(** A range of one surrogate: its text is U+FFFD, which is matched. *)
Definition g_sur : grammar := [mkRule "a" [[Rep 1 1 (ENum "x" StatRange ["D800"; "D800"])]]].
Theorem C25_lone_surrogate_refuted : exists g n t x w, wf_grammar g /\ lex_grammar g = true /\ refs_defined g /\ bounds_ordered g /\ counts_within 1000 g /\
  regex 30 g (keys g) 0 n = Regex_text t /\ reads 1000 t x /\ matches x w /\ ~ Lang g n w.
Proof.
  exists g_sur, "a", [239; 191; 189], (XCat (XChars false [(0xFFFD, 0xFFFD)]) XEmpty), [239; 191; 189].
  split; [apply wf_grammarb_spec; vm_compute; reflexivity|]. split; [vm_compute; reflexivity|].
  split; [apply refs_okb_spec; vm_compute; reflexivity|].
  split. { intros r mn mx e [<-|[]] R N. inversion R as [? c x I1 I2|? c mn' mx' b x I1 I2|? c mn' mx' b x I1 I2]; subst; destruct I1 as [<-|[]]; destruct I2 as [E|[]]; inversion E; subst; lia. }
  split. { intros r mn mx e [<-|[]] R. inversion R as [? c x I1 I2|? c mn' mx' b x I1 I2|? c mn' mx' b x I1 I2]; subst; destruct I1 as [<-|[]]; destruct I2 as [E|[]]; inversion E; subst; lia. }
  split; [vm_compute; reflexivity|]. split; [exists 5%nat; vm_compute; reflexivity|]. split.
  - exists [0xFFFD]. split; [|reflexivity]. exists [0xFFFD], []. split; [reflexivity|]. split; [|reflexivity].
    exists 0xFFFD. split; [reflexivity|]. split; [unfold scalar; lia|]. exists 0xFFFD, 0xFFFD. split; [left; reflexivity|lia].
  - intros H. apply (lang_user g_sur "a" _ _ ltac:(apply wf_distinct; vm_compute; reflexivity) eq_refl) in H.
    inversion H as [c ? ? I K]; subst. destruct I as [<-|[]]. inversion K as [|? ? w1 w2 K1 K2]; subst.
    inversion K1 as [? ? ? k ? B1 B2 P]; subst. destruct k; [lia|]. inversion P as [|? ? w3 w4 P1 P2]; subst.
    inversion P1 as [| | | | | |? ? ? l h r E1 E2 B S]; subst. vm_compute in E1, E2. injection E1 as <-. injection E2 as <-.
    unfold scalar in S. lia.
Qed.
(** A count above what package regexp accepts: the text is not read. *)
Definition g_big : grammar := [mkRule "a" [[Rep 1001 1001 (ENum "x" StatSeries ["78"])]]].
Theorem C25_count_refuted : exists g n t, wf_grammar g /\ lex_grammar g = true /\ refs_defined g /\ bounds_ordered g /\ no_lone_surrogate g /\
  regex 30 g (keys g) 0 n = Regex_text t /\ forall x, ~ reads 1000 t x.
Proof.
  exists g_big, "a", (bytes "x{1001}").
  split; [apply wf_grammarb_spec; vm_compute; reflexivity|]. split; [vm_compute; reflexivity|].
  split; [apply refs_okb_spec; vm_compute; reflexivity|].
  destruct (small_facts 2000 g_big ltac:(vm_compute; reflexivity)) as (S1 & _ & S3).
  split; [exact S1|]. split; [exact S3|]. split; [vm_compute; reflexivity|].
  intros x (f & E). pose proof (proj1 (p_mono 1000 f (3 + f) ltac:(lia)) _ _ E) as E'. vm_compute in E'. discriminate E'.
Qed.

Print Assumptions C24_build_denotes_partial.
Print Assumptions C24_C25_regex_text_partial.
Print Assumptions C24_regex_outcome.
Print Assumptions C25_render_reads.
Print Assumptions C46_max_len.
Print Assumptions C46_max_len_bound.
Print Assumptions C24_undefined_refuted.
Print Assumptions C24_reversed_bounds_refuted.
Print Assumptions C25_lone_surrogate_refuted.
Print Assumptions C25_count_refuted.
