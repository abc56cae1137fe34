(** Claims C29, C30, C49: Grammar.Generate. *)
(** The definitions here are those of statements, proofs and examples; they model no code. *)
From Coq Require Import ZArith Arith String Bool List Lia.
From Verif Require Import Syntax Spec Utf8 Num Term Printer Check PropTerm Slots LowerLang PropSem TreeSound Occ PrintInj TreeSpec PropDag LeftRec RecogGlue PropRecog Deps Generate.
Import ListNotations.
Local Open Scope string_scope.
Local Open Scope list_scope.
Local Open Scope Z_scope.

(** ** Specification *)
(** Elements that generation can render: characters are Unicode scalar values;
    no prose.  Of a range only the first sixteen values are ever drawn. *)
Definition renderable (e : elem) : Prop :=
  match e with
  | EChar _ vs => Forall scalar vs
  | ENum b StatSeries es => Forall (fun s => exists v, numeral b s = Some v /\ scalar v) es
  | ENum b StatRange [lo; hi] => exists l h, numeral b lo = Some l /\ numeral b hi = Some h /\ l <= h /\ l <= 0x10FFFF /\
      forall r, l <= r <= Z.min h (Z.min 0x10FFFF (l + 15)) -> scalar r
  | ENum _ StatRange _ => False
  | EProse _ => False
  | _ => True
  end.
Definition generable (g : grammar) : Prop :=
  forall mn mx e, occ_rep g (Rep mn mx e) -> 0 <= mn /\ (mx = inf \/ mn <= mx) /\ renderable e.

(** ** Proofs *)
Lemma num_rune b s v : numeral b s = Some v -> v <= 0x10FFFF -> numval_to_rune s b = v.
Proof.
  intros N L. unfold numval_to_rune. rewrite (numval_to_int32_spec _ _ _ N). unfold MaxInt32. lia.
Qed.

Lemma rune_max_fold v : fold_case (rune_max v) = fold_case v.
Proof.
  unfold rune_max. destruct ((97 <=? v) && (v <=? 122))%bool eqn:E; auto.
  apply andb_true_iff in E as [A B]. apply Z.leb_le in A, B. unfold fold_case.
  destruct ((65 <=? v - 97 + 65) && (v - 97 + 65 <=? 90))%bool eqn:E1;
  destruct ((65 <=? v) && (v <=? 90))%bool eqn:E2; rewrite ?andb_true_iff, ?andb_false_iff, ?Z.leb_le, ?Z.leb_gt in *; lia.
Qed.
Lemma rune_max_scalar v : scalar v -> scalar (rune_max v).
Proof.
  unfold rune_max, scalar. destruct ((97 <=? v) && (v <=? 122))%bool eqn:E; auto.
  apply andb_true_iff in E as [A B]. apply Z.leb_le in A, B. lia.
Qed.

Section Lang.
  Variable g : grammar.
  Variable rnd : nat -> Z.
  Variable rm thr : Z.
  Hypothesis Rn : forall t, 0 <= rnd t.
  Hypothesis Gb : generable g.

  Definition adds (s s' : gstate) (P : list Z -> Prop) : Prop := exists w, g_out s' = g_out s ++ w /\ P w.

  Lemma gen_char_lang sens vs : Forall scalar vs -> forall s,
    adds s (gen_char rnd sens vs s) (in_elem g (EChar sens vs)).
  Proof.
    intros F s.
    assert (G : exists rs, g_out (gen_char rnd sens vs s) = g_out s ++ utf8s rs /\ Forall2 (char_ok sens) vs rs /\ Forall scalar rs).
    { revert s. induction F as [|v vs V F IH]; intros s.
      - exists []. cbn. rewrite app_nil_r. auto.
      - unfold gen_char. cbn [fold_left]. set (s1 := if sens then _ else _).
        destruct (IH s1) as (rs & E & F2 & Sc). unfold gen_char in E. rewrite E.
        assert (X : exists r, g_out s1 = g_out s ++ utf8 r /\ char_ok sens v r /\ scalar r).
        { subst s1. destruct sens.
          - exists v. cbn [append_rune g_out]. rewrite string_of_rune_utf8 by auto. split; auto. split; [reflexivity|auto].
          - cbn [append_rune g_out]. destruct (Z.rem (rnd (g_tick s)) 2 =? 0).
            + exists (rune_max v). rewrite string_of_rune_utf8 by (apply rune_max_scalar; auto). split; auto.
              split; [unfold char_ok; rewrite rune_max_fold; auto|apply rune_max_scalar; auto].
            + exists v. rewrite string_of_rune_utf8 by auto. split; auto. split; [reflexivity|auto]. }
        destruct X as (r & Er & C & S). exists (r :: rs). rewrite Er, <- app_assoc. split; [reflexivity|]. split; constructor; auto. }
    destruct G as (rs & E & F2 & Sc). exists (utf8s rs). split; auto. constructor; auto.
  Qed.

  Lemma gen_num_lang b st es s s' : renderable (ENum b st es) -> gen_num rnd b st es s = G_ok s' ->
    adds s s' (in_elem g (ENum b st es)).
  Proof.
    intros R E. destruct st; cbn in R.
    - cbn in E. inversion E; subst. clear E.
      assert (G : exists rs, g_out (fold_left (fun s v => let r := numval_to_rune v b in if valid_rune r then append_rune s r else s) es s)
                 = g_out s ++ utf8s rs /\ Forall2 (fun s v => numeral b s = Some v) es rs /\ Forall scalar rs).
      { revert s. induction R as [|x es (v & Nv & Sv) R IH]; intros s.
        - exists []. cbn. rewrite app_nil_r. auto.
        - cbn [fold_left]. cbv zeta in *.
          assert (Ev : numval_to_rune x b = v) by (apply num_rune; auto; destruct Sv; lia). rewrite Ev.
          rewrite (proj2 (valid_rune_scalar v) Sv).
          destruct (IH (append_rune s v)) as (rs & E & F2 & Sc). exists (v :: rs).
          rewrite E. cbn [append_rune g_out]. rewrite string_of_rune_utf8 by auto. rewrite <- app_assoc. split; [reflexivity|].
          split; constructor; auto. }
      destruct G as (rs & E & F2 & Sc). exists (utf8s rs). split; auto. constructor; auto.
    - destruct es as [|lo [|hi [|? ?]]]; try contradiction. destruct R as (l & h & Nl & Nh & L1 & L2 & Sc).
      cbn [gen_num] in E. pose proof (num_rune b lo l Nl L2) as El. rewrite El in E.
      pose proof (numeral_nonneg _ _ _ Nl) as Pl. pose proof (numeral_nonneg _ _ _ Nh) as Ph.
      assert (Eh : (if 0x10FFFF <? numval_to_rune hi b then 0x10FFFF else numval_to_rune hi b) = Z.min h 0x10FFFF).
      { unfold numval_to_rune. rewrite (numval_to_int32_spec _ _ _ Nh). unfold MaxInt32.
        destruct (Z.ltb_spec 0x10FFFF (Z.min h 2147483647)); lia. }
      rewrite Eh in E. clear Eh. destruct (Z.leb_spec l 0x10FFFF); [|lia]. destruct (Z.leb_spec l (Z.min h 0x10FFFF)); [|lia].
      cbn [andb] in E. injection E as <-. clear El.
      set (r := l + Z.rem (rnd (g_tick s) mod 16) (Z.min h 0x10FFFF - l + 1)).
      assert (B : l <= r <= Z.min h (Z.min 0x10FFFF (l + 15))).
      { assert (0 <= rnd (g_tick s) mod 16 < 16) by (apply Z.mod_pos_bound; lia).
        assert (0 <= Z.rem (rnd (g_tick s) mod 16) (Z.min h 0x10FFFF - l + 1) < Z.min h 0x10FFFF - l + 1) by (apply Z.rem_bound_pos; lia).
        assert (Z.rem (rnd (g_tick s) mod 16) (Z.min h 0x10FFFF - l + 1) <= rnd (g_tick s) mod 16) by (apply Z.rem_le; lia). lia. }
      exists (utf8 r). split; [unfold append_rune; cbn [g_out]; rewrite string_of_rune_utf8; auto|].
      econstructor; eauto. lia.
  Qed.

  Variable rec : alternation -> gstate -> gres.
  Hypothesis Hrec : forall a s s', (forall c x, In c a -> In x c -> occ_rep g x) -> rec a s = G_ok s' -> adds s s' (in_alt g a).

  Lemma gen_elem_lang e s s' : occ_elem g e -> renderable e -> gen_elem g rnd rec e s = G_ok s' -> adds s s' (in_elem g e).
  Proof.
    intros O R E. destruct e as [n|a|a|sens vs|b st es|v]; cbn [gen_elem] in E.
    - destruct (get_rule n g) as [r|] eqn:G; [|discriminate]. pose proof (get_rule_to _ _ _ G) as Rt.
      destruct (Hrec _ _ _ (fun c x H1 H2 => occ_rep_rule g r c x ltac:(apply in_app_iff; destruct Rt as [[I _]|(_ & I & _)]; auto) H1 H2) E)
        as (w & Ew & Lw). exists w. split; auto. econstructor; [|exact Lw].
      destruct Rt as [[A1 A2]|(A0 & A1 & A2)]; [left|right; split; auto]; exists r; auto.
    - destruct (Hrec _ _ _ (fun c x H1 H2 => occ_rep_group g a c x O H1 H2) E) as (w & Ew & Lw).
      exists w. split; auto. constructor; auto.
    - destruct (Z.rem (rnd (g_tick s)) 2 =? 0).
      + destruct (Hrec _ _ _ (fun c x H1 H2 => occ_rep_option g a c x O H1 H2) E) as (w & Ew & Lw).
        exists w. split; auto. apply in_option_some; auto.
      + inversion E; subst. exists []. cbn. rewrite app_nil_r. split; auto. constructor.
    - inversion E; subst. apply gen_char_lang; auto.
    - eapply gen_num_lang; eauto.
    - destruct R.
  Qed.

  Lemma gen_loop_lang e torep mn : occ_elem g e -> renderable e -> forall n i s s', 0 <= i -> n = Z.to_nat (torep - i) ->
    gen_loop g rnd thr rec n i torep mn e s = G_ok s' ->
    exists m, adds s s' (in_pow g e m) /\ (m = n \/ (i = 0 /\ mn = 0 /\ m = 0%nat)).
  Proof.
    intros O R n. induction n as [|n IH]; intros i s s' Hi En E; cbn [gen_loop] in E.
    - inversion E; subst. exists 0%nat. split; [|auto]. exists []. rewrite app_nil_r. split; auto. constructor.
    - destruct (keep_going i torep mn (Z.of_nat (length (g_out s))) thr) eqn:K.
      + destruct (gen_elem g rnd rec e s) as [s1| |] eqn:E1; try discriminate.
        destruct (gen_elem_lang _ _ _ O R E1) as (w1 & Ew1 & L1).
        destruct (IH (i + 1) s1 s' ltac:(lia) ltac:(lia) E) as (m & (w & Ew & L) & [->|(X & _)]); [|lia].
        exists (S n). split; [|auto]. exists (w1 ++ w). rewrite Ew, Ew1, app_assoc. split; auto. constructor; auto.
      + inversion E; subst. exists 0%nat. split; [exists []; rewrite app_nil_r; split; [auto|constructor]|].
        unfold keep_going in K. destruct ((i =? 0) && (mn =? 0) && (thr <=? Z.of_nat (length (g_out s'))))%bool eqn:C.
        * right. apply andb_true_iff in C as [C _]. apply andb_true_iff in C as [C1 C2]. apply Z.eqb_eq in C1, C2. auto.
        * apply Z.ltb_ge in K. lia.
  Qed.

  Lemma gen_cat_lang c : (forall x, In x c -> occ_rep g x) -> forall s s', gen_cat g rnd rm thr rec c s = G_ok s' ->
    adds s s' (in_cat g c).
  Proof.
    induction c as [|[mn mx e] c IH]; intros O s s' E; cbn [gen_cat] in E.
    - inversion E; subst. exists []. rewrite app_nil_r. split; auto. constructor.
    - pose proof (O _ (or_introl eq_refl)) as Or. destruct (Gb _ _ _ Or) as (M0 & Mb & Re).
      set (rmx := if mx =? inf then rm else mx) in *. destruct (Z.eqb_spec (rmx - mn + 1) 0) as [|Nk]; [discriminate|].
      set (tr := mn + Z.rem (rnd (g_tick s)) (rmx - mn + 1)) in *.
      destruct (gen_loop g rnd thr rec (Z.to_nat tr) 0 tr mn e (mkG (g_out s) (S (g_tick s)))) as [s1| |] eqn:El; try discriminate.
      apply gen_loop_lang in El as (m & (w & Ew & L) & Hm); [|econstructor; eauto|auto|lia|f_equal; lia].
      cbn [g_out] in Ew. destruct (IH (fun x H => O x (or_intror H)) _ _ E) as (w2 & Ew2 & L2).
      exists (w ++ w2). rewrite Ew2, Ew, app_assoc. split; auto. constructor; auto.
      assert (T1 : mn <= tr).
      { pose proof (Z.rem_nonneg (rnd (g_tick s)) (rmx - mn + 1) Nk (Rn _)). lia. }
      assert (T2 : mx = inf \/ tr <= mx).
      { destruct (Z.eqb_spec mx inf) as [->|Ni]; [auto|right]. destruct Mb as [|Mb]; [easy|].
        pose proof (Z.rem_bound_pos (rnd (g_tick s)) (rmx - mn + 1) (Rn _) ltac:(subst rmx; lia)). subst rmx. lia. }
      econstructor; [| |exact L].
      + destruct Hm as [->|(_ & -> & ->)]; lia.
      + destruct Hm as [->|(_ & -> & ->)]; [|destruct Mb; [auto|right; lia]]. destruct T2; [auto|right; lia].
  Qed.

  Lemma gen_alt_with_lang a s s' : (forall c x, In c a -> In x c -> occ_rep g x) ->
    gen_alt_with g rnd rm thr rec a s = G_ok s' -> adds s s' (in_alt g a).
  Proof.
    intros O E. unfold gen_alt_with in E. cbv zeta in E. destruct a as [|c0 a]; [discriminate|].
    match type of E with match ?o with _ => _ end = _ => set (q := o) in E; assert (N : q = o) by reflexivity end.
    destruct q as [c|]; [|discriminate]. symmetry in N. apply nth_error_In in N.
    apply gen_cat_lang in E as (w & Ew & L); [|intros; eapply O; eauto]. exists w. split; auto. econstructor; eauto.
  Qed.
End Lang.

Lemma gen_alt_lang g rnd rm thr : (forall t, 0 <= rnd t) -> generable g -> forall fuel a s s',
  (forall c x, In c a -> In x c -> occ_rep g x) -> gen_alt fuel g rnd rm thr a s = G_ok s' -> adds s s' (in_alt g a).
Proof.
  intros Rn Gb fuel. induction fuel as [|f IH]; intros a s s' O E; cbn [gen_alt] in E; [discriminate|].
  eapply gen_alt_with_lang; eauto.
Qed.

(** ** C29 *)
(** Missing for the full statement: grammars with a bound below the minimum, a
    prose-val, or a num-val whose values are not all characters: each is refuted
    below.  Validation (SemvalABNF) only excludes the first. *)
Theorem C29_generate_in_language_partial : forall fuel rnd rep_max threshold g rulename out,
  (forall t, 0 <= rnd t) -> generable g ->
  generate fuel rnd rep_max threshold g rulename = Gen_ok out -> Lang g rulename out.
Proof.
  intros fuel rnd rm thr g n out Rn Gb E. unfold generate, check_can_generate in E.
  destruct (get_rule n g) as [r|] eqn:G; [|discriminate].
  destruct (check_alt fuel g [n] (rule_alt r)) as [|[|]| |]; try discriminate.
  destruct (gen_alt fuel g rnd rm thr (rule_alt r) (mkG [] 0)) as [s| |] eqn:Ea; try discriminate. inversion E; subst.
  pose proof (get_rule_to _ _ _ G) as Rt.
  apply gen_alt_lang in Ea as (w & Ew & L); auto.
  - cbn [g_out app] in Ew. rewrite Ew. econstructor; [|exact L].
    destruct Rt as [[A1 A2]|(A0 & A1 & A2)]; [left|right; split; auto]; exists r; auto.
  - intros c x C X. apply (occ_rep_rule g r c x); auto. apply in_app_iff. destruct Rt as [[I _]|(_ & I & _)]; auto.
Qed.

Definition renderableb (e : elem) : bool :=
  match e with
  | EChar _ vs => forallb valid_rune vs
  | ENum b StatSeries es => forallb (fun s => match numeral b s with Some v => valid_rune v | None => false end) es
  | ENum b StatRange [lo; hi] =>
      match numeral b lo, numeral b hi with
      | Some l, Some h => (l <=? h) && (h <=? 0x10FFFF) && ((h <? 0xD800) || (0xDFFF <? l))
      | _, _ => false
      end
  | ENum _ _ _ | EProse _ => false
  | _ => true
  end.
Definition generableb (g : grammar) : bool :=
  forallb (fun r => match r with Rep mn mx e => (0 <=? mn) && ((mx =? inf) || (mn <=? mx)) && renderableb e end) (grammar_reps g).
Lemma generableb_spec g : generableb g = true -> generable g.
Proof.
  intros H mn mx e O. apply occ_rep_listed in O. unfold generableb in H. rewrite forallb_forall in H. specialize (H _ O).
  cbn beta iota in H. apply andb_true_iff in H as [H R]. apply andb_true_iff in H as [H1 H2].
  apply Z.leb_le in H1. split; [auto|]. split.
  { apply orb_true_iff in H2 as [H2|H2]; [left; apply Z.eqb_eq; auto|right; apply Z.leb_le; auto]. }
  destruct e as [n|a|a|sens vs|b st es|v]; cbn [renderable renderableb] in *; auto.
  - rewrite forallb_forall in R. apply Forall_forall. intros x X. apply valid_rune_scalar. auto.
  - destruct st.
    + rewrite forallb_forall in R. apply Forall_forall. intros x X. specialize (R x X). cbn beta in R.
      destruct (numeral b x) as [v|]; [|discriminate]. exists v. split; auto. apply valid_rune_scalar. auto.
    + destruct es as [|lo [|hi [|? ?]]]; try discriminate.
      destruct (numeral b lo) as [l|] eqn:El; [|discriminate]. destruct (numeral b hi) as [h|] eqn:Eh; [|discriminate].
      apply andb_true_iff in R as [R R3]. apply andb_true_iff in R as [R1 R2]. apply Z.leb_le in R1, R2.
      exists l, h. split; auto. split; auto. split; auto. split; [lia|]. intros r B. pose proof (numeral_nonneg _ _ _ El).
      apply orb_true_iff in R3. rewrite !Z.ltb_lt in R3. unfold scalar. lia.
  - discriminate.
Qed.

Definition g29 : grammar :=
  [mkRule "a" [[Rep 2 4 (EChar false (bytes "ok")); Rep 0 inf (ERule "DIGIT")]; [Rep 1 1 (ENum "x" StatRange ["E9"; "FF"])]]].
Example C29_case :
  generable g29 /\ generate 50 (fun t => Z.of_nat (t * 13)) 16 256 g29 "A" = Gen_ok (bytes "OkOkOk56").
Proof. split; [apply generableb_spec; vm_compute; reflexivity|vm_compute; reflexivity]. Qed.


(** A prose-val is written as nothing. *)
Definition g_prose : grammar := [mkRule "a" [[one (lit "x")]; [one (EProse ["p"])]]].
Theorem C29_generate_in_language_refuted_prose : exists fuel rnd g rulename out,
  (forall t, 0 <= rnd t) /\ semval_abnf g g g = None /\
  generate fuel rnd 16 256 g rulename = Gen_ok out /\ ~ Lang g rulename out.
Proof.
  exists 5%nat, (fun _ => 1), g_prose, "a", []. split; [intros; lia|]. split; [vm_compute; reflexivity|].
  split; [vm_compute; reflexivity|]. intros H.
  apply (lang_user g_prose "a" (mkRule "a" [[one (lit "x")]; [one (EProse ["p"])]])) in H;
    [|apply wf_distinct; vm_compute; reflexivity|reflexivity].
  inversion H as [c a w I C]; subst. destruct I as [<-|[<-|[]]]; apply in_single in C.
  - apply (lit_inv _ 120) in C; [|lia]. destruct C; discriminate.
  - inversion C.
Qed.

(** A surrogate is written as U+FFFD. *)
Definition g_surr : grammar := [mkRule "a" [[one (ENum "x" StatRange ["D7FF"; "E000"])]]].
Theorem C29_generate_in_language_refuted_surrogate : exists fuel rnd g rulename out,
  (forall t, 0 <= rnd t) /\ semval_abnf g g g = None /\
  generate fuel rnd 16 256 g rulename = Gen_ok out /\ ~ Lang g rulename out.
Proof.
  exists 5%nat, (fun _ => 1), g_surr, "a", [0xEF; 0xBF; 0xBD]. split; [intros; lia|]. split; [vm_compute; reflexivity|].
  split; [vm_compute; reflexivity|]. intros H.
  apply (lang_user g_surr "a" (mkRule "a" [[one (ENum "x" StatRange ["D7FF"; "E000"])]])) in H;
    [|apply wf_distinct; vm_compute; reflexivity|reflexivity].
  inversion H as [c a w I C]; subst. destruct I as [<-|[]]. apply in_single in C.
  inversion C as [| | | | | |b lo hi l h r N1 N2 B Sc E1 E2]. subst b lo hi. cbn in N1, N2. injection N1 as <-. injection N2 as <-.
  assert (X : utf8 r = utf8 0xFFFD) by (rewrite E2; reflexivity).
  apply utf8_inj in X; [|auto|unfold scalar; lia]. subst r. lia.
Qed.

(** Reversed bounds (which validation excludes): [a = 5*3"x"] writes five. *)
Theorem C29_generate_in_language_refuted_bounds : exists fuel rnd g rulename out,
  (forall t, 0 <= rnd t) /\ generate fuel rnd 16 256 g rulename = Gen_ok out /\ ~ Lang g rulename out.
Proof.
  exists 5%nat, (fun _ => 0), [mkRule "a" [[Rep 5 3 (lit "x")]]], "a", (bytes "XXXXX"). split; [intros; lia|].
  split; [vm_compute; reflexivity|]. intros H.
  apply (lang_user _ "a" (mkRule "a" [[Rep 5 3 (lit "x")]])) in H; [|apply wf_distinct; vm_compute; reflexivity|reflexivity].
  inversion H as [c a w I C]; subst. destruct I as [<-|[]].
  inversion C as [|? ? w1 w2 R]; subst. inversion R as [? ? ? n w' B1 B2 P]; subst. unfold inf in B2. lia.
Qed.

(** ** C30 *)
Section NoPanic.
  Variable g : grammar.
  Variable rnd : nat -> Z.
  Variable rm thr : Z.
  Hypothesis Rn : forall t, 0 <= rnd t.
  (** The alternations of the grammar. *)
  Definition occ_alt (a : alternation) : Prop :=
    (exists r, In r (g ++ core_rules) /\ a = rule_alt r) \/ occ_elem g (EGroup a) \/ occ_elem g (EOption a).
  Hypothesis Alt : forall a, occ_alt a -> a <> [].
  Hypothesis Def : forall n, occ_elem g (ERule n) -> exists r, get_rule n g = Some r.
  Hypothesis Two : forall b es, occ_elem g (ENum b StatRange es) -> length es = 2%nat.
  Hypothesis Div : forall mn mx e, occ_rep g (Rep mn mx e) -> (if mx =? inf then rm else mx) - mn + 1 <> 0.

  Lemma occ_alt_reps a : occ_alt a -> forall c x, In c a -> In x c -> occ_rep g x.
  Proof.
    intros [(r & I & ->)|[O|O]] c x C X; [eapply occ_rep_rule|eapply occ_rep_group|eapply occ_rep_option]; eauto.
  Qed.
  Lemma occ_alt_rule n r : get_rule n g = Some r -> occ_alt (rule_alt r).
  Proof.
    intros G. left. exists r. split; auto. pose proof (get_rule_to _ _ _ G) as Rt.
    apply in_app_iff. destruct Rt as [[I _]|(_ & I & _)]; auto.
  Qed.

  Variable rec : alternation -> gstate -> gres.
  Hypothesis Hrec : forall a s, occ_alt a -> rec a s <> G_panic.

  Lemma gen_elem_no_panic e s : occ_elem g e -> gen_elem g rnd rec e s <> G_panic.
  Proof.
    intros O. destruct e as [n|a|a|sens vs|b st es|v]; cbn [gen_elem]; try discriminate.
    - destruct (Def n O) as (r & G). rewrite G. apply Hrec. eapply occ_alt_rule; eauto.
    - apply Hrec. right. left. auto.
    - destruct (Z.rem _ 2 =? 0); [|discriminate]. apply Hrec. right. right. auto.
    - destruct st; [discriminate|]. pose proof (Two _ _ O) as T. destruct es as [|x [|y [|]]]; try discriminate.
      cbn [gen_num]. cbv zeta. destruct (_ && _)%bool; discriminate.
  Qed.
  Lemma gen_loop_no_panic e : occ_elem g e -> forall n i torep mn s, gen_loop g rnd thr rec n i torep mn e s <> G_panic.
  Proof.
    intros O n. induction n as [|n IH]; intros i torep mn s; cbn [gen_loop]; [discriminate|].
    destruct (keep_going _ _ _ _ _); [|discriminate]. pose proof (gen_elem_no_panic e s O) as X.
    destruct (gen_elem g rnd rec e s); [auto|congruence|discriminate].
  Qed.
  Lemma gen_cat_no_panic c : (forall x, In x c -> occ_rep g x) -> forall s, gen_cat g rnd rm thr rec c s <> G_panic.
  Proof.
    induction c as [|[mn mx e] c IH]; intros O s; cbn [gen_cat]; [discriminate|]. cbv zeta.
    pose proof (O _ (or_introl eq_refl)) as Or. pose proof (Div _ _ _ Or) as D.
    destruct (Z.eqb_spec ((if mx =? inf then rm else mx) - mn + 1) 0) as [E|_]; [contradiction|].
    match goal with |- match ?l with _ => _ end <> _ => assert (X : l <> G_panic) by (apply gen_loop_no_panic; econstructor; eauto); destruct l end;
      [|congruence|discriminate].
    apply IH. intros x X'. apply O. right. auto.
  Qed.
  Lemma gen_alt_with_no_panic a s : occ_alt a -> gen_alt_with g rnd rm thr rec a s <> G_panic.
  Proof.
    intros O. unfold gen_alt_with. cbv zeta. destruct a as [|c0 a]; [exfalso; exact (Alt [] O eq_refl)|].
    match goal with |- match ?o with _ => _ end <> _ => set (q := o); assert (N : q = o) by reflexivity end.
    destruct q as [c|].
    - apply gen_cat_no_panic. symmetry in N. apply nth_error_In in N. intros x X. eapply occ_alt_reps; eauto.
    - symmetry in N. apply nth_error_None in N.
      pose proof (Z.rem_bound_pos (rnd (g_tick s)) (Z.of_nat (length (c0 :: a))) (Rn _) ltac:(cbn [length]; lia)). lia.
  Qed.

  (** The check does not panic either. *)
  Lemma seq_errs_no_panic l : ~ In C_panic l -> seq_errs l <> C_panic.
  Proof. induction l as [|[]]; cbn; intros H; try discriminate; auto. Qed.
  Lemma join_alt_no_panic l : ~ In C_panic l -> join_alt l <> C_panic.
  Proof.
    assert (X : forall l b, ~ In C_panic l -> join_errs l b <> C_panic).
    { clear. induction l as [|[]]; cbn [join_errs]; intros b H; try discriminate; auto.
      - destruct b; discriminate.
      - apply IHl. intros I. apply H. right. auto.
      - apply IHl. intros I. apply H. right. auto.
      - exfalso. apply H. left. auto. }
    intros H. destruct l; [discriminate|]. apply X. auto.
  Qed.
  Variable call : list string -> alternation -> cres.
  Hypothesis Hcall : forall k a, occ_alt a -> call k a <> C_panic.
  Lemma check_elem_no_panic known :
    (forall e, occ_elem g e -> check_elem g call known e <> C_panic) /\ (forall r, occ_rep g r -> check_rep g call known r <> C_panic).
  Proof.
    apply elem_rep_ind.
    - intros n O. cbn [check_elem]. destruct (existsb _ _); [discriminate|].
      destruct (Def n O) as (r & G). rewrite G. pose proof (Hcall (n :: known) (rule_alt r) (occ_alt_rule _ _ G)).
      destruct (call _ _) as [|[]| |]; try discriminate. congruence.
    - intros a F O. cbn [check_elem]. apply join_alt_no_panic. intros I. apply in_map_iff in I as (c & E & C). revert E.
      apply seq_errs_no_panic. intros I. apply in_map_iff in I as (x & E & X). revert E.
      rewrite Forall_forall in F. specialize (F c C). rewrite Forall_forall in F. apply F; auto. eapply occ_rep_group; eauto.
    - intros; discriminate.
    - intros; discriminate.
    - intros; discriminate.
    - intros; discriminate.
    - intros mn mx e IH O. cbn [check_rep]. destruct (mn =? 0); [discriminate|]. apply IH. econstructor; eauto.
  Qed.
  Lemma check_alt_with_no_panic known a : occ_alt a -> check_alt_with g call known a <> C_panic.
  Proof.
    intros O. apply join_alt_no_panic. intros I. apply in_map_iff in I as (c & E & C). revert E.
    apply seq_errs_no_panic. intros I. apply in_map_iff in I as (x & E & X). revert E.
    apply check_elem_no_panic. eapply occ_alt_reps; eauto.
  Qed.
End NoPanic.

(** What the C30 and C49 hypotheses give. *)
Lemma lex_facts g : lex_grammar g = true ->
  (forall a, occ_alt g a -> a <> []) /\
  (forall b es, occ_elem g (ENum b StatRange es) -> length es = 2%nat) /\
  (forall mn mx e, occ_rep g (Rep mn mx e) -> 0 <= mn).
Proof.
  intros L. destruct (lex_occ g L) as [Le Lr]. split; [|split].
  - intros a [(r & I & ->)|[O|O]].
    + assert (X : lex_alt (rule_alt r) = true).
      { apply in_app_iff in I as [I|I]; [|assert (C : lex_grammar core_rules = true) by (vm_compute; reflexivity)];
        [unfold lex_grammar in L; rewrite forallb_forall in L; specialize (L r I)
        |unfold lex_grammar in C; rewrite forallb_forall in C; specialize (C r I)];
        apply andb_true_iff in L || apply andb_true_iff in C; tauto. }
      intros E. rewrite E in X. discriminate.
    + apply Le in O. intros ->. discriminate.
    + apply Le in O. intros ->. discriminate.
  - intros b es O. apply Le in O. cbn [lex_elem] in O. unfold lex_num in O. apply andb_true_iff in O as [_ O]. apply Nat.eqb_eq. auto.
  - intros mn mx e O. apply Lr in O. cbn [lex_rep] in O. apply andb_true_iff in O as [O _]. apply andb_true_iff in O as [O _]. apply Z.leb_le. auto.
Qed.
Lemma bounds_facts g : lex_grammar g = true -> bounds_ordered g ->
  forall mn mx e, occ_rep g (Rep mn mx e) -> 0 <= mn /\ (mx = inf \/ mn <= mx).
Proof.
  intros L Bo mn mx e O. split; [eapply lex_facts; eauto|].
  destruct (Z.eqb_spec mx inf) as [->|Ni]; [auto|right].
  refine (_ (occ_split g (fun x => rep_max x <> inf -> rep_min x <= rep_max x) _ _ _ O Ni)); cbn [rep_min rep_max].
  - auto.
  - apply Forall_forall. intros x I.
    assert (C : forallb (fun x => (rep_max x =? inf) || (rep_min x <=? rep_max x))%bool (grammar_reps []) = true) by (vm_compute; reflexivity).
    rewrite forallb_forall in C. specialize (C x I). apply orb_true_iff in C. rewrite Z.eqb_eq, Z.leb_le in C. tauto.
  - intros r [mn' mx' e'] I Ri. cbn [rep_min rep_max]. eapply Bo; eauto.
Qed.
Lemma valid_facts g : lex_grammar g = true -> refs_defined g -> bounds_ordered g ->
  (forall a, occ_alt g a -> a <> []) /\
  (forall n, occ_elem g (ERule n) -> exists r, get_rule n g = Some r) /\
  (forall b es, occ_elem g (ENum b StatRange es) -> length es = 2%nat) /\
  (forall mn mx e, occ_rep g (Rep mn mx e) -> 0 <= mn /\ (mx = inf \/ mn <= mx)).
Proof.
  intros L Rd Bo. destruct (lex_facts g L) as (F1 & F2 & _). split; [auto|]. split; [|split; [auto|apply bounds_facts; auto]].
  intros m O. inversion O as [mn mx e O1]; subst.
  refine (occ_split g (fun x => forall m, rep_elem x = ERule m -> exists r, get_rule m g = Some r) _ _ _ O1 m eq_refl).
  - apply Forall_forall. intros x I m' E. unfold get_rule, get_rule_core.
    destruct (get_rule_in m' g) as [r|] eqn:Er; [eauto|].
    assert (C : forallb (fun x => match rep_elem x with ERule m => match get_rule_in m core_rules with Some _ => true | None => false end | _ => true end)
                  (grammar_reps []) = true) by (vm_compute; reflexivity).
    rewrite forallb_forall in C. specialize (C x I). rewrite E in C. destruct (get_rule_in m' core_rules) as [r|]; [eauto|discriminate].
  - intros r [mn' mx' e'] I Ri m' E. cbn [rep_elem] in E. subst e'. apply get_rule_some.
    apply (Rd r); auto. exists mn', mx'. auto.
Qed.

(** Missing for the full statement: a repetition without upper bound whose
    minimum is one more than the rep-max option (refuted below). *)
Theorem C30_generate_no_panic_partial : forall fuel rnd rep_max threshold g rulename,
  (forall t, 0 <= rnd t) -> lex_grammar g = true -> refs_defined g -> bounds_ordered g ->
  (forall mn e, occ_rep g (Rep mn inf e) -> mn <> rep_max + 1) ->
  generate fuel rnd rep_max threshold g rulename <> Gen_panic.
Proof.
  intros fuel rnd rm thr g n Rn L Rd Bo Hm. destruct (valid_facts g L Rd Bo) as (Alt & Def & Two & Bd).
  assert (Div : forall mn mx e, occ_rep g (Rep mn mx e) -> (if mx =? inf then rm else mx) - mn + 1 <> 0).
  { intros mn mx e O. destruct (Z.eqb_spec mx inf) as [->|Ni]; [specialize (Hm mn e O); lia|].
    destruct (Bd _ _ _ O) as [_ [|]]; lia. }
  unfold generate, check_can_generate. destruct (get_rule n g) as [r|] eqn:G; [|discriminate].
  assert (Ck : forall f k a, occ_alt g a -> check_alt f g k a <> C_panic).
  { induction f as [|f IH]; intros k a O; cbn [check_alt]; [discriminate|].
    apply check_alt_with_no_panic; auto. }
  pose proof (Ck fuel [n] (rule_alt r) (occ_alt_rule _ _ _ G)) as X.
  destruct (check_alt fuel g [n] (rule_alt r)) as [|[]| |]; try discriminate; [|congruence].
  assert (Gn : forall f a s, occ_alt g a -> gen_alt f g rnd rm thr a s <> G_panic).
  { induction f as [|f IH]; intros a s O; cbn [gen_alt]; [discriminate|].
    apply gen_alt_with_no_panic; auto. }
  pose proof (Gn fuel (rule_alt r) (mkG [] 0) (occ_alt_rule _ _ _ G)) as Y.
  destruct (gen_alt fuel g rnd rm thr (rule_alt r) (mkG [] 0)); try discriminate. congruence.
Qed.
Example C30_case : lex_grammar g29 = true /\ semval_abnf g29 g29 g29 = None /\
  (forall mn e, occ_rep g29 (Rep mn inf e) -> mn <> 16 + 1).
Proof.
  split; [reflexivity|]. split; [vm_compute; reflexivity|]. intros mn e O. apply occ_rep_listed in O.
  assert (C : forallb (fun x => negb (rep_min x =? 17)) (grammar_reps g29) = true) by (vm_compute; reflexivity).
  rewrite forallb_forall in C. specialize (C _ O). cbn [rep_min] in C. apply negb_true_iff, Z.eqb_neq in C. lia.
Qed.

(** [a = 17*"x"] with the default options: division by zero. *)
Theorem C30_generate_no_panic_refuted : exists fuel rnd g rulename,
  (forall t, 0 <= rnd t) /\ lex_grammar g = true /\ semval_abnf g g g = None /\
  generate fuel rnd 16 256 g rulename = Gen_panic.
Proof.
  exists 5%nat, (fun _ => 0), [mkRule "a" [[Rep 17 inf (lit "x")]]], "a".
  split; [intros; lia|]. split; [reflexivity|]. split; vm_compute; reflexivity.
Qed.

(** Generation need not end although the check passed: [a = "x" a / "y"] when
    every draw is 0. *)
Definition g_grow : grammar := [mkRule "a" [[one (lit "x"); one (ERule "a")]; [one (lit "y")]]].
Theorem C30_generate_ends_refuted : exists rnd g rulename,
  (forall t, 0 <= rnd t) /\ semval_abnf g g g = None /\
  (exists r, check_can_generate 5 g rulename = inr r) /\
  forall fuel, generate fuel rnd 16 256 g rulename = Gen_fuel.
Proof.
  exists (fun _ => 0), g_grow, "a". split; [intros; lia|]. split; [vm_compute; reflexivity|].
  split; [eexists; vm_compute; reflexivity|]. intros fuel.
  assert (X : forall f s, gen_alt f g_grow (fun _ => 0) 16 256 [[one (lit "x"); one (ERule "a")]; [one (lit "y")]] s = G_fuel).
  { induction f as [|f IH]; intros s; [reflexivity|]. cbn [gen_alt].
    generalize dependent (gen_alt f g_grow (fun _ => 0) 16 256). intros rec H. destruct s as [o t]. cbn.
    change (Pos.to_nat 1) with 1%nat. cbn.
    match goal with |- context [rec ?b ?s] => replace (rec b s) with G_fuel by (symmetry; exact (H s)) end. reflexivity. }
  unfold generate. destruct fuel as [|[|f]]; [reflexivity|vm_compute; reflexivity|].
  assert (C : check_can_generate (S (S f)) g_grow "a" = inr (mkRule "a" [[one (lit "x"); one (ERule "a")]; [one (lit "y")]])) by reflexivity.
  rewrite C. cbn [rule_alt]. rewrite X. reflexivity.
Qed.

(** ** C49 *)
(** A derivation of some word, counting the rules on its longest path. *)
Inductive gen_in (g : grammar) : nat -> elem -> Prop :=
| gi_rule h n r : get_rule n g = Some r -> ga_in g h (rule_alt r) -> gen_in g (S h) (ERule n)
| gi_group h a : ga_in g h a -> gen_in g h (EGroup a)
| gi_option h a : gen_in g h (EOption a)
| gi_term h e : terminal e -> gen_in g h e
with ga_in (g : grammar) : nat -> alternation -> Prop :=
| ga_intro h c a : In c a -> gc_in g h c -> ga_in g h a
with gc_in (g : grammar) : nat -> concatenation -> Prop :=
| gc_nil h : gc_in g h []
| gc_zero h mx e c : gc_in g h c -> gc_in g h (Rep 0 mx e :: c)
| gc_cons h mn mx e c : gen_in g h e -> gc_in g h c -> gc_in g h (Rep mn mx e :: c).
Scheme gen_in_mut := Minimality for gen_in Sort Prop
with ga_in_mut := Minimality for ga_in Sort Prop
with gc_in_mut := Minimality for gc_in Sort Prop.
Combined Scheme gen_in_ind3 from gen_in_mut, ga_in_mut, gc_in_mut.

Lemma gen_in_mono g :
  (forall h e, gen_in g h e -> forall k, (h <= k)%nat -> gen_in g k e) /\
  (forall h a, ga_in g h a -> forall k, (h <= k)%nat -> ga_in g k a) /\
  (forall h c, gc_in g h c -> forall k, (h <= k)%nat -> gc_in g k c).
Proof.
  apply gen_in_ind3.
  - intros h n r G _ IH [|k] L; [lia|]. econstructor; eauto. apply IH. lia.
  - intros h a _ IH k L. constructor. auto.
  - intros; constructor.
  - intros; apply gi_term; auto.
  - intros h c a I _ IH k L. econstructor; eauto.
  - intros; constructor.
  - intros h mx e c _ IH k L. constructor. auto.
  - intros h mn mx e c _ IH1 _ IH2 k L. constructor; auto.
Qed.

(** A word has such a derivation. *)
Lemma lang_gen_in g : distinct_names g -> (forall mn mx e, occ_rep g (Rep mn mx e) -> 0 <= mn) ->
  (forall e w, in_elem g e w -> occ_elem g e -> exists h, gen_in g h e) /\
  (forall a w, in_alt g a w -> occ_alt g a -> exists h, ga_in g h a) /\
  (forall c w, in_cat g c w -> (forall x, In x c -> occ_rep g x) -> exists h, gc_in g h c) /\
  (forall r w, in_rep g r w -> occ_rep g r -> rep_min r = 0 \/ exists h, gen_in g h (rep_elem r)) /\
  (forall e n w, in_pow g e n w -> occ_elem g e -> n = 0%nat \/ exists h, gen_in g h e).
Proof.
  intros D M. apply lang_mut.
  - intros n a w R _ IH O. destruct (get_rule_resolves g n D) as [_ B]. destruct (B a R) as (r & G & <-).
    destruct (IH (occ_alt_rule _ _ _ G)) as (h & H). exists (S h). econstructor; eauto.
  - intros a w _ IH O. destruct IH as (h & H); [right; left; auto|]. exists h. constructor; auto.
  - intros. exists 0%nat. constructor.
  - intros. exists 0%nat. constructor.
  - intros. exists 0%nat. apply gi_term. exact Logic.I.
  - intros. exists 0%nat. apply gi_term. exact Logic.I.
  - intros. exists 0%nat. apply gi_term. exact Logic.I.
  - intros c a w I _ IH O. destruct IH as (h & H); [intros; eapply occ_alt_reps; eauto|]. exists h. econstructor; eauto.
  - intros _. exists 0%nat. constructor.
  - intros [mn mx e] c w1 w2 _ IH1 _ IH2 O. destruct IH2 as (h2 & H2); [intros; apply O; right; auto|].
    destruct (IH1 (O _ (or_introl eq_refl))) as [Z|(h1 & H1)]; cbn [rep_min rep_elem] in *.
    + subst. exists h2. constructor. auto.
    + exists (Nat.max h1 h2). constructor; [eapply (proj1 (gen_in_mono g))|eapply (proj2 (proj2 (gen_in_mono g)))]; eauto; lia.
  - intros mn mx e n w L1 L2 _ IH O. cbn [rep_min rep_elem]. destruct IH as [-> |H]; [econstructor; eauto| |auto].
    left. specialize (M _ _ _ O). lia.
  - intros. left. auto.
  - intros e n w1 w2 _ IH1 _ IH2 O. right. auto.
Qed.

(** The check ends: rules on the path are distinct. *)
Section CheckEnds.
  Variable g : grammar.
  Definition all_names : list string := map (fun r => lower (rule_name r)) (g ++ core_rules).
  Definition path_ok (known : list string) : Prop := NoDup (map lower known) /\ incl (map lower known) all_names.

  Lemma path_ok_cons n known r : path_ok known -> get_rule n g = Some r -> existsb (equal_fold n) known = false -> path_ok (n :: known).
  Proof.
    intros [N I] G E. split; cbn [map].
    - constructor; auto. intros H. apply in_map_iff in H as (k & Ek & Ik).
      assert (X : existsb (equal_fold n) known = true); [|congruence].
      apply existsb_exists. exists k. split; auto. apply equal_fold_iff. unfold same_name. auto.
    - intros x [<-|H]; [|auto]. destruct (get_rule_name _ _ _ G) as [E1 I1]. rewrite <- E1. apply in_map_iff. eauto.
  Qed.
  Lemma path_ok_length known : path_ok known -> (length known <= length (g ++ core_rules))%nat.
  Proof.
    intros [N I]. pose proof (NoDup_incl_length N I) as H. unfold all_names in H. rewrite !map_length in H. auto.
  Qed.

  Lemma seq_errs_fuel l : ~ In C_fuel l -> seq_errs l <> C_fuel.
  Proof. induction l as [|[]]; cbn; intros H; try discriminate; auto. Qed.
  Lemma join_alt_fuel l : ~ In C_fuel l -> join_alt l <> C_fuel.
  Proof.
    assert (X : forall l b, ~ In C_fuel l -> join_errs l b <> C_fuel).
    { clear. induction l as [|[]]; cbn [join_errs]; intros b H; try discriminate; auto.
      - destruct b; discriminate.
      - apply IHl. intros I. apply H. right. auto.
      - apply IHl. intros I. apply H. right. auto.
      - exfalso. apply H. left. auto. }
    intros H. destruct l; [discriminate|]. apply X. auto.
  Qed.

  Lemma check_elem_ends f known :
    (forall k a, path_ok k -> (length (g ++ core_rules) < f + length k)%nat -> check_alt f g k a <> C_fuel) ->
    path_ok known -> (length (g ++ core_rules) < S f + length known)%nat ->
    (forall e, check_elem g (check_alt f g) known e <> C_fuel) /\ (forall r, check_rep g (check_alt f g) known r <> C_fuel).
  Proof.
    intros IH P L. apply elem_rep_ind.
    - intros n. cbn [check_elem]. destruct (existsb _ _) eqn:Ex; [discriminate|].
      destruct (get_rule n g) as [r|] eqn:G; [|discriminate].
      pose proof (IH (n :: known) (rule_alt r) (path_ok_cons _ _ _ P G Ex) ltac:(cbn [length]; lia)).
      destruct (check_alt f g (n :: known) (rule_alt r)) as [|[]| |]; try discriminate. congruence.
    - intros b F. cbn [check_elem]. apply join_alt_fuel. intros I. apply in_map_iff in I as (c & E & C). revert E.
      apply seq_errs_fuel. intros I. apply in_map_iff in I as (x & E & Ix). revert E.
      rewrite Forall_forall in F. specialize (F c C). rewrite Forall_forall in F. apply F; auto.
    - intros; discriminate.
    - intros; discriminate.
    - intros; discriminate.
    - intros; discriminate.
    - intros mn mx e IHe. cbn [check_rep]. destruct (mn =? 0); [discriminate|]. auto.
  Qed.
  Lemma check_alt_ends fuel : forall known a, path_ok known -> (length (g ++ core_rules) < fuel + length known)%nat ->
    check_alt fuel g known a <> C_fuel.
  Proof.
    induction fuel as [|f IH]; intros known a P L; [pose proof (path_ok_length _ P); lia|].
    cbn [check_alt].
    pose proof (check_elem_ends f known IH P L) as X.
    apply join_alt_fuel. intros I. apply in_map_iff in I as (c & E & C). revert E.
    apply seq_errs_fuel. intros I. apply in_map_iff in I as (x & E & Ix). revert E. apply X.
  Qed.
End CheckEnds.

(** The check ends on every grammar. *)
Theorem C49_check_ends : forall g rulename fuel, (length (g ++ core_rules) <= fuel)%nat ->
  check_can_generate fuel g rulename <> inl Gen_fuel.
Proof.
  intros g n fuel L. unfold check_can_generate. destruct (get_rule n g) as [r|] eqn:G; [|discriminate].
  pose proof (check_alt_ends g fuel [n] (rule_alt r)) as X.
  destruct (check_alt fuel g [n] (rule_alt r)) as [|[]| |]; try discriminate. exfalso. apply X; auto.
  - eapply path_ok_cons; eauto. split; [constructor|intros ? []].
  - cbn [length]. lia.
Qed.

Section CheckExact.
  Variable g : grammar.
  Hypothesis Dn : distinct_names g.
  Hypothesis Alt : forall a, occ_alt g a -> a <> [].
  Hypothesis Def : forall n, occ_elem g (ERule n) -> exists r, get_rule n g = Some r.
  Hypothesis Bd : forall mn mx e, occ_rep g (Rep mn mx e) -> 0 <= mn /\ (mx = inf \/ mn <= mx).
  Hypothesis Tm : forall e, occ_elem g e -> terminal e -> exists w, in_elem g e w.

  Lemma seq_errs_ok l : seq_errs l = C_ok <-> forall x, In x l -> x = C_ok.
  Proof.
    induction l as [|x l IH]; cbn [seq_errs]; [split; [intros _ x []|auto]|].
    split.
    - intros H. destruct x; try discriminate. intros y [<-|Y]; auto. apply IH; auto.
    - intros H. rewrite (H x (or_introl eq_refl)). apply IH. intros y Y. apply H. right. auto.
  Qed.
  Lemma join_alt_ok l : l <> [] -> join_alt l = C_ok -> In C_ok l.
  Proof.
    assert (X : forall l b, join_errs l b = C_ok -> b = true \/ In C_ok l).
    { clear. induction l as [|x l IH]; intros b H; cbn [join_errs] in H; [destruct b; [auto|discriminate]|].
      destruct x; try discriminate; [right; left; auto|]. destruct (IH _ H); [auto|right; right; auto]. }
    intros N H. destruct l as [|x l]; [congruence|]. destruct (X _ _ H); [discriminate|auto].
  Qed.
  Lemma join_alt_ok_conv l : In C_ok l -> ~ In C_panic l -> ~ In C_fuel l -> join_alt l = C_ok.
  Proof.
    assert (X : forall l b, b = true \/ In C_ok l -> ~ In C_panic l -> ~ In C_fuel l -> join_errs l b = C_ok).
    { clear. induction l as [|x l IH]; intros b H P F; cbn [join_errs]; [destruct H as [-> |[]]; auto|].
      destruct x.
      - apply IH; [auto|intros I; apply P; right; auto|intros I; apply F; right; auto].
      - apply IH; [destruct H as [|[|]]; auto; discriminate|intros I; apply P; right; auto|intros I; apply F; right; auto].
      - exfalso. apply P. left. auto.
      - exfalso. apply F. left. auto. }
    intros H P F. destruct l as [|x l]; [destruct H|]. apply X; auto.
  Qed.

  Lemma pow_word e w : in_elem g e w -> forall n, exists v, in_pow g e n v.
  Proof. intros H. induction n as [|n (v & V)]; [exists []; constructor|exists (w ++ v); constructor; auto]. Qed.
  Lemma rep_word mn mx e : occ_rep g (Rep mn mx e) -> (mn = 0 \/ exists w, in_elem g e w) -> exists w, in_rep g (Rep mn mx e) w.
  Proof.
    intros O H. destruct (Bd _ _ _ O) as [B1 B2].
    assert (X : exists w, in_pow g e (Z.to_nat mn) w).
    { destruct H as [-> |(w & W)]; [exists []; constructor|eapply pow_word; eauto]. }
    destruct X as (w & W). exists w. econstructor; [| |exact W]; [lia|]. destruct B2; [auto|right; lia].
  Qed.
  Lemma cat_word c : (forall x, In x c -> exists w, in_rep g x w) -> exists w, in_cat g c w.
  Proof.
    induction c as [|x c IH]; intros H; [exists []; constructor|].
    destruct (H x (or_introl eq_refl)) as (w1 & W1). destruct IH as (w2 & W2); [intros; apply H; right; auto|].
    exists (w1 ++ w2). constructor; auto.
  Qed.

  (** Accepted: a word exists. *)
  Lemma check_sound fuel : forall known a, occ_alt g a -> check_alt fuel g known a = C_ok -> exists w, in_alt g a w.
  Proof.
    induction fuel as [|f IH]; intros known a O E; cbn [check_alt] in E; [discriminate|].
    assert (X : (forall e, occ_elem g e -> check_elem g (check_alt f g) known e = C_ok -> exists w, in_elem g e w) /\
                (forall r, occ_rep g r -> check_rep g (check_alt f g) known r = C_ok -> exists w, in_rep g r w)).
    { apply elem_rep_ind.
      - intros n On En. cbn [check_elem] in En. destruct (existsb _ _); [discriminate|].
        destruct (get_rule n g) as [r|] eqn:G; [|discriminate].
        destruct (check_alt f g (n :: known) (rule_alt r)) as [|[]| |] eqn:Ea; try discriminate.
        apply IH in Ea as (w & W); [|eapply occ_alt_rule; eauto]. exists w.
        apply (lang_user g n r w Dn G). exact W.
      - intros b F Ob Eb. cbn [check_elem] in Eb.
        apply join_alt_ok in Eb; [|intros Z; apply map_eq_nil in Z; revert Z; apply Alt; right; left; auto].
        apply in_map_iff in Eb as (c & Ec & Ic). rewrite seq_errs_ok in Ec.
        destruct (cat_word c) as (w & W).
        { intros x Ix. rewrite Forall_forall in F. specialize (F c Ic). rewrite Forall_forall in F. apply F; auto.
          - eapply occ_rep_group; eauto.
          - apply Ec. apply in_map_iff. eauto. }
        exists w. constructor. econstructor; eauto.
      - intros b _ Ob _. exists []. constructor.
      - intros s vs Oc _. apply Tm; [auto|exact Logic.I].
      - intros bs st es Oc _. apply Tm; [auto|exact Logic.I].
      - intros v _ Ev. discriminate.
      - intros mn mx e IHe Oe Ee. apply rep_word; auto. cbn [check_rep] in Ee. destruct (Z.eqb_spec mn 0); [auto|].
        right. apply IHe; auto. econstructor; eauto. }
    unfold check_alt_with in E. apply join_alt_ok in E; [|intros Z; apply map_eq_nil in Z; revert Z; apply Alt; auto].
    apply in_map_iff in E as (c & Ec & Ic). unfold check_cat in Ec. rewrite seq_errs_ok in Ec.
    destruct (cat_word c) as (w & W).
    { intros x Ix. apply X; [eapply occ_alt_reps; eauto|]. apply Ec. apply in_map_iff. eauto. }
    exists w. econstructor; eauto.
  Qed.

  (** A rule on the path has no derivation shorter than the one looked for. *)
  Definition rule_in (h : nat) (n : string) : Prop := exists r, get_rule n g = Some r /\ ga_in g h (rule_alt r).
  Definition path_low (h : nat) (known : list string) : Prop := forall k h', In k known -> (h' < h)%nat -> ~ rule_in h' k.

  Lemma least h n : rule_in h n -> ~ ~ exists m, (m <= h)%nat /\ rule_in m n /\ forall h', (h' < m)%nat -> ~ rule_in h' n.
  Proof.
    induction h as [h IH] using (well_founded_induction lt_wf). intros H N. apply N.
    exists h. split; [lia|]. split; auto. intros h' L X. apply (IH h' L X). intros (m & M1 & M2 & M3).
    apply N. exists m. split; [lia|]. auto.
  Qed.
  Lemma cres_stable (x : cres) : ~ ~ x = C_ok -> x = C_ok.
  Proof. destruct x; auto; intros H; exfalso; apply H; discriminate. Qed.
  Lemma rule_in_lower h n m : lower n = lower m -> rule_in h n -> rule_in h m.
  Proof. intros E (r & G & A). exists r. rewrite <- (LowerLang.get_rule_lower n m g E). auto. Qed.

  Lemma check_alt_no_panic f : forall k a, occ_alt g a -> check_alt f g k a <> C_panic.
  Proof.
    induction f as [|f IH]; intros k a O; cbn [check_alt]; [discriminate|]. apply check_alt_with_no_panic; auto.
  Qed.

  (** A word exists: accepted. *)
  Lemma check_complete : forall h fuel known a, ga_in g h a -> occ_alt g a -> path_low h known ->
    path_ok g known -> (length (g ++ core_rules) < fuel + length known)%nat -> check_alt fuel g known a = C_ok.
  Proof.
    induction h as [h IH] using (well_founded_induction lt_wf). intros fuel known a A O Pl Po Lf.
    destruct fuel as [|f]; [pose proof (path_ok_length _ _ Po); lia|].
    assert (Rl : forall h0, (h0 < h)%nat -> forall n, rule_in h0 n -> occ_elem g (ERule n) -> check_elem g (check_alt f g) known (ERule n) = C_ok).
    { intros h0 L n Rn On. apply cres_stable. intros N. apply (least h0 n Rn). intros (m & M1 & (r & G & Ar) & M3). apply N. clear N.
      cbn [check_elem]. destruct (existsb (equal_fold n) known) eqn:Ex.
      { exfalso. apply existsb_exists in Ex as (k & Ik & Ek). apply equal_fold_iff in Ek.
        apply (Pl k h0 Ik L). eapply rule_in_lower; eauto. }
      rewrite G. rewrite (IH m ltac:(lia) f (n :: known) (rule_alt r)); auto.
      - eapply occ_alt_rule; eauto.
      - intros k h' [<-|Ik] Lh; [auto|]. apply Pl; auto. lia.
      - eapply path_ok_cons; eauto.
      - cbn [length]. lia. }
    assert (Np : (forall e, occ_elem g e -> check_elem g (check_alt f g) known e <> C_panic) /\
                 (forall r, occ_rep g r -> check_rep g (check_alt f g) known r <> C_panic)).
    { apply check_elem_no_panic; auto. apply check_alt_no_panic. }
    assert (Nf : (forall e, check_elem g (check_alt f g) known e <> C_fuel) /\ (forall r, check_rep g (check_alt f g) known r <> C_fuel)).
    { apply check_elem_ends; auto. apply check_alt_ends. }
    assert (X : (forall h1 e, gen_in g h1 e -> (h1 <= h)%nat -> occ_elem g e -> check_elem g (check_alt f g) known e = C_ok) /\
                (forall h1 b, ga_in g h1 b -> (h1 <= h)%nat -> occ_alt g b -> check_alt_with g (check_alt f g) known b = C_ok) /\
                (forall h1 c, gc_in g h1 c -> (h1 <= h)%nat -> (forall x, In x c -> occ_rep g x) -> check_cat g (check_alt f g) known c = C_ok)).
    { apply gen_in_ind3.
      - intros h1 n r G Ar _ L On. apply (Rl h1); [lia| |auto]. exists r. auto.
      - intros h1 b _ IHb L Ob. specialize (IHb L (or_intror (or_introl Ob))). exact IHb.
      - intros; reflexivity.
      - intros h1 e T L Oe. destruct e; try contradiction; reflexivity.
      - intros h1 c b Ic _ IHc L Ob. apply join_alt_ok_conv.
        + apply in_map_iff. exists c. split; [|auto]. apply IHc; [auto|]. intros; eapply occ_alt_reps; eauto.
        + intros I. apply in_map_iff in I as (c' & E & C'). revert E. apply seq_errs_no_panic. intros I.
          apply in_map_iff in I as (x & E & Ix). revert E. apply Np. eapply occ_alt_reps; eauto.
        + intros I. apply in_map_iff in I as (c' & E & C'). revert E. apply seq_errs_fuel. intros I.
          apply in_map_iff in I as (x & E & Ix). revert E. apply Nf.
      - intros; reflexivity.
      - intros h1 mx e c _ IHc L Oc. unfold check_cat. cbn [map seq_errs check_rep]. cbn [Z.eqb]. apply IHc; [auto|].
        intros; apply Oc; right; auto.
      - intros h1 mn mx e c _ IHe _ IHc L Oc. unfold check_cat. cbn [map seq_errs].
        assert (Y : check_rep g (check_alt f g) known (Rep mn mx e) = C_ok).
        { cbn [check_rep]. destruct (mn =? 0); auto. apply IHe; auto. eapply occ_elem_rep. apply Oc. left. reflexivity. }
        rewrite Y. apply IHc; [auto|]. intros; apply Oc; right; auto. }
    cbn [check_alt]. eapply (proj1 (proj2 X)); eauto.
  Qed.
End CheckExact.


Theorem C49_check_exact : forall g rulename fuel,
  distinct_names g -> lex_grammar g = true -> refs_defined g -> bounds_ordered g ->
  (forall e, occ_elem g e -> terminal e -> exists w, in_elem g e w) ->
  (length (g ++ core_rules) <= fuel)%nat ->
  ((exists r, check_can_generate fuel g rulename = inr r) <-> exists w, Lang g rulename w).
Proof.
  intros g n fuel Dn L Rd Bo Tm Lf. destruct (valid_facts g L Rd Bo) as (Alt & Def & _ & Bd).
  unfold check_can_generate. destruct (get_rule n g) as [r|] eqn:G.
  - split.
    + intros (r' & E). destruct (check_alt fuel g [n] (rule_alt r)) as [|[]| |] eqn:Ea; try discriminate.
      apply check_sound in Ea as (w & W); auto; [|eapply occ_alt_rule; eauto]. exists w. apply (lang_user g n r w Dn G). auto.
    + intros (w & W). apply (lang_user g n r w Dn G) in W.
      pose proof (occ_alt_rule _ _ _ G) as O.
      apply (lang_gen_in g Dn (fun mn mx e H => proj1 (Bd mn mx e H))) in W; auto. destruct W as (h & H).
      assert (E : check_alt fuel g [n] (rule_alt r) = C_ok); [|rewrite E; eauto].
      apply cres_stable. intros N. apply (least g h n); [exists r; auto|]. intros (m & M1 & (r' & G' & A) & M3). apply N.
      rewrite G in G'. injection G' as <-.
      apply (check_complete g Def m); auto.
      * intros k h' [<-|[]]. auto.
      * eapply path_ok_cons; eauto. split; [constructor|intros ? []].
      * cbn [length]. lia.
  - split; [intros (r & E); discriminate|]. intros (w & W). exfalso. inversion W as [? a ? R I| | | | | |]; subst.
    destruct (proj2 (get_rule_some g n) (ex_intro _ a R)) as (r & Gr). congruence.
Qed.

(** Cases: [a = "x" a / b], [b = [a] "y"] is accepted; [c = "x" c] is not. *)
Definition g49 : grammar := [mkRule "a" [[one (lit "x"); one (ERule "A")]; [one (ERule "b")]];
  mkRule "b" [[one (EOption [[one (ERule "a")]]); one (lit "y")]]; mkRule "c" [[one (lit "x"); one (ERule "c")]]].
Example C49_case : distinct_names g49 /\ lex_grammar g49 = true /\ semval_abnf g49 g49 g49 = None /\
  (forall e, occ_elem g49 e -> terminal e -> exists w, in_elem g49 e w) /\
  (exists r, check_can_generate 30 g49 "a" = inr r) /\ check_can_generate 30 g49 "c" = inl (Gen_cyclic "c") /\
  (length (g49 ++ core_rules) <= 30)%nat.
Proof.
  split; [apply wf_distinct; vm_compute; reflexivity|]. split; [reflexivity|]. split; [vm_compute; reflexivity|].
  split; [|split; [eexists; vm_compute; reflexivity|split; [vm_compute; reflexivity|cbn; lia]]].
  assert (G : generable g49) by (apply generableb_spec; vm_compute; reflexivity).
  intros e O T. inversion O as [mn mx e' Or]; subst. destruct (G _ _ _ Or) as (_ & _ & R).
  destruct e as [n|a|a|sens vs|b st es|v]; try contradiction; cbn [renderable] in R.
  - exists (utf8s vs). constructor; auto. clear. induction vs; constructor; auto. destruct sens; reflexivity.
  - destruct st.
    + assert (X : exists rs, Forall2 (fun s v => numeral b s = Some v) es rs /\ Forall scalar rs).
      { clear -R. induction R as [|s es (v & Nv & Sv) R (rs & F & S)]; [exists []; auto|]. exists (v :: rs). split; constructor; auto. }
      destruct X as (rs & F & S). exists (utf8s rs). constructor; auto.
    + destruct es as [|lo [|hi [|? ?]]]; try contradiction. destruct R as (l & h & Nl & Nh & L1 & L2 & Sc).
      exists (utf8 l). econstructor; eauto; [lia|]. apply Sc. lia.
Qed.

Print Assumptions C29_generate_in_language_partial.
Print Assumptions C29_generate_in_language_refuted_prose.
Print Assumptions C29_generate_in_language_refuted_surrogate.
Print Assumptions C29_generate_in_language_refuted_bounds.
Print Assumptions C30_generate_no_panic_partial.
Print Assumptions C30_generate_no_panic_refuted.
Print Assumptions C30_generate_ends_refuted.
Print Assumptions C49_check_ends.
Print Assumptions C49_check_exact.
