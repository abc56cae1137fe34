(** Proofs about ASTGenerator.
    Its definitions are means of proof and model no code. *)
From Coq Require Import ZArith Arith String Bool List Lia.
From Verif Require Import Syntax Spec Utf8 Num Term Printer Check PropTerm Slots LowerLang PropSem TreeSound Occ PropDag LeftRec Tape Ast PropGenerate.
Import ListNotations.
Local Open Scope string_scope.
Local Open Scope list_scope.
Local Open Scope Z_scope.

(** What a source may answer: [intn n] is below [n], and 0 when there is no choice. *)
Definition draws_ok {S_ : Type} (intn : Z -> S_ -> Z * S_) : Prop :=
  forall n s, 0 <= fst (intn n s) /\ (fst (intn n s) < n \/ fst (intn n s) = 0).

Lemma tape_draw_ok : draws_ok tape_draw.
Proof.
  intros n s. unfold tape_draw, tape_intn. destruct (Z.leb_spec n 1); [cbn; lia|].
  destruct (width_loop 8 n 1) as [w|]; [|cbn; lia]. pose proof (read_nonneg w s 0 ltac:(lia)) as P.
  destruct (read_value w s 0) as [v s']. cbn [fst] in *. pose proof (Z.rem_bound_pos v n P ltac:(lia)). lia.
Qed.

(** ** The words written *)
(** Terminals every value of which is a character. *)
Definition emits (e : elem) : Prop :=
  match e with
  | EChar _ vs => Forall scalar vs
  | ENum b StatSeries es => Forall (fun s => exists v, numeral b s = Some v /\ scalar v) es
  | ENum b StatRange [lo; hi] => exists l h, numeral b lo = Some l /\ numeral b hi = Some h /\ l <= h /\ l <= 0x10FFFF /\
      forall r, l <= r <= Z.min h 0x10FFFF -> scalar r
  | ENum _ StatRange _ => False
  | EProse _ => False
  | _ => True
  end.
Definition emittable (g : grammar) : Prop :=
  forall mn mx e, occ_rep g (Rep mn mx e) -> 0 <= mn /\ (mx = inf \/ mn <= mx) /\ emits e.

Lemma flip_fold v : fold_case (flip_ascii_case v) = fold_case v.
Proof.
  unfold flip_ascii_case, fold_case.
  destruct (Z.leb_spec 97 v), (Z.leb_spec v 122), (Z.leb_spec 65 v), (Z.leb_spec v 90); cbn [andb]; try lia;
  repeat match goal with |- context [?a <=? ?b] => destruct (Z.leb_spec a b); cbn [andb]; try lia end.
Qed.
Lemma flip_scalar v : scalar v -> scalar (flip_ascii_case v).
Proof.
  unfold flip_ascii_case, scalar.
  destruct (Z.leb_spec 97 v), (Z.leb_spec v 122), (Z.leb_spec 65 v), (Z.leb_spec v 90); cbn [andb]; lia.
Qed.
Lemma wrap64_le z : 0 <= z -> wrap64 z <= z.
Proof. intros H. unfold wrap64. pose proof (Z.mod_le (z + 2 ^ 63) (2 ^ 64) ltac:(lia) ltac:(lia)). lia. Qed.

Section Lang.
  Variable g : grammar.
  Variable m : costs.
  Variable md ml mr : Z.
  Variable S_ : Type.
  Variable intn : Z -> S_ -> Z * S_.
  Hypothesis Dr : draws_ok intn.
  Hypothesis Em : emittable g.

  Definition writes (s s' : astate S_) (P : list Z -> Prop) : Prop := exists w, a_out s' = a_out s ++ w /\ P w.

  Lemma gen_chars_lang sens vs : Forall scalar vs -> forall s,
    writes s (gen_chars S_ intn sens vs s) (in_elem g (EChar sens vs)).
  Proof.
    intros F s.
    assert (G : exists rs, a_out (gen_chars S_ intn sens vs s) = a_out s ++ utf8s rs /\ Forall2 (char_ok sens) vs rs /\ Forall scalar rs).
    { revert s. induction F as [|v vs V F IH]; intros s.
      - exists []. cbn. rewrite app_nil_r. auto.
      - unfold gen_chars. cbn [fold_left].
        match goal with |- context [fold_left _ vs ?x] => set (s1 := x) end.
        destruct (IH s1) as (rs & E & F2 & Sc). unfold gen_chars in E. rewrite E.
        assert (X : exists r, a_out s1 = a_out s ++ utf8 r /\ char_ok sens v r /\ scalar r).
        { subst s1. destruct sens; cbn [negb andb].
          - exists v. cbn [put a_out]. rewrite string_of_rune_utf8 by auto. split; auto. split; [reflexivity|auto].
          - destruct (is_ascii_letter v).
            + destruct (intn 2 (a_src s)) as [d src]. cbn [put a_out]. destruct (d =? 1).
              * exists (flip_ascii_case v). rewrite string_of_rune_utf8 by (apply flip_scalar; auto). split; auto.
                split; [unfold char_ok; rewrite flip_fold; auto|apply flip_scalar; auto].
              * exists v. rewrite string_of_rune_utf8 by auto. split; auto. split; [reflexivity|auto].
            + exists v. cbn [put a_out]. rewrite string_of_rune_utf8 by auto. split; auto. split; [reflexivity|auto]. }
        destruct X as (r & Er & C & Sr). exists (r :: rs). rewrite Er, <- app_assoc. split; [reflexivity|]. split; constructor; auto. }
    destruct G as (rs & E & F2 & Sc). exists (utf8s rs). split; auto. constructor; auto.
  Qed.

  Lemma gen_numval_lang b st es s s' : emits (ENum b st es) -> gen_numval S_ intn b st es s = A_ok s' ->
    writes s s' (in_elem g (ENum b st es)).
  Proof.
    intros R E. destruct st; cbn in R.
    - cbn in E. injection E as <-.
      assert (G : exists rs, a_out (fold_left (fun s v => let r := numval_to_rune v b in if valid_rune r then put S_ s r else s) es s)
                 = a_out s ++ utf8s rs /\ Forall2 (fun s v => numeral b s = Some v) es rs /\ Forall scalar rs).
      { revert s. induction R as [|x es (v & Nv & Sv) R IH]; intros s.
        - exists []. cbn. rewrite app_nil_r. auto.
        - cbn [fold_left]. cbv zeta in *.
          assert (Ev : numval_to_rune x b = v) by (apply num_rune; auto; destruct Sv; lia). rewrite Ev.
          rewrite (proj2 (valid_rune_scalar v) Sv).
          destruct (IH (put S_ s v)) as (rs & E & F2 & Sc). exists (v :: rs).
          rewrite E. cbn [put a_out]. rewrite string_of_rune_utf8 by auto. rewrite <- app_assoc. split; [reflexivity|].
          split; constructor; auto. }
      destruct G as (rs & E & F2 & Sc). exists (utf8s rs). split; auto. constructor; auto.
    - destruct es as [|lo [|hi [|? ?]]]; try contradiction. destruct R as (l & h & Nl & Nh & L1 & L2 & Sc).
      cbn [gen_numval] in E. pose proof (num_rune b lo l Nl L2) as El. rewrite El in E.
      pose proof (numeral_nonneg _ _ _ Nl) as Pl. pose proof (numeral_nonneg _ _ _ Nh) as Ph.
      assert (Eh : (if 0x10FFFF <? numval_to_rune hi b then 0x10FFFF else numval_to_rune hi b) = Z.min h 0x10FFFF).
      { unfold numval_to_rune. rewrite (numval_to_int32_spec _ _ _ Nh). unfold MaxInt32.
        destruct (Z.ltb_spec 0x10FFFF (Z.min h 2147483647)); lia. }
      rewrite Eh in E. clear Eh. destruct (Z.ltb_spec 0x10FFFF l); [lia|]. destruct (Z.ltb_spec (Z.min h 0x10FFFF) l); [lia|].
      cbn [orb] in E. pose proof (Dr (Z.min h 0x10FFFF - l + 1) (a_src s)) as D.
      destruct (intn (Z.min h 0x10FFFF - l + 1) (a_src s)) as [d src]. cbn [fst] in D. injection E as <-. clear El.
      assert (Sr : scalar (l + d)) by (apply Sc; lia).
      exists (utf8 (l + d)). split; [cbn [put a_out]; rewrite string_of_rune_utf8; auto|].
      econstructor; eauto. lia.
  Qed.

  Variable rec : alternation -> Z -> astate S_ -> ares S_.
  Hypothesis Hrec : forall a d s s', (forall c x, In c a -> In x c -> occ_rep g x) -> a <> [] -> rec a d s = A_ok s' -> writes s s' (in_alt g a).
  Hypothesis Alt : forall a, occ_alt g a -> a <> [].

  Lemma ast_elem_lang e d s s' : occ_elem g e -> emits e -> ast_elem g md ml S_ intn rec e d s = A_ok s' -> writes s s' (in_elem g e).
  Proof.
    intros O R E. destruct e as [n|a|a|sens vs|b st es|v]; cbn [ast_elem] in E.
    - destruct (get_rule n g) as [r|] eqn:G; [|discriminate]. pose proof (get_rule_to _ _ _ G) as Rt.
      destruct (Hrec _ _ _ _ (fun c x H1 H2 => occ_rep_rule g r c x ltac:(apply in_app_iff; destruct Rt as [[I _]|(_ & I & _)]; auto) H1 H2)
        (Alt _ (occ_alt_rule _ _ _ G)) E)
        as (w & Ew & Lw). exists w. split; auto. econstructor; [|exact Lw].
      destruct Rt as [[A1 A2]|(A0 & A1 & A2)]; [left|right; split; auto]; exists r; auto.
    - destruct (Hrec _ _ _ _ (fun c x H1 H2 => occ_rep_group g a c x O H1 H2) (Alt _ (or_intror (or_introl O))) E) as (w & Ew & Lw).
      exists w. split; auto. constructor; auto.
    - assert (X : s' = s \/ exists src, s' = mkA (a_out s) src \/ rec a d (mkA (a_out s) src) = A_ok s').
      { destruct (over md ml S_ s d); [left; congruence|]. destruct (intn 2 (a_src s)) as [k src]. right. exists src.
        destruct (k =? 1); [auto|left; congruence]. }
      destruct X as [-> |(src & [-> |X])].
      + exists []. rewrite app_nil_r. split; auto. constructor.
      + exists []. cbn. rewrite app_nil_r. split; auto. constructor.
      + destruct (Hrec _ _ _ _ (fun c x H1 H2 => occ_rep_option g a c x O H1 H2) (Alt _ (or_intror (or_intror O))) X) as (w & Ew & Lw).
        exists w. split; auto. apply in_option_some; auto.
    - injection E as <-. apply gen_chars_lang; auto.
    - eapply gen_numval_lang; eauto.
    - destruct R.
  Qed.

  Lemma ast_loop_lang e lo d : occ_elem g e -> emits e -> forall k i s s', 0 <= i -> lo <= i + Z.of_nat k ->
    ast_loop g md ml S_ intn rec k i lo e d s = A_ok s' ->
    exists n, (n <= k)%nat /\ lo <= i + Z.of_nat n /\ writes s s' (in_pow g e n).
  Proof.
    intros O R k. induction k as [|k IH]; intros i s s' Hi Hl E; cbn [ast_loop] in E.
    - injection E as <-. exists 0%nat. split; [lia|]. split; [lia|]. exists []. rewrite app_nil_r. split; auto. constructor.
    - destruct (ast_elem g md ml S_ intn rec e d s) as [s1| |] eqn:E1; try discriminate.
      destruct (ast_elem_lang _ _ _ _ O R E1) as (w1 & Ew1 & L1).
      destruct ((lo <=? i + 1) && (ml <=? Z.of_nat (length (a_out s1)))) eqn:B.
      + injection E as <-. apply andb_true_iff in B as [B _]. apply Z.leb_le in B.
        exists 1%nat. split; [lia|]. split; [lia|]. exists w1. split; auto. rewrite <- (app_nil_r w1). constructor; auto. constructor.
      + destruct (IH (i + 1) s1 s' ltac:(lia) ltac:(lia) E) as (n & N1 & N2 & (w & Ew & L)).
        exists (S n). split; [lia|]. split; [lia|]. exists (w1 ++ w). rewrite Ew, Ew1, app_assoc. split; auto. constructor; auto.
  Qed.

  Lemma ast_rep_lang r d s s' : occ_rep g r -> ast_rep g md ml mr S_ intn rec r d s = A_ok s' -> writes s s' (in_rep g r).
  Proof.
    destruct r as [lo mx e]. intros O E. destruct (Em _ _ _ O) as (M0 & Mb & Re). cbn [ast_rep] in E. cbv zeta in E.
    assert (Oe : occ_elem g e) by (econstructor; eauto).
    assert (X : exists k s1, 0 <= k /\ (mx = inf \/ lo + k <= mx) /\ a_out s1 = a_out s /\
                  ast_loop g md ml S_ intn rec (Z.to_nat (lo + k)) 0 lo e d s1 = A_ok s').
    { set (hi := if (mx =? inf) || (mx <? lo) then wrap64 (lo + mr) else mx) in E.
      destruct (negb (over md ml S_ s d) && (lo <? hi)) eqn:B.
      - apply andb_true_iff in B as [_ B]. apply Z.ltb_lt in B.
        pose proof (Dr (wrap64 (hi - lo + 1)) (a_src s)) as D. destruct (intn (wrap64 (hi - lo + 1)) (a_src s)) as [k src]. cbn [fst] in D.
        exists k, (mkA (a_out s) src). split; [lia|]. split; [|split; [auto|exact E]].
        destruct (Z.eqb_spec mx inf) as [->|Ni]; [auto|right]. destruct Mb as [|Mb]; [contradiction|].
        subst hi. destruct (Z.ltb_spec mx lo); [lia|]. cbn [orb] in D.
        pose proof (wrap64_le (mx - lo + 1) ltac:(lia)). lia.
      - exists 0, s. split; [lia|]. split; [destruct Mb; [auto|right; lia]|]. split; auto. rewrite Z.add_0_r. exact E. }
    destruct X as (k & s1 & K0 & K1 & Es & El).
    apply ast_loop_lang in El as (n & N1 & N2 & (w & Ew & L)); auto; [|lia|lia].
    exists w. rewrite <- Es. split; auto. econstructor; [| |exact L]; [lia|].
    destruct K1; [auto|right; lia].
  Qed.

  Lemma ast_cat_lang c d : (forall x, In x c -> occ_rep g x) -> forall s s', ast_cat g md ml mr S_ intn rec c d s = A_ok s' ->
    writes s s' (in_cat g c).
  Proof.
    induction c as [|r c IH]; intros O s s' E; cbn [ast_cat] in E.
    - injection E as <-. exists []. rewrite app_nil_r. split; auto. constructor.
    - destruct (ast_rep g md ml mr S_ intn rec r d s) as [s1| |] eqn:E1; try discriminate.
      apply ast_rep_lang in E1 as (w1 & Ew1 & L1); [|apply O; left; auto].
      destruct (IH (fun x H => O x (or_intror H)) _ _ E) as (w2 & Ew2 & L2).
      exists (w1 ++ w2). rewrite Ew2, Ew1, app_assoc. split; auto. constructor; auto.
  Qed.

  (** Whatever the choice, a concatenation of the alternation is followed. *)
  Lemma ast_alt_with_choice a d s s' : a <> [] -> ast_alt_with g m md ml mr S_ intn rec a d s = s' ->
    s' = A_panic \/ exists c s1, In c a /\ a_out s1 = a_out s /\ ast_cat g md ml mr S_ intn rec c d s1 = s' /\
      (over md ml S_ s d = true -> s1 = s /\ nth_error a (cheapest g m a) = Some c).
  Proof.
    intros N E. unfold ast_alt_with in E. destruct a as [|c0 a]; [congruence|].
    match type of E with (let '(_, _) := ?x in _) = _ => set (q := x) in E; assert (Q : q = x) by reflexivity end.
    destruct q as [idx s1].
    assert (Es : a_out s1 = a_out s).
    { destruct (over md ml S_ s d); [congruence|]. destruct (Nat.ltb _ _); [|congruence].
      destruct (intn _ _). injection Q as -> ->. reflexivity. }
    match type of E with match ?o with _ => _ end = _ => set (p := o) in E; assert (P : p = o) by reflexivity end.
    destruct p as [c|]; [right|auto]. exists c, s1. symmetry in P. split; [eapply nth_error_In; eauto|]. split; auto. split; auto.
    intros Ov. rewrite Ov in Q. injection Q as -> ->. auto.
  Qed.

  Lemma ast_alt_with_lang a d s s' : (forall c x, In c a -> In x c -> occ_rep g x) -> a <> [] ->
    ast_alt_with g m md ml mr S_ intn rec a d s = A_ok s' -> writes s s' (in_alt g a).
  Proof.
    intros O N E. apply ast_alt_with_choice in E as [E|(c & s1 & I & Es & E & _)]; [discriminate| |auto].
    apply ast_cat_lang in E as (w & Ew & L); [|intros; eapply O; eauto]. exists w. rewrite <- Es. split; auto. econstructor; eauto.
  Qed.
End Lang.

Lemma ast_alt_lang g m md ml mr S_ (intn : Z -> S_ -> Z * S_) : draws_ok intn -> emittable g -> (forall a, occ_alt g a -> a <> []) ->
  forall fuel a d s s', (forall c x, In c a -> In x c -> occ_rep g x) -> a <> [] ->
  ast_alt fuel g m md ml mr intn a d s = A_ok s' -> writes S_ s s' (in_alt g a).
Proof.
  intros Dr Em Alt fuel. induction fuel as [|f IH]; intros a d s s' O N E; cbn [ast_alt] in E; [discriminate|].
  eapply ast_alt_with_lang; eauto.
Qed.
