(** Claim C72: bare line feeds are hinted at (errors.go:127-135, grammar.go:79-90). *)
(** The definitions here without a citation are those of statements, proofs and examples; they model no code. *)
From Coq Require Import ZArith Arith String Ascii Bool Permutation List Lia.
From Verif Require Import Syntax Spec Utf8 Num Term Printer PrintInj Check Slots Gll Sppf LowerProof LowerLang LowerBudget PropTerm PropGll
  Errors Furthest Front PropSem PropReport.
From Verif Require ParseAbnf PropParse PropDag.
Import ListNotations.
Local Open Scope string_scope.
Local Open Scope list_scope.
Local Open Scope Z_scope.

(** ** Every byte of a text is wanted by some terminal *)
Section Wanted.
  Variable g : grammar.
  Definition wants (R : list Z -> elem -> Prop) (p : list Z) (c : Z) : Prop :=
    exists p' t v1 v2, R p' t /\ is_terminal t = true /\ in_elem g t (v1 ++ c :: v2) /\ p = p' ++ v1.
  Lemma split_app {A} (a b p s : list A) c : a ++ b = p ++ c :: s ->
    (exists s', a = p ++ c :: s' /\ s = s' ++ b) \/ (exists p', p = a ++ p' /\ b = p' ++ c :: s).
  Proof.
    revert p. induction a as [|x a IH]; intros p E; cbn [app] in E.
    - right. exists p. auto.
    - destruct p as [|y p]; cbn [app] in E.
      + injection E as -> <-. left. exists a. auto.
      + injection E as -> E. apply IH in E as [(s' & -> & ->)|(p' & -> & ->)]; [left; exists s'; auto|right; exists p'; auto].
  Qed.
  Lemma wanted :
    (forall e w, in_elem g e w -> forall p c s, w = p ++ c :: s -> wants (reaches g e) p c) /\
    (forall a w, in_alt g a w -> forall p c s, w = p ++ c :: s -> wants (reaches_alt g a) p c) /\
    (forall k w, in_cat g k w -> forall p c s, w = p ++ c :: s -> exists pre r post p1 p2, k = pre ++ r :: post /\ in_cat g pre p1 /\ wants (reaches_rep g r) p2 c /\ p = p1 ++ p2) /\
    (forall r w, in_rep g r w -> forall p c s, w = p ++ c :: s -> wants (reaches_rep g r) p c) /\
    (forall e n w, in_pow g e n w -> forall p c s, w = p ++ c :: s -> exists k p1 p2, (k < n)%nat /\ in_pow g e k p1 /\ wants (reaches g e) p2 c /\ p = p1 ++ p2).
  Proof.
    apply lang_mut.
    - intros n a w R A IH p c s E. destruct (IH p c s E) as (p' & t & v1 & v2 & H & T). exists p', t, v1, v2. split; [eapply reach_rule; eauto|exact T].
    - intros a w A IH p c s E. destruct (IH p c s E) as (p' & t & v1 & v2 & H & T). exists p', t, v1, v2. split; [apply reach_group; auto|exact T].
    - intros a p c s E. destruct p; discriminate.
    - intros a w A IH p c s E. destruct (IH p c s E) as (p' & t & v1 & v2 & H & T). exists p', t, v1, v2. split; [apply reach_option; auto|exact T].
    - intros s vs rs F Sc p c q E. exists [], (EChar s vs), p, q. split; [constructor; reflexivity|]. split; [reflexivity|]. split; [rewrite <- E; constructor; auto|reflexivity].
    - intros b ns rs F Sc p c q E. exists [], (ENum b StatSeries ns), p, q. split; [constructor; reflexivity|]. split; [reflexivity|]. split; [rewrite <- E; constructor; auto|reflexivity].
    - intros b lo hi l h r L H B Sc p c q E. exists [], (ENum b StatRange [lo; hi]), p, q. split; [constructor; reflexivity|]. split; [reflexivity|].
      split; [rewrite <- E; econstructor; eauto|reflexivity].
    - intros k a w I C IH p c s E. destruct (IH p c s E) as (pre & r & post & p1 & p2 & -> & Cp & (p' & t & v1 & v2 & H & T1 & T2 & ->) & ->).
      exists (p1 ++ p'), t, v1, v2. split; [eapply reach_alt; eauto|]. split; [exact T1|]. split; [exact T2|apply app_assoc].
    - intros p c s E. destruct p; discriminate.
    - intros r k w1 w2 R IHr C IHc p c s E. apply split_app in E as [(s' & -> & ->)|(p' & -> & ->)].
      + exists [], r, k, [], p. split; [reflexivity|]. split; [constructor|]. split; [eapply IHr; reflexivity|reflexivity].
      + destruct (IHc _ _ _ eq_refl) as (pre & r' & post & p1 & p2 & -> & Cp & W & ->).
        exists (r :: pre), r', post, (w1 ++ p1), p2. split; [reflexivity|]. split; [constructor; auto|]. split; [exact W|apply app_assoc].
    - intros mn mx e n w Mn Mx P IH p c s E. destruct (IH p c s E) as (k & p1 & p2 & Lk & Pk & (p' & t & v1 & v2 & H & T1 & T2 & ->) & ->).
      exists (p1 ++ p'), t, v1, v2. split; [apply (reach_rep _ mn mx e k); auto; destruct Mx; [auto|right; lia]|].
      split; [exact T1|]. split; [exact T2|apply app_assoc].
    - intros e p c s E. destruct p; discriminate.
    - intros e n w1 w2 H IHe P IHp p c s E. apply split_app in E as [(s' & -> & ->)|(p' & -> & ->)].
      + exists 0%nat, [], p. split; [lia|]. split; [constructor|]. split; [eapply IHe; reflexivity|reflexivity].
      + destruct (IHp _ _ _ eq_refl) as (k & p1 & p2 & Lk & Pk & W & ->). exists (Datatypes.S k), (w1 ++ p1), p2.
        split; [lia|]. split; [constructor; auto|]. split; [exact W|apply app_assoc].
  Qed.
End Wanted.

(** ** Line endings of ABNF texts *)
(** Carriage returns and line feeds only in pairs. *)
Inductive crlf_text : list Z -> Prop :=
| ct_nil : crlf_text []
| ct_char b w : b <> 10 -> b <> 13 -> crlf_text w -> crlf_text (b :: w)
| ct_pair w : crlf_text w -> crlf_text (13 :: 10 :: w).
Lemma ct_app a b : crlf_text a -> crlf_text b -> crlf_text (a ++ b).
Proof. intros A B. induction A as [|x w X Y A IH|w A IH]; cbn [app]; [exact B|apply ct_char; auto|apply ct_pair; auto]. Qed.
Lemma ct_lf w : crlf_text w -> forall p s, w = p ++ 10 :: s -> exists p', p = p' ++ [13].
Proof.
  induction 1 as [|b w A B C IH|w C IH]; intros p s E.
  - destruct p; discriminate.
  - destruct p as [|x p]; cbn [app] in E; [injection E as -> _; congruence|]. injection E as -> E.
    destruct (IH p s E) as [p' ->]. exists (x :: p'). reflexivity.
  - destruct p as [|x p]; cbn [app] in E; [discriminate|]. injection E as <- E. destruct p as [|y p]; cbn [app] in E; [exists []; reflexivity|].
    injection E as <- E. destruct (IH p s E) as [p' ->]. exists (13 :: 10 :: p'). reflexivity.
Qed.
Lemma ct_first w : crlf_text w -> In 10 w -> exists p s, w = p ++ 13 :: 10 :: s /\ ~ In 10 p /\ ~ In 13 p.
Proof.
  induction 1 as [|b w A B C IH|w C IH]; intros H.
  - destruct H.
  - destruct H as [H|H]; [congruence|]. destruct (IH H) as (p & s & -> & N1 & N2). exists (b :: p), s. split; [reflexivity|]. cbn. intuition.
  - exists [], w. cbn. auto.
Qed.

(** The names used below [rulelist], and elements without CR or LF of their own. *)
Definition used_names : list string :=
  map rule_name abnf_grammar ++ ["ALPHA"; "BIT"; "DIGIT"; "DQUOTE"; "HEXDIG"; "HTAB"; "SP"; "VCHAR"; "WSP"; "CRLF"].
Definition inner (v : Z) : bool := ((0 <=? v) && (v <? 128) && negb (v =? 10) && negb (v =? 13))%bool.
Definition num_inner (b s : string) : bool := match numeral b s with Some v => inner v | None => false end.
Fixpoint safe (e : elem) : bool :=
  match e with
  | ERule n => existsb (String.eqb n) used_names
  | EGroup a | EOption a => forallb (forallb (fun r => match r with Rep _ _ e => safe e end)) a
  | EChar s vs => forallb inner vs
  | ENum b StatSeries ns => forallb (num_inner b) ns
  | ENum b StatRange ns => match ns with [lo; hi] => match numeral b lo, numeral b hi with Some l, Some h => (14 <=? l) && (h <? 128) | _, _ => false end | _ => false end
  | EProse _ => true
  end%bool.
Definition safe_rep (r : rep) : bool := match r with Rep _ _ e => safe e end.
Definition safe_alt (a : alternation) : bool := forallb (forallb safe_rep) a.
Lemma safe_table : forallb (fun n => String.eqb n "CRLF" || match get_rule n abnf_grammar with Some r => safe_alt (rule_alt r) | None => false end)%bool used_names = true.
Proof. vm_compute. reflexivity. Qed.
Notation ab := abnf_grammar.
Lemma ab_rule n r a : get_rule n ab = Some r -> resolves ab n a -> a = rule_alt r.
Proof. intros G R. apply (proj2 (PropDag.get_rule_resolves ab n (proj1 PropParse.abnf_wf))) in R as (r' & G' & <-). congruence. Qed.
Lemma used_alt n a : safe (ERule n) = true -> resolves ab n a -> n = "CRLF" \/ safe_alt a = true.
Proof.
  intros S R. cbn [safe] in S. apply existsb_exists in S as (m & I & E). apply String.eqb_eq in E as <-.
  pose proof safe_table as T. rewrite forallb_forall in T. specialize (T n I). apply orb_true_iff in T as [T|T]; [left; apply String.eqb_eq, T|right].
  destruct (get_rule n ab) as [r|] eqn:G; [|discriminate]. rewrite (ab_rule n r a G R). exact T.
Qed.
Lemma inner_utf8 v : inner v = true -> utf8 v = [v] /\ v <> 10 /\ v <> 13.
Proof. unfold inner. intros H. unfold utf8. destruct (Z.ltb_spec v 128); [|lia]. split; [reflexivity|lia]. Qed.
Lemma inner_list rs : Forall (fun r => inner r = true) rs -> crlf_text (utf8s rs) /\ ~ In 13 (utf8s rs).
Proof.
  induction 1 as [|r rs H F [IH N]]; [split; [constructor|intros []]|]. change (utf8s (r :: rs)) with (utf8 r ++ utf8s rs).
  apply inner_utf8 in H as (-> & A & B). cbn [app]. split; [constructor; auto|]. intros [X|X]; auto.
Qed.
Lemma fold_inner v r : inner v = true -> scalar r -> fold_case v = fold_case r -> inner r = true.
Proof.
  unfold inner, fold_case, scalar. intros H S E.
  destruct ((65 <=? v) && (v <=? 90))%bool eqn:A; destruct ((65 <=? r) && (r <=? 90))%bool eqn:B; lia.
Qed.
Lemma safe_term e w : is_terminal e = true -> safe e = true -> in_elem ab e w -> crlf_text w /\ ~ In 13 w.
Proof.
  intros T S H. destruct H as [| | | |s vs rs F Sc|b ns rs F Sc|b lo hi l h r L H B Sc]; try discriminate.
  - apply inner_list. cbn [safe] in S. revert Sc S. induction F as [|v r vs rs C F IH]; intros Sc S; [constructor|]. inversion Sc; subst.
    cbn [forallb] in S. apply andb_true_iff in S as [S1 S2]. constructor; [|apply IH; auto].
    destruct s; cbn in C; [subst; auto|]. eapply fold_inner; eauto.
  - apply inner_list. cbn [safe] in S. clear Sc. induction F as [|v r vs rs C F IH]; [constructor|].
    cbn [forallb] in S. apply andb_true_iff in S as [S1 S2]. constructor; [|apply IH; auto]. unfold num_inner in S1. rewrite C in S1. exact S1.
  - cbn [safe] in S. rewrite L, H in S. replace (utf8 r) with (utf8s [r]) by (cbn; apply app_nil_r). apply inner_list. constructor; [|constructor]. unfold inner. lia.
Qed.
Definition t_cr : elem := ENum "x" StatSeries ["0D"].
Definition t_lf : elem := ENum "x" StatSeries ["0A"].
Lemma series_one s v w : numeral "x" s = Some v -> 0 <= v < 128 -> in_elem ab (ENum "x" StatSeries [s]) w -> w = [v].
Proof.
  intros N B H. inversion H as [| | | | |b ns rs F Sc|]; subst. inversion F as [|? r ? rs' C F']; subst. inversion F'; subst.
  rewrite N in C. injection C as <-. cbn [utf8s flat_map]. unfold utf8. destruct (Z.ltb_spec v 128); [reflexivity|lia].
Qed.
Lemma rule_inv n r w : get_rule n ab = Some r -> in_elem ab (ERule n) w -> in_alt ab (rule_alt r) w.
Proof. intros G H. inversion H as [? a ? R A| | | | | |]; subst. rewrite <- (ab_rule n r a G R). exact A. Qed.
Lemma once_inv e w : in_rep ab (Rep 1 1 e) w -> in_elem ab e w.
Proof.
  intros H. inversion H as [mn mx e' n v A B P]; subst. assert (n = 1%nat) as -> by (destruct B; [discriminate|lia]).
  inversion P as [|e' n w1 w2 H1 H2]; subst. inversion H2; subst. rewrite app_nil_r. exact H1.
Qed.
Lemma alt_one c w : in_alt ab [c] w -> in_cat ab c w.
Proof. intros H. inversion H as [c' a v I C]; subst. destruct I as [<-|[]]. exact C. Qed.
Lemma cat_inv r c w : in_cat ab (r :: c) w -> exists w1 w2, w = w1 ++ w2 /\ in_rep ab r w1 /\ in_cat ab c w2.
Proof. intros H. inversion H; subst. eauto. Qed.
Lemma cat_nil_inv w : in_cat ab [] w -> w = [].
Proof. intros H. inversion H. auto. Qed.
Lemma cr_word w : in_elem ab (ERule "CR") w -> w = [13].
Proof.
  intros H. apply (rule_inv "CR" r_cr) in H; [|reflexivity]. apply alt_one, cat_inv in H as (w1 & w2 & -> & A & B).
  apply cat_nil_inv in B as ->. apply once_inv, (series_one _ 13) in A as ->; [reflexivity|reflexivity|lia].
Qed.
Lemma lf_word w : in_elem ab (ERule "LF") w -> w = [10].
Proof.
  intros H. apply (rule_inv "LF" r_lf) in H; [|reflexivity]. apply alt_one, cat_inv in H as (w1 & w2 & -> & A & B).
  apply cat_nil_inv in B as ->. apply once_inv, (series_one _ 10) in A as ->; [reflexivity|reflexivity|lia].
Qed.
Lemma crlf_alt w : in_alt ab (rule_alt r_crlf) w -> w = [13; 10].
Proof.
  intros H. apply alt_one, cat_inv in H as (w1 & w2 & -> & A & B). apply cat_inv in B as (w3 & w4 & -> & B & C).
  apply cat_nil_inv in C as ->. apply once_inv, cr_word in A as ->. apply once_inv, lf_word in B as ->. reflexivity.
Qed.
Lemma crlf_resolves a : resolves ab "CRLF" a -> a = rule_alt r_crlf.
Proof. apply ab_rule. reflexivity. Qed.

(** Words of the elements used are texts of whole line endings. *)
Lemma safe_words :
  (forall e w, in_elem ab e w -> safe e = true -> crlf_text w) /\
  (forall a w, in_alt ab a w -> safe_alt a = true -> crlf_text w) /\
  (forall c w, in_cat ab c w -> forallb safe_rep c = true -> crlf_text w) /\
  (forall r w, in_rep ab r w -> safe_rep r = true -> crlf_text w) /\
  (forall e n w, in_pow ab e n w -> safe e = true -> crlf_text w).
Proof.
  apply lang_mut.
  - intros n a w R A IH S. destruct (used_alt n a S R) as [->|Q]; auto. apply crlf_resolves in R as ->. apply crlf_alt in A as ->. apply ct_pair, ct_nil.
  - intros a w A IH S. apply IH. exact S.
  - constructor.
  - intros a w A IH S. apply IH. exact S.
  - intros s vs rs F Sc S. apply (safe_term (EChar s vs)); auto. constructor; auto.
  - intros b ns rs F Sc S. apply (safe_term (ENum b StatSeries ns)); auto. constructor; auto.
  - intros b lo hi l h r L H B Sc S. apply (safe_term (ENum b StatRange [lo; hi])); auto. econstructor; eauto.
  - intros c a w I C IH S. apply IH. unfold safe_alt in S. rewrite forallb_forall in S. auto.
  - constructor.
  - intros r c w1 w2 R IHr C IHc S. cbn [forallb] in S. apply andb_true_iff in S as [S1 S2]. apply ct_app; auto.
  - intros mn mx e n w A B P IH S. apply IH. exact S.
  - constructor.
  - intros e n w1 w2 H IHe P IHp S. apply ct_app; auto.
Qed.
(** What a derivation has read, and what it wants next. *)
Definition stands (w : list Z) (t : elem) : Prop :=
  (crlf_text w /\ (safe t = true \/ t = t_cr)) \/ (exists w', w = w' ++ [13] /\ crlf_text w' /\ t = t_lf).
Lemma stands_app v w t : crlf_text v -> stands w t -> stands (v ++ w) t.
Proof.
  intros V [[A B]|(w' & -> & A & B)]; [left; split; [apply ct_app; auto|auto]|right]. exists (v ++ w'). split; [apply app_assoc|]. split; [apply ct_app; auto|auto].
Qed.
Lemma reaches_once e w t : reaches_rep ab (Rep 1 1 e) w t -> reaches ab e w t.
Proof.
  intros H. inversion H as [mn mx e' k w1 w2 t' A P R]; subst. assert (k = 0%nat) as -> by (destruct A; [discriminate|lia]).
  inversion P; subst. exact R.
Qed.
Lemma reaches_leaf n s e w t : get_rule n ab = Some (mkRule s [[Rep 1 1 e]]) -> is_terminal e = true -> reaches ab (ERule n) w t -> w = [] /\ t = e.
Proof.
  intros G T H. inversion H as [t' T'|m a w' t' R A| |]; subst; [discriminate|]. rewrite (ab_rule _ _ _ G R) in A. cbn [rule_alt] in A.
  inversion A as [a' pre r post w1 w2 t' I C Rr]; subst. destruct I as [I|[]]. destruct pre as [|x pre]; [|destruct pre; discriminate].
  injection I as <- <-. apply cat_nil_inv in C as ->. apply reaches_once in Rr. inversion Rr; subst; try discriminate. auto.
Qed.
Lemma crlf_stands w t : reaches_alt ab (rule_alt r_crlf) w t -> stands w t.
Proof.
  intros A. inversion A as [a' pre r post w1 w2 t' I C Rr]; subst. destruct I as [I|[]].
  destruct pre as [|x [|y pre]]; [| |destruct pre; discriminate].
  - injection I as <- <-. apply cat_nil_inv in C as ->. apply reaches_once in Rr. apply (reaches_leaf "CR" "CR" t_cr) in Rr as [-> ->]; [|reflexivity|reflexivity].
    left. split; [constructor|auto].
  - injection I as <- <- <-. apply cat_inv in C as (v1 & v2 & -> & C & N). apply cat_nil_inv in N as ->. apply once_inv, cr_word in C as ->.
    apply reaches_once in Rr. apply (reaches_leaf "LF" "LF" t_lf) in Rr as [-> ->]; [|reflexivity|reflexivity].
    right. exists []. split; [reflexivity|]. split; [constructor|reflexivity].
Qed.
Lemma safe_reaches :
  (forall e w t, reaches ab e w t -> safe e = true -> stands w t) /\
  (forall a w t, reaches_alt ab a w t -> safe_alt a = true -> stands w t) /\
  (forall r w t, reaches_rep ab r w t -> safe_rep r = true -> stands w t).
Proof.
  apply reaches_all.
  - intros t T S. left. split; [constructor|auto].
  - intros m a w t R A IH S. destruct (used_alt m a S R) as [->|Q]; auto. apply crlf_resolves in R as ->. apply crlf_stands, A.
  - intros a w t A IH S. apply IH. exact S.
  - intros a w t A IH S. apply IH. exact S.
  - intros a pre r post w1 w2 t I C R IH S. unfold safe_alt in S. rewrite forallb_forall in S. specialize (S _ I). rewrite forallb_app in S.
    cbn [forallb] in S. rewrite !andb_true_iff in S. destruct S as (S1 & S2 & _). apply stands_app; auto. eapply (proj1 (proj2 (proj2 safe_words))); eauto.
  - intros mn mx e k w1 w2 t A P R IH S. apply stands_app; [eapply (proj2 (proj2 (proj2 (proj2 safe_words)))); eauto|]. apply IH. exact S.
Qed.
Lemma list_crlf w : Lang ab "rulelist" w -> crlf_text w.
Proof. intros H. apply (proj1 safe_words _ _ H). reflexivity. Qed.

(** ** C72 *)
(** A carriage return of a text is wanted where it stands. *)
Lemma cr_wanted p s : Lang ab "rulelist" (p ++ 13 :: s) -> reaches ab (ERule "rulelist") p t_cr.
Proof.
  intros H. destruct (proj1 (wanted ab) _ _ H p 13 s eq_refl) as (p' & t & v1 & v2 & R & T & I & ->).
  destruct (proj1 safe_reaches _ _ _ R eq_refl) as [[_ [S| ->]]|(w' & _ & _ & ->)].
  - exfalso. apply (proj2 (safe_term t _ T S I)). apply in_or_app. right. left. reflexivity.
  - apply (series_one _ 13) in I; [|reflexivity|lia]. destruct v1 as [|x [|y v1]]; try discriminate. rewrite app_nil_r. exact R.
  - apply (series_one _ 10) in I; [|reflexivity|lia]. destruct v1 as [|x [|y v1]]; discriminate.
Qed.

(** A text broken by a bare line feed where a line should have ended: ParseABNF fails at
    that line feed, says that a carriage return was expected, and gives the hint. *)
Theorem C72_bare_lf : forall ord w s rest, any_order ord -> Forall (fun b => 0 <= b < 256) (w ++ 10 :: rest) ->
  Lang abnf_grammar "rulelist" (w ++ 13 :: 10 :: s) -> (forall p, w <> p ++ [13]) ->
  exists e enough, forall fuel ordE sh redefine validate core, (enough <= fuel)%nat ->
    ParseAbnf.parse_abnf ord ordE sh fuel redefine validate core (w ++ 10 :: rest) = ParseAbnf.PA_parse e /\
    pe_offset e = Z.of_nat (length w) /\ pe_line e = 1 + Z.of_nat (count_occ Z.eq_dec w 10) /\
    pe_hint e = true /\ pe_found e = "%x0A (LF)" /\ In "%x0D" (pe_expected e).
Proof.
  intros ord w s rest O By H N. set (input := w ++ 10 :: rest) in *.
  assert (Rej : ~ Lang ab "rulelist" input).
  { intros L. apply list_crlf in L. destruct (ct_lf _ L w rest eq_refl) as [p E]. exact (N p E). }
  destruct (proj2 (PropParse.parse_abnf_tree ord input O) Rej) as (e & en & P). exists e, en. intros fuel ordE sh rd v core F.
  specialize (P fuel ordE sh rd v core F). split; [exact P|].
  unfold ParseAbnf.parse_abnf in P.
  destruct (parse_forest ord fuel input ab "rulelist" default_max_slots 0) as [f| | | |] eqn:E; try discriminate.
  destruct (f_parse_error f) as [e'|] eqn:Pe.
  2:{ destruct (Tree.f_ambiguous fuel f) as [[|]|]; try discriminate. destruct (Tree.f_tree fuel f) as [[t|]|]; try discriminate.
      destruct (Eval.eval_tree _ _ _ _ _); try discriminate. destruct v; try discriminate. destruct (Deps.semval_abnf _ _ _); discriminate. }
  injection P as ->.
  destruct (C70_report_partial _ _ _ _ _ _ _ _ O PropParse.abnf_wf PropParse.abnf_lex PropParse.abnf_apart E) as (H1 & H2 & H3 & _).
  destruct (C14_forest_error _ _ _ _ _ _ _ _ O E) as (_ & Q). destruct (Q _ Pe) as (Q1 & Q2 & Q3).
  assert (Fl : fails_in ab "rulelist" input t_cr (length w)).
  { exists w. split; [exists [], (10 :: rest); auto|]. split; [eapply cr_wanted; eauto|]. intros (j & x & I & (p & q & Ei & Lp & _)).
    apply (series_one _ 13) in I as ->; [|reflexivity|lia]. assert (X : p = w).
    { unfold input in Ei. clear - Ei Lp. revert w Ei Lp. induction p as [|b p IH]; intros [|c w] Ei Lp; try discriminate; auto.
      cbn [app] in Ei. injection Ei as -> Ei. injection Lp as Lp. f_equal. apply IH; auto. }
    subst p. unfold input in Ei. apply app_inv_head in Ei. discriminate. }
  assert (Up : forall t i, fails_in ab "rulelist" input t i -> (i <= length w)%nat).
  { intros t i (x & Sp & R & _). destruct (Nat.le_gt_cases i (length w)) as [Le|Gt]; [exact Le|exfalso].
    destruct Sp as (p & q & Ei & Lp & Li). destruct p; [|discriminate]. cbn [app] in Ei. cbn in Li. subst i.
    assert (X : exists y, x = w ++ 10 :: y).
    { unfold input in Ei. clear - Ei Gt. revert w Ei Gt. induction x as [|b x IH]; intros w Ei Gt; [cbn in Gt; lia|].
      destruct w as [|c w]; cbn [app] in Ei; injection Ei as -> Ei; [exists x; reflexivity|]. cbn [length] in Gt.
      destruct (IH w Ei ltac:(lia)) as [y ->]. exists y. reflexivity. }
    destruct X as [y ->]. destruct (proj1 safe_reaches _ _ _ R eq_refl) as [[C _]|(w' & Ew & C & _)].
    - destruct (ct_lf _ C w y eq_refl) as [p Ep]. exact (N p Ep).
    - destruct (exists_last (l := 10 :: y)) as (z & l & El); [discriminate|]. rewrite El, app_assoc in Ew. apply app_inj_tail in Ew as [Ew ->].
      destruct z as [|b z]; [discriminate|]. injection El as <- El. rewrite <- Ew in C.
      destruct (ct_lf _ C w z eq_refl) as [p Ep]. exact (N p Ep). }
  assert (M : f_maxpos f = length w).
  { pose proof (H1 _ _ Fl) as L1. destruct (f_expected f) as [|x l] eqn:X; [rewrite H3 in * by auto; lia|].
    destruct (proj1 (H2 x) (or_introl eq_refl)) as (t & A & _). apply Up in A. lia. }
  assert (Of : pe_offset e = Z.of_nat (length w)) by congruence. split; [exact Of|].
  assert (Nt : nth_error input (Z.to_nat (pe_offset e)) = Some 10).
  { rewrite Of, Nat2Z.id. unfold input. rewrite nth_error_app2, Nat.sub_diag by lia. reflexivity. }
  unfold f_parse_error in Pe. destruct (f_valid f); [discriminate|]. injection Pe as Pe.
  pose proof (parse_forest_ok _ _ _ _ _ _ _ _ E) as (_ & st & _ & _ & I & _). rewrite I in Pe.
  destruct (C71_found_exact _ _ _ _ By Pe) as (_ & F2 & F3). split; [|split; [|split]].
  - destruct (C14_parse_error_exact _ _ _ _ Pe) as (_ & _ & L & _). rewrite L. unfold before. rewrite Of, Nat2Z.id. unfold input.
    rewrite firstn_app, Nat.sub_diag, firstn_all, app_nil_r. reflexivity.
  - apply F3. split; [exact Nt|]. intros p Ep X. rewrite Of, Nat2Z.id in Ep.
    destruct (exists_last (l := w)) as (z & l & El); [destruct w; discriminate|]. apply (N z). rewrite El, app_length in Ep. cbn [length] in Ep.
    unfold input in X. rewrite El, <- app_assoc, nth_error_app2 in X by lia. rewrite El.
    replace (p - length z)%nat with 0%nat in X by lia. cbn in X. injection X as ->. reflexivity.
  - apply (F2 10); [lia|exact Nt].
  - apply (Permutation_in _ (Permutation_sym Q3)), H2. exists t_cr. rewrite M. split; [exact Fl|reflexivity].
Qed.

(** Every rule list ends lines. *)
Lemma cat_last r c w : in_cat ab (c ++ [r]) w -> exists w1 w2, w = w1 ++ w2 /\ in_rep ab r w2.
Proof.
  revert w. induction c as [|x c IH]; intros w H; cbn [app] in H; apply cat_inv in H as (w1 & w2 & -> & A & B).
  - apply cat_nil_inv in B as ->. exists [], w1. rewrite app_nil_r. auto.
  - destruct (IH _ B) as (v1 & v2 & -> & R). exists (w1 ++ v1), v2. split; [apply app_assoc|exact R].
Qed.
Lemma crlf_ends w : in_elem ab (ERule "CRLF") w -> In 10 w.
Proof. intros H. apply (rule_inv "CRLF" r_crlf), crlf_alt in H as ->; [|reflexivity]. right. left. reflexivity. Qed.
Lemma cnl_ends w : in_elem ab (ERule "c-nl") w -> In 10 w.
Proof.
  intros H. apply (rule_inv "c-nl" r_abnfCNl) in H; [|reflexivity]. inversion H as [c a v I C]; subst. destruct I as [<-|[<-|[]]].
  - apply (cat_last _ []) in C as (w1 & w2 & -> & R). apply once_inv in R. apply in_or_app. right.
    apply (rule_inv "comment" r_abnfComment) in R; [|reflexivity]. apply alt_one in R. apply (cat_last _ [_; _]) in R as (w3 & w4 & -> & R).
    apply in_or_app. right. apply once_inv in R. apply crlf_ends, R.
  - apply (cat_last _ []) in C as (w1 & w2 & -> & R). apply once_inv, crlf_ends in R. apply in_or_app. auto.
Qed.
Lemma list_ends w : Lang ab "rulelist" w -> In 10 w.
Proof.
  intros H. apply (rule_inv "rulelist" r_abnfRulelist) in H; [|reflexivity]. apply alt_one, (cat_last _ []) in H as (w1 & w2 & -> & R).
  apply in_or_app. right. inversion R as [mn mx e n v A B P]; subst. destruct n as [|n]; [lia|]. inversion P as [|e' n' v1 v2 G P']; subst.
  apply in_or_app. left. inversion G as [|a v A'| | | | |]; subst. inversion A' as [c a v I C]; subst. destruct I as [<-|[<-|[]]].
  - apply (cat_last _ []) in C as (x & y & -> & Q). apply in_or_app. right. apply once_inv in Q.
    apply (rule_inv "rule" r_abnfRule) in Q; [|reflexivity]. apply alt_one, (cat_last _ [_; _; _]) in Q as (x' & y' & -> & Q).
    apply in_or_app. right. apply once_inv, cnl_ends in Q. exact Q.
  - apply (cat_last _ []) in C as (x & y & -> & Q). apply in_or_app. right. apply once_inv in Q. inversion Q as [|a v A''| | | | |]; subst.
    apply alt_one, (cat_last _ [_]) in A'' as (x' & y' & -> & Q'). apply in_or_app. right. apply once_inv, cnl_ends in Q'. exact Q'.
Qed.

(** An ABNF text saved with bare line feeds is always refused at its first line end,
    with the hint. *)
Corollary C72_unix_text : forall ord w, any_order ord -> Forall (fun b => 0 <= b < 256) w -> Lang abnf_grammar "rulelist" w ->
  exists e enough line rest, filter (fun b => negb (b =? 13)) w = line ++ 10 :: rest /\ ~ In 10 line /\
    pe_offset e = Z.of_nat (length line) /\ pe_line e = 1 /\ pe_hint e = true /\
    forall fuel ordE sh redefine validate core, (enough <= fuel)%nat ->
    ParseAbnf.parse_abnf ord ordE sh fuel redefine validate core (filter (fun b => negb (b =? 13)) w) = ParseAbnf.PA_parse e.
Proof.
  intros ord w O By H. destruct (ct_first w (list_crlf w H) (list_ends w H)) as (p & s & -> & N1 & N2).
  assert (Fp : filter (fun b => negb (b =? 13)) p = p).
  { clear - N2. induction p as [|b p IH]; [reflexivity|]. cbn [filter]. destruct (Z.eqb_spec b 13) as [->|]; [exfalso; apply N2; left; reflexivity|].
    cbn [negb]. rewrite IH; [reflexivity|]. intros X. apply N2. right. exact X. }
  assert (Fe : filter (fun b => negb (b =? 13)) (p ++ 13 :: 10 :: s) = p ++ 10 :: filter (fun b => negb (b =? 13)) s).
  { rewrite filter_app, Fp. reflexivity. }
  rewrite Fe. set (rest := filter (fun b => negb (b =? 13)) s) in *.
  destruct (C72_bare_lf ord p s rest O) as (e & en & P).
  - apply Forall_app in By as [B1 B2]. apply Forall_app. split; [exact B1|]. constructor; [lia|].
    inversion B2 as [|? ? _ B3]; subst. inversion B3 as [|? ? _ B4]; subst. rewrite Forall_forall in B4 |- *. intros x X.
    apply filter_In in X as [X _]. auto.
  - exact H.
  - intros q ->. apply N2, in_or_app. right. left. reflexivity.
  - destruct (P en (fun _ l => l) (fun _ l => l) false false core_rules (le_n en)) as (P1 & P2 & P3 & P4 & _).
    exists e, en, p, rest. split; [reflexivity|]. split; [exact N1|]. split; [exact P2|]. split; [|split; [exact P4|]].
    + rewrite P3. rewrite (proj1 (count_occ_not_In Z.eq_dec p 10) N1). reflexivity.
    + intros fuel ordE sh rd v core Fu. apply P. exact Fu.
Qed.

(** The text of C70_abnf_case with its carriage returns removed, and a line broken in the
    middle of a rule. *)
Example C72_case : Lang abnf_grammar "rulelist" (bytes "a=b/" ++ [13; 10; 32; 99; 13; 10]) /\
  filter (fun b => negb (b =? 13)) (bytes "a=b/" ++ [13; 10; 32; 99; 13; 10]) = bytes "a=b/" ++ 10 :: [32; 99; 10] /\
  exists e, ParseAbnf.parse_abnf (fun _ l => l) (fun _ l => l) (fun _ l => l) 900 false false core_rules (bytes "a=b/" ++ 10 :: [32; 99; 10]) = ParseAbnf.PA_parse e /\
    pe_offset e = 4 /\ pe_hint e = true.
Proof.
  split.
  - assert (E : exists f, parse_forest (fun _ l => l) 900 (bytes "a=b/" ++ [13; 10; 32; 99; 13; 10]) abnf_grammar "rulelist" default_max_slots 0 = PF_ok f /\ f_valid f = true).
    { eexists. split; [vm_compute; reflexivity|vm_compute; reflexivity]. }
    destruct E as (f & E & V). apply (C05_forest_valid_exact_partial _ _ _ _ _ _ _ _ (id_order) PropParse.abnf_wf PropParse.abnf_lex PropParse.abnf_apart E). exact V.
  - split; [vm_compute; reflexivity|]. eexists. split; [vm_compute; reflexivity|]. vm_compute. auto.
Qed.

Print Assumptions C72_bare_lf.
Print Assumptions C72_unix_text.
