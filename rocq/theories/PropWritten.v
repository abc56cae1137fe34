(** C40: which rules can be written at all.  The theorems about printing and reading ask
    that some text says a rule; here is the exact test. *)
(** The definitions here are those of statements, proofs and examples; they model no code. *)
From Coq Require Import ZArith Arith String Ascii Bool List Lia.
From Verif Require Import Syntax Spec Num Check Printer ReadSpec PrintText PrintInj PropPrint PropRead PropParse.
Import ListNotations.
Local Open Scope string_scope.
Local Open Scope list_scope.
Local Open Scope Z_scope.

(** What RFC 5234 and RFC 7405 can write: names of letters, digits and hyphens, non-empty
    groups, quoted strings and prose of printable characters without their closing mark,
    numerals of their base, and repeat counts an [int] holds. *)
Definition fits_int (v : Z) : bool := (0 <=? v) && (v <=? 2 ^ 63 - 1).
Fixpoint printable_elem (e : elem) : bool :=
  match e with
  | ERule n => lex_name n
  | EGroup a | EOption a => negb (Nat.eqb (length a) 0) && forallb (fun c => negb (Nat.eqb (length c) 0) && forallb printable_rep c) a
  | EChar _ vs => forallb quotable vs
  | ENum b st es =>
      (String.eqb b "b" || String.eqb b "d" || String.eqb b "x") && forallb (fun s => match numeral b s with Some _ => true | None => false end) es &&
      match st with StatRange => Nat.eqb (length es) 2 | StatSeries => negb (Nat.eqb (length es) 0) end
  | EProse vs => forallb (fun s => match s with String c EmptyString => (32 <=? cval c) && (cval c <=? 126) && negb (cval c =? 62) | _ => false end) vs
  end
with printable_rep (r : rep) : bool :=
  match r with Rep mn mx e => fits_int mn && ((mx =? inf) || fits_int mx) && printable_elem e end.
Definition printable_alt (a : alternation) : bool :=
  negb (Nat.eqb (length a) 0) && forallb (fun c => negb (Nat.eqb (length c) 0) && forallb printable_rep c) a.
Definition printable_rule (r : rule) : bool := lex_name (rule_name r) && printable_alt (rule_alt r).

(** ** From texts *)
Lemma fits_spec v : fits_int v = true <-> fits v.
Proof. unfold fits_int, fits. rewrite andb_true_iff, !Z.leb_le. reflexivity. Qed.
Lemma base_lex b c : base_letter b c -> (String.eqb b "b" || String.eqb b "d" || String.eqb b "x")%bool = true.
Proof. intros [? _|? _|? _]; reflexivity. Qed.
Lemma base_of b : (String.eqb b "b" || String.eqb b "d" || String.eqb b "x")%bool = true -> exists c, base_letter b c.
Proof. rewrite !orb_true_iff, !String.eqb_eq. intros [[->| ->]| ->]; eexists; constructor; left; reflexivity. Qed.
Lemma number_test b s : number_in b s <-> match numeral b s with Some _ => true | None => false end = true.
Proof. unfold number_in. destruct (numeral b s); split; intros H; eauto; try discriminate. destruct H; discriminate. Qed.
Lemma text_printable : (forall e w, text_elem e w -> printable_elem e = true) /\ (forall r w, text_rep r w -> printable_rep r = true) /\
  (forall c w, text_cat c w -> (negb (Nat.eqb (length c) 0) && forallb printable_rep c)%bool = true) /\ (forall a w, text_alt a w -> printable_alt a = true).
Proof.
  apply text_mut; unfold printable_alt.
  - intros n L. exact L.
  - intros a b1 w b2 _ _ H _. exact H.
  - intros a b1 w b2 _ _ H _. exact H.
  - intros s m vs _ F. cbn [printable_elem]. apply forallb_forall. rewrite Forall_forall in F. exact F.
  - intros b c es B NE F. cbn [printable_elem]. rewrite (base_lex b c B). cbn [andb]. rewrite andb_true_iff. split.
    + apply forallb_forall. intros s I. rewrite Forall_forall in F. apply (number_test b), F, I.
    + destruct es; [congruence|reflexivity].
  - intros b c lo hi B L H. cbn [printable_elem]. rewrite (base_lex b c B). cbn [andb forallb length Nat.eqb].
    rewrite (proj1 (number_test b lo) L), (proj1 (number_test b hi) H). reflexivity.
  - intros vs F. cbn [printable_elem]. apply forallb_forall. intros s I. apply in_map_iff in I as (v & <- & I).
    rewrite Forall_forall in F. destruct (F v I) as [B N]. unfold one_char, cval. rewrite N_ascii_embedding by lia. rewrite Z2N.id by lia. lia.
  - intros e w _ H. cbn [printable_rep]. rewrite H. reflexivity.
  - intros s mn mx e w R _ H. cbn [printable_rep]. rewrite H, andb_true_r. destruct (repeat_bounds _ _ _ R) as [A B].
    apply fits_spec in A. rewrite A. cbn [andb]. apply orb_true_iff. destruct B as [B|B]; [left; apply Z.eqb_eq; exact B|right; apply fits_spec; exact B].
  - intros r w _ H. cbn [length forallb]. rewrite H. reflexivity.
  - intros r w b1 b c w' _ H _ _ _ IH. cbn [length forallb]. rewrite H. apply andb_true_iff in IH as [_ IH]. exact IH.
  - intros c w _ H. cbn [length forallb]. rewrite H. reflexivity.
  - intros c w b1 b2 a w' _ H _ _ _ IH. cbn [length forallb]. rewrite H. apply andb_true_iff in IH as [_ IH]. exact IH.
Qed.

(** ** To texts *)
Lemma cat_writable c : c <> [] -> Forall (fun r => exists w, text_rep r w) c -> exists w, text_cat c w.
Proof.
  intros NE F. induction F as [|r c [w W] F IH]; [congruence|]. destruct c as [|r' c]; [exists w; apply tc_one, W|].
  destruct IH as [w' W']; [discriminate|]. exists (w ++ [32] ++ [] ++ w'). apply tc_more; auto; constructor. left. reflexivity.
Qed.
Lemma alt_writable a : a <> [] -> Forall (fun c => exists w, text_cat c w) a -> exists w, text_alt a w.
Proof.
  intros NE F. induction F as [|c a [w W] F IH]; [congruence|]. destruct a as [|c' a]; [exists w; apply ta_one, W|].
  destruct IH as [w' W']; [discriminate|]. exists (w ++ [] ++ 47 :: [] ++ w'). apply ta_more; auto; constructor.
Qed.
Lemma alt_from a : Forall (Forall (fun r => printable_rep r = true -> exists w, text_rep r w)) a -> printable_alt a = true -> exists w, text_alt a w.
Proof.
  unfold printable_alt. intros F H. apply andb_true_iff in H as [N H]. apply alt_writable; [intros ->; discriminate|].
  rewrite forallb_forall in H. rewrite Forall_forall in *. intros c I. specialize (F c I). specialize (H c I). apply andb_true_iff in H as [M H].
  apply cat_writable; [intros ->; discriminate|]. rewrite forallb_forall in H. rewrite Forall_forall in *. intros r J. auto.
Qed.
Lemma repeat_writes mn mx : fits mn -> mx = inf \/ fits mx -> exists s, repeat_denotes s mn mx.
Proof.
  intros A [->|B].
  - exists (bytes (itoa mn) ++ [42]). apply rd_min, itoa_denotes, A.
  - exists (bytes (itoa mn) ++ 42 :: bytes (itoa mx)). apply rd_both; apply itoa_denotes; [apply A|apply B].
Qed.
Lemma printable_text : (forall e, printable_elem e = true -> exists w, text_elem e w) /\ (forall r, printable_rep r = true -> exists w, text_rep r w).
Proof.
  apply elem_rep_ind.
  - intros n H. eexists. apply te_rule, H.
  - intros a F H. destruct (alt_from a F H) as [w W]. exists (40 :: [] ++ w ++ [] ++ [41]). apply te_group; auto; constructor.
  - intros a F H. destruct (alt_from a F H) as [w W]. exists (91 :: [] ++ w ++ [] ++ [93]). apply te_option; auto; constructor.
  - intros s vs H. cbn [printable_elem] in H. rewrite forallb_forall in H.
    destruct s; eexists; apply te_char; try apply (cm_s 115); try apply cm_none; auto; apply Forall_forall; exact H.
  - intros b st es H. cbn [printable_elem] in H. rewrite !andb_true_iff in H. destruct H as [[B F] L]. destruct (base_of b B) as [c C].
    rewrite forallb_forall in F. assert (F' : Forall (number_in b) es) by (apply Forall_forall; intros s I; apply number_test, F, I).
    destruct st.
    + eexists. apply te_series; [exact C|intros ->; discriminate|exact F'].
    + destruct es as [|lo [|hi [|]]]; try discriminate. inversion F' as [|? ? F1 F2]; subst. inversion F2; subst. eexists. apply te_range; eauto.
  - intros vs H. cbn [printable_elem] in H. rewrite forallb_forall in H.
    assert (E : exists us, vs = map one_char us /\ Forall (fun v => 32 <= v <= 126 /\ v <> 62) us).
    { clear - H. induction vs as [|s vs IH]; [exists []; split; [reflexivity|constructor]|].
      destruct IH as (us & -> & F); [intros x I; apply H; right; exact I|]. specialize (H s (or_introl eq_refl)).
      destruct s as [|c [|? ?]]; try discriminate. exists (cval c :: us). split.
      - cbn [map]. f_equal. unfold one_char, cval. rewrite N2Z.id, ascii_N_embedding. reflexivity.
      - constructor; [lia|exact F]. }
    destruct E as (us & -> & F). eexists. apply te_prose, F.
  - intros mn mx e IH H. cbn [printable_rep] in H. rewrite !andb_true_iff, orb_true_iff, Z.eqb_eq, !fits_spec in H. destruct H as [[A B] E].
    destruct (IH E) as [w W]. destruct (repeat_writes mn mx A B) as [s S]. exists (s ++ w).
    pose proof (tr_repeat s mn mx e w S W) as T. rewrite (fits_saturate mn A) in T.
    assert (Sm : saturate mx = mx) by (destruct B as [->|B]; [reflexivity|apply fits_saturate, B]). rewrite Sm in T. exact T.
Qed.

Theorem C40_written_exact : forall r, written_rule r <-> printable_rule r = true.
Proof.
  intros r. unfold written_rule, written_alt, printable_rule. rewrite andb_true_iff. split; intros [L H]; (split; [exact L|]).
  - destruct H as [w H]. exact (proj2 (proj2 (proj2 text_printable)) _ _ H).
  - apply alt_from; [|exact H]. apply Forall_forall. intros c _. apply Forall_forall. intros x _. apply printable_text.
Qed.
Lemma written_all rs : forallb printable_rule rs = true -> Forall written_rule rs.
Proof. rewrite forallb_forall. intros H. apply Forall_forall. intros r I. apply C40_written_exact, H, I. Qed.

(** ** What can be written is lexically well formed *)
Lemma digit_alnum c d : digit_val c = Some d -> (is_alpha c || is_dig c)%bool = true.
Proof.
  unfold digit_val, is_alpha, is_dig, cval. destruct ((48 <=? _) && (_ <=? 57)) eqn:A; [intros _; apply orb_true_r|].
  destruct ((65 <=? _) && (_ <=? 70)) eqn:B; [intros _|destruct ((97 <=? _) && (_ <=? 102)) eqn:C; [intros _|discriminate]];
    repeat rewrite ?andb_true_iff, ?orb_true_iff, ?Z.leb_le in *; lia.
Qed.
Lemma number_lex b s : number_in b s -> (negb (String.eqb s "") && all_chars (fun c => is_alpha c || is_dig c) s)%bool = true.
Proof.
  intros (v & N). unfold numeral in N. destruct (radix_of b) as [r|]; [|discriminate]. destruct s as [|c s]; [discriminate|].
  change (negb (String.eqb (String c s) "")) with true. cbn [andb]. revert N. generalize 0. generalize (String c s). clear.
  intros t. induction t as [|c t IH]; intros acc; cbn [digits_val all_chars]; [reflexivity|].
  destruct (digit_val c) as [d|] eqn:D; [|discriminate]. destruct (d <? r); [|discriminate]. intros N.
  rewrite (digit_alnum c d D). exact (IH _ N).
Qed.
Lemma one_char_lex v : 32 <= v <= 126 /\ v <> 62 -> match one_char v with String c EmptyString => negb (cval c =? 62) | _ => false end = true.
Proof.
  intros [B N]. unfold one_char, cval. rewrite N_ascii_embedding by lia. rewrite Z2N.id by lia.
  apply negb_true_iff, Z.eqb_neq. exact N.
Qed.
Lemma text_lex : (forall e w, text_elem e w -> lex_elem e = true) /\ (forall r w, text_rep r w -> lex_rep r = true) /\
  (forall c w, text_cat c w -> (negb (Nat.eqb (length c) 0) && forallb lex_rep c)%bool = true) /\ (forall a w, text_alt a w -> lex_alt a = true).
Proof.
  apply text_mut; unfold lex_alt.
  - intros n L. exact L.
  - intros a b1 w b2 _ _ H _. exact H.
  - intros a b1 w b2 _ _ H _. exact H.
  - intros s m vs _ F. cbn [lex_elem]. apply forallb_forall. rewrite Forall_forall in F. exact F.
  - intros b c es B NE F. cbn [lex_elem]. unfold lex_num. rewrite (base_lex b c B). cbn [andb]. rewrite andb_true_iff. split.
    + apply forallb_forall. intros s I. rewrite Forall_forall in F. apply (number_lex b), F, I.
    + destruct es; [congruence|reflexivity].
  - intros b c lo hi B L H. cbn [lex_elem]. unfold lex_num. rewrite (base_lex b c B). cbn [andb forallb]. rewrite (number_lex b lo L), (number_lex b hi H). reflexivity.
  - intros vs F. cbn [lex_elem]. unfold lex_prose. apply forallb_forall. intros s I. apply in_map_iff in I as (v & <- & I).
    rewrite Forall_forall in F. apply one_char_lex, F, I.
  - intros e w _ H. cbn [lex_rep]. rewrite H. reflexivity.
  - intros s mn mx e w R _ H. cbn [lex_rep]. rewrite H, andb_true_r.
    assert (B : 0 <= mn /\ (mx = inf \/ 0 <= mx)).
    { destruct R; repeat match goal with H : digits_denote _ _ |- _ => apply digits_nonneg in H end; auto using Z.le_refl. }
    destruct B as [B B']. apply andb_true_iff. split; apply Z.leb_le; [apply saturate_nonneg, B|].
    destruct B' as [->|B']; [discriminate|]. pose proof (saturate_nonneg _ B'). lia.
  - intros r w _ H. cbn [length forallb]. rewrite H. reflexivity.
  - intros r w b1 b c w' _ H _ _ _ IH. cbn [length forallb]. rewrite H. apply andb_true_iff in IH as [_ IH]. exact IH.
  - intros c w _ H. cbn [length forallb]. rewrite H. reflexivity.
  - intros c w b1 b2 a w' _ H _ _ _ IH. cbn [length forallb]. rewrite H. apply andb_true_iff in IH as [_ IH]. exact IH.
Qed.
Lemma written_lex r : written_rule r -> (lex_name (rule_name r) && lex_alt (rule_alt r))%bool = true.
Proof. intros [L [w H]]. rewrite L. exact (proj2 (proj2 (proj2 text_lex)) _ _ H). Qed.


(** *** Cases *)
(** Rules that can be written, with each kind of element, and rules that cannot: an empty
    group, a quote in a string, a numeral that is not one, a count past the ints. *)
Definition writable_rule : rule :=
  mkRule "ab" [[Rep 2 3 (EGroup [[Rep 1 1 (ERule "c")]; [Rep 1 1 (ENum "x" StatRange ["41"; "5A"])]]); Rep 0 inf (EChar true [113])];
               [Rep 1 1 (EOption [[Rep 1 1 (EProse [one_char 97])]]); Rep 7 7 (ENum "d" StatSeries ["13"; "10"])]].
Example C40_written_case : written_rule writable_rule /\
  ~ written_rule (mkRule "a" [[Rep 1 1 (EGroup [])]]) /\ ~ written_rule (mkRule "a" [[Rep 1 1 (EChar false [34])]]) /\
  ~ written_rule (mkRule "a" [[Rep 1 1 (ENum "b" StatSeries ["2"])]]) /\ ~ written_rule (mkRule "a" [[Rep 0 (2 ^ 63) (ERule "a")]]).
Proof.
  split; [apply C40_written_exact; vm_compute; reflexivity|].
  repeat split; intros H; apply C40_written_exact in H; vm_compute in H; discriminate.
Qed.

Print Assumptions C40_written_exact.
