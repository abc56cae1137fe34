(** Claim C68: the comments of the emitted file (codegen.go:143-153, 384-437).  The name
    and the symbols of a production are written after [//] on the line of its case; a
    comment ends at the first line feed, and what follows is code. *)
From Coq Require Import ZArith Arith String Ascii Bool List Lia.
From Verif Require Import Syntax Spec Utf8 Num Check Printer PrintInj Slots LowerProof LowerLang Occ ReadSpec PropPrint PropWritten CodegenGlue CodegenProof.
From Verif Require Codegen CodegenScope GoScope PropCodegen ParseAbnf PropParse PropFromAbnf.
Import ListNotations.
Local Open Scope string_scope.
Local Open Scope list_scope.
Local Open Scope Z_scope.

(** ** The code *)
(** sgNT.label (sppf.go:65-74, 111, 121, 150, 174, 197, 210): the text the dedup key was
    made of.  Slots.v does not keep labels; they are recovered here from the keys, so the
    name of an undefined rule appears in lower case. *)
Definition key_label (k : string) : string :=
  match k with
  | String _ (String _ (String _ (String c r))) => if Ascii.eqb c ":" then r else match r with String _ r' => r' | EmptyString => "" end
  | _ => ""
  end.
(** nt.label (codegen.go:388, 412-413): the label of a nonterminal, by its number. *)
Definition label_of (idx : list (string * nat)) (id : nat) : string :=
  match find (fun kv => match assoc (fst kv) idx with Some id' => Nat.eqb id' id | None => false end) idx with
  | Some (k, _) => key_label k
  | None => ""
  end.
(** The first replacement of sanitizeComment (codegen.go:427). *)
Fixpoint break_close (s : string) : string :=
  match s with
  | String c r =>
      match r with
      | String d r' => if (Ascii.eqb c "*" && Ascii.eqb d "/")%bool then String "*" (String " " (String "/" (break_close r'))) else String c (break_close r)
      | EmptyString => String c EmptyString
      end
  | EmptyString => EmptyString
  end.
(** A replacement of one character by one (codegen.go:428-429). *)
Fixpoint map_chars (f : ascii -> ascii) (s : string) : string :=
  match s with String c r => String (f c) (map_chars f r) | EmptyString => EmptyString end.
(** sanitizeComment (codegen.go:426-431). *)
Definition sanitize (s : string) : string :=
  map_chars (fun c => if ((cval c =? 13) || (cval c =? 10))%bool then " "%char else c) (break_close s).
(** symStr (codegen.go:405-424); ssym.term is never nil. *)
Definition sym_str (sg : slot_grammar) (idx : list (string * nat)) (s : ssym) : string :=
  match s with
  | SNonterm X =>
      match nth_error (sg_nts sg) X with
      | None => ""
      | Some n => if negb (String.eqb (nt_rulename n) "") then nt_rulename n
                  else if negb (String.eqb (label_of idx X) "") then label_of idx X else ("nt" ++ itoa (Z.of_nat X))%string
      end
  | SEps => "eps"
  | STerm t => sanitize (elem_string t)
  end.
(** White space for strings.TrimSpace (codegen.go:401), ASCII only. *)
Definition space_char (c : ascii) : bool := ((9 <=? cval c) && (cval c <=? 13) || (cval c =? 32))%bool.
(** strings.TrimSpace (codegen.go:401), at the front. *)
Fixpoint trim_front (l : list ascii) : list ascii :=
  match l with c :: r => if space_char c then trim_front r else l | [] => [] end.
(** strings.TrimSpace (codegen.go:401). *)
Definition trim_space (s : string) : string :=
  string_of_list_ascii (rev (trim_front (rev (trim_front (list_ascii_of_string s))))).
(** The parts of slotComment, with the dot (codegen.go:391-400). *)
Fixpoint dotted_parts (dot : nat) (l : list string) : list string :=
  match l, dot with
  | _, O => "." :: l
  | x :: r, Datatypes.S d => x :: dotted_parts d r
  | [], _ => []
  end.
(** slotComment (codegen.go:384-403). *)
Definition slot_comment (sg : slot_grammar) (idx : list (string * nat)) (si : Codegen.sinfo) : string :=
  match nth_error (sg_nts sg) (Codegen.si_nt si) with
  | None => ""
  | Some nt =>
      let name := if String.eqb (nt_rulename nt) "" then label_of idx (Codegen.si_nt si) else nt_rulename nt in
      match nth_error (nt_alts nt) (Codegen.si_alt si) with
      | None => ""
      | Some prod =>
          (trim_space (name ++ " ::= " ++ join " " (dotted_parts (Codegen.si_dot si) (map (sym_str sg idx) prod))) ++ "  (" ++
           itoa (Z.of_nat (Codegen.si_nt si)) ++ "," ++ itoa (Z.of_nat (Codegen.si_alt si)) ++ "," ++ itoa (Z.of_nat (Codegen.si_dot si)) ++ ")")%string
      end
  end.
(** The comments of emitProcess (codegen.go:143-153), in the order of the cases; empty
    when GenerateGoParser returns an error. *)
Definition case_comments (fuel : nat) (g : grammar) (root : string) : list string :=
  match get_rule root g, lower_rule g default_max_slots fuel root ls_init with
  | Some _, Some (id, st) =>
      if ls_over st then []
      else let sg := mkSG (ls_nts st) id in map (slot_comment sg (ls_index st)) (snd (Codegen.assign_slots sg))
  | _, _ => []
  end.

(** ** What is asked of a comment *)
(** Printable ASCII: no line feed, carriage return, NUL or byte order mark. *)
Definition comment_char (c : ascii) : bool := (32 <=? cval c) && (cval c <=? 126).

(** ** Characters *)
Notation plainly := (all_chars comment_char).
Lemma plain_app a b : plainly (a ++ b)%string = (plainly a && plainly b)%bool.
Proof. induction a as [|c a IH]; [reflexivity|]. cbn [append all_chars]. rewrite IH. apply andb_assoc. Qed.
Lemma plain_join sep l : plainly sep = true -> Forall (fun s => plainly s = true) l -> plainly (join sep l) = true.
Proof.
  intros S F. induction F as [|x l P F IH]; [reflexivity|]. destruct l as [|y l]; [exact P|].
  change (join sep (x :: y :: l)) with (x ++ sep ++ join sep (y :: l))%string. rewrite !plain_app, P, S. exact IH.
Qed.
Lemma plain_cat l : Forall (fun s => plainly s = true) l -> plainly (cat_all l) = true.
Proof. intros F. induction F as [|x l P F IH]; [reflexivity|]. cbn [cat_all]. rewrite plain_app, P. exact IH. Qed.
Lemma plain_weaken (p : ascii -> bool) s : (forall c, p c = true -> comment_char c = true) -> all_chars p s = true -> plainly s = true.
Proof.
  intros H. induction s as [|c s IH]; cbn [all_chars]; [reflexivity|]. rewrite !andb_true_iff. intros [A B]. split; [apply H, A|apply IH, B].
Qed.
Lemma alpha_plain c : is_alpha c = true -> comment_char c = true.
Proof. unfold is_alpha, comment_char. lia. Qed.
Lemma dig_plain c : is_dig c = true -> comment_char c = true.
Proof. unfold is_dig, comment_char. lia. Qed.
Lemma name_plain n : lex_name n = true -> plainly n = true.
Proof.
  destruct n as [|c n]; [discriminate|]. cbn [lex_name all_chars]. rewrite !andb_true_iff. intros [A B]. split; [apply alpha_plain, A|].
  revert B. apply plain_weaken. intros d. unfold name_char, is_alpha, is_dig, comment_char. lia.
Qed.
Lemma lower_char_plain c : comment_char c = true -> comment_char (lower_ascii c) = true.
Proof. destruct c as [[] [] [] [] [] [] [] []]; vm_compute; auto. Qed.
Lemma lower_plain s : plainly s = true -> plainly (lower s) = true.
Proof.
  induction s as [|c s IH]; [reflexivity|]. cbn [lower all_chars]. rewrite !andb_true_iff. intros [A B]. split; [apply lower_char_plain, A|apply IH, B].
Qed.
Lemma itoa_plain v : 0 <= v -> plainly (itoa v) = true.
Proof. intros H. eapply plain_weaken; [apply dig_plain|apply itoa_digits, H]. Qed.
Lemma repeat_plain mn mx : 0 <= mn -> mx = inf \/ 0 <= mx -> plainly (repeat_string mn mx) = true.
Proof.
  intros A B. unfold repeat_string. destruct (mn =? mx) eqn:E.
  - destruct (mn =? 1); [reflexivity|apply itoa_plain, A].
  - rewrite !plain_app. assert (X : plainly (if mn =? 0 then "" else itoa mn) = true) by (destruct (mn =? 0); [reflexivity|apply itoa_plain, A]).
    rewrite X. cbn [andb]. destruct (Z.eqb_spec mx inf) as [->|N]; [reflexivity|]. destruct B as [B|B]; [congruence|]. rewrite (itoa_plain mx B). reflexivity.
Qed.
Lemma quoted_plain vs : Forall (fun v => quotable v = true) vs -> plainly (char_string vs) = true.
Proof.
  intros F. unfold char_string. cbn [all_chars]. rewrite plain_app, andb_true_iff. split; [reflexivity|]. rewrite andb_true_r. apply plain_cat.
  apply Forall_forall. intros s I. apply in_map_iff in I as (v & <- & I). rewrite Forall_forall in F. specialize (F v I). unfold quotable in F.
  assert (E : string_of_rune v = [v]).
  { unfold string_of_rune. assert (Hv : valid_rune v = true) by (unfold valid_rune; lia). rewrite Hv. destruct (Z.leb_spec v 127); [reflexivity|lia]. }
  rewrite E. unfold string_of_bytes. cbn [map string_of_list_ascii all_chars]. rewrite andb_true_r. unfold comment_char, cval.
  rewrite N_ascii_embedding by lia. rewrite Z2N.id by lia. lia.
Qed.
Lemma number_plain b s : number_in b s -> plainly s = true.
Proof.
  intros N. apply number_lex in N. apply andb_true_iff in N as [_ N]. revert N. apply plain_weaken.
  intros c. rewrite orb_true_iff. intros [A|A]; [apply alpha_plain, A|apply dig_plain, A].
Qed.
Lemma alt_plain a : Forall (Forall (fun r => printable_rep r = true -> plainly (rep_string r) = true)) a ->
  forallb (fun c => negb (Nat.eqb (length c) 0) && forallb printable_rep c) a = true ->
  plainly (join " / " (map (fun c => join " " (map rep_string c)) a)) = true.
Proof.
  intros F H. rewrite forallb_forall in H. apply plain_join; [reflexivity|]. apply Forall_forall. intros s I. apply in_map_iff in I as (c & <- & I).
  apply plain_join; [reflexivity|]. apply Forall_forall. intros s J. apply in_map_iff in J as (r & <- & J).
  rewrite Forall_forall in F. specialize (F c I). rewrite Forall_forall in F. apply (F r J).
  specialize (H c I). apply andb_true_iff in H as [_ H]. rewrite forallb_forall in H. apply H, J.
Qed.
Lemma printed_plain : (forall e, printable_elem e = true -> plainly (elem_string e) = true) /\ (forall r, printable_rep r = true -> plainly (rep_string r) = true).
Proof.
  apply elem_rep_ind.
  - intros n H. apply name_plain, H.
  - intros a F H. cbn [elem_string printable_elem] in *. apply andb_true_iff in H as [_ H]. rewrite !plain_app, (alt_plain a F H). reflexivity.
  - intros a F H. cbn [elem_string printable_elem] in *. apply andb_true_iff in H as [_ H]. rewrite !plain_app, (alt_plain a F H). reflexivity.
  - intros s vs H. apply quoted_plain. cbn [printable_elem] in H. rewrite forallb_forall in H. apply Forall_forall. exact H.
  - intros b st es H. cbn [elem_string printable_elem] in *. rewrite !andb_true_iff in H. destruct H as [[B F] _]. unfold num_string. rewrite !plain_app.
    assert (Pb : plainly b = true) by (rewrite !orb_true_iff, !String.eqb_eq in B; destruct B as [[->| ->]| ->]; reflexivity).
    rewrite Pb. rewrite plain_join; [reflexivity|destruct st; reflexivity|]. rewrite forallb_forall in F. apply Forall_forall. intros s I.
    apply (number_plain b), number_test, F, I.
  - intros vs H. cbn [elem_string printable_elem] in *. rewrite !plain_app, plain_cat; [reflexivity|]. rewrite forallb_forall in H.
    apply Forall_forall. intros s I. specialize (H s I). destruct s as [|c [|? ?]]; try discriminate. cbn [all_chars]. unfold comment_char. lia.
  - intros mn mx e IH H. cbn [rep_string printable_rep] in *. rewrite !andb_true_iff, orb_true_iff, Z.eqb_eq, !fits_spec in H. destruct H as [[A B] E].
    unfold PrintText.fits in *. rewrite plain_app, (IH E), repeat_plain; [reflexivity|lia|]. destruct B; [auto|right; lia].
Qed.
Lemma sanitize_plain s : plainly s = true -> plainly (sanitize s) = true.
Proof.
  intros H. unfold sanitize. assert (B : plainly (break_close s) = true).
  { assert (X : forall n t, (String.length t <= n)%nat -> plainly t = true -> plainly (break_close t) = true); [|exact (X _ s (le_n _) H)].
    induction n as [|n IH]; intros [|c t] L P; try reflexivity; [cbn [String.length] in L; lia|].
    cbn [break_close]. destruct t as [|d t]; [exact P|]. cbn [all_chars] in P. rewrite !andb_true_iff in P. destruct P as (P1 & P2 & P3). cbn [String.length] in L.
    destruct (Ascii.eqb c "*" && Ascii.eqb d "/")%bool.
    - cbn [all_chars]. rewrite (IH t); [reflexivity|lia|exact P3].
    - cbn [all_chars]. rewrite P1. apply IH; [cbn [String.length]; lia|]. cbn [all_chars]. rewrite P2. exact P3. }
  revert B. generalize (break_close s). intros t. induction t as [|c t IH]; cbn [all_chars map_chars]; [reflexivity|].
  rewrite !andb_true_iff. intros [A B]. split; [|apply IH, B]. destruct ((cval c =? 13) || (cval c =? 10)); [reflexivity|exact A].
Qed.
Lemma plain_list s : plainly s = forallb comment_char (list_ascii_of_string s).
Proof. induction s as [|c s IH]; [reflexivity|]. cbn [all_chars list_ascii_of_string forallb]. rewrite IH. reflexivity. Qed.
Lemma trim_front_sub l c : In c (trim_front l) -> In c l.
Proof. induction l as [|d l IH]; cbn [trim_front]; [auto|]. destruct (space_char d); [intros I; right; apply IH, I|auto]. Qed.
Lemma trim_plain s : plainly s = true -> plainly (trim_space s) = true.
Proof.
  rewrite !plain_list. unfold trim_space. rewrite list_ascii_of_string_of_list_ascii, !forallb_forall. intros H c I. apply H.
  apply trim_front_sub. apply in_rev. apply trim_front_sub. apply in_rev in I. exact I.
Qed.

(** ** Occurrences and labels *)
Lemma core_printable : forallb printable_rule core_rules = true.
Proof. vm_compute. reflexivity. Qed.
Lemma rep_in_printable a r : rep_in a r -> printable_alt a = true -> printable_rep r = true.
Proof.
  assert (P : forall a c r, In c a -> In r c -> printable_alt a = true -> printable_rep r = true).
  { intros a0 c r0 I J H. unfold printable_alt in H. apply andb_true_iff in H as [_ H]. rewrite forallb_forall in H. specialize (H c I).
    apply andb_true_iff in H as [_ H]. rewrite forallb_forall in H. apply H, J. }
  induction 1 as [a c r I J|a c mn mx b r I J R IH|a c mn mx b r I J R IH]; intros H; pose proof (P _ _ _ I J H) as Q; auto;
    cbn [printable_rep printable_elem] in Q; rewrite !andb_true_iff in Q; apply IH; unfold printable_alt; rewrite andb_true_iff; tauto.
Qed.
Section Grammar.
  Variable g : grammar.
  Hypothesis Wr : Forall written_rule g.
  Lemma rule_printable r : In r (g ++ core_rules) -> printable_rule r = true.
  Proof.
    intros I. apply in_app_or in I as [I|I].
    - rewrite Forall_forall in Wr. apply C40_written_exact, Wr, I.
    - pose proof core_printable as C. rewrite forallb_forall in C. apply C, I.
  Qed.
  Lemma occ_printable r : occ_rep g r -> printable_rep r = true.
  Proof.
    intros O. apply Occ.occ_rep_in in O as (x & I & R). apply rule_printable in I. unfold printable_rule in I. apply andb_true_iff in I as [_ I].
    exact (rep_in_printable _ _ R I).
  Qed.
  Lemma occ_elem_printable e : occ_elem g e -> printable_elem e = true.
  Proof.
    intros O. inversion O as [mn mx e' Or]; subst. apply occ_printable in Or. cbn [printable_rep] in Or. apply andb_true_iff in Or as [_ Or]. exact Or.
  Qed.

  Variable root : string.
  Variable sg : slot_grammar.
  Variable idx : index.
  Hypothesis R : represents g root sg idx.
  Lemma label_key k id : assoc k idx = Some id -> label_of idx id = key_label k.
  Proof.
    intros A. unfold label_of. destruct (find _ idx) as [[k' v]|] eqn:F.
    - apply find_some in F as [I E]. cbn [fst] in E. destruct (assoc k' idx) as [id'|] eqn:A'; [|discriminate]. apply Nat.eqb_eq in E. subst id'.
      rewrite (rp_inj _ _ _ _ R k' k id A' A). reflexivity.
    - exfalso. assert (I : exists v, In (k, v) idx).
      { clear - A. induction idx as [|[k' v] l IH]; [discriminate|]. cbn [assoc] in A. destruct (String.eqb_spec k k') as [->|N].
        - exists v. left. reflexivity.
        - destruct (IH A) as [w I]. exists w. right. exact I. }
      destruct I as [v I]. pose proof (find_none _ _ F _ I) as N. cbn [fst] in N. rewrite A, Nat.eqb_refl in N. discriminate.
  Qed.
  Lemma name_ok m r : get_rule m g = Some r -> plainly (rule_name r) = true.
  Proof.
    intros G. apply name_plain. pose proof (rule_printable r (get_rule_in_list _ _ _ G)) as P. unfold printable_rule in P. apply andb_true_iff in P as [P _]. exact P.
  Qed.
  Lemma nt_names id nt : nth_error (sg_nts sg) id = Some nt -> plainly (nt_rulename nt) = true.
  Proof.
    intros N. destruct (nt_item g root sg idx R id nt N) as (it & A & O & M). destruct it as [m|a|a|[mn mx e]]; cbn [nt_matches] in M.
    - destruct (get_rule m g) as [r|] eqn:G; [|subst; reflexivity]. destruct M as [(_ & _ & ->) _]. eapply name_ok; eauto.
    - destruct M as [(_ & _ & ->) _]. reflexivity.
    - destruct M as [(_ & _ & ->) _]. reflexivity.
    - destruct M as [(_ & _ & ->)|(_ & es & _ & ->)]; reflexivity.
  Qed.
  Lemma item_label it id : assoc (key_of it) idx = Some id -> occ_item g it -> (forall m, it = IRule m -> lex_name m = true) -> plainly (label_of idx id) = true.
  Proof.
    intros A O L. rewrite (label_key _ _ A). destruct it as [m|a|a|r]; cbn [key_of occ_item] in *.
    - change (key_label ("rule:" ++ lower m)) with (lower m). apply lower_plain, name_plain, L. reflexivity.
    - change (key_label ("grp:" ++ elem_string (EGroup a))) with (elem_string (EGroup a)). apply printed_plain, occ_elem_printable, O.
    - change (key_label ("opt:" ++ elem_string (EOption a))) with (elem_string (EOption a)). apply printed_plain, occ_elem_printable, O.
    - change (key_label ("rep:" ++ rep_string r)) with (rep_string r). apply printed_plain, occ_printable, O.
  Qed.
  Lemma nonterm_str X it : assoc (key_of it) idx = Some X -> occ_item g it -> (forall m, it = IRule m -> lex_name m = true) -> plainly (sym_str sg idx (SNonterm X)) = true.
  Proof.
    intros A O L. cbn [sym_str]. destruct (nth_error (sg_nts sg) X) as [n|] eqn:N; [|reflexivity].
    destruct (negb (String.eqb (nt_rulename n) "")); [exact (nt_names X n N)|].
    destruct (negb (String.eqb (label_of idx X) "")); [eapply item_label; eauto|]. rewrite plain_app, itoa_plain by lia. reflexivity.
  Qed.
  Lemma elem_str mn mx e s : occ_rep g (Rep mn mx e) -> elem_sym idx e s -> plainly (sym_str sg idx s) = true.
  Proof.
    intros O E. assert (Oe : occ_elem g e) by (econstructor; eauto). pose proof (occ_elem_printable e Oe) as P.
    destruct e as [n|a|a|f vs|b st es|ws]; cbn [elem_sym] in E.
    - destruct E as (X & -> & A). apply (nonterm_str X (IRule n) A I). intros m M. injection M as <-. exact P.
    - destruct E as (X & -> & A). apply (nonterm_str X (IGrp a) A Oe). intros m M. discriminate.
    - destruct E as (X & -> & A). apply (nonterm_str X (IOpt a) A Oe). intros m M. discriminate.
    - subst s. cbn [sym_str]. apply sanitize_plain, printed_plain, P.
    - subst s. cbn [sym_str]. apply sanitize_plain, printed_plain, P.
    - subst s. cbn [sym_str]. apply sanitize_plain, printed_plain, P.
  Qed.
  Lemma symbol_str nt p s id it : nth_error (sg_nts sg) id = Some nt -> assoc (key_of it) idx = Some id -> occ_item g it -> (forall m, it = IRule m -> False) \/ nt_rulename nt <> "" ->
    In p (nt_alts nt) -> In s p -> plainly (sym_str sg idx s) = true.
  Proof.
    intros N A O Hn B C. destruct (sg_sym g root sg idx R nt p s (nth_error_In _ _ N) B C) as (id' & N' & [E|[E|(mn & mx & e & Oc & [E|E])]]).
    - subst s. reflexivity.
    - subst s. cbn [sym_str]. rewrite N'. destruct (negb (String.eqb (nt_rulename nt) "")) eqn:Z; [exact (nt_names id' nt N')|].
      assert (Lb : plainly (label_of idx id') = true).
      { destruct (nt_item g root sg idx R id' nt N') as (it' & A' & O' & M'). apply (item_label it' id' A' O'). intros m ->. exfalso.
        cbn [nt_matches] in M'. destruct (get_rule m g) as [r|] eqn:G; [|subst nt; destruct B].
        destruct M' as [(_ & _ & E) _]. rewrite E in Z. apply negb_false_iff, String.eqb_eq in Z.
        pose proof (rule_printable r (get_rule_in_list _ _ _ G)) as P. unfold printable_rule in P. rewrite Z in P. discriminate. }
      destruct (negb (String.eqb (label_of idx id') "")); [exact Lb|]. rewrite plain_app, itoa_plain by lia. reflexivity.
    - eapply elem_str; eauto.
    - destruct E as [(_ & _ & E)|(NC & x & -> & K)]; [eapply elem_str; eauto|].
      apply (nonterm_str x (IRep (Rep mn mx e)) K (conj Oc NC)). intros m M. discriminate.
  Qed.
  Lemma comment_plain si : plainly (slot_comment sg idx si) = true.
  Proof.
    unfold slot_comment. destruct (nth_error (sg_nts sg) (Codegen.si_nt si)) as [nt|] eqn:N; [|reflexivity].
    destruct (nth_error (nt_alts nt) (Codegen.si_alt si)) as [p|] eqn:P; [|reflexivity]. pose proof (nth_error_In _ _ P) as Ip.
    destruct (nt_item g root sg idx R _ nt N) as (it & A & O & M).
    assert (Ok : (forall m, it = IRule m -> False) \/ nt_rulename nt <> "").
    { destruct it as [m|a|a|r]; [right|left; discriminate..]. cbn [nt_matches] in M. destruct (get_rule m g) as [r|] eqn:G; [|subst nt; destruct Ip].
      destruct M as [(_ & _ & ->) _]. pose proof (rule_printable r (get_rule_in_list _ _ _ G)) as Q. intros E. unfold printable_rule in Q. rewrite E in Q. discriminate. }
    rewrite !plain_app, !itoa_plain by lia. rewrite trim_plain; [reflexivity|]. rewrite !plain_app.
    assert (Nm : plainly (if String.eqb (nt_rulename nt) "" then label_of idx (Codegen.si_nt si) else nt_rulename nt) = true).
    { destruct (String.eqb_spec (nt_rulename nt) "") as [E|E]; [|exact (nt_names _ nt N)]. destruct Ok as [Ok|Ok]; [|congruence].
      apply (item_label it _ A O). intros m Em. destruct (Ok m Em). }
    rewrite Nm. cbn [andb all_chars]. rewrite plain_join; [reflexivity|reflexivity|].
    assert (F : Forall (fun s => plainly s = true) (map (sym_str sg idx) p)).
    { apply Forall_forall. intros s I. apply in_map_iff in I as (x & <- & I). eapply symbol_str; eauto. }
    revert F. generalize (map (sym_str sg idx) p). generalize (Codegen.si_dot si). clear. intros d l F. revert d.
    induction F as [|x l P F IH]; intros [|d]; cbn [dotted_parts]; repeat (constructor; [solve [auto]|]); auto.
  Qed.
End Grammar.

(** ** C68 *)
(** For every grammar that can be written, whatever is not defined or left over. *)
Theorem C68_comments_closed : forall fuel g root, Forall written_rule g -> (Datatypes.S (length g + length core_rules) <= fuel)%nat ->
  Forall (fun c => all_chars comment_char c = true) (case_comments fuel g root).
Proof.
  intros fuel g root Wr F. unfold case_comments. destruct (get_rule root g) as [r|] eqn:G; [|constructor].
  destruct (lower_rule g default_max_slots fuel root ls_init) as [[id st]|] eqn:E; [|constructor]. destruct (ls_over st) eqn:Ov; [constructor|].
  assert (Rp : represents g root (mkSG (ls_nts st) id) (ls_index st)).
  { destruct (lower_rule_inv g default_max_slots fuel root (fun _ => False) ls_init (init_inv g)) as (id' & st' & E' & X & Iv & A).
    { unfold missing, names.
      assert (length (filter (fun m => match assoc ("rule:" ++ m) (ls_index ls_init) with None => true | Some _ => false end)
         (map (fun r => lower (rule_name r)) (g ++ core_rules))) <= length (g ++ core_rules))%nat.
      { rewrite <- (map_length (fun r => lower (rule_name r)) (g ++ core_rules)).
        generalize (map (fun r => lower (rule_name r)) (g ++ core_rules)). intros l.
        induction l; cbn [filter length]; [lia|]. destruct (assoc _ _); cbn [length]; lia. }
      rewrite app_length in H. lia. }
    rewrite E in E'. injection E' as <- <-. destruct Iv as [I1 I2 I3 I4]. split; cbn; auto.
    intros k i K. destruct (I4 Ov k i K) as [[]|]; auto. }
  cbv zeta. apply Forall_forall. intros c I. apply in_map_iff in I as (si & <- & _). exact (comment_plain g Wr root _ _ Rp si).
Qed.
(** In particular for every grammar read from a text. *)
Corollary C68_read_comments : forall ord w, PropGll.any_order ord ->
  exists enough, forall fuel ordE sh validate st, (enough <= fuel)%nat -> PropGll.any_order ordE -> PropParse.any_shuffle sh ->
    ParseAbnf.parse_abnf ord ordE sh fuel false validate core_rules w = ParseAbnf.PA_ok st ->
    forall root, Forall (fun c => all_chars comment_char c = true) (case_comments fuel (Eval.rules_of st) root).
Proof.
  intros ord w O. destruct (PropFromAbnf.read_small ord w O) as [en H]. exists en. intros fuel ordE sh v st F Oe Sh E root.
  destruct (H fuel ordE sh v st F Oe Sh E) as (_ & _ & Wr & _ & _ & Fl). exact (C68_comments_closed fuel _ root Wr Fl).
Qed.
(** The comments are those of the file: one for each case of the switch. *)
Theorem C68_one_per_case : forall fuel g root pg, Codegen.generate_go_parser fuel g root = Codegen.Gen_ok pg ->
  length (case_comments fuel g root) = length (Codegen.pg_cases pg).
Proof.
  intros fuel g root pg. unfold Codegen.generate_go_parser, compile_slots, case_comments.
  destruct (get_rule root g) as [r|]; [|discriminate]. destruct (lower_rule g default_max_slots fuel root ls_init) as [[id st]|]; [|discriminate].
  destruct (ls_over st); [discriminate|]. cbv zeta. destruct (Codegen.emit _) as [pg'|] eqn:E; [|discriminate]. intros X. injection X as <-.
  destruct (Codegen.assign_slots (mkSG (ls_nts st) id)) as [ids slots] eqn:As. rewrite map_length. cbn [snd].
  unfold Codegen.emit in E. rewrite As in E. destruct (Codegen.emit_cases _ ids 0 slots []) as [[cs ser]|] eqn:C; [|discriminate].
  destruct (Codegen.emit_seed _ ids); [|discriminate]. destruct (Codegen.emit_complete _ ids); [|discriminate]. injection E as <-. cbn [Codegen.pg_cases].
  revert C. generalize 0%nat, (@nil (list Z)). clear. revert cs ser. generalize (mkSG (ls_nts st) id). intros sg.
  induction slots as [|s slots IH]; intros cs ser k l; cbn [Codegen.emit_cases].
  - intros X. injection X as <- _. reflexivity.
  - destruct (Codegen.emit_case sg ids k s l) as [[b ser1]|]; [|discriminate].
    destruct (Codegen.emit_cases sg ids (Datatypes.S k) slots ser1) as [[bs ser2]|] eqn:C; [|discriminate].
    intros X. injection X as <- _. cbn [length]. f_equal. eapply IH. exact C.
Qed.

(** A grammar built by hand: the quoted string of a group holds a line feed.  The file
    compiles by C44, and the line after the comment is code. *)
Definition rune_of (s : string) : list Z := map cval (list_ascii_of_string s).
Definition g_inject : grammar :=
  [mkRule "a" [[Rep 1 1 (EGroup [[Rep 1 1 (EChar false (10 :: rune_of "panic(0) //"))]])]]].
Theorem C68_comments_refuted : exists fuel g root pg pre post, wf_grammar g /\ rune_values g /\ CodegenScope.emittable_grammar g /\
  Codegen.generate_go_parser fuel g root = Codegen.Gen_ok pg /\ GoScope.compiles pg /\
  In (pre ++ String (ascii_of_N 10) ("panic(0) //" ++ post))%string (case_comments fuel g root).
Proof.
  assert (G : exists pg, Codegen.generate_go_parser 100 g_inject "a" = Codegen.Gen_ok pg) by (eexists; vm_compute; reflexivity).
  destruct G as [pg G]. exists 100%nat, g_inject, "a", pg, "a ::= . (""", """)  (0,0,0)".
  assert (W : wf_grammar g_inject) by (apply wf_grammarb_spec; vm_compute; reflexivity).
  assert (Rv : rune_values g_inject) by (apply PropCodegen.runes_of; vm_compute; reflexivity).
  assert (Em : CodegenScope.emittable_grammar g_inject) by (apply PropCodegen.emit_of; vm_compute; reflexivity).
  split; [exact W|]. split; [exact Rv|]. split; [exact Em|].
  split; [exact G|]. split; [eapply PropCodegen.C44_compiles_partial; eauto|].
  left. vm_compute. reflexivity.
Qed.

(** *** Case *)
(** The comments of [a = 1*2("x*/" b) / ""] with [b] undefined. *)
Definition g_comments : grammar :=
  [mkRule "A" [[Rep 1 2 (EGroup [[Rep 1 1 (EChar true (rune_of "x*/")); Rep 1 1 (ERule "B")]])]; [Rep 1 1 (EChar false [])]]].
Example C68_case : Forall written_rule g_comments /\
  case_comments 100 g_comments "a" =
    ["A ::= . 1*2(""x*/"" B)  (0,0,0)"; "A ::= 1*2(""x*/"" B) .  (0,0,1)"; "A ::= . """"  (0,1,0)"; "A ::= """" .  (0,1,1)";
     "1*2(""x*/"" B) ::= . eps  (1,0,0)"; "1*2(""x*/"" B) ::= eps .  (1,0,1)";
     "1*2(""x*/"" B) ::= . (""x*/"" B) 1*2(""x*/"" B)  (1,1,0)"; "1*2(""x*/"" B) ::= (""x*/"" B) . 1*2(""x*/"" B)  (1,1,1)";
     "1*2(""x*/"" B) ::= (""x*/"" B) 1*2(""x*/"" B) .  (1,1,2)";
     "(""x*/"" B) ::= . ""x* /"" b  (2,0,0)"; "(""x*/"" B) ::= ""x* /"" . b  (2,0,1)"; "(""x*/"" B) ::= ""x* /"" b .  (2,0,2)"].
Proof. split; [apply written_all; vm_compute; reflexivity|vm_compute; reflexivity]. Qed.

Print Assumptions C68_comments_closed.
Print Assumptions C68_read_comments.
Print Assumptions C68_one_per_case.
Print Assumptions C68_comments_refuted.
