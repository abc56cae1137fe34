(** C94: the layout of ABNF texts (ParseABNF, grammar.go:80-106, on the grammar of rules.go:516-1866).
    ReadSpec.v says what a text says.  Its definitions are those of the statements and model no code. *)
From Coq Require Import ZArith Arith String Ascii Bool Permutation List Lia.
From Verif Require Import Syntax Spec Term PropTerm Printer Check Slots Gll Bsr Sppf Tree Errors Deps Eval EvalProof ReadSpec TreeSpec TreeLang
  PropGll ForestUnique PropTree PropSem PropEval AbnfEval PropRead AbnfLocal PrintInj PropPrint ParseAbnf PropParse PropJoin.
Import ListNotations.
Local Open Scope string_scope.
Local Open Scope list_scope.
Local Open Scope Z_scope.

(** Lines of blank space and comments only. *)
Inductive blank_lines : list Z -> Prop :=
| bls_nil : blank_lines []
| bls_line ws nl w : Forall white ws -> newline nl -> blank_lines w -> blank_lines (ws ++ nl ++ w).
(** A text, or nothing, taken for the definitions [ds]. *)
Definition some_text (w : list Z) (ds : list (rule * bool)) : Prop := taken_lines ds w.

(** *** Means of proof *)
(** Printable characters, tabs, and CR LF in pairs. *)
Inductive plain : list Z -> Prop :=
| pl_nil : plain []
| pl_char c w : c = 9 \/ 32 <= c <= 126 -> plain w -> plain (c :: w)
| pl_crlf w : plain w -> plain (13 :: 10 :: w).

Lemma plain_app w w' : plain w -> plain w' -> plain (w ++ w').
Proof. intros H H'. induction H as [|c w C H IH|w H IH]; cbn [app]; [exact H'|apply pl_char; auto|apply pl_crlf; auto]. Qed.
Lemma plain_one c : 32 <= c <= 126 -> plain [c].
Proof. intros H. apply pl_char; [auto|constructor]. Qed.
Lemma plain_cons c w : 32 <= c <= 126 -> plain w -> plain (c :: w).
Proof. intros H. apply pl_char. auto. Qed.
Lemma plain_all w : Forall (fun c => c = 9 \/ 32 <= c <= 126) w -> plain w.
Proof. intros H. induction H as [|c w C H IH]; constructor; auto. Qed.
Lemma plain_white w : Forall white w -> plain w.
Proof. intros H. apply plain_all. eapply Forall_impl; [|exact H]. intros c [->| ->]; [right; lia|auto]. Qed.
Lemma plain_newline w : newline w -> plain w.
Proof.
  intros [|body F]; [apply pl_crlf; constructor|]. apply plain_cons; [lia|]. apply plain_app; [|apply pl_crlf; constructor].
  apply plain_all. eapply Forall_impl; [|exact F]. intros c [[->| ->]|H]; [right; lia|auto|right; lia].
Qed.
Lemma plain_blank w : blank w -> plain w.
Proof.
  intros [c W|u c N W]; [apply plain_white; constructor; [exact W|constructor]|]. apply plain_app; [apply plain_newline; exact N|].
  apply plain_white. constructor; [exact W|constructor].
Qed.
Lemma plain_blanks w : blanks w -> plain w.
Proof. intros H. induction H as [|u w B H IH]; [constructor|]. apply plain_app; [apply plain_blank|]; auto. Qed.
Lemma plain_string p s : (forall c, p c = true -> 32 <= cval c <= 126) -> all_chars p s = true -> plain (bytes s).
Proof.
  intros P. induction s as [|c s IH]; cbn [all_chars bytes]; intros H; [constructor|]. apply andb_prop in H as [A B].
  apply plain_cons; [apply P; exact A|apply IH; exact B].
Qed.
Ltac all_ascii c := destruct c as [[|] [|] [|] [|] [|] [|] [|] [|]]; vm_compute; try discriminate; intros _; split; discriminate.
Lemma alpha_plain c : is_alpha c = true -> 32 <= cval c <= 126.
Proof. all_ascii c. Qed.
Lemma name_plain c : name_char c = true -> 32 <= cval c <= 126.
Proof. all_ascii c. Qed.
Lemma digit_plain c d : digit_val c = Some d -> 32 <= cval c <= 126.
Proof.
  intros H. assert (X : (match digit_val c with Some _ => true | None => false end) = true) by (rewrite H; reflexivity). clear H. revert X. all_ascii c.
Qed.
Lemma plain_name n : lex_name n = true -> plain (bytes n).
Proof.
  destruct n as [|c n]; cbn [lex_name]; [discriminate|]. intros H. apply andb_prop in H as [A B]. apply plain_cons; [apply alpha_plain; exact A|].
  apply (plain_string name_char); [apply name_plain|exact B].
Qed.
Lemma plain_digits r s : forall acc v, digits_val r acc s = Some v -> plain (bytes s).
Proof.
  induction s as [|c s IH]; intros acc v; cbn [digits_val]; [constructor|]. destruct (digit_val c) as [d|] eqn:E; [|discriminate].
  destruct (d <? r); [|discriminate]. intros H. apply plain_cons; [eapply digit_plain; eauto|eapply IH; eauto].
Qed.
Lemma plain_number b s : number_in b s -> plain (bytes s).
Proof.
  intros (v & H). unfold numeral in H. destruct (radix_of b) as [r|]; [|discriminate]. destruct s; [discriminate|]. eapply plain_digits; eauto.
Qed.
Lemma plain_decimal s : forall acc v, decimal acc s = Some v -> plain s.
Proof.
  induction s as [|c s IH]; intros acc v; cbn [decimal]; [constructor|]. destruct ((48 <=? c) && (c <=? 57))%bool eqn:E; [|discriminate].
  apply andb_prop in E as [A B]. apply Z.leb_le in A. apply Z.leb_le in B. intros H. apply plain_cons; [lia|eauto].
Qed.
Lemma plain_repeat s mn mx : repeat_denotes s mn mx -> plain s.
Proof.
  assert (D : forall s v, digits_denote s v -> plain s) by (intros ? ? [_ H]; eapply plain_decimal; eauto).
  intros [u n H| |u n H|u m H|u n u' m H H']; eauto.
  - apply plain_one. lia.
  - apply plain_app; [eauto|apply plain_one; lia].
  - apply plain_cons; [lia|eauto].
  - apply plain_app; [eauto|]. apply plain_cons; [lia|eauto].
Qed.
Lemma base_plain b c : base_letter b c -> 32 <= c <= 126.
Proof. intros [d [->| ->]|d [->| ->]|d [->| ->]]; lia. Qed.
Lemma plain_mark s m : case_mark s m -> plain m.
Proof. intros [|c [->| ->]|c [->| ->]]; [constructor| | | |]; (apply plain_cons; [lia|apply plain_one; lia]). Qed.
Lemma plain_dotted b es : Forall (number_in b) es -> plain (dotted es).
Proof.
  intros H. induction H as [|s es N H IH]; [constructor|]. destruct es as [|s' es]; [eapply plain_number; eauto|].
  change (plain (bytes s ++ 46 :: dotted (s' :: es))). apply plain_app; [eapply plain_number; eauto|]. apply plain_cons; [lia|exact IH].
Qed.
Lemma plain_text : (forall e w, text_elem e w -> plain w) /\ (forall r w, text_rep r w -> plain w) /\
  (forall c w, text_cat c w -> plain w) /\ (forall a w, text_alt a w -> plain w).
Proof.
  apply text_mut.
  - intros n H. apply plain_name. exact H.
  - intros a b1 w b2 B1 _ P B2. apply plain_cons; [lia|]. repeat apply plain_app; auto using plain_blanks. apply plain_one. lia.
  - intros a b1 w b2 B1 _ P B2. apply plain_cons; [lia|]. repeat apply plain_app; auto using plain_blanks. apply plain_one. lia.
  - intros s m vs C F. apply plain_app; [eapply plain_mark; eauto|]. apply plain_cons; [lia|]. apply plain_app; [|apply plain_one; lia].
    apply plain_all. eapply Forall_impl; [|exact F]. intros v Q. unfold quotable in Q. apply andb_prop in Q as [Q _]. apply andb_prop in Q as [A B].
    apply Z.leb_le in A. apply Z.leb_le in B. right. lia.
  - intros b c es B _ F. apply plain_cons; [lia|]. apply plain_cons; [eapply base_plain; eauto|eapply plain_dotted; eauto].
  - intros b c lo hi B L H. apply plain_cons; [lia|]. apply plain_cons; [eapply base_plain; eauto|]. apply plain_app; [eapply plain_number; eauto|].
    apply plain_cons; [lia|eapply plain_number; eauto].
  - intros vs F. apply plain_cons; [lia|]. apply plain_app; [|apply plain_one; lia]. apply plain_all. eapply Forall_impl; [|exact F]. intros v [A _]. auto.
  - intros e w _ P. exact P.
  - intros s mn mx e w R _ P. apply plain_app; [eapply plain_repeat; eauto|exact P].
  - intros r w _ P. exact P.
  - intros r w b1 b c w' _ P B1 B _ P'. repeat apply plain_app; auto using plain_blanks, plain_blank.
  - intros c w _ P. exact P.
  - intros c w b1 b2 a w' _ P B1 B2 _ P'. apply plain_app; [exact P|]. apply plain_app; [apply plain_blanks; exact B1|]. apply plain_cons; [lia|].
    apply plain_app; [apply plain_blanks; exact B2|exact P'].
Qed.
Lemma plain_lines filler ds w : text_lines filler ds w -> plain w.
Proof.
  intros H. induction H as [|d w ds w' T H IH|ws nl ds w' W N H IH]; [constructor| |].
  - apply plain_app; [|exact IH]. destruct T as [n b1 inc b2 a w ws nl L B1 _ B2 _ A W N].
    apply plain_app; [apply plain_name; exact L|]. apply plain_app; [apply plain_blanks; exact B1|].
    apply plain_app; [destruct inc; cbn [operator]; repeat (apply plain_cons; [lia|]); constructor|].
    apply plain_app; [apply plain_blanks; exact B2|]. apply plain_app; [eapply plain_text; exact A|]. apply plain_app; [apply plain_white; exact W|apply plain_newline; exact N].
  - apply plain_app; [apply plain_white; exact W|]. apply plain_app; [apply plain_newline; exact N|exact IH].
Qed.
Lemma plain_bytes w : plain w -> forall c, In c w -> c = 9 \/ c = 10 \/ c = 13 \/ 32 <= c <= 126.
Proof. intros H. induction H as [|c w C H IH|w H IH]; intros d I; [destruct I| |]. - destruct I as [<-|I]; [tauto|auto]. - destruct I as [<-|[<-|I]]; auto. Qed.
Lemma plain_lf w : plain w -> forall p s, w = p ++ 10 :: s -> exists p', p = p' ++ [13].
Proof.
  intros H. induction H as [|c w C H IH|w H IH]; intros p s E.
  - destruct p; discriminate.
  - destruct p as [|c' p]; cbn [app] in E; injection E as -> E; [lia|]. destruct (IH p s E) as (p' & ->). exists (c' :: p'). reflexivity.
  - destruct p as [|c' p]; cbn [app] in E; [discriminate|]. injection E as <- E. destruct p as [|c' p]; cbn [app] in E.
    + exists []. reflexivity.
    + injection E as <- E. destruct (IH p s E) as (p' & ->). exists (13 :: 10 :: p'). reflexivity.
Qed.
Lemma plain_cr w : plain w -> forall p s, w = p ++ 13 :: s -> exists s', s = 10 :: s'.
Proof.
  intros H. induction H as [|c w C H IH|w H IH]; intros p s E.
  - destruct p; discriminate.
  - destruct p as [|c' p]; cbn [app] in E; injection E as -> E; [lia|]. eauto.
  - destruct p as [|c' p]; cbn [app] in E; [injection E as <-; eauto|]. injection E as <- E. destruct p as [|c' p]; cbn [app] in E; [discriminate|].
    injection E as <- E. eauto.
Qed.
Lemma lines_end filler ds w : text_lines filler ds w -> w <> [] -> exists p, w = p ++ [13; 10].
Proof.
  assert (N : forall nl, newline nl -> exists p, nl = p ++ [13; 10]).
  { intros nl [|body F]; [exists []; reflexivity|exists (59 :: body); reflexivity]. }
  intros H. induction H as [|d w ds w' T H IH|ws nl ds w' W Nl H IH]; intros NE; [congruence| |].
  - destruct w' as [|c w'].
    + rewrite app_nil_r. destruct T as [n b1 inc b2 a w0 ws nl _ _ _ _ _ _ _ Nl]. apply N in Nl as (p & ->).
      exists (bytes n ++ b1 ++ operator inc ++ b2 ++ w0 ++ ws ++ p). rewrite <- !app_assoc. reflexivity.
    + destruct IH as (p & ->); [discriminate|]. exists (w ++ p). apply app_assoc.
  - destruct w' as [|c w'].
    + rewrite app_nil_r. apply N in Nl as (p & ->). exists (ws ++ p). apply app_assoc.
    + destruct IH as (p & ->); [discriminate|]. exists (ws ++ nl ++ p). rewrite <- !app_assoc. reflexivity.
Qed.
Lemma blank_taken w : blank_lines w -> taken_lines [] w.
Proof. intros H. induction H as [|ws nl w W N H IH]; [constructor|]. apply kl_blank; auto. Qed.

(** *** The properties *)

(** What ParseABNF returns, with every option, depends on the definitions the text is taken for
    only: not on blanks, comments, blank lines, folding, or the case of base letters. *)
Theorem C94_layout : forall ord ord' w w' ds, any_order ord -> any_order ord' -> text_taken w ds -> text_taken w' ds ->
  exists enough, forall fuel fuel' ordE sh redefine validate core, (enough <= fuel)%nat -> (enough <= fuel')%nat ->
    parse_abnf ord ordE sh fuel redefine validate core w = parse_abnf ord' ordE sh fuel' redefine validate core w'.
Proof.
  intros ord ord' w w' ds O O' H H'.
  destruct (parse_abnf_tree ord w O) as [A _]. destruct (parse_abnf_tree ord' w' O') as [A' _].
  destruct (taken_says _ _ H) as (da & Ha & _). destruct (taken_says _ _ H') as (da' & Ha' & _).
  destruct A as (t & en & D & A); [apply C55_abnf_texts; eauto|]. destruct A' as (t' & en' & D' & A'); [apply C55_abnf_texts; eauto|].
  exists (Nat.max en en'). intros fuel fuel' ordE sh redefine validate core F F'. rewrite A, A' by lia.
  rewrite (C56_evaluation_exact w ds t redefine ordE core H D), (C56_evaluation_exact w' ds t' redefine ordE core H' D'). reflexivity.
Qed.

(** In particular lines of comments may be put before, between and after definitions. *)
Theorem C94_comments : forall ord ord' w1 b w2 ds1 ds2, any_order ord -> any_order ord' ->
  some_text w1 ds1 -> blank_lines b -> some_text w2 ds2 -> w1 ++ w2 <> [] ->
  exists enough, forall fuel fuel' ordE sh redefine validate core, (enough <= fuel)%nat -> (enough <= fuel')%nat ->
    parse_abnf ord ordE sh fuel redefine validate core (w1 ++ b ++ w2) = parse_abnf ord' ordE sh fuel' redefine validate core (w1 ++ w2).
Proof.
  intros ord ord' w1 b w2 ds1 ds2 O O' H1 B H2 N. apply (C94_layout ord ord' _ _ (ds1 ++ ds2) O O').
  - split; [|apply taken_app; [exact H1|]; apply (taken_app [] b (blank_taken b B) ds2 w2 H2)].
    intros E. apply app_eq_nil in E as [-> E]. apply app_eq_nil in E as [_ ->]. auto.
  - split; [exact N|apply taken_app; assumption].
Qed.

(** A text is made of printable ASCII, tabs and CR LF, and ends in CR LF. *)
Theorem C94_bytes : forall w ds, text_says any_filler w ds ->
  (forall c, In c w -> c = 9 \/ c = 10 \/ c = 13 \/ 32 <= c <= 126) /\
  (forall p s, w = p ++ 10 :: s -> exists p', p = p' ++ [13]) /\
  (forall p s, w = p ++ 13 :: s -> exists s', s = 10 :: s') /\
  (exists p, w = p ++ [13; 10]).
Proof.
  intros w ds [NE H]. pose proof (plain_lines _ _ _ H) as P. split; [apply plain_bytes; exact P|]. split; [apply plain_lf; exact P|].
  split; [apply plain_cr; exact P|]. eapply lines_end; eauto.
Qed.
(** So ParseABNF refuses, as not parsing, every input with a byte above 126, with a LF or CR
    alone, or with an unended last line, in a comment too. *)
Theorem C94_refuses : forall ord w, any_order ord ->
  (exists c, In c w /\ (126 < c \/ c < 32 /\ c <> 9 /\ c <> 10 /\ c <> 13)) \/
  (exists p s, w = p ++ 10 :: s /\ forall p', p <> p' ++ [13]) \/
  (exists p s, w = p ++ 13 :: s /\ forall s', s <> 10 :: s') \/
  (forall p, w <> p ++ [13; 10]) ->
  exists e enough, forall fuel ordE sh redefine validate core, (enough <= fuel)%nat ->
    parse_abnf ord ordE sh fuel redefine validate core w = PA_parse e.
Proof.
  intros ord w O H. apply C57_rejects; [exact O|]. intros (ds & S). destruct (C94_bytes w ds S) as (A & B & C & (p & E)).
  destruct H as [(c & I & Q)|[(p' & s & E' & Q)|[(p' & s & E' & Q)|Q]]].
  - specialize (A c I). lia.
  - destruct (B p' s E') as (q & ->). apply (Q q). reflexivity.
  - destruct (C p' s E') as (q & ->). apply (Q q). reflexivity.
  - exact (Q p E).
Qed.

(** *** Cases *)
(** [c_text] written otherwise: a comment before, tabs, a folded line, [%X], and a comment at the end. *)
Definition c_text' : list Z := bytes "; the letter x" ++ [13; 10] ++ bytes "c" ++ [9] ++ bytes "=;eq" ++ [13; 10; 32] ++ bytes "%X58 ;!" ++ [13; 10].
Example C94_case : text_taken c_text [(c_rule, false)] /\ text_taken c_text' [(c_rule, false)] /\ c_text <> c_text' /\
  forall ord, any_order ord -> exists enough, forall fuel sh, (enough <= fuel)%nat ->
    parse_abnf ord id_order sh fuel false false core_rules c_text' = PA_ok (mkE core_rules [("c", Own c_rule)] 1).
Proof.
  assert (T : text_says quiet_filler c_text' [(c_rule, false)]).
  { split; [discriminate|]. apply (tl_blank quiet_filler [] (bytes "; the letter x" ++ [13; 10]) _ (bytes "c" ++ [9] ++ bytes "=;eq" ++ [13; 10; 32] ++ bytes "%X58 ;!" ++ [13; 10])).
    { constructor. } { apply (nl_comment (bytes " the letter x")). body. }
    apply (tl_rule quiet_filler _ (bytes "c" ++ [9] ++ bytes "=;eq" ++ [13; 10; 32] ++ bytes "%X58 ;!" ++ [13; 10]) [] []); [|constructor].
    apply (text_rule_intro quiet_filler "c" [9] false (bytes ";eq" ++ [13; 10; 32]) _ (bytes "%X58") [32] (bytes ";!" ++ [13; 10])).
    - reflexivity.
    - apply (bs_cons [9] []); [constructor; right; reflexivity|constructor].
    - intros [|c [|c' p]] s E; discriminate.
    - apply (bs_cons (bytes ";eq" ++ [13; 10; 32]) []); [|constructor]. apply (bl_folded (bytes ";eq" ++ [13; 10]) 32); [|left; reflexivity].
      apply (nl_comment (bytes "eq")). body.
    - intros p s E. assert (X : In 61 (bytes ";eq" ++ [13; 10; 32])) by (rewrite E; apply in_or_app; right; left; reflexivity).
      revert X. vm_compute. intuition discriminate.
    - apply ta_one, tc_one, tr_once. apply (te_series "x" 88 ["58"]); [constructor; right; reflexivity|discriminate|]. constructor; [eexists; vm_compute; reflexivity|constructor].
    - constructor; [left; reflexivity|constructor].
    - apply (nl_comment (bytes "!")). body. }
  split; [apply quiet_taken, c_says|]. split; [apply quiet_taken, T|]. split; [discriminate|].
  intros ord O. destruct (reads_at ord _ _ O T) as (en & A). exists en. intros fuel sh F. rewrite A by exact F. vm_compute. reflexivity.
Qed.
Example C94_case_comments : some_text ex_text [(mkRule "ab" ex_alt, false)] /\ blank_lines (bytes "  ; see RFC 5234" ++ [13; 10] ++ [9; 13; 10]) /\
  some_text c_text [(c_rule, false)] /\ ex_text ++ c_text <> [].
Proof.
  split; [apply (quiet_taken _ _ (ex_says _ quiet_space))|]. split.
  - apply (bls_line (bytes "  ") (bytes "; see RFC 5234" ++ [13; 10]) [9; 13; 10]).
    + repeat constructor.
    + apply (nl_comment (bytes " see RFC 5234")). body.
    + apply (bls_line [9] [13; 10] []); [|constructor|constructor]. constructor; [right; reflexivity|constructor].
  - split; [apply (quiet_taken _ _ c_says)|discriminate].
Qed.
(** The letter é in a comment, a file with LF ends of lines, and one without an end to its last line. *)
Example C94_case_refused :
  (exists c, In c (bytes "a=c;" ++ [195; 169; 13; 10]) /\ (126 < c \/ c < 32 /\ c <> 9 /\ c <> 10 /\ c <> 13)) /\
  (exists p s, bytes "a=c" ++ [10] = p ++ 10 :: s /\ forall p', p <> p' ++ [13]) /\
  (forall p, bytes "a=c" <> p ++ [13; 10]).
Proof.
  split; [exists 195; split; [vm_compute; tauto|left; reflexivity]|]. split.
  - exists (bytes "a=c"), []. split; [reflexivity|]. intros p E. apply (f_equal (@rev Z)) in E. rewrite rev_app_distr in E. discriminate.
  - intros p E. apply (f_equal (@rev Z)) in E. rewrite rev_app_distr in E. discriminate.
Qed.

Print Assumptions C94_layout.
Print Assumptions C94_comments.
Print Assumptions C94_bytes.
Print Assumptions C94_refuses.
