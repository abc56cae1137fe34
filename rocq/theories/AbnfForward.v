(** A text with a derivation tree by the grammar of ABNF says something. *)
(** The definitions here are those of statements, proofs and examples; they model no code. *)
From Coq Require Import ZArith Arith String Ascii Bool List Lia.
From Verif Require Import Syntax Spec Utf8 Num Term Printer Eval ReadSpec TreeSpec TreeSound AbnfDen AbnfUnique AbnfRead.
Import ListNotations.
Local Open Scope string_scope.
Local Open Scope list_scope.
Local Open Scope Z_scope.

Lemma cval_byte b : 0 <= b < 256 -> cval (ascii_of_N (Z.to_N b)) = b.
Proof. intros H. unfold cval. rewrite N_ascii_embedding by lia. apply Z2N.id. lia. Qed.
Lemma decimal_some s : Forall digit_byte s -> forall acc, exists v, decimal acc s = Some v.
Proof.
  intros F. induction F as [|c s C F IH]; intros acc; [cbn [decimal]; eauto|]. cbn [decimal]. unfold digit_byte in C.
  assert (E : (48 <=? c) && (c <=? 57) = true) by lia. rewrite E. apply IH.
Qed.

Section Fwd.
  Variable input : list Z.
  Notation R := (AbnfDen.R abnf_grammar input).
  Notation p_star := (AbnfDen.p_star input).
  Notation p_plus := (AbnfDen.p_plus input).
  Notation p_byte := (AbnfDen.p_byte input).
  Notation p_ws := (AbnfUnique.p_ws input).
  Notation more_cat := (AbnfUnique.more_cat input).
  Notation more_alt := (AbnfUnique.more_alt input).
  Notation lit v := (p_byte (same_letter v)).
  Notation sp := (span input).

  Ltac mn := repeat first [apply mono_R | apply mono_seq | apply mono_or | apply mono_star | apply mono_plus |
    apply mono_opt | apply mono_node | apply mono_byte | apply mono_two | apply mono_nil].
  Lemma sp_nil i : (i <= length input)%nat -> sp i i [].
  Proof. intros L. exists (firstn i input), (skipn i input). cbn [app length]. rewrite firstn_skipn, firstn_length. split; auto. split; lia. Qed.
  Lemma s_byte (S : Z -> bool) i j ts : p_byte S i j ts -> exists b, sp i j [b] /\ S b = true /\ nth_error input i = Some b /\ j = Datatypes.S i.
  Proof. intros (b & E & H & -> & _). exists b. split; [apply one_span; auto|auto]. Qed.
  Lemma s_lit v i j ts : p_byte (same_letter v) i j ts -> lo_case v = v -> hi_case v = v -> sp i j [v].
  Proof. intros H L U. apply s_byte in H as (b & A & B & _). rewrite letter_cases, L, U in B. assert (b = v) by lia. subst b. exact A. Qed.
  Lemma s_star (P : AbnfDen.pr) (ok : Z -> Prop) : (forall i j ts, P i j ts -> exists c, sp i j [c] /\ ok c) ->
    forall i j ts, p_star P i j ts -> exists w, sp i j w /\ Forall ok w.
  Proof.
    intros HP i j ts H. induction H as [i L|i k j t1 t2 H1 H2 IH].
    - exists []. split; [apply sp_nil; auto|constructor].
    - destruct (HP _ _ _ H1) as (c & A & B). destruct IH as (w & C & D). exists ([c] ++ w). split; [eapply span_app; eauto|constructor; auto].
  Qed.

  Lemma s_wsp i j ts : R "WSP" i j ts -> exists c, sp i j [c] /\ white c.
  Proof.
    intros H. apply q_wsp in H as (cs & _ & [H|H]).
    - apply q_sp in H as (cs' & _ & H). apply s_byte in H as (b & A & B & _). exists b. split; auto. left. lia.
    - apply q_htab in H as (cs' & _ & H). apply s_byte in H as (b & A & B & _). exists b. split; auto. right. lia.
  Qed.
  Lemma s_wsps i j ts : p_star (R "WSP") i j ts -> exists w, sp i j w /\ Forall white w.
  Proof. apply s_star. apply s_wsp. Qed.
  Lemma s_crlf i j ts : R "CRLF" i j ts -> sp i j [13; 10].
  Proof.
    intros H. apply q_crlf in H as (cs & _ & k & t1 & t2 & H1 & H2 & _).
    apply q_cr in H1 as (c1 & _ & H1). apply q_lf in H2 as (c2 & _ & H2).
    apply s_byte in H1 as (b & A & B & _). apply s_byte in H2 as (c & C & D & _).
    assert (b = 13) by lia. assert (c = 10) by lia. subst b c. apply (span_app _ _ _ _ [13] [10] A C).
  Qed.
  Lemma s_cnl i j ts : R "c-nl" i j ts -> exists w, sp i j w /\ newline w.
  Proof.
    intros H. apply q_cnl in H as (cs & _ & [H|H]).
    - apply q_comment in H as (cs' & _ & k & t1 & t2 & H1 & (k2 & t3 & t4 & H2 & H3 & _) & _).
      apply s_lit in H1; [|reflexivity|reflexivity]. apply s_crlf in H3.
      apply (s_star _ (fun c => white c \/ 33 <= c <= 126)) in H2 as (w & A & B).
      + exists ([59] ++ w ++ [13; 10]). split; [eapply span_app; [exact H1|]; eapply span_app; eauto|]. apply nl_comment. exact B.
      + intros i0 j0 ts0 [X|X]; [apply s_wsp in X as (c & X1 & X2); eauto|].
        apply q_vchar in X as (cs0 & _ & X). apply s_byte in X as (b & X1 & X2 & _). exists b. split; auto. right. lia.
    - apply s_crlf in H. exists [13; 10]. split; auto. constructor.
  Qed.
  Lemma s_cwsp i j ts : R "c-wsp" i j ts -> exists w, sp i j w /\ blank w.
  Proof.
    intros H. apply q_cwsp in H as (cs & _ & [H|(k & t1 & t2 & H1 & H2 & _)]).
    - apply s_wsp in H as (c & A & B). exists [c]. split; auto. constructor; auto.
    - apply s_cnl in H1 as (w & A & B). apply s_wsp in H2 as (c & C & D). exists (w ++ [c]). split; [eapply span_app; eauto|constructor; auto].
  Qed.
  Lemma s_ws i j ts : p_ws i j ts -> exists w, sp i j w /\ blanks w.
  Proof.
    intros H. induction H as [i L|i k j t1 t2 H1 H2 IH].
    - exists []. split; [apply sp_nil; auto|constructor].
    - apply s_cwsp in H1 as (w & A & B). destruct IH as (w' & C & D). exists (w ++ w'). split; [eapply span_app; eauto|constructor; auto].
  Qed.
  Lemma s_alpha i j ts : R "ALPHA" i j ts -> exists b, sp i j [b] /\ b_alpha b = true.
  Proof.
    intros H. apply q_alpha in H as (cs & _ & [H|H]); apply s_byte in H as (b & A & B & _); exists b; (split; [exact A|]); unfold b_alpha; lia.
  Qed.
  Lemma s_digit i j ts : R "DIGIT" i j ts -> exists b, sp i j [b] /\ digit_byte b.
  Proof. intros H. apply q_digit in H as (cs & _ & H). apply s_byte in H as (b & A & B & _). exists b. split; [exact A|]. unfold digit_byte. lia. Qed.
  Lemma s_digits i j ts : p_star (R "DIGIT") i j ts -> exists w, sp i j w /\ Forall digit_byte w.
  Proof. apply s_star. apply s_digit. Qed.

  Lemma s_name i j ts : R "rulename" i j ts -> exists n, lex_name n = true /\ sp i j (bytes n).
  Proof.
    intros H. apply q_rulename in H as (cs & _ & k & t1 & t2 & H1 & H2 & _). apply s_alpha in H1 as (b & A & B).
    apply (s_star _ (fun c => b_name c = true)) in H2 as (w & C & D).
    - assert (F : Forall (fun c => 0 <= c < 256) (b :: w)).
      { constructor; [unfold b_alpha in B; lia|]. eapply Forall_impl; [|exact D]. clear. intros c H. cbn beta in H. unfold b_name, b_alpha, b_digit in H. lia. }
      exists (string_of_bytes (b :: w)). split.
      + change (string_of_bytes (b :: w)) with (String (ascii_of_N (Z.to_N b)) (string_of_bytes w)). cbn [lex_name].
        inversion F as [|? ? F1 F2]; subst. apply andb_true_iff. split; [rewrite alpha_b, cval_byte by lia; exact B|].
        clear - D F2. induction D as [|c w C D IH]; [reflexivity|]. inversion F2; subst.
        change (string_of_bytes (c :: w)) with (String (ascii_of_N (Z.to_N c)) (string_of_bytes w)). cbn [all_chars].
        apply andb_true_iff. split; [rewrite name_b, cval_byte by lia; exact C|auto].
      + rewrite bytes_string by exact F. eapply (span_app _ _ _ _ [b] w); eauto.
    - intros i0 j0 ts0 [X|[X|X]].
      + apply s_alpha in X as (c & X1 & X2). exists c. split; auto. unfold b_name. rewrite X2. reflexivity.
      + apply s_digit in X as (c & X1 & X2). exists c. split; auto. unfold b_name, b_digit, digit_byte in *. clear - X2. unfold b_alpha. lia.
      + apply s_lit in X; [|reflexivity|reflexivity]. exists 45. split; auto.
  Qed.

  Lemma s_repeat i j ts : R "repeat" i j ts -> exists s mn mx, sp i j s /\ repeat_denotes s mn mx.
  Proof.
    assert (Dn : forall w, Forall digit_byte w -> w <> [] -> exists v, digits_denote w v).
    { intros w F NE. destruct (decimal_some w F 0) as (v & E). exists v. split; auto. }
    intros H. apply q_repeat in H as (cs & _ & [H|(k & t1 & t2 & H1 & (k2 & t3 & t4 & H2 & H3 & _) & _)]).
    - destruct H as (k & t1 & t2 & H1 & H2 & _). apply s_digit in H1 as (b & A & B). apply s_digits in H2 as (w & C & D).
      destruct (Dn (b :: w)) as (v & E); [constructor; auto|discriminate|]. exists (b :: w), v, v. split; [apply (span_app _ _ _ _ [b] w A C)|constructor; auto].
    - apply s_digits in H1 as (w1 & A1 & B1). apply s_lit in H2; [|reflexivity|reflexivity]. apply s_digits in H3 as (w2 & A2 & B2).
      assert (X : sp i j (w1 ++ [42] ++ w2)) by (eapply span_app; [exact A1|]; eapply span_app; eauto).
      destruct w1 as [|d1 w1]; destruct w2 as [|d2 w2].
      + exists [42], 0, inf. split; [exact X|constructor].
      + destruct (Dn _ B2) as (v & E); [discriminate|]. exists (42 :: d2 :: w2), 0, v. split; [exact X|constructor; auto].
      + destruct (Dn _ B1) as (v & E); [discriminate|]. exists ((d1 :: w1) ++ [42]), v, inf. split; [exact X|constructor; auto].
      + destruct (Dn _ B1) as (v & E); [discriminate|]. destruct (Dn _ B2) as (v' & E'); [discriminate|].
        exists ((d1 :: w1) ++ 42 :: d2 :: w2), v, v'. split; [exact X|constructor; auto].
  Qed.

  Lemma s_quoted i j ts : R "quoted-string" i j ts -> exists vs, sp i j (34 :: vs ++ [34]) /\ Forall (fun v => quotable v = true) vs.
  Proof.
    assert (Q : forall i j ts, R "DQUOTE" i j ts -> sp i j [34]).
    { intros i0 j0 ts0 H. apply q_dquote in H as (cs & _ & H). apply s_byte in H as (b & A & B & _). assert (b = 34) by lia. subst b. exact A. }
    intros H. apply q_quoted in H as (cs & _ & k & t1 & t2 & H1 & (k2 & t3 & t4 & H2 & H3 & _) & _). apply Q in H1. apply Q in H3.
    apply (s_star _ (fun v => quotable v = true)) in H2 as (w & A & B).
    - exists w. split; auto. apply (span_app _ _ _ _ [34] (w ++ [34]) H1). eapply span_app; eauto.
    - intros i0 j0 ts0 [X|X]; apply s_byte in X as (b & X1 & X2 & _); exists b; (split; [exact X1|]); unfold quotable; lia.
  Qed.
  Lemma s_two v u i j ts : AbnfDen.p_two input (same_letter v) (same_letter u) i j ts ->
    exists b c, sp i j [b; c] /\ same_letter v b = true /\ same_letter u c = true.
  Proof.
    intros (b & c & E1 & S1 & E2 & S2 & -> & _). exists b, c. split; auto. apply one_span in E1, E2. apply (span_app _ _ _ _ [b] [c] E1 E2).
  Qed.
  Lemma s_charval i j ts : R "char-val" i j ts -> exists s m vs, case_mark s m /\ Forall (fun v => quotable v = true) vs /\ sp i j (m ++ 34 :: vs ++ [34]).
  Proof.
    intros H. apply q_charval in H as (cs & _ & [H|H]).
    - apply q_insens in H as (cs' & _ & k & t1 & t2 & H1 & H2 & _). apply s_quoted in H2 as (vs & A & B). destruct H1 as [(-> & _ & _)|H1].
      + exists false, [], vs. split; [constructor|]. split; auto.
      + apply s_two in H1 as (b & c & X & Y & Z). exists false, [b; c], vs. split; [|split; [auto|eapply span_app; eauto]].
        rewrite letter_cases in Y, Z. change (lo_case 37) with 37 in Y. change (hi_case 37) with 37 in Y. change (lo_case 105) with 105 in Z. change (hi_case 105) with 73 in Z.
        assert (b = 37) by lia. subst b. apply cm_i. lia.
    - apply q_sens in H as (cs' & _ & k & t1 & t2 & H1 & H2 & _). apply s_quoted in H2 as (vs & A & B).
      apply s_two in H1 as (b & c & X & Y & Z). exists true, [b; c], vs. split; [|split; [auto|eapply span_app; eauto]].
      rewrite letter_cases in Y, Z. change (lo_case 37) with 37 in Y. change (hi_case 37) with 37 in Y. change (lo_case 115) with 115 in Z. change (hi_case 115) with 83 in Z.
      assert (b = 37) by lia. subst b. apply cm_s. lia.
  Qed.
  Lemma s_prose i j ts : R "prose-val" i j ts -> exists vs, Forall (fun v => 32 <= v <= 126 /\ v <> 62) vs /\ sp i j (60 :: vs ++ [62]).
  Proof.
    intros H. apply q_prose in H as (cs & _ & k & t1 & t2 & H1 & (k2 & t3 & t4 & H2 & H3 & _) & _).
    apply s_lit in H1; [|reflexivity|reflexivity]. apply s_lit in H3; [|reflexivity|reflexivity].
    apply (s_star _ (fun v => 32 <= v <= 126 /\ v <> 62)) in H2 as (w & A & B).
    - exists w. split; auto. apply (span_app _ _ _ _ [60] (w ++ [62]) H1). eapply span_app; eauto.
    - intros i0 j0 ts0 [X|X]; apply s_byte in X as (b & X1 & X2 & _); exists b; (split; [exact X1|]); lia.
  Qed.

  (** Numbers *)
  Definition d_byte (b : string) (c : Z) : Prop := 0 <= c < 256 /\ base_digit b (ascii_of_N (Z.to_N c)).
  Lemma digit_of_byte c d : 0 <= c < 256 -> (48 <= c <= 57 /\ d = c - 48) \/ (65 <= c <= 70 /\ d = c - 55) \/ (97 <= c <= 102 /\ d = c - 87) ->
    digit_val (ascii_of_N (Z.to_N c)) = Some d.
  Proof.
    intros L H. unfold digit_val. cbv zeta. change (Z.of_N (N_of_ascii (ascii_of_N (Z.to_N c)))) with (cval (ascii_of_N (Z.to_N c))). rewrite cval_byte by lia.
    destruct ((48 <=? c) && (c <=? 57)) eqn:X1; [f_equal; lia|]. destruct ((65 <=? c) && (c <=? 70)) eqn:X2; [f_equal; lia|].
    destruct ((97 <=? c) && (c <=? 102)) eqn:X3; [f_equal; lia|lia].
  Qed.
  Lemma s_base_digit b l i j ts : base_letter b l -> R (base_rule b) i j ts -> exists c, sp i j [c] /\ d_byte b c.
  Proof.
    intros B H. destruct B.
    - change (base_rule "b") with "BIT" in H. apply q_bit in H as (cs & _ & [H|H]); apply s_lit in H; try reflexivity.
      + exists 48. split; auto. split; [lia|]. exists 2, 0. split; [reflexivity|]. split; [apply digit_of_byte; lia|lia].
      + exists 49. split; auto. split; [lia|]. exists 2, 1. split; [reflexivity|]. split; [apply digit_of_byte; lia|lia].
    - change (base_rule "d") with "DIGIT" in H. apply s_digit in H as (d & A & D). exists d. unfold digit_byte in D. split; auto. split; [lia|].
      exists 10, (d - 48). split; [reflexivity|]. split; [apply digit_of_byte; lia|lia].
    - change (base_rule "x") with "HEXDIG" in H. apply q_hexdig in H as (cs & _ & [H|H]).
      + apply s_digit in H as (d & A & D). exists d. unfold digit_byte in D. split; auto. split; [lia|].
        exists 16, (d - 48). split; [reflexivity|]. split; [apply digit_of_byte; lia|lia].
      + assert (X : exists d, sp i j [d] /\ (65 <= d <= 70 \/ 97 <= d <= 102)).
        { destruct H as [H|[H|[H|[H|[H|H]]]]]; apply s_byte in H as (d & A & D & _); exists d; (split; [exact A|]); clear - D; zb. }
        destruct X as (d & A & D). exists d. split; auto. split; [lia|].
        exists 16, (if d <=? 70 then d - 55 else d - 87). split; [reflexivity|]. destruct (Z.leb_spec d 70); (split; [apply digit_of_byte; lia|lia]).
  Qed.
  Lemma number_of b w : w <> [] -> radix_of b <> None -> Forall (d_byte b) w -> number_in b (string_of_bytes w) /\ bytes (string_of_bytes w) = w.
  Proof.
    intros NE Rx F. split.
    2:{ apply bytes_string. eapply Forall_impl; [|exact F]. intros c [H _]. exact H. }
    unfold number_in, numeral. destruct (radix_of b) as [r|] eqn:E; [|congruence].
    assert (G : forall w acc, Forall (d_byte b) w -> exists v, digits_val r acc (string_of_bytes w) = Some v).
    { clear - E. induction w as [|c w IH]; intros acc F; [eexists; reflexivity|]. inversion F as [|? ? [_ (r' & d & R1 & D & L)] F2]; subst.
      change (string_of_bytes (c :: w)) with (String (ascii_of_N (Z.to_N c)) (string_of_bytes w)). cbn [digits_val]. rewrite D.
      assert (r' = r) by congruence. subst r'. destruct (Z.ltb_spec d r); [|lia]. apply IH; auto. }
    destruct w as [|c w]; [congruence|]. apply (G (c :: w) 0 F).
  Qed.
  Lemma s_number b l i j ts : base_letter b l -> p_plus (R (base_rule b)) i j ts -> exists s, number_in b s /\ sp i j (bytes s).
  Proof.
    intros B (k & t1 & t2 & H1 & H2 & _). apply (s_base_digit b l) in H1 as (c & A & D); auto.
    apply (s_star _ (d_byte b)) in H2 as (w & C & E).
    - destruct (number_of b (c :: w)) as [N1 N2]; [discriminate|destruct B; discriminate|constructor; auto|].
      exists (string_of_bytes (c :: w)). split; auto. rewrite N2. apply (span_app _ _ _ _ [c] w A C).
    - intros i0 j0 ts0 X. apply (s_base_digit b l) in X as (d & X1 & X2); eauto.
  Qed.
  Lemma s_dots b l i j ts : base_letter b l -> p_star (p_seq (lit 46) (p_plus (R (base_rule b)))) i j ts ->
    exists es, Forall (number_in b) es /\ sp i j (flat_map (fun s => 46 :: bytes s) es).
  Proof.
    intros B H. induction H as [i L|i k j t1 t2 H1 H2 IH].
    - exists []. split; [constructor|apply sp_nil; auto].
    - destruct H1 as (k' & t3 & t4 & H3 & H4 & _). apply s_lit in H3; [|reflexivity|reflexivity]. apply (s_number b l) in H4 as (s & N & S); auto.
      destruct IH as (es & F & X). exists (s :: es). split; [constructor; auto|]. cbn [flat_map].
      eapply (span_app input i k j (46 :: bytes s)); [|exact X]. apply (span_app _ _ _ _ [46] (bytes s) H3 S).
  Qed.
  Lemma s_numval i j ts : R "num-val" i j ts -> exists e w, text_elem e w /\ sp i j w.
  Proof.
    intros H. apply q_numval in H as (cs & _ & k & t1 & t2 & H1 & H2 & _). apply s_lit in H1; [|reflexivity|reflexivity].
    assert (X : exists b l k2 ts2, base_letter b l /\ sp k k2 [l] /\
      p_seq (p_plus (R (base_rule b))) (p_opt input (p_or (p_plus (p_seq (lit 46) (p_plus (R (base_rule b))))) (p_seq (lit 45) (p_plus (R (base_rule b)))))) k2 j ts2).
    { destruct H2 as [H|[H|H]].
      - apply q_bin in H as (cs' & _ & k2 & t3 & t4 & H3 & H4 & _). apply s_byte in H3 as (c & A & C & _). exists "b", c, k2, t4. split; [|auto]. apply base_b. clear - C. zb.
      - apply q_dec in H as (cs' & _ & k2 & t3 & t4 & H3 & H4 & _). apply s_byte in H3 as (c & A & C & _). exists "d", c, k2, t4. split; [|auto]. apply base_d. clear - C. zb.
      - apply q_hex in H as (cs' & _ & k2 & t3 & t4 & H3 & H4 & _). apply s_byte in H3 as (c & A & C & _). exists "x", c, k2, t4. split; [|auto]. apply base_x. clear - C. zb. }
    destruct X as (b & l & k2 & ts2 & B & S2 & k3 & t5 & t6 & H5 & H6 & _). apply (s_number b l) in H5 as (s & N & S5); auto.
    assert (Pre : forall w, sp k2 j w -> sp i j (37 :: l :: w)).
    { intros w Sw. apply (span_app _ _ _ _ [37] (l :: w) H1). apply (span_app _ _ _ _ [l] w S2 Sw). }
    destruct H6 as [(<- & _ & _)|[H6|H6]].
    - exists (ENum b StatSeries [s]), (37 :: l :: dotted [s]). split; [constructor; auto; discriminate|]. apply Pre. exact S5.
    - destruct H6 as (k4 & t7 & t8 & H7 & H8 & _).
      assert (H9 : p_star (p_seq (lit 46) (p_plus (R (base_rule b)))) k3 j (t7 ++ t8)) by (econstructor; eauto).
      apply (s_dots b l) in H9 as (es & F & S9); auto.
      exists (ENum b StatSeries (s :: es)), (37 :: l :: dotted (s :: es)). split; [constructor; auto; discriminate|]. apply Pre.
      rewrite dotted_flat. eapply span_app; eauto.
    - destruct H6 as (k4 & t7 & t8 & H7 & H8 & _). apply s_lit in H7; [|reflexivity|reflexivity]. apply (s_number b l) in H8 as (s' & N' & S8); auto.
      exists (ENum b StatRange [s; s']), (37 :: l :: bytes s ++ 45 :: bytes s'). split; [constructor; auto|]. apply Pre.
      eapply span_app; [exact S5|]. apply (span_app _ _ _ _ [45] (bytes s') H7 S8).
  Qed.

  (** *** Elements *)
  Definition S_alt (n : nat) : Prop := forall i j ts, (j - i < n)%nat -> R "alternation" i j ts -> exists a w, text_alt a w /\ sp i j w.
  Section Step.
    Variable n : nat.
    Hypothesis IH : S_alt n.
    Lemma s_bracket o c i j ts : (j - i <= n)%nat -> lo_case o = o -> hi_case o = o -> lo_case c = c -> hi_case c = c ->
      p_seq (lit o) (p_seq p_ws (p_seq (R "alternation") (p_seq p_ws (lit c)))) i j ts ->
      exists b1 a w b2, blanks b1 /\ text_alt a w /\ blanks b2 /\ sp i j (o :: b1 ++ w ++ b2 ++ [c]).
    Proof.
      intros L O1 O2 C1 C2 (k1 & t1 & u1 & H1 & (k2 & t2 & u2 & H2 & (k3 & t3 & u3 & H3 & (k4 & t4 & u4 & H4 & H5 & _) & _) & _) & _).
      assert (M1 : (S i <= k1)%nat) by (apply s_byte in H1 as (? & _ & _ & _ & ->); lia).
      assert (M2 : (k1 <= k2)%nat) by (apply (mono_star input) in H2; [lia|mn]).
      assert (M3 : (k2 <= k3)%nat) by (apply mono_R in H3; lia).
      assert (M4 : (k3 <= k4)%nat) by (apply (mono_star input) in H4; [lia|mn]).
      assert (M5 : (S k4 <= j)%nat) by (apply s_byte in H5 as (? & _ & _ & _ & ->); lia).
      apply s_lit in H1; auto. apply s_lit in H5; auto. apply s_ws in H2 as (b1 & A1 & B1). apply s_ws in H4 as (b2 & A2 & B2).
      apply IH in H3 as (a & w & A & B); [|lia]. exists b1, a, w, b2. split; auto. split; auto. split; auto.
      apply (span_app _ _ _ _ [o] _ H1). eapply span_app; [exact A1|]. eapply span_app; [exact B|]. eapply span_app; eauto.
    Qed.
    Lemma s_element i j ts : (j - i <= n)%nat -> R "element" i j ts -> exists e w, text_elem e w /\ sp i j w.
    Proof.
      intros L H. apply q_element in H as (cs & _ & [H|[H|[H|[H|[H|H]]]]]).
      - apply s_name in H as (m & A & B). exists (ERule m), (bytes m). split; [constructor; auto|auto].
      - apply q_group in H as (cs' & _ & H). apply s_bracket in H as (b1 & a & w & b2 & A1 & A2 & A3 & A4); auto.
        exists (EGroup a). eexists. split; [|exact A4]. constructor; auto.
      - apply q_option in H as (cs' & _ & H). apply s_bracket in H as (b1 & a & w & b2 & A1 & A2 & A3 & A4); auto.
        exists (EOption a). eexists. split; [|exact A4]. constructor; auto.
      - apply s_charval in H as (s & m & vs & A & B & C). exists (EChar s vs). eexists. split; [|exact C]. constructor; auto.
      - apply s_numval in H. exact H.
      - apply s_prose in H as (vs & A & B). exists (EProse (map one_char vs)). eexists. split; [|exact B]. constructor; auto.
    Qed.
    Lemma s_repetition i j ts : (j - i <= n)%nat -> R "repetition" i j ts -> exists r w, text_rep r w /\ sp i j w.
    Proof.
      intros L H. apply q_repetition in H as (cs & _ & k & t1 & t2 & [(<- & _ & _)|H1] & H2 & _).
      - apply s_element in H2 as (e & w & A & B); auto. exists (Rep 1 1 e), w. split; [constructor; auto|auto].
      - assert (M : (i <= k)%nat) by (apply mono_R in H1; lia).
        apply s_repeat in H1 as (s & mn & mx & A1 & B1). apply s_element in H2 as (e & w & A & B); [|lia].
        exists (Rep (saturate mn) (saturate mx) e), (s ++ w). split; [constructor; auto|eapply span_app; eauto].
    Qed.
    Lemma s_concatenation i j ts : (j - i <= n)%nat -> R "concatenation" i j ts -> exists c w, text_cat c w /\ sp i j w.
    Proof.
      intros L H. apply q_concatenation in H as (cs & _ & k & t1 & t2 & H1 & H2 & _).
      assert (M : (i <= k)%nat) by (apply mono_R in H1; lia).
      assert (M2 : (k <= j)%nat) by (apply (mono_star input) in H2; [lia|unfold AbnfUnique.more_cat; mn]).
      apply s_repetition in H1 as (r & w & A & B); [|lia]. clear t1.
      revert i L M r w A B. induction H2 as [k Lk|k k' j t1 t2 H1 H2 IHs]; intros i L M r w A B.
      - exists [r], w. split; [constructor; auto|auto].
      - destruct H1 as (m & u1 & u2 & (m1 & v1 & v2 & H3 & H4 & _) & H5 & _).
        assert (M3 : (k <= m1)%nat) by (apply mono_R in H3; lia).
        assert (M4 : (m1 <= m)%nat) by (apply (mono_star input) in H4; [lia|mn]).
        assert (M5 : (m <= k')%nat) by (apply mono_R in H5; lia).
        assert (M6 : (k' <= j)%nat) by (apply (mono_star input) in H2; [lia|unfold AbnfUnique.more_cat; mn]).
        apply s_cwsp in H3 as (b1 & X1 & Y1). apply s_ws in H4 as (b & X2 & Y2). apply s_repetition in H5 as (r' & w' & X3 & Y3); [|lia].
        destruct (IHs M6 m) with (r := r') (w := w') as (c & w2 & X4 & Y4); auto; [lia|].
        exists (r :: c), (w ++ b1 ++ b ++ w2). split; [constructor; auto|].
        eapply span_app; [exact B|]. eapply span_app; [exact X1|]. eapply span_app; eauto.
    Qed.
    Lemma s_alternation i j ts : (j - i <= n)%nat -> R "alternation" i j ts -> exists a w, text_alt a w /\ sp i j w.
    Proof.
      intros L H. apply q_alternation in H as (cs & _ & k & t1 & t2 & H1 & H2 & _).
      assert (M : (i <= k)%nat) by (apply mono_R in H1; lia).
      assert (M2 : (k <= j)%nat) by (apply (mono_star input) in H2; [lia|unfold AbnfUnique.more_alt; mn]).
      apply s_concatenation in H1 as (r & w & A & B); [|lia]. clear t1.
      revert i L M r w A B. induction H2 as [k Lk|k k' j t1 t2 H1 H2 IHs]; intros i L M r w A B.
      - exists [r], w. split; [constructor; auto|auto].
      - destruct H1 as (m1 & u1 & u2 & H3 & (m2 & v1 & v2 & H4 & (m & u3 & u4 & H5 & H6 & _) & _) & _).
        assert (M3 : (k <= m1)%nat) by (apply (mono_star input) in H3; [lia|mn]).
        assert (M4 : (m1 <= m2)%nat) by (apply mono_byte in H4; lia).
        assert (M4' : (m2 <= m)%nat) by (apply (mono_star input) in H5; [lia|mn]).
        assert (M5 : (m <= k')%nat) by (apply mono_R in H6; lia).
        assert (M6 : (k' <= j)%nat) by (apply (mono_star input) in H2; [lia|unfold AbnfUnique.more_alt; mn]).
        apply s_ws in H3 as (b1 & X1 & Y1). apply s_lit in H4; [|reflexivity|reflexivity]. apply s_ws in H5 as (b2 & X2 & Y2).
        apply s_concatenation in H6 as (r' & w' & X3 & Y3); [|lia].
        destruct (IHs M6 m) with (r := r') (w := w') as (c & w2 & X4 & Y4); auto; [lia|].
        exists (r :: c), (w ++ b1 ++ 47 :: b2 ++ w2). split; [constructor; auto|].
        eapply span_app; [exact B|]. eapply span_app; [exact X1|]. apply (span_app _ _ _ _ [47] _ H4). eapply span_app; eauto.
    Qed.
  End Step.
  Lemma s_alt n : S_alt n.
  Proof. induction n as [|n IH]; intros i j ts L H; [lia|]. eapply (s_alternation n IH); eauto. lia. Qed.

  Lemma s_rule i j ts : R "rule" i j ts -> exists d w, text_rule any_filler d w /\ sp i j w.
  Proof.
    intros H. apply q_rule in H as (cs & _ & k1 & t1 & u1 & H1 & (k2 & t2 & u2 & H2 & (k3 & t3 & u3 & H3 & H4 & _) & _) & _).
    apply s_name in H1 as (n & A1 & B1). apply q_defined in H2 as (cd & _ & m1 & t4 & u4 & H5 & (m2 & t5 & u5 & H6 & H7 & _) & _).
    apply s_ws in H5 as (b1 & A5 & B5). apply s_ws in H7 as (b2 & A7 & B7).
    assert (O : exists inc, sp m1 m2 (operator inc)).
    { destruct H6 as [H6|H6].
      - apply s_lit in H6; [|reflexivity|reflexivity]. exists false. exact H6.
      - apply s_two in H6 as (b & c & X & Y & Z). exists true. assert (b = 61) by (clear - Y; zb). assert (c = 47) by (clear - Z; zb). subst b c. exact X. }
    destruct O as (inc & O). apply q_elements in H3 as (ce & _ & m3 & t6 & u6 & H8 & H9 & _).
    apply (s_alt (S (m3 - k2))) in H8 as (a & w & A8 & B8); [|lia]. apply s_wsps in H9 as (ws & A9 & B9). apply s_cnl in H4 as (nl & A4 & B4).
    exists (mkRule n a, inc). eexists. split; [apply (text_rule_intro any_filler n b1 inc b2 a w ws nl); auto; exact Logic.I|].
    eapply span_app; [exact B1|]. eapply span_app; [exact A5|]. eapply span_app; [exact O|]. eapply span_app; [exact A7|].
    eapply span_app; [exact B8|]. eapply span_app; eauto.
  Qed.
  Lemma s_lines i j ts : p_star (AbnfUnique.line input) i j ts -> exists ds w, text_lines any_filler ds w /\ sp i j w.
  Proof.
    intros H. induction H as [i L|i k j t1 t2 H1 H2 IH].
    - exists [], []. split; [constructor|apply sp_nil; auto].
    - destruct IH as (ds & w & A & B). destruct H1 as [H1|(m & u1 & u2 & H3 & H4 & _)].
      + apply s_rule in H1 as (d & w1 & A1 & B1). exists (d :: ds), (w1 ++ w). split; [constructor; auto|eapply span_app; eauto].
      + apply s_wsps in H3 as (ws & A3 & B3). apply s_cnl in H4 as (nl & A4 & B4). exists ds, (ws ++ nl ++ w).
        split; [constructor; auto|]. eapply span_app; [exact A3|]. eapply span_app; eauto.
  Qed.
  Theorem tree_text t : Derivation abnf_grammar "rulelist" input t -> exists ds, text_says any_filler input ds.
  Proof.
    intros H. apply q_rulelist in H as (cs & _ & k & t1 & t2 & H1 & H2 & _).
    assert (M : (0 < k)%nat).
    { destruct (AbnfUnique.line_some input _ _ _ H1) as (b & Eb). destruct H1 as [H1|(m & u1 & u2 & H3 & H4 & _)].
      - apply q_rule in H1 as (cs1 & _ & k1 & t5 & u5 & H5 & H6 & _). apply s_name in H5 as (n & A & B). pose proof (span_lt _ _ _ _ B) as X.
        assert (k1 <= k)%nat by (eapply (mono_seq input) in H6; [lia|mn|mn]). destruct n; [discriminate|]. specialize (X ltac:(discriminate)). lia.
      - apply s_wsps in H3 as (ws & A3 & B3). apply s_cnl in H4 as (nl & A4 & B4). apply span_le in A3. apply span_lt in A4; [lia|]. destruct B4; discriminate. }
    assert (H : p_star (AbnfUnique.line input) 0%nat (length input) (t1 ++ t2)) by (econstructor; eauto).
    apply s_lines in H as (ds & w & A & B). exists ds.
    assert (w = input) by (apply span_slice in B; unfold slice in B; rewrite Nat.sub_0_r in B; cbn [skipn] in B; rewrite firstn_all in B; auto). subst w.
    split; [|exact A]. apply (mono_star input) in H2; [|unfold AbnfUnique.line; mn]. destruct input; [cbn [length] in H2; lia|discriminate].
  Qed.
End Fwd.
