(** The trees of the grammar of ABNF and the texts of ReadSpec.v: a text that says
    something has a derivation tree, which evaluates to what the text says; and a
    text with a derivation tree says something.
    Its definitions are means of proof and model no code. *)
From Coq Require Import ZArith Arith String Ascii Bool List Lia.
From Verif Require Import Syntax Spec Utf8 Num Term Printer Tape Eval EvalProof ReadSpec TreeSpec TreeSound PropEval AbnfDen AbnfUnique.
Import ListNotations.
Local Open Scope string_scope.
Local Open Scope list_scope.
Local Open Scope Z_scope.

(** *** Strings and bytes *)
Lemma string_bytes s : string_of_bytes (bytes s) = s.
Proof.
  unfold string_of_bytes, bytes. rewrite map_map.
  rewrite (map_ext _ (fun c => c)). 2:{ intros c. rewrite N2Z.id. apply ascii_N_embedding. }
  rewrite map_id. apply string_of_list_ascii_of_string.
Qed.
Lemma bytes_string l : Forall (fun b => 0 <= b < 256) l -> bytes (string_of_bytes l) = l.
Proof.
  intros F. unfold string_of_bytes, bytes. rewrite list_ascii_of_string_of_list_ascii, map_map.
  rewrite <- (map_id l) at 2. apply map_ext_in. intros b I. rewrite Forall_forall in F. specialize (F b I).
  rewrite N_ascii_embedding by lia. rewrite Z2N.id by lia. reflexivity.
Qed.
Lemma bytes_cons c s : bytes (String c s) = cval c :: bytes s.
Proof. reflexivity. Qed.

Section Read.
  Variable input : list Z.
  Notation R := (AbnfDen.R abnf_grammar input).
  Notation p_star := (AbnfDen.p_star input).
  Notation p_plus := (AbnfDen.p_plus input).
  Notation p_byte := (AbnfDen.p_byte input).
  Notation p_two := (AbnfDen.p_two input).
  Notation p_nil := (AbnfDen.p_nil input).
  Notation p_opt := (AbnfDen.p_opt input).
  Notation p_ws := (AbnfUnique.p_ws input).
  Notation lit v := (p_byte (same_letter v)).
  Notation sp := (span input).

  Lemma span_slice i j w : sp i j w -> slice input i j = w.
  Proof.
    intros (p & s & -> & L & ->). unfold slice. subst i. rewrite skipn_app, skipn_all, Nat.sub_diag. cbn [skipn app].
    replace (length p + length w - length p)%nat with (length w) by lia. rewrite firstn_app, firstn_all, Nat.sub_diag. cbn [firstn]. apply app_nil_r.
  Qed.
  Lemma span_cons i j b w : sp i j (b :: w) <-> nth_error input i = Some b /\ sp (S i) j w.
  Proof.
    split.
    - intros H. destruct (span_app_inv input i j [b] w H) as [A B]. apply span_one in A as [A _].
      cbn [length] in B. replace (i + 1)%nat with (S i) in B by lia. auto.
    - intros [A B]. change (b :: w) with ([b] ++ w). eapply span_app; [apply one_span; eauto|auto].
  Qed.
  Lemma span_empty i j : sp i j [] -> i = j /\ (i <= length input)%nat.
  Proof. intros H. pose proof (span_le _ _ _ _ H). destruct H as (p & s & _ & _ & ->). cbn [length]. lia. Qed.
  Lemma span_split i j w1 w2 : sp i j (w1 ++ w2) -> exists k, sp i k w1 /\ sp k j w2.
  Proof. intros H. apply span_app_inv in H. eauto. Qed.
  Lemma span_snoc i j w b : sp i j (w ++ [b]) -> exists k, sp i k w /\ nth_error input k = Some b /\ j = S k.
  Proof. intros H. apply span_split in H as (k & A & B). apply span_one in B as [B ->]. eauto. Qed.
  Lemma mono_has P i j ts : AbnfDen.mono input P -> P i j ts -> exists w, sp i j w.
  Proof.
    intros M H. apply M in H. exists (firstn (j - i) (skipn i input)). exists (firstn i input), (skipn (j - i) (skipn i input)).
    rewrite firstn_skipn, firstn_skipn, !firstn_length, skipn_length. repeat split; lia.
  Qed.

  (** *** Building trees *)
  Definition tag (n : string) (ts : list ptree) : Prop := Forall (fun t => pt_rule t = n) ts.
  Lemma mk_byte (S : Z -> bool) i b : nth_error input i = Some b -> S b = true -> p_byte S i (Datatypes.S i) [PT "" i (Datatypes.S i) []].
  Proof. intros A B. exists b. auto. Qed.
  Lemma mk_two (S1 S2 : Z -> bool) i b c : nth_error input i = Some b -> S1 b = true -> nth_error input (S i) = Some c -> S2 c = true ->
    p_two S1 S2 i (S (S i)) [PT "" i (S (S i)) []].
  Proof. intros A B C D. exists b, c. repeat split; auto. Qed.
  Lemma at_le i (b : Z) : nth_error input i = Some b -> (S i <= length input)%nat.
  Proof. intros H. assert (i < length input)%nat by (apply nth_error_Some; congruence). lia. Qed.

  Lemma mk_wsp i c : nth_error input i = Some c -> white c -> exists cs, R "WSP" i (S i) [PT "WSP" i (S i) cs].
  Proof.
    intros E [->| ->].
    - eexists. apply q_wsp. eexists. split; [reflexivity|]. left. apply q_sp. eexists. split; [reflexivity|]. apply mk_byte with 32; auto.
    - eexists. apply q_wsp. eexists. split; [reflexivity|]. right. apply q_htab. eexists. split; [reflexivity|]. apply mk_byte with 9; auto.
  Qed.
  Lemma mk_star P (ok : Z -> Prop) n : (forall i c, nth_error input i = Some c -> ok c -> exists t, P i (S i) [t] /\ pt_rule t = n) ->
    forall w i j, Forall ok w -> sp i j w -> exists ts, p_star P i j ts /\ tag n ts.
  Proof.
    intros M w. induction w as [|c w IH]; intros i j F H.
    - apply span_empty in H as [<- L]. exists []. split; [constructor; auto|constructor].
    - apply span_cons in H as [E H]. inversion F as [|? ? F1 F2]; subst. destruct (M i c E F1) as (t & T1 & T2).
      destruct (IH _ _ F2 H) as (ts & A & B). exists ([t] ++ ts). split; [econstructor; eauto|constructor; auto].
  Qed.
  Lemma mk_wsps ws i j : Forall white ws -> sp i j ws -> exists ts, p_star (R "WSP") i j ts /\ tag "WSP" ts.
  Proof. apply mk_star. intros k c E W. destruct (mk_wsp k c E W) as (cs & H). eauto. Qed.
  Lemma mk_crlf i : nth_error input i = Some 13 -> nth_error input (S i) = Some 10 -> exists cs, R "CRLF" i (S (S i)) [PT "CRLF" i (S (S i)) cs].
  Proof.
    intros E1 E2. eexists. apply q_crlf. eexists. split; [reflexivity|]. exists (S i). do 2 eexists. split; [|split; [|reflexivity]].
    - apply q_cr. eexists. split; [reflexivity|]. apply mk_byte with 13; auto.
    - apply q_lf. eexists. split; [reflexivity|]. apply mk_byte with 10; auto.
  Qed.
  Lemma mk_newline w i j : newline w -> sp i j w -> exists cs, R "c-nl" i j [PT "c-nl" i j cs].
  Proof.
    intros [|body F] H.
    - apply span_two in H as (E1 & E2 & ->). destruct (mk_crlf i E1 E2) as (cs & C).
      eexists. apply q_cnl. eexists. split; [reflexivity|]. right. exact C.
    - apply span_cons in H as [E H]. apply span_split in H as (k & H1 & H2). apply span_two in H2 as (E1 & E2 & ->).
      destruct (mk_crlf k E1 E2) as (cs & C).
      assert (St : exists ts, p_star (p_or (R "WSP") (R "VCHAR")) (S i) k ts).
      { clear - F H1. revert i H1. induction body as [|c body IH]; intros i H.
        - apply span_empty in H as [<- L]. exists []. constructor. auto.
        - apply span_cons in H as [E H]. inversion F as [|? ? F1 F2]; subst. destruct (IH F2 _ H) as (ts & A).
          destruct F1 as [W|V].
          + destruct (mk_wsp _ _ E W) as (cs & B). eexists. econstructor; [left; exact B|exact A].
          + eexists. econstructor; [right; apply q_vchar; eexists; split; [reflexivity|apply mk_byte with c; auto; lia]|exact A]. }
      destruct St as (ts & St).
      eexists. apply q_cnl. eexists. split; [reflexivity|]. left. apply q_comment. eexists. split; [reflexivity|].
      exists (S i). do 2 eexists. split; [apply mk_byte with 59; [exact E|reflexivity]|]. split; [|reflexivity].
      exists k. do 2 eexists. split; [exact St|]. split; [exact C|reflexivity].
  Qed.
  Lemma mk_blank w i j : blank w -> sp i j w -> exists cs, R "c-wsp" i j [PT "c-wsp" i j cs].
  Proof.
    intros [c W|w' c N W] H.
    - apply span_one in H as [E ->]. destruct (mk_wsp _ _ E W) as (cs & A). eexists. apply q_cwsp. eexists. split; [reflexivity|]. left. exact A.
    - apply span_snoc in H as (k & H1 & E & ->). destruct (mk_newline _ _ _ N H1) as (cs & A). destruct (mk_wsp _ _ E W) as (cs' & B).
      eexists. apply q_cwsp. eexists. split; [reflexivity|]. right. exists k. do 2 eexists. split; [exact A|]. split; [exact B|reflexivity].
  Qed.
  Lemma mk_blanks w : blanks w -> forall i j, sp i j w -> exists ts, p_ws i j ts /\ tag "c-wsp" ts.
  Proof.
    intros H. induction H as [|w w' B Bs IH]; intros i j S.
    - apply span_empty in S as [<- L]. exists []. split; [constructor; auto|constructor].
    - apply span_split in S as (k & S1 & S2). destruct (mk_blank _ _ _ B S1) as (cs & A). destruct (IH _ _ S2) as (ts & C & D).
      eexists. split; [econstructor; [exact A|exact C]|]. constructor; auto.
  Qed.

  Lemma alpha_b c : is_alpha c = b_alpha (cval c).
  Proof. reflexivity. Qed.
  Lemma name_b c : name_char c = b_name (cval c).
  Proof. reflexivity. Qed.
  Lemma mk_alpha i b : nth_error input i = Some b -> b_alpha b = true -> exists cs, R "ALPHA" i (S i) [PT "ALPHA" i (S i) cs].
  Proof.
    intros E H. apply orb_true_iff in H as [H|H].
    - eexists. apply q_alpha. eexists. split; [reflexivity|]. left. apply mk_byte with b; auto.
    - eexists. apply q_alpha. eexists. split; [reflexivity|]. right. apply mk_byte with b; auto.
  Qed.
  Lemma mk_digit i b : nth_error input i = Some b -> b_digit b = true -> exists cs, R "DIGIT" i (S i) [PT "DIGIT" i (S i) cs].
  Proof. intros E H. eexists. apply q_digit. eexists. split; [reflexivity|]. apply mk_byte with b; auto. Qed.
  Lemma mk_name n i j : lex_name n = true -> sp i j (bytes n) -> exists cs, R "rulename" i j [PT "rulename" i j cs].
  Proof.
    intros L H. destruct n as [|c n]; [discriminate|]. cbn [lex_name] in L. apply andb_true_iff in L as [A L].
    rewrite bytes_cons in H. apply span_cons in H as [E H]. rewrite alpha_b in A. destruct (mk_alpha _ _ E A) as (cs & B).
    assert (St : exists ts, p_star (p_or (R "ALPHA") (p_or (R "DIGIT") (lit 45))) (S i) j ts).
    { clear - L H. revert i H. induction n as [|c n IH]; intros i H.
      - apply span_empty in H as [<- Le]. exists []. constructor. auto.
      - rewrite bytes_cons in H. apply span_cons in H as [E H]. cbn [all_chars] in L. apply andb_true_iff in L as [A L].
        destruct (IH L _ H) as (ts & B). rewrite name_b in A. unfold b_name in A. apply orb_true_iff in A as [A|A]; [apply orb_true_iff in A as [A|A]|].
        + destruct (mk_alpha _ _ E A) as (cs & X). eexists. econstructor; [left; exact X|exact B].
        + destruct (mk_digit _ _ E A) as (cs & X). eexists. econstructor; [right; left; exact X|exact B].
        + eexists. econstructor; [right; right; apply mk_byte with (cval c); [exact E|]|exact B]. apply Z.eqb_eq in A. rewrite A. reflexivity. }
    destruct St as (ts & St). eexists. apply q_rulename. eexists. split; [reflexivity|]. exists (S i). do 2 eexists. split; [exact B|]. split; [exact St|reflexivity].
  Qed.

  Definition digit_byte (c : Z) : Prop := 48 <= c <= 57.
  Lemma mk_digits s i j : Forall digit_byte s -> sp i j s -> exists ts, p_star (R "DIGIT") i j ts.
  Proof.
    intros F H. destruct (mk_star (R "DIGIT") digit_byte "DIGIT") with (w := s) (i := i) (j := j) as (ts & A & _); eauto.
    intros k c E D. destruct (mk_digit k c E) as (cs & X); [unfold digit_byte in D; zb|eauto].
  Qed.
  Lemma star_plus P i j ts : p_star P i j ts -> (i < j)%nat -> p_plus P i j ts.
  Proof. intros H L. inversion H as [? Hi|? k ? ta tb A B]; subst; [lia|]. exists k, ta, tb. auto. Qed.
  Lemma span_lt i j w : sp i j w -> w <> [] -> (i < j)%nat.
  Proof. intros (p & s & _ & _ & ->) N. destruct w; [congruence|]. cbn [length]. lia. Qed.

  Lemma mk_repeat s mn mx i j : repeat_denotes s mn mx -> sp i j s -> exists cs, R "repeat" i j [PT "repeat" i j cs].
  Proof.
    assert (Dig : forall s v, digits_denote s v -> Forall digit_byte s) by (intros s0 v [_ D]; eapply decimal_digits; eauto).
    intros [s0 n D| |s0 n D|s0 m D|s0 n s1 m D D'] H.
    - destruct (mk_digits _ _ _ (Dig _ _ D) H) as (ts & A). eexists. apply q_repeat. eexists. split; [reflexivity|]. left.
      apply star_plus; eauto. eapply span_lt; eauto. apply D.
    - apply span_one in H as [E ->]. eexists. apply q_repeat. eexists. split; [reflexivity|]. right.
      exists i. do 2 eexists. split; [constructor; apply at_le in E; lia|]. split; [|reflexivity].
      exists (S i). do 2 eexists. split; [apply mk_byte with 42; [exact E|reflexivity]|]. split; [constructor; apply at_le in E; lia|reflexivity].
    - apply span_snoc in H as (k & H & E & ->). destruct (mk_digits _ _ _ (Dig _ _ D) H) as (ts & A).
      eexists. apply q_repeat. eexists. split; [reflexivity|]. right. exists k. do 2 eexists. split; [exact A|]. split; [|reflexivity].
      exists (S k). do 2 eexists. split; [apply mk_byte with 42; [exact E|reflexivity]|]. split; [constructor; apply at_le in E; lia|reflexivity].
    - apply span_cons in H as [E H]. destruct (mk_digits _ _ _ (Dig _ _ D) H) as (ts & A).
      eexists. apply q_repeat. eexists. split; [reflexivity|]. right. exists i. do 2 eexists. split; [constructor; apply at_le in E; lia|]. split; [|reflexivity].
      exists (S i). do 2 eexists. split; [apply mk_byte with 42; [exact E|reflexivity]|]. split; [exact A|reflexivity].
    - apply span_split in H as (k & H1 & H2). apply span_cons in H2 as [E H2].
      destruct (mk_digits _ _ _ (Dig _ _ D) H1) as (ts & A). destruct (mk_digits _ _ _ (Dig _ _ D') H2) as (ts' & A').
      eexists. apply q_repeat. eexists. split; [reflexivity|]. right. exists k. do 2 eexists. split; [exact A|]. split; [|reflexivity].
      exists (S k). do 2 eexists. split; [apply mk_byte with 42; [exact E|reflexivity]|]. split; [exact A'|reflexivity].
  Qed.

  Lemma mk_quoted vs i j : Forall (fun v => quotable v = true) vs -> sp i j (34 :: vs ++ [34]) -> exists cs, R "quoted-string" i j [PT "quoted-string" i j cs].
  Proof.
    intros F H. apply span_cons in H as [E H]. apply span_snoc in H as (k & H & E' & ->).
    assert (Q : forall i, nth_error input i = Some 34 -> exists cs, R "DQUOTE" i (S i) [PT "DQUOTE" i (S i) cs]).
    { intros i0 E0. eexists. apply q_dquote. eexists. split; [reflexivity|]. apply mk_byte with 34; auto. }
    destruct (Q _ E) as (c1 & A1), (Q _ E') as (c2 & A2).
    destruct (mk_star (p_or (p_byte (fun c => (32 <=? c) && (c <=? 33))) (p_byte (fun c => (35 <=? c) && (c <=? 126)))) (fun v => quotable v = true) "")
      with (w := vs) (i := S i) (j := k) as (ts & B & _); auto.
    { intros i0 c E0 X. exists (PT "" i0 (S i0) []). split; auto. unfold quotable in X.
      destruct (Z.leb_spec c 33); [left|right]; apply mk_byte with c; auto; lia. }
    eexists. apply q_quoted. eexists. split; [reflexivity|]. exists (S i). do 2 eexists. split; [exact A1|]. split; [|reflexivity].
    exists k. do 2 eexists. split; [exact B|]. split; [exact A2|reflexivity].
  Qed.
  Lemma mk_char s m vs i j : case_mark s m -> Forall (fun v => quotable v = true) vs -> sp i j (m ++ 34 :: vs ++ [34]) ->
    exists cs, R "char-val" i j [PT "char-val" i j cs].
  Proof.
    intros M F H. apply span_split in H as (k & H1 & H2). destruct (mk_quoted _ _ _ F H2) as (cs & Q).
    destruct M as [|c C|c C].
    - apply span_empty in H1 as [<- L]. eexists. apply q_charval. eexists. split; [reflexivity|]. left. apply q_insens. eexists. split; [reflexivity|].
      exists i. do 2 eexists. split; [left; repeat split; auto|]. split; [exact Q|reflexivity].
    - apply span_two in H1 as (E1 & E2 & ->). eexists. apply q_charval. eexists. split; [reflexivity|]. left. apply q_insens. eexists. split; [reflexivity|].
      exists (S (S i)). do 2 eexists. split; [right; apply mk_two with 37 c; auto; destruct C as [->| ->]; reflexivity|]. split; [exact Q|reflexivity].
    - apply span_two in H1 as (E1 & E2 & ->). eexists. apply q_charval. eexists. split; [reflexivity|]. right. apply q_sens. eexists. split; [reflexivity|].
      exists (S (S i)). do 2 eexists. split; [apply mk_two with 37 c; auto; destruct C as [->| ->]; reflexivity|]. split; [exact Q|reflexivity].
  Qed.
  Lemma mk_prose vs i j : Forall (fun v => 32 <= v <= 126 /\ v <> 62) vs -> sp i j (60 :: vs ++ [62]) ->
    exists cs, R "prose-val" i j [PT "prose-val" i j cs].
  Proof.
    intros F H. apply span_cons in H as [E H]. apply span_snoc in H as (k & H & E' & ->).
    destruct (mk_star (p_or (p_byte (fun c => (32 <=? c) && (c <=? 61))) (p_byte (fun c => (63 <=? c) && (c <=? 126)))) (fun v => 32 <= v <= 126 /\ v <> 62) "")
      with (w := vs) (i := S i) (j := k) as (ts & B & _); auto.
    { intros i0 c E0 X. exists (PT "" i0 (S i0) []). split; auto.
      destruct (Z.leb_spec c 61); [left|right]; apply mk_byte with c; auto; lia. }
    eexists. apply q_prose. eexists. split; [reflexivity|]. exists (S i). do 2 eexists. split; [apply mk_byte with 60; [exact E|reflexivity]|]. split; [|reflexivity].
    exists k. do 2 eexists. split; [exact B|]. split; [apply mk_byte with 62; [exact E'|reflexivity]|reflexivity].
  Qed.

  (** Digits of a base. *)
  Definition base_rule (b : string) : string := if String.eqb b "b" then "BIT" else if String.eqb b "d" then "DIGIT" else "HEXDIG".
  Lemma mk_hexdig i v : nth_error input i = Some v ->
    ((48 <=? v) && (v <=? 57)) || ((65 <=? v) && (v <=? 70)) || ((97 <=? v) && (v <=? 102)) = true ->
    exists cs, R "HEXDIG" i (S i) [PT "HEXDIG" i (S i) cs].
  Proof.
    intros E H. destruct (b_digit v) eqn:D.
    - destruct (mk_digit _ _ E D) as (cs & A). eexists. apply q_hexdig. eexists. split; [reflexivity|]. left. exact A.
    - assert (C : v = 65 \/ v = 66 \/ v = 67 \/ v = 68 \/ v = 69 \/ v = 70 \/ v = 97 \/ v = 98 \/ v = 99 \/ v = 100 \/ v = 101 \/ v = 102).
      { unfold b_digit in D. lia. }
      eexists. apply q_hexdig. eexists. split; [reflexivity|]. right.
      destruct C as [C|[C|[C|[C|[C|[C|[C|[C|[C|[C|[C|C]]]]]]]]]]].
      + left; apply mk_byte with v; [exact E|rewrite C; reflexivity].
      + right; left; apply mk_byte with v; [exact E|rewrite C; reflexivity].
      + do 2 right; left; apply mk_byte with v; [exact E|rewrite C; reflexivity].
      + do 3 right; left; apply mk_byte with v; [exact E|rewrite C; reflexivity].
      + do 4 right; left; apply mk_byte with v; [exact E|rewrite C; reflexivity].
      + do 5 right; apply mk_byte with v; [exact E|rewrite C; reflexivity].
      + left; apply mk_byte with v; [exact E|rewrite C; reflexivity].
      + right; left; apply mk_byte with v; [exact E|rewrite C; reflexivity].
      + do 2 right; left; apply mk_byte with v; [exact E|rewrite C; reflexivity].
      + do 3 right; left; apply mk_byte with v; [exact E|rewrite C; reflexivity].
      + do 4 right; left; apply mk_byte with v; [exact E|rewrite C; reflexivity].
      + do 5 right; apply mk_byte with v; [exact E|rewrite C; reflexivity].
  Qed.
  Definition base_digit (b : string) (c : ascii) : Prop :=
    exists r d, radix_of b = Some r /\ digit_val c = Some d /\ d < r.
  Lemma mk_base_digit b c l i : base_letter b l -> nth_error input i = Some (cval c) -> base_digit b c ->
    exists cs, R (base_rule b) i (S i) [PT (base_rule b) i (S i) cs].
  Proof.
    intros B E (r & d & Hr & Hd & L). unfold digit_val in Hd. cbv zeta in Hd. change (Z.of_N (N_of_ascii c)) with (cval c) in Hd.
    set (v := cval c) in *.
    assert (Cs : (48 <= v <= 57 /\ d = v - 48) \/ (65 <= v <= 70 /\ d = v - 55) \/ (97 <= v <= 102 /\ d = v - 87)).
    { destruct ((48 <=? v) && (v <=? 57)) eqn:X1; [injection Hd as <-; lia|].
      destruct ((65 <=? v) && (v <=? 70)) eqn:X2; [injection Hd as <-; lia|].
      destruct ((97 <=? v) && (v <=? 102)) eqn:X3; [injection Hd as <-; lia|discriminate]. }
    destruct B; vm_compute in Hr; injection Hr as <-.
    - change (base_rule "b") with "BIT". assert (Bv : v = 48 \/ v = 49) by lia.
      eexists. apply q_bit. eexists. split; [reflexivity|]. destruct Bv as [Bv|Bv]; [left|right]; apply mk_byte with v; auto; rewrite Bv; reflexivity.
    - change (base_rule "d") with "DIGIT". apply mk_digit with v; auto. unfold b_digit. lia.
    - change (base_rule "x") with "HEXDIG". apply mk_hexdig with v; auto. lia.
  Qed.
  Lemma digits_digits b r : radix_of b = Some r -> forall s acc v, digits_val r acc s = Some v -> Forall (base_digit b) (list_ascii_of_string s).
  Proof.
    intros Hr s. induction s as [|c s IH]; intros acc v H; [constructor|]. cbn [digits_val] in H. cbn [list_ascii_of_string].
    destruct (digit_val c) as [d|] eqn:Dv; [|discriminate]. destruct (d <? r) eqn:L; [|discriminate]. constructor; eauto.
    exists r, d. repeat split; auto. lia.
  Qed.
  Lemma number_digits b s : number_in b s -> s <> "" /\ Forall (base_digit b) (list_ascii_of_string s).
  Proof.
    intros (v & H). unfold numeral in H. destruct (radix_of b) as [r|] eqn:Hr; [|discriminate].
    destruct s as [|c s]; [discriminate|]. split; [discriminate|]. eapply digits_digits; eauto.
  Qed.
  Lemma mk_number b l s i j : base_letter b l -> number_in b s -> sp i j (bytes s) -> exists ts, p_plus (R (base_rule b)) i j ts.
  Proof.
    intros B N H. apply number_digits in N as [NE F].
    assert (St : forall s i j, Forall (base_digit b) (list_ascii_of_string s) -> sp i j (bytes s) -> exists ts, p_star (R (base_rule b)) i j ts).
    { clear - B. induction s as [|c s IH]; intros i j F H.
      - apply span_empty in H as [<- L]. exists []. constructor. auto.
      - rewrite bytes_cons in H. apply span_cons in H as [E H]. inversion F as [|? ? F1 F2]; subst.
        destruct (mk_base_digit _ _ _ _ B E F1) as (cs & X). destruct (IH _ _ F2 H) as (ts & Y). eexists. econstructor; eauto. }
    destruct (St _ _ _ F H) as (ts & X). exists ts. apply star_plus; auto. eapply span_lt; eauto. destruct s; [congruence|discriminate].
  Qed.
  Lemma dotted_cons s s' es : dotted (s :: s' :: es) = bytes s ++ 46 :: dotted (s' :: es).
  Proof. reflexivity. Qed.
  Lemma mk_dots b l es : base_letter b l -> Forall (number_in b) es -> forall i j, sp i j (flat_map (fun s => 46 :: bytes s) es) ->
    exists ts, p_star (p_seq (lit 46) (p_plus (R (base_rule b)))) i j ts.
  Proof.
    intros B F. induction F as [|s es N F IH]; intros i j H.
    - apply span_empty in H as [<- L]. exists []. constructor. auto.
    - cbn [flat_map app] in H. apply span_cons in H as [E H]. apply span_split in H as (k & H1 & H2).
      destruct (mk_number _ _ _ _ _ B N H1) as (ts & X). destruct (IH _ _ H2) as (ts' & Y). eexists. econstructor; [|exact Y].
      exists (S i). do 2 eexists. split; [apply mk_byte with 46; [exact E|reflexivity]|]. split; [exact X|reflexivity].
  Qed.
  Lemma dotted_flat s es : dotted (s :: es) = bytes s ++ flat_map (fun s => 46 :: bytes s) es.
  Proof.
    revert s. induction es as [|s' es IH]; intros s; [cbn [dotted flat_map]; symmetry; apply app_nil_r|].
    rewrite dotted_cons, IH. reflexivity.
  Qed.
  Lemma mk_num_node b l i j cs : base_letter b l -> nth_error input i = Some 37 -> nth_error input (S i) = Some l ->
    p_seq (p_plus (R (base_rule b))) (p_opt (p_or (p_plus (p_seq (lit 46) (p_plus (R (base_rule b))))) (p_seq (lit 45) (p_plus (R (base_rule b)))))) (S (S i)) j cs ->
    exists cs', R "num-val" i j [PT "num-val" i j cs'].
  Proof.
    intros B E1 E2 H.
    assert (X : exists cs', p_or (R "bin-val") (p_or (R "dec-val") (R "hex-val")) (S i) j cs').
    { destruct B as [c C|c C|c C].
      - eexists. left. apply q_bin. eexists. split; [reflexivity|]. exists (S (S i)). do 2 eexists. split; [apply mk_byte with c; [exact E2|destruct C as [->| ->]; reflexivity]|]. split; [exact H|reflexivity].
      - eexists. right; left. apply q_dec. eexists. split; [reflexivity|]. exists (S (S i)). do 2 eexists. split; [apply mk_byte with c; [exact E2|destruct C as [->| ->]; reflexivity]|]. split; [exact H|reflexivity].
      - eexists. right; right. apply q_hex. eexists. split; [reflexivity|]. exists (S (S i)). do 2 eexists. split; [apply mk_byte with c; [exact E2|destruct C as [->| ->]; reflexivity]|]. split; [exact H|reflexivity]. }
    destruct X as (cs' & X). eexists. apply q_numval. eexists. split; [reflexivity|]. exists (S i). do 2 eexists.
    split; [apply mk_byte with 37; [exact E1|reflexivity]|]. split; [exact X|reflexivity].
  Qed.
  Lemma mk_series b c es i j : base_letter b c -> es <> [] -> Forall (number_in b) es -> sp i j (37 :: c :: dotted es) ->
    exists cs, R "num-val" i j [PT "num-val" i j cs].
  Proof.
    intros B NE F H. apply span_cons in H as [E1 H]. apply span_cons in H as [E2 H]. destruct es as [|s es]; [congruence|].
    rewrite dotted_flat in H. inversion F as [|? ? F1 F2]; subst. apply span_split in H as (k & H1 & H2).
    destruct (mk_number _ _ _ _ _ B F1 H1) as (ts & X). destruct (mk_dots _ _ _ B F2 _ _ H2) as (ts' & Y).
    eapply mk_num_node; eauto. exists k. do 2 eexists. split; [exact X|]. split; [|reflexivity].
    inversion Y as [? Hi|? m ? ta tb A1 A2]; subst; [left; repeat split; auto|]. right; left. exists m. do 2 eexists. split; [exact A1|]. split; [exact A2|reflexivity].
  Qed.
  Lemma mk_range b c lo hi i j : base_letter b c -> number_in b lo -> number_in b hi -> sp i j (37 :: c :: bytes lo ++ 45 :: bytes hi) ->
    exists cs, R "num-val" i j [PT "num-val" i j cs].
  Proof.
    intros B N1 N2 H. apply span_cons in H as [E1 H]. apply span_cons in H as [E2 H]. apply span_split in H as (k & H1 & H2).
    apply span_cons in H2 as [E3 H2].
    destruct (mk_number _ _ _ _ _ B N1 H1) as (ts & X). destruct (mk_number _ _ _ _ _ B N2 H2) as (ts' & Y).
    eapply mk_num_node; eauto. exists k. do 2 eexists. split; [exact X|]. split; [|reflexivity].
    right; right. exists (S k). do 2 eexists. split; [apply mk_byte with 45; [exact E3|reflexivity]|]. split; [exact Y|reflexivity].
  Qed.
End Read.
