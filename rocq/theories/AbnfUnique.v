(** The grammar of ABNF is unambiguous: a text has at most one derivation tree.
    Its definitions are means of proof and model no code. *)
From Coq Require Import ZArith Arith String Ascii Bool List Lia.
From Verif Require Import Syntax Spec Term Check TreeSpec TreeSound TreeComplete AbnfDen.
Import ListNotations.
Local Open Scope string_scope.
Local Open Scope list_scope.
Local Open Scope Z_scope.

Section Un.
  Variable input : list Z.
  Notation pr := AbnfDen.pr.
  Notation p_star := (AbnfDen.p_star input).
  Notation p_plus := (AbnfDen.p_plus input).
  Notation p_byte := (AbnfDen.p_byte input).
  Notation p_two := (AbnfDen.p_two input).
  Notation p_nil := (AbnfDen.p_nil input).
  Notation p_opt := (AbnfDen.p_opt input).
  Notation mono := (AbnfDen.mono input).

  (** [P] has at most one result from a position from [i0] on, among those whose
      end satisfies [F]. *)
  Definition un (i0 : nat) (P : pr) (F : nat -> Prop) : Prop :=
    forall i j ts j' ts', (i0 <= i)%nat -> P i j ts -> P i j' ts' -> F j -> F j' -> j = j' /\ ts = ts'.
  Definition any : nat -> Prop := fun _ => True.

  Lemma un_peq i0 P Q F : peq P Q -> un i0 Q F -> un i0 P F.
  Proof. intros E U i j ts j' ts' L A B. apply E in A, B. eauto. Qed.
  Lemma un_weak i0 P (F G : nat -> Prop) : un i0 P G -> (forall j, F j -> G j) -> un i0 P F.
  Proof. intros U I i j ts j' ts' L A B C D. eauto. Qed.
  Lemma un_byte i0 S F : un i0 (p_byte S) F.
  Proof. intros i j ts j' ts' _ (b & _ & _ & -> & ->) (b' & _ & _ & -> & ->) _ _. auto. Qed.
  Lemma un_two i0 S1 S2 F : un i0 (p_two S1 S2) F.
  Proof. intros i j ts j' ts' _ (b & c & _ & _ & _ & _ & -> & ->) (b' & c' & _ & _ & _ & _ & -> & ->) _ _. auto. Qed.
  Lemma un_node i0 n P F : un i0 P F -> un i0 (p_node n P) F.
  Proof.
    intros U i j ts j' ts' L (cs & -> & A) (cs' & -> & B) C D. destruct (U _ _ _ _ _ L A B C D) as [-> ->]. auto.
  Qed.
  Lemma un_seq i0 P Q (F G : nat -> Prop) : mono P -> un i0 P G -> un i0 Q F -> (forall k j ts, Q k j ts -> F j -> G k) -> un i0 (p_seq P Q) F.
  Proof.
    intros M UP UQ I i j ts j' ts' L (k & t1 & t2 & A & B & ->) (k' & t1' & t2' & A' & B' & ->) C D.
    destruct (UP i k t1 k' t1') as [-> ->]; eauto.
    assert (i <= k')%nat by (apply M in A'; lia).
    destruct (UQ k' j t2 j' t2') as [-> ->]; eauto. lia.
  Qed.
  Lemma un_or i0 P Q (F : nat -> Prop) : un i0 P F -> un i0 Q F ->
    (forall i j ts j' ts', P i j ts -> Q i j' ts' -> F j -> F j' -> False) -> un i0 (p_or P Q) F.
  Proof.
    intros UP UQ X i j ts j' ts' L [A|A] [B|B] C D; eauto; exfalso; eauto.
  Qed.
  Lemma un_opt i0 P (F : nat -> Prop) : un i0 P F -> (forall i j ts, P i j ts -> F i -> F j -> False) -> un i0 (p_opt P) F.
  Proof.
    intros UP X. apply un_or; auto.
    - intros i j ts j' ts' _ (<- & -> & _) (<- & -> & _) _ _. auto.
    - intros i j ts j' ts' (<- & _) A C D. eauto.
  Qed.
  Lemma un_star i0 P (F G : nat -> Prop) : mono P -> un i0 P G -> (forall k j ts, p_star P k j ts -> F j -> G k) ->
    (forall k j ts, P k j ts -> F k -> False) -> un i0 (p_star P) F.
  Proof.
    intros M U I X i j ts j' ts' L A. revert j' ts' L. induction A as [i Hi|i k j t1 t2 A1 A2 IH]; intros j' ts' L B C D.
    - inversion B as [|? k ? t1 t2 B1 B2]; subst; auto. exfalso. eauto.
    - inversion B as [|? k' ? t1' t2' B1 B2]; subst; [exfalso; eauto|].
      destruct (U i k t1 k' t1') as [-> ->]; eauto.
      assert (i <= k')%nat by (apply M in A1; lia).
      destruct (IH j' t2') as [-> ->]; auto. lia.
  Qed.
  Lemma un_plus i0 P (F G : nat -> Prop) : mono P -> un i0 P G -> (forall k j ts, p_star P k j ts -> F j -> G k) ->
    (forall k j ts, P k j ts -> F k -> False) -> un i0 (p_plus P) F.
  Proof. intros M U I X. eapply un_seq; eauto. eapply un_star; eauto. Qed.

  (** The byte a result starts with, and the byte after a position. *)
  Definition first (P : pr) (S : Z -> bool) : Prop := forall i j ts, P i j ts -> exists b, nth_error input i = Some b /\ S b = true.
  Definition nf (S : Z -> bool) : nat -> Prop := fun i => forall b, nth_error input i = Some b -> S b = false.

  Lemma first_peq P Q S : peq P Q -> first Q S -> first P S.
  Proof. intros E F i j ts H. apply E in H. eauto. Qed.
  Lemma first_byte S : first (p_byte S) S.
  Proof. intros i j ts (b & N & H & _). eauto. Qed.
  Lemma first_two S T : first (p_two S T) S.
  Proof. intros i j ts (b & c & N & H & _). eauto. Qed.
  Lemma first_node n P S : first P S -> first (p_node n P) S.
  Proof. intros F i j ts (cs & _ & H). eauto. Qed.
  Lemma first_seq P Q S : first P S -> first (p_seq P Q) S.
  Proof. intros F i j ts (k & t1 & t2 & A & _). eauto. Qed.
  Lemma first_or P Q S T : first P S -> first Q T -> first (p_or P Q) (fun b => S b || T b).
  Proof. intros F G i j ts [A|A]; [apply F in A as (b & N & H)|apply G in A as (b & N & H)]; exists b; rewrite H, ?orb_true_r; auto. Qed.
  Lemma first_opt_seq P Q S T : first P S -> first Q T -> first (p_seq (p_opt P) Q) (fun b => S b || T b).
  Proof.
    intros F G i j ts (k & t1 & t2 & [(-> & _)|A] & B & _).
    - apply G in B as (b & N & H). exists b. rewrite H, orb_true_r. auto.
    - apply F in A as (b & N & H). exists b. rewrite H. auto.
  Qed.
  Lemma first_star_seq P Q S T : first P S -> first Q T -> first (p_seq (p_star P) Q) (fun b => S b || T b).
  Proof.
    intros F G i j ts (k & t1 & t2 & A & B & _). inversion A as [? Hi|? m ? ta tb A1 A2]; subst.
    - apply G in B as (b & N & H). exists b. rewrite H, orb_true_r. auto.
    - apply F in A1 as (b & N & H). exists b. rewrite H. auto.
  Qed.
  Lemma first_weak P (S T : Z -> bool) : first P S -> (forall b, S b = true -> T b = true) -> first P T.
  Proof. intros F I i j ts H. apply F in H as (b & N & H). eauto. Qed.

  Lemma disj_first P Q (F : nat -> Prop) S T : first P S -> first Q T -> (forall b, S b = true -> T b = true -> False) ->
    forall i j ts j' ts', P i j ts -> Q i j' ts' -> F j -> F j' -> False.
  Proof. intros A B X i j ts j' ts' H K _ _. apply A in H as (b & N & H). apply B in K as (c & M & K). rewrite N in M. injection M as <-. eauto. Qed.
  Lemma nf_first P S T i j ts : first P S -> P i j ts -> (forall b, S b = true -> T b = true -> False) -> nf T i.
  Proof.
    intros F H X b N. apply F in H as (c & M & H). rewrite N in M. injection M as <-. destruct (T b) eqn:E; auto. exfalso. eauto.
  Qed.
  Lemma nf_clash P S T i j ts : first P S -> P i j ts -> nf T i -> (forall b, S b = true -> T b = true) -> False.
  Proof. intros F H N X. apply F in H as (b & M & H). apply N in M. rewrite (X b H) in M. discriminate. Qed.

  (** One result covers a prefix of the other. *)
  Lemma star_prefix P : un 0 P any -> forall k k1 t1, p_star P k k1 t1 -> forall k2 t2, p_star P k k2 t2 ->
    (exists t, p_star P k1 k2 t) \/ (exists t, p_star P k2 k1 t).
  Proof.
    intros U k k1 t1 A. induction A as [k Hk|k m k1 ta tb A1 A2 IH]; intros k2 t2 B; [eauto|].
    inversion B as [|? m' ? tc td B1 B2]; subst.
    - right. exists (ta ++ tb). econstructor; eauto.
    - destruct (U k m ta m' tc) as [-> ->]; auto; try exact Logic.I; [lia|]. eauto.
  Qed.
End Un.

(** ** The rules *)
Definition b_sp (b : Z) : bool := 32 =? b.
Definition b_wsp (b : Z) : bool := (b =? 32) || (b =? 9).
Definition b_cr (b : Z) : bool := b =? 13.
Definition b_nl (b : Z) : bool := (b =? 13) || (b =? 59).
Definition b_ws (b : Z) : bool := b_wsp b || b_nl b.
Definition b_alpha (b : Z) : bool := ((65 <=? b) && (b <=? 90)) || ((97 <=? b) && (b <=? 122)).
Definition b_digit (b : Z) : bool := (48 <=? b) && (b <=? 57).
Definition b_name (b : Z) : bool := b_alpha b || b_digit b || (b =? 45).
(** The bytes that can continue an element, and the bytes that can start one. *)
Definition b_more (b : Z) : bool := b_name b || (b =? 46).
Definition b_elem (b : Z) : bool := b_alpha b || (b =? 40) || (b =? 91) || (b =? 34) || (b =? 37) || (b =? 60).
Definition b_rep (b : Z) : bool := b_digit b || (b =? 42).
Definition b_item (b : Z) : bool := b_rep b || b_elem b.

Definition lo_case (v : Z) : Z := if (65 <=? v) && (v <=? 90) then v + 32 else v.
Definition hi_case (v : Z) : Z := if (97 <=? v) && (v <=? 122) then v - 32 else v.
Lemma letter_cases v b : same_letter v b = (b =? lo_case v) || (b =? hi_case v).
Proof.
  unfold same_letter, fold_case, lo_case, hi_case. apply eq_true_iff_eq. rewrite orb_true_iff, !Z.eqb_eq.
  destruct (Z.leb_spec 65 v), (Z.leb_spec v 90), (Z.leb_spec 97 v), (Z.leb_spec v 122), (Z.leb_spec 65 b), (Z.leb_spec b 90); cbn [andb]; lia.
Qed.
Ltac zb :=
  unfold b_item, b_rep, b_elem, b_more, b_name, b_digit, b_alpha, b_ws, b_nl, b_cr, b_wsp, b_sp in *;
  rewrite ?letter_cases in *;
  repeat match goal with
  | H : context [lo_case ?v] |- _ => let x := eval vm_compute in (lo_case v) in change (lo_case v) with x in H
  | H : context [hi_case ?v] |- _ => let x := eval vm_compute in (hi_case v) in change (hi_case v) with x in H
  | |- context [lo_case ?v] => let x := eval vm_compute in (lo_case v) in change (lo_case v) with x
  | |- context [hi_case ?v] => let x := eval vm_compute in (hi_case v) in change (hi_case v) with x
  end; lia.

Lemma abnf_names : distinct_names abnf_grammar.
Proof.
  unfold distinct_names. set (l := map _ _). vm_compute in l. subst l.
  repeat (constructor; [let H := fresh in intros H; cbn [In] in H; repeat (destruct H as [H|H]; [discriminate|]); exact H|]). constructor.
Qed.

Section Rules.
  Variable input : list Z.
  Notation R := (AbnfDen.R abnf_grammar input).
  Notation p_star := (AbnfDen.p_star input).
  Notation p_plus := (AbnfDen.p_plus input).
  Notation p_byte := (AbnfDen.p_byte input).
  Notation p_two := (AbnfDen.p_two input).
  Notation p_nil := (AbnfDen.p_nil input).
  Notation p_opt := (AbnfDen.p_opt input).
  Notation lit v := (p_byte (same_letter v)).
  Notation range l h := (p_byte (fun c => (l <=? c) && (c <=? h))).

  Ltac shape n := let r := eval vm_compute in (get_rule n abnf_grammar) in
    match r with Some ?r => exact (rule_den abnf_grammar input abnf_names n r eq_refl eq_refl) end.

  Lemma q_alpha : peq (R "ALPHA") (p_node "ALPHA" (p_or (range 65 90) (range 97 122))).
  Proof. shape "ALPHA". Qed.
  Lemma q_bit : peq (R "BIT") (p_node "BIT" (p_or (lit 48) (lit 49))).
  Proof. shape "BIT". Qed.
  Lemma q_cr : peq (R "CR") (p_node "CR" (p_byte (Z.eqb 13))).
  Proof. shape "CR". Qed.
  Lemma q_lf : peq (R "LF") (p_node "LF" (p_byte (Z.eqb 10))).
  Proof. shape "LF". Qed.
  Lemma q_crlf : peq (R "CRLF") (p_node "CRLF" (p_seq (R "CR") (R "LF"))).
  Proof. shape "CRLF". Qed.
  Lemma q_digit : peq (R "DIGIT") (p_node "DIGIT" (range 48 57)).
  Proof. shape "DIGIT". Qed.
  Lemma q_dquote : peq (R "DQUOTE") (p_node "DQUOTE" (p_byte (Z.eqb 34))).
  Proof. shape "DQUOTE". Qed.
  Lemma q_hexdig : peq (R "HEXDIG") (p_node "HEXDIG" (p_or (R "DIGIT") (p_or (lit 65) (p_or (lit 66) (p_or (lit 67) (p_or (lit 68) (p_or (lit 69) (lit 70)))))))).
  Proof. shape "HEXDIG". Qed.
  Lemma q_htab : peq (R "HTAB") (p_node "HTAB" (p_byte (Z.eqb 9))).
  Proof. shape "HTAB". Qed.
  Lemma q_sp : peq (R "SP") (p_node "SP" (p_byte (Z.eqb 32))).
  Proof. shape "SP". Qed.
  Lemma q_vchar : peq (R "VCHAR") (p_node "VCHAR" (range 33 126)).
  Proof. shape "VCHAR". Qed.
  Lemma q_wsp : peq (R "WSP") (p_node "WSP" (p_or (R "SP") (R "HTAB"))).
  Proof. shape "WSP". Qed.

  Definition line : AbnfDen.pr := p_or (R "rule") (p_seq (p_star (R "WSP")) (R "c-nl")).
  Definition p_ws := p_star (R "c-wsp").
  Lemma q_rulelist : peq (R "rulelist") (p_node "rulelist" (p_plus line)).
  Proof. shape "rulelist". Qed.
  Lemma q_rule : peq (R "rule") (p_node "rule" (p_seq (R "rulename") (p_seq (R "defined-as") (p_seq (R "elements") (R "c-nl"))))).
  Proof. shape "rule". Qed.
  Lemma q_rulename : peq (R "rulename") (p_node "rulename" (p_seq (R "ALPHA") (p_star (p_or (R "ALPHA") (p_or (R "DIGIT") (lit 45)))))).
  Proof. shape "rulename". Qed.
  Lemma q_defined : peq (R "defined-as") (p_node "defined-as" (p_seq p_ws (p_seq (p_or (lit 61) (p_two (same_letter 61) (same_letter 47))) p_ws))).
  Proof. shape "defined-as". Qed.
  Lemma q_elements : peq (R "elements") (p_node "elements" (p_seq (R "alternation") (p_star (R "WSP")))).
  Proof. shape "elements". Qed.
  Lemma q_cwsp : peq (R "c-wsp") (p_node "c-wsp" (p_or (R "WSP") (p_seq (R "c-nl") (R "WSP")))).
  Proof. shape "c-wsp". Qed.
  Lemma q_cnl : peq (R "c-nl") (p_node "c-nl" (p_or (R "comment") (R "CRLF"))).
  Proof. shape "c-nl". Qed.
  Lemma q_comment : peq (R "comment") (p_node "comment" (p_seq (lit 59) (p_seq (p_star (p_or (R "WSP") (R "VCHAR"))) (R "CRLF")))).
  Proof. shape "comment". Qed.
  Definition more_alt : AbnfDen.pr := p_seq p_ws (p_seq (lit 47) (p_seq p_ws (R "concatenation"))).
  Lemma q_alternation : peq (R "alternation") (p_node "alternation" (p_seq (R "concatenation") (p_star more_alt))).
  Proof. shape "alternation". Qed.
  Definition more_cat : AbnfDen.pr := p_seq (p_plus (R "c-wsp")) (R "repetition").
  Lemma q_concatenation : peq (R "concatenation") (p_node "concatenation" (p_seq (R "repetition") (p_star more_cat))).
  Proof. shape "concatenation". Qed.
  Lemma q_repetition : peq (R "repetition") (p_node "repetition" (p_seq (p_opt (R "repeat")) (R "element"))).
  Proof. shape "repetition". Qed.
  Lemma q_repeat : peq (R "repeat") (p_node "repeat" (p_or (p_plus (R "DIGIT")) (p_seq (p_star (R "DIGIT")) (p_seq (lit 42) (p_star (R "DIGIT")))))).
  Proof. shape "repeat". Qed.
  Lemma q_element : peq (R "element") (p_node "element" (p_or (R "rulename") (p_or (R "group") (p_or (R "option") (p_or (R "char-val") (p_or (R "num-val") (R "prose-val"))))))).
  Proof. shape "element". Qed.
  Lemma q_group : peq (R "group") (p_node "group" (p_seq (lit 40) (p_seq p_ws (p_seq (R "alternation") (p_seq p_ws (lit 41)))))).
  Proof. shape "group". Qed.
  Lemma q_option : peq (R "option") (p_node "option" (p_seq (lit 91) (p_seq p_ws (p_seq (R "alternation") (p_seq p_ws (lit 93)))))).
  Proof. shape "option". Qed.
  Lemma q_charval : peq (R "char-val") (p_node "char-val" (p_or (R "case-insensitive-string") (R "case-sensitive-string"))).
  Proof. shape "char-val". Qed.
  Lemma q_insens : peq (R "case-insensitive-string") (p_node "case-insensitive-string" (p_seq (p_opt (p_two (same_letter 37) (same_letter 105))) (R "quoted-string"))).
  Proof. shape "case-insensitive-string". Qed.
  Lemma q_sens : peq (R "case-sensitive-string") (p_node "case-sensitive-string" (p_seq (p_two (same_letter 37) (same_letter 115)) (R "quoted-string"))).
  Proof. shape "case-sensitive-string". Qed.
  Lemma q_quoted : peq (R "quoted-string") (p_node "quoted-string" (p_seq (R "DQUOTE") (p_seq (p_star (p_or (range 32 33) (range 35 126))) (R "DQUOTE")))).
  Proof. shape "quoted-string". Qed.
  Lemma q_numval : peq (R "num-val") (p_node "num-val" (p_seq (lit 37) (p_or (R "bin-val") (p_or (R "dec-val") (R "hex-val"))))).
  Proof. shape "num-val". Qed.
  Definition digits_of (v : Z) (D : string) : AbnfDen.pr :=
    p_seq (lit v) (p_seq (p_plus (R D)) (p_opt (p_or (p_plus (p_seq (lit 46) (p_plus (R D)))) (p_seq (lit 45) (p_plus (R D)))))).
  Lemma q_bin : peq (R "bin-val") (p_node "bin-val" (digits_of 98 "BIT")).
  Proof. shape "bin-val". Qed.
  Lemma q_dec : peq (R "dec-val") (p_node "dec-val" (digits_of 100 "DIGIT")).
  Proof. shape "dec-val". Qed.
  Lemma q_hex : peq (R "hex-val") (p_node "hex-val" (digits_of 120 "HEXDIG")).
  Proof. shape "hex-val". Qed.
  Lemma q_prose : peq (R "prose-val") (p_node "prose-val" (p_seq (lit 60) (p_seq (p_star (p_or (range 32 61) (range 63 126))) (lit 62)))).
  Proof. shape "prose-val". Qed.

  (** *** Uniqueness, rule by rule *)
  Notation un := (AbnfUnique.un).
  Notation first := (AbnfUnique.first input).
  Notation nf := (AbnfUnique.nf input).
  Notation mono := (AbnfDen.mono input).

  Ltac mn := repeat first [apply mono_R | apply mono_seq | apply mono_or | apply mono_star | apply mono_plus |
    apply mono_opt | apply mono_node | apply mono_byte | apply mono_two | apply mono_nil].
  Ltac fz := clear; let b := fresh "b" in intros b; intros; zb.

  Lemma f_alpha : first (R "ALPHA") b_alpha.
  Proof. eapply first_peq; [apply q_alpha|]. apply first_node. eapply first_weak; [apply first_or; apply first_byte|fz]. Qed.
  Lemma f_digit : first (R "DIGIT") b_digit.
  Proof. eapply first_peq; [apply q_digit|]. apply first_node, first_byte. Qed.
  Lemma f_sp : first (R "SP") (Z.eqb 32).
  Proof. eapply first_peq; [apply q_sp|]. apply first_node, first_byte. Qed.
  Lemma f_htab : first (R "HTAB") (Z.eqb 9).
  Proof. eapply first_peq; [apply q_htab|]. apply first_node, first_byte. Qed.
  Lemma f_wsp : first (R "WSP") b_wsp.
  Proof. eapply first_peq; [apply q_wsp|]. apply first_node. eapply first_weak; [apply first_or; [apply f_sp|apply f_htab]|fz]. Qed.
  Lemma f_vchar : first (R "VCHAR") (fun c => (33 <=? c) && (c <=? 126)).
  Proof. eapply first_peq; [apply q_vchar|]. apply first_node, first_byte. Qed.
  Lemma f_cr : first (R "CR") (Z.eqb 13).
  Proof. eapply first_peq; [apply q_cr|]. apply first_node, first_byte. Qed.
  Lemma f_crlf : first (R "CRLF") (Z.eqb 13).
  Proof. eapply first_peq; [apply q_crlf|]. apply first_node, first_seq, f_cr. Qed.
  Lemma f_comment : first (R "comment") (Z.eqb 59).
  Proof. eapply first_peq; [apply q_comment|]. apply first_node, first_seq. eapply first_weak; [apply first_byte|fz]. Qed.
  Lemma f_cnl : first (R "c-nl") b_nl.
  Proof. eapply first_peq; [apply q_cnl|]. apply first_node. eapply first_weak; [apply first_or; [apply f_comment|apply f_crlf]|fz]. Qed.
  Lemma f_cwsp : first (R "c-wsp") b_ws.
  Proof. eapply first_peq; [apply q_cwsp|]. apply first_node. eapply first_weak; [apply first_or; [apply f_wsp|apply first_seq, f_cnl]|fz]. Qed.
  Lemma f_dquote : first (R "DQUOTE") (Z.eqb 34).
  Proof. eapply first_peq; [apply q_dquote|]. apply first_node, first_byte. Qed.
  Lemma f_hexdig : first (R "HEXDIG") b_name.
  Proof.
    eapply first_peq; [apply q_hexdig|]. apply first_node.
    eapply first_weak; [repeat (apply first_or; [first [apply f_digit|apply first_byte]|]); apply first_byte|fz].
  Qed.
  Lemma f_bit : first (R "BIT") b_name.
  Proof. eapply first_peq; [apply q_bit|]. apply first_node. eapply first_weak; [apply first_or; apply first_byte|fz]. Qed.
  Lemma f_rulename : first (R "rulename") b_alpha.
  Proof. eapply first_peq; [apply q_rulename|]. apply first_node, first_seq, f_alpha. Qed.
  Lemma f_group : first (R "group") (Z.eqb 40).
  Proof. eapply first_peq; [apply q_group|]. apply first_node, first_seq. eapply first_weak; [apply first_byte|fz]. Qed.
  Lemma f_option : first (R "option") (Z.eqb 91).
  Proof. eapply first_peq; [apply q_option|]. apply first_node, first_seq. eapply first_weak; [apply first_byte|fz]. Qed.
  Lemma f_quoted : first (R "quoted-string") (Z.eqb 34).
  Proof. eapply first_peq; [apply q_quoted|]. apply first_node, first_seq, f_dquote. Qed.
  Lemma f_insens : first (R "case-insensitive-string") (fun b => (b =? 34) || (b =? 37)).
  Proof.
    eapply first_peq; [apply q_insens|]. apply first_node.
    eapply first_weak; [apply first_opt_seq; [apply first_two|apply f_quoted]|fz].
  Qed.
  Lemma f_sens : first (R "case-sensitive-string") (Z.eqb 37).
  Proof. eapply first_peq; [apply q_sens|]. apply first_node, first_seq. eapply first_weak; [apply first_two|fz]. Qed.
  Lemma f_charval : first (R "char-val") (fun b => (b =? 34) || (b =? 37)).
  Proof. eapply first_peq; [apply q_charval|]. apply first_node. eapply first_weak; [apply first_or; [apply f_insens|apply f_sens]|fz]. Qed.
  Lemma f_numval : first (R "num-val") (Z.eqb 37).
  Proof. eapply first_peq; [apply q_numval|]. apply first_node, first_seq. eapply first_weak; [apply first_byte|fz]. Qed.
  Lemma f_prose : first (R "prose-val") (Z.eqb 60).
  Proof. eapply first_peq; [apply q_prose|]. apply first_node, first_seq. eapply first_weak; [apply first_byte|fz]. Qed.
  Lemma f_element : first (R "element") b_elem.
  Proof.
    eapply first_peq; [apply q_element|]. apply first_node.
    eapply first_weak; [apply first_or; [apply f_rulename|apply first_or; [apply f_group|apply first_or; [apply f_option|
      apply first_or; [apply f_charval|apply first_or; [apply f_numval|apply f_prose]]]]]|fz].
  Qed.
  Lemma f_repeat : first (R "repeat") b_rep.
  Proof.
    eapply first_peq; [apply q_repeat|]. apply first_node.
    eapply first_weak; [apply first_or; [apply first_seq, f_digit|apply first_star_seq; [apply f_digit|apply first_seq, first_byte]]|fz].
  Qed.
  Lemma f_repetition : first (R "repetition") b_item.
  Proof.
    eapply first_peq; [apply q_repetition|]. apply first_node.
    eapply first_weak; [apply first_opt_seq; [apply f_repeat|apply f_element]|fz].
  Qed.
  Lemma f_concatenation : first (R "concatenation") b_item.
  Proof. eapply first_peq; [apply q_concatenation|]. apply first_node, first_seq, f_repetition. Qed.
  Lemma f_alternation : first (R "alternation") b_item.
  Proof. eapply first_peq; [apply q_alternation|]. apply first_node, first_seq, f_concatenation. Qed.
  Lemma f_rule : first (R "rule") b_alpha.
  Proof. eapply first_peq; [apply q_rule|]. apply first_node, first_seq, f_rulename. Qed.

  Ltac byfirst := eapply disj_first; [first [apply first_byte|apply f_sp|apply f_htab|apply f_digit|eauto]|
     first [apply first_byte|apply f_sp|apply f_htab|apply f_digit|eauto]|fz].

  Lemma u_alpha i0 F : un i0 (R "ALPHA") F.
  Proof. eapply un_peq; [apply q_alpha|]. apply un_node. apply un_or; [apply un_byte|apply un_byte|]. byfirst. Qed.
  Lemma u_bit i0 F : un i0 (R "BIT") F.
  Proof. eapply un_peq; [apply q_bit|]. apply un_node. apply un_or; [apply un_byte|apply un_byte|]. byfirst. Qed.
  Lemma u_digit i0 F : un i0 (R "DIGIT") F.
  Proof. eapply un_peq; [apply q_digit|]. apply un_node, un_byte. Qed.
  Lemma u_hexdig i0 F : un i0 (R "HEXDIG") F.
  Proof.
    eapply un_peq; [apply q_hexdig|]. apply un_node.
    repeat (apply un_or; [first [apply u_digit|apply un_byte]| |
      eapply disj_first; [first [apply first_byte|apply f_digit]|repeat (apply first_or; [first [apply f_digit|apply first_byte]|]); apply first_byte|fz]]).
    apply un_byte.
  Qed.
  Lemma u_sp i0 F : un i0 (R "SP") F.
  Proof. eapply un_peq; [apply q_sp|]. apply un_node, un_byte. Qed.
  Lemma u_htab i0 F : un i0 (R "HTAB") F.
  Proof. eapply un_peq; [apply q_htab|]. apply un_node, un_byte. Qed.
  Lemma u_wsp i0 F : un i0 (R "WSP") F.
  Proof. eapply un_peq; [apply q_wsp|]. apply un_node. apply un_or; [apply u_sp|apply u_htab|]. byfirst. Qed.
  Lemma u_vchar i0 F : un i0 (R "VCHAR") F.
  Proof. eapply un_peq; [apply q_vchar|]. apply un_node, un_byte. Qed.
  Lemma u_dquote i0 F : un i0 (R "DQUOTE") F.
  Proof. eapply un_peq; [apply q_dquote|]. apply un_node, un_byte. Qed.
  Lemma u_crlf i0 F : un i0 (R "CRLF") F.
  Proof.
    eapply un_peq; [apply q_crlf|]. apply un_node. eapply (un_seq input) with (G := any); [mn| | |intros; exact Logic.I].
    - eapply un_peq; [apply q_cr|]. apply un_node, un_byte.
    - eapply un_peq; [apply q_lf|]. apply un_node, un_byte.
  Qed.

  (** A sequence of items, the next of which is recognised by its first byte. *)
  Lemma un_items i0 P S (F : nat -> Prop) : mono P -> un i0 P any -> first P S -> (forall j, F j -> nf S j) -> un i0 (p_star P) F.
  Proof.
    intros M U Fi N. eapply (un_star input) with (G := any); auto; [intros; exact Logic.I|].
    intros k j ts H X. eapply nf_clash; [exact Fi|exact H|apply N; exact X|auto].
  Qed.
  Lemma un_items1 i0 P S (F : nat -> Prop) : mono P -> un i0 P any -> first P S -> (forall j, F j -> nf S j) -> un i0 (p_plus P) F.
  Proof.
    intros M U Fi N. eapply (un_plus input) with (G := any); auto; [intros; exact Logic.I|].
    intros k j ts H X. eapply nf_clash; [exact Fi|exact H|apply N; exact X|auto].
  Qed.

  Lemma u_comment i0 F : un i0 (R "comment") F.
  Proof.
    eapply un_peq; [apply q_comment|]. apply un_node. eapply (un_seq input) with (G := any); [mn|apply un_byte| |intros; exact Logic.I].
    eapply (un_seq input) with (G := nf (fun b => negb (b =? 13))); [mn| |apply u_crlf|].
    - eapply un_items with (S := fun b => b_wsp b || ((33 <=? b) && (b <=? 126))); [mn| | |].
      + apply un_or; [apply u_wsp|apply u_vchar|]. eapply disj_first; [apply f_wsp|apply f_vchar|fz].
      + apply first_or; [apply f_wsp|apply f_vchar].
      + intros j N b E. apply N in E. apply negb_false_iff in E. zb.
    - intros k j ts H _. eapply nf_first; [apply f_crlf|exact H|]. intros b E1 E2. apply negb_true_iff in E2. lia.
  Qed.
  Lemma u_cnl i0 F : un i0 (R "c-nl") F.
  Proof.
    eapply un_peq; [apply q_cnl|]. apply un_node. apply un_or; [apply u_comment|apply u_crlf|].
    eapply disj_first; [apply f_comment|apply f_crlf|fz].
  Qed.
  Lemma u_cwsp i0 F : un i0 (R "c-wsp") F.
  Proof.
    eapply un_peq; [apply q_cwsp|]. apply un_node. apply un_or; [apply u_wsp| |].
    - eapply (un_seq input) with (G := any); [mn|apply u_cnl|apply u_wsp|intros; exact Logic.I].
    - eapply disj_first; [apply f_wsp|apply first_seq, f_cnl|fz].
  Qed.
  Lemma u_ws i0 (F : nat -> Prop) : (forall j, F j -> nf b_ws j) -> un i0 p_ws F.
  Proof. intros N. eapply un_items; [mn|apply u_cwsp|apply f_cwsp|auto]. Qed.

  Lemma u_rulename i0 (F : nat -> Prop) : (forall j, F j -> nf b_name j) -> un i0 (R "rulename") F.
  Proof.
    intros N. eapply un_peq; [apply q_rulename|]. apply un_node. eapply (un_seq input) with (G := any); [mn|apply u_alpha| |intros; exact Logic.I].
    eapply un_items with (S := b_name); [mn| | |auto].
    - apply un_or; [apply u_alpha| |].
      + apply un_or; [apply u_digit|apply un_byte|byfirst].
      + eapply disj_first; [apply f_alpha|apply first_or; [apply f_digit|apply first_byte]|fz].
    - eapply first_weak; [apply first_or; [apply f_alpha|apply first_or; [apply f_digit|apply first_byte]]|fz].
  Qed.

  Lemma u_quoted i0 F : un i0 (R "quoted-string") F.
  Proof.
    eapply un_peq; [apply q_quoted|]. apply un_node. eapply (un_seq input) with (G := any); [mn|apply u_dquote| |intros; exact Logic.I].
    eapply (un_seq input) with (G := nf (fun b => negb (b =? 34))); [mn| |apply u_dquote|].
    - eapply un_items with (S := fun b => ((32 <=? b) && (b <=? 33)) || ((35 <=? b) && (b <=? 126))); [mn| | |].
      + apply un_or; [apply un_byte|apply un_byte|byfirst].
      + apply first_or; apply first_byte.
      + intros j N b E. apply N in E. apply negb_false_iff in E. zb.
    - intros k j ts H _. eapply nf_first; [apply f_dquote|exact H|]. intros b E1 E2. apply negb_true_iff in E2. lia.
  Qed.
  Lemma u_prose i0 F : un i0 (R "prose-val") F.
  Proof.
    eapply un_peq; [apply q_prose|]. apply un_node. eapply (un_seq input) with (G := any); [mn|apply un_byte| |intros; exact Logic.I].
    eapply (un_seq input) with (G := nf (fun b => negb (b =? 62))); [mn| |apply un_byte|].
    - eapply un_items with (S := fun b => ((32 <=? b) && (b <=? 61)) || ((63 <=? b) && (b <=? 126))); [mn| | |].
      + apply un_or; [apply un_byte|apply un_byte|byfirst].
      + apply first_or; apply first_byte.
      + intros j N b E. apply N in E. apply negb_false_iff in E. zb.
    - intros k j ts H _. eapply nf_first; [apply first_byte|exact H|]. intros b E1 E2. apply negb_true_iff in E2. zb.
  Qed.

  (** The second byte after a percent sign. *)
  Definition second (P : AbnfDen.pr) (S : Z -> bool) : Prop := forall i j ts, P i j ts -> nth_error input i = Some 37 ->
    exists b, nth_error input (Datatypes.S i) = Some b /\ S b = true.
  Lemma sec_insens : second (R "case-insensitive-string") (same_letter 105).
  Proof.
    intros i j ts H E. apply q_insens in H as (cs & _ & k & t1 & t2 & [(-> & _)|A] & B & _).
    - apply f_quoted in B as (b & N & X). rewrite E in N. injection N as <-. discriminate.
    - destruct A as (b & c & N & _ & M & X & _). eauto.
  Qed.
  Lemma sec_sens : second (R "case-sensitive-string") (same_letter 115).
  Proof.
    intros i j ts H E. apply q_sens in H as (cs & _ & k & t1 & t2 & A & B & _).
    destruct A as (b & c & N & _ & M & X & _). eauto.
  Qed.
  Lemma sec_charval : second (R "char-val") (fun b => same_letter 105 b || same_letter 115 b).
  Proof.
    intros i j ts H E. apply q_charval in H as (cs & _ & [H|H]).
    - apply sec_insens in H as (b & N & X); auto. exists b. rewrite X. auto.
    - apply sec_sens in H as (b & N & X); auto. exists b. rewrite X, orb_true_r. auto.
  Qed.
  Lemma sec_numval : second (R "num-val") (fun b => same_letter 98 b || same_letter 100 b || same_letter 120 b).
  Proof.
    intros i j ts H E. apply q_numval in H as (cs & _ & k & t1 & t2 & (b & _ & _ & -> & _) & B & _).
    destruct B as [B|[B|B]]; [apply q_bin in B|apply q_dec in B|apply q_hex in B];
      destruct B as (cs' & _ & k & t1' & t2' & (c & N & X & _) & _); exists c; rewrite X, ?orb_true_r; auto.
  Qed.
  Lemma u_insens i0 F : un i0 (R "case-insensitive-string") F.
  Proof.
    eapply un_peq; [apply q_insens|]. apply un_node. eapply (un_seq input) with (G := nf (fun b => b =? 37)); [mn| |apply u_quoted|].
    - apply un_opt; [apply un_two|]. intros i j ts H X _. eapply nf_clash; [apply first_two|exact H|exact X|fz].
    - intros k j ts H _. eapply nf_first; [apply f_quoted|exact H|fz].
  Qed.
  Lemma u_sens i0 F : un i0 (R "case-sensitive-string") F.
  Proof. eapply un_peq; [apply q_sens|]. apply un_node. eapply (un_seq input) with (G := any); [mn|apply un_two|apply u_quoted|intros; exact Logic.I]. Qed.
  Lemma u_charval i0 F : un i0 (R "char-val") F.
  Proof.
    eapply un_peq; [apply q_charval|]. apply un_node. apply un_or; [apply u_insens|apply u_sens|].
    intros i j ts j' ts' A B _ _. pose proof (f_sens _ _ _ B) as (b & N & E). apply Z.eqb_eq in E. subst b.
    apply sec_insens in A as (b & N1 & E1); auto. apply sec_sens in B as (c & N2 & E2); auto.
    rewrite N1 in N2. injection N2 as <-. zb.
  Qed.

  Lemma u_digits_of i0 v D (F : nat -> Prop) : first (R D) b_name -> (forall b, b = 45 -> forall i j ts, R D i j ts -> nth_error input i <> Some b) ->
    (forall i0 F, un i0 (R D) F) -> (forall j, F j -> nf b_more j) -> un i0 (digits_of v D) F.
  Proof.
    intros Fi ND U N. unfold digits_of. set (b_dig := fun b => b_name b && negb (b =? 45)).
    assert (Fd : first (R D) b_dig).
    { intros i j ts H. destruct (Fi _ _ _ H) as (b & E & X). exists b. split; auto. unfold b_dig. rewrite X. apply negb_true_iff, Z.eqb_neq.
      intros ->. eapply ND; eauto. }
    assert (Pl : forall F : nat -> Prop, (forall j, F j -> nf b_dig j) -> un i0 (p_plus (R D)) F).
    { intros F' N'. eapply un_items1; [mn|apply U|exact Fd|auto]. }
    assert (Nd : forall j, F j -> nf b_dig j).
    { intros j X b E. apply N in X. apply X in E. unfold b_dig. zb. }
    assert (Nm : forall S, (forall b, S b = true -> b_more b = true) -> forall j, F j -> nf S j).
    { intros S I j X b E. apply (N j X) in E. destruct (S b) eqn:Y; auto. rewrite (I b Y) in E. discriminate. }
    eapply (un_seq input) with (G := any); [mn|apply un_byte| |intros; exact Logic.I].
    eapply (un_seq input) with (G := nf b_dig); [mn|apply Pl; auto| |].
    - apply un_opt.
      + apply un_or.
        * eapply (un_plus input) with (G := nf b_dig); [mn| | |].
          -- eapply (un_seq input) with (G := any); [mn|apply un_byte|apply Pl; auto|intros; exact Logic.I].
          -- intros k j ts H X. inversion H as [? Hi|? k' ? ta tb A B]; subst; [auto|].
             eapply nf_first; [apply first_seq, first_byte|exact A|]. unfold b_dig. intros b. zb.
          -- intros k j ts H X. eapply nf_clash; [apply first_seq, first_byte|exact H|apply N; exact X|fz].
        * eapply (un_seq input) with (G := any); [mn|apply un_byte|apply Pl; auto|intros; exact Logic.I].
        * eapply disj_first; [apply first_seq, first_seq, first_byte|apply first_seq, first_byte|fz].
      + intros i j ts H X _. eapply nf_clash; [apply first_or; [apply first_seq, first_seq, first_byte|apply first_seq, first_byte]|exact H|apply N; exact X|fz].
    - intros k j ts [(-> & _)|H] X; [auto|].
      eapply nf_first; [apply first_or; [apply first_seq, first_seq, first_byte|apply first_seq, first_byte]|exact H|]. unfold b_dig. intros b. zb.
  Qed.
  Lemma u_numval i0 (F : nat -> Prop) : (forall j, F j -> nf b_more j) -> un i0 (R "num-val") F.
  Proof.
    intros N. eapply un_peq; [apply q_numval|]. apply un_node. eapply (un_seq input) with (G := any); [mn|apply un_byte| |intros; exact Logic.I].
    assert (F1 : first (R "bin-val") (same_letter 98)) by (eapply first_peq; [apply q_bin|apply first_node, first_seq, first_byte]).
    assert (F2 : first (R "dec-val") (same_letter 100)) by (eapply first_peq; [apply q_dec|apply first_node, first_seq, first_byte]).
    assert (F3 : first (R "hex-val") (same_letter 120)) by (eapply first_peq; [apply q_hex|apply first_node, first_seq, first_byte]).
    apply un_or; [| |eapply disj_first; [exact F1|apply first_or; [exact F2|exact F3]|fz]].
    - eapply un_peq; [apply q_bin|]. apply un_node. apply u_digits_of; auto; [apply f_bit| |apply u_bit].
      intros b -> i j ts H E. apply q_bit in H as (cs & _ & [H|H]); destruct H as (c & M & X & _); rewrite E in M; injection M as <-; discriminate.
    - apply un_or; [| |eapply disj_first; [exact F2|exact F3|fz]].
      + eapply un_peq; [apply q_dec|]. apply un_node. apply u_digits_of; auto; [eapply first_weak; [apply f_digit|fz]| |apply u_digit].
        intros b -> i j ts H E. apply f_digit in H as (c & M & X). rewrite E in M. injection M as <-. discriminate.
      + eapply un_peq; [apply q_hex|]. apply un_node. apply u_digits_of; auto; [apply f_hexdig| |apply u_hexdig].
        intros b -> i j ts H E. apply q_hexdig in H as (cs & _ & [H|H]).
        * apply f_digit in H as (c & M & X). rewrite E in M. injection M as <-. discriminate.
        * repeat (destruct H as [H|H]); destruct H as (c & M & X & _); rewrite E in M; injection M as <-; discriminate.
  Qed.

  Lemma u_repeat i0 (F : nat -> Prop) : (forall j, F j -> nf b_rep j) -> un i0 (R "repeat") F.
  Proof.
    intros N. assert (Nd : forall j, F j -> nf b_digit j).
    { intros j X b E. apply N in X. apply X in E. zb. }
    eapply un_peq; [apply q_repeat|]. apply un_node. apply un_or.
    - eapply un_items1; [mn|apply u_digit|apply f_digit|auto].
    - eapply (un_seq input) with (G := nf b_digit); [mn| | |].
      + eapply un_items; [mn|apply u_digit|apply f_digit|auto].
      + eapply (un_seq input) with (G := any); [mn|apply un_byte| |intros; exact Logic.I].
        eapply un_items; [mn|apply u_digit|apply f_digit|auto].
      + intros k j ts H X. eapply nf_first; [apply first_seq, first_byte|exact H|fz].
    - intros i j ts j' ts' A (k & t1 & t2 & B1 & B2 & _) X Y.
      assert (A' : p_star (R "DIGIT") i j ts) by (destruct A as (k' & ta & tb & A1 & A2 & ->); econstructor; eauto).
      assert (Z0 : nth_error input k = Some 42).
      { destruct B2 as (k' & ta & tb & (b & E & Sm & _) & _). rewrite E. f_equal. zb. }
      assert (U : j = k).
      { destruct (un_items 0 (R "DIGIT") b_digit (nf b_digit) ltac:(mn) (u_digit _ _) f_digit (fun _ h => h) i j ts k t1) as [-> _]; auto; [lia|].
        intros b E. rewrite Z0 in E. injection E as <-. reflexivity. }
      subst k. apply N in X. apply X in Z0. discriminate.
  Qed.

  (** Ends: no byte that would extend an element; after any filler, no item (nor
      a further alternative). *)
  Definition e_elem : nat -> Prop := nf b_more.
  Definition e_cat (j : nat) : Prop := e_elem j /\ forall k ts, p_ws j k ts -> nf b_item k.
  Definition e_alt (j : nat) : Prop := e_elem j /\ forall k ts, p_ws j k ts -> nf (fun b => b_item b || (b =? 47)) k.

  Lemma e_alt_cat j : e_alt j -> e_cat j.
  Proof. intros [A B]. split; auto. intros k ts H b E. apply (B k ts H) in E. apply orb_false_iff in E. tauto. Qed.

  Lemma ws_end k k1 t1 S b : p_ws k k1 t1 -> nth_error input k1 = Some b -> S b = false -> b_ws b = false ->
    (forall c, b_ws c = true -> S c = false) -> forall k2 t2, p_ws k k2 t2 -> nf S k2.
  Proof.
    intros A E Sb Wb SW k2 t2 B. destruct (star_prefix input (R "c-wsp") (u_cwsp _ _) k k1 t1 A k2 t2 B) as [[t H]|[t H]].
    - inversion H as [? Hi|? m ? ta tb H1 H2]; subst.
      + intros c Ec. rewrite E in Ec. injection Ec as <-. auto.
      + apply f_cwsp in H1 as (c & Ec & X). rewrite E in Ec. injection Ec as <-. congruence.
    - inversion H as [? Hi|? m ? ta tb H1 H2]; subst.
      + intros c Ec. rewrite E in Ec. injection Ec as <-. auto.
      + intros c Ec. apply f_cwsp in H1 as (c' & Ec' & X). rewrite Ec in Ec'. injection Ec' as <-. auto.
  Qed.
  Lemma ws_more k k1 t1 b : p_ws k k1 t1 -> nth_error input k1 = Some b -> b_more b = false -> e_elem k.
  Proof.
    intros A E N. inversion A as [? Hi|? m ? ta tb H1 H2]; subst.
    - intros c Ec. rewrite E in Ec. injection Ec as <-. auto.
    - eapply nf_first; [apply f_cwsp|exact H1|fz].
  Qed.

  Section Level.
    Variable i0 : nat.
    Hypothesis deep : un (S i0) (R "alternation") e_alt.

    Lemma u_bracket n o c : b_ws c = false -> b_item c = false -> c <> 47 -> b_more c = false -> (forall b, same_letter c b = true -> b = c) ->
      peq (R n) (p_node n (p_seq (lit o) (p_seq p_ws (p_seq (R "alternation") (p_seq p_ws (lit c)))))) -> forall F, un i0 (R n) F.
    Proof.
      intros W It Sl Mo Le Q F. eapply un_peq; [exact Q|]. apply un_node.
      intros i j ts j' ts' L (k & t1 & t2 & (b & E & Sm & -> & ->) & B & ->) (k' & t1' & t2' & (b' & E' & Sm' & -> & ->) & B' & ->) X Y.
      assert (U : un (S i0) (p_seq p_ws (p_seq (R "alternation") (p_seq p_ws (lit c)))) F).
      { eapply (un_seq input) with (G := nf b_ws); [mn|apply u_ws; auto| |].
        - eapply (un_seq input) with (G := e_alt); [mn|exact deep| |].
          + eapply (un_seq input) with (G := nf b_ws); [mn|apply u_ws; auto|apply un_byte|].
            intros k j0 ts0 (b0 & E0 & Sm0 & _) _ b1 E1. rewrite E0 in E1. injection E1 as <-. apply Le in Sm0. subst b0. auto.
          + intros k j0 ts0 (k1 & ta & tb & A1 & (b0 & E0 & Sm0 & _) & _) _. apply Le in Sm0. subst b0. split.
            * eapply ws_more; eauto.
            * intros k2 t0 A2. eapply ws_end; [exact A1|exact E0| | | |exact A2]; auto; [|fz].
              rewrite It. apply Z.eqb_neq. auto.
        - intros k j0 ts0 (k1 & ta & tb & A1 & _) _. eapply nf_first; [apply f_alternation|exact A1|fz]. }
      destruct (U (S i) j t2 j' t2') as [-> ->]; auto. lia.
    Qed.

    Lemma u_element : un i0 (R "element") e_elem.
    Proof.
      eapply un_peq; [apply q_element|]. apply un_node.
      apply un_or; [apply u_rulename| |eapply disj_first; [apply f_rulename|apply first_or; [apply f_group|apply first_or; [apply f_option|
      apply first_or; [apply f_charval|apply first_or; [apply f_numval|apply f_prose]]]]|fz]].
      { intros j X b E. apply X in E. zb. }
      apply un_or; [apply (u_bracket "group" 40 41); try reflexivity; try discriminate; [fz|apply q_group]| |eapply disj_first; [apply f_group|apply first_or; [apply f_option|
      apply first_or; [apply f_charval|apply first_or; [apply f_numval|apply f_prose]]]|fz]].
      apply un_or; [apply (u_bracket "option" 91 93); try reflexivity; try discriminate; [fz|apply q_option]| |eapply disj_first; [apply f_option|
      apply first_or; [apply f_charval|apply first_or; [apply f_numval|apply f_prose]]|fz]].
      apply un_or; [apply u_charval| |].
      - apply un_or; [apply u_numval; auto|apply u_prose|eapply disj_first; [apply f_numval|apply f_prose|fz]].
      - intros i j ts j' ts' A [B|B] _ _.
        + pose proof (f_numval _ _ _ B) as (b & N & E). apply Z.eqb_eq in E. subst b.
          apply sec_charval in A as (b & N1 & E1); auto. apply sec_numval in B as (c & N2 & E2); auto.
          rewrite N1 in N2. injection N2 as <-. zb.
        + apply f_charval in A as (b & N & E). apply f_prose in B as (c & N' & E'). rewrite N in N'. injection N' as <-. zb.
    Qed.
    Lemma u_repetition : un i0 (R "repetition") e_elem.
    Proof.
      eapply un_peq; [apply q_repetition|]. apply un_node. eapply (un_seq input) with (G := nf b_rep); [mn| |apply u_element|].
      - apply un_opt; [apply u_repeat; auto|]. intros i j ts H X _. eapply nf_clash; [apply f_repeat|exact H|exact X|auto].
      - intros k j ts H _. eapply nf_first; [apply f_element|exact H|fz].
    Qed.
    Lemma u_concatenation : un i0 (R "concatenation") e_cat.
    Proof.
      eapply un_peq; [apply q_concatenation|]. apply un_node.
      assert (Nx : forall k j ts, p_star more_cat k j ts -> e_cat j -> e_elem k).
      { intros k j ts H X. inversion H as [? Hi|? m ? ta tb (k1 & tc & td & (k2 & te & tf & A & _) & _) _]; subst; [apply X|].
        eapply nf_first; [apply f_cwsp|exact A|fz]. }
      eapply (un_seq input) with (G := e_elem); [mn|apply u_repetition| |exact Nx].
      eapply (un_star input) with (G := e_elem); [unfold more_cat; mn| |exact Nx|].
      - eapply (un_seq input) with (G := nf b_ws); [mn| |apply u_repetition|].
        + eapply un_items1; [mn|apply u_cwsp|apply f_cwsp|auto].
        + intros k j ts H _. eapply nf_first; [apply f_repetition|exact H|fz].
      - intros k j ts (k1 & ta & tb & (k2 & tc & td & A & A' & _) & B & _) [_ X].
        apply f_repetition in B as (b & E & It). assert (Y : p_ws k k1 (tc ++ td)) by (econstructor; eauto).
        apply (X _ _ Y) in E. congruence.
    Qed.
    Lemma u_alternation : un i0 (R "alternation") e_alt.
    Proof.
      eapply un_peq; [apply q_alternation|]. apply un_node.
      assert (Nx : forall k j ts, p_star more_alt k j ts -> e_alt j -> e_cat k).
      { intros k j ts H X. inversion H as [? Hi|? m ? ta tb (k1 & tc & td & A & (k2 & te & tf & (b & E & Sm & _) & _) & _) _]; subst; [apply e_alt_cat; auto|].
        assert (b = 47) by zb. subst b. split.
        - eapply ws_more; eauto.
        - intros k3 t3 A3. eapply ws_end; [exact A|exact E| | | |exact A3]; auto. fz. }
      eapply (un_seq input) with (G := e_cat); [mn|apply u_concatenation| |exact Nx].
      eapply (un_star input) with (G := e_cat); [unfold more_alt; mn| |exact Nx|].
      - eapply (un_seq input) with (G := nf b_ws); [mn|apply u_ws; auto| |].
        + eapply (un_seq input) with (G := any); [mn|apply un_byte| |intros; exact Logic.I].
          eapply (un_seq input) with (G := nf b_ws); [mn|apply u_ws; auto|apply u_concatenation|].
          intros k j ts H _. eapply nf_first; [apply f_concatenation|exact H|fz].
        + intros k j ts H _. eapply nf_first; [apply first_seq, first_byte|exact H|fz].
      - intros k j ts (k1 & ta & tb & A & (k2 & tc & td & (b & E & Sm & _) & _) & _) [_ X].
        apply (X _ _ A) in E. zb.
    Qed.
  End Level.

  Lemma alternation_unique : forall i0, un i0 (R "alternation") e_alt.
  Proof.
    assert (H : forall n i0, (length input <= i0 + n)%nat -> un i0 (R "alternation") e_alt).
    { induction n as [|n IH]; intros i0 L.
      - intros i j ts j' ts' Li A. exfalso. destruct (f_alternation _ _ _ A) as (b & E & _).
        assert (i < length input)%nat by (apply nth_error_Some; congruence). lia.
      - apply u_alternation. apply IH. lia. }
    intros i0. apply (H (length input)). lia.
  Qed.

  (** The end of the definition of a rule: what follows is the end of the line,
      then further lines to the end of the text. *)
  Definition e_line (k : nat) : Prop := exists ts, p_star line k (length input) ts.
  Definition e_body (k : nat) : Prop := exists k2 ts, R "c-nl" k k2 ts /\ e_line k2.

  Lemma body_quiet : forall k m ts, p_ws k m ts -> forall k1 t1, p_star (R "WSP") k k1 t1 -> e_body k1 ->
    nf (fun b => b_item b || (b =? 47)) m.
  Proof.
    intros k m ts H. induction H as [k Hk|k m0 m t1' t2' H1 H2 IH]; intros k1 t1 A (k2 & t2 & B & C).
    - inversion A as [? Hi|? m1 ? ta tb A1 A2]; subst.
      + eapply nf_first; [apply f_cnl|exact B|fz].
      + eapply nf_first; [apply f_wsp|exact A1|fz].
    - apply q_cwsp in H1 as (cs & _ & [W|(x & ta & tb & N & W & _)]).
      + assert (E : exists t', p_star (R "WSP") m0 k1 t').
        { inversion A as [? Hi|? m1 ? ta tb A1 A2]; subst.
          - exfalso. apply f_wsp in W as (b & E1 & X1). apply f_cnl in B as (c & E2 & X2). rewrite E1 in E2. injection E2 as <-. zb.
          - destruct (u_wsp 0 any k m0 cs m1 ta) as [-> _]; auto; try exact Logic.I; [lia|]. eauto. }
        destruct E as [t' E]. apply (IH k1 t' E). exists k2, t2. auto.
      + inversion A as [? Hi|? m1 ? tc td A1 A2]; subst.
        2:{ exfalso. apply f_wsp in A1 as (b & E1 & X1). apply f_cnl in N as (c & E2 & X2). rewrite E1 in E2. injection E2 as <-. zb. }
        destruct (u_cnl 0 any k1 x ta k2 t2) as [-> _]; auto; try exact Logic.I; [lia|].
        destruct C as [tl C]. inversion C as [? Hl|? l1 ? tc td L1 L2]; subst.
        * exfalso. apply f_wsp in W as (b & E & _). assert (length input < length input)%nat by (apply nth_error_Some; congruence). lia.
        * destruct L1 as [L1|(y & te & tf & Y1 & Y2 & _)].
          -- exfalso. apply f_wsp in W as (b & E1 & X1). apply f_rule in L1 as (c & E2 & X2). rewrite E1 in E2. injection E2 as <-. zb.
          -- inversion Y1 as [? Hi'|? m1 ? tg th A1 A2]; subst.
             ++ exfalso. apply f_wsp in W as (b & E1 & X1). apply f_cnl in Y2 as (c & E2 & X2). rewrite E1 in E2. injection E2 as <-. zb.
             ++ destruct (u_wsp 0 any k2 m0 tb m1 tg) as [-> _]; auto; try exact Logic.I; [lia|].
                apply (IH y th A2). exists l1, tf. split; auto. exists td. auto.
  Qed.

  Definition p_op : AbnfDen.pr := p_or (lit 61) (p_two (same_letter 61) (same_letter 47)).
  Lemma u_op i0 (F : nat -> Prop) : (forall j, F j -> nf (fun b => b =? 47) j) -> un i0 p_op F.
  Proof.
    intros N. apply un_or; [apply un_byte|apply un_two|].
    intros i j ts j' ts' (b & E & _ & -> & _) (b' & c & _ & _ & E' & Sm & _) X _. apply N in X. apply X in E'. zb.
  Qed.
  Lemma u_defined : un 0 (R "defined-as") (nf (fun b => b_ws b || (b =? 47))).
  Proof.
    eapply un_peq; [apply q_defined|]. apply un_node.
    eapply (un_seq input) with (G := nf b_ws); [mn|apply u_ws; auto| |].
    - eapply (un_seq input) with (G := nf (fun b => b =? 47)); [mn|apply u_op; auto| |].
      + apply u_ws. intros j X b E. apply X in E. apply orb_false_iff in E. tauto.
      + intros k j ts H X. inversion H as [? Hi|? m ? ta tb A B]; subst.
        * intros b E. apply X in E. apply orb_false_iff in E. tauto.
        * eapply nf_first; [apply f_cwsp|exact A|fz].
    - intros k j ts H _. eapply nf_first; [apply first_seq, first_or; [apply first_byte|apply first_two]|exact H|fz].
  Qed.
  Lemma u_elements : un 0 (R "elements") e_body.
  Proof.
    eapply un_peq; [apply q_elements|]. apply un_node.
    eapply (un_seq input) with (G := e_alt); [mn|apply alternation_unique| |].
    - eapply un_items; [mn|apply u_wsp|apply f_wsp|]. intros j (k2 & ts & B & _). eapply nf_first; [apply f_cnl|exact B|fz].
    - intros k j ts H X. split.
      + inversion H as [? Hi|? m ? ta tb A B]; subst.
        * destruct X as (k2 & ts & B & _). eapply nf_first; [apply f_cnl|exact B|fz].
        * eapply nf_first; [apply f_wsp|exact A|fz].
      + intros m t W. eapply body_quiet; eauto.
  Qed.
  Lemma f_elements : first (R "elements") b_item.
  Proof. eapply first_peq; [apply q_elements|]. apply first_node, first_seq, f_alternation. Qed.
  Lemma f_defined : first (R "defined-as") (fun b => b_ws b || (b =? 61)).
  Proof.
    eapply first_peq; [apply q_defined|]. apply first_node.
    eapply first_weak; [apply first_star_seq; [apply f_cwsp|apply first_seq, first_or; [apply first_byte|apply first_two]]|fz].
  Qed.

  Lemma u_rule : un 0 (R "rule") e_line.
  Proof.
    eapply un_peq; [apply q_rule|]. apply un_node.
    eapply (un_seq input) with (G := nf b_name); [mn|apply u_rulename; auto| |].
    - eapply (un_seq input) with (G := nf (fun b => b_ws b || (b =? 47))); [mn|apply u_defined| |].
      + eapply (un_seq input) with (G := e_body); [mn|apply u_elements|apply u_cnl|intros k j ts H X; exists j, ts; auto].
      + intros k j ts (k1 & ta & tb & A & _) _. eapply nf_first; [apply f_elements|exact A|fz].
    - intros k j ts (k1 & ta & tb & A & _) _. eapply nf_first; [apply f_defined|exact A|fz].
  Qed.

  Lemma u_line : un 0 line e_line.
  Proof.
    apply un_or; [apply u_rule| |].
    - eapply (un_seq input) with (G := nf b_wsp); [mn| |apply u_cnl|].
      + eapply un_items; [mn|apply u_wsp|apply f_wsp|auto].
      + intros k j ts H _. eapply nf_first; [apply f_cnl|exact H|fz].
    - eapply disj_first; [apply f_rule|apply first_star_seq; [apply f_wsp|apply f_cnl]|fz].
  Qed.
  Lemma line_some i j ts : line i j ts -> exists b, nth_error input i = Some b.
  Proof.
    intros [H|H]; [apply f_rule in H as (b & E & _); eauto|].
    eapply first_star_seq in H as (b & E & _); [eauto|apply f_wsp|apply f_cnl].
  Qed.

  Theorem rulelist_unique : un 0 (R "rulelist") (fun j => j = length input).
  Proof.
    eapply un_peq; [apply q_rulelist|]. apply un_node.
    eapply (un_plus input) with (G := e_line); [unfold line; mn|apply u_line| |].
    - intros k j ts H ->. exists ts. auto.
    - intros k j ts H ->. apply line_some in H as (b & E). assert (length input < length input)%nat by (apply nth_error_Some; congruence). lia.
  Qed.
End Rules.
