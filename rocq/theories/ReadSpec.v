(** Specification: what an ABNF text says, after RFC 5234 section 4 (with erratum
    3076: blank lines and the end of a rule take white space only) and RFC 7405.
    Only the abstract syntax is shared with the model; nothing here mentions the
    grammar of ABNF, derivation trees or the evaluator. *)
From Coq Require Import ZArith String Ascii Bool List.
From Verif Require Import Syntax Spec.
Import ListNotations.
Local Open Scope string_scope.
Local Open Scope list_scope.
Local Open Scope Z_scope.

(** The value of a string of decimal digits (RFC 5234: 1*DIGIT). *)
Fixpoint decimal (acc : Z) (s : list Z) : option Z :=
  match s with
  | [] => Some acc
  | c :: s' => if (48 <=? c) && (c <=? 57) then decimal (10 * acc + (c - 48)) s' else None
  end.
(** The digits [s] denote [v]. *)
Definition digits_denote (s : list Z) (v : Z) : Prop := s <> [] /\ decimal 0 s = Some v.

(** What a repeat prefix denotes (RFC 5234 sections 3.6 and 3.7). *)
Inductive repeat_denotes : list Z -> Z -> Z -> Prop :=
| rd_exact s n : digits_denote s n -> repeat_denotes s n n
| rd_any : repeat_denotes [42] 0 inf
| rd_min s n : digits_denote s n -> repeat_denotes (s ++ [42]) n inf
| rd_max s m : digits_denote s m -> repeat_denotes (42 :: s) 0 m
| rd_both s n s' m : digits_denote s n -> digits_denote s' m -> repeat_denotes (s ++ 42 :: s') n m.

(** Bounds that do not fit a 64-bit int are kept at its maximum; C41 says when
    this is harmless. *)
Definition saturate (v : Z) : Z := if v =? inf then inf else Z.min v (2 ^ 63 - 1).

(** White space, ends of lines, comments. *)
Definition white (c : Z) : Prop := c = 32 \/ c = 9.
(** c-nl: a comment or CRLF. *)
Inductive newline : list Z -> Prop :=
| nl_crlf : newline [13; 10]
| nl_comment body : Forall (fun c => white c \/ 33 <= c <= 126) body -> newline (59 :: body ++ [13; 10]).
(** c-wsp. *)
Inductive blank : list Z -> Prop :=
| bl_white c : white c -> blank [c]
| bl_folded w c : newline w -> white c -> blank (w ++ [c]).
(** *c-wsp. *)
Inductive blanks : list Z -> Prop :=
| bs_nil : blanks []
| bs_cons w w' : blank w -> blanks w' -> blanks (w ++ w').

(** The letters of the bases. *)
Inductive base_letter : string -> Z -> Prop :=
| base_b c : c = 98 \/ c = 66 -> base_letter "b" c
| base_d c : c = 100 \/ c = 68 -> base_letter "d" c
| base_x c : c = 120 \/ c = 88 -> base_letter "x" c.

(** The marks of RFC 7405: none, [%i] or [%s], in either case. *)
Inductive case_mark : bool -> list Z -> Prop :=
| cm_none : case_mark false []
| cm_i c : c = 105 \/ c = 73 -> case_mark false [37; c]
| cm_s c : c = 115 \/ c = 83 -> case_mark true [37; c].

(** A string of one character. *)
Definition one_char (c : Z) : string := String (ascii_of_N (Z.to_N c)) EmptyString.
(** Numerals separated by dots. *)
Fixpoint dotted (es : list string) : list Z :=
  match es with
  | [] => []
  | [s] => bytes s
  | s :: es' => bytes s ++ 46 :: dotted es'
  end.
(** [s] is a numeral in the base [b]. *)
Definition number_in (b s : string) : Prop := exists v, numeral b s = Some v.

(** The texts of an element, of a repetition, of a concatenation and of an alternation. *)
Inductive text_elem : elem -> list Z -> Prop :=
| te_rule n : lex_name n = true -> text_elem (ERule n) (bytes n)
| te_group a b1 w b2 : blanks b1 -> text_alt a w -> blanks b2 ->
    text_elem (EGroup a) (40 :: b1 ++ w ++ b2 ++ [41])
| te_option a b1 w b2 : blanks b1 -> text_alt a w -> blanks b2 ->
    text_elem (EOption a) (91 :: b1 ++ w ++ b2 ++ [93])
| te_char s m vs : case_mark s m -> Forall (fun v => quotable v = true) vs ->
    text_elem (EChar s vs) (m ++ 34 :: vs ++ [34])
| te_series b c es : base_letter b c -> es <> [] -> Forall (number_in b) es ->
    text_elem (ENum b StatSeries es) (37 :: c :: dotted es)
| te_range b c lo hi : base_letter b c -> number_in b lo -> number_in b hi ->
    text_elem (ENum b StatRange [lo; hi]) (37 :: c :: bytes lo ++ 45 :: bytes hi)
| te_prose vs : Forall (fun v => 32 <= v <= 126 /\ v <> 62) vs ->
    text_elem (EProse (map one_char vs)) (60 :: vs ++ [62])
with text_rep : rep -> list Z -> Prop :=
| tr_once e w : text_elem e w -> text_rep (Rep 1 1 e) w
| tr_repeat s mn mx e w : repeat_denotes s mn mx -> text_elem e w ->
    text_rep (Rep (saturate mn) (saturate mx) e) (s ++ w)
with text_cat : concatenation -> list Z -> Prop :=
| tc_one r w : text_rep r w -> text_cat [r] w
| tc_more r w b1 b c w' : text_rep r w -> blank b1 -> blanks b -> text_cat c w' ->
    text_cat (r :: c) (w ++ b1 ++ b ++ w')
with text_alt : alternation -> list Z -> Prop :=
| ta_one c w : text_cat c w -> text_alt [c] w
| ta_more c w b1 b2 a w' : text_cat c w -> blanks b1 -> blanks b2 -> text_alt a w' ->
    text_alt (c :: a) (w ++ b1 ++ 47 :: b2 ++ w').

Scheme text_elem_mut := Minimality for text_elem Sort Prop
with text_rep_mut := Minimality for text_rep Sort Prop
with text_cat_mut := Minimality for text_cat Sort Prop
with text_alt_mut := Minimality for text_alt Sort Prop.
Combined Scheme text_mut from text_elem_mut, text_rep_mut, text_cat_mut, text_alt_mut.

(** [=] defines a rule, [=/] adds alternatives to one. *)
Definition operator (incremental : bool) : list Z := if incremental then [61; 47] else [61].

Section Rules.
  (** What is asked of the filler around the operator. *)
  Variable filler : list Z -> Prop.

  (** The texts of a rule. *)
  Inductive text_rule : rule * bool -> list Z -> Prop :=
  | text_rule_intro n b1 inc b2 a w ws nl : lex_name n = true -> blanks b1 -> filler b1 -> blanks b2 -> filler b2 ->
      text_alt a w -> Forall white ws -> newline nl ->
      text_rule (mkRule n a, inc) (bytes n ++ b1 ++ operator inc ++ b2 ++ w ++ ws ++ nl).

  (** The texts of a sequence of rules, with blank lines. *)
  Inductive text_lines : list (rule * bool) -> list Z -> Prop :=
  | tl_end : text_lines [] []
  | tl_rule d w ds w' : text_rule d w -> text_lines ds w' -> text_lines (d :: ds) (w ++ w')
  | tl_blank ws nl ds w' : Forall white ws -> newline nl -> text_lines ds w' -> text_lines ds (ws ++ nl ++ w').
End Rules.

(** A text is a non-empty sequence of lines. *)
Definition text_says (filler : list Z -> Prop) (w : list Z) (ds : list (rule * bool)) : Prop :=
  w <> [] /\ text_lines filler ds w.
(** No condition on the filler. *)
Definition any_filler (w : list Z) : Prop := True.
(** No comment around an operator contains the characters [=/]. *)
Definition quiet_filler (w : list Z) : Prop := forall p s, w <> p ++ [61; 47] ++ s.

(** *** What the code takes a text for *)
(** The code takes the operator for [=/] when these two characters occur anywhere between
    the name and the elements, in a comment too (C56). *)
Definition loud_filler (w : list Z) : Prop := exists p s, w = p ++ [61; 47] ++ s.
(** The texts taken for a rule. *)
Inductive taken_rule : rule * bool -> list Z -> Prop :=
| taken_rule_intro n b1 inc b2 a w ws nl inc' : lex_name n = true -> blanks b1 -> blanks b2 ->
    text_alt a w -> Forall white ws -> newline nl ->
    (inc' = true <-> inc = true \/ loud_filler b1 \/ loud_filler b2) ->
    taken_rule (mkRule n a, inc') (bytes n ++ b1 ++ operator inc ++ b2 ++ w ++ ws ++ nl).
(** The texts taken for a sequence of rules, with blank lines. *)
Inductive taken_lines : list (rule * bool) -> list Z -> Prop :=
| kl_end : taken_lines [] []
| kl_rule d w ds w' : taken_rule d w -> taken_lines ds w' -> taken_lines (d :: ds) (w ++ w')
| kl_blank ws nl ds w' : Forall white ws -> newline nl -> taken_lines ds w' -> taken_lines ds (ws ++ nl ++ w').
(** A text is a non-empty sequence of lines. *)
Definition text_taken (w : list Z) (ds : list (rule * bool)) : Prop := w <> [] /\ taken_lines ds w.
