(** Specification: the language of an ABNF rule, after RFC 5234 and RFC 7405,
    with code points encoded in UTF-8 (RFC 3629).  Nothing here is modelled on
    the Go code; only the abstract syntax is shared. *)
From Coq Require Import ZArith String Ascii Bool List.
From Verif Require Import Syntax.
Import ListNotations.
Local Open Scope Z_scope.

(** Unicode scalar values. *)
Definition scalar (r : Z) : Prop :=
  0 <= r < 0xD800 \/ 0xDFFF < r <= 0x10FFFF.

(** UTF-8 (RFC 3629 section 3), for scalar values. *)
Definition utf8 (r : Z) : list Z :=
  if r <? 0x80 then [r]
  else if r <? 0x800 then [0xC0 + r / 64; 0x80 + r mod 64]
  else if r <? 0x10000 then [0xE0 + r / 4096; 0x80 + r / 64 mod 64; 0x80 + r mod 64]
  else [0xF0 + r / 262144; 0x80 + r / 4096 mod 64; 0x80 + r / 64 mod 64; 0x80 + r mod 64].

(** The UTF-8 of a sequence of characters. *)
Definition utf8s (rs : list Z) : list Z := flat_map utf8 rs.

(** Numerals: the value of a digit string in a radix. *)
Definition digit_val (c : ascii) : option Z :=
  let n := Z.of_N (N_of_ascii c) in
  if (48 <=? n) && (n <=? 57) then Some (n - 48)
  else if (65 <=? n) && (n <=? 70) then Some (n - 55)
  else if (97 <=? n) && (n <=? 102) then Some (n - 87)
  else None.

(** Reading digits from the left, [acc] being the value so far. *)
Fixpoint digits_val (radix acc : Z) (s : string) : option Z :=
  match s with
  | EmptyString => Some acc
  | String c s' =>
      match digit_val c with
      | Some d => if d <? radix then digits_val radix (acc * radix + d) s' else None
      | None => None
      end
  end.

(** The radix a base letter stands for (RFC 5234 2.3). *)
Definition radix_of (base : string) : option Z :=
  if (String.eqb base "b" || String.eqb base "B")%bool then Some 2
  else if (String.eqb base "d" || String.eqb base "D")%bool then Some 10
  else if (String.eqb base "x" || String.eqb base "X")%bool then Some 16
  else None.

(** [numeral base s = Some v]: the non-empty digit string [s] denotes [v]. *)
Definition numeral (base s : string) : option Z :=
  match radix_of base, s with
  | Some _, EmptyString => None
  | Some r, _ => digits_val r 0 s
  | None, _ => None
  end.

(** Case folding of quoted strings: ASCII letters only (RFC 5234 2.3, RFC 7405). *)
Definition fold_case (r : Z) : Z := if (65 <=? r) && (r <=? 90) then r + 32 else r.

(** The character [r] is allowed where [v] is written. *)
Definition char_ok (sensitive : bool) (v r : Z) : Prop :=
  if sensitive then v = r else fold_case v = fold_case r.

(** A name refers to a user rule with the same name up to case, or, if there is
    none, to a core rule. *)
Definition same_name (n m : string) : Prop := lower n = lower m.

(** The alternation a name refers to. *)
Definition resolves (g : grammar) (n : string) (a : alternation) : Prop :=
  (exists r, In r g /\ same_name n (rule_name r) /\ rule_alt r = a) \/
  ((forall r, In r g -> ~ same_name n (rule_name r)) /\
   exists r, In r core_rules /\ same_name n (rule_name r) /\ rule_alt r = a).

(** Languages. *)
Inductive in_elem (g : grammar) : elem -> list Z -> Prop :=
| in_rule n a w : resolves g n a -> in_alt g a w -> in_elem g (ERule n) w
| in_group a w : in_alt g a w -> in_elem g (EGroup a) w
| in_option_none a : in_elem g (EOption a) []
| in_option_some a w : in_alt g a w -> in_elem g (EOption a) w
| in_char s vs rs : Forall2 (char_ok s) vs rs -> Forall scalar rs ->
    in_elem g (EChar s vs) (utf8s rs)
| in_series b ns rs : Forall2 (fun s v => numeral b s = Some v) ns rs -> Forall scalar rs ->
    in_elem g (ENum b StatSeries ns) (utf8s rs)
| in_range b lo hi l h r : numeral b lo = Some l -> numeral b hi = Some h ->
    l <= r <= h -> scalar r -> in_elem g (ENum b StatRange [lo; hi]) (utf8 r)
with in_alt (g : grammar) : alternation -> list Z -> Prop :=
| in_alt_intro c a w : In c a -> in_cat g c w -> in_alt g a w
with in_cat (g : grammar) : concatenation -> list Z -> Prop :=
| in_cat_nil : in_cat g [] []
| in_cat_cons r c w1 w2 : in_rep g r w1 -> in_cat g c w2 -> in_cat g (r :: c) (w1 ++ w2)
with in_rep (g : grammar) : rep -> list Z -> Prop :=
| in_rep_intro mn mx e n w : mn <= Z.of_nat n -> (mx = inf \/ Z.of_nat n <= mx) ->
    in_pow g e n w -> in_rep g (Rep mn mx e) w
with in_pow (g : grammar) : elem -> nat -> list Z -> Prop :=
| in_pow_O e : in_pow g e 0 []
| in_pow_S e n w1 w2 : in_elem g e w1 -> in_pow g e n w2 -> in_pow g e (S n) (w1 ++ w2).

Scheme in_elem_mut := Minimality for in_elem Sort Prop
with in_alt_mut := Minimality for in_alt Sort Prop
with in_cat_mut := Minimality for in_cat Sort Prop
with in_rep_mut := Minimality for in_rep Sort Prop
with in_pow_mut := Minimality for in_pow Sort Prop.
Combined Scheme lang_mut from in_elem_mut, in_alt_mut, in_cat_mut, in_rep_mut, in_pow_mut.

(** The language of a rule. *)
Definition Lang (g : grammar) (rulename : string) (w : list Z) : Prop :=
  in_elem g (ERule rulename) w.

(** Syntactic well-formedness of a definition: what any ABNF text satisfies. *)
Definition wf_num (b : string) (st : status) (es : list string) : Prop :=
  Forall (fun s => exists v, numeral b s = Some v) es /\
  match st with StatRange => length es = 2%nat | StatSeries => True end.

(** Well-formed elements and repetitions. *)
Inductive wf_elem : elem -> Prop :=
| wf_rule n : wf_elem (ERule n)
| wf_group a : Forall (Forall wf_rep) a -> wf_elem (EGroup a)
| wf_option a : Forall (Forall wf_rep) a -> wf_elem (EOption a)
| wf_char s v : wf_elem (EChar s v)
| wf_numval b st es : wf_num b st es -> wf_elem (ENum b st es)
| wf_prose v : wf_elem (EProse v)
with wf_rep : rep -> Prop :=
| wf_rep_intro mn mx e : 0 <= mn -> (mx = inf \/ 0 <= mx) -> wf_elem e -> wf_rep (Rep mn mx e).

(** Well-formed alternations. *)
Definition wf_alt (a : alternation) : Prop := Forall (Forall wf_rep) a.

(** Names are distinct up to case: what a rule list without redefinition gives. *)
Definition distinct_names (g : grammar) : Prop :=
  NoDup (map (fun r => lower (rule_name r)) g).

(** Well-formed grammars. *)
Definition wf_grammar (g : grammar) : Prop :=
  distinct_names g /\ Forall (fun r => wf_alt (rule_alt r)) g.

(** The bytes of a Coq string, for writing examples. *)
Definition bytes (s : string) : list Z :=
  map (fun c => Z.of_N (N_of_ascii c)) (list_ascii_of_string s).

(** [span input i j w]: [w] is the slice input[i:j]. *)
Definition span (input : list Z) (i j : nat) (w : list Z) : Prop :=
  exists p s, input = p ++ w ++ s /\ length p = i /\ j = (i + length w)%nat.

(** Elements and repetitions occurring in the rules of a grammar or in the core
    rules, at any depth. *)
Inductive occ_elem (g : grammar) : elem -> Prop :=
| occ_elem_rep mn mx e : occ_rep g (Rep mn mx e) -> occ_elem g e
with occ_rep (g : grammar) : rep -> Prop :=
| occ_rep_rule r c x : In r (g ++ core_rules) -> In c (rule_alt r) -> In x c -> occ_rep g x
| occ_rep_group a c x : occ_elem g (EGroup a) -> In c a -> In x c -> occ_rep g x
| occ_rep_option a c x : occ_elem g (EOption a) -> In c a -> In x c -> occ_rep g x.

(** *** Lexical well-formedness: what the productions of RFC 5234 section 4
    (rulename, repeat, quoted-string, num-val, prose-val, non-empty alternations
    and concatenations) give for any definition written as ABNF text. *)
Definition cval (c : ascii) : Z := Z.of_N (N_of_ascii c).
(** ALPHA. *)
Definition is_alpha (c : ascii) : bool :=
  ((65 <=? cval c) && (cval c <=? 90) || (97 <=? cval c) && (cval c <=? 122))%bool.
(** DIGIT. *)
Definition is_dig (c : ascii) : bool := ((48 <=? cval c) && (cval c <=? 57))%bool.
(** The characters of a rulename after the first. *)
Definition name_char (c : ascii) : bool := (is_alpha c || is_dig c || (cval c =? 45))%bool.
(** Every character satisfies [p]. *)
Fixpoint all_chars (p : ascii -> bool) (s : string) : bool :=
  match s with EmptyString => true | String c s' => (p c && all_chars p s')%bool end.

(** rulename. *)
Definition lex_name (s : string) : bool :=
  match s with String c s' => (is_alpha c && all_chars name_char s')%bool | EmptyString => false end.
(** The characters of a quoted-string. *)
Definition quotable (v : Z) : bool := ((32 <=? v) && (v <=? 126) && negb (v =? 34))%bool.
(** num-val. *)
Definition lex_num (b : string) (st : status) (es : list string) : bool :=
  ((String.eqb b "b" || String.eqb b "d" || String.eqb b "x") &&
   forallb (fun s => negb (String.eqb s "") && all_chars (fun c => is_alpha c || is_dig c) s) es &&
   match st with StatRange => Nat.eqb (length es) 2 | StatSeries => negb (Nat.eqb (length es) 0) end)%bool.
(** prose-val. *)
Definition lex_prose (vs : list string) : bool :=
  forallb (fun s => match s with String c EmptyString => negb (cval c =? 62) | _ => false end) vs.

(** element and repetition. *)
Fixpoint lex_elem (e : elem) : bool :=
  match e with
  | ERule n => lex_name n
  | EGroup a | EOption a =>
      (negb (Nat.eqb (length a) 0) &&
       forallb (fun c => negb (Nat.eqb (length c) 0) && forallb lex_rep c) a)%bool
  | EChar _ vs => forallb quotable vs
  | ENum b st es => lex_num b st es
  | EProse vs => lex_prose vs
  end
with lex_rep (r : rep) : bool :=
  match r with Rep mn mx e => ((0 <=? mn) && (-1 <=? mx) && lex_elem e)%bool end.

(** alternation. *)
Definition lex_alt (a : alternation) : bool :=
  (negb (Nat.eqb (length a) 0) &&
   forallb (fun c => negb (Nat.eqb (length c) 0) && forallb lex_rep c) a)%bool.
(** rulelist. *)
Definition lex_grammar (g : grammar) : bool :=
  forallb (fun r => lex_name (rule_name r) && lex_alt (rule_alt r))%bool g.

(** No quoted string is written both with and without [%s]. *)
Definition same_flags (g : grammar) : Prop :=
  forall s s' v, occ_elem g (EChar s v) -> occ_elem g (EChar s' v) -> s = s'.

(** The same element with every quoted string taken without [%s]. *)
Fixpoint erase_elem (e : elem) : elem :=
  match e with
  | EGroup a => EGroup (map (map erase_rep) a)
  | EOption a => EOption (map (map erase_rep) a)
  | EChar _ vs => EChar false vs
  | _ => e
  end
with erase_rep (r : rep) : rep :=
  match r with Rep mn mx e => Rep mn mx (erase_elem e) end.

(** A repetition other than of exactly one. *)
Definition counted (r : rep) : Prop := ~ (rep_min r = 1 /\ rep_max r = 1).
(** No two groups, options or repetitions (other than of exactly one) of the grammar are
    the same but for [%s].  The rules may still use one string both ways, as in
    [a = %s"x" / "x"], and [%s"A"] beside HEXDIG. *)
Definition told_apart (g : grammar) : Prop :=
  (forall a a', occ_elem g (EGroup a) -> occ_elem g (EGroup a') ->
     erase_elem (EGroup a) = erase_elem (EGroup a') -> a = a') /\
  (forall a a', occ_elem g (EOption a) -> occ_elem g (EOption a') ->
     erase_elem (EOption a) = erase_elem (EOption a') -> a = a') /\
  (forall r r', occ_rep g r -> occ_rep g r' -> counted r -> erase_rep r = erase_rep r' -> r = r').

(** The left differs from the right at most in having more quoted strings marked [%s]. *)
Inductive narrows_elem : elem -> elem -> Prop :=
| nw_char s s' v : (s' = true -> s = true) -> narrows_elem (EChar s v) (EChar s' v)
| nw_group a b : Forall2 (Forall2 narrows_rep) a b -> narrows_elem (EGroup a) (EGroup b)
| nw_option a b : Forall2 (Forall2 narrows_rep) a b -> narrows_elem (EOption a) (EOption b)
| nw_rule n : narrows_elem (ERule n) (ERule n)
| nw_num b s v : narrows_elem (ENum b s v) (ENum b s v)
| nw_prose v : narrows_elem (EProse v) (EProse v)
with narrows_rep : rep -> rep -> Prop :=
| nw_rep mn mx e e' : narrows_elem e e' -> narrows_rep (Rep mn mx e) (Rep mn mx e').
(** The same of rules. *)
Definition narrows_rule (r r' : rule) : Prop :=
  rule_name r = rule_name r' /\ Forall2 (Forall2 narrows_rep) (rule_alt r) (rule_alt r').
(** The same of grammars. *)
Definition narrows (g g' : grammar) : Prop := Forall2 narrows_rule g g'.

(** The same element with every quoted string taken with [%s], or every one without. *)
Fixpoint mark_elem (b : bool) (e : elem) : elem :=
  match e with
  | EGroup a => EGroup (map (map (mark_rep b)) a)
  | EOption a => EOption (map (map (mark_rep b)) a)
  | EChar _ vs => EChar b vs
  | _ => e
  end
with mark_rep (b : bool) (r : rep) : rep :=
  match r with Rep mn mx e => Rep mn mx (mark_elem b e) end.
(** The same of grammars. *)
Definition mark (b : bool) (g : grammar) : grammar :=
  map (fun r => mkRule (rule_name r) (map (map (mark_rep b)) (rule_alt r))) g.

(** Repetitions occurring in an alternation at any depth. *)
Inductive rep_in : alternation -> rep -> Prop :=
| rep_in_here a c r : In c a -> In r c -> rep_in a r
| rep_in_group a c mn mx b r : In c a -> In (Rep mn mx (EGroup b)) c -> rep_in b r -> rep_in a r
| rep_in_option a c mn mx b r : In c a -> In (Rep mn mx (EOption b)) c -> rep_in b r -> rep_in a r.

(** A definition refers to a rule name. *)
Definition refers (a : alternation) (n : string) : Prop :=
  exists mn mx, rep_in a (Rep mn mx (ERule n)).

(** What a semantically valid grammar satisfies. *)
Definition refs_defined (g : grammar) : Prop :=
  forall r n, In r g -> refers (rule_alt r) n -> exists a, resolves g n a.
(** No repetition with a maximum under its minimum. *)
Definition bounds_ordered (g : grammar) : Prop :=
  forall r mn mx e, In r g -> rep_in (rule_alt r) (Rep mn mx e) -> mx <> inf -> mn <= mx.
(** No numeral above 10FFFF. *)
Definition nums_in_unicode (g : grammar) : Prop :=
  forall r mn mx b st es s v, In r g -> rep_in (rule_alt r) (Rep mn mx (ENum b st es)) ->
    In s es -> numeral b s = Some v -> v <= 0x10FFFF.
