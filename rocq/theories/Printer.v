(** String methods of abnf.go:33-200. *)
From Coq Require Import ZArith String Ascii Bool List.
From Verif Require Import Syntax Spec Utf8 Num.
Import ListNotations.
Local Open Scope Z_scope.
Local Open Scope string_scope.

(** strconv.Itoa. *)
Definition itoa (v : Z) : string :=
  let dec v := format_loop (S (Z.to_nat (Z.log2 v))) 10 v EmptyString in
  if (v <? 0)%Z then String "-" (dec (- v)) else dec v.

(** Bytes as a Go string (abnf.go:152). *)
Definition string_of_bytes (l : list Z) : string :=
  string_of_list_ascii (map (fun b => ascii_of_N (Z.to_N b)) l).

(** Appending a separator after every item and then trimming the last separator
    (abnf.go:46-52, 62-68, 173-183) is [join]. *)
Fixpoint join (sep : string) (l : list string) : string :=
  match l with
  | [] => ""
  | [x] => x
  | x :: l' => x ++ sep ++ join sep l'
  end.

(** Texts appended in a loop (abnf.go:151-153, 196-198; grammar.go:48-50, 71-73). *)
Fixpoint cat_all (l : list string) : string :=
  match l with [] => "" | x :: l' => x ++ cat_all l' end.

(** Repetition.String prefix (abnf.go:78-94). *)
Definition repeat_string (mn mx : Z) : string :=
  if (mn =? mx)%Z then (if (mn =? 1)%Z then "" else itoa mn)
  else (if (mn =? 0)%Z then "" else itoa mn) ++ "*" ++ (if (mx =? inf)%Z then "" else itoa mx).

(** ElemCharVal.String (abnf.go:149-155): the Sensitive flag is not printed. *)
Definition char_string (vals : list Z) : string :=
  String """" (cat_all (map (fun v => string_of_bytes (string_of_rune v)) vals) ++ String """" EmptyString).

(** ElemNumVal.String (abnf.go:173-183). *)
Definition num_string (b : string) (st : status) (es : list string) : string :=
  "%" ++ b ++ join (match st with StatRange => "-" | StatSeries => "." end) es.

(** The String methods of elements (abnf.go:105-107, 119-121, 133-135, 149-155, 173-183, 194-200), Repetition.String (abnf.go:78-94). *)
Fixpoint elem_string (e : elem) : string :=
  match e with
  | ERule n => n
  | EGroup a => "(" ++ join " / " (map (fun c => join " " (map rep_string c)) a) ++ ")"
  | EOption a => "[" ++ join " / " (map (fun c => join " " (map rep_string c)) a) ++ "]"
  | EChar _ vs => char_string vs
  | ENum b st es => num_string b st es
  | EProse vs => "<" ++ cat_all vs ++ ">"
  end
with rep_string (r : rep) : string :=
  match r with Rep mn mx e => repeat_string mn mx ++ elem_string e end.

(** Concatenation.String (abnf.go:62-68). *)
Definition cat_string (c : concatenation) : string := join " " (map rep_string c).
(** Alternation.String (abnf.go:46-52). *)
Definition alt_string (a : alternation) : string := join " / " (map cat_string a).

(** Rule.String (abnf.go:33-35). *)
Definition rule_string (r : rule) : string := rule_name r ++ " = " ++ alt_string (rule_alt r).

(** The end of a rule (grammar.go:49, 72). *)
Definition crlf : string := String (ascii_of_N 13) (String (ascii_of_N 10) EmptyString).
(** Grammar.String (grammar.go:46-52): the rules in the order the map is iterated in. *)
Definition grammar_string (rs : list rule) : string := cat_all (map (fun r => rule_string r ++ crlf) rs).

(** Grammar.PrettyPrint (grammar.go:55-75) on the entries of the map, in the order
    the second loop iterates them in (the maximum of the first does not depend on
    the order). *)
Definition spaces (n : nat) : string := string_of_list_ascii (repeat " "%char n).
(** The first loop of PrettyPrint (grammar.go:57-63). *)
Definition widest (m : list (string * rule)) : nat := fold_right (fun kr n => Nat.max (String.length (fst kr)) n) 0%nat m.
(** PrettyPrint (grammar.go:55-75). *)
Definition pretty_string (m : list (string * rule)) : string :=
  cat_all (map (fun kr => fst kr ++ spaces (widest m - String.length (fst kr)) ++ " = " ++ alt_string (rule_alt (snd kr)) ++ crlf) m).

Example rep_string_ex :
  rep_string (Rep 1 (-1) (EGroup [[Rep 1 1 (EChar false [97]); Rep 0 3 (ERule "foo")]; [Rep 2 2 (ENum "x" StatRange ["41"; "5A"])]]))
  = "1*(""a"" *3foo / 2%x41-5A)".
Proof. vm_compute. reflexivity. Qed.

(** The printed form identifies groups, options and counted repetitions of the grammar
    (with the core rules): the hypothesis under which a printed form is a safe
    key.  It fails only when two of them differ in what printing drops, such as
    the [%s] marker; see PrintInj.v for grammars where it holds. *)
Definition print_inj (g : grammar) : Prop :=
  (forall a a', Spec.occ_elem g (EGroup a) -> Spec.occ_elem g (EGroup a') ->
     elem_string (EGroup a) = elem_string (EGroup a') -> a = a') /\
  (forall a a', Spec.occ_elem g (EOption a) -> Spec.occ_elem g (EOption a') ->
     elem_string (EOption a) = elem_string (EOption a') -> a = a') /\
  (forall r r', Spec.occ_rep g r -> Spec.occ_rep g r' -> Spec.counted r -> rep_string r = rep_string r' -> r = r').
