(** Specification: the derivation trees of an input, after RFC 5234.  Only the
    abstract syntax and the type of trees are shared with the model.

    A tree shows rules and terminals: the node of a rule carries the name the
    rule is defined with and its span, its children are those of one of the
    alternatives; groups, options and repetitions are transparent; a terminal is
    a leaf without name, absent when it spans nothing. *)
From Coq Require Import ZArith String Bool List.
From Verif Require Import Syntax Spec.
Import ListNotations.
Local Open Scope Z_scope.

(** The leaf of a terminal spanning [i] to [j]. *)
Definition leaf (i j : nat) : list ptree := if Nat.ltb i j then [PT "" i j []] else [].

(** Char-vals and num-vals. *)
Definition terminal (e : elem) : Prop :=
  match e with EChar _ _ | ENum _ _ _ => True | _ => False end.

(** The rule a name refers to (compare [Spec.resolves]). *)
Definition resolves_to (g : grammar) (n : string) (r : rule) : Prop :=
  (In r g /\ same_name n (rule_name r)) \/
  ((forall r', In r' g -> ~ same_name n (rule_name r')) /\ In r core_rules /\ same_name n (rule_name r)).

Section Derivations.
  Variable g : grammar.
  Variable input : list Z.
  (** What is asked of the number of occurrences [n] of a repetition over
      input[i:j]. *)
  Variable ok : rep -> nat -> nat -> nat -> Prop.

  (** [d_elem e i j ts]: [ts] are the trees of a derivation of input[i:j] by [e]. *)
  Inductive d_elem : elem -> nat -> nat -> list ptree -> Prop :=
  | d_rule n r i j ts : resolves_to g n r -> d_alt (rule_alt r) i j ts ->
      d_elem (ERule n) i j [PT (rule_name r) i j ts]
  | d_group a i j ts : d_alt a i j ts -> d_elem (EGroup a) i j ts
  | d_option_none a i : (i <= length input)%nat -> d_elem (EOption a) i i []
  | d_option_some a i j ts : d_alt a i j ts -> d_elem (EOption a) i j ts
  | d_term e i j w : terminal e -> in_elem g e w -> span input i j w -> d_elem e i j (leaf i j)
  with d_alt : alternation -> nat -> nat -> list ptree -> Prop :=
  | d_alt_intro c a i j ts : In c a -> d_cat c i j ts -> d_alt a i j ts
  with d_cat : concatenation -> nat -> nat -> list ptree -> Prop :=
  | d_cat_nil i : (i <= length input)%nat -> d_cat [] i i []
  | d_cat_cons r c i k j ts1 ts2 : d_rep r i k ts1 -> d_cat c k j ts2 -> d_cat (r :: c) i j (ts1 ++ ts2)
  with d_rep : rep -> nat -> nat -> list ptree -> Prop :=
  | d_rep_intro mn mx e n i j ts : ok (Rep mn mx e) i j n -> d_pow e n i j ts -> d_rep (Rep mn mx e) i j ts
  with d_pow : elem -> nat -> nat -> nat -> list ptree -> Prop :=
  | d_pow_O e i : (i <= length input)%nat -> d_pow e 0 i i []
  | d_pow_S e n i k j ts1 ts2 : d_elem e i k ts1 -> d_pow e n k j ts2 -> d_pow e (S n) i j (ts1 ++ ts2).
End Derivations.

Scheme d_elem_mut := Minimality for d_elem Sort Prop
with d_alt_mut := Minimality for d_alt Sort Prop
with d_cat_mut := Minimality for d_cat Sort Prop
with d_rep_mut := Minimality for d_rep Sort Prop
with d_pow_mut := Minimality for d_pow Sort Prop.
Combined Scheme d_mut from d_elem_mut, d_alt_mut, d_cat_mut, d_rep_mut, d_pow_mut.

(** The bounds of the repetition. *)
Definition within (r : rep) (i j n : nat) : Prop :=
  rep_min r <= Z.of_nat n /\ (rep_max r = inf \/ Z.of_nat n <= rep_max r).

(** A derivation tree of the whole input by a rule. *)
Definition Derivation (g : grammar) (root : string) (input : list Z) (t : ptree) : Prop :=
  d_elem g input within (ERule root) 0 (length input) [t].

(** The weaker notion: the span of a repetition belongs to its language, but it
    may be shown with a number of occurrences outside its bounds, unless it is
    the repetition of an element written without one. *)
Definition spans_word (g : grammar) (input : list Z) (r : rep) (i j n : nat) : Prop :=
  (exists w, span input i j w /\ in_rep g r w) /\ (rep_min r = 1 -> rep_max r = 1 -> n = 1%nat).
(** Trees in the weaker notion. *)
Definition LooseDerivation (g : grammar) (root : string) (input : list Z) (t : ptree) : Prop :=
  d_elem g input (spans_word g input) (ERule root) 0 (length input) [t].

(** The number of occurrences does not matter: whenever a span can be divided
    into [n] occurrences with [n] within the bounds, every other way to divide it
    has a number of occurrences within the bounds too. *)
Definition counts_determined (g : grammar) : Prop :=
  forall mn mx e n m w, occ_rep g (Rep mn mx e) -> ~ (mn = 1 /\ mx = 1) -> in_pow g e n w -> in_pow g e m w ->
    mn <= Z.of_nat n -> (mx = inf \/ Z.of_nat n <= mx) ->
    mn <= Z.of_nat m /\ (mx = inf \/ Z.of_nat m <= mx).

(** The shape of a tree: children lie inside their parent, in order, and the
    leaves tile the span. *)
Inductive tiles : nat -> nat -> list ptree -> Prop :=
| tiles_nil i : tiles i i []
| tiles_leaf i j k ts : (i < j)%nat -> tiles j k ts -> tiles i k (PT "" i j [] :: ts)
| tiles_node r i j k cs ts : r <> ""%string -> tiles i j cs -> tiles j k ts -> tiles i k (PT r i j cs :: ts).
