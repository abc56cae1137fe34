(** Specification for ASTGenerator (no code is modelled here). *)
From Coq Require Import ZArith String Bool Relations List.
From Verif Require Import Syntax Spec TreeSpec.
Import ListNotations.
Local Open Scope Z_scope.

(** A finite derivation and its size: the bytes it writes and one for each rule it
    enters.  A prose-val counts as empty. *)
Inductive size_elem (g : grammar) : elem -> Z -> Prop :=
| sz_rule n a k : resolves g n a -> size_alt g a k -> size_elem g (ERule n) (1 + k)
| sz_group a k : size_alt g a k -> size_elem g (EGroup a) k
| sz_option_none a : size_elem g (EOption a) 0
| sz_option_some a k : size_alt g a k -> size_elem g (EOption a) k
| sz_term e w : terminal e -> in_elem g e w -> size_elem g e (Z.of_nat (length w))
| sz_prose v : size_elem g (EProse v) 0
with size_alt (g : grammar) : alternation -> Z -> Prop :=
| sz_alt c a k : In c a -> size_cat g c k -> size_alt g a k
with size_cat (g : grammar) : concatenation -> Z -> Prop :=
| sz_nil : size_cat g [] 0
| sz_cons mn mx e c n k k' : mn <= Z.of_nat n -> (mx = inf \/ Z.of_nat n <= mx) ->
    size_pow g e n k -> size_cat g c k' -> size_cat g (Rep mn mx e :: c) (k + k')
with size_pow (g : grammar) : elem -> nat -> Z -> Prop :=
| sz_O e : size_pow g e 0 0
| sz_S e n k k' : size_elem g e k -> size_pow g e n k' -> size_pow g e (S n) (k + k').
Scheme size_elem_mut := Minimality for size_elem Sort Prop
with size_alt_mut := Minimality for size_alt Sort Prop
with size_cat_mut := Minimality for size_cat Sort Prop
with size_pow_mut := Minimality for size_pow Sort Prop.
Combined Scheme size_ind4 from size_elem_mut, size_alt_mut, size_cat_mut, size_pow_mut.

(** The rule named [n] mentions the name [n'] in its definition; the names it
    leads to. *)
Definition mentions (g : grammar) (n n' : string) : Prop := exists a, resolves g n a /\ refers a n'.
(** The names a name leads to, itself included. *)
Definition leads_to (g : grammar) : string -> string -> Prop := clos_refl_trans string (mentions g).
