(** A part of a grammar that holds all a root rule needs. *)
(** The definitions here are those of statements, proofs and examples; they model no code. *)
From Coq Require Import String List.
From Verif Require Import Syntax Spec.

(** (specification) [g'] holds only rules of [g], and every rule of [g] that the root names, or that a
    name written in a rule of [g'] or in a core rule names. *)
Definition part (g' g : grammar) (root : string) : Prop :=
  incl g' g /\
  forall x, same_name x root \/ occ_elem g' (ERule x) ->
  forall r, In r g -> same_name x (rule_name r) -> In r g'.
