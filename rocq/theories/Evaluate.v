(** Parse and EvaluateABNF (grammar.go:108-131), the two halves of ParseABNF. *)
From Coq Require Import ZArith Arith String Bool List.
From Verif Require Import Syntax Printer Slots Gll Bsr Sppf Tree Errors Deps Eval ParseAbnf.
Import ListNotations.
Local Open Scope string_scope.
Local Open Scope list_scope.
Local Open Scope Z_scope.

(** Parse (grammar.go:114-116): ParseForest without options. *)
Definition parse (ord : nat -> list nkey -> list nkey) (fuel : nat) (input : list Z) (g : grammar) (root : string) : forest_result :=
  parse_forest ord fuel input g root default_max_slots 0.

(** EvaluateABNF and evalForest (grammar.go:120-131), with the options of option.go:8-40 as booleans,
    on the input the forest was parsed from ([input], as the spans of the tree are read in it: another
    input would have other spans, or none).  The option [validate] is not looked at.  The values of
    terminals are those of Eval.v, which are those of Go on the spans the grammar of ABNF gives them. *)
Definition evaluate_abnf (fuel : nat) (ordE : nat -> rmap -> rmap) (redefine validate : bool) (core : grammar) (input : list Z) (f : forest) : pa_result :=
  match f_tree fuel f with
  | None => PA_fuel
  | Some None => PA_no_solution
  | Some (Some t) =>
      match eval_tree redefine ordE core input t with
      | EvPanic => PA_panic
      | EvErr e => PA_eval e
      | EvOk st => PA_ok st
      end
  end.
