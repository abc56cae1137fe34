(** The texts of the errors of the library, but for ParseError (Errors.v): errors.go, regex.go, sppf.go. *)
From Coq Require Import ZArith String Ascii Bool List.
From Verif Require Import Syntax Spec Printer Errors Deps Eval.
Import ListNotations.
Local Open Scope string_scope.
Local Open Scope Z_scope.

(** The sentinels (errors.go:10-38), the error types (errors.go:142-245, regex.go:75-81,
    sppf.go:647-662). *)
Inductive go_error : Type :=
| GE_no_solution | GE_prose | GE_graph_prose | GE_threshold | GE_min_not_one | GE_min_gt_max
| GE_multiple
| GE_rule_not_found (rulename : string)
| GE_core_modify (rulename : string)
| GE_dependency (rulename : string)
| GE_repetition (r : rep)
| GE_numeral (base value : string)
| GE_duplicated (rulename : string)
| GE_cyclic (rulename : string)
| GE_max_nodes (max : Z)
| GE_regex_too_large (max : Z)
| GE_forest_too_large (max : Z)
| GE_grammar_too_large (max : Z).

(** The Error methods (errors.go:17, 21, 25, 29, 33, 37, 147-149, 159-161, 171-173, 183-185,
    195-197, 207-209, 219-221, 231-233, 243-245; regex.go:79-81; sppf.go:651-653, 660-662).
    %d and strconv.Itoa print an int as [itoa] does. *)
Definition go_error_text (e : go_error) : string :=
  match e with
  | GE_no_solution => "no solution found, input ABNF grammar may be invalid"
  | GE_prose => "can't handle prose-val descriptions"
  | GE_graph_prose => "prose value is not supported in transition graphs"
  | GE_threshold => "repetition threshold reached"
  | GE_min_not_one => "repetition minimum must be 1 when maximum is 1"
  | GE_min_gt_max => "repetition minimum is greater than maximum"
  | GE_multiple => "multiple solutions found, this should not happen. Please open an issue. This could eventually need an Erratum from IETF tracking"
  | GE_rule_not_found n => "rule " ++ n ++ " was not found in grammar"
  | GE_core_modify n => "core rule " ++ n ++ " can't be modified"
  | GE_dependency n => "unsatisfied dependency (rule) " ++ n
  | GE_repetition r => "invalid semantic of input ABNF grammar for repetition " ++ rep_string r
  | GE_numeral b v => "too large numeral value " ++ v ++ " for base " ++ b
  | GE_duplicated n => "rule " ++ n ++ " was already defined in grammar"
  | GE_cyclic n => "can't generate a content as the rule " ++ n ++ " involves an unavoidable cycle"
  | GE_max_nodes m => "transition graph node budget of " ++ itoa m ++ " exceeded"
  | GE_regex_too_large m => "regex exceeds the configured " ++ itoa m ++ "-byte budget"
  | GE_forest_too_large m => "abnf: parse forest exceeded " ++ itoa m ++ " nodes"
  | GE_grammar_too_large m => "abnf: grammar lowering exceeded " ++ itoa m ++ " nonterminals"
  end.

(** The errors of the evaluator (grammar.go:162-303) ... *)
Definition of_eval (e : eval_error) : go_error :=
  match e with
  | EE_no_solution => GE_no_solution
  | EE_core_modify n => GE_core_modify n
  | EE_duplicated n => GE_duplicated n
  | EE_not_found n => GE_rule_not_found n
  end.
(** ... and of the validation (grammar.go:396, 416, 424; utils.go: checkBounds). *)
Definition of_sem (e : sem_error) : go_error :=
  match e with
  | SE_dependency n => GE_dependency n
  | SE_repetition r => GE_repetition r
  | SE_bounds v b => GE_numeral b v
  end.
