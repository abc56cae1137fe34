(** Names given by the caller: GetRule (utils.go:137-152), RuleContainsCycle (dag.go:102-138),
    Regex (regex.go:22-54) and TransitionGraph (transition_graph.go:38-95) on a rulename that is
    any string, not only the ASCII names a grammar holds. *)
From Coq Require Import ZArith Arith String Ascii Bool List Lia.
From Verif Require Import Syntax Spec Utf8 Printer Deps Dag Cycle Regex Graph.
Import ListNotations.
Local Open Scope string_scope.
Local Open Scope list_scope.
Local Open Scope Z_scope.

(** The runes of a string, as range gives them in strings.EqualFold and strings.ToLower
    (called at utils.go:147 and dag.go:137); [skip] counts the bytes left of the last rune. *)
Fixpoint runes_from (skip : nat) (p : list Z) : list Z :=
  match p with
  | [] => []
  | _ :: q =>
      match skip with
      | S k => runes_from k q
      | O => let '(r, n) := decode_rune p in r :: runes_from (n - 1) q
      end
  end.
(** The runes of a name (utils.go:147, dag.go:137). *)
Definition runes (s : string) : list Z := runes_from 0 (bytes s).

(** One rune for each class of unicode.SimpleFold (used by strings.EqualFold, utils.go:147)
    that holds an ASCII rune: k, K, U+212A and s, S, U+017F and the pairs of the other letters.
    A rune of no such class stands for itself: EqualFold is modelled for an ASCII second
    argument, as the names of a grammar are. *)
Definition fold_rune (r : Z) : Z :=
  if (65 <=? r) && (r <=? 90) then r + 32
  else if r =? 0x17F then 115
  else if r =? 0x212A then 107
  else r.
(** The loop of strings.EqualFold (utils.go:147). *)
Fixpoint fold_eq (a b : list Z) : bool :=
  match a, b with
  | [], [] => true
  | x :: a', y :: b' => (fold_rune x =? fold_rune y) && fold_eq a' b'
  | _, _ => false
  end.
(** strings.EqualFold (utils.go:147), its second argument being ASCII. *)
Definition equal_fold_u (a b : string) : bool := fold_eq (runes a) (runes b).

(** getRuleIn (utils.go:145-152), the rules in the order of the map. *)
Definition get_rule_in_u (name : string) (g : grammar) : option rule :=
  find (fun r => equal_fold_u name (rule_name r)) g.
(** GetRule (utils.go:137-143). *)
Definition get_rule_u (name : string) (g : grammar) : option rule :=
  match get_rule_in_u name g with
  | Some r => Some r
  | None => get_rule_in_u name core_rules
  end.

(** What is used of unicode.ToLower (called by strings.ToLower, dag.go:137): its value on ASCII,
    on U+017F (LATIN SMALL LETTER LONG S, lower case already) and on U+212A (KELVIN SIGN). *)
Definition go_lower (lr : Z -> Z) : Prop :=
  (forall r, 0 <= r < 128 -> lr r = if (65 <=? r) && (r <=? 90) then r + 32 else r) /\
  lr 0x17F = 0x17F /\ lr 0x212A = 107.
(** strings.ToLower (dag.go:137): strings.Map of unicode.ToLower, which is [lr]. *)
Definition to_lower (lr : Z -> Z) (s : string) : string :=
  string_of_bytes (flat_map (fun r => string_of_rune (lr r)) (runes s)).

(** RuleContainsCycle (dag.go:102-119) and ruleContainsCycle (dag.go:121-138).  The names
    met after the first are those of the grammar. *)
Definition rule_contains_cycle_u (lr : Z -> Z) (g : grammar) (order : list string) (rulename : string) : rcc :=
  match get_rule_u rulename g with
  | None => RccNotFound
  | Some _ =>
      let dg := dependency_graph g in
      match tarjan dg order with
      | TOk st =>
          match rule_cycle_visit dg (t_sccs st) (S (S (length dg))) (to_lower lr rulename) [] with
          | Some (b, _) => RccBool b
          | None => RccStuck
          end
      | _ => RccStuck
      end
  end.

(** Regex (regex.go:22-54).  The names the builder meets are those of the grammar. *)
Definition regex_u (lr : Z -> Z) (fuel : nat) (g : grammar) (order : list string) (max_len : Z) (rulename : string) : regex_result :=
  match rule_contains_cycle_u lr g order rulename with
  | RccNotFound => Regex_not_found
  | RccStuck => Regex_fuel
  | RccBool true => Regex_cyclic
  | RccBool false =>
      match get_rule_u rulename g with
      | None => Regex_not_found
      | Some r =>
          match build_alt (build_rule fuel g) (rule_alt r) (mkB [] false) with
          | None => Regex_fuel
          | Some (n, st) =>
              if b_err st then Regex_prose
              else let rs := render max_len (simplify n) 1 (mkR 0 false []) in
                   if r_err rs then Regex_too_large else Regex_text (r_out rs)
          end
      end
  end.

(** TransitionGraph (transition_graph.go:38-95).  The names the machine meets are those of
    the grammar. *)
Definition transition_graph_u (lr : Z -> Z) (fuel : nat) (opts : tgoptions) (g g1 g2 : grammar) (order : list string) (rulename : string) : tg_result :=
  match get_rule_u rulename g with
  | None => TG_err (TE_not_found rulename)
  | Some r =>
      match (if o_rules opts then semval_abnf g1 g2 g else None) with
      | Some e => TG_err (TE_invalid e)
      | None =>
          match rule_contains_cycle_u lr g order rulename with
          | RccNotFound => TG_err (TE_not_found rulename)
          | RccStuck => TG_fuel
          | RccBool true => TG_err TE_cyclic
          | RccBool false =>
              match alt_graph opts (rule_graph fuel opts g) (rule_alt r) (mkT [] [] 0) with
              | T_ok i o st => TG_ok (mkTG (t_heap st) i o) (t_count st)
              | T_err e => TG_err e
              | T_panic => TG_panic
              | T_fuel => TG_fuel
              end
          end
      end
  end.

(** ** Specification *)

(** [respell b n m]: [n] is the ASCII name [m] with U+017F for some of the letters s and
    U+212A for some of the letters k; [b] says whether U+017F is used. *)
Inductive respell : bool -> string -> string -> Prop :=
| rs_nil : respell false "" ""
| rs_char b c n m : cval c < 128 -> respell b n m -> respell b (String c n) (String c m)
| rs_kelvin b n m : respell b n m -> respell b (String "226" (String "132" (String "170" n))) (String "k" m)
| rs_long_s b n m : respell b n m -> respell true (String "197" (String "191" n)) (String "s" m).
