(** What ruleCycleVisit (dag.go:146-178) and the check before Generate (generate.go:162-247) cost. *)
From Coq Require Import ZArith Arith String Bool List.
From Verif Require Import Syntax Spec Utf8 Num Deps Dag Cycle Generate.
Import ListNotations.
Local Open Scope list_scope.
Local Open Scope nat_scope.

Section Visits.
  Variable dg : depgraph.
  Variable sccs : list (list string).
  Section Loop.
    Variable visit : string -> list string -> option (bool * list string * nat).
    Variable key : string.
    (** The loop over the dependencies (dag.go:168-176), with the calls of ruleCycleVisit it leads to. *)
    Fixpoint visits_deps (deps vis : list string) (n : nat) : option (bool * list string * nat) :=
      match deps with
      | [] => Some (false, vis, n)
      | d :: deps' =>
          if String.eqb (lower d) key then visits_deps deps' vis n
          else match visit (lower d) vis with
               | None => None
               | Some (true, vis', k) => Some (true, vis', n + k)
               | Some (false, vis', k) => visits_deps deps' vis' (n + k)
               end
      end.
  End Loop.
  (** ruleCycleVisit (dag.go:146-178) with the calls of itself, the first included. *)
  Fixpoint rule_cycle_visits (fuel : nat) (key : string) (vis : list string) : option (bool * list string * nat) :=
    match fuel with
    | O => None
    | S f =>
        if mem_str key vis then Some (false, vis, 1)
        else
          let vis := key :: vis in
          match node_of dg sccs key with
          | None => Some (false, vis, 1)
          | Some nd =>
              if existsb (fun d => String.eqb (lower d) key) (dn_deps nd) then Some (true, vis, 1)
              else if in_cycle sccs key then Some (true, vis, 1)
              else visits_deps (rule_cycle_visits f) key (dn_deps nd) vis 1
          end
    end.
End Visits.

Section Calls.
  Variable g : grammar.
  (** The call of checkCanGenerateSafelyAlt for the definition of a rule (generate.go:223), and the
      calls of checkCanGenerateSafelyAlt it is counted for, with itself. *)
  Variable call : list string -> alternation -> cres.
  Variable cost : list string -> alternation -> nat.

  (** The calls of checkCanGenerateSafelyAlt made for one repetition (generate.go:204-244); its results
      are those of [check_rep]. *)
  Fixpoint calls_elem (known : list string) (e : elem) : nat :=
    match e with
    | ERule n =>
        if existsb (equal_fold n) known then 0
        else match get_rule n g with None => 0 | Some r => cost (n :: known) (rule_alt r) end
    | EGroup a =>
        1 + (fix cats (a : alternation) : nat :=
               match a with
               | [] => 0
               | c :: a' =>
                   (fix reps (c : concatenation) : nat :=
                      match c with
                      | [] => 0
                      | r :: c' => calls_rep known r + match check_rep g call known r with C_ok => reps c' | _ => 0 end
                      end) c
                   + match check_cat g call known c with C_panic | C_fuel => 0 | _ => cats a' end
               end) a
    | _ => 0
    end
  with calls_rep (known : list string) (r : rep) : nat :=
    match r with Rep mn _ e => if (mn =? 0)%Z then 0 else calls_elem known e end.
  (** Those of the loop of checkCanGenerateSafelyConcat, which stops at an error (generate.go:200-247). *)
  Fixpoint calls_cat (known : list string) (c : concatenation) : nat :=
    match c with
    | [] => 0
    | r :: c' => calls_rep known r + match check_rep g call known r with C_ok => calls_cat known c' | _ => 0 end
    end.
  (** Those of the loop of checkCanGenerateSafelyAlt, which stops at no error (generate.go:185-187). *)
  Fixpoint calls_cats (known : list string) (a : alternation) : nat :=
    match a with
    | [] => 0
    | c :: a' => calls_cat known c + match check_cat g call known c with C_panic | C_fuel => 0 | _ => calls_cats known a' end
    end.
End Calls.

(** The calls of checkCanGenerateSafelyAlt, the first included (generate.go:183-198); fuel as in [check_alt]. *)
Fixpoint check_calls (fuel : nat) (g : grammar) (known : list string) (a : alternation) : nat :=
  match fuel with
  | O => 0
  | S f => 1 + calls_cats g (check_alt f g) (check_calls f g) known a
  end.
(** Those of checkCanGenerateSafely (generate.go:162-181). *)
Definition generate_checks (fuel : nat) (g : grammar) (rulename : string) : nat :=
  match get_rule rulename g with
  | None => 0
  | Some r => check_calls fuel g [rulename] (rule_alt r)
  end.
