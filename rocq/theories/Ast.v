(** ASTGenerator (ast.go). *)
From Coq Require Import ZArith String Bool List.
From Verif Require Import Syntax Spec Utf8 Num Tape.
Import ListNotations.
Local Open Scope Z_scope.

(** astUnbounded (ast.go:23). *)
Definition unbounded : Z := 2 ^ 30.

(** addClamp (ast.go:359-367); the sum of two values below 2^30 does not wrap. *)
Definition add_clamp (a b : Z) : Z :=
  if (unbounded <=? a) || (unbounded <=? b) then unbounded
  else if a + b <? unbounded then a + b else unbounded.
(** mulClamp (ast.go:369-380); the product of ints wraps around. *)
Definition mul_clamp (n c : Z) : Z :=
  if n =? 0 then 0
  else if unbounded <=? c then unbounded
  else let p := wrap64 (n * c) in if (0 <=? p) && (p <? unbounded) then p else unbounded.

(** minCost (ast.go:35): canonical rule name to cost. *)
Definition costs : Type := list (string * Z).
(** A read of minCost (ast.go:117, 328). *)
Fixpoint cost_get (m : costs) (n : string) : option Z :=
  match m with
  | [] => None
  | (k, v) :: m' => if String.eqb k n then Some v else cost_get m' n
  end.
(** A write to minCost (ast.go:118). *)
Fixpoint cost_set (m : costs) (n : string) (c : Z) : costs :=
  match m with
  | [] => [(n, c)]
  | (k, v) :: m' => if String.eqb k n then (k, c) :: m' else (k, v) :: cost_set m' n c
  end.

(** The best of the costs of the concatenations (ast.go:300-311). *)
Definition min_cost (l : list Z) : Z :=
  match l with [] => 0 | _ => fold_left (fun best v => if v <? best then v else best) l unbounded end.
(** len(string(r)) (ast.go:341, 347, 351). *)
Definition rune_len (r : Z) : Z := Z.of_nat (length (string_of_rune r)).

(** The cost model (ast.go:298-357).  The values of a range are at least one, as in any
    parsed grammar (Elems[0]). *)
Section Cost.
  Variable g : grammar.
  Variable m : costs.
  (** costElem (ast.go:321-357), with costAlt and costConcat in the group case. *)
  Fixpoint cost_elem (e : elem) : Z :=
    match e with
    | ERule n =>
        match get_rule n g with
        | None => unbounded
        | Some r => match cost_get m (rule_name r) with Some c => add_clamp 1 c | None => unbounded end
        end
    | EGroup a => min_cost (map (fun c => fold_left (fun t r => add_clamp t (cost_rep r)) c 0) a)
    | EOption _ => 0
    | EChar _ vs => fold_left (fun n v => n + rune_len v) vs 0
    | ENum b StatSeries es => fold_left (fun n v => n + rune_len (numval_to_rune v b)) es 0
    | ENum b StatRange es => match es with [] => 0 | lo :: _ => rune_len (numval_to_rune lo b) end
    | EProse _ => 0
    end
  with cost_rep (r : rep) : Z :=
    match r with Rep mn _ e => mul_clamp mn (cost_elem e) end.
  (** costConcat (ast.go:313-319). *)
  Definition cost_cat (c : concatenation) : Z := fold_left (fun t r => add_clamp t (cost_rep r)) c 0.
  (** costAlt (ast.go:300-311). *)
  Definition cost_alt (a : alternation) : Z := min_cost (map cost_cat a).

  (** The loop of cheapestConcat (ast.go:290-294); [i] is the index of the first of [cs]. *)
  Fixpoint cheapest_from (cs : list concatenation) (i best : nat) (bestc : Z) : nat :=
    match cs with
    | [] => best
    | c :: cs' => let v := cost_cat c in
                  if v <? bestc then cheapest_from cs' (S i) i v else cheapest_from cs' (S i) best bestc
    end.
  (** cheapestConcat (ast.go:288-296). *)
  Definition cheapest (cs : list concatenation) : nat :=
    match cs with [] => O | c :: cs' => cheapest_from cs' 1 0 (cost_cat c) end.
End Cost.

(** The loops filling effective (ast.go:100-109), as the list of its values; a second write
    for a name writes the same rule again. *)
Fixpoint effective_from (g : grammar) (names : list string) (acc : list rule) : list rule :=
  match names with
  | [] => acc
  | n :: ns =>
      match get_rule n g with
      | Some r => effective_from g ns (if existsb (fun x => String.eqb (rule_name x) (rule_name r)) acc then acc else acc ++ [r])
      | None => effective_from g ns acc
      end
  end.
(** effective (ast.go:99-109): the keys of Rulemap, then those of coreRules. *)
Definition effective (g : grammar) : list rule :=
  effective_from g (map rule_name g ++ map rule_name core_rules) [].

(** One pass over effective in a map iteration order (ast.go:115-121). *)
Fixpoint cost_pass (g : grammar) (rs : list rule) (m : costs) (changed : bool) : costs * bool :=
  match rs with
  | [] => (m, changed)
  | r :: rs' =>
      let c := cost_alt g m (rule_alt r) in
      if c <? match cost_get m (rule_name r) with Some v => v | None => 0 end
      then cost_pass g rs' (cost_set m (rule_name r) c) true
      else cost_pass g rs' m changed
  end.
(** The loop (ast.go:114-122); pass [t] iterates in the order [ord t]. *)
Fixpoint cost_loop (fuel : nat) (g : grammar) (ord : nat -> list rule -> list rule) (t : nat) (m : costs) : option costs :=
  match fuel with
  | O => None
  | S f => let '(m', ch) := cost_pass g (ord t (effective g)) m false in
           if ch then cost_loop f g ord (S t) m' else Some m'
  end.
(** The costs before the loop (ast.go:110-113). *)
Definition initial_costs (g : grammar) : costs := map (fun r => (rule_name r, unbounded)) (effective g).

(** The result of the visit of the reachable rules (ast.go:125-158): [seen], or the error
    (ast.go:132, 139). *)
Inductive vres : Type := V_ok (seen : list string) | V_undefined (n : string) | V_unproductive (n : string) | V_fuel.
(** A cost at the sentinel (ast.go:138, 159); a missing entry reads as 0. *)
Definition too_costly (m : costs) (n : string) : bool :=
  unbounded <=? match cost_get m n with Some v => v | None => 0 end.

Section Visit.
  Variable g : grammar.
  Variable m : costs.
  Variable call : list string -> alternation -> vres.
  (** visitElem (ast.go:127-148); [call] is visitAlt on the body of a rule. *)
  Fixpoint visit_elem (e : elem) (seen : list string) : vres :=
    match e with
    | ERule n =>
        match get_rule n g with
        | None => V_undefined n
        | Some r =>
            if existsb (String.eqb (rule_name r)) seen then V_ok seen
            else if too_costly m (rule_name r) then V_unproductive (rule_name r)
            else call (rule_name r :: seen) (rule_alt r)
        end
    | EGroup a | EOption a =>
        fold_left (fun acc c => fold_left (fun acc r => match acc with V_ok s => visit_rep r s | x => x end) c acc) a (V_ok seen)
    | _ => V_ok seen
    end
  with visit_rep (r : rep) (seen : list string) : vres :=
    match r with Rep _ _ e => visit_elem e seen end.
  (** visitAlt (ast.go:149-158), stopping at the first error. *)
  Definition visit_alt_with (seen : list string) (a : alternation) : vres :=
    fold_left (fun acc c => fold_left (fun acc r => match acc with V_ok s => visit_rep r s | x => x end) c acc) a (V_ok seen).
End Visit.
(** visitAlt with the recursion through rules tied (ast.go:141, 149-158); fuel bounds the
    nesting of rules. *)
Fixpoint visit_alt (fuel : nat) (g : grammar) (m : costs) (seen : list string) (a : alternation) : vres :=
  match fuel with
  | O => V_fuel
  | S f => visit_alt_with g m (visit_alt f g m) seen a
  end.

(** The result of NewASTGenerator (ast.go:78-166): the start rule and the costs, or its
    errors (ast.go:81, 132, 139, 160). *)
Inductive new_result : Type :=
| New_ok (start : rule) (m : costs)
| New_not_found
| New_undefined (n : string)
| New_unproductive (n : string)
| New_fuel.
(** NewASTGenerator (ast.go:78-166); the options are parameters of the walk (see Pap.v). *)
Definition new_ast (fuel : nat) (ord : nat -> list rule -> list rule) (g : grammar) (rulename : string) : new_result :=
  match get_rule rulename g with
  | None => New_not_found
  | Some start =>
      match cost_loop fuel g ord 0 (initial_costs g) with
      | None => New_fuel
      | Some m =>
          if too_costly m (rule_name start) then New_unproductive rulename
          else match visit_alt fuel g m [rule_name start] (rule_alt start) with
               | V_ok _ => New_ok start m
               | V_undefined n => New_undefined n
               | V_unproductive n => New_unproductive n
               | V_fuel => New_fuel
               end
      end
  end.

(** isASCIILetter (ast.go:382-384). *)
Definition is_ascii_letter (r : Z) : bool := ((97 <=? r) && (r <=? 122)) || ((65 <=? r) && (r <=? 90)).
(** flipASCIICase (ast.go:386-394). *)
Definition flip_ascii_case (r : Z) : Z :=
  if (97 <=? r) && (r <=? 122) then r - 97 + 65
  else if (65 <=? r) && (r <=? 90) then r - 65 + 97 else r.

Section Gen.
  Variable g : grammar.
  Variable m : costs.
  Variable max_depth max_len max_repeat : Z.     (* the options (ast.go:31-33) *)
  (** The source (fuzz.go:31-33): any state and any way to draw from it. *)
  Variable S_ : Type.
  Variable intn : Z -> S_ -> Z * S_.

  (** What a walk changes: out and the source (ast.go:180-184). *)
  Record astate : Type := mkA { a_out : list Z; a_src : S_ }.
  (** The result of a generating function (ast.go:192-284): it ends, panics (an undefined rule
      or an index out of range), or is out of fuel. *)
  Inductive ares : Type := A_ok (s : astate) | A_panic | A_fuel.

  (** append( *out, []byte(string(r))...) (ast.go:251, 262, 278). *)
  Definition put (s : astate) (r : Z) : astate := mkA (a_out s ++ string_of_rune r) (a_src s).

  (** over (ast.go:188-190). *)
  Definition over (s : astate) (depth : Z) : bool :=
    (max_depth <=? depth) || (max_len <=? Z.of_nat (length (a_out s))).

  (** A char-val (ast.go:246-252). *)
  Definition gen_chars (sensitive : bool) (vs : list Z) (s : astate) : astate :=
    fold_left (fun s v =>
      if negb sensitive && is_ascii_letter v then
        let '(d, src) := intn 2 (a_src s) in
        put (mkA (a_out s) src) (if d =? 1 then flip_ascii_case v else v)
      else put s v) vs s.

  (** A num-val (ast.go:254-279). *)
  Definition gen_numval (b : string) (st : status) (es : list string) (s : astate) : ares :=
    match st with
    | StatSeries =>
        A_ok (fold_left (fun s v => let r := numval_to_rune v b in if valid_rune r then put s r else s) es s)
    | StatRange =>
        match es with
        | lo :: hi :: _ =>
            let mn := numval_to_rune lo b in
            let mx := numval_to_rune hi b in
            let mx := if 0x10FFFF <? mx then 0x10FFFF else mx in
            if (0x10FFFF <? mn) || (mx <? mn) then A_ok s
            else let '(d, src) := intn (mx - mn + 1) (a_src s) in A_ok (put (mkA (a_out s) src) (mn + d))
        | _ => A_panic
        end
    end.

  Variable rec : alternation -> Z -> astate -> ares.      (* genAlt, one level deeper *)

  (** genElem (ast.go:231-284). *)
  Definition ast_elem (e : elem) (depth : Z) (s : astate) : ares :=
    match e with
    | ERule n => match get_rule n g with None => A_panic | Some r => rec (rule_alt r) (depth + 1) s end
    | EGroup a => rec a depth s
    | EOption a =>
        if over s depth then A_ok s
        else let '(d, src) := intn 2 (a_src s) in
             let s := mkA (a_out s) src in
             if d =? 1 then rec a depth s else A_ok s
    | EChar sens vs => A_ok (gen_chars sens vs s)
    | ENum b st es => gen_numval b st es s
    | EProse _ => A_ok s
    end.

  (** The loop of genRep (ast.go:222-228); [k] iterations are left, [i] are done. *)
  Fixpoint ast_loop (k : nat) (i lo : Z) (e : elem) (depth : Z) (s : astate) : ares :=
    match k with
    | O => A_ok s
    | S k' =>
        match ast_elem e depth s with
        | A_ok s' =>
            if (lo <=? i + 1) && (max_len <=? Z.of_nat (length (a_out s'))) then A_ok s'
            else ast_loop k' (i + 1) lo e depth s'
        | x => x
        end
    end.

  (** genRep (ast.go:212-229). *)
  Definition ast_rep (r : rep) (depth : Z) (s : astate) : ares :=
    match r with
    | Rep lo mx e =>
        let hi := if (mx =? inf) || (mx <? lo) then wrap64 (lo + max_repeat) else mx in
        if negb (over s depth) && (lo <? hi) then
          let '(d, src) := intn (wrap64 (hi - lo + 1)) (a_src s) in
          ast_loop (Z.to_nat (lo + d)) 0 lo e depth (mkA (a_out s) src)
        else ast_loop (Z.to_nat lo) 0 lo e depth s
    end.

  (** genConcat (ast.go:206-210). *)
  Fixpoint ast_cat (c : concatenation) (depth : Z) (s : astate) : ares :=
    match c with
    | [] => A_ok s
    | r :: c' => match ast_rep r depth s with A_ok s' => ast_cat c' depth s' | x => x end
    end.

  (** genAlt (ast.go:192-204). *)
  Definition ast_alt_with (a : alternation) (depth : Z) (s : astate) : ares :=
    match a with
    | [] => A_ok s
    | _ =>
        let '(idx, s) :=
          if over s depth then (cheapest g m a, s)
          else if Nat.ltb 1 (length a) then
            let '(d, src) := intn (Z.of_nat (length a)) (a_src s) in (Z.to_nat d, mkA (a_out s) src)
          else (O, s) in
        match nth_error a idx with
        | Some c => ast_cat c depth s
        | None => A_panic
        end
    end.
End Gen.
Arguments A_ok {S_}. Arguments A_panic {S_}. Arguments A_fuel {S_}.
Arguments mkA {S_}. Arguments a_out {S_}. Arguments a_src {S_}.

(** genAlt with the recursion through genElem tied (ast.go:192-284); fuel bounds the
    nesting of calls. *)
Fixpoint ast_alt (fuel : nat) (g : grammar) (m : costs) (max_depth max_len max_repeat : Z) {S_ : Type} (intn : Z -> S_ -> Z * S_)
    (a : alternation) (depth : Z) (s : astate S_) : ares S_ :=
  match fuel with
  | O => A_fuel
  | S f => ast_alt_with g m max_depth max_len max_repeat S_ intn (ast_alt f g m max_depth max_len max_repeat intn) a depth s
  end.

(** walk (ast.go:180-184). *)
Definition ast_walk (fuel : nat) (g : grammar) (start : rule) (m : costs) (max_depth max_len max_repeat : Z)
    {S_ : Type} (intn : Z -> S_ -> Z * S_) (src : S_) : ares S_ :=
  ast_alt fuel g m max_depth max_len max_repeat intn (rule_alt start) 0 (mkA [] src).

(** intn of tapeSource (fuzz.go:40-64); [None] is out of fuel, which does not happen
    (C37). *)
Definition tape_draw (n : Z) (s : tape_source) : Z * tape_source :=
  match tape_intn n s with Some r => r | None => (0, s) end.
(** Generate (ast.go:171-173): the source is a tape. GenerateRand (ast.go:176-178) is [ast_walk]
    with the source it is given. *)
Definition ast_generate (fuel : nat) (g : grammar) (start : rule) (m : costs) (max_depth max_len max_repeat : Z)
    (tape : list Z) : ares tape_source :=
  ast_walk fuel g start m max_depth max_len max_repeat tape_draw (mkTape tape 0).
