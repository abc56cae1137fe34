(** Grammar.Regex (regex.go). *)
From Coq Require Import ZArith String Bool List.
From Verif Require Import Syntax Spec Utf8 Num Tape Deps Dag Cycle.
Import ListNotations.
Local Open Scope Z_scope.
Local Open Scope list_scope.

(** reNode and its implementations (regex.go:92, 94-108).  Nodes are values: nothing is written to a node
    once it is built, so sharing a pointer and copying are the same. *)
Inductive re : Type :=
| RClass (ranges : list (Z * Z))
| RConcat (parts : list re)
| RAlt (opts : list re)
| RRepeat (sub : re) (mn mx : Z)
| REmpty
| RNever.

(** The methods prec (regex.go:110-115, with 85-90). *)
Definition prec (n : re) : Z :=
  match n with
  | RAlt _ => 1
  | RConcat _ => 2
  | RRepeat _ _ _ => 3
  | RClass _ | REmpty | RNever => 4
  end.

(** ** Build (regex.go:124-224) *)

(** charClass (regex.go:212-224). *)
Definition char_class (c : Z) (sensitive : bool) : re :=
  if sensitive then RClass [(c, c)]
  else if (65 <=? c) && (c <=? 90) then RClass [(c, c); (c - 65 + 97, c - 65 + 97)]
  else if (97 <=? c) && (c <=? 122) then RClass [(c - 97 + 65, c - 97 + 65); (c, c)]
  else RClass [(c, c)].

(** A range (regex.go:170-180). *)
Definition range_node (lo hi : Z) : re :=
  let hi := Z.min hi 0x10FFFF in
  if (0x10FFFF <? lo) || (hi <? lo) then RNever else RClass [(lo, hi)].
(** A series (regex.go:181-192). *)
Fixpoint series_parts (cs : list Z) : option (list re) :=
  match cs with
  | [] => Some []
  | c :: cs' => if valid_rune c then match series_parts cs' with Some ps => Some (RClass [(c, c)] :: ps) | None => None end
                else None
  end.
(** A num-val (regex.go:168-193); v.Elems[0] and v.Elems[1] exist for a range. *)
Definition num_node (b : string) (st : status) (es : list string) : re :=
  match st with
  | StatRange => match es with lo :: hi :: _ => range_node (numval_to_rune lo b) (numval_to_rune hi b) | _ => RNever end
  | StatSeries => match series_parts (map (fun s => numval_to_rune s b) es) with Some ps => RConcat ps | None => RNever end
  end.

(** reBuilder (regex.go:124-128): memo and whether err is set. *)
Record bstate : Type := mkB { b_memo : list (string * re); b_err : bool }.
(** A read of memo (regex.go:131). *)
Fixpoint memo_get (k : string) (m : list (string * re)) : option re :=
  match m with [] => None | (x, n) :: m' => if String.eqb x k then Some n else memo_get k m' end.

(** Elements in order, threading the state (the loops of regex.go:146-148 and 154-156). *)
Section Traverse.
  Context {A B S_ : Type}.
  Variable f : A -> S_ -> option (B * S_).
  (** Elements in order, threading the state (regex.go:146-148, 154-156). *)
  Fixpoint traverse (l : list A) (s : S_) : option (list B * S_) :=
    match l with
    | [] => Some ([], s)
    | x :: l' =>
        match f x s with
        | Some (y, s1) => match traverse l' s1 with Some (ys, s2) => Some (y :: ys, s2) | None => None end
        | None => None
        end
    end.
End Traverse.

(** The bodies of alt, concat and elem (regex.go:144-210); [call] is rule. *)
Section Build.
  Variable call : string -> bstate -> option (re * bstate).
  (** elem and rep (regex.go:152-210). *)
  Fixpoint build_elem (e : elem) (st : bstate) : option (re * bstate) :=
    match e with
    | ERule n => call n st
    | EGroup a =>
        match traverse (fun c st => match traverse build_rep c st with Some (ps, st') => Some (RConcat ps, st') | None => None end) a st with
        | Some (os, st') => Some (RAlt os, st')
        | None => None
        end
    | EOption a =>
        match traverse (fun c st => match traverse build_rep c st with Some (ps, st') => Some (RConcat ps, st') | None => None end) a st with
        | Some (os, st') => Some (RRepeat (RAlt os) 0 1, st')
        | None => None
        end
    | EChar s vs => Some (RConcat (map (fun c => char_class c s) vs), st)
    | ENum b k es => Some (num_node b k es, st)
    | EProse _ => Some (REmpty, mkB (b_memo st) true)
    end
  with build_rep (r : rep) (st : bstate) : option (re * bstate) :=
    match r with
    | Rep mn mx e => match build_elem e st with Some (n, st') => Some (RRepeat n mn mx, st') | None => None end
    end.
  (** concat (regex.go:152-158). *)
  Definition build_cat (c : concatenation) (st : bstate) : option (re * bstate) :=
    match traverse build_rep c st with Some (ps, st') => Some (RConcat ps, st') | None => None end.
  (** alt (regex.go:144-150). *)
  Definition build_alt (a : alternation) (st : bstate) : option (re * bstate) :=
    match traverse build_cat a st with Some (os, st') => Some (RAlt os, st') | None => None end.
End Build.

(** rule (regex.go:130-142); fuel bounds the nesting of rules. *)
Fixpoint build_rule (fuel : nat) (g : grammar) (name : string) (st : bstate) : option (re * bstate) :=
  match fuel with
  | O => None
  | S f =>
      match memo_get (lower name) (b_memo st) with
      | Some n => Some (n, st)
      | None =>
          match get_rule name g with
          | None => Some (REmpty, st)
          | Some r =>
              match build_alt (build_rule f g) (rule_alt r) st with
              | Some (n, st') => Some (n, mkB ((lower name, n) :: b_memo st') (b_err st'))
              | None => None
              end
          end
      end
  end.

(** ** Simplification (regex.go:226-356) *)

(** sort.Slice with the order of regex.go:341-343, total on ranges, so that the
    result does not depend on the sorting algorithm. *)
Definition range_le (a b : Z * Z) : bool := (fst a <? fst b) || ((fst a =? fst b) && (snd a <=? snd b)).
(** (part of sort.Slice, regex.go:341) insertion into a sorted list. *)
Fixpoint insert_range (x : Z * Z) (l : list (Z * Z)) : list (Z * Z) :=
  match l with
  | [] => [x]
  | y :: l' => if range_le x y then x :: l else y :: insert_range x l'
  end.
(** sort.Slice (regex.go:341-343). *)
Definition sort_ranges (l : list (Z * Z)) : list (Z * Z) := fold_right insert_range [] l.
(** The loop of regex.go:344-354; [last] is the last range of out.  last.hi+1 does
    not wrap around for characters. *)
Fixpoint coalesce (last : Z * Z) (l : list (Z * Z)) : list (Z * Z) :=
  match l with
  | [] => [last]
  | r :: l' =>
      if fst r <=? snd last + 1
      then coalesce (fst last, if snd last <? snd r then snd r else snd last) l'
      else last :: coalesce r l'
  end.
(** normalizeRanges (regex.go:336-356). *)
Definition normalize_ranges (rs : list (Z * Z)) : list (Z * Z) :=
  match rs with
  | [] | [_] => rs
  | _ => match sort_ranges rs with [] => [] | r :: l => coalesce r l end
  end.

(** isNever (regex.go:120). *)
Definition is_never (n : re) : bool := match n with RNever => true | _ => false end.
(** isEmpty (regex.go:333). *)
Definition is_empty (n : re) : bool := match n with REmpty => true | _ => false end.

(** Simplified parts put together (regex.go:243-267). *)
Definition flat_part (p : re) : list re :=
  match p with REmpty | RNever => [] | RConcat ps => ps | _ => [p] end.
(** The end of the case of reConcat (regex.go:243-267). *)
Definition join_concat (ps : list re) : re :=
  if existsb is_never ps then RNever
  else match flat_map flat_part ps with [] => REmpty | [p] => p | l => RConcat l end.
(** Simplified options put together (regex.go:268-307). *)
Definition flat_opt (o : re) : list re :=
  match o with RNever => [] | RAlt os => os | _ => [o] end.
(** The ranges of a class (regex.go:268-307). *)
Definition class_ranges (o : re) : list (Z * Z) := match o with RClass rs => rs | _ => [] end.
(** The type switch on reClass (regex.go:268-307). *)
Definition is_class (o : re) : bool := match o with RClass _ => true | _ => false end.
(** The end of the case of reAlt (regex.go:268-307). *)
Definition join_alt (os : list re) : re :=
  let opts := flat_map flat_opt os in
  let others := filter (fun o => negb (is_class o)) opts in
  let merged := if existsb is_class opts then RClass (normalize_ranges (flat_map class_ranges opts)) :: others else others in
  match merged with [] => RNever | [m] => m | _ => RAlt merged end.
(** simplify (regex.go:228-331).  The memo, keyed by pointers, returns what the
    function returns. *)
Fixpoint simplify (n : re) : re :=
  match n with
  | RClass rs => RClass (normalize_ranges rs)
  | REmpty => REmpty
  | RNever => RNever
  | RConcat ps => join_concat (map simplify ps)
  | RAlt os => join_alt (map simplify os)
  | RRepeat sub mn mx =>
      let s := simplify sub in
      if is_never s then (if mn =? 0 then REmpty else RNever)
      else if is_empty s then REmpty
      else if (mn =? 1) && (mx =? 1) then s
      else RRepeat s mn mx
  end.

(** ** Rendering (regex.go:358-468); texts are bytes *)

(** %d and %x of a value that is not negative, as fmt.Sprintf writes it
    (regex.go:447-453, 467). *)
Definition digit_byte (d : Z) : Z := if d <? 10 then 48 + d else 87 + d.
(** The digits of a number (regex.go:447-453, 467), the last first. *)
Fixpoint num_loop (fuel : nat) (radix v : Z) (acc : list Z) : list Z :=
  match fuel with
  | O => acc
  | S f => let acc' := digit_byte (v mod radix) :: acc in
           if v <? radix then acc' else num_loop f radix (v / radix) acc'
  end.
(** %d and %x (regex.go:447-453, 467). *)
Definition num_text (radix v : Z) : list Z := num_loop (S (Z.to_nat (Z.log2 v))) radix v [].

(** regexp.QuoteMeta (regex.go:458): the special characters of package regexp are
    \.+*?()|[]{}^$ . *)
Definition is_special (b : Z) : bool :=
  existsb (Z.eqb b) [92; 46; 43; 42; 63; 40; 41; 124; 91; 93; 123; 125; 94; 36].
(** regexp.QuoteMeta (regex.go:458). *)
Definition quote_meta (s : list Z) : list Z :=
  flat_map (fun b => if is_special b then [92; b] else [b]) s.
(** regescape (regex.go:458). *)
Definition regescape (r : Z) : list Z := quote_meta (string_of_rune r).
(** classEscape (regex.go:463-468). *)
Definition class_escape (r : Z) : list Z :=
  if ((97 <=? r) && (r <=? 122)) || ((65 <=? r) && (r <=? 90)) || ((48 <=? r) && (r <=? 57)) then string_of_rune r
  else bytes "\x{" ++ num_text 16 r ++ bytes "}".
(** renderClass (regex.go:419-436). *)
Definition render_class (rs : list (Z * Z)) : list Z :=
  let items := bytes "[" ++ flat_map (fun r => if fst r =? snd r then class_escape (fst r)
                                               else class_escape (fst r) ++ bytes "-" ++ class_escape (snd r)) rs ++ bytes "]" in
  match rs with
  | [(lo, hi)] => if lo =? hi then regescape lo else items
  | _ => items
  end.
(** quantifier (regex.go:438-455). *)
Definition quantifier (mn mx : Z) : list Z :=
  if (mn =? 0) && (mx =? 1) then bytes "?"
  else if (mn =? 0) && (mx =? inf) then bytes "*"
  else if (mn =? 1) && (mx =? inf) then bytes "+"
  else if mx =? inf then bytes "{" ++ num_text 10 mn ++ bytes ",}"
  else if mn =? mx then bytes "{" ++ num_text 10 mn ++ bytes "}"
  else if mn =? 0 then bytes "{0," ++ num_text 10 mx ++ bytes "}"
  else bytes "{" ++ num_text 10 mn ++ bytes "," ++ num_text 10 mx ++ bytes "}".

(** reRenderer and the builder written to (regex.go:360-364). *)
Record rstate : Type := mkR { r_n : Z; r_err : bool; r_out : list Z }.
(** write (regex.go:366-376). *)
Definition write (max : Z) (s : list Z) (st : rstate) : rstate :=
  if r_err st then st
  else let n := r_n st + Z.of_nat (length s) in
       if (0 <? max) && (max <? n) then mkR n true (r_out st)
       else mkR n false (r_out st ++ s).

(** render (regex.go:380-417). *)
Fixpoint render (max : Z) (n : re) (ctx : Z) (st : rstate) : rstate :=
  if r_err st then st
  else
    let grp := prec n <? ctx in
    let st := if grp then write max (bytes "(?:") st else st in
    let st :=
      match n with
      | REmpty => if grp then st else write max (bytes "(?:)") st
      | RNever => write max (bytes "[^\x00-\x{10ffff}]") st
      | RClass rs => write max (render_class rs) st
      | RConcat ps => fold_left (fun st p => render max p 2 st) ps st
      | RAlt os =>
          (fix go (first : bool) (l : list re) (st : rstate) : rstate :=
             match l with
             | [] => st
             | o :: l' => go false l' (render max o 1 (if first then st else write max (bytes "|") st))
             end) true os st
      | RRepeat sub mn mx => write max (quantifier mn mx) (render max sub 4 st)
      end in
    if grp then write max (bytes ")") st else st.

(** Regex (regex.go:22-54); [order] is the iteration order of the dependency graph. *)
Inductive regex_result : Type :=
| Regex_text (t : list Z)
| Regex_cyclic
| Regex_not_found
| Regex_prose
| Regex_too_large
| Regex_fuel.
(** Regex (regex.go:22-54). *)
Definition regex (fuel : nat) (g : grammar) (order : list string) (max_len : Z) (rulename : string) : regex_result :=
  match rule_contains_cycle g order rulename with
  | RccNotFound => Regex_not_found
  | RccStuck => Regex_fuel
  | RccBool true => Regex_cyclic
  | RccBool false =>
      match get_rule rulename g with
      | None => Regex_not_found
      | Some r =>
          match build_alt (build_rule fuel g) (rule_alt r) (mkB [] false) with
          | None => Regex_fuel
          | Some (n, st) =>
              if b_err st then Regex_prose
              else let rs := render max_len (simplify n) 1 (mkR 0 false []) in
                   if r_err rs then Regex_too_large else Regex_text (r_out rs)
          end
      end
  end.
