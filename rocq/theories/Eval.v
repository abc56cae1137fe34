(** Evaluation of a parse tree into a grammar: feval, grammar.go:124-360. *)
From Coq Require Import ZArith String Ascii Bool List Lia.
From Verif Require Import Syntax Spec Utf8 Num Printer Tape.
Import ListNotations.
Local Open Scope string_scope.
Local Open Scope Z_scope.

(** The errors of the evaluation (grammar.go:127, 174, 177, 183, 187, 201, 209, 249, 278). *)
Inductive eval_error :=
| EE_no_solution
| EE_core_modify (n : string)
| EE_duplicated (n : string)
| EE_not_found (n : string).

(** Results of the evaluation (grammar.go:162-303): a value, an error, or a panic. *)
Inductive evr (A : Type) : Type :=
| EvOk (a : A)
| EvErr (e : eval_error)
| EvPanic.                              (* a nil dereference *)
Arguments EvOk {A} _.
Arguments EvErr {A} _.
Arguments EvPanic {A}.

(** if err != nil return (grammar.go:166-168, 212-214, 222-224, 234-236, 252-254). *)
Definition ev_bind {A B} (x : evr A) (f : A -> evr B) : evr B :=
  match x with EvOk a => f a | EvErr e => EvErr e | EvPanic => EvPanic end.

(** feval.span (grammar.go:160).  The spans of a tree lie inside the input, so
    Go does not panic here. *)
Definition slice (input : list Z) (s e : nat) : list Z := firstn (e - s) (skipn s input).
(** feval.span (grammar.go:160). *)
Definition span_of (input : list Z) (t : ptree) : list Z := slice input (pt_start t) (pt_end t).

(** Mapping over ptChildren (grammar.go:141-149, 218-240), stopping at the first error. *)
Section Children.
  Context {A : Type}.
  Variable f : ptree -> evr A.
  Variable name : string.
  (** The loops over ptChildren (grammar.go:141-149, 220-226, 232-238). *)
  Fixpoint each_child (l : list ptree) : evr (list A) :=
    match l with
    | [] => EvOk []
    | c :: l' =>
        if String.eqb (pt_rule c) name then
          match f c with
          | EvOk x => match each_child l' with EvOk xs => EvOk (x :: xs) | EvErr e => EvErr e | EvPanic => EvPanic end
          | EvErr e => EvErr e
          | EvPanic => EvPanic
          end
        else each_child l'
    end.
End Children.

(** ptFirst (grammar.go:151-158) followed by [f]; [none] is what happens on nil. *)
Section First.
  Context {A : Type}.
  Variable f : ptree -> evr A.
  Variable names : list string.
  Variable none : evr A.
  (** ptFirst (grammar.go:151-158). *)
  Fixpoint first_child (l : list ptree) : evr A :=
    match l with
    | [] => none
    | c :: l' => if existsb (String.eqb (pt_rule c)) names then f c else first_child l'
    end.
End First.

(** strconv.Atoi, the error being ignored: saturates when out of range, 0 on a
    syntax error.  (A syntax error after an overflow is not distinguished.) *)
Fixpoint dec_val (acc : Z) (s : list Z) : option Z :=
  match s with
  | [] => Some acc
  | c :: s' => if ((48 <=? c) && (c <=? 57))%bool then dec_val (acc * 10 + (c - 48)) s' else None
  end.
(** strconv.Atoi as used by parseRepeat (grammar.go:262, 267, 270). *)
Definition atoi (s : list Z) : Z :=
  let '(neg, d) := match s with 43 :: r => (false, r) | 45 :: r => (true, r) | _ => (false, s) end in
  match d with
  | [] => 0
  | _ => match dec_val 0 d with
         | None => 0
         | Some v => if (neg : bool) then - Z.min v (2 ^ 63) else Z.min v max_int
         end
  end.

(** strings.Cut at a one-byte separator. *)
Fixpoint cut (sep : Z) (s : list Z) : option (list Z * list Z) :=
  match s with
  | [] => None
  | c :: s' => if c =? sep then Some ([], s')
               else match cut sep s' with Some (a, b) => Some (c :: a, b) | None => None end
  end.

(** parseRepeat (grammar.go:258-273). *)
Definition parse_repeat (s : list Z) : Z * Z :=
  match cut 42 s with
  | None => (atoi s, atoi s)
  | Some (pre, post) =>
      (match pre with [] => 0 | _ => atoi pre end, match post with [] => inf | _ => atoi post end)
  end.

(** []rune(s). *)
Fixpoint runes_of_fuel (fuel : nat) (s : list Z) : list Z :=
  match fuel, s with
  | O, _ | _, [] => []
  | S f, _ => let '(r, k) := decode_rune s in r :: runes_of_fuel f (skipn (Nat.max 1 k) s)
  end.
(** []rune of a string (grammar.go:318). *)
Definition runes_of (s : list Z) : list Z := runes_of_fuel (length s) s.

(** strings.IndexByte and strings.LastIndexByte. *)
Fixpoint index_byte (b : Z) (s : list Z) : option nat :=
  match s with
  | [] => None
  | c :: s' => if c =? b then Some 0%nat else option_map S (index_byte b s')
  end.
(** strings.LastIndexByte (grammar.go:315). *)
Fixpoint last_index_byte (b : Z) (s : list Z) : option nat :=
  match s with
  | [] => None
  | c :: s' => match last_index_byte b s' with
               | Some i => Some (S i)
               | None => if c =? b then Some 0%nat else None
               end
  end.

(** charVal (grammar.go:305-321). *)
Definition char_val (s : list Z) : elem :=
  let '(sens, s) := match s with
                    | 37 :: c :: s' => (((c =? 115) || (c =? 83))%bool, s')
                    | _ => (false, s)
                    end in
  match index_byte 34 s, last_index_byte 34 s with
  | Some i, Some j => if Nat.ltb i j then EChar sens (runes_of (slice s (S i) j)) else EChar sens []
  | _, _ => EChar sens []
  end.

(** strings.Split at a one-byte separator. *)
Fixpoint split_at (sep : Z) (s : list Z) : list (list Z) :=
  match s with
  | [] => [[]]
  | c :: s' =>
      if c =? sep then [] :: split_at sep s'
      else match split_at sep s' with
           | [] => [[c]]                (* never *)
           | p :: ps => (c :: p) :: ps
           end
  end.

(** numVal (grammar.go:323-352). *)
Definition num_val (s : list Z) : elem :=
  let '(base, rest) :=
    match s with
    | 37 :: c :: rest =>
        (if ((c =? 98) || (c =? 66))%bool then "b"
         else if ((c =? 100) || (c =? 68))%bool then "d"
         else if ((c =? 120) || (c =? 88))%bool then "x" else "d", rest)
    | _ => ("d", [])
    end in
  if existsb (Z.eqb 45) rest then ENum base StatRange (map string_of_bytes (split_at 45 rest))
  else ENum base StatSeries (map string_of_bytes (split_at 46 rest)).

(** proseVal (grammar.go:354-360): string(e.input[i]) is the UTF-8 of the byte
    taken as a code point. *)
Definition prose_val (s : list Z) : elem :=
  EProse (map (fun b => string_of_bytes (string_of_rune b)) (slice s 1 (length s - 1))).

(** The four mutually recursive methods of grammar.go:218-303, as an index. *)
Inductive ekind := KAlt | KCat | KRep | KElem.
(** What each of them returns (grammar.go:218, 230, 242, 275). *)
Definition ekty (k : ekind) : Type :=
  match k with KAlt => alternation | KCat => concatenation | KRep => rep | KElem => elem end.

(** The names of ptFirst in element (grammar.go:276). *)
Definition elem_names : list string := ["rulename"; "group"; "option"; "char-val"; "num-val"; "prose-val"].

(** alternation, concatenation, repetition and element (grammar.go:218-256,
    275-303). *)
Fixpoint e_node (input : list Z) (k : ekind) (t : ptree) {struct t} : evr (ekty k) :=
  match t with
  | PT _ _ _ cs =>
      match k return evr (ekty k) with
      | KAlt => each_child (fun c => e_node input KCat c) "concatenation" cs
      | KCat => each_child (fun c => e_node input KRep c) "repetition" cs
      | KRep =>
          let '(mn, mx) := match find (fun c => String.eqb (pt_rule c) "repeat") cs with
                           | Some c => parse_repeat (span_of input c)
                           | None => (1, 1)
                           end in
          first_child (fun c => match e_node input KElem c with
                                | EvOk e => EvOk (Rep mn mx e)
                                | EvErr e => EvErr e
                                | EvPanic => EvPanic
                                end) ["element"] (EvErr EE_no_solution) cs
      | KElem =>
          first_child (fun c =>
            match c with
            | PT r s e ccs =>
                if String.eqb r "rulename" then EvOk (ERule (string_of_bytes (slice input s e)))
                else if String.eqb r "group" then
                  first_child (fun a => match e_node input KAlt a with
                                        | EvOk x => EvOk (EGroup x) | EvErr e => EvErr e | EvPanic => EvPanic end)
                              ["alternation"] EvPanic ccs
                else if String.eqb r "option" then
                  first_child (fun a => match e_node input KAlt a with
                                        | EvOk x => EvOk (EOption x) | EvErr e => EvErr e | EvPanic => EvPanic end)
                              ["alternation"] EvPanic ccs
                else if String.eqb r "char-val" then EvOk (char_val (slice input s e))
                else if String.eqb r "num-val" then EvOk (num_val (slice input s e))
                else EvOk (prose_val (slice input s e))
            end) elem_names (EvErr EE_no_solution) cs
      end
  end.

(** strings.Contains(s, "=/"). *)
Fixpoint has_eq_slash (s : list Z) : bool :=
  match s with
  | 61 :: (47 :: _) => true
  | _ :: s' => has_eq_slash s'
  | [] => false
  end.

(** rule (grammar.go:196-216): the rule and whether it is defined with =/. *)
Definition e_rule (input : list Z) (t : ptree) : evr (rule * bool) :=
  match find (fun c => String.eqb (pt_rule c) "rulename") (pt_children t),
        find (fun c => String.eqb (pt_rule c) "defined-as") (pt_children t),
        find (fun c => String.eqb (pt_rule c) "elements") (pt_children t) with
  | Some n, Some d, Some e =>
      match find (fun c => String.eqb (pt_rule c) "alternation") (pt_children e) with
      | None => EvErr EE_no_solution
      | Some a =>
          match e_node input KAlt a with
          | EvOk alt => EvOk (mkRule (string_of_bytes (span_of input n)) alt, has_eq_slash (span_of input d))
          | EvErr x => EvErr x
          | EvPanic => EvPanic
          end
      end
  | _, _, _ => EvErr EE_no_solution
  end.

(** ** The rule map (grammar.go:162-194)

    A value of the map is a pointer: to a rule made by this evaluation, or to one
    of the global core rules, which are shared by all grammars (GetRule falls
    back on them).  The core rules are part of the state. *)
Inductive entry := Own (r : rule) | Shared (core_name : string).
(** Rulemap while it is built (grammar.go:163), as the list of its entries. *)
Definition rmap : Type := list (string * entry).

(** What rulelist changes (grammar.go:162-194): the global core rules, the map, and how often a
    map was ranged over. *)
Record estate : Type := mkE { e_core : grammar; e_map : rmap; e_tick : nat }.

(** Following a pointer of the map (utils.go:137-143, grammar.go:189). *)
Definition deref (core : grammar) (e : entry) : option rule :=
  match e with
  | Own r => Some r
  | Shared n => find (fun r => String.eqb n (rule_name r)) core
  end.

(** A write to the map (grammar.go:179, 190). *)
Fixpoint rm_set (k : string) (e : entry) (m : rmap) : rmap :=
  match m with
  | [] => [(k, e)]
  | (k', e') :: m' => if String.eqb k k' then (k, e) :: m' else (k', e') :: rm_set k e m'
  end.

(** getRuleIn over the map, in the order [m] lists it. *)
Fixpoint rm_find (core : grammar) (name : string) (m : rmap) : option (entry * rule) :=
  match m with
  | [] => None
  | (_, e) :: m' =>
      match deref core e with
      | Some r => if equal_fold name (rule_name r) then Some (e, r) else rm_find core name m'
      | None => rm_find core name m'
      end
  end.

(** GetRule(name, mp) (utils.go:137-143). *)
Definition rm_get (core : grammar) (name : string) (m : rmap) : option (entry * rule) :=
  match rm_find core name m with
  | Some x => Some x
  | None => match get_rule_in name core with Some r => Some (Shared (rule_name r), r) | None => None end
  end.

(** Writing through a pointer to a core rule. *)
Definition core_set (n : string) (a : alternation) (core : grammar) : grammar :=
  map (fun r => if String.eqb n (rule_name r) then mkRule (rule_name r) a else r) core.

Section RuleList.
  Variable redefine_core : bool.
  (* the order Go iterates the rule map in *)
  Variable ord : nat -> rmap -> rmap.

  (** One iteration of the loop of rulelist (grammar.go:164-192). *)
  Definition e_define (d : rule * bool) (st : estate) : evr estate :=
    let '(rl, is_alt) := d in
    let n := rule_name rl in
    let is_core := match get_rule_in n (e_core st) with Some _ => true | None => false end in
    let m := ord (e_tick st) (e_map st) in
    if is_alt then
      if (negb redefine_core && is_core)%bool then EvErr (EE_core_modify n)
      else
        match rm_get (e_core st) n m with
        | None => EvErr (EE_not_found n)
        | Some (p, r) =>
            let alt := (rule_alt r ++ rule_alt rl)%list in
            match p with
            | Own _ => EvOk (mkE (e_core st) (rm_set (rule_name r) (Own (mkRule (rule_name r) alt)) (e_map st)) (S (e_tick st)))
            | Shared c => EvOk (mkE (core_set c alt (e_core st)) (rm_set (rule_name r) (Shared c) (e_map st)) (S (e_tick st)))
            end
        end
    else if is_core then
      if redefine_core then EvOk (mkE (e_core st) (rm_set n (Own rl) (e_map st)) (S (e_tick st)))
      else EvErr (EE_core_modify n)
    else
      match rm_get (e_core st) n m with
      | Some _ => EvErr (EE_duplicated n)
      | None => EvOk (mkE (e_core st) (rm_set n (Own rl) (e_map st)) (S (e_tick st)))
      end.

  (** The loop of rulelist (grammar.go:164-192) once the rules are evaluated. *)
  Fixpoint e_define_all (ds : list (rule * bool)) (st : estate) : evr estate :=
    match ds with
    | [] => EvOk st
    | d :: ds' =>
        match e_define d st with
        | EvOk st' => e_define_all ds' st'
        | EvErr e => EvErr e
        | EvPanic => EvPanic
        end
    end.

  (** rulelist (grammar.go:162-194).  Evaluating a rule has no side effect, so
      evaluating and defining may be interleaved as in Go: rules are evaluated
      one by one and the first error stops. *)
  Fixpoint e_rulelist (input : list Z) (cs : list ptree) (st : estate) : evr estate :=
    match cs with
    | [] => EvOk st
    | c :: cs' =>
        if String.eqb (pt_rule c) "rule" then
          match e_rule input c with
          | EvOk d => match e_define d st with
                      | EvOk st' => e_rulelist input cs' st'
                      | EvErr e => EvErr e
                      | EvPanic => EvPanic
                      end
          | EvErr e => EvErr e
          | EvPanic => EvPanic
          end
        else e_rulelist input cs' st
    end.
End RuleList.

(** The rules of the resulting Grammar, through the pointers. *)
Definition rules_of (st : estate) : grammar :=
  flat_map (fun ke => match deref (e_core st) (snd ke) with Some r => [r] | None => [] end) (e_map st).

(** evalForest on the tree of the forest (grammar.go:124-131). *)
Definition eval_tree (redefine_core : bool) (ord : nat -> rmap -> rmap) (core : grammar) (input : list Z) (t : ptree) : evr estate :=
  e_rulelist redefine_core ord input (pt_children t) (mkE core [] 0).
