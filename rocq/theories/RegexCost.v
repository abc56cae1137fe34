(** The nodes of regex.go as pointers, and what building, simplifying and rendering them
    costs (regex.go:22-54, 92-417). *)
From Coq Require Import ZArith Arith String Bool List.
From Verif Require Import Syntax Spec Utf8 Num Tape Deps Dag Cycle Regex.
Import ListNotations.
Local Open Scope string_scope.
Local Open Scope list_scope.
Local Open Scope nat_scope.

(** A reNode (regex.go:92, 94-108) whose children are pointers: places of the heap. *)
Inductive hnode : Type :=
| HClass (ranges : list (Z * Z))
| HConcat (parts : list nat)
| HAlt (opts : list nat)
| HRepeat (sub : nat) (mn mx : Z)
| HEmpty
| HNever.

(** The heap with reBuilder (regex.go:124-128); [h_steps] counts the calls of rule
    (regex.go:130) and the nodes allocated. *)
Record hstate : Type := mkH { h_heap : list hnode; h_memo : list (string * nat); h_err : bool; h_steps : nat }.
(** reEmptyV and reNeverV (regex.go:117-118) are at places 0 and 1; an empty memo (regex.go:40). *)
Definition h_init : hstate := mkH [HEmpty; HNever] [] false 0.
(** reEmptyV (regex.go:117). *)
Definition p_empty : nat := 0.
(** reNeverV (regex.go:118). *)
Definition p_never : nat := 1.
(** &reClass{...}, &reConcat{...}, &reAlt{...}, &reRepeat{...} (regex.go:149, 155, 157, 167, 180, 190, 192, 202, 217-223). *)
Definition h_new (n : hnode) (st : hstate) : nat * hstate :=
  (length (h_heap st), mkH (h_heap st ++ [n]) (h_memo st) (h_err st) (S (h_steps st))).
(** A read of memo (regex.go:132). *)
Fixpoint pmemo_get (k : string) (m : list (string * nat)) : option nat :=
  match m with [] => None | (x, p) :: m' => if String.eqb x k then Some p else pmemo_get k m' end.

(** charClass (regex.go:212-224): the ranges of the class. *)
Definition char_ranges (c : Z) (sensitive : bool) : list (Z * Z) :=
  match char_class c sensitive with RClass rs => rs | _ => [] end.
(** The loop over the characters (regex.go:199-201). *)
Fixpoint h_chars (sensitive : bool) (vs : list Z) (st : hstate) : list nat * hstate :=
  match vs with
  | [] => ([], st)
  | c :: vs' =>
      let '(p, st1) := h_new (HClass (char_ranges c sensitive)) st in
      let '(ps, st2) := h_chars sensitive vs' st1 in (p :: ps, st2)
  end.
(** The loop over the values of a series (regex.go:183-191); [None] is the return of
    regex.go:188: the nodes allocated before remain. *)
Fixpoint h_series (cs : list Z) (st : hstate) : option (list nat) * hstate :=
  match cs with
  | [] => (Some [], st)
  | c :: cs' =>
      if valid_rune c
      then let '(p, st1) := h_new (HClass [(c, c)]) st in
           let '(r, st2) := h_series cs' st1 in
           (match r with Some ps => Some (p :: ps) | None => None end, st2)
      else (None, st)
  end.
(** A num-val (regex.go:168-193). *)
Definition h_num (b : string) (k : status) (es : list string) (st : hstate) : nat * hstate :=
  match k with
  | StatRange =>
      match num_node b StatRange es with
      | RClass rs => h_new (HClass rs) st
      | _ => (p_never, st)
      end
  | StatSeries =>
      match h_series (map (fun s => numval_to_rune s b) es) st with
      | (Some ps, st1) => h_new (HConcat ps) st1
      | (None, st1) => (p_never, st1)
      end
  end.

(** The bodies of alt, concat and elem (regex.go:144-210); [call] is rule. *)
Section HBuild.
  Variable call : string -> hstate -> option (nat * hstate).
  (** elem and the repetitions of concat (regex.go:152-210). *)
  Fixpoint h_elem (e : elem) (st : hstate) : option (nat * hstate) :=
    match e with
    | ERule n => call n st
    | EGroup a =>
        match traverse (fun c st => match traverse h_rep c st with Some (ps, st') => Some (h_new (HConcat ps) st') | None => None end) a st with
        | Some (os, st') => Some (h_new (HAlt os) st')
        | None => None
        end
    | EOption a =>
        match traverse (fun c st => match traverse h_rep c st with Some (ps, st') => Some (h_new (HConcat ps) st') | None => None end) a st with
        | Some (os, st') => let '(p, st1) := h_new (HAlt os) st' in Some (h_new (HRepeat p 0 1) st1)
        | None => None
        end
    | EChar s vs => let '(ps, st1) := h_chars s vs st in Some (h_new (HConcat ps) st1)
    | ENum b k es => Some (h_num b k es st)
    | EProse _ => Some (p_empty, mkH (h_heap st) (h_memo st) true (h_steps st))
    end
  with h_rep (r : rep) (st : hstate) : option (nat * hstate) :=
    match r with
    | Rep mn mx e => match h_elem e st with Some (p, st') => Some (h_new (HRepeat p mn mx) st') | None => None end
    end.
  (** concat (regex.go:152-158). *)
  Definition h_cat (c : concatenation) (st : hstate) : option (nat * hstate) :=
    match traverse h_rep c st with Some (ps, st') => Some (h_new (HConcat ps) st') | None => None end.
  (** alt (regex.go:144-150). *)
  Definition h_alt (a : alternation) (st : hstate) : option (nat * hstate) :=
    match traverse h_cat a st with Some (os, st') => Some (h_new (HAlt os) st') | None => None end.
End HBuild.

(** rule (regex.go:130-142); a call is a step. *)
Fixpoint h_rule (fuel : nat) (g : grammar) (name : string) (st : hstate) : option (nat * hstate) :=
  match fuel with
  | O => None
  | S f =>
      let st := mkH (h_heap st) (h_memo st) (h_err st) (S (h_steps st)) in
      match pmemo_get (lower name) (h_memo st) with
      | Some p => Some (p, st)
      | None =>
          match get_rule name g with
          | None => Some (p_empty, st)
          | Some r =>
              match h_alt (h_rule f g) (rule_alt r) st with
              | Some (p, st') => Some (p, mkH (h_heap st') ((lower name, p) :: h_memo st') (h_err st') (h_steps st'))
              | None => None
              end
          end
      end
  end.

(** ** simplify (regex.go:228-331) *)

(** The memo of simplify (regex.go:228), its results as values, with two counters: how often
    the body runs past the memo (regex.go:235-330), and how many nodes and ranges are
    appended to parts, opts, ranges, others and merged in it (regex.go:253, 255, 276, 278,
    288, 291, 296, 298) or copied by normalizeRanges (regex.go:340) for a class. *)
Record sstate : Type := mkS { s_memo : list (nat * re); s_bodies : nat; s_appends : nat }.
(** A read of the memo (regex.go:232). *)
Fixpoint smemo_get (p : nat) (m : list (nat * re)) : option re :=
  match m with [] => None | (q, r) :: m' => if Nat.eqb q p then Some r else smemo_get p m' end.
(** The end of a body (regex.go:329-330). *)
Definition s_done (p : nat) (r : re) (k : nat) (st : sstate) : re * sstate :=
  (r, mkS ((p, r) :: s_memo st) (S (s_bodies st)) (s_appends st + k)).
(** The case of reRepeat (regex.go:308-325). *)
Definition join_repeat (s : re) (mn mx : Z) : re :=
  if is_never s then (if (mn =? 0)%Z then REmpty else RNever)
  else if is_empty s then REmpty
  else if ((mn =? 1)%Z && (mx =? 1)%Z)%bool then s
  else RRepeat s mn mx.
(** What the case of reConcat appends (regex.go:243-257). *)
Definition concat_cost (ns : list re) : nat := length (flat_map flat_part ns).
(** What the case of reAlt appends (regex.go:268-298). *)
Definition alt_cost (ns : list re) : nat :=
  let opts := flat_map flat_opt ns in
  let others := filter (fun o => negb (is_class o)) opts in
  length opts + length (flat_map class_ranges opts) + length others +
  (if existsb is_class opts then 1 else 0) + length others.
(** simplify (regex.go:228-331); fuel bounds the depth of the nodes. *)
Fixpoint h_simplify (fuel : nat) (h : list hnode) (p : nat) (st : sstate) : option (re * sstate) :=
  match fuel with
  | O => None
  | S f =>
      match smemo_get p (s_memo st) with
      | Some r => Some (r, st)
      | None =>
          match nth p h HEmpty with
          | HClass rs => Some (s_done p (RClass (normalize_ranges rs)) (length rs) st)
          | HEmpty => Some (s_done p REmpty 0 st)
          | HNever => Some (s_done p RNever 0 st)
          | HConcat ps =>
              match traverse (h_simplify f h) ps st with
              | Some (ns, st') => Some (s_done p (join_concat ns) (concat_cost ns) st')
              | None => None
              end
          | HAlt os =>
              match traverse (h_simplify f h) os st with
              | Some (ns, st') => Some (s_done p (join_alt ns) (alt_cost ns) st')
              | None => None
              end
          | HRepeat q mn mx =>
              match h_simplify f h q st with
              | Some (r, st') => Some (s_done p (join_repeat r mn mx) 0 st')
              | None => None
              end
          end
      end
  end.

(** ** render (regex.go:380-417) *)

(** The calls of render (regex.go:380), itself included: a call with err set returns at once
    (regex.go:381-383), and the loops of regex.go:400-409 make it for every part. *)
Fixpoint render_calls (max : Z) (n : re) (ctx : Z) (st : rstate) : nat :=
  if r_err st then 1
  else
    let grp := (prec n <? ctx)%Z in
    let st := if grp then write max (bytes "(?:") st else st in
    match n with
    | REmpty | RNever | RClass _ => 1
    | RConcat ps =>
        S ((fix go (l : list re) (st : rstate) : nat :=
              match l with
              | [] => 0
              | p :: l' => render_calls max p 2 st + go l' (render max p 2 st)
              end) ps st)
    | RAlt os =>
        S ((fix go (first : bool) (l : list re) (st : rstate) : nat :=
              match l with
              | [] => 0
              | o :: l' =>
                  let st := if first then st else write max (bytes "|") st in
                  render_calls max o 1 st + go false l' (render max o 1 st)
              end) true os st)
    | RRepeat sub mn mx => S (render_calls max sub 4 st)
    end.

(** ** Regex (regex.go:22-54) *)

(** What a call of Regex costs: steps of the builder, bodies of simplify, elements appended
    in it, calls of render. *)
Record rcost : Type := mkC { c_build : nat; c_bodies : nat; c_appends : nat; c_render : nat }.
(** No node was built (regex.go:28-38). *)
Definition c_none : rcost := mkC 0 0 0 0.
(** Regex (regex.go:22-54), with its cost past the search for cycles (regex.go:28-34). *)
Definition h_regex (fuel : nat) (g : grammar) (order : list string) (max_len : Z) (rulename : string) : regex_result * rcost :=
  match rule_contains_cycle g order rulename with
  | RccNotFound => (Regex_not_found, c_none)
  | RccStuck => (Regex_fuel, c_none)
  | RccBool true => (Regex_cyclic, c_none)
  | RccBool false =>
      match get_rule rulename g with
      | None => (Regex_not_found, c_none)
      | Some r =>
          match h_alt (h_rule fuel g) (rule_alt r) h_init with
          | None => (Regex_fuel, c_none)
          | Some (p, st) =>
              if h_err st then (Regex_prose, mkC (h_steps st) 0 0 0)
              else
                match h_simplify (length (h_heap st)) (h_heap st) p (mkS [] 0 0) with
                | None => (Regex_fuel, mkC (h_steps st) 0 0 0)
                | Some (n, ss) =>
                    let rs := render max_len n 1 (mkR 0 false []) in
                    (if r_err rs then Regex_too_large else Regex_text (r_out rs),
                     mkC (h_steps st) (s_bodies ss) (s_appends ss) (render_calls max_len n 1 (mkR 0 false [])))
                end
          end
      end
  end.
