(** Grammar.Generate (generate.go). *)
From Coq Require Import ZArith String Bool List.
From Verif Require Import Syntax Spec Utf8 Num.
Import ListNotations.
Local Open Scope Z_scope.

(** *** The check before generating (generate.go:162-247) *)
(** The error of a check: [Some n] is ErrCyclicRule for [n], [None] any other
    error (a joined error or ErrHandlingProseVal). *)
Inductive cres : Type :=
| C_ok
| C_err (cyclic : option string)
| C_panic                       (* nil dereference: rule not found *)
| C_fuel.

(** The loop over errs of checkCanGenerateSafelyAlt (generate.go:183-198).  All
    concatenations are checked first, so the first panic wins; errors.Join of
    no error is nil. *)
Fixpoint join_errs (l : list cres) (some_ok : bool) : cres :=
  match l with
  | [] => if some_ok then C_ok else C_err None
  | C_panic :: _ => C_panic
  | C_fuel :: _ => C_fuel
  | C_ok :: l' => join_errs l' true
  | C_err _ :: l' => join_errs l' some_ok
  end.
(** checkCanGenerateSafelyAlt (generate.go:183-198) given the results of its concatenations. *)
Definition join_alt (l : list cres) : cres := match l with [] => C_ok | _ => join_errs l false end.

(** The loop of checkCanGenerateSafelyConcat (generate.go:200-247). *)
Fixpoint seq_errs (l : list cres) : cres :=
  match l with [] => C_ok | C_ok :: l' => seq_errs l' | x :: _ => x end.

Section Check.
  Variable g : grammar.
  (** The call of checkCanGenerateSafelyAlt for the definition of a rule. *)
  Variable call : list string -> alternation -> cres.

  (** One repetition (generate.go:204-244).  [known] is knownRules (a set, only
      searched); duplicateMap makes the extended set local to the call. *)
  Fixpoint check_elem (known : list string) (e : elem) : cres :=
    match e with
    | ERule n =>
        if existsb (equal_fold n) known then C_err (Some n)
        else match get_rule n g with
             | None => C_panic
             | Some r =>
                 match call (n :: known) (rule_alt r) with
                 | C_err (Some m) => C_err (Some m)
                 | C_err None => C_err (Some n)
                 | x => x
                 end
             end
    | EGroup a => join_alt (map (fun c => seq_errs (map (fun r => check_rep known r) c)) a)
    | EProse _ => C_err None
    | _ => C_ok
    end
  with check_rep (known : list string) (r : rep) : cres :=
    match r with Rep mn _ e => if mn =? 0 then C_ok else check_elem known e end.

  (** checkCanGenerateSafelyConcat (generate.go:200-247). *)
  Definition check_cat (known : list string) (c : concatenation) : cres := seq_errs (map (check_rep known) c).
  (** checkCanGenerateSafelyAlt (generate.go:183-198); its recursive calls on rules are a
      parameter. *)
  Definition check_alt_with (known : list string) (a : alternation) : cres := join_alt (map (check_cat known) a).
End Check.

(** checkCanGenerateSafelyAlt (generate.go:183-198); fuel bounds the rules on the
    path. *)
Fixpoint check_alt (fuel : nat) (g : grammar) (known : list string) (a : alternation) : cres :=
  match fuel with
  | O => C_fuel
  | S f => check_alt_with g (check_alt f g) known a
  end.

(** The result of Generate. *)
Inductive gen_result : Type :=
| Gen_ok (out : list Z)
| Gen_not_found
| Gen_cyclic (n : string)
| Gen_panic
| Gen_fuel.

(** checkCanGenerateSafely (generate.go:162-181). *)
Definition check_can_generate (fuel : nat) (g : grammar) (rulename : string) : gen_result + rule :=
  match get_rule rulename g with
  | None => inl Gen_not_found
  | Some r =>
      match check_alt fuel g [rulename] (rule_alt r) with
      | C_ok => inr r
      | C_err (Some n) => inl (Gen_cyclic n)
      | C_err None => inl (Gen_cyclic rulename)
      | C_panic => inl Gen_panic
      | C_fuel => inl Gen_fuel
      end
  end.

(** *** generateAlt (generate.go:45-108) *)
(** runeMax (grammar.go:376-381). *)
Definition rune_max (r : Z) : Z := if (97 <=? r) && (r <=? 122) then r - 97 + 65 else r.

(** The output and the number of values drawn from the source so far. *)
Record gstate : Type := mkG { g_out : list Z; g_tick : nat }.
(** The result of generateAlt (generate.go:45): the output so far, a panic, or out of fuel. *)
Inductive gres : Type := G_ok (s : gstate) | G_panic | G_fuel.

Section Gen.
  Variable g : grammar.
  (** The source: the k-th value of rand.Int63, non-negative. *)
  Variable rnd : nat -> Z.
  Variable rep_max_opt threshold : Z.     (* genOpts (generate.go:129-132) *)

  (** appendPtr (generate.go:110-114). *)
  Definition append_rune (s : gstate) (r : Z) : gstate := mkG (g_out s ++ string_of_rune r) (g_tick s).

  (** A num-val (generate.go:70-94).  Elems[1] of a shorter list panics. *)
  Definition gen_num (b : string) (st : status) (es : list string) (s : gstate) : gres :=
    match st with
    | StatRange =>
        match es with
        | lo :: hi :: _ =>
            let mn := numval_to_rune lo b in
            let mx := numval_to_rune hi b in
            let mx := if 0x10FFFF <? mx then 0x10FFFF else mx in
            if ((mn <=? 0x10FFFF) && (mn <=? mx))%bool then
              let x := rnd (g_tick s) in
              G_ok (append_rune (mkG (g_out s) (S (g_tick s))) (mn + Z.rem (x mod 16) (mx - mn + 1)))
            else G_ok s
        | _ => G_panic
        end
    | StatSeries =>
        G_ok (fold_left (fun s v => let r := numval_to_rune v b in
                                    if valid_rune r then append_rune s r else s) es s)
    end.

  (** A char-val (generate.go:96-102): a value is drawn for each character when
      not case sensitive. *)
  Definition gen_char (sensitive : bool) (vs : list Z) (s : gstate) : gstate :=
    fold_left (fun s v =>
      if sensitive then append_rune s v
      else let x := rnd (g_tick s) in
           append_rune (mkG (g_out s) (S (g_tick s))) (if Z.rem x 2 =? 0 then rune_max v else v)) vs s.

  Variable rec : alternation -> gstate -> gres.   (* generateAlt one level deeper *)

  (** The switch on the element (generate.go:57-103). *)
  Definition gen_elem (e : elem) (s : gstate) : gres :=
    match e with
    | ERule n => match get_rule n g with None => G_panic | Some r => rec (rule_alt r) s end
    | EOption a =>
        let x := rnd (g_tick s) in
        let s := mkG (g_out s) (S (g_tick s)) in
        if Z.rem x 2 =? 0 then rec a s else G_ok s
    | EGroup a => rec a s
    | ENum b st es => gen_num b st es s
    | EChar sens vs => G_ok (gen_char sens vs s)
    | EProse _ => G_ok s
    end.

  (** generateKeepGoing (generate.go:116-122). *)
  Definition keep_going (i torep minrep lenout thr : Z) : bool :=
    if ((i =? 0) && (minrep =? 0) && (thr <=? lenout))%bool then false else i <? torep.

  (** The loop of one repetition (generate.go:56-106); [n] is at least the
      iterations left. *)
  Fixpoint gen_loop (n : nat) (i torep mn : Z) (e : elem) (s : gstate) : gres :=
    match n with
    | O => G_ok s
    | S n' =>
        if keep_going i torep mn (Z.of_nat (length (g_out s))) threshold then
          match gen_elem e s with
          | G_ok s' => gen_loop n' (i + 1) torep mn e s'
          | x => x
          end
        else G_ok s
    end.

  (** generate.go:50-107. *)
  Fixpoint gen_cat (c : concatenation) (s : gstate) : gres :=
    match c with
    | [] => G_ok s
    | Rep mn mx e :: c' =>
        let repmax := if mx =? inf then rep_max_opt else mx in
        let k := repmax - mn + 1 in
        if k =? 0 then G_panic                        (* division by zero *)
        else
          let torep := mn + Z.rem (rnd (g_tick s)) k in
          match gen_loop (Z.to_nat torep) 0 torep mn e (mkG (g_out s) (S (g_tick s))) with
          | G_ok s' => gen_cat c' s'
          | x => x
          end
    end.

  (** generateAlt (generate.go:45-108); its recursive calls on rules are a parameter. *)
  Definition gen_alt_with (a : alternation) (s : gstate) : gres :=
    match a with
    | [] => G_panic                                   (* division by zero *)
    | _ =>
        let x := rnd (g_tick s) in
        match nth_error a (Z.to_nat (Z.rem x (Z.of_nat (length a)))) with
        | Some c => gen_cat c (mkG (g_out s) (S (g_tick s)))
        | None => G_panic
        end
    end.
End Gen.

(** generateAlt (generate.go:45-108); fuel bounds the depth of rules. *)
Fixpoint gen_alt (fuel : nat) (g : grammar) (rnd : nat -> Z) (rm thr : Z) (a : alternation) (s : gstate) : gres :=
  match fuel with
  | O => G_fuel
  | S f => gen_alt_with g rnd rm thr (gen_alt f g rnd rm thr) a s
  end.

(** Grammar.Generate (generate.go:21-43); the defaults of the options are 16 and
    256.  Go's [int] does not wrap around in the counts of this model. *)
Definition generate (fuel : nat) (rnd : nat -> Z) (rep_max_opt threshold : Z) (g : grammar) (rulename : string) : gen_result :=
  match check_can_generate fuel g rulename with
  | inl e => e
  | inr r =>
      match gen_alt fuel g rnd rep_max_opt threshold (rule_alt r) (mkG [] 0) with
      | G_ok s => Gen_ok (g_out s)
      | G_panic => Gen_panic
      | G_fuel => Gen_fuel
      end
  end.
