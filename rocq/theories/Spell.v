(** The entry points that decide, parse and generate, on a rulename that is any string: IsValid
    (grammar.go:19-40), Generate (generate.go:21-43), NewASTGenerator (ast.go:78-168),
    ParseForest (sppf.go:668-691) and ParseBSR (bsr.go:557-589). *)
From Coq Require Import ZArith Arith String Ascii Bool List Lia.
From Verif Require Import Syntax Spec LeftRec Recog Generate Ast Slots Gll Bsr Sppf Names.
Import ListNotations.
Local Open Scope string_scope.
Local Open Scope list_scope.
Local Open Scope nat_scope.

(** IsValid (grammar.go:19-40) with its first call of reachElem (recognize.go:123-153) and
    computeElem (recognize.go:210-219).  The names met after the first are those of the
    grammar.  [lw] is unicode.ToLower. *)
Definition is_valid_u (lw : Z -> Z) (ordn : nat -> list string -> list string) (order : list string) (ord : nat -> list nat -> list nat)
  (fuel : nat) (g : grammar) (rulename : string) (input : list Z) : valid_result :=
  match get_rule_u rulename g with
  | None => VNotFound
  | Some r =>
      match left_recursive_sccs g ordn order with
      | None => VFuel
      | Some lr =>
          let call := reach_elem g input lr ord fuel in
          match (match lr (to_lower lw rulename) with
                 | Some scc => reach_left_rec g input ord call (to_lower lw rulename) scc 0 r_init
                 | None =>
                     let k := rkey rulename 0 in
                     rbind (reach_alt input ord call (rule_alt r) 0 (set_prog k true r_init))
                       (fun out st => ROk out (set_memo k out (set_prog k false st)))
                 end) with
          | ROk ends _ => VBool (mem_nat (length input) ends)
          | RFuel => VFuel
          | RPanic => VPanic
          end
      end
  end.

(** checkCanGenerateSafelyConcat (generate.go:198-247): the names known are the one given by
    the caller, [root], and those of the grammar met since. *)
Section Check.
  Variable g : grammar.
  Variable root : string.
  Variable call : list string -> alternation -> cres.
  (** One element (generate.go:208-244). *)
  Fixpoint check_elem_u (known : list string) (e : elem) : cres :=
    match e with
    | ERule n =>
        if (existsb (equal_fold n) known || equal_fold_u root n)%bool then C_err (Some n)
        else match get_rule n g with
             | None => C_panic
             | Some r =>
                 match call (n :: known) (rule_alt r) with
                 | C_err (Some m) => C_err (Some m)
                 | C_err None => C_err (Some n)
                 | x => x
                 end
             end
    | EGroup a => join_alt (map (fun c => seq_errs (map (fun r => check_rep_u known r) c)) a)
    | EProse _ => C_err None
    | _ => C_ok
    end
  with check_rep_u (known : list string) (r : rep) : cres :=
    match r with Rep mn _ e => if (mn =? 0)%Z then C_ok else check_elem_u known e end.
  (** checkCanGenerateSafelyAlt (generate.go:183-196). *)
  Definition check_alt_with_u (known : list string) (a : alternation) : cres :=
    join_alt (map (fun c => seq_errs (map (check_rep_u known) c)) a).
End Check.
(** checkCanGenerateSafelyAlt (generate.go:183-198); fuel bounds the rules on the path. *)
Fixpoint check_alt_u (fuel : nat) (g : grammar) (root : string) (known : list string) (a : alternation) : cres :=
  match fuel with
  | O => C_fuel
  | S f => check_alt_with_u g root (check_alt_u f g root) known a
  end.
(** checkCanGenerateSafely (generate.go:162-181). *)
Definition check_can_generate_u (fuel : nat) (g : grammar) (rulename : string) : gen_result + rule :=
  match get_rule_u rulename g with
  | None => inl Gen_not_found
  | Some r =>
      match check_alt_u fuel g rulename [] (rule_alt r) with
      | C_ok => inr r
      | C_err (Some n) => inl (Gen_cyclic n)
      | C_err None => inl (Gen_cyclic rulename)
      | C_panic => inl Gen_panic
      | C_fuel => inl Gen_fuel
      end
  end.
(** Generate (generate.go:21-43). *)
Definition generate_u (fuel : nat) (rnd : nat -> Z) (rep_max_opt threshold : Z) (g : grammar) (rulename : string) : gen_result :=
  match check_can_generate_u fuel g rulename with
  | inl e => e
  | inr r =>
      match gen_alt fuel g rnd rep_max_opt threshold (rule_alt r) (mkG [] 0) with
      | G_ok s => Gen_ok (g_out s)
      | G_panic => Gen_panic
      | G_fuel => Gen_fuel
      end
  end.

(** NewASTGenerator (ast.go:78-168): everything after GetRule works on the rule found, the name
    appears in the errors only. *)
Definition new_ast_u (fuel : nat) (ord : nat -> list rule -> list rule) (g : grammar) (rulename : string) : new_result :=
  match get_rule_u rulename g with
  | None => New_not_found
  | Some start =>
      match cost_loop fuel g ord 0 (initial_costs g) with
      | None => New_fuel
      | Some m =>
          if too_costly m (rule_name start) then New_unproductive rulename
          else match visit_alt fuel g m [rule_name start] (rule_alt start) with
               | V_ok _ => New_ok start m
               | V_undefined n => New_undefined n
               | V_unproductive n => New_unproductive n
               | V_fuel => New_fuel
               end
      end
  end.

(** compileSlots (sppf.go:78-92) with its first call of lowerer.rule (sppf.go:108-129).  canon
    (sppf.go:223-231) is [lower], on the bytes of any string.  The names met after the first are
    those of the grammar. *)
Definition compile_slots_u (g : grammar) (root : string) (max : Z) (fuel : nat) : cs_result :=
  match get_rule_u root g, fuel with
  | None, _ => CS_rule_not_found
  | Some _, O => CS_fuel
  | Some r, S f =>
      let '(id, existed, st1) := reserve ("rule:" ++ lower root) ls_init in
      let '(over, st2) := budget_exceeded max st1 in
      if over then CS_too_large
      else
        match lower_alts max (lower_rule g max f) (rule_alt r) st2 with
        | None => CS_fuel
        | Some (alts, st3) =>
            let st4 := set_nt id (mkNT true (rule_name r) alts false 0 0) st3 in
            if ls_over st4 then CS_too_large else CS_ok (mkSG (ls_nts st4) id)
        end
  end.
(** ParseForest (sppf.go:668-691) after compileSlots: as [parse_forest]. *)
Definition parse_forest_u (ord : nat -> list nkey -> list nkey) (fuel : nat) (input : list Z) (g : grammar)
  (root : string) (max_slots max_nodes : Z) : forest_result :=
  match compile_slots_u g root max_slots fuel with
  | CS_rule_not_found => PF_rule_not_found
  | CS_too_large => PF_grammar_too_large
  | CS_fuel => PF_fuel
  | CS_ok sg =>
      match p_parse sg input max_nodes ord fuel with
      | None => PF_fuel
      | Some st =>
          if p_aborted st then PF_forest_too_large
          else
            let k := NSym (sg_start sg) 0 (length input) in
            PF_ok (mkForest sg input
                     (match packs_of k (p_nodes st) with Some _ => Some k | None => None end)
                     (p_nodes st) (length (p_nodes st)) (p_maxpos st) (p_expected st))
      end
  end.
(** ParseBSR (bsr.go:557-589) after compileSlots: as [parse_bsr]. *)
Definition parse_bsr_u (ord : nat -> list nat -> list nat) (fuel : nat) (input : list Z) (g : grammar)
  (root : string) (max_slots max_nodes : Z) : bsr_result :=
  match compile_slots_u g root max_slots fuel with
  | CS_rule_not_found => BSR_rule_not_found
  | CS_too_large => BSR_grammar_too_large
  | CS_fuel => BSR_fuel
  | CS_ok sg =>
      match b_parse sg input max_nodes (fun t _ l => ord t l) fuel with
      | None => BSR_fuel
      | Some st => if b_aborted st then BSR_forest_too_large else BSR_ok sg (b_set st)
      end
  end.
