(** The slotted grammar and its construction: sppf.go:25-231. *)
From Coq Require Import ZArith String Ascii Bool List.
From Verif Require Import Syntax Utf8 Num Printer.
Import ListNotations.
Local Open Scope Z_scope.
Local Open Scope string_scope.

(** ssym (sppf.go:37-41). *)
Inductive ssym : Type :=
| SNonterm (nt : nat)
| STerm (t : elem)
| SEps.

(** sgNT (sppf.go:43-57); the diagnostic [label] is dropped. *)
Record sgNT : Type := mkNT {
  nt_isrule : bool;
  nt_rulename : string;
  nt_alts : list (list ssym);
  nt_isrep : bool;
  nt_repmin : Z;
  nt_repmax : Z }.

(** The nonterminal reserve adds (sppf.go:70). *)
Definition emptyNT : sgNT := mkNT false "" [] false 0 0.

(** slotGrammar (sppf.go:59-63) without the dedup index. *)
Record slot_grammar : Type := mkSG { sg_nts : list sgNT; sg_start : nat }.

(** State of the lowering: the nonterminals, the dedup index and lowerer.over
    (sppf.go:59-63, 94-100).  lowerer.err is never set. *)
Record lstate : Type := mkLS {
  ls_nts : list sgNT;
  ls_index : list (string * nat);
  ls_over : bool }.

(** A read of index (sppf.go:66). *)
Fixpoint assoc (k : string) (l : list (string * nat)) : option nat :=
  match l with
  | [] => None
  | (k', v) :: l' => if String.eqb k k' then Some v else assoc k l'
  end.

(** (auxiliary) replacing one entry of a list. *)
Fixpoint set_nth {A} (n : nat) (x : A) (l : list A) : list A :=
  match l, n with
  | [], _ => []
  | _ :: l', O => x :: l'
  | y :: l', S n' => y :: set_nth n' x l'
  end.

(** A write to c.sg.nts[id] (sppf.go:124-126, 170-177, 204, 219). *)
Definition set_nt (id : nat) (x : sgNT) (st : lstate) : lstate :=
  mkLS (set_nth id x (ls_nts st)) (ls_index st) (ls_over st).

(** reserve (sppf.go:65-73). *)
Definition reserve (key : string) (st : lstate) : nat * bool * lstate :=
  match assoc key (ls_index st) with
  | Some id => (id, true, st)
  | None =>
      let id := length (ls_nts st) in
      (id, false, mkLS ((ls_nts st ++ [emptyNT])%list) ((key, id) :: ls_index st) (ls_over st))
  end.

(** budgetExceeded (sppf.go:102-107). *)
Definition budget_exceeded (max : Z) (st : lstate) : bool * lstate :=
  let over := (((0 <? max)%Z && (max <=? Z.of_nat (length (ls_nts st)))%Z) || ls_over st)%bool in
  (over, mkLS (ls_nts st) (ls_index st) over).

Section MapM.
  Context {A B S : Type}.
  Variable f : A -> S -> option (B * S).
  (** The loops of alts (sppf.go:132-141), threading the state. *)
  Fixpoint mapM (l : list A) (s : S) : option (list B * S) :=
    match l with
    | [] => Some ([], s)
    | x :: l' =>
        match f x s with
        | None => None
        | Some (y, s1) =>
            match mapM l' s1 with
            | None => None
            | Some (ys, s2) => Some (y :: ys, s2)
            end
        end
    end.
End MapM.

(** A sequence with no symbol becomes [eps] (sppf.go:137-139). *)
Definition nonempty_seq (l : list ssym) : list ssym :=
  match l with [] => [SEps] | _ => l end.

Section Lower.
  Variable max : Z.                     (* lowerer.max *)
  (* lowerer.rule, passed as a parameter so that the recursion through rule
     names can be bounded by fuel while that through the syntax is structural *)
  Variable lrule : string -> lstate -> option (nat * lstate).

  (** lowerer.elem (sppf.go:181-193), group (sppf.go:195-206), option (sppf.go:208-221) and rep (sppf.go:145-179). *)
  Fixpoint lower_elem (e : elem) (st : lstate) : option (ssym * lstate) :=
    match e with
    | ERule n =>
        match lrule n st with
        | None => None
        | Some (id, st') => Some (SNonterm id, st')
        end
    | EGroup a =>
        let '(id, existed, st1) := reserve ("grp:" ++ elem_string e) st in
        if existed then Some (SNonterm id, st1)
        else
          let '(over, st2) := budget_exceeded max st1 in
          if over then Some (SNonterm id, st2)
          else
            match mapM (fun c st => match mapM lower_rep c st with
                                    | None => None
                                    | Some (seq, st') => Some (nonempty_seq seq, st')
                                    end) a st2 with
            | None => None
            | Some (alts, st3) => Some (SNonterm id, set_nt id (mkNT false "" alts false 0 0) st3)
            end
    | EOption a =>
        let '(id, existed, st1) := reserve ("opt:" ++ elem_string e) st in
        if existed then Some (SNonterm id, st1)
        else
          let '(over, st2) := budget_exceeded max st1 in
          if over then Some (SNonterm id, st2)
          else
            match mapM (fun c st => match mapM lower_rep c st with
                                    | None => None
                                    | Some (seq, st') => Some (nonempty_seq seq, st')
                                    end) a st2 with
            | None => None
            | Some (alts, st3) =>
                Some (SNonterm id, set_nt id (mkNT false "" ([SEps] :: alts) false 0 0) st3)
            end
    | EChar _ _ | ENum _ _ _ | EProse _ => Some (STerm e, st)
    end
  with lower_rep (r : rep) (st : lstate) : option (ssym * lstate) :=
    match r with
    | Rep mn mx e =>
        if ((mn =? 1)%Z && (mx =? 1)%Z)%bool then lower_elem e st
        else
          let '(id, existed, st1) := reserve ("rep:" ++ rep_string r) st in
          if existed then Some (SNonterm id, st1)
          else
            let '(over, st2) := budget_exceeded max st1 in
            if over then Some (SNonterm id, st2)
            else if (negb (mx =? inf)%Z && (mx <? mn)%Z)%bool then Some (SNonterm id, st2)
            else
              match lower_elem e st2 with
              | None => None
              | Some (esym, st3) =>
                  Some (SNonterm id,
                        set_nt id (mkNT false "" [[SEps]; [esym; SNonterm id]] true mn mx) st3)
              end
    end.

  (** One turn of the outer loop of lowerer.alts (sppf.go:132-141). *)
  Definition lower_cat (c : concatenation) (st : lstate) : option (list ssym * lstate) :=
    match mapM lower_rep c st with
    | None => None
    | Some (seq, st') => Some (nonempty_seq seq, st')
    end.
  (** lowerer.alts (sppf.go:130-143). *)
  Definition lower_alts (a : alternation) (st : lstate) : option (list (list ssym) * lstate) :=
    mapM lower_cat a st.
End Lower.

(** lowerer.rule (sppf.go:109-128).  isRule and ruleName are set before the
    alternates are lowered; nothing reads them in between, so they are set
    together with the alternates here. *)
Fixpoint lower_rule (g : grammar) (max : Z) (fuel : nat) (name : string) (st : lstate)
  : option (nat * lstate) :=
  match fuel with
  | O => None
  | S f =>
      let '(id, existed, st1) := reserve ("rule:" ++ lower name) st in
      if existed then Some (id, st1)
      else
        let '(over, st2) := budget_exceeded max st1 in
        if over then Some (id, st2)
        else
          match get_rule name g with
          | None => Some (id, st2)
          | Some r =>
              match lower_alts max (lower_rule g max f) (rule_alt r) st2 with
              | None => None
              | Some (alts, st3) => Some (id, set_nt id (mkNT true (rule_name r) alts false 0 0) st3)
              end
          end
  end.

(** Results of compileSlots (sppf.go:78-92). *)
Inductive cs_result :=
| CS_ok (sg : slot_grammar)
| CS_rule_not_found
| CS_too_large
| CS_fuel.

(** The empty slot grammar (sppf.go:82-83). *)
Definition ls_init : lstate := mkLS [] [] false.

(** compileSlots (sppf.go:78-92). *)
Definition compile_slots (g : grammar) (root : string) (max : Z) (fuel : nat) : cs_result :=
  match get_rule root g with
  | None => CS_rule_not_found
  | Some _ =>
      match lower_rule g max fuel root ls_init with
      | None => CS_fuel
      | Some (id, st) => if ls_over st then CS_too_large else CS_ok (mkSG (ls_nts st) id)
      end
  end.

(** defaultMaxSlots (sppf.go:76). *)
Definition default_max_slots : Z := 65536.

Example compile_ex :
  match compile_slots [mkRule "a" [[Rep 2 3 (EChar false [120]); Rep 1 1 (ERule "A")]; [Rep 1 1 (EOption [[Rep 1 1 (ERule "DIGIT")]])]]]
          "a" default_max_slots 30 with
  | CS_ok sg => length (sg_nts sg) = 4%nat
  | _ => False
  end.
Proof. vm_compute. reflexivity. Qed.
