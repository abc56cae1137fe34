(** Queries on a parse forest: Nodes, Ambiguous, NumTrees and Tree
    (sppf.go:707-858). *)
From Coq Require Import ZArith String Bool List.
From Verif Require Import Syntax Spec Slots Gll Sppf.
Import ListNotations.
Local Open Scope string_scope.
Local Open Scope Z_scope.

(** A read of seen or onStack (sppf.go:715, 737, 771, 845, 851). *)
Definition nkey_mem (k : nkey) (l : list nkey) : bool :=
  if in_dec nkey_eq_dec k l then true else false.

Section Queries.
  Variable sg : slot_grammar.
  Variable nodes : ntable.

  (** n.packs (sppf.go:248). *)
  Definition packs (n : nkey) : list (list nkey) :=
    match packs_of n nodes with Some ps => ps | None => [] end.

  (** The rule a node stands for (sppf.go:817-819, 844). *)
  Definition rule_of (n : nkey) : option string :=
    match n with
    | NSym X _ _ =>
        match nth_error (sg_nts sg) X with
        | Some nt => if nt_isrule nt then Some (nt_rulename nt) else None
        | None => None                  (* index out of range in Go *)
        end
    | _ => None
    end.

  (** The leaf of a terminal (sppf.go:828-830, 840-843). *)
  Definition term_leaf (s e : nat) : list ptree := if Nat.ltb s e then [PT "" s e []] else [].

  (** collect (sppf.go:826-836) and collectChild (sppf.go:838-858); emitSymbol is inlined.  The
      children appended to [into] are returned instead.  [on] is onStack: an
      entry is added before each call and deleted after it, so passing the list
      down is the same.  [None] is out of fuel. *)
  Fixpoint collect (fuel : nat) (n : nkey) (on : list nkey) : option (list ptree) :=
    match fuel with
    | O => None
    | S f =>
        match packs n with
        | [] => Some (match n with NTerm s e => term_leaf s e | _ => [] end)
        | pk :: _ =>
            (fix go (cs : list nkey) : option (list ptree) :=
               match cs with
               | [] => Some []
               | c :: cs' =>
                   let here :=
                     match c with
                     | NTerm s e => Some (term_leaf s e)
                     | _ =>
                         match rule_of c with
                         | Some r =>
                             if nkey_mem c on then Some [PT r (n_start c) (n_end c) []]
                             else match collect f c (c :: on) with
                                  | Some ts => Some [PT r (n_start c) (n_end c) ts]
                                  | None => None
                                  end
                         | None => if nkey_mem c on then Some [] else collect f c (c :: on)
                         end
                     end in
                   match here, go cs' with
                   | Some ts, Some ts' => Some (ts ++ ts')%list
                   | _, _ => None
                   end
               end) pk
        end
    end.

  (** emitSymbol (sppf.go:815-824). *)
  Definition emit_symbol (fuel : nat) (n : nkey) (on : list nkey) : option ptree :=
    match collect fuel n (n :: on) with
    | Some ts => Some (PT (match rule_of n with Some r => r | None => "" end) (n_start n) (n_end n) ts)
    | None => None
    end.

  (** The walk of Ambiguous (sppf.go:736-752): the answer and the nodes seen. *)
  Fixpoint amb_walk (fuel : nat) (n : nkey) (seen : list nkey) : option (bool * list nkey) :=
    match fuel with
    | O => None
    | S f =>
        if nkey_mem n seen then Some (false, seen)
        else
          let seen := n :: seen in
          if Nat.ltb 1 (length (packs n)) then Some (true, seen)
          else
            (fix go (cs : list nkey) (seen : list nkey) : option (bool * list nkey) :=
               match cs with
               | [] => Some (false, seen)
               | c :: cs' =>
                   match amb_walk f c seen with
                   | Some (true, s) => Some (true, s)
                   | Some (false, s) => go cs' s
                   | None => None
                   end
               end) (concat (packs n)) seen
    end.

  (** The walk of Nodes (sppf.go:714-725). *)
  Fixpoint node_walk (fuel : nat) (n : nkey) (seen : list nkey) : option (list nkey) :=
    match fuel with
    | O => None
    | S f =>
        if nkey_mem n seen then Some seen
        else
          (fix go (cs : list nkey) (seen : list nkey) : option (list nkey) :=
             match cs with
             | [] => Some seen
             | c :: cs' => match node_walk f c seen with Some s => go cs' s | None => None end
             end) (concat (packs n)) (n :: seen)
    end.

  (** count (sppf.go:767-790).  onStack[n] is true exactly during the call for
      [n], so it is passed down as a list; memo and the infinite flag are
      threaded. *)
  Definition cstate : Type := list (nkey * Z) * bool.
  (** A read of memo (sppf.go:768). *)
  Definition memo_get (n : nkey) (m : list (nkey * Z)) : option Z :=
    match find (fun x => if nkey_eq_dec n (fst x) then true else false) m with
    | Some (_, v) => Some v
    | None => None
    end.

  (** The closure count of NumTrees (sppf.go:767-790). *)
  Fixpoint count (fuel : nat) (n : nkey) (on : list nkey) (st : cstate) : option (Z * cstate) :=
    match fuel with
    | O => None
    | S f =>
        match memo_get n (fst st) with
        | Some v => Some (v, st)
        | None =>
            if nkey_mem n on then Some (1, (fst st, true))
            else
              let prod := fix prod (cs : list nkey) (acc : Z) (st : cstate) : option (Z * cstate) :=
                match cs with
                | [] => Some (acc, st)
                | c :: cs' =>
                    match count f c (n :: on) st with
                    | Some (v, st') => prod cs' (acc * v) st'
                    | None => None
                    end
                end in
              let sum := fix sum (ps : list (list nkey)) (total : Z) (st : cstate) : option (Z * cstate) :=
                match ps with
                | [] => Some (total, st)
                | pk :: ps' =>
                    match prod pk 1 st with
                    | Some (v, st') => sum ps' (total + v) st'
                    | None => None
                    end
                end in
              match sum (packs n) (match packs n with [] => 1 | _ => 0 end) st with
              | Some (total, st') => Some (total, ((n, total) :: fst st', snd st'))
              | None => None
              end
        end
    end.
End Queries.

(** Forest.Tree (sppf.go:808-813); the outer [None] is out of fuel, the inner one nil. *)
Definition f_tree (fuel : nat) (f : forest) : option (option ptree) :=
  match f_root f with
  | None => Some None
  | Some r => match emit_symbol (f_sg f) (f_nodes f) fuel r [] with Some t => Some (Some t) | None => None end
  end.

(** Forest.Ambiguous (sppf.go:730-754). *)
Definition f_ambiguous (fuel : nat) (f : forest) : option bool :=
  match f_root f with
  | None => Some false
  | Some r => match amb_walk (f_nodes f) fuel r [] with Some (b, _) => Some b | None => None end
  end.

(** Forest.Nodes (sppf.go:708-727). *)
Definition f_count_nodes (fuel : nat) (f : forest) : option nat :=
  match f_root f with
  | None => Some 0%nat
  | Some r => match node_walk (f_nodes f) fuel r [] with Some l => Some (length l) | None => None end
  end.

(** Forest.NumTrees (sppf.go:759-796). *)
Definition f_num_trees (fuel : nat) (f : forest) : option Z :=
  match f_root f with
  | None => Some 0
  | Some r =>
      match count (f_nodes f) fuel r [] ([], false) with
      | Some (v, (_, inf)) => Some (if inf then -1 else v)
      | None => None
      end
  end.
