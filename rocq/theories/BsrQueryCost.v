(** Counting the calls of the functions that walk a set of binary subtree elements:
    NumTrees, Ambiguous and Tree of BSRForest (bsr.go:315-553) and of Result in the file
    emitted by GenerateGoParser (codegen.go:657-867).  The functions follow those of BsrTree.v
    and count instead of computing.  A call of countSym or symAmb looks at each production of
    its nonterminal; besides that and the calls it makes, a call does a bounded amount of work
    (the integers of NumTrees apart, which are of any size). *)
From Coq Require Import ZArith Arith String Bool List.
From Verif Require Import Syntax Spec Slots Gll Bsr Codegen BsrTree.
Import ListNotations.
Local Open Scope list_scope.
Local Open Scope nat_scope.

Section Calls.
  Variable K : Type.
  Variable K_dec : forall a b : K, {a = b} + {a <> b}.
  Variable prod_dot : K -> option (list qsym * nat).
  Variable before : K -> K.
  Variable complete : nat -> option (list K).
  Variable pivots : K -> nat -> nat -> list nat.
  Notation parts' := (parts prod_dot before).
  Notation elems' := (elems complete pivots).
  Notation count' := (q_count K_dec prod_dot before complete pivots).
  Notation amb' := (q_amb K_dec prod_dot before complete pivots).
  Notation mem := (qid_mem K_dec).
  Notation state := (qmemo K * bool)%type.

  (** The calls of countInter, countSym and countElem (bsr.go:335-389; codegen.go:677-728)
      within a call of one of the first two; out of fuel is 0. *)
  Fixpoint qc_count (fuel : nat) (id : qid K) (on : list (qid K)) (st : state) : nat :=
    match fuel with
    | O => 0
    | S f =>
        1 + match qmemo_get K_dec id (fst st) with
            | Some _ => 0
            | None =>
                if mem id on then 0
                else
                  let calls (p : part K) st := match node_of_part p with None => 0 | Some c => qc_count f c (id :: on) st end in
                  let after (p : part K) st := match node_of_part p with
                    | None => Some st
                    | Some c => match count' f c (id :: on) st with QVal (_, st') => Some st' | _ => None end
                    end in
                  match elems' id with
                  | QVal es =>
                      (fix go (es : list (K * nat)) (st : state) : nat :=
                         match es with
                         | [] => 0
                         | e :: es' =>
                             1 + match parts' (fst e) (left_end id) (snd e) (right_end id) with
                                 | None => 0
                                 | Some (p, q) =>
                                     calls q st + match after q st with
                                                  | None => 0
                                                  | Some st1 => calls p st1 + match after p st1 with None => 0 | Some st2 => go es' st2 end
                                                  end
                                 end
                         end) es st
                  | _ => 0
                  end
            end
    end.

  (** The calls of interAmb, symAmb and elemAmb (bsr.go:415-470; codegen.go:753-805). *)
  Fixpoint qc_amb (fuel : nat) (id : qid K) (vis : list (qid K)) : nat :=
    match fuel with
    | O => 0
    | S f =>
        1 + (if mem id vis then 0
             else
               let calls (p : part K) vis := match node_of_part p with None => 0 | Some c => qc_amb f c vis end in
               let after (p : part K) vis := match node_of_part p with
                 | None => Some vis
                 | Some c => match amb' f c vis with QVal (false, vis') => Some vis' | _ => None end
                 end in
               match elems' id with
               | QVal es =>
                   if Nat.ltb 1 (length es) then 0
                   else (fix go (es : list (K * nat)) (vis : list (qid K)) : nat :=
                           match es with
                           | [] => 0
                           | e :: es' =>
                               1 + match parts' (fst e) (left_end id) (snd e) (right_end id) with
                                   | None => 0
                                   | Some (p, q) =>
                                       calls q vis + match after q vis with
                                                     | None => 0
                                                     | Some v1 => calls p v1 + match after p v1 with None => 0 | Some v2 => go es' v2 end
                                                     end
                                   end
                           end) es (id :: vis)
               | _ => 0
               end)
    end.

  (** The calls of collectElem and collectChild (bsr.go:504-553; codegen.go:825-867) within a
      call of the first. *)
  Fixpoint qc_collect (fuel : nat) (sl : K) (l k r : nat) (vis : list (qid K)) : nat :=
    match fuel with
    | O => 0
    | S f =>
        let calls (p : part K) : nat :=
          match p with
          | PNone => 0
          | PSym (QNT x) a b =>
              1 + (if mem (QS x a b) vis then 0
                   else match complete x with
                        | None => 0
                        | Some sls =>
                            match first_elem pivots sls a b with
                            | None => 0
                            | Some (sl', k') => qc_collect f sl' a k' b (QS x a b :: vis)
                            end
                        end)
          | PSym _ _ _ => 1
          | PInter s a b => match pivots s a b with [] => 0 | k' :: _ => qc_collect f s a k' b vis end
          end in
        1 + match parts' sl l k r with None => 0 | Some (p, q) => calls p + calls q end
    end.
End Calls.
Arguments qc_count {K}. Arguments qc_amb {K}. Arguments qc_collect {K}.

(** BSRForest.NumTrees (bsr.go:315-396). *)
Definition bf_num_trees_steps (sg : slot_grammar) (set : list belem) (n fuel : nat) : nat :=
  match q_valid (bf_complete sg) (bf_pivots set) (sg_start sg) n with
  | QVal true => qc_count slot_eq_dec (bf_prod_dot sg) bf_before (bf_complete sg) (bf_pivots set) fuel (QS (sg_start sg) 0 n) [] ([], false)
  | _ => 0
  end.
(** BSRForest.Ambiguous (bsr.go:399-472). *)
Definition bf_ambiguous_steps (sg : slot_grammar) (set : list belem) (n fuel : nat) : nat :=
  match q_valid (bf_complete sg) (bf_pivots set) (sg_start sg) n with
  | QVal true => qc_amb slot_eq_dec (bf_prod_dot sg) bf_before (bf_complete sg) (bf_pivots set) fuel (QS (sg_start sg) 0 n) []
  | _ => 0
  end.
(** BSRForest.Tree and emitSym (bsr.go:477-500). *)
Definition bf_tree_steps (sg : slot_grammar) (set : list belem) (n fuel : nat) : nat :=
  match q_valid (bf_complete sg) (bf_pivots set) (sg_start sg) n with
  | QVal true =>
      match bf_complete sg (sg_start sg) with
      | Some sls => match first_elem (bf_pivots set) sls 0 n with
                    | Some (sl, k) => qc_collect slot_eq_dec (bf_prod_dot sg) bf_before (bf_complete sg) (bf_pivots set) fuel sl 0 k n []
                    | None => 0
                    end
      | None => 0
      end
  | _ => 0
  end.

(** Result.NumTrees of the emitted file (codegen.go:657-734). *)
Definition gr_num_trees_steps (pg : program) (set : list gelem) (n fuel : nat) : nat :=
  match q_valid (gr_complete pg) (gr_pivots set) (pg_start pg) n with
  | QVal true => qc_count Nat.eq_dec (gr_prod_dot pg) pred (gr_complete pg) (gr_pivots set) fuel (QS (pg_start pg) 0 n) [] ([], false)
  | _ => 0
  end.
(** Result.Ambiguous of the emitted file (codegen.go:737-807). *)
Definition gr_ambiguous_steps (pg : program) (set : list gelem) (n fuel : nat) : nat :=
  match q_valid (gr_complete pg) (gr_pivots set) (pg_start pg) n with
  | QVal true => qc_amb Nat.eq_dec (gr_prod_dot pg) pred (gr_complete pg) (gr_pivots set) fuel (QS (pg_start pg) 0 n) []
  | _ => 0
  end.
(** Result.Tree of the emitted file (codegen.go:811-823). *)
Definition gr_tree_steps (pg : program) (set : list gelem) (n fuel : nat) : nat :=
  match q_valid (gr_complete pg) (gr_pivots set) (pg_start pg) n with
  | QVal true =>
      match gr_complete pg (pg_start pg) with
      | Some sls => match first_elem (gr_pivots set) sls 0 n with
                    | Some (sl, k) => qc_collect Nat.eq_dec (gr_prod_dot pg) pred (gr_complete pg) (gr_pivots set) fuel sl 0 k n []
                    | None => 0
                    end
      | None => 0
      end
  | _ => 0
  end.
