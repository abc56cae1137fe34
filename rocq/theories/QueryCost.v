(** Counting the calls of the closures that walk a parse forest (sppf.go:707-858).  The
    functions follow those of Tree.v and count instead of computing; each call of a closure
    does a bounded amount of work besides the calls it makes (the integers of NumTrees
    apart, which are of any size). *)
From Coq Require Import ZArith Arith String Bool List.
From Verif Require Import Syntax Spec Slots Gll Sppf Tree.
Import ListNotations.
Local Open Scope nat_scope.

Section Calls.
  Variable nodes : ntable.
  Notation packs := (packs nodes).

  (** The calls of walk in Ambiguous (sppf.go:735-752); out of fuel is 0. *)
  Fixpoint ac_walk (fuel : nat) (n : nkey) (seen : list nkey) : nat :=
    match fuel with
    | O => 0
    | S f =>
        1 + (if nkey_mem n seen then 0
             else if Nat.ltb 1 (length (packs n)) then 0
             else (fix go (cs : list nkey) (seen : list nkey) : nat :=
                     match cs with
                     | [] => 0
                     | c :: cs' => ac_walk f c seen +
                         match amb_walk nodes f c seen with Some (false, s) => go cs' s | _ => 0 end
                     end) (concat (packs n)) (n :: seen))
    end.

  (** The calls of walk in Nodes (sppf.go:713-725). *)
  Fixpoint nc_walk (fuel : nat) (n : nkey) (seen : list nkey) : nat :=
    match fuel with
    | O => 0
    | S f =>
        1 + (if nkey_mem n seen then 0
             else (fix go (cs : list nkey) (seen : list nkey) : nat :=
                     match cs with
                     | [] => 0
                     | c :: cs' => nc_walk f c seen +
                         match node_walk nodes f c seen with Some s => go cs' s | None => 0 end
                     end) (concat (packs n)) (n :: seen))
    end.

  (** The calls of count in NumTrees (sppf.go:766-790). *)
  Fixpoint cc_count (fuel : nat) (n : nkey) (on : list nkey) (st : cstate) : nat :=
    match fuel with
    | O => 0
    | S f =>
        1 + match memo_get n (fst st) with
            | Some _ => 0
            | None =>
                if nkey_mem n on then 0
                else (fix go (cs : list nkey) (st : cstate) : nat :=
                        match cs with
                        | [] => 0
                        | c :: cs' => cc_count f c (n :: on) st +
                            match count nodes f c (n :: on) st with Some (_, st') => go cs' st' | None => 0 end
                        end) (concat (packs n)) st
            end
    end.

  (** The calls of collectChild below a call of collect (sppf.go:826-858). *)
  Fixpoint tc_collect (fuel : nat) (n : nkey) (on : list nkey) : nat :=
    match fuel with
    | O => 0
    | S f =>
        match packs n with
        | [] => 0
        | pk :: _ => list_sum (map (fun c => 1 + match c with
                                               | NTerm _ _ => 0
                                               | _ => if nkey_mem c on then 0 else tc_collect f c (c :: on)
                                               end) pk)
        end
    end.
End Calls.

(** Forest.Ambiguous (sppf.go:730-754). *)
Definition ambiguous_steps (fuel : nat) (f : forest) : nat :=
  match f_root f with Some r => ac_walk (f_nodes f) fuel r [] | None => 0 end.
(** Forest.Nodes (sppf.go:708-727). *)
Definition nodes_steps (fuel : nat) (f : forest) : nat :=
  match f_root f with Some r => nc_walk (f_nodes f) fuel r [] | None => 0 end.
(** Forest.NumTrees (sppf.go:759-796). *)
Definition num_trees_steps (fuel : nat) (f : forest) : nat :=
  match f_root f with Some r => cc_count (f_nodes f) fuel r [] ([], false) | None => 0 end.
(** Forest.Tree (sppf.go:808-813). *)
Definition tree_steps (fuel : nat) (f : forest) : nat :=
  match f_root f with Some r => tc_collect (f_nodes f) fuel r [r] | None => 0 end.
