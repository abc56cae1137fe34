(** Counting the iterations of the loops of the recognizer (recognize.go:44-292).  The
    functions follow those of Recog.v and count instead of computing.  Reading or writing one
    entry of a map counts for nothing besides the iteration it is in; so does building the
    key of an element (recognize.go:133), whose cost does not depend on the input but for
    the digits of the index. *)
From Coq Require Import ZArith Arith String Bool List.
From Verif Require Import Syntax Spec Term Printer Deps LeftRec Recog Slots Cost.
Import ListNotations.
Local Open Scope nat_scope.

(** len of a map[int]bool: the number of its keys (recognize.go:47, 59, 95, 103, 109, 185). *)
Definition card (s : list nat) : nat := length (nodup Nat.eq_dec s).

Section Steps.
  Variable g : grammar.
  Variable input : list Z.
  Variable lr : string -> option (list string).
  Variable ord : nat -> list nat -> list nat.

  Section Call.
    Variable call : elem -> nat -> rstate -> rres (list nat).   (* reachElem *)
    Variable callc : elem -> nat -> rstate -> nat.              (* its steps *)

    (** The two nested loops of recognize.go:58-62 and 94-98: one step for each position and
        one for each end found from it. *)
    Fixpoint each_c (f : nat -> rstate -> rres (list nat)) (fc : nat -> rstate -> nat) (ps acc : list nat) (st : rstate) : nat :=
      match ps with
      | [] => 0
      | p :: ps' => 1 + fc p st + match f p st with ROk s st' => card s + each_c f fc ps' (union acc s) st' | _ => 0 end
      end.
    (** The nested loops over positions (recognize.go:58-62, 94-98), in an order of their own. *)
    Definition range_c (f : nat -> rstate -> rres (list nat)) (fc : nat -> rstate -> nat) (s : list nat) (st : rstate) : nat :=
      each_c f fc (ord (r_tick st) s) [] (tick st).
    (** The counting loop of reachRep (recognize.go:89-119). *)
    Fixpoint rep_c (k : nat) (c mn mx : Z) (e : elem) (level seen : list nat) (st : rstate) : nat :=
      match k with
      | O => 0
      | S k' =>
          1 + (if (negb (mx =? inf)%Z && (mx <? c)%Z)%bool then 0
               else range_c (fun p => call e p) (fun p => callc e p) level st +
                 match range_pos ord (fun p => call e p) level st with
                 | ROk next st' =>
                     match next with
                     | [] => 0
                     | _ =>
                         (if (mn <=? c)%Z then card next else 0) + card next +
                         (if (negb (existsb (fun x => negb (mem_nat x seen)) next) && (mn <=? c)%Z)%bool then 0
                          else rep_c k' (c + 1) mn mx e next (union seen next) st')
                     end
                 | _ => 0
                 end)
      end.
    (** reachRep (recognize.go:71-121). *)
    Definition reach_rep_c (r : rep) (i : nat) (st : rstate) : nat :=
      match r with Rep mn mx e => rep_c (length input + 2) 1 mn mx e [i] [i] st end.
    (** reachConcat (recognize.go:54-69). *)
    Fixpoint cat_c (c : concatenation) (cur : list nat) (st : rstate) : nat :=
      match c with
      | [] => 0
      | r :: c' =>
          1 + range_c (fun p => reach_rep input ord call r p) (fun p => reach_rep_c r p) cur st +
          match range_pos ord (fun p => reach_rep input ord call r p) cur st with
          | ROk next st' => match next with [] => 0 | _ => cat_c c' next st' end
          | _ => 0
          end
      end.
    (** reachAlt (recognize.go:44-52). *)
    Fixpoint alt_c (a : alternation) (i : nat) (st : rstate) : nat :=
      match a with
      | [] => 0
      | c :: a' => 1 + cat_c c [i] st +
          match cat_loop input ord call c [i] st with ROk s st' => card s + alt_c a' i st' | _ => 0 end
      end.
    (** computeElem (recognize.go:210-292); comparing a terminal takes a step for each of its
        characters. *)
    Definition compute_c (e : elem) (i : nat) (st : rstate) : nat :=
      match e with
      | ERule n => match get_rule n g with None => 0 | Some r => alt_c (rule_alt r) i st end
      | EGroup a => alt_c a i st
      | EOption a => alt_c a i st + match reach_alt input ord call a i st with ROk s _ => card s | _ => 0 end
      | t => match_cost (STerm t)
      end.
    (** One pass over the rules of the component (recognize.go:178-191). *)
    Fixpoint round_c (scc : list string) (i : nat) (st : rstate) : nat :=
      match scc with
      | [] => 0
      | x :: scc' =>
          1 + match get_rule x g with
              | None => round_c scc' i st
              | Some r => alt_c (rule_alt r) i st +
                  match reach_alt input ord call (rule_alt r) i st with
                  | ROk ns st' => card ns +
                      match r_grow st' (rkey x i) with
                      | None => match ns with [] => round_c scc' i st' | _ => 0 end
                      | Some cur =>
                          if existsb (fun e => negb (mem_nat e cur)) ns
                          then round_c scc' i (set_grow (rkey x i) (Some (union cur ns)) st')
                          else round_c scc' i st'
                      end
                  | _ => 0
                  end
              end
      end.
    (** The growth loop (recognize.go:176-192). *)
    Fixpoint growth_c (k : nat) (scc : list string) (i : nat) (st : rstate) : nat :=
      match k with
      | O => 0
      | S k' => 1 + round_c scc i st +
          match grow_round g input ord call scc i false st with
          | ROk ch st' => if ch then growth_c k' scc i st' else 0
          | _ => 0
          end
      end.
    (** Closing the component, with the copies of the sets (recognize.go:36-42, 199-206). *)
    Fixpoint finish_c (scc : list string) (i : nat) (st : rstate) : nat :=
      match scc with
      | [] => 0
      | x :: scc' =>
          let v := match r_grow st (rkey x i) with Some v => v | None => [] end in
          1 + 2 * card v + finish_c scc' i (set_memo (rkey x i) v (set_grow (rkey x i) None st))
      end.
    (** reachLeftRec (recognize.go:161-208). *)
    Definition left_rec_c (name : string) (scc : list string) (i : nat) (st : rstate) : nat :=
      match r_memo st (rkey name i) with
      | Some _ => 0
      | None =>
          match r_grow st (rkey name i) with
          | Some _ => 0
          | None =>
              let k := S (length scc * (length input + 2)) in
              length scc + growth_c k scc i (seed_all scc i st) +
              match grow_loop g input ord call k scc i (seed_all scc i st) with
              | ROk _ st' => finish_c scc i st'
              | _ => 0
              end
          end
      end.
    (** The memoized path of reachElem, with the copy put in the memo (recognize.go:36-42, 133-152). *)
    Definition plain_c (e : elem) (i : nat) (st : rstate) : nat :=
      let k := ekey e i in
      match r_memo st k with
      | Some _ => 0
      | None =>
          if r_prog st k then 0
          else compute_c e i (set_prog k true st) +
            match compute_elem g input ord call e i (set_prog k true st) with ROk out _ => card out | _ => 0 end
      end.
    (** reachElem (recognize.go:123-153): one step for the call. *)
    Definition body_c (e : elem) (i : nat) (st : rstate) : nat :=
      1 + match is_lr lr e with
          | Some (name, scc) => left_rec_c name scc i st
          | None => plain_c e i st
          end.
  End Call.

  (** reachElem (recognize.go:123-153). *)
  Fixpoint elem_c (fuel : nat) (e : elem) (i : nat) (st : rstate) : nat :=
    match fuel with
    | O => 0
    | S f => body_c (reach_elem g input lr ord f) (elem_c f) e i st
    end.
End Steps.

(** The steps of IsValid after the analysis of left recursion, which does not look at the
    input (grammar.go:19-40). *)
Definition valid_steps (ordn : nat -> list string -> list string) (order : list string) (ord : nat -> list nat -> list nat)
  (fuel : nat) (g : grammar) (rulename : string) (input : list Z) : nat :=
  match get_rule rulename g with
  | None => 0
  | Some _ =>
      match left_recursive_sccs g ordn order with
      | None => 0
      | Some lr => elem_c g input lr ord fuel (ERule rulename) 0 r_init
      end
  end.
