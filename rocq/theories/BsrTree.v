(** Queries on a set of binary subtree elements: Valid, NumTrees, Ambiguous and Tree, of
    BSRForest (bsr.go:253-553) and of Result in the file emitted by GenerateGoParser
    (codegen.go:601-867).  The two texts differ only in how a slot is represented, so they
    are modelled once for any representation and instantiated twice. *)
From Coq Require Import ZArith Arith String Bool List.
From Verif Require Import Syntax Spec Slots Gll Bsr Codegen.
Import ListNotations.
Local Open Scope string_scope.
Local Open Scope list_scope.
Local Open Scope Z_scope.

(** The result of a query (bsr.go:315-553; codegen.go:657-867): a value, an index out of
    range, or out of fuel. *)
Inductive qres (A : Type) : Type := QVal (a : A) | QPanic | QFuel.
Arguments QVal {A}. Arguments QPanic {A}. Arguments QFuel {A}.
(** Sequencing: the code of bsr.go:315-553 and codegen.go:657-867 stops at a panic. *)
Definition qbind {A B} (x : qres A) (f : A -> qres B) : qres B :=
  match x with QVal a => f a | QPanic => QPanic | QFuel => QFuel end.
(** Indexing a slice (for example prod[sl.dot-1], bsr.go:337): out of range panics. *)
Definition of_opt {A} (x : option A) : qres A := match x with Some a => QVal a | None => QPanic end.

(** bsrNodeID (bsr.go:305-310), nodeID (codegen.go:617-621). *)
Inductive qid (K : Type) : Type := QI (s : K) (l r : nat) | QS (nt l r : nat).
Arguments QI {K}. Arguments QS {K}.

Section Queries.
  Variable K : Type.
  Variable K_dec : forall a b : K, {a = b} + {a <> b}.
  (** The symbols of the production of a slot and its dot: f.sg.nts[sl.nt].alts[sl.alt] and
      sl.dot (bsr.go:336-339); qNTs[si.nt].alts[si.alt] and si.dot with si = slotInfo[sl]
      (codegen.go:677-682). *)
  Variable prod_dot : K -> option (list qsym * nat).
  (** The slot one symbol before: slot{sl.nt, sl.alt, sl.dot - 1} (bsr.go:345); sl-1 (codegen.go:687). *)
  Variable before : K -> K.
  (** The completed slots of a nonterminal in the order of its productions: range
      f.sg.nts[nt].alts (bsr.go:380); ntComplete[nt] (codegen.go:720). *)
  Variable complete : nat -> option (list K).
  (** isRule and ruleName (bsr.go:540-543; codegen.go:855-858). *)
  Variable is_rule : nat -> option bool.
  Variable rule_name : nat -> option string.
  (** index[bsrKey{sl, l, r}] (bsr.go:270-276; codegen.go:631-640). *)
  Variable pivots : K -> nat -> nat -> list nat.
  Variable start : nat.
  Variable n : nat.                     (* len(input) *)

  (** Equality of the keys of memo, onStack and visited (bsr.go:319-320; codegen.go:661-662). *)
  Definition qid_dec (a b : qid K) : {a = b} + {a <> b}.
  Proof. decide equality; apply Nat.eq_dec. Defined.
  (** A read of onStack or visited (bsr.go:355, 431, 531; codegen.go:696, 769, 849). *)
  Definition qid_mem (k : qid K) (l : list (qid K)) : bool := if in_dec qid_dec k l then true else false.

  (** Valid (bsr.go:291-299; codegen.go:643-651). *)
  Definition q_valid : qres bool :=
    qbind (of_opt (complete start)) (fun sls => QVal (existsb (fun sl => negb (Nat.eqb (length (pivots sl 0 n)) 0)) sls)).

  (** The elements a node stands for, with their slots and pivots (bsr.go:361, 380-382;
      codegen.go:702, 720-721). *)
  Definition elems (id : qid K) : qres (list (K * nat)) :=
    match id with
    | QI s l r => QVal (map (pair s) (pivots s l r))
    | QS nt l r => qbind (of_opt (complete nt)) (fun sls => QVal (flat_map (fun s => map (pair s) (pivots s l r)) sls))
    end.
  (** l of a node (bsr.go:309; codegen.go:620). *)
  Definition left_end (id : qid K) : nat := match id with QI _ l _ | QS _ l _ => l end.
  (** r of a node (bsr.go:309; codegen.go:620). *)
  Definition right_end (id : qid K) : nat := match id with QI _ _ r | QS _ _ r => r end.

  (** The part of an element before its last symbol (switch sl.dot, bsr.go:339-346;
      codegen.go:681-688). *)
  Inductive part : Type := PNone | PSym (s : qsym) (a b : nat) | PInter (s : K) (a b : nat).
  (** The two parts of an element (bsr.go:336-346, 416-427, 505-519; codegen.go:677-688,
      753-765, 826-837). *)
  Definition parts (sl : K) (l k r : nat) : option (part * part) :=
    match prod_dot sl with
    | None => None
    | Some (prod, dot) =>
        match dot with
        | O => None                     (* prod[-1] *)
        | S d =>
            match nth_error prod d with
            | None => None
            | Some last =>
                match d with
                | O => Some (PNone, PSym last k r)
                | S O => match prod with s :: _ => Some (PSym s l k, PSym last k r) | [] => None end
                | _ => Some (PInter (before sl) l k, PSym last k r)
                end
            end
        end
    end.
  (** The node to visit for a part; none for terminals and epsilon (symWays, bsr.go:328-333;
      codegen.go:670-675; symOf, bsr.go:409-414, codegen.go:746-751). *)
  Definition node_of_part (p : part) : option (qid K) :=
    match p with
    | PSym (QNT x) a b => Some (QS x a b)
    | PSym _ _ _ | PNone => None
    | PInter s a b => Some (QI s a b)
    end.

  (** *** NumTrees (bsr.go:315-396; codegen.go:657-734) *)
  (** memo (bsr.go:319; codegen.go:661). *)
  Definition qmemo : Type := list (qid K * Z).
  (** A read of memo (bsr.go:352, 371; codegen.go:693, 711). *)
  Definition qmemo_get (k : qid K) (m : qmemo) : option Z :=
    match find (fun x => if qid_dec k (fst x) then true else false) m with Some (_, v) => Some v | None => None end.
  (** countInter and countSym (bsr.go:350-389; codegen.go:691-728): memo and infinite are threaded; onStack[id] is true
      exactly during the call for [id], so it is passed down as a list. *)
  Fixpoint q_count (fuel : nat) (id : qid K) (on : list (qid K)) (st : qmemo * bool) : qres (Z * (qmemo * bool)) :=
    match fuel with
    | O => QFuel
    | S f =>
        match qmemo_get id (fst st) with
        | Some v => QVal (v, st)
        | None =>
            if qid_mem id on then QVal (1, (fst st, true))
            else
              let ways (p : part) st := match node_of_part p with None => QVal (1, st) | Some c => q_count f c (id :: on) st end in
              (* countElem *)
              let elem (e : K * nat) st :=
                qbind (of_opt (parts (fst e) (left_end id) (snd e) (right_end id))) (fun pq =>
                qbind (ways (snd pq) st) (fun x =>
                qbind (ways (fst pq) (snd x)) (fun y => QVal (fst y * fst x, snd y)))) in
              let sum := fix sum (es : list (K * nat)) (total : Z) st :=
                match es with
                | [] => QVal (total, st)
                | e :: es' => qbind (elem e st) (fun x => sum es' (total + fst x) (snd x))
                end in
              qbind (elems id) (fun es =>
              qbind (sum es 0 st) (fun x => QVal (fst x, ((id, fst x) :: fst (snd x), snd (snd x)))))
        end
    end.
  (** NumTrees (bsr.go:315-396; codegen.go:657-734). *)
  Definition q_num_trees (fuel : nat) : qres Z :=
    qbind q_valid (fun v =>
      if v then qbind (q_count fuel (QS start 0 n) [] ([], false)) (fun x => QVal (if snd (snd x) then -1 else fst x))
      else QVal 0).

  (** *** Ambiguous (bsr.go:399-472; codegen.go:737-807) *)
  (** interAmb and symAmb (bsr.go:429-470; codegen.go:767-805): the answer and the nodes visited. *)
  Fixpoint q_amb (fuel : nat) (id : qid K) (vis : list (qid K)) : qres (bool * list (qid K)) :=
    match fuel with
    | O => QFuel
    | S f =>
        if qid_mem id vis then QVal (false, vis)
        else
          let of_part (p : part) vis := match node_of_part p with None => QVal (false, vis) | Some c => q_amb f c vis end in
          (* elemAmb *)
          let elem (e : K * nat) vis :=
            qbind (of_opt (parts (fst e) (left_end id) (snd e) (right_end id))) (fun pq =>
            qbind (of_part (snd pq) vis) (fun x => if fst x then QVal x else of_part (fst pq) (snd x))) in
          let any := fix any (es : list (K * nat)) vis :=
            match es with
            | [] => QVal (false, vis)
            | e :: es' => qbind (elem e vis) (fun x => if fst x then QVal x else any es' (snd x))
            end in
          qbind (elems id) (fun es => if Nat.ltb 1 (length es) then QVal (true, id :: vis) else any es (id :: vis))
    end.
  (** Ambiguous (bsr.go:399-472; codegen.go:737-807). *)
  Definition q_ambiguous (fuel : nat) : qres bool :=
    qbind q_valid (fun v => if v then qbind (q_amb fuel (QS start 0 n) []) (fun x => QVal (fst x)) else QVal false).

  (** *** Tree (bsr.go:477-553; codegen.go:811-867) *)
  (** The first completed slot with an element over the extent, and its first pivot
      (bsr.go:280-288, 536-538; codegen.go:815-816, 853-854). *)
  Fixpoint first_elem (sls : list K) (a b : nat) : option (K * nat) :=
    match sls with
    | [] => None
    | s :: r => match pivots s a b with k :: _ => Some (s, k) | [] => first_elem r a b end
    end.
  (** collectElem and collectChild, returning what is appended to [out]; an entry of
      visited is set before each descent and cleared after it, so it is passed down. *)
  Section Child.
    Variable collect_elem : K -> nat -> nat -> nat -> list (qid K) -> qres (list ptree).
    (** collectChild (bsr.go:522-553; codegen.go:840-867). *)
    Definition collect_child (s : qsym) (a b : nat) (vis : list (qid K)) : qres (list ptree) :=
      match s with
      | QEps => QVal []
      | QTerm => QVal [PT "" a b []]
      | QNT x =>
          let id := QS x a b in
          if qid_mem id vis then QVal []
          else
            qbind (of_opt (complete x)) (fun sls =>
              match first_elem sls a b with
              | None => QVal []
              | Some (sl, k) =>
                  qbind (of_opt (is_rule x)) (fun ru =>
                  qbind (collect_elem sl a k b (id :: vis)) (fun kids =>
                  if ru then qbind (of_opt (rule_name x)) (fun nm => QVal [PT nm a b kids])
                  else QVal kids))
              end)
      end.
  End Child.
  (** collectElem (bsr.go:504-520; codegen.go:825-838). *)
  Fixpoint collect_elem (fuel : nat) (sl : K) (l k r : nat) (vis : list (qid K)) : qres (list ptree) :=
    match fuel with
    | O => QFuel
    | S f =>
        let of_part (p : part) :=
          match p with
          | PNone => QVal []
          | PSym s a b => collect_child (collect_elem f) s a b vis
          | PInter s a b => match pivots s a b with [] => QVal [] | k' :: _ => collect_elem f s a k' b vis end
          end in
        qbind (of_opt (parts sl l k r)) (fun pq =>
        qbind (of_part (fst pq)) (fun x => qbind (of_part (snd pq)) (fun y => QVal (x ++ y))))
    end.
  (** Tree (bsr.go:477-487; codegen.go:811-823). *)
  Definition q_tree (fuel : nat) : qres (option ptree) :=
    qbind q_valid (fun v =>
      if v then
        qbind (of_opt (complete start)) (fun sls =>
          match first_elem sls 0 n with
          | None => QVal None
          | Some (sl, k) =>
              qbind (collect_elem fuel sl 0 k n []) (fun kids =>
              qbind (of_opt (rule_name start)) (fun nm => QVal (Some (PT nm 0 n kids))))
          end)
      else QVal None).
End Queries.
Arguments elems {K}. Arguments parts {K}. Arguments q_count {K}. Arguments q_amb {K}. Arguments qid_mem {K}. Arguments qid_dec {K}.
Arguments q_valid {K}. Arguments q_num_trees {K}. Arguments q_ambiguous {K}. Arguments q_tree {K}. Arguments collect_elem {K}.
Arguments collect_child {K}. Arguments first_elem {K}. Arguments node_of_part {K}. Arguments PNone {K}. Arguments PSym {K}. Arguments PInter {K}.
Arguments left_end {K}. Arguments right_end {K}. Arguments qmemo_get {K}.

(** ** BSRForest *)
(** The kind of a symbol, the switches on s.kind (bsr.go:329, 410, 523-524). *)
Definition qsym_of (s : ssym) : qsym := match s with SNonterm x => QNT x | STerm _ => QTerm | SEps => QEps end.
Section Forest.
  Variable sg : slot_grammar.
  Variable set : list belem.            (* the map f.set, in the order buildIndex ranges over it *)
  (** The production of a slot and its dot (bsr.go:336, 416, 505). *)
  Definition bf_prod_dot (s : slot) : option (list qsym * nat) :=
    match prod_of sg s with Some p => Some (map qsym_of p, s_dot s) | None => None end.
  (** slot{sl.nt, sl.alt, sl.dot - 1} (bsr.go:345, 426, 513). *)
  Definition bf_before (s : slot) : slot := mkSlot (s_nt s) (s_alt s) (pred (s_dot s)).
  (** slot{nt, ai, len(prod)} for each production of nt (bsr.go:380-381, 453-454, 536-537). *)
  Definition bf_complete (x : nat) : option (list slot) :=
    match nth_error (sg_nts sg) x with
    | Some nt => Some (map (fun ap => mkSlot x (fst ap) (length (snd ap))) (combine (seq 0 (length (nt_alts nt))) (nt_alts nt)))
    | None => None
    end.
  (** isRule (bsr.go:495, 540). *)
  Definition bf_is_rule (x : nat) : option bool := match nth_error (sg_nts sg) x with Some nt => Some (nt_isrule nt) | None => None end.
  (** emitSym (bsr.go:491-500) leaves Rule empty when the nonterminal is no rule; the
      start always is one. *)
  Definition bf_rule_name (x : nat) : option string :=
    match nth_error (sg_nts sg) x with Some nt => Some (if nt_isrule nt then nt_rulename nt else "") | None => None end.
  (** buildIndex (bsr.go:270-276). *)
  Definition bf_pivots (s : slot) (l r : nat) : list nat :=
    map be_k (filter (fun e => (if slot_eq_dec (be_slot e) s then true else false) && Nat.eqb (be_l e) l && Nat.eqb (be_r e) r)%bool set).
  (** BSRForest.NumTrees (bsr.go:315-396). *)
  Definition bf_num_trees (n fuel : nat) : qres Z :=
    q_num_trees slot_eq_dec bf_prod_dot bf_before bf_complete bf_pivots (sg_start sg) n fuel.
  (** BSRForest.Ambiguous (bsr.go:399-472). *)
  Definition bf_ambiguous (n fuel : nat) : qres bool :=
    q_ambiguous slot_eq_dec bf_prod_dot bf_before bf_complete bf_pivots (sg_start sg) n fuel.
  (** BSRForest.Tree (bsr.go:477-487). *)
  Definition bf_tree (n fuel : nat) : qres (option ptree) :=
    q_tree slot_eq_dec bf_prod_dot bf_before bf_complete bf_is_rule bf_rule_name bf_pivots (sg_start sg) n fuel.
End Forest.

(** ** Result of the emitted file *)
Section Result.
  Variable pg : program.
  Variable set : list gelem.
  (** slotInfo[sl], qNTs[si.nt].alts[si.alt] and si.dot (codegen.go:677-679). *)
  Definition gr_prod_dot (s : nat) : option (list qsym * nat) :=
    match nth_error (pg_info pg) s with
    | Some si => match nth_error (pg_qnts pg) (si_nt si) with
                 | Some q => match nth_error (q_alts q) (si_alt si) with Some p => Some (p, si_dot si) | None => None end
                 | None => None
                 end
    | None => None
    end.
  (** ntComplete[nt] (codegen.go:720). *)
  Definition gr_complete (x : nat) : option (list nat) := nth_error (pg_complete pg) x.
  (** qNTs[nt].isRule (codegen.go:855). *)
  Definition gr_is_rule (x : nat) : option bool := match nth_error (pg_qnts pg) x with Some q => Some (q_isrule q) | None => None end.
  (** qNTs[nt].ruleName (codegen.go:819, 858). *)
  Definition gr_rule_name (x : nat) : option string := match nth_error (pg_qnts pg) x with Some q => Some (q_name q) | None => None end.
  (** buildIndex (codegen.go:631-640); the numbers in elements are not negative. *)
  Definition gr_pivots (s l r : nat) : list nat :=
    map (fun e => Z.to_nat (ge_k e)) (filter (fun e => (ge_sl e =? Z.of_nat s) && (ge_l e =? Z.of_nat l) && (ge_r e =? Z.of_nat r))%bool set).
  (** Result.NumTrees (codegen.go:657-734). *)
  Definition gr_num_trees (n fuel : nat) : qres Z :=
    q_num_trees Nat.eq_dec gr_prod_dot pred gr_complete gr_pivots (pg_start pg) n fuel.
  (** Result.Ambiguous (codegen.go:737-807). *)
  Definition gr_ambiguous (n fuel : nat) : qres bool :=
    q_ambiguous Nat.eq_dec gr_prod_dot pred gr_complete gr_pivots (pg_start pg) n fuel.
  (** Result.Tree (codegen.go:811-823). *)
  Definition gr_tree (n fuel : nat) : qres (option ptree) :=
    q_tree Nat.eq_dec gr_prod_dot pred gr_complete gr_is_rule gr_rule_name gr_pivots (pg_start pg) n fuel.
End Result.
