(** Transition graphs: construction (transition_graph.go:12-257, 940-1458). *)
From Coq Require Import ZArith Arith String Bool List.
From Verif Require Import Syntax Spec Num Tape Deps Dag Cycle.
Import ListNotations.
Local Open Scope Z_scope.
Local Open Scope list_scope.

(** Node (transition_graph.go:28-33).  A node is identified with its ID; IDs are
    taken in order of allocation where the code draws UUIDs, assumed distinct.  The
    heap lists the nodes by ID. *)
Record node : Type := mkNode { n_elem : elem; n_nexts : list nat }.
(** The nodes allocated so far (transition_graph.go:1451-1458). *)
Definition heap : Type := list node.
(** emptyNode (transition_graph.go:97-103) is [None] in lists of entry and end points;
    it is never put in Nexts. *)
Definition points : Type := list (option nat).

(** n.Nexts (transition_graph.go:32). *)
Definition nexts (h : heap) (a : nat) : list nat :=
  match nth_error h a with Some n => n_nexts n | None => [] end.
(** n == emptyNode (transition_graph.go:958, 967, 1001-1012). *)
Definition is_none (p : option nat) : bool := match p with None => true | Some _ => false end.
(** slices.Contains(l, emptyNode). *)
Definition has_empty (l : points) : bool := existsb is_none l.

(** (auxiliary) changing one entry of a list. *)
Fixpoint update {A} (l : list A) (k : nat) (f : A -> A) : list A :=
  match l, k with
  | [], _ => []
  | x :: l', O => f x :: l'
  | x :: l', S k' => x :: update l' k' f
  end.
(** A write to n.Nexts (transition_graph.go:1016, 1065, 1116, 1158). *)
Definition set_nexts (h : heap) (a : nat) (l : list nat) : heap := update h a (fun n => mkNode (n_elem n) l).
(** x.Nexts = append(x.Nexts, y) (transition_graph.go:1016, 1310, 1337). *)
Definition push_next (h : heap) (a b : nat) : heap := set_nexts h a (nexts h a ++ [b]).
(** x.Nexts = appendNodes(x.Nexts, y) (transition_graph.go:1065, 1116, 1158). *)
Definition push_new (h : heap) (a b : nat) : heap :=
  if existsb (Nat.eqb b) (nexts h a) then h else push_next h a b.
(** The two nested loops adding edges (transition_graph.go:1008-1018, 1061-1066,
    1107-1118, 1150-1160), the empty node skipped on both sides. *)
Definition link (push : heap -> nat -> nat -> heap) (h : heap) (from to : points) : heap :=
  fold_left (fun h o => match o with
    | None => h
    | Some a => fold_left (fun h i => match i with None => h | Some b => push h a b end) to h
    end) from h.

(** Comparison of node pointers (transition_graph.go:1260). *)
Definition eq_point (a b : option nat) : bool :=
  match a, b with None, None => true | Some x, Some y => Nat.eqb x y | _, _ => false end.
(** appendNodes (transition_graph.go:1258-1266). *)
Definition append_nodes (existing news : points) : points :=
  fold_left (fun l n => if existsb (eq_point n) l then l else l ++ [n]) news existing.

(** tgoptions (transition_graph.go:105-111). *)
Record tgoptions : Type := mkOpts {
  o_rules : bool; o_numvals : bool; o_charvals : bool; o_threshold : Z; o_max : Z }.

(** tgmachine (transition_graph.go:940-946); the heap is made explicit.  buf maps
    lower-cased names to entry and end points. *)
Record tgstate : Type := mkT { t_heap : heap; t_buf : list (string * (points * points)); t_count : Z }.
(** The errors of TransitionGraph (transition_graph.go:38-95, 212-221, 1036-1166, 1268-1449). *)
Inductive tg_error : Type :=
| TE_not_found (n : string) | TE_invalid (e : sem_error) | TE_cyclic | TE_threshold | TE_min_not_one | TE_min_gt_max
| TE_max_nodes | TE_prose.
(** What altGraph, concatGraph, repGraph and elemGraph return (transition_graph.go:948-1449). *)
Inductive tres : Type :=
| T_ok (i o : points) (st : tgstate)
| T_err (e : tg_error)
| T_panic
| T_fuel.

(** A read of buf (transition_graph.go:1398-1424). *)
Fixpoint buf_get (k : string) (m : list (string * (points * points))) : option (points * points) :=
  match m with [] => None | (x, v) :: m' => if String.eqb x k then Some v else buf_get k m' end.

(** newNode (transition_graph.go:1451-1458). *)
Definition alloc (h : heap) (e : elem) : nat * heap := (length h, h ++ [mkNode e []]).

(** countReachable (transition_graph.go:235-257): the list of IDs seen.  The fuel
    given by [count_reachable] is enough, see [reachable_closed]. *)
Fixpoint count_loop (fuel : nat) (h : heap) (stack seen : list nat) : list nat :=
  match fuel with
  | O => seen
  | S f =>
      match stack with
      | [] => seen
      | n :: stack' =>
          if existsb (Nat.eqb n) seen then count_loop f h stack' seen
          else count_loop f h (rev (filter (fun x => negb (existsb (Nat.eqb x) (n :: seen))) (nexts h n)) ++ stack') (n :: seen)
      end
  end.
(** The points that are nodes (transition_graph.go:239-241). *)
Definition somes (l : points) : list nat := flat_map (fun p => match p with Some a => [a] | None => [] end) l.
(** (fuel) how many edges a heap has. *)
Definition edge_count (h : heap) : nat := fold_right (fun n k => (length (n_nexts n) + k)%nat) O h.
(** countReachable (transition_graph.go:235-257): the IDs it sees. *)
Definition seen_from (h : heap) (entries : points) : list nat :=
  count_loop (S (length entries + edge_count h)) h (rev (somes entries)) [].
(** countReachable (transition_graph.go:235-257). *)
Definition count_reachable (h : heap) (entries : points) : Z := Z.of_nat (length (seen_from h entries)).

(** ** Cloning (transition_graph.go:1194-1256) *)
(** originToNewNodes: IDs of origins and clones, a later clone replaces. *)
Fixpoint cget (k : nat) (m : list (nat * nat)) : option nat :=
  match m with [] => None | (x, v) :: m' => if Nat.eqb x k then Some v else cget k m' end.
(** A write to originToNewNodes (transition_graph.go:1245). *)
Fixpoint cput (k v : nat) (m : list (nat * nat)) : list (nat * nat) :=
  match m with [] => [(k, v)] | (x, u) :: m' => if Nat.eqb x k then (k, v) :: m' else (x, u) :: cput k v m' end.
(** cloneTG (transition_graph.go:1237-1256).  The fuel given by [clone_graph] is
    enough, see [clone_spec]. *)
Fixpoint clone_tg (fuel : nat) (origin : nat) (hm : heap * list (nat * nat)) : heap * list (nat * nat) :=
  match fuel with
  | O => hm
  | S f =>
      let '(h, m) := hm in
      let e := match nth_error h origin with Some n => n_elem n | None => EProse [] end in
      let '(id, h1) := alloc h e in
      fold_left (fun hm n => match cget n (snd hm) with Some _ => hm | None => clone_tg f n hm end)
        (nexts h origin) (h1, cput origin id m)
  end.
(** A missing key reads as a nil node: the empty node in lists of points.  In Nexts
    no key is missing, see [clone_spec]. *)
Definition clone_points (m : list (nat * nat)) (l : points) : points :=
  map (fun p => match p with None => None | Some a => cget a m end) l.
(** The Nexts of a clone (transition_graph.go:1210-1218). *)
Definition clone_nexts (m : list (nat * nat)) (l : list nat) : list nat :=
  flat_map (fun a => match cget a m with Some c => [c] | None => [] end) l.
(** cloneTransitionGraph (transition_graph.go:1194-1231).  The order of the loop over
    the map does not matter: each round writes its own clone. *)
Definition clone_graph (h : heap) (i o : points) : points * points * heap :=
  let fuel := S (length h) in
  let '(h1, m) := fold_left (fun hm p => match p with None => hm | Some a => clone_tg fuel a hm end) i (h, []) in
  let h2 := fold_left (fun h oc => set_nexts h (snd oc) (clone_nexts m (nexts h (fst oc)))) m h1 in
  (clone_points m i, clone_points m o, h2).

(** concatTransitionGraphs (transition_graph.go:991-1034). *)
Definition concat_graphs (prev_i prev_o curr_i curr_o : points) (h : heap) : points * points * heap :=
  let entry := if has_empty prev_i then filter (fun p => negb (is_none p)) prev_i ++ curr_i else prev_i in
  let h' := link push_next h prev_o curr_i in
  let ends := (if has_empty curr_i then prev_o else []) ++ filter (fun p => negb (is_none p)) curr_o in
  (entry, ends, h').

(** chainTransitionGraph (transition_graph.go:1168-1192): the graphs of the copies,
    then entry and end points of the chain. *)
Fixpoint chain_loop (n : nat) (i o : points) (tgs : list (points * points)) (entry ends : points) (h : heap)
  : list (points * points) * points * points * heap :=
  match n with
  | O => (tgs, entry, ends, h)
  | S n' =>
      let '(ni, no, h1) := clone_graph h i o in
      let '(entry', ends', h2) := concat_graphs entry ends ni no h1 in
      chain_loop n' i o (tgs ++ [(ni, no)]) entry' ends' h2
  end.
(** chainTransitionGraph (transition_graph.go:1168-1192). *)
Definition chain_graph (i o : points) (n : nat) (h : heap) : list (points * points) * points * points * heap :=
  match n with
  | O => ([], [], [], h)
  | S n' => let '(ci, co, h1) := clone_graph h i o in chain_loop n' i o [(ci, co)] ci co h1
  end.

(** ** The machine *)
Section Machine.
  Variable opts : tgoptions.

  (** reserve (transition_graph.go:212-221). *)
  Definition reserve (n : Z) (st : tgstate) : option tgstate :=
    if o_max opts <=? 0 then Some st
    else
      let c := wrap64 (t_count st + n) in
      if (n <? 0) || (c <? 0) || (o_max opts <? c) then None
      else Some (mkT (t_heap st) (t_buf st) c).
  (** reserveClones (transition_graph.go:226-231). *)
  Definition reserve_clones (reps : Z) (entries : points) (st : tgstate) : option tgstate :=
    if o_max opts <=? 0 then Some st
    else reserve (wrap64 (reps * count_reachable (t_heap st) entries)) st.

  (** (auxiliary) the state with another heap. *)
  Definition with_heap (st : tgstate) (h : heap) : tgstate := mkT h (t_buf st) (t_count st).

  (** repGraph (transition_graph.go:1036-1166), after the graph of the element. *)
  Definition rep_build (mn mx : Z) (ei eo : points) (st : tgstate) : tres :=
    let h := t_heap st in
    if mn =? 0 then
      if mx =? 1 then T_ok (append_nodes [None] ei) (append_nodes [None] eo) st
      else if mx =? inf then
        T_ok (append_nodes [None] ei) (append_nodes [None] eo)
          (with_heap st (link push_new h eo (append_nodes [] (filter (fun p => negb (is_none p)) ei))))
      else if o_threshold opts <? mx then T_err TE_threshold
      else match reserve_clones mx ei st with
           | None => T_err TE_max_nodes
           | Some st1 =>
               let '(tgs, chi, _, h1) := chain_graph ei eo (Z.to_nat mx) h in
               T_ok (append_nodes [None] chi) (fold_left (fun l tg => append_nodes l (snd tg)) tgs [None]) (with_heap st1 h1)
           end
    else
      if mx =? 1 then
        if mn =? 1 then T_ok (append_nodes [] ei) (append_nodes [] eo) st else T_err TE_min_not_one
      else if mx =? inf then
        if o_threshold opts <? mn then T_err TE_threshold
        else match reserve_clones mn ei st with
             | None => T_err TE_max_nodes
             | Some st1 =>
                 let '(tgs, chi, cho, h1) := chain_graph ei eo (Z.to_nat mn) h in
                 let last := last tgs ([], []) in
                 T_ok (append_nodes [] chi) (append_nodes [] cho) (with_heap st1 (link push_new h1 (snd last) (fst last)))
             end
      else if mx <? mn then T_err TE_min_gt_max
      else if o_threshold opts <? mx then T_err TE_threshold
      else
        let first :=
          if 1 <? mn then
            match reserve_clones mn ei st with
            | None => None
            | Some st1 => let '(_, fi, lo, h1) := chain_graph ei eo (Z.to_nat mn) h in Some (fi, lo, with_heap st1 h1)
            end
          else Some (ei, eo, st) in
        match first with
        | None => T_err TE_max_nodes
        | Some (fi, lo, st1) =>
            let entry := append_nodes [] fi in
            let ends := append_nodes [] lo in
            if 0 <? mx - mn then
              match reserve_clones (mx - mn) ei st1 with
              | None => T_err TE_max_nodes
              | Some st2 =>
                  let '(tgs, chi, _, h2) := chain_graph ei eo (Z.to_nat (mx - mn)) (t_heap st2) in
                  T_ok entry (fold_left (fun l tg => append_nodes l (snd tg)) tgs ends) (with_heap st2 (link push_new h2 lo chi))
              end
            else T_ok entry ends st1
        end.

  (** A char-val, one node a character (transition_graph.go:1292-1343; runeMin and runeMax: grammar.go:369-381). *)
  Definition rune_min (r : Z) : Z := if (65 <=? r) && (r <=? 90) then r - 65 + 97 else r.
  (** runeMax (grammar.go:376-381). *)
  Definition rune_max (r : Z) : Z := if (97 <=? r) && (r <=? 122) then r - 97 + 65 else r.
  (** A char-val, one node a character (transition_graph.go:1292-1343). *)
  Fixpoint deflate_chars (sensitive : bool) (vs : list Z) (prevs : list nat) (entry : points) (h : heap) : points * points * heap :=
    match vs with
    | [] => (entry, map Some prevs, h)
    | r :: vs' =>
        let both := (((97 <=? r) && (r <=? 122)) || ((65 <=? r) && (r <=? 90))) && negb sensitive in
        let '(curr, h1) :=
          if both then
            let '(nl, h1) := alloc h (EChar true [rune_min r]) in
            let '(nu, h2) := alloc h1 (EChar true [rune_max r]) in ([nl; nu], h2)
          else let '(n, h1) := alloc h (EChar true [r]) in ([n], h1) in
        let entry' := match prevs with [] => entry ++ map Some curr | _ => entry end in
        let h2 := link push_next h1 (map Some prevs) (map Some curr) in
        deflate_chars sensitive vs' curr entry' h2
    end.
  (** A num-val, one node a value (transition_graph.go:1371-1394). *)
  Fixpoint alloc_series (b : string) (ss : list string) (acc : points) (h : heap) : points * heap :=
    match ss with
    | [] => (acc, h)
    | s :: ss' => let '(n, h1) := alloc h (ENum b StatSeries [s]) in alloc_series b ss' (acc ++ [Some n]) h1
    end.
  (** The values of a range (transition_graph.go:1371-1383). *)
  Definition range_values (b : string) (mn mx : Z) : list string :=
    map (fun k => int32_to_numval (mn + Z.of_nat k) b) (seq 0 (Z.to_nat (mx - mn + 1))).

  (** One node for an element (transition_graph.go:1278-1286, 1346-1354, 1425-1431). *)
  Definition one_node (e : elem) (st : tgstate) : tres :=
    match reserve 1 st with
    | None => T_err TE_max_nodes
    | Some st1 => let '(n, h1) := alloc (t_heap st1) e in T_ok [Some n] [Some n] (with_heap st1 h1)
    end.
  (** Terminals (transition_graph.go:1271-1395). *)
  Definition char_graph (sensitive : bool) (vs : list Z) (st : tgstate) : tres :=
    match vs with
    | [] => T_ok [None] [None] st
    | _ =>
        if negb (o_charvals opts) then one_node (EChar sensitive vs) st
        else match reserve (2 * Z.of_nat (length vs)) st with
             | None => T_err TE_max_nodes
             | Some st1 => let '(i, o, h1) := deflate_chars sensitive vs [] [] (t_heap st1) in T_ok i o (with_heap st1 h1)
             end
    end.
  (** elemGraph on a num-val (transition_graph.go:1345-1395). *)
  Definition num_graph (b : string) (s : status) (es : list string) (st : tgstate) : tres :=
    if negb (o_numvals opts) then one_node (ENum b s es) st
    else
      match s with
      | StatRange =>
          match es with
          | lo :: hi :: _ =>
              let mn := numval_to_int32 lo b in
              let mx := Z.min (numval_to_int32 hi b) 0x10FFFF in
              if (0x10FFFF <? mn) || (mx <? mn) then T_ok [] [] st
              else match reserve (mx - mn + 1) st with
                   | None => T_err TE_max_nodes
                   | Some st1 => let '(ps, h1) := alloc_series b (range_values b mn mx) [] (t_heap st1) in T_ok ps ps (with_heap st1 h1)
                   end
          | _ => T_panic
          end
      | StatSeries =>
          match reserve (Z.of_nat (length es)) st with
          | None => T_err TE_max_nodes
          | Some st1 => let '(ps, h1) := alloc_series b es [] (t_heap st1) in T_ok ps ps (with_heap st1 h1)
          end
      end.

  (** The loops of altGraph and concatGraph (transition_graph.go:948-989); [f] is repGraph. *)
  Section With.
    Variable f : rep -> tgstate -> tres.
    (** The loop of concatGraph (transition_graph.go:981-987). *)
    Fixpoint cat_rest (c : concatenation) (ci co : points) (st : tgstate) : tres :=
      match c with
      | [] => T_ok ci co st
      | r :: c' =>
          match f r st with
          | T_ok ri ro st1 => let '(ci', co', h) := concat_graphs ci co ri ro (t_heap st1) in cat_rest c' ci' co' (with_heap st1 h)
          | x => x
          end
      end.
    (** concatGraph (transition_graph.go:976-989); Repetitions[0] of an empty list panics. *)
    Definition cat_with (c : concatenation) (st : tgstate) : tres :=
      match c with
      | [] => T_panic
      | r :: c' => match f r st with T_ok ci co st1 => cat_rest c' ci co st1 | x => x end
      end.
    (** Lists grouped without repeating the empty node (transition_graph.go:955-971). *)
    Definition join_points (l news : points) : points :=
      l ++ (if has_empty l then filter (fun p => negb (is_none p)) news else news).
    (** The loop of altGraph (transition_graph.go:949-972). *)
    Fixpoint alt_loop (a : alternation) (i o : points) (st : tgstate) : tres :=
      match a with
      | [] => T_ok i o st
      | c :: a' => match cat_with c st with T_ok ci co st1 => alt_loop a' (join_points i ci) (join_points o co) st1 | x => x end
      end.
    (** altGraph (transition_graph.go:948-974), [f] being repGraph. *)
    Definition alt_with (a : alternation) (st : tgstate) : tres := alt_loop a [] [] st.
  End With.

  Variable call : string -> tgstate -> tres.
  (** elemGraph (transition_graph.go:1268-1449); [call] is the case of a deflated
      rule name. *)
  Fixpoint elem_graph (e : elem) (st : tgstate) : tres :=
    match e with
    | EChar s vs => char_graph s vs st
    | ENum b s es => num_graph b s es st
    | ERule n => if o_rules opts then call n st else one_node (ERule n) st
    | EOption a =>
        match alt_with rep_graph a st with
        | T_ok i o st1 => T_ok (append_nodes i [None]) (append_nodes o [None]) st1
        | x => x
        end
    | EGroup a => alt_with rep_graph a st
    | EProse _ => T_err TE_prose
    end
  with rep_graph (r : rep) (st : tgstate) : tres :=
    match r with
    | Rep mn mx e => match elem_graph e st with T_ok ei eo st1 => rep_build mn mx ei eo st1 | x => x end
    end.
  (** altGraph (transition_graph.go:948-974). *)
  Definition alt_graph (a : alternation) (st : tgstate) : tres := alt_with rep_graph a st.
End Machine.

(** A deflated rule name (transition_graph.go:1398-1424); fuel bounds the nesting of
    rules. *)
Fixpoint rule_graph (fuel : nat) (opts : tgoptions) (g : grammar) (n : string) (st : tgstate) : tres :=
  match fuel with
  | O => T_fuel
  | S f =>
      match buf_get (lower n) (t_buf st) with
      | Some (bi, bo) =>
          match reserve_clones opts 1 bi st with
          | None => T_err TE_max_nodes
          | Some st1 => let '(i, o, h1) := clone_graph (t_heap st1) bi bo in T_ok i o (with_heap st1 h1)
          end
      | None =>
          match get_rule n g with
          | None => T_err (TE_not_found n)
          | Some r =>
              match alt_graph opts (rule_graph f opts g) (rule_alt r) st with
              | T_ok i o st1 =>
                  match reserve_clones opts 1 i st1 with
                  | None => T_err TE_max_nodes
                  | Some st2 =>
                      let '(ni, no, h1) := clone_graph (t_heap st2) i o in
                      T_ok i o (mkT h1 ((lower n, (ni, no)) :: t_buf st2) (t_count st2))
                  end
              | x => x
              end
          end
      end
  end.

(** TransitionGraph (transition_graph.go:16-23, 38-95).  [g1], [g2] and [order] are the
    iteration orders of SemvalABNF and of the dependency graph. *)
Record tgraph : Type := mkTG { tg_heap : heap; tg_entry : points; tg_ends : points }.
(** What TransitionGraph returns (transition_graph.go:38-95). *)
Inductive tg_result : Type :=
| TG_ok (t : tgraph) (count : Z)
| TG_err (e : tg_error)
| TG_panic
| TG_fuel.
(** TransitionGraph (transition_graph.go:38-95). *)
Definition transition_graph (fuel : nat) (opts : tgoptions) (g g1 g2 : grammar) (order : list string) (rulename : string) : tg_result :=
  match get_rule rulename g with
  | None => TG_err (TE_not_found rulename)
  | Some r =>
      match (if o_rules opts then semval_abnf g1 g2 g else None) with
      | Some e => TG_err (TE_invalid e)
      | None =>
          match rule_contains_cycle g order rulename with
          | RccNotFound => TG_err (TE_not_found rulename)
          | RccStuck => TG_fuel
          | RccBool true => TG_err TE_cyclic
          | RccBool false =>
              match alt_graph opts (rule_graph fuel opts g) (rule_alt r) (mkT [] [] 0) with
              | T_ok i o st => TG_ok (mkTG (t_heap st) i o) (t_count st)
              | T_err e => TG_err e
              | T_panic => TG_panic
              | T_fuel => TG_fuel
              end
          end
      end
  end.
