(** The covering set of a transition graph (transition_graph.go:599-858), the mode
    CoverageCompact of the reader.  Maps from nodes are lists of pairs, or functions where
    an absent key counts 0. *)
From Coq Require Import ZArith Arith String Bool List.
From Verif Require Import Syntax Spec Num Utf8 Graph Walk Reader.
Import ListNotations.
Local Open Scope nat_scope.
Local Open Scope list_scope.

(** viable (transition_graph.go:642-653). *)
Definition viable (p : prepared) (n : point) : list point :=
  filter (fun s => productive (tg_heap (p_graph p)) s && mem_point s (p_can p)) (succs (tg_heap (p_graph p)) n).

(** ** Breadth-first searches *)
(** predEntry or succEnd: the parent of each node seen, in the order they are seen. *)
Definition pmap : Type := list (point * point).
(** A read of predEntry or succEnd (transition_graph.go:667, 689, 723, 736, 753). *)
Fixpoint pget (x : point) (m : pmap) : option point :=
  match m with [] => None | (k, v) :: m' => if eq_point k x then Some v else pget x m' end.
(** Whether a node is in predEntry or succEnd (transition_graph.go:667, 689, 723). *)
Definition known (x : point) (m : pmap) : bool := match pget x m with Some _ => true | None => false end.
(** see, and the same for the successors of a node (transition_graph.go:665-675,
    689-695, 722-726). *)
Definition see (par : point -> point) (mq : pmap * list point) (s : point) : pmap * list point :=
  let '(m, q) := mq in if known s m then (m, q) else (m ++ [(s, par s)], q ++ [s]).
(** The loops over the queues (transition_graph.go:679-697, 718-728); [nb] gives viable or
    revAdj.  The fuel bounds the number of nodes taken from the queue, see
    [C52_compact_covers]. *)
Fixpoint bfs (fuel : nat) (nb : point -> list point) (m : pmap) (q : list point) : option pmap :=
  match fuel with
  | O => None
  | S f =>
      match q with
      | [] => Some m
      | n :: q' => let '(m1, q1) := fold_left (see (fun _ => n)) (nb n) (m, q') in bfs f nb m1 q1
      end
  end.
(** predEntry (transition_graph.go:655-697); disc is the list of its keys. *)
Definition forward (p : prepared) : option pmap :=
  let '(m, q) := fold_left (see (fun x => x)) (p_entries p) ([], []) in
  bfs (S (length (p_can p))) (viable p) m q.
(** disc (transition_graph.go:660, 673, 693): the nodes in the order they are seen. *)
Definition disc (m : pmap) : list point := map fst m.
(** allEdges and seenEdge (transition_graph.go:662-663, 684-688): the nodes leave the queue
    in the order of disc. *)
Definition add_edge (es : list edge) (e : edge) : list edge := if existsb (eq_edge e) es then es else es ++ [e].
(** allEdges (transition_graph.go:662, 679-697). *)
Definition all_edges (p : prepared) (m : pmap) : list edge :=
  fold_left add_edge (flat_map (fun n => map (fun s => (n, s)) (viable p n)) (disc m)) [].
(** revAdj (transition_graph.go:703-709). *)
Definition rev_adj (p : prepared) (m : pmap) (x : point) : list point :=
  flat_map (fun n => flat_map (fun s => if eq_point s x then [n] else []) (viable p n)) (disc m).
(** succEnd (transition_graph.go:710-728). *)
Definition backward (p : prepared) (m : pmap) : option pmap :=
  let q := filter (fun n => mem_point n (tg_ends (p_graph p))) (disc m) in
  bfs (S (length (p_can p))) (rev_adj p m) (map (fun n => (n, n)) q) q.

(** ** Walks *)
(** The loops of entryPath and endPath (transition_graph.go:733-741, 750-758); [None] when
    a node is missing. *)
Fixpoint climb (fuel : nat) (m : pmap) (x : point) : option (list point) :=
  match fuel with
  | O => None
  | S f =>
      match pget x m with
      | None => None
      | Some y => if eq_point y x then Some [x] else match climb f m y with Some l => Some (x :: l) | None => None end
      end
  end.
(** entryPath, endPath (transition_graph.go:730-760). *)
Definition entry_path (m : pmap) (x : point) : option (list point) :=
  match climb (S (length m)) m x with Some l => Some (rev l) | None => None end.
(** endPath (transition_graph.go:747-760). *)
Definition end_path (m : pmap) (x : point) : option (list point) := climb (S (length m)) m x.
(** The index of a node in disc; the length when absent (transition_graph.go:659, 672, 692). *)
Fixpoint disc_order (x : point) (d : list point) : nat :=
  match d with [] => 0 | y :: d' => if eq_point y x then 0 else S (disc_order x d') end.
(** The order of the edges (transition_graph.go:813-819). *)
Definition edge_before (d : list point) (a b : edge) : bool :=
  let ui := disc_order (fst a) d in
  let uj := disc_order (fst b) d in
  if Nat.eqb ui uj then disc_order (snd a) d <? disc_order (snd b) d else ui <? uj.
(** sort.SliceStable: stable sorts all give the same list, this one inserts. *)
Fixpoint insert_edge (d : list point) (e : edge) (es : list edge) : list edge :=
  match es with [] => [e] | x :: es' => if edge_before d e x then e :: es else x :: insert_edge d e es' end.
(** sort.SliceStable on allEdges (transition_graph.go:813-819). *)
Definition sort_edges (d : list point) (es : list edge) : list edge := fold_left (fun acc e => insert_edge d e acc) es [].

(** ** Emissions *)
(** claimed[id]++ (transition_graph.go:779, 790). *)
Definition upd (x : point) (f : point -> Z) : point -> Z := fun y => if eq_point x y then (f y + 1)%Z else f y.
(** The first loop of emit (transition_graph.go:778-795): the variations, the values
    claimed and their number; [None] for a panic of nodeEmit. *)
Fixpoint assign (h : heap) (next cl : point -> Z) (w : list point) : option (list Z * (point -> Z) * nat) :=
  match w with
  | [] => Some ([], cl, 0)
  | n :: w' =>
      match emit_point h n 0 with
      | None => None
      | Some (_, vt0) =>
          let vt := if (vt0 <? 1)%Z then 1%Z else vt0 in
          let claim := (next n + cl n)%Z in
          if (claim <? vt)%Z
          then match assign h next (upd n cl) w' with Some (va, cl', c) => Some (claim :: va, cl', S c) | None => None end
          else match assign h next cl w' with Some (va, cl', c) => Some (0%Z :: va, cl', c) | None => None end
      end
  end.
(** The second loop of emit (transition_graph.go:802-806). *)
Fixpoint render (h : heap) (w : list point) (va : list Z) : option (list Z) :=
  match w, va with
  | n :: w', k :: va' => match emit_point h n k, render h w' va' with Some (b, _), Some bs => Some (b ++ bs) | _, _ => None end
  | _, _ => Some []
  end.
(** The variables of buildCompact: coveredV, coveredE, nextVal, prods, walks
    (transition_graph.go:762-767, 811). *)
Record cstate : Type := mkC { c_v : list point; c_e : list edge; c_next : point -> Z; c_prods : list (list Z); c_walks : list (list point) }.
(** emit (transition_graph.go:777-809). *)
Definition emit_walk (h : heap) (w : list point) (force : bool) (c : cstate) : option (bool * cstate) :=
  match assign h (c_next c) (fun _ => 0%Z) w with
  | None => None
  | Some (va, cl, k) =>
      if negb force && Nat.eqb k 0 then Some (false, c)
      else match render h w va with
           | None => None
           | Some bs => Some (true, mkC (c_v c) (c_e c) (fun n => (c_next c n + cl n)%Z) (c_prods c ++ [bs]) (c_walks c))
           end
  end.
(** markWalk (transition_graph.go:769-776). *)
Definition mark_walk (w : list point) (c : cstate) : cstate :=
  mkC (w ++ c_v c) (combine w (tl w) ++ c_e c) (c_next c) (c_prods c) (c_walks c).
(** Appending a walk, emitting and marking it (transition_graph.go:829-831, 849-851). *)
Definition take_walk (h : heap) (w : list point) (c : cstate) : option cstate :=
  match emit_walk h w true (mkC (c_v c) (c_e c) (c_next c) (c_prods c) (c_walks c ++ [w])) with
  | Some (_, c1) => Some (mark_walk w c1)
  | None => None
  end.
(** One turn of the loop over the edges (transition_graph.go:820-832). *)
Definition edge_turn (p : prepared) (pre suc : pmap) (c : option cstate) (e : edge) : option cstate :=
  match c with
  | None => None
  | Some c =>
      if existsb (eq_edge e) (c_e c) then Some c
      else if negb (known (snd e) suc) then Some c
      else match entry_path pre (fst e), end_path suc (snd e) with
           | Some a, Some b => take_walk (tg_heap (p_graph p)) (a ++ b) c
           | _, _ => None
           end
  end.
(** One turn of the loop over the nodes (transition_graph.go:834-852). *)
Definition node_turn (p : prepared) (pre suc : pmap) (c : option cstate) (v : point) : option cstate :=
  match c with
  | None => None
  | Some c =>
      if mem_point v (c_v c) then Some c
      else if negb (known v suc) then Some c
      else match entry_path pre v with
           | None => None
           | Some a =>
               if mem_point v (tg_ends (p_graph p)) then take_walk (tg_heap (p_graph p)) a c
               else match end_path suc v with
                    | Some b => take_walk (tg_heap (p_graph p)) (a ++ tl b) c
                    | None => None
                    end
           end
  end.
(** The loops over the walks (transition_graph.go:854-857); the outer [None] is a panic,
    the inner one is out of fuel. *)
Fixpoint drain (fuel : nat) (h : heap) (w : list point) (c : cstate) : option (option cstate) :=
  match fuel with
  | O => Some None
  | S f => match emit_walk h w false c with
           | None => None
           | Some (false, c1) => Some (Some c1)
           | Some (true, c1) => drain f h w c1
           end
  end.
(** The loop over the walks (transition_graph.go:854-857). *)
Fixpoint drain_all (fuel : nat) (h : heap) (ws : list (list point)) (c : cstate) : option (option cstate) :=
  match ws with
  | [] => Some (Some c)
  | w :: ws' => match drain fuel h w c with Some (Some c1) => drain_all fuel h ws' c1 | e => e end
  end.
(** buildCompact (transition_graph.go:636-858). *)
Definition build_compact (fuel : nat) (p : prepared) : rd_result (list (list Z)) :=
  match forward p with
  | None => Rd_fuel
  | Some pre =>
      match backward p pre with
      | None => Rd_fuel
      | Some suc =>
          match fold_left (node_turn p pre suc) (disc pre)
                  (fold_left (edge_turn p pre suc) (sort_edges (disc pre) (all_edges p pre)) (Some (mkC [] [] (fun _ => 0%Z) [] []))) with
          | None => Rd_panic
          | Some c =>
              match drain_all fuel (tg_heap (p_graph p)) (c_walks c) c with
              | None => Rd_panic
              | Some None => Rd_fuel
              | Some (Some c1) => Rd_ok (c_prods c1)
              end
          end
      end
  end.
(** Next and Scan once prods are built (transition_graph.go:599-604, 610-619). *)
Definition compact_next (prods : list (list Z)) (i : nat) : bool := i <? length prods.
(** Scan in mode CoverageCompact (transition_graph.go:610-619). *)
Definition compact_scan (prods : list (list Z)) (i : nat) : option (list Z) * nat :=
  match nth_error prods i with None => (None, i) | Some w => (Some w, S i) end.
