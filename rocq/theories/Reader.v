(** Reading the trails of a transition graph (transition_graph.go:299-629), in the mode
    CoverageAllTrails. *)
From Coq Require Import ZArith Arith String Bool List.
From Verif Require Import Syntax Spec Num Utf8 Graph Walk.
Import ListNotations.
Local Open Scope nat_scope.
Local Open Scope list_scope.

(** A node or the empty one; its ID is itself (transition_graph.go:354-359). *)
Definition point : Type := option nat.
(** A read of a map keyed by node IDs (transition_graph.go:392, 414, 420). *)
Definition mem_point (p : point) (l : list point) : bool := existsb (eq_point p) l.
(** n.Nexts; none for the empty node (transition_graph.go:396-398, 454-456). *)
Definition succs (h : heap) (p : point) : list point := match p with None => [] | Some a => map Some (nexts h a) end.
(** producing (transition_graph.go:364-374). *)
Definition productive (h : heap) (p : point) : bool := match p with None => true | Some a => producing (elem_at h a) end.
(** nodeEmit (transition_graph.go:864-938), [None] for a panic. *)
Definition emit_point (h : heap) (p : point) (k : Z) : option (list Z * Z) :=
  match p with None => Some ([], 1%Z) | Some a => node_emit (elem_at h a) k end.

(** ** prepare (transition_graph.go:376-438) *)
(** collect (transition_graph.go:389-403); the map all is the list of its keys.  The fuel
    bounds the depth, see [C34_reader_exact]. *)
Fixpoint gather (fuel : nat) (h : heap) (n : point) (all : list point) : option (list point) :=
  match fuel with
  | O => None
  | S f =>
      if mem_point n all then Some all
      else fold_left (fun acc s => match acc with Some l => gather f h s l | None => None end) (succs h n) (Some (n :: all))
  end.
(** One pass of the loop for canReach (transition_graph.go:412-431) over the nodes in the
    order given. *)
Definition reach_pass (h : heap) (ends : points) (ns : list point) (can : list point) : list point :=
  fold_left (fun can n =>
    if mem_point n can || negb (productive h n) then can
    else if mem_point n ends || existsb (fun s => productive h s && mem_point s can) (succs h n) then n :: can
    else can) ns can.
(** The passes until nothing changes (transition_graph.go:410-431); [ord i] is the order of
    the i-th pass over the map. *)
Fixpoint reach_loop (fuel : nat) (h : heap) (ends : points) (ord : nat -> list point -> list point) (all : list point) (i : nat)
    (can : list point) : option (list point) :=
  match fuel with
  | O => None
  | S f =>
      let can' := reach_pass h ends (ord i all) can in
      if Nat.eqb (length can') (length can) then Some can' else reach_loop f h ends ord all (S i) can'
  end.
(** What prepare computes (transition_graph.go:376-438): canReach and entries. *)
Record prepared : Type := mkPrep { p_graph : tgraph; p_can : list point; p_entries : points }.
(** prepare (transition_graph.go:376-438). *)
Definition prepare (ord : nat -> list point -> list point) (t : tgraph) : option prepared :=
  let h := tg_heap t in
  let fuel := S (S (length h)) in
  match fold_left (fun acc e => match acc with Some l => gather fuel h e l | None => None end) (tg_entry t) (Some []) with
  | None => None
  | Some all =>
      match reach_loop (S (length all)) h (tg_ends t) ord all 0 [] with
      | None => None
      | Some can => Some (mkPrep t can (filter (fun e => productive h e && mem_point e can) (tg_entry t)))
      end
  end.

(** ** Trails (transition_graph.go:440-551) *)
(** pathFrame (transition_graph.go:348-352). *)
Record frame : Type := mkFrame { f_node : point; f_cursor : nat; f_allowed : list point }.
(** The key of edgeStr (transition_graph.go:440-442): a pair of IDs. *)
Definition edge : Type := (point * point)%type.
(** The counts of usedEdges (transition_graph.go:330); absent edges count 0. *)
Definition counts : Type := edge -> Z.
(** Comparison of keys of usedEdges (transition_graph.go:440-442). *)
Definition eq_edge (a b : edge) : bool := eq_point (fst a) (fst b) && eq_point (snd a) (snd b).
(** usedEdges[e]++ and -- (transition_graph.go:475, 486, 492). *)
Definition add_count (k : Z) (e : edge) (u : counts) : counts := fun x => if eq_edge e x then (u x + k)%Z else u x.
(** length, stack, usedEdges, levelHadAnyPath (transition_graph.go:328-331).  The head of
    the stack is its last frame. *)
Record trails : Type := mkTr { t_len : nat; t_stack : list frame; t_used : counts; t_had : bool }.

(** allowedAt (transition_graph.go:447-466), at the depth of the stack. *)
Definition allowed_at (p : prepared) (stack : list frame) (u : counts) : list point :=
  match stack with
  | [] => p_entries p
  | f :: _ => filter (fun s => mem_point s (p_can p) && negb (0 <? u (f_node f, s))%Z) (succs (tg_heap (p_graph p)) (f_node f))
  end.
(** The edge into a node pushed on a stack (transition_graph.go:474-476, 485-487, 491-493). *)
Definition count_edge (k : Z) (stack : list frame) (n : point) (u : counts) : counts :=
  match stack with [] => u | f :: _ => add_count k (f_node f, n) u end.
(** pushFirst (transition_graph.go:468-479); [None] is false. *)
Definition push_first (p : prepared) (st : trails) : option trails :=
  match allowed_at p (t_stack st) (t_used st) with
  | [] => None
  | (n :: _) as al => Some (mkTr (t_len st) (mkFrame n 0 al :: t_stack st) (count_edge 1 (t_stack st) n (t_used st)) (t_had st))
  end.
(** bump (transition_graph.go:481-499). *)
Fixpoint bump (stack : list frame) (u : counts) : bool * list frame * counts :=
  match stack with
  | [] => (false, [], u)
  | f :: below =>
      let u1 := count_edge (-1) below (f_node f) u in
      match nth_error (f_allowed f) (S (f_cursor f)) with
      | Some n => (true, mkFrame n (S (f_cursor f)) (f_allowed f) :: below, count_edge 1 below n u1)
      | None => bump below u1
      end
  end.
(** bump (transition_graph.go:481-499), on the reader. *)
Definition bump_trails (st : trails) : bool * trails :=
  let '(b, s, u) := bump (t_stack st) (t_used st) in (b, mkTr (t_len st) s u (t_had st)).
(** nextLeaf (transition_graph.go:502-522); the outer [None] is out of fuel.  The stack is
    never longer than the length. *)
Fixpoint next_leaf (fuel : nat) (p : prepared) (st : trails) : option (bool * trails) :=
  match fuel with
  | O => None
  | S f =>
      let '(go, st1) :=
        if Nat.eqb (length (t_stack st)) (t_len st) then bump_trails st
        else match push_first p st with Some st1 => (true, st1) | None => bump_trails st end in
      if negb go then Some (false, st1)
      else if Nat.eqb (length (t_stack st1)) (t_len st1) then Some (true, mkTr (t_len st1) (t_stack st1) (t_used st1) true)
      else next_leaf f p st1
  end.
(** resetLevel (transition_graph.go:524-530). *)
Definition reset_level (len : nat) : trails := mkTr len [] (fun _ => 0%Z) false.
(** The two loops of advancePath (transition_graph.go:534-551): next leaves until one is
    an end point, next levels until one has no trail. *)
Fixpoint advance_path (fuel : nat) (p : prepared) (st : trails) : option (bool * trails) :=
  match fuel with
  | O => None
  | S f =>
      let st := if Nat.eqb (t_len st) 0 then reset_level 1 else st in
      match next_leaf fuel p st with
      | None => None
      | Some (true, st1) =>
          match t_stack st1 with
          | fr :: _ => if mem_point (f_node fr) (tg_ends (p_graph p)) then Some (true, st1) else advance_path f p st1
          | [] => None
          end
      | Some (false, st1) =>
          if negb (t_had st1) then Some (false, st1) else advance_path f p (reset_level (S (t_len st1)))
      end
  end.

(** ** Productions (transition_graph.go:553-629) *)
(** TransitionGraphReader (transition_graph.go:315-346): the part used in this mode.
    varIdx and varTot are listed like the stack, the last node first. *)
Record reader : Type := mkReader {
  r_prep : prepared; r_trails : trails; r_exhausted : bool; r_have : bool; r_idx : list Z; r_tot : list Z;
  r_staged : list Z; r_has_staged : bool }.
(** Reader (transition_graph.go:299-305), after prepare. *)
Definition new_reader (p : prepared) : reader :=
  mkReader p (mkTr 0 [] (fun _ => 0%Z) false) false false [] [] [] false.
(** A call returns, panics, or needs more fuel (transition_graph.go:553-629). *)
Inductive rd_result (A : Type) : Type := Rd_ok (a : A) | Rd_panic | Rd_fuel.
Arguments Rd_ok {A}. Arguments Rd_panic {A}. Arguments Rd_fuel {A}.

(** The variation totals (transition_graph.go:564-572). *)
Fixpoint totals (h : heap) (stack : list frame) : option (list Z) :=
  match stack with
  | [] => Some []
  | f :: s => match emit_point h (f_node f) 0, totals h s with
              | Some (_, vt), Some l => Some ((if vt <? 1 then 1 else vt)%Z :: l)
              | _, _ => None
              end
  end.
(** The staged bytes (transition_graph.go:574-578). *)
Fixpoint stage (h : heap) (stack : list frame) (idx : list Z) : option (list Z) :=
  match stack, idx with
  | [], _ => Some []
  | f :: s, i :: is_ => match stage h s is_, emit_point h (f_node f) i with
                        | Some w, Some (b, _) => Some (w ++ b)
                        | _, _ => None
                        end
  | _, [] => None
  end.
(** ensureStaged (transition_graph.go:553-580). *)
Definition ensure_staged (fuel : nat) (r : reader) : rd_result reader :=
  if r_has_staged r || r_exhausted r then Rd_ok r
  else
    let go (tr : trails) (idx tot : list Z) : rd_result reader :=
      match stage (tg_heap (p_graph (r_prep r))) (t_stack tr) idx with
      | None => Rd_panic
      | Some w => Rd_ok (mkReader (r_prep r) tr false true idx tot w true)
      end in
    if r_have r then go (r_trails r) (r_idx r) (r_tot r)
    else match advance_path fuel (r_prep r) (r_trails r) with
         | None => Rd_fuel
         | Some (false, tr) => Rd_ok (mkReader (r_prep r) tr true false (r_idx r) (r_tot r) (r_staged r) false)
         | Some (true, tr) =>
             match totals (tg_heap (p_graph (r_prep r))) (t_stack tr) with
             | None => Rd_panic
             | Some tot => go tr (map (fun _ => 0%Z) (t_stack tr)) tot
             end
         end.
(** The loop of consumeStaged (transition_graph.go:584-592); [None] when every index has
    come round.  The indices are int32 and stay below their totals. *)
Fixpoint odometer (idx tot : list Z) : option (list Z) :=
  match idx, tot with
  | i :: idx', t :: tot' =>
      if (i + 1 <? t)%Z then Some ((i + 1)%Z :: idx')
      else match odometer idx' tot' with Some l => Some (0%Z :: l) | None => None end
  | _, _ => None
  end.
(** consumeStaged (transition_graph.go:582-596). *)
Definition consume_staged (r : reader) : reader :=
  match odometer (r_idx r) (r_tot r) with
  | Some idx => mkReader (r_prep r) (r_trails r) (r_exhausted r) (r_have r) idx (r_tot r) (r_staged r) false
  | None => mkReader (r_prep r) (r_trails r) (r_exhausted r) false (map (fun _ => 0%Z) (r_idx r)) (r_tot r) (r_staged r) false
  end.
(** Next (transition_graph.go:599-607); prepare has been done. *)
Definition reader_next (fuel : nat) (r : reader) : rd_result (bool * reader) :=
  match ensure_staged fuel r with
  | Rd_ok r1 => Rd_ok (r_has_staged r1, r1)
  | Rd_panic => Rd_panic
  | Rd_fuel => Rd_fuel
  end.
(** Scan (transition_graph.go:610-629); [None] is nil. *)
Definition reader_scan (fuel : nat) (r : reader) : rd_result (option (list Z) * reader) :=
  match ensure_staged fuel r with
  | Rd_ok r1 => if r_has_staged r1 then Rd_ok (Some (r_staged r1), consume_staged r1) else Rd_ok (None, r1)
  | Rd_panic => Rd_panic
  | Rd_fuel => Rd_fuel
  end.
