(** Generating from a transition graph (fuzz.go:110-372, transition_graph.go:364-374,
    864-938). *)
From Coq Require Import ZArith Arith String Bool List.
From Verif Require Import Syntax Spec Num Utf8 Tape Graph.
Import ListNotations.
Local Open Scope Z_scope.
Local Open Scope list_scope.

(** The element of a node.  IDs out of the heap do not occur, see [built_sane]. *)
Definition elem_at (h : heap) (a : nat) : elem := match nth_error h a with Some n => n_elem n | None => EProse [] end.

(** producing (transition_graph.go:364-374), for nodes other than the empty one. *)
Definition producing (e : elem) : bool := match e with EChar _ _ | ENum _ _ _ => true | _ => false end.

(** r >= 'a' && r <= 'z' (transition_graph.go:880-914). *)
Definition is_lower (r : Z) : bool := (97 <=? r) && (r <=? 122).
(** r >= 'A' && r <= 'Z' (transition_graph.go:880-914). *)
Definition is_upper (r : Z) : bool := (65 <=? r) && (r <=? 90).
(** The casing loop of nodeEmit (transition_graph.go:892-914).  [tpos] is an int32,
    not negative. *)
Fixpoint emit_casing (vs : list Z) (tpos bit : Z) : list Z :=
  match vs with
  | [] => []
  | r :: vs' =>
      if negb (is_lower r) && negb (is_upper r) then string_of_rune r ++ emit_casing vs' tpos bit
      else
        let lo := if is_upper r then r - 65 + 97 else r in
        let up := if is_lower r then r - 97 + 65 else r in
        string_of_rune (if Z.testbit tpos bit then up else lo) ++ emit_casing vs' tpos (bit + 1)
  end.
(** nodeEmit (transition_graph.go:864-938), for nodes other than the empty one:
    bytes and number of variations.  [None] is the panic of an index out of range. *)
Definition node_emit (e : elem) (tpos : Z) : option (list Z * Z) :=
  match e with
  | EChar true vs => Some (flat_map string_of_rune vs, 1)
  | EChar false vs =>
      let k := Z.of_nat (length (filter (fun r => is_lower r || is_upper r) vs)) in
      Some (emit_casing vs tpos 0, 2 ^ (if 30 <? k then 30 else k))
  | ENum b StatSeries es => Some (flat_map (fun s => string_of_rune (numval_to_rune s b)) es, 1)
  | ENum b StatRange (lo :: hi :: _) =>
      let mn := numval_to_int32 lo b in
      let mx0 := numval_to_int32 hi b in
      let mx := if 0x10FFFF <? mx0 then 0x10FFFF else mx0 in
      if (0x10FFFF <? mn) || (mx <? mn) then Some ([], 1)
      else Some (string_of_rune (mn + tpos), mx - mn + 1)
  | ENum _ StatRange _ => None
  | _ => Some ([], 1)
  end.

(** ** NewGenerator (fuzz.go:182-257) *)
(** Generator (fuzz.go:112-128).  endSet is [tg_ends]; canReach and distToEnd have
    the same keys and are one map; IDs are [option nat], the empty one [None].
    stableAddr and the emission cache are left out: the first chooses the source, the
    second does not change results. *)
Definition dmap : Type := list (option nat * nat).
(** A read of canReach or distToEnd (fuzz.go:242, 246, 365, 367). *)
Fixpoint dget (k : option nat) (m : dmap) : option nat :=
  match m with [] => None | (x, v) :: m' => if eq_point x k then Some v else dget k m' end.
(** Generator (fuzz.go:112-128). *)
Record generator : Type := mkGen {
  g_graph : tgraph; g_length : Z; g_reps : Z; g_steps : Z; g_dist : dmap; g_entries : points }.
(** What NewGenerator returns (fuzz.go:182-257). *)
Inductive gen_result : Type :=
| Gen_ok (g : generator)
| Gen_err (e : elem)
| Gen_fuel.

(** The collecting loop (fuzz.go:195-221): nodes and pairs successor, node.  The top of the
    stack is the head. *)
Fixpoint collect (fuel : nat) (h : heap) (stack nodes : list nat) (rev_adj : list (nat * nat))
  : option (list nat * list (nat * nat)) + elem :=
  match fuel with
  | O => inl None
  | S f =>
      match stack with
      | [] => inl (Some (nodes, rev_adj))
      | n :: stack' =>
          if existsb (Nat.eqb n) nodes then collect f h stack' nodes rev_adj
          else if negb (producing (elem_at h n)) then inr (elem_at h n)
          else collect f h (rev (nexts h n) ++ stack') (n :: nodes) (rev_adj ++ map (fun sc => (sc, n)) (nexts h n))
      end
  end.
(** The endpoints (fuzz.go:223-236): map and queue. *)
Definition start_ends (ends : points) : dmap * list (option nat) :=
  fold_left (fun mq id => match dget id (fst mq) with Some _ => mq | None => (fst mq ++ [(id, O)], snd mq ++ [id]) end)
    ends ([], []).
(** revAdj[id] (fuzz.go:240). *)
Definition preds (rev_adj : list (nat * nat)) (id : option nat) : list nat :=
  flat_map (fun e => if eq_point (Some (fst e)) id then [snd e] else []) rev_adj.
(** The backward search (fuzz.go:237-249). *)
Fixpoint search (fuel : nat) (rev_adj : list (nat * nat)) (m : dmap) (q : list (option nat)) : option dmap :=
  match fuel with
  | O => None
  | S f =>
      match q with
      | [] => Some m
      | id :: q' =>
          let d := match dget id m with Some d => d | None => O end in
          let '(m', q'') := fold_left (fun mq p => match dget (Some p) (fst mq) with
              | Some _ => mq
              | None => (fst mq ++ [(Some p, S d)], snd mq ++ [Some p])
              end) (preds rev_adj id) (m, q') in
          search f rev_adj m' q''
      end
  end.
(** canReach[id] (fuzz.go:252, 321). *)
Definition can_reach (m : dmap) (id : option nat) : bool := match dget id m with Some _ => true | None => false end.
(** NewGenerator (fuzz.go:182-257).  The options come last.  [Gen_fuel] does not
    occur, see [C33_new_generator]. *)
Definition new_generator (t : tgraph) (max_length max_reps max_steps : Z) : gen_result :=
  match collect (S (length (tg_entry t) + edge_count (tg_heap t))) (tg_heap t) (rev (somes (tg_entry t))) [] [] with
  | inr e => Gen_err e
  | inl None => Gen_fuel
  | inl (Some (nodes, rev_adj)) =>
      let '(m, q) := start_ends (tg_ends t) in
      match search (S (length (tg_ends t) + length nodes)) rev_adj m q with
      | None => Gen_fuel
      | Some m => Gen_ok (mkGen t max_length max_reps max_steps m (filter (can_reach m) (tg_entry t)))
      end
  end.

(** ** walk (fuzz.go:280-358) *)
Definition dist (m : dmap) (a : nat) : nat := match dget (Some a) m with Some d => d | None => O end.
(** nearestToEnd (fuzz.go:363-372). *)
Definition nearest (m : dmap) (first : nat) (rest : list nat) : nat :=
  fold_left (fun best c => if Nat.ltb (dist m c) (dist m best) then c else best) rest first.
(** The edges traversed so far, the last one first; visits counts them (fuzz.go:287,
    324, 352).  The keys id>id' are taken as pairs. *)
Definition visits (vs : list (nat * nat)) (a b : nat) : Z :=
  Z.of_nat (length (filter (fun e => Nat.eqb (fst e) a && Nat.eqb (snd e) b) vs)).

(** traceSeg (fuzz.go:275-278). *)
Record seg : Type := mkSeg { sg_off : Z; sg_len : Z; sg_elem : elem }.

Section Walk.
  (** The source of decisions (fuzz.go:31-33): any state and any way to draw from it. *)
  Variable S_ : Type.
  Variable intn : Z -> S_ -> Z * S_.

  (** What walk does (fuzz.go:280-358). *)
  Inductive wres : Type :=
  | W_ok (out : list Z) (trace : list seg) (s : S_)
  | W_panic
  | W_fuel.
  (** The decision made in a round (fuzz.go:329-351). *)
  Inductive choice : Type := Stop | Next (b : nat) | Panic.

  (** What a node emits (fuzz.go:290-304). *)
  Definition walk_emit (e : elem) (out : list Z) (trace : list seg) (s : S_) : option (list Z * list seg * S_) :=
    if producing e then
      match node_emit e 0 with
      | None => None
      | Some (_, vt0) =>
          let vt := if vt0 <? 1 then 1 else vt0 in
          let '(idx, s') := if 1 <? vt then intn vt s else (0, s) in
          match node_emit e idx with
          | None => None
          | Some (b, _) =>
              Some (out ++ b,
                (match b with [] => trace | _ => trace ++ [mkSeg (Z.of_nat (length out)) (Z.of_nat (length b)) e] end), s')
          end
      end
    else Some (out, trace, s).

  (** l[k] (fuzz.go:346, 350); an index out of range panics. *)
  Definition pick (l : list nat) (k : Z) : choice :=
    if k <? 0 then Panic else match nth_error l (Z.to_nat k) with Some b => Next b | None => Panic end.
  (** The decision (fuzz.go:319-350) after [len] bytes. *)
  Definition decide (g : generator) (a : nat) (len : Z) (vs : list (nat * nat)) (steps : Z) (s : S_) : choice * S_ :=
    let live := filter (fun b => can_reach (g_dist g) (Some b)) (nexts (tg_heap (g_graph g)) a) in
    let capped := filter (fun b => visits vs a b <? g_reps g) live in
    match live with
    | [] => (Stop, s)
    | first :: rest =>
        let terminating := (g_length g <=? len) || (g_steps g <=? steps) || match capped with [] => true | _ => false end in
        if existsb (eq_point (Some a)) (tg_ends (g_graph g)) then
          if terminating then (Stop, s)
          else let '(c, s') := intn (Z.of_nat (length capped) + 1) s in
               if c =? 0 then (Stop, s') else (pick capped (c - 1), s')
        else if terminating then (Next (nearest (g_dist g) first rest), s)
        else let '(c, s') := intn (Z.of_nat (length capped)) s in (pick capped c, s')
    end.

  (** The loop (fuzz.go:289-356).  [steps] is not bounded here; it cannot pass
      g_steps by more than the number of nodes. *)
  Fixpoint walk_loop (fuel : nat) (g : generator) (node : option nat) (out : list Z) (trace : list seg)
      (vs : list (nat * nat)) (steps : Z) (s : S_) : wres :=
    match fuel with
    | O => W_fuel
    | S f =>
        match node with
        | None => W_ok out trace s
        | Some a =>
            match walk_emit (elem_at (tg_heap (g_graph g)) a) out trace s with
            | None => W_panic
            | Some (out1, trace1, s1) =>
                match decide g a (Z.of_nat (length out1)) vs steps s1 with
                | (Stop, s2) => W_ok out1 trace1 s2
                | (Panic, _) => W_panic
                | (Next b, s2) => walk_loop f g (Some b) out1 trace1 ((a, b) :: vs) (steps + 1) s2
                end
            end
        end
    end.
  (** walk (fuzz.go:280-358). *)
  Definition walk (fuel : nat) (g : generator) (s : S_) : wres :=
    match g_entries g with
    | [] => W_ok [] [] s
    | _ =>
        let '(c, s1) := intn (Z.of_nat (length (g_entries g))) s in
        if c <? 0 then W_panic
        else match nth_error (g_entries g) (Z.to_nat c) with
             | None => W_panic
             | Some n => walk_loop fuel g n [] [] [] 0 s1
             end
    end.
End Walk.
Arguments W_ok {S_}. Arguments W_panic {S_}. Arguments W_fuel {S_}.
Arguments walk_emit {S_}. Arguments decide {S_}. Arguments walk_loop {S_}. Arguments walk {S_}.

(** Generate (fuzz.go:262-267): the source is read in order or by decision number.
    The tape is not returned. *)
Definition forget {S_ : Type} (r : wres S_) : wres unit :=
  match r with W_ok w tr _ => W_ok w tr tt | W_panic => W_panic | W_fuel => W_fuel end.
(** Generate (fuzz.go:262-267). *)
Definition graph_generate (fuel : nat) (stable : bool) (g : generator) (tape : list Z) : wres unit :=
  if stable then forget (walk indexed_intn fuel g (mkIdx tape 0))
  else forget (walk (fun n s => match tape_intn n s with Some r => r | None => (0, s) end) fuel g (mkTape tape 0)).
