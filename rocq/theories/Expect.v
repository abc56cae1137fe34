(** Package part of ExpectedNext (fuzz.go:521-775): the octets that may follow a prefix. *)
From Coq Require Import ZArith Arith String Bool List.
From Verif Require Import Syntax Spec Num Utf8 Graph Walk.
Import ListNotations.
Local Open Scope Z_scope.
Local Open Scope list_scope.

(** octetSet (fuzz.go:534): the bit array is its membership function. *)
Definition octets : Type := Z -> bool.
(** The zero value of octetSet (fuzz.go:598, 604, 624, 642, 769). *)
Definition no_octet : octets := fun _ => false.
(** octetSet.add (fuzz.go:536-538). *)
Definition add_octet (b : Z) (s : octets) : octets := fun x => (x =? b) || s x.
(** octetSet.bytes (fuzz.go:548-556). *)
Definition octet_list (s : octets) : list Z := filter s (map Z.of_nat (seq 0 256)).
(** emission (fuzz.go:561-563). *)
Definition emission : Type := list octets.
(** One set for each byte of a string (fuzz.go:603-607, 622-626). *)
Definition singles (bs : list Z) : emission := map (fun b => add_octet b no_octet) bs.

(** The octets of a character of a char-val (fuzz.go:589-609). *)
Definition char_octets (sensitive : bool) (r : Z) : emission :=
  if negb sensitive && (is_lower r || is_upper r) then
    let lo := if is_upper r then r - 65 + 97 else r in
    let up := if is_lower r then r - 97 + 65 else r in
    [add_octet up (add_octet lo no_octet)]
  else singles (string_of_rune r).
(** e.pos[j].add(b) for the bytes of a rune (fuzz.go:659-661). *)
Fixpoint add_at (bs : list Z) (e : emission) : emission :=
  match bs, e with
  | b :: bs', s :: e' => add_octet b s :: add_at bs' e'
  | _, _ => e
  end.
(** The entry of byLen for the length of bs, made if absent (fuzz.go:654-661).  The map
    lists its values, the length being the key. *)
Fixpoint add_bytes (bs : list Z) (m : list emission) : list emission :=
  match m with
  | [] => [add_at bs (map (fun _ => no_octet) bs)]
  | e :: m' => if Nat.eqb (length e) (length bs) then add_at bs e :: m' else e :: add_bytes bs m'
  end.
(** The loop over the runes of a range (fuzz.go:652-662). *)
Fixpoint by_len (k : nat) (r : Z) (m : list emission) : list emission :=
  match k with O => m | S k' => by_len k' (r + 1) (add_bytes (string_of_rune r) m) end.

(** The result of nodeEmissions (fuzz.go:585); [Em_no] is nil, false; [Em_panic] an index out of
    range (fuzz.go:630). *)
Inductive em_result : Type :=
| Em_ok (es : list emission)
| Em_no
| Em_panic.
(** nodeEmissions (fuzz.go:585-671), with the cache of fuzz.go:570-583 left out except
    that [ord], the order in which byLen is read (fuzz.go:663-666), is fixed for the
    node.  [Em_no] is the result nil, false. *)
Definition node_emissions (ord : list emission -> list emission) (e : elem) : em_result :=
  match e with
  | EChar s vs => Em_ok [flat_map (char_octets s) vs]
  | ENum b StatSeries es =>
      let rs := map (fun s => numval_to_rune s b) es in
      if forallb valid_rune rs then Em_ok [singles (flat_map string_of_rune rs)] else Em_no
  | ENum b StatRange (lo :: hi :: _) =>
      let mn := numval_to_int32 lo b in
      let mx0 := numval_to_int32 hi b in
      let mx := if 0x10FFFF <? mx0 then 0x10FFFF else mx0 in
      if (0x10FFFF <? mn) || (mx <? mn) then Em_no
      else if mx <=? 0x7F then Em_ok [[fun x => (mn <=? x) && (x <=? mx)]]
      else if 65536 <? mx - mn + 1 then Em_no
      else Em_ok (ord (by_len (Z.to_nat (mx - mn + 1)) mn []))
  | ENum _ StatRange _ => Em_panic
  | _ => Em_no
  end.

(** A state: node, index of the emission, position in it (fuzz.go:679-682). *)
Definition state : Type := nat * nat * nat.
(** Equality of states, for the key of seen (fuzz.go:684, 716). *)
Definition eq_state (x y : state) : bool :=
  let '(n, e, p) := x in let '(n', e', p') := y in Nat.eqb n n' && Nat.eqb e e' && Nat.eqb p p'.
(** push, push2 (fuzz.go:685-690, 717-722). *)
Definition push_state (l : list state) (s : state) : list state := if existsb (eq_state s) l then l else l ++ [s].
(** Going on, giving up with ok false, or panicking (fuzz.go:707-708, 739-741). *)
Inductive st_result (A : Type) : Type :=
| St_ok (x : A)
| St_no
| St_panic.
Arguments St_ok {A} x.
Arguments St_no {A}.
Arguments St_panic {A}.
(** Pushing the emissions of a node that are not empty (fuzz.go:696-700, 742-746). *)
Fixpoint push_all (n i : nat) (es : list emission) (l : list state) : list state :=
  match es with
  | [] => l
  | [] :: es' => push_all n (S i) es' l
  | (_ :: _) :: es' => push_all n (S i) es' (push_state l (n, i, O))
  end.
(** Starting nodes in turn (fuzz.go:691-710, 734-747); the empty node is skipped. *)
Fixpoint start (ems : nat -> em_result) (ns : list nat) (l : list state) : st_result (list state) :=
  match ns with
  | [] => St_ok l
  | n :: ns' => match ems n with Em_ok es => start ems ns' (push_all n 0 es l) | Em_no => St_no | Em_panic => St_panic end
  end.
(** ems[s.e].pos[s.p] and len(ems[s.e].pos) (fuzz.go:725-727, 730); the indices are always
    in range, see [C35_expected_next_safe]. *)
Definition emission_of (ems : nat -> em_result) (s : state) : emission :=
  let '(n, e, _) := s in match ems n with Em_ok es => nth e es [] | _ => [] end.
(** ems[s.e].pos[s.p] (fuzz.go:726-727, 772). *)
Definition octets_at (ems : nat -> em_result) (s : state) : octets := let '(_, _, p) := s in nth p (emission_of ems s) no_octet.
(** The loop over ready for one octet (fuzz.go:724-751): the next states and
    lastCompletedEndpoint. *)
Fixpoint feed (t : tgraph) (ems : nat -> em_result) (b : Z) (ready next : list state) (last : bool) : st_result (list state * bool) :=
  match ready with
  | [] => St_ok (next, last)
  | ((n, e, p) as s) :: ready' =>
      if octets_at ems s b then
        if Nat.eqb (S p) (length (emission_of ems s)) then
          match start ems (nexts (tg_heap t) n) next with
          | St_ok next' => feed t ems b ready' next' (last || existsb (eq_point (Some n)) (tg_ends t))
          | St_no => St_no
          | St_panic => St_panic
          end
        else feed t ems b ready' (push_state next (n, e, S p)) last
      else feed t ems b ready' next last
  end.
(** The result: next and accepts; ok = false; a panic. *)
Inductive en_result : Type :=
| En_ok (next : list Z) (accepts : bool)
| En_no
| En_panic.
(** The union of the octets of the ready states (fuzz.go:769-774). *)
Definition next_octets (ems : nat -> em_result) (ready : list state) : list Z :=
  octet_list (fun b => existsb (fun s => octets_at ems s b) ready).
(** The loop over the prefix (fuzz.go:712-759) and what follows it (fuzz.go:761-775). *)
Fixpoint consume (t : tgraph) (ems : nat -> em_result) (prefix : list Z) (ready : list state) (last : bool) : en_result :=
  match prefix with
  | [] => En_ok (next_octets ems ready) last
  | b :: prefix' =>
      match feed t ems b ready [] false with
      | St_ok ([], last') => match prefix' with [] => En_ok [] last' | _ => En_ok [] false end
      | St_ok (ready', last') => consume t ems prefix' ready' last'
      | St_no => En_no
      | St_panic => En_panic
      end
  end.
(** ExpectedNext (fuzz.go:678-775).  [ord n] is the order of the emissions of node n. *)
Definition expected_next (ord : nat -> list emission -> list emission) (t : tgraph) (prefix : list Z) : en_result :=
  let ems := fun n => node_emissions (ord n) (elem_at (tg_heap t) n) in
  match start ems (somes (tg_entry t)) [] with
  | St_ok ready => consume t ems prefix ready (has_empty (tg_ends t))
  | St_no => En_no
  | St_panic => En_panic
  end.
