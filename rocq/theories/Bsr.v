(** The BSR engine (bsr.go:27-247, 555-589) and BSRForest.Valid; the other queries are in
    BsrTree.v. addRepAlts (bsr.go:130-138) is [Gll.starts], matchTerm (bsr.go:140-195) is
    [Gll.match_sym], and a GSS node (bsr.go:38-44, 77-85) is its key [Gll.gss]. *)
From Coq Require Import ZArith String Bool List Lia.
From Verif Require Import Syntax Spec Utf8 Num Term Printer Slots Gll.
Import ListNotations.
Local Open Scope Z_scope.

(** bsrElem (bsr.go:30-33). *)
Record belem : Type := mkBE { be_slot : slot; be_l : nat; be_k : nat; be_r : nat }.

(** bsrDesc (bsr.go:46-51). *)
Record bdesc : Type := mkBD { bd_L : slot; bd_u : gss; bd_i : nat; bd_rc : Z }.

(** Equality of the keys of the map set (bsr.go:57). *)
Definition belem_eq_dec (a b : belem) : {a = b} + {a <> b}.
Proof. decide equality; try apply Nat.eq_dec; apply slot_eq_dec. Defined.
(** Equality of the keys of the map seen (bsr.go:60). *)
Definition bdesc_eq_dec (a b : bdesc) : {a = b} + {a <> b}.
Proof. decide equality; [apply Z.eq_dec|apply Nat.eq_dec|apply gss_eq_dec|apply slot_eq_dec]. Defined.
(** Equality of the entries of edgeSet (bsr.go:43). *)
Definition gg_eq_dec (a b : gss * gss) : {a = b} + {a <> b}.
Proof. decide equality; apply gss_eq_dec. Defined.
(** Equality of the entries of popped (bsr.go:62). *)
Definition gn_eq_dec (a b : gss * nat) : {a = b} + {a <> b}.
Proof. decide equality; [apply Nat.eq_dec|apply gss_eq_dec]. Defined.

(** bsrParser (bsr.go:53-66).  The edges of all GSS nodes are one list of pairs
    (node, target) in insertion order; popped likewise.  [b_tick] counts the map
    iterations performed, so that a schedule can order each one differently. *)
Record bstate : Type := mkB {
  b_seen : list bdesc;
  b_work : list bdesc;                  (* top of the stack first *)
  b_edges : list (gss * gss);
  b_popped : list (gss * nat);
  b_set : list belem;
  b_aborted : bool;
  b_tick : nat }.

(** The edges of a node (bsr.go:42, 124). *)
Definition edges_of (u : gss) (l : list (gss * gss)) : list gss :=
  map snd (filter (fun e => if gss_eq_dec (fst e) u then true else false) l).
(** The positions popped[u] (bsr.go:62, 108). *)
Definition popped_of (u : gss) (l : list (gss * nat)) : list nat :=
  map snd (filter (fun e => if gss_eq_dec (fst e) u then true else false) l).

Section Engine.
  Variable sg : slot_grammar.
  Variable input : list Z.
  Variable max_elems : Z.
  (* the order Go iterates popped[v] in: the list of its keys, at the given tick *)
  Variable ord : nat -> gss -> list nat -> list nat.

  (** add (bsr.go:68-75). *)
  Definition b_add (L : slot) (u : gss) (i : nat) (rc : Z) (st : bstate) : bstate :=
    let d := mkBD L u i rc in
    if in_dec bdesc_eq_dec d (b_seen st) then st
    else mkB (d :: b_seen st) (d :: b_work st) (b_edges st) (b_popped st) (b_set st)
             (b_aborted st) (b_tick st).

  (** record (bsr.go:92-101). *)
  Definition b_record (L : slot) (l k r : nat) (st : bstate) : bstate :=
    match prod_of sg L with
    | None => st
    | Some p =>
        if (Nat.leb 2 (s_dot L) || Nat.eqb (s_dot L) (length p))%bool then
          if ((0 <? max_elems) && (max_elems <=? Z.of_nat (length (b_set st))))%bool then
            mkB (b_seen st) (b_work st) (b_edges st) (b_popped st) (b_set st) true (b_tick st)
          else
            let e := mkBE L l k r in
            if in_dec belem_eq_dec e (b_set st) then st
            else mkB (b_seen st) (b_work st) (b_edges st) (b_popped st) (e :: b_set st)
                     (b_aborted st) (b_tick st)
        else st
    end.

  (** create (bsr.go:103-114). *)
  Definition b_create (ret : slot) (u : gss) (i : nat) (rc : Z) (st : bstate) : bstate :=
    let v := GN ret i rc in
    if in_dec gg_eq_dec (v, u) (b_edges st) then st
    else
      let st1 := mkB (b_seen st) (b_work st) (b_edges st ++ [(v, u)]) (b_popped st) (b_set st)
                     (b_aborted st) (S (b_tick st)) in
      fold_left (fun s j => b_add ret u j rc (b_record ret (g_pos u) i j s))
                (ord (b_tick st) v (popped_of v (b_popped st))) st1.

  (** pop (bsr.go:116-128). *)
  Definition b_pop (u : gss) (j : nat) (st : bstate) : bstate :=
    match u with
    | U0 => st
    | GN ret pos rc =>
        let st1 := if in_dec gn_eq_dec (u, j) (b_popped st) then st
                   else mkB (b_seen st) (b_work st) (b_edges st) ((u, j) :: b_popped st) (b_set st)
                            (b_aborted st) (b_tick st) in
        fold_left (fun s v => b_add ret v j rc (b_record ret (g_pos v) pos j s))
                  (edges_of u (b_edges st)) st1
    end.

  (** The loop of process (bsr.go:215-246).  [rest] is the production from the dot on. *)
  Fixpoint b_process (rest : list ssym) (L : slot) (u : gss) (i : nat) (rc : Z) (st : bstate) : bstate :=
    match rest with
    | [] => b_pop u i st
    | SNonterm X :: _ =>
        let ret := adv L in
        let st1 := b_create ret u i rc st in
        fold_left (fun s x => b_add (fst x) (GN ret i rc) i (snd x) s)
                  (starts sg (s_nt L) rc X) st1
    | s :: rest' =>
        match match_sym s input i with
        | None => st
        | Some j => b_process rest' (adv L) u j rc (b_record (adv L) (g_pos u) i j st)
        end
    end.

  (** process on a descriptor (bsr.go:213-216). *)
  Definition b_process_desc (d : bdesc) (st : bstate) : bstate :=
    match prod_of sg (bd_L d) with
    | None => st
    | Some p => b_process (skipn (s_dot (bd_L d)) p) (bd_L d) (bd_u d) (bd_i d) (bd_rc d) st
    end.

  (** The loop of parse (bsr.go:203-210); [None] is out of fuel. *)
  Fixpoint b_run (fuel : nat) (st : bstate) : option bstate :=
    match b_work st with
    | [] => Some st
    | d :: w =>
        if b_aborted st then Some st
        else
          match fuel with
          | O => None
          | S f => b_run f (b_process_desc d (mkB (b_seen st) w (b_edges st) (b_popped st) (b_set st)
                                                  (b_aborted st) (b_tick st)))
          end
    end.

  (** The state before the loop of parse (bsr.go:198-202, 566-574). *)
  Definition b_init : bstate :=
    fold_left (fun s x => b_add (fst x) U0 0 (snd x) s) (start_slots sg)
              (mkB [] [] [] [] [] false 0).

  (** parse (bsr.go:197-211). *)
  Definition b_parse (fuel : nat) : option bstate := b_run fuel b_init.
End Engine.

(** BSRForest.Valid (bsr.go:291-299) over the final set. *)
Definition bsr_valid (sg : slot_grammar) (n : nat) (set : list belem) : bool :=
  match nth_error (sg_nts sg) (sg_start sg) with
  | None => false
  | Some nt =>
      existsb (fun ap => existsb (fun e =>
          (if slot_eq_dec (be_slot e) (mkSlot (sg_start sg) (fst ap) (length (snd ap))) then true else false)
          && Nat.eqb (be_l e) 0 && Nat.eqb (be_r e) n)%bool set)
        (combine (seq 0 (length (nt_alts nt))) (nt_alts nt))
  end.

(** What ParseBSR returns (bsr.go:557-589). *)
Inductive bsr_result :=
| BSR_ok (sg : slot_grammar) (set : list belem)
| BSR_rule_not_found
| BSR_grammar_too_large
| BSR_forest_too_large
| BSR_fuel.

(** ParseBSR (bsr.go:557-589); the options are the two last arguments (see Pap.v). *)
Definition parse_bsr (ord : nat -> list nat -> list nat) (fuel : nat) (input : list Z) (g : grammar)
  (root : string) (max_slots max_nodes : Z) : bsr_result :=
  match compile_slots g root max_slots fuel with
  | CS_rule_not_found => BSR_rule_not_found
  | CS_too_large => BSR_grammar_too_large
  | CS_fuel => BSR_fuel
  | CS_ok sg =>
      match b_parse sg input max_nodes (fun t _ l => ord t l) fuel with
      | None => BSR_fuel
      | Some st => if b_aborted st then BSR_forest_too_large else BSR_ok sg (b_set st)
      end
  end.

Example bsr_ex :
  let g := [mkRule "a" [[Rep 2 3 (EChar false [120]); Rep 1 1 (ERule "A")]; [Rep 1 1 (EOption [[Rep 1 1 (ERule "DIGIT")]])]]] in
  match parse_bsr (fun _ l => l) 200 (bytes "XxxxX7") g "a" default_max_slots 0 with
  | BSR_ok sg set => bsr_valid sg 6 set = true
  | _ => False
  end.
Proof. vm_compute. reflexivity. Qed.
