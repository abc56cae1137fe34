(** The SPPF engine: gllParser (sppf.go:298-319) and ParseForest (sppf.go:668-691). *)
From Coq Require Import ZArith String Bool List Lia.
From Verif Require Import Syntax Spec Utf8 Num Term Printer Slots Gll.
Import ListNotations.
Local Open Scope string_scope.
Local Open Scope Z_scope.

(** Forest nodes are interned by nodeKey (sppf.go:324-329, with 384-398), so a pointer
    *gnode is represented by its key; a terminal node has nt = -1 and no slot. *)
Inductive nkey : Type :=
| NSym (nt s e : nat)
| NInter (L : slot) (s e : nat)
| NTerm (s e : nat).

(** gnode.Start, gnode.End (sppf.go:248). *)
Definition n_start (k : nkey) : nat := match k with NSym _ s _ | NInter _ s _ | NTerm s _ => s end.
(** gnode.End (sppf.go:248). *)
Definition n_end (k : nkey) : nat := match k with NSym _ _ e | NInter _ _ e | NTerm _ e => e end.

(** Nodes are compared by key (sppf.go:324-329, 385). *)
Definition nkey_eq_dec (a b : nkey) : {a = b} + {a <> b}.
Proof. decide equality; try apply Nat.eq_dec; apply slot_eq_dec. Defined.
(** Packs are compared child by child (sppf.go:252-269). *)
Definition pack_eq_dec (a b : list nkey) : {a = b} + {a <> b} := list_eq_dec nkey_eq_dec a b.
(** (auxiliary) comparison of a node that may be nil. *)
Definition on_eq_dec (a b : option nkey) : {a = b} + {a <> b}.
Proof. decide equality; apply nkey_eq_dec. Defined.

(** descriptor (sppf.go:290-296). *)
Record sdesc : Type := mkSD { sd_L : slot; sd_u : gss; sd_i : nat; sd_w : option nkey; sd_rc : Z }.
(** Descriptors are keys of seen (sppf.go:339). *)
Definition sdesc_eq_dec (a b : sdesc) : {a = b} + {a <> b}.
Proof. decide equality; [apply Z.eq_dec|apply on_eq_dec|apply Nat.eq_dec|apply gss_eq_dec|apply slot_eq_dec]. Defined.

(** A GSS edge with its owner: (node, (w, to)) (sppf.go:277-288). *)
Definition sedge : Type := gss * (option nkey * gss).
(** Edges are keys of edgeSet (sppf.go:359). *)
Definition sedge_eq_dec (a b : sedge) : {a = b} + {a <> b}.
Proof. decide equality; [decide equality; [apply gss_eq_dec|apply on_eq_dec]|apply gss_eq_dec]. Defined.
(** The keys of popped (sppf.go:377). *)
Definition gk_eq_dec (a b : gss * nkey) : {a = b} + {a <> b}.
Proof. decide equality; [apply nkey_eq_dec|apply gss_eq_dec]. Defined.

(** The node table: keys in order of allocation with the packs of each node
    (sppf.go:245-250, 298-319). *)
Definition ntable : Type := list (nkey * list (list nkey)).

(** p.nodes[k] (sppf.go:385, 504). *)
Fixpoint packs_of (k : nkey) (t : ntable) : option (list (list nkey)) :=
  match t with
  | [] => None
  | (k', ps) :: t' => if nkey_eq_dec k k' then Some ps else packs_of k t'
  end.

(** addPack (sppf.go:252-269): packs are compared child by child. *)
Fixpoint add_pack (k : nkey) (pk : list nkey) (t : ntable) : ntable :=
  match t with
  | [] => []
  | (k', ps) :: t' =>
      if nkey_eq_dec k k' then (k', if in_dec pack_eq_dec pk ps then ps else (ps ++ [pk])%list) :: t'
      else (k', ps) :: add_pack k pk t'
  end.

(** gllParser (sppf.go:298-319).  expectedSeen is the set of the elements of
    expected.  [p_tick] counts the map iterations performed. *)
Record pstate : Type := mkP {
  p_seen : list sdesc;
  p_work : list sdesc;                  (* top of the stack first *)
  p_edges : list sedge;
  p_popped : list (gss * nkey);
  p_nodes : ntable;
  p_aborted : bool;
  p_maxpos : nat;
  p_expected : list string;
  p_tick : nat }.

(** u.edges (sppf.go:378). *)
Definition sedges_of (u : gss) (l : list sedge) : list (option nkey * gss) :=
  map snd (filter (fun e => if gss_eq_dec (fst e) u then true else false) l).
(** p.popped[v] (sppf.go:362). *)
Definition spopped_of (u : gss) (l : list (gss * nkey)) : list nkey :=
  map snd (filter (fun e => if gss_eq_dec (fst e) u then true else false) l).

Section Engine.
  Variable sg : slot_grammar.
  Variable input : list Z.
  Variable max_nodes : Z.
  (* the order Go iterates popped[v] in *)
  Variable ord : nat -> list nkey -> list nkey.

  (** add (sppf.go:337-344). *)
  Definition p_add (L : slot) (u : gss) (i : nat) (w : option nkey) (rc : Z) (st : pstate) : pstate :=
    let d := mkSD L u i w rc in
    if in_dec sdesc_eq_dec d (p_seen st) then st
    else mkP (d :: p_seen st) (d :: p_work st) (p_edges st) (p_popped st) (p_nodes st)
             (p_aborted st) (p_maxpos st) (p_expected st) (p_tick st).

  (** findNode (sppf.go:384-394): over budget it still allocates. *)
  Definition find_node (k : nkey) (st : pstate) : pstate :=
    match packs_of k (p_nodes st) with
    | Some _ => st
    | None =>
        mkP (p_seen st) (p_work st) (p_edges st) (p_popped st) (p_nodes st ++ [(k, [])])%list
            (((0 <? max_nodes) && (max_nodes <=? Z.of_nat (length (p_nodes st)))) || p_aborted st)%bool
            (p_maxpos st) (p_expected st) (p_tick st)
    end.

  (** getNodeP (sppf.go:401-424), without the allocation: the node and its pack. *)
  Definition node_p (L : slot) (w : option nkey) (z : nkey) : nkey * option (list nkey) :=
    match prod_of sg L with
    | None => (z, None)                 (* index out of range in Go *)
    | Some p =>
        let beta_empty := Nat.eqb (s_dot L) (length p) in
        if (Nat.eqb (s_dot L) 1 && negb beta_empty)%bool then (z, None)
        else
          let start := match w with Some w => n_start w | None => n_start z end in
          (if beta_empty then NSym (s_nt L) start (n_end z) else NInter L start (n_end z),
           Some (match w with Some w => [w; z] | None => [z] end))
    end.

  (** getNodeP (sppf.go:401-424). *)
  Definition get_node_p (L : slot) (w : option nkey) (z : nkey) (st : pstate) : nkey * pstate :=
    let '(y, pk) := node_p L w z in
    match pk with
    | None => (y, st)
    | Some pk =>
        let st1 := find_node y st in
        (y, mkP (p_seen st1) (p_work st1) (p_edges st1) (p_popped st1) (add_pack y pk (p_nodes st1))
                (p_aborted st1) (p_maxpos st1) (p_expected st1) (p_tick st1))
    end.

  (** create (sppf.go:356-368). *)
  Definition p_create (ret : slot) (u : gss) (i : nat) (w : option nkey) (rc : Z) (st : pstate) : pstate :=
    let v := GN ret i rc in
    if in_dec sedge_eq_dec (v, (w, u)) (p_edges st) then st
    else
      let st1 := mkP (p_seen st) (p_work st) (p_edges st ++ [(v, (w, u))])%list (p_popped st) (p_nodes st)
                     (p_aborted st) (p_maxpos st) (p_expected st) (S (p_tick st)) in
      fold_left (fun s z => let '(y, s') := get_node_p ret w z s in p_add ret u (n_end z) (Some y) rc s')
                (ord (p_tick st) (spopped_of v (p_popped st))) st1.

  (** pop (sppf.go:370-382). *)
  Definition p_pop (u : gss) (i : nat) (z : nkey) (st : pstate) : pstate :=
    match u with
    | U0 => st
    | GN ret pos rc =>
        let st1 := if in_dec gk_eq_dec (u, z) (p_popped st) then st
                   else mkP (p_seen st) (p_work st) (p_edges st) ((u, z) :: p_popped st) (p_nodes st)
                            (p_aborted st) (p_maxpos st) (p_expected st) (p_tick st) in
        fold_left (fun s e => let '(y, s') := get_node_p ret (fst e) z s in p_add ret (snd e) i (Some y) rc s')
                  (sedges_of u (p_edges st)) st1
    end.

  (** noteFail (sppf.go:558-578).  Every terminal is a Stringer. *)
  Definition note_fail (i : nat) (s : ssym) (st : pstate) : pstate :=
    let (mp, ex) := if Nat.ltb (p_maxpos st) i then (i, []) else (p_maxpos st, p_expected st) in
    let desc := match s with STerm t => elem_string t | _ => "?" end in
    mkP (p_seen st) (p_work st) (p_edges st) (p_popped st) (p_nodes st) (p_aborted st) mp
        (if Nat.eqb i mp then if in_dec string_dec desc ex then ex else (ex ++ [desc])%list else ex)
        (p_tick st).

  (** process (sppf.go:507-552).  [rest] is the production from the dot on. *)
  Fixpoint p_process (rest : list ssym) (L : slot) (u : gss) (i : nat) (w : option nkey) (rc : Z)
    (st : pstate) : pstate :=
    match rest with
    | [] =>
        match w with
        | Some z => p_pop u i z st
        | None => p_pop u i (NTerm i i) (find_node (NTerm i i) st)
        end
    | SNonterm X :: _ =>
        let ret := adv L in
        let st1 := p_create ret u i w rc st in
        fold_left (fun s x => p_add (fst x) (GN ret i rc) i None (snd x) s)
                  (starts sg (s_nt L) rc X) st1
    | s :: rest' =>
        match match_sym s input i with
        | None => note_fail i s st
        | Some j =>
            let '(y, st2) := get_node_p (adv L) w (NTerm i j) (find_node (NTerm i j) st) in
            p_process rest' (adv L) u j (Some y) rc st2
        end
    end.

  (** process (sppf.go:507-552) on a descriptor. *)
  Definition p_process_desc (d : sdesc) (st : pstate) : pstate :=
    match prod_of sg (sd_L d) with
    | None => st                        (* index out of range in Go *)
    | Some p => p_process (skipn (s_dot (sd_L d)) p) (sd_L d) (sd_u d) (sd_i d) (sd_w d) (sd_rc d) st
    end.

  (** The loop of parse (sppf.go:495-502); [None] is out of fuel. *)
  Fixpoint p_run (fuel : nat) (st : pstate) : option pstate :=
    match p_work st with
    | [] => Some st
    | d :: wk =>
        if p_aborted st then Some st
        else
          match fuel with
          | O => None
          | S f => p_run f (p_process_desc d (mkP (p_seen st) wk (p_edges st) (p_popped st) (p_nodes st)
                                                  (p_aborted st) (p_maxpos st) (p_expected st) (p_tick st)))
          end
    end.

  (** The state before the loop of parse (sppf.go:490-494). *)
  Definition p_init : pstate :=
    fold_left (fun s x => p_add (fst x) U0 0 None (snd x) s) (start_slots sg)
              (mkP [] [] [] [] [] false 0 [] 0).

  (** parse (sppf.go:489-505). *)
  Definition p_parse (fuel : nat) : option pstate := p_run fuel p_init.
End Engine.

(** Forest (sppf.go:615-626).  The root pointer is its key; the other nodes are
    reached through the table. *)
Record forest : Type := mkForest {
  f_sg : slot_grammar;
  f_input : list Z;
  f_root : option nkey;
  f_nodes : ntable;
  f_built : nat;
  f_maxpos : nat;
  f_expected : list string }.

(** What ParseForest returns (sppf.go:668-691). *)
Inductive forest_result :=
| PF_ok (f : forest)
| PF_rule_not_found
| PF_grammar_too_large
| PF_forest_too_large
| PF_fuel.

(** ParseForest (sppf.go:668-691). *)
Definition parse_forest (ord : nat -> list nkey -> list nkey) (fuel : nat) (input : list Z) (g : grammar)
  (root : string) (max_slots max_nodes : Z) : forest_result :=
  match compile_slots g root max_slots fuel with
  | CS_rule_not_found => PF_rule_not_found
  | CS_too_large => PF_grammar_too_large
  | CS_fuel => PF_fuel
  | CS_ok sg =>
      match p_parse sg input max_nodes ord fuel with
      | None => PF_fuel
      | Some st =>
          if p_aborted st then PF_forest_too_large
          else
            let k := NSym (sg_start sg) 0 (length input) in
            PF_ok (mkForest sg input
                     (match packs_of k (p_nodes st) with Some _ => Some k | None => None end)
                     (p_nodes st) (length (p_nodes st)) (p_maxpos st) (p_expected st))
      end
  end.

(** Forest.Valid (sppf.go:694). *)
Definition f_valid (f : forest) : bool := match f_root f with Some _ => true | None => false end.

Example forest_ex :
  let g := [mkRule "a" [[Rep 2 3 (EChar false [120]); Rep 1 1 (ERule "A")]; [Rep 1 1 (EOption [[Rep 1 1 (ERule "DIGIT")]])]]] in
  match parse_forest (fun _ l => l) 200 (bytes "XxxxX7") g "a" default_max_slots 0 with
  | PF_ok f => f_valid f = true
  | _ => False
  end.
Proof. vm_compute. reflexivity. Qed.
