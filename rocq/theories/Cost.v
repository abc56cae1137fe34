(** What the two GLL engines spend (bsr.go:53-247, sppf.go:252-269, 298-608): the number of
    iterations of their loops, counted beside the model of each function.  A use of a Go map
    counts as one step, whatever the map holds; so does matching one value of a terminal. *)
From Coq Require Import ZArith String Bool List.
From Verif Require Import Syntax Spec Utf8 Num Term Printer Slots Gll Bsr Sppf.
Import ListNotations.
Local Open Scope nat_scope.

(** The iterations of the loop of matchTerm over the values of a terminal
    (sppf.go:434-446, 468-481; bsr.go:147-159, 179-190), charged in full even when it stops early. *)
Definition match_cost (s : ssym) : nat :=
  match s with
  | STerm (EChar _ vs) => length vs
  | STerm (ENum _ _ ns) => length ns
  | _ => 0
  end.

Section BsrCost.
  Variable sg : slot_grammar.
  Variable input : list Z.
  Variable max_elems : Z.
  Variable ord : nat -> gss -> list nat -> list nat.

  (** The loop of create over popped[v] (bsr.go:108-111). *)
  Definition bc_create (ret : slot) (u : gss) (i : nat) (rc : Z) (st : bstate) : nat :=
    let v := GN ret i rc in
    if in_dec gg_eq_dec (v, u) (b_edges st) then 0
    else length (ord (b_tick st) v (popped_of v (b_popped st))).

  (** The loop of pop over the edges of a node (bsr.go:124-127). *)
  Definition bc_pop (u : gss) (st : bstate) : nat :=
    match u with
    | U0 => 0
    | GN _ _ _ => length (edges_of u (b_edges st))
    end.

  (** The loop of process (bsr.go:215-246) with the loops it calls; the alternates of a
      nonterminal are the loop of bsr.go:232-234 or the two tests of addRepAlts. *)
  Fixpoint bc_process (rest : list ssym) (L : slot) (u : gss) (i : nat) (rc : Z) (st : bstate) : nat :=
    S match rest with
      | [] => bc_pop u st
      | SNonterm X :: _ => bc_create (adv L) u i rc st + length (starts sg (s_nt L) rc X)
      | s :: rest' =>
          match_cost s +
          match match_sym s input i with
          | None => 0
          | Some j => bc_process rest' (adv L) u j rc (b_record sg max_elems (adv L) (g_pos u) i j st)
          end
      end.

  (** process on a descriptor (bsr.go:213-216). *)
  Definition bc_process_desc (d : bdesc) (st : bstate) : nat :=
    match prod_of sg (bd_L d) with
    | None => 0
    | Some p => bc_process (skipn (s_dot (bd_L d)) p) (bd_L d) (bd_u d) (bd_i d) (bd_rc d) st
    end.

  (** The loop of parse (bsr.go:203-210). *)
  Fixpoint bc_run (fuel : nat) (st : bstate) : nat :=
    match b_work st with
    | [] => 0
    | d :: w =>
        if b_aborted st then 0
        else
          match fuel with
          | O => 0
          | S f =>
              let st0 := mkB (b_seen st) w (b_edges st) (b_popped st) (b_set st) (b_aborted st) (b_tick st) in
              S (bc_process_desc d st0 + bc_run f (b_process_desc sg input max_elems ord d st0))
          end
    end.

  (** parse (bsr.go:197-211). *)
  Definition bc_parse (fuel : nat) : nat := length (start_slots sg) + bc_run fuel (b_init sg).
End BsrCost.

(** ParseBSR after compileSlots (bsr.go:557-589). *)
Definition bsr_steps (ord : nat -> list nat -> list nat) (fuel : nat) (input : list Z) (g : grammar)
  (root : string) (max_slots max_nodes : Z) : nat :=
  match compile_slots g root max_slots fuel with
  | CS_ok sg => bc_parse sg input max_nodes (fun t _ l => ord t l) fuel
  | _ => 0
  end.

(** The packs addPack looks at (sppf.go:253-267): all up to one that is equal. *)
Fixpoint pack_scan (pk : list nkey) (ps : list (list nkey)) : nat :=
  match ps with
  | [] => 0
  | q :: ps' => S (if pack_eq_dec pk q then 0 else pack_scan pk ps')
  end.

(** (auxiliary) the cost of a loop whose body [f] costs [c]. *)
Fixpoint fold_cost {S A} (c : S -> A -> nat) (f : S -> A -> S) (l : list A) (s : S) : nat :=
  match l with
  | [] => 0
  | x :: l' => c s x + fold_cost c f l' (f s x)
  end.

Section ForestCost.
  Variable sg : slot_grammar.
  Variable input : list Z.
  Variable max_nodes : Z.
  Variable ord : nat -> list nkey -> list nkey.

  (** *** Iterations of all loops but that of addPack *)
  (** The loop of create over popped[v] (sppf.go:362-365). *)
  Definition pc_create (ret : slot) (u : gss) (i : nat) (w : option nkey) (rc : Z) (st : pstate) : nat :=
    let v := GN ret i rc in
    if in_dec sedge_eq_dec (v, (w, u)) (p_edges st) then 0
    else length (ord (p_tick st) (spopped_of v (p_popped st))).

  (** The loop of pop over the edges of a node (sppf.go:378-381). *)
  Definition pc_pop (u : gss) (st : pstate) : nat :=
    match u with
    | U0 => 0
    | GN _ _ _ => length (sedges_of u (p_edges st))
    end.

  (** The loop of process (sppf.go:509-551). *)
  Fixpoint pc_process (rest : list ssym) (L : slot) (u : gss) (i : nat) (w : option nkey) (rc : Z)
    (st : pstate) : nat :=
    S match rest with
      | [] => pc_pop u st
      | SNonterm X :: _ => pc_create (adv L) u i w rc st + length (starts sg (s_nt L) rc X)
      | s :: rest' =>
          match_cost s +
          match match_sym s input i with
          | None => 0
          | Some j =>
              let '(y, st2) := get_node_p sg max_nodes (adv L) w (NTerm i j) (find_node max_nodes (NTerm i j) st) in
              pc_process rest' (adv L) u j (Some y) rc st2
          end
      end.

  (** *** Packs looked at by addPack *)
  (** getNodeP (sppf.go:401-424): the call of addPack, if there is one. *)
  Definition cc_get (L : slot) (w : option nkey) (z : nkey) (st : pstate) : nat :=
    match node_p sg L w z with
    | (_, None) => 0
    | (y, Some pk) =>
        match packs_of y (p_nodes st) with
        | Some ps => pack_scan pk ps
        | None => 0
        end
    end.

  (** create (sppf.go:356-368). *)
  Definition cc_create (ret : slot) (u : gss) (i : nat) (w : option nkey) (rc : Z) (st : pstate) : nat :=
    let v := GN ret i rc in
    if in_dec sedge_eq_dec (v, (w, u)) (p_edges st) then 0
    else
      fold_cost (fun s z => cc_get ret w z s)
                (fun s z => let '(y, s') := get_node_p sg max_nodes ret w z s in p_add ret u (n_end z) (Some y) rc s')
                (ord (p_tick st) (spopped_of v (p_popped st)))
                (mkP (p_seen st) (p_work st) (p_edges st ++ [(v, (w, u))])%list (p_popped st) (p_nodes st)
                     (p_aborted st) (p_maxpos st) (p_expected st) (S (p_tick st))).

  (** pop (sppf.go:370-382). *)
  Definition cc_pop (u : gss) (i : nat) (z : nkey) (st : pstate) : nat :=
    match u with
    | U0 => 0
    | GN ret pos rc =>
        fold_cost (fun s e => cc_get ret (fst e) z s)
                  (fun s e => let '(y, s') := get_node_p sg max_nodes ret (fst e) z s in p_add ret (snd e) i (Some y) rc s')
                  (sedges_of u (p_edges st))
                  (if in_dec gk_eq_dec (u, z) (p_popped st) then st
                   else mkP (p_seen st) (p_work st) (p_edges st) ((u, z) :: p_popped st) (p_nodes st)
                            (p_aborted st) (p_maxpos st) (p_expected st) (p_tick st))
    end.

  (** process (sppf.go:507-552). *)
  Fixpoint cc_process (rest : list ssym) (L : slot) (u : gss) (i : nat) (w : option nkey) (rc : Z)
    (st : pstate) : nat :=
    match rest with
    | [] =>
        match w with
        | Some z => cc_pop u i z st
        | None => cc_pop u i (NTerm i i) (find_node max_nodes (NTerm i i) st)
        end
    | SNonterm X :: _ => cc_create (adv L) u i w rc st
    | s :: rest' =>
        match match_sym s input i with
        | None => 0
        | Some j =>
            let st1 := find_node max_nodes (NTerm i j) st in
            let '(y, st2) := get_node_p sg max_nodes (adv L) w (NTerm i j) st1 in
            cc_get (adv L) w (NTerm i j) st1 + cc_process rest' (adv L) u j (Some y) rc st2
        end
    end.

  (** *** The loop of parse *)
  (** process on a descriptor (sppf.go:507-510): loops and packs. *)
  Definition pc_process_desc (d : sdesc) (st : pstate) : nat * nat :=
    match prod_of sg (sd_L d) with
    | None => (0, 0)
    | Some p =>
        let rest := skipn (s_dot (sd_L d)) p in
        (pc_process rest (sd_L d) (sd_u d) (sd_i d) (sd_w d) (sd_rc d) st,
         cc_process rest (sd_L d) (sd_u d) (sd_i d) (sd_w d) (sd_rc d) st)
    end.

  (** The loop of parse (sppf.go:495-502): loops and packs. *)
  Fixpoint pc_run (fuel : nat) (st : pstate) : nat * nat :=
    match p_work st with
    | [] => (0, 0)
    | d :: wk =>
        if p_aborted st then (0, 0)
        else
          match fuel with
          | O => (0, 0)
          | S f =>
              let st0 := mkP (p_seen st) wk (p_edges st) (p_popped st) (p_nodes st) (p_aborted st)
                             (p_maxpos st) (p_expected st) (p_tick st) in
              let c := pc_process_desc d st0 in
              let r := pc_run f (p_process_desc sg input max_nodes ord d st0) in
              (S (fst c + fst r), snd c + snd r)
          end
    end.

  (** parse (sppf.go:489-505). *)
  Definition pc_parse (fuel : nat) : nat * nat :=
    let r := pc_run fuel (p_init sg) in (length (start_slots sg) + fst r, snd r).
End ForestCost.

(** ParseForest after compileSlots (sppf.go:668-691): the iterations of all loops but that
    of addPack, and the packs addPack looks at. *)
Definition forest_steps (ord : nat -> list nkey -> list nkey) (fuel : nat) (input : list Z) (g : grammar)
  (root : string) (max_slots max_nodes : Z) : nat * nat :=
  match compile_slots g root max_slots fuel with
  | CS_ok sg => pc_parse sg input max_nodes ord fuel
  | _ => (0, 0)
  end.
