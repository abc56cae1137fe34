(** The parser generator (codegen.go): the emitted file as a program of a small
    language, its meaning, and the Go rules that make a file compile.
    The text layout, the comments and go/format (codegen.go:53-57, 384-431) are not
    modelled: each emission function returns the statements it prints. *)
From Coq Require Import ZArith String Bool List Lia.
From Verif Require Import Syntax Spec Utf8 Num Term Printer Slots.
Import ListNotations.
Local Open Scope string_scope.
Local Open Scope list_scope.
Local Open Scope Z_scope.

(** ** The emitted statements *)

(** Expressions of numeric type, printed by emitCall, emitTerminal, emitMatch, emitCharVal and
    emitSeries (codegen.go:171-292). *)
Inductive gexp : Type :=
| XInt (z : Z)                          (* a literal *)
| XVar (x : string)                     (* a local variable *)
| XPlus (a b : gexp)                    (* a + b *)
| XLenInput                             (* len(p.input) *)
| XLenSeries (k : nat)                  (* len(series%d) *)
| XInput (a : gexp)                     (* p.input[a] *)
| XFoldB (a : gexp)                     (* foldB(a) *)
| XFoldR (a : gexp)                     (* foldR(a) *)
| XRuneError                            (* utf8.RuneError *)
| XPos (x : string).                    (* x.pos *)

(** Conditions printed by emitCall, emitMatch, emitCharVal and emitSeries (codegen.go:171-292). *)
Inductive gcond : Type :=
| CLt (a b : gexp) | CGt (a b : gexp) | CGe (a b : gexp) | CEq (a b : gexp) | CNe (a b : gexp)
| COr (c d : gcond) | CAnd (c d : gcond)
| CDiffer (a : gexp) (k : nat).         (* !bytesEqual(p.input[a:a+len(series k)], series k) *)

(** Statements printed by emitProcess, emitCall, emitTerminal, emitMatch, emitCharVal and
    emitSeries (codegen.go:146-292). *)
Inductive gstmt : Type :=
| XDeclare (x : string) (e : gexp)                      (* x := e *)
| XDecode (r s : string) (a : gexp)                     (* r, s := utf8.DecodeRune(p.input[a:]) *)
| XAssign (x : string) (e : gexp)                       (* x = e *)
| XAddTo (x : string) (e : gexp)                        (* x += e *)
| XIf (c : gcond) (body : list gstmt)                   (* if c { body } *)
| XBlock (body : list gstmt)                            (* { body } *)
| XReturn                                               (* return *)
| XContinue                                             (* continue *)
| XCreate (x : string) (ret : Z) (u : string) (i rc : gexp)   (* x := p.create(ret, u, i, rc) *)
| XAdd (L : Z) (v : string) (i rc : gexp)               (* p.add(L, v, i, rc) *)
| XRecord (L : Z) (l k r : gexp)                        (* p.record(L, l, k, r) *)
| XPop (u : string) (i : gexp).                         (* p.pop(u, i) *)

(** ** Emission *)

(** sInfo (codegen.go:60-62). *)
Record sinfo : Type := mkSI { si_nt : nat; si_alt : nat; si_dot : nat; si_plen : nat }.

(** The inner loop of assignSlots (codegen.go:86-91): idOf of one nonterminal and the slots
    so far. *)
Fixpoint assign_alts (nt alt : nat) (alts : list (list ssym)) (slots : list sinfo) : list nat * list sinfo :=
  match alts with
  | [] => ([], slots)
  | prod :: r =>
      let '(ids, s) := assign_alts nt (S alt) r
        (slots ++ map (fun d => mkSI nt alt d (length prod)) (seq 0 (S (length prod)))) in
      (length slots :: ids, s)
  end.
(** The outer loop of assignSlots (codegen.go:84-92). *)
Fixpoint assign_nts (nt : nat) (nts : list sgNT) (slots : list sinfo) : list (list nat) * list sinfo :=
  match nts with
  | [] => ([], slots)
  | info :: r =>
      let '(ids, s) := assign_alts nt 0 (nt_alts info) slots in
      let '(idss, s') := assign_nts (S nt) r s in
      (ids :: idss, s')
  end.
(** assignSlots (codegen.go:81-93): idOf and slots. *)
Definition assign_slots (sg : slot_grammar) : list (list nat) * list sinfo := assign_nts 0 (sg_nts sg) [].

Section Emit.
  Variable sg : slot_grammar.
  Variable id_of : list (list nat).

  (** startID (codegen.go:76); [None] is an index out of range. *)
  Definition start_id (nt alt : nat) : option nat :=
    match nth_error id_of nt with None => None | Some l => nth_error l alt end.
  (** compID (codegen.go:77). *)
  Definition comp_id (nt alt : nat) : option nat :=
    match start_id nt alt, nth_error (sg_nts sg) nt with
    | Some id, Some info =>
        match nth_error (nt_alts info) alt with
        | Some prod => Some (id + length prod)%nat
        | None => None
        end
    | _, _ => None
    end.

  (** A loop printing one number per index (codegen.go:198-200, 311-313, 329-338); [None] is a
      panic in it. *)
  Fixpoint collect {A B} (f : A -> option B) (l : list A) : option (list B) :=
    match l with
    | [] => Some []
    | x :: r => match f x, collect f r with Some y, Some ys => Some (y :: ys) | _, _ => None end
    end.

  (** if c { return } (codegen.go:227, 229, 230, 251, 255, 257, 267, 269, 271, 273, 290). *)
  Definition ifret (c : gcond) : gstmt := XIf c [XReturn].
  (** The variable i of process (codegen.go:148). *)
  Definition xi : gexp := XVar "i".

  (** emitCall (codegen.go:171-203). *)
  Definition emit_call (s : sinfo) (callee : nat) (ret : Z) : option (list gstmt) :=
    let create := XCreate "v" ret "u" xi (XVar "rc") in
    match nth_error (sg_nts sg) callee with
    | None => None
    | Some ci =>
        if nt_isrep ci then
          match start_id callee 0 with
          | None => None
          | Some s0 =>
              if Nat.eqb callee (si_nt s) then
                match start_id callee 1 with
                | None => None
                | Some s1 =>
                    Some (create :: XDeclare "crc" (XPlus (XVar "rc") (XInt 1)) ::
                      (if nt_repmax ci =? inf then
                         [XIf (CGt (XVar "crc") (XInt (nt_repmin ci))) [XAssign "crc" (XInt (nt_repmin ci))]] else []) ++
                      [XIf (CGe (XVar "crc") (XInt (nt_repmin ci))) [XAdd (Z.of_nat s0) "v" xi (XVar "crc")]] ++
                      (if nt_repmax ci =? inf then [XAdd (Z.of_nat s1) "v" xi (XVar "crc")]
                       else [XIf (CLt (XVar "crc") (XInt (nt_repmax ci))) [XAdd (Z.of_nat s1) "v" xi (XVar "crc")]]) ++
                      [XReturn])
                end
              else
                let stop := if nt_repmin ci =? 0 then [XAdd (Z.of_nat s0) "v" xi (XInt 0)] else [] in
                if ((nt_repmax ci =? inf) || (0 <? nt_repmax ci))%bool then
                  match start_id callee 1 with
                  | None => None
                  | Some s1 => Some (create :: stop ++ [XAdd (Z.of_nat s1) "v" xi (XInt 0); XReturn])
                  end
                else Some (create :: stop ++ [XReturn])
          end
        else
          match collect (start_id callee) (seq 0 (length (nt_alts ci))) with
          | None => None
          | Some ids => Some (create :: map (fun id => XAdd (Z.of_nat id) "v" xi (XInt 0)) ids ++ [XReturn])
          end
    end.

  (** foldByte (codegen.go:433-438), foldRune (codegen.go:440-445) and foldB, foldR of the emitted file
      (codegen.go:515-527). *)
  Definition fold_ascii (r : Z) : Z := if (65 <=? r) && (r <=? 90) then r - 65 + 97 else r.

  (** The ASCII loop of emitCharVal (codegen.go:252-259); byte(r) keeps the low 8 bits. *)
  Fixpoint ascii_tests (sens : bool) (off : Z) (vals : list Z) : list gstmt :=
    match vals with
    | [] => []
    | r :: vs =>
        (if sens then ifret (CNe (XInput (XPlus xi (XInt off))) (XInt (r mod 256)))
         else ifret (CNe (XFoldB (XInput (XPlus xi (XInt off)))) (XInt (fold_ascii (r mod 256))))) ::
        ascii_tests sens (off + 1) vs
    end.
  (** One block of the rune-by-rune loop of emitCharVal (codegen.go:265-276). *)
  Definition rune_test (sens : bool) (r : Z) : gstmt :=
    XBlock [ifret (CGe (XVar "j") XLenInput);
            XDecode "rv" "rs" (XVar "j");
            ifret (CAnd (CEq (XVar "rv") XRuneError) (CEq (XVar "rs") (XInt 1)));
            (if sens then ifret (CNe (XVar "rv") (XInt r)) else ifret (CNe (XFoldR (XVar "rv")) (XInt (fold_ascii r))));
            XAddTo "j" (XVar "rs")].
  (** emitCharVal (codegen.go:242-277). *)
  Definition emit_char_val (sens : bool) (vals : list Z) : list gstmt :=
    if forallb (fun r => r <=? 0x7F) vals then
      ifret (CGt (XPlus xi (XInt (Z.of_nat (length vals)))) XLenInput) ::
      ascii_tests sens 0 vals ++ [XDeclare "j" (XPlus xi (XInt (Z.of_nat (length vals))))]
    else XDeclare "j" xi :: map (rune_test sens) vals.

  (** seriesIdx (codegen.go:295-298): the literals so far, without duplicates. *)
  Fixpoint find_series (bs : list Z) (k : nat) (ser : list (list Z)) : option nat :=
    match ser with
    | [] => None
    | x :: r => if list_eqb x bs then Some k else find_series bs (S k) r
    end.
  (** seriesVar (codegen.go:294-307). *)
  Definition series_var (bs : list Z) (ser : list (list Z)) : nat * list (list Z) :=
    match find_series bs 0 ser with
    | Some k => (k, ser)
    | None => (length ser, ser ++ [bs])
    end.

  (** emitSeries (codegen.go:279-292). *)
  Definition emit_series (base : string) (es : list string) (ser : list (list Z)) : list gstmt * list (list Z) :=
    let rs := map (fun e => numval_to_rune e base) es in
    if forallb valid_rune rs then
      let '(k, ser') := series_var (flat_map string_of_rune rs) ser in
      ([ifret (COr (CGt (XPlus xi (XLenSeries k)) XLenInput) (CDiffer xi k));
        XDeclare "j" (XPlus xi (XLenSeries k))], ser')
    else ([XReturn], ser).

  (** emitMatch (codegen.go:218-240); [None] is v.Elems[1] out of range. *)
  Definition emit_match (t : elem) (ser : list (list Z)) : option (list gstmt * list (list Z)) :=
    match t with
    | EChar sens vals => Some (emit_char_val sens vals, ser)
    | ENum base StatRange (lo :: hi :: _) =>
        Some ([ifret (CGe xi XLenInput);
               XDecode "rv" "rs" xi;
               ifret (CAnd (CEq (XVar "rv") XRuneError) (CEq (XVar "rs") (XInt 1)));
               ifret (COr (CLt (XVar "rv") (XInt (numval_to_rune lo base))) (CGt (XVar "rv") (XInt (numval_to_rune hi base))));
               XDeclare "j" (XPlus xi (XVar "rs"))], ser)
    | ENum base StatRange _ => None
    | ENum base StatSeries es => Some (emit_series base es ser)
    | _ => Some ([XReturn], ser)
    end.

  (** emitTerminal (codegen.go:205-214). *)
  Definition emit_terminal (s : ssym) (next : Z) (ser : list (list Z)) : option (list gstmt * list (list Z)) :=
    match s with
    | STerm t =>
        match emit_match t ser with
        | None => None
        | Some (m, ser') =>
            Some (m ++ [XRecord next (XPos "u") xi (XVar "j"); XAssign "i" (XVar "j"); XAssign "L" (XInt next); XContinue], ser')
        end
    | _ => Some ([XRecord next (XPos "u") xi xi; XAssign "L" (XInt next); XContinue], ser)
    end.

  (** One case of the switch (codegen.go:152-166). *)
  Definition emit_case (id : nat) (s : sinfo) (ser : list (list Z)) : option (list gstmt * list (list Z)) :=
    match nth_error (sg_nts sg) (si_nt s) with
    | None => None
    | Some info =>
        if Nat.eqb (si_dot s) (si_plen s) then Some ([XPop "u" xi; XReturn], ser)
        else
          match nth_error (nt_alts info) (si_alt s) with
          | None => None
          | Some prod =>
              match nth_error prod (si_dot s) with
              | None => None
              | Some (SNonterm X) =>
                  match emit_call s X (Z.of_nat (S id)) with None => None | Some b => Some (b, ser) end
              | Some sym => emit_terminal sym (Z.of_nat (S id)) ser
              end
          end
    end.

  (** The loop of emitProcess (codegen.go:151-166). *)
  Fixpoint emit_cases (id : nat) (slots : list sinfo) (ser : list (list Z)) : option (list (list gstmt) * list (list Z)) :=
    match slots with
    | [] => Some ([], ser)
    | s :: r =>
        match emit_case id s ser with
        | None => None
        | Some (b, ser1) =>
            match emit_cases (S id) r ser1 with
            | None => None
            | Some (bs, ser2) => Some (b :: bs, ser2)
            end
        end
    end.

  (** emitSeed (codegen.go:309-315). *)
  Definition emit_seed : option (list nat) :=
    match nth_error (sg_nts sg) (sg_start sg) with
    | None => None
    | Some nt => collect (start_id (sg_start sg)) (seq 0 (length (nt_alts nt)))
    end.

  (** ntComplete (codegen.go:328-339). *)
  Definition emit_complete : option (list (list nat)) :=
    collect (fun n => match nth_error (sg_nts sg) n with
                      | None => None
                      | Some nt => collect (comp_id n) (seq 0 (length (nt_alts nt)))
                      end) (seq 0 (length (sg_nts sg))).
End Emit.

(** scanUTF8 (codegen.go:112-134): whether unicode/utf8 is imported. *)
Definition scan_utf8 (sg : slot_grammar) : bool :=
  existsb (fun nt => existsb (existsb (fun s =>
    match s with
    | STerm (ENum _ StatRange _) => true
    | STerm (EChar _ vals) => existsb (fun r => 0x7F <? r) vals
    | _ => false
    end)) (nt_alts nt)) (sg_nts sg).

(** qSym (codegen.go:471), with the kinds kNT, kTerm and kEps (codegen.go:461-465). *)
Inductive qsym : Type := QNT (n : nat) | QTerm | QEps.
(** qNT (codegen.go:474-478). *)
Record qnt : Type := mkQ { q_isrule : bool; q_name : string; q_alts : list (list qsym) }.
(** qNTs (codegen.go:341-371); a nonterminal without productions gets nil, which reads as []. *)
Definition emit_qnts (sg : slot_grammar) : list qnt :=
  map (fun nt => mkQ (nt_isrule nt) (nt_rulename nt)
    (map (map (fun s => match s with SNonterm n => QNT n | STerm _ => QTerm | SEps => QEps end)) (nt_alts nt))) (sg_nts sg).

(** The emitted file (codegen.go:95-108). *)
Record program : Type := mkProg {
  pg_utf8 : bool;                       (* imports unicode/utf8 *)
  pg_cases : list (list gstmt);         (* process: case id *)
  pg_seed : list nat;
  pg_start : nat;                       (* gStart *)
  pg_info : list sinfo;                 (* slotInfo *)
  pg_complete : list (list nat);        (* ntComplete *)
  pg_qnts : list qnt;                   (* qNTs *)
  pg_series : list (list Z) }.

(** emit (codegen.go:95-108); the functions printing cases, seed, metadata and series share only
    the series, which emitSeriesVars (codegen.go:374-382) prints last. emitImports
    (codegen.go:136-142) prints errors, math/big and, if [scan_utf8], unicode/utf8. *)
Definition emit (sg : slot_grammar) : option program :=
  let '(ids, slots) := assign_slots sg in
  match emit_cases sg ids 0 slots [], emit_seed sg ids, emit_complete sg ids with
  | Some (cases, ser), Some seed, Some comp =>
      Some (mkProg (scan_utf8 sg) cases seed (sg_start sg) slots comp (emit_qnts sg) ser)
  | _, _, _ => None
  end.

(** What GenerateGoParser returns (codegen.go:45-58), without go/format. *)
Inductive gen_result : Type :=
| Gen_ok (pg : program)
| Gen_rule_not_found
| Gen_too_large
| Gen_panic
| Gen_fuel.
(** GenerateGoParser (codegen.go:45-58), without go/format. *)
Definition generate_go_parser (fuel : nat) (g : grammar) (root : string) : gen_result :=
  match compile_slots g root default_max_slots fuel with
  | CS_rule_not_found => Gen_rule_not_found
  | CS_too_large => Gen_too_large
  | CS_fuel => Gen_fuel
  | CS_ok sg => match emit sg with Some pg => Gen_ok pg | None => Gen_panic end
  end.

(** ** The runtime of the emitted file (codegen.go:451-599, 869-890) *)

(** gnode (codegen.go:491-497): interned by gssKey, so a pointer is its key. *)
Inductive ggss : Type :=
| GU0
| GGN (ret pos rc : Z).
(** u.pos (codegen.go:493); the root is made with pos 0 (codegen.go:878). *)
Definition gg_pos (u : ggss) : Z := match u with GU0 => 0 | GGN _ p _ => p end.
(** bsrElem (codegen.go:480-483). *)
Record gelem : Type := mkGE { ge_sl : Z; ge_l : Z; ge_k : Z; ge_r : Z }.
(** desc (codegen.go:499-502). *)
Record gdesc : Type := mkGD { gd_L : Z; gd_u : ggss; gd_i : Z; gd_rc : Z }.
(** Equality of nodes: the keys of edgeSet and popped (codegen.go:496, 511). *)
Definition ggss_eq_dec (a b : ggss) : {a = b} + {a <> b}.
Proof. decide equality; apply Z.eq_dec. Defined.
(** Equality of the keys of set (codegen.go:506). *)
Definition gelem_eq_dec (a b : gelem) : {a = b} + {a <> b}.
Proof. decide equality; apply Z.eq_dec. Defined.
(** Equality of the keys of seen (codegen.go:509). *)
Definition gdesc_eq_dec (a b : gdesc) : {a = b} + {a <> b}.
Proof. decide equality; try apply Z.eq_dec; apply ggss_eq_dec. Defined.
(** Equality of the entries of edgeSet (codegen.go:496). *)
Definition gedge_eq_dec (a b : ggss * ggss) : {a = b} + {a <> b}.
Proof. decide equality; apply ggss_eq_dec. Defined.
(** Equality of the entries of popped (codegen.go:511). *)
Definition gpop_eq_dec (a b : ggss * Z) : {a = b} + {a <> b}.
Proof. decide equality; [apply Z.eq_dec|apply ggss_eq_dec]. Defined.

(** parser (codegen.go:504-513).  As in Bsr.v the edges of all nodes are one list of
    pairs in insertion order, popped likewise, and [gs_tick] counts map iterations. *)
Record gstate : Type := mkG {
  gs_seen : list gdesc;
  gs_work : list gdesc;
  gs_edges : list (ggss * ggss);
  gs_popped : list (ggss * Z);
  gs_set : list gelem;
  gs_aborted : bool;
  gs_tick : nat }.

(** A computation of the emitted program (codegen.go:146-292): a value, a run-time panic, or an ill-formed
    program (an undeclared variable: the file does not compile). *)
Inductive res (A : Type) : Type := Val (a : A) | Panic | Stuck.
Arguments Val {A}. Arguments Panic {A}. Arguments Stuck {A}.
(** Sequencing of the emitted statements (codegen.go:146-292): a panic or a stuck program ends
    it. *)
Definition bind {A B} (x : res A) (f : A -> res B) : res B :=
  match x with Val a => f a | Panic => Panic | Stuck => Stuck end.

(** What the variables of process hold (codegen.go:148, 172, 228, 231): a number or a node. *)
Inductive gvalue : Type := VNum (z : Z) | VNode (u : ggss).
Notation genv := (list (string * gvalue)).

(** Reading a variable of process (codegen.go:148). *)
Fixpoint lookup (x : string) (e : genv) : option gvalue :=
  match e with
  | [] => None
  | (y, v) :: r => if String.eqb x y then Some v else lookup x r
  end.
(** Assigning to a variable of process (codegen.go:178, 208, 213, 275): the innermost one of
    that name. *)
Fixpoint assign (x : string) (v : gvalue) (e : genv) : genv :=
  match e with
  | [] => []
  | (y, w) :: r => if String.eqb x y then (y, v) :: r else (y, w) :: assign x v r
  end.
(** Leaving a block (codegen.go:227, 266) drops the variables declared in it; they are in
    front. *)
Definition leave (outer e : genv) : genv := skipn (length e - length outer) e.

(** How a statement of process ends (codegen.go:146-292). *)
Inductive outcome : Type :=
| ONext (e : genv) (st : gstate)
| OReturn (st : gstate)
| OContinue (e : genv) (st : gstate)
| OPanic
| OStuck.

Section Runtime.
  Variable input : list Z.
  Variable max_elems : Z.               (* MaxElements *)
  Variable ord : nat -> list Z -> list Z.     (* the order Go iterates popped[v] in *)
  Variable pg : program.

  (** add (codegen.go:541-548). *)
  Definition g_add (L : Z) (u : ggss) (i rc : Z) (st : gstate) : gstate :=
    let d := mkGD L u i rc in
    if in_dec gdesc_eq_dec d (gs_seen st) then st
    else mkG (d :: gs_seen st) (d :: gs_work st) (gs_edges st) (gs_popped st) (gs_set st) (gs_aborted st) (gs_tick st).

  (** slotInfo[L] (codegen.go:563). *)
  Definition info_of (L : Z) : option sinfo := if L <? 0 then None else nth_error (pg_info pg) (Z.to_nat L).

  (** record (codegen.go:562-571). *)
  Definition g_record (L l k r : Z) (st : gstate) : res gstate :=
    match info_of L with
    | None => Panic
    | Some si =>
        if (Nat.leb 2 (si_dot si) || Nat.eqb (si_dot si) (si_plen si))%bool then
          if ((0 <? max_elems) && (max_elems <=? Z.of_nat (length (gs_set st))))%bool then
            Val (mkG (gs_seen st) (gs_work st) (gs_edges st) (gs_popped st) (gs_set st) true (gs_tick st))
          else
            let e := mkGE L l k r in
            if in_dec gelem_eq_dec e (gs_set st) then Val st
            else Val (mkG (gs_seen st) (gs_work st) (gs_edges st) (gs_popped st) (e :: gs_set st) (gs_aborted st) (gs_tick st))
        else Val st
    end.

  (** The loops of create and pop (codegen.go:578-581, 594-597). *)
  Fixpoint fold_res {A} (f : gstate -> A -> res gstate) (l : list A) (st : gstate) : res gstate :=
    match l with
    | [] => Val st
    | x :: r => bind (f st x) (fold_res f r)
    end.

  (** u.edges (codegen.go:495, 594). *)
  Definition g_edges_of (u : ggss) (l : list (ggss * ggss)) : list ggss :=
    map snd (filter (fun e => if ggss_eq_dec (fst e) u then true else false) l).
  (** The keys of popped[v] (codegen.go:511, 578). *)
  Definition g_popped_of (u : ggss) (l : list (ggss * Z)) : list Z :=
    map snd (filter (fun e => if ggss_eq_dec (fst e) u then true else false) l).

  (** create (codegen.go:573-584), with gssNodeFor (codegen.go:550-558). *)
  Definition g_create (ret : Z) (u : ggss) (i rc : Z) (st : gstate) : res gstate :=
    let v := GGN ret i rc in
    if in_dec gedge_eq_dec (v, u) (gs_edges st) then Val st
    else
      fold_res (fun s j => bind (g_record ret (gg_pos u) i j s) (fun s' => Val (g_add ret u j rc s')))
        (ord (gs_tick st) (g_popped_of v (gs_popped st)))
        (mkG (gs_seen st) (gs_work st) (gs_edges st ++ [(v, u)]) (gs_popped st) (gs_set st) (gs_aborted st) (S (gs_tick st))).

  (** pop (codegen.go:586-598). *)
  Definition g_pop (u : ggss) (j : Z) (st : gstate) : res gstate :=
    match u with
    | GU0 => Val st
    | GGN ret pos rc =>
        fold_res (fun s v => bind (g_record ret (gg_pos v) pos j s) (fun s' => Val (g_add ret v j rc s')))
          (g_edges_of u (gs_edges st))
          (if in_dec gpop_eq_dec (u, j) (gs_popped st) then st
           else mkG (gs_seen st) (gs_work st) (gs_edges st) ((u, j) :: gs_popped st) (gs_set st) (gs_aborted st) (gs_tick st))
    end.

  (** *** Meaning of the emitted statements (Go specification) *)
  (** series%d (codegen.go:374-382). *)
  Definition series_of (k : nat) : option (list Z) := nth_error (pg_series pg) k.
  (** A variable of numeric type (codegen.go:148). *)
  Definition num_of (x : string) (e : genv) : res Z := match lookup x e with Some (VNum z) => Val z | _ => Stuck end.
  (** A variable holding a node (codegen.go:148, 172). *)
  Definition node_of (x : string) (e : genv) : res ggss := match lookup x e with Some (VNode u) => Val u | _ => Stuck end.

  (** The expressions of the emitted statements (codegen.go:171-292), with foldB and foldR
      (codegen.go:515-527). *)
  Fixpoint eval (a : gexp) (e : genv) : res Z :=
    match a with
    | XInt z => Val z
    | XVar x => num_of x e
    | XPlus a b => bind (eval a e) (fun x => bind (eval b e) (fun y => Val (x + y)))
    | XLenInput => Val (Z.of_nat (length input))
    | XLenSeries k => match series_of k with Some s => Val (Z.of_nat (length s)) | None => Stuck end
    | XInput a => bind (eval a e) (fun x => if x <? 0 then Panic else
                    match nth_error input (Z.to_nat x) with Some b => Val b | None => Panic end)
    | XFoldB a => bind (eval a e) (fun x => Val (fold_ascii x))
    | XFoldR a => bind (eval a e) (fun x => Val (fold_ascii x))
    | XRuneError => if pg_utf8 pg then Val RuneError else Stuck
    | XPos x => bind (node_of x e) (fun u => Val (gg_pos u))
    end.
  (** p.input[x:y] (codegen.go:228, 268, 290). *)
  Definition slice_in (x y : Z) : res (list Z) :=
    if ((x <? 0) || (y <? x) || (Z.of_nat (length input) <? y))%bool then Panic
    else Val (firstn (Z.to_nat (y - x)) (skipn (Z.to_nat x) input)).
  (** A comparison of two numbers (codegen.go:171-292). *)
  Definition compare (f : Z -> Z -> bool) (a b : gexp) (e : genv) : res bool :=
    bind (eval a e) (fun x => bind (eval b e) (fun y => Val (f x y))).
  (** The conditions of the emitted statements (codegen.go:171-292), with bytesEqual
      (codegen.go:529-539). *)
  Fixpoint test (c : gcond) (e : genv) : res bool :=
    match c with
    | CLt a b => compare Z.ltb a b e
    | CGt a b => compare Z.gtb a b e
    | CGe a b => compare Z.geb a b e
    | CEq a b => compare Z.eqb a b e
    | CNe a b => compare (fun x y => negb (x =? y)) a b e
    | COr c d => bind (test c e) (fun x => if x then Val true else test d e)
    | CAnd c d => bind (test c e) (fun x => if x then test d e else Val false)
    | CDiffer a k =>
        bind (eval a e) (fun x =>
          match series_of k with
          | None => Stuck
          | Some s => bind (slice_in x (x + Z.of_nat (length s))) (fun b => Val (negb (list_eqb b s)))
          end)
    end.

  (** Going on after a call of record, create or pop (codegen.go:155, 172, 207, 212). *)
  Definition then_next (e : genv) (r : res gstate) : outcome :=
    match r with Val st => ONext e st | Panic => OPanic | Stuck => OStuck end.
  (** Going on after an expression (codegen.go:171-292). *)
  Definition with_val {A} (r : res A) (f : A -> outcome) : outcome :=
    match r with Val a => f a | Panic => OPanic | Stuck => OStuck end.

  Section Stmts.
    Variable exec1 : gstmt -> genv -> gstate -> outcome.
    (** A list of statements (codegen.go:146-292). *)
    Fixpoint exec_seq (l : list gstmt) (e : genv) (st : gstate) : outcome :=
      match l with
      | [] => ONext e st
      | s :: r => match exec1 s e st with ONext e' st' => exec_seq r e' st' | o => o end
      end.
    (** A block: a case, the body of an if, or braces (codegen.go:153, 227, 266). *)
    Definition exec_block (l : list gstmt) (e : genv) (st : gstate) : outcome :=
      match exec_seq l e st with
      | ONext e' st' => ONext (leave e e') st'
      | OContinue e' st' => OContinue (leave e e') st'
      | o => o
      end.
  End Stmts.
  (** The emitted statements (codegen.go:146-292). *)
  Fixpoint exec (s : gstmt) (e : genv) (st : gstate) : outcome :=
    match s with
    | XDeclare x a => with_val (eval a e) (fun z => ONext ((x, VNum z) :: e) st)
    | XDecode r s a =>
        if pg_utf8 pg then
          with_val (eval a e) (fun x => with_val (slice_in x (Z.of_nat (length input))) (fun b =>
            let '(rv, rs) := decode_rune b in ONext ((s, VNum (Z.of_nat rs)) :: (r, VNum rv) :: e) st))
        else OStuck
    | XAssign x a => with_val (eval a e) (fun z => with_val (num_of x e) (fun _ => ONext (assign x (VNum z) e) st))
    | XAddTo x a => with_val (eval a e) (fun z => with_val (num_of x e) (fun y => ONext (assign x (VNum (y + z)) e) st))
    | XIf c body => with_val (test c e) (fun b => if b then exec_block exec body e st else ONext e st)
    | XBlock body => exec_block exec body e st
    | XReturn => OReturn st
    | XContinue => OContinue e st
    | XCreate x ret u i rc =>
        with_val (node_of u e) (fun un => with_val (eval i e) (fun iz => with_val (eval rc e) (fun rz =>
          then_next ((x, VNode (GGN ret iz rz)) :: e) (g_create ret un iz rz st))))
    | XAdd L v i rc =>
        with_val (node_of v e) (fun vn => with_val (eval i e) (fun iz => with_val (eval rc e) (fun rz =>
          ONext e (g_add L vn iz rz st))))
    | XRecord L l k r =>
        with_val (eval l e) (fun lz => with_val (eval k e) (fun kz => with_val (eval r e) (fun rz =>
          then_next e (g_record L lz kz rz st))))
    | XPop u i => with_val (node_of u e) (fun un => with_val (eval i e) (fun iz => then_next e (g_pop un iz st)))
    end.

  (** The loop of process (codegen.go:150-168): for { switch L { ... } }; [None] is out of fuel. *)
  Fixpoint g_loop (fuel : nat) (e : genv) (st : gstate) : option (res gstate) :=
    match fuel with
    | O => None
    | S f =>
        match num_of "L" e with
        | Val L =>
            match (if L <? 0 then None else nth_error (pg_cases pg) (Z.to_nat L)) with
            | None => Some (Val st)                       (* default: return *)
            | Some body =>
                match exec_block exec body e st with
                | ONext e' st' => g_loop f e' st'
                | OContinue e' st' => g_loop f e' st'
                | OReturn st' => Some (Val st')
                | OPanic => Some Panic
                | OStuck => Some Stuck
                end
            end
        | Panic => Some Panic
        | Stuck => Some Stuck
        end
    end.
  (** process of the emitted file (codegen.go:147-150); no slot is visited twice in one call, so
      the fuel is enough (C42). *)
  Definition g_process (d : gdesc) (st : gstate) : option (res gstate) :=
    g_loop (S (length (pg_cases pg)))
      [("L", VNum (gd_L d)); ("u", VNode (gd_u d)); ("i", VNum (gd_i d)); ("rc", VNum (gd_rc d))] st.

  (** What Parse returns (codegen.go:870-889): [GP_ok] is a Result whatever [aborted] says when
      the work list is empty. *)
  Inductive gp_result : Type :=
  | GP_ok (set : list gelem)
  | GP_too_large                        (* ErrTooLarge *)
  | GP_panic | GP_stuck | GP_fuel.
  (** The loop of Parse (codegen.go:880-888). *)
  Fixpoint g_run (fuel : nat) (st : gstate) : gp_result :=
    match gs_work st with
    | [] => GP_ok (gs_set st)
    | d :: w =>
        if gs_aborted st then GP_too_large
        else
          match fuel with
          | O => GP_fuel
          | S f =>
              match g_process d (mkG (gs_seen st) w (gs_edges st) (gs_popped st) (gs_set st) (gs_aborted st) (gs_tick st)) with
              | None => GP_fuel
              | Some (Val st') => g_run f st'
              | Some Panic => GP_panic
              | Some Stuck => GP_stuck
              end
          end
    end.
  (** The state before the loop of Parse, with seed (codegen.go:309-315, 871-879). *)
  Definition g_init : gstate :=
    fold_left (fun s id => g_add (Z.of_nat id) GU0 0 0 s) (pg_seed pg) (mkG [] [] [] [] [] false 0).
  (** Parse of the emitted file (codegen.go:870-889). *)
  Definition g_parse (fuel : nat) : gp_result := g_run fuel g_init.
End Runtime.

(** Result.Valid (codegen.go:643-651); a panic of ntComplete[gStart] is [None]. *)
Definition g_valid (pg : program) (n : nat) (set : list gelem) : option bool :=
  match nth_error (pg_complete pg) (pg_start pg) with
  | None => None
  | Some sls => Some (existsb (fun sl => existsb (fun e =>
      (ge_sl e =? Z.of_nat sl) && (ge_l e =? 0) && (ge_r e =? Z.of_nat n))%bool set) sls)
  end.

Example codegen_ex :
  let g := [mkRule "a" [[Rep 2 3 (EChar false [120]); Rep 1 1 (ERule "A")]; [Rep 1 1 (EOption [[Rep 1 1 (ERule "DIGIT")]])]]] in
  match generate_go_parser 30 g "a" with
  | Gen_ok pg =>
      match g_parse (bytes "XxxxX7") 0 (fun _ l => l) pg 200 with
      | GP_ok set => g_valid pg 6 set = Some true
      | _ => False
      end
  | _ => False
  end.
Proof. vm_compute. reflexivity. Qed.
