(** What the Go compiler demands of the variables of the emitted statements
    (The Go Programming Language Specification: "Declarations and scope", "Short
    variable declarations", "Assignability", "Representability"; an unused local
    variable and an unused import are errors). *)
From Coq Require Import ZArith String Bool List.
From Verif Require Import Syntax Codegen.
Import ListNotations.
Local Open Scope string_scope.
Local Open Scope list_scope.
Local Open Scope Z_scope.

(** int, byte, rune and *gnode. *)
Inductive gtype : Type := TInt | TByte | TRune | TNode.
Notation scope := (list (string * gtype)).
(** The innermost declaration of a name comes first. *)
Fixpoint type_of (x : string) (s : scope) : option gtype :=
  match s with
  | [] => None
  | (y, t) :: r => if String.eqb x y then Some t else type_of x r
  end.

(** [typed s e t]: every name in [e] is declared in [s], and [e] has type [t]; a
    constant must be representable. *)
Inductive typed (s : scope) : gexp -> gtype -> Prop :=
| ty_int z : typed s (XInt z) TInt
| ty_byte z : 0 <= z <= 255 -> typed s (XInt z) TByte
| ty_rune z : -2147483648 <= z <= 2147483647 -> typed s (XInt z) TRune
| ty_var x t : type_of x s = Some t -> typed s (XVar x) t
| ty_plus a b : typed s a TInt -> typed s b TInt -> typed s (XPlus a b) TInt
| ty_len : typed s XLenInput TInt
| ty_lens k : typed s (XLenSeries k) TInt
| ty_input a : typed s a TInt -> typed s (XInput a) TByte
| ty_foldb a : typed s a TByte -> typed s (XFoldB a) TByte
| ty_foldr a : typed s a TRune -> typed s (XFoldR a) TRune
| ty_error : typed s XRuneError TRune
| ty_pos x : type_of x s = Some TNode -> typed s (XPos x) TInt.
(** A condition is well typed (Go specification, "Comparison operators", "Logical operators";
    the conditions of codegen.go:171-292). *)
Inductive typed_cond (s : scope) : gcond -> Prop :=
| tc_lt a b t : t <> TNode -> typed s a t -> typed s b t -> typed_cond s (CLt a b)
| tc_gt a b t : t <> TNode -> typed s a t -> typed s b t -> typed_cond s (CGt a b)
| tc_ge a b t : t <> TNode -> typed s a t -> typed s b t -> typed_cond s (CGe a b)
| tc_eq a b t : typed s a t -> typed s b t -> typed_cond s (CEq a b)
| tc_ne a b t : typed s a t -> typed s b t -> typed_cond s (CNe a b)
| tc_or c d : typed_cond s c -> typed_cond s d -> typed_cond s (COr c d)
| tc_and c d : typed_cond s c -> typed_cond s d -> typed_cond s (CAnd c d)
| tc_differ a k : typed s a TInt -> typed_cond s (CDiffer a k).

(** The names a statement reads, those it declares, and its blocks.  The target of an
    assignment is not read. *)
Fixpoint exp_vars (a : gexp) : list string :=
  match a with
  | XVar x | XPos x => [x]
  | XPlus a b => exp_vars a ++ exp_vars b
  | XInput a | XFoldB a | XFoldR a => exp_vars a
  | _ => []
  end.
(** The names a condition reads (codegen.go:171-292). *)
Fixpoint cond_vars (c : gcond) : list string :=
  match c with
  | CLt a b | CGt a b | CGe a b | CEq a b | CNe a b => exp_vars a ++ exp_vars b
  | COr c d | CAnd c d => cond_vars c ++ cond_vars d
  | CDiffer a _ => exp_vars a
  end.
(** The names a statement reads; the target of an assignment is not read (codegen.go:146-292). *)
Definition reads (s : gstmt) : list string :=
  match s with
  | XDeclare _ a | XDecode _ _ a | XAssign _ a | XAddTo _ a => exp_vars a
  | XIf c _ => cond_vars c
  | XBlock _ | XReturn | XContinue => []
  | XCreate _ _ u i rc => u :: exp_vars i ++ exp_vars rc
  | XAdd _ v i rc => v :: exp_vars i ++ exp_vars rc
  | XRecord _ l k r => exp_vars l ++ exp_vars k ++ exp_vars r
  | XPop u i => u :: exp_vars i
  end.
(** The variables a statement declares, with their types (codegen.go:172, 178, 228, 231, 260,
    264, 268, 291). *)
Definition declares (s : gstmt) : scope :=
  match s with
  | XDeclare x _ => [(x, TInt)]
  | XDecode r s _ => [(r, TRune); (s, TInt)]
  | XCreate x _ _ _ _ => [(x, TNode)]
  | _ => []
  end.
(** The blocks of a statement (codegen.go:146-292). *)
Definition bodies (s : gstmt) : list (list gstmt) :=
  match s with XIf _ b | XBlock b => [b] | _ => [] end.

(** The statement itself, its blocks apart. *)
Inductive typed_stmt (s : scope) : gstmt -> Prop :=
| ts_declare x a : typed s a TInt -> typed_stmt s (XDeclare x a)
| ts_decode x y a : typed s a TInt -> typed_stmt s (XDecode x y a)
| ts_assign x a : type_of x s = Some TInt -> typed s a TInt -> typed_stmt s (XAssign x a)
| ts_addto x a : type_of x s = Some TInt -> typed s a TInt -> typed_stmt s (XAddTo x a)
| ts_if c b : typed_cond s c -> typed_stmt s (XIf c b)
| ts_block b : typed_stmt s (XBlock b)
| ts_return : typed_stmt s XReturn
| ts_continue : typed_stmt s XContinue
| ts_create x ret u i rc : type_of u s = Some TNode -> typed s i TInt -> typed s rc TInt -> typed_stmt s (XCreate x ret u i rc)
| ts_add L v i rc : type_of v s = Some TNode -> typed s i TInt -> typed s rc TInt -> typed_stmt s (XAdd L v i rc)
| ts_record L l k r : typed s l TInt -> typed s k TInt -> typed s r TInt -> typed_stmt s (XRecord L l k r)
| ts_pop u i : type_of u s = Some TNode -> typed s i TInt -> typed_stmt s (XPop u i).

(** A name declared just before these statements is read by them (not by a block where
    another variable of that name hides it). *)
Inductive used (x : string) : list gstmt -> Prop :=
| used_here s r : In x (reads s) -> used x (s :: r)
| used_inside s b r : In b (bodies s) -> used x b -> used x (s :: r)
| used_later s r : ~ In x (map fst (declares s)) -> used x r -> used x (s :: r).

(** [scoped outer here l]: the statements [l] compile in a block where [here] is declared
    so far, inside blocks that declare [outer]. *)
Inductive scoped (outer : scope) : scope -> list gstmt -> Prop :=
| scoped_nil here : scoped outer here []
| scoped_cons here s r :
    typed_stmt (here ++ outer) s ->
    (forall b, In b (bodies s) -> scoped (here ++ outer) [] b) ->
    NoDup (map fst (declares s)) ->
    (forall x, In x (map fst (declares s)) -> ~ In x (map fst here)) ->
    (forall x, In x (map fst (declares s)) -> used x r) ->
    scoped outer (declares s ++ here) r ->
    scoped outer here (s :: r).

(** References to package utf8, and to the variables of the series. *)
Fixpoint exp_utf8 (a : gexp) : bool :=
  match a with
  | XRuneError => true
  | XPlus a b => exp_utf8 a || exp_utf8 b
  | XInput a | XFoldB a | XFoldR a => exp_utf8 a
  | _ => false
  end.
(** Whether a condition refers to package utf8 (codegen.go:229, 269). *)
Fixpoint cond_utf8 (c : gcond) : bool :=
  match c with
  | CLt a b | CGt a b | CGe a b | CEq a b | CNe a b => exp_utf8 a || exp_utf8 b
  | COr c d | CAnd c d => cond_utf8 c || cond_utf8 d
  | CDiffer a _ => exp_utf8 a
  end.
(** Whether a statement refers to package utf8 (codegen.go:228-229, 268-269). *)
Fixpoint stmt_utf8 (s : gstmt) : bool :=
  match s with
  | XDecode _ _ _ => true
  | XDeclare _ a | XAssign _ a | XAddTo _ a => exp_utf8 a
  | XIf c b => cond_utf8 c || existsb stmt_utf8 b
  | XBlock b => existsb stmt_utf8 b
  | XReturn | XContinue => false
  | XCreate _ _ _ i rc | XAdd _ _ i rc => exp_utf8 i || exp_utf8 rc
  | XRecord _ l k r => exp_utf8 l || exp_utf8 k || exp_utf8 r
  | XPop _ i => exp_utf8 i
  end.
(** The series an expression refers to (codegen.go:290-291). *)
Fixpoint exp_series (a : gexp) : list nat :=
  match a with
  | XLenSeries k => [k]
  | XPlus a b => exp_series a ++ exp_series b
  | XInput a | XFoldB a | XFoldR a => exp_series a
  | _ => []
  end.
(** The series a condition refers to (codegen.go:290). *)
Fixpoint cond_series (c : gcond) : list nat :=
  match c with
  | CLt a b | CGt a b | CGe a b | CEq a b | CNe a b => exp_series a ++ exp_series b
  | COr c d | CAnd c d => cond_series c ++ cond_series d
  | CDiffer a k => k :: exp_series a
  end.
(** The series a statement refers to (codegen.go:290-291). *)
Fixpoint stmt_series (s : gstmt) : list nat :=
  match s with
  | XDeclare _ a | XDecode _ _ a | XAssign _ a | XAddTo _ a => exp_series a
  | XIf c b => cond_series c ++ flat_map stmt_series b
  | XBlock b => flat_map stmt_series b
  | XReturn | XContinue => []
  | XCreate _ _ _ i rc | XAdd _ _ i rc => exp_series i ++ exp_series rc
  | XRecord _ l k r => exp_series l ++ exp_series k ++ exp_series r
  | XPop _ i => exp_series i
  end.

(** L, u, i, rc := d.L, d.u, d.i, d.rc of process (codegen.go:148); each case is a block
    inside. *)
Definition locals : scope := [("L", TInt); ("u", TNode); ("i", TInt); ("rc", TInt)].
(** The rules of the Go compiler about names and types, for the emitted file (Go specification;
    the file is codegen.go:95-108). *)
Record compiles (pg : program) : Prop := {
  cp_cases : Forall (scoped locals []) (pg_cases pg);
  (* [L] is read by the switch and [rc] by _ = rc (codegen.go:149-150) *)
  cp_locals : forall x, In x ["u"; "i"] -> exists b, In b (pg_cases pg) /\ used x b;
  cp_utf8 : pg_utf8 pg = true <-> exists b, In b (pg_cases pg) /\ existsb stmt_utf8 b = true;
  cp_series : forall b k, In b (pg_cases pg) -> In k (flat_map stmt_series b) -> (k < length (pg_series pg))%nat }.
