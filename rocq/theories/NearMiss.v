(** Strings just outside the grammar (fuzz.go:386-519). *)
From Coq Require Import ZArith Arith String Bool List.
From Verif Require Import Syntax Spec Num Utf8 Tape Graph Walk Recog Ast.
Import ListNotations.
Local Open Scope Z_scope.
Local Open Scope list_scope.

(** The label of a candidate (fuzz.go:415-418).  The texts of fmt.Sprintf are replaced
    by their arguments; L_trunc leaves out the length, which follows from the base. *)
Inductive label : Type :=
| L_range (off : Z) (above : bool) (e : elem)
| L_subst (pos b : Z)
| L_trunc (n : Z)
| L_trail (b : Z)
| L_del (pos : Z).
(** A candidate (fuzz.go:415-418). *)
Definition candidate : Type := (list Z * label)%type.

(** A slice expression b[i:j]; [None] is the panic.  Go allows j up to the capacity,
    here up to the length. *)
Definition slice (b : list Z) (i j : Z) : option (list Z) :=
  if (0 <=? i) && (i <=? j) && (j <=? Z.of_nat (length b))
  then Some (firstn (Z.to_nat (j - i)) (skipn (Z.to_nat i) b)) else None.
(** len(base) (fuzz.go:459, 473, 487). *)
Definition bytes_len (b : list Z) : Z := Z.of_nat (length b).
(** (auxiliary) a panic stops the computation. *)
Definition obind {A B : Type} (x : option A) (f : A -> option B) : option B := match x with Some a => f a | None => None end.
(** (auxiliary) a loop appending to cs (fuzz.go:435-478), stopped by a panic. *)
Fixpoint collect_all {A B : Type} (f : A -> option (list B)) (l : list A) : option (list B) :=
  match l with
  | [] => Some []
  | x :: l' => obind (f x) (fun y => obind (collect_all f l') (fun ys => Some (y ++ ys)))
  end.

(** numvalRange (fuzz.go:507-519); the outer [None] is the panic of an index out of
    range.  The label is the element. *)
Definition numval_range (e : elem) : option (option (Z * Z)) :=
  match e with
  | ENum b StatRange (lo :: hi :: _) =>
      let mx := numval_to_int32 hi b in
      Some (Some (numval_to_int32 lo b, if 0x10FFFF <? mx then 0x10FFFF else mx))
  | ENum _ StatRange _ => None
  | _ => Some None
  end.
(** One boundary value (fuzz.go:440-454).  The int32 computations min-1 and max+1 do not
    wrap: 0 <= min and max <= 0x10FFFF. *)
Definition boundary (base : list Z) (s : seg) (above : bool) (r : Z) : option (list candidate) :=
  if (r <? 0) || (0x10FFFF <? r) then Some []
  else
    obind (slice base 0 (sg_off s)) (fun a =>
    obind (slice base (sg_off s + sg_len s) (bytes_len base)) (fun c =>
    Some [(a ++ string_of_rune r ++ c, L_range (sg_off s) above (sg_elem s))])).
(** Boundary violations (fuzz.go:435-455). *)
Definition boundaries (base : list Z) (s : seg) : option (list candidate) :=
  match numval_range (sg_elem s) with
  | None => None
  | Some None => Some []
  | Some (Some (mn, mx)) =>
      obind (boundary base s false (mn - 1)) (fun a => obind (boundary base s true (mx + 1)) (fun b => Some (a ++ b)))
  end.
(** Substitutions at a position (fuzz.go:459-469). *)
Definition substitutions (base : list Z) (pos : Z) : option (list candidate) :=
  if pos <? 0 then None
  else match nth_error base (Z.to_nat pos) with
  | None => None
  | Some x =>
      Some (flat_map (fun nb => if nb =? x then []
              else [(firstn (Z.to_nat pos) base ++ nb :: skipn (S (Z.to_nat pos)) base, L_subst pos nb)])
            [0x00; 0xFF; Z.lxor x 0x20; (x + 1) mod 256; 33])
  end.
(** Truncations (fuzz.go:473-478). *)
Definition truncations (base : list Z) : option (list candidate) :=
  collect_all (fun n => if (n <=? 0) || (bytes_len base <? n) then Some []
    else obind (slice base 0 (bytes_len base - n)) (fun a => Some [(a, L_trunc n)]))
    [1; 2; bytes_len base / 2; bytes_len base - 1].
(** Trailing bytes (fuzz.go:481-484). *)
Definition trailing (base : list Z) : list candidate := map (fun nb => (base ++ [nb], L_trail nb)) [0x00; 33; 0xFF; 65].
(** The deletion (fuzz.go:487-491). *)
Definition deletion (base : list Z) (pos : Z) : option (list candidate) :=
  obind (slice base 0 pos) (fun a => obind (slice base (pos + 1) (bytes_len base)) (fun b => Some [(a ++ b, L_del pos)])).
(** The rotation (fuzz.go:494-497). *)
Definition rotate {A : Type} (cs : list A) (k : Z) : option (list A) :=
  if (k <? 0) || (Z.of_nat (length cs) <? k) then None else Some (skipn (Z.to_nat k) cs ++ firstn (Z.to_nat k) cs).

(** nearMissCandidates (fuzz.go:430-499), over any source; [None] is a panic. *)
Definition near_miss_candidates {S_ : Type} (intn : Z -> S_ -> Z * S_) (s : S_) (base : list Z) (trace : list seg) : option (list candidate) :=
  obind (collect_all (boundaries base) trace) (fun c1 =>
  let '(p, s1) := match base with [] => (0, s) | _ => intn (bytes_len base) s end in
  obind (match base with [] => Some [] | _ => substitutions base p end) (fun c2 =>
  obind (truncations base) (fun c3 =>
  let c4 := trailing base in
  let '(q, s2) := if 2 <=? bytes_len base then intn (bytes_len base) s1 else (0, s1) in
  obind (if 2 <=? bytes_len base then deletion base q else Some []) (fun c5 =>
  let cs := c1 ++ c2 ++ c3 ++ c4 ++ c5 in
  if (1 <? length cs)%nat then rotate cs (fst (intn (Z.of_nat (length cs)) s2)) else Some cs)))).

(** What NearMiss returns (fuzz.go:390-406). *)
Inductive near_result : Type :=
| NM_ok (w : list Z) (l : label)
| NM_none
| NM_panic
| NM_fuel.
(** The loop of NearMiss (fuzz.go:395-404).  [valid] is the check of the i-th
    candidate; the candidates are never nil. *)
Fixpoint first_rejected (valid : nat -> list Z -> valid_result) (base : list Z) (i : nat) (cs : list candidate) : near_result :=
  match cs with
  | [] => NM_none
  | (w, l) :: cs' =>
      if list_eq_dec Z.eq_dec w base then first_rejected valid base (S i) cs'
      else match valid i w with
           | VBool false => NM_ok w l
           | VBool true | VNotFound => first_rejected valid base (S i) cs'
           | VFuel => NM_fuel
           | VPanic => NM_panic
           end
  end.
(** NearMiss (fuzz.go:390-406).  Each call of IsValid has its own iteration orders. *)
Definition near_miss (fuel : nat) (ordn : nat -> nat -> list string -> list string) (order : nat -> list string)
    (ord : nat -> nat -> list nat -> list nat) (vfuel : list Z -> nat) (g : grammar) (n : string) (gen : generator) (tape : list Z) : near_result :=
  match walk tape_draw fuel gen (mkTape tape 0) with
  | W_fuel => NM_fuel
  | W_panic => NM_panic
  | W_ok base trace s =>
      match near_miss_candidates tape_draw s base trace with
      | None => NM_panic
      | Some cs => first_rejected (fun i w => is_valid (ordn i) (order i) (ord i) (vfuel w) g n w) base O cs
      end
  end.
