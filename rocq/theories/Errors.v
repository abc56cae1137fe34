(** ParseError: errors.go:40-139, and Forest.ParseError: sppf.go:700-705. *)
From Coq Require Import ZArith String Ascii Bool List Lia Permutation Sorted.
From Verif Require Import Syntax Spec Num Utf8 Term Printer Slots Gll Bsr BsrProof Sppf SppfProof.
Import ListNotations.
Local Open Scope string_scope.
Local Open Scope Z_scope.

(** ParseError (errors.go:44-59). *)
Record parse_error : Type := mkPE {
  pe_offset : Z; pe_line : Z; pe_col : Z;
  pe_expected : list string; pe_found : string; pe_hint : bool (* the bare-LF hint is set *) }.

(** describeByte (errors.go:89-104); %q of a printable ASCII character. *)
Definition describe_byte (b : Z) : string :=
  if b =? 13 then "%x0D (CR)"
  else if b =? 10 then "%x0A (LF)"
  else if b =? 9 then "%x09 (HTAB)"
  else if b =? 32 then "%x20 (SP)"
  else if ((32 <=? b) && (b <? 127))%bool then
    String """" ((if ((b =? 34) || (b =? 92))%bool then "\" else "") ++ string_of_bytes [b] ++ String """" "")
  else "%x" ++ String (ascii_of_N (Z.to_N (if b / 16 <? 10 then 48 + b / 16 else 55 + b / 16)))
              (String (ascii_of_N (Z.to_N (if b mod 16 <? 10 then 48 + b mod 16 else 55 + b mod 16))) "").

(** sort.Strings: bytewise order; equal strings are indistinguishable, so any
    sorting algorithm gives the same list. *)
Definition str_leb (a b : string) : bool := match String.compare a b with Gt => false | _ => true end.
(** (part of sort.Strings, errors.go:126) insertion into a sorted list. *)
Fixpoint insert_str (x : string) (l : list string) : list string :=
  match l with
  | [] => [x]
  | y :: l' => if str_leb x y then x :: l else y :: insert_str x l'
  end.
(** sort.Strings (errors.go:126): any sorting algorithm gives the same list, as equal strings
    are indistinguishable. *)
Definition sort_strings (l : list string) : list string := fold_right insert_str [] l.

(** The line and column loop (errors.go:116-124). *)
Fixpoint line_col (n : nat) (input : list Z) (line col : Z) : Z * Z :=
  match n, input with
  | S n', b :: input' => if b =? 10 then line_col n' input' (line + 1) 1 else line_col n' input' line (col + 1)
  | _, _ => (line, col)
  end.

(** newParseError (errors.go:109-139). *)
Definition new_parse_error (input : list Z) (offset : Z) (expected : list string) : parse_error :=
  let offset := if offset <? 0 then 0 else offset in
  let offset := if Z.of_nat (length input) <? offset then Z.of_nat (length input) else offset in
  let o := Z.to_nat offset in
  let '(line, col) := line_col o input 1 1 in
  if offset <? Z.of_nat (length input) then
    let b := nth o input 0 in
    mkPE offset line col (sort_strings expected) (describe_byte b)
         ((b =? 10) && ((offset =? 0) || negb (nth (o - 1) input 0 =? 13)))
  else mkPE offset line col (sort_strings expected) "EOF" false.

(** Forest.ParseError (sppf.go:700-705); [None] is nil. *)
Definition f_parse_error (f : forest) : option parse_error :=
  if f_valid f then None
  else Some (new_parse_error (f_input f) (Z.of_nat (f_maxpos f)) (f_expected f)).

(** *** Proofs *)
Lemma line_col_spec n : forall input l c line col, (n <= length input)%nat ->
  line_col n input l c = (line, col) ->
  line = l + Z.of_nat (count_occ Z.eq_dec (firstn n input) 10) /\
  exists pre post, firstn n input = (pre ++ post)%list /\ ~ In 10 post /\
    ((pre = [] /\ col = c + Z.of_nat (length post)) \/
     ((exists p, pre = p ++ [10])%list /\ col = 1 + Z.of_nat (length post))).
Proof.
  induction n as [|n IH]; intros input l c line col Le E.
  - cbn in *. inversion E; subst. split; [lia|]. exists [], []. cbn. repeat split; auto. left. split; auto. lia.
  - destruct input as [|b input]; [cbn in Le; lia|]. cbn [line_col] in E. cbn [length] in Le.
    cbn [firstn count_occ]. destruct (Z.eqb_spec b 10) as [->|N].
    + apply IH in E as (A & pre & post & F & NI & C); [|lia]. destruct (Z.eq_dec 10 10); [|congruence].
      split; [lia|]. exists (10 :: pre), post. rewrite F. split; [reflexivity|]. split; auto. right.
      destruct C as [[-> C]|[[p ->] C]]; [split; [exists []; reflexivity|lia]|split; [exists (10 :: p); reflexivity|lia]].
    + apply IH in E as (A & pre & post & F & NI & C); [|lia]. destruct (Z.eq_dec b 10); [congruence|].
      split; [lia|]. destruct C as [[-> C]|[[p ->] C]].
      * exists [], (b :: post). rewrite F. cbn in F. split; [reflexivity|]. split; [intros [X|X]; auto|].
        left. split; auto. cbn [length]. lia.
      * exists (b :: p ++ [10])%list, post. rewrite F. split; [reflexivity|]. split; auto. right. split; [exists (b :: p); reflexivity|auto].
Qed.

Lemma compare_refl a : String.compare a a = Eq.
Proof. induction a; cbn; auto. unfold Ascii.compare. rewrite N.compare_refl. auto. Qed.

Lemma str_leb_total a b : str_leb a b = false -> str_leb b a = true.
Proof. unfold str_leb. rewrite (String.compare_antisym a b). destruct (String.compare b a); cbn; congruence. Qed.

Lemma insert_perm x l : Permutation (insert_str x l) (x :: l).
Proof.
  induction l as [|y l IH]; cbn; auto. destruct (str_leb x y); auto.
  rewrite IH. apply perm_swap.
Qed.
Lemma sort_perm l : Permutation (sort_strings l) l.
Proof. induction l; cbn; auto. rewrite insert_perm. auto. Qed.
Lemma insert_sorted x l : Sorted (fun a b => str_leb a b = true) l -> Sorted (fun a b => str_leb a b = true) (insert_str x l).
Proof.
  induction 1 as [|y l S IH H]; cbn; [repeat constructor|].
  destruct (str_leb x y) eqn:E; [repeat constructor; auto|]. apply str_leb_total in E.
  constructor; auto. destruct l as [|z l]; cbn; [constructor; auto|].
  inversion H; subst. destruct (str_leb x z); constructor; auto.
Qed.
Lemma sort_sorted l : Sorted (fun a b => str_leb a b = true) (sort_strings l).
Proof. induction l; cbn; [constructor|apply insert_sorted; auto]. Qed.
