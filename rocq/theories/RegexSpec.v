(** Specification for Regex: languages of characters, the meaning of the nodes,
    and regular-expression texts.  Nothing here is modelled on regex.go except
    that [re_lang] is about its node type. *)
From Coq Require Import ZArith String Bool List.
From Verif Require Import Syntax Spec Utf8 Regex.
Import ListNotations.
Local Open Scope Z_scope.
Local Open Scope list_scope.

(** ** Languages of characters *)
Definition clang : Type := list Z -> Prop.
(** The empty word. *)
Definition l_eps : clang := fun w => w = [].
(** No word. *)
Definition l_none : clang := fun _ => False.
(** Union. *)
Definition l_or (L M : clang) : clang := fun w => L w \/ M w.
(** Juxtaposition. *)
Definition l_cat (L M : clang) : clang := fun w => exists u v, w = u ++ v /\ L u /\ M v.
(** Exactly [k] times. *)
Fixpoint l_pow (L : clang) (k : nat) : clang :=
  match k with O => l_eps | S k' => l_cat L (l_pow L k') end.
(** From [mn] to [mx] times. *)
Definition l_rep (L : clang) (mn : Z) (mx : option Z) : clang :=
  fun w => exists k, mn <= Z.of_nat k /\ match mx with None => True | Some m => Z.of_nat k <= m end /\ l_pow L k w.
(** A character of one of the ranges. *)
Definition in_ranges (rs : list (Z * Z)) (c : Z) : Prop := exists lo hi, In (lo, hi) rs /\ lo <= c <= hi.
(** One character satisfying [P]. *)
Definition l_char (P : Z -> Prop) : clang := fun w => exists c, w = [c] /\ scalar c /\ P c.
(** Equal languages. *)
Definition leq (L M : clang) : Prop := forall w, L w <-> M w.

(** ** The meaning of a node *)
Definition bound (mx : Z) : option Z := if mx =? inf then None else Some mx.
(** The words of a node. *)
Fixpoint re_lang (n : re) : clang :=
  match n with
  | RClass rs => l_char (in_ranges rs)
  | RConcat ps => fold_right (fun p L => l_cat (re_lang p) L) l_eps ps
  | RAlt os => fold_right (fun o L => l_or (re_lang o) L) l_none os
  | RRepeat sub mn mx => l_rep (re_lang sub) mn (bound mx)
  | REmpty => l_eps
  | RNever => l_none
  end.

(** ** Regular expressions and their texts

    The part of the RE2 syntax (package regexp/syntax) needed here: alternation
    [x|y], juxtaposition, the quantifiers [? * + {n} {n,} {n,m}] on an atom, groups
    [(?:x)], bracketed classes of letters, digits and hexadecimal escapes, escaped
    punctuation and literal characters in UTF-8.  Texts outside this part (among
    them an unescaped metacharacter standing for itself, doubled quantifiers, lazy
    ones, counts above the limit [lim] of the implementation) are not read. *)
Inductive rx : Type :=
| XEmpty
| XChars (neg : bool) (rs : list (Z * Z))
| XCat (x y : rx)
| XAlt (x y : rx)
| XRep (x : rx) (mn : Z) (mx : option Z).

(** The words of a regular expression. *)
Fixpoint rx_lang (x : rx) : clang :=
  match x with
  | XEmpty => l_eps
  | XChars false rs => l_char (in_ranges rs)
  | XChars true rs => l_char (fun c => ~ in_ranges rs c)
  | XCat x y => l_cat (rx_lang x) (rx_lang y)
  | XAlt x y => l_or (rx_lang x) (rx_lang y)
  | XRep x mn mx => l_rep (rx_lang x) mn mx
  end.

(** The words matched entirely, as bytes. *)
Definition matches (x : rx) (w : list Z) : Prop := exists rs, rx_lang x rs /\ w = utf8s rs.

(** The characters with a meaning of their own in a text. *)
Definition is_meta (b : Z) : bool :=
  existsb (Z.eqb b) (bytes "\.+*?()|[]{}^$").
(** ASCII punctuation. *)
Definition is_punct (b : Z) : bool :=
  (33 <=? b) && (b <=? 47) || (58 <=? b) && (b <=? 64) || (91 <=? b) && (b <=? 96) || (123 <=? b) && (b <=? 126).
(** ASCII letters and digits. *)
Definition is_alnum (b : Z) : bool :=
  (48 <=? b) && (b <=? 57) || (65 <=? b) && (b <=? 90) || (97 <=? b) && (b <=? 122).
(** The value of a digit in a radix. *)
Definition digit_of (radix b : Z) : option Z :=
  let d := if (48 <=? b) && (b <=? 57) then b - 48
           else if (65 <=? b) && (b <=? 70) then b - 55
           else if (97 <=? b) && (b <=? 102) then b - 87 else radix in
  if d <? radix then Some d else None.
(** All the digits at the head of a text. *)
Fixpoint read_digits (radix acc : Z) (s : list Z) : Z * list Z :=
  match s with
  | [] => (acc, [])
  | b :: s' => match digit_of radix b with Some d => read_digits radix (acc * radix + d) s' | None => (acc, s) end
  end.
(** A number at the head of a text. *)
Definition read_number (radix : Z) (s : list Z) : option (Z * list Z) :=
  match s with
  | [] => None
  | b :: _ => match digit_of radix b with Some _ => Some (read_digits radix 0 s) | None => None end
  end.
(** The byte [b] at the head of a text. *)
Definition eats (b : Z) (s : list Z) : option (list Z) :=
  match s with c :: s' => if c =? b then Some s' else None | [] => None end.

(** A member of a bracketed class. *)
Definition read_member (s : list Z) : option (Z * list Z) :=
  match s with
  | [] => None
  | b :: s1 =>
      if is_alnum b then Some (b, s1)
      else match eats 92 s with
           | None => None
           | Some s1 =>
               match eats 120 s1 with
               | None => None
               | Some s2 =>
                   match eats 123 s2 with
                   | Some s3 =>
                       match read_number 16 s3 with
                       | Some (v, s4) => match eats 125 s4 with
                                         | Some s5 => if v <=? 0x10FFFF then Some (v, s5) else None
                                         | None => None end
                       | None => None
                       end
                   | None =>
                       match s2 with
                       | h :: l :: s4 => match digit_of 16 h, digit_of 16 l with
                                         | Some a, Some b => Some (a * 16 + b, s4)
                                         | _, _ => None end
                       | _ => None
                       end
                   end
               end
           end
  end.
(** A character or a range of a bracketed class. *)
Definition read_item (s : list Z) : option ((Z * Z) * list Z) :=
  match read_member s with
  | None => None
  | Some (lo, s1) =>
      match eats 45 s1 with
      | None => Some ((lo, lo), s1)
      | Some s2 => match read_member s2 with
                   | Some (hi, s3) => if lo <=? hi then Some ((lo, hi), s3) else None
                   | None => None end
      end
  end.
(** The members of a class up to the closing bracket. *)
Fixpoint read_items (fuel : nat) (s : list Z) : option (list (Z * Z) * list Z) :=
  match fuel with
  | O => None
  | S f =>
      match read_item s with
      | None => None
      | Some (r, s1) =>
          match eats 93 s1 with
          | Some s2 => Some ([r], s2)
          | None => match read_items f s1 with Some (rs, s2) => Some (r :: rs, s2) | None => None end
          end
      end
  end.
(** A bracketed class after the opening bracket. *)
Definition read_class (s : list Z) : option (rx * list Z) :=
  let '(neg, s1) := match eats 94 s with Some s1 => (true, s1) | None => (false, s) end in
  match read_items (length s1) s1 with Some (rs, s2) => Some (XChars neg rs, s2) | None => None end.

(** What follows an opening brace. *)
Definition read_bounds (s : list Z) : option (Z * option Z * list Z) :=
  match read_number 10 s with
  | None => None
  | Some (lo, s1) =>
      match eats 125 s1 with
      | Some s2 => Some (lo, Some lo, s2)
      | None =>
          match eats 44 s1 with
          | None => None
          | Some s2 =>
              match eats 125 s2 with
              | Some s3 => Some (lo, None, s3)
              | None => match read_number 10 s2 with
                        | Some (hi, s3) => match eats 125 s3 with Some s4 => Some (lo, Some hi, s4) | None => None end
                        | None => None end
              end
          end
      end
  end.
(** A text beginning like a quantifier. *)
Definition quant_head (s : list Z) : bool :=
  match s with b :: _ => (b =? 63) || (b =? 42) || (b =? 43) || (b =? 123) | [] => false end.
Section Limit.
  Variable lim : Z.
  (** The bounds package regexp accepts. *)
  Definition good_bounds (lo : Z) (hi : option Z) : bool :=
    (lo <=? lim) && match hi with None => true | Some h => (lo <=? h) && (h <=? lim) end.
  (** A quantifier after [x], if there is one. *)
  Definition read_quant (x : rx) (s : list Z) : option (rx * list Z) :=
    match s with
    | [] => Some (x, s)
    | b :: s1 =>
        let q := if b =? 63 then Some (0, Some 1, s1)
                 else if b =? 42 then Some (0, None, s1)
                 else if b =? 43 then Some (1, None, s1)
                 else if b =? 123 then
                   match read_bounds s1 with
                   | Some (lo, hi, s2) => if good_bounds lo hi then Some (lo, hi, s2) else None
                   | None => None end
                 else None in
        if quant_head s then
          match q with
          | Some (lo, hi, s2) => if quant_head s2 then None else Some (XRep x lo hi, s2)
          | None => None
          end
        else Some (x, s)
    end.

  (** An alternation is read as far as possible, up to a closing parenthesis or the
      end of the text. *)
  Fixpoint p_alt (fuel : nat) (s : list Z) : option (rx * list Z) :=
    match fuel with
    | O => None
    | S f =>
        match p_cat f s with
        | None => None
        | Some (x, s1) =>
            match eats 124 s1 with
            | None => Some (x, s1)
            | Some s2 => match p_alt f s2 with Some (y, s3) => Some (XAlt x y, s3) | None => None end
            end
        end
    end
  with p_cat (fuel : nat) (s : list Z) : option (rx * list Z) :=
    match fuel with
    | O => None
    | S f =>
        match s with
        | [] => Some (XEmpty, s)
        | b :: _ =>
            if (b =? 124) || (b =? 41) then Some (XEmpty, s)
            else match p_atom f s with
                 | None => None
                 | Some (x, s1) =>
                     match read_quant x s1 with
                     | None => None
                     | Some (y, s2) => match p_cat f s2 with Some (z, s3) => Some (XCat y z, s3) | None => None end
                     end
                 end
        end
    end
  with p_atom (fuel : nat) (s : list Z) : option (rx * list Z) :=
    match fuel with
    | O => None
    | S f =>
        match s with
        | [] => None
        | b :: s1 =>
            if b =? 40 then
              match eats 63 s1 with
              | None => None
              | Some s2 =>
                  match eats 58 s2 with
                  | None => None
                  | Some s3 =>
                      match p_alt f s3 with
                      | None => None
                      | Some (x, s4) => match eats 41 s4 with Some s5 => Some (x, s5) | None => None end
                      end
                  end
              end
            else if b =? 91 then read_class s1
            else if b =? 92 then
              match s1 with
              | c :: s2 => if is_punct c then Some (XChars false [(c, c)], s2) else None
              | [] => None
              end
            else if is_meta b then None
            else match decode_ok s with Some (r, n) => Some (XChars false [(r, r)], skipn n s) | None => None end
        end
    end.

  (** The text [t] reads as [x]. *)
  Definition reads (t : list Z) (x : rx) : Prop := exists fuel, p_alt fuel t = Some (x, []).
End Limit.
