(** Model of the parts of Go's unicode/utf8 the library calls, and their
    correctness with respect to the encoding of Spec.v. *)
From Coq Require Import ZArith List Bool Lia.
From Verif Require Import Syntax Spec.
Import ListNotations.
Local Open Scope Z_scope.

(** utf8.RuneError (recognize.go:246, 280). *)
Definition RuneError : Z := 0xFFFD.

(** (auxiliary) a range test. *)
Definition between (lo x hi : Z) : bool := (lo <=? x) && (x <=? hi).

(** utf8.DecodeRune, called at recognize.go:245,279, sppf.go:438,458, bsr.go:151,169.
    Modelled after the Go standard library (tables [first], [acceptRanges]): the
    pair (rune, size); (RuneError, 1) on a malformed sequence and (RuneError, 0)
    on the empty one.  Shifts and masks are written as arithmetic.  Elements that
    are not bytes (outside 0..255) are treated as malformed. *)
Definition decode_rune (p : list Z) : Z * nat :=
  match p with
  | [] => (RuneError, 0%nat)
  | p0 :: q =>
      if between 0 p0 0x7F then (p0, 1%nat)
      else if between 0xC2 p0 0xDF then
        match q with
        | b1 :: _ => if between 0x80 b1 0xBF then ((p0 - 0xC0) * 64 + (b1 - 0x80), 2%nat)
                     else (RuneError, 1%nat)
        | _ => (RuneError, 1%nat)
        end
      else if between 0xE0 p0 0xEF then
        let lo := if p0 =? 0xE0 then 0xA0 else 0x80 in
        let hi := if p0 =? 0xED then 0x9F else 0xBF in
        match q with
        | b1 :: b2 :: _ =>
            if between lo b1 hi && between 0x80 b2 0xBF then
              ((p0 - 0xE0) * 4096 + (b1 - 0x80) * 64 + (b2 - 0x80), 3%nat)
            else (RuneError, 1%nat)
        | _ => (RuneError, 1%nat)
        end
      else if between 0xF0 p0 0xF4 then
        let lo := if p0 =? 0xF0 then 0x90 else 0x80 in
        let hi := if p0 =? 0xF4 then 0x8F else 0xBF in
        match q with
        | b1 :: b2 :: b3 :: _ =>
            if between lo b1 hi && between 0x80 b2 0xBF && between 0x80 b3 0xBF then
              ((p0 - 0xF0) * 262144 + (b1 - 0x80) * 4096 + (b2 - 0x80) * 64 + (b3 - 0x80), 4%nat)
            else (RuneError, 1%nat)
        | _ => (RuneError, 1%nat)
        end
      else (RuneError, 1%nat)
  end.

(** utf8.ValidRune (recognize.go:259, sppf.go:472). *)
Definition valid_rune (r : Z) : bool :=
  ((0 <=? r) && (r <? 0xD800)) || ((0xDFFF <? r) && (r <=? 0x10FFFF)).

(** string(rune) (recognize.go:262, sppf.go:475, abnf.go:152, ...): the UTF-8
    encoding, or that of U+FFFD for a value that is not a scalar. *)
Definition string_of_rune (r : Z) : list Z :=
  if valid_rune r then
    if r <=? 0x7F then [r]
    else if r <=? 0x7FF then [0xC0 + r / 64; 0x80 + r mod 64]
    else if r <=? 0xFFFF then [0xE0 + r / 4096; 0x80 + r / 64 mod 64; 0x80 + r mod 64]
    else [0xF0 + r / 262144; 0x80 + r / 4096 mod 64; 0x80 + r / 64 mod 64; 0x80 + r mod 64]
  else [0xEF; 0xBF; 0xBD].

Lemma valid_rune_scalar r : valid_rune r = true <-> scalar r.
Proof.
  unfold valid_rune, scalar.
  rewrite orb_true_iff, !andb_true_iff, Z.leb_le, Z.leb_le, !Z.ltb_lt. tauto.
Qed.

Lemma string_of_rune_utf8 r : scalar r -> string_of_rune r = utf8 r.
Proof.
  intros H. unfold string_of_rune. rewrite (proj2 (valid_rune_scalar r) H).
  unfold utf8.
  destruct (Z.leb_spec r 0x7F), (Z.ltb_spec r 0x80); try lia; auto.
  destruct (Z.leb_spec r 0x7FF), (Z.ltb_spec r 0x800); try lia; auto.
  destruct (Z.leb_spec r 0xFFFF), (Z.ltb_spec r 0x10000); try lia; auto.
Qed.

Lemma between_true lo x hi : between lo x hi = true <-> lo <= x <= hi.
Proof. unfold between. rewrite andb_true_iff, !Z.leb_le. tauto. Qed.
Lemma between_false lo x hi : between lo x hi = false <-> (x < lo \/ hi < x).
Proof. unfold between. rewrite andb_false_iff, !Z.leb_gt. tauto. Qed.

Ltac dm :=
  repeat match goal with
  | H : context [between ?a ?b ?c] |- _ =>
      let E := fresh "E" in destruct (between a b c) eqn:E;
      [apply between_true in E | apply between_false in E]; cbn [andb] in H
  | |- context [between ?a ?b ?c] =>
      let E := fresh "E" in destruct (between a b c) eqn:E;
      [apply between_true in E | apply between_false in E]; cbn [andb]
  end.

(** Go semantics of a decoding failure: RuneError of width 1 (or 0 at the end). *)
Definition decode_ok (p : list Z) : option (Z * nat) :=
  let '(r, n) := decode_rune p in
  if (Z.eqb r RuneError && Nat.leb n 1)%bool then None else Some (r, n).

Lemma utf8_length r : (1 <= length (utf8 r) <= 4)%nat.
Proof.
  unfold utf8. destruct (r <? 0x80); [cbn; lia|].
  destruct (r <? 0x800); [cbn; lia|]. destruct (r <? 0x10000); cbn; lia.
Qed.

Lemma utf8_nonnil r : utf8 r <> [].
Proof. pose proof (utf8_length r). destruct (utf8 r); cbn in *; [lia|congruence]. Qed.

Lemma decode_utf8 r rest : scalar r ->
  decode_rune (utf8 r ++ rest) = (r, length (utf8 r)).
Proof.
  intros H. unfold utf8.
  destruct (Z.ltb_spec r 0x80).
  { cbn [app length decode_rune]. rewrite (proj2 (between_true 0 r 0x7F)); [reflexivity|]. unfold scalar in H; lia. }
  destruct (Z.ltb_spec r 0x800).
  { pose proof (Z.div_mod r 64 ltac:(lia)) as D.
    pose proof (Z.mod_pos_bound r 64 ltac:(lia)) as B.
    cbn [app length decode_rune].
    assert (2 <= r / 64 <= 31) by (split; [apply Z.div_le_lower_bound|apply Z.lt_succ_r, Z.div_lt_upper_bound]; lia).
    dm; try lia. f_equal; lia. }
  destruct (Z.ltb_spec r 0x10000).
  { pose proof (Z.div_mod r 64 ltac:(lia)) as D.
    pose proof (Z.mod_pos_bound r 64 ltac:(lia)) as B.
    pose proof (Z.div_mod (r/64) 64 ltac:(lia)) as D2.
    pose proof (Z.mod_pos_bound (r/64) 64 ltac:(lia)) as B2.
    assert (E : r / 4096 = r / 64 / 64) by (rewrite Z.div_div by lia; reflexivity).
    rewrite E. set (q := r / 64) in *. set (q2 := q / 64) in *.
    set (m := r mod 64) in *. set (m2 := q mod 64) in *.
    unfold scalar in H.
    cbn [app length decode_rune].
    dm; try lia;
    destruct (Z.eqb_spec (0xE0 + q2) 0xE0), (Z.eqb_spec (0xE0 + q2) 0xED); dm; try lia;
    try (f_equal; lia). }
  { pose proof (Z.div_mod r 64 ltac:(lia)) as D.
    pose proof (Z.mod_pos_bound r 64 ltac:(lia)) as B.
    pose proof (Z.div_mod (r/64) 64 ltac:(lia)) as D2.
    pose proof (Z.mod_pos_bound (r/64) 64 ltac:(lia)) as B2.
    pose proof (Z.div_mod (r/64/64) 64 ltac:(lia)) as D3.
    pose proof (Z.mod_pos_bound (r/64/64) 64 ltac:(lia)) as B3.
    assert (E : r / 4096 = r / 64 / 64) by (rewrite Z.div_div by lia; reflexivity).
    assert (E' : r / 262144 = r / 64 / 64 / 64) by (rewrite !Z.div_div by lia; reflexivity).
    rewrite E, E'. set (q := r / 64) in *. set (q2 := q / 64) in *. set (q3 := q2 / 64) in *.
    set (m := r mod 64) in *. set (m2 := q mod 64) in *. set (m3 := q2 mod 64) in *.
    unfold scalar in H.
    cbn [app length decode_rune].
    dm; try lia;
    destruct (Z.eqb_spec (0xF0 + q3) 0xF0), (Z.eqb_spec (0xF0 + q3) 0xF4); dm; try lia;
    try (f_equal; lia). }
Qed.

Lemma utf8_1 r : 0 <= r < 0x80 -> utf8 r = [r].
Proof. intros. unfold utf8. destruct (Z.ltb_spec r 0x80); [auto|lia]. Qed.
Lemma utf8_2 a b : 2 <= a < 32 -> 0 <= b < 64 -> utf8 (a * 64 + b) = [0xC0 + a; 0x80 + b].
Proof.
  intros. unfold utf8.
  destruct (Z.ltb_spec (a*64+b) 0x80); [lia|].
  destruct (Z.ltb_spec (a*64+b) 0x800); [|lia].
  rewrite Z.div_add_l, Z.div_small, Z.add_0_r by lia.
  rewrite Z.add_comm with (n := a*64), Z_mod_plus_full, Z.mod_small by lia. reflexivity.
Qed.
Lemma divmod64 a b : 0 <= b < 64 -> (a * 64 + b) / 64 = a /\ (a * 64 + b) mod 64 = b.
Proof.
  intros. split.
  - rewrite Z.div_add_l, Z.div_small by lia. lia.
  - rewrite Z.add_comm, Z_mod_plus_full, Z.mod_small by lia. reflexivity.
Qed.
Lemma utf8_3 a b c : 0 <= a < 16 -> 0 <= b < 64 -> 0 <= c < 64 -> 0x800 <= a*4096 + b*64 + c ->
  utf8 (a * 4096 + b * 64 + c) = [0xE0 + a; 0x80 + b; 0x80 + c].
Proof.
  intros. unfold utf8. set (r := a*4096+b*64+c) in *.
  assert (Hr : r = (a * 64 + b) * 64 + c) by (unfold r; lia).
  destruct (divmod64 (a*64+b) c ltac:(lia)) as [A1 A2].
  destruct (divmod64 a b ltac:(lia)) as [A3 A4].
  rewrite <- Hr in A1, A2.
  destruct (Z.ltb_spec r 0x80); [lia|].
  destruct (Z.ltb_spec r 0x800); [lia|].
  destruct (Z.ltb_spec r 0x10000); [|lia].
  replace (r / 4096) with (r / 64 / 64) by (rewrite Z.div_div by lia; reflexivity).
  rewrite A1, A2, A3, A4. reflexivity.
Qed.
Lemma utf8_4 a b c d : 0 <= a < 8 -> 0 <= b < 64 -> 0 <= c < 64 -> 0 <= d < 64 ->
  0x10000 <= a*262144 + b*4096 + c*64 + d ->
  utf8 (a*262144 + b*4096 + c*64 + d) = [0xF0 + a; 0x80 + b; 0x80 + c; 0x80 + d].
Proof.
  intros. unfold utf8. set (r := a*262144 + b*4096 + c*64 + d) in *.
  assert (Hr : r = ((a * 64 + b) * 64 + c) * 64 + d) by (unfold r; lia).
  destruct (divmod64 ((a*64+b)*64 + c) d ltac:(lia)) as [A1 A2].
  destruct (divmod64 (a*64+b) c ltac:(lia)) as [A3 A4].
  destruct (divmod64 a b ltac:(lia)) as [A5 A6].
  rewrite <- Hr in A1, A2.
  destruct (Z.ltb_spec r 0x80); [lia|].
  destruct (Z.ltb_spec r 0x800); [lia|].
  destruct (Z.ltb_spec r 0x10000); [lia|].
  replace (r / 262144) with (r / 64 / 64 / 64) by (rewrite !Z.div_div by lia; reflexivity).
  replace (r / 4096) with (r / 64 / 64) by (rewrite !Z.div_div by lia; reflexivity).
  rewrite A1, A2, A3, A4, A5, A6. reflexivity.
Qed.

(** A successful decoding reads the encoding of a scalar value. *)
Lemma decode_inv p r n : decode_rune p = (r, n) -> ~ (r = RuneError /\ (n <= 1)%nat) ->
  scalar r /\ n = length (utf8 r) /\ exists rest, p = utf8 r ++ rest.
Proof.
  intros H NE. destruct p as [|p0 q]; cbn [decode_rune] in H.
  { inversion H; subst. exfalso; apply NE; split; [reflexivity|lia]. }
  assert (ERR : (RuneError, 1%nat) = (r, n) -> False).
  { intros Q. inversion Q; subst. apply NE; split; [reflexivity|lia]. }
  destruct (between 0 p0 0x7F) eqn:E0.
  { apply between_true in E0. inversion H; subst.
    rewrite utf8_1 by lia. repeat split; [left; lia|].
    exists q; reflexivity. }
  destruct (between 0xC2 p0 0xDF) eqn:E1.
  { apply between_true in E1. destruct q as [|b1 q]; [tauto|].
    destruct (between 0x80 b1 0xBF) eqn:E2; [|tauto]. apply between_true in E2.
    inversion H; subst. rewrite utf8_2 by lia. repeat split; [left; lia|].
    exists q. cbn [app]. f_equal; [|f_equal]; lia. }
  destruct (between 0xE0 p0 0xEF) eqn:E2.
  { apply between_true in E2. destruct q as [|b1 [|b2 q]]; try tauto.
    match type of H with context [between ?a ?b ?c && _] => destruct (between a b c) eqn:E3 end; [|cbn in H; tauto].
    destruct (between 0x80 b2 0xBF) eqn:E4; [|cbn in H; tauto].
    apply between_true in E3, E4. cbn [andb] in H. inversion H; subst r n. clear H.
    destruct (Z.eqb_spec p0 0xE0), (Z.eqb_spec p0 0xED); try lia;
    rewrite utf8_3 by lia; (repeat split; [unfold scalar; lia|]);
    exists q; cbn [app]; repeat (f_equal; try lia). }
  destruct (between 0xF0 p0 0xF4) eqn:E3; [|tauto].
  { apply between_true in E3. destruct q as [|b1 [|b2 [|b3 q]]]; try tauto.
    match type of H with context [between ?a ?b ?c && _] => destruct (between a b c) eqn:E4 end; [|cbn in H; tauto].
    destruct (between 0x80 b2 0xBF) eqn:E5; [|cbn in H; tauto].
    destruct (between 0x80 b3 0xBF) eqn:E6; [|cbn in H; tauto].
    apply between_true in E4, E5, E6. cbn [andb] in H. inversion H; subst r n. clear H.
    destruct (Z.eqb_spec p0 0xF0), (Z.eqb_spec p0 0xF4); try lia;
    rewrite utf8_4 by lia; (repeat split; [unfold scalar; lia|]);
    exists q; cbn [app]; repeat (f_equal; try lia). }
Qed.

Lemma decode_ok_iff p r n :
  decode_ok p = Some (r, n) <-> scalar r /\ n = length (utf8 r) /\ exists rest, p = utf8 r ++ rest.
Proof.
  unfold decode_ok. split.
  - destruct (decode_rune p) as [r' n'] eqn:D.
    destruct (Z.eqb_spec r' RuneError), (Nat.leb_spec n' 1); cbn; intros HH; inversion HH; subst;
    (eapply decode_inv; [eassumption|]); unfold RuneError in *; lia.
  - intros (S & L & rest & E). subst p. rewrite decode_utf8 by auto.
    subst n. destruct (Z.eqb_spec r RuneError), (Nat.leb_spec (length (utf8 r)) 1); cbn; auto.
    exfalso. subst r. match goal with H : (_ <= 1)%nat |- _ => vm_compute in H; lia end.
Qed.

(** UTF-8 is a prefix code. *)
Lemma utf8_prefix r1 r2 x y : scalar r1 -> scalar r2 ->
  utf8 r1 ++ x = utf8 r2 ++ y -> r1 = r2 /\ x = y.
Proof.
  intros S1 S2 E.
  pose proof (decode_utf8 r1 x S1) as D1. pose proof (decode_utf8 r2 y S2) as D2.
  rewrite E, D2 in D1. inversion D1; subst. split; auto.
  eapply app_inv_head; eauto.
Qed.

Lemma utf8_inj r1 r2 : scalar r1 -> scalar r2 -> utf8 r1 = utf8 r2 -> r1 = r2.
Proof.
  intros S1 S2 E. destruct (utf8_prefix r1 r2 [] [] S1 S2); auto. rewrite !app_nil_r; auto.
Qed.

Lemma utf8s_prefix_len rs1 rs2 x y : Forall scalar rs1 -> Forall scalar rs2 -> length rs1 = length rs2 ->
  utf8s rs1 ++ x = utf8s rs2 ++ y -> rs1 = rs2 /\ x = y.
Proof.
  intros F1. revert rs2. induction F1 as [|r1 rs1 S1 F1 IH]; intros rs2 F2 L E.
  - destruct rs2; [|discriminate]. auto.
  - destruct rs2 as [|r2 rs2]; [discriminate|]. inversion F2; subst.
    cbn in E. rewrite <- !app_assoc in E.
    apply utf8_prefix in E; auto. destruct E as [-> E].
    destruct (IH rs2) as [-> ->]; auto.
Qed.
