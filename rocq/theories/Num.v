(** Numerals: model of utils.go:12-135 and correctness. *)
From Coq Require Import ZArith String Ascii Bool List Lia.
From Verif Require Import Syntax Spec.
Import ListNotations.
Local Open Scope Z_scope.

(** math.MaxInt32 (utils.go:63). *)
Definition MaxInt32 : Z := 2147483647.
(** math.MaxUint64, the limit of strconv.ParseUint (utils.go:48). *)
Definition MaxUint64 : Z := 18446744073709551615.

(** The code of a character of a Go string. *)
Definition code (c : ascii) : Z := Z.of_N (N_of_ascii c).

(** baseRadix (utils.go:25-35). *)
Definition base_radix (base : string) : Z :=
  if (String.eqb base "B" || String.eqb base "b")%bool then 2
  else if (String.eqb base "D" || String.eqb base "d")%bool then 10
  else if (String.eqb base "X" || String.eqb base "x")%bool then 16
  else 10.

(** Digit classification of strconv.ParseUint (called at utils.go:48). *)
Definition go_digit (c : ascii) : option Z :=
  let n := code c in
  if (48 <=? n) && (n <=? 57) then Some (n - 48)
  else if (97 <=? n) && (n <=? 122) then Some (n - 87)
  else if (65 <=? n) && (n <=? 90) then Some (n - 55)
  else None.

(** strconv.ParseUint(str, radix, 64) on radix 2, 10 or 16 (utils.go:48), with
    the cut-off test of the standard library. *)
Fixpoint parse_uint_loop (radix acc : Z) (s : string) : option Z :=
  match s with
  | EmptyString => Some acc
  | String c s' =>
      match go_digit c with
      | None => None
      | Some d =>
          if radix <=? d then None
          else if (MaxUint64 / radix + 1) <=? acc then None
          else
            let n1 := acc * radix + d in
            if MaxUint64 <? n1 then None else parse_uint_loop radix n1 s'
      end
  end.

(** strconv.ParseUint on radix 2, 10 or 16 (utils.go:48). *)
Definition parse_uint (radix : Z) (s : string) : option Z :=
  match s with
  | EmptyString => None
  | _ => parse_uint_loop radix 0 s
  end.

(** numvalToUint64 (utils.go:47-53). *)
Definition numval_to_uint64 (s base : string) : option Z := parse_uint (base_radix base) s.

(** numvalToInt32 (utils.go:61-67) and numvalToRune (utils.go:74-76). *)
Definition numval_to_int32 (s base : string) : Z :=
  match numval_to_uint64 s base with
  | Some v => if MaxInt32 <? v then MaxInt32 else v
  | None => MaxInt32
  end.
(** numvalToRune (utils.go:74-76). *)
Definition numval_to_rune := numval_to_int32.

(** strconv.FormatInt for non-negative values, upper-cased as at utils.go:19;
    the 64 steps are the size of strconv's digit buffer. *)
Definition digit_char (d : Z) : ascii :=
  ascii_of_N (Z.to_N (if d <? 10 then 48 + d else 55 + d)).

(** strconv.FormatInt (utils.go:15, 17, 19, 21). *)
Fixpoint format_loop (fuel : nat) (radix v : Z) (acc : string) : string :=
  match fuel with
  | O => acc
  | S f =>
      let acc' := String (digit_char (v mod radix)) acc in
      if v <? radix then acc' else format_loop f radix (v / radix) acc'
  end.

(** int32ToNumval (utils.go:12-22).  For base 2 and 10 the upper-casing is
    absent in Go, but those digits are not letters.  Negative values get a sign. *)
Definition int32_to_numval (v : Z) (base : string) : string :=
  if v <? 0 then String "-" (format_loop 64 (base_radix base) (- v) EmptyString)
  else format_loop 64 (base_radix base) v EmptyString.

(** strings.TrimLeft(str, "0") (utils.go:85). *)
Fixpoint trim_left0 (s : string) : string :=
  match s with
  | String c s' => if Ascii.eqb c "0" then trim_left0 s' else s
  | EmptyString => EmptyString
  end.

(** str[i] as a number; checkBounds only indexes after a length test. *)
Definition at_ (s : string) (i : nat) : Z :=
  match String.get i s with Some c => code c | None => 0 end.

(** checkBounds (utils.go:84-132); [true] is a nil error. *)
Definition check_bounds (str base : string) : bool :=
  let s := trim_left0 str in
  let n := Z.of_nat (String.length s) in
  if (String.eqb base "B" || String.eqb base "b")%bool then
    negb ((21 <? n) ||
      ((n =? 21) && (negb (at_ s 1 =? 48) || negb (at_ s 2 =? 48)
                     || negb (at_ s 3 =? 48) || negb (at_ s 4 =? 48))))
  else if (String.eqb base "D" || String.eqb base "d")%bool then
    negb ((7 <? n) ||
      ((n =? 7) && ((49 <? at_ s 0) || ((at_ s 0 =? 49) && ((49 <? at_ s 1) || ((at_ s 1 =? 49) &&
        ((49 <? at_ s 2) || ((at_ s 2 =? 49) && ((52 <? at_ s 3) || ((at_ s 3 =? 52) &&
        ((49 <? at_ s 4) || ((at_ s 4 =? 49) && ((49 <? at_ s 5) || ((at_ s 5 =? 49) &&
        (49 <? at_ s 6)))))))))))))))
  else if (String.eqb base "X" || String.eqb base "x")%bool then
    negb ((6 <? n) ||
      ((n =? 6) && ((49 <? at_ s 0) || ((at_ s 0 =? 49) && (48 <? at_ s 1)))))
  else true.

(** ** Proofs *)

Lemma code_range c : 0 <= code c < 256.
Proof. unfold code. pose proof (N_ascii_bounded c). lia. Qed.

Lemma digit_val_go c d : digit_val c = Some d -> go_digit c = Some d /\ 0 <= d < 16.
Proof.
  unfold digit_val, go_digit, code. intros H.
  set (n := Z.of_N (N_of_ascii c)) in *.
  destruct ((48 <=? n) && (n <=? 57)) eqn:E1.
  { inversion H; subst. split; auto. apply andb_true_iff in E1 as [A B]. lia. }
  destruct ((65 <=? n) && (n <=? 70)) eqn:E2.
  { inversion H; subst. apply andb_true_iff in E2 as [A B].
    destruct ((97 <=? n) && (n <=? 122)) eqn:E3.
    { apply andb_true_iff in E3 as [C D]. lia. }
    destruct ((65 <=? n) && (n <=? 90)) eqn:E4; [split; [auto|lia]|].
    apply andb_false_iff in E4. lia. }
  destruct ((97 <=? n) && (n <=? 102)) eqn:E3; [|discriminate].
  inversion H; subst. apply andb_true_iff in E3 as [A B].
  destruct ((97 <=? n) && (n <=? 122)) eqn:E4; [split; [auto|lia]|].
  apply andb_false_iff in E4. lia.
Qed.

Lemma radix_of_base b r : radix_of b = Some r -> base_radix b = r /\ (r = 2 \/ r = 10 \/ r = 16).
Proof.
  unfold radix_of, base_radix. intros H.
  rewrite (orb_comm (String.eqb b "B")), (orb_comm (String.eqb b "D")), (orb_comm (String.eqb b "X")).
  destruct (_ || _)%bool; [inversion H; tauto|].
  destruct (_ || _)%bool; [inversion H; tauto|].
  destruct (_ || _)%bool; inversion H; tauto.
Qed.

Lemma digits_val_mono r s : 2 <= r -> forall acc v, 0 <= acc -> digits_val r acc s = Some v -> acc <= v.
Proof.
  intros Hr. induction s as [|c s IH]; cbn; intros acc v Ha H.
  - inversion H; lia.
  - destruct (digit_val c) as [d|] eqn:D; [|discriminate].
    destruct (d <? r); [|discriminate]. apply digit_val_go in D as [_ D].
    apply IH in H; nia.
Qed.

Lemma parse_uint_loop_spec r s : (r = 2 \/ r = 10 \/ r = 16) ->
  forall acc v, 0 <= acc <= MaxUint64 -> digits_val r acc s = Some v ->
  parse_uint_loop r acc s = if v <=? MaxUint64 then Some v else None.
Proof.
  intros Hr. induction s as [|c s IH]; cbn [digits_val parse_uint_loop]; intros acc v Ha H.
  - inversion H; subst. destruct (Z.leb_spec v MaxUint64); [auto|lia].
  - destruct (digit_val c) as [d|] eqn:D; [|discriminate].
    destruct (Z.ltb_spec d r); [|discriminate]. apply digit_val_go in D as [D1 D2]. rewrite D1.
    destruct (Z.leb_spec r d); [lia|].
    assert (M : acc * r + d <= v) by (eapply (digits_val_mono r s); [lia| |eassumption]; nia).
    destruct (Z.leb_spec (MaxUint64 / r + 1) acc) as [C|C].
    { assert (MaxUint64 < acc * r).
      { pose proof (Z.div_mod MaxUint64 r ltac:(lia)). pose proof (Z.mod_pos_bound MaxUint64 r ltac:(lia)). nia. }
      destruct (Z.leb_spec v MaxUint64); [lia|auto]. }
    destruct (Z.ltb_spec MaxUint64 (acc * r + d)) as [C2|C2].
    { destruct (Z.leb_spec v MaxUint64); [lia|auto]. }
    apply IH; auto. nia.
Qed.

(** Reading a literal: exact below 2^64, absent above. *)
Lemma numval_to_uint64_spec base s v : numeral base s = Some v ->
  numval_to_uint64 s base = if v <=? MaxUint64 then Some v else None.
Proof.
  unfold numeral, numval_to_uint64, parse_uint. intros H.
  destruct (radix_of base) as [r|] eqn:R; [|discriminate].
  apply radix_of_base in R as [R1 R2]. rewrite R1.
  destruct s as [|c s]; [discriminate|].
  apply parse_uint_loop_spec; auto. unfold MaxUint64; lia.
Qed.

Lemma numeral_nonneg base s v : numeral base s = Some v -> 0 <= v.
Proof.
  unfold numeral. destruct (radix_of base) as [r|] eqn:R; [|discriminate].
  apply radix_of_base in R as [_ R2].
  destruct s; [discriminate|]. intros H. eapply digits_val_mono in H; lia.
Qed.

Lemma numval_to_int32_spec base s v : numeral base s = Some v ->
  numval_to_int32 s base = Z.min v MaxInt32.
Proof.
  intros H. unfold numval_to_int32. rewrite (numval_to_uint64_spec base s v H).
  destruct (Z.leb_spec v MaxUint64).
  - destruct (Z.ltb_spec MaxInt32 v); lia.
  - unfold MaxInt32, MaxUint64 in *; lia.
Qed.

Lemma digit_char_val d : 0 <= d < 16 -> digit_val (digit_char d) = Some d.
Proof.
  intros H. unfold digit_val, digit_char.
  assert (N_of_ascii (ascii_of_N (Z.to_N (if d <? 10 then 48 + d else 55 + d))) =
          Z.to_N (if d <? 10 then 48 + d else 55 + d)) as E.
  { apply N_ascii_embedding. destruct (Z.ltb_spec d 10); lia. }
  rewrite E. destruct (Z.ltb_spec d 10).
  - rewrite Z2N.id by lia.
    destruct (Z.leb_spec 48 (48+d)), (Z.leb_spec (48+d) 57); try lia. cbn [andb]. f_equal; lia.
  - rewrite Z2N.id by lia.
    destruct (Z.leb_spec 48 (55+d)), (Z.leb_spec (55+d) 57); try lia; cbn [andb].
    destruct (Z.leb_spec 65 (55+d)), (Z.leb_spec (55+d) 70); try lia; cbn [andb]. f_equal; lia.
Qed.

Lemma format_loop_spec r : 2 <= r <= 16 -> forall fuel v acc k m,
  0 <= v < r ^ Z.of_nat fuel -> (0 < fuel)%nat ->
  (forall a, digits_val r a acc = Some (a * k + m)) ->
  exists k', forall a, digits_val r a (format_loop fuel r v acc) = Some (a * k' + (v * k + m)).
Proof.
  intros Hr. induction fuel as [|f IH]; intros v acc k m Hv Hf H; [lia|].
  cbn [format_loop].
  pose proof (Z.mod_pos_bound v r ltac:(lia)) as B. pose proof (Z.div_mod v r ltac:(lia)) as DM.
  assert (H' : forall a, digits_val r a (String (digit_char (v mod r)) acc) = Some (a * (r * k) + (v mod r * k + m))).
  { intros a. cbn [digits_val]. rewrite digit_char_val by lia.
    destruct (Z.ltb_spec (v mod r) r); [|lia]. rewrite H. f_equal. lia. }
  destruct (Z.ltb_spec v r).
  - exists (r*k). intros a. rewrite H'. rewrite Z.mod_small by lia. reflexivity.
  - destruct f as [|f].
    { change (Z.of_nat 1) with 1 in Hv. rewrite Z.pow_1_r in Hv. lia. }
    destruct (IH (v / r) (String (digit_char (v mod r)) acc) (r*k) (v mod r * k + m)) as [k' Hk].
    + split; [apply Z.div_pos; lia|]. apply Z.div_lt_upper_bound; [lia|].
      rewrite <- Z.pow_succ_r by lia. rewrite <- Nat2Z.inj_succ. lia.
    + lia.
    + exact H'.
    + exists k'. intros a. rewrite Hk. f_equal. f_equal. nia.
Qed.

Lemma format_loop_nonempty fuel r v acc : acc <> EmptyString -> format_loop fuel r v acc <> EmptyString.
Proof.
  revert v acc. induction fuel; cbn; intros; auto.
  destruct (v <? r); [discriminate|]. apply IHfuel. discriminate.
Qed.

Lemma format_loop_nonempty' fuel r v acc : format_loop (S fuel) r v acc <> EmptyString.
Proof. cbn. destruct (v <? r); [discriminate|]. apply format_loop_nonempty. discriminate. Qed.

Lemma int32_to_numval_numeral base v r : radix_of base = Some r -> 0 <= v <= MaxInt32 ->
  numeral base (int32_to_numval v base) = Some v.
Proof.
  intros R Hv. unfold numeral, int32_to_numval. rewrite R. apply radix_of_base in R as [R1 R2]. rewrite R1.
  destruct (Z.ltb_spec v 0); [lia|].
  destruct (format_loop_spec r ltac:(lia) 64 v EmptyString 1 0) as [k' Hk].
  - unfold MaxInt32 in Hv. split; [lia|]. change (Z.of_nat 64) with 64.
    apply Z.lt_le_trans with (2 ^ 64); [change (2^64) with 18446744073709551616; lia|].
    apply Z.pow_le_mono_l. lia.
  - lia.
  - intros a. cbn. f_equal; lia.
  - pose proof (format_loop_nonempty' 63 r v EmptyString) as NE.
    change (format_loop 64 r v "") with (format_loop (S 63) r v "") in *.
    destruct (format_loop (S 63) r v "") as [|c s] eqn:E; [tauto|].
    rewrite <- E in *. rewrite Hk. f_equal; lia.
Qed.

(** *** checkBounds *)

(** values of digit lists *)
Definition dval (r acc : Z) (l : list Z) : Z := fold_left (fun a d => a * r + d) l acc.

Lemma digits_val_list r s : forall acc v, digits_val r acc s = Some v ->
  exists l, length l = String.length s /\ Forall (fun d => 0 <= d < Z.min r 16) l /\
    dval r acc l = v /\
    (forall i d, nth_error l i = Some d -> exists c, String.get i s = Some c /\ digit_val c = Some d).
Proof.
  induction s as [|c s IH]; cbn [digits_val]; intros acc v H.
  - inversion H; subst. exists []. repeat split; auto. intros [|i] d Q; discriminate.
  - destruct (digit_val c) as [d|] eqn:D; [|discriminate].
    destruct (Z.ltb_spec d r); [|discriminate].
    apply IH in H as (l & L & F & V & G). exists (d :: l). cbn [length String.length].
    repeat split; auto.
    + constructor; auto. apply digit_val_go in D as [_ D]. lia.
    + intros [|i] d' Q; cbn in Q.
      * inversion Q; subst. exists c. auto.
      * apply G in Q. cbn. auto.
Qed.

Lemma dval_app r acc a b : dval r acc (a ++ b) = dval r (dval r acc a) b.
Proof. unfold dval. apply fold_left_app. Qed.

Lemma dval_bound r : 2 <= r -> forall l acc, Forall (fun d => 0 <= d < r) l ->
  acc * r ^ Z.of_nat (length l) <= dval r acc l < (acc + 1) * r ^ Z.of_nat (length l).
Proof.
  intros Hr. induction l as [|d l IH]; intros acc F.
  - cbn. lia.
  - inversion F; subst. cbn [dval fold_left length] in *. fold (dval r (acc * r + d) l).
    specialize (IH (acc * r + d) H2). rewrite Nat2Z.inj_succ, Z.pow_succ_r by lia.
    assert (0 < r ^ Z.of_nat (length l)) by (apply Z.pow_pos_nonneg; lia).
    nia.
Qed.

Lemma digit_val_code c d : digit_val c = Some d ->
  (d < 10 /\ code c = 48 + d) \/ (10 <= d < 16 /\ 65 <= code c <= 102).
Proof.
  unfold digit_val, code. set (n := Z.of_N (N_of_ascii c)). intros H.
  destruct ((48 <=? n) && (n <=? 57)) eqn:E1; [inversion H; apply andb_true_iff in E1; lia|].
  destruct ((65 <=? n) && (n <=? 70)) eqn:E2; [inversion H; apply andb_true_iff in E2; lia|].
  destruct ((97 <=? n) && (n <=? 102)) eqn:E3; [inversion H; apply andb_true_iff in E3; lia|].
  discriminate.
Qed.

(** Trimming zeros keeps the value and exposes a non-zero leading digit. *)
Lemma trim_left0_spec r s v : 2 <= r -> digits_val r 0 s = Some v ->
  digits_val r 0 (trim_left0 s) = Some v /\
  (trim_left0 s = EmptyString \/ exists c s', trim_left0 s = String c s' /\ code c <> 48).
Proof.
  intros Hr. induction s as [|c s IH]; cbn [trim_left0]; intros H; [auto|].
  destruct (Ascii.eqb_spec c "0").
  - subst c. apply IH. cbn [digits_val] in H.
    change (digit_val "0") with (Some 0) in H. cbn iota beta in H.
    destruct (0 <? r); [|discriminate]. rewrite Z.mul_0_l, Z.add_0_r in H. exact H.
  - split; auto. right. exists c, s. split; auto. intros E. apply n.
    unfold code in E. assert (E' : N_of_ascii c = 48%N) by lia.
    rewrite <- (ascii_N_embedding c), E'. reflexivity.
Qed.

Lemma at_get s i c : String.get i s = Some c -> at_ s i = code c.
Proof. unfold at_. intros ->. reflexivity. Qed.

(** (proof) [a] is the ASCII code of a digit of value [d]. *)
Definition same_digit (a d : Z) : Prop := (d < 10 /\ a = 48 + d) \/ (10 <= d < 16 /\ 65 <= a <= 102).

Lemma nth_at l s : (forall i d, nth_error l i = Some d -> exists c, String.get i s = Some c /\ digit_val c = Some d) ->
  forall i d, nth_error l i = Some d -> same_digit (at_ s i) d.
Proof.
  intros G i d H. destruct (G i d H) as (c & A & B). rewrite (at_get _ _ _ A).
  apply digit_val_code in B. unfold same_digit. lia.
Qed.

Lemma lead_nonzero r s v : digits_val r 0 s = Some v ->
  (s = EmptyString \/ exists c s', s = String c s' /\ code c <> 48) ->
  exists l, length l = String.length s /\ Forall (fun d => 0 <= d < Z.min r 16) l /\ dval r 0 l = v /\
    (forall i d, nth_error l i = Some d -> same_digit (at_ s i) d) /\
    (forall d, nth_error l 0 = Some d -> 1 <= d).
Proof.
  intros H L. destruct (digits_val_list _ _ _ _ H) as (l & Len & F & V & G).
  exists l. repeat split; auto.
  - apply nth_at; auto.
  - intros d N0. destruct (G _ _ N0) as (c & A & B).
    destruct L as [->|(c' & s' & -> & NE)]; [destruct l; discriminate|].
    cbn in A. inversion A; subst c'. apply digit_val_code in B.
    destruct l as [|x l]; [discriminate|]. cbn in N0. inversion N0; subst. inversion F; subst. lia.
Qed.

Lemma big_val r l d k : 2 <= r -> nth_error l 0 = Some d -> 1 <= d -> Forall (fun d => 0 <= d < r) l ->
  (k < length l)%nat -> r ^ Z.of_nat k <= dval r 0 l.
Proof.
  intros Hr N D F L. destruct l as [|x l]; [discriminate|]. inversion N; subst. inversion F; subst.
  cbn [dval fold_left]. fold (dval r (0 * r + d) l).
  pose proof (dval_bound r Hr l (0*r+d) H2). cbn in L.
  assert (r ^ Z.of_nat k <= r ^ Z.of_nat (length l)) by (apply Z.pow_le_mono_r; lia).
  nia.
Qed.

Lemma small_val r l k : 2 <= r -> Forall (fun d => 0 <= d < r) l -> (length l <= k)%nat ->
  dval r 0 l < r ^ Z.of_nat k.
Proof.
  intros Hr F L. pose proof (dval_bound r Hr l 0 F).
  assert (r ^ Z.of_nat (length l) <= r ^ Z.of_nat k) by (apply Z.pow_le_mono_r; lia). nia.
Qed.

Lemma forall_min r l : r <= 16 -> Forall (fun d => 0 <= d < Z.min r 16) l -> Forall (fun d => 0 <= d < r) l.
Proof. intros H. apply Forall_impl. intros; lia. Qed.

Ltac sd H := unfold same_digit in H; cbn [nth_error] in H.

Lemma check_bounds_spec base s v : numeral base s = Some v ->
  (check_bounds s base = true <-> v <= 0x10FFFF).
Proof.
  unfold numeral. destruct (radix_of base) as [r|] eqn:R; [|discriminate].
  destruct s as [|c0 s0]; [discriminate|]. set (s := String c0 s0). intros H.
  unfold check_bounds.
  unfold radix_of in R.
  rewrite (orb_comm (String.eqb base "B")), (orb_comm (String.eqb base "D")), (orb_comm (String.eqb base "X")).
  destruct (_ || _)%bool.
  { inversion R; subst r. clear R.
    destruct (trim_left0_spec 2 s v ltac:(lia) H) as [T1 T2].
    set (t := trim_left0 s) in *. clearbody t.
    destruct (lead_nonzero _ _ _ T1 T2) as (l & L & F & V & G & D0).
    apply forall_min in F; [|lia]. rewrite <- L.
    rewrite negb_true_iff, orb_false_iff, andb_false_iff.
    destruct (Z.ltb_spec 21 (Z.of_nat (length l))) as [C|C].
    { split; [intros [A _]; discriminate|]. intros Hv.
      destruct l as [|x l]; [cbn in C; lia|].
      pose proof (big_val 2 (x :: l) x 21 ltac:(lia) eq_refl (D0 _ eq_refl) F ltac:(lia)).
      cbn -[dval] in H0. lia. }
    destruct (Z.eqb_spec (Z.of_nat (length l)) 21) as [C2|C2].
    2:{ split; [intros _|tauto].
        pose proof (small_val 2 l 20 ltac:(lia) F ltac:(lia)). cbn -[dval] in H0. lia. }
    assert (exists a b c d e l', l = a :: b :: c :: d :: e :: l' /\ length l' = 16%nat) as (a & b & c & d & e & l' & -> & L').
    { destruct l as [|a [|b [|c [|d [|e l']]]]]; cbn [length] in C2; try lia.
      exists a, b, c, d, e, l'. split; auto. lia. }
    change (a :: b :: c :: d :: e :: l') with ([a;b;c;d;e] ++ l') in V.
    rewrite dval_app in V.
    assert (F' : Forall (fun d => 0 <= d < 2) l').
    { repeat match goal with H : Forall _ (_ :: _) |- _ => inversion H; clear H; subst end. auto. }
    pose proof (dval_bound 2 ltac:(lia) l' (dval 2 0 [a;b;c;d;e]) F') as B.
    rewrite V, L' in B. cbn [dval fold_left Z.of_nat Pos.of_succ_nat Pos.succ] in B.
    change (2 ^ 16) with 65536 in B.
    pose proof (D0 a eq_refl) as Da.
    pose proof (G 1%nat b eq_refl) as Gb. pose proof (G 2%nat c eq_refl) as Gc.
    pose proof (G 3%nat d eq_refl) as Gd. pose proof (G 4%nat e eq_refl) as Ge.
    unfold same_digit in *.
    repeat match goal with H : Forall _ (_ :: _) |- _ => inversion H; clear H; subst end.
    rewrite !orb_false_iff, !negb_false_iff, !Z.eqb_eq.
    split.
    - intros [_ [Q|(((Q1 & Q2) & Q3) & Q4)]]; [discriminate|]. lia.
    - intros Hv. split; [auto|]. right. repeat split; lia. }
  destruct (_ || _)%bool.
  { inversion R; subst r. clear R.
    destruct (trim_left0_spec 10 s v ltac:(lia) H) as [T1 T2].
    set (t := trim_left0 s) in *. clearbody t.
    destruct (lead_nonzero _ _ _ T1 T2) as (l & L & F & V & G & D0).
    apply forall_min in F; [|lia]. rewrite <- L.
    rewrite negb_true_iff, orb_false_iff, andb_false_iff.
    destruct (Z.ltb_spec 7 (Z.of_nat (length l))) as [C|C].
    { split; [intros [A _]; discriminate|]. intros Hv.
      destruct l as [|x l]; [cbn in C; lia|].
      pose proof (big_val 10 (x :: l) x 7 ltac:(lia) eq_refl (D0 _ eq_refl) F ltac:(lia)).
      cbn -[dval] in H0. lia. }
    destruct (Z.eqb_spec (Z.of_nat (length l)) 7) as [C2|C2].
    2:{ split; [intros _|tauto].
        pose proof (small_val 10 l 6 ltac:(lia) F ltac:(lia)). cbn -[dval] in H0. lia. }
    destruct l as [|a [|b [|c [|d [|e [|f [|g [|h l']]]]]]]]; cbn [length] in C2; try lia.
    cbn [dval fold_left] in V.
    pose proof (D0 a eq_refl) as Da.
    pose proof (G 0%nat a eq_refl) as Ga.
    pose proof (G 1%nat b eq_refl) as Gb. pose proof (G 2%nat c eq_refl) as Gc.
    pose proof (G 3%nat d eq_refl) as Gd. pose proof (G 4%nat e eq_refl) as Ge.
    pose proof (G 5%nat f eq_refl) as Gf. pose proof (G 6%nat g eq_refl) as Gg.
    unfold same_digit in *. clear G D0.
    repeat match goal with H : Forall _ (_ :: _) |- _ => inversion H; clear H; subst end.
    assert (Ea : at_ t 0 = 48 + a) by lia. assert (Eb : at_ t 1 = 48 + b) by lia.
    assert (Ec : at_ t 2 = 48 + c) by lia. assert (Ed : at_ t 3 = 48 + d) by lia.
    assert (Ee : at_ t 4 = 48 + e) by lia. assert (Ef : at_ t 5 = 48 + f) by lia.
    assert (Eg : at_ t 6 = 48 + g) by lia.
    rewrite Ea, Eb, Ec, Ed, Ee, Ef, Eg. clear Ga Gb Gc Gd Ge Gf Gg Ea Eb Ec Ed Ee Ef Eg.
    assert (W : forall b, (true = false \/ b = false) <-> b = false) by (intros []; intuition congruence).
    rewrite W.
    repeat (rewrite ?orb_false_iff, ?andb_false_iff, ?Z.ltb_ge, ?Z.eqb_neq).
    split; [intros [_ Q]|intros Q; split; [reflexivity|]]; lia. }
  destruct (_ || _)%bool; [|discriminate].
  { inversion R; subst r. clear R.
    destruct (trim_left0_spec 16 s v ltac:(lia) H) as [T1 T2].
    set (t := trim_left0 s) in *. clearbody t.
    destruct (lead_nonzero _ _ _ T1 T2) as (l & L & F & V & G & D0).
    apply forall_min in F; [|lia]. rewrite <- L.
    rewrite negb_true_iff, orb_false_iff, andb_false_iff.
    destruct (Z.ltb_spec 6 (Z.of_nat (length l))) as [C|C].
    { split; [intros [A _]; discriminate|]. intros Hv.
      destruct l as [|x l]; [cbn in C; lia|].
      pose proof (big_val 16 (x :: l) x 6 ltac:(lia) eq_refl (D0 _ eq_refl) F ltac:(lia)).
      cbn -[dval] in H0. lia. }
    destruct (Z.eqb_spec (Z.of_nat (length l)) 6) as [C2|C2].
    2:{ split; [intros _|tauto].
        pose proof (small_val 16 l 5 ltac:(lia) F ltac:(lia)). cbn -[dval] in H0. lia. }
    assert (exists a b l', l = a :: b :: l' /\ length l' = 4%nat) as (a & b & l' & -> & L').
    { destruct l as [|a [|b l']]; cbn [length] in C2; try lia. exists a, b, l'. split; auto. lia. }
    change (a :: b :: l') with ([a;b] ++ l') in V. rewrite dval_app in V.
    assert (F' : Forall (fun d => 0 <= d < 16) l').
    { repeat match goal with H : Forall _ (_ :: _) |- _ => inversion H; clear H; subst end. auto. }
    pose proof (dval_bound 16 ltac:(lia) l' (dval 16 0 [a;b]) F') as B.
    rewrite V, L' in B. cbn [dval fold_left Z.of_nat Pos.of_succ_nat Pos.succ] in B.
    change (16 ^ 4) with 65536 in B.
    pose proof (D0 a eq_refl) as Da.
    pose proof (G 0%nat a eq_refl) as Ga. pose proof (G 1%nat b eq_refl) as Gb.
    unfold same_digit in *. clear G D0.
    repeat match goal with H : Forall _ (_ :: _) |- _ => inversion H; clear H; subst end.
    rewrite orb_false_iff, andb_false_iff, !Z.ltb_ge, Z.eqb_neq.
    split; [intros [_ [Q|Q]]; [discriminate|]|intros Q; split; [reflexivity|right]]; lia. }
Qed.
