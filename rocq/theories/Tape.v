(** Decision sources: fuzz.go:25-109. *)
From Coq Require Import ZArith Bool List Lia.
Import ListNotations.
Local Open Scope Z_scope.

(** Go's int is 64 bits wide: two's complement wrap-around. *)
Definition wrap64 (z : Z) : Z := (z + 2 ^ 63) mod 2 ^ 64 - 2 ^ 63.
(** The largest int of Go. *)
Definition max_int : Z := 2 ^ 63 - 1.

(** tapeSource (fuzz.go:35-38): the whole tape and the cursor. *)
Record tape_source : Type := mkTape { ts_tape : list Z; ts_pos : nat }.

(** The width loop (fuzz.go:47-50); [None] is out of fuel.  Go's division
    truncates towards zero. *)
Fixpoint width_loop (fuel : nat) (max : Z) (width : nat) : option nat :=
  if 256 <? max then
    match fuel with
    | O => None
    | S f => width_loop f (Z.quot (wrap64 (max + 255)) 256) (S width)
    end
  else Some width.

(** One step of the value loop, the overflow guard included
    (fuzz.go:58-61, 103-106). *)
Definition push_byte (v b : Z) : Z :=
  let v := Z.lor (wrap64 (v * 256)) b in
  if v <? 0 then Z.land v 0x7fffffff else v.

(** The value loop (fuzz.go:51-62). *)
Fixpoint read_value (width : nat) (s : tape_source) (v : Z) : Z * tape_source :=
  match width with
  | O => (v, s)
  | S w =>
      match nth_error (ts_tape s) (ts_pos s) with
      | Some b => read_value w (mkTape (ts_tape s) (S (ts_pos s))) (push_byte v b)
      | None => read_value w s (push_byte v 0)
      end
  end.

(** tapeSource.intn (fuzz.go:40-64).  A fuel of 8 is enough for every int, see
    [width_total]. *)
Definition tape_intn (n : Z) (s : tape_source) : option (Z * tape_source) :=
  if n <=? 1 then Some (0, s)
  else
    match width_loop 8 n 1 with
    | None => None
    | Some w => let '(v, s') := read_value w s 0 in Some (Z.rem v n, s')
    end.

(** indexedSource (fuzz.go:84-87).  The product i*stride does not wrap below
    2^61 decisions; [nat] here does not. *)
Record indexed_source : Type := mkIdx { is_tape : list Z; is_i : nat }.

(** The loop of indexedSource.intn (fuzz.go:98-107). *)
Definition indexed_value (tape : list Z) (off : nat) : Z :=
  push_byte (push_byte (push_byte (push_byte 0 (nth off tape 0)) (nth (off + 1) tape 0))
    (nth (off + 2) tape 0)) (nth (off + 3) tape 0).

(** indexedSource.intn (fuzz.go:91-109). *)
Definition indexed_intn (n : Z) (s : indexed_source) : Z * indexed_source :=
  if n <=? 1 then (0, s)
  else (Z.rem (indexed_value (is_tape s) (is_i s * 4)) n, mkIdx (is_tape s) (S (is_i s))).

(** (specification) a byte. *)
Definition byte (b : Z) : Prop := 0 <= b < 256.

(** *** Proofs *)
Lemma wrap64_id z : - 2 ^ 63 <= z < 2 ^ 63 -> wrap64 z = z.
Proof. intros H. unfold wrap64. rewrite Z.mod_small; lia. Qed.

Lemma wrap64_range z : - 2 ^ 63 <= wrap64 z < 2 ^ 63.
Proof. unfold wrap64. pose proof (Z.mod_pos_bound (z + 2 ^ 63) (2 ^ 64) ltac:(lia)). lia. Qed.

Lemma lor_byte v b : 0 <= v -> byte b -> Z.lor (v * 256) b = v * 256 + b.
Proof.
  intros V B. assert (H : Z.land (v * 256) b = 0).
  { change 256 with (2 ^ 8). rewrite <- Z.shiftl_mul_pow2 by lia.
    apply Z.bits_inj'. intros k K. rewrite Z.land_spec, Z.bits_0.
    destruct (Z.ltb_spec k 8) as [L|L]; [rewrite Z.shiftl_spec_low by lia; reflexivity|].
    replace (Z.testbit b k) with false; [apply andb_false_r|].
    symmetry. destruct (Z.eq_dec b 0) as [->|N]; [apply Z.testbit_0_l|].
    apply Z.bits_above_log2; [unfold byte in B; lia|].
    apply Z.lt_le_trans with 8; [|lia]. apply Z.log2_lt_pow2; unfold byte in B; lia. }
  rewrite Z.add_nocarry_lxor by auto. symmetry. apply Z.lxor_lor. auto.
Qed.

Lemma push_nonneg v b : 0 <= push_byte v b.
Proof.
  unfold push_byte. destruct (Z.ltb_spec (Z.lor (wrap64 (v * 256)) b) 0); [|lia].
  apply Z.land_nonneg. right. lia.
Qed.

Lemma push_exact v b : 0 <= v -> byte b -> v * 256 + b < 2 ^ 63 -> push_byte v b = v * 256 + b.
Proof.
  intros V B L. unfold push_byte, byte in *. rewrite wrap64_id by lia. rewrite lor_byte by auto.
  destruct (Z.ltb_spec (v * 256 + b) 0); lia.
Qed.

Lemma read_nonneg w : forall s v, 0 <= v -> 0 <= fst (read_value w s v).
Proof.
  induction w as [|w IH]; intros s v V; cbn; auto.
  destruct (nth_error _ _); apply IH; apply push_nonneg.
Qed.

Lemma read_zero w : forall s, (length (ts_tape s) <= ts_pos s)%nat -> read_value w s 0 = (0, s).
Proof.
  induction w as [|w IH]; intros s H; cbn; auto.
  destruct (nth_error (ts_tape s) (ts_pos s)) eqn:E; [|apply IH; auto].
  exfalso. apply nth_error_None in H. congruence.
Qed.

(* the width loop terminates *)
Lemma width_fuel k : forall n w f, n <= 256 ^ (Z.of_nat k + 1) -> n < 2 ^ 63 -> (k <= f)%nat ->
  exists w', width_loop f n w = Some w'.
Proof.
  induction k as [|k IH]; intros n w f H B F.
  - change (256 ^ (Z.of_nat 0 + 1)) with 256 in H. destruct f; cbn [width_loop];
      destruct (Z.ltb_spec 256 n); try lia; eauto.
  - destruct f as [|f]; [lia|]. cbn [width_loop]. destruct (Z.ltb_spec 256 n) as [G|G]; [|eauto].
    assert (Q : Z.quot (wrap64 (n + 255)) 256 <= 256 ^ (Z.of_nat k + 1) /\ Z.quot (wrap64 (n + 255)) 256 < 2 ^ 63).
    { pose proof (wrap64_range (n + 255)) as R.
      destruct (Z_lt_le_dec (n + 255) (2 ^ 63)) as [L|L].
      - rewrite wrap64_id by lia. rewrite Z.quot_div_nonneg by lia.
        replace (Z.of_nat (S k) + 1) with (Z.succ (Z.of_nat k + 1)) in H by lia. rewrite Z.pow_succ_r in H by lia.
        split; [|apply Z.div_lt_upper_bound; lia].
        apply Z.lt_succ_r. apply Z.div_lt_upper_bound; lia.
      - assert (wrap64 (n + 255) < 0).
        { unfold wrap64. replace (n + 255 + 2 ^ 63) with ((n + 255 - 2 ^ 63) + 1 * 2 ^ 64) by lia.
          rewrite Z.mod_add by lia. rewrite Z.mod_small by lia. lia. }
        assert (Z.quot (wrap64 (n + 255)) 256 <= 0).
        { rewrite <- (Z.opp_involutive (wrap64 (n + 255))). rewrite Z.quot_opp_l by lia.
          assert (0 <= Z.quot (- wrap64 (n + 255)) 256) by (apply Z.quot_pos; lia). lia. }
        split; [|lia]. pose proof (Z.pow_pos_nonneg 256 (Z.of_nat k + 1) ltac:(lia) ltac:(lia)). lia. }
    apply (IH _ (S w) f); [apply Q|apply Q|lia].
Qed.

Lemma width_total n : n < 2 ^ 63 -> exists w, width_loop 8 n 1 = Some w.
Proof.
  intros H. apply (width_fuel 7); [|auto|lia]. change (256 ^ (Z.of_nat 7 + 1)) with (2 ^ 64). lia.
Qed.

(* and addresses every option *)
Lemma width_enough f : forall n w w', n <= 2 ^ 63 - 256 -> width_loop f n (S w) = Some w' ->
  (S w <= w')%nat /\ n <= 256 ^ (Z.of_nat (w' - w)).
Proof.
  induction f as [|f IH]; intros n w w' B E; cbn [width_loop] in E; destruct (Z.ltb_spec 256 n) as [G|G].
  - discriminate.
  - injection E as <-. split; [lia|]. replace (S w - w)%nat with 1%nat by lia. cbn. lia.
  - rewrite wrap64_id in E by lia. rewrite Z.quot_div_nonneg in E by lia. apply IH in E as [E1 E2].
    + split; [lia|]. replace (w' - w)%nat with (S (w' - S w)) by lia.
      rewrite Nat2Z.inj_succ, Z.pow_succ_r by lia.
      pose proof (Z.div_mod (n + 255) 256 ltac:(lia)). pose proof (Z.mod_pos_bound (n + 255) 256 ltac:(lia)). lia.
    + apply Z.div_le_upper_bound; lia.
  - injection E as <-. split; [lia|]. replace (S w - w)%nat with 1%nat by lia. cbn. lia.
Qed.

(* big-endian digits *)
Fixpoint digits (w : nat) (v : Z) : list Z :=
  match w with O => [] | S w' => (digits w' (v / 256) ++ [v mod 256])%list end.
Lemma digits_length w : forall v, length (digits w v) = w.
Proof. induction w as [|w IH]; cbn; intros; auto. rewrite app_length, IH. cbn. lia. Qed.
Lemma digits_byte w : forall v b, In b (digits w v) -> byte b.
Proof.
  induction w as [|w IH]; cbn; intros v b; [easy|]. rewrite in_app_iff. intros [H|[<-|[]]]; eauto.
  apply Z.mod_pos_bound. lia.
Qed.

Lemma read_app w1 : forall w2 s v, read_value (w1 + w2) s v =
  let '(v', s') := read_value w1 s v in read_value w2 s' v'.
Proof.
  induction w1 as [|w1 IH]; intros w2 s v; cbn; auto. destruct (nth_error _ _); apply IH.
Qed.

Lemma read_digits w : forall v pre post, 0 <= v < 256 ^ Z.of_nat w -> v < 2 ^ 63 ->
  read_value w (mkTape (pre ++ digits w v ++ post) (length pre)) 0 =
  (v, mkTape (pre ++ digits w v ++ post) (length pre + w)).
Proof.
  induction w as [|w IH]; intros v pre post H B.
  - cbn in *. rewrite Nat.add_0_r. f_equal. lia.
  - replace (S w) with (w + 1)%nat at 1 by lia. rewrite read_app. cbn [digits].
    rewrite <- (app_assoc (digits w (v / 256))). rewrite Nat2Z.inj_succ, Z.pow_succ_r in H by lia.
    rewrite IH.
    + cbn [read_value ts_tape ts_pos].
      replace (nth_error _ (length pre + w)) with (Some (v mod 256)).
      2:{ rewrite app_assoc, nth_error_app2 by (rewrite app_length, digits_length; lia).
          rewrite app_length, digits_length, Nat.sub_diag. reflexivity. }
      pose proof (Z.div_mod v 256 ltac:(lia)). pose proof (Z.mod_pos_bound v 256 ltac:(lia)).
      assert (0 <= v / 256) by (apply Z.div_pos; lia).
      rewrite push_exact; [|auto|unfold byte; auto|lia].
      f_equal; [lia|]. f_equal. lia.
    + split; [apply Z.div_pos; lia|apply Z.div_lt_upper_bound; lia].
    + apply Z.div_lt_upper_bound; lia.
Qed.
