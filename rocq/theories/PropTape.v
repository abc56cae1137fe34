(** C37, C47: decisions read from a tape. *)
(** The definitions here are those of statements, proofs and examples; they model no code. *)
From Coq Require Import ZArith Bool List Lia.
From Verif Require Import Tape.
Import ListNotations.
Local Open Scope Z_scope.

(** Reading a sequence of decisions among [ns] options. *)
Fixpoint tape_decide (ns : list Z) (s : tape_source) : option (list Z) :=
  match ns with
  | [] => Some []
  | n :: ns' =>
      match tape_intn n s with
      | None => None
      | Some (k, s') => match tape_decide ns' s' with Some ks => Some (k :: ks) | None => None end
      end
  end.
Fixpoint indexed_decide (ns : list Z) (s : indexed_source) : list Z :=
  match ns with
  | [] => []
  | n :: ns' => let '(k, s') := indexed_intn n s in k :: indexed_decide ns' s'
  end.

(** ** C37 *)
Theorem C37_tape_in_range : forall n s, n <= max_int ->
  exists k s', tape_intn n s = Some (k, s') /\ 0 <= k /\ (1 <= n -> k < n).
Proof.
  intros n s H. unfold max_int in H. unfold tape_intn. destruct (Z.leb_spec n 1) as [L|L].
  - exists 0, s. split; auto. lia.
  - destruct (width_total n) as [w ->]; [lia|]. pose proof (read_nonneg w s 0 ltac:(lia)) as P.
    destruct (read_value w s 0) as [v s']. cbn in P. exists (Z.rem v n), s'.
    pose proof (Z.rem_bound_pos v n P ltac:(lia)). split; auto. lia.
Qed.

Theorem C37_tape_exhausted : forall n tape pos, n <= max_int -> (length tape <= pos)%nat ->
  tape_intn n (mkTape tape pos) = Some (0, mkTape tape pos).
Proof.
  intros n tape pos H L. unfold max_int in H. unfold tape_intn. destruct (Z.leb_spec n 1) as [L1|L1]; auto.
  destruct (width_total n) as [w ->]; [lia|]. rewrite read_zero by auto.
  rewrite Z.rem_0_l by lia. reflexivity.
Qed.

Theorem C37_indexed_in_range : forall n s, 0 <= fst (indexed_intn n s) /\ (1 <= n -> fst (indexed_intn n s) < n).
Proof.
  intros n s. unfold indexed_intn. destruct (Z.leb_spec n 1) as [L|L]; cbn; [lia|].
  assert (P : 0 <= indexed_value (is_tape s) (is_i s * 4)) by apply push_nonneg.
  pose proof (Z.rem_bound_pos _ n P ltac:(lia)). lia.
Qed.

Theorem C37_indexed_exhausted : forall n tape i, (length tape <= i * 4)%nat ->
  fst (indexed_intn n (mkIdx tape i)) = 0.
Proof.
  intros n tape i L. unfold indexed_intn. destruct (Z.leb_spec n 1) as [L1|L1]; auto. cbn [fst is_tape is_i].
  unfold indexed_value. rewrite !nth_overflow by lia. apply Z.rem_0_l. lia.
Qed.

(** Every sequence of decisions is read from some tape.  Missing for the full
    statement: option counts within 255 of the largest int (see the refutation). *)
Theorem C37_tape_complete_partial : forall ds,
  Forall (fun d => 0 <= snd d < fst d /\ fst d <= max_int - 255) ds ->
  exists tape, Forall byte tape /\ tape_decide (map fst ds) (mkTape tape 0) = Some (map snd ds).
Proof.
  intros ds H.
  assert (G : forall ds, Forall (fun d => 0 <= snd d < fst d /\ fst d <= max_int - 255) ds ->
    exists t, Forall byte t /\ forall pre, tape_decide (map fst ds) (mkTape (pre ++ t) (length pre)) = Some (map snd ds)).
  { clear. induction ds as [|[n k] ds IH]; intros H; [exists []; split; auto|].
    inversion H as [|? ? [H1 H2] H3]; subst. destruct (IH H3) as (t & B & E). cbn in H1, H2. unfold max_int in H2.
    destruct (Z_le_gt_dec n 1) as [L|L].
    - exists t. split; auto. intros pre. cbn [map fst snd tape_decide]. unfold tape_intn.
      destruct (Z.leb_spec n 1); [|lia]. rewrite E. do 2 f_equal. lia.
    - destruct (width_total n) as [w W]; [lia|]. destruct (width_enough 8 n 0 w ltac:(lia) W) as [W1 W2].
      rewrite Nat.sub_0_r in W2.
      exists (digits w k ++ t)%list. split.
      + apply Forall_app. split; auto. apply Forall_forall. intros b Hb. eapply digits_byte; eauto.
      + intros pre. cbn [map fst snd tape_decide]. unfold tape_intn. destruct (Z.leb_spec n 1); [lia|].
        rewrite W, read_digits by lia. rewrite Z.rem_small by lia.
        specialize (E (pre ++ digits w k)%list). rewrite app_length, digits_length in E.
        rewrite <- app_assoc in E. rewrite E. reflexivity. }
  destruct (G ds H) as (t & B & E). exists t. split; auto. apply (E []).
Qed.

(** With n = 2^63-1 options the width loop overflows and only two bytes are read. *)
Theorem C37_tape_complete_refuted : exists n k, 0 <= k < n /\ n <= max_int /\
  forall tape pos, Forall byte tape -> option_map fst (tape_intn n (mkTape tape pos)) <> Some k.
Proof.
  exists max_int, 65536. split; [unfold max_int; lia|]. split; [lia|]. intros tape pos B.
  unfold tape_intn. replace (max_int <=? 1) with false by reflexivity.
  replace (width_loop 8 max_int 1) with (Some 2%nat) by (vm_compute; reflexivity).
  assert (R : forall w s v, Forall byte (ts_tape s) -> 0 <= v -> (v + 1) * 256 ^ Z.of_nat w <= 2 ^ 63 ->
    v * 256 ^ Z.of_nat w <= fst (read_value w s v) < (v + 1) * 256 ^ Z.of_nat w).
  { induction w as [|w IH]; intros s v Bs V H; [cbn; lia|]. cbn [read_value].
    rewrite Nat2Z.inj_succ, Z.pow_succ_r in * by lia.
    pose proof (Z.pow_pos_nonneg 256 (Z.of_nat w) ltac:(lia) ltac:(lia)) as PP.
    assert (K : forall s b, Forall byte (ts_tape s) -> byte b ->
      v * (256 * 256 ^ Z.of_nat w) <= fst (read_value w s (push_byte v b)) < (v + 1) * (256 * 256 ^ Z.of_nat w)).
    { intros s' b Bs' Bb. unfold byte in Bb.
      assert (v * 256 + b < 2 ^ 63) by nia.
      rewrite push_exact by (auto; unfold byte; lia).
      specialize (IH s' (v * 256 + b) Bs' ltac:(lia) ltac:(nia)). nia. }
    destruct (nth_error (ts_tape s) (ts_pos s)) as [b|] eqn:E.
    - apply K; auto. apply nth_error_In in E. rewrite Forall_forall in Bs. auto.
    - apply K; auto. unfold byte. lia. }
  specialize (R 2%nat (mkTape tape pos) 0 B ltac:(lia) ltac:(cbn; lia)).
  destruct (read_value 2 (mkTape tape pos) 0) as [v s']. cbn in R. cbn [option_map fst].
  rewrite Z.rem_small by (unfold max_int; lia). intros E. injection E as E. lia.
Qed.

Lemma indexed_value_digits pre k post off : 0 <= k < 2 ^ 32 -> length pre = off ->
  indexed_value (pre ++ digits 4 k ++ post) off = k.
Proof.
  intros H <-. unfold indexed_value.
  assert (D : exists a b c d, digits 4 k = [a; b; c; d] /\ byte a /\ byte b /\ byte c /\ byte d /\
     ((a * 256 + b) * 256 + c) * 256 + d = k).
  { exists (k / 256 / 256 / 256 mod 256), (k / 256 / 256 mod 256), (k / 256 mod 256), (k mod 256). split; [reflexivity|].
    unfold byte. repeat split; try (apply Z.mod_pos_bound; lia).
    pose proof (Z.div_mod k 256 ltac:(lia)). pose proof (Z.div_mod (k/256) 256 ltac:(lia)).
    pose proof (Z.div_mod (k/256/256) 256 ltac:(lia)).
    assert (k / 256 / 256 / 256 mod 256 = k / 256 / 256 / 256).
    { apply Z.mod_small. rewrite !Z.div_div by lia. split; [apply Z.div_pos; lia|apply Z.div_lt_upper_bound; lia]. }
    lia. }
  destruct D as (a & b & c & d & E & A & B & C & D & V). rewrite E.
  replace (nth (length pre) (pre ++ [a; b; c; d] ++ post) 0) with a by (rewrite app_nth2, Nat.sub_diag; auto).
  replace (nth (length pre + 1) (pre ++ [a; b; c; d] ++ post) 0) with b
    by (rewrite app_nth2 by lia; replace (length pre + 1 - length pre)%nat with 1%nat by lia; auto).
  replace (nth (length pre + 2) (pre ++ [a; b; c; d] ++ post) 0) with c
    by (rewrite app_nth2 by lia; replace (length pre + 2 - length pre)%nat with 2%nat by lia; auto).
  replace (nth (length pre + 3) (pre ++ [a; b; c; d] ++ post) 0) with d
    by (rewrite app_nth2 by lia; replace (length pre + 3 - length pre)%nat with 3%nat by lia; auto).
  unfold byte in *. rewrite (push_exact 0 a) by (unfold byte; lia).
  rewrite (push_exact (0 * 256 + a) b) by (unfold byte; lia).
  rewrite (push_exact ((0 * 256 + a) * 256 + b) c) by (unfold byte; lia).
  rewrite (push_exact (((0 * 256 + a) * 256 + b) * 256 + c) d) by (unfold byte; lia).
  lia.
Qed.

Theorem C37_indexed_complete_partial : forall ds,
  Forall (fun d => 0 <= snd d < fst d /\ fst d <= 2 ^ 32) ds ->
  exists tape, Forall byte tape /\ indexed_decide (map fst ds) (mkIdx tape 0) = map snd ds.
Proof.
  intros ds H.
  assert (G : forall ds, Forall (fun d => 0 <= snd d < fst d /\ fst d <= 2 ^ 32) ds ->
    exists t, Forall byte t /\ forall pre i, length pre = (i * 4)%nat ->
      indexed_decide (map fst ds) (mkIdx (pre ++ t) i) = map snd ds).
  { clear. induction ds as [|[n k] ds IH]; intros H; [exists []; split; auto|].
    inversion H as [|? ? [H1 H2] H3]; subst. destruct (IH H3) as (t & B & E). cbn in H1, H2.
    destruct (Z_le_gt_dec n 1) as [L|L].
    - exists t. split; auto. intros pre i P. cbn [map fst snd indexed_decide]. unfold indexed_intn.
      destruct (Z.leb_spec n 1); [|lia]. rewrite E by auto. f_equal. lia.
    - exists (digits 4 k ++ t)%list. split.
      + apply Forall_app. split; auto. apply Forall_forall. intros b Hb. eapply digits_byte; eauto.
      + intros pre i P. cbn [map fst snd indexed_decide]. unfold indexed_intn. destruct (Z.leb_spec n 1); [lia|].
        cbn [is_tape is_i]. rewrite indexed_value_digits by (auto; lia). rewrite Z.rem_small by lia. f_equal.
        specialize (E (pre ++ digits 4 k)%list (S i)). rewrite <- app_assoc in E. apply E.
        rewrite app_length, digits_length. lia. }
  destruct (G ds H) as (t & B & E). exists t. split; auto. apply (E [] 0%nat). reflexivity.
Qed.

Theorem C37_indexed_complete_refuted : exists n k, 0 <= k < n /\ n <= max_int /\
  forall tape i, Forall byte tape -> fst (indexed_intn n (mkIdx tape i)) <> k.
Proof.
  exists (2 ^ 32 + 1), (2 ^ 32). split; [lia|]. split; [unfold max_int; lia|]. intros tape i B.
  unfold indexed_intn. replace (2 ^ 32 + 1 <=? 1) with false by reflexivity. cbn [fst is_tape is_i].
  assert (N : forall j, byte (nth j tape 0)).
  { intros j. destruct (nth_in_or_default j tape 0) as [H| ->]; [rewrite Forall_forall in B; auto|unfold byte; lia]. }
  unfold indexed_value. pose proof (N (i * 4)%nat) as N0. pose proof (N (i * 4 + 1)%nat) as N1.
  pose proof (N (i * 4 + 2)%nat) as N2. pose proof (N (i * 4 + 3)%nat) as N3.
  set (a := nth (i * 4) tape 0) in *. set (b := nth (i * 4 + 1) tape 0) in *.
  set (c := nth (i * 4 + 2) tape 0) in *. set (d := nth (i * 4 + 3) tape 0) in *. clearbody a b c d.
  unfold byte in *. rewrite (push_exact 0 a) by (unfold byte; lia).
  rewrite (push_exact (0 * 256 + a) b) by (unfold byte; lia).
  rewrite (push_exact ((0 * 256 + a) * 256 + b) c) by (unfold byte; lia).
  rewrite (push_exact (((0 * 256 + a) * 256 + b) * 256 + c) d) by (unfold byte; lia).
  rewrite Z.rem_small by lia. lia.
Qed.

Example C37_case :
  tape_decide [3; 1000; 1; 70000] (mkTape [2; 1; 44; 9] 0) = Some [2; 300; 0; 9 * 65536 mod 70000] /\
  indexed_decide [3; 1000; 1; 70000] (mkIdx [0; 0; 0; 2; 0; 0; 1; 44; 0; 1] 0) = [2; 300; 0; 65536].
Proof. vm_compute. split; reflexivity. Qed.

(** ** C47 *)
Theorem C47_decision_local : forall n tape tape' i,
  (forall k, (i * 4 <= k < i * 4 + 4)%nat -> nth k tape 0 = nth k tape' 0) ->
  fst (indexed_intn n (mkIdx tape i)) = fst (indexed_intn n (mkIdx tape' i)).
Proof.
  intros n t t' i H. unfold indexed_intn. destruct (n <=? 1); auto. cbn [fst is_tape is_i].
  unfold indexed_value. rewrite !H by lia. reflexivity.
Qed.

(** The slot a decision reads does not depend on the tape: only on how many
    earlier decisions had more than one option. *)
Theorem C47_slot_of_decision : forall ns tape i d,
  nth_error (indexed_decide ns (mkIdx tape i)) d =
  match nth_error ns d with
  | None => None
  | Some n => Some (fst (indexed_intn n (mkIdx tape (i + length (filter (fun n => 1 <? n) (firstn d ns))))))
  end.
Proof.
  induction ns as [|n ns IH]; intros tape i d; [destruct d; reflexivity|].
  cbn [indexed_decide]. unfold indexed_intn at 1. destruct d as [|d].
  - cbn [nth_error firstn filter length]. rewrite Nat.add_0_r. unfold indexed_intn.
    destruct (n <=? 1); cbn [fst nth_error is_tape is_i]; reflexivity.
  - cbn [nth_error firstn filter]. destruct (Z.leb_spec n 1) as [L|L]; cbn [nth_error is_tape is_i]; rewrite IH.
    + destruct (Z.ltb_spec 1 n); [lia|]. reflexivity.
    + destruct (Z.ltb_spec 1 n); [|lia]. cbn [length]. rewrite Nat.add_succ_r. reflexivity.
Qed.

Example C47_case :
  (forall k, (1 * 4 <= k < 1 * 4 + 4)%nat -> nth k [9; 9; 9; 9; 0; 0; 1; 44] 0 = nth k [7; 0; 0; 1; 0; 0; 1; 44; 3] 0) /\
  indexed_decide [5; 1000; 9] (mkIdx [9; 9; 9; 9; 0; 0; 1; 44] 0) = [1; 300; 0] /\
  indexed_decide [5; 1000; 9] (mkIdx [7; 0; 0; 1; 0; 0; 1; 44; 3] 0) = [3; 300; 3].
Proof.
  split; [|vm_compute; auto]. intros k K. do 8 (destruct k as [|k]; [try lia; reflexivity|]). lia.
Qed.

Print Assumptions C37_tape_in_range.
Print Assumptions C37_tape_exhausted.
Print Assumptions C37_tape_complete_partial.
Print Assumptions C37_tape_complete_refuted.
Print Assumptions C37_indexed_in_range.
Print Assumptions C37_indexed_exhausted.
Print Assumptions C37_indexed_complete_partial.
Print Assumptions C37_indexed_complete_refuted.
Print Assumptions C47_decision_local.
Print Assumptions C47_slot_of_decision.
