(** What the emitted matching code does: the same as matchTerm (bsr.go:143-186). *)
From Coq Require Import ZArith String Ascii Bool List Lia.
From Verif Require Import Syntax Spec Utf8 Num Term Printer Slots Codegen.
Import ListNotations.
Local Open Scope string_scope.
Local Open Scope list_scope.
Local Open Scope Z_scope.

(** *** Bytes and runes *)
Lemma eqb_spec_list a : forall b, list_eqb a b = true <-> a = b.
Proof.
  induction a as [|x a IH]; intros [|y b]; cbn [list_eqb]; split; intros H; try discriminate; auto.
  - apply andb_true_iff in H as [H1 H2]. apply Z.eqb_eq in H1. apply IH in H2. congruence.
  - injection H as -> ->. rewrite Z.eqb_refl. cbn. apply IH. reflexivity.
Qed.
Lemma list_eqb_sym a b : list_eqb a b = list_eqb b a.
Proof. apply eq_true_iff_eq. rewrite !eqb_spec_list. split; auto. Qed.
Lemma list_eqb_app a b x : list_eqb (a ++ b) x = (list_eqb a (firstn (length a) x) && list_eqb b (skipn (length a) x))%bool.
Proof.
  apply eq_true_iff_eq. rewrite andb_true_iff, !eqb_spec_list. split.
  - intros <-. rewrite firstn_app, firstn_all, Nat.sub_diag, firstn_O, app_nil_r, skipn_app, skipn_all, Nat.sub_diag. auto.
  - intros [A B]. rewrite <- (firstn_skipn (length a) x), <- A, <- B. reflexivity.
Qed.
Lemma decode_high b q : between 0 b 0x7F = false -> 128 <= fst (decode_rune (b :: q)).
Proof.
  intros H. unfold decode_rune. rewrite H. assert (RuneError = 65533) by reflexivity.
  repeat match goal with |- context [if ?c then _ else _] => destruct c eqn:? | |- context [match ?l with [] => _ | _ :: _ => _ end] => destruct l end;
    cbn [fst]; try lia;
    repeat match goal with E : (_ && _)%bool = true |- _ => apply andb_true_iff in E as [? ?] | E : between _ _ _ = true |- _ => apply between_true in E end;
    repeat match goal with E : (if ?c then _ else _) <= _ <= _ |- _ => destruct c eqn:? end; lia.
Qed.
Lemma skipn_twice {A} a : forall b (l : list A), skipn a (skipn b l) = skipn (a + b) l.
Proof.
  intros b. induction b as [|b IH]; intros l; [rewrite Nat.add_0_r; reflexivity|].
  destruct l; [rewrite !skipn_nil; reflexivity|]. rewrite Nat.add_succ_r. apply IH.
Qed.
Lemma skipn_nth {A} (l : list A) : forall i x, nth_error l i = Some x -> skipn i l = x :: skipn (S i) l.
Proof. induction l as [|y l IH]; intros [|i] x N; try discriminate; cbn in *; [congruence|]. apply IH. exact N. Qed.

(** *** The emitted statements *)
Definition keeps (pre : genv) : Prop := forall x, In x (map fst pre) -> ~ In x ["L"; "u"; "i"; "rc"].
Lemma lookup_keeps pre e x : keeps pre -> In x ["L"; "u"; "i"; "rc"] -> lookup x (pre ++ e) = lookup x e.
Proof.
  intros K I. induction pre as [|[y v] pre IH]; auto. cbn [app lookup]. destruct (String.eqb_spec x y) as [->|N].
  - exfalso. apply (K y); [left; auto|auto].
  - apply IH. intros z J. apply K. right. auto.
Qed.
Lemma assign_keeps pre e x v : keeps pre -> In x ["L"; "u"; "i"; "rc"] -> assign x v (pre ++ e) = pre ++ assign x v e.
Proof.
  intros K I. induction pre as [|[y w] pre IH]; auto. cbn [app assign]. destruct (String.eqb_spec x y) as [->|N].
  - exfalso. apply (K y); [left; auto|auto].
  - f_equal. apply IH. intros z J. apply K. right. auto.
Qed.
Lemma leave_app pre e e' : length e' = length e -> leave e (pre ++ e') = e'.
Proof.
  intros L. unfold leave. rewrite app_length, L. replace (length pre + length e - length e)%nat with (length pre) by lia.
  rewrite skipn_app, skipn_all, Nat.sub_diag. reflexivity.
Qed.

Section Run.
  Variable input : list Z.
  Variable mx : Z.
  Variable gord : nat -> list Z -> list Z.
  Variable pg : program.
  Notation ex := (exec input mx gord pg).
  Notation sq := (exec_seq (exec input mx gord pg)).

  Lemma seq_app a b e st : sq (a ++ b) e st = match sq a e st with ONext e' st' => sq b e' st' | o => o end.
  Proof. revert e st. induction a as [|s a IH]; intros e st; cbn [app exec_seq]; auto. destruct (ex s e st); auto. Qed.
  Lemma ifret_eq c e st : ex (ifret c) e st = with_val (test input pg c e) (fun b => if b then OReturn st else ONext e st).
  Proof. reflexivity. Qed.
  Lemma eval_i e i : lookup "i" e = Some (VNum i) -> eval input pg xi e = Val i.
  Proof. intros H. cbn [eval xi]. unfold num_of, xi. cbn. unfold num_of. rewrite H. reflexivity. Qed.

  Lemma match_char_ascii sens vals : forall idx k, Forall (fun v => 0 <= v <= 127) vals -> match_char sens vals input idx = Some k ->
    k = (idx + length vals)%nat.
  Proof.
    induction vals as [|v vs IH]; intros idx k F; cbn [match_char length]; [intros E; injection E as <-; lia|].
    inversion F as [|? ? Fv Fs]; subst. destruct (Nat.leb_spec (length input) idx) as [|Lt]; [discriminate|].
    destruct (nth_error input idx) as [b|] eqn:N; [|apply nth_error_None in N; lia]. rewrite (skipn_nth _ _ _ N).
    destruct (between 0 b 127) eqn:B.
    - unfold decode_rune. rewrite B. rewrite (proj2 (Z.eqb_neq _ _)) by (apply between_true in B; change RuneError with 65533; lia). cbn [andb].
      destruct (sensequal v b sens); [|discriminate]. intros E. apply IH in E; auto. lia.
    - pose proof (decode_high b (skipn (S idx) input) B) as H. destruct (decode_rune (b :: skipn (S idx) input)) as [r n]. cbn [fst] in H.
      destruct (Z.eqb r RuneError && Nat.eqb n 1)%bool; [discriminate|].
      assert (S : sensequal v r sens = false).
      { unfold sensequal, rune_min. destruct sens; [apply Z.eqb_neq; lia|]. apply Z.eqb_neq.
        repeat match goal with |- context [if ?c then _ else _] => destruct c eqn:? end; lia. }
      rewrite S. discriminate.
  Qed.
  Lemma ascii_exec sens e i st : lookup "i" e = Some (VNum (Z.of_nat i)) -> forall vals off,
    Forall (fun v => 0 <= v <= 127) vals -> (i + off + length vals <= length input)%nat ->
    sq (ascii_tests sens (Z.of_nat off) vals) e st = match match_char sens vals input (i + off) with None => OReturn st | Some _ => ONext e st end.
  Proof.
    intros Li. induction vals as [|v vs IH]; intros off F Len; cbn [ascii_tests exec_seq match_char]; auto.
    inversion F as [|? ? Fv Fs]; subst. cbn [length] in Len. destruct (Nat.leb_spec (length input) (i + off)) as [|Lt]; [lia|].
    destruct (nth_error input (i + off)) as [b|] eqn:N; [|apply nth_error_None in N; lia]. rewrite (skipn_nth _ _ _ N).
    assert (Ev : eval input pg (XInput (XPlus xi (XInt (Z.of_nat off)))) e = Val b).
    { cbn [eval]. rewrite (eval_i _ _ Li). cbn [bind]. rewrite (proj2 (Z.ltb_ge _ _)) by lia.
      replace (Z.to_nat (Z.of_nat i + Z.of_nat off)) with (i + off)%nat by lia. rewrite N. reflexivity. }
    assert (T : ex (if sens then ifret (CNe (XInput (XPlus xi (XInt (Z.of_nat off)))) (XInt (v mod 256)))
      else ifret (CNe (XFoldB (XInput (XPlus xi (XInt (Z.of_nat off))))) (XInt (fold_ascii (v mod 256))))) e st =
      if sensequal v b sens then ONext e st else OReturn st).
    { rewrite Z.mod_small by lia. destruct sens; rewrite ifret_eq; cbn [test compare eval]; unfold compare; [|cbn [eval]];
        (rewrite Ev || (cbn [eval] in Ev; cbn [eval]; rewrite Ev)); cbn [bind eval with_val]; unfold sensequal, rune_min, fold_ascii.
      - rewrite Z.eqb_sym. destruct (v =? b); reflexivity.
      - rewrite Z.eqb_sym. destruct (_ =? _); reflexivity. }
    rewrite T. replace (Z.of_nat off + 1) with (Z.of_nat (S off)) by lia.
    destruct (between 0 b 127) eqn:B.
    - unfold decode_rune. rewrite B. rewrite (proj2 (Z.eqb_neq _ _)) by (apply between_true in B; change RuneError with 65533; lia). cbn [andb].
      destruct (sensequal v b sens); auto. rewrite IH by (auto; lia). replace (i + S off)%nat with (i + off + 1)%nat by lia. reflexivity.
    - pose proof (decode_high b (skipn (S (i + off)) input) B) as H. destruct (decode_rune (b :: skipn (S (i + off)) input)) as [r n]. cbn [fst] in H.
      assert (S1 : sensequal v b sens = false).
      { apply between_false in B. unfold sensequal, rune_min. destruct sens; [apply Z.eqb_neq; lia|]. apply Z.eqb_neq.
        repeat match goal with |- context [if ?c then _ else _] => destruct c eqn:? end; lia. }
      assert (S2 : sensequal v r sens = false).
      { unfold sensequal, rune_min. destruct sens; [apply Z.eqb_neq; lia|]. apply Z.eqb_neq.
        repeat match goal with |- context [if ?c then _ else _] => destruct c eqn:? end; lia. }
      rewrite S1, S2. destruct (_ && _)%bool; reflexivity.
  Qed.

  Lemma decode_size p : p <> [] -> (snd (decode_rune p) <= length p)%nat.
  Proof.
    destruct p as [|b q]; [congruence|]. intros _. unfold decode_rune.
    repeat match goal with |- context [if ?c then _ else _] => destruct c | |- context [match ?l with [] => _ | _ :: _ => _ end] => destruct l end;
      cbn [snd length]; lia.
  Qed.
  Ltac look := unfold num_of; cbn [lookup String.eqb Ascii.eqb Bool.eqb].
  Lemma tail_input j : (j <= length input)%nat -> slice_in input (Z.of_nat j) (Z.of_nat (length input)) = Val (skipn j input).
  Proof.
    intros J. unfold slice_in. rewrite (proj2 (Z.ltb_ge (Z.of_nat j) 0)), (proj2 (Z.ltb_ge (Z.of_nat (length input)) (Z.of_nat j))), (proj2 (Z.ltb_ge (Z.of_nat (length input)) (Z.of_nat (length input)))) by lia.
    cbn [orb]. rewrite Nat2Z.id, firstn_all2; auto. rewrite skipn_length. lia.
  Qed.
  Lemma rune_step sens (U : pg_utf8 pg = true) v j e st : (j <= length input)%nat ->
    ex (rune_test sens v) (("j", VNum (Z.of_nat j)) :: e) st =
    if Nat.leb (length input) j then OReturn st
    else let '(r, size) := decode_rune (skipn j input) in
         if (Z.eqb r RuneError && Nat.eqb size 1)%bool then OReturn st
         else if sensequal v r sens then ONext (("j", VNum (Z.of_nat (j + size))) :: e) st else OReturn st.
  Proof.
    intros J. set (B := [(if sens then ifret (CNe (XVar "rv") (XInt v)) else ifret (CNe (XFoldR (XVar "rv")) (XInt (fold_ascii v)))); XAddTo "j" (XVar "rs")]).
    change (rune_test sens v) with (XBlock ([ifret (CGe (XVar "j") XLenInput); XDecode "rv" "rs" (XVar "j");
      ifret (CAnd (CEq (XVar "rv") XRuneError) (CEq (XVar "rs") (XInt 1)))] ++ B)).
    cbn [exec]. unfold exec_block. rewrite seq_app. cbn [exec_seq].
    rewrite ifret_eq. cbn [test]. unfold compare. cbn [eval]. look. cbn [bind with_val]. rewrite Z.geb_leb.
    destruct (Nat.leb_spec (length input) j) as [Ge|Lt].
    { rewrite (proj2 (Z.leb_le _ _)) by lia. reflexivity. }
    rewrite (proj2 (Z.leb_gt _ _)) by lia. cbn [exec]. rewrite U. cbn [eval]. look. cbn [with_val]. rewrite (tail_input _ J). cbn [with_val].
    destruct (decode_rune (skipn j input)) as [r n].
    rewrite ifret_eq. cbn [test]. unfold compare. cbn [eval]. rewrite U. look. cbn [bind].
    replace (Z.of_nat n =? 1) with (Nat.eqb n 1) by (destruct (Nat.eqb_spec n 1); symmetry; [apply Z.eqb_eq|apply Z.eqb_neq]; lia).
    assert (Last : forall e0, e0 = ("rs", VNum (Z.of_nat n)) :: ("rv", VNum r) :: ("j", VNum (Z.of_nat j)) :: e ->
      sq B e0 st =
      if sensequal v r sens then ONext (("rs", VNum (Z.of_nat n)) :: ("rv", VNum r) :: ("j", VNum (Z.of_nat (j + n))) :: e) st else OReturn st).
    { intros e0 ->. subst B. cbn [exec_seq]. unfold sensequal. destruct sens; rewrite ifret_eq; cbn [test]; unfold compare; cbn [eval]; look; cbn [bind with_val].
      - rewrite Z.eqb_sym. destruct (v =? r); cbn [negb]; auto. cbn [exec eval]. look. cbn [with_val assign String.eqb Ascii.eqb Bool.eqb].
        rewrite <- Nat2Z.inj_add. reflexivity.
      - unfold rune_min, fold_ascii. rewrite Z.eqb_sym. destruct (_ =? _); cbn [negb]; auto. cbn [exec eval]. look. cbn [with_val assign String.eqb Ascii.eqb Bool.eqb].
        rewrite <- Nat2Z.inj_add. reflexivity. }
    specialize (Last _ eq_refl).
    assert (Lv : forall w, leave (("j", VNum (Z.of_nat j)) :: e) (("rs", VNum (Z.of_nat n)) :: ("rv", VNum r) :: ("j", w) :: e) = ("j", w) :: e).
    { intros w. apply (leave_app [("rs", VNum (Z.of_nat n)); ("rv", VNum r)]). reflexivity. }
    destruct (r =? RuneError); cbn [andb]; [destruct (Nat.eqb n 1)|]; cbn [with_val]; auto; rewrite Last; destruct (sensequal v r sens); auto; rewrite Lv; reflexivity.
  Qed.
  Lemma rune_exec sens (U : pg_utf8 pg = true) : forall vals j e st, (j <= length input)%nat ->
    sq (map (rune_test sens) vals) (("j", VNum (Z.of_nat j)) :: e) st =
    match match_char sens vals input j with None => OReturn st | Some k => ONext (("j", VNum (Z.of_nat k)) :: e) st end.
  Proof.
    induction vals as [|v vs IH]; intros j e st J; cbn [map exec_seq match_char]; auto. rewrite rune_step by auto.
    destruct (Nat.leb_spec (length input) j) as [Ge|Lt]; auto.
    pose proof (decode_size (skipn j input)) as Sz. destruct (decode_rune (skipn j input)) as [r n]. cbn [snd] in Sz. rewrite skipn_length in Sz.
    destruct (Z.eqb r RuneError && Nat.eqb n 1)%bool; auto. destruct (sensequal v r sens); auto. apply IH.
    assert (n <= length input - j)%nat; [apply Sz|lia]. intros E. pose proof (skipn_length j input) as X. rewrite E in X. cbn in X. lia.
  Qed.

  (** series *)
  Lemma series_exec b es idx : (idx <= length input)%nat -> forallb valid_rune (map (fun s => numval_to_rune s b) es) = true ->
    let bs := flat_map string_of_rune (map (fun s => numval_to_rune s b) es) in
    match_series b es input idx =
    if (Nat.ltb (length input) (idx + length bs) || negb (list_eqb bs (firstn (length bs) (skipn idx input))))%bool then None else Some (idx + length bs)%nat.
  Proof.
    revert idx. induction es as [|s es IH]; intros idx I V; cbn zeta; cbn [map forallb flat_map match_series length].
    - rewrite Nat.add_0_r. destruct (Nat.ltb_spec (length input) idx); [lia|]. reflexivity.
    - cbn [map forallb] in V. apply andb_true_iff in V as [V1 V2]. rewrite V1. cbn [negb].
      set (x := string_of_rune (numval_to_rune s b)). cbn zeta in IH. set (bs := flat_map string_of_rune (map (fun s => numval_to_rune s b) es)) in *.
      rewrite app_length. destruct (Nat.ltb_spec (length input) (idx + length x)) as [Gt|Le]; cbn [orb].
      + destruct (Nat.ltb_spec (length input) (idx + (length x + length bs))); [reflexivity|lia].
      + rewrite list_eqb_app, firstn_firstn, Nat.min_l by lia.
        destruct (list_eqb x (firstn (length x) (skipn idx input))); cbn [negb andb].
        * rewrite IH by (auto; lia). rewrite skipn_firstn_comm, skipn_twice. replace (length x + length bs - length x)%nat with (length bs) by lia.
          replace (length x + idx)%nat with (idx + length x)%nat by lia. rewrite Nat.add_assoc. reflexivity.
        * rewrite orb_true_r. reflexivity.
  Qed.
  Lemma series_bad b es : forall idx, forallb valid_rune (map (fun s => numval_to_rune s b) es) = false -> match_series b es input idx = None.
  Proof.
    induction es as [|s es IH]; intros idx; cbn [map forallb match_series]; [discriminate|].
    destruct (valid_rune (numval_to_rune s b)); cbn [negb andb]; auto. intros H. destruct (_ || _)%bool; auto.
  Qed.

  (** The matching code of a terminal. *)
  Definition needs_utf8 (t : elem) : bool :=
    match t with ENum _ StatRange _ => true | EChar _ vals => existsb (fun r => 0x7F <? r) vals | _ => false end.
  Lemma find_series_ok bs ser : forall k n, find_series bs k ser = Some n -> (k <= n)%nat /\ nth_error ser (n - k) = Some bs.
  Proof.
    induction ser as [|x ser IH]; intros k n; cbn [find_series]; [discriminate|]. destruct (list_eqb x bs) eqn:E.
    - intros X. injection X as <-. apply list_eqb_spec in E. subst. rewrite Nat.sub_diag. auto.
    - intros X. apply IH in X as [A B]. split; [lia|]. replace (n - k)%nat with (S (n - S k)) by lia. exact B.
  Qed.
  Lemma series_var_ok bs ser k ser' : series_var bs ser = (k, ser') -> nth_error ser' k = Some bs /\ exists tl, ser' = ser ++ tl.
  Proof.
    unfold series_var. destruct (find_series bs 0 ser) as [n|] eqn:F; intros E; injection E as <- <-.
    - apply find_series_ok in F as [_ F]. rewrite Nat.sub_0_r in F. split; auto. exists []. rewrite app_nil_r. auto.
    - split; eauto. rewrite nth_error_app2, Nat.sub_diag by lia. reflexivity.
  Qed.
  Lemma nth_error_more {A} (l tl : list A) k x : nth_error l k = Some x -> nth_error (l ++ tl) k = Some x.
  Proof. intros H. rewrite nth_error_app1; auto. apply nth_error_Some. congruence. Qed.

  Lemma match_exec t ser m ser' e i st : emit_match t ser = Some (m, ser') -> (exists tl, pg_series pg = ser' ++ tl) ->
    (needs_utf8 t = true -> pg_utf8 pg = true) -> (forall s vs, t = EChar s vs -> Forall (fun v => 0 <= v) vs) ->
    lookup "i" e = Some (VNum (Z.of_nat i)) -> (i <= length input)%nat ->
    match match_term t input i with
    | None => sq m e st = OReturn st
    | Some j => exists pre, sq m e st = ONext (pre ++ e) st /\ lookup "j" (pre ++ e) = Some (VNum (Z.of_nat j)) /\ keeps pre
    end.
  Proof.
    intros Em [tl Se] U Cv Li I.
    assert (Kj : forall w, keeps [("j", w)]) by (intros w x [<-|[]]; cbn; intuition discriminate).
    destruct t as [n|a|a|sens vals|b stt es|p]; cbn [emit_match match_term] in *; try (injection Em as <- <-; reflexivity).
    - injection Em as <- <-. unfold emit_char_val. destruct (forallb (fun r => r <=? 127) vals) eqn:F.
      + assert (Fa : Forall (fun v => 0 <= v <= 127) vals).
        { specialize (Cv _ _ eq_refl). rewrite forallb_forall in F. rewrite Forall_forall in *. intros x Ix. specialize (F x Ix). specialize (Cv x Ix). lia. }
        cbn [exec_seq]. rewrite ifret_eq. cbn [test]. unfold compare. cbn [eval]. rewrite (eval_i _ _ Li). cbn [bind with_val].
        rewrite Z.gtb_ltb. destruct (Z.ltb_spec (Z.of_nat (length input)) (Z.of_nat i + Z.of_nat (length vals))) as [Lt|Ge].
        * destruct (match_char sens vals input i) as [j|] eqn:M; auto. exfalso.
          pose proof (match_char_ascii _ _ _ _ Fa M) as ->. pose proof (match_term_bounds (EChar sens vals) input i _ M I). lia.
        * pose proof (ascii_exec sens e i st Li vals 0 Fa) as A. rewrite Nat.add_0_r in A. change (Z.of_nat 0) with 0 in A.
          rewrite seq_app, A by lia. destruct (match_char sens vals input i) as [j|] eqn:M; auto.
          pose proof (match_char_ascii _ _ _ _ Fa M) as ->. exists [("j", VNum (Z.of_nat (i + length vals)))].
          cbn [exec_seq exec eval]. rewrite (eval_i _ _ Li). cbn [bind with_val]. rewrite Nat2Z.inj_add. split; [reflexivity|]. split; [reflexivity|apply Kj].
      + assert (Ut : pg_utf8 pg = true).
        { apply U. cbn [needs_utf8]. clear -F. induction vals as [|v vs IH]; [discriminate|]. cbn [forallb existsb] in *.
          destruct (Z.leb_spec v 127); [rewrite (proj2 (Z.ltb_ge _ _)) by lia; auto|]. rewrite (proj2 (Z.ltb_lt _ _)) by lia. reflexivity. }
        cbn [exec_seq exec]. rewrite (eval_i _ _ Li). cbn [with_val]. rewrite (rune_exec sens Ut) by auto.
        destruct (match_char sens vals input i) as [j|]; auto. exists [("j", VNum (Z.of_nat j))]. split; [reflexivity|]. split; [reflexivity|apply Kj].
    - destruct stt.
      + (* series *)
        injection Em as Em. unfold emit_series in Em. destruct (forallb valid_rune (map (fun e => numval_to_rune e b) es)) eqn:V.
        * destruct (series_var (flat_map string_of_rune (map (fun e => numval_to_rune e b) es)) ser) as [k s2] eqn:Sv. injection Em as <- <-.
          apply series_var_ok in Sv as [Nk _]. assert (Sk : series_of pg k = Some (flat_map string_of_rune (map (fun e => numval_to_rune e b) es))).
          { unfold series_of. rewrite Se. apply nth_error_more. exact Nk. }
          rewrite (series_exec b es i I V). set (bs := flat_map string_of_rune _) in *.
          cbn [exec_seq]. rewrite ifret_eq. cbn [test]. unfold compare. cbn [eval]. rewrite (eval_i _ _ Li), Sk. cbn [bind].
          rewrite Z.gtb_ltb. replace (Z.of_nat (length input) <? Z.of_nat i + Z.of_nat (length bs)) with (Nat.ltb (length input) (i + length bs))
            by (destruct (Nat.ltb_spec (length input) (i + length bs)); symmetry; [apply Z.ltb_lt|apply Z.ltb_ge]; lia).
          destruct (Nat.ltb_spec (length input) (i + length bs)) as [Lt|Ge]; [reflexivity|]. cbn [bind orb].
          assert (Sl : slice_in input (Z.of_nat i) (Z.of_nat i + Z.of_nat (length bs)) = Val (firstn (length bs) (skipn i input))).
          { unfold slice_in. rewrite (proj2 (Z.ltb_ge (Z.of_nat i) 0)), (proj2 (Z.ltb_ge _ (Z.of_nat i))), (proj2 (Z.ltb_ge (Z.of_nat (length input)) _)) by lia.
            cbn [orb]. rewrite Nat2Z.id. do 2 f_equal. lia. }
          rewrite Sl. cbn [bind with_val]. rewrite (list_eqb_sym (firstn (length bs) (skipn i input))).
          destruct (list_eqb bs (firstn (length bs) (skipn i input))); cbn [negb]; auto.
          exists [("j", VNum (Z.of_nat (i + length bs)))]. cbn [exec eval]. rewrite (eval_i _ _ Li), Sk. cbn [bind with_val].
          rewrite Nat2Z.inj_add. split; [reflexivity|]. split; [reflexivity|apply Kj].
        * injection Em as <- <-. rewrite (series_bad _ _ _ V). reflexivity.
      + destruct es as [|lo [|hi es]]; try discriminate. injection Em as <- <-. unfold match_range. specialize (U eq_refl).
        set (B := [ifret (COr (CLt (XVar "rv") (XInt (numval_to_rune lo b))) (CGt (XVar "rv") (XInt (numval_to_rune hi b)))); XDeclare "j" (XPlus xi (XVar "rs"))]).
        change (sq _ e st) with (sq ([ifret (CGe xi XLenInput); XDecode "rv" "rs" xi; ifret (CAnd (CEq (XVar "rv") XRuneError) (CEq (XVar "rs") (XInt 1)))] ++ B) e st).
        rewrite seq_app. cbn [exec_seq]. rewrite ifret_eq. cbn [test]. unfold compare. cbn [eval]. rewrite (eval_i _ _ Li). cbn [bind with_val]. rewrite Z.geb_leb.
        destruct (Nat.leb_spec (length input) i) as [Ge|Lt].
        { rewrite (proj2 (Z.leb_le _ _)) by lia. reflexivity. }
        rewrite (proj2 (Z.leb_gt _ _)) by lia. cbn [exec]. rewrite U, (eval_i _ _ Li). cbn [with_val]. rewrite (tail_input _ I). cbn [with_val].
        destruct (decode_rune (skipn i input)) as [r n].
        rewrite ifret_eq. cbn [test]. unfold compare. cbn [eval]. rewrite U. look. cbn [bind].
        replace (Z.of_nat n =? 1) with (Nat.eqb n 1) by (destruct (Nat.eqb_spec n 1); symmetry; [apply Z.eqb_eq|apply Z.eqb_neq]; lia).
        set (e2 := ("rs", VNum (Z.of_nat n)) :: ("rv", VNum r) :: e).
        assert (Last : sq B e2 st =
          if (numval_to_rune lo b <=? r) && (r <=? numval_to_rune hi b) then ONext (("j", VNum (Z.of_nat (i + n))) :: e2) st else OReturn st).
        { subst B. cbn [exec_seq]. rewrite ifret_eq. cbn [test]. unfold compare. cbn [eval]. subst e2. look. cbn [bind]. rewrite Z.ltb_antisym, Z.gtb_ltb, (Z.ltb_antisym r).
          destruct (numval_to_rune lo b <=? r); cbn [negb bind andb with_val]; auto. destruct (r <=? numval_to_rune hi b); cbn [negb]; auto.
          cbn [exec eval]. unfold xi. cbn [eval]. look. rewrite Li. cbn [bind with_val]. rewrite Nat2Z.inj_add. reflexivity. }
        assert (Fin : match (if (numval_to_rune lo b <=? r) && (r <=? numval_to_rune hi b) then Some (i + n)%nat else None) with
          | None => (if (numval_to_rune lo b <=? r) && (r <=? numval_to_rune hi b) then ONext (("j", VNum (Z.of_nat (i + n))) :: e2) st else OReturn st) = OReturn st
          | Some j => exists pre, (if (numval_to_rune lo b <=? r) && (r <=? numval_to_rune hi b) then ONext (("j", VNum (Z.of_nat (i + n))) :: e2) st else OReturn st) = ONext (pre ++ e) st /\
              lookup "j" (pre ++ e) = Some (VNum (Z.of_nat j)) /\ keeps pre end).
        { destruct ((numval_to_rune lo b <=? r) && (r <=? numval_to_rune hi b)); auto. exists [("j", VNum (Z.of_nat (i + n))); ("rs", VNum (Z.of_nat n)); ("rv", VNum r)].
          split; [reflexivity|]. split; [reflexivity|]. intros x [<-|[<-|[<-|[]]]]; cbn; intuition discriminate. }
        destruct (r =? RuneError); cbn [andb]; [destruct (Nat.eqb n 1)|]; cbn [with_val]; auto; fold e2; rewrite Last; exact Fin.
  Qed.
End Run.
