(** Terminal matching: model of gllParser.matchTerm (sppf.go:427-486), which is
    repeated verbatim in bsr.go:140-195 and, as a set-valued function, in the
    terminal cases of recognizer.computeElem (recognize.go:230-290). *)
From Coq Require Import ZArith String Ascii Bool List Lia.
From Verif Require Import Syntax Spec Utf8 Num.
Import ListNotations.
Local Open Scope Z_scope.

(** runeMin (grammar.go:369-374). *)
Definition rune_min (r : Z) : Z := if (65 <=? r) && (r <=? 90) then r - 65 + 97 else r.

(** runeMax (grammar.go:376-381). *)
Definition rune_max (r : Z) : Z := if (97 <=? r) && (r <=? 122) then r - 97 + 65 else r.

(** sensequal (grammar.go:362-367). *)
Definition sensequal (target actual : Z) (sensitive : bool) : bool :=
  if sensitive then target =? actual else rune_min target =? rune_min actual.

(** char-val loop (sppf.go:432-447, recognize.go:273-289). *)
Fixpoint match_char (sens : bool) (vals : list Z) (input : list Z) (idx : nat) : option nat :=
  match vals with
  | [] => Some idx
  | v :: vs =>
      if Nat.leb (length input) idx then None
      else
        let '(r, size) := decode_rune (skipn idx input) in
        if (Z.eqb r RuneError && Nat.eqb size 1)%bool then None
        else if sensequal v r sens then match_char sens vs input (idx + size)
        else None
  end.

(** Comparison of strings (sppf.go:477, recognize.go:264). *)
Fixpoint list_eqb (a b : list Z) : bool :=
  match a, b with
  | [], [] => true
  | x :: a', y :: b' => Z.eqb x y && list_eqb a' b'
  | _, _ => false
  end.

(** num-val series loop (sppf.go:466-482, recognize.go:252-269).
    [str != string(input[idx:idx+sz])] compares bytes. *)
Fixpoint match_series (base : string) (ns : list string) (input : list Z) (idx : nat) : option nat :=
  match ns with
  | [] => Some idx
  | s :: ns' =>
      let ru := numval_to_rune s base in
      if negb (valid_rune ru) then None
      else
        let str := string_of_rune ru in
        let sz := length str in
        if (Nat.ltb (length input) (idx + sz) || negb (list_eqb str (firstn sz (skipn idx input))))%bool
        then None
        else match_series base ns' input (idx + sz)
  end.

(** num-val range (sppf.go:450-465, recognize.go:236-251). *)
Definition match_range (base lo hi : string) (input : list Z) (i : nat) : option nat :=
  if Nat.leb (length input) i then None
  else
    let mn := numval_to_rune lo base in
    let mx := numval_to_rune hi base in
    let '(r, size) := decode_rune (skipn i input) in
    if (Z.eqb r RuneError && Nat.eqb size 1)%bool then None
    else if (mn <=? r) && (r <=? mx) then Some (i + size)%nat else None.

(** matchTerm on a terminal element; Go's -1 is [None].  A range with fewer than
    two bounds would panic in Go (index out of range); the evaluator only builds
    two, and the model answers [None]. *)
Definition match_term (t : elem) (input : list Z) (i : nat) : option nat :=
  match t with
  | EChar s vs => match_char s vs input i
  | ENum b StatRange (lo :: hi :: _) => match_range b lo hi input i
  | ENum b StatRange _ => None
  | ENum b StatSeries ns => match_series b ns input i
  | _ => None
  end.

(** The elements lowered to terminals (sppf.go:189). *)
Definition is_terminal (e : elem) : bool :=
  match e with EChar _ _ | ENum _ _ _ | EProse _ => true | _ => false end.

(** ** Specification of spans *)


Lemma span_nil input i : (i <= length input)%nat -> span input i i [].
Proof.
  intros H. exists (firstn i input), (skipn i input). cbn.
  rewrite firstn_skipn, firstn_length. repeat split; lia.
Qed.

Lemma span_app input i k j w1 w2 : span input i k w1 -> span input k j w2 -> span input i j (w1 ++ w2).
Proof.
  intros (p & s & E & L & K) (p' & s' & E' & L' & J).
  exists p, s'. rewrite app_length. repeat split; try lia.
  assert (HP : p' = p ++ w1).
  { rewrite E in E'. rewrite app_assoc in E'.
    assert (length (p ++ w1) = length p') by (rewrite app_length; lia).
    clear - E' H. revert p' E' H. generalize (p ++ w1) as q. induction q as [|x q IH]; intros p' E H.
    - destruct p'; [reflexivity|discriminate].
    - destruct p' as [|y p']; [discriminate|]. cbn in *. inversion E. f_equal. apply IH; auto. }
  subst p'. rewrite E'. rewrite <- !app_assoc. reflexivity.
Qed.

Lemma span_app_inv input i j w1 w2 : span input i j (w1 ++ w2) ->
  span input i (i + length w1) w1 /\ span input (i + length w1) j w2.
Proof.
  intros (p & s & E & L & J). rewrite app_length in J. split.
  - exists p, (w2 ++ s). rewrite E, <- app_assoc. repeat split; auto.
  - exists (p ++ w1), s. rewrite E, app_length, <- !app_assoc. repeat split; auto; lia.
Qed.

Lemma span_le input i j w : span input i j w -> (i <= j <= length input)%nat.
Proof. intros (p & s & -> & L & J). rewrite !app_length. lia. Qed.

Lemma span_fun input i j w w' : span input i j w -> span input i j w' -> w = w'.
Proof.
  intros (p & s & E & L & J) (p' & s' & E' & L' & J').
  assert (p = p' /\ w ++ s = w' ++ s') as [_ E2].
  { rewrite E in E'. clear -E' L L'. revert p' i L L' E'. induction p as [|x p IH]; intros [|y p'] i L L' E; cbn in *; try lia; auto.
    inversion E; subst. destruct (IH p' (length p')) as [-> ->]; auto; lia. }
  assert (length w = length w') by lia.
  clear -E2 H. revert w' H E2. induction w as [|x w IH]; intros [|y w'] H E; cbn in *; try discriminate; auto.
  inversion E; subst. f_equal. apply IH; auto.
Qed.

Lemma span_skipn input i w rest : skipn i input = w ++ rest -> (i <= length input)%nat ->
  span input i (i + length w) w.
Proof.
  intros E H. exists (firstn i input), rest. rewrite <- E, firstn_skipn, firstn_length. repeat split; lia.
Qed.

Lemma span_skipn_inv input i j w : span input i j w ->
  exists rest, skipn i input = w ++ rest /\ (i + length w <= length input)%nat /\ j = (i + length w)%nat.
Proof.
  intros (p & s & -> & L & J). exists s. subst i.
  rewrite skipn_app, skipn_all2, Nat.sub_diag by lia. cbn.
  rewrite !app_length. repeat split; auto; lia.
Qed.

Lemma span_whole input w : span input 0 (length input) w -> w = input.
Proof.
  intros (p & s & E & L & J). destruct p; [|discriminate]. cbn in *.
  rewrite E in J. rewrite app_length in J. assert (s = []) by (destruct s; cbn in *; [auto|lia]).
  subst. rewrite app_nil_r. reflexivity.
Qed.

Lemma span_self input : span input 0 (length input) input.
Proof. exists [], []. rewrite app_nil_r. repeat split. Qed.

(** ** Correctness *)

Lemma sensequal_spec v r s : sensequal v r s = true <-> char_ok s v r.
Proof.
  unfold sensequal, char_ok. destruct s; [apply Z.eqb_eq|].
  rewrite Z.eqb_eq. unfold rune_min, fold_case.
  destruct ((65 <=? v) && (v <=? 90)), ((65 <=? r) && (r <=? 90)); lia.
Qed.

Lemma decode_step input idx : (idx < length input)%nat ->
  (let '(r, size) := decode_rune (skipn idx input) in
   if (Z.eqb r RuneError && Nat.eqb size 1)%bool then None else Some (r, size)) = decode_ok (skipn idx input).
Proof.
  intros H. unfold decode_ok. destruct (decode_rune (skipn idx input)) as [r n] eqn:D.
  assert (1 <= n)%nat.
  { destruct (skipn idx input) as [|p0 q] eqn:E.
    - assert (length (skipn idx input) = 0%nat) by (rewrite E; reflexivity).
      rewrite skipn_length in H0. lia.
    - cbn [decode_rune] in D. clear -D.
      repeat match type of D with
      | context [if ?b then _ else _] => destruct b
      | context [match ?q with [] => _ | _ :: _ => _ end] => destruct q
      end; inversion D; lia. }
  destruct (Z.eqb r RuneError); cbn; auto.
  destruct (Nat.eqb_spec n 1), (Nat.leb_spec n 1); try lia; auto.
Qed.

Lemma skipn_step (input : list Z) i w rest : skipn i input = w ++ rest -> skipn (i + length w) input = rest.
Proof.
  intros E. rewrite Nat.add_comm.
  revert input E. induction i as [|i IH]; intros input E.
  - cbn in E. subst. rewrite Nat.add_0_r. rewrite skipn_app, skipn_all2, Nat.sub_diag by lia. reflexivity.
  - rewrite Nat.add_succ_r. destruct input as [|x input].
    + cbn in E. symmetry in E. apply app_eq_nil in E as [-> ->]. reflexivity.
    + cbn in E |- *. apply IH in E. exact E.
Qed.

Lemma match_char_spec s vs : forall input i j, (i <= length input)%nat ->
  (match_char s vs input i = Some j <->
   exists rs, Forall2 (char_ok s) vs rs /\ Forall scalar rs /\ span input i j (utf8s rs)).
Proof.
  induction vs as [|v vs IH]; intros input i j Hi; cbn [match_char].
  - split.
    + intros H; inversion H; subst. exists []. repeat split; auto. apply span_nil; auto.
    + intros (rs & F & _ & Sp). inversion F; subst. destruct Sp as (p & q & _ & _ & ->). cbn. f_equal; lia.
  - destruct (Nat.leb_spec (length input) i).
    { split; [discriminate|]. intros (rs & F & Sc & Sp). inversion F; subst. inversion Sc; subst.
      apply span_le in Sp as Sp'. apply span_skipn_inv in Sp as (rest & E & L & J).
      cbn in L. rewrite app_length in L. pose proof (utf8_length y). lia. }
    pose proof (decode_step input i H) as D.
    destruct (decode_rune (skipn i input)) as [r n] eqn:E.
    destruct (Z.eqb r RuneError && Nat.eqb n 1)%bool.
    { split; [discriminate|]. intros (rs & F & Sc & Sp). inversion F; subst. inversion Sc; subst.
      apply span_skipn_inv in Sp as (rest & E2 & L & J). cbn in E2. rewrite <- app_assoc in E2.
      assert (decode_ok (skipn i input) = Some (y, length (utf8 y))) as Q by (apply decode_ok_iff; eauto).
      congruence. }
    symmetry in D. apply decode_ok_iff in D as (Sc & -> & rest & E2).
    assert (Hi' : (i + length (utf8 r) <= length input)%nat).
    { pose proof (f_equal (@length Z) E2) as Q. rewrite skipn_length, app_length in Q. lia. }
    destruct (sensequal v r s) eqn:Q.
    + rewrite IH by auto. apply sensequal_spec in Q. split.
      * intros (rs & F & Sc2 & Sp). exists (r :: rs). repeat split; auto. cbn.
        eapply span_app; [|eassumption]. eapply span_skipn; eauto; lia.
      * intros (rs & F & Sc2 & Sp). inversion F; subst. inversion Sc2; subst.
        cbn in Sp. apply span_app_inv in Sp as [Sp1 Sp2].
        apply span_skipn_inv in Sp1 as (rest1 & E1 & _ & _).
        assert (r = y).
        { rewrite E2 in E1. apply utf8_prefix in E1 as [-> _]; auto. }
        subst y. exists l'. auto.
    + split; [discriminate|]. intros (rs & F & Sc2 & Sp). inversion F; subst. inversion Sc2; subst.
      cbn in Sp. apply span_app_inv in Sp as [Sp1 Sp2].
      apply span_skipn_inv in Sp1 as (rest1 & E1 & _ & _).
      assert (r = y).
      { rewrite E2 in E1. apply utf8_prefix in E1 as [-> _]; auto. }
      subst y. apply sensequal_spec in H2. congruence.
Qed.

Lemma list_eqb_spec a b : list_eqb a b = true <-> a = b.
Proof.
  revert b. induction a as [|x a IH]; intros [|y b]; cbn; try (split; congruence).
  rewrite andb_true_iff, Z.eqb_eq, IH. split; [intros [-> ->]; auto|intros Q; inversion Q; auto].
Qed.

Lemma firstn_prefix (l w : list Z) : firstn (length w) l = w -> exists rest, l = w ++ rest.
Proof. intros H. exists (skipn (length w) l). rewrite <- H at 1. symmetry. apply firstn_skipn. Qed.

Ltac same_num :=
  repeat match goal with
  | H1 : numeral ?b ?s = Some ?x, H2 : numeral ?b ?s = Some ?y |- _ =>
      rewrite H1 in H2; inversion H2; clear H2; subst
  end.

Lemma match_series_spec b ns : Forall (fun s => exists v, numeral b s = Some v) ns ->
  forall input i j, (i <= length input)%nat ->
  (match_series b ns input i = Some j <->
   exists rs, Forall2 (fun s v => numeral b s = Some v) ns rs /\ Forall scalar rs /\ span input i j (utf8s rs)).
Proof.
  induction ns as [|s ns IH]; intros W input i j Hi; cbn [match_series].
  - split.
    + intros H; inversion H; subst. exists []. repeat split; auto. apply span_nil; auto.
    + intros (rs & F & _ & Sp). inversion F; subst. destruct Sp as (p & q & _ & _ & ->). cbn. f_equal; lia.
  - inversion W; subst. destruct H1 as [v Hv]. specialize (IH H2).
    unfold numval_to_rune. rewrite (numval_to_int32_spec _ _ _ Hv).
    destruct (valid_rune (Z.min v MaxInt32)) eqn:V; cbn [negb].
    2:{ split; [discriminate|]. intros (rs & F & Sc & Sp). inversion F; subst. inversion Sc; subst.
        same_num.
        assert (Z.min y MaxInt32 = y) as Q by (unfold scalar, MaxInt32 in *; lia).
        rewrite Q in V. assert (valid_rune y = true) by (apply valid_rune_scalar; auto). congruence. }
    apply valid_rune_scalar in V.
    assert (Q : Z.min v MaxInt32 = v) by (unfold scalar, MaxInt32 in *; lia). rewrite Q in *.
    rewrite string_of_rune_utf8 by auto.
    destruct (Nat.ltb_spec (length input) (i + length (utf8 v))); cbn [orb].
    { split; [discriminate|]. intros (rs & F & Sc & Sp). inversion F; subst. inversion Sc; subst.
      same_num.
      cbn in Sp. apply span_app_inv in Sp as [Sp1 _]. apply span_le in Sp1. lia. }
    destruct (list_eqb (utf8 v) (firstn (length (utf8 v)) (skipn i input))) eqn:LE; cbn [negb].
    + apply list_eqb_spec in LE. symmetry in LE. apply firstn_prefix in LE as [rest E].
      rewrite IH by lia. split.
      * intros (rs & F & Sc & Sp). exists (v :: rs). repeat split; auto.
        cbn. eapply span_app; [|eassumption]. eapply span_skipn; eauto.
      * intros (rs & F & Sc & Sp). inversion F; subst. inversion Sc; subst.
        same_num. cbn in Sp. apply span_app_inv in Sp as [_ Sp].
        exists l'. auto.
    + split; [discriminate|]. intros (rs & F & Sc & Sp). inversion F; subst. inversion Sc; subst.
      same_num. cbn in Sp. apply span_app_inv in Sp as [Sp _].
      apply span_skipn_inv in Sp as (rest & E & _).
      rewrite E in LE. rewrite firstn_app, firstn_all, Nat.sub_diag in LE. cbn in LE. rewrite app_nil_r in LE.
      rewrite (proj2 (list_eqb_spec _ _) eq_refl) in LE. discriminate.
Qed.

Lemma match_range_spec b lo hi l h : numeral b lo = Some l -> numeral b hi = Some h ->
  forall input i j, (i <= length input)%nat ->
  (match_range b lo hi input i = Some j <->
   exists r, l <= r <= h /\ scalar r /\ span input i j (utf8 r)).
Proof.
  intros Hl Hh input i j Hi. unfold match_range, numval_to_rune.
  rewrite (numval_to_int32_spec _ _ _ Hl), (numval_to_int32_spec _ _ _ Hh).
  destruct (Nat.leb_spec (length input) i).
  { split; [discriminate|]. intros (r & _ & _ & Sp).
    apply span_skipn_inv in Sp as (rest & E & L & _). pose proof (utf8_length r). lia. }
  pose proof (decode_step input i H) as D.
  destruct (decode_rune (skipn i input)) as [r n] eqn:E.
  destruct (Z.eqb r RuneError && Nat.eqb n 1)%bool.
  { split; [discriminate|]. intros (r' & _ & Sc & Sp).
    apply span_skipn_inv in Sp as (rest & E2 & L & J).
    assert (decode_ok (skipn i input) = Some (r', length (utf8 r'))) as Q by (apply decode_ok_iff; eauto).
    congruence. }
  symmetry in D. apply decode_ok_iff in D as (Sc & -> & rest & E2).
  pose proof (numeral_nonneg _ _ _ Hl). pose proof (numeral_nonneg _ _ _ Hh).
  destruct (Z.leb_spec (Z.min l MaxInt32) r), (Z.leb_spec r (Z.min h MaxInt32)); cbn [andb].
  - split.
    + intros Q; inversion Q; subst. exists r. repeat split; auto; unfold scalar, MaxInt32 in *; try lia.
      eapply span_skipn; eauto; lia.
    + intros (r' & B & Sc' & Sp). apply span_skipn_inv in Sp as (rest1 & E1 & _ & ->).
      rewrite E2 in E1. apply utf8_prefix in E1 as [-> _]; auto.
  - split; [discriminate|]. intros (r' & B & Sc' & Sp). apply span_skipn_inv in Sp as (rest1 & E1 & _ & ->).
    rewrite E2 in E1. apply utf8_prefix in E1 as [-> _]; auto. unfold scalar, MaxInt32 in *; lia.
  - split; [discriminate|]. intros (r' & B & Sc' & Sp). apply span_skipn_inv in Sp as (rest1 & E1 & _ & ->).
    rewrite E2 in E1. apply utf8_prefix in E1 as [-> _]; auto. unfold scalar, MaxInt32 in *; lia.
  - split; [discriminate|]. intros (r' & B & Sc' & Sp). apply span_skipn_inv in Sp as (rest1 & E1 & _ & ->).
    rewrite E2 in E1. apply utf8_prefix in E1 as [-> _]; auto. unfold scalar, MaxInt32 in *; lia.
Qed.

Theorem match_term_spec g t : is_terminal t = true -> wf_elem t ->
  forall input i j, (i <= length input)%nat ->
  (match_term t input i = Some j <-> exists w, in_elem g t w /\ span input i j w).
Proof.
  intros T W input i j Hi. destruct t; try discriminate; cbn [match_term].
  - rewrite match_char_spec by auto. split.
    + intros (rs & F & Sc & Sp). exists (utf8s rs). split; auto. constructor; auto.
    + intros (w & L & Sp). inversion L; subst. exists rs. auto.
  - inversion W; subst. destruct H0 as [Hn Hs]. destruct st.
    + rewrite match_series_spec by auto. split.
      * intros (rs & F & Sc & Sp). exists (utf8s rs). split; auto. constructor; auto.
      * intros (w & L & Sp). inversion L; subst. exists rs. auto.
    + destruct elems as [|lo [|hi [|x y]]]; cbn in Hs; try lia.
      inversion Hn; subst. inversion H2; subst. destruct H1 as [l Hl], H3 as [h Hh].
      rewrite match_range_spec by eauto. split.
      * intros (r & B & Sc & Sp). exists (utf8 r). split; auto. econstructor; eauto.
      * intros (w & L & Sp). inversion L; subst. same_num. exists r. auto.
  - split; [discriminate|]. intros (w & L & _). inversion L.
Qed.

Lemma match_term_bounds t input i j : match_term t input i = Some j -> (i <= length input)%nat ->
  (i <= j <= length input)%nat.
Proof.
  intros H Hi. destruct t; try discriminate; cbn [match_term] in H.
  - apply match_char_spec in H as (rs & _ & _ & Sp); auto. apply span_le in Sp. auto.
  - destruct st.
    + revert i Hi H. induction elems as [|s ns IH]; cbn [match_series]; intros i Hi H.
      * inversion H; subst. lia.
      * destruct (valid_rune (numval_to_rune s base)); cbn [negb orb] in H; [|discriminate].
        destruct (Nat.ltb_spec (length input) (i + length (string_of_rune (numval_to_rune s base)))); cbn [negb orb] in H; [discriminate|].
        destruct (list_eqb _ _); cbn [negb orb] in H; [|discriminate].
        apply IH in H; lia.
    + destruct elems as [|lo [|hi l]]; try discriminate. unfold match_range in H.
      destruct (Nat.leb_spec (length input) i); [discriminate|].
      pose proof (decode_step input i H0) as D.
      destruct (decode_rune (skipn i input)) as [r n] eqn:E.
      destruct (Z.eqb r RuneError && Nat.eqb n 1)%bool; [discriminate|].
      symmetry in D. apply decode_ok_iff in D as (Sc & -> & rest & E2).
      destruct (_ && _)%bool; inversion H; subst.
      pose proof (f_equal (@length Z) E2) as Q. rewrite skipn_length, app_length in Q. lia.
Qed.
