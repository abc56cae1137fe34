(** Derivation trees and languages, the shape of trees, and a checkable
    condition under which the number of occurrences of a repetition does not
    matter. *)
(** The definitions here are those of statements, proofs and examples; they model no code. *)
From Coq Require Import ZArith String Bool List Lia.
From Verif Require Import Syntax Spec Utf8 Num Term Printer Slots PropTerm LowerLang TreeSpec Check TreeSound TreeComplete.
Import ListNotations.
Local Open Scope Z_scope.

(** *** Derivation trees and words *)
Section Words.
  Variable g : grammar.
  Variable input : list Z.

  Lemma d_lang :
    (forall e i j ts, d_elem g input within e i j ts -> exists w, span input i j w /\ in_elem g e w) /\
    (forall a i j ts, d_alt g input within a i j ts -> exists w, span input i j w /\ in_alt g a w) /\
    (forall c i j ts, d_cat g input within c i j ts -> exists w, span input i j w /\ in_cat g c w) /\
    (forall r i j ts, d_rep g input within r i j ts -> exists w, span input i j w /\ in_rep g r w) /\
    (forall e m i j ts, d_pow g input within e m i j ts -> exists w, span input i j w /\ in_pow g e m w).
  Proof.
    apply (d_mut g input within).
    - intros n r i j ts Rs _ (w & S & W). exists w. split; auto. econstructor; eauto. apply resolves_to_resolves; auto.
    - intros a i j ts _ (w & S & W). exists w. split; auto. constructor; auto.
    - intros a i H. exists []. split; [apply span_nil; auto|constructor].
    - intros a i j ts _ (w & S & W). exists w. split; auto. apply in_option_some; auto.
    - intros e i j w _ W S. exists w. auto.
    - intros c a i j ts I _ (w & S & W). exists w. split; auto. econstructor; eauto.
    - intros i H. exists []. split; [apply span_nil; auto|constructor].
    - intros r c i k j ts1 ts2 _ (w1 & S1 & W1) _ (w2 & S2 & W2). exists (w1 ++ w2). split; [eapply span_app; eauto|].
      constructor; auto.
    - intros mn mx e n i j ts [O1 O2] _ (w & S & W). exists w. split; auto. econstructor; eauto.
    - intros e i H. exists []. split; [apply span_nil; auto|constructor].
    - intros e n i k j ts1 ts2 _ (w1 & S1 & W1) _ (w2 & S2 & W2). exists (w1 ++ w2). split; [eapply span_app; eauto|].
      constructor; auto.
  Qed.

  Lemma resolves_resolves_to n a : resolves g n a -> exists r, resolves_to g n r /\ rule_alt r = a.
  Proof.
    intros [(r & A & B & C)|(N & r & A & B & C)]; exists r; (split; [|exact C]); [left|right]; auto.
  Qed.

  Lemma lang_d :
    (forall e w, in_elem g e w -> forall i j, span input i j w -> exists ts, d_elem g input within e i j ts) /\
    (forall a w, in_alt g a w -> forall i j, span input i j w -> exists ts, d_alt g input within a i j ts) /\
    (forall c w, in_cat g c w -> forall i j, span input i j w -> exists ts, d_cat g input within c i j ts) /\
    (forall r w, in_rep g r w -> forall i j, span input i j w -> exists ts, d_rep g input within r i j ts) /\
    (forall e m w, in_pow g e m w -> forall i j, span input i j w -> exists ts, d_pow g input within e m i j ts).
  Proof.
    apply (lang_mut g).
    - intros n a w Rs _ IH i j S. destruct (IH i j S) as (ts & D). apply resolves_resolves_to in Rs as (r & Rs & <-).
      exists [PT (rule_name r) i j ts]. econstructor; eauto.
    - intros a w _ IH i j S. destruct (IH i j S) as (ts & D). exists ts. constructor; auto.
    - intros a i j S. pose proof (span_le _ _ _ _ S). destruct S as (p & s & _ & _ & E). cbn in E.
      replace j with i by lia. exists []. apply d_option_none. lia.
    - intros a w _ IH i j S. destruct (IH i j S) as (ts & D). exists ts. apply d_option_some; auto.
    - intros s vs rs F Sc i j S. exists (leaf i j). eapply d_term; eauto; [exact Logic.I|constructor; auto].
    - intros b ns rs F Sc i j S. exists (leaf i j). eapply d_term; eauto; [exact Logic.I|constructor; auto].
    - intros b lo hi l h r N1 N2 B Sc i j S. exists (leaf i j). eapply d_term; eauto; [exact Logic.I|econstructor; eauto].
    - intros c a w I _ IH i j S. destruct (IH i j S) as (ts & D). exists ts. econstructor; eauto.
    - intros i j S. pose proof (span_le _ _ _ _ S). destruct S as (p & s & _ & _ & E). cbn in E.
      replace j with i by lia. exists []. apply d_cat_nil. lia.
    - intros r c w1 w2 _ IH1 _ IH2 i j S. apply span_app_inv in S as [S1 S2].
      destruct (IH1 _ _ S1) as (t1 & D1), (IH2 _ _ S2) as (t2 & D2). exists (t1 ++ t2). econstructor; eauto.
    - intros mn mx e n w A B _ IH i j S. destruct (IH i j S) as (ts & D). exists ts. econstructor; eauto. split; auto.
    - intros e i j S. pose proof (span_le _ _ _ _ S). destruct S as (p & s & _ & _ & E). cbn in E.
      replace j with i by lia. exists []. apply d_pow_O. lia.
    - intros e n w1 w2 _ IH1 _ IH2 i j S. apply span_app_inv in S as [S1 S2].
      destruct (IH1 _ _ S1) as (t1 & D1), (IH2 _ _ S2) as (t2 & D2). exists (t1 ++ t2). econstructor; eauto.
  Qed.

  (** A word has a derivation tree exactly when it is in the language. *)
  Lemma derivation_iff_lang root : (exists t, Derivation g root input t) <-> Lang g root input.
  Proof.
    split.
    - intros (t & D). destruct (proj1 d_lang _ _ _ _ D) as (w & S & W). apply span_whole in S. subst. exact W.
    - intros L. destruct (proj1 lang_d _ _ L 0%nat (length input) (span_self _)) as (ts & D).
      inversion D as [m r i j ts' Rs Ha| | | |e i j w Te]; subst; [|destruct Te]. eexists. exact D.
  Qed.

  (** *** Counts *)
  Definition occ_in (e : elem) : Prop :=
    match e with EGroup a | EOption a => forall c x, In c a -> In x c -> occ_rep g x | _ => True end.
  Lemma occ_elem_in e : occ_elem g e -> occ_in e.
  Proof. destruct e; cbn; auto; intros H c x A B; [eapply occ_rep_group|eapply occ_rep_option]; eauto. Qed.

  Hypothesis CD : counts_determined g.
  Lemma loose_strict :
    (forall e i j ts, d_elem g input (spans_word g input) e i j ts -> occ_in e -> d_elem g input within e i j ts) /\
    (forall a i j ts, d_alt g input (spans_word g input) a i j ts -> (forall c x, In c a -> In x c -> occ_rep g x) ->
       d_alt g input within a i j ts) /\
    (forall c i j ts, d_cat g input (spans_word g input) c i j ts -> (forall x, In x c -> occ_rep g x) ->
       d_cat g input within c i j ts) /\
    (forall r i j ts, d_rep g input (spans_word g input) r i j ts -> occ_rep g r -> d_rep g input within r i j ts) /\
    (forall e m i j ts, d_pow g input (spans_word g input) e m i j ts -> occ_in e -> d_pow g input within e m i j ts).
  Proof.
    apply (d_mut g input (spans_word g input)).
    - intros n r i j ts Rs _ IH _. econstructor; eauto. apply IH. intros c x A B. eapply occ_rep_rule; eauto.
      apply in_app_iff. destruct Rs as [[I _]|(_ & I & _)]; auto.
    - intros a i j ts _ IH H. constructor. auto.
    - intros a i H _. constructor; auto.
    - intros a i j ts _ IH H. apply d_option_some. auto.
    - intros e i j w Te W S _. econstructor; eauto.
    - intros c a i j ts I _ IH H. econstructor; eauto.
    - intros i H _. constructor; auto.
    - intros r c i k j ts1 ts2 _ IH1 _ IH2 H. econstructor; [apply IH1; apply H; left; auto|].
      apply IH2. intros x X. apply H. right. auto.
    - intros mn mx e n i j ts [(w & S & W) One] _ IH O.
      assert (Oe : occ_in e) by (apply occ_elem_in; econstructor; eauto). specialize (IH Oe).
      econstructor; eauto. unfold within. cbn [rep_min rep_max] in *.
      destruct (proj2 (proj2 (proj2 (proj2 d_lang))) _ _ _ _ _ IH) as (w' & S' & P').
      rewrite (span_fun _ _ _ _ _ S' S) in P'. inversion W as [? ? ? m ? B1 B2 P]; subst.
      destruct (Z.eq_dec mn 1) as [->|N1]; [destruct (Z.eq_dec mx 1) as [->|N2]|].
      + rewrite One; auto. lia.
      + eapply CD; eauto. intros [_ E]. auto.
      + eapply CD; eauto. intros [E _]. auto.
    - intros e i H _. constructor; auto.
    - intros e n i k j ts1 ts2 _ IH1 _ IH2 H. econstructor; eauto.
  Qed.
  Lemma loose_derivation root t : LooseDerivation g root input t -> Derivation g root input t.
  Proof. intros H. apply loose_strict; [exact H|exact Logic.I]. Qed.
End Words.

(** *** Trees tile their span *)
Lemma tiles_app i j k a b : tiles i j a -> tiles j k b -> tiles i k (a ++ b).
Proof. induction 1; cbn; intros; auto; constructor; auto. Qed.
Lemma tiles_of_leaf i j : (i <= j)%nat -> tiles i j (leaf i j).
Proof.
  intros H. unfold leaf. destruct (Nat.ltb_spec i j) as [L|L]; [apply tiles_leaf; [auto|constructor]|].
  replace j with i by lia. constructor.
Qed.
Lemma d_tiles g input ok : (forall r, In r (g ++ core_rules) -> rule_name r <> ""%string) ->
    (forall e i j ts, d_elem g input ok e i j ts -> tiles i j ts) /\
    (forall a i j ts, d_alt g input ok a i j ts -> tiles i j ts) /\
    (forall c i j ts, d_cat g input ok c i j ts -> tiles i j ts) /\
    (forall r i j ts, d_rep g input ok r i j ts -> tiles i j ts) /\
    (forall e n i j ts, d_pow g input ok e n i j ts -> tiles i j ts).
Proof.
  intros NE. apply (d_mut g input ok); intros; try (constructor; fail); auto.
  - apply tiles_node; [|auto|constructor]. apply NE. apply in_app_iff. destruct H as [[I _]|(_ & I & _)]; auto.
  - apply tiles_of_leaf. apply span_le in H1. lia.
  - eapply tiles_app; eauto.
  - eapply tiles_app; eauto.
Qed.

(** *** A condition under which counts do not matter *)
Section Lengths.
  Variable g : grammar.

  (** The least of a list. *)
  Definition min_list (l : list nat) : nat := match l with [] => 0 | x :: l => fold_right Nat.min x l end.
  (** The greatest of a list, [None] being unbounded. *)
  Definition max_list (l : list (option nat)) : option nat :=
    fold_right (fun x y => match x, y with Some a, Some b => Some (Nat.max a b) | _, _ => None end) (Some 0%nat) l.
  (** The sum of a list, [None] being unbounded. *)
  Definition sum_list (l : list (option nat)) : option nat :=
    fold_right (fun x y => match x, y with Some a, Some b => Some (a + b)%nat | _, _ => None end) (Some 0%nat) l.

  (** The shortest word of an alternation, given those of elements. *)
  Definition lo_alt (f : elem -> nat) (a : alternation) : nat :=
    min_list (map (fun c => list_sum (map (fun r => Z.to_nat (rep_min r) * f (rep_elem r))%nat c)) a).
  (** The longest word of a repetition. *)
  Definition hi_rep (f : elem -> option nat) (r : rep) : option nat :=
    if rep_max r =? inf then None
    else match f (rep_elem r) with Some h => Some (Z.to_nat (rep_max r) * h)%nat | None => None end.
  (** The longest word of an alternation. *)
  Definition hi_alt (f : elem -> option nat) (a : alternation) : option nat :=
    max_list (map (fun c => sum_list (map (hi_rep f) c)) a).

  (** Bounds on the length of the words of an element. *)
  Fixpoint lo (fuel : nat) (e : elem) : nat :=
    match fuel with
    | O => 0
    | S f =>
        match e with
        | ERule n => match get_rule n g with Some r => lo_alt (lo f) (rule_alt r) | None => 0 end
        | EGroup a => lo_alt (lo f) a
        | EOption _ => 0
        | EChar _ vs => length vs
        | ENum _ StatSeries es => length es
        | ENum _ StatRange _ => 1
        | EProse _ => 0
        end
    end.
  (** A numeral of one byte. *)
  Definition ascii_num (b s : string) : bool :=
    match numeral b s with Some v => v <? 128 | None => true end.
  (** An upper bound on the length of the words of an element. *)
  Fixpoint hi (fuel : nat) (e : elem) : option nat :=
    match fuel with
    | O => None
    | S f =>
        match e with
        | ERule n => match get_rule n g with Some r => hi_alt (hi f) (rule_alt r) | None => None end
        | EGroup a | EOption a => hi_alt (hi f) a
        | EChar _ vs => if forallb (fun v => v <? 128) vs then Some (length vs) else None
        | ENum b StatSeries es => if forallb (ascii_num b) es then Some (length es) else None
        | ENum b StatRange es => if forallb (ascii_num b) es then Some 1%nat else None
        | EProse _ => None
        end
    end.

  (** The number of occurrences of a repetition follows from its span. *)
  Definition count_ok (fuel : nat) (r : rep) : bool :=
    ((rep_min r =? 1) && (rep_max r =? 1) ||
     (rep_min r <=? 0) && (rep_max r =? inf) ||
     Nat.ltb 0 (lo fuel (rep_elem r)) &&
       ((rep_min r <=? 1) && (rep_max r =? inf) ||
        match hi fuel (rep_elem r) with Some h => Nat.eqb h (lo fuel (rep_elem r)) | None => false end))%bool.
  (** The repetitions in an element. *)
  Fixpoint elem_reps (e : elem) : list rep :=
    match e with
    | EGroup a | EOption a => flat_map (fun c => flat_map rep_reps c) a
    | _ => []
    end
  with rep_reps (r : rep) : list rep := r :: match r with Rep _ _ e => elem_reps e end.
  (** The repetitions in a grammar. *)
  Definition grammar_reps : list rep :=
    flat_map (fun r => flat_map (flat_map rep_reps) (rule_alt r)) (g ++ core_rules).
  (** [count_ok] everywhere. *)
  Definition counts_ok (fuel : nat) : bool := forallb (count_ok fuel) grammar_reps.

  Lemma rep_reps_self r : In r (rep_reps r).
  Proof. destruct r. left. reflexivity. Qed.

  Lemma occ_reps : (forall e, occ_elem g e -> incl (elem_reps e) grammar_reps) /\
    (forall r, occ_rep g r -> incl (rep_reps r) grammar_reps).
  Proof.
    apply occ_min.
    - intros mn mx e _ H x X. apply H. right. exact X.
    - intros r c x H1 H2 H3 y Hy. unfold grammar_reps. apply in_flat_map. exists r. split; auto.
      apply in_flat_map. exists c. split; auto. apply in_flat_map. exists x. auto.
    - intros a c x _ IH H2 H3 y Hy. apply IH. cbn [elem_reps]. apply in_flat_map. exists c. split; auto.
      apply in_flat_map. exists x. auto.
    - intros a c x _ IH H2 H3 y Hy. apply IH. cbn [elem_reps]. apply in_flat_map. exists c. split; auto.
      apply in_flat_map. exists x. auto.
  Qed.

  Lemma utf8_len r : (1 <= length (utf8 r))%nat.
  Proof. unfold utf8. destruct (_ <? _); [|destruct (_ <? _); [|destruct (_ <? _)]]; cbn [length]; lia. Qed.
  Lemma utf8_len_ascii r : r < 128 -> length (utf8 r) = 1%nat.
  Proof. intros H. unfold utf8. destruct (Z.ltb_spec r 0x80); [reflexivity|lia]. Qed.
  Lemma utf8s_len rs : (length rs <= length (utf8s rs))%nat.
  Proof.
    unfold utf8s. induction rs as [|r rs IH]; cbn [flat_map length]; [lia|]. rewrite app_length. pose proof (utf8_len r). lia.
  Qed.
  Lemma utf8s_len_ascii rs : Forall (fun r => r < 128) rs -> length (utf8s rs) = length rs.
  Proof.
    unfold utf8s. induction 1 as [|r rs H _ IH]; cbn [flat_map length]; auto. rewrite app_length, IH, utf8_len_ascii; auto.
  Qed.
  Lemma fold_case_ascii v r : v < 128 -> fold_case v = fold_case r -> r < 128.
  Proof.
    unfold fold_case. intros H E. destruct ((65 <=? v) && (v <=? 90))%bool eqn:A, ((65 <=? r) && (r <=? 90))%bool eqn:B;
      repeat match goal with H : (_ && _)%bool = true |- _ => apply andb_true_iff in H as [? ?] end;
      repeat match goal with H : (_ <=? _) = true |- _ => apply Z.leb_le in H end; lia.
  Qed.
  Lemma Forall2_length' {A B} (R : A -> B -> Prop) l l' : Forall2 R l l' -> length l = length l'.
  Proof. induction 1; cbn; congruence. Qed.

  Lemma min_list_le l x : In x l -> (min_list l <= x)%nat.
  Proof.
    destruct l as [|y l]; [easy|]. cbn [min_list]. intros [<-|I].
    - induction l; cbn [fold_right]; lia.
    - induction l as [|z l IH]; [easy|]. cbn [fold_right]. destruct I as [<-|I]; [lia|]. apply IH in I. lia.
  Qed.
  Lemma max_list_le l h x : max_list l = Some h -> In x l -> exists y, x = Some y /\ (y <= h)%nat.
  Proof.
    revert h. induction l as [|z l IH]; intros h H I; [easy|]. cbn [max_list fold_right] in H. fold (max_list l) in H.
    destruct z as [a|]; [|discriminate]. destruct (max_list l) as [b|]; [|discriminate]. inversion H; subst.
    destruct I as [<-|I]; [exists a; split; auto; lia|]. destruct (IH b eq_refl I) as (y & -> & L). exists y. split; auto. lia.
  Qed.

  Section Step.
    Variable fl : elem -> nat.
    Variable fh : elem -> option nat.
    Hypothesis Hl : forall e w, in_elem g e w -> (fl e <= length w)%nat.
    Hypothesis Hh : forall e w h, in_elem g e w -> fh e = Some h -> (length w <= h)%nat.

    Lemma pow_lo e n w : in_pow g e n w -> (n * fl e <= length w)%nat.
    Proof.
      revert w. induction n as [|n IH]; intros w H; inversion H as [|? ? w1 w2 He Hp]; subst; [lia|]. rewrite app_length.
      pose proof (Hl _ _ He). pose proof (IH _ Hp). lia.
    Qed.
    Lemma pow_hi e n w h : in_pow g e n w -> fh e = Some h -> (length w <= n * h)%nat.
    Proof.
      revert w. induction n as [|n IH]; intros w H E; inversion H as [|? ? w1 w2 He Hp]; subst; [cbn; lia|]. rewrite app_length.
      pose proof (Hh _ _ _ He E). pose proof (IH _ Hp E). lia.
    Qed.
    Lemma cat_lo c w : in_cat g c w ->
      (list_sum (map (fun r => Z.to_nat (rep_min r) * fl (rep_elem r))%nat c) <= length w)%nat.
    Proof.
      revert w. induction c as [|r c IH]; intros w H; inversion H as [|? ? w1 w2 Hr Hc]; subst; [cbn; lia|].
      rewrite app_length. cbn [map list_sum fold_right]. apply IH in Hc.
      inversion Hr as [mn mx e n w' B1 B2 P]; subst. cbn [rep_min rep_elem]. apply pow_lo in P.
      unfold list_sum in Hc. assert (Z.to_nat mn * fl e <= n * fl e)%nat by (apply Nat.mul_le_mono_r; lia). lia.
    Qed.
    Lemma cat_hi c w h : in_cat g c w -> sum_list (map (hi_rep fh) c) = Some h -> (length w <= h)%nat.
    Proof.
      revert w h. induction c as [|r c IH]; intros w h H E; inversion H as [|? ? w1 w2 Hr Hc]; subst; [cbn; lia|].
      rewrite app_length. cbn [map sum_list fold_right] in E. fold (sum_list (map (hi_rep fh) c)) in E.
      destruct (hi_rep fh r) as [a|] eqn:Ea; [|discriminate]. destruct (sum_list _) as [b|]; [|discriminate].
      inversion E; subst. pose proof (IH _ _ Hc eq_refl). inversion Hr as [mn mx e n w' B1 B2 P]; subst.
      unfold hi_rep in Ea. cbn [rep_max rep_elem] in Ea. destruct (Z.eqb_spec mx inf) as [|N]; [discriminate|].
      destruct (fh e) as [he|] eqn:He; [|discriminate]. inversion Ea; subst. pose proof (pow_hi _ _ _ _ P He).
      assert (n * he <= Z.to_nat mx * he)%nat by (apply Nat.mul_le_mono_r; destruct B2; [easy|lia]). lia.
    Qed.
    Lemma alt_lo a w : in_alt g a w -> (lo_alt fl a <= length w)%nat.
    Proof.
      intros H; inversion H as [c ? ? I C]; subst. apply cat_lo in C. eapply Nat.le_trans; [|exact C].
      apply min_list_le. apply in_map_iff. exists c. auto.
    Qed.
    Lemma alt_hi a w h : in_alt g a w -> hi_alt fh a = Some h -> (length w <= h)%nat.
    Proof.
      intros H E; inversion H as [c ? ? I C]; subst.
      destruct (max_list_le _ _ (sum_list (map (hi_rep fh) c)) E) as (y & Ey & L); [apply in_map_iff; exists c; auto|].
      pose proof (cat_hi _ _ _ C Ey). lia.
    Qed.
  End Step.

  Hypothesis wf : wf_grammar g.

  Lemma lo_sound fuel : forall e w, in_elem g e w -> (lo fuel e <= length w)%nat.
  Proof.
    induction fuel as [|f IH]; intros e w H; cbn [lo]; [lia|]. destruct H as [n a w Rs Ha|a w Ha|a|a w Ha|s vs rs F _|b ns rs F _|].
    - destruct (resolves_get g wf n a Rs) as (r & -> & <-). eapply alt_lo; eauto.
    - eapply alt_lo; eauto.
    - lia.
    - lia.
    - rewrite (Forall2_length' _ _ _ F). apply utf8s_len.
    - rewrite (Forall2_length' _ _ _ F). apply utf8s_len.
    - apply utf8_len.
  Qed.

  Lemma hi_sound fuel : forall e w h, in_elem g e w -> hi fuel e = Some h -> (length w <= h)%nat.
  Proof.
    induction fuel as [|f IH]; intros e w h H E; cbn [hi] in E; [discriminate|].
    destruct H as [n a w Rs Ha|a w Ha|a|a w Ha|s vs rs F _|b ns rs F _|b l0 h0 l1 h1 r N1 N2 B _].
    - destruct (resolves_get g wf n a Rs) as (r & G & <-). rewrite G in E. eapply alt_hi; eauto.
    - eapply alt_hi; eauto.
    - cbn; lia.
    - eapply alt_hi; eauto.
    - destruct (forallb _ vs) eqn:V; [|discriminate]. inversion E; subst. rewrite utf8s_len_ascii.
      + rewrite (Forall2_length' _ _ _ F). lia.
      + clear E. induction F as [|v r vs rs C F IHF]; constructor.
        * cbn [forallb] in V. apply andb_true_iff in V as [V _]. apply Z.ltb_lt in V. unfold char_ok in C.
          destruct s; [subst; auto|]. eapply fold_case_ascii; eauto.
        * apply IHF. cbn [forallb] in V. apply andb_true_iff in V as [_ V]. exact V.
    - destruct (forallb _ ns) eqn:V; [|discriminate]. inversion E; subst. rewrite utf8s_len_ascii.
      + rewrite (Forall2_length' _ _ _ F). lia.
      + clear E. induction F as [|v r vs rs C F IHF]; constructor.
        * cbn [forallb] in V. apply andb_true_iff in V as [V _]. unfold ascii_num in V. rewrite C in V. apply Z.ltb_lt in V. auto.
        * apply IHF. cbn [forallb] in V. apply andb_true_iff in V as [_ V]. exact V.
    - cbn [forallb] in E. unfold ascii_num in E. rewrite N1, N2 in E. destruct (Z.ltb_spec h1 128).
      + rewrite utf8_len_ascii by lia. destruct (l1 <? 128); inversion E. lia.
      + rewrite andb_false_r in E. discriminate.
  Qed.

  Lemma counts_ok_spec fuel : counts_ok fuel = true -> counts_determined g.
  Proof.
    unfold counts_ok. rewrite forallb_forall. intros H mn mx e n m w O NE Pn Pm B1 B2.
    pose proof (H _ (proj2 occ_reps _ O _ (rep_reps_self _))) as C. unfold count_ok in C. cbn [rep_min rep_max rep_elem] in C.
    pose proof (pow_lo (lo fuel) (lo_sound fuel) _ _ _ Pn) as L1. pose proof (pow_lo (lo fuel) (lo_sound fuel) _ _ _ Pm) as L2.
    destruct ((mn =? 1) && (mx =? 1))%bool eqn:C1.
    { exfalso. apply andb_true_iff in C1 as [X Y]. apply Z.eqb_eq in X, Y. auto. }
    destruct ((mn <=? 0) && (mx =? inf))%bool eqn:C2.
    { apply andb_true_iff in C2 as [X Y]. apply Z.leb_le in X. apply Z.eqb_eq in Y. split; [lia|auto]. }
    cbn [orb] in C. apply andb_true_iff in C as [P C]. apply Nat.ltb_lt in P.
    destruct ((mn <=? 1) && (mx =? inf))%bool eqn:C3.
    { apply andb_true_iff in C3 as [X Y]. apply Z.leb_le in X. apply Z.eqb_eq in Y. split; [|auto].
      destruct m as [|m]; [|lia]. inversion Pm; subst. cbn in L1. assert (n = 0)%nat by nia. subst. lia. }
    cbn [orb] in C. destruct (hi fuel e) as [h|] eqn:Hh; [|discriminate]. apply Nat.eqb_eq in C. subst h.
    pose proof (pow_hi (hi fuel) (hi_sound fuel) _ _ _ _ Pn Hh). pose proof (pow_hi (hi fuel) (hi_sound fuel) _ _ _ _ Pm Hh).
    assert (n = m) by nia. subst. auto.
  Qed.
End Lengths.
