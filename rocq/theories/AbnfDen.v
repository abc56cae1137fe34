(** Derivations of a grammar of plain ASCII terminals and of the bounds 1, * and
    1*, written with combinators over positions and trees.  Proof device for the
    grammar of ABNF itself (rules.go:516-1866): the results are stated in
    PropRead.v without it.
    Its definitions are means of proof and model no code. *)
From Coq Require Import ZArith Arith String Ascii Bool List Lia.
From Verif Require Import Syntax Spec Term TreeSpec TreeSound TreeComplete.
Import ListNotations.
Local Open Scope string_scope.
Local Open Scope list_scope.
Local Open Scope Z_scope.

Section Den.
  Variable g : grammar.
  Variable input : list Z.
  Hypothesis names : distinct_names g.

  Definition pr : Type := nat -> nat -> list ptree -> Prop.
  Definition peq (P Q : pr) : Prop := forall i j ts, P i j ts <-> Q i j ts.
  Definition mono (P : pr) : Prop := forall i j ts, P i j ts -> (i <= j <= length input)%nat.

  Definition p_fail : pr := fun _ _ _ => False.
  Definition p_nil : pr := fun i j ts => i = j /\ ts = [] /\ (i <= length input)%nat.
  Definition p_byte (S : Z -> bool) : pr := fun i j ts =>
    exists b, nth_error input i = Some b /\ S b = true /\ j = Datatypes.S i /\ ts = [PT "" i j []].
  Definition p_two (S1 S2 : Z -> bool) : pr := fun i j ts =>
    exists b c, nth_error input i = Some b /\ S1 b = true /\ nth_error input (S i) = Some c /\ S2 c = true /\
      j = S (S i) /\ ts = [PT "" i j []].
  Definition p_seq (P Q : pr) : pr := fun i j ts => exists k t1 t2, P i k t1 /\ Q k j t2 /\ ts = t1 ++ t2.
  Definition p_or (P Q : pr) : pr := fun i j ts => P i j ts \/ Q i j ts.
  Definition p_opt (P : pr) : pr := p_or p_nil P.
  Inductive p_star (P : pr) : pr :=
  | st_nil i : (i <= length input)%nat -> p_star P i i []
  | st_cons i k j t1 t2 : P i k t1 -> p_star P k j t2 -> p_star P i j (t1 ++ t2).
  Definition p_plus (P : pr) : pr := p_seq P (p_star P).
  Definition p_node (n : string) (P : pr) : pr := fun i j ts => exists cs, ts = [PT n i j cs] /\ P i j cs.

  Fixpoint p_ors (l : list pr) : pr :=
    match l with [] => p_fail | [P] => P | P :: l' => p_or P (p_ors l') end.
  Fixpoint p_seqs (l : list pr) : pr :=
    match l with [] => p_nil | [P] => P | P :: l' => p_seq P (p_seqs l') end.

  Definition R (n : string) : pr := d_elem g input within (ERule n).

  Definition same_letter (v b : Z) : bool := fold_case v =? fold_case b.
  Definition num_of (b s : string) : Z := match numeral b s with Some v => v | None => -1 end.

  Fixpoint den_elem (e : elem) : pr :=
    match e with
    | ERule n => R n
    | EGroup a => p_ors (map (fun c => p_seqs (map den_rep c)) a)
    | EOption a => p_opt (p_ors (map (fun c => p_seqs (map den_rep c)) a))
    | EChar _ [v] => p_byte (same_letter v)
    | EChar _ [v; u] => p_two (same_letter v) (same_letter u)
    | ENum b StatSeries [s] => p_byte (Z.eqb (num_of b s))
    | ENum b StatRange [lo; hi] => p_byte (fun c => (num_of b lo <=? c) && (c <=? num_of b hi))
    | _ => p_fail
    end
  with den_rep (r : rep) : pr :=
    match r with
    | Rep mn mx e =>
        if mn =? 0 then p_star (den_elem e)
        else if mx =? 1 then den_elem e
        else p_plus (den_elem e)
    end.
  Definition den_cat (c : concatenation) : pr := p_seqs (map den_rep c).
  Definition den_alt (a : alternation) : pr := p_ors (map den_cat a).

  (** What is needed of the elements. *)
  Definition ascii_code (v : Z) : bool := (0 <=? v) && (v <? 128).
  Fixpoint plain_elem (e : elem) : bool :=
    match e with
    | ERule _ => true
    | EGroup a | EOption a => forallb (fun c => forallb plain_rep c) a
    | EChar false [v] => ascii_code v
    | EChar false [v; u] => ascii_code v && ascii_code u
    | ENum b StatSeries [s] => match numeral b s with Some v => ascii_code v | None => false end
    | ENum b StatRange [lo; hi] =>
        match numeral b lo, numeral b hi with Some l, Some h => ascii_code l && ascii_code h | _, _ => false end
    | _ => false
    end
  with plain_rep (r : rep) : bool :=
    match r with
    | Rep mn mx e => (((mn =? 1) && (mx =? 1)) || ((mn =? 0) && (mx =? inf)) || ((mn =? 1) && (mx =? inf))) && plain_elem e
    end.
  Definition plain_alt (a : alternation) : bool := forallb (fun c => forallb plain_rep c) a.

  Lemma mono_byte S : mono (p_byte S).
  Proof. intros i j ts (b & H & _ & -> & _). assert (i < length input)%nat by (apply nth_error_Some; congruence). lia. Qed.
  Lemma mono_two S1 S2 : mono (p_two S1 S2).
  Proof.
    intros i j ts (b & c & _ & _ & H & _ & -> & _).
    assert (S i < length input)%nat by (apply nth_error_Some; congruence). lia.
  Qed.
  Lemma mono_seq P Q : mono P -> mono Q -> mono (p_seq P Q).
  Proof. intros A B i j ts (k & t1 & t2 & H1 & H2 & _). apply A in H1. apply B in H2. lia. Qed.
  Lemma mono_or P Q : mono P -> mono Q -> mono (p_or P Q).
  Proof. intros A B i j ts [H|H]; [apply A in H|apply B in H]; lia. Qed.
  Lemma mono_nil : mono p_nil.
  Proof. intros i j ts (-> & _ & H). lia. Qed.
  Lemma mono_opt P : mono P -> mono (p_opt P).
  Proof. intros A. apply mono_or; auto. apply mono_nil. Qed.
  Lemma mono_star P : mono P -> mono (p_star P).
  Proof. intros A i j ts H. induction H as [|i k j t1 t2 H1 H2 IH]; [lia|]. apply A in H1. lia. Qed.
  Lemma mono_plus P : mono P -> mono (p_plus P).
  Proof. intros A. apply mono_seq; auto. apply mono_star; auto. Qed.
  Lemma mono_node n P : mono P -> mono (p_node n P).
  Proof. intros A i j ts (cs & _ & H). eauto. Qed.
  Lemma mono_R n : mono (R n).
  Proof. intros i j ts H. apply d_bounds in H. lia. Qed.

  (** ASCII terminals *)
  Lemma fold_ascii v r : ascii_code v = true -> fold_case v = fold_case r -> scalar r -> 0 <= r < 128.
  Proof.
    unfold ascii_code, fold_case, scalar. intros A. apply andb_true_iff in A as [A1 A2].
    destruct ((65 <=? v) && (v <=? 90)) eqn:E1; destruct ((65 <=? r) && (r <=? 90)) eqn:E2;
      rewrite ?andb_true_iff, ?andb_false_iff in *; lia.
  Qed.
  Lemma utf8_ascii r : 0 <= r < 128 -> utf8 r = [r].
  Proof. intros H. unfold utf8. destruct (Z.ltb_spec r 0x80); [reflexivity|lia]. Qed.
  Lemma span_one b i j : span input i j [b] -> nth_error input i = Some b /\ j = S i.
  Proof.
    intros (p & s & -> & L & ->). split; [|cbn [length]; lia]. subst i. rewrite nth_error_app2, Nat.sub_diag by lia. reflexivity.
  Qed.
  Lemma one_span b i : nth_error input i = Some b -> span input i (S i) [b].
  Proof.
    intros H. apply nth_error_split in H as (p & s & E & L). exists p, s. cbn [app length]. split; [exact E|]. lia.
  Qed.
  Lemma span_two b c i j : span input i j [b; c] -> nth_error input i = Some b /\ nth_error input (S i) = Some c /\ j = S (S i).
  Proof.
    intros H. destruct (span_app_inv input i j [b] [c] H) as [A B]. apply span_one in A as [A _].
    cbn [length] in B. replace (i + 1)%nat with (S i) in B by lia. apply span_one in B as [B ->]. auto.
  Qed.
  Lemma leaf_S i : leaf i (S i) = [PT "" i (S i) []].
  Proof. unfold leaf. destruct (Nat.ltb_spec i (S i)); [reflexivity|lia]. Qed.
  Lemma leaf_SS i : leaf i (S (S i)) = [PT "" i (S (S i)) []].
  Proof. unfold leaf. destruct (Nat.ltb_spec i (S (S i))); [reflexivity|lia]. Qed.

  Lemma term_iff e i j ts : terminal e ->
    d_elem g input within e i j ts <-> exists w, in_elem g e w /\ span input i j w /\ ts = leaf i j.
  Proof.
    intros T. split.
    - intros H. destruct H; cbn in T; try contradiction. eauto.
    - intros (w & A & B & ->). econstructor; eauto.
  Qed.

  Lemma same_letter_ok v r : same_letter v r = true <-> char_ok false v r.
  Proof. unfold same_letter, char_ok. apply Z.eqb_eq. Qed.

  Lemma char1_iff v i j ts : ascii_code v = true ->
    d_elem g input within (EChar false [v]) i j ts <-> p_byte (same_letter v) i j ts.
  Proof.
    intros A. rewrite term_iff by exact Logic.I. split.
    - intros (w & W & Sp & ->). inversion W as [| | | |? ? rs F Sc| |]; subst.
      inversion F as [|? r ? rs' C F']; subst. inversion F'; subst. inversion Sc; subst.
      cbn [char_ok] in C. assert (B : 0 <= r < 128) by (eapply fold_ascii; eauto).
      unfold utf8s in Sp. cbn [flat_map] in Sp. rewrite utf8_ascii, app_nil_r in Sp by auto.
      apply span_one in Sp as [N ->]. exists r. rewrite leaf_S. repeat split; auto. apply same_letter_ok. exact C.
    - intros (b & N & Sm & -> & ->). exists [b]. rewrite leaf_S. apply same_letter_ok in Sm.
      assert (B : 0 <= b < 128).
      { unfold char_ok, fold_case, ascii_code in *. apply andb_true_iff in A as [A1 A2].
        destruct ((65 <=? v) && (v <=? 90)) eqn:E1; destruct ((65 <=? b) && (b <=? 90)) eqn:E2;
          rewrite ?andb_true_iff, ?andb_false_iff in *; lia. }
      split; [|split; [apply one_span; auto|reflexivity]].
      replace [b] with (utf8s [b]) by (unfold utf8s; cbn [flat_map]; rewrite utf8_ascii by auto; reflexivity).
      constructor; [constructor; auto|]. constructor; [|constructor]. unfold scalar. lia.
  Qed.

  Lemma letter_ascii v b : ascii_code v = true -> same_letter v b = true -> 0 <= b < 128.
  Proof.
    intros A Sm. apply same_letter_ok in Sm. unfold char_ok, fold_case, ascii_code in *. apply andb_true_iff in A as [A1 A2].
    destruct ((65 <=? v) && (v <=? 90)) eqn:E1; destruct ((65 <=? b) && (b <=? 90)) eqn:E2;
      rewrite ?andb_true_iff, ?andb_false_iff in *; lia.
  Qed.

  Lemma char2_iff v u i j ts : ascii_code v = true -> ascii_code u = true ->
    d_elem g input within (EChar false [v; u]) i j ts <-> p_two (same_letter v) (same_letter u) i j ts.
  Proof.
    intros A A'. rewrite term_iff by exact Logic.I. split.
    - intros (w & W & Sp & ->). inversion W as [| | | |? ? rs F Sc| |]; subst.
      inversion F as [|? r ? rs' C F']; subst. inversion F' as [|? r' ? rs'' C' F'']; subst. inversion F''; subst.
      inversion Sc as [|? ? S1 Sc']; subst. inversion Sc' as [|? ? S2 Sc'']; subst.
      apply same_letter_ok in C, C'.
      pose proof (letter_ascii _ _ A C) as B. pose proof (letter_ascii _ _ A' C') as B'.
      unfold utf8s in Sp. cbn [flat_map] in Sp. rewrite !utf8_ascii in Sp by auto. cbn [app] in Sp.
      apply span_two in Sp as (N & N' & ->). exists r, r'. rewrite leaf_SS. repeat split; auto.
    - intros (b & c & N & Sm & N' & Sm' & -> & ->). exists [b; c]. rewrite leaf_SS.
      pose proof (letter_ascii _ _ A Sm) as B. pose proof (letter_ascii _ _ A' Sm') as B'.
      split; [|split; [|reflexivity]].
      + replace [b; c] with (utf8s [b; c]) by (unfold utf8s; cbn [flat_map]; rewrite !utf8_ascii by auto; reflexivity).
        apply same_letter_ok in Sm, Sm'.
        constructor; [constructor; [exact Sm|constructor; [exact Sm'|constructor]]|]. constructor; [|constructor; [|constructor]]; unfold scalar; lia.
      + change [b; c] with ([b] ++ [c]). eapply span_app; apply one_span; eauto.
  Qed.

  Lemma num1_iff b s v i j ts : numeral b s = Some v -> ascii_code v = true ->
    d_elem g input within (ENum b StatSeries [s]) i j ts <-> p_byte (Z.eqb v) i j ts.
  Proof.
    intros Nu A. rewrite term_iff by exact Logic.I. split.
    - intros (w & W & Sp & ->). inversion W as [| | | | |? ? rs F Sc|]; subst.
      inversion F as [|? r ? rs' C F']; subst. inversion F'; subst. rewrite Nu in C. injection C as <-.
      apply andb_true_iff in A as [A1 A2].
      unfold utf8s in Sp. cbn [flat_map] in Sp. rewrite utf8_ascii, app_nil_r in Sp by lia.
      apply span_one in Sp as [N ->]. exists v. rewrite leaf_S. repeat split; auto. apply Z.eqb_refl.
    - intros (c & N & Sm & -> & ->). apply Z.eqb_eq in Sm. subst c. exists [v]. rewrite leaf_S.
      apply andb_true_iff in A as [A1 A2].
      split; [|split; [apply one_span; auto|reflexivity]].
      replace [v] with (utf8s [v]) by (unfold utf8s; cbn [flat_map]; rewrite utf8_ascii by lia; reflexivity).
      constructor; [constructor; [exact Nu|constructor]|]. constructor; [|constructor]. unfold scalar. lia.
  Qed.

  Lemma range_iff b lo hi l h i j ts : numeral b lo = Some l -> numeral b hi = Some h ->
    ascii_code l = true -> ascii_code h = true ->
    d_elem g input within (ENum b StatRange [lo; hi]) i j ts <-> p_byte (fun c => (l <=? c) && (c <=? h)) i j ts.
  Proof.
    intros Nl Nh A A'. apply andb_true_iff in A as [A1 A2]. apply andb_true_iff in A' as [A3 A4].
    rewrite term_iff by exact Logic.I. split.
    - intros (w & W & Sp & ->). inversion W as [| | | | | |? ? ? l' h' r E1 E2 B Sc]; subst.
      rewrite Nl in E1. rewrite Nh in E2. injection E1 as <-. injection E2 as <-.
      rewrite utf8_ascii in Sp by lia.
      apply span_one in Sp as [N ->]. exists r. rewrite leaf_S. repeat split; auto. lia.
    - intros (c & N & Sm & -> & ->). apply andb_true_iff in Sm as [S1 S2]. exists [c]. rewrite leaf_S.
      split; [|split; [apply one_span; auto|reflexivity]].
      rewrite <- (utf8_ascii c) by lia. econstructor; eauto; [lia|]. unfold scalar. lia.
  Qed.

  Lemma pow_star P e : (forall i j ts, d_elem g input within e i j ts <-> P i j ts) ->
    forall i j ts, p_star P i j ts <-> exists n, d_pow g input within e n i j ts.
  Proof.
    intros E i j ts. split.
    - intros H. induction H as [i Hi|i k j t1 t2 H1 H2 (n & IH)].
      + exists 0%nat. constructor; auto.
      + exists (S n). econstructor; eauto. apply E; auto.
    - intros (n & H). revert i j ts H. induction n as [|n IH]; intros i j ts H; inversion H; subst.
      + constructor; auto.
      + econstructor; eauto. apply E; auto.
  Qed.

  Lemma alt_nil i j ts : ~ d_alt g input within [] i j ts.
  Proof. intros H. inversion H; subst. contradiction. Qed.
  Lemma alt_cons c a i j ts : d_alt g input within (c :: a) i j ts <-> d_cat g input within c i j ts \/ d_alt g input within a i j ts.
  Proof.
    split.
    - intros H. inversion H as [c' ? ? ? ? I C]; subst. destruct I as [<-|I]; auto. right. econstructor; eauto.
    - intros [H|H]; [econstructor; eauto; left; auto|]. inversion H; subst. econstructor; eauto. right; auto.
  Qed.
  Lemma cat_nil i j ts : d_cat g input within [] i j ts <-> p_nil i j ts.
  Proof.
    split; [intros H; inversion H; subst; repeat split; auto|]. intros (-> & -> & H). constructor; auto.
  Qed.
  Lemma cat_cons r c i j ts : d_cat g input within (r :: c) i j ts <->
    exists k t1 t2, d_rep g input within r i k t1 /\ d_cat g input within c k j t2 /\ ts = t1 ++ t2.
  Proof.
    split.
    - intros H. inversion H; subst. do 3 eexists. eauto.
    - intros (k & t1 & t2 & A & B & ->). econstructor; eauto.
  Qed.
  Lemma cat_one r i j ts : d_cat g input within [r] i j ts <-> d_rep g input within r i j ts.
  Proof.
    rewrite cat_cons. split.
    - intros (k & t1 & t2 & A & B & ->). apply cat_nil in B as (-> & -> & _). rewrite app_nil_r. auto.
    - intros H. exists j, ts, []. rewrite app_nil_r. split; auto. split; auto. apply cat_nil.
      repeat split. apply d_bounds in H. lia.
  Qed.

  Lemma cats_ok c : Forall (fun r => forall i j ts, d_rep g input within r i j ts <-> den_rep r i j ts) c ->
    forall i j ts, d_cat g input within c i j ts <-> den_cat c i j ts.
  Proof.
    unfold den_cat. intros F. induction F as [|r c Hr F IH]; intros i j ts; [apply cat_nil|].
    destruct c as [|r' c]; [rewrite cat_one; apply Hr|].
    rewrite cat_cons. cbn [map p_seqs]. unfold p_seq. split; intros (k & t1 & t2 & A & B & E); exists k, t1, t2;
      (split; [apply Hr; auto|split; [apply IH; auto|auto]]).
  Qed.
  Lemma alts_ok a : Forall (Forall (fun r => forall i j ts, d_rep g input within r i j ts <-> den_rep r i j ts)) a ->
    forall i j ts, d_alt g input within a i j ts <-> den_alt a i j ts.
  Proof.
    unfold den_alt. intros F. induction F as [|c a Hc F IH]; intros i j ts.
    - split; [intros H; apply alt_nil in H; contradiction|intros []].
    - rewrite alt_cons, (cats_ok c Hc). destruct a as [|c' a].
      + cbn [map p_ors]. split; [intros [H|H]; auto; apply alt_nil in H; contradiction|auto].
      + rewrite IH. reflexivity.
  Qed.

  Lemma plain_den : (forall e, plain_elem e = true -> forall i j ts, d_elem g input within e i j ts <-> den_elem e i j ts) /\
    (forall r, plain_rep r = true -> forall i j ts, d_rep g input within r i j ts <-> den_rep r i j ts).
  Proof.
    assert (Al : forall a, Forall (Forall (fun r => plain_rep r = true -> forall i j ts, d_rep g input within r i j ts <-> den_rep r i j ts)) a ->
      plain_alt a = true -> forall i j ts, d_alt g input within a i j ts <-> den_alt a i j ts).
    { intros a F Pl. apply alts_ok. unfold plain_alt in Pl. rewrite forallb_forall in Pl. rewrite Forall_forall in *.
      intros c I. specialize (F c I). specialize (Pl c I). rewrite forallb_forall in Pl. rewrite Forall_forall in *. auto. }
    apply elem_rep_ind.
    - intros n _ i j ts. reflexivity.
    - intros a F Pl i j ts. change (den_elem (EGroup a)) with (den_alt a). rewrite <- (Al a F Pl).
      split; [intros H; inversion H; subst; auto; destruct H0|intros H; constructor; auto].
    - intros a F Pl i j ts. change (den_elem (EOption a)) with (p_opt (den_alt a)). unfold p_opt, p_or.
      rewrite <- (Al a F Pl). split.
      + intros H. inversion H as [| | ? ? Le| |]; subst; auto; [left; repeat split; auto|]. destruct H0.
      + intros [(-> & -> & H)|H]; [apply d_option_none; auto|apply d_option_some; auto].
    - intros s vs Pl i j ts. destruct s; [destruct vs; discriminate|]. destruct vs as [|v [|u [|x l]]]; try discriminate.
      + apply char1_iff; auto.
      + cbn [plain_elem] in Pl. apply andb_true_iff in Pl as [P1 P2]. apply char2_iff; auto.
    - intros b st es Pl i j ts. destruct st; destruct es as [|s [|u [|x l]]]; try discriminate; cbn [plain_elem den_elem] in *; unfold num_of.
      + destruct (numeral b s) as [v|] eqn:N; [|discriminate]. apply num1_iff; auto.
      + destruct (numeral b s) as [v|] eqn:N; [|discriminate]. destruct (numeral b u) as [v'|] eqn:N'; [|discriminate].
        apply andb_true_iff in Pl as [P1 P2]. apply range_iff; auto.
    - intros vs Pl. discriminate.
    - intros mn mx e IH Pl i j ts. cbn [plain_rep] in Pl. apply andb_true_iff in Pl as [B Pl]. specialize (IH Pl).
      apply orb_true_iff in B as [B|B]; [apply orb_true_iff in B as [B|B]|]; apply andb_true_iff in B as [B1 B2];
        apply Z.eqb_eq in B1, B2; subst mn mx.
      + change (den_rep (Rep 1 1 e)) with (den_elem e). rewrite <- IH. split.
        * intros H. inversion H as [? ? ? n ? ? ? [O1 O2] P]; subst. cbn [rep_min rep_max] in *.
          assert (n = 1%nat) by (unfold inf in O2; lia). subst n.
          inversion P as [|? ? ? k ? t1 t2 E1 P1]; subst. inversion P1; subst. rewrite app_nil_r. auto.
        * intros H. econstructor; [|apply d_pow_one; eauto]. split; cbn [rep_min rep_max]; lia.
      + change (den_rep (Rep 0 inf e)) with (p_star (den_elem e)). rewrite (pow_star _ _ IH). split.
        * intros H. inversion H; subst. eauto.
        * intros (n & H). econstructor; eauto. split; cbn [rep_min rep_max]; [lia|auto].
      + change (den_rep (Rep 1 inf e)) with (p_plus (den_elem e)). unfold p_plus, p_seq. split.
        * intros H. inversion H as [? ? ? n ? ? ? [O1 O2] P]; subst. cbn [rep_min rep_max] in *.
          destruct n as [|n]; [lia|]. inversion P as [|? ? ? k ? t1 t2 E1 P1]; subst. exists k, t1, t2.
          split; [apply IH; auto|]. split; auto. apply (pow_star _ _ IH). eauto.
        * intros (k & t1 & t2 & A & B & ->). apply (pow_star _ _ IH) in B as (n & B).
          econstructor; [|econstructor; [apply IH; eauto|eauto]]. split; cbn [rep_min rep_max]; [lia|auto].
  Qed.

  (** A rule is a node over its definition. *)
  Theorem rule_den n r : get_rule n g = Some r -> plain_alt (rule_alt r) = true ->
    peq (R n) (p_node (rule_name r) (den_alt (rule_alt r))).
  Proof.
    intros G Pl i j ts. unfold R, p_node.
    assert (A : forall cs, d_alt g input within (rule_alt r) i j cs <-> den_alt (rule_alt r) i j cs).
    { intros cs. apply alts_ok. unfold plain_alt in Pl. rewrite forallb_forall in Pl. rewrite Forall_forall.
      intros c I. specialize (Pl c I). rewrite forallb_forall in Pl. rewrite Forall_forall. intros x Ix. apply plain_den; auto. }
    split.
    - intros H. inversion H as [m r' ? ? cs Rs D| | | |? ? ? ? T]; subst; [|destruct T].
      assert (r' = r) by (eapply resolves_to_fun; [exact names|exact Rs|apply get_rule_to; auto]). subst r'.
      exists cs. split; auto. apply A; auto.
    - intros (cs & -> & D). constructor; [apply get_rule_to; auto|]. apply A; auto.
  Qed.
End Den.
