(** The builder of Regex: the node denotes the language, and it ends.
    Its definitions are means of proof and model no code. *)
From Coq Require Import ZArith Arith String Bool Relations List Lia.
From Verif Require Import Syntax Spec Utf8 Num Check Occ Deps Dag Cycle LowerLang PropTerm PropSem PropDag RecogGlue PropRecog PropGenerate Regex RegexSpec RegexRead RegexSimp.
Import ListNotations.
Local Open Scope string_scope.
Local Open Scope list_scope.
Local Open Scope Z_scope.

(** A node denotes a set of texts. *)
Definition denotes (n : re) (L : list Z -> Prop) : Prop := forall w, L w <-> exists rs, re_lang n rs /\ w = utf8s rs.
(** Conditions on the classes and bounds of a node. *)
Inductive nodes_ok (B : Z -> Z -> Prop) (C : list (Z * Z) -> Prop) : re -> Prop :=
| no_class rs : C rs -> nodes_ok B C (RClass rs)
| no_concat ps : Forall (nodes_ok B C) ps -> nodes_ok B C (RConcat ps)
| no_alt os : Forall (nodes_ok B C) os -> nodes_ok B C (RAlt os)
| no_repeat s mn mx : B mn mx -> nodes_ok B C s -> nodes_ok B C (RRepeat s mn mx)
| no_empty : nodes_ok B C REmpty
| no_never : nodes_ok B C RNever.

Lemma utf8s_app a b : utf8s (a ++ b) = utf8s a ++ utf8s b.
Proof. unfold utf8s. apply flat_map_app. Qed.

Lemma traverse_cons {A B S_} (f : A -> S_ -> option (B * S_)) x l s :
  traverse f (x :: l) s = match f x s with
    | Some (y, s1) => match traverse f l s1 with Some (ys, s2) => Some (y :: ys, s2) | None => None end
    | None => None end.
Proof. reflexivity. Qed.

Section Denote.
  Variable g : grammar.

  Lemma den_cat c ns : Forall2 (fun r n => denotes n (in_rep g r)) c ns -> denotes (RConcat ns) (in_cat g c).
  Proof.
    intros F. induction F as [|r n c ns Hr _ IH]; intros w.
    - split.
      + intros H. inversion H; subst. exists []. split; reflexivity.
      + intros (rs & E & ->). cbn in E. rewrite E. constructor.
    - split.
      + intros H. inversion H as [|? ? w1 w2 H1 H2]; subst. apply Hr in H1 as (r1 & L1 & ->). apply IH in H2 as (r2 & L2 & ->).
        exists (r1 ++ r2). split; [exists r1, r2; auto|symmetry; apply utf8s_app].
      + intros (rs & (u & v & -> & L1 & L2) & ->). rewrite utf8s_app. constructor; [apply Hr|apply IH]; eauto.
  Qed.
  Lemma den_alt a ns : Forall2 (fun c n => denotes n (in_cat g c)) a ns -> denotes (RAlt ns) (in_alt g a).
  Proof.
    intros F w.
    transitivity (exists c, In c a /\ in_cat g c w).
    { split; [intros H; inversion H; subst; eauto|intros (c & I & H); econstructor; eauto]. }
    induction F as [|c n a ns Hc _ IH].
    - split; [intros (c & [] & _)|intros (rs & [] & _)].
    - split.
      + intros (c' & [<-|I] & H).
        * apply Hc in H as (rs & L & ->). exists rs. split; [left; exact L|reflexivity].
        * destruct (proj1 IH) as (rs & L & ->); [eauto|]. exists rs. split; [right; exact L|reflexivity].
      + intros (rs & [L|L] & ->).
        * exists c. split; [left; reflexivity|]. apply Hc. eauto.
        * destruct (proj2 IH) as (c' & I & H); [eauto|]. exists c'. split; [right; exact I|exact H].
  Qed.
  Lemma den_pow e n k : denotes n (in_elem g e) -> forall w, in_pow g e k w <-> exists rs, l_pow (re_lang n) k rs /\ w = utf8s rs.
  Proof.
    intros D. induction k as [|k IH]; intros w; split.
    - intros H. inversion H; subst. exists []. split; reflexivity.
    - intros (rs & E & ->). cbn in E. rewrite E. constructor.
    - intros H. inversion H as [|? ? w1 w2 H1 H2]; subst. apply D in H1 as (r1 & L1 & ->). apply IH in H2 as (r2 & L2 & ->).
      exists (r1 ++ r2). split; [exists r1, r2; auto|symmetry; apply utf8s_app].
    - intros (rs & (u & v & -> & L1 & L2) & ->). rewrite utf8s_app. constructor; [apply D|apply IH]; eauto.
  Qed.
  Lemma den_rep e n mn mx : denotes n (in_elem g e) -> denotes (RRepeat n mn mx) (in_rep g (Rep mn mx e)).
  Proof.
    intros D w. cbn [re_lang]. split.
    - intros H. inversion H as [? ? ? k ? B1 B2 P]; subst. apply (den_pow e n k D) in P as (rs & L & ->).
      exists rs. split; [|reflexivity]. exists k. split; [exact B1|]. split; [|exact L].
      unfold bound. destruct (Z.eqb_spec mx inf); [exact Logic.I|]. destruct B2; [contradiction|assumption].
    - intros (rs & (k & B1 & B2 & L) & ->). econstructor; [exact B1| |apply (den_pow e n k D); eauto].
      unfold bound in B2. destruct (Z.eqb_spec mx inf); auto.
  Qed.
  Lemma den_option a n : denotes n (in_alt g a) -> denotes (RRepeat n 0 1) (in_elem g (EOption a)).
  Proof.
    intros D w. split.
    - intros H. inversion H as [| | |? ? H1| | |]; subst.
      + exists []. split; [|reflexivity]. exists 0%nat. split; [lia|]. split; [cbn; lia|reflexivity].
      + apply D in H1 as (rs & L & ->). exists rs. split; [|reflexivity]. exists 1%nat. split; [lia|]. split; [cbn; lia|].
        apply l_cat_eps_r, L.
    - intros (rs & (k & _ & B2 & L) & ->). cbn in B2. destruct k as [|[|k]]; [| |lia].
      + cbn in L. rewrite L. apply in_option_none.
      + apply in_option_some. apply D. exists rs. split; [apply (l_cat_eps_r (re_lang n)), L|reflexivity].
  Qed.
  Lemma class_chars rss : leq (re_lang (RConcat (map RClass rss))) (fun w => Forall2 (fun rs c => scalar c /\ in_ranges rs c) rss w).
  Proof.
    induction rss as [|rs rss IH]; intros w.
    - cbn. unfold l_eps. split; [intros ->; constructor|intros H; inversion H; reflexivity].
    - cbn [map]. rewrite lang_cons_p. split.
      + intros (u & v & -> & (c & -> & S & I) & H). cbn. constructor; [auto|apply IH, H].
      + intros H. inversion H as [|? c ? v [S I] F]; subst. exists [c], v. split; [reflexivity|]. split; [exists c; auto|apply IH, F].
  Qed.
  Lemma char_class_ranges c s : exists rs, char_class c s = RClass rs /\ (forall r, in_ranges rs r <-> char_ok s c r) /\
    (forall lo hi, In (lo, hi) rs -> lo = hi /\ char_ok s c lo) /\ rs <> [].
  Proof.
    unfold char_class, char_ok, fold_case. destruct s.
    - exists [(c, c)]. split; [reflexivity|]. split; [|split; [|discriminate]].
      + intros r. rewrite in_ranges_cons, in_ranges_nil. cbn. lia.
      + intros lo hi [E|[]]. injection E as <- <-. auto.
    - destruct (Z.leb_spec 65 c) as [A1|A1]; destruct (Z.leb_spec c 90) as [A2|A2]; cbn [andb];
      try (exists [(c, c); (c - 65 + 97, c - 65 + 97)]; split; [reflexivity|]; split; [|split; [|discriminate]];
        [intros r; rewrite !in_ranges_cons, in_ranges_nil; cbn [fst snd];
         destruct (Z.leb_spec 65 r), (Z.leb_spec r 90); cbn [andb]; lia
        |intros lo hi [E|[E|[]]]; injection E as <- <-; (split; [reflexivity|]);
         repeat match goal with |- context [?a <=? ?b] => destruct (Z.leb_spec a b) end; cbn [andb]; lia]; fail).
      all: destruct (Z.leb_spec 97 c) as [B1|B1]; destruct (Z.leb_spec c 122) as [B2|B2]; cbn [andb]; try lia.
      all: try (exists [(c - 97 + 65, c - 97 + 65); (c, c)]; split; [reflexivity|]; split; [|split; [|discriminate]];
        [intros r; rewrite !in_ranges_cons, in_ranges_nil; cbn [fst snd];
         destruct (Z.leb_spec 65 r), (Z.leb_spec r 90); cbn [andb]; lia
        |intros lo hi [E|[E|[]]]; injection E as <- <-; (split; [reflexivity|]);
         repeat match goal with |- context [?a <=? ?b] => destruct (Z.leb_spec a b) end; cbn [andb]; lia]; fail).
      all: exists [(c, c)]; split; [reflexivity|]; split; [|split; [|discriminate]];
        [intros r; rewrite !in_ranges_cons, in_ranges_nil; cbn [fst snd];
         destruct (Z.leb_spec 65 r), (Z.leb_spec r 90); cbn [andb]; lia
        |intros lo hi [E|[]]; injection E as <- <-; (split; [reflexivity|]);
         repeat match goal with |- context [?a <=? ?b] => destruct (Z.leb_spec a b) end; cbn [andb]; lia].
  Qed.
  Lemma den_char s vs : denotes (RConcat (map (fun c => char_class c s) vs)) (in_elem g (EChar s vs)).
  Proof.
    assert (K : exists rss, map (fun c => char_class c s) vs = map RClass rss /\
      Forall2 (fun v rs => forall r, in_ranges rs r <-> char_ok s v r) vs rss).
    { induction vs as [|v vs (rss & E & F)]; [exists []; split; [reflexivity|constructor]|].
      destruct (char_class_ranges v s) as (rs & Ev & Iv & _). exists (rs :: rss). cbn [map]. rewrite Ev, E. split; [reflexivity|constructor; auto]. }
    destruct K as (rss & -> & F).
    assert (G : forall rs, re_lang (RConcat (map RClass rss)) rs <-> Forall2 (char_ok s) vs rs /\ Forall scalar rs).
    { intros rs. rewrite (class_chars rss rs). revert rs. induction F as [|v r vs rss H F IH]; intros rs.
      - split; [intros K; inversion K; subst; split; constructor|intros [K _]; inversion K; subst; constructor].
      - split.
        + intros K. inversion K as [|? c ? cs [S I] K']; subst. apply IH in K' as [K1 K2]. split; constructor; auto. apply H, I.
        + intros [K S]. inversion K as [|? c ? cs Kc Kcs]; subst. inversion S; subst. constructor; [split; [assumption|apply H, Kc]|apply IH; auto]. }
    intros w. split.
    - intros H. inversion H as [| | | |? ? rs F1 F2| |]; subst. exists rs. split; [apply G; auto|reflexivity].
    - intros (rs & L & ->). apply G in L as [L1 L2]. constructor; assumption.
  Qed.
  Lemma min_scalar v : 0 <= v -> (scalar (Z.min v MaxInt32) <-> scalar v) /\ (scalar v -> Z.min v MaxInt32 = v).
  Proof. unfold scalar, MaxInt32. lia. Qed.
  Lemma numeral_nonneg b s v : numeral b s = Some v -> 0 <= v.
  Proof.
    intros H. pose proof (numval_to_int32_spec _ _ _ H) as E. 
    unfold numeral in H. destruct (radix_of b) as [r|] eqn:R; [|discriminate]. destruct s as [|c s]; [discriminate|].
    apply radix_of_base in R as [_ R].
    assert (K : forall s acc v, 0 <= acc -> digits_val r acc s = Some v -> 0 <= v).
    { clear - R. induction s as [|c s IH]; intros acc v A D; cbn [digits_val] in D; [injection D as <-; exact A|].
      destruct (digit_val c) as [d|] eqn:Dv; [|discriminate]. destruct (d <? r); [|discriminate].
      apply digit_val_go in Dv as [_ Dv]. assert (0 <= acc * r + d) by (destruct R as [->|[->| ->]]; lia). apply (IH _ _ H D). }
    apply (K _ 0 v ltac:(lia) H).
  Qed.
  Lemma den_series b es : wf_num b StatSeries es -> denotes (num_node b StatSeries es) (in_elem g (ENum b StatSeries es)).
  Proof.
    intros [W L]. unfold num_node.
      assert (K : exists vs, Forall2 (fun s v => numeral b s = Some v) es vs).
      { clear L. induction W as [|s es (v & E) _ (vs & IH)]; [exists []; constructor|exists (v :: vs); constructor; assumption]. }
      destruct K as (vs & K).
      assert (U : forall rs, Forall2 (fun s v => numeral b s = Some v) es rs -> rs = vs).
      { clear - K. revert vs K. induction es as [|s es IH]; intros vs K rs R; inversion K; inversion R; subst; [reflexivity|].
        f_equal; [congruence|apply IH; assumption]. }
      assert (S : match series_parts (map (fun s => numval_to_rune s b) es) with
                  | Some ps => Forall scalar vs /\ ps = map RClass (map (fun v => [(v, v)]) vs)
                  | None => ~ Forall scalar vs end).
      { clear - K. induction K as [|s v es vs E _ IH]; [split; [constructor|reflexivity]|]. cbn [map series_parts].
        assert (Er : numval_to_rune s b = Z.min v MaxInt32) by exact (numval_to_int32_spec _ _ _ E). rewrite Er. clear Er.
        destruct (min_scalar v (numeral_nonneg _ _ _ E)) as [M1 M2].
        destruct (valid_rune (Z.min v MaxInt32)) eqn:V.
        - apply valid_rune_scalar in V. apply M1 in V. rewrite (M2 V).
          destruct (series_parts _) as [ps|].
          + destruct IH as [F ->]. split; [constructor; assumption|reflexivity].
          + intros F. inversion F; subst. contradiction.
        - intros F. inversion F as [|? ? F1 _]; subst. apply M1, valid_rune_scalar in F1. congruence. }
      destruct (series_parts _) as [ps|].
      + destruct S as [S ->].
        assert (G : forall rs, re_lang (RConcat (map RClass (map (fun v => [(v, v)]) vs))) rs <-> rs = vs).
        { intros rs. rewrite (class_chars _ rs). clear - S. revert rs. induction S as [|v vs Sv _ IH]; intros rs.
          - split; [intros H; inversion H; reflexivity|intros ->; constructor].
          - split.
            + intros H. inversion H as [|? c ? cs [_ I] F]; subst. apply IH in F. rewrite in_ranges_cons, in_ranges_nil in I. cbn in I. f_equal; [lia|exact F].
            + intros ->. cbn. constructor; [|apply IH; reflexivity]. split; [exact Sv|]. apply in_ranges_cons. cbn. lia. }
        intros w. split.
        * intros H. inversion H as [| | | | |? ? rs F1 F2|]; subst. rewrite (U rs F1). exists vs. split; [apply G; reflexivity|reflexivity].
        * intros (rs & H & ->). apply G in H. subst rs. constructor; assumption.
      + intros w. split; [|intros (rs & [] & _)].
        intros H. inversion H as [| | | | |? ? rs F1 F2|]; subst. rewrite (U rs F1) in F2. contradiction.
  Qed.
  Lemma range_node_lang lo hi w : 0 <= lo -> re_lang (range_node lo hi) w <-> exists r, lo <= r <= hi /\ scalar r /\ w = [r].
  Proof.
    intros P. unfold range_node. set (h := Z.min hi 0x10FFFF). assert (Eh : h = Z.min hi 0x10FFFF) by reflexivity. clearbody h.
    destruct (Z.ltb_spec 0x10FFFF lo) as [A|A]; [|destruct (Z.ltb_spec h lo) as [B|B]]; cbn [orb re_lang].
    - split; [intros []|]. intros (r & R & S & _). unfold scalar in S. lia.
    - split; [intros []|]. intros (r & R & S & _). unfold scalar in S. lia.
    - split.
      + intros (r & -> & S & R). rewrite in_ranges_cons, in_ranges_nil in R. cbn [fst snd] in R. exists r. split; [lia|]. auto.
      + intros (r & R & S & ->). exists r. split; [reflexivity|]. split; [exact S|]. apply in_ranges_cons. cbn [fst snd]. left. unfold scalar in S. lia.
  Qed.
  Lemma den_range b es : wf_num b StatRange es -> denotes (num_node b StatRange es) (in_elem g (ENum b StatRange es)).
  Proof.
    intros [W L]. destruct es as [|lo [|hi [|x es]]]; try discriminate L.
    inversion W as [|? ? (l & El) W']; subst. inversion W' as [|? ? (h & Eh) _]; subst.
    pose proof (numval_to_int32_spec _ _ _ El) as Ml. pose proof (numval_to_int32_spec _ _ _ Eh) as Mh.
    pose proof (numeral_nonneg _ _ _ El) as Pl. pose proof (numeral_nonneg _ _ _ Eh) as Ph.
    change (num_node b StatRange [lo; hi]) with (range_node (numval_to_int32 lo b) (numval_to_int32 hi b)).
    set (a := numval_to_int32 lo b) in *. set (c := numval_to_int32 hi b) in *. clearbody a c.
    assert (Pa : 0 <= a) by (rewrite Ml; unfold MaxInt32; lia).
    assert (R : forall r, scalar r -> (a <= r <= c <-> l <= r <= h)).
    { intros r S. rewrite Ml, Mh. unfold scalar, MaxInt32 in *. lia. }
    intros w. split.
    - intros H. inversion H as [| | | | | |? ? ? l' h' r El' Eh' B S]; subst.
      assert (l' = l) as -> by congruence. assert (h' = h) as -> by congruence.
      exists [r]. split; [|symmetry; apply app_nil_r]. apply range_node_lang; [exact Pa|]. exists r. split; [apply R; assumption|auto].
    - intros (rs & K & ->). apply range_node_lang in K as (r & B & S & ->); [|exact Pa].
      assert (E : utf8s [r] = utf8 r) by apply app_nil_r. rewrite E. eapply in_range; [exact El|exact Eh|apply R; assumption|exact S].
  Qed.
  Lemma den_num b st es : wf_num b st es -> denotes (num_node b st es) (in_elem g (ENum b st es)).
  Proof. destruct st; [apply den_series|apply den_range]. Qed.
End Denote.

(** ** The builder *)
Section Builder.
  Variable g : grammar.
  Variable B : Z -> Z -> Prop.
  Variable C : list (Z * Z) -> Prop.
  Hypothesis Dn : distinct_names g.
  Hypothesis Def : forall n, occ_elem g (ERule n) -> exists r, get_rule n g = Some r.
  Hypothesis Num : forall b st es, occ_elem g (ENum b st es) -> wf_num b st es.
  Hypothesis Bnd : forall mn mx e, occ_rep g (Rep mn mx e) -> B mn mx.
  Hypothesis Bopt : B 0 1.
  Hypothesis Cchar : forall s vs v rs, occ_elem g (EChar s vs) -> In v vs -> char_class v s = RClass rs -> C rs.
  Hypothesis Cone : forall c, scalar c -> C [(c, c)].
  Hypothesis Crange : forall b es rs, occ_elem g (ENum b StatRange es) -> num_node b StatRange es = RClass rs -> C rs.

  Definition ok (n : re) (L : list Z -> Prop) : Prop := denotes n L /\ nodes_ok B C n.
  Definition memo_ok (st : bstate) : Prop :=
    forall name n, memo_get (lower name) (b_memo st) = Some n -> ok n (in_elem g (ERule name)).
  (** What a step of the builder on [x] does, unless it ends in error. *)
  Definition step_ok {A} (f : bstate -> option (A * bstate)) (Post : A -> Prop) : Prop :=
    forall st n st', f st = Some (n, st') -> b_err st' = false ->
      b_err st = false /\ (memo_ok st -> memo_ok st' /\ Post n).

  Lemma traverse_step {A X} (f : A -> bstate -> option (X * bstate)) (R : A -> X -> Prop) l :
    (forall x, In x l -> step_ok (f x) (R x)) -> step_ok (traverse f l) (fun ns => Forall2 R l ns).
  Proof.
    induction l as [|x l IH]; intros H st ns st' E Er.
    - injection E as <- <-. split; [exact Er|]. intros M. split; [exact M|constructor].
    - rewrite traverse_cons in E. destruct (f x st) as [[y s1]|] eqn:E1; [|discriminate].
      destruct (traverse f l s1) as [[ys s2]|] eqn:E2; [|discriminate]. injection E as <- <-.
      destruct (IH (fun z I => H z (or_intror I)) _ _ _ E2 Er) as [Er1 K2].
      destruct (H x (or_introl eq_refl) _ _ _ E1 Er1) as [Er0 K1]. split; [exact Er0|].
      intros M. destruct (K1 M) as [M1 R1]. destruct (K2 M1) as [M2 R2]. split; [exact M2|constructor; assumption].
  Qed.
  Lemma step_map {A X} (f : bstate -> option (A * bstate)) (h : A -> X) (P : A -> Prop) (Q : X -> Prop) :
    step_ok f P -> (forall a, P a -> Q (h a)) ->
    step_ok (fun st => match f st with Some (a, st') => Some (h a, st') | None => None end) Q.
  Proof.
    intros H K st n st' E Er. destruct (f st) as [[a s1]|] eqn:E1; [|discriminate]. injection E as <- <-.
    destruct (H _ _ _ E1 Er) as [Er0 K1]. split; [exact Er0|]. intros M. destruct (K1 M) as [M1 R1]. auto.
  Qed.

  Lemma ok_cat c ns : Forall2 (fun r n => ok n (in_rep g r)) c ns -> ok (RConcat ns) (in_cat g c).
  Proof.
    intros F. split.
    - apply den_cat. induction F as [|r n c ns [H _] _ IH]; constructor; assumption.
    - constructor. induction F as [|r n c ns [_ H] _ IH]; constructor; assumption.
  Qed.
  Lemma ok_alt a ns : Forall2 (fun c n => ok n (in_cat g c)) a ns -> ok (RAlt ns) (in_alt g a).
  Proof.
    intros F. split.
    - apply den_alt. induction F as [|r n c ns [H _] _ IH]; constructor; assumption.
    - constructor. induction F as [|r n c ns [_ H] _ IH]; constructor; assumption.
  Qed.
  Lemma ok_iff n L L' : (forall w, L w <-> L' w) -> ok n L -> ok n L'.
  Proof. intros E [D K]. split; [|exact K]. intros w. rewrite <- E. apply D. Qed.

  Section Step.
    Variable call : string -> bstate -> option (re * bstate).
    Hypothesis Call : forall n, (exists r, get_rule n g = Some r) -> step_ok (call n) (fun x => ok x (in_elem g (ERule n))).
    Lemma cat_step c : (forall x, In x c -> step_ok (build_rep call x) (fun n => ok n (in_rep g x))) ->
      step_ok (build_cat call c) (fun n => ok n (in_cat g c)).
    Proof. intros H. unfold build_cat. eapply step_map; [apply (traverse_step (build_rep call) (fun x n => ok n (in_rep g x))), H|apply ok_cat]. Qed.
    Lemma alt_step a : (forall c x, In c a -> In x c -> step_ok (build_rep call x) (fun n => ok n (in_rep g x))) ->
      step_ok (build_alt call a) (fun n => ok n (in_alt g a)).
    Proof.
      intros H. unfold build_alt. eapply step_map; [apply (traverse_step (build_cat call) (fun c n => ok n (in_cat g c)))|apply ok_alt].
      intros c I. apply cat_step. intros x Ix. eapply H; eassumption.
    Qed.
    Lemma build_group a st : build_elem call (EGroup a) st = build_alt call a st.
    Proof. reflexivity. Qed.
    Lemma build_option a st : build_elem call (EOption a) st =
      match build_alt call a st with Some (n, st') => Some (RRepeat n 0 1, st') | None => None end.
    Proof.
      unfold build_alt. change (build_elem call (EOption a) st) with
        (match traverse (build_cat call) a st with Some (os, st') => Some (RRepeat (RAlt os) 0 1, st') | None => None end).
      destruct (traverse (build_cat call) a st) as [[os st']|]; reflexivity.
    Qed.
    Lemma elem_step : (forall e, occ_elem g e -> step_ok (build_elem call e) (fun n => ok n (in_elem g e))) /\
      (forall r, occ_rep g r -> step_ok (build_rep call r) (fun n => ok n (in_rep g r))).
    Proof.
      apply elem_rep_ind.
      - intros n O. change (build_elem call (ERule n)) with (call n). apply Call, Def, O.
      - intros a F O st n st'. rewrite build_group. revert st n st'.
        assert (K : step_ok (build_alt call a) (fun n => ok n (in_elem g (EGroup a)))).
        { intros st n st' E Er. assert (S : step_ok (build_alt call a) (fun n => ok n (in_alt g a))).
          { apply alt_step. intros c x Ic Ix. rewrite Forall_forall in F. specialize (F c Ic). rewrite Forall_forall in F.
            apply (F x Ix). eapply occ_rep_group; eassumption. }
          destruct (S st n st' E Er) as [Er0 K]. split; [exact Er0|]. intros M. destruct (K M) as [M1 K1]. split; [exact M1|].
          eapply ok_iff; [|exact K1]. intros w. split; [apply in_group|intros H; inversion H; assumption]. }
        exact K.
      - intros a F O st n st'. rewrite build_option. revert st n st'.
        assert (K : step_ok (fun st => match build_alt call a st with Some (n, st') => Some (RRepeat n 0 1, st') | None => None end)
          (fun n => ok n (in_elem g (EOption a)))).
        { apply (step_map (build_alt call a) (fun n => RRepeat n 0 1) (fun n => ok n (in_alt g a))).
          - apply alt_step. intros c x Ic Ix. rewrite Forall_forall in F. specialize (F c Ic). rewrite Forall_forall in F.
            apply (F x Ix). eapply occ_rep_option; eassumption.
          - intros n [D K]. split; [apply den_option, D|constructor; assumption]. }
        exact K.
      - intros s vs O st n st' E Er. injection E as <- <-. split; [exact Er|]. intros M. split; [exact M|].
        split; [apply den_char|]. constructor. apply Forall_forall. intros x I. apply in_map_iff in I as (v & <- & I).
        destruct (char_class_ranges v s) as (rs & Ev & _). rewrite Ev. constructor. eapply Cchar; eassumption.
      - intros b k es O st n st' E Er. injection E as <- <-. split; [exact Er|]. intros M. split; [exact M|].
        split; [apply den_num, Num, O|].
        destruct k.
        + cbn [num_node]. generalize (map (fun s => numval_to_rune s b) es). intros cs.
          destruct (series_parts cs) as [ps|] eqn:Es; [|constructor]. constructor. revert ps Es.
          induction cs as [|c cs IH]; intros ps Es; cbn [series_parts] in Es; [injection Es as <-; constructor|].
          destruct (valid_rune c) eqn:V; [|discriminate]. destruct (series_parts cs) as [ps'|]; [|discriminate]. injection Es as <-.
          constructor; [constructor; apply Cone, valid_rune_scalar, V|apply IH; reflexivity].
        + specialize (Crange b es). revert Crange. destruct (num_node b StatRange es) eqn:En; intros Cr.
          * constructor. apply Cr; [exact O|reflexivity].
          * exfalso. clear - En. cbn [num_node] in En. destruct es as [|lo [|hi es]]; try discriminate. unfold range_node in En. cbn zeta in En. destruct (_ || _); discriminate.
          * exfalso. clear - En. cbn [num_node] in En. destruct es as [|lo [|hi es]]; try discriminate. unfold range_node in En. cbn zeta in En. destruct (_ || _); discriminate.
          * exfalso. clear - En. cbn [num_node] in En. destruct es as [|lo [|hi es]]; try discriminate. unfold range_node in En. cbn zeta in En. destruct (_ || _); discriminate.
          * constructor.
          * constructor.
      - intros vs O st n st' E Er. injection E as <- <-. discriminate Er.
      - intros mn mx e IH O. change (build_rep call (Rep mn mx e)) with
          (fun st => match build_elem call e st with Some (n, st') => Some (RRepeat n mn mx, st') | None => None end).
        apply (step_map (build_elem call e) (fun n => RRepeat n mn mx) (fun n => ok n (in_elem g e))).
        + apply IH. econstructor. exact O.
        + intros n [D K]. split; [apply den_rep, D|constructor; [eapply Bnd; exact O|exact K]].
    Qed.
    Lemma rule_step n r : get_rule n g = Some r -> step_ok (build_alt call (rule_alt r)) (fun x => ok x (in_alt g (rule_alt r))).
    Proof.
      intros G. apply alt_step. intros c x Ic Ix. apply (proj2 elem_step). eapply occ_alt_reps; [eapply occ_alt_rule; exact G|exact Ic|exact Ix].
    Qed.
  End Step.

  Lemma call_step fuel : forall n, (exists r, get_rule n g = Some r) -> step_ok (build_rule fuel g n) (fun x => ok x (in_elem g (ERule n))).
  Proof.
    induction fuel as [|f IH]; intros n (r & G) st x st' E Er; [discriminate|]. cbn [build_rule] in E.
    destruct (memo_get (lower n) (b_memo st)) as [y|] eqn:Em.
    - injection E as <- <-. split; [exact Er|]. intros M. split; [exact M|]. apply M, Em.
    - rewrite G in E. destruct (build_alt (build_rule f g) (rule_alt r) st) as [[y s1]|] eqn:Eb; [|discriminate].
      injection E as <- <-. cbn [b_err] in Er.
      destruct (rule_step (build_rule f g) IH n r G st y s1 Eb Er) as [Er0 K]. split; [exact Er0|].
      intros M. destruct (K M) as [M1 O1].
      assert (On : ok y (in_elem g (ERule n))).
      { eapply ok_iff; [|exact O1]. intros w. symmetry. apply (lang_user g n r w Dn G). }
      split; [|exact On]. intros name z. cbn [b_memo memo_get].
      destruct (String.eqb_spec (lower n) (lower name)) as [El|]; [|apply M1].
      intros Ez. injection Ez as <-. eapply ok_iff; [|exact On].
      intros w. split; intros H; inversion H as [? a ? R I| | | | | |]; subst; econstructor; try exact I.
      + eapply resolves_lower; [exact El|exact R].
      + eapply resolves_lower; [symmetry; exact El|exact R].
  Qed.

  (** The node built for a rule. *)
  Theorem build_ok fuel n r x st : get_rule n g = Some r ->
    build_alt (build_rule fuel g) (rule_alt r) (mkB [] false) = Some (x, st) -> b_err st = false -> ok x (Lang g n).
  Proof.
    intros G E Er. destruct (rule_step (build_rule fuel g) (call_step fuel) n r G _ _ _ E Er) as [_ K].
    destruct K as [_ K]; [intros name y Y; discriminate|]. eapply ok_iff; [|exact K].
    intros w. symmetry. apply (lang_user g n r w Dn G).
  Qed.
End Builder.

(** ** The builder ends *)
Section Ends.
  Variable g : grammar.
  Lemma traverse_some {A X} (f : A -> bstate -> option (X * bstate)) l :
    (forall x, In x l -> forall st, f x st <> None) -> forall st, traverse f l st <> None.
  Proof.
    induction l as [|x l IH]; intros H st; [discriminate|]. rewrite traverse_cons.
    destruct (f x st) as [[y s1]|] eqn:E; [|exfalso; exact (H x (or_introl eq_refl) st E)].
    destruct (traverse f l s1) as [[ys s2]|] eqn:E2; [discriminate|exfalso; exact (IH (fun z I => H z (or_intror I)) s1 E2)].
  Qed.
  Lemma build_alt_some call a : (forall n, refers a n -> forall st, call n st <> None) -> forall st, build_alt call a st <> None.
  Proof.
    intros H.
    assert (K : (forall e, (forall n, e = ERule n \/ (exists b, (e = EGroup b \/ e = EOption b) /\ refers b n) -> forall st, call n st <> None) -> forall st, build_elem call e st <> None) /\
      (forall r, (forall n, rep_elem r = ERule n \/ (exists b, (rep_elem r = EGroup b \/ rep_elem r = EOption b) /\ refers b n) -> forall st, call n st <> None) -> forall st, build_rep call r st <> None)).
    { assert (Sub : forall a0, Forall (Forall (fun r => (forall n, rep_elem r = ERule n \/ (exists b, (rep_elem r = EGroup b \/ rep_elem r = EOption b) /\ refers b n) -> forall st, call n st <> None) -> forall st, build_rep call r st <> None)) a0 ->
        (forall n, refers a0 n -> forall st, call n st <> None) -> forall st, build_alt call a0 st <> None).
      { intros a0 F R st. unfold build_alt. destruct (traverse (build_cat call) a0 st) as [[os s1]|] eqn:E; [discriminate|].
        exfalso. revert E. apply traverse_some. intros c Ic s. unfold build_cat.
        destruct (traverse (build_rep call) c s) as [[ps s2]|] eqn:E2; [discriminate|]. exfalso. revert E2. apply traverse_some.
        intros x Ix. rewrite Forall_forall in F. specialize (F c Ic). rewrite Forall_forall in F. apply (F x Ix).
        intros n Hn. apply R. destruct x as [mn mx e]. cbn [rep_elem] in Hn. destruct Hn as [->|(b & [-> | ->] & mn' & mx' & Rb)].
        - exists mn, mx. eapply rep_in_here; eassumption.
        - exists mn', mx'. eapply rep_in_group; eassumption.
        - exists mn', mx'. eapply rep_in_option; eassumption. }
      apply elem_rep_ind.
      - intros n R. apply R. left. reflexivity.
      - intros b F R. intros st. rewrite build_group. apply Sub; [exact F|]. intros n Hn. apply R. right. exists b. auto.
      - intros b F R st. rewrite build_option. destruct (build_alt call b st) as [[x s1]|] eqn:E; [discriminate|]. exfalso. revert E. apply Sub; [exact F|].
        intros n Hn. apply R. right. exists b. auto.
      - discriminate.
      - discriminate.
      - discriminate.
      - intros mn mx e IH R st. cbn [rep_elem] in R. specialize (IH R st). change (build_rep call (Rep mn mx e) st) with
          (match build_elem call e st with Some (n, st') => Some (RRepeat n mn mx, st') | None => None end).
        destruct (build_elem call e st) as [[x s1]|]; [discriminate|contradiction]. }
    intros st. unfold build_alt. destruct (traverse (build_cat call) a st) as [[os s1]|] eqn:E; [discriminate|].
    exfalso. revert E. apply traverse_some. intros c Ic s. unfold build_cat.
    destruct (traverse (build_rep call) c s) as [[ps s2]|] eqn:E2; [discriminate|]. exfalso. revert E2. apply traverse_some.
    intros x Ix. apply (proj2 K). intros n Hn. apply H. destruct x as [mn mx e]. cbn [rep_elem] in Hn. destruct Hn as [->|(b & [-> | ->] & mn' & mx' & Rb)].
    - exists mn, mx. eapply rep_in_here; eassumption.
    - exists mn', mx'. eapply rep_in_group; eassumption.
    - exists mn', mx'. eapply rep_in_option; eassumption.
  Qed.

  Definition names : list string := map (fun r => lower (rule_name r)) (g ++ core_rules).
  Lemma get_rule_names n r : get_rule n g = Some r -> In (lower n) names.
  Proof.
    intros G. assert (H : exists a, resolves g n a) by (apply get_rule_some; eauto).
    destruct H as (a & [(r' & I & S & _)|(_ & r' & I & S & _)]); apply in_map_iff; exists r'; (split; [symmetry; exact S|]); apply in_or_app; auto.
  Qed.
  Hypothesis Dn : distinct_names g.
  Lemma rule_some fuel : forall n path st, NoDup path -> incl path names ->
    (forall p, In p path -> exists m, lower m = p /\ clos_trans _ (gref g) m n) ->
    (~ exists m, clos_refl_trans _ (gref g) n m /\ clos_trans _ (gref g) m m) ->
    (length names < fuel + length path)%nat -> build_rule fuel g n st <> None.
  Proof.
    induction fuel as [|f IH]; intros n path st Nd Inc Reach Acy L.
    - pose proof (NoDup_incl_length Nd Inc). lia.
    - cbn [build_rule]. destruct (memo_get (lower n) (b_memo st)) as [y|]; [discriminate|].
      destruct (get_rule n g) as [r|] eqn:G; [|discriminate].
      destruct (build_alt (build_rule f g) (rule_alt r) st) as [[y s1]|] eqn:E; [discriminate|]. exfalso. revert E. apply build_alt_some.
      intros m Rm s. 
      assert (En : gref g n m).
      { exists (rule_alt r), m. split; [apply (proj1 (get_rule_resolves g n Dn)), G|]. split; [exact Rm|reflexivity]. }
      apply (IH m (lower n :: path)).
      + constructor; [|exact Nd]. intros I. destruct (Reach _ I) as (p & Ep & Cp). apply Acy. exists n. split; [apply rt_refl|].
        (* p and n have the same name *)
        apply clos_trans_t1n in Cp. inversion Cp as [? E1|k ? E1 E2]; subst.
        * apply t_step. eapply gref_lower; [exact Ep|reflexivity|exact E1].
        * eapply t_trans; [apply t_step; eapply gref_lower; [exact Ep|reflexivity|exact E1]|]. apply clos_t1n_trans. exact E2.
      + intros p [<-|I]; [eapply get_rule_names; exact G|apply Inc, I].
      + intros p [<-|I]; [exists n; split; [reflexivity|apply t_step, En]|].
        destruct (Reach _ I) as (q & Eq & Cq). exists q. split; [exact Eq|]. eapply t_trans; [exact Cq|apply t_step, En].
      + intros (k & R1 & C1). apply Acy. exists k. split; [|exact C1]. eapply rt_trans; [apply rt_step, En|exact R1].
      + cbn [length]. lia.
  Qed.
  Theorem build_ends fuel n r st : get_rule n g = Some r ->
    (~ exists m, clos_refl_trans _ (gref g) n m /\ clos_trans _ (gref g) m m) ->
    (length names < fuel)%nat -> build_alt (build_rule fuel g) (rule_alt r) st <> None.
  Proof.
    intros G Acy L. apply build_alt_some. intros m Rm s.
    assert (En : gref g n m).
    { exists (rule_alt r), m. split; [apply (proj1 (get_rule_resolves g n Dn)), G|]. split; [exact Rm|reflexivity]. }
    apply (rule_some fuel m []); [constructor|intros x []|intros p []| |cbn; lia].
    intros (k & R1 & C1). apply Acy. exists k. split; [|exact C1]. eapply rt_trans; [apply rt_step, En|exact R1].
  Qed.
End Ends.
