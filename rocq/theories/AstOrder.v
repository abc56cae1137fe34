(** Proofs about the costs of NewASTGenerator in different orders, and on a part of a grammar.  Its
    definitions are means of proof and model no code. *)
From Coq Require Import ZArith String Bool List Lia.
From Verif Require Import Syntax Spec Check Num Tape Printer PrintInj Ast AstSpec AstCost PropGll SpellProof Part PartProof.
Import ListNotations.
Local Open Scope Z_scope.

(** Costs depend on the grammar and the table through the names only. *)
Section Cross.
  Variable g0 : grammar.
  Hypothesis Small : forall mn mx e, occ_rep g0 (Rep mn mx e) -> 0 <= mn <= 2 ^ 33.
  Section Mono.
    Variables (h1 h2 : grammar) (m1 m2 : costs).
    Hypothesis K1 : cost_ok m1.
    Hypothesis K2 : cost_ok m2.
    Hypothesis N : forall n, occ_elem g0 (ERule n) -> cost_elem h1 m1 (ERule n) <= cost_elem h2 m2 (ERule n).
    Lemma cross_mono :
      (forall e, occ_elem g0 e -> cost_elem h1 m1 e <= cost_elem h2 m2 e) /\ (forall r, occ_rep g0 r -> cost_rep h1 m1 r <= cost_rep h2 m2 r).
    Proof.
      apply elem_rep_ind.
      - exact N.
      - intros a F O. cbn [cost_elem]. apply min_cost_mono. intros c C. split.
        + apply clamp_fold_range; [intros; apply cost_nonneg; auto|unfold unbounded; lia].
        + apply clamp_fold_mono; [|lia]. intros x X. split; [apply cost_nonneg; auto|].
          rewrite Forall_forall in F. specialize (F c C). rewrite Forall_forall in F. apply F; auto. eapply occ_rep_group; eauto.
      - intros; cbn; lia.
      - intros; cbn; lia.
      - intros; cbn; lia.
      - intros; cbn; lia.
      - intros mn mx e IH O. cbn [cost_rep]. apply mul_clamp_le; [eauto|]. split; [apply cost_nonneg; auto|]. apply IH. econstructor; eauto.
    Qed.
    Lemma cross_alt a : (forall c x, In c a -> In x c -> occ_rep g0 x) -> cost_alt h1 m1 a <= cost_alt h2 m2 a.
    Proof.
      intros O. apply min_cost_mono. intros c C. split; [apply cost_cat_range; auto|].
      apply clamp_fold_mono; [|lia]. intros x X. split; [apply cost_nonneg; auto|]. apply cross_mono. eauto.
    Qed.
  End Mono.

  Variable Sh : string -> Prop.
  Hypothesis ShOcc : forall n, occ_elem g0 (ERule n) -> Sh n.
  (** What a run on [h2] finds is no less than what a run on [h1] ended with. *)
  Section Run.
    Variables h1 h2 : grammar.
    Hypothesis Same : forall n, Sh n -> get_rule n h1 = get_rule n h2.
    Hypothesis Body : forall n r, Sh n -> get_rule n h2 = Some r -> forall c x, In c (rule_alt r) -> In x c -> occ_rep g0 x.
    Variable m1 : costs.
    Hypothesis K1 : cost_ok m1.
    Hypothesis C1 : covers h1 m1.
    Hypothesis F1 : at_fixpoint h1 m1.
    Definition above (m : costs) : Prop := forall n r v, Sh n -> get_rule n h2 = Some r -> cost_get m (rule_name r) = Some v ->
      exists v1, cost_get m1 (rule_name r) = Some v1 /\ v1 <= v.

    Lemma above_step m r : above m -> cost_ok m -> covers h2 m -> In r (effective h2) ->
      cost_alt h2 m (rule_alt r) < match cost_get m (rule_name r) with Some v => v | None => 0 end ->
      above (cost_set m (rule_name r) (cost_alt h2 m (rule_alt r))).
    Proof.
      intros A K C I L n x v S G E. rewrite cost_get_set in E. destruct (String.eqb_spec (rule_name r) (rule_name x)) as [Eq|Ne]; [|eauto].
      injection E as <-. assert (x = r) as ->.
      { pose proof (effective_get h2 r I) as Gr. pose proof (effective_get h2 x (effective_in h2 n x G)) as Gx. rewrite Eq in Gr. congruence. }
      assert (G1 : get_rule n h1 = Some r) by (rewrite (Same n S); exact G).
      destruct (C1 r (effective_in h1 n r G1)) as (v1 & E1). exists v1. split; [exact E1|].
      pose proof (F1 r v1 (effective_in h1 n r G1) E1) as Fx. eapply Z.le_trans; [exact Fx|]. apply cross_alt; auto; [|apply (Body n r S G)].
      intros n' O'. pose proof (ShOcc n' O') as S'. cbn [cost_elem]. rewrite (Same n' S'). destruct (get_rule n' h2) as [y|] eqn:Gy; [|lia].
      destruct (C y (effective_in h2 n' y Gy)) as (w & Ew). rewrite Ew. destruct (A n' y w S' Gy Ew) as (w1 & Ew1 & Lw). rewrite Ew1.
      pose proof (K1 _ _ Ew1). apply add_clamp_le; lia.
    Qed.
    Lemma run_above ord fuel m2 : any_order ord -> cost_loop fuel h2 ord 0 (initial_costs h2) = Some m2 -> above m2.
    Proof.
      intros Ord E. destruct (initial_ok h2) as (K & C & _).
      refine (proj1 (loop_kept h2 ord Ord above above_step fuel 0 (initial_costs h2) m2 _ K C E)).
      intros n r v S G Ev. apply initial_get_inv in Ev. subst v. assert (G1 : get_rule n h1 = Some r) by (rewrite (Same n S); exact G).
      destruct (C1 r (effective_in h1 n r G1)) as (v1 & E1). exists v1. split; [exact E1|]. apply (K1 _ _ E1).
    Qed.
  End Run.

  Lemma run_end h ord fuel m : any_order ord -> cost_loop fuel h ord 0 (initial_costs h) = Some m -> cost_ok m /\ covers h m /\ at_fixpoint h m.
  Proof.
    intros Ord E. destruct (initial_ok h) as (K & C & _). exact (proj2 (loop_kept h ord Ord (fun _ => True) (fun _ _ _ _ _ _ _ => Logic.I) fuel 0 (initial_costs h) m Logic.I K C E)).
  Qed.
  Lemma same_costs h1 h2 ord1 ord2 fuel1 fuel2 m1 m2 :
    (forall n, Sh n -> get_rule n h1 = get_rule n h2) ->
    (forall n r, Sh n -> get_rule n h2 = Some r -> forall c x, In c (rule_alt r) -> In x c -> occ_rep g0 x) ->
    any_order ord1 -> any_order ord2 ->
    cost_loop fuel1 h1 ord1 0 (initial_costs h1) = Some m1 -> cost_loop fuel2 h2 ord2 0 (initial_costs h2) = Some m2 ->
    forall n r, Sh n -> get_rule n h2 = Some r -> cost_get m1 (rule_name r) = cost_get m2 (rule_name r).
  Proof.
    intros Same Body O1 O2 E1 E2 n r S G. destruct (run_end h1 ord1 fuel1 m1 O1 E1) as (K1 & C1 & F1). destruct (run_end h2 ord2 fuel2 m2 O2 E2) as (K2 & C2 & F2).
    assert (G1 : get_rule n h1 = Some r) by (rewrite (Same n S); exact G).
    destruct (C1 r (effective_in h1 n r G1)) as (v1 & V1). destruct (C2 r (effective_in h2 n r G)) as (v2 & V2).
    destruct (run_above h1 h2 Same Body m1 K1 C1 F1 ord2 fuel2 m2 O2 E2 n r v2 S G V2) as (w1 & W1 & L1).
    assert (Same' : forall n, Sh n -> get_rule n h2 = get_rule n h1) by (intros x Sx; symmetry; apply Same, Sx).
    assert (Body' : forall n r, Sh n -> get_rule n h1 = Some r -> forall c x, In c (rule_alt r) -> In x c -> occ_rep g0 x).
    { intros x y Sx Gx. rewrite (Same x Sx) in Gx. apply (Body x y Sx Gx). }
    destruct (run_above h2 h1 Same' Body' m2 K2 C2 F2 ord1 fuel1 m1 O1 E1 n r v1 S G1 V1) as (w2 & W2 & L2).
    rewrite V1 in W1. injection W1 as <-. rewrite V2 in W2. injection W2 as <-. rewrite V1, V2. f_equal. lia.
  Qed.
End Cross.

(** With the same costs the same is visited and generated. *)
Section Same.
  Variables (g0 h1 h2 : grammar) (m1 m2 : costs) (Sh : string -> Prop).
  Hypothesis ShOcc : forall n, occ_elem g0 (ERule n) -> Sh n.
  Hypothesis Get : forall n, Sh n -> get_rule n h1 = get_rule n h2.
  Hypothesis Body : forall n r, Sh n -> get_rule n h2 = Some r -> forall c x, In c (rule_alt r) -> In x c -> occ_rep g0 x.
  Hypothesis Cost : forall n r, Sh n -> get_rule n h2 = Some r -> cost_get m1 (rule_name r) = cost_get m2 (rule_name r).
  Notation inside a := (forall c x, In c a -> In x c -> occ_rep g0 x).

  Lemma cost_same :
    (forall e, occ_elem g0 e -> cost_elem h1 m1 e = cost_elem h2 m2 e) /\ (forall r, occ_rep g0 r -> cost_rep h1 m1 r = cost_rep h2 m2 r).
  Proof.
    assert (Fold : forall c, (forall x, In x c -> cost_rep h1 m1 x = cost_rep h2 m2 x) -> forall b,
      fold_left (fun t r => add_clamp t (cost_rep h1 m1 r)) c b = fold_left (fun t r => add_clamp t (cost_rep h2 m2 r)) c b).
    { induction c as [|x c IH]; intros H b; [reflexivity|]. cbn [fold_left]. rewrite (H x (or_introl eq_refl)). apply IH. intros y I. apply H. right. exact I. }
    apply elem_rep_ind.
    - intros n O. cbn [cost_elem]. rewrite (Get n (ShOcc n O)). destruct (get_rule n h2) as [r|] eqn:G; [|reflexivity]. rewrite (Cost n r (ShOcc n O) G). reflexivity.
    - intros a F O. cbn [cost_elem]. f_equal. apply map_eq_in. intros c C. apply Fold. intros x X.
      rewrite Forall_forall in F. specialize (F c C). rewrite Forall_forall in F. apply F; auto. eapply occ_rep_group; eauto.
    - reflexivity.
    - reflexivity.
    - reflexivity.
    - reflexivity.
    - intros mn mx e IH O. assert (X : cost_elem h1 m1 e = cost_elem h2 m2 e) by (apply IH; econstructor; exact O). change (mul_clamp mn (cost_elem h1 m1 e) = mul_clamp mn (cost_elem h2 m2 e)). rewrite X. reflexivity.
  Qed.
  Lemma cost_cat_same c : (forall x, In x c -> occ_rep g0 x) -> cost_cat h1 m1 c = cost_cat h2 m2 c.
  Proof.
    intros H. unfold cost_cat. generalize 0 as b. induction c as [|x c IH]; intros b; [reflexivity|]. cbn [fold_left].
    rewrite (proj2 cost_same x (H x (or_introl eq_refl))). apply IH. intros y I. apply H. right. exact I.
  Qed.
  Lemma cheapest_same a : inside a -> cheapest h1 m1 a = cheapest h2 m2 a.
  Proof.
    intros H. destruct a as [|c a]; [reflexivity|]. unfold cheapest. rewrite (cost_cat_same c); [|intros x; apply H; left; reflexivity].
    assert (H' : inside a) by (intros d x I; apply H; right; exact I). clear H. revert H'. generalize (cost_cat h2 m2 c) as b. generalize 1%nat as i. generalize 0%nat as k.
    induction a as [|d a IH]; intros k i b H; [reflexivity|]. cbn [cheapest_from]. rewrite (cost_cat_same d); [|intros x; apply H; left; reflexivity].
    cbv zeta. destruct (_ <? b); apply IH; intros e x I; apply H; right; exact I.
  Qed.

  (** visitAlt *)
  Section Visit.
    Variables c1 c2 : list string -> alternation -> vres.
    Hypothesis E : forall seen a, inside a -> c1 seen a = c2 seen a.
    Lemma fold_same (f1 f2 : rep -> list string -> vres) a : (forall c x s, In c a -> In x c -> f1 x s = f2 x s) -> forall acc,
      fold_left (fun acc c => fold_left (fun acc r => match acc with V_ok s => f1 r s | x => x end) c acc) a acc =
      fold_left (fun acc c => fold_left (fun acc r => match acc with V_ok s => f2 r s | x => x end) c acc) a acc.
    Proof.
      induction a as [|c a IH]; intros H acc; [reflexivity|]. cbn [fold_left].
      assert (X : forall acc, fold_left (fun acc r => match acc with V_ok s => f1 r s | x => x end) c acc = fold_left (fun acc r => match acc with V_ok s => f2 r s | x => x end) c acc).
      { assert (Hc : forall x s, In x c -> f1 x s = f2 x s) by (intros x s; apply H; left; reflexivity). clear -Hc. induction c as [|x c IH]; intros acc; [reflexivity|]. cbn [fold_left].
        assert (Y : match acc with V_ok s => f1 x s | y => y end = match acc with V_ok s => f2 x s | y => y end) by (destruct acc; auto; apply Hc; left; reflexivity).
        rewrite Y. apply IH. intros y s I. apply Hc. right. exact I. }
      rewrite X. apply IH. intros d x s I. apply H. right. exact I.
    Qed.
    Lemma visit_same : (forall e, occ_elem g0 e -> forall seen, visit_elem h1 m1 c1 e seen = visit_elem h2 m2 c2 e seen) /\
      (forall r, occ_rep g0 r -> forall seen, visit_rep h1 m1 c1 r seen = visit_rep h2 m2 c2 r seen).
    Proof.
      apply elem_rep_ind.
      - intros n O seen. cbn [visit_elem]. rewrite (Get n (ShOcc n O)). destruct (get_rule n h2) as [r|] eqn:G; [|reflexivity].
        unfold too_costly. rewrite (Cost n r (ShOcc n O) G). rewrite (E _ (rule_alt r) (Body n r (ShOcc n O) G)). reflexivity.
      - intros a F O seen. cbn [visit_elem]. apply fold_same. intros c x s Ic Ix. rewrite Forall_forall in F. specialize (F c Ic). rewrite Forall_forall in F.
        apply (F x Ix). eapply occ_rep_group; eauto.
      - intros a F O seen. cbn [visit_elem]. apply fold_same. intros c x s Ic Ix. rewrite Forall_forall in F. specialize (F c Ic). rewrite Forall_forall in F.
        apply (F x Ix). eapply occ_rep_option; eauto.
      - reflexivity.
      - reflexivity.
      - reflexivity.
      - intros mn mx e IH O seen. cbn [visit_rep]. apply IH. econstructor. exact O.
    Qed.
  End Visit.
  Lemma visit_alt_same f : forall seen a, inside a -> visit_alt f h1 m1 seen a = visit_alt f h2 m2 seen a.
  Proof.
    induction f as [|f IH]; intros seen a H; [reflexivity|]. cbn [visit_alt]. unfold visit_alt_with. apply fold_same. intros c x s Ic Ix. apply visit_same; eauto.
  Qed.

  (** genAlt *)
  Section Gen.
    Variables (md ml mr : Z) (S_ : Type) (intn : Z -> S_ -> Z * S_).
    Section Rec.
      Variables r1 r2 : alternation -> Z -> astate S_ -> ares S_.
      Hypothesis E : forall a d s, inside a -> r1 a d s = r2 a d s.
      Lemma ast_elem_same e : occ_elem g0 e -> forall d s, ast_elem h1 md ml S_ intn r1 e d s = ast_elem h2 md ml S_ intn r2 e d s.
      Proof.
        intros O d s. destruct e as [n|a|a|b v|b st es|v]; try reflexivity; cbn [ast_elem].
        - rewrite (Get n (ShOcc n O)). destruct (get_rule n h2) as [r|] eqn:G; [|reflexivity]. apply E, (Body n r (ShOcc n O) G).
        - apply E. intros c x. apply occ_rep_group, O.
        - destruct (over md ml S_ s d); [reflexivity|]. destruct (intn 2 (a_src s)) as [k src]. cbv zeta. rewrite E; [reflexivity|]. intros c x. apply occ_rep_option, O.
      Qed.
      Lemma ast_loop_same e : occ_elem g0 e -> forall k i lo d s, ast_loop h1 md ml S_ intn r1 k i lo e d s = ast_loop h2 md ml S_ intn r2 k i lo e d s.
      Proof.
        intros O. induction k as [|k IH]; intros i lo d s; [reflexivity|]. cbn [ast_loop]. rewrite (ast_elem_same e O).
        destruct (ast_elem h2 md ml S_ intn r2 e d s); auto. destruct ((lo <=? i + 1) && _)%bool; auto.
      Qed.
      Lemma ast_rep_same r : occ_rep g0 r -> forall d s, ast_rep h1 md ml mr S_ intn r1 r d s = ast_rep h2 md ml mr S_ intn r2 r d s.
      Proof.
        destruct r as [mn mx e]. intros O d s. assert (Oe : occ_elem g0 e) by (econstructor; exact O). unfold ast_rep. cbv zeta.
        destruct (negb _ && _)%bool; [|apply ast_loop_same, Oe]. destruct (intn _ _) as [k src]. apply ast_loop_same, Oe.
      Qed.
      Lemma ast_cat_same c : (forall x, In x c -> occ_rep g0 x) -> forall d s, ast_cat h1 md ml mr S_ intn r1 c d s = ast_cat h2 md ml mr S_ intn r2 c d s.
      Proof.
        induction c as [|x c IH]; intros H d s; [reflexivity|]. cbn [ast_cat]. rewrite (ast_rep_same x (H x (or_introl eq_refl))).
        destruct (ast_rep h2 md ml mr S_ intn r2 x d s); auto. apply IH. intros y I. apply H. right. exact I.
      Qed.
    End Rec.
    Lemma ast_alt_same f : forall a d s, inside a -> ast_alt f h1 m1 md ml mr intn a d s = ast_alt f h2 m2 md ml mr intn a d s.
    Proof.
      induction f as [|f IH]; intros a d s H; [reflexivity|]. cbn [ast_alt]. unfold ast_alt_with. destruct a as [|c0 a0]; [reflexivity|].
      rewrite (cheapest_same (c0 :: a0) H). destruct (if over md ml S_ s d then _ else _) as [idx s'].
      match goal with |- match ?t with _ => _ end = _ => destruct t as [c|] eqn:N end; [|reflexivity]. apply ast_cat_same; [exact IH|]. intros x. apply H. eapply nth_error_In; eauto.
    Qed.
  End Gen.
End Same.

(** ** NewASTGenerator in two orders, on a grammar and on a part of it *)
Section New.
  Variables (g g' : grammar) (root : string) (Sh : string -> Prop).
  Hypothesis So : forall n, occ_elem g' (ERule n) -> Sh n.
  Hypothesis Sr : Sh root.
  Hypothesis Get : forall n, Sh n -> get_rule n g = get_rule n g'.
  Hypothesis Small : forall mn mx e, occ_rep g' (Rep mn mx e) -> 0 <= mn <= 2 ^ 33.
  Variables ord ord' : nat -> list rule -> list rule.
  Hypothesis O : any_order ord.
  Hypothesis O' : any_order ord'.
  Let Body : forall n r, Sh n -> get_rule n g' = Some r -> forall c x, In c (rule_alt r) -> In x c -> occ_rep g' x := fun n r _ H => get_occ g' n r H.

  Lemma costs_same fuel fuel' m m' : cost_loop fuel g ord 0 (initial_costs g) = Some m -> cost_loop fuel' g' ord' 0 (initial_costs g') = Some m' ->
    (forall n r, Sh n -> get_rule n g' = Some r -> cost_get m (rule_name r) = cost_get m' (rule_name r)) /\
    (forall n r, Sh n -> get_rule n g' = Some r -> forall f md ml mr S_ (intn : Z -> S_ -> Z * S_) src, ast_walk f g r m md ml mr intn src = ast_walk f g' r m' md ml mr intn src).
  Proof.
    intros E E'. pose proof (same_costs g' Small Sh So g g' ord ord' fuel fuel' m m' Get Body O O' E E') as C. split; [exact C|].
    intros n r S G f md ml mr S_ intn src. unfold ast_walk. apply (ast_alt_same g' g g' m m' Sh So Get Body C). apply (Body n r S G).
  Qed.
  Lemma new_same fuel : new_ast fuel ord g root <> New_fuel -> new_ast fuel ord' g' root <> New_fuel ->
    match new_ast fuel ord g root with
    | New_ok start m => exists m', new_ast fuel ord' g' root = New_ok start m' /\
        (forall n r, Sh n -> get_rule n g' = Some r -> cost_get m (rule_name r) = cost_get m' (rule_name r)) /\
        forall f md ml mr S_ (intn : Z -> S_ -> Z * S_) src, ast_walk f g start m md ml mr intn src = ast_walk f g' start m' md ml mr intn src
    | x => new_ast fuel ord' g' root = x
    end.
  Proof.
    unfold new_ast. rewrite (Get root Sr). destruct (get_rule root g') as [st|] eqn:G; [|reflexivity].
    destruct (cost_loop fuel g ord 0 (initial_costs g)) as [m|] eqn:E; [|congruence].
    destruct (cost_loop fuel g' ord' 0 (initial_costs g')) as [m'|] eqn:E'; [|congruence]. intros F F'.
    destruct (costs_same fuel fuel m m' E E') as (C & W). revert F F'. unfold too_costly. rewrite (C root st Sr G).
    rewrite (visit_alt_same g' g g' m m' Sh So Get Body C fuel [rule_name st] (rule_alt st) (Body root st Sr G)).
    destruct (unbounded <=? _); [reflexivity|]. destruct (visit_alt fuel g' m' [rule_name st] (rule_alt st)) as [seen|x|x|]; try reflexivity.
    intros _ _. exists m'. split; [reflexivity|]. split; [exact C|]. exact (W root st Sr G).
  Qed.
End New.
