(** The slot budget is respected, and more fuel does not change a lowering.
    Its definitions are means of proof and model no code. *)
From Coq Require Import ZArith String Bool List Lia.
From Verif Require Import Syntax Spec Utf8 Num Printer Slots LowerProof.
Import ListNotations.
Local Open Scope string_scope.
Local Open Scope Z_scope.

Section Mono.
  Variable max : Z.
  Variable l1 l2 : string -> lstate -> option (nat * lstate).
  Hypothesis mono : forall n st r, l1 n st = Some r -> l2 n st = Some r.

  Lemma mapM_mono {A B S} (f h : A -> S -> option (B * S)) l :
    (forall x, In x l -> forall st r, f x st = Some r -> h x st = Some r) ->
    forall st r, mapM f l st = Some r -> mapM h l st = Some r.
  Proof.
    induction l as [|x l IH]; intros H st r; cbn; auto.
    destruct (f x st) as [[y s1]|] eqn:E; [|discriminate]. rewrite (H x (or_introl eq_refl) _ _ E).
    destruct (mapM f l s1) as [[ys s2]|] eqn:E2; [|discriminate].
    rewrite (IH (fun z h => H z (or_intror h)) _ _ E2). auto.
  Qed.

  Lemma alts_mono a : Forall (Forall (fun r => forall st x, lower_rep max l1 r st = Some x -> lower_rep max l2 r st = Some x)) a ->
    forall st x, lower_alts max l1 a st = Some x -> lower_alts max l2 a st = Some x.
  Proof.
    intros F. apply mapM_mono. intros c Hc st x. unfold lower_cat. rewrite Forall_forall in F. specialize (F c Hc).
    rewrite Forall_forall in F.
    destruct (mapM (lower_rep max l1) c st) as [[s st']|] eqn:E; [|discriminate].
    rewrite (mapM_mono _ _ c F _ _ E). auto.
  Qed.

  Lemma lower_mono : (forall e st x, lower_elem max l1 e st = Some x -> lower_elem max l2 e st = Some x) /\
    (forall r st x, lower_rep max l1 r st = Some x -> lower_rep max l2 r st = Some x).
  Proof.
    apply elem_rep_ind; try (cbn; auto; fail).
    - intros n st x. cbn. destruct (l1 n st) as [[id st']|] eqn:E; [|discriminate]. rewrite (mono _ _ _ E). auto.
    - intros a F st x. rewrite !lower_elem_group. destruct (reserve _ _) as [[id []] st1]; auto.
      destruct (budget_exceeded _ _) as [[] st2]; auto.
      destruct (lower_alts max l1 a st2) as [p|] eqn:E; [|discriminate]. rewrite (alts_mono a F _ _ E). auto.
    - intros a F st x. rewrite !lower_elem_option. destruct (reserve _ _) as [[id []] st1]; auto.
      destruct (budget_exceeded _ _) as [[] st2]; auto.
      destruct (lower_alts max l1 a st2) as [p|] eqn:E; [|discriminate]. rewrite (alts_mono a F _ _ E). auto.
    - intros mn mx e F st x. rewrite !lower_rep_eq. destruct (_ && _)%bool; auto.
      destruct (reserve _ _) as [[id []] st1]; auto. destruct (budget_exceeded _ _) as [[] st2]; auto.
      destruct (_ && _)%bool; auto.
      destruct (lower_elem max l1 e st2) as [p|] eqn:E; [|discriminate]. rewrite (F _ _ E). auto.
  Qed.
End Mono.

Lemma lower_rule_mono g max f : forall f' n st x, (f <= f')%nat ->
  lower_rule g max f n st = Some x -> lower_rule g max f' n st = Some x.
Proof.
  induction f as [|f IH]; intros f' n st x L; [discriminate|]. destruct f' as [|f']; [lia|]. cbn [lower_rule].
  destruct (reserve _ _) as [[id []] st1]; auto. destruct (budget_exceeded _ _) as [[] st2]; auto.
  destruct (get_rule n g) as [r|]; auto.
  destruct (lower_alts max (lower_rule g max f) (rule_alt r) st2) as [p|] eqn:E; [|discriminate].
  rewrite (alts_mono max (lower_rule g max f) (lower_rule g max f') (rule_alt r)) with (x := p); auto.
  apply Forall_forall. intros c _. apply Forall_forall. intros x0 _. apply lower_mono.
  intros. apply IH; auto. lia.
Qed.

Lemma compile_mono g root max f f' : (f <= f')%nat -> compile_slots g root max f <> CS_fuel ->
  compile_slots g root max f' = compile_slots g root max f.
Proof.
  intros L. unfold compile_slots. destruct (get_rule root g); auto.
  destruct (lower_rule g max f root ls_init) as [p|] eqn:E; [|congruence].
  rewrite (lower_rule_mono _ _ _ f' _ _ _ L E). auto.
Qed.

Section Budget.
  Variable max : Z.
  Variable lrule : string -> lstate -> option (nat * lstate).
  Definition okb (st : lstate) : Prop :=
    0 < max -> ls_over st = false -> Z.of_nat (length (ls_nts st)) < max.
  Hypothesis Hl : forall n st id st', okb st -> lrule n st = Some (id, st') -> okb st'.

  Lemma reserve_old_okb k st id st1 : reserve k st = (id, true, st1) -> st1 = st.
  Proof. unfold reserve. destruct (assoc _ _); intros H; inversion H; auto. Qed.
  Lemma budget_okb st b st2 : budget_exceeded max st = (b, st2) -> okb st2.
  Proof.
    unfold budget_exceeded. intros H. inversion H; subst. intros M O. cbn in *.
    apply orb_false_iff in O as [O _]. rewrite (proj2 (Z.ltb_lt _ _) M) in O. cbn in O. apply Z.leb_gt in O. auto.
  Qed.
  Lemma set_okb id nt st : okb st -> okb (set_nt id nt st).
  Proof. unfold okb, set_nt. cbn. rewrite set_nth_len. auto. Qed.

  Lemma mapM_okb {A B} (f : A -> lstate -> option (B * lstate)) l :
    (forall x, In x l -> forall st y st', okb st -> f x st = Some (y, st') -> okb st') ->
    forall st ys st', okb st -> mapM f l st = Some (ys, st') -> okb st'.
  Proof.
    induction l as [|x l IH]; intros H st ys st' O; cbn.
    - intros E. inversion E; subst; auto.
    - destruct (f x st) as [[y s1]|] eqn:E; [|discriminate].
      destruct (mapM f l s1) as [[zs s2]|] eqn:E2; [|discriminate]. intros E3. inversion E3; subst.
      eapply IH; [|eapply H; [left; auto|exact O|exact E]|exact E2]. intros; eapply H; eauto. right; auto.
  Qed.

  Lemma alts_okb a : Forall (Forall (fun r => forall st y st', okb st -> lower_rep max lrule r st = Some (y, st') -> okb st')) a ->
    forall st ys st', okb st -> lower_alts max lrule a st = Some (ys, st') -> okb st'.
  Proof.
    intros F. apply mapM_okb. intros c Hc st y st' O. unfold lower_cat.
    rewrite Forall_forall in F. specialize (F c Hc). rewrite Forall_forall in F.
    destruct (mapM (lower_rep max lrule) c st) as [[s st1]|] eqn:E; [|discriminate].
    intros E1. inversion E1; subst. eapply mapM_okb; eauto.
  Qed.

  Lemma lower_okb : (forall e st y st', okb st -> lower_elem max lrule e st = Some (y, st') -> okb st') /\
    (forall r st y st', okb st -> lower_rep max lrule r st = Some (y, st') -> okb st').
  Proof.
    apply elem_rep_ind; try (cbn; intros; match goal with H : Some _ = Some _ |- _ => inversion H; subst end; auto; fail).
    - intros n st y st' O. cbn. destruct (lrule n st) as [[id st1]|] eqn:E; [|discriminate].
      intros E1. inversion E1; subst. eauto.
    - intros a F st y st' O. rewrite lower_elem_group. destruct (reserve _ _) as [[id []] st1] eqn:R.
      { apply reserve_old_okb in R as ->. intros E; inversion E; subst; auto. }
      destruct (budget_exceeded _ _) as [b st2] eqn:Bd. apply budget_okb in Bd.
      destruct b; [intros E; inversion E; subst; auto|].
      destruct (lower_alts max lrule a st2) as [[p st3]|] eqn:E; [|discriminate].
      intros E1; inversion E1; subst. apply set_okb. eapply alts_okb; eauto.
    - intros a F st y st' O. rewrite lower_elem_option. destruct (reserve _ _) as [[id []] st1] eqn:R.
      { apply reserve_old_okb in R as ->. intros E; inversion E; subst; auto. }
      destruct (budget_exceeded _ _) as [b st2] eqn:Bd. apply budget_okb in Bd.
      destruct b; [intros E; inversion E; subst; auto|].
      destruct (lower_alts max lrule a st2) as [[p st3]|] eqn:E; [|discriminate].
      intros E1; inversion E1; subst. apply set_okb. eapply alts_okb; eauto.
    - intros mn mx e F st y st' O. rewrite lower_rep_eq. destruct (_ && _)%bool; [eauto|].
      destruct (reserve _ _) as [[id []] st1] eqn:R.
      { apply reserve_old_okb in R as ->. intros E; inversion E; subst; auto. }
      destruct (budget_exceeded _ _) as [b st2] eqn:Bd. apply budget_okb in Bd.
      destruct b; [intros E; inversion E; subst; auto|].
      destruct (_ && _)%bool; [intros E; inversion E; subst; auto|].
      destruct (lower_elem max lrule e st2) as [[p st3]|] eqn:E; [|discriminate].
      intros E1; inversion E1; subst. apply set_okb. eauto.
  Qed.
End Budget.

Lemma lower_rule_okb g max f : forall n st id st', okb max st -> lower_rule g max f n st = Some (id, st') -> okb max st'.
Proof.
  induction f as [|f IH]; intros n st id st' O; [discriminate|]. cbn [lower_rule].
  destruct (reserve _ _) as [[i []] st1] eqn:R.
  { apply reserve_old_okb in R as ->. intros E; inversion E; subst; auto. }
  destruct (budget_exceeded _ _) as [b st2] eqn:Bd. apply budget_okb in Bd.
  destruct b; [intros E; inversion E; subst; auto|].
  destruct (get_rule n g) as [r|]; [|intros E; inversion E; subst; auto].
  destruct (lower_alts max (lower_rule g max f) (rule_alt r) st2) as [[p st3]|] eqn:E; [|discriminate].
  intros E1; inversion E1; subst. apply set_okb. eapply alts_okb; [|exact Bd|exact E].
  apply Forall_forall. intros c _. apply Forall_forall. intros x _. apply lower_okb. auto.
Qed.

Theorem compile_budget g root max f sg : 0 < max -> compile_slots g root max f = CS_ok sg ->
  Z.of_nat (length (sg_nts sg)) < max.
Proof.
  intros M. unfold compile_slots. destruct (get_rule root g); [|discriminate].
  destruct (lower_rule g max f root ls_init) as [[id st]|] eqn:E; [|discriminate].
  destruct (ls_over st) eqn:O; [discriminate|]. intros H. inversion H; subst. cbn.
  apply (lower_rule_okb g max f root ls_init id st); auto. intros _ _. cbn. lia.
Qed.

(** A lowering that stayed within its budget is the one without a budget. *)
Section Free.
  Variable max : Z.
  Variable l1 l2 : string -> lstate -> option (nat * lstate).
  Definition frees {B} (f h : lstate -> option (B * lstate)) : Prop :=
    forall st y st', f st = Some (y, st') -> ls_over st' = false -> ls_over st = false /\ h st = Some (y, st').
  Hypothesis H : forall n, frees (l1 n) (l2 n).

  Lemma mapM_free {A B} (f h : A -> lstate -> option (B * lstate)) l : (forall x, In x l -> frees (f x) (h x)) -> frees (mapM f l) (mapM h l).
  Proof.
    induction l as [|x l IH]; intros F st y st'; cbn [mapM]; [intros E N; injection E as <- <-; auto|].
    destruct (f x st) as [[z s1]|] eqn:E; [|discriminate]. destruct (mapM f l s1) as [[zs s2]|] eqn:E2; [|discriminate]. intros X N. injection X as <- <-.
    destruct (IH (fun w I => F w (or_intror I)) _ _ _ E2 N) as [N1 M]. destruct (F x (or_introl eq_refl) _ _ _ E N1) as [N0 ->]. rewrite M. auto.
  Qed.
  Lemma alts_free a : Forall (Forall (fun r => frees (lower_rep max l1 r) (lower_rep 0 l2 r))) a -> frees (lower_alts max l1 a) (lower_alts 0 l2 a).
  Proof.
    intros F. apply mapM_free. intros c Hc st y st'. unfold lower_cat. rewrite Forall_forall in F. specialize (F c Hc). rewrite Forall_forall in F.
    destruct (mapM (lower_rep max l1) c st) as [[s s1]|] eqn:E; [|discriminate]. intros X N. injection X as <- <-.
    destruct (mapM_free _ _ c F _ _ _ E N) as [N0 ->]. auto.
  Qed.
  Lemma reserve_over k st id b st1 : reserve k st = (id, b, st1) -> ls_over st1 = ls_over st.
  Proof. unfold reserve. destruct (assoc k (ls_index st)); intros X; injection X as <- <- <-; reflexivity. Qed.
  Lemma budget_free m st b st2 : budget_exceeded m st = (b, st2) -> ls_over st2 = b /\ (b = false -> ls_over st = false /\ budget_exceeded 0 st = (false, st2)).
  Proof.
    unfold budget_exceeded. intros X. injection X as <- <-. split; [reflexivity|]. intros F. rewrite F. apply orb_false_iff in F as [_ F]. rewrite F. split; auto.
  Qed.
  Lemma lower_free : (forall e, frees (lower_elem max l1 e) (lower_elem 0 l2 e)) /\ (forall r, frees (lower_rep max l1 r) (lower_rep 0 l2 r)).
  Proof.
    assert (Term : forall e, (forall m l st, lower_elem m l e st = Some (STerm e, st)) -> frees (lower_elem max l1 e) (lower_elem 0 l2 e)).
    { intros e T st y st'. rewrite !T. intros X N. injection X as <- <-. auto. }
    apply elem_rep_ind; try (intros; apply Term; reflexivity).
    - intros n st y st'. cbn [lower_elem]. destruct (l1 n st) as [[id s1]|] eqn:E; [|discriminate]. intros X N. injection X as <- <-.
      destruct (H n _ _ _ E N) as [N0 ->]. auto.
    - intros a F st y st'. rewrite !lower_elem_group. destruct (reserve _ _) as [[id []] st1] eqn:Rs; pose proof (reserve_over _ _ _ _ _ Rs) as Ro.
      { intros X N. injection X as <- <-. split; congruence. }
      destruct (budget_exceeded max st1) as [b st2] eqn:Bu. destruct (budget_free _ _ _ _ Bu) as [B1 B2]. destruct b; [intros X N; injection X as <- <-; congruence|].
      destruct (B2 eq_refl) as [B3 ->]. destruct (lower_alts max l1 a st2) as [[alts s3]|] eqn:E; [|discriminate]. intros X N. injection X as <- <-.
      destruct (alts_free a F _ _ _ E N) as [N0 ->]. split; [congruence|auto].
    - intros a F st y st'. rewrite !lower_elem_option. destruct (reserve _ _) as [[id []] st1] eqn:Rs; pose proof (reserve_over _ _ _ _ _ Rs) as Ro.
      { intros X N. injection X as <- <-. split; congruence. }
      destruct (budget_exceeded max st1) as [b st2] eqn:Bu. destruct (budget_free _ _ _ _ Bu) as [B1 B2]. destruct b; [intros X N; injection X as <- <-; congruence|].
      destruct (B2 eq_refl) as [B3 ->]. destruct (lower_alts max l1 a st2) as [[alts s3]|] eqn:E; [|discriminate]. intros X N. injection X as <- <-.
      destruct (alts_free a F _ _ _ E N) as [N0 ->]. split; [congruence|auto].
    - intros mn mx e F st y st'. rewrite !lower_rep_eq. destruct ((mn =? 1) && (mx =? 1))%bool; [apply F|].
      destruct (reserve _ _) as [[id []] st1] eqn:Rs; pose proof (reserve_over _ _ _ _ _ Rs) as Ro.
      { intros X N. injection X as <- <-. split; congruence. }
      destruct (budget_exceeded max st1) as [b st2] eqn:Bu. destruct (budget_free _ _ _ _ Bu) as [B1 B2]. destruct b; [intros X N; injection X as <- <-; congruence|].
      destruct (B2 eq_refl) as [B3 ->]. destruct (_ && _)%bool; [intros X N; injection X as <- <-; split; congruence|].
      destruct (lower_elem max l1 e st2) as [[es s3]|] eqn:E; [|discriminate]. intros X N. injection X as <- <-.
      destruct (F _ _ _ E N) as [N0 ->]. split; [congruence|auto].
  Qed.
End Free.
Lemma lower_rule_free g max f : forall n, frees (lower_rule g max f n) (lower_rule g 0 f n).
Proof.
  induction f as [|f IH]; intros n st y st'; [discriminate|]. cbn [lower_rule].
  destruct (reserve _ _) as [[id []] st1] eqn:Rs; pose proof (reserve_over _ _ _ _ _ Rs) as Ro.
  { intros X N. injection X as <- <-. split; congruence. }
  destruct (budget_exceeded max st1) as [b st2] eqn:Bu. destruct (budget_free _ _ _ _ Bu) as [B1 B2]. destruct b; [intros X N; injection X as <- <-; congruence|].
  destruct (B2 eq_refl) as [B3 ->]. destruct (get_rule n g) as [r|]; [|intros X N; injection X as <- <-; split; congruence].
  destruct (lower_alts max (lower_rule g max f) (rule_alt r) st2) as [[alts s3]|] eqn:E; [|discriminate]. intros X N. injection X as <- <-.
  destruct (alts_free max (lower_rule g max f) (lower_rule g 0 f) (rule_alt r)) with (st := st2) (y := alts) (st' := s3) as [N0 ->]; auto; [|split; [congruence|auto]].
  apply Forall_forall. intros c _. apply Forall_forall. intros x0 _. apply lower_free. exact IH.
Qed.
Lemma compile_free g root max f sg : compile_slots g root max f = CS_ok sg -> compile_slots g root 0 f = CS_ok sg.
Proof.
  unfold compile_slots. destruct (get_rule root g); [|discriminate]. destruct (lower_rule g max f root ls_init) as [[id st]|] eqn:E; [|discriminate].
  destruct (ls_over st) eqn:Ov; [discriminate|]. intros X. destruct (lower_rule_free _ _ _ _ _ _ _ E Ov) as [_ ->]. rewrite Ov. exact X.
Qed.
