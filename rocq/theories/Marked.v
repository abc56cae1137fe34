(** Marking every quoted string of a grammar, or none.
    Its definitions are means of proof and model no code. *)
From Coq Require Import ZArith Arith String Ascii Bool List Lia.
From Verif Require Import Syntax Spec Num Term Printer PrintInj Check Occ Apart Between.
Import ListNotations.
Local Open Scope string_scope.
Local Open Scope list_scope.
Local Open Scope Z_scope.

Lemma map2_in {A} (f : A -> A) (P : A -> Prop) (Q : A -> Prop) (a : list (list A)) :
  (forall x, P x -> Q (f x)) -> Forall (Forall P) a -> Forall (Forall Q) (map (map f) a).
Proof.
  intros H F. apply Forall_forall. intros c I. apply in_map_iff in I as (d & <- & I). apply Forall_forall. intros x J. apply in_map_iff in J as (y & <- & J).
  apply H. rewrite Forall_forall in F. specialize (F d I). rewrite Forall_forall in F. auto.
Qed.
Lemma map2_ext {A} (f g : A -> A) (a : list (list A)) : Forall (Forall (fun x => f x = g x)) a -> map (map f) a = map (map g) a.
Proof. intros H. apply map_ext_in. intros c I. apply map_ext_in. intros x J. rewrite Forall_forall in H. specialize (H c I). rewrite Forall_forall in H. auto. Qed.

(** What is marked afterwards does not depend on how it was marked before. *)
Lemma mark_erase b : (forall e, mark_elem b (erase_elem e) = mark_elem b e) /\ (forall r, mark_rep b (erase_rep r) = mark_rep b r).
Proof.
  apply elem_rep_ind; try (intros; reflexivity).
  - intros a H. cbn [erase_elem mark_elem]. f_equal. rewrite map_map. rewrite (map_ext _ (map (fun x => mark_rep b (erase_rep x)))) by (intros; apply map_map). apply map2_ext. exact H.
  - intros a H. cbn [erase_elem mark_elem]. f_equal. rewrite map_map. rewrite (map_ext _ (map (fun x => mark_rep b (erase_rep x)))) by (intros; apply map_map). apply map2_ext. exact H.
  - intros mn mx e H. cbn [erase_rep mark_rep]. f_equal. exact H.
Qed.
Lemma mark_mark b : (forall e, mark_elem b (mark_elem b e) = mark_elem b e) /\ (forall r, mark_rep b (mark_rep b r) = mark_rep b r).
Proof.
  apply elem_rep_ind; try (intros; reflexivity).
  - intros a H. cbn [mark_elem]. f_equal. rewrite map_map. rewrite (map_ext _ (map (fun x => mark_rep b (mark_rep b x)))) by (intros; apply map_map). apply map2_ext. exact H.
  - intros a H. cbn [mark_elem]. f_equal. rewrite map_map. rewrite (map_ext _ (map (fun x => mark_rep b (mark_rep b x)))) by (intros; apply map_map). apply map2_ext. exact H.
  - intros mn mx e H. cbn [mark_rep]. f_equal. exact H.
Qed.
Lemma mark_in b : forall a x, rep_in a x -> forall a0, a = map (map (mark_rep b)) a0 -> mark_rep b x = x.
Proof.
  intros a x H. induction H as [a c r H1 H2|a c mn mx d r H1 H2 H3 IH|a c mn mx d r H1 H2 H3 IH]; intros a0 ->.
  - apply in_map_iff in H1 as (c0 & <- & H1). apply in_map_iff in H2 as (y & <- & H2). apply mark_mark.
  - apply in_map_iff in H1 as (c0 & <- & H1). apply in_map_iff in H2 as ([mn' mx' e] & E & H2). destruct e; cbn in E; try discriminate. injection E as -> -> <-. eapply IH. reflexivity.
  - apply in_map_iff in H1 as (c0 & <- & H1). apply in_map_iff in H2 as ([mn' mx' e] & E & H2). destruct e; cbn in E; try discriminate. injection E as -> -> <-. eapply IH. reflexivity.
Qed.

Lemma mark_fixed b g x : occ_rep (mark b g) x -> (compound (rep_elem x) = true \/ counted x) -> mark_rep b x = x.
Proof.
  revert x. apply (occ_split (mark b g) (fun x => compound (rep_elem x) = true \/ counted x -> mark_rep b x = x)).
  - apply Forall_forall. intros x I K.
    assert (C : forallb (fun x => negb (compound (rep_elem x)) && ((rep_min x =? 1) && (rep_max x =? 1)) || (if chars_dec (rep_chars x) [] then true else false))%bool (grammar_reps []) = true) by (vm_compute; reflexivity).
    rewrite forallb_forall in C. specialize (C x I). apply orb_true_iff in C as [C|C].
    + exfalso. apply andb_true_iff in C as [C1 C2]. apply andb_true_iff in C2 as [C2 C3]. apply Z.eqb_eq in C2, C3. destruct K as [K|K]; [rewrite K in C1; discriminate|apply K; auto].
    + destruct (chars_dec (rep_chars x) []) as [C'|]; [|discriminate]. clear -C'.
      assert (M : forall b, (forall e, elem_chars e = [] -> mark_elem b e = e) /\ (forall r, rep_chars r = [] -> mark_rep b r = r)).
      { clear. intros b.
        assert (A : forall a, Forall (Forall (fun r => rep_chars r = [] -> mark_rep b r = r)) a -> flat_map (fun c => flat_map rep_chars c) a = [] -> map (map (mark_rep b)) a = a).
        { induction 1 as [|c a F _ IH]; cbn [flat_map map]; intros E; auto. apply app_eq_nil in E as [E1 E2]. f_equal; auto.
          clear -F E1. induction F as [|r c F _ IH]; cbn [flat_map map] in *; auto. apply app_eq_nil in E1 as [E1 E2]. f_equal; auto. }
        apply elem_rep_ind; try (intros; reflexivity); try discriminate.
        - intros a H E. cbn [mark_elem]. f_equal. apply A; auto.
        - intros a H E. cbn [mark_elem]. f_equal. apply A; auto.
        - intros mn mx e H E. cbn [mark_rep]. f_equal. apply H; auto. }
      apply M. exact C'.
  - intros r x I R _. apply in_map_iff in I as (r0 & <- & I). cbn [rule_alt] in R. eapply mark_in; eauto.
Qed.
Theorem mark_apart b g : told_apart (mark b g).
Proof.
  assert (E : forall e e', occ_elem (mark b g) e -> occ_elem (mark b g) e' -> compound e = true -> compound e' = true -> erase_elem e = erase_elem e' -> e = e').
  { intros e e' O O' K K' E. inversion O as [mn mx ? R]; subst. inversion O' as [mn' mx' ? R']; subst.
    pose proof (mark_fixed b g _ R (or_introl K)) as F. pose proof (mark_fixed b g _ R' (or_introl K')) as F'. cbn [mark_rep] in F, F'. injection F as F. injection F' as F'.
    rewrite <- F, <- F', <- (proj1 (mark_erase b) e), E. apply mark_erase. }
  split; [|split].
  - intros a a' O O' H. apply (E _ _ O O' eq_refl eq_refl) in H. congruence.
  - intros a a' O O' H. apply (E _ _ O O' eq_refl eq_refl) in H. congruence.
  - intros r r' O O' K H. assert (K' : counted r').
    { intros K'. apply K. destruct r as [mn mx e], r' as [mn' mx' e']. cbn [erase_rep] in H. injection H as -> -> _. exact K'. }
    rewrite <- (mark_fixed b g r O (or_intror K)), <- (mark_fixed b g r' O' (or_intror K')), <- (proj2 (mark_erase b) r), H. apply mark_erase.
Qed.

Lemma mark_narrows (b : bool) : (forall e, if b then narrows_elem (mark_elem b e) e else narrows_elem e (mark_elem b e)) /\
  (forall r, if b then narrows_rep (mark_rep b r) r else narrows_rep r (mark_rep b r)).
Proof.
  assert (M : forall (f : rep -> rep) (R : rep -> rep -> Prop) a, Forall (Forall (fun r => R (f r) r)) a -> Forall2 (Forall2 R) (map (map f) a) a).
  { intros f R a H. induction H as [|c a Hc _ IH]; cbn; constructor; auto. induction Hc; cbn; constructor; auto. }
  assert (M' : forall (f : rep -> rep) (R : rep -> rep -> Prop) a, Forall (Forall (fun r => R r (f r))) a -> Forall2 (Forall2 R) a (map (map f) a)).
  { intros f R a H. induction H as [|c a Hc _ IH]; cbn; constructor; auto. induction Hc; cbn; constructor; auto. }
  destruct b; apply elem_rep_ind; try (intros; cbn; constructor; auto; fail).
  intros s v. cbn. constructor. discriminate.
Qed.
Theorem mark_narrows_grammar g : narrows (mark true g) g /\ narrows g (mark false g).
Proof.
  split; induction g as [|r g IH]; cbn; constructor; auto; split; auto; cbn [rule_alt];
    induction (rule_alt r) as [|c a IHa]; cbn; constructor; auto; induction c as [|x c IHc]; cbn; constructor; auto.
  - apply (proj2 (mark_narrows true)).
  - apply (proj2 (mark_narrows false)).
Qed.

(** What narrows is well formed alike. *)
Scheme narrows_elem_min := Minimality for narrows_elem Sort Prop with narrows_rep_min := Minimality for narrows_rep Sort Prop.

Lemma narrows_ok :
  (forall e e', narrows_elem e e' -> (wf_elem e <-> wf_elem e') /\ lex_elem e = lex_elem e') /\
  (forall r r', narrows_rep r r' -> (wf_rep r <-> wf_rep r') /\ lex_rep r = lex_rep r').
Proof.
  set (Q := fun r => forall r', narrows_rep r r' -> (wf_rep r <-> wf_rep r') /\ lex_rep r = lex_rep r').
  assert (Cc : forall c, Forall Q c -> forall d, Forall2 narrows_rep c d -> (Forall wf_rep c <-> Forall wf_rep d) /\ forallb lex_rep c = forallb lex_rep d).
  { intros c F d H. revert F. induction H as [|x y c d H _ IH]; intros F; [split; [tauto|reflexivity]|].
    inversion F as [|? ? F1 F2]; subst. destruct (F1 _ H) as [W L]. destruct (IH F2) as [W' L']. split; [rewrite !Forall_cons_iff; tauto|cbn [forallb]; congruence]. }
  assert (Ca : forall a, Forall (Forall Q) a -> forall b, Forall2 (Forall2 narrows_rep) a b ->
    (Forall (Forall wf_rep) a <-> Forall (Forall wf_rep) b) /\
    forallb (fun c => negb (Nat.eqb (length c) 0) && forallb lex_rep c)%bool a = forallb (fun c => negb (Nat.eqb (length c) 0) && forallb lex_rep c)%bool b).
  { intros c F d H. revert F. induction H as [|x y c d H _ IH]; intros F; [split; [tauto|reflexivity]|].
    inversion F as [|? ? F1 F2]; subst. destruct (Cc _ F1 _ H) as [W L]. destruct (IH F2) as [W' L'].
    split; [rewrite !Forall_cons_iff; tauto|cbn [forallb]; rewrite L, L', (F2_length _ _ _ H); reflexivity]. }
  apply elem_rep_ind.
  - intros n e' H. inversion H; subst. split; [tauto|auto].
  - intros a F e' H. inversion H as [|? b N| | | |]; subst. destruct (Ca a F b N) as [W L]. cbn [lex_elem]. rewrite L, (F2_length _ _ _ N).
    split; [|reflexivity]. split; intros X; inversion X; subst; constructor; tauto.
  - intros a F e' H. inversion H as [| |? b N| | |]; subst. destruct (Ca a F b N) as [W L]. cbn [lex_elem]. rewrite L, (F2_length _ _ _ N).
    split; [|reflexivity]. split; intros X; inversion X; subst; constructor; tauto.
  - intros s v e' H. inversion H; subst. split; [split; constructor|auto].
  - intros b s v e' H. inversion H; subst. split; [tauto|auto].
  - intros v e' H. inversion H; subst. split; [tauto|auto].
  - intros mn mx e IH r' H. inversion H as [? ? ? e' N]; subst. destruct (IH _ N) as [W L]. cbn [lex_rep]. rewrite L.
    split; [|reflexivity]. split; intros X; inversion X; subst; constructor; tauto.
Qed.
Theorem narrows_grammar_ok g g' : narrows g g' -> (wf_grammar g <-> wf_grammar g') /\ lex_grammar g = lex_grammar g'.
Proof.
  intros H. unfold wf_grammar, distinct_names, lex_grammar.
  assert (A : forall r r', narrows_rule r r' -> (wf_alt (rule_alt r) <-> wf_alt (rule_alt r')) /\ lex_alt (rule_alt r) = lex_alt (rule_alt r')).
  { intros r r' [_ N]. assert (G : narrows_elem (EGroup (rule_alt r)) (EGroup (rule_alt r'))) by (constructor; exact N).
    destruct (proj1 narrows_ok _ _ G) as [W L]. split; [|exact L]. unfold wf_alt.
    split; intros X; [assert (Y : wf_elem (EGroup (rule_alt r))) by (constructor; exact X)|assert (Y : wf_elem (EGroup (rule_alt r'))) by (constructor; exact X)]; apply W in Y; inversion Y; auto. }
  assert (E : map (fun r => lower (rule_name r)) g = map (fun r => lower (rule_name r)) g') by (induction H as [|r r' g g' [E _] _ IH]; cbn [map]; congruence).
  rewrite E. enough (X : (Forall (fun r => wf_alt (rule_alt r)) g <-> Forall (fun r => wf_alt (rule_alt r)) g') /\
    forallb (fun r => lex_name (rule_name r) && lex_alt (rule_alt r))%bool g = forallb (fun r => lex_name (rule_name r) && lex_alt (rule_alt r))%bool g') by tauto.
  clear E. induction H as [|r r' g g' H _ IH]; [split; [tauto|reflexivity]|]. destruct (A _ _ H) as [W L], IH as [W' L'], H as [N _].
  split; [rewrite !Forall_cons_iff; tauto|cbn [forallb]; congruence].
Qed.
