(** The repetitions occurring in a grammar, listed. *)
(** The definitions here are those of statements, proofs and examples; they model no code. *)
From Coq Require Import ZArith Arith String Bool List Lia.
From Verif Require Import Syntax Spec Check.
Import ListNotations.
Local Open Scope list_scope.
Local Open Scope Z_scope.

(** The repetitions in an element. *)
Fixpoint elem_reps (e : elem) : list rep :=
  match e with
  | EGroup a | EOption a => flat_map (fun c => flat_map (fun r => r :: rep_reps r) c) a
  | _ => []
  end
with rep_reps (r : rep) : list rep :=
  match r with Rep _ _ e => elem_reps e end.
(** The repetitions in an alternation. *)
Definition alt_reps (a : alternation) : list rep := flat_map (flat_map (fun r => r :: rep_reps r)) a.
(** The repetitions in a grammar and in the core rules. *)
Definition grammar_reps (g : grammar) : list rep := flat_map (fun r => alt_reps (rule_alt r)) (g ++ core_rules).

Lemma occ_reps g : (forall e, occ_elem g e -> incl (elem_reps e) (grammar_reps g)) /\
  (forall r, occ_rep g r -> incl (r :: rep_reps r) (grammar_reps g)).
Proof.
  apply occ_min.
  - intros mn mx e _ H y Hy. apply H. right. exact Hy.
  - intros r c x H1 H2 H3 y Hy. unfold grammar_reps, alt_reps. apply in_flat_map. exists r. split; auto.
    apply in_flat_map. exists c. split; auto. apply in_flat_map. exists x. auto.
  - intros a c x _ IH H2 H3 y Hy. apply IH. cbn [elem_reps]. apply in_flat_map. exists c. split; auto.
    apply in_flat_map. exists x. auto.
  - intros a c x _ IH H2 H3 y Hy. apply IH. cbn [elem_reps]. apply in_flat_map. exists c. split; auto.
    apply in_flat_map. exists x. auto.
Qed.
Lemma occ_rep_listed g x : occ_rep g x -> In x (grammar_reps g).
Proof. intros H. apply (proj2 (occ_reps g) x H). left. reflexivity. Qed.

Lemma rep_in_occ g : forall a x, rep_in a x -> (forall c y, In c a -> In y c -> occ_rep g y) -> occ_rep g x.
Proof.
  intros a x H. induction H as [a c r H1 H2|a c mn mx b r H1 H2 H3 IH|a c mn mx b r H1 H2 H3 IH]; intros O.
  - eauto.
  - apply IH. intros c' y A B. eapply occ_rep_group; eauto. econstructor. eapply O; eauto.
  - apply IH. intros c' y A B. eapply occ_rep_option; eauto. econstructor. eapply O; eauto.
Qed.

Lemma rep_in_sub a x : rep_in a x -> forall b c mn mx, x = Rep mn mx (EGroup b) \/ x = Rep mn mx (EOption b) -> forall y, In c b -> In y c -> rep_in a y.
Proof.
  induction 1 as [a c r H1 H2|a c mn mx b r H1 H2 H3 IH|a c mn mx b r H1 H2 H3 IH]; intros b0 c0 mn0 mx0 E y Hc Hy.
  - destruct E as [-> | ->].
    + eapply rep_in_group; eauto. eapply rep_in_here; eauto.
    + eapply rep_in_option; eauto. eapply rep_in_here; eauto.
  - eapply rep_in_group; eauto.
  - eapply rep_in_option; eauto.
Qed.

(** Occurrences are the repetitions inside the rules and the core rules. *)
Lemma occ_rep_in g x : occ_rep g x <-> exists r, In r (g ++ core_rules) /\ rep_in (rule_alt r) x.
Proof.
  split.
  - revert x. enough (X : (forall e, occ_elem g e -> exists r mn mx, In r (g ++ core_rules) /\ rep_in (rule_alt r) (Rep mn mx e)) /\
      (forall x, occ_rep g x -> exists r, In r (g ++ core_rules) /\ rep_in (rule_alt r) x)) by apply X.
    apply occ_min.
    + intros mn mx e _ (r & A & B). eauto.
    + intros r c x H1 H2 H3. exists r. split; auto. eapply rep_in_here; eauto.
    + intros a c x _ (r & mn & mx & A & B) H2 H3. exists r. split; auto. eapply rep_in_sub; eauto.
    + intros a c x _ (r & mn & mx & A & B) H2 H3. exists r. split; auto. eapply rep_in_sub; eauto.
  - intros (r & A & B). eapply rep_in_occ; eauto. intros. eapply occ_rep_rule; eauto.
Qed.

(** A property of the core rules and of the rules of [g]. *)
Lemma occ_split g (P : rep -> Prop) : Forall P (grammar_reps []) ->
  (forall r x, In r g -> rep_in (rule_alt r) x -> P x) -> forall x, occ_rep g x -> P x.
Proof.
  intros C G x H. apply occ_rep_in in H as (r & A & B). apply in_app_iff in A as [A|A]; [eauto|].
  rewrite Forall_forall in C. apply C. apply occ_rep_listed. apply occ_rep_in. exists r. auto.
Qed.
