(** Boolean checkers for the hypotheses of the theorems, used to exhibit concrete
    grammars that satisfy them. *)
(** The definitions here are those of statements, proofs and examples; they model no code. *)
From Coq Require Import ZArith String Ascii Bool List Lia.
From Verif Require Import Syntax Spec.
Import ListNotations.
Local Open Scope Z_scope.

(** [NoDup] decided. *)
Fixpoint nodupb (l : list string) : bool :=
  match l with [] => true | x :: l' => (negb (existsb (String.eqb x) l') && nodupb l')%bool end.

Lemma nodupb_spec l : nodupb l = true -> NoDup l.
Proof.
  induction l as [|x l IH]; cbn; intros H; constructor; apply andb_true_iff in H as [A B]; auto.
  intros I. apply negb_true_iff in A. rewrite <- not_true_iff_false in A. apply A.
  apply existsb_exists. exists x. split; auto. apply String.eqb_refl.
Qed.

(** [wf_elem] on a num-val decided. *)
Definition wf_numb (b : string) (st : status) (es : list string) : bool :=
  (forallb (fun s => match numeral b s with Some _ => true | None => false end) es &&
   match st with StatRange => Nat.eqb (length es) 2 | StatSeries => true end)%bool.

(** [wf_elem] and [wf_rep] decided. *)
Fixpoint wf_elemb (e : elem) : bool :=
  match e with
  | EGroup a | EOption a => forallb (fun c => forallb wf_repb c) a
  | ENum b st es => wf_numb b st es
  | _ => true
  end
with wf_repb (r : rep) : bool :=
  match r with Rep mn mx e => ((0 <=? mn) && (-1 <=? mx) && wf_elemb e)%bool end.

(** [wf_grammar] decided. *)
Definition wf_grammarb (g : grammar) : bool :=
  (nodupb (map (fun r => lower (rule_name r)) g) &&
   forallb (fun r => forallb (forallb wf_repb) (rule_alt r)) g)%bool.

Lemma wf_b : (forall e, wf_elemb e = true -> wf_elem e) /\ (forall r, wf_repb r = true -> wf_rep r).
Proof.
  assert (A : forall a, Forall (Forall (fun r => wf_repb r = true -> wf_rep r)) a ->
    forallb (fun c => forallb wf_repb c) a = true -> Forall (Forall wf_rep) a).
  { intros a F H. rewrite forallb_forall in H. rewrite Forall_forall in *. intros c Hc. specialize (F c Hc).
    specialize (H c Hc). rewrite forallb_forall in H. rewrite Forall_forall in *. auto. }
  apply elem_rep_ind; intros; try constructor; auto.
  - cbn in H. unfold wf_numb in H. apply andb_true_iff in H as [H1 H2]. split.
    + apply Forall_forall. rewrite forallb_forall in H1. intros x Hx. specialize (H1 x Hx).
      destruct (numeral b x); [eauto|discriminate].
    + destruct s; auto. apply Nat.eqb_eq; auto.
  - cbn [wf_repb] in H0. rewrite !andb_true_iff, !Z.leb_le in H0. lia.
  - cbn [wf_repb] in H0. rewrite !andb_true_iff, !Z.leb_le in H0. unfold inf. lia.
  - cbn [wf_repb] in H0. rewrite !andb_true_iff in H0. apply H. tauto.
Qed.

Lemma wf_grammarb_spec g : wf_grammarb g = true -> wf_grammar g.
Proof.
  unfold wf_grammarb. rewrite andb_true_iff. intros [A B]. split; [apply nodupb_spec; auto|].
  rewrite Forall_forall. rewrite forallb_forall in B. intros r Hr. specialize (B r Hr).
  rewrite forallb_forall in B. apply Forall_forall. intros c Hc. specialize (B c Hc). rewrite forallb_forall in B.
  apply Forall_forall. intros x Hx. apply wf_b. auto.
Qed.

(** Quoted strings occurring in a definition. *)
Fixpoint elem_chars (e : elem) : list (bool * list Z) :=
  match e with
  | EGroup a | EOption a => flat_map (fun c => flat_map rep_chars c) a
  | EChar s v => [(s, v)]
  | _ => []
  end
with rep_chars (r : rep) : list (bool * list Z) :=
  match r with Rep _ _ e => elem_chars e end.
(** The quoted strings of a grammar and of the core rules. *)
Definition grammar_chars (g : grammar) : list (bool * list Z) :=
  flat_map (fun r => flat_map (flat_map rep_chars) (rule_alt r)) (g ++ core_rules).
(** Equal quoted strings have equal flags, decided. *)
Definition same_flagsb (g : grammar) : bool :=
  let l := grammar_chars g in
  forallb (fun x => forallb (fun y =>
    implb (if list_eq_dec Z.eq_dec (snd x) (snd y) then true else false) (Bool.eqb (fst x) (fst y))) l) l.

Scheme occ_elem_min := Minimality for occ_elem Sort Prop
with occ_rep_min := Minimality for occ_rep Sort Prop.
Combined Scheme occ_min from occ_elem_min, occ_rep_min.

Lemma occ_chars g : (forall e, occ_elem g e -> incl (elem_chars e) (grammar_chars g)) /\
  (forall r, occ_rep g r -> incl (rep_chars r) (grammar_chars g)).
Proof.
  apply occ_min.
  - intros mn mx e _ H. exact H.
  - intros r c x H1 H2 H3 y Hy. unfold grammar_chars. apply in_flat_map. exists r. split; auto.
    apply in_flat_map. exists c. split; auto. apply in_flat_map. exists x. auto.
  - intros a c x _ IH H2 H3 y Hy. apply IH. cbn [elem_chars]. apply in_flat_map. exists c. split; auto.
    apply in_flat_map. exists x. auto.
  - intros a c x _ IH H2 H3 y Hy. apply IH. cbn [elem_chars]. apply in_flat_map. exists c. split; auto.
    apply in_flat_map. exists x. auto.
Qed.

Lemma same_flagsb_spec g : same_flagsb g = true -> same_flags g.
Proof.
  intros H s s' v A B. apply (proj1 (occ_chars g)) in A, B. unfold same_flagsb in H. rewrite forallb_forall in H.
  specialize (H (s, v) (A _ (or_introl eq_refl))). rewrite forallb_forall in H.
  specialize (H (s', v) (B _ (or_introl eq_refl))). cbn [fst snd] in H.
  destruct (list_eq_dec Z.eq_dec v v) as [_|]; [|congruence]. cbn [implb] in H. exact (eqb_prop _ _ H).
Qed.
