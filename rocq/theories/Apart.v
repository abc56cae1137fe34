(** A check that the groups, options and repetitions of a grammar are told apart by more
    than [%s].  Nothing here models code of /repo: it discharges a hypothesis on examples. *)
From Coq Require Import ZArith Arith String Ascii Bool List Lia.
From Verif Require Import Syntax Spec Num Term Printer PrintInj Check Occ.
Import ListNotations.
Local Open Scope string_scope.
Local Open Scope list_scope.
Local Open Scope Z_scope.

Lemma erase_string : (forall e, elem_string (erase_elem e) = elem_string e) /\ (forall r, rep_string (erase_rep r) = rep_string r).
Proof.
  assert (A : forall a : alternation, Forall (Forall (fun r => rep_string (erase_rep r) = rep_string r)) a ->
    map (fun c => join " " (map rep_string c)) (map (map erase_rep) a) = map (fun c => join " " (map rep_string c)) a).
  { intros a H. rewrite map_map. apply map_ext_in. intros c I. f_equal. rewrite map_map. apply map_ext_in. intros x J.
    rewrite Forall_forall in H. specialize (H c I). rewrite Forall_forall in H. auto. }
  apply elem_rep_ind; try (intros; reflexivity).
  - intros a H. cbn [erase_elem elem_string]. rewrite (A a H). reflexivity.
  - intros a H. cbn [erase_elem elem_string]. rewrite (A a H). reflexivity.
  - intros mn mx e H. cbn [erase_rep rep_string]. rewrite H. reflexivity.
Qed.

(** What is equal but for the flags, and has the same flags, is equal. *)
Lemma same_chars :
  (forall e e' l l', erase_elem e = erase_elem e' -> elem_chars e ++ l = elem_chars e' ++ l' -> e = e' /\ l = l') /\
  (forall r r' l l', erase_rep r = erase_rep r' -> rep_chars r ++ l = rep_chars r' ++ l' -> r = r' /\ l = l').
Proof.
  assert (C : forall c, Forall (fun r => forall r' l l', erase_rep r = erase_rep r' -> rep_chars r ++ l = rep_chars r' ++ l' -> r = r' /\ l = l') c ->
    forall c' l l', map erase_rep c = map erase_rep c' -> flat_map rep_chars c ++ l = flat_map rep_chars c' ++ l' -> c = c' /\ l = l').
  { induction 1 as [|r c F _ IH]; intros [|r' c'] l l' E H; try discriminate; auto.
    cbn [map] in E. injection E as E1 E2. cbn [flat_map] in H. rewrite <- !app_assoc in H.
    apply (F _ _ _ E1) in H as [-> H]. apply (IH _ _ _ E2) in H as [-> H]. auto. }
  assert (A : forall a, Forall (Forall (fun r => forall r' l l', erase_rep r = erase_rep r' -> rep_chars r ++ l = rep_chars r' ++ l' -> r = r' /\ l = l')) a ->
    forall a' l l', map (map erase_rep) a = map (map erase_rep) a' ->
    flat_map (fun c => flat_map rep_chars c) a ++ l = flat_map (fun c => flat_map rep_chars c) a' ++ l' -> a = a' /\ l = l').
  { induction 1 as [|c a F _ IH]; intros [|c' a'] l l' E H; try discriminate; auto.
    cbn [map] in E. injection E as E1 E2. cbn [flat_map] in H. rewrite <- !app_assoc in H.
    apply (C _ F _ _ _ E1) in H as [-> H]. apply (IH _ _ _ E2) in H as [-> H]. auto. }
  apply elem_rep_ind.
  - intros n [] l l' E H; try discriminate. auto.
  - intros a F [] l l' E H; try discriminate. cbn [erase_elem] in E. injection E as E. cbn [elem_chars] in H. apply (A a F _ _ _ E) in H as [-> H]. auto.
  - intros a F [] l l' E H; try discriminate. cbn [erase_elem] in E. injection E as E. cbn [elem_chars] in H. apply (A a F _ _ _ E) in H as [-> H]. auto.
  - intros s v [] l l' E H; try discriminate. cbn [elem_chars app] in H. injection H as -> -> H. auto.
  - intros b s v [] l l' E H; try discriminate. cbn [erase_elem] in E. auto.
  - intros v [] l l' E H; try discriminate. cbn [erase_elem] in E. auto.
  - intros mn mx e IH [mn' mx' e'] l l' E H. cbn [erase_rep] in E. injection E as -> -> E. cbn [rep_chars] in H. apply (IH _ _ _ E) in H as [-> H]. auto.
Qed.

(** Equal lists of quoted strings with flags. *)
Definition chars_dec : forall a b : list (bool * list Z), {a = b} + {a <> b} :=
  list_eq_dec (fun x y : bool * list Z =>
    match Bool.bool_dec (fst x) (fst y), list_eq_dec Z.eq_dec (snd x) (snd y) with
    | left E, left F => left (injective_projections x y E F)
    | right N, _ => right (fun e => N (f_equal fst e))
    | _, right N => right (fun e => N (f_equal snd e))
    end).
(** Groups and options. *)
Definition compound (e : elem) : bool := match e with EGroup _ | EOption _ => true | _ => false end.
(** The check. *)
Definition told_apartb (g : grammar) : bool :=
  let l := grammar_reps g in
  forallb (fun r => forallb (fun r' =>
    implb (compound (rep_elem r) && String.eqb (elem_string (rep_elem r)) (elem_string (rep_elem r')))
      (if chars_dec (rep_chars r) (rep_chars r') then true else false) &&
    implb (negb ((rep_min r =? 1) && (rep_max r =? 1)) && String.eqb (rep_string r) (rep_string r'))
      (if chars_dec (rep_chars r) (rep_chars r') then true else false))%bool l) l.

Theorem told_apartb_spec g : told_apartb g = true -> told_apart g.
Proof.
  intros H. unfold told_apartb in H. rewrite forallb_forall in H.
  assert (P : forall r r', occ_rep g r -> occ_rep g r' -> (compound (rep_elem r) = true -> elem_string (rep_elem r) = elem_string (rep_elem r') -> rep_chars r = rep_chars r') /\
    (counted r -> rep_string r = rep_string r' -> rep_chars r = rep_chars r')).
  { intros r r' O O'. apply occ_rep_listed in O, O'. specialize (H r O). rewrite forallb_forall in H. specialize (H r' O').
    apply andb_true_iff in H as [H1 H2]. split.
    - intros K E. rewrite K, E, String.eqb_refl in H1. cbn [andb implb] in H1. destruct (chars_dec _ _); [auto|discriminate].
    - intros K E. rewrite E, String.eqb_refl in H2. assert (Q : ((rep_min r =? 1) && (rep_max r =? 1))%bool = false).
      { apply not_true_is_false. intros T. apply K. apply andb_true_iff in T as [T1 T2]. apply Z.eqb_eq in T1, T2. auto. }
      rewrite Q in H2. cbn [negb andb implb] in H2. destruct (chars_dec _ _); [auto|discriminate]. }
  assert (G : forall e e', occ_elem g e -> occ_elem g e' -> compound e = true -> erase_elem e = erase_elem e' -> e = e').
  { intros e e' O O' K E. inversion O as [mn mx ? R]; subst. inversion O' as [mn' mx' ? R']; subst.
    destruct (P _ _ R R') as [Q _]. cbn [rep_elem rep_chars] in Q.
    destruct (proj1 same_chars e e' [] [] E) as [X _]; auto. rewrite !app_nil_r. apply Q; auto.
    rewrite <- (proj1 erase_string e), E. apply erase_string. }
  split; [|split].
  - intros a a' O O' E. apply (G _ _ O O' eq_refl) in E. congruence.
  - intros a a' O O' E. apply (G _ _ O O' eq_refl) in E. congruence.
  - intros r r' O O' K E. destruct (proj2 same_chars r r' [] [] E) as [X _]; auto. rewrite !app_nil_r. apply (P _ _ O O'); auto.
    rewrite <- (proj2 erase_string r), E. apply erase_string.
Qed.
