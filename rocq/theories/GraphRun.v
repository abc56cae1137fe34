(** Runs through a heap of nodes and how they change when edges are added.
    Its definitions are means of proof and model no code. *)
From Coq Require Import ZArith Arith String Bool List Lia.
From Verif Require Import Syntax Spec RegexSpec Graph.
Import ListNotations.
Local Open Scope nat_scope.
Local Open Scope list_scope.

Definition label (h : heap) (a : nat) : option elem := option_map n_elem (nth_error h a).

Lemma update_nth {A} (l : list A) k f j : nth_error (update l k f) j =
  if Nat.eqb j k then option_map f (nth_error l j) else nth_error l j.
Proof.
  revert k j. induction l as [|x l IH]; intros [|k] [|j]; cbn; try reflexivity.
  - destruct (Nat.eqb j k); reflexivity.
  - apply IH.
Qed.
Lemma update_length {A} (l : list A) k f : length (update l k f) = length l.
Proof. revert k. induction l as [|x l IH]; intros [|k]; cbn; auto. Qed.

Lemma set_nexts_nexts h a l j : nexts (set_nexts h a l) j = if Nat.eqb j a then (if j <? length h then l else []) else nexts h j.
Proof.
  unfold nexts, set_nexts. rewrite update_nth. destruct (Nat.eqb_spec j a) as [->|N]; [|reflexivity].
  destruct (Nat.ltb_spec a (length h)) as [L|L].
  - destruct (nth_error h a) eqn:E; [reflexivity|]. apply nth_error_None in E. lia.
  - apply nth_error_None in L. rewrite L. reflexivity.
Qed.
Lemma set_nexts_label h a l j : label (set_nexts h a l) j = label h j.
Proof.
  unfold label, set_nexts. rewrite update_nth. destruct (Nat.eqb j a); [|reflexivity].
  destruct (nth_error h j); reflexivity.
Qed.
Lemma set_nexts_length h a l : length (set_nexts h a l) = length h.
Proof. apply update_length. Qed.

(** What a push does. *)
Definition adds (push : heap -> nat -> nat -> heap) : Prop :=
  forall h a b, length (push h a b) = length h /\ (forall j, label (push h a b) j = label h j) /\
    (forall j, j <> a -> nth_error (push h a b) j = nth_error h j) /\
    (forall x y, In y (nexts (push h a b) x) <-> In y (nexts h x) \/ (x = a /\ y = b /\ a < length h)).
Lemma adds_next : adds push_next.
Proof.
  intros h a b. unfold push_next. split; [apply set_nexts_length|]. split; [apply set_nexts_label|]. split.
  - intros j N. unfold set_nexts. rewrite update_nth. destruct (Nat.eqb_spec j a); [contradiction|reflexivity].
  - intros x y. rewrite set_nexts_nexts. destruct (Nat.eqb_spec x a) as [->|N].
    + destruct (Nat.ltb_spec a (length h)) as [L|L].
      * rewrite in_app_iff. cbn [In]. intuition.
      * unfold nexts. apply nth_error_None in L as L'. rewrite L'. cbn [In]. intuition; lia.
    + intuition.
Qed.
Lemma adds_new : adds push_new.
Proof.
  intros h a b. unfold push_new. destruct (existsb (Nat.eqb b) (nexts h a)) eqn:E; [|apply adds_next].
  apply existsb_exists in E as (z & I & Q). apply Nat.eqb_eq in Q as <-.
  split; [reflexivity|]. split; [reflexivity|]. split; [reflexivity|]. intros x y. split; [auto|]. intros [H|(-> & -> & _)]; assumption.
Qed.

Lemma link_spec push h A B : adds push ->
  length (link push h A B) = length h /\ (forall j, label (link push h A B) j = label h j) /\
  (forall j, ~ In (Some j) A -> nth_error (link push h A B) j = nth_error h j) /\
  (forall x y, In y (nexts (link push h A B) x) <-> In y (nexts h x) \/ (In (Some x) A /\ In (Some y) B /\ x < length h)).
Proof.
  intros P.
  assert (Inner : forall a B h, let h' := fold_left (fun h i => match i with None => h | Some b => push h a b end) B h in
    length h' = length h /\ (forall j, label h' j = label h j) /\ (forall j, j <> a -> nth_error h' j = nth_error h j) /\
    (forall x y, In y (nexts h' x) <-> In y (nexts h x) \/ (x = a /\ In (Some y) B /\ a < length h))).
  { clear h A B. intros a B. induction B as [|[b|] B IH]; intros h; cbn [fold_left]; cbn zeta.
    - split; [reflexivity|]. split; [reflexivity|]. split; [reflexivity|]. intros x y. cbn [In]. intuition.
    - destruct (IH (push h a b)) as (I1 & I2 & I3 & I4). destruct (P h a b) as (P1 & P2 & P3 & P4).
      cbn zeta in *. split; [congruence|]. split; [intros j; rewrite I2; apply P2|].
      split; [intros j N; rewrite I3 by exact N; apply P3; exact N|].
      intros x y. rewrite I4, P4, P1. cbn [In]. split.
      + intros [[H|(-> & -> & H)]|(-> & H1 & H2)]; auto.
      + intros [H|(-> & [H1|H1] & H2)]; auto. injection H1 as ->. auto.
    - destruct (IH h) as (I1 & I2 & I3 & I4). cbn zeta in *. split; [exact I1|]. split; [exact I2|]. split; [exact I3|].
      intros x y. rewrite I4. cbn [In]. split.
      + intros [H|(-> & H1 & H2)]; auto.
      + intros [H|(-> & [H1|H1] & H2)]; auto. discriminate. }
  unfold link. revert h. induction A as [|[a|] A IH]; intros h; cbn [fold_left].
  - split; [reflexivity|]. split; [reflexivity|]. split; [reflexivity|]. intros x y. cbn [In]. intuition.
  - destruct (Inner a B h) as (I1 & I2 & I3 & I4). cbn zeta in *. set (h1 := fold_left _ B h) in *.
    destruct (IH h1) as (J1 & J2 & J3 & J4). split; [congruence|]. split; [intros j; rewrite J2; apply I2|].
    split. { intros j N. rewrite J3 by (intros K; apply N; right; exact K). apply I3. intros ->. apply N. left. reflexivity. }
    intros x y. rewrite J4, I4, I1. cbn [In]. split.
    + intros [[H|(-> & H1 & H2)]|(H1 & H2 & H3)]; auto.
    + intros [H|([H1|H1] & H2 & H3)]; auto. injection H1 as ->. auto.
  - destruct (IH h) as (J1 & J2 & J3 & J4). split; [exact J1|]. split; [exact J2|].
    split. { intros j N. apply J3. intros K. apply N. right. exact K. }
    intros x y. rewrite J4. cbn [In]. split.
    + intros [H|(H1 & H2 & H3)]; auto.
    + intros [H|([H1|H1] & H2 & H3)]; auto. discriminate.
Qed.

(** ** Regions *)
Definition closed (h : heap) (R : list nat) : Prop := forall a b, In a R -> In b (nexts h a) -> In b R.
Definition below (h : heap) (R : list nat) : Prop := forall a, In a R -> a < length h.
Definition agree (R : list nat) (h h' : heap) : Prop := forall a, In a R -> nth_error h' a = nth_error h a.
Lemma agree_nexts R h h' a : agree R h h' -> In a R -> nexts h' a = nexts h a.
Proof. intros A I. unfold nexts. rewrite (A a I). reflexivity. Qed.
Lemma agree_label R h h' a : agree R h h' -> In a R -> label h' a = label h a.
Proof. intros A I. unfold label. rewrite (A a I). reflexivity. Qed.
Lemma agree_closed R h h' : agree R h h' -> closed h R -> closed h' R.
Proof. intros A C a b I K. rewrite (agree_nexts R h h' a A I) in K. eauto. Qed.

Lemma somes_in l a : In a (somes l) <-> In (Some a) l.
Proof.
  unfold somes. rewrite in_flat_map. split.
  - intros ([x|] & I & K); [destruct K as [->|[]]; exact I|destruct K].
  - intros I. exists (Some a). split; [exact I|left; reflexivity].
Qed.

(** ** Runs *)
Section Runs.
  Variable W : elem -> list Z -> Prop.

  Definition nword (h : heap) (a : nat) (w : list Z) : Prop := exists e, label h a = Some e /\ W e w.
  Inductive run (h : heap) : nat -> nat -> list Z -> Prop :=
  | run_one a w : nword h a w -> run h a a w
  | run_cons a b c w1 w2 : nword h a w1 -> In b (nexts h a) -> run h b c w2 -> run h a c (w1 ++ w2).
  (** Words of the runs from a list of points to a node. *)
  Definition upto (h : heap) (I : points) (b : nat) : clang := fun w => exists a, In (Some a) I /\ run h a b w.
  (** Words of the runs between two lists of points. *)
  Definition between (h : heap) (I O : points) : clang := fun w => exists b, In (Some b) O /\ upto h I b w.
  (** The language of a graph. *)
  Definition glang (h : heap) (I O : points) : clang := fun w => (In None I /\ w = []) \/ between h I O w.

  Lemma run_closed h R a b w : closed h R -> run h a b w -> In a R -> In b R.
  Proof. intros C H. induction H; eauto. Qed.
  Lemma run_agree R h h' a b w : closed h R -> agree R h h' -> In a R -> (run h a b w <-> run h' a b w).
  Proof.
    intros C A I. split; intros H; revert I; induction H as [a w N|a b c w1 w2 N E _ IH]; intros I.
    - apply run_one. destruct N as (e & N1 & N2). exists e. rewrite (agree_label R h h' a A I). auto.
    - apply (run_cons _ a b). + destruct N as (e & N1 & N2). exists e. rewrite (agree_label R h h' a A I). auto.
      + rewrite (agree_nexts R h h' a A I). exact E.
      + apply IH. eauto.
    - apply run_one. destruct N as (e & N1 & N2). exists e. rewrite <- (agree_label R h h' a A I). auto.
    - rewrite (agree_nexts R h h' a A I) in E. apply (run_cons _ a b).
      + destruct N as (e & N1 & N2). exists e. rewrite <- (agree_label R h h' a A I). auto.
      + exact E.
      + apply IH. eauto.
  Qed.
  Lemma between_agree R h h' I O w : closed h R -> agree R h h' -> (forall a, In (Some a) I -> In a R) ->
    (between h I O w <-> between h' I O w).
  Proof.
    intros C A S. unfold between, upto. split; intros (b & Ib & a & Ia & H); exists b; (split; [exact Ib|]); exists a; (split; [exact Ia|]);
      apply (run_agree R h h' a b w C A (S a Ia)); exact H.
  Qed.
  Lemma glang_agree R h h' I O w : closed h R -> agree R h h' -> (forall a, In (Some a) I -> In a R) ->
    (glang h I O w <-> glang h' I O w).
  Proof. intros C A S. unfold glang. rewrite (between_agree R h h' I O w C A S). reflexivity. Qed.

  Lemma run_join h a x y b w1 w2 : run h a x w1 -> In y (nexts h x) -> run h y b w2 -> run h a b (w1 ++ w2).
  Proof.
    intros H. revert y b w2. induction H as [a w N|a c d u v N E _ IH]; intros y b w2 Ey K.
    - eapply run_cons; eauto.
    - rewrite <- app_assoc. eapply run_cons; eauto.
  Qed.

  (** Adding the edges [A x B]. *)
  Section Link.
    Variables (h h' : heap) (A B : points).
    Hypothesis Lab : forall j, label h' j = label h j.
    Hypothesis Edg : forall x y, In y (nexts h' x) <-> In y (nexts h x) \/ (In (Some x) A /\ In (Some y) B).
    Lemma nword_link a w : nword h' a w <-> nword h a w.
    Proof. unfold nword. setoid_rewrite Lab. reflexivity. Qed.
    Lemma run_link_mono a b w : run h a b w -> run h' a b w.
    Proof.
      induction 1 as [a w N|a b c w1 w2 N E _ IH]; [apply run_one, nword_link, N|].
      eapply run_cons; [apply nword_link, N|apply Edg; left; exact E|exact IH].
    Qed.
    Inductive laps (b : nat) : list Z -> Prop :=
    | laps_one y w : In (Some y) B -> run h y b w -> laps b w
    | laps_more y x w1 w2 : In (Some y) B -> run h y x w1 -> In (Some x) A -> laps b w2 -> laps b (w1 ++ w2).
    Lemma run_link_split a b w : run h' a b w ->
      run h a b w \/ exists x w1 w2, In (Some x) A /\ run h a x w1 /\ laps b w2 /\ w = w1 ++ w2.
    Proof.
      induction 1 as [a w N|a b c w1 w2 N E _ IH]; [left; apply run_one, nword_link, N|].
      apply nword_link in N. apply Edg in E as [E|[Ia Ib]].
      - destruct IH as [IH|(x & u & v & Ix & R & L & ->)].
        + left. eapply run_cons; eauto.
        + right. exists x, (w1 ++ u), v. split; [exact Ix|]. split; [eapply run_cons; eauto|]. split; [exact L|apply app_assoc].
      - right. exists a, w1, w2. split; [exact Ia|]. split; [apply run_one, N|]. split; [|reflexivity].
        destruct IH as [IH|(x & u & v & Ix & R & L & ->)]; [eapply laps_one; eauto|eapply laps_more; eauto].
    Qed.
    Lemma laps_run b w : laps b w -> exists y, In (Some y) B /\ run h' y b w.
    Proof.
      induction 1 as [y w Iy R|y x w1 w2 Iy R Ix _ (z & Iz & IH)]; exists y; (split; [exact Iy|]).
      - apply run_link_mono, R.
      - eapply run_join; [apply run_link_mono, R|apply Edg; right; split; eassumption|exact IH].
    Qed.
    Lemma run_link a b w : run h' a b w <->
      run h a b w \/ exists x w1 w2, In (Some x) A /\ run h a x w1 /\ laps b w2 /\ w = w1 ++ w2.
    Proof.
      split; [apply run_link_split|]. intros [H|(x & u & v & Ix & R & L & ->)]; [apply run_link_mono, H|].
      apply laps_run in L as (y & Iy & L). eapply run_join; [apply run_link_mono, R|apply Edg; right; split; eassumption|exact L].
    Qed.

    (** From one region to another. *)
    Section Apart.
      Variables R1 R2 : list nat.
      Hypothesis C1 : closed h R1.
      Hypothesis C2 : closed h R2.
      Hypothesis D : forall a, In a R1 -> ~ In a R2.
      Hypothesis SA : forall a, In (Some a) A -> In a R1.
      Hypothesis SB : forall b, In (Some b) B -> In b R2.
      Lemma laps_apart b w : laps b w <-> exists y, In (Some y) B /\ run h y b w.
      Proof.
        split.
        - intros [y ? Iy R|y x w1 w2 Iy R Ix _]; [eauto|]. exfalso. apply (D x); [auto|]. eapply run_closed; [exact C2|exact R|auto].
        - intros (y & Iy & R). eapply laps_one; eauto.
      Qed.
      Lemma run_right a b w : In a R2 -> (run h' a b w <-> run h a b w).
      Proof.
        intros I. rewrite run_link. split; [|auto]. intros [H|(x & u & v & Ix & R & _)]; [exact H|].
        exfalso. apply (D x); [auto|]. eapply run_closed; [exact C2|exact R|exact I].
      Qed.
      Lemma run_left a b w : In b R1 -> (run h' a b w <-> run h a b w).
      Proof.
        intros I. rewrite run_link. split; [|auto]. intros [H|(x & u & v & Ix & R & L & _)]; [exact H|].
        exfalso. apply laps_apart in L as (y & Iy & L). apply (D b I). eapply run_closed; [exact C2|exact L|auto].
      Qed.
      Lemma run_across a b w : In a R1 -> In b R2 -> (run h' a b w <->
        exists x y w1 w2, In (Some x) A /\ In (Some y) B /\ run h a x w1 /\ run h y b w2 /\ w = w1 ++ w2).
      Proof.
        intros Ia Ib. rewrite run_link. split.
        - intros [H|(x & u & v & Ix & R & L & ->)].
          + exfalso. apply (D b); [|exact Ib]. eapply run_closed; [exact C1|exact H|exact Ia].
          + apply laps_apart in L as (y & Iy & L). exists x, y, u, v. auto.
        - intros (x & y & u & v & Ix & Iy & R & L & ->). right. exists x, u, v. split; [exact Ix|]. split; [exact R|]. split; [|reflexivity].
          apply laps_apart. eauto.
      Qed.
      Lemma closed_apart : closed h' (R1 ++ R2).
      Proof.
        intros a b Ia E. apply in_or_app. apply Edg in E as [E|[_ Ib]]; [|right; auto].
        apply in_app_or in Ia as [Ia|Ia]; [left|right]; eauto.
      Qed.
      Lemma upto_left I b w : In b R1 -> (upto h' I b w <-> upto h I b w).
      Proof. intros Ib. unfold upto. split; intros (a & Ia & H); exists a; (split; [exact Ia|]); apply (run_left a b w Ib); exact H. Qed.
      (** Entry points in both regions. *)
      Lemma upto_right I b w : (forall a, In (Some a) I -> In a R1 \/ In a R2) -> In b R2 ->
        (upto h' I b w <-> upto h I b w \/ l_cat (between h I A) (upto h B b) w).
      Proof.
        intros S Ib. unfold upto, l_cat, between. split.
        - intros (a & Ia & H). apply run_link in H as [H|(x & u & v & Ix & R & L & ->)]; [left; eauto|].
          apply laps_apart in L as (y & Iy & L). right. exists u, v. split; [reflexivity|]. split; [|eauto]. exists x. split; [exact Ix|]. unfold upto. eauto.
        - intros [(a & Ia & H)|(u & v & -> & (x & Ix & a & Ia & H) & y & Iy & K)]; exists a; (split; [exact Ia|]); apply run_link; [left; exact H|].
          right. exists x, u, v. split; [exact Ix|]. split; [exact H|]. split; [|reflexivity]. apply laps_apart. eauto.
      Qed.
    End Apart.
  End Link.
End Runs.
