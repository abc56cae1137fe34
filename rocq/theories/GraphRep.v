(** Graphs in a region of the heap: concatenation, chains of clones, repetitions.
    Its definitions are means of proof and model no code. *)
From Coq Require Import ZArith Arith String Bool List Lia.
From Verif Require Import Syntax Spec Tape RegexSpec Graph GraphRun GraphClone.
Import ListNotations.
Local Open Scope nat_scope.
Local Open Scope list_scope.

(** ** Lists of points *)
Lemma eq_point_spec a b : eq_point a b = true <-> a = b.
Proof.
  destruct a as [x|], b as [y|]; cbn [eq_point]; try (split; [discriminate|congruence]); [|tauto].
  rewrite Nat.eqb_eq. split; congruence.
Qed.
Lemma append_nodes_in l n p : In p (append_nodes l n) <-> In p l \/ In p n.
Proof.
  unfold append_nodes. revert l. induction n as [|x n IH]; intros l; cbn [fold_left]; [cbn; tauto|]. rewrite IH.
  destruct (existsb (eq_point x) l) eqn:E.
  - apply existsb_exists in E as (y & I & Q). apply eq_point_spec in Q as <-. cbn [In]. intuition. subst. auto.
  - rewrite in_app_iff. cbn [In]. tauto.
Qed.
Lemma append_all_in (tgs : list (points * points)) l p :
  In p (fold_left (fun l tg => append_nodes l (snd tg)) tgs l) <-> In p l \/ exists t, In t tgs /\ In p (snd t).
Proof.
  revert l. induction tgs as [|t tgs IH]; intros l; cbn [fold_left].
  - split; [auto|]. intros [H|(t & [] & _)]; exact H.
  - rewrite IH, append_nodes_in. split.
    + intros [[H|H]|(u & I & H)]; [auto|right; exists t; split; [left; reflexivity|exact H]|right; exists u; split; [right; exact I|exact H]].
    + intros [H|(u & [<-|I] & H)]; [auto|auto|right; eauto].
Qed.
Lemma has_empty_spec l : has_empty l = true <-> In None l.
Proof.
  unfold has_empty. rewrite existsb_exists. split.
  - intros ([x|] & I & E); [discriminate|exact I].
  - intros I. exists None. auto.
Qed.
Lemma has_empty_no l : has_empty l = false <-> ~ In None l.
Proof. rewrite <- has_empty_spec. destruct (has_empty l); intuition congruence. Qed.
Lemma drop_none_some l a : In (Some a) (filter (fun p => negb (is_none p)) l) <-> In (Some a) l.
Proof. rewrite filter_In. cbn. tauto. Qed.
Lemma drop_none_none l : ~ In None (filter (fun p => negb (is_none p)) l).
Proof. rewrite filter_In. cbn. intuition discriminate. Qed.

(** ** Powers of a language *)
Lemma l_cat_ext L L' M M' : leq L L' -> leq M M' -> leq (l_cat L M) (l_cat L' M').
Proof. intros A B w. unfold l_cat. split; intros (u & v & E & H & K); exists u, v; (split; [exact E|]); split; try apply A; try apply B; assumption. Qed.
Lemma l_pow_ext L L' k : leq L L' -> leq (l_pow L k) (l_pow L' k).
Proof. intros A. induction k as [|k IH]; [intros w; reflexivity|]. apply l_cat_ext; assumption. Qed.
Lemma l_pow_app L a b w : l_pow L (a + b) w <-> l_cat (l_pow L a) (l_pow L b) w.
Proof.
  revert w. induction a as [|a IH]; intros w; cbn [plus l_pow].
  - split; [intros H; exists [], w; split; [reflexivity|]; split; [reflexivity|exact H]|]. intros (u & v & -> & -> & H). exact H.
  - split.
    + intros (u & v & -> & H & K). apply IH in K as (x & y & -> & K1 & K2). exists (u ++ x), y. split; [apply app_assoc|]. split; [|exact K2].
      exists u, x. auto.
    + intros (u & v & -> & (x & y & -> & K1 & K2) & H). exists x, (y ++ v). split; [symmetry; apply app_assoc|]. split; [exact K1|]. apply IH. exists y, v. auto.
Qed.
Lemma l_pow_one L w : l_pow L 1 w <-> L w.
Proof.
  cbn. unfold l_cat, l_eps. split; [intros (u & v & -> & H & ->); rewrite app_nil_r; exact H|]. intros H. exists w, []. rewrite app_nil_r. auto.
Qed.
(** With the empty word added. *)
Definition opt (nu : bool) (N : clang) : clang := fun w => (nu = true /\ w = []) \/ N w.
Lemma pow_opt_false N k w : l_pow (opt false N) k w <-> l_pow N k w.
Proof. apply l_pow_ext. intros v. unfold opt. intuition discriminate. Qed.
Lemma pow_opt_true N k w : l_pow (opt true N) k w <-> exists m, m <= k /\ l_pow N m w.
Proof.
  revert w. induction k as [|k IH]; intros w.
  - split; [intros H; exists 0; auto|]. intros (m & L & H). assert (m = 0) as -> by lia. exact H.
  - split.
    + intros (u & v & -> & [(_ & ->)|H] & K); apply IH in K as (m & L & K).
      * exists m. split; [lia|exact K].
      * exists (S m). split; [lia|]. exists u, v. auto.
    + intros (m & L & H). destruct m as [|m].
      * exists [], w. split; [reflexivity|]. split; [left; auto|]. apply IH. exists 0. split; [lia|exact H].
      * destruct H as (u & v & -> & H & K). exists u, v. split; [reflexivity|]. split; [right; exact H|]. apply IH. exists m. split; [lia|exact K].
Qed.
(** The number of copies a run through [k] copies uses. *)
Definition cnt (nu : bool) (N : clang) (k : nat) : clang := fun w =>
  if nu then exists m, 1 <= m <= k /\ l_pow N m w else l_pow N k w.
Lemma cnt_ext nu N N' k : leq N N' -> leq (cnt nu N k) (cnt nu N' k).
Proof.
  intros E w. unfold cnt. destruct nu; [|apply l_pow_ext, E]. split; intros (m & L & H); exists m; (split; [exact L|]); eapply l_pow_ext; eauto.
  intros v. symmetry. apply E.
Qed.
(** Repetitions. *)
Definition reps (L : clang) (mn mx : Z) : clang := fun w =>
  exists k, (mn <= Z.of_nat k)%Z /\ (mx = inf \/ (Z.of_nat k <= mx)%Z) /\ l_pow L k w.

Section Graphs.
  Variable W : elem -> list Z -> Prop.
  Notation run := (run W). Notation upto := (upto W). Notation between := (between W). Notation glang := (glang W).

  (** A graph of language [L] in region [R] of the heap, above [lo]. *)
  Record gr (lo : nat) (h : heap) (R : list nat) (I O : points) (L : clang) : Prop := {
    gr_in : forall a, In a R -> lo <= a < length h;
    gr_nodup : NoDup R;
    gr_closed : closed h R;
    gr_i : forall a, In (Some a) I -> In a R;
    gr_o : forall a, In (Some a) O -> In a R;
    gr_none : In None I -> In None O;
    gr_lang : leq (glang h I O) L }.
  Lemma gr_agree lo h h' R I O L : gr lo h R I O L -> agree R h h' -> length h <= length h' -> gr lo h' R I O L.
  Proof.
    intros [A1 A2 A3 A4 A5 A6 A7] A Le. split; auto.
    - intros a Ia. specialize (A1 a Ia). lia.
    - eapply agree_closed; eassumption.
    - intros w. rewrite <- (glang_agree W R h h' I O w A3 A A4). apply A7.
  Qed.
  Lemma gr_low lo lo' h R I O L : lo' <= lo -> gr lo h R I O L -> gr lo' h R I O L.
  Proof. intros Le [A1 A2 A3 A4 A5 A6 A7]. split; auto. intros a Ia. specialize (A1 a Ia). lia. Qed.
  Lemma gr_ext lo h R I O L L' : leq L L' -> gr lo h R I O L -> gr lo h R I O L'.
  Proof. intros E [A1 A2 A3 A4 A5 A6 A7]. split; auto. intros w. rewrite <- (E w). apply A7. Qed.
  Lemma gr_opt lo h R I O L : gr lo h R I O L -> leq L (opt (has_empty I) (between h I O)).
  Proof.
    intros G w. rewrite <- (gr_lang _ _ _ _ _ _ G w). unfold GraphRun.glang, opt. rewrite has_empty_spec. reflexivity.
  Qed.
  Lemma nodup_app (R1 R2 : list nat) : NoDup R1 -> NoDup R2 -> (forall a, In a R1 -> ~ In a R2) -> NoDup (R1 ++ R2).
  Proof.
    intros A B D. induction A as [|x R1 N A IH]; cbn [app]; [exact B|]. constructor.
    - rewrite in_app_iff. intros [K|K]; [contradiction|]. apply (D x); [left; reflexivity|exact K].
    - apply IH. intros a I. apply D. right. exact I.
  Qed.

  (** Linking as seen by runs. *)
  Lemma link_edges push h A B R : adds push -> (forall a, In (Some a) A -> In a R) -> below h R ->
    forall x y, In y (nexts (link push h A B) x) <-> In y (nexts h x) \/ (In (Some x) A /\ In (Some y) B).
  Proof.
    intros P SA Be x y. destruct (link_spec push h A B P) as (_ & _ & _ & E). rewrite E. split; [tauto|].
    intros [H|[H1 H2]]; [auto|]. right. split; [exact H1|]. split; [exact H2|]. apply Be, SA, H1.
  Qed.

  (** ** Concatenation *)
  Lemma concat_points I1 O1 I2 O2 h : let '(ci, co, h') := concat_graphs I1 O1 I2 O2 h in
    h' = link push_next h O1 I2 /\
    (forall a, In (Some a) ci <-> In (Some a) I1 \/ (In None I1 /\ In (Some a) I2)) /\
    (In None ci <-> In None I1 /\ In None I2) /\
    (forall b, In (Some b) co <-> (In None I2 /\ In (Some b) O1) \/ In (Some b) O2) /\
    (In None co <-> In None I2 /\ In None O1).
  Proof.
    unfold concat_graphs. split; [reflexivity|]. destruct (has_empty I1) eqn:E1; destruct (has_empty I2) eqn:E2;
      repeat match goal with
      | H : has_empty _ = true |- _ => apply has_empty_spec in H
      | H : has_empty _ = false |- _ => apply has_empty_no in H
      end;
      (split; [intros a; rewrite ?in_app_iff, ?drop_none_some; tauto|]);
      (split; [rewrite ?in_app_iff; pose proof (drop_none_none I1); tauto|]);
      (split; [intros a; rewrite ?in_app_iff, ?drop_none_some; cbn [In]; tauto|]);
      rewrite ?in_app_iff; cbn [In]; pose proof (drop_none_none O2); tauto.
  Qed.
  Lemma upto_none h R1 R2 I b w : closed h R2 -> (forall a, In a R1 -> ~ In a R2) -> (forall a, In (Some a) I -> In a R2) -> In b R1 -> ~ upto h I b w.
  Proof. intros C D S Ib (a & Ia & H). apply (D b Ib). eapply run_closed; [exact C|exact H|auto]. Qed.

  Lemma concat_gr lo h R1 R2 I1 O1 I2 O2 L1 L2 : gr lo h R1 I1 O1 L1 -> gr lo h R2 I2 O2 L2 -> (forall a, In a R1 -> ~ In a R2) ->
    let '(ci, co, h') := concat_graphs I1 O1 I2 O2 h in
    gr lo h' (R1 ++ R2) ci co (l_cat L1 L2) /\ length h' = length h /\ (forall a, ~ In a R1 -> nth_error h' a = nth_error h a).
  Proof.
    intros G1 G2 D. pose proof (concat_points I1 O1 I2 O2 h) as CP. destruct (concat_graphs I1 O1 I2 O2 h) as [[I O] h'].
    destruct CP as (-> & PI & PIn & PO & POn). destruct G1 as [A1 A2 A3 A4 A5 A6 A7]. destruct G2 as [B1 B2 B3 B4 B5 B6 B7].
    destruct (link_spec push_next h O1 I2 adds_next) as (Ln & Lab & Oth & _).
    assert (Edg := link_edges push_next h O1 I2 R1 adds_next A5 (fun a Ia => proj2 (A1 a Ia))).
    set (h' := link push_next h O1 I2) in *.
    split; [|split; [exact Ln|intros a Na; apply Oth; intros K; apply Na, A5, K]].
    split.
    - intros a Ia. rewrite Ln. apply in_app_or in Ia as [Ia|Ia]; auto.
    - apply nodup_app; assumption.
    - exact (closed_apart h h' O1 I2 Edg R1 R2 A3 B3 B4).
    - intros a Ia. apply in_or_app. apply PI in Ia as [Ia|[_ Ia]]; auto.
    - intros a Ia. apply in_or_app. apply PO in Ia as [[_ Ia]|Ia]; auto.
    - rewrite PIn, POn. tauto.
    - assert (D' : forall a, In a R2 -> ~ In a R1) by (intros a X Y; exact (D a Y X)).
      assert (S : forall a, In (Some a) I -> In a R1 \/ In a R2) by (intros a Ia; apply PI in Ia as [Ia|[_ Ia]]; auto).
      assert (U1 : forall b w, In b R1 -> (upto h I b w <-> upto h I1 b w)).
      { intros b w Ib. split; [|intros (a & Ia & H); exists a; split; [apply PI; auto|exact H]].
        intros (a & Ia & H). apply PI in Ia as [Ia|[_ Ia]]; [exists a; auto|]. exfalso. apply (D b Ib). eapply run_closed; [exact B3|exact H|auto]. }
      assert (U2 : forall b w, In b R2 -> (upto h I b w <-> In None I1 /\ upto h I2 b w)).
      { intros b w Ib. split.
        - intros (a & Ia & H). apply PI in Ia as [Ia|[N Ia]]; [|split; [exact N|exists a; auto]].
          exfalso. apply (D' b Ib). eapply run_closed; [exact A3|exact H|auto].
        - intros (N & a & Ia & H). exists a. split; [apply PI; auto|exact H]. }
      assert (V : forall w, between h' I O w <-> (In None I2 /\ between h I1 O1 w) \/ (In None I1 /\ between h I2 O2 w) \/ l_cat (between h I1 O1) (between h I2 O2) w).
      { intros w. unfold GraphRun.between at 1. split.
        - intros (b & Ib & H). apply PO in Ib as [[N Ib]|Ib].
          + left. split; [exact N|]. exists b. split; [exact Ib|]. apply U1; [auto|].
            apply (upto_left W h h' O1 I2 Lab Edg R1 R2 B3 D A5 B4 I b w (A5 b Ib)). exact H.
          + right. apply (upto_right W h h' O1 I2 Lab Edg R1 R2 B3 D A5 B4 I b w S (B5 b Ib)) in H as [H|(u & v & -> & (x & Ix & H) & K)].
            * left. apply U2 in H as [N H]; [|auto]. split; [exact N|]. exists b. auto.
            * right. exists u, v. split; [reflexivity|]. split; [exists x; split; [exact Ix|apply U1; auto]|exists b; auto].
        - intros [(N & b & Ib & H)|[(N & b & Ib & H)|(u & v & -> & (x & Ix & H) & b & Ib & K)]]; exists b; (split; [apply PO; auto|]).
          + apply (upto_left W h h' O1 I2 Lab Edg R1 R2 B3 D A5 B4 I b w (A5 b Ib)). apply U1; auto.
          + apply (upto_right W h h' O1 I2 Lab Edg R1 R2 B3 D A5 B4 I b w S (B5 b Ib)). left. apply U2; auto.
          + apply (upto_right W h h' O1 I2 Lab Edg R1 R2 B3 D A5 B4 I b _ S (B5 b Ib)). right. exists u, v. split; [reflexivity|].
            split; [exists x; split; [exact Ix|apply U1; auto]|exact K]. }
      intros w. rewrite <- (l_cat_ext _ _ _ _ A7 B7 w). unfold GraphRun.glang at 1. rewrite V, PIn. unfold l_cat, GraphRun.glang. split.
      + intros [((N1 & N2) & ->)|[(N & H)|[(N & H)|(u & v & -> & H & K)]]].
        * exists [], []. auto.
        * exists w, []. rewrite app_nil_r. auto 6.
        * exists [], w. auto 6.
        * exists u, v. auto 6.
      + intros (u & v & -> & [(N1 & ->)|H] & [(N2 & ->)|K]); cbn [app]; [auto|auto 6|rewrite app_nil_r; auto|right; right; right; exists u, v; auto].
  Qed.

  (** ** Adding a loop from the end points of a part to its entry points *)
  Section Loop.
    Variables (h h' : heap) (I O : points) (R : list nat).
    Hypothesis Lab : forall j, label h' j = label h j.
    Variable J : points.
    Hypothesis JI : forall a, In (Some a) J <-> In (Some a) I.
    Hypothesis Edg : forall x y, In y (nexts h' x) <-> In y (nexts h x) \/ (In (Some x) O /\ In (Some y) J).
    Let N := between h I O.
    Lemma laps_pow b w : laps W h O J b w -> In (Some b) O -> exists m, 1 <= m /\ l_pow N m w.
    Proof.
      intros H Ib. induction H as [y w Iy H|y x w1 w2 Iy H Ix _ (m & Lm & IH)].
      - exists 1. split; [lia|]. apply l_pow_one. exists b. split; [exact Ib|]. exists y. split; [apply JI, Iy|exact H].
      - exists (S m). split; [lia|]. exists w1, w2. split; [reflexivity|]. split; [|exact IH]. exists x. split; [exact Ix|]. exists y. split; [apply JI, Iy|exact H].
    Qed.
    Lemma pow_laps m : forall w, l_pow N (S m) w -> exists b, In (Some b) O /\ laps W h O J b w.
    Proof.
      induction m as [|m IH]; intros w H.
      - apply (l_pow_one N) in H as (b & Ib & a & Ia & H). exists b. split; [exact Ib|]. eapply laps_one; [apply JI, Ia|exact H].
      - destruct H as (u & v & -> & (x & Ix & a & Ia & H) & K). apply IH in K as (b & Ib & K). exists b. split; [exact Ib|].
        eapply laps_more; [apply JI, Ia|exact H|exact Ix|exact K].
    Qed.
    (** From [E] to [F], where [F] meets the part only in [O]. *)
    Lemma loop_between E F w : (forall a, In (Some a) I -> In a R) -> closed h R -> (forall b, In (Some b) O -> In (Some b) F) ->
      (forall b, In (Some b) F -> In b R -> In (Some b) O) ->
      (between h' E F w <-> between h E F w \/ exists u v m, w = u ++ v /\ between h E O u /\ 1 <= m /\ l_pow N m v).
    Proof.
      intros SI C OF FO. split.
      - intros (b & Ib & a & Ia & H). apply (run_link W h h' O J Lab Edg) in H as [H|(x & u & v & Ix & H & K & ->)].
        + left. exists b. split; [exact Ib|]. exists a. auto.
        + right. assert (In (Some b) O) as Ob.
          { apply FO; [exact Ib|]. clear - K SI C JI. induction K as [y w Iy H|]; [|assumption]. eapply run_closed; [exact C|exact H|apply SI, JI, Iy]. }
          destruct (laps_pow b v K Ob) as (m & Lm & P). exists u, v, m. split; [reflexivity|]. split; [exists x; split; [exact Ix|exists a; auto]|auto].
      - intros [(b & Ib & a & Ia & H)|(u & v & m & -> & (x & Ix & a & Ia & H) & Lm & P)].
        + exists b. split; [exact Ib|]. exists a. split; [exact Ia|]. apply (run_link W h h' O J Lab Edg). auto.
        + destruct m as [|m]; [lia|]. apply pow_laps in P as (b & Ib & K). exists b. split; [apply OF, Ib|]. exists a. split; [exact Ia|].
          apply (run_link W h h' O J Lab Edg). right. exists x, u, v. auto.
    Qed.
  End Loop.

  (** ** Chains of clones *)
  Section Chain.
    Variables (i o : points) (h0 : heap) (S0 : list nat).
    Hypothesis C0 : closed h0 S0.
    Hypothesis B0 : below h0 S0.
    Hypothesis I0 : forall a, In (Some a) i -> In a S0.
    Hypothesis N0 : In None i -> In None o.
    Let N := between h0 i o.
    Let nu := has_empty i.

    Record chain (h : heap) (tgs : list (points * points)) (E F : points) (R : list nat) : Prop := {
      ch_frame : frame h0 h;
      ch_in : forall a, In a R -> length h0 <= a < length h;
      ch_nodup : NoDup R;
      ch_closed : closed h R;
      ch_e : forall a, In (Some a) E -> In a R;
      ch_f : forall b, In (Some b) F <-> if nu then exists t, In t tgs /\ In (Some b) (snd t) else In (Some b) (snd (last tgs ([], [])));
      ch_en : In None E <-> nu = true;
      ch_fn : nu = true -> In None F;
      ch_ne : tgs <> [];
      ch_o : forall t b, In t tgs -> In (Some b) (snd t) -> In b R;
      ch_at : forall j t, nth_error tgs j = Some t -> leq (between h E (snd t)) (cnt nu N (S j));
      ch_last : exists Rl, incl Rl R /\ closed h Rl /\ (forall a, In (Some a) (fst (last tgs ([], []))) -> In a Rl) /\
        (forall b, In (Some b) (snd (last tgs ([], []))) -> In b Rl) /\
        leq (between h (fst (last tgs ([], []))) (snd (last tgs ([], [])))) N /\
        (forall b t, In t tgs -> In (Some b) (snd t) -> In b Rl -> In (Some b) (snd (last tgs ([], []))));
      ch_size : length R <= length tgs * length S0 }.

    Lemma last_nth {A} (l : list A) d : l <> [] -> nth_error l (length l - 1) = Some (last l d).
    Proof.
      intros N1. destruct (exists_last N1) as (l' & x & ->). rewrite last_last, app_length. cbn [length].
      rewrite nth_error_app2 by lia. replace (length l' + 1 - 1 - length l') with 0 by lia. reflexivity.
    Qed.
    Lemma last_in {A} (l : list A) d : l <> [] -> In (last l d) l.
    Proof. intros N1. destruct (exists_last N1) as (l' & x & ->). rewrite last_last. apply in_or_app. right. left. reflexivity. Qed.

    Lemma frame_agree_S h : frame h0 h -> agree S0 h0 h.
    Proof. intros [_ F] a Ia. apply F, B0, Ia. Qed.
    Lemma clone_again h : frame h0 h -> let '(i', o', h') := clone_graph h i o in
      exists R', frame h h' /\ frame h0 h' /\ (forall a, In a R' -> length h <= a < length h') /\ NoDup R' /\ closed h' R' /\
        (forall a, In (Some a) i' -> In a R') /\ (forall a, In (Some a) o' -> In a R') /\ (In None i' <-> In None i) /\ (In None o -> In None o') /\
        leq (between h' i' o') N /\ length R' <= length S0.
    Proof.
      intros F. assert (A := frame_agree_S h F).
      assert (C1 : closed h S0) by (eapply agree_closed; eassumption).
      assert (B1 : below h S0) by (intros a Ia; specialize (B0 a Ia); destruct F; lia).
      pose proof (clone_spec h S0 i o C1 B1 I0) as K. destruct (clone_graph h i o) as [[i' o'] h']. destruct K as (m & K & K1 & _).
      destruct (clone_region _ _ _ _ _ _ _ K) as (G1 & G2 & G3 & G4 & G5). exists (vals m).
      split; [apply (cl_frame _ _ _ _ _ _ _ K)|]. split.
      { destruct F as [F1 F2]. destruct (cl_frame _ _ _ _ _ _ _ K) as [F3 F4]. split; [lia|]. intros a La. rewrite F4 by lia. apply F2, La. }
      split; [exact G3|]. split; [exact G2|]. split; [exact G1|]. split; [exact G4|]. split; [exact G5|].
      split; [apply (clone_none_i _ _ _ _ _ _ _ K)|]. split; [apply (clone_none_o _ _ _ _ _ _ _ K)|].
      split.
      - intros w. rewrite (clone_between W _ _ _ _ _ _ _ K w). unfold N. symmetry. apply (between_agree W S0 h0 h i o w C0 A I0).
      - unfold vals. rewrite map_length. rewrite <- (map_length fst m). apply NoDup_incl_length; [apply (cl_keys _ _ _ _ _ _ _ K)|exact K1].
    Qed.

    Lemma chain_first : let '(ci, co, h1) := clone_graph h0 i o in exists R, chain h1 [(ci, co)] ci co R.
    Proof.
      pose proof (clone_again h0 (conj (le_n _) (fun _ _ => eq_refl))) as K. destruct (clone_graph h0 i o) as [[ci co] h1].
      destruct K as (R & K1 & K2 & K3 & K4 & K5 & K6 & K7 & K8 & K9 & K10 & K11). exists R. split; auto; cbn [last fst snd].
      - intros b. destruct nu; [|reflexivity]. split; [intros I; exists (ci, co); split; [left; reflexivity|exact I]|]. intros (t & [<-|[]] & I). exact I.
      - rewrite K8. unfold nu. rewrite has_empty_spec. reflexivity.
      - unfold nu. rewrite has_empty_spec. auto.
      - discriminate.
      - intros t b [<-|[]] I. apply K7, I.
      - intros [|[|j]] t E; [|discriminate|discriminate]. injection E as <-. cbn [snd]. intros w. rewrite (K10 w). unfold cnt. destruct nu.
        + split; [intros H; exists 1; split; [lia|apply l_pow_one, H]|]. intros (m & L & H). assert (m = 1) as -> by lia. apply l_pow_one, H.
        + symmetry. apply l_pow_one.
      - exists R. split; [apply incl_refl|]. split; [exact K5|]. split; [exact K6|]. split; [exact K7|]. split; [exact K10|].
        intros b t [<-|[]] I _. exact I.
      - cbn [length]. lia.
    Qed.

    (** From the entry points to all the end points. *)
    Lemma chain_f_between h tgs E F R : chain h tgs E F R -> leq (between h E F) (cnt nu N (length tgs)).
    Proof.
      intros K w. pose proof (ch_ne _ _ _ _ _ K) as Ne. pose proof (ch_at _ _ _ _ _ K) as At.
      assert (Len : 1 <= length tgs) by (destruct tgs; [contradiction|cbn; lia]).
      assert (E1 : S (length tgs - 1) = length tgs) by lia.
      pose proof (At _ _ (last_nth tgs ([], []) Ne)) as AtL. rewrite E1 in AtL.
      pose proof (ch_f _ _ _ _ _ K) as Ff. unfold cnt in *. destruct nu eqn:Nu.
      - split.
        + intros (b & Ib & H). apply Ff in Ib as (t & It & Ib). apply In_nth_error in It as (j & Ej).
          assert (j < length tgs) by (apply nth_error_Some; congruence).
          destruct (proj1 (At j t Ej w)) as (m & L & P); [exists b; auto|]. exists m. split; [lia|exact P].
        + intros P. apply (AtL w) in P as (b & Ib & H). exists b. split; [|exact H]. apply Ff. exists (last tgs ([], [])). split; [apply last_in, Ne|exact Ib].
      - rewrite <- (AtL w). split; intros (b & Ib & H); exists b; (split; [apply Ff, Ib|exact H]).
    Qed.

    Lemma chain_step h tgs E F R : chain h tgs E F R ->
      let '(ni, no, h1) := clone_graph h i o in
      let '(E', F', h2) := concat_graphs E F ni no h1 in
      exists R', chain h2 (tgs ++ [(ni, no)]) E' F' R'.
    Proof.
      intros K. pose proof (chain_f_between _ _ _ _ _ K) as FB. pose proof (clone_again h (ch_frame _ _ _ _ _ K)) as Cl.
      destruct (clone_graph h i o) as [[ni no] h1]. destruct Cl as (R2 & K1 & K2 & K3 & K4 & K5 & K6 & K7 & K8 & K9 & K10 & K11).
      pose proof (concat_points E F ni no h1) as CP. destruct (concat_graphs E F ni no h1) as [[E' F'] h2].
      destruct CP as (-> & PI & PIn & PO & POn). destruct K as [A1 A2 A3 A4 A5 A6 A7 A8 A9 A10 A11 A12 A13].
      assert (D : forall a, In a R -> ~ In a R2) by (intros a X Y; specialize (A2 a X); specialize (K3 a Y); lia).
      assert (D' : forall a, In a R2 -> ~ In a R) by (intros a X Y; exact (D a Y X)).
      assert (Ag : agree R h h1) by (intros a Ia; apply (proj2 K1); apply A2, Ia).
      assert (C1 : closed h1 R) by (eapply agree_closed; eassumption).
      assert (SF : forall a, In (Some a) F -> In a R).
      { intros a Ia. apply A6 in Ia. destruct nu; [destruct Ia as (t & It & Ia); eapply A10; eassumption|]. eapply A10; [apply last_in, A9|exact Ia]. }
      destruct (link_spec push_next h1 F ni adds_next) as (Ln & Lab & Oth & _).
      assert (Be : below h1 R) by (intros a Ia; specialize (A2 a Ia); destruct K1; lia).
      assert (Edg := link_edges push_next h1 F ni R adds_next SF Be).
      set (h2 := link push_next h1 F ni) in *.
      assert (Ag2 : agree R2 h1 h2) by (intros a Ia; apply Oth; intros X; exact (D' a Ia (SF a X))).
      assert (LL : last (tgs ++ [(ni, no)]) ([], []) = (ni, no)) by apply last_last.
      assert (EnN : In None E <-> In None i) by (rewrite A7; apply has_empty_spec).
      assert (NuN : nu = true <-> In None i) by apply has_empty_spec.
      assert (SE : forall a, In (Some a) E' -> In a R \/ In a R2) by (intros a Ia; apply PI in Ia as [Ia|[_ Ia]]; auto).
      assert (U1 : forall b w, In b R -> (upto h2 E' b w <-> upto h E b w)).
      { intros b w Ib. rewrite (upto_left W h1 h2 F ni Lab Edg R R2 K5 D SF K6 E' b w Ib). split.
        - intros (a & Ia & H). apply PI in Ia as [Ia|[_ Ia]].
          + exists a. split; [exact Ia|]. apply (run_agree W R h h1 a b w A4 Ag (A5 a Ia)). exact H.
          + exfalso. apply (D b Ib). eapply run_closed; [exact K5|exact H|auto].
        - intros (a & Ia & H). exists a. split; [apply PI; auto|]. apply (run_agree W R h h1 a b w A4 Ag (A5 a Ia)). exact H. }
      assert (U2 : forall w, between h2 E' no w <-> (In None i /\ N w) \/ l_cat (between h E F) N w).
      { intros w. split.
        - intros (b & Ib & H). apply (upto_right W h1 h2 F ni Lab Edg R R2 K5 D SF K6 E' b w SE (K7 b Ib)) in H as [(a & Ia & H)|(u & v & -> & (x & Ix & H) & J)].
          + left. apply PI in Ia as [Ia|[Nn Ia]].
            * exfalso. apply (D' b (K7 b Ib)). eapply run_closed; [exact C1|exact H|auto].
            * split; [apply EnN, Nn|]. apply K10. exists b. split; [exact Ib|]. exists a. auto.
          + right. exists u, v. split; [reflexivity|]. split.
            * exists x. split; [exact Ix|]. destruct H as (a & Ia & H). apply PI in Ia as [Ia|[_ Ia]].
              -- exists a. split; [exact Ia|]. apply (run_agree W R h h1 a x u A4 Ag (A5 a Ia)). exact H.
              -- exfalso. apply (D x (SF x Ix)). eapply run_closed; [exact K5|exact H|auto].
            * apply K10. exists b. auto.
        - intros [(Nn & H)|(u & v & -> & (x & Ix & a & Ia & H) & J)].
          + apply K10 in H as (b & Ib & a & Ia & H). exists b. split; [exact Ib|].
            apply (upto_right W h1 h2 F ni Lab Edg R R2 K5 D SF K6 E' b w SE (K7 b Ib)). left. exists a. split; [apply PI; right; split; [apply EnN, Nn|exact Ia]|exact H].
          + apply K10 in J as (b & Ib & J). exists b. split; [exact Ib|].
            apply (upto_right W h1 h2 F ni Lab Edg R R2 K5 D SF K6 E' b _ SE (K7 b Ib)). right. exists u, v. split; [reflexivity|].
            split; [|exact J]. exists x. split; [exact Ix|]. exists a. split; [apply PI; auto|].
            apply (run_agree W R h h1 a x u A4 Ag (A5 a Ia)). exact H. }
      exists (R ++ R2). split.
      - destruct K2 as [K2a K2b]. split; [rewrite Ln; exact K2a|]. intros a La. rewrite Oth; [apply K2b, La|].
        intros X. apply SF, A2 in X. lia.
      - intros a Ia. rewrite Ln. destruct K1 as [K1a _]. destruct A1 as [A1a _]. apply in_app_or in Ia as [Ia|Ia]; [specialize (A2 a Ia); lia|specialize (K3 a Ia); lia].
      - apply nodup_app; assumption.
      - exact (closed_apart h1 h2 F ni Edg R R2 C1 K5 K6).
      - intros a Ia. apply in_or_app. destruct (SE a Ia); auto.
      - intros b. rewrite LL. rewrite PO, A6. assert (In None ni <-> nu = true) as -> by (rewrite NuN; exact K8). cbn [snd]. destruct nu eqn:Nu.
        + split.
          * intros [(_ & t & It & H)|H]; [exists t; split; [apply in_or_app; auto|exact H]|].
            exists (ni, no). split; [apply in_or_app; right; left; reflexivity|exact H].
          * intros (t & It & H). apply in_app_or in It as [It|[<-|[]]]; [left; split; [reflexivity|eauto]|right; exact H].
        + split; [intros [(X & _)|H]; [discriminate|exact H]|auto].
      - rewrite PIn, EnN, K8, NuN. tauto.
      - intros Nu. apply POn. split; [apply K8, NuN, Nu|apply A8, Nu].
      - intros X. apply app_eq_nil in X as [_ X]. discriminate.
      - intros t b It H. apply in_or_app. apply in_app_or in It as [It|[<-|[]]]; [left; eapply A10; eassumption|right; apply K7, H].
      - intros j t Ej. destruct (Nat.lt_ge_cases j (length tgs)) as [Lj|Lj].
        + rewrite nth_error_app1 in Ej by exact Lj. intros w. rewrite <- (A11 j t Ej w).
          assert (It : In t tgs) by (eapply nth_error_In; exact Ej).
          split; intros (b & Ib & H); exists b; (split; [exact Ib|]); apply (U1 b w (A10 t b It Ib)); exact H.
        + rewrite nth_error_app2 in Ej by exact Lj. destruct (j - length tgs) as [|d] eqn:Q; [|destruct d; discriminate].
          cbn in Ej. injection Ej as <-. assert (j = length tgs) as -> by lia. cbn [snd]. intros w. rewrite (U2 w).
          rewrite (l_cat_ext _ _ N N FB (fun v => iff_refl _) w). rewrite <- NuN. unfold cnt. destruct nu.
          * split.
            -- intros [(_ & H)|(u & v & -> & (m & L & P) & H)]; [exists 1; split; [lia|apply l_pow_one, H]|].
               exists (m + 1). split; [lia|]. apply l_pow_app. exists u, v. split; [reflexivity|]. split; [exact P|apply l_pow_one, H].
            -- intros (m & L & P). destruct m as [|[|m]]; [lia|left; split; [reflexivity|apply l_pow_one, P]|right].
               replace (S (S m)) with (S m + 1) in P by lia. apply l_pow_app in P as (u & v & -> & P & H). exists u, v. split; [reflexivity|].
               split; [exists (S m); split; [lia|exact P]|apply l_pow_one, H].
          * replace (S (length tgs)) with (length tgs + 1) by lia. rewrite l_pow_app. split.
            -- intros [(X & _)|(u & v & -> & P & H)]; [discriminate|]. exists u, v. split; [reflexivity|]. split; [exact P|apply l_pow_one, H].
            -- intros (u & v & -> & P & H). right. exists u, v. split; [reflexivity|]. split; [exact P|apply (l_pow_one N), H].
      - rewrite LL. cbn [fst snd]. exists R2. split; [intros a Ia; apply in_or_app; auto|].
        split; [eapply agree_closed; eassumption|]. split; [exact K6|]. split; [exact K7|]. split.
        + intros w. rewrite <- (between_agree W R2 h1 h2 ni no w K5 Ag2 K6). apply K10.
        + intros b t It H Ib. apply in_app_or in It as [It|[<-|[]]]; [|exact H]. exfalso. apply (D' b Ib). eapply A10; eassumption.
      - rewrite !app_length. cbn [length]. lia.
    Qed.

    Lemma chain_rest n : forall h tgs E F R, chain h tgs E F R ->
      let '(tgs', E', F', h') := chain_loop n i o tgs E F h in
      (exists R', chain h' tgs' E' F' R') /\ length tgs' = n + length tgs.
    Proof.
      induction n as [|n IH]; intros h tgs E F R K; cbn [chain_loop]; [split; [eauto|reflexivity]|].
      pose proof (chain_step h tgs E F R K) as St. destruct (clone_graph h i o) as [[ni no] h1].
      destruct (concat_graphs E F ni no h1) as [[E' F'] h2]. destruct St as (R' & K').
      specialize (IH _ _ _ _ _ K'). destruct (chain_loop n i o (tgs ++ [(ni, no)]) E' F' h2) as [[[tgs' E''] F''] h'].
      destruct IH as [X Y]. split; [exact X|]. rewrite Y, app_length. cbn [length]. lia.
    Qed.
    Lemma chain_spec n : let '(tgs, E, F, h) := chain_graph i o (S n) h0 in
      (exists R, chain h tgs E F R) /\ length tgs = S n.
    Proof.
      cbn [chain_graph]. pose proof chain_first as K. destruct (clone_graph h0 i o) as [[ci co] h1]. destruct K as (R & K).
      pose proof (chain_rest n _ _ _ _ _ K) as X. destruct (chain_loop n i o [(ci, co)] ci co h1) as [[[tgs E] F] h].
      destruct X as [X Y]. split; [exact X|]. rewrite Y. cbn [length]. lia.
    Qed.
  End Chain.
End Graphs.
