(** Graphs without dead ends: every node reached from an entry point reaches an end
    point, and every end point is reached from an entry point.
    Its definitions are means of proof and model no code. *)
From Coq Require Import ZArith Arith String Bool List Lia.
From Verif Require Import Syntax Spec Tape RegexSpec Graph GraphRun GraphClone GraphRep GraphRepeat.
Import ListNotations.
Local Open Scope nat_scope.
Local Open Scope list_scope.

Inductive reach (h : heap) : nat -> nat -> Prop :=
| re_refl a : reach h a a
| re_step a b c : In b (nexts h a) -> reach h b c -> reach h a c.
Lemma reach_trans h a b c : reach h a b -> reach h b c -> reach h a c.
Proof. induction 1; [auto|]. intros. econstructor; eauto. Qed.
Lemma reach_snoc h a b c : reach h a b -> In c (nexts h b) -> reach h a c.
Proof. intros H I. eapply reach_trans; [exact H|]. econstructor; [exact I|constructor]. Qed.
Lemma reach_ind_r h (P : nat -> Prop) a b : reach h a b -> P a -> (forall x y, P x -> In y (nexts h x) -> P y) -> P b.
Proof. induction 1 as [a|a b c I _ IH]; auto. intros Pa St. apply IH; [eapply St; eassumption|exact St]. Qed.
Lemma reach_agree R h h' a b : closed h R -> agree R h h' -> In a R -> (reach h a b <-> reach h' a b).
Proof.
  intros C A I. split; intros H; revert I; induction H as [a|a b c E _ IH]; intros I; try constructor.
  - apply (re_step _ a b); [rewrite (agree_nexts R h h' a A I); exact E|]. apply IH. exact (C a b I E).
  - rewrite (agree_nexts R h h' a A I) in E. apply (re_step _ a b); [exact E|]. apply IH. exact (C a b I E).
Qed.
Lemma reach_closed h R a b : closed h R -> reach h a b -> In a R -> In b R.
Proof. intros C H I. revert I. induction H as [|a b c E _ IH]; [auto|]. intros I. apply IH. exact (C a b I E). Qed.

Record lv (h : heap) (I O : points) : Prop := {
  lv_up : forall a b, In (Some a) I -> reach h a b -> exists c, In (Some c) O /\ reach h b c;
  lv_dn : forall b, In (Some b) O -> exists a, In (Some a) I /\ reach h a b;
  lv_no : In None O -> In None I }.

Lemma lv_nil h : lv h [] [].
Proof. split; intros; try contradiction. Qed.
Lemma lv_none h : lv h [None] [None].
Proof.
  split.
  - intros a b [E|[]]. discriminate.
  - intros b [E|[]]. discriminate.
  - auto.
Qed.
Lemma lv_agree R h h' I O : closed h R -> agree R h h' -> (forall a, In (Some a) I -> In a R) -> lv h I O -> lv h' I O.
Proof.
  intros C A S [U D N]. split; [| |exact N].
  - intros a b Ia H. apply (reach_agree R h h' a b C A (S a Ia)) in H. pose proof (reach_closed h R a b C H (S a Ia)) as Ib.
    destruct (U a b Ia H) as (c & Ic & K). exists c. split; [exact Ic|]. apply (reach_agree R h h' b c C A Ib). exact K.
  - intros b Ib. destruct (D b Ib) as (a & Ia & H). exists a. split; [exact Ia|]. apply (reach_agree R h h' a b C A (S a Ia)). exact H.
Qed.
Lemma lv_ext h I O I' O' : (forall p, In p I' <-> In p I) -> (forall p, In p O' <-> In p O) -> lv h I O -> lv h I' O'.
Proof.
  intros EI EO [U D N]. split.
  - intros a b Ia H. apply EI in Ia. destruct (U a b Ia H) as (c & Ic & K). exists c. split; [apply EO, Ic|exact K].
  - intros b Ib. apply EO in Ib. destruct (D b Ib) as (a & Ia & H). exists a. split; [apply EI, Ia|exact H].
  - rewrite EI, EO. exact N.
Qed.
Lemma lv_opt h I O I' O' : (forall p, In p I' <-> p = None \/ In p I) -> (forall p, In p O' <-> p = None \/ In p O) -> lv h I O -> lv h I' O'.
Proof.
  intros EI EO [U D N]. split.
  - intros a b Ia H. apply EI in Ia as [Q|Ia]; [discriminate|]. destruct (U a b Ia H) as (c & Ic & K). exists c. split; [apply EO; auto|exact K].
  - intros b Ib. apply EO in Ib as [Q|Ib]; [discriminate|]. destruct (D b Ib) as (a & Ia & H). exists a. split; [apply EI; auto|exact H].
  - intros _. apply EI. auto.
Qed.
Lemma lv_or h I1 O1 I2 O2 I O : (forall p, In p I <-> In p I1 \/ In p I2) -> (forall p, In p O <-> In p O1 \/ In p O2) ->
  lv h I1 O1 -> lv h I2 O2 -> lv h I O.
Proof.
  intros EI EO [U1 D1 N1] [U2 D2 N2]. split.
  - intros a b Ia H. apply EI in Ia as [Ia|Ia]; [destruct (U1 a b Ia H) as (c & Ic & K)|destruct (U2 a b Ia H) as (c & Ic & K)]; exists c; (split; [apply EO; auto|exact K]).
  - intros b Ib. apply EO in Ib as [Ib|Ib]; [destruct (D1 b Ib) as (a & Ia & H)|destruct (D2 b Ib) as (a & Ia & H)]; exists a; (split; [apply EI; auto|exact H]).
  - rewrite EI, EO. tauto.
Qed.
(** Nodes without edges. *)
Lemma lv_alone h ps : (forall a, In (Some a) ps -> nexts h a = []) -> ~ In None ps -> lv h ps ps.
Proof.
  intros A N. split; [| |contradiction].
  - intros a b Ia H. inversion H as [|? c ? E _]; subst; [exists b; split; [exact Ia|constructor]|]. rewrite (A a Ia) in E. destruct E.
  - intros b Ib. exists b. split; [exact Ib|constructor].
Qed.

Section Link.
  Variables (h h' : heap) (A B : points).
  Hypothesis Edg : forall x y, In y (nexts h' x) <-> In y (nexts h x) \/ (In (Some x) A /\ In (Some y) B).
  Lemma reach_mono a b : reach h a b -> reach h' a b.
  Proof. induction 1; [constructor|]. econstructor; [apply Edg; left; eassumption|assumption]. Qed.
  Lemma lv_loop I O : (forall y, In (Some y) B -> exists a, In (Some a) I /\ reach h a y) -> lv h I O -> lv h' I O.
  Proof.
    intros S [U D N]. split; [| |exact N].
    - intros a b Ia H. assert (K : exists x, In (Some x) I /\ reach h x b).
      { apply (reach_ind_r h' (fun b => exists x, In (Some x) I /\ reach h x b) a b H); [exists a; split; [exact Ia|constructor]|].
        intros x y (z & Iz & K) E. apply Edg in E as [E|[_ E]]; [|exact (S y E)]. exists z. split; [exact Iz|]. exact (reach_snoc _ _ _ _ K E). }
      destruct K as (x & Ix & K). destruct (U x b Ix K) as (c & Ic & M). exists c. split; [exact Ic|apply reach_mono, M].
    - intros b Ib. destruct (D b Ib) as (a & Ia & H). exists a. split; [exact Ia|apply reach_mono, H].
  Qed.
End Link.

Lemma some_none (l : points) : l <> [] -> In None l \/ exists a, In (Some a) l.
Proof. destruct l as [|[a|] l]; [contradiction|right; exists a; left; reflexivity|left; left; reflexivity]. Qed.
Lemma in_some (l : points) p : In p l -> l <> [].
Proof. destruct l; [intros []|discriminate]. Qed.

Lemma lv_cat h h' I1 O1 I2 O2 I O :
  (forall x y, In y (nexts h' x) <-> In y (nexts h x) \/ (In (Some x) O1 /\ In (Some y) I2)) ->
  (forall a, In (Some a) I <-> In (Some a) I1 \/ (In None I1 /\ In (Some a) I2)) -> (In None I <-> In None I1 /\ In None I2) ->
  (forall b, In (Some b) O <-> (In None I2 /\ In (Some b) O1) \/ In (Some b) O2) -> (In None O <-> In None I2 /\ In None O1) ->
  lv h I1 O1 -> lv h I2 O2 -> I1 <> [] -> I2 <> [] -> lv h' I O /\ I <> [].
Proof.
  intros Edg EI EIn EO EOn [U1 D1 N1] [U2 D2 N2] Ne1 Ne2. pose proof (reach_mono h h' O1 I2 Edg) as Mo. split.
  - split.
    + intros a b Ia H.
      assert (K : (exists x, In (Some x) I1 /\ reach h x b) \/ (exists x, In (Some x) I2 /\ reach h x b)).
      { apply (reach_ind_r h' (fun b => (exists x, In (Some x) I1 /\ reach h x b) \/ (exists x, In (Some x) I2 /\ reach h x b)) a b H).
        - apply EI in Ia as [Ia|[_ Ia]]; [left|right]; exists a; (split; [exact Ia|constructor]).
        - intros x y K E. apply Edg in E as [E|[_ E]]; [|right; exists y; split; [exact E|constructor]].
          destruct K as [(z & Iz & K)|(z & Iz & K)]; [left|right]; exists z; (split; [exact Iz|]); exact (reach_snoc _ _ _ _ K E). }
      destruct K as [(x & Ix & K)|(x & Ix & K)].
      * destruct (U1 x b Ix K) as (c & Ic & M). destruct (some_none I2 Ne2) as [Nn|(y & Iy)].
        -- exists c. split; [apply EO; auto|apply Mo, M].
        -- destruct (U2 y y Iy (re_refl _ _)) as (d & Id & M2). exists d. split; [apply EO; auto|].
           eapply reach_trans; [apply Mo, M|]. apply (re_step _ c y); [apply Edg; auto|apply Mo, M2].
      * destruct (U2 x b Ix K) as (c & Ic & M). exists c. split; [apply EO; auto|apply Mo, M].
    + intros b Ib. apply EO in Ib as [[Nn Ib]|Ib].
      * destruct (D1 b Ib) as (a & Ia & H). exists a. split; [apply EI; auto|apply Mo, H].
      * destruct (D2 b Ib) as (y & Iy & H). destruct (some_none I1 Ne1) as [Nn|(a & Ia)].
        -- exists y. split; [apply EI; auto|apply Mo, H].
        -- destruct (U1 a a Ia (re_refl _ _)) as (c & Ic & M). exists a. split; [apply EI; auto|].
           eapply reach_trans; [apply Mo, M|]. apply (re_step _ c y); [apply Edg; auto|apply Mo, H].
    + rewrite EIn, EOn. tauto.
  - destruct (some_none I1 Ne1) as [Nn|(a & Ia)]; [|apply (in_some I (Some a)), EI; auto].
    destruct (some_none I2 Ne2) as [Nm|(a & Ia)]; [apply (in_some I None), EIn; auto|apply (in_some I (Some a)), EI; auto].
Qed.

(** ** Clones *)
Section Clones.
  Variables (h : heap) (i o : points) (m : list (nat * nat)) (i' o' : points) (h' : heap).
  Hypothesis K : clone_of h i o m i' o' h'.
  Lemma reach_to a b : reach h a b -> forall c, In (a, c) m -> exists d, In (b, d) m /\ reach h' c d.
  Proof.
    induction 1 as [a|a b d E R IH]; intros c I; destruct (cl_range _ _ _ _ _ _ _ K a c I) as (L1 & L2 & L3 & L4).
    - exists c. split; [exact I|constructor].
    - assert (Ia : In a (keys m)) by (apply (in_map fst) in I; exact I).
      pose proof (cl_complete _ _ _ _ _ _ _ K a b Ia E) as Ib. apply in_map_iff in Ib as ((x & b') & Q & Ib). cbn in Q. subst x.
      destruct (IH b' Ib) as (d' & Id & R'). exists d'. split; [exact Id|]. apply (re_step _ c b'); [|exact R'].
      rewrite L4. apply (clone_nexts_in _ _ _ _ _ _ _ K); [exact Ia|]. eauto.
  Qed.
  Lemma reach_from c d : reach h' c d -> forall a, In (a, c) m -> exists b, In (b, d) m /\ reach h a b.
  Proof.
    induction 1 as [c|c c2 d E R IH]; intros a I; destruct (cl_range _ _ _ _ _ _ _ K a c I) as (L1 & L2 & L3 & L4).
    - exists a. split; [exact I|constructor].
    - assert (Ia : In a (keys m)) by (apply (in_map fst) in I; exact I).
      rewrite L4 in E. apply (clone_nexts_in _ _ _ _ _ _ _ K) in E as (b & Ib & Ic); [|exact Ia].
      destruct (IH b Ic) as (b' & Ib' & R'). exists b'. split; [exact Ib'|]. exact (re_step _ a b b' Ib R').
  Qed.
  Lemma clone_i_some c : In (Some c) i' <-> exists a, In (Some a) i /\ In (a, c) m.
  Proof. rewrite (cl_i _ _ _ _ _ _ _ K). apply (clone_points_some _ _ _ _ _ _ _ K). Qed.
  Lemma clone_o_some c : In (Some c) o' <-> exists a, In (Some a) o /\ In (a, c) m.
  Proof. rewrite (cl_o _ _ _ _ _ _ _ K). apply (clone_points_some _ _ _ _ _ _ _ K). Qed.
  Lemma clone_has a : In (Some a) i -> exists c, In (a, c) m.
  Proof. intros I. apply (cl_entry _ _ _ _ _ _ _ K) in I. apply in_map_iff in I as ((x & c) & Q & I). cbn in Q. subst x. eauto. Qed.
  Lemma lv_clone : lv h i o -> lv h' i' o'.
  Proof.
    intros [U D N]. split.
    - intros c d Ic H. apply clone_i_some in Ic as (a & Ia & Ma). destruct (reach_from c d H a Ma) as (b & Mb & R).
      destruct (U a b Ia R) as (e & Ie & M). destruct (reach_to b e M d Mb) as (f & Mf & M'). exists f. split; [apply clone_o_some; eauto|exact M'].
    - intros d Id. apply clone_o_some in Id as (b & Ib & Mb). destruct (D b Ib) as (a & Ia & R). destruct (clone_has a Ia) as (c & Mc).
      destruct (reach_to a b R c Mc) as (d' & Md & R'). exists c. split; [apply clone_i_some; eauto|].
      pose proof (proj2 (cget_pair b d m (cl_keys _ _ _ _ _ _ _ K)) Mb) as X. pose proof (proj2 (cget_pair b d' m (cl_keys _ _ _ _ _ _ _ K)) Md) as Y. congruence.
    - intros I. apply (clone_none_i _ _ _ _ _ _ _ K). rewrite (cl_o _ _ _ _ _ _ _ K) in I. unfold clone_points in I. apply in_map_iff in I as ([b|] & E & I); [|exact (N I)].
      exfalso. destruct (D b I) as (a & Ia & R). destruct (clone_has a Ia) as (c & Mc). destruct (reach_to a b R c Mc) as (d & Md & _).
      apply (cget_pair b d m (cl_keys _ _ _ _ _ _ _ K)) in Md. congruence.
  Qed.
  Lemma clone_ne : i <> [] -> i' <> [].
  Proof. rewrite (cl_i _ _ _ _ _ _ _ K). unfold clone_points. destruct i; [contradiction|discriminate]. Qed.
  Lemma clone_some : (exists a, In (Some a) i) <-> exists c, In (Some c) i'.
  Proof.
    split.
    - intros (a & Ia). destruct (clone_has a Ia) as (c & Mc). exists c. apply clone_i_some. eauto.
    - intros (c & Ic). apply clone_i_some in Ic as (a & Ia & _). eauto.
  Qed.
End Clones.

(** ** Chains *)
Section Chain.
  Variable W : elem -> list Z -> Prop.
  Variables (i o : points) (h0 : heap) (S0 : list nat).
  Hypothesis C0 : closed h0 S0.
  Hypothesis B0 : below h0 S0.
  Hypothesis I0 : forall a, In (Some a) i -> In a S0.
  Hypothesis N0 : In None i -> In None o.
  Hypothesis Lv : lv h0 i o.
  Hypothesis Ne : i <> [].

  Record lchain (h : heap) (tgs : list (points * points)) (E F : points) : Prop := {
    lc_lv : lv h E F;
    lc_ne : E <> [];
    lc_all : forall t b, In t tgs -> In (Some b) (fst t) \/ In (Some b) (snd t) -> exists a, In (Some a) E /\ reach h a b;
    lc_no : forall t, In t tgs -> In None (snd t) -> In None i;
    lc_some : (exists a, In (Some a) i) <-> exists a, In (Some a) E;
    lc_f : forall b, In (Some b) F -> exists t, In t tgs /\ In (Some b) (snd t) }.

  Lemma clone_live h : frame h0 h -> let '(i', o', h') := clone_graph h i o in
    lv h' i' o' /\ i' <> [] /\ (In None o' -> In None i) /\ ((exists a, In (Some a) i) <-> exists c, In (Some c) i').
  Proof.
    intros F. assert (A : agree S0 h0 h) by (intros a Ia; apply (proj2 F), B0, Ia).
    assert (C1 : closed h S0) by (eapply agree_closed; eassumption).
    assert (B1 : below h S0) by (intros a Ia; specialize (B0 a Ia); destruct F; lia).
    pose proof (clone_spec h S0 i o C1 B1 I0) as K. destruct (clone_graph h i o) as [[i' o'] h']. destruct K as (m & K & _ & _).
    assert (Lh : lv h i o) by (eapply lv_agree; [exact C0|exact A|exact I0|exact Lv]).
    pose proof (lv_clone _ _ _ _ _ _ _ K Lh) as L'. split; [exact L'|]. split; [exact (clone_ne _ _ _ _ _ _ _ K Ne)|]. split.
    - intros X. apply (clone_none_i _ _ _ _ _ _ _ K). exact (lv_no _ _ _ L' X).
    - exact (clone_some _ _ _ _ _ _ _ K).
  Qed.
  Lemma lchain_first : let '(ci, co, h1) := clone_graph h0 i o in lchain h1 [(ci, co)] ci co.
  Proof.
    pose proof (clone_live h0 (conj (le_n _) (fun _ _ => eq_refl))) as K. destruct (clone_graph h0 i o) as [[ci co] h1]. destruct K as (K1 & K2 & K3 & K4).
    split; auto.
    - intros t b [<-|[]] [X|X]; cbn [fst snd] in X; [exists b; split; [exact X|constructor]|exact (lv_dn _ _ _ K1 b X)].
    - intros t [<-|[]]. exact K3.
    - intros b Ib. exists (ci, co). split; [left; reflexivity|exact Ib].
  Qed.
  Notation chain := (chain W i o h0 S0).
  Lemma lchain_step h tgs E F R : chain h tgs E F R -> lchain h tgs E F ->
    let '(ni, no, h1) := clone_graph h i o in
    let '(E', F', h2) := concat_graphs E F ni no h1 in
    (exists R', chain h2 (tgs ++ [(ni, no)]) E' F' R') /\ lchain h2 (tgs ++ [(ni, no)]) E' F'.
  Proof.
    intros K [L1 L2 L3 L4 L5 L6]. pose proof (chain_step W i o h0 S0 C0 B0 I0 N0 h tgs E F R K) as St. pose proof (clone_again W i o h0 S0 C0 B0 I0 h (ch_frame _ _ _ _ _ _ _ _ _ _ K)) as Cl.
    pose proof (clone_live h (ch_frame _ _ _ _ _ _ _ _ _ _ K)) as CL. destruct (clone_graph h i o) as [[ni no] h1].
    destruct Cl as (_ & Fr & _). destruct CL as (K1 & K2 & K3 & K4).
    pose proof (concat_points E F ni no h1) as CP. destruct (concat_graphs E F ni no h1) as [[E' F'] h2]. destruct CP as (-> & PI & PIn & PO & POn).
    split; [exact St|]. clear St.
    assert (Ag : agree R h h1) by (intros a Ia; apply (proj2 Fr); apply (ch_in _ _ _ _ _ _ _ _ _ _ K), Ia).
    assert (SF : forall a, In (Some a) F -> In a R) by (intros a Ia; destruct (L6 a Ia) as (t & It & Ia'); exact (ch_o _ _ _ _ _ _ _ _ _ _ K t a It Ia')).
    assert (Be : below h1 R) by (intros a Ia; apply (ch_in _ _ _ _ _ _ _ _ _ _ K) in Ia; destruct Fr; lia).
    assert (Edg := link_edges push_next h1 F ni R adds_next SF Be). set (h2 := link push_next h1 F ni) in *.
    assert (Cl : closed h R) by apply (ch_closed _ _ _ _ _ _ _ _ _ _ K).
    assert (Le : lv h1 E F) by (apply (lv_agree R h h1); [exact Cl|exact Ag|apply (ch_e _ _ _ _ _ _ _ _ _ _ K)|exact L1]).
    destruct (lv_cat h1 h2 E F ni no E' F' Edg PI PIn PO POn Le K1 L2 K2) as [M1 M2].
    pose proof (reach_mono h1 h2 F ni Edg) as Mo.
    assert (Old : forall b, (exists a, In (Some a) E /\ reach h a b) -> exists a, In (Some a) E' /\ reach h2 a b).
    { intros b (a & Ia & H). exists a. split; [apply PI; auto|]. apply Mo. apply (reach_agree R h h1 a b Cl Ag (ch_e _ _ _ _ _ _ _ _ _ _ K a Ia)). exact H. }
    assert (New : forall y b, In (Some y) ni -> reach h1 y b -> exists a, In (Some a) E' /\ reach h2 a b).
    { intros y b Iy H. destruct (some_none E L2) as [Nn|(a & Ia)]; [exists y; split; [apply PI; auto|apply Mo, H]|].
      destruct (lv_up _ _ _ Le a a Ia (re_refl _ _)) as (c & Ic & M). exists a. split; [apply PI; auto|].
      eapply reach_trans; [apply Mo, M|]. apply (re_step _ c y); [apply Edg; auto|apply Mo, H]. }
    split; [exact M1|exact M2| | | |].
    - intros t b It X. apply in_app_or in It as [It|[<-|[]]]; [apply Old, (L3 t b It X)|]. cbn [fst snd] in X. destruct X as [X|X]; [exact (New b b X (re_refl _ _))|].
      destruct (lv_dn _ _ _ K1 b X) as (y & Iy & H). exact (New y b Iy H).
    - intros t It. apply in_app_or in It as [It|[<-|[]]]; [exact (L4 t It)|exact K3].
    - rewrite L5. split.
      + intros (a & Ia). exists a. apply PI. auto.
      + intros (a & Ia). apply PI in Ia as [Ia|[_ Ia]]; [eauto|]. apply L5, K4. eauto.
    - intros b Ib. apply PO in Ib as [[_ Ib]|Ib].
      + destruct (L6 b Ib) as (t & It & X). exists t. split; [apply in_or_app; auto|exact X].
      + exists (ni, no). split; [apply in_or_app; right; left; reflexivity|exact Ib].
  Qed.
  Lemma lchain_rest n : forall h tgs E F R, chain h tgs E F R -> lchain h tgs E F ->
    let '(tgs', E', F', h') := chain_loop n i o tgs E F h in (exists R', chain h' tgs' E' F' R') /\ lchain h' tgs' E' F'.
  Proof.
    induction n as [|n IH]; intros h tgs E F R K L; cbn [chain_loop]; [split; [eauto|exact L]|].
    pose proof (lchain_step h tgs E F R K L) as St. destruct (clone_graph h i o) as [[ni no] h1].
    destruct (concat_graphs E F ni no h1) as [[E' F'] h2]. destruct St as ((R' & K') & L'). exact (IH _ _ _ _ _ K' L').
  Qed.
  Lemma lchain_spec n : let '(tgs, E, F, h) := chain_graph i o (S n) h0 in (exists R, chain h tgs E F R) /\ lchain h tgs E F.
  Proof.
    cbn [chain_graph]. pose proof (chain_first W i o h0 S0 C0 B0 I0 N0) as K. pose proof lchain_first as L. destruct (clone_graph h0 i o) as [[ci co] h1].
    destruct K as (R & K). exact (lchain_rest n _ _ _ _ _ K L).
  Qed.
End Chain.

(** ** Repetitions *)
Section Repeat.
  Variable W : elem -> list Z -> Prop.
  Variable opts : tgoptions.
  Lemma rep_build_live lo st R i o L mn mx I O st' : gr W lo (t_heap st) R i o L -> (0 <= mn)%Z -> (mx = inf \/ (0 <= mx)%Z) ->
    lv (t_heap st) i o -> i <> [] -> rep_build opts mn mx i o st = T_ok I O st' -> lv (t_heap st') I O /\ I <> [].
  Proof.
    intros G Mn Mx Lv Ne. unfold rep_build.
    assert (AN : forall l p, In p (append_nodes [None] l) <-> p = None \/ In p l) by (intros l p; rewrite append_nodes_in; cbn; intuition).
    assert (A0 : forall l p, In p (append_nodes [] l) <-> In p l) by (intros l p; rewrite append_nodes_in; cbn; tauto).
    assert (An : forall l, append_nodes [None] l <> []) by (intros l; apply (in_some _ None), AN; auto).
    assert (A0n : forall l, l <> [] -> append_nodes [] l <> []).
    { intros l Nl. destruct l as [|p l]; [contradiction|]. apply (in_some _ p), A0. left. reflexivity. }
    pose proof (s0_closed st i) as Sc. pose proof (s0_i st i) as Si. pose proof (s0_below W lo st R i o L G) as Sb. pose proof (n_ok W lo st R i o L G) as Nn.
    destruct (Z.eqb_spec mn 0) as [M0|M0].
    - destruct (Z.eqb_spec mx 1) as [X1|X1].
      + intros E. injection E as <- <- <-. split; [apply (lv_opt _ i o); auto|apply An].
      + destruct (Z.eqb_spec mx inf) as [X2|X2].
        * intros E. injection E as <- <- <-. split; [|apply An]. cbn [with_heap t_heap]. apply (lv_opt _ i o); auto.
          assert (Edg := link_edges push_new (t_heap st) o (append_nodes [] (filter (fun p => negb (is_none p)) i)) R adds_new (gr_o _ _ _ _ _ _ _ G)
            (fun a Ia => proj2 (gr_in _ _ _ _ _ _ _ G a Ia))).
          apply (lv_loop (t_heap st) _ o _ Edg); [|exact Lv]. intros y Iy. rewrite A0, drop_none_some in Iy. exists y. split; [exact Iy|constructor].
        * destruct (Z.ltb_spec (o_threshold opts) mx) as [T|T]; [discriminate|].
          destruct (reserve_clones opts mx i st) as [st1|] eqn:Er; [|discriminate].
          destruct (Z.to_nat mx) as [|n].
          -- cbn [chain_graph]. intros E. injection E as <- <- <-. split; [|discriminate]. cbn [with_heap t_heap fold_left]. apply (lv_ext _ [None] [None]).
             ++ reflexivity.
             ++ reflexivity.
             ++ apply lv_none.
          -- pose proof (lchain_spec W i o (t_heap st) _ Sc Sb Si Nn Lv Ne n) as Ch. destruct (chain_graph i o (S n) (t_heap st)) as [[[tgs chi] cho] h1].
             intros E. injection E as <- <- <-. destruct Ch as (_ & [L1 L2 L3 L4 L5 L6]). split; [|apply An]. cbn [with_heap t_heap].
             assert (OE : forall p, In p (fold_left (fun l tg => append_nodes l (snd tg)) tgs [None]) <-> p = None \/ exists t, In t tgs /\ In p (snd t)).
             { intros p. rewrite append_all_in. cbn. intuition. }
             split.
             ++ intros a b Ia H. apply AN in Ia as [Q|Ia]; [discriminate|]. destruct (lv_up _ _ _ L1 a b Ia H) as (c & Ic & M).
                exists c. split; [apply OE; right; exact (L6 c Ic)|exact M].
             ++ intros b Ib. apply OE in Ib as [Q|(t & It & Ib)]; [discriminate|]. destruct (L3 t b It (or_intror Ib)) as (a & Ia & H).
                exists a. split; [apply AN; auto|exact H].
             ++ intros _. apply AN. auto.
    - destruct (Z.eqb_spec mx 1) as [X1|X1].
      + destruct (Z.eqb_spec mn 1) as [M1|M1]; [|discriminate]. intros E. injection E as <- <- <-. split; [apply (lv_ext _ i o); auto|apply A0n, Ne].
      + destruct (Z.eqb_spec mx inf) as [X2|X2].
        * destruct (Z.ltb_spec (o_threshold opts) mn) as [T|T]; [discriminate|].
          destruct (reserve_clones opts mn i st) as [st1|] eqn:Er; [|discriminate].
          destruct (to_nat_S mn) as (n & En); [lia|]. rewrite En.
          pose proof (lchain_spec W i o (t_heap st) _ Sc Sb Si Nn Lv Ne n) as Ch. destruct (chain_graph i o (S n) (t_heap st)) as [[[tgs chi] cho] h1].
          intros E. injection E as <- <- <-. destruct Ch as ((R' & K) & [L1 L2 L3 L4 L5 L6]). split; [|apply A0n, L2]. cbn [with_heap t_heap].
          apply (lv_ext _ chi cho); [apply A0|apply A0|].
          pose proof (last_in tgs ([], []) (ch_ne _ _ _ _ _ _ _ _ _ _ K)) as Il.
          assert (Edg := link_edges push_new h1 (snd (last tgs ([], []))) (fst (last tgs ([], []))) R' adds_new
            (fun a Ia => ch_o _ _ _ _ _ _ _ _ _ _ K _ a Il Ia) (fun a Ia => proj2 (ch_in _ _ _ _ _ _ _ _ _ _ K a Ia))).
          apply (lv_loop h1 _ _ _ Edg); [|exact L1]. intros y Iy. exact (L3 _ y Il (or_introl Iy)).
        * destruct (Z.ltb_spec mx mn) as [M2|M2]; [discriminate|]. destruct (Z.ltb_spec (o_threshold opts) mx) as [T|T]; [discriminate|].
          cbv zeta. set (first := if (1 <? mn)%Z then _ else _). assert (Ef : first = first) by reflexivity. unfold first at 2 in Ef.
          destruct first as [[[fi fo] st1]|]; [|discriminate]. symmetry in Ef.
          assert (First : exists R1, closed (t_heap st1) R1 /\ below (t_heap st1) R1 /\ (forall a, In (Some a) fi -> In a R1) /\ (forall a, In (Some a) fo -> In a R1) /\
            lv (t_heap st1) fi fo /\ fi <> [] /\ ((exists a, In (Some a) i) <-> exists a, In (Some a) fi) /\ (In None i -> In None fi) /\ frame (t_heap st) (t_heap st1)).
          { destruct (Z.ltb_spec 1 mn) as [M1|M1].
            - destruct (reserve_clones opts mn i st) as [st1'|] eqn:Er; [|discriminate]. destruct (to_nat_S mn) as (n & En); [lia|]. rewrite En in *.
              pose proof (lchain_spec W i o (t_heap st) _ Sc Sb Si Nn Lv Ne n) as Ch. destruct (chain_graph i o (S n) (t_heap st)) as [[[tgs chi] cho] h1].
              injection Ef as <- <- <-. destruct Ch as ((R' & K) & [L1 L2 L3 L4 L5 L6]). cbn [with_heap t_heap]. exists R'.
              split; [apply (ch_closed _ _ _ _ _ _ _ _ _ _ K)|]. split; [intros a Ia; apply (ch_in _ _ _ _ _ _ _ _ _ _ K a Ia)|].
              split; [apply (ch_e _ _ _ _ _ _ _ _ _ _ K)|]. split; [intros a Ia; destruct (L6 a Ia) as (t & It & X); exact (ch_o _ _ _ _ _ _ _ _ _ _ K t a It X)|].
              split; [exact L1|]. split; [exact L2|]. split; [exact L5|]. split; [|apply (ch_frame _ _ _ _ _ _ _ _ _ _ K)].
              intros X. apply (ch_en _ _ _ _ _ _ _ _ _ _ K). apply has_empty_spec, X.
            - injection Ef as <- <- <-. exists R. split; [apply G|]. split; [intros a Ia; apply (gr_in _ _ _ _ _ _ _ G a Ia)|]. split; [apply G|]. split; [apply G|].
              split; [exact Lv|]. split; [exact Ne|]. split; [reflexivity|]. split; [auto|]. split; [lia|reflexivity]. }
          clear Ef. destruct First as (R1 & F1 & F2 & F3 & F4 & F5 & F6 & F7 & F8 & F9).
          destruct (Z.ltb_spec 0 (mx - mn)) as [D|D].
          -- destruct (reserve_clones opts (mx - mn) i st1) as [st2|] eqn:Er; [|discriminate].
             destruct (reserve_clones_spec opts (mx - mn) i st1 st2 R Er) as (E1 & E2 & _). rewrite E1. destruct (to_nat_S (mx - mn) D) as (n & En). rewrite En.
             set (S0 := seen_from (t_heap st) i) in *.
             assert (Ag : agree S0 (t_heap st) (t_heap st1)) by (intros a Ia; apply (proj2 F9), Sb, Ia).
             assert (Sc1 : closed (t_heap st1) S0) by (eapply agree_closed; eassumption).
             assert (Sb1 : below (t_heap st1) S0) by (intros a Ia; specialize (Sb a Ia); destruct F9; lia).
             assert (Lv1 : lv (t_heap st1) i o) by (apply (lv_agree S0 (t_heap st)); assumption).
             pose proof (lchain_spec W i o (t_heap st1) S0 Sc1 Sb1 Si Nn Lv1 Ne n) as Ch. destruct (chain_graph i o (S n) (t_heap st1)) as [[[tgs chi] cho] h2].
             intros E. injection E as <- <- <-. destruct Ch as ((R2 & K) & [L1 L2 L3 L4 L5 L6]). split; [|apply A0n, F6]. cbn [with_heap t_heap].
             pose proof (ch_frame _ _ _ _ _ _ _ _ _ _ K) as Fr.
             assert (Ag1 : agree R1 (t_heap st1) h2) by (intros a Ia; apply (proj2 Fr), F2, Ia).
             assert (Be : below h2 R1) by (intros a Ia; specialize (F2 a Ia); destruct Fr; lia).
             assert (Edg := link_edges push_new h2 fo chi R1 adds_new F4 Be). set (h3 := link push_new h2 fo chi) in *.
             assert (Lf : lv h2 fi fo) by (apply (lv_agree R1 (t_heap st1)); assumption).
             pose proof (reach_mono h2 h3 fo chi Edg) as Mo.
             assert (OE : forall p, In p (fold_left (fun l tg => append_nodes l (snd tg)) tgs (append_nodes [] fo)) <-> In p fo \/ exists t, In t tgs /\ In p (snd t)).
             { intros p. rewrite append_all_in, A0. reflexivity. }
             split.
             ++ intros a b Ia H. rewrite A0 in Ia.
                assert (X : (exists x, In (Some x) fi /\ reach h2 x b) \/ (exists x, In (Some x) chi /\ reach h2 x b)).
                { apply (reach_ind_r h3 (fun b => (exists x, In (Some x) fi /\ reach h2 x b) \/ (exists x, In (Some x) chi /\ reach h2 x b)) a b H).
                  - left. exists a. split; [exact Ia|constructor].
                  - intros x y X E. apply Edg in E as [E|[_ E]]; [|right; exists y; split; [exact E|constructor]].
                    destruct X as [(z & Iz & X)|(z & Iz & X)]; [left|right]; exists z; (split; [exact Iz|]); exact (reach_snoc _ _ _ _ X E). }
                destruct X as [(x & Ix & X)|(x & Ix & X)].
                ** destruct (lv_up _ _ _ Lf x b Ix X) as (c & Ic & M). exists c. split; [apply OE; auto|apply Mo, M].
                ** destruct (lv_up _ _ _ L1 x b Ix X) as (c & Ic & M). exists c. split; [apply OE; right; exact (L6 c Ic)|apply Mo, M].
             ++ intros b Ib. apply OE in Ib as [Ib|(t & It & Ib)].
                ** destruct (lv_dn _ _ _ Lf b Ib) as (a & Ia & H). exists a. split; [apply A0, Ia|apply Mo, H].
                ** destruct (L3 t b It (or_intror Ib)) as (y & Iy & H). destruct (proj1 F7) as (a & Ia); [apply L5; eauto|].
                   destruct (lv_up _ _ _ Lf a a Ia (re_refl _ _)) as (c & Ic & M). exists a. split; [apply A0, Ia|].
                   eapply reach_trans; [apply Mo, M|]. apply (re_step _ c y); [apply Edg; auto|apply Mo, H].
             ++ rewrite OE, A0. intros [X|(t & It & X)]; [exact (lv_no _ _ _ Lf X)|]. apply F8. exact (L4 t It X).
          -- intros E. injection E as <- <- <-. split; [apply (lv_ext _ fi fo); auto|apply A0n, F6].
  Qed.
End Repeat.
