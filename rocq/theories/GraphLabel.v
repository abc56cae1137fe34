(** The labels and edges of a built graph.
    Its definitions are means of proof and model no code. *)
From Coq Require Import ZArith Arith String Bool List Lia.
From Verif Require Import Syntax Spec Num Occ Deps Dag Cycle LeftRec Graph GraphSpec GraphRun GraphClone GraphRep.
Import ListNotations.
Local Open Scope nat_scope.
Local Open Scope list_scope.

Section Labels.
  Variable P : elem -> Prop.
  Record sane (h : heap) : Prop := {
    sa_label : forall a e, label h a = Some e -> P e;
    sa_next : forall a b, In b (nexts h a) -> b < length h }.
  Definition within (h : heap) (l : points) : Prop := forall a, In (Some a) l -> a < length h.

  Lemma within_mono h h' l : length h <= length h' -> within h l -> within h' l.
  Proof. intros L W a Ia. specialize (W a Ia). lia. Qed.
  Lemma sane_nil : sane [].
  Proof. split; intros [|a]; cbn; intros; try discriminate; contradiction. Qed.
  Lemma sane_alloc h e : sane h -> P e -> let '(n, h') := alloc h e in sane h' /\ length h' = S (length h) /\ n = length h.
  Proof.
    intros [A B] Pe. unfold alloc. split; [|split; [rewrite app_length; cbn; lia|reflexivity]]. split.
    - intros a x. unfold label. destruct (Nat.lt_ge_cases a (length h)) as [L|L].
      + rewrite nth_error_app1 by exact L. apply A.
      + rewrite nth_error_app2 by exact L. destruct (a - length h) as [|k]; cbn; [intros E; injection E as <-; exact Pe|].
        destruct k; discriminate.
    - intros a b. unfold nexts. rewrite app_length. destruct (Nat.lt_ge_cases a (length h)) as [L|L].
      + rewrite nth_error_app1 by exact L. intros I. specialize (B a b I). lia.
      + rewrite nth_error_app2 by exact L. destruct (a - length h) as [|[|k]]; cbn; intros [].
  Qed.
  Lemma sane_link push h f t : adds push -> sane h -> within h t -> sane (link push h f t) /\ length (link push h f t) = length h.
  Proof.
    intros Ap [A B] W. destruct (link_spec push h f t Ap) as (L1 & L2 & _ & L4). split; [|exact L1]. split.
    - intros a e. rewrite L2. apply A.
    - intros a b I. rewrite L1. apply L4 in I as [I|(_ & I & _)]; [eapply B, I|apply W, I].
  Qed.
  Definition mapped (h : heap) (m : list (nat * nat)) : Prop := forall k v, In (k, v) m -> v < length h.
  Lemma cput_in k v m x y : In (x, y) (cput k v m) -> (x, y) = (k, v) \/ In (x, y) m.
  Proof.
    induction m as [|[a b] m IH]; cbn [cput]; [intros [E|[]]; auto|]. destruct (Nat.eqb a k).
    - intros [E|I]; [auto|right; right; exact I].
    - intros [E|I]; [right; left; exact E|]. destruct (IH I); [auto|right; right; assumption].
  Qed.
  Lemma cget_some k v m : cget k m = Some v -> exists x, In (x, v) m.
  Proof.
    induction m as [|[a b] m IH]; cbn [cget]; [discriminate|]. destruct (Nat.eqb a k); [intros E; injection E as ->; exists a; left; reflexivity|].
    intros E. destruct (IH E) as (x & I). exists x. right. exact I.
  Qed.
  Definition grown (h0 : heap) (hm : heap * list (nat * nat)) : Prop := sane (fst hm) /\ length h0 <= length (fst hm) /\ mapped (fst hm) (snd hm).
  Lemma grown_trans h0 h1 hm : length h0 <= length h1 -> grown h1 hm -> grown h0 hm.
  Proof. intros L (A & B & C). split; [exact A|]. split; [lia|exact C]. Qed.
  Lemma sane_clone_tg fuel : forall origin h m, sane h -> mapped h m -> origin < length h -> grown h (clone_tg fuel origin (h, m)).
  Proof.
    induction fuel as [|f IH]; intros origin h m S M L; cbn [clone_tg]; [split; [exact S|split; [apply Nat.le_refl|exact M]]|].
    destruct (nth_error h origin) as [n|] eqn:E; [|apply nth_error_None in E; lia].
    pose proof (sane_alloc h (n_elem n) S) as K. unfold alloc in *. destruct K as (K1 & K2 & _).
    { apply (sa_label h S origin). unfold label. rewrite E. reflexivity. }
    set (h1 := h ++ [mkNode (n_elem n) []]) in *.
    assert (Bo : forall b, In b (nexts h origin) -> b < length h1) by (intros b I; pose proof (sa_next h S origin b I); rewrite K2; lia).
    assert (Go : forall l hm, (forall b, In b l -> b < length h1) -> grown h1 hm ->
      grown h1 (fold_left (fun hm n => match cget n (snd hm) with Some _ => hm | None => clone_tg f n hm end) l hm)).
    { induction l as [|b l IHl]; intros [h2 m2] B G; cbn [fold_left snd]; [exact G|].
      apply IHl; [intros x I; apply B; right; exact I|]. destruct (cget b m2); [exact G|].
      destruct G as (G1 & G2 & G3). cbn [fst snd] in *. eapply grown_trans; [exact G2|]. apply IH; [exact G1|exact G3|].
      specialize (B b (or_introl eq_refl)). lia. }
    apply (grown_trans h h1); [lia|]. apply Go; [exact Bo|]. split; [exact K1|]. split; [cbn; lia|]. cbn [fst snd].
    intros k v I. apply cput_in in I as [I|I]; [injection I as -> ->; lia|]. specialize (M k v I). lia.
  Qed.
  Lemma sane_set_nexts h a l : sane h -> (forall b, In b l -> b < length h) -> sane (set_nexts h a l).
  Proof.
    intros [A B] L. split.
    - intros x e. rewrite set_nexts_label. apply A.
    - intros x b. rewrite set_nexts_nexts, set_nexts_length. destruct (Nat.eqb x a); [destruct (x <? length h); [apply L|intros []]|apply B].
  Qed.
  Lemma clone_points_within h m l : mapped h m -> within h (clone_points m l).
  Proof.
    intros M a I. unfold clone_points in I. apply in_map_iff in I as ([x|] & E & _); [|discriminate].
    apply cget_some in E as (k & I). eapply M, I.
  Qed.
  Lemma sane_clone h i o : sane h -> within h i -> let '(i', o', h') := clone_graph h i o in
    sane h' /\ length h <= length h' /\ within h' i' /\ within h' o'.
  Proof.
    intros S W. unfold clone_graph.
    assert (G : forall l hm, within h l -> grown h hm ->
      grown h (fold_left (fun hm p => match p with None => hm | Some a => clone_tg (Datatypes.S (length h)) a hm end) l hm)).
    { induction l as [|[a|] l IH]; intros [h2 m2] B G; cbn [fold_left]; [exact G| |apply IH; [intros x I; apply B; right; exact I|exact G]].
      apply IH; [intros x I; apply B; right; exact I|]. destruct G as (G1 & G2 & G3). cbn [fst snd] in *.
      eapply grown_trans; [exact G2|]. apply sane_clone_tg; [exact G1|exact G3|]. specialize (B a (or_introl eq_refl)). lia. }
    specialize (G i (h, []) W). destruct (fold_left _ i (h, [])) as [h1 m]. destruct G as (G1 & G2 & G3).
    { split; [exact S|]. split; [cbn; lia|intros k v []]. }
    cbn [fst snd] in *.
    assert (K : forall l hh, sane hh -> length hh = length h1 ->
      sane (fold_left (fun h oc => set_nexts h (snd oc) (clone_nexts m (nexts h (fst oc)))) l hh) /\
      length (fold_left (fun h oc => set_nexts h (snd oc) (clone_nexts m (nexts h (fst oc)))) l hh) = length h1).
    { induction l as [|[k v] l IH]; intros hh Sh Lh; cbn [fold_left fst snd]; [auto|]. apply IH; [|rewrite set_nexts_length; exact Lh].
      apply sane_set_nexts; [exact Sh|]. intros b I. unfold clone_nexts in I. apply in_flat_map in I as (x & _ & I).
      destruct (cget x m) eqn:E; [|destruct I]. destruct I as [->|[]]. apply cget_some in E as (y & E). rewrite Lh. eapply G3, E. }
    destruct (K m h1 G1 eq_refl) as [K1 K2]. split; [exact K1|]. rewrite K2. split; [exact G2|].
    split; (eapply within_mono; [|apply clone_points_within, G3]; rewrite K2; lia).
  Qed.

  Lemma within_app h a b : within h a -> within h b -> within h (a ++ b).
  Proof. intros A B x I. apply in_app_or in I as [I|I]; auto. Qed.
  Lemma within_filter h p a : within h a -> within h (filter p a).
  Proof. intros A x I. apply filter_In in I as [I _]. auto. Qed.
  Lemma within_incl h a b : (forall x, In (Some x) a -> In (Some x) b) -> within h b -> within h a.
  Proof. intros I W x K. apply W, I, K. Qed.
  Lemma within_if h (c : bool) a b : within h a -> within h b -> within h (if c then a else b).
  Proof. destruct c; auto. Qed.
  Lemma within_nil h : within h [].
  Proof. intros a []. Qed.
  Lemma within_none h : within h [None].
  Proof. intros a [E|[]]. discriminate. Qed.
  Lemma within_append h a b : within h a -> within h b -> within h (append_nodes a b).
  Proof. intros A B x I. apply GraphRep.append_nodes_in in I as [I|I]; auto. Qed.
  Lemma within_fold h tgs : (forall tg, In tg tgs -> within h (snd tg)) -> forall l, within h l ->
    within h (fold_left (fun l (tg : points * points) => append_nodes l (snd tg)) tgs l).
  Proof.
    induction tgs as [|t tgs IH]; intros T l L; cbn [fold_left]; [exact L|]. apply IH; [intros x I; apply T; right; exact I|].
    apply within_append; [exact L|apply T; left; reflexivity].
  Qed.

  Lemma sane_concat h pi po ci co : sane h -> within h pi -> within h po -> within h ci -> within h co ->
    let '(i, o, h') := concat_graphs pi po ci co h in sane h' /\ length h' = length h /\ within h' i /\ within h' o.
  Proof.
    intros S A B C D. unfold concat_graphs. destruct (sane_link push_next h po ci adds_next S C) as [K1 K2].
    split; [exact K1|]. split; [exact K2|]. split; (apply (within_mono h); [rewrite K2; apply Nat.le_refl|]).
    - apply within_if; [apply within_app; [apply within_filter|]|]; assumption.
    - apply within_app; [apply within_if; [assumption|apply within_nil]|apply within_filter; assumption].
  Qed.
  Definition tgs_within (h : heap) (tgs : list (points * points)) : Prop := forall tg, In tg tgs -> within h (fst tg) /\ within h (snd tg).
  Lemma tgs_mono h h' tgs : length h <= length h' -> tgs_within h tgs -> tgs_within h' tgs.
  Proof. intros L T tg I. destruct (T tg I). split; eapply within_mono; eassumption. Qed.
  Lemma sane_chain_loop n : forall i o tgs e f h, sane h -> within h i -> within h o -> tgs_within h tgs -> within h e -> within h f ->
    let '(tgs', e', f', h') := chain_loop n i o tgs e f h in
    sane h' /\ length h <= length h' /\ tgs_within h' tgs' /\ within h' e' /\ within h' f'.
  Proof.
    induction n as [|n IH]; intros i o tgs e f h S A B T E F; cbn [chain_loop]; [repeat (split; [assumption || apply Nat.le_refl|]); assumption|].
    pose proof (sane_clone h i o S A) as K. destruct (clone_graph h i o) as [[ni no] h1]. destruct K as (K1 & K2 & K3 & K4).
    pose proof (sane_concat h1 e f ni no K1 (within_mono _ _ _ K2 E) (within_mono _ _ _ K2 F) K3 K4) as J.
    destruct (concat_graphs e f ni no h1) as [[e' f'] h2]. destruct J as (J1 & J2 & J3 & J4).
    specialize (IH i o (tgs ++ [(ni, no)]) e' f' h2 J1). destruct (chain_loop n i o (tgs ++ [(ni, no)]) e' f' h2) as [[[tgs' e2] f2] h3].
    destruct IH as (I1 & I2 & I3); [eapply within_mono; [|exact A]; lia|eapply within_mono; [|exact B]; lia| |exact J3|exact J4|].
    - intros tg I. apply in_app_or in I as [I|[<-|[]]]; [apply (tgs_mono h h2 tgs ltac:(lia) T tg I)|].
      cbn [fst snd]. split; (eapply within_mono; [|eassumption]; lia).
    - split; [exact I1|]. split; [lia|exact I3].
  Qed.
  Lemma sane_chain n i o h : sane h -> within h i -> within h o ->
    let '(tgs', e', f', h') := chain_graph i o n h in
    sane h' /\ length h <= length h' /\ tgs_within h' tgs' /\ within h' e' /\ within h' f'.
  Proof.
    intros S A B. destruct n as [|n]; cbn [chain_graph].
    - split; [exact S|]. split; [lia|]. split; [intros tg []|]. split; apply within_nil.
    - pose proof (sane_clone h i o S A) as K. destruct (clone_graph h i o) as [[ni no] h1]. destruct K as (K1 & K2 & K3 & K4).
      pose proof (sane_chain_loop n i o [(ni, no)] ni no h1 K1 (within_mono _ _ _ K2 A) (within_mono _ _ _ K2 B)) as J.
      destruct (chain_loop n i o [(ni, no)] ni no h1) as [[[tgs' e2] f2] h3]. destruct J as (J1 & J2 & J3); auto.
      + intros tg [<-|[]]. split; assumption.
      + split; [exact J1|]. split; [lia|exact J3].
  Qed.

  (** ** The machine *)
  Variable opts : tgoptions.
  Definition sane_st (st : tgstate) : Prop := sane (t_heap st) /\
    forall n i o, In (n, (i, o)) (t_buf st) -> within (t_heap st) i /\ within (t_heap st) o.
  Definition sound (st : tgstate) (r : tres) : Prop :=
    match r with
    | T_ok i o st' => sane_st st' /\ length (t_heap st) <= length (t_heap st') /\ within (t_heap st') i /\ within (t_heap st') o
    | _ => True
    end.
  Lemma reserve_same n st st' : reserve opts n st = Some st' -> t_heap st' = t_heap st /\ t_buf st' = t_buf st.
  Proof.
    unfold reserve. destruct (o_max opts <=? 0)%Z; [intros E; injection E as <-; auto|].
    match goal with |- context [if ?c then None else _] => destruct c end; [discriminate|]. intros E. injection E as <-. auto.
  Qed.
  Lemma reserve_clones_same n i st st' : reserve_clones opts n i st = Some st' -> t_heap st' = t_heap st /\ t_buf st' = t_buf st.
  Proof. unfold reserve_clones. destruct (o_max opts <=? 0)%Z; [intros E; injection E as <-; auto|apply reserve_same]. Qed.
  (** A new heap. *)
  Lemma sound_heap st st1 h i o : sane_st st -> t_heap st1 = t_heap st -> t_buf st1 = t_buf st -> sane h -> length (t_heap st) <= length h ->
    within h i -> within h o -> sound st (T_ok i o (with_heap st1 h)).
  Proof.
    intros [S1 S2] E1 E2 Sh L A B. cbn [sound with_heap t_heap t_buf]. split; [|split; [exact L|split; assumption]]. split; [exact Sh|].
    unfold with_heap. cbn [t_buf t_heap]. intros n x y I. rewrite E2 in I. destruct (S2 n x y I). split; eapply within_mono; eassumption.
  Qed.
  Lemma sound_one e st : sane_st st -> P e -> sound st (one_node opts e st).
  Proof.
    intros S Pe. unfold one_node. destruct (reserve opts 1 st) as [st1|] eqn:E; [|exact Logic.I].
    apply reserve_same in E as [E1 E2]. rewrite E1. pose proof (sane_alloc (t_heap st) e (proj1 S) Pe) as K.
    destruct (alloc (t_heap st) e) as [n h1]. destruct K as (K1 & K2 & K3).
    apply sound_heap; auto; [lia| |]; intros a [Q|[]]; injection Q as <-; lia.
  Qed.
  Lemma sound_rep mn mx i o st0 st : sane_st st -> length (t_heap st0) <= length (t_heap st) -> within (t_heap st) i -> within (t_heap st) o ->
    sound st0 (rep_build opts mn mx i o st).
  Proof.
    intros S L A B.
    assert (Up : forall r, sound st r -> sound st0 r).
    { intros [x y s| | |]; cbn [sound]; auto. intros (X1 & X2 & X3). split; [exact X1|]. split; [lia|exact X3]. }
    apply Up. clear st0 L Up.
    assert (Same : forall x y, within (t_heap st) x -> within (t_heap st) y -> sound st (T_ok x y st)).
    { intros x y X Y. cbn [sound]. split; [exact S|]. split; [lia|]. split; assumption. }
    unfold rep_build. cbn zeta. destruct (mn =? 0)%Z.
    - destruct (mx =? 1)%Z; [apply Same; apply within_append; auto using within_none|].
      destruct (mx =? inf)%Z.
      { assert (Wf : within (t_heap st) (append_nodes [] (filter (fun p => negb (is_none p)) i)))
          by (apply within_append; [apply within_nil|apply within_filter, A]).
        destruct (sane_link push_new (t_heap st) o _ adds_new (proj1 S) Wf) as [K1 K2].
        apply sound_heap; auto; [lia| |]; apply within_append; auto using within_none; eapply within_mono; try eassumption; lia. }
      destruct (o_threshold opts <? mx)%Z; [exact Logic.I|].
      destruct (reserve_clones opts mx i st) as [st1|] eqn:E; [|exact Logic.I]. apply reserve_clones_same in E as [E1 E2].
      pose proof (sane_chain (Z.to_nat mx) i o (t_heap st) (proj1 S) A B) as K.
      destruct (chain_graph i o (Z.to_nat mx) (t_heap st)) as [[[tgs e] f] h1]. destruct K as (K1 & K2 & K3 & K4 & K5).
      apply sound_heap; auto; [apply within_append; auto using within_none|]. apply within_fold; [apply K3|apply within_none].
    - destruct (mx =? 1)%Z.
      { destruct (mn =? 1)%Z; [|exact Logic.I]. apply Same; apply within_append; auto using within_nil. }
      destruct (mx =? inf)%Z.
      { destruct (o_threshold opts <? mn)%Z; [exact Logic.I|].
        destruct (reserve_clones opts mn i st) as [st1|] eqn:E; [|exact Logic.I]. apply reserve_clones_same in E as [E1 E2].
        pose proof (sane_chain (Z.to_nat mn) i o (t_heap st) (proj1 S) A B) as K.
        destruct (chain_graph i o (Z.to_nat mn) (t_heap st)) as [[[tgs e] f] h1]. destruct K as (K1 & K2 & K3 & K4 & K5).
        assert (Wl : within h1 (fst (last tgs ([], [])))).
        { assert (D : tgs = [] \/ tgs <> []) by (destruct tgs; [auto|right; discriminate]). destruct D as [-> |D]; [apply within_nil|]. apply K3.
          rewrite (app_removelast_last ([], []) D) at 2. apply in_or_app. right. left. reflexivity. }
        destruct (sane_link push_new h1 (snd (last tgs ([], []))) _ adds_new K1 Wl) as [J1 J2].
        apply sound_heap; auto; [lia| |]; apply within_append; auto using within_nil; eapply within_mono; try eassumption; lia. }
      destruct (mx <? mn)%Z; [exact Logic.I|]. destruct (o_threshold opts <? mx)%Z; [exact Logic.I|].
      assert (Rest : forall fi lo st1, sane_st st1 -> length (t_heap st) <= length (t_heap st1) -> within (t_heap st1) fi -> within (t_heap st1) lo ->
        sound st (if (0 <? mx - mn)%Z then
              match reserve_clones opts (mx - mn) i st1 with
              | None => T_err TE_max_nodes
              | Some st2 =>
                  let '(tgs, chi, _, h2) := chain_graph i o (Z.to_nat (mx - mn)) (t_heap st2) in
                  T_ok (append_nodes [] fi) (fold_left (fun l tg => append_nodes l (snd tg)) tgs (append_nodes [] lo)) (with_heap st2 (link push_new h2 lo chi))
              end
            else T_ok (append_nodes [] fi) (append_nodes [] lo) st1)).
      { intros fi lo st1 S1 L1 Wf Wl. destruct (0 <? mx - mn)%Z.
        2: { cbn [sound]. split; [exact S1|]. split; [exact L1|]. split; apply within_append; auto using within_nil. }
        destruct (reserve_clones opts (mx - mn) i st1) as [st2|] eqn:E; [|exact Logic.I]. apply reserve_clones_same in E as [E1 E2].
        pose proof (sane_chain (Z.to_nat (mx - mn)) i o (t_heap st1) (proj1 S1) (within_mono _ _ _ L1 A) (within_mono _ _ _ L1 B)) as K. rewrite E1.
        destruct (chain_graph i o (Z.to_nat (mx - mn)) (t_heap st1)) as [[[tgs e] f] h2]. destruct K as (K1 & K2 & K3 & K4 & K5).
        destruct (sane_link push_new h2 lo e adds_new K1 K4) as [J1 J2].
        assert (G : sound st1 (T_ok (append_nodes [] fi) (fold_left (fun l tg => append_nodes l (snd tg)) tgs (append_nodes [] lo)) (with_heap st2 (link push_new h2 lo e)))).
        { apply sound_heap; auto; [lia| |].
          - apply within_append; [apply within_nil|]. eapply within_mono; [|exact Wf]. lia.
          - apply (within_mono h2); [lia|]. apply within_fold; [apply K3|]. apply within_append; [apply within_nil|]. eapply within_mono; [|exact Wl]. lia. }
        cbn [sound] in *. destruct G as (G1 & G2 & G3). split; [exact G1|]. split; [lia|exact G3]. }
      destruct (1 <? mn)%Z; [|apply Rest; auto].
      destruct (reserve_clones opts mn i st) as [st1|] eqn:E; [|exact Logic.I]. apply reserve_clones_same in E as [E1 E2].
      pose proof (sane_chain (Z.to_nat mn) i o (t_heap st) (proj1 S) A B) as K.
      destruct (chain_graph i o (Z.to_nat mn) (t_heap st)) as [[[tgs e] f] h1]. destruct K as (K1 & K2 & K3 & K4 & K5).
      pose proof (sound_heap st st1 h1 e f S E1 E2 K1 K2 K4 K5) as (G1 & G2 & G3 & G4). apply Rest; assumption.
  Qed.

  (** What may be put in nodes. *)
  Variable g : grammar.
  Variables (Oe : elem -> Prop) (Or : rep -> Prop).
  Record allows_of : Prop := {
    al_rule : forall n, o_rules opts = false -> Oe (ERule n) -> P (ERule n);
    al_char : forall s v vs, Oe (EChar s (v :: vs)) -> P (EChar s (v :: vs));
    al_chars : forall s vs r, Oe (EChar s vs) -> In r vs -> P (EChar true [r]) /\ (s = false -> P (EChar true [rune_min r]) /\ P (EChar true [rune_max r]));
    al_num : forall b k es, o_numvals opts = false -> Oe (ENum b k es) -> P (ENum b k es);
    al_series : forall b es s, Oe (ENum b StatSeries es) -> In s es -> P (ENum b StatSeries [s]);
    al_range : forall b lo hi es r, Oe (ENum b StatRange (lo :: hi :: es)) ->
      (numval_to_int32 lo b <= r <= Z.min (numval_to_int32 hi b) 0x10FFFF)%Z -> P (ENum b StatSeries [int32_to_numval r b]) }.
  Hypothesis Al : allows_of.
  (** Elements met in the traversal. *)
  Record met : Prop := {
    met_rep : forall mn mx e, Or (Rep mn mx e) -> Oe e;
    met_group : forall a c x, Oe (EGroup a) -> In c a -> In x c -> Or x;
    met_option : forall a c x, Oe (EOption a) -> In c a -> In x c -> Or x;
    met_rule : forall n r c x, Oe (ERule n) -> get_rule n g = Some r -> In c (rule_alt r) -> In x c -> Or x }.
  Hypothesis Met : met.

  Lemma sane_series b ss : forall acc h, (forall s, In s ss -> P (ENum b StatSeries [s])) -> sane h -> within h acc ->
    let '(ps, h') := alloc_series b ss acc h in sane h' /\ length h <= length h' /\ within h' ps.
  Proof.
    induction ss as [|s ss IH]; intros acc h Ps S A; cbn [alloc_series]; [split; [exact S|split; [lia|exact A]]|].
    pose proof (sane_alloc h _ S (Ps s (or_introl eq_refl))) as K. destruct (alloc h (ENum b StatSeries [s])) as [n h1]. destruct K as (K1 & K2 & K3).
    specialize (IH (acc ++ [Some n]) h1 (fun x I => Ps x (or_intror I)) K1).
    destruct (alloc_series b ss (acc ++ [Some n]) h1) as [ps h2]. destruct IH as (I1 & I2 & I3).
    - apply within_app; [eapply within_mono; [|exact A]; lia|]. intros a [Q|[]]. injection Q as <-. lia.
    - split; [exact I1|]. split; [lia|exact I3].
  Qed.
  Lemma within_map h l : (forall a, In a l -> a < length h) -> within h (map Some l).
  Proof. intros L a I. apply in_map_iff in I as (x & E & I). injection E as <-. apply L, I. Qed.
  Lemma sane_deflate s vs : forall prevs entry h, (forall r, In r vs -> P (EChar true [r]) /\ (s = false -> P (EChar true [rune_min r]) /\ P (EChar true [rune_max r]))) ->
    sane h -> within h (map Some prevs) -> within h entry ->
    let '(i, o, h') := deflate_chars s vs prevs entry h in sane h' /\ length h <= length h' /\ within h' i /\ within h' o.
  Proof.
    induction vs as [|r vs IH]; intros prevs entry h Ps S A B; cbn [deflate_chars]; [split; [exact S|split; [lia|split; assumption]]|].
    cbn zeta. set (both := (_ && negb s)%bool).
    assert (C : exists curr h1, (if both
        then let '(nl, h1) := alloc h (EChar true [rune_min r]) in let '(nu, h2) := alloc h1 (EChar true [rune_max r]) in ([nl; nu], h2)
        else let '(n, h1) := alloc h (EChar true [r]) in ([n], h1)) = (curr, h1) /\ sane h1 /\ length h <= length h1 /\ within h1 (map Some curr)).
    { destruct (Ps r (or_introl eq_refl)) as [P1 P2]. destruct both eqn:Eb.
      - assert (Es : s = false) by (unfold both in Eb; apply andb_true_iff in Eb as [_ Eb]; destruct s; [discriminate|reflexivity]).
        destruct (P2 Es) as [P3 P4]. pose proof (sane_alloc h _ S P3) as K. unfold alloc in *. destruct K as (K1 & K2 & _).
        pose proof (sane_alloc _ _ K1 P4) as J. unfold alloc in *. destruct J as (J1 & J2 & _).
        eexists _, _. split; [reflexivity|]. split; [exact J1|]. split; [lia|]. apply within_map. intros a [<-|[<-|[]]]; lia.
      - pose proof (sane_alloc h _ S P1) as K. unfold alloc in *. destruct K as (K1 & K2 & _).
        eexists _, _. split; [reflexivity|]. split; [exact K1|]. split; [lia|]. apply within_map. intros a [<-|[]]. lia. }
    destruct C as (curr & h1 & -> & C1 & C2 & C3).
    destruct (sane_link push_next h1 (map Some prevs) (map Some curr) adds_next C1 C3) as [J1 J2].
    set (entry' := match prevs with [] => entry ++ map Some curr | _ => entry end).
    assert (We : within h1 entry').
    { unfold entry'. destruct prevs; [apply within_app; [|exact C3]|]; eapply within_mono; eassumption. }
    specialize (IH curr entry' _ (fun x I => Ps x (or_intror I)) J1).
    destruct (deflate_chars s vs curr entry' (link push_next h1 (map Some prevs) (map Some curr))) as [[i o] h3].
    destruct IH as (I1 & I2 & I3); [eapply within_mono; [|exact C3]; lia|eapply within_mono; [|exact We]; lia|].
    split; [exact I1|]. split; [lia|exact I3].
  Qed.
  Lemma sound_char s vs st : Oe (EChar s vs) -> sane_st st -> sound st (char_graph opts s vs st).
  Proof.
    intros Oc S. unfold char_graph. destruct vs as [|v vs'].
    - cbn [sound]. split; [exact S|]. split; [lia|]. split; apply within_none.
    - pose proof (al_char Al _ _ _ Oc) as Pv. set (vs := v :: vs') in *. clearbody vs. destruct (negb (o_charvals opts)); [apply sound_one; [exact S|exact Pv]|].
      destruct (reserve opts (2 * Z.of_nat (length vs)) st) as [st1|] eqn:E; [|exact Logic.I]. apply reserve_same in E as [E1 E2].
      pose proof (sane_deflate s vs [] [] (t_heap st) (fun r => al_chars Al s vs r Oc) (proj1 S) (within_nil _) (within_nil _)) as K.
      rewrite E1. destruct (deflate_chars s vs [] [] (t_heap st)) as [[i o] h1]. destruct K as (K1 & K2 & K3 & K4). apply sound_heap; auto.
  Qed.
  Lemma sound_num b k es st : Oe (ENum b k es) -> sane_st st -> sound st (num_graph opts b k es st).
  Proof.
    intros Oc S. unfold num_graph. destruct (o_numvals opts) eqn:Ed; cbn [negb]; [|apply sound_one; [exact S|apply (al_num Al); assumption]].
    destruct k.
    - destruct (reserve opts (Z.of_nat (length es)) st) as [st1|] eqn:E; [|exact Logic.I]. apply reserve_same in E as [E1 E2].
      pose proof (sane_series b es [] (t_heap st) (fun s => al_series Al b es s Oc) (proj1 S) (within_nil _)) as K.
      rewrite E1. destruct (alloc_series b es [] (t_heap st)) as [ps h1]. destruct K as (K1 & K2 & K3). apply sound_heap; auto.
    - destruct es as [|lo [|hi es]]; try exact Logic.I. cbn zeta.
      pose proof (al_range Al b lo hi es) as Ar. set (mn := numval_to_int32 lo b) in *. set (mx := Z.min (numval_to_int32 hi b) 0x10FFFF) in *.
      destruct (Z.ltb_spec 0x10FFFF mn); [cbn [orb sound]; split; [exact S|]; split; [lia|]; split; apply within_nil|].
      destruct (Z.ltb_spec mx mn); cbn [orb]; [cbn [sound]; split; [exact S|]; split; [lia|]; split; apply within_nil|].
      destruct (reserve opts (mx - mn + 1) st) as [st1|] eqn:E; [|exact Logic.I]. apply reserve_same in E as [E1 E2].
      assert (Ps : forall s, In s (range_values b mn mx) -> P (ENum b StatSeries [s])).
      { intros s I. unfold range_values in I. apply in_map_iff in I as (j & <- & I). apply in_seq in I. apply Ar; [exact Oc|]. lia. }
      pose proof (sane_series b (range_values b mn mx) [] (t_heap st) Ps (proj1 S) (within_nil _)) as K.
      rewrite E1. destruct (alloc_series b (range_values b mn mx) [] (t_heap st)) as [ps h1]. destruct K as (K1 & K2 & K3). apply sound_heap; auto.
  Qed.

  Lemma sound_trans st0 st r : length (t_heap st0) <= length (t_heap st) -> sound st r -> sound st0 r.
  Proof. intros L. destruct r as [x y s| | |]; cbn [sound]; auto. intros (X1 & X2 & X3). split; [exact X1|]. split; [lia|exact X3]. Qed.
  Section Traverse.
    Variable f : rep -> tgstate -> tres.
    Lemma cat_rest_sound c : (forall r st, In r c -> sane_st st -> sound st (f r st)) -> forall ci co st, sane_st st ->
      within (t_heap st) ci -> within (t_heap st) co -> sound st (cat_rest f c ci co st).
    Proof.
      induction c as [|r c IH]; intros F ci co st S A B; cbn [cat_rest]; [cbn [sound]; split; [exact S|]; split; [lia|split; assumption]|].
      pose proof (F r st (or_introl eq_refl) S) as K. destruct (f r st) as [ri ro st1|e| |]; cbn [sound] in K; try exact Logic.I.
      destruct K as (K1 & K2 & K3 & K4).
      pose proof (sane_concat (t_heap st1) ci co ri ro (proj1 K1) (within_mono _ _ _ K2 A) (within_mono _ _ _ K2 B) K3 K4) as J.
      destruct (concat_graphs ci co ri ro (t_heap st1)) as [[ci' co'] h]. destruct J as (J1 & J2 & J3 & J4).
      destruct (sound_heap st1 st1 h ci' co' K1 eq_refl eq_refl J1 ltac:(lia) J3 J4) as (G1 & G2 & G3 & G4).
      apply (sound_trans st (with_heap st1 h)); [lia|]. apply IH; auto. intros x s I. apply F. right. exact I.
    Qed.
    Lemma within_join h l n : within h l -> within h n -> within h (join_points l n).
    Proof. intros A B. unfold join_points. apply within_app; [exact A|]. destruct (has_empty l); [apply within_filter|]; exact B. Qed.
    Lemma alt_sound a : (forall c r st, In c a -> In r c -> sane_st st -> sound st (f r st)) -> forall i o st, sane_st st ->
      within (t_heap st) i -> within (t_heap st) o -> sound st (alt_loop f a i o st).
    Proof.
      induction a as [|c a IH]; intros F i o st S A B; cbn [alt_loop]; [cbn [sound]; split; [exact S|]; split; [lia|split; assumption]|].
      assert (K : sound st (cat_with f c st)).
      { destruct c as [|r c]; [exact Logic.I|]. cbn [cat_with].
        pose proof (F (r :: c) r st (or_introl eq_refl) (or_introl eq_refl) S) as K. destruct (f r st) as [ri ro st1|e| |]; cbn [sound] in K; try exact Logic.I.
        destruct K as (K1 & K2 & K3 & K4). apply (sound_trans st st1); [exact K2|]. apply cat_rest_sound; auto.
        intros x s I. apply (F (r :: c)); [left; reflexivity|right; exact I]. }
      destruct (cat_with f c st) as [ci co st1|e| |]; cbn [sound] in K; try exact Logic.I. destruct K as (K1 & K2 & K3 & K4).
      apply (sound_trans st st1); [exact K2|]. apply IH; auto; [|apply within_join..]; auto.
      - intros c' r s I. apply F. right. exact I.
      - eapply within_mono; eassumption.
      - eapply within_mono; eassumption.
    Qed.
  End Traverse.
  Lemma elem_rep_sound call : (forall n st, Oe (ERule n) -> sane_st st -> sound st (call n st)) ->
    (forall e, Oe e -> forall st, sane_st st -> sound st (elem_graph opts call e st)) /\
    (forall r, Or r -> forall st, sane_st st -> sound st (rep_graph opts call r st)).
  Proof.
    intros R.
    assert (Sub : forall a0, Forall (Forall (fun r => Or r -> forall st, sane_st st -> sound st (rep_graph opts call r st))) a0 ->
      (forall c x, In c a0 -> In x c -> Or x) -> forall st, sane_st st -> sound st (alt_with (rep_graph opts call) a0 st)).
    { intros a0 F Oc st S. unfold alt_with. apply alt_sound; [|exact S|apply within_nil..]. intros c r s Ic Ir. rewrite Forall_forall in F. specialize (F c Ic).
      rewrite Forall_forall in F. apply (F r Ir). eapply Oc; eassumption. }
    apply elem_rep_ind.
    - intros n Oc st S. change (elem_graph opts call (ERule n) st) with (if o_rules opts then call n st else one_node opts (ERule n) st).
      destruct (o_rules opts) eqn:Er; [apply R; assumption|apply sound_one; [exact S|apply (al_rule Al); assumption]].
    - intros a F Oc st S. change (elem_graph opts call (EGroup a) st) with (alt_with (rep_graph opts call) a st).
      apply Sub; [exact F|intros c x; apply (met_group Met _ _ _ Oc)|exact S].
    - intros a F Oc st S. change (elem_graph opts call (EOption a) st) with
        (match alt_with (rep_graph opts call) a st with T_ok i o st1 => T_ok (append_nodes i [None]) (append_nodes o [None]) st1 | x => x end).
      assert (K : sound st (alt_with (rep_graph opts call) a st)) by (apply Sub; [exact F|intros c x; apply (met_option Met _ _ _ Oc)|exact S]).
      destruct (alt_with (rep_graph opts call) a st); auto. cbn [sound] in *. destruct K as (K1 & K2 & K3 & K4). split; [exact K1|]. split; [exact K2|].
      split; apply within_append; auto using within_none.
    - intros s vs Oc st S. apply sound_char; assumption.
    - intros b k es Oc st S. apply sound_num; assumption.
    - intros v Oc st S. exact Logic.I.
    - intros mn mx e F Oc st S. change (rep_graph opts call (Rep mn mx e) st) with
        (match elem_graph opts call e st with T_ok ei eo st1 => rep_build opts mn mx ei eo st1 | x => x end).
      assert (K : sound st (elem_graph opts call e st)) by (apply F; [exact (met_rep Met _ _ _ Oc)|exact S]).
      destruct (elem_graph opts call e st) as [ei eo st1|x| |]; auto. destruct K as (K1 & K2 & K3 & K4). apply sound_rep; assumption.
  Qed.
  Lemma rule_alt_sound r call : (forall c x, In c (rule_alt r) -> In x c -> Or x) -> (forall n st, Oe (ERule n) -> sane_st st -> sound st (call n st)) ->
    forall st, sane_st st -> sound st (alt_graph opts call (rule_alt r) st).
  Proof.
    intros G R st S. unfold alt_graph, alt_with.
    apply alt_sound; [|exact S|apply within_nil..]. intros c x s Ic Ix. apply (proj2 (elem_rep_sound call R)). exact (G c x Ic Ix).
  Qed.
  Lemma buf_get_in k m v : buf_get k m = Some v -> In (k, v) m.
  Proof.
    induction m as [|[x u] m IH]; cbn [buf_get]; [discriminate|]. destruct (String.eqb_spec x k) as [->|_]; [|right; auto].
    intros E. injection E as ->. left. reflexivity.
  Qed.
  Lemma rule_sound fuel : forall n st, Oe (ERule n) -> sane_st st -> sound st (rule_graph fuel opts g n st).
  Proof.
    induction fuel as [|f IH]; intros n st On S; cbn [rule_graph]; [exact Logic.I|].
    destruct (buf_get (lower n) (t_buf st)) as [[bi bo]|] eqn:Eb.
    - destruct (reserve_clones opts 1 bi st) as [st1|] eqn:E; [|exact Logic.I]. apply reserve_clones_same in E as [E1 E2].
      apply buf_get_in in Eb. destruct (proj2 S _ _ _ Eb) as [Wi Wo].
      pose proof (sane_clone (t_heap st) bi bo (proj1 S) Wi) as K. rewrite E1. destruct (clone_graph (t_heap st) bi bo) as [[i o] h1].
      destruct K as (K1 & K2 & K3 & K4). apply sound_heap; auto.
    - destruct (get_rule n g) as [r|] eqn:G; [|exact Logic.I].
      pose proof (rule_alt_sound r _ (fun c x => met_rule Met n r c x On G) IH st S) as K. destruct (alt_graph opts (rule_graph f opts g) (rule_alt r) st) as [i o st1|e| |]; auto.
      destruct K as (K1 & K2 & K3 & K4). destruct (reserve_clones opts 1 i st1) as [st2|] eqn:E; [|exact Logic.I]. apply reserve_clones_same in E as [E1 E2].
      pose proof (sane_clone (t_heap st1) i o (proj1 K1) K3) as J. rewrite E1. destruct (clone_graph (t_heap st1) i o) as [[ni no] h1].
      destruct J as (J1 & J2 & J3 & J4). cbn [sound t_heap t_buf]. split; [split; [exact J1|]|].
      + cbn [t_buf t_heap]. rewrite E2. intros m x y [Q|I]; [injection Q as <- <- <-; auto|].
        destruct (proj2 K1 m x y I). split; eapply within_mono; eassumption.
      + split; [lia|]. split; eapply within_mono; eassumption.
  Qed.
  (** The graph built. *)
  Lemma built_sane_of fuel g1 g2 order n t c : (forall r c x, get_rule n g = Some r -> In c (rule_alt r) -> In x c -> Or x) ->
    transition_graph fuel opts g g1 g2 order n = TG_ok t c ->
    sane (tg_heap t) /\ within (tg_heap t) (tg_entry t) /\ within (tg_heap t) (tg_ends t).
  Proof.
    intros Top. unfold transition_graph. destruct (get_rule n g) as [r|] eqn:G; [|discriminate].
    destruct (if o_rules opts then semval_abnf g1 g2 g else None); [discriminate|].
    destruct (rule_contains_cycle g order n) as [|[]|]; try discriminate.
    pose proof (rule_alt_sound r (rule_graph fuel opts g) (fun c x => Top r c x eq_refl) (rule_sound fuel) (mkT [] [] 0)) as K.
    destruct (alt_graph opts (rule_graph fuel opts g) (rule_alt r) (mkT [] [] 0)) as [i o st|e| |]; try discriminate.
    destruct K as ((K1 & _) & _ & K3); [split; [apply sane_nil|intros x y z []]|]. intros E. injection E as <- <-. auto.
  Qed.
End Labels.

(** With all the elements occurring in the grammar or a core rule. *)
Definition allows (P : elem -> Prop) (opts : tgoptions) (g : grammar) : Prop := allows_of P opts (occ_elem g).
Lemma occ_met g : met g (occ_elem g) (occ_rep g).
Proof.
  split; [intros mn mx e H; econstructor; exact H|apply occ_rep_group|apply occ_rep_option|].
  intros n r c x _ G. apply occ_rep_rule. exact (proj2 (LeftRec.get_rule_name n g r G)).
Qed.
Lemma built_sane P opts g (Al : allows P opts g) fuel g1 g2 order n t c : transition_graph fuel opts g g1 g2 order n = TG_ok t c ->
  sane P (tg_heap t) /\ within (tg_heap t) (tg_entry t) /\ within (tg_heap t) (tg_ends t).
Proof.
  apply (built_sane_of P opts g _ _ Al (occ_met g)). intros r d x G. apply occ_rep_rule. exact (proj2 (LeftRec.get_rule_name n g r G)).
Qed.
Lemma get_resolves n g r : get_rule n g = Some r -> resolves g n (rule_alt r).
Proof.
  intros G. unfold get_rule, get_rule_core, get_rule_in in G. destruct (find (fun r => equal_fold n (rule_name r)) g) as [x|] eqn:F.
  - injection G as ->. apply find_some in F as [I E]. left. exists r. split; [exact I|]. split; [apply String.eqb_eq, E|reflexivity].
  - right. split.
    + intros x I E. apply String.eqb_eq in E. pose proof (find_none _ _ F x I) as N. cbn beta in N. unfold equal_fold in N. rewrite E in N. discriminate.
    + apply find_some in G as [I E]. exists r. split; [exact I|]. split; [apply String.eqb_eq, E|reflexivity].
Qed.
(** With the elements used from a rule. *)
Lemma used_met g n : met g (used_elem g n) (used_rep g n).
Proof.
  split; [intros mn mx e H; econstructor; exact H|apply used_group|apply used_option|].
  intros m r c x U G. apply (used_rule g n m _ c x U (get_resolves m g r G)).
Qed.
Lemma built_sane_used P opts g n (Al : allows_of P opts (used_elem g n)) fuel g1 g2 order t c : transition_graph fuel opts g g1 g2 order n = TG_ok t c ->
  sane P (tg_heap t) /\ within (tg_heap t) (tg_entry t) /\ within (tg_heap t) (tg_ends t).
Proof.
  apply (built_sane_of P opts g _ _ Al (used_met g n)). intros r d x G. apply (used_top g n _ d x (get_resolves n g r G)).
Qed.
