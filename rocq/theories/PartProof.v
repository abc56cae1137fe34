(** Proofs about a closed part of a grammar.  Its definitions are means of proof and model no code. *)
From Coq Require Import ZArith Arith String Ascii Bool Relations List Lia.
From Verif Require Import Syntax Spec Num Term PropTerm Deps Dag Cycle PropDag Printer Check LeftRec PropLeftRec Generate Slots Gll LowerProof LowerLang PrintInj PropSem PropGll
  SpellProof Recog RecogProof RecogComplete RecogGlue PropRecog Part.
From Verif Require Regex Graph Occ.
Import ListNotations.
Local Open Scope string_scope.
Local Open Scope list_scope.
Local Open Scope nat_scope.

Lemma distinct_eq g r r' : distinct_names g -> In r g -> In r' g -> same_name (rule_name r) (rule_name r') -> r = r'.
Proof.
  unfold distinct_names, same_name. induction g as [|x g IH]; cbn [map]; intros D I I' E; [destruct I|].
  inversion D as [|y l N D' E1]; subst. destruct I as [->|I], I' as [->|I']; auto.
  - exfalso. apply N. rewrite E. apply (in_map (fun r => lower (rule_name r))). exact I'.
  - exfalso. apply N. rewrite <- E. apply (in_map (fun r => lower (rule_name r))). exact I.
Qed.

Section Part.
  Variables (g g' : grammar) (root : string).
  Hypothesis D : distinct_names g.
  Hypothesis P : part g' g root.

  (** A name that both grammars give the same rule. *)
  Definition shared (x : string) : Prop := forall r, In r g -> same_name x (rule_name r) -> In r g'.
  Definition ok (e : elem) : Prop := match e with ERule n => shared n | _ => occ_elem g' e end.

  Lemma shared_same x y : same_name x y -> shared x -> shared y.
  Proof. intros E H r I S. apply (H r I). unfold same_name in *. congruence. Qed.
  Lemma shared_root : shared root.
  Proof. intros r. apply (proj2 P root). left. reflexivity. Qed.
  Lemma occ_ok e : occ_elem g' e -> ok e.
  Proof. destruct e as [n|a|a|s v|b s es|v]; auto. intros H r. apply (proj2 P n). right. exact H. Qed.
  Lemma canon_ok e e' : canon e = canon e' -> ok e -> ok e'.
  Proof. destruct e, e'; cbn; intros E; try discriminate; try (injection E as E; subst); auto. intros. eapply shared_same; [exact E|assumption]. Qed.

  Lemma find_part x : shared x -> find (fun r => equal_fold x (rule_name r)) g' = find (fun r => equal_fold x (rule_name r)) g.
  Proof.
    intros S. destruct (find (fun r => equal_fold x (rule_name r)) g) as [r|] eqn:F.
    - apply find_some in F as [I E]. assert (E0 := E). apply equal_fold_iff in E. destruct (find _ g') as [r'|] eqn:F'.
      + apply find_some in F' as [I' E']. apply equal_fold_iff in E'. f_equal.
        apply (distinct_eq g r' r D (proj1 P _ I') I). unfold same_name in *. congruence.
      + pose proof (find_none _ _ F' r (S r I E)) as N. cbv beta in N. congruence.
    - destruct (find _ g') as [r'|] eqn:F'; [|reflexivity]. apply find_some in F' as [I' E'].
      pose proof (find_none _ _ F r' (proj1 P _ I')) as N. cbv beta in N. congruence.
  Qed.
  Lemma get_part x : shared x -> get_rule x g = get_rule x g'.
  Proof. intros S. unfold get_rule, get_rule_core, get_rule_in. rewrite (find_part x S). reflexivity. Qed.
  Lemma get_occ x r : get_rule x g' = Some r -> forall c y, In c (rule_alt r) -> In y c -> occ_rep g' y.
  Proof. intros G c y. apply occ_rep_rule. exact (proj2 (LeftRec.get_rule_name x g' r G)). Qed.
  Lemma resolves_part x a : shared x -> (resolves g x a <-> resolves g' x a).
  Proof.
    intros S. unfold resolves. split.
    - intros [(r & I & E & A)|(N & C)]; [left; exists r; auto|right; split; auto]. intros r I. apply N, (proj1 P _ I).
    - intros [(r & I & E & A)|(N & C)]; [left; exists r; split; auto; apply (proj1 P _ I)|right; split; auto]. intros r I E. apply (N r); auto.
  Qed.
  Lemma resolves_occ x a : resolves g' x a -> forall c y, In c a -> In y c -> occ_rep g' y.
  Proof. intros [(r & I & _ & <-)|(_ & r & I & _ & <-)] c y; apply occ_rep_rule, in_or_app; auto. Qed.

  (** ** Words *)
  Lemma lang_part :
    (forall e w, in_elem g e w -> ok e -> in_elem g' e w) /\
    (forall a w, in_alt g a w -> (forall c y, In c a -> In y c -> occ_rep g' y) -> in_alt g' a w) /\
    (forall c w, in_cat g c w -> (forall y, In y c -> occ_rep g' y) -> in_cat g' c w) /\
    (forall y w, in_rep g y w -> occ_rep g' y -> in_rep g' y w) /\
    (forall e k w, in_pow g e k w -> ok e -> in_pow g' e k w).
  Proof.
    apply lang_mut.
    - intros x a w R _ IH S. apply (resolves_part x a S) in R. econstructor; [exact R|]. apply IH, (resolves_occ x a R).
    - intros a w _ IH O. constructor. apply IH. intros c y. apply occ_rep_group. exact O.
    - intros a O. constructor.
    - intros a w _ IH O. apply in_option_some. apply IH. intros c y. apply occ_rep_option. exact O.
    - intros s vs rs F Sc _. constructor; auto.
    - intros bs ns rs F Sc _. constructor; auto.
    - intros bs lo hi l h x A B C E _. econstructor; eauto.
    - intros c a w I _ IH H. econstructor; [exact I|]. apply IH. intros y Iy. apply (H c y I Iy).
    - intros _. constructor.
    - intros x c w1 w2 _ IH1 _ IH2 H. constructor; [apply IH1, H; left; reflexivity|apply IH2; intros y Iy; apply H; right; exact Iy].
    - intros mn mx e k w A B _ IH H. econstructor; eauto. apply IH, occ_ok. econstructor. exact H.
    - intros e _. constructor.
    - intros e k w1 w2 _ IH1 _ IH2 H. constructor; auto.
  Qed.
  Lemma part_lang :
    (forall e w, in_elem g' e w -> ok e -> in_elem g e w) /\
    (forall a w, in_alt g' a w -> (forall c y, In c a -> In y c -> occ_rep g' y) -> in_alt g a w) /\
    (forall c w, in_cat g' c w -> (forall y, In y c -> occ_rep g' y) -> in_cat g c w) /\
    (forall y w, in_rep g' y w -> occ_rep g' y -> in_rep g y w) /\
    (forall e k w, in_pow g' e k w -> ok e -> in_pow g e k w).
  Proof.
    apply lang_mut.
    - intros x a w R _ IH S. econstructor; [apply (resolves_part x a S), R|]. apply IH, (resolves_occ x a R).
    - intros a w _ IH O. constructor. apply IH. intros c y. apply occ_rep_group. exact O.
    - intros a O. constructor.
    - intros a w _ IH O. apply in_option_some. apply IH. intros c y. apply occ_rep_option. exact O.
    - intros s vs rs F Sc _. constructor; auto.
    - intros bs ns rs F Sc _. constructor; auto.
    - intros bs lo hi l h x A B C E _. econstructor; eauto.
    - intros c a w I _ IH H. econstructor; [exact I|]. apply IH. intros y Iy. apply (H c y I Iy).
    - intros _. constructor.
    - intros x c w1 w2 _ IH1 _ IH2 H. constructor; [apply IH1, H; left; reflexivity|apply IH2; intros y Iy; apply H; right; exact Iy].
    - intros mn mx e k w A B _ IH H. econstructor; eauto. apply IH, occ_ok. econstructor. exact H.
    - intros e _. constructor.
    - intros e k w1 w2 _ IH1 _ IH2 H. constructor; auto.
  Qed.
  Lemma lang_shared x w : shared x -> (Lang g x w <-> Lang g' x w).
  Proof. intros S. split; intros H; [exact (proj1 lang_part _ _ H S)|exact (proj1 part_lang _ _ H S)]. Qed.

  (** ** The lowering *)
  Section Low.
    Variable max : Z.
    Variables l1 l2 : string -> lstate -> option (nat * lstate).
    Hypothesis E : forall x st, shared x -> l1 x st = l2 x st.

    Lemma alts_part a : Forall (Forall (fun x => occ_rep g' x -> forall st, lower_rep max l1 x st = lower_rep max l2 x st)) a ->
      (forall c x, In c a -> In x c -> occ_rep g' x) -> forall st, lower_alts max l1 a st = lower_alts max l2 a st.
    Proof.
      intros F H st. unfold lower_alts. apply mapM_cong. intros c s Ic. unfold lower_cat.
      rewrite (mapM_cong (lower_rep max l1) (lower_rep max l2) c); [reflexivity|]. intros x t Ix.
      rewrite Forall_forall in F. specialize (F c Ic). rewrite Forall_forall in F. apply (F x Ix). apply (H c x Ic Ix).
    Qed.
    Lemma lower_part :
      (forall e, occ_elem g' e -> forall st, lower_elem max l1 e st = lower_elem max l2 e st) /\
      (forall x, occ_rep g' x -> forall st, lower_rep max l1 x st = lower_rep max l2 x st).
    Proof.
      apply elem_rep_ind.
      - intros x O st. cbn [lower_elem]. rewrite (E x st (occ_ok _ O)). reflexivity.
      - intros a F O st. rewrite !lower_elem_group. destruct (Slots.reserve _ st) as [[id ex] s1]. destruct ex; [reflexivity|].
        destruct (budget_exceeded max s1) as [o s2]. destruct o; [reflexivity|]. rewrite (alts_part a F); [reflexivity|]. intros c x. apply occ_rep_group. exact O.
      - intros a F O st. rewrite !lower_elem_option. destruct (Slots.reserve _ st) as [[id ex] s1]. destruct ex; [reflexivity|].
        destruct (budget_exceeded max s1) as [o s2]. destruct o; [reflexivity|]. rewrite (alts_part a F); [reflexivity|]. intros c x. apply occ_rep_option. exact O.
      - reflexivity.
      - reflexivity.
      - reflexivity.
      - intros mn mx e IH O st. assert (Oe : occ_elem g' e) by (econstructor; exact O). rewrite !lower_rep_eq. destruct ((mn =? 1)%Z && (mx =? 1)%Z)%bool; [apply IH, Oe|].
        destruct (Slots.reserve _ st) as [[id ex] s1]. destruct ex; [reflexivity|].
        destruct (budget_exceeded max s1) as [o s2]. destruct o; [reflexivity|]. destruct (negb (mx =? inf)%Z && (mx <? mn)%Z)%bool; [reflexivity|]. rewrite (IH Oe). reflexivity.
    Qed.
  End Low.
  Lemma lower_rule_part max f : forall x st, shared x -> lower_rule g max f x st = lower_rule g' max f x st.
  Proof.
    induction f as [|f IH]; intros x st S; [reflexivity|]. cbn [lower_rule]. destruct (Slots.reserve _ st) as [[id ex] s1]. destruct ex; [reflexivity|].
    destruct (budget_exceeded max s1) as [o s2]. destruct o; [reflexivity|]. rewrite (get_part x S).
    destruct (get_rule x g') as [y|] eqn:G; [|reflexivity]. rewrite (alts_part max (lower_rule g max f) (lower_rule g' max f) (rule_alt y)); [reflexivity| |apply (get_occ x y G)].
    apply Forall_forall. intros c _. apply Forall_forall. intros z _. apply lower_part, IH.
  Qed.
  Lemma compile_part max fuel : compile_slots g root max fuel = compile_slots g' root max fuel.
  Proof. unfold compile_slots. rewrite (get_part root shared_root), (lower_rule_part max fuel root _ shared_root). reflexivity. Qed.

  (** ** Generate *)
  Lemma check_part call call' : (forall known a, (forall c y, In c a -> In y c -> occ_rep g' y) -> call known a = call' known a) ->
    (forall e, occ_elem g' e -> forall known, check_elem g call known e = check_elem g' call' known e) /\
    (forall r, occ_rep g' r -> forall known, check_rep g call known r = check_rep g' call' known r).
  Proof.
    intros C. apply elem_rep_ind.
    - intros x O known. cbn [check_elem]. rewrite (get_part x (occ_ok _ O)). destruct (existsb (equal_fold x) known); [reflexivity|].
      destruct (get_rule x g') as [r|] eqn:G; [|reflexivity]. rewrite (C (x :: known) (rule_alt r) (get_occ x r G)). reflexivity.
    - intros a F O known. cbn [check_elem]. f_equal. apply map_eq_in. intros c Ic. f_equal. apply map_eq_in. intros r Ir.
      rewrite Forall_forall in F. specialize (F c Ic). rewrite Forall_forall in F. apply (F r Ir). eapply occ_rep_group; eauto.
    - reflexivity.
    - reflexivity.
    - reflexivity.
    - reflexivity.
    - intros mn mx e IH O known. cbn [check_rep]. destruct (mn =? 0)%Z; [reflexivity|]. apply IH. econstructor. exact O.
  Qed.
  Lemma check_alt_part fuel : forall known a, (forall c y, In c a -> In y c -> occ_rep g' y) -> check_alt fuel g known a = check_alt fuel g' known a.
  Proof.
    induction fuel as [|f IH]; intros known a O; [reflexivity|]. cbn [check_alt]. unfold check_alt_with, check_cat.
    f_equal. apply map_eq_in. intros c Ic. f_equal. apply map_eq_in. intros r Ir. apply (check_part _ _ IH). eauto.
  Qed.
  Section Gn.
    Variable rnd : nat -> Z.
    Variables rm thr : Z.
    Lemma gen_elem_part rec rec' e : (forall a s, (forall c y, In c a -> In y c -> occ_rep g' y) -> rec a s = rec' a s) -> occ_elem g' e ->
      forall s, gen_elem g rnd rec e s = gen_elem g' rnd rec' e s.
    Proof.
      intros C O s. destruct e as [n|a|a|s0 v|b s0 es|v]; try reflexivity.
      - cbn [gen_elem]. rewrite (get_part n (occ_ok _ O)). destruct (get_rule n g') as [r|] eqn:G; [|reflexivity]. apply C, (get_occ n r G).
      - cbn [gen_elem]. apply C. intros c y. apply occ_rep_group, O.
      - cbn [gen_elem]. rewrite C; [reflexivity|]. intros c y. apply occ_rep_option, O.
    Qed.
    Lemma gen_loop_part rec rec' e : (forall a s, (forall c y, In c a -> In y c -> occ_rep g' y) -> rec a s = rec' a s) -> occ_elem g' e ->
      forall n i torep mn s, gen_loop g rnd thr rec n i torep mn e s = gen_loop g' rnd thr rec' n i torep mn e s.
    Proof.
      intros C O. induction n as [|n IH]; intros i torep mn s; [reflexivity|]. cbn [gen_loop]. destruct (keep_going _ _ _ _ _); [|reflexivity].
      rewrite (gen_elem_part rec rec' e C O s). destruct (gen_elem g' rnd rec' e s); auto.
    Qed.
    Lemma gen_cat_part rec rec' c : (forall a s, (forall c y, In c a -> In y c -> occ_rep g' y) -> rec a s = rec' a s) -> (forall y, In y c -> occ_rep g' y) ->
      forall s, gen_cat g rnd rm thr rec c s = gen_cat g' rnd rm thr rec' c s.
    Proof.
      intros C. induction c as [|[mn mx e] c IH]; intros O s; [reflexivity|]. cbn [gen_cat]. cbv zeta.
      destruct ((_ - mn + 1 =? 0)%Z); [reflexivity|].
      rewrite (gen_loop_part rec rec' e C). 2: { econstructor. apply O. left. reflexivity. }
      destruct (gen_loop g' _ _ _ _ _ _ _ _ _); auto. apply IH. intros y Iy. apply O. right. exact Iy.
    Qed.
    Lemma gen_alt_part fuel : forall a s, (forall c y, In c a -> In y c -> occ_rep g' y) -> gen_alt fuel g rnd rm thr a s = gen_alt fuel g' rnd rm thr a s.
    Proof.
      induction fuel as [|f IH]; intros a s O; [reflexivity|]. cbn [gen_alt]. unfold gen_alt_with. destruct a as [|c0 a0]; [reflexivity|].
      cbv zeta. destruct (nth_error _ _) as [c|] eqn:N; [|reflexivity]. apply gen_cat_part; [exact IH|]. intros y. apply O. eapply nth_error_In; eauto.
    Qed.
  End Gn.
  Lemma generate_part fuel rnd rm thr : generate fuel rnd rm thr g root = generate fuel rnd rm thr g' root.
  Proof.
    unfold generate, check_can_generate. rewrite (get_part root shared_root). destruct (get_rule root g') as [r|] eqn:G; [|reflexivity].
    rewrite (check_alt_part fuel _ _ (get_occ root r G)). destruct (check_alt fuel g' [root] (rule_alt r)) as [|[x|]| |]; try reflexivity.
    rewrite (gen_alt_part rnd rm thr fuel _ _ (get_occ root r G)). reflexivity.
  Qed.

  (** ** Cycles, regular expressions and graphs *)
  Lemma gref_part n m : shared n -> (gref g n m <-> gref g' n m) /\ (gref g' n m -> shared m).
  Proof.
    intros S. split.
    - split; intros (a & k & R & Q); exists a, k; (split; [apply (resolves_part n a S), R|exact Q]).
    - intros (a & k & R & (mn & mx & I) & E). apply (shared_same k m E). change (ok (ERule k)). apply occ_ok. apply (occ_elem_rep g' mn mx).
      apply (Occ.rep_in_occ g' a _ I). apply (resolves_occ n a R).
  Qed.
  Lemma path_part n m : shared n -> (clos_refl_trans _ (gref g) n m <-> clos_refl_trans _ (gref g') n m) /\ (clos_refl_trans _ (gref g') n m -> shared m).
  Proof.
    intros S. assert (A : forall x y, clos_refl_trans _ (gref g) x y -> shared x -> clos_refl_trans _ (gref g') x y /\ shared y).
    { intros x y H. induction H as [x y H|x|x y z H1 IH1 H2 IH2]; intros Sx.
      - apply (gref_part x y Sx) in H. split; [apply rt_step; exact H|apply (gref_part x y Sx), H].
      - split; [apply rt_refl|exact Sx].
      - destruct (IH1 Sx) as [A1 S1]. destruct (IH2 S1) as [A2 S2]. split; [eapply rt_trans; eauto|exact S2]. }
    assert (B : forall x y, clos_refl_trans _ (gref g') x y -> shared x -> clos_refl_trans _ (gref g) x y /\ shared y).
    { intros x y H. induction H as [x y H|x|x y z H1 IH1 H2 IH2]; intros Sx.
      - split; [apply rt_step, (gref_part x y Sx), H|apply (gref_part x y Sx), H].
      - split; [apply rt_refl|exact Sx].
      - destruct (IH1 Sx) as [A1 S1]. destruct (IH2 S1) as [A2 S2]. split; [eapply rt_trans; eauto|exact S2]. }
    split; [split; intros H; [apply A|apply B]; auto|intros H; apply (B _ _ H S)].
  Qed.
  Lemma loop_part n m : shared n -> (clos_trans _ (gref g) n m <-> clos_trans _ (gref g') n m).
  Proof.
    intros S. split; intros H; apply clos_trans_t1n in H; apply clos_t1n_trans.
    - revert S. induction H as [x y H|x y z H1 H2 IH]; intros S.
      + apply t1n_step, (gref_part x y S), H.
      + apply (gref_part x y S) in H1. eapply Relation_Operators.t1n_trans; [exact H1|]. apply IH, (gref_part x y S), H1.
    - revert S. induction H as [x y H|x y z H1 H2 IH]; intros S.
      + apply t1n_step, (gref_part x y S), H.
      + eapply Relation_Operators.t1n_trans; [apply (gref_part x y S), H1|]. apply IH, (gref_part x y S), H1.
  Qed.
  Lemma cycle_part order order' : distinct_names g' -> key_order (dependency_graph g) order -> key_order (dependency_graph g') order' ->
    rule_contains_cycle g order root = rule_contains_cycle g' order' root.
  Proof.
    intros D' K K'. pose proof (C20_rule_contains_cycle_exact g order root D K) as A. pose proof (C20_rule_contains_cycle_exact g' order' root D' K') as B.
    pose proof (fun a => resolves_part root a shared_root) as R.
    destruct (rule_contains_cycle g order root) as [|b|], (rule_contains_cycle g' order' root) as [|b'|]; try contradiction; auto.
    - destruct B as [(a & B) _]. exfalso. apply (A a), R, B.
    - destruct A as [(a & A) _]. exfalso. apply (B a), R, A.
    - f_equal. apply eq_true_iff_eq. rewrite (proj2 A), (proj2 B). split; intros (m & H1 & H2); exists m.
      + pose proof (proj1 (proj1 (path_part root m shared_root)) H1) as H1'. split; [exact H1'|].
        apply loop_part; [|exact H2]. apply (proj2 (path_part root m shared_root)), H1'.
      + split; [apply (path_part root m shared_root), H1|]. apply loop_part; [|exact H2]. apply (proj2 (path_part root m shared_root)), H1.
  Qed.

  Lemma traverse_cong {A B S} (f h : A -> S -> option (B * S)) l : (forall x s, In x l -> f x s = h x s) -> forall s, Regex.traverse f l s = Regex.traverse h l s.
  Proof.
    induction l as [|x l IH]; intros H s; [reflexivity|]. cbn [Regex.traverse]. rewrite (H x s (or_introl eq_refl)).
    destruct (h x s) as [[y s1]|]; [|reflexivity]. rewrite IH; [reflexivity|]. intros z t I. apply H. right. exact I.
  Qed.
  Section Rx.
    Variables c1 c2 : string -> Regex.bstate -> option (Regex.re * Regex.bstate).
    Hypothesis E : forall x st, shared x -> c1 x st = c2 x st.
    Lemma build_part :
      (forall e, occ_elem g' e -> forall st, Regex.build_elem c1 e st = Regex.build_elem c2 e st) /\
      (forall x, occ_rep g' x -> forall st, Regex.build_rep c1 x st = Regex.build_rep c2 x st).
    Proof.
      assert (Sub : forall a, Forall (Forall (fun x => occ_rep g' x -> forall st, Regex.build_rep c1 x st = Regex.build_rep c2 x st)) a ->
        (forall c x, In c a -> In x c -> occ_rep g' x) -> forall st, Regex.traverse (Regex.build_cat c1) a st = Regex.traverse (Regex.build_cat c2) a st).
      { intros a F H st. apply traverse_cong. intros c s Ic. unfold Regex.build_cat. rewrite (traverse_cong (Regex.build_rep c1) (Regex.build_rep c2) c); [reflexivity|].
        intros x t Ix. rewrite Forall_forall in F. specialize (F c Ic). rewrite Forall_forall in F. apply (F x Ix). apply (H c x Ic Ix). }
      apply elem_rep_ind.
      - intros x O st. apply E, (occ_ok _ O).
      - intros a F O st. change (Regex.build_elem c1 (EGroup a) st) with (match Regex.traverse (Regex.build_cat c1) a st with Some (os, st') => Some (Regex.RAlt os, st') | None => None end).
        rewrite (Sub a F); [reflexivity|]. intros c x. apply occ_rep_group, O.
      - intros a F O st. change (Regex.build_elem c1 (EOption a) st) with (match Regex.traverse (Regex.build_cat c1) a st with Some (os, st') => Some (Regex.RRepeat (Regex.RAlt os) 0 1, st') | None => None end).
        rewrite (Sub a F); [reflexivity|]. intros c x. apply occ_rep_option, O.
      - reflexivity.
      - reflexivity.
      - reflexivity.
      - intros mn mx e IH O st. change (Regex.build_rep c1 (Rep mn mx e) st) with (match Regex.build_elem c1 e st with Some (n, st') => Some (Regex.RRepeat n mn mx, st') | None => None end).
        rewrite IH; [reflexivity|]. econstructor. exact O.
    Qed.
    Lemma build_alt_part a : (forall c x, In c a -> In x c -> occ_rep g' x) -> forall st, Regex.build_alt c1 a st = Regex.build_alt c2 a st.
    Proof.
      intros H st. unfold Regex.build_alt. rewrite (traverse_cong (Regex.build_cat c1) (Regex.build_cat c2) a); [reflexivity|].
      intros c s Ic. unfold Regex.build_cat. rewrite (traverse_cong (Regex.build_rep c1) (Regex.build_rep c2) c); [reflexivity|].
      intros x t Ix. apply build_part. eauto.
    Qed.
  End Rx.
  Lemma build_rule_part f : forall x st, shared x -> Regex.build_rule f g x st = Regex.build_rule f g' x st.
  Proof.
    induction f as [|f IH]; intros x st S; [reflexivity|]. cbn [Regex.build_rule]. destruct (Regex.memo_get _ _); [reflexivity|].
    rewrite (get_part x S). destruct (get_rule x g') as [r|] eqn:G; [|reflexivity]. rewrite (build_alt_part _ _ IH (rule_alt r) (get_occ x r G)). reflexivity.
  Qed.
  Lemma regex_part fuel order order' ml : distinct_names g' -> key_order (dependency_graph g) order -> key_order (dependency_graph g') order' ->
    Regex.regex fuel g order ml root = Regex.regex fuel g' order' ml root.
  Proof.
    intros D' K K'. unfold Regex.regex. rewrite (cycle_part order order' D' K K'), (get_part root shared_root).
    destruct (rule_contains_cycle g' order' root) as [|b|]; [reflexivity| |reflexivity]. destruct b; [reflexivity|].
    destruct (get_rule root g') as [r|] eqn:G; [|reflexivity]. rewrite (build_alt_part _ _ (build_rule_part fuel) (rule_alt r) (get_occ root r G)). reflexivity.
  Qed.

  Section Tg.
    Variable opts : Graph.tgoptions.
    Section F.
      Variables f1 f2 : rep -> Graph.tgstate -> Graph.tres.
      Lemma cat_rest_part c : (forall x s, In x c -> f1 x s = f2 x s) -> forall ci co st, Graph.cat_rest f1 c ci co st = Graph.cat_rest f2 c ci co st.
      Proof.
        induction c as [|x c IH]; intros H ci co st; [reflexivity|]. cbn [Graph.cat_rest]. rewrite (H x st (or_introl eq_refl)).
        destruct (f2 x st) as [ri ro st1| | |]; try reflexivity. destruct (Graph.concat_graphs _ _ _ _ _) as [[a b] h]. apply IH. intros y s I. apply H. right. exact I.
      Qed.
      Lemma cat_with_part c : (forall x s, In x c -> f1 x s = f2 x s) -> forall st, Graph.cat_with f1 c st = Graph.cat_with f2 c st.
      Proof.
        destruct c as [|x c]; intros H st; [reflexivity|]. cbn [Graph.cat_with]. rewrite (H x st (or_introl eq_refl)).
        destruct (f2 x st) as [ri ro st1| | |]; try reflexivity. apply cat_rest_part. intros y s I. apply H. right. exact I.
      Qed.
      Lemma alt_with_part a : (forall c x s, In c a -> In x c -> f1 x s = f2 x s) -> forall st, Graph.alt_with f1 a st = Graph.alt_with f2 a st.
      Proof.
        intros H st. unfold Graph.alt_with. generalize (@nil (option nat)) at 1 3 as i. generalize (@nil (option nat)) as o. revert H st.
        induction a as [|c a IH]; intros H st o i; [reflexivity|]. cbn [Graph.alt_loop].
        rewrite (cat_with_part c); [|intros x s; apply H; left; reflexivity]. destruct (Graph.cat_with f2 c st) as [ci co st1| | |]; try reflexivity.
        apply IH. intros d x s I. apply H. right. exact I.
      Qed.
    End F.
    Variables c1 c2 : string -> Graph.tgstate -> Graph.tres.
    Hypothesis E : forall x st, shared x -> c1 x st = c2 x st.
    Lemma graph_elem_part :
      (forall e, occ_elem g' e -> forall st, Graph.elem_graph opts c1 e st = Graph.elem_graph opts c2 e st) /\
      (forall x, occ_rep g' x -> forall st, Graph.rep_graph opts c1 x st = Graph.rep_graph opts c2 x st).
    Proof.
      assert (Sub : forall a, Forall (Forall (fun x => occ_rep g' x -> forall st, Graph.rep_graph opts c1 x st = Graph.rep_graph opts c2 x st)) a ->
        (forall c x, In c a -> In x c -> occ_rep g' x) -> forall st, Graph.alt_with (Graph.rep_graph opts c1) a st = Graph.alt_with (Graph.rep_graph opts c2) a st).
      { intros a F H. apply alt_with_part. intros c x s Ic Ix. rewrite Forall_forall in F. specialize (F c Ic). rewrite Forall_forall in F. apply (F x Ix). apply (H c x Ic Ix). }
      apply elem_rep_ind.
      - intros x O st. change (Graph.elem_graph opts c1 (ERule x) st) with (if Graph.o_rules opts then c1 x st else Graph.one_node opts (ERule x) st).
        rewrite (E x st (occ_ok _ O)). reflexivity.
      - intros a F O st. change (Graph.elem_graph opts c1 (EGroup a) st) with (Graph.alt_with (Graph.rep_graph opts c1) a st).
        rewrite (Sub a F); [reflexivity|]. intros c x. apply occ_rep_group, O.
      - intros a F O st. change (Graph.elem_graph opts c1 (EOption a) st) with (match Graph.alt_with (Graph.rep_graph opts c1) a st with
          Graph.T_ok i o st1 => Graph.T_ok (Graph.append_nodes i [None]) (Graph.append_nodes o [None]) st1 | x => x end).
        rewrite (Sub a F); [reflexivity|]. intros c x. apply occ_rep_option, O.
      - reflexivity.
      - reflexivity.
      - reflexivity.
      - intros mn mx e IH O st. change (Graph.rep_graph opts c1 (Rep mn mx e) st) with (match Graph.elem_graph opts c1 e st with Graph.T_ok ei eo st1 => Graph.rep_build opts mn mx ei eo st1 | x => x end).
        rewrite IH; [reflexivity|]. econstructor. exact O.
    Qed.
    Lemma alt_graph_part a : (forall c x, In c a -> In x c -> occ_rep g' x) -> forall st, Graph.alt_graph opts c1 a st = Graph.alt_graph opts c2 a st.
    Proof. intros H. unfold Graph.alt_graph. apply alt_with_part. intros c x s Ic Ix. apply graph_elem_part. eauto. Qed.
  End Tg.
  Lemma rule_graph_part opts f : forall x st, shared x -> Graph.rule_graph f opts g x st = Graph.rule_graph f opts g' x st.
  Proof.
    induction f as [|f IH]; intros x st S; [reflexivity|]. cbn [Graph.rule_graph]. destruct (Graph.buf_get _ _) as [[bi bo]|]; [reflexivity|].
    rewrite (get_part x S). destruct (get_rule x g') as [r|] eqn:G; [|reflexivity]. rewrite (alt_graph_part opts _ _ IH (rule_alt r) (get_occ x r G)). reflexivity.
  Qed.
  Lemma graph_part fuel opts g1 g2 h1 h2 order order' : distinct_names g' -> key_order (dependency_graph g) order -> key_order (dependency_graph g') order' ->
    (Graph.o_rules opts = true -> Deps.semval_abnf g1 g2 g = None /\ Deps.semval_abnf h1 h2 g' = None) ->
    Graph.transition_graph fuel opts g g1 g2 order root = Graph.transition_graph fuel opts g' h1 h2 order' root.
  Proof.
    intros D' K K' Sv. unfold Graph.transition_graph. rewrite (cycle_part order order' D' K K'), (get_part root shared_root).
    destruct (get_rule root g') as [r|] eqn:G; [|reflexivity].
    assert (X : (if Graph.o_rules opts then Deps.semval_abnf g1 g2 g else None) = None /\ (if Graph.o_rules opts then Deps.semval_abnf h1 h2 g' else None) = None).
    { destruct (Graph.o_rules opts); auto. }
    destruct X as [-> ->]. rewrite (alt_graph_part opts _ _ (rule_graph_part opts fuel) (rule_alt r) (get_occ root r G)). reflexivity.
  Qed.
End Part.
