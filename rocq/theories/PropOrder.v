(** Claim C62: what two parses of the same input agree on, whatever order Go ranges over
    its maps in. *)
(** The definitions here are those of statements, proofs and examples; they model no code. *)
From Coq Require Import ZArith Arith String Bool List Permutation Lia.
From Verif Require Import Syntax Spec Utf8 Num Term Printer Slots PropTerm Gll GllUniv Bsr BsrProof BsrTerm LowerProof LowerLang LowerBudget
  PrintInj Check Sppf SppfProof TreeSpec Tree PropGll ForestUnique TreeCount Codegen BsrTree BsrCount BsrTable BsrTreeProof BsrOrder PropBsrTree Apart.
From Verif Require TreeProof TreeSound PropTree.
Import ListNotations.
Local Open Scope string_scope.
Local Open Scope list_scope.
Local Open Scope Z_scope.

(** *** The nodes of equal sets *)
Lemma in_filter_perm (f : belem -> bool) s s' e : Permutation s s' -> In e (filter f s) -> In e (filter f s').
Proof. intros P. rewrite !filter_In. intros [I B]. split; auto. eapply Permutation_in; eauto. Qed.
Lemma piv_perm set set' s l r k : Permutation set set' -> In k (bf_pivots set s l r) -> In k (bf_pivots set' s l r).
Proof. intros P. unfold bf_pivots. rewrite !in_map_iff. intros (e & E & I). exists e. split; auto. eapply in_filter_perm; eauto. Qed.
Section Perm.
  Variable sg : slot_grammar.
  Variables set set' : list belem.
  Hypothesis P : Permutation set set'.
  Notation el' := (fun s => el slot (bf_complete sg) (bf_pivots s)).
  Lemma el_perm id e : In e (el' set id) -> In e (el' set' id).
  Proof.
    unfold el. destruct id as [s l r|x l r]; cbn [elems].
    - rewrite !in_map_iff. intros (k & E & I). exists k. split; auto. eapply piv_perm; eauto.
    - destruct (bf_complete sg x) as [sls|]; cbn [of_opt qbind]; [|intros []]. rewrite !in_flat_map. intros (s & Is & I). exists s. split; auto.
      rewrite in_map_iff in *. destruct I as (k & E & I). exists k. split; auto. eapply piv_perm; eauto.
  Qed.
  Lemma step_perm c id : step slot (bf_prod_dot sg) bf_before (bf_complete sg) (bf_pivots set) c id -> step slot (bf_prod_dot sg) bf_before (bf_complete sg) (bf_pivots set') c id.
  Proof. intros (e & I & C). exists e. split; auto. apply el_perm; auto. Qed.
  Lemma reach_perm a b : bsr_reach sg set a b -> bsr_reach sg set' a b.
  Proof. induction 1; [constructor|]. econstructor; [apply step_perm; eauto|auto]. Qed.
  Lemma below_perm a b : bsr_below sg set a b -> bsr_below sg set' a b.
  Proof. intros (c & S & R). exists c. split; [apply step_perm; auto|apply reach_perm; auto]. Qed.
  Lemma unf_perm id u : bsr_unf sg set id u -> bsr_unf sg set' id u.
  Proof.
    revert id u. fix IH 3. intros id u [id' e us I F]. constructor; [apply el_perm; auto|].
    revert F. generalize (kids slot (bf_prod_dot sg) bf_before id' e). intros ks F. induction F as [|c v cs vs C F IHF]; constructor; [apply IH; exact C|exact IHF].
  Qed.
End Perm.
Lemma same_count {A} (l l' : list A) : NoDup l -> NoDup l' -> (forall x, In x l <-> In x l') -> length l = length l'.
Proof. intros N N' H. apply Nat.le_antisymm; apply NoDup_incl_length; auto; intros x; apply H. Qed.

(** A parse that returns a forest returns it without a slot budget as well. *)
Lemma bsr_free ord fuel input g root ms mn sg set : parse_bsr ord fuel input g root ms mn = BSR_ok sg set -> parse_bsr ord fuel input g root 0 mn = BSR_ok sg set.
Proof.
  unfold parse_bsr. destruct (compile_slots g root ms fuel) as [sg0| | |] eqn:C; try discriminate. rewrite (compile_free _ _ _ _ _ C). auto.
Qed.
Lemma forest_free ord fuel input g root ms mn f : parse_forest ord fuel input g root ms mn = PF_ok f -> parse_forest ord fuel input g root 0 mn = PF_ok f.
Proof.
  unfold parse_forest. destruct (compile_slots g root ms fuel) as [sg0| | |] eqn:C; try discriminate. rewrite (compile_free _ _ _ _ _ C). auto.
Qed.

(** ** C62, ParseBSR *)
(** Two parses end with the same set of elements; Valid, NumTrees and Ambiguous answer the
    same, whatever orders the two parses and the two queries range over their maps in, and
    whatever budgets they were given.  ([BSRForest.Nodes] is the size of the set.) *)
Theorem C62_bsr_order : forall ord ord' fuel fuel' input g root max_slots max_slots' max_nodes max_nodes' sg sg' set set' s s' qf qf',
  any_order ord -> any_order ord' ->
  parse_bsr ord fuel input g root max_slots max_nodes = BSR_ok sg set ->
  parse_bsr ord' fuel' input g root max_slots' max_nodes' = BSR_ok sg' set' ->
  Permutation set s -> Permutation set' s' -> (length set < qf)%nat -> (length set < qf')%nat ->
  sg' = sg /\ Permutation set set' /\
  bsr_valid sg (length input) s = bsr_valid sg' (length input) s' /\
  bf_num_trees sg s (length input) qf = bf_num_trees sg' s' (length input) qf' /\
  bf_ambiguous sg s (length input) qf = bf_ambiguous sg' s' (length input) qf'.
Proof.
  intros ord ord' fuel fuel' input g root ms ms' mn mn' sg sg' set set' s s' qf qf' O O' E E' P P' Q Q'.
  apply bsr_free in E. apply bsr_free in E'.
  destruct (bsr_same_set _ _ _ _ _ _ _ _ _ _ _ _ _ _ O O' E E') as [-> PP]. split; auto. split; auto.
  assert (Ps : Permutation s s') by (eapply Permutation_trans; [apply Permutation_sym; exact P|eapply Permutation_trans; eauto]).
  pose proof (valid_perm sg (length input) _ _ Ps) as Ev. split; [exact Ev|].
  destruct (iworld_some _ _ _ _ _ _ _ _ _ _ O E P) as (nodes & H). destruct (iworld_some _ _ _ _ _ _ _ _ _ _ O' E' P') as (nodes' & H').
  assert (Q1 : (length s < qf)%nat) by (rewrite <- (Permutation_length P); auto).
  assert (Q2 : (length s' < qf')%nat) by (rewrite <- (Permutation_length P'), <- (Permutation_length PP); auto).
  destruct (bsr_valid sg (length input) s) eqn:V; symmetry in Ev.
  - destruct (count_runs _ _ _ _ H V _ Q1) as (v0 & st & _ & N). remember (if snd st then -1 else v0) as v eqn:X. clear X.
    destruct (count_runs _ _ _ _ H' Ev _ Q2) as (v0' & st' & _ & N'). remember (if snd st' then -1 else v0') as v' eqn:X. clear X.
    assert (Eq : v = v').
    { pose proof (num_cycle _ _ _ _ H V _ Q1) as C. pose proof (num_cycle _ _ _ _ H' Ev _ Q2) as C'. rewrite N in C. rewrite N' in C'.
      destruct (Z.eq_dec v (-1)) as [M|M].
      - subst v. destruct (proj1 C eq_refl) as (x & R & B).
        assert (X : QVal v' = QVal (-1)) by (apply C'; exists x; split; [eapply reach_perm; eauto|eapply below_perm; eauto]). injection X as ->. auto.
      - assert (M' : v' <> -1).
        { intros ->. destruct (proj1 C' eq_refl) as (x & R & B). apply Permutation_sym in Ps.
          assert (X : QVal v = QVal (-1)) by (apply C; exists x; split; [eapply reach_perm; eauto|eapply below_perm; eauto]). injection X as ->. auto. }
        destruct (num_exact _ _ _ _ H V _ Q1 v N M) as (_ & us & Nu & <- & Hu), (num_exact _ _ _ _ H' Ev _ Q2 v' N' M') as (_ & us' & Nu' & <- & Hu').
        f_equal. apply same_count; auto. intros u. rewrite Hu, Hu'. split; apply unf_perm; auto. apply Permutation_sym; auto. }
    subst v'. rewrite N, N'. split; auto.
    destruct (amb_runs _ _ _ _ H V _ Q1) as (b & z & _ & A). destruct (amb_runs _ _ _ _ H' Ev _ Q2) as (b' & z' & _ & A').
    pose proof (amb_num _ _ _ _ H V _ Q1) as X. pose proof (amb_num _ _ _ _ H' Ev _ Q2) as X'. rewrite N in X. rewrite N', <- X in X'. rewrite A in *. rewrite A' in *.
    destruct b, b'; auto; exfalso; [pose proof (proj1 X' eq_refl)|pose proof (proj2 X' eq_refl)]; discriminate.
  - unfold bf_num_trees, q_num_trees, bf_ambiguous, q_ambiguous. rewrite (w_valid _ _ _ _ H), (w_valid _ _ _ _ H'), V, Ev. cbn [qbind]. auto.
Qed.

(** ** C62, ParseForest *)
Lemma forest_same_packs ord ord2 fuel fuel2 input g root ms mn mn2 f f2 : any_order ord -> any_order ord2 ->
  parse_forest ord fuel input g root ms mn = PF_ok f -> parse_forest ord2 fuel2 input g root ms mn2 = PF_ok f2 ->
  f_sg f2 = f_sg f /\ forall k pk, In pk (packs (f_nodes f) k) -> In pk (packs (f_nodes f2) k).
Proof.
  intros O O2 E E2. apply parse_forest_ok in E as (C & st & B & A & _ & Nd & _). apply parse_forest_ok in E2 as (C2 & st2 & B2 & A2 & _ & Nd2 & _).
  assert (Eq : f_sg f2 = f_sg f).
  { destruct (Nat.le_ge_cases fuel fuel2) as [Le|Le].
    - pose proof (compile_mono g root ms fuel fuel2 Le ltac:(congruence)). congruence.
    - pose proof (compile_mono g root ms fuel2 fuel Le ltac:(congruence)). congruence. }
  split; auto. rewrite Eq in *. destruct (compile_ok_represents _ _ _ _ _ C) as [idx R].
  pose proof (wf_reps _ (shape _ _ _ _ R)) as W. pose proof (nonempty _ _ _ _ R) as NE.
  destruct (sppf_as_bsr (f_sg f) input mn ord O NE W fuel st B A) as (bs & Bb & HR).
  destruct (sppf_as_bsr (f_sg f) input mn2 ord2 O2 NE W fuel2 st2 B2 A2) as (bs2 & Bb2 & HR2).
  pose proof (r_tbl _ _ _ HR) as T. rewrite <- Nd in T. pose proof (r_tbl _ _ _ HR2) as T2. rewrite <- Nd2 in T2.
  assert (In1 : incl (b_set bs) (b_set bs2)).
  { eapply wi_set. eapply (parse_within (f_sg f) input 0 (ord' (f_sg f) ord) fuel bs 0 (ord' (f_sg f) ord2) fuel2 bs2); eauto using (r_ab _ _ _ HR2); intros; apply ord'_in; auto. }
  intros k pk. unfold packs at 1. destruct (packs_of k (f_nodes f)) as [ps|] eqn:Pk; [|intros []]. intros I.
  destruct (t_from _ _ _ T _ _ _ Pk I) as (e & Ie & <- & <-). apply In1 in Ie. destruct (t_to _ _ _ T2 e Ie) as (ps2 & P2 & I2). unfold packs. rewrite P2. exact I2.
Qed.

Section Packs.
  Variables t t' : ntable.
  Hypothesis H : forall k pk, In pk (packs t k) -> In pk (packs t' k).
  Lemma freach_same a b : TreeProof.reach t a b -> TreeProof.reach t' a b.
  Proof. induction 1; [constructor|]. econstructor; eauto. Qed.
  Lemma fbelow_same a b : TreeProof.below t a b -> TreeProof.below t' a b.
  Proof. intros (c & (pk & I & C) & R). exists c. split; [exists pk; auto|apply freach_same; auto]. Qed.
  Hypothesis H' : forall k pk, In pk (packs t' k) -> In pk (packs t k).
  Lemma funf_same k u : TreeProof.unf t k u -> TreeProof.unf t' k u.
  Proof.
    revert k u. fix IH 3. intros k u [k' E|k' pk us I F].
    - apply TreeProof.unf_leaf. destruct (packs t' k') as [|pk l] eqn:E'; auto. exfalso. assert (X : In pk (packs t k')) by (apply H'; rewrite E'; left; auto). rewrite E in X. destruct X.
    - eapply TreeProof.unf_pack; [apply H; exact I|]. clear I. induction F as [|c v cs vs C F IHF]; constructor; [apply IH; exact C|exact IHF].
  Qed.
End Packs.

(** What NumTrees and Ambiguous answer on any forest. *)
Lemma forest_runs input f qf : forest_core input f -> (length (f_nodes f) < qf)%nat -> f_valid f = true ->
  let k := NSym (sg_start (f_sg f)) 0 (length input) in
  exists v b, f_num_trees qf f = Some v /\ f_ambiguous qf f = Some b /\
    (v = -1 <-> exists x, TreeProof.reach (f_nodes f) k x /\ TreeProof.below (f_nodes f) x x) /\
    (v <> -1 -> TreeProof.cnt (f_nodes f) k v) /\ (v = 1 <-> b = false).
Proof.
  intros [PS TP FU CL FE ND Rt Kn] Q V k. pose proof (proj1 Kn V) as K.
  destruct (TreeProof.count_total _ CL qf k [] ([], false) K) as (v & [m inf] & C); [split; [constructor|easy]|cbn; lia|].
  destruct (proj1 (TreeProof.amb_total _ CL qf) _ [] K) as (b & s & A & _); [split; [constructor|easy]|cbn; lia|].
  exists (if inf then -1 else v), b. unfold f_num_trees, f_ambiguous. rewrite Rt, V. fold k. fold k in A. rewrite C, A. split; auto. split; auto.
  destruct (TreeProof.count_exact _ ND qf _ _ _ _ _ C) as [_ Cx]. cbn [fst snd] in Cx.
  assert (Mi : TreeProof.minv (f_nodes f) []) by (intros k' v' X; discriminate).
  destruct inf.
  - destruct (TreeProof.count_cycle _ qf _ _ _ _ _ C eq_refl eq_refl) as (x & Rx & Bx); [easy|].
    assert (NA : b <> false).
    { intros ->. pose proof (TreeProof.amb_false_unique _ _ _ _ A) as One. pose proof (TreeCount.single_below (f_nodes f) FE k One x x Rx Bx). lia. }
    split; [split; eauto|]. split; [congruence|]. split; [lia|congruence].
  - destruct (Cx eq_refl Mi) as [_ Cn]. pose proof Cn as (Ac & l & Nl & Ll & Hl).
    split; [split; [lia|intros (x & Rx & Bx); exfalso; eapply TreeProof.acc_no_cycle; eauto]|]. split; auto.
    rewrite (TreeCount.cnt_one (f_sg f) _ PS TP FU CL FE ND k v K Cn). split.
    + intros One. destruct b; auto. exfalso. destruct (proj1 (TreeProof.amb_true (f_nodes f) qf) _ _ _ A) as (x & Rx & Lx). specialize (One x Rx). lia.
    + intros ->. eapply TreeProof.amb_false_unique; eauto.
Qed.

(** Two parses end with nodes that can be divided in the same ways; Valid, NumTrees and
    Ambiguous answer the same. *)
Theorem C62_forest_order : forall ord ord' fuel fuel' input g root max_slots max_slots' max_nodes max_nodes' f f' qf qf',
  any_order ord -> any_order ord' ->
  parse_forest ord fuel input g root max_slots max_nodes = PF_ok f ->
  parse_forest ord' fuel' input g root max_slots' max_nodes' = PF_ok f' ->
  (length (f_nodes f) < qf)%nat -> (length (f_nodes f') < qf')%nat ->
  f_sg f' = f_sg f /\ (forall k pk, In pk (packs (f_nodes f) k) <-> In pk (packs (f_nodes f') k)) /\
  f_valid f = f_valid f' /\ f_num_trees qf f = f_num_trees qf' f' /\ f_ambiguous qf f = f_ambiguous qf' f'.
Proof.
  intros ord ord' fuel fuel' input g root ms ms' mn mn' f f' qf qf' O O' E E' Q Q'.
  apply forest_free in E. apply forest_free in E'.
  destruct (forest_same_packs _ _ _ _ _ _ _ _ _ _ _ _ O O' E E') as [Sg H]. destruct (forest_same_packs _ _ _ _ _ _ _ _ _ _ _ _ O' O E' E) as [_ H'].
  split; auto. split; [intros; split; auto|].
  pose proof (forest_core_ok _ _ _ _ _ _ _ _ O E) as Co. pose proof (forest_core_ok _ _ _ _ _ _ _ _ O' E') as Co'.
  set (k := NSym (sg_start (f_sg f)) 0 (length input)).
  assert (Kv : forall h, forest_core input h -> f_sg h = f_sg f -> (f_valid h = true <-> packs (f_nodes h) k <> [])).
  { intros h Ch Eh. rewrite (fc_known _ _ Ch), Eh. fold k. unfold known, packs. destruct (packs_of k (f_nodes h)) as [ps|] eqn:Pk; [|split; congruence].
    split; [|congruence]. intros _ ->. destruct (fc_full _ _ Ch _ _ Pk) as [(x & y & X)|X]; [discriminate|congruence]. }
  assert (Ev : f_valid f = f_valid f').
  { apply eq_true_iff_eq. rewrite (Kv f Co eq_refl), (Kv f' Co' Sg).
    destruct (packs (f_nodes f) k) as [|pk l] eqn:P1, (packs (f_nodes f') k) as [|pk' l'] eqn:P2; try tauto; try (split; congruence).
    - exfalso. assert (X : In pk' (packs (f_nodes f) k)) by (apply H'; rewrite P2; left; auto). rewrite P1 in X. destruct X.
    - exfalso. assert (X : In pk (packs (f_nodes f') k)) by (apply H; rewrite P1; left; auto). rewrite P2 in X. destruct X. }
  split; auto. destruct (f_valid f) eqn:V.
  - destruct (forest_runs input f qf Co Q V) as (v & b & -> & -> & C1 & C2 & C3). destruct (forest_runs input f' qf' Co' Q' (eq_sym Ev)) as (v' & b' & -> & -> & C1' & C2' & C3').
    rewrite Sg in C1', C2'. fold k in C1, C2, C1', C2'.
    assert (v = v').
    { destruct (Z.eq_dec v (-1)) as [M|M].
      - subst v. symmetry. apply C1'. destruct (proj1 C1 eq_refl) as (x & Rx & Bx). exists x. split; [eapply freach_same; eauto|eapply fbelow_same; eauto].
      - assert (M' : v' <> -1).
        { intros M'. apply M, C1. destruct (proj1 C1' M') as (x & Rx & Bx). exists x. split; [eapply freach_same; eauto|eapply fbelow_same; eauto]. }
        destruct (C2 M) as (_ & us & Nu & <- & Hu), (C2' M') as (_ & us' & Nu' & <- & Hu'). f_equal. apply same_count; auto.
        intros u. rewrite Hu, Hu'. split; apply funf_same; auto. }
    subst v'. split; auto. rewrite C3 in C3'. destruct b, b'; auto; exfalso; [pose proof (proj2 C3' eq_refl)|pose proof (proj1 C3' eq_refl)]; discriminate.
  - unfold f_num_trees, f_ambiguous. rewrite (fc_root _ _ Co), (fc_root _ _ Co'), V, <- Ev. auto.
Qed.

(** When the input is not ambiguous the trees are equal too. *)
Lemma one_list {A} (l l' : list A) : (length l <= 1)%nat -> (length l' <= 1)%nat -> (forall x, In x l <-> In x l') -> l = l'.
Proof.
  intros L L' H. destruct l as [|x [|]], l' as [|y [|]]; cbn in *; try lia; auto.
  - destruct (proj2 (H y) (or_introl eq_refl)).
  - destruct (proj1 (H x) (or_introl eq_refl)).
  - destruct (proj1 (H x) (or_introl eq_refl)) as [->|[]]. reflexivity.
Qed.
Lemma collect_packs sg t t' r : (forall x, TreeProof.reach t r x -> packs t x = packs t' x) ->
  forall fuel x on, TreeProof.reach t r x -> Tree.collect sg t fuel x on = Tree.collect sg t' fuel x on.
Proof.
  intros H. induction fuel as [|fuel IH]; intros x on R; cbn [Tree.collect]; auto. rewrite <- (H x R). destruct (packs t x) as [|pk l] eqn:P; auto.
  assert (Rc : forall c, In c pk -> TreeProof.reach t r c).
  { intros c I. eapply TreeProof.reach_trans; [exact R|]. econstructor; [rewrite P; left; reflexivity|exact I|constructor]. }
  clear P. induction pk as [|c cs IHc]; auto. rewrite IHc by (intros d I; apply Rc; right; auto). pose proof (Rc c (or_introl eq_refl)) as Rcc.
  destruct c; auto; destruct (rule_of sg _); rewrite ?(IH _ _ Rcc); reflexivity.
Qed.
Theorem C62_forest_tree : forall ord ord' fuel fuel' input g root max_slots max_slots' max_nodes max_nodes' f f' qf tf,
  any_order ord -> any_order ord' ->
  parse_forest ord fuel input g root max_slots max_nodes = PF_ok f ->
  parse_forest ord' fuel' input g root max_slots' max_nodes' = PF_ok f' ->
  (length (f_nodes f) < qf)%nat -> f_ambiguous qf f = Some false -> f_tree tf f = f_tree tf f'.
Proof.
  intros ord ord' fuel fuel' input g root ms ms' mn mn' f f' qf tf O O' E E' Q B.
  apply forest_free in E. apply forest_free in E'.
  set (qf' := S (length (f_nodes f'))). assert (Q' : (length (f_nodes f') < qf')%nat) by (unfold qf'; lia).
  destruct (C62_forest_order _ _ _ _ _ _ _ _ _ _ _ _ _ _ _ O O' E E' Q Q') as (Sg & Pk & Ev & _ & Ea). rewrite B in Ea. symmetry in Ea.
  pose proof (forest_core_ok _ _ _ _ _ _ _ _ O E) as Co. pose proof (forest_core_ok _ _ _ _ _ _ _ _ O' E') as Co'.
  unfold f_tree, emit_symbol. unfold f_ambiguous in B, Ea. rewrite (fc_root _ _ Co) in B |- *. rewrite (fc_root _ _ Co'), Sg in Ea |- *. rewrite <- Ev in *.
  destruct (f_valid f); auto. set (k := NSym (sg_start (f_sg f)) 0 (length input)) in *.
  destruct (amb_walk (f_nodes f) qf k []) as [[b s]|] eqn:A; [|discriminate]. injection B as ->.
  destruct (amb_walk (f_nodes f') qf' k []) as [[b s']|] eqn:A'; [|discriminate]. injection Ea as ->.
  rewrite (collect_packs (f_sg f) (f_nodes f) (f_nodes f') k); auto; [|constructor].
  intros x R. apply one_list; auto.
  - eapply (TreeProof.amb_false_unique _ _ _ _ A); auto.
  - eapply (TreeProof.amb_false_unique _ _ _ _ A'); auto. eapply freach_same; [|exact R]. intros; apply Pk; auto.
Qed.

Section Tree.
  Variable sg : slot_grammar.
  Variables set set' : list belem.
  Hypothesis P : Permutation set set'.
  Variable r : qid slot.
  Notation el' := (fun s => el slot (bf_complete sg) (bf_pivots s)).
  Hypothesis One : forall x, bsr_reach sg set r x -> (length (el' set x) <= 1)%nat.
  Hypothesis One' : forall x, bsr_reach sg set r x -> (length (el' set' x) <= 1)%nat.
  Lemma el_same x : bsr_reach sg set r x -> el' set x = el' set' x.
  Proof. intros R. apply one_list; auto. intros e. split; apply el_perm; auto. apply Permutation_sym; auto. Qed.
  Lemma first_el s x a b sls : bf_complete sg x = Some sls -> first_elem (bf_pivots s) sls a b = hd_error (el' s (QS x a b)).
  Proof. intros E. rewrite first_hd. unfold el. cbn [elems]. rewrite E. reflexivity. Qed.
  Notation coll s := (collect_elem slot_eq_dec (bf_prod_dot sg) bf_before (bf_complete sg) (bf_is_rule sg) (bf_rule_name sg) (bf_pivots s)).
  Lemma coll_same : forall fuel x s k vis, bsr_reach sg set r x -> In (s, k) (el' set x) ->
    coll set fuel s (left_end x) k (right_end x) vis = coll set' fuel s (left_end x) k (right_end x) vis.
  Proof.
    induction fuel as [|fuel IH]; intros x s k vis R I; cbn [collect_elem]; auto.
    destruct (parts (bf_prod_dot sg) bf_before s (left_end x) k (right_end x)) as [[p q]|] eqn:Pa; auto. cbn [of_opt qbind fst snd].
    assert (Kid : forall c, node_of_part p = Some c \/ node_of_part q = Some c -> bsr_reach sg set r c).
    { intros c C. eapply reach_trans; [exact R|]. eapply reach_step; [|constructor]. exists (s, k). split; [exact I|].
      unfold kids, parts_of. cbn [fst snd]. rewrite Pa. apply in_or_app. destruct C as [->| ->]; cbn [o2l]; [right|left]; left; auto. }
    assert (Of : forall y, (forall c, node_of_part y = Some c -> bsr_reach sg set r c) ->
      match y with PNone => QVal [] | PSym z a b => collect_child slot_eq_dec (bf_complete sg) (bf_is_rule sg) (bf_rule_name sg) (bf_pivots set) (coll set fuel) z a b vis
        | PInter z a b => match bf_pivots set z a b with [] => QVal [] | k' :: _ => coll set fuel z a k' b vis end end =
      match y with PNone => QVal [] | PSym z a b => collect_child slot_eq_dec (bf_complete sg) (bf_is_rule sg) (bf_rule_name sg) (bf_pivots set') (coll set' fuel) z a b vis
        | PInter z a b => match bf_pivots set' z a b with [] => QVal [] | k' :: _ => coll set' fuel z a k' b vis end end).
    { intros [|[z| |] a b|z a b] Kc; auto.
      - specialize (Kc _ eq_refl). cbn [collect_child]. destruct (qid_mem _ _ _); auto. destruct (bf_complete sg z) as [sls|] eqn:Cz; auto. cbn [of_opt qbind].
        rewrite !(first_el _ z a b sls Cz), <- (el_same _ Kc). destruct (el' set (QS z a b)) as [|[s1 k1] es] eqn:El; auto. cbn [hd_error].
        destruct (bf_is_rule sg z); auto. cbn [of_opt qbind].
        pose proof (IH (QS z a b) s1 k1 (QS z a b :: vis) Kc ltac:(rewrite El; left; auto)) as X. cbn [left_end right_end] in X. rewrite X. reflexivity.
      - specialize (Kc _ eq_refl). pose proof (el_same _ Kc) as El. unfold el in El. cbn [elems] in El.
        assert (Pv : bf_pivots set z a b = bf_pivots set' z a b).
        { assert (M : forall l : list nat, map snd (map (pair z) l) = l) by (intros l; induction l; cbn; congruence). rewrite <- (M (bf_pivots set z a b)), El. apply M. }
        rewrite <- Pv. destruct (bf_pivots set z a b) as [|k1 ks] eqn:Pk; auto.
        pose proof (IH (QI z a b) z k1 vis Kc) as X. cbn [left_end right_end] in X. apply X. unfold el. cbn [elems]. rewrite Pk. left. auto. }
    rewrite (Of p), (Of q); auto.
  Qed.
End Tree.
Theorem C62_bsr_tree : forall ord ord' fuel fuel' input g root max_slots max_slots' max_nodes max_nodes' sg sg' set set' s s' qf tf,
  any_order ord -> any_order ord' ->
  parse_bsr ord fuel input g root max_slots max_nodes = BSR_ok sg set ->
  parse_bsr ord' fuel' input g root max_slots' max_nodes' = BSR_ok sg' set' ->
  Permutation set s -> Permutation set' s' -> (length set < qf)%nat ->
  bf_ambiguous sg s (length input) qf = QVal false -> bf_tree sg s (length input) tf = bf_tree sg' s' (length input) tf.
Proof.
  intros ord ord' fuel fuel' input g root ms ms' mn mn' sg sg' set set' s s' qf tf O O' E E' P P' Q B.
  apply bsr_free in E. apply bsr_free in E'.
  destruct (C62_bsr_order _ _ _ _ _ _ _ _ _ _ _ _ _ _ _ _ _ _ _ O O' E E' P P' Q Q) as (-> & PP & Ev & _ & Ea). rewrite B in Ea. symmetry in Ea.
  assert (Ps : Permutation s s') by (eapply Permutation_trans; [apply Permutation_sym; exact P|eapply Permutation_trans; eauto]).
  destruct (iworld_some _ _ _ _ _ _ _ _ _ _ O E P) as (nodes & H). destruct (iworld_some _ _ _ _ _ _ _ _ _ _ O' E' P') as (nodes' & H').
  assert (Q1 : (length s < qf)%nat) by (rewrite <- (Permutation_length P); auto).
  assert (Q2 : (length s' < qf)%nat) by (rewrite <- (Permutation_length P'), <- (Permutation_length PP); auto).
  unfold bf_tree, q_tree. rewrite (w_valid _ _ _ _ H), (w_valid _ _ _ _ H'), <- Ev. cbn [qbind]. destruct (bsr_valid sg (length input) s) eqn:V; auto.
  pose proof (amb_single _ _ _ _ H V _ Q1 B) as One. pose proof (amb_single _ _ _ _ H' (eq_sym Ev) _ Q2 Ea) as One'.
  set (r := QS (sg_start sg) 0 (length input)) in *.
  assert (One2 : forall x, bsr_reach sg s r x -> (length (el slot (bf_complete sg) (bf_pivots s') x) <= 1)%nat).
  { intros x R. apply One'. eapply reach_perm; eauto. }
  destruct (bf_complete sg (sg_start sg)) as [sls|] eqn:C; auto. cbn [of_opt qbind]. rewrite !(first_el sg _ _ _ _ _ C).
  change (QS (sg_start sg) 0 (length input)) with r. rewrite <- (el_same sg s s' Ps r One One2 r) by constructor.
  destruct (el slot (bf_complete sg) (bf_pivots s) r) as [|[s1 k1] es] eqn:El; auto. cbn [hd_error].
  assert (I0 : In (s1, k1) (el slot (bf_complete sg) (bf_pivots s) r)) by (rewrite El; left; auto).
  pose proof (coll_same sg s s' Ps r One One2 tf r s1 k1 [] ltac:(constructor) I0) as X. cbn [left_end right_end r] in X. rewrite X. reflexivity.
Qed.
(** s = a / *1"x"   a = s / a "x": the two trees below are returned for "xx". *)
Definition g_order : grammar :=
  [mkRule "s" [[Rep 1 1 (ERule "a")]; [Rep 0 1 (EChar false [120])]];
   mkRule "a" [[Rep 1 1 (ERule "s")]; [Rep 1 1 (ERule "a"); Rep 1 1 (EChar false [120])]]].
Lemma g_order_ok : wf_grammar g_order /\ lex_grammar g_order = true /\ told_apart g_order.
Proof. split; [apply wf_grammarb_spec; vm_compute; reflexivity|]. split; [vm_compute; reflexivity|apply told_apartb_spec; vm_compute; reflexivity]. Qed.

Example C62_case : exists sg set sg' set' f f',
  parse_bsr (fun _ l => l) 400 (bytes "xx") g_order "s" default_max_slots 0 = BSR_ok sg set /\
  parse_bsr (fun _ l => rev l) 400 (bytes "xx") g_order "s" default_max_slots 50 = BSR_ok sg' set' /\
  set <> set' /\ (length set < 400)%nat /\ bf_num_trees sg set 2 400 = QVal (-1) /\
  parse_forest (fun _ l => l) 400 (bytes "xx") g_order "s" default_max_slots 0 = PF_ok f /\
  parse_forest (fun _ l => rev l) 400 (bytes "xx") g_order "s" default_max_slots 50 = PF_ok f' /\
  f_nodes f <> f_nodes f' /\ (length (f_nodes f) < 400)%nat /\ f_num_trees 400 f = Some (-1).
Proof.
  eexists. eexists. eexists. eexists. eexists. eexists.
  split; [vm_compute; reflexivity|]. split; [vm_compute; reflexivity|]. split; [discriminate|]. split; [vm_compute; lia|]. split; [vm_compute; reflexivity|].
  split; [vm_compute; reflexivity|]. split; [vm_compute; reflexivity|]. split; [discriminate|]. split; [vm_compute; lia|vm_compute; reflexivity].
Qed.
(** Not ambiguous, in both orders. *)
Example C62_one_case : exists f f' sg sg' set set',
  parse_forest (fun _ l => l) 400 (bytes "xXy") g_rep "a" default_max_slots 0 = PF_ok f /\
  parse_forest (fun _ l => rev l) 300 (bytes "xXy") g_rep "a" default_max_slots 40 = PF_ok f' /\
  f_ambiguous 400 f = Some false /\ f_tree 400 f = f_tree 400 f' /\ f_tree 400 f <> Some None /\
  parse_bsr (fun _ l => l) 400 (bytes "xXy") g_rep "a" default_max_slots 0 = BSR_ok sg set /\
  parse_bsr (fun _ l => rev l) 300 (bytes "xXy") g_rep "a" default_max_slots 40 = BSR_ok sg' set' /\
  bf_ambiguous sg set 3 400 = QVal false /\ bf_tree sg set 3 400 = bf_tree sg' (rev set') 3 400 /\ bf_tree sg set 3 400 <> QVal None.
Proof.
  eexists. eexists. eexists. eexists. eexists. eexists. split; [vm_compute; reflexivity|]. split; [vm_compute; reflexivity|]. split; [vm_compute; reflexivity|].
  split; [vm_compute; reflexivity|]. split; [vm_compute; discriminate|]. split; [vm_compute; reflexivity|]. split; [vm_compute; reflexivity|].
  split; [vm_compute; reflexivity|]. split; [vm_compute; reflexivity|vm_compute; discriminate].
Qed.

(** Tree does depend on the order when the input is ambiguous. *)
Theorem C62_forest_tree_refuted : exists g root input f f' t t',
  wf_grammar g /\ lex_grammar g = true /\ told_apart g /\
  parse_forest (fun _ l => l) 400 input g root default_max_slots 0 = PF_ok f /\
  parse_forest (fun _ l => rev l) 400 input g root default_max_slots 0 = PF_ok f' /\
  f_tree 400 f = Some (Some t) /\ f_tree 400 f' = Some (Some t') /\ t <> t'.
Proof.
  destruct g_order_ok as (W & L & F). exists g_order, "s", (bytes "xx"). eexists. eexists. eexists. eexists. split; [exact W|]. split; [exact L|]. split; [exact F|].
  split; [vm_compute; reflexivity|]. split; [vm_compute; reflexivity|]. split; [vm_compute; reflexivity|]. split; [vm_compute; reflexivity|discriminate].
Qed.
(** Which tree is returned depends on the order in which Go ranges over the set: with
    several trees, two calls on the same input may return different ones. *)
Theorem C62_bsr_tree_refuted : exists g root input sg set set' t t',
  wf_grammar g /\ lex_grammar g = true /\ told_apart g /\
  parse_bsr (fun _ l => l) 400 input g root default_max_slots 0 = BSR_ok sg set /\ Permutation set set' /\
  bf_tree sg set (length input) 400 = QVal (Some t) /\ bf_tree sg set' (length input) 400 = QVal (Some t') /\ t <> t'.
Proof.
  destruct C58_case as (sg & set & (W & L & F) & E & _ & _ & T1 & T2).
  eexists g_pairs, "a", (bytes "xxx"), sg, set, (rev set), _, _. split; [exact W|]. split; [exact L|]. split; [exact F|]. split; [exact E|].
  split; [apply Permutation_rev|]. split; [exact T1|]. split; [exact T2|]. discriminate.
Qed.

Print Assumptions C62_bsr_order.
Print Assumptions C62_forest_order.
Print Assumptions C62_forest_tree.
Print Assumptions C62_bsr_tree.
Print Assumptions C62_forest_tree_refuted.
Print Assumptions C62_bsr_tree_refuted.
