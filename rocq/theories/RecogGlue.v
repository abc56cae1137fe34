(** The recognizer on the output of the left-recursion analysis.
    Its definitions are means of proof and model no code. *)
From Coq Require Import ZArith Arith String Ascii Bool Relations Sorted List Lia.
From Verif Require Import Syntax Spec Num Term Printer PrintInj Deps Dag Cycle LowerLang PropTerm PropSem PropGll PropDag LeftRec PropLeftRec Recog RecogProof RecogComplete.
Import ListNotations.
Local Open Scope list_scope.

(** ** The analysis ends on every grammar *)
Lemma get_rule_some g n : (exists r, get_rule n g = Some r) <-> exists a, resolves g n a.
Proof.
  unfold get_rule, get_rule_core, get_rule_in. split.
  - intros (r & H). destruct (find _ g) as [r'|] eqn:F.
    + apply find_some in F as [A B]. exists (rule_alt r'). left. exists r'. split; auto. split; auto. apply equal_fold_iff; auto.
    + apply find_some in H as [A B]. exists (rule_alt r). right. split; [|exists r; split; auto; split; auto; apply equal_fold_iff; auto].
      intros x I S. apply equal_fold_iff in S. eapply find_none in F; [|exact I]. cbn in F. congruence.
  - assert (U : forall l r, In r l -> same_name n (rule_name r) -> exists r', find (fun r => equal_fold n (rule_name r)) l = Some r').
    { intros l r I S. destruct (find _ l) eqn:F; eauto. apply equal_fold_iff in S. eapply find_none in F; [|exact I]. cbn in F. congruence. }
    intros (a & [(r & I & S & E)|(N & r & I & S & E)]).
    + destruct (U g r I S) as (r' & ->). eauto.
    + destruct (find _ g); [eauto|]. eapply U; eauto.
Qed.

Lemma null_round_grows g names : forall null, let '(null', ch) := null_round g names null in
  (forall x, In x null -> In x null') /\ (ch = true -> exists x, In x names /\ In x null' /\ ~ In x null).
Proof.
  induction names as [|n names IH]; intros null; cbn [null_round]; [split; [auto|discriminate]|].
  assert (Skip : let '(null', ch) := null_round g names null in
    (forall x, In x null -> In x null') /\ (ch = true -> exists x, In x (n :: names) /\ In x null' /\ ~ In x null)).
  { specialize (IH null). destruct (null_round g names null) as [null' ch]. destruct IH as [A B]. split; auto.
    intros E. destruct (B E) as (x & X & Y). exists x. split; [right; auto|auto]. }
  destruct (get_rule n g) as [r|]; [|exact Skip]. destruct (mem_str n null) eqn:M; [exact Skip|].
  cbn [negb andb]. destruct (alt_nullable null (rule_alt r)); [|exact Skip].
  specialize (IH (n :: null)). destruct (null_round g names (n :: null)) as [null' ch]. cbn [fst]. destruct IH as [A _].
  split; [intros x I; apply A; right; auto|]. intros _. exists n. split; [left; auto|]. split; [apply A; left; auto|].
  intros I. apply mem_str_in in I. congruence.
Qed.
Lemma nullable_total g ord : any_order ord -> exists null, nullable_rules g ord = Some null.
Proof.
  intros O. unfold nullable_rules.
  assert (M : forall f t null, length (filter (fun x => negb (mem_str x null)) (all_names g)) < f -> exists null', null_loop f g ord t null = Some null').
  { induction f as [|f IH]; intros t null L; [lia|]. cbn [null_loop].
    pose proof (null_round_grows g (ord t (all_names g)) null) as R. destruct (null_round g (ord t (all_names g)) null) as [null' ch].
    destruct R as [Mo E]. destruct ch; [|eauto]. apply IH. destruct (E eq_refl) as (x & X & Y & Z). apply O in X.
    assert (length (filter (fun x => negb (mem_str x null')) (all_names g)) < length (filter (fun x => negb (mem_str x null)) (all_names g))); [|lia].
    apply filter_lt_mono with (y := x); auto.
    - intros z _ H. apply negb_true_iff in H. apply negb_true_iff. destruct (mem_str z null) eqn:Q; auto.
      apply mem_str_in in Q. apply Mo in Q. apply mem_str_in in Q. congruence.
    - apply negb_false_iff. apply mem_str_in. auto.
    - apply negb_true_iff. destruct (mem_str x null) eqn:Q; auto. apply mem_str_in in Q. contradiction. }
  apply M. pose proof (filter_le_length (fun x => negb (mem_str x [])) (all_names g)). lia.
Qed.
Lemma lc_node_any g null n : node_in (lc_graph g null) (lower n) <-> exists a, resolves g n a.
Proof.
  unfold node_in. rewrite dg_get_in, lc_graph_get, <- get_rule_some. split.
  - intros (nd & H). destruct (get_rule n g) as [r|]; [eauto|discriminate].
  - intros (r & ->). eauto.
Qed.

Definition lr_of (null : list string) (g : grammar) (st : tstate) : string -> option (list string) :=
  fun m => find (fun s => (mem_str m s && scc_left_recursive (lc_graph g null) s)%bool) (t_sccs st).

Section Glue.
  Variable g : grammar.
  Variable ordn : nat -> list string -> list string.
  Variable order : list string.
  Hypothesis On : any_order ordn.
  Hypothesis K : name_order g order.

  Lemma analysis_total : exists lr, left_recursive_sccs g ordn order = Some lr /\
    (forall n scc, lr n = Some scc -> In n scc) /\
    (forall n scc, lr n = Some scc -> NoDup scc) /\
    (forall n scc x, lr n = Some scc -> In x scc -> lower x = x /\ exists a, resolves g x a).
  Proof.
    destruct (nullable_total g ordn On) as (null & E).
    assert (Kn : forall x, In x order <-> node_in (lc_graph g null) x).
    { intros x. rewrite (K x). split.
      - intros [L R]. rewrite <- L. apply lc_node_any; auto.
      - intros N. assert (L := lc_node_lower g null x N). split; auto. rewrite <- L in N. apply lc_node_any in N. exact N. }
    destruct (tarjan_correct (lc_graph g null) order Kn) as (st & T & P & Q).
    unfold left_recursive_sccs. rewrite E, T. eexists. split; [reflexivity|].
    assert (Px : forall s, In s (t_sccs st) -> NoDup s /\ forall x, In x s -> node_in (lc_graph g null) x).
    { intros s I. destruct (P s I) as [(Ne & Nd & No & C)|(r & rest & Eo & ->)].
      - split; auto.
      - split; [constructor; [easy|constructor]|]. intros x [<-|[]]. apply Kn. rewrite Eo. left. auto. }
    split; [|split].
    - intros n scc H. cbv beta in H. apply find_some in H as [_ H]. apply andb_true_iff in H as [H _]. apply mem_str_in. auto.
    - intros n scc H. cbv beta in H. apply find_some in H as [I _]. apply Px. auto.
    - intros n scc x H I. cbv beta in H. apply find_some in H as [Is _]. apply K, Kn. apply (Px scc); auto.
  Qed.

  Hypothesis LG : lex_grammar g = true.
  Lemma resolves_lex x a : resolves g x a -> lex_name x = true.
  Proof.
    intros [(r & I & S & _)|(_ & r & I & S & _)].
    - rewrite <- lex_lower, S, lex_lower. unfold lex_grammar in LG. rewrite forallb_forall in LG. apply LG in I. apply andb_true_iff in I as [I _]. auto.
    - rewrite <- lex_lower, S, lex_lower.
      assert (H : forallb (fun r => lex_name (rule_name r)) core_rules = true) by (vm_compute; reflexivity).
      rewrite forallb_forall in H. apply H. auto.
  Qed.
End Glue.

(** ** Left corners of elements and of rules *)
Section Corners.
  Variable g : grammar.
  Lemma left_corner_same : (forall a m, left_corner g a m -> forall m', same_name m m' -> left_corner g a m') /\
    (forall e m, left_corner_elem g e m -> forall m', same_name m m' -> left_corner_elem g e m').
  Proof.
    apply lcr_ind2.
    - intros a pre mn mx e post n I P L IH m' S. econstructor; eauto.
    - intros k n S m' S'. constructor. unfold same_name in *. congruence.
    - intros a n L IH m' S. constructor. auto.
    - intros a n L IH m' S. constructor. auto.
  Qed.
  Lemma corners_lc n m : corners g (ERule n) (ERule m) -> clos_trans _ (lc_ref g) n m.
  Proof.
    set (Q := fun e => exists a k, body g e a /\ left_corner g a k /\ (same_name k m \/ clos_trans _ (lc_ref g) k m)).
    assert (G : forall e e2, clos_trans_1n _ (corner g) e e2 -> e2 = ERule m -> Q e).
    { intros e e2 H. induction H as [e e2 H|e y e2 H1 H2 IH]; intros ->.
      - destruct H as (a & pre & mn & mx & x & post & B & I & P & X). exists a, m. split; auto. split; [|left; reflexivity].
        apply (lcr_cat g a pre mn mx x post m I P). destruct x; cbn in X; try discriminate. constructor. unfold same_name. congruence.
      - destruct (IH eq_refl) as (a' & k & B' & L & R). destruct H1 as (a & pre & mn & mx & x & post & B & I & P & X).
        assert (Bx : body g x a') by (eapply body_canon; [symmetry; exact X|exact B']).
        inversion Bx as [k1 a1 R1|a1|a1]; subst.
        + exists a, k1. split; auto. split; [apply (lcr_cat g a pre mn mx (ERule k1) post k1 I P); constructor; reflexivity|]. right.
          assert (E1 : lc_ref g k1 k) by (exists a'; auto). destruct R as [R|R].
          * apply t_step. exists a'. split; auto. eapply (proj1 left_corner_same); eauto.
          * eapply t_trans; [apply t_step; exact E1|exact R].
        + exists a, k. split; auto. split; auto. apply (lcr_cat g a pre mn mx (EGroup a') post k I P). constructor. auto.
        + exists a, k. split; auto. split; auto. apply (lcr_cat g a pre mn mx (EOption a') post k I P). constructor. auto. }
    intros H. apply clos_trans_t1n in H. destruct (G _ _ H eq_refl) as (a & k & B & L & R). inversion B; subst.
    destruct R as [R|R].
    - apply t_step. exists a. split; auto. eapply (proj1 left_corner_same); eauto.
    - eapply t_trans; [apply t_step; exists a; eauto|exact R].
  Qed.
  Lemma lc_corners n m : clos_trans _ (lc_ref g) n m -> corners g (ERule n) (ERule m).
  Proof.
    assert (G : (forall a m, left_corner g a m -> forall e, body g e a -> corners g e (ERule m)) /\
      (forall x m, left_corner_elem g x m -> canon x = canon (ERule m) \/ corners g x (ERule m))).
    { apply lcr_ind2.
      - intros a pre mn mx x post k I P L IH e B. destruct IH as [IH|IH].
        + apply t_step. exists a, pre, mn, mx, x, post. auto.
        + eapply t_trans; [apply t_step; exists a, pre, mn, mx, x, post; eauto|exact IH].
      - intros k n' S. left. cbn. f_equal. exact S.
      - intros a n' L IH. right. apply IH. constructor.
      - intros a n' L IH. right. apply IH. constructor. }
    intros H. induction H as [n m (a & R & L)|n k m H1 IH1 H2 IH2].
    - apply (proj1 G a m L). constructor. auto.
    - eapply t_trans; eauto.
  Qed.
End Corners.

(** ** Components are classes *)
(** The rule the search starts from is not both directly left recursive and left
    recursive through another rule. *)
Definition fine_first (g : grammar) (order : list string) : Prop :=
  forall n rest, order = lower n :: rest -> lc_ref g n n -> forall m, mutually_left g n m -> same_name m n.

Section Classes.
  Variable g : grammar.
  Variable ordn : nat -> list string -> list string.
  Variable order : list string.
  Hypothesis On : any_order ordn.
  Hypothesis K : name_order g order.
  Hypothesis D : distinct_names g.
  Hypothesis B : bounds_ok g.
  Hypothesis FF : fine_first g order.

  Lemma classes : exists lr, left_recursive_sccs g ordn order = Some lr /\
    (forall n, (exists ms, lr (lower n) = Some ms) <-> left_recursive g n) /\
    (forall n ms, lr (lower n) = Some ms -> forall m, In (lower m) ms <-> mutually_left g n m).
  Proof.
    destruct (C45_left_recursion_detected g ordn order D B On K) as (lr & E & Det).
    destruct (C45_mutual_partial g ordn order D B On K) as (lr' & E' & Mu). rewrite E in E'. injection E' as <-.
    exists lr. split; auto. split; auto. intros n ms H. apply Mu; auto.
    destruct order as [|f rest] eqn:Eo; [left; intros; discriminate|].
    destruct (string_dec f (lower n)) as [->|Nf].
    - right. destruct (in_dec string_dec (lower n) ms) as [I|N].
      + assert (Dec : lc_ref g n n \/ ~ lc_ref g n n).
        { destruct (lr_setup g ordn order D B On) as (null & st & So & Cl & _); [rewrite Eo; auto|].
          rewrite <- (lc_deps g D B null So Cl). destruct (in_dec string_dec (lower n) (deps_of (lc_graph g null) (lower n))); auto. }
        destruct Dec as [Y|N]; [right|left; auto]. apply (FF n rest); auto.
      + right. destruct (analysis_total g ordn (lower n :: rest) On) as (lr2 & E2 & LI & _); [auto|]. rewrite E in E2. injection E2 as <-.
        exfalso. apply N. apply LI with (1 := H).
    - left. intros r Er. injection Er as Er _. auto.
  Qed.

  Lemma mutual_sym n m : mutually_left g n m -> mutually_left g m n.
  Proof. intros [A C]. split; auto. Qed.
  Lemma mutual_trans n m k : mutually_left g n m -> mutually_left g m k -> mutually_left g n k.
  Proof. intros [A C] [A' C']. split; eapply t_trans; eauto. Qed.

  Lemma class_facts : exists lr, left_recursive_sccs g ordn order = Some lr /\
    (forall n scc, lr n = Some scc -> In n scc) /\
    (forall n scc m, lr n = Some scc -> In m scc -> exists scc', lr m = Some scc' /\ forall x, In x scc' <-> In x scc) /\
    (forall n scc x, lr n = Some scc -> In x scc -> lower x = x /\ exists a, resolves g x a) /\
    (forall n, lr (lower n) = None -> ~ corners g (ERule n) (ERule n)) /\
    (forall n scc m, lr (lower n) = Some scc -> corners g (ERule n) (ERule m) -> corners g (ERule m) (ERule n) -> In (lower m) scc) /\
    (forall n scc x y, lr n = Some scc -> In x scc -> In y scc -> corners g (ERule x) (ERule y)) /\
    (forall n scc, lr n = Some scc -> NoDup scc).
  Proof.
    destruct classes as (lr & E & Det & Mu). destruct (analysis_total g ordn order On K) as (lr' & E' & LI & Nd & Lo).
    rewrite E in E'. injection E' as <-. exists lr. split; auto. split; auto.
    assert (Mem : forall n scc x, lr n = Some scc -> (In x scc <-> lower x = x /\ mutually_left g n x)).
    { intros n scc x H. assert (Ln : lower n = n) by (apply (Lo n scc n); auto; eapply LI; eauto).
      rewrite <- Ln in H. pose proof (Mu n scc H x) as M. split.
      - intros I. assert (Lx : lower x = x) by (apply (Lo (lower n) scc x); auto). split; auto. apply M. rewrite Lx. auto.
      - intros [Lx H']. apply M in H'. rewrite Lx in H'. auto. }
    split; [|split; [auto|split; [|split; [|split; [|auto]]]]].
    - intros n scc m H I. apply (Mem n scc m H) in I as [Lm Mm].
      assert (left_recursive g m) as R by (eapply t_trans; [apply (proj2 Mm)|apply (proj1 Mm)]).
      apply Det in R as (scc' & H'). rewrite Lm in H'. exists scc'. split; auto. intros x. rewrite (Mem m scc' x H'), (Mem n scc x H).
      split; intros [Lx Q]; split; auto; [eapply mutual_trans; eauto|eapply mutual_trans; eauto using mutual_sym].
    - intros n H C. apply corners_lc in C. assert (Q : exists ms, lr (lower n) = Some ms) by (apply Det; exact C). destruct Q as (ms & Q). congruence.
    - intros n scc m H C1 C2. apply (Mu n scc H). split; apply corners_lc; auto.
    - intros n scc x y H Ix Iy. apply (Mem n scc x H) in Ix as [_ Mx]. apply (Mem n scc y H) in Iy as [_ My].
      apply lc_corners. eapply t_trans; [apply (proj2 Mx)|apply (proj1 My)].
  Qed.
End Classes.
