(** The queries of BsrTree.v answer the same for two representations of slots.  No
    definition here models code. *)
From Coq Require Import ZArith Arith String Bool List Lia.
From Verif Require Import Syntax Spec Slots Gll Bsr Codegen BsrTree.
Import ListNotations.
Local Open Scope string_scope.
Local Open Scope list_scope.
Local Open Scope Z_scope.

Definition qrel {A B} (P : A -> B -> Prop) (x : qres A) (y : qres B) : Prop :=
  match x, y with QVal a, QVal b => P a b | QPanic, QPanic => True | QFuel, QFuel => True | _, _ => False end.
Lemma qrel_bind {A B A' B'} (P : A -> B -> Prop) (Q : A' -> B' -> Prop) x y f h :
  qrel P x y -> (forall a b, P a b -> qrel Q (f a) (h b)) -> qrel Q (qbind x f) (qbind y h).
Proof. intros H K. destruct x, y; cbn in *; auto; contradiction. Qed.
Lemma qrel_eq {A} (x y : qres A) : qrel eq x y -> x = y.
Proof. destruct x, y; cbn; intros H; try contradiction; congruence. Qed.
Definition orel {A B} (P : A -> B -> Prop) (x : option A) (y : option B) : Prop :=
  match x, y with Some a, Some b => P a b | None, None => True | _, _ => False end.
Lemma orel_q {A B} (P : A -> B -> Prop) x y : orel P x y -> qrel P (of_opt x) (of_opt y).
Proof. destruct x, y; cbn; auto. Qed.
Lemma dec_same {A B : Prop} (x : {A} + {~ A}) (y : {B} + {~ B}) : (A <-> B) -> (if x then true else false) = (if y then true else false).
Proof. destruct x, y; tauto. Qed.

Section Sim.
  Variables K K' : Type.
  Variable R : K -> K' -> Prop.
  Variable K_dec : forall a b : K, {a = b} + {a <> b}.
  Variable K_dec' : forall a b : K', {a = b} + {a <> b}.
  Variable prod_dot : K -> option (list qsym * nat).
  Variable prod_dot' : K' -> option (list qsym * nat).
  Variable before : K -> K.
  Variable before' : K' -> K'.
  Variable complete : nat -> option (list K).
  Variable complete' : nat -> option (list K').
  Variable is_rule is_rule' : nat -> option bool.
  Variable rule_name rule_name' : nat -> option string.
  Variable pivots : K -> nat -> nat -> list nat.
  Variable pivots' : K' -> nat -> nat -> list nat.
  Variables start n : nat.
  Hypothesis R_eq : forall a a' b b', R a a' -> R b b' -> (a = b <-> a' = b').
  Hypothesis R_prod : forall a a', R a a' -> prod_dot a = prod_dot' a'.
  Hypothesis R_before : forall a a' p d, R a a' -> prod_dot a = Some (p, S d) -> R (before a) (before' a').
  Hypothesis R_complete : forall x, orel (Forall2 R) (complete x) (complete' x).
  Hypothesis R_rule : forall x, is_rule x = is_rule' x.
  Hypothesis R_name : forall x, is_rule x = Some true -> rule_name x = rule_name' x.
  Hypothesis R_start : rule_name start = rule_name' start.
  Hypothesis R_pivots : forall a a' l r, R a a' -> pivots a l r = pivots' a' l r.

  Definition Rid (a : qid K) (b : qid K') : Prop :=
    match a, b with
    | QI s l r, QI s' l' r' => R s s' /\ l = l' /\ r = r'
    | QS x l r, QS x' l' r' => x = x' /\ l = l' /\ r = r'
    | _, _ => False
    end.
  Lemma Rid_eq a a' b b' : Rid a a' -> Rid b b' -> (a = b <-> a' = b').
  Proof.
    destruct a, a', b, b'; cbn [Rid]; try tauto; intros (H1 & -> & ->) (H2 & -> & ->); split; intros E; try discriminate; injection E as E1 E2 E3; subst; auto.
    - f_equal. apply (R_eq _ _ _ _ H1 H2). reflexivity.
    - f_equal. apply (R_eq _ _ _ _ H1 H2). reflexivity.
  Qed.
  Lemma Rid_in a a' l l' : Rid a a' -> Forall2 Rid l l' -> (In a l <-> In a' l').
  Proof.
    intros H F. induction F as [|b b' l l' Hb F IH]; cbn [In]; [tauto|]. rewrite IH. pose proof (Rid_eq _ _ _ _ Hb H). tauto.
  Qed.
  Lemma Rid_mem a a' l l' : Rid a a' -> Forall2 Rid l l' -> qid_mem K_dec a l = qid_mem K_dec' a' l'.
  Proof. intros H F. unfold qid_mem. apply dec_same. apply Rid_in; auto. Qed.
  Definition Rmemo (x : qid K * Z) (y : qid K' * Z) : Prop := Rid (fst x) (fst y) /\ snd x = snd y.
  Lemma memo_same a a' m m' : Rid a a' -> Forall2 Rmemo m m' -> qmemo_get K_dec a m = qmemo_get K_dec' a' m'.
  Proof.
    intros H F. unfold qmemo_get. induction F as [|[b v] [b' v'] m m' [Hb Hv] F IH]; cbn [find fst snd] in *; [reflexivity|].
    pose proof (Rid_eq _ _ _ _ H Hb) as E. destruct (qid_dec K_dec a b), (qid_dec K_dec' a' b'); try tauto. congruence.
  Qed.
  Definition Rpart (p : part K) (q : part K') : Prop :=
    match p, q with
    | PNone, PNone => True
    | PSym s a b, PSym s' a' b' => s = s' /\ a = a' /\ b = b'
    | PInter s a b, PInter s' a' b' => R s s' /\ a = a' /\ b = b'
    | _, _ => False
    end.
  Lemma parts_same s s' l k r : R s s' ->
    orel (fun x y => Rpart (fst x) (fst y) /\ Rpart (snd x) (snd y)) (parts prod_dot before s l k r) (parts prod_dot' before' s' l k r).
  Proof.
    intros H. unfold parts. pose proof (R_before s s') as B. rewrite (R_prod s s' H) in B |- *. destruct (prod_dot' s') as [[p [|d]]|]; cbn [orel]; auto.
    specialize (B p d H eq_refl).
    destruct (nth_error p d); cbn [orel]; auto. destruct d as [|[|d]]; [cbn [orel fst snd Rpart]; auto| |cbn [orel fst snd Rpart]; auto].
    destruct p; cbn [orel fst snd Rpart]; auto.
  Qed.
  Lemma node_same p q : Rpart p q -> orel Rid (node_of_part p) (node_of_part q).
  Proof.
    destruct p as [|s a b|s a b], q as [|s' a' b'|s' a' b']; cbn [Rpart node_of_part]; try tauto.
    - intros (-> & -> & ->). destruct s'; cbn; auto.
    - intros H. exact H.
  Qed.
  Definition Relem (x : K * nat) (y : K' * nat) : Prop := R (fst x) (fst y) /\ snd x = snd y.
  Lemma pair_same s s' l : R s s' -> Forall2 Relem (map (pair s) l) (map (pair s') l).
  Proof. intros H. induction l; cbn [map]; constructor; auto. split; auto. Qed.
  Lemma elems_same a b : Rid a b -> qrel (Forall2 Relem) (elems complete pivots a) (elems complete' pivots' b).
  Proof.
    destruct a as [s l r|x l r], b as [s' l' r'|x' l' r']; cbn [Rid]; try tauto; intros (H & -> & ->); cbn [elems].
    - cbn [qrel]. rewrite (R_pivots _ _ _ _ H). apply pair_same; auto.
    - subst x'. eapply qrel_bind; [apply orel_q, R_complete|]. intros sls sls' F. cbn [qrel].
      induction F as [|s s' sls sls' Hs F IH]; cbn [flat_map]; [constructor|]. apply Forall2_app; auto. rewrite (R_pivots _ _ _ _ Hs). apply pair_same; auto.
  Qed.
  Lemma ends_same a b : Rid a b -> left_end a = left_end b /\ right_end a = right_end b.
  Proof. destruct a, b; cbn; try tauto; intros (_ & -> & ->); auto. Qed.
  Lemma valid_same : q_valid complete pivots start n = q_valid complete' pivots' start n.
  Proof.
    unfold q_valid. apply qrel_eq. eapply qrel_bind; [apply orel_q, R_complete|]. intros sls sls' F. cbn [qrel].
    induction F as [|s s' sls sls' Hs F IH]; cbn [existsb]; auto. rewrite (R_pivots _ _ _ _ Hs), IH. reflexivity.
  Qed.

  Definition Rst (x : qmemo K * bool) (y : qmemo K' * bool) : Prop := Forall2 Rmemo (fst x) (fst y) /\ snd x = snd y.
  Definition Rval (x : Z * (qmemo K * bool)) (y : Z * (qmemo K' * bool)) : Prop := fst x = fst y /\ Rst (snd x) (snd y).
  Lemma count_same : forall fuel id id' on on' st st', Rid id id' -> Forall2 Rid on on' -> Rst st st' ->
    qrel Rval (q_count K_dec prod_dot before complete pivots fuel id on st) (q_count K_dec' prod_dot' before' complete' pivots' fuel id' on' st').
  Proof.
    induction fuel as [|f IH]; intros id id' on on' st st' Hi Ho Hs; cbn [q_count]; [exact Logic.I|].
    rewrite <- (memo_same id id' _ _ Hi (proj1 Hs)). destruct (qmemo_get K_dec id (fst st)) as [v|]; [split; auto|].
    rewrite <- (Rid_mem id id' on on' Hi Ho). destruct (qid_mem K_dec id on).
    { split; [reflexivity|]. split; [exact (proj1 Hs)|reflexivity]. }
    destruct (ends_same _ _ Hi) as [<- <-].
    assert (Ways : forall p p' s s', Rpart p p' -> Rst s s' ->
      qrel Rval (match node_of_part p with None => QVal (1, s) | Some c => q_count K_dec prod_dot before complete pivots f c (id :: on) s end)
                (match node_of_part p' with None => QVal (1, s') | Some c => q_count K_dec' prod_dot' before' complete' pivots' f c (id' :: on') s' end)).
    { intros p p' s s' Hp H. pose proof (node_same _ _ Hp) as N. destruct (node_of_part p), (node_of_part p'); cbn [orel] in N; try contradiction.
      - apply IH; auto.
      - split; auto. }
    eapply (qrel_bind _ _ _ _ _ _ (elems_same _ _ Hi)). intros es es' Fe.
    eapply qrel_bind with (P := Rval).
    - generalize 0 as t. revert st st' Hs. induction Fe as [|e e' es es' [He1 He2] Fe IHe]; intros st st' Hs t; [split; auto|].
      eapply qrel_bind with (P := Rval).
      + rewrite <- He2. eapply qrel_bind; [apply orel_q, parts_same; exact He1|]. intros pq pq' [P1 P2].
        eapply qrel_bind; [apply Ways; eauto|]. intros x x' [X1 X2]. eapply qrel_bind; [apply Ways; eauto|]. intros y y' [Y1 Y2].
        split; cbn [fst snd]; auto. rewrite X1, Y1. reflexivity.
      + intros x x' [X1 X2]. rewrite <- X1. apply IHe. exact X2.
    - intros x x' (X1 & X2 & X3). split; cbn [fst snd]; auto. split; cbn [fst snd]; auto. constructor; auto. split; auto.
  Qed.
  Theorem num_trees_same fuel :
    q_num_trees K_dec prod_dot before complete pivots start n fuel = q_num_trees K_dec' prod_dot' before' complete' pivots' start n fuel.
  Proof.
    unfold q_num_trees. rewrite <- valid_same. apply qrel_eq. eapply qrel_bind with (P := eq).
    - destruct (q_valid complete pivots start n); cbn; auto.
    - intros v v' <-. destruct v; [|reflexivity]. eapply qrel_bind; [apply count_same|].
      + cbn; auto.
      + constructor.
      + split; cbn; auto.
      + intros x x' (X1 & _ & X3). cbn [qrel]. rewrite X1, X3. reflexivity.
  Qed.

  Definition Rvis (x : bool * list (qid K)) (y : bool * list (qid K')) : Prop := fst x = fst y /\ Forall2 Rid (snd x) (snd y).
  Lemma F2_length {A B} (P : A -> B -> Prop) l l' : Forall2 P l l' -> length l = length l'.
  Proof. intros F. induction F; cbn; congruence. Qed.
  Lemma amb_same : forall fuel id id' vis vis', Rid id id' -> Forall2 Rid vis vis' ->
    qrel Rvis (q_amb K_dec prod_dot before complete pivots fuel id vis) (q_amb K_dec' prod_dot' before' complete' pivots' fuel id' vis').
  Proof.
    induction fuel as [|f IH]; intros id id' vis vis' Hi Hv; cbn [q_amb]; [exact Logic.I|].
    rewrite <- (Rid_mem id id' vis vis' Hi Hv). destruct (qid_mem K_dec id vis); [split; auto|].
    destruct (ends_same _ _ Hi) as [<- <-].
    assert (Of : forall p p' v v', Rpart p p' -> Forall2 Rid v v' ->
      qrel Rvis (match node_of_part p with None => QVal (false, v) | Some c => q_amb K_dec prod_dot before complete pivots f c v end)
                (match node_of_part p' with None => QVal (false, v') | Some c => q_amb K_dec' prod_dot' before' complete' pivots' f c v' end)).
    { intros p p' v v' Hp H. pose proof (node_same _ _ Hp) as N. destruct (node_of_part p), (node_of_part p'); cbn [orel] in N; try contradiction.
      - apply IH; auto.
      - split; auto. }
    eapply (qrel_bind _ _ _ _ _ _ (elems_same _ _ Hi)). intros es es' Fe. rewrite <- (F2_length _ _ _ Fe).
    assert (Hv' : Forall2 Rid (id :: vis) (id' :: vis')) by (constructor; auto).
    destruct (Nat.ltb 1 (length es)); [split; auto|].
    revert Hv'. generalize (id :: vis) (id' :: vis'). clear vis vis' Hv.
    induction Fe as [|e e' es es' [He1 He2] Fe IHe]; intros v v' Hv; [split; auto|].
    eapply qrel_bind with (P := Rvis).
    - rewrite <- He2. eapply qrel_bind; [apply orel_q, parts_same; exact He1|]. intros pq pq' [P1 P2].
      eapply qrel_bind; [apply Of; eauto|]. intros x x' [X1 X2]. rewrite <- X1. destruct (fst x) eqn:Fx; [split; congruence|]. apply Of; auto.
    - intros x x' [X1 X2]. rewrite <- X1. destruct (fst x) eqn:Fx; [split; congruence|]. apply IHe; auto.
  Qed.
  Theorem ambiguous_same fuel :
    q_ambiguous K_dec prod_dot before complete pivots start n fuel = q_ambiguous K_dec' prod_dot' before' complete' pivots' start n fuel.
  Proof.
    unfold q_ambiguous. rewrite <- valid_same. apply qrel_eq. eapply qrel_bind with (P := eq).
    - destruct (q_valid complete pivots start n); cbn; auto.
    - intros v v' <-. destruct v; [|reflexivity]. eapply qrel_bind; [apply amb_same|].
      + cbn; auto.
      + constructor.
      + intros x x' (X1 & _). cbn [qrel]. exact X1.
  Qed.

  Lemma first_same sls sls' a b : Forall2 R sls sls' -> orel Relem (first_elem pivots sls a b) (first_elem pivots' sls' a b).
  Proof.
    intros F. induction F as [|s s' sls sls' Hs F IH]; cbn [first_elem]; [exact Logic.I|]. rewrite (R_pivots _ _ a b Hs).
    destruct (pivots' s' a b); [exact IH|]. cbn [orel]. split; auto.
  Qed.
  Lemma elem_tree_same : forall fuel s s' l k r vis vis', R s s' -> Forall2 Rid vis vis' ->
    qrel eq (collect_elem K_dec prod_dot before complete is_rule rule_name pivots fuel s l k r vis)
            (collect_elem K_dec' prod_dot' before' complete' is_rule' rule_name' pivots' fuel s' l k r vis').
  Proof.
    induction fuel as [|f IH]; intros s s' l k r vis vis' Hs Hv; cbn [collect_elem]; [exact Logic.I|].
    assert (Child : forall y a b, qrel eq
      (collect_child K_dec complete is_rule rule_name pivots (collect_elem K_dec prod_dot before complete is_rule rule_name pivots f) y a b vis)
      (collect_child K_dec' complete' is_rule' rule_name' pivots' (collect_elem K_dec' prod_dot' before' complete' is_rule' rule_name' pivots' f) y a b vis')).
    { intros [x| |] a b; cbn [collect_child]; try reflexivity.
      assert (Hx : Rid (QS x a b) (QS x a b)) by (cbn; auto). rewrite <- (Rid_mem _ _ vis vis' Hx Hv). destruct (qid_mem K_dec (QS x a b) vis); [reflexivity|].
      eapply qrel_bind; [apply orel_q, R_complete|]. intros sls sls' Fs. pose proof (first_same _ _ a b Fs) as Fe.
      destruct (first_elem pivots sls a b) as [[e ke]|], (first_elem pivots' sls' a b) as [[e' ke']|]; cbn [orel] in Fe; try contradiction; [|reflexivity].
      destruct Fe as [E1 E2]. cbn [fst snd] in E1, E2. subst ke'. rewrite <- R_rule. pose proof (R_name x) as Nm.
      destruct (is_rule x) as [ru|]; [|exact Logic.I]. cbn [of_opt qbind]. eapply qrel_bind; [apply IH; auto|].
      intros ts ts' <-. destruct ru; [|reflexivity]. rewrite <- Nm by reflexivity. destruct (rule_name x); cbn; auto. }
    assert (Of : forall p p', Rpart p p' -> qrel eq
      (match p with PNone => QVal []
       | PSym y a b => collect_child K_dec complete is_rule rule_name pivots (collect_elem K_dec prod_dot before complete is_rule rule_name pivots f) y a b vis
       | PInter y a b => match pivots y a b with [] => QVal [] | k' :: _ => collect_elem K_dec prod_dot before complete is_rule rule_name pivots f y a k' b vis end end)
      (match p' with PNone => QVal []
       | PSym y a b => collect_child K_dec' complete' is_rule' rule_name' pivots' (collect_elem K_dec' prod_dot' before' complete' is_rule' rule_name' pivots' f) y a b vis'
       | PInter y a b => match pivots' y a b with [] => QVal [] | k' :: _ => collect_elem K_dec' prod_dot' before' complete' is_rule' rule_name' pivots' f y a k' b vis' end end)).
    { intros [|y a b|y a b] [|y' a' b'|y' a' b']; cbn [Rpart]; try tauto; [reflexivity| |]; intros (Hy & -> & ->).
      - subst y'. apply Child.
      - rewrite (R_pivots _ _ _ _ Hy). destruct (pivots' y' a' b'); [reflexivity|]. apply IH; auto. }
    eapply qrel_bind; [apply orel_q, parts_same; exact Hs|]. intros pq pq' [P1 P2].
    eapply qrel_bind; [apply Of; exact P1|]. intros x x' <-. eapply qrel_bind; [apply Of; exact P2|]. intros y y' <-. reflexivity.
  Qed.
  Theorem tree_same fuel :
    q_tree K_dec prod_dot before complete is_rule rule_name pivots start n fuel = q_tree K_dec' prod_dot' before' complete' is_rule' rule_name' pivots' start n fuel.
  Proof.
    unfold q_tree. rewrite <- valid_same. apply qrel_eq. eapply qrel_bind with (P := eq).
    - destruct (q_valid complete pivots start n); cbn; auto.
    - intros v v' <-. destruct v; [|reflexivity]. eapply qrel_bind; [apply orel_q, R_complete|]. intros sls sls' Fs. pose proof (first_same _ _ 0%nat n Fs) as Fe.
      destruct (first_elem pivots sls 0 n) as [[e ke]|], (first_elem pivots' sls' 0 n) as [[e' ke']|]; cbn [orel] in Fe; try contradiction; [|reflexivity].
      destruct Fe as [E1 E2]. cbn [fst snd] in E1, E2. subst ke'. eapply qrel_bind; [apply elem_tree_same; auto|]. intros ts ts' <-.
      rewrite <- R_start. destruct (rule_name start); cbn; auto.
  Qed.
End Sim.
