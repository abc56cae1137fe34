(** The calls counted in BsrQueryCost.v are the same for two representations of slots, and a
    tree has no more nodes than calls.
    Its definitions are means of proof and model no code. *)
From Coq Require Import ZArith Arith String Bool List Lia.
From Verif Require Import Syntax Spec Slots Gll Bsr TreeSpec Tree Codegen BsrTree BsrTreeSim BsrQueryCost QueryCostLow.
Import ListNotations.
Local Open Scope list_scope.
Local Open Scope nat_scope.

Section Sim.
  Variables K K' : Type.
  Variable R : K -> K' -> Prop.
  Variable K_dec : forall a b : K, {a = b} + {a <> b}.
  Variable K_dec' : forall a b : K', {a = b} + {a <> b}.
  Variable prod_dot : K -> option (list qsym * nat).
  Variable prod_dot' : K' -> option (list qsym * nat).
  Variable before : K -> K.
  Variable before' : K' -> K'.
  Variable complete : nat -> option (list K).
  Variable complete' : nat -> option (list K').
  Variable pivots : K -> nat -> nat -> list nat.
  Variable pivots' : K' -> nat -> nat -> list nat.
  Hypothesis R_eq : forall a a' b b', R a a' -> R b b' -> (a = b <-> a' = b').
  Hypothesis R_prod : forall a a', R a a' -> prod_dot a = prod_dot' a'.
  Hypothesis R_before : forall a a' p d, R a a' -> prod_dot a = Some (p, S d) -> R (before a) (before' a').
  Hypothesis R_complete : forall x, orel (Forall2 R) (complete x) (complete' x).
  Hypothesis R_pivots : forall a a' l r, R a a' -> pivots a l r = pivots' a' l r.
  Notation Rid' := (Rid K K' R).
  Let csame := count_same K K' R K_dec K_dec' prod_dot prod_dot' before before' complete complete' pivots pivots' R_eq R_prod R_before R_complete R_pivots.
  Let asame := amb_same K K' R K_dec K_dec' prod_dot prod_dot' before before' complete complete' pivots pivots' R_eq R_prod R_before R_complete R_pivots.
  Let psame := parts_same K K' R prod_dot prod_dot' before before' R_prod R_before.
  Let esame := elems_same K K' R complete complete' pivots pivots' R_complete R_pivots.

  Lemma qc_count_same : forall fuel id id' on on' st st', Rid' id id' -> Forall2 Rid' on on' -> Rst K K' R st st' ->
    qc_count K_dec prod_dot before complete pivots fuel id on st = qc_count K_dec' prod_dot' before' complete' pivots' fuel id' on' st'.
  Proof.
    induction fuel as [|f IH]; intros id id' on on' st st' Hi Ho Hs; [reflexivity|]. cbn [qc_count]. f_equal.
    rewrite <- (memo_same K K' R K_dec K_dec' R_eq id id' _ _ Hi (proj1 Hs)). destruct (qmemo_get K_dec id (fst st)); [reflexivity|].
    rewrite <- (Rid_mem K K' R K_dec K_dec' R_eq id id' on on' Hi Ho). destruct (qid_mem K_dec id on); [reflexivity|].
    destruct (ends_same K K' R _ _ Hi) as [<- <-].
    pose proof (esame _ _ Hi) as He. destruct (elems complete pivots id) as [es| |], (elems complete' pivots' id') as [es'| |]; cbn [qrel] in He; try contradiction; try reflexivity.
    assert (Ho' : Forall2 Rid' (id :: on) (id' :: on')) by (constructor; auto).
    assert (Pt : forall p p' s s', Rpart K K' R p p' -> Rst K K' R s s' ->
      match node_of_part p with None => 0 | Some c => qc_count K_dec prod_dot before complete pivots f c (id :: on) s end =
      match node_of_part p' with None => 0 | Some c => qc_count K_dec' prod_dot' before' complete' pivots' f c (id' :: on') s' end /\
      orel (Rst K K' R)
        (match node_of_part p with None => Some s | Some c => match q_count K_dec prod_dot before complete pivots f c (id :: on) s with QVal (_, x) => Some x | _ => None end end)
        (match node_of_part p' with None => Some s' | Some c => match q_count K_dec' prod_dot' before' complete' pivots' f c (id' :: on') s' with QVal (_, x) => Some x | _ => None end end)).
    { intros p p' s s' Hp H. pose proof (node_same K K' R _ _ Hp) as N. destruct (node_of_part p) as [c|], (node_of_part p') as [c'|]; cbn [orel] in N; try contradiction; [|auto].
      split; [apply IH; auto|]. pose proof (csame f c c' _ _ _ _ N Ho' H) as C.
      destruct (q_count K_dec _ _ _ _ f c _ s) as [[v x]| |], (q_count K_dec' _ _ _ _ f c' _ s') as [[v' x']| |]; cbn [qrel orel] in *; try contradiction; auto. apply C. }
    revert st st' Hs. induction He as [|e e' es es' [He1 He2] Fe IHe]; intros st st' Hs; [reflexivity|]. rewrite <- He2. f_equal.
    pose proof (psame (fst e) (fst e') (left_end id) (snd e) (right_end id) He1) as Pp.
    destruct (parts prod_dot before _ _ _ _) as [[p q]|], (parts prod_dot' before' _ _ _ _) as [[p' q']|]; cbn [orel fst snd] in Pp; try contradiction; [|reflexivity].
    destruct Pp as [P1 P2]. destruct (Pt q q' st st' P2 Hs) as [-> A].
    destruct (match node_of_part q with None => Some st | Some c => _ end) as [s1|], (match node_of_part q' with None => Some st' | Some c => _ end) as [s1'|]; cbn [orel] in A; try contradiction; [|reflexivity].
    destruct (Pt p p' s1 s1' P1 A) as [-> B].
    destruct (match node_of_part p with None => Some s1 | Some c => _ end) as [s2|], (match node_of_part p' with None => Some s1' | Some c => _ end) as [s2'|]; cbn [orel] in B; try contradiction; [|reflexivity].
    f_equal. f_equal. apply IHe. exact B.
  Qed.

  Lemma qc_amb_same : forall fuel id id' vis vis', Rid' id id' -> Forall2 Rid' vis vis' ->
    qc_amb K_dec prod_dot before complete pivots fuel id vis = qc_amb K_dec' prod_dot' before' complete' pivots' fuel id' vis'.
  Proof.
    induction fuel as [|f IH]; intros id id' vis vis' Hi Hv; [reflexivity|]. cbn [qc_amb]. f_equal.
    rewrite <- (Rid_mem K K' R K_dec K_dec' R_eq id id' vis vis' Hi Hv). destruct (qid_mem K_dec id vis); [reflexivity|].
    destruct (ends_same K K' R _ _ Hi) as [<- <-].
    pose proof (esame _ _ Hi) as He. destruct (elems complete pivots id) as [es| |], (elems complete' pivots' id') as [es'| |]; cbn [qrel] in He; try contradiction; try reflexivity.
    rewrite <- (F2_length _ _ _ He). destruct (Nat.ltb 1 (length es)); [reflexivity|].
    assert (Hv' : Forall2 Rid' (id :: vis) (id' :: vis')) by (constructor; auto).
    assert (Pt : forall p p' s s', Rpart K K' R p p' -> Forall2 Rid' s s' ->
      match node_of_part p with None => 0 | Some c => qc_amb K_dec prod_dot before complete pivots f c s end =
      match node_of_part p' with None => 0 | Some c => qc_amb K_dec' prod_dot' before' complete' pivots' f c s' end /\
      orel (Forall2 Rid')
        (match node_of_part p with None => Some s | Some c => match q_amb K_dec prod_dot before complete pivots f c s with QVal (false, x) => Some x | _ => None end end)
        (match node_of_part p' with None => Some s' | Some c => match q_amb K_dec' prod_dot' before' complete' pivots' f c s' with QVal (false, x) => Some x | _ => None end end)).
    { intros p p' s s' Hp H. pose proof (node_same K K' R _ _ Hp) as N. destruct (node_of_part p) as [c|], (node_of_part p') as [c'|]; cbn [orel] in N; try contradiction; [|auto].
      split; [apply IH; auto|]. pose proof (asame f c c' _ _ N H) as C.
      destruct (q_amb K_dec _ _ _ _ f c s) as [[v x]| |], (q_amb K_dec' _ _ _ _ f c' s') as [[v' x']| |]; cbn [qrel orel] in *; try contradiction; auto.
      destruct C as [C1 C2]. cbn [fst snd] in C1, C2. subst v'. destruct v; cbn [orel]; auto. }
    revert Hv'. generalize (id :: vis) (id' :: vis'). induction He as [|e e' es es' [He1 He2] Fe IHe]; intros st st' Hs; [reflexivity|]. rewrite <- He2. f_equal.
    pose proof (psame (fst e) (fst e') (left_end id) (snd e) (right_end id) He1) as Pp.
    destruct (parts prod_dot before _ _ _ _) as [[p q]|], (parts prod_dot' before' _ _ _ _) as [[p' q']|]; cbn [orel fst snd] in Pp; try contradiction; [|reflexivity].
    destruct Pp as [P1 P2]. destruct (Pt q q' st st' P2 Hs) as [-> A].
    destruct (match node_of_part q with None => Some st | Some c => _ end) as [s1|], (match node_of_part q' with None => Some st' | Some c => _ end) as [s1'|]; cbn [orel] in A; try contradiction; [|reflexivity].
    destruct (Pt p p' s1 s1' P1 A) as [-> B].
    destruct (match node_of_part p with None => Some s1 | Some c => _ end) as [s2|], (match node_of_part p' with None => Some s1' | Some c => _ end) as [s2'|]; cbn [orel] in B; try contradiction; [|reflexivity].
    f_equal. f_equal. apply IHe. exact B.
  Qed.

  Lemma qc_collect_same : forall fuel s s' l k r vis vis', R s s' -> Forall2 Rid' vis vis' ->
    qc_collect K_dec prod_dot before complete pivots fuel s l k r vis = qc_collect K_dec' prod_dot' before' complete' pivots' fuel s' l k r vis'.
  Proof.
    induction fuel as [|f IH]; intros s s' l k r vis vis' Hs Hv; [reflexivity|]. cbn [qc_collect]. f_equal.
    assert (Pt : forall p p', Rpart K K' R p p' ->
      match p with
      | PNone => 0
      | PSym (QNT x) a b => 1 + (if qid_mem K_dec (QS x a b) vis then 0 else match complete x with None => 0 | Some sls =>
          match first_elem pivots sls a b with None => 0 | Some (sl', k') => qc_collect K_dec prod_dot before complete pivots f sl' a k' b (QS x a b :: vis) end end)
      | PSym _ _ _ => 1
      | PInter y a b => match pivots y a b with [] => 0 | k' :: _ => qc_collect K_dec prod_dot before complete pivots f y a k' b vis end
      end =
      match p' with
      | PNone => 0
      | PSym (QNT x) a b => 1 + (if qid_mem K_dec' (QS x a b) vis' then 0 else match complete' x with None => 0 | Some sls =>
          match first_elem pivots' sls a b with None => 0 | Some (sl', k') => qc_collect K_dec' prod_dot' before' complete' pivots' f sl' a k' b (QS x a b :: vis') end end)
      | PSym _ _ _ => 1
      | PInter y a b => match pivots' y a b with [] => 0 | k' :: _ => qc_collect K_dec' prod_dot' before' complete' pivots' f y a k' b vis' end
      end).
    { intros [|y a b|y a b] [|y' a' b'|y' a' b']; cbn [Rpart]; try tauto; [intros (-> & -> & ->)|intros (Hy & -> & ->)].
      - destruct y' as [x| |]; auto. f_equal.
        assert (Hx : Rid' (QS x a' b') (QS x a' b')) by (cbn; auto).
        rewrite <- (Rid_mem K K' R K_dec K_dec' R_eq _ _ vis vis' Hx Hv). destruct (qid_mem K_dec (QS x a' b') vis); [reflexivity|].
        pose proof (R_complete x) as C. destruct (complete x) as [sls|], (complete' x) as [sls'|]; cbn [orel] in C; try contradiction; [|reflexivity].
        pose proof (first_same K K' R pivots pivots' R_pivots _ _ a' b' C) as Fe.
        destruct (first_elem pivots sls a' b') as [[e ke]|], (first_elem pivots' sls' a' b') as [[e' ke']|]; cbn [orel] in Fe; try contradiction; [|reflexivity].
        destruct Fe as [E1 E2]. cbn [fst snd] in E1, E2. subst ke'. apply IH; auto.
      - rewrite (R_pivots _ _ _ _ Hy). destruct (pivots' y' a' b'); [reflexivity|]. apply IH; auto. }
    pose proof (psame s s' l k r Hs) as Pp.
    destruct (parts prod_dot before _ _ _ _) as [[p q]|], (parts prod_dot' before' _ _ _ _) as [[p' q']|]; cbn [orel fst snd] in Pp; try contradiction; [|reflexivity].
    destruct Pp as [P1 P2]. f_equal; apply Pt; auto.
  Qed.
End Sim.

(** *** A tree has no more nodes than it takes calls *)
Section Size.
  Variable K : Type.
  Variable K_dec : forall a b : K, {a = b} + {a <> b}.
  Variable prod_dot : K -> option (list qsym * nat).
  Variable before : K -> K.
  Variable complete : nat -> option (list K).
  Variable is_rule : nat -> option bool.
  Variable rule_name : nat -> option string.
  Variable pivots : K -> nat -> nat -> list nat.
  Notation ce := (collect_elem K_dec prod_dot before complete is_rule rule_name pivots).
  Notation qct := (qc_collect K_dec prod_dot before complete pivots).

  Lemma collect_elem_size : forall f sl l k r vis ts, ce f sl l k r vis = QVal ts -> tsizes ts <= qct f sl l k r vis.
  Proof.
    induction f as [|f IH]; intros sl l k r vis ts E; [discriminate|]. cbn [collect_elem] in E. cbn [qc_collect].
    set (pt := fun p : part K => match p with
      | PNone => 0
      | PSym (QNT x) a b => 1 + (if qid_mem K_dec (QS x a b) vis then 0 else match complete x with None => 0 | Some sls =>
          match first_elem pivots sls a b with None => 0 | Some (sl', k') => qct f sl' a k' b (QS x a b :: vis) end end)
      | PSym _ _ _ => 1
      | PInter y a b => match pivots y a b with [] => 0 | k' :: _ => qct f y a k' b vis end
      end).
    assert (Pt : forall p us, match p with PNone => QVal []
       | PSym y a b => collect_child K_dec complete is_rule rule_name pivots (ce f) y a b vis
       | PInter y a b => match pivots y a b with [] => QVal [] | k' :: _ => ce f y a k' b vis end end = QVal us -> tsizes us <= pt p).
    { intros [|y a b|y a b] us Eu; unfold pt.
      - injection Eu as <-. cbn. lia.
      - destruct y as [x| |]; cbn [collect_child] in Eu; [|injection Eu as <-; cbn; lia|injection Eu as <-; cbn; lia].
        destruct (qid_mem K_dec (QS x a b) vis); [injection Eu as <-; cbn; lia|]. destruct (complete x) as [sls|]; [|discriminate]. cbn [of_opt qbind] in Eu.
        destruct (first_elem pivots sls a b) as [[s' k']|]; [|injection Eu as <-; cbn; lia].
        destruct (is_rule x) as [ru|]; [|discriminate]. cbn [of_opt qbind] in Eu.
        destruct (ce f s' a k' b (QS x a b :: vis)) as [ks| |] eqn:Ek; try discriminate. apply IH in Ek. cbn [qbind] in Eu.
        destruct ru; [|injection Eu as <-; lia]. destruct (rule_name x) as [nm0|]; [|discriminate]. cbn [of_opt qbind] in Eu. injection Eu as <-.
        unfold tsizes in *. cbn [map tsize list_sum fold_right]. change (fold_right Nat.add 0) with list_sum. lia.
      - destruct (pivots y a b) as [|k' ks]; [injection Eu as <-; cbn; lia|]. apply IH; auto. }
    destruct (parts prod_dot before sl l k r) as [[p q]|]; [|discriminate]. cbn [of_opt qbind fst snd] in E.
    match type of E with qbind ?x _ = _ => destruct x as [xs| |] eqn:Ex; try discriminate end. cbn [qbind] in E.
    match type of E with qbind ?x _ = _ => destruct x as [ys| |] eqn:Ey; try discriminate end. cbn [qbind] in E. injection E as <-.
    apply Pt in Ex. apply Pt in Ey. rewrite tsizes_app. fold (pt p) (pt q). lia.
  Qed.
End Size.
