(** What the queries of BsrTree.v compute, in terms of the unfoldings of a node: proofs
    for any representation of slots.
    Its definitions are means of proof and model no code. *)
From Coq Require Import ZArith Arith String Bool List Lia.
From Verif Require Import Syntax Spec Slots Gll Bsr Codegen BsrTree.
From Verif Require TreeProof.
Import ListNotations.
Local Open Scope list_scope.
Local Open Scope Z_scope.

Definition o2l {A} (o : option A) : list A := match o with Some a => [a] | None => [] end.

Section Count.
  Variable K : Type.
  Variable K_dec : forall a b : K, {a = b} + {a <> b}.
  Variable prod_dot : K -> option (list qsym * nat).
  Variable before : K -> K.
  Variable complete : nat -> option (list K).
  Variable pivots : K -> nat -> nat -> list nat.
  Notation parts' := (parts prod_dot before).
  Notation elems' := (elems complete pivots).
  Notation count' := (q_count K_dec prod_dot before complete pivots).
  Notation amb' := (q_amb K_dec prod_dot before complete pivots).
  Notation mem := (qid_mem K_dec).

  Definition el (id : qid K) : list (K * nat) := match elems' id with QVal l => l | _ => [] end.
  Definition parts_of (id : qid K) (e : K * nat) := parts' (fst e) (left_end id) (snd e) (right_end id).
  (** The nodes below an element, in the order they are visited. *)
  Definition kids (id : qid K) (e : K * nat) : list (qid K) :=
    match parts_of id e with Some (p, q) => o2l (node_of_part q) ++ o2l (node_of_part p) | None => [] end.

  Variable U : qid K -> Prop.
  Variable bound : nat.
  Hypothesis U_bound : forall l, NoDup l -> Forall U l -> (length l <= bound)%nat.
  Hypothesis U_elems : forall id, U id -> elems' id = QVal (el id).
  Hypothesis U_nodup : forall id, U id -> NoDup (el id).
  Hypothesis U_parts : forall id e, U id -> In e (el id) -> parts_of id e <> None.
  Hypothesis U_kids : forall id e c, U id -> In e (el id) -> In c (kids id e) -> U c.

  Lemma mem_in k l : mem k l = true <-> In k l.
  Proof. unfold qid_mem. destruct (in_dec _ _ _); split; auto; discriminate. Qed.

  Inductive ub : Type := UB (id : qid K) (e : K * nat) (us : list ub).
  Inductive unf : qid K -> ub -> Prop :=
  | unf_intro id e us : In e (el id) -> Forall2 unf (kids id e) us -> unf id (UB id e us).
  Definition step (c id : qid K) : Prop := exists e, In e (el id) /\ In c (kids id e).
  Inductive reach : qid K -> qid K -> Prop :=
  | reach_refl id : reach id id
  | reach_step id c x : step c id -> reach c x -> reach id x.
  Lemma reach_trans a b c : reach a b -> reach b c -> reach a c.
  Proof. induction 1; auto. intros. eapply reach_step; eauto. Qed.
  Lemma step_U c id : U id -> step c id -> U c.
  Proof. intros H (e & I & C). eauto. Qed.
  Lemma reach_U a b : reach a b -> U a -> U b.
  Proof. induction 1; auto. intros. apply IHreach. eapply step_U; eauto. Qed.

  (** *** NumTrees *)
  Definition cnt (id : qid K) (v : Z) : Prop :=
    Acc step id /\ exists l, NoDup l /\ Z.of_nat (length l) = v /\ forall u, In u l <-> unf id u.
  Definition cntl (cs : list (qid K)) (v : Z) : Prop :=
    (forall c, In c cs -> Acc step c) /\
    exists l, NoDup l /\ Z.of_nat (length l) = v /\ forall us, In us l <-> Forall2 unf cs us.
  Definition cnts (id : qid K) (es : list (K * nat)) (v : Z) : Prop :=
    (forall e c, In e es -> In c (kids id e) -> Acc step c) /\
    exists l, NoDup l /\ Z.of_nat (length l) = v /\
      forall x, In x l <-> In (fst x) es /\ Forall2 unf (kids id (fst x)) (snd x).

  Definition pairs (l1 : list ub) (l2 : list (list ub)) : list (list ub) := flat_map (fun u => map (cons u) l2) l1.
  Lemma pairs_in l1 l2 us : In us (pairs l1 l2) <-> exists u t, us = u :: t /\ In u l1 /\ In t l2.
  Proof.
    unfold pairs. rewrite in_flat_map. split.
    - intros (u & Hu & I). apply in_map_iff in I as (t & <- & T). eauto.
    - intros (u & t & -> & Hu & T). exists u. split; auto. apply in_map. auto.
  Qed.
  Lemma pairs_len l1 l2 : length (pairs l1 l2) = (length l1 * length l2)%nat.
  Proof. unfold pairs. induction l1; cbn; auto. rewrite app_length, map_length, IHl1. auto. Qed.
  Lemma pairs_nodup l1 l2 : NoDup l1 -> NoDup l2 -> NoDup (pairs l1 l2).
  Proof.
    intros H1 H2. induction H1 as [|u l1 N H1 IH]; cbn; [constructor|]. apply TreeProof.NoDup_app_intro; auto.
    - apply TreeProof.NoDup_map_inj; auto. intros x y E. inversion E; auto.
    - intros x X Y. apply in_map_iff in X as (t & <- & T). apply pairs_in in Y as (u' & t' & E & Hu & _).
      inversion E; subst. auto.
  Qed.
  Lemma cntl_nil : cntl [] 1.
  Proof.
    split; [easy|]. exists [[]]. split; [constructor; [easy|constructor]|]. split; auto. intros us. split.
    - intros [<-|[]]. constructor.
    - intros H; inversion H; left; auto.
  Qed.
  Lemma cntl_cons c cs v w : cnt c v -> cntl cs w -> cntl (c :: cs) (v * w).
  Proof.
    intros (A & l1 & N1 & E1 & H1) (B & l2 & N2 & E2 & H2). split; [intros x [<-|X]; auto|].
    exists (pairs l1 l2). split; [apply pairs_nodup; auto|]. split; [rewrite pairs_len; lia|].
    intros us. rewrite pairs_in. split.
    - intros (u & t & -> & Hu & T). constructor; [apply H1|apply H2]; auto.
    - intros H; inversion H; subst. eexists _, _. split; [reflexivity|]. split; [apply H1|apply H2]; auto.
  Qed.
  Lemma cnts_nil id : cnts id [] 0.
  Proof. split; [easy|]. exists []. split; [constructor|]. split; auto. intros us. split; [easy|]. intros ([] & _). Qed.
  Lemma cnts_cons id e es v w : ~ In e es -> cntl (kids id e) v -> cnts id es w -> cnts id (e :: es) (v + w).
  Proof.
    intros N (A & l1 & N1 & E1 & H1) (B & l2 & N2 & E2 & H2). split; [intros q c [<-|Q]; eauto|].
    exists (map (pair e) l1 ++ l2)%list. split.
    - apply TreeProof.NoDup_app_intro; auto.
      + apply TreeProof.NoDup_map_inj; auto. intros x y E. inversion E; auto.
      + intros x X Y. apply in_map_iff in X as (us & <- & _). apply H2 in Y as [Y _]. auto.
    - split; [rewrite app_length, map_length; lia|]. intros [e' us]. cbn [fst snd]. rewrite in_app_iff, H2, in_map_iff. cbn [fst snd In]. split.
      + intros [(us' & E & X)|(Q & H)]; [injection E as <- <-; split; auto; apply H1; auto|auto].
      + intros ([<-|Q] & H); [left; exists us; split; auto; apply H1; auto|auto].
  Qed.

  (** The sum over elements as a separate function. *)
  Definition ways (f : nat) (id : qid K) (on : list (qid K)) (p : part K) st : qres (Z * (qmemo K * bool)) :=
    match node_of_part p with None => QVal (1, st) | Some c => count' f c (id :: on) st end.
  Definition celem (f : nat) (id : qid K) (on : list (qid K)) (e : K * nat) st : qres (Z * (qmemo K * bool)) :=
    qbind (of_opt (parts_of id e)) (fun pq =>
    qbind (ways f id on (snd pq) st) (fun x =>
    qbind (ways f id on (fst pq) (snd x)) (fun y => QVal (fst y * fst x, snd y)))).
  Definition csum (f : nat) (id : qid K) (on : list (qid K)) := fix sum (es : list (K * nat)) (total : Z) st : qres (Z * (qmemo K * bool)) :=
    match es with
    | [] => QVal (total, st)
    | e :: es' => qbind (celem f id on e st) (fun x => sum es' (total + fst x) (snd x))
    end.
  Lemma count_S f id on st : count' (S f) id on st =
    match qmemo_get K_dec id (fst st) with
    | Some v => QVal (v, st)
    | None =>
        if mem id on then QVal (1, (fst st, true))
        else qbind (elems' id) (fun es => qbind (csum f id on es 0 st) (fun x => QVal (fst x, ((id, fst x) :: fst (snd x), snd (snd x)))))
    end.
  Proof. reflexivity. Qed.
  Lemma csum_cons f id on e es total st : csum f id on (e :: es) total st = qbind (celem f id on e st) (fun x => csum f id on es (total + fst x) (snd x)).
  Proof. reflexivity. Qed.

  Definition minv (m : qmemo K) : Prop := forall k v, qmemo_get K_dec k m = Some v -> cnt k v.
  Definition cres (st st' : qmemo K * bool) (P : Prop) : Prop :=
    (snd st' = false -> snd st = false) /\ (snd st' = false -> minv (fst st) -> minv (fst st') /\ P).
  Lemma memo_get_cons k k' v m : qmemo_get K_dec k ((k', v) :: m) = if qid_dec K_dec k k' then Some v else qmemo_get K_dec k m.
  Proof. unfold qmemo_get. cbn [find fst]. destruct (qid_dec K_dec k k'); auto. Qed.

  Lemma count_exact f : forall id on st v st', U id -> count' f id on st = QVal (v, st') -> cres st st' (cnt id v).
  Proof.
    induction f as [|f IH]; intros id on st v st' Hu; [discriminate|]. rewrite count_S.
    destruct (qmemo_get K_dec id (fst st)) as [v0|] eqn:M.
    { intros H; inversion H; subst. split; auto. }
    destruct (mem id on).
    { intros H; inversion H; subst. split; discriminate. }
    rewrite (U_elems id Hu). cbn [qbind].
    assert (Wy : forall p st v st', (forall c, In c (o2l (node_of_part p)) -> U c) -> ways f id on p st = QVal (v, st') -> cres st st' (cntl (o2l (node_of_part p)) v)).
    { intros p st1 v1 st2 Up. unfold ways. destruct (node_of_part p) as [c|]; cbn [o2l].
      - intros E. destruct (IH _ _ _ _ _ (Up c (or_introl eq_refl)) E) as [A B]. split; auto. intros F I. destruct (B F I) as [B1 B2]. split; auto.
        replace v1 with (v1 * 1) by lia. apply cntl_cons; auto. apply cntl_nil.
      - intros E. inversion E; subst. split; auto. intros _ I. split; auto. apply cntl_nil. }
    assert (El : forall e st v st', In e (el id) -> celem f id on e st = QVal (v, st') -> cres st st' (cntl (kids id e) v)).
    { intros e st1 v1 st2 Ie. unfold celem. pose proof (U_kids id e) as Uk. unfold kids in *. destruct (parts_of id e) as [[p q]|]; [|discriminate]. cbn [of_opt qbind fst snd].
      destruct (ways f id on q st1) as [[x s1]| |] eqn:E1; try discriminate. cbn [qbind fst snd].
      destruct (ways f id on p s1) as [[y s2]| |] eqn:E2; try discriminate. cbn [qbind fst snd]. intros E. inversion E; subst v1 st2.
      destruct (Wy _ _ _ _ (fun c I => Uk c Hu Ie (in_or_app _ _ _ (or_introl I))) E1) as [A1 A2].
      destruct (Wy _ _ _ _ (fun c I => Uk c Hu Ie (in_or_app _ _ _ (or_intror I))) E2) as [B1 B2]. split; auto.
      intros F I. destruct (A2 (B1 F) I) as [A3 A4]. destruct (B2 F A3) as [B3 B4]. split; auto.
      destruct (node_of_part q) as [c|]; cbn [o2l app] in *.
      - replace (y * x) with (x * y) by lia. destruct A4 as (Ac & l & N & El & Hl). apply cntl_cons; auto.
        split; [apply Ac; left; auto|]. exists (map (fun us => match us with [u] => u | _ => UB id e [] end) l). split; [|split].
        + assert (Sh : forall us, In us l -> exists u, us = [u]). { intros us Iu. apply Hl in Iu. inversion Iu as [|? u ? t Hc Ht]; subst. inversion Ht; subst. eauto. }
          clear Hl El. induction N as [|us l Nu N IHn]; cbn [map]; constructor.
          * rewrite in_map_iff. intros (us' & E' & I'). destruct (Sh us (or_introl eq_refl)) as [u ->]. destruct (Sh us' (or_intror I')) as [u' ->]. subst. auto.
          * apply IHn. intros us' I'. apply Sh. right. auto.
        + rewrite map_length. auto.
        + intros u. rewrite in_map_iff. split.
          * intros (us & E' & I'). apply Hl in I'. inversion I' as [|? u' ? t Hc Ht]; subst. inversion Ht; subst. auto.
          * intros Hc. exists [u]. split; auto. apply Hl. constructor; auto.
      - destruct A4 as (_ & l & N & El & Hl). assert (x = 1).
        { assert (E0 : l = [[]]); [|subst l; rewrite <- El; reflexivity]. assert (I0 : In [] l) by (apply Hl; constructor).
          destruct l as [|a [|b l]]; [destruct I0| |].
          - f_equal. destruct I0 as [->|[]]. auto.
          - exfalso. assert (a = []) by (specialize (proj1 (Hl a) (or_introl eq_refl)); intros X; inversion X; auto).
            assert (b = []) by (specialize (proj1 (Hl b) (or_intror (or_introl eq_refl))); intros X; inversion X; auto). subst. inversion N as [|? ? Nx Ny]; subst. apply Nx. left; auto. }
        rewrite H, Z.mul_1_r. exact B4. }
    assert (Sm : forall es total st v st', (forall e, In e es -> In e (el id)) -> NoDup es -> csum f id on es total st = QVal (v, st') ->
      cres st st' (exists w, v = total + w /\ cnts id es w)).
    { clear - El. induction es as [|e es IHp]; intros total st v st' Ie N.
      - intros H; inversion H; subst. split; auto. intros _ I. split; auto. exists 0. split; [lia|apply cnts_nil].
      - inversion N as [|? ? N1 N2]; subst. rewrite csum_cons.
        destruct (celem f id on e st) as [[v1 st1]| |] eqn:E; try discriminate. cbn [qbind fst snd]. intros H.
        destruct (El _ _ _ _ (Ie e (or_introl eq_refl)) E) as [A1 A2].
        destruct (IHp _ _ _ _ (fun e' I => Ie e' (or_intror I)) N2 H) as [B1 B2]. split; auto.
        intros F I. destruct (A2 (B1 F) I) as [A3 A4]. destruct (B2 F A3) as [B3 (w & Ew & B4)]. split; auto.
        exists (v1 + w). split; [lia|]. apply cnts_cons; auto. }
    destruct (csum _ _ _ _ _ _) as [[total st1]| |] eqn:E; try discriminate. cbn [qbind fst snd]. intros H. inversion H; subst v st'. clear H.
    destruct (Sm _ _ _ _ _ (fun e I => I) (U_nodup id Hu) E) as [A B]. split; cbn [fst snd]; auto.
    intros F I. destruct (B F I) as [B1 (w & Ew & B2)].
    assert (C : cnt id total).
    { destruct B2 as (C1 & l & C2 & C3 & C4). split.
      - constructor. intros c (e & X & Y). eauto.
      - exists (map (fun x => UB id (fst x) (snd x)) l).
        split; [apply TreeProof.NoDup_map_inj; auto; intros [x x'] [y y'] Exy; cbn in Exy; inversion Exy; auto|].
        split; [rewrite map_length; lia|]. intros u. rewrite in_map_iff. split.
        + intros ([e us] & <- & X). apply C4 in X as [X1 X2]. constructor; auto.
        + intros X. inversion X as [? e us X1 X2]; subst. exists (e, us). split; auto. apply C4. auto. }
    split; auto. intros k' v'. rewrite memo_get_cons. destruct (qid_dec K_dec k' id) as [->|]; [|apply B1].
    intros X; inversion X; subst. auto.
  Qed.

  (** The flag is raised only on a cycle. *)
  Definition below (x y : qid K) : Prop := exists c, step c x /\ reach c y.
  Lemma count_cycle f : forall id on st v st', U id -> count' f id on st = QVal (v, st') ->
    snd st = false -> snd st' = true -> (forall x, In x on -> below x id) -> exists x, reach id x /\ below x x.
  Proof.
    induction f as [|f IH]; intros id on st v st' Hu; [discriminate|]. rewrite count_S.
    destruct (qmemo_get K_dec id (fst st)) as [v0|] eqn:M.
    { intros H; inversion H; subst. congruence. }
    destruct (mem id on) eqn:Mem.
    { intros H; inversion H; subst. intros _ _ On. exists id. split; [constructor|]. apply On. apply mem_in; auto. }
    rewrite (U_elems id Hu). cbn [qbind]. intros H S0 S1 On.
    assert (Wy : forall p st v st', (forall c, In c (o2l (node_of_part p)) -> step c id) -> ways f id on p st = QVal (v, st') ->
      snd st = false -> snd st' = true -> exists x, reach id x /\ below x x).
    { intros p st1 v1 st2 Up. unfold ways. destruct (node_of_part p) as [c|]; cbn [o2l] in *.
      - intros E F0 F1. assert (Sc : step c id) by (apply Up; left; auto).
        destruct (IH _ _ _ _ _ (step_U _ _ Hu Sc) E F0 F1) as (x & X1 & X2).
        + intros y [<-|Y]; [exists c; split; [auto|constructor]|]. destruct (On y Y) as (d & D1 & D2). exists d. split; auto.
          eapply reach_trans; eauto. eapply reach_step; eauto. constructor.
        + exists x. split; auto. eapply reach_step; eauto.
      - intros E. inversion E; subst. congruence. }
    assert (El : forall e st v st', In e (el id) -> celem f id on e st = QVal (v, st') ->
      snd st = false -> snd st' = true -> exists x, reach id x /\ below x x).
    { intros e st1 v1 st2 Ie. unfold celem.
      assert (Sk : forall c, In c (kids id e) -> step c id) by (intros c Ic; exists e; auto). unfold kids in Sk.
      destruct (parts_of id e) as [[p q]|]; [|discriminate]. cbn [of_opt qbind fst snd].
      destruct (ways f id on q st1) as [[x s1]| |] eqn:E1; try discriminate. cbn [qbind fst snd].
      destruct (ways f id on p s1) as [[y s2]| |] eqn:E2; try discriminate. cbn [qbind fst snd]. intros E F0 F1. inversion E; subst v1 st2.
      destruct (snd s1) eqn:F.
      - eapply Wy; [|exact E1|auto|auto]. intros c Ic. apply Sk, in_or_app. auto.
      - eapply Wy; [|exact E2|auto|auto]. intros c Ic. apply Sk, in_or_app. auto. }
    assert (Sm : forall es total st v st', (forall e, In e es -> In e (el id)) -> csum f id on es total st = QVal (v, st') ->
      snd st = false -> snd st' = true -> exists x, reach id x /\ below x x).
    { clear - El. induction es as [|e es IHp]; intros total st v st' Ps.
      - intros H; inversion H; subst. congruence.
      - rewrite csum_cons. destruct (celem f id on e st) as [[v1 st1]| |] eqn:E; try discriminate. cbn [qbind fst snd]. intros H S0 S1.
        destruct (snd st1) eqn:F.
        + eapply El; [|exact E|auto|auto]. apply Ps. left; auto.
        + eapply IHp; eauto. intros q Q. apply Ps. right; auto. }
    destruct (csum _ _ _ _ _ _) as [[total st1]| |] eqn:E; try discriminate. cbn [qbind fst snd] in H. inversion H; subst v st'.
    eapply Sm; [|exact E|auto|auto]. auto.
  Qed.
  Lemma acc_no_cycle id : Acc step id -> forall x, reach id x -> ~ below x x.
  Proof.
    intros A x R. assert (Ax : Acc step x).
    { revert A. clear - R. induction R as [id|id c x S R IH]; auto. intros [A]. auto. }
    clear A R. induction Ax as [x _ IH]. intros (c & S & R). apply (IH c S).
    inversion R as [|? d ? S' R']; subst; [exists x; split; [exact S|constructor]|].
    exists d. split; [auto|]. eapply reach_trans; eauto. eapply reach_step; [exact S|constructor].
  Qed.

  Definition seen_ok (l : list (qid K)) : Prop := NoDup l /\ Forall U l.
  Lemma count_total f : forall id on st, U id -> seen_ok on -> (bound < f + length on)%nat ->
    exists v st', count' f id on st = QVal (v, st').
  Proof.
    induction f as [|f IH]; intros id on st Hu O L.
    { destruct O as [N O]. pose proof (U_bound on N O). lia. }
    rewrite count_S. destruct (qmemo_get K_dec id (fst st)) as [v0|]; [eauto|].
    destruct (mem id on) eqn:M; [eauto|]. rewrite (U_elems id Hu). cbn [qbind].
    assert (O' : seen_ok (id :: on)).
    { destruct O as [O1 O2]. split; constructor; auto. intros I. apply mem_in in I. congruence. }
    assert (Wy : forall p st, (forall c, In c (o2l (node_of_part p)) -> U c) -> exists v st', ways f id on p st = QVal (v, st')).
    { intros p st1 Up. unfold ways. destruct (node_of_part p) as [c|]; [|eauto]. apply IH; auto; [apply Up; left; auto|cbn [length]; lia]. }
    assert (El : forall e st, In e (el id) -> exists v st', celem f id on e st = QVal (v, st')).
    { intros e st1 Ie. unfold celem. pose proof (fun c => U_kids id e c Hu Ie) as Uk. pose proof (U_parts id e Hu Ie) as Up. unfold kids in Uk.
      destruct (parts_of id e) as [[p q]|]; [|congruence]. cbn [of_opt qbind fst snd].
      destruct (Wy q st1) as (v & s1 & ->); [intros c Ic; apply Uk, in_or_app; auto|]. cbn [qbind fst snd].
      destruct (Wy p s1) as (v' & s2 & ->); [intros c Ic; apply Uk, in_or_app; auto|]. cbn [qbind fst snd]. eauto. }
    assert (Sm : forall es total st, (forall e, In e es -> In e (el id)) -> exists v st', csum f id on es total st = QVal (v, st')).
    { induction es as [|e es IHp]; intros total st0 Ps; [cbn; eauto|]. rewrite csum_cons.
      destruct (El e st0) as (v & st' & E); [apply Ps; left; auto|]. rewrite E. cbn [qbind fst snd].
      apply IHp. intros q Q. apply Ps. right; auto. }
    destruct (Sm (el id) 0 st) as (v & st' & E); auto. rewrite E. cbn [qbind fst snd]. eauto.
  Qed.

  (** *** Ambiguous *)
  Definition apart (f : nat) (p : part K) vis : qres (bool * list (qid K)) :=
    match node_of_part p with None => QVal (false, vis) | Some c => amb' f c vis end.
  Definition aelem (f : nat) (id : qid K) (e : K * nat) vis : qres (bool * list (qid K)) :=
    qbind (of_opt (parts_of id e)) (fun pq => qbind (apart f (snd pq) vis) (fun x => if fst x then QVal x else apart f (fst pq) (snd x))).
  Definition aany (f : nat) (id : qid K) := fix any (es : list (K * nat)) vis : qres (bool * list (qid K)) :=
    match es with
    | [] => QVal (false, vis)
    | e :: es' => qbind (aelem f id e vis) (fun x => if fst x then QVal x else any es' (snd x))
    end.
  Lemma amb_S f id vis : amb' (S f) id vis =
    if mem id vis then QVal (false, vis)
    else qbind (elems' id) (fun es => if Nat.ltb 1 (length es) then QVal (true, id :: vis) else aany f id es (id :: vis)).
  Proof. reflexivity. Qed.
  Lemma aany_cons f id e es vis : aany f id (e :: es) vis = qbind (aelem f id e vis) (fun x => if fst x then QVal x else aany f id es (snd x)).
  Proof. reflexivity. Qed.

  (** Nodes newly visited have one element, whose nodes are visited. *)
  Definition fresh_done (v v' : list (qid K)) : Prop :=
    incl v v' /\ forall x, In x v' -> ~ In x v -> (length (el x) <= 1)%nat /\ forall c, step c x -> In c v'.
  Lemma fresh_refl s : fresh_done s s.
  Proof. split; [apply incl_refl|]. tauto. Qed.
  Lemma fresh_trans a b c : fresh_done a b -> fresh_done b c -> fresh_done a c.
  Proof.
    intros [A1 A2] [B1 B2]. split; [eapply incl_tran; eauto|]. intros x X N.
    destruct (in_dec (qid_dec K_dec) x b) as [I|I]; [|auto]. destruct (A2 x I N) as [L C]. split; auto.
  Qed.
  Lemma amb_false f : forall id vis s, U id -> amb' f id vis = QVal (false, s) -> fresh_done vis s /\ In id s.
  Proof.
    induction f as [|f IH]; intros id vis s Hu; [discriminate|]. rewrite amb_S. destruct (mem id vis) eqn:M.
    { intros H; inversion H; subst. split; [apply fresh_refl|]. apply mem_in; auto. }
    rewrite (U_elems id Hu). cbn [qbind]. destruct (Nat.ltb_spec 1 (length (el id))) as [Lt|Le]; [discriminate|].
    assert (Ap : forall p vis s, (forall c, In c (o2l (node_of_part p)) -> U c) -> apart f p vis = QVal (false, s) ->
      fresh_done vis s /\ forall c, In c (o2l (node_of_part p)) -> In c s).
    { intros p v1 s1 Up. unfold apart. destruct (node_of_part p) as [c|]; cbn [o2l] in *.
      - intros E. destruct (IH _ _ _ (Up c (or_introl eq_refl)) E) as [A B]. split; auto. intros d [<-|[]]. auto.
      - intros E. inversion E; subst. split; [apply fresh_refl|]. intros d []. }
    assert (Ae : forall e vis s, In e (el id) -> aelem f id e vis = QVal (false, s) -> fresh_done vis s /\ forall c, In c (kids id e) -> In c s).
    { intros e v1 s1 Ie. unfold aelem. pose proof (fun c => U_kids id e c Hu Ie) as Uk. unfold kids in *.
      destruct (parts_of id e) as [[p q]|]; [|discriminate]. cbn [of_opt qbind fst snd].
      destruct (apart f q v1) as [[b s2]| |] eqn:E1; try discriminate. cbn [qbind fst snd]. destruct b; [discriminate|]. intros E2.
      destruct (Ap _ _ _ (fun c I => Uk c (in_or_app _ _ _ (or_introl I))) E1) as [A1 A2].
      destruct (Ap _ _ _ (fun c I => Uk c (in_or_app _ _ _ (or_intror I))) E2) as [B1 B2].
      split; [eapply fresh_trans; eauto|]. intros c Ic. apply in_app_or in Ic as [Ic|Ic]; auto. apply B1; auto. }
    assert (An : forall es vis s, (forall e, In e es -> In e (el id)) -> aany f id es vis = QVal (false, s) ->
      fresh_done vis s /\ forall e c, In e es -> In c (kids id e) -> In c s).
    { clear - Ae. induction es as [|e es IHe]; intros v1 s1 Ie.
      - intros E. inversion E; subst. split; [apply fresh_refl|]. intros e c [].
      - rewrite aany_cons. destruct (aelem f id e v1) as [[b s2]| |] eqn:E1; try discriminate. cbn [qbind fst snd]. destruct b; [discriminate|]. intros E2.
        destruct (Ae _ _ _ (Ie e (or_introl eq_refl)) E1) as [A1 A2]. destruct (IHe _ _ (fun e' I => Ie e' (or_intror I)) E2) as [B1 B2].
        split; [eapply fresh_trans; eauto|]. intros e' c [<-|I] Ic; [apply B1; auto|eauto]. }
    intros E. destruct (An _ _ _ (fun e I => I) E) as [[A1 A2] A3]. split; [|apply A1; left; auto]. split; [intros x X; apply A1; right; auto|].
    intros x X N. destruct (qid_dec K_dec x id) as [->|Ne].
    - split; [auto|]. intros c (e & I & C). eauto.
    - apply A2; auto. intros [<-|I]; auto.
  Qed.
  Lemma amb_false_single f id s : U id -> amb' f id [] = QVal (false, s) -> forall x, reach id x -> (length (el x) <= 1)%nat.
  Proof.
    intros Hu E. destruct (amb_false f id [] s Hu E) as [[_ A] B]. assert (G : forall a x, reach a x -> In a s -> (length (el x) <= 1)%nat).
    { induction 1 as [a|a c x S R IH]; intros I; [apply (A a I); intros []|]. apply IH. apply (A a I); [intros []|auto]. }
    intros x R. eapply G; eauto.
  Qed.
  Lemma amb_true f : forall id vis s, U id -> amb' f id vis = QVal (true, s) -> exists x, reach id x /\ (1 < length (el x))%nat.
  Proof.
    induction f as [|f IH]; intros id vis s Hu; [discriminate|]. rewrite amb_S. destruct (mem id vis); [discriminate|].
    rewrite (U_elems id Hu). cbn [qbind]. destruct (Nat.ltb_spec 1 (length (el id))) as [Lt|Le].
    { intros _. exists id. split; [constructor|auto]. }
    assert (Ap : forall p vis s, (forall c, In c (o2l (node_of_part p)) -> step c id) -> apart f p vis = QVal (true, s) ->
      exists x, reach id x /\ (1 < length (el x))%nat).
    { intros p v1 s1 Up. unfold apart. destruct (node_of_part p) as [c|]; [|discriminate]. intros E.
      assert (Sc : step c id) by (apply Up; left; auto). destruct (IH _ _ _ (step_U _ _ Hu Sc) E) as (x & X1 & X2).
      exists x. split; auto. eapply reach_step; eauto. }
    assert (Ae : forall e vis s, In e (el id) -> aelem f id e vis = QVal (true, s) -> exists x, reach id x /\ (1 < length (el x))%nat).
    { intros e v1 s1 Ie. unfold aelem. assert (Sk : forall c, In c (kids id e) -> step c id) by (intros c Ic; exists e; auto). unfold kids in Sk.
      destruct (parts_of id e) as [[p q]|]; [|discriminate]. cbn [of_opt qbind fst snd].
      destruct (apart f q v1) as [[b s2]| |] eqn:E1; try discriminate. cbn [qbind fst snd]. destruct b.
      - intros _. eapply Ap; [|exact E1]. intros c Ic. apply Sk, in_or_app. auto.
      - intros E2. eapply Ap; [|exact E2]. intros c Ic. apply Sk, in_or_app. auto. }
    assert (An : forall es vis s, (forall e, In e es -> In e (el id)) -> aany f id es vis = QVal (true, s) -> exists x, reach id x /\ (1 < length (el x))%nat).
    { clear - Ae. induction es as [|e es IHe]; intros v1 s1 Ie; [discriminate|].
      rewrite aany_cons. destruct (aelem f id e v1) as [[b s2]| |] eqn:E1; try discriminate. cbn [qbind fst snd]. destruct b.
      - intros _. eapply Ae; [|exact E1]. apply Ie. left; auto.
      - intros E2. eapply IHe; [|exact E2]. intros e' I. apply Ie. right; auto. }
    intros E. eapply An; [|exact E]. auto.
  Qed.
  Lemma amb_total f : forall id vis, U id -> seen_ok vis -> (bound < f + length vis)%nat ->
    exists b s, amb' f id vis = QVal (b, s) /\ seen_ok s /\ (length vis <= length s)%nat.
  Proof.
    induction f as [|f IH]; intros id vis Hu O L.
    { destruct O as [N O]. pose proof (U_bound vis N O). lia. }
    rewrite amb_S. destruct (mem id vis) eqn:M; [eauto|]. rewrite (U_elems id Hu). cbn [qbind].
    assert (O' : seen_ok (id :: vis)).
    { destruct O as [O1 O2]. split; constructor; auto. intros I. apply mem_in in I. congruence. }
    destruct (Nat.ltb 1 (length (el id))); [exists true, (id :: vis); cbn [length]; auto|].
    assert (Ap : forall p v1, (forall c, In c (o2l (node_of_part p)) -> U c) -> seen_ok v1 -> (length vis < length v1)%nat ->
      exists b s, apart f p v1 = QVal (b, s) /\ seen_ok s /\ (length v1 <= length s)%nat).
    { intros p v1 Up Ov Lv. unfold apart. destruct (node_of_part p) as [c|]; [|eauto]. apply IH; auto; [apply Up; left; auto|lia]. }
    assert (Ae : forall e v1, In e (el id) -> seen_ok v1 -> (length vis < length v1)%nat ->
      exists b s, aelem f id e v1 = QVal (b, s) /\ seen_ok s /\ (length v1 <= length s)%nat).
    { intros e v1 Ie Ov Lv. unfold aelem. pose proof (fun c => U_kids id e c Hu Ie) as Uk. pose proof (U_parts id e Hu Ie) as Up. unfold kids in Uk.
      destruct (parts_of id e) as [[p q]|]; [|congruence]. cbn [of_opt qbind fst snd].
      destruct (Ap q v1) as (b & s1 & -> & S1 & L1); auto; [intros c Ic; apply Uk, in_or_app; auto|]. cbn [qbind fst snd]. destruct b; [eauto|].
      destruct (Ap p s1) as (b & s2 & -> & S2 & L2); auto; [intros c Ic; apply Uk, in_or_app; auto|lia|]. exists b, s2. split; auto. split; auto. lia. }
    assert (An : forall es v1, (forall e, In e es -> In e (el id)) -> seen_ok v1 -> (length vis < length v1)%nat ->
      exists b s, aany f id es v1 = QVal (b, s) /\ seen_ok s /\ (length v1 <= length s)%nat).
    { induction es as [|e es IHe]; intros v1 Ps Ov Lv; [cbn; eauto|]. rewrite aany_cons.
      destruct (Ae e v1) as (b & s1 & -> & S1 & L1); auto; [apply Ps; left; auto|]. cbn [qbind fst snd]. destruct b; [eauto|].
      destruct (IHe s1) as (b & s2 & -> & S2 & L2); auto; [intros q Q; apply Ps; right; auto|lia|]. exists b, s2. split; auto. split; auto. lia. }
    destruct (An (el id) (id :: vis)) as (b & s & -> & S1 & L1); auto. exists b, s. cbn [length] in L1. split; auto. split; auto. lia.
  Qed.

  (** *** One unfolding *)
  Hypothesis U_unf : forall id, U id -> exists u, unf id u.
  Lemma all_unf cs : (forall c, In c cs -> U c) -> exists us, Forall2 unf cs us.
  Proof.
    induction cs as [|c cs IH]; intros H; [exists []; constructor|]. destruct (U_unf c) as [u Hu]; [apply H; left; auto|].
    destruct IH as [us Hus]; [intros d D; apply H; right; auto|]. exists (u :: us). constructor; auto.
  Qed.
  Lemma single_unf id : Acc step id -> (forall x, reach id x -> (length (el x) <= 1)%nat) -> forall u u', unf id u -> unf id u' -> u = u'.
  Proof.
    induction 1 as [id _ IH]; intros S u u' H H'. inversion H as [? e us I F]; subst. inversion H' as [? e' us' I' F']; subst.
    assert (e = e').
    { specialize (S id (reach_refl id)). destruct (el id) as [|a [|b l]]; [destruct I| |cbn in S; lia]. destruct I as [<-|[]], I' as [<-|[]]. auto. }
    subst e'. f_equal. assert (G : forall cs, (forall c, In c cs -> step c id) -> forall us us', Forall2 unf cs us -> Forall2 unf cs us' -> us = us').
    { clear - IH S. induction cs as [|c cs IHc]; intros Sc us us' F F'; inversion F; inversion F'; subst; auto. f_equal.
      - match goal with Ha : unf c ?a, Hb : unf c ?b |- ?a = ?b => apply (IH c); [apply Sc; left; auto| |exact Ha|exact Hb] end. intros x R. apply S. eapply reach_step; [apply Sc; left; auto|auto].
      - apply IHc; auto. intros d D. apply Sc. right; auto. }
    eapply G; eauto. intros c C. exists e. auto.
  Qed.
  (** Two unfoldings of a node below give two of the node. *)
  Lemma replace_unf (cs : list (qid K)) c : In c cs -> (forall d, In d cs -> U d) -> forall u u', unf c u -> unf c u' -> u <> u' ->
    exists us us', Forall2 unf cs us /\ Forall2 unf cs us' /\ us <> us'.
  Proof.
    induction cs as [|a cs IH]; intros I Uc u u' H H' N; [destruct I|]. destruct I as [->|I].
    - destruct (all_unf cs) as [us Hus]; [intros d D; apply Uc; right; auto|]. exists (u :: us), (u' :: us). split; [constructor; auto|]. split; [constructor; auto|].
      congruence.
    - destruct (IH I (fun d D => Uc d (or_intror D)) u u' H H' N) as (us & us' & F & F' & Ne). destruct (U_unf a) as [v Hv]; [apply Uc; left; auto|].
      exists (v :: us), (v :: us'). split; [constructor; auto|]. split; [constructor; auto|]. congruence.
  Qed.
  Lemma two_unf id x : reach id x -> U id -> forall u u', unf x u -> unf x u' -> u <> u' -> exists w w', unf id w /\ unf id w' /\ w <> w'.
  Proof.
    induction 1 as [id|id c x (e & Ie & Ic) R IH]; intros Hu u u' H H' N; [eauto|].
    destruct (IH (U_kids _ _ _ Hu Ie Ic) u u' H H' N) as (w & w' & W & W' & Nw).
    destruct (replace_unf (kids id e) c Ic (fun d D => U_kids _ _ _ Hu Ie D) w w' W W' Nw) as (us & us' & F & F' & Ne).
    exists (UB id e us), (UB id e us'). split; [constructor; auto|]. split; [constructor; auto|]. congruence.
  Qed.
  Lemma packed_two x : U x -> (1 < length (el x))%nat -> exists u u', unf x u /\ unf x u' /\ u <> u'.
  Proof.
    intros Hu L. pose proof (U_nodup x Hu) as N. destruct (el x) as [|e [|e' l]] eqn:E; cbn in L; try lia.
    destruct (all_unf (kids x e)) as [us F]; [intros c C; eapply U_kids; eauto; rewrite E; left; auto|].
    destruct (all_unf (kids x e')) as [us' F']; [intros c C; eapply U_kids; eauto; rewrite E; right; left; auto|].
    exists (UB x e us), (UB x e' us'). split; [constructor; auto; rewrite E; left; auto|]. split; [constructor; auto; rewrite E; right; left; auto|].
    intros X. injection X as -> _. inversion N as [|? ? Nx Ny]; subst. apply Nx. left; auto.
  Qed.
  Lemma cnt_one id v : U id -> cnt id v -> 1 <= v /\ (v = 1 <-> forall x, reach id x -> (length (el x) <= 1)%nat).
  Proof.
    intros Hu (A & l & N & Ev & H). destruct (U_unf id Hu) as [u0 H0]. assert (Pos : 1 <= v) by (apply H in H0; destruct l; [destruct H0|cbn in Ev; lia]).
    split; auto. split.
    - intros E x R. destruct (Nat.le_gt_cases (length (el x)) 1) as [Le|Gt]; auto. exfalso.
      destruct (packed_two x (reach_U _ _ R Hu) Gt) as (u & u' & X & X' & NE). destruct (two_unf id x R Hu u u' X X' NE) as (w & w' & W & W' & NW).
      apply H in W, W'. destruct l as [|a [|b l]]; cbn in Ev; try lia. destruct W as [<-|[]], W' as [<-|[]]. congruence.
    - intros One. destruct l as [|a [|b l]]; cbn in Ev; try lia. exfalso.
      assert (a = b) by (apply (single_unf id A One); apply H; cbn [In]; auto). subst. inversion N as [|? ? Nx Ny]; subst. apply Nx. left; auto.
  Qed.
End Count.
