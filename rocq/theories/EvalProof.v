(** The rule map after evaluating a list of definitions.
    Its definitions are means of proof and model no code. *)
From Coq Require Import ZArith String Ascii Bool List Lia Permutation.
From Verif Require Import Syntax Spec Utf8 Num Printer Tape Eval PropTerm.
Import ListNotations.
Local Open Scope string_scope.
Local Open Scope list_scope.

(** *** Specification of RFC 5234 sections 3.3 and 2.1 on definition lists.
    A definition is a rule and whether it is written with [=/]. *)
Definition named (n : string) (ds : list (rule * bool)) : Prop :=
  exists d, In d ds /\ same_name n (rule_name (fst d)).
Definition core_name (core : grammar) (n : string) : Prop :=
  exists r, In r core /\ same_name n (rule_name r).

(** What is wrong with definition [d] after the definitions [pre]. *)
Inductive violates (core : grammar) (pre : list (rule * bool)) (d : rule * bool) : eval_error -> Prop :=
| v_core : core_name core (rule_name (fst d)) -> violates core pre d (EE_core_modify (rule_name (fst d)))
| v_dup : ~ core_name core (rule_name (fst d)) -> snd d = false -> named (rule_name (fst d)) pre ->
    violates core pre d (EE_duplicated (rule_name (fst d)))
| v_missing : ~ core_name core (rule_name (fst d)) -> snd d = true -> ~ named (rule_name (fst d)) pre ->
    violates core pre d (EE_not_found (rule_name (fst d))).

Definition defs_ok (core : grammar) (ds : list (rule * bool)) : Prop :=
  forall pre d post e, ds = pre ++ d :: post -> ~ violates core pre d e.

(** The alternatives of a rule: those of all its definitions, in order. *)
Definition merged (n : string) (ds : list (rule * bool)) : alternation :=
  flat_map (fun d => if equal_fold n (rule_name (fst d)) then rule_alt (fst d) else []) ds.

(** [r] is the rule the definitions [ds] give to its name. *)
Definition defined_as (ds : list (rule * bool)) (r : rule) : Prop :=
  exists d, In (d, false) ds /\ rule_name r = rule_name d /\ rule_alt r = merged (rule_name r) ds.

(** *** Lemmas on the map *)
Lemma rm_find_some core n m e r : rm_find core n m = Some (e, r) ->
  exists k, In (k, e) m /\ deref core e = Some r /\ same_name n (rule_name r).
Proof.
  induction m as [|[k' e'] m IH]; cbn; [discriminate|].
  destruct (deref core e') as [r'|] eqn:D.
  - destruct (equal_fold n (rule_name r')) eqn:F.
    + intros H; inversion H; subst. exists k'. split; auto. split; auto. apply equal_fold_iff; auto.
    + intros H. destruct (IH H) as (k & A & B). eauto.
  - intros H. destruct (IH H) as (k & A & B). eauto.
Qed.
Lemma rm_find_none core n m : rm_find core n m = None ->
  forall k e r, In (k, e) m -> deref core e = Some r -> ~ same_name n (rule_name r).
Proof.
  induction m as [|[k' e'] m IH]; cbn; intros H k e r X D; [easy|].
  destruct X as [X|X].
  - inversion X; subst. rewrite D in H. intros S. apply equal_fold_iff in S. rewrite S in H. discriminate.
  - destruct (deref core e') as [r'|]; [destruct (equal_fold n (rule_name r')); [discriminate|]|]; eapply IH; eauto.
Qed.
Lemma rm_set_in k e m : NoDup (map fst m) -> forall k' e',
  In (k', e') (rm_set k e m) <-> (k', e') = (k, e) \/ (In (k', e') m /\ k' <> k).
Proof.
  induction m as [|[k0 e0] m IH]; cbn; intros N k' e'.
  - split; [intros [H|[]]; auto|intros [H|[[] _]]; auto].
  - inversion N as [|? ? N1 N2]; subst. destruct (String.eqb_spec k k0) as [->|E]; cbn.
    + split.
      * intros [H|H]; auto. right. split; auto. intros ->. apply N1. apply in_map_iff. exists (k0, e'). auto.
      * intros [H|[[H|H] H2]]; auto. inversion H; subst. congruence.
    + rewrite (IH N2). split.
      * intros [H|[H|[H1 H2]]]; auto. right. split; auto. inversion H; subst. congruence.
      * intros [H|[[H|H] H2]]; auto.
Qed.
Lemma rm_set_keys k e m x : In x (map fst (rm_set k e m)) <-> x = k \/ In x (map fst m).
Proof.
  induction m as [|[k0 e0] m IH]; cbn; [intuition|]. destruct (String.eqb_spec k k0) as [->|E]; cbn; [intuition|].
  rewrite IH. intuition.
Qed.
Lemma rm_set_lnodup k e m : NoDup (map (fun x => lower (fst x)) m) ->
  (In k (map fst m) \/ ~ In (lower k) (map (fun x => lower (fst x)) m)) ->
  NoDup (map (fun x => lower (fst x)) (rm_set k e m)).
Proof.
  induction m as [|[k0 e0] m IH]; cbn; intros N H; [repeat constructor; auto|].
  inversion N as [|? ? N1 N2]; subst. destruct (String.eqb_spec k k0) as [->|E]; cbn; [constructor; auto|].
  assert (K : In k (map fst m) \/ ~ In (lower k) (map (fun x => lower (fst x)) m)).
  { destruct H as [[H|H]|H]; [congruence|auto|right; tauto]. }
  constructor; [|auto].
  rewrite in_map_iff. intros ((k' & e') & A & B). cbn in A.
  assert (C : In k' (map fst (rm_set k e m))) by (apply in_map_iff; exists (k', e'); auto).
  apply rm_set_keys in C as [->|C].
  - destruct H as [[H|H]|H]; [congruence| |].
    + apply N1. rewrite <- A. apply in_map_iff in H as ((k1 & e1) & H1 & H2). cbn in H1. subst k1.
      apply in_map_iff. exists (k, e1). auto.
    + apply H. left. congruence.
  - apply N1. rewrite <- A. apply in_map_iff in C as ((k1 & e1) & H1 & H2). cbn in H1. subst k1.
    apply in_map_iff. exists (k', e1). auto.
Qed.
Lemma lnodup_nodup (m : rmap) : NoDup (map (fun x => lower (fst x)) m) -> NoDup (map fst m).
Proof.
  induction m as [|[k e] m IH]; cbn; intros N; constructor; inversion N as [|? ? N1 N2]; subst; auto.
  intros H. apply N1. apply in_map_iff in H as ((k' & e') & A & B). cbn in A. subst. apply in_map_iff. exists (k, e'). auto.
Qed.

Section NoRedefine.
  Variable ord : nat -> rmap -> rmap.
  Hypothesis ord_in : forall t l x, In x (ord t l) <-> In x l.
  Variable core : grammar.

  Record Inv (ds : list (rule * bool)) (st : estate) : Prop := {
    i_core : e_core st = core;
    i_own : forall k e, In (k, e) (e_map st) -> exists r, e = Own r /\ rule_name r = k;
    i_nodup : NoDup (map (fun x => lower (fst x)) (e_map st));
    i_in : forall k r, In (k, Own r) (e_map st) <-> (rule_name r = k /\ defined_as ds r);
    i_named : forall d, In d ds -> exists k e, In (k, e) (e_map st) /\ same_name (rule_name (fst d)) k;
    i_nocore : forall d, In d ds -> ~ core_name core (rule_name (fst d)) }.

  Lemma merged_app n ds ds' : merged n (ds ++ ds') = merged n ds ++ merged n ds'.
  Proof. unfold merged. apply flat_map_app. Qed.
  Lemma merged_named n ds : ~ named n ds -> merged n ds = [].
  Proof.
    induction ds as [|d ds IH]; cbn; auto. intros H.
    destruct (equal_fold n (rule_name (fst d))) eqn:E.
    - exfalso. apply H. exists d. split; [left; auto|]. apply equal_fold_iff; auto.
    - apply IH. intros (d' & A & B). apply H. exists d'. split; [right; auto|auto].
  Qed.
  Lemma merged_same n n' ds : same_name n n' -> merged n ds = merged n' ds.
  Proof.
    intros E. unfold merged. induction ds as [|d ds IH]; cbn; auto. rewrite IH.
    unfold equal_fold. rewrite E. reflexivity.
  Qed.

  Lemma find_core n : (exists r, get_rule_in n core = Some r) <-> core_name core n.
  Proof.
    unfold get_rule_in, core_name. split.
    - intros (r & H). apply find_some in H as [A B]. exists r. split; auto. apply equal_fold_iff; auto.
    - intros (r & A & B). destruct (find _ core) as [r'|] eqn:F; [eauto|].
      eapply find_none in F; [|exact A]. apply equal_fold_iff in B. cbn in F. congruence.
  Qed.

  Lemma step ds st d : Inv ds st ->
    match e_define false ord d st with
    | EvOk st' => Inv (ds ++ [d]) st' /\ forall e, ~ violates core ds d e
    | EvErr e => violates core ds d e
    | EvPanic => False
    end.
  Proof.
    intros [Ic Io In_ Ii Iu Ino]. destruct d as [rl b]. unfold e_define. rewrite Ic. cbn [negb andb].
    set (n := rule_name rl).
    destruct (get_rule_in n core) as [rc|] eqn:C.
    { assert (core_name core n) by (apply find_core; eauto).
      destruct b; apply v_core; auto. }
    assert (NC : ~ core_name core n).
    { intros H. apply find_core in H as (r & H). congruence. }
    unfold rm_get. rewrite C.
    destruct (rm_find core n (ord (e_tick st) (e_map st))) as [[e r]|] eqn:F.
    - apply rm_find_some in F as (k & K & D & S). apply ord_in in K.
      destruct (Io _ _ K) as (r' & -> & Kn). cbn in D. inversion D; subst r'. clear D.
      assert (Nm : named n ds).
      { apply Ii in K as (_ & (d0 & A & B & _)). exists (d0, false). split; auto. cbn. unfold same_name in *. congruence. }
      destruct b.
      + split.
        2:{ intros x V. inversion V; subst; cbn in *; try tauto; try discriminate. }
        subst k. pose proof (lnodup_nodup _ In_) as ND.
        pose proof (proj1 (Ii _ _) K) as (_ & (d0 & A0 & B0 & M0)).
        set (r2 := mkRule (rule_name r) (rule_alt r ++ rule_alt rl)).
        assert (Mr : merged (rule_name r) (ds ++ [(rl, true)]) = rule_alt r ++ rule_alt rl).
        { rewrite merged_app, M0. f_equal. cbn.
          assert (X : equal_fold (rule_name r) (rule_name rl) = true) by (apply equal_fold_iff; symmetry; exact S).
          rewrite X, app_nil_r. auto. }
        assert (Oth : forall r', In (rule_name r', Own r') (e_map st) -> rule_name r' <> rule_name r ->
           merged (rule_name r') (ds ++ [(rl, true)]) = merged (rule_name r') ds).
        { intros r' I' N'. rewrite merged_app. cbn.
          destruct (equal_fold (rule_name r') (rule_name rl)) eqn:Q; [|rewrite !app_nil_r; auto].
          exfalso. apply equal_fold_iff in Q. apply N'. clear -In_ I' K Q S. unfold same_name in *.
          assert (L : lower (rule_name r') = lower (rule_name r)) by (rewrite Q; exact S). clear Q S.
          induction (e_map st) as [|[k0 e0] m IH]; cbn in *; [easy|]. inversion In_ as [|? ? N1 N2]; subst.
          destruct I' as [I'|I'], K as [K|K]; try (apply IH; auto; fail).
          - congruence.
          - inversion I'; subst. exfalso. apply N1. rewrite L. apply in_map_iff. exists (rule_name r, Own r). auto.
          - inversion K; subst. exfalso. apply N1. rewrite <- L. apply in_map_iff. exists (rule_name r', Own r'). auto. }
        split; cbn [e_core e_map].
        * reflexivity.
        * intros k e I. apply (rm_set_in _ _ _ ND) in I as [I|[I _]]; [inversion I; subst; exists r2; auto|eauto].
        * apply rm_set_lnodup; auto. left. apply in_map_iff. exists (rule_name r, Own r). auto.
        * intros k r'. rewrite (rm_set_in _ _ _ ND). split.
          -- intros [I|[I N']].
             ++ inversion I; subst. split; auto. exists d0. split; [apply in_app_iff; auto|]. split; auto.
             ++ apply Ii in I as E'. destruct E' as (<- & (d1 & A1 & B1 & M1)). split; auto. exists d1.
                split; [apply in_app_iff; auto|]. split; auto. rewrite Oth; auto.
          -- intros (<- & (d1 & A1 & B1 & M1)). apply in_app_iff in A1 as [A1|[A1|[]]]; [|discriminate].
             destruct (string_dec (rule_name r') (rule_name r)) as [E|E].
             ++ left. rewrite E in *. f_equal. f_equal. destruct r' as [rn ra]. cbn in *. subst rn.
                rewrite Mr in M1. rewrite M1. reflexivity.
             ++ right. split; auto. apply Ii. split; auto. exists d1. split; auto. split; auto. rewrite M1.
                destruct (equal_fold (rule_name r') (rule_name rl)) eqn:Q.
                ** exfalso.
                   set (r3 := mkRule (rule_name r') (merged (rule_name r') ds)).
                   assert (I3 : In (rule_name r', Own r3) (e_map st)).
                   { apply Ii. split; auto. exists d1. auto. }
                   apply equal_fold_iff in Q. apply E. clear -In_ I3 K Q S. unfold same_name in *.
                   assert (L : lower (rule_name r') = lower (rule_name r)) by (rewrite Q; exact S). clear Q S. clearbody r3.
                   induction (e_map st) as [|[k0 e0] m IH]; cbn in *; [easy|]. inversion In_ as [|? ? N1 N2]; subst.
                   destruct I3 as [I'|I'], K as [K|K]; try (apply IH; auto; fail).
                   --- congruence.
                   --- inversion I'; subst. exfalso. apply N1. rewrite L. apply in_map_iff. exists (rule_name r, Own r). auto.
                   --- inversion K; subst. exfalso. apply N1. rewrite <- L. apply in_map_iff. exists (rule_name r', Own r3). auto.
                ** rewrite merged_app. cbn. rewrite Q, !app_nil_r. auto.
        * intros d I. apply in_app_iff in I as [I|[<-|[]]].
          -- destruct (Iu _ I) as (k1 & e1 & A1 & B1).
             assert (In k1 (map fst (rm_set (rule_name r) (Own r2) (e_map st)))) as Q.
             { apply rm_set_keys. right. apply in_map_iff. exists (k1, e1). auto. }
             apply in_map_iff in Q as ((k2 & e2) & Q1 & Q2). cbn in Q1. subst k2. eauto.
          -- exists (rule_name r), (Own r2). split; [|auto]. apply rm_set_in; auto.
        * intros d I. apply in_app_iff in I as [I|[<-|[]]]; auto.
      + apply v_dup; auto.
    - assert (NN : ~ named n ds).
      { intros (d0 & A & B). destruct (Iu _ A) as (k & e & K & S). destruct (Io _ _ K) as (r & -> & Kn).
        apply (rm_find_none _ _ _ F k (Own r) r (proj2 (ord_in _ _ _) K) eq_refl).
        unfold same_name in *. rewrite B, S, Kn. reflexivity. }
      destruct b; [apply v_missing; auto|]. split.
      2:{ intros x V. inversion V; subst; cbn in *; try tauto; try discriminate. }
      assert (NK : ~ In (lower n) (map (fun x => lower (fst x)) (e_map st))).
      { intros H. apply in_map_iff in H as ((k & e) & A & B). cbn in A. destruct (Io _ _ B) as (r & -> & Kn).
        apply (rm_find_none _ _ _ F k (Own r) r (proj2 (ord_in _ _ _) B) eq_refl).
        unfold same_name. rewrite Kn. symmetry. exact A. }
      pose proof (lnodup_nodup _ In_) as ND.
      assert (NKx : forall k e, In (k, e) (e_map st) -> k <> n).
      { intros k e I ->. apply NK. apply in_map_iff. exists (n, e). auto. }
      assert (NDf : forall d1, In (d1, false) ds -> ~ same_name (rule_name d1) n).
      { intros d1 A B. apply NN. exists (d1, false). split; auto. symmetry. exact B. }
      split; cbn [e_core e_map].
      * reflexivity.
      * intros k e I. apply (rm_set_in _ _ _ ND) in I as [I|[I _]]; [inversion I; subst; exists rl; auto|eauto].
      * apply rm_set_lnodup; auto.
      * intros k r'. rewrite (rm_set_in _ _ _ ND). split.
        -- intros [I|[I N']].
           ++ inversion I; subst. split; auto. exists rl. split; [apply in_app_iff; right; left; auto|]. split; auto.
              rewrite merged_app, merged_named by auto. cbn.
              assert (equal_fold (rule_name rl) (rule_name rl) = true) as -> by (apply equal_fold_iff; reflexivity).
              rewrite app_nil_r. auto.
           ++ apply Ii in I as (<- & (d1 & A1 & B1 & M1)). split; auto. exists d1.
              split; [apply in_app_iff; auto|]. split; auto. rewrite merged_app, M1.
              cbn. destruct (equal_fold (rule_name r') (rule_name rl)) eqn:Q; [|rewrite !app_nil_r; auto].
              apply equal_fold_iff in Q. exfalso. apply (NDf _ A1). rewrite <- B1. exact Q.
        -- intros (<- & (d1 & A1 & B1 & M1)). apply in_app_iff in A1 as [A1|[A1|[]]].
           ++ right. assert (Q : equal_fold (rule_name r') (rule_name rl) = false).
              { destruct (equal_fold (rule_name r') (rule_name rl)) eqn:Q; auto.
                apply equal_fold_iff in Q. exfalso. apply (NDf _ A1). rewrite <- B1. exact Q. }
              assert (I : In (rule_name r', Own r') (e_map st)).
              { apply Ii. split; auto. exists d1. split; auto. split; auto. rewrite M1, merged_app. cbn.
                rewrite Q, !app_nil_r. auto. }
              split; eauto.
           ++ inversion A1; subst d1. left. rewrite B1. f_equal. f_equal. destruct r' as [rn ra]. cbn in *. subst rn.
              rewrite merged_app, merged_named in M1 by auto. cbn in M1.
              assert (equal_fold (rule_name rl) (rule_name rl) = true) as E by (apply equal_fold_iff; reflexivity).
              rewrite E, app_nil_r in M1. rewrite M1. destruct rl; reflexivity.
      * intros d I. apply in_app_iff in I as [I|[<-|[]]].
        -- destruct (Iu _ I) as (k1 & e1 & A1 & B1). exists k1, e1. split; auto. apply rm_set_in; auto. right.
           split; auto. eapply NKx; eauto.
        -- exists n, (Own rl). split; [|reflexivity]. apply rm_set_in; auto.
      * intros d I. apply in_app_iff in I as [I|[<-|[]]]; auto.
  Qed.

  Lemma all_step ds : forall pre st, Inv pre st ->
    match e_define_all false ord ds st with
    | EvOk st' => Inv (pre ++ ds) st' /\
        forall pre' d post e, ds = pre' ++ d :: post -> ~ violates core (pre ++ pre') d e
    | EvErr e => exists pre' d post, ds = pre' ++ d :: post /\ violates core (pre ++ pre') d e /\
        forall pre1 d1 post1 e1, pre' = pre1 ++ d1 :: post1 -> ~ violates core (pre ++ pre1) d1 e1
    | EvPanic => False
    end.
  Proof.
    induction ds as [|d ds IH]; intros pre st I; cbn [e_define_all].
    - rewrite app_nil_r. split; auto. intros pre' d post e E. destruct pre'; discriminate.
    - pose proof (step pre st d I) as S. destruct (e_define false ord d st) as [st1|e|]; auto.
      + destruct S as [I1 V1]. specialize (IH (pre ++ [d]) st1 I1).
        destruct (e_define_all false ord ds st1) as [st2|e|]; auto.
        * destruct IH as [I2 V2]. rewrite <- app_assoc in I2. split; auto.
          intros pre' d' post e E. destruct pre' as [|x pre']; inversion E; subst.
          -- rewrite app_nil_r. auto.
          -- specialize (V2 pre' d' post e eq_refl). rewrite <- app_assoc in V2. exact V2.
        * destruct IH as (pre' & d' & post & E & V & N). exists (d :: pre'), d', post. subst ds. split; auto.
          rewrite <- app_assoc in V. split; auto. intros pre1 d1 post1 e1 E1.
          destruct pre1 as [|x pre1]; inversion E1; subst.
          -- rewrite app_nil_r. auto.
          -- specialize (N pre1 d1 post1 e1 eq_refl). rewrite <- app_assoc in N. exact N.
      + exists [], d, ds. rewrite app_nil_r. split; auto. split; auto. intros pre1 d1 post1 e1 E1. destruct pre1; discriminate.
  Qed.

  Lemma inv_init : Inv [] (mkE core [] 0).
  Proof.
    split; cbn; auto; try easy; try constructor.
    - intros [].
    - intros (_ & d & [] & _).
  Qed.
End NoRedefine.
