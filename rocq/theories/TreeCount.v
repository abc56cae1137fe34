(** The number of unfoldings of a node and its being packed once; and the link
    from a forest returned by the parser to the facts used of its table.
    Its definitions are means of proof and model no code. *)
From Coq Require Import ZArith String Bool List Lia.
From Verif Require Import Syntax Spec Utf8 Num Term Printer Slots PropTerm Gll GllUniv Bsr BsrProof BsrTerm
  LowerProof LowerLang PrintInj Sppf SppfProof TreeSpec Tree TreeProof TreeSound TreeComplete PropGll ForestUnique Apart.
Import ListNotations.
Local Open Scope Z_scope.

Section Count.
  Variable sg : slot_grammar.
  Variable nodes : ntable.
  Hypothesis PS : pack_shape nodes.
  Hypothesis TP : term_packs nodes.
  Hypothesis FU : full nodes.
  Hypothesis CL : closed nodes.
  Hypothesis FE : first_earlier nodes.
  Hypothesis ND : forall k, NoDup (packs nodes k).

  Lemma known_unf k : known k nodes -> exists u, unf nodes k u.
  Proof.
    intros K. destruct (collect_ft sg nodes PS FU CL FE (S (rank k nodes)) k [] K) as (ts & _ & F); [lia|easy|].
    destruct (ft_unf _ _ TP _ _ F) as (u & U & _). eauto.
  Qed.
  Lemma known_unfs cs : (forall c, In c cs -> known c nodes) -> exists us, Forall2 (unf nodes) cs us.
  Proof.
    induction cs as [|c cs IH]; intros K; [exists []; constructor|].
    destruct (known_unf c) as (u & U); [apply K; left; auto|].
    destruct IH as (us & Us); [intros x X; apply K; right; auto|]. exists (u :: us). constructor; auto.
  Qed.

  Lemma reach_known k x : reach nodes k x -> known k nodes -> known x nodes.
  Proof. induction 1 as [|k pk c k' I C _ IH]; auto. intros _. apply IH. eapply CL; eauto. Qed.

  (** Packed once everywhere: no cycle, one unfolding. *)
  Lemma single_rank k c : (length (packs nodes k) <= 1)%nat -> step nodes c k -> (rank c nodes < rank k nodes)%nat.
  Proof.
    intros L (pk & I & C). destruct (packs nodes k) as [|q [|q' ps]] eqn:E; cbn in L; [easy| |lia].
    destruct I as [<-|[]]. eapply first_rank; eauto.
  Qed.
  Lemma single_below k : (forall x, reach nodes k x -> (length (packs nodes x) <= 1)%nat) ->
    forall x y, reach nodes k x -> below nodes x y -> (rank y nodes < rank x nodes)%nat.
  Proof.
    intros One x y Rx (c & S & R).
    assert (Rc : reach nodes k c).
    { eapply reach_trans; [exact Rx|]. destruct S as (pk & I & C). eapply reach_step; eauto. constructor. }
    pose proof (single_rank x c (One x Rx) S) as L. clear Rx S. revert x L Rc.
    induction R as [c|c pk d y I C R IH]; intros x L Rc; auto.
    apply (IH x).
    - pose proof (single_rank c d (One c Rc)) as Q. assert (step nodes d c) by (exists pk; auto). specialize (Q H). lia.
    - eapply reach_trans; [exact Rc|]. eapply reach_step; eauto. constructor.
  Qed.
  Lemma single_unf k : Acc (step nodes) k -> (forall x, reach nodes k x -> (length (packs nodes x) <= 1)%nat) ->
    forall u u', unf nodes k u -> unf nodes k u' -> u = u'.
  Proof.
    induction 1 as [k _ IH]. intros One u u' U U'.
    assert (Lk : (length (packs nodes k) <= 1)%nat) by (apply One; constructor).
    inversion U as [? E|? pk us I F]; subst; inversion U' as [? E'|? pk' us' I' F']; subst; auto.
    - rewrite E in I'. destruct I'.
    - rewrite E' in I. destruct I.
    - assert (pk' = pk).
      { destruct (packs nodes k) as [|q [|q' ps]]; cbn in Lk; [easy| |lia]. destruct I as [<-|[]], I' as [<-|[]]. auto. }
      subst pk'. f_equal. clear U U' I'.
      assert (G : forall c, In c pk -> forall v v', unf nodes c v -> unf nodes c v' -> v = v').
      { intros c C. apply IH; [exists pk; auto|]. intros x R. apply One. eapply reach_step; eauto. }
      clear IH One I Lk. revert us' F'. induction F as [|c u pk us Hu F IHF]; intros us' F'; inversion F'; subst; auto. f_equal.
      + apply (G c); auto. left; auto.
      + apply IHF; auto. intros d D. apply G. right; auto.
  Qed.

  (** Packed twice somewhere: two unfoldings. *)
  Lemma two_unf k x u u' : reach nodes k x -> unf nodes x u -> unf nodes x u' -> u <> u' ->
    exists v v', unf nodes k v /\ unf nodes k v' /\ v <> v'.
  Proof.
    induction 1 as [k|k pk c x I C R IH]; [eauto|]. intros U U' N. destruct (IH U U' N) as (v & v' & V & V' & NV).
    apply in_split in C as (l1 & l2 & ->).
    destruct (known_unfs l1) as (us1 & F1). { intros d D. eapply CL; eauto. apply in_app_iff; auto. }
    destruct (known_unfs l2) as (us2 & F2). { intros d D. eapply CL; eauto. apply in_app_iff; right; right; auto. }
    exists (UT k (us1 ++ v :: us2)), (UT k (us1 ++ v' :: us2)). split; [|split].
    - eapply unf_pack; eauto. apply Forall2_app; auto.
    - eapply unf_pack; eauto. apply Forall2_app; auto.
    - intros E. inversion E as [E']. apply app_inv_head in E'. inversion E'. auto.
  Qed.
  Lemma packed_two x : (1 < length (packs nodes x))%nat -> exists u u', unf nodes x u /\ unf nodes x u' /\ u <> u'.
  Proof.
    intros L. pose proof (ND x) as N. destruct (packs nodes x) as [|p1 [|p2 ps]] eqn:E; cbn in L; try lia.
    inversion N as [|? ? N1 _]; subst.
    assert (K : forall p, p = p1 \/ p = p2 -> forall c, In c p -> known c nodes).
    { intros p P c C. eapply (CL x p c); auto. rewrite E. destruct P as [->| ->]; [left|right; left]; auto. }
    destruct (known_unfs p1) as (u1 & F1); [apply K; auto|]. destruct (known_unfs p2) as (u2 & F2); [apply K; auto|].
    exists (UT x u1), (UT x u2). split; [|split].
    - eapply unf_pack; [rewrite E; left; auto|auto].
    - eapply unf_pack; [rewrite E; right; left; auto|auto].
    - intros Eq. inversion Eq; subst. apply unfs_roots in F1, F2. apply N1. left. congruence.
  Qed.

  Lemma two_in {A} (l : list A) x y : In x l -> In y l -> x <> y -> (2 <= length l)%nat.
  Proof.
    destruct l as [|a [|b l]]; cbn; intros X Y N; [easy| |lia]. destruct X as [<-|[]], Y as [<-|[]]. easy.
  Qed.
  Lemma all_eq_len {A} (l : list A) : NoDup l -> (forall x y, In x l -> In y l -> x = y) -> (length l <= 1)%nat.
  Proof.
    destruct 1 as [|a l N D]; cbn; [lia|]. destruct l as [|b l]; cbn; [lia|]. intros H. exfalso. apply N.
    rewrite (H a b); [left; auto|left; auto|right; left; auto].
  Qed.

  Lemma cnt_pos k v : known k nodes -> cnt nodes k v -> 1 <= v.
  Proof.
    intros K (_ & l & _ & <- & H). destruct (known_unf k K) as (u & U). apply H in U. destruct l; [easy|cbn; lia].
  Qed.
  Lemma cnt_one k v : known k nodes -> cnt nodes k v -> (v = 1 <-> forall x, reach nodes k x -> (length (packs nodes x) <= 1)%nat).
  Proof.
    intros K C. pose proof (cnt_pos k v K C) as Pos. destruct C as (A & l & N & Ev & H). split.
    - intros E x R. destruct (Nat.le_gt_cases (length (packs nodes x)) 1) as [Le|Gt]; auto. exfalso.
      destruct (packed_two x Gt) as (u & u' & U & U' & NE). destruct (two_unf k x u u' R U U' NE) as (w & w' & W & W' & NW).
      apply H in W, W'. pose proof (two_in l w w' W W' NW). lia.
    - intros One. pose proof (all_eq_len l N) as L. assert (length l <= 1)%nat; [|lia]. apply L.
      intros x y X Y. apply H in X, Y. eapply single_unf; eauto.
  Qed.
End Count.

(** *** From a parse to its table *)
(** What holds of the table of any parse. *)
Record forest_core (input : list Z) (f : forest) : Prop := {
  fc_shape : pack_shape (f_nodes f);
  fc_term : term_packs (f_nodes f);
  fc_full : full (f_nodes f);
  fc_closed : closed (f_nodes f);
  fc_first : first_earlier (f_nodes f);
  fc_nodup : forall k, NoDup (packs (f_nodes f) k);
  fc_root : f_root f = (if f_valid f then Some (NSym (sg_start (f_sg f)) 0 (length input)) else None);
  fc_known : f_valid f = true <-> known (NSym (sg_start (f_sg f)) 0 (length input)) (f_nodes f) }.
Lemma forest_core_ok ord fuel input g root ms mn f : any_order ord ->
  parse_forest ord fuel input g root ms mn = PF_ok f -> forest_core input f.
Proof.
  intros O E. apply parse_forest_ok in E as (C & st & B & A & _ & Nd & _ & _ & _ & Rt).
  destruct (compile_ok_represents _ _ _ _ _ C) as [idx R].
  pose proof (wf_reps _ (shape _ _ _ _ R)) as W. pose proof (nonempty _ _ _ _ R) as NE.
  destruct (sppf_as_bsr (f_sg f) input mn ord O NE W fuel st B A) as (bs & Bb & HR).
  pose proof (r_tbl _ _ _ HR) as T. rewrite <- Nd in T. pose proof (r_ab _ _ _ HR) as Ab.
  set (o' := ord' (f_sg f) ord) in *.
  assert (Oo : forall t v l x, In x (o' t v l) <-> In x l) by (intros; apply ord'_in; auto).
  assert (So : Sound (f_sg f) input bs /\ I (f_sg f) input noex bs /\ J (f_sg f) bs /\ b_work bs = [] /\
    forall L rc, In (L, rc) (start_slots (f_sg f)) -> seenp L U0 0 rc bs).
  { unfold b_parse in Bb.
    assert (W0 : forall d, In d (b_work (b_init (f_sg f))) -> In d (b_seen (b_init (f_sg f)))).
    { unfold b_init. set (ff := fun s x => _).
      assert (G : forall l s, (forall d, In d (b_work s) -> In d (b_seen s)) ->
        forall d, In d (b_work (fold_left ff l s)) -> In d (b_seen (fold_left ff l s))).
      { induction l as [|a l IHl]; cbn [fold_left]; auto. intros s H. apply IHl. unfold ff, b_add. destruct (in_dec _ _ _); auto.
        cbn. intros d [<-|X]; auto. }
      apply G. cbn. tauto. }
    split.
    - eapply run_sound; [exact Oo|exact W|apply init_sound; exact W|exact W0|exact Bb].
    - destruct (init_closed (f_sg f) input) as (I0 & J0 & S0).
      destruct (run_closed (f_sg f) input 0 o' Oo fuel _ _ I0 J0 Bb) as [L [X|(I1 & J1 & W1)]]; [congruence|].
      split; [exact I1|]. split; [exact J1|]. split; [exact W1|]. intros L1 rc M. eapply seenp_le; eauto. }
  destruct So as (So & HI & HJ & HW & HS). destruct So as (_ & _ & _ & OK).
  constructor.
  - eapply pack_shape_ok; eauto.
  - eapply term_packs_ok; eauto.
  - eapply full_ok; eauto.
  - eapply closed_ok; eauto.
  - apply (t_first _ _ _ T).
  - eapply nodup_ok; eauto.
  - unfold f_valid. rewrite Rt. cbv zeta. destruct (packs_of _ (p_nodes st)); auto.
  - unfold f_valid. rewrite Rt. cbv zeta. rewrite Nd. unfold known. destruct (packs_of _ (p_nodes st)); split; congruence.
Qed.

Record forest_facts (g : grammar) (root : string) (input : list Z) (f : forest) : Prop := {
  ff_shape : pack_shape (f_nodes f);
  ff_term : term_packs (f_nodes f);
  ff_full : full (f_nodes f);
  ff_closed : closed (f_nodes f);
  ff_first : first_earlier (f_nodes f);
  ff_nodup : forall k, NoDup (packs (f_nodes f) k);
  ff_one : undivided g input -> forall k pk pk', In pk (packs (f_nodes f) k) -> In pk' (packs (f_nodes f) k) -> pk = pk';
  ff_sound : forall ts, ft (f_sg f) (f_nodes f) (NSym (sg_start (f_sg f)) 0 (length input)) ts -> exists r,
    rule_of (f_sg f) (NSym (sg_start (f_sg f)) 0 (length input)) = Some (rule_name r) /\ get_rule root g = Some r /\
    LooseDerivation g root input (PT (rule_name r) 0 (length input) ts);
  ff_complete : forall t, Derivation g root input t -> exists r ts,
    t = PT (rule_name r) 0 (length input) ts /\ get_rule root g = Some r /\
    ft (f_sg f) (f_nodes f) (NSym (sg_start (f_sg f)) 0 (length input)) ts;
  ff_root : f_root f = (if f_valid f then Some (NSym (sg_start (f_sg f)) 0 (length input)) else None);
  ff_known : f_valid f = true <-> known (NSym (sg_start (f_sg f)) 0 (length input)) (f_nodes f) }.

Lemma forest_facts_ok ord fuel input g root ms mn f : any_order ord ->
  wf_grammar g -> lex_grammar g = true -> told_apart g ->
  parse_forest ord fuel input g root ms mn = PF_ok f -> forest_facts g root input f.
Proof.
  intros O Wf Lx Fl E. apply parse_forest_ok in E as (C & st & B & A & _ & Nd & _ & _ & _ & Rt).
  destruct (compile_ok_represents _ _ _ _ _ C) as [idx R].
  pose proof (wf_reps _ (shape _ _ _ _ R)) as W. pose proof (nonempty _ _ _ _ R) as NE.
  pose proof (print_inj_lex g Lx Fl) as PI.
  destruct (sppf_as_bsr (f_sg f) input mn ord O NE W fuel st B A) as (bs & Bb & HR).
  pose proof (r_tbl _ _ _ HR) as T. rewrite <- Nd in T. pose proof (r_ab _ _ _ HR) as Ab.
  set (o' := ord' (f_sg f) ord) in *.
  assert (Oo : forall t v l x, In x (o' t v l) <-> In x l) by (intros; apply ord'_in; auto).
  assert (So : Sound (f_sg f) input bs /\ I (f_sg f) input noex bs /\ J (f_sg f) bs /\ b_work bs = [] /\
    forall L rc, In (L, rc) (start_slots (f_sg f)) -> seenp L U0 0 rc bs).
  { unfold b_parse in Bb.
    assert (W0 : forall d, In d (b_work (b_init (f_sg f))) -> In d (b_seen (b_init (f_sg f)))).
    { unfold b_init. set (ff := fun s x => _).
      assert (G : forall l s, (forall d, In d (b_work s) -> In d (b_seen s)) ->
        forall d, In d (b_work (fold_left ff l s)) -> In d (b_seen (fold_left ff l s))).
      { induction l as [|a l IHl]; cbn [fold_left]; auto. intros s H. apply IHl. unfold ff, b_add. destruct (in_dec _ _ _); auto.
        cbn. intros d [<-|X]; auto. }
      apply G. cbn. tauto. }
    split.
    - eapply run_sound; [exact Oo|exact W|apply init_sound; exact W|exact W0|exact Bb].
    - destruct (init_closed (f_sg f) input) as (I0 & J0 & S0).
      destruct (run_closed (f_sg f) input 0 o' Oo fuel _ _ I0 J0 Bb) as [L [X|(I1 & J1 & W1)]]; [congruence|].
      split; [exact I1|]. split; [exact J1|]. split; [exact W1|]. intros L1 rc M. eapply seenp_le; eauto. }
  destruct So as (So & HI & HJ & HW & HS). destruct So as (_ & _ & _ & OK).
  constructor.
  - eapply pack_shape_ok; eauto.
  - eapply term_packs_ok; eauto.
  - eapply full_ok; eauto.
  - eapply closed_ok; eauto.
  - apply (t_first _ _ _ T).
  - eapply nodup_ok; eauto.
  - intros Un k pk pk'. eapply packs_one; eauto. eapply compile_unit_free; eauto.
  - intros ts F. eapply ft_root; eauto.
  - intros t D. destruct (derivation_dt g root (f_sg f) idx input Wf PI R t D) as (r & ts & L & rc & -> & G & S & Dt).
    exists r, ts. split; auto. split; auto. eapply start_ft; eauto.
  - unfold f_valid. rewrite Rt. cbv zeta. destruct (packs_of _ (p_nodes st)); auto.
  - unfold f_valid. rewrite Rt. cbv zeta. rewrite Nd. unfold known. destruct (packs_of _ (p_nodes st)); split; congruence.
Qed.
