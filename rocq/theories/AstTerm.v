(** Generation from the AST ends.
    Its definitions are means of proof and model no code. *)
From Coq Require Import ZArith Arith String Bool Relations List Lia.
From Verif Require Import Syntax Spec Utf8 Num Term Printer Check PropTerm Slots LowerLang PropSem PropGll TreeSpec TreeSound Occ PropDag LeftRec RecogGlue PropRecog Tape Ast PropGenerate AstSpec AstProof AstCost AstVisit.
Import ListNotations.
Local Open Scope string_scope.
Local Open Scope list_scope.
Local Open Scope Z_scope.

Lemma cheapest_spec g m a : a <> [] -> exists c, nth_error a (cheapest g m a) = Some c /\ forall c', In c' a -> cost_cat g m c <= cost_cat g m c'.
Proof.
  intros N.
  assert (X : forall cs pre best c0, nth_error (pre ++ cs) best = Some c0 -> (forall c', In c' pre -> cost_cat g m c0 <= cost_cat g m c') ->
    exists c, nth_error (pre ++ cs) (cheapest_from g m cs (length pre) best (cost_cat g m c0)) = Some c /\
      forall c', In c' (pre ++ cs) -> cost_cat g m c <= cost_cat g m c').
  { induction cs as [|c cs IH]; intros pre best c0 E Le; cbn [cheapest_from].
    - exists c0. split; auto. rewrite app_nil_r. auto.
    - specialize (IH (pre ++ [c])). rewrite <- app_assoc, app_length in IH. cbn [app length] in IH. rewrite Nat.add_1_r in IH.
      destruct (Z.ltb_spec (cost_cat g m c) (cost_cat g m c0)).
      + apply IH; [rewrite nth_error_app2, Nat.sub_diag; auto|]. intros c' C. apply in_app_iff in C as [C|[<-|[]]]; [|lia]. specialize (Le c' C). lia.
      + apply IH; [auto|]. intros c' C. apply in_app_iff in C as [C|[<-|[]]]; [auto|lia]. }
  destruct a as [|c0 cs]; [congruence|]. apply (X cs [c0] 0%nat c0); auto. intros c' [<-|[]]. lia.
Qed.

Section Ends.
  Variable g : grammar.
  Variable m : costs.
  Variable md ml mr : Z.
  Variable S_ : Type.
  Variable intn : Z -> S_ -> Z * S_.
  Hypothesis Dr : draws_ok intn.
  Hypothesis Alt : forall a, occ_alt g a -> a <> [].
  Hypothesis Rng : forall b es, occ_elem g (ENum b StatRange es) -> exists lo hi, es = [lo; hi].

  Notation state := (astate S_).
  Notation ov := (over md ml S_).
  Definition longer (s s' : state) : Prop := (length (a_out s) <= length (a_out s'))%nat.
  Definition done (s : state) (r : ares S_) : Prop := exists s', r = A_ok s' /\ longer s s'.
  Definition rec_ends (rec : alternation -> Z -> state -> ares S_) (ok : state -> Z -> Prop) (a : alternation) : Prop :=
    forall d s, ok s d -> done s (rec a d s).
  Definition elem_ends (rec : alternation -> Z -> state -> ares S_) (ok : state -> Z -> Prop) (e : elem) : Prop :=
    forall d s, ok s d -> done s (ast_elem g md ml S_ intn rec e d s).
  Notation gen f := (ast_alt f g m md ml mr intn).
  Definition ends (ok : state -> Z -> Prop) (F : nat) (a : alternation) : Prop := forall f, (F <= f)%nat -> rec_ends (gen f) ok a.
  Definition Eends (ok : state -> Z -> Prop) (F : nat) (e : elem) : Prop := forall f, (F <= f)%nat -> elem_ends (gen f) ok e.
  Definition upward (ok : state -> Z -> Prop) : Prop := forall s s' d, ok s d -> longer s s' -> ok s' d.

  Lemma done_seq s r f : done s r -> (forall s', r = A_ok s' -> longer s s' -> done s' (f s')) ->
    done s (match r with A_ok s' => f s' | A_panic => A_panic | A_fuel => A_fuel end).
  Proof. intros (s1 & -> & L) H. destruct (H s1 eq_refl L) as (s2 & E & L2). exists s2. split; auto. unfold longer in *. lia. Qed.
  Lemma done_here s s' : longer s s' -> done s (A_ok s').
  Proof. exists s'. auto. Qed.
  Lemma longer_refl s : longer s s. Proof. unfold longer. lia. Qed.
  Lemma longer_put s r : longer s (put S_ s r).
  Proof. unfold longer, put. cbn [a_out]. rewrite app_length. lia. Qed.
  Lemma longer_trans s s' s'' : longer s s' -> longer s' s'' -> longer s s''.
  Proof. unfold longer. lia. Qed.
  Lemma over_up s s' d : ov s d = true -> longer s s' -> ov s' d = true.
  Proof.
    unfold over, longer. intros H L. apply orb_true_iff in H as [H|H]; apply orb_true_iff; [auto|right].
    apply Z.leb_le in H. apply Z.leb_le. lia.
  Qed.

  Lemma chars_longer sens vs : forall s, longer s (gen_chars S_ intn sens vs s).
  Proof.
    unfold gen_chars. induction vs as [|v vs IH]; intros s; cbn [fold_left]; [apply longer_refl|].
    eapply longer_trans; [|apply IH]. destruct (negb sens && is_ascii_letter v).
    - destruct (intn 2 (a_src s)) as [d src]. apply (longer_put (mkA (a_out s) src)).
    - apply longer_put.
  Qed.
  Lemma numval_done b st es s : occ_elem g (ENum b st es) -> done s (gen_numval S_ intn b st es s).
  Proof.
    intros O. destruct st.
    - apply done_here. revert s. induction es as [|v es IH]; intros s; cbn [fold_left]; [apply longer_refl|].
      assert (G : forall l s, longer s (fold_left (fun s v => let r := numval_to_rune v b in if valid_rune r then put S_ s r else s) l s)).
      { clear. induction l as [|x l IH]; intros s; cbn [fold_left]; [apply longer_refl|]. eapply longer_trans; [|apply IH].
        cbv zeta. destruct (valid_rune _); [apply longer_put|apply longer_refl]. }
      eapply longer_trans; [|apply G]. cbv zeta. destruct (valid_rune _); [apply longer_put|apply longer_refl].
    - destruct (Rng _ _ O) as (lo & hi & ->). cbn [gen_numval]. cbv zeta.
      match goal with |- context [if ?x then A_ok s else _] => destruct x end; [apply done_here, longer_refl|].
      destruct (intn _ _) as [d src]. apply done_here. apply (longer_put (mkA (a_out s) src)).
  Qed.

  Section Mode.
    Variable ok ok' : state -> Z -> Prop.
    Hypothesis Up : upward ok.
    Hypothesis Call : forall s d, ok s d -> ok' s (d + 1).
    Variable rec : alternation -> Z -> state -> ares S_.

    Lemma loop_done e lo d : elem_ends rec ok e -> forall k i s, ok s d -> done s (ast_loop g md ml S_ intn rec k i lo e d s).
    Proof.
      intros H k. induction k as [|k IH]; intros i s K; cbn [ast_loop]; [apply done_here, longer_refl|].
      apply (done_seq s (ast_elem g md ml S_ intn rec e d s)
        (fun s' => if (lo <=? i + 1) && (ml <=? Z.of_nat (length (a_out s'))) then A_ok s' else ast_loop g md ml S_ intn rec k (i + 1) lo e d s')); [apply H; auto|].
      intros s1 _ L. destruct (_ && _); [apply done_here, longer_refl|]. apply IH. eapply Up; eauto.
    Qed.
    Lemma rep_done r d s : elem_ends rec ok (rep_elem r) -> ok s d -> done s (ast_rep g md ml mr S_ intn rec r d s).
    Proof.
      destruct r as [lo mx e]. cbn [rep_elem]. intros H K. unfold ast_rep.
      cbv zeta. match goal with |- context [lo <? ?x] => set (hi := x) end. destruct (negb (ov s d) && (lo <? hi)).
      - destruct (intn _ _) as [dr src]. apply (loop_done e lo d H (Z.to_nat (lo + dr)) 0 (mkA (a_out s) src)).
        eapply Up; [exact K|]. unfold longer. cbn. lia.
      - apply loop_done; auto.
    Qed.
    Lemma cat_done c d : (forall x, In x c -> forall s, ok s d -> done s (ast_rep g md ml mr S_ intn rec x d s)) ->
      forall s, ok s d -> done s (ast_cat g md ml mr S_ intn rec c d s).
    Proof.
      induction c as [|x c IH]; intros H s K; cbn [ast_cat]; [apply done_here, longer_refl|].
      apply (done_seq s (ast_rep g md ml mr S_ intn rec x d s) (fun s' => ast_cat g md ml mr S_ intn rec c d s')); [apply H; auto; left; auto|].
      intros s1 _ L. apply IH; [intros y Y; apply H; right; auto|]. eapply Up; eauto.
    Qed.
    (** The concatenation chosen: any, or the cheapest. *)
    Lemma alt_done a d s : a <> [] -> ok s d ->
      (forall c, In c a -> (ov s d = true -> nth_error a (cheapest g m a) = Some c) -> forall s1, ok s1 d -> (ov s d = true -> ov s1 d = true) ->
         done s1 (ast_cat g md ml mr S_ intn rec c d s1)) ->
      done s (ast_alt_with g m md ml mr S_ intn rec a d s).
    Proof.
      intros N K H. unfold ast_alt_with. destruct a as [|c0 a]; [congruence|].
      destruct (ov s d) eqn:O.
      - destruct (cheapest_spec g m (c0 :: a) N) as (c & E & _). rewrite E. apply H; auto. eapply nth_error_In; eauto.
      - destruct (Nat.ltb_spec 1 (length (c0 :: a))).
        + pose proof (Dr (Z.of_nat (length (c0 :: a))) (a_src s)) as D. destruct (intn _ _) as [k src]. cbn [fst] in D.
          destruct (nth_error (c0 :: a) (Z.to_nat k)) as [c|] eqn:E.
          * assert (L : longer s (mkA (a_out s) src)) by (unfold longer; cbn; lia).
            apply (H c (nth_error_In _ _ E) ltac:(discriminate) (mkA (a_out s) src)); [eapply Up; eauto|discriminate].
          * apply nth_error_None in E. lia.
        + cbn [nth_error]. apply (H c0 (or_introl eq_refl)); auto; discriminate.
    Qed.
  End Mode.

  (** A step that enters rules which end, in the mode one level deeper. *)
  Section Any.
    Variable ok ok' : state -> Z -> Prop.
    Hypothesis Up : upward ok.
    Hypothesis Call : forall s d, ok s d -> ok' s (d + 1).

    Definition calls_end (n : string) : Prop := exists r F, get_rule n g = Some r /\ ends ok' F (rule_alt r).

    Lemma any_alt a : occ_alt g a -> (forall c x, In c a -> In x c -> exists F, Eends ok F (rep_elem x)) -> exists F, ends ok F a.
    Proof.
      intros O H.
      assert (X : exists F, forall c x, In c a -> In x c -> Eends ok F (rep_elem x)).
      { clear O. induction a as [|c a IH]; [exists 0%nat; intros ? ? []|].
        destruct IH as (F1 & H1); [intros; eapply H; eauto; right; auto|].
        assert (Y : exists F, forall x, In x c -> Eends ok F (rep_elem x)).
        { specialize (H c). clear -H. assert (H' := fun x => H x (or_introl eq_refl)). clear H. induction c as [|x c IH]; [exists 0%nat; intros ? []|].
          destruct (IH (fun y Y => H' y (or_intror Y))) as (F2 & H2). destruct (H' x (or_introl eq_refl)) as (F3 & H3).
          exists (max F2 F3). intros y [<-|Y] f L; [apply H3; lia|apply H2; auto; lia]. }
        destruct Y as (F2 & H2). exists (max F1 F2). intros c' x [<-|C] X f L; [apply H2; auto; lia|eapply H1; eauto; lia]. }
      destruct X as (F & X). exists (Datatypes.S F). intros f L d s K. destruct f as [|f]; [lia|]. cbn [ast_alt].
      apply (alt_done ok); auto. intros c C _ s1 K1 _.
      apply (cat_done ok); auto. intros x Xc s2 K2. apply (rep_done ok); auto. apply (X c x); auto. lia.
    Qed.

    Lemma any_step : (forall e, occ_elem g e -> (forall n, erefers e n -> calls_end n) -> exists F, Eends ok F e) /\
      (forall r, occ_rep g r -> (forall n, erefers (rep_elem r) n -> calls_end n) -> exists F, Eends ok F (rep_elem r)).
    Proof.
      apply elem_rep_ind.
      - intros n O H. destruct (H n (or_introl eq_refl)) as (r & F & G & E). exists F. intros f L d s K.
        cbn [ast_elem]. rewrite G. apply E; auto.
      - intros a Fa O H. destruct (any_alt a (or_intror (or_introl O))) as (F & E).
        + intros c x C X. rewrite Forall_forall in Fa. specialize (Fa c C). rewrite Forall_forall in Fa. apply Fa; auto; [eapply occ_rep_group; eauto|].
          intros n Hn. apply H. right. exists a. split; auto. apply refers_split. eauto.
        + exists F. intros f L d s K. cbn [ast_elem]. apply E; auto.
      - intros a Fa O H. destruct (any_alt a (or_intror (or_intror O))) as (F & E).
        + intros c x C X. rewrite Forall_forall in Fa. specialize (Fa c C). rewrite Forall_forall in Fa. apply Fa; auto; [eapply occ_rep_option; eauto|].
          intros n Hn. apply H. right. exists a. split; auto. apply refers_split. eauto.
        + exists F. intros f L d s K. cbn [ast_elem]. destruct (ov s d); [apply done_here, longer_refl|].
          destruct (intn 2 (a_src s)) as [k src]. assert (L1 : longer s (mkA (a_out s) src)) by (unfold longer; cbn; lia).
          destruct (k =? 1); [|apply done_here; auto]. apply (E f L d (mkA (a_out s) src)). eapply Up; eauto.
      - intros b vs O _. exists 0%nat. intros f _ d s _. apply done_here, chars_longer.
      - intros b st es O _. exists 0%nat. intros f _ d s _. apply numval_done. auto.
      - intros v O _. exists 0%nat. intros f _ d s _. apply done_here, longer_refl.
      - intros mn mx e IH O H. apply IH; auto. econstructor; eauto.
    Qed.
    Lemma any_rule r : In r (effective g) -> (forall n, refers (rule_alt r) n -> calls_end n) -> exists F, ends ok F (rule_alt r).
    Proof.
      intros I H. pose proof (effective_occ g r I) as O. apply any_alt; auto. intros c x C X.
      apply any_step; [eapply occ_alt_reps; eauto|]. intros n Hn. apply H. apply refers_split. eauto.
    Qed.
  End Any.

  (** ** Over the budget *)
  Definition ovp (s : state) (d : Z) : Prop := ov s d = true.
  Lemma ovp_up : upward ovp. Proof. intros s s' d. apply over_up. Qed.
  Lemma ovp_call s d : ovp s d -> ovp s (d + 1).
  Proof.
    unfold ovp, over. intros H. apply orb_true_iff in H as [H|H]; apply orb_true_iff; [left|auto].
    apply Z.leb_le in H. apply Z.leb_le. lia.
  Qed.
  Hypothesis Small : forall mn mx e, occ_rep g (Rep mn mx e) -> 0 <= mn <= 2 ^ 33.
  Hypothesis Km : cost_ok m.
  Hypothesis Table : forall r v, In r (effective g) -> cost_get m (rule_name r) = Some v -> v < unbounded -> cost_alt g m (rule_alt r) <= v.

  Section Bound.
    Variable v : Z.
    Hypothesis V : v < unbounded.
    Hypothesis Less : forall r w, In r (effective g) -> cost_get m (rule_name r) = Some w -> w < v -> exists F, ends ovp F (rule_alt r).

    Lemma over_alt a : occ_alt g a -> cost_alt g m a <= v ->
      (forall c x, In c a -> In x c -> cost_elem g m (rep_elem x) <= v -> exists F, Eends ovp F (rep_elem x)) -> exists F, ends ovp F a.
    Proof.
      intros O L H. destruct (cheapest_spec g m a (Alt _ O)) as (c & E & Min). pose proof (nth_error_In _ _ E) as C.
      assert (Lc : cost_cat g m c <= v).
      { destruct (cost_alt_lt g m a Km (Alt _ O) ltac:(lia)) as (c' & C' & E' & _). specialize (Min c' C'). lia. }
      assert (X : exists F, forall x, In x c -> rep_min x = 0 \/ Eends ovp F (rep_elem x)).
      { assert (Y : forall x, In x c -> exists F, rep_min x = 0 \/ Eends ovp F (rep_elem x)).
        { intros x X. pose proof (occ_alt_reps g a O c x C X) as Ox.
          assert (Lx : cost_rep g m x <= v).
          { unfold cost_cat in Lc. pose proof (clamp_fold_lt (cost_rep g m) c) as Q. specialize (Q ltac:(intros; apply cost_nonneg; auto) 0 ltac:(lia) ltac:(lia)).
            destruct Q as [_ Q]. specialize (Q x X). lia. }
          destruct x as [mn mx e]. cbn [rep_min rep_elem]. destruct (Z.eq_dec mn 0) as [->|N0]; [exists 0%nat; auto|].
          change (mul_clamp mn (cost_elem g m e) <= v) in Lx. pose proof (Small _ _ _ Ox) as Sm.
          assert (Le : cost_elem g m e <= v).
          { pose proof (mul_clamp_ge mn (cost_elem g m e) ltac:(lia) (proj1 (cost_nonneg g m Km) e) ltac:(lia)). lia. }
          destruct (H c (Rep mn mx e) C X Le) as (F & HF). exists F. auto. }
        clear -Y. induction c as [|x c IH]; [exists 0%nat; intros ? []|].
        destruct (IH (fun y Q => Y y (or_intror Q))) as (F2 & H2). destruct (Y x (or_introl eq_refl)) as (F3 & H3).
        exists (max F2 F3). intros y [<-|Q].
        - destruct H3 as [?|H3]; [auto|right; intros f L; apply H3; lia].
        - destruct (H2 y Q) as [?|H4]; [auto|right; intros f L; apply H4; lia]. }
      destruct X as (F & X). exists (Datatypes.S F). intros f Lf d s K. destruct f as [|f]; [lia|]. cbn [ast_alt].
      apply (alt_done ovp ovp_up); auto. intros c1 _ Ch s1 K1 _. specialize (Ch K). rewrite E in Ch. injection Ch as <-.
      apply (cat_done ovp ovp_up); auto. intros x Xc s2 K2. destruct (X x Xc) as [Z0|Ex].
      - destruct x as [mn mx e]. cbn [rep_min] in Z0. subst. unfold ast_rep. unfold ovp in K2. rewrite K2. cbn [negb andb]. apply done_here, longer_refl.
      - apply (rep_done ovp ovp_up); auto. apply Ex. lia.
    Qed.

    Lemma over_elem : (forall e, occ_elem g e -> cost_elem g m e <= v -> exists F, Eends ovp F e) /\
      (forall r, occ_rep g r -> cost_elem g m (rep_elem r) <= v -> exists F, Eends ovp F (rep_elem r)).
    Proof.
      apply elem_rep_ind.
      - intros n O L. cbn [cost_elem] in L. destruct (get_rule n g) as [r|] eqn:G; [|lia].
        destruct (cost_get m (rule_name r)) as [c|] eqn:E; [|lia]. destruct (add_clamp_lt 1 c ltac:(lia)) as (_ & _ & Ea).
        destruct (Less r c (effective_in _ _ _ G) E ltac:(lia)) as (F & HF). exists F. intros f Lf d s K. cbn [ast_elem]. rewrite G.
        apply HF; auto. apply ovp_call. auto.
      - intros a Fa O L. change (cost_alt g m a <= v) in L. destruct (over_alt a (or_intror (or_introl O)) L) as (F & E).
        + intros c x C X. rewrite Forall_forall in Fa. specialize (Fa c C). rewrite Forall_forall in Fa. apply Fa; auto. eapply occ_rep_group; eauto.
        + exists F. intros f Lf d s K. cbn [ast_elem]. apply E; auto.
      - intros a _ O _. exists 0%nat. intros f _ d s K. cbn [ast_elem]. unfold ovp in K. rewrite K. apply done_here, longer_refl.
      - intros b vs O _. exists 0%nat. intros f _ d s _. apply done_here, chars_longer.
      - intros b st es O _. exists 0%nat. intros f _ d s _. apply numval_done. auto.
      - intros w O _. exists 0%nat. intros f _ d s _. apply done_here, longer_refl.
      - intros mn mx e IH O L. apply IH; auto. econstructor; eauto.
    Qed.
  End Bound.

  Lemma over_rule k : forall r v, In r (effective g) -> cost_get m (rule_name r) = Some v -> v < unbounded -> v <= Z.of_nat k ->
    exists F, ends ovp F (rule_alt r).
  Proof.
    induction k as [k IH] using (well_founded_induction lt_wf). intros r v I E V L. pose proof (Km _ _ E) as Kv.
    assert (Less : forall r' w, In r' (effective g) -> cost_get m (rule_name r') = Some w -> w < v -> exists F, ends ovp F (rule_alt r')).
    { intros r' w I' E' Lw. pose proof (Km _ _ E'). apply (IH (Z.to_nat w) ltac:(lia) r' w); auto; lia. }
    apply (over_alt v V); [apply effective_occ; auto|eauto|].
    intros c x C X Lx. apply (over_elem v V Less); auto. eapply occ_alt_reps; [apply effective_occ; eauto| |]; eauto.
  Qed.

  (** ** Any depth *)
  Variable Good : string -> Prop.
  Hypothesis GoodC : forall n, Good n -> exists r v, get_rule n g = Some r /\ cost_get m (rule_name r) = Some v /\ v < unbounded /\
    forall n', refers (rule_alt r) n' -> Good n'.

  Definition level (k : nat) (s : state) (d : Z) : Prop := ov s d = true \/ md - Z.of_nat k <= d.
  Lemma level_ends k : forall n r, Good n -> get_rule n g = Some r -> exists F, ends (level k) F (rule_alt r).
  Proof.
    induction k as [|k IH]; intros n r Gn G; destruct (GoodC n Gn) as (r' & v & G' & E & V & Q); rewrite G in G'; injection G' as <-.
    - destruct (over_rule (Z.to_nat v) r v (effective_in _ _ _ G) E V ltac:(lia)) as (F & HF). exists F.
      intros f Lf d s K. apply HF; auto. destruct K as [K|K]; [exact K|]. unfold ovp, over. apply orb_true_iff. left. apply Z.leb_le. lia.
    - apply (any_rule (level (Datatypes.S k)) (level k)).
      + intros s s' d [K|K] L; [left; eapply over_up; eauto|right; auto].
      + intros s d [K|K]; [left; apply ovp_call; auto|right; lia].
      + eapply effective_in; eauto.
      + intros n' Hn. specialize (Q n' Hn). destruct (GoodC n' Q) as (r' & v' & G' & _). destruct (IH n' r' Q G') as (F & HF).
        exists r', F. auto.
  Qed.
End Ends.

(** The costs of accepted rules never exceed that of their definitions. *)
Section Table.
  Variable g : grammar.
  Hypothesis Small : forall mn mx e, occ_rep g (Rep mn mx e) -> 0 <= mn <= 2 ^ 33.
  Definition table_ok (m : costs) : Prop :=
    forall r v, In r (effective g) -> cost_get m (rule_name r) = Some v -> v < unbounded -> cost_alt g m (rule_alt r) <= v.
  Lemma loop_table fuel ord m : any_order ord -> cost_loop fuel g ord 0 (initial_costs g) = Some m -> table_ok m.
  Proof.
    intros Ord E. destruct (initial_ok g) as (I1 & I2 & I3).
    apply (loop_kept g ord Ord table_ok) in E as (J & _); auto.
    - intros m0 r T K C I L r' v I' E' Lv. set (c := cost_alt g m0 (rule_alt r)) in *.
      destruct (C r I) as (v0 & Ev0). rewrite Ev0 in L.
      assert (K' : cost_ok (cost_set m0 (rule_name r) c)).
      { intros n w. rewrite cost_get_set. destruct (String.eqb _ _); [|apply K]. intros X; injection X as <-. apply cost_alt_range; auto. }
      assert (Le : cost_le (cost_set m0 (rule_name r) c) m0).
      { intros n w Ew. rewrite cost_get_set. destruct (String.eqb_spec (rule_name r) n) as [<-|]; [|exists w; split; auto; lia].
        rewrite Ev0 in Ew. injection Ew as <-. exists c. split; auto. lia. }
      pose proof (cost_alt_mono g Small _ _ (rule_alt r') K' K Le (occ_alt_reps g _ (effective_occ g r' I'))) as Mo.
      rewrite cost_get_set in E'. destruct (String.eqb_spec (rule_name r) (rule_name r')) as [En|].
      + injection E' as <-. assert (r' = r) as -> by (pose proof (effective_get _ _ I); pose proof (effective_get _ _ I'); congruence). exact Mo.
      + specialize (T r' v I' E' Lv). lia.
    - intros r v I E' L. apply initial_get_inv in E'. lia.
  Qed.
End Table.
