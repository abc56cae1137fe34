(** The machine ends, without panic, with an error only for a reason.
    Its definitions are means of proof and model no code. *)
From Coq Require Import ZArith Arith String Bool Relations List Lia.
From Verif Require Import Syntax Spec Check Num Occ PrintInj Deps LeftRec LowerLang PropSem PropDag RecogGlue PropRecog RegexBuild Graph.
Import ListNotations.
Local Open Scope nat_scope.
Local Open Scope list_scope.

Section Total.
  Variable g : grammar.
  Variable opts : tgoptions.
  Hypothesis Wf : wf_grammar g.
  Hypothesis Lx : lex_grammar g = true.

  (** The reason of an error. *)
  Definition reason (e : tg_error) : Prop :=
    match e with
    | TE_not_found m => forall a, ~ resolves g m a
    | TE_threshold => exists mn mx e, occ_rep g (Rep mn mx e) /\ (o_threshold opts < mx \/ o_threshold opts < mn)%Z
    | TE_min_not_one | TE_min_gt_max => exists mn mx e, occ_rep g (Rep mn mx e) /\ mx <> inf /\ (mx < mn)%Z
    | TE_max_nodes => (0 < o_max opts)%Z
    | TE_prose => exists v, occ_elem g (EProse v)
    | TE_invalid _ | TE_cyclic => False
    end.
  Definition fine (r : tres) : Prop :=
    match r with T_ok _ _ _ => True | T_err e => reason e | T_panic | T_fuel => False end.

  Lemma reserve_fine n st : reserve opts n st = None -> reason TE_max_nodes.
  Proof. unfold reserve. cbn [reason]. destruct (Z.leb_spec (o_max opts) 0); [discriminate|auto]. Qed.
  Lemma reserve_clones_fine k i st : reserve_clones opts k i st = None -> reason TE_max_nodes.
  Proof. unfold reserve_clones. destruct (o_max opts <=? 0)%Z; [discriminate|]. apply reserve_fine. Qed.
  Lemma one_node_fine e st : fine (one_node opts e st).
  Proof. unfold one_node. destruct (reserve opts 1 st) eqn:E; [exact Logic.I|apply (reserve_fine _ _ E)]. Qed.
  Lemma rep_build_fine mn mx e i o st : occ_rep g (Rep mn mx e) -> fine (rep_build opts mn mx i o st).
  Proof.
    intros Oc. pose proof (proj2 (wf_occ g Wf) _ Oc) as Wr. inversion Wr as [? ? ? W1 W2 _]; subst.
    assert (Th : (o_threshold opts < mx \/ o_threshold opts < mn)%Z -> reason TE_threshold) by (intros H; exists mn, mx, e; auto).
    unfold rep_build. cbn zeta.
    destruct (mn =? 0)%Z eqn:E0.
    - destruct (mx =? 1)%Z; [exact Logic.I|]. destruct (mx =? inf)%Z; [exact Logic.I|].
      destruct (Z.ltb_spec (o_threshold opts) mx) as [L|L]; [cbn [fine]; auto|].
      destruct (reserve_clones opts mx i st) eqn:E; [|apply (reserve_clones_fine _ _ _ E)].
      destruct (chain_graph i o (Z.to_nat mx) (t_heap st)) as [[[? ?] ?] ?]. exact Logic.I.
    - apply Z.eqb_neq in E0. destruct (Z.eqb_spec mx 1) as [->|N1].
      + destruct (Z.eqb_spec mn 1) as [->|N2]; [exact Logic.I|]. exists mn, 1%Z, e. unfold inf. split; [exact Oc|]. split; lia.
      + destruct (Z.eqb_spec mx inf) as [->|N2].
        * destruct (Z.ltb_spec (o_threshold opts) mn) as [L|L]; [cbn [fine]; auto|].
          destruct (reserve_clones opts mn i st) eqn:E; [|apply (reserve_clones_fine _ _ _ E)].
          destruct (chain_graph i o (Z.to_nat mn) (t_heap st)) as [[[? ?] ?] ?]. exact Logic.I.
        * destruct (Z.ltb_spec mx mn) as [L|L]; [exists mn, mx, e; auto|].
          destruct (Z.ltb_spec (o_threshold opts) mx) as [L'|L']; [cbn [fine]; auto|].
          destruct (1 <? mn)%Z.
          -- destruct (reserve_clones opts mn i st) as [st1|] eqn:E; [|apply (reserve_clones_fine _ _ _ E)].
             destruct (chain_graph i o (Z.to_nat mn) (t_heap st)) as [[[? fi] fo] h1].
             destruct (0 <? mx - mn)%Z; [|exact Logic.I].
             destruct (reserve_clones opts (mx - mn) i (with_heap st1 h1)) as [st2|] eqn:E'; [|apply (reserve_clones_fine _ _ _ E')].
             destruct (chain_graph i o (Z.to_nat (mx - mn)) (t_heap st2)) as [[[? ?] ?] ?]. exact Logic.I.
          -- destruct (0 <? mx - mn)%Z; [|exact Logic.I].
             destruct (reserve_clones opts (mx - mn) i st) as [st2|] eqn:E'; [|apply (reserve_clones_fine _ _ _ E')].
             destruct (chain_graph i o (Z.to_nat (mx - mn)) (t_heap st2)) as [[[? ?] ?] ?]. exact Logic.I.
  Qed.
  Lemma char_fine s vs st : fine (char_graph opts s vs st).
  Proof.
    unfold char_graph. destruct vs as [|v vs]; [exact Logic.I|]. destruct (negb (o_charvals opts)); [apply one_node_fine|].
    destruct (reserve opts (2 * Z.of_nat (length (v :: vs))) st) as [st1|] eqn:E; [|apply (reserve_fine _ _ E)].
    destruct (deflate_chars s (v :: vs) [] [] (t_heap st1)) as [[? ?] ?]. exact Logic.I.
  Qed.
  Lemma num_fine b k es st : wf_num b k es -> fine (num_graph opts b k es st).
  Proof.
    intros [_ W2]. unfold num_graph. destruct (negb (o_numvals opts)); [apply one_node_fine|]. destruct k.
    - destruct (reserve opts (Z.of_nat (length es)) st) as [st1|] eqn:E; [|apply (reserve_fine _ _ E)].
      destruct (alloc_series b es [] (t_heap st1)). exact Logic.I.
    - destruct es as [|lo [|hi [|x es]]]; try discriminate. cbn zeta.
      destruct ((0x10FFFF <? numval_to_int32 lo b)%Z || _)%bool; [exact Logic.I|].
      match goal with |- context [reserve opts ?n st] => destruct (reserve opts n st) as [st1|] eqn:E; [|apply (reserve_fine _ _ E)] end.
      match goal with |- context [alloc_series ?b ?v ?a ?h] => destruct (alloc_series b v a h) end. exact Logic.I.
  Qed.

  Section Traverse.
    Variable f : rep -> tgstate -> tres.
    Lemma cat_rest_fine c : (forall r st, In r c -> fine (f r st)) -> forall ci co st, fine (cat_rest f c ci co st).
    Proof.
      induction c as [|r c IH]; intros F ci co st; cbn [cat_rest]; [exact Logic.I|].
      pose proof (F r st (or_introl eq_refl)) as K. destruct (f r st) as [ri ro st1|e| |]; cbn [fine] in *; auto.
      destruct (concat_graphs ci co ri ro (t_heap st1)) as [[ci' co'] h]. apply IH. intros x s I. apply F. right. exact I.
    Qed.
    Lemma alt_fine a : (forall c, In c a -> c <> []) -> (forall c r st, In c a -> In r c -> fine (f r st)) -> forall i o st, fine (alt_loop f a i o st).
    Proof.
      induction a as [|c a IH]; intros Ne F i o st; cbn [alt_loop]; [exact Logic.I|].
      assert (K : fine (cat_with f c st)).
      { destruct c as [|r c]; [exfalso; exact (Ne [] (or_introl eq_refl) eq_refl)|]. cbn [cat_with].
        pose proof (F (r :: c) r st (or_introl eq_refl) (or_introl eq_refl)) as K. destruct (f r st) as [ri ro st1|e| |]; cbn [fine] in *; auto.
        apply cat_rest_fine. intros x s I. apply (F (r :: c)); [left; reflexivity|right; exact I]. }
      destruct (cat_with f c st) as [ci co st1|e| |]; cbn [fine] in *; auto.
      apply IH; [intros c' I; apply Ne; right; exact I|]. intros c' r s I. apply F. right. exact I.
    Qed.
  End Traverse.

  Lemma lex_nonempty a c : forallb (fun c => negb (Nat.eqb (length c) 0) && forallb lex_rep c)%bool a = true -> In c a -> c <> [].
  Proof. rewrite forallb_forall. intros H I ->. specialize (H [] I). discriminate H. Qed.
  (** A part and the names it may call. *)
  Definition calls (e : elem) (n : string) : Prop := e = ERule n \/ (exists b, (e = EGroup b \/ e = EOption b) /\ refers b n).
  Lemma calls_refers a c mn mx e n : In c a -> In (Rep mn mx e) c -> calls e n -> refers a n.
  Proof.
    intros Ic Ix [->|(b & [-> | ->] & mn' & mx' & Rb)].
    - exists mn, mx. eapply rep_in_here; eassumption.
    - exists mn', mx'. eapply rep_in_group; eassumption.
    - exists mn', mx'. eapply rep_in_option; eassumption.
  Qed.
  Lemma elem_rep_fine call :
    (forall e, occ_elem g e -> (forall n, calls e n -> forall st, fine (call n st)) -> forall st, fine (elem_graph opts call e st)) /\
    (forall r, occ_rep g r -> (forall n, calls (rep_elem r) n -> forall st, fine (call n st)) -> forall st, fine (rep_graph opts call r st)).
  Proof.
    assert (Sub : forall a0, Forall (Forall (fun r => occ_rep g r -> (forall n, calls (rep_elem r) n -> forall st, fine (call n st)) -> forall st, fine (rep_graph opts call r st))) a0 ->
      (forall c x, In c a0 -> In x c -> occ_rep g x) -> (forall c, In c a0 -> c <> []) ->
      (forall n, refers a0 n -> forall st, fine (call n st)) -> forall st, fine (alt_with (rep_graph opts call) a0 st)).
    { intros a0 F Oc Ne R st. unfold alt_with. apply alt_fine; [exact Ne|]. intros c r s Ic Ir. rewrite Forall_forall in F. specialize (F c Ic).
      rewrite Forall_forall in F. apply (F r Ir); [eapply Oc; eassumption|]. intros n Cn. apply R. destruct r as [mn mx e]. eapply calls_refers; eassumption. }
    apply elem_rep_ind.
    - intros n Oc R st. change (elem_graph opts call (ERule n) st) with (if o_rules opts then call n st else one_node opts (ERule n) st).
      destruct (o_rules opts); [apply R; left; reflexivity|apply one_node_fine].
    - intros a F Oc R st. change (elem_graph opts call (EGroup a) st) with (alt_with (rep_graph opts call) a st).
      apply Sub; [exact F|intros c x; apply occ_rep_group, Oc| |intros n Hn; apply R; right; exists a; auto].
      intros c. apply lex_nonempty. pose proof (proj1 (lex_occ g Lx) _ Oc) as L. cbn [lex_elem] in L. apply andb_true_iff in L as [_ L]. exact L.
    - intros a F Oc R st. change (elem_graph opts call (EOption a) st) with
        (match alt_with (rep_graph opts call) a st with T_ok i o st1 => T_ok (append_nodes i [None]) (append_nodes o [None]) st1 | x => x end).
      assert (K : fine (alt_with (rep_graph opts call) a st)).
      { apply Sub; [exact F|intros c x; apply occ_rep_option, Oc| |intros n Hn; apply R; right; exists a; auto].
        intros c. apply lex_nonempty. pose proof (proj1 (lex_occ g Lx) _ Oc) as L. cbn [lex_elem] in L. apply andb_true_iff in L as [_ L]. exact L. }
      destruct (alt_with (rep_graph opts call) a st); auto.
    - intros s vs _ _ st. apply char_fine.
    - intros b k es Oc _ st. apply num_fine. pose proof (proj1 (wf_occ g Wf) _ Oc) as We. inversion We; assumption.
    - intros v Oc _ st. exists v. exact Oc.
    - intros mn mx e F Oc R st. change (rep_graph opts call (Rep mn mx e) st) with
        (match elem_graph opts call e st with T_ok ei eo st1 => rep_build opts mn mx ei eo st1 | x => x end).
      assert (K : fine (elem_graph opts call e st)) by (apply F; [econstructor; exact Oc|exact R]).
      destruct (elem_graph opts call e st) as [ei eo st1|x| |]; auto. eapply rep_build_fine, Oc.
  Qed.
  Lemma rule_alt_fine n r call : get_rule n g = Some r -> (forall m, refers (rule_alt r) m -> forall st, fine (call m st)) ->
    forall st, fine (alt_graph opts call (rule_alt r) st).
  Proof.
    intros G R st. unfold alt_graph, alt_with. pose proof (LeftRec.get_rule_name n g r G) as [_ Ir].
    assert (L : lex_alt (rule_alt r) = true).
    { apply in_app_or in Ir as [Ir|Ir].
      - unfold lex_grammar in Lx. rewrite forallb_forall in Lx. specialize (Lx r Ir). apply andb_true_iff in Lx as [_ X]. exact X.
      - assert (X : forallb (fun r => lex_alt (rule_alt r)) core_rules = true) by (vm_compute; reflexivity). rewrite forallb_forall in X. apply X, Ir. }
    apply alt_fine.
    - intros c. apply lex_nonempty. apply andb_true_iff in L as [_ L]. exact L.
    - intros c x s Ic Ix. apply (proj2 (elem_rep_fine call)); [eapply occ_rep_rule; eassumption|].
      intros m Cm. apply R. destruct x as [mn mx e]. eapply calls_refers; eassumption.
  Qed.

  (** Enough fuel for the nesting of rules. *)
  Lemma rule_fine fuel : forall n path st, NoDup path -> incl path (names g) ->
    (forall p, In p path -> exists m, lower m = p /\ clos_trans _ (gref g) m n) ->
    (~ exists m, clos_refl_trans _ (gref g) n m /\ clos_trans _ (gref g) m m) ->
    (length (names g) < fuel + length path)%nat -> fine (rule_graph fuel opts g n st).
  Proof.
    induction fuel as [|f IH]; intros n path st Nd Inc Reach Acy L.
    - pose proof (NoDup_incl_length Nd Inc). lia.
    - cbn [rule_graph]. destruct (buf_get (lower n) (t_buf st)) as [[bi bo]|].
      + destruct (reserve_clones opts 1 bi st) as [st1|] eqn:E; [|apply (reserve_clones_fine _ _ _ E)].
        destruct (clone_graph (t_heap st1) bi bo) as [[? ?] ?]. exact Logic.I.
      + destruct (get_rule n g) as [r|] eqn:G.
        2: { intros a Ra. assert (X : exists a, resolves g n a) by eauto. apply get_rule_some in X as (r & X). congruence. }
        assert (K : fine (alt_graph opts (rule_graph f opts g) (rule_alt r) st)).
        { apply (rule_alt_fine n r _ G). intros m Rm s.
          assert (En : gref g n m).
          { exists (rule_alt r), m. split; [apply (proj1 (get_rule_resolves g n (proj1 Wf))), G|]. split; [exact Rm|reflexivity]. }
          apply (IH m (lower n :: path)).
          - constructor; [|exact Nd]. intros I. destruct (Reach _ I) as (p & Ep & Cp). apply Acy. exists n. split; [apply rt_refl|].
            apply clos_trans_t1n in Cp. inversion Cp as [? E1|k ? E1 E2]; subst.
            + apply t_step. eapply gref_lower; [exact Ep|reflexivity|exact E1].
            + eapply t_trans; [apply t_step; eapply gref_lower; [exact Ep|reflexivity|exact E1]|]. apply clos_t1n_trans. exact E2.
          - intros p [<-|I]; [eapply get_rule_names; exact G|apply Inc, I].
          - intros p [<-|I]; [exists n; split; [reflexivity|apply t_step, En]|].
            destruct (Reach _ I) as (q & Eq & Cq). exists q. split; [exact Eq|]. eapply t_trans; [exact Cq|apply t_step, En].
          - intros (k & R1 & C1). apply Acy. exists k. split; [|exact C1]. eapply rt_trans; [apply rt_step, En|exact R1].
          - cbn [length]. lia. }
        destruct (alt_graph opts (rule_graph f opts g) (rule_alt r) st) as [i o st1|e| |]; auto.
        destruct (reserve_clones opts 1 i st1) as [st2|] eqn:E; [|apply (reserve_clones_fine _ _ _ E)].
        destruct (clone_graph (t_heap st2) i o) as [[? ?] ?]. exact Logic.I.
  Qed.
  Lemma top_fine fuel n r st : get_rule n g = Some r ->
    (~ exists m, clos_refl_trans _ (gref g) n m /\ clos_trans _ (gref g) m m) ->
    (length (names g) < fuel)%nat -> fine (alt_graph opts (rule_graph fuel opts g) (rule_alt r) st).
  Proof.
    intros G Acy L. apply (rule_alt_fine n r _ G). intros m Rm s.
    assert (En : gref g n m).
    { exists (rule_alt r), m. split; [apply (proj1 (get_rule_resolves g n (proj1 Wf))), G|]. split; [exact Rm|reflexivity]. }
    apply (rule_fine fuel m []); [constructor|intros x []|intros p []| |cbn; lia].
    intros (k & R1 & C1). apply Acy. exists k. split; [|exact C1]. eapply rt_trans; [apply rt_step, En|exact R1].
  Qed.
End Total.
