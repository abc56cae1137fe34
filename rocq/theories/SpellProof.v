(** Proofs about the entry points under names given by the caller.  Its definitions are means of
    proof and model no code. *)
From Coq Require Import ZArith Arith String Ascii Bool Relations List Lia.
From Verif Require Import Syntax Spec Utf8 Term PropTerm Dag Printer Check LeftRec PropLeftRec Generate Ast Slots Gll GllUniv Bsr BsrProof BsrTerm Sppf SppfProof LowerProof LowerBudget PrintInj LowerLang PropGll Between
  Names NamesProof PropDag Recog RecogProof RecogComplete RecogGlue PropRecog Spell.
Import ListNotations.
Local Open Scope string_scope.
Local Open Scope list_scope.
Local Open Scope nat_scope.

(** ** Keys under a name that is not ASCII are no keys of the grammar *)
Lemma ascii_app a b : ascii_name (a ++ b)%string = (ascii_name a && ascii_name b)%bool.
Proof. unfold ascii_name. induction a as [|c a IH]; cbn; auto. rewrite IH. apply andb_assoc. Qed.

Lemma respell_same b n m : respell b n m -> ascii_name n = true -> n = m.
Proof.
  induction 1 as [|b c n m C R IH|b n m R IH|b n m R IH]; auto.
  - intros A. apply ascii_cons in A as [_ A]. rewrite (IH A). reflexivity.
  - intros A. discriminate A.
  - intros A. discriminate A.
Qed.
(** No element but a rulename prints as a name does. *)
Lemma name_not_elem b n m e : respell b n m -> lex_name m = true -> ascii_name n = false -> lex_elem e = true -> elem_string e <> n.
Proof.
  intros R Lm An Le E. destruct e as [x|a|a|s vs|bs st es|vs].
  - cbn in E, Le. subst x. rewrite (lex_ascii n Le) in An. discriminate.
  - destruct R as [|b c n m C R|b n m R|b n m R]; cbn in E; try discriminate E. injection E as <- _. discriminate Lm.
  - destruct R as [|b c n m C R|b n m R|b n m R]; cbn in E; try discriminate E. injection E as <- _. discriminate Lm.
  - destruct R as [|b c n m C R|b n m R|b n m R]; cbn in E; try discriminate E. injection E as <- _. discriminate Lm.
  - destruct R as [|b c n m C R|b n m R|b n m R]; cbn in E; try discriminate E. injection E as <- _. discriminate Lm.
  - destruct R as [|b c n m C R|b n m R|b n m R]; cbn in E; try discriminate E. injection E as <- _. discriminate Lm.
Qed.

(** ** IsValid *)
Lemma fuel_any g input a b : recog_fuel g input a = recog_fuel g input b.
Proof.
  unfold recog_fuel, key_univ, all_elems. cbn [flat_map]. rewrite !app_length.
  assert (K : forall x l, length (flat_map (keys (ERule x)) l) = 2 * length l).
  { intros x l. induction l as [|i l IH]; [reflexivity|]. cbn [flat_map]. rewrite app_length, IH. cbn [keys List.length]. lia. }
  rewrite !K. reflexivity.
Qed.
Lemma lang_found g m r w : get_rule m g = Some r -> (Lang g m w <-> Lang g (rule_name r) w).
Proof.
  intros G. apply get_rule_name in G as [S _].
  split; intros H; inversion H as [? a ? R Ha| | | | | |]; subst; (econstructor; [|exact Ha]).
  - apply (resolves_lower g m (rule_name r)); [symmetry; exact S|exact R].
  - apply (resolves_lower g (rule_name r) m); [exact S|exact R].
Qed.
Section Valid.
  Variable lw : Z -> Z.
  Hypothesis Lw : go_lower lw.

  Lemma valid_same ordn order ord fuel g n input : lex_grammar g = true -> ascii_name n = true ->
    is_valid_u lw ordn order ord fuel g n input = is_valid ordn order ord (S fuel) g n input.
  Proof.
    intros L A. unfold is_valid_u, is_valid. rewrite (get_respell false n n g L (respell_refl n A)).
    destruct (get_rule n g) as [r|] eqn:G; [|reflexivity]. destruct (left_recursive_sccs g ordn order) as [lr|]; [|reflexivity].
    rewrite (to_lower_plain lw Lw n n (respell_refl n A)). cbn [reach_elem]. unfold reach_body, is_lr. destruct (lr (lower n)) as [scc|]; [reflexivity|].
    unfold reach_plain. cbn [r_memo r_init r_prog]. unfold compute_elem. rewrite G. reflexivity.
  Qed.
  Theorem valid_respell g b n m input ordn order ord fuel :
    wf_grammar g -> lex_grammar g = true -> same_flags g -> bounds_ok g ->
    groups_not_left_recursive g -> count_ok g input ->
    any_order ordn -> name_order g order -> fine_first g order -> any_order ord ->
    respell b n m -> (exists a, resolves g m a) -> recog_fuel g input m <= fuel ->
    exists v, is_valid_u lw ordn order ord fuel g n input = VBool v /\ (v = true <-> Lang g m input).
  Proof.
    intros W L F B HG HC On K FF O Rs R Hf. unfold is_valid_u. rewrite (get_respell b n m g L Rs).
    destruct (C02_valid_exact_partial g m input ordn order ord (S fuel) W L F B HG HC On K FF O R ltac:(lia)) as (v & Ev & Hv).
    unfold is_valid in Ev. destruct (proj2 (get_rule_some g m) R) as (r & G). rewrite G in *.
    destruct (class_facts g ordn order On K (proj1 W) B FF) as (lr & E & LI & LC & Lo & L1 & L2 & L3 & L4). rewrite E in *.
    assert (Lm : lex_name m = true) by (destruct R as (a & R); eapply resolves_lex; eauto).
    assert (LL : forall m scc x, lr m = Some scc -> In x scc -> lex_name x = true).
    { intros x scc y Hm Ix. destruct (Lo x scc y Hm Ix) as [_ (a & R')]. eapply resolves_lex; eauto. }
    assert (LLow : forall m scc x, lr m = Some scc -> In x scc -> lower x = x) by (intros x scc y Hm Ix; apply (Lo x scc y Hm Ix)).
    cbv zeta. destruct (lr (to_lower lw n)) as [scc|] eqn:Q.
    - assert (Em : to_lower lw n = lower m).
      { destruct b; [|apply (to_lower_plain lw Lw); exact Rs]. exfalso.
        pose proof (to_lower_long lw Lw n m Rs) as A. rewrite (lex_ascii _ (LL _ _ _ Q (LI _ _ Q))) in A. discriminate. }
      rewrite Em in *. exists v. split; [|exact Hv]. cbn [reach_elem] in Ev. unfold reach_body, is_lr in Ev. rewrite Q in Ev. exact Ev.
    - destruct (ascii_name n) eqn:An.
      { apply (respell_same b n m Rs) in An. subst n. assert (Em : to_lower lw m = lower m) by (apply (to_lower_plain lw Lw), respell_refl, lex_ascii, Lm).
        rewrite Em in Q. exists v. split; [|exact Hv]. cbn [reach_elem] in Ev. unfold reach_body, is_lr in Ev. rewrite Q in Ev.
        unfold reach_plain in Ev. cbn [r_memo r_init r_prog] in Ev. unfold compute_elem in Ev. rewrite G in Ev. exact Ev. }
      clear v Ev Hv. set (k := rkey n 0). set (st0 := set_prog k true r_init). set (pr := upd (fun _ => false) k true).
      assert (Np : forall e i, named g e -> pr (ekey e i) = false).
      { intros e i Ne. unfold pr. rewrite upd_case. destruct (String.eqb_spec (ekey e i) k) as [Ek|Ek]; auto. exfalso.
        unfold k, ekey in Ek. apply rkey_inj in Ek as [Ek _]. apply (name_not_elem b n m e Rs Lm An (named_lex g L e Ne) Ek). }
      assert (V : RecogComplete.Inv g input (fun _ => None) pr st0).
      { split; [intros x s [H|H]; discriminate|]. split; [intros e i s _ _ H; discriminate|]. split; intros x; reflexivity. }
      assert (Bd : body g (ERule m) (rule_alt r)) by (apply body_rule; apply (proj1 (PropDag.get_rule_resolves g m (proj1 W))); auto).
      pose proof (alt_C g input lr ord O W (count_repok g input W HC) (reach_elem g input lr ord fuel)
        (fun e i gr p st => reach_elem_C g input lr ord O W L F LI LC LL LLow L1 L2 L3 L4 HG (count_repok g input W HC) fuel e i gr p st)
        (fun _ => None) pr (ERule m) (rule_alt r) 0 st0 Bd (named_rule g m r G) (Nat.le_0_l _) V
        ltac:(intros a sc c i _ _ H; discriminate) ltac:(intros x i s H; discriminate)
        ltac:(split; [intros x i' s H; discriminate|intros e' i' Ne H; rewrite Np in H by exact Ne; discriminate])) as P.
      assert (Bd0 : bounded input st0) by (intros x s [Q'|Q']; discriminate).
      assert (Fr : free g input m st0 < fuel).
      { pose proof (recog_fuel_enough g input m). assert (free g input m st0 <= free g input m r_init); [|lia]. apply free_mono.
        split; intros x Hx; [exact Hx|]. discriminate Hx. }
      assert (T : good False True (reach_alt input ord (reach_elem g input lr ord fuel) (rule_alt r) 0 st0) (fun _ _ => True)).
      { eapply good_weaken; [apply (alt_t g input lr ord m O fuel (reach_elem_t g input lr ord m O LI fuel) st0 (rule_alt r) 0 st0 Fr)|]; auto.
        - intros c x Ic Ix. apply (all_elems_rule g m m r c x G Ic Ix).
        - split; [apply ext_refl|exact Bd0].
        - lia. }
      assert (N : good True False (reach_alt input ord (reach_elem g input lr ord fuel) (rule_alt r) 0 st0) (fun _ _ => True)).
      { eapply good_weaken; [apply (alt_n input lr ord O (reach_elem g input lr ord fuel) (reach_elem_n g input lr ord O LI LC fuel) (fun _ => None) (rule_alt r) 0 st0)|]; auto.
        - intros a sc c i _ _ H. discriminate.
        - intros x. reflexivity. }
      fold k. fold st0. destruct (reach_alt input ord (reach_elem g input lr ord fuel) (rule_alt r) 0 st0) as [ends st| |]; [|destruct T|destruct N].
      cbn [rbind]. eexists. split; [reflexivity|]. rewrite mem_nat_in. cbn [good Recog.good] in P. destruct P as (_ & P1 & P2). split.
      + intros J. apply P2 in J. apply (rule_der g input W m r 0 _ G (Nat.le_0_l _)) with (m := m) in J; [|reflexivity].
        destruct J as (w & I & Sp). apply span_whole in Sp. subst w. exact I.
      + intros I. apply P1.
        assert (D : lo g input (fun _ => None) (ERule m) 0 (length input)).
        { apply (der_lo g input (fun _ => None) W); [right; eauto| |exists input; split; [exact I|apply span_self]].
          split; [intros x i' Q1 Q2 s' H'; discriminate H'|intros x Q1 s' H'; discriminate H']. }
        apply lo_rule in D. destruct D as (r' & G' & D). assert (r' = r) as -> by congruence. exact D.
  Qed.
End Valid.

(** ** What the elements of a grammar name is ASCII *)
Lemma lex_in a c r : lex_alt a = true -> In c a -> In r c -> lex_rep r = true.
Proof.
  unfold lex_alt. rewrite andb_true_iff, forallb_forall. intros [_ H] Ic Ir. specialize (H c Ic).
  rewrite andb_true_iff, forallb_forall in H. apply (proj2 H r Ir).
Qed.
Lemma lex_rep_elem mn mx e : lex_rep (Rep mn mx e) = true -> lex_elem e = true.
Proof. cbn [lex_rep]. rewrite !andb_true_iff. tauto. Qed.
Lemma lex_rules g r : lex_grammar g = true -> In r (g ++ core_rules) -> lex_alt (rule_alt r) = true.
Proof.
  intros L I. apply in_app_or in I as [I|I].
  - unfold lex_grammar in L. rewrite forallb_forall in L. specialize (L r I). apply andb_true_iff in L. tauto.
  - assert (X : forallb (fun r => lex_alt (rule_alt r)) core_rules = true) by (vm_compute; reflexivity). rewrite forallb_forall in X. apply X, I.
Qed.
Lemma lex_get g n r : lex_grammar g = true -> get_rule n g = Some r -> lex_alt (rule_alt r) = true.
Proof.
  intros L G. apply (lex_rules g r L). unfold get_rule, get_rule_core, get_rule_in in G. apply in_or_app.
  destruct (find _ g) as [x|] eqn:F; [injection G as <-; left; apply find_some in F; tauto|right; apply find_some in G; tauto].
Qed.
Lemma lex_resolves g n a : lex_grammar g = true -> resolves g n a -> lex_alt a = true.
Proof. intros L [(r & I & _ & <-)|(_ & r & I & _ & <-)]; apply (lex_rules g r L), in_or_app; auto. Qed.

Lemma map_eq_in {A B} (f h : A -> B) l : (forall x, In x l -> f x = h x) -> map f l = map h l.
Proof. induction l as [|x l IH]; intros H; [reflexivity|]. cbn [map]. rewrite (H x (or_introl eq_refl)), IH; [reflexivity|]. intros y I. apply H. right. exact I. Qed.

(** ** Generate *)
Section GenCheck.
  Variables (g : grammar) (b : bool) (n m : string).
  Hypothesis L : lex_grammar g = true.
  Hypothesis Rs : respell b n m.

  Lemma fold_respelled x : lex_name x = true -> equal_fold_u n x = equal_fold x m.
  Proof.
    intros Lx. apply eq_true_iff_eq. rewrite equal_fold_u_map, (respell_fold b n m Rs), <- equal_fold_u_map.
    rewrite (equal_fold_ascii m x (respell_ascii b n m Rs) (lex_ascii x Lx)). unfold equal_fold. rewrite !String.eqb_eq. split; auto.
  Qed.
  Lemma elem_checks call call' : (forall known a, lex_alt a = true -> call known a = call' (known ++ [m]) a) ->
    (forall e, lex_elem e = true -> forall known, check_elem_u g n call known e = check_elem g call' (known ++ [m]) e) /\
    (forall r, lex_rep r = true -> forall known, check_rep_u g n call known r = check_rep g call' (known ++ [m]) r).
  Proof.
    intros C. apply elem_rep_ind.
    - intros x Lx known. cbn [check_elem_u check_elem lex_elem] in *. rewrite existsb_app. cbn [existsb]. rewrite orb_false_r, (fold_respelled x Lx).
      destruct (existsb (equal_fold x) known || equal_fold x m)%bool; [reflexivity|].
      destruct (get_rule x g) as [r|] eqn:G; [|reflexivity]. rewrite (C (x :: known) (rule_alt r) (lex_get g x r L G)). reflexivity.
    - intros a F La known. cbn [check_elem_u check_elem]. f_equal. apply map_eq_in. intros c Ic. f_equal. apply map_eq_in. intros r Ir.
      rewrite Forall_forall in F. specialize (F c Ic). rewrite Forall_forall in F. apply (F r Ir). apply (lex_in a c r); auto.
    - reflexivity.
    - reflexivity.
    - reflexivity.
    - reflexivity.
    - intros mn mx e IH Lr known. cbn [check_rep_u check_rep]. destruct (mn =? 0)%Z; [reflexivity|]. apply IH. apply lex_rep_elem in Lr. exact Lr.
  Qed.
  Lemma alt_checks fuel : forall known a, lex_alt a = true -> check_alt_u fuel g n known a = check_alt fuel g (known ++ [m]) a.
  Proof.
    induction fuel as [|f IH]; intros known a La; [reflexivity|]. cbn [check_alt_u check_alt]. unfold check_alt_with_u, check_alt_with, check_cat.
    f_equal. apply map_eq_in. intros c Ic. f_equal. apply map_eq_in. intros r Ir. apply (elem_checks _ _ IH). apply (lex_in a c r); auto.
  Qed.
  Lemma generate_respell fuel rnd rm thr :
    generate_u fuel rnd rm thr g n = generate fuel rnd rm thr g m \/
    (generate_u fuel rnd rm thr g n = Gen_cyclic n /\ generate fuel rnd rm thr g m = Gen_cyclic m).
  Proof.
    unfold generate_u, generate, check_can_generate_u, check_can_generate. rewrite (get_respell b n m g L Rs).
    destruct (get_rule m g) as [r|] eqn:G; [|left; reflexivity]. rewrite (alt_checks fuel [] (rule_alt r) (lex_get g m r L G)). cbn [app].
    destruct (check_alt fuel g [m] (rule_alt r)) as [|[x|]| |]; auto.
  Qed.
  Lemma new_ast_respell fuel ord :
    new_ast_u fuel ord g n = new_ast fuel ord g m \/
    (new_ast_u fuel ord g n = New_unproductive n /\ new_ast fuel ord g m = New_unproductive m).
  Proof.
    unfold new_ast_u, new_ast. rewrite (get_respell b n m g L Rs).
    destruct (get_rule m g) as [r|] eqn:G; [|left; reflexivity]. destruct (cost_loop fuel g ord 0 (initial_costs g)) as [mp|]; [|left; reflexivity].
    destruct (too_costly mp (rule_name r)); auto.
  Qed.
End GenCheck.

(** ** The parsers: the grammar with the rule under that name too *)
Section Alias.
  Variables (g : grammar) (b : bool) (n m : string) (r : rule).
  Hypothesis L : lex_grammar g = true.
  Hypothesis W : wf_grammar g.
  Hypothesis Rs : respell b n m.
  Hypothesis An : ascii_name n = false.
  Hypothesis G : get_rule m g = Some r.
  Definition alias : grammar := mkRule n (rule_alt r) :: g.

  Lemma lower_ascii_back s : ascii_name (lower s) = ascii_name s.
  Proof.
    unfold ascii_name. induction s as [|c s IH]; [reflexivity|]. cbn [lower all_chars]. rewrite IH. f_equal. rewrite lower_val.
    destruct (Z.leb_spec 65 (cval c)); cbn [andb]; [|reflexivity]. destruct (Z.leb_spec (cval c) 90); [|reflexivity].
    apply eq_true_iff_eq. rewrite !Z.ltb_lt. lia.
  Qed.
  Lemma not_same x : ascii_name x = true -> equal_fold x n = false.
  Proof.
    intros A. unfold equal_fold. apply String.eqb_neq. intros E. rewrite <- (lower_ascii_back x), E, lower_ascii_back in A. congruence.
  Qed.
  Lemma alias_get x : lex_name x = true -> get_rule x alias = get_rule x g.
  Proof.
    intros Lx. unfold get_rule, get_rule_core, get_rule_in, alias. cbn [find rule_name]. rewrite (not_same x (lex_ascii x Lx)). reflexivity.
  Qed.
  Lemma alias_own : get_rule n alias = Some (mkRule n (rule_alt r)).
  Proof. unfold get_rule, get_rule_core, get_rule_in, alias. cbn [find rule_name]. unfold equal_fold. rewrite String.eqb_refl. reflexivity. Qed.
  Lemma in_names x : In x g -> ascii_name (rule_name x) = true.
  Proof. apply (lex_names g L). Qed.
  Lemma alias_resolves x a : lex_name x = true -> (resolves alias x a <-> resolves g x a).
  Proof.
    intros Lx. assert (N : ~ same_name x n).
    { intros S. apply equal_fold_iff in S. rewrite (not_same x (lex_ascii x Lx)) in S. discriminate. }
    unfold resolves, alias. split.
    - intros [(y & [<-|I] & S & E)|(F & y & I & S & E)]; [contradiction|left; eauto|right; split; eauto].
      intros z Iz. apply F. right. exact Iz.
    - intros [(y & I & S & E)|(F & y & I & S & E)]; [left; exists y; split; [right; exact I|auto]|right; split; [|eauto]].
      intros z [<-|Iz]; [exact N|apply F, Iz].
  Qed.
  Lemma alias_lang :
    (forall e w, in_elem alias e w -> lex_elem e = true -> in_elem g e w) /\
    (forall a w, in_alt alias a w -> (forall c x, In c a -> In x c -> lex_rep x = true) -> in_alt g a w) /\
    (forall c w, in_cat alias c w -> (forall x, In x c -> lex_rep x = true) -> in_cat g c w) /\
    (forall x w, in_rep alias x w -> lex_rep x = true -> in_rep g x w) /\
    (forall e k w, in_pow alias e k w -> lex_elem e = true -> in_pow g e k w).
  Proof.
    apply lang_mut.
    - intros x a w R _ IH Lx. cbn in Lx. apply (alias_resolves x a Lx) in R. econstructor; [exact R|]. apply IH. intros c y. apply lex_in. apply (lex_resolves g x a L R).
    - intros a w _ IH La. constructor. apply IH. intros c y. apply lex_in. exact La.
    - intros a La. constructor.
    - intros a w _ IH La. apply in_option_some. apply IH. intros c y. apply lex_in. exact La.
    - intros s vs rs F Sc _. constructor; auto.
    - intros bs ns rs F Sc _. constructor; auto.
    - intros bs lo hi l h x A B C D _. econstructor; eauto.
    - intros c a w I _ IH H. econstructor; [exact I|]. apply IH. intros x Ix. apply (H c x I Ix).
    - intros _. constructor.
    - intros x c w1 w2 _ IH1 _ IH2 H. constructor; [apply IH1, H; left; reflexivity|apply IH2; intros y Iy; apply H; right; exact Iy].
    - intros mn mx e k w A B _ IH H. econstructor; eauto. apply IH. apply lex_rep_elem in H. exact H.
    - intros e _. constructor.
    - intros e k w1 w2 _ IH1 _ IH2 H. constructor; auto.
  Qed.
  Lemma lang_alias :
    (forall e w, in_elem g e w -> lex_elem e = true -> in_elem alias e w) /\
    (forall a w, in_alt g a w -> (forall c x, In c a -> In x c -> lex_rep x = true) -> in_alt alias a w) /\
    (forall c w, in_cat g c w -> (forall x, In x c -> lex_rep x = true) -> in_cat alias c w) /\
    (forall x w, in_rep g x w -> lex_rep x = true -> in_rep alias x w) /\
    (forall e k w, in_pow g e k w -> lex_elem e = true -> in_pow alias e k w).
  Proof.
    apply lang_mut.
    - intros x a w R _ IH Lx. cbn in Lx. econstructor; [apply (alias_resolves x a Lx), R|]. apply IH. intros c y. apply lex_in. apply (lex_resolves g x a L R).
    - intros a w _ IH La. constructor. apply IH. intros c y. apply lex_in. exact La.
    - intros a La. constructor.
    - intros a w _ IH La. apply in_option_some. apply IH. intros c y. apply lex_in. exact La.
    - intros s vs rs F Sc _. constructor; auto.
    - intros bs ns rs F Sc _. constructor; auto.
    - intros bs lo hi l h x A B C D _. econstructor; eauto.
    - intros c a w I _ IH H. econstructor; [exact I|]. apply IH. intros x Ix. apply (H c x I Ix).
    - intros _. constructor.
    - intros x c w1 w2 _ IH1 _ IH2 H. constructor; [apply IH1, H; left; reflexivity|apply IH2; intros y Iy; apply H; right; exact Iy].
    - intros mn mx e k w A B _ IH H. econstructor; eauto. apply IH. apply lex_rep_elem in H. exact H.
    - intros e _. constructor.
    - intros e k w1 w2 _ IH1 _ IH2 H. constructor; auto.
  Qed.
  Lemma alias_root w : Lang alias n w <-> Lang g m w.
  Proof.
    pose proof (proj1 (get_rule_resolves g m (proj1 W)) r G) as R.
    assert (La : forall c x, In c (rule_alt r) -> In x c -> lex_rep x = true) by (intros c x; apply lex_in, (lex_get g m r L G)).
    split; intros H.
    - inversion H as [? a ? R' Ha| | | | | |]; subst. apply (in_rule g m (rule_alt r) w R). apply (proj1 (proj2 alias_lang)); [|exact La].
      destruct R' as [(y & [<-|I] & S & <-)|(F & y & I & S & E)]; [exact Ha| |].
      + exfalso. unfold same_name in S. pose proof (in_names y I) as A. rewrite <- lower_ascii_back, <- S, lower_ascii_back in A. congruence.
      + exfalso. apply (F (mkRule n (rule_alt r)) (or_introl eq_refl)). reflexivity.
    - inversion H as [? a ? R' Ha| | | | | |]; subst. apply (in_rule alias n (rule_alt r) w).
      + left. exists (mkRule n (rule_alt r)). split; [left; reflexivity|]. split; reflexivity.
      + apply (proj1 (proj2 lang_alias)); [|exact La]. rewrite (resolves_fun g m (rule_alt r) a (proj1 W) R R'). exact Ha.
  Qed.

  (** Lowering it and lowering the grammar. *)
  Section Cong.
    Variable max : Z.
    Variables l1 l2 : string -> lstate -> option (nat * lstate).
    Hypothesis E : forall x st, lex_name x = true -> l1 x st = l2 x st.

    Lemma mapM_cong {A B S} (f h : A -> S -> option (B * S)) l : (forall x s, In x l -> f x s = h x s) -> forall s, mapM f l s = mapM h l s.
    Proof.
      induction l as [|x l IH]; intros H s; [reflexivity|]. cbn [mapM]. rewrite (H x s (or_introl eq_refl)).
      destruct (h x s) as [[y s1]|]; [|reflexivity]. rewrite IH; [reflexivity|]. intros z t I. apply H. right. exact I.
    Qed.
    Lemma alts_cong a : Forall (Forall (fun x => lex_rep x = true -> forall st, lower_rep max l1 x st = lower_rep max l2 x st)) a ->
      (forall c x, In c a -> In x c -> lex_rep x = true) -> forall st, lower_alts max l1 a st = lower_alts max l2 a st.
    Proof.
      intros F H st. unfold lower_alts. apply mapM_cong. intros c s Ic. unfold lower_cat.
      rewrite (mapM_cong (lower_rep max l1) (lower_rep max l2) c); [reflexivity|]. intros x t Ix.
      rewrite Forall_forall in F. specialize (F c Ic). rewrite Forall_forall in F. apply (F x Ix). apply (H c x Ic Ix).
    Qed.
    Lemma lower_cong :
      (forall e, lex_elem e = true -> forall st, lower_elem max l1 e st = lower_elem max l2 e st) /\
      (forall x, lex_rep x = true -> forall st, lower_rep max l1 x st = lower_rep max l2 x st).
    Proof.
      apply elem_rep_ind.
      - intros x Lx st. cbn [lower_elem]. rewrite (E x st Lx). reflexivity.
      - intros a F La st. rewrite !lower_elem_group. destruct (reserve _ st) as [[id ex] s1]. destruct ex; [reflexivity|].
        destruct (budget_exceeded max s1) as [o s2]. destruct o; [reflexivity|]. rewrite (alts_cong a F); [reflexivity|]. intros c x. apply lex_in. exact La.
      - intros a F La st. rewrite !lower_elem_option. destruct (reserve _ st) as [[id ex] s1]. destruct ex; [reflexivity|].
        destruct (budget_exceeded max s1) as [o s2]. destruct o; [reflexivity|]. rewrite (alts_cong a F); [reflexivity|]. intros c x. apply lex_in. exact La.
      - reflexivity.
      - reflexivity.
      - reflexivity.
      - intros mn mx e IH Lr st. apply lex_rep_elem in Lr. rewrite !lower_rep_eq. destruct ((mn =? 1)%Z && (mx =? 1)%Z)%bool; [apply IH, Lr|].
        destruct (reserve _ st) as [[id ex] s1]. destruct ex; [reflexivity|].
        destruct (budget_exceeded max s1) as [o s2]. destruct o; [reflexivity|]. destruct (negb (mx =? inf)%Z && (mx <? mn)%Z)%bool; [reflexivity|]. rewrite (IH Lr). reflexivity.
    Qed.
    Lemma alts_same a : lex_alt a = true -> forall st, lower_alts max l1 a st = lower_alts max l2 a st.
    Proof.
      intros La. apply alts_cong; [|intros c x; apply lex_in; exact La]. apply Forall_forall. intros c _. apply Forall_forall. intros x _. apply lower_cong.
    Qed.
  End Cong.
  Lemma alias_lower max f : forall x st, lex_name x = true -> lower_rule alias max f x st = lower_rule g max f x st.
  Proof.
    induction f as [|f IH]; intros x st Lx; [reflexivity|]. cbn [lower_rule]. destruct (reserve _ st) as [[id ex] s1]. destruct ex; [reflexivity|].
    destruct (budget_exceeded max s1) as [o s2]. destruct o; [reflexivity|]. rewrite (alias_get x Lx).
    destruct (get_rule x g) as [y|] eqn:Gy; [|reflexivity]. rewrite (alts_same max _ _ IH (rule_alt y) (lex_get g x y L Gy)). reflexivity.
  Qed.
  Lemma sym_refl x : sym_le x x.
  Proof. destruct x as [t| |]; cbn; auto. apply narrows_refl. Qed.
  Lemma alts_refl a : alts_le a a.
  Proof. apply F2_refl, Forall_forall. intros c _. apply F2_refl, Forall_forall. intros x _. apply sym_refl. Qed.
  Lemma nt_refl x : nt_le x x.
  Proof. constructor; auto. apply alts_refl. Qed.
  Lemma compile_alias max fuel :
    match compile_slots_u g n max fuel, compile_slots alias n max fuel with
    | CS_ok a, CS_ok c => sg_le a c /\ sg_le c a
    | CS_rule_not_found, CS_rule_not_found | CS_too_large, CS_too_large | CS_fuel, CS_fuel => True
    | _, _ => False
    end.
  Proof.
    unfold compile_slots_u, compile_slots. rewrite (get_respell b n m g L Rs), G, alias_own.
    destruct fuel as [|f]; [exact Logic.I|]. cbn [lower_rule]. rewrite alias_own. cbn [rule_alt rule_name].
    destruct (reserve ("rule:" ++ lower n)%string ls_init) as [[id ex] s1] eqn:Er.
    assert (ex = false) as -> by (cbn in Er; injection Er as _ <- _; reflexivity).
    destruct (budget_exceeded max s1) as [o s2] eqn:Eb.
    assert (Ho : ls_over s2 = o) by (unfold budget_exceeded in Eb; injection Eb as <- <-; reflexivity).
    destruct o; [rewrite Ho; exact Logic.I|].
    rewrite (alts_same max (lower_rule alias max f) (lower_rule g max f) (alias_lower max f) (rule_alt r) (lex_get g m r L G)).
    destruct (lower_alts max (lower_rule g max f) (rule_alt r) s2) as [[al s3]|]; [|exact Logic.I].
    unfold set_nt. cbn [ls_over]. destruct (ls_over s3); [exact Logic.I|]. cbn [ls_nts]. 
    assert (R : Forall2 nt_le (ls_nts s3) (ls_nts s3)) by (apply F2_refl, Forall_forall; intros x _; apply nt_refl).
    split; (split; [cbn [sg_nts]; apply set_nth_le; [exact R|]; constructor; auto; apply alts_refl|reflexivity]).
  Qed.
  Lemma occ_alias : (forall e, occ_elem alias e -> occ_elem g e) /\ (forall x, occ_rep alias x -> occ_rep g x).
  Proof.
    apply occ_min.
    - intros mn mx e _ H. econstructor. exact H.
    - intros y c x [<-|I] Ic Ix; [|eapply occ_rep_rule; eauto]. cbn [rule_alt] in Ic.
      assert (I : In r (g ++ core_rules)).
      { apply in_or_app. unfold get_rule, get_rule_core, get_rule_in in G. destruct (find _ g) as [z|] eqn:F; [injection G as ->; left; apply find_some in F; tauto|right; apply find_some in G; tauto]. }
      eapply occ_rep_rule; eauto.
    - intros a c x _ H Ic Ix. eapply occ_rep_group; eauto.
    - intros a c x _ H Ic Ix. eapply occ_rep_option; eauto.
  Qed.
  Lemma alias_inj : print_inj g -> print_inj alias.
  Proof.
    destruct occ_alias as [Oe Or]. intros (A & B & C). split; [|split].
    - intros a a' H H'. apply A; auto.
    - intros a a' H H'. apply B; auto.
    - intros x x' H H'. apply C; auto.
  Qed.
  Lemma alias_wf : wf_grammar alias.
  Proof.
    destruct W as [D F]. split.
    - unfold distinct_names, alias. cbn [map rule_name]. constructor; [|exact D]. intros I. apply in_map_iff in I as (x & Ex & Ix).
      pose proof (in_names x Ix) as A. rewrite <- lower_ascii_back, Ex, lower_ascii_back in A. congruence.
    - constructor; [|exact F]. cbn [rule_alt]. rewrite Forall_forall in F. pose proof core_wf as Cw. rewrite Forall_forall in Cw.
      unfold get_rule, get_rule_core, get_rule_in in G. destruct (find _ g) as [z|] eqn:Fd.
      + injection G as ->. apply F. apply find_some in Fd. tauto.
      + apply Cw. apply find_some in G. tauto.
  Qed.
  (** The words of what is lowered, and the shape of it. *)
  Lemma alias_shape max fuel sg : compile_slots_u g n max fuel = CS_ok sg ->
    rep_shape sg /\ (forall nt, nth_error (sg_nts sg) (sg_start sg) = Some nt -> nt_isrep nt = false) /\
    (forall P p, prod_of sg P = Some p -> p <> []).
  Proof.
    intros C. pose proof (compile_alias max fuel) as Q. rewrite C in Q. destruct (compile_slots alias n max fuel) as [sg'| | |] eqn:C'; try (destruct Q; fail).
    destruct Q as [Q1 Q2]. destruct (compile_ok_represents _ _ _ _ _ C') as [idx R]. split; [|split].
    - pose proof (shape _ _ _ _ R) as S. intros X nt N Rp. pose proof (F2_nth _ _ _ (proj1 Q1) X) as P. rewrite N in P.
      destruct (nth_error (sg_nts sg') X) as [nt'|] eqn:N'; [|destruct P]. rewrite (le_isrep _ _ P) in Rp. destruct (S X nt' N' Rp) as (e & Ea).
      pose proof (le_alts _ _ P) as A. rewrite Ea in A. inversion A as [|x1 y1 l1 l1' A1 A2 E1 E2]; subst. inversion A2 as [|x2 y2 l2 l2' B1 B2 E3 E4]; subst. inversion B2; subst.
      inversion A1 as [|x3 y3 l3 l3' D1 D2 E5 E6]; subst. inversion D2; subst. inversion B1 as [|x4 y4 l4 l4' F1 F2 E7 E8]; subst. inversion F2 as [|x5 y5 l5 l5' H1 H2 E9 E10]; subst. inversion H2; subst.
      destruct x3; try (destruct D1; fail). destruct x5; try (destruct H1; fail). cbn in H1. subst. exists x4. congruence.
    - intros nt N. pose proof (F2_nth _ _ _ (proj1 Q1) (sg_start sg)) as P. rewrite N in P.
      destruct (nth_error (sg_nts sg') (sg_start sg)) as [nt'|] eqn:N'; [|destruct P]. rewrite (le_isrep _ _ P). rewrite (proj2 Q1) in N'.
      apply (start_plain _ _ _ _ R nt' N').
    - intros P p Pr E. destruct (prod_le sg sg' P p Q1 Pr) as (q & Pq & F2). apply (nonempty _ _ _ _ R P q Pq). subst p. inversion F2. reflexivity.
  Qed.
  Lemma alias_sg max fuel sg : told_apart g -> compile_slots_u g n max fuel = CS_ok sg ->
    (forall input, sg_accepts sg input <-> Lang g m input) /\ rep_shape sg /\
    (forall nt, nth_error (sg_nts sg) (sg_start sg) = Some nt -> nt_isrep nt = false) /\
    (forall P p, prod_of sg P = Some p -> p <> []).
  Proof.
    intros T C. split; [|exact (alias_shape max fuel sg C)]. pose proof (compile_alias max fuel) as Q. rewrite C in Q.
    destruct (compile_slots alias n max fuel) as [sg'| | |] eqn:C'; try (destruct Q; fail).
    destruct Q as [Q1 Q2]. destruct (compile_ok_represents _ _ _ _ _ C') as [idx R].
    intros input. rewrite <- alias_root, <- (accepts_iff_lang alias n sg' idx input alias_wf (alias_inj (print_inj_lex g L T)) R).
    split; apply accepts_le; assumption.
  Qed.
End Alias.

(** ** The parsers under a name that finds the rule *)
Lemma compile_same g n max fuel : lex_grammar g = true -> ascii_name n = true -> compile_slots_u g n max fuel = compile_slots g n max fuel.
Proof.
  intros L A. unfold compile_slots_u, compile_slots. rewrite (get_respell false n n g L (respell_refl n A)).
  destruct (get_rule n g) as [r|] eqn:G; [|reflexivity]. destruct fuel as [|f]; [reflexivity|]. cbn [lower_rule].
  destruct (reserve ("rule:" ++ lower n)%string ls_init) as [[id ex] s1] eqn:Er.
  assert (ex = false) as -> by (cbn in Er; injection Er as _ <- _; reflexivity).
  destruct (budget_exceeded max s1) as [o s2] eqn:Eb.
  assert (Ho : ls_over s2 = o) by (unfold budget_exceeded in Eb; injection Eb as <- <-; reflexivity).
  destruct o; [rewrite Ho; reflexivity|]. rewrite G. destruct (lower_alts max (lower_rule g max f) (rule_alt r) s2) as [[al s3]|]; reflexivity.
Qed.
Lemma compile_words g b n m max fuel sg : wf_grammar g -> lex_grammar g = true -> told_apart g -> respell b n m ->
  compile_slots_u g n max fuel = CS_ok sg ->
  (forall input, sg_accepts sg input <-> Lang g m input) /\ rep_shape sg /\
  (forall nt, nth_error (sg_nts sg) (sg_start sg) = Some nt -> nt_isrep nt = false) /\
  (forall P p, prod_of sg P = Some p -> p <> []).
Proof.
  intros W L T Rs C. destruct (ascii_name n) eqn:A.
  - pose proof (respell_same b n m Rs A). subst m. rewrite (compile_same g n max fuel L A) in C.
    destruct (compile_ok_represents _ _ _ _ _ C) as [idx R]. split; [|split; [|split]].
    + intros input. eapply accepts_iff_lang; eauto. apply print_inj_lex; auto.
    + eapply shape; eauto.
    + eapply start_plain; eauto.
    + eapply nonempty; eauto.
  - destruct (get_rule m g) as [r|] eqn:G; [apply (alias_sg g b n m r L W Rs A G max fuel sg T C)|].
    unfold compile_slots_u in C. rewrite (get_respell b n m g L Rs), G in C. discriminate.
Qed.
Theorem bsr_respell ord fuel input g b n m ms mn sg set : any_order ord -> wf_grammar g -> lex_grammar g = true -> told_apart g -> respell b n m ->
  parse_bsr_u ord fuel input g n ms mn = BSR_ok sg set -> (bsr_valid sg (length input) set = true <-> Lang g m input).
Proof.
  intros O W L T Rs E. unfold parse_bsr_u in E. destruct (compile_slots_u g n ms fuel) as [sg'| | |] eqn:C; try discriminate.
  destruct (b_parse sg' input mn (fun t _ l => ord t l) fuel) as [st|] eqn:B; [|discriminate].
  destruct (b_aborted st) eqn:A; [discriminate|]. injection E as -> <-.
  destruct (compile_words g b n m ms fuel sg W L T Rs C) as (Wd & Sh & Sp & Ne). rewrite <- Wd.
  apply (bsr_correct sg input mn (fun t _ l => ord t l)) with (fuel := fuel); auto. apply wf_reps, Sh.
Qed.
Theorem forest_respell ord fuel input g b n m ms mn f : any_order ord -> wf_grammar g -> lex_grammar g = true -> told_apart g -> respell b n m ->
  parse_forest_u ord fuel input g n ms mn = PF_ok f -> (f_valid f = true <-> Lang g m input).
Proof.
  intros O W L T Rs E. unfold parse_forest_u in E. destruct (compile_slots_u g n ms fuel) as [sg| | |] eqn:C; try discriminate.
  destruct (p_parse sg input mn ord fuel) as [st|] eqn:B; [|discriminate]. destruct (p_aborted st) eqn:A; [discriminate|]. injection E as <-.
  destruct (compile_words g b n m ms fuel sg W L T Rs C) as (Wd & Sh & Sp & Ne). rewrite <- Wd. pose proof (wf_reps _ Sh) as Wr.
  destruct (sppf_as_bsr sg input mn ord O Ne Wr fuel st B A) as (bs & Bb & HR).
  rewrite <- (bsr_correct sg input 0 (ord' sg ord)) with (fuel := fuel) (st := bs); auto.
  - rewrite <- (root_valid _ _ _ _ HR). unfold f_valid. cbv zeta. cbn [f_root]. destruct (packs_of _ (p_nodes st)); split; congruence.
  - intros. apply ord'_in. auto.
  - apply (r_ab _ _ _ HR).
Qed.

(** ** They end under it, within their budgets *)
Lemma compile_u_mono g n max f f' : (f <= f')%nat -> compile_slots_u g n max f <> CS_fuel -> compile_slots_u g n max f' = compile_slots_u g n max f.
Proof.
  intros Lf. unfold compile_slots_u. destruct (get_rule_u n g) as [r|]; [|reflexivity]. destruct f as [|f]; [congruence|]. destruct f' as [|f']; [lia|].
  destruct (reserve ("rule:" ++ lower n)%string ls_init) as [[id ex] s1]. destruct (budget_exceeded max s1) as [o s2]. destruct o; [reflexivity|].
  destruct (lower_alts max (lower_rule g max f) (rule_alt r) s2) as [p|] eqn:E; [|congruence]. intros _.
  rewrite (alts_mono max (lower_rule g max f) (lower_rule g max f') (rule_alt r)) with (x := p); auto.
  apply Forall_forall. intros c _. apply Forall_forall. intros x _. apply lower_mono. intros. eapply lower_rule_mono; [|eassumption]. lia.
Qed.
Lemma compile_u_ends g n max fuel : lex_grammar g = true -> (S (lower_fuel g) <= fuel)%nat ->
  compile_slots_u g n max fuel <> CS_fuel /\
  forall sg, compile_slots_u g n max fuel = CS_ok sg ->
    rep_shape sg /\ (forall nt, nth_error (sg_nts sg) (sg_start sg) = Some nt -> nt_isrep nt = false) /\ (forall P p, prod_of sg P = Some p -> p <> []).
Proof.
  intros L F. unfold lower_fuel in F. destruct (get_rule_u n g) as [r0|] eqn:G0.
  2:{ unfold compile_slots_u. rewrite G0. split; [discriminate|]. intros sg E. discriminate. }
  destruct (get_found n g r0 L G0) as (b & m & Rs & G). destruct (ascii_name n) eqn:A.
  - rewrite (compile_same g n max fuel L A). split; [apply C10_lowering_terminates; lia|]. intros sg C.
    destruct (compile_ok_represents _ _ _ _ _ C) as [idx R]. split; [eapply shape; eauto|]. split; [eapply start_plain; eauto|eapply nonempty; eauto].
  - destruct (get_rule m g) as [r|] eqn:Gm; [|discriminate]. split; [|apply (alias_shape g b n m r L Rs A Gm max fuel)].
    pose proof (compile_alias g b n m r L Rs A Gm max fuel) as Q. pose proof (C10_lowering_terminates (alias g n r) n max fuel) as T.
    unfold alias in T at 1. cbn [List.length] in T. specialize (T ltac:(lia)).
    destruct (compile_slots_u g n max fuel); try discriminate. destruct (compile_slots (alias g n r) n max fuel); try destruct Q. congruence.
Qed.
Lemma bsr_u_ends ord input g n ms mn : any_order ord -> lex_grammar g = true ->
  exists enough, forall fuel, (enough <= fuel)%nat -> parse_bsr_u ord fuel input g n ms mn <> BSR_fuel.
Proof.
  intros O L. set (F := S (lower_fuel g)). destruct (compile_u_ends g n ms F L (le_n _)) as (T & Sh).
  destruct (compile_slots_u g n ms F) as [sg| | |] eqn:C; try congruence.
  - destruct (Sh sg eq_refl) as (S1 & S2 & _). exists (Nat.max F (length (desc_univ sg input))). intros fuel Le. unfold parse_bsr_u.
    rewrite (compile_u_mono g n ms F) by (try lia; congruence). rewrite C.
    destruct (bsr_terminates sg input mn (fun t _ l => ord t l) (fun t _ => O t) S1 S2 fuel ltac:(lia)) as [st ->]. destruct (b_aborted st); discriminate.
  - exists F. intros fuel Le. unfold parse_bsr_u. rewrite (compile_u_mono g n ms F) by (try lia; congruence). rewrite C. discriminate.
  - exists F. intros fuel Le. unfold parse_bsr_u. rewrite (compile_u_mono g n ms F) by (try lia; congruence). rewrite C. discriminate.
Qed.
Lemma forest_u_ends ord input g n ms mn : any_order ord -> lex_grammar g = true ->
  exists enough, forall fuel, (enough <= fuel)%nat -> parse_forest_u ord fuel input g n ms mn <> PF_fuel.
Proof.
  intros O L. set (F := S (lower_fuel g)). destruct (compile_u_ends g n ms F L (le_n _)) as (T & Sh).
  destruct (compile_slots_u g n ms F) as [sg| | |] eqn:C; try congruence.
  - destruct (Sh sg eq_refl) as (S1 & S2 & Ne). exists (Nat.max F (length (desc_univ sg input))). intros fuel Le. unfold parse_forest_u.
    rewrite (compile_u_mono g n ms F) by (try lia; congruence). rewrite C.
    destruct (bsr_terminates sg input 0 (ord' sg ord) (fun t v => ord'_in sg ord O t v) S1 S2 fuel ltac:(lia)) as [bs B].
    destruct (sppf_total sg input mn ord O Ne (wf_reps _ S1) fuel bs B) as [st ->]. destruct (p_aborted st); discriminate.
  - exists F. intros fuel Le. unfold parse_forest_u. rewrite (compile_u_mono g n ms F) by (try lia; congruence). rewrite C. discriminate.
  - exists F. intros fuel Le. unfold parse_forest_u. rewrite (compile_u_mono g n ms F) by (try lia; congruence). rewrite C. discriminate.
Qed.
Lemma bsr_u_budget ord fuel input g n ms mn sg set : (0 < mn)%Z -> parse_bsr_u ord fuel input g n ms mn = BSR_ok sg set -> (Z.of_nat (length set) <= mn)%Z.
Proof.
  intros M E. unfold parse_bsr_u in E. destruct (compile_slots_u g n ms fuel) as [sg'| | |]; try discriminate.
  destruct (b_parse sg' input mn (fun t _ l => ord t l) fuel) as [st|] eqn:B; [|discriminate]. destruct (b_aborted st) eqn:A; [discriminate|]. injection E as -> <-.
  eapply bsr_budget; eauto.
Qed.
Lemma forest_u_budget ord fuel input g n ms mn f : (0 < mn)%Z -> parse_forest_u ord fuel input g n ms mn = PF_ok f ->
  (Z.of_nat (length (f_nodes f)) <= mn)%Z /\ f_built f = length (f_nodes f).
Proof.
  intros M E. unfold parse_forest_u in E. destruct (compile_slots_u g n ms fuel) as [sg| | |]; try discriminate.
  destruct (p_parse sg input mn ord fuel) as [st|] eqn:B; [|discriminate]. destruct (p_aborted st) eqn:A; [discriminate|]. injection E as <-. cbn [f_nodes f_built].
  destruct (sppf_budget sg input mn ord fuel st M B) as [H|H]; [congruence|]. auto.
Qed.
Lemma compile_u_budget g n max fuel sg : (0 < max)%Z -> compile_slots_u g n max fuel = CS_ok sg -> (Z.of_nat (length (sg_nts sg)) <= max)%Z.
Proof.
  intros M. unfold compile_slots_u. destruct (get_rule_u n g) as [r|]; [|discriminate]. destruct fuel as [|f]; [discriminate|].
  destruct (reserve ("rule:" ++ lower n)%string ls_init) as [[id ex] s1]. destruct (budget_exceeded max s1) as [o s2] eqn:Eb. apply budget_okb in Eb. destruct o; [discriminate|].
  destruct (lower_alts max (lower_rule g max f) (rule_alt r) s2) as [[al s3]|] eqn:E; [|discriminate].
  assert (O : okb max s3).
  { eapply alts_okb; [|exact Eb|exact E]. apply Forall_forall. intros c _. apply Forall_forall. intros x _. apply lower_okb. apply lower_rule_okb. }
  apply (set_okb max id (mkNT true (rule_name r) al false 0 0)) in O. destruct (ls_over (set_nt _ _ s3)) eqn:V; [discriminate|]. intros E1. injection E1 as <-. cbn [sg_nts].
  apply Z.lt_le_incl. exact (O M V).
Qed.
