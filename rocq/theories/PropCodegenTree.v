(** C61: the queries of the Result of an emitted parser. *)
(** The definitions here are those of statements, proofs and examples; they model no code. *)
From Coq Require Import ZArith Arith String Bool List Permutation Lia.
From Verif Require Import Syntax Spec Check Utf8 Num Term Printer Slots Gll Bsr BsrProof BsrTerm LowerProof LowerLang LowerBudget Occ PropGll
  Codegen CodegenStmt CodegenProof CodegenGlue BsrTree BsrTreeSim BsrOrder PropCodegen PropBsrTree PropOrder Apart.
Import ListNotations.
Local Open Scope string_scope.
Local Open Scope list_scope.
Local Open Scope Z_scope.

Lemma plain_name g root sg idx X nt : represents g root sg idx -> nth_error (sg_nts sg) X = Some nt -> nt_isrule nt = false -> nt_rulename nt = "".
Proof.
  intros R N Ru. destruct (rp_item _ _ _ _ R X nt N) as (it & _ & _ & M). destruct it as [m|a|a|[mn mx e]]; cbn [nt_matches] in M.
  - destruct (get_rule m g) as [r|]; [|subst; reflexivity]. destruct M as [(_ & X0 & _) _]. congruence.
  - destruct M as [(_ & _ & X0) _]. exact X0.
  - destruct M as [(_ & _ & X0) _]. exact X0.
  - destruct M as [(_ & _ & ->)|(_ & es & _ & ->)]; reflexivity.
Qed.

Section Same.
  Variable g : grammar. Variable root : string. Variable sg : slot_grammar. Variable idx : index.
  Hypothesis Rp : represents g root sg idx.
  Variable ids : list (list nat). Variable slots : list sinfo. Variable pg : program.
  Hypothesis As : assign_slots sg = (ids, slots).
  Hypothesis Em : emit sg = Some pg.
  Variable set : list belem.
  Hypothesis V : Forall (fun e => vslot sg (be_slot e)) set.

  Definition coded (s : slot) (c : nat) : Prop := vslot sg s /\ c = code ids s.
  Lemma coded_eq a a' b b' : coded a a' -> coded b b' -> (a = b <-> a' = b').
  Proof. intros [Va ->] [Vb ->]. split; [congruence|]. apply (code_inj sg ids slots As); auto. Qed.
  Lemma coded_prod a a' : coded a a' -> bf_prod_dot sg a = gr_prod_dot pg a'.
  Proof.
    intros [(p & P & D) ->]. destruct (emit_ok _ _ _ _ As Em) as (Inf & _ & _ & _ & _ & _ & Qn & _).
    unfold bf_prod_dot, gr_prod_dot. rewrite P, Inf, (code_info sg ids slots As a p P D). cbn [si_nt si_alt si_dot].
    apply prod_inv in P as (nt & N & A). rewrite Qn. unfold emit_qnts. rewrite (map_nth_error _ _ _ N). cbn [q_alts]. rewrite (map_nth_error _ _ _ A). reflexivity.
  Qed.
  Lemma coded_before a a' p d : coded a a' -> bf_prod_dot sg a = Some (p, S d) -> coded (bf_before a) (pred a').
  Proof.
    intros [(q & P & D) ->] E. unfold bf_prod_dot in E. rewrite P in E. injection E as _ E. split.
    - exists q. split; [exact P|]. unfold bf_before. cbn [s_dot]. lia.
    - destruct (start_ok sg ids slots As a q P) as (b & B & _). unfold code, bf_before. cbn [s_nt s_alt s_dot]. rewrite B. lia.
  Qed.
  Lemma coded_complete x : orel (Forall2 coded) (bf_complete sg x) (gr_complete pg x).
  Proof.
    destruct (emit_ok _ _ _ _ As Em) as (_ & _ & _ & _ & Co & _). unfold bf_complete, gr_complete.
    destruct (nth_error (sg_nts sg) x) as [nt|] eqn:N.
    - assert (Lt : (x < length (sg_nts sg))%nat) by (apply nth_error_Some; congruence).
      destruct (collect_nth _ _ _ x x Co) as (l & Nl & Cl).
      { rewrite (nth_error_nth' _ 0%nat) by (rewrite seq_length; exact Lt). rewrite seq_nth by exact Lt. reflexivity. }
      rewrite Nl. rewrite N in Cl. cbn [orel].
      assert (H : forall alts k l, (forall a p, nth_error alts a = Some p -> nth_error (nt_alts nt) (k + a) = Some p) ->
        collect (comp_id sg ids x) (seq k (length alts)) = Some l ->
        Forall2 coded (map (fun ap => mkSlot x (fst ap) (length (snd ap))) (combine (seq k (length alts)) alts)) l).
      { induction alts as [|p alts IH]; intros k l0 Ha C; cbn [length seq collect combine map] in *; [injection C as <-; constructor|].
        pose proof (Ha 0%nat p eq_refl) as A0. rewrite Nat.add_0_r in A0. rewrite (comp_id_eq sg ids slots As x nt k p N A0) in C.
        destruct (collect (comp_id sg ids x) (seq (S k) (length alts))) as [l'|] eqn:C'; [|discriminate]. injection C as <-. constructor.
        - split; [|reflexivity]. exists p. unfold prod_of. cbn [fst snd s_nt s_alt s_dot]. rewrite N, A0. auto.
        - apply IH; auto. intros a q Nq. replace (S k + a)%nat with (k + S a)%nat by lia. apply Ha; auto. }
      apply (H (nt_alts nt) 0%nat l); auto.
    - apply nth_error_None in N. assert (E : nth_error (pg_complete pg) x = None); [|rewrite E; exact Logic.I].
      apply nth_error_None. apply collect_length in Co. rewrite seq_length in Co. lia.
  Qed.
  Lemma coded_rule x : bf_is_rule sg x = gr_is_rule pg x.
  Proof.
    destruct (emit_ok _ _ _ _ As Em) as (_ & _ & _ & _ & _ & _ & Qn & _). unfold bf_is_rule, gr_is_rule. rewrite Qn. unfold emit_qnts.
    rewrite nth_error_map. destruct (nth_error (sg_nts sg) x); reflexivity.
  Qed.
  Lemma coded_name x : bf_rule_name sg x = gr_rule_name pg x.
  Proof.
    destruct (emit_ok _ _ _ _ As Em) as (_ & _ & _ & _ & _ & _ & Qn & _). unfold bf_rule_name, gr_rule_name. rewrite Qn. unfold emit_qnts.
    rewrite nth_error_map. destruct (nth_error (sg_nts sg) x) as [nt|] eqn:N; [|reflexivity]. cbn [option_map q_name]. f_equal.
    destruct (nt_isrule nt) eqn:Ru; [reflexivity|]. symmetry. eapply plain_name; eauto.
  Qed.
  Lemma coded_pivots a a' l r : coded a a' -> bf_pivots set a l r = gr_pivots (map (ee ids) set) a' l r.
  Proof.
    intros [Va ->]. unfold bf_pivots, gr_pivots. induction V as [|e s Ve Vs IH]; cbn [map filter]; [reflexivity|].
    assert (E : ((if slot_eq_dec (be_slot e) a then true else false) && Nat.eqb (be_l e) l && Nat.eqb (be_r e) r)%bool =
      ((ge_sl (ee ids e) =? Z.of_nat (code ids a)) && (ge_l (ee ids e) =? Z.of_nat l) && (ge_r (ee ids e) =? Z.of_nat r))%bool).
    { unfold ee. cbn [ge_sl ge_l ge_r]. f_equal; [f_equal|].
      - destruct (slot_eq_dec (be_slot e) a) as [->|N]; [symmetry; apply Z.eqb_refl|].
        symmetry. apply Z.eqb_neq. intros X. apply N. apply (code_inj sg ids slots As); auto. unfold cz in X. lia.
      - destruct (Nat.eqb_spec (be_l e) l), (Z.eqb_spec (Z.of_nat (be_l e)) (Z.of_nat l)); lia.
      - destruct (Nat.eqb_spec (be_r e) r), (Z.eqb_spec (Z.of_nat (be_r e)) (Z.of_nat r)); lia. }
    rewrite <- E. destruct (_ && _ && _)%bool; [|apply IH; auto; inversion V; auto]. cbn [map]. rewrite <- IH by (inversion V; auto). f_equal. unfold ee. cbn [ge_k]. rewrite Nat2Z.id. reflexivity.
  Qed.
  Lemma start_same : pg_start pg = sg_start sg.
  Proof. destruct (emit_ok _ _ _ _ As Em) as (_ & _ & _ & _ & _ & St & _). exact St. Qed.

  Lemma same_num n qf : bf_num_trees sg set n qf = gr_num_trees pg (map (ee ids) set) n qf.
  Proof.
    unfold bf_num_trees, gr_num_trees. rewrite start_same. apply num_trees_same with (R := coded); auto using coded_eq, coded_prod, coded_complete, coded_pivots.
    intros; eapply coded_before; eauto.
  Qed.
  Lemma same_amb n qf : bf_ambiguous sg set n qf = gr_ambiguous pg (map (ee ids) set) n qf.
  Proof.
    unfold bf_ambiguous, gr_ambiguous. rewrite start_same. apply ambiguous_same with (R := coded); auto using coded_eq, coded_prod, coded_complete, coded_pivots.
    intros; eapply coded_before; eauto.
  Qed.
  Lemma same_tree n qf : bf_tree sg set n qf = gr_tree pg (map (ee ids) set) n qf.
  Proof.
    unfold bf_tree, gr_tree. rewrite start_same. apply tree_same with (R := coded); auto using coded_eq, coded_prod, coded_complete, coded_pivots, coded_rule, coded_name.
    intros; eapply coded_before; eauto.
  Qed.
End Same.

Lemma perm_map_inv {A B} (f : A -> B) l m : Permutation (map f l) m -> exists l', Permutation l l' /\ m = map f l'.
Proof. intros P. apply Permutation_sym, Permutation_map_inv in P as (l' & -> & P). exists l'. auto. Qed.

Lemma b_run_mono sg input mx ord : forall f f' st st', b_run sg input mx ord f st = Some st' -> (f <= f')%nat -> b_run sg input mx ord f' st = Some st'.
Proof.
  induction f as [|f IH]; intros f' st st' E Le; (destruct f' as [|f']; [try lia; exact E|]); cbn [b_run] in *;
    destruct (b_work st) as [|d w]; auto; destruct (b_aborted st); auto; [discriminate|]. apply IH; auto. lia.
Qed.
Lemma bsr_answers ord fuel input g root ms mn sg set s qf : any_order ord -> parse_bsr ord fuel input g root ms mn = BSR_ok sg set ->
  Permutation set s -> (length set < qf)%nat ->
  exists v b, bf_num_trees sg s (length input) qf = QVal v /\ bf_ambiguous sg s (length input) qf = QVal b.
Proof.
  intros O E P Q. destruct (iworld_some _ _ _ _ _ _ _ _ _ _ O E P) as (nodes & H). assert (Q1 : (length s < qf)%nat) by (rewrite <- (Permutation_length P); auto).
  destruct (bsr_valid sg (length input) s) eqn:V.
  - destruct (count_runs _ _ _ _ H V _ Q1) as (v & st & _ & ->). destruct (amb_runs _ _ _ _ H V _ Q1) as (b & st' & _ & ->). eauto.
  - unfold bf_num_trees, bf_ambiguous, q_num_trees, q_ambiguous. rewrite (w_valid _ _ _ _ H), V. cbn [qbind]. eauto.
Qed.

(** ** C61 *)
(** On a Result that does not come from an exhausted budget (see C43), NumTrees and Ambiguous
    answer what they answer on the forest ParseBSR returns for the same grammar and
    input, whatever orders the two parses and the two queries range over their maps in.
    Tree returns a tree that BSRForest returns in some order, and the same tree when the
    input is not ambiguous.  [gs] and [s] are the elements in the orders buildIndex ranges over
    them; [qf] and [tf] bound the depth of the recursion.  Missing for the full statement:
    a Result whose elements fill the budget; see [C61_refuted]. *)
Theorem C61_same_answers_partial : forall gord ord g root fuel pg input mx ms mx' f f' gset sg set gs s qf,
  wf_grammar g -> rune_values g -> any_order gord -> any_order ord ->
  generate_go_parser fuel g root = Gen_ok pg ->
  g_parse input mx gord pg f = GP_ok gset -> (mx <= 0 \/ Z.of_nat (length gset) < mx) ->
  parse_bsr ord f' input g root ms mx' = BSR_ok sg set ->
  Permutation gset gs -> Permutation set s -> (length set < qf)%nat ->
  exists v b,
    gr_num_trees pg gs (length input) qf = QVal v /\ bf_num_trees sg s (length input) qf = QVal v /\
    gr_ambiguous pg gs (length input) qf = QVal b /\ bf_ambiguous sg s (length input) qf = QVal b /\
    (exists s', Permutation set s' /\ forall tf, gr_tree pg gs (length input) tf = bf_tree sg s' (length input) tf) /\
    (b = false -> forall tf, gr_tree pg gs (length input) tf = bf_tree sg s (length input) tf).
Proof.
  intros gord ord g root fuel pg input mx ms mx' f f' gset sg set gs s qf W Rv O Oo G P Bd E Pg Ps Q.
  destruct (gen_inv _ _ _ _ G) as (sg0 & C & Em).
  destruct (run_same fuel g root pg sg0 input mx gord W Rv O C Em) as (ids & slots & As & Ok & Run). specialize (Run f).
  destruct (b_parse sg0 input mx (fun t _ l => nat_order gord t l) f) as [st|] eqn:B; [|congruence]. destruct Run as (V & P' & A). rewrite P in P'.
  destruct (b_work st); [|discriminate]. injection P' as ->. rewrite map_length in Bd.
  assert (Ab : b_aborted st = false).
  { destruct (b_aborted st) eqn:Ab; auto. destruct (bsr_abandons _ _ _ _ _ _ B Ab). lia. }
  (* the same run of ParseBSR, given enough fuel for the lowering *)
  apply bsr_free in E. pose proof (parse_bsr_ok _ _ _ _ _ _ _ _ _ E) as (C' & _). pose proof (compile_free _ _ _ _ _ C) as C0.
  assert (Eq : sg0 = sg).
  { destruct (Nat.le_ge_cases fuel f') as [Le|Le].
    - pose proof (compile_mono g root 0 fuel f' Le ltac:(congruence)). congruence.
    - pose proof (compile_mono g root 0 f' fuel Le ltac:(congruence)). congruence. }
  subst sg0. destruct (compile_ok_represents _ _ _ _ _ C) as [idx R].
  assert (E0 : parse_bsr (nat_order gord) (Nat.max fuel f) input g root 0 mx = BSR_ok sg (b_set st)).
  { apply (bsr_free _ _ _ _ _ default_max_slots). unfold parse_bsr. rewrite (compile_mono g root default_max_slots fuel) by (try lia; congruence). rewrite C.
    unfold b_parse in *. rewrite (b_run_mono _ _ _ _ f (Nat.max fuel f) _ st B) by lia. rewrite Ab. reflexivity. }
  destruct (perm_map_inv _ _ _ Pg) as (s0 & P0 & ->).
  assert (V0 : Forall (fun e => vslot sg (be_slot e)) s0).
  { apply Forall_forall. intros e I. pose proof (v_set _ _ _ V) as Vs. rewrite Forall_forall in Vs. apply Vs. eapply Permutation_in; [apply Permutation_sym; exact P0|exact I]. }
  pose proof (nat_order_any gord O) as On.
  destruct (bsr_same_set _ _ _ _ _ _ _ _ _ _ _ _ _ _ Oo On E E0) as [_ Pss].
  assert (Q0 : (length (b_set st) < qf)%nat) by (rewrite <- (Permutation_length Pss); auto).
  destruct (C62_bsr_order _ _ _ _ _ _ _ _ _ _ _ _ _ _ _ _ _ _ _ On Oo E0 E P0 Ps Q0 Q0) as (_ & _ & _ & En & Ea).
  destruct (bsr_answers _ _ _ _ _ _ _ _ _ _ _ Oo E Ps Q) as (v & b & Nv & Nb).
  exists v, b. rewrite <- (same_num sg ids slots pg As Em s0 V0), <- (same_amb sg ids slots pg As Em s0 V0), En, Ea.
  split; auto. split; auto. split; auto. split; auto. split.
  - exists s0. split; [eapply Permutation_trans; eauto|]. intros tf. symmetry. apply (same_tree g root sg idx R ids slots pg As Em s0 V0).
  - intros -> tf. rewrite <- (same_tree g root sg idx R ids slots pg As Em s0 V0).
    eapply C62_bsr_tree; [exact On|exact Oo|exact E0|exact E|exact P0|exact Ps|exact Q0|]. rewrite Ea. exact Nb.
Qed.

(** [a = *b   b = "x" / "xx"] on "xxx": three trees; the two parses list their elements in different
    orders, and the trees the two files build differ. *)
Example C61_case : wf_grammar g_pairs /\ rune_values g_pairs /\ exists pg gset sg set, generate_go_parser 400 g_pairs "a" = Gen_ok pg /\
  g_parse (bytes "xxx") 60 (fun _ l => rev l) pg 400 = GP_ok gset /\ Z.of_nat (length gset) < 60 /\
  parse_bsr (fun _ l => l) 400 (bytes "xxx") g_pairs "a" default_max_slots 0 = BSR_ok sg set /\ (length set < 400)%nat /\
  gr_num_trees pg gset 3 400 = QVal 3 /\ gr_ambiguous pg gset 3 400 = QVal true /\
  gr_tree pg gset 3 400 = QVal (Some (PT "a" 0 3 [PT "b" 0 1 [PT "" 0 1 []]; PT "b" 1 2 [PT "" 1 2 []]; PT "b" 2 3 [PT "" 2 3 []]])) /\
  gr_tree pg (rev gset) 3 400 = QVal (Some (PT "a" 0 3 [PT "b" 0 2 [PT "" 0 2 []]; PT "b" 2 3 [PT "" 2 3 []]])).
Proof.
  split; [gwf|]. split; [grunes|]. eexists _, _, _, _. split; [vm_compute; reflexivity|]. split; [vm_compute; reflexivity|]. split; [vm_compute; reflexivity|].
  split; [vm_compute; reflexivity|]. split; [vm_compute; lia|]. split; [vm_compute; reflexivity|]. split; [vm_compute; reflexivity|]. split; vm_compute; reflexivity.
Qed.
(** Not ambiguous. *)
Example C61_one_case : wf_grammar g_code /\ rune_values g_code /\ let input := bytes "X!x7" ++ [195; 169; 33; 34; 195; 160] in
  exists pg gset sg set t, generate_go_parser 200 g_code "a" = Gen_ok pg /\
  g_parse input 0 (fun _ l => rev l) pg 400 = GP_ok gset /\
  parse_bsr (fun _ l => l) 400 input g_code "a" default_max_slots 0 = BSR_ok sg set /\
  gr_num_trees pg gset (length input) 400 = QVal 1 /\ gr_ambiguous pg gset (length input) 400 = QVal false /\ gr_tree pg gset (length input) 400 = QVal (Some t) /\
  bf_tree sg set (length input) 400 = QVal (Some t).
Proof.
  split; [gwf|]. split; [grunes|]. cbv zeta. eexists _, _, _, _, _. split; [vm_compute; reflexivity|]. split; [vm_compute; reflexivity|].
  split; [vm_compute; reflexivity|]. split; [vm_compute; reflexivity|]. split; [vm_compute; reflexivity|]. split; vm_compute; reflexivity.
Qed.

(** With a budget of one element on [a = "x" "y" "z"] the emitted parser returns a Result
    without trees; BSRForest counts one tree. *)
Theorem C61_refuted : exists gord g root fuel pg input mx gset sg set, wf_grammar g /\ lex_grammar g = true /\ told_apart g /\ rune_values g /\ any_order gord /\
  generate_go_parser fuel g root = Gen_ok pg /\ g_parse input mx gord pg fuel = GP_ok gset /\
  parse_bsr (fun _ l => l) fuel input g root default_max_slots 0 = BSR_ok sg set /\ (length set < fuel)%nat /\
  gr_num_trees pg gset (length input) fuel = QVal 0 /\ bf_num_trees sg set (length input) fuel = QVal 1 /\
  gr_tree pg gset (length input) fuel = QVal None /\ bf_tree sg set (length input) fuel <> QVal None.
Proof.
  exists (fun _ l => l), g_xyz, "a", 100%nat. eexists. exists [120; 121; 122], 1. eexists. eexists. eexists. split; [gwf|]. split; [vm_compute; reflexivity|].
  split; [apply told_apartb_spec; vm_compute; reflexivity|]. split; [grunes|]. split; [exact id_order|].
  split; [vm_compute; reflexivity|]. split; [vm_compute; reflexivity|]. split; [vm_compute; reflexivity|]. split; [vm_compute; lia|].
  split; [vm_compute; reflexivity|]. split; [vm_compute; reflexivity|]. split; [vm_compute; reflexivity|]. vm_compute. discriminate.
Qed.

Print Assumptions C61_same_answers_partial.
Print Assumptions C61_refuted.
