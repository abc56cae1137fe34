(** Claims C58, C59, C60: NumTrees, Ambiguous and Tree of a BSRForest (bsr.go:255-555). *)
(** The definitions here without a citation are those of statements, proofs and examples; they model no code. *)
From Coq Require Import ZArith Arith String Bool List Permutation Lia.
From Verif Require Import Syntax Spec Utf8 Num Term Printer Slots PropTerm Gll GllUniv Bsr BsrProof LowerProof LowerLang
  PrintInj Check Sppf SppfProof TreeSpec Tree PropGll ForestUnique TreeCount Codegen BsrTree BsrCount BsrTable BsrTreeProof Apart.
From Verif Require TreeProof TreeSound TreeLang PropTree CodegenGlue.
Import ListNotations.
Local Open Scope string_scope.
Local Open Scope list_scope.
Local Open Scope Z_scope.

(** The nodes of a set: an unfolding of a node picks one of its elements and unfolds the
    nodes of the element. *)
Definition bsr_unf (sg : slot_grammar) (set : list belem) : qid slot -> ub slot -> Prop :=
  unf slot (bf_prod_dot sg) bf_before (bf_complete sg) (bf_pivots set).
Definition bsr_reach (sg : slot_grammar) (set : list belem) : qid slot -> qid slot -> Prop :=
  reach slot (bf_prod_dot sg) bf_before (bf_complete sg) (bf_pivots set).
Definition bsr_below (sg : slot_grammar) (set : list belem) : qid slot -> qid slot -> Prop :=
  below slot (bf_prod_dot sg) bf_before (bf_complete sg) (bf_pivots set).

(** *** Valid *)
Lemma existsb_filter {A} (f : A -> bool) l : existsb f l = negb (Nat.eqb (length (filter f l)) 0).
Proof. induction l as [|x l IH]; cbn; auto. destruct (f x); cbn; auto. Qed.
Lemma q_valid_eq sg set n nt : nth_error (sg_nts sg) (sg_start sg) = Some nt ->
  q_valid (bf_complete sg) (bf_pivots set) (sg_start sg) n = QVal (bsr_valid sg n set).
Proof.
  intros N. unfold q_valid, bsr_valid, bf_complete. rewrite N. cbn [of_opt qbind]. f_equal.
  induction (combine _ _) as [|ap l IH]; cbn [map existsb]; auto. rewrite IH. f_equal. unfold bf_pivots. rewrite map_length. symmetry. apply existsb_filter.
Qed.
Lemma valid_perm sg n set set' : Permutation set set' -> bsr_valid sg n set = bsr_valid sg n set'.
Proof.
  intros P. unfold bsr_valid. destruct (nth_error _ _); auto. assert (E : forall f : belem -> bool, existsb f set = existsb f set').
  { intros f. induction P as [|x l l' P IH|x y l|l l' l'' P1 IH1 P2 IH2]; cbn; auto; [rewrite IH; auto| |congruence]. destruct (f x), (f y); auto. }
  induction (combine _ _) as [|ap l IH]; cbn [existsb]; auto. rewrite IH, E. auto.
Qed.

(** *** What is known of the set of a parse *)
Record iworld (input : list Z) (sg : slot_grammar) (set : list belem) (nodes : ntable) : Prop := {
  w_tbl : tbl sg nodes set;
  w_ok : forall e, In e set -> ok_elem sg input e;
  w_nd : NoDup set;
  w_shape : TreeProof.pack_shape nodes;
  w_term : TreeProof.term_packs nodes;
  w_full : TreeProof.full nodes;
  w_closed : TreeProof.closed nodes;
  w_first : first_earlier nodes;
  w_valid : q_valid (bf_complete sg) (bf_pivots set) (sg_start sg) (length input) = QVal (bsr_valid sg (length input) set);
  w_known : bsr_valid sg (length input) set = true <-> U nodes (QS (sg_start sg) 0 (length input)) }.
Record world (g : grammar) (root : string) (input : list Z) (sg : slot_grammar) (set : list belem) (nodes : ntable) : Prop := {
  w_i : iworld input sg set nodes;
  w_names : forall X nt, nth_error (sg_nts sg) X = Some nt -> nt_isrule nt = true -> nt_rulename nt <> "";
  w_sound : forall ts, TreeProof.ft sg nodes (NSym (sg_start sg) 0 (length input)) ts -> exists r,
    rule_of sg (NSym (sg_start sg) 0 (length input)) = Some (rule_name r) /\ get_rule root g = Some r /\
    LooseDerivation g root input (PT (rule_name r) 0 (length input) ts);
  w_complete : forall t, Derivation g root input t -> exists r ts,
    t = PT (rule_name r) 0 (length input) ts /\ get_rule root g = Some r /\
    TreeProof.ft sg nodes (NSym (sg_start sg) 0 (length input)) ts;
  w_one : undivided g input -> forall e e', In e set -> In e' set -> ekey sg e = ekey sg e' -> e = e';
  w_lang : bsr_valid sg (length input) set = true <-> Lang g root input }.

Lemma set_perm g root input sg set set' f : Permutation set set' -> set_facts g root input sg set f ->
  tbl sg (f_nodes f) set' /\ (forall e, In e set' -> ok_elem sg input e) /\ NoDup set'.
Proof.
  intros P [S1 S2 S3 S4 S5]. assert (Is : forall e, In e set' <-> In e set) by (intros e; split; apply Permutation_in; auto; apply Permutation_sym; auto).
  split; [|split].
  - destruct S2 as [t1 t2 t3 t4 t5 t6 t7]. constructor; auto.
    + intros e I. apply t1, Is, I.
    + intros k ps pk A B. destruct (t2 k ps pk A B) as (e & I & X). exists e. split; auto. apply Is; auto.
    + intros e I. apply t6, Is, I.
  - intros e I. apply S3, Is, I.
  - eapply Permutation_NoDup; eauto.
Qed.
Lemma iworld_ok ord fuel input g root ms mn sg set set' f : any_order ord ->
  parse_bsr ord fuel input g root ms mn = BSR_ok sg set -> Permutation set set' ->
  parse_forest (node_order ord) fuel input g root ms 0 = PF_ok f -> set_facts g root input sg set f -> iworld input sg set' (f_nodes f).
Proof.
  intros O E P Ef SF. destruct (set_perm _ _ _ _ _ _ _ P SF) as (T & OK & ND). destruct SF as [S1 S2 S3 S4 S5]. subst sg.
  pose proof (forest_core_ok _ _ _ _ _ _ _ _ (node_order_any ord O) Ef) as [PS TP FU CL FE _ Rt Kn].
  pose proof (parse_bsr_ok _ _ _ _ _ _ _ _ _ E) as (C & _). destruct (compile_ok_represents _ _ _ _ _ C) as [idx R].
  constructor; auto.
  - assert (Lt : (sg_start (f_sg f) < length (sg_nts (f_sg f)))%nat) by (eapply rp_lt; [exact R|apply (rp_start _ _ _ _ R)]).
    apply nth_error_Some in Lt. destruct (nth_error (sg_nts (f_sg f)) (sg_start (f_sg f))) as [nt|] eqn:N; [|congruence]. eapply q_valid_eq; eauto.
  - rewrite <- (valid_perm _ _ _ _ P), <- S5. exact Kn.
Qed.
Lemma iworld_some ord fuel input g root ms mn sg set set' : any_order ord ->
  parse_bsr ord fuel input g root ms mn = BSR_ok sg set -> Permutation set set' -> exists nodes, iworld input sg set' nodes.
Proof. intros O E P. destruct (bsr_forest _ _ _ _ _ _ _ _ _ O E) as (f & Ef & SF). exists (f_nodes f). eapply iworld_ok; eauto. Qed.
Lemma world_ok ord fuel input g root ms mn sg set set' : any_order ord -> wf_grammar g -> lex_grammar g = true -> told_apart g ->
  parse_bsr ord fuel input g root ms mn = BSR_ok sg set -> Permutation set set' -> exists nodes, world g root input sg set' nodes.
Proof.
  intros O W L F E P. destruct (bsr_forest _ _ _ _ _ _ _ _ _ O E) as (f & Ef & SF). pose proof (iworld_ok _ _ _ _ _ _ _ _ _ _ _ O E P Ef SF) as IW.
  destruct SF as [S1 S2 S3 S4 S5]. subst sg.
  pose proof (forest_facts_ok _ _ _ _ _ _ _ _ (node_order_any ord O) W L F Ef) as [PS TP FU CL FE ND On So Co Rt Kn].
  pose proof (C06_bsr_valid_exact_partial _ _ _ _ _ _ _ _ _ O W L F E) as La.
  pose proof (parse_bsr_ok _ _ _ _ _ _ _ _ _ E) as (C & _). destruct (compile_ok_represents _ _ _ _ _ C) as [idx R].
  assert (Is : forall e, In e set' <-> In e set) by (intros e; split; apply Permutation_in; auto; apply Permutation_sym; auto).
  exists (f_nodes f). constructor; auto.
  - intros X nt N Ru. destruct (rp_item _ _ _ _ R X nt N) as (it & Oc & A & M). destruct it as [m|a|a|[mn' mx el]]; cbn [nt_matches] in M.
    + destruct (get_rule m g) as [r|] eqn:G; [|subst; discriminate]. destruct M as [(_ & _ & ->) _]. apply (PropTree.lex_names g L). eapply CodegenGlue.get_rule_listed; eauto.
    + destruct M as [(_ & X0 & _) _]. congruence.
    + destruct M as [(_ & X0 & _) _]. congruence.
    + destruct M as [(_ & _ & ->)|(_ & es & _ & ->)]; discriminate.
  - intros Un e e' I I'. apply Is in I. apply Is in I'. revert I I'.
    eapply (elems_one g root _ idx input W (print_inj_lex g L F) R _ _ S2 S3 Un); eauto. eapply compile_unit_free; eauto.
  - rewrite <- (valid_perm _ _ _ _ P). exact La.
Qed.

Section Facts.
  Variable input : list Z. Variable sg : slot_grammar. Variable set : list belem. Variable nodes : ntable.
  Hypothesis H : iworld input sg set nodes.
  Notation n := (length input).
  Notation rt := (QS (K := slot) (sg_start sg) 0 n).
  Hypothesis V : bsr_valid sg n set = true.
  Variable fuel : nat.
  Hypothesis Fu : (length set < fuel)%nat.
  Notation pd := (bf_prod_dot sg).
  Notation bc := (bf_complete sg).
  Notation pv := (bf_pivots set).

  Lemma rt_U : U nodes rt. Proof. apply (w_known _ _ _ _ H), V. Qed.
  Let Ue := elems_ok sg nodes set (w_tbl _ _ _ _ H).
  Let Un := el_nodup sg nodes set (w_nd _ _ _ _ H).
  Let Up := U_parts_ok sg input nodes set (w_tbl _ _ _ _ H) (w_ok _ _ _ _ H).
  Let Uk := U_kids_ok sg input nodes set (w_tbl _ _ _ _ H) (w_ok _ _ _ _ H).
  Let Ub := bound_ok sg nodes set (w_tbl _ _ _ _ H).
  Let Uu := U_unf_ok sg input nodes set (w_tbl _ _ _ _ H) (w_ok _ _ _ _ H) (w_term _ _ _ _ H) (w_shape _ _ _ _ H) (w_full _ _ _ _ H) (w_closed _ _ _ _ H) (w_first _ _ _ _ H).

  Lemma count_runs : exists v st, q_count slot_eq_dec pd bf_before bc pv fuel rt [] ([], false) = QVal (v, st) /\ bf_num_trees sg set n fuel = QVal (if snd st then -1 else v).
  Proof.
    destruct (count_total slot slot_eq_dec pd bf_before bc pv (U nodes) _ Ub Ue Up Uk fuel rt [] ([], false) rt_U) as (v & st & C); [split; constructor|cbn [length]; lia|].
    exists v, st. split; auto. unfold bf_num_trees, q_num_trees. rewrite (w_valid _ _ _ _ H), V. cbn [qbind]. rewrite C. reflexivity.
  Qed.
  Lemma amb_runs : exists b s, q_amb slot_eq_dec pd bf_before bc pv fuel rt [] = QVal (b, s) /\ bf_ambiguous sg set n fuel = QVal b.
  Proof.
    destruct (amb_total slot slot_eq_dec pd bf_before bc pv (U nodes) _ Ub Ue Up Uk fuel rt [] rt_U) as (b & s & C & _); [split; constructor|cbn [length]; lia|].
    exists b, s. split; auto. unfold bf_ambiguous, q_ambiguous. rewrite (w_valid _ _ _ _ H), V. cbn [qbind]. rewrite C. reflexivity.
  Qed.
  Lemma num_exact v : bf_num_trees sg set n fuel = QVal v -> v <> -1 -> cnt slot pd bf_before bc pv rt v.
  Proof.
    intros E N. destruct count_runs as (v' & [m inf] & C & E'). rewrite E in E'. injection E' as ->. cbn [snd] in *. destruct inf; [congruence|].
    destruct (count_exact slot slot_eq_dec pd bf_before bc pv (U nodes) Ue Un Uk fuel rt [] ([], false) v' (m, false) rt_U C) as [_ X].
    apply X; auto. intros k w Q. discriminate.
  Qed.
  Lemma num_cycle : bf_num_trees sg set n fuel = QVal (-1) <-> exists x, bsr_reach sg set rt x /\ bsr_below sg set x x.
  Proof.
    destruct count_runs as (v & [m inf] & C & E). cbn [snd] in *. destruct inf.
    - split; auto. intros _. eapply (count_cycle slot slot_eq_dec pd bf_before bc pv (U nodes) Ue Uk fuel rt [] ([], false)); eauto using rt_U. intros x [].
    - destruct (count_exact slot slot_eq_dec pd bf_before bc pv (U nodes) Ue Un Uk fuel rt [] ([], false) v (m, false) rt_U C) as [_ X].
      destruct (X eq_refl) as [_ Cn]; [intros k w Q; discriminate|]. cbn [snd] in E. split.
      + intros E'. exfalso. rewrite E in E'. injection E' as ->. destruct Cn as (_ & l & _ & Z0 & _). lia.
      + intros (x & R & B). exfalso. destruct Cn as (A & _). exact (acc_no_cycle slot pd bf_before bc pv rt A x R B).
  Qed.
  Lemma amb_single : bf_ambiguous sg set n fuel = QVal false -> forall x, reach slot pd bf_before bc pv rt x -> (length (el slot bc pv x) <= 1)%nat.
  Proof.
    intros E. destruct amb_runs as (b & s & C & E'). rewrite E in E'. injection E' as <-.
    eapply (amb_false_single slot slot_eq_dec pd bf_before bc pv (U nodes) Ue Uk fuel); eauto using rt_U.
  Qed.
  Lemma single_amb : (forall x, reach slot pd bf_before bc pv rt x -> (length (el slot bc pv x) <= 1)%nat) -> bf_ambiguous sg set n fuel = QVal false.
  Proof.
    intros One. destruct amb_runs as (b & s & C & E). destruct b; auto. exfalso.
    destruct (amb_true slot slot_eq_dec pd bf_before bc pv (U nodes) Ue Uk fuel rt [] s rt_U C) as (x & R & L). specialize (One x R). lia.
  Qed.
  Lemma amb_num : bf_ambiguous sg set n fuel = QVal false <-> bf_num_trees sg set n fuel = QVal 1.
  Proof.
    split.
    - intros E. pose proof (amb_single E) as One.
      pose proof (single_acc sg input nodes set (w_tbl _ _ _ _ H) (w_ok _ _ _ _ H) (w_first _ _ _ _ H) rt rt_U One) as A.
      destruct count_runs as (v & st & C & E'). rewrite E'. destruct (Z.eq_dec (if snd st then -1 else v) (-1)) as [X|X].
      + rewrite X in E'. apply num_cycle in E' as (x & R & B). exfalso. exact (acc_no_cycle slot pd bf_before bc pv rt A x R B).
      + pose proof (num_exact _ E' X) as Cn. f_equal. apply (cnt_one slot pd bf_before bc pv (U nodes) Un Uk Uu rt _ rt_U Cn). exact One.
    - intros E. pose proof (num_exact 1 E ltac:(lia)) as Cn. apply single_amb. apply (cnt_one slot pd bf_before bc pv (U nodes) Un Uk Uu rt 1 rt_U Cn). reflexivity.
  Qed.
  Lemma num_pos v : bf_num_trees sg set n fuel = QVal v -> v <> -1 -> 1 <= v.
  Proof. intros E N. apply (cnt_one slot pd bf_before bc pv (U nodes) Un Uk Uu rt v rt_U (num_exact v E N)). Qed.
  Lemma acc_root : bf_num_trees sg set n fuel <> QVal (-1) -> Acc (step slot pd bf_before bc pv) rt.
  Proof.
    intros N. destruct count_runs as (v & st & _ & E). destruct (Z.eq_dec (if snd st then -1 else v) (-1)) as [X|X]; [congruence|]. apply (num_exact _ E X).
  Qed.
  Lemma shown_one : bf_num_trees sg set n fuel = QVal 1 -> forall ts ts', TreeProof.ft sg nodes (NSym (sg_start sg) 0 n) ts ->
    TreeProof.ft sg nodes (NSym (sg_start sg) 0 n) ts' -> ts = ts'.
  Proof.
    intros E ts ts' F F'. destruct (num_exact 1 E ltac:(lia)) as (_ & l & Nl & Le & Hl).
    destruct (ft_unf sg input nodes set (w_tbl _ _ _ _ H) (w_ok _ _ _ _ H) (w_term _ _ _ _ H) _ _ F rt eq_refl) as (u & X & <-).
    destruct (ft_unf sg input nodes set (w_tbl _ _ _ _ H) (w_ok _ _ _ _ H) (w_term _ _ _ _ H) _ _ F' rt eq_refl) as (u' & X' & <-).
    apply Hl in X. apply Hl in X'. destruct l as [|a [|]]; cbn in Le; try lia. destruct X as [<-|[]], X' as [<-|[]]. reflexivity.
  Qed.
End Facts.
Section Facts2.
  Variable g : grammar. Variable root : string.
  Variable input : list Z. Variable sg : slot_grammar. Variable set : list belem. Variable nodes : ntable.
  Hypothesis H0 : world g root input sg set nodes.
  Let H : iworld input sg set nodes := w_i _ _ _ _ _ _ H0.
  Notation n := (length input).
  Notation rt := (QS (K := slot) (sg_start sg) 0 n).
  Hypothesis V : bsr_valid sg n set = true.
  Variable fuel : nat.
  Hypothesis Fu : (length set < fuel)%nat.
  Notation pd := (bf_prod_dot sg).
  Notation bc := (bf_complete sg).
  Notation pv := (bf_pivots set).

  Let U0 := rt_U input sg set nodes H V.
  Let Ue := elems_ok sg nodes set (w_tbl _ _ _ _ H).
  Let Un := el_nodup sg nodes set (w_nd _ _ _ _ H).
  Let Up := U_parts_ok sg input nodes set (w_tbl _ _ _ _ H) (w_ok _ _ _ _ H).
  Let Uk := U_kids_ok sg input nodes set (w_tbl _ _ _ _ H) (w_ok _ _ _ _ H).
  Let Ub := bound_ok sg nodes set (w_tbl _ _ _ _ H).
  Let Uu := U_unf_ok sg input nodes set (w_tbl _ _ _ _ H) (w_ok _ _ _ _ H) (w_term _ _ _ _ H) (w_shape _ _ _ _ H) (w_full _ _ _ _ H) (w_closed _ _ _ _ H) (w_first _ _ _ _ H).

  Lemma deriv_unf t : Derivation g root input t -> exists u r, bsr_unf sg set rt u /\ get_rule root g = Some r /\ t = PT (rule_name r) 0 n (showb sg u).
  Proof.
    intros D. destruct (w_complete _ _ _ _ _ _ H0 t D) as (r & ts & -> & G & F).
    destruct (ft_unf sg input nodes set (w_tbl _ _ _ _ H) (w_ok _ _ _ _ H) (w_term _ _ _ _ H) _ _ F rt eq_refl) as (u & X & <-). exists u, r. auto.
  Qed.
  Lemma num_bound v : bf_num_trees sg set n fuel = QVal v -> v <> -1 -> forall ts, NoDup ts -> (forall t, In t ts -> Derivation g root input t) -> Z.of_nat (length ts) <= v.
  Proof.
    intros E N ts Nd D. destruct (num_exact input sg set nodes H V fuel Fu v E N) as (_ & l & Nl & <- & Hl).
    assert (G : exists us, length us = length ts /\ incl us l /\ map (fun u => match get_rule root g with Some r => PT (rule_name r) 0 n (showb sg u) | None => PT "" 0 0 [] end) us = ts).
    { clear Nd. induction ts as [|t ts IH]; [exists []; split; [auto|split; [intros x []|auto]]|].
      destruct IH as (us & A & B & C); [intros t' I; apply D; right; auto|]. destruct (deriv_unf t) as (u & r & X & Gr & ->); [apply D; left; auto|].
      exists (u :: us). split; [cbn; congruence|]. split; [intros x [<-|I]; [apply Hl; exact X|auto]|]. cbn [map]. rewrite C, Gr. reflexivity. }
    destruct G as (us & A & B & C). rewrite <- A. apply Nat2Z.inj_le. apply NoDup_incl_length; auto. rewrite <- C in Nd. eapply NoDup_map_inv; eauto.
  Qed.
  Lemma tree_ok : bf_num_trees sg set n fuel <> QVal (-1) -> exists r ts, bf_tree sg set n fuel = QVal (Some (PT (rule_name r) 0 n ts)) /\
    get_rule root g = Some r /\ TreeProof.ft sg nodes (NSym (sg_start sg) 0 n) (flat_map drop_empty ts) /\
    LooseDerivation g root input (PT (rule_name r) 0 n (flat_map drop_empty ts)).
  Proof.
    intros N. pose proof (acc_root input sg set nodes H V fuel Fu N) as A. destruct (el slot bc pv rt) as [|[s k] rest] eqn:El; [exfalso; eapply (el_some sg nodes set (w_tbl _ _ _ _ H)); eauto|].
    destruct (coll_ok sg input nodes set (w_tbl _ _ _ _ H) (w_ok _ _ _ _ H) (w_names _ _ _ _ _ _ H0) fuel rt s k [] [] U0) as (ts & C & F).
    { rewrite El. left; auto. } { exact A. } { split; constructor. } { intros x []. } { cbn [length]. lia. } { intros x []. }
    cbn [left_end right_end nk] in C, F. destruct (w_sound _ _ _ _ _ _ H0 _ F) as (r & Ru & G & D). exists r, ts. split; [|auto].
    unfold bf_tree, q_tree. rewrite (w_valid _ _ _ _ H), V. cbn [qbind]. unfold el in El. cbn [elems] in El.
    destruct (bc (sg_start sg)) as [sls|] eqn:B; [|discriminate]. cbn [of_opt qbind] in *. rewrite first_hd, El. cbn [hd_error]. rewrite C. cbn [qbind].
    unfold rule_of in Ru. unfold bf_rule_name. destruct (nth_error (sg_nts sg) (sg_start sg)) as [nt|]; [|discriminate]. destruct (nt_isrule nt); [|discriminate].
    injection Ru as ->. reflexivity.
  Qed.
  Lemma undivided_single : undivided g input -> bf_ambiguous sg set n fuel = QVal false.
  Proof.
    intros Ud. apply (single_amb input sg set nodes H V fuel Fu). intros x R.
    assert (Ux : U nodes x).
    { pose proof U0 as U1. clear - R Uk U1. revert R U1. generalize rt. intros y R. induction R as [|y c x S R IH]; auto. intros Uy. apply IH. destruct S as (e & Ie & Ip). eapply Uk; eauto. }
    destruct (el slot bc pv x) as [|[s k] [|[s' k'] l]] eqn:El; cbn; try lia. exfalso.
    pose proof (Un x Ux) as Nd. rewrite El in Nd.
    assert (I1 : In (s, k) (el slot bc pv x)) by (rewrite El; left; auto). assert (I2 : In (s', k') (el slot bc pv x)) by (rewrite El; right; left; auto).
    apply (el_in sg nodes set (w_tbl _ _ _ _ H)) in I1 as [I1 E1]; auto. apply (el_in sg nodes set (w_tbl _ _ _ _ H)) in I2 as [I2 E2]; auto.
    pose proof (w_one _ _ _ _ _ _ H0 Ud _ _ I1 I2 ltac:(congruence)) as Q. injection Q as -> ->. inversion Nd as [|? ? Nq]. apply Nq. left. auto.
  Qed.
End Facts2.

(** ** C58 *)
(** Missing for the full statement: the sets with a cycle, where the tree may miss leaves
    (refuted below); the leaves that span nothing, which Tree shows and a derivation tree does
    not have (refuted below), so that the statement is about the tree without them; the
    repetition counts as in C11.  [set'] is the set in the order buildIndex ranges over it. *)
Theorem C58_bsr_tree_is_derivation_partial : forall ord fuel input g root max_slots max_nodes sg set set' fuel',
  any_order ord -> wf_grammar g -> lex_grammar g = true -> told_apart g ->
  parse_bsr ord fuel input g root max_slots max_nodes = BSR_ok sg set -> Permutation set set' ->
  (length set < fuel')%nat ->
  (~ Lang g root input -> bf_tree sg set' (length input) fuel' = QVal None) /\
  (Lang g root input -> bf_num_trees sg set' (length input) fuel' <> QVal (-1) ->
   exists r ts t, resolves_to g root r /\
     bf_tree sg set' (length input) fuel' = QVal (Some (PT (rule_name r) 0 (length input) ts)) /\
     drop_empty (PT (rule_name r) 0 (length input) ts) = [t] /\
     tiles 0 (length input) [t] /\
     LooseDerivation g root input t /\
     (counts_determined g -> Derivation g root input t)).
Proof.
  intros ord fuel input g root ms mn sg set set' fuel' O W L F E P Fu. rewrite (Permutation_length P) in Fu.
  destruct (world_ok _ _ _ _ _ _ _ _ _ _ O W L F E P) as (nodes & H). split.
  - intros NL. unfold bf_tree, q_tree. rewrite (w_valid _ _ _ _ (w_i _ _ _ _ _ _ H)). destruct (bsr_valid sg (length input) set') eqn:V; auto.
    apply (w_lang _ _ _ _ _ _ H) in V. contradiction.
  - intros La N. apply (w_lang _ _ _ _ _ _ H) in La. destruct (tree_ok _ _ _ _ _ _ H La _ Fu N) as (r & ts & Et & G & Ft & D).
    assert (Nr : rule_name r <> "") by (apply (PropTree.lex_names g L), (CodegenGlue.get_rule_listed g root r G)).
    exists r, ts, (PT (rule_name r) 0 (length input) (flat_map drop_empty ts)). split; [apply TreeSound.get_rule_to; auto|]. split; [exact Et|].
    split; [pose proof (drop_node (rule_name r) 0 (length input) ts Nr) as X; cbn [flat_map] in X; rewrite app_nil_r in X; exact X|].
    split; [apply (TreeLang.d_tiles g input _ (PropTree.lex_names g L)) in D; exact D|]. split; [exact D|].
    intros CD. apply TreeLang.loose_derivation; auto.
Qed.

(** a = *b   b = "x" / "xx", read from right to left or from left to right. *)
Definition g_pairs : grammar :=
  [mkRule "a" [[Rep 0 inf (ERule "b")]]; mkRule "b" [[Rep 1 1 (EChar false [120])]; [Rep 1 1 (EChar false [120; 120])]]].
Example C58_case : exists sg set,
  (wf_grammar g_pairs /\ lex_grammar g_pairs = true /\ told_apart g_pairs) /\
  parse_bsr (fun _ l => l) 400 (bytes "xxx") g_pairs "a" default_max_slots 0 = BSR_ok sg set /\
  (length set < 400)%nat /\
  bf_num_trees sg set 3 400 = QVal 3 /\
  bf_tree sg set 3 400 = QVal (Some (PT "a" 0 3 [PT "b" 0 1 [PT "" 0 1 []]; PT "b" 1 2 [PT "" 1 2 []]; PT "b" 2 3 [PT "" 2 3 []]])) /\
  bf_tree sg (rev set) 3 400 = QVal (Some (PT "a" 0 3 [PT "b" 0 2 [PT "" 0 2 []]; PT "b" 2 3 [PT "" 2 3 []]])).
Proof.
  eexists. eexists. split; [split; [apply wf_grammarb_spec; vm_compute; reflexivity|]; split; [vm_compute; reflexivity|apply told_apartb_spec; vm_compute; reflexivity]|].
  split; [vm_compute; reflexivity|]. split; [vm_compute; lia|]. split; [vm_compute; reflexivity|]. split; vm_compute; reflexivity.
Qed.

(** A tree that misses a leaf: a = a / "x" reads "x" as the tree a(a()). *)
Definition g_self : grammar := [mkRule "a" [[Rep 1 1 (ERule "a")]; [Rep 1 1 (EChar false [120])]]].
Theorem C58_bsr_tree_is_derivation_refuted : exists g root input sg set t,
  wf_grammar g /\ lex_grammar g = true /\ told_apart g /\
  parse_bsr (fun _ l => l) 400 input g root default_max_slots 0 = BSR_ok sg set /\
  Lang g root input /\
  bf_tree sg set (length input) 400 = QVal (Some t) /\
  forall t', In t' (drop_empty t) -> ~ tiles 0 (length input) [t'] /\ ~ LooseDerivation g root input t' /\ ~ Derivation g root input t'.
Proof.
  assert (W : wf_grammar g_self) by (apply wf_grammarb_spec; vm_compute; reflexivity).
  assert (L : lex_grammar g_self = true) by (vm_compute; reflexivity).
  assert (F : told_apart g_self) by (apply told_apartb_spec; vm_compute; reflexivity).
  destruct (parse_bsr (fun _ l => l) 400 (bytes "x") g_self "a" default_max_slots 0) as [sg set| | | |] eqn:E; try (vm_compute in E; discriminate).
  exists g_self, "a", (bytes "x"), sg, set, (PT "a" 0 1 [PT "a" 0 1 []]).
  split; [exact W|]. split; [exact L|]. split; [exact F|]. split; [exact E|].
  pose proof E as E'. vm_compute in E'. injection E' as <- <-.
  split; [apply (C06_bsr_valid_exact_partial _ _ _ _ _ _ _ _ _ id_order W L F E); vm_compute; reflexivity|].
  split; [vm_compute; reflexivity|]. intros t' [<-|[]]. cbn [flat_map drop_empty String.eqb andb].
  assert (NT : ~ tiles 0 (length (bytes "x")) [PT "a" 0 1 [PT "a" 0 1 []]]).
  { change (length (bytes "x")) with 1%nat. intros T. inversion T as [|? ? ? ? Lt T' |? ? ? ? ? ? Nr T' T'' [A B C]]; subst. inversion T' as [| |? ? ? ? ? ? Nr' U' U'' [A B C]]; subst. inversion U'. }
  split; [exact NT|]. split; intros D; apply NT; apply (TreeLang.d_tiles g_self (bytes "x") _ (PropTree.lex_names g_self L)) in D; exact D.
Qed.

(** A tree with a leaf that spans nothing: a = "". *)
Definition g_empty : grammar := [mkRule "a" [[Rep 1 1 (EChar false [])]]].
Theorem C58_empty_leaf_refuted : exists g root input sg set t,
  wf_grammar g /\ lex_grammar g = true /\ told_apart g /\ counts_determined g /\
  parse_bsr (fun _ l => l) 400 input g root default_max_slots 0 = BSR_ok sg set /\
  Lang g root input /\ bf_num_trees sg set (length input) 400 = QVal 1 /\
  bf_tree sg set (length input) 400 = QVal (Some t) /\ ~ Derivation g root input t.
Proof.
  assert (W : wf_grammar g_empty) by (apply wf_grammarb_spec; vm_compute; reflexivity).
  assert (L : lex_grammar g_empty = true) by (vm_compute; reflexivity).
  assert (F : told_apart g_empty) by (apply told_apartb_spec; vm_compute; reflexivity).
  destruct (parse_bsr (fun _ l => l) 400 (bytes "") g_empty "a" default_max_slots 0) as [sg set| | | |] eqn:E; try (vm_compute in E; discriminate).
  exists g_empty, "a", (bytes ""), sg, set, (PT "a" 0 0 [PT "" 0 0 []]).
  split; [exact W|]. split; [exact L|]. split; [exact F|]. split; [apply (TreeLang.counts_ok_spec g_empty) with (fuel := 8%nat); [exact W|vm_compute; reflexivity]|]. split; [exact E|].
  pose proof E as E'. vm_compute in E'. injection E' as <- <-.
  split; [apply (C06_bsr_valid_exact_partial _ _ _ _ _ _ _ _ _ id_order W L F E); vm_compute; reflexivity|].
  split; [vm_compute; reflexivity|]. split; [vm_compute; reflexivity|].
  intros D. apply (TreeLang.d_tiles g_empty (bytes "") _ (PropTree.lex_names g_empty L)) in D. change (length (bytes "")) with 0%nat in D.
  inversion D as [| |? ? ? ? ? ? Nr T' T'' [A B C]]; subst. inversion T' as [|? ? ? ? Lt U' [A B C]|? ? ? ? ? ? Nr' U' U'' [A B C]]; subst; [lia|congruence].
Qed.

(** ** C59 *)
(** Missing for the full statement: equality with the number of derivation trees, refuted
    below.  Proved: NumTrees answers; 0 exactly on inputs outside the language, 1 exactly
    when not ambiguous; -1 exactly when the nodes below the root are cyclic; otherwise it is
    the number of ways to choose an element at each node and at least the number of
    derivation trees; and it does not depend on the order of the set. *)
Theorem C59_bsr_num_trees_partial : forall ord fuel input g root max_slots max_nodes sg set set' fuel',
  any_order ord -> wf_grammar g -> lex_grammar g = true -> told_apart g ->
  parse_bsr ord fuel input g root max_slots max_nodes = BSR_ok sg set -> Permutation set set' ->
  (length set < fuel')%nat ->
  exists v, bf_num_trees sg set' (length input) fuel' = QVal v /\ -1 <= v /\
    (v = 0 <-> ~ Lang g root input) /\
    (v = 1 <-> Lang g root input /\ bf_ambiguous sg set' (length input) fuel' = QVal false) /\
    (v <> -1 -> forall ts, NoDup ts -> (forall t, In t ts -> Derivation g root input t) -> Z.of_nat (length ts) <= v) /\
    (Lang g root input ->
      (v <> -1 -> exists us, NoDup us /\ Z.of_nat (length us) = v /\
         forall u, In u us <-> bsr_unf sg set' (QS (sg_start sg) 0 (length input)) u) /\
      (v = -1 <-> exists x, bsr_reach sg set' (QS (sg_start sg) 0 (length input)) x /\ bsr_below sg set' x x)).
Proof.
  intros ord fuel input g root ms mn sg set set' fuel' O W L F E P Fu. rewrite (Permutation_length P) in Fu.
  destruct (world_ok _ _ _ _ _ _ _ _ _ _ O W L F E P) as (nodes & H). pose proof (w_lang _ _ _ _ _ _ H) as La.
  destruct (bsr_valid sg (length input) set') eqn:V.
  - pose proof (proj1 La eq_refl) as Lg. destruct (count_runs _ _ _ _ (w_i _ _ _ _ _ _ H) V _ Fu) as (v0 & st & _ & N). remember (if snd st then -1 else v0) as v eqn:Ev. clear Ev.
    exists v. split; [exact N|].
    assert (Pos : v <> -1 -> 1 <= v) by (intros X; eapply (num_pos _ _ _ _ (w_i _ _ _ _ _ _ H)); eauto).
    split; [destruct (Z.eq_dec v (-1)); [lia|specialize (Pos n); lia]|].
    split; [split; [intros ->; lia|tauto]|].
    split.
    { rewrite (amb_num _ _ _ _ (w_i _ _ _ _ _ _ H) V _ Fu), N. split; [intros ->; auto|intros [_ X]; injection X as ->; auto]. }
    split; [intros X; eapply num_bound; eauto|].
    intros _. split.
    + intros X. destruct (num_exact _ _ _ _ (w_i _ _ _ _ _ _ H) V _ Fu v N X) as (_ & l & Nl & Le & Hl). exists l. auto.
    + rewrite <- (num_cycle _ _ _ _ (w_i _ _ _ _ _ _ H) V _ Fu), N. split; [intros ->; auto|intros X; injection X as ->; auto].
  - assert (NL : ~ Lang g root input) by (intros X; apply La in X; discriminate).
    exists 0. split; [unfold bf_num_trees, q_num_trees; rewrite (w_valid _ _ _ _ (w_i _ _ _ _ _ _ H)), V; reflexivity|]. split; [lia|]. split; [tauto|].
    split; [split; [lia|tauto]|]. split; [|tauto].
    intros _ ts _ D. destruct ts as [|t ts]; [cbn; lia|]. exfalso. apply NL. apply TreeLang.derivation_iff_lang. exists t. apply D. left; auto.
Qed.
Example C59_case :
  (exists sg set, parse_bsr (fun _ l => l) 400 (bytes "xX") g_wild "a" default_max_slots 0 = BSR_ok sg set /\
     (length set < 400)%nat /\ bf_num_trees sg set 2 400 = QVal (-1)) /\
  (exists sg set, parse_bsr (fun _ l => l) 400 (bytes "xXy") g_rep "a" default_max_slots 0 = BSR_ok sg set /\
     (length set < 400)%nat /\ bf_num_trees sg set 3 400 = QVal 1) /\
  (exists sg set, parse_bsr (fun _ l => l) 400 (bytes "xxxx") g_pairs "a" default_max_slots 0 = BSR_ok sg set /\
     (length set < 400)%nat /\ bf_num_trees sg set 4 400 = QVal 5 /\ bf_num_trees sg (rev set) 4 400 = QVal 5).
Proof.
  split; [|split]; eexists; eexists; (split; [vm_compute; reflexivity|]); (split; [vm_compute; lia|]); [vm_compute; reflexivity|vm_compute; reflexivity|split; vm_compute; reflexivity].
Qed.

(** a = "x" / "x": two trees counted, one derivation tree, and Forest.NumTrees is 1. *)
Definition g_twice : grammar := [mkRule "a" [[Rep 1 1 (EChar false [120])]; [Rep 1 1 (EChar false [120])]]].
Lemma g_twice_ok : wf_grammar g_twice /\ lex_grammar g_twice = true /\ told_apart g_twice.
Proof. split; [apply wf_grammarb_spec; vm_compute; reflexivity|]. split; [vm_compute; reflexivity|apply told_apartb_spec; vm_compute; reflexivity]. Qed.
Lemma g_twice_unique : exists t, forall t', Derivation g_twice "a" (bytes "x") t' <-> t' = t.
Proof.
  destruct g_twice_ok as (W & L & F).
  destruct (parse_forest (fun _ l => l) 400 (bytes "x") g_twice "a" default_max_slots 0) as [f| | | |] eqn:Ef; try (vm_compute in Ef; discriminate).
  assert (Ln : (length (f_nodes f) < 400)%nat) by (vm_compute in Ef; injection Ef as <-; vm_compute; lia).
  assert (V : f_valid f = true) by (vm_compute in Ef; injection Ef as <-; vm_compute; reflexivity).
  destruct (PropTree.C13_ambiguous_partial _ _ _ _ _ _ _ f 400 id_order W L F Ef Ln) as (b & A & _ & _ & X).
  assert (B : b = false) by (vm_compute in Ef; injection Ef as <-; vm_compute in A; injection A as <-; reflexivity).
  destruct (X V B) as (t & _ & Y). exists t. exact Y.
Qed.
Theorem C59_bsr_num_trees_refuted : exists g root input sg set f,
  wf_grammar g /\ lex_grammar g = true /\ told_apart g /\
  parse_bsr (fun _ l => l) 400 input g root default_max_slots 0 = BSR_ok sg set /\
  bf_num_trees sg set (length input) 400 = QVal 2 /\
  (exists t, forall t', Derivation g root input t' <-> t' = t) /\
  parse_forest (fun _ l => l) 400 input g root default_max_slots 0 = PF_ok f /\ f_num_trees 400 f = Some 1.
Proof.
  destruct g_twice_ok as (W & L & F). eexists g_twice, "a", (bytes "x"), _, _, _. split; [exact W|]. split; [exact L|]. split; [exact F|].
  split; [vm_compute; reflexivity|]. split; [vm_compute; reflexivity|]. split; [exact g_twice_unique|]. split; [vm_compute; reflexivity|vm_compute; reflexivity].
Qed.

(** ** C60 *)
(** Missing for the full statement: that Ambiguous is false when there is one derivation tree,
    refuted below.  Proved: Ambiguous answers; it is true whenever there are two derivation
    trees; it is false on inputs outside the language; when it is false on a word of the
    language there is exactly one derivation tree, and Tree returns it but for the leaves that
    span nothing; and it is false when no part of the grammar can be divided in two ways. *)
Theorem C60_bsr_ambiguous_partial : forall ord fuel input g root max_slots max_nodes sg set set' fuel',
  any_order ord -> wf_grammar g -> lex_grammar g = true -> told_apart g ->
  parse_bsr ord fuel input g root max_slots max_nodes = BSR_ok sg set -> Permutation set set' ->
  (length set < fuel')%nat ->
  exists b, bf_ambiguous sg set' (length input) fuel' = QVal b /\
    ((exists t1 t2, Derivation g root input t1 /\ Derivation g root input t2 /\ t1 <> t2) -> b = true) /\
    (~ Lang g root input -> b = false) /\
    (Lang g root input -> b = false ->
       exists t t', bf_tree sg set' (length input) fuel' = QVal (Some t) /\ drop_empty t = [t'] /\
         forall t'', Derivation g root input t'' <-> t'' = t') /\
    (undivided g input -> b = false).
Proof.
  intros ord fuel input g root ms mn sg set set' fuel' O W L F E P Fu. rewrite (Permutation_length P) in Fu.
  destruct (world_ok _ _ _ _ _ _ _ _ _ _ O W L F E P) as (nodes & H). pose proof (w_lang _ _ _ _ _ _ H) as La.
  destruct (bsr_valid sg (length input) set') eqn:V.
  - pose proof (proj1 La eq_refl) as Lg. destruct (amb_runs _ _ _ _ (w_i _ _ _ _ _ _ H) V _ Fu) as (b & s & _ & A). exists b. split; [exact A|].
    assert (One : b = false -> forall t1 t2, Derivation g root input t1 -> Derivation g root input t2 -> t1 = t2).
    { intros -> t1 t2 D1 D2. apply (amb_num _ _ _ _ (w_i _ _ _ _ _ _ H) V _ Fu) in A. destruct (w_complete _ _ _ _ _ _ H t1 D1) as (r1 & ts1 & -> & G1 & F1), (w_complete _ _ _ _ _ _ H t2 D2) as (r2 & ts2 & -> & G2 & F2).
      rewrite G1 in G2. injection G2 as <-. f_equal. eapply (shown_one _ _ _ _ (w_i _ _ _ _ _ _ H) V _ Fu A); eauto. }
    split; [intros (t1 & t2 & D1 & D2 & Ne); destruct b; auto; exfalso; apply Ne, One; auto|]. split; [tauto|]. split.
    + intros _ B. rewrite B in A. apply (amb_num _ _ _ _ (w_i _ _ _ _ _ _ H) V _ Fu) in A. destruct (tree_ok _ _ _ _ _ _ H V _ Fu) as (r & ts & Et & G & Ft & D); [rewrite A; discriminate|].
      assert (Nr : rule_name r <> "") by (apply (PropTree.lex_names g L), (CodegenGlue.get_rule_listed g root r G)).
      exists (PT (rule_name r) 0 (length input) ts), (PT (rule_name r) 0 (length input) (flat_map drop_empty ts)). split; [exact Et|].
      split; [pose proof (drop_node (rule_name r) 0 (length input) ts Nr) as X; cbn [flat_map] in X; rewrite app_nil_r in X; exact X|].
      assert (X : Derivation g root input (PT (rule_name r) 0 (length input) (flat_map drop_empty ts))).
      { destruct (proj2 (TreeLang.derivation_iff_lang g input root) Lg) as (t & Dt). destruct (w_complete _ _ _ _ _ _ H t Dt) as (r1 & ts1 & -> & G1 & F1).
        rewrite G in G1. injection G1 as <-. replace (flat_map drop_empty ts) with ts1; [exact Dt|].
        eapply (shown_one _ _ _ _ (w_i _ _ _ _ _ _ H) V _ Fu A); eauto. }
      intros t''. split; [intros D''; apply One; auto|intros ->; exact X].
    + intros Ud. pose proof (undivided_single _ _ _ _ _ _ H V _ Fu Ud) as X. rewrite A in X. injection X as ->. auto.
  - assert (NL : ~ Lang g root input) by (intros X; apply La in X; discriminate).
    exists false. split; [unfold bf_ambiguous, q_ambiguous; rewrite (w_valid _ _ _ _ (w_i _ _ _ _ _ _ H)), V; reflexivity|]. split; [|split; [auto|split; [tauto|auto]]].
    intros (t1 & _ & D & _). exfalso. apply NL. apply TreeLang.derivation_iff_lang. exists t1. auto.
Qed.
Example C60_case :
  (exists sg set, parse_bsr (fun _ l => l) 400 (bytes "xxx") g_pairs "a" default_max_slots 0 = BSR_ok sg set /\
     (length set < 400)%nat /\ bf_ambiguous sg set 3 400 = QVal true) /\
  (exists sg set, parse_bsr (fun _ l => l) 400 (bytes "xXy") g_rep "a" default_max_slots 0 = BSR_ok sg set /\
     (length set < 400)%nat /\ bf_ambiguous sg set 3 400 = QVal false /\
     bf_tree sg set 3 400 = QVal (Some (PT "a" 0 3 [PT "" 0 1 []; PT "" 1 2 []; PT "" 2 3 []]))).
Proof.
  split; eexists; eexists; (split; [vm_compute; reflexivity|]); (split; [vm_compute; lia|]); [vm_compute; reflexivity|split; vm_compute; reflexivity].
Qed.

(** a = "x" / "x": ambiguous, one derivation tree. *)
Theorem C60_bsr_ambiguous_refuted : exists g root input sg set,
  wf_grammar g /\ lex_grammar g = true /\ told_apart g /\
  parse_bsr (fun _ l => l) 400 input g root default_max_slots 0 = BSR_ok sg set /\
  bf_ambiguous sg set (length input) 400 = QVal true /\
  exists t, forall t', Derivation g root input t' <-> t' = t.
Proof.
  destruct g_twice_ok as (W & L & F). eexists g_twice, "a", (bytes "x"), _, _. split; [exact W|]. split; [exact L|]. split; [exact F|].
  split; [vm_compute; reflexivity|]. split; [vm_compute; reflexivity|exact g_twice_unique].
Qed.

Print Assumptions C58_bsr_tree_is_derivation_partial.
Print Assumptions C58_bsr_tree_is_derivation_refuted.
Print Assumptions C58_empty_leaf_refuted.
Print Assumptions C59_bsr_num_trees_partial.
Print Assumptions C59_bsr_num_trees_refuted.
Print Assumptions C60_bsr_ambiguous_partial.
Print Assumptions C60_bsr_ambiguous_refuted.
