(** C38, C39, C41: evaluation of rule definitions and repeat bounds. *)
(** The definitions here are those of statements, proofs and examples; they model no code. *)
From Coq Require Import ZArith String Ascii Bool List Lia.
From Verif Require Import Syntax Spec Utf8 Num Printer Tape Eval EvalProof ReadSpec PropTerm PropGll.
Import ListNotations.
Local Open Scope string_scope.
Local Open Scope list_scope.

(** ** C38

    [ds] is the sequence of definitions, each with whether it is written [=/].
    With the default options (core rules protected) the evaluation succeeds
    exactly on the sequences in which no definition is at fault, and then the
    grammar is made of exactly one rule per defined name, whose alternatives are
    those of all its definitions in order; otherwise the error names the first
    definition at fault and what is wrong with it. *)
Theorem C38_definitions_merge_partial : forall core ord ds, any_order ord ->
  match e_define_all false ord ds (mkE core [] 0) with
  | EvOk st => defs_ok core ds /\ distinct_names (rules_of st) /\
      (forall r, In r (rules_of st) <-> defined_as ds r) /\ e_core st = core
  | EvErr e => exists pre d post, ds = pre ++ d :: post /\ defs_ok core pre /\ violates core pre d e
  | EvPanic => False
  end.
Proof.
  intros core ord ds O. pose proof (all_step ord O core ds [] _ (inv_init core)) as H.
  destruct (e_define_all false ord ds (mkE core [] 0)) as [st|e|]; auto.
  - destruct H as [[Ic Io Ind Ii Iu Ino] V]. cbn [app] in *. split; [exact V|].
    assert (RO : forall m, (forall k e, In (k, e) m -> exists r, e = Own r /\ rule_name r = k) ->
      map (fun r => lower (rule_name r)) (flat_map (fun ke => match deref (e_core st) (snd ke) with Some r => [r] | None => [] end) m)
      = map (fun x => lower (fst x)) m).
    { induction m as [|[k e] m IH]; intros Hm; auto. cbn [flat_map map snd fst].
      destruct (Hm k e (or_introl eq_refl)) as (r & -> & <-). cbn [deref app map].
      rewrite IH; auto. intros k e I. apply Hm. right. auto. }
    split; [unfold distinct_names, rules_of; rewrite (RO _ Io); exact Ind|]. split; auto.
    intros r. unfold rules_of. rewrite in_flat_map. split.
    + intros ((k & e) & A & B). cbn [snd] in B. destruct (Io _ _ A) as (r' & -> & <-). cbn in B. destruct B as [->|[]].
      apply Ii in A. tauto.
    + intros D. exists (rule_name r, Own r). split; [apply Ii; auto|]. cbn. auto.
  - destruct H as (pre & d & post & E & V & N). exists pre, d, post. split; auto.
Qed.

(** With WithRedefineCoreRules the same holds of definitions that do not touch
    the core rules.  Missing for the full statement: definitions of core names
    under that option, see the refutation. *)
Lemma redefine_same ord core ds : (forall d, In d ds -> ~ core_name core (rule_name (fst d))) ->
  forall st, e_core st = core ->
  e_define_all true ord ds st = e_define_all false ord ds st.
Proof.
  induction ds as [|d ds IH]; intros N st E; auto. cbn [e_define_all].
  assert (C : get_rule_in (rule_name (fst d)) core = None).
  { destruct (get_rule_in (rule_name (fst d)) core) as [r|] eqn:C; auto. exfalso.
    apply (N d (or_introl eq_refl)). apply find_core. eauto. }
  assert (S : e_define true ord d st = e_define false ord d st).
  { destruct d as [rl b]. unfold e_define. rewrite E. cbn [fst] in C. rewrite C. reflexivity. }
  rewrite S. destruct (e_define false ord d st) as [st'|e|] eqn:D; auto.
  apply IH; [intros d' I; apply N; right; auto|].
  destruct d as [rl b]. cbn [fst] in C. unfold e_define in D. rewrite E, C in D. cbn [negb andb] in D.
  unfold rm_get in D. rewrite C in D.
  destruct (rm_find core (rule_name rl) (ord (e_tick st) (e_map st))) as [[e r]|] eqn:F.
  - destruct b; [|discriminate]. destruct e as [r0|c]; inversion D; subst; cbn [e_core]; auto.
    apply rm_find_some in F as (k & _ & F & S'). cbn in F. apply find_some in F as [F1 F2].
    exfalso. apply (N (rl, true) (or_introl eq_refl)). exists r. auto.
  - destruct b; [discriminate|]. inversion D; subst. auto.
Qed.

Theorem C38_redefine_merge_partial : forall core ord ds, any_order ord ->
  (forall d, In d ds -> ~ core_name core (rule_name (fst d))) ->
  match e_define_all true ord ds (mkE core [] 0) with
  | EvOk st => defs_ok core ds /\ distinct_names (rules_of st) /\
      (forall r, In r (rules_of st) <-> defined_as ds r) /\ e_core st = core
  | EvErr e => exists pre d post, ds = pre ++ d :: post /\ defs_ok core pre /\ violates core pre d e
  | EvPanic => False
  end.
Proof.
  intros core ord ds O N. rewrite (redefine_same ord core) by auto. apply C38_definitions_merge_partial; auto.
Qed.

(** With WithRedefineCoreRules a core name may be defined twice with [=]: the
    second definition replaces the first, no error. *)
Definition lit (c : Z) : alternation := [[Rep 1 1 (EChar true [c])]].
Definition id_order : nat -> rmap -> rmap := fun _ l => l.
Lemma id_order_any : any_order id_order.
Proof. intros t l x. reflexivity. Qed.

Theorem C38_redefine_merge_refuted : exists ds st, e_define_all true id_order ds (mkE core_rules [] 0) = EvOk st /\
  (exists pre d post, ds = pre ++ d :: post /\ snd d = false /\ named (rule_name (fst d)) pre) /\
  ~ (forall r, In r (rules_of st) <-> defined_as ds r).
Proof.
  exists [(mkRule "BIT" (lit 48), false); (mkRule "BIT" (lit 49), false)]. eexists.
  split; [vm_compute; reflexivity|]. split.
  - exists [(mkRule "BIT" (lit 48), false)], (mkRule "BIT" (lit 49), false), []. split; auto. split; auto.
    exists (mkRule "BIT" (lit 48), false). split; [left; auto|reflexivity].
  - intros H. destruct (proj1 (H (mkRule "BIT" (lit 49)))) as (d & _ & _ & M); [left; reflexivity|].
    vm_compute in M. discriminate.
Qed.

(** A case: two rules, one extended with a name in another case; and the three
    kinds of fault. *)
Definition ds1 : list (rule * bool) :=
  [(mkRule "a" (lit 120), false); (mkRule "b" (lit 121), false); (mkRule "A" (lit 122), true)].
Example C38_case :
  (exists st, e_define_all false id_order ds1 (mkE core_rules [] 0) = EvOk st /\
     rules_of st = [mkRule "a" (lit 120 ++ lit 122); mkRule "b" (lit 121)]) /\
  e_define_all false id_order (ds1 ++ [(mkRule "B" [], false)]) (mkE core_rules [] 0) = EvErr (EE_duplicated "B") /\
  e_define_all false id_order (ds1 ++ [(mkRule "c" [], true)]) (mkE core_rules [] 0) = EvErr (EE_not_found "c") /\
  e_define_all false id_order (ds1 ++ [(mkRule "alpha" [], true)]) (mkE core_rules [] 0) = EvErr (EE_core_modify "alpha").
Proof.
  split; [eexists; split; [vm_compute; reflexivity|vm_compute; reflexivity]|].
  split; [vm_compute; reflexivity|]. split; vm_compute; reflexivity.
Qed.

(** The rule list of a tree is evaluated rule by rule: the definitions it stands
    for, in order, then merged as above. *)
Inductive tree_defs (input : list Z) : list ptree -> list (rule * bool) -> Prop :=
| td_nil : tree_defs input [] []
| td_rule c cs d ds : pt_rule c = "rule" -> e_rule input c = EvOk d -> tree_defs input cs ds ->
    tree_defs input (c :: cs) (d :: ds)
| td_skip c cs ds : pt_rule c <> "rule" -> tree_defs input cs ds -> tree_defs input (c :: cs) ds.

Theorem C38_tree_merge : forall redefine ord input cs ds, tree_defs input cs ds ->
  forall st, e_rulelist redefine ord input cs st = e_define_all redefine ord ds st.
Proof.
  intros redefine ord input cs ds H. induction H as [|c cs d ds E R H IH|c cs ds E H IH]; intros st; auto.
  - cbn [e_rulelist e_define_all]. rewrite E, String.eqb_refl, R.
    destruct (e_define redefine ord d st) as [st'|e|]; auto.
  - cbn [e_rulelist]. apply String.eqb_neq in E. rewrite E. apply IH.
Qed.

(** ** C39 *)

(** With the default options, or when no core name is defined, evaluation leaves
    the core rules as they are, whatever it returns.  Missing for the full
    statement: WithRedefineCoreRules on core names, see the refutation. *)
Theorem C39_core_rules_unchanged_partial : forall ord input core t st, any_order ord ->
  eval_tree false ord core input t = EvOk st -> e_core st = core.
Proof.
  intros ord input core t st O. unfold eval_tree.
  assert (G : forall cs ds s0, Inv core ds s0 -> e_rulelist false ord input cs s0 = EvOk st -> e_core st = core).
  { induction cs as [|c cs IH]; intros ds s0 I E; cbn [e_rulelist] in E.
    - inversion E; subst. apply (i_core _ _ _ I).
    - destruct (String.eqb (pt_rule c) "rule"); [|eauto].
      destruct (e_rule input c) as [d|e|]; try discriminate.
      pose proof (step ord O core ds s0 d I) as S.
      destruct (e_define false ord d s0) as [s1|e|]; try discriminate. destruct S as [S _]. eauto. }
  apply G with (ds := []). apply inv_init.
Qed.

(** The core rules after a history of evaluations with the default options.  With
    them an evaluation that fails has written nothing to the core rules before
    its error: the statement above holds of every prefix of the rule list. *)
Fixpoint history (ord : nat -> rmap -> rmap) (core : grammar) (calls : list (list Z * ptree)) : grammar :=
  match calls with
  | [] => core
  | (input, t) :: calls' =>
      match eval_tree false ord core input t with
      | EvOk st => history ord (e_core st) calls'
      | _ => history ord core calls'
      end
  end.
Theorem C39_history_unchanged_partial : forall ord calls core, any_order ord ->
  history ord core calls = core.
Proof.
  intros ord calls core O. revert core. induction calls as [|[input t] calls IH]; intros core; auto.
  cbn [history]. destruct (eval_tree false ord core input t) as [st|e|] eqn:E; auto.
  apply C39_core_rules_unchanged_partial in E; auto. rewrite E. auto.
Qed.

(** WithRedefineCoreRules and [ALPHA =/ "_"]: the extension is written through
    the shared core rule, so every other grammar's ALPHA accepts "_". *)
Definition alpha_ext_tree : ptree :=
  PT "rulelist" 0 14
    [PT "rule" 0 14
       [PT "rulename" 0 5 []; PT "defined-as" 5 9 [];
        PT "elements" 9 12
          [PT "alternation" 9 12
             [PT "concatenation" 9 12
                [PT "repetition" 9 12 [PT "element" 9 12 [PT "char-val" 9 12 []]]]]];
        PT "c-nl" 12 14 []]].
Definition alpha_ext_text : list Z :=
  bytes "ALPHA =/ " ++ [34%Z; 95%Z; 34%Z; 13%Z; 10%Z].

Theorem C39_core_rules_unchanged_refuted : exists input t st,
  eval_tree true id_order core_rules input t = EvOk st /\
  (exists r, get_rule_core (e_core st) "ALPHA" [] = Some r /\
     In [Rep 1 1 (EChar false [95%Z])] (rule_alt r)) /\
  (exists r, get_rule_core core_rules "ALPHA" [] = Some r /\
     ~ In [Rep 1 1 (EChar false [95%Z])] (rule_alt r)).
Proof.
  exists alpha_ext_text, alpha_ext_tree. eexists. split; [vm_compute; reflexivity|]. split.
  - eexists. split; [vm_compute; reflexivity|]. cbn. tauto.
  - eexists. split; [vm_compute; reflexivity|]. cbn. intros [H|[H|[]]]; discriminate.
Qed.

(** A case of the positive statement: a tree with one definition. *)
Definition own_tree : ptree :=
  PT "rulelist" 0 8
    [PT "rule" 0 8
       [PT "rulename" 0 1 []; PT "defined-as" 1 3 [];
        PT "elements" 3 6
          [PT "alternation" 3 6
             [PT "concatenation" 3 6
                [PT "repetition" 3 6 [PT "repeat" 3 5 []; PT "element" 5 6 [PT "rulename" 5 6 []]]]]];
        PT "c-nl" 6 8 []]].
Definition own_text : list Z := bytes "a =2*b" ++ [13%Z; 10%Z].
Example C39_case : exists st, eval_tree false id_order core_rules own_text own_tree = EvOk st /\
  rules_of st = [mkRule "a" [[Rep 2 inf (ERule "b")]]].
Proof. eexists. split; [vm_compute; reflexivity|vm_compute; reflexivity]. Qed.

(** ** C41 *)
Local Open Scope Z_scope.

Lemma decimal_dec s : forall acc, dec_val acc s = decimal acc s.
Proof.
  induction s as [|c s IH]; intros acc; cbn [dec_val decimal]; auto.
  destruct ((48 <=? c) && (c <=? 57)); auto. rewrite IH. f_equal. lia.
Qed.
Lemma decimal_nonneg s : forall acc v, 0 <= acc -> decimal acc s = Some v -> 0 <= v.
Proof.
  induction s as [|c s IH]; intros acc v A; cbn [decimal].
  - intros H; inversion H; lia.
  - destruct ((48 <=? c) && (c <=? 57)) eqn:E; [|discriminate]. apply andb_true_iff in E as [E1 E2].
    apply IH. lia.
Qed.
Lemma decimal_digits s : forall acc v, decimal acc s = Some v -> Forall (fun c => 48 <= c <= 57) s.
Proof.
  induction s as [|c s IH]; intros acc v; cbn [decimal]; [constructor|].
  destruct ((48 <=? c) && (c <=? 57)) eqn:E; [|discriminate]. apply andb_true_iff in E as [E1 E2].
  intros H. constructor; [lia|eauto].
Qed.
Lemma atoi_digits s v : digits_denote s v -> atoi s = Z.min v max_int.
Proof.
  intros [N D]. unfold atoi. destruct s as [|c s]; [congruence|].
  pose proof (decimal_digits _ _ _ D) as F. inversion F as [|? ? F1 F2]; subst.
  assert (X : match c :: s with 43 :: r => (false, r) | 45 :: r => (true, r) | _ => (false, c :: s) end = (false, c :: s)).
  { destruct c as [|p|p]; try reflexivity.
    do 6 (destruct p as [p|p|]; try reflexivity; try lia). }
  rewrite X. rewrite decimal_dec, D. reflexivity.
Qed.
Lemma cut_digits s rest : Forall (fun c => 48 <= c <= 57) s -> cut 42 (s ++ 42 :: rest) = Some (s, rest).
Proof.
  induction s as [|c s IH]; intros F; cbn [cut app]; auto. inversion F as [|? ? F1 F2]; subst.
  destruct (Z.eqb_spec c 42); [lia|]. rewrite IH by auto. reflexivity.
Qed.
Lemma cut_none s : Forall (fun c => 48 <= c <= 57) s -> cut 42 s = None.
Proof.
  induction s as [|c s IH]; intros F; cbn [cut]; auto. inversion F as [|? ? F1 F2]; subst.
  destruct (Z.eqb_spec c 42); [lia|]. rewrite IH by auto. reflexivity.
Qed.

(** Bounds are read exactly up to the largest int, and saturate beyond it.
    Missing for the full statement: bounds above the largest int. *)
Theorem C41_repeat_bounds_saturate : forall s mn mx, repeat_denotes s mn mx ->
  parse_repeat s = (saturate mn, saturate mx).
Proof.
  intros s mn mx H. unfold parse_repeat.
  assert (Sat : forall s v, digits_denote s v -> saturate v = atoi s).
  { intros s0 v D. rewrite (atoi_digits _ _ D). destruct D as [_ D]. apply decimal_nonneg in D; [|lia].
    unfold saturate, max_int, inf. destruct (Z.eqb_spec v (-1)); lia. }
  assert (Dig : forall s v, digits_denote s v -> Forall (fun c => 48 <= c <= 57) s).
  { intros s0 v [_ D]. eapply decimal_digits; eauto. }
  inversion H as [s0 n D|  |s0 n D|s0 m D|s0 n s1 m D D']; subst.
  - rewrite cut_none by eauto. rewrite (Sat _ _ D). reflexivity.
  - reflexivity.
  - rewrite cut_digits by eauto. rewrite (Sat _ _ D). destruct D as [N _]. destruct s0; [congruence|reflexivity].
  - cbn [cut]. change (42 =? 42) with true. cbv iota. rewrite (Sat _ _ D). destruct D as [N _]. destruct s0; [congruence|reflexivity].
  - rewrite cut_digits by eauto. rewrite (Sat _ _ D), (Sat _ _ D'). destruct D as [N _], D' as [N' _].
    destruct s0; [congruence|]. destruct s1; [congruence|]. reflexivity.
Qed.

Theorem C41_repeat_bounds_partial : forall s mn mx, repeat_denotes s mn mx ->
  mn <= max_int -> mx <= max_int -> parse_repeat s = (mn, mx).
Proof.
  intros s mn mx H A B. rewrite (C41_repeat_bounds_saturate _ _ _ H).
  assert (S : forall v, v <= max_int -> saturate v = v).
  { intros v L. unfold saturate, max_int in *. destruct (Z.eqb_spec v inf) as [->|]; auto. lia. }
  rewrite !S; auto.
Qed.

(** 20 nines: the bound does not fit an int. *)
Theorem C41_repeat_bounds_refuted : exists s mn mx, repeat_denotes s mn mx /\ parse_repeat s <> (mn, mx).
Proof.
  exists (bytes "99999999999999999999"), 99999999999999999999, 99999999999999999999. split.
  - apply rd_exact. split; [discriminate|]. vm_compute. reflexivity.
  - vm_compute. discriminate.
Qed.

(** The saturated bounds have the same language on words that fit in memory. *)
Lemma pow_len_word g e n w : in_pow g e n w -> (forall w', in_elem g e w' -> w' <> []) -> (n <= length w)%nat.
Proof.
  intros H N. remember e as e0 eqn:E in H. induction H as [|e0 n w1 w2 E1 H IH]; [lia|]. subst e0.
  rewrite app_length. specialize (IH eq_refl). pose proof (N _ E1). destruct w1; [congruence|]. cbn [length]. lia.
Qed.
Lemma pow_drop_empty g e : forall n w, in_pow g e n w -> forall m, (length w <= m <= n)%nat -> in_pow g e m w.
Proof.
  intros n w H. remember e as e0 eqn:E in H. induction H as [e0|e0 n w1 w2 E1 H IH]; subst e0; intros m L.
  - destruct m; [constructor|lia].
  - rewrite app_length in L. destruct w1 as [|b w1].
    + cbn [length] in L. destruct (Nat.eq_dec m (S n)) as [->|].
      * apply (in_pow_S g e n [] w2); auto.
      * apply IH; auto. lia.
    + cbn [length] in L. destruct m; [lia|]. constructor; auto. apply IH; auto. lia.
Qed.
Lemma pow_more g e : forall n w, in_pow g e n w -> in_elem g e [] -> forall m, (n <= m)%nat -> in_pow g e m w.
Proof.
  intros n w H N m L. induction L as [|m L IH]; auto. apply (in_pow_S g e m [] w); auto.
Qed.
Lemma pow_has_empty g e : forall n w, in_pow g e n w -> (length w < n)%nat -> in_elem g e [].
Proof.
  intros n w H. remember e as e0 eqn:E in H. induction H as [e0|e0 n w1 w2 E1 H IH]; subst e0; intros L; [lia|].
  destruct w1 as [|b w1]; auto. rewrite app_length in L. cbn [length] in L. apply IH; auto. lia.
Qed.

Theorem C41_saturation_harmless : forall g e s mn mx w, repeat_denotes s mn mx ->
  (mx = inf \/ mn <= mx) -> Z.of_nat (length w) < max_int ->
  let '(mn', mx') := parse_repeat s in
  in_rep g (Rep mn' mx' e) w <-> in_rep g (Rep mn mx e) w.
Proof.
  intros g e s mn mx w H O L. rewrite (C41_repeat_bounds_saturate _ _ _ H).
  assert (P : 0 <= mn /\ (mx = inf \/ 0 <= mx)).
  { inversion H as [s0 n [_ D]|  |s0 n [_ D]|s0 m [_ D]|s0 n s1 m [_ D] [_ D']]; subst;
      repeat match goal with D : decimal 0 _ = Some _ |- _ => apply decimal_nonneg in D; [|lia] end; unfold inf; lia. }
  assert (M : 0 < max_int) by reflexivity.
  unfold saturate; change (2 ^ 63 - 1) with max_int. destruct (Z.eqb_spec mn inf) as [E|_]; [unfold inf in E; lia|].
  split; intros R; inversion R as [? ? ? n ? B1 B2 PW]; subst.
  - destruct (Z.eqb_spec mx inf) as [E|E].
    + destruct (Z_le_gt_dec mn (Z.of_nat n)) as [G|G]; [econstructor; eauto|].
      assert (in_elem g e []) as NE by (eapply pow_has_empty; eauto; lia).
      apply (in_rep_intro g mn mx e (Z.to_nat mn)); [lia|auto|]. eapply pow_more; eauto. lia.
    + destruct B2 as [B2|B2]; [unfold inf in *; lia|].
      destruct (Z_le_gt_dec mn (Z.of_nat n)) as [G|G]; [econstructor; eauto; lia|].
      assert (in_elem g e []) as NE by (eapply pow_has_empty; eauto; lia).
      apply (in_rep_intro g mn mx e (Z.to_nat mn)); [lia|unfold inf in *; lia|]. eapply pow_more; eauto. lia.
  - destruct (Z.eqb_spec mx inf) as [E|E].
    + apply (in_rep_intro g _ inf e n); auto; [lia]. 
    + destruct (Z_le_gt_dec (Z.of_nat n) max_int) as [G|G].
      * econstructor; eauto; [lia|]. unfold inf in *; lia.
      * apply (in_rep_intro g _ _ e (Z.to_nat max_int)); [lia|unfold inf in *; lia|].
        eapply pow_drop_empty; eauto. lia.
Qed.

Example C41_case :
  parse_repeat (bytes "3*12") = (3, 12) /\ repeat_denotes (bytes "3*12") 3 12 /\
  parse_repeat (bytes "*") = (0, inf) /\ parse_repeat (bytes "7*") = (7, inf) /\
  parse_repeat (bytes "*7") = (0, 7) /\ parse_repeat (bytes "007") = (7, 7).
Proof.
  split; [vm_compute; reflexivity|]. split.
  { apply (rd_both (bytes "3") 3 (bytes "12") 12); (split; [discriminate|vm_compute; reflexivity]). }
  split; [vm_compute; reflexivity|]. split; [vm_compute; reflexivity|]. split; vm_compute; reflexivity.
Qed.

Print Assumptions C38_definitions_merge_partial.
Print Assumptions C38_redefine_merge_partial.
Print Assumptions C38_redefine_merge_refuted.
Print Assumptions C38_tree_merge.
Print Assumptions C39_core_rules_unchanged_partial.
Print Assumptions C39_history_unchanged_partial.
Print Assumptions C39_core_rules_unchanged_refuted.
Print Assumptions C41_repeat_bounds_saturate.
Print Assumptions C41_repeat_bounds_partial.
Print Assumptions C41_repeat_bounds_refuted.
Print Assumptions C41_saturation_harmless.
