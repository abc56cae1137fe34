(** C31, C32: Grammar.TransitionGraph. *)
(** The definitions here are those of statements, proofs and examples; they model no code. *)
From Coq Require Import ZArith Arith String Bool Relations Permutation List Lia.
From Verif Require Import Syntax Spec Num PrintInj Check Occ Deps Dag Cycle LeftRec LowerLang PropSem PropDag RecogGlue PropRecog RegexBuild RegexSpec.
From Verif Require Import Graph GraphSpec GraphRun GraphClone GraphRep GraphRepeat GraphLive GraphBuild GraphTotal.
Import ListNotations.
Local Open Scope string_scope.
Local Open Scope list_scope.
Local Open Scope Z_scope.

(** Sizes of Go slices: what keeps the count of nodes from overflowing. *)
Definition slices_small (g : grammar) : Prop :=
  (forall s vs, occ_elem g (EChar s vs) -> Z.of_nat (length vs) < 2 ^ 62) /\
  (forall b k es, occ_elem g (ENum b k es) -> Z.of_nat (length es) < 2 ^ 63).
Definition series_single (g : grammar) : Prop :=
  forall b es, occ_elem g (ENum b StatSeries es) -> length es = 1%nat.

(** ** Runs and paths *)
Lemma last_change {A} (l : list A) d d' : l <> [] -> last l d = last l d'.
Proof.
  induction l as [|x l IH]; [contradiction|]. intros _. destruct l as [|y l]; [reflexivity|]. change (last (y :: l) d = last (y :: l) d'). apply IH. discriminate.
Qed.
Lemma run_path g h a b w : run (in_elem g) h a b w <->
  exists p ws, linked h (a :: p) /\ last (a :: p) a = b /\ Forall2 (node_word g h) (a :: p) ws /\ w = concat ws.
Proof.
  assert (NW : forall a w, nword (in_elem g) h a w <-> node_word g h a w).
  { intros x v. unfold nword, node_word, label. split.
    - intros (e & E & H). destruct (nth_error h x) as [n|]; [|discriminate]. injection E as <-. eauto.
    - intros (n & E & H). rewrite E. exists (n_elem n). auto. }
  split.
  - induction 1 as [a w H|a b c w1 w2 H1 H2 _ (p & ws & L & E & F & ->)].
    + exists [], [w]. split; [exact Logic.I|]. split; [reflexivity|]. split; [constructor; [apply NW, H|constructor]|]. cbn. symmetry. apply app_nil_r.
    + exists (b :: p), (w1 :: ws). split; [split; [exact H2|exact L]|]. split; [|split; [constructor; [apply NW, H1|exact F]|reflexivity]].
      change (last (a :: b :: p) a) with (last (b :: p) a). rewrite <- E. apply last_change. discriminate.
  - intros (p & ws & L & <- & F & ->). revert a ws L F. induction p as [|x p IH]; intros a ws L F.
    + inversion F as [|? w ? ws' H1 H2]; subst. inversion H2; subst. cbn. rewrite app_nil_r. apply run_one, NW, H1.
    + inversion F as [|? w ? ws' H1 H2]; subst. destruct L as [L1 L2]. cbn [concat]. eapply run_cons; [apply NW, H1|exact L1|].
      change (last (a :: x :: p) a) with (last (x :: p) a). rewrite (last_change (x :: p) a x) by discriminate.
      apply IH; [exact L2|exact H2].
Qed.
Lemma glang_path g t w : (In None (tg_entry t) -> In None (tg_ends t)) ->
  glang (in_elem g) (tg_heap t) (tg_entry t) (tg_ends t) w <-> exists p, path t p /\ spells g t p w.
Proof.
  intros N. unfold glang, between, upto. split.
  - intros [(I & ->)|(b & Ib & a & Ia & R)].
    + exists []. split; [split; auto|]. exists []. split; [constructor|reflexivity].
    + apply run_path in R as (p & ws & L & <- & F & ->). exists (a :: p). split; [split; [exact Ia|split; assumption]|]. exists ws. auto.
  - intros ([|a p] & P & ws & F & ->).
    + inversion F; subst. left. destruct P. auto.
    + right. destruct P as (Ia & Ib & L). exists (last (a :: p) a). split; [exact Ib|]. exists a. split; [exact Ia|]. apply run_path. exists p, ws. auto.
Qed.
Lemma ok_shape fuel opts g g1 g2 order n t c : wf_grammar g -> transition_graph fuel opts g g1 g2 order n = TG_ok t c ->
  exists R, gr (in_elem (meant (o_numvals opts) g)) 0 (tg_heap t) R (tg_entry t) (tg_ends t) (Lang (meant (o_numvals opts) g) n) /\
    (budget opts -> slices_small g -> Z.of_nat (length R) <= c <= o_max opts).
Proof.
  intros Wf E. unfold transition_graph in E. destruct (get_rule n g) as [r|] eqn:G; [|discriminate].
  destruct (if o_rules opts then semval_abnf g1 g2 g else None); [discriminate|].
  destruct (rule_contains_cycle g order n) as [|[]|]; try discriminate.
  pose proof (top_good g opts (proj1 Wf) (proj2 (wf_occ g Wf)) fuel n r G) as K.
  destruct (alt_graph opts (rule_graph fuel opts g) (rule_alt r) (mkT [] [] 0)) as [i o st|e| |]; try discriminate.
  destruct K as (R & [D1 D2 D3 D4 _] & _). injection E as <- <-. exists R. split; [exact D1|].
  intros B S. destruct (D4 (conj B S)) as [[X1 X2] X3]; [destruct B; split; cbn [t_count]; lia|]. cbn [t_count] in *. lia.
Qed.

Lemma ok_live fuel opts g g1 g2 order n t c : wf_grammar g -> filled opts g -> transition_graph fuel opts g g1 g2 order n = TG_ok t c ->
  lv (tg_heap t) (tg_entry t) (tg_ends t) /\ tg_entry t <> [].
Proof.
  intros Wf Fl E. unfold transition_graph in E. destruct (get_rule n g) as [r|] eqn:G; [|discriminate].
  destruct (if o_rules opts then semval_abnf g1 g2 g else None); [discriminate|].
  destruct (rule_contains_cycle g order n) as [|[]|]; try discriminate.
  pose proof (top_good g opts (proj1 Wf) (proj2 (wf_occ g Wf)) fuel n r G) as K.
  destruct (alt_graph opts (rule_graph fuel opts g) (rule_alt r) (mkT [] [] 0)) as [i o st|e| |]; try discriminate.
  destruct K as (R & D & Ne). injection E as <- <-. split; [exact (do_live _ _ _ _ _ _ _ _ D Fl)|exact (Ne Fl)].
Qed.

(** ** C31 *)
Theorem C31_graph_spells : forall fuel opts g g1 g2 order n t c, wf_grammar g -> o_numvals opts = false ->
  transition_graph fuel opts g g1 g2 order n = TG_ok t c ->
  forall w, Lang g n w <-> exists p, path t p /\ spells g t p w.
Proof.
  intros fuel opts g g1 g2 order n t c Wf D E w. destruct (ok_shape _ _ _ _ _ _ _ _ _ Wf E) as (R & G & _). rewrite D in G. cbn [meant] in G.
  rewrite <- (gr_lang _ _ _ _ _ _ _ G w). apply glang_path, (gr_none _ _ _ _ _ _ _ G).
Qed.
(** With deflateNumVals: the language of the grammar whose series are alternatives. *)
Theorem C31_graph_spells_deflated : forall fuel opts g g1 g2 order n t c, wf_grammar g -> o_numvals opts = true ->
  transition_graph fuel opts g g1 g2 order n = TG_ok t c ->
  forall w, Lang (split_series g) n w <-> exists p, path t p /\ spells (split_series g) t p w.
Proof.
  intros fuel opts g g1 g2 order n t c Wf D E w. destruct (ok_shape _ _ _ _ _ _ _ _ _ Wf E) as (R & G & _). rewrite D in G. cbn [meant] in G.
  rewrite <- (gr_lang _ _ _ _ _ _ _ G w). apply glang_path, (gr_none _ _ _ _ _ _ _ G).
Qed.
Lemma split_same g : series_single g -> split_series g = g.
Proof.
  intros S.
  assert (K : (forall e, occ_elem g e -> split_elem e = e) /\ (forall r, occ_rep g r -> split_rep r = r)).
  { assert (Sub : forall a, Forall (Forall (fun r => occ_rep g r -> split_rep r = r)) a -> (forall c x, In c a -> In x c -> occ_rep g x) -> map (map split_rep) a = a).
    { intros a F Oc. rewrite <- (map_id a) at 2. apply map_ext_in. intros c Ic. rewrite <- (map_id c) at 2. apply map_ext_in. intros x Ix.
      rewrite Forall_forall in F. specialize (F c Ic). rewrite Forall_forall in F. apply (F x Ix). eapply Oc; eassumption. }
    apply elem_rep_ind; try reflexivity.
    - intros a F Oc. change (split_elem (EGroup a)) with (EGroup (map (map split_rep) a)). f_equal. apply Sub; [exact F|]. intros c x. apply occ_rep_group, Oc.
    - intros a F Oc. change (split_elem (EOption a)) with (EOption (map (map split_rep) a)). f_equal. apply Sub; [exact F|]. intros c x. apply occ_rep_option, Oc.
    - intros b [] es Oc; [|reflexivity]. specialize (S b es Oc). destruct es as [|x [|y es]]; try discriminate. reflexivity.
    - intros mn mx e F Oc. change (split_rep (Rep mn mx e)) with (Rep mn mx (split_elem e)). f_equal. apply F. econstructor. exact Oc. }
  unfold split_series. rewrite <- (map_id g) at 2. apply map_ext_in. intros [rn ra] Ir. f_equal. cbn [rule_alt].
  rewrite <- (map_id ra) at 2. apply map_ext_in. intros c Ic. rewrite <- (map_id c) at 2. apply map_ext_in. intros x Ix.
  apply (proj2 K). eapply occ_rep_rule; [apply in_or_app; left; exact Ir|exact Ic|exact Ix].
Qed.
Corollary C31_graph_spells_single_partial : forall fuel opts g g1 g2 order n t c, wf_grammar g ->
  o_numvals opts = false \/ series_single g ->
  transition_graph fuel opts g g1 g2 order n = TG_ok t c ->
  forall w, Lang g n w <-> exists p, path t p /\ spells g t p w.
Proof.
  intros fuel opts g g1 g2 order n t c Wf D E. destruct (o_numvals opts) eqn:O; [|exact (C31_graph_spells _ _ _ _ _ _ _ _ _ Wf O E)].
  destruct D as [D|D]; [discriminate|]. pose proof (C31_graph_spells_deflated _ _ _ _ _ _ _ _ _ Wf O E) as K.
  rewrite (split_same g D) in K. exact K.
Qed.
(** How a construction ends. *)
Theorem C31_graph_outcome : forall fuel opts g g1 g2 order n, wf_grammar g -> lex_grammar g = true ->
  key_order (dependency_graph g) order -> Permutation g1 g -> Permutation g2 g -> (length (names g) < fuel)%nat ->
  match transition_graph fuel opts g g1 g2 order n with
  | TG_ok _ _ => (exists a, resolves g n a) /\ ~ exists m, clos_refl_trans _ (gref g) n m /\ clos_trans _ (gref g) m m
  | TG_err (TE_not_found m) => forall a, ~ resolves g m a
  | TG_err (TE_invalid _) => o_rules opts = true /\ ~ (refs_defined g /\ bounds_ordered g /\ nums_in_unicode g)
  | TG_err TE_cyclic => exists m, clos_refl_trans _ (gref g) n m /\ clos_trans _ (gref g) m m
  | TG_err TE_threshold => exists mn mx e, occ_rep g (Rep mn mx e) /\ (o_threshold opts < mx \/ o_threshold opts < mn)
  | TG_err TE_min_not_one | TG_err TE_min_gt_max => exists mn mx e, occ_rep g (Rep mn mx e) /\ mx <> inf /\ mx < mn
  | TG_err TE_max_nodes => 0 < o_max opts
  | TG_err TE_prose => exists v, occ_elem g (EProse v)
  | TG_panic | TG_fuel => False
  end.
Proof.
  intros fuel opts g g1 g2 order n Wf Lx O P1 P2 F. unfold transition_graph. destruct (get_rule n g) as [r|] eqn:G.
  2: { intros a Ra. assert (X : exists a, resolves g n a) by eauto. apply get_rule_some in X as (r & X). congruence. }
  destruct (if o_rules opts then semval_abnf g1 g2 g else None) as [e|] eqn:Es.
  { destruct (o_rules opts); [|discriminate]. split; [reflexivity|]. intros X.
    apply (C17_semval_exact g g1 g2 P1 P2 (proj2 Wf)) in X. congruence. }
  pose proof (C20_rule_contains_cycle_exact g order n (proj1 Wf) O) as C.
  destruct (rule_contains_cycle g order n) as [|[]|]; [exact C|apply C; reflexivity| |exact C].
  destruct C as [C1 C2].
  assert (A : ~ exists m, clos_refl_trans _ (gref g) n m /\ clos_trans _ (gref g) m m) by (rewrite <- C2; discriminate).
  pose proof (top_fine g opts Wf Lx fuel n r (mkT [] [] 0) G A F) as K.
  destruct (alt_graph opts (rule_graph fuel opts g) (rule_alt r) (mkT [] [] 0)) as [i o st|e| |]; cbn [fine] in K; [split; assumption| |exact K|exact K].
  destruct e; cbn [reason] in K; try exact K; destruct K.
Qed.

(** ** C32 *)
Lemma in_graph_region t R : closed (tg_heap t) R -> (forall a, In (Some a) (tg_entry t) -> In a R) -> forall b, in_graph t b -> In b R.
Proof.
  intros C S b (p & a & Ia & L & <-). apply S in Ia. clear S. revert a Ia L. induction p as [|x p IH]; intros a Ia L; [exact Ia|].
  destruct L as [L1 L2]. change (last (a :: x :: p) a) with (last (x :: p) a). rewrite (last_change (x :: p) a x) by discriminate.
  apply IH; [|exact L2]. eapply C; [exact Ia|exact L1].
Qed.
(** The nodes of the graph returned are within the count kept, itself within the
    budget, as long as products do not overflow. *)
Theorem C32_nodes_bounded_partial : forall fuel opts g g1 g2 order n t c l, wf_grammar g -> slices_small g ->
  0 < o_max opts < 2 ^ 63 -> o_threshold opts * o_max opts < 2 ^ 63 ->
  transition_graph fuel opts g g1 g2 order n = TG_ok t c ->
  NoDup l -> (forall a, In a l -> in_graph t a) -> Z.of_nat (length l) <= c <= o_max opts.
Proof.
  intros fuel opts g g1 g2 order n t c l Wf Ss B1 B2 E Nd I. destruct (ok_shape _ _ _ _ _ _ _ _ _ Wf E) as (R & G & K).
  specialize (K (conj B1 B2) Ss).
  assert (X : (length l <= length R)%nat).
  { apply NoDup_incl_length; [exact Nd|]. intros a Ia. apply (in_graph_region t R); [apply G|apply G|apply I, Ia]. }
  lia.
Qed.

(** ** Cases *)
Definition g31 : grammar :=
  [mkRule "line" [[Rep 1 2 (EGroup [[Rep 0 inf (EChar false [97])]; [Rep 1 1 (ERule "Sub")]]); Rep 1 1 (EOption [[Rep 2 2 (ERule "SUB")]])]];
   mkRule "sub" [[Rep 1 1 (ENum "x" StatRange ["31"; "32"])]; [Rep 1 1 (ENum "x" StatRange ["66"; "61"])]; [Rep 1 1 (ENum "x" StatSeries ["E9"])]]].
Definition keys (g : grammar) : list string := map fst (dependency_graph g).
Lemma keys_order g : key_order (dependency_graph g) (keys g).
Proof. intros x. reflexivity. Qed.
Definition single_repb (x : rep) : bool := match rep_elem x with ENum _ StatSeries es => Nat.eqb (length es) 1 | _ => true end.
Lemma single_ok g : forallb single_repb (grammar_reps g) = true -> series_single g.
Proof.
  rewrite forallb_forall. intros H b es O. inversion O as [mn mx e O1]; subst. apply occ_rep_listed in O1. specialize (H _ O1).
  unfold single_repb in H. cbn [rep_elem] in H. apply Nat.eqb_eq, H.
Qed.
Definition small_sliceb (x : rep) : bool := match rep_elem x with EChar _ vs => Nat.ltb (length vs) 100 | ENum _ _ es => Nat.ltb (length es) 100 | _ => true end.
Lemma slices_ok g : forallb small_sliceb (grammar_reps g) = true -> slices_small g.
Proof.
  rewrite forallb_forall. intros H. split.
  - intros s vs O. inversion O as [mn mx e O1]; subst. apply occ_rep_listed in O1. specialize (H _ O1). unfold small_sliceb in H. cbn [rep_elem] in H. apply Nat.ltb_lt in H. lia.
  - intros b k es O. inversion O as [mn mx e O1]; subst. apply occ_rep_listed in O1. specialize (H _ O1). unfold small_sliceb in H. cbn [rep_elem] in H. apply Nat.ltb_lt in H. lia.
Qed.
Definition o31 : tgoptions := mkOpts true true true 256 200.
Definition t31 : tgraph := match transition_graph 30 o31 g31 g31 g31 (keys g31) "line" with TG_ok t _ => t | _ => mkTG [] [] [] end.
Lemma bump_word g t p w v a n : nth_error (tg_heap t) a = Some n -> in_elem g (n_elem n) v -> spells g t p w -> spells g t (a :: p) (v ++ w).
Proof. intros E H (ws & F & ->). exists (v :: ws). split; [constructor; [exists n; auto|exact F]|reflexivity]. Qed.
Lemma char_word g v : scalar v -> in_elem g (EChar true [v]) (utf8 v).
Proof. intros S. replace (utf8 v) with (utf8s [v]) by (cbn; apply app_nil_r). apply in_char; constructor; auto; reflexivity. Qed.
Lemma num_word g b s v : numeral b s = Some v -> scalar v -> in_elem g (ENum b StatSeries [s]) (utf8 v).
Proof. intros E S. replace (utf8 v) with (utf8s [v]) by (cbn; apply app_nil_r). apply in_series; constructor; auto. Qed.
Example C31_C32_case : wf_grammar g31 /\ lex_grammar g31 = true /\ series_single g31 /\ slices_small g31 /\ (length (names g31) < 30)%nat /\
  transition_graph 30 o31 g31 g31 g31 (keys g31) "line" = TG_ok t31 22 /\
  path t31 [1; 12; 19; 20]%nat /\ spells g31 t31 [1; 12; 19; 20]%nat [65; 50; 195; 169; 49] /\ Lang g31 "line" [65; 50; 195; 169; 49] /\
  in_graph t31 20 /\ 0 < o_max o31 < 2 ^ 63 /\ o_threshold o31 * o_max o31 < 2 ^ 63.
Proof.
  assert (W : wf_grammar g31) by (apply wf_grammarb_spec; vm_compute; reflexivity).
  assert (S : series_single g31) by (apply single_ok; vm_compute; reflexivity).
  assert (E : transition_graph 30 o31 g31 g31 g31 (keys g31) "line" = TG_ok t31 22) by (vm_compute; reflexivity).
  assert (L : linked (tg_heap t31) [1; 12; 19; 20]%nat) by (vm_compute; tauto).
  assert (P : path t31 [1; 12; 19; 20]%nat) by (split; [vm_compute; tauto|split; [vm_compute; tauto|exact L]]).
  assert (Sp : spells g31 t31 [1; 12; 19; 20]%nat [65; 50; 195; 169; 49]).
  { apply (bump_word _ _ _ [50; 195; 169; 49] [65] 1 (nth 1 (tg_heap t31) (mkNode (EProse []) []))); [vm_compute; reflexivity|apply (char_word _ 65); unfold scalar; lia|].
    apply (bump_word _ _ _ [195; 169; 49] [50] 12 (nth 12 (tg_heap t31) (mkNode (EProse []) []))); [vm_compute; reflexivity|apply (num_word _ "x" "32" 50); [reflexivity|unfold scalar; lia]|].
    apply (bump_word _ _ _ [49] [195; 169] 19 (nth 19 (tg_heap t31) (mkNode (EProse []) []))); [vm_compute; reflexivity|apply (num_word _ "x" "E9" 233); [reflexivity|unfold scalar; lia]|].
    apply (bump_word _ _ _ [] [49] 20 (nth 20 (tg_heap t31) (mkNode (EProse []) []))); [vm_compute; reflexivity|apply (num_word _ "x" "31" 49); [reflexivity|unfold scalar; lia]|].
    exists []. split; [constructor|reflexivity]. }
  split; [exact W|]. split; [vm_compute; reflexivity|]. split; [exact S|]. split; [apply slices_ok; vm_compute; reflexivity|].
  split; [vm_compute; lia|]. split; [exact E|]. split; [exact P|]. split; [exact Sp|]. split.
  - apply (C31_graph_spells_single_partial 30 o31 g31 g31 g31 (keys g31) "line" t31 22 W (or_intror S) E). eauto.
  - split; [|cbn; lia]. exists [12; 19; 20]%nat, 1%nat. split; [vm_compute; tauto|]. split; [exact L|reflexivity].
Qed.

(** ** What fails *)
(** With deflateNumVals a series of values is taken as alternatives. *)
Definition g_series : grammar := [mkRule "a" [[Rep 1 1 (ENum "x" StatSeries ["61"; "62"])]]].
Theorem C31_series_refuted : exists fuel opts g order n t c p w, wf_grammar g /\ lex_grammar g = true /\
  transition_graph fuel opts g g g order n = TG_ok t c /\ path t p /\ spells g t p w /\ ~ Lang g n w.
Proof.
  exists 30%nat, (mkOpts true true true 256 0), g_series, (keys g_series), "a",
    (mkTG [mkNode (ENum "x" StatSeries ["61"]) []; mkNode (ENum "x" StatSeries ["62"]) []] [Some 0%nat; Some 1%nat] [Some 0%nat; Some 1%nat]), 0, [1%nat], [98].
  split; [apply wf_grammarb_spec; vm_compute; reflexivity|]. split; [vm_compute; reflexivity|]. split; [vm_compute; reflexivity|].
  split; [split; [cbn; tauto|split; [cbn; tauto|exact Logic.I]]|]. split.
  - apply (bump_word _ _ _ [] [98] 1 (mkNode (ENum "x" StatSeries ["62"]) [])); [reflexivity|apply (num_word _ "x" "62" 98); [reflexivity|unfold scalar; lia]|].
    exists []. split; [constructor|reflexivity].
  - intros H. apply (lang_user g_series "a" _ _ ltac:(apply wf_distinct; vm_compute; reflexivity) eq_refl) in H.
    inversion H as [c ? ? I K]; subst. destruct I as [<-|[]]. inversion K as [|? ? w1 w2 K1 K2 E1 E2]; subst. inversion K2; subst.
    inversion K1 as [? ? ? k ? B1 B2 P]; subst. destruct B2 as [B2|B2]; [discriminate|]. assert (k = 1)%nat as -> by lia.
    inversion P as [|? ? w5 w6 P1 P2]; subst. inversion P2; subst. inversion P1 as [| | | | |? ? rs F1 F2|]; subst.
    inversion F1 as [|? x ? rs1 N1 F3]; subst. inversion F3 as [|? y ? rs2 N2 F4]; subst. inversion F4; subst.
    vm_compute in N1. vm_compute in N2. injection N1 as <-. injection N2 as <-. discriminate E2.
Qed.
(** More nodes are allocated than the budget allows: a clone is made again for every
    entry point, also when it was reached from an earlier one. *)
Theorem C32_allocations_refuted : exists fuel opts g order n t c, wf_grammar g /\ lex_grammar g = true /\
  0 < o_max opts < 2 ^ 63 /\ o_threshold opts * o_max opts < 2 ^ 63 /\
  transition_graph fuel opts g g g order n = TG_ok t c /\ o_max opts < Z.of_nat (length (tg_heap t)).
Proof.
  exists 30%nat, (mkOpts true true true 256 22), g31, (keys g31), "line", t31, 22.
  split; [apply wf_grammarb_spec; vm_compute; reflexivity|]. split; [vm_compute; reflexivity|].
  split; [cbn; lia|]. split; [cbn; lia|]. split; [vm_compute; reflexivity|]. vm_compute. reflexivity.
Qed.
(** The product computed for a number of copies may wrap: [2^62] copies of four nodes
    are within a budget of ten nodes. *)
Theorem C32_copies_wrap_refuted : exists opts k entries st st', 0 < o_max opts /\ 0 <= k <= o_threshold opts /\ k < 2 ^ 63 /\
  0 <= t_count st <= o_max opts /\ count_reachable (t_heap st) entries <= t_count st /\
  reserve_clones opts k entries st = Some st' /\ o_max opts < k * count_reachable (t_heap st) entries.
Proof.
  set (h := repeat (mkNode (EChar true [97]) []) 4).
  exists (mkOpts true true true (2 ^ 62) 10), (2 ^ 62), [Some 0; Some 1; Some 2; Some 3]%nat, (mkT h [] 4), (mkT h [] 4).
  split; [cbn; lia|]. split; [cbn; lia|]. split; [lia|]. split; [cbn; lia|]. split; [vm_compute; discriminate|].
  split; [vm_compute; reflexivity|]. vm_compute. reflexivity.
Qed.

Print Assumptions C31_graph_spells.
Print Assumptions C31_graph_spells_deflated.
Print Assumptions C31_graph_spells_single_partial.
Print Assumptions C31_graph_outcome.
Print Assumptions C31_C32_case.
Print Assumptions C31_series_refuted.
Print Assumptions C32_nodes_bounded_partial.
Print Assumptions C32_allocations_refuted.
Print Assumptions C32_copies_wrap_refuted.
