(** Claim C80: what the bounds of repetitions and the budgets do to the cost of the engines. *)
From Coq Require Import ZArith Arith String Bool List Permutation Lia.
From Verif Require Import Syntax Spec Utf8 Num Term Printer Slots Gll GllUniv Bsr BsrProof BsrTerm Sppf SppfProof
  LowerProof LowerLang LowerBudget Check Occ PropGll ParseAbnf Cost CostProof CostLow PropCost LowerSize CounterCost.
Import ListNotations.
Local Open Scope string_scope.
Local Open Scope list_scope.
Local Open Scope nat_scope.

(** ** The slotted grammar does not grow with the bounds *)
Lemma reps_size g : 2 * length (grammar_reps g) <= 3 * size g.
Proof.
  pose proof (nits_w g) as H. unfold nits in H. rewrite map_app, list_sum_app, sum_flat in H.
  assert (Q : 8 * length (grammar_reps g) <= list_sum (map (fun x => list_sum (map nit_w [NRep x; NElem (rep_elem x)])) (grammar_reps g))).
  { clear H. induction (grammar_reps g) as [|x l IH]; [cbn; lia|].
    set (f := fun x => list_sum (map nit_w [NRep x; NElem (rep_elem x)])) in *. change (map f (x :: l)) with (f x :: map f l).
    change (list_sum (f x :: map f l)) with (f x + list_sum (map f l)). change (length (x :: l)) with (S (length l)).
    assert (F : 8 <= f x) by (unfold f; cbn; lia). lia. }
  lia.
Qed.
Theorem C80_lowering_size : forall g root max_slots fuel sg, compile_slots g root max_slots fuel = CS_ok sg ->
  length (sg_nts sg) <= 1 + 3 * size g /\
  list_sum (map (fun nt => list_sum (map (fun p => S (length p)) (nt_alts nt))) (sg_nts sg)) <= 10 * size g.
Proof.
  intros g root ms fuel sg C. destruct (compile_ok_represents _ _ _ _ _ C) as [idx Rp]. split.
  - pose proof (reps_size g) as Q. unfold compile_slots in C. destruct (get_rule root g); [|discriminate].
    destruct (lower_rule g ms fuel root ls_init) as [[id st]|] eqn:E; [|discriminate]. destruct (ls_over st); [discriminate|]. injection C as <-.
    pose proof (lowered _ _ _ _ _ _ E) as Ld. cbn [sg_nts].
    pose proof (index_len _ _ _ _ Ld). lia.
  - etransitivity; [|apply nits_w]. etransitivity; [|eapply weight_le; eauto]. unfold weight. apply sum_le. intros nt _. unfold alts_weight. apply sum_le. intros; lia.
Qed.
(** So no bound, however large, makes WithMaxSlots (sppf.go:641-645) fail: only the size does. *)
Theorem C80_slot_budget : forall g root max_slots fuel, (Z.of_nat (1 + 3 * size g) < max_slots)%Z ->
  compile_slots g root max_slots fuel <> CS_too_large.
Proof.
  intros g root ms fuel M C. unfold compile_slots in C. destruct (get_rule root g); [|discriminate].
  destruct (lower_rule g ms fuel root ls_init) as [[id st]|] eqn:E; [|discriminate]. destruct (ls_over st) eqn:O; [|discriminate].
  pose proof (lowered _ _ _ _ _ _ E) as Ld. pose proof (index_len _ _ _ _ Ld) as Q. pose proof (reps_size g). destruct (ld_over _ _ _ _ Ld O). lia.
Qed.

(** ** Time: a power of the size, of the largest bound and of the length of the input *)
Definition bounds_below (g : grammar) (B : nat) : Prop :=
  forall x, occ_rep g x -> (0 <= rep_min x <= Z.of_nat B)%Z /\ (rep_max x <= Z.of_nat B)%Z.

Lemma size_pos g : 1 <= size g.
Proof.
  unfold size. rewrite map_app, list_sum_app. assert (H : 1 <= list_sum (map (fun r => alt_size (rule_alt r)) core_rules)) by (vm_compute; lia). lia.
Qed.
Lemma constants g root ms fuel sg B : compile_slots g root ms fuel = CS_ok sg -> bounds_below g B ->
  nA sg + nQ sg * nD sg <= 21 * (10 * size g * (B + 1)) ^ 3 /\ nS sg <= 10 * size g.
Proof.
  intros C H. destruct (compile_ok_represents _ _ _ _ _ C) as [idx Rp].
  assert (Pl : Forall plain (sg_nts sg)).
  { unfold compile_slots in C. destruct (get_rule root g); [|discriminate].
    destruct (lower_rule g ms fuel root ls_init) as [[id st]|] eqn:E; [|discriminate]. destruct (ls_over st); [discriminate|]. injection C as <-.
    exact (ld_plain _ _ _ _ (lowered _ _ _ _ _ _ E)). }
  pose proof (nC_bound g root sg idx (Z.of_nat B) Rp Pl ltac:(lia) H) as HC. rewrite Nat2Z.id in HC.
  pose proof (Nat.le_trans _ _ _ (weight_le g root sg idx Rp) (nits_w g)) as W. pose proof (size_pos g) as P.
  pose proof (nS_weight sg) as HS. pose proof (nP_weight sg) as HP. pose proof (nA_weight sg) as HA.
  set (s := 10 * size g) in *. set (c := B + 1) in *. assert (P1 : 1 <= s) by (unfold s; lia). assert (P2 : 1 <= c) by (unfold c; lia).
  set (m := s * c) in *. assert (M1 : s <= m) by (unfold m; nia). assert (M0 : 1 <= m) by lia.
  assert (SC : nS sg * nC sg <= m) by (unfold m; apply Nat.mul_le_mono; lia).
  assert (G : nG sg <= 2 * m) by (unfold nG; lia).
  assert (Q : nQ sg <= 9 * m) by (unfold nQ; lia).
  assert (D : nD sg <= 2 * (m * m)).
  { unfold nD. replace (nS sg * nG sg * nC sg) with (nS sg * nC sg * nG sg) by ring.
    etransitivity; [apply Nat.mul_le_mono; [exact SC|exact G]|]. apply Nat.eq_le_incl. ring. }
  split; [|lia].
  assert (QD : nQ sg * nD sg <= 18 * (m * m * m)).
  { etransitivity; [apply Nat.mul_le_mono; [exact Q|exact D]|]. apply Nat.eq_le_incl. ring. }
  replace (m ^ 3) with (m * m * m) by (cbn [Nat.pow]; ring).
  assert (X : m <= m * m * m) by nia. lia.
Qed.

Theorem C80_time : forall g root B, bounds_below g B -> forall ord ord' fuel input max_slots max_nodes, map_order ord -> map_order ord' ->
  bsr_steps ord fuel input g root max_slots max_nodes <= 21 * (10 * size g * (B + 1)) ^ 3 * (length input + 1) ^ 3 /\
  fst (forest_steps ord' fuel input g root max_slots max_nodes) <= 21 * (10 * size g * (B + 1)) ^ 3 * (length input + 1) ^ 3 /\
  snd (forest_steps ord' fuel input g root max_slots max_nodes) <= 210 * size g * (10 * size g * (B + 1)) ^ 3 * (length input + 1) ^ 4.
Proof.
  intros g root B H ord ord' fuel input ms mn O O'. unfold bsr_steps, forest_steps.
  destruct (compile_slots g root ms fuel) as [sg| | |] eqn:C; cbn [fst snd]; try (repeat split; apply Nat.le_0_l).
  destruct (constants g root ms fuel sg B C H) as [K KS]. destruct (compile_ok_represents _ _ _ _ _ C) as [idx Rp].
  set (k := 21 * (10 * size g * (B + 1)) ^ 3) in *.
  pose proof (bc_parse_len sg input mn (fun t _ l => ord t l) (fun t _ l => O t l) (shape _ _ _ _ Rp) (start_plain _ _ _ _ Rp) fuel) as T1.
  destruct (forest_cost sg input mn ord' O' (nonempty _ _ _ _ Rp) (shape _ _ _ _ Rp) (start_plain _ _ _ _ Rp) fuel)
    as (ps & bs & m & HR & G & Ks & _ & F & M & TS).
  pose proof (bc_parse_len sg input 0 (SppfProof.ord' sg ord') (ord2_perm sg ord' O') (shape _ _ _ _ Rp) (start_plain _ _ _ _ Rp) fuel) as T2.
  pose proof (ts_cost _ _ _ _ _ _ TS (packs_bounded sg input ps bs HR G)) as Q.
  replace ((length input + 1) ^ 4) with (S (length input) * S (length input) * S (length input) * S (length input)) by (cbn [Nat.pow]; nia).
  replace ((length input + 1) ^ 3) with (S (length input) * S (length input) * S (length input)) by (cbn [Nat.pow]; nia).
  set (N := S (length input)) in *. set (n3 := N * N * N) in *.
  assert (L : (nA sg + nQ sg * nD sg) * n3 <= k * n3) by (apply Nat.mul_le_mono_r; exact K).
  split; [lia|]. split; [lia|].
  etransitivity; [exact Q|]. assert (Mk : m <= k * n3) by lia.
  etransitivity; [apply Nat.mul_le_mono; [exact Mk|apply Nat.mul_le_mono_r; exact KS]|].
  apply Nat.eq_le_incl. unfold k, n3. ring.
Qed.

(** ** Budgets that are never hit *)
Theorem C80_node_budget : forall g root ord ord' fuel input max_slots max_nodes, map_order ord -> map_order ord' ->
  (Z.of_nat (10 * size g * (length input + 1) ^ 3) < max_nodes)%Z ->
  parse_bsr ord fuel input g root max_slots max_nodes <> BSR_forest_too_large /\
  ((Z.of_nat (21 * size g * (length input + 1) ^ 2) < max_nodes)%Z ->
   parse_forest ord' fuel input g root max_slots max_nodes <> PF_forest_too_large).
Proof.
  intros g root ord ord' fuel input ms mn O O' M. unfold parse_bsr, parse_forest.
  destruct (compile_slots g root ms fuel) as [sg| | |] eqn:C; try (split; discriminate).
  destruct (compile_ok_represents _ _ _ _ _ C) as [idx Rp].
  pose proof (Nat.le_trans _ _ _ (weight_le g root sg idx Rp) (nits_w g)) as W. pose proof (nS_weight sg) as HS. pose proof (size_pos g) as SP.
  split.
  - destruct (b_parse sg input mn (fun t _ l => ord t l) fuel) as [st|] eqn:E; [|discriminate]. destruct (b_aborted st) eqn:A; [|discriminate].
    pose proof (bfull_parse _ _ _ _ _ _ E A) as [_ F].
    destruct (bsr_sizes sg input mn (fun t _ l => ord t l) (fun t _ l => O t l) (shape _ _ _ _ Rp) (start_plain _ _ _ _ Rp) fuel st E) as (_ & _ & _ & L).
    replace ((length input + 1) ^ 3) with (S (length input) * S (length input) * S (length input)) in M by (cbn [Nat.pow]; nia).
    set (N := S (length input) * S (length input) * S (length input)) in *.
    pose proof (Nat.mul_le_mono_r (nS sg) (10 * size g) N ltac:(lia)). lia.
  - clear M. intros M. destruct (p_parse sg input mn ord' fuel) as [st|] eqn:E; [|discriminate]. destruct (p_aborted st) eqn:A; [|discriminate].
    pose proof (pfull_parse _ _ _ _ _ _ E A) as [_ F].
    destruct (forest_cost sg input mn ord' O' (nonempty _ _ _ _ Rp) (shape _ _ _ _ Rp) (start_plain _ _ _ _ Rp) fuel)
      as (ps & bs & m & HR & G & Ks & Un & _). apply Un in E. subst ps. pose proof (nodes_len sg input st bs HR G Ks) as L.
    replace ((length input + 1) ^ 2) with (S (length input) * S (length input)) in M by (cbn [Nat.pow]; nia).
    set (N := S (length input) * S (length input)) in *.
    pose proof (Nat.mul_le_mono_r (2 * nS sg + 1) (21 * size g) N ltac:(lia)). lia.
Qed.

(** ** A budget that is never hit while the time has no bound *)
(** a = mn*mx["x"]. *)
Definition g_counted (mn mx : Z) : grammar := [mkRule "a" [[Rep mn mx (EOption [[Rep 1 1 (EChar false [120%Z])]])]]].
Lemma counted_compile mn mx max fuel : ~ (mn = 1%Z /\ mx = 1%Z) -> mx = inf \/ (mn <= mx)%Z -> (max = 0 \/ 4 <= max)%Z -> 2 <= fuel ->
  compile_slots (g_counted mn mx) "a" max fuel = CS_ok (sg_counted mn mx).
Proof.
  intros N1 L M F. destruct fuel as [|[|f]]; try lia. clear F.
  assert (B : forall nts idx, length nts <= 3 -> budget_exceeded max (mkLS nts idx false) = (false, mkLS nts idx false)).
  { intros nts idx K. unfold budget_exceeded. cbn [ls_nts ls_over ls_index]. rewrite orb_false_r.
    assert (X : ((0 <? max) && (max <=? Z.of_nat (length nts)))%Z%bool = false); [|rewrite X; reflexivity].
    destruct (Z.ltb_spec 0 max); [|reflexivity]. apply Z.leb_gt. lia. }
  assert (E1 : ((mn =? 1) && (mx =? 1))%Z%bool = false).
  { destruct (Z.eqb_spec mn 1), (Z.eqb_spec mx 1); auto. tauto. }
  assert (E2 : (negb (mx =? inf) && (mx <? mn))%Z%bool = false).
  { destruct (Z.eqb_spec mx inf); auto. cbn [negb andb]. apply Z.ltb_ge. tauto. }
  unfold compile_slots. change (get_rule "a" (g_counted mn mx)) with (Some (mkRule "a" [[Rep mn mx (EOption [[Rep 1 1 (EChar false [120%Z])]])]])).
  cbv iota. cbn [lower_rule]. change (reserve ("rule:" ++ lower "a")%string ls_init) with (0, false, mkLS [emptyNT] [("rule:a", 0)] false).
  cbv iota. rewrite B by (cbn; lia).
  change (get_rule "a" (g_counted mn mx)) with (Some (mkRule "a" [[Rep mn mx (EOption [[Rep 1 1 (EChar false [120%Z])]])]])).
  cbv iota. cbn [rule_alt rule_name]. unfold lower_alts, lower_cat. cbn [mapM lower_rep]. rewrite E1.
  set (o := EOption _). set (ks := rep_string (Rep mn mx o)).
  change (reserve ("rep:" ++ ks)%string (mkLS [emptyNT] [("rule:a", 0)] false)) with
    (1, false, mkLS [emptyNT; emptyNT] [(("rep:" ++ ks)%string, 1); ("rule:a", 0)] false).
  cbv iota. rewrite B by (cbn; lia). rewrite E2. subst o. cbn [lower_elem].
  change (reserve ("opt:" ++ elem_string (EOption [[Rep 1 1 (EChar false [120%Z])]]))%string (mkLS [emptyNT; emptyNT] [(("rep:" ++ ks)%string, 1); ("rule:a", 0)] false)) with
    (2, false, mkLS [emptyNT; emptyNT; emptyNT] [(("opt:" ++ elem_string (EOption [[Rep 1 1 (EChar false [120%Z])]]))%string, 2); (("rep:" ++ ks)%string, 1); ("rule:a", 0)] false).
  cbv iota. rewrite B by (cbn; lia). reflexivity.
Qed.

Lemma counted_wf mn mx : (0 <= mn)%Z -> (mx = inf \/ 0 <= mx)%Z -> wf_grammar (g_counted mn mx).
Proof.
  intros H H'. split; [repeat constructor; cbn; tauto|]. constructor; [|constructor]. constructor; [|constructor]. constructor; [|constructor].
  constructor; auto. constructor. constructor; [|constructor]. constructor; [|constructor]. constructor; try lia. constructor.
Qed.
Lemma counted_shape mn mx : (forall L p, prod_of (sg_counted mn mx) L = Some p -> p <> []) /\ rep_shape (sg_counted mn mx) /\
  (forall nt, nth_error (sg_nts (sg_counted mn mx)) (sg_start (sg_counted mn mx)) = Some nt -> nt_isrep nt = false).
Proof.
  split; [|split].
  - intros [[|[|[|[|x]]]] [|[|[|a]]] d] p X; cbn in X; try discriminate; injection X as <-; discriminate.
  - intros [|[|[|[|X]]]] nt N; cbn in N; try discriminate; injection N as <-; try discriminate. intros _. eexists. reflexivity.
  - intros nt N. injection N as <-. reflexivity.
Qed.
Lemma counted_slots mn mx : nS (sg_counted mn mx) = 11.
Proof. reflexivity. Qed.

(** On the empty input, a = N*["x"] and a = mn*N["x"] take a step for every number below N,
    whatever the budgets are: the slotted grammar has 3 nonterminals, and at most 23 nodes are
    built. *)
Theorem C80_counter_steps : forall mn mx N, (mx = inf /\ N = mn \/ mn <= mx /\ N = mx)%Z -> (0 <= mn)%Z -> (2 <= N)%Z ->
  forall ord ord' max_slots max_nodes, map_order ord -> map_order ord' ->
  (max_slots = 0 \/ 4 <= max_slots)%Z -> (max_nodes = 0 \/ 24 <= max_nodes)%Z ->
  exists enough, forall fuel, enough <= fuel ->
    (exists f, parse_forest ord fuel [] (g_counted mn mx) "a" max_slots max_nodes = PF_ok f) /\
    (N <= Z.of_nat (fst (forest_steps ord fuel [] (g_counted mn mx) "a" max_slots max_nodes)))%Z /\
    (exists sg set, parse_bsr ord' fuel [] (g_counted mn mx) "a" max_slots max_nodes = BSR_ok sg set) /\
    (N <= Z.of_nat (bsr_steps ord' fuel [] (g_counted mn mx) "a" max_slots max_nodes))%Z.
Proof.
  intros mn mx N HN M0 N2 ord ord2 ms mx2 O O2 MS MN.
  assert (AO : any_order ord) by (intros t l x; apply ord_in_p; auto).
  assert (AO2 : any_order ord2) by (intros t l x; split; apply Permutation_in; [|apply Permutation_sym]; apply O2).
  destruct (C07_forest_terminates ord [] (g_counted mn mx) "a" ms mx2 AO) as [en En].
  destruct (C07_bsr_terminates ord2 [] (g_counted mn mx) "a" ms mx2 AO2) as [en2 En2].
  exists (Nat.max 2 (Nat.max en en2)). intros fuel F. specialize (En fuel ltac:(lia)). specialize (En2 fuel ltac:(lia)).
  assert (Inf : inf = (-1)%Z) by reflexivity.
  pose proof (counted_compile mn mx ms fuel ltac:(lia) ltac:(lia) MS ltac:(lia)) as C.
  assert (Tp : top mn mx = N). { unfold top. destruct (Z.eqb_spec mx inf); lia. }
  destruct (counted_shape mn mx) as (NE & SH & WS). pose proof (counted_slots mn mx) as HS. set (sg := sg_counted mn mx) in *.
  unfold parse_forest, parse_bsr, forest_steps, bsr_steps in *. rewrite C in *.
  destruct (init_closed sg []) as (I0 & J0 & S0).
  split; [|split; [|split]].
  - destruct (p_parse sg [] mx2 ord fuel) as [ps|] eqn:P; [|congruence]. destruct (p_aborted ps) eqn:A; [exfalso|eexists; reflexivity].
    pose proof (pfull_parse _ _ _ _ _ _ P A) as [F1 F2].
    destruct (forest_cost sg [] mx2 ord O NE SH WS fuel) as (ps' & bs & m & HR & G & Ks & Un & _). apply Un in P. subst ps'.
    pose proof (nodes_len sg [] ps bs HR G Ks) as L. rewrite HS in L. cbn [length Nat.mul Nat.add] in L. lia.
  - destruct (p_parse sg [] mx2 ord fuel) as [ps|] eqn:P; [|congruence]. 
    assert (A : p_aborted ps = false).
    { destruct (p_aborted ps) eqn:A; auto. exfalso. pose proof (pfull_parse _ _ _ _ _ _ P A) as [F1 F2].
      destruct (forest_cost sg [] mx2 ord O NE SH WS fuel) as (ps' & bs & m & HR & G & Ks & Un & _). apply Un in P. subst ps'.
      pose proof (nodes_len sg [] ps bs HR G Ks) as L. rewrite HS in L. cbn [length Nat.mul Nat.add] in L. lia. }
    pose proof (pc_parse_seen _ _ _ _ _ _ P A) as L.
    destruct (sppf_as_bsr sg [] mx2 ord (ord_in_p ord O) NE (wf_reps _ SH) fuel ps P A) as (bs & B & HR).
    assert (O' : forall t v l x, In x (ord' sg ord t v l) <-> In x l) by (intros; apply ord'_in; apply ord_in_p; auto).
    destruct (run_closed sg [] 0 (ord' sg ord) O' _ _ _ I0 J0 B) as [Le [X|(I1 & J1 & W)]]; [rewrite (r_ab _ _ _ HR) in X; discriminate|].
    pose proof (counts_len mn mx bs I1 J1 W) as Q. rewrite Tp, (r_seen _ _ _ HR), map_length in Q.
    assert (Q' : (N <= Z.of_nat (length (p_seen ps)))%Z). { apply Q. intros L' rc M. eapply seenp_le; [exact Le|]. apply S0. exact M. }
    lia.
  - destruct (b_parse sg [] mx2 (fun t _ l => ord2 t l) fuel) as [bs|] eqn:P; [|congruence]. destruct (b_aborted bs) eqn:A; [exfalso|eexists _, _; reflexivity].
    pose proof (bfull_parse _ _ _ _ _ _ P A) as [F1 F2].
    destruct (bsr_sizes sg [] mx2 (fun t _ l => ord2 t l) (fun t _ l => O2 t l) SH WS fuel bs P) as (_ & _ & _ & L). rewrite HS in L. cbn [length Nat.mul Nat.add] in L. lia.
  - destruct (b_parse sg [] mx2 (fun t _ l => ord2 t l) fuel) as [bs|] eqn:P; [|congruence].
    assert (A : b_aborted bs = false).
    { destruct (b_aborted bs) eqn:A; auto. exfalso. pose proof (bfull_parse _ _ _ _ _ _ P A) as [F1 F2].
      destruct (bsr_sizes sg [] mx2 (fun t _ l => ord2 t l) (fun t _ l => O2 t l) SH WS fuel bs P) as (_ & _ & _ & L). rewrite HS in L. cbn [length Nat.mul Nat.add] in L. lia. }
    pose proof (bc_parse_seen sg [] mx2 _ (fun t _ l => O2 t l) SH WS fuel bs P A) as L.
    assert (O' : forall t (v : gss) l x, In x ((fun t (_ : gss) l => ord2 t l) t v l) <-> In x l) by (intros; apply AO2).
    destruct (run_closed sg [] mx2 _ O' _ _ _ I0 J0 P) as [Le [X|(I1 & J1 & W)]]; [congruence|].
    pose proof (counts_len mn mx bs I1 J1 W) as Q. rewrite Tp in Q.
    assert (Q' : (N <= Z.of_nat (length (b_seen bs)))%Z). { apply Q. intros L' rc M. eapply seenp_le; [exact Le|]. apply S0. exact M. }
    lia.
Qed.

(** WithMaxForestNodes "caps the time and memory ParseForest can spend" (sppf.go:636-639), and
    "safe on untrusted or malformed grammars" (sppf.go:667): neither holds.  No T bounds the
    steps on a grammar of fixed size, on the empty input, with both budgets set. *)
Theorem C80_budget_time_refuted : forall T, exists g root, wf_grammar g /\ size g <= size [] + 7 /\
  forall ord ord', map_order ord -> map_order ord' -> exists enough, forall fuel, enough <= fuel ->
    (exists f, parse_forest ord fuel [] g root 4 24 = PF_ok f) /\
    (T < Z.of_nat (fst (forest_steps ord fuel [] g root 4 24)))%Z /\
    (exists sg set, parse_bsr ord' fuel [] g root 4 24 = BSR_ok sg set) /\
    (T < Z.of_nat (bsr_steps ord' fuel [] g root 4 24))%Z.
Proof.
  intros T. set (N := (Z.max 1 T + 1)%Z). exists (g_counted N inf), "a". split; [apply counted_wf; [unfold N; lia|auto]|]. split; [vm_compute; lia|].
  intros ord ord' O O'. destruct (C80_counter_steps N inf N) with (ord := ord) (ord' := ord') (max_slots := 4%Z) (max_nodes := 24%Z)
    as [en En]; auto; try (unfold N; lia). exists en. intros fuel F. destruct (En fuel F) as (A & B & C & D).
  split; [exact A|]. split; [unfold N in *; lia|]. split; [exact C|unfold N in *; lia].
Qed.

(** Concretely: the steps for N = 5, 10 and 20; and a text of 25 bytes that takes a million
    million steps. *)
Example C80_case :
  bounds_below (g_counted 5 inf) 5 /\
  map (fun N => fst (forest_steps (fun _ l => rev l) 1000 [] (g_counted N inf) "a" 4 24)) [5%Z; 10%Z; 20%Z] = [132; 217; 387] /\
  map rule_string (g_counted 1000000000000 inf) = ["a = 1000000000000*[""x""]"] /\
  String.length (grammar_string (g_counted 1000000000000 inf)) = 25 /\
  forall ord, map_order ord -> exists enough, forall fuel, enough <= fuel ->
    (1000000000000 <= Z.of_nat (fst (forest_steps ord fuel [] (g_counted 1000000000000 inf) "a" default_max_slots 24)))%Z.
Proof.
  split.
  { intros x I. apply occ_rep_listed in I.
    assert (F : forallb (fun x => ((0 <=? rep_min x) && (rep_min x <=? Z.of_nat 5) && (rep_max x <=? Z.of_nat 5))%Z%bool) (grammar_reps (g_counted 5 inf)) = true)
      by (vm_compute; reflexivity).
    rewrite forallb_forall in F. specialize (F x I). apply andb_true_iff in F as [F F3]. apply andb_true_iff in F as [F1 F2].
    apply Z.leb_le in F1, F2, F3. auto. }
  split; [vm_compute; reflexivity|]. split; [vm_compute; reflexivity|]. split; [vm_compute; reflexivity|].
  intros ord O. destruct (C80_counter_steps 1000000000000 inf 1000000000000) with (ord := ord) (ord' := fun (_ : nat) (l : list nat) => l) (max_slots := default_max_slots) (max_nodes := 24%Z)
    as [en En]; auto; try lia; [intros t l; apply Permutation_refl|right; unfold default_max_slots; lia|].
  exists en. intros fuel F. apply (En fuel F).
Qed.
Print Assumptions C80_lowering_size.
Print Assumptions C80_slot_budget.
Print Assumptions C80_time.
Print Assumptions C80_node_budget.
Print Assumptions C80_counter_steps.
Print Assumptions C80_budget_time_refuted.
