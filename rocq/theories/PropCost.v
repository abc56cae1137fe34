(** Claim C76: the worst-case cost of the two GLL engines. *)
From Coq Require Import ZArith Arith String Bool List Permutation Lia.
From Verif Require Import Syntax Spec Utf8 Num Term Printer Slots Gll GllUniv Bsr BsrProof BsrTerm Sppf SppfProof
  LowerProof LowerLang LowerBudget Check PropGll ParseAbnf Cost CostProof CostLow.
Import ListNotations.
Local Open Scope string_scope.
Local Open Scope list_scope.
Local Open Scope nat_scope.

(** A Go map is ranged over in any order, each key once. *)
Definition map_order {A} (ord : nat -> list A -> list A) : Prop := forall t l, Permutation (ord t l) l.

(** The slot grammar of a rule does not depend on the slot budget. *)
Lemma one_lowering g root : exists sg0, forall ms fuel sg, compile_slots g root ms fuel = CS_ok sg -> sg = sg0.
Proof.
  destruct (compile_slots g root 0 (lower_fuel g)) as [sg0| | |] eqn:C; [exists sg0|exists (mkSG [] 0)..].
  all: intros ms fuel sg E; apply compile_free in E;
    pose proof (C10_lowering_terminates g root 0 (lower_fuel g) (le_n _)) as T;
    destruct (Nat.le_ge_cases fuel (lower_fuel g)) as [Le|Le].
  all: try (pose proof (compile_mono g root 0 fuel (lower_fuel g) Le ltac:(congruence)); congruence).
  all: pose proof (compile_mono g root 0 (lower_fuel g) fuel Le ltac:(congruence)); congruence.
Qed.

(** ** ParseBSR: at most cubic time *)
Theorem C76_bsr_time : forall g root, exists K, forall ord fuel input max_slots max_nodes, map_order ord ->
  bsr_steps ord fuel input g root max_slots max_nodes <= K * (length input + 1) ^ 3.
Proof.
  intros g root. destruct (one_lowering g root) as [sg0 U]. exists (nA sg0 + nQ sg0 * nD sg0).
  intros ord fuel input ms mn O. unfold bsr_steps. destruct (compile_slots g root ms fuel) as [sg| | |] eqn:C; try lia.
  pose proof (U _ _ _ C). subst sg0. destruct (compile_ok_represents _ _ _ _ _ C) as [idx Rp].
  pose proof (bc_parse_len sg input mn (fun t _ l => ord t l) (fun t _ l => O t l) (shape _ _ _ _ Rp) (start_plain _ _ _ _ Rp) fuel) as H.
  replace ((length input + 1) ^ 3) with (S (length input) * S (length input) * S (length input)) by (cbn [Nat.pow]; nia). exact H.
Qed.

(** ** ParseBSR: quadratic stack and cubic set *)
Theorem C76_bsr_space : forall g root, exists K, forall ord fuel input max_slots max_nodes sg st, map_order ord ->
  compile_slots g root max_slots fuel = CS_ok sg ->
  b_parse sg input max_nodes (fun t _ l => ord t l) fuel = Some st ->
  length (b_seen st) <= K * (length input + 1) ^ 2 /\ length (b_edges st) <= K * (length input + 1) ^ 2 /\
  length (b_popped st) <= K * (length input + 1) ^ 2 /\ length (b_set st) <= K * (length input + 1) ^ 3.
Proof.
  intros g root. destruct (one_lowering g root) as [sg0 U]. exists (nD sg0 + nG sg0 * nG sg0 + nG sg0 + nS sg0).
  intros ord fuel input ms mn sg st O C B. pose proof (U _ _ _ C). subst sg0. destruct (compile_ok_represents _ _ _ _ _ C) as [idx Rp].
  destruct (bsr_sizes sg input mn (fun t _ l => ord t l) (fun t _ l => O t l) (shape _ _ _ _ Rp) (start_plain _ _ _ _ Rp) fuel st B) as (A1 & A2 & A3 & A4).
  replace ((length input + 1) ^ 3) with (S (length input) * S (length input) * S (length input)) by (cbn [Nat.pow]; nia).
  replace ((length input + 1) ^ 2) with (S (length input) * S (length input)) by (cbn [Nat.pow]; nia).
  set (q := S (length input) * S (length input)) in *.
  repeat split; (etransitivity; [eassumption|]); apply Nat.mul_le_mono_r; lia.
Qed.

(** ** ParseForest: quadratic stack and nodes, cubic packs *)
Theorem C76_forest_space : forall g root, exists K, forall ord fuel input max_slots max_nodes sg st, map_order ord ->
  compile_slots g root max_slots fuel = CS_ok sg -> p_parse sg input max_nodes ord fuel = Some st ->
  length (p_seen st) <= K * (length input + 1) ^ 2 /\ length (p_edges st) <= K * (length input + 1) ^ 2 /\
  length (p_popped st) <= K * (length input + 1) ^ 2 /\ length (p_nodes st) <= K * (length input + 1) ^ 2 /\
  list_sum (map (fun x => length (snd x)) (p_nodes st)) <= K * (length input + 1) ^ 3.
Proof.
  intros g root. destruct (one_lowering g root) as [sg0 U].
  exists (nD sg0 + nG sg0 * nG sg0 + nG sg0 + (2 * nS sg0 + 1) + (2 * nS sg0 + 1) * nS sg0).
  intros ord fuel input ms mn sg st O C B. pose proof (U _ _ _ C). subst sg0. destruct (compile_ok_represents _ _ _ _ _ C) as [idx Rp].
  destruct (forest_cost sg input mn ord O (nonempty _ _ _ _ Rp) (shape _ _ _ _ Rp) (start_plain _ _ _ _ Rp) fuel)
    as (ps & bs & m & HR & G & K & E & _). apply E in B. subst ps.
  pose proof (seen_le sg input bs (gd_T _ _ _ G)) as A1. pose proof (desc_univ_len sg input) as A1'.
  pose proof (edges_len sg input bs (gd_T _ _ _ G) (gd_N _ _ _ G)) as A2.
  pose proof (popped_len sg input bs (gd_T _ _ _ G) (gd_N _ _ _ G)) as A3.
  pose proof (nodes_len sg input st bs HR G K) as A4.
  pose proof (packs_len (p_nodes st) _ (proj1 K) (packs_bounded sg input st bs HR G)) as A5. unfold total_packs in A5.
  rewrite (r_seen _ _ _ HR), map_length in A1. rewrite (r_edges _ _ _ HR), map_length in A2. rewrite (r_popped _ _ _ HR), map_length in A3.
  replace ((length input + 1) ^ 3) with (S (length input) * S (length input) * S (length input)) by (cbn [Nat.pow]; nia).
  replace ((length input + 1) ^ 2) with (S (length input) * S (length input)) by (cbn [Nat.pow]; nia).
  set (N := S (length input)) in *.
  split; [etransitivity; [exact A1|]; etransitivity; [exact A1'|]; apply Nat.mul_le_mono_r; lia|].
  split; [etransitivity; [exact A2|]; apply Nat.mul_le_mono_r; lia|].
  split; [etransitivity; [exact A3|]; apply Nat.mul_le_mono_r; lia|].
  split; [etransitivity; [exact A4|]; apply Nat.mul_le_mono_r; lia|].
  etransitivity; [exact A5|]. etransitivity; [apply Nat.mul_le_mono_r; exact A4|].
  replace ((2 * nS sg + 1) * (N * N) * (nS sg * N)) with ((2 * nS sg + 1) * nS sg * (N * N * N)) by ring. apply Nat.mul_le_mono_r; lia.
Qed.

(** ** ParseForest: the loops are cubic, but for the one of addPack, which is quartic *)
(** Missing for the full statement: a cubic bound of the packs addPack looks at; there is
    none, see below. *)
Theorem C76_forest_time_partial : forall g root, exists K, forall ord fuel input max_slots max_nodes, map_order ord ->
  fst (forest_steps ord fuel input g root max_slots max_nodes) <= K * (length input + 1) ^ 3 /\
  snd (forest_steps ord fuel input g root max_slots max_nodes) <= K * (length input + 1) ^ 4.
Proof.
  intros g root. destruct (one_lowering g root) as [sg0 U].
  exists ((nA sg0 + nQ sg0 * nD sg0) * (1 + nS sg0)).
  intros ord fuel input ms mn O. unfold forest_steps. destruct (compile_slots g root ms fuel) as [sg| | |] eqn:C; cbn [fst snd]; try lia.
  pose proof (U _ _ _ C). subst sg0. destruct (compile_ok_represents _ _ _ _ _ C) as [idx Rp].
  destruct (forest_cost sg input mn ord O (nonempty _ _ _ _ Rp) (shape _ _ _ _ Rp) (start_plain _ _ _ _ Rp) fuel)
    as (ps & bs & m & HR & G & K & _ & F & M & TS).
  pose proof (bc_parse_len sg input 0 (ord' sg ord) (ord2_perm sg ord O) (shape _ _ _ _ Rp) (start_plain _ _ _ _ Rp) fuel) as H.
  pose proof (ts_cost _ _ _ _ _ _ TS (packs_bounded sg input ps bs HR G)) as Q.
  replace ((length input + 1) ^ 4) with (S (length input) * S (length input) * S (length input) * S (length input)) by (cbn [Nat.pow]; nia).
  replace ((length input + 1) ^ 3) with (S (length input) * S (length input) * S (length input)) by (cbn [Nat.pow]; nia).
  set (N := S (length input)) in *. set (B := nA sg + nQ sg * nD sg) in *.
  assert (X : m <= B * (N * N * N)) by lia. split.
  - etransitivity; [exact F|]. etransitivity; [exact H|]. apply Nat.mul_le_mono_r. lia.
  - etransitivity; [exact Q|]. etransitivity; [apply Nat.mul_le_mono_r; exact X|].
    replace (B * (N * N * N) * (nS sg * N)) with (B * nS sg * (N * N * N * N)) by ring. apply Nat.mul_le_mono_r. lia.
Qed.

(** The documented bound (sppf.go:14-15, 665-667) does not hold: on s = s s / "a" no multiple
    of n^3 bounds the packs that addPack looks at, whatever order Go ranges over its maps in. *)
Definition g_double : grammar :=
  [mkRule "s" [[Rep 1 1 (ERule "s"); Rep 1 1 (ERule "s")]; [Rep 1 1 (EChar false [97%Z])]]].
Theorem C76_forest_time_refuted : exists g root, wf_grammar g /\ forall K, exists input, forall ord, map_order ord ->
  exists enough, forall fuel, enough <= fuel ->
    (exists f, parse_forest ord fuel input g root default_max_slots 0 = PF_ok f) /\
    K * (length input + 1) ^ 3 < snd (forest_steps ord fuel input g root default_max_slots 0).
Proof.
  exists g_double, "s". split; [apply wf_grammarb_spec; vm_compute; reflexivity|].
  intros K. set (m := 125 * K + 1). exists (repeat 97%Z (4 * m)). intros ord O.
  assert (AO : any_order ord) by (intros t l x; apply ord_in_p; auto).
  destruct (C07_forest_terminates ord (repeat 97%Z (4 * m)) g_double "s" default_max_slots 0 AO) as [en En].
  exists (Nat.max 30 en). intros fuel F. specialize (En fuel ltac:(lia)).
  assert (C : compile_slots g_double "s" default_max_slots fuel = CS_ok sg_double).
  { assert (C0 : compile_slots g_double "s" default_max_slots 30 = CS_ok sg_double) by (vm_compute; reflexivity).
    rewrite (compile_mono g_double "s" default_max_slots 30 fuel) by (try lia; rewrite C0; discriminate). exact C0. }
  unfold parse_forest in *. unfold forest_steps. rewrite C in *.
  destruct (p_parse sg_double (repeat 97%Z (4 * m)) 0 ord fuel) as [ps|] eqn:P; [|congruence].
  assert (A : p_aborted ps = false).
  { refine (parse_live sg_double (repeat 97%Z (4 * m)) 0 ord _ fuel ps P). lia. }
  rewrite A. split; [eexists; reflexivity|].
  refine (Nat.lt_le_trans _ _ _ _ (double_packs m 0 ord fuel ps O P A)).
  rewrite repeat_length. assert (L : (4 * m + 1) ^ 3 <= 125 * (m * m * m)).
  { assert (L1 : 4 * m + 1 <= 5 * m) by (unfold m; lia).
    etransitivity; [apply Nat.pow_le_mono_l; exact L1|]. cbn [Nat.pow]. nia. }
  assert (Q : K * (4 * m + 1) ^ 3 <= 125 * K * (m * m * m)) by nia.
  assert (M : 125 * K < m) by (unfold m; lia).
  assert (P3 : 0 < m * m * m) by (unfold m; nia). nia.
Qed.

(** Concretely: 2, 4 and 6 characters. *)
Example C76_case : wf_grammar g_double /\ map_order (fun _ (l : list nkey) => rev l) /\
  map (fun n => forest_steps (fun _ l => rev l) 1000 (repeat 97%Z n) g_double "s" default_max_slots 0) [2; 4; 6] =
    [(84, 3); (224, 24); (452, 111)] /\
  map (fun n => bsr_steps (fun _ l => rev l) 1000 (repeat 97%Z n) g_double "s" default_max_slots 0) [2; 4; 6] = [84; 224; 452].
Proof.
  split; [apply wf_grammarb_spec; vm_compute; reflexivity|]. split; [intros t l; apply Permutation_sym, Permutation_rev|].
  split; vm_compute; reflexivity.
Qed.
Print Assumptions C76_bsr_time.
Print Assumptions C76_bsr_space.
Print Assumptions C76_forest_space.
Print Assumptions C76_forest_time_partial.
Print Assumptions C76_forest_time_refuted.
