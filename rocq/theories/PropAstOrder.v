(** C91: ASTGenerator does not depend on the order in which Go iterates over the map of rules. *)
From Coq Require Import ZArith Arith String Ascii Bool List Lia.
From Verif Require Import Syntax Spec Num Check PropGll PropTerm Tape Ast AstSpec AstProof AstCost PropAst AstOrder.
Import ListNotations.
Local Open Scope string_scope.
Local Open Scope list_scope.
Local Open Scope Z_scope.

(** NewASTGenerator (ast.go:109-122) fixes the costs of the rules by passes over a map, each in an order
    Go picks.  In any two orders it ends, with the same error or with the same start rule and the same
    costs, and the generators then write the same for every source of choices. Missing for the full claim:
    counts above 2^33, refuted below. *)
Theorem C91_order_partial : forall g n ord ord',
  (forall mn mx e, occ_rep g (Rep mn mx e) -> 0 <= mn <= 2 ^ 33) -> any_order ord -> any_order ord' ->
  exists F, forall fuel, (F <= fuel)%nat ->
  match new_ast fuel ord g n with
  | New_ok start m => exists m', new_ast fuel ord' g n = New_ok start m' /\
      (forall x r, get_rule x g = Some r -> cost_get m (rule_name r) = cost_get m' (rule_name r)) /\
      forall f md ml mr S_ (intn : Z -> S_ -> Z * S_) src, ast_walk f g start m md ml mr intn src = ast_walk f g start m' md ml mr intn src
  | New_fuel => False
  | err => new_ast fuel ord' g n = err
  end.
Proof.
  intros g n ord ord' Small O O'. destruct (C28_new_ends ord g n O) as (F & HF). destruct (C28_new_ends ord' g n O') as (F' & HF').
  exists (max F F'). intros fuel L. assert (L1 : (F <= fuel)%nat) by lia. assert (L2 : (F' <= fuel)%nat) by lia. specialize (HF fuel L1). specialize (HF' fuel L2).
  pose proof (new_same g g n (fun _ => True) (fun _ _ => Logic.I) Logic.I (fun _ _ => eq_refl) Small ord ord' O O' fuel HF HF') as X.
  destruct (new_ast fuel ord g n) as [start m| | | |]; auto. destruct X as (m' & E & C & W). exists m'. split; [exact E|]. split; [|exact W].
  intros x r G. exact (C x r Logic.I G).
Qed.

(** Two generators made by two runs write the same text for the same tape, and read as much of it. *)
Theorem C91_tape_partial : forall g n ord ord' fuel fuel' start m start' m',
  (forall mn mx e, occ_rep g (Rep mn mx e) -> 0 <= mn <= 2 ^ 33) -> any_order ord -> any_order ord' ->
  new_ast fuel ord g n = New_ok start m -> new_ast fuel' ord' g n = New_ok start' m' ->
  forall f max_depth max_len max_repeat tape,
  ast_generate f g start m max_depth max_len max_repeat tape = ast_generate f g start' m' max_depth max_len max_repeat tape.
Proof.
  intros g n ord ord' fuel fuel' start m start' m' Small O O' E E' f md ml mr tape.
  apply new_ok_inv in E as (G & E & _). apply new_ok_inv in E' as (G' & E' & _). rewrite G in G'. injection G' as <-.
  exact (proj2 (costs_same g g (fun _ => True) (fun _ _ => Logic.I) (fun _ _ => eq_refl) Small ord ord' O O' fuel fuel' m m' E E') n start Logic.I G f md ml mr _ tape_draw _).
Qed.

(** ** Cases *)
Definition rev_order : nat -> list rule -> list rule := fun t l => if Nat.even t then rev l else l.
Lemma rev_any : any_order rev_order.
Proof. intros t l x. unfold rev_order. destruct (Nat.even t); [symmetry; apply in_rev|reflexivity]. Qed.

(** b = "xxx" / c   a = 2b / "(" a ")"   c = "x": the passes differ with the order, the results do not. *)
Definition g_ord (k : Z) : grammar :=
  [mkRule "b" [[one (EChar false [120; 120; 120])]; [one (ERule "c")]];
   mkRule "a" [[Rep k k (ERule "b")]; [one (EChar false [40]); one (ERule "a"); one (EChar false [41])]];
   mkRule "c" [[one (EChar false [120])]]].
Lemma g_ord_small : forall mn mx e, occ_rep (g_ord 2) (Rep mn mx e) -> 0 <= mn <= 2 ^ 33.
Proof.
  intros mn mx e H. apply Occ.occ_rep_listed in H.
  assert (X : forallb (fun x => match x with Rep p _ _ => (0 <=? p) && (p <=? 2 ^ 33) end)%bool (Occ.grammar_reps (g_ord 2)) = true) by (vm_compute; reflexivity).
  rewrite forallb_forall in X. specialize (X _ H). cbv beta iota in X.
  apply andb_true_iff in X as [A B]. apply Z.leb_le in A. apply Z.leb_le in B. lia.
Qed.

(** A pass in each order sets different costs; the fixed costs and the text are the same. *)
Example C91_case : let g := g_ord 2 in
  (forall mn mx e, occ_rep g (Rep mn mx e) -> 0 <= mn <= 2 ^ 33) /\ any_order id_order /\ any_order rev_order /\
  cost_get (fst (cost_pass g (id_order 0 (effective g)) (initial_costs g) false)) "a" <> cost_get (fst (cost_pass g (rev_order 0 (effective g)) (initial_costs g) false)) "a" /\
  exists start m m', new_ast 10 id_order g "a" = New_ok start m /\ new_ast 10 rev_order g "a" = New_ok start m' /\
    cost_get m "a" = Some 6 /\ cost_get m' "a" = Some 6 /\
    exists s, ast_generate 20 g start m 3 100 4 [1; 0; 0; 1; 1; 0; 7] = A_ok s /\ a_out s = bytes "(XXxx)" /\
              ast_generate 20 g start m' 3 100 4 [1; 0; 0; 1; 1; 0; 7] = A_ok s.
Proof.
  cbv zeta. split; [exact g_ord_small|]. split; [exact id_any|]. split; [exact rev_any|]. split; [vm_compute; discriminate|].
  eexists _, _, _. split; [vm_compute; reflexivity|]. split; [vm_compute; reflexivity|]. split; [vm_compute; reflexivity|]. split; [vm_compute; reflexivity|].
  eexists. split; [vm_compute; reflexivity|]. split; vm_compute; reflexivity.
Qed.
(** An error is the same too. *)
Example C91_case_err : let g := g_ord 2 ++ [mkRule "d" [[one (ERule "a"); one (ERule "d")]]; mkRule "e" [[one (ERule "b")]; [one (ERule "none")]]] in
  new_ast 10 id_order g "d" = New_unproductive "d" /\ new_ast 10 rev_order g "d" = New_unproductive "d" /\
  new_ast 10 id_order g "e" = New_undefined "none" /\ new_ast 10 rev_order g "e" = New_undefined "none".
Proof. vm_compute. auto. Qed.

(** a = 4611686018427387904b: the product of the count and the cost of b overflows to 0 while the cost of
    b is 3 and to a negative once it is 2, so that one order accepts the grammar and the other refuses it. *)
Theorem C91_order_refuted : exists g n ord ord' start m, wf_grammar g /\ lex_grammar g = true /\ any_order ord /\ any_order ord' /\
  new_ast 10 ord g n = New_ok start m /\ new_ast 10 ord' g n = New_unproductive n.
Proof.
  exists (g_ord (2 ^ 62)), "a", id_order, rev_order. eexists _, _.
  split; [apply wf_grammarb_spec; vm_compute; reflexivity|]. split; [vm_compute; reflexivity|]. split; [exact id_any|]. split; [exact rev_any|].
  split; [vm_compute; reflexivity|vm_compute; reflexivity].
Qed.

Print Assumptions C91_order_partial.
Print Assumptions C91_tape_partial.
Print Assumptions C91_order_refuted.
