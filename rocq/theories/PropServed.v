(** C100: what a reader serves does not depend on the iteration order of maps.
    Its definitions are means of proof and model no code. *)
From Coq Require Import ZArith Arith String Bool Permutation List Lia.
From Verif Require Import Syntax Spec Check Num Utf8 Tape Occ PrintInj LowerLang PropDag PropGll AstProof PropAst RecogGlue PropRecog
  Graph GraphSpec GraphRun GraphRep GraphBuild GraphLabel PropGraph Walk WalkProof PropWalk Reader ReaderProof PropReader Compact CompactProof PropCompact.
Import ListNotations.
Local Open Scope string_scope.
Local Open Scope nat_scope.
Local Open Scope list_scope.

(** ** What prepare computes *)
Section Reach.
  Variables (h : heap) (ends : points) (all C : list point).
  Hypothesis Cl : forall n, In n all -> productive h n = true -> reaches h ends C n -> In n C.
  Lemma pass_within ns : forall can, incl ns all -> incl can C -> incl (reach_pass h ends ns can) C.
  Proof.
    induction ns as [|n ns IH]; intros can In_ Ic; [exact Ic|]. rewrite (reach_pass_cons h ends n ns can). apply IH; [intros x I; apply In_; right; exact I|].
    unfold reach_step. destruct (mem_point n can || negb (productive h n)) eqn:E1; [exact Ic|]. apply orb_false_iff in E1 as [_ E1]. apply negb_false_iff in E1.
    destruct (mem_point n ends || existsb (fun s => productive h s && mem_point s can) (succs h n)) eqn:E2; [|exact Ic].
    intros x [<-|I]; [|apply Ic, I]. apply Cl; [apply In_; left; reflexivity|exact E1|].
    apply orb_true_iff in E2 as [E2|E2]; [left; apply mem_point_spec, E2|right]. apply existsb_exists in E2 as (s & Is & Q). apply andb_true_iff in Q as [Q1 Q2].
    exists s. split; [exact Is|]. split; [exact Q1|]. apply Ic, mem_point_spec, Q2.
  Qed.
  Lemma loop_within ord (O : any_order ord) fuel : forall i can can', incl can C -> reach_loop fuel h ends ord all i can = Some can' -> incl can' C.
  Proof.
    induction fuel as [|f IH]; intros i can can' Ic E; [discriminate|]. cbn [reach_loop] in E.
    assert (W : incl (reach_pass h ends (ord i all) can) C) by (apply pass_within; [intros x I; apply O in I; exact I|exact Ic]).
    destruct (Nat.eqb _ _); [injection E as <-; exact W|]. exact (IH _ _ _ W E).
  Qed.
End Reach.
Lemma loop_nodup h ends ord all fuel : forall i can can', NoDup can -> (forall x, In x can -> productive h x = true) ->
  reach_loop fuel h ends ord all i can = Some can' -> NoDup can'.
Proof.
  induction fuel as [|f IH]; intros i can can' N P E; [discriminate|]. cbn [reach_loop] in E. destruct (reach_pass_spec h ends (ord i all) can N P) as (A & _ & _ & D & _).
  destruct (Nat.eqb _ _); [injection E as <-; exact A|]. exact (IH _ _ _ A D E).
Qed.
(** Two preparations of a graph differ at most in the order of canReach. *)
Definition alike (p p' : prepared) : Prop :=
  p_graph p = p_graph p' /\ p_entries p = p_entries p' /\ (forall x, mem_point x (p_can p) = mem_point x (p_can p')) /\ length (p_can p) = length (p_can p').
Lemma prepare_alike ord ord' t p p' : any_order ord -> any_order ord' -> prepare ord t = Some p -> prepare ord' t = Some p' -> alike p p'.
Proof.
  intros O O'. unfold prepare. set (h := tg_heap t). destruct (fold_left _ _ _) as [all|]; [|discriminate].
  destruct (reach_loop_spec h (tg_ends t) ord all O (S (length all)) 0 []) as (can & E & _ & _ & C3); [constructor|intros x []|intros x []|cbn [length]; lia|].
  destruct (reach_loop_spec h (tg_ends t) ord' all O' (S (length all)) 0 []) as (can' & E' & _ & _ & C3'); [constructor|intros x []|intros x []|cbn [length]; lia|].
  rewrite E, E'. intros Q Q'. injection Q as <-. injection Q' as <-.
  pose proof (loop_within h (tg_ends t) all can' C3' ord O _ _ _ _ (incl_nil_l _) E) as I1.
  pose proof (loop_within h (tg_ends t) all can C3 ord' O' _ _ _ _ (incl_nil_l _) E') as I2.
  pose proof (loop_nodup _ _ _ _ _ _ _ _ (NoDup_nil _) ltac:(intros x []) E) as N1. pose proof (loop_nodup _ _ _ _ _ _ _ _ (NoDup_nil _) ltac:(intros x []) E') as N2.
  assert (M : forall x, mem_point x can = mem_point x can').
  { intros x. apply eq_true_iff_eq. rewrite !mem_point_spec. split; [apply I1|apply I2]. }
  split; [reflexivity|]. split; [cbn [p_entries]; apply filter_ext; intros x; rewrite M; reflexivity|]. split; [exact M|].
  cbn [p_can]. pose proof (NoDup_incl_length N1 I1). pose proof (NoDup_incl_length N2 I2). lia.
Qed.

(** ** The reader *)
Section Alike.
  Variables p p' : prepared.
  Hypothesis A : alike p p'.
  Lemma allowed_alike s u : allowed_at p s u = allowed_at p' s u.
  Proof. destruct A as (A1 & A2 & A3 & _). destruct s as [|f s]; [exact A2|]. cbn [allowed_at]. rewrite A1. apply filter_ext. intros x. rewrite A3. reflexivity. Qed.
  Lemma push_alike st : push_first p st = push_first p' st.
  Proof. unfold push_first. rewrite allowed_alike. reflexivity. Qed.
  Lemma leaf_alike fuel : forall st, next_leaf fuel p st = next_leaf fuel p' st.
  Proof.
    induction fuel as [|f IH]; intros st; [reflexivity|]. cbn [next_leaf]. rewrite push_alike.
    destruct (if Nat.eqb (length (t_stack st)) (t_len st) then _ else _) as [go st1]. rewrite IH. reflexivity.
  Qed.
  Lemma advance_alike fuel : forall st, advance_path fuel p st = advance_path fuel p' st.
  Proof.
    induction fuel as [|f IH]; intros st; [reflexivity|]. cbn [advance_path]. rewrite leaf_alike. destruct A as (A1 & _). rewrite A1.
    destruct (next_leaf _ _ _) as [[[] st1]|]; [|rewrite IH; reflexivity|reflexivity]. destruct (t_stack st1); [reflexivity|]. rewrite IH. reflexivity.
  Qed.
  (** The same reader with the other preparation. *)
  Definition moved (r : reader) : reader := mkReader p' (r_trails r) (r_exhausted r) (r_have r) (r_idx r) (r_tot r) (r_staged r) (r_has_staged r).
  Lemma ensure_alike fuel r : r_prep r = p -> match ensure_staged fuel r with
    | Rd_ok r1 => r_prep r1 = p /\ ensure_staged fuel (moved r) = Rd_ok (moved r1)
    | Rd_panic => ensure_staged fuel (moved r) = Rd_panic
    | Rd_fuel => ensure_staged fuel (moved r) = Rd_fuel
    end.
  Proof.
    intros Ep. unfold ensure_staged. destruct r as [q tr ex hv ix tt sg hs]. cbn [r_prep] in Ep. subst q.
    cbn [moved r_prep r_trails r_exhausted r_have r_idx r_tot r_staged r_has_staged]. destruct (hs || ex); [auto|].
    rewrite <- (advance_alike fuel tr). assert (A1 : p_graph p = p_graph p') by apply A. rewrite <- A1. destruct hv.
    - destruct (stage _ _ _); auto.
    - destruct (advance_path fuel p tr) as [[[] tr1]|]; [|auto|auto]. destruct (totals _ _); [|auto]. destruct (stage _ _ _); auto.
  Qed.
  Lemma calls_alike fuel cs : forall r, r_prep r = p -> calls fuel (moved r) cs = calls fuel r cs.
  Proof.
    induction cs as [|[] cs IH]; intros r Ep; [reflexivity| |]; cbn [calls]; unfold reader_next, reader_scan;
      pose proof (ensure_alike fuel r Ep) as K; destruct (ensure_staged fuel r) as [r1| |]; try (rewrite K; reflexivity); destruct K as [E1 ->].
    - rewrite (IH r1 E1). reflexivity.
    - change (r_has_staged (moved r1)) with (r_has_staged r1). destruct (r_has_staged r1).
      + replace (consume_staged (moved r1)) with (moved (consume_staged r1)); [|unfold consume_staged, moved; cbn; destruct (odometer (r_idx r1) (r_tot r1)); reflexivity].
        rewrite IH; [reflexivity|]. unfold consume_staged. destruct (odometer _ _); exact E1.
      + rewrite (IH r1 E1). reflexivity.
  Qed.

  (** ** The covering set *)
  Lemma viable_alike x : viable p x = viable p' x.
  Proof. destruct A as (A1 & _ & A3 & _). unfold viable. rewrite A1. apply filter_ext. intros s. rewrite A3. reflexivity. Qed.
  Lemma bfs_ext nb nb' fuel : (forall x, nb x = nb' x) -> forall m q, bfs fuel nb m q = bfs fuel nb' m q.
  Proof. intros H. induction fuel as [|f IH]; intros m q; [reflexivity|]. cbn [bfs]. destruct q as [|x q]; [reflexivity|]. rewrite H. destruct (fold_left _ _ _). apply IH. Qed.
  Lemma forward_alike : forward p = forward p'.
  Proof. unfold forward. destruct A as (_ & A2 & _ & A4). rewrite A2, A4. destruct (fold_left _ _ _). apply bfs_ext, viable_alike. Qed.
  Lemma backward_alike m : backward p m = backward p' m.
  Proof.
    unfold backward. destruct A as (A1 & _ & _ & A4). rewrite A1, A4. apply bfs_ext. intros x. unfold rev_adj. apply flat_map_ext. intros n. rewrite viable_alike. reflexivity.
  Qed.
  Lemma edges_alike m : all_edges p m = all_edges p' m.
  Proof. unfold all_edges. f_equal. apply flat_map_ext. intros n. rewrite viable_alike. reflexivity. Qed.
  Lemma compact_alike fuel : build_compact fuel p = build_compact fuel p'.
  Proof.
    unfold build_compact. rewrite forward_alike. destruct (forward p') as [pre|]; [|reflexivity]. rewrite backward_alike. destruct (backward p' pre) as [suc|]; [|reflexivity].
    rewrite edges_alike. assert (A1 : p_graph p = p_graph p') by apply A.
    replace (node_turn p pre suc) with (node_turn p' pre suc) by (unfold node_turn; rewrite A1; reflexivity).
    replace (edge_turn p pre suc) with (edge_turn p' pre suc) by (unfold edge_turn; rewrite A1; reflexivity). rewrite A1. reflexivity.
  Qed.
End Alike.

(** Whatever the orders in which the passes of prepare visit the map of nodes, the reader
    answers every sequence of calls the same way, and the covering set is the same list;
    for every graph, built or not. *)
Theorem C100_reader_deterministic : forall ord ord' t, any_order ord -> any_order ord' ->
  exists p p', prepare ord t = Some p /\ prepare ord' t = Some p' /\
    (forall fuel cs, calls fuel (new_reader p) cs = calls fuel (new_reader p') cs) /\
    (forall fuel, build_compact fuel p = build_compact fuel p').
Proof.
  intros ord ord' t O O'. destruct (prepare_spec ord t O) as (p & E & _). destruct (prepare_spec ord' t O') as (p' & E' & _).
  pose proof (prepare_alike ord ord' t p p' O O' E E') as A. exists p, p'. split; [exact E|]. split; [exact E'|]. split.
  - intros fuel cs. symmetry. exact (calls_alike p p' A fuel cs (new_reader p) eq_refl).
  - intros fuel. apply compact_alike, A.
Qed.

(** A case in which canReach is found in two orders: the graph of C34. *)
Example C100_case : any_order (fun (_ : nat) (l : list point) => l) /\ any_order (fun (_ : nat) (l : list point) => rev l) /\
  exists p p', prepare (fun _ l => l) t34 = Some p /\ prepare (fun _ l => rev l) t34 = Some p' /\ p_can p <> p_can p' /\
    calls 100 (new_reader p) [Scan; Scan; Scan] = Rd_ok [Got (Some [120]%Z); Got (Some [88]%Z); Got (Some [48]%Z)] /\
    calls 100 (new_reader p') [Scan; Scan; Scan] = Rd_ok [Got (Some [120]%Z); Got (Some [88]%Z); Got (Some [48]%Z)].
Proof.
  split; [intros i l x; reflexivity|]. split; [intros i l x; symmetry; apply in_rev|]. eexists _, _. split; [vm_compute; reflexivity|]. split; [vm_compute; reflexivity|].
  split; [vm_compute; discriminate|]. split; vm_compute; reflexivity.
Qed.

Print Assumptions C100_reader_deterministic.
Print Assumptions C100_case.
