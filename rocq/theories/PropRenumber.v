(** C101: what a reader serves does not depend on what the nodes are called.
    Its definitions are those of the statement and of proofs and model no code. *)
From Coq Require Import ZArith Arith String Bool Permutation List Lia.
From Verif Require Import Syntax Spec Check Num Utf8 Tape Occ PrintInj LowerLang PropDag PropGll AstProof PropAst RecogGlue PropRecog
  Graph GraphSpec GraphRun GraphRep GraphBuild GraphLabel PropGraph Walk WalkProof PropWalk Reader ReaderProof PropReader Compact CompactProof PropCompact PropServed.
Import ListNotations.
Local Open Scope string_scope.
Local Open Scope nat_scope.
Local Open Scope list_scope.

(** The second graph is the first one with other names for the nodes: the same elements, and
    the same edges, entry points and end points in the same order. *)
Record renamed (f : nat -> nat) (t t' : tgraph) : Prop := {
  rn_inj : forall a b, f a = f b -> a = b;
  rn_size : length (tg_heap t') = length (tg_heap t);
  rn_elem : forall a, elem_at (tg_heap t') (f a) = elem_at (tg_heap t) a;
  rn_next : forall a, nexts (tg_heap t') (f a) = map f (nexts (tg_heap t) a);
  rn_entry : tg_entry t' = map (option_map f) (tg_entry t);
  rn_ends : tg_ends t' = map (option_map f) (tg_ends t) }.

Section Renamed.
  Variables (f : nat -> nat) (t t' : tgraph).
  Hypothesis R : renamed f t t'.
  Notation h := (tg_heap t).
  Notation h' := (tg_heap t').
  Notation F := (option_map f).
  Lemma eq_F x y : eq_point (F x) (F y) = eq_point x y.
  Proof.
    destruct x as [a|], y as [b|]; try reflexivity. cbn. destruct (Nat.eqb_spec a b) as [->|N]; [apply Nat.eqb_refl|].
    apply Nat.eqb_neq. intros E. apply N, (rn_inj _ _ _ R), E.
  Qed.
  Lemma mem_F x l : mem_point (F x) (map F l) = mem_point x l.
  Proof. unfold mem_point. induction l as [|y l IH]; [reflexivity|]. cbn [map existsb]. rewrite eq_F, IH. reflexivity. Qed.
  Lemma succs_F x : succs h' (F x) = map F (succs h x).
  Proof. destruct x as [a|]; [|reflexivity]. cbn [succs option_map]. rewrite (rn_next _ _ _ R), !map_map. reflexivity. Qed.
  Lemma prod_F x : productive h' (F x) = productive h x.
  Proof. destruct x as [a|]; [|reflexivity]. cbn [productive option_map]. rewrite (rn_elem _ _ _ R). reflexivity. Qed.
  Lemma emit_F x k : emit_point h' (F x) k = emit_point h x k.
  Proof. destruct x as [a|]; [|reflexivity]. cbn [emit_point option_map]. rewrite (rn_elem _ _ _ R). reflexivity. Qed.
  Lemma filter_F (P P' : point -> bool) l : (forall x, P' (F x) = P x) -> filter P' (map F l) = map F (filter P l).
  Proof. intros H. induction l as [|x l IH]; [reflexivity|]. cbn [map filter]. rewrite H. destruct (P x); cbn [map]; rewrite IH; reflexivity. Qed.
  Lemma existsb_F (P P' : point -> bool) l : (forall x, P' (F x) = P x) -> existsb P' (map F l) = existsb P l.
  Proof. intros H. induction l as [|x l IH]; [reflexivity|]. cbn [map existsb]. rewrite H, IH. reflexivity. Qed.

  (** ** prepare *)
  Lemma gather_F fuel : forall n all, gather fuel h' (F n) (map F all) = option_map (map F) (gather fuel h n all).
  Proof.
    induction fuel as [|k IH]; intros n all; [reflexivity|]. cbn [gather]. rewrite mem_F. destruct (mem_point n all); [reflexivity|]. rewrite succs_F.
    assert (K : forall ss acc, fold_left (fun acc s => match acc with Some l => gather k h' s l | None => None end) (map F ss) (option_map (map F) acc) =
      option_map (map F) (fold_left (fun acc s => match acc with Some l => gather k h s l | None => None end) ss acc)).
    { induction ss as [|s ss IHs]; intros acc; [reflexivity|]. cbn [map fold_left]. rewrite <- IHs. f_equal. destruct acc as [l|]; [|reflexivity]. apply IH. }
    exact (K (succs h n) (Some (n :: all))).
  Qed.
  Lemma gathers_F fuel es : forall acc, fold_left (fun acc e => match acc with Some l => gather fuel h' e l | None => None end) (map F es) (option_map (map F) acc) =
    option_map (map F) (fold_left (fun acc e => match acc with Some l => gather fuel h e l | None => None end) es acc).
  Proof. induction es as [|e es IH]; intros acc; [reflexivity|]. cbn [map fold_left]. rewrite <- IH. f_equal. destruct acc as [l|]; [|reflexivity]. apply gather_F. Qed.
  Lemma pass_F ns : forall can, reach_pass h' (tg_ends t') (map F ns) (map F can) = map F (reach_pass h (tg_ends t) ns can).
  Proof.
    induction ns as [|n ns IH]; intros can; [reflexivity|]. cbn [map]. rewrite !reach_pass_cons. rewrite <- IH. f_equal. unfold reach_step. rewrite mem_F, prod_F, (rn_ends _ _ _ R), mem_F, succs_F.
    rewrite (existsb_F (fun s => productive h s && mem_point s can)) by (intros x; rewrite prod_F, mem_F; reflexivity).
    destruct (mem_point n can || negb (productive h n)); [reflexivity|]. destruct (mem_point n (tg_ends t) || _); reflexivity.
  Qed.
  Lemma loop_F fuel all : forall i can, reach_loop fuel h' (tg_ends t') (fun _ l => l) (map F all) i (map F can) =
    option_map (map F) (reach_loop fuel h (tg_ends t) (fun _ l => l) all i can).
  Proof.
    induction fuel as [|k IH]; intros i can; [reflexivity|]. cbn [reach_loop]. rewrite pass_F, !map_length. destruct (Nat.eqb _ _); [reflexivity|]. apply IH.
  Qed.
  Lemma prepare_F : prepare (fun _ l => l) t' = option_map (fun p => mkPrep t' (map F (p_can p)) (map F (p_entries p))) (prepare (fun _ l => l) t).
  Proof.
    unfold prepare. rewrite (rn_size _ _ _ R), (rn_entry _ _ _ R). change (@Some (list point) []) with (option_map (map F) (Some [])) at 1. rewrite gathers_F.
    destruct (fold_left _ (tg_entry t) _) as [all|]; [|reflexivity]. cbn [option_map]. rewrite map_length. change (@nil point) with (map F []) at 1. rewrite loop_F.
    destruct (reach_loop _ _ _ _ all _ _) as [can|]; [|reflexivity]. cbn [option_map p_can p_entries]. do 2 f_equal.
    apply filter_F. intros x. rewrite prod_F, mem_F. reflexivity.
  Qed.

  (** ** The reader *)
  Variable p : prepared.
  Hypothesis Pt : p_graph p = t.
  Notation p' := (mkPrep t' (map F (p_can p)) (map F (p_entries p))).
  Definition frame_F (x : frame) : frame := mkFrame (F (f_node x)) (f_cursor x) (map F (f_allowed x)).
  Definition counts_F (u u' : counts) : Prop := forall x y, u' (F x, F y) = u (x, y).
  Record trails_F (s s' : trails) : Prop := {
    tf_len : t_len s' = t_len s; tf_stack : t_stack s' = map frame_F (t_stack s); tf_used : counts_F (t_used s) (t_used s'); tf_had : t_had s' = t_had s }.
  Lemma allowed_F s u u' : counts_F u u' -> allowed_at p' (map frame_F s) u' = map F (allowed_at p s u).
  Proof.
    intros U. destruct s as [|x s]; [reflexivity|]. cbn [map allowed_at p_graph p_can frame_F f_node]. rewrite succs_F, Pt. apply filter_F. intros y. rewrite mem_F, U. reflexivity.
  Qed.
  Lemma count_F k s n u u' : counts_F u u' -> counts_F (count_edge k s n u) (count_edge k (map frame_F s) (F n) u').
  Proof.
    intros U. destruct s as [|x s]; [exact U|]. intros a b. cbn [map count_edge frame_F f_node]. unfold add_count, eq_edge. cbn [fst snd]. rewrite !eq_F, U. reflexivity.
  Qed.
  Lemma push_F s s' : trails_F s s' -> match push_first p s with
    | None => push_first p' s' = None
    | Some s1 => exists s1', push_first p' s' = Some s1' /\ trails_F s1 s1'
    end.
  Proof.
    intros [L S U H]. unfold push_first. rewrite S, (allowed_F _ _ _ U). destruct (allowed_at p (t_stack s) (t_used s)) as [|n al]; [reflexivity|]. cbn [map].
    eexists. split; [reflexivity|]. constructor; cbn; [exact L|reflexivity|apply count_F, U|exact H].
  Qed.
  Lemma bump_F s : forall u u', counts_F u u' -> exists u1', bump (map frame_F s) u' = (fst (fst (bump s u)), map frame_F (snd (fst (bump s u))), u1') /\ counts_F (snd (bump s u)) u1'.
  Proof.
    induction s as [|x s IH]; intros u u' U; [exists u'; split; [reflexivity|exact U]|]. cbn [map bump]. cbn [frame_F f_node f_cursor f_allowed].
    assert (E : @nth_error point (map F (f_allowed x)) (S (f_cursor x)) = option_map F (@nth_error point (f_allowed x) (S (f_cursor x)))) by apply nth_error_map. rewrite E.
    pose proof (count_F (-1) s (f_node x) u u' U) as U1. destruct (nth_error (f_allowed x) (S (f_cursor x))) as [n|]; cbn [option_map].
    - eexists. split; [reflexivity|]. cbn [fst snd]. apply count_F, U1.
    - apply IH, U1.
  Qed.
  Lemma bumps_F s s' : trails_F s s' -> exists s1', bump_trails s' = (fst (bump_trails s), s1') /\ trails_F (snd (bump_trails s)) s1'.
  Proof.
    intros [L S U H]. unfold bump_trails. rewrite S. destruct (bump_F (t_stack s) _ _ U) as (u1 & -> & U1). destruct (bump (t_stack s) (t_used s)) as [[b s1] u]. cbn [fst snd] in *.
    eexists. split; [reflexivity|]. constructor; cbn; auto.
  Qed.
  Definition res_F (a a' : option (bool * trails)) : Prop := match a, a' with
    | None, None => True
    | Some (b, s), Some (b', s') => b' = b /\ trails_F s s'
    | _, _ => False
    end.
  Lemma leaf_F fuel : forall s s', trails_F s s' -> res_F (next_leaf fuel p s) (next_leaf fuel p' s').
  Proof.
    induction fuel as [|k IH]; intros s s' T; [exact Logic.I|]. cbn [next_leaf].
    assert (K : exists s1', (if Nat.eqb (length (t_stack s')) (t_len s') then bump_trails s' else match push_first p' s' with Some st1 => (true, st1) | None => bump_trails s' end) =
        (fst (if Nat.eqb (length (t_stack s)) (t_len s) then bump_trails s else match push_first p s with Some st1 => (true, st1) | None => bump_trails s end), s1') /\
        trails_F (snd (if Nat.eqb (length (t_stack s)) (t_len s) then bump_trails s else match push_first p s with Some st1 => (true, st1) | None => bump_trails s end)) s1').
    { rewrite (tf_len _ _ T), (tf_stack _ _ T), map_length. destruct (Nat.eqb _ _); [apply bumps_F, T|]. pose proof (push_F s s' T) as Q. destruct (push_first p s) as [s1|].
      - destruct Q as (s1' & -> & Q). exists s1'. split; [reflexivity|exact Q].
      - rewrite Q. apply bumps_F, T. }
    destruct K as (s1' & -> & T1). destruct (if Nat.eqb (length (t_stack s)) (t_len s) then _ else _) as [go s1]. cbn [fst snd] in *.
    destruct go; cbn [negb]; [|split; [reflexivity|exact T1]]. rewrite (tf_len _ _ T1), (tf_stack _ _ T1), map_length. destruct (Nat.eqb _ _); [|apply IH, T1].
    split; [reflexivity|]. constructor; cbn; try reflexivity. apply (tf_used _ _ T1).
  Qed.
  Lemma reset_F n : trails_F (reset_level n) (reset_level n).
  Proof. constructor; try reflexivity. intros x y. reflexivity. Qed.
  Lemma advance_F fuel : forall s s', trails_F s s' -> res_F (advance_path fuel p s) (advance_path fuel p' s').
  Proof.
    induction fuel as [|k IH]; intros s s' T; [exact Logic.I|]. cbn [advance_path]. cbv zeta.
    assert (T0 : trails_F (if Nat.eqb (t_len s) 0 then reset_level 1 else s) (if Nat.eqb (t_len s') 0 then reset_level 1 else s')).
    { rewrite (tf_len _ _ T). destruct (Nat.eqb _ _); [apply reset_F|exact T]. }
    pose proof (leaf_F (S k) _ _ T0) as Q. unfold res_F in Q at 1. destruct (next_leaf (S k) p _) as [[b s1]|], (next_leaf (S k) p' _) as [[b' s1']|]; try contradiction; [|exact Logic.I].
    destruct Q as [-> T1]. destruct b.
    - rewrite (tf_stack _ _ T1). destruct (t_stack s1) as [|fr st]; [exact Logic.I|]. cbn [map frame_F f_node p_graph]. rewrite (rn_ends _ _ _ R), mem_F, Pt.
      destruct (mem_point _ _); [split; [reflexivity|exact T1]|apply IH, T1].
    - rewrite (tf_had _ _ T1), (tf_len _ _ T1). destruct (negb _); [split; [reflexivity|exact T1]|apply IH, reset_F].
  Qed.
  Lemma totals_F s : totals h' (map frame_F s) = totals h s.
  Proof. induction s as [|x s IH]; [reflexivity|]. cbn [map totals frame_F f_node]. rewrite emit_F, IH. reflexivity. Qed.
  Lemma stage_F s : forall idx, stage h' (map frame_F s) idx = stage h s idx.
  Proof. induction s as [|x s IH]; intros idx; [reflexivity|]. destruct idx as [|i is_]; [reflexivity|]. cbn [map stage frame_F f_node]. rewrite emit_F, IH. reflexivity. Qed.
  Record reader_F (r r' : reader) : Prop := {
    rf_prep : r_prep r = p; rf_prep' : r_prep r' = p'; rf_trails : trails_F (r_trails r) (r_trails r'); rf_ex : r_exhausted r' = r_exhausted r; rf_have : r_have r' = r_have r;
    rf_idx : r_idx r' = r_idx r; rf_tot : r_tot r' = r_tot r; rf_staged : r_staged r' = r_staged r; rf_has : r_has_staged r' = r_has_staged r }.
  Lemma ensure_F fuel r r' : reader_F r r' -> match ensure_staged fuel r with
    | Rd_ok r1 => exists r1', ensure_staged fuel r' = Rd_ok r1' /\ reader_F r1 r1'
    | Rd_panic => ensure_staged fuel r' = Rd_panic
    | Rd_fuel => ensure_staged fuel r' = Rd_fuel
    end.
  Proof.
    intros Q. pose proof Q as [A B C D E G H I J]. unfold ensure_staged. rewrite D, E, G, H, I, J, A, B. destruct (r_has_staged r || r_exhausted r); [exists r'; split; [reflexivity|exact Q]|].
    cbn [p_graph]. rewrite Pt. destruct (r_have r).
    - rewrite (tf_stack _ _ C), stage_F. destruct (stage _ _ _); [|reflexivity]. eexists. split; [reflexivity|]. constructor; cbn; auto.
    - pose proof (advance_F fuel _ _ C) as K. unfold res_F in K. destruct (advance_path fuel p _) as [[b s]|], (advance_path fuel p' _) as [[b' s']|]; try contradiction; [|reflexivity].
      destruct K as [-> T]. destruct b.
      + rewrite (tf_stack _ _ T), totals_F. destruct (totals _ _); [|reflexivity]. rewrite stage_F, map_map. destruct (stage _ _ _); [|reflexivity].
        eexists. split; [reflexivity|]. constructor; cbn; auto.
      + eexists. split; [reflexivity|]. constructor; cbn; auto.
  Qed.
  Lemma consume_F r r' : reader_F r r' -> reader_F (consume_staged r) (consume_staged r').
  Proof. intros [A B C D E G H I J]. unfold consume_staged. rewrite G, H. destruct (odometer _ _); constructor; cbn; auto. Qed.
  Lemma calls_F fuel cs : forall r r', reader_F r r' -> calls fuel r' cs = calls fuel r cs.
  Proof.
    induction cs as [|[] cs IH]; intros r r' Q; [reflexivity| |]; cbn [calls]; unfold reader_next, reader_scan;
      pose proof (ensure_F fuel r r' Q) as K; destruct (ensure_staged fuel r) as [r1| |]; try (rewrite K; reflexivity); destruct K as (r1' & -> & Q1).
    - rewrite (rf_has _ _ Q1), (IH _ _ Q1). reflexivity.
    - rewrite (rf_has _ _ Q1). destruct (r_has_staged r1); [rewrite (rf_staged _ _ Q1), (IH _ _ (consume_F _ _ Q1)); reflexivity|]. rewrite (IH _ _ Q1). reflexivity.
  Qed.
  Lemma reader_calls fuel cs : calls fuel (new_reader p') cs = calls fuel (new_reader p) cs.
  Proof. apply calls_F. constructor; try reflexivity. constructor; try reflexivity. intros x y. reflexivity. Qed.

  (** ** The covering set *)
  Notation FF := (fun e : point * point => (F (fst e), F (snd e))).
  Lemma viable_F x : viable p' (F x) = map F (viable p x).
  Proof. unfold viable. cbn [p_graph p_can]. rewrite succs_F, Pt. apply filter_F. intros y. rewrite prod_F, mem_F. reflexivity. Qed.
  Lemma pget_F x m : pget (F x) (map FF m) = option_map F (pget x m).
  Proof. induction m as [|[k v] m IH]; [reflexivity|]. cbn [map pget fst snd]. rewrite eq_F, IH. destruct (eq_point k x); reflexivity. Qed.
  Lemma known_F x m : known (F x) (map FF m) = known x m.
  Proof. unfold known. rewrite pget_F. destruct (pget x m); reflexivity. Qed.
  Lemma sees_F (par par' : point -> point) (ss : list point) : (forall x, par' (F x) = F (par x)) -> forall (m : pmap) (q : list point),
    fold_left (see par') (map F ss) (map FF m, map F q) = (map FF (fst (fold_left (see par) ss (m, q))), map F (snd (fold_left (see par) ss (m, q)))).
  Proof.
    intros H. induction ss as [|s ss IH]; intros m q; [reflexivity|]. cbn [map fold_left]. cbn [see]. rewrite known_F. destruct (known s m); [apply IH|].
    rewrite <- IH, !map_app. cbn [map fst snd]. rewrite H. reflexivity.
  Qed.
  Lemma bfs_F (nb nb' : point -> list point) fuel : (forall x, nb' (F x) = map F (nb x)) -> forall (m : pmap) (q : list point), bfs fuel nb' (map FF m) (map F q) = option_map (map FF) (bfs fuel nb m q).
  Proof.
    intros H. induction fuel as [|k IH]; intros m q; [reflexivity|]. cbn [bfs]. destruct q as [|x q]; [reflexivity|]. cbn [map]. rewrite H, (sees_F (fun _ : point => x)) by reflexivity.
    destruct (fold_left (see (fun _ : point => x)) (nb x) (m, q)) as [m1 q1]. apply IH.
  Qed.
  Lemma forward_F : forward p' = option_map (map FF) (forward p).
  Proof.
    assert (G : forall mq mq' : pmap * list point, mq' = (map FF (fst mq), map F (snd mq)) ->
      (let '(m, q) := mq' in bfs (S (length (p_can p'))) (viable p') m q) = option_map (map FF) (let '(m, q) := mq in bfs (S (length (p_can p))) (viable p) m q)).
    { intros [m q] mq' ->. cbn [fst snd p_can]. rewrite map_length. apply bfs_F, viable_F. }
    unfold forward. apply G. exact (sees_F (fun x => x) (fun x => x) (p_entries p) (fun _ => eq_refl) [] []).
  Qed.
  Lemma disc_F m : disc (map FF m) = map F (disc m).
  Proof. unfold disc. rewrite !map_map. reflexivity. Qed.
  Lemma flat_F {A B} (g : A -> B) (k : point -> list A) (k' : point -> list B) l : (forall x, k' (F x) = map g (k x)) -> flat_map k' (map F l) = map g (flat_map k l).
  Proof. intros H. induction l as [|x l IH]; [reflexivity|]. cbn [map flat_map]. rewrite H, IH, map_app. reflexivity. Qed.
  Lemma eqe_F a b : eq_edge (FF a) (FF b) = eq_edge a b.
  Proof. unfold eq_edge. cbn [fst snd]. rewrite !eq_F. reflexivity. Qed.
  Lemma ine_F e es : existsb (eq_edge (FF e)) (map FF es) = existsb (eq_edge e) es.
  Proof. induction es as [|x es IH]; [reflexivity|]. cbn [map existsb]. rewrite <- IH, <- (eqe_F e x). reflexivity. Qed.
  Lemma edges_F m : all_edges p' (map FF m) = map FF (all_edges p m).
  Proof.
    unfold all_edges. rewrite disc_F, (flat_F FF (fun n => map (fun s => (n, s)) (viable p n))) by (intros x; rewrite viable_F, !map_map; reflexivity).
    assert (K : forall (es acc : list edge), fold_left add_edge (map FF es) (map FF acc) = map FF (fold_left add_edge es acc)).
    { induction es as [|e es IH]; intros acc; [reflexivity|]. cbn [map fold_left]. rewrite <- IH. f_equal. unfold add_edge. rewrite (ine_F e acc).
      destruct (existsb _ _); [reflexivity|]. rewrite map_app. reflexivity. }
    exact (K _ []).
  Qed.
  Lemma rev_F m x : rev_adj p' (map FF m) (F x) = map F (rev_adj p m x).
  Proof.
    unfold rev_adj. rewrite disc_F. apply flat_F. intros n. rewrite viable_F. apply flat_F. intros s. rewrite eq_F. destruct (eq_point s x); reflexivity.
  Qed.
  Lemma backward_F m : backward p' (map FF m) = option_map (map FF) (backward p m).
  Proof.
    unfold backward. cbn [p_graph p_can]. rewrite disc_F, (rn_ends _ _ _ R), Pt, (filter_F (fun n => mem_point n (tg_ends t))) by (intros x; apply mem_F). rewrite map_length.
    rewrite <- (bfs_F (rev_adj p m) (rev_adj p' (map FF m))) by apply rev_F. rewrite !map_map. reflexivity.
  Qed.
  Lemma climb_F fuel m : forall x, climb fuel (map FF m) (F x) = option_map (map F) (climb fuel m x).
  Proof.
    induction fuel as [|k IH]; intros x; [reflexivity|]. cbn [climb]. rewrite pget_F. destruct (pget x m) as [y|]; [|reflexivity]. cbn [option_map]. rewrite eq_F.
    destruct (eq_point y x); [reflexivity|]. rewrite IH. destruct (climb k m y); reflexivity.
  Qed.
  Lemma entry_F m x : entry_path (map FF m) (F x) = option_map (map F) (entry_path m x).
  Proof. unfold entry_path. rewrite map_length, climb_F. destruct (climb _ m x); cbn [option_map]; [rewrite map_rev|]; reflexivity. Qed.
  Lemma end_F m x : end_path (map FF m) (F x) = option_map (map F) (end_path m x).
  Proof. unfold end_path. rewrite map_length. apply climb_F. Qed.
  Lemma disco_F x d : disc_order (F x) (map F d) = disc_order x d.
  Proof. induction d as [|y d IH]; [reflexivity|]. cbn [map disc_order]. rewrite eq_F, IH. reflexivity. Qed.
  Lemma insert_F d e es : insert_edge (map F d) (FF e) (map FF es) = map FF (insert_edge d e es).
  Proof.
    induction es as [|x es IH]; [reflexivity|]. cbn [map insert_edge]. replace (edge_before (map F d) (FF e) (FF x)) with (edge_before d e x) by (unfold edge_before; cbn [fst snd]; rewrite !disco_F; reflexivity).
    destruct (edge_before d e x); [reflexivity|]. cbn [map]. f_equal. exact IH.
  Qed.
  Lemma sort_F d es : sort_edges (map F d) (map FF es) = map FF (sort_edges d es).
  Proof.
    assert (K : forall (l acc : list edge), fold_left (fun acc e => insert_edge (map F d) e acc) (map FF l) (map FF acc) = map FF (fold_left (fun acc e => insert_edge d e acc) l acc)).
    { induction l as [|e l IH]; intros acc; [reflexivity|]. cbn [map fold_left]. rewrite <- IH. f_equal. apply insert_F. }
    exact (K es []).
  Qed.
  Definition vals_F (u u' : point -> Z) : Prop := forall x, u' (F x) = u x.
  Lemma assign_F nx nx' w : vals_F nx nx' -> forall cl cl', vals_F cl cl' -> match assign h nx cl w with
    | None => assign h' nx' cl' (map F w) = None
    | Some (va, c1, k) => exists c1', assign h' nx' cl' (map F w) = Some (va, c1', k) /\ vals_F c1 c1'
    end.
  Proof.
    intros N. induction w as [|n w IH]; intros cl cl' C; [exists cl'; split; [reflexivity|exact C]|]. cbn [map assign]. rewrite emit_F. destruct (emit_point h n 0) as [[b vt0]|]; [|reflexivity].
    cbv zeta. rewrite (N n), (C n). destruct (_ <? _)%Z.
    - assert (C' : vals_F (upd n cl) (upd (F n) cl')) by (intros x; unfold upd; rewrite eq_F, C; reflexivity). specialize (IH _ _ C').
      destruct (assign h nx (upd n cl) w) as [[[va c1] k]|]; [|rewrite IH; reflexivity]. destruct IH as (c1' & -> & Q). exists c1'. split; [reflexivity|exact Q].
    - specialize (IH _ _ C). destruct (assign h nx cl w) as [[[va c1] k]|]; [|rewrite IH; reflexivity]. destruct IH as (c1' & -> & Q). exists c1'. split; [reflexivity|exact Q].
  Qed.
  Lemma render_F w : forall va, render h' (map F w) va = render h w va.
  Proof. induction w as [|n w IH]; intros va; [reflexivity|]. destruct va as [|k va]; [reflexivity|]. cbn [map render]. rewrite emit_F, IH. reflexivity. Qed.
  Record state_F (c c' : cstate) : Prop := {
    sf_v : c_v c' = map F (c_v c); sf_e : c_e c' = map FF (c_e c); sf_next : vals_F (c_next c) (c_next c'); sf_prods : c_prods c' = c_prods c;
    sf_walks : c_walks c' = map (map F) (c_walks c) }.
  Lemma emitw_F w fo c c' : state_F c c' -> match emit_walk h w fo c with
    | None => emit_walk h' (map F w) fo c' = None
    | Some (b, c1) => exists c1', emit_walk h' (map F w) fo c' = Some (b, c1') /\ state_F c1 c1'
    end.
  Proof.
    intros Q. pose proof Q as [A B C D E]. unfold emit_walk. pose proof (assign_F _ _ w C (fun _ => 0%Z) (fun _ => 0%Z) ltac:(intros x; reflexivity)) as K.
    destruct (assign h _ _ w) as [[[va cl] k]|]; [|rewrite K; reflexivity]. destruct K as (cl' & -> & Qc). destruct (negb fo && Nat.eqb k 0); [exists c'; split; [reflexivity|exact Q]|].
    rewrite render_F. destruct (render h w va) as [bs|]; [|reflexivity]. eexists. split; [reflexivity|]. constructor; cbn; [exact A|exact B| |rewrite D; reflexivity|exact E].
    intros x. rewrite (C x), (Qc x). reflexivity.
  Qed.
  Definition opt_F (c c' : option cstate) : Prop := match c, c' with None, None => True | Some c, Some c' => state_F c c' | _, _ => False end.
  Lemma pairs_F w : combine (map F w) (tl (map F w)) = map FF (combine w (tl w)).
  Proof.
    destruct w as [|x w]; [reflexivity|]. cbn [map tl]. revert x. induction w as [|y w IH]; intros x; [reflexivity|]. cbn [map combine]. f_equal. apply (IH y).
  Qed.
  Lemma take_F w c c' : state_F c c' -> opt_F (take_walk h w c) (take_walk h' (map F w) c').
  Proof.
    assert (G : forall X X', state_F X X' -> opt_F (match emit_walk h w true X with Some (_, c1) => Some (mark_walk w c1) | None => None end)
      (match emit_walk h' (map F w) true X' with Some (_, c1) => Some (mark_walk (map F w) c1) | None => None end)).
    { intros X X' Q. pose proof (emitw_F w true _ _ Q) as K. destruct (emit_walk h w true X) as [[b c1]|]; [|rewrite K; exact Logic.I]. destruct K as (c1' & -> & [A1 B1 C1 D1 E1]).
      constructor; cbn [mark_walk c_v c_e c_next c_prods c_walks]; auto; [rewrite A1, map_app; reflexivity|]. rewrite B1, map_app, pairs_F. reflexivity. }
    intros [A B C D E]. unfold take_walk. apply G. constructor; cbn [c_v c_e c_next c_prods c_walks]; auto. rewrite E, map_app. reflexivity.
  Qed.
  Lemma edget_F pre suc e c c' : opt_F c c' -> opt_F (edge_turn p pre suc c e) (edge_turn p' (map FF pre) (map FF suc) c' (FF e)).
  Proof.
    destruct c as [c|], c' as [c'|]; try (intros []; fail); [|intros _; exact Logic.I]. intros Q. unfold edge_turn. rewrite (sf_e _ _ Q), (ine_F e). destruct (existsb _ _); [exact Q|].
    cbn [fst snd]. rewrite known_F. destruct (negb _); [exact Q|]. rewrite entry_F, end_F. destruct (entry_path pre (fst e)) as [a|]; [|exact Logic.I].
    destruct (end_path suc (snd e)) as [b|]; [|exact Logic.I]. cbn [option_map p_graph]. rewrite <- map_app, Pt. apply take_F, Q.
  Qed.
  Lemma nodet_F pre suc v c c' : opt_F c c' -> opt_F (node_turn p pre suc c v) (node_turn p' (map FF pre) (map FF suc) c' (F v)).
  Proof.
    destruct c as [c|], c' as [c'|]; try (intros []; fail); [|intros _; exact Logic.I]. intros Q. unfold node_turn. rewrite (sf_v _ _ Q), mem_F. destruct (mem_point _ _); [exact Q|].
    rewrite known_F. destruct (negb _); [exact Q|]. rewrite entry_F. destruct (entry_path pre v) as [a|]; [|exact Logic.I]. cbn [option_map p_graph]. rewrite (rn_ends _ _ _ R), mem_F, Pt.
    destruct (mem_point _ _); [apply take_F, Q|]. rewrite end_F. destruct (end_path suc v) as [b|]; [|exact Logic.I]. cbn [option_map].
    pose proof (take_F (a ++ tl b) _ _ Q) as K. rewrite map_app in K. destruct b; exact K.
  Qed.
  Lemma folds_F {A B} (k : option cstate -> A -> option cstate) (k' : option cstate -> B -> option cstate) (g : A -> B) l :
    (forall x c c', opt_F c c' -> opt_F (k c x) (k' c' (g x))) -> forall c c', opt_F c c' -> opt_F (fold_left k l c) (fold_left k' (map g l) c').
  Proof. intros H. induction l as [|x l IH]; intros c c' Q; [exact Q|]. cbn [map fold_left]. apply IH, H, Q. Qed.
  Definition opt2_F (c c' : option (option cstate)) : Prop := match c, c' with None, None => True | Some c, Some c' => opt_F c c' | _, _ => False end.
  Lemma drain_F w fuel : forall c c', state_F c c' -> opt2_F (drain fuel h w c) (drain fuel h' (map F w) c').
  Proof.
    induction fuel as [|k IH]; intros c c' Q; [exact Logic.I|]. cbn [drain]. pose proof (emitw_F w false _ _ Q) as K. destruct (emit_walk h w false c) as [[b c1]|]; [|rewrite K; exact Logic.I].
    destruct K as (c1' & -> & Q1). destruct b; [apply IH, Q1|exact Q1].
  Qed.
  Lemma drains_F fuel ws : forall c c', state_F c c' -> opt2_F (drain_all fuel h ws c) (drain_all fuel h' (map (map F) ws) c').
  Proof.
    induction ws as [|w ws IH]; intros c c' Q; [exact Q|]. cbn [map drain_all]. pose proof (drain_F w fuel _ _ Q) as K.
    destruct (drain fuel h w c) as [[c1|]|], (drain fuel h' (map F w) c') as [[c1'|]|]; try contradiction; try exact Logic.I. apply IH, K.
  Qed.
  Lemma compact_F fuel : build_compact fuel p' = build_compact fuel p.
  Proof.
    unfold build_compact. rewrite forward_F. destruct (forward p) as [pre|]; [|reflexivity]. cbn [option_map]. rewrite backward_F. destruct (backward p pre) as [suc|]; [|reflexivity]. cbn [option_map].
    rewrite disc_F, edges_F, sort_F.
    assert (G : forall X X', opt_F X X' ->
      match X' with None => Rd_panic | Some c => match drain_all fuel h' (c_walks c) c with None => Rd_panic | Some None => Rd_fuel | Some (Some c1) => Rd_ok (c_prods c1) end end =
      match X with None => Rd_panic | Some c => match drain_all fuel h (c_walks c) c with None => Rd_panic | Some None => Rd_fuel | Some (Some c1) => Rd_ok (c_prods c1) end end).
    { intros [c|] [c'|] Q; try contradiction; [|reflexivity]. cbn [opt_F] in Q. rewrite (sf_walks _ _ Q). pose proof (drains_F fuel (c_walks c) _ _ Q) as K.
      destruct (drain_all fuel h _ c) as [[c1|]|], (drain_all fuel h' _ c') as [[c1'|]|]; try contradiction; try reflexivity. rewrite (sf_prods _ _ K). reflexivity. }
    rewrite Pt. apply G. apply (folds_F _ _ F (disc pre) (nodet_F pre suc)). apply (folds_F _ _ FF (sort_edges (disc pre) (all_edges p pre)) (edget_F pre suc)).
    constructor; try reflexivity; intros x; reflexivity.
  Qed.
End Renamed.

(** Two graphs that differ in the names of their nodes are served alike, whatever the orders
    of the maps: every sequence of calls has the same answers, and the covering sets are
    the same list. *)
Theorem C101_reader_names : forall f t t' ord ord', renamed f t t' -> any_order ord -> any_order ord' ->
  exists p p', prepare ord t = Some p /\ prepare ord' t' = Some p' /\
    (forall fuel cs, calls fuel (new_reader p') cs = calls fuel (new_reader p) cs) /\
    (forall fuel, build_compact fuel p' = build_compact fuel p).
Proof.
  intros f t t' ord ord' R O O'. assert (Oi : any_order (fun (_ : nat) (l : list point) => l)) by (intros i l x; reflexivity).
  destruct (C100_reader_deterministic ord (fun _ l => l) t O Oi) as (p & q & E & Eq & A1 & A2).
  destruct (C100_reader_deterministic ord' (fun _ l => l) t' O' Oi) as (p' & q' & E' & Eq' & B1 & B2).
  exists p, p'. split; [exact E|]. split; [exact E'|]. rewrite (prepare_F f t t' R), Eq in Eq'. cbn [option_map] in Eq'. injection Eq' as <-.
  assert (Pt : p_graph q = t).
  { destruct (prepare_spec (fun _ l => l) t Oi) as (q1 & E1 & K). rewrite Eq in E1. injection E1 as <-. apply K. }
  split.
  - intros fuel cs. rewrite B1, A1. exact (reader_calls f t t' R q Pt fuel cs).
  - intros fuel. rewrite B2, A2. exact (compact_F f t t' R q Pt fuel).
Qed.

(** The graph of C34 with its four nodes counted from the other end, which prepares and
    serves as the first does. *)
Definition turn34 (a : nat) : nat := if a <? 4 then 3 - a else a.
Definition t34r : tgraph :=
  mkTG (rev (map (fun n => mkNode (n_elem n) (map turn34 (n_nexts n))) (tg_heap t34))) (map (option_map turn34) (tg_entry t34)) (map (option_map turn34) (tg_ends t34)).
Example C101_case : renamed turn34 t34 t34r /\ tg_entry t34 = [Some 0; Some 1; None; Some 2] /\ tg_entry t34r = [Some 3; Some 2; None; Some 1] /\
  nexts (tg_heap t34) 0 = [0; 1; 2] /\ nexts (tg_heap t34r) 3 = [3; 2; 1] /\
  exists p, prepare (fun _ l => rev l) t34r = Some p /\
    calls 100 (new_reader p) [Scan; Scan; Scan] = Rd_ok [Got (Some [120]%Z); Got (Some [88]%Z); Got (Some [48]%Z)].
Proof.
  assert (H1 : tg_heap t34 = [mkNode (EChar false [120%Z]) [0; 1; 2]; mkNode (ENum "x" StatRange ["30"; "31"]) []; mkNode (EChar true [45%Z]) []; mkNode (EChar true [45%Z]) []])
    by (vm_compute; reflexivity).
  assert (H2 : tg_heap t34r = [mkNode (EChar true [45%Z]) []; mkNode (EChar true [45%Z]) []; mkNode (ENum "x" StatRange ["30"; "31"]) []; mkNode (EChar false [120%Z]) [3; 2; 1]])
    by (vm_compute; reflexivity).
  split.
  - constructor.
    + intros a b. unfold turn34. destruct (Nat.ltb_spec a 4), (Nat.ltb_spec b 4); lia.
    + rewrite H1, H2. reflexivity.
    + intros a. rewrite H1, H2. clear. do 4 (destruct a as [|a]; [reflexivity|]). unfold elem_at. cbn. destruct a; reflexivity.
    + intros a. rewrite H1, H2. clear. do 4 (destruct a as [|a]; [reflexivity|]). unfold nexts. cbn. destruct a; reflexivity.
    + unfold t34r. cbn [tg_entry]. reflexivity.
    + unfold t34r. cbn [tg_ends]. reflexivity.
  - split; [vm_compute; reflexivity|]. split; [vm_compute; reflexivity|]. split; [vm_compute; reflexivity|]. split; [vm_compute; reflexivity|].
    eexists. split; [vm_compute; reflexivity|]. vm_compute. reflexivity.
Qed.

Print Assumptions C101_reader_names.
Print Assumptions C101_case.
