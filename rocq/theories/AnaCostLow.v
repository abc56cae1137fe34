(** A family of grammars whose check before Generate is exponential. Its definitions are means of
    proof and model no code. *)
From Coq Require Import ZArith Arith String Ascii Bool Relations List Lia.
From Verif Require Import Syntax Spec Utf8 Num Tape Deps Dag Cycle PropDag Generate LowerSize Printer PropTerm PropRegex QueryCostLow RegexCostProof RegexCostLow AnaCost.
Import ListNotations.
Local Open Scope string_scope.
Local Open Scope list_scope.
Local Open Scope nat_scope.

(** a = aa / aa, aa = aaa / aaa, ..., the last one = %s"!". *)
Definition fork_rule (i : nat) : rule := mkRule (nm i) [[Rep 1 1 (ERule (nm (S i)))]; [Rep 1 1 (ERule (nm (S i)))]].
Definition g_fork (k : nat) : grammar := map fork_rule (seq 0 k) ++ [bang_rule k].
Definition fork_at (k i : nat) : rule := if i <? k then fork_rule i else bang_rule k.

Lemma fork_in k r : In r (g_fork k) -> (exists i, i < k /\ r = fork_rule i) \/ r = bang_rule k.
Proof.
  intros I. apply in_app_iff in I as [I|[<-|[]]]; auto. left. apply in_map_iff in I as (i & <- & I).
  apply in_seq in I. exists i. split; auto. lia.
Qed.
Lemma fork_names k : map (fun r => lower (rule_name r)) (g_fork k) = map nm (seq 0 (S k)).
Proof.
  unfold g_fork. rewrite map_app, map_map, seq_S, map_app. cbn [map rule_name bang_rule fork_rule]. rewrite nm_lower. f_equal.
  apply map_ext. intros i. apply nm_lower.
Qed.
Lemma fork_distinct k : distinct_names (g_fork k).
Proof. unfold distinct_names. rewrite fork_names. apply FinFun.Injective_map_NoDup; [exact nm_inj|apply seq_NoDup]. Qed.
Lemma fork_wf k : wf_grammar (g_fork k).
Proof.
  split; [apply fork_distinct|]. apply Forall_forall. intros r I. apply fork_in in I as [(i & _ & ->)| ->];
    cbn [rule_alt fork_rule bang_rule]; repeat constructor; lia.
Qed.
Lemma fork_lex k : lex_grammar (g_fork k) = true.
Proof.
  unfold lex_grammar. apply forallb_forall. intros r I. apply fork_in in I as [(i & _ & ->)| ->].
  - cbn [rule_name rule_alt fork_rule]. rewrite nm_lex. cbn [andb]. pose proof (nm_lex (S i)) as H.
    cbn. cbn in H. rewrite H. reflexivity.
  - cbn [rule_name rule_alt bang_rule]. rewrite nm_lex. reflexivity.
Qed.
Lemma fork_get k i : i <= k -> get_rule (nm i) (g_fork k) = Some (fork_at k i).
Proof.
  intros H. unfold get_rule, get_rule_core, get_rule_in.
  replace (find (fun r => equal_fold (nm i) (rule_name r)) (g_fork k)) with (Some (fork_at k i)); auto. symmetry.
  unfold g_fork, fork_at. destruct (Nat.ltb_spec i k) as [L|L].
  - replace (seq 0 k) with (seq 0 i ++ i :: seq (S i) (k - S i)).
    + rewrite map_app, <- app_assoc. cbn [map app]. apply find_first.
      * intros r I. apply in_map_iff in I as (j & <- & I). apply in_seq in I. cbn [rule_name fork_rule]. rewrite nm_fold. apply Nat.eqb_neq. lia.
      * cbn [rule_name fork_rule]. rewrite nm_fold. apply Nat.eqb_refl.
    + replace k with (i + S (k - S i)) at 2 by lia. rewrite seq_app. reflexivity.
  - replace i with k by lia. apply find_first.
    + intros r I. apply in_map_iff in I as (j & <- & I). apply in_seq in I. cbn [rule_name fork_rule]. rewrite nm_fold. apply Nat.eqb_neq. lia.
    + cbn [rule_name bang_rule]. rewrite nm_fold. apply Nat.eqb_refl.
Qed.
Lemma fork_refers i n : refers (rule_alt (fork_rule i)) n -> n = nm (S i).
Proof.
  intros (mn & mx & H). inversion H as [a c r Ic Ir|a c mn' mx' b r Ic Ir _|a c mn' mx' b r Ic Ir _]; subst; cbn [fork_rule rule_alt] in Ic;
    destruct Ic as [<-|[<-|[]]]; cbn [In] in Ir; destruct Ir as [Ir|[]]; try discriminate; injection Ir; auto.
Qed.
Lemma fork_refs k : refs_defined (g_fork k).
Proof.
  intros r n I F. assert (G : exists r', get_rule n (g_fork k) = Some r').
  { apply fork_in in I as [(i & Li & ->)| ->].
    - apply fork_refers in F. subst n. eexists. apply fork_get. lia.
    - destruct (bang_refers _ _ F). }
  destruct G as (r' & G). exists (rule_alt r'). apply (proj1 (get_rule_resolves _ n (fork_distinct k)) r' G).
Qed.
Lemma fork_bounds k : bounds_ordered (g_fork k).
Proof.
  intros r mn mx e I R _. revert R.
  apply (flat_reps_in (fun x => match x with Rep mn mx _ => (mn <= mx)%Z end) (rule_alt r)).
  apply fork_in in I as [(i & Li & ->)| ->]; cbn [rule_alt fork_rule bang_rule]; intros c x Ic J.
  - destruct Ic as [<-|[<-|[]]]; destruct J as [<-|[]]; cbn [rep_elem]; (split; [lia|exact Logic.I]).
  - destruct Ic as [<-|[]]; destruct J as [<-|[]]; cbn [rep_elem]; (split; [lia|exact Logic.I]).
Qed.
Lemma fork_size k : size (g_fork k) = 4 * k + 3 + size [].
Proof.
  unfold size. rewrite map_app, list_sum_app. cbn [app]. f_equal. unfold g_fork. rewrite map_app, list_sum_app, map_map.
  rewrite (sum_const _ 4) by (intros i _; reflexivity). rewrite seq_length.
  change (list_sum (map (fun r => alt_size (rule_alt r)) [bang_rule k])) with 3. lia.
Qed.
Lemma fork_len k : length (g_fork k ++ core_rules) = k + 1 + length core_rules.
Proof. rewrite app_length. unfold g_fork. rewrite app_length, map_length, seq_length. cbn [length]. lia. Qed.

(** *** The check *)
Lemma fork_known i known : (forall x, In x known -> exists j, j <= i /\ x = nm j) -> existsb (equal_fold (nm (S i))) known = false.
Proof.
  intros H. destruct (existsb _ known) eqn:E; auto. apply existsb_exists in E as (x & I & E). destruct (H x I) as (j & L & ->).
  rewrite nm_fold in E. apply Nat.eqb_eq in E. lia.
Qed.
Lemma fork_check k : forall n i fuel known, n + i = k -> n < fuel -> (forall x, In x known -> exists j, j <= i /\ x = nm j) ->
  check_alt fuel (g_fork k) known (rule_alt (fork_at k i)) = C_ok /\
  2 ^ n <= check_calls fuel (g_fork k) known (rule_alt (fork_at k i)).
Proof.
  induction n as [|n IH]; intros i fuel known Hi Hf Hk; (destruct fuel as [|f]; [lia|]).
  - unfold fork_at. replace (i <? k) with false by (symmetry; apply Nat.ltb_ge; lia). split; [reflexivity|]. cbn [check_calls Nat.pow]. lia.
  - unfold fork_at. replace (i <? k) with true by (symmetry; apply Nat.ltb_lt; lia).
    pose proof (fork_known i known Hk) as Nk. pose proof (fork_get k (S i) ltac:(lia)) as G.
    destruct (IH (S i) f (nm (S i) :: known) ltac:(lia) ltac:(lia)) as [C L].
    { intros x [<-|X]; [exists (S i); auto|]. destruct (Hk x X) as (j & Lj & ->). exists j. split; auto. }
    assert (Cr : check_rep (g_fork k) (check_alt f (g_fork k)) known (Rep 1 1 (ERule (nm (S i)))) = C_ok).
    { change (check_rep (g_fork k) (check_alt f (g_fork k)) known (Rep 1 1 (ERule (nm (S i))))) with
        (check_elem (g_fork k) (check_alt f (g_fork k)) known (ERule (nm (S i)))). cbn [check_elem]. rewrite Nk, G, C. reflexivity. }
    assert (Lr : calls_rep (g_fork k) (check_alt f (g_fork k)) (check_calls f (g_fork k)) known (Rep 1 1 (ERule (nm (S i)))) =
      check_calls f (g_fork k) (nm (S i) :: known) (rule_alt (fork_at k (S i)))).
    { change (calls_rep (g_fork k) (check_alt f (g_fork k)) (check_calls f (g_fork k)) known (Rep 1 1 (ERule (nm (S i))))) with
        (calls_elem (g_fork k) (check_alt f (g_fork k)) (check_calls f (g_fork k)) known (ERule (nm (S i)))). cbn [calls_elem]. rewrite Nk, G. reflexivity. }
    assert (Cc : check_cat (g_fork k) (check_alt f (g_fork k)) known [Rep 1 1 (ERule (nm (S i)))] = C_ok) by (unfold check_cat; cbn [map seq_errs]; rewrite Cr; reflexivity).
    cbn [check_alt check_calls rule_alt fork_rule]. unfold check_alt_with. cbn [map]. rewrite Cc. split; [reflexivity|].
    cbn [calls_cats calls_cat]. rewrite Cc, Cr, Lr. cbn [Nat.pow]. lia.
Qed.

(** *** The generation *)
Lemma fork_gen k rnd rm thr : forall n i fuel s, n + i = k -> n < fuel ->
  gen_alt fuel (g_fork k) rnd rm thr (rule_alt (fork_at k i)) s = G_ok (mkG (g_out s ++ [33%Z]) (2 * S n + g_tick s)).
Proof.
  assert (One : forall fuel e s, gen_cat (g_fork k) rnd rm thr (gen_alt fuel (g_fork k) rnd rm thr) [Rep 1 1 e] s =
    gen_elem (g_fork k) rnd (gen_alt fuel (g_fork k) rnd rm thr) e (mkG (g_out s) (S (g_tick s)))).
  { intros fuel e s. cbn [gen_cat]. change ((1 =? inf)%Z) with false. cbv iota. change ((1 - 1 + 1)%Z) with 1%Z. change ((1 =? 0)%Z) with false. cbv iota.
    rewrite Z.rem_1_r. change (Z.to_nat (1 + 0)) with 1. change ((1 + 0)%Z) with 1%Z. cbn [gen_loop].
    unfold keep_going. change ((0 =? 0)%Z && (1 =? 0)%Z && (thr <=? Z.of_nat (length (g_out (mkG (g_out s) (S (g_tick s))))))%Z)%bool with false.
    cbv iota. change ((0 <? 1)%Z) with true. cbv iota. destruct (gen_elem _ _ _ e _); reflexivity. }
  induction n as [|n IH]; intros i fuel s Hi Hf; (destruct fuel as [|f]; [lia|]).
  - unfold fork_at. replace (i <? k) with false by (symmetry; apply Nat.ltb_ge; lia). cbn [gen_alt rule_alt bang_rule]. unfold gen_alt_with.
    cbn [length]. rewrite Z.rem_1_r. cbn [nth_error Z.to_nat]. rewrite One. reflexivity.
  - unfold fork_at. replace (i <? k) with true by (symmetry; apply Nat.ltb_lt; lia). cbn [gen_alt rule_alt fork_rule]. unfold gen_alt_with.
    assert (E : nth_error [[Rep 1 1 (ERule (nm (S i)))]; [Rep 1 1 (ERule (nm (S i)))]]
      (Z.to_nat (Z.rem (rnd (g_tick s)) (Z.of_nat (length [[Rep 1 1 (ERule (nm (S i)))]; [Rep 1 1 (ERule (nm (S i)))]])))) = Some [Rep 1 1 (ERule (nm (S i)))]).
    { cbn [length]. change (Z.of_nat 2) with 2%Z. set (z := Z.rem (rnd (g_tick s)) 2).
      assert (Z.to_nat z < 2) by (pose proof (Z.rem_bound_abs (rnd (g_tick s)) 2 ltac:(lia)) as B; fold z in B; lia).
      destruct (Z.to_nat z) as [|[|j]]; [reflexivity|reflexivity|lia]. }
    match goal with |- context [nth_error ?l ?j] => change (nth_error l j) with (@nth_error concatenation l j) end.
    cbv zeta. setoid_rewrite E. rewrite One. cbn [gen_elem]. rewrite (fork_get k (S i)) by lia. rewrite IH by lia. cbn [g_out g_tick]. do 2 f_equal. lia.
Qed.
