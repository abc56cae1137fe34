(** A family of grammars whose simplification is exponential. Its definitions are means of
    proof and model no code. *)
From Coq Require Import ZArith Arith String Ascii Bool Relations List Lia.
From Verif Require Import Syntax Spec Utf8 Num Tape Deps Dag Cycle PropDag Regex RegexBuild LowerSize Printer PropTerm QueryCostLow RegexCost RegexCostProof.
Import ListNotations.
Local Open Scope string_scope.
Local Open Scope list_scope.
Local Open Scope nat_scope.

(** r = a %x110000, a = aa aa, aa = aaa aaa, ..., the last one = %s"!". *)
Definition dead_rule : rule := mkRule "r" [[Rep 1 1 (ERule "a"); Rep 1 1 (ENum "x" StatSeries ["110000"])]].
Definition bang_rule (k : nat) : rule := mkRule (nm k) [[Rep 1 1 (EChar true [33%Z])]].
Definition g_dia (k : nat) : grammar := dead_rule :: map step_rule (seq 0 k) ++ [bang_rule k].

Lemma dia_in k r : In r (g_dia k) -> r = dead_rule \/ (exists i, i < k /\ r = step_rule i) \/ r = bang_rule k.
Proof.
  intros [<-|I]; auto. right. apply in_app_iff in I as [I|[<-|[]]]; auto. left. apply in_map_iff in I as (i & <- & I).
  apply in_seq in I. exists i. split; auto. lia.
Qed.
Lemma dia_names k : map (fun r => lower (rule_name r)) (g_dia k) = "r" :: map nm (seq 0 (S k)).
Proof.
  unfold g_dia. cbn [map]. f_equal. rewrite map_app, map_map, seq_S, map_app. cbn [map rule_name bang_rule step_rule]. rewrite nm_lower. f_equal.
  apply map_ext. intros i. apply nm_lower.
Qed.
Lemma nm_r i : nm i <> "r".
Proof. destruct i; discriminate. Qed.
Lemma dia_distinct k : distinct_names (g_dia k).
Proof.
  unfold distinct_names. rewrite dia_names. constructor.
  - intros I. apply in_map_iff in I as (i & E & _). exact (nm_r i E).
  - apply FinFun.Injective_map_NoDup; [exact nm_inj|apply seq_NoDup].
Qed.
Lemma dia_wf k : wf_grammar (g_dia k).
Proof.
  split; [apply dia_distinct|].
  apply Forall_forall. intros r I. apply dia_in in I as [->|[(i & _ & ->)| ->]].
  - cbn [rule_alt dead_rule]. constructor; [|constructor]. constructor; [|constructor; [|constructor]].
    + constructor; [lia|right; lia|constructor].
    + constructor; [lia|right; lia|]. constructor. split; [|exact I]. constructor; [eexists; vm_compute; reflexivity|constructor].
  - cbn [rule_alt step_rule]. repeat constructor; lia.
  - cbn [rule_alt bang_rule]. repeat constructor; lia.
Qed.
Lemma dia_lex k : lex_grammar (g_dia k) = true.
Proof.
  unfold lex_grammar. apply forallb_forall. intros r I. apply dia_in in I as [->|[(i & _ & ->)| ->]].
  - vm_compute. reflexivity.
  - cbn [rule_name rule_alt step_rule]. rewrite nm_lex. cbn [andb]. pose proof (nm_lex (S i)) as H.
    cbn. cbn in H. rewrite H. reflexivity.
  - cbn [rule_name rule_alt bang_rule]. rewrite nm_lex. reflexivity.
Qed.
Lemma dead_fold i : equal_fold (nm i) (rule_name dead_rule) = false.
Proof. unfold equal_fold. rewrite nm_lower. apply String.eqb_neq, nm_r. Qed.
Lemma dia_step k i : i < k -> get_rule (nm i) (g_dia k) = Some (step_rule i).
Proof.
  intros H. unfold get_rule, get_rule_core, get_rule_in.
  replace (find (fun r => equal_fold (nm i) (rule_name r)) (g_dia k)) with (Some (step_rule i)); auto. symmetry.
  unfold g_dia. cbn [find]. rewrite dead_fold. replace (seq 0 k) with (seq 0 i ++ i :: seq (S i) (k - S i)).
  - rewrite map_app, <- app_assoc. cbn [map app]. apply find_first.
    + intros r I. apply in_map_iff in I as (j & <- & I). apply in_seq in I. cbn [rule_name step_rule]. rewrite nm_fold. apply Nat.eqb_neq. lia.
    + cbn [rule_name step_rule]. rewrite nm_fold. apply Nat.eqb_refl.
  - replace k with (i + S (k - S i)) at 2 by lia. rewrite seq_app. reflexivity.
Qed.
Lemma dia_last k : get_rule (nm k) (g_dia k) = Some (bang_rule k).
Proof.
  unfold get_rule, get_rule_core, get_rule_in.
  replace (find (fun r => equal_fold (nm k) (rule_name r)) (g_dia k)) with (Some (bang_rule k)); auto. symmetry.
  unfold g_dia. cbn [find]. rewrite dead_fold. apply find_first.
  - intros r I. apply in_map_iff in I as (j & <- & I). apply in_seq in I. cbn [rule_name step_rule]. rewrite nm_fold. apply Nat.eqb_neq. lia.
  - cbn [rule_name bang_rule]. rewrite nm_fold. apply Nat.eqb_refl.
Qed.
Lemma dia_dead k : get_rule "r" (g_dia k) = Some dead_rule.
Proof. reflexivity. Qed.

(** *** It has no cycle *)
Lemma step_refers i n : refers (rule_alt (step_rule i)) n -> n = nm (S i).
Proof.
  intros (mn & mx & H). inversion H as [a c r Ic Ir|a c mn' mx' b r Ic Ir _|a c mn' mx' b r Ic Ir _]; subst; cbn [step_rule rule_alt] in Ic;
    destruct Ic as [<-|[]]; cbn [In] in Ir; destruct Ir as [Ir|[Ir|[]]]; try discriminate; injection Ir; auto.
Qed.
Lemma bang_refers i n : ~ refers (rule_alt (bang_rule i)) n.
Proof.
  intros (mn & mx & H). inversion H as [a c r Ic Ir|a c mn' mx' b r Ic Ir _|a c mn' mx' b r Ic Ir _]; subst; cbn [bang_rule rule_alt] in Ic;
    destruct Ic as [<-|[]]; cbn [In] in Ir; destruct Ir as [Ir|[]]; discriminate.
Qed.
Lemma dead_refers n : refers (rule_alt dead_rule) n -> n = "a".
Proof.
  intros (mn & mx & H). inversion H as [a c r Ic Ir|a c mn' mx' b r Ic Ir _|a c mn' mx' b r Ic Ir _]; subst; cbn [dead_rule rule_alt] in Ic;
    destruct Ic as [<-|[]]; cbn [In] in Ir; destruct Ir as [Ir|[Ir|[]]]; try discriminate; injection Ir; auto.
Qed.
Lemma gref_rule k n m : gref (g_dia k) n m -> exists r j, get_rule n (g_dia k) = Some r /\ refers (rule_alt r) j /\ same_name j m.
Proof.
  intros (a & j & R & F & S1). destruct (proj2 (get_rule_resolves _ n (dia_distinct k)) a R) as (r & G & <-). exists r, j. auto.
Qed.
Lemma edge_up k i n m : i <= k -> lower n = nm i -> gref (g_dia k) n m -> i < k /\ lower m = nm (S i).
Proof.
  intros L E (r & j & G & F & S1)%gref_rule. rewrite (LowerLang.get_rule_lower n (nm i)) in G by (rewrite nm_lower; exact E).
  destruct (Nat.eq_dec i k) as [->|N].
  - rewrite dia_last in G. injection G as <-. destruct (bang_refers _ _ F).
  - rewrite dia_step in G by lia. injection G as <-. apply step_refers in F. subst j. split; [lia|]. rewrite <- S1. apply nm_lower.
Qed.
Lemma path_up k n m : clos_refl_trans _ (gref (g_dia k)) n m -> forall i, i <= k -> lower n = nm i -> exists j, i <= j <= k /\ lower m = nm j.
Proof.
  induction 1 as [n m E|n|n m o _ IH1 _ IH2]; intros i L Ei.
  - destruct (edge_up k i n m L Ei E) as [L' E']. exists (S i). split; [lia|exact E'].
  - exists i. split; [lia|exact Ei].
  - destruct (IH1 i L Ei) as (j & Lj & Ej). destruct (IH2 j ltac:(lia) Ej) as (o' & Lo & Eo). exists o'. split; [lia|exact Eo].
Qed.
Lemma acyclic_a k i n : i <= k -> lower n = nm i -> ~ exists m, clos_refl_trans _ (gref (g_dia k)) n m /\ clos_trans _ (gref (g_dia k)) m m.
Proof.
  intros L E (m & R & C). destruct (path_up k n m R i L E) as (j & Lj & Ej). apply clos_trans_t1n in C.
  assert (Up : forall x, clos_trans_1n _ (gref (g_dia k)) m x -> exists o, j < o /\ lower x = nm o).
  { intros x Cx. destruct Cx as [y E1|y z E1 C1].
    - destruct (edge_up k j m y ltac:(lia) Ej E1) as [_ E2]. exists (S j). split; [lia|exact E2].
    - destruct (edge_up k j m y ltac:(lia) Ej E1) as [L2 E2]. apply clos_t1n_trans in C1.
      assert (R1 : clos_refl_trans _ (gref (g_dia k)) y z) by (clear - C1; induction C1; [apply rt_step; assumption|eapply rt_trans; eassumption]).
      destruct (path_up k y z R1 (S j) ltac:(lia) E2) as (o & Lo & Eo). exists o. split; [lia|exact Eo]. }
  destruct (Up m C) as (o & Lo & Eo). rewrite Ej in Eo. apply nm_inj in Eo. lia.
Qed.
Lemma dead_edge k m : gref (g_dia k) "r" m -> lower m = "a".
Proof. intros (r & j & G & F & S1)%gref_rule. rewrite dia_dead in G. injection G as <-. apply dead_refers in F. subst j. symmetry. exact S1. Qed.
Lemma acyclic_r k : ~ exists m, clos_refl_trans _ (gref (g_dia k)) "r" m /\ clos_trans _ (gref (g_dia k)) m m.
Proof.
  intros (m & R & C). apply clos_rt_rt1n in R. inversion R as [|y z E R1]; subst.
  - (* r lies on no cycle *)
    apply clos_trans_t1n in C. inversion C as [y E|y z E C1]; subst.
    + apply dead_edge in E. discriminate.
    + pose proof (dead_edge k y E) as Ey. apply clos_t1n_trans in C1.
      assert (R1 : clos_refl_trans _ (gref (g_dia k)) y "r") by (clear - C1; induction C1; [apply rt_step; assumption|eapply rt_trans; eassumption]).
      destruct (path_up k y "r" R1 0 ltac:(lia) Ey) as (o & _ & Eo). symmetry in Eo. exact (nm_r o Eo).
  - apply (acyclic_a k 0 y); [lia|exact (dead_edge k y E)|]. exists m. split; [apply clos_rt1n_rt; exact R1|exact C].
Qed.
Lemma no_cycle k order n : key_order (dependency_graph (g_dia k)) order -> n = "r" \/ n = "a" -> rule_contains_cycle (g_dia k) order n = RccBool false.
Proof.
  intros O H. pose proof (C20_rule_contains_cycle_exact (g_dia k) order n (dia_distinct k) O) as K.
  assert (Acy : ~ exists m, clos_refl_trans _ (gref (g_dia k)) n m /\ clos_trans _ (gref (g_dia k)) m m).
  { destruct H as [-> | ->]; [apply acyclic_r|apply (acyclic_a k 0); [lia|reflexivity]]. }
  destruct (rule_contains_cycle (g_dia k) order n) as [|b|] eqn:E; [|destruct K as [_ K]; destruct b; [exfalso; apply Acy, K; reflexivity|reflexivity]|contradiction].
  exfalso. assert (G : exists r, get_rule n (g_dia k) = Some r).
  { destruct H as [-> | ->]; [exists dead_rule; reflexivity|]. destruct k as [|k]; [exists (bang_rule 0); exact (dia_last 0)|exists (step_rule 0); exact (dia_step (S k) 0 ltac:(lia))]. }
  destruct G as (r & G). exact (K (rule_alt r) (proj1 (get_rule_resolves _ n (dia_distinct k)) r G)).
Qed.

(** *** What is built *)
Definition bang : re := RClass [(33, 33)%Z].
Fixpoint d_tree (j : nat) : re :=
  match j with
  | O => RAlt [RConcat [RRepeat (RConcat [bang]) 1 1]]
  | S j' => RAlt [RConcat [RRepeat (d_tree j') 1 1; RRepeat (d_tree j') 1 1]]
  end.
Definition memo_ok (k : nat) (m : list (string * re)) : Prop := forall i x, i <= k -> memo_get (nm i) m = Some x -> x = d_tree (k - i).
Lemma dia_build k : forall d i f st, d + i = k -> d < f -> memo_ok k (b_memo st) -> b_err st = false ->
  exists st', build_rule f (g_dia k) (nm i) st = Some (d_tree d, st') /\ memo_ok k (b_memo st') /\ b_err st' = false.
Proof.
  assert (Put : forall i d st x, d + i = k -> x = d_tree d -> memo_ok k (b_memo st) -> memo_ok k ((lower (nm i), x) :: b_memo st)).
  { intros i d st x Ed -> M j y Lj. rewrite nm_lower. cbn [memo_get]. destruct (String.eqb_spec (nm i) (nm j)) as [E|N]; [|apply M, Lj].
    apply nm_inj in E. subst j. intros Ey. injection Ey as <-. f_equal. lia. }
  induction d as [|d IH]; intros i f st Ed F M Er; (destruct f as [|f]; [lia|]); cbn [build_rule]; rewrite nm_lower;
    (destruct (memo_get (nm i) (b_memo st)) as [x|] eqn:Em;
      [exists st; rewrite (M i x ltac:(lia) Em); split; [do 3 f_equal; lia|auto]|]).
  - cbn in Ed. subst i. rewrite dia_last. eexists. split; [reflexivity|]. cbn [b_memo b_err]. split; [|exact Er].
    rewrite <- (nm_lower k) at 1. apply (Put k 0); auto.
  - rewrite dia_step by lia. destruct (IH (S i) f st ltac:(lia) ltac:(lia) M Er) as (st1 & E1 & M1 & Er1).
    destruct (IH (S i) f st1 ltac:(lia) ltac:(lia) M1 Er1) as (st2 & E2 & M2 & Er2).
    assert (Rr : forall n s, build_rep (build_rule f (g_dia k)) (Rep 1 1 (ERule n)) s =
      match build_rule f (g_dia k) n s with Some (x, s') => Some (RRepeat x 1 1, s') | None => None end) by reflexivity.
    assert (Ec : build_cat (build_rule f (g_dia k)) [Rep 1 1 (ERule (nm (S i))); Rep 1 1 (ERule (nm (S i)))] st =
      Some (RConcat [RRepeat (d_tree d) 1 1; RRepeat (d_tree d) 1 1], st2)).
    { unfold build_cat. rewrite traverse_cons, Rr, E1, traverse_cons, Rr, E2. reflexivity. }
    unfold build_alt, step_rule. cbn [rule_alt]. rewrite traverse_cons, Ec. cbn [traverse]. eexists. split; [reflexivity|]. cbn [b_memo b_err]. split; [|exact Er2].
    rewrite <- (nm_lower i) at 1. apply (Put i (S d)); auto.
Qed.
Lemma pow_pos k : 1 <= 2 ^ k.
Proof. pose proof (Nat.pow_nonzero 2 k ltac:(lia)). lia. Qed.
Lemma flat_bangs a : flat_map flat_part [RConcat a; RConcat a] = a ++ a.
Proof. cbn [flat_map flat_part]. rewrite app_nil_r. reflexivity. Qed.
(** The simplified tree: 2^j copies of one class. *)
Lemma d_simplify j : simplify (d_tree (S j)) = RConcat (repeat bang (2 ^ S j)) /\ flat_part (simplify (d_tree j)) = repeat bang (2 ^ j) /\
  is_never (simplify (d_tree j)) = false /\ is_empty (simplify (d_tree j)) = false.
Proof.
  induction j as [|j (IH1 & IH2 & IH3 & IH4)]; [repeat split; reflexivity|].
  assert (K : simplify (d_tree (S (S j))) = RConcat (repeat bang (2 ^ S (S j)))).
  { change (d_tree (S (S j))) with (RAlt [RConcat [RRepeat (d_tree (S j)) 1 1; RRepeat (d_tree (S j)) 1 1]]).
    change (simplify (RAlt [RConcat [RRepeat (d_tree (S j)) 1 1; RRepeat (d_tree (S j)) 1 1]])) with
      (join_alt [join_concat [join_repeat (simplify (d_tree (S j))) 1 1; join_repeat (simplify (d_tree (S j))) 1 1]]).
    rewrite IH1. change (join_repeat (RConcat (repeat bang (2 ^ S j))) 1 1) with (RConcat (repeat bang (2 ^ S j))).
    unfold join_concat. cbn [existsb is_never orb]. rewrite flat_bangs, <- repeat_app.
    replace (2 ^ S j + 2 ^ S j) with (2 ^ S (S j)) by (cbn [Nat.pow]; lia).
    pose proof (pow_pos j). replace (2 ^ S (S j)) with (S (S (2 ^ S (S j) - 2))) by (cbn [Nat.pow]; lia). reflexivity. }
  split; [exact K|]. rewrite IH1. repeat split; reflexivity.
Qed.
Lemma bang_simplify : simplify (d_tree 0) = bang.
Proof. reflexivity. Qed.

(** *** What it costs *)
Lemma appends_mono h : forall fuel p st r st', h_simplify fuel h p st = Some (r, st') -> s_appends st <= s_appends st'.
Proof.
  induction fuel as [|f IH]; [discriminate|]. intros p st r st' E. cbn [h_simplify] in E.
  assert (T : forall ps st ns st', traverse (h_simplify f h) ps st = Some (ns, st') -> s_appends st <= s_appends st').
  { induction ps as [|q ps IHp]; intros s ns s' Et; [injection Et as <- <-; lia|]. rewrite traverse_cons in Et.
    destruct (h_simplify f h q s) as [[y s1]|] eqn:E1; [|discriminate]. destruct (traverse (h_simplify f h) ps s1) as [[ys s2]|] eqn:E2; [|discriminate].
    injection Et as <- <-. apply IH in E1. apply IHp in E2. lia. }
  destruct (smemo_get p (s_memo st)); [injection E as <- <-; lia|].
  destruct (nth p h HEmpty) as [rs|ps|os|q mn mx| |]; try (injection E as <- <-; cbn; lia).
  - destruct (traverse (h_simplify f h) ps st) as [[ns s1]|] eqn:Et; [|discriminate]. apply T in Et. injection E as <- <-. cbn. lia.
  - destruct (traverse (h_simplify f h) os st) as [[ns s1]|] eqn:Et; [|discriminate]. apply T in Et. injection E as <- <-. cbn. lia.
  - destruct (h_simplify f h q st) as [[x s1]|] eqn:Eq; [|discriminate]. apply IH in Eq. injection E as <- <-. cbn. lia.
Qed.
(** A node that is an alternation of one concatenation pays for its parts. *)
Lemma concat_paid h p ns ss r : wfh h -> p < length h -> tree h p = RAlt [RConcat ns] ->
  h_simplify (length h) h p (mkS [] 0 0) = Some (r, ss) -> concat_cost (map simplify ns) <= s_appends ss.
Proof.
  intros W L T E. pose proof (tree_nth h p W L) as N. rewrite T in N. pose proof (W p _ (nth_error_nth' h HEmpty L)) as K.
  destruct (nth p h HEmpty) as [rs|ps|os|q mn mx| |] eqn:En; try discriminate. injection N as N. cbn [kids] in K.
  destruct os as [|q [|q' os]]; try discriminate. injection N as N. inversion K as [|? ? Lq _]; subst.
  assert (Lq' : q < length h) by lia. pose proof (tree_nth h q W Lq') as Nq. rewrite <- N in Nq. pose proof (W q _ (nth_error_nth' h HEmpty Lq')) as Kq.
  destruct (nth q h HEmpty) as [rs|ps|os|q' mn mx| |] eqn:Enq; try discriminate. injection Nq as Nq. cbn [kids] in Kq.
  assert (F : exists f, length h = S (S f) /\ q <= f) by (exists (length h - 2); split; lia). destruct F as (f & Lf & Lqf). rewrite Lf in E.
  cbn [h_simplify s_memo smemo_get] in E. rewrite En, traverse_cons in E. cbn [h_simplify s_memo smemo_get] in E. rewrite Enq in E.
  destruct (straverse h (list_sum (map re_size (map (tree h) ps))) (h_simplify f h) ps q (mkS [] 0 0) (sinv_init h)) as (s1 & E1 & P1).
  { intros q' st Q I. rewrite Forall_forall in Kq. specialize (Kq q' Q). apply h_simplify_ok; try lia; [exact W|exact I|]. apply in_sum, in_map, Q. }
  { exact Kq. }
  rewrite E1 in E. cbn [traverse] in E. injection E as _ <-. cbn [s_done s_appends]. rewrite <- Nq. lia.
Qed.

(** *** The size of the family *)
Lemma sum_const {A} (f : A -> nat) c l : (forall x, In x l -> f x = c) -> list_sum (map f l) = c * length l.
Proof.
  induction l as [|x l IH]; intros H; [cbn; lia|]. change (list_sum (map f (x :: l))) with (f x + list_sum (map f l)).
  rewrite (H x (or_introl eq_refl)), IH by (intros y Y; apply H; right; exact Y). cbn [length]. lia.
Qed.
Lemma dia_size k : size (g_dia k) = 3 * k + 7 + size [].
Proof.
  unfold size. rewrite map_app, list_sum_app. cbn [app]. f_equal. unfold g_dia. cbn [map]. rewrite list_sum_cons, map_app, list_sum_app, map_map.
  rewrite (sum_const _ 3) by (intros i _; reflexivity). rewrite seq_length. change (alt_size (rule_alt dead_rule)) with 4.
  change (list_sum (map (fun r => alt_size (rule_alt r)) [bang_rule k])) with 3. lia.
Qed.
Lemma dia_len k : length (g_dia k ++ core_rules) = k + 2 + length core_rules.
Proof. rewrite app_length. unfold g_dia. cbn [length]. rewrite app_length, map_length, seq_length. cbn [length]. lia. Qed.

Lemma render_err max n ctx st : r_err st = true -> render max n ctx st = st.
Proof. intros E. destruct n; cbn [render]; rewrite E; reflexivity. Qed.
Lemma render_all_err max l : forall st, r_err st = true -> fold_left (fun st p => render max p 2 st) l st = st.
Proof. induction l as [|n l IH]; intros st E; [reflexivity|]. cbn [fold_left]. rewrite render_err by exact E. apply IH, E. Qed.
(** With a budget of one byte, two characters are too many. *)
Lemma bangs_too_large n : 2 <= n -> r_err (render 1 (RConcat (repeat bang n)) 1 (mkR 0 false [])) = true.
Proof.
  intros L. destruct n as [|[|n]]; try lia. cbn [repeat].
  change (render 1 (RConcat (bang :: bang :: repeat bang n)) 1 (mkR 0 false [])) with
    (fold_left (fun st p => render 1 p 2 st) (repeat bang n) (render 1 bang 2 (render 1 bang 2 (mkR 0 false [])))).
  rewrite render_all_err; vm_compute; reflexivity.
Qed.
Lemma dia_refs k : refs_defined (g_dia k).
Proof.
  intros r n I F. assert (G : exists r', get_rule n (g_dia k) = Some r').
  { apply dia_in in I as [->|[(i & Li & ->)| ->]].
    - apply dead_refers in F. subst n. destruct k as [|k]; [exists (bang_rule 0); exact (dia_last 0)|exists (step_rule 0); exact (dia_step (S k) 0 ltac:(lia))].
    - apply step_refers in F. subst n. destruct (Nat.eq_dec (S i) k) as [<-|N]; [exists (bang_rule (S i)); apply dia_last|exists (step_rule (S i)); apply dia_step; lia].
    - destruct (bang_refers _ _ F). }
  destruct G as (r' & G). exists (rule_alt r'). apply (proj1 (get_rule_resolves _ n (dia_distinct k)) r' G).
Qed.
Lemma flat_reps_in (P : rep -> Prop) a : (forall c x, In c a -> In x c -> P x /\ match rep_elem x with EGroup _ | EOption _ => False | _ => True end) ->
  forall x, rep_in a x -> P x.
Proof.
  intros H x R. inversion R as [a' c r Ic Ir|a' c mn mx b r Ic Ir _|a' c mn mx b r Ic Ir _]; subst.
  - apply (H c x Ic Ir).
  - destruct (H c _ Ic Ir) as [_ F]. contradiction.
  - destruct (H c _ Ic Ir) as [_ F]. contradiction.
Qed.
Lemma dia_bounds k : bounds_ordered (g_dia k).
Proof.
  intros r mn mx e I R _. revert R.
  apply (flat_reps_in (fun x => match x with Rep mn mx _ => (mn <= mx)%Z end) (rule_alt r)).
  apply dia_in in I as [->|[(i & Li & ->)| ->]]; cbn [rule_alt dead_rule step_rule bang_rule]; intros c x [<-|[]] J; cbn [In] in J;
    repeat (destruct J as [<-|J]; [cbn [rep_elem]; split; [lia|exact Logic.I]|]); destruct J.
Qed.
