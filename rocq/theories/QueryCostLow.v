(** A family of grammars whose trees are exponentially larger than their forests.
    Its definitions are means of proof and model no code. *)
From Coq Require Import ZArith Arith String Ascii Bool List Lia.
From Verif Require Import Syntax Spec Utf8 Num Term Printer Slots PropTerm Gll GllUniv Bsr BsrProof BsrTerm
  LowerProof LowerLang LowerBudget Check Sppf SppfProof TreeSpec Tree TreeProof TreeComplete Cost CostProof QueryCost.
Import ListNotations.
Local Open Scope string_scope.
Local Open Scope list_scope.
Local Open Scope nat_scope.

(** a, aa, aaa, ... *)
Fixpoint nm (i : nat) : string := match i with O => "a" | S j => String "a"%char (nm j) end.
(** a = aa aa, aa = aaa aaa, ..., the last one = "". *)
Definition step_rule (i : nat) : rule := mkRule (nm i) [[Rep 1 1 (ERule (nm (S i))); Rep 1 1 (ERule (nm (S i)))]].
Definition last_rule (k : nat) : rule := mkRule (nm k) [[Rep 1 1 (EChar false [])]].
Definition g_tower (k : nat) : grammar := map step_rule (seq 0 k) ++ [last_rule k].

Lemma nm_len i : String.length (nm i) = S i.
Proof. induction i; cbn; auto. Qed.
Lemma nm_inj i j : nm i = nm j -> i = j.
Proof. intros E. apply (f_equal String.length) in E. rewrite !nm_len in E. lia. Qed.
Lemma nm_lower i : lower (nm i) = nm i.
Proof. induction i; cbn; auto. f_equal. exact IHi. Qed.

Lemma tower_in k r : In r (g_tower k) -> (exists i, i < k /\ r = step_rule i) \/ r = last_rule k.
Proof.
  intros I. apply in_app_iff in I as [I|[<-|[]]]; auto. left. apply in_map_iff in I as (i & <- & I).
  apply in_seq in I. exists i. split; auto. lia.
Qed.
Lemma tower_names k : map (fun r => lower (rule_name r)) (g_tower k) = map nm (seq 0 (S k)).
Proof.
  unfold g_tower. rewrite map_app, map_map, seq_S, map_app. cbn [map rule_name last_rule step_rule]. rewrite nm_lower. f_equal.
  apply map_ext. intros i. apply nm_lower.
Qed.
Lemma tower_wf k : wf_grammar (g_tower k).
Proof.
  split.
  - unfold distinct_names. rewrite tower_names. apply FinFun.Injective_map_NoDup; [exact nm_inj|apply seq_NoDup].
  - apply Forall_forall. intros r I. apply tower_in in I as [(i & _ & ->)| ->];
      cbn [rule_alt step_rule last_rule]; repeat constructor; lia.
Qed.
Lemma nm_lex i : lex_name (nm i) = true.
Proof.
  assert (H : forall j, all_chars name_char (nm j) = true) by (induction j; [reflexivity|cbn [nm all_chars]; rewrite IHj; reflexivity]).
  destruct i; [reflexivity|]. cbn [nm lex_name]. rewrite H. reflexivity.
Qed.
Lemma tower_lex k : lex_grammar (g_tower k) = true.
Proof.
  unfold lex_grammar. apply forallb_forall. intros r I. apply tower_in in I as [(i & _ & ->)| ->].
  - cbn [rule_name rule_alt step_rule]. rewrite nm_lex. cbn [andb]. pose proof (nm_lex (S i)) as H.
    cbn. cbn in H. rewrite H. reflexivity.
  - cbn [rule_name rule_alt last_rule]. rewrite nm_lex. reflexivity.
Qed.
Lemma tower_flags k : same_flags (g_tower k).
Proof.
  assert (H : forall x, In x (grammar_chars (g_tower k)) -> fst x = false).
  { unfold grammar_chars. intros x I. apply in_flat_map in I as (r & I & J). apply in_app_iff in I as [I|I].
    - apply tower_in in I as [(i & _ & ->)| ->]; cbn in J; [tauto|]. destruct J as [<-|[]]. reflexivity.
    - assert (Q : forallb (fun r => forallb (fun x => negb (fst x)) (flat_map (flat_map rep_chars) (rule_alt r))) core_rules = true) by (vm_compute; reflexivity).
      rewrite forallb_forall in Q. specialize (Q r I). rewrite forallb_forall in Q. specialize (Q x J). destruct (fst x); [discriminate|auto]. }
  intros s s' v A B. apply (proj1 (occ_chars (g_tower k))) in A, B.
  pose proof (H (s, v) (A _ (or_introl eq_refl))). pose proof (H (s', v) (B _ (or_introl eq_refl))). cbn in *. congruence.
Qed.

Lemma find_first {A} (p : A -> bool) a x b : (forall y, In y a -> p y = false) -> p x = true -> find p (a ++ x :: b) = Some x.
Proof. induction a as [|y a IH]; cbn; intros H E; [rewrite E; auto|]. rewrite (H y) by auto. apply IH; auto. Qed.
Lemma nm_fold i j : equal_fold (nm i) (nm j) = Nat.eqb i j.
Proof.
  unfold equal_fold. rewrite !nm_lower. destruct (Nat.eqb_spec i j) as [->|N]; [apply String.eqb_refl|].
  apply String.eqb_neq. intros E. apply nm_inj in E. auto.
Qed.
Lemma get_step k i : i < k -> get_rule (nm i) (g_tower k) = Some (step_rule i).
Proof.
  intros H. unfold get_rule, get_rule_core, get_rule_in.
  replace (find (fun r => equal_fold (nm i) (rule_name r)) (g_tower k)) with (Some (step_rule i)); auto. symmetry.
  unfold g_tower. replace (seq 0 k) with (seq 0 i ++ i :: seq (S i) (k - S i)).
  - rewrite map_app, <- app_assoc. cbn [map app]. apply find_first.
    + intros r I. apply in_map_iff in I as (j & <- & I). apply in_seq in I. cbn [rule_name step_rule]. rewrite nm_fold. apply Nat.eqb_neq. lia.
    + cbn [rule_name step_rule]. rewrite nm_fold. apply Nat.eqb_refl.
  - replace k with (i + S (k - S i)) at 2 by lia. rewrite seq_app. reflexivity.
Qed.
Lemma get_last k : get_rule (nm k) (g_tower k) = Some (last_rule k).
Proof.
  unfold get_rule, get_rule_core, get_rule_in.
  replace (find (fun r => equal_fold (nm k) (rule_name r)) (g_tower k)) with (Some (last_rule k)); auto. symmetry.
  unfold g_tower. apply find_first.
  - intros r I. apply in_map_iff in I as (j & <- & I). apply in_seq in I. cbn [rule_name step_rule]. rewrite nm_fold. apply Nat.eqb_neq. lia.
  - cbn [rule_name last_rule]. rewrite nm_fold. apply Nat.eqb_refl.
Qed.

(** *** Its lowering *)
Definition key (i : nat) : string := ("rule:" ++ nm i)%string.
Fixpoint kidx (i : nat) : list (string * nat) := match i with O => [] | S j => (key j, j) :: kidx j end.
Lemma key_inj i j : key i = key j -> i = j.
Proof. unfold key. cbn. intros E. injection E as E. apply nm_inj. auto. Qed.
Lemma assoc_key i : forall j, assoc (key i) (kidx j) = if Nat.ltb i j then Some i else None.
Proof.
  induction j as [|j IH]; [reflexivity|]. cbn [kidx assoc]. destruct (String.eqb_spec (key i) (key j)) as [E|N].
  - apply key_inj in E. subst j. destruct (Nat.ltb_spec i (S i)); [auto|lia].
  - rewrite IH. assert (i <> j) by (intros ->; auto). destruct (Nat.ltb_spec i j), (Nat.ltb_spec i (S j)); auto; lia.
Qed.
Definition small (nt : sgNT) : Prop := list_sum (map (fun p => S (length p)) (nt_alts nt)) <= 3.

Lemma set_small x l : small x -> Forall small l -> forall i, Forall small (set_nth i x l).
Proof. intros X. induction 1; intros [|i]; cbn; constructor; auto. Qed.

Lemma tower_lower k : forall d i f st, d + i = k -> d < f -> length (ls_nts st) = i -> ls_index st = kidx i ->
  ls_over st = false -> Forall small (ls_nts st) ->
  exists st', lower_rule (g_tower k) 0 f (nm i) st = Some (i, st') /\ length (ls_nts st') = S k /\ ls_index st' = kidx (S k) /\
    ls_over st' = false /\ Forall small (ls_nts st').
Proof.
  induction d as [|d IH]; intros i f st Ed F Ln Ix Ov Sm; (destruct f as [|f]; [lia|]); cbn [lower_rule];
    unfold reserve; rewrite nm_lower; change (String.append "rule:" (nm i)) with (key i); rewrite Ix, assoc_key, Nat.ltb_irrefl, Ln;
    unfold budget_exceeded; cbn [ls_nts ls_index ls_over]; rewrite Ov; cbn [Z.ltb Z.compare andb orb].
  - cbn in Ed. subst i. rewrite get_last. unfold last_rule. cbn [rule_alt rule_name].
    cbn [lower_alts lower_cat mapM lower_rep lower_elem Z.eqb Pos.eqb andb nonempty_seq]. eexists. split; [reflexivity|].
    unfold set_nt. cbn [ls_nts ls_index ls_over]. rewrite set_nth_len, app_length, Ln. split; [cbn; lia|]. split; auto. split; auto.
    apply set_small; [unfold small; cbn; lia|]. apply Forall_app. split; auto. constructor; [unfold small; cbn; lia|constructor].
  - rewrite get_step by lia. unfold step_rule. cbn [rule_alt rule_name].
    set (st2 := mkLS (ls_nts st ++ [emptyNT]) ((key i, i) :: kidx i) false).
    destruct (IH (S i) f st2) as (st3 & E3 & L3 & I3 & O3 & S3); try (cbn; lia); auto.
    { cbn. rewrite app_length. cbn. lia. }
    { cbn [st2 ls_nts]. apply Forall_app. split; auto. constructor; [unfold small; cbn; lia|constructor]. }
    assert (E4 : lower_rule (g_tower k) 0 f (nm (S i)) st3 = Some (S i, st3)).
    { destruct f as [|f']; [lia|]. cbn [lower_rule]. unfold reserve. rewrite nm_lower. change (String.append "rule:" (nm (S i))) with (key (S i)).
      rewrite I3, assoc_key. destruct (Nat.ltb_spec (S i) (S k)); [auto|lia]. }
    unfold lower_alts, lower_cat. cbn [mapM lower_rep lower_elem Z.eqb Pos.eqb andb]. rewrite E3, E4. cbn [nonempty_seq].
    eexists. split; [reflexivity|]. unfold set_nt. cbn [ls_nts ls_index ls_over]. rewrite set_nth_len. split; auto. split; auto. split; auto.
    apply set_small; [unfold small; cbn; lia|auto].
Qed.

Lemma flat_len {A B} (f : A -> list B) b : forall l, (forall x, In x l -> length (f x) <= b) -> length (flat_map f l) <= b * length l.
Proof.
  induction l as [|x l IH]; intros H; [cbn; lia|]. cbn [flat_map length]. rewrite app_length.
  pose proof (H x (or_introl eq_refl)). specialize (IH (fun y Y => H y (or_intror Y))). lia.
Qed.
Lemma alts_len X (al : list (list ssym)) : forall l0,
  length (flat_map (fun a => match nth_error (l0 ++ al) a with None => [] | Some p => map (mkSlot X a) (seq 0 (S (length p))) end)
    (seq (length l0) (length al))) = list_sum (map (fun p => S (length p)) al).
Proof.
  induction al as [|p al IH]; intros l0; [reflexivity|]. change (seq (length l0) (length (p :: al))) with (length l0 :: seq (S (length l0)) (length al)).
  cbn [flat_map]. rewrite app_length. rewrite nth_error_app2, Nat.sub_diag by lia. cbn [nth_error]. rewrite map_length, (seq_length (S (length p))).
  specialize (IH (l0 ++ [p])). rewrite app_length, <- app_assoc in IH. cbn [length app] in IH. rewrite Nat.add_1_r in IH. rewrite IH.
  reflexivity.
Qed.
Lemma nS_small sg : Forall small (sg_nts sg) -> nS sg <= 3 * length (sg_nts sg).
Proof.
  intros H. unfold nS, slots_univ. etransitivity; [apply (flat_len _ 3)|rewrite seq_length; lia].
  intros X _. destruct (nth_error (sg_nts sg) X) as [nt|] eqn:E; [|cbn; lia].
  rewrite Forall_forall in H. apply nth_error_In, H in E. pose proof (alts_len X (nt_alts nt) []) as A. cbn [app length] in A. rewrite A. exact E.
Qed.

Lemma tower_compile k fuel : S k <= fuel -> exists sg, compile_slots (g_tower k) "a" 0 fuel = CS_ok sg /\ nS sg <= 3 * S k.
Proof.
  intros F. destruct (tower_lower k k 0 fuel ls_init) as (st & E & L & _ & O & Sm); try reflexivity; try lia; [constructor|].
  change (nm 0) with "a" in E. exists (mkSG (ls_nts st) 0). split.
  - unfold compile_slots. assert (G : get_rule "a" (g_tower k) <> None).
    { destruct k; [rewrite (get_last 0 : get_rule "a" _ = _)|rewrite (get_step (S k) 0 ltac:(lia) : get_rule "a" _ = _)]; discriminate. }
    destruct (get_rule "a" (g_tower k)); [|congruence]. rewrite E, O. reflexivity.
  - etransitivity; [apply nS_small; exact Sm|]. cbn [sg_nts]. lia.
Qed.

(** *** Its trees *)
Fixpoint tsize (t : ptree) : nat := match t with PT _ _ _ cs => S (list_sum (map tsize cs)) end.
Definition tsizes (ts : list ptree) : nat := list_sum (map tsize ts).
Lemma tsizes_app a b : tsizes (a ++ b) = tsizes a + tsizes b.
Proof. unfold tsizes. rewrite map_app, list_sum_app. reflexivity. Qed.

Lemma tower_tree k (ok : rep -> nat -> nat -> nat -> Prop) : (forall e i j n, ok (Rep 1 1 e) i j n -> n = 1) ->
  forall d i a b ts, d + i = k -> d_elem (g_tower k) [] ok (ERule (nm i)) a b ts -> 2 ^ d <= tsizes ts.
Proof.
  intros One. induction d as [|d IH]; intros i a b ts Ed H.
  - inversion H as [n r i' j ts' Rs A| | | |e i' j w Te Ie Sp]; subst; [|destruct Te]. unfold tsizes. cbn. lia.
  - inversion H as [n r i' j ts' Rs A| | | |e i' j w Te Ie Sp]; subst; [|destruct Te].
    apply (resolves_to_get _ (tower_wf _)) in Rs. rewrite get_step in Rs by lia. injection Rs as <-.
    inversion A as [c al i1 j1 ts1 Ic Dc]; subst. destruct Ic as [<-|[]].
    assert (P : forall x y us, d_rep (g_tower (S d + i)) [] ok (Rep 1 1 (ERule (nm (S i)))) x y us -> 2 ^ d <= tsizes us).
    { intros x y us D. inversion D as [mn mx e n i1 j1 ts2 Ok Pw]; subst. apply One in Ok. subst n.
      inversion Pw as [|e n i1 m j1 u1 u2 D1 D2]; subst. inversion D2; subst. rewrite app_nil_r. eapply (IH (S i)); [lia|eassumption]. }
    inversion Dc as [|r c x m y u1 u2 D1 D2]; subst. inversion D2 as [|r c x' m' y' u3 u4 D3 D4]; subst. inversion D4; subst.
    apply P in D1, D3. change (2 ^ d <= tsizes u3) in D3. unfold tsizes at 1. cbn [map tsize list_sum fold_right].
    change (list_sum (map tsize (u1 ++ u3 ++ []))) with (tsizes (u1 ++ u3 ++ [])). rewrite !tsizes_app. cbn [Nat.pow]. lia.
Qed.

Lemma tower_lang k : Lang (g_tower k) "a" [].
Proof.
  assert (H : forall d i, d + i = k -> in_elem (g_tower k) (ERule (nm i)) []).
  { induction d as [|d IH]; intros i E.
    - cbn in E. subst i. apply (in_rule _ _ (rule_alt (last_rule k))).
      + left. exists (last_rule k). split; [apply in_app_iff; right; left; auto|]. split; [reflexivity|auto].
      + apply in_alt_intro with (c := [Rep 1 1 (EChar false [])]); [left; auto|]. apply (in_cat_cons _ _ _ [] []); [|constructor].
        apply (in_rep_intro _ 1%Z 1%Z _ 1); [lia|right; lia|]. apply (in_pow_S _ _ 0 [] []); [|constructor].
        apply (in_char _ false [] []); constructor.
    - apply (in_rule _ _ (rule_alt (step_rule i))).
      + left. exists (step_rule i). split; [apply in_app_iff; left; apply in_map, in_seq; lia|]. split; [reflexivity|auto].
      + assert (R : in_rep (g_tower k) (Rep 1 1 (ERule (nm (S i)))) []).
        { apply (in_rep_intro _ 1%Z 1%Z _ 1); [lia|right; lia|]. apply (in_pow_S _ _ 0 [] []); [|constructor]. apply IH. lia. }
        eapply in_alt_intro; [left; reflexivity|]. apply (in_cat_cons _ _ _ [] []); [exact R|]. apply (in_cat_cons _ _ _ [] []); [exact R|constructor]. }
  exact (H k 0 ltac:(lia)).
Qed.

(** *** A tree has no more nodes than it takes calls *)
Lemma collect_size sg nodes f : forall k on ts, packs nodes k <> [] -> collect sg nodes f k on = Some ts ->
  tsizes ts <= tc_collect nodes f k on.
Proof.
  assert (Lf : forall s e, tsizes (term_leaf s e) <= 1) by (intros s e; unfold term_leaf; destruct (Nat.ltb s e); cbn; lia).
  induction f as [|f IH]; intros k on ts Ne E; [discriminate|]. rewrite collect_S in E. cbn [tc_collect].
  destruct (packs nodes k) as [|pk ps] eqn:P; [congruence|]. clear P Ne. revert ts E.
  assert (B : forall c us on', collect sg nodes f c on' = Some us -> (exists s e, c = NTerm s e) \/ tsizes us <= tc_collect nodes f c on').
  { intros c us on' E. destruct (packs nodes c) as [|p q] eqn:P; [|right; apply IH; [congruence|auto]].
    destruct f as [|f']; [discriminate|]. rewrite collect_S in E. rewrite P in E. injection E as <-. destruct c; [right; cbn; lia..|left; eauto]. }
  induction pk as [|c pk IHp]; intros ts E; [injection E as <-; cbn; lia|].
  destruct (child sg nodes f on c) as [us|] eqn:Ec; [|discriminate].
  match type of E with match ?x with _ => _ end = _ => destruct x as [vs|] eqn:Ev; [|discriminate] end.
  injection E as <-. rewrite tsizes_app. specialize (IHp vs eq_refl). cbn [map list_sum fold_right].
  change (fold_right Nat.add 0) with list_sum.
  enough (X : tsizes us <= 1 + match c with NTerm _ _ => 0 | _ => if nkey_mem c on then 0 else tc_collect nodes f c (c :: on) end) by lia.
  clear IHp Ev vs. unfold child in Ec. destruct c as [X s e|L s e|s e].
  - destruct (rule_of sg (NSym X s e)) as [r|].
    + destruct (nkey_mem (NSym X s e) on); [injection Ec as <-; cbn; lia|].
      destruct (collect sg nodes f (NSym X s e) (NSym X s e :: on)) as [vs|] eqn:Eq; [|discriminate]. injection Ec as <-.
      destruct (B _ _ _ Eq) as [(? & ? & ?)|Q]; [discriminate|]. unfold tsizes at 1. cbn [map tsize list_sum fold_right]. fold (tsizes vs). lia.
    + destruct (nkey_mem (NSym X s e) on); [injection Ec as <-; cbn; lia|]. destruct (B _ _ _ Ec) as [(? & ? & ?)|Q]; [discriminate|lia].
  - cbn [rule_of] in Ec. destruct (nkey_mem (NInter L s e) on); [injection Ec as <-; cbn; lia|]. destruct (B _ _ _ Ec) as [(? & ? & ?)|Q]; [discriminate|lia].
  - injection Ec as <-. apply Lf.
Qed.

(** *** No polynomial bounds an exponential *)
Lemma pow_square : forall m, 4 <= m -> m * m <= 2 ^ m.
Proof.
  intros m H. induction H as [|m H IH]; [cbn; lia|]. cbn [Nat.pow]. nia.
Qed.
Lemma exp_beats c d : exists k, c * (8 * S k) ^ d < 2 ^ k.
Proof.
  set (a := c * 8 ^ d). set (m := a + d + 4). exists (pred (2 ^ m)).
  assert (P : 1 <= 2 ^ m) by (pose proof (Nat.pow_nonzero 2 m ltac:(lia)); lia).
  replace (S (pred (2 ^ m))) with (2 ^ m) by lia. rewrite Nat.pow_mul_l, <- Nat.pow_mul_r, Nat.mul_assoc. fold a.
  assert (A : a < 2 ^ a) by (apply Nat.pow_gt_lin_r; lia).
  apply Nat.lt_le_trans with (2 ^ a * 2 ^ (m * d)).
  - apply Nat.mul_lt_mono_pos_r; auto. pose proof (Nat.pow_nonzero 2 (m * d) ltac:(lia)). lia.
  - rewrite <- Nat.pow_add_r. apply Nat.pow_le_mono_r; [lia|].
    pose proof (pow_square m ltac:(unfold m; lia)) as Q. assert (m * d + 4 * m <= m * m) by (unfold m; nia). unfold m in *. lia.
Qed.
