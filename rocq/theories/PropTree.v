(** Claims C11, C12, C13: the queries on a parse forest. *)
(** The definitions here are those of statements, proofs and examples; they model no code. *)
From Coq Require Import ZArith String Bool List Lia.
From Verif Require Import Syntax Spec Utf8 Num Term Printer Slots PropTerm Gll GllUniv Bsr BsrProof LowerProof LowerLang
  PrintInj Check Sppf SppfProof TreeSpec Tree TreeProof TreeSound TreeComplete TreeLang PropGll ForestUnique TreeCount Apart.
Import ListNotations.
Local Open Scope string_scope.
Local Open Scope list_scope.
Local Open Scope Z_scope.

Lemma lex_names g : lex_grammar g = true -> forall r, In r (g ++ core_rules) -> rule_name r <> "".
Proof.
  intros L r I E. apply in_app_iff in I as [I|I].
  - unfold lex_grammar in L. rewrite forallb_forall in L. specialize (L r I). rewrite E in L. discriminate.
  - revert E. repeat (destruct I as [<-|I]; [discriminate|]). destruct I.
Qed.

(** ** C11 *)
(** Missing for the full statement: the repetition counts, for grammars where a
    span of a repetition can be divided into different numbers of occurrences
    with only some of them within the bounds (refuted below); and the grammars
    excluded for C09.  Proved of every other grammar: the tree is a derivation
    tree ([counts_determined] holds for instance of the ABNF grammar itself). *)
Theorem C11_tree_is_derivation_partial : forall ord fuel input g root max_slots max_nodes f,
  any_order ord -> wf_grammar g -> lex_grammar g = true -> told_apart g ->
  parse_forest ord fuel input g root max_slots max_nodes = PF_ok f ->
  (f_valid f = false -> forall fuel', f_tree fuel' f = Some None) /\
  (f_valid f = true -> forall fuel', (length (f_nodes f) <= fuel')%nat ->
    exists r ts, let t := PT (rule_name r) 0 (length input) ts in
      f_tree fuel' f = Some (Some t) /\ resolves_to g root r /\
      tiles 0 (length input) [t] /\
      LooseDerivation g root input t /\
      (counts_determined g -> Derivation g root input t)).
Proof.
  intros ord fuel input g root ms mn f O W L F E. pose proof (forest_facts_ok _ _ _ _ _ _ _ _ O W L F E) as H.
  destruct H as [PS TP FU CL FE ND On So Co Rt Kn]. split.
  - intros V fuel'. unfold f_tree. rewrite Rt, V. reflexivity.
  - intros V fuel' Hf. pose proof (proj1 Kn V) as K.
    destruct (emit_ft (f_sg f) _ PS FU CL FE fuel' _ K) as (ts & Em & Ft).
    { pose proof (rank_lt _ _ K). lia. }
    destruct (So ts Ft) as (r & Ru & G & D). exists r, ts. cbv zeta. split; [|split; [|split; [|split]]].
    + unfold f_tree. rewrite Rt, V, Em, Ru. reflexivity.
    + apply get_rule_to; auto.
    + apply (d_tiles g input _ (lex_names g L)) in D. exact D.
    + exact D.
    + intros CD. apply loose_derivation; auto.
Qed.

(** The ABNF grammar of RFC 5234 is such a grammar. *)
Lemma abnf_counts : counts_determined abnf_grammar.
Proof. apply (counts_ok_spec abnf_grammar) with (fuel := 8%nat); [apply wf_grammarb_spec|]; vm_compute; reflexivity. Qed.

Example C11_case : exists f,
  (wf_grammar g_wild /\ lex_grammar g_wild = true /\ told_apart g_wild /\ counts_determined g_wild) /\
  parse_forest (fun _ l => rev l) 400 (bytes "xX") g_wild "a" default_max_slots 0 = PF_ok f /\ f_valid f = true /\
  f_tree (length (f_nodes f)) f =
    Some (Some (PT "a" 0 2 [PT "a" 0 1 [PT "" 0 1 []]; PT "a" 1 2 [PT "" 1 2 []]])).
Proof.
  eexists. split; [|split; [vm_compute; reflexivity|]; split; vm_compute; reflexivity].
  assert (W : wf_grammar g_wild) by (apply wf_grammarb_spec; vm_compute; reflexivity).
  split; [exact W|]. split; [vm_compute; reflexivity|]. split; [apply told_apartb_spec; vm_compute; reflexivity|].
  apply (counts_ok_spec g_wild W 3). vm_compute. reflexivity.
Qed.

(** *** One input with one derivation, on which the three queries are wrong *)
Definition g_share : grammar :=
  let lit s := Rep 1 1 (EChar false (bytes s)) in
  let two := Rep 2 2 (EGroup [[lit "a"]; [lit "b"]; [lit "c"]; [lit "bc"]]) in
  [mkRule "s" [[two; lit "y"]; [lit "a"; two; lit "z"]]].
(* s = 2("a" / "b" / "c" / "bc") "y" / "a" 2("a" / "b" / "c" / "bc") "z" *)

Lemma lit_inv g input s vs i j ts (ok : rep -> nat -> nat -> nat -> Prop) : (i <= length input)%nat -> (forall r n, ok r i j n -> rep_max r = 1 -> rep_min r = 1 -> n = 1%nat) ->
  d_rep g input ok (Rep 1 1 (EChar s vs)) i j ts ->
  match_term (EChar s vs) input i = Some j /\ ts = leaf i j.
Proof.
  intros Hi One H. inversion H as [? ? ? n ? ? ? O P]; subst. rewrite (One _ _ O eq_refl eq_refl) in P.
  inversion P as [|? ? ? k ? t1 t2 He Hp]; subst. inversion Hp; subst. inversion He as [| | | |? ? ? w Te We Sp]; subst.
  split; [|apply app_nil_r]. apply (match_term_spec g (EChar s vs) eq_refl); auto; [constructor|]. exists w. auto.
Qed.
Lemma within_one r i j n : within r i j n -> rep_max r = 1 -> rep_min r = 1 -> n = 1%nat.
Proof. unfold within, inf. intros [A B] E1 E2. rewrite E1, E2 in *. lia. Qed.

Lemma one_of_group g input a i j ts : (i <= length input)%nat ->
  d_elem g input within (EGroup (map (fun s => [Rep 1 1 (EChar false (bytes s))]) a)) i j ts ->
  exists s, In s a /\ match_term (EChar false (bytes s)) input i = Some j /\ ts = leaf i j.
Proof.
  intros Hi H. inversion H as [|? ? ? ? Ha| | |? ? ? ? Te]; subst; [|destruct Te]. inversion Ha as [c ? ? ? ? I C]; subst.
  apply in_map_iff in I as (s & <- & I). exists s. split; auto.
  inversion C as [|? ? ? k ? t1 t2 Hr Hc]; subst. inversion Hc; subst. rewrite app_nil_r.
  apply lit_inv in Hr; auto. intros. eapply within_one; eauto.
Qed.

Lemma g_share_unique t : Derivation g_share "s" (bytes "abcy") t ->
  t = PT "s" 0 4 [PT "" 0 1 []; PT "" 1 3 []; PT "" 3 4 []].
Proof.
  intros H. inversion H as [m r i j ts Rs Ha| | | |? ? ? ? Te]; subst; [|destruct Te].
  assert (r = mkRule "s" (rule_alt (hd (mkRule "" []) g_share))).
  { destruct Rs as [[[<-|[]] _]|(N & _)]; auto. exfalso. apply (N _ (or_introl eq_refl)). reflexivity. }
  subst r. cbn [rule_name rule_alt hd g_share] in *. change (length (bytes "abcy")) with 4%nat in *. f_equal. clear H Rs.
  assert (Gr : forall i j ts, (i <= 4)%nat -> d_elem g_share (bytes "abcy") within
    (EGroup [[Rep 1 1 (EChar false (bytes "a"))]; [Rep 1 1 (EChar false (bytes "b"))];
             [Rep 1 1 (EChar false (bytes "c"))]; [Rep 1 1 (EChar false (bytes "bc"))]]) i j ts ->
    ts = leaf i j /\ ((i = 0 /\ j = 1) \/ (i = 1 /\ j = 2) \/ (i = 1 /\ j = 3) \/ (i = 2 /\ j = 3))%nat).
  { intros i j ts' Hi D. apply (one_of_group g_share (bytes "abcy") ["a"; "b"; "c"; "bc"] i j ts' Hi) in D as (s & I & M & ->).
    split; auto. assert (Ci : (i = 0 \/ i = 1 \/ i = 2 \/ i = 3 \/ i = 4)%nat) by lia.
    cbn [In] in I. destruct I as [<-|[<-|[<-|[<-|[]]]]]; destruct Ci as [->|[->|[->|[->| ->]]]];
      vm_compute in M; try discriminate; inversion M; subst; tauto. }
  assert (Tw : forall i j ts, (i <= 4)%nat -> d_rep g_share (bytes "abcy") within
    (Rep 2 2 (EGroup [[Rep 1 1 (EChar false (bytes "a"))]; [Rep 1 1 (EChar false (bytes "b"))];
             [Rep 1 1 (EChar false (bytes "c"))]; [Rep 1 1 (EChar false (bytes "bc"))]])) i j ts ->
    (i = 0 /\ j = 2 /\ ts = [PT "" 0 1 []; PT "" 1 2 []] \/ i = 0 /\ j = 3 /\ ts = [PT "" 0 1 []; PT "" 1 3 []] \/
     i = 1 /\ j = 3 /\ ts = [PT "" 1 2 []; PT "" 2 3 []])%nat).
  { intros i j ts' Hi D. inversion D as [? ? ? n ? ? ? [B1 [B2|B2]] P]; subst; cbn [rep_min rep_max] in *; [discriminate|].
    assert (n = 2%nat) by lia. subst n. inversion P as [|? ? ? k ? t1 t2 E1 P1]; subst.
    inversion P1 as [|? ? ? k' ? t3 t4 E2 P2]; subst. inversion P2; subst. rewrite app_nil_r.
    apply Gr in E1 as [-> C1]; [|lia]. assert (k <= 4)%nat by lia. apply Gr in E2 as [-> C2]; [|lia].
    destruct C1 as [[-> ->]|[[-> ->]|[[-> ->]|[-> ->]]]]; destruct C2 as [[? ->]|[[? ->]|[[? ->]|[? ->]]]]; try discriminate; tauto. }
  inversion Ha as [c ? ? ? ? I C]; subst. destruct I as [<-|[<-|[]]].
  - inversion C as [|? ? ? k ? t1 t2 Hr Hc]; subst. apply Tw in Hr; [|lia].
    inversion Hc as [|? ? ? k' ? t3 t4 Hr2 Hc2]; subst. inversion Hc2; subst. rewrite app_nil_r.
    apply lit_inv in Hr2 as [M ->]; [|change (length (bytes "abcy")) with 4%nat; lia|intros; eapply within_one; eauto].
    destruct Hr as [(_ & -> & ->)|[(_ & -> & ->)|(? & _)]]; [vm_compute in M; discriminate|reflexivity|discriminate].
  - exfalso. inversion C as [|? ? ? k ? t1 t2 Hr Hc]; subst.
    inversion Hc as [|? ? ? k' ? t3 t4 Hr2 Hc2]; subst. inversion Hc2 as [|? ? ? k'' ? t5 t6 Hr3 Hc3]; subst.
    inversion Hc3; subst. pose proof (proj1 (proj2 (proj2 (proj2 (d_bounds _ _ _)))) _ _ _ _ Hr3) as B.
    change (length (bytes "abcy")) with 4%nat in B.
    apply lit_inv in Hr3 as [M _]; [|change (length (bytes "abcy")) with 4%nat; lia|intros; eapply within_one; eauto].
    assert (Ci : (k' = 0 \/ k' = 1 \/ k' = 2 \/ k' = 3 \/ k' = 4)%nat) by lia.
    destruct Ci as [->|[->|[->|[->| ->]]]]; vm_compute in M; discriminate.
Qed.
Lemma g_share_derives : Derivation g_share "s" (bytes "abcy") (PT "s" 0 4 [PT "" 0 1 []; PT "" 1 3 []; PT "" 3 4 []]).
Proof.
  assert (H : exists f, parse_forest (fun _ l => l) 3000 (bytes "abcy") g_share "s" default_max_slots 0 = PF_ok f /\ f_valid f = true).
  { eexists. split; vm_compute; reflexivity. }
  destruct H as (f & E & V).
  assert (L : Lang g_share "s" (bytes "abcy")).
  { eapply C05_forest_valid_exact_partial; [apply id_order| | | |exact E|exact V]; [|vm_compute; reflexivity|].
    - apply wf_grammarb_spec; vm_compute; reflexivity.
    - apply told_apartb_spec; vm_compute; reflexivity. }
  apply derivation_iff_lang in L as (t & D). rewrite <- (g_share_unique t D). exact D.
Qed.

(** Tree returns a tree with three occurrences for a repetition of exactly two. *)
Theorem C11_tree_is_derivation_refuted : exists g root input f t,
  wf_grammar g /\ lex_grammar g = true /\ told_apart g /\
  parse_forest (fun _ l => l) 3000 input g root default_max_slots 0 = PF_ok f /\
  f_valid f = true /\ f_tree 3000 f = Some (Some t) /\ ~ Derivation g root input t.
Proof.
  exists g_share, "s", (bytes "abcy"). eexists. exists (PT "s" 0 4 [PT "" 0 1 []; PT "" 1 2 []; PT "" 2 3 []; PT "" 3 4 []]).
  split; [apply wf_grammarb_spec; vm_compute; reflexivity|]. split; [vm_compute; reflexivity|].
  split; [apply told_apartb_spec; vm_compute; reflexivity|]. split; [vm_compute; reflexivity|].
  split; [vm_compute; reflexivity|]. split; [vm_compute; reflexivity|].
  intros D. apply g_share_unique in D. discriminate.
Qed.

(** ** C13 *)
(** Missing for the full statement: the converse of the first half, refuted
    below.  Proved: Ambiguous answers; when it is false on a valid forest there
    is exactly one derivation tree and Tree returns it, so it is true whenever
    there are two derivation trees. *)
Theorem C13_ambiguous_partial : forall ord fuel input g root max_slots max_nodes f fuel',
  any_order ord -> wf_grammar g -> lex_grammar g = true -> told_apart g ->
  parse_forest ord fuel input g root max_slots max_nodes = PF_ok f ->
  (length (f_nodes f) < fuel')%nat ->
  exists b, f_ambiguous fuel' f = Some b /\
    ((exists t1 t2, Derivation g root input t1 /\ Derivation g root input t2 /\ t1 <> t2) -> b = true) /\
    (f_valid f = false -> b = false) /\
    (f_valid f = true -> b = false ->
       exists t, f_tree fuel' f = Some (Some t) /\ forall t', Derivation g root input t' <-> t' = t).
Proof.
  intros ord fuel input g root ms mn f fuel' O W L F E Hf. pose proof (forest_facts_ok _ _ _ _ _ _ _ _ O W L F E) as H.
  pose proof (C05_forest_valid_exact_partial _ _ _ _ _ _ _ _ O W L F E) as Va.
  destruct H as [PS TP FU CL FE ND On So Co Rt Kn].
  destruct (f_valid f) eqn:V.
  - pose proof (proj1 Kn eq_refl) as K.
    destruct (proj1 (amb_total _ CL fuel') _ [] K) as (b & s & A & _); [split; [constructor|easy]|cbn; lia|].
    exists b. unfold f_ambiguous. rewrite Rt, A. split; auto.
    assert (U : b = false -> forall ts ts', ft (f_sg f) (f_nodes f) (NSym (sg_start (f_sg f)) 0 (length input)) ts ->
      ft (f_sg f) (f_nodes f) (NSym (sg_start (f_sg f)) 0 (length input)) ts' -> ts' = ts).
    { intros -> ts ts' F1 F2. pose proof (amb_false_unique _ _ _ _ A) as One. eapply ft_unique; eauto. }
    split; [|split].
    + intros (t1 & t2 & D1 & D2 & NE). destruct b; auto. exfalso. apply NE.
      destruct (Co _ D1) as (r1 & ts1 & -> & G1 & F1), (Co _ D2) as (r2 & ts2 & -> & G2 & F2).
      rewrite G1 in G2. inversion G2; subst. f_equal. symmetry. apply U; auto.
    + congruence.
    + intros _ B. destruct (emit_ft (f_sg f) _ PS FU CL FE fuel' _ K) as (ts & Em & Ft).
      { pose proof (rank_lt _ _ K). lia. }
      destruct (So ts Ft) as (r & Ru & G & D). exists (PT (rule_name r) 0 (length input) ts).
      split; [unfold f_tree; rewrite Rt, Em, Ru; reflexivity|].
      assert (Q : forall t', Derivation g root input t' -> t' = PT (rule_name r) 0 (length input) ts).
      { intros t' D'. destruct (Co _ D') as (r1 & ts1 & -> & G1 & F1). rewrite G in G1. inversion G1; subst. f_equal. apply U; auto. }
      intros t'. split; auto. intros ->.
      destruct (proj2 (derivation_iff_lang g input root) (proj1 Va eq_refl)) as (t & Dt).
      rewrite <- (Q t Dt). exact Dt.
  - exists false. unfold f_ambiguous. rewrite Rt. split; auto. split; [|split]; auto; try congruence.
    intros (t1 & t2 & D1 & _). exfalso. assert (X : Lang g root input) by (apply derivation_iff_lang; eauto).
    apply Va in X. congruence.
Qed.

(** Conversely, where no alternation, concatenation or repetition of the grammar can
    be divided in two ways over the same part of the input, Ambiguous is false. *)
Theorem C13_undivided_not_ambiguous : forall ord fuel input g root max_slots max_nodes f fuel',
  any_order ord -> wf_grammar g -> lex_grammar g = true -> told_apart g -> undivided g input ->
  parse_forest ord fuel input g root max_slots max_nodes = PF_ok f ->
  (length (f_nodes f) < fuel')%nat -> f_ambiguous fuel' f = Some false.
Proof.
  intros ord fuel input g root ms mn f fuel' O W L F U E Hf. pose proof (forest_facts_ok _ _ _ _ _ _ _ _ O W L F E) as H.
  destruct H as [PS TP FU CL FE ND On So Co Rt Kn]. specialize (On U). unfold f_ambiguous. rewrite Rt.
  destruct (f_valid f) eqn:V; auto. pose proof (proj1 Kn eq_refl) as K.
  destruct (proj1 (amb_total _ CL fuel') _ [] K) as (b & s & A & _); [split; [constructor|easy]|cbn; lia|]. rewrite A.
  destruct b; auto. exfalso. destruct (proj1 (amb_true _ fuel') _ _ _ A) as (k & _ & Two).
  specialize (ND k). specialize (On k). destruct (packs (f_nodes f) k) as [|pk [|pk' l]]; cbn in Two; try lia.
  assert (pk = pk') by (apply On; [left|right; left]; auto). subst pk'. inversion ND; subst. apply H1. left. auto.
Qed.

Example C13_case :
  (exists f, parse_forest (fun _ l => l) 400 (bytes "xX") g_wild "a" default_max_slots 0 = PF_ok f /\
     f_ambiguous (S (length (f_nodes f))) f = Some true) /\
  (exists f, parse_forest (fun _ l => l) 400 (bytes "xXy") g_rep "a" default_max_slots 0 = PF_ok f /\
     f_valid f = true /\ f_ambiguous (S (length (f_nodes f))) f = Some false).
Proof. split; eexists; split; [vm_compute; reflexivity| |vm_compute; reflexivity|split]; vm_compute; reflexivity. Qed.

(** Ambiguous, with one derivation tree. *)
Theorem C13_ambiguous_refuted : exists g root input f,
  wf_grammar g /\ lex_grammar g = true /\ told_apart g /\
  parse_forest (fun _ l => l) 3000 input g root default_max_slots 0 = PF_ok f /\
  f_ambiguous 3000 f = Some true /\
  exists t, forall t', Derivation g root input t' <-> t' = t.
Proof.
  exists g_share, "s", (bytes "abcy"). eexists.
  split; [apply wf_grammarb_spec; vm_compute; reflexivity|]. split; [vm_compute; reflexivity|].
  split; [apply told_apartb_spec; vm_compute; reflexivity|]. split; [vm_compute; reflexivity|].
  split; [vm_compute; reflexivity|]. exists (PT "s" 0 4 [PT "" 0 1 []; PT "" 1 3 []; PT "" 3 4 []]).
  intros t'. split; [apply g_share_unique|intros ->; apply g_share_derives].
Qed.

(** ** C12 *)
(** Missing for the full statement: equality, refuted below, and the BSR
    counterpart.  Proved: NumTrees answers; 0 exactly on invalid
    forests, 1 exactly when not ambiguous; -1 exactly when the nodes below the
    root are cyclic; otherwise it is the number of ways to choose a pack at each
    node and at least the number of derivation trees, so it is -1 when there are
    infinitely many. *)
Theorem C12_num_trees_partial : forall ord fuel input g root max_slots max_nodes f fuel',
  any_order ord -> wf_grammar g -> lex_grammar g = true -> told_apart g ->
  parse_forest ord fuel input g root max_slots max_nodes = PF_ok f ->
  (length (f_nodes f) < fuel')%nat ->
  exists v, f_num_trees fuel' f = Some v /\ -1 <= v /\
    (v = 0 <-> ~ Lang g root input) /\
    (v = 1 <-> Lang g root input /\ f_ambiguous fuel' f = Some false) /\
    (v <> -1 -> forall ts, NoDup ts -> (forall t, In t ts -> Derivation g root input t) -> Z.of_nat (length ts) <= v) /\
    (forall k, f_root f = Some k ->
      (v <> -1 -> exists us, NoDup us /\ Z.of_nat (length us) = v /\ forall u, In u us <-> unf (f_nodes f) k u) /\
      (v = -1 <-> exists x, reach (f_nodes f) k x /\ below (f_nodes f) x x)).
Proof.
  intros ord fuel input g root ms mn f fuel' O W L F E Hf. pose proof (forest_facts_ok _ _ _ _ _ _ _ _ O W L F E) as H.
  pose proof (C05_forest_valid_exact_partial _ _ _ _ _ _ _ _ O W L F E) as Va.
  destruct H as [PS TP FU CL FE ND On So Co Rt Kn].
  destruct (f_valid f) eqn:V.
  - set (k := NSym (sg_start (f_sg f)) 0 (length input)) in *. pose proof (proj1 Kn eq_refl) as K.
    pose proof (proj1 Va eq_refl) as La.
    destruct (count_total _ CL fuel' k [] ([], false) K) as (v & [m inf] & C); [split; [constructor|easy]|cbn; lia|].
    destruct (proj1 (amb_total _ CL fuel') _ [] K) as (b & s & A & _); [split; [constructor|easy]|cbn; lia|].
    exists (if inf then -1 else v). unfold f_num_trees, f_ambiguous. rewrite Rt, C, A. split; auto.
    destruct (count_exact _ ND fuel' _ _ _ _ _ C) as [_ Cx]. cbn [fst snd] in Cx.
    assert (Mi : minv (f_nodes f) []) by (intros k' v' X; discriminate).
    destruct inf.
    + destruct (count_cycle _ fuel' _ _ _ _ _ C eq_refl eq_refl) as (x & Rx & Bx); [easy|].
      assert (NA : b <> false).
      { intros ->. pose proof (amb_false_unique _ _ _ _ A) as One.
        pose proof (single_below (f_nodes f) FE k One x x Rx Bx). lia. }
      split; [lia|]. split; [split; [lia|tauto]|]. split; [split; [lia|intros [_ X]; inversion X; congruence]|].
      split; [easy|]. intros k' Ek. inversion Ek; subst k'. split; [easy|]. split; eauto.
    + destruct (Cx eq_refl Mi) as [_ Cn].
      pose proof (cnt_pos (f_sg f) _ PS TP FU CL FE k v K Cn) as Pos.
      split; [lia|]. split; [split; [lia|tauto]|]. split; [|split].
      * rewrite (cnt_one (f_sg f) _ PS TP FU CL FE ND k v K Cn). split.
        -- intros One. split; auto. destruct b; auto. exfalso.
           destruct (proj1 (amb_true (f_nodes f) fuel') _ _ _ A) as (x & Rx & Lx). specialize (One x Rx). lia.
        -- intros [_ X]. inversion X; subst. eapply amb_false_unique; eauto.
      * intros _ ts N D.
        assert (Bd : (length (map (fun t => match t with PT _ _ _ cs => cs end) ts) = length ts)) by apply map_length.
        rewrite <- Bd. apply (cnt_bound (f_sg f) _ TP k v); auto.
        -- destruct (get_rule root g) as [r|] eqn:G.
           ++ assert (Q : forall t, In t ts -> exists cs, t = PT (rule_name r) 0 (length input) cs).
              { intros t I. destruct (Co _ (D t I)) as (r' & cs & -> & G' & _). inversion G'; subst. eauto. }
              clear - N Q. induction N as [|t ts N1 N2 IH]; cbn [map]; constructor.
              ** rewrite in_map_iff. intros (t' & Et & It). apply N1.
                 destruct (Q t) as (c1 & ->); [left; auto|]. destruct (Q t') as (c2 & ->); [right; auto|]. subst. auto.
              ** apply IH. intros. apply Q. right. auto.
           ++ destruct ts as [|t ts]; [constructor|]. destruct (Co _ (D t (or_introl eq_refl))) as (r' & cs & -> & G' & _). congruence.
        -- intros cs I. apply in_map_iff in I as (t & <- & I). destruct (Co _ (D t I)) as (r' & cs' & -> & _ & Ft). exact Ft.
      * intros k' Ek. inversion Ek; subst k'. destruct Cn as (Ac & us & Nu & Eu & Hu). split; [eauto|]. split; [lia|].
        intros (x & Rx & Bx). exfalso. eapply acc_no_cycle; eauto.
  - assert (NL : ~ Lang g root input) by (intros X; apply Va in X; congruence).
    exists 0. unfold f_num_trees, f_ambiguous. rewrite Rt. split; auto. split; [lia|]. split; [split; auto|].
    split; [split; [lia|tauto]|]. split; [|congruence].
    intros _ ts _ D. destruct ts as [|t ts]; [cbn; lia|]. exfalso. apply NL. apply derivation_iff_lang. exists t. apply D. left; auto.
Qed.

Example C12_case :
  (exists f, parse_forest (fun _ l => l) 400 (bytes "xX") g_wild "a" default_max_slots 0 = PF_ok f /\
     f_num_trees (S (length (f_nodes f))) f = Some (-1)) /\
  (exists f, parse_forest (fun _ l => l) 400 (bytes "xXy") g_rep "a" default_max_slots 0 = PF_ok f /\
     f_num_trees (S (length (f_nodes f))) f = Some 1) /\
  (exists f, parse_forest (fun _ l => l) 400 (bytes "xxxx")
       [mkRule "a" [[Rep 0 inf (EGroup [[Rep 1 1 (EChar false [120])]; [Rep 1 1 (EChar false [120; 120])]])]]]
       "a" default_max_slots 0 = PF_ok f /\
     f_num_trees (S (length (f_nodes f))) f = Some 5).
Proof. split; [|split]; eexists; (split; [vm_compute; reflexivity|]); vm_compute; reflexivity. Qed.

(** Two trees counted, one derivation tree. *)
Theorem C12_num_trees_refuted : exists g root input f,
  wf_grammar g /\ lex_grammar g = true /\ told_apart g /\
  parse_forest (fun _ l => l) 3000 input g root default_max_slots 0 = PF_ok f /\
  f_num_trees 3000 f = Some 2 /\
  exists t, forall t', Derivation g root input t' <-> t' = t.
Proof.
  exists g_share, "s", (bytes "abcy"). eexists.
  split; [apply wf_grammarb_spec; vm_compute; reflexivity|]. split; [vm_compute; reflexivity|].
  split; [apply told_apartb_spec; vm_compute; reflexivity|]. split; [vm_compute; reflexivity|].
  split; [vm_compute; reflexivity|]. exists (PT "s" 0 4 [PT "" 0 1 []; PT "" 1 3 []; PT "" 3 4 []]).
  intros t'. split; [apply g_share_unique|intros ->; apply g_share_derives].
Qed.

(** A derivation tree exists exactly for the words of the language: the two
    specifications agree. *)
Theorem C11_derivations_and_language : forall g root input,
  (exists t, Derivation g root input t) <-> Lang g root input.
Proof. intros. apply derivation_iff_lang. Qed.

Print Assumptions C11_tree_is_derivation_partial.
Print Assumptions C11_tree_is_derivation_refuted.
Print Assumptions C11_derivations_and_language.
Print Assumptions C12_num_trees_partial.
Print Assumptions C12_num_trees_refuted.
Print Assumptions C13_ambiguous_partial.
Print Assumptions C13_ambiguous_refuted.
Print Assumptions C13_undivided_not_ambiguous.
