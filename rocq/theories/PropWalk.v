(** C33: generating from a transition graph. *)
(** The definitions here are those of statements, proofs and examples; they model no code. *)
From Coq Require Import ZArith Arith String Bool List Lia.
From Verif Require Import Syntax Spec Check Num Utf8 Tape Occ PrintInj LowerLang PropDag LeftRec Ast AstProof PropAst RecogGlue PropRecog Deps
  Graph GraphSpec GraphRun GraphRep GraphBuild GraphLabel PropGraph Walk WalkProof.
Import ListNotations.
Local Open Scope string_scope.
Local Open Scope Z_scope.
Local Open Scope list_scope.

(** ** What a node emits *)
Lemma casing_word vs : Forall scalar vs -> forall k bit, exists rs, emit_casing vs k bit = utf8s rs /\ Forall2 (char_ok false) vs rs /\ Forall scalar rs.
Proof.
  intros F. induction F as [|r vs Sr F IH]; intros k bit; cbn [emit_casing]; [exists []; auto|].
  destruct (negb (is_lower r) && negb (is_upper r)).
  - destruct (IH k bit) as (rs & -> & F1 & F2). exists (r :: rs). rewrite string_of_rune_utf8 by exact Sr.
    split; [reflexivity|]. split; constructor; auto. reflexivity.
  - cbn zeta. destruct (IH k (bit + 1)) as (rs & -> & F1 & F2).
    set (x := if Z.testbit k bit then _ else _). exists (x :: rs).
    assert (X : scalar x /\ char_ok false r x).
    { unfold x, char_ok, fold_case, is_lower, is_upper, scalar in *. clear -Sr.
      destruct (Z.testbit k bit), (Z.leb_spec 97 r), (Z.leb_spec r 122), (Z.leb_spec 65 r), (Z.leb_spec r 90); cbn [andb]; try lia;
      repeat match goal with |- context [?a <=? ?b] => destruct (Z.leb_spec a b); cbn [andb]; try lia end. }
    destruct X as [X1 X2]. rewrite string_of_rune_utf8 by exact X1. split; [reflexivity|]. split; constructor; auto.
Qed.
Lemma flat_rune vs : Forall scalar vs -> flat_map string_of_rune vs = utf8s vs.
Proof. intros F. induction F as [|r vs S F IH]; [reflexivity|]. cbn [flat_map utf8s]. rewrite IH, string_of_rune_utf8 by exact S. reflexivity. Qed.
Lemma rune_value b s v : numeral b s = Some v -> scalar v -> numval_to_rune s b = v.
Proof. intros N S. unfold numval_to_rune. rewrite (numval_to_int32_spec _ _ _ N). unfold MaxInt32. unfold scalar in S. lia. Qed.
Lemma emitted_word g e b : producing e = true -> emits e -> emitted e b -> in_elem g e b.
Proof.
  intros P Em (k & vt & b0 & v1 & E0 & K & E1). destruct e as [n|a|a|s vs|bs st es|v]; try discriminate; cbn [emits] in Em.
  - destruct s; cbn [node_emit] in E1; injection E1 as <- _.
    + rewrite flat_rune by exact Em. apply in_char; [|exact Em]. clear. induction vs; constructor; auto. reflexivity.
    + destruct (casing_word vs Em k 0) as (rs & -> & F1 & F2). apply in_char; assumption.
  - destruct st.
    + cbn [node_emit] in E1. injection E1 as <- _.
      assert (X : exists rs, Forall2 (fun s v => numeral bs s = Some v) es rs /\ Forall scalar rs /\ flat_map (fun s => string_of_rune (numval_to_rune s bs)) es = utf8s rs).
      { clear E0 P. induction Em as [|s es (v & N & Sv) _ IH]; [exists []; auto|]. destruct IH as (rs & F1 & F2 & E). exists (v :: rs).
        split; [constructor; assumption|]. split; [constructor; assumption|]. cbn [flat_map utf8s]. rewrite E, (rune_value _ _ _ N Sv), string_of_rune_utf8 by exact Sv. reflexivity. }
      destruct X as (rs & F1 & F2 & ->). apply in_series; assumption.
    + destruct es as [|lo [|hi [|? ?]]]; try contradiction. destruct Em as (l & h & Nl & Nh & L1 & L2 & Sc).
      pose proof (Num.numeral_nonneg _ _ _ Nl) as Pl. cbn [node_emit] in E0, E1. cbn zeta in E0, E1.
      rewrite (numval_to_int32_spec _ _ _ Nl), (numval_to_int32_spec _ _ _ Nh) in E0, E1.
      assert (Eh : (if 0x10FFFF <? Z.min h MaxInt32 then 0x10FFFF else Z.min h MaxInt32) = Z.min h 0x10FFFF).
      { unfold MaxInt32. destruct (Z.ltb_spec 0x10FFFF (Z.min h 2147483647)); lia. }
      rewrite Eh in E0, E1. assert (El : Z.min l MaxInt32 = l) by (unfold MaxInt32; lia). rewrite El in E0, E1. clear Eh El.
      destruct (Z.ltb_spec 0x10FFFF l); [lia|]. destruct (Z.ltb_spec (Z.min h 0x10FFFF) l); [lia|]. cbn [orb] in E0, E1.
      injection E0 as _ <-. injection E1 as <- _. assert (Sr : scalar (l + k)) by (apply Sc; lia).
      rewrite string_of_rune_utf8 by exact Sr. eapply in_range; try eassumption. lia.
Qed.

(** ** Labels of built graphs *)
Lemma allows_producing opts g : o_rules opts = true -> allows (fun e => producing e = true) opts g.
Proof. intros R. split; intros; try reflexivity; [congruence|]. split; [reflexivity|]. intros _. split; reflexivity. Qed.
Lemma allows_safe opts g : wf_grammar g -> allows emit_safe opts g.
Proof.
  intros W. split; intros; try exact Logic.I.
  - split; [exact Logic.I|]. intros _. split; exact Logic.I.
  - pose proof (proj1 (wf_occ g W) _ H0) as X. inversion X as [| | | |? ? ? [_ Y]|]; subst. destruct k; cbn [emit_safe]; [exact Logic.I|]. rewrite Y. lia.
Qed.
Lemma allows_emits opts g : emittable g -> allows emits opts g.
Proof.
  intros Em. assert (K : forall e, occ_elem g e -> emits e) by (intros e O; inversion O as [mn mx x O1]; subst; apply (Em _ _ _ O1)).
  split; intros.
  - exact Logic.I.
  - apply K, H.
  - apply K in H. cbn [emits] in *. rewrite Forall_forall in H. specialize (H r H0). split; [constructor; auto|]. intros _.
    unfold rune_min, rune_max. unfold scalar in H. split; (constructor; [|constructor]); unfold scalar;
    repeat match goal with |- context [?a <=? ?b] => destruct (Z.leb_spec a b) end; cbn [andb]; lia.
  - apply K, H0.
  - apply K in H. cbn [emits] in *. rewrite Forall_forall in H. constructor; [apply H, H0|constructor].
  - apply K in H. cbn [emits] in *. destruct es as [|? ?]; [|contradiction]. destruct H as (l & h & Nl & Nh & L1 & L2 & Sc).
    pose proof (Num.numeral_nonneg _ _ _ Nl) as Pl.
    rewrite (numval_to_int32_spec _ _ _ Nl), (numval_to_int32_spec _ _ _ Nh) in H0. unfold MaxInt32 in H0.
    assert (Sr : scalar r) by (apply Sc; lia). constructor; [|constructor]. exists r. split; [|exact Sr].
    unfold numeral in Nl. destruct (radix_of b) as [rx|] eqn:Rb; [|discriminate].
    apply (int32_to_numval_numeral b r rx Rb). unfold scalar in Sr. unfold MaxInt32. lia.
Qed.
Lemma built_all P fuel opts g g1 g2 order n t c : allows P opts g -> transition_graph fuel opts g g1 g2 order n = TG_ok t c ->
  forall a, in_graph t a -> P (elem_at (tg_heap t) a).
Proof.
  intros Al E. destruct (built_sane P opts g Al _ _ _ _ _ _ _ E) as ([L N] & W & _). intros a I.
  assert (B : (a < length (tg_heap t))%nat) by (revert a I; apply in_graph_all; [exact W|intros a b _; apply N]).
  unfold elem_at. destruct (nth_error (tg_heap t) a) as [x|] eqn:Ex; [|apply nth_error_None in Ex; lia].
  apply (L a). unfold label. rewrite Ex. reflexivity.
Qed.

(** ** C33 *)
(** NewGenerator reports a node that is not a terminal, when there is one. *)
Theorem C33_new_generator : forall t ml mr ms,
  match new_generator t ml mr ms with
  | Gen_ok g => g_graph g = t /\ forall a, in_graph t a -> producing (elem_at (tg_heap t) a) = true
  | Gen_err e => exists a, in_graph t a /\ e = elem_at (tg_heap t) a /\ producing e = false
  | Gen_fuel => False
  end.
Proof.
  intros t ml mr ms. pose proof (new_generator_spec t ml mr ms) as K. destruct (new_generator t ml mr ms) as [g|e|]; auto.
  destruct K as (G & E & _). split; [exact E|]. rewrite <- E. apply (go_prod g G).
Qed.
(** No such node when the rules are deflated. *)
Theorem C33_new_generator_built : forall fuel opts g g1 g2 order n t c ml mr ms, o_rules opts = true ->
  transition_graph fuel opts g g1 g2 order n = TG_ok t c -> exists gen, new_generator t ml mr ms = Gen_ok gen.
Proof.
  intros fuel opts g g1 g2 order n t c ml mr ms R E. pose proof (C33_new_generator t ml mr ms) as K.
  destruct (new_generator t ml mr ms) as [gen|e|]; [eauto| |destruct K]. destruct K as (a & I & -> & F).
  rewrite (built_all _ _ _ _ _ _ _ _ _ _ (allows_producing opts g R) E a I) in F. discriminate.
Qed.
(** Any walk ends, within a number of steps that does not depend on the source; what
    it returns was emitted along a path from an entry to an end point, unless there
    is no path. *)
Theorem C33_walk_total : forall fuel opts g g1 g2 order n t c ml mr ms gen, wf_grammar g ->
  transition_graph fuel opts g g1 g2 order n = TG_ok t c -> new_generator t ml mr ms = Gen_ok gen ->
  forall (S_ : Type) (intn : Z -> S_ -> Z * S_) s k, draws_ok intn -> (Z.to_nat ms + length (g_dist gen) < k)%nat ->
  exists w tr s', walk intn k gen s = W_ok w tr s' /\
    ((exists p ws, path t p /\ Forall2 (fun a b => emitted (elem_at (tg_heap t) a) b) p ws /\ w = concat ws) \/
     ((forall p, ~ path t p) /\ w = [])).
Proof.
  intros fuel opts g g1 g2 order n t c ml mr ms gen W E G S_ intn s k Dr L. pose proof (new_generator_spec t ml mr ms) as K. rewrite G in K.
  destruct K as (Go & <- & _ & _ & <-).
  destruct (walk_spec intn Dr gen Go (built_all _ _ _ _ _ _ _ _ _ _ (allows_safe opts g W) E) k s L) as (w & tr & s' & X & _ & Y).
  exists w, tr, s'. split; [exact X|]. destruct Y as [Y|(Y1 & Y2 & _)]; auto.
Qed.
Lemma emitted_spells g t p ws : (forall a, In a p -> in_graph t a) -> (forall a, in_graph t a -> (a < length (tg_heap t))%nat) ->
  (forall a, in_graph t a -> producing (elem_at (tg_heap t) a) = true /\ emits (elem_at (tg_heap t) a)) ->
  Forall2 (fun a b => emitted (elem_at (tg_heap t) a) b) p ws -> spells g t p (concat ws).
Proof.
  intros I B Q F. exists ws. split; [|reflexivity]. induction F as [|a b p ws E F IH]; [constructor|].
  constructor; [|apply IH; intros x Ix; apply I; right; exact Ix]. specialize (I a (or_introl eq_refl)). destruct (Q a I) as [Q1 Q2]. specialize (B a I).
  unfold elem_at in *. unfold node_word. destruct (nth_error (tg_heap t) a) as [x|] eqn:Ex; [|apply nth_error_None in Ex; lia].
  exists x. split; [reflexivity|]. apply emitted_word; assumption.
Qed.
Lemma path_in_graph t p : path t p -> forall a, In a p -> in_graph t a.
Proof.
  destruct p as [|x p]; [intros _ a []|]. intros (P1 & _ & P3). apply in_graph_entry in P1. clear -P1 P3.
  revert x P1 P3. induction p as [|y p IH]; intros x P1 P3 a [<-|I]; auto; [destruct I|]. destruct P3 as [P3 P4]. apply (IH y); [eapply in_graph_next; eassumption|exact P4|exact I].
Qed.
(** The bytes returned are a word of the rule: missing are grammars with values that
    are not characters, and with empty ranges or empty languages, see below. *)
Lemma generator_lang g' fuel opts g g1 g2 order n t c ml mr ms gen : wf_grammar g -> emittable g ->
  transition_graph fuel opts g g1 g2 order n = TG_ok t c -> new_generator t ml mr ms = Gen_ok gen ->
  (forall w, Lang g' n w <-> exists p, path t p /\ spells g' t p w) ->
  forall (S_ : Type) (intn : Z -> S_ -> Z * S_) s k, draws_ok intn -> (Z.to_nat ms + length (g_dist gen) < k)%nat ->
  exists w tr s', walk intn k gen s = W_ok w tr s' /\ ((exists w0, Lang g' n w0) -> Lang g' n w).
Proof.
  intros W Em E G Sp S_ intn s k Dr L. destruct (C33_walk_total _ _ _ _ _ _ _ _ _ _ _ _ _ W E G S_ intn s k Dr L) as (w & tr & s' & X & Y).
  exists w, tr, s'. split; [exact X|]. intros (w0 & H0). destruct Y as [(p & ws & P & F & ->)|(Np & _)].
  - apply Sp. exists p. split; [exact P|]. destruct (built_sane emit_safe opts g (allows_safe opts g W) _ _ _ _ _ _ _ E) as ([_ Nx] & Wi & _).
    apply emitted_spells; [apply path_in_graph, P| | |exact F].
    + apply in_graph_all; [exact Wi|intros a b _; apply Nx].
    + intros a I. split; [|apply (built_all _ _ _ _ _ _ _ _ _ _ (allows_emits opts g Em) E a I)].
      pose proof (C33_new_generator t ml mr ms) as K. rewrite G in K. apply K, I.
  - apply Sp in H0 as (p & P & _). destruct (Np p P).
Qed.
Theorem C33_generator_partial : forall fuel opts g g1 g2 order n t c ml mr ms gen, wf_grammar g -> emittable g ->
  o_numvals opts = false \/ series_single g ->
  transition_graph fuel opts g g1 g2 order n = TG_ok t c -> new_generator t ml mr ms = Gen_ok gen -> (exists w, Lang g n w) ->
  forall (S_ : Type) (intn : Z -> S_ -> Z * S_) s k, draws_ok intn -> (Z.to_nat ms + length (g_dist gen) < k)%nat ->
  exists w tr s', walk intn k gen s = W_ok w tr s' /\ Lang g n w.
Proof.
  intros fuel opts g g1 g2 order n t c ml mr ms gen W Em D E G Ne S_ intn s k Dr L.
  destruct (generator_lang g _ _ _ _ _ _ _ _ _ _ _ _ gen W Em E G (C31_graph_spells_single_partial _ _ _ _ _ _ _ _ _ W D E) S_ intn s k Dr L) as (w & tr & s' & X & Y).
  exists w, tr, s'. auto.
Qed.
(** With deflateNumVals: a word of the grammar whose series are alternatives. *)
Theorem C33_generator_deflated_partial : forall fuel opts g g1 g2 order n t c ml mr ms gen, wf_grammar g -> emittable g -> o_numvals opts = true ->
  transition_graph fuel opts g g1 g2 order n = TG_ok t c -> new_generator t ml mr ms = Gen_ok gen -> (exists w, Lang (split_series g) n w) ->
  forall (S_ : Type) (intn : Z -> S_ -> Z * S_) s k, draws_ok intn -> (Z.to_nat ms + length (g_dist gen) < k)%nat ->
  exists w tr s', walk intn k gen s = W_ok w tr s' /\ Lang (split_series g) n w.
Proof.
  intros fuel opts g g1 g2 order n t c ml mr ms gen W Em D E G Ne S_ intn s k Dr L.
  destruct (generator_lang _ _ _ _ _ _ _ _ _ _ _ _ _ gen W Em E G (C31_graph_spells_deflated _ _ _ _ _ _ _ _ _ W D E) S_ intn s k Dr L) as (w & tr & s' & X & Y).
  exists w, tr, s'. auto.
Qed.
(** Both ways to read a tape are sources. *)
Lemma indexed_intn_ok : draws_ok indexed_intn.
Proof.
  intros n s. unfold indexed_intn. destruct (Z.leb_spec n 1); cbn [fst]; [lia|].
  pose proof (push_nonneg (push_byte (push_byte (push_byte 0 (nth (is_i s * 4) (is_tape s) 0)) (nth (is_i s * 4 + 1) (is_tape s) 0)) (nth (is_i s * 4 + 2) (is_tape s) 0)) (nth (is_i s * 4 + 3) (is_tape s) 0)) as P.
  unfold indexed_value. set (v := push_byte _ _) in *. clearbody v. pose proof (Z.rem_bound_pos v n P ltac:(lia)). lia.
Qed.
Theorem C33_generate_partial : forall fuel opts g g1 g2 order n t c ml mr ms gen, wf_grammar g -> emittable g ->
  o_numvals opts = false \/ series_single g ->
  transition_graph fuel opts g g1 g2 order n = TG_ok t c -> new_generator t ml mr ms = Gen_ok gen -> (exists w, Lang g n w) ->
  forall stable tape k, (Z.to_nat ms + length (g_dist gen) < k)%nat ->
  exists w tr, graph_generate k stable gen tape = W_ok w tr tt /\ Lang g n w.
Proof.
  intros fuel opts g g1 g2 order n t c ml mr ms gen W Em D E G Ne stable tape k L.
  pose proof (C33_generator_partial _ _ _ _ _ _ _ _ _ _ _ _ gen W Em D E G Ne) as K. unfold graph_generate. destruct stable.
  - destruct (K _ indexed_intn (mkIdx tape 0) k indexed_intn_ok L) as (w & tr & s' & -> & H). exists w, tr. auto.
  - destruct (K _ tape_draw (mkTape tape 0) k tape_draw_ok L) as (w & tr & s' & X & H). exists w, tr. split; [|exact H].
    unfold tape_draw in X. rewrite X. reflexivity.
Qed.

(** ** Cases *)
Definition g33 : grammar :=
  [mkRule "line" [[Rep 1 2 (EGroup [[Rep 0 inf (EChar false [97; 45])]; [Rep 1 1 (ERule "Sub")]]); Rep 1 1 (EOption [[Rep 2 2 (ERule "SUB")]])]];
   mkRule "sub" [[Rep 1 1 (ENum "x" StatRange ["30"; "39"])]; [Rep 1 1 (ENum "x" StatSeries ["E9"])]]].
Definition o33 (deflate : bool) : tgoptions := mkOpts true deflate false 256 0.
Definition t33 (d : bool) : tgraph := match transition_graph 30 (o33 d) g33 g33 g33 (keys g33) "line" with TG_ok t _ => t | _ => mkTG [] [] [] end.
Definition gen33 (d : bool) : generator := match new_generator (t33 d) 6 2 10 with Gen_ok g => g | _ => mkGen (t33 d) 0 0 0 [] [] end.
Example C33_case : wf_grammar g33 /\ emittable g33 /\
  transition_graph 30 (o33 false) g33 g33 g33 (keys g33) "line" = TG_ok (t33 false) 0 /\ new_generator (t33 false) 6 2 10 = Gen_ok (gen33 false) /\
  (exists w, Lang g33 "line" w) /\ (Z.to_nat 10 + length (g_dist (gen33 false)) < 30)%nat /\ draws_ok tape_draw /\ draws_ok indexed_intn /\
  (exists tr, graph_generate 30 false (gen33 false) [2; 3; 4; 5; 6; 1; 2; 3] = W_ok [195; 169; 195; 169; 53; 49] tr tt) /\
  (exists tr, graph_generate 30 true (gen33 false) [0; 0; 0; 1; 0; 0; 0; 1] = W_ok [49] tr tt) /\
  transition_graph 30 (o33 true) g33 g33 g33 (keys g33) "line" = TG_ok (t33 true) 0 /\ new_generator (t33 true) 6 2 10 = Gen_ok (gen33 true) /\
  (exists w, Lang (split_series g33) "line" w) /\ (Z.to_nat 10 + length (g_dist (gen33 true)) < 100)%nat.
Proof.
  assert (W : wf_grammar g33) by (apply wf_grammarb_spec; vm_compute; reflexivity).
  assert (E : transition_graph 30 (o33 false) g33 g33 g33 (keys g33) "line" = TG_ok (t33 false) 0) by (vm_compute; reflexivity).
  assert (E' : transition_graph 30 (o33 true) g33 g33 g33 (keys g33) "line" = TG_ok (t33 true) 0) by (vm_compute; reflexivity).
  split; [exact W|]. split; [apply emittableb_spec; vm_compute; reflexivity|]. split; [exact E|]. split; [vm_compute; reflexivity|]. split.
  - exists []. apply (C31_graph_spells _ _ _ _ _ _ _ _ _ W (eq_refl : o_numvals (o33 false) = false) E). exists []. split; [split; vm_compute; tauto|]. exists []. split; [constructor|reflexivity].
  - split; [apply Nat.ltb_lt; vm_compute; reflexivity|]. split; [apply tape_draw_ok|]. split; [apply indexed_intn_ok|].
    split; [eexists; vm_compute; reflexivity|]. split; [eexists; vm_compute; reflexivity|]. split; [exact E'|]. split; [vm_compute; reflexivity|].
    split; [|apply Nat.ltb_lt; vm_compute; reflexivity]. exists [].
    apply (C31_graph_spells_deflated _ _ _ _ _ _ _ _ _ W (eq_refl : o_numvals (o33 true) = true) E'). exists []. split; [split; vm_compute; tauto|]. exists []. split; [constructor|reflexivity].
Qed.
(** An error case: rules not deflated. *)
Example C33_error_case : exists t c a, transition_graph 30 (mkOpts false false false 256 0) g33 g33 g33 (keys g33) "line" = TG_ok t c /\
  in_graph t a /\ new_generator t 6 2 10 = Gen_err (elem_at (tg_heap t) a) /\ producing (elem_at (tg_heap t) a) = false.
Proof.
  eexists _, _, 5%nat. split; [vm_compute; reflexivity|]. split; [|split; vm_compute; reflexivity].
  exists [], 5%nat. split; [vm_compute; tauto|]. split; [exact Logic.I|reflexivity].
Qed.

(** ** What fails *)
Lemma one_rep_word g n (e : elem) w : distinct_names g -> forall r, get_rule n g = Some r -> rule_alt r = [[Rep 1 1 e]] -> (Lang g n w <-> in_elem g e w).
Proof.
  intros D r G E. rewrite (lang_user g n r w D G), E. split.
  - intros H. inversion H as [c ? ? I K]; subst. destruct I as [<-|[]]. inversion K as [|? ? w1 w2 K1 K2]; subst. inversion K2; subst.
    inversion K1 as [? ? ? k ? B1 B2 P]; subst. destruct B2 as [B2|B2]; [discriminate|]. assert (k = 1)%nat as -> by lia.
    inversion P as [|? ? w5 w6 P1 P2]; subst. inversion P2; subst. rewrite !app_nil_r. exact P1.
  - intros H. apply (in_alt_intro g [Rep 1 1 e]); [left; reflexivity|]. rewrite <- (app_nil_r w). constructor; [|constructor].
    apply (in_rep_intro g 1 1 e 1); [lia|right; lia|]. rewrite <- (app_nil_r w). constructor; [exact H|constructor].
Qed.
(** A surrogate of a range is emitted as U+FFFD. *)
Definition g_surr : grammar := [mkRule "a" [[Rep 1 1 (ENum "x" StatRange ["D7FF"; "D800"])]]].
Theorem C33_surrogate_refuted : exists fuel opts g order n t c gen tape k w tr, wf_grammar g /\ lex_grammar g = true /\ o_numvals opts = false /\
  transition_graph fuel opts g g g order n = TG_ok t c /\ new_generator t 4096 32 100 = Gen_ok gen /\ (exists w0, Lang g n w0) /\
  graph_generate k false gen tape = W_ok w tr tt /\ ~ Lang g n w.
Proof.
  exists 30%nat, (o33 false), g_surr, (keys g_surr), "a". eexists _, _, _. exists [1], 200%nat. eexists _, _.
  split; [apply wf_grammarb_spec; vm_compute; reflexivity|]. split; [vm_compute; reflexivity|]. split; [reflexivity|]. split; [vm_compute; reflexivity|].
  split; [vm_compute; reflexivity|].
  assert (O : forall w, Lang g_surr "a" w <-> in_elem g_surr (ENum "x" StatRange ["D7FF"; "D800"]) w).
  { intros w. eapply one_rep_word; [apply wf_distinct; vm_compute; reflexivity|reflexivity|reflexivity]. }
  split; [exists (utf8 0xD7FF); apply O; apply (in_range _ _ _ _ 0xD7FF 0xD800); [reflexivity|reflexivity|lia|unfold scalar; lia]|].
  split; [vm_compute; reflexivity|]. rewrite O. intros H. inversion H as [| | | | | |? ? ? l h r N1 N2 B S E1 E2]; subst.
  vm_compute in N1, N2. injection N1 as <-. injection N2 as <-. unfold scalar in S. assert (r = 0xD7FF) as -> by lia. vm_compute in E2. discriminate.
Qed.
Lemma char_nil g s vs w : in_elem g (EChar s vs) w -> w = [] -> vs = [].
Proof.
  intros X. inversion X as [| | | |? ? rs F1 F2 E1 E2| |]. destruct F1 as [|v r vs' rs' _ _]; [reflexivity|]. cbn [utf8s flat_map]. intros E.
  apply app_eq_nil in E as [E _]. unfold utf8 in E. repeat match type of E with context [if ?b then _ else _] => destruct b end; discriminate.
Qed.
(** A node without words emits the empty word. *)
Definition g_void : grammar := [mkRule "a" [[Rep 1 1 (EChar false [120])]; [Rep 1 1 (ENum "x" StatRange ["62"; "61"])]]].
Theorem C33_empty_range_refuted : exists fuel opts g order n t c gen tape k w tr, wf_grammar g /\ lex_grammar g = true /\ o_numvals opts = false /\
  transition_graph fuel opts g g g order n = TG_ok t c /\ new_generator t 4096 32 100 = Gen_ok gen /\ (exists w0, Lang g n w0) /\
  graph_generate k false gen tape = W_ok w tr tt /\ ~ Lang g n w.
Proof.
  exists 30%nat, (o33 false), g_void, (keys g_void), "a". eexists _, _, _. exists [1], 200%nat. eexists _, _.
  split; [apply wf_grammarb_spec; vm_compute; reflexivity|]. split; [vm_compute; reflexivity|]. split; [reflexivity|]. split; [vm_compute; reflexivity|].
  split; [vm_compute; reflexivity|].
  assert (O : forall w, Lang g_void "a" w <-> in_alt g_void (rule_alt (nth 0 g_void (mkRule "" []))) w).
  { intros w. apply lang_user; [apply wf_distinct; vm_compute; reflexivity|reflexivity]. }
  split.
  { exists [120]. apply O. apply (in_alt_intro g_void [Rep 1 1 (EChar false [120])]); [left; reflexivity|].
    apply (in_cat_cons g_void _ _ [120] []); [|constructor]. apply (in_rep_intro g_void 1 1 _ 1); [lia|right; lia|].
    apply (in_pow_S g_void _ 0 [120] []); [|constructor]. apply (in_char g_void false [120] [120]); constructor; auto; [reflexivity|unfold scalar; lia]. }
  split; [vm_compute; reflexivity|]. rewrite O. intros H. inversion H as [c ? ? I K]; subst.
  assert (X : exists e, c = [Rep 1 1 e] /\ in_elem g_void e []).
  { destruct I as [<-|[<-|[]]]; eexists; (split; [reflexivity|]); inversion K as [|? ? w1 w2 K1 K2 E1 E2]; subst; inversion K2; subst;
    inversion K1 as [? ? ? k ? B1 B2 P]; subst; (destruct B2 as [B2|B2]; [discriminate|]); assert (k = 1)%nat as -> by lia;
    inversion P as [|? ? w5 w6 P1 P2]; subst; inversion P2; subst; rewrite app_nil_r in E2; rewrite app_nil_r in E2; subst; exact P1. }
  destruct X as (e & -> & X). destruct I as [I|[I|[]]]; injection I as <-.
  - apply char_nil in X; [discriminate|reflexivity].
  - inversion X as [| | | | | |? ? ? l h r N1 N2 B S E1 E2]; subst. vm_compute in N1, N2. injection N1 as <-. injection N2 as <-. lia.
Qed.
(** A rule without words gives the empty word. *)
Definition g_no : grammar := [mkRule "a" [[Rep 1 1 (ENum "x" StatRange ["62"; "61"])]]].
Theorem C33_empty_language_refuted : exists fuel opts g order n t c gen k, wf_grammar g /\ lex_grammar g = true /\ series_single g /\
  transition_graph fuel opts g g g order n = TG_ok t c /\ new_generator t 4096 32 100 = Gen_ok gen /\
  (forall tape, graph_generate k false gen tape = W_ok [] [] tt) /\ ~ Lang g n [].
Proof.
  exists 30%nat, (o33 true), g_no, (keys g_no), "a". eexists _, _, _. exists 200%nat.
  split; [apply wf_grammarb_spec; vm_compute; reflexivity|]. split; [vm_compute; reflexivity|]. split; [apply single_ok; vm_compute; reflexivity|]. split; [vm_compute; reflexivity|].
  split; [vm_compute; reflexivity|]. split; [intros tape; reflexivity|].
  intros H. assert (H1 : in_elem g_no (ENum "x" StatRange ["62"; "61"]) []).
  { apply (one_rep_word g_no "a" _ [] ltac:(apply wf_distinct; vm_compute; reflexivity) (nth 0 g_no (mkRule "" [])) eq_refl eq_refl), H. }
  inversion H1 as [| | | | | |? ? ? l h r N1 N2 B S E1 E2]; subst. vm_compute in N1, N2. injection N1 as <-. injection N2 as <-. lia.
Qed.

Print Assumptions C33_new_generator.
Print Assumptions C33_new_generator_built.
Print Assumptions C33_walk_total.
Print Assumptions C33_generator_partial.
Print Assumptions C33_generator_deflated_partial.
Print Assumptions C33_generate_partial.
Print Assumptions C33_case.
Print Assumptions C33_error_case.
Print Assumptions C33_surrogate_refuted.
Print Assumptions C33_empty_range_refuted.
Print Assumptions C33_empty_language_refuted.
