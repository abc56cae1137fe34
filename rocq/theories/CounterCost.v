(** What a run that does not hit its budget costs at least: one step for every descriptor; and a
    grammar whose repetition is counted through one descriptor for every count.
    Its definitions are means of proof and model no code. *)
From Coq Require Import ZArith Arith String Bool List Permutation Lia.
From Verif Require Import Syntax Spec Utf8 Num Term Printer Slots Gll GllUniv Bsr BsrProof BsrTerm Sppf SppfProof
  LowerProof LowerLang Check ParseAbnf Cost CostProof CostLow.
Import ListNotations.
Local Open Scope string_scope.
Local Open Scope list_scope.
Local Open Scope nat_scope.

(** *** The BSR engine *)
Section Bsr.
  Variable sg : slot_grammar.
  Variable input : list Z.
  Variable mx : Z.
  Variable ord : nat -> gss -> list nat -> list nat.

  Definition full (a : bool) (l : nat) : Prop := a = true -> (0 < mx)%Z /\ (mx <= Z.of_nat l)%Z.
  Definition bfull (st : bstate) : Prop := full (b_aborted st) (length (b_set st)).
  Lemma bfull_add L u i rc st : bfull st -> bfull (b_add L u i rc st).
  Proof. unfold b_add. destruct (in_dec _ _ _); auto. Qed.
  Lemma bfull_record L l k r st : bfull st -> bfull (b_record sg mx L l k r st).
  Proof.
    intros H. unfold b_record. destruct (prod_of sg L); auto. destruct (_ || _)%bool; auto.
    destruct ((0 <? mx) && (mx <=? Z.of_nat (length (b_set st))))%Z%bool eqn:E.
    - intros _. cbn [b_set]. apply andb_true_iff in E as [E1 E2]. lia.
    - destruct (in_dec _ _ _); auto. unfold bfull, full in *. cbn [b_aborted b_set length]. intros A. specialize (H A). lia.
  Qed.
  Lemma bfull_fold {A} (f : bstate -> A -> bstate) l : (forall s x, bfull s -> bfull (f s x)) -> forall s, bfull s -> bfull (fold_left f l s).
  Proof. intros H. induction l; cbn [fold_left]; auto. Qed.
  Lemma bfull_process rest : forall L u i rc st, bfull st -> bfull (b_process sg input mx ord rest L u i rc st).
  Proof.
    induction rest as [|s rest IH]; cbn [b_process]; intros L u i rc st H.
    - unfold b_pop. destruct u; auto. apply bfull_fold; [intros; apply bfull_add, bfull_record; auto|]. destruct (in_dec _ _ _); auto.
    - destruct s; try (destruct (match_sym _ _ _); auto; apply IH, bfull_record; auto).
      apply bfull_fold; [intros; apply bfull_add; auto|]. unfold b_create. destruct (in_dec _ _ _); auto.
      apply bfull_fold; [intros; apply bfull_add, bfull_record; auto|]. auto.
  Qed.
  Lemma bfull_run fuel : forall st st', bfull st -> b_run sg input mx ord fuel st = Some st' -> bfull st'.
  Proof.
    induction fuel as [|f IH]; intros st st' H; cbn [b_run].
    - destruct (b_work st); [intros E; injection E as <-; auto|]. destruct (b_aborted st); [intros E; injection E as <-; auto|discriminate].
    - destruct (b_work st) as [|d w] eqn:W; [intros E; injection E as <-; auto|]. destruct (b_aborted st) eqn:A; [intros E; injection E as <-; auto|].
      apply IH. unfold b_process_desc. destruct (prod_of sg (bd_L d)); [apply bfull_process|]; intros X; discriminate X.
  Qed.
  Lemma bfull_parse fuel st : b_parse sg input mx ord fuel = Some st -> bfull st.
  Proof.
    apply bfull_run. unfold b_init. apply bfull_fold; [intros; apply bfull_add; auto|]. intros X; discriminate X.
  Qed.

  Hypothesis ord_perm : forall t v l, Permutation (ord t v l) l.
  Hypothesis shape : rep_shape sg.
  Hypothesis wf_start : forall nt, nth_error (sg_nts sg) (sg_start sg) = Some nt -> nt_isrep nt = false.

  Lemma bc_run_seen fuel : forall st st', good sg input st -> b_run sg input mx ord fuel st = Some st' -> b_aborted st' = false ->
    length (b_seen st') + length (b_work st) <= bc_run sg input mx ord fuel st + length (b_seen st).
  Proof.
    induction fuel as [|f IH]; intros st st' G; cbn [b_run bc_run].
    - destruct (b_work st); [intros E _; injection E as <-; cbn; lia|]. destruct (b_aborted st) eqn:A; [intros E X; injection E as <-; congruence|discriminate].
    - destruct (b_work st) as [|d w] eqn:W; [intros E _; injection E as <-; cbn; lia|]. destruct (b_aborted st) eqn:A; [intros E X; injection E as <-; congruence|].
      destruct (good_step sg input mx ord ord_perm shape wf_start d w st G W) as (D & G0 & G1 & B). unfold drop in G1, B. rewrite A in G1, B.
      intros E X. specialize (IH _ _ G1 E X). unfold bal in B. cbn [b_work b_seen] in B. cbn [length]. lia.
  Qed.
  Lemma bc_parse_seen fuel st : b_parse sg input mx ord fuel = Some st -> b_aborted st = false ->
    length (b_seen st) <= bc_parse sg input mx ord fuel.
  Proof.
    intros E A. pose proof (bc_run_seen fuel _ _ (good_init sg input shape) E A) as H. rewrite (init_bal sg) in H. unfold bc_parse. lia.
  Qed.
End Bsr.

(** *** The SPPF engine *)
Section Forest.
  Variable sg : slot_grammar.
  Variable input : list Z.
  Variable mx : Z.
  Variable ord : nat -> list nkey -> list nkey.

  Record rel (a b : pstate) : Prop := {
    rl_bal : length (p_work b) + length (p_seen a) = length (p_work a) + length (p_seen b);
    rl_nodes : length (p_nodes a) <= length (p_nodes b);
    rl_full : p_aborted b = true -> p_aborted a = true \/ (0 < mx)%Z /\ (mx <= Z.of_nat (length (p_nodes b)))%Z }.
  Lemma rel_refl a : rel a a. Proof. split; auto. Qed.
  Lemma rel_trans a b c : rel a b -> rel b c -> rel a c.
  Proof.
    intros [A1 A2 A3] [B1 B2 B3]. split; try lia. intros X. apply B3 in X as [X|X]; [|auto]. apply A3 in X as [X|X]; [auto|]. right. lia.
  Qed.
  Lemma rel_add L u i w rc st : rel st (p_add L u i w rc st).
  Proof. unfold p_add. destruct (in_dec _ _ _); [apply rel_refl|]. split; cbn; auto. Qed.
  Lemma rel_find k st : rel st (find_node mx k st).
  Proof.
    unfold find_node. destruct (packs_of k (p_nodes st)); [apply rel_refl|]. split; cbn [p_work p_seen p_nodes p_aborted]; auto.
    - rewrite app_length. lia.
    - rewrite app_length. intros X. apply orb_true_iff in X as [X|X]; auto. right. apply andb_true_iff in X as [X1 X2]. lia.
  Qed.
  Lemma rel_get L w z st : rel st (snd (get_node_p sg mx L w z st)).
  Proof.
    unfold get_node_p. destruct (node_p sg L w z) as [y [pk|]]; [|apply rel_refl]. cbn [snd]. destruct (rel_find y st) as [A1 A2 A3].
    split; cbn [p_work p_seen p_nodes p_aborted]; rewrite ?add_pack_length; auto.
  Qed.
  Lemma rel_fold {A} (f : pstate -> A -> pstate) l : (forall s x, rel s (f s x)) -> forall s, rel s (fold_left f l s).
  Proof. intros H. induction l; cbn [fold_left]; intros s; [apply rel_refl|]. eapply rel_trans; eauto. Qed.
  Lemma rel_resume ret u z w rc i s : rel s (let '(y, s') := get_node_p sg mx ret w z s in p_add ret u i (Some y) rc s').
  Proof. pose proof (rel_get ret w z s) as G. destruct (get_node_p sg mx ret w z s). eapply rel_trans; [exact G|apply rel_add]. Qed.
  Lemma rel_pop u i z st : rel st (p_pop sg mx u i z st).
  Proof.
    unfold p_pop. destruct u; [apply rel_refl|]. destruct (in_dec _ _ _).
    - apply rel_fold. intros. apply rel_resume.
    - eapply rel_trans; [|apply rel_fold; intros; apply rel_resume]. split; cbn; auto.
  Qed.
  Lemma rel_process rest : forall L u i w rc st, rel st (p_process sg input mx ord rest L u i w rc st).
  Proof.
    assert (NS : forall i s st, rel st (note_fail i s st)).
    { intros i s st. unfold note_fail. destruct (if Nat.ltb _ _ then _ else _). split; cbn; auto. }
    assert (TS : forall L w i j st, rel st (snd (get_node_p sg mx (adv L) w (NTerm i j) (find_node mx (NTerm i j) st)))).
    { intros. eapply rel_trans; [apply rel_find|apply rel_get]. }
    induction rest as [|s rest IH]; cbn [p_process]; intros L u i w rc st.
    - destruct w; [apply rel_pop|]. eapply rel_trans; [apply rel_find|apply rel_pop].
    - destruct s.
      + eapply rel_trans; [|apply rel_fold; intros; apply rel_add]. unfold p_create. destruct (in_dec _ _ _); [apply rel_refl|].
        eapply rel_trans; [|apply rel_fold; intros; apply rel_resume]. split; cbn; auto.
      + destruct (match_sym _ _ _) as [j|]; [|apply NS]. specialize (TS L w i j st).
        destruct (get_node_p _ _ _ _ _ _). eapply rel_trans; [exact TS|apply IH].
      + destruct (match_sym _ _ _) as [j|]; [|apply NS]. specialize (TS L w i j st).
        destruct (get_node_p _ _ _ _ _ _). eapply rel_trans; [exact TS|apply IH].
  Qed.
  Lemma rel_desc d st : rel st (p_process_desc sg input mx ord d st).
  Proof. unfold p_process_desc. destruct (prod_of sg (sd_L d)); [apply rel_process|apply rel_refl]. Qed.

  Definition pfull (st : pstate) : Prop := full mx (p_aborted st) (length (p_nodes st)).
  Lemma pfull_run fuel : forall st st', pfull st -> p_run sg input mx ord fuel st = Some st' -> pfull st'.
  Proof.
    induction fuel as [|f IH]; intros st st' H; cbn [p_run].
    - destruct (p_work st); [intros E; injection E as <-; auto|]. destruct (p_aborted st); [intros E; injection E as <-; auto|discriminate].
    - destruct (p_work st) as [|d w] eqn:W; [intros E; injection E as <-; auto|]. destruct (p_aborted st) eqn:A; [intros E; injection E as <-; auto|].
      apply IH. intros X. destruct (rl_full _ _ (rel_desc d _) X) as [Y|Y]; [discriminate Y|exact Y].
  Qed.
  Lemma pinit_rel : rel (mkP [] [] [] [] [] false 0 [] 0) (p_init sg).
  Proof. unfold p_init. apply rel_fold. intros. apply rel_add. Qed.
  Lemma pfull_parse fuel st : p_parse sg input mx ord fuel = Some st -> pfull st.
  Proof. apply pfull_run. intros X. destruct (rl_full _ _ pinit_rel X) as [Y|Y]; [discriminate Y|exact Y]. Qed.

  Lemma pc_run_seen fuel : forall st st', p_run sg input mx ord fuel st = Some st' -> p_aborted st' = false ->
    length (p_seen st') + length (p_work st) <= fst (pc_run sg input mx ord fuel st) + length (p_seen st).
  Proof.
    induction fuel as [|f IH]; intros st st'; cbn [p_run pc_run].
    - destruct (p_work st); [intros E _; injection E as <-; cbn; lia|]. destruct (p_aborted st) eqn:A; [intros E X; injection E as <-; congruence|discriminate].
    - destruct (p_work st) as [|d w] eqn:W; [intros E _; injection E as <-; cbn; lia|]. destruct (p_aborted st) eqn:A; [intros E X; injection E as <-; congruence|].
      intros E X. specialize (IH _ _ E X). pose proof (rl_bal _ _ (rel_desc d (mkP (p_seen st) w (p_edges st) (p_popped st) (p_nodes st) false (p_maxpos st) (p_expected st) (p_tick st)))) as B.
      cbn [p_work p_seen] in B. cbn [fst length]. lia.
  Qed.
  Lemma pc_parse_seen fuel st : p_parse sg input mx ord fuel = Some st -> p_aborted st = false ->
    length (p_seen st) <= fst (pc_parse sg input mx ord fuel).
  Proof.
    intros E A. pose proof (pc_run_seen fuel _ _ E A) as H. pose proof (rl_bal _ _ pinit_rel) as B. cbn [p_work p_seen length] in B.
    unfold pc_parse. cbn [fst]. lia.
  Qed.
End Forest.

(** *** Counting up *)
(** The slotted grammar of a = mn*mx["x"]. *)
Definition sg_counted (mn mx : Z) : slot_grammar :=
  mkSG [mkNT true "a" [[SNonterm 1]] false 0 0;
        mkNT false "" [[SEps]; [SNonterm 2; SNonterm 1]] true mn mx;
        mkNT false "" [[SEps]; [STerm (EChar false [120%Z])]] false 0 0] 0.

Section Counted.
  Variable mn mx : Z.
  Notation sg := (sg_counted mn mx).
  Variable st : bstate.
  Hypothesis HI : BsrProof.I sg [] noex st.
  Hypothesis HJ : J sg st.
  Hypothesis HW : b_work st = [].
  Hypothesis H0 : forall L rc, In (L, rc) (start_slots sg) -> seenp L U0 0 rc st.
  Notation again := (mkSlot 1 1 0).

  Lemma did L u i rc p : seenp L u i rc st -> prod_of sg L = Some p -> done sg [] (skipn (s_dot L) p) L u i rc st.
  Proof. intros S P. destruct (HI _ S) as [[]|[K|K]]; [rewrite HW in K; easy|]. exact (K p P). Qed.

  (** The largest count. *)
  Definition top : Z := if (mx =? inf)%Z then mn else mx.

  Lemma counts c : (0 <= Z.of_nat c < top)%Z -> exists u, seenp again u 0 (Z.of_nat c) st.
  Proof.
    assert (Lp : forall rc, (rc < top)%Z -> ((mx =? inf) || (rc <? mx))%Z%bool = true).
    { intros rc L. unfold top in L. destruct (mx =? inf)%Z; auto. apply Z.ltb_lt. exact L. }
    induction c as [|c IH]; intros L.
    - pose proof (H0 (mkSlot 0 0 0) 0%Z ltac:(cbn; auto)) as A. pose proof (did _ _ _ _ _ A eq_refl) as D. cbn [s_dot skipn done] in D.
      destruct D as [_ D]. eexists. apply D. unfold starts. cbn [nth_error sg_nts sg_counted nt_isrep Nat.eqb s_nt]. unfold rep_alts. cbn [nt_repmin nt_repmax].
      rewrite (Lp 0%Z) by lia. apply in_app_iff. right. left. reflexivity.
    - destruct IH as [u A]; [lia|]. set (rc := Z.of_nat c) in *. pose proof (did _ _ _ _ _ A eq_refl) as D. cbn [s_dot skipn done] in D.
      destruct D as [E1 D]. pose proof (D (mkSlot 2 0 0) 0%Z ltac:(cbn; auto)) as C. pose proof (did _ _ _ _ _ C eq_refl) as D2.
      cbn [s_dot skipn done] in D2. destruct (D2 0 eq_refl) as [_ [X|P]]; [discriminate|].
      destruct (HJ _ _ _ _ _ E1 P) as [S1 _]. pose proof (did _ _ _ _ _ S1 eq_refl) as D3. cbn [adv s_dot s_nt s_alt skipn done] in D3.
      destruct D3 as [_ D3]. eexists. apply D3. unfold starts. cbn [nth_error sg_nts sg_counted nt_isrep Nat.eqb s_nt]. unfold rep_alts, cap_rc. cbn [nt_repmin nt_repmax].
      assert (Cp : (if (mx =? inf) && (mn <? rc + 1) then mn else rc + 1)%Z%bool = Z.of_nat (S c)).
      { unfold top in L. destruct (mx =? inf)%Z; cbn [andb]; [|lia]. destruct (Z.ltb_spec mn (rc + 1)); lia. }
      rewrite Cp, Lp by lia. apply in_app_iff. right. left. reflexivity.
  Qed.
  Lemma counts_len : (top <= Z.of_nat (length (b_seen st)))%Z.
  Proof.
    destruct (Z.le_gt_cases top 0) as [L|L]; [lia|].
    enough (H : Z.to_nat top <= length (b_seen st)) by lia.
    rewrite <- (seq_length (Z.to_nat top) 0), <- (map_length bd_rc), <- (map_length Z.of_nat).
    apply NoDup_incl_length.
    - apply FinFun.Injective_map_NoDup; [intros a b; apply Nat2Z.inj|apply seq_NoDup].
    - intros z I. apply in_map_iff in I as (c & <- & I). apply in_seq in I. destruct (counts c ltac:(lia)) as [u S].
      apply in_map_iff. exists (mkBD again u 0 (Z.of_nat c)). split; auto.
  Qed.
End Counted.
