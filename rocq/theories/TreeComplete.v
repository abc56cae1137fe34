(** Every derivation is an unfolding of the forest.
    Its definitions are means of proof and model no code. *)
From Coq Require Import ZArith String Bool List Lia.
From Verif Require Import Syntax Spec Utf8 Num Term Printer Slots PropTerm Gll GllUniv Bsr BsrProof BsrTerm
  LowerProof LowerLang Sppf SppfProof TreeSpec Tree TreeProof TreeSound.
Import ListNotations.
Local Open Scope Z_scope.

(** ** Derivations of a slot grammar with their trees (compare [Gll.drest]) *)
Inductive dt (sg : slot_grammar) (input : list Z) : slot -> Z -> nat -> nat -> list ptree -> Prop :=
| dt_end L rc i p : prod_of sg L = Some p -> s_dot L = length p -> dt sg input L rc i i []
| dt_term L rc i k j p s ts : prod_of sg L = Some p -> nth_error p (s_dot L) = Some s ->
    match_sym s input i = Some k -> dt sg input (adv L) rc k j ts -> dt sg input L rc i j (leaf i k ++ ts)
| dt_nt L rc i k j p X L' rc' ts1 ts2 : prod_of sg L = Some p -> nth_error p (s_dot L) = Some (SNonterm X) ->
    In (L', rc') (starts sg (s_nt L) rc X) ->
    dt sg input L' rc' i k ts1 -> dt sg input (adv L) rc k j ts2 ->
    dt sg input L rc i j (wrap sg (NSym X i k) ts1 ++ ts2).

(** *** In a closed state they are unfoldings *)
Section Closed.
  Variable sg : slot_grammar.
  Variable input : list Z.
  Variable nodes : ntable.
  Variable st : bstate.
  Hypothesis wf_nonempty : forall L p, prod_of sg L = Some p -> p <> [].
  Hypothesis T : tbl sg nodes (b_set st).
  Hypothesis HI : I sg input noex st.
  Hypothesis HJ : J sg st.
  Hypothesis HW : b_work st = [].
  Hypothesis NA : b_aborted st = false.

  Notation ft := (ft sg nodes).
  Notation wrap := (wrap sg).

  (* what lies before the dot of L shows ts *)
  Definition ftw (L : slot) (l i : nat) (ts : list ptree) : Prop :=
    (s_dot L = 0%nat /\ i = l /\ ts = []) \/
    exists p w t, prod_of sg L = Some p /\ wof sg L l i = Some w /\ s_dot L <> 0%nat /\ ft w t /\
      ts = if Nat.eqb (s_dot L) (length p) then t else wrap w t.

  Lemma ftw_step L p x l i k ts t : prod_of sg L = Some p -> nth_error p (s_dot L) = Some x ->
    recd sg (adv L) l i k st -> ftw L l i ts -> ft (symnode x i k) t -> ftw (adv L) l k (ts ++ wrap (symnode x i k) t).
  Proof.
    intros P N Rc W F. assert (Lt : (s_dot L < length p)%nat) by (apply nth_error_Some; congruence).
    assert (P' : prod_of sg (adv L) = Some p) by exact P.
    destruct Rc as [?|[Ie|Rc]]; [congruence| |].
    - (* recorded *)
      destruct (t_to _ _ _ T _ Ie) as (ps & Q & Ip).
      unfold ekey in Q. cbn [be_slot be_l be_r] in Q. rewrite P' in Q.
      unfold epack in Ip. cbn [be_slot be_l be_r be_k] in Ip. rewrite P' in Ip. cbn [adv s_dot pred] in Ip. rewrite N in Ip.
      change (mkSlot (s_nt L) (s_alt L) (S (s_dot L))) with (adv L) in Ip. rewrite pre_adv in Ip.
      set (y := if (s_dot (adv L) =? length p)%nat then NSym (s_nt (adv L)) l k else NInter (adv L) l k) in *.
      assert (Y : ft y (ts ++ wrap (symnode x i k) t)).
      { destruct W as [(Z & -> & ->)|(p0 & w & t0 & P0 & Wo & Nz & F0 & ->)].
        - unfold wof in Ip. rewrite P, Z in Ip. cbn [app]. apply ft_one; auto. unfold packs. rewrite Q. auto.
        - rewrite P in P0. inversion P0; subst p0. rewrite Wo in Ip.
          destruct (Nat.eqb_spec (s_dot L) (length p)); [lia|].
          apply ft_two; auto. unfold packs. rewrite Q. auto. }
      right. exists p, y, (ts ++ wrap (symnode x i k) t)%list. split; auto. split; [|split; [discriminate|split; auto]].
      + unfold wof. rewrite P'. subst y. cbn [adv s_dot s_nt]. destruct (Nat.eqb_spec (S (s_dot L)) (length p)); auto.
        destruct (s_dot L) as [|d] eqn:D; auto. exfalso.
        assert (Rc : recorded sg (adv L) = true) by (destruct (t_rec _ _ _ T _ Ie) as (? & ? & ? & _ & _ & _ & _ & Rc); exact Rc).
        unfold recorded in Rc. rewrite P' in Rc. cbn [adv s_dot] in Rc. rewrite D in Rc.
        destruct (Nat.eqb_spec 1 (length p)); [congruence|discriminate].
      + subst y. cbn [adv s_dot]. destruct (Nat.eqb _ _); reflexivity.
    - (* the first of several symbols *)
      destruct (Rc p P') as [R1 R2]. cbn [adv s_dot] in R1, R2. assert (Z : s_dot L = 0%nat) by lia.
      destruct W as [(_ & -> & ->)|(p0 & w & t0 & P0 & Wo & Nz & F0 & ->)]; [|congruence].
      right. exists p, (symnode x l k), t. split; auto. split; [|split; [discriminate|split; auto]].
      + unfold wof. rewrite P'. cbn [adv s_dot]. rewrite Z in *. destruct (Nat.eqb_spec 1 (length p)); [congruence|].
        rewrite N. auto.
      + cbn [adv s_dot]. destruct (Nat.eqb_spec (S (s_dot L)) (length p)); [congruence|]. reflexivity.
  Qed.

  Lemma seen_done L u i rc p : seenp L u i rc st -> prod_of sg L = Some p ->
    done sg input (skipn (s_dot L) p) L u i rc st.
  Proof. intros S P. destruct (HI _ S) as [[]|[K|K]]; [rewrite HW in K; easy|]. apply K, P. Qed.

  Lemma skipn_sym L (p : list ssym) s : nth_error p (s_dot L) = Some s ->
    skipn (s_dot L) p = s :: skipn (s_dot (adv L)) p.
  Proof. intros N. cbn [adv s_dot]. apply skipn_nth. auto. Qed.

  Lemma dt_ft L rc i j ts : dt sg input L rc i j ts -> forall p u ts0, prod_of sg L = Some p ->
    done sg input (skipn (s_dot L) p) L u i rc st -> ftw L (g_pos u) i ts0 ->
    (u = U0 \/ In (u, j) (b_popped st)) /\ ft (NSym (s_nt L) (g_pos u) j) (ts0 ++ ts).
  Proof.
    induction 1 as [L rc i p E1 E2|L rc i k j p s ts E1 N M D IH|L rc i k j p X L' rc' ts1 ts2 E1 N S D1 IH1 D2 IH2];
      intros p0 u ts0 P Dn W; rewrite E1 in P; inversion P; subst p0.
    - rewrite E2, skipn_all in Dn. cbn in Dn. split; auto. rewrite app_nil_r.
      destruct W as [(Z & _ & _)|(p0 & w & t0 & P0 & Wo & Nz & F0 & ->)].
      { exfalso. apply (wf_nonempty _ _ E1). destruct p; auto. cbn in E2. lia. }
      rewrite E1 in P0. inversion P0; subst p0. rewrite E2, Nat.eqb_refl.
      unfold wof in Wo. rewrite E1 in Wo. destruct (s_dot L) as [|d] eqn:Z; [easy|].
      rewrite (proj2 (Nat.eqb_eq _ _) E2) in Wo. inversion Wo; subst w. auto.
    - rewrite (skipn_sym _ _ _ N) in Dn.
      assert (R : recd sg (adv L) (g_pos u) i k st /\ done sg input (skipn (s_dot (adv L)) p) (adv L) u k rc st).
      { destruct s; cbn in M; [discriminate| |]; cbn [done] in Dn; apply Dn; auto. }
      destruct R as [R1 R2].
      assert (F : ftw (adv L) (g_pos u) k (ts0 ++ leaf i k)).
      { change (leaf i k) with (wrap (NTerm i k) (leaf i k)).
        assert (En : symnode s i k = NTerm i k) by (destruct s; [discriminate|reflexivity..]).
        rewrite <- En at 1. eapply ftw_step; eauto. rewrite En. apply ft_term. }
      destruct (IH p u _ E1 R2 F) as [A B]. split; auto. rewrite app_assoc. exact B.
    - rewrite (skipn_sym _ _ _ N) in Dn. cbn [done] in Dn. destruct Dn as [Dn1 Dn2].
      specialize (Dn2 _ _ S). destruct (starts_dot0 _ _ _ _ _ _ S) as [Ed En].
      assert (exists p', prod_of sg L' = Some p') as [p' P'] by (inversion D1; eauto).
      destruct (IH1 p' _ [] P' (seen_done _ _ _ _ _ Dn2 P')) as [[A|A] F]; [left; auto|discriminate|].
      rewrite En in F. cbn [g_pos app] in F.
      destruct (HJ _ _ _ _ _ Dn1 A) as [A1 A2].
      assert (F' : ftw (adv L) (g_pos u) k (ts0 ++ wrap (NSym X i k) ts1)).
      { apply (ftw_step L p (SNonterm X) (g_pos u) i k ts0 ts1); auto. }
      destruct (IH2 p u _ E1 (seen_done _ _ _ _ _ A1 E1) F') as [B C]. split; auto. rewrite app_assoc. exact C.
  Qed.

  Lemma start_ft L rc j ts : In (L, rc) (start_slots sg) -> seenp L U0 0 rc st -> dt sg input L rc 0 j ts ->
    ft (NSym (sg_start sg) 0 j) ts.
  Proof.
    intros S Se D. destruct (start_dot0 _ _ _ S) as (E1 & E2 & _).
    assert (exists p, prod_of sg L = Some p) as [p P] by (inversion D; eauto).
    destruct (dt_ft _ _ _ _ _ D p U0 [] P (seen_done _ _ _ _ _ Se P)) as [_ F]; [left; auto|].
    rewrite E2 in F. exact F.
  Qed.
End Closed.

(** ** Derivations of the grammar are derivations of the slot grammar *)
Lemma resolves_to_fun g m r r' : distinct_names g -> resolves_to g m r -> resolves_to g m r' -> r = r'.
Proof.
  intros Dn [[A1 A2]|(A0 & A1 & A2)] [[B1 B2]|(B0 & B1 & B2)].
  - apply (find_unique m g); auto.
  - exfalso. eapply B0; eauto.
  - exfalso. eapply A0; eauto.
  - apply (find_unique m core_rules); auto. apply core_distinct.
Qed.
Lemma resolves_to_resolves g m r : resolves_to g m r -> resolves g m (rule_alt r).
Proof. intros [[A1 A2]|(A0 & A1 & A2)]; [left|right; split; auto]; exists r; auto. Qed.

Section FromGrammar.
  Variable g : grammar.
  Variable root : string.
  Variable sg : slot_grammar.
  Variable idx : list (string * nat).
  Variable input : list Z.
  Hypothesis wf : wf_grammar g.
  Hypothesis pinj : print_inj g.
  Hypothesis RP : represents g root sg idx.

  Notation n := (length input).
  Notation dt := (dt sg input).

  Lemma resolves_to_get m r : resolves_to g m r -> get_rule m g = Some r.
  Proof.
    intros Rs. destruct (resolves_get g wf m (rule_alt r)) as (r' & G & _); [apply resolves_to_resolves; auto|].
    rewrite G. f_equal. eapply resolves_to_fun; [apply wf| |eauto]. apply get_rule_to; auto.
  Qed.

  Definition symt (c : nat) (rc : Z) (s : ssym) (i j : nat) (ts : list ptree) : Prop :=
    (match_sym s input i = Some j /\ ts = leaf i j) \/
    exists X L' rc' t, s = SNonterm X /\ In (L', rc') (starts sg c rc X) /\ dt L' rc' i j t /\ ts = wrap sg (NSym X i j) t.

  Lemma symt_dt L p s rc i k j ts1 ts2 : prod_of sg L = Some p -> nth_error p (s_dot L) = Some s ->
    symt (s_nt L) rc s i k ts1 -> dt (adv L) rc k j ts2 -> dt L rc i j (ts1 ++ ts2).
  Proof.
    intros P N [[M ->]|(X & L' & rc' & t & -> & S & D & ->)] R; [eapply dt_term|eapply dt_nt]; eauto.
  Qed.

  Definition cat_goalt (c : concatenation) (i j : nat) (ts : list ptree) : Prop :=
    forall L p, prod_of sg L = Some p -> cat_sym idx c p -> s_dot L = 0%nat -> plain sg (s_nt L) -> dt L 0 i j ts.

  (* an alternate of a plain item gives a derivation from its nonterminal *)
  Lemma item_alt_symt it X alt c i j c0 rc0 ts : assoc (key_of it) idx = Some X -> occ_item g it ->
    item_alt g it alt c -> cat_goalt c i j ts -> symt c0 rc0 (SNonterm X) i j (wrap sg (NSym X i j) ts).
  Proof.
    intros A Oc Ia G. destruct (rp_complete _ _ _ _ pinj RP it X Oc A) as (nt & N & M).
    assert (B : nt_isrep nt = false /\ exists p, nth_error (nt_alts nt) alt = Some p /\ cat_sym idx c p).
    { destruct it as [m|a|a|r]; cbn in M, Ia.
      - destruct Ia as (r & E & Nr). rewrite E in M. destruct M as [M1 M2]. split; [apply M1|].
        eapply Forall2_nth'; eauto.
      - destruct M as [M1 M2]. split; [apply M1|]. eapply Forall2_nth'; eauto.
      - destruct M as (M1 & alts & M2 & M3). split; [apply M1|]. destruct Ia as (k & -> & Nr). rewrite M2. cbn.
        eapply Forall2_nth'; eauto.
      - easy. }
    destruct B as (R & p & Np & Cs). right. exists X, (mkSlot X alt 0), 0, ts. split; auto. split.
    - eapply plain_starts; eauto.
    - split; auto. apply G with (p := p); auto.
      + unfold prod_of. cbn. rewrite N. auto.
      + exists nt. auto.
  Qed.

  Definition We (e : elem) (i j : nat) (ts : list ptree) : Prop := occ_elem g e -> forall s c rc,
    elem_sym idx e s -> symt c rc s i j ts.
  Definition Wa (a : alternation) (i j : nat) (ts : list ptree) : Prop := (forall c x, In c a -> In x c -> occ_rep g x) ->
    exists k c, nth_error a k = Some c /\ cat_goalt c i j ts.
  Definition Wc (c : concatenation) (i j : nat) (ts : list ptree) : Prop := (forall x, In x c -> occ_rep g x) ->
    forall c1 L p, prod_of sg L = Some p -> cat_sym idx (c1 ++ c) p -> c1 ++ c <> [] ->
      s_dot L = length c1 -> plain sg (s_nt L) -> dt L 0 i j ts.
  Definition Wr (r : rep) (i j : nat) (ts : list ptree) : Prop := occ_rep g r -> forall s c, rep_sym idx r s -> plain sg c ->
    symt c 0 s i j ts.
  Definition Wp (e : elem) (m i j : nat) (ts : list ptree) : Prop := (m = 1%nat -> We e i j ts) /\ (occ_elem g e -> forall mn mx X es rc,
    nth_error (sg_nts sg) X = Some (mkNT false "" [[SEps]; [es; SNonterm X]] true mn mx) ->
    elem_sym idx e es -> mn <= rc + Z.of_nat m -> (mx = inf \/ rc + Z.of_nat m <= mx) ->
    exists L', In (L', rc) (rep_alts (mkNT false "" [[SEps]; [es; SNonterm X]] true mn mx) X rc) /\
      dt L' rc i j ts).

  Lemma wrap_rep X i j ts es mn mx b : nth_error (sg_nts sg) X = Some (mkNT false "" es b mn mx) ->
    wrap sg (NSym X i j) ts = ts.
  Proof. intros N. unfold wrap, rule_of. rewrite N. reflexivity. Qed.

  Lemma wrap_item it X i j ts : assoc (key_of it) idx = Some X -> occ_item g it -> (forall m, it <> IRule m) ->
    wrap sg (NSym X i j) ts = ts.
  Proof.
    intros A Oc Nr. unfold wrap. rewrite (rule_of_item g root sg idx pinj RP it X i j A Oc).
    destruct it; auto. exfalso. eapply Nr; eauto.
  Qed.

  Lemma d_dt : (forall e i j ts, d_elem g input within e i j ts -> We e i j ts) /\
    (forall a i j ts, d_alt g input within a i j ts -> Wa a i j ts) /\
    (forall c i j ts, d_cat g input within c i j ts -> Wc c i j ts) /\
    (forall r i j ts, d_rep g input within r i j ts -> Wr r i j ts) /\
    (forall e m i j ts, d_pow g input within e m i j ts -> Wp e m i j ts).
  Proof.
    apply (d_mut g input within).
    - (* rule *)
      intros m r i j ts Rs Ha IH Oe s c rc (id & -> & A).
      pose proof (resolves_to_get _ _ Rs) as G.
      destruct IH as (k & c0 & N & Cg).
      { intros c0 x H1 H2. eapply occ_rep_rule; eauto. eapply get_rule_in_list; eauto. }
      replace [PT (rule_name r) i j ts] with (wrap sg (NSym id i j) ts).
      + apply (item_alt_symt (IRule m) id k c0); auto; [exact Logic.I|]. exists r. auto.
      + unfold wrap. rewrite (rule_of_item g root sg idx pinj RP (IRule m) id i j A Logic.I), G. reflexivity.
    - (* group *)
      intros a i j ts Ha IH Oe s c rc (id & -> & A).
      destruct IH as (k & c0 & N & Cg).
      { intros c0 x H1 H2. eapply occ_rep_group; eauto. }
      rewrite <- (wrap_item (IGrp a) id i j ts A Oe ltac:(discriminate)).
      apply (item_alt_symt (IGrp a) id k c0); auto.
    - (* option, absent *)
      intros a i Hi Oe s c rc (id & -> & A).
      destruct (rp_complete _ _ _ _ pinj RP (IOpt a) id Oe A) as (nt & N & [R _] & alts & E & _).
      rewrite <- (wrap_item (IOpt a) id i i [] A Oe ltac:(discriminate)).
      right. exists id, (mkSlot id 0 0), 0, []. split; auto.
      assert (P : prod_of sg (mkSlot id 0 0) = Some [SEps]) by (unfold prod_of; cbn; rewrite N, E; reflexivity).
      split; [eapply plain_starts; eauto; rewrite E; reflexivity|]. split; auto.
      rewrite <- (leaf_nil i). rewrite <- (app_nil_r (leaf i i)).
      eapply dt_term; [exact P|reflexivity|reflexivity|]. eapply dt_end; [exact P|reflexivity].
    - (* option, present *)
      intros a i j ts Ha IH Oe s c rc (id & -> & A).
      destruct IH as (k & c0 & N & Cg).
      { intros c0 x H1 H2. eapply occ_rep_option; eauto. }
      rewrite <- (wrap_item (IOpt a) id i j ts A Oe ltac:(discriminate)).
      apply (item_alt_symt (IOpt a) id (S k) c0); auto. exists k. auto.
    - (* terminal *)
      intros e i j w Te He Sp Oe s c rc Es. left.
      assert (It : is_terminal e = true) by (destruct e; cbn in Te; easy).
      assert (s = STerm e) by (destruct e; try discriminate; exact Es). subst s. split; auto. cbn.
      pose proof (span_le _ _ _ _ Sp). apply (match_term_spec g e It (proj1 (wf_occ g wf) e Oe)); [lia|].
      exists w. auto.
    - (* alternation *)
      intros c a i j ts Hc Ic IH Oc. apply In_nth_error in Hc as [k N]. exists k, c. split; auto.
      intros L p P Cs Ed Pl. destruct c as [|r c].
      + inversion Ic; subst. destruct Cs as (seq & F & ->). inversion F; subst. cbn in P.
        rewrite <- (leaf_nil j). rewrite <- (app_nil_r (leaf j j)).
        eapply dt_term; [exact P|rewrite Ed; reflexivity|reflexivity|]. eapply dt_end; [exact P|].
        cbn. rewrite Ed. reflexivity.
      + apply (IH (fun x h => Oc (r :: c) x (nth_error_In _ _ N) h) [] L p); auto. discriminate.
    - (* empty concatenation *)
      intros i Hi Oc c1 L p P Cs Ne Ed Pl. rewrite app_nil_r in *.
      eapply dt_end; eauto. destruct Cs as (seq & F & ->). pose proof (Forall2_len _ _ _ F) as Hl.
      destruct seq; cbn in *; [destruct c1; [congruence|discriminate]|lia].
    - (* concatenation *)
      intros r c i k j ts1 ts2 Hr IHr Hc IHc Oc c1 L p P Cs Ne Ed Pl.
      assert (N : exists s, nth_error p (s_dot L) = Some s /\ rep_sym idx r s).
      { destruct Cs as (seq & F & ->). pose proof (Forall2_len _ _ _ F) as Hl. rewrite app_length in Hl. cbn in Hl.
        destruct seq; [cbn in Hl; lia|]. cbn [nonempty_seq]. eapply Forall2_nth'; eauto. rewrite Ed.
        rewrite nth_error_app2, Nat.sub_diag by lia. reflexivity. }
      destruct N as (s & N & Rs).
      eapply symt_dt; eauto.
      + eapply IHr; eauto. apply Oc. left; auto.
      + apply (IHc (fun x h => Oc x (or_intror h)) (c1 ++ [r]) (adv L) p); auto.
        * rewrite <- app_assoc. auto.
        * destruct c1; discriminate.
        * cbn. rewrite Ed, app_length. cbn. lia.
    - (* repetition *)
      intros mn mx e m i j ts [B1 B2] Hp IH Oc s c Rs Pl. cbn [rep_min rep_max] in B1, B2.
      assert (Oe : occ_elem g e) by (econstructor; exact Oc).
      destruct Rs as [(E1 & E2 & Es)|(NE & id & -> & A)]; cbn [rep_min rep_max rep_elem] in *.
      + subst mn mx. unfold inf in B2. assert (m = 1%nat) by lia. subst m.
        exact (proj1 IH eq_refl Oe _ _ _ Es).
      + destruct (rp_complete _ _ _ _ pinj RP (IRep (Rep mn mx e)) id (conj Oc NE) A) as (nt & N & M). cbn [nt_matches] in M.
        destruct M as [(Bm & Bx & _)|(B & es & Es & ->)]; [exfalso; destruct B2; [easy|lia]|].
        destruct (proj2 IH Oe mn mx id es 0 N Es) as (L' & I1 & D); [lia|destruct B2; auto|].
        right. exists id, L', 0, ts. split; auto. split.
        * unfold starts. rewrite N. cbn [nt_isrep].
          destruct (Nat.eqb_spec id c) as [->|]; auto. destruct Pl as (nt & Pl & R). rewrite N in Pl. inversion Pl; subst; discriminate.
        * split; auto. symmetry. eapply wrap_rep; eauto.
    - (* zero times *)
      intros e i Hi. split; [discriminate|]. intros Oe mn mx X es rc N Es B1 B2.
      exists (mkSlot X 0 0). split.
      + unfold rep_alts. cbn [nt_repmin nt_repmax]. apply in_or_app. left.
        destruct (Z.leb_spec mn rc); [left; auto|lia].
      + assert (P : prod_of sg (mkSlot X 0 0) = Some [SEps]) by (unfold prod_of; cbn; rewrite N; reflexivity).
        rewrite <- (leaf_nil i). rewrite <- (app_nil_r (leaf i i)).
        eapply dt_term; [exact P|reflexivity|reflexivity|]. eapply dt_end; [exact P|reflexivity].
    - (* once more *)
      intros e m i k j ts1 ts2 He IHe Hp IHp. split.
      { intros E. inversion E; subst m. inversion Hp; subst. rewrite app_nil_r. exact IHe. }
      intros Oe mn mx X es rc N Es B1 B2.
      pose (nt := mkNT false "" [[SEps]; [es; SNonterm X]] true mn mx).
      assert (P : prod_of sg (mkSlot X 1 0) = Some [es; SNonterm X]) by (unfold prod_of; cbn; rewrite N; reflexivity).
      destruct (proj2 IHp Oe mn mx X es (cap_rc rc nt) N Es) as (L' & I1 & D).
      { unfold cap_rc, nt; cbn [nt_repmin nt_repmax].
        destruct (Z.eqb_spec mx inf); cbn [andb]; [destruct (Z.ltb_spec mn (rc + 1))|]; lia. }
      { destruct (Z.eq_dec mx inf) as [->|Ne]; auto. right. unfold cap_rc, nt; cbn [nt_repmin nt_repmax].
        rewrite (proj2 (Z.eqb_neq _ _) Ne). cbn [andb]. destruct B2; [easy|lia]. }
      exists (mkSlot X 1 0). split.
      + unfold rep_alts. cbn [nt_repmin nt_repmax]. apply in_or_app. right.
        destruct (Z.eqb_spec mx inf); cbn [orb]; [left; auto|].
        destruct (Z.ltb_spec rc mx); [left; auto|]. destruct B2; [easy|lia].
      + eapply symt_dt; [exact P|reflexivity|eapply (IHe Oe); eauto|].
        rewrite <- (wrap_rep X k j ts2 _ _ _ _ N). rewrite <- (app_nil_r (wrap sg (NSym X k j) ts2)).
        eapply dt_nt; [exact P|reflexivity| |exact D|].
        * unfold starts. cbn [adv s_nt]. rewrite N. cbn [nt_isrep]. rewrite Nat.eqb_refl. exact I1.
        * eapply dt_end; [exact P|reflexivity].
  Qed.

  Lemma derivation_dt t : Derivation g root input t -> exists r ts L rc, t = PT (rule_name r) 0 n ts /\
    get_rule root g = Some r /\ In (L, rc) (start_slots sg) /\ dt L rc 0 n ts.
  Proof.
    intros H. inversion H as [m r i j ts Rs Ha| | | |e i j w Te]; subst; [|destruct Te].
    pose proof (resolves_to_get _ _ Rs) as G. destruct d_dt as (_ & W & _).
    destruct (W _ _ _ _ Ha) as (k & c0 & Nk & Cg).
    { intros c0 x H1 H2. eapply occ_rep_rule; eauto. eapply get_rule_in_list; eauto. }
    destruct (rp_complete _ _ _ _ pinj RP (IRule root) _ Logic.I (rp_start _ _ _ _ RP)) as (nt & N & M).
    cbn [nt_matches] in M. rewrite G in M. destruct M as [(Rp & _ & _) M].
    destruct (Forall2_nth' _ _ _ _ _ M Nk) as (p & Np & Cs).
    exists r, ts, (mkSlot (sg_start sg) k 0), 0. split; auto. split; auto. split.
    - unfold start_slots. rewrite N. apply in_map_iff. exists k. split; auto. apply in_seq.
      assert (nth_error (nt_alts nt) k <> None) as Q by congruence. apply nth_error_Some in Q. lia.
    - apply Cg with (p := p); auto.
      + unfold prod_of. cbn. rewrite N. auto.
      + exists nt. auto.
  Qed.
End FromGrammar.
