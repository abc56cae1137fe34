(** Every unfolding of a forest is a derivation up to the number of occurrences
    shown for its repetitions.
    Its definitions are means of proof and model no code. *)
From Coq Require Import ZArith String Bool List Lia.
From Verif Require Import Syntax Spec Utf8 Num Term Printer Slots PropTerm Gll GllUniv Bsr BsrProof BsrTerm
  LowerProof LowerLang Sppf SppfProof TreeSpec Tree TreeProof.
Import ListNotations.
Local Open Scope Z_scope.

Lemma get_rule_to n g r : get_rule n g = Some r -> resolves_to g n r.
Proof.
  unfold get_rule, get_rule_core, get_rule_in. destruct (find _ g) as [r'|] eqn:F.
  - intros H; inversion H; subst. apply find_some in F as [A B]. apply equal_fold_iff in B. left. auto.
  - intros F2. apply find_some in F2 as [A B]. apply equal_fold_iff in B. right. split; auto.
    intros r' I S. apply equal_fold_iff in S. pose proof (find_none _ _ F r' I). cbn in H. congruence.
Qed.

Lemma leaf_nil i : leaf i i = [].
Proof. unfold leaf. rewrite Nat.ltb_irrefl. reflexivity. Qed.
Lemma wrap_leaf_nil sg i : wrap sg (NTerm i i) (leaf i i) = [].
Proof. apply leaf_nil. Qed.

Section Derive.
  Variable g : grammar.
  Variable input : list Z.
  Variable ok : rep -> nat -> nat -> nat -> Prop.
  Lemma d_cat_app c1 c2 i k j ts1 ts2 : d_cat g input ok c1 i k ts1 -> d_cat g input ok c2 k j ts2 ->
    d_cat g input ok (c1 ++ c2) i j (ts1 ++ ts2).
  Proof.
    intros A B. revert i k ts1 A B. induction c1 as [|r c1 IH]; intros i k ts1 A B; inversion A; subst; auto.
    cbn [app]. rewrite <- app_assoc. econstructor; eauto.
  Qed.
  Lemma d_bounds :
    (forall e i j ts, d_elem g input ok e i j ts -> (i <= j <= length input)%nat) /\
    (forall a i j ts, d_alt g input ok a i j ts -> (i <= j <= length input)%nat) /\
    (forall c i j ts, d_cat g input ok c i j ts -> (i <= j <= length input)%nat) /\
    (forall r i j ts, d_rep g input ok r i j ts -> (i <= j <= length input)%nat) /\
    (forall e n i j ts, d_pow g input ok e n i j ts -> (i <= j <= length input)%nat).
  Proof. apply (d_mut g input ok); intros; try lia. eapply span_le; eauto. Qed.
  Lemma d_pow_one e i j ts : d_elem g input ok e i j ts -> d_pow g input ok e 1 i j ts.
  Proof.
    intros H. rewrite <- (app_nil_r ts). econstructor; eauto. constructor. apply d_bounds in H. lia.
  Qed.
End Derive.

Section Sound.
  Variable g : grammar.
  Variable root : string.
  Variable sg : slot_grammar.
  Variable idx : list (string * nat).
  Variable input : list Z.
  Hypothesis wf : wf_grammar g.
  Hypothesis pinj : print_inj g.
  Hypothesis RP : represents g root sg idx.
  Variable nodes : ntable.
  Variable set : list belem.
  Hypothesis T : tbl sg nodes set.
  Hypothesis OK : forall e, In e set -> ok_elem sg input e.

  Notation loose := (spans_word g input).
  Notation wrap := (wrap sg).
  Notation n := (length input).

  (** A pack, seen from the slot it completes. *)
  Definition is_pack (k : nkey) (pk : list nkey) (L : slot) (p : list ssym) (x : ssym) (l m r : nat) (rc : Z) : Prop :=
    prod_of sg L = Some p /\ nth_error p (s_dot L) = Some x /\
    ((S (s_dot L) = length p /\ k = NSym (s_nt L) l r) \/
     (S (s_dot L) < length p /\ 1 <= s_dot L /\ k = NInter (adv L) l r))%nat /\
    pk = (match wof sg L l m with Some w => [w] | None => [] end ++ [symnode x m r])%list /\
    dpre sg input L rc l m /\ symder sg input L rc m r /\ (l <= m <= n)%nat.

  Lemma elem_pack e : In e set -> exists L p x rc, be_slot e = adv L /\ is_pack (ekey sg e) (epack sg e) L p x (be_l e) (be_k e) (be_r e) rc.
  Proof.
    intros Ie. remember (ekey sg e) as k eqn:Ek. symmetry in Ek. remember (epack sg e) as pk eqn:Ep. symmetry in Ep.
    destruct (t_rec _ _ _ T e Ie) as (L & p & x & Es & P & N & Z & Rc).
    destruct (OK e Ie) as (L' & u & rc & Es' & El & O & Sy & _).
    assert (L' = L) by (rewrite Es in Es'; destruct L, L'; inversion Es'; auto). subst L'.
    exists L, p, x, rc. split; [exact Es|]. split; auto. split; auto.
    assert (Lt : (s_dot L < length p)%nat) by (apply nth_error_Some; congruence).
    split; [|split; [|split; [|split]]].
    - unfold ekey in Ek. rewrite Es in Ek. change (prod_of sg (adv L)) with (prod_of sg L) in Ek. rewrite P in Ek.
      unfold recorded in Rc. rewrite Es in Rc. change (prod_of sg (adv L)) with (prod_of sg L) in Rc. rewrite P in Rc.
      cbn [adv s_dot] in Ek, Rc. destruct (Nat.eqb_spec (S (s_dot L)) (length p)) as [Eq|Ne]; [left; auto|right].
      rewrite orb_false_r in Rc. apply Nat.leb_le in Rc. split; [lia|]. split; [lia|]. auto.
    - unfold epack in Ep. rewrite Es in Ep. change (prod_of sg (adv L)) with (prod_of sg L) in Ep. rewrite P in Ep.
      cbn [adv s_dot pred] in Ep. rewrite N in Ep. change (mkSlot (s_nt L) (s_alt L) (S (s_dot L))) with (adv L) in Ep.
      rewrite pre_adv in Ep. rewrite <- Ep. destruct (wof sg L (be_l e) (be_k e)); reflexivity.
    - rewrite El. apply O.
    - auto.
    - rewrite El. apply O.
  Qed.
  Lemma pack_inv k pk : In pk (packs nodes k) -> exists L p x l m r rc, is_pack k pk L p x l m r rc.
  Proof.
    unfold packs. destruct (packs_of k nodes) as [ps|] eqn:E; [|easy]. intros I.
    destruct (t_from _ _ _ T _ _ _ E I) as (e & Ie & <- & <-). destruct (elem_pack e Ie) as (L & p & x & rc & _ & H). exists L, p, x, (be_l e), (be_k e), (be_r e), rc. exact H.
  Qed.

  Lemma pack_shape_ok : pack_shape nodes.
  Proof.
    intros k pk I. destruct (pack_inv k pk I) as (L & p & x & l & m & r & rc & H).
    destruct H as (_ & _ & _ & -> & _). destruct (wof sg L l m); cbn; eauto.
  Qed.
  Lemma term_packs_ok : term_packs nodes.
  Proof.
    intros s e. destruct (packs nodes (NTerm s e)) as [|pk ps] eqn:E; auto.
    destruct (pack_inv (NTerm s e) pk) as (L & p & x & l & m & r & rc & H); [rewrite E; left; auto|].
    destruct H as (_ & _ & [[_ H]|(_ & _ & H)] & _); discriminate.
  Qed.
  Lemma full_ok : full nodes.
  Proof. intros k ps H. eapply t_full; eauto. Qed.
  Lemma closed_ok : closed nodes.
  Proof.
    intros k pk c. unfold packs. destruct (packs_of k nodes) eqn:E; [|easy]. intros. eapply t_child; eauto.
  Qed.
  Lemma nodup_ok k : NoDup (packs nodes k).
  Proof. unfold packs. destruct (packs_of k nodes) eqn:E; [|constructor]. eapply t_nodup; eauto. Qed.

  (** *** Symbols *)
  Lemma symder_inv L p x rc i j : prod_of sg L = Some p -> nth_error p (s_dot L) = Some x ->
    symder sg input L rc i j -> symd sg input (s_nt L) rc x i j.
  Proof.
    intros P N (p' & s & P' & N' & H). rewrite P in P'. inversion P'; subst p'. rewrite N in N'. inversion N'; subst s. exact H.
  Qed.

  Lemma symd_term c rc t i j : is_terminal t = true -> occ_elem g t -> (i <= n)%nat ->
    symd sg input c rc (STerm t) i j -> exists w, in_elem g t w /\ span input i j w.
  Proof.
    intros It Oe Hi [M|(X & L' & rc' & E & _)]; [|discriminate]. cbn in M.
    apply (match_term_spec g t It (proj1 (wf_occ g wf) t Oe)) in M; auto.
  Qed.

  Lemma symd_lang r x c rc i j : occ_rep g r -> rep_sym idx r x -> plain sg c -> (i <= n)%nat ->
    symd sg input c rc x i j -> exists w, span input i j w /\ in_rep g r w.
  Proof.
    intros Oc Rs Pl Hi H. destruct x as [X|t|].
    - destruct H as [M|(X' & L' & rc' & E & S & D)]; [discriminate|]. inversion E; subst X'.
      destruct (rep_sym_nt g idx r X Oc Rs) as (it & A & Oi & LG).
      destruct (drest_lang g root sg idx input wf pinj RP _ _ _ _ D Hi) as (w & Sp & W).
      pose proof (starts_dot0 _ _ _ _ _ _ S) as [Ed En]. rewrite En, Ed in W.
      exists w. split; auto. apply LG.
      refine (call_lang g root sg idx wf pinj RP it X c rc L' rc' w A Oi _ S (W it A Oi)).
      intros nt N Rn ->. destruct Pl as (nt' & N' & R'). congruence.
    - apply rep_sym_term in Rs as [-> It]. destruct (symd_term c rc t i j It) as (w & W & Sp); auto; [econstructor; eauto|].
      exists w. split; auto. apply in_rep_one. auto.
    - exfalso. destruct Rs as [(_ & _ & C)|(_ & id & E & _)]; [|discriminate].
      destruct (rep_elem r); cbn in C; try (destruct C as (? & ? & _); discriminate); discriminate.
  Qed.

  (** *** What a node shows *)
  Definition itree (it : item) (i j : nat) (ts : list ptree) : Prop :=
    match it with
    | IRule m => exists r, get_rule m g = Some r /\ d_alt g input loose (rule_alt r) i j ts
    | IGrp a => d_alt g input loose a i j ts
    | IOpt a => d_elem g input loose (EOption a) i j ts
    | IRep (Rep _ _ e) => exists m, d_pow g input loose e m i j ts
    end.
  Definition nodeP (k : nkey) (ts : list ptree) : Prop :=
    match k with
    | NTerm s e => ts = leaf s e
    | NSym X s e => forall it, assoc (key_of it) idx = Some X -> occ_item g it -> itree it s e ts
    | NInter L s e => forall it, assoc (key_of it) idx = Some (s_nt L) -> occ_item g it ->
        exists c, item_alt g it (s_alt L) c /\ d_cat g input loose (firstn (s_dot L) c) s e ts
    end.

  Lemma rule_of_item it X s e : assoc (key_of it) idx = Some X -> occ_item g it ->
    rule_of sg (NSym X s e) = match it with
      | IRule m => match get_rule m g with Some r => Some (rule_name r) | None => None end
      | _ => None
      end.
  Proof.
    intros A Oc. destruct (rp_complete _ _ _ _ pinj RP it X Oc A) as (nt & N & M). unfold rule_of. rewrite N.
    destruct it as [m|a|a|[mn mx el]]; cbn [nt_matches] in M.
    - destruct (get_rule m g); [|subst; reflexivity]. destruct M as [(_ & -> & ->) _]. reflexivity.
    - destruct M as [(_ & -> & _) _]. reflexivity.
    - destruct M as [(_ & -> & _) _]. reflexivity.
    - destruct M as [(_ & _ & ->)|(_ & es & _ & ->)]; reflexivity.
  Qed.

  Lemma elem_shown e x c rc i j t : occ_elem g e -> elem_sym idx e x -> symd sg input c rc x i j -> (i <= n)%nat ->
    nodeP (symnode x i j) t -> d_elem g input loose e i j (wrap (symnode x i j) t).
  Proof.
    intros Oe Es Sd Hi H. destruct e as [m|a|a|s v|b k v|pv]; cbn in Es.
    - destruct Es as (X & -> & A). cbn in H. destruct (H (IRule m) A Logic.I) as (r & G & D).
      unfold TreeProof.wrap. cbn [symnode]. rewrite (rule_of_item (IRule m) X i j A Logic.I), G. cbn [n_start n_end].
      apply d_rule; auto. apply get_rule_to; auto.
    - destruct Es as (X & -> & A). cbn in H. specialize (H (IGrp a) A Oe). cbn in H.
      unfold TreeProof.wrap. cbn [symnode]. rewrite (rule_of_item (IGrp a) X i j A Oe). apply d_group; auto.
    - destruct Es as (X & -> & A). cbn in H. specialize (H (IOpt a) A Oe). cbn in H.
      unfold TreeProof.wrap. cbn [symnode]. rewrite (rule_of_item (IOpt a) X i j A Oe). auto.
    - subst x. cbn in H. subst t. destruct (symd_term c rc (EChar s v) i j eq_refl Oe Hi Sd) as (w & W & Sp).
      eapply d_term; eauto. exact Logic.I.
    - subst x. cbn in H. subst t. destruct (symd_term c rc (ENum b k v) i j eq_refl Oe Hi Sd) as (w & W & Sp).
      eapply d_term; eauto. exact Logic.I.
    - exfalso. subst x. destruct Sd as [M|(X & L' & rc' & E & _)]; discriminate.
  Qed.

  Lemma rep_shown r x c rc i j t : occ_rep g r -> rep_sym idx r x -> plain sg c -> symd sg input c rc x i j -> (i <= n)%nat ->
    nodeP (symnode x i j) t -> d_rep g input loose r i j (wrap (symnode x i j) t).
  Proof.
    intros Oc Rs Pl Sd Hi H. pose proof (symd_lang r x c rc i j Oc Rs Pl Hi Sd) as W.
    destruct Rs as [(E1 & E2 & Es)|(NE & X & -> & A)].
    - destruct r as [mn mx e]. cbn in *. subst. apply d_rep_intro with (n := 1%nat); [split; auto|].
      apply d_pow_one. eapply elem_shown; eauto. econstructor; eauto.
    - cbn in H. specialize (H (IRep r) A (conj Oc NE)). destruct r as [mn mx e]. cbn in H. destruct H as (m & D).
      apply d_rep_intro with (n := m); [split; [exact W|cbn in *; intros E1 E2; exfalso; apply NE; auto]|].
      unfold TreeProof.wrap. cbn [symnode]. rewrite (rule_of_item (IRep (Rep mn mx e)) X i j A (conj Oc NE)). auto.
  Qed.

  Lemma item_alt_fun it alt c c' : item_alt g it alt c -> item_alt g it alt c' -> c = c'.
  Proof.
    destruct it as [m|a|a|r]; cbn; try easy.
    - intros (r & A & B) (r' & A' & B'). rewrite A in A'. inversion A'; subst. congruence.
    - congruence.
    - intros (k & -> & A) (k' & E & B). inversion E; subst. congruence.
  Qed.

  Lemma firstn_S_nth {A} (l : list A) : forall d x, nth_error l d = Some x -> firstn (S d) l = (firstn d l ++ [x])%list.
  Proof. induction l; intros [|d] x H; cbn in *; try discriminate; [congruence|]. f_equal. apply IHl; auto. Qed.

  (* one more symbol of a plain production *)
  Lemma cat_step it L p x c rc i m j ts t : assoc (key_of it) idx = Some (s_nt L) -> occ_item g it -> plain sg (s_nt L) ->
    prod_of sg L = Some p -> nth_error p (s_dot L) = Some x -> item_alt g it (s_alt L) c -> cat_sym idx c p ->
    symder sg input L rc m j -> (m <= n)%nat -> nodeP (symnode x m j) t ->
    d_cat g input loose (firstn (s_dot L) c) i m ts ->
    d_cat g input loose (firstn (S (s_dot L)) c) i j (ts ++ wrap (symnode x m j) t).
  Proof.
    intros A Oc Pl P N Ia Cs Sy Hm H D. apply (symder_inv _ _ _ _ _ _ P N) in Sy.
    destruct (cat_sym_nth _ _ _ _ _ Cs N) as [(-> & -> & Ed)|(r & Nr & Rs)].
    - destruct Sy as [M|(X & L' & rc' & E & _)]; [|discriminate]. cbn in M. inversion M; subst j.
      cbn in H. subst t. cbn [symnode]. rewrite wrap_leaf_nil, app_nil_r. rewrite firstn_nil in D. auto.
    - rewrite (firstn_S_nth _ _ _ Nr). eapply d_cat_app; eauto. rewrite <- (app_nil_r (wrap _ t)).
      assert (B : (m <= j <= n)%nat).
      { destruct Sy as [M|(X & L' & rc' & E & S & Dd)]; [eapply match_sym_bounds; eauto|eapply drest_bounds; eauto]. }
      econstructor; [|constructor; lia]. eapply rep_shown; eauto.
      eapply item_alt_occ; eauto. eapply nth_error_In; eauto.
  Qed.

  (* what lies before the dot *)
  Lemma before_shown it L p x c rc l m w t : assoc (key_of it) idx = Some (s_nt L) -> occ_item g it -> plain sg (s_nt L) ->
    prod_of sg L = Some p -> nth_error p (s_dot L) = Some x -> item_alt g it (s_alt L) c -> cat_sym idx c p ->
    dpre sg input L rc l m -> (l <= n)%nat -> wof sg L l m = Some w -> nodeP w t ->
    d_cat g input loose (firstn (s_dot L) c) l m (wrap w t).
  Proof.
    intros A Oc Pl P N Ia Cs Dp Hl W H.
    assert (Lt : (s_dot L < length p)%nat) by (apply nth_error_Some; congruence).
    unfold wof in W. rewrite P in W. destruct (s_dot L) as [|[|d]] eqn:Dt; [discriminate| |].
    - destruct (Nat.eqb_spec 1 (length p)) as [E|_]; [lia|]. destruct (nth_error p 0) as [x0|] eqn:N0; [|discriminate].
      inversion W; subst w. inversion Dp as [? ? ? Z|L0 ? ? k0 ? Dp0 Sy]; subst; [congruence|].
      cbn [adv s_dot s_nt s_alt] in *. inversion Dt as [D0].
      assert (k0 = l).
      { inversion Dp0; subst; auto. cbn in D0. discriminate. }
      subst k0. change (wrap (symnode x0 l m) t) with ([] ++ wrap (symnode x0 l m) t)%list.
      eapply cat_step with (p := p); eauto.
      + rewrite D0. auto.
      + rewrite D0. constructor. auto.
    - destruct (Nat.eqb_spec (S (S d)) (length p)) as [E|_]; [lia|]. inversion W; subst w.
      destruct (H it A Oc) as (c' & Ia' & D). rewrite (item_alt_fun _ _ _ _ Ia' Ia) in D. rewrite Dt in D.
      unfold TreeProof.wrap. cbn. exact D.
  Qed.

  Lemma wof_none L p x l m : prod_of sg L = Some p -> nth_error p (s_dot L) = Some x -> wof sg L l m = None -> s_dot L = 0%nat.
  Proof.
    intros P N W. unfold wof in W. rewrite P in W. destruct (s_dot L) as [|[|d]] eqn:Dt; auto.
    - destruct (Nat.eqb _ _); [discriminate|]. destruct (nth_error p 0) eqn:N0; [discriminate|].
      apply nth_error_None in N0. destruct p; cbn in *; [discriminate|lia].
    - destruct (Nat.eqb _ _); discriminate.
  Qed.

  Lemma dpre_zero L rc l m : s_dot L = 0%nat -> dpre sg input L rc l m -> m = l.
  Proof. intros Z H. inversion H; subst; auto. cbn in Z. discriminate. Qed.

  (* a whole pack *)
  Lemma pack_shown k pk L p x l m r rc ts : is_pack k pk L p x l m r rc ->
    (exists w t1 t2, wof sg L l m = Some w /\ nodeP w t1 /\ nodeP (symnode x m r) t2 /\ ts = (wrap w t1 ++ wrap (symnode x m r) t2)%list) \/
    (exists t2, wof sg L l m = None /\ nodeP (symnode x m r) t2 /\ ts = wrap (symnode x m r) t2) ->
    nodeP k ts.
  Proof.
    intros (P & N & K & _ & Dp & Sy & B) H.
    assert (Lt : (s_dot L < length p)%nat) by (apply nth_error_Some; congruence).
    (* plain nonterminals *)
    assert (PL : forall it, assoc (key_of it) idx = Some (s_nt L) -> occ_item g it -> plain sg (s_nt L) ->
      (exists a, it = IOpt a /\ s_alt L = 0%nat /\ p = [SEps]) \/
      exists c, item_alt g it (s_alt L) c /\ cat_sym idx c p /\ d_cat g input loose (firstn (S (s_dot L)) c) l r ts).
    { intros it A Oc Pl. destruct (rp_complete _ _ _ _ pinj RP it _ Oc A) as (nt & Nn & Mt).
      pose proof P as P0. unfold prod_of in P0. rewrite Nn in P0.
      assert (R : nt_isrep nt = false) by (destruct Pl as (nt' & E1 & E2); congruence).
      destruct (plain_prod _ _ _ _ _ _ _ Mt P0 R) as [?|(c & Ia & Cs)]; [left; auto|right].
      exists c. split; auto. split; auto. destruct H as [(w & t1 & t2 & W & H1 & H2 & ->)|(t2 & W & H2 & ->)].
      - eapply cat_step with (p := p) (m := m); eauto; [lia|]. eapply before_shown; eauto. lia.
      - pose proof (wof_none _ _ _ _ _ P N W) as Z. rewrite (dpre_zero _ _ _ _ Z Dp) in *.
        change (wrap (symnode x l r) t2) with ([] ++ wrap (symnode x l r) t2)%list.
        eapply cat_step with (p := p) (m := l); eauto; [lia|]. rewrite Z. constructor. lia. }
    destruct K as [[Ln ->]|(Lg & D1 & ->)].
    - (* symbol *)
      intros it A Oc. destruct (rp_complete _ _ _ _ pinj RP it _ Oc A) as (nt & Nn & Mt).
      destruct (nt_isrep nt) eqn:R.
      + destruct (rep_item _ _ _ _ _ Mt R) as (mn & mx & e & es & -> & _ & Es & Ent). cbn [itree].
        pose proof P as P0. unfold prod_of in P0. rewrite Nn, Ent in P0. cbn [nt_alts] in P0.
        assert (Oe : occ_elem g e) by (econstructor; apply Oc).
        destruct (s_alt L) as [|[|[|]]]; cbn in P0; inversion P0; subst p.
        * cbn in Ln. inversion Ln as [Z]. rewrite Z in N. cbn in N. inversion N; subst x.
          rewrite (dpre_zero _ _ _ _ Z Dp) in *. apply (symder_inv _ _ _ _ _ _ P ltac:(rewrite Z; reflexivity)) in Sy.
          destruct Sy as [M|(X & L' & rc' & E & _)]; [|discriminate]. cbn in M. inversion M; subst r.
          destruct H as [(w & t1 & t2 & W & _)|(t2 & W & H2 & ->)].
          { unfold wof in W. rewrite P, Z in W. discriminate. }
          exists 0%nat. cbn in H2. subst t2. cbn [symnode]. rewrite wrap_leaf_nil. constructor. lia.
        * cbn in Ln. inversion Ln as [Z]. rewrite Z in N. cbn in N. inversion N; subst x. clear Ln.
          destruct H as [(w & t1 & t2 & W & H1 & H2 & ->)|(t2 & W & H2 & ->)].
          2:{ apply (wof_none _ _ (SNonterm (s_nt L)) _ _ P) in W; [lia|rewrite Z; reflexivity]. }
          unfold wof in W. rewrite P, Z in W. cbn in W. inversion W; subst w.
          cbn in H2. destruct (H2 _ A Oc) as (mm & Dm). exists (S mm).
          inversion Dp as [? ? ? Z'|L0 ? ? k0 ? Dp0 Sy0]; subst; [congruence|]. cbn [adv s_dot s_nt s_alt] in *.
          assert (Z0 : s_dot L0 = 0%nat) by lia. rewrite (dpre_zero _ _ _ _ Z0 Dp0) in *.
          assert (Sd : symd sg input (s_nt L0) rc es l m).
          { apply (symder_inv L0 [es; SNonterm (s_nt L0)]); auto. rewrite Z0. reflexivity. }
          econstructor.
          -- eapply elem_shown; eauto. lia.
          -- unfold TreeProof.wrap. cbn [symnode]. rewrite (rule_of_item _ (s_nt L0) m r A Oc). exact Dm.
      + assert (Pl : plain sg (s_nt L)) by (exists nt; auto).
        destruct (PL it A Oc Pl) as [(a & -> & Ea & ->)|(c & Ia & Cs & D)].
        * cbn [itree]. cbn in Ln. inversion Ln as [Z]. rewrite Z in N. cbn in N. inversion N; subst x.
          rewrite (dpre_zero _ _ _ _ Z Dp) in *. apply (symder_inv _ _ _ _ _ _ P ltac:(rewrite Z; reflexivity)) in Sy.
          destruct Sy as [M|(X & L' & rc' & E & _)]; [|discriminate]. cbn in M. inversion M; subst r.
          destruct H as [(w & t1 & t2 & W & _)|(t2 & W & H2 & ->)].
          { unfold wof in W. rewrite P, Z in W. discriminate. }
          cbn in H2. subst t2. cbn [symnode]. rewrite wrap_leaf_nil. apply d_option_none. lia.
        * rewrite Ln, firstn_all2 in D by (eapply cat_sym_len; eauto).
          destruct it as [m0|a|a|r0]; cbn in Ia |- *.
          -- destruct Ia as (r0 & G & Nr). exists r0. split; auto. econstructor; eauto. eapply nth_error_In; eauto.
          -- econstructor; eauto. eapply nth_error_In; eauto.
          -- destruct Ia as (k0 & _ & Nr). apply d_option_some. econstructor; eauto. eapply nth_error_In; eauto.
          -- easy.
    - (* intermediate *)
      intros it A Oc. cbn [adv s_nt s_alt s_dot] in *.
      destruct (rp_complete _ _ _ _ pinj RP it _ Oc A) as (nt & Nn & Mt).
      destruct (nt_isrep nt) eqn:R.
      + exfalso. destruct (rep_item _ _ _ _ _ Mt R) as (mn & mx & e & es & -> & _ & Es & Ent).
        unfold prod_of in P. rewrite Nn, Ent in P. cbn [nt_alts] in P.
        destruct (s_alt L) as [|[|[|]]]; cbn in P; inversion P; subst p; cbn in Lg; lia.
      + assert (Pl : plain sg (s_nt L)) by (exists nt; auto).
        destruct (PL it A Oc Pl) as [(a & -> & Ea & ->)|(c & Ia & Cs & D)]; [cbn in Lg; lia|]. eauto.
  Qed.

  Theorem ft_nodeP k ts : ft sg nodes k ts -> nodeP k ts.
  Proof.
    induction 1 as [s e|k c ts I F IH|k w c ts1 ts2 I F1 IH1 F2 IH2].
    - reflexivity.
    - destruct (pack_inv _ _ I) as (L & p & x & l & m & r & rc & H). eapply pack_shown; eauto.
      destruct H as (P & N & _ & Ek & _). destruct (wof sg L l m) as [w|]; cbn in Ek; inversion Ek; subst. right. eauto.
    - destruct (pack_inv _ _ I) as (L & p & x & l & m & r & rc & H). eapply pack_shown; eauto.
      destruct H as (P & N & _ & Ek & _). destruct (wof sg L l m) as [w'|]; cbn in Ek; inversion Ek; subst. left.
      exists w', ts1, ts2. auto.
  Qed.

  (** The root. *)
  Theorem ft_root ts : ft sg nodes (NSym (sg_start sg) 0 n) ts -> exists r,
    rule_of sg (NSym (sg_start sg) 0 n) = Some (rule_name r) /\ get_rule root g = Some r /\
    d_elem g input loose (ERule root) 0 n [PT (rule_name r) 0 n ts].
  Proof.
    intros F. pose proof (rp_start _ _ _ _ RP) as A.
    destruct (ft_nodeP _ _ F (IRule root) A Logic.I) as (r & G & D). exists r.
    rewrite (rule_of_item (IRule root) _ 0 n A Logic.I), G. split; auto. split; auto.
    apply d_rule; auto. apply get_rule_to; auto.
  Qed.
End Sound.
