(** When no part of the grammar can be divided in two ways, every node of a forest
    has at most one pack.
    Its definitions are means of proof and model no code. *)
From Coq Require Import ZArith Arith String Ascii Bool List Lia.
From Verif Require Import Syntax Spec Utf8 Num Term Printer PropTerm Slots Gll GllUniv Bsr BsrProof BsrTerm
  LowerProof LowerLang Sppf SppfProof TreeSpec Tree TreeProof TreeSound.
Import ListNotations.
Local Open Scope Z_scope.
Local Open Scope list_scope.

(** [input[i:j]] is a word of ... *)
Definition x_elem (g : grammar) (input : list Z) (e : elem) (i j : nat) : Prop := exists w, span input i j w /\ in_elem g e w.
Definition x_rep (g : grammar) (input : list Z) (r : rep) (i j : nat) : Prop := exists w, span input i j w /\ in_rep g r w.
Definition x_cat (g : grammar) (input : list Z) (c : concatenation) (i j : nat) : Prop := exists w, span input i j w /\ in_cat g c w.
Definition x_pow (g : grammar) (input : list Z) (e : elem) (i j : nat) : Prop := exists n w, span input i j w /\ in_pow g e n w.

(** The alternations written in the grammar. *)
Definition occ_alt (g : grammar) (a : alternation) : Prop :=
  (exists r, In r (g ++ core_rules) /\ a = rule_alt r) \/ occ_elem g (EGroup a) \/ occ_elem g (EOption a).

(** No alternation, concatenation or repetition can be divided in two ways over the
    same part of the input. *)
Record undivided (g : grammar) (input : list Z) : Prop := {
  ud_alts : forall a n c n' c' l r, occ_alt g a -> nth_error a n = Some c -> nth_error a n' = Some c' ->
    x_cat g input c l r -> x_cat g input c' l r -> n = n';
  ud_opt : forall a c l, occ_elem g (EOption a) -> In c a -> ~ x_cat g input c l l;
  ud_split : forall a c1 x c2 l m m' r, occ_alt g a -> In (c1 ++ x :: c2) a -> x_cat g input c1 l m -> x_rep g input x m r ->
    x_cat g input c1 l m' -> x_rep g input x m' r -> m = m';
  ud_item : forall mn mx e l, occ_rep g (Rep mn mx e) -> ~ (mn = 1 /\ mx = 1) -> ~ x_elem g input e l l;
  ud_items : forall mn mx e l m m' r, occ_rep g (Rep mn mx e) -> ~ (mn = 1 /\ mx = 1) ->
    x_elem g input e l m -> x_pow g input e m r -> x_elem g input e l m' -> x_pow g input e m' r -> m = m' }.

Section One.
  Variable g : grammar.
  Variable root : string.
  Variable sg : slot_grammar.
  Variable idx : list (string * nat).
  Variable input : list Z.
  Hypothesis wf : wf_grammar g.
  Hypothesis pinj : print_inj g.
  Hypothesis RP : represents g root sg idx.
  Variable nodes : ntable.
  Variable set : list belem.
  Hypothesis T : tbl sg nodes set.
  Hypothesis OK : forall e, In e set -> ok_elem sg input e.
  Hypothesis U : undivided g input.
  Hypothesis NoOne : forall X nt, nth_error (sg_nts sg) X = Some nt -> nt_isrep nt = true -> ~ (nt_repmin nt = 1 /\ nt_repmax nt = 1).
  Notation n := (length input).

  Lemma x_cat_snoc c r i m j : x_cat g input c i m -> x_rep g input r m j -> x_cat g input (c ++ [r]) i j.
  Proof.
    intros (w & S & H) (v & S' & H'). exists (w ++ v). split; [eapply span_app; eauto|].
    clear - H H'. revert w H. induction c as [|x c IH]; intros w H; inversion H; subst.
    - cbn. rewrite <- (app_nil_r v). econstructor; eauto using in_cat_nil.
    - cbn. rewrite <- app_assoc. econstructor; eauto.
  Qed.

  Lemma prefix_lang it c p rc l m : forall L, dpre sg input L rc l m -> assoc (key_of it) idx = Some (s_nt L) -> occ_item g it ->
    plain sg (s_nt L) -> prod_of sg L = Some p -> (s_dot L <= length c)%nat -> item_alt g it (s_alt L) c -> cat_sym idx c p -> (l <= n)%nat ->
    x_cat g input (firstn (s_dot L) c) l m /\ (m <= n)%nat.
  Proof.
    intros L D. induction D as [L rc i Z|L rc i k j D IH Sy]; intros A Oc Pl P Le Ia Cs Hl.
    - rewrite Z. split; [|lia]. exists []. split; [|constructor]. exists (firstn i input), (skipn i input). cbn.
      rewrite firstn_skipn, firstn_length. split; auto. lia.
    - cbn [adv s_nt s_alt s_dot] in *. change (prod_of sg (adv L)) with (prod_of sg L) in P.
      destruct IH as [IH Hk]; auto; [lia|].
      destruct (nth_error p (s_dot L)) as [x|] eqn:N.
      2:{ destruct Sy as (p' & s & P' & N' & _). congruence. }
      apply (symder_inv _ _ _ _ _ _ _ _ P N) in Sy.
      destruct (cat_sym_nth _ _ _ _ _ Cs N) as [(-> & -> & Ed)|(r & Nr & Rs)]; [cbn in Le; lia|].
      assert (B : (k <= j <= n)%nat).
      { destruct Sy as [M|(X & L' & rc' & E & S & Dd)]; [eapply match_sym_bounds; eauto|eapply drest_bounds; eauto]. }
      split; [|lia]. rewrite (firstn_S_nth _ _ _ Nr). eapply x_cat_snoc; eauto.
      eapply symd_lang; eauto. eapply item_alt_occ; eauto. eapply nth_error_In; eauto.
  Qed.

  (* a call of a repetition by itself *)
  Lemma tail_lang mn mx e X rc i j : occ_rep g (Rep mn mx e) /\ counted (Rep mn mx e) -> assoc (key_of (IRep (Rep mn mx e))) idx = Some X -> (i <= n)%nat ->
    symd sg input X rc (SNonterm X) i j -> x_pow g input e i j.
  Proof.
    intros Oc A Hi [M|(X' & L' & rc' & E & S & D)]; [discriminate|]. inversion E; subst X'.
    destruct (drest_lang g root sg idx input wf pinj RP _ _ _ _ D Hi) as (w & Sp & W).
    pose proof (starts_dot0 _ _ _ _ _ _ S) as [Ed En]. rewrite En, Ed in W. specialize (W (IRep (Rep mn mx e)) A Oc). cbn [rest_spec] in W.
    destruct W as [[_ ->]|[E1 W]]; [exists 0%nat, []; split; auto; constructor|].
    destruct (rp_complete _ _ _ _ pinj RP (IRep (Rep mn mx e)) _ Oc A) as (nt & N & M).
    pose proof S as S0. apply starts_in in S as (nt' & N' & _ & G). rewrite N in N'. inversion N'; subst nt'. clear N'.
    cbn [nt_matches] in M. destruct M as [(_ & _ & ->)|(B & es & C & Dn)].
    { exfalso. unfold starts in S0. rewrite N in S0. exact S0. }
    destruct G as [[G _]|(_ & Erc & G)]; [subst nt; discriminate|].
    rewrite Dn in G. cbn [nt_repmin nt_repmax] in G. destruct G as [[G _]|[_ G]]; [rewrite G in E1; discriminate|].
    destruct (W G) as (k & P & _). exists (S k), w. auto.
  Qed.

  Lemma elem_lang e x c rc i j : occ_elem g e -> elem_sym idx e x -> symd sg input c rc x i j -> (i <= n)%nat -> x_elem g input e i j.
  Proof.
    intros Oe Es H Hi. destruct x as [X|t|].
    - destruct H as [M|(X' & L' & rc' & E & S & D)]; [discriminate|]. inversion E; subst X'.
      destruct (elem_sym_nt g idx e X Oe Es) as (it & A & Oi & LG & NR).
      destruct (drest_lang g root sg idx input wf pinj RP _ _ _ _ D Hi) as (w & Sp & W).
      pose proof (starts_dot0 _ _ _ _ _ _ S) as [Ed En]. rewrite En, Ed in W.
      exists w. split; auto. apply LG.
      refine (call_lang g root sg idx wf pinj RP it X c rc L' rc' w A Oi _ S (W it A Oi)).
      intros nt N Rn. rewrite (plain_item g root sg idx pinj RP it X nt A Oi NR N) in Rn. discriminate.
    - assert (e = t /\ is_terminal t = true) as [-> It].
      { destruct e; cbn in Es; try (destruct Es as (? & ? & _); discriminate); inversion Es; auto. }
      destruct (symd_term g sg input wf c rc t i j It Oe Hi H) as (w & W & Sp). exists w. auto.
    - destruct e; cbn in Es; try (destruct Es as (? & ? & _); discriminate); discriminate.
  Qed.

  Lemma occ_item_alt it alt c : occ_item g it -> item_alt g it alt c -> exists a k, occ_alt g a /\ nth_error a k = Some c /\
    (forall alt' c', item_alt g it alt' c' -> exists k', nth_error a k' = Some c' /\ (k' = k -> alt' = alt)) /\
    (forall b, it = IOpt b -> a = b).
  Proof.
    destruct it as [m|a|a|r]; cbn; intros Oc Ia.
    - destruct Ia as (r & G & N). exists (rule_alt r), alt. split; [|split; [exact N|split; [|discriminate]]].
      + left. exists r. split; auto. apply get_rule_to in G as [[G _]|(_ & G & _)]; apply in_app_iff; auto.
      + intros alt' c' (r' & G' & N'). rewrite G in G'. inversion G'; subst r'. eauto.
    - exists a, alt. split; [right; left; exact Oc|]. split; auto. split; [eauto|discriminate].
    - destruct Ia as (k & -> & N). exists a, k. split; [right; right; exact Oc|]. split; auto. split.
      + intros alt' c' (k' & -> & N'). exists k'. split; auto.
      + intros b E. congruence.
    - easy.
  Qed.

  Lemma pack_slot k pk pk' L p x l m r rc L' p' x' l' m' r' rc' :
    is_pack sg input k pk L p x l m r rc -> is_pack sg input k pk' L' p' x' l' m' r' rc' -> L = L' /\ l = l' /\ m = m' /\ r = r'.
  Proof.
    intros (P & N & K & E & Dp & Sy & B) (P' & N' & K' & E' & Dp' & Sy' & B').
    assert (Lt : (s_dot L < length p)%nat) by (apply nth_error_Some; congruence).
    assert (Lt' : (s_dot L' < length p')%nat) by (apply nth_error_Some; congruence).
    pose proof (symder_inv _ _ _ _ _ _ _ _ P N Sy) as Sd. pose proof (symder_inv _ _ _ _ _ _ _ _ P' N' Sy') as Sd'.
    assert (SN : s_nt L = s_nt L' /\ l = l' /\ r = r').
    { destruct K as [[_ K]|(_ & _ & K)], K' as [[_ K']|(_ & _ & K')]; rewrite K in K'; inversion K'; auto. }
    destruct SN as (SN & <- & <-).
    assert (Hn : exists nt, nth_error (sg_nts sg) (s_nt L) = Some nt).
    { unfold prod_of in P. destruct (nth_error (sg_nts sg) (s_nt L)) as [nt|]; [eauto|discriminate]. }
    destruct Hn as (nt & Nn).
    assert (Lx : (s_nt L < length (sg_nts sg))%nat) by (apply nth_error_Some; congruence).
    destruct (rp_surj _ _ _ _ RP _ Lx) as (ky & A). destruct (rp_done _ _ _ _ RP _ _ A) as (it & nt' & <- & Oc & Nn' & Mt).
    rewrite Nn in Nn'. inversion Nn'; subst nt'. clear Nn'.
    pose proof P as P0. unfold prod_of in P0. rewrite Nn in P0.
    pose proof P' as P0'. unfold prod_of in P0'. rewrite <- SN, Nn in P0'.
    (* equal slots and equal divisions *)
    assert (Same : L = L' -> m = m' -> L = L' /\ l = l /\ m = m' /\ r = r) by auto.
    destruct (nt_isrep nt) eqn:R.
    - destruct (rep_item _ _ _ _ _ Mt R) as (mn & mx & e & es & -> & _ & Es & Ent).
      rewrite Ent in P0, P0'. cbn [nt_alts] in P0, P0'.
      assert (Oe : occ_elem g e) by (econstructor; apply Oc).

      assert (NO : ~ (mn = 1 /\ mx = 1)) by (pose proof (NoOne _ _ Nn R) as H; rewrite Ent in H; exact H).
      assert (Case : forall L0 q y m0 rc0, s_nt L0 = s_nt L -> prod_of sg L0 = Some q ->
        nth_error [[SEps]; [es; SNonterm (s_nt L)]] (s_alt L0) = Some q -> nth_error q (s_dot L0) = Some y ->
        ((S (s_dot L0) = length q /\ k = NSym (s_nt L0) l r) \/ (S (s_dot L0) < length q /\ 1 <= s_dot L0 /\ k = NInter (adv L0) l r))%nat ->
        dpre sg input L0 rc0 l m0 -> symder sg input L0 rc0 m0 r -> (l <= m0 <= n)%nat ->
        (s_alt L0 = 0%nat /\ s_dot L0 = 0%nat /\ m0 = l /\ r = l) \/
        (s_alt L0 = 1%nat /\ s_dot L0 = 1%nat /\ x_elem g input e l m0 /\ x_pow g input e m0 r)).
      { clear - Oe Es Oc A wf pinj RP. intros L0 q y m0 rc0 SN P Q N K Dp Sy B.
        pose proof (symder_inv _ _ _ _ _ _ _ _ P N Sy) as Sd.
        destruct (s_alt L0) as [|[|[|]]]; cbn in Q; inversion Q; subst q.
        - left. destruct K as [[Z _]|(Z & Z' & _)]; cbn in Z; [|lia]. injection Z as Z. rewrite Z in N. cbn in N. inversion N; subst y.
          rewrite (dpre_zero _ _ _ _ _ _ Z Dp) in *. destruct Sd as [M|(X & ? & ? & E & _)]; [|discriminate]. cbn in M. inversion M; auto.
        - right. destruct K as [[Z _]|(Z & Z' & _)]; cbn in Z; [|lia]. injection Z as Z. rewrite Z in N. cbn in N. inversion N; subst y.
          split; auto. split; auto. rewrite SN in Sd. split.
          + inversion Dp as [? ? ? Z'|L1 ? ? k0 ? Dp0 Sy0]; subst; [congruence|]. cbn [adv s_dot s_nt s_alt] in *.
            assert (Z0 : s_dot L1 = 0%nat) by lia. rewrite (dpre_zero _ _ _ _ _ _ Z0 Dp0) in *.
            eapply elem_lang; [exact Oe|exact Es| |lia].
            apply (symder_inv _ _ L1 [es; SNonterm (s_nt L)]); [exact P|rewrite Z0; reflexivity|exact Sy0].
          + eapply tail_lang; [exact Oc|exact A| |exact Sd]. lia. }
      destruct (Case L p x m rc eq_refl P P0 N K Dp Sy B) as [(C1 & C2 & C3 & C4)|(C1 & C2 & C3 & C4)];
        destruct (Case L' p' x' m' rc' (eq_sym SN) P' P0' N' K' Dp' Sy' B') as [(C1' & C2' & C3' & C4')|(C1' & C2' & C3' & C4')].
      + apply Same; [destruct L, L'; cbn in *; congruence|congruence].
      + exfalso. subst r. assert (m' = l).
        { destruct C4' as (q & w & Sp & _). apply span_le in Sp. lia. }
        subst m'. eapply ud_item; eauto; apply Oc.
      + exfalso. subst r. assert (m = l).
        { destruct C4 as (q & w & Sp & _). apply span_le in Sp. lia. }
        subst m. eapply ud_item; eauto; apply Oc.
      + apply Same; [destruct L, L'; cbn in *; congruence|]. eapply (ud_items _ _ U mn mx e); eauto; apply Oc.
    - assert (Pl : plain sg (s_nt L)) by (exists nt; auto).
      assert (Pl' : plain sg (s_nt L')) by (rewrite <- SN; auto).
      assert (A' : assoc (key_of it) idx = Some (s_nt L')) by (rewrite <- SN; auto).
      assert (Case : forall L0 q y m0 rc0, assoc (key_of it) idx = Some (s_nt L0) -> plain sg (s_nt L0) -> prod_of sg L0 = Some q ->
        nth_error (nt_alts nt) (s_alt L0) = Some q -> nth_error q (s_dot L0) = Some y ->
        ((S (s_dot L0) = length q /\ k = NSym (s_nt L0) l r) \/ (S (s_dot L0) < length q /\ 1 <= s_dot L0 /\ k = NInter (adv L0) l r))%nat ->
        dpre sg input L0 rc0 l m0 -> symder sg input L0 rc0 m0 r -> (l <= m0 <= n)%nat ->
        (exists a, it = IOpt a /\ s_alt L0 = 0%nat /\ s_dot L0 = 0%nat /\ m0 = l /\ r = l /\ k = NSym (s_nt L0) l r) \/
        (exists c, item_alt g it (s_alt L0) c /\ cat_sym idx c q /\ c = [] /\ s_dot L0 = 0%nat /\ m0 = l /\ r = l /\ k = NSym (s_nt L0) l r) \/
        (exists c y', item_alt g it (s_alt L0) c /\ cat_sym idx c q /\ nth_error c (s_dot L0) = Some y' /\
           x_cat g input (firstn (s_dot L0) c) l m0 /\ x_rep g input y' m0 r)).
      { clear - Oc wf pinj RP Mt R. intros L0 q y m0 rc0 A Pl P Q N K Dp Sy B.
        pose proof (symder_inv _ _ _ _ _ _ _ _ P N Sy) as Sd.
        destruct (plain_prod _ _ _ _ _ _ _ Mt Q R) as [(a & -> & Ea & ->)|(c & Ia & Cs)].
        - left. exists a. split; auto. split; auto. destruct K as [[Z Kk]|(Z & Z' & _)]; cbn in Z; [|lia]. injection Z as Z.
          rewrite Z in N. cbn in N. inversion N; subst y. split; auto.
          rewrite (dpre_zero _ _ _ _ _ _ Z Dp) in *. destruct Sd as [M|(X & ? & ? & E & _)]; [|discriminate]. cbn in M. injection M as <-. auto.
        - right. destruct (cat_sym_nth _ _ _ _ _ Cs N) as [(-> & -> & Z)|(y' & Ny & Rs)].
          + left. exists []. split; auto. split; auto. split; auto. split; auto.
            rewrite (dpre_zero _ _ _ _ _ _ Z Dp) in *. destruct Sd as [M|(X & ? & ? & E & _)]; [|discriminate]. cbn in M. inversion M; subst.
            split; auto. split; auto. destruct K as [[_ Kk]|(_ & Z' & _)]; [auto|lia].
          + right. exists c, y'. split; auto. split; auto. split; auto.
            assert (Ln : (s_dot L0 < length c)%nat) by (apply nth_error_Some; congruence).
            destruct (prefix_lang it c q rc0 l m0 L0 Dp A Oc Pl P ltac:(lia) Ia Cs ltac:(lia)) as [X _]. split; auto.
            eapply symd_lang; eauto; [|lia]. eapply item_alt_occ; eauto. eapply nth_error_In; eauto. }

      assert (Nil : (l <= n)%nat -> x_cat g input [] l l).
      { intros H. exists []. split; [|constructor]. exists (firstn l input), (skipn l input). cbn.
        rewrite firstn_skipn, firstn_length. split; auto. lia. }
      (* a complete concatenation *)
      assert (Full : forall L0 c q y', cat_sym idx c q -> nth_error c (s_dot L0) = Some y' -> S (s_dot L0) = length q ->
        forall m0, x_cat g input (firstn (s_dot L0) c) l m0 -> x_rep g input y' m0 r -> x_cat g input c l r).
      { clear. intros L0 c q y' (seq & F & ->) Ny Ln m0 X Y. pose proof (x_cat_snoc _ _ _ _ _ X Y) as Z.
        rewrite <- (firstn_S_nth _ _ _ Ny) in Z. rewrite firstn_all2 in Z; auto. apply Forall2_len in F.
        destruct seq; cbn [nonempty_seq] in Ln; [destruct c; [destruct (s_dot L0); discriminate|discriminate]|]. lia. }
      assert (Case2 : forall L0 q y m0 rc0, assoc (key_of it) idx = Some (s_nt L0) -> plain sg (s_nt L0) -> prod_of sg L0 = Some q ->
        nth_error (nt_alts nt) (s_alt L0) = Some q -> nth_error q (s_dot L0) = Some y ->
        ((S (s_dot L0) = length q /\ k = NSym (s_nt L0) l r) \/ (S (s_dot L0) < length q /\ 1 <= s_dot L0 /\ k = NInter (adv L0) l r))%nat ->
        dpre sg input L0 rc0 l m0 -> symder sg input L0 rc0 m0 r -> (l <= m0 <= n)%nat ->
        (exists a, it = IOpt a /\ s_alt L0 = 0%nat /\ s_dot L0 = 0%nat /\ m0 = l /\ r = l /\ k = NSym (s_nt L0) l r) \/
        (exists c, item_alt g it (s_alt L0) c /\ (k = NSym (s_nt L0) l r -> x_cat g input c l r) /\
           ((c = [] /\ m0 = l) \/
            (exists y', nth_error c (s_dot L0) = Some y' /\ x_cat g input (firstn (s_dot L0) c) l m0 /\ x_rep g input y' m0 r)))).
      { intros L0 q y m0 rc0 A1 Pl1 P1 Q1 N1 K1 Dp1 Sy1 B1.
        destruct (Case L0 q y m0 rc0 A1 Pl1 P1 Q1 N1 K1 Dp1 Sy1 B1) as [H|[(c & Ia & Cs & -> & Z & -> & -> & Kk)|(c & y' & Ia & Cs & Ny & X & Y)]].
        - left. exact H.
        - right. exists []. split; auto. split; [intros _; apply Nil; lia|auto].
        - right. exists c. split; auto. split; [|right; eauto].
          intros Kk. eapply Full; eauto. destruct K1 as [[? _]|(_ & _ & K1)]; auto. rewrite K1 in Kk. discriminate. }
      pose proof (Case2 L p x m rc A Pl P P0 N K Dp Sy B) as C.
      pose proof (Case2 L' p' x' m' rc' A' Pl' P' P0' N' K' Dp' Sy' B') as C'.
      assert (Opt : forall a L0 c, it = IOpt a -> item_alt g it (s_alt L0) c -> r = l -> x_cat g input c l r -> False).
      { intros a L0 c -> Ia -> X. destruct Ia as (k0 & _ & Nk). eapply (ud_opt _ _ U a c l); eauto. eapply nth_error_In; eauto. }
      destruct C as [(a & Ei & C1 & C2 & -> & Er & Kk)|(c & Ia & Fu & Sp)], C' as [(a' & Ei' & C1' & C2' & -> & Er' & Kk')|(c' & Ia' & Fu' & Sp')].
      + apply Same; auto. destruct L, L'; cbn in *; congruence.
      + exfalso. apply (Opt a L' c' Ei Ia' Er). apply Fu'. congruence.
      + exfalso. apply (Opt a' L c Ei' Ia Er'). apply Fu. congruence.
      + assert (SA : s_alt L = s_alt L').
        { destruct K as [[_ K]|(_ & _ & K)], K' as [[_ K']|(_ & _ & K')]; try (rewrite K in K'; discriminate).
          - destruct (occ_item_alt it (s_alt L) c Oc Ia) as (a & k0 & Oa & Nk & Al & _). destruct (Al _ _ Ia') as (k1 & Nk1 & Eq).
            symmetry. apply Eq. symmetry. eapply (ud_alts _ _ U a k0 c k1 c'); eauto.
          - rewrite K in K'. inversion K'. auto. }
        rewrite <- SA in Ia'. assert (c' = c) by (eapply item_alt_fun; eauto). subst c'.
        rewrite <- SA in P0'. rewrite P0 in P0'. inversion P0'; subst p'.
        assert (SD : s_dot L = s_dot L').
        { destruct K as [[Z K]|(_ & _ & K)], K' as [[Z' K']|(_ & _ & K')]; try (rewrite K in K'; discriminate).
          - lia.
          - rewrite K in K'. inversion K'. auto. }
        apply Same; [destruct L, L'; cbn in *; congruence|].
        destruct Sp as [[-> ->]|(y & Ny & X & Y)], Sp' as [[Z ->]|(y' & Ny' & X' & Y')]; auto.
        * destruct (s_dot L'); discriminate.
        * subst c. destruct (s_dot L); discriminate.
        * rewrite <- SD in Ny', X'. rewrite Ny in Ny'. inversion Ny'; subst y'.
          destruct (occ_item_alt it (s_alt L) c Oc Ia) as (a & k0 & Oa & Nk & _ & _). apply nth_error_In in Nk.
          apply nth_error_split in Ny as (c1 & c2 & -> & Lc). rewrite <- Lc, firstn_app, Nat.sub_diag, firstn_all, firstn_O, app_nil_r in X, X'.
          eapply (ud_split _ _ U a c1 y c2); eauto.
  Qed.

  Lemma pack_one k pk pk' L p x l m r rc L' p' x' l' m' r' rc' :
    is_pack sg input k pk L p x l m r rc -> is_pack sg input k pk' L' p' x' l' m' r' rc' -> pk = pk'.
  Proof.
    intros H H'. destruct (pack_slot _ _ _ _ _ _ _ _ _ _ _ _ _ _ _ _ _ H H') as (<- & <- & <- & <-).
    destruct H as (P & N & _ & -> & _), H' as (P' & N' & _ & -> & _). congruence.
  Qed.
  (** The elements of a node are one. *)
  Theorem elems_one e e' : In e set -> In e' set -> ekey sg e = ekey sg e' -> e = e'.
  Proof.
    intros I I' E. destruct (elem_pack sg input nodes set T OK e I) as (L & p & x & rc & Es & H).
    destruct (elem_pack sg input nodes set T OK e' I') as (L' & p' & x' & rc' & Es' & H'). rewrite E in H.
    destruct (pack_slot _ _ _ _ _ _ _ _ _ _ _ _ _ _ _ _ _ H H') as (<- & A & B & C). destruct e, e'; cbn in *; congruence.
  Qed.

  Theorem packs_one k pk pk' : In pk (packs nodes k) -> In pk' (packs nodes k) -> pk = pk'.
  Proof.
    intros I I'. destruct (pack_inv sg input nodes set T OK k pk I) as (L & p & x & l & m & r & rc & H).
    destruct (pack_inv sg input nodes set T OK k pk' I') as (L' & p' & x' & l' & m' & r' & rc' & H').
    eapply pack_one; eauto.
  Qed.
End One.

(** *** The lowering gives a repetition of its own to every element but those
    repeated once *)
Definition unit_free (l : list sgNT) : Prop :=
  forall X nt, nth_error l X = Some nt -> nt_isrep nt = true -> ~ (nt_repmin nt = 1 /\ nt_repmax nt = 1).

Lemma unit_free_set l id x : unit_free l -> (nt_isrep x = true -> ~ (nt_repmin x = 1 /\ nt_repmax x = 1)) -> unit_free (set_nth id x l).
Proof.
  revert id. induction l as [|y l IH]; intros id U H X nt; [destruct id, X; discriminate|].
  assert (U' : unit_free l) by (intros Y; apply (U (S Y))).
  destruct id as [|id], X as [|X]; cbn [set_nth nth_error]; intros E.
  - injection E as <-. exact H.
  - apply (U (S X)). exact E.
  - apply (U 0%nat). exact E.
  - eapply (IH id); eauto.
Qed.
Lemma unit_free_reserve k st id b st' : unit_free (ls_nts st) -> reserve k st = (id, b, st') -> unit_free (ls_nts st').
Proof.
  intros U. unfold reserve. destruct (assoc _ _); intros E; injection E as <- <- <-; auto. cbn [ls_nts].
  intros X nt N. destruct (Nat.lt_ge_cases X (length (ls_nts st))) as [L|L].
  - rewrite nth_error_app1 in N by auto. eauto.
  - rewrite nth_error_app2 in N by auto. destruct (X - length (ls_nts st))%nat as [|y]; [|destruct y; discriminate].
    injection N as <-. discriminate.
Qed.
Lemma unit_free_budget max st b st' : unit_free (ls_nts st) -> budget_exceeded max st = (b, st') -> unit_free (ls_nts st').
Proof. intros U E. injection E as <- <-. exact U. Qed.

Section Unit.
  Variable max : Z.
  Variable lr : string -> lstate -> option (nat * lstate).
  Hypothesis lr_ok : forall n st id st', unit_free (ls_nts st) -> lr n st = Some (id, st') -> unit_free (ls_nts st').

  Lemma mapM_unit {A B} (f : A -> lstate -> option (B * lstate)) l :
    (forall x, In x l -> forall st y st', unit_free (ls_nts st) -> f x st = Some (y, st') -> unit_free (ls_nts st')) ->
    forall st y st', unit_free (ls_nts st) -> mapM f l st = Some (y, st') -> unit_free (ls_nts st').
  Proof.
    induction l as [|x l IH]; intros H st y st' U; cbn [mapM]; [intros E; injection E as <- <-; auto|].
    destruct (f x st) as [[z s1]|] eqn:E; [|discriminate]. destruct (mapM f l s1) as [[ys s2]|] eqn:E2; [|discriminate].
    intros X. injection X as <- <-. eapply IH; [|eapply (H x (or_introl eq_refl)); eauto|exact E2]. intros w I. apply H. right. auto.
  Qed.
  Lemma alts_unit a : Forall (Forall (fun r => forall st x st', unit_free (ls_nts st) -> lower_rep max lr r st = Some (x, st') -> unit_free (ls_nts st'))) a ->
    forall st y st', unit_free (ls_nts st) -> lower_alts max lr a st = Some (y, st') -> unit_free (ls_nts st').
  Proof.
    intros F. apply mapM_unit. intros c I st y st' U. unfold lower_cat. rewrite Forall_forall in F. specialize (F c I). rewrite Forall_forall in F.
    destruct (mapM _ c st) as [[q s]|] eqn:E; [|discriminate]. intros X. injection X as <- <-. eapply mapM_unit; [|exact U|exact E]. exact F.
  Qed.
  Lemma lower_unit : (forall e st x st', unit_free (ls_nts st) -> lower_elem max lr e st = Some (x, st') -> unit_free (ls_nts st')) /\
    (forall r st x st', unit_free (ls_nts st) -> lower_rep max lr r st = Some (x, st') -> unit_free (ls_nts st')).
  Proof.
    apply elem_rep_ind.
    - intros n st x st' U. cbn [lower_elem]. destruct (lr n st) as [[id s]|] eqn:E; [|discriminate]. intros X. injection X as <- <-. eauto.
    - intros a F st x st' U. rewrite lower_elem_group. destruct (reserve _ _) as [[id ex] st1] eqn:E1.
      apply unit_free_reserve in E1; auto. destruct ex; [intros X; injection X as <- <-; auto|].
      destruct (budget_exceeded _ _) as [ov st2] eqn:E2. apply unit_free_budget in E2; auto. destruct ov; [intros X; injection X as <- <-; auto|].
      destruct (lower_alts max lr a st2) as [[al st3]|] eqn:E3; [|discriminate]. intros X. injection X as <- <-.
      apply unit_free_set; [|discriminate]. eapply alts_unit; eauto.
    - intros a F st x st' U. rewrite lower_elem_option. destruct (reserve _ _) as [[id ex] st1] eqn:E1.
      apply unit_free_reserve in E1; auto. destruct ex; [intros X; injection X as <- <-; auto|].
      destruct (budget_exceeded _ _) as [ov st2] eqn:E2. apply unit_free_budget in E2; auto. destruct ov; [intros X; injection X as <- <-; auto|].
      destruct (lower_alts max lr a st2) as [[al st3]|] eqn:E3; [|discriminate]. intros X. injection X as <- <-.
      apply unit_free_set; [|discriminate]. eapply alts_unit; eauto.
    - intros s vs st x st' U X. injection X as <- <-. auto.
    - intros b t es st x st' U X. injection X as <- <-. auto.
    - intros vs st x st' U X. injection X as <- <-. auto.
    - intros mn mx e IH st x st' U. rewrite lower_rep_eq. destruct ((mn =? 1) && (mx =? 1))%bool eqn:One; [eauto|].
      destruct (reserve _ _) as [[id ex] st1] eqn:E1.
      apply unit_free_reserve in E1; auto. destruct ex; [intros X; injection X as <- <-; auto|].
      destruct (budget_exceeded _ _) as [ov st2] eqn:E2. apply unit_free_budget in E2; auto. destruct ov; [intros X; injection X as <- <-; auto|].
      destruct (negb (mx =? inf) && (mx <? mn))%bool; [intros X; injection X as <- <-; auto|].
      destruct (lower_elem max lr e st2) as [[es st3]|] eqn:E3; [|discriminate]. intros X. injection X as <- <-.
      apply unit_free_set; [eapply IH; eauto|]. cbn [nt_repmin nt_repmax]. intros _ [-> ->]. discriminate.
  Qed.
End Unit.

Lemma lower_rule_unit g max f : forall n st id st', unit_free (ls_nts st) -> lower_rule g max f n st = Some (id, st') -> unit_free (ls_nts st').
Proof.
  induction f as [|f IH]; intros n st id st' U; [discriminate|]. cbn [lower_rule].
  destruct (reserve _ _) as [[i ex] st1] eqn:E1. apply unit_free_reserve in E1; auto. destruct ex; [intros X; injection X as <- <-; auto|].
  destruct (budget_exceeded _ _) as [ov st2] eqn:E2. apply unit_free_budget in E2; auto. destruct ov; [intros X; injection X as <- <-; auto|].
  destruct (get_rule n g) as [r|]; [|intros X; injection X as <- <-; auto].
  destruct (lower_alts max (lower_rule g max f) (rule_alt r) st2) as [[al st3]|] eqn:E3; [|discriminate].
  intros X. injection X as <- <-. apply unit_free_set; [|discriminate].
  eapply alts_unit; [|exact E2|exact E3]. apply Forall_forall. intros c _. apply Forall_forall. intros x _. apply lower_unit. exact IH.
Qed.
Theorem compile_unit_free g root max fuel sg : compile_slots g root max fuel = CS_ok sg -> unit_free (sg_nts sg).
Proof.
  unfold compile_slots. destruct (get_rule root g); [|discriminate].
  destruct (lower_rule g max fuel root ls_init) as [[id st]|] eqn:E; [|discriminate]. destruct (ls_over st); [discriminate|].
  intros X. injection X as <-. cbn [sg_nts]. eapply lower_rule_unit; [|exact E]. intros X nt N. destruct X; discriminate.
Qed.
