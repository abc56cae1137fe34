(** A slot grammar that represents an ABNF grammar has its language.
    Its definitions are means of proof and model no code. *)
From Coq Require Import ZArith String Ascii Bool List Lia.
From Verif Require Import Syntax Spec Utf8 Num Term Printer Slots PropTerm Gll GllUniv BsrProof LowerProof.
Import ListNotations.
Local Open Scope Z_scope.

Lemma core_wf : Forall (fun r => wf_alt (rule_alt r)) core_rules.
Proof.
  unfold core_rules.
  repeat (constructor; [solve [
    unfold wf_alt; cbn [rule_alt];
    repeat first [ apply Forall_nil | apply Forall_cons | apply wf_rep_intro; [vm_compute; discriminate|first [left; reflexivity|right; vm_compute; discriminate]|]
                 | apply wf_rule | apply wf_char | apply wf_group | apply wf_option | apply wf_numval; split
                 | eexists; vm_compute; reflexivity | exact Logic.I | reflexivity ]]|]).
  constructor.
Qed.

Scheme occ_elem_mut := Minimality for occ_elem Sort Prop
with occ_rep_mut := Minimality for occ_rep Sort Prop.

Lemma wf_occ g : wf_grammar g -> (forall e, occ_elem g e -> wf_elem e) /\ (forall r, occ_rep g r -> wf_rep r).
Proof.
  intros [_ W].
  assert (W' : forall r, In r (g ++ core_rules) -> wf_alt (rule_alt r)).
  { intros r H. apply in_app_iff in H as [H|H].
    - rewrite Forall_forall in W. auto.
    - pose proof core_wf as C. rewrite Forall_forall in C. auto. }
  assert (S : forall a c x, Forall (Forall wf_rep) a -> In c a -> In x c -> wf_rep x).
  { intros a c x F A B. rewrite Forall_forall in F. specialize (F c A). rewrite Forall_forall in F. auto. }
  split.
  - apply (occ_elem_mut g wf_elem wf_rep); intros.
    + inversion H0; auto.
    + apply (S (rule_alt r) c x); auto. apply W'; auto.
    + inversion H0; subst; eauto.
    + inversion H0; subst; eauto.
  - apply (occ_rep_mut g wf_elem wf_rep); intros.
    + inversion H0; auto.
    + apply (S (rule_alt r) c x); auto. apply W'; auto.
    + inversion H0; subst; eauto.
    + inversion H0; subst; eauto.
Qed.

Lemma get_rule_lower n n' g : lower n = lower n' -> get_rule n g = get_rule n' g.
Proof.
  intros H. unfold get_rule, get_rule_core, get_rule_in, equal_fold. rewrite H. reflexivity.
Qed.

Lemma str_app_inj (p a b : string) : (p ++ a = p ++ b)%string -> a = b.
Proof. induction p; cbn; auto. intros H. injection H as H. auto. Qed.

Lemma core_distinct : distinct_names core_rules.
Proof. unfold distinct_names. repeat (constructor; [cbn; intuition discriminate|]). constructor. Qed.

Lemma resolves_fun g m a b : distinct_names g -> resolves g m a -> resolves g m b -> a = b.
Proof.
  intros Dn [(r1 & A1 & A2 & A3)|(A0 & r1 & A1 & A2 & A3)] [(r2 & B1 & B2 & B3)|(B0 & r2 & B1 & B2 & B3)].
  - rewrite <- A3, <- B3. f_equal. apply (find_unique m g); auto.
  - exfalso. eapply B0; eauto.
  - exfalso. eapply A0; eauto.
  - rewrite <- A3, <- B3. f_equal. apply (find_unique m core_rules); auto. apply core_distinct.
Qed.

Section Lang.
  Variable g : grammar.
  Variable root : string.
  Variable sg : slot_grammar.
  Variable idx : list (string * nat).
  Variable input : list Z.
  Hypothesis wf : wf_grammar g.
  Hypothesis pinj : print_inj g.
  Hypothesis RP : represents g root sg idx.

  Notation n := (length input).

  Lemma rp_complete it id : occ_item g it -> assoc (key_of it) idx = Some id ->
    exists nt, nth_error (sg_nts sg) id = Some nt /\ nt_matches g idx id it nt.
  Proof.
    intros Oc A. destruct (rp_done _ _ _ _ RP _ _ A) as (it' & nt & K & Oc' & N & M).
    exists nt. split; auto. destruct pinj as (J1 & J2 & J3).
    destruct it as [m|a|a|r], it' as [m'|a'|a'|r']; cbn [key_of] in K; try discriminate; cbn [occ_item] in *.
    - apply str_app_inj in K. cbn [nt_matches] in *.
      rewrite (get_rule_lower m m' g) by congruence. auto.
    - assert (elem_string (EGroup a') = elem_string (EGroup a)) as E by exact (str_app_inj _ _ _ K).
      rewrite <- (J1 a' a Oc' Oc E). auto.
    - assert (elem_string (EOption a') = elem_string (EOption a)) as E by exact (str_app_inj _ _ _ K).
      rewrite <- (J2 a' a Oc' Oc E). auto.
    - assert (rep_string r' = rep_string r) as E by exact (str_app_inj _ _ _ K).
      rewrite <- (J3 r' r (proj1 Oc') (proj1 Oc) (proj2 Oc') E). auto.
  Qed.

  Lemma rp_item id nt : nth_error (sg_nts sg) id = Some nt ->
    exists it, occ_item g it /\ assoc (key_of it) idx = Some id /\ nt_matches g idx id it nt.
  Proof.
    intros N. assert (L : (id < length (sg_nts sg))%nat) by (apply nth_error_Some; congruence).
    destruct (rp_surj _ _ _ _ RP _ L) as [k A].
    destruct (rp_done _ _ _ _ RP _ _ A) as (it & nt' & K & Oc & N' & M). subst k.
    exists it. rewrite N in N'. inversion N'; subst. auto.
  Qed.

  (** Alternates of the items other than repetitions. *)
  Definition item_alt (it : item) (alt : nat) (c : concatenation) : Prop :=
    match it with
    | IRule m => exists r, get_rule m g = Some r /\ nth_error (rule_alt r) alt = Some c
    | IGrp a => nth_error a alt = Some c
    | IOpt a => exists k, alt = S k /\ nth_error a k = Some c
    | IRep _ => False
    end.

  Lemma Forall2_nth {A B} (R : A -> B -> Prop) l l' k y : Forall2 R l l' -> nth_error l' k = Some y ->
    exists x, nth_error l k = Some x /\ R x y.
  Proof.
    intros F. revert k. induction F; intros [|k] H1; cbn in *; try discriminate; eauto.
    inversion H1; subst. eauto.
  Qed.
  Lemma Forall2_nth' {A B} (R : A -> B -> Prop) l l' k x : Forall2 R l l' -> nth_error l k = Some x ->
    exists y, nth_error l' k = Some y /\ R x y.
  Proof.
    intros F. revert k. induction F; intros [|k] H1; cbn in *; try discriminate; eauto.
    inversion H1; subst. eauto.
  Qed.

  Lemma Forall2_len {A B} (R : A -> B -> Prop) l l' : Forall2 R l l' -> length l = length l'.
  Proof. induction 1; cbn; auto. Qed.

  Lemma item_alt_occ it alt c x : occ_item g it -> item_alt it alt c -> In x c -> occ_rep g x.
  Proof.
    destruct it; cbn; intros Oc H I.
    - destruct H as (r & G & N). apply nth_error_In in N. eapply occ_rep_rule; eauto. eapply get_rule_in_list; eauto.
    - apply nth_error_In in H. eapply occ_rep_group; eauto.
    - destruct H as (k & _ & H). apply nth_error_In in H. eapply occ_rep_option; eauto.
    - easy.
  Qed.

  (* productions of a plain nonterminal *)
  Lemma plain_prod it id nt alt p : nt_matches g idx id it nt -> nth_error (nt_alts nt) alt = Some p ->
    nt_isrep nt = false ->
    (exists a, it = IOpt a /\ alt = 0%nat /\ p = [SEps]) \/ (exists c, item_alt it alt c /\ cat_sym idx c p).
  Proof.
    destruct it as [m|a|a|[mn mx e]]; cbn [nt_matches item_alt]; intros M N R.
    - destruct (get_rule m g) as [r|]; [|subst nt; destruct alt; discriminate].
      destruct M as [_ F]. destruct (Forall2_nth _ _ _ _ _ F N) as (c & A & B). right. exists c. eauto.
    - destruct M as [_ F]. destruct (Forall2_nth _ _ _ _ _ F N) as (c & A & B). right. exists c. eauto.
    - destruct M as (_ & alts & E & F). rewrite E in N. destruct alt as [|k]; cbn in N.
      + inversion N; subst. left. eauto.
      + destruct (Forall2_nth _ _ _ _ _ F N) as (c & A & B). right. exists c. eauto.
    - destruct M as [(_ & _ & ->)|(_ & es & _ & ->)]; [destruct alt; discriminate|discriminate].
  Qed.

  Lemma rep_item it id nt : nt_matches g idx id it nt -> nt_isrep nt = true ->
    exists mn mx e es, it = IRep (Rep mn mx e) /\ (mx = inf \/ mn <= mx) /\ elem_sym idx e es /\
      nt = mkNT false "" [[SEps]; [es; SNonterm id]] true mn mx.
  Proof.
    destruct it as [m|a|a|[mn mx e]]; cbn [nt_matches]; intros M R.
    - destruct (get_rule m g); [destruct M as [[M _] _]; congruence|subst; discriminate].
    - destruct M as [[M _] _]; congruence.
    - destruct M as [[M _] _]; congruence.
    - destruct M as [(_ & _ & ->)|(B & es & C & D)]; [discriminate|]. exists mn, mx, e, es. auto.
  Qed.

  Lemma shape : rep_shape sg.
  Proof.
    intros X nt N R. destruct (rp_item _ _ N) as (it & _ & _ & M).
    destruct (rep_item _ _ _ M R) as (mn & mx & e & es & _ & _ & _ & ->). exists es. reflexivity.
  Qed.

  Lemma start_plain : forall nt, nth_error (sg_nts sg) (sg_start sg) = Some nt -> nt_isrep nt = false.
  Proof.
    intros nt N. destruct (rp_done _ _ _ _ RP _ _ (rp_start _ _ _ _ RP)) as (it & nt' & K & _ & N' & M).
    rewrite N in N'. inversion N'; subst nt'. destruct (nt_isrep nt) eqn:R; auto.
    destruct (rep_item _ _ _ M R) as (mn & mx & e & es & -> & _). discriminate.
  Qed.

  Lemma nonempty : forall L p, prod_of sg L = Some p -> p <> [].
  Proof.
    intros L p. unfold prod_of. destruct (nth_error (sg_nts sg) (s_nt L)) as [nt|] eqn:N; [|discriminate].
    intros P. destruct (rp_item _ _ N) as (it & _ & _ & M). destruct (nt_isrep nt) eqn:R.
    - destruct (rep_item _ _ _ M R) as (mn & mx & e & es & _ & _ & _ & ->). cbn in P.
      destruct (s_alt L) as [|[|[]]]; cbn in P; inversion P; discriminate.
    - destruct (plain_prod _ _ _ _ _ M P R) as [(a & _ & _ & ->)|(c & _ & seq & _ & ->)]; [discriminate|].
      destruct seq; discriminate.
  Qed.

  (** *** From derivations to the language *)
  Definition rest_spec (it : item) (alt dot : nat) (rc : Z) (w : list Z) : Prop :=
    match it with
    | IRep (Rep mn mx e) =>
        (alt = 0%nat /\ w = []) \/
        (alt = 1%nat /\ ((mx = inf \/ rc < mx) ->
           match dot with
           | 0%nat => exists m, in_pow g e (S m) w /\ mn <= rc + 1 + Z.of_nat m /\ (mx = inf \/ rc + 1 + Z.of_nat m <= mx)
           | 1%nat => exists m, in_pow g e m w /\ mn <= rc + 1 + Z.of_nat m /\ (mx = inf \/ rc + 1 + Z.of_nat m <= mx)
           | _ => w = []
           end))
    | _ => (exists a, it = IOpt a /\ alt = 0%nat /\ w = []) \/
           (exists c, item_alt it alt c /\ in_cat g (skipn dot c) w)
    end.

  Definition item_lang (it : item) (w : list Z) : Prop :=
    match it with
    | IRule m => in_elem g (ERule m) w
    | IGrp a => in_elem g (EGroup a) w
    | IOpt a => in_elem g (EOption a) w
    | IRep r => in_rep g r w
    end.

  Lemma item_alt_lang it alt c w : item_alt it alt c -> in_cat g c w -> item_lang it w.
  Proof.
    destruct it as [m|a|a|r]; cbn; intros H C.
    - destruct H as (r & G & N). apply nth_error_In in N. pose proof (C19_get_rule_exact m g) as X. rewrite G in X.
      destruct X as [X _]. eapply in_rule; eauto. econstructor; eauto.
    - apply nth_error_In in H. apply in_group. econstructor; eauto.
    - destruct H as (k & _ & H). apply nth_error_In in H. apply in_option_some. econstructor; eauto.
    - easy.
  Qed.

  (* what a call of [X] yields *)
  Lemma call_lang it X c rc L' rc' w : assoc (key_of it) idx = Some X -> occ_item g it ->
    (forall nt, nth_error (sg_nts sg) X = Some nt -> nt_isrep nt = true -> X <> c) ->
    In (L', rc') (starts sg c rc X) -> rest_spec it (s_alt L') 0 rc' w -> item_lang it w.
  Proof.
    intros A Oc NC S RS. destruct (rp_complete it X Oc A) as (nt & N & M).
    pose proof S as S0. apply starts_in in S as (nt' & N' & E & G). rewrite N in N'. inversion N'; subst nt'. clear N'.
    destruct it as [m|a|a|[mn mx e]].
    - destruct RS as [(a & E1 & _)|(c0 & A1 & A2)]; [discriminate|]. eapply item_alt_lang; eauto.
    - destruct RS as [(a' & E1 & _)|(c0 & A1 & A2)]; [discriminate|]. eapply item_alt_lang; eauto.
    - destruct RS as [(a' & E1 & _ & ->)|(c0 & A1 & A2)]; [apply in_option_none|]. eapply item_alt_lang; eauto.
    - cbn [nt_matches] in M. destruct M as [(_ & _ & ->)|(B & es & C & D)].
      { exfalso. unfold starts in S0. rewrite N in S0. exact S0. }
      destruct G as [[G _]|(_ & Erc & G)]; [subst nt; discriminate|].
      specialize (NC nt N). rewrite D in NC. specialize (NC eq_refl).
      rewrite (proj2 (Nat.eqb_neq _ _) NC) in Erc. subst rc'.
      assert (Wr : wf_rep (Rep mn mx e)) by (apply (wf_occ g wf); apply Oc).
      inversion Wr as [? ? ? W1 W2 W3]; subst. cbn [nt_repmin nt_repmax] in G.
      cbn [item_lang]. destruct RS as [[E0 ->]|[E1 RS]].
      + destruct G as [[_ G]|[G _]]; [|rewrite G in E0; discriminate].
        apply in_rep_intro with (n := 0%nat); [lia| |constructor]. destruct W2; [auto|right; lia].
      + destruct G as [[G _]|[_ G]]; [rewrite G in E1; discriminate|].
        destruct (RS G) as (k & P & Q1 & Q2). apply in_rep_intro with (n := S k); auto; [lia|].
        destruct Q2; auto. right. lia.
  Qed.

  Lemma rep_sym_term r t : rep_sym idx r (STerm t) -> r = Rep 1 1 t /\ is_terminal t = true.
  Proof.
    intros [(A & B & C)|(_ & id & E & _)]; [|discriminate]. destruct r as [mn mx e]; cbn in *; subst.
    destruct e; cbn in C; try (destruct C as (id & E & _); discriminate); inversion C; auto.
  Qed.

  Lemma in_rep_one e w : in_elem g e w -> in_rep g (Rep 1 1 e) w.
  Proof.
    intros H. apply in_rep_intro with (n := 1%nat); try lia. rewrite <- (app_nil_r w).
    constructor; auto. constructor.
  Qed.
  Lemma in_rep_one_inv e w : in_rep g (Rep 1 1 e) w -> in_elem g e w.
  Proof.
    intros H. inversion H as [? ? ? k ? A B C]; subst. unfold inf in B. assert (k = 1%nat) by lia. subst.
    inversion C as [|? ? w1 w2 D E]; subst. inversion E; subst. rewrite app_nil_r. auto.
  Qed.

  (* the repetition a nonterminal symbol stands for *)
  Lemma rep_sym_nt r X : occ_rep g r -> rep_sym idx r (SNonterm X) ->
    exists it, assoc (key_of it) idx = Some X /\ occ_item g it /\ (forall w, item_lang it w <-> in_rep g r w).
  Proof.
    intros Oc [(A & B & C)|(NC & id & E & D)].
    - destruct r as [mn mx e]; cbn in *; subst. assert (Oe : occ_elem g e) by (econstructor; eauto).
      destruct e; cbn in C; try discriminate; destruct C as (id & E & D); inversion E; subst id.
      + exists (IRule name). split; auto. split; [exact Logic.I|]. intros w; cbn. split; [apply in_rep_one|apply in_rep_one_inv].
      + exists (IGrp a). split; auto. split; auto. intros w; cbn. split; [apply in_rep_one|apply in_rep_one_inv].
      + exists (IOpt a). split; auto. split; auto. intros w; cbn. split; [apply in_rep_one|apply in_rep_one_inv].
    - inversion E; subst id. exists (IRep r). split; auto. split; [split; auto|]. intros w. reflexivity.
  Qed.

  Lemma elem_sym_nt e X : occ_elem g e -> elem_sym idx e (SNonterm X) ->
    exists it, assoc (key_of it) idx = Some X /\ occ_item g it /\ (forall w, item_lang it w <-> in_elem g e w) /\
      (forall r, it <> IRep r).
  Proof.
    intros Oe C. destruct e; cbn in C; try discriminate; destruct C as (id & E & D); inversion E; subst id.
    - exists (IRule name). repeat split; auto; discriminate.
    - exists (IGrp a). repeat split; auto; discriminate.
    - exists (IOpt a). repeat split; auto; discriminate.
  Qed.

  Lemma plain_item it X nt : assoc (key_of it) idx = Some X -> occ_item g it -> (forall r, it <> IRep r) ->
    nth_error (sg_nts sg) X = Some nt -> nt_isrep nt = false.
  Proof.
    intros A Oc NR N. destruct (rp_complete it X Oc A) as (nt' & N' & M). rewrite N in N'. inversion N'; subst nt'.
    destruct (nt_isrep nt) eqn:R; auto. destruct (rep_item _ _ _ M R) as (mn & mx & e & es & E & _).
    exfalso. eapply NR; eauto.
  Qed.

  Lemma cat_sym_nth c p d s : cat_sym idx c p -> nth_error p d = Some s ->
    (c = [] /\ s = SEps /\ d = 0%nat) \/ (exists r, nth_error c d = Some r /\ rep_sym idx r s).
  Proof.
    intros (seq & F & ->) N. destruct F as [|r x c seq F1 F2].
    - cbn in N. left. destruct d as [|[|d]]; cbn in N; inversion N; auto.
    - right. cbn [nonempty_seq] in N. eapply Forall2_nth; [constructor; eauto|exact N].
  Qed.

  Lemma cat_sym_len c p : cat_sym idx c p -> (length c <= length p)%nat.
  Proof. intros (seq & F & ->). apply Forall2_len in F. destruct seq; cbn in *; lia. Qed.

  Lemma skipn_nth {A} (l : list A) : forall d x, nth_error l d = Some x -> skipn d l = x :: skipn (S d) l.
  Proof. induction l; intros [|d] x H; cbn in *; try discriminate; [congruence|]. apply IHl, H. Qed.

  Lemma drest_lang L rc i j : drest sg input L rc i j -> (i <= n)%nat ->
    exists w, span input i j w /\
      forall it, assoc (key_of it) idx = Some (s_nt L) -> occ_item g it -> rest_spec it (s_alt L) (s_dot L) rc w.
  Proof.
    intros D. induction D as [L rc i p P E|L rc i k j p s P N M D IH|L rc i k j p X L' rc' P N S D1 IH1 D2 IH2]; intros Hi.
    - (* end *)
      exists []. split; [apply span_nil; auto|]. intros it A Oc. destruct (rp_complete it _ Oc A) as (nt & Nn & Mt).
      unfold prod_of in P. rewrite Nn in P. destruct (nt_isrep nt) eqn:R.
      + destruct (rep_item _ _ _ Mt R) as (mn & mx & e & es & -> & _ & _ & ->). cbn in P.
        destruct (s_alt L) as [|[|[]]]; cbn in P; inversion P; subst; cbn; auto.
        right. split; auto. rewrite E. cbn. auto.
      + destruct (plain_prod _ _ _ _ _ Mt P R) as [(a & -> & Ea & _)|(c & Ia & Cs)].
        * cbn. left. eauto.
        * assert (Q : rest_spec it (s_alt L) (s_dot L) rc [] =
            ((exists a, it = IOpt a /\ s_alt L = 0%nat /\ @nil Z = []) \/
             (exists c, item_alt it (s_alt L) c /\ in_cat g (skipn (s_dot L) c) []))).
          { destruct it as [| | |[]]; try reflexivity. easy. }
          rewrite Q. right. exists c. split; auto. rewrite skipn_all2; [constructor|].
          rewrite E. apply cat_sym_len in Cs. auto.
    - (* terminal *)
      assert (Hk : (i <= k <= n)%nat) by (eapply match_sym_bounds; eauto).
      destruct (IH ltac:(lia)) as (w2 & S2 & H2). cbn [adv s_nt s_alt s_dot] in H2.
      assert (T : exists w1, span input i k w1 /\ (s = SEps -> w1 = []) /\
                forall t, s = STerm t -> is_terminal t = true -> wf_elem t -> in_elem g t w1).
      { destruct s; cbn in M; [discriminate| |].
        - destruct (is_terminal t) eqn:It.
          + exists (firstn (k - i) (skipn i input)).
            assert (Sp : span input i k (firstn (k - i) (skipn i input))).
            { exists (firstn i input), (skipn (k - i) (skipn i input)). rewrite !firstn_skipn.
              rewrite firstn_length, firstn_length, skipn_length. repeat split; lia. }
            split; auto. split; [discriminate|]. intros t' Et _ W. inversion Et; subst t'.
            apply (match_term_spec g t It W input i k ltac:(lia)) in M as (w & W1 & W2).
            rewrite (span_fun _ _ _ _ _ Sp W2). auto.
          + exfalso. destruct t; cbn in It, M; discriminate.
        - inversion M; subst. exists []. split; [apply span_nil; lia|]. split; auto. discriminate. }
      destruct T as (w1 & S1 & T1 & T2). exists (w1 ++ w2). split; [eapply span_app; eauto|].
      intros it A Oc. specialize (H2 it A Oc). destruct (rp_complete it _ Oc A) as (nt & Nn & Mt).
      unfold prod_of in P. rewrite Nn in P. destruct (nt_isrep nt) eqn:R.
      + destruct (rep_item _ _ _ Mt R) as (mn & mx & e & es & -> & _ & Es & ->). cbn in P.
        destruct (s_alt L) as [|[|[]]] eqn:Al; cbn in P; inversion P; subst; cbn; auto.
        * left. split; auto. destruct (s_dot L) as [|[|]] eqn:Dt; cbn in N; inversion N; subst.
          destruct H2 as [[_ ->]|[H2 _]]; [|discriminate]. rewrite T1; auto.
        * right. split; auto. intros G. destruct H2 as [[H2 _]|[_ H2]]; [discriminate|]. specialize (H2 G).
          destruct (s_dot L) as [|[|[]]] eqn:Dt; cbn in N; inversion N; subst; try (cbn in M; discriminate).
          destruct H2 as (m & P1 & P2). exists m. split; auto. constructor; auto.
          assert (We : wf_elem e /\ occ_elem g e).
          { assert (occ_elem g e) by (econstructor; apply Oc). split; auto. apply (wf_occ g wf); auto. }
          destruct s; cbn in M; try discriminate.
          -- assert (e = t /\ is_terminal t = true) as [-> It].
             { destruct e; cbn in Es; try (destruct Es as (? & ? & _); discriminate); inversion Es; auto. }
             apply T2; auto. apply We.
          -- destruct e; cbn in Es; try (destruct Es as (? & ? & _); discriminate); inversion Es.
      + assert (NR : forall r, it <> IRep r).
        { intros r ->. destruct r as [mn mx e]. cbn in Mt. destruct Mt as [(_ & _ & ->)|(_ & es & _ & ->)]; [|discriminate].
          destruct (s_alt L); discriminate. }
        assert (Q : forall d w, rest_spec it (s_alt L) d rc w =
            ((exists a, it = IOpt a /\ s_alt L = 0%nat /\ w = []) \/
             (exists c, item_alt it (s_alt L) c /\ in_cat g (skipn d c) w))).
        { intros. destruct it as [| | |[]]; try reflexivity. exfalso. eapply NR; eauto. }
        rewrite Q in *. destruct (plain_prod _ _ _ _ _ Mt P R) as [(a & -> & Ea & ->)|(c & Ia & Cs)].
        * left. exists a. split; auto. split; auto.
          destruct (s_dot L) as [|[|]]; cbn in N; inversion N; subst. rewrite (T1 eq_refl).
          destruct H2 as [(_ & _ & _ & ->)|(c & (k0 & H2 & _) & _)]; auto. congruence.
        * right. exists c. split; auto.
          destruct H2 as [(a & -> & Ea & ->)|(c' & Ia' & C2)].
          { exfalso. cbn in Ia. destruct Ia as (k0 & Ia & _). congruence. }
          assert (c' = c).
          { destruct it as [m|a|a|r]; cbn in Ia, Ia'; try congruence; try easy.
            - destruct Ia as (r & G1 & G2), Ia' as (r' & G1' & G2'). congruence.
            - destruct Ia as (r & G1 & G2), Ia' as (r' & G1' & G2'). assert (r = r') by congruence. congruence. }
          subst c'. destruct (cat_sym_nth _ _ _ _ Cs N) as [(-> & -> & Ed)|(r & Nr & Rs)].
          -- rewrite (T1 eq_refl). destruct (s_dot L); cbn in *; auto.
          -- rewrite (skipn_nth _ _ _ Nr). constructor; auto.
             assert (Oc' : occ_rep g r) by (eapply item_alt_occ; eauto; eapply nth_error_In; eauto).
             destruct s; cbn in M; [discriminate| |].
             ++ apply rep_sym_term in Rs as [-> It]. apply in_rep_one. apply T2; auto.
                apply (wf_occ g wf). econstructor; eauto.
             ++ exfalso. destruct Rs as [(_ & _ & C)|(_ & id & E & _)]; [|discriminate].
                destruct (rep_elem r); cbn in C; try (destruct C as (? & ? & _); discriminate); discriminate.
    - (* call *)
      destruct (IH1 Hi) as (w1 & S1 & H1). pose proof (span_le _ _ _ _ S1).
      destruct (IH2 ltac:(lia)) as (w2 & S2 & H2). cbn [adv s_nt s_alt s_dot] in H2.
      exists (w1 ++ w2). split; [eapply span_app; eauto|].
      pose proof (starts_dot0 _ _ _ _ _ _ S) as [Ed En]. rewrite Ed, En in H1.
      intros it A Oc. specialize (H2 it A Oc). destruct (rp_complete it _ Oc A) as (nt & Nn & Mt).
      unfold prod_of in P. rewrite Nn in P. destruct (nt_isrep nt) eqn:R.
      + destruct (rep_item _ _ _ Mt R) as (mn & mx & e & es & -> & Bd & Es & ->). cbn in P.
        destruct (s_alt L) as [|[|[]]] eqn:Al; cbn in P; inversion P; subst p; cbn.
        { destruct (s_dot L) as [|[|]]; cbn in N; inversion N. }

        right. split; auto. intros G. destruct H2 as [[H2 _]|[_ H2]]; [discriminate|]. specialize (H2 G).
        assert (Oe : occ_elem g e) by (econstructor; apply Oc).
        destruct (s_dot L) as [|[|[]]] eqn:Dt; cbn in N; inversion N.
        * subst es. destruct (elem_sym_nt e X Oe Es) as (it' & A' & Oc' & LG & NR).
          destruct H2 as (m & P1 & P2). exists m. split; auto. constructor; auto. apply LG.
          apply (call_lang it' X (s_nt L) rc L' rc'); auto.
          intros nt Nx Rx. rewrite (plain_item it' X nt A' Oc' NR Nx) in Rx. discriminate.
        * subst w2. rewrite app_nil_r. subst X. rewrite <- H3 in *.
          specialize (H1 (IRep (Rep mn mx e)) A Oc). cbn [rest_spec] in H1.
          apply starts_in in S as (nt & Nx & _ & C). rewrite Nn in Nx. inversion Nx; subst nt. clear Nx.
          destruct C as [[C _]|(_ & Erc & C)]; [discriminate|]. rewrite Nat.eqb_refl in Erc.
          cbn [nt_repmin nt_repmax] in C. unfold cap_rc in Erc. cbn [nt_repmin nt_repmax] in Erc.
          assert (Wr : wf_rep (Rep mn mx e)) by (apply (wf_occ g wf); apply Oc).
          inversion Wr as [? ? ? W1 W2 W3]; subst mn0 mx0 e0.
          destruct H1 as [[E1 ->]|[E1 H1]].
          -- destruct C as [[_ C]|[C _]]; [|rewrite C in E1; discriminate].
             exists 0%nat. split; [constructor|].
             destruct (Z.eqb_spec mx inf) as [->|Ne]; cbn [andb] in Erc.
             ++ destruct (Z.ltb_spec mn (rc + 1)); subst rc'; split; try lia; auto.
             ++ subst rc'. split; [lia|]. right. destruct G; [easy|lia].
          -- destruct C as [[C _]|[_ C]]; [rewrite C in E1; discriminate|].
             destruct (H1 C) as (m & Q1 & Q2 & Q3). exists (S m). split; auto.
             destruct (Z.eqb_spec mx inf) as [->|Ne]; cbn [andb] in Erc.
             ++ destruct (Z.ltb_spec mn (rc + 1)); subst rc'; split; try lia; auto.
             ++ subst rc'. split; [lia|]. right. destruct Q3; [easy|lia].
      + assert (NR : forall r, it <> IRep r).
        { intros r ->. destruct r as [mn mx e]. cbn in Mt. destruct Mt as [(_ & _ & ->)|(_ & es & _ & ->)]; [|discriminate].
          destruct (s_alt L); discriminate. }
        assert (Q : forall d w, rest_spec it (s_alt L) d rc w =
            ((exists a, it = IOpt a /\ s_alt L = 0%nat /\ w = []) \/
             (exists c, item_alt it (s_alt L) c /\ in_cat g (skipn d c) w))).
        { intros. destruct it as [| | |[]]; try reflexivity. exfalso. eapply NR; eauto. }
        rewrite Q in *. destruct (plain_prod _ _ _ _ _ Mt P R) as [(a & -> & Ea & ->)|(c & Ia & Cs)].
        * exfalso. destruct (s_dot L) as [|[|]]; cbn in N; inversion N.
        * right. exists c. split; auto.
          destruct H2 as [(a & -> & Ea & ->)|(c' & Ia' & C2)].
          { exfalso. cbn in Ia. destruct Ia as (k0 & Ia & _). congruence. }
          assert (c' = c).
          { destruct it as [m|a|a|r]; cbn in Ia, Ia'; try congruence; try easy.
            - destruct Ia as (r & G1 & G2), Ia' as (r' & G1' & G2'). congruence.
            - destruct Ia as (r & G1 & G2), Ia' as (r' & G1' & G2'). assert (r = r') by congruence. congruence. }
          subst c'. destruct (cat_sym_nth _ _ _ _ Cs N) as [(_ & E & _)|(r & Nr & Rs)]; [discriminate|].
          rewrite (skipn_nth _ _ _ Nr). constructor; auto.
          assert (Oc' : occ_rep g r) by (eapply item_alt_occ; eauto; eapply nth_error_In; eauto).
          destruct (rep_sym_nt r X Oc' Rs) as (it' & A' & Oi & LG). apply LG.
          apply (call_lang it' X (s_nt L) rc L' rc'); auto.
          intros nt' Nx Rx ->. rewrite Nn in Nx. inversion Nx; subst. congruence.
  Qed.

  Lemma accepts_lang : sg_accepts sg input -> Lang g root input.
  Proof.
    intros (L & rc & S & D). destruct (drest_lang _ _ _ _ D ltac:(lia)) as (w & Sp & H).
    apply span_whole in Sp. subst w. pose proof (start_dot0 _ _ _ S) as (E1 & E2 & E3). subst rc.
    specialize (H (IRule root)). rewrite E2 in H. specialize (H (rp_start _ _ _ _ RP) Logic.I). rewrite E1 in H.
    destruct H as [(a & H & _)|(c & Ia & C)]; [discriminate|].
    exact (item_alt_lang (IRule root) _ _ _ Ia C).
  Qed.

  (** *** From the language to derivations *)
  Definition symd (c : nat) (rc : Z) (s : ssym) (i j : nat) : Prop :=
    match_sym s input i = Some j \/
    exists X L' rc', s = SNonterm X /\ In (L', rc') (starts sg c rc X) /\ drest sg input L' rc' i j.

  Definition plain (X : nat) : Prop := exists nt, nth_error (sg_nts sg) X = Some nt /\ nt_isrep nt = false.

  Definition cat_goal (c : concatenation) (i j : nat) : Prop :=
    forall L p, prod_of sg L = Some p -> cat_sym idx c p -> s_dot L = 0%nat -> plain (s_nt L) ->
      drest sg input L 0 i j.

  Lemma symd_drest L p s rc i k j : prod_of sg L = Some p -> nth_error p (s_dot L) = Some s ->
    symd (s_nt L) rc s i k -> drest sg input (adv L) rc k j -> drest sg input L rc i j.
  Proof.
    intros P N [M|(X & L' & rc' & -> & S & D)] R; [eapply drest_term|eapply drest_nt]; eauto.
  Qed.

  Lemma plain_starts c rc X nt alt p : nth_error (sg_nts sg) X = Some nt -> nt_isrep nt = false ->
    nth_error (nt_alts nt) alt = Some p -> In (mkSlot X alt 0, 0) (starts sg c rc X).
  Proof.
    intros N R P. unfold starts. rewrite N, R. apply in_map_iff. exists alt. split; auto. apply in_seq.
    assert (nth_error (nt_alts nt) alt <> None) by congruence. apply nth_error_Some in H. lia.
  Qed.

  (* an alternate of a plain item gives a derivation from its nonterminal *)
  Lemma item_alt_symd it X alt c i j c0 rc0 : assoc (key_of it) idx = Some X -> occ_item g it ->
    item_alt it alt c -> cat_goal c i j -> symd c0 rc0 (SNonterm X) i j.
  Proof.
    intros A Oc Ia G. destruct (rp_complete it X Oc A) as (nt & N & M).
    assert (B : nt_isrep nt = false /\ exists p, nth_error (nt_alts nt) alt = Some p /\ cat_sym idx c p).
    { destruct it as [m|a|a|r]; cbn in M, Ia.
      - destruct Ia as (r & E & Nr). rewrite E in M. destruct M as [M1 M2]. split; [apply M1|].
        eapply Forall2_nth'; eauto.
      - destruct M as [M1 M2]. split; [apply M1|]. eapply Forall2_nth'; eauto.
      - destruct M as (M1 & alts & M2 & M3). split; [apply M1|]. destruct Ia as (k & -> & Nr). rewrite M2. cbn.
        eapply Forall2_nth'; eauto.
      - easy. }
    destruct B as (R & p & Np & Cs). right. exists X, (mkSlot X alt 0), 0. split; auto. split.
    - eapply plain_starts; eauto.
    - apply G with (p := p); auto.
      + unfold prod_of. cbn. rewrite N. auto.
      + exists nt. auto.
  Qed.

  Definition Qe (e : elem) (w : list Z) : Prop := occ_elem g e -> forall s i j c rc,
    elem_sym idx e s -> span input i j w -> symd c rc s i j.
  Definition Qa (a : alternation) (w : list Z) : Prop := (forall c x, In c a -> In x c -> occ_rep g x) ->
    forall i j, span input i j w -> exists k c, nth_error a k = Some c /\ cat_goal c i j.
  Definition Qc (c : concatenation) (w : list Z) : Prop := (forall x, In x c -> occ_rep g x) ->
    forall c1 L p i j, prod_of sg L = Some p -> cat_sym idx (c1 ++ c) p -> c1 ++ c <> [] ->
      s_dot L = length c1 -> plain (s_nt L) -> span input i j w -> drest sg input L 0 i j.
  Definition Qr (r : rep) (w : list Z) : Prop := occ_rep g r -> forall s i j c, rep_sym idx r s -> plain c ->
    span input i j w -> symd c 0 s i j.
  Definition Qp (e : elem) (m : nat) (w : list Z) : Prop := (m = 1%nat -> Qe e w) /\ (occ_elem g e -> forall mn mx X es rc i j,
    nth_error (sg_nts sg) X = Some (mkNT false "" [[SEps]; [es; SNonterm X]] true mn mx) ->
    elem_sym idx e es -> span input i j w -> mn <= rc + Z.of_nat m -> (mx = inf \/ rc + Z.of_nat m <= mx) ->
    exists L', In (L', rc) (rep_alts (mkNT false "" [[SEps]; [es; SNonterm X]] true mn mx) X rc) /\
      drest sg input L' rc i j).

  Lemma term_symd e w s i j c rc : is_terminal e = true -> occ_elem g e -> in_elem g e w ->
    elem_sym idx e s -> span input i j w -> symd c rc s i j.
  Proof.
    intros It Oe H Es Sp. left.
    assert (s = STerm e) by (destruct e; try discriminate; exact Es). subst s. cbn.
    pose proof (span_le _ _ _ _ Sp). apply (match_term_spec g e It (proj1 (wf_occ g wf) e Oe)); [lia|].
    exists w. auto.
  Qed.

  Lemma lang_drest : (forall e w, in_elem g e w -> Qe e w) /\ (forall a w, in_alt g a w -> Qa a w) /\
    (forall c w, in_cat g c w -> Qc c w) /\ (forall r w, in_rep g r w -> Qr r w) /\
    (forall e m w, in_pow g e m w -> Qp e m w).
  Proof.
    apply lang_mut.
    - (* rule *)
      intros m a w Rs Ha IH Oe s i j c rc (id & -> & A) Sp.
      pose proof (C19_get_rule_exact m g) as X.
      assert (exists r, get_rule m g = Some r /\ rule_alt r = a) as (r & G & <-).
      { destruct (get_rule m g) as [r|] eqn:G; [|exfalso; eapply X; eauto]. exists r. split; auto.
        destruct X as [X _]. destruct wf as [Dn _]. eapply resolves_fun; eauto. }
      destruct (IH) with (i := i) (j := j) as (k & c0 & N & Cg); auto.
      { intros c0 x H1 H2. eapply occ_rep_rule; eauto. eapply get_rule_in_list; eauto. }
      apply (item_alt_symd (IRule m) id k c0); auto; [exact Logic.I|]. exists r. auto.
    - (* group *)
      intros a w Ha IH Oe s i j c rc (id & -> & A) Sp.
      destruct (IH) with (i := i) (j := j) as (k & c0 & N & Cg); auto.
      { intros c0 x H1 H2. eapply occ_rep_group; eauto. }
      apply (item_alt_symd (IGrp a) id k c0); auto.
    - (* option, absent *)
      intros a Oe s i j c rc (id & -> & A) Sp.
      destruct (rp_complete (IOpt a) id Oe A) as (nt & N & [R _] & alts & E & _).
      right. exists id, (mkSlot id 0 0), 0. split; auto.
      assert (P : prod_of sg (mkSlot id 0 0) = Some [SEps]) by (unfold prod_of; cbn; rewrite N, E; reflexivity).
      split; [eapply plain_starts; eauto; rewrite E; reflexivity|].
      destruct (span_skipn_inv _ _ _ _ Sp) as (rest & _ & _ & ->). cbn. rewrite Nat.add_0_r.
      eapply drest_term; [exact P|reflexivity|reflexivity|]. eapply drest_end; [exact P|reflexivity].
    - (* option, present *)
      intros a w Ha IH Oe s i j c rc (id & -> & A) Sp.
      destruct (IH) with (i := i) (j := j) as (k & c0 & N & Cg); auto.
      { intros c0 x H1 H2. eapply occ_rep_option; eauto. }
      apply (item_alt_symd (IOpt a) id (S k) c0); auto. exists k. auto.
    - intros s vs rs F1 F2 Oe s' i j c rc Es Sp. eapply term_symd; eauto; [reflexivity|]. constructor; auto.
    - intros b ns rs F1 F2 Oe s' i j c rc Es Sp. eapply term_symd; eauto; [reflexivity|]. constructor; auto.
    - intros b lo hi l h r F1 F2 F3 F4 Oe s' i j c rc Es Sp. eapply term_symd; eauto; [reflexivity|]. econstructor; eauto.
    - (* alternation *)
      intros c a w Hc Ic IH Oc i j Sp. apply In_nth_error in Hc as [k N]. exists k, c. split; auto.
      intros L p P Cs Ed Pl. destruct c as [|r c].
      + inversion Ic; subst. destruct (span_skipn_inv _ _ _ _ Sp) as (rest & _ & _ & ->). cbn. rewrite Nat.add_0_r.
        destruct Cs as (seq & F & ->). inversion F; subst. cbn in P.
        eapply drest_term; [exact P|rewrite Ed; reflexivity|reflexivity|]. eapply drest_end; [exact P|].
        cbn. rewrite Ed. reflexivity.
      + apply (IH (fun x h => Oc (r :: c) x (nth_error_In _ _ N) h) [] L p i j); auto. discriminate.
    - (* empty concatenation *)
      intros Oc c1 L p i j P Cs Ne Ed Pl Sp. rewrite app_nil_r in *.
      destruct (span_skipn_inv _ _ _ _ Sp) as (rest & _ & _ & ->). cbn. rewrite Nat.add_0_r.
      eapply drest_end; eauto. destruct Cs as (seq & F & ->). pose proof (Forall2_len _ _ _ F) as Hl.
      destruct seq; cbn in *; [destruct c1; [congruence|discriminate]|lia].
    - (* concatenation *)
      intros r c w1 w2 Hr IHr Hc IHc Oc c1 L p i j P Cs Ne Ed Pl Sp.
      apply span_app_inv in Sp as [Sp1 Sp2].
      assert (N : exists s, nth_error p (s_dot L) = Some s /\ rep_sym idx r s).
      { destruct Cs as (seq & F & ->). pose proof (Forall2_len _ _ _ F) as Hl. rewrite app_length in Hl. cbn in Hl.
        destruct seq; [cbn in Hl; lia|]. cbn [nonempty_seq]. eapply Forall2_nth'; eauto. rewrite Ed.
        rewrite nth_error_app2, Nat.sub_diag by lia. reflexivity. }
      destruct N as (s & N & Rs).
      eapply symd_drest; eauto.
      + eapply IHr; eauto. apply Oc. left; auto.
      + apply (IHc (fun x h => Oc x (or_intror h)) (c1 ++ [r]) (adv L) p); auto.
        * rewrite <- app_assoc. auto.
        * destruct c1; discriminate.
        * cbn. rewrite Ed, app_length. cbn. lia.
    - (* repetition *)
      intros mn mx e m w B1 B2 Hp IH Oc s i j c Rs Pl Sp.
      assert (Oe : occ_elem g e) by (econstructor; exact Oc).
      destruct Rs as [(E1 & E2 & Es)|(NE & id & -> & A)]; cbn [rep_min rep_max rep_elem] in *.
      + subst mn mx. unfold inf in B2. assert (m = 1%nat) by lia. subst m.
        exact (proj1 IH eq_refl Oe _ _ _ _ _ Es Sp).
      + destruct (rp_complete (IRep (Rep mn mx e)) id (conj Oc NE) A) as (nt & N & M). cbn [nt_matches] in M.
        destruct M as [(Bm & Bx & _)|(B & es & Es & ->)]; [exfalso; destruct B2; [easy|lia]|].
        destruct (proj2 IH Oe mn mx id es 0 i j N Es Sp) as (L' & I1 & D); [lia|destruct B2; auto|].
        right. exists id, L', 0. split; auto. split; auto. unfold starts. rewrite N. cbn [nt_isrep].
        destruct (Nat.eqb_spec id c) as [->|]; auto. destruct Pl as (nt & Pl & R). rewrite N in Pl. inversion Pl; subst; discriminate.
    - (* zero times *)
      intros e. split; [discriminate|]. intros Oe mn mx X es rc i j N Es Sp B1 B2.
      exists (mkSlot X 0 0). split.
      + unfold rep_alts. cbn [nt_repmin nt_repmax]. apply in_or_app. left.
        destruct (Z.leb_spec mn rc); [left; auto|lia].
      + assert (P : prod_of sg (mkSlot X 0 0) = Some [SEps]) by (unfold prod_of; cbn; rewrite N; reflexivity).
        destruct (span_skipn_inv _ _ _ _ Sp) as (rest & _ & _ & ->). cbn [length]. rewrite Nat.add_0_r.
        eapply drest_term; [exact P|reflexivity|reflexivity|]. eapply drest_end; [exact P|reflexivity].
    - (* once more *)
      intros e m w1 w2 He IHe Hp IHp. split.
      { intros E. inversion E; subst m. inversion Hp; subst. rewrite app_nil_r. exact IHe. }
      intros Oe mn mx X es rc i j N Es Sp B1 B2. destruct (span_app_inv _ _ _ _ _ Sp) as [Sp1 Sp2].
      pose (nt := mkNT false "" [[SEps]; [es; SNonterm X]] true mn mx).
      assert (P : prod_of sg (mkSlot X 1 0) = Some [es; SNonterm X]) by (unfold prod_of; cbn; rewrite N; reflexivity).
      destruct (proj2 IHp Oe mn mx X es (cap_rc rc nt) (i + length w1)%nat j N Es Sp2) as (L' & I1 & D).
      { unfold cap_rc, nt; cbn [nt_repmin nt_repmax].
        destruct (Z.eqb_spec mx inf); cbn [andb]; [destruct (Z.ltb_spec mn (rc + 1))|]; lia. }
      { destruct (Z.eq_dec mx inf) as [->|Ne]; auto. right. unfold cap_rc, nt; cbn [nt_repmin nt_repmax].
        rewrite (proj2 (Z.eqb_neq _ _) Ne). cbn [andb]. destruct B2; [easy|lia]. }
      exists (mkSlot X 1 0). split.
      + unfold rep_alts. cbn [nt_repmin nt_repmax]. apply in_or_app. right.
        destruct (Z.eqb_spec mx inf); cbn [orb]; [left; auto|].
        destruct (Z.ltb_spec rc mx); [left; auto|]. destruct B2; [easy|lia].
      + eapply symd_drest; [exact P|reflexivity|eapply (IHe Oe); eauto|].
        eapply drest_nt; [exact P|reflexivity| |exact D|].
        * unfold starts. cbn [adv s_nt]. rewrite N. cbn [nt_isrep]. rewrite Nat.eqb_refl. exact I1.
        * eapply drest_end; [exact P|reflexivity].
  Qed.

  Lemma resolves_get m a : resolves g m a -> exists r, get_rule m g = Some r /\ rule_alt r = a.
  Proof.
    intros Rs. pose proof (C19_get_rule_exact m g) as X.
    destruct (get_rule m g) as [r|] eqn:G; [|exfalso; eapply X; eauto]. exists r. split; auto.
    destruct X as [X _]. destruct wf as [Dn _]. eapply resolves_fun; eauto.
  Qed.

  Lemma lang_accepts : Lang g root input -> sg_accepts sg input.
  Proof.
    intros H. destruct lang_drest as (_ & Q & _). inversion H as [m a w Rs Ha| | | | | |]; subst.
    destruct (resolves_get _ _ Rs) as (r & G & <-).
    destruct (Q _ _ Ha) with (i := 0%nat) (j := n) as (k & c0 & Nk & Cg); [|apply span_self|].
    { intros c0 x H1 H2. eapply occ_rep_rule; eauto. eapply get_rule_in_list; eauto. }
    destruct (rp_complete (IRule root) _ Logic.I (rp_start _ _ _ _ RP)) as (nt & N & M).
    assert (Rp : nt_isrep nt = false) by (apply start_plain; auto).
    destruct (item_alt_symd (IRule root) (sg_start sg) k c0 0 n 0 0) as [E|(X & L' & rc' & E & S & D)]; auto.
    - apply (rp_start _ _ _ _ RP).
    - exact Logic.I.
    - exists r. auto.
    - discriminate.
    - inversion E; subst X. exists L', rc'. split; auto.
      unfold starts in S. unfold start_slots. rewrite N in *. rewrite Rp in S. exact S.
  Qed.

  Theorem accepts_iff_lang : sg_accepts sg input <-> Lang g root input.
  Proof. split; [apply accepts_lang|apply lang_accepts]. Qed.
End Lang.
