(** Where a left-to-right derivation can stand, stated on the grammar, and its
    agreement with the slots of Furthest.v. *)
(** The definitions here are those of statements, proofs and examples; they model no code. *)
From Coq Require Import ZArith String Ascii Bool List Lia.
From Verif Require Import Syntax Spec Utf8 Num Term Printer Slots PropTerm Gll GllUniv BsrProof LowerProof LowerLang Furthest.
Import ListNotations.
Local Open Scope Z_scope.

(** ** Specification

    [reaches g e w t]: some left-to-right derivation of [e] reads [w], and the
    terminal [t] comes next. *)
Inductive reaches (g : grammar) : elem -> list Z -> elem -> Prop :=
| reach_here t : is_terminal t = true -> reaches g t [] t
| reach_rule m a w t : resolves g m a -> reaches_alt g a w t -> reaches g (ERule m) w t
| reach_group a w t : reaches_alt g a w t -> reaches g (EGroup a) w t
| reach_option a w t : reaches_alt g a w t -> reaches g (EOption a) w t
with reaches_alt (g : grammar) : alternation -> list Z -> elem -> Prop :=
| reach_alt a pre r post w1 w2 t : In (pre ++ r :: post) a -> in_cat g pre w1 -> reaches_rep g r w2 t ->
    reaches_alt g a (w1 ++ w2) t
with reaches_rep (g : grammar) : rep -> list Z -> elem -> Prop :=
| reach_rep mn mx e k w1 w2 t : (mx = inf \/ (mn <= mx /\ Z.of_nat k < mx)) -> in_pow g e k w1 -> reaches g e w2 t ->
    reaches_rep g (Rep mn mx e) (w1 ++ w2) t.

Scheme reaches_mut := Minimality for reaches Sort Prop
with reaches_alt_mut := Minimality for reaches_alt Sort Prop
with reaches_rep_mut := Minimality for reaches_rep Sort Prop.
Combined Scheme reaches_all from reaches_mut, reaches_alt_mut, reaches_rep_mut.

(** ** Proofs *)
Lemma pow_snoc g e k w1 : in_pow g e k w1 -> forall w2, in_elem g e w2 -> in_pow g e (S k) (w1 ++ w2).
Proof.
  induction k as [|k IH] in w1 |- *; intros P w2 H; inversion P; subst.
  - cbn [app]. rewrite <- (app_nil_r w2). constructor; auto.
  - rewrite <- app_assoc. constructor; auto.
Qed.
Lemma cat_snoc g c : forall w1 r w2, in_cat g c w1 -> in_rep g r w2 -> in_cat g (c ++ [r]) (w1 ++ w2).
Proof.
  induction c as [|x c IH]; intros w1 r w2 P H; inversion P; subst; cbn [app].
  - rewrite <- (app_nil_r w2). constructor; auto.
  - rewrite <- app_assoc. constructor; auto.
Qed.
Lemma firstn_snoc {A} (l : list A) : forall d x, nth_error l d = Some x -> firstn (S d) l = firstn d l ++ [x].
Proof.
  induction l as [|y l IH]; intros [|d] x H; cbn in H; try discriminate.
  - injection H as ->. reflexivity.
  - cbn [firstn app]. f_equal. rewrite <- (IH d x H). reflexivity.
Qed.

Section Front.
  Variable g : grammar.
  Variable root : string.
  Variable sg : slot_grammar.
  Variable idx : list (string * nat).
  Variable input : list Z.
  Hypothesis wf : wf_grammar g.
  Hypothesis pinj : print_inj g.
  Hypothesis RP : represents g root sg idx.

  Notation complete_at := (rp_complete g root sg idx pinj RP).
  Notation plainX := (plain sg).

  (** *** From slots to the grammar *)
  Definition item_reaches (it : item) (w : list Z) (t : elem) : Prop :=
    match it with
    | IRule m => reaches g (ERule m) w t
    | IGrp a => reaches g (EGroup a) w t
    | IOpt a => reaches g (EOption a) w t
    | IRep r => reaches_rep g r w t
    end.
  (** (proof) what is reached inside [it] after [w0] is reached by the root. *)
  Definition front (it : item) (w0 : list Z) : Prop :=
    forall w t, item_reaches it w t -> reaches g (ERule root) (w0 ++ w) t.
  (** (proof) what a slot has read of its item. *)
  Definition read (it : item) (alt dot : nat) (rc : Z) (w : list Z) : Prop :=
    match it with
    | IRep (Rep mn mx e) =>
        alt = 0%nat \/
        (alt = 1%nat /\ (mx = inf \/ mn <= mx) /\ exists k, (mx = inf \/ (rc = Z.of_nat k /\ rc < mx)) /\
           match dot with 0%nat => in_pow g e k w | 1%nat => in_pow g e (S k) w | _ => True end)
    | _ => (exists a, it = IOpt a /\ alt = 0%nat) \/
           (exists c, item_alt g it alt c /\ in_cat g (firstn dot c) w)
    end.

  Lemma read_plain it alt dot rc w : (forall r, it <> IRep r) ->
    read it alt dot rc w = ((exists a, it = IOpt a /\ alt = 0%nat) \/
           (exists c, item_alt g it alt c /\ in_cat g (firstn dot c) w)).
  Proof. intros N. destruct it as [| | |[]]; try reflexivity. exfalso. eapply N; eauto. Qed.

  Lemma not_rep_item it id nt alt p : nt_matches g idx id it nt -> nt_isrep nt = false -> nth_error (nt_alts nt) alt = Some p ->
    forall r, it <> IRep r.
  Proof.
    intros M R P r ->. destruct r as [mn mx e]. cbn in M. destruct M as [(_ & _ & ->)|(_ & es & _ & ->)]; [|discriminate].
    destruct alt; discriminate.
  Qed.

  Lemma item_alt_fun it alt c c' : item_alt g it alt c -> item_alt g it alt c' -> c = c'.
  Proof.
    destruct it as [m|a|a|r]; cbn; intros A B; try easy; try congruence.
    - destruct A as (r & G1 & G2), B as (r' & G1' & G2'). congruence.
    - destruct A as (r & G1 & G2), B as (r' & G1' & G2'). assert (r = r') by congruence. congruence.
  Qed.

  (** Reading one more symbol. *)
  Lemma read_step it L rc p s w1 w : assoc (key_of it) idx = Some (s_nt L) -> occ_item g it ->
    read it (s_alt L) (s_dot L) rc w1 -> prod_of sg L = Some p -> nth_error p (s_dot L) = Some s ->
    (s = SEps -> w = []) ->
    (forall e, occ_elem g e -> elem_sym idx e s -> in_elem g e w) ->
    (plainX (s_nt L) -> forall r, occ_rep g r -> rep_sym idx r s -> in_rep g r w) ->
    read it (s_alt L) (S (s_dot L)) rc (w1 ++ w).
  Proof.
    intros A Oc Rd P N Q0 Q1 Q2. destruct (complete_at it _ Oc A) as (nt & Nn & M).
    unfold prod_of in P. rewrite Nn in P. destruct (nt_isrep nt) eqn:R.
    - destruct (rep_item _ _ _ _ _ M R) as (mn & mx & e & es & -> & Bd & Es & ->). cbn [nt_alts] in P. cbn [read] in *.
      destruct Rd as [Rd|(E1 & B & k & K & Rd)]; [left; auto|]. right. split; auto. split; auto. exists k. split; auto.
      rewrite E1 in P. cbn in P. inversion P; subst p. destruct (s_dot L) as [|[|]]; auto.
      cbn in N. inversion N; subst s. apply pow_snoc; auto. apply Q1; auto. econstructor; apply Oc.
    - assert (NR := not_rep_item _ _ _ _ _ M R P). rewrite read_plain in * by auto.
      destruct (plain_prod _ _ _ _ _ _ _ M P R) as [(a & -> & Ea & ->)|(c & Ia & Cs)]; [left; eauto|].
      destruct Rd as [Rd|(c' & Ia' & Rd)]; [left; auto|]. rewrite (item_alt_fun _ _ _ _ Ia' Ia) in *. clear Ia'.
      right. exists c. split; auto.
      destruct (cat_sym_nth _ _ _ _ _ Cs N) as [(-> & -> & Ed)|(r & Nr & Rs)].
      + rewrite (Q0 eq_refl), app_nil_r. rewrite Ed in *. exact Rd.
      + rewrite (firstn_snoc _ _ _ Nr). apply cat_snoc; auto. apply Q2; auto.
        * exists nt. auto.
        * eapply item_alt_occ; eauto. eapply nth_error_In; eauto.
  Qed.

  (** Entering a nonterminal. *)
  Lemma read_start it X c rc L rc' : assoc (key_of it) idx = Some X -> occ_item g it ->
    (forall nt, nth_error (sg_nts sg) X = Some nt -> nt_isrep nt = true -> X <> c) ->
    In (L, rc') (starts sg c rc X) -> (exists p, prod_of sg L = Some p) ->
    s_nt L = X /\ read it (s_alt L) (s_dot L) rc' [].
  Proof.
    intros A Oc NC S [p P]. pose proof (starts_dot0 _ _ _ _ _ _ S) as [Ed En]. split; auto. rewrite Ed.
    destruct (complete_at it _ Oc A) as (nt & Nn & M). apply starts_in in S as (nt' & N' & _ & G).
    rewrite Nn in N'. injection N' as <-. unfold prod_of in P. rewrite En, Nn in P.
    destruct (nt_isrep nt) eqn:R.
    - destruct G as [[G _]|(_ & Erc & G)]; [discriminate|]. specialize (NC nt Nn R).
      rewrite (proj2 (Nat.eqb_neq _ _) NC) in Erc. subst rc'.
      destruct (rep_item _ _ _ _ _ M R) as (mn & mx & e & es & -> & Bd & Es & ->). cbn [read].
      destruct G as [[-> _]|[-> G]]; [left; reflexivity|]. right. split; [reflexivity|]. split; auto.
      exists 0%nat. split; [|constructor]. cbn [nt_repmax] in G. destruct G as [G|G]; auto.
    - assert (NR := not_rep_item _ _ _ _ _ M R P). rewrite read_plain by auto.
      destruct (plain_prod _ _ _ _ _ _ _ M P R) as [(a & -> & Ea & _)|(c0 & Ia & Cs)]; [left; eauto|].
      right. exists c0. split; auto. constructor.
  Qed.

  Lemma item_alt_reaches it alt c pre r post w1 w2 t : item_alt g it alt c -> c = pre ++ r :: post ->
    in_cat g pre w1 -> reaches_rep g r w2 t -> item_reaches it (w1 ++ w2) t.
  Proof.
    intros Ia -> C H. destruct it as [m|a|a|r']; cbn in *.
    - destruct Ia as (r0 & G & N). apply nth_error_In in N. pose proof (C19_get_rule_exact m g) as X. rewrite G in X.
      destruct X as [X _]. eapply reach_rule; eauto. econstructor; eauto.
    - apply nth_error_In in Ia. apply reach_group. econstructor; eauto.
    - destruct Ia as (k & _ & N). apply nth_error_In in N. apply reach_option. econstructor; eauto.
    - easy.
  Qed.

  Lemma elem_sym_reach e X : occ_elem g e -> elem_sym idx e (SNonterm X) ->
    exists it, assoc (key_of it) idx = Some X /\ occ_item g it /\ (forall w t, item_reaches it w t -> reaches g e w t) /\
      (forall w, item_lang g it w -> in_elem g e w) /\ (forall r, it <> IRep r).
  Proof.
    intros Oe C. destruct e; cbn in C; try discriminate; destruct C as (id & E & D); inversion E; subst id.
    - exists (IRule name). repeat split; auto; discriminate.
    - exists (IGrp a). repeat split; auto; discriminate.
    - exists (IOpt a). repeat split; auto; discriminate.
  Qed.
  Lemma reach_one e w t : reaches g e w t -> reaches_rep g (Rep 1 1 e) w t.
  Proof.
    intros H. change w with ([] ++ w). apply reach_rep with (k := 0%nat); auto; [|constructor]. right. cbn. lia.
  Qed.
  Lemma rep_sym_reach r X : occ_rep g r -> rep_sym idx r (SNonterm X) ->
    exists it, assoc (key_of it) idx = Some X /\ occ_item g it /\ (forall w t, item_reaches it w t -> reaches_rep g r w t) /\
      (forall w, item_lang g it w -> in_rep g r w).
  Proof.
    intros Oc [(A & B & C)|(NC & id & E & D)].
    - destruct r as [mn mx e]; cbn in *; subst. assert (Oe : occ_elem g e) by (econstructor; eauto).
      destruct (elem_sym_reach e X Oe C) as (it & H1 & H2 & H3 & H4 & _). exists it. split; auto. split; auto.
      split; intros; [apply reach_one|apply in_rep_one]; auto.
    - inversion E; subst id. exists (IRep r). split; auto. split; [split; auto|]. split; auto.
  Qed.

  (** (proof only) What a descriptor at [i] has read. *)
  Definition stands (L : slot) (rc : Z) (i : nat) : Prop :=
    exists it w0 w1, assoc (key_of it) idx = Some (s_nt L) /\ occ_item g it /\ span input 0 i (w0 ++ w1) /\
      front it w0 /\ read it (s_alt L) (s_dot L) rc w1.

  Lemma plain_not_rep X c nt : plainX c -> nth_error (sg_nts sg) X = Some nt -> nt_isrep nt = true -> X <> c.
  Proof. intros (nt' & N' & R') N R ->. rewrite N in N'. inversion N'; subst. congruence. Qed.

  (** The context of a call. *)
  Lemma front_call it L rc p X w0 w1 : assoc (key_of it) idx = Some (s_nt L) -> occ_item g it -> front it w0 ->
    read it (s_alt L) (s_dot L) rc w1 -> prod_of sg L = Some p -> nth_error p (s_dot L) = Some (SNonterm X) ->
    (exists it', assoc (key_of it') idx = Some X /\ occ_item g it' /\ front it' (w0 ++ w1) /\
       (forall nt, nth_error (sg_nts sg) X = Some nt -> nt_isrep nt = true -> X <> s_nt L)) \/
    (exists mn mx e es, it = IRep (Rep mn mx e) /\ X = s_nt L /\ s_alt L = 1%nat /\ s_dot L = 1%nat /\
       nth_error (sg_nts sg) X = Some (mkNT false "" [[SEps]; [es; SNonterm X]] true mn mx)).
  Proof.
    intros A Oc Fr Rd P N. destruct (complete_at it _ Oc A) as (nt & Nn & M).
    unfold prod_of in P. rewrite Nn in P. destruct (nt_isrep nt) eqn:R.
    - destruct (rep_item _ _ _ _ _ M R) as (mn & mx & e & es & -> & Bd & Es & ->). cbn [nt_alts] in P. cbn [read] in *.
      assert (Oe : occ_elem g e) by (econstructor; apply Oc).
      destruct (s_alt L) as [|[|[]]] eqn:Al; cbn in P; inversion P; subst p.
      { destruct (s_dot L) as [|[|]]; cbn in N; inversion N. }
      destruct Rd as [Rd|(_ & B & k & K & Rd)]; [discriminate|].
      destruct (s_dot L) as [|[|[]]] eqn:Dt; cbn in N; inversion N.
      + left. subst es. destruct (elem_sym_reach e X Oe Es) as (it' & A' & Oc' & RG & LG & NR).
        exists it'. split; auto. split; auto. split.
        * intros w t H. rewrite <- app_assoc. apply Fr. cbn. apply RG in H. econstructor; eauto.
          destruct K as [K|[K1 K2]]; auto. destruct B as [B|B]; [left; auto|right; split; auto; lia].
        * intros nt Nx Rx. rewrite (plain_item _ _ _ _ pinj RP it' X nt A' Oc' NR Nx) in Rx. discriminate.
      + right. exists mn, mx, e, es. subst X. repeat split; auto.
    - left. assert (NR := not_rep_item _ _ _ _ _ M R P). rewrite read_plain in Rd by auto.
      assert (Pl : plainX (s_nt L)) by (exists nt; auto).
      destruct (plain_prod _ _ _ _ _ _ _ M P R) as [(a & -> & Ea & ->)|(c & Ia & Cs)].
      { exfalso. destruct (s_dot L) as [|[|]]; cbn in N; inversion N. }
      destruct Rd as [(a & -> & Ea)|(c' & Ia' & Rd)].
      { exfalso. cbn in Ia. destruct Ia as (k0 & Ia & _). congruence. }
      rewrite (item_alt_fun _ _ _ _ Ia' Ia) in *. clear Ia'.
      destruct (cat_sym_nth _ _ _ _ _ Cs N) as [(_ & E & _)|(r & Nr & Rs)]; [discriminate|].
      assert (Or : occ_rep g r) by (eapply item_alt_occ; eauto; eapply nth_error_In; eauto).
      destruct (rep_sym_reach r X Or Rs) as (it' & A' & Oi & RG & LG). exists it'. split; auto. split; auto. split.
      + intros w t H. rewrite <- app_assoc. apply Fr. eapply item_alt_reaches; eauto.
        rewrite <- (firstn_skipn (s_dot L) c) at 1. f_equal. apply skipn_nth, Nr.
      + intros. eapply plain_not_rep; eauto.
  Qed.

  Lemma rep_not_plain X nt : nth_error (sg_nts sg) X = Some nt -> nt_isrep nt = true -> ~ plainX X.
  Proof. intros N R (nt' & N' & R'). congruence. Qed.

  Lemma drest_prod L rc i j : drest sg input L rc i j -> exists p, prod_of sg L = Some p.
  Proof. intros D. inversion D; eauto. Qed.

  (** What a slot has read is read by the grammar. *)
  Lemma at_stands L rc i : at_slot sg input L rc i -> (exists p, prod_of sg L = Some p) -> stands L rc i.
  Proof.
    intros H. induction H as [L rc S|L rc i k p s H IH P N M|L rc i p X L' rc' H IH P N S|L rc i k p X L' rc' H IH P N S D]; intros [p' P'].
    - exists (IRule root), [], []. pose proof (start_dot0 _ _ _ S) as (E1 & E2 & E3). rewrite E1, E2.
      split; [apply (rp_start _ _ _ _ RP)|]. split; [exact Logic.I|]. split; [apply span_nil; lia|].
      split; [intros w t X; exact X|]. cbn [read]. right.
      destruct (complete_at (IRule root) _ Logic.I (rp_start _ _ _ _ RP)) as (nt & Nn & M).
      unfold prod_of in P'. rewrite E2, Nn in P'. assert (R := start_plain _ _ _ _ RP nt Nn).
      destruct (plain_prod _ _ _ _ _ _ _ M P' R) as [(a & E & _)|(c & Ia & _)]; [discriminate|].
      exists c. split; auto. constructor.
    - destruct (IH (ex_intro _ p P)) as (it & w0 & w1 & A & Oc & Sp & Fr & Rd).
      assert (Hi := at_bounds _ _ _ _ _ H).
      assert (Hk : (i <= k <= length input)%nat) by (eapply match_sym_bounds; eauto).
      assert (T : exists w, span input i k w /\ (s = SEps -> w = []) /\
                forall t, s = STerm t -> is_terminal t = true -> occ_elem g t -> in_elem g t w).
      { destruct s; cbn in M; [discriminate| |].
        - destruct (is_terminal t) eqn:It.
          + exists (firstn (k - i) (skipn i input)).
            assert (Sp' : span input i k (firstn (k - i) (skipn i input))).
            { exists (firstn i input), (skipn (k - i) (skipn i input)). rewrite !firstn_skipn.
              rewrite firstn_length, firstn_length, skipn_length. repeat split; lia. }
            split; auto. split; [discriminate|]. intros t' Et _ W. inversion Et; subst t'.
            apply (match_term_spec g t It (proj1 (wf_occ g wf) _ W) input i k ltac:(lia)) in M as (w & W1 & W2).
            rewrite (span_fun _ _ _ _ _ Sp' W2). auto.
          + exfalso. destruct t; cbn in It, M; discriminate.
        - inversion M; subst. exists []. split; [apply span_nil; lia|]. split; auto. discriminate. }
      destruct T as (w & Sw & T1 & T2).
      assert (NT : forall X, s <> SNonterm X) by (intros X ->; discriminate).
      exists it, w0, (w1 ++ w). split; auto. split; auto. split; [rewrite app_assoc; eapply span_app; eauto|].
      split; auto. cbn [adv s_nt s_alt s_dot]. apply (read_step it L rc p s w1 w A Oc Rd P N T1).
      + intros e Oe Es. destruct e; cbn in Es; try (destruct Es as (id & -> & _); exfalso; eapply NT; eauto); apply T2; auto.
      + intros _ r Or Rs. destruct s as [X|t|]; [exfalso; eapply NT; eauto| |].
        * apply rep_sym_term in Rs as [-> It]. apply in_rep_one. apply T2; auto. econstructor; eauto.
        * exfalso. destruct Rs as [(_ & _ & C)|(_ & id & E & _)]; [|discriminate].
          destruct (rep_elem r); cbn in C; try (destruct C as (? & ? & _); discriminate); discriminate.
    - destruct (IH (ex_intro _ p P)) as (it & w0 & w1 & A & Oc & Sp & Fr & Rd).
      destruct (front_call it L rc p X w0 w1 A Oc Fr Rd P N) as [(it' & A' & Oc' & Fr' & NC)|(mn & mx & e & es & -> & EX & Al & Dt & Nx)].
      + destruct (read_start it' X (s_nt L) rc L' rc' A' Oc' NC S (ex_intro _ p' P')) as [En Rd'].
        exists it', (w0 ++ w1), []. rewrite En, app_nil_r. auto.
      + exists (IRep (Rep mn mx e)), w0, w1. pose proof (starts_dot0 _ _ _ _ _ _ S) as [Ed En]. rewrite En, Ed. rewrite EX at 1.
        split; auto. split; auto. split; auto. split; auto. cbn [read] in *. rewrite Al, Dt in Rd.
        apply starts_in in S as (nt & N' & _ & G). rewrite Nx in N'. injection N' as <-.
        destruct G as [[G _]|(_ & Erc & G)]; [discriminate|]. cbn [nt_repmin nt_repmax] in G. rewrite EX, Nat.eqb_refl in Erc.
        destruct G as [[-> _]|[-> G]]; [left; reflexivity|]. right. split; [reflexivity|].
        destruct Rd as [Rd|(_ & B & k & K & Rd)]; [discriminate|]. split; auto. exists (S k). split; auto.
        destruct (Z.eq_dec mx inf) as [|Ne]; auto. right. destruct K as [K|[K1 K2]]; [easy|]. destruct G as [G|G]; [easy|].
        unfold cap_rc in Erc. cbn [nt_repmin nt_repmax] in Erc. rewrite (proj2 (Z.eqb_neq _ _) Ne) in Erc. cbn [andb] in Erc. split; lia.
    - destruct (IH (ex_intro _ p P)) as (it & w0 & w1 & A & Oc & Sp & Fr & Rd).
      assert (Hi := at_bounds _ _ _ _ _ H).
      destruct (drest_lang g root sg idx input wf pinj RP _ _ _ _ D Hi) as (w & Sw & HL).
      pose proof (starts_dot0 _ _ _ _ _ _ S) as [Ed En]. rewrite En, Ed in HL.
      exists it, w0, (w1 ++ w). split; auto. split; auto. split; [rewrite app_assoc; eapply span_app; eauto|].
      split; auto. cbn [adv s_nt s_alt s_dot]. apply (read_step it L rc p (SNonterm X) w1 w A Oc Rd P N ltac:(discriminate)).
      + intros e Oe Es. destruct (elem_sym_reach e X Oe Es) as (it' & A' & Oc' & _ & LG & NR). apply LG.
        apply (call_lang g root sg idx wf pinj RP it' X (s_nt L) rc L' rc'); auto.
        intros nt Nx Rx. rewrite (plain_item _ _ _ _ pinj RP it' X nt A' Oc' NR Nx) in Rx. discriminate.
      + intros Pl r Or Rs. destruct (rep_sym_reach r X Or Rs) as (it' & A' & Oc' & _ & LG). apply LG.
        apply (call_lang g root sg idx wf pinj RP it' X (s_nt L) rc L' rc'); auto.
        intros nt Nx Rx. eapply plain_not_rep; eauto.
  Qed.

  Lemma fails_reaches t i : fails_at sg input t i ->
    exists w, span input 0 i w /\ reaches g (ERule root) w t /\ ~ exists j v, in_elem g t v /\ span input i j v.
  Proof.
    intros (L & rc & p & At & P & N & F). assert (Hi := at_bounds _ _ _ _ _ At).
    destruct (at_stands _ _ _ At (ex_intro _ p P)) as (it & w0 & w1 & A & Oc & Sp & Fr & Rd).
    destruct (complete_at it _ Oc A) as (nt & Nn & M). unfold prod_of in P. rewrite Nn in P.
    assert (B : occ_elem g t /\ is_terminal t = true /\ reaches g (ERule root) (w0 ++ w1) t).
    { destruct (nt_isrep nt) eqn:R.
      - destruct (rep_item _ _ _ _ _ M R) as (mn & mx & e & es & -> & Bd & Es & ->). cbn [nt_alts] in P. cbn [read] in *.
        assert (Oe : occ_elem g e) by (econstructor; apply Oc).
        destruct (s_alt L) as [|[|[]]] eqn:Al; cbn in P; inversion P; subst p.
        { destruct (s_dot L) as [|[|]]; cbn in N; inversion N. }
        destruct Rd as [Rd|(_ & B & k & K & Rd)]; [discriminate|].
        destruct (s_dot L) as [|[|[]]] eqn:Dt; cbn in N; inversion N. subst es.
        assert (e = t /\ is_terminal t = true) as [-> It].
        { destruct e; cbn in Es; try (destruct Es as (? & ? & _); discriminate); inversion Es; auto. }
        split; auto. split; auto. apply Fr. cbn. rewrite <- (app_nil_r w1). apply reach_rep with (k := k); auto; [|constructor; auto].
        destruct K as [K|[K1 K2]]; auto. destruct B as [B|B]; [left; auto|right; split; auto; lia].
      - assert (NR := not_rep_item _ _ _ _ _ M R P). rewrite read_plain in Rd by auto.
        destruct (plain_prod _ _ _ _ _ _ _ M P R) as [(a & -> & Ea & ->)|(c & Ia & Cs)].
        { exfalso. destruct (s_dot L) as [|[|]]; cbn in N; inversion N. }
        destruct Rd as [(a & -> & Ea)|(c' & Ia' & Rd)].
        { exfalso. cbn in Ia. destruct Ia as (k0 & Ia & _). congruence. }
        rewrite (item_alt_fun _ _ _ _ Ia' Ia) in *. clear Ia'.
        destruct (cat_sym_nth _ _ _ _ _ Cs N) as [(_ & E & _)|(r & Nr & Rs)]; [discriminate|].
        apply rep_sym_term in Rs as [-> It].
        assert (Or : occ_rep g (Rep 1 1 t)) by (eapply item_alt_occ; eauto; eapply nth_error_In; eauto).
        split; [econstructor; eauto|]. split; auto. apply Fr. rewrite <- (app_nil_r w1).
        eapply item_alt_reaches; eauto; [|apply reach_one; constructor; auto].
        rewrite <- (firstn_skipn (s_dot L) c) at 1. f_equal. apply skipn_nth, Nr. }
    destruct B as (Ot & It & B). exists (w0 ++ w1). split; auto. split; auto. intros (j & v & I1 & I2).
    assert (match_term t input i = Some j) by (apply (match_term_spec g t It (proj1 (wf_occ g wf) t Ot)); eauto). congruence.
  Qed.

  (** *** From the grammar to slots *)
  Notation at' := (at_slot sg input).
  Lemma symd_at L rc i p s j : at' L rc i -> prod_of sg L = Some p -> nth_error p (s_dot L) = Some s ->
    symd sg input (s_nt L) rc s i j -> at' (adv L) rc j.
  Proof. intros A P N [M|(X & L' & rc' & -> & S & D)]; [eapply at_term|eapply at_ret]; eauto. Qed.

  (** A concatenation read up to a position. *)
  Lemma cat_at c : forall w, in_cat g c w -> (forall x, In x c -> occ_rep g x) -> forall c1 post L p i j,
    at' L 0 i -> prod_of sg L = Some p -> cat_sym idx (c1 ++ c ++ post) p -> post <> [] ->
    s_dot L = length c1 -> plainX (s_nt L) -> span input i j w ->
    exists L', at' L' 0 j /\ s_nt L' = s_nt L /\ s_alt L' = s_alt L /\ s_dot L' = (length c1 + length c)%nat.
  Proof.
    induction c as [|r c IH]; intros w H Oc c1 post L p i j A P Cs NE Ed Pl Sp.
    - inversion H; subst. destruct (span_skipn_inv _ _ _ _ Sp) as (rest & _ & _ & ->). exists L. cbn [length]. rewrite !Nat.add_0_r. auto.
    - inversion H as [|? ? w1 w2 Hr Hc]; subst. apply span_app_inv in Sp as [Sp1 Sp2].
      assert (N : exists s, nth_error p (s_dot L) = Some s /\ rep_sym idx r s).
      { destruct Cs as (seq & F & ->). pose proof (Forall2_len _ _ _ F) as Hl. rewrite app_length in Hl. cbn in Hl.
        destruct seq; [cbn in Hl; lia|]. cbn [nonempty_seq]. eapply Forall2_nth'; eauto. rewrite Ed.
        rewrite nth_error_app2, Nat.sub_diag by lia. reflexivity. }
      destruct N as (s & N & Rs).
      destruct (lang_drest g root sg idx input wf pinj RP) as (_ & _ & _ & Q & _).
      assert (A2 : at' (adv L) 0 (i + length w1)).
      { eapply symd_at; eauto. eapply (Q r w1); eauto. apply Oc. left; auto. }
      destruct (IH w2 Hc (fun x h => Oc x (or_intror h)) (c1 ++ [r]) post (adv L) p (i + length w1)%nat j) as (L' & B1 & B2 & B3 & B4); auto.
      + rewrite <- app_assoc. auto.
      + cbn. rewrite Ed, app_length. cbn. lia.
      + exists L'. split; auto. split; auto. split; auto. rewrite B4, app_length. cbn. lia.
  Qed.

  (** A counted repetition after some rounds. *)
  Lemma pow_at mn mx e es X : nth_error (sg_nts sg) X = Some (mkNT false "" [[SEps]; [es; SNonterm X]] true mn mx) ->
    occ_elem g e -> elem_sym idx e es -> forall k w, in_pow g e k w -> forall rc i j,
    at' (mkSlot X 1 0) rc i -> (mx = inf \/ rc + Z.of_nat k < mx) -> span input i j w ->
    exists rc', at' (mkSlot X 1 0) rc' j.
  Proof.
    intros Nx Oe Es. assert (P : prod_of sg (mkSlot X 1 0) = Some [es; SNonterm X]) by (unfold prod_of; cbn; rewrite Nx; reflexivity).
    induction k as [|k IH]; intros w Hp rc i j A B Sp; inversion Hp as [|? ? w1 w2 He Hp']; subst.
    - destruct (span_skipn_inv _ _ _ _ Sp) as (rest & _ & _ & ->). cbn [length]. rewrite Nat.add_0_r. eauto.
    - apply span_app_inv in Sp as [Sp1 Sp2].
      destruct (lang_drest g root sg idx input wf pinj RP) as (Q & _).
      assert (A1 : at' (adv (mkSlot X 1 0)) rc (i + length w1)).
      { eapply symd_at; eauto; [reflexivity|]. eapply (Q e w1); eauto. }
      apply (IH w2 Hp' (cap_rc rc (mkNT false "" [[SEps]; [es; SNonterm X]] true mn mx)) (i + length w1)%nat j); auto.
      + eapply at_call; [exact A1|exact P|reflexivity|]. unfold starts. cbn [adv s_nt]. rewrite Nx. cbn [nt_isrep]. rewrite Nat.eqb_refl.
        unfold rep_alts. cbn [nt_repmin nt_repmax]. apply in_or_app. right.
        destruct (Z.eqb_spec mx inf) as [->|Ne]; cbn [orb]; [left; auto|].
        unfold cap_rc. cbn [nt_repmin nt_repmax]. rewrite (proj2 (Z.eqb_neq _ _) Ne). cbn [andb].
        destruct (Z.ltb_spec (rc + 1) mx); [left; auto|]. destruct B; [easy|lia].
      + destruct (Z.eq_dec mx inf) as [->|Ne]; auto. right. unfold cap_rc. cbn [nt_repmin nt_repmax].
        rewrite (proj2 (Z.eqb_neq _ _) Ne). cbn [andb]. destruct B; [easy|lia].
  Qed.

  (** (proof) the parser tries the terminal [t] at [j]. *)
  Definition stops (t : elem) (j : nat) : Prop :=
    exists L rc p, at' L rc j /\ prod_of sg L = Some p /\ nth_error p (s_dot L) = Some (STerm t).

  (** (proof) statement for elements. *)
  Definition Re (e : elem) (w : list Z) (t : elem) : Prop := occ_elem g e -> forall L rc p s i j,
    at' L rc i -> prod_of sg L = Some p -> nth_error p (s_dot L) = Some s -> elem_sym idx e s -> span input i j w -> stops t j.
  (** (proof) statement for alternations. *)
  Definition Ra (a : alternation) (w : list Z) (t : elem) : Prop := (forall c x, In c a -> In x c -> occ_rep g x) ->
    exists k c, nth_error a k = Some c /\ forall L p i j, at' L 0 i -> prod_of sg L = Some p -> cat_sym idx c p -> s_dot L = 0%nat ->
      plainX (s_nt L) -> span input i j w -> stops t j.
  (** (proof) statement for repetitions. *)
  Definition Rr (r : rep) (w : list Z) (t : elem) : Prop := occ_rep g r -> forall L p s i j,
    at' L 0 i -> prod_of sg L = Some p -> nth_error p (s_dot L) = Some s -> rep_sym idx r s -> plainX (s_nt L) ->
    span input i j w -> stops t j.

  Lemma item_stops it X k c t w : assoc (key_of it) idx = Some X -> occ_item g it -> item_alt g it k c ->
    (forall L p i j, at' L 0 i -> prod_of sg L = Some p -> cat_sym idx c p -> s_dot L = 0%nat ->
      plainX (s_nt L) -> span input i j w -> stops t j) ->
    forall L rc p i j, at' L rc i -> prod_of sg L = Some p -> nth_error p (s_dot L) = Some (SNonterm X) -> span input i j w -> stops t j.
  Proof.
    intros A Oc Ia G L rc p i j At P N Sp. destruct (complete_at it X Oc A) as (nt & Nn & M).
    assert (B : nt_isrep nt = false /\ exists p, nth_error (nt_alts nt) k = Some p /\ cat_sym idx c p).
    { destruct it as [m|a|a|r]; cbn in M, Ia.
      - destruct Ia as (r & E & Nr). rewrite E in M. destruct M as [M1 M2]. split; [apply M1|].
        eapply Forall2_nth'; eauto.
      - destruct M as [M1 M2]. split; [apply M1|]. eapply Forall2_nth'; eauto.
      - destruct M as (M1 & alts & M2 & M3). split; [apply M1|]. destruct Ia as (k' & -> & Nr). rewrite M2. cbn.
        eapply Forall2_nth'; eauto.
      - easy. }
    destruct B as (R & p' & Np & Cs).
    apply (G (mkSlot X k 0) p' i j); auto.
    - eapply at_call; [exact At|exact P|exact N|]. eapply plain_starts; eauto.
    - unfold prod_of. cbn. rewrite Nn. auto.
    - exists nt. auto.
  Qed.

  Lemma reaches_stops : (forall e w t, reaches g e w t -> Re e w t) /\ (forall a w t, reaches_alt g a w t -> Ra a w t) /\
    (forall r w t, reaches_rep g r w t -> Rr r w t).
  Proof.
    apply reaches_all.
    - intros t It Oe L rc p s i j A P N Es Sp. destruct (span_skipn_inv _ _ _ _ Sp) as (rest & _ & _ & ->). cbn [length]. rewrite Nat.add_0_r.
      exists L, rc, p. split; auto. split; auto. rewrite N. f_equal. destruct t; try discriminate; exact Es.
    - intros m a w t Rs Ha IH Oe L rc p s i j A P N (id & -> & As) Sp.
      destruct (resolves_get g wf _ _ Rs) as (r & G & <-).
      destruct IH as (k & c & Nk & H). { intros c x H1 H2. eapply occ_rep_rule; eauto. eapply get_rule_in_list; eauto. }
      eapply (item_stops (IRule m) id k c t w); eauto; [exact Logic.I|]. exists r. auto.
    - intros a w t Ha IH Oe L rc p s i j A P N (id & -> & As) Sp.
      destruct IH as (k & c & Nk & H). { intros c x H1 H2. eapply occ_rep_group; eauto. }
      eapply (item_stops (IGrp a) id k c t w); eauto.
    - intros a w t Ha IH Oe L rc p s i j A P N (id & -> & As) Sp.
      destruct IH as (k & c & Nk & H). { intros c x H1 H2. eapply occ_rep_option; eauto. }
      eapply (item_stops (IOpt a) id (S k) c t w); eauto. exists k. auto.
    - intros a pre r post w1 w2 t Ia Hc Hr IH Oc. apply In_nth_error in Ia as [k Nk]. exists k, (pre ++ r :: post). split; auto.
      intros L p i j A P Cs Ed Pl Sp. apply span_app_inv in Sp as [Sp1 Sp2].
      destruct (cat_at pre w1 Hc) with (c1 := @nil rep) (post := r :: post) (L := L) (p := p) (i := i) (j := (i + length w1)%nat) as (L' & A' & E1 & E2 & E3); auto; [|discriminate|].
      { intros x Hx. eapply Oc; [eapply nth_error_In; eauto|]. apply in_or_app. auto. }
      assert (P' : prod_of sg L' = Some p) by (unfold prod_of in *; rewrite E1, E2; auto).
      assert (N : exists s, nth_error p (s_dot L') = Some s /\ rep_sym idx r s).
      { destruct Cs as (seq & F & ->). pose proof (Forall2_len _ _ _ F) as Hl. rewrite app_length in Hl. cbn in Hl.
        destruct seq; [cbn in Hl; lia|]. cbn [nonempty_seq]. eapply Forall2_nth'; eauto. rewrite E3. cbn [length Nat.add].
        rewrite nth_error_app2, Nat.sub_diag by lia. reflexivity. }
      destruct N as (s & N & Rs). eapply IH; eauto; [|rewrite E1; auto].
      eapply Oc; [eapply nth_error_In; eauto|]. apply in_or_app. right. left. auto.
    - intros mn mx e k w1 w2 t B Hp He IH Oc L p s i j A P N Rs Pl Sp.
      assert (Oe : occ_elem g e) by (econstructor; exact Oc). apply span_app_inv in Sp as [Sp1 Sp2].
      destruct Rs as [(E1 & E2 & Es)|(NE & id & -> & As)]; cbn [rep_min rep_max rep_elem] in *.
      + subst mn mx. unfold inf in B. assert (k = 0%nat) by lia. subst k. inversion Hp; subst. cbn [length] in *.
        rewrite Nat.add_0_r in *. eapply IH; eauto.
      + destruct (complete_at (IRep (Rep mn mx e)) id (conj Oc NE) As) as (nt & Nn & M). cbn [nt_matches] in M.
        destruct M as [(Bm & Bx & _)|(B' & es & Es & ->)]; [exfalso; destruct B as [B|[B _]]; [easy|lia]|].
        assert (A0 : at' (mkSlot id 1 0) 0 i).
        { eapply at_call; [exact A|exact P|exact N|]. unfold starts. rewrite Nn. cbn [nt_isrep].
          destruct (Nat.eqb_spec id (s_nt L)) as [->|]; [destruct Pl as (nt & Pl & R); rewrite Nn in Pl; inversion Pl; subst; discriminate|].
          unfold rep_alts. cbn [nt_repmin nt_repmax]. apply in_or_app. right.
          destruct (Z.eqb_spec mx inf); cbn [orb]; [left; auto|]. destruct (Z.ltb_spec 0 mx); [left; auto|]. destruct B as [B|[_ B]]; [easy|lia]. }
        destruct (pow_at mn mx e es id Nn Oe Es k w1 Hp 0 i (i + length w1)%nat A0) as [rc' A1]; auto.
        { destruct B as [B|[_ B]]; auto. }
        apply (IH Oe (mkSlot id 1 0) rc' [es; SNonterm id] es (i + length w1)%nat j A1); auto. unfold prod_of. cbn. rewrite Nn. reflexivity.
  Qed.

  Lemma reaches_fails t i w : span input 0 i w -> reaches g (ERule root) w t -> ~ (exists j v, in_elem g t v /\ span input i j v) ->
    occ_elem g t -> is_terminal t = true -> fails_at sg input t i.
  Proof.
    intros Sp H F Ot It. inversion H as [? Ht|m a w' t' Rs Ha| |]; subst; [discriminate|].
    destruct (resolves_get g wf _ _ Rs) as (r & G & <-).
    destruct reaches_stops as (_ & Q & _).
    destruct (Q _ _ _ Ha) as (k & c & Nk & S). { intros c x H1 H2. eapply occ_rep_rule; eauto. eapply get_rule_in_list; eauto. }
    destruct (complete_at (IRule root) _ Logic.I (rp_start _ _ _ _ RP)) as (nt & Nn & M).
    assert (R : nt_isrep nt = false) by (eapply start_plain; eauto).
    cbn [nt_matches] in M. rewrite G in M. destruct M as [_ M]. destruct (Forall2_nth' _ _ _ _ _ M Nk) as (p & Np & Cs).
    destruct (S (mkSlot (sg_start sg) k 0) p 0%nat i) as (L & rc & p' & A & P & N); auto.
    - apply at_start. unfold start_slots. rewrite Nn. apply in_map_iff. exists k. split; auto. apply in_seq.
      assert (nth_error (nt_alts nt) k <> None) by congruence. apply nth_error_Some in H0. lia.
    - unfold prod_of. cbn. rewrite Nn. auto.
    - exists nt. auto.
    - exists L, rc, p'. split; auto. split; auto. split; auto.
      destruct (match_term t input i) as [j|] eqn:E; auto. exfalso. apply F.
      apply (match_term_spec g t It (proj1 (wf_occ g wf) t Ot)) in E; [|eapply at_bounds; eauto]. destruct E as (v & E1 & E2). eauto.
  Qed.

  Lemma reaches_occ : (forall e w t, reaches g e w t -> occ_elem g e \/ (exists m, e = ERule m) -> occ_elem g t /\ is_terminal t = true) /\
    (forall a w t, reaches_alt g a w t -> (forall c x, In c a -> In x c -> occ_rep g x) -> occ_elem g t /\ is_terminal t = true) /\
    (forall r w t, reaches_rep g r w t -> occ_rep g r -> occ_elem g t /\ is_terminal t = true).
  Proof.
    apply reaches_all.
    - intros t It [H|[m ->]]; [auto|discriminate].
    - intros m a w t Rs Ha IH _. apply IH. intros c x H1 H2.
      destruct (resolves_get g wf _ _ Rs) as (r & G & <-). eapply occ_rep_rule; eauto. eapply get_rule_in_list; eauto.
    - intros a w t Ha IH [H|[m E]]; [|discriminate]. apply IH. intros c x H1 H2. eapply occ_rep_group; eauto.
    - intros a w t Ha IH [H|[m E]]; [|discriminate]. apply IH. intros c x H1 H2. eapply occ_rep_option; eauto.
    - intros a pre r post w1 w2 t Ia Hc Hr IH Oc. apply IH. eapply Oc; eauto. apply in_or_app. right. left. auto.
    - intros mn mx e k w1 w2 t B Hp He IH Oc. apply IH. left. econstructor; eauto.
  Qed.

  Theorem fails_iff t i : fails_at sg input t i <->
    exists w, span input 0 i w /\ reaches g (ERule root) w t /\ ~ exists j v, in_elem g t v /\ span input i j v.
  Proof.
    split; [apply fails_reaches|]. intros (w & Sp & H & F).
    destruct reaches_occ as (Q & _). destruct (Q _ _ _ H (or_intror (ex_intro _ root eq_refl))) as [Ot It].
    eapply reaches_fails; eauto.
  Qed.
End Front.
