(** NewASTGenerator accepts what it should; generation ends.
    Its definitions are means of proof and model no code. *)
From Coq Require Import ZArith Arith String Bool Relations List Lia.
From Verif Require Import Syntax Spec Utf8 Num Term Printer Check PropTerm Slots LowerLang PropSem PropGll TreeSpec TreeSound Occ PropDag LeftRec RecogGlue PropRecog Tape Ast PropGenerate AstSpec AstProof AstCost.
Import ListNotations.
Local Open Scope string_scope.
Local Open Scope list_scope.
Local Open Scope Z_scope.

(** An alternation of finite cost has a concatenation of that cost. *)
Lemma cost_alt_lt g m a : cost_ok m -> a <> [] -> cost_alt g m a < unbounded ->
  exists c, In c a /\ cost_cat g m c = cost_alt g m a /\ forall x, In x c -> cost_rep g m x <= cost_alt g m a.
Proof.
  intros K N L. assert (L' := L). apply min_cost_lt in L; [|intros Z0; apply map_eq_nil in Z0; auto].
  apply in_map_iff in L as (c & E & C). exists c. split; auto. split; auto.
  intros x X. unfold cost_alt. rewrite <- E. unfold cost_cat.
  apply clamp_fold_lt; auto; [intros; apply cost_nonneg; auto|lia|]. unfold cost_cat in E. rewrite E. exact L'.
Qed.

(** ** A finite cost means a finite derivation *)
Section Sound.
  Variable g : grammar.
  Hypothesis Alt : forall a, occ_alt g a -> a <> [].
  Hypothesis Bd : forall mn mx e, occ_rep g (Rep mn mx e) -> 0 <= mn /\ (mx = inf \/ mn <= mx).
  Hypothesis Tm : forall e, occ_elem g e -> terminal e -> exists w, in_elem g e w.

  Definition table_sound (m : costs) : Prop :=
    forall r v, In r (effective g) -> cost_get m (rule_name r) = Some v -> v < unbounded -> exists k, size_alt g (rule_alt r) k.

  Lemma pow_size e k n : size_elem g e k -> exists k', size_pow g e n k'.
  Proof. intros H. induction n as [|n (k' & IH)]; [exists 0; constructor|exists (k + k'); constructor; auto]. Qed.
  Lemma cat_size c : (forall x, In x c -> occ_rep g x) ->
    (forall x, In x c -> rep_min x = 0 \/ exists k, size_elem g (rep_elem x) k) -> exists k, size_cat g c k.
  Proof.
    induction c as [|[mn mx e] c IH]; intros O H; [exists 0; constructor|].
    destruct IH as (k' & K'); [intros; apply O; right; auto|intros; apply H; right; auto|].
    destruct (Bd _ _ _ (O _ (or_introl eq_refl))) as [B1 B2].
    assert (X : exists k, size_pow g e (Z.to_nat mn) k).
    { destruct (H _ (or_introl eq_refl)) as [Z0|(k & K)]; cbn [rep_min rep_elem] in *.
      - subst. exists 0. constructor.
      - eapply pow_size; eauto. }
    destruct X as (k & K). exists (k + k'). econstructor; [| |exact K|exact K']; [lia|destruct B2; [auto|right; lia]].
  Qed.

  Lemma cost_size m : cost_ok m -> table_sound m ->
    (forall e, occ_elem g e -> cost_elem g m e < unbounded -> exists k, size_elem g e k) /\
    (forall r, occ_rep g r -> cost_rep g m r < unbounded -> rep_min r = 0 \/ exists k, size_elem g (rep_elem r) k).
  Proof.
    intros K T. apply elem_rep_ind.
    - intros n O L. cbn [cost_elem] in L. destruct (get_rule n g) as [r|] eqn:G; [|unfold unbounded in L; lia].
      destruct (cost_get m (rule_name r)) as [c|] eqn:E; [|unfold unbounded in L; lia]. apply add_clamp_lt in L as (_ & L & _).
      destruct (T r c (effective_in _ _ _ G) E L) as (k & Hk). exists (1 + k). econstructor; eauto.
      pose proof (get_rule_to _ _ _ G) as Rt. destruct Rt as [[A1 A2]|(A0 & A1 & A2)]; [left|right; split; auto]; exists r; auto.
    - intros a F O L. change (cost_elem g m (EGroup a)) with (cost_alt g m a) in L.
      destruct (cost_alt_lt g m a K) as (c & C & _ & Q); [apply Alt; right; left; auto|auto|].
      destruct (cat_size c) as (k & Hk).
      + intros; eapply occ_rep_group; eauto.
      + intros x X. rewrite Forall_forall in F. specialize (F c C). rewrite Forall_forall in F. apply F; auto; [eapply occ_rep_group; eauto|].
        specialize (Q x X). lia.
      + exists k. constructor. econstructor; eauto.
    - intros a _ O _. exists 0. constructor.
    - intros s vs O _. destruct (Tm _ O Logic.I) as (w & W). eexists. apply sz_term; [exact Logic.I|eauto].
    - intros b st es O _. destruct (Tm _ O Logic.I) as (w & W). eexists. apply sz_term; [exact Logic.I|eauto].
    - intros v _ _. exists 0. constructor.
    - intros mn mx e IH O L. cbn [cost_rep] in L. cbn [rep_min rep_elem]. apply mul_clamp_lt in L as [L|L]; [auto|right].
      apply IH; auto. econstructor; eauto.
  Qed.
  Lemma cost_alt_size m a : cost_ok m -> table_sound m -> occ_alt g a -> cost_alt g m a < unbounded -> exists k, size_alt g a k.
  Proof.
    intros K T O L. destruct (cost_alt_lt g m a K (Alt _ O) L) as (c & C & _ & Q).
    destruct (cat_size c) as (k & Hk); [intros; eapply occ_alt_reps; eauto| |exists k; econstructor; eauto].
    intros x X. apply (cost_size m); auto; [eapply occ_alt_reps; eauto|]. specialize (Q x X). lia.
  Qed.

  Lemma effective_occ r : In r (effective g) -> occ_alt g (rule_alt r).
  Proof. intros I. eapply occ_alt_rule. apply effective_get. eauto. Qed.

  Lemma loop_sound fuel ord m : any_order ord -> cost_loop fuel g ord 0 (initial_costs g) = Some m ->
    table_sound m /\ cost_ok m /\ covers g m /\ at_fixpoint g m.
  Proof.
    intros Ord E. destruct (initial_ok g) as (I1 & I2 & I3).
    apply (loop_kept g ord Ord table_sound) in E; auto.
    - intros m0 r T K C I L r' v I' E' Lv. rewrite cost_get_set in E'. destruct (String.eqb_spec (rule_name r) (rule_name r')) as [En|]; [|eauto].
      injection E' as <-. assert (r' = r).
      { pose proof (effective_get _ _ I) as G1. pose proof (effective_get _ _ I') as G2. congruence. }
      subst r'. apply (cost_alt_size m0); auto. apply effective_occ. auto.
    - intros r v I E' L. apply initial_get_inv in E'. lia.
  Qed.
End Sound.

(** ** A small derivation means a finite cost *)
Section Complete.
  Variable g : grammar.
  Hypothesis Dn : distinct_names g.
  Hypothesis Bd : forall mn mx e, occ_rep g (Rep mn mx e) -> 0 <= mn.
  Variable m : costs.
  Hypothesis Km : cost_ok m.
  Hypothesis Cm : covers g m.
  Hypothesis Fm : at_fixpoint g m.

  Lemma utf8_len_mono l r : 0 <= l <= r -> scalar r -> rune_len l <= Z.of_nat (length (utf8 r)).
  Proof.
    intros L Sc. unfold rune_len, string_of_rune, utf8, valid_rune. unfold scalar in Sc.
    destruct (Z.leb_spec 0 l), (Z.ltb_spec l 0xD800), (Z.ltb_spec 0xDFFF l), (Z.leb_spec l 0x10FFFF); cbn [andb orb]; try lia;
    repeat match goal with |- context [?a <=? ?b] => destruct (Z.leb_spec a b) | |- context [?a <? ?b] => destruct (Z.ltb_spec a b) end; cbn [length]; lia.
  Qed.
  Lemma char_ok_len sens v r : char_ok sens v r -> scalar r -> rune_len v = Z.of_nat (length (utf8 r)).
  Proof.
    intros C Sc. assert (X : v = r \/ (0 <= v < 128 /\ 0 <= r < 128)).
    { destruct sens; cbn in C; [auto|]. unfold fold_case in C.
      destruct (Z.leb_spec 65 v), (Z.leb_spec v 90), (Z.leb_spec 65 r), (Z.leb_spec r 90); cbn [andb] in C; lia. }
    destruct X as [->|[A B]]; [unfold rune_len; rewrite string_of_rune_utf8; auto|].
    unfold rune_len, string_of_rune, utf8, valid_rune.
    destruct (Z.leb_spec 0 v), (Z.ltb_spec v 0xD800); try lia. cbn [andb orb].
    destruct (Z.leb_spec v 0x7F), (Z.ltb_spec r 0x80); try lia. reflexivity.
  Qed.

  Lemma term_cost e w : in_elem g e w -> terminal e -> cost_elem g m e <= Z.of_nat (length w).
  Proof.
    intros H T. inversion H as [| | | |s vs rs F Sc|b ns rs F Sc|b lo hi l h r N1 N2 B Sc]; subst; try contradiction.
    - cbn [cost_elem]. rewrite sum_fold. revert Sc. clear -F. induction F as [|v r vs rs C F IH]; intros Sc; cbn [fold_right utf8s flat_map]; [cbn; lia|].
      inversion Sc as [|? ? S1 S2]; subst. rewrite app_length. rewrite (char_ok_len s v r C S1). specialize (IH S2). unfold utf8s in IH. lia.
    - cbn [cost_elem]. rewrite (sum_fold (fun v => rune_len (numval_to_rune v b))). revert Sc. clear -F.
      induction F as [|x r vs rs C F IH]; intros Sc; cbn [fold_right utf8s flat_map]; [cbn; lia|].
      inversion Sc as [|? ? S1 S2]; subst. rewrite app_length. rewrite (num_rune b x r C) by (destruct S1; lia).
      specialize (IH S2). unfold utf8s in IH. unfold rune_len at 1. rewrite string_of_rune_utf8 by auto. lia.
    - cbn [cost_elem]. rewrite (num_rune b lo l N1) by (destruct Sc; lia). apply utf8_len_mono; auto.
      pose proof (numeral_nonneg _ _ _ N1). lia.
  Qed.

  Lemma size_cost :
    (forall e k, size_elem g e k -> occ_elem g e -> cost_elem g m e <= k) /\
    (forall a k, size_alt g a k -> occ_alt g a -> cost_alt g m a <= k) /\
    (forall c k, size_cat g c k -> (forall x, In x c -> occ_rep g x) -> forall b, 0 <= b -> fold_left (fun t r => add_clamp t (cost_rep g m r)) c b <= b + k) /\
    (forall e n k, size_pow g e n k -> occ_elem g e -> Z.of_nat n * cost_elem g m e <= k).
  Proof.
    assert (Cn := proj1 (cost_nonneg g m Km)).
    apply size_ind4.
    - intros n a k R _ IH O. destruct (get_rule_resolves g n Dn) as [_ B]. destruct (B a R) as (r & G & <-). cbn [cost_elem]. rewrite G.
      destruct (Cm r (effective_in _ _ _ G)) as (v & Ev). rewrite Ev. pose proof (Fm r v (effective_in _ _ _ G) Ev).
      specialize (IH (occ_alt_rule _ _ _ G)). pose proof (Km _ _ Ev). pose proof (add_clamp_sum 1 v). lia.
    - intros a k _ IH O. apply IH. right. left. auto.
    - intros; cbn; lia.
    - intros a k Sa IH O. specialize (IH (or_intror (or_intror O))). cbn [cost_elem].
      pose proof (cost_alt_range g m a Km). lia.
    - intros e w T W O. apply term_cost; auto.
    - intros; cbn; lia.
    - intros c a k C _ IH O. specialize (IH (fun x X => occ_alt_reps g a O c x C X) 0 ltac:(lia)).
      transitivity (cost_cat g m c); [apply min_cost_le; apply in_map; auto|exact IH].
    - intros; cbn; lia.
    - intros mn mx e c n k k' L1 L2 _ IH1 _ IH2 O b B. cbn [fold_left].
      pose proof (O _ (or_introl eq_refl)) as Or. pose proof (Bd _ _ _ Or) as M0.
      specialize (IH1 (occ_elem_rep _ _ _ _ Or)). pose proof (proj2 (cost_nonneg g m Km) (Rep mn mx e)) as R.
      pose proof (add_clamp_sum b (cost_rep g m (Rep mn mx e)) B ltac:(lia)) as Q.
      assert (P : cost_rep g m (Rep mn mx e) <= k).
      { change (cost_rep g m (Rep mn mx e)) with (mul_clamp mn (cost_elem g m e)). pose proof (mul_clamp_prod mn (cost_elem g m e) M0 (Cn e)).
        pose proof (Z.mul_le_mono_nonneg_r mn (Z.of_nat n) (cost_elem g m e) (Cn e) L1). lia. }
      specialize (IH2 (fun x X => O x (or_intror X)) (add_clamp b (cost_rep g m (Rep mn mx e))) ltac:(apply add_clamp_range; lia)). lia.
    - intros; cbn; lia.
    - intros e n k k' _ IH1 _ IH2 O. specialize (IH1 O). specialize (IH2 O). nia.
  Qed.
End Complete.

(** ** The visit of the reachable rules *)
Definition erefers (e : elem) (n : string) : Prop :=
  e = ERule n \/ exists b, (e = EGroup b \/ e = EOption b) /\ refers b n.
Lemma refers_split a n : refers a n <-> exists c x, In c a /\ In x c /\ erefers (rep_elem x) n.
Proof.
  split.
  - intros (mn & mx & H). inversion H as [? c r C X|? c mn' mx' b r C X B|? c mn' mx' b r C X B]; subst.
    + exists c, (Rep mn mx (ERule n)). split; auto. split; auto. left. reflexivity.
    + exists c, (Rep mn' mx' (EGroup b)). split; auto. split; auto. right. exists b. split; auto. exists mn, mx. auto.
    + exists c, (Rep mn' mx' (EOption b)). split; auto. split; auto. right. exists b. split; auto. exists mn, mx. auto.
  - intros (c & [mn mx e] & C & X & [E|(b & [E|E] & (mn' & mx' & H))]); cbn [rep_elem] in E; subst.
    + exists mn, mx. eapply rep_in_here; eauto.
    + exists mn', mx'. eapply rep_in_group; eauto.
    + exists mn', mx'. eapply rep_in_option; eauto.
Qed.

Section VisitProof.
  Variable g : grammar.
  Variable m : costs.

  Definition found (seen : list string) (n : string) : Prop := exists r, get_rule n g = Some r /\ In (rule_name r) seen.
  Definition fresh_closed (seen seen' : list string) : Prop :=
    forall r, In r (effective g) -> In (rule_name r) seen' -> ~ In (rule_name r) seen ->
      too_costly m (rule_name r) = false /\ forall n, refers (rule_alt r) n -> found seen' n.
  Definition seen_ok (seen : list string) : Prop := NoDup seen /\ incl seen (map rule_name (effective g)).
  Definition good_closed (Good : string -> Prop) : Prop :=
    forall n, Good n -> exists r, get_rule n g = Some r /\ too_costly m (rule_name r) = false /\ forall n', refers (rule_alt r) n' -> Good n'.

  Definition post (fuel : nat) (R : string -> Prop) (seen : list string) (res : vres) : Prop :=
    (forall seen', res = V_ok seen' ->
       incl seen seen' /\ (forall n, R n -> found seen' n) /\ fresh_closed seen seen' /\
       (seen_ok seen -> seen_ok seen') /\ (length seen <= length seen')%nat) /\
    (forall Good, good_closed Good -> (forall n, R n -> Good n) -> (exists seen', res = V_ok seen') \/ res = V_fuel) /\
    (seen_ok seen -> (length (effective g) < fuel + length seen)%nat -> res <> V_fuel).

  Lemma post_nil fuel seen : post fuel (fun _ => False) seen (V_ok seen).
  Proof.
    split; [|split].
    - intros s' E. injection E as <-. split; [apply incl_refl|]. split; [intros ? []|]. split; [|auto].
      intros r I A B. contradiction.
    - intros. left. eauto.
    - intros; discriminate.
  Qed.
  Lemma post_ext fuel R R' seen res : (forall n, R n <-> R' n) -> post fuel R seen res -> post fuel R' seen res.
  Proof.
    intros X (A & B & C). split; [|split; auto].
    - intros s' E. destruct (A s' E) as (A1 & A2 & A3 & A4 & A5). split; auto. split; [intros n H; apply A2, X; auto|auto].
    - intros Good GC H. apply (B Good GC). intros n Rn. apply H, X. auto.
  Qed.
  Lemma post_seq fuel R1 R2 seen r1 f : post fuel R1 seen r1 -> (forall s1, r1 = V_ok s1 -> post fuel R2 s1 (f s1)) ->
    post fuel (fun n => R1 n \/ R2 n) seen (match r1 with V_ok s => f s | x => x end).
  Proof.
    intros (A & B & C) H. destruct r1 as [s1|n1|n1|].
    - destruct (H s1 eq_refl) as (A' & B' & C'). destruct (A s1 eq_refl) as (A1 & A2 & A3 & A4 & A5). split; [|split].
      + intros s' E. destruct (A' s' E) as (D1 & D2 & D3 & D4 & D5). split; [eapply incl_tran; eauto|].
        split; [|split; [|split; [auto|lia]]].
        * intros n [Rn|Rn]; [|auto]. destruct (A2 n Rn) as (r & Gr & Ir). exists r. split; auto.
        * intros r Ie I1 I2. destruct (in_dec string_dec (rule_name r) s1) as [I3|I3].
          -- destruct (A3 r Ie I3 I2) as [T Q]. split; auto. intros n Rn. destruct (Q n Rn) as (r' & Gr & Ir). exists r'. split; auto.
          -- apply D3; auto.
      + intros Good GC Q. apply (B' Good GC). auto.
      + intros K L. apply C'; [auto|lia].
    - split; [intros; discriminate|]. split; [|discriminate]. intros Good GC Q. apply (B Good GC). auto.
    - split; [intros; discriminate|]. split; [|discriminate]. intros Good GC Q. apply (B Good GC). auto.
    - split; [intros; discriminate|]. split; [auto|]. intros K L. exfalso. exact (C K L eq_refl).
  Qed.

  Section Step.
    Variable fuel : nat.
    Variable call : list string -> alternation -> vres.
    Hypothesis Hc : forall seen a, post fuel (refers a) seen (call seen a).

    Lemma post_reps c : (forall x, In x c -> forall seen, post (Datatypes.S fuel) (erefers (rep_elem x)) seen (visit_rep g m call x seen)) ->
      forall acc seen R, post (Datatypes.S fuel) R seen acc ->
      post (Datatypes.S fuel) (fun n => R n \/ exists x, In x c /\ erefers (rep_elem x) n) seen
        (fold_left (fun acc r => match acc with V_ok s => visit_rep g m call r s | x => x end) c acc).
    Proof.
      induction c as [|x c IH]; intros H acc seen R P; cbn [fold_left].
      - eapply post_ext; [|exact P]. intros n. split; [auto|intros [?|(? & [] & _)]; auto].
      - eapply post_ext; [|apply (IH (fun y Y => H y (or_intror Y)) _ seen (fun n => R n \/ erefers (rep_elem x) n))].
        + intros n. split.
          * intros [[?|?]|(y & Y & E)]; eauto 6 using in_eq, in_cons.
          * intros [?|(y & [<-|Y] & E)]; eauto.
        + apply (post_seq _ _ _ _ acc (visit_rep g m call x)); auto. intros; apply H; left; auto.
    Qed.
    Lemma post_alt a : (forall c x, In c a -> In x c -> forall seen, post (Datatypes.S fuel) (erefers (rep_elem x)) seen (visit_rep g m call x seen)) ->
      forall seen, post (Datatypes.S fuel) (refers a) seen (visit_alt_with g m call seen a).
    Proof.
      intros H seen. unfold visit_alt_with.
      assert (G : forall acc R, post (Datatypes.S fuel) R seen acc ->
        post (Datatypes.S fuel) (fun n => R n \/ refers a n) seen
         (fold_left (fun acc c => fold_left (fun acc r => match acc with V_ok s => visit_rep g m call r s | x => x end) c acc) a acc)).
      { induction a as [|c a IH]; intros acc R P; cbn [fold_left].
        - eapply post_ext; [|exact P]. intros n. split; [auto|]. rewrite refers_split. intros [?|(c & x & [] & _)]; auto.
        - eapply post_ext; [|apply (IH (fun c' x C X => H c' x (or_intror C) X) _ (fun n => R n \/ exists x, In x c /\ erefers (rep_elem x) n))].
          + intros n. rewrite !refers_split. split.
            * intros [[?|(x & X & E)]|(c' & x & C & X & E)]; [auto| |]; right; eauto 7 using in_eq, in_cons.
            * intros [?|(c' & x & [<-|C] & X & E)]; eauto 7.
          + apply post_reps; auto. intros; eapply H; eauto. left; auto. }
      eapply post_ext; [|apply (G (V_ok seen) _ (post_nil _ seen))]. tauto.
    Qed.

    Lemma post_elem : (forall e seen, post (Datatypes.S fuel) (erefers e) seen (visit_elem g m call e seen)) /\
      (forall r seen, post (Datatypes.S fuel) (erefers (rep_elem r)) seen (visit_rep g m call r seen)).
    Proof.
      assert (T : forall e seen, (forall n, ~ erefers e n) -> post (Datatypes.S fuel) (erefers e) seen (V_ok seen)).
      { intros e seen H. eapply post_ext; [|apply post_nil]. intros n. split; [tauto|]. intros E. exact (H n E). }
      apply elem_rep_ind.
      - intros n seen. cbn [visit_elem].
        assert (En : forall n', erefers (ERule n) n' <-> n' = n).
        { intros n'. split; [intros [E|(b & [E|E] & _)]; congruence|intros ->; left; auto]. }
        destruct (get_rule n g) as [r|] eqn:G.
        + pose proof (effective_in _ _ _ G) as Ie. destruct (existsb (String.eqb (rule_name r)) seen) eqn:X.
          * apply existsb_exists in X as (y & Y & Ey). apply String.eqb_eq in Ey as <-. split; [|split].
            -- intros s' E. injection E as <-. split; [apply incl_refl|]. split; [intros n' H; apply En in H as ->; exists r; auto|].
               split; [intros ? ? ? ?; contradiction|auto].
            -- intros. left. eauto.
            -- intros; discriminate.
          * assert (Nx : ~ In (rule_name r) seen).
            { intros I. assert (F : existsb (String.eqb (rule_name r)) seen = true) by (apply existsb_exists; exists (rule_name r); split; auto; apply String.eqb_refl). congruence. }
            destruct (too_costly m (rule_name r)) eqn:Tc.
            -- split; [intros; discriminate|]. split; [|discriminate]. intros Good GC H.
               destruct (GC n (H n (proj2 (En n) eq_refl))) as (r' & G' & T' & _). congruence.
            -- destruct (Hc (rule_name r :: seen) (rule_alt r)) as (A & B & C). split; [|split].
               ++ intros s' E. destruct (A s' E) as (A1 & A2 & A3 & A4 & A5).
                  split; [intros y Y; apply A1; right; auto|]. split; [intros n' H; apply En in H as ->; exists r; split; auto; apply A1; left; auto|].
                  split; [|split].
                  ** intros r' I' I1 I2. destruct (string_dec (rule_name r) (rule_name r')) as [E2|N2].
                     --- assert (r' = r) as -> by (pose proof (effective_get _ _ I'); pose proof (effective_get _ _ Ie); congruence). auto.
                     --- apply A3; auto. intros [?|?]; auto.
                  ** intros [K1 K2]. apply A4. split; [constructor; auto|]. intros y [<-|Y]; [apply in_map; auto|auto].
                  ** cbn [length] in A5. lia.
               ++ intros Good GC H. apply (B Good GC). intros n' H'.
                  destruct (GC n (H n (proj2 (En n) eq_refl))) as (r' & G' & T' & Q). apply Q. congruence.
               ++ intros [K1 K2] L. apply C; [|cbn [length]; lia]. split; [constructor; auto|]. intros y [<-|Y]; [apply in_map; auto|auto].
        + split; [intros; discriminate|]. split; [|discriminate]. intros Good GC H.
          destruct (GC n (H n (proj2 (En n) eq_refl))) as (r' & G' & _). congruence.
      - intros a F seen. change (visit_elem g m call (EGroup a) seen) with (visit_alt_with g m call seen a).
        eapply post_ext; [|apply post_alt].
        + intros n. split; [intros H; right; exists a; auto|intros [E|(b & [E|E] & H)]; [congruence|injection E as ->; auto|congruence]].
        + intros c x C X. rewrite Forall_forall in F. specialize (F c C). rewrite Forall_forall in F. auto.
      - intros a F seen. change (visit_elem g m call (EOption a) seen) with (visit_alt_with g m call seen a).
        eapply post_ext; [|apply post_alt].
        + intros n. split; [intros H; right; exists a; auto|intros [E|(b & [E|E] & H)]; [congruence|congruence|injection E as ->; auto]].
        + intros c x C X. rewrite Forall_forall in F. specialize (F c C). rewrite Forall_forall in F. auto.
      - intros s vs seen. apply T. intros n [E|(b & [E|E] & _)]; congruence.
      - intros b st es seen. apply T. intros n [E|(b' & [E|E] & _)]; congruence.
      - intros v seen. apply T. intros n [E|(b' & [E|E] & _)]; congruence.
      - intros mn mx e IH seen. apply IH.
    Qed.
  End Step.

  Lemma visit_post fuel : forall seen a, post fuel (refers a) seen (visit_alt fuel g m seen a).
  Proof.
    induction fuel as [|f IH]; intros seen a; cbn [visit_alt].
    - split; [intros; discriminate|]. split; [auto|]. intros [K1 K2] L. exfalso.
      pose proof (NoDup_incl_length K1 K2) as Q. rewrite map_length in Q. lia.
    - apply post_alt. intros c x _ _ s. apply post_elem. auto.
  Qed.
End VisitProof.
