(** Simplification preserves the meaning of a node.
    Its definitions are means of proof and model no code. *)
From Coq Require Import ZArith String Bool Sorted List Lia.
From Verif Require Import Syntax Spec Utf8 Regex RegexSpec RegexRead.
Import ListNotations.
Local Open Scope Z_scope.
Local Open Scope list_scope.

(** ** Ranges *)
Lemma insert_In x y l : In y (insert_range x l) <-> y = x \/ In y l.
Proof.
  induction l as [|z l IH]; cbn [insert_range].
  - cbn. firstorder.
  - destruct (range_le x z); cbn [In] in *; [firstorder|]. rewrite IH. firstorder.
Qed.
Lemma sort_In y l : In y (sort_ranges l) <-> In y l.
Proof.
  unfold sort_ranges. induction l as [|x l IH]; cbn [fold_right]; [tauto|]. rewrite insert_In, IH. cbn. firstorder.
Qed.
Definition lo_le (a b : Z * Z) : Prop := fst a <= fst b.
Lemma insert_sorted x l : StronglySorted lo_le l -> StronglySorted lo_le (insert_range x l).
Proof.
  induction l as [|z l IH]; intros H; cbn [insert_range]; [repeat constructor|].
  inversion H as [|? ? S F]; subst. destruct (range_le x z) eqn:E.
  - assert (L : lo_le x z).
    { unfold range_le in E. unfold lo_le. rewrite orb_true_iff, andb_true_iff, Z.ltb_lt, Z.eqb_eq in E. lia. }
    constructor; [exact H|]. constructor; [exact L|].
    eapply Forall_impl; [|exact F]. intros a A. unfold lo_le in *. lia.
  - assert (L : lo_le z x).
    { unfold range_le in E. unfold lo_le. rewrite orb_false_iff, andb_false_iff, Z.ltb_ge in E. lia. }
    constructor; [apply IH, S|]. apply Forall_forall. intros a A. apply insert_In in A as [->|A]; [exact L|].
    rewrite Forall_forall in F. apply F, A.
Qed.
Lemma sort_sorted l : StronglySorted lo_le (sort_ranges l).
Proof. unfold sort_ranges. induction l as [|x l IH]; cbn [fold_right]; [constructor|apply insert_sorted, IH]. Qed.

Lemma in_ranges_cons r rs c : in_ranges (r :: rs) c <-> (fst r <= c <= snd r) \/ in_ranges rs c.
Proof.
  unfold in_ranges. destruct r as [lo hi]. split.
  - intros (a & b & [E|I] & B); [injection E as -> ->; left; exact B|right; exists a, b; auto].
  - intros [B|(a & b & I & B)]; [exists lo, hi; split; [left; reflexivity|exact B]|exists a, b; split; [right; exact I|exact B]].
Qed.
Lemma in_ranges_app rs qs c : in_ranges (rs ++ qs) c <-> in_ranges rs c \/ in_ranges qs c.
Proof.
  unfold in_ranges. split.
  - intros (a & b & I & B). apply in_app_or in I as [I|I]; [left|right]; exists a, b; auto.
  - intros [(a & b & I & B)|(a & b & I & B)]; exists a, b; (split; [apply in_or_app; auto|exact B]).
Qed.
Lemma in_ranges_nil c : in_ranges [] c <-> False.
Proof. unfold in_ranges. split; [intros (a & b & [] & _)|tauto]. Qed.
Lemma coalesce_in l : forall last c, StronglySorted lo_le (last :: l) -> (in_ranges (coalesce last l) c <-> in_ranges (last :: l) c).
Proof.
  induction l as [|r l IH]; intros last c H; cbn [coalesce]; [tauto|].
  inversion H as [|? ? S F]; subst. inversion S as [|? ? S' F']; subst. inversion F as [|? ? L F'']; subst.
  unfold lo_le in L.
  destruct (Z.leb_spec (fst r) (snd last + 1)) as [A|A].
  - rewrite IH.
    + rewrite !in_ranges_cons. cbn [fst snd]. destruct (Z.ltb_spec (snd last) (snd r)); (split; [intros [K|K]; [destruct (Z.leb_spec c (snd last)); [left; lia|right; left; lia]|tauto]|intros [K|[K|K]]; [left; lia|left; lia|right; exact K]]).
    + constructor; [exact S'|exact F''].
  - rewrite (in_ranges_cons last), IH by exact S. rewrite (in_ranges_cons last). tauto.
Qed.
Lemma normalize_in rs c : in_ranges (normalize_ranges rs) c <-> in_ranges rs c.
Proof.
  assert (E : in_ranges (match sort_ranges rs with [] => [] | r :: l => coalesce r l end) c <-> in_ranges rs c).
  { transitivity (in_ranges (sort_ranges rs) c).
    - pose proof (sort_sorted rs) as S. destruct (sort_ranges rs) as [|r l]; [tauto|]. apply coalesce_in, S.
    - unfold in_ranges. split; intros (a & b & I & B); exists a, b; (split; [apply sort_In; exact I|exact B]). }
  unfold normalize_ranges. destruct rs as [|r [|r' rs]]; [tauto|tauto|exact E].
Qed.

(** Ranges that can be written as they are. *)
Definition good_ranges (rs : list (Z * Z)) : Prop :=
  rs <> [] /\ Forall range_bound rs /\ Forall (fun r => fst r = snd r -> scalar (fst r)) rs.
Lemma coalesce_from l : forall last x, In x (coalesce last l) ->
  exists a b, In a (last :: l) /\ In b (last :: l) /\ fst x = fst a /\ snd a <= snd x /\ snd x = snd b.
Proof.
  induction l as [|r l IH]; intros last x I; cbn [coalesce] in I.
  - destruct I as [<-|[]]. exists last, last. cbn. intuition lia.
  - destruct (fst r <=? snd last + 1).
    + destruct (IH _ _ I) as (a & b & Ia & Ib & E1 & E2 & E3).
      assert (Ka : exists a', In a' (last :: r :: l) /\ fst x = fst a' /\ snd a' <= snd x).
      { destruct Ia as [<-|Ia]; [exists last; cbn [fst snd] in *; split; [left; reflexivity|]; split; [exact E1|]; destruct (Z.ltb_spec (snd last) (snd r)); lia|].
        exists a. split; [right; right; exact Ia|]. auto. }
      assert (Kb : exists b', In b' (last :: r :: l) /\ snd x = snd b').
      { destruct Ib as [<-|Ib].
        - cbn [snd] in E3. destruct (snd last <? snd r); [exists r|exists last]; (split; [|exact E3]); cbn; tauto.
        - exists b. split; [right; right; exact Ib|exact E3]. }
      destruct Ka as (a' & Ia' & Ea & Ea'). destruct Kb as (b' & Ib' & Eb). exists a', b'. auto.
    + destruct I as [<-|I].
      * exists last, last. cbn. intuition lia.
      * destruct (IH _ _ I) as (a & b & Ia & Ib & E). exists a, b. split; [right; exact Ia|]. split; [right; exact Ib|exact E].
Qed.
Lemma coalesce_nonnil l : forall last, coalesce last l <> [].
Proof. induction l as [|r l IH]; intros last; cbn [coalesce]; [discriminate|]. destruct (_ <=? _); [apply IH|discriminate]. Qed.
Lemma normalize_good rs : good_ranges rs -> good_ranges (normalize_ranges rs).
Proof.
  intros (N & B & F).
  assert (E : good_ranges (match sort_ranges rs with [] => [] | r :: l => coalesce r l end)).
  { destruct (sort_ranges rs) as [|r l] eqn:S.
    - exfalso. destruct rs as [|x rs]; [congruence|].
      assert (I : In x (sort_ranges (x :: rs))) by (apply sort_In; left; reflexivity). rewrite S in I. exact I.
    - assert (K : forall y, In y (r :: l) -> In y rs) by (intros y; rewrite <- S; apply sort_In).
      rewrite Forall_forall in B, F.
      split; [apply coalesce_nonnil|].
      split; apply Forall_forall; intros x I; destruct (coalesce_from l r x I) as (a & b & Ia & Ib & E1 & E2 & E3);
        pose proof (B a (K a Ia)) as (Ba1 & Ba2 & Ba3); pose proof (B b (K b Ib)) as (Bb1 & Bb2 & Bb3).
      + unfold range_bound. rewrite E1, E3 in *. split; [exact Ba1|]. split; [exact Bb2|lia].
      + intros E4. rewrite E1. apply (F a (K a Ia)). lia. }
  unfold normalize_ranges. destruct rs as [|r [|r' rs]]; [split; auto|split; auto|exact E].
Qed.

(** ** Nodes *)
(** Repetitions have ordered bounds. *)
Inductive ordered_re : re -> Prop :=
| or_class rs : ordered_re (RClass rs)
| or_concat ps : Forall ordered_re ps -> ordered_re (RConcat ps)
| or_alt os : Forall ordered_re os -> ordered_re (RAlt os)
| or_repeat s mn mx : 0 <= mn -> (mx = inf \/ mn <= mx) -> ordered_re s -> ordered_re (RRepeat s mn mx)
| or_empty : ordered_re REmpty
| or_never : ordered_re RNever.

Lemma re_lang_concat ps : re_lang (RConcat ps) = fold_right (fun p L => l_cat (re_lang p) L) l_eps ps.
Proof. reflexivity. Qed.
Lemma re_lang_alt os : re_lang (RAlt os) = fold_right (fun o L => l_or (re_lang o) L) l_none os.
Proof. reflexivity. Qed.
Lemma concat_map_leq (f : re -> re) ps : Forall (fun p => leq (re_lang (f p)) (re_lang p)) ps ->
  leq (re_lang (RConcat (map f ps))) (re_lang (RConcat ps)).
Proof. intros F. induction F as [|p ps Hp _ IH]; [apply leq_refl|]. cbn [map]. rewrite !lang_cons_p. apply l_cat_leq; assumption. Qed.
Lemma alt_map_leq (f : re -> re) ps : Forall (fun p => leq (re_lang (f p)) (re_lang p)) ps ->
  leq (re_lang (RAlt (map f ps))) (re_lang (RAlt ps)).
Proof. intros F. induction F as [|p ps Hp _ IH]; [apply leq_refl|]. cbn [map]. rewrite !lang_cons_o. apply l_or_leq; assumption. Qed.
Lemma concat_app ps qs : leq (re_lang (RConcat (ps ++ qs))) (l_cat (re_lang (RConcat ps)) (re_lang (RConcat qs))).
Proof.
  induction ps as [|p ps IH]; cbn [app]; [apply leq_sym, l_cat_eps_l|]. rewrite !lang_cons_p.
  eapply leq_trans; [apply l_cat_leq; [apply leq_refl|exact IH]|]. apply leq_sym, l_cat_assoc.
Qed.
Lemma alt_lang os w : re_lang (RAlt os) w <-> exists o, In o os /\ re_lang o w.
Proof.
  induction os as [|o os IH]; [cbn; unfold l_none; split; [tauto|intros (o & [] & _)]|].
  rewrite lang_cons_o. unfold l_or. rewrite IH. split.
  - intros [H|(o' & I & H)]; [exists o; split; [left; reflexivity|exact H]|exists o'; split; [right; exact I|exact H]].
  - intros (o' & [<-|I] & H); [left; exact H|right; exists o'; auto].
Qed.

Lemma join_concat_lang ps : leq (re_lang (join_concat ps)) (re_lang (RConcat ps)).
Proof.
  unfold join_concat. destruct (existsb is_never ps) eqn:E.
  - intros w. split; [intros []|]. cbn [re_lang]. unfold l_none.
    revert w. induction ps as [|p ps IH]; [discriminate|]. cbn [existsb] in E. intros w (u & v & -> & A & B).
    apply orb_true_iff in E as [E|E]; [destruct p; try discriminate; exact A|exact (IH E v B)].
  - assert (K : leq (re_lang (RConcat (flat_map flat_part ps))) (re_lang (RConcat ps))).
    { induction ps as [|p ps IH]; [apply leq_refl|]. cbn [existsb] in E. apply orb_false_iff in E as [E1 E2].
      cbn [flat_map]. eapply leq_trans; [apply concat_app|]. rewrite lang_cons_p.
      apply l_cat_leq; [|apply IH, E2].
      destruct p; try discriminate; cbn [flat_part]; try (rewrite lang_cons_p; apply l_cat_eps_r); apply leq_refl. }
    destruct (flat_map flat_part ps) as [|p [|q l]]; [exact K| |exact K].
    eapply leq_trans; [|exact K]. rewrite lang_cons_p. apply leq_sym, l_cat_eps_r.
Qed.
Lemma join_alt_lang os : leq (re_lang (join_alt os)) (re_lang (RAlt os)).
Proof.
  intros w. unfold join_alt. set (opts := flat_map flat_opt os).
  set (others := filter (fun o => negb (is_class o)) opts).
  set (merged := if existsb is_class opts then RClass (normalize_ranges (flat_map class_ranges opts)) :: others else others).
  assert (A1 : re_lang (RAlt os) w <-> re_lang (RAlt opts) w).
  { rewrite !alt_lang. split.
    - intros (o & I & H). destruct o; try (eexists; split; [apply in_flat_map; eexists; split; [exact I|left; reflexivity]|exact H]).
      + apply alt_lang in H as (o & Io & H). exists o. split; [apply in_flat_map; eexists; split; [exact I|exact Io]|exact H].
      + destruct H.
    - intros (o & I & H). apply in_flat_map in I as (o' & I & Io). exists o'. split; [exact I|].
      destruct o'; cbn [flat_opt In] in Io; try (destruct Io as [<-|[]]; exact H).
      + apply alt_lang. exists o. auto.
      + contradiction. }
  assert (A2 : re_lang (RAlt opts) w <-> re_lang (RAlt merged) w).
  { assert (B : re_lang (RAlt opts) w <-> re_lang (RAlt others) w \/ re_lang (RClass (flat_map class_ranges opts)) w).
    { rewrite !alt_lang. split.
      - intros (o & I & H). destruct (is_class o) eqn:C.
        + right. destruct o; try discriminate. destruct H as (c & -> & S & (a & b & Ir & Bc)). exists c. split; [reflexivity|]. split; [exact S|].
          exists a, b. split; [apply in_flat_map; exists (RClass ranges); split; [exact I|exact Ir]|exact Bc].
        + left. exists o. split; [apply filter_In; rewrite C; auto|exact H].
      - intros [(o & I & H)|(c & -> & S & (a & b & Ir & Bc))].
        + apply filter_In in I as [I _]. exists o. auto.
        + apply in_flat_map in Ir as (o & I & Ir). exists o. split; [exact I|]. destruct o; try contradiction.
          exists c. split; [reflexivity|]. split; [exact S|]. exists a, b. auto. }
    rewrite B. unfold merged. destruct (existsb is_class opts) eqn:E.
    - rewrite lang_cons_o. unfold l_or. cbn [re_lang].
      assert (N : l_char (in_ranges (normalize_ranges (flat_map class_ranges opts))) w <-> l_char (in_ranges (flat_map class_ranges opts)) w).
      { unfold l_char. split; intros (c & Ec & S & I); exists c; (split; [exact Ec|]); (split; [exact S|]); apply normalize_in; exact I. }
      rewrite N. tauto.
    - assert (N : ~ re_lang (RClass (flat_map class_ranges opts)) w).
      { intros (c & _ & _ & (a & b & Ir & _)). apply in_flat_map in Ir as (o & I & Ir). destruct o; try contradiction.
        assert (T : existsb is_class opts = true) by (apply existsb_exists; exists (RClass ranges); auto). congruence. }
      tauto. }
  rewrite A1, A2. destruct merged as [|m [|m' l]]; [tauto| |tauto].
  rewrite lang_cons_o. symmetry. apply (l_or_none (re_lang m) w).
Qed.

Lemma l_pow_eps k : leq (l_pow l_eps k) l_eps.
Proof. induction k as [|k IH]; [apply leq_refl|]. cbn [l_pow]. eapply leq_trans; [apply l_cat_eps_l|exact IH]. Qed.
Theorem simplify_lang n : ordered_re n -> leq (re_lang (simplify n)) (re_lang n).
Proof.
  induction n as [rs|ps IH|os IH|s mn mx IH| |] using re_ind'; intros W.
  - intros w. cbn [simplify re_lang]. unfold l_char. split; intros (c & Ec & S & I); exists c; (split; [exact Ec|]); (split; [exact S|]); apply normalize_in; exact I.
  - change (simplify (RConcat ps)) with (join_concat (map simplify ps)).
    eapply leq_trans; [apply join_concat_lang|]. apply concat_map_leq.
    inversion W as [|? F| | | |]; subst. rewrite Forall_forall in *. auto.
  - change (simplify (RAlt os)) with (join_alt (map simplify os)).
    eapply leq_trans; [apply join_alt_lang|]. apply alt_map_leq.
    inversion W as [| |? F| | |]; subst. rewrite Forall_forall in *. auto.
  - inversion W as [| | |? ? ? B0 B1 Ws| |]; subst. specialize (IH Ws).
    change (simplify (RRepeat s mn mx)) with
      (let s' := simplify s in if is_never s' then (if mn =? 0 then REmpty else RNever) else if is_empty s' then REmpty
        else if (mn =? 1) && (mx =? 1) then s' else RRepeat s' mn mx). cbn zeta.
    assert (R : leq (l_rep (re_lang (simplify s)) mn (bound mx)) (re_lang (RRepeat s mn mx))) by (apply l_rep_leq, IH).
    eapply leq_trans; [|exact R]. clear R IH. set (s' := simplify s).
    assert (BB : match bound mx with None => True | Some m => mn <= m end).
    { unfold bound. destruct (Z.eqb_spec mx inf); [exact Logic.I|]. lia. }
    destruct (is_never s') eqn:En.
    + destruct s'; try discriminate. intros w. destruct (Z.eqb_spec mn 0) as [->|N]; cbn [re_lang].
      * split.
        -- intros ->. exists 0%nat. split; [lia|]. split; [exact BB|reflexivity].
        -- intros (k & _ & _ & H). destruct k; [exact H|]. destruct H as (u & v & _ & [] & _).
      * split; [intros []|]. intros (k & Hk & _ & H). destruct k; [lia|]. destruct H as (u & v & _ & [] & _).
    + destruct (is_empty s') eqn:Ee.
      * destruct s'; try discriminate. intros w. cbn [re_lang]. split.
        -- intros H. exists (Z.to_nat mn). rewrite Z2Nat.id by exact B0. split; [lia|]. split; [exact BB|]. apply l_pow_eps, H.
        -- intros (k & _ & _ & H). apply (l_pow_eps k), H.
      * destruct ((mn =? 1) && (mx =? 1)) eqn:E1; [|apply leq_refl].
        apply andb_true_iff in E1 as [E1 E2]. apply Z.eqb_eq in E1. apply Z.eqb_eq in E2. subst mn mx.
        intros w. split.
        -- intros H. exists 1%nat. split; [lia|]. split; [cbn; lia|]. apply l_cat_eps_r, H.
        -- intros (k & Hk & Hm & H). cbn in Hm. assert (k = 1%nat) as -> by lia. apply (l_cat_eps_r (re_lang s')), H.
  - apply leq_refl.
  - apply leq_refl.
Qed.

(** ** The result can be written *)
Section Good.
  Variable lim : Z.
  Inductive good_re : re -> Prop :=
  | gr_class rs : good_ranges rs -> good_re (RClass rs)
  | gr_concat ps : Forall good_re ps -> good_re (RConcat ps)
  | gr_alt os : Forall good_re os -> good_re (RAlt os)
  | gr_repeat s mn mx : ok_bounds lim mn mx -> good_re s -> good_re (RRepeat s mn mx)
  | gr_empty : good_re REmpty
  | gr_never : good_re RNever.
  Lemma good_ordered n : good_re n -> ordered_re n.
  Proof.
    induction n as [rs|ps IH|os IH|s mn mx IH| |] using re_ind'; intros W; inversion W as [|? F|? F|? ? ? B Ws| |]; subst; constructor.
    - rewrite Forall_forall in *. auto.
    - rewrite Forall_forall in *. auto.
    - apply B.
    - destruct B as (_ & [->|B]); [left; reflexivity|right; lia].
    - auto.
  Qed.
  Lemma join_concat_wf ps : Forall (wf_re lim) ps -> wf_re lim (join_concat ps).
  Proof.
    intros F. unfold join_concat. destruct (existsb is_never ps); [constructor|].
    assert (G : Forall (wf_re lim) (flat_map flat_part ps)).
    { apply Forall_forall. intros x I. apply in_flat_map in I as (p & Ip & I). rewrite Forall_forall in F. specialize (F p Ip).
      destruct p; cbn [flat_part In] in I; try contradiction; try (destruct I as [<-|[]]; exact F).
      inversion F as [|? K| | | |]; subst. rewrite Forall_forall in K. apply K, I. }
    destruct (flat_map flat_part ps) as [|p [|q l]]; [constructor|inversion G; assumption|constructor; exact G].
  Qed.
  Lemma join_alt_wf os : Forall (wf_re lim) os -> wf_re lim (join_alt os).
  Proof.
    intros F. unfold join_alt. set (opts := flat_map flat_opt os).
    assert (G : forall x, In x opts -> wf_re lim x).
    { intros x I. apply in_flat_map in I as (p & Ip & I). rewrite Forall_forall in F. specialize (F p Ip).
      destruct p; cbn [flat_opt In] in I; try contradiction; try (destruct I as [<-|[]]; exact F).
      inversion F as [| |? ? K| | |]; subst. rewrite Forall_forall in K. apply K, I. }
    set (others := filter (fun o => negb (is_class o)) opts).
    assert (H : Forall (wf_re lim) (if existsb is_class opts then RClass (normalize_ranges (flat_map class_ranges opts)) :: others else others)).
    { assert (O : Forall (wf_re lim) others) by (apply Forall_forall; intros x I; apply filter_In in I as [I _]; apply G, I).
      destruct (existsb is_class opts) eqn:E; [|exact O]. constructor; [|exact O].
      assert (K : good_ranges (flat_map class_ranges opts)).
      { split; [|split].
        - apply existsb_exists in E as (o & I & C). destruct o; try discriminate.
          specialize (G _ I). inversion G as [? N _ _| | | | |]; subst. destruct ranges as [|r rs]; [congruence|].
          intros Z. assert (J : In r (flat_map class_ranges opts)) by (apply in_flat_map; exists (RClass (r :: rs)); split; [exact I|left; reflexivity]).
          rewrite Z in J. exact J.
        - apply Forall_forall. intros r I. apply in_flat_map in I as (o & Io & I). specialize (G _ Io). destruct o; try contradiction.
          inversion G as [? _ B _| | | | |]; subst. rewrite Forall_forall in B. apply B, I.
        - apply Forall_forall. intros r I. apply in_flat_map in I as (o & Io & I). specialize (G _ Io). destruct o; try contradiction.
          inversion G as [? _ _ B| | | | |]; subst. rewrite Forall_forall in B. apply B, I. }
      destruct (normalize_good _ K) as (N & B & S). constructor; assumption. }
    destruct (if existsb is_class opts then _ else _) as [|m [|m' l]]; [constructor|inversion H; assumption|constructor; [discriminate|exact H]].
  Qed.
  Theorem simplify_wf n : good_re n -> wf_re lim (simplify n).
  Proof.
    induction n as [rs|ps IH|os IH|s mn mx IH| |] using re_ind'; intros W.
    - inversion W as [? G| | | | |]; subst. destruct (normalize_good rs G) as (N & B & S). constructor; assumption.
    - apply join_concat_wf. inversion W as [|? F| | | |]; subst. apply Forall_forall. intros x I. apply in_map_iff in I as (y & <- & I).
      rewrite Forall_forall in *. auto.
    - apply join_alt_wf. inversion W as [| |? F| | |]; subst. apply Forall_forall. intros x I. apply in_map_iff in I as (y & <- & I).
      rewrite Forall_forall in *. auto.
    - inversion W as [| | |? ? ? B Ws| |]; subst. specialize (IH Ws). cbn [simplify].
      destruct (is_never (simplify s)); [destruct (mn =? 0); constructor|].
      destruct (is_empty (simplify s)); [constructor|].
      destruct ((mn =? 1) && (mx =? 1)); [exact IH|constructor; assumption].
    - constructor.
    - constructor.
  Qed.
End Good.
