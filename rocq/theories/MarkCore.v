(** Marking the core rules as well; nullability and left corners do not depend on [%s].
    Its definitions, but for [with_core], are means of proof and model no code. *)
From Coq Require Import ZArith Arith String Ascii Bool Relations List Lia.
From Verif Require Import Syntax Spec Num Term Printer PrintInj Deps Dag Cycle LowerLang PropTerm PropDag LeftRec Check Recog RecogProof RecogComplete RecogGlue Between Marked.
Import ListNotations.
Local Open Scope list_scope.

(** The grammar with the core rules it does not define (rules.go:7-24, which GetRule falls back
    on, utils.go:137-143) written out. *)
Definition with_core (g : grammar) : grammar :=
  g ++ filter (fun r => negb (existsb (fun q => String.eqb (lower (rule_name q)) (lower (rule_name r))) g)) core_rules.

Notation ealt := (map (map erase_rep)).
Notation malt b := (map (map (mark_rep b))).

Definition alike (g1 g2 : grammar) : Prop := forall n a, resolves g1 n a -> exists a', resolves g2 n a' /\ ealt a = ealt a'.

Lemma map_split {A B} (f : A -> B) l x y : map f l = x ++ y -> exists l1 l2, l = l1 ++ l2 /\ map f l1 = x /\ map f l2 = y.
Proof.
  revert l. induction x as [|b x IH]; cbn; intros l E; [exists [], l; auto|]. destruct l as [|a l]; [discriminate|]. injection E as E1 E2.
  destruct (IH l E2) as (l1 & l2 & -> & <- & <-). exists (a :: l1), l2. cbn. rewrite E1. auto.
Qed.
Lemma map_in_eq {A B} (f : A -> B) l l' x : map f l = map f l' -> In x l -> exists x', In x' l' /\ f x = f x'.
Proof. intros E I. apply (in_map f) in I. rewrite E in I. apply in_map_iff in I as (y & E' & I). eauto. Qed.

Theorem null_alike g1 g2 : alike g1 g2 ->
  (forall e w, in_elem g1 e w -> w = [] -> forall e', erase_elem e = erase_elem e' -> in_elem g2 e' []) /\
  (forall a w, in_alt g1 a w -> w = [] -> forall a', ealt a = ealt a' -> in_alt g2 a' []) /\
  (forall c w, in_cat g1 c w -> w = [] -> forall c', map erase_rep c = map erase_rep c' -> in_cat g2 c' []) /\
  (forall r w, in_rep g1 r w -> w = [] -> forall r', erase_rep r = erase_rep r' -> in_rep g2 r' []) /\
  (forall e n w, in_pow g1 e n w -> w = [] -> forall e', erase_elem e = erase_elem e' -> in_pow g2 e' n []).
Proof.
  intros A. apply lang_mut.
  - intros n a w R _ IH -> e' E. destruct e'; cbn in E; try discriminate. injection E as <-. destruct (A n a R) as (a' & R' & Ea). econstructor; eauto.
  - intros a w _ IH -> e' E. destruct e'; cbn in E; try discriminate. injection E as E. constructor. auto.
  - intros a _ e' E. destruct e'; cbn in E; try discriminate. constructor.
  - intros a w _ IH -> e' E. destruct e'; cbn in E; try discriminate. injection E as E. apply in_option_some. auto.
  - intros s vs rs F Sc E0 e' E. destruct e'; cbn in E; try discriminate. injection E as <-.
    destruct F as [|v r vs rs F1 F2]; [|cbn in E0; apply app_eq_nil in E0 as [E0 _]; exfalso; exact (utf8_nonempty _ E0)].
    apply (in_char g2 _ [] []); auto.
  - intros b ns rs F Sc E0 e' E. destruct e'; cbn in E; try discriminate. injection E as <- <- <-. rewrite <- E0. constructor; auto.
  - intros b l h lv hv r H1 H2 H3 Sc E0 e' E. exfalso. exact (utf8_nonempty _ E0).
  - intros c a w I _ IH -> a' E. destruct (map_in_eq _ _ _ _ E I) as (c' & I' & Ec). econstructor; eauto.
  - intros _ c' E. destruct c'; [constructor|discriminate].
  - intros r c w1 w2 _ IH1 _ IH2 E0 c' E. apply app_eq_nil in E0 as [-> ->]. destruct c' as [|r' c']; [discriminate|]. injection E as E1 E2.
    change (@nil Z) with (@nil Z ++ @nil Z). constructor; auto.
  - intros mn mx e n w H1 H2 _ IH -> r' E. destruct r' as [mn' mx' e']. cbn in E. injection E as <- <- E. econstructor; eauto.
  - intros e _ e' E. constructor.
  - intros e n w1 w2 _ IH1 _ IH2 E0 e' E. apply app_eq_nil in E0 as [-> ->]. change (@nil Z) with (@nil Z ++ @nil Z). constructor; auto.
Qed.
Theorem corner_alike g1 g2 : alike g1 g2 ->
  (forall a m, left_corner g1 a m -> forall a', ealt a = ealt a' -> left_corner g2 a' m) /\
  (forall e m, left_corner_elem g1 e m -> forall e', erase_elem e = erase_elem e' -> left_corner_elem g2 e' m).
Proof.
  intros A. apply lcr_ind2.
  - intros a pre mn mx e post n I P _ IH a' E. destruct (map_in_eq _ _ _ _ E I) as (c' & I' & Ec). rewrite map_app in Ec. symmetry in Ec.
    apply map_split in Ec as (pre' & l & -> & E1 & E2). destruct l as [|[mn' mx' e'] post']; [discriminate|]. cbn in E2. injection E2 as <- <- E2 E3.
    apply (lcr_cat g2 a' pre' mn' mx' e' post' n I'); auto.
    intros r' Ir. destruct (map_in_eq _ _ _ _ E1 Ir) as (r & Ir0 & Er). apply (proj1 (proj2 (proj2 (proj2 (null_alike g1 g2 A)))) r [] (P r Ir0) eq_refl r'). symmetry. exact Er.
  - intros k n S e' E. destruct e'; cbn in E; try discriminate. injection E as <-. constructor. auto.
  - intros a n _ IH e' E. destruct e'; cbn in E; try discriminate. injection E as E. constructor. auto.
  - intros a n _ IH e' E. destruct e'; cbn in E; try discriminate. injection E as E. constructor. auto.
Qed.
Lemma lc_alike g1 g2 n m : alike g1 g2 -> clos_trans _ (lc_ref g1) n m -> clos_trans _ (lc_ref g2) n m.
Proof.
  intros A H. induction H as [n m (a & R & L)|n k m _ IH1 _ IH2]; [|eapply t_trans; eauto]. apply t_step.
  destruct (A n a R) as (a' & R' & E). exists a'. split; auto. eapply (proj1 (corner_alike g1 g2 A)); eauto.
Qed.
Lemma corners_alike g1 g2 n m : alike g1 g2 -> corners g1 (ERule n) (ERule m) -> corners g2 (ERule n) (ERule m).
Proof. intros A H. apply lc_corners. apply (lc_alike g1 g2 n m A). apply corners_lc. exact H. Qed.

(** ** Rules of the marked grammar *)
Lemma erase_mark b : (forall e, erase_elem (mark_elem b e) = erase_elem e) /\ (forall r, erase_rep (mark_rep b r) = erase_rep r).
Proof.
  apply elem_rep_ind; try (intros; reflexivity).
  - intros a H. cbn [erase_elem mark_elem]. f_equal. rewrite map_map. rewrite (map_ext _ (map (fun x => erase_rep (mark_rep b x)))) by (intros; apply map_map). apply map2_ext. exact H.
  - intros a H. cbn [erase_elem mark_elem]. f_equal. rewrite map_map. rewrite (map_ext _ (map (fun x => erase_rep (mark_rep b x)))) by (intros; apply map_map). apply map2_ext. exact H.
  - intros mn mx e H. cbn [erase_rep mark_rep]. f_equal. exact H.
Qed.
Lemma ealt_mark b a : ealt (malt b a) = ealt a.
Proof. rewrite map_map. apply map_ext. intros c. rewrite map_map. apply map_ext. apply erase_mark. Qed.

Section T.
  Variable g : grammar.
  Notation t := (mark true (with_core g)).
  Notation h := (mark false g).

  Lemma absent r : existsb (fun q => String.eqb (lower (rule_name q)) (lower (rule_name r))) g = false <-> forall q, In q g -> ~ same_name (rule_name r) (rule_name q).
  Proof.
    split.
    - intros E q I S. assert (existsb (fun q => String.eqb (lower (rule_name q)) (lower (rule_name r))) g = true); [|congruence].
      apply existsb_exists. exists q. split; auto. apply String.eqb_eq. symmetry. exact S.
    - intros H. destruct (existsb _ g) eqn:E; auto. apply existsb_exists in E as (q & I & S). apply String.eqb_eq in S. exfalso. apply (H q I). symmetry. exact S.
  Qed.
  Lemma in_with_core r : In r (with_core g) <-> In r g \/ (In r core_rules /\ forall q, In q g -> ~ same_name (rule_name r) (rule_name q)).
  Proof. unfold with_core. rewrite in_app_iff, filter_In, negb_true_iff, absent. tauto. Qed.
  Lemma t_resolves n a : resolves g n a -> resolves t n (malt true a).
  Proof.
    intros [(r & I & S & <-)|(N & r & I & S & <-)]; left; exists (mkRule (rule_name r) (malt true (rule_alt r))); (split; [apply in_map_iff; exists r; split; auto; apply in_with_core|auto]); auto.
    right. split; auto. intros q Iq Sq. apply (N q Iq). unfold same_name in *. congruence.
  Qed.
  Lemma t_resolves_inv n a' : resolves t n a' -> exists a, resolves g n a /\ a' = malt true a.
  Proof.
    intros [(r & I & S & <-)|(N & r & I & S & <-)].
    - apply in_map_iff in I as (q & <- & I). exists (rule_alt q). split; [|reflexivity]. cbn in S. apply in_with_core in I as [I|[I N]]; [left; eauto|].
      right. split; [|eauto]. intros q' I' S'. apply (N q' I'). unfold same_name in *. congruence.
    - exfalso. destruct (existsb (fun q => String.eqb (lower (rule_name q)) (lower (rule_name r))) g) eqn:E.
      + apply existsb_exists in E as (q & Iq & Sq). apply String.eqb_eq in Sq.
        apply (N (mkRule (rule_name q) (malt true (rule_alt q)))); [apply in_map_iff; exists q; split; auto; apply in_with_core; auto|]. cbn. unfold same_name in *. congruence.
      + apply (N (mkRule (rule_name r) (malt true (rule_alt r)))); [|exact S]. apply in_map_iff. exists r. split; auto. apply in_with_core. right. split; auto. apply absent. exact E.
  Qed.
  Lemma core_plain r : In r core_rules -> malt false (rule_alt r) = rule_alt r.
  Proof. intros I. repeat (destruct I as [<-|I]; [vm_compute; reflexivity|]). destruct I. Qed.
  Lemma h_resolves n a : resolves g n a -> resolves h n (malt false a).
  Proof.
    intros [(r & I & S & <-)|(N & r & I & S & <-)].
    - left. exists (mkRule (rule_name r) (malt false (rule_alt r))). split; [apply in_map_iff; eauto|auto].
    - right. split; [|exists r; split; auto; split; auto; symmetry; apply core_plain; auto].
      intros q Iq Sq. apply in_map_iff in Iq as (q0 & <- & Iq). exact (N q0 Iq Sq).
  Qed.
  Lemma h_resolves_inv n a' : resolves h n a' -> exists a, resolves g n a /\ a' = malt false a.
  Proof.
    intros [(r & I & S & <-)|(N & r & I & S & <-)].
    - apply in_map_iff in I as (q & <- & I). exists (rule_alt q). split; [left; eauto|reflexivity].
    - exists (rule_alt r). split; [|symmetry; apply core_plain; auto]. right. split; [|eauto].
      intros q Iq Sq. apply (N (mkRule (rule_name q) (malt false (rule_alt q)))); [apply in_map_iff; eauto|exact Sq].
  Qed.
  Lemma alike_gt : alike g t.
  Proof. intros n a R. exists (malt true a). split; [apply t_resolves; auto|symmetry; apply ealt_mark]. Qed.
  Lemma alike_tg : alike t g.
  Proof. intros n a R. apply t_resolves_inv in R as (a0 & R & ->). exists a0. split; auto. apply ealt_mark. Qed.
  Lemma alike_ht : alike h t.
  Proof. intros n a R. apply h_resolves_inv in R as (a0 & R & ->). exists (malt true a0). split; [apply t_resolves; auto|rewrite !ealt_mark; reflexivity]. Qed.

  Lemma with_core_resolves n a : resolves (with_core g) n a -> resolves g n a.
  Proof.
    intros [(r & I & S & <-)|(N & r & I & S & <-)].
    - apply in_with_core in I as [I|[I N]]; [left; eauto|]. right. split; [|eauto]. intros q' I' S'. apply (N q' I'). unfold same_name in *. congruence.
    - right. split; [|eauto]. intros q Iq. apply N. apply in_with_core. auto.
  Qed.
  Lemma with_core_mut :
    (forall e w, in_elem (with_core g) e w -> in_elem g e w) /\ (forall a w, in_alt (with_core g) a w -> in_alt g a w) /\
    (forall c w, in_cat (with_core g) c w -> in_cat g c w) /\ (forall r w, in_rep (with_core g) r w -> in_rep g r w) /\
    (forall e n w, in_pow (with_core g) e n w -> in_pow g e n w).
  Proof.
    apply lang_mut; intros; try (econstructor; eauto; fail).
    - econstructor; [apply with_core_resolves; eassumption|assumption].
  Qed.
  Lemma with_core_lang n w : Lang (with_core g) n w -> Lang g n w.
  Proof. apply with_core_mut. Qed.

  Hypothesis W : wf_grammar g.
  Lemma core_with_wf : wf_grammar (with_core g).
  Proof.
    destruct W as [D F]. split.
    - unfold distinct_names, with_core. rewrite map_app. clear F.
      assert (N : forall l, NoDup (map (fun r => lower (rule_name r)) l) -> NoDup (map (fun r => lower (rule_name r)) (filter (fun r => negb (existsb (fun q => String.eqb (lower (rule_name q)) (lower (rule_name r))) g)) l))).
      { induction l as [|r l IH]; cbn; intros H; auto. inversion H as [|? ? H1 H2]; subst. destruct (negb _); cbn; auto. constructor; auto.
        intros I. apply H1. apply in_map_iff in I as (q & E & I). apply filter_In in I as [I _]. apply in_map_iff. eauto. }
      assert (G : forall (l1 l2 : list string), NoDup l1 -> NoDup l2 -> (forall x, In x l1 -> ~ In x l2) -> NoDup (l1 ++ l2)).
      { induction l1 as [|x l1 IH]; cbn; intros l2 H1 H2 H3; auto. inversion H1; subst. constructor; [|apply IH; auto; intros y Y; apply H3; auto].
        rewrite in_app_iff. intros [Q|Q]; [contradiction|]. exact (H3 x (or_introl eq_refl) Q). }
      apply G; [exact D|apply N; apply core_distinct|].
      intros x I1 I2. apply in_map_iff in I1 as (q & <- & I1). apply in_map_iff in I2 as (r & E & I2). apply filter_In in I2 as [_ I2]. apply negb_true_iff in I2.
      rewrite absent in I2. apply (I2 q I1). exact E.
    - apply Forall_forall. intros r I. apply in_with_core in I as [I|[I _]]; [rewrite Forall_forall in F; auto|]. pose proof core_wf as C. rewrite Forall_forall in C. auto.
  Qed.
  Lemma t_wf : wf_grammar t.
  Proof. apply (narrows_grammar_ok t (with_core g)); [apply mark_narrows_grammar|apply core_with_wf]. Qed.
  Lemma h_wf : wf_grammar h.
  Proof. apply (narrows_grammar_ok g h); [apply mark_narrows_grammar|exact W]. Qed.
  Lemma t_get n r : get_rule n g = Some r -> exists r', get_rule n t = Some r' /\ rule_alt r' = malt true (rule_alt r).
  Proof. intros G. apply (proj2 (get_rule_resolves t n (proj1 t_wf))). apply t_resolves. apply (proj1 (get_rule_resolves g n (proj1 W))). exact G. Qed.
  Lemma h_get n r : get_rule n g = Some r -> exists r', get_rule n h = Some r' /\ rule_alt r' = malt false (rule_alt r).
  Proof. intros G. apply (proj2 (get_rule_resolves h n (proj1 h_wf))). apply h_resolves. apply (proj1 (get_rule_resolves g n (proj1 W))). exact G. Qed.
  Lemma t_get_inv n r' : get_rule n t = Some r' -> exists r, get_rule n g = Some r /\ rule_alt r' = malt true (rule_alt r).
  Proof.
    intros G. apply (proj1 (get_rule_resolves t n (proj1 t_wf))) in G. apply t_resolves_inv in G as (a & R & E).
    apply (proj2 (get_rule_resolves g n (proj1 W))) in R as (r & G & <-). eauto.
  Qed.

  (** Occurrences. *)
  Lemma in_malt b a c x : In c a -> In x c -> exists c', In c' (malt b a) /\ In (mark_rep b x) c'.
  Proof. intros I J. exists (map (mark_rep b) c). split; apply in_map; auto. Qed.
  Lemma occ_h : (forall e, occ_elem g e -> occ_elem h (mark_elem false e)) /\ (forall r, occ_rep g r -> occ_rep h (mark_rep false r)).
  Proof.
    apply occ_min.
    - intros mn mx e _ H. econstructor. exact H.
    - intros r c x I J K. apply in_app_iff in I as [I|I].
      + destruct (in_malt false _ _ _ J K) as (c' & J' & K'). eapply (occ_rep_rule h (mkRule (rule_name r) (malt false (rule_alt r)))); eauto.
        apply in_app_iff. left. apply in_map_iff. eauto.
      + destruct (in_malt false _ _ _ J K) as (c' & J' & K'). rewrite core_plain in J' by auto. eapply occ_rep_rule; eauto. apply in_app_iff. auto.
    - intros a c x _ H J K. destruct (in_malt false _ _ _ J K) as (c' & J' & K'). eapply occ_rep_group; eauto.
    - intros a c x _ H J K. destruct (in_malt false _ _ _ J K) as (c' & J' & K'). eapply occ_rep_option; eauto.
  Qed.
  Definition is_char (e : elem) : bool := match e with EChar _ _ => true | _ => false end.
  Lemma core_marked r c mn mx e : In r core_rules -> In c (rule_alt r) -> In (Rep mn mx e) c -> is_char e = true \/ mark_elem true e = e.
  Proof.
    intros I J K.
    assert (H : Forall (fun r => Forall (Forall (fun x => match x with Rep _ _ e => is_char e = true \/ mark_elem true e = e end)) (rule_alt r)) core_rules).
    { repeat (apply Forall_cons; [repeat (apply Forall_cons; [repeat (apply Forall_cons; [first [left; reflexivity|right; reflexivity]|]); apply Forall_nil|]); apply Forall_nil|]). apply Forall_nil. }
    rewrite Forall_forall in H. specialize (H r I). rewrite Forall_forall in H. specialize (H c J). rewrite Forall_forall in H. exact (H _ K).
  Qed.
  Lemma occ_t : (forall e, occ_elem g e -> is_char e = true \/ occ_elem t (mark_elem true e)) /\
    (forall r, occ_rep g r -> is_char (rep_elem r) = true \/ occ_rep t (mark_rep true r)).
  Proof.
    apply occ_min.
    - intros mn mx e _ [H|H]; [left; exact H|right]. econstructor. exact H.
    - intros r c x I J K. apply in_app_iff in I as [I|I].
      + right. destruct (in_malt true _ _ _ J K) as (c' & J' & K'). eapply (occ_rep_rule t (mkRule (rule_name r) (malt true (rule_alt r)))); eauto.
        apply in_app_iff. left. apply in_map_iff. exists r. split; auto. apply in_with_core. auto.
      + destruct x as [mn mx e]. destruct (core_marked r c mn mx e I J K) as [H|H]; [left; exact H|right]. cbn [mark_rep]. rewrite H.
        eapply occ_rep_rule; eauto. apply in_app_iff. auto.
    - intros a c x _ [H|H] J K; [discriminate|]. right. destruct (in_malt true _ _ _ J K) as (c' & J' & K'). eapply occ_rep_group; eauto.
    - intros a c x _ [H|H] J K; [discriminate|]. right. destruct (in_malt true _ _ _ J K) as (c' & J' & K'). eapply occ_rep_option; eauto.
  Qed.
End T.
