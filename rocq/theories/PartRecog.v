(** Proofs about the recognizer on a closed part of a grammar.  Its definitions are means of proof and
    model no code. *)
From Coq Require Import ZArith Arith String Ascii Bool Relations List Lia.
From Verif Require Import Syntax Spec Num Term PropTerm Deps Dag Cycle PropDag Printer Check LeftRec PropLeftRec LowerLang PrintInj PropSem PropGll
  Recog RecogProof RecogComplete RecogGlue PropRecog Part PartProof.
Import ListNotations.
Local Open Scope string_scope.
Local Open Scope list_scope.
Local Open Scope nat_scope.

(** ** The same calls give the same results *)
Section Cong.
  Variables (g g' : grammar) (input : list Z) (lr lr' : string -> option (list string)) (ord : nat -> list nat -> list nat).
  Variable okn : string -> Prop.
  Variable okr : rep -> Prop.
  Definition oke (e : elem) : Prop :=
    match e with
    | ERule n => okn n
    | EGroup a | EOption a => forall c x, In c a -> In x c -> okr x
    | _ => True
    end.
  Hypothesis Rep_ok : forall mn mx e, okr (Rep mn mx e) -> oke e.
  Hypothesis Get : forall n, okn n -> get_rule n g = get_rule n g'.
  Hypothesis Got : forall n r, okn n -> get_rule n g' = Some r -> forall c x, In c (rule_alt r) -> In x c -> okr x.
  Hypothesis Lr : forall n, okn n -> lr (lower n) = lr' (lower n).
  Hypothesis Scc : forall n scc x, okn n -> lr' (lower n) = Some scc -> In x scc -> okn x.

  Section Call.
    Variables c1 c2 : elem -> nat -> rstate -> rres (list nat).
    Hypothesis E : forall e i st, oke e -> c1 e i st = c2 e i st.

    Lemma each_cong (f h : nat -> rstate -> rres (list nat)) : (forall p st, f p st = h p st) -> forall ps acc st, each_pos f ps acc st = each_pos h ps acc st.
    Proof.
      intros H. induction ps as [|p ps IH]; intros acc st; [reflexivity|]. cbn [each_pos]. rewrite H. destruct (h p st); cbn [rbind]; auto.
    Qed.
    Lemma rep_loop_cong e : oke e -> forall k c mn mx level seen ends st,
      rep_loop ord c1 k c mn mx e level seen ends st = rep_loop ord c2 k c mn mx e level seen ends st.
    Proof.
      intros O. induction k as [|k IH]; intros c mn mx level seen ends st; [reflexivity|]. cbn [rep_loop].
      destruct (negb (mx =? inf)%Z && (mx <? c)%Z)%bool; [reflexivity|]. unfold range_pos.
      rewrite (each_cong (fun p => c1 e p) (fun p => c2 e p)); [|intros; apply E, O].
      destruct (each_pos (fun p => c2 e p) _ _ _) as [next st'| |]; cbn [rbind]; auto. destruct next; auto. cbv zeta.
      destruct (negb _ && _)%bool; auto.
    Qed.
    Lemma reach_rep_cong r : okr r -> forall i st, reach_rep input ord c1 r i st = reach_rep input ord c2 r i st.
    Proof. destruct r as [mn mx e]. intros O i st. unfold reach_rep. apply rep_loop_cong. eapply Rep_ok, O. Qed.
    Lemma cat_cong c : (forall x, In x c -> okr x) -> forall cur st, cat_loop input ord c1 c cur st = cat_loop input ord c2 c cur st.
    Proof.
      induction c as [|r c IH]; intros H cur st; [reflexivity|]. cbn [cat_loop]. unfold range_pos.
      rewrite (each_cong (fun p => reach_rep input ord c1 r p) (fun p => reach_rep input ord c2 r p)); [|intros; apply reach_rep_cong, H; left; reflexivity].
      destruct (each_pos _ _ _ _) as [next st'| |]; cbn [rbind]; auto. destruct next; auto. apply IH. intros x I. apply H. right. exact I.
    Qed.
    Lemma alt_cong a : (forall c x, In c a -> In x c -> okr x) -> forall i st, reach_alt input ord c1 a i st = reach_alt input ord c2 a i st.
    Proof.
      intros H i. unfold reach_alt. generalize (@nil nat) as acc. induction a as [|c a IH]; intros acc st; [reflexivity|]. cbn [alt_loop].
      rewrite (cat_cong c); [|intros x; apply H; left; reflexivity]. destruct (cat_loop input ord c2 c [i] st) as [s st'| |]; cbn [rbind]; auto.
      apply IH. intros d x I. apply H. right. exact I.
    Qed.
    Lemma compute_cong e : oke e -> forall i st, compute_elem g input ord c1 e i st = compute_elem g' input ord c2 e i st.
    Proof.
      intros O i st. destruct e as [n|a|a|s v|b s es|v]; try reflexivity; cbn [compute_elem].
      - rewrite (Get n O). destruct (get_rule n g') as [r|] eqn:G; [|reflexivity]. apply alt_cong, (Got n r O G).
      - apply alt_cong, O.
      - rewrite (alt_cong a O). reflexivity.
    Qed.
    Lemma round_cong scc i : (forall x, In x scc -> okn x) -> forall ch st, grow_round g input ord c1 scc i ch st = grow_round g' input ord c2 scc i ch st.
    Proof.
      induction scc as [|x scc IH]; intros H ch st; [reflexivity|]. assert (H' : forall y, In y scc -> okn y) by (intros y I; apply H; right; exact I).
      assert (Ox : okn x) by (apply H; left; reflexivity). cbn [grow_round]. rewrite (Get x Ox). destruct (get_rule x g') as [r|] eqn:G; [|apply IH, H'].
      rewrite (alt_cong (rule_alt r) (Got x r Ox G)). destruct (reach_alt input ord c2 (rule_alt r) i st) as [ns st'| |]; cbn [rbind]; auto.
      destruct (r_grow st' (rkey x i)) as [cur|]; [|destruct ns; auto]. destruct (existsb _ ns); auto.
    Qed.
    Lemma grow_cong scc i : (forall x, In x scc -> okn x) -> forall k st, grow_loop g input ord c1 k scc i st = grow_loop g' input ord c2 k scc i st.
    Proof.
      intros H. induction k as [|k IH]; intros st; [reflexivity|]. cbn [grow_loop]. rewrite (round_cong scc i H).
      destruct (grow_round g' input ord c2 scc i false st) as [ch st'| |]; cbn [rbind]; auto. destruct ch; auto.
    Qed.
    Lemma body_cong e : oke e -> forall i st, reach_body g input lr ord c1 e i st = reach_body g' input lr' ord c2 e i st.
    Proof.
      intros O i st. unfold reach_body.
      assert (Pl : reach_plain g input ord c1 e i st = reach_plain g' input ord c2 e i st).
      { unfold reach_plain. destruct (r_memo st (ekey e i)); [reflexivity|]. destruct (r_prog st (ekey e i)); [reflexivity|]. rewrite (compute_cong e O). reflexivity. }
      destruct e as [n|a|a|s v|b s es|v]; cbn [is_lr]; try exact Pl. rewrite (Lr n O). destruct (lr' (lower n)) as [scc|] eqn:Q; [|exact Pl].
      unfold reach_left_rec. destruct (r_memo st (rkey (lower n) i)); [reflexivity|]. destruct (r_grow st (rkey (lower n) i)); [reflexivity|].
      rewrite (grow_cong scc i (fun x => Scc n scc x O Q)). reflexivity.
    Qed.
  End Call.
  Lemma reach_cong f : forall e i st, oke e -> reach_elem g input lr ord f e i st = reach_elem g' input lr' ord f e i st.
  Proof. induction f as [|f IH]; intros e i st O; [reflexivity|]. cbn [reach_elem]. apply body_cong; auto. Qed.
End Cong.

Section PartRecog.
  Variables (g g' : grammar) (root : string).
  Hypothesis D : distinct_names g.
  Hypothesis P : part g' g root.
  Notation shared := (shared g g').
  Notation ok := (ok g g').

  Definition sharedb (x : string) : bool :=
    (existsb (fun r => equal_fold x (rule_name r)) g' || negb (existsb (fun r => equal_fold x (rule_name r)) g))%bool.
  Lemma sharedb_spec x : sharedb x = true <-> shared x.
  Proof.
    unfold sharedb. rewrite orb_true_iff, negb_true_iff. split.
    - intros [H|H] r I S.
      + apply existsb_exists in H as (r' & I' & E). apply equal_fold_iff in E. assert (r = r') as -> by (apply (distinct_eq g r r' D I (proj1 P _ I')); unfold same_name in *; congruence). exact I'.
      + apply equal_fold_iff in S. assert (X : existsb (fun r => equal_fold x (rule_name r)) g = true) by (apply existsb_exists; eauto). congruence.
    - intros S. destruct (existsb (fun r => equal_fold x (rule_name r)) g) eqn:X; [left|right; reflexivity].
      apply existsb_exists in X as (r & I & E). apply existsb_exists. exists r. split; [|exact E]. apply (S r I). apply equal_fold_iff. exact E.
  Qed.

  (** ** Left corners *)
  Lemma body_part e a : ok e -> (body g e a <-> body g' e a) /\ (body g' e a -> forall c y, In c a -> In y c -> occ_rep g' y).
  Proof.
    intros O. split.
    - split; intros B; inversion B as [n b R|b|b]; subst; constructor; apply (resolves_part g g' root P n a O), R.
    - intros B c y. inversion B as [n b R|b|b]; subst; [apply (resolves_occ g' n a R)|apply occ_rep_group, O|apply occ_rep_option, O].
  Qed.
  Lemma corner_part e e' : ok e -> (corner g e e' <-> corner g' e e') /\ (corner g' e e' -> ok e').
  Proof.
    intros O. split; [split|].
    - intros (a & pre & mn & mx & x & post & B & I & N & C). exists a, pre, mn, mx, x, post. apply (body_part e a O) in B. split; [exact B|]. split; [exact I|]. split; [|exact C].
      intros r Ir. apply (lang_part g g' root P); [apply N, Ir|]. apply (proj2 (body_part e a O) B _ r I). apply in_or_app. auto.
    - intros (a & pre & mn & mx & x & post & B & I & N & C). exists a, pre, mn, mx, x, post. split; [apply (body_part e a O), B|]. split; [exact I|]. split; [|exact C].
      intros r Ir. apply (part_lang g g' root P); [apply N, Ir|]. apply (proj2 (body_part e a O) B _ r I). apply in_or_app. auto.
    - intros (a & pre & mn & mx & x & post & B & I & N & C). apply (canon_ok g g' x e' C). apply (occ_ok g g' root P). apply (occ_elem_rep g' mn mx).
      apply (proj2 (body_part e a O) B _ _ I). apply in_or_app. right. left. reflexivity.
  Qed.
  Lemma corners_part e e' : ok e -> (corners g e e' -> corners g' e e' /\ ok e') /\ (corners g' e e' -> corners g e e' /\ ok e').
  Proof.
    intros O. split; intros H; revert O; induction H as [x y H|x y z H1 IH1 H2 IH2]; intros O.
    - apply (corner_part x y O) in H. split; [apply t_step; exact H|apply (corner_part x y O), H].
    - destruct (IH1 O) as [A Oy]. destruct (IH2 Oy) as [B Oz]. split; [eapply t_trans; eauto|exact Oz].
    - split; [apply t_step, (corner_part x y O), H|apply (corner_part x y O), H].
    - destruct (IH1 O) as [A Oy]. destruct (IH2 Oy) as [B Oz]. split; [eapply t_trans; eauto|exact Oz].
  Qed.
  (** What a rule leads to is written in the part. *)
  Lemma rule_corner n e : corner g' (ERule n) e -> ok e.
  Proof.
    intros (a & pre & mn & mx & y & post & B & I & N & C). apply (canon_ok g g' y e C). apply (occ_ok g g' root P), (occ_elem_rep g' mn mx).
    inversion B as [m b R|b|b]; subst. apply (resolves_occ g' n a R _ _ I). apply in_or_app. right. left. reflexivity.
  Qed.
  Lemma rule_corners n e : corners g' (ERule n) e -> ok e.
  Proof.
    intros H. apply clos_trans_t1n in H. inversion H as [y H1|y z H1 H2]; subst.
    - apply (rule_corner n e H1).
    - apply clos_t1n_trans in H2. apply (corners_part y e (rule_corner n y H1)), H2.
  Qed.

  (** ** The components of the part *)
  Variable lr : string -> option (list string).
  Definition lr_part (m : string) : option (list string) := if sharedb m then lr m else None.
  Hypothesis LI : forall n scc, lr n = Some scc -> In n scc.
  Hypothesis LC : forall n scc m, lr n = Some scc -> In m scc -> exists scc', lr m = Some scc' /\ forall x, In x scc' <-> In x scc.
  Hypothesis Lo : forall n scc x, lr n = Some scc -> In x scc -> lower x = x /\ exists a, resolves g x a.
  Hypothesis L1 : forall n, lr (lower n) = None -> ~ corners g (ERule n) (ERule n).
  Hypothesis L2 : forall n scc m, lr (lower n) = Some scc -> corners g (ERule n) (ERule m) -> corners g (ERule m) (ERule n) -> In (lower m) scc.
  Hypothesis L3 : forall n scc x y, lr n = Some scc -> In x scc -> In y scc -> corners g (ERule x) (ERule y).
  Hypothesis L4 : forall n scc, lr n = Some scc -> NoDup scc.

  Lemma lr_part_some n scc : lr_part n = Some scc <-> shared n /\ lr n = Some scc.
  Proof.
    unfold lr_part. destruct (sharedb n) eqn:S; rewrite <- sharedb_spec; [split; [auto|intros [_ H]; exact H]|]. split; [discriminate|]. intros [H _]. congruence.
  Qed.
  Lemma lr_part_none n : shared n -> lr_part n = lr n.
  Proof. intros S. unfold lr_part. apply sharedb_spec in S. rewrite S. reflexivity. Qed.
  Lemma shared_lower n : shared (lower n) <-> shared n.
  Proof. split; apply shared_same; unfold same_name; rewrite lower_lower; reflexivity. Qed.
  Lemma scc_shared n scc x : lr_part n = Some scc -> In x scc -> shared x.
  Proof.
    intros H I. apply lr_part_some in H as [S H]. pose proof (L3 n scc n x H (LI n scc H) I) as C. exact (proj2 (proj1 (corners_part (ERule n) (ERule x) S) C)).
  Qed.
  Lemma shared_lr n : lr_part (lower n) = None -> ~ corners g' (ERule n) (ERule n).
  Proof.
    intros H C. pose proof (rule_corners n _ C) as S. cbn in S. rewrite (lr_part_none (lower n) (proj2 (shared_lower n) S)) in H.
    apply (L1 n H). apply (corners_part (ERule n) (ERule n) S), C.
  Qed.

  Hypothesis W' : wf_grammar g'.
  Hypothesis LG : lex_grammar g' = true.
  Hypothesis SF : same_flags g'.
  Hypothesis HG : groups_not_left_recursive g'.
  Variable input : list Z.
  Hypothesis HC : count_ok g' input.
  Variable ord : nat -> list nat -> list nat.
  Hypothesis O : any_order ord.

  Lemma reach_part f : reach_elem g input lr ord f (ERule root) 0 r_init = reach_elem g' input lr_part ord f (ERule root) 0 r_init.
  Proof.
    apply (reach_cong g g' input lr lr_part ord shared (occ_rep g')).
    - intros mn mx e Oc. assert (Oe : occ_elem g' e) by (econstructor; exact Oc). pose proof (occ_ok g g' root P e Oe) as Oke.
      destruct e as [n|a|a|s v|b s es|v]; cbn; auto; intros c x; [apply occ_rep_group, Oe|apply occ_rep_option, Oe].
    - apply (get_part g g' root D P).
    - intros n r _ G. apply (get_occ g' n r G).
    - intros n S. symmetry. apply lr_part_none, shared_lower, S.
    - intros n scc x S H. apply (scc_shared (lower n) scc x H).
    - apply (shared_root g g' root P).
  Qed.
  Lemma found_part fuel : (exists a, resolves g root a) ->
    good True True (reach_elem g input lr ord fuel (ERule root) 0 r_init) (fun s _ => forall j, der g' input (ERule root) 0 j <-> In j s).
  Proof.
    intros (a & R). rewrite reach_part. apply (resolves_part g g' root P root a (shared_root g g' root P)) in R.
    apply (recognizer_complete g' input lr_part ord O W' LG SF).
    - intros n scc H. apply lr_part_some in H as [_ H]. auto.
    - intros n scc m H I. pose proof (scc_shared n scc m H I) as S. apply lr_part_some in H as [_ H]. destruct (LC n scc m H I) as (scc' & A & B).
      exists scc'. split; [apply lr_part_some; auto|exact B].
    - intros n scc x H I. pose proof (scc_shared n scc x H I) as S. apply lr_part_some in H as [_ H]. destruct (Lo n scc x H I) as [_ (b & Rx)].
      apply (resolves_part g g' root P x b S) in Rx. eapply resolves_lex; eauto.
    - intros n scc x H I. apply lr_part_some in H as [_ H]. apply (Lo n scc x H I).
    - apply shared_lr.
    - intros n scc m H C1 C2. apply lr_part_some in H as [S H]. apply (proj1 (shared_lower n)) in S. destruct (proj2 (corners_part (ERule n) (ERule m) S) C1) as [C1' Sm].
      apply (L2 n scc m H C1'). apply (corners_part (ERule m) (ERule n) Sm), C2.
    - intros n scc x y H Ix Iy. pose proof (scc_shared n scc x H Ix) as S. apply lr_part_some in H as [_ H]. apply (corners_part (ERule x) (ERule y) S). eapply L3; eauto.
    - intros n scc H. apply lr_part_some in H as [_ H]. eapply L4; eauto.
    - exact HG.
    - apply (count_repok g' input W' HC).
    - eapply resolves_lex; eauto.
  Qed.
End PartRecog.

Lemma valid_part g g' n input ordn order ord fuel :
  distinct_names g -> bounds_ok g -> any_order ordn -> name_order g order -> fine_first g order -> any_order ord ->
  part g' g n -> wf_grammar g' -> lex_grammar g' = true -> same_flags g' -> groups_not_left_recursive g' -> count_ok g' input ->
  (exists a, resolves g n a) -> recog_fuel g input n <= fuel ->
  exists b, is_valid ordn order ord fuel g n input = VBool b /\ (b = true <-> Lang g n input).
Proof.
  intros D B On K FF O P W' LG SF HG HC R Hf.
  pose proof (C03_valid_terminates g n input ordn order ord fuel On K O Hf) as T.
  pose proof (C03_valid_no_panic_partial g n input ordn order ord fuel D B On K FF O) as N. unfold is_valid in *.
  destruct (proj2 (get_rule_some g n) R) as (r & G). rewrite G in *.
  destruct (class_facts g ordn order On K D B FF) as (lr & E & LI & LC & Lo & L1 & L2 & L3 & L4). rewrite E in *.
  pose proof (found_part g g' n D P lr LI LC Lo L1 L2 L3 L4 W' LG SF HG input HC ord O fuel R) as F.
  destruct (reach_elem g input lr ord fuel (ERule n) 0 r_init) as [ends st| |]; try congruence.
  eexists. split; [reflexivity|]. rewrite mem_nat_in. cbn in F. rewrite <- F, (lang_shared g g' n P n input (shared_root g g' n P)). split.
  - intros (w & I & Sp). apply span_whole in Sp. subst w. exact I.
  - intros I. exists input. split; [exact I|apply span_self].
Qed.
