(** What the machine builds: the graph of each part of a grammar.
    Its definitions are means of proof and model no code. *)
From Coq Require Import ZArith Arith String Bool List Lia.
From Verif Require Import Syntax Spec Check Num Tape RegexSpec Deps LeftRec LowerLang RecogGlue PropRecog Graph GraphSpec GraphRun GraphClone GraphRep GraphRepeat GraphLive.
Import ListNotations.
Local Open Scope nat_scope.
Local Open Scope list_scope.

(** The grammar whose language is built. *)
Definition meant_elem (d : bool) (e : elem) : elem := if d then split_elem e else e.
Definition meant_rep (d : bool) (r : rep) : rep := match r with Rep mn mx e => Rep mn mx (meant_elem d e) end.
Definition meant_alt (d : bool) (a : alternation) : alternation := map (map (meant_rep d)) a.
Definition meant (d : bool) (g : grammar) : grammar := if d then split_series g else g.
Lemma meant_rep_false r : meant_rep false r = r.
Proof. destruct r; reflexivity. Qed.
Lemma meant_alt_false a : meant_alt false a = a.
Proof.
  unfold meant_alt. rewrite <- (map_id a) at 2. apply map_ext. intros c. rewrite <- (map_id c) at 2. apply map_ext. intros r. apply meant_rep_false.
Qed.
Lemma meant_rep_true r : meant_rep true r = split_rep r.
Proof. destruct r; reflexivity. Qed.
Lemma meant_alt_true a : meant_alt true a = map (map split_rep) a.
Proof. unfold meant_alt. apply map_ext. intros c. apply map_ext. intros r. apply meant_rep_true. Qed.
Lemma meant_group d a : meant_elem d (EGroup a) = EGroup (meant_alt d a).
Proof. destruct d; cbn [meant_elem]; [rewrite meant_alt_true; reflexivity|rewrite meant_alt_false; reflexivity]. Qed.
Lemma meant_option d a : meant_elem d (EOption a) = EOption (meant_alt d a).
Proof. destruct d; cbn [meant_elem]; [rewrite meant_alt_true; reflexivity|rewrite meant_alt_false; reflexivity]. Qed.
Lemma meant_rule_elem d n : meant_elem d (ERule n) = ERule n.
Proof. destruct d; reflexivity. Qed.
Lemma meant_char d s v : meant_elem d (EChar s v) = EChar s v.
Proof. destruct d; reflexivity. Qed.
Lemma meant_distinct d g : distinct_names g -> distinct_names (meant d g).
Proof. destruct d; [|auto]. unfold distinct_names, meant, split_series. rewrite map_map. cbn [rule_name]. auto. Qed.
Lemma core_split : split_series core_rules = core_rules.
Proof. vm_compute. reflexivity. Qed.
Lemma find_split n l : find (fun r => equal_fold n (rule_name r)) (split_series l) =
  option_map (fun r => mkRule (rule_name r) (map (map split_rep) (rule_alt r))) (find (fun r => equal_fold n (rule_name r)) l).
Proof. induction l as [|r l IH]; cbn [split_series map find]; [reflexivity|]. cbn [rule_name]. destruct (equal_fold n (rule_name r)); [reflexivity|exact IH]. Qed.
Lemma get_rule_meant d n g r : get_rule n g = Some r -> exists r', get_rule n (meant d g) = Some r' /\ rule_alt r' = meant_alt d (rule_alt r).
Proof.
  destruct d; cbn [meant].
  - unfold get_rule, get_rule_core, get_rule_in. intros E. rewrite find_split.
    destruct (find (fun r => equal_fold n (rule_name r)) g) as [x|] eqn:F; cbn [option_map].
    + injection E as <-. eexists. split; [reflexivity|]. rewrite meant_alt_true. reflexivity.
    + rewrite <- core_split, find_split, E. cbn [option_map]. eexists. split; [reflexivity|]. rewrite meant_alt_true. reflexivity.
  - intros E. exists r. split; [exact E|]. rewrite meant_alt_false. reflexivity.
Qed.

Section Build.
  Variable g0 : grammar.
  Variable opts : tgoptions.
  Notation d := (o_numvals opts).
  Notation g := (meant d g0).
  Notation W := (in_elem g).
  Hypothesis Dn : distinct_names g0.
  Hypothesis Wf : forall r, occ_rep g0 r -> wf_rep r.

  Notation hp := t_heap.
  (** The budget is counted without overflow. *)
  Definition bud : Prop := budget opts /\ (forall s vs, occ_elem g0 (EChar s vs) -> (Z.of_nat (length vs) < 2 ^ 62)%Z) /\
    (forall b k es, occ_elem g0 (ENum b k es) -> (Z.of_nat (length es) < 2 ^ 63)%Z).
  (** No part is empty. *)
  Definition solid : Prop := filled opts g0.
  Definition alive (h : heap) (I O : points) : Prop := solid -> lv h I O /\ I <> [].
  (** What is done between two states. *)
  Record done (st0 st : tgstate) (R : list nat) (I O : points) (L : clang) : Prop := {
    do_gr : gr W (length (hp st0)) (hp st) R I O L;
    do_frame : frame (hp st0) (hp st);
    do_buf : forall n bi bo, In (n, (bi, bo)) (t_buf st) -> In (n, (bi, bo)) (t_buf st0) \/
      exists Rb, gr W (length (hp st0)) (hp st) Rb bi bo (W (ERule n)) /\ (forall a, In a Rb -> ~ In a R) /\
        (bud -> in_budget opts st0 -> (Z.of_nat (length Rb) <= t_count st)%Z) /\ alive (hp st) bi bo;
    do_count : bud -> in_budget opts st0 ->
      in_budget opts st /\ (t_count st0 + Z.of_nat (length R) <= t_count st)%Z;
    do_live : solid -> lv (hp st) I O }.
  Definition good (st0 : tgstate) (L : clang) (r : tres) : Prop :=
    match r with T_ok pi po st => exists R, done st0 st R pi po L /\ (solid -> pi <> []) | _ => True end.
  Definition buf_ok (st : tgstate) : Prop :=
    (bud -> in_budget opts st) /\
    forall n bi bo, In (n, (bi, bo)) (t_buf st) -> exists Rb, gr W 0 (hp st) Rb bi bo (W (ERule n)) /\
      (bud -> (Z.of_nat (length Rb) <= t_count st)%Z) /\ alive (hp st) bi bo.

  Lemma frame_refl h : frame h h.
  Proof. split; [lia|reflexivity]. Qed.
  Lemma frame_trans h1 h2 h3 : frame h1 h2 -> frame h2 h3 -> frame h1 h3.
  Proof. intros [A1 A2] [B1 B2]. split; [lia|]. intros a La. rewrite B2 by lia. apply A2, La. Qed.
  Lemma gr_frame lo h h' R I O L : gr W lo h R I O L -> frame h h' -> gr W lo h' R I O L.
  Proof. intros G [F1 F2]. eapply gr_agree; [exact G| |exact F1]. intros a Ia. apply F2, (gr_in _ _ _ _ _ _ _ G), Ia. Qed.
  Lemma alive_agree lo h h' R I O L : gr W lo h R I O L -> agree R h h' -> alive h I O -> alive h' I O.
  Proof. intros G A V S. destruct (V S) as [V1 V2]. split; [|exact V2]. apply (lv_agree R h); [apply G|exact A|apply G|exact V1]. Qed.
  Lemma frame_agree lo h h' R I O L : gr W lo h R I O L -> frame h h' -> agree R h h'.
  Proof. intros G [_ F] a Ia. apply F, (gr_in _ _ _ _ _ _ _ G), Ia. Qed.
  Lemma alive_frame lo h h' R I O L : gr W lo h R I O L -> frame h h' -> alive h I O -> alive h' I O.
  Proof. intros G F. apply (alive_agree lo h h' R I O L G). exact (frame_agree _ _ _ _ _ _ _ G F). Qed.
  Lemma lv_frame lo h h' R I O L : gr W lo h R I O L -> frame h h' -> lv h I O -> lv h' I O.
  Proof. intros G F. apply (lv_agree R h); [apply G|exact (frame_agree _ _ _ _ _ _ _ G F)|apply G]. Qed.
  Lemma done_buf_ok st0 st R I O L : buf_ok st0 -> done st0 st R I O L -> buf_ok st.
  Proof.
    intros [B0 B] D. assert (Q : bud -> in_budget opts st) by (intros X; apply (do_count _ _ _ _ _ _ D X (B0 X))). split; [exact Q|].
    intros n bi bo In1. apply (do_buf _ _ _ _ _ _ D) in In1 as [In1|(Rb & G & _ & Z & V)].
    - destruct (B n bi bo In1) as (Rb & G & Z & V). exists Rb. split; [eapply gr_frame; [exact G|apply D]|]. split.
      + intros X. destruct (do_count _ _ _ _ _ _ D X (B0 X)). specialize (Z X). lia.
      + eapply alive_frame; [exact G|apply D|exact V].
    - exists Rb. split; [eapply gr_low; [|exact G]; lia|]. split; [intros X; apply Z; auto|exact V].
  Qed.
  Lemma good_ext st0 L L' r : leq L L' -> good st0 L r -> good st0 L' r.
  Proof.
    intros E. destruct r as [I O st| | |]; cbn [good]; auto. intros (R & [D1 D2 D3 D4 D5] & Ne). exists R. split; [|exact Ne]. split; auto. eapply gr_ext; eassumption.
  Qed.
  Lemma empty_gr lo h : gr W lo h [] [] [] l_none.
  Proof.
    split; [intros a []|constructor|intros a b []|intros a []|intros a []|auto|].
    intros w. unfold glang, between, l_none. split; [intros [([] & _)|(b & [] & _)]|intros []].
  Qed.
  Lemma done_start st : done st st [] [] [] l_none.
  Proof.
    split; [apply empty_gr|apply frame_refl|auto| |intros _; apply lv_nil]. intros B I. split; [exact I|cbn; lia].
  Qed.
  Lemma eps_gr lo h : gr W lo h [] [None] [None] l_eps.
  Proof.
    split; [intros a []|constructor|intros a b []| | | |].
    - intros a [E|[]]; discriminate.
    - intros a [E|[]]; discriminate.
    - auto.
    - intros w. unfold glang, between, l_eps. cbn [In]. split; [intros [(_ & ->)|(b & [E|[]] & _)]; [reflexivity|discriminate]|intros ->; left; auto].
  Qed.

  (** Two parts in a row. *)
  Lemma done_merge st0 st1 st2 R1 I1 O1 L1 R2 I2 O2 L2 h' R' I O L :
    done st0 st1 R1 I1 O1 L1 -> done st1 st2 R2 I2 O2 L2 ->
    gr W (length (hp st0)) h' R' I O L -> length h' = length (hp st2) ->
    (forall a, ~ In a R1 -> nth_error h' a = nth_error (hp st2) a) ->
    (forall a, In a R' -> In a R1 \/ In a R2) -> length R' <= length R1 + length R2 ->
    (solid -> lv h' I O) -> done st0 (with_heap st2 h') R' I O L.
  Proof.
    intros D1 D2 G Len Oth Sub Sz Lve. split; cbn [with_heap hp t_buf t_count].
    - exact G.
    - destruct (do_frame _ _ _ _ _ _ D1) as [F1 F2]. destruct (do_frame _ _ _ _ _ _ D2) as [F3 F4]. split; [lia|].
      intros a La. rewrite Oth; [rewrite F4 by lia; apply F2, La|]. intros X. apply (gr_in _ _ _ _ _ _ _ (do_gr _ _ _ _ _ _ D1)) in X. lia.
    - intros n bi bo In2. apply (do_buf _ _ _ _ _ _ D2) in In2 as [In1|(Rb & Gb & Db & Zb & Vb)].
      + apply (do_buf _ _ _ _ _ _ D1) in In1 as [In0|(Rb & Gb & Db & Zb & Vb)]; [auto|]. right. exists Rb. split; [|split; [|split]].
        * eapply gr_agree; [eapply gr_frame; [exact Gb|apply D2]| |lia]. intros a Ia. apply Oth, Db, Ia.
        * intros a Ia X. apply Sub in X as [X|X]; [exact (Db a Ia X)|].
          apply (gr_in _ _ _ _ _ _ _ (do_gr _ _ _ _ _ _ D2)) in X. apply (gr_in _ _ _ _ _ _ _ Gb) in Ia. lia.
        * intros B In0. specialize (Zb B In0). destruct (do_count _ _ _ _ _ _ D1 B In0) as [X1 X2]. destruct (do_count _ _ _ _ _ _ D2 B X1) as [X3 X4]. lia.
        * eapply alive_agree; [eapply gr_frame; [exact Gb|apply D2]| |eapply alive_frame; [exact Gb|apply D2|exact Vb]]. intros a Ia. apply Oth, Db, Ia.
      + right. exists Rb. destruct (do_frame _ _ _ _ _ _ D1) as [F1 _].
        assert (Hi : forall a, In a Rb -> ~ In a R1).
        { intros a Ia X. apply (gr_in _ _ _ _ _ _ _ Gb) in Ia. apply (gr_in _ _ _ _ _ _ _ (do_gr _ _ _ _ _ _ D1)) in X. lia. }
        split; [|split; [|split]].
        * eapply gr_agree; [eapply gr_low; [exact F1|exact Gb]| |lia]. intros a Ia. apply Oth, Hi, Ia.
        * intros a Ia X. apply Sub in X as [X|X]; [exact (Hi a Ia X)|exact (Db a Ia X)].
        * intros B In0. apply Zb; [exact B|]. apply (do_count _ _ _ _ _ _ D1 B In0).
        * eapply alive_agree; [exact Gb| |exact Vb]. intros a Ia. apply Oth, Hi, Ia.
    - intros B In0. destruct (do_count _ _ _ _ _ _ D1 B In0) as [X1 X2]. destruct (do_count _ _ _ _ _ _ D2 B X1) as [X3 X4]. split; [exact X3|]. lia.
    - exact Lve.
  Qed.
  Lemma apart st0 st1 st2 R1 I1 O1 L1 R2 I2 O2 L2 : done st0 st1 R1 I1 O1 L1 -> done st1 st2 R2 I2 O2 L2 -> forall a, In a R1 -> ~ In a R2.
  Proof.
    intros D1 D2 a X Y. apply (gr_in _ _ _ _ _ _ _ (do_gr _ _ _ _ _ _ D1)) in X. apply (gr_in _ _ _ _ _ _ _ (do_gr _ _ _ _ _ _ D2)) in Y. lia.
  Qed.
  Lemma concat_live lo h R1 I1 O1 L1 I2 O2 : gr W lo h R1 I1 O1 L1 -> let '(ci, co, h') := concat_graphs I1 O1 I2 O2 h in
    lv h I1 O1 -> lv h I2 O2 -> I1 <> [] -> I2 <> [] -> lv h' ci co /\ ci <> [].
  Proof.
    intros G1. pose proof (concat_points I1 O1 I2 O2 h) as P. destruct (concat_graphs I1 O1 I2 O2 h) as [[ci co] h']. destruct P as (-> & P1 & P2 & P3 & P4).
    intros V1 V2 N1 N2. apply (lv_cat h _ I1 O1 I2 O2); auto.
    apply (link_edges push_next h O1 I2 R1 adds_next); [apply G1|]. intros a Ia. apply (gr_in _ _ _ _ _ _ _ G1), Ia.
  Qed.
  Lemma done_cat st0 st1 st2 R1 I1 O1 L1 R2 I2 O2 L2 : done st0 st1 R1 I1 O1 L1 -> done st1 st2 R2 I2 O2 L2 ->
    let '(ci, co, h') := concat_graphs I1 O1 I2 O2 (hp st2) in (solid -> I1 <> []) -> (solid -> I2 <> []) -> done st0 (with_heap st2 h') (R1 ++ R2) ci co (l_cat L1 L2) /\ (solid -> ci <> []).
  Proof.
    intros D1 D2. pose proof (apart _ _ _ _ _ _ _ _ _ _ _ D1 D2) as Ap.
    assert (G1 : gr W (length (hp st0)) (hp st2) R1 I1 O1 L1) by (eapply gr_frame; [apply D1|apply D2]).
    assert (G2 : gr W (length (hp st0)) (hp st2) R2 I2 O2 L2) by (eapply gr_low; [apply (do_frame _ _ _ _ _ _ D1)|apply D2]).
    pose proof (concat_gr W _ _ _ _ _ _ _ _ _ _ G1 G2 Ap) as K.
    pose proof (concat_live _ _ _ _ _ _ I2 O2 G1) as Cl. destruct (concat_graphs I1 O1 I2 O2 (hp st2)) as [[ci co] h'].
    destruct K as (K1 & K2 & K3). intros Ne1 Ne2.
    assert (Lve : solid -> lv h' ci co /\ ci <> []).
    { intros S. apply Cl; [eapply lv_frame; [apply D1|apply D2|apply D1, S]|apply (do_live _ _ _ _ _ _ D2), S|apply Ne1, S|apply Ne2, S]. }
    split; [|intros S; apply Lve, S].
    eapply done_merge; [exact D1|exact D2|exact K1|exact K2|exact K3|apply in_app_or|rewrite app_length; lia|intros S; apply Lve, S].
  Qed.
  Lemma with_heap_same st : with_heap st (hp st) = st.
  Proof. destruct st; reflexivity. Qed.

  (** ** Alternatives *)
  Lemma join_some l n a : In (Some a) (join_points l n) <-> In (Some a) l \/ In (Some a) n.
  Proof. unfold join_points. rewrite in_app_iff. destruct (has_empty l); rewrite ?drop_none_some; reflexivity. Qed.
  Lemma join_none l n : In None (join_points l n) <-> In None l \/ In None n.
  Proof.
    unfold join_points. rewrite in_app_iff. destruct (has_empty l) eqn:E; [|reflexivity].
    apply has_empty_spec in E. pose proof (drop_none_none n). tauto.
  Qed.
  Lemma join_in l n p : In p (join_points l n) <-> In p l \/ In p n.
  Proof. destruct p as [a|]; [apply join_some|apply join_none]. Qed.
  Lemma union_gr lo h R1 R2 I1 O1 I2 O2 L1 L2 : gr W lo h R1 I1 O1 L1 -> gr W lo h R2 I2 O2 L2 -> (forall a, In a R1 -> ~ In a R2) ->
    gr W lo h (R1 ++ R2) (join_points I1 I2) (join_points O1 O2) (l_or L1 L2).
  Proof.
    intros [A1 A2 A3 A4 A5 A6 A7] [B1 B2 B3 B4 B5 B6 B7] D. split.
    - intros a Ia. apply in_app_or in Ia as [Ia|Ia]; auto.
    - apply nodup_app; assumption.
    - intros a b Ia E. apply in_or_app. apply in_app_or in Ia as [Ia|Ia]; [left; eapply A3|right; eapply B3]; eassumption.
    - intros a Ia. apply in_or_app. apply join_some in Ia as [Ia|Ia]; auto.
    - intros a Ia. apply in_or_app. apply join_some in Ia as [Ia|Ia]; auto.
    - rewrite !join_none. tauto.
    - intros w. unfold l_or. rewrite <- (A7 w), <- (B7 w). unfold glang. rewrite join_none.
      assert (between W h (join_points I1 I2) (join_points O1 O2) w <-> between W h I1 O1 w \/ between W h I2 O2 w); [|tauto].
      unfold between, upto. split.
      + intros (b & Ib & a & Ia & H). apply join_some in Ib. apply join_some in Ia. destruct Ia as [Ia|Ia], Ib as [Ib|Ib].
        * left. eauto.
        * exfalso. apply (D b); [|auto]. eapply run_closed; [exact A3|exact H|auto].
        * exfalso. apply (D b); [auto|]. eapply run_closed; [exact B3|exact H|auto].
        * right. eauto.
      + intros [(b & Ib & a & Ia & H)|(b & Ib & a & Ia & H)]; exists b; (split; [apply join_some; auto|]); exists a; (split; [apply join_some; auto|exact H]).
  Qed.
  Lemma done_or st0 st1 st2 R1 I1 O1 L1 R2 I2 O2 L2 : done st0 st1 R1 I1 O1 L1 -> done st1 st2 R2 I2 O2 L2 ->
    done st0 st2 (R1 ++ R2) (join_points I1 I2) (join_points O1 O2) (l_or L1 L2).
  Proof.
    intros D1 D2. pose proof (apart _ _ _ _ _ _ _ _ _ _ _ D1 D2) as Ap.
    assert (G1 : gr W (length (hp st0)) (hp st2) R1 I1 O1 L1) by (eapply gr_frame; [apply D1|apply D2]).
    assert (G2 : gr W (length (hp st0)) (hp st2) R2 I2 O2 L2) by (eapply gr_low; [apply (do_frame _ _ _ _ _ _ D1)|apply D2]).
    rewrite <- (with_heap_same st2). eapply done_merge; [exact D1|exact D2|apply union_gr; assumption|reflexivity|reflexivity|apply in_app_or|rewrite app_length; lia|].
    intros S. apply (lv_or (hp st2) I1 O1 I2 O2); [apply join_in|apply join_in|eapply lv_frame; [apply D1|apply D2|apply D1, S]|apply (do_live _ _ _ _ _ _ D2), S].
  Qed.
  Lemma done_opt st0 st R I O L : done st0 st R I O L -> done st0 st R (append_nodes I [None]) (append_nodes O [None]) (l_or l_eps L).
  Proof.
    intros [D1 D2 D3 D4 D5]. split; auto.
    2: { intros S. apply (lv_opt _ I O); [| |exact (D5 S)]; intros p; rewrite append_nodes_in; cbn [In]; intuition. }
    destruct D1 as [A1 A2 A3 A4 A5 A6 A7].
    assert (S : forall X a, In (Some a) (append_nodes X [None]) <-> In (Some a) X) by (intros X a; rewrite append_nodes_in; cbn; intuition discriminate).
    assert (N : forall X, In None (append_nodes X [None])) by (intros X; rewrite append_nodes_in; cbn; auto).
    split; auto.
    - intros a Ia. apply A4, S, Ia.
    - intros a Ia. apply A5, S, Ia.
    - intros w. unfold l_or, l_eps. rewrite <- (A7 w). unfold glang.
      assert (between W (hp st) (append_nodes I [None]) (append_nodes O [None]) w <-> between W (hp st) I O w) as ->
        by (unfold between, upto; setoid_rewrite S; reflexivity).
      specialize (N I). tauto.
  Qed.

  (** ** Languages of the parts *)
  Lemma in_pow_l e k w : in_pow g e k w <-> l_pow (W e) k w.
  Proof.
    revert w. induction k as [|k IH]; intros w; split.
    - intros H. inversion H; subst. reflexivity.
    - intros H. cbn in H. unfold l_eps in H. subst. constructor.
    - intros H. inversion H as [|? ? w1 w2 H1 H2]; subst. exists w1, w2. split; [reflexivity|]. split; [exact H1|apply IH, H2].
    - intros (u & v & -> & H1 & H2). constructor; [exact H1|apply IH, H2].
  Qed.
  Lemma in_rep_l mn mx e : leq (reps (W e) mn mx) (in_rep g (Rep mn mx e)).
  Proof.
    intros w. unfold reps. split.
    - intros (k & A & B & P). econstructor; [exact A|exact B|apply in_pow_l, P].
    - intros H. inversion H as [? ? ? k ? A B P]; subst. exists k. split; [exact A|]. split; [exact B|apply in_pow_l, P].
  Qed.
  Lemma in_cat_l r c : leq (l_cat (in_rep g r) (in_cat g c)) (in_cat g (r :: c)).
  Proof.
    intros w. split; [intros (u & v & -> & A & B); constructor; assumption|]. intros H. inversion H as [|? ? w1 w2 A B]; subst. exists w1, w2. auto.
  Qed.
  Lemma in_alt_l c a : leq (l_or (in_cat g c) (in_alt g a)) (in_alt g (c :: a)).
  Proof.
    intros w. split.
    - intros [H|H]; [econstructor; [left; reflexivity|exact H]|]. inversion H as [c' ? ? I H']; subst. econstructor; [right; exact I|exact H'].
    - intros H. inversion H as [c' ? ? I H']; subst. destruct I as [<-|I]; [left; exact H'|right; econstructor; eassumption].
  Qed.
  Lemma in_alt_nil : leq l_none (in_alt g []).
  Proof. intros w. split; [intros []|]. intros H. inversion H as [? ? ? I H']; subst. destruct I. Qed.
  Lemma l_cat_eps_r L : leq (l_cat L l_eps) L.
  Proof. intros w. split; [intros (u & v & -> & H & ->); rewrite app_nil_r; exact H|]. intros H. exists w, []. rewrite app_nil_r. split; [reflexivity|]. split; [exact H|reflexivity]. Qed.
  Lemma l_cat_assoc A B C : leq (l_cat (l_cat A B) C) (l_cat A (l_cat B C)).
  Proof.
    intros w. split.
    - intros (u & v & -> & (x & y & -> & H1 & H2) & H3). exists x, (y ++ v). split; [symmetry; apply app_assoc|]. split; [exact H1|]. exists y, v. auto.
    - intros (u & v & -> & H1 & (x & y & -> & H2 & H3)). exists (u ++ x), y. split; [apply app_assoc|]. split; [|exact H3]. exists u, x. auto.
  Qed.
  Lemma leq_refl L : leq L L. Proof. intros w. reflexivity. Qed.
  Lemma leq_sym L M : leq L M -> leq M L. Proof. intros E w. symmetry. apply E. Qed.
  Lemma leq_trans L M N : leq L M -> leq M N -> leq L N. Proof. intros E F w. rewrite (E w). apply F. Qed.

  Section Traverse.
    Variable f : rep -> tgstate -> tres.
    Definition f_ok (r : rep) : Prop := forall st, buf_ok st -> good st (in_rep g (meant_rep d r)) (f r st).
    Lemma cat_rest_good c : (forall r, In r c -> f_ok r) -> forall st0 st R ci co L, buf_ok st0 -> done st0 st R ci co L -> (solid -> ci <> []) ->
      good st0 (l_cat L (in_cat g (map (meant_rep d) c))) (cat_rest f c ci co st).
    Proof.
      induction c as [|r c IH]; intros F st0 st R ci co L B D Ne; cbn [cat_rest].
      - exists R. split; [|exact Ne]. destruct D as [D1 D2 D3 D4 D5]. split; auto. eapply gr_ext; [|exact D1]. apply leq_sym.
        eapply leq_trans; [apply l_cat_ext; [apply leq_refl|]|apply l_cat_eps_r]. intros w. split; [intros H; inversion H; subst; reflexivity|]. unfold l_eps. intros ->. constructor.
      - pose proof (F r (or_introl eq_refl) st (done_buf_ok _ _ _ _ _ _ B D)) as K. destruct (f r st) as [ri ro st1| | |]; cbn [good] in *; auto.
        destruct K as (R2 & D2 & Ne2). pose proof (done_cat _ _ _ _ _ _ _ _ _ _ _ D D2) as D3.
        destruct (concat_graphs ci co ri ro (hp st1)) as [[ci' co'] h]. destruct (D3 Ne Ne2) as [D3' Ne3].
        eapply good_ext; [|apply (IH (fun x I => F x (or_intror I)) st0 _ _ _ _ _ B D3' Ne3)].
        eapply leq_trans; [apply l_cat_assoc|]. apply l_cat_ext; [apply leq_refl|apply in_cat_l].
    Qed.
    Lemma cat_good c : (forall r, In r c -> f_ok r) -> forall st, buf_ok st -> good st (in_cat g (map (meant_rep d) c)) (cat_with f c st).
    Proof.
      intros F st B. destruct c as [|r c]; cbn [cat_with]; [exact Logic.I|].
      pose proof (F r (or_introl eq_refl) st B) as K. destruct (f r st) as [ri ro st1| | |]; cbn [good] in K; [|exact Logic.I..].
      destruct K as (R & D & Ne). eapply good_ext; [apply in_cat_l|]. apply (cat_rest_good c (fun x I => F x (or_intror I)) st st1 R ri ro _ B D Ne).
    Qed.
    Lemma alt_loop_good a : (forall c r, In c a -> In r c -> f_ok r) -> forall st0 st R i o L, buf_ok st0 -> done st0 st R i o L -> (solid -> i <> [] \/ a <> []) ->
      good st0 (l_or L (in_alt g (meant_alt d a))) (alt_loop f a i o st).
    Proof.
      induction a as [|c a IH]; intros F st0 st R i o L B D Ne; cbn [alt_loop].
      - exists R. split; [|intros S; destruct (Ne S); [assumption|contradiction]]. destruct D as [D1 D2 D3 D4 D5]. split; auto. eapply gr_ext; [|exact D1]. intros w. unfold l_or. rewrite <- (in_alt_nil w). unfold l_none. tauto.
      - pose proof (cat_good c (fun r I => F c r (or_introl eq_refl) I) st (done_buf_ok _ _ _ _ _ _ B D)) as K.
        destruct (cat_with f c st) as [ci co st1| | |]; cbn [good] in *; auto. destruct K as (R2 & D2 & Ne2).
        eapply good_ext; [|apply (IH (fun c' r I => F c' r (or_intror I)) st0 st1 _ _ _ _ B (done_or _ _ _ _ _ _ _ _ _ _ _ D D2))].
        2: { intros S. left. destruct (some_none ci (Ne2 S)) as [X|(x & X)]; [apply (in_some _ None)|apply (in_some _ (Some x))]; apply join_in; auto. }
        intros w. unfold l_or. change (meant_alt d (c :: a)) with (map (meant_rep d) c :: meant_alt d a). rewrite <- (in_alt_l (map (meant_rep d) c) (meant_alt d a) w). unfold l_or. tauto.
    Qed.
    Lemma alt_good a : (forall c r, In c a -> In r c -> f_ok r) -> forall st, buf_ok st -> (solid -> a <> []) -> good st (in_alt g (meant_alt d a)) (alt_with f a st).
    Proof.
      intros F st B Ne. unfold alt_with. eapply good_ext; [|apply (alt_loop_good a F st st [] [] [] l_none B (done_start st)); auto].
      intros w. unfold l_or, l_none. tauto.
    Qed.
  End Traverse.

  (** ** Fresh nodes *)
  Lemma alone_gr lo h R ps L : (forall a, In a R -> lo <= a < length h) -> NoDup R -> (forall a, In a R -> nexts h a = []) ->
    (forall a, In (Some a) ps <-> In a R) -> ~ In None ps -> (forall w, L w <-> exists a, In a R /\ nword W h a w) -> gr W lo h R ps ps L.
  Proof.
    intros A B C D N E. split; auto.
    - intros a b Ia I. rewrite (C a Ia) in I. destruct I.
    - intros a Ia. apply D, Ia.
    - intros a Ia. apply D, Ia.
    - intros w. rewrite (E w). unfold glang, between, upto. split.
      + intros [(X & _)|(b & Ib & a & Ia & H)]; [contradiction|]. apply D in Ia. inversion H as [? ? Hw|? ? ? ? ? Hw Hn _]; subst; [eauto|].
        rewrite (C a Ia) in Hn. destruct Hn.
      + intros (a & Ia & H). right. exists a. split; [apply D, Ia|]. exists a. split; [apply D, Ia|apply run_one, H].
  Qed.
  Lemma nexts_app h l a : a < length h -> nexts (h ++ l) a = nexts h a.
  Proof. intros L. unfold nexts. rewrite nth_error_app1 by exact L. reflexivity. Qed.
  Lemma label_app h l a : a < length h -> label (h ++ l) a = label h a.
  Proof. intros L. unfold label. rewrite nth_error_app1 by exact L. reflexivity. Qed.
  Lemma nexts_new h e : nexts (h ++ [mkNode e []]) (length h) = [].
  Proof. unfold nexts. rewrite nth_error_app2, Nat.sub_diag by lia. reflexivity. Qed.
  Lemma label_new h e : label (h ++ [mkNode e []]) (length h) = Some e.
  Proof. unfold label. rewrite nth_error_app2, Nat.sub_diag by lia. reflexivity. Qed.
  Lemma frame_app h l : frame h (h ++ l).
  Proof. split; [rewrite app_length; lia|]. intros a L. apply nth_error_app1, L. Qed.
  Lemma node_gr lo h e : lo <= length h -> gr W lo (h ++ [mkNode e []]) [length h] [Some (length h)] [Some (length h)] (W e).
  Proof.
    intros Lo. apply alone_gr.
    - intros a [<-|[]]. rewrite app_length. cbn. lia.
    - constructor; [intros []|constructor].
    - intros a [<-|[]]. apply nexts_new.
    - intros a. cbn [In]. split; [intros [E|[]]; injection E as ->; auto|intros [->|[]]; auto].
    - intros [E|[]]. discriminate.
    - intros w. split.
      + intros H. exists (length h). split; [left; reflexivity|]. exists e. split; [apply label_new|exact H].
      + intros (a & [<-|[]] & e' & E & H). rewrite label_new in E. injection E as <-. exact H.
  Qed.
  Lemma node_lv h e : lv (h ++ [mkNode e []]) [Some (length h)] [Some (length h)].
  Proof. apply lv_alone; [intros a [E|[]]; injection E as <-; apply nexts_new|intros [E|[]]; discriminate]. Qed.
  (** Building outside the machine state. *)
  Lemma done_fresh n st st1 h1 R I O L : reserve opts n st = Some st1 -> gr W (length (hp st)) h1 R I O L -> frame (hp st) h1 ->
    (bud -> n < 2 ^ 63)%Z -> (Z.of_nat (length R) <= n)%Z -> (solid -> lv h1 I O) -> done st (with_heap st1 h1) R I O L.
  Proof.
    intros E G F B1 B2 Lve. apply reserve_spec in E as (E1 & E2 & E3). split; cbn [with_heap hp t_buf t_count]; auto.
    - intros m bi bo I1. left. rewrite <- E2. exact I1.
    - intros B I1. destruct (E3 (proj1 B) I1 (B1 B)) as (X & Y & _). split; [exact X|]. lia.
  Qed.
  Lemma one_node_good e st : good st (W e) (one_node opts e st).
  Proof.
    unfold one_node. destruct (reserve opts 1 st) as [st1|] eqn:E; [|exact Logic.I]. unfold alloc. cbn [good].
    pose proof (reserve_spec _ _ _ _ E) as (E1 & _ & _). rewrite E1. exists [length (hp st)].
    split; [|discriminate]. eapply done_fresh; [exact E|apply node_gr; lia|apply frame_app|lia|cbn; lia|].
    intros _. apply node_lv.
  Qed.

  (** ** Characters *)
  Lemma utf8s_cons r rs : utf8s (r :: rs) = utf8 r ++ utf8s rs.
  Proof. reflexivity. Qed.
  Lemma chars_cons s v vs : leq (l_cat (W (EChar s [v])) (W (EChar s vs))) (W (EChar s (v :: vs))).
  Proof.
    intros w. split.
    - intros (u & x & -> & A & B). inversion A as [| | | |? ? rs F1 F2| |]; subst. inversion B as [| | | |? ? rs' F3 F4| |]; subst.
      inversion F1 as [|? r ? t C1 C2]; subst. inversion C2; subst. cbn [utf8s flat_map]. rewrite app_nil_r.
      rewrite <- utf8s_cons. constructor; [constructor; assumption|]. inversion F2; subst. constructor; assumption.
    - intros H. inversion H as [| | | |? ? rs F1 F2| |]; subst. inversion F1 as [|? r ? t C1 C2]; subst. inversion F2; subst.
      rewrite utf8s_cons. exists (utf8 r), (utf8s t). split; [reflexivity|]. split; [|constructor; assumption].
      replace (utf8 r) with (utf8s [r]) by (cbn; apply app_nil_r). constructor; constructor; auto.
  Qed.
  Lemma chars_nil s : leq l_eps (W (EChar s [])).
  Proof.
    intros w. unfold l_eps. split; [intros ->; apply (in_char g s [] []); constructor|]. intros H. inversion H as [| | | |? ? rs F1 F2| |]; subst. inversion F1; subst. reflexivity.
  Qed.
  Lemma char_one s v w : W (EChar s [v]) w <-> exists r, char_ok s v r /\ scalar r /\ w = utf8 r.
  Proof.
    split.
    - intros H. inversion H as [| | | |? ? rs F1 F2| |]; subst. inversion F1 as [|? r ? t C1 C2]; subst. inversion C2; subst. inversion F2; subst.
      exists r. split; [exact C1|]. split; [assumption|]. cbn. apply app_nil_r.
    - intros (r & A & B & ->). replace (utf8 r) with (utf8s [r]) by (cbn; apply app_nil_r). constructor; constructor; auto.
  Qed.
  Lemma has_empty_map l : has_empty (map Some l) = false.
  Proof. apply has_empty_no. intros I. apply in_map_iff in I as (a & E & _). discriminate. Qed.
  Definition is_letter (r : Z) : bool := (((97 <=? r) && (r <=? 122)) || ((65 <=? r) && (r <=? 90)))%Z.
  Lemma char_both r : is_letter r = true -> forall c, (fold_case r = fold_case c <-> c = rune_min r \/ c = rune_max r).
  Proof.
    intros H c. unfold is_letter in H. apply orb_true_iff in H. rewrite !andb_true_iff, !Z.leb_le in H.
    unfold rune_min, rune_max, fold_case.
    destruct (Z.leb_spec 65 r), (Z.leb_spec r 90), (Z.leb_spec 97 r), (Z.leb_spec r 122); cbn [andb]; try lia;
    destruct (Z.leb_spec 65 c), (Z.leb_spec c 90); cbn [andb]; lia.
  Qed.
  Lemma char_alone r : is_letter r = false -> forall c, (fold_case r = fold_case c <-> c = r).
  Proof.
    intros H c. unfold is_letter in H. apply orb_false_iff in H. rewrite !andb_false_iff, !Z.leb_gt in H.
    unfold fold_case. destruct (Z.leb_spec 65 r), (Z.leb_spec r 90); cbn [andb]; try lia;
    destruct (Z.leb_spec 65 c), (Z.leb_spec c 90); cbn [andb]; lia.
  Qed.
  Definition curr_of (s : bool) (r : Z) (h : heap) : list nat * heap :=
    let both := ((((97 <=? r) && (r <=? 122)) || ((65 <=? r) && (r <=? 90))) && negb s)%Z in
    if both then
      let '(nl, h1) := alloc h (EChar true [rune_min r]) in
      let '(nu, h2) := alloc h1 (EChar true [rune_max r]) in ([nl; nu], h2)
    else let '(n, h1) := alloc h (EChar true [r]) in ([n], h1).
  Lemma char_gr lo s r h : lo <= length h -> let '(curr, h1) := curr_of s r h in
    gr W lo h1 curr (map Some curr) (map Some curr) (W (EChar s [r])) /\ frame h h1 /\ (forall a, In a curr -> length h <= a) /\ length curr <= 2 /\ curr <> [] /\ lv h1 (map Some curr) (map Some curr).
  Proof.
    intros Lo. unfold curr_of. fold (is_letter r). destruct (is_letter r && negb s) eqn:E.
    - apply andb_true_iff in E as [E1 E2]. unfold alloc. set (e1 := EChar true [rune_min r]). set (e2 := EChar true [rune_max r]).
      assert (L1 : length (h ++ [mkNode e1 []]) = S (length h)) by (rewrite app_length; cbn; lia). rewrite L1.
      split; [|split; [|split]].
      + assert (X1 : label ((h ++ [mkNode e1 []]) ++ [mkNode e2 []]) (length h) = Some e1) by (rewrite label_app by lia; apply label_new).
        assert (X2 : label ((h ++ [mkNode e1 []]) ++ [mkNode e2 []]) (S (length h)) = Some e2) by (rewrite <- L1; apply label_new).
        apply alone_gr.
        * intros a [<-|[<-|[]]]; rewrite app_length, L1; cbn; lia.
        * constructor; [intros [X|[]]; lia|]. constructor; [intros []|constructor].
        * intros a [<-|[<-|[]]]; [rewrite nexts_app by lia; apply nexts_new|rewrite <- L1; apply nexts_new].
        * intros a. cbn [map In]. split; [intros [X|[X|[]]]; injection X as ->; auto|intros [->|[->|[]]]; auto].
        * intros [X|[X|[]]]; discriminate.
        * intros w. rewrite char_one. destruct s; [discriminate|]. cbn [char_ok]. setoid_rewrite (char_both r E1). unfold nword. split.
          -- intros (c & [->| ->] & Sc & ->).
             ++ exists (length h). split; [left; reflexivity|]. exists e1. split; [exact X1|]. apply char_one. eexists. split; [reflexivity|auto].
             ++ exists (S (length h)). split; [right; left; reflexivity|]. exists e2. split; [exact X2|]. apply char_one. eexists. split; [reflexivity|auto].
          -- intros (a & [<-|[<-|[]]] & e & Ee & H).
             ++ rewrite X1 in Ee. injection Ee as <-. apply char_one in H as (c & C1 & C2 & C3). exists c. cbn [char_ok] in C1. auto.
             ++ rewrite X2 in Ee. injection Ee as <-. apply char_one in H as (c & C1 & C2 & C3). exists c. cbn [char_ok] in C1. auto.
      + eapply frame_trans; apply frame_app.
      + intros a [<-|[<-|[]]]; lia.
      + split; [cbn; lia|]. split; [discriminate|]. apply lv_alone; [|apply has_empty_no, has_empty_map]. intros a Ia. apply in_map_iff in Ia as (x & Q & Ia). injection Q as ->.
        destruct Ia as [<-|[<-|[]]]; [rewrite nexts_app by lia; apply nexts_new|rewrite <- L1; apply nexts_new].
    - unfold alloc. split; [|split; [apply frame_app|split; [intros a [<-|[]]; lia|split; [cbn; lia|split; [discriminate|apply node_lv]]]]].
      eapply gr_ext; [|apply node_gr, Lo]. intros w. rewrite !char_one. destruct s; [reflexivity|]. cbn [negb] in E. rewrite andb_true_r in E.
      cbn [char_ok]. setoid_rewrite (char_alone r E). unfold char_ok. split; intros (c & X & H); exists c; (split; [congruence|exact H]).
  Qed.
  Lemma deflate_step s r vs prevs entry h : deflate_chars s (r :: vs) prevs entry h =
    let '(curr, h1) := curr_of s r h in
    deflate_chars s vs curr (match prevs with [] => entry ++ map Some curr | _ => entry end) (link push_next h1 (map Some prevs) (map Some curr)).
  Proof. reflexivity. Qed.
  Lemma drop_none_map l : filter (fun p : option nat => negb (is_none p)) (map Some l) = map Some l.
  Proof. induction l as [|a l IH]; cbn; [reflexivity|]. f_equal. exact IH. Qed.
  Lemma deflate_more s vs : forall lo prevs entry h R L, lo <= length h -> gr W lo h R entry (map Some prevs) L -> prevs <> [] -> ~ In None entry -> lv h entry (map Some prevs) -> entry <> [] ->
    let '(i, o, h') := deflate_chars s vs prevs entry h in
    exists R', gr W lo h' R' i o (l_cat L (W (EChar s vs))) /\ length h <= length h' /\ (forall a, a < length h -> ~ In a R -> nth_error h' a = nth_error h a) /\
      length R' <= length R + 2 * length vs /\ lv h' i o /\ i <> [].
  Proof.
    induction vs as [|r vs IH]; intros lo prevs entry h R L Lo G Np Ne Lve Nz.
    - cbn [deflate_chars]. exists R. split; [|split; [lia|split; [reflexivity|split; [lia|split; assumption]]]]. eapply gr_ext; [|exact G]. apply leq_sym.
      eapply leq_trans; [apply l_cat_ext; [apply leq_refl|apply leq_sym, chars_nil]|apply l_cat_eps_r].
    - rewrite deflate_step. pose proof (char_gr lo s r h Lo) as C. destruct (curr_of s r h) as [curr h1]. destruct C as (C1 & C2 & C3 & C4 & C5 & C6).
      assert (Ap : forall a, In a R -> ~ In a curr) by (intros a X Y; apply (gr_in _ _ _ _ _ _ _ G) in X; apply C3 in Y; lia).
      pose proof (concat_gr W lo h1 R curr entry (map Some prevs) (map Some curr) (map Some curr) L _ (gr_frame _ _ _ _ _ _ _ G C2) C1 Ap) as K.
      pose proof (concat_live lo h1 R entry (map Some prevs) L (map Some curr) (map Some curr) (gr_frame _ _ _ _ _ _ _ G C2)) as Cl.
      unfold concat_graphs in K, Cl. apply has_empty_no in Ne as Ne'. rewrite Ne', has_empty_map, drop_none_map in K, Cl. cbn [app] in K, Cl. destruct K as (K1 & K2 & K3).
      destruct Cl as [Cl _]; [exact (lv_frame _ _ _ _ _ _ _ G C2 Lve)|exact C6|exact Nz|destruct curr; [contradiction|discriminate]|].
      destruct prevs as [|p prevs]; [contradiction|].
      assert (Lo' : lo <= length (link push_next h1 (map Some (p :: prevs)) (map Some curr))) by (rewrite K2; destruct C2; lia).
      specialize (IH lo curr entry _ (R ++ curr) _ Lo' K1 C5 Ne Cl Nz).
      destruct (deflate_chars s vs curr entry (link push_next h1 (map Some (p :: prevs)) (map Some curr))) as [[i o] h'].
      destruct IH as (R' & I1 & I2 & I3 & I4 & I5). exists R'. destruct C2 as [C2a C2b]. split; [|split; [|split; [|split]]].
      + eapply gr_ext; [|exact I1]. eapply leq_trans; [apply l_cat_assoc|]. apply l_cat_ext; [apply leq_refl|apply chars_cons].
      + lia.
      + intros a La Na. rewrite I3; [|lia|rewrite in_app_iff; intros [X|X]; [contradiction|apply C3 in X; lia]].
        rewrite K3 by exact Na. apply C2b, La.
      + rewrite app_length in I4. cbn [length]. lia.
      + exact I5.
  Qed.
  Lemma char_good s vs st : occ_elem g0 (EChar s vs) -> good st (W (EChar s vs)) (char_graph opts s vs st).
  Proof.
    intros Lv. unfold char_graph. destruct vs as [|r vs].
    - exists []. split; [|discriminate]. split; [|apply frame_refl|auto|intros B I; split; [exact I|cbn; lia]|intros _; apply lv_none]. eapply gr_ext; [apply chars_nil|apply eps_gr].
    - destruct (o_charvals opts); cbn [negb]; [|apply one_node_good].
      destruct (reserve opts (2 * Z.of_nat (length (r :: vs))) st) as [st1|] eqn:E; [|exact Logic.I].
      pose proof (reserve_spec _ _ _ _ E) as (E1 & _ & _). rewrite E1. rewrite deflate_step.
      pose proof (char_gr (length (hp st)) s r (hp st) (le_n _)) as C. destruct (curr_of s r (hp st)) as [curr h1]. destruct C as (C1 & C2 & C3 & C4 & C5 & C6).
      assert (C7 : map (@Some nat) curr <> []) by (destruct curr; [contradiction|discriminate]).
      change (link push_next h1 (map Some []) (map Some curr)) with h1. cbn [app].
      assert (Ne : ~ In None (map Some curr)) by (apply has_empty_no, has_empty_map).
      pose proof (deflate_more s vs (length (hp st)) curr (map Some curr) h1 curr _ (proj1 C2) C1 C5 Ne C6 C7) as K.
      destruct (deflate_chars s vs curr (map Some curr) h1) as [[i o] h']. destruct K as (R' & K1 & K2 & K3 & K4 & K5 & K6). cbn [good]. exists R'. split; [|intros _; exact K6].
      eapply done_fresh; [exact E|eapply gr_ext; [apply chars_cons|exact K1]| |intros (_ & X & _); specialize (X _ _ Lv); lia|cbn [length] in *; lia|intros _; exact K5].
      destruct C2 as [C2a C2b]. split; [lia|]. intros a La. rewrite K3; [apply C2b, La|lia|]. intros X. apply C3 in X. lia.
  Qed.

  (** ** Numbers *)
  Lemma alloc_series_spec b ss : forall acc h, exists R, let '(ps, h') := alloc_series b ss acc h in
    ps = acc ++ map Some R /\ NoDup R /\ frame h h' /\ length R = length ss /\
    (forall a, In a R -> length h <= a < length h' /\ nexts h' a = []) /\
    (forall a e, In a R -> label h' a = Some e -> exists s, In s ss /\ e = ENum b StatSeries [s]) /\
    (forall s, In s ss -> exists a, In a R /\ label h' a = Some (ENum b StatSeries [s])).
  Proof.
    induction ss as [|s ss IH]; intros acc h; cbn [alloc_series].
    - exists []. cbn [map]. rewrite app_nil_r. split; [reflexivity|]. split; [constructor|]. split; [apply frame_refl|]. split; [reflexivity|]. split; [intros a []|]. split; [intros a e []|intros s []].
    - unfold alloc. set (h1 := h ++ [mkNode (ENum b StatSeries [s]) []]). specialize (IH (acc ++ [Some (length h)]) h1).
      destruct IH as (R & K). exists (length h :: R). destruct (alloc_series b ss (acc ++ [Some (length h)]) h1) as [ps h'].
      destruct K as (K1 & K2 & K3 & K4 & K5 & K6 & K7).
      assert (L1 : length h1 = S (length h)) by (unfold h1; rewrite app_length; cbn; lia).
      assert (Q : nth_error h' (length h) = Some (mkNode (ENum b StatSeries [s]) [])).
      { rewrite (proj2 K3) by lia. unfold h1. rewrite nth_error_app2, Nat.sub_diag by lia. reflexivity. }
      split; [rewrite K1, <- app_assoc; reflexivity|]. split.
      { constructor; [|exact K2]. intros X. apply K5 in X as [X _]. lia. }
      split; [eapply frame_trans; [apply frame_app|exact K3]|]. split; [cbn; lia|]. split; [|split].
      + intros a [<-|Ia].
        * split; [destruct K3; lia|]. unfold nexts. rewrite Q. reflexivity.
        * destruct (K5 a Ia) as [X Y]. split; [lia|exact Y].
      + intros a e [<-|Ia] E.
        * unfold label in E. rewrite Q in E. injection E as <-. exists s. split; [left; reflexivity|reflexivity].
        * destruct (K6 a e Ia E) as (t & It & ->). exists t. split; [right; exact It|reflexivity].
      + intros t [<-|It].
        * exists (length h). split; [left; reflexivity|]. unfold label. rewrite Q. reflexivity.
        * destruct (K7 t It) as (a & Ia & E). exists a. split; [right; exact Ia|exact E].
  Qed.
  Lemma series_gr lo b ss h : lo <= length h -> let '(ps, h') := alloc_series b ss [] h in exists R,
    gr W lo h' R ps ps (fun w => exists s, In s ss /\ W (ENum b StatSeries [s]) w) /\ frame h h' /\ length R = length ss /\ lv h' ps ps /\ (ss <> [] -> ps <> []).
  Proof.
    intros Lo. destruct (alloc_series_spec b ss [] h) as (R & K). destruct (alloc_series b ss [] h) as [ps h'].
    destruct K as (K1 & K2 & K3 & K4 & K5 & K6 & K7). exists R. cbn [app] in K1. subst ps. split; [|split; [exact K3|split; [exact K4|split]]].
    2: { apply lv_alone; [|apply has_empty_no, has_empty_map]. intros a Ia. apply in_map_iff in Ia as (x & Q & Ia). injection Q as ->. apply K5, Ia. }
    2: { intros Ns X. destruct ss as [|z ss]; [contradiction|]. destruct R; [discriminate K4|discriminate X]. }
    apply alone_gr.
    - intros a Ia. destruct (K5 a Ia). lia.
    - exact K2.
    - intros a Ia. apply K5, Ia.
    - intros a. rewrite in_map_iff. split; [intros (x & E & I); injection E as ->; exact I|eauto].
    - apply has_empty_no, has_empty_map.
    - intros w. split.
      + intros (s & Is & H). destruct (K7 s Is) as (a & Ia & E). exists a. split; [exact Ia|]. exists (ENum b StatSeries [s]). auto.
      + intros (a & Ia & e & E & H). destruct (K6 a e Ia E) as (s & Is & ->). eauto.
  Qed.
  Lemma num_one b s v : numeral b s = Some v -> forall w, W (ENum b StatSeries [s]) w <-> scalar v /\ w = utf8 v.
  Proof.
    intros E w. split.
    - intros H. inversion H as [| | | | |? ? rs F1 F2|]; subst. inversion F1 as [|? r ? t C1 C2]; subst. inversion C2; subst. inversion F2; subst.
      rewrite E in C1. injection C1 as <-. split; [assumption|]. cbn. apply app_nil_r.
    - intros (A & ->). replace (utf8 v) with (utf8s [v]) by (cbn; apply app_nil_r). constructor; constructor; auto.
  Qed.
  Lemma numeral_radix b s v : numeral b s = Some v -> exists r, radix_of b = Some r.
  Proof. unfold numeral. destruct (radix_of b); [eauto|discriminate]. Qed.
  Lemma range_lang b lo hi l h : numeral b lo = Some l -> numeral b hi = Some h ->
    forall w, W (ENum b StatRange [lo; hi]) w <-> exists c, (l <= c <= h)%Z /\ scalar c /\ w = utf8 c.
  Proof.
    intros El Eh w. split.
    - intros H. inversion H as [| | | | | |? ? ? l' h' r A B C D]; subst. rewrite El in A. injection A as <-. rewrite Eh in B. injection B as <-. eauto.
    - intros (c & A & B & ->). econstructor; eassumption.
  Qed.
  Lemma series_alts b ss w : in_alt g (map (fun s => [Rep 1 1 (ENum b StatSeries [s])]) ss) w <-> exists s, In s ss /\ W (ENum b StatSeries [s]) w.
  Proof.
    assert (One : forall e w, in_cat g [Rep 1 1 e] w <-> W e w).
    { intros e x. split.
      - intros H. inversion H as [|? ? w1 w2 A B]; subst. inversion B; subst. rewrite app_nil_r.
        apply (in_rep_l 1 1 e) in A as (k & K1 & [K2|K2] & P); [unfold inf in K2; lia|]. assert (k = 1) as -> by lia. apply l_pow_one, P.
      - intros H. rewrite <- (app_nil_r x). constructor; [|constructor]. apply (in_rep_l 1 1 e). exists 1. split; [lia|]. split; [right; lia|]. apply l_pow_one, H. }
    split.
    - intros H. inversion H as [c ? ? I H']; subst. apply in_map_iff in I as (s & <- & Is). exists s. split; [exact Is|]. apply One, H'.
    - intros (s & Is & H). econstructor; [apply in_map_iff; exists s; split; [reflexivity|exact Is]|]. apply One, H.
  Qed.
  Lemma num_good b k es st : occ_elem g0 (ENum b k es) -> wf_num b k es -> (bud -> (Z.of_nat (length es) < 2 ^ 63)%Z) -> good st (W (meant_elem d (ENum b k es))) (num_graph opts b k es st).
  Proof.
    intros Oc [W1 W2] Ls. unfold num_graph.
    assert (Ed : d = true \/ d = false) by (destruct d; auto). destruct Ed as [Ed|Ed].
    2: { replace (meant_elem d (ENum b k es)) with (ENum b k es) by (rewrite Ed; reflexivity). rewrite Ed at 2. apply one_node_good. }
    replace (meant_elem d (ENum b k es)) with (split_elem (ENum b k es)) by (rewrite Ed; reflexivity). rewrite Ed at 2. cbn [negb].
    destruct k.
    - destruct (reserve opts (Z.of_nat (length es)) st) as [st1|] eqn:E; [|exact Logic.I].
      pose proof (reserve_spec _ _ _ _ E) as (E1 & _ & _). rewrite E1.
      pose proof (series_gr (length (hp st)) b es (hp st) (le_n _)) as K. destruct (alloc_series b es [] (hp st)) as [ps h']. destruct K as (R & K1 & K2 & K3 & K4 & K5).
      cbn [good]. exists R. split.
      2: { intros (_ & _ & S). apply K5. intros ->. exact (proj1 (S Ed) b Oc). }
      eapply done_fresh; [exact E|eapply gr_ext; [|exact K1]|exact K2|exact Ls|rewrite K3; lia|intros _; exact K4].
      intros w. destruct es as [|s [|s' es]]; cbn [split_elem].
      + split; [intros (x & [] & _)|]. intros H. inversion H as [|? ? I| | | | |]; subst. inversion I as [? ? ? X _]; subst. destruct X.
      + split; [intros (x & [<-|[]] & H); exact H|intros H; exists s; split; [left; reflexivity|exact H]].
      + rewrite <- series_alts. split; [apply in_group|]. intros H. inversion H; assumption.
    - destruct es as [|lo [|hi [|x es]]]; try discriminate. inversion W1 as [|? ? (l & El) W1']; subst. inversion W1' as [|? ? (h & Eh) _]; subst.
      pose proof (numval_to_int32_spec _ _ _ El) as Ml. pose proof (numval_to_int32_spec _ _ _ Eh) as Mh.
      pose proof (numeral_nonneg _ _ _ El) as Pl. pose proof (numeral_nonneg _ _ _ Eh) as Ph. unfold MaxInt32 in *.
      cbn zeta. set (a := numval_to_int32 lo b) in *. set (c := Z.min (numval_to_int32 hi b) 0x10FFFF) in *.
      assert (Ec : c = Z.min h 0x10FFFF) by (unfold c; lia). clearbody a c.
      destruct (Z.ltb_spec 0x10FFFF a) as [A|A]; [|destruct (Z.ltb_spec c a) as [B|B]]; cbn [orb].
      + exists []. split; [|intros (_ & _ & S); destruct (proj2 (S Ed) b lo hi l h Oc El Eh); lia].
        split; [eapply gr_ext; [|apply empty_gr]|apply frame_refl|auto|intros B0 I; split; [exact I|cbn; lia]|intros _; apply lv_nil].
        intros w. rewrite (range_lang b lo hi l h El Eh w). unfold l_none. split; [intros []|]. intros (v & V1 & V2 & _). unfold scalar in V2. lia.
      + exists []. split; [|intros (_ & _ & S); destruct (proj2 (S Ed) b lo hi l h Oc El Eh); lia].
        split; [eapply gr_ext; [|apply empty_gr]|apply frame_refl|auto|intros B0 I; split; [exact I|cbn; lia]|intros _; apply lv_nil].
        intros w. rewrite (range_lang b lo hi l h El Eh w). unfold l_none. split; [intros []|]. intros (v & V1 & V2 & _). unfold scalar in V2. lia.
      + destruct (reserve opts (c - a + 1) st) as [st1|] eqn:E; [|exact Logic.I].
        pose proof (reserve_spec _ _ _ _ E) as (E1 & _ & _). rewrite E1.
        pose proof (series_gr (length (hp st)) b (range_values b a c) (hp st) (le_n _)) as K. destruct (alloc_series b (range_values b a c) [] (hp st)) as [ps h']. destruct K as (R & K1 & K2 & K3 & K4 & K5).
        cbn [good]. exists R. split.
        2: { intros _. apply K5. unfold range_values. replace (Z.to_nat (c - a + 1)) with (S (Z.to_nat (c - a))) by lia. discriminate. }
        eapply done_fresh; [exact E|eapply gr_ext; [|exact K1]|exact K2|lia| |intros _; exact K4].
        2: { rewrite K3. unfold range_values. rewrite map_length, seq_length. lia. }
        destruct (numeral_radix _ _ _ El) as (rx & Erx).
        assert (Nv : forall v, (0 <= v <= 0x10FFFF)%Z -> numeral b (int32_to_numval v b) = Some v) by (intros v Hv; apply (int32_to_numval_numeral b v rx Erx); unfold MaxInt32; lia).
        intros w. rewrite (range_lang b lo hi l h El Eh w). unfold range_values. split.
        * intros (s & Is & H). apply in_map_iff in Is as (j & <- & Ij). apply in_seq in Ij.
          assert (Hj : (0 <= a + Z.of_nat j <= 0x10FFFF)%Z) by lia.
          apply (num_one b _ _ (Nv _ Hj) w) in H as [Sc ->]. exists (a + Z.of_nat j)%Z. split; [lia|]. auto.
        * intros (v & Hv & Sc & ->). assert (Hv2 : (0 <= v <= 0x10FFFF)%Z) by (unfold scalar in Sc; lia).
          exists (int32_to_numval v b). split.
          -- apply in_map_iff. exists (Z.to_nat (v - a)). split; [f_equal; lia|]. apply in_seq. lia.
          -- apply (num_one b _ _ (Nv _ Hv2)). auto.
  Qed.

  (** ** Clones *)
  Lemma clone_gr st bi bo Rb L : gr W 0 (hp st) Rb bi bo L -> let '(i, o, h') := clone_graph (hp st) bi bo in
    exists R', gr W (length (hp st)) h' R' i o L /\ frame (hp st) h' /\ length R' <= length (seen_from (hp st) bi) /\ (alive (hp st) bi bo -> alive h' i o).
  Proof.
    intros G. set (S0 := seen_from (hp st) bi).
    assert (C0 : closed (hp st) S0) by apply reachable_closed.
    assert (I0 : forall a, In (Some a) bi -> In a S0) by apply reachable_closed.
    assert (B0 : below (hp st) S0) by (intros a Ia; apply (s0_below W 0 st Rb bi bo L G), Ia).
    pose proof (clone_again W bi bo (hp st) S0 C0 B0 I0 (hp st) (frame_refl _)) as K. pose proof (clone_spec (hp st) S0 bi bo C0 B0 I0) as CS. destruct (clone_graph (hp st) bi bo) as [[i o] h'].
    destruct CS as (m & CS & _ & _).
    destruct K as (R' & K1 & _ & K3 & K4 & K5 & K6 & K7 & K8 & K9 & K10 & K11). exists R'. split; [|split; [exact K1|split; [exact K11|]]].
    2: { intros V S. destruct (V S) as [V1 V2]. split; [exact (lv_clone _ _ _ _ _ _ _ CS V1)|exact (clone_ne _ _ _ _ _ _ _ CS V2)]. }
    split; [exact K3|exact K4|exact K5|exact K6|exact K7| |].
    - rewrite K8. intros X. apply K9, (gr_none _ _ _ _ _ _ _ G), X.
    - intros w. rewrite <- (gr_lang _ _ _ _ _ _ _ G w). unfold glang. rewrite K8, (K10 w). reflexivity.
  Qed.
  Lemma rule_lower n m w : lower n = lower m -> W (ERule n) w <-> W (ERule m) w.
  Proof.
    intros E.
    assert (H : forall n m, lower n = lower m -> W (ERule n) w -> W (ERule m) w).
    { clear n m E. intros n m E H. inversion H as [? a ? R I| | | | | |]; subst. apply (in_rule g m a w); [|exact I].
      unfold resolves, same_name in *. rewrite <- E. exact R. }
    split; apply H; auto.
  Qed.
  Lemma buf_get_in k m v : buf_get k m = Some v -> In (k, v) m.
  Proof.
    induction m as [|[x u] m IH]; cbn [buf_get]; [discriminate|]. destruct (String.eqb_spec x k) as [->|N]; [intros E; injection E as ->; left; reflexivity|].
    intros E. right. apply IH, E.
  Qed.

  (** ** The traversal *)
  Section Step.
    Variable call : string -> tgstate -> tres.
    Hypothesis Call : forall n st, buf_ok st -> good st (W (ERule n)) (call n st).
    Lemma elem_option a st : elem_graph opts call (EOption a) st =
      match alt_with (rep_graph opts call) a st with
      | T_ok i o st1 => T_ok (append_nodes i [None]) (append_nodes o [None]) st1
      | x => x
      end.
    Proof. reflexivity. Qed.
    Lemma rep_good mn mx e : wf_rep (Rep mn mx e) -> (forall st, buf_ok st -> good st (W (meant_elem d e)) (elem_graph opts call e st)) ->
      f_ok (rep_graph opts call) (Rep mn mx e).
    Proof.
      intros Wr F st B. change (rep_graph opts call (Rep mn mx e) st) with
        (match elem_graph opts call e st with T_ok ei eo st1 => rep_build opts mn mx ei eo st1 | x => x end).
      specialize (F st B). destruct (elem_graph opts call e st) as [ei eo st1| | |]; cbn [good] in F; [|exact Logic.I..]. destruct F as (R & D & Ne).
      inversion Wr as [? ? ? W1 W2 _]; subst.
      destruct (rep_build opts mn mx ei eo st1) as [I O st2| | |] eqn:E; cbn [good]; auto.
      destruct (do_frame _ _ _ _ _ _ D) as [F1 F2].
      destruct (rep_build_spec W opts _ st1 R ei eo (W (meant_elem d e)) mn mx I O st2 (do_gr _ _ _ _ _ _ D) F1 W1 W2 E) as (R' & [B1 B2 B3 B4 B5 B6]).
      assert (Lve : alive (hp st2) I O) by (intros S; exact (rep_build_live W opts _ st1 R ei eo _ mn mx I O st2 (do_gr _ _ _ _ _ _ D) W1 W2 (do_live _ _ _ _ _ _ D S) (Ne S) E)).
      exists R'. split; [|intros S; apply Lve, S]. split.
      - eapply gr_ext; [apply in_rep_l|exact B1].
      - split; [lia|]. intros a La. rewrite B3; [apply F2, La|lia|]. intros X. apply (gr_in _ _ _ _ _ _ _ (do_gr _ _ _ _ _ _ D)) in X. lia.
      - intros n bi bo I1. rewrite B5 in I1. apply (do_buf _ _ _ _ _ _ D) in I1 as [I1|(Rb & Gb & Db & Zb & Vb)]; [auto|]. right. exists Rb. split; [|split; [|split]].
        + eapply gr_agree; [exact Gb| |exact B2]. intros a Ia. apply B3; [apply (gr_in _ _ _ _ _ _ _ Gb), Ia|apply Db, Ia].
        + intros a Ia X. apply B4 in X as [X|X]; [exact (Db a Ia X)|]. apply (gr_in _ _ _ _ _ _ _ Gb) in Ia. lia.
        + intros B0 I0. specialize (Zb B0 I0). destruct (do_count _ _ _ _ _ _ D B0 I0) as [X1 X2]. destruct (B6 (proj1 B0) X1) as (X3 & X4 & X5); [destruct I0; lia|]. lia.
        + eapply alive_agree; [exact Gb| |exact Vb]. intros a Ia. apply B3; [apply (gr_in _ _ _ _ _ _ _ Gb), Ia|apply Db, Ia].
      - intros B0 I0. destruct (do_count _ _ _ _ _ _ D B0 I0) as [X1 X2]. destruct (B6 (proj1 B0) X1) as (X3 & X4 & X5).
        + destruct I0. lia.
        + split; [exact X3|]. lia.
      - intros S. apply Lve, S.
    Qed.
    Lemma elem_rep_good : (forall e, occ_elem g0 e -> wf_elem e -> forall st, buf_ok st -> good st (W (meant_elem d e)) (elem_graph opts call e st)) /\
      (forall r, occ_rep g0 r -> f_ok (rep_graph opts call) r).
    Proof.
      apply elem_rep_ind.
      - intros n Oc _ st B. rewrite meant_rule_elem. change (elem_graph opts call (ERule n) st) with (if o_rules opts then call n st else one_node opts (ERule n) st).
        destruct (o_rules opts); [apply Call, B|apply one_node_good].
      - intros a F Oc _ st B. rewrite meant_group. change (elem_graph opts call (EGroup a) st) with (alt_with (rep_graph opts call) a st).
        eapply good_ext; [|apply alt_good; [|exact B|intros S; apply (proj1 (proj2 S)), Oc]].
        + intros w. split; [apply in_group|intros H; inversion H; assumption].
        + intros c r Ic Ir. rewrite Forall_forall in F. specialize (F c Ic). rewrite Forall_forall in F. apply (F r Ir). eapply occ_rep_group; eassumption.
      - intros a F Oc _ st B. rewrite elem_option, meant_option.
        assert (K : match alt_with (rep_graph opts call) a st with T_ok i o st1 => exists R, done st st1 R i o (in_alt g (meant_alt d a)) | _ => True end).
        { assert (Fa : forall c r, In c a -> In r c -> f_ok (rep_graph opts call) r).
          { intros c r Ic Ir. rewrite Forall_forall in F. specialize (F c Ic). rewrite Forall_forall in F. apply (F r Ir). eapply occ_rep_option; eassumption. }
          destruct a as [|c a].
          - cbn. exists []. destruct (done_start st) as [D1 D2 D3 D4 D5]. split; auto. eapply gr_ext; [apply in_alt_nil|exact D1].
          - assert (Na : solid -> c :: a <> []) by discriminate.
            pose proof (alt_good _ _ Fa st B Na) as K. destruct (alt_with (rep_graph opts call) (c :: a) st) as [i o st1| | |]; cbn [good] in *; auto. destruct K as (R & D & _). eauto. }
        destruct (alt_with (rep_graph opts call) a st) as [i o st1| | |]; cbn [good] in *; auto. destruct K as (R & D). exists R.
        split; [|intros _; apply (in_some _ None); rewrite append_nodes_in; right; left; reflexivity].
        apply done_opt in D as [D1 D2 D3 D4 D5]. split; auto. eapply gr_ext; [|exact D1]. intros w. unfold l_or, l_eps. split.
        + intros [->|H]; [apply in_option_none|apply in_option_some, H].
        + intros H. inversion H; auto.
      - intros s vs Oc _ st B. rewrite meant_char. apply char_good, Oc.
      - intros b k es Oc Wn st B. apply num_good; [exact Oc|inversion Wn; assumption|]. intros (_ & _ & X). eapply X, Oc.
      - intros v Oc _ st B. exact Logic.I.
      - intros mn mx e F Oc. assert (Wr : wf_rep (Rep mn mx e)) by (apply Wf, Oc). apply rep_good; [exact Wr|].
        apply F; [econstructor; exact Oc|inversion Wr; assumption].
    Qed.
  End Step.

  Lemma rule_lang n r : get_rule n g0 = Some r -> leq (in_alt g (meant_alt d (rule_alt r))) (W (ERule n)).
  Proof.
    intros E w. destruct (get_rule_meant d n g0 r E) as (r' & E' & <-). symmetry. apply lang_user; [apply meant_distinct, Dn|exact E'].
  Qed.
  Lemma rule_some n r : solid -> get_rule n g0 = Some r -> rule_alt r <> [].
  Proof.
    intros [S _] E. unfold get_rule, get_rule_core, get_rule_in in E. destruct (find _ g0) as [x|] eqn:F.
    - injection E as <-. apply S. apply (find_some _ _ F).
    - apply find_some in E as [I _]. cbn [core_rules In] in I. repeat (destruct I as [I|I]; [rewrite <- I; discriminate|]). destruct I.
  Qed.
  Lemma rule_good fuel : forall n st, buf_ok st -> good st (W (ERule n)) (rule_graph fuel opts g0 n st).
  Proof.
    induction fuel as [|f IH]; intros n st B; [exact Logic.I|]. cbn [rule_graph].
    destruct (buf_get (lower n) (t_buf st)) as [[bi bo]|] eqn:Eb.
    - apply buf_get_in in Eb. destruct (proj2 B _ _ _ Eb) as (Rb & G & Z & V).
      destruct (reserve_clones opts 1 bi st) as [st1|] eqn:Er; [|exact Logic.I].
      pose proof (reserve_clones_spec opts 1 bi st st1 Rb Er) as (E1 & E2 & E3). rewrite E1.
      pose proof (clone_gr st bi bo Rb _ G) as K. destruct (clone_graph (hp st) bi bo) as [[i o] h']. destruct K as (R' & K1 & K2 & K3 & K4). specialize (K4 V).
      cbn [good]. exists R'. split; [|intros S; apply K4, S]. split; cbn [with_heap hp t_buf t_count].
      + eapply gr_ext; [|exact K1]. intros w. apply rule_lower. apply lower_lower.
      + exact K2.
      + intros m x y I1. left. rewrite <- E2. exact I1.
      + intros B0 I0. destruct (E3 (proj1 B0) I0) as [X Y]; [lia|auto|apply G|apply G|apply G|apply Z, B0|]. split; [exact X|]. lia.
      + intros S. apply K4, S.
    - destruct (get_rule n g0) as [r|] eqn:Eg; [|exact Logic.I].
      assert (K : good st (in_alt g (meant_alt d (rule_alt r))) (alt_graph opts (rule_graph f opts g0) (rule_alt r) st)).
      { apply alt_good; [|exact B|intros S; exact (rule_some n r S Eg)]. intros c x Ic Ix. apply (proj2 (elem_rep_good (rule_graph f opts g0) IH)).
        eapply occ_rep_rule; [eapply LeftRec.get_rule_name; exact Eg|exact Ic|exact Ix]. }
      destruct (alt_graph opts (rule_graph f opts g0) (rule_alt r) st) as [i o st1| | |]; cbn [good] in K; [|exact Logic.I..].
      destruct K as (R & D & Ne).
      destruct (reserve_clones opts 1 i st1) as [st2|] eqn:Er; [|exact Logic.I].
      pose proof (reserve_clones_spec opts 1 i st1 st2 R Er) as (E1 & E2 & E3). rewrite E1.
      assert (G0 : gr W 0 (hp st1) R i o (in_alt g (meant_alt d (rule_alt r)))) by (eapply gr_low; [|apply (do_gr _ _ _ _ _ _ D)]; lia).
      pose proof (clone_gr st1 i o R _ G0) as K. destruct (clone_graph (hp st1) i o) as [[ni no] h1]. destruct K as (R' & K1 & K2 & K3 & K4).
      assert (V : alive (hp st1) i o) by (intros S; split; [apply (do_live _ _ _ _ _ _ D), S|apply Ne, S]). specialize (K4 V).
      destruct (do_frame _ _ _ _ _ _ D) as [F1 F2].
      assert (Cn : bud -> in_budget opts st -> in_budget opts st2 /\ t_count st2 = (t_count st1 + Z.of_nat (length (seen_from (hp st1) i)))%Z).
      { intros B0 I0. destruct (do_count _ _ _ _ _ _ D B0 I0) as [X1 X2].
        destruct (E3 (proj1 B0) X1) as [X Y]; [lia|auto|apply G0|apply G0|apply G0|destruct I0; lia|]. split; [exact X|]. lia. }
      cbn [good]. exists R. split; [|exact Ne]. split; cbn [hp t_buf t_count].
      + eapply gr_ext; [apply rule_lang, Eg|]. eapply gr_frame; [apply D|exact K2].
      + eapply frame_trans; [apply D|exact K2].
      + intros m x y [Em|I1].
        * right. injection Em as <- <- <-. exists R'. split; [|split; [|split]].
          -- eapply gr_ext; [|eapply gr_low; [exact F1|exact K1]]. intros w. rewrite (rule_lang n r Eg w). apply rule_lower. symmetry. apply lower_lower.
          -- intros a Ia X. apply (gr_in _ _ _ _ _ _ _ K1) in Ia. apply (gr_in _ _ _ _ _ _ _ G0) in X. lia.
          -- intros B0 I0. destruct (Cn B0 I0) as [X Y]. destruct (do_count _ _ _ _ _ _ D B0 I0) as [[X1 _] _]. lia.
          -- exact K4.
        * rewrite E2 in I1. apply (do_buf _ _ _ _ _ _ D) in I1 as [I1|(Rb & Gb & Db & Zb & Vb)]; [auto|]. right. exists Rb. split; [|split; [|split]].
          -- eapply gr_frame; [exact Gb|exact K2].
          -- exact Db.
          -- intros B0 I0. specialize (Zb B0 I0). destruct (Cn B0 I0) as [X Y]. lia.
          -- eapply alive_frame; [exact Gb|exact K2|exact Vb].
      + intros B0 I0. destruct (Cn B0 I0) as [X Y]. destruct (do_count _ _ _ _ _ _ D B0 I0) as [_ X2]. split; [exact X|]. lia.
      + intros S. eapply lv_frame; [apply D|exact K2|apply D, S].
  Qed.
  Lemma start_ok : buf_ok (mkT [] [] 0).
  Proof. split; [intros [[B _] _]; split; cbn [t_count]; lia|intros n bi bo []]. Qed.
  Lemma top_good fuel n r : get_rule n g0 = Some r -> good (mkT [] [] 0) (W (ERule n)) (alt_graph opts (rule_graph fuel opts g0) (rule_alt r) (mkT [] [] 0)).
  Proof.
    intros E. eapply good_ext; [apply rule_lang, E|]. apply alt_good; [|apply start_ok|intros S; exact (rule_some n r S E)].
    intros c x Ic Ix. apply (proj2 (elem_rep_good (rule_graph fuel opts g0) (rule_good fuel))).
    eapply occ_rep_rule; [eapply LeftRec.get_rule_name; exact E|exact Ic|exact Ix].
  Qed.
End Build.
