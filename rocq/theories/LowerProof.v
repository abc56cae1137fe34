(** The lowering terminates and its result represents the grammar.
    Its definitions are means of proof and model no code. *)
From Coq Require Import ZArith String Ascii Bool List Lia.
From Verif Require Import Syntax Spec Utf8 Num Term Printer Slots PropTerm.
Import ListNotations.
Local Open Scope Z_scope.

Inductive item := IRule (n : string) | IGrp (a : alternation) | IOpt (a : alternation) | IRep (r : rep).

Definition key_of (it : item) : string :=
  match it with
  | IRule n => "rule:" ++ lower n
  | IGrp a => "grp:" ++ elem_string (EGroup a)
  | IOpt a => "opt:" ++ elem_string (EOption a)
  | IRep r => "rep:" ++ rep_string r
  end.

Notation index := (list (string * nat)).

(** How a symbol represents an element, given the index. *)
Definition elem_sym (idx : index) (e : elem) (s : ssym) : Prop :=
  match e with
  | ERule n => exists id, s = SNonterm id /\ assoc (key_of (IRule n)) idx = Some id
  | EGroup a => exists id, s = SNonterm id /\ assoc (key_of (IGrp a)) idx = Some id
  | EOption a => exists id, s = SNonterm id /\ assoc (key_of (IOpt a)) idx = Some id
  | _ => s = STerm e
  end.
Definition rep_sym (idx : index) (r : rep) (s : ssym) : Prop :=
  (rep_min r = 1 /\ rep_max r = 1 /\ elem_sym idx (rep_elem r) s) \/
  (~ (rep_min r = 1 /\ rep_max r = 1) /\ exists id, s = SNonterm id /\ assoc (key_of (IRep r)) idx = Some id).
Definition cat_sym (idx : index) (c : concatenation) (p : list ssym) : Prop :=
  exists seq, Forall2 (rep_sym idx) c seq /\ p = nonempty_seq seq.

(** What a plain nonterminal says of itself. *)
Definition nt_head (nt : sgNT) (isrule : bool) (name : string) : Prop :=
  nt_isrep nt = false /\ nt_isrule nt = isrule /\ nt_rulename nt = name.

Definition nt_matches (g : grammar) (idx : index) (id : nat) (it : item) (nt : sgNT) : Prop :=
  match it with
  | IRule n =>
      match get_rule n g with
      | None => nt = emptyNT
      | Some r => nt_head nt true (rule_name r) /\ Forall2 (cat_sym idx) (rule_alt r) (nt_alts nt)
      end
  | IGrp a => nt_head nt false "" /\ Forall2 (cat_sym idx) a (nt_alts nt)
  | IOpt a => nt_head nt false "" /\ exists alts, nt_alts nt = [SEps] :: alts /\ Forall2 (cat_sym idx) a alts
  | IRep (Rep mn mx e) =>
      (mx <> inf /\ mx < mn /\ nt = emptyNT) \/
      ((mx = inf \/ mn <= mx) /\
       exists es, elem_sym idx e es /\ nt = mkNT false "" [[SEps]; [es; SNonterm id]] true mn mx)
  end.

Definition occ_item (g : grammar) (it : item) : Prop :=
  match it with
  | IRule _ => True
  | IGrp a => occ_elem g (EGroup a)
  | IOpt a => occ_elem g (EOption a)
  | IRep r => occ_rep g r /\ counted r
  end.

Section Lower.
  Variable g : grammar.
  Variable max : Z.

  Definition complete (idx : index) (nts : list sgNT) (k : string) (id : nat) : Prop :=
    exists it nt, key_of it = k /\ occ_item g it /\ nth_error nts id = Some nt /\ nt_matches g idx id it nt.

  Record Inv (O : nat -> Prop) (st : lstate) : Prop := {
    inv_lt : forall k id, assoc k (ls_index st) = Some id -> (id < length (ls_nts st))%nat;
    inv_inj : forall k k' id, assoc k (ls_index st) = Some id -> assoc k' (ls_index st) = Some id -> k = k';
    inv_surj : forall id, (id < length (ls_nts st))%nat -> exists k, assoc k (ls_index st) = Some id;
    inv_done : ls_over st = false -> forall k id, assoc k (ls_index st) = Some id ->
      O id \/ complete (ls_index st) (ls_nts st) k id }.

  Definition iext (i i' : index) : Prop := forall k id, assoc k i = Some id -> assoc k i' = Some id.
  Record ext (st st' : lstate) : Prop := {
    ext_idx : iext (ls_index st) (ls_index st');
    ext_len : (length (ls_nts st) <= length (ls_nts st'))%nat;
    ext_over : ls_over st' = false -> ls_over st = false;
    ext_new : forall k id, assoc k (ls_index st') = Some id -> assoc k (ls_index st) = Some id \/
              (length (ls_nts st) <= id)%nat }.

  Lemma ext_refl st : ext st st.
  Proof. split; auto. intros k id H; auto. Qed.
  Lemma ext_trans a b c : ext a b -> ext b c -> ext a c.
  Proof.
    intros [A1 A2 A3 A4] [B1 B2 B3 B4]. split; auto; try lia.
    - intros k id H; auto.
    - intros k id H. destruct (B4 k id H) as [K|K]; [|right; lia]. apply A4; auto.
  Qed.

  Lemma elem_sym_ext i i' e s : iext i i' -> elem_sym i e s -> elem_sym i' e s.
  Proof. intros H. destruct e; cbn; auto; intros (id & A & B); exists id; auto. Qed.
  Lemma rep_sym_ext i i' r s : iext i i' -> rep_sym i r s -> rep_sym i' r s.
  Proof.
    intros H [(A & B & C)|(A & id & B & C)]; [left|right]; eauto 6 using elem_sym_ext.
  Qed.
  Lemma cat_sym_ext i i' c p : iext i i' -> cat_sym i c p -> cat_sym i' c p.
  Proof.
    intros H (s & A & B). exists s. split; auto. clear B. induction A; constructor; eauto using rep_sym_ext.
  Qed.
  Lemma alts_sym_ext i i' a l : iext i i' -> Forall2 (cat_sym i) a l -> Forall2 (cat_sym i') a l.
  Proof. intros H A. induction A; constructor; eauto using cat_sym_ext. Qed.
  Lemma nt_matches_ext i i' id it nt : iext i i' -> nt_matches g i id it nt -> nt_matches g i' id it nt.
  Proof.
    intros H. destruct it; cbn.
    - destruct (get_rule n g); auto. intros [A B]. eauto using alts_sym_ext.
    - intros [A B]. eauto using alts_sym_ext.
    - intros (A & l & B & C). split; auto. exists l. eauto using alts_sym_ext.
    - destruct r. intros [A|(A & es & B & C)]; auto. right. split; auto. exists es. eauto using elem_sym_ext.
  Qed.

  (** *** Elementary steps *)
  Lemma reserve_new key st id st1 (O : nat -> Prop) : Inv O st -> reserve key st = (id, false, st1) ->
    id = length (ls_nts st) /\ Inv (fun x => O x \/ x = id) st1 /\ ext st st1 /\
    assoc key (ls_index st1) = Some id /\ assoc key (ls_index st) = None /\ ls_over st1 = ls_over st.
  Proof.
    unfold reserve. intros [I1 I2 I3 I4] H. destruct (assoc key (ls_index st)) as [x|] eqn:A; [inversion H|].
    inversion H; subst. cbn [ls_index ls_nts ls_over].
    assert (Z : forall k i, assoc k ((key, length (ls_nts st)) :: ls_index st) = Some i ->
      (k = key /\ i = length (ls_nts st)) \/ (k <> key /\ assoc k (ls_index st) = Some i)).
    { intros k i. cbn. destruct (String.eqb_spec k key) as [->|N]; [intros E; inversion E; auto|auto]. }
    assert (E : iext (ls_index st) ((key, length (ls_nts st)) :: ls_index st)).
    { intros k i K. cbn. destruct (String.eqb_spec k key); [subst; congruence|auto]. }
    split; auto. split; [split; cbn [ls_index ls_nts ls_over]|split; [split; cbn [ls_index ls_nts ls_over]|]].
    - intros k i K. rewrite app_length. cbn. destruct (Z k i K) as [[-> ->]|[_ X]]; [lia|]. apply I1 in X. lia.
    - intros k k' i K K'. destruct (Z k i K) as [[-> ->]|[_ X]], (Z k' _ K') as [[-> E']|[_ X']]; auto.
      + apply I1 in X'. lia.
      + subst. apply I1 in X. lia.
      + eauto.
    - intros i K. rewrite app_length in K. cbn in K.
      destruct (Nat.eq_dec i (length (ls_nts st))) as [->|].
      + exists key. cbn. rewrite String.eqb_refl. auto.
      + destruct (I3 i) as [k X]; [lia|]. exists k. apply E, X.
    - intros Ov k i K. destruct (Z k i K) as [[-> ->]|[_ X]]; auto.
      destruct (I4 Ov k i X) as [Y|(it & nt & Y1 & Y2 & Y3 & Y4)]; auto. right.
      exists it, nt. repeat split; auto.
      + rewrite nth_error_app1; auto. apply I1 in X. auto.
      + eapply nt_matches_ext; eauto.
    - exact E.
    - rewrite app_length. lia.
    - auto.
    - intros k i K. destruct (Z k i K) as [[-> ->]|[_ X]]; auto.
    - cbn. rewrite String.eqb_refl. auto.
  Qed.

  Lemma reserve_old key st id st1 : reserve key st = (id, true, st1) ->
    st1 = st /\ assoc key (ls_index st) = Some id.
  Proof.
    unfold reserve. destruct (assoc key (ls_index st)) eqn:A; intros H; inversion H; subst; auto.
  Qed.

  Lemma budget_step st b st2 (O : nat -> Prop) : Inv O st -> budget_exceeded max st = (b, st2) ->
    Inv O st2 /\ ext st st2 /\ ls_over st2 = b /\ ls_index st2 = ls_index st /\ ls_nts st2 = ls_nts st.
  Proof.
    unfold budget_exceeded. intros [I1 I2 I3 I4] H. inversion H; subst. clear H. cbn.
    split; [split; cbn; auto|].
    - intros Ov. apply orb_false_iff in Ov as [_ Ov]. auto.
    - split; [split; cbn; auto; [intros k id X; auto|]|auto].
      intros Ov. apply orb_false_iff in Ov as [_ Ov]. auto.
  Qed.

  Lemma set_nth_same {A} (l : list A) : forall i x, (i < length l)%nat -> nth_error (set_nth i x l) i = Some x.
  Proof. induction l; intros [|i] x H; cbn in *; try lia; auto. apply IHl. lia. Qed.
  Lemma set_nth_other {A} (l : list A) : forall i j x, i <> j -> nth_error (set_nth i x l) j = nth_error l j.
  Proof. induction l; intros [|i] [|j] x H; cbn; auto; try congruence. Qed.
  Lemma set_nth_len {A} (l : list A) : forall i x, length (set_nth i x l) = length l.
  Proof. induction l; intros [|i] x; cbn; auto. Qed.

  (* closing an open nonterminal *)
  Lemma set_step (O : nat -> Prop) id nt st it : Inv (fun x => O x \/ x = id) st ->
    assoc (key_of it) (ls_index st) = Some id -> occ_item g it ->
    nt_matches g (ls_index st) id it nt ->
    Inv O (set_nt id nt st) /\ ext st (set_nt id nt st).
  Proof.
    intros [I1 I2 I3 I4] K Oc M. unfold set_nt. split.
    - split; cbn [ls_index ls_nts ls_over]; rewrite ?set_nth_len; auto.
      intros Ov k i X. destruct (Nat.eq_dec id i) as [<-|N].
      + right. exists it, nt. rewrite set_nth_same by (eapply I1; eauto).
        repeat split; auto; eauto.
      + destruct (I4 Ov k i X) as [[Y|Y]|(it' & nt' & Y1 & Y2 & Y3 & Y4)]; auto; [congruence|].
        right. exists it', nt'. rewrite set_nth_other by auto. auto.
    - split; cbn [ls_index ls_nts ls_over]; rewrite ?set_nth_len; auto. intros k i X; auto.
  Qed.

  (* an open nonterminal which stays empty because the state is over budget *)
  Lemma over_step (O : nat -> Prop) id st : Inv (fun x => O x \/ x = id) st -> ls_over st = true -> Inv O st.
  Proof. intros [I1 I2 I3 I4] H. split; auto. congruence. Qed.

  (* an open nonterminal left as reserved *)
  Lemma leave_step (O : nat -> Prop) id st it : Inv (fun x => O x \/ x = id) st ->
    assoc (key_of it) (ls_index st) = Some id -> occ_item g it -> nth_error (ls_nts st) id = Some emptyNT ->
    nt_matches g (ls_index st) id it emptyNT -> Inv O st.
  Proof.
    intros [I1 I2 I3 I4] K Oc N M. split; auto. intros Ov k i X.
    destruct (I4 Ov k i X) as [[Y|Y]|Y]; auto. subst i. right. exists it, emptyNT. repeat split; auto; eauto.
  Qed.

  (** *** Fuel *)
  Definition names : list string := map (fun r => lower (rule_name r)) (g ++ core_rules).
  Definition missing (st : lstate) : nat :=
    length (filter (fun m => match assoc ("rule:" ++ m) (ls_index st) with None => true | Some _ => false end) names).

  Lemma filter_le {A} (f h : A -> bool) l : (forall x, f x = true -> h x = true) ->
    (length (filter f l) <= length (filter h l))%nat.
  Proof.
    intros H. induction l; cbn; auto. destruct (f a) eqn:F; [rewrite (H _ F); cbn; lia|].
    destruct (h a); cbn; lia.
  Qed.
  Lemma filter_lt {A} (f h : A -> bool) l y : (forall x, f x = true -> h x = true) -> In y l ->
    f y = false -> h y = true -> (length (filter f l) < length (filter h l))%nat.
  Proof.
    intros H I F1 H1. induction l; cbn; [easy|]. destruct I as [->|I].
    - rewrite F1, H1. cbn. pose proof (filter_le f h l H). lia.
    - specialize (IHl I). destruct (f a) eqn:F; [rewrite (H _ F); cbn; lia|]. destruct (h a); cbn; lia.
  Qed.

  Lemma missing_ext st st' : ext st st' -> (missing st' <= missing st)%nat.
  Proof.
    intros [E _ _ _]. apply filter_le. intros m. destruct (assoc ("rule:" ++ m) (ls_index st)) eqn:A; auto.
    rewrite (E _ _ A). auto.
  Qed.

  Lemma get_rule_names n r : get_rule n g = Some r -> In (lower n) names.
  Proof.
    intros H. unfold names. apply in_map_iff. unfold get_rule, get_rule_core, get_rule_in in H.
    destruct (find _ g) eqn:F.
    - inversion H; subst. apply find_some in F as [A B]. exists r. split; [|apply in_app_iff; auto].
      apply String.eqb_eq in B. auto.
    - apply find_some in H as [A B]. exists r. split; [|apply in_app_iff; auto].
      apply String.eqb_eq in B. auto.
  Qed.

  Lemma get_rule_in_list n r : get_rule n g = Some r -> In r (g ++ core_rules).
  Proof.
    intros H. unfold get_rule, get_rule_core, get_rule_in in H. apply in_app_iff.
    destruct (find _ g) eqn:F.
    - inversion H; subst. apply find_some in F as [A B]. auto.
    - apply find_some in H as [A B]. auto.
  Qed.

  (** *** The recursion *)
  Section Rec.
    Variable f : nat.
    Variable lrule : string -> lstate -> option (nat * lstate).
    Hypothesis Hl : forall n (O : nat -> Prop) st, Inv O st -> (missing st < f)%nat ->
      exists id st', lrule n st = Some (id, st') /\ ext st st' /\ Inv O st' /\
        assoc (key_of (IRule n)) (ls_index st') = Some id.

    Definition Pe (e : elem) : Prop := occ_elem g e -> forall (O : nat -> Prop) st, Inv O st -> (missing st < f)%nat ->
      exists s st', lower_elem max lrule e st = Some (s, st') /\ ext st st' /\ Inv O st' /\ elem_sym (ls_index st') e s.
    Definition Pr (r : rep) : Prop := occ_rep g r -> forall (O : nat -> Prop) st, Inv O st -> (missing st < f)%nat ->
      exists s st', lower_rep max lrule r st = Some (s, st') /\ ext st st' /\ Inv O st' /\ rep_sym (ls_index st') r s.

    Lemma mapM_inv {A B} (h : A -> lstate -> option (B * lstate)) (Q : index -> A -> B -> Prop) l :
      (forall i i' x y, iext i i' -> Q i x y -> Q i' x y) ->
      (forall x, In x l -> forall O st, Inv O st -> (missing st < f)%nat ->
         exists y st', h x st = Some (y, st') /\ ext st st' /\ Inv O st' /\ Q (ls_index st') x y) ->
      forall O st, Inv O st -> (missing st < f)%nat ->
        exists ys st', mapM h l st = Some (ys, st') /\ ext st st' /\ Inv O st' /\ Forall2 (Q (ls_index st')) l ys.
    Proof.
      intros QE. induction l as [|x l IH]; intros H O st HI HM; cbn.
      - exists [], st. repeat split; auto using ext_refl; try apply HI. intros k id X; auto.
      - destruct (H x (or_introl eq_refl) O st HI HM) as (y & st1 & E1 & X1 & I1 & Q1). rewrite E1.
        pose proof (missing_ext _ _ X1).
        destruct (IH (fun z h => H z (or_intror h)) O st1 I1 ltac:(lia)) as (ys & st2 & E2 & X2 & I2 & Q2). rewrite E2.
        exists (y :: ys), st2. split; auto. split; [eapply ext_trans; eauto|]. split; auto.
        constructor; auto. eapply QE; [apply X2|auto].
    Qed.

    Lemma cat_inv c : Forall Pr c -> (forall x, In x c -> occ_rep g x) ->
      forall O st, Inv O st -> (missing st < f)%nat ->
        exists p st', lower_cat max lrule c st = Some (p, st') /\ ext st st' /\ Inv O st' /\ cat_sym (ls_index st') c p.
    Proof.
      intros F Oc O st HI HM. unfold lower_cat.
      destruct (mapM_inv (lower_rep max lrule) rep_sym c) with (O := O) (st := st)
        as (ys & st' & E & X & I & Q); auto.
      - intros; eauto using rep_sym_ext.
      - intros x Hx O' st' H1 H2. rewrite Forall_forall in F. apply F; auto.
      - rewrite E. exists (nonempty_seq ys), st'. repeat split; auto; try apply X; try apply I.
        exists ys. auto.
    Qed.

    Lemma alts_inv a : Forall (Forall Pr) a -> (forall c x, In c a -> In x c -> occ_rep g x) ->
      forall O st, Inv O st -> (missing st < f)%nat ->
        exists ps st', lower_alts max lrule a st = Some (ps, st') /\ ext st st' /\ Inv O st' /\
          Forall2 (cat_sym (ls_index st')) a ps.
    Proof.
      intros F Oc O st HI HM. unfold lower_alts.
      destruct (mapM_inv (lower_cat max lrule) cat_sym a) with (O := O) (st := st)
        as (ys & st' & E & X & I & Q); auto.
      - intros; eauto using cat_sym_ext.
      - intros c Hc O' st' H1 H2. rewrite Forall_forall in F. apply cat_inv; auto.
        intros x Hx. eapply Oc; eauto.
      - exists ys, st'. auto.
    Qed.

    Lemma lower_elem_group a st : lower_elem max lrule (EGroup a) st =
      (let '(id, existed, st1) := reserve ("grp:" ++ elem_string (EGroup a)) st in
       if existed then Some (SNonterm id, st1)
       else
         let '(over, st2) := budget_exceeded max st1 in
         if over then Some (SNonterm id, st2)
         else match lower_alts max lrule a st2 with
              | None => None
              | Some (alts, st3) => Some (SNonterm id, set_nt id (mkNT false "" alts false 0 0) st3)
              end).
    Proof. reflexivity. Qed.
    Lemma lower_elem_option a st : lower_elem max lrule (EOption a) st =
      (let '(id, existed, st1) := reserve ("opt:" ++ elem_string (EOption a)) st in
       if existed then Some (SNonterm id, st1)
       else
         let '(over, st2) := budget_exceeded max st1 in
         if over then Some (SNonterm id, st2)
         else match lower_alts max lrule a st2 with
              | None => None
              | Some (alts, st3) => Some (SNonterm id, set_nt id (mkNT false "" ([SEps] :: alts) false 0 0) st3)
              end).
    Proof. reflexivity. Qed.

    Lemma lower_rep_eq mn mx e st : lower_rep max lrule (Rep mn mx e) st =
      (if ((mn =? 1) && (mx =? 1))%bool then lower_elem max lrule e st
       else
         let '(id, existed, st1) := reserve ("rep:" ++ rep_string (Rep mn mx e)) st in
         if existed then Some (SNonterm id, st1)
         else
           let '(over, st2) := budget_exceeded max st1 in
           if over then Some (SNonterm id, st2)
           else if (negb (mx =? inf) && (mx <? mn))%bool then Some (SNonterm id, st2)
           else
             match lower_elem max lrule e st2 with
             | None => None
             | Some (esym, st3) =>
                 Some (SNonterm id,
                       set_nt id (mkNT false "" [[SEps]; [esym; SNonterm id]] true mn mx) st3)
             end).
    Proof. reflexivity. Qed.

    Lemma lower_inv : (forall e, Pe e) /\ (forall r, Pr r).
    Proof.
      apply elem_rep_ind; unfold Pe; fold Pr; intros.
      - (* rule *)
        cbn [lower_elem]. destruct (Hl n O st H0 H1) as (id & st' & E & X & I & A). rewrite E.
        exists (SNonterm id), st'. repeat split; auto; try apply X; try apply I. exists id; auto.
      - (* group *)
        rewrite lower_elem_group. destruct (reserve _ st) as [[id ex] st1] eqn:R. destruct ex.
        { apply reserve_old in R as [-> A]. exists (SNonterm id), st. repeat split; auto using ext_refl; try apply H1.
          - intros k i X; auto.
          - exists id. auto. }
        destruct (reserve_new _ _ _ _ O H1 R) as (Eid & I1 & X1 & A1 & A0 & Ov1).
        destruct (budget_exceeded max st1) as [b st2] eqn:B.
        destruct (budget_step _ _ _ _ I1 B) as (I2 & X2 & Ov2 & Ei & En).
        assert (X02 : ext st st2) by (eapply ext_trans; eauto).
        destruct b.
        { exists (SNonterm id), st2. split; auto. split; auto. split; [eapply over_step; eauto|].
          exists id. rewrite Ei. auto. }
        pose proof (missing_ext _ _ X02).
        destruct (alts_inv a H (fun c x h1 h2 => occ_rep_group g a c x H0 h1 h2) _ st2 I2 ltac:(lia))
          as (ps & st3 & E3 & X3 & I3 & Q3).
        rewrite E3.
        assert (A3 : assoc (key_of (IGrp a)) (ls_index st3) = Some id).
        { apply X3. rewrite Ei. exact A1. }
        destruct (set_step O id (mkNT false "" ps false 0 0) st3 (IGrp a) I3 A3 H0 (conj (conj eq_refl (conj eq_refl eq_refl)) Q3)) as [I4 X4].
        eexists _, _. split; [reflexivity|]. split; [eapply ext_trans; [exact X02|eapply ext_trans; eauto]|].
        split; auto. exists id. auto.
      - (* option *)
        rewrite lower_elem_option. destruct (reserve _ st) as [[id ex] st1] eqn:R. destruct ex.
        { apply reserve_old in R as [-> A]. exists (SNonterm id), st. repeat split; auto using ext_refl; try apply H1.
          - intros k i X; auto.
          - exists id. auto. }
        destruct (reserve_new _ _ _ _ O H1 R) as (Eid & I1 & X1 & A1 & A0 & Ov1).
        destruct (budget_exceeded max st1) as [b st2] eqn:B.
        destruct (budget_step _ _ _ _ I1 B) as (I2 & X2 & Ov2 & Ei & En).
        assert (X02 : ext st st2) by (eapply ext_trans; eauto).
        destruct b.
        { exists (SNonterm id), st2. split; auto. split; auto. split; [eapply over_step; eauto|].
          exists id. rewrite Ei. auto. }
        pose proof (missing_ext _ _ X02).
        destruct (alts_inv a H (fun c x h1 h2 => occ_rep_option g a c x H0 h1 h2) _ st2 I2 ltac:(lia))
          as (ps & st3 & E3 & X3 & I3 & Q3).
        rewrite E3.
        assert (A3 : assoc (key_of (IOpt a)) (ls_index st3) = Some id).
        { apply X3. rewrite Ei. exact A1. }
        destruct (set_step O id (mkNT false "" ([SEps] :: ps) false 0 0) st3 (IOpt a) I3 A3 H0) as [I4 X4].
        { split; [split; auto|]. exists ps. auto. }
        eexists _, _. split; [reflexivity|]. split; [eapply ext_trans; [exact X02|eapply ext_trans; eauto]|].
        split; auto. exists id. auto.
      - exists (STerm (EChar s v)), st. repeat split; auto using ext_refl; try apply H0. intros k i X; auto.
      - exists (STerm (ENum b s v)), st. repeat split; auto using ext_refl; try apply H0. intros k i X; auto.
      - exists (STerm (EProse v)), st. repeat split; auto using ext_refl; try apply H0. intros k i X; auto.
      - (* rep *)
        unfold Pr. intros Oc O st HI HM. rewrite lower_rep_eq.
        destruct ((mn =? 1) && (mx =? 1))%bool eqn:C.
        { apply andb_true_iff in C as [C1 C2]. apply Z.eqb_eq in C1, C2. subst.
          destruct (H (occ_elem_rep g 1 1 e Oc) O st HI HM) as (s & st' & E & X & I & A).
          exists s, st'. repeat split; auto; try apply X; try apply I. left. auto. }
        assert (NC : ~ (rep_min (Rep mn mx e) = 1 /\ rep_max (Rep mn mx e) = 1)).
        { cbn. intros [-> ->]. discriminate. }
        destruct (reserve _ st) as [[id ex] st1] eqn:R. destruct ex.
        { apply reserve_old in R as [-> A]. exists (SNonterm id), st. repeat split; auto using ext_refl; try apply HI.
          - intros k i X; auto.
          - right. split; auto. exists id. auto. }
        destruct (reserve_new _ _ _ _ O HI R) as (Eid & I1 & X1 & A1 & A0 & Ov1).
        destruct (budget_exceeded max st1) as [b st2] eqn:B.
        destruct (budget_step _ _ _ _ I1 B) as (I2 & X2 & Ov2 & Ei & En).
        assert (X02 : ext st st2) by (eapply ext_trans; eauto).
        assert (A2 : assoc (key_of (IRep (Rep mn mx e))) (ls_index st2) = Some id) by (rewrite Ei; exact A1).
        destruct b.
        { exists (SNonterm id), st2. split; auto. split; auto. split; [eapply over_step; eauto|].
          right. split; auto. exists id. auto. }
        destruct (negb (mx =? inf) && (mx <? mn))%bool eqn:D.
        { apply andb_true_iff in D as [D1 D2]. apply negb_true_iff, Z.eqb_neq in D1. apply Z.ltb_lt in D2.
          exists (SNonterm id), st2. split; auto. split; auto. split.
          - eapply leave_step with (it := IRep (Rep mn mx e)); eauto.
            + split; [exact Oc|exact NC].
            + rewrite En. unfold reserve in R. destruct (assoc _ _); [inversion R|]. inversion R; subst. cbn.
              rewrite nth_error_app2, Nat.sub_diag by lia. auto.
            + cbn. left. auto.
          - right. split; auto. exists id. auto. }
        assert (D' : mx = inf \/ mn <= mx).
        { apply andb_false_iff in D as [D|D]; [apply negb_false_iff, Z.eqb_eq in D|apply Z.ltb_ge in D]; auto. }
        pose proof (missing_ext _ _ X02).
        destruct (H (occ_elem_rep g mn mx e Oc) _ st2 I2 ltac:(lia)) as (es & st3 & E3 & X3 & I3 & Q3).
        rewrite E3.
        assert (A3 : assoc (key_of (IRep (Rep mn mx e))) (ls_index st3) = Some id) by (apply X3; auto).
        destruct (set_step O id (mkNT false "" [[SEps]; [es; SNonterm id]] true mn mx) st3
           (IRep (Rep mn mx e)) I3 A3 (conj Oc NC)) as [I4 X4].
        { right. split; auto. exists es. auto. }
        eexists _, _. split; [reflexivity|]. split; [eapply ext_trans; [exact X02|eapply ext_trans; eauto]|].
        split; auto. right. split; auto. exists id. auto.
    Qed.
  End Rec.

  Lemma lower_rule_inv f : forall n (O : nat -> Prop) st, Inv O st -> (missing st < f)%nat ->
    exists id st', lower_rule g max f n st = Some (id, st') /\ ext st st' /\ Inv O st' /\
      assoc (key_of (IRule n)) (ls_index st') = Some id.
  Proof.
    induction f as [|f IH]; intros n O st HI HM; [lia|]. cbn [lower_rule].
    destruct (reserve _ st) as [[id ex] st1] eqn:R. destruct ex.
    { apply reserve_old in R as [-> A]. exists id, st. repeat split; auto using ext_refl; try apply HI.
      intros k i X; auto. }
    destruct (reserve_new _ _ _ _ O HI R) as (Eid & I1 & X1 & A1 & A0 & Ov1).
    destruct (budget_exceeded max st1) as [b st2] eqn:B.
    destruct (budget_step _ _ _ _ I1 B) as (I2 & X2 & Ov2 & Ei & En).
    assert (X02 : ext st st2) by (eapply ext_trans; eauto).
    assert (A2 : assoc (key_of (IRule n)) (ls_index st2) = Some id) by (rewrite Ei; exact A1).
    destruct b.
    { exists id, st2. split; auto. split; auto. split; [eapply over_step; eauto|auto]. }
    destruct (get_rule n g) as [r|] eqn:G.
    - assert (M2 : (missing st2 < missing st)%nat).
      { unfold missing. apply filter_lt with (y := lower n).
        - intros m. rewrite Ei. destruct (assoc ("rule:" ++ m) (ls_index st)) eqn:A; auto.
          rewrite (ext_idx _ _ X1 _ _ A). auto.
        - eapply get_rule_names; eauto.
        - rewrite Ei, A1. auto.
        - rewrite A0. auto. }
      destruct (lower_inv f (lower_rule g max f) IH) as [_ LR].
      destruct (alts_inv f (lower_rule g max f) (rule_alt r)) with (O := fun x => O x \/ x = id) (st := st2)
        as (ps & st3 & E3 & X3 & I3 & Q3); auto.
      + apply Forall_forall. intros c _. apply Forall_forall. intros x _. apply LR.
      + intros c x Hc Hx. eapply occ_rep_rule; eauto. eapply get_rule_in_list; eauto.
      + lia.
      + rewrite E3.
        assert (A3 : assoc (key_of (IRule n)) (ls_index st3) = Some id) by (apply X3; auto).
        destruct (set_step O id (mkNT true (rule_name r) ps false 0 0) st3 (IRule n) I3 A3 Logic.I) as [I4 X4].
        { cbn. rewrite G. split; [split; auto|auto]. }
        eexists _, _. split; [reflexivity|]. split; [eapply ext_trans; [exact X02|eapply ext_trans; eauto]|].
        split; auto.
    - exists id, st2. split; auto. split; auto. split; auto.
      eapply leave_step with (it := IRule n); eauto.
      + exact Logic.I.
      + rewrite En. unfold reserve in R. destruct (assoc _ _); [inversion R|]. inversion R; subst. cbn.
        rewrite nth_error_app2, Nat.sub_diag by lia. auto.
      + cbn. rewrite G. auto.
  Qed.

  Definition lower_fuel : nat := S (length g + length core_rules).

  (** A finished lowering. *)
  Record represents (root : string) (sg : slot_grammar) (idx : index) : Prop := {
    rp_start : assoc (key_of (IRule root)) idx = Some (sg_start sg);
    rp_lt : forall k id, assoc k idx = Some id -> (id < length (sg_nts sg))%nat;
    rp_inj : forall k k' id, assoc k idx = Some id -> assoc k' idx = Some id -> k = k';
    rp_surj : forall id, (id < length (sg_nts sg))%nat -> exists k, assoc k idx = Some id;
    rp_done : forall k id, assoc k idx = Some id -> complete idx (sg_nts sg) k id }.

  Lemma init_inv : Inv (fun _ => False) ls_init.
  Proof. split; cbn; try discriminate. intros; lia. Qed.

  Theorem compile_total root fuel : (lower_fuel <= fuel)%nat ->
    match compile_slots g root max fuel with
    | CS_ok sg => get_rule root g <> None /\ exists idx, represents root sg idx
    | CS_rule_not_found => get_rule root g = None
    | CS_too_large => True
    | CS_fuel => False
    end.
  Proof.
    intros HF. unfold compile_slots. destruct (get_rule root g) as [r|] eqn:G; auto.
    destruct (lower_rule_inv fuel root (fun _ => False) ls_init init_inv) as (id & st & E & X & I & A).
    { unfold lower_fuel in HF. unfold missing, names.
      assert (length (filter (fun m => match assoc ("rule:" ++ m) (ls_index ls_init) with None => true | Some _ => false end)
         (map (fun r => lower (rule_name r)) (g ++ core_rules))) <= length (g ++ core_rules))%nat.
      { rewrite <- (map_length (fun r => lower (rule_name r)) (g ++ core_rules)).
        generalize (map (fun r => lower (rule_name r)) (g ++ core_rules)). intros l.
        induction l; cbn [filter length]; [lia|]. destruct (assoc _ _); cbn [length]; lia. }
      rewrite app_length in H. lia. }
    rewrite E. destruct (ls_over st) eqn:Ov; auto. split; [congruence|].
    exists (ls_index st). destruct I as [I1 I2 I3 I4]. split; cbn; auto.
    intros k i K. destruct (I4 Ov k i K) as [[]|]; auto.
  Qed.
End Lower.
