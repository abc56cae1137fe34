(** Claim C64: ParseForest and ParseBSR agree on NumTrees and Ambiguous
    (invariants_test.go:15-21, "forest shape, not just acceptance"). *)
(** The definitions here without a citation are those of statements, proofs and examples; they model no code. *)
From Coq Require Import ZArith Arith String Bool List Permutation Lia.
From Verif Require Import Syntax Spec Utf8 Num Term Printer Slots PropTerm Gll GllUniv Bsr BsrProof BsrTerm LowerProof LowerLang LowerBudget
  PrintInj Check Sppf SppfProof TreeSpec Tree PropGll ForestUnique TreeCount Codegen BsrTree BsrCount BsrTable BsrTreeProof BsrOrder PropBsrTree PropOrder BsrSppf Apart.
From Verif Require TreeProof TreeSound PropTree.
Import ListNotations.
Local Open Scope string_scope.
Local Open Scope list_scope.
Local Open Scope Z_scope.

(** *** Alternates with the same children

    A repetition written once, of a quoted string, a number or a prose text, is a leaf of
    the forest; so is what an alternate with nothing in it stands for ([None]). *)
Definition once (r : rep) : bool := ((rep_min r =? 1) && (rep_max r =? 1))%bool.
Definition leaf (x : option rep) : bool := match x with None => true | Some r => (once r && is_terminal (rep_elem r))%bool end.
(** What a leaf covers of the input. *)
Definition covers (g : grammar) (input : list Z) (x : option rep) (i j : nat) : Prop :=
  match x with None => i = j | Some r => exists w, in_rep g r w /\ span input i j w end.
(** Two repetitions that are one nonterminal: references to one rule, or groups, options
    or repetitions that are written the same. *)
Definition one_name (r r' : rep) : Prop :=
  if once r then
    if once r' then
      match rep_elem r, rep_elem r' with
      | ERule n, ERule m => lower n = lower m
      | EGroup a, EGroup b => elem_string (EGroup a) = elem_string (EGroup b)
      | EOption a, EOption b => elem_string (EOption a) = elem_string (EOption b)
      | _, _ => False
      end
    else False
  else if once r' then False else rep_string r = rep_string r'.
Definition twin (g : grammar) (input : list Z) (x y : option rep) : Prop :=
  (leaf x = true /\ leaf y = true /\ exists i j, (i <= length input)%nat /\ covers g input x i j /\ covers g input y i j) \/
  exists r r', x = Some r /\ y = Some r' /\ one_name r r'.
(** The alternations of a grammar; an option has an alternate with nothing in it. *)
Definition alternates (g : grammar) (a : alternation) : Prop :=
  (exists r, In r (g ++ core_rules) /\ a = rule_alt r) \/ occ_elem g (EGroup a) \/ exists b, occ_elem g (EOption b) /\ a = [] :: b.
Definition children (c : concatenation) : list (option rep) := match c with [] => [None] | _ => map Some c end.
(** No two alternates of an alternation, of at most two repetitions, are twins on the input. *)
Definition twin_free (g : grammar) (input : list Z) : Prop :=
  forall a i j c d, alternates g a -> i <> j -> nth_error a i = Some c -> nth_error a j = Some d -> (length c <= 2)%nat ->
    ~ Forall2 (twin g input) (children c) (children d).

Lemma in_once g mn mx e w : once (Rep mn mx e) = true -> (in_rep g (Rep mn mx e) w <-> in_elem g e w).
Proof.
  unfold once. cbn [rep_min rep_max]. rewrite andb_true_iff, !Z.eqb_eq. intros [-> ->]. split.
  - intros H. inversion H as [? ? ? n ? A B P]; subst. assert (n = 1%nat) as -> by (destruct B as [B|B]; [discriminate B|lia]).
    inversion P as [|? ? w1 w2 P1 P2]; subst. inversion P2; subst. rewrite app_nil_r. auto.
  - intros H. apply (in_rep_intro g 1 1 e 1 w); [lia|right; lia|]. rewrite <- (app_nil_r w). constructor; [exact H|constructor].
Qed.
(** *** From the alternates of the grammar to those of the slot grammar *)
Section Lowered.
  Variable g : grammar.
  Variable root : string.
  Variable sg : slot_grammar.
  Variable idx : list (string * nat).
  Hypothesis RP : represents g root sg idx.
  Hypothesis W : wf_grammar g.
  Variable input : list Z.
  Definition osym (x : option rep) (s : ssym) : Prop := match x with None => s = SEps | Some r => rep_sym idx r s end.
  Definition owf (x : option rep) : Prop := match x with None => True | Some r => wf_rep r end.

  Lemma cat_children c p : cat_sym idx c p -> Forall2 osym (children c) p.
  Proof.
    intros (seq & F & ->). unfold children. destruct F as [|r s c seq H F]; cbn [nonempty_seq]; [constructor; [reflexivity|constructor]|].
    cbn [map]. constructor; auto. induction F; constructor; auto.
  Qed.
  Lemma once_iff r : once r = true <-> rep_min r = 1 /\ rep_max r = 1.
  Proof. unfold once. rewrite andb_true_iff, !Z.eqb_eq. tauto. Qed.
  (* a symbol is a terminal only for a leaf *)
  Lemma osym_leaf x s : osym x s -> owf x -> match s with SNonterm _ => leaf x = false | _ => leaf x = true /\
    forall i j, (i <= length input)%nat -> match_sym s input i = Some j -> covers g input x i j end.
  Proof.
    destruct x as [[mn mx e]|]; cbn [osym leaf covers]; [|intros -> _; split; auto; intros i j _ E; injection E as ->; auto].
    intros [(A & B & E)|(N & id & -> & _)] Wr.
    - assert (On : once (Rep mn mx e) = true) by (apply once_iff; auto). rewrite On. cbn [rep_elem] in *. cbn [andb].
      assert (Tm : is_terminal e = true -> s = STerm e -> match s with SNonterm _ => is_terminal e = false | _ => is_terminal e = true /\
         forall i j, (i <= length input)%nat -> match_sym s input i = Some j -> exists w, in_rep g (Rep mn mx e) w /\ span input i j w end).
      { intros Te ->. split; auto. intros i j Hi M. cbn [match_sym] in M. inversion Wr; subst.
        apply (match_term_spec g e) in M as (w & Iw & Sp); auto. exists w. split; auto. apply in_once; auto. }
      destruct e; cbn [elem_sym is_terminal] in *; try (apply Tm; auto; fail); destruct E as (id & -> & _); reflexivity.
    - assert (On : once (Rep mn mx e) = false) by (apply not_true_iff_false; rewrite once_iff; auto). rewrite On. reflexivity.
  Qed.
  Lemma osym_twin x y s t : osym x s -> osym y t -> owf x -> owf y -> alike input s t -> twin g input x y.
  Proof.
    intros X Y Wx Wy A. pose proof (osym_leaf x s X Wx) as Lx. pose proof (osym_leaf y t Y Wy) as Ly.
    destruct s as [n|te|], t as [m|te'|]; cbn [alike] in A; try contradiction.
    2-5: destruct Lx as [Lx Cx], Ly as [Ly Cy], A as (i & j & Hi & M & M'); left; split; auto; split; auto; exists i, j; auto.
    subst m. right. destruct x as [r|]; [|discriminate]. destruct y as [r'|]; [|discriminate]. exists r, r'. split; auto. split; auto. cbn [osym] in X, Y. unfold one_name.
    destruct X as [(A1 & B1 & E1)|(N1 & id & E & A1)], Y as [(A2 & B2 & E2)|(N2 & id' & E' & A2)].
    - rewrite (proj2 (once_iff r)), (proj2 (once_iff r')) by auto.
      destruct (rep_elem r), (rep_elem r'); cbn [elem_sym] in E1, E2; try discriminate; destruct E1 as (? & Q & K), E2 as (? & Q' & K'); injection Q as <-; injection Q' as <-;
        pose proof (rp_inj _ _ _ _ RP _ _ _ K K') as X; cbn [key_of] in X; try discriminate; exact (str_app_inj _ _ _ X).
    - exfalso. injection E' as <-. destruct (rep_elem r); cbn [elem_sym] in E1; try discriminate; destruct E1 as (? & Q & K); injection Q as <-;
        pose proof (rp_inj _ _ _ _ RP _ _ _ K A2) as X; cbn [key_of] in X; discriminate.
    - exfalso. injection E as <-. destruct (rep_elem r'); cbn [elem_sym] in E2; try discriminate; destruct E2 as (? & Q & K); injection Q as <-;
        pose proof (rp_inj _ _ _ _ RP _ _ _ K A1) as X; cbn [key_of] in X; discriminate.
    - assert (O1 : once r = false) by (apply not_true_iff_false; rewrite once_iff; auto). assert (O2 : once r' = false) by (apply not_true_iff_false; rewrite once_iff; auto).
      rewrite O1, O2. injection E as <-. injection E' as <-. pose proof (rp_inj _ _ _ _ RP _ _ _ A1 A2) as X. exact (str_app_inj _ _ _ X).
  Qed.
  Lemma F2_alike : forall p q xs ys, Forall2 osym xs p -> Forall2 osym ys q -> Forall owf xs -> Forall owf ys -> Forall2 (alike input) p q -> Forall2 (twin g input) xs ys.
  Proof.
    intros p q xs ys X. revert q ys. induction X as [|x s xs p Hx X IH]; intros q ys Y Wx Wy A; inversion A; subst; inversion Y; subst; constructor.
    - inversion Wx; inversion Wy; subst. eapply osym_twin; eauto.
    - inversion Wx; inversion Wy; subst. eapply IH; eauto.
  Qed.
  Lemma children_wf c : (forall x, In x c -> wf_rep x) -> Forall owf (children c).
  Proof.
    intros H. unfold children. destruct c as [|r c]; [repeat constructor|]. apply Forall_forall. intros o I. apply in_map_iff in I as (x & <- & Ix). cbn. auto.
  Qed.
  Lemma lowered_no_twins : twin_free g input -> no_twins sg input.
  Proof.
    intros TF X nt a b p q N Ne Na Nb Lp F. destruct (rp_item _ _ _ _ RP _ _ N) as (it & Oc & _ & M).
    assert (Len : forall c p, cat_sym idx c p -> (length p <= 2)%nat -> (length c <= 2)%nat).
    { intros c p0 (seq & Fs & ->) L. apply (Forall2_len) in Fs. destruct seq; cbn in *; lia. }
    assert (G : forall al, Forall2 (fun c p => cat_sym idx c p) al (nt_alts nt) -> alternates g al -> (forall c x, In c al -> In x c -> wf_rep x) -> False).
    { intros al Fa Al Wa. destruct (Forall2_nth _ _ _ _ _ Fa Na) as (c & Nc & Sc). destruct (Forall2_nth _ _ _ _ _ Fa Nb) as (d & Nd & Sd).
      apply (TF al a b c d); auto; [eapply Len; eauto|]. apply (F2_alike p q); auto using cat_children; apply children_wf; intros x Ix; [apply (Wa c)|apply (Wa d)]; auto; eapply nth_error_In; eauto. }
    assert (Wo : forall r, occ_rep g r -> wf_rep r) by (apply (wf_occ g W)).
    destruct it as [n|al|al|[mn mx e]]; cbn [nt_matches occ_item] in *.
    - destruct (get_rule n g) as [r|] eqn:Gr; [|subst nt; destruct a; discriminate]. destruct M as [_ Fa]. apply (G _ Fa).
      + left. exists r. split; auto. eapply get_rule_in_list; eauto.
      + intros c x Ic Ix. apply Wo. eapply occ_rep_rule; eauto. eapply get_rule_in_list; eauto.
    - destruct M as [_ Fa]. apply (G _ Fa); [right; left; auto|]. intros c x Ic Ix. apply Wo. eapply occ_rep_group; eauto.
    - destruct M as [_ (alts & Ea & Fa)]. apply (G ([] :: al)).
      + rewrite Ea. constructor; auto. exists []. split; [constructor|reflexivity].
      + right; right. exists al. auto.
      + intros c x [<-|Ic] Ix; [destruct Ix|]. apply Wo. eapply occ_rep_option; eauto.
    - destruct M as [(_ & _ & ->)|(_ & es & _ & ->)]; [destruct a; discriminate|]. cbn [nt_alts] in Na, Nb.
      destruct a as [|[|[|a]]], b as [|[|[|b]]]; cbn in Na, Nb; try discriminate; try congruence; injection Na as <-; injection Nb as <-; apply F2_len in F; discriminate.
  Qed.
End Lowered.

(** *** C64 *)
Theorem C64_engines_agree_partial : forall ord ord' fuel fuel' input g root max_slots max_slots' max_nodes max_nodes' f sg set set' qf qf',
  any_order ord -> any_order ord' ->
  parse_forest ord fuel input g root max_slots max_nodes = PF_ok f ->
  parse_bsr ord' fuel' input g root max_slots' max_nodes' = BSR_ok sg set -> Permutation set set' ->
  (length (f_nodes f) < qf)%nat -> (length set < qf')%nat ->
  exists v b v' b',
    f_num_trees qf f = Some v /\ f_ambiguous qf f = Some b /\
    bf_num_trees sg set' (length input) qf' = QVal v' /\ bf_ambiguous sg set' (length input) qf' = QVal b' /\
    (v = 0 <-> v' = 0) /\ (v = -1 <-> v' = -1) /\ (v' <> -1 -> v <= v') /\ (b = true -> b' = true) /\
    (wf_grammar g -> twin_free g input -> v = v' /\ b = b').
Proof.
  intros ord ord' fuel fuel' input g root ms ms' mn mn' f sg set set' qf qf' O O' Ef Eb P Q Q'. rewrite (Permutation_length P) in Q'.
  destruct (bsr_forest _ _ _ _ _ _ _ _ _ O' Eb) as (f0 & E0 & SF). pose proof (iworld_ok _ _ _ _ _ _ _ _ _ _ _ O' Eb P E0 SF) as H.
  pose proof (sf_sg _ _ _ _ _ _ SF) as Sg. pose proof (forest_core_ok _ _ _ _ _ _ _ _ (node_order_any ord' O') E0) as Co.
  destruct (C62_forest_order _ _ _ _ _ _ _ _ _ _ _ _ _ qf (Datatypes.S (length (f_nodes f0))) O (node_order_any ord' O') Ef E0 Q ltac:(lia)) as (_ & _ & _ & -> & ->).
  clear Q Ef ms mn f qf ord O fuel.
  assert (Ev : f_valid f0 = bsr_valid sg (length input) set') by (rewrite (sf_valid _ _ _ _ _ _ SF); apply valid_perm; auto).
  destruct (f_valid f0) eqn:V.
  - symmetry in Ev. destruct (forest_runs input f0 (Datatypes.S (length (f_nodes f0))) Co ltac:(lia) V) as (v & b & Nv & Nb & C1 & C2 & C3). rewrite Sg in C1, C2.
    destruct (count_runs _ _ _ _ H Ev _ Q') as (v0 & st & _ & Nv'). remember (if snd st then -1 else v0) as v' eqn:X. clear X v0 st.
    destruct (amb_runs _ _ _ _ H Ev _ Q') as (b' & _ & _ & Nb'). exists v, b, v', b'. split; auto. split; auto. split; auto. split; auto.
    pose proof (num_cycle _ _ _ _ H Ev _ Q') as C1'. rewrite Nv' in C1'.
    pose proof (fun X => num_exact _ _ _ _ H Ev _ Q' v' Nv' X) as C2'. pose proof (amb_num _ _ _ _ H Ev _ Q') as C3'. rewrite Nv', Nb' in C3'.
    pose proof (fun X => num_pos _ _ _ _ H Ev _ Q' v' Nv' X) as Pos'.
    pose proof (w_tbl _ _ _ _ H) as T. pose proof (w_ok _ _ _ _ H) as OK. pose proof (w_term _ _ _ _ H) as TP.
    assert (Hu : U (f_nodes f0) (QS (sg_start sg) 0 (length input))) by (apply (w_known _ _ _ _ H); auto).
    pose proof (cycle_same sg input (f_nodes f0) set' T OK TP _ Hu) as Cy. cbn [nk] in Cy.
    assert (M : v = -1 <-> v' = -1).
    { rewrite C1, <- Cy. unfold bsr_reach, bsr_below in C1'. rewrite <- C1'. split; congruence. }
    assert (Le : v' <> -1 -> v <= v' /\ (inj_elems sg (f_nodes f0) set' -> v = v')).
    { intros Nm. assert (Nm' : v <> -1) by tauto. apply (cnt_le sg input (f_nodes f0) set' T OK TP (QS (sg_start sg) 0 (length input))); auto. }
    assert (Pos : v <> -1 -> 1 <= v).
    { intros Nm. destruct (C2 Nm) as (_ & l & _ & <- & Hl). assert (Nm' : v' <> -1) by tauto. destruct (C2' Nm') as (_ & l' & _ & Lv & Hl').
      specialize (Pos' Nm'). destruct l' as [|u l']; [cbn in Lv; lia|]. pose proof (conv_unf sg input (f_nodes f0) set' T OK TP u _ Hu (proj1 (Hl' u) (or_introl eq_refl))) as Cu.
      apply Hl in Cu. destruct l; [destruct Cu|cbn; lia]. }
    assert (Am : b = true -> b' = true).
    { intros ->. destruct b'; auto. exfalso. assert (v' = 1) by (assert (QVal v' = QVal 1) as X by (apply C3'; auto); congruence). subst v'.
      destruct (Le ltac:(lia)) as [L _]. assert (v = 1) by (specialize (Pos ltac:(intros ->; destruct M; lia)); lia). apply C3 in H0. discriminate. }
    split; [|split; [exact M|split; [intros X; apply Le; auto|split; [exact Am|]]]].
    { split; intros ->; exfalso; [specialize (Pos ltac:(lia))|specialize (Pos' ltac:(lia))]; lia. }
    intros Wg TF. assert (Eq : v = v').
    { destruct (Z.eq_dec v' (-1)) as [->|Nm]; [apply M; auto|]. apply Le; auto.
      pose proof (parse_bsr_ok _ _ _ _ _ _ _ _ _ Eb) as (C & _). destruct (compile_ok_represents _ _ _ _ _ C) as [idx R].
      apply (twins_inj sg input (f_nodes f0) set' T OK). eapply lowered_no_twins; eauto. }
    split; auto. subst v'. destruct b, b'; auto; [discriminate (Am eq_refl)|].
    exfalso. assert (v = 1) by (apply C3; auto). subst v. assert (X : QVal true = QVal false) by (apply C3'; auto). discriminate.
  - exists 0, false, 0, false. unfold f_num_trees, f_ambiguous, bf_num_trees, q_num_trees, bf_ambiguous, q_ambiguous.
    rewrite (fc_root _ _ Co), V, (w_valid _ _ _ _ H), <- Ev. cbn [qbind]. repeat (split; auto); lia.
Qed.

(** *** A check for twins *)
Definition leaf_sym (x : option rep) : ssym := match x with None => SEps | Some r => STerm (rep_elem r) end.
Definition one_nameb (r r' : rep) : bool :=
  if once r then
    if once r' then
      match rep_elem r, rep_elem r' with
      | ERule n, ERule m => String.eqb (lower n) (lower m)
      | EGroup a, EGroup b => String.eqb (elem_string (EGroup a)) (elem_string (EGroup b))
      | EOption a, EOption b => String.eqb (elem_string (EOption a)) (elem_string (EOption b))
      | _, _ => false
      end
    else false
  else if once r' then false else String.eqb (rep_string r) (rep_string r').
Definition twinb (input : list Z) (x y : option rep) : bool :=
  ((leaf x && leaf y && existsb (fun i => match match_sym (leaf_sym x) input i, match_sym (leaf_sym y) input i with Some j, Some j' => Nat.eqb j j' | _, _ => false end)
                          (seq 0 (Datatypes.S (length input)))) ||
   match x, y with Some r, Some r' => one_nameb r r' | _, _ => false end)%bool.
Fixpoint all2b {A} (f : A -> A -> bool) (l l' : list A) : bool :=
  match l, l' with [], [] => true | x :: l, y :: l' => (f x y && all2b f l l')%bool | _, _ => false end.
Definition alt_free (input : list Z) (a : alternation) : bool :=
  forallb (fun i => forallb (fun j => (Nat.eqb i j || match nth_error a i, nth_error a j with
    | Some c, Some d => negb (Nat.leb (length c) 2 && all2b (twinb input) (children c) (children d))
    | _, _ => true end)%bool) (seq 0 (length a))) (seq 0 (length a)).
Fixpoint elem_free (input : list Z) (e : elem) : bool :=
  match e with
  | EGroup a => (alt_free input a && forallb (fun c => forallb (rep_free input) c) a)%bool
  | EOption a => (alt_free input ([] :: a) && forallb (fun c => forallb (rep_free input) c) a)%bool
  | _ => true
  end
with rep_free (input : list Z) (r : rep) : bool := match r with Rep _ _ e => elem_free input e end.
Definition twin_freeb (g : grammar) (input : list Z) : bool :=
  forallb (fun r => (alt_free input (rule_alt r) && forallb (forallb (rep_free input)) (rule_alt r))%bool) (g ++ core_rules).

Lemma covers_match g input x i j : owf x -> leaf x = true -> (i <= length input)%nat -> covers g input x i j -> match_sym (leaf_sym x) input i = Some j.
Proof.
  destruct x as [[mn mx e]|]; cbn [leaf covers leaf_sym match_sym rep_elem owf]; [|intros _ _ _ ->; auto].
  intros Wr Lf Hi (w & Iw & Sp). apply andb_true_iff in Lf as [On Te]. inversion Wr; subst. apply (match_term_spec g e); auto. exists w. split; auto. eapply in_once; eauto.
Qed.
Lemma twinb_ok g input x y : owf x -> owf y -> twin g input x y -> twinb input x y = true.
Proof.
  intros Wx Wy [(Lx & Ly & i & j & Hi & Cx & Cy)|(r & r' & -> & -> & N)]; unfold twinb; apply orb_true_iff; [left|right].
  - rewrite Lx, Ly. cbn [andb]. apply existsb_exists. exists i. split; [apply in_seq; lia|]. rewrite (covers_match g input x i j), (covers_match g input y i j) by auto. apply Nat.eqb_refl.
  - unfold one_name in N. unfold one_nameb. destruct (once r), (once r'); try contradiction; [|apply String.eqb_eq; auto].
    destruct (rep_elem r), (rep_elem r'); try contradiction; apply String.eqb_eq; auto.
Qed.
Lemma alt_free_ok g input a : (forall c x, In c a -> In x c -> wf_rep x) -> alt_free input a = true ->
  forall i j c d, i <> j -> nth_error a i = Some c -> nth_error a j = Some d -> (length c <= 2)%nat -> ~ Forall2 (twin g input) (children c) (children d).
Proof.
  intros Wa H i j c d Ne Nc Nd L F. unfold alt_free in H. unfold alternation, concatenation in *. rewrite forallb_forall in H.
  assert (Li : (i < length a)%nat) by (apply nth_error_Some; congruence). assert (Lj : (j < length a)%nat) by (apply nth_error_Some; congruence).
  specialize (H i (proj2 (in_seq _ _ _) (conj (Nat.le_0_l i) Li))). rewrite forallb_forall in H. specialize (H j (proj2 (in_seq _ _ _) (conj (Nat.le_0_l j) Lj))). rewrite Nc, Nd in H.
  apply orb_true_iff in H as [H|H]; [apply Nat.eqb_eq in H; auto|]. apply negb_true_iff in H. apply andb_false_iff in H as [H|H]; [apply Nat.leb_gt in H; lia|].
  apply nth_error_In in Nc, Nd. pose proof (children_wf c (fun x => Wa c x Nc)) as Wc. pose proof (children_wf d (fun x => Wa d x Nd)) as Wd.
  revert H Wc Wd. induction F as [|x y l l' T F IH]; cbn [all2b]; [discriminate|]. intros H Wc Wd. inversion Wc; inversion Wd; subst.
  rewrite (twinb_ok g input x y) in H by auto. auto.
Qed.
Lemma occ_free g input : wf_grammar g -> twin_freeb g input = true ->
  (forall e, occ_elem g e -> elem_free input e = true) /\ (forall r, occ_rep g r -> rep_free input r = true).
Proof.
  intros W H. unfold twin_freeb in H. rewrite forallb_forall in H.
  assert (A : forall mn mx e, occ_rep g (Rep mn mx e) -> rep_free input (Rep mn mx e) = true -> elem_free input e = true) by auto.
  assert (B : forall r c x, In r (g ++ core_rules) -> In c (rule_alt r) -> In x c -> rep_free input x = true).
  { intros r c x Ir Ic Ix. specialize (H r Ir). apply andb_true_iff in H as [_ H]. rewrite forallb_forall in H. specialize (H c Ic). rewrite forallb_forall in H. auto. }
  assert (C : forall a c x, elem_free input (EGroup a) = true -> In c a -> In x c -> rep_free input x = true).
  { intros a c x E Ic Ix. cbn [elem_free] in E. apply andb_true_iff in E as [_ E]. rewrite forallb_forall in E. specialize (E c Ic). rewrite forallb_forall in E. auto. }
  assert (D : forall a c x, elem_free input (EOption a) = true -> In c a -> In x c -> rep_free input x = true).
  { intros a c x E Ic Ix. cbn [elem_free] in E. apply andb_true_iff in E as [_ E]. rewrite forallb_forall in E. specialize (E c Ic). rewrite forallb_forall in E. auto. }
  split.
  - apply (occ_elem_mut g (fun e => elem_free input e = true) (fun r => rep_free input r = true)); intros; eauto.
  - apply (occ_rep_mut g (fun e => elem_free input e = true) (fun r => rep_free input r = true)); intros; eauto.
Qed.
Theorem twin_freeb_ok : forall g input, wf_grammar g -> twin_freeb g input = true -> twin_free g input.
Proof.
  intros g input W H a i j c d Al. destruct (occ_free g input W H) as [Oe Or]. assert (Wo : forall r, occ_rep g r -> wf_rep r) by (apply (wf_occ g W)).
  destruct Al as [(r & Ir & ->)|[Oc|(b & Oc & ->)]]; apply alt_free_ok.
  - intros c' x Ic Ix. apply Wo. eapply occ_rep_rule; eauto.
  - unfold twin_freeb in H. rewrite forallb_forall in H. specialize (H r Ir). apply andb_true_iff in H. tauto.
  - intros c' x Ic Ix. apply Wo. eapply occ_rep_group; eauto.
  - apply Oe in Oc. cbn [elem_free] in Oc. apply andb_true_iff in Oc. tauto.
  - intros c' x [<-|Ic] Ix; [destruct Ix|]. apply Wo. eapply occ_rep_option; eauto.
  - apply Oe in Oc. cbn [elem_free] in Oc. apply andb_true_iff in Oc. tauto.
Qed.

(** The grammars "catalan" and "infamb" of invariants_test.go:44-46, and one with an
    option and two alternates that start alike. *)
Definition g_cat : grammar := [mkRule "a" [[Rep 1 1 (ERule "a"); Rep 1 1 (ERule "a")]; [Rep 1 1 (EChar false [97])]]].
Definition g_infamb : grammar := [mkRule "a" [[Rep 1 1 (ERule "a")]; [Rep 1 1 (EChar false [97])]]].
Definition g_opt : grammar := [mkRule "a" [[Rep 0 inf (EOption [[Rep 1 1 (EChar false [120])]]); Rep 1 1 (ERule "b")]; [Rep 1 1 (ERule "b")]; [Rep 1 1 (EChar false [121]); Rep 1 1 (EChar false [122])]];
  mkRule "b" [[Rep 1 1 (EChar false [121])]; [Rep 1 1 (EChar false [122])]]].
Example C64_case :
  (exists f sg set, parse_forest (fun _ l => l) 400 (bytes "aaaa") g_cat "a" default_max_slots 0 = PF_ok f /\ (length (f_nodes f) < 400)%nat /\
     parse_bsr (fun _ l => l) 400 (bytes "aaaa") g_cat "a" default_max_slots 0 = BSR_ok sg set /\ (length set < 400)%nat /\
     twin_free g_cat (bytes "aaaa") /\ f_num_trees 400 f = Some 5 /\ bf_num_trees sg (rev set) 4 400 = QVal 5) /\
  (exists f sg set, parse_forest (fun _ l => l) 400 (bytes "a") g_infamb "a" default_max_slots 0 = PF_ok f /\ (length (f_nodes f) < 400)%nat /\
     parse_bsr (fun _ l => l) 400 (bytes "a") g_infamb "a" default_max_slots 0 = BSR_ok sg set /\ (length set < 400)%nat /\
     twin_free g_infamb (bytes "a") /\ f_num_trees 400 f = Some (-1) /\ bf_num_trees sg set 1 400 = QVal (-1)) /\
  twin_free g_opt (bytes "xyz") /\ ~ twin_free g_twice (bytes "x").
Proof.
  split; [|split; [|split]].
  - eexists; eexists; eexists. split; [vm_compute; reflexivity|]. split; [vm_compute; lia|]. split; [vm_compute; reflexivity|]. split; [vm_compute; lia|].
    split; [apply twin_freeb_ok; [apply wf_grammarb_spec|]; vm_compute; reflexivity|]. split; vm_compute; reflexivity.
  - eexists; eexists; eexists. split; [vm_compute; reflexivity|]. split; [vm_compute; lia|]. split; [vm_compute; reflexivity|]. split; [vm_compute; lia|].
    split; [apply twin_freeb_ok; [apply wf_grammarb_spec|]; vm_compute; reflexivity|]. split; vm_compute; reflexivity.
  - apply twin_freeb_ok; [apply wf_grammarb_spec|]; vm_compute; reflexivity.
  - intros H. destruct g_twice_ok as (W & _). eapply (H (rule_alt (mkRule "a" [[Rep 1 1 (EChar false [120])]; [Rep 1 1 (EChar false [120])]])) 0%nat 1%nat); try reflexivity; [left; eexists; split; [left; reflexivity|reflexivity]|lia|cbn; lia|].
    constructor; [|constructor]. left. split; auto. split; auto. exists 0%nat, 1%nat. split; [cbn; lia|].
    assert (C : covers g_twice (bytes "x") (Some (Rep 1 1 (EChar false [120]))) 0 1); [|split; exact C].
    assert (M : match_term (EChar false [120]) (bytes "x") 0 = Some 1%nat) by reflexivity. apply (match_term_spec g_twice) in M as (w & Iw & Sp); [|reflexivity|constructor|cbn; lia].
    exists w. split; auto. apply in_once; auto.
Qed.

(** The unconditional claim is false: a = "x" / "x" has one tree for ParseForest, which
    keeps one of two packed nodes with equal children (addPack, sppf.go:252-270), and two
    for ParseBSR. *)
Theorem C64_engines_agree_refuted : exists g root input f sg set,
  wf_grammar g /\ lex_grammar g = true /\ told_apart g /\
  parse_forest (fun _ l => l) 400 input g root default_max_slots 0 = PF_ok f /\
  parse_bsr (fun _ l => l) 400 input g root default_max_slots 0 = BSR_ok sg set /\
  f_num_trees 400 f = Some 1 /\ f_ambiguous 400 f = Some false /\
  bf_num_trees sg set (length input) 400 = QVal 2 /\ bf_ambiguous sg set (length input) 400 = QVal true.
Proof.
  destruct g_twice_ok as (W & L & F). eexists g_twice, "a", (bytes "x"), _, _, _. split; [exact W|]. split; [exact L|]. split; [exact F|].
  split; [vm_compute; reflexivity|]. split; [vm_compute; reflexivity|]. split; [vm_compute; reflexivity|]. split; [vm_compute; reflexivity|]. split; vm_compute; reflexivity.
Qed.

Print Assumptions C64_engines_agree_partial.
Print Assumptions twin_freeb_ok.
Print Assumptions C64_engines_agree_refuted.
