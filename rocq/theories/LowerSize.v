(** The size of the slotted grammar does not depend on the bounds of the repetitions.
    But for [size], its definitions are means of proof and model no code. *)
From Coq Require Import ZArith Arith String Ascii Bool List Lia.
From Verif Require Import Syntax Spec Utf8 Num Term Printer Slots PropTerm Gll GllUniv LowerProof LowerLang LeftRec Occ
  Cost CostProof QueryCostProof QueryCostLow.
Import ListNotations.
Local Open Scope string_scope.
Local Open Scope list_scope.
Local Open Scope nat_scope.

(** (specification) The size of a definition: its concatenations, repetitions, groups, options
    and values, counted; a bound of a repetition counts for nothing. *)
Fixpoint elem_size (e : elem) : nat :=
  match e with
  | EGroup a | EOption a => 1 + list_sum (map (fun c => 1 + list_sum (map rep_size c)) a)
  | EChar _ vs => length vs
  | ENum _ _ ns => length ns
  | _ => 0
  end
with rep_size (r : rep) : nat :=
  match r with Rep _ _ e => 1 + elem_size e end.
(** (specification) The size of an alternation. *)
Definition alt_size (a : alternation) : nat := list_sum (map (fun c => 1 + list_sum (map rep_size c)) a).
(** (specification) The size of a grammar, with the core rules (rules.go:7-85), which a
    definition may refer to. *)
Definition size (g : grammar) : nat := list_sum (map (fun r => alt_size (rule_alt r)) (g ++ core_rules)).

(** *** Choosing one thing for each number below a bound *)
Lemma choose {A} (P : nat -> A -> Prop) n : (forall i, i < n -> exists x, P i x) ->
  exists l, length l = n /\ forall i x, nth_error l i = Some x -> P i x.
Proof.
  induction n as [|n IH]; intros H.
  - exists []. split; auto. intros [|i]; discriminate.
  - destruct IH as (l & L & E); [intros i I; apply H; lia|]. destruct (H n ltac:(lia)) as [x Px].
    exists (l ++ [x]). rewrite app_length. split; [cbn; lia|]. intros i y Y.
    destruct (Nat.lt_ge_cases i n) as [Lt|Ge].
    + rewrite nth_error_app1 in Y by lia. auto.
    + rewrite nth_error_app2 in Y by lia. destruct (i - length l) as [|d] eqn:D; cbn in Y; [|destruct d; discriminate].
      injection Y as <-. replace i with n by lia. exact Px.
Qed.
Lemma keyed_nodup {A} (key : A -> string) idx l : (forall i x, nth_error l i = Some x -> assoc (key x) idx = Some i) -> NoDup l.
Proof.
  intros H. apply NoDup_nth_error. intros i j I E. destruct (nth_error l i) as [x|] eqn:X.
  - symmetry in E. apply H in X. apply H in E. congruence.
  - apply nth_error_None in X. lia.
Qed.

(** *** The keys of the index *)
Section Keys.
  Variable g : grammar.
  Variable root : string.
  Definition elem_key (e : elem) : string :=
    match e with
    | ERule n => key_of (IRule n)
    | EGroup a => key_of (IGrp a)
    | EOption a => key_of (IOpt a)
    | _ => ""
    end.
  Definition all_keys : list string :=
    key_of (IRule root) :: flat_map (fun x => [key_of (IRep x); elem_key (rep_elem x)]) (grammar_reps g).
  Lemma all_keys_len : length all_keys = 1 + 2 * length (grammar_reps g).
  Proof.
    unfold all_keys. cbn [length]. f_equal. induction (grammar_reps g) as [|x l IH]; [reflexivity|]. cbn [flat_map app length]. rewrite IH. lia.
  Qed.
  Lemma rep_key_in x : occ_rep g x -> In (key_of (IRep x)) all_keys /\ In (elem_key (rep_elem x)) all_keys.
  Proof.
    intros O. apply occ_rep_listed in O. split; right; apply in_flat_map; exists x; (split; [exact O|]); cbn; auto.
  Qed.
  Lemma elem_key_in e : occ_elem g e -> In (elem_key e) all_keys.
  Proof. intros O. destruct O as [mn mx e O]. apply rep_key_in in O. exact (proj2 O). Qed.

  Variable max : Z.
  Definition plain (nt : sgNT) : Prop := nt_isrep nt = false -> nt_repmin nt = 0%Z /\ nt_repmax nt = 0%Z.
  (** What every state of the lowering satisfies. *)
  Record listed (st : lstate) : Prop := {
    ld_keys : forall k id, assoc k (ls_index st) = Some id -> In k all_keys;
    ld_over : ls_over st = true -> (0 < max)%Z /\ (max <= Z.of_nat (length (ls_nts st)))%Z;
    ld_plain : Forall plain (ls_nts st);
    ld_nodup : NoDup (map fst (ls_index st));
    ld_len : length (ls_index st) = length (ls_nts st) }.

  Lemma listed_reserve k st id ex st' : listed st -> In k all_keys -> reserve k st = (id, ex, st') -> listed st'.
  Proof.
    intros H I. unfold reserve. destruct (assoc k (ls_index st)) eqn:E; intros X; injection X as <- <- <-; auto.
    destruct H as [H1 H2 H3 H4 H5]. split; cbn [ls_index ls_over ls_nts].
    - intros k' id'. cbn [assoc]. destruct (String.eqb k' k) eqn:Q; [|apply H1]. apply String.eqb_eq in Q as ->. auto.
    - intros O. specialize (H2 O). rewrite app_length. lia.
    - apply Forall_app. split; auto. constructor; [|constructor]. intros _. split; reflexivity.
    - cbn [map fst]. constructor; auto. intros J. clear -E J. induction (ls_index st) as [|[k' v] l IH]; [easy|]. cbn [assoc map fst In] in *.
      destruct (String.eqb_spec k k'); [discriminate|]. destruct J as [J|J]; [congruence|auto].
    - rewrite app_length. cbn [length]. lia.
  Qed.
  Lemma listed_budget st b st' : listed st -> budget_exceeded max st = (b, st') -> listed st'.
  Proof.
    intros [H1 H2 H3 H4 H5] X. injection X as <- <-. split; cbn [ls_index ls_over ls_nts]; auto.
    intros O. apply orb_true_iff in O as [O|O]; auto. apply andb_true_iff in O as [O1 O2]. lia.
  Qed.
  Lemma listed_set id x st : plain x -> listed st -> listed (set_nt id x st).
  Proof.
    intros P [H1 H2 H3 H4 H5]. split; cbn [set_nt ls_index ls_over ls_nts]; rewrite ?set_nth_len; auto.
    clear H1 H2 H4 H5. revert id. induction H3 as [|y l Py Pl IH]; intros [|id]; cbn [set_nth]; constructor; auto.
  Qed.

  Section Rules.
    Variable lrule : string -> lstate -> option (nat * lstate).
    Hypothesis lrule_ok : forall n st id st', In (key_of (IRule n)) all_keys -> listed st -> lrule n st = Some (id, st') -> listed st'.

    Lemma mapM_listed {A B} (f : A -> lstate -> option (B * lstate)) l : Forall (fun x => forall st y st', listed st -> f x st = Some (y, st') -> listed st') l ->
      forall st ys st', listed st -> mapM f l st = Some (ys, st') -> listed st'.
    Proof.
      induction 1 as [|x l F _ IH]; cbn [mapM]; intros st ys st' H E; [injection E as _ <-; auto|].
      destruct (f x st) as [[y s1]|] eqn:E1; [|discriminate]. destruct (mapM f l s1) as [[zs s2]|] eqn:E2; [|discriminate].
      injection E as _ <-. eapply IH; [|exact E2]. eapply F; eauto.
    Qed.
    Lemma cats_listed (a : alternation) :
      Forall (Forall (fun r => occ_rep g r -> forall st s st', listed st -> lower_rep max lrule r st = Some (s, st') -> listed st')) a ->
      (forall c x, In c a -> In x c -> occ_rep g x) -> forall st ys st', listed st ->
      mapM (fun c st => match mapM (lower_rep max lrule) c st with None => None | Some (seq, st') => Some (nonempty_seq seq, st') end) a st = Some (ys, st') ->
      listed st'.
    Proof.
      intros F O. apply mapM_listed. rewrite Forall_forall in *. intros c Hc st y st' H E.
      destruct (mapM (lower_rep max lrule) c st) as [[sq s1]|] eqn:E1; [|discriminate]. injection E as _ <-.
      eapply mapM_listed; [|exact H|exact E1]. specialize (F c Hc). rewrite Forall_forall in *. intros x Hx. apply F; eauto.
    Qed.
    Lemma lower_listed :
      (forall e, occ_elem g e -> forall st s st', listed st -> lower_elem max lrule e st = Some (s, st') -> listed st') /\
      (forall r, occ_rep g r -> forall st s st', listed st -> lower_rep max lrule r st = Some (s, st') -> listed st').
    Proof.
      apply elem_rep_ind.
      - intros n O st s st' H E. cbn [lower_elem] in E. destruct (lrule n st) as [[id s1]|] eqn:L; [|discriminate]. injection E as _ <-.
        eapply lrule_ok; eauto. exact (elem_key_in _ O).
      - intros a F O st s st' H E. cbn [lower_elem] in E. pose proof (elem_key_in _ O) as K.
        destruct (reserve _ st) as [[id ex] s1] eqn:R. pose proof (listed_reserve _ _ _ _ _ H K R) as H1.
        destruct ex; [injection E as _ <-; auto|]. destruct (budget_exceeded max s1) as [b s2] eqn:B. pose proof (listed_budget _ _ _ H1 B) as H2.
        destruct b; [injection E as _ <-; auto|]. destruct (mapM _ a s2) as [[al s3]|] eqn:M; [|discriminate]. injection E as _ <-.
        apply listed_set; [unfold plain; cbn; auto; discriminate|]. eapply cats_listed; [exact F| |exact H2|exact M]. intros. eapply occ_rep_group; eauto.
      - intros a F O st s st' H E. cbn [lower_elem] in E. pose proof (elem_key_in _ O) as K.
        destruct (reserve _ st) as [[id ex] s1] eqn:R. pose proof (listed_reserve _ _ _ _ _ H K R) as H1.
        destruct ex; [injection E as _ <-; auto|]. destruct (budget_exceeded max s1) as [b s2] eqn:B. pose proof (listed_budget _ _ _ H1 B) as H2.
        destruct b; [injection E as _ <-; auto|]. destruct (mapM _ a s2) as [[al s3]|] eqn:M; [|discriminate]. injection E as _ <-.
        apply listed_set; [unfold plain; cbn; auto; discriminate|]. eapply cats_listed; [exact F| |exact H2|exact M]. intros. eapply occ_rep_option; eauto.
      - intros sn vs O st s st' H E. cbn [lower_elem] in E. injection E as _ <-. auto.
      - intros b sn ns O st s st' H E. cbn [lower_elem] in E. injection E as _ <-. auto.
      - intros vs O st s st' H E. cbn [lower_elem] in E. injection E as _ <-. auto.
      - intros mn mx e IH O st s st' H E. cbn [lower_rep] in E. pose proof (rep_key_in _ O) as [K _].
        assert (Oe : occ_elem g e) by (econstructor; exact O).
        destruct ((mn =? 1)%Z && (mx =? 1)%Z)%bool; [eapply IH; eauto|].
        destruct (reserve _ st) as [[id ex] s1] eqn:R. pose proof (listed_reserve _ _ _ _ _ H K R) as H1.
        destruct ex; [injection E as _ <-; auto|]. destruct (budget_exceeded max s1) as [b s2] eqn:B. pose proof (listed_budget _ _ _ H1 B) as H2.
        destruct b; [injection E as _ <-; auto|]. destruct (negb _ && _)%bool; [injection E as _ <-; auto|].
        match type of E with match ?t with _ => _ end = _ => change t with (lower_elem max lrule e s2) in E end.
        destruct (lower_elem max lrule e s2) as [[es s3]|] eqn:M; [|discriminate]. injection E as _ <-.
        apply listed_set; [unfold plain; cbn; auto; discriminate|]. eapply IH; eauto.
    Qed.
  End Rules.

  Lemma rule_listed f : forall n st id st', In (key_of (IRule n)) all_keys -> listed st -> lower_rule g max f n st = Some (id, st') -> listed st'.
  Proof.
    induction f as [|f IH]; intros n st id st' K H E; [discriminate|]. cbn [lower_rule] in E.
    destruct (reserve _ st) as [[id1 ex] s1] eqn:R. pose proof (listed_reserve _ _ _ _ _ H K R) as H1.
    destruct ex; [injection E as _ <-; auto|]. destruct (budget_exceeded max s1) as [b s2] eqn:B. pose proof (listed_budget _ _ _ H1 B) as H2.
    destruct b; [injection E as _ <-; auto|]. destruct (get_rule n g) as [r|] eqn:G; [|injection E as _ <-; auto].
    unfold lower_alts in E. destruct (mapM _ _ s2) as [[al s3]|] eqn:M; [|discriminate]. injection E as _ <-.
    apply listed_set; [unfold plain; cbn; auto; discriminate|]. eapply (cats_listed (lower_rule g max f)); [|clear M|exact H2|exact M].
    - apply Forall_forall. intros c _. apply Forall_forall. intros x _. apply (proj2 (lower_listed _ IH)).
    - intros c x Hc Hx. eapply occ_rep_rule; eauto. eapply get_rule_in_list; eauto.
  Qed.
  Lemma init_listed : listed ls_init.
  Proof. split; cbn; try discriminate; constructor. Qed.
End Keys.

(** *** The number of nonterminals *)
Lemma index_len g root max st : listed g root max st -> length (ls_nts st) <= 1 + 2 * length (grammar_reps g).
Proof.
  intros L. rewrite <- (ld_len _ _ _ _ L), <- (all_keys_len g root), <- (map_length fst). apply NoDup_incl_length; [apply L|].
  intros k K. assert (E : exists id, assoc k (ls_index st) = Some id).
  { clear -K. induction (ls_index st) as [|[k' v] l IH]; [easy|]. cbn [assoc map fst In] in *.
    destruct (String.eqb_spec k k') as [->|N]; [eauto|]. apply IH. destruct K as [K|K]; [congruence|exact K]. }
  destruct E as [id E]. eapply (ld_keys _ _ _ _ L). exact E.
Qed.
Lemma lowered g root max fuel id st : lower_rule g max fuel root ls_init = Some (id, st) -> listed g root max st.
Proof. intros E. eapply rule_listed; [|apply init_listed|exact E]. left. reflexivity. Qed.

Lemma sum_pointwise {A B} (f : A -> nat) (h : B -> nat) : forall l m, length l = length m ->
  (forall i x y, nth_error l i = Some x -> nth_error m i = Some y -> f x <= h y) -> list_sum (map f l) <= list_sum (map h m).
Proof.
  induction l as [|x l IH]; intros [|y m] E H; try discriminate; [cbn; lia|]. cbn [map]. change (list_sum (?a :: ?b)) with (a + list_sum b).
  pose proof (H 0 x y eq_refl eq_refl). injection E as E. specialize (IH m E (fun i => H (S i))). lia.
Qed.

(** *** The weight of the nonterminals: their slots and the symbols and values of their productions *)
Definition alts_weight (al : list (list ssym)) : nat := list_sum (map (fun p => S (length p) + prod_weight p) al).
Definition weight (nts : list sgNT) : nat := list_sum (map (fun nt => alts_weight (nt_alts nt)) nts).

Definition vals (e : elem) : nat := match e with EChar _ vs => length vs | ENum _ _ ns => length ns | _ => 0 end.
Definition cat_w (c : concatenation) : nat := 3 + list_sum (map (fun r => 2 + vals (rep_elem r)) c).
Definition alt_w (a : alternation) : nat := list_sum (map cat_w a).

Inductive nit := NRule (r : rule) | NElem (e : elem) | NRep (x : rep).
Definition nit_key (n : nit) : string :=
  match n with NRule r => key_of (IRule (rule_name r)) | NElem e => elem_key e | NRep x => key_of (IRep x) end.
Definition elem_w (e : elem) : nat := match e with EGroup a => alt_w a | EOption a => 3 + alt_w a | _ => 0 end.
Definition nit_w (n : nit) : nat :=
  match n with NRule r => alt_w (rule_alt r) | NElem e => elem_w e | NRep x => 8 + vals (rep_elem x) end.
Definition nits (g : grammar) : list nit :=
  map NRule (g ++ core_rules) ++ flat_map (fun x => [NRep x; NElem (rep_elem x)]) (grammar_reps g).

Lemma elem_sym_cost idx e s : elem_sym idx e s -> match_cost s <= vals e.
Proof. destruct e; cbn [elem_sym]; intros H; try (destruct H as (id & -> & _)); subst; cbn; lia. Qed.
Lemma cat_sym_w idx c p : cat_sym idx c p -> S (length p) + prod_weight p <= cat_w c.
Proof.
  intros (sq & F & ->). assert (H : length sq + prod_weight sq <= list_sum (map (fun r => 2 + vals (rep_elem r)) c)).
  { induction F as [|r s c sq R F IH]; [cbn; lia|].
    change (prod_weight (s :: sq)) with (S (match_cost s) + prod_weight sq). cbn [length map].
    change (list_sum (?a :: ?b)) with (a + list_sum b).
    assert (C : match_cost s <= vals (rep_elem r)).
    { destruct R as [(_ & _ & R)|(_ & id & -> & _)]; [eapply elem_sym_cost; eauto|cbn; lia]. }
    lia. }
  unfold cat_w. destruct sq as [|s sq]; [cbn; lia|]. cbn [nonempty_seq]. lia.
Qed.
Lemma alts_sym_w idx a al : Forall2 (cat_sym idx) a al -> alts_weight al <= alt_w a.
Proof.
  induction 1 as [|c p a al H _ IH]; [cbn; lia|]. apply cat_sym_w in H.
  change (alts_weight (p :: al)) with (S (length p) + prod_weight p + alts_weight al).
  change (alt_w (c :: a)) with (cat_w c + alt_w a). lia.
Qed.

Lemma weight_le g root sg idx : represents g root sg idx -> weight (sg_nts sg) <= list_sum (map nit_w (nits g)).
Proof.
  intros Rp.
  destruct (choose (fun i n => assoc (nit_key n) idx = Some i /\ (nit_w n = 0 \/ In n (nits g)) /\
    exists nt, nth_error (sg_nts sg) i = Some nt /\ alts_weight (nt_alts nt) <= nit_w n) (length (sg_nts sg))) as (l & Ll & H).
  { intros i I. destruct (rp_surj _ _ _ _ Rp i I) as [k K]. destruct (rp_done _ _ _ _ Rp k i K) as (it & nt & Ek & Oc & N & M). subst k.
    destruct it as [n|a|a|x]; cbn [nt_matches occ_item] in M, Oc.
    - destruct (get_rule n g) as [r|] eqn:G.
      + exists (NRule r). split; [|split].
        * cbn [nit_key key_of]. rewrite (proj1 (get_rule_name _ _ _ G)). exact K.
        * right. apply in_app_iff. left. apply in_map. eapply get_rule_in_list; eauto.
        * exists nt. split; auto. cbn [nit_w]. eapply alts_sym_w. apply M.
      + exists (NElem (ERule n)). split; [exact K|]. split; [left; reflexivity|]. exists nt. split; auto. subst nt. cbn. lia.
    - exists (NElem (EGroup a)). split; [exact K|]. split.
      + right. apply in_app_iff. right. destruct Oc as [mn mx e O]. apply occ_rep_listed in O. apply in_flat_map. eexists. split; [exact O|]. cbn. auto.
      + exists nt. split; auto. cbn [nit_w elem_w]. eapply alts_sym_w. apply M.
    - exists (NElem (EOption a)). split; [exact K|]. split.
      + right. apply in_app_iff. right. destruct Oc as [mn mx e O]. apply occ_rep_listed in O. apply in_flat_map. eexists. split; [exact O|]. cbn. auto.
      + exists nt. split; auto. destruct M as (_ & al & E & F). rewrite E. apply alts_sym_w in F. cbn [nit_w elem_w].
        change (alts_weight ([SEps] :: al)) with (3 + alts_weight al). lia.
    - exists (NRep x). split; [exact K|]. split.
      + right. apply in_app_iff. right. destruct Oc as [Oc _]. apply occ_rep_listed in Oc. apply in_flat_map. eexists. split; [exact Oc|]. cbn. auto.
      + exists nt. split; auto. destruct x as [mn mx e]. destruct M as [(_ & _ & ->)|(_ & es & E & ->)]; [cbn; lia|].
        apply elem_sym_cost in E. cbn [nit_w rep_elem nt_alts].
        change (alts_weight [[SEps]; [es; SNonterm i]]) with (3 + (3 + (S (match_cost es) + 1) + 0)). lia. }
  assert (Nd : NoDup l) by (eapply (keyed_nodup nit_key); intros i n E; apply H in E; apply E).
  etransitivity; [|apply (sum_incl nit_w l (nits g) Nd)].
  - unfold weight. apply sum_pointwise; [auto|]. intros i nt n A B. apply H in B as (_ & _ & nt' & N & W). congruence.
  - intros n I. apply In_nth_error in I as [i I]. apply H in I. tauto.
Qed.

Lemma sum_flat {A B} (w : B -> nat) (f : A -> list B) l : list_sum (map w (flat_map f l)) = list_sum (map (fun x => list_sum (map w (f x))) l).
Proof. induction l as [|x l IH]; [reflexivity|]. cbn [flat_map map]. rewrite map_app, list_sum_app, IH. reflexivity. Qed.
Lemma sum_le {A} (f h : A -> nat) l : (forall x, In x l -> f x <= h x) -> list_sum (map f l) <= list_sum (map h l).
Proof.
  induction l as [|x l IH]; intros H; [cbn; lia|]. cbn [map]. change (list_sum (?a :: ?b)) with (a + list_sum b).
  pose proof (H x (or_introl eq_refl)). specialize (IH (fun y Y => H y (or_intror Y))). lia.
Qed.
Lemma sum_add {A} (f h : A -> nat) l : list_sum (map (fun x => f x + h x) l) = list_sum (map f l) + list_sum (map h l).
Proof. induction l as [|x l IH]; [reflexivity|]. cbn [map]. change (list_sum (?a :: ?b)) with (a + list_sum b). lia. Qed.
Lemma sum_mul {A} k (f : A -> nat) l : list_sum (map (fun x => k * f x) l) = k * list_sum (map f l).
Proof. induction l as [|x l IH]; [cbn; lia|]. cbn [map]. change (list_sum (?a :: ?b)) with (a + list_sum b). lia. Qed.

Definition rep_w (x : rep) : nat := 8 + vals (rep_elem x) + elem_w (rep_elem x).
Definition flat_w (l : list rep) : nat := list_sum (map rep_w l).

Lemma alt_flat a : Forall (Forall (fun r => 2 + vals (rep_elem r) + flat_w (r :: rep_reps r) <= 10 * rep_size r)) a ->
  alt_w a + flat_w (alt_reps a) <= 10 * alt_size a.
Proof.
  intros F. unfold alt_w, flat_w, alt_reps, alt_size. rewrite sum_flat, <- sum_add, <- sum_mul. apply sum_le.
  rewrite Forall_forall in F. intros c Hc. specialize (F c Hc). rewrite Forall_forall in F. unfold cat_w. rewrite sum_flat.
  pose proof (sum_le (fun r => 2 + vals (rep_elem r) + flat_w (r :: rep_reps r)) (fun r => 10 * rep_size r) c F) as Q.
  rewrite sum_mul, sum_add in Q. unfold flat_w in Q. lia.
Qed.
Lemma size_flat : (forall e, 2 * vals e + elem_w e + flat_w (elem_reps e) <= 10 * elem_size e) /\
  (forall r, 2 + vals (rep_elem r) + flat_w (r :: rep_reps r) <= 10 * rep_size r).
Proof.
  apply elem_rep_ind.
  - intros n. cbn. lia.
  - intros a F. apply alt_flat in F. change (elem_reps (EGroup a)) with (alt_reps a). change (elem_size (EGroup a)) with (1 + alt_size a).
    cbn [vals elem_w]. lia.
  - intros a F. apply alt_flat in F. change (elem_reps (EOption a)) with (alt_reps a). change (elem_size (EOption a)) with (1 + alt_size a).
    cbn [vals elem_w]. lia.
  - intros s vs. cbn [vals elem_w elem_reps elem_size]. change (flat_w []) with 0. lia.
  - intros b s ns. cbn [vals elem_w elem_reps elem_size]. change (flat_w []) with 0. lia.
  - intros vs. cbn. lia.
  - intros mn mx e H. change (rep_reps (Rep mn mx e)) with (elem_reps e). change (rep_size (Rep mn mx e)) with (1 + elem_size e).
    change (flat_w (Rep mn mx e :: elem_reps e)) with (8 + vals e + elem_w e + flat_w (elem_reps e)). cbn [rep_elem]. lia.
Qed.

Lemma nits_w g : list_sum (map nit_w (nits g)) <= 10 * size g.
Proof.
  unfold nits, size, grammar_reps. rewrite map_app, list_sum_app, map_map, sum_flat, sum_flat.
  change (fun x => list_sum (map nit_w [NRep x; NElem (rep_elem x)])) with (fun x => (8 + vals (rep_elem x)) + (elem_w (rep_elem x) + 0)).
  rewrite <- sum_add, <- sum_mul. apply sum_le. intros r _.
  assert (F : Forall (Forall (fun r => 2 + vals (rep_elem r) + flat_w (r :: rep_reps r) <= 10 * rep_size r)) (rule_alt r)).
  { apply Forall_forall. intros c _. apply Forall_forall. intros x _. apply size_flat. }
  apply alt_flat in F. etransitivity; [|exact F]. cbn [nit_w]. apply Nat.add_le_mono_l. unfold flat_w. apply sum_le. intros x _. unfold rep_w. lia.
Qed.

(** *** What the bounds of CostProof count *)
Lemma nS_weight sg : nS sg <= weight (sg_nts sg).
Proof.
  unfold nS, slots_univ, weight.
  assert (G : forall l l0, length (flat_map (fun X => match nth_error (l0 ++ l) X with
     | None => []
     | Some nt => flat_map (fun a => match nth_error (nt_alts nt) a with None => [] | Some p => map (mkSlot X a) (seq 0 (S (length p))) end) (seq 0 (length (nt_alts nt)))
     end) (seq (length l0) (length l))) <= list_sum (map (fun nt => alts_weight (nt_alts nt)) l)).
  { induction l as [|nt l IH]; intros l0; [cbn; lia|]. change (seq (length l0) (length (nt :: l))) with (length l0 :: seq (S (length l0)) (length l)).
    cbn [flat_map]. rewrite app_length. rewrite nth_error_app2, Nat.sub_diag by lia. cbn [nth_error].
    pose proof (alts_len (length l0) (nt_alts nt) []) as A. cbn [app length] in A. rewrite A.
    specialize (IH (l0 ++ [nt])). rewrite app_length, <- app_assoc in IH. cbn [length app] in IH. rewrite Nat.add_1_r in IH.
    cbn [map]. change (list_sum (?a :: ?b)) with (a + list_sum b). apply Nat.add_le_mono; [|exact IH].
    unfold alts_weight. apply sum_le. intros; lia. }
  exact (G (sg_nts sg) []).
Qed.
Lemma sum_in {A} (f : A -> nat) x l : In x l -> f x <= list_sum (map f l).
Proof.
  induction l as [|y l IH]; [easy|]. cbn [map]. change (list_sum (?a :: ?b)) with (a + list_sum b). intros [->|I]; [lia|]. specialize (IH I). lia.
Qed.
Lemma list_max_le x l : (forall y, In y l -> y <= x) -> list_max l <= x.
Proof. intros H. apply list_max_le. apply Forall_forall. exact H. Qed.
Lemma nP_weight sg : nP sg <= weight (sg_nts sg).
Proof.
  apply list_max_le. intros y I. apply in_map_iff in I as (p & <- & I). apply in_concat in I as (al & I & J). apply in_map_iff in I as (nt & <- & I).
  unfold weight. etransitivity; [|apply (sum_in _ _ _ I)]. unfold alts_weight.
  pose proof (sum_in (fun p => S (length p) + prod_weight p) p (nt_alts nt) J) as Q. cbn beta in Q. lia.
Qed.
Lemma nA_weight sg : nA sg <= 2 + weight (sg_nts sg).
Proof.
  unfold nA. apply Nat.add_le_mono_l. apply list_max_le. intros y I. apply in_map_iff in I as (nt & <- & I).
  unfold weight. etransitivity; [|apply (sum_in _ _ _ I)]. unfold alts_weight. induction (nt_alts nt) as [|p al IH]; [cbn; lia|].
  cbn [map length]. change (list_sum (?a :: ?b)) with (a + list_sum b). lia.
Qed.
Lemma nC_bound g root sg idx B : represents g root sg idx -> Forall plain (sg_nts sg) -> (0 <= B)%Z ->
  (forall x, occ_rep g x -> (0 <= rep_min x <= B)%Z /\ (rep_max x <= B)%Z) -> nC sg <= Z.to_nat B + 1.
Proof.
  intros Rp Pl B0 H. unfold nC, rcs_univ. rewrite map_length, seq_length.
  assert (Q : Forall (fun nt => (0 <= nt_repmin nt <= B)%Z /\ (nt_repmax nt <= B)%Z) (sg_nts sg)).
  { apply Forall_forall. rewrite Forall_forall in Pl. intros nt I. pose proof (Pl nt I) as P. apply In_nth_error in I as [i I].
    assert (L : i < length (sg_nts sg)) by (apply nth_error_Some; congruence).
    destruct (rp_surj _ _ _ _ Rp i L) as [k K]. destruct (rp_done _ _ _ _ Rp k i K) as (it & nt' & _ & Oc & N & M).
    assert (nt' = nt) by congruence. subst nt'.
    assert (Z : nt_isrep nt = false -> (0 <= nt_repmin nt <= B)%Z /\ (nt_repmax nt <= B)%Z) by (intros F; destruct (P F); lia).
    destruct it as [n|a|a|x]; cbn [nt_matches occ_item] in M, Oc.
    - apply Z. destruct (get_rule n g); [apply M|subst nt; reflexivity].
    - apply Z. apply M.
    - apply Z. apply M.
    - destruct x as [mn mx e]. destruct M as [(_ & _ & ->)|(_ & es & E & ->)]; [apply Z; reflexivity|]. destruct Oc as [Oc _]. apply H in Oc. exact Oc. }
  assert (R : (0 <= rc_lo sg)%Z /\ (rc_hi sg <= B)%Z).
  { unfold rc_lo, rc_hi. revert Q. generalize (sg_nts sg). intros l Q. induction Q as [|nt l' A _ IH]; cbn [fold_right]; lia. }
  lia.
Qed.
