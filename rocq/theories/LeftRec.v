(** Nullability and left recursion: leftrec.go. *)
From Coq Require Import ZArith Arith String Bool Relations Sorted List Lia.
From Verif Require Import Syntax Spec Deps Dag Cycle LowerLang PropTerm PropSem PropDag.
Import ListNotations.
Local Open Scope list_scope.

(** ** Model *)

(** The map [rules] of nullableRules (leftrec.go:19-29) is keyed by names in
    lower case; its keys, in an order of its own. *)
Definition all_names (g : grammar) : list string :=
  nodup string_dec (map (fun r => lower (rule_name r)) (g ++ core_rules)).

Section Nullable.
  Variable null : list string.               (* the map null, as the list of its true keys *)

  (** altNullable, repNullable, elemNullable (leftrec.go:43-79). *)
  Fixpoint elem_nullable (e : elem) : bool :=
    match e with
    | EOption _ => true
    | EGroup a => existsb (fun c => forallb (fun r => rep_nullable r) c) a
    | ERule n => mem_str (lower n) null
    | EChar _ vs => Nat.eqb (length vs) 0
    | ENum _ _ _ | EProse _ => false
    end
  with rep_nullable (r : rep) : bool :=
    match r with Rep mn _ e => (Z.eqb mn 0 || elem_nullable e)%bool end.
  (** altNullable (leftrec.go:43-57). *)
  Definition alt_nullable (a : alternation) : bool :=
    existsb (fun c => forallb (fun r => rep_nullable r) c) a.
End Nullable.

(** One round of the fixpoint loop (leftrec.go:31-39) over the rules in the
    order [names]; the result is whether something changed. *)
Fixpoint null_round (g : grammar) (names null : list string) : list string * bool :=
  match names with
  | [] => (null, false)
  | n :: names' =>
      match get_rule n g with
      | Some r =>
          if (negb (mem_str n null) && alt_nullable null (rule_alt r))%bool
          then (fst (null_round g names' (n :: null)), true)
          else null_round g names' null
      | None => null_round g names' null
      end
  end.

(** The fixpoint loop of nullableRules (leftrec.go:30-40); [ord] gives the iteration order of each
    round. *)
Fixpoint null_loop (fuel : nat) (g : grammar) (ord : nat -> list string -> list string) (t : nat) (null : list string) : option (list string) :=
  match fuel with
  | O => None
  | S f => let '(null', changed) := null_round g (ord t (all_names g)) null in
           if changed then null_loop f g ord (S t) null' else Some null'
  end.
(** nullableRules (leftrec.go:18-41). *)
Definition nullable_rules (g : grammar) (ord : nat -> list string -> list string) : option (list string) :=
  null_loop (S (length (all_names g))) g ord 0 [].

Section LeftCorner.
  Variable null : list string.

  Section Cat.
    Variable add : rep -> list string -> list string.
    (** The loop over a concatenation (leftrec.go:148-154). *)
    Fixpoint lc_cat (c : concatenation) (deps : list string) : list string :=
      match c with
      | [] => deps
      | r :: c' => if rep_nullable null r then lc_cat c' (add r deps) else add r deps
      end.
  End Cat.
  Section Alt.
    Variable add : rep -> list string -> list string.
    (** The loop over the concatenations (leftrec.go:147-155). *)
    Fixpoint lc_alt_loop (a : alternation) (deps : list string) : list string :=
      match a with
      | [] => deps
      | c :: a' => lc_alt_loop a' (lc_cat add c deps)
      end.
  End Alt.

  (** addElem and addAlt of leftCornerDeps (leftrec.go:136-156). *)
  Fixpoint lc_elem (e : elem) (deps : list string) : list string :=
    match e with
    | ERule n => append_deps deps [lower n]
    | EGroup a | EOption a => lc_alt_loop (fun r d => lc_rep r d) a deps
    | _ => deps
    end
  with lc_rep (r : rep) (deps : list string) : list string :=
    match r with Rep _ _ e => lc_elem e deps end.
  (** leftCornerDeps (leftrec.go:133-159). *)
  Definition left_corner_deps (a : alternation) : list string := lc_alt_loop (fun r d => lc_rep r d) a [].
End LeftCorner.

(** The left-corner graph (leftrec.go:89-106): the first rule of a name stays. *)
Definition lc_graph (g : grammar) (null : list string) : depgraph :=
  fold_left (fun m n => match get_rule n g with
                        | Some r => match dg_get (lower (rule_name r)) m with
                                    | Some _ => m
                                    | None => dg_set (lower (rule_name r)) (mkDN (rule_name r) (left_corner_deps null (rule_alt r))) m
                                    end
                        | None => m
                        end)
            (map rule_name (g ++ core_rules)) [].

(** A component is left recursive (leftrec.go:117-120). *)
Definition scc_left_recursive (dg : depgraph) (s : list string) : bool :=
  match s with
  | [x] => mem_str x (deps_of dg x)
  | [] => false
  | _ => true
  end.

(** leftRecursiveSCCs (leftrec.go:85-128) as a lookup: the last left-recursive
    component listing the name (components are listed latest first).  [None] is
    a search that panics or does not end. *)
Definition left_recursive_sccs (g : grammar) (ordn : nat -> list string -> list string) (order : list string)
  : option (string -> option (list string)) :=
  match nullable_rules g ordn with
  | None => None
  | Some null =>
      let dg := lc_graph g null in
      match tarjan dg order with
      | TOk st => Some (fun m => find (fun s => (mem_str m s && scc_left_recursive dg s)%bool) (t_sccs st))
      | _ => None
      end
  end.

(** ** Specification *)

(** Repetition bounds are consistent and num-vals have a numeral, everywhere a
    rule of the grammar or a core rule can see. *)
Definition bounds_ok (g : grammar) : Prop :=
  (forall mn mx e, occ_rep g (Rep mn mx e) -> (0 <= mn)%Z /\ (mx = inf \/ (mn <= mx)%Z)) /\
  (forall b st, ~ occ_elem g (ENum b st [])).

(** A name that can begin a derivation without any input consumed before it. *)
Inductive left_corner (g : grammar) : alternation -> string -> Prop :=
| lcr_cat a pre mn mx e post n : In (pre ++ Rep mn mx e :: post) a ->
    (forall r, In r pre -> in_rep g r []) -> left_corner_elem g e n -> left_corner g a n
with left_corner_elem (g : grammar) : elem -> string -> Prop :=
| lcr_rule k n : same_name k n -> left_corner_elem g (ERule k) n
| lcr_group a n : left_corner g a n -> left_corner_elem g (EGroup a) n
| lcr_option a n : left_corner g a n -> left_corner_elem g (EOption a) n.
Scheme lcr_mut := Minimality for left_corner Sort Prop
with lcr_elem_mut := Minimality for left_corner_elem Sort Prop.
Combined Scheme lcr_ind2 from lcr_mut, lcr_elem_mut.

(** (specification) rule [n] has the left corner [m]. *)
Definition lc_ref (g : grammar) (n m : string) : Prop :=
  exists a, resolves g n a /\ left_corner g a m.
(** [n] is left recursive; [n] and [m] are mutually left recursive. *)
Definition left_recursive (g : grammar) (n : string) : Prop := clos_trans _ (lc_ref g) n n.
(** (specification) [n] and [m] are on one cycle of left corners. *)
Definition mutually_left (g : grammar) (n m : string) : Prop :=
  clos_trans _ (lc_ref g) n m /\ clos_trans _ (lc_ref g) m n.

(** ** Nullability is exact *)
Lemma equal_fold_lower n m : equal_fold (lower n) m = equal_fold n m.
Proof. unfold equal_fold. rewrite lower_lower. reflexivity. Qed.
Lemma get_rule_lower n g : get_rule (lower n) g = get_rule n g.
Proof.
  assert (F : forall l, find (fun r => equal_fold (lower n) (rule_name r)) l = find (fun r => equal_fold n (rule_name r)) l).
  { induction l as [|r l IH]; cbn; auto. rewrite equal_fold_lower. destruct (equal_fold n (rule_name r)); auto. }
  unfold get_rule, get_rule_core, get_rule_in. rewrite !F. reflexivity.
Qed.
Lemma get_rule_name n g r : get_rule n g = Some r -> lower (rule_name r) = lower n /\ In r (g ++ core_rules).
Proof.
  unfold get_rule, get_rule_core, get_rule_in. destruct (find _ g) as [r'|] eqn:F.
  - intros H; inversion H; subst. apply find_some in F as [A B]. apply equal_fold_iff in B. split; [symmetry; exact B|apply in_app_iff; auto].
  - intros H. apply find_some in H as [A B]. apply equal_fold_iff in B. split; [symmetry; exact B|apply in_app_iff; auto].
Qed.
Lemma all_names_spec g n : In (lower n) (all_names g) <-> exists r, get_rule n g = Some r.
Proof.
  unfold all_names. rewrite nodup_In, in_map_iff. split.
  - intros (r & E & I). unfold get_rule, get_rule_core, get_rule_in. destruct (find _ g) as [r'|] eqn:F; [eauto|].
    apply in_app_iff in I as [I|I].
    + eapply find_none in F; [|exact I]. cbn in F. assert (equal_fold n (rule_name r) = true) by (apply equal_fold_iff; symmetry; exact E). congruence.
    + destruct (find _ core_rules) as [r'|] eqn:F'; [eauto|]. eapply find_none in F'; [|exact I]. cbn in F'.
      assert (equal_fold n (rule_name r) = true) by (apply equal_fold_iff; symmetry; exact E). congruence.
  - intros (r & H). destruct (get_rule_name _ _ _ H) as [A B]. exists r. auto.
Qed.
Lemma all_names_lower g x : In x (all_names g) -> lower x = x.
Proof. unfold all_names. rewrite nodup_In, in_map_iff. intros (r & <- & _). apply lower_lower. Qed.

Section NullProof.
  Variable g : grammar.
  Hypothesis D : distinct_names g.
  Hypothesis B : bounds_ok g.

  Lemma utf8_nonempty r : utf8 r <> [].
  Proof. unfold utf8. destruct (r <? 128)%Z; [discriminate|]. destruct (r <? 2048)%Z; [discriminate|]. destruct (r <? 65536)%Z; discriminate. Qed.

  Lemma pow_empty e n : in_elem g e [] -> in_pow g e n [].
  Proof. intros H. induction n as [|n IH]; [constructor|]. apply (in_pow_S g e n [] []); auto. Qed.

  (** What is marked derives the empty word. *)
  Definition null_sound (null : list string) : Prop := forall x, In x null -> in_elem g (ERule x) [].

  Lemma nullable_sound null : null_sound null ->
    (forall e, occ_elem g e -> elem_nullable null e = true -> in_elem g e []) /\
    (forall r, occ_rep g r -> rep_nullable null r = true -> in_rep g r []).
  Proof.
    intros So.
    assert (AL : forall a, Forall (Forall (fun r => occ_rep g r -> rep_nullable null r = true -> in_rep g r [])) a ->
      (forall c r, In c a -> In r c -> occ_rep g r) -> alt_nullable null a = true -> in_alt g a []).
    { intros a F Oc N. apply existsb_exists in N as (c & Ic & N). rewrite forallb_forall in N.
      apply in_alt_intro with (c := c); auto. rewrite Forall_forall in F. specialize (F c Ic).
      assert (Oc' : forall r, In r c -> occ_rep g r) by (intros r I; eauto). clear -F N Oc'.
      induction c as [|r c IH]; [constructor|]. inversion F as [|? ? F1 F2]; subst.
      apply (in_cat_cons g r c [] []).
      - apply F1; [apply Oc'|apply N]; left; auto.
      - apply IH; auto; intros r' I; [apply N|apply Oc']; right; auto. }
    apply elem_rep_ind.
    - intros n Oc H. cbn in H. apply mem_str_in in H. apply So in H. inversion H as [? a w R A| | | | | |]; subst.
      apply in_rule with (a := a); auto. apply (resolves_lower g (lower n)); auto. unfold same_name. apply lower_lower.
    - intros a F Oc H. apply in_group. apply AL; auto. intros c r Ic Ir. eapply occ_rep_group; eauto.
    - intros a F Oc H. apply in_option_none.
    - intros s v Oc H. cbn in H. destruct v; [|discriminate]. apply (in_char g s [] []); constructor.
    - intros b s v Oc H. discriminate.
    - intros v Oc H. discriminate.
    - intros mn mx e IH Oc H. cbn in H. apply orb_true_iff in H as [H|H].
      + apply Z.eqb_eq in H. subst mn. apply (in_rep_intro g 0 mx e 0); [lia| |constructor].
        destruct (proj1 B _ _ _ Oc) as [_ [Hx|Hx]]; [left; exact Hx|right; lia].
      + destruct (proj1 B _ _ _ Oc) as [Hmn Hmx]. apply (in_rep_intro g mn mx e (Z.to_nat mn)); [lia|destruct Hmx as [Hx|Hx]; [left; exact Hx|right; lia]|].
        apply pow_empty. apply IH; auto. econstructor; eauto.
  Qed.
  Lemma occ_rule_rep r c x : In r (g ++ core_rules) -> In c (rule_alt r) -> In x c -> occ_rep g x.
  Proof. apply occ_rep_rule. Qed.

  Lemma resolves_in n a : resolves g n a -> exists r, In r (g ++ core_rules) /\ rule_alt r = a.
  Proof. intros [(r & I & _ & E)|(_ & r & I & _ & E)]; exists r; rewrite in_app_iff; auto. Qed.

  Lemma alt_nullable_sound null r : null_sound null -> In r (g ++ core_rules) -> alt_nullable null (rule_alt r) = true ->
    in_alt g (rule_alt r) [].
  Proof.
    intros So I H. apply existsb_exists in H as (c & Ic & N). rewrite forallb_forall in N.
    apply in_alt_intro with (c := c); auto. pose proof (proj2 (nullable_sound null So)) as NS.
    assert (Oc' : forall r, In r c -> occ_rep g r) by (intros r' I'; eapply occ_rep_rule; eauto). clear -N Oc' NS.
    induction c as [|r c IH]; [constructor|]. apply (in_cat_cons g r c [] []).
    - apply NS; [apply Oc'|apply N]; left; auto.
    - apply IH; intros r' I; [apply N|apply Oc']; right; auto.
  Qed.

  (** A closed marking contains everything that derives the empty word. *)
  Definition null_closed (null : list string) : Prop :=
    forall n r, get_rule n g = Some r -> alt_nullable null (rule_alt r) = true -> In (lower n) null.

  Lemma nullable_complete null : null_closed null ->
    (forall e w, in_elem g e w -> occ_elem g e -> w = [] -> elem_nullable null e = true) /\
    (forall a w, in_alt g a w -> (forall c r, In c a -> In r c -> occ_rep g r) -> w = [] -> alt_nullable null a = true) /\
    (forall c w, in_cat g c w -> (forall r, In r c -> occ_rep g r) -> w = [] -> forallb (fun r => rep_nullable null r) c = true) /\
    (forall r w, in_rep g r w -> occ_rep g r -> w = [] -> rep_nullable null r = true) /\
    (forall e n w, in_pow g e n w -> occ_elem g e -> w = [] -> n = 0 \/ elem_nullable null e = true).
  Proof.
    intros Cl. apply lang_mut.
    - intros n a w R _ IH Oc E. cbn. apply mem_str_in. destruct (proj2 (get_rule_resolves g n D) a R) as (r & G & A).
      apply (Cl n r G). rewrite A. apply IH; auto. intros c x Ic Ix. destruct (get_rule_name _ _ _ G) as [_ I].
      subst a. eapply occ_rep_rule; eauto.
    - intros a w _ IH Oc E. cbn. apply IH; auto. intros c r Ic Ir. eapply occ_rep_group; eauto.
    - intros a Oc E. reflexivity.
    - intros a w _ IH Oc E. reflexivity.
    - intros s vs rs F Sc Oc E. cbn. destruct F; auto. cbn in E. exfalso. apply app_eq_nil in E as [E _]. apply (utf8_nonempty _ E).
    - intros b ns rs F Sc Oc E. exfalso. destruct F; [|cbn in E; apply app_eq_nil in E as [E _]; apply (utf8_nonempty _ E)].
      apply (proj2 B _ _ Oc).
    - intros b lo hi l h r _ _ _ _ Oc E. exfalso. apply (utf8_nonempty _ E).
    - intros c a w Ic _ IH Oc E. unfold alt_nullable. apply existsb_exists. exists c. split; auto. apply IH; auto. intros r Ir. eauto.
    - intros Oc E. reflexivity.
    - intros r c w1 w2 _ IH1 _ IH2 Oc E. apply app_eq_nil in E as [E1 E2]. cbn [forallb]. apply andb_true_iff. split.
      + apply IH1; auto. apply Oc. left. auto.
      + apply IH2; auto. intros r' I. apply Oc. right. auto.
    - intros mn mx e n w Hn _ _ IH Oc E. cbn [rep_nullable]. apply orb_true_iff.
      destruct IH as [->|H]; auto; [econstructor; eauto|]. left. apply Z.eqb_eq.
      destruct (proj1 B _ _ _ Oc) as [Hmn _]. cbn in Hn. lia.
    - intros e Oc E. auto.
    - intros e n w1 w2 _ IH1 _ _ Oc E. apply app_eq_nil in E as [E1 E2]. right. auto.
  Qed.

  (** The loop. *)
  Lemma round_spec names : (forall x, In x names -> lower x = x) -> forall null, null_sound null ->
    let '(null', changed) := null_round g names null in
    null_sound null' /\ (forall x, In x null -> In x null') /\
    (changed = false -> null' = null /\ forall n r, In (lower n) names -> get_rule n g = Some r -> alt_nullable null (rule_alt r) = true -> In (lower n) null) /\
    (changed = true -> exists x, In x names /\ In x null' /\ ~ In x null).
  Proof.
    induction names as [|n names IH]; intros Lo null So; cbn [null_round].
    { split; auto. split; auto. split; [intros _; split; auto; intros ? ? []|discriminate]. }
    assert (Lo' : forall x, In x names -> lower x = x) by (intros x I; apply Lo; right; auto).
    assert (Ln : lower n = n) by (apply Lo; left; auto).
    assert (Skip : (forall r, get_rule n g = Some r -> alt_nullable null (rule_alt r) = true -> In n null) ->
      let '(null', changed) := null_round g names null in
      null_sound null' /\ (forall x, In x null -> In x null') /\
      (changed = false -> null' = null /\ forall n0 r, In (lower n0) (n :: names) -> get_rule n0 g = Some r -> alt_nullable null (rule_alt r) = true -> In (lower n0) null) /\
      (changed = true -> exists x, In x (n :: names) /\ In x null' /\ ~ In x null)).
    { intros H. specialize (IH Lo' null So). destruct (null_round g names null) as [null' ch].
      destruct IH as (A & B' & C & E). split; auto. split; auto. split.
      - intros Hc. destruct (C Hc) as [C1 C2]. split; auto. intros n0 r [I|I] G N; eauto.
        rewrite <- I. apply (H r); auto. rewrite I, get_rule_lower. exact G.
      - intros Hc. destruct (E Hc) as (x & X & Y). exists x. split; [right; auto|auto]. }
    destruct (get_rule n g) as [r|] eqn:G; [|apply Skip; intros; discriminate].
    destruct (mem_str n null) eqn:M.
    { cbn [negb andb]. apply Skip. intros _ _ _. apply mem_str_in. auto. }
    cbn [negb andb]. destruct (alt_nullable null (rule_alt r)) eqn:N.
    2:{ apply Skip. intros r' H. inversion H; subst. congruence. }
    assert (So' : null_sound (n :: null)).
    { intros x [<-|I]; auto. destruct (get_rule_name _ _ _ G) as [_ I].
      apply in_rule with (a := rule_alt r); [apply (proj1 (get_rule_resolves g n D)); auto|].
      eapply alt_nullable_sound; eauto. }
    specialize (IH Lo' (n :: null) So'). destruct (null_round g names (n :: null)) as [null' ch]. cbn [fst].
    destruct IH as (A & B' & _). split; auto. split; [intros x I; apply B'; right; auto|]. split; [discriminate|].
    intros _. exists n. split; [left; auto|]. split; [apply B'; left; auto|]. intros I. apply mem_str_in in I. congruence.
  Qed.

  Lemma nullable_rules_exact ord : (forall t l x, In x (ord t l) <-> In x l) ->
    exists null, nullable_rules g ord = Some null /\ null_sound null /\ null_closed null.
  Proof.
    intros O. unfold nullable_rules.
    assert (M : forall f t null, null_sound null ->
      length (filter (fun x => negb (mem_str x null)) (all_names g)) < f ->
      exists null', null_loop f g ord t null = Some null' /\ null_sound null' /\ null_closed null').
    { induction f as [|f IH]; intros t null So L; [lia|]. cbn [null_loop].
      pose proof (round_spec (ord t (all_names g))) as R.
      assert (Lo : forall x, In x (ord t (all_names g)) -> lower x = x).
      { intros x I. apply O in I. apply (all_names_lower g); auto. }
      specialize (R Lo null So). destruct (null_round g (ord t (all_names g)) null) as [null' ch].
      destruct R as (A & Mo & C & E). destruct ch.
      - apply IH; auto. destruct (E eq_refl) as (x & X & Y & Z). apply O in X.
        assert (length (filter (fun x => negb (mem_str x null')) (all_names g)) < length (filter (fun x => negb (mem_str x null)) (all_names g))); [|lia].
        apply filter_lt_mono with (y := x); auto.
        + intros z _ H. apply negb_true_iff in H. apply negb_true_iff. destruct (mem_str z null) eqn:Q; auto.
          apply mem_str_in in Q. apply Mo in Q. apply mem_str_in in Q. congruence.
        + apply negb_false_iff. apply mem_str_in. auto.
        + apply negb_true_iff. destruct (mem_str x null) eqn:Q; auto. apply mem_str_in in Q. contradiction.
      - destruct (C eq_refl) as [-> Cl]. exists null. split; auto. split; auto.
        intros n r G N. eapply Cl; eauto. apply O. apply all_names_spec. eauto. }
    apply M; [intros x []|]. pose proof (filter_le_length (fun x => negb (mem_str x [])) (all_names g)). lia.
  Qed.

  Lemma null_spec null : null_sound null -> null_closed null -> forall n, In (lower n) null <-> in_elem g (ERule n) [].
  Proof.
    intros So Cl n. split.
    - intros I. apply So in I. inversion I as [? a w R A| | | | | |]; subst. apply in_rule with (a := a); auto.
      apply (resolves_lower g (lower n)); auto. apply lower_lower.
    - intros H. inversion H as [? a w R A| | | | | |]; subst. destruct (proj2 (get_rule_resolves g n D) a R) as (r & G & E).
      apply (Cl n r G). rewrite E. destruct (get_rule_name _ _ _ G) as [_ I].
      apply (proj1 (proj2 (nullable_complete null Cl)) a [] A); auto. intros c x Ic Ix. subst a. eapply occ_rep_rule; eauto.
  Qed.

  (** On what occurs in the grammar the two views of nullability agree. *)
  Lemma rep_nullable_spec null : null_sound null -> null_closed null -> forall r, occ_rep g r ->
    (rep_nullable null r = true <-> in_rep g r []).
  Proof.
    intros So Cl r Oc. split.
    - apply (proj2 (nullable_sound null So)); auto.
    - intros H. apply (proj1 (proj2 (proj2 (proj2 (nullable_complete null Cl)))) r [] H); auto.
  Qed.

  (** *** Left corners *)
  Variable null : list string.
  Hypothesis So : null_sound null.
  Hypothesis Cl : null_closed null.

  (** (proof) everything in [a] occurs in the grammar. *)
  Definition occ_alt (a : alternation) : Prop := forall c r, In c a -> In r c -> occ_rep g r.

  Lemma lc_cat_in (f : rep -> list string -> list string) (P : rep -> string -> Prop) :
    forall c, (forall r, In r c -> forall d x, In x (f r d) <-> In x d \/ P r x) ->
    forall d x, In x (lc_cat null f c d) <->
      In x d \/ exists pre r post, c = pre ++ r :: post /\ (forall r', In r' pre -> rep_nullable null r' = true) /\ P r x.
  Proof.
    induction c as [|r c IH]; intros Hf d x; cbn [lc_cat].
    - split; [auto|]. intros [H|(pre & r & post & E & _)]; auto. destruct pre; discriminate.
    - assert (Hr := Hf r (or_introl eq_refl)).
      assert (Hf' : forall r', In r' c -> forall d x, In x (f r' d) <-> In x d \/ P r' x) by (intros r' I; apply Hf; right; auto).
      destruct (rep_nullable null r) eqn:N.
      + rewrite (IH Hf'), Hr. split.
        * intros [[H|H]|(pre & r1 & post & E & F & Q)]; auto.
          -- right. exists [], r, c. split; [auto|]. split; [intros r' []|auto].
          -- right. exists (r :: pre), r1, post. split; [subst; auto|]. split; [intros r' [<-|I]; auto|auto].
        * intros [H|(pre & r1 & post & E & F & Q)]; auto. destruct pre as [|r0 pre]; inversion E; subst; auto.
          right. exists pre, r1, post. split; [auto|]. split; [intros r' I; apply F; right; auto|auto].
      + rewrite Hr. split.
        * intros [H|H]; auto. right. exists [], r, c. split; [auto|]. split; [intros r' []|auto].
        * intros [H|(pre & r1 & post & E & F & Q)]; auto. destruct pre as [|r0 pre]; inversion E; subst; auto.
          rewrite (F r0) in N; [discriminate|left; auto].
  Qed.
  Lemma lc_alt_in (f : rep -> list string -> list string) (P : rep -> string -> Prop) :
    forall a, (forall c r, In c a -> In r c -> forall d x, In x (f r d) <-> In x d \/ P r x) ->
    forall d x, In x (lc_alt_loop null f a d) <->
      In x d \/ exists pre r post, In (pre ++ r :: post) a /\ (forall r', In r' pre -> rep_nullable null r' = true) /\ P r x.
  Proof.
    induction a as [|c a IH]; intros Hf d x; cbn [lc_alt_loop].
    - split; [auto|]. intros [H|(pre & r & post & [] & _)]; auto.
    - rewrite IH by (intros c' r I; apply Hf; right; auto).
      rewrite (lc_cat_in f P) by (intros r I; apply (Hf c); [left|]; auto). split.
      + intros [[H|(pre & r & post & E & F & Q)]|(pre & r & post & E & F & Q)]; auto; right; exists pre, r, post; split; auto.
        * left. auto.
        * right. auto.
      + intros [H|(pre & r & post & [E|E] & F & Q)]; auto.
        * left. right. exists pre, r, post. auto.
        * right. exists pre, r, post. auto.
  Qed.

  (** (proof) the left corners of one repetition, in lower case. *)
  Definition lc_of (r : rep) (x : string) : Prop := lower x = x /\ left_corner_elem g (rep_elem r) x.

  Lemma lc_exact :
    (forall e, occ_elem g e -> forall d x, In x (lc_elem null e d) <-> In x d \/ (lower x = x /\ left_corner_elem g e x)) /\
    (forall r, occ_rep g r -> forall d x, In x (lc_rep null r d) <-> In x d \/ lc_of r x).
  Proof.
    assert (AL : forall a, Forall (Forall (fun r => occ_rep g r -> forall d x, In x (lc_rep null r d) <-> In x d \/ lc_of r x)) a ->
      occ_alt a -> forall d x, In x (lc_alt_loop null (fun r d => lc_rep null r d) a d) <-> In x d \/ (lower x = x /\ left_corner g a x)).
    { intros a F Oc d x. rewrite (lc_alt_in _ lc_of).
      - split; (intros [H|H]; [auto|right]).
        + destruct H as (pre & [mn mx e] & post & I & N & L & Q). split; auto.
          apply lcr_cat with (pre := pre) (mn := mn) (mx := mx) (e := e) (post := post); auto.
          intros r' I'. apply (rep_nullable_spec null So Cl); auto. eapply Oc; eauto. apply in_app_iff. auto.
        + destruct H as [L H]. inversion H as [? pre mn mx e post ? I N Q]; subst.
          exists pre, (Rep mn mx e), post. split; auto. split; [|split; auto].
          intros r' I'. apply (rep_nullable_spec null So Cl); auto. eapply Oc; eauto. apply in_app_iff. auto.
      - intros c r Ic Ir. rewrite Forall_forall in F. specialize (F c Ic). rewrite Forall_forall in F. apply F; auto. eapply Oc; eauto. }
    apply elem_rep_ind.
    - intros n Oc d x. cbn [lc_elem]. rewrite append_deps_in. cbn [In]. split.
      + intros [H|[<-|[]]]; auto. right. split; [apply lower_lower|]. constructor. unfold same_name. symmetry. apply lower_lower.
      + intros [H|[L H]]; auto. right. left. inversion H as [? ? S| |]; subst. unfold same_name in S. congruence.
    - intros a F Oc d x. cbn [lc_elem]. rewrite AL; auto.
      + split; (intros [H|[L H]]; [auto|right; split; auto]); [constructor; auto|inversion H; auto].
      + intros c r Ic Ir. eapply occ_rep_group; eauto.
    - intros a F Oc d x. cbn [lc_elem]. rewrite AL; auto.
      + split; (intros [H|[L H]]; [auto|right; split; auto]); [constructor; auto|inversion H; auto].
      + intros c r Ic Ir. eapply occ_rep_option; eauto.
    - intros s v Oc d x. cbn. split; auto. intros [H|[_ H]]; auto. inversion H.
    - intros b s v Oc d x. cbn. split; auto. intros [H|[_ H]]; auto. inversion H.
    - intros v Oc d x. cbn. split; auto. intros [H|[_ H]]; auto. inversion H.
    - intros mn mx e IH Oc d x. cbn [lc_rep]. rewrite IH; [reflexivity|]. econstructor; eauto.
  Qed.

  Lemma left_corner_deps_exact r : In r (g ++ core_rules) -> forall m,
    In (lower m) (left_corner_deps null (rule_alt r)) <-> left_corner g (rule_alt r) m.
  Proof.
    intros Ir m. unfold left_corner_deps. rewrite (lc_alt_in _ lc_of).
    2:{ intros c x Ic Ix. apply (proj2 lc_exact). eapply occ_rep_rule; eauto. }
    assert (LL : forall m', same_name m m' -> (forall a n, left_corner g a n -> n = m -> left_corner g a m') /\
      (forall e n, left_corner_elem g e n -> n = m -> left_corner_elem g e m')).
    { intros m' S. apply lcr_ind2.
      - intros a pre mn mx e post n I N _ IH E. subst n. eapply lcr_cat; eauto.
      - intros k n H E. subst n. constructor. unfold same_name in *. congruence.
      - intros a n _ IH E. constructor. auto.
      - intros a n _ IH E. constructor. auto. }
    split.
    - intros [[]|(pre & [mn mx e] & post & I & N & L & Q)].
      assert (Q' : left_corner g (rule_alt r) (lower m)).
      { apply lcr_cat with (pre := pre) (mn := mn) (mx := mx) (e := e) (post := post); auto.
        intros r' I'. apply (rep_nullable_spec null So Cl); auto. eapply occ_rep_rule; eauto. apply in_app_iff. auto. }
      clear LL. assert (LL : forall k m', same_name k m' -> (forall a n, left_corner g a n -> n = k -> left_corner g a m') /\
        (forall e n, left_corner_elem g e n -> n = k -> left_corner_elem g e m')).
      { intros k m' S. apply lcr_ind2.
        - intros a pre0 mn0 mx0 e0 post0 n I0 N0 _ IH E. subst n. eapply lcr_cat; eauto.
        - intros k0 n H E. subst n. constructor. unfold same_name in *. congruence.
        - intros a n _ IH E. constructor. auto.
        - intros a n _ IH E. constructor. auto. }
      eapply (proj1 (LL (lower m) m (lower_lower m))); eauto.
    - intros H. right. assert (S : same_name m (lower m)) by (unfold same_name; symmetry; apply lower_lower).
      pose proof (proj1 (LL _ S) _ _ H eq_refl) as Q. inversion Q as [? pre mn mx e post ? I N E]; subst.
      exists pre, (Rep mn mx e), post. split; auto. split; [|split; auto; apply lower_lower].
      intros r' I'. apply (rep_nullable_spec null So Cl); auto. eapply occ_rep_rule; eauto. apply in_app_iff. auto.
  Qed.

  (** *** The graph *)
  Lemma lc_graph_get k : dg_get (lower k) (lc_graph g null) =
    match get_rule k g with
    | Some r => Some (mkDN (rule_name r) (left_corner_deps null (rule_alt r)))
    | None => None
    end.
  Proof.
    unfold lc_graph.
    assert (G : forall ns m done, 
      (forall k, dg_get (lower k) m = if mem_str (lower k) done then
         match get_rule k g with Some r => Some (mkDN (rule_name r) (left_corner_deps null (rule_alt r))) | None => None end else None) ->
      dg_get (lower k) (fold_left (fun m n => match get_rule n g with
                        | Some r => match dg_get (lower (rule_name r)) m with
                                    | Some _ => m
                                    | None => dg_set (lower (rule_name r)) (mkDN (rule_name r) (left_corner_deps null (rule_alt r))) m
                                    end
                        | None => m
                        end) ns m) = if mem_str (lower k) (map lower ns ++ done) then
         match get_rule k g with Some r => Some (mkDN (rule_name r) (left_corner_deps null (rule_alt r))) | None => None end else None).
    { induction ns as [|n ns IH]; intros m done H; cbn [fold_left map app]; [apply H|].
      rewrite (IH _ (lower n :: done)).
      - assert (E : mem_str (lower k) (map lower ns ++ lower n :: done) = mem_str (lower k) (lower n :: map lower ns ++ done)).
        { apply eq_true_iff_eq. rewrite !mem_str_in. cbn. rewrite !in_app_iff. cbn. tauto. }
        rewrite E. reflexivity.
      - intros k'. destruct (get_rule n g) as [r|] eqn:Gn.
        + destruct (get_rule_name _ _ _ Gn) as [Nm _]. rewrite Nm. 
          assert (E : mem_str (lower k') (lower n :: done) = (String.eqb (lower k') (lower n) || mem_str (lower k') done)%bool) by reflexivity.
          destruct (dg_get (lower n) m) as [nd|] eqn:Q.
          * rewrite H, E. destruct (String.eqb_spec (lower k') (lower n)) as [Ek|]; cbn [orb]; auto.
            rewrite H in Q. rewrite Ek. destruct (mem_str (lower n) done); [auto|discriminate].
          * rewrite dg_get_set, E. destruct (String.eqb_spec (lower k') (lower n)) as [Ek|]; cbn [orb].
            -- rewrite <- (get_rule_lower k'), Ek, get_rule_lower, Gn. reflexivity.
            -- apply H.
        + rewrite H. assert (E : mem_str (lower k') (lower n :: done) = (String.eqb (lower k') (lower n) || mem_str (lower k') done)%bool) by reflexivity.
          rewrite E. destruct (String.eqb_spec (lower k') (lower n)) as [Ek|]; cbn [orb]; auto.
          rewrite <- (get_rule_lower k'), Ek, get_rule_lower, Gn. destruct (mem_str (lower n) done); auto. }
    rewrite (G _ [] []) by reflexivity. rewrite app_nil_r.
    destruct (mem_str (lower k) (map lower (map rule_name (g ++ core_rules)))) eqn:M; auto.
    destruct (get_rule k g) as [r|] eqn:Q; auto. exfalso. destruct (get_rule_name _ _ _ Q) as [A I].
    assert (mem_str (lower k) (map lower (map rule_name (g ++ core_rules))) = true); [|congruence].
    apply mem_str_in. rewrite <- A. apply in_map, in_map. auto.
  Qed.
  Notation dg := (lc_graph g null).

  Lemma lc_node_lower x : node_in dg x -> lower x = x.
  Proof.
    unfold node_in, lc_graph.
    assert (K : forall ns m, (forall k, In k (map fst m) -> lower k = k) ->
      forall k, In k (map fst (fold_left (fun m n => match get_rule n g with
                        | Some r => match dg_get (lower (rule_name r)) m with
                                    | Some _ => m
                                    | None => dg_set (lower (rule_name r)) (mkDN (rule_name r) (left_corner_deps null (rule_alt r))) m
                                    end
                        | None => m
                        end) ns m)) -> lower k = k).
    { induction ns as [|n ns IH]; cbn [fold_left]; intros m H k; auto. apply IH. intros k'.
      destruct (get_rule n g) as [r|]; auto. destruct (dg_get _ m); auto.
      generalize (mkDN (rule_name r) (left_corner_deps null (rule_alt r))). intros nd.
      clear -H. induction m as [|[k n0] m IH]; cbn; intros I.
      - destruct I as [<-|[]]. apply lower_lower.
      - destruct (String.eqb (lower (rule_name r)) k); cbn in I; destruct I as [<-|I]; try apply lower_lower.
        + apply H. right. auto.
        + apply H. left. auto.
        + apply IH; auto. intros k1 I1. apply H. right. auto. }
    apply K. intros k [].
  Qed.
  Lemma lc_node n : node_in dg (lower n) <-> exists a, resolves g n a.
  Proof.
    unfold node_in. rewrite dg_get_in, lc_graph_get. destruct (get_rule_resolves g n D) as [A B']. split.
    - intros (nd & H). destruct (get_rule n g) as [r|] eqn:E; [|discriminate]. exists (rule_alt r). auto.
    - intros (a & H). destruct (B' a H) as (r & -> & _). eauto.
  Qed.
  Lemma lc_deps n m : In (lower m) (deps_of dg (lower n)) <-> lc_ref g n m.
  Proof.
    unfold deps_of. rewrite lc_graph_get. destruct (get_rule_resolves g n D) as [A B']. unfold lc_ref. split.
    - destruct (get_rule n g) as [r|] eqn:E; cbn [dn_deps]; [|intros []]. intros H.
      destruct (get_rule_name _ _ _ E) as [_ I]. apply (left_corner_deps_exact r I) in H. exists (rule_alt r). auto.
    - intros (a & R & L). destruct (B' a R) as (r & G & <-). rewrite G. cbn [dn_deps].
      destruct (get_rule_name _ _ _ G) as [_ I]. apply (left_corner_deps_exact r I). auto.
  Qed.
  Lemma lc_edge n m : edge dg (lower n) (lower m) <-> lc_ref g n m /\ exists a, resolves g m a.
  Proof. unfold edge. rewrite lc_deps, lc_node. reflexivity. Qed.

  Lemma lc_path_resolves n m : clos_trans _ (lc_ref g) n m -> exists a, resolves g n a.
  Proof. intros P. induction P as [n m (a & R & _)|]; eauto. Qed.
  Lemma lc_path n m : clos_trans _ (lc_ref g) n m -> (exists a, resolves g m a) -> reach1 dg (lower n) (lower m).
  Proof.
    intros P R. apply clos_trans_t1n in P. induction P as [n m E|n k m E P IH].
    - apply t_step. apply lc_edge. auto.
    - apply t_trans with (lower k); [|apply IH; exact R]. apply t_step. apply lc_edge. split; auto.
      apply clos_t1n_trans in P. apply lc_path_resolves in P. exact P.
  Qed.
  Lemma reach_lc x y : reach1 dg x y -> lower x = x -> forall n m, lower n = x -> lower m = y -> clos_trans _ (lc_ref g) n m.
  Proof.
    intros R. apply clos_trans_t1n in R. induction R as [x y E|x z y E R IH]; intros L n m En Em.
    - apply t_step. rewrite <- En, <- Em in E. apply lc_edge in E as [E _]. exact E.
    - assert (Lz : lower z = z) by (apply lc_node_lower; apply E).
      apply t_trans with z; [|apply IH; auto]. apply t_step. rewrite <- En, <- Lz in E. apply lc_edge in E as [E _]. exact E.
  Qed.
  Lemma reach1_reach x y : reach1 dg x y -> reach dg x y.
  Proof. intros R. induction R; [apply rt_step; auto|eapply rt_trans; eauto]. Qed.

  Lemma lr_spec n : left_recursive g n <-> reach1 dg (lower n) (lower n).
  Proof.
    split; intros H.
    - apply lc_path; auto. apply lc_path_resolves in H. exact H.
    - exact (reach_lc _ _ H (lower_lower n) n n eq_refl eq_refl).
  Qed.
  Lemma mutual_spec n m : mutually_left g n m <-> reach1 dg (lower n) (lower m) /\ reach1 dg (lower m) (lower n).
  Proof.
    split; intros [P Q]; split.
    - apply lc_path; auto. apply lc_path_resolves in Q. exact Q.
    - apply lc_path; auto. apply lc_path_resolves in P. exact P.
    - exact (reach_lc _ _ P (lower_lower n) n m eq_refl eq_refl).
    - exact (reach_lc _ _ Q (lower_lower m) m n eq_refl eq_refl).
  Qed.
End NullProof.
