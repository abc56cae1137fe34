(** Dependencies between rules: dag.go:16-64, and SemvalABNF: grammar.go:389-443. *)
From Coq Require Import ZArith String Ascii Bool List Lia.
From Verif Require Import Syntax Spec Num.
Import ListNotations.
Local Open Scope string_scope.
Local Open Scope Z_scope.

(** appendDeps (dag.go:57-64). *)
Definition append_deps (deps ndeps : list string) : list string :=
  fold_left (fun d n => if in_dec string_dec n d then d else (d ++ [n])%list) ndeps deps.

(** The switch of getDependencies (dag.go:44-51): what an element adds. *)
Fixpoint elem_deps (e : elem) : list string :=
  match e with
  | ERule n => [lower n]
  | EGroup a | EOption a =>
      fold_left (fun deps c => fold_left (fun deps r => append_deps deps (rep_deps r)) c deps) a []
  | _ => []
  end
with rep_deps (r : rep) : list string := match r with Rep _ _ e => elem_deps e end.

(** getDependencies (dag.go:40-55). *)
Definition get_dependencies (a : alternation) : list string :=
  fold_left (fun deps c => fold_left (fun deps r => append_deps deps (rep_deps r)) c deps) a [].

(** node without the scratch fields of the search (dag.go:9-14). *)
Record dnode : Type := mkDN { dn_name : string; dn_deps : list string }.

(** Depgraph (dag.go:19), a map: the list of its entries. *)
Definition depgraph : Type := list (string * dnode).

(** A read of the map (dag.go:206). *)
Fixpoint dg_get (k : string) (g : depgraph) : option dnode :=
  match g with
  | [] => None
  | (k', n) :: g' => if String.eqb k k' then Some n else dg_get k g'
  end.

(** A write to the map (dag.go:26, 32). *)
Fixpoint dg_set (k : string) (n : dnode) (g : depgraph) : depgraph :=
  match g with
  | [] => [(k, n)]
  | (k', n') :: g' => if String.eqb k k' then (k, n) :: g' else (k', n') :: dg_set k n g'
  end.

(** DependencyGraph (dag.go:23-38): core rules first, then the user's. *)
Definition dependency_graph (g : grammar) : depgraph :=
  fold_left (fun m r => dg_set (lower (rule_name r)) (mkDN (rule_name r) (get_dependencies (rule_alt r))) m)
            (core_rules ++ g) [].

(** The errors of SemvalABNF (grammar.go:396, 416, 424).  checkBounds (utils.go:84-130)
    reports the numeral without its leading zeros (utils.go:85). *)
Inductive sem_error :=
| SE_dependency (rulename : string)
| SE_repetition (r : rep)
| SE_bounds (v base : string).

Section FirstErr.
  Context {A : Type}.
  Variable f : A -> option sem_error.
  (** A loop returning at the first error (grammar.go:391-407, 412-441). *)
  Fixpoint first_err (l : list A) : option sem_error :=
    match l with
    | [] => None
    | x :: l' => match f x with Some e => Some e | None => first_err l' end
    end.
End FirstErr.

(** The body of the loops of semvalAlternation (grammar.go:413-440). *)
Fixpoint semval_elem (e : elem) : option sem_error :=
  match e with
  | ENum b _ es => first_err (fun v => if check_bounds v b then None else Some (SE_bounds (trim_left0 v) b)) es
  | EGroup a | EOption a => first_err (fun c => first_err (fun r => semval_rep r) c) a
  | _ => None
  end
with semval_rep (r : rep) : option sem_error :=
  match r with
  | Rep mn mx e =>
      if (negb (mx =? inf) && (mx <? mn))%bool then Some (SE_repetition r) else semval_elem e
  end.

(** semvalAlternation (grammar.go:411-443). *)
Definition semval_alt (a : alternation) : option sem_error := first_err (fun c => first_err (fun r => semval_rep r) c) a.

(** SemvalABNF (grammar.go:389-409).  [g1] and [g2] are the rules in the order
    the first and the second loop iterate the map in. *)
Definition semval_abnf (g1 g2 g : grammar) : option sem_error :=
  match first_err (fun r => first_err (fun d => match get_rule d g with
                                                | None => Some (SE_dependency d)
                                                | Some _ => None
                                                end) (get_dependencies (rule_alt r))) g1 with
  | Some e => Some e
  | None => first_err (fun r => semval_alt (rule_alt r)) g2
  end.

(** *** Proofs *)
Lemma lower_lower s : lower (lower s) = lower s.
Proof.
  induction s as [|c s IH]; cbn; auto. f_equal; auto.
  destruct c as [[] [] [] [] [] [] [] []]; reflexivity.
Qed.

Lemma append_deps_in nd : forall d x, In x (append_deps d nd) <-> In x d \/ In x nd.
Proof.
  unfold append_deps. induction nd as [|y nd IH]; cbn; intros d x; [tauto|]. rewrite IH.
  destruct (in_dec string_dec y d) as [I|I]; [|rewrite in_app_iff; cbn; tauto].
  split; [tauto|]. intros [H|[<-|H]]; auto.
Qed.
Lemma append_deps_nodup nd : forall d, NoDup d -> NoDup (append_deps d nd).
Proof.
  unfold append_deps. induction nd as [|y nd IH]; cbn; intros d H; auto. apply IH.
  destruct (in_dec string_dec y d) as [I|I]; auto.
  rewrite <- (rev_involutive (d ++ [y])). apply NoDup_rev. rewrite rev_app_distr. cbn.
  constructor; [rewrite <- in_rev; auto|apply NoDup_rev; auto].
Qed.

(** (proof) the loops of getDependencies from any starting list (dag.go:42-53). *)
Definition deps_fold (a : alternation) (d : list string) : list string :=
  fold_left (fun deps c => fold_left (fun deps r => append_deps deps (rep_deps r)) c deps) a d.

Lemma deps_cat_in c : forall d x, In x (fold_left (fun deps r => append_deps deps (rep_deps r)) c d) <->
  In x d \/ exists r, In r c /\ In x (rep_deps r).
Proof.
  induction c as [|r c IH]; cbn; intros d x; [split; [auto|intros [H|(r & [] & _)]; auto]|].
  rewrite IH, append_deps_in. split.
  - intros [[H|H]|(r' & A & B)]; auto; right; [exists r|exists r']; auto.
  - intros [H|(r' & [<-|A] & B)]; auto. right. eauto.
Qed.
Lemma deps_fold_in a : forall d x, In x (deps_fold a d) <->
  In x d \/ exists c r, In c a /\ In r c /\ In x (rep_deps r).
Proof.
  unfold deps_fold. induction a as [|c a IH]; cbn; intros d x; [split; [auto|intros [H|(c & r & [] & _)]; auto]|].
  rewrite IH, deps_cat_in. split.
  - intros [[H|(r & A & B)]|(c' & r & A & B & C)]; auto; right; [exists c, r|exists c', r]; auto.
  - intros [H|(c' & r & [<-|A] & B & C)]; auto; [left; right; eauto|right; eauto].
Qed.
Lemma deps_fold_nodup a : forall d, NoDup d -> NoDup (deps_fold a d).
Proof.
  unfold deps_fold. induction a as [|c a IH]; cbn; intros d H; auto. apply IH.
  revert d H. induction c as [|r c IHc]; cbn; intros d H; auto. apply IHc. apply append_deps_nodup. auto.
Qed.

Lemma deps_in_refers : (forall e x, In x (elem_deps e) -> forall mn mx a, rep_in a (Rep mn mx e) -> exists n, refers a n /\ x = lower n) /\
  (forall r x, In x (rep_deps r) -> forall a, rep_in a r -> exists n, refers a n /\ x = lower n).
Proof.
  assert (Tr : forall b r, rep_in b r -> forall a mn mx, rep_in a (Rep mn mx (EGroup b)) -> rep_in a r).
  { intros b r H a mn mx A. remember (Rep mn mx (EGroup b)) as q. revert Heqq. induction A; intros ->.
    - eapply rep_in_group; eauto.
    - eapply rep_in_group; eauto.
    - eapply rep_in_option; eauto. }
  assert (To : forall b r, rep_in b r -> forall a mn mx, rep_in a (Rep mn mx (EOption b)) -> rep_in a r).
  { intros b r H a mn mx A. remember (Rep mn mx (EOption b)) as q. revert Heqq. induction A; intros ->.
    - eapply rep_in_option; eauto.
    - eapply rep_in_group; eauto.
    - eapply rep_in_option; eauto. }
  apply elem_rep_ind; try (cbn; intros; contradiction).
  - cbn. intros n x [<-|[]] mn mx a H. exists n. split; auto. exists mn, mx. auto.
  - intros b F x H mn mx a A. change (elem_deps (EGroup b)) with (deps_fold b []) in H.
    apply deps_fold_in in H as [[]|(c & r & C & Rr & X)].
    rewrite Forall_forall in F. specialize (F _ C). rewrite Forall_forall in F.
    eapply (F _ Rr x X). eapply Tr; eauto. eapply rep_in_here; eauto.
  - intros b F x H mn mx a A. change (elem_deps (EOption b)) with (deps_fold b []) in H.
    apply deps_fold_in in H as [[]|(c & r & C & Rr & X)].
    rewrite Forall_forall in F. specialize (F _ C). rewrite Forall_forall in F.
    eapply (F _ Rr x X). eapply To; eauto. eapply rep_in_here; eauto.
  - cbn. intros mn mx e IH x H a A. eauto.
Qed.

Lemma refers_deps a r : rep_in a r -> forall x, In x (rep_deps r) -> In x (get_dependencies a).
Proof.
  induction 1; intros x X; apply (deps_fold_in a []); right.
  - eauto.
  - exists c, (Rep mn mx (EGroup b)). split; [auto|]. split; [auto|]. exact (IHrep_in x X).
  - exists c, (Rep mn mx (EOption b)). split; [auto|]. split; [auto|]. exact (IHrep_in x X).
Qed.

Theorem get_dependencies_spec a x : In x (get_dependencies a) <-> exists n, refers a n /\ x = lower n.
Proof.
  split.
  - intros H. apply (deps_fold_in a []) in H as [[]|(c & r & C & R & X)].
    eapply (proj2 deps_in_refers); eauto. eapply rep_in_here; eauto.
  - intros (n & (mn & mx & H) & ->). eapply refers_deps; eauto. cbn. auto.
Qed.
Theorem get_dependencies_nodup a : NoDup (get_dependencies a).
Proof. apply deps_fold_nodup. constructor. Qed.

Lemma dg_get_set k n k' g : dg_get k' (dg_set k n g) = if String.eqb k' k then Some n else dg_get k' g.
Proof.
  induction g as [|[k0 n0] g IH]; cbn; auto.
  destruct (String.eqb_spec k k0); cbn.
  - subst. destruct (String.eqb k' k0); auto.
  - rewrite IH. destruct (String.eqb_spec k' k0); auto. subst.
    destruct (String.eqb_spec k0 k); congruence.
Qed.

Lemma first_err_none {A} (f : A -> option sem_error) l : first_err f l = None <-> forall x, In x l -> f x = None.
Proof.
  induction l as [|y l IH]; cbn; [split; [tauto|auto]|]. destruct (f y) eqn:E.
  - split; [discriminate|]. intros H. specialize (H y (or_introl eq_refl)). congruence.
  - rewrite IH. split; intros H; [intros x [<-|X]; auto|intros; apply H; auto].
Qed.

Lemma semval_alt_spec a : semval_alt a = None <->
  forall r, rep_in a r -> forall mn mx e, r = Rep mn mx e ->
    (mx <> inf -> mn <= mx) /\ (forall b st es, e = ENum b st es -> forall s, In s es -> check_bounds s b = true).
Proof.
  unfold semval_alt. split.
  - intros H r R. revert H.
    induction R as [a c r H0 H1|a c mn mx b r H0 H1 R IHR|a c mn mx b r H0 H1 R IHR]; intros H mn0 mx0 e0 E.
    + rewrite first_err_none in H. specialize (H _ H0). rewrite first_err_none in H. specialize (H _ H1). subst r.
      cbn in H. destruct (negb (mx0 =? inf) && (mx0 <? mn0))%bool eqn:B; [discriminate|]. split.
      * intros N. apply andb_false_iff in B as [B|B]; [apply negb_false_iff, Z.eqb_eq in B; congruence|apply Z.ltb_ge in B; auto].
      * intros b st es -> s S. cbn in H. rewrite first_err_none in H. specialize (H _ S).
        destruct (check_bounds s b); congruence.
    + rewrite first_err_none in H. specialize (H _ H0). rewrite first_err_none in H. specialize (H _ H1).
      cbn in H. destruct (_ && _)%bool; [discriminate|]. auto.
    + rewrite first_err_none in H. specialize (H _ H0). rewrite first_err_none in H. specialize (H _ H1).
      cbn in H. destruct (_ && _)%bool; [discriminate|]. auto.
  - intros H. rewrite first_err_none. intros c C. rewrite first_err_none. intros r R.
    assert (G : (forall e a, (forall r, rep_in a r -> forall mn mx e, r = Rep mn mx e ->
        (mx <> inf -> mn <= mx) /\ (forall b st es, e = ENum b st es -> forall s, In s es -> check_bounds s b = true)) ->
        (forall mn mx, rep_in a (Rep mn mx e) -> semval_elem e = None)) /\
      (forall r a, (forall r, rep_in a r -> forall mn mx e, r = Rep mn mx e ->
        (mx <> inf -> mn <= mx) /\ (forall b st es, e = ENum b st es -> forall s, In s es -> check_bounds s b = true)) ->
        rep_in a r -> semval_rep r = None)).
    { assert (Tr : forall b r, rep_in b r -> forall a mn mx, rep_in a (Rep mn mx (EGroup b)) -> rep_in a r).
      { intros b r0 H0 a0 mn mx A. remember (Rep mn mx (EGroup b)) as q. revert Heqq. induction A; intros ->.
        - eapply rep_in_group; eauto.
        - eapply rep_in_group; eauto.
        - eapply rep_in_option; eauto. }
      assert (To : forall b r, rep_in b r -> forall a mn mx, rep_in a (Rep mn mx (EOption b)) -> rep_in a r).
      { intros b r0 H0 a0 mn mx A. remember (Rep mn mx (EOption b)) as q. revert Heqq. induction A; intros ->.
        - eapply rep_in_option; eauto.
        - eapply rep_in_group; eauto.
        - eapply rep_in_option; eauto. }
      apply elem_rep_ind; try (cbn; auto; fail).
      - intros b F a0 Ha mn mx A. cbn. rewrite first_err_none. intros c0 C0. rewrite first_err_none. intros r0 R0.
        rewrite Forall_forall in F. specialize (F _ C0). rewrite Forall_forall in F. apply (F _ R0 a0 Ha).
        eapply Tr; eauto. eapply rep_in_here; eauto.
      - intros b F a0 Ha mn mx A. cbn. rewrite first_err_none. intros c0 C0. rewrite first_err_none. intros r0 R0.
        rewrite Forall_forall in F. specialize (F _ C0). rewrite Forall_forall in F. apply (F _ R0 a0 Ha).
        eapply To; eauto. eapply rep_in_here; eauto.
      - intros b st es a0 Ha mn mx A. cbn. rewrite first_err_none. intros s S.
        destruct (Ha _ A _ _ _ eq_refl) as [_ B]. rewrite (B _ _ _ eq_refl s S). auto.
      - intros mn mx e IH a0 Ha A. cbn. destruct (Ha _ A _ _ _ eq_refl) as [B _].
        replace (negb (mx =? inf) && (mx <? mn))%bool with false; [eauto|].
        destruct (mx =? inf) eqn:E; cbn; auto. apply Z.eqb_neq in E. symmetry. apply Z.ltb_ge. auto. }
    eapply (proj2 G); eauto. eapply rep_in_here; eauto.
Qed.
