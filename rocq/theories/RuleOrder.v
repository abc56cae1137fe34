(** Proofs that the recognizer reads the rules as a map.  Its definitions are means of proof and model
    no code. *)
From Coq Require Import ZArith Arith String Ascii Bool Relations Permutation List Lia.
From Verif Require Import Syntax Spec Deps Dag Cycle PropDag Check LeftRec LowerLang PropSem PropGll Recog RecogGlue Part PartProof PartRecog.
Import ListNotations.
Local Open Scope string_scope.
Local Open Scope list_scope.
Local Open Scope nat_scope.

(** ** The names that can be empty are the least fixpoint *)
Definition same_members (l l' : list string) : Prop := forall x, In x l <-> In x l'.
Lemma mem_members l l' x : same_members l l' -> mem_str x l = mem_str x l'.
Proof. intros H. apply eq_true_iff_eq. rewrite !mem_str_in. apply H. Qed.
Lemma nullable_mono l l' : incl l l' ->
  (forall e, elem_nullable l e = true -> elem_nullable l' e = true) /\ (forall r, rep_nullable l r = true -> rep_nullable l' r = true).
Proof.
  intros I. apply elem_rep_ind.
  - intros n H. cbn [elem_nullable] in *. apply mem_str_in. apply I. apply mem_str_in. exact H.
  - intros a F H. cbn [elem_nullable] in *. apply existsb_exists in H as (c & Ic & H). apply existsb_exists. exists c. split; [exact Ic|].
    rewrite forallb_forall in *. intros x Ix. rewrite Forall_forall in F. specialize (F c Ic). rewrite Forall_forall in F. apply (F x Ix), (H x Ix).
  - intros; reflexivity.
  - intros; assumption.
  - intros; assumption.
  - intros; assumption.
  - intros mn mx e IH H. cbn [rep_nullable] in *. apply orb_true_iff in H as [H|H]; apply orb_true_iff; auto.
Qed.
Lemma alt_nullable_mono l l' a : incl l l' -> alt_nullable l a = true -> alt_nullable l' a = true.
Proof.
  intros I H. unfold alt_nullable in *. apply existsb_exists in H as (c & Ic & H). apply existsb_exists. exists c. split; [exact Ic|].
  rewrite forallb_forall in *. intros x Ix. apply (proj2 (nullable_mono l l' I)), (H x Ix).
Qed.
Lemma members_nullable l l' : same_members l l' -> (forall e, elem_nullable l e = elem_nullable l' e) /\ (forall r, rep_nullable l r = rep_nullable l' r).
Proof.
  intros S. assert (A : incl l l') by (intros x; apply S). assert (B : incl l' l) by (intros x; apply S).
  split; intros x; apply eq_true_iff_eq; split; first [apply nullable_mono, A|apply nullable_mono, B].
Qed.
Definition closed (g : grammar) (l : list string) : Prop := forall n r, In n (all_names g) -> get_rule n g = Some r -> alt_nullable l (rule_alt r) = true -> In n l.
Lemma round_below g l names : closed g l -> (forall x, In x names -> In x (all_names g)) -> forall null, incl null l -> incl (fst (null_round g names null)) l.
Proof.
  intros C. induction names as [|n names IH]; intros N null I; [exact I|]. assert (N' : forall x, In x names -> In x (all_names g)) by (intros x H; apply N; right; exact H).
  cbn [null_round]. destruct (get_rule n g) as [r|] eqn:G; [|apply IH; auto]. destruct (negb (mem_str n null) && alt_nullable null (rule_alt r))%bool eqn:E; [|apply IH; auto].
  cbn [fst]. apply IH; auto. intros x [<-|X]; [|auto]. apply andb_true_iff in E as [_ E]. apply (C n r); auto; [apply N; left; reflexivity|]. eapply alt_nullable_mono; eauto.
Qed.
Lemma round_end g names : forall null, snd (null_round g names null) = false -> fst (null_round g names null) = null /\
  forall n r, In n names -> get_rule n g = Some r -> alt_nullable null (rule_alt r) = true -> In n null.
Proof.
  induction names as [|n names IH]; intros null E; [split; [reflexivity|intros x r []]|]. cbn [null_round] in *.
  destruct (get_rule n g) as [r|] eqn:G.
  - destruct (negb (mem_str n null) && alt_nullable null (rule_alt r))%bool eqn:Q; [discriminate|]. destruct (IH null E) as (A & B). split; [exact A|].
    intros x y [<-|I] Gx Al; [|eauto]. rewrite G in Gx. injection Gx as <-. rewrite Al, andb_true_r in Q. apply negb_false_iff in Q. apply mem_str_in. exact Q.
  - destruct (IH null E) as (A & B). split; [exact A|]. intros x y [<-|I] Gx Al; [congruence|eauto].
Qed.
Lemma loop_closed g ord : any_order ord -> forall f t null out, null_loop f g ord t null = Some out -> closed g out.
Proof.
  intros O. induction f as [|f IH]; intros t null out E; [discriminate|]. cbn [null_loop] in E. pose proof (round_end g (ord t (all_names g)) null) as R.
  destruct (null_round g (ord t (all_names g)) null) as [null' ch]. cbn [fst snd] in R. destruct ch; [eauto|]. injection E as <-. destruct (R eq_refl) as (-> & H).
  intros n r I. apply H. apply O. exact I.
Qed.
Lemma loop_below g ord l : any_order ord -> closed g l -> forall f t null out, incl null l -> null_loop f g ord t null = Some out -> incl out l.
Proof.
  intros O C. induction f as [|f IH]; intros t null out I E; [discriminate|]. cbn [null_loop] in E. pose proof (round_below g l (ord t (all_names g)) C (fun x => proj1 (O t _ x)) null I) as R.
  destruct (null_round g (ord t (all_names g)) null) as [null' ch]. cbn [fst] in R. destruct ch; [eauto|]. injection E as <-. exact R.
Qed.

Section Rules.
  Variables g g' : grammar.
  Hypothesis Get : forall n, get_rule n g = get_rule n g'.

  Lemma names_same x : In x (all_names g) <-> In x (all_names g').
  Proof.
    assert (H : forall h h', (forall n, get_rule n h = get_rule n h') -> In x (all_names h) -> In x (all_names h')).
    { intros h h' E I. pose proof (all_names_lower h x I) as L. rewrite <- L in *. apply all_names_spec. apply all_names_spec in I as (r & G). exists r. rewrite <- E. exact G. }
    split; apply H; auto.
  Qed.
  Lemma closed_same l : closed g l <-> closed g' l.
  Proof. unfold closed. split; intros H n r I G; apply H; try apply names_same; auto; congruence. Qed.
  Lemma nullable_same ordn ordn' : any_order ordn -> any_order ordn' -> exists l l', nullable_rules g ordn = Some l /\ nullable_rules g' ordn' = Some l' /\ same_members l l'.
  Proof.
    intros O O'. destruct (nullable_total g ordn O) as (l & E). destruct (nullable_total g' ordn' O') as (l' & E'). exists l, l'. split; [exact E|]. split; [exact E'|].
    unfold nullable_rules in *. pose proof (loop_closed g ordn O _ _ _ _ E) as C. pose proof (loop_closed g' ordn' O' _ _ _ _ E') as C'.
    assert (B : incl l l') by (eapply (loop_below g ordn l' O); [apply closed_same; exact C'| |exact E]; intros x []).
    assert (B' : incl l' l) by (eapply (loop_below g' ordn' l O'); [apply closed_same; exact C| |exact E']; intros x []).
    intros x. split; [apply B|apply B'].
  Qed.
End Rules.

(** ** The graph of left corners is the same map *)
Section Corners.
  Variables l l' : list string.
  Hypothesis S : same_members l l'.
  Lemma lc_cat_same (f h : rep -> list string -> list string) c : (forall x d, In x c -> f x d = h x d) -> forall d, lc_cat l f c d = lc_cat l' h c d.
  Proof.
    induction c as [|x c IH]; intros H d; [reflexivity|]. cbn [lc_cat]. rewrite (proj2 (members_nullable l l' S) x), (H x d (or_introl eq_refl)).
    destruct (rep_nullable l' x); [|reflexivity]. apply IH. intros y e I. apply H. right. exact I.
  Qed.
  Lemma lc_loop_same (f h : rep -> list string -> list string) a : (forall c x d, In c a -> In x c -> f x d = h x d) -> forall d, lc_alt_loop l f a d = lc_alt_loop l' h a d.
  Proof.
    induction a as [|c a IH]; intros H d; [reflexivity|]. cbn [lc_alt_loop]. rewrite (lc_cat_same f h c); [|intros x e; apply H; left; reflexivity].
    apply IH. intros y x e I. apply H. right. exact I.
  Qed.
  Lemma lc_same : (forall e d, lc_elem l e d = lc_elem l' e d) /\ (forall r d, lc_rep l r d = lc_rep l' r d).
  Proof.
    apply elem_rep_ind; try reflexivity.
    - intros a F d. cbn [lc_elem]. apply (lc_loop_same (lc_rep l) (lc_rep l')). intros c x e Ic Ix. rewrite Forall_forall in F. specialize (F c Ic). rewrite Forall_forall in F. apply F, Ix.
    - intros a F d. cbn [lc_elem]. apply (lc_loop_same (lc_rep l) (lc_rep l')). intros c x e Ic Ix. rewrite Forall_forall in F. specialize (F c Ic). rewrite Forall_forall in F. apply F, Ix.
    - intros mn mx e IH d. exact (IH d).
  Qed.
  Lemma left_corners_same a : left_corner_deps l a = left_corner_deps l' a.
  Proof. unfold left_corner_deps. apply (lc_loop_same (lc_rep l) (lc_rep l')). intros c x d _ _. apply lc_same. Qed.
End Corners.

Lemma dg_set_nodup k n m : dg_get k m = None -> NoDup (map fst m) -> NoDup (map fst (dg_set k n m)).
Proof.
  induction m as [|[k' n'] m IH]; intros G N; cbn; [constructor; [intros []|constructor]|]. cbn [dg_get] in G. destruct (String.eqb_spec k k') as [E|E]; [discriminate|].
  cbn [map fst] in *. inversion N as [|? ? H1 H2]; subst. constructor; [|apply IH; auto]. intros I. apply H1. apply in_map_iff in I as ([x y] & <- & I). cbn [fst] in *.
  assert (X : In x (map fst (dg_set k n m))) by (apply in_map_iff; exists (x, y); auto). rewrite dg_get_in in X. destruct X as (nd & X). rewrite dg_get_set in X.
  destruct (String.eqb_spec x k) as [->|]; [congruence|]. apply dg_get_in. eauto.
Qed.
Lemma lc_nodup g null : NoDup (map fst (lc_graph g null)).
Proof.
  unfold lc_graph. assert (H : forall ns m, NoDup (map fst m) -> NoDup (map fst (fold_left (fun m n => match get_rule n g with
                        | Some r => match dg_get (lower (rule_name r)) m with
                                    | Some _ => m
                                    | None => dg_set (lower (rule_name r)) (mkDN (rule_name r) (left_corner_deps null (rule_alt r))) m
                                    end
                        | None => m
                        end) ns m))).
  { induction ns as [|n ns IH]; intros m N; [exact N|]. cbn [fold_left]. apply IH. destruct (get_rule n g) as [r|]; [|exact N].
    destruct (dg_get (lower (rule_name r)) m) eqn:E; [exact N|]. apply dg_set_nodup; auto. }
  apply H. constructor.
Qed.

(** ** Tarjan's search reads a map *)
Section Search.
  Variables d d' : depgraph.
  Hypothesis E : forall k, dg_get k d = dg_get k d'.
  Lemma deps_of_same v : deps_of d v = deps_of d' v.
  Proof. unfold deps_of. rewrite E. reflexivity. Qed.
  Lemma deps_loop_same v (f h : string -> tstate -> tres) : (forall w st, f w st = h w st) -> forall ds st, deps_loop d f v ds st = deps_loop d' h v ds st.
  Proof.
    intros F. induction ds as [|w ds IH]; intros st; [reflexivity|]. cbn [deps_loop]. rewrite (E w), F. destruct (dg_get w d'); [|apply IH].
    destruct (t_index st w =? 0); [destruct (h w st); auto|]. destruct (t_on st w); apply IH.
  Qed.
  Lemma strong_same f : forall v st, strongconnect d f v st = strongconnect d' f v st.
  Proof.
    induction f as [|f IH]; intros v st; [reflexivity|]. cbn [strongconnect]. rewrite deps_of_same, (deps_loop_same v _ _ IH). reflexivity.
  Qed.
  Lemma find_same f : forall order st, find_sccs d f order st = find_sccs d' f order st.
  Proof.
    induction order as [|v order IH]; intros st; [reflexivity|]. cbn [find_sccs]. rewrite strong_same. destruct (t_index st v =? 0); [|apply IH]. destruct (strongconnect d' f v st); auto.
  Qed.
  Hypothesis N : NoDup (map fst d).
  Hypothesis N' : NoDup (map fst d').
  Lemma size_same : length d = length d'.
  Proof.
    assert (H : forall a b, (forall k, dg_get k a = dg_get k b) -> NoDup (map fst a) -> length a <= length b).
    { intros a b X Nd. rewrite <- (map_length fst a), <- (map_length fst b). apply NoDup_incl_length; [exact Nd|]. intros k I. apply dg_get_in in I as (n & I). apply dg_get_in. exists n. rewrite <- X. exact I. }
    apply Nat.le_antisymm; apply H; auto.
  Qed.
  Lemma tarjan_same order : tarjan d order = tarjan d' order.
  Proof. unfold tarjan. rewrite size_same. apply find_same. Qed.
  Lemma left_recursive_same s : scc_left_recursive d s = scc_left_recursive d' s.
  Proof. destruct s as [|x [|y s]]; try reflexivity. cbn [scc_left_recursive]. rewrite deps_of_same. reflexivity. Qed.
End Search.

Lemma find_eq {A} (f h : A -> bool) : (forall x, f x = h x) -> forall l, find f l = find h l.
Proof. intros H. induction l as [|x l IH]; [reflexivity|]. cbn [find]. rewrite H, IH. reflexivity. Qed.

Lemma valid_same g g' ordn ordn' order ord fuel n input : (forall x, get_rule x g = get_rule x g') -> any_order ordn -> any_order ordn' ->
  is_valid ordn order ord fuel g n input = is_valid ordn' order ord fuel g' n input.
Proof.
  intros Get O O'. unfold is_valid. rewrite (Get n). destruct (get_rule n g') as [r|]; [|reflexivity].
  destruct (nullable_same g g' Get ordn ordn' O O') as (l & l' & E & E' & S). unfold left_recursive_sccs. rewrite E, E'.
  assert (D : forall k, dg_get k (lc_graph g l) = dg_get k (lc_graph g' l')).
  { assert (Low : forall h p k, node_in (lc_graph h p) k -> lower k = k) by (intros h p k; apply lc_node_lower).
    assert (Q : forall k, dg_get (lower k) (lc_graph g l) = dg_get (lower k) (lc_graph g' l')).
    { intros k. rewrite !lc_graph_get, Get. destruct (get_rule k g') as [x|]; [|reflexivity]. rewrite (left_corners_same l l' S). reflexivity. }
    intros k. destruct (dg_get k (lc_graph g l)) as [a|] eqn:A.
    - assert (X : lower k = k) by (apply (Low g l); apply dg_get_in; eauto). rewrite <- X, Q, X in A. symmetry. exact A.
    - destruct (dg_get k (lc_graph g' l')) as [b|] eqn:B; [|reflexivity]. assert (X : lower k = k) by (apply (Low g' l'); apply dg_get_in; eauto). rewrite <- X, <- Q, X in B. congruence. }
  rewrite (tarjan_same _ _ D (lc_nodup g l) (lc_nodup g' l') order). destruct (tarjan (lc_graph g' l') order) as [st| |]; try reflexivity.
  rewrite (reach_cong g g' input _ (fun m => find (fun s => (mem_str m s && scc_left_recursive (lc_graph g' l') s)%bool) (t_sccs st)) ord (fun _ => True) (fun _ => True)); auto.
  - intros mn mx e _. destruct e; cbn; auto.
  - intros m _. apply find_eq. intros s. rewrite (left_recursive_same _ _ D). reflexivity.
  - cbn. exact Logic.I.
Qed.

(** ** SemvalABNF *)
Lemma first_err_same {A} (f h : A -> option sem_error) : (forall x, f x = h x) -> forall l, first_err f l = first_err h l.
Proof. intros H. induction l as [|x l IH]; [reflexivity|]. cbn [first_err]. rewrite H, IH. reflexivity. Qed.
Lemma semval_get g1 g2 g g' : (forall n, get_rule n g = get_rule n g') -> semval_abnf g1 g2 g = semval_abnf g1 g2 g'.
Proof.
  intros E. unfold semval_abnf. rewrite (first_err_same _ (fun r => first_err (fun d => match get_rule d g' with None => Some (SE_dependency d) | Some _ => None end) (get_dependencies (rule_alt r)))); [reflexivity|].
  intros r. apply first_err_same. intros d. rewrite E. reflexivity.
Qed.
