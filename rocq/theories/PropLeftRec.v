(** C23, C45: nullability and left recursion. *)
(** The definitions here are those of statements, proofs and examples; they model no code. *)
From Coq Require Import ZArith Arith String Bool Relations Sorted List Lia.
From Verif Require Import Syntax Spec Deps Dag Cycle LowerLang PropTerm PropSem PropGll PropDag LeftRec.
Import ListNotations.
Local Open Scope string_scope.
Local Open Scope list_scope.

(** The names a grammar can look up, in lower case, in some order. *)
Definition name_order (g : grammar) (order : list string) : Prop :=
  forall x, In x order <-> lower x = x /\ exists a, resolves g x a.

(** *** C23: nullability *)
Theorem C23_nullable_exact : forall g ord,
  distinct_names g -> bounds_ok g -> any_order ord ->
  exists null, nullable_rules g ord = Some null /\
    forall n, In (lower n) null <-> Lang g n [].
Proof.
  intros g ord D B O. destruct (nullable_rules_exact g D B ord O) as (null & E & So & Cl).
  exists null. split; auto. intros n. unfold Lang. apply null_spec; auto.
Qed.

(** *** C45: left recursion *)
Lemma reach1_to_reach dg x y : reach1 dg x y -> reach dg x y.
Proof. intros R. induction R; [apply rt_step; auto|eapply rt_trans; eauto]. Qed.
Section Exact.
  Variables (g : grammar) (ord : nat -> list string -> list string) (order : list string).
  Hypothesis D : distinct_names g.
  Hypothesis B : bounds_ok g.
  Hypothesis O : any_order ord.
  Hypothesis K : name_order g order.

  Lemma lr_setup : exists null st, null_sound g null /\ null_closed g null /\
    let dg := lc_graph g null in
    (forall x, In x order <-> node_in dg x) /\
    left_recursive_sccs g ord order = Some (fun m => find (fun s => (mem_str m s && scc_left_recursive dg s)%bool) (t_sccs st)) /\
    (forall s, In s (t_sccs st) -> is_scc dg s \/ (exists r rest, order = r :: rest /\ s = [r])) /\
    (forall x, node_in dg x -> exists s, In s (t_sccs st) /\ is_scc dg s /\ In x s).
  Proof.
    destruct (nullable_rules_exact g D B ord O) as (null & E & So & Cl).
    assert (Kn : forall x, In x order <-> node_in (lc_graph g null) x).
    { intros x. rewrite (K x). split.
      - intros [L R]. rewrite <- L. apply lc_node; auto.
      - intros N. assert (L := lc_node_lower g null x N). split; auto. rewrite <- L in N. apply (lc_node g D null) in N. exact N. }
    destruct (tarjan_correct (lc_graph g null) order Kn) as (st & T & P & Q).
    exists null, st. split; [exact So|]. split; [exact Cl|]. cbv zeta. split; [exact Kn|]. split; [|split; assumption].
    unfold left_recursive_sccs. rewrite E, T. reflexivity.
  Qed.

  (** A self-reaching node of a one-node component has an edge to itself. *)
  Lemma singleton_self dg s x : is_scc dg s -> In x s -> reach1 dg x x -> scc_left_recursive dg s = true.
  Proof.
    intros (Ne & Nd & No & C) I R. destruct s as [|y [|z s]]; [easy| |reflexivity]. destruct I as [->|[]].
    cbn [scc_left_recursive]. apply mem_str_in. apply clos_trans_t1n in R. inversion R as [y E|y z E R']; subst.
    - apply E.
    - assert (H : In y [x]).
      { apply (C x); [left; auto|]. split; [apply rt_step; auto|]. apply clos_t1n_trans in R'. apply (reach1_to_reach dg). exact R'. }
      destruct H as [<-|[]]. apply E.
  Qed.
  Lemma cyc_of_scc dg s x : is_scc dg s -> In x s -> scc_left_recursive dg s = true ->
    reach1 dg x x.
  Proof.
    intros (Ne & Nd & No & C) I L. destruct s as [|y [|z s]]; [easy| |].
    - destruct I as [->|[]]. cbn in L. apply mem_str_in in L. apply t_step. split; auto. apply No. left. auto.
    - assert (exists w, In w (y :: z :: s) /\ w <> x) as (w & Iw & Nw).
      { inversion Nd as [|? ? N1 N2]; subst. destruct (string_dec y x) as [<-|Ny].
        - exists z. split; [right; left; auto|]. intros ->. apply N1. left. auto.
        - exists y. split; [left; auto|auto]. }
      destruct (proj1 (C x I w) Iw) as [R1 R2].
      apply reach_cases in R1 as [->|R1]; [contradiction|]. apply reach_cases in R2 as [->|R2]; [contradiction|].
      eapply t_trans; eauto.
  Qed.
End Exact.

(** Which rules are left recursive is decided exactly. *)
Theorem C45_left_recursion_detected : forall g ord order,
  distinct_names g -> bounds_ok g -> any_order ord -> name_order g order ->
  exists lr, left_recursive_sccs g ord order = Some lr /\
    forall n, (exists ms, lr (lower n) = Some ms) <-> left_recursive g n.
Proof.
  intros g ord order D B O K. destruct (lr_setup g ord order D B O K) as (null & st & So & Cl & Kn & E & P & Q).
  eexists. split; [exact E|]. intros n. cbv beta. rewrite (lr_spec g D B null So Cl). set (dg := lc_graph g null) in *. split.
  - intros (ms & F). apply find_some in F as [I F]. apply andb_true_iff in F as [M L]. apply mem_str_in in M.
    destruct (P ms I) as [S|(r & rest & Eo & Es)].
    + eapply cyc_of_scc; eauto.
    + subst ms. destruct M as [<-|[]]. cbn in L. apply mem_str_in in L. apply t_step. split; auto. apply Kn. rewrite Eo. left. auto.
  - intros R. assert (N : node_in dg (lower n)) by (eapply reach1_node; eauto).
    destruct (Q _ N) as (s & I & S & M).
    destruct (find _ (t_sccs st)) as [ms|] eqn:F; [eauto|]. eapply find_none in F; [|exact I]. cbv beta in F.
    rewrite (singleton_self dg s (lower n) S M R), andb_true_r in F. apply mem_str_in in M. congruence.
Qed.

(** The rules grown together with [n] are exactly those mutually left recursive
    with it -- for every rule but the one the search starts from.  Missing for
    the full claim: that first rule, when it is both directly left recursive and
    left recursive through another rule; see [C45_mutual_refuted]. *)
Theorem C45_mutual_partial : forall g ord order,
  distinct_names g -> bounds_ok g -> any_order ord -> name_order g order ->
  exists lr, left_recursive_sccs g ord order = Some lr /\
    forall n ms, lr (lower n) = Some ms ->
      (forall rest, order <> lower n :: rest) \/ ~ lc_ref g n n \/ (forall m, mutually_left g n m -> same_name m n) ->
      forall m, In (lower m) ms <-> mutually_left g n m.
Proof.
  intros g ord order D B O K. destruct (lr_setup g ord order D B O K) as (null & st & So & Cl & Kn & E & P & Q).
  eexists. split; [exact E|]. intros n ms F H m. cbv beta in F. rewrite (mutual_spec g D B null So Cl).
  pose proof (lc_deps g D B null So Cl n n) as LD. pose proof (mutual_spec g D B null So Cl) as MS.
  pose proof (lc_node_lower g null) as NL.
  set (dg := lc_graph g null) in *.
  apply find_some in F as [I F]. apply andb_true_iff in F as [M L]. apply mem_str_in in M.
  assert (Main : is_scc dg ms -> (In (lower m) ms <-> reach1 dg (lower n) (lower m) /\ reach1 dg (lower m) (lower n))).
  { intros S. pose proof (cyc_of_scc _ _ _ S M L) as R. destruct S as (Ne & Nd & No & C). rewrite (C _ M). split.
    - intros [R1 R2]. apply reach_cases in R1 as [R1|R1].
      + rewrite <- R1. auto.
      + split; auto. apply reach_cases in R2 as [R2|R2]; auto. rewrite R2. auto.
    - intros [R1 R2]. split; apply (reach1_to_reach dg); auto. }
  destruct (P ms I) as [S|(r & rest & Eo & Es)]; [apply Main; auto|].
  subst ms. destruct M as [->|[]]. cbn in L. apply mem_str_in in L.
  assert (Nr : node_in dg (lower n)) by (apply Kn; rewrite Eo; left; auto).
  assert (Rr : reach1 dg (lower n) (lower n)) by (apply t_step; split; auto).
  destruct H as [H|[H|H]].
  - exfalso. eapply H; eauto.
  - exfalso. apply H, LD, L.
  - split.
    + intros [<-|[]]. auto.
    + intros X. left. apply MS in X. apply H in X. unfold same_name in X. auto.
Qed.

(** The full claim fails: [a] is both directly left recursive and left recursive
    through [b], but when the search starts at [a] only [a] itself is grown with
    it. *)
Definition g_lr : grammar :=
  [mkRule "a" [[Rep 1 1 (ERule "a"); Rep 1 1 (EChar false [120%Z])];
               [Rep 1 1 (ERule "b"); Rep 1 1 (EChar false [122%Z])];
               [Rep 1 1 (EChar false [113%Z])]];
   mkRule "b" [[Rep 0 1 (EChar false [121%Z]); Rep 1 1 (ERule "A")]]].
Definition ord_lr (x : string) : list string := x :: filter (fun y => negb (String.eqb x y)) (all_names g_lr).

Lemma all_names_order g : distinct_names g -> name_order g (all_names g).
Proof.
  intros D x. split.
  - intros I. assert (L := all_names_lower g x I). split; auto. rewrite <- L in I. apply all_names_spec in I as (r & G).
    exists (rule_alt r). apply (get_rule_resolves g x D); auto.
  - intros [L (a & R)]. rewrite <- L. apply all_names_spec. destruct (proj2 (get_rule_resolves g x D) a R) as (r & G & _). eauto.
Qed.
Lemma name_order_same g o1 o2 : (forall x, In x o1 <-> In x o2) -> name_order g o1 -> name_order g o2.
Proof. intros H K x. rewrite <- H. apply K. Qed.

Lemma g_lr_distinct : distinct_names g_lr.
Proof. unfold distinct_names. repeat constructor; cbn; intuition discriminate. Qed.

(** Bounds of a grammar are decided by looking at it. *)
Fixpoint elem_bounds (e : elem) : bool :=
  match e with
  | EGroup a | EOption a => forallb (fun c => forallb (fun r => rep_bounds r) c) a
  | ENum _ _ vs => negb (Nat.eqb (length vs) 0)
  | _ => true
  end
with rep_bounds (r : rep) : bool :=
  match r with Rep mn mx e => ((0 <=? mn)%Z && ((mx =? inf)%Z || (mn <=? mx)%Z) && elem_bounds e)%bool end.
Scheme bocc_elem_mut := Minimality for occ_elem Sort Prop
with bocc_rep_mut := Minimality for occ_rep Sort Prop.
Combined Scheme bocc_ind from bocc_elem_mut, bocc_rep_mut.
Lemma bounds_dec g : forallb (fun r => forallb (fun c => forallb rep_bounds c) (rule_alt r)) (g ++ core_rules) = true -> bounds_ok g.
Proof.
  intros H. rewrite forallb_forall in H.
  assert (A : forall a, forallb (fun c => forallb rep_bounds c) a = true -> forall c r, In c a -> In r c -> rep_bounds r = true).
  { intros a F c r Ic Ir. rewrite forallb_forall in F. specialize (F c Ic). rewrite forallb_forall in F. auto. }
  assert (M : (forall e, occ_elem g e -> elem_bounds e = true) /\ (forall r, occ_rep g r -> rep_bounds r = true)).
  { apply bocc_ind.
    - intros mn mx e _ R. cbn [rep_bounds] in R. apply andb_true_iff in R as [_ R]. exact R.
    - intros r c x I Ic Ix. eapply A; eauto.
    - intros a c x _ R Ic Ix. eapply A; eauto.
    - intros a c x _ R Ic Ix. eapply A; eauto. }
  split.
  - intros mn mx e Oc. apply (proj2 M) in Oc. cbn in Oc. apply andb_true_iff in Oc as [Oc _]. apply andb_true_iff in Oc as [P Q].
    apply Z.leb_le in P. apply orb_true_iff in Q as [Q|Q]; [apply Z.eqb_eq in Q|apply Z.leb_le in Q]; auto.
  - intros b st Oc. apply (proj1 M) in Oc. discriminate.
Qed.

Lemma ord_lr_ok x : In x (all_names g_lr) -> name_order g_lr (ord_lr x).
Proof.
  intros I. eapply name_order_same; [|apply all_names_order, g_lr_distinct]. intros y. unfold ord_lr. cbn [In].
  rewrite filter_In. split.
  - intros H. destruct (String.eqb_spec x y) as [->|N]; [left; auto|]. right. split; [exact H|reflexivity].
  - intros [<-|[H _]]; auto.
Qed.
Lemma g_lr_ab : lc_ref g_lr "a" "b" /\ lc_ref g_lr "b" "a" /\ lc_ref g_lr "a" "a".
Proof.
  assert (Ra : resolves g_lr "a" (rule_alt (nth 0 g_lr (mkRule "" [])))).
  { left. exists (nth 0 g_lr (mkRule "" [])). split; [left; auto|]. split; auto. reflexivity. }
  split; [|split].
  - eexists. split; [exact Ra|]. apply lcr_cat with (pre := []) (mn := 1%Z) (mx := 1%Z) (e := ERule "b") (post := [Rep 1 1 (EChar false [122%Z])]).
    + right. left. reflexivity.
    + intros r [].
    + constructor. reflexivity.
  - eexists. split.
    + left. exists (nth 1 g_lr (mkRule "" [])). split; [right; left; auto|]. split; [reflexivity|reflexivity].
    + apply lcr_cat with (pre := [Rep 0 1 (EChar false [121%Z])]) (mn := 1%Z) (mx := 1%Z) (e := ERule "A") (post := []).
      * left. reflexivity.
      * intros r [<-|[]]. apply (in_rep_intro _ 0%Z 1%Z _ 0); [cbn; lia|right; cbn; lia|constructor].
      * constructor. reflexivity.
  - eexists. split; [exact Ra|]. apply lcr_cat with (pre := []) (mn := 1%Z) (mx := 1%Z) (e := ERule "a") (post := [Rep 1 1 (EChar false [120%Z])]).
    + left. reflexivity.
    + intros r [].
    + constructor. reflexivity.
Qed.

Theorem C45_mutual_refuted : exists g ord order n m lr ms,
  distinct_names g /\ bounds_ok g /\ any_order ord /\ name_order g order /\
  left_recursive_sccs g ord order = Some lr /\ lr (lower n) = Some ms /\
  mutually_left g n m /\ ~ In (lower m) ms.
Proof.
  exists g_lr, (fun _ l => l), (ord_lr "a"), "a", "b". eexists. exists ["a"].
  split; [exact g_lr_distinct|]. split; [apply bounds_dec; vm_compute; reflexivity|].
  split; [intros t l x; reflexivity|].
  split; [apply ord_lr_ok; vm_compute; auto|].
  split; [unfold left_recursive_sccs; vm_compute (nullable_rules _ _); cbv iota zeta;
          match goal with |- context [tarjan ?d ?o] => let v := eval vm_compute in (tarjan d o) in change (tarjan d o) with v end; reflexivity|].
  split; [vm_compute; reflexivity|].
  split; [|cbn; intros [H|[]]; discriminate].
  destruct g_lr_ab as (H1 & H2 & _). split; apply t_step; auto.
Qed.

(** *** Non-trivial cases *)
(** [c] derives the empty word through [d] (found in a second round when [c]
    comes first), [e] does not. *)
Definition g_null : grammar :=
  [mkRule "c" [[Rep 2 5 (ERule "D")]; [Rep 1 1 (ERule "ALPHA")]];
   mkRule "d" [[Rep 1 1 (EOption [[Rep 1 1 (ERule "e")]]); Rep 0 inf (EChar false [120%Z])]];
   mkRule "e" [[Rep 1 1 (ERule "c"); Rep 1 1 (ENum "x"%string StatRange ["30"; "39"]%string)]]].
Example C23_case : distinct_names g_null /\ bounds_ok g_null /\
  (exists null, nullable_rules g_null (fun _ l => l) = Some null /\ In "c" null /\ In "d" null /\ ~ In "e" null) /\
  Lang g_null "C" [] /\ ~ Lang g_null "e" [].
Proof.
  assert (D : distinct_names g_null) by (unfold distinct_names; repeat constructor; cbn; intuition discriminate).
  assert (B : bounds_ok g_null) by (apply bounds_dec; vm_compute; reflexivity).
  destruct (C23_nullable_exact g_null (fun _ l => l) D B) as (null & E & H); [intros t l x; reflexivity|].
  split; auto. split; auto. pose proof E as E'. vm_compute in E. inversion E as [E0]. split.
  - exists null. split; [exact E'|]. rewrite <- E0. split; [left; reflexivity|]. split; [right; right; left; reflexivity|].
    cbn; intros [X|[X|[X|[]]]]; discriminate.
  - split.
    + apply (H "C"). rewrite <- E0. vm_compute. left; reflexivity.
    + intros X. apply (H "e") in X. rewrite <- E0 in X. vm_compute in X. destruct X as [X|[X|[X|[]]]]; discriminate.
Qed.
(** Starting elsewhere the same grammar is analysed exactly. *)
Example C45_case : distinct_names g_lr /\ bounds_ok g_lr /\ name_order g_lr (ord_lr "b") /\ left_recursive g_lr "a" /\
  exists lr ms, left_recursive_sccs g_lr (fun _ l => l) (ord_lr "b") = Some lr /\ lr "a" = Some ms /\ In "b" ms /\
    (forall rest, ord_lr "b" <> "a" :: rest) /\ lr "alpha" = None.
Proof.
  split; [exact g_lr_distinct|]. split; [apply bounds_dec; vm_compute; reflexivity|].
  split; [apply ord_lr_ok; vm_compute; auto|]. split; [apply t_step, g_lr_ab|].
  eexists. eexists.
  split; [unfold left_recursive_sccs; vm_compute (nullable_rules _ _); cbv iota zeta;
          match goal with |- context [tarjan ?d ?o] => let v := eval vm_compute in (tarjan d o) in change (tarjan d o) with v end; reflexivity|].
  split; [vm_compute; reflexivity|]. split; [vm_compute; auto|]. split; [intros rest H; vm_compute in H; discriminate|vm_compute; reflexivity].
Qed.

Print Assumptions C23_nullable_exact.
Print Assumptions C45_left_recursion_detected.
Print Assumptions C45_mutual_partial.
Print Assumptions C45_mutual_refuted.
