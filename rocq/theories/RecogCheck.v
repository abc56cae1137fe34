(** Executable sufficient conditions for the hypotheses of C02 and C04.  Nothing
    here models code of /repo: they only discharge hypotheses on examples. *)
From Coq Require Import ZArith Arith String Ascii Bool Relations List Lia.
From Verif Require Import Syntax Spec Num Term Printer PrintInj Deps Dag Cycle LowerLang Check PropTerm PropSem PropGll PropDag LeftRec PropLeftRec Recog RecogProof RecogComplete RecogGlue.
Import ListNotations.
Local Open Scope list_scope.

(** ** A test on every repetition of a grammar *)
Fixpoint elem_reps (e : elem) : list rep :=
  match e with EGroup a | EOption a => flat_map (fun c => flat_map (fun r => rep_reps r) c) a | _ => [] end
with rep_reps (r : rep) : list rep := r :: match r with Rep _ _ e => elem_reps e end.
Definition grammar_reps (g : grammar) : list rep :=
  flat_map (fun r => flat_map (fun c => flat_map rep_reps c) (rule_alt r)) (g ++ core_rules).
Lemma occ_reps g : (forall e, occ_elem g e -> incl (elem_reps e) (grammar_reps g)) /\
  (forall r, occ_rep g r -> incl (rep_reps r) (grammar_reps g)).
Proof.
  apply occ_min.
  - intros mn mx e _ H y Hy. apply H. right. exact Hy.
  - intros r c x H1 H2 H3 y Hy. unfold grammar_reps. apply in_flat_map. exists r. split; auto.
    apply in_flat_map. exists c. split; auto. apply in_flat_map. exists x. auto.
  - intros a c x _ IH H2 H3 y Hy. apply IH. cbn [elem_reps]. apply in_flat_map. exists c. split; auto.
    apply in_flat_map. exists x. auto.
  - intros a c x _ IH H2 H3 y Hy. apply IH. cbn [elem_reps]. apply in_flat_map. exists c. split; auto.
    apply in_flat_map. exists x. auto.
Qed.
Lemma occ_rep_in g r : occ_rep g r -> In r (grammar_reps g).
Proof. intros H. apply (proj2 (occ_reps g) r H). destruct r; left; reflexivity. Qed.

(** ** No left corner leads back *)
(** A repetition that is never empty, seen from its shape alone. *)
Definition hard (r : rep) : bool :=
  match r with
  | Rep mn _ (EChar _ (_ :: _)) | Rep mn _ (ENum _ StatRange _) => (1 <=? mn)%Z
  | _ => false
  end.
Lemma utf8_nonempty r : utf8 r <> [].
Proof. unfold utf8. repeat (destruct (_ <? _)%Z); discriminate. Qed.
Lemma hard_ok g r : hard r = true -> ~ in_rep g r [].
Proof.
  destruct r as [mn mx e]. intros H I. assert (M : (1 <= mn)%Z) by (destruct e as [| | |s [|v vs]|b [|]|]; try discriminate; apply Z.leb_le; exact H).
  inversion I as [? ? ? k ? A B P]; subst. destruct k as [|k]; [lia|]. inversion P as [|? ? w1 w2 P1 P2 Q]; subst.
  match goal with Q : w1 ++ w2 = [] |- _ => apply app_eq_nil in Q as [-> ->] end.
  destruct e as [| | |s [|v vs]|b [|]|]; try discriminate H.
  - inversion P1 as [| | | |? ? rs F Sc| |]; subst. inversion F; subst.
    match goal with Q : utf8s _ = [] |- _ => cbn in Q; apply app_eq_nil in Q as [Q _]; exact (utf8_nonempty _ Q) end.
  - inversion P1; subst.
    match goal with Q : utf8 _ = [] |- _ => exact (utf8_nonempty _ Q) end.
Qed.
Fixpoint firsts (c : concatenation) : list elem :=
  match c with [] => [] | r :: c' => rep_elem r :: (if hard r then [] else firsts c') end.
Definition bodyf (g : grammar) (e : elem) : alternation :=
  match e with ERule n => match get_rule n g with Some r => rule_alt r | None => [] end | EGroup a | EOption a => a | _ => [] end.
(** No path of left corners from [e] has [f] steps. *)
Fixpoint shallow (g : grammar) (f : nat) (e : elem) : bool :=
  match f with O => false | S f' => forallb (fun c => forallb (shallow g f') (firsts c)) (bodyf g e) end.

Section Shallow.
  Variable g : grammar.
  Hypothesis D : distinct_names g.
  Lemma body_f e a : body g e a -> bodyf g e = a.
  Proof.
    intros H. destruct H as [n a R|a|a]; cbn; auto. apply (proj2 (get_rule_resolves g n D)) in R as (r & -> & <-). reflexivity.
  Qed.
  Lemma firsts_in c : forall pre mn mx x post, c = pre ++ Rep mn mx x :: post -> (forall r, In r pre -> in_rep g r []) -> In x (firsts c).
  Proof.
    induction c as [|r c IH]; intros pre mn mx x post E P; [destruct pre; discriminate|]. cbn [firsts].
    destruct pre as [|r' pre]; cbn [app] in E; injection E as -> E; [left; reflexivity|]. right.
    destruct (hard r') eqn:H; [exfalso; eapply hard_ok; eauto; apply P; left; reflexivity|].
    eapply IH; eauto. intros y Y. apply P. right. exact Y.
  Qed.
  Lemma bodyf_canon e e' : canon e = canon e' -> bodyf g e = bodyf g e'.
  Proof.
    destruct e as [n|a|a|s v|b s v|v], e' as [n'|a'|a'|s' v'|b' s' v'|v']; cbn [canon]; intros E; try discriminate E; cbn [bodyf]; try reflexivity; injection E as E; try exact E.
    rewrite <- (get_rule_lower n), <- (get_rule_lower n'), E. reflexivity.
  Qed.
  Lemma shallow_canon f e e' : canon e = canon e' -> shallow g f e = shallow g f e'.
  Proof. intros E. destruct f; cbn [shallow]; [reflexivity|]. rewrite (bodyf_canon e e' E). reflexivity. Qed.
  Lemma shallow_corner f e e' : shallow g f e = true -> corner g e e' -> exists f', f' < f /\ shallow g f' e' = true.
  Proof.
    intros H (a & pre & mn & mx & x & post & B & I & P & X). destruct f as [|f]; [discriminate|]. exists f. split; [lia|].
    cbn [shallow] in H. rewrite forallb_forall in H. rewrite (body_f e a B) in H. specialize (H _ I). rewrite forallb_forall in H.
    rewrite <- (shallow_canon f x e' X). apply H. eapply firsts_in; eauto.
  Qed.
  Lemma shallow_corners e e' : corners g e e' -> forall f, shallow g f e = true -> exists f', f' < f /\ shallow g f' e' = true.
  Proof.
    intros H. induction H as [e e' H|e k e' H1 IH1 H2 IH2]; intros f S.
    - eapply shallow_corner; eauto.
    - destruct (IH1 f S) as (f1 & L1 & S1). destruct (IH2 f1 S1) as (f2 & L2 & S2). exists f2. split; [lia|auto].
  Qed.
  Lemma shallow_not f e : shallow g f e = true -> ~ corners g e e.
  Proof.
    induction f as [f IH] using lt_wf_ind. intros S C. destruct (shallow_corners e e C f S) as (f' & L & S'). exact (IH f' L S' C).
  Qed.
  (** Every group and option of a grammar. *)
  Definition groups_shallow (f : nat) : bool :=
    forallb (fun r => match rep_elem r with (EGroup _ | EOption _) as e => shallow g f e | _ => true end) (grammar_reps g).
  Lemma groups_shallow_ok f : groups_shallow f = true -> forall e, occ_elem g e -> (exists a, e = EGroup a \/ e = EOption a) -> ~ corners g e e.
  Proof.
    intros H e Oc (a & E). inversion Oc as [mn mx ? R]; subst. apply occ_rep_in in R.
    unfold groups_shallow in H. rewrite forallb_forall in H. specialize (H _ R). cbn [rep_elem] in H.
    destruct E as [-> | ->]; eapply shallow_not; eauto.
  Qed.
End Shallow.

(** ** Classes of one rule each *)
(** Checked on one order whose first rule is not left recursive. *)
Lemma single_classes g ordn order x rest f :
  any_order ordn -> name_order g order -> distinct_names g -> bounds_ok g ->
  order = x :: rest -> shallow g f (ERule x) = true ->
  match left_recursive_sccs g ordn order with
  | Some lr => forallb (fun y => match lr y with Some ms => length ms <=? 1 | None => true end) (all_names g) = true
  | None => False
  end ->
  forall n, forall m, mutually_left g n m -> same_name m n.
Proof.
  intros On K D B E Sh H n m M.
  assert (FF : fine_first g order).
  { intros n' rest' E' R. exfalso. rewrite E in E'. injection E' as E' _.
    assert (Sx : shallow g f (ERule n') = true) by (rewrite (shallow_canon g f (ERule n') (ERule x)); [exact Sh|cbn; rewrite E', lower_lower; reflexivity]).
    apply (shallow_not g D f (ERule n') Sx). apply lc_corners. apply t_step. exact R. }
  destruct (classes g ordn order On K D B FF) as (lr & El & Det & Mu). rewrite El in H. rewrite forallb_forall in H.
  assert (R : left_recursive g n) by (destruct M as [A C]; eapply t_trans; eauto).
  destruct (proj2 (Det n) R) as (ms & Hm).
  assert (In (lower n) (all_names g)).
  { destruct (analysis_total g ordn order On K) as (lr' & E' & LI & Nd & Lo). rewrite El in E'. injection E' as <-.
    apply (all_names_order g D). apply (Lo (lower n) ms (lower n) Hm (LI _ _ Hm)). }
  specialize (H _ H0). rewrite Hm in H. apply Nat.leb_le in H.
  assert (I1 : In (lower n) ms) by (apply (Mu n ms Hm); split; exact R).
  assert (I2 : In (lower m) ms) by (apply (Mu n ms Hm); exact M).
  destruct ms as [|y [|]]; cbn [length] in H; [destruct I1| |lia]. destruct I1 as [I1|[]], I2 as [I2|[]]. unfold same_name. congruence.
Qed.
