(** IsDAG and RuleContainsCycle: dag.go:79-178. *)
From Coq Require Import Arith String Bool Relations Sorted List Lia.
From Verif Require Import Syntax Spec Deps Dag.
Import ListNotations.
Local Open Scope list_scope.

(** ** Model *)

(** IsDAG (dag.go:83-97); [order] is the iteration order of find.  [None] is a
    panic or a search that does not end. *)
Definition is_dag (g : grammar) (order : list string) : option bool :=
  match tarjan (dependency_graph g) order with
  | TOk st => Some (forallb (fun s => length s <=? 1) (t_sccs st))
  | _ => None
  end.

(** A read of visited (dag.go:147). *)
Definition mem_str (x : string) (l : list string) : bool := existsb (String.eqb x) l.

Section Visit.
  Variable dg : depgraph.
  Variable sccs : list (list string).        (* latest first, as in tstate *)

  (** nodeOf (dag.go:126, 133): nil unless the node was in some component. *)
  Definition node_of (key : string) : option dnode :=
    if existsb (mem_str key) sccs then dg_get key dg else None.

  (** inCycle (dag.go:127, 134): the last component listing the key decides. *)
  Definition in_cycle (key : string) : bool :=
    match find (mem_str key) sccs with Some s => 1 <? length s | None => false end.

  Section Loop.
    Variable visit : string -> list string -> option (bool * list string).
    Variable key : string.
    (** The loop over the dependencies (dag.go:168-176); [visit] is the recursive call. *)
    Fixpoint visit_deps (deps vis : list string) : option (bool * list string) :=
      match deps with
      | [] => Some (false, vis)
      | d :: deps' =>
          let dk := lower d in
          if String.eqb dk key then visit_deps deps' vis
          else match visit dk vis with
               | None => None
               | Some (true, vis') => Some (true, vis')
               | Some (false, vis') => visit_deps deps' vis'
               end
      end.
  End Loop.

  (** ruleCycleVisit (dag.go:146-178); the visited set is threaded through. *)
  Fixpoint rule_cycle_visit (fuel : nat) (key : string) (vis : list string) : option (bool * list string) :=
    match fuel with
    | O => None
    | S f =>
        if mem_str key vis then Some (false, vis)
        else
          let vis := key :: vis in
          match node_of key with
          | None => Some (false, vis)
          | Some nd =>
              if existsb (fun d => String.eqb (lower d) key) (dn_deps nd) then Some (true, vis)
              else if in_cycle key then Some (true, vis)
              else visit_deps (rule_cycle_visit f) key (dn_deps nd) vis
          end
    end.
End Visit.

(** The result of RuleContainsCycle. *)
Inductive rcc : Type := RccNotFound | RccBool (b : bool) | RccStuck.

(** RuleContainsCycle (dag.go:102-120) and ruleContainsCycle (dag.go:122-138). *)
Definition rule_contains_cycle (g : grammar) (order : list string) (rulename : string) : rcc :=
  match get_rule rulename g with
  | None => RccNotFound
  | Some _ =>
      let dg := dependency_graph g in
      match tarjan dg order with
      | TOk st =>
          match rule_cycle_visit dg (t_sccs st) (S (S (length dg))) (lower rulename) [] with
          | Some (b, _) => RccBool b
          | None => RccStuck
          end
      | _ => RccStuck
      end
  end.

(** ** Proofs *)
Lemma mem_str_in x l : mem_str x l = true <-> In x l.
Proof.
  unfold mem_str. rewrite existsb_exists. split.
  - intros (y & A & B). apply String.eqb_eq in B. subst. auto.
  - intros H. exists x. split; auto. apply String.eqb_refl.
Qed.

Section Proof.
  Variable dg : depgraph.
  Variable sccs : list (list string).
  Variable r0 : string.
  Hypothesis deps_lower : forall x y, In y (deps_of dg x) -> lower y = y.
  Hypothesis sound : forall s, In s sccs -> is_scc dg s \/ s = [r0].
  Hypothesis cover : forall x, node_in dg x -> exists s, In s sccs /\ is_scc dg s /\ In x s.

  (** (proof) a node the visit answers true on at once: a self loop or inCycle (dag.go:157-166). *)
  Definition flagged (x : string) : Prop := edge dg x x \/ in_cycle sccs x = true.

  Lemma reach1_split x y : reach1 dg x y -> exists z, edge dg x z /\ reach dg z y.
  Proof.
    intros R. apply clos_trans_t1n in R. inversion R as [? E|z ? E R']; subst.
    - exists y. split; auto. apply reach_refl.
    - exists z. split; auto. apply clos_t1n_trans in R'. clear -R'. induction R'; [apply rt_step; auto|eapply rt_trans; eauto].
  Qed.
  Lemma edge_reach1 x y z : edge dg x y -> reach dg y z -> reach1 dg x z.
  Proof.
    intros E R. apply clos_rt_rt1n in R. revert x E. induction R as [u|a b c E' R IH]; intros x E; [apply t_step; auto|].
    apply t_trans with a; [apply t_step; auto|]. apply IH. auto.
  Qed.
  Lemma reach_cases x y : reach dg x y -> x = y \/ reach1 dg x y.
  Proof.
    intros R. apply clos_rt_rt1n in R. inversion R as [|a b E R']; subst; auto. right.
    apply clos_rt1n_rt in R'. eapply edge_reach1; eauto.
  Qed.

  Lemma reach1_node x y : reach1 dg x y -> node_in dg y.
  Proof. intros R. induction R as [x y E|x y z R1 IH1 R2 IH2]; auto. apply E. Qed.

  Lemma flagged_cyclic x : flagged x -> reach1 dg x x.
  Proof.
    intros [E|H]; [apply t_step; auto|]. unfold in_cycle in H.
    destruct (find (mem_str x) sccs) as [s|] eqn:F; [|discriminate]. apply find_some in F as [F1 F2].
    apply mem_str_in in F2. apply Nat.ltb_lt in H.
    destruct (sound s F1) as [(_ & ND & _ & C)|E]; [|subst s; cbn in H; lia].
    assert (exists y, In y s /\ y <> x) as (y & Iy & Ny).
    { destruct s as [|a [|b s]]; cbn in H; try lia. destruct (string_dec a x) as [->|N].
      - exists b. split; [right; left; auto|]. intros ->. inversion ND as [|? ? A B]; subst. apply A. left. auto.
      - exists a. split; [left; auto|auto]. }
    apply (C x F2) in Iy as [R1 R2]. destruct (reach_cases _ _ R1) as [E|R1']; [congruence|].
    destruct (reach_cases _ _ R2) as [E|R2']; [congruence|]. eapply t_trans; eauto.
  Qed.

  Lemma big_scc_flagged x y : x <> y -> reach dg x y -> reach dg y x -> node_in dg x -> x <> r0 -> flagged x.
  Proof.
    intros N R1 R2 D Nr. right. destruct (cover x D) as (s & Is & Cs & Ix).
    assert (exists s', find (mem_str x) sccs = Some s') as (s' & F).
    { destruct (find (mem_str x) sccs) as [s'|] eqn:F; [eauto|]. exfalso.
      eapply find_none in F; [|exact Is]. apply mem_str_in in Ix. congruence. }
    unfold in_cycle. rewrite F. apply find_some in F as [F1 F2]. apply mem_str_in in F2.
    destruct (sound s' F1) as [(_ & ND & _ & C)|E].
    - assert (Iy : In y s') by (apply (C x F2); auto). apply Nat.ltb_lt.
      destruct s' as [|a [|b s']]; cbn; [easy| |lia]. exfalso. destruct F2 as [<-|[]], Iy as [<-|[]]. auto.
    - subst s'. destruct F2 as [<-|[]]. congruence.
  Qed.

  Lemma cyclic_flagged x : reach1 dg x x -> flagged x \/ exists y, edge dg x y /\ flagged y.
  Proof.
    intros R. destruct (reach1_split _ _ R) as (z & E & R'). destruct (string_dec x z) as [->|N].
    - left. left. auto.
    - assert (Rx : reach dg x z) by (apply reach_edge; auto).
      destruct (string_dec z r0) as [->|Nz].
      + left. apply (big_scc_flagged x r0); auto.
        apply (reach1_node _ _ R).
      + right. exists z. split; auto. apply (big_scc_flagged z x); auto. apply E.
  Qed.

  Lemma node_of_some x : node_in dg x -> exists nd, node_of dg sccs x = Some nd /\ dn_deps nd = deps_of dg x.
  Proof.
    intros D. unfold node_of. destruct (cover x D) as (s & Is & _ & Ix).
    assert (existsb (mem_str x) sccs = true) as ->.
    { apply existsb_exists. exists s. split; auto. apply mem_str_in. auto. }
    apply dg_get_in in D as (nd & H). exists nd. split; auto. unfold deps_of. rewrite H. auto.
  Qed.
  Lemma node_of_none x : ~ node_in dg x -> node_of dg sccs x = None.
  Proof.
    intros D. unfold node_of. destruct (existsb (mem_str x) sccs); auto.
    destruct (dg_get x dg) as [nd|] eqn:E; auto. exfalso. apply D. apply dg_get_in. eauto.
  Qed.

  (** Unvisited nodes bound the depth. *)
  Definition fresh (vis : list string) : nat := length (filter (fun x => negb (mem_str x vis)) (map fst dg)).

  Lemma fresh_mono vis vis' : (forall x, In x vis -> In x vis') -> fresh vis' <= fresh vis.
  Proof.
    intros H. apply filter_le_mono. intros x _ E. apply negb_true_iff in E. apply negb_true_iff.
    destruct (mem_str x vis) eqn:M; auto. apply mem_str_in in M. apply H in M. apply mem_str_in in M. congruence.
  Qed.
  Lemma fresh_lt vis x : node_in dg x -> ~ In x vis -> fresh (x :: vis) < fresh vis.
  Proof.
    intros D N. apply filter_lt_mono with (y := x); auto.
    - intros z _ E. apply negb_true_iff in E. apply negb_true_iff.
      destruct (mem_str z vis) eqn:M; auto. apply mem_str_in in M.
      assert (mem_str z (x :: vis) = true) by (apply mem_str_in; right; auto). congruence.
    - apply negb_false_iff. apply mem_str_in. left. auto.
    - apply negb_true_iff. destruct (mem_str x vis) eqn:M; auto. apply mem_str_in in M. contradiction.
  Qed.

  (** What a visit answers. *)
  Definition answer (key : string) (vis : list string) (b : bool) (vis' : list string) : Prop :=
    (forall x, In x vis -> In x vis') /\
    if b then exists y, reach dg key y /\ reach1 dg y y
    else In key vis' /\ forall x, In x vis' -> In x vis \/
           (~ flagged x /\ forall y, edge dg x y -> In y vis').

  Lemma visit_ok f : forall key vis, fresh vis < f ->
    exists b vis', rule_cycle_visit dg sccs f key vis = Some (b, vis') /\ answer key vis b vis'.
  Proof.
    induction f as [|f IH]; intros key vis Fr; [lia|]. cbn [rule_cycle_visit].
    destruct (mem_str key vis) eqn:M.
    { apply mem_str_in in M. exists false, vis. split; auto. split; auto. }
    assert (Nk : ~ In key vis) by (intros H; apply mem_str_in in H; congruence).
    destruct (in_dec string_dec key (map fst dg)) as [D|D].
    2:{ rewrite node_of_none by auto. exists false, (key :: vis). split; auto. split; [intros x I; right; auto|].
        split; [left; auto|]. intros x [<-|I]; auto. right.
        assert (Em : deps_of dg key = []).
        { unfold deps_of. destruct (dg_get key dg) eqn:E; auto. exfalso. apply D. apply dg_get_in. eauto. }
        assert (NE : forall y, ~ edge dg key y) by (intros y [H _]; rewrite Em in H; destruct H).
        split; [|intros y H; exfalso; apply (NE y); auto].
        intros [H|H]; [apply (NE key); auto|]. assert (R : reach1 dg key key) by (apply flagged_cyclic; right; auto).
        apply reach1_split in R as (z & H' & _). apply (NE z). auto. }
    destruct (node_of_some key D) as (nd & -> & Ed). rewrite Ed.
    destruct (existsb (fun d => String.eqb (lower d) key) (deps_of dg key)) eqn:Sf.
    { apply existsb_exists in Sf as (d & Id & Hd). apply String.eqb_eq in Hd. rewrite (deps_lower _ _ Id) in Hd. subst d.
      exists true, (key :: vis). split; auto. split; [intros x I; right; auto|]. exists key. split; [apply reach_refl|].
      apply t_step. split; auto. }
    assert (NoSelf : ~ edge dg key key).
    { intros [H _]. assert (existsb (fun d => String.eqb (lower d) key) (deps_of dg key) = true); [|congruence].
      apply existsb_exists. exists key. split; auto. rewrite (deps_lower _ _ H). apply String.eqb_refl. }
    destruct (in_cycle sccs key) eqn:Cy.
    { exists true, (key :: vis). split; auto. split; [intros x I; right; auto|]. exists key. split; [apply reach_refl|].
      apply flagged_cyclic. right. auto. }
    assert (NF : ~ flagged key) by (intros [H|H]; [auto|congruence]).
    (* the loop *)
    assert (L : forall deps v1, (forall y, In y deps -> In y (deps_of dg key)) ->
      (forall x, In x (key :: vis) -> In x v1) -> fresh v1 < f ->
      (forall x, In x v1 -> In x (key :: vis) \/ (~ flagged x /\ forall y, edge dg x y -> In y v1)) ->
      exists b vis', visit_deps (rule_cycle_visit dg sccs f) key deps v1 = Some (b, vis') /\
        (forall x, In x v1 -> In x vis') /\
        if b then exists y, reach dg key y /\ reach1 dg y y
        else (forall y, In y deps -> In y vis') /\
             forall x, In x vis' -> In x (key :: vis) \/ (~ flagged x /\ forall y, edge dg x y -> In y vis')).
    { induction deps as [|d deps IHd]; intros v1 Sub Inc Fr1 Ans; cbn [visit_deps].
      - exists false, v1. split; auto. split; auto. split; [intros y []|auto].
      - assert (Id : In d (deps_of dg key)) by (apply Sub; left; auto). rewrite (deps_lower _ _ Id).
        assert (Sub' : forall y, In y deps -> In y (deps_of dg key)) by (intros y I; apply Sub; right; auto).
        destruct (String.eqb_spec d key) as [->|Nd].
        + destruct (IHd v1 Sub' Inc Fr1 Ans) as (b & vis' & E & I' & R). exists b, vis'. split; auto. split; auto.
          destruct b; auto. destruct R as [R1 R2]. split; auto. intros y [<-|I]; auto. apply I', Inc. left. auto.
        + destruct (IH d v1 Fr1) as (b & v2 & E & I2 & R). rewrite E. destruct b.
          * exists true, v2. split; auto. split; auto. destruct R as (y & R1 & R2). exists y. split; auto.
            assert (Ed' : edge dg key d).
            { split; auto. clear -R1 R2. destruct (reach_cases _ _ R1) as [->|R1'].
              - apply (reach1_node _ _ R2).
              - apply reach1_split in R1' as (z & [H _] & _). unfold deps_of in H. destruct (dg_get d dg) eqn:Q; [|destruct H].
                apply dg_get_in. eauto. }
            apply reach_trans with d; auto. apply reach_edge; auto.
          * destruct R as [R1 R2].
            destruct (IHd v2 Sub') as (b & vis' & E' & I' & R').
            { intros x I. auto. }
            { pose proof (fresh_mono _ _ I2). lia. }
            { intros x I. destruct (R2 x I) as [H|[H1 H2]]; auto. destruct (Ans x H) as [H'|[H1 H2]]; auto. }
            exists b, vis'. split; auto. split; auto. destruct b; auto. destruct R' as [R3 R4]. split; auto.
            intros y [<-|I]; auto. }
    destruct (L (deps_of dg key) (key :: vis) ltac:(auto) ltac:(auto)) as (b & vis' & E & I' & R).
    { pose proof (fresh_lt vis key D Nk). lia. }
    { auto. }
    exists b, vis'. split; auto. split; [intros x I; apply I'; right; auto|].
    destruct b; auto. destruct R as [R1 R2]. split; [apply I'; left; auto|].
    intros x I. destruct (R2 x I) as [[<-|H]|H]; auto. right. split; auto. intros y [H _]. auto.
  Qed.

  Theorem visit_exact key : node_in dg key ->
    exists b vis', rule_cycle_visit dg sccs (S (S (length dg))) key [] = Some (b, vis') /\
      (b = true <-> exists y, reach dg key y /\ reach1 dg y y).
  Proof.
    intros D. destruct (visit_ok (S (S (length dg))) key []) as (b & vis' & E & _ & A).
    { unfold fresh. pose proof (filter_le_length (fun x => negb (mem_str x [])) (map fst dg)) as H. rewrite map_length in H. lia. }
    exists b, vis'. split; auto. destruct b; [split; auto|]. split; [discriminate|].
    intros (y & R & C). exfalso. destruct A as [Ik A].
    assert (Cl : forall a c, reach dg a c -> In a vis' -> In c vis').
    { intros a c Ra. apply clos_rt_rt1n in Ra. induction Ra as [|a b c Ed Ra IHR]; intros Ia; auto.
      apply IHR. destruct (A a Ia) as [[]|[_ H]]. auto. }
    assert (Iy : In y vis') by (apply (Cl key y); auto).
    destruct (cyclic_flagged y C) as [H|(z & Ez & H)].
    - destruct (A y Iy) as [[]|[N _]]. contradiction.
    - assert (Iz : In z vis') by (destruct (A y Iy) as [[]|[_ N]]; auto).
      destruct (A z Iz) as [[]|[N _]]. contradiction.
  Qed.
End Proof.
