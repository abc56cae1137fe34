(** Claim C63: Forest.Nodes. *)
(** The definitions here are those of statements, proofs and examples; they model no code. *)
From Coq Require Import ZArith Arith String Bool List Permutation Lia.
From Verif Require Import Syntax Spec Check Slots Gll LowerProof LowerLang Sppf SppfProof TreeSpec Tree PropGll TreeCount Codegen BsrTree PropBsrTree PropOrder.
From Verif Require Import TreeProof.
Import ListNotations.
Local Open Scope string_scope.
Local Open Scope list_scope.
Local Open Scope Z_scope.

Section Walk.
  Variable nodes : ntable.
  Definition walk_list (f : nat) : list nkey -> list nkey -> option (list nkey) := fix go cs seen :=
    match cs with [] => Some seen | c :: r => match node_walk nodes f c seen with Some s => go r s | None => None end end.
  Lemma walk_cons f c cs seen : walk_list f (c :: cs) seen = match node_walk nodes f c seen with Some s => walk_list f cs s | None => None end.
  Proof. reflexivity. Qed.
  Lemma walk_S f k seen : node_walk nodes (S f) k seen = if nkey_mem k seen then Some seen else walk_list f (concat (packs nodes k)) (k :: seen).
  Proof. cbn [node_walk]. destruct (nkey_mem k seen); reflexivity. Qed.

  (** A walk extends what it has seen, without repetition, by nodes it can reach; a node
      it adds has all its children seen at the end. *)
  Record walked (from : nkey -> Prop) (seen s : list nkey) : Prop := {
    wk_incl : incl seen s;
    wk_nodup : NoDup seen -> NoDup s;
    wk_from : forall x, In x s -> In x seen \/ exists k, from k /\ reach nodes k x;
    wk_kids : forall x c, In x s -> ~ In x seen -> In c (concat (packs nodes x)) -> In c s;
    wk_all : forall k, from k -> In k s }.
  Lemma walk_ok f : (forall k seen s, node_walk nodes f k seen = Some s -> walked (eq k) seen s) /\
    (forall cs seen s, walk_list f cs seen = Some s -> walked (fun k => In k cs) seen s).
  Proof.
    assert (L : forall f, (forall k seen s, node_walk nodes f k seen = Some s -> walked (eq k) seen s) ->
      forall cs seen s, walk_list f cs seen = Some s -> walked (fun k => In k cs) seen s).
    { clear f. intros f W. induction cs as [|c cs IH]; intros seen s E.
      - injection E as <-. constructor; auto; [intros x; auto|tauto|intros k []].
      - rewrite walk_cons in E. destruct (node_walk nodes f c seen) as [s1|] eqn:E1; [|discriminate]. destruct (W _ _ _ E1) as [A1 A2 A3 A4 A5]. destruct (IH _ _ E) as [B1 B2 B3 B4 B5]. constructor.
        + intros x I. auto.
        + auto.
        + intros x I. destruct (B3 x I) as [J|(k & K & R)]; [destruct (A3 x J) as [J'|(k & <- & R)]; auto; right; exists c; split; [left|]; auto|].
          right. exists k. split; [right|]; auto.
        + intros x d I N D. destruct (in_dec nkey_eq_dec x s1) as [J|J]; [apply B1; eapply A4; eauto|eapply B4; eauto].
        + intros k [<-|K]; auto. }
    induction f as [|f [_ IH]]; [split; [discriminate|apply L; discriminate]|].
    assert (W : forall k seen s, node_walk nodes (S f) k seen = Some s -> walked (eq k) seen s).
    { intros k seen s. rewrite walk_S. destruct (nkey_mem k seen) eqn:M.
      - intros E. injection E as <-. constructor; auto; [intros x; auto|tauto|intros x <-; apply nkey_mem_in; auto].
      - assert (Nk : ~ In k seen) by (intros I; apply nkey_mem_in in I; congruence).
        intros E. destruct (IH _ _ _ E) as [A1 A2 A3 A4 A5]. constructor.
        + intros x I. apply A1. right; auto.
        + intros N. apply A2. constructor; auto.
        + intros x I. destruct (A3 x I) as [[<-|J]|(c & K & R)]; auto.
          * right. exists k. split; auto. constructor.
          * right. exists k. split; auto. apply in_concat in K as (pk & K1 & K2). eapply reach_step; eauto.
        + intros x c I N C. destruct (nkey_eq_dec x k) as [->|Nx]; [apply A5; auto|]. eapply A4; eauto. intros [J|J]; congruence.
        + intros x <-. apply A1. left; auto. }
    split; [exact W|]. apply L. exact W.
  Qed.
  Hypothesis CL : closed nodes.
  Lemma walk_total f : (forall k seen, known k nodes -> seen_ok nodes seen -> (length nodes < f + length seen)%nat ->
      exists s, node_walk nodes f k seen = Some s /\ seen_ok nodes s /\ (length seen <= length s)%nat) /\
    (forall cs seen, (forall c, In c cs -> known c nodes) -> seen_ok nodes seen -> (length nodes < f + length seen)%nat ->
      exists s, walk_list f cs seen = Some s /\ seen_ok nodes s /\ (length seen <= length s)%nat).
  Proof.
    induction f as [|f [IH1 IH2]].
    - split.
      + intros k seen K [N O] L. pose proof (fresh_len nodes seen N O). lia.
      + intros cs seen K [N O] L. pose proof (fresh_len nodes seen N O). lia.
    - assert (W : forall k seen, known k nodes -> seen_ok nodes seen -> (length nodes < S f + length seen)%nat ->
        exists s, node_walk nodes (S f) k seen = Some s /\ seen_ok nodes s /\ (length seen <= length s)%nat).
      { intros k seen K O L. rewrite walk_S. destruct (nkey_mem k seen) eqn:M; [exists seen; auto|].
        assert (O' : seen_ok nodes (k :: seen)).
        { destruct O as [O1 O2]. split; [constructor; auto; intros I; apply nkey_mem_in in I; congruence|intros x [<-|X]; auto]. }
        destruct (IH2 (concat (packs nodes k)) (k :: seen)) as (s & A & B & C); auto.
        + intros c. apply closed_concat. auto.
        + cbn. lia.
        + exists s. split; auto. split; auto. cbn in C. lia. }
      split; [exact W|]. induction cs as [|c cs IHc]; intros seen K O L; [exists seen; auto|]. rewrite walk_cons.
      destruct (W c seen) as (s & A & B & C); auto; [apply K; left; auto|]. rewrite A.
      destruct (IHc s) as (s' & A' & B' & C'); auto; [intros; apply K; right; auto|lia|]. exists s'. split; auto. split; auto. lia.
  Qed.
End Walk.

(** ** C63 *)
(** Nodes counts every node reachable from the root once, and is 0 when there is no root. *)
Theorem C63_nodes : forall ord fuel input g root max_slots max_nodes f qf, any_order ord ->
  parse_forest ord fuel input g root max_slots max_nodes = PF_ok f -> (length (f_nodes f) < qf)%nat ->
  match f_root f with
  | None => f_count_nodes qf f = Some 0%nat
  | Some r => exists l, f_count_nodes qf f = Some (length l) /\ NoDup l /\ forall x, In x l <-> reach (f_nodes f) r x
  end.
Proof.
  intros ord fuel input g root ms mn f qf O E Q. pose proof (forest_core_ok _ _ _ _ _ _ _ _ O E) as [PS TP FU CL FE ND Rt Kn].
  unfold f_count_nodes. rewrite Rt. destruct (f_valid f); [|reflexivity]. set (k := NSym (sg_start (f_sg f)) 0 (length input)) in *.
  destruct (proj1 (walk_total (f_nodes f) CL qf) k []) as (l & W & _); [apply Kn; auto|split; [constructor|intros x []]|cbn; lia|].
  rewrite W. exists l. split; auto. destruct (proj1 (walk_ok (f_nodes f) qf) _ _ _ W) as [A1 A2 A3 A4 A5]. split; [apply A2; constructor|].
  intros x. split.
  - intros I. destruct (A3 x I) as [[]|(k' & <- & R)]. exact R.
  - assert (H : forall a, reach (f_nodes f) a x -> In a l -> In x l).
    { intros a R. induction R as [a|a pk c b I1 I2 R IH]; auto. intros Ia. apply IH. apply (A4 a); auto. apply in_concat. eauto. }
    intros R. eapply H; eauto.
Qed.
(** So it does not depend on the order of the maps (C62). *)
Theorem C63_order : forall ord ord' fuel fuel' input g root max_slots max_slots' max_nodes max_nodes' f f' qf qf',
  any_order ord -> any_order ord' ->
  parse_forest ord fuel input g root max_slots max_nodes = PF_ok f ->
  parse_forest ord' fuel' input g root max_slots' max_nodes' = PF_ok f' ->
  (length (f_nodes f) < qf)%nat -> (length (f_nodes f') < qf')%nat -> f_count_nodes qf f = f_count_nodes qf' f'.
Proof.
  intros ord ord' fuel fuel' input g root ms ms' mn mn' f f' qf qf' O O' E E' Q Q'.
  destruct (C62_forest_order _ _ _ _ _ _ _ _ _ _ _ _ _ _ _ O O' E E' Q Q') as (Sg & Pk & Ev & _).
  pose proof (C63_nodes _ _ _ _ _ _ _ _ _ O E Q) as H. pose proof (C63_nodes _ _ _ _ _ _ _ _ _ O' E' Q') as H'.
  rewrite (fc_root _ _ (forest_core_ok _ _ _ _ _ _ _ _ O E)) in H. rewrite (fc_root _ _ (forest_core_ok _ _ _ _ _ _ _ _ O' E')), Sg, <- Ev in H'.
  destruct (f_valid f); [|congruence]. destruct H as (l & -> & N & I), H' as (l' & -> & N' & I'). f_equal. apply same_count; auto.
  intros x. rewrite I, I'. split; apply freach_same; intros; apply Pk; auto.
Qed.

(** Sixteen of the nodes are shared by the three trees of "xxx" under a = *b   b = "x" / "xx". *)
Example C63_case : exists f f', parse_forest (fun _ l => l) 400 (bytes "xxx") g_pairs "a" default_max_slots 0 = PF_ok f /\
  parse_forest (fun _ l => rev l) 400 (bytes "xxx") g_pairs "a" default_max_slots 70 = PF_ok f' /\ (length (f_nodes f) < 400)%nat /\
  f_count_nodes 400 f = Some 16%nat /\ (16 < length (f_nodes f))%nat /\ f_num_trees 400 f = Some 3.
Proof.
  eexists. eexists. split; [vm_compute; reflexivity|]. split; [vm_compute; reflexivity|]. split; [vm_compute; lia|].
  split; [vm_compute; reflexivity|]. split; [vm_compute; lia|vm_compute; reflexivity].
Qed.
Print Assumptions C63_nodes.
Print Assumptions C63_order.
