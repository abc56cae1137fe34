(** Proofs about the reader of trails.
    Its definitions are means of proof and model no code. *)
From Coq Require Import ZArith Arith String Bool List Lia.
From Verif Require Import Syntax Spec Num Utf8 Slots Gll PropGll Graph GraphSpec GraphRun GraphClone Walk WalkProof Reader.
Import ListNotations.
Local Open Scope nat_scope.
Local Open Scope list_scope.

Lemma mem_point_spec x l : mem_point x l = true <-> In x l.
Proof. apply existsb_point. Qed.
Lemma mem_point_false x l : mem_point x l = false <-> ~ In x l.
Proof. rewrite <- mem_point_spec. destruct (mem_point x l); split; congruence. Qed.

Lemma filter_mono {A} (f g : A -> bool) l : (forall x, f x = true -> g x = true) -> length (filter f l) <= length (filter g l).
Proof.
  intros H. induction l as [|x l IH]; [apply le_n|]. cbn [filter]. destruct (f x) eqn:E; [rewrite (H x E); cbn [length]; lia|].
  destruct (g x); cbn [length]; lia.
Qed.
Lemma filter_less {A} (f g : A -> bool) x l : (forall y, f y = true -> g y = true) -> In x l -> f x = false -> g x = true ->
  length (filter f l) < length (filter g l).
Proof.
  intros H I F G. induction l as [|y l IH]; [destruct I|]. cbn [filter]. destruct I as [->|I].
  - rewrite F, G. cbn [length]. pose proof (filter_mono f g l H). lia.
  - specialize (IH I). destruct (f y) eqn:E; [rewrite (H y E); cbn [length]; lia|]. destruct (g y); cbn [length]; lia.
Qed.

Lemma filter_all {A} (l : list A) : filter (fun _ => true) l = l.
Proof. induction l as [|x l IH]; [reflexivity|]. cbn [filter]. rewrite IH. reflexivity. Qed.
(** ** Gathering *)
Section Gather.
  Variable h : heap.
  Definition unseen (all : list point) : nat := length (filter (fun a => negb (mem_point (Some a) all)) (seq 0 (length h))).
  Lemma unseen_cons n all : unseen (n :: all) <= unseen all.
  Proof.
    apply filter_mono. intros a. rewrite !negb_true_iff, !mem_point_false. intros N K. apply N. right. exact K.
  Qed.
  Lemma unseen_lt a all : a < length h -> ~ In (Some a) all -> unseen (@cons point (Some a) all) < unseen all.
  Proof.
    intros L N. apply (filter_less _ _ a).
    - intros x. rewrite !negb_true_iff, !mem_point_false. intros K1 K2. apply K1. right. exact K2.
    - apply in_seq. lia.
    - apply negb_false_iff, mem_point_spec. left. reflexivity.
    - apply negb_true_iff, mem_point_false, N.
  Qed.
  (** Nothing lost, and what is new has its successors. *)
  Definition grown (all all' : list point) : Prop :=
    incl all all' /\ unseen all' <= unseen all /\ forall x, In x all' -> In x all \/ forall s, In s (succs h x) -> In s all'.
  Lemma gather_spec fuel : forall n all, unseen all < fuel -> exists all', gather fuel h n all = Some all' /\ In n all' /\ grown all all'.
  Proof.
    induction fuel as [|f IH]; intros n all L; [lia|]. cbn [gather]. destruct (mem_point n all) eqn:E.
    - apply mem_point_spec in E. exists all. split; [reflexivity|]. split; [exact E|]. split; [apply incl_refl|]. split; [apply le_n|]. auto.
    - apply mem_point_false in E.
      assert (K : forall ss l, unseen l < f \/ ss = [] -> exists l', fold_left (fun acc s => match acc with Some l => gather f h s l | None => None end) ss (Some l) = Some l' /\
        incl ss l' /\ grown l l').
      { induction ss as [|s ss IHs]; intros l Ll; [exists l; split; [reflexivity|]; split; [intros x []|]; split; [apply incl_refl|split; [apply le_n|auto]]|].
        destruct Ll as [Ll|Ll]; [|discriminate]. cbn [fold_left]. destruct (IH s l Ll) as (l1 & -> & I1 & G1 & U1 & C1).
        destruct (IHs l1 ltac:(left; lia)) as (l2 & E2 & I2 & G2 & U2 & C2). exists l2. split; [exact E2|]. split.
        - intros x [<-|Ix]; [apply G2, I1|apply I2, Ix].
        - split; [intros x Ix; apply G2, G1, Ix|]. split; [lia|]. intros x Ix. destruct (C2 x Ix) as [Q|Q]; [|right; exact Q].
          destruct (C1 x Q) as [Q'|Q']; [left; exact Q'|]. right. intros y Iy. apply G2, Q', Iy. }
      assert (L' : unseen (n :: all) < f \/ succs h n = []).
      { destruct n as [a|]; [|right; reflexivity]. destruct (Nat.lt_ge_cases a (length h)) as [La|La].
        - left. pose proof (unseen_lt a all La E). lia.
        - right. cbn [succs]. unfold nexts. replace (nth_error h a) with (@None node) by (symmetry; apply nth_error_None, La). reflexivity. }
      destruct (K (succs h n) (n :: all) L') as (l' & -> & I1 & G1 & U1 & C1). exists l'. split; [reflexivity|].
      split; [apply G1; left; reflexivity|]. pose proof (unseen_cons n all). split; [intros x Ix; apply G1; right; exact Ix|]. split; [lia|].
      intros x Ix. destruct (C1 x Ix) as [[->|Q]|Q]; auto.
  Qed.
  Lemma gather_all es : forall fuel, length h < fuel -> forall l, unseen l < fuel -> (forall x s, In x l -> In s (succs h x) -> In s l) ->
    exists l', fold_left (fun acc e => match acc with Some l => gather fuel h e l | None => None end) es (Some l) = Some l' /\
      incl es l' /\ incl l l' /\ (forall x s, In x l' -> In s (succs h x) -> In s l').
  Proof.
    induction es as [|e es IH]; intros fuel Lf l Ll C; [exists l; split; [reflexivity|]; split; [intros x []|]; split; [apply incl_refl|exact C]|].
    cbn [fold_left]. destruct (gather_spec fuel e l Ll) as (l1 & -> & I1 & G1 & U1 & C1).
    destruct (IH fuel Lf l1 ltac:(lia)) as (l2 & E & I2 & G2 & C2).
    { intros x s Ix Is. destruct (C1 x Ix) as [Q|Q]; [apply G1; eapply C; eassumption|apply Q, Is]. }
    exists l2. split; [exact E|]. split; [intros x [<-|Ix]; [apply G2, I1|apply I2, Ix]|]. split; [intros x Ix; apply G2, G1, Ix|exact C2].
  Qed.

  (** ** Which nodes reach an end point *)
  Variable ends : points.
  Definition reaches (can : list point) (n : point) : Prop := In n ends \/ exists s, In s (succs h n) /\ productive h s = true /\ In s can.
  Definition reach_step (can : list point) (n : point) : list point :=
    if mem_point n can || negb (productive h n) then can
    else if mem_point n ends || existsb (fun s => productive h s && mem_point s can) (succs h n) then n :: can
    else can.
  Lemma reach_pass_cons n ns can : reach_pass h ends (n :: ns) can = reach_pass h ends ns (reach_step can n).
  Proof. reflexivity. Qed.
  Lemma reach_pass_spec ns : forall can, NoDup can -> (forall x, In x can -> productive h x = true) ->
    let can' := reach_pass h ends ns can in
    NoDup can' /\ incl can can' /\ (forall x, In x can' -> In x can \/ In x ns) /\ (forall x, In x can' -> productive h x = true) /\
    (length can' = length can -> can' = can /\ forall n, In n ns -> productive h n = true -> reaches can n -> In n can).
  Proof.
    induction ns as [|n ns IH]; intros can Nd P.
    - cbn. split; [exact Nd|]. split; [apply incl_refl|]. split; [auto|]. split; [exact P|]. intros _. split; [reflexivity|]. intros n [].
    - rewrite (reach_pass_cons n ns can). cbv zeta.
      destruct (mem_point n can || negb (productive h n)) eqn:E1.
      + replace (reach_step can n) with can by (unfold reach_step; rewrite E1; reflexivity).
        destruct (IH can Nd P) as (A & B & C & D & F). split; [exact A|]. split; [exact B|]. split; [intros x Ix; destruct (C x Ix); [auto|right; right; assumption]|].
        split; [exact D|]. intros L. destruct (F L) as [F1 F2]. split; [exact F1|]. intros m [<-|Im] Pm R; [|apply F2; assumption].
        apply orb_true_iff in E1 as [E1|E1]; [apply mem_point_spec, E1|rewrite Pm in E1; discriminate].
      + destruct (mem_point n ends || existsb (fun s => productive h s && mem_point s can) (succs h n)) eqn:E2.
        * replace (reach_step can n) with (n :: can) by (unfold reach_step; rewrite E1, E2; reflexivity).
          apply orb_false_iff in E1 as [E1 E3]. apply mem_point_false in E1. apply negb_false_iff in E3.
          destruct (IH (n :: can)) as (A & B & C & D & F); [constructor; assumption|intros x [<-|Ix]; [exact E3|apply P, Ix]|].
          split; [exact A|]. split; [intros x Ix; apply B; right; exact Ix|]. split; [intros x Ix; destruct (C x Ix) as [[<-|Q]|Q]; [right; left; reflexivity|auto|right; right; exact Q]|].
          split; [exact D|]. intros L. exfalso. pose proof (NoDup_incl_length (NoDup_cons n E1 Nd) B) as Q. cbn [length] in Q. lia.
        * replace (reach_step can n) with can by (unfold reach_step; rewrite E1, E2; reflexivity).
          destruct (IH can Nd P) as (A & B & C & D & F). split; [exact A|]. split; [exact B|]. split; [intros x Ix; destruct (C x Ix); [auto|right; right; assumption]|].
          split; [exact D|]. intros L. destruct (F L) as [F1 F2]. split; [exact F1|]. intros m [<-|Im] Pm R; [|apply F2; assumption].
          apply orb_false_iff in E2 as [E2 E3]. destruct R as [R|(s & Is & Ps & Cs)]; [apply mem_point_spec in R; congruence|].
          assert (X : existsb (fun s => productive h s && mem_point s can) (succs h n) = true).
          { apply existsb_exists. exists s. split; [exact Is|]. rewrite Ps. apply mem_point_spec, Cs. }
          congruence.
  Qed.
  Lemma reach_loop_spec ord all : any_order ord -> forall fuel i can, NoDup can -> incl can all -> (forall x, In x can -> productive h x = true) ->
    length all < length can + fuel ->
    exists can', reach_loop fuel h ends ord all i can = Some can' /\ (forall x, In x can' -> productive h x = true) /\ incl can' all /\
      forall n, In n all -> productive h n = true -> reaches can' n -> In n can'.
  Proof.
    intros O. induction fuel as [|f IH]; intros i can Nd I P L.
    - pose proof (NoDup_incl_length Nd I). lia.
    - cbn [reach_loop]. destruct (reach_pass_spec (ord i all) can Nd P) as (A & B & C & D & F). set (can' := reach_pass h ends (ord i all) can) in *.
      assert (I' : incl can' all). { intros x Ix. destruct (C x Ix) as [Q|Q]; [apply I, Q|apply O in Q; exact Q]. }
      destruct (Nat.eqb_spec (length can') (length can)) as [E|E].
      + destruct (F E) as [F1 F2]. exists can'. split; [reflexivity|]. split; [exact D|]. split; [exact I'|]. rewrite F1. intros n In_ Pn R. apply F2; auto. apply O, In_.
      + apply IH; auto. pose proof (NoDup_incl_length Nd B). lia.
  Qed.
End Gather.

(** What prepare returns. *)
Record prep_ok (t : tgraph) (p : prepared) : Prop := {
  pk_graph : p_graph p = t;
  pk_prod : forall x, In x (p_can p) -> productive (tg_heap t) x = true;
  pk_entry : forall e, In e (p_entries p) <-> In e (tg_entry t) /\ In e (p_can p);
  pk_all : exists all, incl (tg_entry t) all /\ (forall x s, In x all -> In s (succs (tg_heap t) x) -> In s all) /\
    forall n, In n all -> productive (tg_heap t) n = true -> reaches (tg_heap t) (tg_ends t) (p_can p) n -> In n (p_can p) }.
Lemma prepare_spec ord t : any_order ord -> exists p, prepare ord t = Some p /\ prep_ok t p.
Proof.
  intros O. unfold prepare. set (h := tg_heap t).
  assert (U : unseen h [] <= length h) by 
    (unfold unseen; rewrite <- (seq_length (length h) 0) at 2; rewrite <- (filter_all (seq 0 (length h))) at 2; apply filter_mono; reflexivity).
  destruct (gather_all h (tg_entry t) (S (S (length h))) ltac:(lia) [] ltac:(lia)) as (all & -> & A1 & _ & A3); [intros x s []|].
  destruct (reach_loop_spec h (tg_ends t) ord all O (S (length all)) 0 []) as (can & -> & C1 & C2 & C3);
    [constructor|intros x []|intros x []|cbn [length]; lia|].
  eexists. split; [reflexivity|]. split; cbn [p_graph p_can p_entries].
  - reflexivity.
  - exact C1.
  - intros e. rewrite filter_In, andb_true_iff, mem_point_spec. split; [tauto|]. intros [I1 I2]. split; [exact I1|]. split; [apply C1, I2|exact I2].
  - exists all. auto.
Qed.

(** ** Trails *)
Lemma eq_edge_spec a b : eq_edge a b = true <-> a = b.
Proof.
  destruct a as [a1 a2], b as [b1 b2]. unfold eq_edge. cbn [fst snd]. rewrite andb_true_iff, !eq_point_spec. split; [intros [-> ->]; reflexivity|].
  intros Q. injection Q as -> ->. auto.
Qed.
(** The edges of a trail listed from its end. *)
Fixpoint redges (q : list point) : list edge :=
  match q with b :: (a :: _) as r => (a, b) :: redges r | _ => [] end.
Definition ecount (e : edge) (l : list edge) : Z := Z.of_nat (length (filter (eq_edge e) l)).
Lemma ecount_pos e l : (0 < ecount e l)%Z <-> In e l.
Proof.
  unfold ecount. induction l as [|x l IH]; cbn [filter In]; [cbn [length]; split; [lia|intros []]|].
  destruct (eq_edge e x) eqn:E.
  - apply eq_edge_spec in E as ->. cbn [length]. split; [auto|lia].
  - rewrite IH. split; [auto|]. intros [->|I]; [|exact I]. rewrite (proj2 (eq_edge_spec e e) eq_refl) in E. discriminate.
Qed.

Section Trails.
  Variable p : prepared.
  Local Notation h := (tg_heap (p_graph p)).
  (** The nodes that may follow. *)
  Definition children (q : list point) : list point :=
    match q with
    | [] => p_entries p
    | x :: _ => filter (fun s => mem_point s (p_can p) && negb (existsb (eq_edge (x, s)) (redges q))) (succs h x)
    end.
  (** The trails with k more nodes, in order. *)
  Fixpoint leaves (k : nat) (q : list point) : list (list point) :=
    match k with O => [q] | S k' => flat_map (fun c => leaves k' (c :: q)) (children q) end.
  (** The number of nodes of the tree of trails. *)
  Fixpoint tsize (k : nat) (q : list point) : nat :=
    match k with O => 1 | S k' => S (list_sum (map (fun c => tsize k' (c :: q)) (children q))) end.
  Definition nodes (s : list frame) : list point := map f_node s.
  Fixpoint ok_stack (s : list frame) : Prop :=
    match s with
    | [] => True
    | f :: s' => ok_stack s' /\ f_allowed f = children (nodes s') /\ nth_error (f_allowed f) (f_cursor f) = Some (f_node f)
    end.
  Definition used_ok (u : counts) (s : list frame) : Prop := forall e, u e = ecount e (redges (nodes s)).
  Lemma allowed_children s u : used_ok u s -> allowed_at p s u = children (nodes s).
  Proof.
    intros U. destruct s as [|f s]; [reflexivity|]. cbn [allowed_at nodes map children]. apply filter_ext. intros x. f_equal. f_equal.
    rewrite U. apply eq_true_iff_eq. rewrite Z.ltb_lt, ecount_pos, existsb_exists. split.
    - intros I. eexists. split; [exact I|]. apply eq_edge_spec. reflexivity.
    - intros (y & I & Q). apply eq_edge_spec in Q as ->. exact I.
  Qed.
  Lemma count_push u s f : used_ok u s -> used_ok (count_edge 1 s (f_node f) u) (f :: s).
  Proof.
    intros U e. destruct s as [|b s]; cbn [count_edge]; [exact (U e)|]. unfold add_count. rewrite !U.
    change (redges (nodes (f :: b :: s))) with ((f_node b, f_node f) :: redges (nodes (b :: s))). unfold ecount. cbn [filter].
    destruct (eq_edge (f_node b, f_node f) e) eqn:E.
    - apply eq_edge_spec in E as <-. rewrite (proj2 (eq_edge_spec _ _) eq_refl). cbn [length]. lia.
    - destruct (eq_edge e (f_node b, f_node f)) eqn:E'; [|reflexivity]. apply eq_edge_spec in E' as ->. rewrite (proj2 (eq_edge_spec _ _) eq_refl) in E. discriminate.
  Qed.
  Lemma count_pop u s f : used_ok u (f :: s) -> used_ok (count_edge (-1) s (f_node f) u) s.
  Proof.
    intros U e. destruct s as [|b s]; cbn [count_edge]; [exact (U e)|]. unfold add_count. rewrite !U.
    change (redges (nodes (f :: b :: s))) with ((f_node b, f_node f) :: redges (nodes (b :: s))). unfold ecount. cbn [filter].
    destruct (eq_edge (f_node b, f_node f) e) eqn:E.
    - apply eq_edge_spec in E as <-. rewrite (proj2 (eq_edge_spec _ _) eq_refl). cbn [length]. lia.
    - destruct (eq_edge e (f_node b, f_node f)) eqn:E'; [|reflexivity]. apply eq_edge_spec in E' as ->. rewrite (proj2 (eq_edge_spec _ _) eq_refl) in E. discriminate.
  Qed.

  Variable L : nat.
  (** Trails of length L left after the stack, and the size of their trees. *)
  Fixpoint rest (s : list frame) : list (list point) :=
    match s with
    | [] => []
    | f :: s' => flat_map (fun c => leaves (L - length s) (c :: nodes s')) (skipn (S (f_cursor f)) (f_allowed f)) ++ rest s'
    end.
  Fixpoint rsize (s : list frame) : nat :=
    match s with
    | [] => 0
    | f :: s' => list_sum (map (fun c => tsize (L - length s) (c :: nodes s')) (skipn (S (f_cursor f)) (f_allowed f))) + rsize s'
    end.
  Lemma skipn_nth {A} (l : list A) k x : nth_error l k = Some x -> skipn k l = x :: skipn (S k) l.
  Proof. revert k. induction l as [|y l IH]; intros [|k] E; try discriminate; [injection E as ->; reflexivity|]. apply (IH k E). Qed.
  Lemma bump_spec s : forall u, ok_stack s -> used_ok u s ->
    match bump s u with
    | (true, s', u') => ok_stack s' /\ used_ok u' s' /\ s' <> [] /\ length s' <= length s /\
        rest s = leaves (L - length s') (nodes s') ++ rest s' /\ rsize s = tsize (L - length s') (nodes s') + rsize s'
    | (false, s', u') => rest s = []
    end.
  Proof.
    induction s as [|f s IH]; intros u Ok U; [reflexivity|]. destruct Ok as (Ok & Al & Cu). cbn [bump].
    pose proof (count_pop u s f U) as U1. destruct (nth_error (f_allowed f) (S (f_cursor f))) as [n|] eqn:E.
    - set (f' := mkFrame n (S (f_cursor f)) (f_allowed f)).
      split; [split; [exact Ok|split; [exact Al|exact E]]|]. split; [exact (count_push _ s f' U1)|]. split; [discriminate|]. split; [apply le_n|].
      cbn [rest rsize length f_cursor f_allowed f']. rewrite (skipn_nth _ _ _ E). cbn [flat_map map]. cbn [list_sum fold_right].
      change (nodes (f' :: s)) with (n :: nodes s). split; [rewrite <- app_assoc; reflexivity|].
      unfold list_sum. lia.
    - specialize (IH _ Ok U1). cbn [rest rsize].
      assert (Es : skipn (S (f_cursor f)) (f_allowed f) = []) by (apply skipn_all2, nth_error_None, E). rewrite Es. cbn [flat_map map app].
      destruct (bump s (count_edge (-1) s (f_node f) u)) as [[[] s'] u']; [|exact IH].
      destruct IH as (A & B & C & D & F & G). split; [exact A|]. split; [exact B|]. split; [exact C|]. split; [cbn [length]; lia|]. split; [exact F|].
      cbn [list_sum fold_right]. exact G.
  Qed.
  (** What is ahead of a state within a level. *)
  Definition ahead (s : list frame) : list (list point) :=
    if Nat.eqb (length s) L then rest s else leaves (L - length s) (nodes s) ++ rest s.
  Definition asize (s : list frame) : nat :=
    if Nat.eqb (length s) L then S (rsize s) else tsize (L - length s) (nodes s) + rsize s.
  Lemma tsize_pos k q : 1 <= tsize k q.
  Proof. destruct k; cbn [tsize]; lia. Qed.
  Lemma next_leaf_spec fuel : forall st, ok_stack (t_stack st) -> used_ok (t_used st) (t_stack st) -> t_len st = L -> length (t_stack st) <= L -> 1 <= L ->
    asize (t_stack st) < fuel ->
    match next_leaf fuel p st with
    | None => False
    | Some (true, st1) => ok_stack (t_stack st1) /\ used_ok (t_used st1) (t_stack st1) /\ t_len st1 = L /\ length (t_stack st1) = L /\ t_had st1 = true /\
        ahead (t_stack st) = nodes (t_stack st1) :: ahead (t_stack st1) /\ asize (t_stack st1) < asize (t_stack st)
    | Some (false, st1) => ahead (t_stack st) = [] /\ t_len st1 = L /\ t_had st1 = t_had st
    end.
  Proof.
    induction fuel as [|f IH]; intros st Ok U Len Le Lp Sz; [lia|]. cbn [next_leaf].
    (* what follows a step *)
    assert (Q : forall st1, ok_stack (t_stack st1) -> used_ok (t_used st1) (t_stack st1) -> t_len st1 = L -> length (t_stack st1) <= L -> t_had st1 = t_had st ->
      ahead (t_stack st) = leaves (L - length (t_stack st1)) (nodes (t_stack st1)) ++ rest (t_stack st1) ->
      tsize (L - length (t_stack st1)) (nodes (t_stack st1)) + rsize (t_stack st1) < asize (t_stack st) ->
      match (if Nat.eqb (length (t_stack st1)) (t_len st1) then Some (true, mkTr (t_len st1) (t_stack st1) (t_used st1) true) else next_leaf f p st1) with
      | None => False
      | Some (true, st1) => ok_stack (t_stack st1) /\ used_ok (t_used st1) (t_stack st1) /\ t_len st1 = L /\ length (t_stack st1) = L /\ t_had st1 = true /\
          ahead (t_stack st) = nodes (t_stack st1) :: ahead (t_stack st1) /\ asize (t_stack st1) < asize (t_stack st)
      | Some (false, st1) => ahead (t_stack st) = [] /\ t_len st1 = L /\ t_had st1 = t_had st
      end).
    { intros st1 Ok1 U1 Len1 Le1 Had1 Ah Sz1. rewrite Len1. destruct (Nat.eqb_spec (length (t_stack st1)) L) as [E|E].
      - cbn [t_stack t_used t_len t_had]. split; [exact Ok1|]. split; [exact U1|]. split; [reflexivity|]. split; [exact E|]. split; [reflexivity|].
        unfold ahead at 2, asize at 1. rewrite (proj2 (Nat.eqb_eq _ _) E). rewrite E, Nat.sub_diag in Ah, Sz1. cbn [leaves tsize app] in Ah, Sz1. split; [exact Ah|lia].
      - specialize (IH st1 Ok1 U1 Len1 Le1 Lp). assert (A1 : ahead (t_stack st1) = ahead (t_stack st)) by (unfold ahead at 1; rewrite (proj2 (Nat.eqb_neq _ _) E), Ah; reflexivity).
        assert (A2 : asize (t_stack st1) < asize (t_stack st)) by (unfold asize at 1; rewrite (proj2 (Nat.eqb_neq _ _) E); exact Sz1).
        specialize (IH ltac:(lia)). rewrite A1 in IH. destruct (next_leaf f p st1) as [[[] st2]|]; [|rewrite Had1 in IH; exact IH|exact IH].
        destruct IH as (B1 & B2 & B3 & B4 & B5 & B6 & B7). repeat (split; [assumption|]). lia. }
    (* bumping *)
    assert (B : forall r, (let '(go, st1) := bump_trails st in if negb go then Some (false, st1) else r st1) = r (snd (bump_trails st)) \/
       (let '(go, st1) := bump_trails st in if negb go then Some (false, st1) else r st1) = Some (false, snd (bump_trails st))) by (intros r; destruct (bump_trails st) as [[] ?]; auto).
    clear B. unfold bump_trails. pose proof (bump_spec (t_stack st) (t_used st) Ok U) as Bs.
    destruct (Nat.eqb_spec (length (t_stack st)) (t_len st)) as [E|E].
    - destruct (bump (t_stack st) (t_used st)) as [[b s'] u']. destruct b; cbn [negb].
      + destruct Bs as (B1 & B2 & B3 & B4 & B5 & B6). apply Q; cbn [t_stack t_used t_len t_had]; auto; [lia| |].
        * unfold ahead. rewrite Len in E. rewrite (proj2 (Nat.eqb_eq _ _) E). exact B5.
        * unfold asize. rewrite Len in E. rewrite (proj2 (Nat.eqb_eq _ _) E). lia.
      + cbn [t_len t_had]. split; [|auto]. unfold ahead. rewrite Len in E. rewrite (proj2 (Nat.eqb_eq _ _) E). exact Bs.
    - rewrite Len in E. assert (Ah : ahead (t_stack st) = leaves (L - length (t_stack st)) (nodes (t_stack st)) ++ rest (t_stack st)) by (unfold ahead; rewrite (proj2 (Nat.eqb_neq _ _) E); reflexivity).
      assert (As : asize (t_stack st) = tsize (L - length (t_stack st)) (nodes (t_stack st)) + rsize (t_stack st)) by (unfold asize; rewrite (proj2 (Nat.eqb_neq _ _) E); reflexivity).
      destruct (L - length (t_stack st)) as [|k] eqn:Ek; [lia|]. cbn [leaves tsize] in Ah, As.
      unfold push_first. rewrite (allowed_children _ _ U). destruct (children (nodes (t_stack st))) as [|c cs] eqn:Ec.
      + cbn [flat_map app map list_sum fold_right] in Ah, As. destruct (bump (t_stack st) (t_used st)) as [[b s'] u']. destruct b; cbn [negb].
        * destruct Bs as (B1 & B2 & B3 & B4 & B5 & B6). apply Q; cbn [t_stack t_used t_len t_had]; auto; [lia|congruence|lia].
        * cbn [t_len t_had]. split; [congruence|auto].
      + cbn [negb]. set (fr := mkFrame c 0 (c :: cs)).
        assert (Lk : L - length (fr :: t_stack st) = k) by (cbn [length]; lia).
        apply Q; cbn [t_stack t_used t_len t_had].
        * split; [exact Ok|]. split; [symmetry; exact Ec|reflexivity].
        * exact (count_push _ _ fr U).
        * exact Len.
        * cbn [length]. lia.
        * reflexivity.
        * rewrite Ah, Lk. cbn [rest]. rewrite Lk. cbn [f_cursor f_allowed fr skipn]. cbn [flat_map].
          change (nodes (fr :: t_stack st)) with (c :: nodes (t_stack st)). rewrite <- app_assoc. reflexivity.
        * rewrite As, Lk. cbn [rsize]. rewrite Lk. cbn [f_cursor f_allowed fr skipn]. cbn [map].
          change (nodes (fr :: t_stack st)) with (c :: nodes (t_stack st)). cbn [list_sum fold_right]. unfold list_sum. lia.
  Qed.
End Trails.

Section Levels.
  Variable p : prepared.
  Local Notation h := (tg_heap (p_graph p)).
  Local Notation children := (children p).
  Local Notation leaves := (leaves p).

  (** Trails from a prefix. *)
  Inductive ext (r : list point) : list point -> Prop :=
  | ext_refl : ext r r
  | ext_cons x q : ext r q -> In x (children q) -> ext r (x :: q).
  Lemma ext_down c r q : In c (children r) -> ext (c :: r) q -> ext r q.
  Proof. intros I E. induction E as [|x q E IH Ix]; [apply ext_cons; [apply ext_refl|exact I]|apply ext_cons; assumption]. Qed.
  Lemma ext_length r q : ext r q -> length r <= length q.
  Proof. induction 1 as [|x q E IH I]; cbn [length]; lia. Qed.
  Lemma ext_up r q : ext r q -> q = r \/ exists c, In c (children r) /\ ext (c :: r) q.
  Proof.
    induction 1 as [|x q E IH I]; [left; reflexivity|right]. destruct IH as [->|(c & Ic & Ec)].
    - exists x. split; [exact I|apply ext_refl].
    - exists c. split; [exact Ic|]. apply ext_cons; assumption.
  Qed.
  Lemma in_leaves k : forall r q, In q (leaves k r) <-> ext r q /\ length q = k + length r.
  Proof.
    induction k as [|k IH]; intros r q.
    - cbn [ReaderProof.leaves In]. split; [intros [<-|[]]; split; [apply ext_refl|reflexivity]|]. intros [E L]. left.
      destruct (ext_up r q E) as [->|(c & Ic & Ec)]; [reflexivity|]. apply ext_length in Ec. cbn [length] in Ec. lia.
    - cbn [ReaderProof.leaves]. rewrite in_flat_map. split.
      + intros (c & Ic & I). apply IH in I as [E L]. split; [eapply ext_down; eassumption|]. cbn [length] in L. lia.
      + intros [E L]. destruct (ext_up r q E) as [->|(c & Ic & Ec)]; [lia|]. exists c. split; [exact Ic|]. apply IH. split; [exact Ec|]. cbn [length]. lia.
  Qed.
  Lemma leaves_shorter k l : leaves k [] = [] -> k <= l -> leaves l [] = [].
  Proof.
    intros E L. destruct (leaves l []) as [|q qs] eqn:Q; [reflexivity|]. exfalso.
    assert (I : In q (leaves l [])) by (rewrite Q; left; reflexivity). apply in_leaves in I as [X Lq]. cbn [length] in Lq.
    assert (N : exists q', ext [] q' /\ length q' = k).
    { clear Q E. assert (Lk : k <= length q) by lia. clear L Lq. induction X as [|x q X IH I].
      - cbn [length] in Lk. exists []. split; [apply ext_refl|cbn [length]; lia].
      - cbn [length] in Lk. destruct (Nat.eq_dec k (S (length q))) as [->|Ne]; [|apply IH; lia].
        exists (x :: q). split; [apply ext_cons; assumption|reflexivity]. }
    destruct N as (q' & X' & L'). assert (I : In q' (leaves k [])) by (apply in_leaves; split; [exact X'|cbn [length]; lia]). rewrite E in I. destruct I.
  Qed.
  (** The edges of the graph. *)
  Definition graph_edges : list edge := flat_map (fun a => map (fun b => (Some a, Some b)) (nexts h a)) (seq 0 (length h)).
  Lemma in_graph_edges a b : In (Some b) (succs h a) -> In (a, Some b) graph_edges.
  Proof.
    destruct a as [a|]; cbn [succs]; [|intros []]. intros I. apply in_map_iff in I as (x & Q & I). injection Q as ->.
    apply in_flat_map. exists a. split; [|apply in_map_iff; exists b; auto]. apply in_seq. split; [lia|].
    destruct (Nat.lt_ge_cases a (length h)) as [La|La]; [lia|]. unfold nexts in I. replace (nth_error h a) with (@None node) in I by (symmetry; apply nth_error_None, La). destruct I.
  Qed.
  Lemma ext_edges q : ext [] q -> NoDup (redges q) /\ incl (redges q) graph_edges /\ length q <= S (length (redges q)).
  Proof.
    intros E. induction E as [|x q E (N & I & L) Ix]; [split; [constructor|]; split; [intros x []|cbn [length]; lia]|].
    destruct q as [|y q]; [split; [constructor|]; split; [intros z []|cbn [length redges]; lia]|].
    cbn [ReaderProof.children] in Ix. apply filter_In in Ix as [Is Ix]. apply andb_true_iff in Ix as [_ Iu]. apply negb_true_iff in Iu.
    change (redges (x :: y :: q)) with ((y, x) :: redges (y :: q)). split; [|split].
    - constructor; [|exact N]. intros K. assert (X : existsb (eq_edge (y, x)) (redges (y :: q)) = true) by (apply existsb_exists; exists (y, x); split; [exact K|apply eq_edge_spec; reflexivity]). congruence.
    - intros e [<-|Ie]; [|apply I, Ie]. destruct x as [b|]; [apply in_graph_edges, Is|]. destruct y as [a|]; cbn [succs] in Is; [|destruct Is].
      apply in_map_iff in Is as (z & Q & _). discriminate.
    - cbn [length] in *. lia.
  Qed.
  Definition top : nat := S (S (length graph_edges)).
  Lemma leaves_top : leaves top [] = [].
  Proof.
    destruct (leaves top []) as [|q qs] eqn:Q; [reflexivity|]. exfalso. assert (I : In q (leaves top [])) by (rewrite Q; left; reflexivity).
    apply in_leaves in I as [X L]. destruct (ext_edges q X) as (N & I & Lq). pose proof (NoDup_incl_length N I). cbn [length] in L. unfold top in L. lia.
  Qed.

  Definition is_end (q : list point) : bool := match q with x :: _ => mem_point x (tg_ends (p_graph p)) | [] => false end.
  (** The complete trails of the levels from L on. *)
  Definition from (L : nat) : list (list point) := flat_map (fun l => filter is_end (leaves l [])) (seq L (S top - L)).
  Definition from_size (L : nat) : nat := list_sum (map (fun l => S (tsize p l [])) (seq L (S top - L))).
  Lemma from_step L : L <= top -> from L = filter is_end (leaves L []) ++ from (S L) /\ from_size L = S (tsize p L []) + from_size (S L).
  Proof.
    intros H. unfold from, from_size. replace (S top - L) with (S (S top - S L)) by lia. cbn [seq flat_map map]. split; reflexivity.
  Qed.
  Lemma from_empty L : leaves L [] = [] -> from L = [].
  Proof.
    intros E. unfold from. assert (F : forall k l, L <= l -> flat_map (fun l => filter is_end (leaves l [])) (seq l k) = []).
    { induction k as [|k IH]; intros l Ll; [reflexivity|]. cbn [seq flat_map]. rewrite (leaves_shorter L l E Ll), IH by lia. reflexivity. }
    apply F, le_n.
  Qed.
  (** A state of advancePath. *)
  Record lev (st : trails) : Prop := {
    lv_ok : ok_stack p (t_stack st); lv_used : used_ok (t_used st) (t_stack st); lv_pos : 1 <= t_len st; lv_le : length (t_stack st) <= t_len st;
    lv_top : t_len st <= top;
    lv_had : if t_had st then leaves (t_len st) [] <> [] else ahead p (t_len st) (t_stack st) = leaves (t_len st) [] }.
  Definition todo (st : trails) : list (list point) := filter is_end (ahead p (t_len st) (t_stack st)) ++ from (S (t_len st)).
  Definition msize (st : trails) : nat := asize p (t_len st) (t_stack st) + from_size (S (t_len st)).
  Lemma reset_lev L : 1 <= L -> L <= top -> lev (reset_level L).
  Proof.
    intros H1 H2. split; cbn [reset_level t_stack t_used t_len t_had ok_stack length]; auto.
    - intros e. reflexivity.
    - lia.
    - unfold ahead. cbn [length]. replace (Nat.eqb 0 L) with false by (symmetry; apply Nat.eqb_neq; lia). rewrite Nat.sub_0_r. cbn [nodes map rest]. apply app_nil_r.
  Qed.
  Lemma reset_todo L : 1 <= L -> L <= top -> todo (reset_level L) = from L /\ S (msize (reset_level L)) = from_size L.
  Proof.
    intros H1 H2. unfold todo, msize. cbn [reset_level t_stack t_used t_len t_had]. destruct (from_step L H2) as [-> ->]. unfold ahead, asize. cbn [length].
    replace (Nat.eqb 0 L) with false by (symmetry; apply Nat.eqb_neq; lia). rewrite Nat.sub_0_r. cbn [nodes map rest rsize]. rewrite app_nil_r. split; [reflexivity|lia].
  Qed.
  Lemma advance_spec fuel : forall st, lev st -> msize st < fuel ->
    match advance_path fuel p st with
    | None => False
    | Some (true, st1) => lev st1 /\ t_stack st1 <> [] /\ todo st = nodes (t_stack st1) :: todo st1 /\ msize st1 < msize st
    | Some (false, st1) => todo st = []
    end.
  Proof.
    induction fuel as [|f IH]; intros st [Ok U Ps Le Tp Hd] Sz; [lia|]. cbn [advance_path].
    replace (Nat.eqb (t_len st) 0) with false by (symmetry; apply Nat.eqb_neq; lia).
    pose proof (next_leaf_spec p (t_len st) (S f) st Ok U eq_refl Le Ps ltac:(unfold msize in Sz; lia)) as K.
    destruct (next_leaf (S f) p st) as [[[] st1]|]; [| |exact K].
    - destruct K as (K1 & K2 & K3 & K4 & K5 & K6 & K7). destruct (t_stack st1) as [|fr s1] eqn:Es; [cbn [length] in K4; lia|].
      assert (Lv : lev st1).
      { split; rewrite ?Es, ?K3, ?K4; auto. rewrite K5. intros N.
        destruct (t_had st); [exact (Hd N)|]. rewrite N in Hd. rewrite Hd in K6. discriminate. }
      assert (Sm : msize st1 < msize st) by (unfold msize; rewrite K3, Es; lia).
      assert (Td : todo st = (if mem_point (f_node fr) (tg_ends (p_graph p)) then [nodes (fr :: s1)] else []) ++ todo st1).
      { unfold todo. rewrite K6, K3, Es. cbn [filter]. change (is_end (nodes (fr :: s1))) with (mem_point (f_node fr) (tg_ends (p_graph p))).
        destruct (mem_point (f_node fr) (tg_ends (p_graph p))); reflexivity. }
      destruct (mem_point (f_node fr) (tg_ends (p_graph p))).
      + rewrite Es. split; [exact Lv|]. split; [discriminate|]. split; [exact Td|exact Sm].
      + specialize (IH st1 Lv ltac:(lia)). cbn [app] in Td. rewrite Td. destruct (advance_path f p st1) as [[[] st2]|]; auto.
        destruct IH as (A & B & C & D). split; [exact A|]. split; [exact B|]. split; [exact C|lia].
    - destruct K as (K1 & K2 & K3). rewrite K3. destruct (t_had st) eqn:Eh; cbn [negb].
      + assert (Lt : t_len st < top). { destruct (Nat.eq_dec (t_len st) top) as [E|]; [|lia]. rewrite E in Hd. destruct (Hd leaves_top). }
        rewrite K2. assert (Td : todo st = todo (reset_level (S (t_len st))) /\ msize (reset_level (S (t_len st))) < msize st).
        { unfold todo at 1. rewrite K1. cbn [filter app].
          destruct (reset_todo (S (t_len st)) ltac:(lia) ltac:(lia)) as [-> R2]. split; [reflexivity|]. remember (msize (reset_level (S (t_len st)))) as m. unfold msize. lia. }
        destruct Td as [Td Sm]. specialize (IH (reset_level (S (t_len st))) (reset_lev (S (t_len st)) ltac:(lia) ltac:(lia)) ltac:(lia)). rewrite Td.
        destruct (advance_path f p (reset_level (S (t_len st)))) as [[[] st2]|]; auto.
        destruct IH as (A & B & C & D). split; [exact A|]. split; [exact B|]. split; [exact C|lia].
      + unfold todo. rewrite K1. cbn [filter app]. apply from_empty. eapply leaves_shorter; [rewrite <- Hd; exact K1|lia].
  Qed.
End Levels.

(** ** Trails and paths *)
Lemma last_d {A} (s : list A) : forall a d1 d2, last (a :: s) d1 = last (a :: s) d2.
Proof. induction s as [|b s IH]; intros a d1 d2; [reflexivity|]. exact (IH b d1 d2). Qed.
Lemma linked_last h p0 : forall a b, linked h (a :: p0) -> In b (nexts h (last (a :: p0) a)) -> linked h ((a :: p0) ++ [b]).
Proof.
  induction p0 as [|c p0 IH]; intros a b; cbn [app].
  - intros _ I. cbn [linked last] in *. auto.
  - intros [I1 I2] Ib. split; [exact I1|]. apply (IH c b I2). rewrite (last_d p0 c c a). exact Ib.
Qed.
Lemma linked_snoc h p0 : forall a b, linked h ((a :: p0) ++ [b]) -> linked h (a :: p0) /\ In b (nexts h (last (a :: p0) a)).
Proof.
  induction p0 as [|c p0 IH]; intros a b; cbn [app].
  - intros [I _]. split; [exact Logic.I|exact I].
  - intros [I1 I2]. destruct (IH c b I2) as [A B]. split; [split; [exact I1|exact A]|].
    change (last (a :: c :: p0) a) with (last (c :: p0) a). rewrite (last_d p0 c a c). exact B.
Qed.
(** The trail of a path: its nodes, the last first. *)
Definition trail_of (s : list nat) : list point := match s with [] => [None] | _ => map Some (rev s) end.
Definition edges (s : list nat) : list (nat * nat) := combine s (tl s).
Lemma edges_snoc s : forall a b, edges ((a :: s) ++ [b]) = edges (a :: s) ++ [(last (a :: s) a, b)].
Proof.
  induction s as [|c s IH]; intros a b; [reflexivity|].
  change (edges ((a :: c :: s) ++ [b])) with ((a, c) :: edges ((c :: s) ++ [b])). rewrite IH.
  change (last (a :: c :: s) a) with (last (c :: s) a). rewrite (last_d s c a c). reflexivity.
Qed.
Lemma rev_head (s : list nat) a : exists r, rev (a :: s) = last (a :: s) a :: r.
Proof.
  destruct (exists_last (l := a :: s) ltac:(discriminate)) as (s1 & x & E). rewrite E, rev_app_distr, last_last. eexists. reflexivity.
Qed.
Lemma redges_trail s : forall a, map (fun e => (Some (fst e), Some (snd e))) (rev (edges (a :: s))) = redges (trail_of (a :: s)).
Proof.
  induction s as [|b s IH] using rev_ind; intros a; [reflexivity|].
  change (a :: s ++ [b]) with ((a :: s) ++ [b]). rewrite edges_snoc, rev_app_distr. cbn [rev app map fst snd].
  unfold trail_of. cbn [app]. change (a :: s ++ [b]) with ((a :: s) ++ [b]). rewrite rev_app_distr.
  destruct (rev_head s a) as (r & E). specialize (IH a). cbn [trail_of] in IH. rewrite E in *. cbn [rev app map redges]. exact (f_equal (cons (Some (last (a :: s) a), Some b)) IH).
Qed.
Lemma nodup_some (l : list (nat * nat)) : NoDup (map (fun e => (Some (fst e), Some (snd e))) l : list edge) <-> NoDup l.
Proof.
  split; [apply NoDup_map_inv|]. apply FinFun.Injective_map_NoDup. intros [a b] [c d] E. cbn [fst snd] in E. congruence.
Qed.

Section Paths.
  Variables (t : tgraph) (p : prepared) (P : prep_ok t p).
  Local Notation h := (tg_heap t).
  Definition producing_path (s : list nat) : Prop := Forall (fun a => producing (elem_at h a) = true) s.
  Lemma ext_trail q : ext p [] q -> q <> [] -> exists s, q = trail_of s /\
    match s with [] => In None (tg_entry t) | a :: _ => In (Some a) (tg_entry t) /\ linked h s /\ NoDup (edges s) /\ producing_path s end.
  Proof.
    pose proof (pk_graph t p P) as G. intros E. induction E as [|x q E IH I]; [congruence|]. intros _. destruct q as [|y q].
    - cbn [children] in I. apply (pk_entry t p P) in I as [Ie Ic]. destruct x as [a|].
      + exists [a]. split; [reflexivity|]. split; [exact Ie|]. split; [exact Logic.I|]. split; [constructor|]. constructor; [|constructor]. exact (pk_prod t p P _ Ic).
      + exists []. split; [reflexivity|exact Ie].
    - destruct (IH ltac:(discriminate)) as (s & Q & K). pose proof (ext_edges p (x :: y :: q) (ext_cons p [] x (y :: q) E I)) as (Nd & _ & _).
      cbn [children] in I. apply filter_In in I as [Is I]. apply andb_true_iff in I as [Ic _]. apply mem_point_spec in Ic. rewrite G in Is.
      destruct s as [|a s]; [injection Q as -> ->; destruct Is|]. destruct K as (K1 & K2 & K3 & K4).
      unfold trail_of in Q. destruct (rev_head s a) as (r & Er). rewrite Er in Q. cbn [map] in Q. injection Q as Qy Qq. subst y. cbn [succs] in Is.
      apply in_map_iff in Is as (b & <- & Ib). exists (a :: s ++ [b]).
      assert (Tr : Some b :: Some (last (a :: s) a) :: q = trail_of (a :: s ++ [b])).
      { unfold trail_of. change (a :: s ++ [b]) with ((a :: s) ++ [b]). rewrite rev_app_distr, Er. cbn [rev app map]. rewrite Qq. reflexivity. }
      split; [exact Tr|]. split; [exact K1|]. split; [apply (linked_last h s a b K2 Ib)|]. split.
      + pose proof (eq_ind _ (fun z => NoDup (redges z)) Nd _ Tr) as Nd1. clear Nd. rename Nd1 into Nd. cbv beta in Nd. rewrite <- redges_trail in Nd. apply nodup_some in Nd. apply NoDup_rev in Nd. rewrite rev_involutive in Nd. exact Nd.
      + change (a :: s ++ [b]) with ((a :: s) ++ [b]). apply Forall_app. split; [exact K4|]. constructor; [|constructor]. exact (pk_prod t p P _ Ic).
  Qed.
  Lemma ext_end q : ext p [] q /\ is_end p q = true -> exists s, q = trail_of s /\ path t s /\ NoDup (edges s) /\ producing_path s.
  Proof.
    intros [E X]. unfold is_end in X. rewrite (pk_graph t p P) in X. destruct q as [|x q]; [discriminate|]. apply mem_point_spec in X.
    destruct (ext_trail _ E ltac:(discriminate)) as (s & Q & K). exists s. split; [exact Q|]. destruct s as [|a s].
    - injection Q as -> ->. split; [split; assumption|]. split; [constructor|constructor].
    - destruct K as (K1 & K2 & K3 & K4). split; [|split; assumption]. split; [exact K1|]. split; [|exact K2].
      unfold trail_of in Q. destruct (rev_head s a) as (r & Er). rewrite Er in Q. injection Q as Qx _. rewrite Qx in X. exact X.
  Qed.
  (** Every node of a path through producing nodes can reach an end. *)
  Lemma path_can all : incl (tg_entry t) all -> (forall x s, In x all -> In s (succs h x) -> In s all) ->
    (forall n, In n all -> productive h n = true -> reaches h (tg_ends t) (p_can p) n -> In n (p_can p)) ->
    forall s a, In (Some a) all -> linked h (a :: s) -> In (Some (last (a :: s) a)) (tg_ends t) -> producing_path (a :: s) ->
    Forall (fun b => In (Some b) (p_can p)) (a :: s).
  Proof.
    intros A1 A2 A3. induction s as [|b s IH]; intros a Ia Lk Le Pr; apply Forall_inv in Pr as Pa; apply Forall_inv_tail in Pr as Pr'.
    - constructor; [|constructor]. apply A3; [exact Ia|exact Pa|]. left. exact Le.
    - destruct Lk as [Ib Lk]. assert (Is : In (Some b) (succs h (Some a))) by (apply in_map, Ib).
      assert (F : Forall (fun b => In (Some b) (p_can p)) (b :: s)).
      { apply IH; [apply (A2 _ _ Ia Is)|exact Lk| |exact Pr']. rewrite (last_d s b b a). exact Le. }
      constructor; [|exact F]. apply A3; [exact Ia|exact Pa|]. right. exists (Some b). split; [exact Is|]. split; [|exact (Forall_inv F)].
      exact (pk_prod t p P _ (Forall_inv F)).
  Qed.
  Lemma trail_ext s : path t s -> NoDup (edges s) -> producing_path s -> ext p [] (trail_of s) /\ is_end p (trail_of s) = true.
  Proof.
    pose proof (pk_graph t p P) as G. intros Pa Nd Pr. destruct (pk_all t p P) as (all & A1 & A2 & A3). destruct s as [|a s].
    - destruct Pa as [Ie Ix]. unfold trail_of, is_end. rewrite G. split; [|apply mem_point_spec; exact Ix].
      apply ext_cons; [apply ext_refl|]. cbn [children]. apply (pk_entry t p P). split; [exact Ie|]. apply A3; [apply A1, Ie|reflexivity|left; exact Ix].
    - destruct Pa as (Ie & Ix & Lk). split.
      + pose proof (path_can all A1 A2 A3 s a (A1 _ Ie) Lk Ix Pr) as F. clear Ix Pr.
        induction s as [|b s IH] using rev_ind.
        * apply ext_cons; [apply ext_refl|]. cbn [children]. apply (pk_entry t p P). split; [exact Ie|exact (Forall_inv F)].
        * change (a :: s ++ [b]) with ((a :: s) ++ [b]) in *. apply Forall_app in F as [F1 F2]. apply Forall_inv in F2.
          destruct (linked_snoc h s a b Lk) as [Lk1 Ib]. 
          assert (Nd1 : NoDup (edges (a :: s))) by (rewrite edges_snoc in Nd; apply NoDup_remove_1 in Nd; rewrite app_nil_r in Nd; exact Nd).
          specialize (IH Lk1 Nd1 F1).
          assert (Tr : trail_of ((a :: s) ++ [b]) = Some b :: trail_of (a :: s)) by (unfold trail_of; cbn [app]; change (a :: s ++ [b]) with ((a :: s) ++ [b]); rewrite rev_app_distr; reflexivity).
          assert (Nd2 : NoDup (redges (trail_of ((a :: s) ++ [b])))).
          { change ((a :: s) ++ [b]) with (a :: s ++ [b]). rewrite <- redges_trail. apply nodup_some. apply NoDup_rev. exact Nd. }
          rewrite Tr in Nd2 |- *. apply ext_cons; [exact IH|].
          destruct (rev_head s a) as (r & Er). unfold trail_of in *. rewrite Er in *. cbn [map] in *. cbn [children]. rewrite G.
          apply filter_In. split; [apply in_map, Ib|]. apply andb_true_iff. split; [apply mem_point_spec, F2|]. apply negb_true_iff.
          destruct (existsb _ _) eqn:X; [|reflexivity]. apply existsb_exists in X as (e & Ie2 & Qe). apply eq_edge_spec in Qe as <-.
          cbn [redges] in Nd2. inversion Nd2 as [|? ? Nx _]; subst. destruct (Nx Ie2).
      + unfold is_end, trail_of. destruct (rev_head s a) as (r & Er). rewrite Er, G. cbn [map]. apply mem_point_spec, Ix.
  Qed.
  Lemma in_from q : In q (from p 1) <-> exists s, q = trail_of s /\ path t s /\ NoDup (edges s) /\ producing_path s.
  Proof.
    unfold from. rewrite in_flat_map. split.
    - intros (l & Il & I). apply filter_In in I as [I X]. apply in_leaves in I as [E _]. apply ext_end. auto.
    - intros (s & -> & A & B & C). destruct (trail_ext s A B C) as [E X]. exists (length (trail_of s)). split.
      + apply in_seq. assert (L1 : 1 <= length (trail_of s)) by (destruct (trail_of s); [discriminate X|cbn [length]; lia]). split; [lia|].
        destruct (ext_edges p _ E) as (N & I & L). pose proof (NoDup_incl_length N I). unfold top. lia.
      + apply filter_In. split; [|exact X]. apply in_leaves. split; [exact E|cbn [length]; lia].
  Qed.
End Paths.

(** ** Variations *)
Definition zrange (a b : Z) : list Z := map (fun k => (a + Z.of_nat k)%Z) (seq 0 (Z.to_nat (b - a))).
Lemma in_zrange a b k : In k (zrange a b) <-> (a <= k < b)%Z.
Proof.
  unfold zrange. rewrite in_map_iff. split.
  - intros (n & <- & I). apply in_seq in I. lia.
  - intros H. exists (Z.to_nat (k - a)). split; [lia|]. apply in_seq. lia.
Qed.
Lemma zrange_nil a b : (b <= a)%Z -> zrange a b = [].
Proof. intros H. unfold zrange. replace (Z.to_nat (b - a)) with 0 by lia. reflexivity. Qed.
Lemma zrange_cons a b : (a < b)%Z -> zrange a b = a :: zrange (a + 1) b.
Proof.
  intros H. unfold zrange. replace (Z.to_nat (b - a)) with (S (Z.to_nat (b - (a + 1)))) by lia. cbn [seq map]. f_equal; [lia|].
  rewrite <- seq_shift, map_map. apply map_ext. intros k. lia.
Qed.
(** The index vectors, in the order they are met. *)
Fixpoint vecs (tot : list Z) : list (list Z) :=
  match tot with [] => [[]] | t :: tot' => flat_map (fun v => map (fun i => i :: v) (zrange 0 t)) (vecs tot') end.
Fixpoint after (idx tot : list Z) : list (list Z) :=
  match idx, tot with
  | i :: idx', t :: tot' => map (fun j => j :: idx') (zrange (i + 1) t) ++ flat_map (fun v => map (fun j => j :: v) (zrange 0 t)) (after idx' tot')
  | _, _ => []
  end.
Lemma odometer_spec idx : forall tot, Forall (fun t => (1 <= t)%Z) tot ->
  match odometer idx tot with Some l => after idx tot = l :: after l tot | None => after idx tot = [] end.
Proof.
  induction idx as [|i idx IH]; intros [|t tot] F; try reflexivity. cbn [odometer after]. destruct (i + 1 <? t)%Z eqn:E.
  - apply Z.ltb_lt in E. rewrite (zrange_cons (i + 1) t E). reflexivity.
  - apply Z.ltb_ge in E. rewrite (zrange_nil _ _ E). cbn [map app]. specialize (IH tot (Forall_inv_tail F)). destruct (odometer idx tot) as [l|]; rewrite IH; [|reflexivity].
    cbn [flat_map after]. rewrite (zrange_cons 0 t) by (apply Forall_inv in F; lia). reflexivity.
Qed.
Lemma vecs_after tot : Forall (fun t => (1 <= t)%Z) tot -> vecs tot = map (fun _ => 0%Z) tot :: after (map (fun _ => 0%Z) tot) tot.
Proof.
  induction tot as [|t tot IH]; intros F; [reflexivity|]. cbn [vecs map after]. rewrite (IH (Forall_inv_tail F)). cbn [flat_map].
  rewrite (zrange_cons 0 t) at 1 by (apply Forall_inv in F; lia). reflexivity.
Qed.
Lemma in_vecs tot : forall v, In v (vecs tot) <-> Forall2 (fun i t => (0 <= i < t)%Z) v tot.
Proof.
  induction tot as [|t tot IH]; intros v; cbn [vecs].
  - split; [intros [<-|[]]; constructor|]. intros F. inversion F. left. reflexivity.
  - rewrite in_flat_map. split.
    + intros (v' & I' & I). apply in_map_iff in I as (i & <- & I). constructor; [apply in_zrange, I|apply IH, I'].
    + intros F. inversion F as [|i t' v' tot' Hi Ht]; subst. exists v'. split; [apply IH, Ht|]. apply in_map_iff. exists i. split; [reflexivity|apply in_zrange, Hi].
Qed.

Section Words.
  Variable h : heap.
  Definition bytes_at (x : point) (k : Z) : list Z := match emit_point h x k with Some (b, _) => b | None => [] end.
  Definition total_at (x : point) : Z := match emit_point h x 0 with Some (_, vt) => Z.max 1 vt | None => 1%Z end.
  Fixpoint word (q : list point) (idx : list Z) : list Z :=
    match q, idx with x :: q', i :: idx' => word q' idx' ++ bytes_at x i | _, _ => [] end.
  Definition words (q : list point) : list (list Z) := map (word q) (vecs (map total_at q)).
  Definition safe (x : point) : Prop := match x with None => True | Some a => emit_safe (elem_at h a) end.
  Lemma safe_emit x k : safe x -> exists b vt, emit_point h x k = Some (b, vt).
  Proof. destruct x as [a|]; cbn [safe emit_point]; [apply emit_safe_some|eauto]. Qed.
  Lemma totals_spec s : Forall safe (nodes s) -> totals h s = Some (map total_at (nodes s)).
  Proof.
    induction s as [|f s IH]; intros F; [reflexivity|]. cbn [totals nodes map]. destruct (safe_emit (f_node f) 0 (Forall_inv F)) as (b & vt & E).
    rewrite (IH (Forall_inv_tail F)). unfold total_at at 2. rewrite E. f_equal. f_equal. destruct (vt <? 1)%Z eqn:L; [apply Z.ltb_lt in L|apply Z.ltb_ge in L]; lia.
  Qed.
  Lemma stage_spec s : forall idx, Forall safe (nodes s) -> length idx = length s -> stage h s idx = Some (word (nodes s) idx).
  Proof.
    induction s as [|f s IH]; intros [|i idx] F L; try discriminate; [reflexivity|]. cbn [stage nodes map word]. injection L as L.
    rewrite (IH idx (Forall_inv_tail F) L). unfold bytes_at. destruct (safe_emit (f_node f) i (Forall_inv F)) as (b & vt & E). rewrite E. reflexivity.
  Qed.
  Lemma totals_pos q : Forall (fun t => (1 <= t)%Z) (map total_at q).
  Proof. induction q as [|x q IH]; constructor; [|exact IH]. unfold total_at. destruct (emit_point h x 0) as [[b vt]|]; lia. Qed.
  Lemma odometer_length idx : forall tot l, odometer idx tot = Some l -> length l = length idx.
  Proof.
    induction idx as [|i idx IH]; intros [|t tot] l; try discriminate. cbn [odometer]. destruct (i + 1 <? t)%Z; [intros E; injection E as <-; reflexivity|].
    destruct (odometer idx tot) as [l'|] eqn:E; [|discriminate]. intros Q. injection Q as <-. cbn [length]. f_equal. exact (IH tot l' E).
  Qed.
  (** The words of a trail are what the nodes emit in turn. *)
  Lemma in_words s w : Forall (fun a => emit_safe (elem_at h a)) s ->
    In w (words (map Some (rev s))) <-> exists ws, Forall2 (fun a b => emitted (elem_at h a) b) s ws /\ w = concat ws.
  Proof.
    revert w. induction s as [|a s IH] using rev_ind; intros w F.
    - unfold words. cbn [rev map vecs In word]. split; [intros [<-|[]]; exists []; split; [constructor|reflexivity]|].
      intros (ws & F2 & ->). inversion F2. left. reflexivity.
    - apply Forall_app in F as [F Fa]. apply Forall_inv in Fa. rewrite rev_app_distr. cbn [rev app map]. unfold words. cbn [map vecs].
      rewrite in_map_iff. destruct (emit_safe_some (elem_at h a) 0 Fa) as (b0 & vt & E0).
      assert (T : total_at (Some a) = Z.max 1 vt) by (unfold total_at; cbn [emit_point]; rewrite E0; reflexivity). split.
      + intros (v & <- & I). apply in_flat_map in I as (v' & I' & I). apply in_map_iff in I as (k & <- & I). apply in_zrange in I. rewrite T in I.
        cbn [word]. destruct (proj1 (IH (word (map Some (rev s)) v') F)) as (ws & F2 & Ew); [apply in_map, I'|].
        destruct (emit_safe_some (elem_at h a) k Fa) as (b & v1 & E1). exists (ws ++ [b]). split.
        * apply Forall2_app; [exact F2|]. constructor; [|constructor]. exists k, vt, b0, v1. auto.
        * rewrite concat_app, Ew. unfold bytes_at. cbn [emit_point concat]. rewrite E1, app_nil_r. reflexivity.
      + intros (ws & F2 & ->). apply Forall2_app_inv_l in F2 as (ws1 & wsa & F2 & Fe & ->). inversion Fe as [|x b l l' He Fn]; subst. inversion Fn; subst.
        destruct He as (k & vt' & b0' & v1 & E0' & Hk & E1). rewrite E0 in E0'. injection E0' as <- <-.
        assert (I1 : In (concat ws1) (words (map Some (rev s)))) by (apply (IH _ F); exists ws1; auto).
        apply in_map_iff in I1 as (v' & Ew & I1). exists (k :: v'). split.
        * cbn [word]. rewrite Ew, concat_app. unfold bytes_at. cbn [emit_point concat]. rewrite E1, app_nil_r. reflexivity.
        * apply in_flat_map. exists v'. split; [exact I1|]. apply in_map_iff. exists k. split; [reflexivity|]. apply in_zrange. rewrite T. exact Hk.
  Qed.
End Words.

(** ** The reader *)
Section Read.
  Variables (p : prepared) (F : nat).
  Local Notation h := (tg_heap (p_graph p)).
  Hypothesis Safe : forall q, In q (from p 1) -> Forall (safe h) q.
  Definition outs (qs : list (list point)) : list (list Z) := flat_map (words h) qs.
  Definition begun (tr : trails) : trails := if Nat.eqb (t_len tr) 0 then reset_level 1 else tr.
  Definition ready (tr : trails) : Prop := lev p (begun tr) /\ msize p (begun tr) < F /\ incl (todo p (begun tr)) (from p 1).
  (** The productions a reader has left. *)
  Definition holds (r : reader) (l : list (list Z)) : Prop :=
    r_prep r = p /\
    if r_exhausted r then r_has_staged r = false /\ l = []
    else ready (r_trails r) /\
      if r_have r then
        begun (r_trails r) = r_trails r /\
        In (nodes (t_stack (r_trails r))) (from p 1) /\ r_tot r = map (total_at h) (nodes (t_stack (r_trails r))) /\ length (r_idx r) = length (t_stack (r_trails r)) /\
        (r_has_staged r = true -> r_staged r = word h (nodes (t_stack (r_trails r))) (r_idx r)) /\
        l = map (word h (nodes (t_stack (r_trails r)))) (r_idx r :: after (r_idx r) (r_tot r)) ++ outs (todo p (r_trails r))
      else r_has_staged r = false /\ l = outs (todo p (begun (r_trails r))).
  Lemma advance_begun tr : advance_path F p tr = advance_path F p (begun tr).
  Proof. unfold begun. destruct F as [|f]; [reflexivity|]. cbn [advance_path]. destruct (Nat.eqb (t_len tr) 0) eqn:E; [reflexivity|rewrite E; reflexivity]. Qed.
  Lemma ensure_spec r l : holds r l -> exists r1, ensure_staged F r = Rd_ok r1 /\ holds r1 l /\
    match l with [] => r_has_staged r1 = false | w :: _ => r_has_staged r1 = true /\ r_exhausted r1 = false /\ r_have r1 = true /\ r_staged r1 = w end.
  Proof.
    destruct r as [pp tr ex hv idx tot stg hs]. unfold holds. cbn [r_prep r_trails r_exhausted r_have r_idx r_tot r_staged r_has_staged]. intros [-> H].
    unfold ensure_staged. cbn [r_prep r_trails r_exhausted r_have r_idx r_tot r_staged r_has_staged].
    destruct ex.
    - destruct H as [-> ->]. cbn [orb]. eexists. split; [reflexivity|]. cbn [r_prep r_trails r_exhausted r_have r_idx r_tot r_staged r_has_staged]. auto.
    - destruct H as [R H]. destruct hv.
      + destruct H as (B & I & T & Li & Sg & ->). destruct hs; cbn [orb].
        * eexists. split; [reflexivity|]. cbn [r_prep r_trails r_exhausted r_have r_idx r_tot r_staged r_has_staged map app].
          split; [split; [reflexivity|]; split; [exact R|]; split; [exact B|]; split; [exact I|]; split; [exact T|]; split; [exact Li|]; split; [exact Sg|reflexivity]|].
          specialize (Sg eq_refl). auto.
        * rewrite (stage_spec h (t_stack tr) idx (Safe _ I) Li). eexists. split; [reflexivity|].
          cbn [r_prep r_trails r_exhausted r_have r_idx r_tot r_staged r_has_staged map app].
          split; [split; [reflexivity|]; split; [exact R|]; split; [exact B|]; split; [exact I|]; split; [exact T|]; split; [exact Li|]; split; [reflexivity|reflexivity]|]. auto.
      + destruct H as [-> ->]. cbn [orb]. rewrite advance_begun. destruct R as (Lv & Sz & In1).
        pose proof (advance_spec p F (begun tr) Lv Sz) as K. destruct (advance_path F p (begun tr)) as [[[] st1]|]; [| |destruct K].
        * destruct K as (Lv1 & Ne & Td & Sz1).
          assert (I : In (nodes (t_stack st1)) (from p 1)) by (apply In1; rewrite Td; left; reflexivity).
          assert (B : begun st1 = st1) by (unfold begun; destruct Lv1 as [_ _ Ps _ _ _]; destruct (t_len st1); [lia|reflexivity]).
          rewrite (totals_spec h (t_stack st1) (Safe _ I)).
          set (z := map (fun _ : frame => 0%Z) (t_stack st1)).
          assert (Lz : length z = length (t_stack st1)) by (apply map_length).
          rewrite (stage_spec h (t_stack st1) z (Safe _ I) Lz). eexists. split; [reflexivity|].
          cbn [r_prep r_trails r_exhausted r_have r_idx r_tot r_staged r_has_staged].
          assert (V : outs (todo p (begun tr)) = map (word h (nodes (t_stack st1))) (z :: after z (map (total_at h) (nodes (t_stack st1)))) ++ outs (todo p st1)).
          { rewrite Td. unfold outs at 1. cbn [flat_map]. f_equal. unfold words. rewrite (vecs_after _ (totals_pos h _)).
            replace (map (fun _ : Z => 0%Z) (map (total_at h) (nodes (t_stack st1)))) with z; [reflexivity|]. unfold z, nodes. rewrite !map_map. reflexivity. }
          split; [|rewrite V; cbn [map app]; auto]. split; [reflexivity|]. split.
          -- split; [rewrite B; exact Lv1|]. split; [rewrite B; lia|]. rewrite B. intros q Iq. apply In1. rewrite Td. right. exact Iq.
          -- split; [exact B|]. split; [exact I|]. split; [reflexivity|]. split; [exact Lz|]. split; [reflexivity|exact V].
        * rewrite K. eexists. split; [reflexivity|]. cbn [r_prep r_trails r_exhausted r_have r_idx r_tot r_staged r_has_staged outs flat_map]. auto.
  Qed.
  Lemma consume_spec r w l : holds r (w :: l) -> r_exhausted r = false -> r_have r = true -> holds (consume_staged r) l.
  Proof.
    destruct r as [pp tr ex hv idx tot stg hs]. unfold holds, consume_staged. cbn [r_prep r_trails r_exhausted r_have r_idx r_tot r_staged r_has_staged]. intros [-> H] -> ->.
    destruct H as (R & B & I & T & Li & Sg & Q). cbn [map app] in Q. injection Q as -> ->.
    pose proof (odometer_spec idx tot ltac:(rewrite T; apply totals_pos)) as O. destruct (odometer idx tot) as [l'|] eqn:E.
    - cbn [r_prep r_trails r_exhausted r_have r_idx r_tot r_staged r_has_staged]. split; [reflexivity|]. split; [exact R|]. split; [exact B|]. split; [exact I|]. split; [exact T|].
      split; [rewrite (odometer_length _ _ _ E); exact Li|]. split; [discriminate|]. rewrite O. reflexivity.
    - cbn [r_prep r_trails r_exhausted r_have r_idx r_tot r_staged r_has_staged]. split; [reflexivity|]. split; [exact R|]. split; [reflexivity|]. rewrite O. cbn [map app]. rewrite B. reflexivity.
  Qed.
  Lemma next_spec r l : holds r l -> exists r1, reader_next F r = Rd_ok (match l with [] => false | _ => true end, r1) /\ holds r1 l.
  Proof.
    intros H. destruct (ensure_spec r l H) as (r1 & E & H1 & K). unfold reader_next. rewrite E. exists r1. split; [|exact H1].
    destruct l as [|w l]; [rewrite K; reflexivity|]. destruct K as [-> _]. reflexivity.
  Qed.
  Lemma scan_spec r l : holds r l -> exists r1, reader_scan F r = Rd_ok (hd_error l, r1) /\ holds r1 (tl l).
  Proof.
    intros H. destruct (ensure_spec r l H) as (r1 & E & H1 & K). unfold reader_scan. rewrite E.
    destruct l as [|w l]; [rewrite K; exists r1; split; [reflexivity|exact H1]|]. destruct K as (K1 & K2 & K3 & K4). rewrite K1.
    exists (consume_staged r1). split; [rewrite K4; reflexivity|]. eapply consume_spec; eassumption.
  Qed.
  Lemma new_holds : from_size p 1 <= F -> holds (new_reader p) (outs (from p 1)).
  Proof.
    intros Hf. unfold holds, new_reader. cbn [r_prep r_trails r_exhausted r_have r_idx r_tot r_staged r_has_staged]. split; [reflexivity|].
    unfold ready, begun. cbn [t_len Nat.eqb]. assert (T1 : 1 <= top p) by (unfold top; lia). destruct (reset_todo p 1 (le_n 1) T1) as [E S1].
    split; [|split; [reflexivity|rewrite E; reflexivity]]. split; [apply reset_lev; [lia|exact T1]|]. split; [lia|]. rewrite E. apply incl_refl.
  Qed.
End Read.

(** ** No trail twice, shorter ones first *)
Lemma nodup_flat {A B} (f : A -> list B) l : NoDup l -> (forall x, In x l -> NoDup (f x)) ->
  (forall x y b, In x l -> In y l -> In b (f x) -> In b (f y) -> x = y) -> NoDup (flat_map f l).
Proof.
  induction l as [|x l IH]; intros N H D; [constructor|]. cbn [flat_map]. inversion N as [|? ? Nx Nl]; subst.
  assert (N1 : NoDup (flat_map f l)) by (apply IH; [exact Nl|intros y I; apply H; right; exact I|intros y z b Iy Iz; apply D; right; assumption]).
  assert (K : forall b, In b (f x) -> ~ In b (flat_map f l)).
  { intros b Ib I. apply in_flat_map in I as (y & Iy & I). rewrite (D x y b (or_introl eq_refl) (or_intror Iy) Ib I) in Nx. exact (Nx Iy). }
  specialize (H x (or_introl eq_refl)). clear IH D N Nx Nl. induction (f x) as [|b bs IH]; [exact N1|]. cbn [app]. inversion H as [|? ? Nb Nbs]; subst. constructor.
  - intros I. apply in_app_or in I as [I|I]; [exact (Nb I)|]. exact (K b (or_introl eq_refl) I).
  - apply IH; [exact Nbs|intros c Ic; apply K; right; exact Ic].
Qed.
Section Order.
  Variables (t : tgraph) (p : prepared) (P : prep_ok t p).
  Hypothesis De : NoDup (p_entries p).
  Hypothesis Dn : forall a, NoDup (nexts (tg_heap t) a).
  Lemma children_nodup q : NoDup (children p q).
  Proof.
    destruct q as [|x q]; [exact De|]. cbn [children]. apply NoDup_filter. rewrite (pk_graph t p P). destruct x as [a|]; cbn [succs]; [|constructor].
    apply FinFun.Injective_map_NoDup; [|apply Dn]. intros u v E. congruence.
  Qed.
  Lemma ext_suffix r q : ext p r q -> exists z, q = z ++ r.
  Proof. induction 1 as [|x q E (z & ->) I]; [exists []; reflexivity|exists (x :: z); reflexivity]. Qed.
  Lemma leaves_nodup k : forall q, NoDup (leaves p k q).
  Proof.
    induction k as [|k IH]; intros q; [constructor; [intros []|constructor]|]. cbn [leaves]. apply nodup_flat; [apply children_nodup|intros x _; apply IH|].
    intros x y b _ _ Ix Iy. apply in_leaves in Ix as [Ex _]. apply in_leaves in Iy as [Ey _]. apply ext_suffix in Ex as (z1 & E1). apply ext_suffix in Ey as (z2 & E2).
    rewrite E1 in E2. change (x :: q) with ([x] ++ q) in E2. change (y :: q) with ([y] ++ q) in E2. rewrite !app_assoc in E2. apply app_inv_tail in E2.
    apply app_inj_tail in E2 as [_ E2]. exact E2.
  Qed.
  Lemma from_nodup : NoDup (from p 1).
  Proof.
    unfold from. apply nodup_flat; [apply seq_NoDup|intros l _; apply NoDup_filter, leaves_nodup|].
    intros x y b _ _ Ix Iy. apply filter_In in Ix as [Ix _]. apply filter_In in Iy as [Iy _]. apply in_leaves in Ix as [_ Ex]. apply in_leaves in Iy as [_ Ey]. cbn [length] in *. lia.
  Qed.
End Order.
