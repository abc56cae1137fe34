(** Proofs about NewGenerator and walk.
    Its definitions are means of proof and model no code. *)
From Coq Require Import ZArith Arith String Bool List Lia.
From Verif Require Import Syntax Spec Num Utf8 Tape Ast AstProof Graph GraphSpec GraphRun GraphClone Walk.
Import ListNotations.
Local Open Scope nat_scope.
Local Open Scope list_scope.

(** ** Collecting *)
Section Collect.
  Variable h : heap.
  Variable P : nat -> Prop.
  Hypothesis Pn : forall a b, P a -> In b (nexts h a) -> P b.
  Record coll (stack nodes : list nat) (rev_adj : list (nat * nat)) : Prop := {
    co_stack : forall a, In a stack -> P a;
    co_nodes : forall a, In a nodes -> P a /\ producing (elem_at h a) = true;
    co_nodup : NoDup nodes;
    co_closed : forall a b, In a nodes -> In b (nexts h a) -> In b nodes \/ In b stack;
    co_rev : forall b a, In (b, a) rev_adj <-> In a nodes /\ In b (nexts h a) }.
  Lemma collect_spec fuel : forall stack nodes rev_adj, coll stack nodes rev_adj -> length stack + unsum h nodes < fuel ->
    match collect fuel h stack nodes rev_adj with
    | inl None => False
    | inl (Some (nodes', rev')) => coll [] nodes' rev' /\ incl stack nodes' /\ incl nodes nodes'
    | inr e => exists a, P a /\ e = elem_at h a /\ producing e = false
    end.
  Proof.
    induction fuel as [|f IH]; intros stack nodes ra C L; [lia|]. cbn [collect]. destruct stack as [|n stack].
    - split; [exact C|]. split; [intros x []|apply incl_refl].
    - cbn [length] in L. destruct C as [C1 C2 C3 C4 C5]. destruct (existsb (Nat.eqb n) nodes) eqn:E.
      + apply existsb_nat in E. specialize (IH stack nodes ra).
        assert (C' : coll stack nodes ra).
        { split; auto; [intros a I; apply C1; right; exact I|]. intros a b Ia Ib. destruct (C4 a b Ia Ib) as [K|[<-|K]]; auto. }
        specialize (IH C' ltac:(lia)). destruct (collect f h stack nodes ra) as [[[n' r']|]|e]; auto.
        destruct IH as (I1 & I2 & I3). split; [exact I1|]. split; [|exact I3]. intros x [<-|Ix]; [apply I3, E|apply I2, Ix].
      + assert (N : ~ In n nodes) by (intros K; apply existsb_nat in K; congruence).
        destruct (producing (elem_at h n)) eqn:Ep; cbn [negb].
        2: { exists n. split; [apply C1; left; reflexivity|]. auto. }
        pose proof (unsum_le h n nodes N) as U.
        specialize (IH (rev (nexts h n) ++ stack) (n :: nodes) (ra ++ map (fun sc => (sc, n)) (nexts h n))).
        assert (Pn' : P n) by (apply C1; left; reflexivity).
        assert (C' : coll (rev (nexts h n) ++ stack) (n :: nodes) (ra ++ map (fun sc => (sc, n)) (nexts h n))).
        { split.
          - intros a I. apply in_app_or in I as [I|I]; [apply in_rev in I; eapply Pn; eassumption|apply C1; right; exact I].
          - intros a [<-|I]; [auto|apply C2, I].
          - constructor; assumption.
          - intros a b [<-|Ia] Ib; [right; apply in_or_app; left; apply -> in_rev; exact Ib|].
            destruct (C4 a b Ia Ib) as [K|[<-|K]]; [left; right; exact K|left; left; reflexivity|right; apply in_or_app; right; exact K].
          - intros b a. rewrite in_app_iff, C5, in_map_iff. cbn [In]. split.
            + intros [[I1 I2]|(x & Q & I)]; [auto|]. injection Q as -> <-. auto.
            + intros [[<-|I1] I2]; [right; exists b; auto|left; auto]. }
        assert (L' : length (rev (nexts h n) ++ stack) + unsum h (n :: nodes) < f) by (rewrite app_length, rev_length; lia).
        specialize (IH C' L'). destruct (collect f h _ _ _) as [[[n' r']|]|e]; auto.
        destruct IH as (I1 & I2 & I3). split; [exact I1|]. split.
        * intros x [<-|Ix]; [apply I3; left; reflexivity|apply I2, in_or_app; right; exact Ix].
        * intros x Ix. apply I3. right. exact Ix.
  Qed.
End Collect.

(** ** The map *)
Lemma nodup_snoc {A} (l : list A) x : NoDup l -> ~ In x l -> NoDup (l ++ [x]).
Proof.
  intros D N. induction D as [|y l Ny D IH]; cbn [app]; [constructor; [intros []|constructor]|].
  constructor; [|apply IH; intros K; apply N; right; exact K].
  intros K. apply in_app_or in K as [K|[<-|[]]]; [exact (Ny K)|apply N; left; reflexivity].
Qed.
Lemma eq_point_spec a b : eq_point a b = true <-> a = b.
Proof.
  destruct a as [x|], b as [y|]; cbn; try (split; [discriminate|congruence]); try tauto.
  rewrite Nat.eqb_eq. split; congruence.
Qed.
Lemma eq_point_refl a : eq_point a a = true.
Proof. apply eq_point_spec. reflexivity. Qed.
Lemma existsb_point x l : existsb (eq_point x) l = true <-> In x l.
Proof.
  rewrite existsb_exists. split; [intros (y & I & Q); apply eq_point_spec in Q as ->; exact I|]. intros I. exists x. split; [exact I|apply eq_point_refl].
Qed.
Lemma dget_in k m : (exists d, dget k m = Some d) <-> In k (map fst m).
Proof.
  induction m as [|[x v] m IH]; cbn [dget map fst In]; [split; [intros (d & E); discriminate|intros []]|].
  destruct (eq_point x k) eqn:E.
  - apply eq_point_spec in E. split; [auto|eauto].
  - rewrite IH. split; [auto|]. intros [->|I]; [rewrite eq_point_refl in E; discriminate|exact I].
Qed.
Lemma dget_none k m : dget k m = None <-> ~ In k (map fst m).
Proof. rewrite <- dget_in. destruct (dget k m); split; try discriminate; auto; [intros N; exfalso; eauto|intros _ (v & E); discriminate]. Qed.
Lemma dget_app k m x v : dget x m = None -> dget k (m ++ [(x, v)]) = if eq_point x k then Some v else dget k m.
Proof.
  intros N. induction m as [|[y u] m IH]; cbn [dget app] in *; [reflexivity|].
  destruct (eq_point y x) eqn:E1; [discriminate|]. rewrite (IH N). destruct (eq_point y k) eqn:E2; [|reflexivity].
  apply eq_point_spec in E2 as ->. destruct (eq_point x k) eqn:E3; [|reflexivity]. apply eq_point_spec in E3 as ->. rewrite eq_point_refl in E1. discriminate.
Qed.
Lemma can_reach_spec m id : can_reach m id = true <-> exists d, dget id m = Some d.
Proof. unfold can_reach. destruct (dget id m) as [d|]; split; eauto; [discriminate|intros (d & E); discriminate]. Qed.

(** ** The search *)
Section Search.
  Variable h : heap.
  Variable ends : points.
  Variable nodes : list nat.
  Variable ra : list (nat * nat).
  Hypothesis Ra : forall b a, In (b, a) ra <-> In a nodes /\ In b (nexts h a).
  Hypothesis Nd : NoDup nodes.

  Record dinv (m : dmap) : Prop := {
    di_nodup : NoDup (map fst m);
    di_zero : forall id, dget id m = Some 0 <-> In id ends;
    di_step : forall id d, dget id m = Some (S d) -> exists a b, id = Some a /\ In a nodes /\ In b (nexts h a) /\ dget (Some b) m = Some d }.
  Lemma preds_in id a : In a (preds ra id) <-> exists b, id = Some b /\ In a nodes /\ In b (nexts h a).
  Proof.
    unfold preds. rewrite in_flat_map. split.
    - intros ([b x] & I & K). cbn [fst snd] in K. destruct (eq_point (Some b) id) eqn:E; [|destruct K]. destruct K as [->|[]].
      apply eq_point_spec in E. exists b. split; [auto|]. apply Ra, I.
    - intros (b & -> & I). exists (b, a). split; [apply Ra, I|]. cbn [fst snd]. rewrite eq_point_refl. left. reflexivity.
  Qed.
  Definition unreached (m : dmap) : nat := length (filter (fun a => negb (can_reach m (Some a))) nodes).
  Lemma unreached_app m p d : In p nodes -> dget (Some p) m = None -> S (unreached (m ++ [(Some p, d)])) = unreached m.
  Proof.
    intros I N. unfold unreached. clear Ra.
    assert (Ca : forall x, can_reach (m ++ [(Some p, d)]) (Some x) = (Nat.eqb p x || can_reach m (Some x))%bool).
    { intros x. unfold can_reach. rewrite (dget_app (Some x) m (Some p) d N). cbn [eq_point]. destruct (Nat.eqb p x); reflexivity. }
    induction Nd as [|x l Nx Nl IH]; [destruct I|]. cbn [filter]. rewrite !Ca. destruct I as [->|I].
    - assert (Cp : can_reach m (Some p) = false) by (unfold can_reach; rewrite N; reflexivity).
      rewrite Nat.eqb_refl, Cp. cbn [orb negb length]. f_equal.
      assert (F : forall k, ~ In p k -> filter (fun a => negb (can_reach (m ++ [(Some p, d)]) (Some a))) k = filter (fun a => negb (can_reach m (Some a))) k).
      { induction k as [|y k IHk]; intros Nk; [reflexivity|]. cbn [filter]. rewrite Ca.
        destruct (Nat.eqb_spec p y) as [->|_]; [exfalso; apply Nk; left; reflexivity|]. cbn [orb].
        rewrite IHk by (intros K; apply Nk; right; exact K). reflexivity. }
      rewrite F by exact Nx. reflexivity.
    - destruct (Nat.eqb_spec p x) as [->|_]; [contradiction|]. specialize (IH Nl I). cbn [orb].
      destruct (can_reach m (Some x)); cbn [negb length]; lia.
  Qed.
  Lemma dinv_app m p b d : dinv m -> In p nodes -> In b (nexts h p) -> dget (Some b) m = Some d -> dget (Some p) m = None -> dinv (m ++ [(Some p, S d)]).
  Proof.
    intros [A B C] Ip Ib Eb N. split.
    - rewrite map_app. cbn [map fst]. apply nodup_snoc; [exact A|apply dget_none, N].
    - intros id. rewrite (dget_app id m (Some p) (S d) N). rewrite <- B. destruct (eq_point (Some p) id) eqn:E; [|reflexivity].
      apply eq_point_spec in E as <-. rewrite N. split; discriminate.
    - intros id k. rewrite (dget_app id m (Some p) (S d) N). destruct (eq_point (Some p) id) eqn:E.
      + intros Q. injection Q as <-. apply eq_point_spec in E as <-. exists p, b. split; [reflexivity|]. split; [exact Ip|]. split; [exact Ib|].
        rewrite (dget_app (Some b) m (Some p) (S d) N). destruct (eq_point (Some p) (Some b)) eqn:E; [|exact Eb].
        apply eq_point_spec in E. congruence.
      + intros Q. destruct (C id k Q) as (a & c & -> & I1 & I2 & I3). exists a, c. split; [reflexivity|]. split; [exact I1|]. split; [exact I2|].
        rewrite (dget_app (Some c) m (Some p) (S d) N). destruct (eq_point (Some p) (Some c)) eqn:E'; [|exact I3].
        apply eq_point_spec in E'. congruence.
  Qed.
  (** One round. *)
  Definition push_pred (d : nat) (mq : dmap * list (option nat)) (p : nat) : dmap * list (option nat) :=
    match dget (Some p) (fst mq) with
    | Some _ => mq
    | None => (fst mq ++ [(Some p, S d)], snd mq ++ [Some p])
    end.
  Lemma round_spec b d l : (forall p, In p l -> In p nodes /\ In b (nexts h p)) -> forall m q, dinv m -> dget (Some b) m = Some d ->
    let '(m', q') := fold_left (push_pred d) l (m, q) in
    dinv m' /\ (forall id k, dget id m = Some k -> dget id m' = Some k) /\ length q' + unreached m' = length q + unreached m /\
    incl q q' /\ (forall p, In p l -> exists k, dget (Some p) m' = Some k) /\
    (forall id k, dget id m' = Some k -> dget id m = Some k \/ In id q') /\ (forall id, In id q' -> In id q \/ exists k, dget id m' = Some k).
  Proof.
    induction l as [|p l IH]; intros Pl m q D E; cbn [fold_left].
    - split; [exact D|]. split; [auto|]. split; [reflexivity|]. split; [apply incl_refl|]. split; [intros p []|]. split; auto.
    - destruct (Pl p (or_introl eq_refl)) as [Ip Ib]. unfold push_pred at 2. cbn [fst snd].
      destruct (dget (Some p) m) as [k|] eqn:N.
      + specialize (IH (fun x I => Pl x (or_intror I)) m q D E). destruct (fold_left (push_pred d) l (m, q)) as [m' q'].
        destruct IH as (I1 & I2 & I3 & I4 & I5 & I6 & I7). split; [exact I1|]. split; [exact I2|]. split; [exact I3|]. split; [exact I4|].
        split; [|split; assumption]. intros x [<-|Ix]; [eauto|auto].
      + pose proof (dinv_app m p b d D Ip Ib E N) as D'. set (m1 := (m ++ [(Some p, S d)] : dmap)) in *. change (m ++ [(Some p, S d)]) with m1.
        assert (K : forall id k, dget id m = Some k -> dget id m1 = Some k).
        { intros id k Q. unfold m1. rewrite (dget_app id m (Some p) (S d) N). destruct (eq_point (Some p) id) eqn:E'; [|exact Q].
          apply eq_point_spec in E'. congruence. }
        specialize (IH (fun x I => Pl x (or_intror I)) m1 (q ++ [Some p]) D' (K _ _ E)).
        change (@pair (list (option nat * nat)) (list (option nat)) m1) with (@pair dmap (list (option nat)) m1).
        destruct (fold_left (push_pred d) l (m1, q ++ [Some p])) as [m' q']. destruct IH as (I1 & I2 & I3 & I4 & I5 & I6 & I7).
        split; [exact I1|]. split; [auto|]. split.
        { rewrite I3, app_length. cbn [length]. pose proof (unreached_app m p (S d) Ip N) as U. fold m1 in U. lia. }
        split; [intros x Ix; apply I4, in_or_app; left; exact Ix|]. split; [|split].
        * intros x [<-|Ix]; [|auto]. exists (S d). apply I2. unfold m1. rewrite (dget_app (Some p) m (Some p) (S d) N), eq_point_refl. reflexivity.
        * intros id k Q. destruct (I6 id k Q) as [Q1|Q1]; [|auto]. unfold m1 in Q1. rewrite (dget_app id m (Some p) (S d) N) in Q1.
          destruct (eq_point (Some p) id) eqn:E'; [|auto]. apply eq_point_spec in E' as <-. right. apply I4, in_or_app. right. left. reflexivity.
        * intros id Ix. destruct (I7 id Ix) as [Iq|Iq]; [|auto]. apply in_app_or in Iq as [Iq|[<-|[]]]; [auto|].
          right. exists (S d). apply I2. unfold m1. rewrite (dget_app (Some p) m (Some p) (S d) N), eq_point_refl. reflexivity.
  Qed.
  Definition dclosed (m : dmap) (q : list (option nat)) : Prop :=
    forall b d a, dget (Some b) m = Some d -> In a nodes -> In b (nexts h a) -> In (Some b) q \/ exists k, dget (Some a) m = Some k.
  Lemma search_spec fuel : forall m q, dinv m -> dclosed m q -> (forall id, In id q -> exists k, dget id m = Some k) ->
    length q + unreached m < fuel -> exists m', search fuel ra m q = Some m' /\ dinv m' /\ dclosed m' [].
  Proof.
    induction fuel as [|f IH]; intros m q D C Q L; [lia|]. cbn [search]. destruct q as [|id q]; [exists m; auto|].
    destruct (Q id (or_introl eq_refl)) as (d & Ed). rewrite Ed.
    change (fun mq p => match dget (Some p) (fst mq) with Some _ => mq | None => (fst mq ++ [(Some p, S d)], snd mq ++ [Some p]) end) with (push_pred d).
    cbn [length] in L. destruct id as [b|].
    - pose proof (round_spec b d (preds ra (Some b))) as R.
      specialize (R ltac:(intros p I; apply preds_in in I as (x & X & Y); injection X as <-; exact Y) m q D Ed).
      destruct (fold_left (push_pred d) (preds ra (Some b)) (m, q)) as [m' q']. destruct R as (I1 & I2 & I3 & I4 & I5 & I6 & I7).
      apply IH; [exact I1| | |lia].
      + intros x k a Ex Ia Ix. destruct (I6 _ _ Ex) as [O|O]; [|left; exact O].
        destruct (C x k a O Ia Ix) as [[Z|Z]|(j & Z)].
        * injection Z as ->. right. apply I5. apply preds_in. eauto.
        * left. apply I4, Z.
        * right. exists j. auto.
      + intros x Ix. destruct (I7 x Ix) as [Y|Y]; [|exact Y]. destruct (Q x (or_intror Y)) as (j & Z). exists j. auto.
    - assert (N : preds ra None = []).
      { destruct (preds ra None) as [|x l] eqn:E; [reflexivity|]. assert (X : In x (preds ra None)) by (rewrite E; left; reflexivity).
        apply preds_in in X as (b & X & _). discriminate. }
      rewrite N. cbn [fold_left]. apply IH; [exact D| |intros x Ix; apply Q; right; exact Ix|lia].
      intros x k a Ex Ia Ix. destruct (C x k a Ex Ia Ix) as [[Z|Z]|Z]; [discriminate|auto|auto].
  Qed.
  (** The end points. *)
  Definition push_end (mq : dmap * list (option nat)) (id : option nat) : dmap * list (option nat) :=
    match dget id (fst mq) with Some _ => mq | None => (fst mq ++ [(id, 0)], snd mq ++ [id]) end.
  Record started (l : points) (mq : dmap * list (option nat)) : Prop := {
    sd_nodup : NoDup (map fst (fst mq));
    sd_get : forall id d, dget id (fst mq) = Some d <-> d = 0 /\ In id (snd mq);
    sd_in : forall id, In id (snd mq) <-> In id l;
    sd_len : length (snd mq) <= length l }.
  Lemma start_spec : started ends (start_ends ends).
  Proof.
    change (start_ends ends) with (fold_left push_end ends ([], [])). clear Ra Nd.
    assert (G : forall l k mq, started k mq -> started (k ++ l) (fold_left push_end l mq)).
    { induction l as [|x l IH]; intros k mq S; cbn [fold_left]; [rewrite app_nil_r; exact S|].
      replace (k ++ x :: l) with ((k ++ [x]) ++ l) by (rewrite <- app_assoc; reflexivity). apply IH. clear IH. destruct S as [A B C D].
      unfold push_end. destruct (dget x (fst mq)) as [j|] eqn:N.
      - apply B in N as [_ N]. split; auto; [|rewrite app_length; lia].
        intros id. rewrite C, in_app_iff. cbn [In]. split; [auto|]. intros [I|[<-|[]]]; [exact I|apply C, N].
      - split; cbn [fst snd].
        + rewrite map_app. apply nodup_snoc; [exact A|apply dget_none, N].
        + intros id d. rewrite (dget_app id (fst mq) x 0 N), in_app_iff. cbn [In]. destruct (eq_point x id) eqn:E.
          * apply eq_point_spec in E as <-. split; [intros Q; injection Q as <-; auto|]. intros [-> _]. reflexivity.
          * rewrite B. split; [tauto|]. intros [-> [I|[<-|[]]]]; [auto|rewrite eq_point_refl in E; discriminate].
        + intros id. rewrite !in_app_iff, C. reflexivity.
        + rewrite !app_length. cbn [length]. lia. }
    apply (G ends [] ([], [])). split; cbn [fst snd]; [constructor| |reflexivity|cbn; lia].
    intros id d. cbn [dget In]. split; [discriminate|tauto].
  Qed.
  Lemma started_dinv mq : started ends mq -> dinv (fst mq) /\ dclosed (fst mq) (snd mq) /\ (forall id, In id (snd mq) -> exists k, dget id (fst mq) = Some k).
  Proof.
    intros [A B C D]. split; [split|split].
    - exact A.
    - intros id. rewrite B, C. tauto.
    - intros id d E. apply B in E as [E _]. discriminate.
    - intros b d a E _ _. apply B in E as [_ E]. auto.
    - intros id I. exists 0. apply B. auto.
  Qed.
End Search.

(** ** NewGenerator *)
Record gen_ok (g : generator) : Prop := {
  go_zero : forall id, dget id (g_dist g) = Some 0 <-> In id (tg_ends (g_graph g));
  go_step : forall id d, dget id (g_dist g) = Some (S d) -> exists a b, id = Some a /\ In b (nexts (tg_heap (g_graph g)) a) /\ dget (Some b) (g_dist g) = Some d;
  go_back : forall b d a, dget (Some b) (g_dist g) = Some d -> in_graph (g_graph g) a -> In b (nexts (tg_heap (g_graph g)) a) -> exists k, dget (Some a) (g_dist g) = Some k;
  go_prod : forall a, in_graph (g_graph g) a -> producing (elem_at (tg_heap (g_graph g)) a) = true;
  go_entry : forall id, In id (g_entries g) <-> In id (tg_entry (g_graph g)) /\ exists d, dget id (g_dist g) = Some d }.
Lemma last_any {A} (p : list A) : forall x a b, last (x :: p) a = last (x :: p) b.
Proof. induction p as [|y p IH]; intros x a b; [reflexivity|]. change (last (y :: p) a = last (y :: p) b). apply IH. Qed.
Lemma linked_snoc h p : forall a b, linked h (a :: p) -> In b (nexts h (last (a :: p) a)) -> linked h (a :: p ++ [b]).
Proof.
  induction p as [|x p IH]; intros a b L I; cbn [app]; [split; [exact I|exact Logic.I]|].
  destruct L as [L1 L2]. split; [exact L1|]. apply IH; [exact L2|].
  change (last (a :: x :: p) a) with (last (x :: p) a) in I.
  rewrite (last_any p x x a). exact I.
Qed.
Lemma in_graph_entry t a : In (Some a) (tg_entry t) -> in_graph t a.
Proof. intros I. exists [], a. split; [exact I|]. split; [exact Logic.I|reflexivity]. Qed.
Lemma in_graph_next t a b : in_graph t a -> In b (nexts (tg_heap t) a) -> in_graph t b.
Proof.
  intros (p & x & I & L & <-) J. exists (p ++ [b]), x. split; [exact I|]. split; [apply linked_snoc; assumption|].
  rewrite app_comm_cons. apply last_last.
Qed.
Lemma in_graph_all t (Q : nat -> Prop) : (forall a, In (Some a) (tg_entry t) -> Q a) -> (forall a b, Q a -> In b (nexts (tg_heap t) a) -> Q b) ->
  forall b, in_graph t b -> Q b.
Proof.
  intros E N b (p & a & I & L & <-). apply E in I. clear E. revert a I L. induction p as [|x p IH]; intros a I L; [exact I|].
  destruct L as [L1 L2]. change (last (a :: x :: p) a) with (last (x :: p) a).
  rewrite (last_any p x a x). apply IH; eauto.
Qed.
Lemma new_generator_spec t ml mr ms :
  match new_generator t ml mr ms with
  | Gen_ok g => gen_ok g /\ g_graph g = t /\ g_length g = ml /\ g_reps g = mr /\ g_steps g = ms
  | Gen_err e => exists a, in_graph t a /\ e = elem_at (tg_heap t) a /\ producing e = false
  | Gen_fuel => False
  end.
Proof.
  unfold new_generator. set (h := tg_heap t).
  assert (C0 : coll h (in_graph t) (rev (somes (tg_entry t))) [] []).
  { split.
    - intros a I. apply in_rev, somes_in in I. apply in_graph_entry, I.
    - intros a [].
    - constructor.
    - intros a b [].
    - intros b a. cbn [In]. tauto. }
  pose proof (collect_spec h (in_graph t) (in_graph_next t) (S (length (tg_entry t) + edge_count h)) _ _ _ C0) as K.
  assert (L : length (rev (somes (tg_entry t))) + unsum h [] < S (length (tg_entry t) + edge_count h)).
  { rewrite rev_length, unsum_nil. assert (length (somes (tg_entry t)) <= length (tg_entry t)); [|lia].
    unfold somes. clear. induction (tg_entry t) as [|[a|] l IH]; cbn; lia. }
  specialize (K L). destruct (collect _ h _ [] []) as [[[nodes ra]|]|e]; [|destruct K|exact K].
  destruct K as ([_ C2 C3 C4 C5] & K2 & _).
  assert (All : forall a, in_graph t a -> In a nodes).
  { apply in_graph_all; [intros a I; apply K2; apply -> in_rev; apply somes_in, I|]. intros a b I J. destruct (C4 a b I J) as [X|[]]. exact X. }
  pose proof (start_spec (tg_ends t)) as S. destruct (started_dinv h (tg_ends t) nodes _ S) as (S1 & S2 & S3). destruct S as [_ _ _ S4].
  destruct (start_ends (tg_ends t)) as [m q]. cbn [fst snd] in *.
  destruct (search_spec h (tg_ends t) nodes ra C5 C3 (Datatypes.S (length (tg_ends t) + length nodes)) m q S1 S2 S3) as (m' & -> & D & Cl).
  { unfold unreached. pose proof (filter_le (fun a => negb (can_reach m (Some a))) nodes). lia. }
  destruct D as [D1 D2 D3]. split; [|auto]. split; cbn [g_dist g_graph g_entries].
  - exact D2.
  - intros id d E. destruct (D3 id d E) as (a & b & X1 & _ & X2 & X3). exists a, b. auto.
  - intros b d a E I J. destruct (Cl b d a E (All a I) J) as [[]|X]. exact X.
  - intros a I. apply C2, All, I.
  - intros id. rewrite filter_In, can_reach_spec. reflexivity.
Qed.

(** ** The walk *)
(** The bytes a node may emit. *)
Definition emitted (e : elem) (b : list Z) : Prop :=
  exists k vt b0 v1, node_emit e 0 = Some (b0, vt) /\ (0 <= k < Z.max 1 vt)%Z /\ node_emit e k = Some (b, v1).
Definition emit_safe (e : elem) : Prop := match e with ENum _ StatRange es => 2 <= length es | _ => True end.
Lemma emit_safe_some e k : emit_safe e -> exists b vt, node_emit e k = Some (b, vt).
Proof.
  destruct e as [n|a|a|[] vs|b [] es|v]; cbn [emit_safe node_emit]; eauto. destruct es as [|lo [|hi es]]; cbn [length]; try lia. intros _.
  cbn zeta. match goal with |- context [if ?c then _ else _] => destruct c end; eauto.
Qed.
(** Every segment of the trace is where it says. *)
Definition traced (out : list Z) (tr : list seg) : Prop :=
  Forall (fun sg => exists u v x, out = u ++ v ++ x /\ v <> [] /\ sg_off sg = Z.of_nat (length u) /\ sg_len sg = Z.of_nat (length v) /\ emitted (sg_elem sg) v) tr.
Lemma traced_app out b tr : traced out tr -> traced (out ++ b) tr.
Proof.
  unfold traced. rewrite !Forall_forall. intros H sg I. destruct (H sg I) as (u & v & x & -> & K). exists u, v, (x ++ b).
  split; [rewrite <- !app_assoc; reflexivity|exact K].
Qed.

Section WalkProofs.
  Context {S_ : Type}.
  Variable intn : Z -> S_ -> Z * S_.
  Hypothesis Dr : draws_ok intn.
  Variable g : generator.
  Hypothesis Go : gen_ok g.
  Notation h := (tg_heap (g_graph g)).
  Hypothesis Safe : forall a, in_graph (g_graph g) a -> emit_safe (elem_at h a).

  Lemma walk_emit_spec e out tr s : producing e = true -> emit_safe e -> traced out tr ->
    exists b tr' s', walk_emit intn e out tr s = Some (out ++ b, tr', s') /\ emitted e b /\ traced (out ++ b) tr'.
  Proof.
    intros P Se T. unfold walk_emit. rewrite P. destruct (emit_safe_some e 0 Se) as (b0 & vt & E0). rewrite E0. cbn zeta.
    set (k := if (1 <? (if (vt <? 1)%Z then 1%Z else vt))%Z then intn (if (vt <? 1)%Z then 1%Z else vt) s else (0%Z, s)).
    assert (K : (0 <= fst k < Z.max 1 vt)%Z).
    { unfold k. destruct (Z.ltb_spec vt 1) as [L|L]; [change (1 <? 1)%Z with false; cbn [fst]; lia|].
      destruct (Z.ltb_spec 1 vt) as [L'|L']; [|cbn [fst]; lia]. destruct (Dr vt s). lia. }
    destruct k as [k s']. cbn [fst] in K. destruct (emit_safe_some e k Se) as (b & v1 & E1). rewrite E1.
    eexists b, _, s'. split; [reflexivity|]. assert (Em : emitted e b) by (exists k, vt, b0, v1; auto). split; [exact Em|].
    destruct b as [|x b]; [apply traced_app, T|]. apply Forall_app. split; [apply traced_app, T|]. constructor; [|constructor].
    exists out, (x :: b), []. rewrite app_nil_r. split; [reflexivity|]. split; [discriminate|]. cbn [sg_off sg_len sg_elem]. auto.
  Qed.

  Lemma dist_bound id d : dget id (g_dist g) = Some d -> d < length (g_dist g).
  Proof.
    intros E. assert (K : forall k, k <= d -> In k (map snd (g_dist g))).
    { revert id E. induction d as [|d IH]; intros id E k L.
      - assert (k = 0) as -> by lia. clear - E. induction (g_dist g) as [|[x v] m IH]; cbn [dget] in E; [discriminate|]. cbn [map snd].
        destruct (eq_point x id); [injection E as ->; left; reflexivity|right; auto].
      - destruct (Nat.eq_dec k (S d)) as [->|N].
        + clear - E. induction (g_dist g) as [|[x v] m IH]; cbn [dget] in E; [discriminate|]. cbn [map snd].
          destruct (eq_point x id); [injection E as ->; left; reflexivity|right; auto].
        + destruct (go_step g Go id d E) as (a & b & _ & _ & Eb). apply (IH (Some b) Eb). lia. }
    assert (L : length (seq 0 (S d)) <= length (map snd (g_dist g))).
    { apply NoDup_incl_length; [apply seq_NoDup|]. intros k I. apply in_seq in I. apply K. lia. }
    rewrite seq_length, map_length in L. lia.
  Qed.

  Lemma nearest_in m rest : forall first, In (nearest m first rest) (first :: rest).
  Proof.
    unfold nearest. induction rest as [|c rest IH]; intros first; cbn [fold_left]; [left; reflexivity|].
    destruct (dist m c <? dist m first).
    - right. apply (IH c).
    - destruct (IH first) as [E|I]; [left; exact E|right; right; exact I].
  Qed.
  Lemma nearest_le m rest : forall first x, In x (first :: rest) -> dist m (nearest m first rest) <= dist m x.
  Proof.
    unfold nearest. induction rest as [|c rest IH]; intros first x I; cbn [fold_left]; [destruct I as [->|[]]; lia|].
    destruct (Nat.ltb_spec (dist m c) (dist m first)) as [L|L].
    - destruct I as [->|I]; [specialize (IH c c (or_introl eq_refl)); lia|apply IH, I].
    - destruct I as [->|[->|I]]; [apply IH; left; reflexivity|specialize (IH first first (or_introl eq_refl)); lia|apply IH; right; exact I].
  Qed.
  Lemma pick_spec l k : (0 <= k < Z.of_nat (length l))%Z -> exists b, pick l k = Next b /\ In b l.
  Proof.
    intros K. unfold pick. destruct (Z.ltb_spec k 0); [lia|]. destruct (nth_error l (Z.to_nat k)) as [b|] eqn:E.
    - exists b. split; [reflexivity|]. apply nth_error_In in E. exact E.
    - apply nth_error_None in E. lia.
  Qed.

  Lemma decide_spec a d len vs steps s : in_graph (g_graph g) a -> dget (Some a) (g_dist g) = Some d ->
    match decide intn g a len vs steps s with
    | (Stop, _) => In (Some a) (tg_ends (g_graph g))
    | (Next b, _) => In b (nexts h a) /\ exists d', dget (Some b) (g_dist g) = Some d' /\ ((g_steps g <= steps)%Z -> d' < d)
    | (Panic, _) => False
    end.
  Proof.
    intros Ig Ed. unfold decide. cbn zeta.
    set (live := filter (fun b => can_reach (g_dist g) (Some b)) (nexts h a)).
    set (capped := filter (fun b => visits vs a b <? g_reps g)%Z live).
    assert (Lv : forall b, In b live -> In b (nexts h a) /\ exists d', dget (Some b) (g_dist g) = Some d').
    { intros b I. apply filter_In in I as [I C]. apply can_reach_spec in C. auto. }
    assert (Cp : forall b, In b capped -> In b live) by (intros b I; apply filter_In in I; tauto).
    assert (Zero : d = 0 -> In (Some a) (tg_ends (g_graph g))) by (intros ->; apply (go_zero g Go), Ed).
    assert (Step : forall d0, d = S d0 -> exists b, In b live /\ dist (g_dist g) b = d0).
    { intros d0 ->. destruct (go_step g Go _ _ Ed) as (x & b & Q & I & Eb). injection Q as <-. exists b.
      split; [apply filter_In; split; [exact I|]; apply can_reach_spec; eauto|]. unfold dist. rewrite Eb. reflexivity. }
    destruct live as [|first rest] eqn:El.
    - destruct d as [|d0]; [apply Zero; reflexivity|]. destruct (Step d0 eq_refl) as (b & [] & _).
    - rewrite <- El in *. set (t3 := match capped with [] => true | _ => false end).
      destruct (existsb (eq_point (Some a)) (tg_ends (g_graph g))) eqn:Ee.
      + apply existsb_point in Ee. destruct ((g_length g <=? len)%Z || (g_steps g <=? steps)%Z || t3)%bool eqn:Et; [exact Ee|].
        pose proof (Dr (Z.of_nat (length capped) + 1)%Z s) as K. destruct (intn (Z.of_nat (length capped) + 1)%Z s) as [c s']. cbn [fst] in K.
        destruct (Z.eqb_spec c 0) as [->|Nc]; [exact Ee|]. destruct (pick_spec capped (c - 1)) as (b & -> & Ib); [lia|].
        destruct (Lv b (Cp b Ib)) as (I & d' & Eb). split; [exact I|]. exists d'. split; [exact Eb|]. intros L. exfalso.
        apply orb_false_iff in Et as [Et _]. apply orb_false_iff in Et as [_ Et]. apply Z.leb_gt in Et. lia.
      + assert (Ne : ~ In (Some a) (tg_ends (g_graph g))) by (rewrite <- existsb_point, Ee; discriminate).
        destruct ((g_length g <=? len)%Z || (g_steps g <=? steps)%Z || t3)%bool eqn:Et.
        * destruct d as [|d0]; [exfalso; apply Ne, Zero; reflexivity|]. destruct (Step d0 eq_refl) as (b & Ib & Db).
          pose proof (nearest_in (g_dist g) rest first) as N1. rewrite El in Ib. pose proof (nearest_le (g_dist g) rest first b Ib) as N2.
          set (c := nearest (g_dist g) first rest) in *. rewrite <- El in N1. destruct (Lv c N1) as (I & d' & Ec). split; [exact I|]. exists d'.
          split; [exact Ec|]. intros _. unfold dist in *. rewrite Ec, Db in N2. lia.
        * apply orb_false_iff in Et as [Et Et3]. apply orb_false_iff in Et as [_ Et].
          pose proof (Dr (Z.of_nat (length capped)) s) as K. destruct (intn (Z.of_nat (length capped)) s) as [c s']. cbn [fst] in K.
          assert (Lc : (0 < Z.of_nat (length capped))%Z) by (unfold t3 in Et3; destruct capped; [discriminate|cbn [length]; lia]).
          destruct (pick_spec capped c) as (b & -> & Ib); [lia|].
          destruct (Lv b (Cp b Ib)) as (I & d' & Eb). split; [exact I|]. exists d'. split; [exact Eb|]. intros L. exfalso. apply Z.leb_gt in Et. lia.
  Qed.

  Definition todo (steps : Z) (d : nat) : nat :=
    if (steps <? g_steps g)%Z then Z.to_nat (g_steps g - steps) + length (g_dist g) else d.
  Lemma walk_loop_spec fuel : forall a d out tr vs steps s, in_graph (g_graph g) a -> dget (Some a) (g_dist g) = Some d -> traced out tr ->
    todo steps d < fuel ->
    exists p ws tr' s', walk_loop intn fuel g (Some a) out tr vs steps s = W_ok (out ++ concat ws) tr' s' /\
      linked h (a :: p) /\ In (Some (last (a :: p) a)) (tg_ends (g_graph g)) /\
      Forall2 (fun a b => emitted (elem_at h a) b) (a :: p) ws /\ traced (out ++ concat ws) tr'.
  Proof.
    induction fuel as [|f IH]; intros a d out tr vs steps s Ig Ed T L; [lia|]. cbn [walk_loop].
    destruct (walk_emit_spec (elem_at h a) out tr s (go_prod g Go a Ig) (Safe a Ig) T) as (b & tr1 & s1 & -> & Em & T1).
    pose proof (decide_spec a d (Z.of_nat (length (out ++ b))) vs steps s1 Ig Ed) as K.
    destruct (decide intn g a (Z.of_nat (length (out ++ b))) vs steps s1) as [[|c|] s2]; [|destruct K as (Ic & d' & Ec & Lt)|destruct K].
    - exists [], [b], tr1, s2. cbn [concat]. rewrite app_nil_r. split; [reflexivity|]. split; [exact Logic.I|]. split; [exact K|]. split; [|exact T1].
      constructor; [exact Em|constructor].
    - assert (L' : todo (steps + 1) d' < f).
      { pose proof (dist_bound _ _ Ec) as B. unfold todo in *. destruct (Z.ltb_spec steps (g_steps g)).
        - destruct (Z.ltb_spec (steps + 1) (g_steps g)); lia.
        - destruct (Z.ltb_spec (steps + 1) (g_steps g)); [lia|]. specialize (Lt ltac:(lia)). lia. }
      destruct (IH c d' (out ++ b) tr1 ((a, c) :: vs) (steps + 1)%Z s2 (in_graph_next _ _ _ Ig Ic) Ec T1 L') as (p & ws & tr' & s' & E & I1 & I2 & I3 & I4).
      exists (c :: p), (b :: ws), tr', s'. rewrite <- app_assoc in E, I4. split; [exact E|]. split; [split; assumption|]. split.
      + change (last (a :: c :: p) a) with (last (c :: p) a). rewrite (last_any p c a c). exact I2.
      + split; [constructor; assumption|exact I4].
  Qed.
  Lemma path_reaches p : forall a, in_graph (g_graph g) a -> linked h (a :: p) -> In (Some (last (a :: p) a)) (tg_ends (g_graph g)) -> exists d, dget (Some a) (g_dist g) = Some d.
  Proof.
    induction p as [|x p IH]; intros a Ig L E.
    - exists 0. apply (go_zero g Go). exact E.
    - destruct L as [L1 L2]. destruct (IH x (in_graph_next _ _ _ Ig L1) L2) as (d & Ed).
      + change (last (a :: x :: p) a) with (last (x :: p) a) in E. rewrite (last_any p x x a). exact E.
      + eapply (go_back g Go); eassumption.
  Qed.
  (** The result of a walk: bytes emitted along a path, or nothing when there is no path. *)
  Lemma walk_spec fuel s : Z.to_nat (g_steps g) + length (g_dist g) < fuel ->
    exists w tr s', walk intn fuel g s = W_ok w tr s' /\ traced w tr /\
      ((exists p ws, path (g_graph g) p /\ Forall2 (fun a b => emitted (elem_at h a) b) p ws /\ w = concat ws) \/
       ((forall p, ~ path (g_graph g) p) /\ w = [] /\ tr = [])).
  Proof.
    intros L. unfold walk. destruct (g_entries g) as [|e0 es] eqn:Ee.
    - exists [], [], s. split; [reflexivity|]. split; [constructor|]. right. split; [|auto].
      assert (N : forall id d, In id (tg_entry (g_graph g)) -> dget id (g_dist g) = Some d -> False).
      { intros id d I E. assert (X : In id (g_entries g)) by (apply (go_entry g Go); eauto). rewrite Ee in X. destruct X. }
      intros [|a p] P.
      + destruct P as [P1 P2]. apply (go_zero g Go) in P2. eapply N; eassumption.
      + destruct P as (P1 & P2 & P3). destruct (path_reaches p a (in_graph_entry _ _ P1) P3 P2) as (d & Ed). eapply N; eassumption.
    - rewrite <- Ee. pose proof (Dr (Z.of_nat (length (g_entries g))) s) as K. destruct (intn (Z.of_nat (length (g_entries g))) s) as [c s1]. cbn [fst] in K.
      destruct (Z.ltb_spec c 0); [lia|]. destruct (nth_error (g_entries g) (Z.to_nat c)) as [n|] eqn:En.
      2: { apply nth_error_None in En. assert (0 < length (g_entries g)) by (rewrite Ee; cbn; lia). lia. }
      apply nth_error_In in En. apply (go_entry g Go) in En as (In1 & d & Ed). destruct n as [a|].
      + assert (L' : todo 0 d < fuel).
        { pose proof (dist_bound _ _ Ed). unfold todo. destruct (Z.ltb_spec 0 (g_steps g)); [replace (g_steps g - 0)%Z with (g_steps g) by lia; exact L|lia]. }
        destruct (walk_loop_spec fuel a d [] [] [] 0 s1 (in_graph_entry _ _ In1) Ed (Forall_nil _) L') as (p & ws & tr & s' & E & I1 & I2 & I3 & I4).
        exists (concat ws), tr, s'. split; [exact E|]. split; [exact I4|]. left. exists (a :: p), ws. split; [split; [exact In1|split; assumption]|]. auto.
      + assert (L' : exists f, fuel = Datatypes.S f) by (destruct fuel; [lia|eauto]). destruct L' as (f & ->). cbn [walk_loop].
        exists [], [], s1. split; [reflexivity|]. split; [constructor|]. left. exists [], []. split; [|split; [constructor|reflexivity]].
        split; [exact In1|]. destruct d as [|d]; [apply (go_zero g Go), Ed|]. destruct (go_step g Go _ _ Ed) as (x & y & Q & _). discriminate.
  Qed.
End WalkProofs.
