(** Proofs about the covering set.
    Its definitions are means of proof and model no code. *)
From Coq Require Import ZArith Arith String Bool List Lia Permutation.
From Verif Require Import Syntax Spec Num Utf8 Slots Gll PropGll Graph GraphSpec GraphRun Walk WalkProof Reader ReaderProof Compact.
Import ListNotations.
Local Open Scope nat_scope.
Local Open Scope list_scope.

(** ** Breadth-first searches *)
Lemma pget_in x m : known x m = true <-> In x (disc m).
Proof.
  unfold known, disc. induction m as [|[k v] m IH]; cbn [pget map fst In]; [split; [discriminate|intros []]|].
  destruct (eq_point k x) eqn:E; [apply eq_point_spec in E; subst; split; auto|]. rewrite IH. split; [auto|]. intros [->|I]; [|exact I].
  rewrite (proj2 (eq_point_spec x x) eq_refl) in E. discriminate.
Qed.
Lemma pget_pair x y m : NoDup (disc m) -> (pget x m = Some y <-> In (x, y) m).
Proof.
  unfold disc. induction m as [|[k v] m IH]; cbn [pget map fst In]; intros N; [split; [discriminate|intros []]|]. inversion N as [|? ? Nk Nm]; subst.
  destruct (eq_point k x) eqn:E.
  - apply eq_point_spec in E as ->. split; [intros Q; injection Q as ->; left; reflexivity|]. intros [Q|I]; [injection Q as ->; reflexivity|].
    destruct Nk. apply in_map_iff. exists (x, y). auto.
  - rewrite (IH Nm). split; [auto|]. intros [Q|I]; [|exact I]. injection Q as -> ->. rewrite (proj2 (eq_point_spec x x) eq_refl) in E. discriminate.
Qed.
Section Search.
  Variables (nb : point -> list point) (seeds U : list point).
  (** Each node has itself as parent, and is a seed, or an older one it is next to. *)
  Definition tree (m : pmap) : Prop := forall pre x y post, m = pre ++ (x, y) :: post ->
    (y = x /\ In x seeds) \/ (In x (nb y) /\ In y (disc pre)).
  Lemma tree_snoc m x y : tree m -> (y = x /\ In x seeds) \/ (In x (nb y) /\ In y (disc m)) -> tree (m ++ [(x, y)]).
  Proof.
    intros T H pre x' y' post E. destruct post as [|z post] using rev_ind.
    - apply app_inj_tail in E as [-> E]. injection E as -> ->. exact H.
    - clear IHpost. rewrite app_comm_cons, app_assoc in E. apply app_inj_tail in E as [E _]. exact (T _ _ _ _ E).
  Qed.
  Record searching (m : pmap) (q : list point) : Prop := {
    se_nodup : NoDup (disc m); se_tree : tree m; se_in : incl (disc m) U;
    se_queue : exists done, disc m = done ++ q /\ forall x, In x done -> incl (nb x) (disc m) }.
  Hypothesis Closed : forall x, In x U -> incl (nb x) U.
  Lemma disc_app m m' : disc (m ++ m') = disc m ++ disc m'.
  Proof. apply map_app. Qed.
  Lemma known_snoc m x y : NoDup (disc m) -> known x m = false -> NoDup (disc (m ++ [(x, y)])).
  Proof. intros N K. rewrite disc_app. apply nodup_snoc; [exact N|]. intros I. apply pget_in in I. cbn [fst] in I. congruence. Qed.
  Lemma see_spec n l : forall m q, NoDup (disc m) -> tree m -> incl (disc m) U -> In n (disc m) -> incl l (nb n) -> incl l U ->
    let '(m1, q1) := fold_left (see (fun _ => n)) l (m, q) in
    NoDup (disc m1) /\ tree m1 /\ incl (disc m1) U /\ incl l (disc m1) /\ exists z, disc m1 = disc m ++ z /\ q1 = q ++ z.
  Proof.
    induction l as [|s l IH]; intros m q N T Iu In1 In2 In3; cbn [fold_left].
    - split; [exact N|]. split; [exact T|]. split; [exact Iu|]. split; [intros x []|]. exists []. rewrite !app_nil_r. auto.
    - cbn [see]. destruct (known s m) eqn:K.
      + specialize (IH m q N T Iu In1 (fun x I => In2 x (or_intror I)) (fun x I => In3 x (or_intror I))). destruct (fold_left _ l (m, q)) as [m1 q1].
        destruct IH as (A & B & C & D & z & E & F). split; [exact A|]. split; [exact B|]. split; [exact C|]. split; [|exists z; auto].
        intros x [<-|I]; [|apply D, I]. rewrite E. apply in_or_app. left. apply pget_in, K.
      + assert (T1 : tree (m ++ [(s, n)])) by (apply tree_snoc; [exact T|right; split; [apply In2; left; reflexivity|exact In1]]).
        assert (U1 : incl (disc (m ++ [(s, n)])) U) by (rewrite disc_app; intros x Ix; apply in_app_or in Ix as [Ix|[<-|[]]]; [apply Iu, Ix|apply In3; left; reflexivity]).
        specialize (IH (m ++ [(s, n)]) (q ++ [s]) (known_snoc m s n N K) T1 U1).
        assert (X : In n (disc (m ++ [(s, n)]))) by (rewrite disc_app; apply in_or_app; left; exact In1).
        specialize (IH X (fun x I => In2 x (or_intror I)) (fun x I => In3 x (or_intror I))). destruct (fold_left _ l _) as [m1 q1].
        destruct IH as (A & B & C & D & z & E & F). split; [exact A|]. split; [exact B|]. split; [exact C|]. rewrite disc_app, <- app_assoc in E. rewrite <- app_assoc in F.
        split; [|exists (s :: z); auto]. intros x [<-|I]; [|apply D, I]. rewrite E. apply in_or_app. right. left. reflexivity.
  Qed.
  Lemma seed_spec l : forall m q, NoDup (disc m) -> tree m -> incl (disc m) U -> incl l seeds -> incl l U ->
    let '(m1, q1) := fold_left (see (fun x => x)) l (m, q) in
    NoDup (disc m1) /\ tree m1 /\ incl (disc m1) U /\ incl l (disc m1) /\ exists z, disc m1 = disc m ++ z /\ q1 = q ++ z.
  Proof.
    induction l as [|s l IH]; intros m q N T Iu In2 In3; cbn [fold_left].
    - split; [exact N|]. split; [exact T|]. split; [exact Iu|]. split; [intros x []|]. exists []. rewrite !app_nil_r. auto.
    - cbn [see]. destruct (known s m) eqn:K.
      + specialize (IH m q N T Iu (fun x I => In2 x (or_intror I)) (fun x I => In3 x (or_intror I))). destruct (fold_left _ l (m, q)) as [m1 q1].
        destruct IH as (A & B & C & D & z & E & F). split; [exact A|]. split; [exact B|]. split; [exact C|]. split; [|exists z; auto].
        intros x [<-|I]; [|apply D, I]. rewrite E. apply in_or_app. left. apply pget_in, K.
      + assert (T1 : tree (m ++ [(s, s)])) by (apply tree_snoc; [exact T|left; split; [reflexivity|apply In2; left; reflexivity]]).
        assert (U1 : incl (disc (m ++ [(s, s)])) U) by (rewrite disc_app; intros x Ix; apply in_app_or in Ix as [Ix|[<-|[]]]; [apply Iu, Ix|apply In3; left; reflexivity]).
        specialize (IH (m ++ [(s, s)]) (q ++ [s]) (known_snoc m s s N K) T1 U1 (fun x I => In2 x (or_intror I)) (fun x I => In3 x (or_intror I))).
        destruct (fold_left _ l _) as [m1 q1].
        destruct IH as (A & B & C & D & z & E & F). split; [exact A|]. split; [exact B|]. split; [exact C|]. rewrite disc_app, <- app_assoc in E. rewrite <- app_assoc in F.
        split; [|exists (s :: z); auto]. intros x [<-|I]; [|apply D, I]. rewrite E. apply in_or_app. right. left. reflexivity.
  Qed.
  (** The search ends with all that is reached. *)
  Record searched (m : pmap) : Prop := {
    sd_nodup : NoDup (disc m); sd_tree : tree m; sd_in : incl (disc m) U; sd_closed : forall x, In x (disc m) -> incl (nb x) (disc m) }.
  Lemma bfs_spec fuel : forall m q, searching m q -> length U + length q < fuel + length (disc m) ->
    exists m1, bfs fuel nb m q = Some m1 /\ searched m1 /\ incl (disc m) (disc m1).
  Proof.
    induction fuel as [|f IH]; intros m q [N T Iu (dn & Ed & Hd)] L.
    - pose proof (NoDup_incl_length N Iu). lia.
    - cbn [bfs]. destruct q as [|n q].
      + exists m. split; [reflexivity|]. rewrite app_nil_r in Ed. split; [|apply incl_refl]. split; auto. intros x I. apply Hd. rewrite <- Ed. exact I.
      + assert (In1 : In n (disc m)) by (rewrite Ed; apply in_or_app; right; left; reflexivity).
        pose proof (see_spec n (nb n) m q N T Iu In1 (incl_refl _) (Closed n (Iu n In1))) as K.
        destruct (fold_left _ (nb n) (m, q)) as [m1 q1]. destruct K as (A & B & C & D & z & E & F).
        destruct (IH m1 q1) as (m2 & E2 & S2 & I2).
        * split; auto. exists (dn ++ [n]). split; [rewrite E, F, Ed, <- !app_assoc; reflexivity|]. intros x I. apply in_app_or in I as [I|[<-|[]]]; [|exact D].
          rewrite E. intros y Iy. apply in_or_app. left. exact (Hd x I y Iy).
        * rewrite E, F, !app_length. cbn [length] in L. lia.
        * exists m2. split; [exact E2|]. split; [exact S2|]. intros x I. apply I2. rewrite E. apply in_or_app. left. exact I.
  Qed.
  (** Climbing from a node reaches a seed. *)
  Inductive climbs : point -> list point -> Prop :=
  | climbs_seed x : In x seeds -> climbs x [x]
  | climbs_step x y l : In x (nb y) -> climbs y l -> climbs x (x :: l).
  Lemma climb_spec m : NoDup (disc m) -> tree m -> forall k x, In x (disc (firstn k m)) -> exists l, climb (S k) m x = Some l /\ climbs x l /\ incl l (disc m).
  Proof.
    intros N T k. induction k as [k IH] using lt_wf_ind. intros x I. unfold disc in I. apply in_map_iff in I as ([x0 y] & Q & I). cbn [fst] in Q. subst x0.
    apply in_split in I as (pre & post & E).
    assert (Em : m = pre ++ (x, y) :: (post ++ skipn k m)) by (rewrite <- (firstn_skipn k m) at 1; rewrite E, <- app_assoc; reflexivity).
    assert (Ix : In (x, y) m) by (rewrite Em; apply in_or_app; right; left; reflexivity).
    assert (Id : In x (disc m)) by (apply in_map_iff; exists (x, y); auto).
    cbn [climb]. rewrite (proj2 (pget_pair x y m N) Ix). destruct (eq_point y x) eqn:Ey.
    - apply eq_point_spec in Ey as ->. exists [x]. split; [reflexivity|]. split; [|intros z [<-|[]]; exact Id]. constructor.
      destruct (T _ _ _ _ Em) as [[_ S1]|[_ S1]]; [exact S1|]. exfalso. rewrite Em in N. rewrite disc_app in N. cbn [disc map fst] in N.
      apply NoDup_remove_2 in N. apply N. apply in_or_app. left. exact S1.
    - destruct (T _ _ _ _ Em) as [[-> _]|[S1 S2]]; [rewrite (proj2 (eq_point_spec x x) eq_refl) in Ey; discriminate|].
      assert (Lk : length pre < k) by (pose proof (f_equal (@length _) E) as L; rewrite firstn_length, app_length in L; cbn [length] in L; lia).
      destruct k as [|k]; [lia|].
      assert (Ef : firstn (length pre) m = pre) by (rewrite Em, firstn_app, Nat.sub_diag, firstn_all; apply app_nil_r).
      assert (Iy : In y (disc (firstn k m))).
      { assert (X : exists r, firstn k m = pre ++ r).
        { exists (firstn (k - length pre) ((x, y) :: post ++ skipn (S k) m)). rewrite Em at 1. rewrite firstn_app, firstn_all2 by lia. reflexivity. }
        destruct X as (r & ->). rewrite disc_app. apply in_or_app. left. exact S2. }
      destruct (IH k (Nat.lt_succ_diag_r k) y Iy) as (l & -> & C1 & C2). exists (x :: l). split; [reflexivity|]. split; [eapply climbs_step; eassumption|].
      intros z [<-|Iz]; [exact Id|apply C2, Iz].
  Qed.
  Lemma climb_all m x : NoDup (disc m) -> tree m -> In x (disc m) -> exists l, climb (S (length m)) m x = Some l /\ climbs x l /\ incl l (disc m).
  Proof. intros N T I. apply climb_spec; [exact N|exact T|]. rewrite firstn_all. exact I. Qed.
End Search.

(** ** Walks *)
Section Walks.
  Variables (t : tgraph) (p : prepared) (P : prep_ok t p).
  Local Notation h := (tg_heap t).
  Fixpoint chain (q : list point) : Prop :=
    match q with a :: (b :: _) as r => In b (viable p a) /\ chain r | _ => True end.
  Lemma chain_app q : forall x r, chain (q ++ [x]) -> chain (x :: r) -> chain (q ++ x :: r).
  Proof.
    induction q as [|a q IH]; intros x r H1 H2; [exact H2|]. cbn [app] in *. destruct q as [|b q].
    - cbn [app] in *. destruct H1 as [H1 _]. split; [exact H1|exact H2].
    - cbn [app] in *. destruct H1 as [H1 H1']. split; [exact H1|]. apply (IH x r H1' H2).
  Qed.
  (** From an entry to an end point. *)
  Definition good_walk (q : list point) : Prop :=
    chain q /\ (exists x r, q = x :: r /\ In x (p_entries p)) /\ (exists x r, q = r ++ [x] /\ In x (tg_ends t)).
  Lemma climbs_entry x l : climbs (viable p) (p_entries p) x l -> exists q, rev l = q ++ [x] /\ chain (rev l) /\ exists y r, rev l = y :: r /\ In y (p_entries p).
  Proof.
    induction 1 as [x I|x y l I C (q & E & Ch & z & r & E2 & Iz)].
    - exists []. split; [reflexivity|]. split; [exact Logic.I|]. exists x, []. auto.
    - exists (rev l). split; [reflexivity|]. cbn [rev]. split.
      + rewrite E, <- app_assoc. cbn [app]. apply chain_app; [rewrite <- E; exact Ch|]. split; [exact I|exact Logic.I].
      + exists z, (r ++ [x]). rewrite E2. auto.
  Qed.
  Variable pre : pmap.
  Lemma in_rev_adj a x : In a (rev_adj p pre x) <-> In a (disc pre) /\ In x (viable p a).
  Proof.
    unfold rev_adj. rewrite in_flat_map. split.
    - intros (n & In1 & I). apply in_flat_map in I as (s & Is & I). destruct (eq_point s x) eqn:E; [|destruct I]. destruct I as [<-|[]]. apply eq_point_spec in E as ->. auto.
    - intros [I1 I2]. exists a. split; [exact I1|]. apply in_flat_map. exists x. split; [exact I2|]. rewrite (proj2 (eq_point_spec x x) eq_refl). left. reflexivity.
  Qed.
  Lemma climbs_end ends x l : incl ends (tg_ends t) -> climbs (rev_adj p pre) ends x l -> exists r, l = x :: r /\ chain l /\ exists y r', l = r' ++ [y] /\ In y (tg_ends t).
  Proof.
    intros Ie. induction 1 as [x I|x y l I C (r & E & Ch & z & r' & E2 & Iz)].
    - exists []. split; [reflexivity|]. split; [exact Logic.I|]. exists x, []. split; [reflexivity|apply Ie, I].
    - exists l. split; [reflexivity|]. apply in_rev_adj in I as [_ I]. split; [rewrite E in *; split; assumption|]. exists z, (x :: r'). rewrite E2. auto.
  Qed.
  (** Walks and paths. *)
  Definition points_of (s : list nat) : list point := match s with [] => [None] | _ => map Some s end.
  Lemma viable_spec a b : In b (viable p a) <-> In b (succs h a) /\ In b (p_can p).
  Proof.
    unfold viable. rewrite (pk_graph t p P), filter_In, andb_true_iff, mem_point_spec. split; [tauto|]. intros [I1 I2]. split; [exact I1|]. split; [exact (pk_prod t p P _ I2)|exact I2].
  Qed.
  Lemma chain_linked s : forall a, chain (map Some (a :: s)) -> linked h (a :: s).
  Proof.
    induction s as [|b s IH]; intros a H; [exact Logic.I|]. cbn [map] in H. destruct H as [H1 H2]. split; [|apply IH; exact H2].
    apply viable_spec in H1 as [H1 _]. cbn [succs] in H1. apply in_map_iff in H1 as (c & Q & I). injection Q as ->. exact I.
  Qed.
  Lemma chain_some q : forall a, chain (@cons point (Some a) q) -> exists s, q = map Some s.
  Proof.
    induction q as [|x q IH]; intros a H; [exists []; reflexivity|]. destruct H as [H1 H2]. apply viable_spec in H1 as [H1 _]. cbn [succs] in H1.
    apply in_map_iff in H1 as (b & <- & _). destruct (IH b H2) as (s & ->). exists (b :: s). reflexivity.
  Qed.
  Lemma chain_can q : forall x, In x (p_can p) -> chain (x :: q) -> incl (x :: q) (p_can p).
  Proof.
    induction q as [|y q IH]; intros x I H z [<-|Iz]; try exact I; [destruct Iz|]. destruct H as [H1 H2]. apply viable_spec in H1 as [_ H1]. apply (IH y H1 H2 z Iz).
  Qed.
  Lemma walk_path q : good_walk q -> exists s, q = points_of s /\ path t s /\ producing_path t s.
  Proof.
    intros (Ch & (x & r & -> & Ix) & (y & r' & E & Iy)). apply (pk_entry t p P) in Ix as [Ix Ic]. destruct x as [a|].
    - destruct (chain_some r a Ch) as (s & ->). exists (a :: s). split; [reflexivity|]. split.
      + split; [exact Ix|]. split; [|apply chain_linked, Ch]. change (Some a :: map Some s) with (map (@Some nat) (a :: s)) in E.
        destruct (exists_last (l := a :: s) ltac:(discriminate)) as (s1 & b & Es). rewrite Es in *. rewrite map_app in E. cbn [map] in E. apply app_inj_tail in E as [_ E].
        rewrite last_last. rewrite <- E in Iy. exact Iy.
      + apply Forall_forall. intros b Ib. pose proof (chain_can _ _ Ic Ch (Some b)) as K. specialize (K ltac:(change (Some a :: map Some s) with (map (@Some nat) (a :: s)); apply in_map, Ib)).
        exact (pk_prod t p P _ K).
    - destruct r as [|z r]; [|destruct Ch as [Ch _]; destruct Ch]. exists []. split; [reflexivity|]. split; [|constructor]. split; [exact Ix|].
      destruct r' as [|w r']; [injection E as <-; exact Iy|]. destruct r'; discriminate.
  Qed.
  Lemma path_walk s : path t s -> producing_path t s -> good_walk (points_of s) /\ incl (points_of s) (p_can p).
  Proof.
    intros Pa Pr. destruct (pk_all t p P) as (all & A1 & A2 & A3). destruct s as [|a s].
    - destruct Pa as [I1 I2]. assert (Ic : In None (p_can p)) by (apply A3; [apply A1, I1|reflexivity|left; exact I2]).
      split; [|intros x [<-|[]]; exact Ic]. split; [exact Logic.I|]. split; [exists None, []; split; [reflexivity|apply (pk_entry t p P); auto]|exists None, []; auto].
    - destruct Pa as (I1 & I2 & Lk). pose proof (path_can t p P all A1 A2 A3 s a (A1 _ I1) Lk I2 Pr) as F.
      assert (Ic : incl (points_of (a :: s)) (p_can p)).
      { intros x I. cbn [points_of] in I. change (In x (map (@Some nat) (a :: s))) in I. apply in_map_iff in I as (b & <- & Ib). rewrite Forall_forall in F. apply F, Ib. }
      split; [|exact Ic]. split; [|split].
      + clear I1 I2 Ic A1 A2 A3 Pr. cbn [points_of]. revert a Lk F. induction s as [|b s IH]; intros a Lk F; [exact Logic.I|]. destruct Lk as [I Lk].
        apply Forall_inv_tail in F as F'. cbn [map]. split; [|apply IH; assumption]. apply viable_spec. split; [apply in_map, I|exact (Forall_inv F')].
      + exists (Some a), (map Some s). split; [reflexivity|]. apply (pk_entry t p P). split; [exact I1|exact (Forall_inv F)].
      + cbn [points_of]. destruct (exists_last (l := a :: s) ltac:(discriminate)) as (s1 & b & Es). rewrite Es in *. rewrite last_last in I2.
        exists (Some b), (map Some s1). split; [exact (map_app _ s1 [b])|exact I2].
  Qed.
End Walks.

(** ** Emissions *)
Section Emissions.
  Variable h : heap.
  Definition in_range_at (n : point) (k : Z) : Prop := (0 <= k < total_at h n)%Z.
  Lemma total_pos n : (1 <= total_at h n)%Z.
  Proof. unfold total_at. destruct (emit_point h n 0) as [[b vt]|]; lia. Qed.
  Definition left_in (next : point -> Z) (w : list point) : nat := list_sum (map (fun n => Z.to_nat (total_at h n - next n)) w).
  Lemma assign_spec w : forall next cl, Forall (safe h) w -> (forall n, (0 <= next n)%Z) -> (forall n, (0 <= cl n)%Z) ->
    exists va cl' c, assign h next cl w = Some (va, cl', c) /\ Forall2 in_range_at w va /\ (forall n, (cl n <= cl' n)%Z) /\
      (forall n k, (next n + cl n <= k < next n + cl' n)%Z -> (k < total_at h n)%Z /\ In (n, k) (combine w va)) /\
      (c = 0 -> forall n, In n w -> (total_at h n <= next n + cl n)%Z) /\
      (c <> 0 -> exists n, In n w /\ (cl n < cl' n)%Z).
  Proof.
    induction w as [|n w IH]; intros next cl S N C; cbn [assign].
    - exists [], cl, 0. split; [reflexivity|]. split; [constructor|]. split; [intros x; lia|]. split; [intros x k H; lia|]. split; [intros _ x []|congruence].
    - destruct (safe_emit h n 0 (Forall_inv S)) as (b & vt0 & E). rewrite E. cbn zeta.
      assert (Ev : (if (vt0 <? 1)%Z then 1%Z else vt0) = total_at h n) by (unfold total_at; rewrite E; destruct (Z.ltb_spec vt0 1); lia). rewrite Ev.
      apply Forall_inv_tail in S. destruct (Z.ltb_spec (next n + cl n) (total_at h n)) as [Lt|Ge].
      + assert (C1 : forall x, (0 <= upd n cl x)%Z) by (intros x; unfold upd; specialize (C x); destruct (eq_point n x); lia).
        destruct (IH next (upd n cl) S N C1) as (va & cl' & c & -> & F & M & K & Z0 & Zs). exists ((next n + cl n)%Z :: va), cl', (Datatypes.S c).
        assert (U : (cl n < cl' n)%Z) by (specialize (M n); unfold upd in M; rewrite (proj2 (eq_point_spec n n) eq_refl) in M; lia).
        split; [reflexivity|]. split; [constructor; [split; [specialize (N n); specialize (C n); lia|exact Lt]|exact F]|]. split; [|split; [|split]].
        * intros x. specialize (M x). unfold upd in M. destruct (eq_point n x); lia.
        * intros x k Hk. destruct (Z.eq_dec k (next n + cl n)) as [Ek|Ne]; [destruct (eq_point n x) eqn:Ex|].
          -- apply eq_point_spec in Ex as <-. subst k. split; [exact Lt|left; reflexivity].
          -- destruct (K x k) as [K1 K2]; [unfold upd; rewrite Ex; lia|]. split; [exact K1|right; exact K2].
          -- destruct (K x k) as [K1 K2]; [|split; [exact K1|right; exact K2]]. unfold upd. destruct (eq_point n x) eqn:Ex; [apply eq_point_spec in Ex as <-|]; lia.
        * discriminate.
        * intros _. exists n. split; [left; reflexivity|exact U].
      + destruct (IH next cl S N C) as (va & cl' & c & -> & F & M & K & Z0 & Zs). exists (0%Z :: va), cl', c.
        split; [reflexivity|]. split; [constructor; [split; [lia|pose proof (total_pos n); lia]|exact F]|]. split; [exact M|]. split; [|split].
        * intros x k Hk. destruct (K x k Hk) as [K1 K2]. split; [exact K1|right; exact K2].
        * intros Ec x [<-|Ix]; [exact Ge|apply (Z0 Ec x Ix)].
        * intros Ec. destruct (Zs Ec) as (x & Ix & Hx). exists x. split; [right; exact Ix|exact Hx].
  Qed.
  Lemma render_spec w : forall va, Forall (safe h) w -> exists b, render h w va = Some b.
  Proof.
    induction w as [|n w IH]; intros [|k va] S; cbn [render]; eauto. destruct (safe_emit h n k (Forall_inv S)) as (b & v & ->).
    destruct (IH va (Forall_inv_tail S)) as (bs & ->). eauto.
  Qed.
  Lemma sum_le {A} (f g : A -> nat) l : (forall x, In x l -> f x <= g x) -> list_sum (map f l) <= list_sum (map g l).
  Proof.
    intros H. induction l as [|x l IH]; [apply le_n|]. cbn [map]. change (list_sum (?a :: ?b)) with (a + list_sum b).
    pose proof (H x (or_introl eq_refl)). specialize (IH (fun y I => H y (or_intror I))). unfold list_sum in *. cbn [fold_right]. lia.
  Qed.
  Lemma sum_lt {A} (f g : A -> nat) l : (forall x, In x l -> f x <= g x) -> (exists x, In x l /\ f x < g x) -> list_sum (map f l) < list_sum (map g l).
  Proof.
    intros H (x & I & L). induction l as [|y l IH]; [destruct I|]. pose proof (sum_le f g l (fun z Iz => H z (or_intror Iz))) as S1.
    pose proof (H y (or_introl eq_refl)) as S2. unfold list_sum in *. cbn [map fold_right]. destruct I as [->|I]; [lia|].
    specialize (IH (fun z Iz => H z (or_intror Iz)) I). lia.
  Qed.
End Emissions.

Section Build.
  Variables (t : tgraph) (p : prepared) (P : prep_ok t p).
  Local Notation h := (tg_heap t).
  Hypothesis Safe : forall q, good_walk t p q -> Forall (safe h) q.
  (** A production and what it was made of. *)
  Definition made (r : list point * list Z) (b : list Z) : Prop :=
    good_walk t p (fst r) /\ Forall2 (in_range_at h) (fst r) (snd r) /\ render h (fst r) (snd r) = Some b.
  Record cinv (c : cstate) (recs : list (list point * list Z)) : Prop := {
    ci_made : Forall2 made recs (c_prods c);
    ci_walks : Forall (fun w => good_walk t p w /\ exists va, In (w, va) recs) (c_walks c);
    ci_v : forall x, In x (c_v c) -> exists w, In w (c_walks c) /\ In x w;
    ci_e : forall e, In e (c_e c) -> exists w, In w (c_walks c) /\ In e (combine w (tl w));
    ci_pos : forall n, (0 <= c_next c n)%Z;
    ci_next : forall n k, (0 <= k < c_next c n)%Z -> (k < total_at h n)%Z /\ exists r, In r recs /\ In (n, k) (combine (fst r) (snd r)) }.
  Lemma emit_spec w force c recs : good_walk t p w -> cinv c recs ->
    exists b c1 recs1, emit_walk h w force c = Some (b, c1) /\ cinv c1 (recs ++ recs1) /\ c_walks c1 = c_walks c /\ c_v c1 = c_v c /\ c_e c1 = c_e c /\
      (forall n, (c_next c n <= c_next c1 n)%Z) /\ (b = true -> exists va, In (w, va) recs1) /\
      (force = true -> b = true) /\
      (force = false -> if b then forall D, incl w D -> left_in h (c_next c1) D < left_in h (c_next c) D else forall n, In n w -> (total_at h n <= c_next c1 n)%Z) /\
      length (c_prods c1) = length (c_prods c) + (if b then 1 else 0).
  Proof.
    intros G [I1 I2 I3 I4 I5 I6]. unfold emit_walk.
    destruct (assign_spec h w (c_next c) (fun _ => 0%Z) (Safe w G) I5 (fun _ => Z.le_refl 0)) as (va & cl & k & -> & F & M & K & Z0 & Zs).
    destruct (render_spec h w va (Safe w G)) as (bs & Eb).
    destruct (negb force && Nat.eqb k 0) eqn:Ef.
    - apply andb_true_iff in Ef as [Ef Ek]. apply negb_true_iff in Ef. apply Nat.eqb_eq in Ek. subst. exists false, c, []. rewrite app_nil_r. split; [reflexivity|].
      split; [split; assumption|]. split; [reflexivity|]. split; [reflexivity|]. split; [reflexivity|]. split; [intros n; lia|]. split; [discriminate|]. split; [discriminate|].
      split; [|lia]. intros _ n In1. specialize (Z0 eq_refl n In1). lia.
    - rewrite Eb. eexists true, _, [(w, va)]. split; [reflexivity|].
      assert (N1 : forall n, (c_next c n <= c_next c n + cl n)%Z) by (intros n; specialize (M n); lia).
      assert (Nx : forall n k0, (0 <= k0 < c_next c n + cl n)%Z -> (k0 < total_at h n)%Z /\ exists r, In r (recs ++ [(w, va)]) /\ In (n, k0) (combine (fst r) (snd r))).
      { intros n k0 Hk. destruct (Z.lt_ge_cases k0 (c_next c n)) as [L|L].
        - destruct (I6 n k0 ltac:(lia)) as (K1 & r & Ir & K2). split; [exact K1|]. exists r. split; [apply in_or_app; left; exact Ir|exact K2].
        - destruct (K n k0 ltac:(lia)) as [K1 K2]. split; [exact K1|]. exists (w, va). split; [apply in_or_app; right; left; reflexivity|exact K2]. }
      split; [split; cbn [c_prods c_walks c_v c_e c_next]|cbn [c_prods c_walks c_v c_e c_next]].
      + apply Forall2_app; [exact I1|]. constructor; [|constructor]. split; [exact G|]. split; [exact F|exact Eb].
      + eapply Forall_impl; [|exact I2]. intros w0 (G0 & va0 & Iv). split; [exact G0|]. exists va0. apply in_or_app. left. exact Iv.
      + exact I3.
      + exact I4.
      + intros n. specialize (I5 n). specialize (N1 n). lia.
      + exact Nx.
      + split; [reflexivity|]. split; [reflexivity|]. split; [reflexivity|]. split; [exact N1|]. split; [intros _; exists va; left; reflexivity|]. split; [reflexivity|].
        split; [|rewrite app_length; reflexivity].
        intros ->. cbn [negb andb] in Ef. apply Nat.eqb_neq in Ef. destruct (Zs Ef) as (n & In1 & Ln). intros D HD.
        apply sum_lt; [intros x _; specialize (N1 x); lia|]. exists n. split; [apply HD, In1|].
        destruct (Nx n (c_next c n) ltac:(specialize (I5 n); lia)) as [Q _]. lia.
  Qed.
  Lemma take_spec w c recs : good_walk t p w -> cinv c recs ->
    exists c1 recs1, take_walk h w c = Some c1 /\ cinv c1 (recs ++ recs1) /\ incl w (c_v c1) /\ incl (combine w (tl w)) (c_e c1) /\ incl (c_v c) (c_v c1) /\ incl (c_e c) (c_e c1) /\
      length (c_prods c1) = S (length (c_prods c)).
  Proof.
    intros G I. unfold take_walk. set (c0 := mkC (c_v c) (c_e c) (c_next c) (c_prods c) (c_walks c ++ [w])).
    (* the walk is on the list before it is emitted: emit first with the old list *)
    destruct (emit_spec w true c recs G I) as (b & c1 & recs1 & E & J & W1 & V1 & E1 & _ & Hv & Hb & _ & Lp). rewrite (Hb eq_refl) in Lp.
    assert (E' : emit_walk h w true c0 = Some (b, mkC (c_v c1) (c_e c1) (c_next c1) (c_prods c1) (c_walks c ++ [w]))).
    { unfold emit_walk in *. cbn [c_next c_v c_e c_prods c_walks c0]. destruct (assign h (c_next c) (fun _ => 0%Z) w) as [[[va cl] k]|]; [|discriminate].
      cbn [negb andb] in *. destruct (render h w va) as [bs|]; [|discriminate]. injection E as <- <-. reflexivity. }
    rewrite E'. eexists _, recs1. split; [reflexivity|]. destruct (Hv (Hb eq_refl)) as (va & Iva). destruct J as [J1 J2 J3 J4 J5 J6].
    cbn [mark_walk c_next c_v c_e c_prods c_walks]. rewrite V1, E1 in *. split; [split; cbn [mark_walk c_next c_v c_e c_prods c_walks]|].
    - exact J1.
    - apply Forall_app. split; [rewrite <- W1; exact J2|]. constructor; [|constructor]. split; [exact G|]. exists va. apply in_or_app. right. exact Iva.
    - intros x Ix. apply in_app_or in Ix as [Ix|Ix]; [exists w; split; [apply in_or_app; right; left; reflexivity|exact Ix]|].
      destruct (J3 x Ix) as (w0 & Iw & Ix0). exists w0. split; [apply in_or_app; left; rewrite <- W1; exact Iw|exact Ix0].
    - intros x Ix. apply in_app_or in Ix as [Ix|Ix]; [exists w; split; [apply in_or_app; right; left; reflexivity|exact Ix]|].
      destruct (J4 x Ix) as (w0 & Iw & Ix0). exists w0. split; [apply in_or_app; left; rewrite <- W1; exact Iw|exact Ix0].
    - exact J5.
    - exact J6.
    - split; [intros x Ix; apply in_or_app; left; exact Ix|]. split; [intros x Ix; apply in_or_app; left; exact Ix|].
      split; [intros x Ix; apply in_or_app; right; exact Ix|]. split; [intros x Ix; apply in_or_app; right; exact Ix|]. lia.
  Qed.
  Lemma drain_spec fuel w : forall c recs, good_walk t p w -> cinv c recs -> left_in h (c_next c) w < fuel ->
    exists c1 recs1, drain fuel h w c = Some (Some c1) /\ cinv c1 (recs ++ recs1) /\ c_walks c1 = c_walks c /\ (forall n, (c_next c n <= c_next c1 n)%Z) /\
      (forall n, In n w -> (total_at h n <= c_next c1 n)%Z) /\
      forall D, incl w D -> length (c_prods c1) + left_in h (c_next c1) D <= length (c_prods c) + left_in h (c_next c) D.
  Proof.
    induction fuel as [|f IH]; intros c recs G I L; [lia|]. cbn [drain].
    destruct (emit_spec w false c recs G I) as (b & c1 & recs1 & -> & J & W1 & V1 & E1 & M & _ & _ & K & Lp). specialize (K eq_refl). destruct b.
    - destruct (IH c1 (recs ++ recs1) G J ltac:(specialize (K w (incl_refl _)); lia)) as (c2 & recs2 & E & J2 & W2 & M2 & T & Lq). exists c2, (recs1 ++ recs2). split; [exact E|]. rewrite app_assoc.
      split; [exact J2|]. split; [congruence|]. split; [intros n; specialize (M n); specialize (M2 n); lia|]. split; [exact T|].
      intros D HD. specialize (K D HD). specialize (Lq D HD). lia.
    - exists c1, recs1. split; [reflexivity|]. split; [exact J|]. split; [exact W1|]. split; [exact M|]. split; [exact K|]. intros D HD.
      assert (X : left_in h (c_next c1) D <= left_in h (c_next c) D) by (apply sum_le; intros x _; specialize (M x); lia). lia.
  Qed.
  Lemma drain_all_spec fuel ws : forall c recs, Forall (good_walk t p) ws -> cinv c recs -> (forall w, In w ws -> left_in h (fun _ => 0%Z) w < fuel) ->
    exists c1 recs1, drain_all fuel h ws c = Some (Some c1) /\ cinv c1 (recs ++ recs1) /\ c_walks c1 = c_walks c /\ (forall n, (c_next c n <= c_next c1 n)%Z) /\
      (forall w n, In w ws -> In n w -> (total_at h n <= c_next c1 n)%Z) /\
      forall D, (forall w, In w ws -> incl w D) -> length (c_prods c1) + left_in h (c_next c1) D <= length (c_prods c) + left_in h (c_next c) D.
  Proof.
    induction ws as [|w ws IH]; intros c recs G I L; cbn [drain_all].
    - exists c, []. rewrite app_nil_r. split; [reflexivity|]. split; [exact I|]. split; [reflexivity|]. split; [intros n; lia|]. split; [intros w n []|]. intros D _. apply le_n.
    - assert (L1 : left_in h (c_next c) w < fuel).
      { eapply Nat.le_lt_trans; [|apply (L w (or_introl eq_refl))]. apply sum_le. intros x _. pose proof (ci_pos c recs I x). lia. }
      destruct (drain_spec fuel w c recs (Forall_inv G) I L1) as (c1 & r1 & -> & J & W1 & M & T & Lp).
      destruct (IH c1 (recs ++ r1) (Forall_inv_tail G) J (fun w0 I0 => L w0 (or_intror I0))) as (c2 & r2 & E & J2 & W2 & M2 & T2 & Lq).
      exists c2, (r1 ++ r2). split; [exact E|]. rewrite app_assoc. split; [exact J2|]. split; [congruence|]. split; [|split].
      + intros n. specialize (M n). specialize (M2 n). lia.
      + intros w0 n [<-|I0] In1; [|exact (T2 w0 n I0 In1)]. specialize (T n In1). specialize (M2 n). lia.
      + intros D HD. specialize (Lp D (HD w (or_introl eq_refl))). specialize (Lq D (fun w0 I0 => HD w0 (or_intror I0))). lia.
  Qed.
End Build.

(** More fuel changes nothing. *)
Lemma drain_mono h f : forall w c c', drain f h w c = Some (Some c') -> forall f', f <= f' -> drain f' h w c = Some (Some c').
Proof.
  induction f as [|f IH]; intros w c c' H f' Hf; [discriminate|]. destruct f' as [|f']; [lia|]. cbn [drain] in *.
  destruct (emit_walk h w false c) as [[[] c1]|]; auto. apply IH; [exact H|lia].
Qed.
Lemma drain_all_mono h f f' ws : forall c c', f <= f' -> drain_all f h ws c = Some (Some c') -> drain_all f' h ws c = Some (Some c').
Proof.
  induction ws as [|w ws IH]; intros c c' Hf H; [exact H|]. cbn [drain_all] in *. destruct (drain f h w c) as [[c1|]|] eqn:E; try discriminate.
  rewrite (drain_mono _ _ _ _ _ E f' Hf). apply IH; assumption.
Qed.
Lemma build_mono p f f' l : f <= f' -> build_compact f p = Rd_ok l -> build_compact f' p = Rd_ok l.
Proof.
  intros Hf. unfold build_compact. destruct (forward p) as [pre|]; [|discriminate]. destruct (backward p pre) as [suc|]; [|discriminate].
  destruct (fold_left _ (disc pre) _) as [c|]; [|discriminate]. destruct (drain_all f _ _ _) as [[c1|]|] eqn:E; try discriminate. rewrite (drain_all_mono _ _ _ _ _ _ Hf E). auto.
Qed.

Section All.
  Variables (t : tgraph) (p : prepared) (P : prep_ok t p).
  Local Notation h := (tg_heap t).
  Hypothesis Safe : forall q, good_walk t p q -> Forall (safe h) q.
  Lemma forward_spec : exists pre, forward p = Some pre /\ searched (viable p) (p_entries p) (p_can p) pre /\ incl (p_entries p) (disc pre).
  Proof.
    unfold forward. assert (Ec : incl (p_entries p) (p_can p)) by (intros x I; apply (pk_entry t p P) in I; tauto).
    pose proof (seed_spec (viable p) (p_entries p) (p_can p) (p_entries p) [] [] ltac:(constructor) ltac:(intros [|? ?] x y post E; discriminate) ltac:(intros x [])
      (incl_refl _) Ec) as K. destruct (fold_left _ _ _) as [m q]. destruct K as (N & T & Iu & Is & z & E1 & E2). cbn [disc map app] in E1, E2.
    destruct (bfs_spec (viable p) (p_entries p) (p_can p)) with (fuel := S (length (p_can p))) (m := m) (q := q) as (m1 & E & S1 & I1).
    - intros x _ y Iy. apply (viable_spec t p P) in Iy. tauto.
    - split; auto. exists []. split; [rewrite E1, E2; reflexivity|intros x []].
    - rewrite E1, E2. lia.
    - exists m1. split; [exact E|]. split; [exact S1|]. intros x Ix. apply I1, Is, Ix.
  Qed.
  Section Pre.
  Variable pre : pmap.
  Hypothesis Pre : searched (viable p) (p_entries p) (p_can p) pre.
  Definition end_seeds : list point := filter (fun n => mem_point n (tg_ends (p_graph p))) (disc pre).
  Lemma backward_spec : exists suc, backward p pre = Some suc /\ searched (rev_adj p pre) end_seeds (p_can p) suc /\ incl end_seeds (disc suc).
  Proof.
    unfold backward. fold end_seeds. destruct Pre as [N T Iu Cl].
    assert (Ed : disc (map (fun n => (n, n)) end_seeds) = end_seeds) by (unfold disc; rewrite map_map; cbn [fst]; apply map_id).
    destruct (bfs_spec (rev_adj p pre) end_seeds (p_can p)) with (fuel := S (length (p_can p))) (m := map (fun n : point => (n, n)) end_seeds) (q := end_seeds) as (m1 & E & S1 & I1).
    - intros x _ y Iy. apply in_rev_adj in Iy as [Iy _]. apply Iu, Iy.
    - split.
      + rewrite Ed. apply NoDup_filter, N.
      + intros pr x y post E. left. assert (I : In (x, y) (map (fun n => (n, n)) end_seeds)) by (rewrite E; apply in_or_app; right; left; reflexivity).
        apply in_map_iff in I as (z & Q & I). injection Q as -> ->. auto.
      + rewrite Ed. intros x I. apply filter_In in I as [I _]. apply Iu, I.
      + exists []. split; [exact Ed|intros x []].
    - rewrite Ed. lia.
    - exists m1. split; [exact E|]. split; [exact S1|]. rewrite Ed in I1. exact I1.
  Qed.
  Lemma in_add_edge es : forall acc e, In e (fold_left add_edge es acc) <-> In e acc \/ In e es.
  Proof.
    induction es as [|x es IH]; intros acc e; cbn [fold_left In]; [tauto|]. rewrite IH. unfold add_edge. destruct (existsb (eq_edge x) acc) eqn:X.
    - apply existsb_exists in X as (y & Iy & Q). apply eq_edge_spec in Q as <-. split; [tauto|]. intros [I|[<-|I]]; auto.
    - rewrite in_app_iff. cbn [In]. tauto.
  Qed.
  Lemma in_all_edges u w : In (u, w) (all_edges p pre) <-> In u (disc pre) /\ In w (viable p u).
  Proof.
    unfold all_edges. rewrite in_add_edge, in_flat_map. cbn [In]. split.
    - intros [[]|(n & In1 & I)]. apply in_map_iff in I as (s & Q & I). injection Q as -> ->. auto.
    - intros [I1 I2]. right. exists u. split; [exact I1|]. apply in_map_iff. exists w. auto.
  Qed.
  Lemma in_insert d e es x : In x (insert_edge d e es) <-> x = e \/ In x es.
  Proof.
    induction es as [|y es IH]; cbn [insert_edge In]; [split; [intros [<-|[]]; auto|intros [->|[]]; auto]|]. destruct (edge_before d e y); cbn [In]; [|rewrite IH].
    - split; [intros [<-|I]; auto|intros [->|I]; auto].
    - split; [intros [<-|[->|I]]; auto|intros [->|[<-|I]]; auto].
  Qed.
  Lemma in_sort d es : forall e, In e (sort_edges d es) <-> In e es.
  Proof.
    unfold sort_edges. assert (K : forall acc e, In e (fold_left (fun acc e => insert_edge d e acc) es acc) <-> In e acc \/ In e es).
    { induction es as [|x es IH]; intros acc e; cbn [fold_left In]; [tauto|]. rewrite IH, in_insert. split; [intros [[->|I]|I]; auto|intros [I|[<-|I]]; auto]. }
    intros e. rewrite K. cbn [In]. tauto.
  Qed.
  Variable suc : pmap.
  Hypothesis Suc : searched (rev_adj p pre) end_seeds (p_can p) suc.
  Lemma entry_spec u : In u (disc pre) -> exists a q, entry_path pre u = Some a /\ a = q ++ [u] /\ chain p a /\ exists y r, a = y :: r /\ In y (p_entries p).
  Proof.
    intros I. destruct Pre as [N T Iu Cl]. destruct (climb_all _ _ pre u N T I) as (l & E & C & _). unfold entry_path. rewrite E.
    destruct (climbs_entry p u l C) as (q & Eq & Ch & Ex). exists (rev l), q. auto.
  Qed.
  Lemma end_spec w : In w (disc suc) -> exists b r, end_path suc w = Some b /\ b = w :: r /\ chain p b /\ exists y r', b = r' ++ [y] /\ In y (tg_ends t).
  Proof.
    intros I. destruct Suc as [N T Iu Cl]. destruct (climb_all _ _ suc w N T I) as (l & E & C & _). unfold end_path. rewrite E.
    assert (Ie : incl end_seeds (tg_ends t)) by (intros x Ix; apply filter_In in Ix as [_ Ix]; apply mem_point_spec in Ix; rewrite (pk_graph t p P) in Ix; exact Ix).
    destruct (climbs_end t p pre _ w l Ie C) as (r & Er & Ch & Ex). exists l, r. auto.
  Qed.
  Lemma edge_turn_spec c recs u w : In (u, w) (all_edges p pre) -> cinv t p c recs ->
    exists c1 recs1, edge_turn p pre suc (Some c) (u, w) = Some c1 /\ cinv t p c1 (recs ++ recs1) /\ incl (c_v c) (c_v c1) /\ incl (c_e c) (c_e c1) /\
      (In w (disc suc) -> In (u, w) (c_e c1)) /\ length (c_prods c1) <= S (length (c_prods c)).
  Proof.
    intros Ie I. unfold edge_turn. cbn [fst snd]. destruct (existsb (eq_edge (u, w)) (c_e c)) eqn:X.
    - apply existsb_exists in X as (y & Iy & Q). apply eq_edge_spec in Q as <-. exists c, []. rewrite app_nil_r. split; [reflexivity|]. split; [exact I|].
      split; [apply incl_refl|]. split; [apply incl_refl|]. split; [auto|lia].
    - destruct (known w suc) eqn:K; cbn [negb].
      + apply pget_in in K. apply in_all_edges in Ie as [Iu Iw]. destruct (entry_spec u Iu) as (a & q & -> & Ea & Ca & y & r & Ey & Iy).
        destruct (end_spec w K) as (b & r' & -> & Eb & Cb & z & r2 & Ez & Iz). rewrite (pk_graph t p P).
        assert (G : good_walk t p (a ++ b)).
        { split; [|split].
          - rewrite Ea, Eb, <- app_assoc. cbn [app]. apply chain_app; [rewrite <- Ea; exact Ca|]. rewrite Eb in Cb. split; [exact Iw|exact Cb].
          - exists y, (r ++ b). rewrite Ey. auto.
          - exists z, (a ++ r2). rewrite Ez, app_assoc. auto. }
        destruct (take_spec t p Safe _ c recs G I) as (c1 & recs1 & E & J & J1 & J2 & J3 & J4 & Lp). exists c1, recs1. split; [exact E|]. split; [exact J|]. split; [exact J3|].
        split; [exact J4|]. split; [|lia]. intros _. apply J2. rewrite Ea, Eb. clear. induction q as [|x q IH]; [left; reflexivity|]. cbn [app tl].
        destruct q as [|x' q]; right; exact IH.
      + exists c, []. rewrite app_nil_r. split; [reflexivity|]. split; [exact I|]. split; [apply incl_refl|]. split; [apply incl_refl|]. split; [|lia]. intros Iw. apply pget_in in Iw. congruence.
  Qed.
  Lemma node_turn_spec c recs v : In v (disc pre) -> cinv t p c recs ->
    exists c1 recs1, node_turn p pre suc (Some c) v = Some c1 /\ cinv t p c1 (recs ++ recs1) /\ incl (c_v c) (c_v c1) /\ incl (c_e c) (c_e c1) /\
      (In v (disc suc) -> In v (c_v c1)) /\ length (c_prods c1) <= S (length (c_prods c)).
  Proof.
    intros Iv I. unfold node_turn. destruct (mem_point v (c_v c)) eqn:X.
    - apply mem_point_spec in X. exists c, []. rewrite app_nil_r. split; [reflexivity|]. split; [exact I|]. split; [apply incl_refl|]. split; [apply incl_refl|]. split; [auto|lia].
    - destruct (known v suc) eqn:K; cbn [negb].
      + apply pget_in in K. destruct (entry_spec v Iv) as (a & q & -> & Ea & Ca & y & r & Ey & Iy). rewrite (pk_graph t p P).
        destruct (mem_point v (tg_ends t)) eqn:Xe.
        * apply mem_point_spec in Xe. assert (G : good_walk t p a) by (split; [exact Ca|]; split; [exists y, r; auto|exists v, q; auto]).
          destruct (take_spec t p Safe _ c recs G I) as (c1 & recs1 & E & J & J1 & J2 & J3 & J4 & Lp). exists c1, recs1. split; [exact E|]. split; [exact J|]. split; [exact J3|].
          split; [exact J4|]. split; [|lia]. intros _. apply J1. rewrite Ea. apply in_or_app. right. left. reflexivity.
        * destruct (end_spec v K) as (b & r' & -> & Eb & Cb & z & r2 & Ez & Iz). subst b. cbn [tl].
          assert (G : good_walk t p (a ++ r')).
          { split; [|split].
            - rewrite Ea, <- app_assoc. cbn [app]. apply chain_app; [rewrite <- Ea; exact Ca|exact Cb].
            - exists y, (r ++ r'). rewrite Ey. auto.
            - destruct r' as [|x r'] using rev_ind.
              + destruct r2 as [|x2 r2]; [injection Ez as <-|destruct r2; discriminate]. exists v, q. rewrite app_nil_r. auto.
              + clear IHr'. rewrite app_comm_cons in Ez. apply app_inj_tail in Ez as [_ <-]. exists x, (a ++ r'). rewrite app_assoc. auto. }
          destruct (take_spec t p Safe _ c recs G I) as (c1 & recs1 & E & J & J1 & J2 & J3 & J4 & Lp). exists c1, recs1. split; [exact E|]. split; [exact J|]. split; [exact J3|].
          split; [exact J4|]. split; [|lia]. intros _. apply J1. rewrite Ea, <- app_assoc. apply in_or_app. right. left. reflexivity.
      + exists c, []. rewrite app_nil_r. split; [reflexivity|]. split; [exact I|]. split; [apply incl_refl|]. split; [apply incl_refl|]. split; [|lia]. intros Iw. apply pget_in in Iw. congruence.
  Qed.
  Lemma edges_spec es : forall c recs, incl es (all_edges p pre) -> cinv t p c recs ->
    exists c1 recs1, fold_left (edge_turn p pre suc) es (Some c) = Some c1 /\ cinv t p c1 (recs ++ recs1) /\ incl (c_e c) (c_e c1) /\
      (forall u w, In (u, w) es -> In w (disc suc) -> In (u, w) (c_e c1)) /\ length (c_prods c1) <= length es + length (c_prods c).
  Proof.
    induction es as [|[u w] es IH]; intros c recs Ie I.
    - exists c, []. rewrite app_nil_r. split; [reflexivity|]. split; [exact I|]. split; [apply incl_refl|]. split; [intros u w []|apply le_n].
    - cbn [fold_left]. destruct (edge_turn_spec c recs u w (Ie _ (or_introl eq_refl)) I) as (c1 & r1 & E1 & J1 & _ & M1 & K1 & L1). rewrite E1.
      destruct (IH c1 (recs ++ r1) (fun x Ix => Ie x (or_intror Ix)) J1) as (c2 & r2 & E2 & J2 & M2 & K2 & L2). exists c2, (r1 ++ r2). rewrite app_assoc.
      split; [exact E2|]. split; [exact J2|]. split; [intros x Ix; apply M2, M1, Ix|]. split; [|cbn [length]; lia]. intros u' w' [Q|Ix] Iw; [|exact (K2 u' w' Ix Iw)]. injection Q as <- <-. apply M2, K1, Iw.
  Qed.
  Lemma nodes_spec vs : forall c recs, incl vs (disc pre) -> cinv t p c recs ->
    exists c1 recs1, fold_left (node_turn p pre suc) vs (Some c) = Some c1 /\ cinv t p c1 (recs ++ recs1) /\ incl (c_v c) (c_v c1) /\ incl (c_e c) (c_e c1) /\
      (forall v, In v vs -> In v (disc suc) -> In v (c_v c1)) /\ length (c_prods c1) <= length vs + length (c_prods c).
  Proof.
    induction vs as [|v vs IH]; intros c recs Ie I.
    - exists c, []. rewrite app_nil_r. split; [reflexivity|]. split; [exact I|]. split; [apply incl_refl|]. split; [apply incl_refl|]. split; [intros v []|apply le_n].
    - cbn [fold_left]. destruct (node_turn_spec c recs v (Ie _ (or_introl eq_refl)) I) as (c1 & r1 & E1 & J1 & N1 & M1 & K1 & L1). rewrite E1.
      destruct (IH c1 (recs ++ r1) (fun x Ix => Ie x (or_intror Ix)) J1) as (c2 & r2 & E2 & J2 & N2 & M2 & K2 & L2). exists c2, (r1 ++ r2). rewrite app_assoc.
      split; [exact E2|]. split; [exact J2|]. split; [intros x Ix; apply N2, N1, Ix|]. split; [intros x Ix; apply M2, M1, Ix|]. split; [|cbn [length]; lia]. intros v' [<-|Ix] Iw; [apply N2, K1, Iw|exact (K2 v' Ix Iw)].
  Qed.
  End Pre.
  (** Everything on a walk is found by both searches. *)
  Lemma walk_found pre suc q : searched (viable p) (p_entries p) (p_can p) pre -> incl (p_entries p) (disc pre) ->
    searched (rev_adj p pre) (end_seeds pre) (p_can p) suc -> incl (end_seeds pre) (disc suc) -> good_walk t p q -> incl q (disc pre) /\ incl q (disc suc).
  Proof.
    intros Pre Ie Suc Is (Ch & (x & r & Ex & Ix) & (y & r' & Ey & Iy)).
    assert (A : incl q (disc pre)).
    { rewrite Ex in *. clear Ex Ey Iy. apply Ie in Ix. revert x Ix Ch. induction r as [|z r IH]; intros x Ix Ch w [<-|Iw]; try exact Ix; [destruct Iw|].
      destruct Ch as [C1 C2]. apply (IH z); [|exact C2|exact Iw]. apply (sd_closed _ _ _ _ Pre x Ix), C1. }
    split; [exact A|]. clear Ex Ix x r. rewrite Ey in A, Ch |- *. clear q Ey.
    assert (Ly : In y (disc suc)).
    { apply Is. apply filter_In. split; [apply A, in_or_app; right; left; reflexivity|]. rewrite (pk_graph t p P). apply mem_point_spec, Iy. }
    clear Iy Is. induction r' as [|z r' IH]; intros w Iw.
    - destruct Iw as [<-|[]]. exact Ly.
    - cbn [app] in *. assert (Cz : chain p (r' ++ [y]) /\ exists n, In n (r' ++ [y]) /\ In n (viable p z)).
      { destruct r' as [|z' r']; cbn [app] in *; destruct Ch as [C1 C2]; (split; [exact C2|]); eexists; (split; [left; reflexivity|exact C1]). }
      destruct Cz as [C1 (n & In1 & Nv)]. specialize (IH C1 (fun v Iv => A v (or_intror Iv))). destruct Iw as [<-|Iw]; [|exact (IH w Iw)].
      apply (sd_closed _ _ _ _ Suc n (IH n In1)). apply in_rev_adj. split; [apply A; left; reflexivity|exact Nv].
  Qed.
  Lemma chain_edges q : chain p q -> forall a b, In (a, b) (combine q (tl q)) -> In b (viable p a).
  Proof.
    induction q as [|x q IH]; intros Ch a b I; [destruct I|]. destruct q as [|y q]; [destruct I|]. destruct Ch as [C1 C2]. cbn [tl combine] in I.
    destruct I as [Q|I]; [injection Q as <- <-; exact C1|]. exact (IH C2 a b I).
  Qed.
  Lemma sort_length d es : length (sort_edges d es) = length es.
  Proof.
    unfold sort_edges. assert (Li : forall e l, length (insert_edge d e l) = S (length l)).
    { intros e l. induction l as [|x l IH]; [reflexivity|]. cbn [insert_edge]. destruct (edge_before d e x); cbn [length]; [reflexivity|]. rewrite IH. reflexivity. }
    assert (K : forall acc, length (fold_left (fun acc e => insert_edge d e acc) es acc) = length es + length acc).
    { induction es as [|e es IH]; intros acc; [reflexivity|]. cbn [fold_left length]. rewrite IH, Li. lia. }
    rewrite K. cbn [length]. lia.
  Qed.
  Lemma all_edges_nodup pre : NoDup (all_edges p pre).
  Proof.
    unfold all_edges. generalize (flat_map (fun n => map (fun s => (n, s)) (viable p n)) (disc pre)). intros es.
    assert (K : forall acc, NoDup acc -> NoDup (fold_left add_edge es acc)); [|apply K; constructor].
    induction es as [|e es IH]; intros acc N; [exact N|]. cbn [fold_left]. apply IH. unfold add_edge. destruct (existsb (eq_edge e) acc) eqn:X; [exact N|].
    apply nodup_snoc; [exact N|]. intros I. assert (Y : existsb (eq_edge e) acc = true) by (apply existsb_exists; exists e; split; [exact I|apply eq_edge_spec; reflexivity]). congruence.
  Qed.
  Lemma sum_part {A} (f : A -> nat) : forall l l', NoDup l -> incl l l' -> list_sum (map f l) <= list_sum (map f l').
  Proof.
    induction l as [|x l IH]; intros l' N I; [apply Nat.le_0_l|]. inversion N as [|? ? Nx Nl]; subst. destruct (in_split x l' (I x (or_introl eq_refl))) as (a & b & ->).
    specialize (IH (a ++ b) Nl). assert (Ib : incl l (a ++ b)).
    { intros y Iy. specialize (I y (or_intror Iy)). apply in_app_or in I as [I|[->|I]]; [apply in_or_app; left; exact I|destruct (Nx Iy)|apply in_or_app; right; exact I]. }
    specialize (IH Ib). rewrite map_app in IH |- *. rewrite list_sum_app in *. cbn [map]. change (list_sum (f x :: map f ?z)) with (f x + list_sum (map f z)). lia.
  Qed.
  (** On a chain from an entry. *)
  Definition reached (x : point) : Prop := exists e r, In e (p_entries p) /\ chain p (e :: r) /\ In x (e :: r).
  Lemma disc_reached pre : searched (viable p) (p_entries p) (p_can p) pre -> forall x, In x (disc pre) -> reached x.
  Proof.
    intros [N T Iu Cl] x I. destruct (climb_all _ _ pre x N T I) as (l & _ & C & _). destruct (climbs_entry p x l C) as (q & Eq & Ch & y & r & Ey & Iy).
    exists y, r. split; [exact Iy|]. rewrite Ey in Ch. split; [exact Ch|].
    assert (Ix : In x (rev l)) by (rewrite Eq; apply in_or_app; right; left; reflexivity). rewrite Ey in Ix. exact Ix.
  Qed.
  Theorem compact_spec : exists prods recs, (exists f0, forall fuel, f0 <= fuel -> build_compact fuel p = Rd_ok prods) /\ Forall2 (made t p) recs prods /\
    (forall q, good_walk t p q ->
      (forall n k, In n q -> in_range_at h n k -> exists r, In r recs /\ In (n, k) (combine (fst r) (snd r))) /\
      (forall e, In e (combine q (tl q)) -> exists r, In r recs /\ In e (combine (fst r) (tl (fst r))))) /\
    forall V E, (forall x, reached x -> In x V) -> (forall a b, reached a -> In b (viable p a) -> In (a, b) E) ->
      length prods <= length E + length V + list_sum (map (fun x => Z.to_nat (total_at h x)) V).
  Proof.
    destruct forward_spec as (pre & E1 & Pre & Ie). destruct (backward_spec pre Pre) as (suc & E2 & Suc & Is).
    assert (I0 : cinv t p (mkC [] [] (fun _ => 0%Z) [] []) []).
    { split; cbn [c_next c_v c_e c_prods c_walks]; [constructor|constructor|intros x []|intros x []|intros n; lia|intros n k Hk; lia]. }
    destruct (edges_spec pre Pre suc Suc (sort_edges (disc pre) (all_edges p pre)) _ _ (fun e I => proj1 (in_sort _ _ e) I) I0) as (c1 & r1 & E3 & J1 & _ & K1 & L1).
    destruct (nodes_spec pre Pre suc Suc (disc pre) c1 _ (incl_refl _) J1) as (c2 & r2 & E4 & J2 & _ & M2 & K2 & L2).
    set (f0 := S (list_sum (map (left_in h (fun _ => 0%Z)) (c_walks c2)))).
    assert (G2 : Forall (good_walk t p) (c_walks c2)) by (eapply Forall_impl; [|apply (ci_walks _ _ _ _ J2)]; intros w [G _]; exact G).
    assert (L : forall fuel, f0 <= fuel -> forall w, In w (c_walks c2) -> left_in h (fun _ => 0%Z) w < fuel).
    { intros fuel Hf w Iw. unfold f0 in Hf. eapply Nat.lt_le_trans; [|exact Hf]. apply Nat.lt_succ_r. clear -Iw. induction (c_walks c2) as [|x l IH]; [destruct Iw|].
      unfold list_sum in *. cbn [map fold_right]. destruct Iw as [->|Iw]; [lia|]. specialize (IH Iw). lia. }
    destruct (drain_all_spec t p Safe f0 (c_walks c2) c2 _ G2 J2 (L f0 (le_n _))) as (c3 & r3 & E5 & J3 & W3 & M3 & T3 & L3).
    exists (c_prods c3), ((([] ++ r1) ++ r2) ++ r3). split; [|split; [|split]].
    - exists f0. intros fuel Hf. unfold build_compact. rewrite E1, E2, E3, E4, (pk_graph t p P).
      rewrite (drain_all_mono _ _ _ _ _ _ Hf E5). reflexivity.
    - apply (ci_made _ _ _ _ J3).
    - intros q Gq. destruct (walk_found pre suc q Pre Ie Suc Is Gq) as [A B]. split.
      + intros n k In1 Hk. pose proof (K2 n (A n In1) (B n In1)) as Iv. destruct (ci_v _ _ _ _ J2 n Iv) as (w & Iw & Inw). specialize (T3 w n Iw Inw).
        destruct (ci_next _ _ _ _ J3 n k ltac:(unfold in_range_at in Hk; lia)) as (_ & X). exact X.
      + intros [a b] I. pose proof (chain_edges q (proj1 Gq) a b I) as Vb. pose proof (in_combine_l _ _ _ _ I) as Ia. pose proof (in_combine_r _ _ _ _ I) as Ib0.
        assert (Ib : In b q) by (destruct q as [|x q]; [destruct Ib0|right; exact Ib0]).
        assert (Iae : In (a, b) (sort_edges (disc pre) (all_edges p pre))) by (apply in_sort, in_all_edges; split; [apply A, Ia|exact Vb]).
        pose proof (M2 _ (K1 a b Iae (B b Ib))) as Ie2. destruct (ci_e _ _ _ _ J2 _ Ie2) as (w & Iw & Inw).
        pose proof (ci_walks _ _ _ _ J3) as Fw. rewrite W3 in Fw. rewrite Forall_forall in Fw. destruct (Fw w Iw) as (_ & va & Iva).
        exists (w, va). split; [exact Iva|exact Inw].
    - intros V E HV HE. cbn [c_prods length] in L1. rewrite sort_length in L1.
      assert (Le : length (all_edges p pre) <= length E).
      { apply NoDup_incl_length; [apply all_edges_nodup|]. intros [a b] I. apply in_all_edges in I as [I1 I2]. apply HE; [exact (disc_reached pre Pre a I1)|exact I2]. }
      assert (Iv : incl (disc pre) V) by (intros x I; apply HV, (disc_reached pre Pre x I)).
      assert (Lv : length (disc pre) <= length V) by (apply NoDup_incl_length; [apply (sd_nodup _ _ _ _ Pre)|exact Iv]).
      assert (Ls : left_in h (c_next c2) (disc pre) <= list_sum (map (fun x => Z.to_nat (total_at h x)) V)).
      { eapply Nat.le_trans; [|apply (sum_part _ (disc pre) V (sd_nodup _ _ _ _ Pre) Iv)]. apply sum_le. intros x _. pose proof (ci_pos _ _ _ _ J2 x). lia. }
      specialize (L3 (disc pre)). assert (Wd : forall w, In w (c_walks c2) -> incl w (disc pre)).
      { intros w Iw. rewrite Forall_forall in G2. exact (proj1 (walk_found pre suc w Pre Ie Suc Is (G2 w Iw))). }
      specialize (L3 Wd). lia.
  Qed.
End All.
