(** Cloning a graph and counting its nodes.
    Its definitions are means of proof and model no code. *)
From Coq Require Import ZArith Arith String Bool List Lia.
From Verif Require Import Syntax Spec RegexSpec Graph GraphRun.
Import ListNotations.
Local Open Scope nat_scope.
Local Open Scope list_scope.

(** ** countReachable *)
Lemma existsb_nat x l : existsb (Nat.eqb x) l = true <-> In x l.
Proof.
  rewrite existsb_exists. split; [intros (y & I & Q); apply Nat.eqb_eq in Q as ->; exact I|]. intros I. exists x. split; [exact I|apply Nat.eqb_refl].
Qed.
Definition unsum (h : heap) (seen : list nat) : nat :=
  fold_right (fun a k => (if existsb (Nat.eqb a) seen then 0 else length (nexts h a)) + k) 0 (seq 0 (length h)).
Lemma unsum_gen h n seen l : ~ In n seen -> NoDup l ->
  (fold_right (fun a k => (if existsb (Nat.eqb a) (n :: seen) then 0 else length (nexts h a)) + k) 0 l
   + (if existsb (Nat.eqb n) l then length (nexts h n) else 0)
   = fold_right (fun a k => (if existsb (Nat.eqb a) seen then 0 else length (nexts h a)) + k) 0 l)%nat.
Proof.
  intros N D. induction D as [|a l Ia D IH]; cbn [fold_right existsb]; [reflexivity|].
  destruct (Nat.eqb_spec a n) as [->|Na].
  - rewrite Nat.eqb_refl. cbn [orb]. destruct (existsb (Nat.eqb n) seen) eqn:E; [apply existsb_nat in E; contradiction|].
    destruct (existsb (Nat.eqb n) l) eqn:E'; [apply existsb_nat in E'; contradiction|]. rewrite <- IH. cbn [existsb]. lia.
  - cbn [orb]. destruct (Nat.eqb_spec n a) as [Q|_]; [congruence|]. cbn [orb].
    destruct (existsb (Nat.eqb a) seen); cbn [existsb] in IH; lia.
Qed.
Lemma unsum_le h n seen : ~ In n seen -> unsum h (n :: seen) + length (nexts h n) <= unsum h seen.
Proof.
  intros N. unfold unsum. rewrite <- (unsum_gen h n seen _ N (seq_NoDup _ _)).
  destruct (existsb (Nat.eqb n) (seq 0 (length h))) eqn:E; [lia|].
  assert (length h <= n). { destruct (Nat.le_gt_cases (length h) n) as [L|L]; [exact L|]. exfalso.
    assert (In n (seq 0 (length h))) as I by (apply in_seq; lia). apply existsb_nat in I. congruence. }
  apply nth_error_None in H. unfold nexts at 2. rewrite H. cbn. lia.
Qed.
Lemma unsum_nil h : unsum h [] = edge_count h.
Proof.
  unfold unsum, edge_count. cbn [existsb].
  assert (G : forall h0 k, (forall j, j < length h0 -> nexts h (k + j) = nexts h0 j) ->
    fold_right (fun a n => length (nexts h a) + n) 0 (seq k (length h0)) = fold_right (fun n m => length (n_nexts n) + m) 0 h0).
  { induction h0 as [|x h0 IH]; intros k E; cbn [length seq fold_right]; [reflexivity|].
    rewrite (IH (S k)); [|intros j Lj; specialize (E (S j)); cbn [length] in E; rewrite Nat.add_succ_comm; rewrite E by lia; reflexivity].
    specialize (E 0). rewrite Nat.add_0_r in E. rewrite E by (cbn; lia). reflexivity. }
  apply (G h 0). intros j _. reflexivity.
Qed.

Lemma filter_le {A} (p : A -> bool) l : length (filter p l) <= length l.
Proof. induction l as [|x l IH]; cbn; [lia|]. destruct (p x); cbn; lia. Qed.
Lemma count_loop_spec h fuel stack seen : length stack + unsum h seen < fuel ->
  (forall a b, In a seen -> In b (nexts h a) -> In b seen \/ In b stack) ->
  closed h (count_loop fuel h stack seen) /\ incl stack (count_loop fuel h stack seen) /\ incl seen (count_loop fuel h stack seen).
Proof.
  revert stack seen. induction fuel as [|f IH]; intros stack seen F C; [lia|]. cbn [count_loop].
  destruct stack as [|n stack].
  - split; [intros a b Ia Ib; destruct (C a b Ia Ib) as [K|[]]; exact K|]. split; [intros x []|apply incl_refl].
  - cbn [length] in F. destruct (existsb (Nat.eqb n) seen) eqn:E.
    + apply existsb_nat in E. destruct (IH stack seen) as (I1 & I2 & I3); [lia| |].
      * intros a b Ia Ib. destruct (C a b Ia Ib) as [K|[<-|K]]; auto.
      * split; [exact I1|]. split; [|exact I3]. intros x [<-|Ix]; [apply I3, E|apply I2, Ix].
    + assert (N : ~ In n seen) by (intros K; apply existsb_nat in K; congruence).
      set (new := filter _ (nexts h n)). pose proof (unsum_le h n seen N) as U.
      assert (Ln : length new <= length (nexts h n)) by apply filter_le.
      destruct (IH (rev new ++ stack) (n :: seen)) as (I1 & I2 & I3).
      * rewrite app_length, rev_length. lia.
      * intros a b [<-|Ia] Ib.
        -- destruct (existsb (Nat.eqb b) (n :: seen)) eqn:Eb; [left; apply existsb_nat, Eb|].
           right. apply in_or_app. left. apply -> in_rev. apply filter_In. split; [exact Ib|]. rewrite Eb. reflexivity.
        -- destruct (C a b Ia Ib) as [K|[<-|K]]; [left; right; exact K|left; left; reflexivity|right; apply in_or_app; right; exact K].
      * split; [exact I1|]. split.
        -- intros x [<-|Ix]; [apply I3; left; reflexivity|apply I2, in_or_app; right; exact Ix].
        -- intros x Ix. apply I3. right. exact Ix.
Qed.
(** The fuel is enough: the list holds the entry points and is closed under Nexts. *)
Lemma reachable_closed h i : closed h (seen_from h i) /\ (forall a, In (Some a) i -> In a (seen_from h i)).
Proof.
  unfold seen_from. destruct (count_loop_spec h (S (length i + edge_count h)) (rev (somes i)) []) as (A & B & _).
  - rewrite rev_length, unsum_nil. assert (length (somes i) <= length i); [|lia].
    unfold somes. clear. induction i as [|[a|] i IH]; cbn; lia.
  - intros a b [].
  - split; [exact A|]. intros a Ia. apply B. apply -> in_rev. apply somes_in, Ia.
Qed.
Lemma count_loop_in h (P : nat -> Prop) fuel stack seen : (forall a b, P a -> In b (nexts h a) -> P b) ->
  (forall a, In a stack -> P a) -> (forall a, In a seen -> P a) -> forall a, In a (count_loop fuel h stack seen) -> P a.
Proof.
  intros C. revert stack seen. induction fuel as [|f IH]; intros stack seen A B; cbn [count_loop]; [exact B|].
  destruct stack as [|n stack]; [exact B|]. destruct (existsb (Nat.eqb n) seen).
  - apply IH; [intros a Ia; apply A; right; exact Ia|exact B].
  - apply IH.
    + intros a Ia. apply in_app_or in Ia as [Ia|Ia]; [|apply A; right; exact Ia].
      apply in_rev in Ia. apply filter_In in Ia as [Ia _]. eapply C; [apply A; left; reflexivity|exact Ia].
    + intros a [<-|Ia]; [apply A; left; reflexivity|apply B, Ia].
Qed.
Lemma count_loop_nodup h fuel stack seen : NoDup seen -> NoDup (count_loop fuel h stack seen).
Proof.
  revert stack seen. induction fuel as [|f IH]; intros stack seen D; cbn [count_loop]; [exact D|].
  destruct stack as [|n stack]; [exact D|]. destruct (existsb (Nat.eqb n) seen) eqn:E; apply IH; [exact D|].
  constructor; [|exact D]. intros I. apply existsb_nat in I. congruence.
Qed.
Lemma seen_from_region h i R : closed h R -> (forall a, In (Some a) i -> In a R) -> NoDup R -> length (seen_from h i) <= length R.
Proof.
  intros C S D. apply NoDup_incl_length; [apply count_loop_nodup; constructor|].
  intros a. apply (count_loop_in h (fun a => In a R)).
  - exact C.
  - intros b Ib. apply S, somes_in. apply in_rev. exact Ib.
  - intros b [].
Qed.

(** ** The map from origins to clones *)
Definition keys (m : list (nat * nat)) : list nat := map fst m.
Definition vals (m : list (nat * nat)) : list nat := map snd m.
Lemma cget_in k m : (exists v, cget k m = Some v) <-> In k (keys m).
Proof.
  induction m as [|[x u] m IH]; cbn [cget keys map fst In]; [split; [intros (v & E); discriminate|intros []]|].
  destruct (Nat.eqb_spec x k) as [->|N]; [split; [auto|eauto]|]. rewrite IH. unfold keys. intuition.
Qed.
Lemma cget_none k m : cget k m = None <-> ~ In k (keys m).
Proof. rewrite <- cget_in. destruct (cget k m); split; try discriminate; auto; [intros N; exfalso; eauto|intros _ (v & E); discriminate]. Qed.
Lemma cget_pair k v m : NoDup (keys m) -> (cget k m = Some v <-> In (k, v) m).
Proof.
  induction m as [|[x u] m IH]; cbn [cget keys map fst In]; intros D; [split; [discriminate|intros []]|].
  inversion D as [|? ? Nx D']. subst. destruct (Nat.eqb_spec x k) as [->|N].
  - split; [intros E; injection E as ->; auto|]. intros [E|E]; [congruence|]. exfalso. apply Nx. apply (in_map fst) in E. exact E.
  - rewrite (IH D'). intuition. congruence.
Qed.
Lemma cput_fresh k v m : ~ In k (keys m) -> cput k v m = m ++ [(k, v)].
Proof.
  induction m as [|[x u] m IH]; cbn [cput keys map fst In app]; intros N; [reflexivity|].
  destruct (Nat.eqb_spec x k) as [->|_]; [exfalso; auto|]. rewrite IH by (unfold keys; tauto). reflexivity.
Qed.
Lemma cput_keys k v m j : In j (keys (cput k v m)) <-> j = k \/ In j (keys m).
Proof.
  induction m as [|[x u] m IH]; cbn [cput keys map fst In]; [intuition|].
  destruct (Nat.eqb_spec x k) as [->|N]; cbn [map fst In]; [intuition|]. unfold keys in IH. rewrite IH. intuition.
Qed.
Lemma cput_keys_nodup k v m : NoDup (keys m) -> NoDup (keys (cput k v m)).
Proof.
  induction m as [|[x u] m IH]; cbn [cput keys map fst]; intros D; [constructor; [intros []|constructor]|].
  inversion D as [|? ? Nx D']. subst. destruct (Nat.eqb_spec x k) as [->|N]; cbn [map fst]; [constructor; assumption|].
  constructor; [|apply IH, D']. intros I. apply (cput_keys k v m x) in I as [E|I]; [congruence|apply Nx, I].
Qed.
Lemma cput_pairs k v m x u : In (x, u) (cput k v m) -> (x = k /\ u = v) \/ In (x, u) m.
Proof.
  induction m as [|[y t] m IH]; cbn [cput In]; [intros [E|[]]; injection E as <- <-; auto|].
  destruct (Nat.eqb_spec y k) as [->|N]; cbn [In].
  - intros [E|I]; [injection E as <- <-; auto|auto].
  - intros [E|I]; [auto|]. destruct (IH I) as [K|K]; auto.
Qed.
Lemma cput_vals_nodup k v m : NoDup (vals m) -> ~ In v (vals m) -> NoDup (vals (cput k v m)).
Proof.
  assert (Q : forall m x, In x (vals (cput k v m)) -> x = v \/ In x (vals m)).
  { intros m' x I. apply in_map_iff in I as ((a & b) & E & I). cbn in E. subst b. apply cput_pairs in I as [(_ & ->)|I]; [auto|].
    right. apply (in_map snd) in I. exact I. }
  induction m as [|[y t] m IH]; cbn [cput vals map snd]; intros D N; [constructor; [intros []|constructor]|].
  inversion D as [|? ? Ny D']. subst. destruct (Nat.eqb_spec y k) as [->|Ny']; cbn [map snd].
  - constructor; [|exact D']. intros I. apply N. right. exact I.
  - constructor; [|apply IH; [exact D'|intros I; apply N; right; exact I]].
    intros I. apply Q in I as [->|I]; [apply N; left; reflexivity|apply Ny, I].
Qed.

(** ** cloneTG *)
Section Clone.
  Variable h0 : heap.
  Variable P : nat -> Prop.     (* holds of the origins, closed under Nexts *)
  Hypothesis PC : forall a b, P a -> In b (nexts h0 a) -> P b.
  Hypothesis PL : forall a, P a -> a < length h0.

  Definition frame (h h' : heap) : Prop := length h <= length h' /\ forall a, a < length h -> nth_error h' a = nth_error h a.
  Record cinv (h : heap) (m : list (nat * nat)) : Prop := {
    ci_frame : frame h0 h;
    ci_keys : NoDup (keys m);
    ci_vals : NoDup (vals m);
    ci_in : forall k v, In (k, v) m -> P k /\ length h0 <= v < length h /\ label h v = label h0 k }.
  Definition unk (m : list (nat * nat)) : nat := length (filter (fun a => negb (existsb (Nat.eqb a) (keys m))) (seq 0 (length h0))).
  Lemma unk_mono m m' : incl (keys m) (keys m') -> unk m' <= unk m.
  Proof.
    intros I. unfold unk. induction (seq 0 (length h0)) as [|a l IH]; cbn [filter]; [lia|].
    destruct (existsb (Nat.eqb a) (keys m)) eqn:E.
    - apply existsb_nat, I, existsb_nat in E. rewrite E. cbn [negb]. exact IH.
    - destruct (existsb (Nat.eqb a) (keys m')); cbn [negb length]; lia.
  Qed.
  Lemma unk_lt n v m : n < length h0 -> ~ In n (keys m) -> unk (cput n v m) < unk m.
  Proof.
    intros L N. unfold unk. assert (I : In n (seq 0 (length h0))) by (apply in_seq; lia).
    induction (seq 0 (length h0)) as [|a l IH]; [destruct I|]. cbn [filter].
    assert (M : forall l, length (filter (fun a => negb (existsb (Nat.eqb a) (keys (cput n v m)))) l) <= length (filter (fun a => negb (existsb (Nat.eqb a) (keys m))) l)).
    { clear. intros l. induction l as [|a l IH]; cbn [filter]; [lia|]. destruct (existsb (Nat.eqb a) (keys m)) eqn:E.
      - apply existsb_nat in E. assert (K : In a (keys (cput n v m))) by (apply cput_keys; auto). apply existsb_nat in K. rewrite K. exact IH.
      - destruct (existsb (Nat.eqb a) (keys (cput n v m))); cbn [negb length]; lia. }
    destruct (Nat.eq_dec a n) as [->|Na].
    - destruct (existsb (Nat.eqb n) (keys m)) eqn:E; [apply existsb_nat in E; contradiction|].
      assert (K : In n (keys (cput n v m))) by (apply cput_keys; auto). apply existsb_nat in K. rewrite K. cbn [negb length]. specialize (M l). lia.
    - destruct I as [->|I]; [contradiction|]. specialize (IH I). destruct (existsb (Nat.eqb a) (keys m)) eqn:E.
      + apply existsb_nat in E. assert (K : In a (keys (cput n v m))) by (apply cput_keys; auto). apply existsb_nat in K. rewrite K. exact IH.
      + destruct (existsb (Nat.eqb a) (keys (cput n v m))); cbn [negb length]; lia.
  Qed.

  (** Everything added is complete. *)
  Definition post (m m' : list (nat * nat)) : Prop :=
    incl (keys m) (keys m') /\ (forall a b, In a (keys m') -> ~ In a (keys m) -> In b (nexts h0 a) -> In b (keys m')).
  Lemma frame_nexts h a : frame h0 h -> a < length h0 -> nexts h a = nexts h0 a.
  Proof. intros F L. unfold nexts. rewrite (proj2 F a L). reflexivity. Qed.
  Lemma frame_label h a : frame h0 h -> a < length h0 -> label h a = label h0 a.
  Proof. intros F L. unfold label. rewrite (proj2 F a L). reflexivity. Qed.

  Lemma clone_tg_spec fuel : forall origin h m v, cinv h m -> P origin -> unk (cput origin v m) < fuel ->
    let r := clone_tg fuel origin (h, m) in
    cinv (fst r) (snd r) /\ length h <= length (fst r) /\ post m (snd r) /\ In origin (keys (snd r)) /\ (forall b, In b (nexts h0 origin) -> In b (keys (snd r))).
  Proof.
    induction fuel as [|f IH]; intros origin h m v C Po F; [lia|]. cbn [clone_tg]. unfold alloc. cbn zeta.
    assert (Lo : origin < length h0) by (apply PL, Po).
    rewrite (frame_nexts h origin (ci_frame _ _ C) Lo).
    set (e := match nth_error h origin with Some n => n_elem n | None => EProse [] end).
    assert (Le : label h0 origin = Some e).
    { unfold e. rewrite <- (frame_label h origin (ci_frame _ _ C) Lo). unfold label.
      destruct (nth_error h origin) eqn:E; [reflexivity|]. exfalso. apply nth_error_None in E. destruct (ci_frame _ _ C). lia. }
    set (h1 := h ++ [mkNode e []]). set (m1 := cput origin (length h) m).
    assert (C1 : cinv h1 m1).
    { destruct C as [[L1 F1] Ck Cv Ci]. split.
      - split; [unfold h1; rewrite app_length; lia|]. intros a La. unfold h1. rewrite nth_error_app1 by lia. apply F1, La.
      - apply cput_keys_nodup, Ck.
      - apply cput_vals_nodup; [exact Cv|]. intros I. apply in_map_iff in I as ((k & u) & E & I). cbn in E. subst u.
        destruct (Ci _ _ I) as (_ & ? & _). lia.
      - intros k u I. apply cput_pairs in I as [(-> & ->)|I].
        + split; [exact Po|]. split; [unfold h1; rewrite app_length; cbn; lia|].
          unfold label at 1, h1. rewrite nth_error_app2 by lia. rewrite Nat.sub_diag. cbn. symmetry. exact Le.
        + destruct (Ci _ _ I) as (A & B & D). split; [exact A|]. split; [unfold h1; rewrite app_length; lia|].
          rewrite <- D. unfold label, h1. rewrite nth_error_app1 by lia. reflexivity. }
    assert (U1 : unk m1 <= f).
    { assert (unk m1 = unk (cput origin v m)); [|lia]. unfold unk, m1. f_equal. apply filter_ext. intros a. f_equal.
      destruct (existsb (Nat.eqb a) (keys (cput origin (length h) m))) eqn:E.
      - symmetry. apply existsb_nat. apply existsb_nat in E. apply cput_keys in E. apply cput_keys. exact E.
      - destruct (existsb (Nat.eqb a) (keys (cput origin v m))) eqn:E'; [|reflexivity]. apply existsb_nat in E'.
        rewrite <- E. apply existsb_nat. apply cput_keys in E'. apply cput_keys. exact E'. }
    assert (Loop : forall l h1 m1, cinv h1 m1 -> unk m1 <= f -> (forall b, In b l -> P b) ->
      let r := fold_left (fun hm n => match cget n (snd hm) with Some _ => hm | None => clone_tg f n hm end) l (h1, m1) in
      cinv (fst r) (snd r) /\ length h1 <= length (fst r) /\ post m1 (snd r) /\ (forall b, In b l -> In b (keys (snd r)))).
    { clear - IH PL. intros l. induction l as [|n l IHl]; intros h1 m1 C1 U1 Pl; cbn [fold_left]; cbn zeta.
      - split; [exact C1|]. split; [cbn; lia|]. split; [|intros b []]. split; [apply incl_refl|]. intros a b I N. contradiction.
      - cbn [snd]. destruct (cget n m1) as [v|] eqn:G.
        + assert (In n (keys m1)) as In1 by (apply cget_in; eauto).
          destruct (IHl h1 m1 C1 U1) as (A & B & D & E); [intros b Ib; apply Pl; right; exact Ib|]. cbn zeta in *.
          split; [exact A|]. split; [exact B|]. split; [exact D|]. intros b [<-|Ib]; [apply (proj1 D), In1|apply E, Ib].
        + apply cget_none in G. pose proof (unk_lt n 0 m1 (PL _ (Pl n (or_introl eq_refl))) G) as U.
          destruct (IH n h1 m1 0 C1 (Pl n (or_introl eq_refl))) as (A & B & D & E & F); [lia|]. cbn zeta in *.
          destruct (clone_tg f n (h1, m1)) as [h2 m2]. cbn [fst snd] in *.
          assert (U2 : unk m2 <= f) by (pose proof (unk_mono _ _ (proj1 D)); lia).
          destruct (IHl h2 m2 A U2) as (A2 & B2 & D2 & E2); [intros b Ib; apply Pl; right; exact Ib|]. cbn zeta in *.
          split; [exact A2|]. split; [lia|]. split.
          * split; [intros x Ix; apply (proj1 D2), (proj1 D), Ix|]. intros a b Ia Na Ib.
            destruct (in_dec Nat.eq_dec a (keys m2)) as [I2|N2]; [apply (proj1 D2), (proj2 D a b I2 Na Ib)|apply (proj2 D2 a b Ia N2 Ib)].
          * intros b [<-|Ib]; [apply (proj1 D2), E|apply E2, Ib]. }
    destruct (Loop (nexts h0 origin) h1 m1 C1 U1) as (A & B & D & E); [intros b Ib; eapply PC; eassumption|]. cbn zeta in *.
    split; [exact A|].
    split; [assert (length h <= length h1) by (unfold h1; rewrite app_length; lia); lia|].
    assert (Io : In origin (keys m1)) by (apply cput_keys; auto).
    split; [|split; [apply (proj1 D), Io|exact E]]. split.
    - intros x Ix. apply (proj1 D), cput_keys. auto.
    - intros a b Ia Na Ib. destruct (Nat.eq_dec a origin) as [->|Na']; [apply E, Ib|].
      apply (proj2 D a b Ia); [|exact Ib]. intros K. apply cput_keys in K as [K|K]; auto.
  Qed.

  (** The loop over the entry points. *)
  Definition complete (m : list (nat * nat)) : Prop := forall a b, In a (keys m) -> In b (nexts h0 a) -> In b (keys m).
  Lemma clone_entries i : (forall a, In (Some a) i -> P a) -> forall h m, cinv h m -> complete m ->
    let r := fold_left (fun hm p => match p with None => hm | Some a => clone_tg (S (length h0)) a hm end) i (h, m) in
    cinv (fst r) (snd r) /\ length h <= length (fst r) /\ complete (snd r) /\ incl (keys m) (keys (snd r)) /\ (forall a, In (Some a) i -> In a (keys (snd r))).
  Proof.
    induction i as [|[a|] i IH]; intros Pi h m C K; cbn [fold_left]; cbn zeta.
    - split; [exact C|]. split; [cbn; lia|]. split; [exact K|]. split; [apply incl_refl|intros a []].
    - destruct (clone_tg_spec (S (length h0)) a h m 0 C (Pi a (or_introl eq_refl))) as (A & B & D & E & F).
      { unfold unk. pose proof (filter_le (fun b => negb (existsb (Nat.eqb b) (keys (cput a 0 m)))) (seq 0 (length h0))) as L.
        rewrite seq_length in L. lia. }
      cbn zeta in *. destruct (clone_tg (S (length h0)) a (h, m)) as [h2 m2] eqn:Ec. cbn [fst snd] in *.
      assert (K2 : complete m2).
      { intros x y Ix Iy. destruct (in_dec Nat.eq_dec x (keys m)) as [Im|Nm]; [apply (proj1 D), (K x y Im Iy)|exact (proj2 D x y Ix Nm Iy)]. }
      destruct (IH (fun x I => Pi x (or_intror I)) h2 m2 A K2) as (A2 & B2 & D2 & E2 & F2). cbn zeta in *.
      split; [exact A2|]. split; [lia|]. split; [exact D2|]. split; [intros x Ix; apply E2, (proj1 D), Ix|].
      intros x [Q|Ix]; [injection Q as <-; apply E2, E|apply F2, Ix].
    - destruct (IH (fun x I => Pi x (or_intror I)) h m C K) as (A & B & D & E & F). cbn zeta in *.
      split; [exact A|]. split; [exact B|]. split; [exact D|]. split; [exact E|]. intros x [Q|Ix]; [discriminate|apply F, Ix].
  Qed.

  (** Relinking. *)
  Lemma relink_spec m0 : forall m h, NoDup (vals m) -> (forall k v, In (k, v) m -> k < length h0 /\ length h0 <= v) ->
    frame h0 h ->
    let h' := fold_left (fun h oc => set_nexts h (snd oc) (clone_nexts m0 (nexts h (fst oc)))) m h in
    length h' = length h /\ (forall j, label h' j = label h j) /\ frame h0 h' /\
    (forall j, ~ In j (vals m) -> nexts h' j = nexts h j) /\
    (forall k v, In (k, v) m -> v < length h -> nexts h' v = clone_nexts m0 (nexts h0 k)).
  Proof.
    induction m as [|[k v] m IH]; intros h D B F; cbn [fold_left fst snd]; cbn zeta.
    - split; [reflexivity|]. split; [reflexivity|]. split; [exact F|]. split; [reflexivity|intros k v []].
    - cbn [vals map snd] in D. inversion D as [|? ? Nv D']. subst.
      destruct (B k v (or_introl eq_refl)) as [Bk Bv].
      set (h1 := set_nexts h v (clone_nexts m0 (nexts h k))).
      assert (F1 : frame h0 h1).
      { destruct F as [F1 F2]. split; [unfold h1; rewrite set_nexts_length; exact F1|]. intros a La. unfold h1, set_nexts. rewrite update_nth.
        destruct (Nat.eqb_spec a v); [lia|]. apply F2, La. }
      destruct (IH h1 D') as (I1 & I2 & I3 & I4 & I5); [intros x y I; apply B; right; exact I|exact F1|]. cbn zeta in *.
      split; [rewrite I1; apply set_nexts_length|]. split; [intros j; rewrite I2; apply set_nexts_label|]. split; [exact I3|].
      split.
      + intros j Nj. rewrite I4 by (intros K; apply Nj; right; exact K). unfold h1. rewrite set_nexts_nexts.
        destruct (Nat.eqb_spec j v) as [->|_]; [exfalso; apply Nj; left; reflexivity|reflexivity].
      + intros x y [Q|I] L.
        * injection Q as <- <-. rewrite I4 by exact Nv. unfold h1. rewrite set_nexts_nexts, Nat.eqb_refl.
          destruct (Nat.ltb_spec v (length h)); [|lia]. rewrite (frame_nexts h k F Bk). reflexivity.
        * apply I5; [exact I|]. unfold h1. rewrite set_nexts_length. exact L.
  Qed.
End Clone.

(** The result of cloning a graph. *)
Record clone_of (h : heap) (i o : points) (m : list (nat * nat)) (i' o' : points) (h' : heap) : Prop := {
  cl_frame : frame h h';
  cl_keys : NoDup (keys m);
  cl_vals : NoDup (vals m);
  cl_range : forall k v, In (k, v) m -> k < length h /\ length h <= v < length h' /\ label h' v = label h k /\ nexts h' v = clone_nexts m (nexts h k);
  cl_complete : complete h m;
  cl_entry : forall a, In (Some a) i -> In a (keys m);
  cl_i : i' = clone_points m i;
  cl_o : o' = clone_points m o }.
Lemma clone_spec h R i o : closed h R -> below h R -> (forall a, In (Some a) i -> In a R) ->
  let '(i', o', h') := clone_graph h i o in
  exists m, clone_of h i o m i' o' h' /\ incl (keys m) R /\ incl (keys m) (seen_from h i).
Proof.
  intros C B S. unfold clone_graph. destruct (reachable_closed h i) as [SC SI].
  set (P := fun a => In a R /\ In a (seen_from h i)).
  assert (PC : forall a b, P a -> In b (nexts h a) -> P b) by (intros a b [A1 A2] I; split; [eapply C|eapply SC]; eassumption).
  assert (PL : forall a, P a -> a < length h) by (intros a [A _]; apply B, A).
  destruct (clone_entries h P PC PL i) with (h := h) (m := @nil (nat * nat)) as (A1 & A2 & A3 & A4 & A5).
  - intros a Ia. split; auto.
  - split; [split; [lia|reflexivity]|constructor|constructor|intros k v []].
  - intros a b [].
  - cbn zeta in *. destruct (fold_left _ i (h, [])) as [h1 m]. cbn [fst snd] in *.
    destruct A1 as [Fr Ck Cv Ci].
    destruct (relink_spec h m m h1 Cv) as (B1 & B2 & B3 & B4 & B5).
    + intros k v I. destruct (Ci k v I) as (Pk & L & _). split; [apply PL, Pk|lia].
    + exact Fr.
    + cbn zeta in *. exists m. split; [|split].
      * split; [exact B3|exact Ck|exact Cv| |exact A3|exact A5|reflexivity|reflexivity].
        intros k v I. destruct (Ci k v I) as (Pk & L & E). split; [apply PL, Pk|]. split; [rewrite B1; exact L|]. split; [rewrite B2; exact E|].
        apply B5; [exact I|lia].
      * intros k Ik. apply in_map_iff in Ik as ((x & v) & E & I). cbn in E. subst x. apply (Ci k v I).
      * intros k Ik. apply in_map_iff in Ik as ((x & v) & E & I). cbn in E. subst x. apply (Ci k v I).
Qed.

Section CloneRuns.
  Variable W : elem -> list Z -> Prop.
  Variables (h : heap) (i o : points) (m : list (nat * nat)) (i' o' : points) (h' : heap).
  Hypothesis K : clone_of h i o m i' o' h'.
  Lemma clone_nexts_in a c : In a (keys m) -> (In c (clone_nexts m (nexts h a)) <-> exists b, In b (nexts h a) /\ In (b, c) m).
  Proof.
    intros Ia. unfold clone_nexts. rewrite in_flat_map. split.
    - intros (b & Ib & E). exists b. split; [exact Ib|]. destruct (cget b m) as [d|] eqn:G; [|destruct E].
      destruct E as [->|[]]. apply cget_pair; [apply (cl_keys _ _ _ _ _ _ _ K)|exact G].
    - intros (b & Ib & I). exists b. split; [exact Ib|]. apply cget_pair in I; [|apply (cl_keys _ _ _ _ _ _ _ K)]. rewrite I. left. reflexivity.
  Qed.
  Lemma clone_run_to a b w : run W h a b w -> forall c, In (a, c) m -> exists d, In (b, d) m /\ run W h' c d w.
  Proof.
    induction 1 as [a w N|a b d w1 w2 N E R IH]; intros c I; destruct (cl_range _ _ _ _ _ _ _ K a c I) as (L1 & L2 & L3 & L4).
    - exists c. split; [exact I|]. apply run_one. unfold nword. rewrite L3. exact N.
    - assert (Ia : In a (keys m)) by (apply (in_map fst) in I; exact I).
      pose proof (cl_complete _ _ _ _ _ _ _ K a b Ia E) as Ib. apply in_map_iff in Ib as ((x & b') & Q & Ib). cbn in Q. subst x.
      destruct (IH b' Ib) as (d' & Id & R'). exists d'. split; [exact Id|]. eapply run_cons; [unfold nword; rewrite L3; exact N| |exact R'].
      rewrite L4. apply clone_nexts_in; [exact Ia|]. eauto.
  Qed.
  Lemma clone_run_from c d w : run W h' c d w -> forall a, In (a, c) m -> exists b, In (b, d) m /\ run W h a b w.
  Proof.
    induction 1 as [c w N|c c2 d w1 w2 N E R IH]; intros a I; destruct (cl_range _ _ _ _ _ _ _ K a c I) as (L1 & L2 & L3 & L4).
    - exists a. split; [exact I|]. apply run_one. unfold nword in *. rewrite L3 in N. exact N.
    - assert (Ia : In a (keys m)) by (apply (in_map fst) in I; exact I).
      rewrite L4 in E. apply clone_nexts_in in E as (b & Ib & Ic); [|exact Ia].
      destruct (IH b Ic) as (b' & Ib' & R'). exists b'. split; [exact Ib'|]. eapply run_cons; [unfold nword in *; rewrite L3 in N; exact N|exact Ib|exact R'].
  Qed.
  Lemma nodup_vals_inj a b c : In (a, c) m -> In (b, c) m -> a = b.
  Proof.
    pose proof (cl_vals _ _ _ _ _ _ _ K) as D. clear K. induction m as [|[x y] l IH]; [intros []|].
    cbn [vals map snd] in D. inversion D as [|? ? N D']. subst. intros [E|I] [F|J].
    - congruence.
    - injection E as -> ->. exfalso. apply N. apply (in_map snd) in J. exact J.
    - injection F as -> ->. exfalso. apply N. apply (in_map snd) in I. exact I.
    - apply IH; assumption.
  Qed.
  Lemma clone_points_some l c : In (Some c) (clone_points m l) <-> exists a, In (Some a) l /\ In (a, c) m.
  Proof.
    unfold clone_points. rewrite in_map_iff. split.
    - intros ([a|] & E & I); [|discriminate]. exists a. split; [exact I|]. apply cget_pair; [apply (cl_keys _ _ _ _ _ _ _ K)|exact E].
    - intros (a & I & J). exists (Some a). split; [|exact I]. apply cget_pair; [apply (cl_keys _ _ _ _ _ _ _ K)|exact J].
  Qed.
  Lemma clone_none_i : In None i' <-> In None i.
  Proof.
    rewrite (cl_i _ _ _ _ _ _ _ K). unfold clone_points. rewrite in_map_iff. split.
    - intros ([a|] & E & I); [|exact I]. exfalso. apply (cl_entry _ _ _ _ _ _ _ K) in I. apply cget_in in I as (v & I). congruence.
    - intros I. exists None. auto.
  Qed.
  Lemma clone_none_o : In None o -> In None o'.
  Proof. rewrite (cl_o _ _ _ _ _ _ _ K). unfold clone_points. rewrite in_map_iff. intros I. exists None. auto. Qed.
  Lemma clone_between w : between W h' i' o' w <-> between W h i o w.
  Proof.
    rewrite (cl_i _ _ _ _ _ _ _ K), (cl_o _ _ _ _ _ _ _ K). unfold between, upto. split.
    - intros (d & Id & c & Ic & R). apply clone_points_some in Id as (b & Ib & Mb). apply clone_points_some in Ic as (a & Ia & Ma).
      destruct (clone_run_from _ _ _ R a Ma) as (b' & Mb' & R'). rewrite (nodup_vals_inj _ _ _ Mb Mb') in *. exists b'. split; [exact Ib|]. eauto.
    - intros (b & Ib & a & Ia & R). pose proof (cl_entry _ _ _ _ _ _ _ K a Ia) as Ka. apply in_map_iff in Ka as ((x & c) & Q & Ka). cbn in Q. subst x.
      destruct (clone_run_to _ _ _ R c Ka) as (d & Id & R'). exists d. split; [apply clone_points_some; eauto|]. exists c. split; [apply clone_points_some; eauto|exact R'].
  Qed.
  Lemma clone_region : closed h' (vals m) /\ NoDup (vals m) /\ (forall c, In c (vals m) -> length h <= c < length h') /\
    (forall c, In (Some c) i' -> In c (vals m)) /\ (forall c, In (Some c) o' -> In c (vals m)).
  Proof.
    split; [|split; [apply (cl_vals _ _ _ _ _ _ _ K)|split; [|split]]].
    - intros c d Ic E. apply in_map_iff in Ic as ((a & x) & Q & Ic). cbn in Q. subst x.
      destruct (cl_range _ _ _ _ _ _ _ K a c Ic) as (L1 & L2 & L3 & L4). rewrite L4 in E.
      apply clone_nexts_in in E as (b & Ib & Id); [|apply (in_map fst) in Ic; exact Ic]. apply (in_map snd) in Id. exact Id.
    - intros c Ic. apply in_map_iff in Ic as ((a & x) & Q & Ic). cbn in Q. subst x. apply (cl_range _ _ _ _ _ _ _ K a c Ic).
    - intros c I. rewrite (cl_i _ _ _ _ _ _ _ K) in I. apply clone_points_some in I as (a & _ & I). apply (in_map snd) in I. exact I.
    - intros c I. rewrite (cl_o _ _ _ _ _ _ _ K) in I. apply clone_points_some in I as (a & _ & I). apply (in_map snd) in I. exact I.
  Qed.
End CloneRuns.
