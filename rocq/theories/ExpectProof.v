(** The states of ExpectedNext and the paths of the graph.
    Its definitions are means of proof and model no code. *)
From Coq Require Import ZArith Arith String Bool List Lia.
From Verif Require Import Syntax Spec Num Utf8 Graph GraphSpec Walk Expect.
Import ListNotations.
Local Open Scope nat_scope.
Local Open Scope list_scope.

Definition em_at (ems : nat -> em_result) (n i : nat) : option emission := match ems n with Em_ok es => nth_error es i | _ => None end.
Definition em_fine (ems : nat -> em_result) (n : nat) : Prop := exists es, ems n = Em_ok es.
(** A word matches an emission. *)
Definition em_match (em : emission) (w : list Z) : Prop := Forall2 (fun (s : octets) b => s b = true) em w.

Section Run.
  Variables (t : tgraph) (ems : nat -> em_result).
  Definition reads (s : state) (b : Z) (em : emission) : Prop :=
    let '(n, i, p) := s in em_at ems n i = Some em /\ exists o, nth_error em p = Some o /\ o b = true.
  Definition step (b : Z) (s s' : state) : Prop :=
    let '(n, i, p) := s in exists em, reads s b em /\
      (S p < length em /\ s' = (n, i, S p) \/
       S p = length em /\ exists m j em2, In m (nexts (tg_heap t) n) /\ em_at ems m j = Some em2 /\ em2 <> [] /\ s' = (m, j, 0)).
  Definition ends_on (b : Z) (s : state) (n : nat) : Prop :=
    let '(n', i, p) := s in n' = n /\ exists em, reads s b em /\ S p = length em.
  Inductive walked : list Z -> state -> Prop :=
  | wk_entry n i em : In (Some n) (tg_entry t) -> em_at ems n i = Some em -> em <> [] -> walked [] (n, i, 0)
  | wk_step u b s s' : walked u s -> step b s s' -> walked (u ++ [b]) s'.
  Definition done (u : list Z) (n : nat) : Prop := exists u' b s, u = u' ++ [b] /\ walked u' s /\ ends_on b s n.

  Lemma octets_at_reads s b : octets_at ems s b = true <-> exists em, reads s b em.
  Proof.
    destruct s as [[n i] p]. cbn [octets_at emission_of reads]. unfold em_at. destruct (ems n) as [es| |].
    - split.
      + intros E. destruct (nth_error es i) as [em|] eqn:Ei.
        * rewrite (nth_error_nth es i [] Ei) in E. exists em. split; [reflexivity|]. destruct (nth_error em p) as [o|] eqn:Ep.
          -- rewrite (nth_error_nth em p no_octet Ep) in E. exists o. split; [reflexivity|exact E].
          -- apply nth_error_None in Ep. rewrite nth_overflow in E by exact Ep. discriminate.
        * apply nth_error_None in Ei. rewrite (nth_overflow es []) in E by exact Ei. destruct p; discriminate.
      + intros (em & Ei & o & Ep & Eo). rewrite (nth_error_nth es i [] Ei), (nth_error_nth em p no_octet Ep). exact Eo.
    - split; [destruct p; discriminate|]. intros (em & Q & _). discriminate.
    - split; [destruct p; discriminate|]. intros (em & Q & _). discriminate.
  Qed.
  Lemma reads_emission s b em : reads s b em -> emission_of ems s = em.
  Proof.
    destruct s as [[n i] p]. cbn [reads emission_of]. unfold em_at. destruct (ems n) as [es| |]; try (intros [Q _]; discriminate).
    intros [Ei _]. apply (nth_error_nth es i [] Ei).
  Qed.
  Lemma eq_state_spec x y : eq_state x y = true <-> x = y.
  Proof.
    destruct x as [[n i] p], y as [[n' i'] p']. cbn [eq_state]. rewrite !andb_true_iff, !Nat.eqb_eq. split; [intros [[-> ->] ->]; reflexivity|].
    intros Q. injection Q as -> -> ->. auto.
  Qed.
  Lemma push_state_in l s x : In x (push_state l s) <-> In x l \/ x = s.
  Proof.
    unfold push_state. destruct (existsb (eq_state s) l) eqn:E.
    - split; [auto|]. intros [H| ->]; [exact H|]. apply existsb_exists in E as (y & I & Q). apply eq_state_spec in Q as ->. exact I.
    - rewrite in_app_iff. cbn [In]. split; [intros [H|[H|[]]]; auto|intros [H|H]; auto].
  Qed.
  Lemma push_all_in n es : forall i l x, In x (push_all n i es l) <-> In x l \/ exists j em, nth_error es j = Some em /\ em <> [] /\ x = (n, i + j, 0).
  Proof.
    induction es as [|em es IH]; intros i l x.
    - split; [auto|]. intros [H|(j & em & Q & _)]; [exact H|]. destruct j; discriminate.
    - assert (X : In x (push_all n (S i) es (match em with [] => l | _ => push_state l (n, i, 0) end)) <->
        In x l \/ exists j em0, nth_error (em :: es) j = Some em0 /\ em0 <> [] /\ x = (n, i + j, 0)).
      { rewrite IH. split.
        - intros [H|(j & em0 & E & N & ->)].
          + destruct em as [|o em]; [auto|]. apply push_state_in in H as [H| ->]; [auto|]. right. exists 0, (o :: em). split; [reflexivity|]. split; [discriminate|]. rewrite Nat.add_0_r. reflexivity.
          + right. exists (S j), em0. split; [exact E|]. split; [exact N|]. rewrite Nat.add_succ_r. reflexivity.
        - intros [H|([|j] & em0 & E & N & ->)].
          + left. destruct em as [|o em]; [exact H|]. apply push_state_in. auto.
          + injection E as <-. left. destruct em as [|o em]; [contradiction|]. apply push_state_in. right. rewrite Nat.add_0_r. reflexivity.
          + right. exists j, em0. split; [exact E|]. split; [exact N|]. rewrite Nat.add_succ_r. reflexivity. }
      destruct em; exact X.
  Qed.
  (** The states at the start of a node. *)
  Definition opens (n : nat) (s : state) : Prop := exists j em, em_at ems n j = Some em /\ em <> [] /\ s = (n, j, 0).
  Lemma start_in ns : forall l l', start ems ns l = St_ok l' ->
    (forall x, In x l' <-> In x l \/ exists n, In n ns /\ opens n x) /\ forall n, In n ns -> em_fine ems n.
  Proof.
    induction ns as [|n ns IH]; intros l l' E; cbn [start] in E.
    - injection E as <-. split; [|intros n []]. intros x. split; [auto|]. intros [H|(n & [] & _)]. exact H.
    - destruct (ems n) as [es| |] eqn:En; try discriminate. destruct (IH _ _ E) as [H1 H2]. split.
      + intros x. rewrite H1, push_all_in. split.
        * intros [[H|(j & em & Ej & N & ->)]|(m & Im & O)]; [auto| |right; exists m; split; [right; exact Im|exact O]].
          right. exists n. split; [left; reflexivity|]. exists j, em. unfold em_at. rewrite En. auto.
        * intros [H|(m & [<-|Im] & O)]; [auto| |right; exists m; auto]. left. right. destruct O as (j & em & Ej & N & ->). unfold em_at in Ej. rewrite En in Ej. exists j, em. auto.
      + intros m [<-|Im]; [exists es; exact En|apply H2, Im].
  Qed.
  Lemma start_total ns l : (forall n, In n ns -> em_fine ems n) -> exists l', start ems ns l = St_ok l'.
  Proof.
    revert l. induction ns as [|n ns IH]; intros l H; [exists l; reflexivity|]. cbn [start]. destruct (H n (or_introl eq_refl)) as (es & ->).
    apply IH. intros m Im. apply H. right. exact Im.
  Qed.
  Lemma eq_point_in n l : existsb (eq_point (Some n)) l = true <-> In (Some n) l.
  Proof.
    rewrite existsb_exists. split.
    - intros ([m|] & I & Q); cbn [eq_point] in Q; [|discriminate]. apply Nat.eqb_eq in Q as <-. exact I.
    - intros I. exists (Some n). split; [exact I|]. cbn [eq_point]. apply Nat.eqb_refl.
  Qed.
  Lemma reads_det s b em b' em' : reads s b em -> reads s b' em' -> em = em'.
  Proof. intros H H'. rewrite <- (reads_emission _ _ _ H). exact (reads_emission _ _ _ H'). Qed.
  Lemma feed_spec b ready : forall next last next' last', feed t ems b ready next last = St_ok (next', last') ->
    (forall x, In x next' <-> In x next \/ exists s, In s ready /\ step b s x) /\
    (last' = true <-> last = true \/ exists s n, In s ready /\ ends_on b s n /\ In (Some n) (tg_ends t)) /\
    (forall s n m, In s ready -> ends_on b s n -> In m (nexts (tg_heap t) n) -> em_fine ems m).
  Proof.
    induction ready as [|[[n i] p] ready IH]; intros next last next' last' E; cbn [feed] in E.
    - injection E as <- <-. split; [|split].
      + intros x. split; [auto|]. intros [H|(s & [] & _)]. exact H.
      + split; [auto|]. intros [H|(s & n & [] & _)]. exact H.
      + intros s n m [].
    - destruct (octets_at ems (n, i, p) b) eqn:Eo.
      + apply octets_at_reads in Eo as (em & R). rewrite (reads_emission _ _ _ R) in E.
        destruct (Nat.eqb_spec (S p) (length em)) as [Ep|Ep].
        * destruct (start ems (nexts (tg_heap t) n) next) as [next1| |] eqn:Es; try discriminate. destruct (start_in _ _ _ Es) as [S1 S2].
          destruct (IH _ _ _ _ E) as (H1 & H2 & H3). split; [|split].
          -- intros x. rewrite H1, S1. split.
             ++ intros [[H|(m & Im & j & em2 & Ej & N & ->)]|(s & Is & St)]; [auto| |right; exists s; split; [right; exact Is|exact St]].
                right. exists (n, i, p). split; [left; reflexivity|]. exists em. split; [exact R|]. right. split; [exact Ep|]. exists m, j, em2. auto.
             ++ intros [H|(s & [<-|Is] & St)]; [auto| |right; exists s; auto]. destruct St as (em' & R' & C). rewrite (reads_det _ _ _ _ _ R' R) in C.
                destruct C as [[C _]|(_ & m & j & em2 & Im & Ej & N & ->)]; [lia|]. left. right. exists m. split; [exact Im|]. exists j, em2. auto.
          -- rewrite H2, orb_true_iff, eq_point_in. split.
             ++ intros [[H|H]|(s & m & Is & D & En)]; [auto| |right; exists s, m; split; [right; exact Is|auto]].
                right. exists (n, i, p), n. split; [left; reflexivity|]. split; [|exact H]. split; [reflexivity|]. exists em. auto.
             ++ intros [H|(s & m & [<-|Is] & D & En)]; [auto| |right; exists s, m; auto]. destruct D as [<- _]. auto.
          -- intros s m m' [<-|Is] D Im; [|exact (H3 s m m' Is D Im)]. destruct D as [<- _]. apply S2, Im.
        * destruct (IH _ _ _ _ E) as (H1 & H2 & H3). assert (Lp : p < length em).
          { destruct R as (_ & o & Q & _). apply nth_error_Some. congruence. }
          split; [|split].
          -- intros x. rewrite H1, push_state_in. split.
             ++ intros [[H| ->]|(s & Is & St)]; [auto| |right; exists s; split; [right; exact Is|exact St]].
                right. exists (n, i, p). split; [left; reflexivity|]. exists em. split; [exact R|]. left. split; [lia|reflexivity].
             ++ intros [H|(s & [<-|Is] & St)]; [auto| |right; exists s; auto]. destruct St as (em' & R' & C). rewrite (reads_det _ _ _ _ _ R' R) in C.
                destruct C as [[_ ->]|[C _]]; [auto|lia].
          -- rewrite H2. split; [intros [H|(s & m & Is & D)]; [auto|right; exists s, m; split; [right; exact Is|exact D]]|].
             intros [H|(s & m & [<-|Is] & D & En)]; [auto| |right; exists s, m; auto]. destruct D as (_ & em' & R' & C). rewrite (reads_det _ _ _ _ _ R' R) in C. lia.
          -- intros s m m' [<-|Is] D Im; [|exact (H3 s m m' Is D Im)]. destruct D as (_ & em' & R' & C). rewrite (reads_det _ _ _ _ _ R' R) in C. lia.
      + assert (No : forall em, ~ reads (n, i, p) b em).
        { intros em R. assert (Q : octets_at ems (n, i, p) b = true) by (apply octets_at_reads; exists em; exact R). congruence. }
        destruct (IH _ _ _ _ E) as (H1 & H2 & H3). split; [|split].
        * intros x. rewrite H1. split; [intros [H|(s & Is & St)]; [auto|right; exists s; split; [right; exact Is|exact St]]|].
          intros [H|(s & [<-|Is] & St)]; [auto| |right; exists s; auto]. destruct St as (em' & R' & _). destruct (No _ R').
        * rewrite H2. split; [intros [H|(s & m & Is & D)]; [auto|right; exists s, m; split; [right; exact Is|exact D]]|].
          intros [H|(s & m & [<-|Is] & D & En)]; [auto| |right; exists s, m; auto]. destruct D as (_ & em' & R' & _). destruct (No _ R').
        * intros s m m' [<-|Is] D Im; [|exact (H3 s m m' Is D Im)]. destruct D as (_ & em' & R' & _). destruct (No _ R').
  Qed.
  Lemma feed_total b ready : (forall s n m, In s ready -> ends_on b s n -> In m (nexts (tg_heap t) n) -> em_fine ems m) ->
    forall next last, exists r, feed t ems b ready next last = St_ok r.
  Proof.
    induction ready as [|[[n i] p] ready IH]; intros H next last; cbn [feed]; [eexists; reflexivity|].
    assert (H' : forall s n m, In s ready -> ends_on b s n -> In m (nexts (tg_heap t) n) -> em_fine ems m) by (intros s a m Is; apply (H s a m); right; exact Is).
    destruct (octets_at ems (n, i, p) b) eqn:Eo; [|apply IH; exact H'].
    apply octets_at_reads in Eo as (em & R). rewrite (reads_emission _ _ _ R). destruct (Nat.eqb_spec (S p) (length em)) as [Ep|Ep]; [|apply IH; exact H'].
    destruct (start_total (nexts (tg_heap t) n) next) as (l & ->); [|apply IH; exact H'].
    intros m Im. apply (H (n, i, p) n m); [left; reflexivity| |exact Im]. split; [reflexivity|]. exists em. auto.
  Qed.

  Lemma walked_snoc u b x : walked (u ++ [b]) x <-> exists s, walked u s /\ step b s x.
  Proof.
    split; [|intros (s & W & St); exact (wk_step _ _ _ _ W St)].
    intros W. inversion W as [? ? ? ? ? ? Q|u' b' s s' W' St Q]; [destruct u; discriminate|].
    apply app_inj_tail in Q as [-> ->]. exists s. auto.
  Qed.
  Lemma done_snoc u b n : done (u ++ [b]) n <-> exists s, walked u s /\ ends_on b s n.
  Proof.
    split; [|intros (s & W & D); exists u, b, s; auto].
    intros (u' & b' & s & Q & W & D). apply app_inj_tail in Q as [-> ->]. exists s. auto.
  Qed.
  Lemma walked_longer u v x : walked (u ++ v) x -> exists y, walked u y.
  Proof.
    revert x. induction v as [|b v IH] using rev_ind; intros x W; [rewrite app_nil_r in W; exists x; exact W|].
    rewrite app_assoc in W. apply walked_snoc in W as (s & W & _). exact (IH s W).
  Qed.
  Definition finished (u : list Z) : Prop := exists n, done u n /\ In (Some n) (tg_ends t).
  Lemma octet_list_in s b : In b (octet_list s) <-> (0 <= b < 256)%Z /\ s b = true.
  Proof.
    unfold octet_list. rewrite filter_In, in_map_iff. split.
    - intros [(k & <- & I) E]. apply in_seq in I. split; [lia|exact E].
    - intros [B E]. split; [|exact E]. exists (Z.to_nat b). split; [lia|]. apply in_seq. lia.
  Qed.
  Lemma next_octets_in ready b : In b (next_octets ems ready) <-> (0 <= b < 256)%Z /\ exists s, In s ready /\ octets_at ems s b = true.
  Proof. unfold next_octets. rewrite octet_list_in, existsb_exists. reflexivity. Qed.
  Lemma consume_spec prefix : forall u ready last nx acc, (forall x, In x ready <-> walked u x) ->
    consume t ems prefix ready last = En_ok nx acc ->
    (forall b, In b nx <-> (0 <= b < 256)%Z /\ exists s, walked (u ++ prefix) s /\ octets_at ems s b = true) /\
    match prefix with [] => acc = last | _ => (acc = true <-> finished (u ++ prefix)) end /\
    (forall v v' n m, prefix = v ++ v' -> v <> [] -> done (u ++ v) n -> In m (nexts (tg_heap t) n) -> em_fine ems m).
  Proof.
    induction prefix as [|b prefix IH]; intros u ready last nx acc Hr E; cbn [consume] in E.
    - injection E as <- <-. rewrite app_nil_r. split; [|split].
      + intros b. rewrite next_octets_in. split; (intros [B (s & H & Q)]; split; [exact B|]; exists s; split; [apply Hr, H|exact Q]).
      + reflexivity.
      + intros v v' n m Q. symmetry in Q. apply app_eq_nil in Q as [-> _]. contradiction.
    - destruct (feed t ems b ready [] false) as [[ready' last']| |] eqn:F; try discriminate.
      destruct (feed_spec _ _ _ _ _ _ F) as (F1 & F2 & F3).
      assert (Hr' : forall x, In x ready' <-> walked (u ++ [b]) x).
      { intros x. rewrite F1, walked_snoc. split.
        - intros [[]|(s & Is & St)]. exists s. split; [apply Hr, Is|exact St].
        - intros (s & W & St). right. exists s. split; [apply Hr, W|exact St]. }
      assert (Hl' : last' = true <-> finished (u ++ [b])).
      { rewrite F2. split.
        - intros [Q|(s & n & Is & D & En)]; [discriminate|]. exists n. split; [|exact En]. apply done_snoc. exists s. split; [apply Hr, Is|exact D].
        - intros (n & D & En). apply done_snoc in D as (s & W & D). right. exists s, n. split; [apply Hr, W|auto]. }
      assert (Hf : forall n m, done (u ++ [b]) n -> In m (nexts (tg_heap t) n) -> em_fine ems m).
      { intros n m D Im. apply done_snoc in D as (s & W & D). apply (F3 s n m); [apply Hr, W|exact D|exact Im]. }
      assert (X : consume t ems prefix ready' last' = En_ok nx acc /\ ready' <> [] \/ ready' = [] /\ nx = [] /\ (acc = match prefix with [] => last' | _ => false end)).
      { destruct ready' as [|x ready']; [right|left; split; [exact E|discriminate]]. destruct prefix; injection E as <- <-; auto. }
      destruct X as [[E' _]|(-> & -> & Ea)].
      + destruct (IH (u ++ [b]) ready' last' nx acc Hr' E') as (G1 & G2 & G3). setoid_rewrite <- app_assoc in G1. cbn [app] in G1.
        split; [exact G1|]. split.
        * destruct prefix as [|c prefix]; [rewrite G2; exact Hl'|]. rewrite <- app_assoc in G2. exact G2.
        * intros v v' n m Q N D Im. destruct v as [|b' v]; [contradiction|]. injection Q as <- Q. destruct v as [|c v]; [exact (Hf n m D Im)|].
          apply (G3 (c :: v) v' n m Q); [discriminate| |exact Im]. rewrite <- app_assoc. exact D.
      + assert (No : forall v s, ~ walked (u ++ b :: v) s).
        { intros v s W. change (b :: v) with ([b] ++ v) in W. rewrite app_assoc in W. apply walked_longer in W as (y & W). apply Hr' in W as []. }
        assert (Nd : forall v n, v <> [] -> ~ done (u ++ b :: v) n).
        { intros v n Nv D. destruct (exists_last Nv) as (v0 & c & ->). rewrite app_comm_cons, app_assoc in D. apply done_snoc in D as (s & W & _). exact (No _ _ W). }
        split; [|split].
        * intros b'. split; [intros []|]. intros [_ (s & W & _)]. destruct (No _ _ W).
        * rewrite Ea. destruct prefix as [|c prefix]; [exact Hl'|]. split; [discriminate|]. intros (n & D & _). destruct (Nd (c :: prefix) n ltac:(discriminate) D).
        * intros v v' n m Q N D Im. destruct v as [|b' v]; [contradiction|]. injection Q as <- Q. destruct v as [|c v]; [exact (Hf n m D Im)|].
          destruct (Nd (c :: v) n ltac:(discriminate) D).
  Qed.
  Lemma consume_total prefix : forall u ready last, (forall x, In x ready <-> walked u x) ->
    (forall v n m, done v n -> In m (nexts (tg_heap t) n) -> em_fine ems m) -> exists nx acc, consume t ems prefix ready last = En_ok nx acc.
  Proof.
    induction prefix as [|b prefix IH]; intros u ready last Hr Hf; cbn [consume]; [eexists; eexists; reflexivity|].
    destruct (feed_total b ready) with (next := @nil state) (last := false) as ([ready' last'] & E).
    { intros s n m Is D. apply (Hf (u ++ [b])). apply done_snoc. exists s. split; [apply Hr, Is|exact D]. }
    rewrite E. destruct (feed_spec _ _ _ _ _ _ E) as (F1 & _ & _).
    destruct ready' as [|x ready']; [destruct prefix; eexists; eexists; reflexivity|].
    apply (IH (u ++ [b])); [|exact Hf]. intros y. rewrite F1, walked_snoc. split.
    - intros [[]|(s & Is & St)]. exists s. split; [apply Hr, Is|exact St].
    - intros (s & W & St). right. exists s. split; [apply Hr, W|exact St].
  Qed.

  (** ** States and paths *)
  Definition em_word (a : nat) (w : list Z) : Prop := exists i em, em_at ems a i = Some em /\ em_match em w.
  (** A walk from an entry point that leaves towards n. *)
  Definition leads (s : list nat) (n : nat) : Prop :=
    match s with [] => In (Some n) (tg_entry t) | a :: _ => In (Some a) (tg_entry t) /\ linked (tg_heap t) (s ++ [n]) end.
  Lemma linked_end h q : forall a b, linked h (q ++ [a]) -> In b (nexts h a) -> linked h ((q ++ [a]) ++ [b]).
  Proof.
    induction q as [|x q IH]; intros a b L I; cbn [app] in *; [split; [exact I|exact Logic.I]|].
    destruct q as [|y q]; cbn [app] in *.
    - destruct L as [L1 L2]. split; [exact L1|]. split; [exact I|exact Logic.I].
    - destruct L as [L1 L2]. split; [exact L1|]. apply IH; assumption.
  Qed.
  Lemma leads_end s n m : leads s n -> In m (nexts (tg_heap t) n) -> leads (s ++ [n]) m.
  Proof.
    destruct s as [|a s]; intros L I; cbn [leads app] in *; [split; [exact L|]; split; [exact I|exact Logic.I]|].
    destruct L as [L1 L2]. split; [exact L1|]. apply (linked_end _ (a :: s) n m L2 I).
  Qed.
  Lemma match_firstn em p v o b : em_match (firstn p em) v -> nth_error em p = Some o -> o b = true -> em_match (firstn (S p) em) (v ++ [b]).
  Proof.
    intros M E Q. assert (X : firstn (S p) em = firstn p em ++ [o]).
    { clear -E. revert p E. induction em as [|x em IH]; intros [|p] E; try discriminate; cbn [firstn app nth_error] in *; [congruence|]. f_equal. apply IH, E. }
    rewrite X. apply Forall2_app; [exact M|]. constructor; [exact Q|constructor].
  Qed.
  Lemma walked_path u s : walked u s -> let '(n, i, p) := s in exists q ws v em, leads q n /\ Forall2 em_word q ws /\ Forall (fun w => w <> []) ws /\
    u = concat ws ++ v /\ length v = p /\ em_at ems n i = Some em /\ p < length em /\ em_match (firstn p em) v.
  Proof.
    induction 1 as [n i em Ie Ee N|u b [[n i] p] s' W IH St].
    - exists [], [], [], em. cbn [leads concat app length firstn]. destruct em; [contradiction|]. cbn [length]. repeat (split; [first [assumption|reflexivity|lia|constructor]|]).
      constructor.
    - destruct IH as (q & ws & v & em & L & F & Fn & -> & Lv & Ee & Lp & M). destruct St as (em' & (Ee' & o & Eo & Eb) & C).
      rewrite Ee in Ee'. injection Ee' as <-. pose proof (match_firstn _ _ _ _ _ M Eo Eb) as M'. destruct C as [[C ->]|(C & m & j & em2 & Im & Em & N & ->)].
      + exists q, ws, (v ++ [b]), em. rewrite <- app_assoc. rewrite app_length. cbn [length]. repeat (split; [first [assumption|reflexivity|lia]|]). exact M'.
      + exists (q ++ [n]), (ws ++ [v ++ [b]]), [], em2. split; [apply leads_end; assumption|]. split; [|split; [|split; [|split; [reflexivity|split; [exact Em|split]]]]].
        * apply Forall2_app; [exact F|]. constructor; [|constructor]. exists i, em. split; [exact Ee|]. rewrite C, firstn_all in M'. exact M'.
        * apply Forall_app. split; [exact Fn|]. constructor; [destruct v; discriminate|constructor].
        * rewrite concat_app. cbn [concat]. rewrite !app_nil_r, <- app_assoc. reflexivity.
        * destruct em2; [contradiction|]. cbn [length]. lia.
        * constructor.
  Qed.
  Lemma done_path u n : done u n -> exists q ws, leads q n /\ Forall2 em_word (q ++ [n]) ws /\ Forall (fun w => w <> []) ws /\ u = concat ws.
  Proof.
    intros (u' & b & [[n' i] p] & -> & W & -> & em' & (Ee' & o & Eo & Eb) & C). apply walked_path in W as (q & ws & v & em & L & F & Fn & -> & Lv & Ee & Lp & M).
    rewrite Ee in Ee'. injection Ee' as <-. pose proof (match_firstn _ _ _ _ _ M Eo Eb) as M'. rewrite C, firstn_all in M'.
    exists q, (ws ++ [v ++ [b]]). split; [exact L|]. split; [apply Forall2_app; [exact F|]; constructor; [|constructor]; exists i, em; auto|].
    split; [apply Forall_app; split; [exact Fn|]; constructor; [destruct v; discriminate|constructor]|].
    rewrite concat_app. cbn [concat]. rewrite app_nil_r, <- app_assoc. reflexivity.
  Qed.
  (** From the start of a node, along an emission. *)
  Lemma forall2_nth {A B} (R : A -> B -> Prop) l l' : Forall2 R l l' -> forall k y, nth_error l' k = Some y -> exists x, nth_error l k = Some x /\ R x y.
  Proof. induction 1 as [|x y l l' H F IH]; intros [|k] z E; try discriminate; [injection E as <-; exists x; auto|exact (IH k z E)]. Qed.
  Lemma match_length em w : em_match em w -> length em = length w.
  Proof. induction 1; cbn [length]; congruence. Qed.
  Lemma along u n i em w : walked u (n, i, 0) -> em_at ems n i = Some em -> em_match em w ->
    forall x b y, w = x ++ b :: y -> walked (u ++ x) (n, i, length x) /\ reads (n, i, length x) b em.
  Proof.
    intros W E M x. assert (R : forall x b y, w = x ++ b :: y -> reads (n, i, length x) b em).
    { clear x. intros x b y ->. split; [exact E|]. destruct (forall2_nth _ _ _ M (length x) b) as (o & Eo & Q); [|exists o; auto].
      rewrite nth_error_app2, Nat.sub_diag by lia. reflexivity. }
    induction x as [|c x IH] using rev_ind; intros b y Q.
    - cbn [app length] in *. rewrite app_nil_r. split; [exact W|]. exact (R [] b y Q).
    - split; [|exact (R _ b y Q)]. rewrite <- app_assoc in Q. cbn [app] in Q. destruct (IH c (b :: y) Q) as [W' R']. rewrite app_assoc, app_length. cbn [length].
      rewrite Nat.add_1_r. apply (wk_step _ _ _ _ W'). exists em. split; [exact R'|]. left. split; [|reflexivity].
      rewrite (match_length _ _ M), Q, app_length. cbn [length]. lia.
  Qed.
  (** Words along a path are followed. *)
  Lemma follow prefix rest : (forall v v' n m, prefix = v ++ v' -> v <> [] -> done v n -> In m (nexts (tg_heap t) n) -> em_fine ems m) ->
    forall q a ws u v, linked (tg_heap t) (a :: q) -> em_fine ems a -> (forall s, opens a s -> walked u s) ->
    Forall2 (fun a w => em_fine ems a -> em_word a w) (a :: q) ws -> Forall (fun w => w <> []) ws ->
    prefix = u ++ v -> concat ws = v ++ rest ->
    (rest = [] -> done prefix (last (a :: q) a)) /\
    (forall b r, rest = b :: r -> exists s, walked prefix s /\ octets_at ems s b = true).
  Proof.
    intros Hf q. induction q as [|m q IH]; intros a ws u v L Fa Wa F Fn Ep Ew.
    - inversion F as [|? w ? ? Fw F']; subst. inversion F'; subst. inversion Fn as [|? ? Nw _]; subst. destruct (Fw Fa) as (i & em & Ei & M).
      cbn [concat] in Ew. rewrite app_nil_r in Ew. subst w.
      assert (Ne : em <> []) by (intros ->; inversion M as [Q|]; destruct v; [destruct rest; [contradiction|discriminate]|discriminate]).
      assert (W0 : walked u (a, i, 0)) by (apply Wa; exists i, em; auto). split.
      + intros ->. rewrite app_nil_r in *. destruct (exists_last Nw) as (x & b & ->). destruct (along _ _ _ _ _ W0 Ei M x b []) as [W R]; [reflexivity|].
        rewrite app_assoc. exists (u ++ x), b, (a, i, length x). split; [reflexivity|]. split; [exact W|]. split; [reflexivity|]. exists em. split; [exact R|].
        rewrite (match_length _ _ M), app_length. cbn [length]. lia.
      + intros b r ->. destruct (along _ _ _ _ _ W0 Ei M v b r) as [W R]; [reflexivity|]. exists (a, i, length v). split; [exact W|]. apply octets_at_reads. exists em. exact R.
    - inversion F as [|? w ? ws' Fw F']; subst. inversion Fn as [|? ? Nw Fn']; subst. destruct (Fw Fa) as (i & em & Ei & M). cbn [concat] in Ew.
      assert (Ne : em <> []) by (intros ->; inversion M; subst; contradiction).
      assert (W0 : walked u (a, i, 0)) by (apply Wa; exists i, em; auto). destruct L as [L1 L2].
      destruct (Nat.le_gt_cases (length w) (length v)) as [Le|Gt].
      + assert (X : exists v', v = w ++ v' /\ concat ws' = v' ++ rest).
        { clear -Ew Le. revert v Ew Le. induction w as [|c w IHw]; intros v Ew Le; cbn [app] in *; [exists v; auto|].
          destruct v as [|d v]; cbn [length app] in *; [lia|]. injection Ew as -> Ew. destruct (IHw v Ew ltac:(lia)) as (v' & -> & Q). exists v'. auto. }
        destruct X as (v' & -> & Ew').
        assert (D : done (u ++ w) a).
        { destruct (exists_last Nw) as (x & b & ->). destruct (along _ _ _ _ _ W0 Ei M x b []) as [W R]; [reflexivity|].
          rewrite app_assoc. exists (u ++ x), b, (a, i, length x). split; [reflexivity|]. split; [exact W|]. split; [reflexivity|]. exists em. split; [exact R|].
          rewrite (match_length _ _ M), app_length. cbn [length]. lia. }
        assert (Fm : em_fine ems m) by (apply (Hf (u ++ w) v' a m); [rewrite app_assoc; reflexivity|destruct u; [exact Nw|discriminate]|exact D|exact L1]).
        assert (Wm : forall s, opens m s -> walked (u ++ w) s).
        { intros s (j & em2 & Ej & N2 & ->). destruct (exists_last Nw) as (x & b & ->). destruct (along _ _ _ _ _ W0 Ei M x b []) as [W R]; [reflexivity|].
          rewrite app_assoc. apply (wk_step _ _ _ _ W). exists em. split; [exact R|]. right. split.
          - rewrite (match_length _ _ M), app_length. cbn [length]. lia.
          - exists m, j, em2. auto. }
        destruct (IH m ws' (u ++ w) v' L2 Fm Wm F' Fn' (app_assoc _ _ _) Ew') as [I1 I2]. split; [|exact I2].
        intros R0. specialize (I1 R0). assert (Ql : last (a :: m :: q) a = last (m :: q) m).
        { change (last (m :: q) a = last (m :: q) m). clear. revert m. induction q as [|y q IHq]; intros m; [reflexivity|]. change (last (y :: q) a = last (y :: q) m). rewrite (IHq y).
          clear. revert y m. induction q as [|z q IHq]; intros y m; [reflexivity|]. change (last (z :: q) y = last (z :: q) m). rewrite <- (IHq z y), <- (IHq z m). reflexivity. }
        rewrite Ql. exact I1.
      + assert (X : exists b r', w = v ++ b :: r' /\ exists r, rest = b :: r).
        { clear -Ew Gt. revert w Ew Gt. induction v as [|c v IHv]; intros w Ew Gt; cbn [app length] in *.
          - destruct w as [|b w]; cbn [length] in Gt; [lia|]. exists b, w. split; [reflexivity|]. exists (w ++ concat ws'). symmetry. exact Ew.
          - destruct w as [|d w]; cbn [length app] in *; [lia|]. injection Ew as -> Ew. destruct (IHv w Ew ltac:(lia)) as (b & r' & -> & R). exists b, r'. auto. }
        destruct X as (b0 & r' & -> & r0 & ->). split; [discriminate|]. intros b r Q. injection Q as <- _.
        destruct (along _ _ _ _ _ W0 Ei M v b0 r') as [W R]; [reflexivity|]. exists (a, i, length v). split; [exact W|]. apply octets_at_reads. exists em. exact R.
  Qed.
End Run.

Definition ems_of (ord : nat -> list emission -> list emission) (t : tgraph) (n : nat) : em_result := node_emissions (ord n) (elem_at (tg_heap t) n).
Lemma somes_in l n : In n (somes l) <-> In (Some n) l.
Proof.
  unfold somes. rewrite in_flat_map. split.
  - intros ([m|] & I & Q); [destruct Q as [<-|[]]; exact I|destruct Q].
  - intros I. exists (Some n). split; [exact I|left; reflexivity].
Qed.
Lemma has_empty_in l : has_empty l = true <-> In None l.
Proof.
  unfold has_empty. rewrite existsb_exists. split; [intros ([m|] & I & Q); [discriminate|exact I]|intros I; exists None; auto].
Qed.
(** What ExpectedNext computes. *)
Lemma expected_spec ord t prefix nx acc : expected_next ord t prefix = En_ok nx acc ->
  (forall b, In b nx <-> (0 <= b < 256)%Z /\ exists s, walked t (ems_of ord t) prefix s /\ octets_at (ems_of ord t) s b = true) /\
  (acc = true <-> if prefix then In None (tg_ends t) else finished t (ems_of ord t) prefix) /\
  (forall n, In (Some n) (tg_entry t) -> em_fine (ems_of ord t) n) /\
  (forall v v' n m, prefix = v ++ v' -> v <> [] -> done t (ems_of ord t) v n -> In m (nexts (tg_heap t) n) -> em_fine (ems_of ord t) m).
Proof.
  unfold expected_next. change (fun n => node_emissions (ord n) (elem_at (tg_heap t) n)) with (ems_of ord t).
  destruct (start (ems_of ord t) (somes (tg_entry t)) []) as [ready| |] eqn:Es; try discriminate. intros E. destruct (start_in _ _ _ _ Es) as [S1 S2].
  destruct (consume_spec t (ems_of ord t) prefix [] ready (has_empty (tg_ends t)) nx acc) as (H1 & H2 & H3).
  - intros x. rewrite S1. split.
    + intros [[]|(n & In_ & j & em & Ej & N & ->)]. apply wk_entry with (em := em); [apply somes_in, In_|exact Ej|exact N].
    + intros W. inversion W as [n i em Ie Ee N Q1 Q2|u b s s' W' St Q]; [|destruct u; discriminate].
      right. exists n. split; [apply somes_in, Ie|]. exists i, em. auto.
  - exact E.
  - split; [exact H1|]. split; [|split; [intros n I; apply S2, somes_in, I|exact H3]].
    destruct prefix as [|b prefix]; [|exact H2]. rewrite H2. apply has_empty_in.
Qed.
Lemma expected_total ord t prefix : (forall n, in_graph t n -> em_fine (ems_of ord t) n) -> exists nx acc, expected_next ord t prefix = En_ok nx acc.
Proof.
  intros Hf. unfold expected_next. change (fun n => node_emissions (ord n) (elem_at (tg_heap t) n)) with (ems_of ord t).
  destruct (start_total (ems_of ord t) (somes (tg_entry t)) []) as (ready & Es).
  { intros n I. apply Hf. exists [], n. split; [apply somes_in, I|]. split; [exact Logic.I|reflexivity]. }
  rewrite Es. destruct (start_in _ _ _ _ Es) as [S1 _]. apply (consume_total t (ems_of ord t) prefix []).
  - intros x. rewrite S1. split.
    + intros [[]|(n & In_ & j & em & Ej & N & ->)]. apply wk_entry with (em := em); [apply somes_in, In_|exact Ej|exact N].
    + intros W. inversion W as [n i em Ie Ee N Q1 Q2|u b s s' W' St Q]; [|destruct u; discriminate].
      right. exists n. split; [apply somes_in, Ie|]. exists i, em. auto.
  - intros v n m D Im. apply done_path in D as (q & ws & L & _). apply Hf. apply (leads_end t q n m) in Im; [|exact L].
    destruct q as [|a q]; cbn [app leads] in Im; destruct Im as [I1 I2].
    + exists [m], n. split; [exact I1|]. split; [exact I2|reflexivity].
    + exists ((q ++ [n]) ++ [m]), a. split; [exact I1|]. split; [exact I2|]. rewrite app_comm_cons. apply last_last.
Qed.
