(** Correctness and termination of the BSR engine on a slot grammar.
    Its definitions are means of proof and model no code. *)
From Coq Require Import ZArith String Bool List Lia Permutation.
From Verif Require Import Syntax Spec Utf8 Num Term Printer Slots Gll Bsr.
Import ListNotations.
Local Open Scope Z_scope.

Lemma nth_skipn {A} (l : list A) : forall n x r, skipn n l = x :: r ->
  nth_error l n = Some x /\ skipn (S n) l = r /\ (n < length l)%nat.
Proof.
  induction l as [|y l IH]; intros [|n] x r; cbn; intros H; try discriminate.
  - inversion H; subst. repeat split; lia.
  - destruct (IH n x r H) as (A1 & A2 & A3). cbn in A2. repeat split; auto. lia.
Qed.

Lemma skipn_nil_len {A} (l : list A) n : skipn n l = [] -> (n <= length l)%nat -> n = length l.
Proof.
  intros H L. assert (length (skipn n l) = 0)%nat by (rewrite H; auto). rewrite skipn_length in H0. lia.
Qed.

Lemma popped_of_in u l k : In k (popped_of u l) <-> In (u, k) l.
Proof.
  unfold popped_of. rewrite in_map_iff. split.
  - intros ((a, b) & E & F). apply filter_In in F as [F G]. cbn in *. subst.
    destruct (gss_eq_dec a u); [subst; auto|discriminate].
  - intros H. exists (u, k). split; auto. apply filter_In. split; auto. cbn.
    destruct (gss_eq_dec u u); auto.
Qed.

Lemma edges_of_in u l k : In k (edges_of u l) <-> In (u, k) l.
Proof.
  unfold edges_of. rewrite in_map_iff. split.
  - intros ((a, b) & E & F). apply filter_In in F as [F G]. cbn in *. subst.
    destruct (gss_eq_dec a u); [subst; auto|discriminate].
  - intros H. exists (u, k). split; auto. apply filter_In. split; auto. cbn.
    destruct (gss_eq_dec u u); auto.
Qed.

Section Proof.
  Variable sg : slot_grammar.
  Variable input : list Z.
  Variable mx : Z.
  Variable ord : nat -> gss -> list nat -> list nat.
  Hypothesis ord_in : forall t v l x, In x (ord t v l) <-> In x l.

  Notation drest' := (drest sg input).
  Notation n := (length input).
  Notation add := b_add.
  Notation record := (b_record sg mx).
  Notation create := (b_create sg mx ord).
  Notation pop := (b_pop sg mx).
  Notation process := (b_process sg input mx ord).

  (** *** Growth *)
  Record le (a b : bstate) : Prop := {
    le_seen : incl (b_seen a) (b_seen b);
    le_edges : incl (b_edges a) (b_edges b);
    le_popped : incl (b_popped a) (b_popped b);
    le_set : incl (b_set a) (b_set b);
    le_ab : b_aborted a = true -> b_aborted b = true }.

  Lemma le_refl a : le a a.
  Proof. split; auto using incl_refl. Qed.
  Lemma le_trans a b c : le a b -> le b c -> le a c.
  Proof. intros [] []; split; eauto using incl_tran. Qed.

  Lemma fold_le {A} (f : bstate -> A -> bstate) l : (forall s x, le s (f s x)) ->
    forall s, le s (fold_left f l s).
  Proof.
    intros H. induction l; cbn; intros s; [apply le_refl|]. eapply le_trans; [apply H|apply IHl].
  Qed.

  Lemma add_le L u i rc st : le st (add L u i rc st).
  Proof.
    unfold b_add. destruct (in_dec _ _ _); [apply le_refl|].
    split; cbn; auto using incl_refl, incl_tl.
  Qed.
  Lemma record_le L l k r st : le st (record L l k r st).
  Proof.
    unfold b_record. destruct (prod_of sg L); [|apply le_refl].
    destruct (_ || _)%bool; [|apply le_refl]. destruct (_ && _)%bool.
    - split; cbn; auto using incl_refl.
    - destruct (in_dec _ _ _); [apply le_refl|]. split; cbn; auto using incl_refl, incl_tl.
  Qed.
  Lemma create_le ret u i rc st : le st (create ret u i rc st).
  Proof.
    unfold b_create. destruct (in_dec _ _ _); [apply le_refl|].
    eapply le_trans; [|apply fold_le; intros; eapply le_trans; [apply record_le|apply add_le]].
    split; cbn; auto using incl_refl, incl_appl.
  Qed.
  Lemma pop_le u j st : le st (pop u j st).
  Proof.
    unfold b_pop. destruct u; [apply le_refl|].
    eapply le_trans; [|apply fold_le; intros; eapply le_trans; [apply record_le|apply add_le]].
    destruct (in_dec _ _ _); [apply le_refl|].
    split; cbn; auto using incl_refl, incl_tl.
  Qed.
  Lemma process_le rest : forall L u i rc st, le st (process rest L u i rc st).
  Proof.
    induction rest as [|s rest IH]; cbn; intros.
    - apply pop_le.
    - destruct s.
      + eapply le_trans; [apply create_le|]. apply fold_le. intros; apply add_le.
      + destruct (match_sym _ _ _); [|apply le_refl]. eapply le_trans; [apply record_le|apply IH].
      + destruct (match_sym _ _ _); [|apply le_refl]. eapply le_trans; [apply record_le|apply IH].
  Qed.

  (** *** Soundness *)
  (* the symbol after the dot of L derives i..j in a frame at count rc *)
  Definition symder (L : slot) (rc : Z) (i j : nat) : Prop :=
    exists p s, prod_of sg L = Some p /\ nth_error p (s_dot L) = Some s /\
      (match_sym s input i = Some j \/
       exists X L' rc', s = SNonterm X /\ In (L', rc') (starts sg (s_nt L) rc X) /\ drest' L' rc' i j).

  (* what lies before the dot of L derives i..j in a frame at count rc *)
  Inductive dpre : slot -> Z -> nat -> nat -> Prop :=
  | dpre_start L rc i : s_dot L = 0%nat -> dpre L rc i i
  | dpre_adv L rc i k j : dpre L rc i k -> symder L rc k j -> dpre (adv L) rc i j.

  Definition okc (L : slot) (u : gss) (i : nat) (rc : Z) : Prop :=
    In (base L, rc) (callees sg u) /\
    (exists p, prod_of sg L = Some p /\ (s_dot L <= length p)%nat) /\
    (g_pos u <= i <= n)%nat /\
    (forall j, drest' L rc i j -> drest' (base L) rc (g_pos u) j) /\
    dpre L rc (g_pos u) i.

  Definition ok_edge (v u : gss) : Prop :=
    match v with
    | U0 => False
    | GN ret i rc => exists L p X, ret = adv L /\ prod_of sg L = Some p /\
        nth_error p (s_dot L) = Some (SNonterm X) /\ okc L u i rc
    end.
  Definition ok_pop (v : gss) (k : nat) : Prop :=
    (g_pos v <= k <= n)%nat /\ exists L rc, In (L, rc) (callees sg v) /\ drest' L rc (g_pos v) k.
  Definition ok_elem (e : belem) : Prop :=
    exists L u rc, be_slot e = adv L /\ be_l e = g_pos u /\ okc L u (be_k e) rc /\
      symder L rc (be_k e) (be_r e) /\ okc (adv L) u (be_r e) rc.

  Definition Sound (st : bstate) : Prop :=
    (forall d, In d (b_seen st) -> okc (bd_L d) (bd_u d) (bd_i d) (bd_rc d)) /\
    (forall v u, In (v, u) (b_edges st) -> ok_edge v u) /\
    (forall v k, In (v, k) (b_popped st) -> ok_pop v k) /\
    (forall e, In e (b_set st) -> ok_elem e).

  Lemma symder_drest L rc i k j : symder L rc i k -> drest' (adv L) rc k j -> drest' L rc i j.
  Proof.
    intros (p & s & P & N & [M|(X & L' & rc' & -> & S & D)]) R.
    - eapply drest_term; eauto.
    - eapply drest_nt; eauto.
  Qed.

  Lemma symder_bounds L rc i k : (i <= n)%nat -> symder L rc i k -> (i <= k <= n)%nat.
  Proof.
    intros H (p & s & P & N & [M|(X & L' & rc' & -> & S & D)]).
    - eapply match_sym_bounds; eauto.
    - eapply drest_bounds; eauto.
  Qed.

  Lemma okc_adv L u i rc k : okc L u i rc -> symder L rc i k -> okc (adv L) u k rc.
  Proof.
    intros (C & (p & P & Le) & B & D & Dp) S.
    pose proof (symder_bounds L rc i k ltac:(lia) S) as K.
    split; [rewrite base_adv; auto|]. split.
    - exists p. rewrite prod_adv. split; auto. destruct S as (p' & s & P' & N & _).
      rewrite P in P'. inversion P'; subst p'. cbn. assert (nth_error p (s_dot L) <> None) by congruence.
      apply nth_error_Some in H. lia.
    - split; [lia|]. split; [|econstructor; eauto]. intros j R. rewrite base_adv. apply D. eapply symder_drest; eauto.
  Qed.

  (* returning to an edge *)
  Lemma edge_pop v u k : ok_edge v u -> ok_pop v k ->
    exists L ret i rc, v = GN ret i rc /\ ret = adv L /\ okc L u i rc /\ symder L rc i k /\ okc ret u k rc.
  Proof.
    intros E (B & L0 & rc0 & C & D). destruct v as [|ret i rc]; [easy|].
    destruct E as (L & p & X & -> & P & N & O). cbn [callees] in C.
    rewrite prod_adv, P in C. cbn [adv s_dot] in C. rewrite N in C. cbn [s_nt adv] in C.
    assert (S : symder L rc i k).
    { exists p, (SNonterm X). repeat split; auto. right. exists X, L0, rc0. auto. }
    exists L, (adv L), i, rc. repeat split; auto; try (apply (okc_adv L u i rc k O S)).
    all: apply O.
  Qed.

  Lemma add_sound L u i rc st : Sound st -> okc L u i rc -> Sound (add L u i rc st).
  Proof.
    intros (A & B & C & D) H. unfold b_add. destruct (in_dec _ _ _); [split; auto|].
    split; [|auto]. cbn. intros d [<-|I]; auto.
  Qed.

  Lemma record_sound L u k r rc st : Sound st -> okc L u k rc -> symder L rc k r ->
    Sound (record (adv L) (g_pos u) k r st).
  Proof.
    intros H O S. unfold b_record. destruct (prod_of sg (adv L)); [|auto].
    destruct (_ || _)%bool; [|auto]. destruct (_ && _)%bool.
    - destruct H as (A & B & C & D). split; auto.
    - destruct (in_dec _ _ _); auto. destruct H as (A & B & C & D). split; [|split; [|split]]; auto.
      cbn. intros e [<-|I]; auto. exists L, u, rc. cbn. repeat split; auto; try apply O.
      all: apply (okc_adv L u k rc r O S).
  Qed.

  Lemma fold_sound {A} (f : bstate -> A -> bstate) l (P : A -> Prop) :
    (forall s x, P x -> Sound s -> Sound (f s x)) -> (forall x, In x l -> P x) ->
    forall s, Sound s -> Sound (fold_left f l s).
  Proof. intros H. induction l; cbn; intros I s S; auto. Qed.

  Lemma create_sound L u i rc p X st : Sound st -> okc L u i rc -> prod_of sg L = Some p ->
    nth_error p (s_dot L) = Some (SNonterm X) -> Sound (create (adv L) u i rc st).
  Proof.
    intros S O P N. unfold b_create. destruct (in_dec _ _ _); auto.
    assert (E : ok_edge (GN (adv L) i rc) u) by (exists L, p, X; auto).
    apply fold_sound with (P := fun j => ok_pop (GN (adv L) i rc) j).
    - intros s j J Hs. destruct (edge_pop _ _ _ E J) as (L2 & ret & i2 & rc2 & E1 & E2 & O2 & S2 & O3).
      injection E1 as <- <- <-.
      apply add_sound; [|exact O3]. rewrite E2. apply record_sound with (rc := rc); auto.
    - intros j J. apply ord_in in J. apply popped_of_in in J. apply S; auto.
    - destruct S as (A & B & C & D). split; [|split; [|split]]; cbn; auto.
      intros v w I. apply in_app_iff in I as [I|[I|[]]]; auto. inversion I; subst. auto.
  Qed.

  Lemma pop_sound u j st : Sound st -> ok_pop u j -> Sound (pop u j st).
  Proof.
    intros S O. unfold b_pop. destruct u as [|ret pos rc]; auto.
    apply fold_sound with (P := fun v => ok_edge (GN ret pos rc) v).
    - intros s v E Hs. destruct (edge_pop _ _ _ E O) as (L2 & ret2 & i2 & rc2 & E1 & E2 & O2 & S2 & O3).
      injection E1 as <- <- <-. apply add_sound; [|exact O3]. rewrite E2. apply record_sound with (rc := rc); auto.
    - intros v J. apply edges_of_in in J. apply S; auto.
    - destruct (in_dec _ _ _); auto. destruct S as (A & B & C & D).
      split; [|split; [|split]]; cbn; auto. intros v k [I|I]; auto. inversion I; subst; auto.
  Qed.

  Lemma starts_prod c rc X L rc' : In (L, rc') (starts sg c rc X) ->
    (forall nt, nth_error (sg_nts sg) X = Some nt -> nt_isrep nt = true -> length (nt_alts nt) = 2%nat) ->
    exists p, prod_of sg L = Some p.
  Proof.
    unfold starts. intros H W. destruct (nth_error _ X) as [nt|] eqn:E; [|easy].
    assert (B : s_nt L = X /\ (s_alt L < length (nt_alts nt))%nat).
    { destruct (nt_isrep nt) eqn:R.
      - rewrite (W nt eq_refl R). unfold rep_alts in H. rewrite in_app_iff in H.
        destruct (_ <=? _); destruct (_ || _)%bool; cbn in H; intuition;
          match goal with H : _ = _ |- _ => inversion H; subst end; cbn; auto.
      - apply in_map_iff in H as (a & E1 & E2). apply in_seq in E2. inversion E1; subst; cbn; lia. }
    destruct B as [B1 B2]. unfold prod_of. rewrite B1, E.
    destruct (nth_error (nt_alts nt) (s_alt L)) eqn:F; eauto.
    apply nth_error_None in F. lia.
  Qed.

  Hypothesis wf_reps : forall X nt, nth_error (sg_nts sg) X = Some nt -> nt_isrep nt = true ->
    length (nt_alts nt) = 2%nat.

  Lemma okc_callee u L rc : In (L, rc) (callees sg u) -> (g_pos u <= n)%nat -> okc L u (g_pos u) rc.
  Proof.
    intros C B. pose proof (callees_base _ _ _ _ C) as Eb. pose proof (callees_dot0 _ _ _ _ C) as Ed.
    split; [rewrite Eb; auto|]. split.
    - assert (exists p, prod_of sg L = Some p) as [p P].
      { destruct u; cbn in C.
        - unfold start_slots in C. destruct (nth_error (sg_nts sg) (sg_start sg)) as [nt|] eqn:E; [|easy].
          apply in_map_iff in C as (a & E1 & E2). apply in_seq in E2. inversion E1; subst.
          unfold prod_of. cbn. rewrite E. destruct (nth_error (nt_alts nt) a) eqn:F; eauto.
          apply nth_error_None in F. lia.
        - destruct (prod_of sg ret); [|easy]. destruct (s_dot ret) as [|dd]; [easy|].
          destruct (nth_error l dd) as [[]|]; try easy. eapply starts_prod; eauto. }
      exists p. split; auto. lia.
    - split; [lia|]. rewrite Eb. split; [auto|]. constructor. auto.
  Qed.

  Lemma process_sound rest : forall L u i rc st p, Sound st -> okc L u i rc ->
    prod_of sg L = Some p -> skipn (s_dot L) p = rest -> Sound (process rest L u i rc st).
  Proof.
    induction rest as [|s rest IH]; cbn; intros L u i rc st p S O P K.
    - apply pop_sound; auto. destruct O as (C & (p' & P' & Le) & B & D & Dp). split; auto.
      exists (base L), rc. split; auto. apply D. rewrite P in P'. inversion P'; subst p'.
      eapply drest_end; eauto. apply skipn_nil_len; auto.
    - destruct (nth_skipn _ _ _ _ K) as (N & K2 & _).
      assert (T : forall j, match_sym s input i = Some j ->
        Sound (process rest (adv L) u j rc (record (adv L) (g_pos u) i j st))).
      { intros j M. assert (Sy : symder L rc i j) by (exists p, s; repeat split; auto).
        apply IH with (p := p); auto.
        - apply record_sound with (rc := rc); auto.
        - eapply okc_adv; eauto. }
      destruct s; [|destruct (match_sym _ _ _) eqn:M; [apply T; reflexivity|auto]..].
      apply fold_sound with (P := fun x => In x (starts sg (s_nt L) rc nt)); auto.
      + intros s (L', rc') I Hs. apply add_sound; auto. cbn.
        apply (okc_callee (GN (adv L) i rc)); [|cbn; apply O].
        cbn [callees]. rewrite prod_adv, P. cbn. rewrite N. auto.
      + eapply create_sound; eauto.
  Qed.

  Lemma init_sound : Sound (b_init sg).
  Proof.
    unfold b_init. apply fold_sound with (P := fun x => In x (start_slots sg)); auto.
    - intros s (L, rc) I S. apply add_sound; auto. apply (okc_callee U0); cbn; auto. lia.
    - split; [|split; [|split]]; cbn; tauto.
  Qed.

  Lemma run_sound fuel : forall st st', Sound st -> (forall d, In d (b_work st) -> In d (b_seen st)) ->
    b_run sg input mx ord fuel st = Some st' -> Sound st'.
  Proof.
    assert (W : forall rest L u i rc st, (forall d, In d (b_work st) -> In d (b_seen st)) ->
       forall d, In d (b_work (process rest L u i rc st)) -> In d (b_seen (process rest L u i rc st))).
    { set (W := fun st => forall d, In d (b_work st) -> In d (b_seen st)).
      assert (Wa : forall L u i rc st, W st -> W (add L u i rc st)).
      { unfold W, b_add. intros. destruct (in_dec _ _ _); auto. cbn in *. intuition. }
      assert (Wr : forall L l k r st, W st -> W (record L l k r st)).
      { unfold W, b_record. intros. destruct (prod_of sg L); auto. destruct (_ || _)%bool; auto.
        destruct (_ && _)%bool; auto. destruct (in_dec _ _ _); auto. }
      assert (Wf : forall A (f : bstate -> A -> bstate) l, (forall s x, W s -> W (f s x)) ->
        forall s, W s -> W (fold_left f l s)).
      { intros A f l H. induction l; cbn; auto. }
      assert (Wp : forall rest L u i rc st, W st -> W (process rest L u i rc st)).
      { induction rest as [|s rest IH]; cbn; intros.
        - unfold b_pop. destruct u; auto. apply Wf; auto. destruct (in_dec _ _ _); auto.
        - destruct s; try (destruct (match_sym _ _ _); auto). apply Wf; auto.
          unfold b_create. destruct (in_dec _ _ _); auto. }
      exact Wp. }
    induction fuel as [|f IH]; intros st st' S WI R; cbn in R.
    - destruct (b_work st); [inversion R; subst; auto|]. destruct (b_aborted st); inversion R; subst; auto.
    - destruct (b_work st) as [|d w] eqn:E; [inversion R; subst; auto|].
      destruct (b_aborted st); [inversion R; subst; auto|].
      unfold b_process_desc in R. cbn in WI.
      assert (O : okc (bd_L d) (bd_u d) (bd_i d) (bd_rc d)) by (apply S; apply WI; auto).
      destruct O as (O1 & (p & P & O2) & O3). rewrite P in R.
      eapply IH; [| |exact R].
      + eapply process_sound; eauto. split; eauto.
      + apply W. cbn. intros; apply WI; auto.
  Qed.

  (** *** Closure *)
  Definition recd (L : slot) (l k r : nat) (st : bstate) : Prop :=
    b_aborted st = true \/ In (mkBE L l k r) (b_set st) \/
    (forall p, prod_of sg L = Some p -> (s_dot L < 2)%nat /\ s_dot L <> length p).

  Lemma recd_le L l k r a b : le a b -> recd L l k r a -> recd L l k r b.
  Proof. intros [] [H|[H|H]]; unfold recd; auto. Qed.

  Lemma record_recd L l k r st : recd L l k r (record L l k r st).
  Proof.
    unfold recd, b_record. destruct (prod_of sg L) as [p|] eqn:P.
    - destruct (_ || _)%bool eqn:E.
      + destruct (_ && _)%bool; [cbn; auto|]. destruct (in_dec _ _ _); cbn; auto.
      + apply orb_false_iff in E as [E1 E2]. right; right. intros p' H; inversion H; subst.
        apply Nat.leb_gt in E1. apply Nat.eqb_neq in E2. split; auto.
    - right; right. discriminate.
  Qed.

  Definition seenp L u i rc st := In (mkBD L u i rc) (b_seen st).

  Lemma add_seenp L u i rc st : seenp L u i rc (add L u i rc st).
  Proof. unfold seenp, b_add. destruct (in_dec _ _ _); auto. cbn. auto. Qed.

  Lemma seenp_le L u i rc a b : le a b -> seenp L u i rc a -> seenp L u i rc b.
  Proof. intros [] H. apply le_seen0, H. Qed.

  Fixpoint done (rest : list ssym) (L : slot) (u : gss) (i : nat) (rc : Z) (st : bstate) : Prop :=
    match rest with
    | [] => u = U0 \/ In (u, i) (b_popped st)
    | SNonterm X :: _ =>
        In (GN (adv L) i rc, u) (b_edges st) /\
        forall L' rc', In (L', rc') (starts sg (s_nt L) rc X) -> seenp L' (GN (adv L) i rc) i rc' st
    | s :: rest' =>
        forall k, match_sym s input i = Some k ->
          recd (adv L) (g_pos u) i k st /\ done rest' (adv L) u k rc st
    end.

  Lemma done_le rest : forall L u i rc a b, le a b -> done rest L u i rc a -> done rest L u i rc b.
  Proof.
    induction rest as [|s rest IH]; cbn; intros L u i rc a b H D.
    - destruct D; auto. right. apply (le_popped _ _ H). auto.
    - destruct s.
      + destruct D as [D1 D2]. split; [apply (le_edges _ _ H); auto|].
        intros. eapply seenp_le; eauto.
      + intros k M. destruct (D k M). split; [eapply recd_le; eauto|eauto].
      + intros k M. destruct (D k M). split; [eapply recd_le; eauto|eauto].
  Qed.

  Definition doned (d : bdesc) (st : bstate) : Prop :=
    forall p, prod_of sg (bd_L d) = Some p ->
      done (skipn (s_dot (bd_L d)) p) (bd_L d) (bd_u d) (bd_i d) (bd_rc d) st.

  (* J: popped results reach every edge *)
  Definition J (st : bstate) : Prop :=
    forall ret i rc u k, In (GN ret i rc, u) (b_edges st) -> In (GN ret i rc, k) (b_popped st) ->
      seenp ret u k rc st /\ recd ret (g_pos u) i k st.
  (* I: everything seen is pending or done *)
  Definition I (ex : bdesc -> Prop) (st : bstate) : Prop :=
    forall d, In d (b_seen st) -> ex d \/ In d (b_work st) \/ doned d st.

  Lemma I_le ex a b : I ex a -> le a b -> incl (b_work a) (b_work b) ->
    (forall d, In d (b_seen b) -> In d (b_seen a) \/ In d (b_work b)) -> I ex b.
  Proof.
    intros H L W S d D. destruct (S d D) as [K|K]; [|auto].
    destruct (H d K) as [X|[X|X]]; auto. right. right. intros p P. eapply done_le; eauto.
  Qed.

  (* steps that only grow seen/work/set *)
  Definition grows (a b : bstate) : Prop :=
    le a b /\ incl (b_work a) (b_work b) /\ b_edges b = b_edges a /\ b_popped b = b_popped a /\
    (forall d, In d (b_seen b) -> In d (b_seen a) \/ In d (b_work b)).

  Lemma grows_refl a : grows a a.
  Proof. repeat split; auto using incl_refl. Qed.
  Lemma grows_trans a b c : grows a b -> grows b c -> grows a c.
  Proof.
    intros (A1 & A2 & A3 & A4 & A5) (B1 & B2 & B3 & B4 & B5).
    split; [eapply le_trans; eauto|]. split; [eapply incl_tran; eauto|].
    split; [congruence|]. split; [congruence|].
    intros d D. destruct (B5 d D) as [K|K]; auto. destruct (A5 d K); auto.
  Qed.
  Lemma grows_add L u i rc st : grows st (add L u i rc st).
  Proof.
    split; [apply add_le|]. unfold b_add. destruct (in_dec _ _ _); cbn; repeat split; auto using incl_refl, incl_tl.
    intros d [<-|H]; auto.
  Qed.
  Lemma grows_record L l k r st : grows st (record L l k r st).
  Proof.
    split; [apply record_le|]. unfold b_record. destruct (prod_of sg L); [|repeat split; auto using incl_refl].
    destruct (_ || _)%bool; [|repeat split; auto using incl_refl].
    destruct (_ && _)%bool; [cbn; repeat split; auto using incl_refl|].
    destruct (in_dec _ _ _); cbn; repeat split; auto using incl_refl.
  Qed.
  Lemma grows_fold {A} (f : bstate -> A -> bstate) l : (forall s x, grows s (f s x)) ->
    forall s, grows s (fold_left f l s).
  Proof.
    intros H. induction l; cbn; intros s; [apply grows_refl|]. eapply grows_trans; [apply H|apply IHl].
  Qed.

  Lemma fold_each {A} (f : bstate -> A -> bstate) (P : A -> bstate -> Prop) l :
    (forall s x, le s (f s x)) -> (forall s x, P x (f s x)) ->
    (forall a b x, le a b -> P x a -> P x b) ->
    forall s x, In x l -> P x (fold_left f l s).
  Proof.
    intros H1 H2 H3. induction l as [|y l IH]; cbn; intros s x; [easy|]. intros [<-|K]; auto.
    eapply H3; [apply fold_le; auto|apply H2].
  Qed.

  Lemma J_grows a b : J a -> grows a b -> J b.
  Proof.
    intros H (L & _ & E & P & _) ret i rc u k X Y. rewrite E in X. rewrite P in Y.
    destruct (H _ _ _ _ _ X Y). split; [eapply seenp_le; eauto|eapply recd_le; eauto].
  Qed.
  Lemma I_grows ex a b : I ex a -> grows a b -> I ex b.
  Proof. intros H (L & W & _ & _ & S). eapply I_le; eauto. Qed.

  Lemma create_closed ret u i rc ex st : I ex st -> J st ->
    let st' := create ret u i rc st in
    I ex st' /\ J st' /\ In (GN ret i rc, u) (b_edges st').
  Proof.
    intros HI HJ. cbn. unfold b_create. destruct (in_dec _ _ _) as [K|K]; [auto|].
    set (st1 := mkB _ _ _ _ _ _ _).
    set (f := fun s j => _). set (l := ord _ _ _).
    assert (Gf : forall s j, grows s (f s j)).
    { intros s j. unfold f. eapply grows_trans; [apply grows_record|apply grows_add]. }
    assert (G : grows st1 (fold_left f l st1)) by (apply grows_fold; auto).
    assert (L1 : le st st1) by (split; cbn; auto using incl_refl, incl_appl).
    assert (I1 : I ex st1). { eapply I_le; eauto; cbn; auto using incl_refl. }
    split; [eapply I_grows; eauto|]. destruct G as (GL & GW & GE & GP & GS). split.
    - intros ret' i' rc' u' k X Y. rewrite GE in X. rewrite GP in Y. cbn in X, Y.
      apply in_app_iff in X as [X|[X|[]]].
      + destruct (HJ _ _ _ _ _ X Y). assert (le st (fold_left f l st1)) by (eapply le_trans; eauto).
        split; [eapply seenp_le; eauto|eapply recd_le; eauto].
      + inversion X; subst. assert (In k l) by (apply ord_in, popped_of_in; auto).
        split.
        * apply fold_each with (P := fun k st => seenp ret' u' k rc' st); auto.
          -- intros; apply Gf.
          -- intros s x. apply add_seenp.
          -- intros. eapply seenp_le; eauto.
        * apply fold_each with (P := fun k st => recd ret' (g_pos u') i' k st); auto.
          -- intros; apply Gf.
          -- intros s x. unfold f. eapply recd_le; [apply add_le|apply record_recd].
          -- intros. eapply recd_le; eauto.
    - rewrite GE. cbn. apply in_app_iff. right. cbn. auto.
  Qed.

  Lemma pop_closed u j ex st : I ex st -> J st ->
    let st' := pop u j st in I ex st' /\ J st' /\ (u = U0 \/ In (u, j) (b_popped st')).
  Proof.
    intros HI HJ. cbn. destruct u as [|ret pos rc]; [cbn; auto|]. unfold b_pop.
    set (st1 := if in_dec _ _ _ then _ else _).
    set (f := fun s v => _). set (l := edges_of _ _).
    assert (Gf : forall s v, grows s (f s v)).
    { intros s v. unfold f. eapply grows_trans; [apply grows_record|apply grows_add]. }
    assert (G : grows st1 (fold_left f l st1)) by (apply grows_fold; auto).
    assert (B : le st st1 /\ b_edges st1 = b_edges st /\ b_work st1 = b_work st /\ b_seen st1 = b_seen st /\
      In (GN ret pos rc, j) (b_popped st1) /\
      (forall v k, In (v, k) (b_popped st1) -> In (v, k) (b_popped st) \/ (v = GN ret pos rc /\ k = j))).
    { unfold st1. destruct (in_dec _ _ _) as [K|K]; cbn.
      - repeat split; auto using incl_refl.
      - split; [split; cbn; auto using incl_refl, incl_tl|]. repeat split; auto.
        intros v k [X|X]; auto. inversion X; auto. }
    destruct B as (L1 & E1 & W1 & S1 & P1 & Q1).
    assert (I1 : I ex st1). { eapply I_le; eauto. - rewrite W1. apply incl_refl. - rewrite S1. auto. }
    split; [eapply I_grows; eauto|]. destruct G as (GL & GW & GE & GP & GS). split.
    - intros ret' i' rc' u' k X Y. rewrite GE, E1 in X. rewrite GP in Y.
      destruct (Q1 _ _ Y) as [Y'|[Y1 Y2]].
      + destruct (HJ _ _ _ _ _ X Y'). assert (le st (fold_left f l st1)) by (eapply le_trans; eauto).
        split; [eapply seenp_le; eauto|eapply recd_le; eauto].
      + inversion Y1; subst. assert (In u' l) by (apply edges_of_in; auto).
        split.
        * apply fold_each with (P := fun v st => seenp ret v j rc st); auto.
          -- intros; apply Gf.
          -- intros s x. apply add_seenp.
          -- intros. eapply seenp_le; eauto.
        * apply fold_each with (P := fun v st => recd ret (g_pos v) pos j st); auto.
          -- intros; apply Gf.
          -- intros s x. unfold f. eapply recd_le; [apply add_le|apply record_recd].
          -- intros. eapply recd_le; eauto.
    - right. rewrite GP. auto.
  Qed.

  Lemma process_closed rest : forall L u i rc ex st, I ex st -> J st ->
    let st' := process rest L u i rc st in I ex st' /\ J st' /\ done rest L u i rc st'.
  Proof.
    induction rest as [|s rest IH]; intros L u i rc ex st HI HJ.
    - cbn. apply pop_closed; auto.
    - destruct s.
      + cbn [b_process done].
        destruct (create_closed (adv L) u i rc ex st HI HJ) as (I1 & J1 & E1).
        set (st1 := create _ _ _ _ _) in *. set (f := fun s x => _). set (l := starts _ _ _ _).
        assert (Gf : forall s v, grows s (f s v)) by (intros; apply grows_add).
        assert (G : grows st1 (fold_left f l st1)) by (apply grows_fold; auto).
        split; [eapply I_grows; eauto|]. split; [eapply J_grows; eauto|].
        split; [apply G, E1|]. intros L' rc' X.
        apply (fold_each f (fun x st => seenp (fst x) (GN (adv L) i rc) i (snd x) st) l) with (x := (L', rc')); auto.
        * intros; apply Gf.
        * intros s x. apply add_seenp.
        * intros. eapply seenp_le; eauto.
      + cbn [b_process done]. destruct (match_sym _ _ _) as [k|]; [|split; [auto|split; [auto|discriminate]]].
        destruct (IH (adv L) u k rc ex (record (adv L) (g_pos u) i k st)) as (I1 & J1 & D1).
        { eapply I_grows; eauto using grows_record. }
        { eapply J_grows; eauto using grows_record. }
        split; auto. split; auto. intros k' E; inversion E; subst. split; auto.
        eapply recd_le; [apply process_le|apply record_recd].
      + cbn [b_process done]. destruct (match_sym _ _ _) as [k|]; [|split; [auto|split; [auto|discriminate]]].
        destruct (IH (adv L) u k rc ex (record (adv L) (g_pos u) i k st)) as (I1 & J1 & D1).
        { eapply I_grows; eauto using grows_record. }
        { eapply J_grows; eauto using grows_record. }
        split; auto. split; auto. intros k' E; inversion E; subst. split; auto.
        eapply recd_le; [apply process_le|apply record_recd].
  Qed.

  Definition noex : bdesc -> Prop := fun _ => False.

  Lemma run_closed fuel : forall st st', I noex st -> J st ->
    b_run sg input mx ord fuel st = Some st' ->
    le st st' /\ (b_aborted st' = true \/ (I noex st' /\ J st' /\ b_work st' = [])).
  Proof.
    induction fuel as [|f IH]; intros st st' HI HJ R; cbn in R.
    - destruct (b_work st) eqn:E; [inversion R; subst; auto using le_refl|].
      destruct (b_aborted st) eqn:A; inversion R; subst; auto using le_refl.
    - destruct (b_work st) as [|d w] eqn:E; [inversion R; subst; auto using le_refl|].
      destruct (b_aborted st) eqn:A; [inversion R; subst; auto using le_refl|].
      set (st0 := mkB (b_seen st) w (b_edges st) (b_popped st) (b_set st) false (b_tick st)) in *.
      assert (L0 : le st st0). { split; cbn; auto using incl_refl. congruence. }
      assert (I0 : I (eq d) st0).
      { intros x X. destruct (HI x X) as [[]|[K|K]].
        - rewrite E in K. destruct K; auto.
        - right. right. intros p P. eapply done_le; [exact L0|exact (K p P)]. }
      assert (J0 : J st0).
      { intros ret i rc u k X Y. destruct (HJ ret i rc u k X Y). split; [eapply seenp_le; eauto|eapply recd_le; eauto]. }
      assert (H : exists st1, b_process_desc sg input mx ord d st0 = st1 /\ le st0 st1 /\ I noex st1 /\ J st1).
      { eexists. split; [reflexivity|]. unfold b_process_desc. destruct (prod_of sg (bd_L d)) as [p|] eqn:P.
        - destruct (process_closed (skipn (s_dot (bd_L d)) p) (bd_L d) (bd_u d) (bd_i d) (bd_rc d) (eq d) st0 I0 J0)
            as (I1 & J1 & D1). split; [apply process_le|]. split; auto.
          intros x X. destruct (I1 x X) as [K|K]; auto. subst x. right. right.
          intros p' P'. rewrite P in P'. inversion P'; subst. auto.
        - split; [apply le_refl|]. split; auto. intros x X. destruct (I0 x X) as [K|K]; auto. subst x. right. right.
          intros p' P'. congruence. }
      destruct H as (st1 & E1 & L1 & I1 & J1). rewrite E1 in R.
      destruct (IH st1 st' I1 J1 R) as [L2 F]. split; auto.
      eapply le_trans; [exact L0|]. eapply le_trans; eauto.
  Qed.

  Lemma init_closed : I noex (b_init sg) /\ J (b_init sg) /\
    forall L rc, In (L, rc) (start_slots sg) -> seenp L U0 0 rc (b_init sg).
  Proof.
    unfold b_init. set (f := fun s x => _). set (st := mkB _ _ _ _ _ _ _).
    assert (G : grows st (fold_left f (start_slots sg) st)) by (apply grows_fold; intros; apply grows_add).
    split; [|split].
    - eapply I_grows; eauto. intros d [].
    - eapply J_grows; eauto. intros ? ? ? ? ? [].
    - intros L rc X.
      apply (fold_each f (fun x st => seenp (fst x) U0 0 (snd x) st) (start_slots sg)) with (x := (L, rc)); auto.
      * intros; apply add_le.
      * intros s x. apply add_seenp.
      * intros. eapply seenp_le; eauto.
  Qed.

  (** *** Completeness *)
  Lemma closed_complete st : I noex st -> J st -> b_work st = [] ->
    forall L rc i j, drest' L rc i j -> forall p u, prod_of sg L = Some p ->
      done (skipn (s_dot L) p) L u i rc st ->
      (u = U0 \/ In (u, j) (b_popped st)) /\
      (s_dot L = length p \/ exists k, recd (mkSlot (s_nt L) (s_alt L) (length p)) (g_pos u) k j st).
  Proof.
    intros HI HJ HW L rc i j D.
    assert (SD : forall L u i rc p, seenp L u i rc st -> prod_of sg L = Some p ->
      done (skipn (s_dot L) p) L u i rc st).
    { intros L' u' i' rc' p' S P. destruct (HI _ S) as [[]|[K|K]]; [rewrite HW in K; easy|]. apply K, P. }
    assert (SK : forall L (p : list ssym) s, nth_error p (s_dot L) = Some s ->
       skipn (s_dot L) p = s :: skipn (s_dot (adv L)) p).
    { intros L' p' s' N. destruct (skipn (s_dot L') p') eqn:K.
      - assert (length (skipn (s_dot L') p') = 0)%nat by (rewrite K; auto).
        assert (nth_error p' (s_dot L') <> None) as Q by congruence. apply nth_error_Some in Q.
        rewrite skipn_length in H. lia.
      - apply nth_skipn in K as (K1 & K2 & _). rewrite N in K1. inversion K1; subst. reflexivity. }
    assert (FIN : forall L p i0 k j0 u, prod_of sg L = Some p -> recd (adv L) (g_pos u) i0 k st ->
      (exists k', s_dot (adv L) = length p /\ k = j0 \/
       recd (mkSlot (s_nt L) (s_alt L) (length p)) (g_pos u) k' j0 st) ->
      exists k', recd (mkSlot (s_nt L) (s_alt L) (length p)) (g_pos u) k' j0 st).
    { intros L' p' i0 k j0 u P R (k' & [[E ->]|K]); eauto. exists i0. rewrite <- E. exact R. }
    induction D as [L rc i p E1 E2|L rc i k j p s E1 N M D IH|L rc i k j p X L' rc' E1 N S D1 IH1 D2 IH2];
      intros p0 u P Dn; rewrite E1 in P; inversion P; subst p0.
    - rewrite E2, skipn_all in Dn. cbn in Dn. auto.
    - rewrite (SK _ _ _ N) in Dn.
      assert (R : recd (adv L) (g_pos u) i k st /\ done (skipn (s_dot (adv L)) p) (adv L) u k rc st).
      { destruct s; cbn in M; [discriminate| |]; cbn [done] in Dn; apply Dn; auto. }
      destruct R as [R1 R2]. destruct (IH p u E1 R2) as [A B]. split; auto. right.
      eapply FIN; eauto. destruct B as [B|[k' B]].
      + exists 0%nat. left. split; auto. cbn in B.
        inversion D; subst; auto.
        * rewrite prod_adv in H. rewrite H in E1. inversion E1; subst.
          assert (nth_error p (s_dot (adv L)) <> None) as Q by congruence. apply nth_error_Some in Q. cbn in *. lia.
        * rewrite prod_adv in H. rewrite H in E1. inversion E1; subst.
          assert (nth_error p (s_dot (adv L)) <> None) as Q by congruence. apply nth_error_Some in Q. cbn in *. lia.
      + exists k'. right. exact B.
    - rewrite (SK _ _ _ N) in Dn. cbn [done] in Dn. destruct Dn as [Dn1 Dn2].
      specialize (Dn2 _ _ S).
      assert (exists p', prod_of sg L' = Some p') as [p' P'] by (inversion D1; eauto).
      destruct (IH1 p' _ P' (SD _ _ _ _ _ Dn2 P')) as [[A|A] _]; [discriminate|].
      destruct (HJ _ _ _ _ _ Dn1 A) as [A1 A2].
      destruct (IH2 p u E1 (SD _ _ _ _ _ A1 E1)) as [B C]. split; auto. right.
      eapply FIN; eauto. destruct C as [C|[k' C]].
      + exists 0%nat. left. split; auto. cbn in C.
        inversion D2; subst; auto.
        * rewrite prod_adv in H. rewrite H in E1. inversion E1; subst.
          assert (nth_error p (s_dot (adv L)) <> None) as Q by congruence. apply nth_error_Some in Q. cbn in *. lia.
        * rewrite prod_adv in H. rewrite H in E1. inversion E1; subst.
          assert (nth_error p (s_dot (adv L)) <> None) as Q by congruence. apply nth_error_Some in Q. cbn in *. lia.
      + exists k'. right. exact C.
  Qed.

  Hypothesis wf_start : forall nt, nth_error (sg_nts sg) (sg_start sg) = Some nt -> nt_isrep nt = false.
  Hypothesis wf_nonempty : forall L p, prod_of sg L = Some p -> p <> [].

  Lemma bsr_valid_iff st : bsr_valid sg n (b_set st) = true <->
    exists L p k, prod_of sg L = Some p /\ s_nt L = sg_start sg /\ s_dot L = length p /\
      In (mkBE L 0 k n) (b_set st).
  Proof.
    unfold bsr_valid. destruct (nth_error (sg_nts sg) (sg_start sg)) as [nt|] eqn:E.
    - rewrite existsb_exists. split.
      + intros ((ai, p) & X & Y). apply existsb_exists in Y as ([L l k r] & Z1 & Z2). cbn in Z2.
        destruct (slot_eq_dec _ _) as [->|]; [|discriminate]. cbn in Z2.
        apply andb_true_iff in Z2 as [Z2 Z3]. apply Nat.eqb_eq in Z2, Z3. subst.
        exists (mkSlot (sg_start sg) ai (length p)), p, k. unfold prod_of. cbn. rewrite E.
        repeat split; auto. clear -X.
        assert (G : forall l b, In (ai, p) (combine (seq b (length l)) l) -> (b <= ai)%nat /\ nth_error l (ai - b) = Some p).
        { induction l as [|x l IH]; cbn; intros b; [easy|]; intros [H|H].
          - inversion H; subst. rewrite Nat.sub_diag. auto.
          - destruct (IH (S b) H). replace (ai - b)%nat with (S (ai - S b)) by lia. split; [lia|]. auto. }
        destruct (G _ _ X). rewrite Nat.sub_0_r in H0. auto.
      + intros (L & p & k & P & A & B & C). exists (s_alt L, p). split.
        * unfold prod_of in P. rewrite A, E in P. clear -P.
          assert (G : forall l b a, nth_error l a = Some p -> In ((b + a)%nat, p) (combine (seq b (length l)) l)).
          { induction l as [|x l IH]; intros b [|a] H; cbn in *; try discriminate.
            - inversion H; subst. left. f_equal. lia.
            - right. replace (b + S a)%nat with (S b + a)%nat by lia. apply IH. auto. }
          apply (G _ 0%nat _ P).
        * apply existsb_exists. eexists. split; [exact C|]. cbn [be_slot be_l be_r fst snd].
          destruct (slot_eq_dec _ _) as [|Q]; [rewrite !Nat.eqb_refl; auto|].
          exfalso. apply Q. destruct L; cbn in *; subst; auto.
    - split; [discriminate|]. intros (L & p & k & P & A & _). unfold prod_of in P. rewrite A, E in P. discriminate.
  Qed.

  (** A positive verdict is right even when the budget was exhausted. *)
  Theorem bsr_sound fuel st : b_parse sg input mx ord fuel = Some st ->
    bsr_valid sg n (b_set st) = true -> sg_accepts sg input.
  Proof.
    intros R. unfold b_parse in R.
    assert (W0 : forall d, In d (b_work (b_init sg)) -> In d (b_seen (b_init sg))).
    { unfold b_init. assert (G : forall l s, (forall d, In d (b_work s) -> In d (b_seen s)) ->
        forall d, In d (b_work (fold_left (fun s x => add (fst x) U0 0%nat (snd x) s) l s)) ->
        In d (b_seen (fold_left (fun s x => add (fst x) U0 0%nat (snd x) s) l s))).
      { induction l; cbn; auto. intros s H. apply IHl. unfold b_add. destruct (in_dec _ _ _); auto.
        cbn. intros d [<-|X]; auto. }
      apply G. cbn. tauto. }
    pose proof (run_sound _ _ _ init_sound W0 R) as S.
    rewrite bsr_valid_iff.
    intros (L1 & p & k & P & E1 & E2 & M). apply S in M as (L2 & u & rc & Q1 & Q2 & Q3 & Q4 & Q5).
    cbn in *. subst L1. destruct Q5 as (C & _ & B & D & _).
    exists (base L2), 0. rewrite base_adv in *.
    assert (E3 : exists nt, nth_error (sg_nts sg) (s_nt (base L2)) = Some nt).
    { unfold prod_of in P. destruct (nth_error (sg_nts sg) (s_nt (adv L2))) eqn:F; [|discriminate]. eauto. }
    destruct E3 as [nt E3].
    assert (rc = 0). { eapply callees_nonrep_rc; eauto. cbn in *. apply wf_start. rewrite <- E1. auto. }
    subst rc. split.
    + unfold start_slots. cbn in E3, E1. rewrite <- E1, E3. unfold base. rewrite E1.
      apply in_map_iff. exists (s_alt L2). split; auto. apply in_seq.
      unfold prod_of in P. cbn in P. rewrite E3 in P.
      assert (nth_error (nt_alts nt) (s_alt L2) <> None) as Q by congruence. apply nth_error_Some in Q. lia.
    + rewrite Q2. apply D. eapply drest_end; eauto.
  Qed.

  Theorem bsr_correct fuel st : b_parse sg input mx ord fuel = Some st -> b_aborted st = false ->
    (bsr_valid sg n (b_set st) = true <-> sg_accepts sg input).
  Proof.
    intros R A. split; [apply (bsr_sound fuel st R)|]. unfold b_parse in R.
    destruct init_closed as (I0 & J0 & S0).
    destruct (run_closed _ _ _ I0 J0 R) as [L [X|(I1 & J1 & W)]]; [congruence|].
    rewrite bsr_valid_iff.
    intros (L1 & rc & M & D).
      pose proof (start_dot0 _ _ _ M) as (E1 & E2 & E3).
      assert (exists p, prod_of sg L1 = Some p) as [p P] by (inversion D; eauto).
      assert (Dn : done (skipn (s_dot L1) p) L1 U0 0 rc st).
      { pose proof (seenp_le _ _ _ _ _ _ L (S0 _ _ M)) as X. destruct (I1 _ X) as [[]|[K|K]]; [rewrite W in K; easy|].
        apply K, P. }
      destruct (closed_complete st I1 J1 W _ _ _ _ D p U0 P Dn) as [_ [X|(k & X)]].
      + exfalso. apply (wf_nonempty _ _ P). rewrite E1 in X. destruct p; [auto|discriminate].
      + destruct X as [X|[X|X]]; [congruence| |].
        * exists (mkSlot (s_nt L1) (s_alt L1) (length p)), p, k. repeat split; auto.
        * destruct (X p P). cbn in *. congruence.
  Qed.
End Proof.
