(** The BSR engine terminates and respects its element budget.
    Its definitions are means of proof and model no code. *)
From Coq Require Import ZArith String Bool List Lia.
From Verif Require Import Syntax Spec Utf8 Num Term Printer Slots Gll GllUniv Bsr BsrProof.
Import ListNotations.
Local Open Scope Z_scope.

Section Proof.
  Variable sg : slot_grammar.
  Variable input : list Z.
  Variable mx : Z.
  Variable ord : nat -> gss -> list nat -> list nat.
  Hypothesis ord_in : forall t v l x, In x (ord t v l) <-> In x l.
  Hypothesis shape : rep_shape sg.
  Hypothesis wf_start : forall nt, nth_error (sg_nts sg) (sg_start sg) = Some nt -> nt_isrep nt = false.

  Notation n := (length input).
  Notation add := b_add.
  Notation record := (b_record sg mx).
  Notation create := (b_create sg mx ord).
  Notation pop := (b_pop sg mx).
  Notation process := (b_process sg input mx ord).

  Lemma wf_reps : forall X nt, nth_error (sg_nts sg) X = Some nt -> nt_isrep nt = true ->
    length (nt_alts nt) = 2%nat.
  Proof. intros X nt H R. destruct (shape X nt H R) as [e ->]. reflexivity. Qed.

  Definition desc_univ : list bdesc :=
    flat_map (fun L => flat_map (fun u => flat_map (fun i => map (mkBD L u i) (rcs_univ sg)) (seq 0 (S n)))
                                (gss_univ sg n)) (slots_univ sg).

  Definition dok (L : slot) (u : gss) (i : nat) (rc : Z) : Prop :=
    okc sg input L u i rc /\ gok sg n u /\ rcok sg rc.

  Lemma desc_univ_in L u i rc : dok L u i rc -> In (mkBD L u i rc) desc_univ.
  Proof.
    intros ((A & (p & P & Le) & B & C) & G & R). apply in_flat_map. exists L. split; [eapply slots_univ_in; eauto|].
    apply in_flat_map. exists u. split; [apply gss_univ_in; auto|].
    apply in_flat_map. exists i. split; [apply in_seq; lia|]. apply in_map. apply rcs_univ_in; auto.
  Qed.

  (* the balance: what is added to seen is added to work *)
  Record T (st : bstate) : Prop := {
    t_nd : NoDup (b_seen st);
    t_seen : forall d, In d (b_seen st) -> dok (bd_L d) (bd_u d) (bd_i d) (bd_rc d);
    t_edges : forall v u, In (v, u) (b_edges st) -> gok sg n u /\ gok sg n v;
    t_popped : forall v k, In (v, k) (b_popped st) -> gok sg n v;
    t_sound : Sound sg input st }.
  Definition bal (a b : bstate) : Prop :=
    (length (b_work b) + length (b_seen a) = length (b_work a) + length (b_seen b))%nat.

  Lemma bal_refl a : bal a a. Proof. unfold bal. lia. Qed.
  Lemma bal_trans a b c : bal a b -> bal b c -> bal a c.
  Proof. unfold bal. lia. Qed.

  Lemma add_T L u i rc st : T st -> dok L u i rc -> T (add L u i rc st) /\ bal st (add L u i rc st).
  Proof.
    intros [A B C D E] H. split.
    - pose proof (add_sound sg input L u i rc st E (proj1 H)) as S. unfold b_add in *.
      destruct (in_dec _ _ _); [split; auto|]. split; cbn; auto.
      + constructor; auto.
      + intros d [<-|X]; auto.
    - unfold b_add, bal. destruct (in_dec _ _ _); cbn; lia.
  Qed.

  Lemma record_T L u k r rc st : T st -> okc sg input L u k rc -> symder sg input L rc k r ->
    T (record (adv L) (g_pos u) k r st) /\ bal st (record (adv L) (g_pos u) k r st).
  Proof.
    intros [A B C D E] H1 H2. pose proof (record_sound sg input mx L u k r rc st E H1 H2) as S.
    unfold b_record, bal in *. destruct (prod_of sg (adv L)); [|split; [split|]; auto].
    destruct (_ || _)%bool; [|split; [split|]; auto]. destruct (_ && _)%bool; [split; [split|]; auto|].
    destruct (in_dec _ _ _); split; try split; auto.
  Qed.

  Lemma fold_T {A} (f : bstate -> A -> bstate) l (P : A -> Prop) :
    (forall s x, P x -> T s -> T (f s x) /\ bal s (f s x)) -> (forall x, In x l -> P x) ->
    forall s, T s -> T (fold_left f l s) /\ bal s (fold_left f l s).
  Proof.
    intros H. induction l; cbn; intros I s S; [split; auto; apply bal_refl|].
    destruct (H s a) as [H1 H2]; auto. destruct (IHl (fun x h => I x (or_intror h)) _ H1) as [H3 H4].
    split; auto. eapply bal_trans; eauto.
  Qed.

  Lemma gok_ret L i rc p X : prod_of sg L = Some p -> nth_error p (s_dot L) = Some (SNonterm X) ->
    (i <= n)%nat -> rcok sg rc -> gok sg n (GN (adv L) i rc).
  Proof.
    intros P N I R. repeat split; auto; try apply R. eapply slots_univ_in; [rewrite prod_adv; eauto|]. cbn.
    assert (nth_error p (s_dot L) <> None) by congruence. apply nth_error_Some in H. lia.
  Qed.

  Lemma create_T L u i rc p X st : T st -> dok L u i rc -> prod_of sg L = Some p ->
    nth_error p (s_dot L) = Some (SNonterm X) ->
    T (create (adv L) u i rc st) /\ bal st (create (adv L) u i rc st).
  Proof.
    intros S (O & G & R) P N. unfold b_create. destruct (in_dec _ _ _) as [Ki|Ki]; [split; auto; apply bal_refl|].
    assert (E : ok_edge sg input (GN (adv L) i rc) u) by (exists L, p, X; auto).
    assert (Gv : gok sg n (GN (adv L) i rc)) by (eapply gok_ret; eauto; apply O).
    set (st1 := mkB _ _ _ _ _ _ _).
    assert (T1 : T st1).
    { destruct S as [A B C D [F1 [F2 [F3 F4]]]]. split; auto.
      - intros v w I. apply in_app_iff in I as [I|[I|[]]]; eauto. inversion I; subst; auto.
      - split; [|split; [|split]]; auto.
        intros v w I. apply in_app_iff in I as [I|[I|[]]]; auto. inversion I; subst. auto. }
    assert (B1 : bal st st1) by (unfold bal; cbn; lia).
    destruct (fold_T (fun s j => add (adv L) u j rc (record (adv L) (g_pos u) i j s))
      (ord (b_tick st) (GN (adv L) i rc) (popped_of (GN (adv L) i rc) (b_popped st))) (fun j => ok_pop sg input (GN (adv L) i rc) j)) with (s := st1) as [X1 X2]; auto.
    - intros s j J Hs. destruct (edge_pop _ _ _ _ _ E J) as (L2 & ret & i2 & rc2 & E1 & E2 & O2 & S2 & O3).
      injection E1 as <- <- <-.
      destruct (record_T L2 u i j rc s Hs O2 S2) as [K1 K2]. rewrite <- E2 in *.
      destruct (add_T (adv L) u j rc _ K1) as [K3 K4]; [repeat split; auto; try apply O3; apply R|].
      split; auto. eapply bal_trans; eauto.
    - intros j J. apply ord_in in J. apply popped_of_in in J. apply S; auto.
  Qed.

  Lemma pop_T u j st : T st -> gok sg n u -> ok_pop sg input u j -> T (pop u j st) /\ bal st (pop u j st).
  Proof.
    intros S G O. unfold b_pop. destruct u as [|ret pos rc]; [split; auto; apply bal_refl|].
    set (st1 := if in_dec _ _ _ then _ else _).
    assert (T1 : T st1 /\ bal st st1).
    { unfold st1. destruct (in_dec _ _ _); [split; auto; apply bal_refl|].
      split; [|unfold bal; cbn; lia]. destruct S as [A B C D [F1 [F2 [F3 F4]]]]. split; auto.
      - cbn [b_popped]. intros v k [I|I]; [inversion I; subst; auto|eauto].
      - split; [|split; [|split]]; auto. cbn [b_popped]. intros v k [I|I]; [inversion I; subst; auto|eauto]. }
    destruct T1 as [T1 B1].
    destruct (fold_T (fun s v => add ret v j rc (record ret (g_pos v) pos j s))
      (edges_of (GN ret pos rc) (b_edges st)) (fun v => ok_edge sg input (GN ret pos rc) v /\ gok sg n v)) with (s := st1) as [X1 X2]; auto.
    - intros s v [E Gv] Hs. destruct (edge_pop _ _ _ _ _ E O) as (L2 & ret2 & i2 & rc2 & E1 & E2 & O2 & S2 & O3).
      injection E1 as <- <- <-.
      destruct (record_T L2 v pos j rc s Hs O2 S2) as [K1 K2]. rewrite <- E2 in *.
      destruct (add_T ret v j rc _ K1) as [K3 K4]; [repeat split; auto; try apply O3; apply G|].
      split; auto. eapply bal_trans; eauto.
    - intros v J. apply edges_of_in in J. split; [apply S; auto|]. exact (proj1 (t_edges _ S _ _ J)).
    - split; auto. eapply bal_trans; eauto.
  Qed.

  Lemma process_T rest : forall L u i rc st p, T st -> dok L u i rc ->
    prod_of sg L = Some p -> skipn (s_dot L) p = rest ->
    T (process rest L u i rc st) /\ bal st (process rest L u i rc st).
  Proof.
    induction rest as [|s rest IH]; cbn [b_process]; intros L u i rc st p S O P K.
    - destruct O as ((C & (p' & P' & Le) & B & D) & G & R). apply pop_T; auto. split; auto.
      exists (base L), rc. split; auto. apply D. rewrite P in P'. inversion P'; subst p'.
      eapply drest_end; eauto. apply skipn_nil_len; auto.
    - destruct (nth_skipn _ _ _ _ K) as (N & K2 & _).
      assert (X : forall j, match_sym s input i = Some j ->
        let st' := process rest (adv L) u j rc (record (adv L) (g_pos u) i j st) in T st' /\ bal st st').
      { intros j M. assert (Sy : symder sg input L rc i j) by (exists p, s; repeat split; auto).
        destruct O as (O & G & R).
        destruct (record_T L u i j rc st S O Sy) as [Y1 Y2].
        destruct (IH (adv L) u j rc _ p Y1) as [Y3 Y4]; auto.
        - split; [eapply okc_adv; eauto|auto].
        - split; auto. eapply bal_trans; eauto. }
      destruct s; [|destruct (match_sym _ _ _) eqn:M; [apply X; reflexivity|split; auto; apply bal_refl]..].
      clear X.
      destruct (create_T L u i rc p nt st S O P N) as [Y1 Y2].
      destruct (fold_T (fun s x => add (fst x) (GN (adv L) i rc) i (snd x) s) (starts sg (s_nt L) rc nt)
         (fun x => In x (starts sg (s_nt L) rc nt))) with (s := create (adv L) u i rc st) as [Y3 Y4]; auto.
      + intros s (L', rc') I Hs. destruct O as (O & G & R). apply add_T; auto. cbn [fst snd]. split; [|split].
        * apply (okc_callee sg input wf_reps (GN (adv L) i rc)); [|cbn; apply O].
          cbn [callees]. rewrite prod_adv, P. cbn. rewrite N. auto.
        * eapply gok_ret; eauto. apply O.
        * eapply rc_step; eauto. apply O.
      + split; auto. eapply bal_trans; eauto.
  Qed.

  Lemma init_T : T (b_init sg).
  Proof.
    unfold b_init. apply fold_T with (P := fun x => In x (start_slots sg)); auto.
    - intros s (L, rc) I S. apply add_T; auto. cbn [fst snd]. split; [|split].
      + apply (okc_callee sg input wf_reps U0); cbn; auto. lia.
      + exact Logic.I.
      + apply start_dot0 in I as (_ & _ & ->). apply rc_0.
    - split; cbn; try tauto; [constructor|]. split; [|split; [|split]]; cbn; tauto.
  Qed.

  Lemma init_bal : length (b_work (b_init sg)) = length (b_seen (b_init sg)).
  Proof.
    unfold b_init.
    assert (G : forall l s, length (b_work s) = length (b_seen s) ->
      let s' := fold_left (fun s x => add (fst x) U0 0%nat (snd x) s) l s in length (b_work s') = length (b_seen s')).
    { induction l; cbn; auto. intros s H. apply IHl. unfold b_add. destruct (in_dec _ _ _); cbn; auto. }
    apply G. reflexivity.
  Qed.

  Lemma run_total fuel : forall st, T st -> incl (b_work st) (b_seen st) ->
    (length (b_work st) + length desc_univ <= fuel + length (b_seen st))%nat ->
    exists st', b_run sg input mx ord fuel st = Some st'.
  Proof.
    assert (SZ : forall st, T st -> (length (b_seen st) <= length desc_univ)%nat).
    { intros st H. apply NoDup_incl_length; [apply H|]. intros [L u i rc] X. apply desc_univ_in.
      apply (t_seen _ H _ X). }
    assert (W : forall rest L u i rc st, incl (b_work st) (b_seen st) ->
       incl (b_work (process rest L u i rc st)) (b_seen (process rest L u i rc st))).
    { set (W := fun st => incl (b_work st) (b_seen st)).
      assert (Wa : forall L u i rc st, W st -> W (add L u i rc st)).
      { unfold W, b_add. intros. destruct (in_dec _ _ _); auto. cbn. intros x [<-|X]; cbn; auto. }
      assert (Wr : forall L l k r st, W st -> W (record L l k r st)).
      { unfold W, b_record. intros. destruct (prod_of sg L); auto. destruct (_ || _)%bool; auto.
        destruct (_ && _)%bool; auto. destruct (in_dec _ _ _); auto. }
      assert (Wf : forall A (f : bstate -> A -> bstate) l, (forall s x, W s -> W (f s x)) ->
        forall s, W s -> W (fold_left f l s)).
      { intros A f l H. induction l; cbn; auto. }
      assert (Wp : forall rest L u i rc st, W st -> W (process rest L u i rc st)).
      { induction rest as [|s rest IH]; cbn; intros.
        - unfold b_pop. destruct u; auto. apply Wf; auto. destruct (in_dec _ _ _); auto.
        - destruct s; try (destruct (match_sym _ _ _); auto). apply Wf; auto.
          unfold b_create. destruct (in_dec _ _ _); auto. }
      exact Wp. }
    induction fuel as [|f IH]; intros st HT HW H; cbn [b_run].
    - destruct (b_work st) as [|d w] eqn:E; [eauto|]. destruct (b_aborted st); [eauto|].
      pose proof (SZ _ HT). cbn in H. lia.
    - destruct (b_work st) as [|d w] eqn:E; [eauto|]. destruct (b_aborted st) eqn:A; [eauto|].
      set (st0 := mkB (b_seen st) w (b_edges st) (b_popped st) (b_set st) false (b_tick st)).
      assert (T0 : T st0) by (destruct HT as [? ? ? ? []]; split; auto; split; auto).
      assert (Dd : dok (bd_L d) (bd_u d) (bd_i d) (bd_rc d)).
      { apply (t_seen _ HT). apply HW. left; auto. }
      unfold b_process_desc. pose proof Dd as ((_ & (p & P & _) & _) & _). rewrite P.
      destruct (process_T _ (bd_L d) (bd_u d) (bd_i d) (bd_rc d) st0 p T0 Dd P eq_refl) as [T1 B1].
      apply IH; auto.
      + apply W. cbn. intros x X. apply HW. right; auto.
      + unfold bal in B1. cbn [b_work b_seen st0] in B1. cbn [length] in H. lia.
  Qed.

  Theorem bsr_terminates fuel : (length desc_univ <= fuel)%nat ->
    exists st, b_parse sg input mx ord fuel = Some st.
  Proof.
    intros H. apply run_total.
    - apply init_T.
    - unfold b_init. assert (G : forall l s, incl (b_work s) (b_seen s) ->
        let s' := fold_left (fun s x => add (fst x) U0 0%nat (snd x) s) l s in incl (b_work s') (b_seen s')).
      { induction l; cbn; auto. intros s K. apply IHl. unfold b_add. destruct (in_dec _ _ _); auto.
        cbn. intros x [<-|X]; cbn; auto. }
      apply G. cbn. apply incl_refl.
    - rewrite init_bal. lia.
  Qed.

  (** *** Budget *)
  Definition small (st : bstate) : Prop := 0 < mx -> Z.of_nat (length (b_set st)) <= mx.

  Theorem bsr_budget fuel st : b_parse sg input mx ord fuel = Some st -> small st.
  Proof.
    assert (Sa : forall L u i rc st, small st -> small (add L u i rc st)).
    { unfold small, b_add. intros. destruct (in_dec _ _ _); auto. }
    assert (Sr : forall L l k r st, small st -> small (record L l k r st)).
    { unfold small, b_record. intros. destruct (prod_of sg L); auto. destruct (_ || _)%bool; auto.
      destruct (_ && _)%bool eqn:E; auto. destruct (in_dec _ _ _); auto. cbn [b_set length].
      apply andb_false_iff in E as [E|E].
      - apply Z.ltb_ge in E. lia.
      - apply Z.leb_gt in E. lia. }
    assert (Sf : forall A (f : bstate -> A -> bstate) l, (forall s x, small s -> small (f s x)) ->
      forall s, small s -> small (fold_left f l s)).
    { intros A f l H. induction l; cbn; auto. }
    assert (Sp : forall rest L u i rc st, small st -> small (process rest L u i rc st)).
    { induction rest as [|s rest IH]; cbn [b_process]; intros.
      - unfold b_pop. destruct u; auto. apply Sf; auto. destruct (in_dec _ _ _); auto.
      - destruct s; try (destruct (match_sym _ _ _); auto). apply Sf; auto.
        unfold b_create. destruct (in_dec _ _ _); auto. }
    assert (R : forall fuel st st', small st -> b_run sg input mx ord fuel st = Some st' -> small st').
    { induction fuel0 as [|f IH]; intros s s' S; cbn [b_run].
      - destruct (b_work s); [intros E; inversion E; subst; auto|].
        destruct (b_aborted s); intros E; inversion E; subst; auto.
      - destruct (b_work s); [intros E; inversion E; subst; auto|].
        destruct (b_aborted s); [intros E; inversion E; subst; auto|]. apply IH.
        unfold b_process_desc. destruct (prod_of sg _); auto. }
    apply R. unfold b_init. apply Sf; auto. unfold small. cbn. lia.
  Qed.

  (** Parsing is abandoned only with a full set. *)
  Definition full (st : bstate) : Prop := b_aborted st = true -> 0 < mx /\ mx <= Z.of_nat (length (b_set st)).
  Theorem bsr_abandons fuel st : b_parse sg input mx ord fuel = Some st -> full st.
  Proof.
    assert (Sa : forall L u i rc st, full st -> full (add L u i rc st)).
    { unfold full, b_add. intros. destruct (in_dec _ _ _); auto. }
    assert (Sr : forall L l k r st, full st -> full (record L l k r st)).
    { unfold full, b_record. intros L l k r s H. destruct (prod_of sg L); auto. destruct (_ || _)%bool; auto.
      destruct (_ && _)%bool eqn:E; [apply andb_true_iff in E as [E1 E2]; cbn [b_set]; lia|]. destruct (in_dec _ _ _); auto.
      cbn [b_set b_aborted length]. intros A. specialize (H A). lia. }
    assert (Sf : forall A (f : bstate -> A -> bstate) l, (forall s x, full s -> full (f s x)) ->
      forall s, full s -> full (fold_left f l s)).
    { intros A f l H. induction l; cbn; auto. }
    assert (Sp : forall rest L u i rc st, full st -> full (process rest L u i rc st)).
    { induction rest as [|s rest IH]; cbn [b_process]; intros.
      - unfold b_pop. destruct u; auto. apply Sf; auto. destruct (in_dec _ _ _); auto.
      - destruct s; try (destruct (match_sym _ _ _); auto). apply Sf; auto.
        unfold b_create. destruct (in_dec _ _ _); auto. }
    assert (R : forall fuel st st', full st -> b_run sg input mx ord fuel st = Some st' -> full st').
    { induction fuel0 as [|f IH]; intros s s' S; cbn [b_run].
      - destruct (b_work s); [intros E; inversion E; subst; auto|].
        destruct (b_aborted s); intros E; inversion E; subst; auto.
      - destruct (b_work s); [intros E; inversion E; subst; auto|].
        destruct (b_aborted s); [intros E; inversion E; subst; auto|]. apply IH.
        unfold b_process_desc. destruct (prod_of sg _); [apply Sp|]; intros X; discriminate. }
    apply R. unfold b_init. apply Sf; auto. unfold full. cbn. discriminate.
  Qed.
End Proof.
