(** The furthest failure reported by ParseForest (sppf.go:537-545, 554-577) is exact. *)
From Coq Require Import ZArith String Bool List Lia.
From Verif Require Import Syntax Spec Utf8 Num Term Printer Slots Gll Bsr BsrProof Sppf SppfProof.
Import ListNotations.
Local Open Scope Z_scope.

(** *** Specification

    [at_slot sg input L rc i]: some left-to-right derivation attempt from the
    start symbol has matched input[0:i] and stands at the dot of [L]. *)
Inductive at_slot (sg : slot_grammar) (input : list Z) : slot -> Z -> nat -> Prop :=
| at_start L rc : In (L, rc) (start_slots sg) -> at_slot sg input L rc 0
| at_term L rc i k p s : at_slot sg input L rc i -> prod_of sg L = Some p ->
    nth_error p (s_dot L) = Some s -> match_sym s input i = Some k ->
    at_slot sg input (adv L) rc k
| at_call L rc i p X L' rc' : at_slot sg input L rc i -> prod_of sg L = Some p ->
    nth_error p (s_dot L) = Some (SNonterm X) -> In (L', rc') (starts sg (s_nt L) rc X) ->
    at_slot sg input L' rc' i
| at_ret L rc i k p X L' rc' : at_slot sg input L rc i -> prod_of sg L = Some p ->
    nth_error p (s_dot L) = Some (SNonterm X) -> In (L', rc') (starts sg (s_nt L) rc X) ->
    drest sg input L' rc' i k -> at_slot sg input (adv L) rc k.

(** The terminal [t] was tried at [i] and did not match. *)
Definition fails_at (sg : slot_grammar) (input : list Z) (t : elem) (i : nat) : Prop :=
  exists L rc p, at_slot sg input L rc i /\ prod_of sg L = Some p /\
    nth_error p (s_dot L) = Some (STerm t) /\ match_term t input i = None.

Lemma at_bounds sg input L rc i : at_slot sg input L rc i -> (i <= length input)%nat.
Proof.
  induction 1 as [L rc H|L rc i k p s H IH P N M|L rc i p X L' rc' H IH P N S|L rc i k p X L' rc' H IH P N S D]; try lia.
  - apply match_sym_bounds in M; lia.
  - apply drest_bounds in D; lia.
Qed.

Section Furthest.
  Variable sg : slot_grammar.
  Variable input : list Z.
  Variable mx : Z.
  Variable ord : nat -> list nkey -> list nkey.
  Hypothesis ord_in : forall t l x, In x (ord t l) <-> In x l.
  Hypothesis wf_reps : forall X nt, nth_error (sg_nts sg) X = Some nt -> nt_isrep nt = true ->
    length (nt_alts nt) = 2%nat.
  Notation okc' := (okc sg input).
  Notation oke' := (ok_edge sg input).
  Notation okp' := (ok_pop sg input).
  Notation at' := (at_slot sg input).

  (** (proof) the return slot of a GSS node expects its symbol at that position. *)
  Definition eat (e : gss) : Prop :=
    match e with
    | U0 => False
    | GN ret i rc => exists L, ret = adv L /\ at' L rc i
    end.

  (* what the report may contain *)
  Definition report (mp : nat) (ex : list string) : Prop :=
    (forall x, In x ex -> exists t, fails_at sg input t mp /\ x = elem_string t) /\
    (ex = [] -> mp = 0%nat) /\ NoDup ex.

  (** (proof) invariant of the main loop: what is known of descriptors, of the GSS and of the
      report. *)
  Record F (st : pstate) : Prop := {
    f_d : forall d, In d (p_seen st) -> okc' (sd_L d) (sd_u d) (sd_i d) (sd_rc d) /\
            at' (sd_L d) (sd_rc d) (sd_i d) /\ (forall z, sd_w d = Some z -> n_end z = sd_i d);
    f_w : incl (p_work st) (p_seen st);
    f_e : forall e, In e (p_edges st) -> oke' (fst e) (snd (snd e)) /\ eat (fst e);
    f_p : forall z, In z (p_popped st) -> okp' (fst z) (n_end (snd z));
    f_r : report (p_maxpos st) (p_expected st) }.

  Lemma add_F L u i w rc st : F st -> okc' L u i rc -> at' L rc i -> (forall z, w = Some z -> n_end z = i) ->
    F (p_add L u i w rc st).
  Proof.
    intros [A B C D E] H1 H2 H3. unfold p_add. destruct (in_dec _ _ _); [split; auto|].
    split; cbn; auto.
    - intros d [<-|X]; auto.
    - intros d [<-|X]; [left|right]; auto.
  Qed.
  Lemma find_F k st : F st -> F (find_node mx k st).
  Proof. intros []. unfold find_node. destruct (packs_of k (p_nodes st)); split; auto. Qed.
  Lemma get_F L w z st : F st -> F (snd (get_node_p sg mx L w z st)) /\ n_end (fst (get_node_p sg mx L w z st)) = n_end z.
  Proof.
    intros H. unfold get_node_p. destruct (node_p sg L w z) as [y [pk|]] eqn:N.
    - pose proof (find_F y st H) as []. split; [split; auto|]. cbn. unfold node_p in N.
      destruct (prod_of sg L); [|inversion N]. destruct (_ && _)%bool; [inversion N|].
      destruct (Nat.eqb _ _); inversion N; subst; auto.
    - split; auto. cbn. unfold node_p in N.
      destruct (prod_of sg L); [|inversion N; auto]. destruct (_ && _)%bool; [inversion N; auto|].
      destruct (Nat.eqb _ _); inversion N; subst; auto.
  Qed.
  Lemma fold_F {A} (f : pstate -> A -> pstate) (P : A -> Prop) l : (forall s x, P x -> F s -> F (f s x)) ->
    (forall x, In x l -> P x) -> forall s, F s -> F (fold_left f l s).
  Proof. intros H. induction l; cbn; auto. Qed.

  Lemma resume_F ret pos rc u w z i st : F st -> oke' (GN ret pos rc) u -> eat (GN ret pos rc) ->
    okp' (GN ret pos rc) i -> n_end z = i ->
    F (let '(y, s') := get_node_p sg mx ret w z st in p_add ret u i (Some y) rc s').
  Proof.
    intros H E (L0 & E0 & A0) P Z. pose proof (get_F ret w z st H) as [G1 G2].
    destruct (get_node_p sg mx ret w z st) as [y s']. cbn in G1, G2.
    destruct (edge_pop _ _ _ _ _ E P) as (L & ret' & i' & rc' & E1 & E2 & O & S & O2).
    injection E1 as <- <- <-.
    apply add_F; auto.
    - assert (L0 = L). { rewrite E0 in E2. destruct L0, L; inversion E2; subst; auto. } subst L0.
      rewrite E2. destruct S as (p & s & P1 & N & [M|(X & L' & rc' & -> & S & D)]).
      + eapply at_term; eauto.
      + eapply at_ret; eauto.
    - intros z' Hz; inversion Hz; subst. congruence.
  Qed.

  Lemma create_F L u i w rc p X st : F st -> okc' L u i rc -> at' L rc i -> prod_of sg L = Some p ->
    nth_error p (s_dot L) = Some (SNonterm X) -> F (p_create sg mx ord (adv L) u i w rc st).
  Proof.
    intros H O A P N. unfold p_create. destruct (in_dec _ _ _); auto.
    assert (E : oke' (GN (adv L) i rc) u) by (exists L, p, X; auto).
    assert (E' : eat (GN (adv L) i rc)) by (exists L; auto).
    apply fold_F with (P := fun z => okp' (GN (adv L) i rc) (n_end z)).
    - intros s z Z Hs. eapply resume_F; eauto.
    - intros z Z. apply ord_in in Z. apply spopped_of_in in Z. apply (f_p _ H) in Z. auto.
    - destruct H. split; cbn; auto. intros e I. apply in_app_iff in I as [I|[<-|[]]]; auto.
  Qed.

  Lemma pop_F u i z st : F st -> okp' u i -> n_end z = i -> F (p_pop sg mx u i z st).
  Proof.
    intros H O Z. unfold p_pop. destruct u as [|ret pos rc]; auto.
    apply fold_F with (P := fun e => oke' (GN ret pos rc) (snd e) /\ eat (GN ret pos rc)).
    - intros s e [E1 E2] Hs. eapply resume_F; eauto.
    - intros e I. apply sedges_of_in in I. apply (f_e _ H) in I. auto.
    - destruct (in_dec _ _ _); auto. destruct H. split; cbn; auto.
      intros y [<-|I]; auto. cbn. rewrite Z. auto.
  Qed.

  Lemma note_F L rc p t i st : F st -> at' L rc i -> prod_of sg L = Some p ->
    nth_error p (s_dot L) = Some (STerm t) -> match_term t input i = None -> F (note_fail i (STerm t) st).
  Proof.
    intros [A B C D (R1 & R2 & R3)] H P N M. unfold note_fail.
    assert (X : fails_at sg input t i) by (exists L, rc, p; auto).
    destruct (Nat.ltb_spec (p_maxpos st) i) as [G|G]; (split; [exact A|exact B|exact C|exact D|]);
      cbn [p_maxpos p_expected].
    - rewrite Nat.eqb_refl. cbn. split; [|split].
      + intros x [<-|[]]. eauto.
      + discriminate.
      + repeat constructor; auto.
    - destruct (Nat.eqb_spec i (p_maxpos st)) as [->|G2]; [|split; auto].
      destruct (in_dec _ _ _) as [I|I]; [split; auto|]. split; [|split].
      + intros x Hx. apply in_app_iff in Hx as [Hx|[<-|[]]]; auto. eauto.
      + intros Hx. destruct (p_expected st); discriminate.
      + apply NoDup_rev in R3. rewrite <- (rev_involutive (p_expected st ++ [elem_string t])).
        apply NoDup_rev. rewrite rev_app_distr. cbn. constructor; auto. rewrite <- in_rev. auto.
  Qed.

  Lemma process_F rest : forall L u i w rc p st, F st -> okc' L u i rc -> at' L rc i ->
    (forall z, w = Some z -> n_end z = i) -> prod_of sg L = Some p -> skipn (s_dot L) p = rest ->
    F (p_process sg input mx ord rest L u i w rc st).
  Proof.
    induction rest as [|s rest IH]; intros L u i w rc p st H O A W P K.
    - assert (OP : okp' u i).
      { destruct O as (C & (p' & P' & Le) & B & D). split; auto.
        exists (base L), rc. split; auto. apply D. rewrite P in P'. inversion P'; subst p'.
        eapply drest_end; eauto. apply skipn_nil_len; auto. }
      cbn [p_process]. destruct w as [z|]; [apply pop_F; auto|].
      apply pop_F; auto. apply find_F; auto.
    - destruct (nth_skipn _ _ _ _ K) as (N & K2 & _).
      assert (T : forall j, match_sym s input i = Some j ->
         F (let '(y, st2) := get_node_p sg mx (adv L) w (NTerm i j) (find_node mx (NTerm i j) st) in
            p_process sg input mx ord rest (adv L) u j (Some y) rc st2)).
      { intros j M. pose proof (get_F (adv L) w (NTerm i j) _ (find_F (NTerm i j) st H)) as [G1 G2].
        destruct (get_node_p _ _ _ _ _ _) as [y st2]. cbn in G1, G2.
        assert (Sy : symder sg input L rc i j) by (exists p, s; repeat split; auto).
        apply IH with (p := p); auto.
        - eapply okc_adv; eauto.
        - eapply at_term; eauto.
        - intros z Hz; inversion Hz; subst; auto. }
      cbn [p_process]. destruct s as [X|t|].
      + apply fold_F with (P := fun x => In x (starts sg (s_nt L) rc X)); auto.
        * intros s [L' rc'] I Hs. cbn. apply add_F; auto; [| |discriminate].
          -- change i with (g_pos (GN (adv L) i rc)) at 2. eapply okc_callee; eauto.
             ++ cbn. rewrite prod_adv, P, N. auto.
             ++ cbn. destruct O as (_ & _ & B & _). lia.
          -- eapply at_call; eauto.
        * eapply create_F; eauto.
      + destruct (match_sym (STerm t) input i) as [j|] eqn:M; auto. eapply note_F; eauto.
      + destruct (match_sym SEps input i) as [j|] eqn:M; auto. discriminate.
  Qed.

  Lemma init_F : F (p_init sg).
  Proof.
    unfold p_init. apply fold_F with (P := fun x => In x (start_slots sg)); auto.
    - intros s [L rc] I Hs. cbn. apply add_F; auto; [| |discriminate].
      + change 0%nat with (g_pos U0). eapply okc_callee; eauto. cbn. lia.
      + apply at_start; auto.
    - split; cbn; try easy. split; [easy|]. split; auto. constructor.
  Qed.

  Lemma run_F fuel : forall st st', F st -> p_run sg input mx ord fuel st = Some st' -> F st'.
  Proof.
    induction fuel as [|f IH]; intros st st' H E; cbn in E; destruct (p_work st) as [|d wk] eqn:W.
    - inversion E; subst; auto.
    - destruct (p_aborted st); inversion E; subst; auto.
    - inversion E; subst; auto.
    - destruct (p_aborted st) eqn:A; [inversion E; subst; auto|]. eapply IH; [|exact E].
      assert (F0 : F (mkP (p_seen st) wk (p_edges st) (p_popped st) (p_nodes st) false (p_maxpos st) (p_expected st) (p_tick st))).
      { destruct H. split; cbn; auto. rewrite W in f_w0. intros x X. apply f_w0. right; auto. }
      unfold p_process_desc. destruct (prod_of sg (sd_L d)) as [p|] eqn:P; auto.
      assert (In d (p_seen st)) as D by (apply (f_w _ H); rewrite W; left; auto).
      apply (f_d _ H) in D as (D1 & D2 & D3). eapply process_F; eauto.
  Qed.

  (** *** Every failure is noted *)
  Definition noted (t : elem) (i : nat) (st : pstate) : Prop :=
    (i < p_maxpos st)%nat \/ (i = p_maxpos st /\ In (elem_string t) (p_expected st)).
  (** (proof) the terminals walked over from a slot were tried and the failure noted. *)
  Fixpoint walked (rest : list ssym) (i : nat) (st : pstate) : Prop :=
    match rest with
    | [] => True
    | SNonterm _ :: _ => True
    | SEps :: rest' => walked rest' i st
    | STerm t :: rest' =>
        match match_term t input i with
        | Some k => walked rest' k st
        | None => noted t i st
        end
    end.
  (** (proof) [walked] for a descriptor. *)
  Definition walkd (d : sdesc) (st : pstate) : Prop :=
    forall p, prod_of sg (sd_L d) = Some p -> walked (skipn (s_dot (sd_L d)) p) (sd_i d) st.

  (* the report only moves forward; the seen set only grows, by queued descriptors *)
  Definition fwdr (a b : pstate) : Prop :=
    (p_maxpos a < p_maxpos b)%nat \/ (p_maxpos a = p_maxpos b /\ incl (p_expected a) (p_expected b)).
  (** (proof) the report only moves forward; the seen set only grows, by queued descriptors. *)
  Definition fwd (a b : pstate) : Prop :=
    fwdr a b /\
    incl (p_work a) (p_work b) /\
    (forall d, In d (p_seen b) -> In d (p_seen a) \/ In d (p_work b)).
  Lemma fwd_same a b : p_maxpos a = p_maxpos b -> p_expected a = p_expected b -> p_work a = p_work b ->
    p_seen a = p_seen b -> fwd a b.
  Proof.
    intros A B C D. unfold fwd, fwdr. rewrite A, B, C, D.
    split; [right; split; auto using incl_refl|]. split; auto using incl_refl.
  Qed.
  Lemma fwd_refl a : fwd a a.
  Proof. apply fwd_same; auto. Qed.
  Lemma fwd_trans a b c : fwd a b -> fwd b c -> fwd a c.
  Proof.
    intros (A1 & A2 & A3) (B1 & B2 & B3). split; [|split].
    - destruct A1 as [A1|[A1 A1']], B1 as [B1|[B1 B1']]; [left|left|left|right]; try lia.
      split; [lia|]. eapply incl_tran; eauto.
    - eapply incl_tran; eauto.
    - intros d D. destruct (B3 d D) as [X|X]; auto. destruct (A3 d X) as [Y|Y]; auto.
  Qed.
  Lemma noted_fwd t i a b : fwdr a b -> noted t i a -> noted t i b.
  Proof. intros [A|[A A']] [N|[N N']]; unfold noted; try (left; lia). right. split; [lia|auto]. Qed.
  Lemma walked_fwd rest : forall i a b, fwdr a b -> walked rest i a -> walked rest i b.
  Proof.
    induction rest as [|[X|t|] rest IH]; cbn; auto; intros i a b H W.
    destruct (match_term t input i); [eapply IH; eauto|eapply noted_fwd; eauto].
  Qed.
  Lemma fold_fwd {A} (f : pstate -> A -> pstate) l : (forall s x, fwd s (f s x)) -> forall s, fwd s (fold_left f l s).
  Proof. intros H. induction l; cbn; intros s; [apply fwd_refl|]. eapply fwd_trans; [apply H|auto]. Qed.
  Lemma add_fwd L u i w rc st : fwd st (p_add L u i w rc st).
  Proof.
    unfold p_add. destruct (in_dec _ _ _); [apply fwd_refl|].
    split; [right; split; auto using incl_refl|]. split; cbn; [apply incl_tl, incl_refl|].
    intros d [<-|X]; auto.
  Qed.
  Lemma find_fwd k st : fwd st (find_node mx k st).
  Proof. unfold find_node. destruct (packs_of k (p_nodes st)); apply fwd_same; auto. Qed.
  Lemma get_fwd L w z st : fwd st (snd (get_node_p sg mx L w z st)).
  Proof.
    unfold get_node_p. destruct (node_p sg L w z) as [y [pk|]]; [|apply fwd_refl]. cbn.
    eapply fwd_trans; [apply (find_fwd y)|]. apply fwd_same; auto.
  Qed.
  Lemma resume_fwd ret u i w z rc st : fwd st (let '(y, s') := get_node_p sg mx ret w z st in p_add ret u i (Some y) rc s').
  Proof.
    pose proof (get_fwd ret w z st) as G. destruct (get_node_p sg mx ret w z st).
    eapply fwd_trans; [apply G|apply add_fwd].
  Qed.
  Lemma create_fwd ret u i w rc st : fwd st (p_create sg mx ord ret u i w rc st).
  Proof.
    unfold p_create. destruct (in_dec _ _ _); [apply fwd_refl|].
    eapply fwd_trans; [|apply fold_fwd; intros; apply resume_fwd]. apply fwd_same; auto.
  Qed.
  Lemma pop_fwd u i z st : fwd st (p_pop sg mx u i z st).
  Proof.
    unfold p_pop. destruct u; [apply fwd_refl|].
    eapply fwd_trans; [|apply fold_fwd; intros; apply resume_fwd].
    destruct (in_dec _ _ _); apply fwd_same; auto.
  Qed.
  Lemma note_fwd i s st : fwd st (note_fail i s st).
  Proof.
    unfold note_fail. destruct (Nat.ltb_spec (p_maxpos st) i).
    - split; [left; auto|]. split; cbn; auto using incl_refl.
    - split; [right; cbn; split; auto|split; cbn; auto using incl_refl].
      destruct (Nat.eqb _ _); auto using incl_refl. destruct (in_dec _ _ _); auto using incl_refl, incl_appl.
  Qed.
  Lemma note_noted i t st : noted t i (note_fail i (STerm t) st).
  Proof.
    unfold noted, note_fail. destruct (Nat.ltb_spec (p_maxpos st) i); cbn [p_maxpos p_expected].
    - right. split; auto. rewrite Nat.eqb_refl. destruct (in_dec _ _ _); cbn; auto.
    - destruct (Nat.eqb_spec i (p_maxpos st)); [right|left; lia]. split; auto.
      destruct (in_dec _ _ _); auto. apply in_app_iff. right; left; auto.
  Qed.
  Lemma process_walk rest : forall L u i w rc st,
    let st' := p_process sg input mx ord rest L u i w rc st in fwd st st' /\ walked rest i st'.
  Proof.
    induction rest as [|s rest IH]; intros L u i w rc st.
    - cbn. split; auto. destruct w; [apply pop_fwd|]. eapply fwd_trans; [apply find_fwd|apply pop_fwd].
    - assert (T : forall j,
         let st' := (let '(y, st2) := get_node_p sg mx (adv L) w (NTerm i j) (find_node mx (NTerm i j) st) in
            p_process sg input mx ord rest (adv L) u j (Some y) rc st2) in fwd st st' /\ walked rest j st').
      { intros j. pose proof (get_fwd (adv L) w (NTerm i j) (find_node mx (NTerm i j) st)) as G.
        destruct (get_node_p _ _ _ _ _ _) as [y st2]. cbn in G.
        destruct (IH (adv L) u j (Some y) rc st2) as [A B]. split; auto.
        eapply fwd_trans; [apply find_fwd|]. eapply fwd_trans; eauto. }
      destruct s as [X|t|].
      + cbn. split; auto. eapply fwd_trans; [apply create_fwd|]. apply fold_fwd. intros; apply add_fwd.
      + cbn [p_process walked match_sym]. destruct (match_term t input i) as [j|] eqn:M.
        * apply T.
        * split; [apply note_fwd|apply note_noted].
      + cbn [p_process walked match_sym]. apply T.
  Qed.

  (** (proof) every seen descriptor is queued or walked. *)
  Definition W (st : pstate) : Prop := forall d, In d (p_seen st) -> In d (p_work st) \/ walkd d st.

  Lemma run_W fuel : forall st st', W st -> p_run sg input mx ord fuel st = Some st' -> W st'.
  Proof.
    induction fuel as [|f IH]; intros st st' H E; cbn in E; destruct (p_work st) as [|d wk] eqn:Wk.
    - inversion E; subst; auto.
    - destruct (p_aborted st); inversion E; subst; auto.
    - inversion E; subst; auto.
    - destruct (p_aborted st) eqn:A; [inversion E; subst; auto|]. eapply IH; [|exact E].
      set (st0 := mkP _ _ _ _ _ _ _ _ _).
      assert (G : fwd st0 (p_process_desc sg input mx ord d st0) /\ walkd d (p_process_desc sg input mx ord d st0)).
      { unfold p_process_desc. unfold walkd. destruct (prod_of sg (sd_L d)) as [p|] eqn:P.
        - destruct (process_walk (skipn (s_dot (sd_L d)) p) (sd_L d) (sd_u d) (sd_i d) (sd_w d) (sd_rc d) st0) as [G1 G2].
          split; auto. intros p' P'. inversion P'; subst. auto.
        - split; [apply fwd_refl|discriminate]. }
      destruct G as [G1 G2]. intros x X. destruct (proj2 (proj2 G1) x X) as [Y|Y]; auto.
      destruct (H x Y) as [Z|Z].
      + rewrite Wk in Z. destruct Z as [->|Z]; auto. left. apply (proj1 (proj2 G1)). auto.
      + right. intros p P. eapply walked_fwd with (a := st0); [exact (proj1 G1)|].
        eapply walked_fwd; [|exact (Z p P)]. right. split; auto using incl_refl.
  Qed.

  Lemma init_W : W (p_init sg).
  Proof.
    assert (G : fwd (mkP [] [] [] [] [] false 0 [] 0) (p_init sg)).
    { unfold p_init. apply fold_fwd. intros; apply add_fwd. }
    intros d D. destruct (proj2 (proj2 G) d D) as [[]|X]. auto.
  Qed.

  Hypothesis wf_nonempty : forall L p, prod_of sg L = Some p -> p <> [].

  Theorem furthest_sound fuel ps : p_parse sg input mx ord fuel = Some ps ->
    report (p_maxpos ps) (p_expected ps).
  Proof. intros E. apply (f_r _ (run_F fuel _ _ init_F E)). Qed.

  Theorem furthest_complete fuel ps : p_parse sg input mx ord fuel = Some ps -> p_aborted ps = false ->
    forall t i, fails_at sg input t i -> noted t i ps.
  Proof.
    intros E Ab. pose proof (run_W fuel _ _ init_W E) as HW.
    destruct (run_R sg input mx ord ord_in wf_nonempty wf_reps fuel _ _ _ (init_R sg wf_nonempty wf_reps) E Ab) as (bs & B & HR & Wk).
    pose proof (init_closed sg input) as (I0 & J0 & S0).
    destruct (run_closed sg input 0 (ord' sg ord) (ord'_in sg ord ord_in) fuel _ _ I0 J0 B) as [L0 [X|(I1 & J1 & W1)]];
      [rewrite (r_ab _ _ _ HR) in X; discriminate|].
    assert (WK : forall L u i rc p, seenp L u i rc bs -> prod_of sg L = Some p -> walked (skipn (s_dot L) p) i ps).
    { intros L u i rc p S P. unfold seenp in S. rewrite (r_seen _ _ _ HR) in S.
      apply in_map_iff in S as ([L' u' i' w' rc'] & S1 & S2). inversion S1; subst.
      destruct (HW _ S2) as [K|K]; [rewrite Wk in K; easy|]. apply (K p P). }
    assert (SD : forall L u i rc p, seenp L u i rc bs -> prod_of sg L = Some p ->
      done sg input (skipn (s_dot L) p) L u i rc bs).
    { intros L' u' i' rc' p' S P. destruct (I1 _ S) as [[]|[K|K]]; [rewrite W1 in K; easy|]. apply K, P. }
    assert (SK : forall L (p : list ssym) s, nth_error p (s_dot L) = Some s ->
       skipn (s_dot L) p = s :: skipn (s_dot (adv L)) p).
    { intros L' p' s' N. destruct (skipn (s_dot L') p') eqn:K.
      - assert (length (skipn (s_dot L') p') = 0)%nat by (rewrite K; auto).
        assert (nth_error p' (s_dot L') <> None) as Q by congruence. apply nth_error_Some in Q.
        rewrite skipn_length in H. lia.
      - apply nth_skipn in K as (K1 & K2 & _). rewrite N in K1. inversion K1; subst. reflexivity. }
    assert (V : forall L rc i, at' L rc i -> exists u, forall p, prod_of sg L = Some p ->
       done sg input (skipn (s_dot L) p) L u i rc bs /\ walked (skipn (s_dot L) p) i ps).
    { induction 1 as [L rc H|L rc i k p s H IH P N M|L rc i p X L' rc' H IH P N S|L rc i k p X L' rc' H IH P N S D].
      - exists U0. intros p P. pose proof (seenp_le _ _ _ _ _ _ L0 (S0 _ _ H)) as Q. eauto.
      - destruct IH as [u IH]. destruct (IH _ P) as [D1 D2]. exists u. intros p' P'.
        rewrite prod_adv, P in P'. inversion P'; subst p'. rewrite (SK _ _ _ N) in D1, D2.
        destruct s as [X|t|]; cbn in M; [discriminate| |].
        + cbn [done walked match_sym] in D1, D2. rewrite M in D2. destruct (D1 _ M). auto.
        + inversion M; subst. cbn [done walked match_sym] in D1, D2. destruct (D1 _ eq_refl). auto.
      - destruct IH as [u IH]. destruct (IH _ P) as [D1 D2]. exists (GN (adv L) i rc). intros p' P'.
        rewrite (SK _ _ _ N) in D1. cbn [done] in D1. destruct D1 as [_ D1]. specialize (D1 _ _ S). eauto.
      - destruct IH as [u IH]. destruct (IH _ P) as [D1 D2]. exists u. intros p' P'.
        rewrite (SK _ _ _ N) in D1. cbn [done] in D1. destruct D1 as [D0 D1]. specialize (D1 _ _ S).
        assert (exists p'', prod_of sg L' = Some p'') as [p'' P''] by (inversion D; eauto).
        destruct (closed_complete sg input bs I1 J1 W1 _ _ _ _ D p'' _ P'' (SD _ _ _ _ _ D1 P'')) as [[A|A] _];
          [discriminate|].
        destruct (J1 _ _ _ _ _ D0 A) as [A1 A2]. eauto. }
    intros t i (L & rc & p & A & P & N & M). destruct (V _ _ _ A) as [u U]. destruct (U _ P) as [_ U'].
    rewrite (SK _ _ _ N) in U'. cbn [walked] in U'. rewrite M in U'. auto.
  Qed.
End Furthest.
