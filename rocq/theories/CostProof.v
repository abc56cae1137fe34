(** The cost of the GLL engines is bounded by a power of the length of the input.
    Its definitions are means of proof and model no code. *)
From Coq Require Import ZArith Arith String Bool List Permutation Lia.
From Verif Require Import Syntax Spec Utf8 Num Term Printer Slots Gll GllUniv Bsr BsrProof BsrTerm Sppf SppfProof Cost.
Import ListNotations.
Local Open Scope nat_scope.

Lemma flat_map_len {A B} (f : A -> list B) c l : (forall x, In x l -> length (f x) <= c) ->
  length (flat_map f l) <= length l * c.
Proof.
  induction l as [|x l IH]; cbn; intros H; [lia|]. rewrite app_length.
  pose proof (H x (or_introl eq_refl)). pose proof (IH (fun y h => H y (or_intror h))). lia.
Qed.

Lemma list_max_in x l : In x l -> x <= list_max l.
Proof.
  induction l as [|y l IH]; cbn [In list_max fold_right]; [easy|]. intros [->|H]; [lia|].
  specialize (IH H). unfold list_max in IH. lia.
Qed.

Definition prod_weight (p : list ssym) : nat := list_sum (map (fun s => S (match_cost s)) p).
Definition nS (sg : slot_grammar) : nat := length (slots_univ sg).
Definition nC (sg : slot_grammar) : nat := length (rcs_univ sg).
Definition nG (sg : slot_grammar) : nat := S (nS sg * nC sg).
Definition nA (sg : slot_grammar) : nat := 2 + list_max (map (fun nt => length (nt_alts nt)) (sg_nts sg)).
Definition nP (sg : slot_grammar) : nat := list_max (map prod_weight (concat (map nt_alts (sg_nts sg)))).
(** The cost of one descriptor, per position. *)
Definition nQ (sg : slot_grammar) : nat := nP sg + nG sg + nA sg + 3.
(** The number of descriptors, per pair of positions. *)
Definition nD (sg : slot_grammar) : nat := nS sg * nG sg * nC sg.

Lemma prod_weight_le sg L p : prod_of sg L = Some p -> prod_weight p <= nP sg.
Proof.
  unfold prod_of. destruct (nth_error (sg_nts sg) (s_nt L)) as [nt|] eqn:E; [|discriminate]. intros P.
  apply list_max_in. apply in_map. apply in_concat. exists (nt_alts nt). split.
  - apply in_map. eapply nth_error_In; eauto.
  - eapply nth_error_In; eauto.
Qed.

Lemma weight_skipn n p : prod_weight (skipn n p) <= prod_weight p.
Proof.
  revert n. induction p as [|x p IH]; intros [|n]; cbn [skipn]; auto.
  change (prod_weight (x :: p)) with (S (match_cost x) + prod_weight p). specialize (IH n). lia.
Qed.

Lemma starts_len sg c rc X : length (starts sg c rc X) <= nA sg.
Proof.
  unfold starts, nA. destruct (nth_error (sg_nts sg) X) as [nt|] eqn:E; [|cbn; lia]. destruct (nt_isrep nt).
  - unfold rep_alts. rewrite app_length. destruct (_ <=? _)%Z, (_ || _)%bool; cbn; lia.
  - rewrite map_length, seq_length. pose proof (list_max_in (length (nt_alts nt)) (map (fun nt => length (nt_alts nt)) (sg_nts sg))) as H.
    assert (In (length (nt_alts nt)) (map (fun nt => length (nt_alts nt)) (sg_nts sg))) as I.
    { apply in_map_iff. exists nt. split; auto. eapply nth_error_In; eauto. }
    specialize (H I). lia.
Qed.
Lemma start_slots_len sg : length (start_slots sg) <= nA sg.
Proof.
  unfold start_slots, nA. destruct (nth_error (sg_nts sg) (sg_start sg)) as [nt|] eqn:E; [|cbn; lia].
  rewrite map_length, seq_length. pose proof (list_max_in (length (nt_alts nt)) (map (fun nt => length (nt_alts nt)) (sg_nts sg))) as H.
  assert (In (length (nt_alts nt)) (map (fun nt => length (nt_alts nt)) (sg_nts sg))) as I.
  { apply in_map_iff. exists nt. split; auto. eapply nth_error_In; eauto. }
  specialize (H I). lia.
Qed.

Lemma gss_univ_len sg n : length (gss_univ sg n) <= nG sg * S n.
Proof.
  unfold gss_univ, nG. cbn [length].
  assert (H : length (flat_map (fun ret => flat_map (fun pos => map (GN ret pos) (rcs_univ sg)) (seq 0 (S n))) (slots_univ sg))
     <= nS sg * (S n * nC sg)).
  { apply flat_map_len. intros x _. etransitivity; [apply flat_map_len with (c := nC sg)|].
    - intros y _. rewrite map_length. apply Nat.le_refl.
    - rewrite seq_length. apply Nat.le_refl. }
  nia.
Qed.

Lemma desc_univ_len sg input : length (desc_univ sg input) <= nD sg * (S (length input) * S (length input)).
Proof.
  unfold desc_univ, nD. set (N := S (length input)).
  etransitivity; [apply flat_map_len with (c := nG sg * N * (N * nC sg))|].
  - intros L _. etransitivity; [apply flat_map_len with (c := N * nC sg)|].
    + intros u _. etransitivity; [apply flat_map_len with (c := nC sg)|].
      * intros i _. rewrite map_length. apply Nat.le_refl.
      * rewrite seq_length. apply Nat.le_refl.
    + apply Nat.mul_le_mono_r. apply gss_univ_len.
  - fold (nS sg). replace (nS sg * (nG sg * N * (N * nC sg))) with (nS sg * nG sg * nC sg * (N * N)) by ring. apply Nat.le_refl.
Qed.

Section BsrBound.
  Variable sg : slot_grammar.
  Variable input : list Z.
  Variable mx : Z.
  Variable ord : nat -> gss -> list nat -> list nat.
  Hypothesis ord_perm : forall t v l, Permutation (ord t v l) l.
  Hypothesis shape : rep_shape sg.
  Hypothesis wf_start : forall nt, nth_error (sg_nts sg) (sg_start sg) = Some nt -> nt_isrep nt = false.
  Notation n := (length input).
  Notation add := b_add.
  Notation record := (b_record sg mx).
  Notation process := (b_process sg input mx ord).
  Notation T := (T sg input).

  Lemma ord_in : forall t v l x, In x (ord t v l) <-> In x l.
  Proof.
    intros t v l x. split; intros H; [eapply Permutation_in; [apply ord_perm|exact H]|
      eapply Permutation_in; [apply Permutation_sym, ord_perm|exact H]].
  Qed.

  (** *** No entry twice *)
  Record ND (st : bstate) : Prop := {
    nd_edges : NoDup (b_edges st);
    nd_popped : NoDup (b_popped st);
    nd_set : NoDup (b_set st) }.
  Lemma add_ND L u i rc st : ND st -> ND (add L u i rc st).
  Proof. intros [A B C]. unfold b_add. destruct (in_dec _ _ _); split; auto. Qed.
  Lemma record_ND L l k r st : ND st -> ND (record L l k r st).
  Proof.
    intros [A B C]. unfold b_record. destruct (prod_of sg L); [|split; auto]. destruct (_ || _)%bool; [|split; auto].
    destruct (_ && _)%bool; [split; auto|]. destruct (in_dec _ _ _); split; auto. cbn. constructor; auto.
  Qed.
  Lemma fold_ND {A} (f : bstate -> A -> bstate) l : (forall s x, ND s -> ND (f s x)) -> forall s, ND s -> ND (fold_left f l s).
  Proof. intros H. induction l; cbn; auto. Qed.
  Lemma NoDup_snoc {A} (x : A) l : NoDup l -> ~ In x l -> NoDup (l ++ [x]).
  Proof.
    intros N I. apply (Permutation_NoDup (Permutation_cons_append l x)). constructor; auto.
  Qed.
  Lemma create_ND ret u i rc st : ND st -> ND (b_create sg mx ord ret u i rc st).
  Proof.
    intros H. unfold b_create. destruct (in_dec _ _ _) as [|NI]; auto. apply fold_ND.
    - intros s x Hs. apply add_ND, record_ND, Hs.
    - destruct H as [A B C]. split; auto. cbn. apply NoDup_snoc; auto.
  Qed.
  Lemma pop_ND u j st : ND st -> ND (b_pop sg mx u j st).
  Proof.
    intros H. unfold b_pop. destruct u; auto. apply fold_ND.
    - intros s x Hs. apply add_ND, record_ND, Hs.
    - destruct (in_dec _ _ _); auto. destruct H as [A B C]. split; auto. cbn. constructor; auto.
  Qed.
  Lemma process_ND rest : forall L u i rc st, ND st -> ND (process rest L u i rc st).
  Proof.
    induction rest as [|s rest IH]; cbn [b_process]; intros L u i rc st H; [apply pop_ND; auto|].
    destruct s; [|destruct (match_sym _ _ _); auto; apply IH, record_ND, H..].
    apply fold_ND; [intros; apply add_ND; auto|]. apply create_ND, H.
  Qed.
  Lemma init_ND : ND (b_init sg).
  Proof. unfold b_init. apply fold_ND; [intros; apply add_ND; auto|]. split; constructor. Qed.

  (** *** Sizes *)
  Lemma seen_le st : T st -> length (b_seen st) <= length (desc_univ sg input).
  Proof.
    intros H. apply NoDup_incl_length; [apply H|]. intros [L u i rc] X. apply desc_univ_in.
    apply (t_seen _ _ _ H _ X).
  Qed.
  Lemma filter_nodup_fst {A B} (dec : forall x y : A, {x = y} + {x <> y}) (u : A) (l : list (A * B)) : NoDup l ->
    NoDup (map snd (filter (fun e => if dec (fst e) u then true else false) l)).
  Proof.
    induction l as [|[a b] l IH]; cbn; intros N; [constructor|]. apply NoDup_cons_iff in N as [N1 N2].
    destruct (dec a u) as [->|]; auto. cbn. constructor; auto. rewrite in_map_iff. intros ((a' & b') & E & I).
    apply filter_In in I as [I1 I2]. cbn in *. subst b'. destruct (dec a' u) as [->|]; [auto|discriminate].
  Qed.
  Lemma edges_of_len st u : T st -> ND st -> length (edges_of u (b_edges st)) <= nG sg * S n.
  Proof.
    intros H N. etransitivity; [|apply gss_univ_len]. apply NoDup_incl_length.
    - apply filter_nodup_fst. apply N.
    - intros v I. apply edges_of_in in I. apply gss_univ_in. exact (proj1 (t_edges _ _ _ H _ _ I)).
  Qed.
  Lemma popped_of_len st v : T st -> ND st -> length (popped_of v (b_popped st)) <= S n.
  Proof.
    intros H N. rewrite <- (seq_length (S n) 0). apply NoDup_incl_length.
    - apply filter_nodup_fst. apply N.
    - intros k I. apply popped_of_in in I. apply (t_sound _ _ _ H) in I. destruct I as [I _]. apply in_seq. lia.
  Qed.
  Lemma edges_len st : T st -> ND st -> length (b_edges st) <= nG sg * nG sg * (S n * S n).
  Proof.
    intros H N. pose proof (gss_univ_len sg n) as G. etransitivity.
    - apply NoDup_incl_length with (l' := list_prod (gss_univ sg n) (gss_univ sg n)); [apply N|].
      intros [v u] I. apply in_prod; apply gss_univ_in; apply (t_edges _ _ _ H _ _ I).
    - rewrite prod_length. nia.
  Qed.
  Lemma popped_len st : T st -> ND st -> length (b_popped st) <= nG sg * (S n * S n).
  Proof.
    intros H N. pose proof (gss_univ_len sg n) as G. etransitivity.
    - apply NoDup_incl_length with (l' := list_prod (gss_univ sg n) (seq 0 (S n))); [apply N|].
      intros [v k] I. apply in_prod; [apply gss_univ_in; apply (t_popped _ _ _ H _ _ I)|].
      apply (t_sound _ _ _ H) in I. destruct I as [I _]. apply in_seq. lia.
    - rewrite prod_length, seq_length. nia.
  Qed.
  Lemma elem_range st e : T st -> In e (b_set st) -> In (be_slot e) (slots_univ sg) /\ be_l e <= n /\ be_k e <= n /\ be_r e <= n.
  Proof.
    intros H I. apply (t_sound _ _ _ H) in I. destruct I as (L & u & rc & E1 & E2 & O1 & S & O2).
    rewrite E1. destruct O2 as (_ & (p & P & Le) & B & _). destruct O1 as (_ & _ & B1 & _).
    split; [eapply slots_univ_in; eauto|]. rewrite E2. lia.
  Qed.
  Lemma set_len st : T st -> ND st -> length (b_set st) <= nS sg * (S n * S n * S n).
  Proof.
    intros H N. set (q := list_prod (slots_univ sg) (list_prod (seq 0 (S n)) (list_prod (seq 0 (S n)) (seq 0 (S n))))).
    assert (E : length q = nS sg * (S n * S n * S n)).
    { unfold q. rewrite !prod_length, !seq_length. unfold nS. ring. }
    rewrite <- E. rewrite <- (map_length (fun x => mkBE (fst x) (fst (snd x)) (fst (snd (snd x))) (snd (snd (snd x)))) q).
    apply NoDup_incl_length; [apply N|]. intros [L l k r] I. destruct (elem_range st _ H I) as (A & B & C & D). cbn [be_slot be_l be_k be_r] in *.
    apply in_map_iff. exists (L, (l, (k, r))). split; auto. unfold q.
    apply in_prod; auto. apply in_prod; [apply in_seq; lia|]. apply in_prod; apply in_seq; lia.
  Qed.

  (** *** Time *)
  Lemma bc_create_len ret u i rc st : T st -> ND st -> bc_create ord ret u i rc st <= S n.
  Proof.
    intros H N. unfold bc_create. destruct (in_dec _ _ _); [lia|].
    rewrite (Permutation_length (ord_perm _ _ _)). apply popped_of_len; auto.
  Qed.
  Lemma bc_pop_len u st : T st -> ND st -> bc_pop u st <= nG sg * S n.
  Proof. intros H N. unfold bc_pop. destruct u; [lia|]. apply edges_of_len; auto. Qed.

  Lemma bc_process_len rest : forall L u i rc st p, T st -> ND st -> dok sg input L u i rc ->
    prod_of sg L = Some p -> skipn (s_dot L) p = rest ->
    bc_process sg input mx ord rest L u i rc st <= prod_weight rest + 1 + nG sg * S n + S n + nA sg.
  Proof.
    induction rest as [|s rest IH]; cbn [bc_process]; intros L u i rc st p H N O P K.
    - pose proof (bc_pop_len u st H N). unfold prod_weight. cbn [map list_sum fold_right]. lia.
    - destruct (nth_skipn _ _ _ _ K) as (Nt & K2 & _).
      assert (W : prod_weight (s :: rest) = S (match_cost s) + prod_weight rest) by reflexivity.
      assert (X : forall j, match_sym s input i = Some j ->
        bc_process sg input mx ord rest (adv L) u j rc (record (adv L) (g_pos u) i j st)
          <= prod_weight rest + 1 + nG sg * S n + S n + nA sg).
      { intros j M. assert (Sy : symder sg input L rc i j) by (exists p, s; repeat split; auto).
        destruct O as (O & G & R).
        destruct (record_T sg input mx L u i j rc st H O Sy) as [Y1 _].
        apply (IH (adv L) u j rc _ p Y1); auto.
        - apply record_ND, N.
        - split; [eapply okc_adv; eauto|auto]. }
      rewrite W. destruct s as [X0|t|].
      + pose proof (bc_create_len (adv L) u i rc st H N). pose proof (starts_len sg (s_nt L) rc X0). lia.
      + destruct (match_sym _ _ _) eqn:M; [specialize (X _ eq_refl)|]; lia.
      + destruct (match_sym _ _ _) eqn:M; [specialize (X _ eq_refl)|]; lia.
  Qed.

  Lemma bc_process_desc_len d st : T st -> ND st -> dok sg input (bd_L d) (bd_u d) (bd_i d) (bd_rc d) ->
    S (bc_process_desc sg input mx ord d st) <= nQ sg * S n.
  Proof.
    intros H N D. unfold bc_process_desc. pose proof D as ((_ & (p & P & _) & _) & _). rewrite P.
    pose proof (bc_process_len _ (bd_L d) (bd_u d) (bd_i d) (bd_rc d) st p H N D P eq_refl) as B.
    pose proof (prod_weight_le sg _ _ P). pose proof (weight_skipn (s_dot (bd_L d)) p).
    unfold nQ. nia.
  Qed.

  (** What holds before every round of the loop. *)
  Record good (st : bstate) : Prop := { gd_T : T st; gd_N : ND st; gd_W : incl (b_work st) (b_seen st) }.
  Definition drop (st : bstate) (w : list bdesc) : bstate :=
    mkB (b_seen st) w (b_edges st) (b_popped st) (b_set st) (b_aborted st) (b_tick st).

  Lemma work_process rest : forall L u i rc st, incl (b_work st) (b_seen st) ->
    incl (b_work (process rest L u i rc st)) (b_seen (process rest L u i rc st)).
  Proof.
    set (W := fun st => incl (b_work st) (b_seen st)).
    assert (Wa : forall L u i rc st, W st -> W (add L u i rc st)).
    { unfold W, b_add. intros. destruct (in_dec _ _ _); auto. cbn. intros x [<-|X]; cbn; auto. }
    assert (Wr : forall L l k r st, W st -> W (record L l k r st)).
    { unfold W, b_record. intros. destruct (prod_of sg L); auto. destruct (_ || _)%bool; auto.
      destruct (_ && _)%bool; auto. destruct (in_dec _ _ _); auto. }
    assert (Wf : forall A (f : bstate -> A -> bstate) l, (forall s x, W s -> W (f s x)) ->
      forall s, W s -> W (fold_left f l s)).
    { intros A f l H. induction l; cbn; auto. }
    induction rest as [|s rest IH]; cbn; intros.
    - unfold b_pop. destruct u; auto. apply Wf; auto. destruct (in_dec _ _ _); auto.
    - destruct s; try (destruct (match_sym _ _ _); auto; apply IH; apply Wr; auto). apply Wf; auto.
      unfold b_create. destruct (in_dec _ _ _); auto.
  Qed.

  Lemma good_step d w st : good st -> b_work st = d :: w ->
    dok sg input (bd_L d) (bd_u d) (bd_i d) (bd_rc d) /\ good (drop st w) /\
    good (b_process_desc sg input mx ord d (drop st w)) /\
    bal (drop st w) (b_process_desc sg input mx ord d (drop st w)).
  Proof.
    intros [H N W] E. 
    assert (D : dok sg input (bd_L d) (bd_u d) (bd_i d) (bd_rc d)).
    { apply (t_seen _ _ _ H). apply W. rewrite E. left; auto. }
    assert (G0 : good (drop st w)).
    { split.
      - destruct H as [? ? ? ? []]; split; auto; split; auto.
      - destruct N; split; auto.
      - cbn. intros x X. apply W. rewrite E. right; auto. }
    split; auto. split; auto. unfold b_process_desc. pose proof D as ((_ & (p & P & _) & _) & _). rewrite P.
    destruct (process_T sg input mx ord ord_in shape wf_start _ (bd_L d) (bd_u d) (bd_i d) (bd_rc d) (drop st w) p (gd_T _ G0) D P eq_refl) as [T1 B1].
    split; auto. split; auto; [apply process_ND; apply G0|]. apply work_process. apply G0.
  Qed.
  Lemma good_init : good (b_init sg).
  Proof.
    split; [exact (init_T sg input shape)|apply init_ND|].
    unfold b_init. assert (G : forall l s, incl (b_work s) (b_seen s) ->
      let s' := fold_left (fun s x => add (fst x) U0 0%nat (snd x) s) l s in incl (b_work s') (b_seen s')).
    { induction l; cbn; auto. intros s K. apply IHl. unfold b_add. destruct (in_dec _ _ _); auto.
      cbn. intros x [<-|X]; cbn; auto. }
    apply G. cbn. apply incl_refl.
  Qed.

  Lemma bc_run_len fuel : forall st, good st ->
    bc_run sg input mx ord fuel st + nQ sg * S n * length (b_seen st) <=
      nQ sg * S n * (length (desc_univ sg input) + length (b_work st)).
  Proof.
    set (q := nQ sg * S n).
    assert (Z : forall a b, a <= length (desc_univ sg input) -> 0 + q * a <= q * (length (desc_univ sg input) + b)).
    { intros a b H. cbn [Nat.add]. apply Nat.mul_le_mono_l. lia. }
    induction fuel as [|f IH]; intros st G; pose proof (seen_le st (gd_T _ G)) as Le; cbn [bc_run].
    - destruct (b_work st) as [|d w] eqn:E; [apply Z; auto|]. destruct (b_aborted st); apply Z; auto.
    - destruct (b_work st) as [|d w] eqn:E; [apply Z; auto|]. destruct (b_aborted st) eqn:A; [apply Z; auto|].
      destruct (good_step d w st G E) as (D & G0 & G1 & B). unfold drop in G0, G1, B. rewrite A in G0, G1, B.
      set (st0 := mkB (b_seen st) w (b_edges st) (b_popped st) (b_set st) false (b_tick st)) in *.
      pose proof (bc_process_desc_len d st0 (gd_T _ G0) (gd_N _ G0) D) as C. fold q in C.
      specialize (IH _ G1). unfold bal in B. cbn [b_work b_seen st0] in B. cbn [length].
      set (st1 := b_process_desc sg input mx ord d st0) in *. set (U := length (desc_univ sg input)) in *.
      assert (Y : q * (U + length (b_work st1)) + q * length (b_seen st) = q * (U + length w) + q * length (b_seen st1)).
      { rewrite <- !Nat.mul_add_distr_l. f_equal. lia. }
      rewrite (Nat.mul_add_distr_l q U (S _)), Nat.mul_succ_r. rewrite (Nat.mul_add_distr_l q U (length w)) in Y. lia.
  Qed.

  Theorem bc_parse_len fuel : bc_parse sg input mx ord fuel <= (nA sg + nQ sg * nD sg) * (S n * S n * S n).
  Proof.
    unfold bc_parse. pose proof (bc_run_len fuel _ good_init) as H. pose proof (start_slots_len sg) as A.
    rewrite (init_bal sg) in H. pose proof (desc_univ_len sg input) as D.
    assert (H1 : bc_run sg input mx ord fuel (b_init sg) <= nQ sg * S n * length (desc_univ sg input)) by nia.
    assert (H2 : nQ sg * S n * length (desc_univ sg input) <= nQ sg * S n * (nD sg * (S n * S n))) by (apply Nat.mul_le_mono_l; auto).
    assert (H3 : nQ sg * S n * (nD sg * (S n * S n)) = nQ sg * nD sg * (S n * S n * S n)) by ring.
    assert (H4 : 1 <= S n * S n * S n) by nia. nia.
  Qed.

  Lemma good_run fuel : forall st st', good st -> b_run sg input mx ord fuel st = Some st' -> good st'.
  Proof.
    induction fuel as [|f IH]; intros st st' G; cbn [b_run].
    - destruct (b_work st); [intros E; injection E as <-; auto|]. destruct (b_aborted st); [intros E; injection E as <-; auto|discriminate].
    - destruct (b_work st) as [|d w] eqn:W; [intros E; injection E as <-; auto|]. destruct (b_aborted st) eqn:A; [intros E; injection E as <-; auto|].
      destruct (good_step d w st G W) as (D & G0 & G1 & B). unfold drop in G1. rewrite A in G1. apply IH; auto.
  Qed.

  Theorem bsr_sizes fuel st : b_parse sg input mx ord fuel = Some st ->
    length (b_seen st) <= nD sg * (S n * S n) /\ length (b_edges st) <= nG sg * nG sg * (S n * S n) /\
    length (b_popped st) <= nG sg * (S n * S n) /\ length (b_set st) <= nS sg * (S n * S n * S n).
  Proof.
    intros E. pose proof (good_run _ _ _ good_init E) as [H N W].
    split; [etransitivity; [apply seen_le; auto|apply desc_univ_len]|]. split; [apply edges_len; auto|].
    split; [apply popped_len; auto|apply set_len; auto].
  Qed.
End BsrBound.

(** ** The SPPF engine *)
Lemma pack_scan_le pk ps : pack_scan pk ps <= length ps.
Proof. induction ps as [|q ps IH]; cbn; [lia|]. destruct (pack_eq_dec pk q); lia. Qed.
Lemma pack_scan_new pk ps : ~ In pk ps -> pack_scan pk ps = length ps.
Proof.
  induction ps as [|q ps IH]; cbn; intros H; auto. destruct (pack_eq_dec pk q) as [->|]; [exfalso; auto|]. f_equal. auto.
Qed.

Definition allowed (n : nat) (k : nkey) : Prop := match k with NTerm a b => a <= n /\ b <= n | _ => True end.

(** What happens to the node table: [m] calls of addPack look at [c] packs. *)
Inductive tsteps (n : nat) : nat -> nat -> ntable -> ntable -> Prop :=
| ts_refl t : tsteps n 0 0 t t
| ts_new k t : allowed n k -> packs_of k t = None -> tsteps n 0 0 t (t ++ [(k, [])])%list
| ts_pack k pk ps t : packs_of k t = Some ps -> tsteps n 1 (pack_scan pk ps) t (add_pack k pk t)
| ts_trans m c m' c' t t' t'' : tsteps n m c t t' -> tsteps n m' c' t' t'' -> tsteps n (m + m') (c + c') t t''.

Definition bounded (M : nat) (t : ntable) : Prop := forall k ps, packs_of k t = Some ps -> length ps <= M.

Lemma ts_grow n m c t t' : tsteps n m c t t' -> forall k ps, packs_of k t = Some ps ->
  exists ps', packs_of k t' = Some ps' /\ length ps <= length ps'.
Proof.
  induction 1 as [t|k t A N|k pk ps t P|m c m' c' t t' t'' H1 IH1 H2 IH2]; intros k0 ps0 E; eauto.
  - exists ps0. rewrite packs_app, E. auto.
  - rewrite packs_add, E. eexists. split; [reflexivity|]. destruct (nkey_eq_dec k0 k); auto.
    destruct (in_dec _ _ _); auto. rewrite app_length. cbn. lia.
  - destruct (IH1 _ _ E) as (p1 & E1 & L1). destruct (IH2 _ _ E1) as (p2 & E2 & L2). exists p2. split; auto. lia.
Qed.
Lemma ts_bounded n m c t t' M : tsteps n m c t t' -> bounded M t' -> bounded M t.
Proof.
  intros H B k ps E. destruct (ts_grow _ _ _ _ _ H _ _ E) as (ps' & E' & L). specialize (B _ _ E'). lia.
Qed.
Lemma ts_cost n m c t t' M : tsteps n m c t t' -> bounded M t' -> c <= m * M.
Proof.
  induction 1 as [t|k t A N|k pk ps t P|m c m' c' t t' t'' H1 IH1 H2 IH2]; intros B; try lia.
  - destruct (ts_grow _ _ _ _ _ (ts_pack n k pk ps t P) _ _ P) as (ps' & E' & L). specialize (B _ _ E').
    pose proof (pack_scan_le pk ps). lia.
  - specialize (IH2 B). specialize (IH1 (ts_bounded _ _ _ _ _ _ H2 B)). lia.
Qed.

(** Every pair of packs of a node was compared when the later one was added. *)
Fixpoint tri (m : nat) : nat := match m with O => 0 | S m' => m' + tri m' end.
Definition pairs (t : ntable) : nat := list_sum (map (fun e => tri (length (snd e))) t).
Lemma pairs_app t t' : pairs (t ++ t') = pairs t + pairs t'.
Proof. unfold pairs. rewrite map_app, list_sum_app. reflexivity. Qed.
Lemma pairs_add k pk t ps : packs_of k t = Some ps -> pairs (add_pack k pk t) <= pairs t + pack_scan pk ps.
Proof.
  intros E. destruct (add_pack_split _ pk _ _ E) as (a & b & -> & N & ->). rewrite !pairs_app.
  assert (X : forall q r, pairs ((k, q) :: r) = tri (length q) + pairs r) by reflexivity. rewrite !X.
  destruct (in_dec pack_eq_dec pk ps) as [|NI]; [lia|]. rewrite (pack_scan_new _ _ NI), app_length.
  replace (length ps + length [pk]) with (S (length ps)) by (cbn; lia). cbn [tri]. lia.
Qed.
Lemma ts_pairs n m c t t' : tsteps n m c t t' -> pairs t' <= pairs t + c.
Proof.
  induction 1 as [t|k t A N|k pk ps t P|m c m' c' t t' t'' H1 IH1 H2 IH2]; try lia.
  - rewrite pairs_app. change (pairs [(k, [])]) with 0. lia.
  - apply pairs_add; auto.
Qed.

Lemma packs_of_key k t : packs_of k t <> None <-> In k (map fst t).
Proof.
  induction t as [|[k' ps] t IH]; cbn; [tauto|]. destruct (nkey_eq_dec k k') as [->|Ne]; [split; auto; congruence|].
  rewrite IH. split; auto. intros [E|E]; auto. congruence.
Qed.
Lemma add_pack_keys k pk t : map fst (add_pack k pk t) = map fst t.
Proof. induction t as [|[k' ps] t IH]; cbn; auto. destruct (nkey_eq_dec k k'); cbn; congruence. Qed.
Definition keys_ok (n : nat) (t : ntable) : Prop := NoDup (map fst t) /\ forall k, In k (map fst t) -> allowed n k.
Lemma ts_keys n m c t t' : tsteps n m c t t' -> keys_ok n t -> keys_ok n t'.
Proof.
  induction 1 as [t|k t A N|k pk ps t P|m c m' c' t t' t'' H1 IH1 H2 IH2]; auto; intros [K1 K2].
  - split; rewrite map_app; cbn.
    + apply NoDup_snoc; auto. intros I. apply packs_of_key in I. auto.
    + intros k0 I. apply in_app_iff in I as [I|[<-|[]]]; auto.
  - split; rewrite add_pack_keys; auto.
Qed.

Section ForestBound.
  Variable sg : slot_grammar.
  Variable input : list Z.
  Variable mx : Z.
  Variable ord : nat -> list nkey -> list nkey.
  Notation n := (length input).
  Notation ts := (tsteps (length input)).

  Lemma find_ts k st : allowed n k -> ts 0 0 (p_nodes st) (p_nodes (find_node mx k st)).
  Proof.
    intros A. unfold find_node. destruct (packs_of k (p_nodes st)) eqn:E; [apply ts_refl|]. cbn. apply ts_new; auto.
  Qed.
  Lemma get_ts L w z st : exists m, m <= 1 /\
    ts m (cc_get sg L w z st) (p_nodes st) (p_nodes (snd (get_node_p sg mx L w z st))).
  Proof.
    unfold cc_get, get_node_p. destruct (node_p sg L w z) as [y [pk|]] eqn:E; [|exists 0; split; [lia|apply ts_refl]].
    assert (A : allowed n y).
    { unfold node_p in E. destruct (prod_of sg L) as [p|]; [|discriminate]. destruct (_ && _)%bool; [discriminate|].
      injection E as <- _. destruct (Nat.eqb _ _); exact Logic.I. }
    exists 1. split; auto. cbn [snd p_nodes]. pose proof (find_ts y st A) as F.
    destruct (packs_of y (p_nodes st)) as [ps|] eqn:P.
    - refine (ts_trans n 0 0 1 (pack_scan pk ps) _ _ _ F _).
      apply ts_pack. unfold find_node. rewrite P. auto.
    - refine (ts_trans n 0 0 1 (pack_scan pk []) _ _ _ F _).
      apply ts_pack. unfold find_node. rewrite P. cbn. rewrite packs_app, P. cbn. destruct (nkey_eq_dec y y); congruence.
  Qed.
  Lemma add_nodes L u i w rc st : p_nodes (p_add L u i w rc st) = p_nodes st.
  Proof. unfold p_add. destruct (in_dec _ _ _); reflexivity. Qed.
  Lemma fold_ts {A} (c : pstate -> A -> nat) (f : pstate -> A -> pstate) l :
    (forall s x, exists m, m <= 1 /\ ts m (c s x) (p_nodes s) (p_nodes (f s x))) ->
    forall s, exists m, m <= length l /\ ts m (fold_cost c f l s) (p_nodes s) (p_nodes (fold_left f l s)).
  Proof.
    intros H. induction l as [|x l IH]; intros s; cbn [fold_cost fold_left]; [exists 0; split; [lia|apply ts_refl]|].
    destruct (H s x) as (m1 & L1 & T1). destruct (IH (f s x)) as (m2 & L2 & T2).
    exists (m1 + m2). split; [cbn; lia|]. eapply ts_trans; eauto.
  Qed.
  Lemma resume_ts ret w z u i rc s : exists m, m <= 1 /\
    ts m (cc_get sg ret w z s) (p_nodes s) (p_nodes (let '(y, s') := get_node_p sg mx ret w z s in p_add ret u i (Some y) rc s')).
  Proof.
    destruct (get_ts ret w z s) as (m & L & T). exists m. split; auto. destruct (get_node_p sg mx ret w z s) as [y s'].
    rewrite add_nodes. exact T.
  Qed.
  Lemma create_ts ret u i w rc st : exists m, m <= pc_create ord ret u i w rc st /\
    ts m (cc_create sg mx ord ret u i w rc st) (p_nodes st) (p_nodes (p_create sg mx ord ret u i w rc st)).
  Proof.
    unfold pc_create, cc_create, p_create. destruct (in_dec _ _ _); [exists 0; split; auto; apply ts_refl|].
    set (st1 := mkP _ _ _ _ _ _ _ _ _). change (p_nodes st) with (p_nodes st1).
    apply (fold_ts (fun s z => cc_get sg ret w z s)
             (fun s z => let '(y, s') := get_node_p sg mx ret w z s in p_add ret u (n_end z) (Some y) rc s')).
    intros s x. apply resume_ts.
  Qed.
  Lemma pop_ts u i z st : exists m, m <= pc_pop u st /\
    ts m (cc_pop sg mx u i z st) (p_nodes st) (p_nodes (p_pop sg mx u i z st)).
  Proof.
    unfold pc_pop, cc_pop, p_pop. destruct u as [|ret pos rc]; [exists 0; split; auto; apply ts_refl|].
    set (st1 := if in_dec gk_eq_dec _ _ then _ else _).
    assert (E : p_nodes st = p_nodes st1) by (unfold st1; destruct (in_dec _ _ _); auto). rewrite E.
    apply (fold_ts (fun s e => cc_get sg ret (fst e) z s)
             (fun s e => let '(y, s') := get_node_p sg mx ret (fst e) z s in p_add ret (snd e) i (Some y) rc s')).
    intros s x. apply resume_ts.
  Qed.
  Lemma fold_add_nodes l (f : slot * Z -> slot) v i (h : slot * Z -> Z) : forall st,
    p_nodes (fold_left (fun s x => p_add (f x) v i None (h x) s) l st) = p_nodes st.
  Proof. induction l as [|x l IH]; cbn; intros st; auto. rewrite IH. apply add_nodes. Qed.
  Lemma find_edges k st : p_edges (find_node mx k st) = p_edges st.
  Proof. unfold find_node. destruct (packs_of k (p_nodes st)); reflexivity. Qed.
  Lemma note_nodes i s st : p_nodes (note_fail i s st) = p_nodes st.
  Proof. unfold note_fail. destruct (if Nat.ltb _ _ then _ else _). reflexivity. Qed.

  Lemma process_ts rest : forall L u i w rc st, i <= n -> exists m, m <= pc_process sg input mx ord rest L u i w rc st /\
    ts m (cc_process sg input mx ord rest L u i w rc st) (p_nodes st) (p_nodes (p_process sg input mx ord rest L u i w rc st)).
  Proof.
    induction rest as [|s rest IH]; intros L u i w rc st I; cbn [pc_process cc_process p_process].
    - destruct w as [z|].
      + destruct (pop_ts u i z st) as (m & Le & H). exists m. split; auto.
      + destruct (pop_ts u i (NTerm i i) (find_node mx (NTerm i i) st)) as (m & Le & H). exists m. split.
        * unfold pc_pop in *. rewrite find_edges in Le. destruct u; lia.
        * refine (ts_trans n 0 0 m _ _ _ _ (find_ts (NTerm i i) st (conj I I)) H).
    - assert (X : match_sym s input i = None ->
         exists m, m <= S (match_cost s + 0) /\ ts m 0 (p_nodes st) (p_nodes (note_fail i s st))).
      { intros _. exists 0. split; [lia|]. rewrite note_nodes. apply ts_refl. }
      assert (Y : forall j, match_sym s input i = Some j -> exists m, 
        m <= S (match_cost s + (let '(y, st2) := get_node_p sg mx (adv L) w (NTerm i j) (find_node mx (NTerm i j) st) in
                pc_process sg input mx ord rest (adv L) u j (Some y) rc st2)) /\
        ts m (let '(y, st2) := get_node_p sg mx (adv L) w (NTerm i j) (find_node mx (NTerm i j) st) in
              cc_get sg (adv L) w (NTerm i j) (find_node mx (NTerm i j) st) + cc_process sg input mx ord rest (adv L) u j (Some y) rc st2)
          (p_nodes st)
          (p_nodes (let '(y, st2) := get_node_p sg mx (adv L) w (NTerm i j) (find_node mx (NTerm i j) st) in
                    p_process sg input mx ord rest (adv L) u j (Some y) rc st2))).
      { intros j M. pose proof (match_sym_bounds _ _ _ _ I M) as B.
        assert (F : ts 0 0 (p_nodes st) (p_nodes (find_node mx (NTerm i j) st))) by (apply find_ts; cbn; lia).
        destruct (get_ts (adv L) w (NTerm i j) (find_node mx (NTerm i j) st)) as (m1 & L1 & T1).
        destruct (get_node_p sg mx (adv L) w (NTerm i j) (find_node mx (NTerm i j) st)) as [y st2]. cbn [snd] in T1.
        destruct (IH (adv L) u j (Some y) rc st2 ltac:(lia)) as (m2 & L2 & T2).
        exists (0 + (m1 + m2)). split; [lia|].
        refine (ts_trans n 0 0 (m1 + m2) _ _ _ _ F _). eapply ts_trans; eauto. }
      destruct s as [X0|t|].
      + destruct (create_ts (adv L) u i w rc st) as (m & Le & H). exists m. split; [lia|]. rewrite fold_add_nodes. exact H.
      + destruct (match_sym _ _ _) eqn:M; [apply Y; auto|apply X; auto].
      + destruct (match_sym _ _ _) eqn:M; [apply Y; auto|apply X; auto].
  Qed.

  Hypothesis ord_perm : forall t l, Permutation (ord t l) l.
  Lemma ord_in_p : forall t l x, In x (ord t l) <-> In x l.
  Proof.
    intros t l x. split; intros H; [eapply Permutation_in; [apply ord_perm|exact H]|
      eapply Permutation_in; [apply Permutation_sym, ord_perm|exact H]].
  Qed.
  Notation ord2 := (ord' sg ord).
  Notation R := (R sg).
  Lemma ord2_perm t v l : Permutation (ord2 t v l) l.
  Proof.
    unfold ord'. assert (E : map n_end (map (zof sg v) l) = l).
    { rewrite map_map. rewrite <- (map_id l) at 2. apply map_ext. intros x. apply zof_end. }
    rewrite <- E at 2. apply Permutation_map. apply ord_perm.
  Qed.
  Hypothesis nonempty : forall L p, prod_of sg L = Some p -> p <> [].
  Hypothesis shape : rep_shape sg.
  Hypothesis wf_start : forall nt, nth_error (sg_nts sg) (sg_start sg) = Some nt -> nt_isrep nt = false.
  Notation good := (good sg input).

  (** *** The loops are those of the BSR engine *)
  Lemma pop_same u ps bs : R ps bs -> pc_pop u ps = bc_pop u bs.
  Proof.
    intros H. unfold pc_pop, bc_pop. destruct u; auto. rewrite (r_edges _ _ _ H), edges_map, map_length. reflexivity.
  Qed.
  Lemma create_same L p X u i w rc ps bs : R ps bs -> dinv sg L u i w -> prod_of sg L = Some p ->
    nth_error p (s_dot L) = Some (SNonterm X) ->
    pc_create ord (adv L) u i w rc ps = bc_create ord2 (adv L) u i rc bs.
  Proof.
    intros H D P N. unfold pc_create, bc_create. set (v := GN (adv L) i rc).
    assert (E : In (v, (w, u)) (p_edges ps) <-> In (v, u) (b_edges bs)).
    { rewrite (r_edges _ _ _ H), in_map_iff. split.
      - intros I. exists (v, (w, u)). auto.
      - intros ((v', (w', u')) & E & I). inversion E; cbn in *; subst.
        destruct (r_oke _ _ _ H _ I) as [E' _]. cbn in E'. destruct E' as (L' & p' & X' & A1 & A2 & A3 & A4).
        assert (L = L') by (destruct L, L'; cbn in A1; inversion A1; reflexivity). subst L'.
        rewrite (dinv_inj _ _ _ _ _ _ D A4). auto. }
    destruct (in_dec sedge_eq_dec _ _) as [I|I], (in_dec gg_eq_dec _ _) as [I'|I']; try tauto.
    unfold ord'. rewrite map_length. rewrite (r_tick _ _ _ H), (r_popped _ _ _ H), (popped_map sg v _ (p_nodes ps)) by apply (r_okz _ _ _ H).
    reflexivity.
  Qed.

  Lemma process_same rest : forall L u i w rc ps bs p, R ps bs -> dinv sg L u i w -> wknown w (p_nodes ps) ->
    prod_of sg L = Some p -> skipn (s_dot L) p = rest ->
    pc_process sg input mx ord rest L u i w rc ps = bc_process sg input 0 ord2 rest L u i rc bs.
  Proof.
    induction rest as [|s rest IH]; intros L u i w rc ps bs p H D K P E; cbn [pc_process bc_process]; f_equal.
    - apply pop_same; auto.
    - destruct (nth_skipn _ _ _ _ E) as (N & E2 & _).
      assert (Y : (forall X, s <> SNonterm X) -> forall j,
        (let '(y, st2) := get_node_p sg mx (adv L) w (NTerm i j) (find_node mx (NTerm i j) ps) in
         pc_process sg input mx ord rest (adv L) u j (Some y) rc st2) =
        bc_process sg input 0 ord2 rest (adv L) u j rc (b_record sg 0 (adv L) (g_pos u) i j bs)).
      { intros NT j. destruct (get_node_p _ _ _ _ _ _) as [y ps'] eqn:G.
        assert (SN : NTerm i j = symnode s i j) by (destruct s; [exfalso; eapply NT; eauto|auto..]).
        assert (H1 : R (find_node mx (NTerm i j) ps) bs) by (apply find_term_R; auto).
        rewrite SN in G. rewrite SN in H1. pose proof D as (D1 & D2 & _).
        destruct (get_R sg mx L p s u i j _ bs w H1 P N D2 D1) with (y := y) (ps' := ps') as (A & B & C & F); auto.
        - eapply wknown_mono; [|exact K]. intros; apply known_find; auto.
        - apply find_known.
        - eapply IH; eauto.
          + eapply dinv_adv; eauto.
          + intros k X; inversion X; subst; auto. }
      destruct s as [X|t|].
      + f_equal. eapply create_same; eauto.
      + f_equal. destruct (match_sym _ _ _); auto. apply Y. discriminate.
      + f_equal. destruct (match_sym _ _ _); auto. apply Y. discriminate.
  Qed.

  (** *** The run *)
  Lemma run_cost fuel : forall ps bs, R ps bs -> good bs ->
    exists ps' bs' m, R ps' bs' /\ good bs' /\ m <= fst (pc_run sg input mx ord fuel ps) /\
      ts m (snd (pc_run sg input mx ord fuel ps)) (p_nodes ps) (p_nodes ps') /\
      (forall x, p_run sg input mx ord fuel ps = Some x -> x = ps') /\
      fst (pc_run sg input mx ord fuel ps) <= bc_run sg input 0 ord2 fuel bs.
  Proof.
    assert (Z : forall ps bs q, R ps bs -> good bs -> exists ps' bs' m, R ps' bs' /\ good bs' /\ m <= fst (0, 0) /\
      ts m (snd (0, 0)) (p_nodes ps) (p_nodes ps') /\ (forall x, Some ps = Some x -> x = ps') /\ fst (0, 0) <= q).
    { intros ps bs q H G. exists ps, bs, 0. split; auto. split; auto. split; auto. split; [apply ts_refl|].
      split; [intros x E; injection E as <-; auto|cbn; lia]. }
    induction fuel as [|f IH]; intros ps bs H G; cbn [pc_run p_run bc_run]; rewrite (r_work _ _ _ H);
      destruct (p_work ps) as [|d wk] eqn:W; cbn [map]; try (apply (Z ps bs); auto; fail).
    - destruct (p_aborted ps); [apply (Z ps bs); auto|].
      destruct (Z ps bs 0 H G) as (ps' & bs' & m & A1 & A2 & A3 & A4 & A5 & A6). exists ps', bs', m.
      split; auto. split; auto. split; auto. split; auto. split; [discriminate|cbn; lia].
    - destruct (p_aborted ps) eqn:A'; [apply (Z ps bs); auto|]. rewrite (r_ab _ _ _ H).
      set (ps0 := mkP (p_seen ps) wk _ _ _ _ _ _ _). set (bs0 := mkB (b_seen bs) (map projd wk) _ _ _ _ _).
      pose proof (step_R sg input mx ord ord_in_p nonempty (wf_reps _ shape) d wk ps bs H W) as S.
      rewrite A', (r_ab _ _ _ H) in S. fold ps0 bs0 in S.
      assert (Wb : b_work bs = projd d :: map projd wk) by (rewrite (r_work _ _ _ H), W; reflexivity).
      destruct (good_step sg input 0 ord2 ord2_perm shape wf_start _ _ _ G Wb) as (Dk & G0 & G1 & _).
      unfold drop in G0, G1. rewrite (r_ab _ _ _ H) in G0, G1. fold bs0 in G0, G1.
      destruct (IH _ _ S G1) as (ps' & bs' & m & A1 & A2 & A3 & A4 & A5 & A6).
      assert (I : In d (p_seen ps)) by (apply (r_okw _ _ _ H); rewrite W; left; auto).
      destruct (r_okd _ _ _ H _ I) as [D K]. pose proof D as (_ & _ & (p & P & _) & _).
      assert (R0 : R ps0 bs0).
      { pose proof (pop_R_work sg d wk ps bs H W) as R0. rewrite A', (r_ab _ _ _ H) in R0. exact R0. }
      assert (C1 : fst (pc_process_desc sg input mx ord d ps0) = bc_process_desc sg input 0 ord2 (projd d) bs0).
      { unfold pc_process_desc, bc_process_desc. cbn [projd bd_L bd_u bd_i bd_rc]. rewrite P. cbn [fst].
        eapply process_same; eauto. }
      destruct (process_ts (skipn (s_dot (sd_L d)) p) (sd_L d) (sd_u d) (sd_i d) (sd_w d) (sd_rc d) ps0) as (m1 & L1 & T1).
      { destruct Dk as ((_ & _ & B & _) & _). cbn in B. lia. }
      exists ps', bs', (m1 + m). split; auto. split; auto. cbn [fst snd].
      split; [|split; [|split]]; auto.
      + unfold pc_process_desc. rewrite P. cbn [fst]. lia.
      + eapply ts_trans; [|exact A4]. unfold pc_process_desc, p_process_desc. rewrite P. exact T1.
      + lia.
  Qed.

  (** *** Packs and nodes *)
  Lemma ekey_ends e : n_start (ekey sg e) = be_l e /\ n_end (ekey sg e) = be_r e.
  Proof. unfold ekey. destruct (prod_of sg (be_slot e)); [destruct (Nat.eqb _ _)|]; auto. Qed.
  Lemma packs_bounded ps bs : R ps bs -> good bs -> bounded (nS sg * S n) (p_nodes ps).
  Proof.
    intros H G k q E. pose proof (r_tbl _ _ _ H) as T.
    set (l := map (fun x => epack sg (mkBE (fst x) (n_start k) (snd x) (n_end k))) (list_prod (slots_univ sg) (seq 0 (S n)))).
    assert (El : length l = nS sg * S n) by (unfold l; rewrite map_length, prod_length, seq_length; reflexivity).
    rewrite <- El. apply NoDup_incl_length; [eapply t_nodup; eauto|].
    intros pk I. destruct (t_from _ _ _ T _ _ _ E I) as (e & Ie & Ek & Ep).
    destruct (elem_range sg input bs e (gd_T _ _ _ G) Ie) as (A & B & C & D).
    destruct (ekey_ends e) as [S1 S2]. rewrite Ek in S1, S2.
    apply in_map_iff. exists (be_slot e, be_k e). cbn [fst snd]. split.
    - rewrite S1, S2. destruct e; exact Ep.
    - apply in_prod; auto. apply in_seq. lia.
  Qed.
  Lemma nodes_len ps bs : R ps bs -> good bs -> keys_ok n (p_nodes ps) ->
    length (p_nodes ps) <= (2 * nS sg + 1) * (S n * S n).
  Proof.
    intros H G [K1 K2]. pose proof (r_tbl _ _ _ H) as T. rewrite <- (map_length fst).
    set (sp := list_prod (seq 0 (S n)) (seq 0 (S n))).
    set (l := (map (fun x => NSym (s_nt (fst x)) (fst (snd x)) (snd (snd x))) (list_prod (slots_univ sg) sp) ++
               map (fun x => NInter (fst x) (fst (snd x)) (snd (snd x))) (list_prod (slots_univ sg) sp) ++
               map (fun x => NTerm (fst x) (snd x)) sp)%list).
    assert (El : length l = (2 * nS sg + 1) * (S n * S n)).
    { unfold l, sp. rewrite !app_length, !map_length, !prod_length, !seq_length. unfold nS. ring. }
    rewrite <- El. apply NoDup_incl_length; auto. intros k I. pose proof (K2 _ I) as A. apply packs_of_key in I.
    assert (Isp : forall a b, a <= n -> b <= n -> In (a, b) sp) by (intros; apply in_prod; apply in_seq; lia).
    destruct (packs_of k (p_nodes ps)) as [q|] eqn:E; [|congruence].
    destruct (t_full _ _ _ T _ _ E) as [(a & b & ->)|NE].
    - cbn in A. apply in_app_iff. right. apply in_app_iff. right. apply in_map_iff. exists (a, b). split; auto. apply Isp; tauto.
    - destruct q as [|pk q]; [congruence|]. destruct (t_from _ _ _ T _ _ pk E (or_introl eq_refl)) as (e & Ie & Ek & Ep).
      destruct (elem_range sg input bs e (gd_T _ _ _ G) Ie) as (B & C & D & F). rewrite <- Ek. unfold ekey.
      assert (Q : In (be_slot e, (be_l e, be_r e)) (list_prod (slots_univ sg) sp)) by (apply in_prod; auto).
      assert (X1 : In (NInter (be_slot e) (be_l e) (be_r e)) l).
      { apply in_app_iff. right. apply in_app_iff. left. apply in_map_iff. eexists. split; [|exact Q]. reflexivity. }
      assert (X2 : In (NSym (s_nt (be_slot e)) (be_l e) (be_r e)) l).
      { apply in_app_iff. left. apply in_map_iff. eexists. split; [|exact Q]. reflexivity. }
      destruct (prod_of sg (be_slot e)); [destruct (Nat.eqb _ _)|]; auto.
  Qed.
  Definition total_packs (t : ntable) : nat := list_sum (map (fun e => length (snd e)) t).
  Lemma packs_len t M : NoDup (map fst t) -> bounded M t -> total_packs t <= length t * M.
  Proof.
    induction t as [|[k ps] t IH]; intros N B; [cbn; lia|]. cbn in N. apply NoDup_cons_iff in N as [N1 N2].
    change (total_packs ((k, ps) :: t)) with (length ps + total_packs t).
    assert (L : length ps <= M). { apply (B k). cbn. destruct (nkey_eq_dec k k); congruence. }
    assert (B' : bounded M t).
    { intros k0 q E. apply (B k0). cbn. destruct (nkey_eq_dec k0 k) as [->|]; auto.
      exfalso. apply N1. apply packs_of_key. congruence. }
    specialize (IH N2 B'). cbn [length]. lia.
  Qed.

  Lemma init_nodes : p_nodes (p_init sg) = [].
  Proof. unfold p_init. rewrite (fold_add_nodes _ fst _ _ snd). reflexivity. Qed.

  (** Everything about a run. *)
  Theorem forest_cost fuel : exists ps bs m, R ps bs /\ good bs /\ keys_ok n (p_nodes ps) /\
    (forall x, p_parse sg input mx ord fuel = Some x -> x = ps) /\
    fst (pc_parse sg input mx ord fuel) <= bc_parse sg input 0 ord2 fuel /\
    m <= fst (pc_parse sg input mx ord fuel) /\
    tsteps n m (snd (pc_parse sg input mx ord fuel)) [] (p_nodes ps).
  Proof.
    pose proof (init_R sg nonempty (wf_reps _ shape)) as R0.
    destruct (run_cost fuel _ _ R0 (good_init sg input shape)) as (ps & bs & m & A1 & A2 & A3 & A4 & A5 & A6).
    exists ps, bs, m. split; auto. split; auto. unfold pc_parse, bc_parse. cbn [fst snd]. rewrite init_nodes in A4.
    split; [eapply ts_keys; [exact A4|]; split; cbn; [constructor|tauto]|].
    split; auto. split; [lia|]. split; [lia|auto].
  Qed.
End ForestBound.
