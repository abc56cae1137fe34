(** The grammar s = s s / "a" makes addPack look at a number of packs that grows with the
    fourth power of the length of the input.
    Its definitions are means of proof and model no code. *)
From Coq Require Import ZArith Arith String Bool List Permutation Lia.
From Verif Require Import Syntax Spec Utf8 Num Term Printer Slots Gll GllUniv Bsr BsrProof BsrTerm Sppf SppfProof Cost CostProof.
Import ListNotations.
Local Open Scope string_scope.
Local Open Scope list_scope.
Local Open Scope nat_scope.

Lemma tri_double m : 2 * tri m = m * (m - 1).
Proof. induction m as [|m IH]; [reflexivity|]. cbn [tri]. destruct m; [reflexivity|]. cbn [Nat.sub] in *. nia. Qed.
Lemma tri_le a b : a <= b -> tri a <= tri b.
Proof. induction 1 as [|b H IH]; auto. cbn [tri]. lia. Qed.

Lemma remove_len {A} (dec : forall x y : A, {x = y} + {x <> y}) x l : NoDup l -> length l <= S (length (remove dec x l)).
Proof.
  induction l as [|y l IH]; cbn [remove length]; intros N; [lia|]. apply NoDup_cons_iff in N as [N1 N2].
  destruct (dec x y) as [->|]; [|cbn; specialize (IH N2); lia]. rewrite notin_remove by auto. lia.
Qed.
Lemma remove_nodup {A} (dec : forall x y : A, {x = y} + {x <> y}) x l : NoDup l -> NoDup (remove dec x l).
Proof.
  induction l as [|y l IH]; cbn [remove]; intros N; auto. apply NoDup_cons_iff in N as [N1 N2].
  destruct (dec x y); auto. constructor; auto. intros I. apply in_remove in I. tauto.
Qed.

(** Many nodes with many packs each. *)
Lemma pairs_many c t : forall ks, NoDup ks -> (forall k, In k ks -> exists ps, packs_of k t = Some ps /\ c <= tri (length ps)) ->
  length ks * c <= pairs t.
Proof.
  induction t as [|[k ps] t IH]; intros ks N H.
  - destruct ks as [|k ks]; [cbn; lia|]. destruct (H k (or_introl eq_refl)) as (ps & E & _). discriminate.
  - change (pairs ((k, ps) :: t)) with (tri (length ps) + pairs t).
    assert (H' : forall k0, In k0 (remove nkey_eq_dec k ks) -> exists q, packs_of k0 t = Some q /\ c <= tri (length q)).
    { intros k0 I. apply in_remove in I as [I Ne]. destruct (H k0 I) as (q & E & L). exists q. split; auto.
      cbn in E. destruct (nkey_eq_dec k0 k); [congruence|auto]. }
    specialize (IH _ (remove_nodup nkey_eq_dec k ks N) H').
    destruct (in_dec nkey_eq_dec k ks) as [I|I].
    + pose proof (remove_len nkey_eq_dec k ks N) as L. destruct (H k I) as (q & E & Lq). cbn in E.
      destruct (nkey_eq_dec k k); [|congruence]. injection E as <-. nia.
    + rewrite notin_remove in IH by auto. lia.
Qed.

Definition sg_double : slot_grammar :=
  mkSG [mkNT true "s" [[SNonterm 0; SNonterm 0]; [STerm (EChar false [97%Z])]] false 0 0] 0.

Section Double.
  Variable n : nat.
  Notation input := (repeat 97%Z n).
  Variable mx : Z.
  Variable ord : nat -> gss -> list nat -> list nat.
  Variable st : bstate.
  Hypothesis HI : BsrProof.I sg_double input noex st.
  Hypothesis HJ : J sg_double st.
  Hypothesis HW : b_work st = [].
  Hypothesis HA : b_aborted st = false.
  Hypothesis H0 : forall L rc, In (L, rc) (start_slots sg_double) -> seenp L U0 0 rc st.
  Notation s00 := (mkSlot 0 0 0).
  Notation s01 := (mkSlot 0 0 1).
  Notation s02 := (mkSlot 0 0 2).
  Notation s10 := (mkSlot 0 1 0).
  Notation v0 p := (GN s01 p 0%Z).
  Notation v1 p := (GN s02 p 0%Z).

  Lemma matches p : p < n -> match_sym (STerm (EChar false [97%Z])) input p = Some (S p).
  Proof.
    intros P. cbn [match_sym match_term match_char]. rewrite repeat_length.
    destruct (Nat.leb_spec n p); [lia|].
    assert (E : skipn p input = 97%Z :: repeat 97%Z (n - S p)).
    { replace n with (p + S (n - S p)) at 1 by lia. rewrite repeat_app, skipn_app, repeat_length, Nat.sub_diag.
      rewrite skipn_all2 by (rewrite repeat_length; lia). reflexivity. }
    rewrite E. set (r := repeat 97%Z (n - S p)). assert (D : decode_rune (97%Z :: r) = (97%Z, 1)) by reflexivity.
    rewrite D. cbn. f_equal. lia.
  Qed.

  Lemma did L u i p : seenp L u i 0%Z st -> prod_of sg_double L = Some p -> done sg_double input (skipn (s_dot L) p) L u i 0%Z st.
  Proof. intros S P. destruct (HI _ S) as [[]|[K|K]]; [rewrite HW in K; easy|]. exact (K p P). Qed.

  Definition called (v : gss) : Prop := seenp s00 v (g_pos v) 0%Z st /\ seenp s10 v (g_pos v) 0%Z st.

  Lemma called_start : called U0.
  Proof. split; apply H0; cbn; auto. Qed.
  Lemma called_first v : called v -> In (v0 (g_pos v), v) (b_edges st) /\ called (v0 (g_pos v)).
  Proof.
    intros [A _]. pose proof (did _ _ _ _ A eq_refl) as D. cbn [s_dot skipn done] in D. destruct D as [D1 D2].
    split; [exact D1|]. split; apply D2; cbn; auto.
  Qed.
  Lemma called_second v q : seenp s01 v q 0%Z st -> In (v1 q, v) (b_edges st) /\ called (v1 q).
  Proof.
    intros A. pose proof (did _ _ _ _ A eq_refl) as D. cbn [s_dot skipn done] in D. destruct D as [D1 D2].
    split; [exact D1|]. split; apply D2; cbn; auto.
  Qed.
  (** A call returns every longer prefix. *)
  Lemma returns d : forall v r, called v -> r - g_pos v = d -> g_pos v < r -> r <= n -> v = U0 \/ In (v, r) (b_popped st).
  Proof.
    induction d as [d IH] using lt_wf_ind. intros v r C E Lt Le.
    destruct (Nat.eq_dec r (S (g_pos v))) as [->|Ne].
    - destruct C as [_ C]. pose proof (did _ _ _ _ C eq_refl) as D. cbn [s_dot skipn done] in D.
      destruct (D (S (g_pos v))) as [_ D2]; [apply matches; lia|]. exact D2.
    - destruct (called_first v C) as [E1 C1].
      destruct (IH 1 ltac:(lia) (v0 (g_pos v)) (S (g_pos v)) C1) as [X|P1]; try (cbn [g_pos]; lia); try discriminate.
      destruct (HJ _ _ _ _ _ E1 P1) as [S1 _].
      destruct (called_second _ _ S1) as [E2 C2].
      destruct (IH (r - S (g_pos v)) ltac:(lia) (v1 (S (g_pos v))) r C2) as [X|P2]; try (cbn [g_pos]; lia); try discriminate.
      destruct (HJ _ _ _ _ _ E2 P2) as [S2 _]. pose proof (did _ _ _ _ S2 eq_refl) as D. exact D.
  Qed.
  Lemma splits v k r : called v -> g_pos v < k -> k < r -> r <= n -> In (mkBE s02 (g_pos v) k r) (b_set st).
  Proof.
    intros C L1 L2 L3. destruct (called_first v C) as [E1 C1].
    destruct (returns _ (v0 (g_pos v)) k C1 eq_refl) as [X|P1]; try (cbn [g_pos]; lia); try discriminate.
    destruct (HJ _ _ _ _ _ E1 P1) as [S1 _]. destruct (called_second _ _ S1) as [E2 C2].
    destruct (returns _ (v1 k) r C2 eq_refl) as [X|P2]; try (cbn [g_pos]; lia); try discriminate.
    destruct (HJ _ _ _ _ _ E2 P2) as [_ [X|[X|X]]]; [congruence|exact X|].
    destruct (X _ eq_refl) as [Y _]. cbn in Y. lia.
  Qed.
  Lemma everywhere j : j <= n -> exists v, called v /\ g_pos v = j.
  Proof.
    intros Le. destruct j as [|j]; [exists U0; split; [apply called_start|reflexivity]|].
    destruct (called_first _ called_start) as [E1 C1].
    destruct (returns _ (v0 (g_pos U0)) (S j) C1 eq_refl) as [X|P1]; try (cbn [g_pos]; lia); try discriminate.
    destruct (HJ _ _ _ _ _ E1 P1) as [S1 _]. destruct (called_second _ _ S1) as [_ C2]. exists (v1 (S j)). auto.
  Qed.
  Theorem all_splits j k r : j < k -> k < r -> r <= n -> In (mkBE s02 j k r) (b_set st).
  Proof. intros L1 L2 L3. destruct (everywhere j ltac:(lia)) as (v & C & <-). apply splits; auto. Qed.

  (** The node over j..r has a pack for every position in between. *)
  Lemma all_packs ps j r : R sg_double ps st -> S j < r -> r <= n ->
    exists q, packs_of (NSym 0 j r) (p_nodes ps) = Some q /\ r - S j <= length q.
  Proof.
    intros HR L1 L2. pose proof (r_tbl _ _ _ HR) as T.
    assert (A : forall k, j < k -> k < r -> exists q, packs_of (NSym 0 j r) (p_nodes ps) = Some q /\ In [NSym 0 j k; NSym 0 k r] q).
    { intros k K1 K2. destruct (t_to _ _ _ T _ (all_splits j k r K1 K2 L2)) as (q & E & I). exists q. split; [exact E|exact I]. }
    destruct (A (S j)) as (q & E & _); try lia. exists q. split; auto.
    rewrite <- (seq_length (r - S j) (S j)). rewrite <- (map_length (fun k => [NSym 0 j k; NSym 0 k r])).
    apply NoDup_incl_length.
    - apply FinFun.Injective_map_NoDup; [|apply seq_NoDup]. intros a b X. injection X. auto.
    - intros pk I. apply in_map_iff in I as (k & <- & I). apply in_seq in I. destruct (A k) as (q' & E' & I'); try lia. congruence.
  Qed.
End Double.

(** With n = 4m, addPack looks at at least m^4 packs. *)
Theorem double_packs m mx ord fuel ps : (forall t l, Permutation (ord t l) l) ->
  p_parse sg_double (repeat 97%Z (4 * m)) mx ord fuel = Some ps -> p_aborted ps = false ->
  m * m * (m * m) <= snd (pc_parse sg_double (repeat 97%Z (4 * m)) mx ord fuel).
Proof.
  intros O E A. set (input := repeat 97%Z (4 * m)) in *.
  assert (NE : forall L p, prod_of sg_double L = Some p -> p <> []).
  { intros [[|[|x]] [|[|[|a]]] d] p X; cbn in X; try discriminate; injection X as <-; discriminate. }
  assert (SH : rep_shape sg_double).
  { intros [|[|X]] nt N; cbn in N; try discriminate. injection N as <-. discriminate. }
  assert (WS : forall nt, nth_error (sg_nts sg_double) (sg_start sg_double) = Some nt -> nt_isrep nt = false).
  { intros nt N. injection N as <-. reflexivity. }
  destruct (forest_cost sg_double input mx ord O NE SH WS fuel) as (ps' & bs & k & HR & G & K & U & _ & _ & TS).
  apply U in E as E'. subst ps'.
  destruct (sppf_as_bsr sg_double input mx ord (ord_in_p ord O) NE (wf_reps _ SH) fuel ps E A) as (bs' & B & HR').
  assert (O' : forall t v l x, In x (ord' sg_double ord t v l) <-> In x l) by (intros; apply ord'_in; apply ord_in_p; auto).
  destruct (init_closed sg_double input) as (I0 & J0 & S0).
  destruct (run_closed sg_double input 0 (ord' sg_double ord) O' _ _ _ I0 J0 B) as [Le [X|(I1 & J1 & W)]]; [rewrite (r_ab _ _ _ HR') in X; discriminate|].
  pose proof (ts_pairs _ _ _ _ _ TS) as P. change (pairs []) with 0 in P. cbn [Nat.add] in P.
  refine (Nat.le_trans _ _ _ _ P).
  set (ks := map (fun x => NSym 0 (fst x) (3 * m + snd x)) (list_prod (seq 0 m) (seq 1 m))).
  assert (Lk : length ks = m * m) by (unfold ks; rewrite map_length, prod_length, !seq_length; reflexivity).
  rewrite <- Lk. apply pairs_many.
  - unfold ks. apply FinFun.Injective_map_NoDup.
    + intros [a b] [c d] X. cbn [fst snd] in X. injection X as X1 X2. f_equal; lia.
    + assert (Q : forall (l1 l2 : list nat), NoDup l1 -> NoDup l2 -> NoDup (list_prod l1 l2)).
      { intros l1 l2 N1 N2. induction l1 as [|x l1 IH]; [constructor|]. cbn. apply NoDup_cons_iff in N1 as [N3 N4].
        assert (Q : forall l, NoDup l -> forall (r : list (nat * nat)), NoDup r -> (forall y, In y l -> ~ In (x, y) r) -> NoDup (map (fun y => (x, y)) l ++ r)).
        { clear. induction l as [|y l IH]; cbn; intros N r Nr D; auto. apply NoDup_cons_iff in N as [N1 N2]. constructor.
          - rewrite in_app_iff, in_map_iff. intros [(z & Ez & I)|I]; [injection Ez as ->; auto|]. eapply D; eauto.
          - apply IH; auto. }
        apply Q; auto. intros y _ I. apply in_prod_iff in I. tauto. }
      apply Q; apply seq_NoDup.
  - intros x I. unfold ks in I. apply in_map_iff in I as ([j d] & <- & I). cbn [fst snd]. apply in_prod_iff in I as [I1' I2].
    apply in_seq in I1', I2.
    destruct (all_packs (4 * m) bs' I1 J1 W (r_ab _ _ _ HR')) with (ps := ps) (j := j) (r := 3 * m + d) as (q & Eq & Lq); auto; try lia.
    { intros L rc M. eapply seenp_le; [exact Le|]. apply S0. exact M. }
    exists q. split; auto. pose proof (tri_le (2 * m + 1) (length q) ltac:(lia)) as T. pose proof (tri_double (2 * m + 1)) as T2. nia.
Qed.
