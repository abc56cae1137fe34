(** C35: the octets that may follow a prefix. *)
(** The definitions here are those of statements, proofs and examples; they model no code. *)
From Coq Require Import ZArith Arith String Bool List Lia.
From Verif Require Import Syntax Spec Check Num Utf8 Tape Occ PrintInj LowerLang PropDag PropGll AstProof PropAst RecogGlue PropRecog
  Graph GraphSpec GraphRun GraphRep GraphBuild GraphLabel PropGraph Walk WalkProof PropWalk GraphLive PropLive Expect ExpectProof.
Import ListNotations.
Local Open Scope string_scope.
Local Open Scope Z_scope.
Local Open Scope list_scope.

(** ** Specification *)
(** Terminals whose words are all the choices of one octet per position: texts of code
    points, values, and ranges that are within ASCII or a single code point. *)
Definition plain (e : elem) : Prop :=
  match e with
  | EChar _ vs => Forall scalar vs
  | ENum b StatSeries es => Forall (fun s => exists v, numeral b s = Some v /\ scalar v) es
  | ENum b StatRange [lo; hi] => exists l h, numeral b lo = Some l /\ numeral b hi = Some h /\ l <= h /\ (h <= 127 \/ l = h /\ scalar l)
  | _ => False
  end.
(** The empty text. *)
Definition blank (e : elem) : Prop := match e with EChar _ [] | ENum _ StatSeries [] => True | _ => False end.
(** From every node an end point can be reached, and the empty end point is not alone. *)
Definition live (t : tgraph) : Prop :=
  (forall a, in_graph t a -> exists q, linked (tg_heap t) (a :: q) /\ In (Some (last (a :: q) a)) (tg_ends t)) /\
  (In None (tg_ends t) -> In None (tg_entry t)).

(** ** The emissions of a node *)
Lemma singles_match bs w : em_match (singles bs) w <-> w = bs.
Proof.
  unfold em_match, singles. split.
  - revert w. induction bs as [|b bs IH]; intros w F; inversion F as [|? c ? w' Q F']; subst; [reflexivity|].
    unfold add_octet, no_octet in Q. rewrite orb_false_r in Q. apply Z.eqb_eq in Q as ->. f_equal. apply IH, F'.
  - intros ->. induction bs as [|b bs IH]; cbn [map]; constructor; [|exact IH]. unfold add_octet. rewrite Z.eqb_refl. reflexivity.
Qed.
Definition letter (r : Z) : bool := is_lower r || is_upper r.
Lemma char_octets_match s v w : em_match (char_octets s v) w <-> if negb s && letter v then exists r, w = [r] /\ fold_case v = fold_case r else w = string_of_rune v.
Proof.
  unfold char_octets, letter. destruct (negb s && (is_lower v || is_upper v)) eqn:E; [|apply singles_match]. apply andb_true_iff in E as [_ E]. cbn zeta.
  assert (X : forall b, add_octet (if is_lower v then v - 97 + 65 else v) (add_octet (if is_upper v then v - 65 + 97 else v) no_octet) b = true <-> fold_case v = fold_case b).
  { intros b. unfold add_octet, no_octet. rewrite orb_false_r, orb_true_iff, !Z.eqb_eq. unfold is_lower, is_upper, fold_case in *. clear -E.
    destruct (Z.leb_spec 97 v), (Z.leb_spec v 122), (Z.leb_spec 65 v), (Z.leb_spec v 90), (Z.leb_spec 65 b), (Z.leb_spec b 90); cbn [andb orb] in *; try discriminate; lia. }
  split.
  - intros F. inversion F as [|? r ? ? Q F']; subst. inversion F'; subst. exists r. split; [reflexivity|apply X, Q].
  - intros (r & -> & Q). constructor; [apply X, Q|constructor].
Qed.
Lemma fold_letter v r : letter v = true -> fold_case v = fold_case r -> scalar r /\ utf8 r = [r].
Proof.
  unfold letter, is_lower, is_upper, fold_case. intros L Q. assert (R : 0 <= r < 128).
  { clear -L Q. destruct (Z.leb_spec 97 v), (Z.leb_spec v 122), (Z.leb_spec 65 v), (Z.leb_spec v 90), (Z.leb_spec 65 r), (Z.leb_spec r 90); cbn [andb orb] in *; try discriminate; lia. }
  split; [unfold scalar; lia|apply utf8_1; lia].
Qed.
Lemma fold_other v r : letter v = false -> fold_case v = fold_case r -> v = r.
Proof.
  unfold letter, is_lower, is_upper, fold_case. intros L Q.
  destruct (Z.leb_spec 97 v), (Z.leb_spec v 122), (Z.leb_spec 65 v), (Z.leb_spec v 90), (Z.leb_spec 65 r), (Z.leb_spec r 90); cbn [andb orb] in *; try discriminate; lia.
Qed.
Lemma chars_cover s vs rs : Forall2 (char_ok s) vs rs -> Forall scalar rs -> em_match (flat_map (char_octets s) vs) (utf8s rs).
Proof.
  intros F. induction F as [|v r vs rs C F IH]; intros S; [constructor|]. inversion S as [|? ? Sr S']; subst. cbn [flat_map utf8s]. apply Forall2_app; [|exact (IH S')].
  apply char_octets_match. unfold char_ok in C. destruct s; cbn [negb andb].
  - subst v. symmetry. apply string_of_rune_utf8, Sr.
  - destruct (letter v) eqn:L; [exists r; split; [apply (fold_letter v r L C)|exact C]|]. rewrite (fold_other v r L C). symmetry. apply string_of_rune_utf8, Sr.
Qed.
Lemma chars_exact s vs w : Forall scalar vs -> em_match (flat_map (char_octets s) vs) w -> exists rs, w = utf8s rs /\ Forall2 (char_ok s) vs rs /\ Forall scalar rs.
Proof.
  intros S. revert w. induction S as [|v vs Sv S IH]; intros w M; cbn [flat_map] in M.
  - inversion M. exists []. auto.
  - apply Forall2_app_inv_l in M as (w1 & w2 & M1 & M2 & ->). destruct (IH w2 M2) as (rs & -> & F1 & F2). apply char_octets_match in M1.
    destruct (negb s && letter v) eqn:L.
    + apply andb_true_iff in L as [Ls L]. destruct s; [discriminate|]. destruct M1 as (r & -> & Q). destruct (fold_letter v r L Q) as [Sr Er]. exists (r :: rs).
      split; [cbn [utf8s flat_map]; rewrite Er; reflexivity|]. split; constructor; auto.
    + exists (v :: rs). rewrite M1, string_of_rune_utf8 by exact Sv. split; [reflexivity|]. split; constructor; auto. unfold char_ok. destruct s; reflexivity.
Qed.
Lemma add_at_match bs : forall e w, em_match e w -> em_match (add_at bs e) w.
Proof.
  induction bs as [|b bs IH]; intros e w M; [exact M|]. destruct M as [|s c e w Q M]; [constructor|]. cbn [add_at]. constructor; [unfold add_octet; rewrite Q; apply orb_true_r|apply IH, M].
Qed.
Lemma add_at_own bs : forall e, length e = length bs -> em_match (add_at bs e) bs.
Proof.
  induction bs as [|b bs IH]; intros [|s e] L; try discriminate; [constructor|]. cbn [add_at]. constructor; [unfold add_octet; rewrite Z.eqb_refl; reflexivity|apply IH]. cbn [length] in L. lia.
Qed.
Lemma add_bytes_old bs m w em : In em m -> em_match em w -> exists em', In em' (add_bytes bs m) /\ em_match em' w.
Proof.
  induction m as [|e m IH]; intros I M; [destruct I|]. cbn [add_bytes]. destruct (Nat.eqb (length e) (length bs)).
  - destruct I as [->|I]; [exists (add_at bs em); split; [left; reflexivity|apply add_at_match, M]|exists em; split; [right; exact I|exact M]].
  - destruct I as [->|I]; [exists em; split; [left; reflexivity|exact M]|]. destruct (IH I M) as (em' & I' & M'). exists em'. split; [right; exact I'|exact M'].
Qed.
Lemma add_bytes_own bs m : exists em, In em (add_bytes bs m) /\ em_match em bs.
Proof.
  induction m as [|e m IH]; cbn [add_bytes]; [eexists; split; [left; reflexivity|apply add_at_own, map_length]|].
  destruct (Nat.eqb_spec (length e) (length bs)) as [L|L]; [eexists; split; [left; reflexivity|apply add_at_own, L]|].
  destruct IH as (em & I & M). exists em. split; [right; exact I|exact M].
Qed.
Lemma by_len_old k : forall r m w em, In em m -> em_match em w -> exists em', In em' (by_len k r m) /\ em_match em' w.
Proof.
  induction k as [|k IH]; intros r m w em I M; [exists em; auto|]. cbn [by_len]. destruct (add_bytes_old (string_of_rune r) m w em I M) as (em1 & I1 & M1).
  exact (IH _ _ _ _ I1 M1).
Qed.
Lemma by_len_cover k : forall r m x, r <= x < r + Z.of_nat k -> exists em, In em (by_len k r m) /\ em_match em (string_of_rune x).
Proof.
  induction k as [|k IH]; intros r m x X; [lia|]. cbn [by_len]. destruct (Z.eq_dec x r) as [->|N]; [|apply IH; lia].
  destruct (add_bytes_own (string_of_rune r) m) as (em & I & M). exact (by_len_old _ _ _ _ _ I M).
Qed.
Definition one_order (o : list emission -> list emission) : Prop := forall l x, In x (o l) <-> In x l.
(** Every word of a node is matched by one of its emissions. *)
Lemma emissions_cover g o e w es : one_order o -> in_elem g e w -> node_emissions o e = Em_ok es -> exists em, In em es /\ em_match em w.
Proof.
  intros O I E. destruct I as [n a w R I|a w I|a|a w I|s vs rs F S|b ns rs F S|b lo hi l h r Nl Nh B S]; try discriminate; cbn [node_emissions] in E.
  - injection E as <-. eexists. split; [left; reflexivity|]. apply chars_cover; assumption.
  - cbn zeta in E. assert (Q : map (fun s => numval_to_rune s b) ns = rs).
    { clear E. induction F as [|s v ns rs N F IH]; [reflexivity|]. inversion S as [|? ? Sv S']; subst. cbn [map]. rewrite (rune_value _ _ _ N Sv), (IH S'). reflexivity. }
    rewrite Q in E. destruct (forallb valid_rune rs); [|discriminate]. injection E as <-. eexists. split; [left; reflexivity|]. apply singles_match. rewrite flat_rune by exact S. reflexivity.
  - cbn zeta in E. rewrite (numval_to_int32_spec _ _ _ Nl), (numval_to_int32_spec _ _ _ Nh) in E. pose proof (Num.numeral_nonneg _ _ _ Nl) as Pl.
    assert (Eh : (if 0x10FFFF <? Z.min h MaxInt32 then 0x10FFFF else Z.min h MaxInt32) = Z.min h 0x10FFFF).
    { unfold MaxInt32. destruct (Z.ltb_spec 0x10FFFF (Z.min h 2147483647)); lia. }
    assert (Sr : 0 <= r <= 0x10FFFF) by (unfold scalar in S; lia).
    rewrite Eh in E. assert (El : Z.min l MaxInt32 = l) by (unfold MaxInt32; lia). rewrite El in E. clear Eh El.
    destruct ((0x10FFFF <? l) || (Z.min h 0x10FFFF <? l)); [discriminate|]. destruct (Z.leb_spec (Z.min h 0x10FFFF) 0x7F).
    + injection E as <-. eexists. split; [left; reflexivity|]. rewrite utf8_1 by lia. constructor; [|constructor].
      apply andb_true_iff. split; apply Z.leb_le; lia.
    + destruct (65536 <? Z.min h 0x10FFFF - l + 1); [discriminate|]. injection E as <-.
      destruct (by_len_cover (Z.to_nat (Z.min h 0x10FFFF - l + 1)) l [] r) as (em & I & M); [lia|].
      exists em. split; [apply O, I|]. rewrite <- string_of_rune_utf8 by exact S. exact M.
Qed.
Definition full (em : emission) : Prop := Forall (fun s : octets => exists b, s b = true) em.
(** Plain nodes have emissions, these match only words, and are not vain. *)
Lemma emissions_exact g o e : one_order o -> plain e -> exists es, node_emissions o e = Em_ok es /\ (exists em, In em es) /\
  forall em, In em es -> (forall w, em_match em w -> in_elem g e w) /\ full em /\ (~ blank e -> em <> []).
Proof.
  intros O P. assert (Fs : forall bs, full (singles bs)).
  { intros bs. unfold full, singles. induction bs as [|b bs IH]; cbn [map]; constructor; [|exact IH]. exists b. unfold add_octet. rewrite Z.eqb_refl. reflexivity. }
  destruct e as [n|a|a|s vs|b st es|v]; try contradiction; cbn [plain] in P.
  - eexists. split; [reflexivity|]. split; [eexists; left; reflexivity|]. intros em [<-|[]]. split; [|split].
    + intros w M. destruct (chars_exact s vs w P M) as (rs & -> & F1 & F2). apply in_char; assumption.
    + unfold full. clear -Fs. induction vs as [|v vs IH]; cbn [flat_map]; [constructor|]. apply Forall_app. split; [|exact IH].
      unfold char_octets. destruct (negb s && (is_lower v || is_upper v)); [|apply Fs]. cbn zeta. constructor; [|constructor].
      eexists. unfold add_octet. rewrite Z.eqb_refl. reflexivity.
    + intros B. destruct vs as [|v vs]; [destruct (B Logic.I)|]. cbn [flat_map]. unfold char_octets at 1.
      destruct (negb s && (is_lower v || is_upper v)); [discriminate|]. inversion P as [|? ? Sv _]; subst. rewrite string_of_rune_utf8 by exact Sv.
      pose proof (utf8_nonnil v). destruct (utf8 v); [contradiction|discriminate].
  - destruct st.
    + assert (X : exists rs, map (fun s => numval_to_rune s b) es = rs /\ Forall2 (fun s v => numeral b s = Some v) es rs /\ Forall scalar rs).
      { induction P as [|s es (v & N & Sv) _ IH]; [exists []; auto|]. destruct IH as (rs & E & F1 & F2). exists (v :: rs). split; [cbn [map]; rewrite (rune_value _ _ _ N Sv), E; reflexivity|].
        split; constructor; assumption. }
      destruct X as (rs & E & F1 & F2). cbn [node_emissions]. cbn zeta. rewrite E.
      assert (V : forallb valid_rune rs = true) by (apply forallb_forall; intros r Ir; apply valid_rune_scalar; rewrite Forall_forall in F2; apply F2, Ir).
      rewrite V. eexists. split; [reflexivity|]. split; [eexists; left; reflexivity|]. intros em [<-|[]]. split; [|split; [apply Fs|]].
      * intros w M. apply singles_match in M as ->. rewrite flat_rune by exact F2. apply in_series; assumption.
      * intros B. destruct es as [|s es]; [destruct (B Logic.I)|]. clear E V. destruct rs as [|v rs]; [inversion F1|]. inversion F2 as [|? ? Sv _]; subst. cbn [flat_map map].
        unfold singles. rewrite string_of_rune_utf8 by exact Sv. pose proof (utf8_nonnil v). destruct (utf8 v); [contradiction|discriminate].
    + destruct es as [|lo [|hi [|? ?]]]; try contradiction. destruct P as (l & h & Nl & Nh & Le & C). pose proof (Num.numeral_nonneg _ _ _ Nl) as Pl.
      assert (Hh : h <= 0x10FFFF) by (destruct C as [C|[-> C]]; [lia|unfold scalar in C; lia]).
      cbn [node_emissions]. cbn zeta. rewrite (numval_to_int32_spec _ _ _ Nl), (numval_to_int32_spec _ _ _ Nh). unfold MaxInt32.
      rewrite (Z.min_l h), (Z.min_l l) by lia. destruct (Z.ltb_spec 0x10FFFF h); [lia|]. destruct (Z.ltb_spec 0x10FFFF l); [lia|]. destruct (Z.ltb_spec h l); [lia|]. cbn [orb].
      destruct (Z.leb_spec h 0x7F).
      * eexists. split; [reflexivity|]. split; [eexists; left; reflexivity|]. intros em [<-|[]]. split; [|split; [|discriminate]].
        -- intros w M. inversion M as [|? r ? ? Q M']; subst. inversion M'; subst. apply andb_true_iff in Q as [Q1 Q2]. apply Z.leb_le in Q1, Q2.
           rewrite <- (utf8_1 r) by lia. apply (in_range g b lo hi l h r); [exact Nl|exact Nh|lia|unfold scalar; lia].
        -- constructor; [|constructor]. exists l. apply andb_true_iff. split; apply Z.leb_le; lia.
      * destruct C as [C|[-> C]]; [lia|]. rewrite Z.sub_diag. cbn [Z.add Z.ltb Z.compare Pos.compare Pos.compare_cont]. change (Z.to_nat 1) with 1%nat. cbn [by_len add_bytes].
        eexists. split; [reflexivity|]. split; [eexists; apply O; left; reflexivity|]. intros em I. apply O in I as [<-|[]].
        assert (X : add_at (string_of_rune h) (map (fun _ => no_octet) (string_of_rune h)) = singles (string_of_rune h)).
        { generalize (string_of_rune h). intros bs. unfold singles. induction bs as [|x bs IH]; [reflexivity|]. cbn [map add_at]. f_equal. exact IH. }
        rewrite X. split; [|split; [apply Fs|]].
        -- intros w M. apply singles_match in M as ->. rewrite string_of_rune_utf8 by exact C. apply (in_range g b lo hi h h h); [exact Nl|exact Nh|lia|exact C].
        -- intros _. unfold singles. rewrite string_of_rune_utf8 by exact C. pose proof (utf8_nonnil h). destruct (utf8 h); [contradiction|discriminate].
Qed.

(** Octets. *)
Lemma lang_bytes g : (forall e w, in_elem g e w -> Forall byte w) /\ (forall a w, in_alt g a w -> Forall byte w) /\ (forall c w, in_cat g c w -> Forall byte w) /\
  (forall r w, in_rep g r w -> Forall byte w) /\ (forall e n w, in_pow g e n w -> Forall byte w).
Proof.
  assert (U : forall r, scalar r -> Forall byte (utf8 r)).
  { intros r S. unfold utf8, scalar in *.
    assert (M : forall x, 0 <= 0x80 + x mod 64 < 256) by (intros x; pose proof (Z.mod_pos_bound x 64 ltac:(lia)); lia).
    destruct (Z.ltb_spec r 0x80); [repeat constructor; unfold byte; lia|].
    destruct (Z.ltb_spec r 0x800); [repeat constructor; unfold byte; try apply M; pose proof (Z.div_lt_upper_bound r 64 32 ltac:(lia) ltac:(lia)); pose proof (Z.div_pos r 64 ltac:(lia) ltac:(lia)); lia|].
    destruct (Z.ltb_spec r 0x10000); [repeat constructor; unfold byte; try apply M; pose proof (Z.div_lt_upper_bound r 4096 16 ltac:(lia) ltac:(lia)); pose proof (Z.div_pos r 4096 ltac:(lia) ltac:(lia)); lia|].
    repeat constructor; unfold byte; try apply M; pose proof (Z.div_lt_upper_bound r 262144 8 ltac:(lia) ltac:(lia)); pose proof (Z.div_pos r 262144 ltac:(lia) ltac:(lia)); lia. }
  assert (Us : forall rs, Forall scalar rs -> Forall byte (utf8s rs)).
  { intros rs F. induction F as [|r rs S F IH]; [constructor|]. cbn [utf8s flat_map]. apply Forall_app. split; [apply U, S|exact IH]. }
  apply lang_mut; auto; intros; try (apply Forall_app; split; assumption); constructor.
Qed.

(** ** Proofs *)
Lemma order_one ord : any_order ord -> forall n, one_order (ord n).
Proof. intros O n l x. apply O. Qed.
Lemma em_at_some ord t n es em : ems_of ord t n = Em_ok es -> In em es -> exists i, em_at (ems_of ord t) n i = Some em.
Proof. intros E I. apply In_nth_error in I as (i & I). exists i. unfold em_at. rewrite E. exact I. Qed.
Lemma node_elem g h a w : node_word g h a w <-> in_elem g (elem_at h a) w.
Proof.
  unfold node_word, elem_at. destruct (nth_error h a) as [n|].
  - split; [intros (m & Q & I); injection Q as <-; exact I|intros I; exists n; auto].
  - split; [intros (m & Q & _); discriminate|intros I; inversion I].
Qed.
Theorem C35_expected_next_safe : forall ord g t prefix next acc, any_order ord ->
  (forall a, in_graph t a -> ~ in_elem g (elem_at (tg_heap t) a) []) ->
  expected_next ord t prefix = En_ok next acc ->
  (forall s, path t s -> spells g t s prefix -> acc = true) /\
  (forall s b r, path t s -> spells g t s (prefix ++ b :: r) -> In b next).
Proof.
  intros ord g t prefix next acc O Nb E. destruct (expected_spec ord t prefix next acc E) as (H1 & H2 & H3 & H4).
  assert (K : forall s rest, path t s -> spells g t s (prefix ++ rest) -> prefix ++ rest <> [] ->
    (rest = [] -> finished t (ems_of ord t) prefix) /\ (forall b r, rest = b :: r -> exists x, walked t (ems_of ord t) prefix x /\ octets_at (ems_of ord t) x b = true)).
  { intros s rest P (ws & F & Q) N. destruct s as [|a s]; [inversion F; subst; contradiction|]. pose proof (path_in_graph t (a :: s) P) as Ig. destruct P as (Pa & Pe & Pl).
    destruct (follow t (ems_of ord t) prefix rest H4 s a ws [] prefix Pl) as [R1 R2].
    - apply H3, Pa.
    - intros x (j & em & Ej & Ne & ->). exact (wk_entry t (ems_of ord t) a j em Pa Ej Ne).
    - clear -F O. revert F. generalize (a :: s). intros l F. induction F as [|x w q ws' Nw F IH]; constructor; [|exact IH]. intros (es & Ee). apply node_elem in Nw.
      destruct (emissions_cover g (ord x) _ w es (order_one ord O x) Nw Ee) as (em & Ie & M). destruct (em_at_some ord t x es em Ee Ie) as (i & Ei). exists i, em. auto.
    - clear Q. assert (Z : forall l, Forall2 (node_word g (tg_heap t)) l ws -> (forall x, In x l -> in_graph t x) -> Forall (fun w => w <> []) ws).
      { clear -Nb. intros l F. induction F as [|x w q ws' Nw F IH]; intros I; constructor; [|apply IH; intros y Iy; apply I; right; exact Iy].
        intros ->. apply (Nb x (I x (or_introl eq_refl))). apply node_elem, Nw. }
      exact (Z _ F Ig).
    - reflexivity.
    - symmetry. exact Q.
    - split; [|exact R2]. intros R0. exists (last (a :: s) a). split; [exact (R1 R0)|exact Pe]. }
  split.
  - intros s P Sp. apply H2. destruct prefix as [|b0 prefix].
    + destruct s as [|a s]; [apply (proj2 P)|]. exfalso. destruct Sp as (ws & F & Q). inversion F as [|? w ? ws' Nw _]; subst. cbn [concat] in Q. symmetry in Q. apply app_eq_nil in Q as [-> _].
      apply (Nb a (path_in_graph t (a :: s) P a (or_introl eq_refl))). apply node_elem, Nw.
    + apply (K s [] P); [rewrite app_nil_r; exact Sp|discriminate|reflexivity].
  - intros s b r P Sp. apply H1. split.
    + assert (B : Forall byte (prefix ++ b :: r)).
      { destruct Sp as (ws & F & ->). clear -F. induction F as [|x w q ws Nw F IH]; [constructor|]. cbn [concat]. apply Forall_app. split; [|exact IH].
        apply node_elem in Nw. exact (proj1 (lang_bytes g) _ _ Nw). }
      apply Forall_app in B as [_ B]. inversion B; subst. assumption.
    + destruct (K s (b :: r) P Sp) as [_ K2]; [destruct prefix; discriminate|]. exact (K2 b r eq_refl).
Qed.
Lemma leads_path t q n s : leads t q n -> linked (tg_heap t) (n :: s) -> In (Some (last (n :: s) n)) (tg_ends t) -> path t (q ++ n :: s).
Proof.
  intros L Ls E. assert (Lk : forall x, linked (tg_heap t) (x ++ [n]) -> linked (tg_heap t) (x ++ n :: s)).
  { clear -Ls. intros x. induction x as [|a x IH]; intros H; [exact Ls|]. destruct x as [|b x]; cbn [app] in *.
    - destruct H as [H _]. split; [exact H|exact Ls].
    - destruct H as [H1 H2]. split; [exact H1|apply IH, H2]. }
  destruct q as [|a q]; cbn [app leads path] in *; [auto|]. destruct L as [L1 L2]. split; [exact L1|]. split; [|exact (Lk (a :: q) L2)].
  assert (Q : forall x d, last (x ++ n :: s) d = last (n :: s) n).
  { clear. induction x as [|y x IH]; intros d; [apply last_change; discriminate|]. cbn [app]. change (last (y :: x ++ n :: s) d) with (match x ++ n :: s with [] => y | _ => last (x ++ n :: s) d end).
    rewrite IH. destruct x; reflexivity. }
  change (a :: q ++ n :: s) with ((a :: q) ++ n :: s). rewrite Q. exact E.
Qed.
Lemma leads_graph t q n : leads t q n -> Forall (in_graph t) (q ++ [n]).
Proof.
  intros L. apply Forall_forall. intros b Ib. apply in_split in Ib as (l1 & l2 & El).
  assert (X : exists a r, In (Some a) (tg_entry t) /\ q ++ [n] = a :: r /\ linked (tg_heap t) (a :: r)).
  { destruct q as [|a q]; cbn [leads app] in *; [exists n, []; split; [exact L|split; [reflexivity|exact Logic.I]]|]. destruct L as [L1 L2]. exists a, (q ++ [n]). auto. }
  destruct X as (a & r & Ia & Er & Lr). rewrite El in Er. destruct l1 as [|x l1]; injection Er as -> Er.
  - exists [], a. split; [exact Ia|]. split; [exact Logic.I|reflexivity].
  - exists (l1 ++ [b]), a. split; [exact Ia|]. split; [|rewrite app_comm_cons; apply last_last]. rewrite <- Er in Lr. clear -Lr. revert a Lr.
    induction l1 as [|y l1 IH]; intros a Ch; cbn [app] in *; destruct Ch as [C1 C2]; (split; [exact C1|]); [exact Logic.I|exact (IH y C2)].
Qed.
Lemma linked_graph t s : forall a, in_graph t a -> linked (tg_heap t) (a :: s) -> Forall (in_graph t) (a :: s).
Proof.
  induction s as [|b s IH]; intros a G L; constructor; [exact G|constructor|exact G|].
  destruct L as [L1 L2]. apply IH; [|exact L2]. destruct G as (p & x & Ix & Lx & El). exists (p ++ [b]), x. split; [exact Ix|]. split; [|rewrite app_comm_cons; apply last_last].
  destruct (exists_last (l := x :: p)) as (p' & y & Q); [discriminate|]. rewrite Q, last_last in El. subst y. rewrite app_comm_cons, Q in *. apply linked_end; [exact Lx|exact L1].
Qed.
Lemma full_word em : full em -> exists w, em_match em w.
Proof. intros F. induction F as [|s em (b & Q) F (w & M)]; [exists []; constructor|]. exists (b :: w). constructor; assumption. Qed.
Lemma full_skip em p : full em -> full (skipn p em).
Proof. intros F. rewrite <- (firstn_skipn p em) in F. apply Forall_app in F as [_ F]. exact F. Qed.
Theorem C35_expected_next_exact : forall ord g t prefix, any_order ord -> (forall a, in_graph t a -> plain (elem_at (tg_heap t) a) /\ ~ blank (elem_at (tg_heap t) a)) -> live t ->
  exists next acc, expected_next ord t prefix = En_ok next acc /\
    (acc = true <-> exists s, path t s /\ spells g t s prefix) /\
    (forall b, In b next <-> exists s r, path t s /\ spells g t s (prefix ++ b :: r)).
Proof.
  intros ord g t prefix O Pl [Lv Ln].
  assert (X : forall a, in_graph t a -> exists es, ems_of ord t a = Em_ok es /\ (exists em, In em es) /\ forall em, In em es -> (forall w, em_match em w -> node_word g (tg_heap t) a w) /\ full em /\ em <> []).
  { intros a G. destruct (Pl a G) as [P B]. destruct (emissions_exact g (ord a) _ (order_one ord O a) P) as (es & E & Ne & H). exists es. split; [exact E|]. split; [exact Ne|].
    intros em I. destruct (H em I) as (H1 & H2 & H3). split; [intros w M; apply node_elem, H1, M|]. auto. }
  assert (Y : forall a i em, in_graph t a -> em_at (ems_of ord t) a i = Some em -> (forall w, em_match em w -> node_word g (tg_heap t) a w) /\ full em /\ em <> []).
  { intros a i em G Ei. destruct (X a G) as (es & E & _ & H). unfold em_at in Ei. rewrite E in Ei. apply H, (nth_error_In _ _ Ei). }
  destruct (expected_total ord t prefix) as (next & acc & E); [intros a G; destruct (X a G) as (es & Q & _); exists es; exact Q|].
  exists next, acc. split; [exact E|]. destruct (expected_spec ord t prefix next acc E) as (H1 & H2 & _ & _).
  destruct (C35_expected_next_safe ord g t prefix next acc O) with (2 := E) as [S1 S2].
  { intros a G I. destruct (X a G) as (es & Q & _ & H). destruct (emissions_cover g (ord a) _ [] es (order_one ord O a) I Q) as (em & Ie & M). inversion M; subst. destruct (H [] Ie) as (_ & _ & N). contradiction. }
  assert (W : forall q ws, Forall (in_graph t) q -> Forall2 (em_word (ems_of ord t)) q ws -> Forall2 (node_word g (tg_heap t)) q ws).
  { intros q ws G F. induction F as [|a w q ws (i & em & Ei & M) F IH]; constructor; inversion G; subst; [apply (Y a i em); assumption|apply IH; assumption]. }
  split; (split; [|]).
  - intros A. apply H2 in A. destruct prefix as [|b prefix].
    + exists []. split; [split; [apply Ln, A|exact A]|]. exists []. split; [constructor|reflexivity].
    + destruct A as (n & D & En). apply done_path in D as (q & ws & L & F & _ & Q). exists (q ++ [n]). split; [apply (leads_path t q n []); [exact L|exact Logic.I|exact En]|].
      exists ws. split; [apply W; [apply leads_graph, L|exact F]|exact Q].
  - intros (s & P & Sp). exact (S1 s P Sp).
  - intros I. apply H1 in I as (_ & [[n i] p] & Wk & Oa). apply walked_path in Wk as (q & ws & v & em & L & F & _ & -> & Lv' & Ei & Lp & M).
    apply octets_at_reads in Oa as (em' & Ei' & o & Eo & Eb). rewrite Ei in Ei'. injection Ei' as <-.
    pose proof (leads_graph t q n L) as G. assert (Gn : in_graph t n) by (rewrite Forall_forall in G; apply G, in_or_app; right; left; reflexivity).
    destruct (Y n i em Gn Ei) as (Yw & Yf & _). destruct (full_word (skipn (S p) em) (full_skip em (S p) Yf)) as (v2 & M2).
    destruct (Lv n Gn) as (s & Ls & Es).
    assert (Z : exists ws2, Forall2 (node_word g (tg_heap t)) s ws2).
    { pose proof (linked_graph t s n Gn Ls) as Gs. inversion Gs as [|? ? _ Gs']; subst. clear -Gs' X. induction Gs' as [|a s Ga Gs IH]; [exists []; constructor|].
      destruct IH as (ws2 & F2). destruct (X a Ga) as (es & _ & (em & Ie) & H). destruct (H em Ie) as (Hw & Hf & _). destruct (full_word em Hf) as (w & M).
      exists (w :: ws2). constructor; [apply Hw, M|exact F2]. }
    destruct Z as (ws2 & F2). exists (q ++ n :: s), (v2 ++ concat ws2). split; [apply leads_path; assumption|].
    exists (ws ++ (v ++ b :: v2) :: ws2). split.
    + apply Forall2_app; [apply W; [apply Forall_app in G; apply G|exact F]|]. constructor; [|exact F2]. apply Yw.
      rewrite <- (firstn_skipn (S p) em). change (b :: v2) with ([b] ++ v2). rewrite app_assoc. apply Forall2_app; [|exact M2]. apply (match_firstn em p v o b M Eo Eb).
    + rewrite concat_app. cbn [concat]. rewrite <- !app_assoc. reflexivity.
  - intros (s & r & P & Sp). exact (S2 s b r P Sp).
Qed.

(** ** The graphs of rules *)
Lemma blank_word g e : ~ blank e -> producing e = true -> ~ in_elem g e [].
Proof.
  intros B P I. assert (K : forall w, in_elem g e w -> w <> []); [|exact (K [] I eq_refl)]. clear I. intros w I.
  destruct I as [n a w R I|a w I|a|a w I|s vs rs F S|b ns rs F S|b lo hi l h r Nl Nh Bd S]; try discriminate.
  - destruct F as [|v r vs rs _ _]; [destruct (B Logic.I)|]. cbn [utf8s flat_map]. pose proof (utf8_nonnil r). destruct (utf8 r); [contradiction|discriminate].
  - destruct F as [|v r vs rs _ _]; [destruct (B Logic.I)|]. cbn [utf8s flat_map]. pose proof (utf8_nonnil r). destruct (utf8 r); [contradiction|discriminate].
  - apply utf8_nonnil.
Qed.
(** No series of values is empty. *)
Definition series_some (g : grammar) : Prop := forall b, ~ occ_elem g (ENum b StatSeries []).
Lemma allows_blank opts g : series_some g -> allows (fun e => ~ blank e) opts g.
Proof. intros S. split; intros; cbn [blank]; auto. destruct k; [|auto]. destruct es; [|auto]. destruct (S _ H0). Qed.
(** Where the reply is given, an octet left out is followed by no word, and words are
    accepted. *)
Theorem C35_expected_next_built : forall ord fuel opts g g1 g2 order n t c prefix next acc, any_order ord -> wf_grammar g -> series_some g -> o_rules opts = true ->
  o_numvals opts = false \/ series_single g -> transition_graph fuel opts g g1 g2 order n = TG_ok t c ->
  expected_next ord t prefix = En_ok next acc ->
  (Lang g n prefix -> acc = true) /\ (forall b r, Lang g n (prefix ++ b :: r) -> In b next).
Proof.
  intros ord fuel opts g g1 g2 order n t c prefix next acc O W Ss R D E X.
  destruct (C35_expected_next_safe ord g t prefix next acc O) with (2 := X) as [S1 S2].
  { intros a G. apply blank_word; [exact (built_all _ _ _ _ _ _ _ _ _ _ (allows_blank opts g Ss) E a G)|exact (built_all _ _ _ _ _ _ _ _ _ _ (allows_producing opts g R) E a G)]. }
  split.
  - intros L. apply (C31_graph_spells_single_partial _ _ _ _ _ _ _ _ _ W D E) in L as (s & P & Sp). exact (S1 s P Sp).
  - intros b r L. apply (C31_graph_spells_single_partial _ _ _ _ _ _ _ _ _ W D E) in L as (s & P & Sp). exact (S2 s b r P Sp).
Qed.

(** The terminals used from a rule are plain. *)
Definition plain_from (g : grammar) (n : string) : Prop := forall e, used_elem g n e -> producing e = true -> plain e.
Lemma allows_plain opts g n : plain_from g n -> allows_of (fun e => producing e = true -> plain e) opts (used_elem g n).
Proof.
  intros Pg. assert (Sc : forall r, scalar r -> scalar (rune_min r) /\ scalar (rune_max r)).
  { intros r S. unfold rune_min, rune_max, scalar in *. split; repeat match goal with |- context [?a <=? ?b] => destruct (Z.leb_spec a b) end; cbn [andb]; lia. }
  split; intros.
  - discriminate.
  - apply Pg; assumption.
  - specialize (Pg _ H eq_refl). clear H. rename Pg into H. cbn [plain] in *. rewrite Forall_forall in H. specialize (H r H0). destruct (Sc r H). split; [intros _; constructor; [exact H|constructor]|]. intros _. split; intros _; (constructor; [assumption|constructor]).
  - apply Pg; assumption.
  - specialize (Pg _ H eq_refl). clear H. rename Pg into H. cbn [plain] in *. rewrite Forall_forall in H. constructor; [apply H, H0|constructor].
  - specialize (Pg _ H eq_refl). clear H. rename Pg into H. cbn [plain] in *. destruct es as [|? ?]; [|contradiction]. destruct H as (l & h & Nl & Nh & L1 & L2).
    pose proof (Num.numeral_nonneg _ _ _ Nl) as Pl. rewrite (numval_to_int32_spec _ _ _ Nl), (numval_to_int32_spec _ _ _ Nh) in H0. unfold MaxInt32 in H0.
    assert (Sr : scalar r) by (destruct L2 as [L2|[-> L2]]; unfold scalar in *; lia). constructor; [|constructor]. exists r. split; [|exact Sr].
    unfold numeral in Nl. destruct (radix_of b) as [rx|] eqn:Rb; [|discriminate].
    apply (int32_to_numval_numeral b r rx Rb). unfold scalar in Sr. unfold MaxInt32. lia.
Qed.
Lemma built_used P fuel opts g g1 g2 order n t c : allows_of P opts (used_elem g n) -> transition_graph fuel opts g g1 g2 order n = TG_ok t c ->
  forall a, in_graph t a -> P (elem_at (tg_heap t) a).
Proof.
  intros Al E. destruct (built_sane_used P opts g n Al _ _ _ _ _ _ E) as ([L N] & W & _). intros a I.
  assert (B : (a < length (tg_heap t))%nat) by (revert a I; apply in_graph_all; [exact W|intros a b _; apply N]).
  unfold elem_at. destruct (nth_error (tg_heap t) a) as [x|] eqn:Ex; [|apply nth_error_None in Ex; lia].
  apply (L a). unfold label. rewrite Ex. reflexivity.
Qed.
Lemma built_live fuel opts g g1 g2 order n t c : wf_grammar g -> filled opts g -> transition_graph fuel opts g g1 g2 order n = TG_ok t c -> live t.
Proof.
  intros W Fl E. destruct (ok_live _ _ _ _ _ _ _ _ _ W Fl E) as [[U D N] _]. split; [|exact N].
  intros b (p & a & Ia & L & El). assert (Re : reach (tg_heap t) a b) by (apply reach_linked; eauto).
  destruct (U a b Ia Re) as (e & Ie & Re2). apply reach_linked in Re2 as (q & Lq & Eq). exists q. split; [exact Lq|]. rewrite Eq. exact Ie.
Qed.
(** Missing: elements that are not plain. *)
Theorem C35_expected_next_partial : forall ord fuel opts g g1 g2 order n t c prefix, any_order ord -> wf_grammar g -> filled opts g -> series_some g -> plain_from g n -> o_rules opts = true ->
  o_numvals opts = false \/ series_single g -> transition_graph fuel opts g g1 g2 order n = TG_ok t c ->
  exists next acc, expected_next ord t prefix = En_ok next acc /\
    (acc = true <-> Lang g n prefix) /\
    (forall b, In b next <-> exists r, Lang g n (prefix ++ b :: r)).
Proof.
  intros ord fuel opts g g1 g2 order n t c prefix O W Fl Ss Pg R D E. pose proof (built_live _ _ _ _ _ _ _ _ _ W Fl E) as Lv.
  destruct (C35_expected_next_exact ord g t prefix O) as (next & acc & X & A & B); [|exact Lv|].
  { intros a G. split; [|exact (built_all _ _ _ _ _ _ _ _ _ _ (allows_blank opts g Ss) E a G)].
    apply (built_used _ _ _ _ _ _ _ _ _ _ (allows_plain opts g n Pg) E a G). exact (built_all _ _ _ _ _ _ _ _ _ _ (allows_producing opts g R) E a G). }
  exists next, acc. split; [exact X|]. split.
  - rewrite A. symmetry. apply (C31_graph_spells_single_partial _ _ _ _ _ _ _ _ _ W D E).
  - intros b. rewrite B. split.
    + intros (s & r & P & Sp). exists r. apply (C31_graph_spells_single_partial _ _ _ _ _ _ _ _ _ W D E). exists s. auto.
    + intros (r & L). apply (C31_graph_spells_single_partial _ _ _ _ _ _ _ _ _ W D E) in L as (s & P & Sp). exists s, r. auto.
Qed.

(** ** A case *)
Definition g35 : grammar :=
  [mkRule "a" [[Rep 1 1 (EChar false [120]); Rep 0 2 (ERule "b")]; [Rep 1 1 (ENum "x" StatSeries ["C9"; "41"])]];
   mkRule "b" [[Rep 1 1 (ENum "x" StatRange ["30"; "31"])]]].
Definition t35 : tgraph := match transition_graph 30 (o33 false) g35 g35 g35 (keys g35) "a" with TG_ok t _ => t | _ => mkTG [] [] [] end.
Scheme used_elem_min := Minimality for used_elem Sort Prop
  with used_rep_min := Minimality for used_rep Sort Prop.
Combined Scheme used_min from used_elem_min, used_rep_min.
Example C35_case : any_order (fun (_ : nat) (l : list emission) => l) /\ wf_grammar g35 /\ series_some g35 /\ plain_from g35 "a" /\
  transition_graph 30 (o33 false) g35 g35 g35 (keys g35) "a" = TG_ok t35 0 /\ filled (o33 false) g35 /\ live t35 /\
  map (expected_next (fun _ l => l) t35) [[]; [120]; [88; 48]; [0xC3]; [0xC3; 0x89]; [0xC3; 0x89; 0x41]; [1]; [120; 48; 48; 48]] =
  [En_ok [88; 120; 195] false; En_ok [48; 49] true; En_ok [48; 49] true; En_ok [137] false; En_ok [65] false; En_ok [] true; En_ok [] false; En_ok [] false].
Proof.
  split; [intros t l x; reflexivity|]. split; [apply wf_grammarb_spec; vm_compute; reflexivity|].
  split; [intros b O; inversion O as [mn mx e O1]; subst; apply occ_rep_listed in O1; vm_compute in O1; intuition discriminate|].
  split.
  { assert (D : distinct_names g35) by (apply wf_distinct; vm_compute; reflexivity).
    assert (K : (forall e, used_elem g35 "a" e -> In e [EChar false [120]; ERule "b"; ENum "x" StatSeries ["C9"; "41"]; ENum "x" StatRange ["30"; "31"]]) /\
      (forall x, used_rep g35 "a" x -> In x [Rep 1 1 (EChar false [120]); Rep 0 2 (ERule "b"); Rep 1 1 (ENum "x" StatSeries ["C9"; "41"]); Rep 1 1 (ENum "x" StatRange ["30"; "31"])])).
    { apply used_min.
      - intros mn mx e _ I. cbn [In] in *. decompose [or] I; try contradiction; match goal with H : _ = Rep _ _ _ |- _ => injection H as <- <- <- end; tauto.
      - intros a c x Rs Ic Ix. apply (proj2 (get_rule_resolves g35 "a" D)) in Rs as (r & G & <-). vm_compute in G. injection G as <-.
        cbn [rule_alt In] in *. destruct Ic as [<-|[<-|[]]]; cbn [In] in Ix; tauto.
      - intros a c x _ I. exfalso. cbn [In] in I. intuition discriminate.
      - intros a c x _ I. exfalso. cbn [In] in I. intuition discriminate.
      - intros m a c x _ I Rs Ic Ix. assert (m = "b") as -> by (cbn [In] in I; intuition congruence).
        apply (proj2 (get_rule_resolves g35 "b" D)) in Rs as (r & G & <-). vm_compute in G. injection G as <-.
        cbn [rule_alt In] in *. destruct Ic as [<-|[]]; cbn [In] in Ix; tauto. }
    intros e U P. apply (proj1 K) in U. cbn [In] in U. destruct U as [<-|[<-|[<-|[<-|[]]]]]; cbn [plain].
    - constructor; [unfold scalar; lia|constructor].
    - discriminate.
    - constructor; [exists 0xC9; split; [reflexivity|unfold scalar; lia]|]. constructor; [exists 0x41; split; [reflexivity|unfold scalar; lia]|constructor].
    - exists 0x30, 0x31. split; [reflexivity|]. split; [reflexivity|]. lia. }
  assert (Fl : filled (o33 false) g35) by (apply filledb_spec; vm_compute; reflexivity). assert (Wf : wf_grammar g35) by (apply wf_grammarb_spec; vm_compute; reflexivity).
  assert (E : transition_graph 30 (o33 false) g35 g35 g35 (keys g35) "a" = TG_ok t35 0) by (vm_compute; reflexivity).
  split; [exact E|]. split; [exact Fl|]. split; [exact (built_live _ _ _ _ _ _ _ _ _ Wf Fl E)|]. vm_compute. reflexivity.
Qed.
(** ** What fails *)
(** The octets of a range are mixed position by position: from %xFF-100 (C3 BF and C4 80)
    the reply allows C3 80 and accepts it, and it is no word. *)
Definition g_mix : grammar := [mkRule "a" [[Rep 1 1 (ENum "x" StatRange ["FF"; "100"])]]].
Definition t_mix : tgraph := match transition_graph 30 (o33 false) g_mix g_mix g_mix (keys g_mix) "a" with TG_ok t _ => t | _ => mkTG [] [] [] end.
Theorem C35_expected_next_refuted : exists ord fuel opts g order n t c, any_order ord /\ wf_grammar g /\ emittable g /\ o_rules opts = true /\
  transition_graph fuel opts g g g order n = TG_ok t c /\
  expected_next ord t [0xC3] = En_ok [0x80; 0xBF] false /\ expected_next ord t [0xC3; 0x80] = En_ok [] true /\
  ~ exists r, Lang g n ([0xC3; 0x80] ++ r).
Proof.
  exists (fun _ l => l), 30%nat, (o33 false), g_mix, (keys g_mix), "a", t_mix, 0.
  split; [intros t l x; reflexivity|]. split; [apply wf_grammarb_spec; vm_compute; reflexivity|]. split; [apply emittableb_spec; vm_compute; reflexivity|].
  split; [reflexivity|]. split; [vm_compute; reflexivity|]. split; [vm_compute; reflexivity|]. split; [vm_compute; reflexivity|].
  intros (r & L). apply (one_rep_word g_mix "a" _ _ ltac:(apply wf_distinct; vm_compute; reflexivity) (nth 0 g_mix (mkRule "" [])) eq_refl eq_refl) in L.
  inversion L as [| | | | | |? ? ? l h v N1 N2 B S E1 E2]; subst. vm_compute in N1, N2. injection N1 as <-. injection N2 as <-.
  assert (v = 255 \/ v = 256) as [-> | ->] by lia; vm_compute in E2; discriminate.
Qed.
(** A range without values is no node where values are deflated: its part of the graph is
    empty, and what comes before it leads nowhere. *)
Definition t_end2 : tgraph := match transition_graph 30 (o33 false) g_end g_end g_end (keys g_end) "a" with TG_ok t _ => t | _ => mkTG [] [] [] end.
Lemma g_end_no r : ~ Lang g_end "a" r.
Proof.
  intros L. apply (lang_user g_end "a" (nth 0 g_end (mkRule "" []))) in L; [|apply wf_distinct; vm_compute; reflexivity|reflexivity].
  inversion L as [c ? ? Ic K]; subst. destruct Ic as [<-|[]]. inversion K as [|? ? w1 w2 K1 K2]; subst. inversion K2 as [|? ? w3 w4 K3 K4]; subst.
  inversion K3 as [? ? ? k ? B1 B2 P]; subst. destruct k as [|k]; [lia|]. inversion P as [|? ? w5 w6 P1 P2]; subst.
  inversion P1 as [| | | | | |? ? ? l h v N1 N2 B S E1 E2]; subst. vm_compute in N1, N2. injection N1 as <-. injection N2 as <-. lia.
Qed.
Theorem C35_dead_end_refuted : exists ord fuel opts g order n t c, any_order ord /\ wf_grammar g /\ o_rules opts = true /\
  transition_graph fuel opts g g g order n = TG_ok t c /\
  expected_next ord t [] = En_ok [97] false /\ ~ exists r, Lang g n (97 :: r).
Proof.
  exists (fun _ l => l), 30%nat, (o33 true), g_end, (keys g_end), "a", t_end, 0.
  split; [intros t l x; reflexivity|]. split; [apply wf_grammarb_spec; vm_compute; reflexivity|].
  split; [reflexivity|]. split; [vm_compute; reflexivity|]. split; [vm_compute; reflexivity|]. intros (r & L). exact (g_end_no _ L).
Qed.
(** Where they are not deflated there is no reply, after some prefixes only. *)
Theorem C35_declined_refuted : exists ord fuel opts g order n t c, any_order ord /\ wf_grammar g /\ o_rules opts = true /\
  transition_graph fuel opts g g g order n = TG_ok t c /\
  expected_next ord t [] = En_ok [97] false /\ expected_next ord t [97] = En_no.
Proof.
  exists (fun _ l => l), 30%nat, (o33 false), g_end, (keys g_end), "a", t_end2, 0.
  split; [intros t l x; reflexivity|]. split; [apply wf_grammarb_spec; vm_compute; reflexivity|].
  split; [reflexivity|]. split; [vm_compute; reflexivity|]. split; [vm_compute; reflexivity|]. vm_compute. reflexivity.
Qed.

Print Assumptions C35_expected_next_safe.
Print Assumptions C35_expected_next_exact.
Print Assumptions C35_expected_next_built.
Print Assumptions C35_expected_next_partial.
Print Assumptions C35_case.
Print Assumptions C35_expected_next_refuted.
Print Assumptions C35_dead_end_refuted.
Print Assumptions C35_declined_refuted.
