(** Printing is injective on lexically well-formed syntax, up to the [%s] flag.
    Its definitions are means of proof and model no code. *)
From Coq Require Import ZArith String Ascii Bool List Lia.
From Verif Require Import Syntax Spec Utf8 Num Printer.
Import ListNotations.
Local Open Scope string_scope.
Local Open Scope Z_scope.

Lemma sapp_assoc (a b c : string) : (a ++ b) ++ c = a ++ (b ++ c).
Proof. induction a; cbn; congruence. Qed.
Lemma sapp_nil (a : string) : a ++ "" = a.
Proof. induction a; cbn; congruence. Qed.
Lemma sapp_inj (p a b : string) : p ++ a = p ++ b -> a = b.
Proof. induction p; cbn; intros H; auto. inversion H; auto. Qed.

(** [s] does not start with a character satisfying [p]. *)
Definition nostart (p : ascii -> bool) (s : string) : Prop :=
  match s with EmptyString => True | String c _ => p c = false end.

Lemma munch p a : forall a' s s', all_chars p a = true -> all_chars p a' = true -> nostart p s -> nostart p s' ->
  a ++ s = a' ++ s' -> a = a' /\ s = s'.
Proof.
  induction a as [|c a IH]; intros [|c' a'] s s' A A' N N' E; cbn in *.
  - auto.
  - subst s. cbn in N. apply andb_true_iff in A'. destruct A'. congruence.
  - subst s'. cbn in N'. apply andb_true_iff in A. destruct A. congruence.
  - inversion E; subst. apply andb_true_iff in A as [_ A]. apply andb_true_iff in A' as [_ A'].
    destruct (IH a' s s' A A' N N' H1) as [-> ->]. auto.
Qed.

Lemma all_chars_app p a b : all_chars p (a ++ b) = (all_chars p a && all_chars p b)%bool.
Proof. induction a; cbn; auto. rewrite IHa. apply andb_assoc. Qed.
Lemma all_chars_impl (p q : ascii -> bool) a : (forall c, p c = true -> q c = true) -> all_chars p a = true -> all_chars q a = true.
Proof.
  intros H. induction a; cbn; auto. intros A. apply andb_true_iff in A as [A B]. rewrite H, IHa; auto.
Qed.

(** *** Repeat prefixes *)
Lemma itoa_pos v : 0 <= v -> numeral "d" (itoa v) = Some v /\ itoa v <> "".
Proof.
  intros H. assert (Hne : itoa v <> "").
  { unfold itoa. destruct (Z.ltb_spec v 0); [discriminate|]. apply format_loop_nonempty'. }
  split; auto. unfold numeral, radix_of.
  assert (E : digits_val 10 0 (itoa v) = Some v).
  { unfold itoa. destruct (Z.ltb_spec v 0); [lia|].
    destruct (format_loop_spec 10 ltac:(lia) (S (Z.to_nat (Z.log2 v))) v "" 1 0) as [k Hk].
    - split; auto. destruct (Z.eq_dec v 0) as [->|Nz]; [cbn; lia|].
      pose proof (Z.log2_spec v ltac:(lia)) as [_ L]. pose proof (Z.log2_nonneg v).
      rewrite Nat2Z.inj_succ, Z2Nat.id by lia.
      eapply Z.lt_le_trans; [exact L|]. apply Z.pow_le_mono_l. lia.
    - lia.
    - intros a. cbn. f_equal. lia.
    - rewrite Hk. f_equal. lia. }
  cbn. destruct (itoa v) eqn:F; [congruence|]. exact E.
Qed.

Lemma itoa_inj a b : 0 <= a -> 0 <= b -> itoa a = itoa b -> a = b.
Proof.
  intros Ha Hb E. destruct (itoa_pos a Ha) as [A _], (itoa_pos b Hb) as [B _]. rewrite E in A. congruence.
Qed.

Lemma digit_char_dig d : 0 <= d < 10 -> is_dig (digit_char d) = true.
Proof.
  intros H. assert (d = 0 \/ d = 1 \/ d = 2 \/ d = 3 \/ d = 4 \/ d = 5 \/ d = 6 \/ d = 7 \/ d = 8 \/ d = 9) by lia.
  intuition; subst; reflexivity.
Qed.

Lemma format_digits fuel : forall v acc, 0 <= v -> all_chars is_dig acc = true -> all_chars is_dig (format_loop fuel 10 v acc) = true.
Proof.
  induction fuel as [|f IH]; intros v acc Hv A; cbn [format_loop]; auto.
  assert (B : all_chars is_dig (String (digit_char (v mod 10)) acc) = true).
  { cbn [all_chars]. rewrite digit_char_dig, A; auto. apply Z.mod_pos_bound. lia. }
  destruct (v <? 10)%Z; auto. apply IH; auto. apply Z.div_pos; lia.
Qed.

Lemma itoa_digits v : 0 <= v -> all_chars is_dig (itoa v) = true.
Proof. intros H. unfold itoa. destruct (Z.ltb_spec v 0); [lia|]. apply format_digits; auto. Qed.

Lemma nonempty_or v s : 0 <= v -> itoa v ++ s <> "".
Proof. intros H E. destruct (itoa_pos v H) as [_ N]. destruct (itoa v); [congruence|discriminate]. Qed.

Lemma repeat_inj mn mx mn' mx' : 0 <= mn -> -1 <= mx -> 0 <= mn' -> -1 <= mx' ->
  repeat_string mn mx = repeat_string mn' mx' -> mn = mn' /\ mx = mx'.
Proof.
  intros H1 H2 H3 H4. unfold repeat_string.
  assert (Star : forall a s, 0 <= a -> forall b t, 0 <= b ->
    (if (a =? 0)%Z then "" else itoa a) ++ "*" ++ s = (if (b =? 0)%Z then "" else itoa b) ++ "*" ++ t -> a = b /\ s = t).
  { intros a s Ha b t Hb E.
    assert (D : forall v, 0 <= v -> all_chars is_dig (if (v =? 0)%Z then "" else itoa v) = true).
    { intros v Hv. destruct (v =? 0)%Z; auto. apply itoa_digits; auto. }
    destruct (munch is_dig _ _ ("*" ++ s) ("*" ++ t) (D a Ha) (D b Hb) eq_refl eq_refl E) as [E1 E2]. inversion E2. split; auto.
    destruct (Z.eqb_spec a 0), (Z.eqb_spec b 0); subst; auto.
    - symmetry in E1. destruct (itoa_pos b Hb) as [_ N]. congruence.
    - destruct (itoa_pos a Ha) as [_ N]. congruence.
    - apply itoa_inj; auto. }
  assert (NoStar : forall a s b, 0 <= a -> 0 <= b -> (if (a =? 0)%Z then "" else itoa a) ++ "*" ++ s = (if (b =? 1)%Z then "" else itoa b) -> False).
  { intros a s b Ha Hb E.
    assert (D : all_chars is_dig (if (b =? 1)%Z then "" else itoa b) = true).
    { destruct (b =? 1)%Z; auto. apply itoa_digits; auto. }
    rewrite <- E, all_chars_app in D. apply andb_true_iff in D as [_ D]. discriminate. }
  assert (Mx : forall a b, -1 <= a -> -1 <= b -> (if (a =? inf)%Z then "" else itoa a) = (if (b =? inf)%Z then "" else itoa b) -> a = b).
  { unfold inf. intros a b Ha Hb E. destruct (Z.eqb_spec a (-1)), (Z.eqb_spec b (-1)); subst; auto.
    - symmetry in E. destruct (itoa_pos b ltac:(lia)) as [_ N]. congruence.
    - destruct (itoa_pos a ltac:(lia)) as [_ N]. congruence.
    - apply itoa_inj; auto; lia. }
  destruct (Z.eqb_spec mn mx), (Z.eqb_spec mn' mx'); intros E.
  - subst mx mx'. assert (mn = mn'); [|auto]. destruct (Z.eqb_spec mn 1), (Z.eqb_spec mn' 1); subst; auto.
    + symmetry in E. destruct (itoa_pos mn' H3) as [_ N]. congruence.
    + destruct (itoa_pos mn H1) as [_ N]. congruence.
    + apply itoa_inj; auto.
  - exfalso. symmetry in E. apply NoStar in E; auto.
  - exfalso. apply NoStar in E; auto.
  - apply Star in E as [-> E]; auto.
Qed.

Definition rep_char (c : ascii) : bool := (is_dig c || (cval c =? 42)%Z)%bool.
Lemma repeat_chars mn mx : 0 <= mn -> -1 <= mx -> all_chars rep_char (repeat_string mn mx) = true.
Proof.
  intros H1 H2. assert (D : forall v, 0 <= v -> all_chars rep_char (itoa v) = true).
  { intros v Hv. eapply all_chars_impl; [|apply itoa_digits; eauto]. unfold rep_char. intros c ->. auto. }
  unfold repeat_string. destruct (Z.eqb_spec mn mx).
  - destruct (mn =? 1)%Z; auto.
  - rewrite !all_chars_app. apply andb_true_iff; split; [destruct (mn =? 0)%Z; auto|]. cbn.
    destruct (Z.eqb_spec mx inf); auto. unfold inf in *. apply D. lia.
Qed.

(** *** Elements *)
(** What may follow an element: nothing, a space, or a closing bracket. *)
Definition stopc (c : ascii) : bool := (Ascii.eqb c " " || Ascii.eqb c ")" || Ascii.eqb c "]")%bool.
Definition stop (s : string) : Prop := match s with EmptyString => True | String c _ => stopc c = true end.

Lemma stopc_cases c : stopc c = true -> c = " "%char \/ c = ")"%char \/ c = "]"%char.
Proof.
  unfold stopc. rewrite !orb_true_iff. intros [[H|H]|H]; apply Ascii.eqb_eq in H; auto.
Qed.
Lemma stop_name s : stop s -> nostart name_char s.
Proof. destruct s; cbn; auto. intros H. apply stopc_cases in H as [->|[->| ->]]; reflexivity. Qed.

Definition erase_alt (a : alternation) : alternation := map (map erase_rep) a.

(** First characters of elements. *)
Definition startc (c : ascii) : bool :=
  (is_alpha c || Ascii.eqb c "(" || Ascii.eqb c "[" || Ascii.eqb c """" || Ascii.eqb c "%" || Ascii.eqb c "<")%bool.
Lemma elem_start e : lex_elem e = true -> exists c s, elem_string e = String c s /\ startc c = true.
Proof.
  destruct e; cbn [lex_elem elem_string]; intros L.
  - destruct name as [|c s]; [discriminate|]. exists c, s. split; auto. cbn in L. apply andb_true_iff in L as [L _].
    unfold startc. rewrite L. reflexivity.
  - cbn [append]. eexists _, _. split; reflexivity.
  - cbn [append]. eexists _, _. split; reflexivity.
  - unfold char_string. eexists _, _. split; reflexivity.
  - unfold num_string. cbn [append]. eexists _, _. split; reflexivity.
  - cbn [append]. eexists _, _. split; reflexivity.
Qed.

Lemma startc_rep c : startc c = true -> rep_char c = false.
Proof.
  unfold startc, rep_char, is_alpha, is_dig. rewrite !orb_true_iff. intros H.
  assert (cval c = 40 \/ cval c = 91 \/ cval c = 34 \/ cval c = 37 \/ cval c = 60 \/ 65 <= cval c <= 90 \/ 97 <= cval c <= 122).
  { destruct H as [[[[[H|H]|H]|H]|H]|H]; try (apply Ascii.eqb_eq in H; subst; cbn; lia).
    rewrite !andb_true_iff, !Z.leb_le in H. lia. }
  apply orb_false_iff. split.
  - destruct (Z.leb_spec 48 (cval c)), (Z.leb_spec (cval c) 57); auto; lia.
  - apply Z.eqb_neq. lia.
Qed.

(** First characters of repetitions are neither a space nor a slash. *)
Lemma rep_start r : lex_rep r = true -> exists c s, rep_string r = String c s /\ c <> "/"%char /\ c <> " "%char.
Proof.
  destruct r as [mn mx e]. cbn [lex_rep rep_string]. rewrite !andb_true_iff, !Z.leb_le. intros [[H1 H2] L].
  pose proof (repeat_chars mn mx H1 H2) as R.
  destruct (repeat_string mn mx) as [|c s].
  - destruct (elem_start e L) as (c & s & -> & S). exists c, s. split; auto.
    split; intros ->; discriminate.
  - cbn in R. apply andb_true_iff in R as [R _]. exists c, (s ++ elem_string e). split; auto.
    split; intros ->; discriminate.
Qed.

Lemma alpha_not c : is_alpha c = true -> c <> "("%char /\ c <> "["%char /\ c <> """"%char /\ c <> "%"%char /\ c <> "<"%char.
Proof. intros H. repeat split; intros ->; discriminate. Qed.

(** quoted strings *)
Lemma quot_char v : quotable v = true -> exists c, string_of_bytes (string_of_rune v) = String c "" /\ cval c = v.
Proof.
  unfold quotable. rewrite !andb_true_iff, !Z.leb_le. intros [[A B] C].
  assert (string_of_rune v = [v]) as ->.
  { unfold string_of_rune, valid_rune. destruct (Z.leb_spec v 127); [|lia].
    replace ((0 <=? v) && (v <? 55296))%bool with true by (symmetry; apply andb_true_iff; rewrite Z.leb_le, Z.ltb_lt; lia).
    reflexivity. }
  exists (ascii_of_N (Z.to_N v)). split; auto. unfold cval. rewrite N_ascii_embedding by lia. lia.
Qed.

Lemma char_inj vs : forall vs' s s', forallb quotable vs = true -> forallb quotable vs' = true ->
  cat_all (map (fun v => string_of_bytes (string_of_rune v)) vs) ++ String """" s =
  cat_all (map (fun v => string_of_bytes (string_of_rune v)) vs') ++ String """" s' -> vs = vs' /\ s = s'.
Proof.
  induction vs as [|v vs IH]; intros [|v' vs'] s s' Q Q' E; cbn [map cat_all forallb] in *.
  - inversion E. auto.
  - apply andb_true_iff in Q' as [Q' _]. destruct (quot_char v' Q') as (c & R & V). rewrite R in E. cbn in E.
    inversion E; subst c. unfold quotable in Q'. rewrite !andb_true_iff in Q'. destruct Q' as [_ Q'].
    rewrite <- V in Q'. discriminate.
  - apply andb_true_iff in Q as [Q _]. destruct (quot_char v Q) as (c & R & V). rewrite R in E. cbn in E.
    inversion E; subst c. unfold quotable in Q. rewrite !andb_true_iff in Q. destruct Q as [_ Q].
    rewrite <- V in Q. discriminate.
  - apply andb_true_iff in Q as [Q1 Q]. apply andb_true_iff in Q' as [Q1' Q'].
    destruct (quot_char v Q1) as (c & R & V), (quot_char v' Q1') as (c' & R' & V'). rewrite R, R' in E.
    cbn in E. inversion E as [[Ec E2]]; subst c'.
    destruct (IH vs' s s' Q Q' E2) as [-> ->]. split; auto. congruence.
Qed.

Lemma prose_inj vs : forall vs' s s', lex_prose vs = true -> lex_prose vs' = true ->
  cat_all vs ++ String ">" s = cat_all vs' ++ String ">" s' -> vs = vs' /\ s = s'.
Proof.
  unfold lex_prose. induction vs as [|v vs IH]; intros [|v' vs'] s s' Q Q' E; cbn [cat_all forallb] in *.
  - inversion E. auto.
  - apply andb_true_iff in Q' as [Q' _]. destruct v' as [|c [|]]; try discriminate. cbn in E. inversion E; subst c. discriminate.
  - apply andb_true_iff in Q as [Q _]. destruct v as [|c [|]]; try discriminate. cbn in E. inversion E; subst c. discriminate.
  - apply andb_true_iff in Q as [Q1 Q]. apply andb_true_iff in Q' as [Q1' Q'].
    destruct v as [|c [|]]; try discriminate. destruct v' as [|c' [|]]; try discriminate.
    cbn in E. inversion E as [[Ec E2]]; subst c'. destruct (IH vs' s s' Q Q' E2) as [-> ->]. auto.
Qed.

(** numerals *)
Definition numc (c : ascii) : bool := (is_alpha c || is_dig c)%bool.
Definition num_ok (s : string) : bool := (negb (String.eqb s "") && all_chars numc s)%bool.

Lemma num_ok_all s : num_ok s = true -> all_chars numc s = true.
Proof. unfold num_ok. rewrite andb_true_iff. tauto. Qed.

Lemma join_cons sep x y l : join sep (x :: y :: l) = x ++ sep ++ join sep (y :: l).
Proof. reflexivity. Qed.

Lemma join_one sep x : join sep [x] = x.
Proof. reflexivity. Qed.

Lemma dash_not_num sep : (sep = "." \/ sep = "-") -> forall s, nostart numc (sep ++ s).
Proof. intros [->| ->] s; reflexivity. Qed.

Lemma nums_inj sep : (sep = "." \/ sep = "-") -> forall es es' s s', es <> [] -> es' <> [] ->
  forallb num_ok es = true -> forallb num_ok es' = true ->
  nostart numc s -> nostart numc s' -> nostart (fun c => Ascii.eqb c "." || Ascii.eqb c "-")%bool s ->
  nostart (fun c => Ascii.eqb c "." || Ascii.eqb c "-")%bool s' ->
  join sep es ++ s = join sep es' ++ s' -> es = es' /\ s = s'.
Proof.
  intros Sep. induction es as [|x es IH]; intros es' s s' Ne Ne' F F' N N' D D' E; [congruence|].
  destruct es' as [|x' es']; [congruence|]. cbn [forallb] in F, F'.
  apply andb_true_iff in F as [F0 F]. apply andb_true_iff in F' as [F0' F'].
  assert (Sp : forall t u, sep ++ t = u -> nostart (fun c => Ascii.eqb c "." || Ascii.eqb c "-")%bool u -> False).
  { intros t u <-. destruct Sep as [->| ->]; cbn; discriminate. }
  destruct es as [|y es], es' as [|y' es'].
  - cbn [join] in E. destruct (munch numc x x' s s') as [-> ->]; auto using num_ok_all.
  - rewrite join_cons, join_one, !sapp_assoc in E.
    destruct (munch numc x x' _ _ (num_ok_all _ F0) (num_ok_all _ F0') N (dash_not_num _ Sep _) E) as [_ E2].
    exfalso. eapply Sp; [symmetry; exact E2|auto].
  - rewrite join_cons, join_one, !sapp_assoc in E.
    destruct (munch numc x x' _ _ (num_ok_all _ F0) (num_ok_all _ F0') (dash_not_num _ Sep _) N' E) as [_ E2].
    exfalso. eapply Sp; [exact E2|auto].
  - rewrite !join_cons, !sapp_assoc in E.
    destruct (munch numc x x' _ _ (num_ok_all _ F0) (num_ok_all _ F0') (dash_not_num _ Sep _) (dash_not_num _ Sep _) E) as [-> E2].
    apply sapp_inj in E2. destruct (IH (y' :: es') s s') as [-> ->]; auto; discriminate.
Qed.

Lemma stop_num s : stop s -> nostart numc s /\ nostart (fun c => Ascii.eqb c "." || Ascii.eqb c "-")%bool s.
Proof.
  destruct s as [|c s]; cbn; auto. intros H. apply stopc_cases in H as [->|[->| ->]]; split; reflexivity.
Qed.

Lemma num_inj b st es b' st' es' s s' : lex_num b st es = true -> lex_num b' st' es' = true -> stop s -> stop s' ->
  num_string b st es ++ s = num_string b' st' es' ++ s' -> b = b' /\ st = st' /\ es = es' /\ s = s'.
Proof.
  unfold lex_num, num_string. rewrite !andb_true_iff. intros [[B F] L] [[B' F'] L'] S S' E.
  cbn [append] in E. injection E as E. rewrite !sapp_assoc in E.
  assert (Hb : forall b t b' t', (String.eqb b "b" || String.eqb b "d" || String.eqb b "x")%bool = true ->
    (String.eqb b' "b" || String.eqb b' "d" || String.eqb b' "x")%bool = true -> b ++ t = b' ++ t' -> b = b' /\ t = t').
  { intros ? ? ? ?. rewrite !orb_true_iff. intros [[H|H]|H] [[H'|H']|H']; apply String.eqb_eq in H, H'; subst; cbn; intros X; inversion X; auto. }
  destruct (Hb _ _ _ _ B B' E) as [-> E2]. clear Hb E B B'. split; auto.
  destruct (stop_num s S) as [N1 N2], (stop_num s' S') as [N1' N2'].
  assert (K : forall es es' s s', length es = 2%nat -> es' <> [] -> forallb num_ok es = true -> forallb num_ok es' = true ->
    stop s' -> join "-" es ++ s = join "." es' ++ s' -> False).
  { intros l l' t t' Ll Ne G G' St X. destruct l as [|x [|y [|]]]; try discriminate. destruct l' as [|x' l']; [congruence|].
    cbn [forallb] in G, G'. apply andb_true_iff in G as [G _]. apply andb_true_iff in G' as [G' _].
    rewrite join_cons, !sapp_assoc in X.
    assert (exists u, join "." (x' :: l') ++ t' = x' ++ u /\ nostart numc u /\ nostart (Ascii.eqb "-") u) as (u & Eu & Nu & Du).
    { destruct l' as [|y' l'].
      - exists t'. split; auto. destruct (stop_num t' St) as [A1 A2]. split; auto.
        destruct t' as [|c t']; cbn; auto. cbn in St. apply stopc_cases in St as [->|[->| ->]]; reflexivity.
      - exists ("." ++ join "." (y' :: l') ++ t'). rewrite join_cons, !sapp_assoc. repeat split; reflexivity. }
    rewrite Eu in X. destruct (munch numc x x' _ u (num_ok_all _ G) (num_ok_all _ G') (dash_not_num "-" ltac:(auto) _) Nu X) as [_ X2].
    subst u. discriminate. }
  assert (Ne : es <> []) by (destruct st; destruct es; cbn in L; try discriminate; congruence).
  assert (Ne' : es' <> []) by (destruct st'; destruct es'; cbn in L'; try discriminate; congruence).
  destruct st, st'.
  - destruct (nums_inj "." ltac:(auto) es es' s s') as [-> ->]; auto.
  - exfalso. apply Nat.eqb_eq in L'. symmetry in E2. eapply K; [exact L'|exact Ne|exact F'|exact F|exact S|exact E2].
  - exfalso. apply Nat.eqb_eq in L. eapply K; [exact L|exact Ne'|exact F|exact F'|exact S'|exact E2].
  - destruct (nums_inj "-" ltac:(auto) es es' s s') as [-> ->]; auto.
Qed.

(** *** Sequences *)
(** After a concatenation: " / " and a repetition, or the end / a closing bracket. *)
Definition cstop (s : string) : Prop :=
  match s with
  | EmptyString => True
  | String c t => (c = ")"%char \/ c = "]"%char) \/ (c = " "%char /\ match t with String "/" _ => True | _ => False end)
  end.
Definition astop (s : string) : Prop :=
  match s with EmptyString => True | String c _ => c = ")"%char \/ c = "]"%char end.

Lemma cstop_stop s : cstop s -> stop s.
Proof. destruct s; cbn; auto. intros [[->| ->]|[-> _]]; reflexivity. Qed.
Lemma astop_cstop s : astop s -> cstop s.
Proof. destruct s; cbn; auto. Qed.

Lemma stop_space t : stop (" " ++ t). Proof. reflexivity. Qed.
Lemma cstop_slash t : cstop (" / " ++ t). Proof. right. split; [reflexivity|exact Logic.I]. Qed.

Definition rep_good (r : rep) : Prop := forall r' s s', lex_rep r = true -> lex_rep r' = true -> stop s -> stop s' ->
  rep_string r ++ s = rep_string r' ++ s' -> erase_rep r = erase_rep r' /\ s = s'.

Lemma space_rep r l s : lex_rep r = true -> ~ cstop (" " ++ join " " (map rep_string (r :: l)) ++ s).
Proof.
  intros L. destruct (rep_start r L) as (c & t & E & N1 & N2). cbn [map]. cbn [append cstop].
  intros [[H|H]|[_ H]]; try discriminate.
  assert (exists u, join " " (rep_string r :: map rep_string l) ++ s = String c u) as [u Eu].
  { destruct l; cbn [map join]; rewrite E; cbn [append]; eauto. }
  rewrite Eu in H. destruct c as [[] [] [] [] [] [] [] []]; try contradiction; apply N1; reflexivity.
Qed.

Lemma cat_inj c : Forall rep_good c -> forall c' s s', c <> [] -> c' <> [] ->
  forallb lex_rep c = true -> forallb lex_rep c' = true -> cstop s -> cstop s' ->
  cat_string c ++ s = cat_string c' ++ s' -> map erase_rep c = map erase_rep c' /\ s = s'.
Proof.
  unfold cat_string. induction c as [|r c IH]; intros G c' s s' Ne Ne' F F' S S' E; [congruence|].
  destruct c' as [|r' c']; [congruence|]. inversion G as [|? ? G1 G2]; subst. cbn [forallb] in F, F'.
  apply andb_true_iff in F as [F0 F]. apply andb_true_iff in F' as [F0' F'].
  destruct c as [|x c], c' as [|x' c'].
  - cbn [map join] in *. destruct (G1 r' s s') as [-> ->]; auto using cstop_stop.
  - cbn [map] in E. change (map rep_string []) with (@nil string) in E. change (map cat_string []) with (@nil string) in E. rewrite join_cons, join_one, !sapp_assoc in E.
    destruct (G1 r' s _ F0 F0' (cstop_stop _ S) (stop_space _) E) as [_ ->]. exfalso.
    cbn [forallb] in F'. apply andb_true_iff in F' as [F' _]. eapply space_rep; [exact F'|exact S].
  - cbn [map] in E. change (map rep_string []) with (@nil string) in E. change (map cat_string []) with (@nil string) in E. rewrite join_cons, join_one, !sapp_assoc in E.
    destruct (G1 r' _ s' F0 F0' (stop_space _) (cstop_stop _ S') E) as [_ <-]. exfalso.
    cbn [forallb] in F. apply andb_true_iff in F as [F _]. eapply space_rep; [exact F|exact S'].
  - cbn [map] in E. rewrite !join_cons, !sapp_assoc in E.
    destruct (G1 r' _ _ F0 F0' (stop_space _) (stop_space _) E) as [Er E2]. apply sapp_inj in E2.
    destruct (IH G2 (x' :: c') s s') as [E3 ->]; auto; try discriminate.
    split; auto. cbn [map] in *. congruence.
Qed.

Lemma alt_inj a : Forall (Forall rep_good) a -> forall a' s s', lex_alt a = true -> lex_alt a' = true ->
  astop s -> astop s' -> alt_string a ++ s = alt_string a' ++ s' -> erase_alt a = erase_alt a' /\ s = s'.
Proof.
  unfold alt_string, erase_alt. induction a as [|c a IH]; intros G a' s s' L L' S S' E; [discriminate|].
  destruct a' as [|c' a']; [discriminate|]. inversion G as [|? ? G1 G2]; subst.
  assert (Sp : forall c a, lex_alt (c :: a) = true -> c <> [] /\ forallb lex_rep c = true /\ (a <> [] -> lex_alt a = true)).
  { clear. intros c a. unfold lex_alt. cbn [forallb]. rewrite !andb_true_iff. intros (_ & (A & B) & C).
    split; [destruct c; [discriminate|congruence]|]. split; auto. intros Ne. rewrite C. destruct a; [congruence|auto]. }
  destruct (Sp _ _ L) as (Ne & F & La), (Sp _ _ L') as (Ne' & F' & La').
  destruct a as [|x a], a' as [|x' a'].
  - cbn [map join] in *. destruct (cat_inj c G1 c' s s') as [-> ->]; auto using astop_cstop.
  - cbn [map] in E. change (map rep_string []) with (@nil string) in E. change (map cat_string []) with (@nil string) in E. rewrite join_cons, join_one, !sapp_assoc in E.
    destruct (cat_inj c G1 c' s _ Ne Ne' F F' (astop_cstop _ S) (cstop_slash _) E) as [_ ->].
    exfalso. cbn in S. destruct S; discriminate.
  - cbn [map] in E. change (map rep_string []) with (@nil string) in E. change (map cat_string []) with (@nil string) in E. rewrite join_cons, join_one, !sapp_assoc in E.
    destruct (cat_inj c G1 c' _ s' Ne Ne' F F' (cstop_slash _) (astop_cstop _ S') E) as [_ <-].
    exfalso. cbn in S'. destruct S'; discriminate.
  - cbn [map] in E. rewrite !join_cons, !sapp_assoc in E.
    destruct (cat_inj c G1 c' _ _ Ne Ne' F F' (cstop_slash _) (cstop_slash _) E) as [Er E2].
    apply sapp_inj in E2. destruct (IH G2 (x' :: a') s s') as [E3 ->]; auto.
    + apply La; discriminate.
    + apply La'; discriminate.
    + split; auto. cbn [map] in *. congruence.
Qed.

Definition elem_good (e : elem) : Prop := forall e' s s', lex_elem e = true -> lex_elem e' = true -> stop s -> stop s' ->
  elem_string e ++ s = elem_string e' ++ s' -> erase_elem e = erase_elem e' /\ s = s'.

Lemma name_head n : lex_name n = true -> exists c t, n = String c t /\ is_alpha c = true /\ all_chars name_char n = true.
Proof.
  destruct n as [|c t]; [discriminate|]. cbn. rewrite andb_true_iff. intros [A B]. exists c, t. repeat split; auto.
  rewrite B. unfold name_char. rewrite A. reflexivity.
Qed.

Lemma print_good : (forall e, elem_good e) /\ (forall r, rep_good r).
Proof.
  apply elem_rep_ind.
  - (* rule name *)
    intros n e' s s' L L' S S' E. cbn [lex_elem] in L. destruct (name_head n L) as (c & t & En & A & B).
    destruct (alpha_not c A) as (A1 & A2 & A3 & A4 & A5).
    destruct e'; cbn [elem_string lex_elem] in *; try (exfalso; subst n; unfold char_string, num_string in E; cbn [append] in E; inversion E; congruence).
    destruct (name_head name L') as (c' & t' & En' & A' & B').
    destruct (munch name_char n name s s' B B' (stop_name _ S) (stop_name _ S') E) as [-> ->]. auto.
  - (* group *)
    intros a G e' s s' L L' S S' E. destruct e'; cbn [elem_string lex_elem] in *;
      try (exfalso; unfold char_string, num_string in E; cbn [append] in E; inversion E; fail).
    + exfalso. destruct (name_head name L') as (c & t & -> & A & _). destruct (alpha_not c A) as (A1 & _). cbn in E. inversion E; congruence.
    + cbn [append] in E. injection E as E. rewrite !sapp_assoc in E.
      destruct (alt_inj a G a0 (")" ++ s) (")" ++ s') L L' (or_introl eq_refl) (or_introl eq_refl) E) as [E1 E2].
      inversion E2. split; auto. cbn. f_equal. exact E1.
  - (* option *)
    intros a G e' s s' L L' S S' E. destruct e'; cbn [elem_string lex_elem] in *;
      try (exfalso; unfold char_string, num_string in E; cbn [append] in E; inversion E; fail).
    + exfalso. destruct (name_head name L') as (c & t & -> & A & _). destruct (alpha_not c A) as (_ & A1 & _). cbn in E. inversion E; congruence.
    + cbn [append] in E. injection E as E. rewrite !sapp_assoc in E.
      destruct (alt_inj a G a0 ("]" ++ s) ("]" ++ s') L L' (or_intror eq_refl) (or_intror eq_refl) E) as [E1 E2].
      inversion E2. split; auto. cbn. f_equal. exact E1.
  - (* string *)
    intros b v e' s s' L L' S S' E. destruct e'; cbn [elem_string lex_elem] in *;
      try (exfalso; unfold char_string, num_string in E; cbn [append] in E; inversion E; fail).
    + exfalso. destruct (name_head name L') as (c & t & -> & A & _). destruct (alpha_not c A) as (_ & _ & A1 & _). cbn in E. inversion E; congruence.
    + unfold char_string in E. cbn [append] in E. injection E as E. rewrite !sapp_assoc in E. cbn [append] in E.
      destruct (char_inj v values s s' L L' E) as [-> ->]. auto.
  - (* num-val *)
    intros b st v e' s s' L L' S S' E. destruct e'; cbn [elem_string lex_elem] in *;
      try (exfalso; unfold char_string, num_string in E; cbn [append] in E; inversion E; fail).
    + exfalso. destruct (name_head name L') as (c & t & -> & A & _). destruct (alpha_not c A) as (_ & _ & _ & A1 & _).
      unfold num_string in E. cbn in E. inversion E; congruence.
    + destruct (num_inj b st v base st0 elems s s' L L' S S' E) as (-> & -> & -> & ->). auto.
  - (* prose *)
    intros v e' s s' L L' S S' E. destruct e'; cbn [elem_string lex_elem] in *;
      try (exfalso; unfold char_string, num_string in E; cbn [append] in E; inversion E; fail).
    + exfalso. destruct (name_head name L') as (c & t & -> & A & _). destruct (alpha_not c A) as (_ & _ & _ & _ & A1). cbn in E. inversion E; congruence.
    + cbn [append] in E. injection E as E. rewrite !sapp_assoc in E. cbn [append] in E.
      destruct (prose_inj v values s s' L L' E) as [-> ->]. auto.
  - (* repetition *)
    intros mn mx e G [mn' mx' e'] s s' L L' S S' E. cbn [lex_rep rep_string erase_rep] in *.
    rewrite !andb_true_iff, !Z.leb_le in *. destruct L as [[B1 B2] L], L' as [[B1' B2'] L']. rewrite !sapp_assoc in E.
    assert (Ns : forall e s, lex_elem e = true -> nostart rep_char (elem_string e ++ s)).
    { intros e0 s0 Le. destruct (elem_start e0 Le) as (c & t & -> & Sc). cbn. apply startc_rep; auto. }
    destruct (munch rep_char _ _ _ _ (repeat_chars mn mx B1 B2) (repeat_chars mn' mx' B1' B2') (Ns e s L) (Ns e' s' L') E) as [E1 E2].
    apply repeat_inj in E1 as [-> ->]; auto. destruct (G e' s s' L L' S S' E2) as [-> ->]. auto.
Qed.

Theorem elem_string_inj e e' : lex_elem e = true -> lex_elem e' = true ->
  elem_string e = elem_string e' -> erase_elem e = erase_elem e'.
Proof.
  intros L L' E. apply (proj1 print_good e e' "" ""); try exact Logic.I; auto. rewrite !sapp_nil. auto.
Qed.
Theorem rep_string_inj r r' : lex_rep r = true -> lex_rep r' = true ->
  rep_string r = rep_string r' -> erase_rep r = erase_rep r'.
Proof.
  intros L L' E. apply (proj2 print_good r r' "" ""); try exact Logic.I; auto. rewrite !sapp_nil. auto.
Qed.
Theorem alt_string_inj a a' : lex_alt a = true -> lex_alt a' = true ->
  alt_string a = alt_string a' -> erase_alt a = erase_alt a'.
Proof.
  intros L L' E. apply (alt_inj a) with (s := "") (s' := ""); try exact Logic.I; auto.
  - apply Forall_forall. intros c _. apply Forall_forall. intros r _. apply print_good.
  - rewrite !sapp_nil. auto.
Qed.

(** *** Whole grammars *)
Lemma core_lex : lex_grammar core_rules = true.
Proof. vm_compute. reflexivity. Qed.

Lemma lex_occ g : lex_grammar g = true ->
  (forall e, occ_elem g e -> lex_elem e = true) /\ (forall r, occ_rep g r -> lex_rep r = true).
Proof.
  intros L.
  assert (A : forall a c x, lex_alt a = true -> In c a -> In x c -> lex_rep x = true).
  { intros a c x H Hc Hx. unfold lex_alt in H. rewrite andb_true_iff, forallb_forall in H. destruct H as [_ H].
    specialize (H c Hc). cbn in H. rewrite andb_true_iff, forallb_forall in H. apply H; auto. }
  assert (R : forall r, In r (g ++ core_rules)%list -> lex_alt (rule_alt r) = true).
  { intros r H. apply in_app_or in H. pose proof core_lex as C. unfold lex_grammar in *. rewrite forallb_forall in L, C.
    destruct H as [H|H]; [apply L in H|apply C in H]; apply andb_true_iff in H; tauto. }
  assert (E : forall mn mx e, lex_rep (Rep mn mx e) = true -> lex_elem e = true).
  { intros mn mx e. cbn [lex_rep]. rewrite andb_true_iff. tauto. }
  split.
  - fix IH 2. intros e H. destruct H as [mn mx e H]. apply (E mn mx). clear E.
    destruct H as [r c x H1 H2 H3|a c x H1 H2 H3|a c x H1 H2 H3].
    + exact (A _ _ _ (R r H1) H2 H3).
    + exact (A _ _ _ (IH _ H1) H2 H3).
    + exact (A _ _ _ (IH _ H1) H2 H3).
  - fix IH 2. intros x H. destruct H as [r c x H1 H2 H3|a c x H1 H2 H3|a c x H1 H2 H3].
    + exact (A _ _ _ (R r H1) H2 H3).
    + refine (A _ _ _ _ H2 H3). clear -IH H1 E. inversion H1 as [mn mx e H0 E0]. apply IH in H0. exact (E _ _ _ H0).
    + refine (A _ _ _ _ H2 H3). clear -IH H1 E. inversion H1 as [mn mx e H0 E0]. apply IH in H0. exact (E _ _ _ H0).
Qed.

Lemma erase_eq g : same_flags g ->
  (forall e e', occ_elem g e -> occ_elem g e' -> erase_elem e = erase_elem e' -> e = e') /\
  (forall r r', occ_rep g r -> occ_rep g r' -> erase_rep r = erase_rep r' -> r = r').
Proof.
  intros Fl.
  assert (A : forall (a a' : alternation),
    Forall (Forall (fun r => forall r', occ_rep g r -> occ_rep g r' -> erase_rep r = erase_rep r' -> r = r')) a ->
    (forall c x, In c a -> In x c -> occ_rep g x) -> (forall c x, In c a' -> In x c -> occ_rep g x) ->
    map (map erase_rep) a = map (map erase_rep) a' -> a = a').
  { induction a as [|c a IH]; intros [|c' a'] F O O' E; try discriminate; auto.
    inversion F as [|? ? F1 F2]; subst. cbn in E. injection E as E1 E2. f_equal.
    - assert (Oc : forall x, In x c -> occ_rep g x) by (intros; eapply O; [left; eauto|auto]).
      assert (Oc' : forall x, In x c' -> occ_rep g x) by (intros; eapply O'; [left; eauto|auto]).
      clear -F1 E1 Oc Oc'. revert c' E1 Oc'. induction F1 as [|x c F F1 IH]; intros [|x' c'] E Oc'; try discriminate; auto.
      cbn in E. injection E as E1 E2. f_equal.
      + apply F; auto; [apply Oc|apply Oc']; left; auto.
      + apply IH; auto; intros; [apply Oc|apply Oc']; right; auto.
    - apply IH; auto; intros; [eapply O|eapply O']; try (right; eauto); auto. }
  apply elem_rep_ind.
  - intros n [] O O' E; try discriminate. exact E.
  - intros a F [] O O' E; try discriminate. injection E as E. f_equal. apply A; auto.
    + intros c x H1 H2. exact (occ_rep_group g _ c x O H1 H2).
    + intros c x H1 H2. exact (occ_rep_group g _ c x O' H1 H2).
  - intros a F [] O O' E; try discriminate. injection E as E. f_equal. apply A; auto.
    + intros c x H1 H2. exact (occ_rep_option g _ c x O H1 H2).
    + intros c x H1 H2. exact (occ_rep_option g _ c x O' H1 H2).
  - intros s v [] O O' E; try discriminate. injection E as ->. f_equal. eapply Fl; eauto.
  - intros b s v [] O O' E; try discriminate. exact E.
  - intros v [] O O' E; try discriminate. exact E.
  - intros mn mx e IH [mn' mx' e'] O O' E. cbn in E. injection E as -> -> E. f_equal.
    apply IH; auto; econstructor; eauto.
Qed.

Theorem print_inj_lex g : lex_grammar g = true -> told_apart g -> print_inj g.
Proof.
  intros L (E1 & E2 & E3). destruct (lex_occ g L) as [Le Lr]. split; [|split].
  - intros a a' O O' E. apply elem_string_inj in E; auto.
  - intros a a' O O' E. apply elem_string_inj in E; auto.
  - intros r r' O O' C E. apply rep_string_inj in E; auto.
Qed.

(** Grammars that write no string both ways. *)
Lemma flags_told_apart g : same_flags g -> told_apart g.
Proof.
  intros F. destruct (erase_eq g F) as [Ee Er]. split; [|split]; auto.
  - intros a a' O O' E. apply Ee in E; auto. congruence.
  - intros a a' O O' E. apply Ee in E; auto. congruence.
Qed.
