(** Lowering two grammars that differ in [%s] only.
    Its definitions are means of proof and model no code. *)
From Coq Require Import ZArith Arith String Ascii Bool List Lia.
From Verif Require Import Syntax Spec Utf8 Num Term Printer Slots Gll PrintInj LowerProof.
Import ListNotations.
Local Open Scope string_scope.
Local Open Scope list_scope.
Local Open Scope Z_scope.

Lemma F2_nth {A B} (R : A -> B -> Prop) l l' : Forall2 R l l' -> forall k,
  match nth_error l k, nth_error l' k with Some x, Some y => R x y | None, None => True | _, _ => False end.
Proof. induction 1 as [|x y l l' H _ IH]; intros [|k]; cbn; auto. apply IH. Qed.
Lemma F2_length {A B} (R : A -> B -> Prop) l l' : Forall2 R l l' -> length l = length l'.
Proof. induction 1; cbn; auto. Qed.
Lemma F2_refl {A} (R : A -> A -> Prop) l : Forall (fun x => R x x) l -> Forall2 R l l.
Proof. induction 1; constructor; auto. Qed.

Lemma narrows_refl : (forall e, narrows_elem e e) /\ (forall r, narrows_rep r r).
Proof.
  apply elem_rep_ind; try (constructor; auto; fail).
  - intros a H. constructor. apply F2_refl. eapply Forall_impl; [|exact H]. intros c Hc. apply F2_refl. exact Hc.
  - intros a H. constructor. apply F2_refl. eapply Forall_impl; [|exact H]. intros c Hc. apply F2_refl. exact Hc.
Qed.
Lemma narrows_rule_refl r : narrows_rule r r.
Proof.
  split; auto. apply F2_refl, Forall_forall. intros c _. apply F2_refl, Forall_forall. intros x _. apply narrows_refl.
Qed.

(** They print alike. *)
Lemma narrows_string : (forall e e', narrows_elem e e' -> elem_string e = elem_string e') /\
  (forall r r', narrows_rep r r' -> rep_string r = rep_string r').
Proof.
  assert (A : forall a b, Forall (Forall (fun r => forall r', narrows_rep r r' -> rep_string r = rep_string r')) a ->
    Forall2 (Forall2 narrows_rep) a b ->
    map (fun c => join " " (map rep_string c)) a = map (fun c => join " " (map rep_string c)) b).
  { intros a b F H. induction H as [|c d a b Hc _ IH]; cbn; auto. inversion F as [|? ? F1 F2]; subst. f_equal; auto. f_equal.
    clear -F1 Hc. induction Hc as [|x y c d Hx _ IH]; cbn; auto. inversion F1; subst. f_equal; auto. }
  apply elem_rep_ind.
  - intros n e' H. inversion H; subst. reflexivity.
  - intros a F e' H. inversion H; subst. cbn [elem_string]. rewrite (A a b); auto.
  - intros a F e' H. inversion H; subst. cbn [elem_string]. rewrite (A a b); auto.
  - intros s v e' H. inversion H; subst. reflexivity.
  - intros b s v e' H. inversion H; subst. reflexivity.
  - intros v e' H. inversion H; subst. reflexivity.
  - intros mn mx e IH r' H. inversion H; subst. cbn [rep_string]. rewrite (IH e'); auto.
Qed.

(** *** Lockstep *)
Definition sym_le (s s' : ssym) : Prop :=
  match s, s' with
  | SNonterm i, SNonterm j => i = j
  | STerm t, STerm t' => narrows_elem t t'
  | SEps, SEps => True
  | _, _ => False
  end.
Definition alts_le : list (list ssym) -> list (list ssym) -> Prop := Forall2 (Forall2 sym_le).
Record nt_le (x y : sgNT) : Prop := {
  le_isrule : nt_isrule x = nt_isrule y;
  le_alts : alts_le (nt_alts x) (nt_alts y);
  le_isrep : nt_isrep x = nt_isrep y;
  le_min : nt_repmin x = nt_repmin y;
  le_max : nt_repmax x = nt_repmax y }.
Record st_le (s s' : lstate) : Prop := {
  le_nts : Forall2 nt_le (ls_nts s) (ls_nts s');
  le_index : ls_index s = ls_index s';
  le_over : ls_over s = ls_over s' }.
Definition res_le {A} (R : A -> A -> Prop) (x y : option (A * lstate)) : Prop :=
  match x, y with
  | Some (a, s), Some (b, s') => R a b /\ st_le s s'
  | None, None => True
  | _, _ => False
  end.

Lemma empty_le : nt_le emptyNT emptyNT.
Proof. constructor; auto. constructor. Qed.
Lemma reserve_le k s s' : st_le s s' ->
  fst (reserve k s) = fst (reserve k s') /\ st_le (snd (reserve k s)) (snd (reserve k s')).
Proof.
  intros [N I O]. unfold reserve. rewrite <- I. destruct (assoc k (ls_index s)) as [id|].
  - cbn. split; auto. constructor; auto.
  - cbn. rewrite (F2_length _ _ _ N). split; auto. constructor; cbn; auto.
    apply Forall2_app; auto. constructor; [apply empty_le|constructor].
Qed.
Lemma budget_le m s s' : st_le s s' ->
  fst (budget_exceeded m s) = fst (budget_exceeded m s') /\ st_le (snd (budget_exceeded m s)) (snd (budget_exceeded m s')).
Proof.
  intros [N I O]. unfold budget_exceeded. cbn. rewrite (F2_length _ _ _ N), O. split; auto. constructor; cbn; auto.
Qed.
Lemma set_nth_le l l' : Forall2 nt_le l l' -> forall i x y, nt_le x y -> Forall2 nt_le (set_nth i x l) (set_nth i y l').
Proof. induction 1 as [|a b l l' H1 H2 IH]; intros [|i] x y H; cbn; constructor; auto. Qed.
Lemma set_nt_le i x y s s' : nt_le x y -> st_le s s' -> st_le (set_nt i x s) (set_nt i y s').
Proof. intros H [N I O]. constructor; cbn; auto. apply set_nth_le; auto. Qed.

Lemma mapM_le {A B} (f f' : A -> lstate -> option (B * lstate)) (Q : A -> A -> Prop) (R : B -> B -> Prop) l l' :
  Forall2 Q l l' -> (forall x y s s', In x l -> Q x y -> st_le s s' -> res_le R (f x s) (f' y s')) ->
  forall s s', st_le s s' -> res_le (Forall2 R) (mapM f l s) (mapM f' l' s').
Proof.
  induction 1 as [|x y l l' H1 H2 IH]; intros F s s' S; cbn [mapM]; [split; auto|].
  pose proof (F x y s s' (or_introl eq_refl) H1 S) as P. unfold res_le in P.
  destruct (f x s) as [[b t]|], (f' y s') as [[b' t']|]; try (destruct P; fail); [|exact Logic.I]. destruct P as [P S1].
  specialize (IH (fun x0 y0 u u' I => F x0 y0 u u' (or_intror I)) t t' S1). unfold res_le in IH.
  destruct (mapM f l t) as [[bs u]|], (mapM f' l' t') as [[bs' u']|]; try (destruct IH; fail); [|exact Logic.I]. destruct IH as [IH S2].
  split; auto.
Qed.
Lemma nonempty_le p q : Forall2 sym_le p q -> Forall2 sym_le (nonempty_seq p) (nonempty_seq q).
Proof. intros [|x y p' q' H1 H2]; cbn; constructor; auto; exact Logic.I. Qed.

Section Step.
  Variable max : Z.
  Variables lrule lrule' : string -> lstate -> option (nat * lstate).
  Hypothesis HL : forall n s s', st_le s s' -> res_le eq (lrule n s) (lrule' n s').

  Definition Ee (e : elem) : Prop := forall e' s s', narrows_elem e e' -> st_le s s' -> res_le sym_le (lower_elem max lrule e s) (lower_elem max lrule' e' s').
  Definition Er (r : rep) : Prop := forall r' s s', narrows_rep r r' -> st_le s s' -> res_le sym_le (lower_rep max lrule r s) (lower_rep max lrule' r' s').

  Lemma cat_le c d : Forall Er c -> Forall2 narrows_rep c d -> forall s s', st_le s s' ->
    res_le (Forall2 sym_le) (lower_cat max lrule c s) (lower_cat max lrule' d s').
  Proof.
    intros F H s s' S. unfold lower_cat.
    pose proof (mapM_le (lower_rep max lrule) (lower_rep max lrule') narrows_rep sym_le c d H) as P.
    specialize (P ltac:(intros x y t t' I Q T; rewrite Forall_forall in F; apply (F x I); auto) s s' S). unfold res_le in *.
    destruct (mapM (lower_rep max lrule) c s) as [[q t]|], (mapM (lower_rep max lrule') d s') as [[q' t']|]; auto.
    destruct P as [P T]. split; auto. apply nonempty_le. exact P.
  Qed.
  Lemma alts_le_ok a b : Forall (Forall Er) a -> Forall2 (Forall2 narrows_rep) a b -> forall s s', st_le s s' ->
    res_le alts_le (lower_alts max lrule a s) (lower_alts max lrule' b s').
  Proof.
    intros F H s s' S. unfold lower_alts. apply mapM_le with (Q := Forall2 narrows_rep); auto.
    intros x y t t' I Q T. rewrite Forall_forall in F. apply cat_le; auto.
  Qed.

  Lemma lower_le : (forall e, Ee e) /\ (forall r, Er r).
  Proof.
    apply elem_rep_ind.
    - intros n e' s s' H S. inversion H; subst. cbn [lower_elem]. pose proof (HL n s s' S) as P. unfold res_le in *.
      destruct (lrule n s) as [[i t]|], (lrule' n s') as [[j t']|]; auto.
    - intros a F e' s s' H S. pose proof (proj1 narrows_string _ _ H) as St. inversion H as [|a0 b N| | | |]; subst. rewrite !lower_elem_group, <- St.
      destruct (reserve_le ("grp:" ++ elem_string (EGroup a))%string s s' S) as [R1 R2].
      destruct (reserve _ s) as [[id ex] s1], (reserve _ s') as [[id' ex'] s1']. cbn [fst snd] in R1, R2. injection R1 as <- <-.
      destruct ex; [split; [reflexivity|exact R2]|].
      destruct (budget_le max s1 s1' R2) as [B1 B2]. destruct (budget_exceeded max s1) as [o s2], (budget_exceeded max s1') as [o' s2']. cbn [fst snd] in B1, B2. subst o'.
      destruct o; [split; [reflexivity|exact B2]|].
      pose proof (alts_le_ok a b F N s2 s2' B2) as P. unfold res_le in *.
      destruct (lower_alts max lrule a s2) as [[al s3]|], (lower_alts max lrule' b s2') as [[al' s3']|]; auto.
      destruct P as [P S3]. split; [reflexivity|]. apply set_nt_le; auto. constructor; auto.
    - intros a F e' s s' H S. pose proof (proj1 narrows_string _ _ H) as St. inversion H as [| |a0 b N| | |]; subst. rewrite !lower_elem_option, <- St.
      destruct (reserve_le ("opt:" ++ elem_string (EOption a))%string s s' S) as [R1 R2].
      destruct (reserve _ s) as [[id ex] s1], (reserve _ s') as [[id' ex'] s1']. cbn [fst snd] in R1, R2. injection R1 as <- <-.
      destruct ex; [split; [reflexivity|exact R2]|].
      destruct (budget_le max s1 s1' R2) as [B1 B2]. destruct (budget_exceeded max s1) as [o s2], (budget_exceeded max s1') as [o' s2']. cbn [fst snd] in B1, B2. subst o'.
      destruct o; [split; [reflexivity|exact B2]|].
      pose proof (alts_le_ok a b F N s2 s2' B2) as P. unfold res_le in *.
      destruct (lower_alts max lrule a s2) as [[al s3]|], (lower_alts max lrule' b s2') as [[al' s3']|]; auto.
      destruct P as [P S3]. split; [reflexivity|]. apply set_nt_le; auto. constructor; auto. cbn [nt_alts].
      constructor; auto. constructor; [exact Logic.I|constructor].
    - intros s v e' t t' H S. inversion H; subst. cbn. split; auto.
    - intros b s v e' t t' H S. inversion H; subst. cbn. split; auto.
    - intros v e' t t' H S. inversion H; subst. cbn. split; auto.
    - intros mn mx e IH r' s s' H S. pose proof (proj2 narrows_string _ _ H) as St. inversion H as [mn0 mx0 e0 e' N]; subst.
      rewrite !lower_rep_eq, <- St. destruct ((mn =? 1) && (mx =? 1))%bool; [apply IH; auto|].
      destruct (reserve_le ("rep:" ++ rep_string (Rep mn mx e))%string s s' S) as [R1 R2].
      destruct (reserve _ s) as [[id ex] s1], (reserve _ s') as [[id' ex'] s1']. cbn [fst snd] in R1, R2. injection R1 as <- <-.
      destruct ex; [split; [reflexivity|exact R2]|].
      destruct (budget_le max s1 s1' R2) as [B1 B2]. destruct (budget_exceeded max s1) as [o s2], (budget_exceeded max s1') as [o' s2']. cbn [fst snd] in B1, B2. subst o'.
      destruct o; [split; [reflexivity|exact B2]|].
      destruct (negb (mx =? inf) && (mx <? mn))%bool; [split; [reflexivity|exact B2]|].
      pose proof (IH e' s2 s2' N B2) as P. unfold res_le in *.
      destruct (lower_elem max lrule e s2) as [[x s3]|], (lower_elem max lrule' e' s2') as [[x' s3']|]; auto.
      destruct P as [P S3]. split; [reflexivity|]. apply set_nt_le; auto. constructor; auto. cbn [nt_alts].
      repeat constructor. exact P.
  Qed.
End Step.

Lemma find_le (p q : rule -> bool) g g' : narrows g g' -> (forall r r', narrows_rule r r' -> p r = q r') ->
  match find p g, find q g' with Some r, Some r' => narrows_rule r r' | None, None => True | _, _ => False end.
Proof.
  intros H E. induction H as [|r r' g g' H1 H2 IH]; cbn [find]; auto. rewrite (E r r' H1). destruct (q r'); auto.
Qed.
Lemma get_rule_le n g g' : narrows g g' ->
  match get_rule n g, get_rule n g' with Some r, Some r' => narrows_rule r r' | None, None => True | _, _ => False end.
Proof.
  intros H. unfold get_rule, get_rule_core, get_rule_in.
  pose proof (find_le (fun r => equal_fold n (rule_name r)) (fun r => equal_fold n (rule_name r)) g g' H) as P.
  specialize (P ltac:(intros r r' [E _]; rewrite E; reflexivity)).
  destruct (find _ g), (find _ g'); auto; try (destruct P; fail).
  destruct (find _ core_rules); auto. apply narrows_rule_refl.
Qed.

Lemma rule_le g g' max : narrows g g' -> forall f n s s', st_le s s' -> res_le eq (lower_rule g max f n s) (lower_rule g' max f n s').
Proof.
  intros N. induction f as [|f IH]; intros n s s' S; cbn [lower_rule]; [exact Logic.I|].
  destruct (reserve_le ("rule:" ++ lower n)%string s s' S) as [R1 R2].
  destruct (reserve _ s) as [[id ex] s1], (reserve _ s') as [[id' ex'] s1']. cbn [fst snd] in R1, R2. injection R1 as <- <-.
  destruct ex; [split; [reflexivity|exact R2]|].
  destruct (budget_le max s1 s1' R2) as [B1 B2]. destruct (budget_exceeded max s1) as [o s2], (budget_exceeded max s1') as [o' s2']. cbn [fst snd] in B1, B2. subst o'.
  destruct o; [split; [reflexivity|exact B2]|].
  pose proof (get_rule_le n g g' N) as G. destruct (get_rule n g) as [r|], (get_rule n g') as [r'|]; try (destruct G; fail); [|split; [reflexivity|exact B2]].
  destruct G as [Nm Na].
  pose proof (alts_le_ok max (lower_rule g max f) (lower_rule g' max f) (rule_alt r) (rule_alt r')) as P.
  specialize (P ltac:(apply Forall_forall; intros c _; apply Forall_forall; intros x _; apply (lower_le max _ _ IH)) Na s2 s2' B2). unfold res_le in *.
  destruct (lower_alts max (lower_rule g max f) (rule_alt r) s2) as [[al s3]|], (lower_alts max (lower_rule g' max f) (rule_alt r') s2') as [[al' s3']|]; auto.
  destruct P as [P S3]. split; [reflexivity|]. apply set_nt_le; auto. constructor; auto.
Qed.

Definition sg_le (a b : slot_grammar) : Prop := Forall2 nt_le (sg_nts a) (sg_nts b) /\ sg_start a = sg_start b.
Theorem compile_le g g' root max fuel : narrows g g' ->
  match compile_slots g root max fuel, compile_slots g' root max fuel with
  | CS_ok a, CS_ok b => sg_le a b
  | CS_rule_not_found, CS_rule_not_found | CS_too_large, CS_too_large | CS_fuel, CS_fuel => True
  | _, _ => False
  end.
Proof.
  intros N. unfold compile_slots. pose proof (get_rule_le root g g' N) as G.
  destruct (get_rule root g), (get_rule root g'); try (destruct G; fail); auto.
  pose proof (rule_le g g' max N fuel root ls_init ls_init) as P. specialize (P ltac:(constructor; constructor)). unfold res_le in P.
  destruct (lower_rule g max fuel root ls_init) as [[i s]|], (lower_rule g' max fuel root ls_init) as [[j s']|]; try (destruct P; fail); auto.
  destruct P as [-> [Nt _ Ov]]. rewrite Ov. destruct (ls_over s'); auto. split; auto.
Qed.

(** *** Fewer [%s], more words *)
Lemma match_char_le s s' v : (s' = true -> s = true) -> forall input i k, match_char s v input i = Some k -> match_char s' v input i = Some k.
Proof.
  intros L. induction v as [|x v IH]; intros input i k; cbn [match_char]; auto.
  destruct (Nat.leb _ _); auto. destruct (decode_rune _) as [r z]. destruct (_ && _)%bool; auto.
  destruct (sensequal x r s) eqn:E; [|discriminate]. intros H.
  assert (E' : sensequal x r s' = true).
  { unfold sensequal in *. destruct s, s'; auto; [|specialize (L eq_refl); discriminate]. apply Z.eqb_eq in E. subst. apply Z.eqb_refl. }
  rewrite E'. auto.
Qed.
Lemma match_sym_le x y input i k : sym_le x y -> match_sym x input i = Some k -> match_sym y input i = Some k.
Proof.
  destruct x, y; cbn; try easy. intros H. inversion H; subst; cbn [match_term]; auto. apply match_char_le. auto.
Qed.
Lemma starts_le a b c rc X : sg_le a b -> starts a c rc X = starts b c rc X.
Proof.
  intros [N _]. unfold starts. pose proof (F2_nth _ _ _ N X) as P. destruct (nth_error (sg_nts a) X) as [x|], (nth_error (sg_nts b) X) as [y|]; try (destruct P; fail); auto.
  destruct P as [_ Al Ir Mn Mx]. rewrite Ir, (F2_length _ _ _ Al). unfold rep_alts, cap_rc. rewrite Mn, Mx. reflexivity.
Qed.
Lemma prod_le a b L p : sg_le a b -> prod_of a L = Some p -> exists q, prod_of b L = Some q /\ Forall2 sym_le p q.
Proof.
  intros [N _] E. unfold prod_of in *. pose proof (F2_nth _ _ _ N (s_nt L)) as P. destruct (nth_error (sg_nts a) (s_nt L)) as [x|], (nth_error (sg_nts b) (s_nt L)) as [y|]; try (destruct P; fail); try discriminate.
  pose proof (F2_nth _ _ _ (le_alts _ _ P) (s_alt L)) as Q. rewrite E in Q. destruct (nth_error (nt_alts y) (s_alt L)) as [q|]; [eauto|destruct Q].
Qed.
Lemma drest_le a b input L rc i j : sg_le a b -> drest a input L rc i j -> drest b input L rc i j.
Proof.
  intros S D. induction D as [L rc i p P E|L rc i k j p x P N M D IH|L rc i k j p X L' rc' P N I D1 IH1 D2 IH2].
  - destruct (prod_le a b L p S P) as (q & Q & F). eapply drest_end; eauto. rewrite E. eapply F2_length; eauto.
  - destruct (prod_le a b L p S P) as (q & Q & F). pose proof (F2_nth _ _ _ F (s_dot L)) as Y. rewrite N in Y. destruct (nth_error q (s_dot L)) as [y|] eqn:Ny; [|destruct Y].
    eapply drest_term; eauto. eapply match_sym_le; eauto.
  - destruct (prod_le a b L p S P) as (q & Q & F). pose proof (F2_nth _ _ _ F (s_dot L)) as Y. rewrite N in Y. destruct (nth_error q (s_dot L)) as [y|] eqn:Ny; [|destruct Y].
    destruct y; cbn in Y; try easy. subst. eapply drest_nt; eauto. rewrite <- (starts_le a b); auto.
Qed.
Theorem accepts_le a b input : sg_le a b -> sg_accepts a input -> sg_accepts b input.
Proof.
  intros S (L & rc & I & D). exists L, rc. split; [|eapply drest_le; eauto].
  destruct S as [N E]. unfold start_slots in *. rewrite <- E. pose proof (F2_nth _ _ _ N (sg_start a)) as P.
  destruct (nth_error (sg_nts a) (sg_start a)) as [x|], (nth_error (sg_nts b) (sg_start a)) as [y|]; try (destruct P; fail); auto.
  rewrite <- (F2_length _ _ _ (le_alts _ _ P)). exact I.
Qed.

(** *** The languages themselves *)
Lemma F2_in_l {A B} (R : A -> B -> Prop) l l' x : Forall2 R l l' -> In x l -> exists y, In y l' /\ R x y.
Proof. induction 1 as [|a b l l' H _ IH]; intros [].
  - subst. exists b. split; [left|]; auto.
  - destruct (IH H0) as (y & I & R'). exists y. split; [right|]; auto.
Qed.
Lemma F2_in_r {A B} (R : A -> B -> Prop) l l' y : Forall2 R l l' -> In y l' -> exists x, In x l /\ R x y.
Proof. induction 1 as [|a b l l' H _ IH]; intros [].
  - subst. exists a. split; [left|]; auto.
  - destruct (IH H0) as (x & I & R'). exists x. split; [right|]; auto.
Qed.
Lemma resolves_le g g' n a : narrows g g' -> resolves g n a -> exists a', resolves g' n a' /\ Forall2 (Forall2 narrows_rep) a a'.
Proof.
  intros N [(r & I & S & <-)|(F & r & I & S & <-)].
  - destruct (F2_in_l _ _ _ _ N I) as (r' & I' & E & A). exists (rule_alt r'). split; auto. left. exists r'. split; auto. split; auto. unfold same_name in *. congruence.
  - exists (rule_alt r). split; [|apply narrows_rule_refl]. right. split; eauto. intros r' I' S'. destruct (F2_in_r _ _ _ _ N I') as (q & J & E & _). apply (F q J). unfold same_name in *. congruence.
Qed.
Theorem lang_le g g' : narrows g g' -> forall root w, Lang g root w -> Lang g' root w.
Proof.
  intros N. assert (X :
    (forall e w, in_elem g e w -> forall e', narrows_elem e e' -> in_elem g' e' w) /\
    (forall a w, in_alt g a w -> forall a', Forall2 (Forall2 narrows_rep) a a' -> in_alt g' a' w) /\
    (forall c w, in_cat g c w -> forall c', Forall2 narrows_rep c c' -> in_cat g' c' w) /\
    (forall r w, in_rep g r w -> forall r', narrows_rep r r' -> in_rep g' r' w) /\
    (forall e n w, in_pow g e n w -> forall e', narrows_elem e e' -> in_pow g' e' n w)).
  { apply lang_mut.
    - intros n a w R _ IH e' H. inversion H; subst. destruct (resolves_le g g' n a N R) as (a' & R' & A). econstructor; eauto.
    - intros a w _ IH e' H. inversion H; subst. constructor. auto.
    - intros a e' H. inversion H; subst. constructor.
    - intros a w _ IH e' H. inversion H; subst. apply in_option_some. auto.
    - intros s vs rs F Sc e' H. inversion H as [? s' ? L| | | | |]; subst. constructor; auto. clear -F L.
      induction F as [|v r vs rs C _ IH]; constructor; auto. unfold char_ok in *. destruct s, s'; auto; [subst; auto|specialize (L eq_refl); discriminate].
    - intros b ns rs F Sc e' H. inversion H; subst. constructor; auto.
    - intros b lo hi l h r A B C D e' H. inversion H; subst. econstructor; eauto.
    - intros c a w I _ IH a' H. destruct (F2_in_l _ _ _ _ H I) as (c' & I' & R). econstructor; eauto.
    - intros c' H. inversion H; subst. constructor.
    - intros r c w1 w2 _ IH1 _ IH2 c' H. inversion H; subst. constructor; auto.
    - intros mn mx e n w A B _ IH r' H. inversion H; subst. econstructor; eauto.
    - intros e e' H. constructor.
    - intros e n w1 w2 _ IH1 _ IH2 e' H. constructor; auto. }
  intros root w H. apply (proj1 X (ERule root) w H). constructor.
Qed.
