(** C93: ABNF texts put one after the other (ParseABNF, grammar.go:80-106; the rule list it
    evaluates, grammar.go:162-194).  ReadSpec.v says what a text says, EvalProof.v what
    definitions give, Spec.v what the validation asks.  Its definitions are those of the statements
    and model no code. *)
From Coq Require Import ZArith Arith String Ascii Bool Permutation List Lia.
From Verif Require Import Syntax Spec Term PropTerm Printer Check Slots Gll Bsr Sppf Tree Errors Deps Eval EvalProof ReadSpec TreeSpec TreeLang
  PropGll ForestUnique PropTree PropSem PropEval AbnfEval PropRead AbnfLocal PrintInj PropPrint ParseAbnf PropParse.
Import ListNotations.
Local Open Scope string_scope.
Local Open Scope list_scope.
Local Open Scope Z_scope.

(** No rule of one is a rule of the other. *)
Definition no_common_name (g g' : grammar) : Prop :=
  forall r r', In r g -> In r' g' -> ~ same_name (rule_name r) (rule_name r').
(** What the validation asks. *)
Definition sound (g : grammar) : Prop := refs_defined g /\ bounds_ordered g /\ nums_in_unicode g.

(** *** Means of proof *)
Lemma taken_app ds1 w1 : taken_lines ds1 w1 -> forall ds2 w2, taken_lines ds2 w2 -> taken_lines (ds1 ++ ds2) (w1 ++ w2).
Proof.
  intros H. induction H as [|d w ds w' T H IH|ws nl ds w' W N H IH]; intros ds2 w2 H2; [exact H2| |].
  - rewrite <- app_assoc. cbn [app]. apply kl_rule; auto.
  - rewrite <- !app_assoc. apply kl_blank; auto.
Qed.
Lemma named_dec n ds : named n ds \/ ~ named n ds.
Proof.
  destruct (existsb (fun d => equal_fold n (rule_name (fst d))) ds) eqn:E.
  - left. apply existsb_exists in E as (d & I & F). exists d. split; auto. apply equal_fold_iff. exact F.
  - right. intros (d & I & S). apply equal_fold_iff in S.
    assert (X : existsb (fun d => equal_fold n (rule_name (fst d))) ds = true) by (apply existsb_exists; eauto). congruence.
Qed.
Lemma named_app n ds ds' : named n (ds ++ ds') <-> named n ds \/ named n ds'.
Proof.
  split.
  - intros (d & I & S). apply in_app_or in I as [I|I]; [left|right]; exists d; auto.
  - intros [(d & I & S)|(d & I & S)]; exists d; split; auto; apply in_or_app; auto.
Qed.
Lemma named_same n m ds : same_name n m -> named n ds -> named m ds.
Proof. unfold named, same_name. intros S (d & I & E). exists d. split; auto. congruence. Qed.
Lemma ok_prefix core ds ds' : defs_ok core (ds ++ ds') -> defs_ok core ds.
Proof. intros H pre d post e -> V. apply (H pre d (post ++ ds') e); auto. rewrite <- app_assoc. reflexivity. Qed.
(** A name with definitions has a first one, with [=]. *)
Lemma named_base core ds n : defs_ok core ds -> named n ds -> exists d, In (d, false) ds /\ same_name n (rule_name d).
Proof.
  induction ds as [|d ds IH] using rev_ind; intros Ok N; [destruct N as (d & [] & _)|].
  apply named_app in N as [N|N].
  - destruct (IH (ok_prefix _ _ _ Ok) N) as (d' & I & S). exists d'. split; auto. apply in_or_app; auto.
  - destruct N as (d' & [<-|[]] & S). destruct d as [r inc]. cbn [fst] in S. destruct inc.
    + destruct (named_dec (rule_name r) ds) as [M|M].
      * apply (named_same _ n) in M; [|symmetry; exact S]. destruct (IH (ok_prefix _ _ _ Ok) M) as (d' & I & S'). exists d'. split; auto. apply in_or_app; auto.
      * exfalso. apply (Ok ds (r, true) [] (EE_not_found (rule_name r))); [reflexivity|]. apply v_missing; auto.
        intros C. apply (Ok ds (r, true) [] (EE_core_modify (rule_name r))); [reflexivity|]. apply v_core. exact C.
    + exists r. split; auto. apply in_or_app. right. left. reflexivity.
Qed.
Lemma named_rule core ds g n : defs_ok core ds -> (forall r, In r g <-> defined_as ds r) -> named n ds <-> exists r, In r g /\ same_name n (rule_name r).
Proof.
  intros Ok Rl. split.
  - intros N. destruct (named_base core ds n Ok N) as (d & I & S). exists (mkRule (rule_name d) (merged (rule_name d) ds)).
    split; [|exact S]. apply Rl. exists d. split; auto.
  - intros (r & I & S). apply Rl in I as (d & I & E & _). exists (d, false). split; auto. cbn [fst]. rewrite <- E. exact S.
Qed.
Lemma merged_app n ds ds' : merged n (ds ++ ds') = merged n ds ++ merged n ds'.
Proof. apply flat_map_app. Qed.
Lemma merged_none n ds : ~ named n ds -> merged n ds = [].
Proof.
  induction ds as [|d ds IH]; intros N; [reflexivity|]. cbn [merged flat_map]. destruct (equal_fold n (rule_name (fst d))) eqn:E.
  - exfalso. apply N. exists d. split; [left; reflexivity|apply equal_fold_iff; exact E].
  - cbn [app]. apply IH. intros (d' & I & S). apply N. exists d'. split; [right|]; auto.
Qed.
Lemma split_app {A} (ds1 ds2 pre post : list A) d : ds1 ++ ds2 = pre ++ d :: post ->
  (exists l, ds1 = pre ++ d :: l) \/ (exists l, pre = ds1 ++ l /\ ds2 = l ++ d :: post).
Proof.
  revert pre. induction ds1 as [|x ds1 IH]; intros pre E; [right; exists pre; auto|]. destruct pre as [|y pre]; cbn [app] in E.
  - injection E as <- E. left. exists ds1. reflexivity.
  - injection E as <- E. destruct (IH pre E) as [(l & ->)|(l & -> & ->)]; [left; exists l; reflexivity|right; exists l; auto].
Qed.
(** What can be wrong after putting together two lists of definitions that are right. *)
Lemma violates_app core ds1 ds2 pre d post e : defs_ok core ds1 -> defs_ok core ds2 -> ds1 ++ ds2 = pre ++ d :: post -> violates core pre d e ->
  e = EE_duplicated (rule_name (fst d)) /\ In d ds2 /\ named (rule_name (fst d)) ds1.
Proof.
  intros O1 O2 E V. destruct (split_app _ _ _ _ _ E) as [(l & Q)|(l & -> & Q)]; [exfalso; exact (O1 _ _ _ _ Q V)|].
  inversion V as [C|C Sn Nm|C Sn Nm]; subst e.
  - exfalso. apply (O2 _ _ _ _ Q (v_core _ _ _ C)).
  - apply named_app in Nm as [Nm|Nm]; [|exfalso; apply (O2 _ _ _ _ Q (v_dup _ _ _ C Sn Nm))].
    split; [reflexivity|]. split; [|exact Nm]. rewrite Q. apply in_or_app. right. left. reflexivity.
  - exfalso. apply (O2 _ _ _ (EE_not_found (rule_name (fst d))) Q). apply v_missing; auto. intros N. apply Nm, named_app. auto.
Qed.
Lemma ok_app core ds1 ds2 : defs_ok core ds1 -> defs_ok core ds2 -> (forall n, named n ds1 -> ~ named n ds2) -> defs_ok core (ds1 ++ ds2).
Proof.
  intros O1 O2 D pre d post e E V. destruct (violates_app _ _ _ _ _ _ _ O1 O2 E V) as (_ & I & N). apply (D _ N). exists d. split; auto. reflexivity.
Qed.
Lemma defined_app ds1 ds2 r : (forall n, named n ds1 -> ~ named n ds2) -> defined_as (ds1 ++ ds2) r <-> defined_as ds1 r \/ defined_as ds2 r.
Proof.
  intros D. split.
  - intros (d & I & E & A). apply in_app_or in I as [I|I].
    + left. exists d. split; auto. split; auto. rewrite A, merged_app, (merged_none _ ds2), app_nil_r; auto. apply D. exists (d, false). split; auto. rewrite E. reflexivity.
    + right. exists d. split; auto. split; auto. rewrite A, merged_app, (merged_none _ ds1); auto. intros N. apply (D _ N). exists (d, false). split; auto. rewrite E. reflexivity.
  - intros [(d & I & E & A)|(d & I & E & A)]; exists d; (split; [apply in_or_app; auto|]); (split; [exact E|]).
    + rewrite A, merged_app, (merged_none _ ds2), app_nil_r; auto. apply D. exists (d, false). split; auto. rewrite E. reflexivity.
    + rewrite A, merged_app, (merged_none _ ds1); auto. intros N. apply (D _ N). exists (d, false). split; auto. rewrite E. reflexivity.
Qed.
Lemma nodup_app {A} (l l' : list A) : NoDup l -> NoDup l' -> (forall x, In x l -> ~ In x l') -> NoDup (l ++ l').
Proof.
  intros N N' D. induction N as [|x l I N IH]; [exact N'|]. cbn [app]. constructor.
  - intros J. apply in_app_or in J as [J|J]; [auto|apply (D x); [left|]; auto].
  - apply IH. intros y J. apply D. right. exact J.
Qed.
Lemma distinct_app g g' : distinct_names g -> distinct_names g' -> no_common_name g g' -> distinct_names (g ++ g').
Proof.
  intros D D' N. unfold distinct_names in *. rewrite map_app. apply nodup_app; auto. intros x I J.
  apply in_map_iff in I as (r & <- & I). apply in_map_iff in J as (r' & E & J). apply (N r r' I J). symmetry. exact E.
Qed.
Lemma same_perm g g' : distinct_names g -> distinct_names g' -> (forall r, In r g <-> In r g') -> Permutation g g'.
Proof. intros D D'. apply NoDup_Permutation; eapply NoDup_map_inv; eassumption. Qed.
Lemma sound_app g g' : no_common_name g g' -> sound g -> sound g' -> sound (g ++ g').
Proof.
  intros N (A & B & C) (A' & B' & C'). split; [|split].
  - intros r n I Rf. assert (X : forall g0 h, (forall r, In r g0 -> In r (g ++ g')) -> (forall r, In r (g ++ g') -> In r g0 \/ In r h) ->
      (exists a, resolves g0 n a) -> exists a, resolves (g ++ g') n a).
    { intros g0 h Q Q' (a & [(r0 & I0 & S & E)|(No & r0 & I0 & S & E)]); [exists a; left; exists r0; auto|].
      destruct (existsb (fun r => equal_fold n (rule_name r)) (g ++ g')) eqn:Ex.
      - apply existsb_exists in Ex as (r1 & I1 & F). exists (rule_alt r1). left. exists r1. split; auto. split; auto. apply equal_fold_iff. exact F.
      - exists a. right. split; [|exists r0; auto]. intros r1 I1 S1. apply equal_fold_iff in S1.
        assert (Y : existsb (fun r => equal_fold n (rule_name r)) (g ++ g') = true) by (apply existsb_exists; eauto). congruence. }
    apply in_app_or in I as [I|I].
    + apply (X g g'); [intros; apply in_or_app; auto|intros r0 J; apply in_app_or in J; tauto|]. eapply A; eauto.
    + apply (X g' g); [intros; apply in_or_app; auto|intros r0 J; apply in_app_or in J; tauto|]. eapply A'; eauto.
  - intros r mn mx e I. apply in_app_or in I as [I|I]; [eapply B|eapply B']; eauto.
  - intros r mn mx b st es s v I. apply in_app_or in I as [I|I]; [eapply C|eapply C']; eauto.
Qed.
Lemma sound_same g g' : (forall r, In r g <-> In r g') -> sound g -> sound g'.
Proof.
  intros Q (A & B & C). split; [|split].
  - intros r n I Rf. destruct (A r n) as (a & Ra); [apply Q; auto|auto|]. exists a. destruct Ra as [(r0 & I0 & Y)|(N & Y)].
    + left. exists r0. split; [apply Q; auto|auto].
    + right. split; auto. intros r0 I0. apply N, Q, I0.
  - intros r mn mx e I. apply B, Q, I.
  - intros r mn mx b st es s v I. apply C, Q, I.
Qed.

(** *** The properties *)

(** One text after another is a text, taken for the definitions of the one then those of the other. *)
Theorem C93_text : forall w1 w2 ds1 ds2, text_taken w1 ds1 -> text_taken w2 ds2 -> text_taken (w1 ++ w2) (ds1 ++ ds2).
Proof.
  intros w1 w2 ds1 ds2 [N1 H1] [N2 H2]. split; [|apply taken_app; assumption]. intros E. apply app_eq_nil in E as [E _]. auto.
Qed.

(** Two texts that are read, with no name in common: together they give the rules of both.  Neither
    needs to pass the validation by itself; the validation of the whole is that of all the rules. *)
Theorem C93_union : forall ord ord1 ord2 w1 w2 ds1 ds2, any_order ord -> any_order ord1 -> any_order ord2 ->
  text_taken w1 ds1 -> text_taken w2 ds2 ->
  exists enough, forall fuel ordE1 ordE2 ordE sh1 sh2 sh v1 v2 validate st1 st2, (enough <= fuel)%nat ->
    any_order ordE1 -> any_order ordE2 -> any_order ordE -> any_shuffle sh1 -> any_shuffle sh2 -> any_shuffle sh ->
    parse_abnf ord1 ordE1 sh1 fuel false v1 core_rules w1 = PA_ok st1 ->
    parse_abnf ord2 ordE2 sh2 fuel false v2 core_rules w2 = PA_ok st2 ->
    no_common_name (rules_of st1) (rules_of st2) ->
    match parse_abnf ord ordE sh fuel false validate core_rules (w1 ++ w2) with
    | PA_ok st => Permutation (rules_of st) (rules_of st1 ++ rules_of st2) /\ (validate = true -> sound (rules_of st1 ++ rules_of st2))
    | PA_sem _ => validate = true /\ ~ sound (rules_of st1 ++ rules_of st2)
    | _ => False
    end /\
    (v1 = true -> v2 = true -> exists st, parse_abnf ord ordE sh fuel false validate core_rules (w1 ++ w2) = PA_ok st).
Proof.
  intros ord ord1 ord2 w1 w2 ds1 ds2 O O1 O2 H1 H2.
  destruct (C57_reads ord1 w1 ds1 O1 H1) as (e1 & P1). destruct (C57_reads ord2 w2 ds2 O2 H2) as (e2 & P2).
  destruct (C57_reads ord _ _ O (C93_text _ _ _ _ H1 H2)) as (e3 & P3). exists (Nat.max e1 (Nat.max e2 e3)).
  intros fuel ordE1 ordE2 ordE sh1 sh2 sh v1 v2 validate st1 st2 F Oe1 Oe2 Oe Sh1 Sh2 Sh E1 E2 N.
  specialize (P1 fuel ordE1 sh1 v1 ltac:(lia) Oe1 Sh1). specialize (P2 fuel ordE2 sh2 v2 ltac:(lia) Oe2 Sh2). specialize (P3 fuel ordE sh validate ltac:(lia) Oe Sh).
  rewrite E1 in P1. rewrite E2 in P2. destruct P1 as (K1 & D1 & R1 & _ & V1). destruct P2 as (K2 & D2 & R2 & _ & V2).
  assert (Dj : forall n, named n ds1 -> ~ named n ds2).
  { intros n M1 M2. apply (named_rule _ _ _ _ K1 R1) in M1 as (r1 & I1 & S1). apply (named_rule _ _ _ _ K2 R2) in M2 as (r2 & I2 & S2).
    apply (N r1 r2 I1 I2). unfold same_name in *. congruence. }
  assert (Q : forall r, defined_as (ds1 ++ ds2) r <-> In r (rules_of st1 ++ rules_of st2)).
  { intros r. rewrite (defined_app _ _ _ Dj), in_app_iff, R1, R2. reflexivity. }
  assert (G : match parse_abnf ord ordE sh fuel false validate core_rules (w1 ++ w2) with
    | PA_ok st => Permutation (rules_of st) (rules_of st1 ++ rules_of st2) /\ (validate = true -> sound (rules_of st1 ++ rules_of st2))
    | PA_sem _ => validate = true /\ ~ sound (rules_of st1 ++ rules_of st2)
    | _ => False
    end).
  { destruct (parse_abnf ord ordE sh fuel false validate core_rules (w1 ++ w2)) as [st| | | | | | |e|e| |]; try contradiction.
    - destruct P3 as (_ & D & R & _ & V). assert (Sm : forall r, In r (rules_of st) <-> In r (rules_of st1 ++ rules_of st2)) by (intros r; rewrite R; apply Q).
      split; [apply same_perm; auto; apply distinct_app; auto|]. intros X. apply (sound_same (rules_of st)); [exact Sm|exact (V X)].
    - destruct P3 as (pre & d & post & Es & _ & Vi). exact (ok_app _ _ _ K1 K2 Dj _ _ _ _ Es Vi).
    - destruct P3 as (X & _ & Y). split; auto. apply Y; [apply distinct_app; auto|]. intros r. symmetry. apply Q. }
  split; [exact G|]. intros -> ->. destruct (parse_abnf ord ordE sh fuel false validate core_rules (w1 ++ w2)) as [st| | | | | | |e|e| |]; try contradiction; [eauto|].
  exfalso. destruct G as [_ G]. apply G, sound_app; [exact N|apply V1; reflexivity|apply V2; reflexivity].
Qed.

(** So the order of the texts does not matter. *)
Theorem C93_swap : forall ord ord' w1 w2 ds1 ds2, any_order ord -> any_order ord' ->
  text_taken w1 ds1 -> text_taken w2 ds2 ->
  exists enough, forall fuel ordE ordE' sh sh' v1 v2 validate st1 st2, (enough <= fuel)%nat ->
    any_order ordE -> any_order ordE' -> any_shuffle sh -> any_shuffle sh' ->
    parse_abnf ord ordE sh fuel false v1 core_rules w1 = PA_ok st1 ->
    parse_abnf ord ordE sh fuel false v2 core_rules w2 = PA_ok st2 ->
    no_common_name (rules_of st1) (rules_of st2) ->
    match parse_abnf ord ordE sh fuel false validate core_rules (w1 ++ w2), parse_abnf ord' ordE' sh' fuel false validate core_rules (w2 ++ w1) with
    | PA_ok st, PA_ok st' => Permutation (rules_of st) (rules_of st')
    | PA_sem _, PA_sem _ => True
    | _, _ => False
    end.
Proof.
  intros ord ord' w1 w2 ds1 ds2 O O' H1 H2. destruct (C93_union ord ord ord w1 w2 ds1 ds2 O O O H1 H2) as (e1 & P1).
  destruct (C93_union ord' ord ord w2 w1 ds2 ds1 O' O O H2 H1) as (e2 & P2). exists (Nat.max e1 e2).
  intros fuel ordE ordE' sh sh' v1 v2 validate st1 st2 F Oe Oe' Sh Sh' E1 E2 N.
  destruct (P1 fuel ordE ordE ordE sh sh sh v1 v2 validate st1 st2 ltac:(lia) Oe Oe Oe Sh Sh Sh E1 E2 N) as (A & _).
  destruct (P2 fuel ordE ordE ordE' sh sh sh' v2 v1 validate st2 st1 ltac:(lia) Oe Oe Oe' Sh Sh Sh' E2 E1) as (B & _).
  { intros r r' I I' S. apply (N r' r I' I). symmetry. exact S. }
  assert (C : forall r, In r (rules_of st1 ++ rules_of st2) <-> In r (rules_of st2 ++ rules_of st1)) by (intros r; rewrite !in_app_iff; tauto).
  destruct (parse_abnf ord ordE sh fuel false validate core_rules (w1 ++ w2)) as [st| | | | | | |e|e| |]; try contradiction;
    destruct (parse_abnf ord' ordE' sh' fuel false validate core_rules (w2 ++ w1)) as [st'| | | | | | |e'|e'| |]; try contradiction; auto.
  - destruct A as [A _]. destruct B as [B _]. rewrite A, B. apply Permutation_app_comm.
  - destruct A as [_ A]. destruct B as [X B]. apply B. apply (sound_same _ _ C). auto.
  - destruct A as [X A]. destruct B as [_ B]. apply A. apply (sound_same (rules_of st2 ++ rules_of st1)); [intros r; symmetry; apply C|auto].
Qed.

(** With a name in common the whole is refused, as a duplicate of such a name. *)
Theorem C93_clash : forall ord ord1 ord2 w1 w2 ds1 ds2, any_order ord -> any_order ord1 -> any_order ord2 ->
  text_taken w1 ds1 -> text_taken w2 ds2 ->
  exists enough, forall fuel ordE1 ordE2 ordE sh1 sh2 sh v1 v2 validate st1 st2, (enough <= fuel)%nat ->
    any_order ordE1 -> any_order ordE2 -> any_order ordE -> any_shuffle sh1 -> any_shuffle sh2 -> any_shuffle sh ->
    parse_abnf ord1 ordE1 sh1 fuel false v1 core_rules w1 = PA_ok st1 ->
    parse_abnf ord2 ordE2 sh2 fuel false v2 core_rules w2 = PA_ok st2 ->
    (exists r r', In r (rules_of st1) /\ In r' (rules_of st2) /\ same_name (rule_name r) (rule_name r')) ->
    exists n r r', parse_abnf ord ordE sh fuel false validate core_rules (w1 ++ w2) = PA_eval (EE_duplicated n) /\
      In r (rules_of st1) /\ In r' (rules_of st2) /\ same_name n (rule_name r) /\ same_name n (rule_name r').
Proof.
  intros ord ord1 ord2 w1 w2 ds1 ds2 O O1 O2 H1 H2.
  destruct (C57_reads ord1 w1 ds1 O1 H1) as (e1 & P1). destruct (C57_reads ord2 w2 ds2 O2 H2) as (e2 & P2).
  destruct (C57_reads ord _ _ O (C93_text _ _ _ _ H1 H2)) as (e3 & P3). exists (Nat.max e1 (Nat.max e2 e3)).
  intros fuel ordE1 ordE2 ordE sh1 sh2 sh v1 v2 validate st1 st2 F Oe1 Oe2 Oe Sh1 Sh2 Sh E1 E2 (r & r' & I & I' & S).
  specialize (P1 fuel ordE1 sh1 v1 ltac:(lia) Oe1 Sh1). specialize (P2 fuel ordE2 sh2 v2 ltac:(lia) Oe2 Sh2). specialize (P3 fuel ordE sh validate ltac:(lia) Oe Sh).
  rewrite E1 in P1. rewrite E2 in P2. destruct P1 as (K1 & D1 & R1 & _ & V1). destruct P2 as (K2 & D2 & R2 & _ & V2).
  assert (M1 : named (rule_name r') ds1) by (apply (named_rule _ _ _ _ K1 R1); exists r; split; auto; symmetry; exact S).
  assert (No : ~ defs_ok core_rules (ds1 ++ ds2)).
  { intros K. apply R2 in I' as (d & Id & En & _). apply in_split in Id as (l & post & Es).
    apply (K (ds1 ++ l) (d, false) post (EE_duplicated (rule_name d))); [rewrite Es, <- app_assoc; reflexivity|]. apply v_dup; [|reflexivity|].
    - intros C. exact (K2 _ _ _ _ Es (v_core _ _ (d, false) C)).
    - cbn [fst]. rewrite <- En. apply named_app. auto. }
  destruct (parse_abnf ord ordE sh fuel false validate core_rules (w1 ++ w2)) as [st| | | | | | |e|e| |]; try contradiction.
  - exfalso. apply No, P3.
  - destruct P3 as (pre & d & post & Es & _ & Vi). destruct (violates_app _ _ _ _ _ _ _ K1 K2 Es Vi) as (-> & Id & Nm).
    apply (named_rule _ _ _ _ K1 R1) in Nm as (r1 & J1 & S1).
    assert (Nm2 : named (rule_name (fst d)) ds2) by (exists d; split; auto; reflexivity).
    apply (named_rule _ _ _ _ K2 R2) in Nm2 as (r2 & J2 & S2). exists (rule_name (fst d)), r1, r2. auto.
  - exfalso. apply No, P3.
Qed.

(** *** Cases: [ex_text] refers to [c] and defines [ab]; another text defines [c]; a third defines [AB] again *)
Definition c_text : list Z := bytes "c = %x58" ++ [13; 10].
Definition ab_text : list Z := [13; 10] ++ bytes "AB = c" ++ [13; 10].
Definition c_rule : rule := mkRule "c" [[Rep 1 1 (ENum "x" StatSeries ["58"])]].
Lemma c_says : text_says quiet_filler c_text [(c_rule, false)].
Proof.
  split; [discriminate|]. apply (tl_rule quiet_filler _ c_text [] []); [|constructor].
  apply (text_rule_intro quiet_filler "c" [32] false [32] _ (bytes "%x58") [] [13; 10]); auto; try apply a_space; try apply quiet_space; try constructor.
  apply tc_one, tr_once. apply (te_series "x" 120 ["58"]); [constructor; left; reflexivity|discriminate|]. constructor; [eexists; vm_compute; reflexivity|constructor].
Qed.
Lemma ab_says : text_says quiet_filler ab_text [(mkRule "AB" [[Rep 1 1 (ERule "c")]], false)].
Proof.
  split; [discriminate|]. apply (tl_blank quiet_filler [] [13; 10] _ (bytes "AB = c" ++ [13; 10])); [constructor|constructor|].
  apply (tl_rule quiet_filler _ (bytes "AB = c" ++ [13; 10]) [] []); [|constructor].
  apply (text_rule_intro quiet_filler "AB" [32] false [32] _ (bytes "c") [] [13; 10]); auto; try apply a_space; try apply quiet_space; try constructor.
  apply tc_one, tr_once. apply (te_rule "c"). reflexivity.
Qed.
Lemma reads_at ord w ds : any_order ord -> text_says quiet_filler w ds -> exists enough, forall fuel sh, (enough <= fuel)%nat ->
  parse_abnf ord id_order sh fuel false false core_rules w = match e_define_all false id_order ds (mkE core_rules [] 0) with EvOk st => PA_ok st | EvErr e => PA_eval e | EvPanic => PA_panic end.
Proof.
  intros O S. destruct (parse_abnf_tree ord w O) as [A _]. destruct A as (t & en & D & A); [apply C55_abnf_texts; exists ds; apply (says_any _ _ _ S)|].
  exists en. intros fuel sh F. rewrite A by auto. rewrite (C56_evaluation_partial _ _ _ _ _ _ S D). destruct (e_define_all _ _ _ _); reflexivity.
Qed.
(** [ex_text] alone does not pass the validation (C57_case_refs); followed by [c_text] it does. *)
Example C93_case : forall ord, any_order ord -> exists enough st1 st2, forall fuel sh, (enough <= fuel)%nat -> any_shuffle sh ->
  text_taken ex_text [(mkRule "ab" ex_alt, false)] /\ text_taken c_text [(c_rule, false)] /\
  parse_abnf ord id_order sh fuel false false core_rules ex_text = PA_ok st1 /\
  parse_abnf ord id_order sh fuel false false core_rules c_text = PA_ok st2 /\
  no_common_name (rules_of st1) (rules_of st2) /\
  exists st, parse_abnf ord id_order sh fuel false true core_rules (ex_text ++ c_text) = PA_ok st /\
    Permutation (rules_of st) [mkRule "ab" ex_alt; c_rule].
Proof.
  intros ord O. pose proof (quiet_taken _ _ (ex_says _ quiet_space)) as T1. pose proof (quiet_taken _ _ c_says) as T2.
  destruct (reads_at ord _ _ O (ex_says _ quiet_space)) as (e1 & A1). destruct (reads_at ord _ _ O c_says) as (e2 & A2).
  destruct (C93_union ord ord ord _ _ _ _ O O O T1 T2) as (e3 & U).
  exists (Nat.max e1 (Nat.max e2 e3)), (mkE core_rules [("ab", Own (mkRule "ab" ex_alt))] 1), (mkE core_rules [("c", Own c_rule)] 1).
  intros fuel sh F Sh. specialize (A1 fuel sh ltac:(lia)). specialize (A2 fuel sh ltac:(lia)).
  match type of A1 with _ = ?x => assert (X1 : x = PA_ok (mkE core_rules [("ab", Own (mkRule "ab" ex_alt))] 1)) by (vm_compute; reflexivity); rewrite X1 in A1; clear X1 end.
  match type of A2 with _ = ?x => assert (X2 : x = PA_ok (mkE core_rules [("c", Own c_rule)] 1)) by (vm_compute; reflexivity); rewrite X2 in A2; clear X2 end.
  assert (N : no_common_name [mkRule "ab" ex_alt] [c_rule]) by (intros r r' [<-|[]] [<-|[]]; discriminate).
  split; [exact T1|]. split; [exact T2|]. split; [exact A1|]. split; [exact A2|]. split; [exact N|].
  specialize (U fuel id_order id_order id_order sh sh sh false false true _ _ ltac:(lia) ltac:(intros k l x; reflexivity) ltac:(intros k l x; reflexivity) ltac:(intros k l x; reflexivity) Sh Sh Sh A1 A2 N). destruct U as [U _].
  change (rules_of _ ++ rules_of _) with [mkRule "ab" ex_alt; c_rule] in U.
  assert (Sd : sound [mkRule "ab" ex_alt; c_rule]).
  { apply (C17_semval_exact _ [mkRule "ab" ex_alt; c_rule] [mkRule "ab" ex_alt; c_rule] (Permutation_refl _) (Permutation_refl _)); [|vm_compute; reflexivity].
    constructor; [apply (written_wf (mkRule "ab" ex_alt)); split; [reflexivity|]; eexists; apply ex_alt_text|]. constructor; [|constructor].
    apply (written_wf c_rule). split; [reflexivity|]. exists (bytes "%x58"). apply ta_one, tc_one, tr_once. apply (te_series "x" 120 ["58"]); [constructor; left; reflexivity|discriminate|].
    constructor; [eexists; vm_compute; reflexivity|constructor]. }
  destruct (parse_abnf ord id_order sh fuel false true core_rules (ex_text ++ c_text)) as [st| | | | | | |e|e| |]; try contradiction.
  - exists st. split; [reflexivity|apply U].
  - exfalso. destruct U as [_ U]. exact (U Sd).
Qed.
Example C93_case_clash : forall ord, any_order ord -> exists enough, forall fuel sh, (enough <= fuel)%nat ->
  text_taken ab_text [(mkRule "AB" [[Rep 1 1 (ERule "c")]], false)] /\
  (exists st, parse_abnf ord id_order sh fuel false false core_rules ab_text = PA_ok st /\ rules_of st = [mkRule "AB" [[Rep 1 1 (ERule "c")]]]) /\
  parse_abnf ord id_order sh fuel false false core_rules (ex_text ++ ab_text) = PA_eval (EE_duplicated "AB").
Proof.
  intros ord O. pose proof (quiet_taken _ _ (ex_says _ quiet_space)) as T1. pose proof (quiet_taken _ _ ab_says) as T2.
  destruct (reads_at ord _ _ O ab_says) as (e1 & A1).
  destruct (parse_abnf_tree ord (ex_text ++ ab_text) O) as [A _]. pose proof (C93_text _ _ _ _ T1 T2) as T. destruct (taken_says _ _ T) as (da & Ha & _).
  destruct A as (t & e2 & D & A); [apply C55_abnf_texts; eauto|]. exists (Nat.max e1 e2). intros fuel sh F. split; [exact T2|]. split.
  - rewrite A1 by lia. eexists. split; [vm_compute; reflexivity|reflexivity].
  - rewrite A by lia. rewrite (C56_evaluation_exact _ _ t false id_order core_rules T D). vm_compute. reflexivity.
Qed.

Print Assumptions C93_text.
Print Assumptions C93_union.
Print Assumptions C93_swap.
Print Assumptions C93_clash.
