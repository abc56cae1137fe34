(** Claims C74 and C75: the commands of the command line tool (cmd/pap/commands), from the
    bytes of a grammar to the bytes printed, and the functional options. *)
(** The definitions here are those of statements, proofs and examples; they model no code. *)
From Coq Require Import ZArith Arith String Ascii Bool Relations Permutation List Lia.
From Verif Require Import Syntax Spec Term Num Printer Check Slots Gll Bsr Sppf Tree Errors Deps Dag Eval EvalProof ReadSpec TreeSpec TreeLang
  PropGll ForestUnique PropTree PropDag PropSem PropEval AbnfEval PropRead AbnfLocal PrintInj PropPrint ParseAbnf PropParse PropWritten LowerProof LowerLang Occ
  Generate PropGenerate Graph Mermaid PropFromAbnf PropHint Pap.
From Verif Require Regex RegexSpec PropRegex PropGraph PropMermaid.
Import ListNotations.
Local Open Scope string_scope.
Local Open Scope list_scope.
Local Open Scope Z_scope.

(** ** C75: options *)
(** What a list of options says about a setting: the last option that sets it, else the
    default. *)
Definition settles {X A} (f : X -> option A) (default : A) (l : list X) (v : A) : Prop :=
  (exists p x s, l = p ++ x :: s /\ f x = Some v /\ forall y, In y s -> f y = None) \/
  ((forall y, In y l -> f y = None) /\ v = default).
Lemma fold_settles {O X A} (apply : O -> X -> O) (pi : O -> A) (f : X -> option A) :
  (forall o x, pi (apply o x) = match f x with Some a => a | None => pi o end) ->
  forall l o, settles f (pi o) l (pi (fold_left apply l o)).
Proof.
  intros H. induction l as [|x l IH]; intros o; [right; split; [intros y []|reflexivity]|]. cbn [fold_left].
  destruct (IH (apply o x)) as [(p & y & s & -> & F & N)|[N E]].
  - left. exists (x :: p), y, s. auto.
  - rewrite H in E. destruct (f x) as [a|] eqn:Fx.
    + left. exists [], x, l. split; [reflexivity|]. split; [congruence|exact N].
    + right. split; [intros y [<-|I]; auto|exact E].
Qed.
Lemma settles_one {X A} (f : X -> option A) d l v v' : settles f d l v -> settles f d l v' -> v = v'.
Proof.
  intros [(p & x & s & -> & F & N)|[N ->]] [(p' & x' & s' & E & F' & N')|[N' ->]]; auto.
  - assert (X0 : forall (p p' : list X), p ++ x :: s = p' ++ x' :: s' -> x = x').
    { clear E p p'. induction p as [|a p IH]; intros [|a' p'] E; cbn [app] in E.
      - injection E as E _. exact E.
      - injection E as _ E. exfalso. assert (I : In x' s) by (rewrite E; apply in_or_app; right; left; reflexivity). rewrite (N _ I) in F'. discriminate.
      - injection E as _ E. exfalso. assert (I : In x s') by (rewrite <- E; apply in_or_app; right; left; reflexivity). rewrite (N' _ I) in F. discriminate.
      - injection E as _ E. exact (IH p' E). }
    rewrite (X0 _ _ E) in F. congruence.
  - rewrite N' in F; [discriminate|]. apply in_or_app. right. left. reflexivity.
  - subst l. rewrite N in F'; [discriminate|]. apply in_or_app. right. left. reflexivity.
Qed.

(** For every kind of options: the last option of a setting wins, options of other settings
    do not matter, and the defaults are those documented. *)
Theorem C75_options_settle :
  (forall l, settles (fun x => match x with WithValidation b => Some b | _ => None end) true l (validate (process l)) /\
             settles (fun x => match x with WithRedefineCoreRules b => Some b | _ => None end) false l (redefine_core (process l))) /\
  (forall l, settles (fun x => match x with WithRepMax n => Some n | _ => None end) 16 l (rep_max (gen_process l)) /\
             settles (fun x => match x with WithThreshold n => Some n | _ => None end) 256 l (threshold (gen_process l))) /\
  (forall l, settles (fun x => match x with WithDeflateRules b => Some b | _ => None end) false l (o_rules (tg_process l)) /\
             settles (fun x => match x with WithDeflateNumVals b => Some b | _ => None end) false l (o_numvals (tg_process l)) /\
             settles (fun x => match x with WithDeflateCharVals b => Some b | _ => None end) false l (o_charvals (tg_process l)) /\
             settles (fun x => match x with WithRepetitionThreshold n => Some n | _ => None end) 256 l (o_threshold (tg_process l)) /\
             settles (fun x => match x with WithMaxNodes n => Some n | _ => None end) 0 l (o_max (tg_process l))) /\
  (forall l, settles (fun x => match x with WithMaxDepth n => Some n | _ => None end) 32 l (max_depth (ast_process l)) /\
             settles (fun x => match x with WithMaxLen n => Some n | _ => None end) 4096 l (max_len (ast_process l)) /\
             settles (fun x => match x with WithMaxRepeat n => Some n | _ => None end) 16 l (max_repeat (ast_process l))) /\
  (forall l, settles (fun x => match x with WithMaxForestNodes n => Some n | _ => None end) 0 l (max_nodes (forest_process l)) /\
             settles (fun x => match x with WithMaxSlots n => Some n | _ => None end) 65536 l (max_slots (forest_process l))) /\
  (forall l, settles (fun x => match x with WithMaxLength n => Some n | _ => None end) 4096 l (max_length (fuzz_process l)) /\
             settles (fun x => match x with WithMaxReps n => Some n | _ => None end) 32 l (max_reps (fuzz_process l)) /\
             settles (fun x => match x with WithMaxSteps n => Some n | _ => None end) 100000 l (max_steps (fuzz_process l)) /\
             settles (fun x => match x with WithStableAddressing => Some true | _ => None end) false l (stable_addr (fuzz_process l))) /\
  (forall l, settles Some 0 l (regex_process l)) /\
  (forall l, settles Some CoverageAllTrails l (reader_process l)).
Proof.
  repeat match goal with |- _ /\ _ => split | |- forall l, _ => intros l end.
  - refine (fold_settles apply_abnf validate _ _ l (mkAO true false)); intros o []; reflexivity.
  - refine (fold_settles apply_abnf redefine_core _ _ l (mkAO true false)); intros o []; reflexivity.
  - refine (fold_settles apply_gen rep_max _ _ l (mkGO 16 256)); intros o []; reflexivity.
  - refine (fold_settles apply_gen threshold _ _ l (mkGO 16 256)); intros o []; reflexivity.
  - refine (fold_settles apply_tg o_rules _ _ l (mkOpts false false false 256 0)); intros o []; reflexivity.
  - refine (fold_settles apply_tg o_numvals _ _ l (mkOpts false false false 256 0)); intros o []; reflexivity.
  - refine (fold_settles apply_tg o_charvals _ _ l (mkOpts false false false 256 0)); intros o []; reflexivity.
  - refine (fold_settles apply_tg o_threshold _ _ l (mkOpts false false false 256 0)); intros o []; reflexivity.
  - refine (fold_settles apply_tg o_max _ _ l (mkOpts false false false 256 0)); intros o []; reflexivity.
  - refine (fold_settles apply_ast max_depth _ _ l (mkASTO 32 4096 16)); intros o []; reflexivity.
  - refine (fold_settles apply_ast max_len _ _ l (mkASTO 32 4096 16)); intros o []; reflexivity.
  - refine (fold_settles apply_ast max_repeat _ _ l (mkASTO 32 4096 16)); intros o []; reflexivity.
  - refine (fold_settles apply_forest max_nodes _ _ l (mkFC 0 default_max_slots)); intros o []; reflexivity.
  - refine (fold_settles apply_forest max_slots _ _ l (mkFC 0 default_max_slots)); intros o []; reflexivity.
  - refine (fold_settles apply_fuzz max_length _ _ l (mkFO 4096 32 100000 false)); intros o []; reflexivity.
  - refine (fold_settles apply_fuzz max_reps _ _ l (mkFO 4096 32 100000 false)); intros o []; reflexivity.
  - refine (fold_settles apply_fuzz max_steps _ _ l (mkFO 4096 32 100000 false)); intros o []; reflexivity.
  - refine (fold_settles apply_fuzz stable_addr _ _ l (mkFO 4096 32 100000 false)); intros o []; reflexivity.
  - exact (fold_settles (fun _ n => n) (fun n => n) Some ltac:(reflexivity) l 0).
  - exact (fold_settles (fun _ n => n) (fun n => n) Some ltac:(reflexivity) l CoverageAllTrails).
Qed.
(** The specification leaves one value, so this settles what the options mean; and two lists
    that settle every setting alike make ParseABNF do the same. *)
Theorem C75_same_options : forall l l',
  (forall v, settles (fun x => match x with WithValidation b => Some b | _ => None end) true l v <-> settles (fun x => match x with WithValidation b => Some b | _ => None end) true l' v) ->
  (forall v, settles (fun x => match x with WithRedefineCoreRules b => Some b | _ => None end) false l v <-> settles (fun x => match x with WithRedefineCoreRules b => Some b | _ => None end) false l' v) ->
  forall ord ordE sh fuel w, pap_read ord ordE sh fuel l w = pap_read ord ordE sh fuel l' w.
Proof.
  intros l l' A B ord ordE sh fuel w. destruct C75_options_settle as [P _]. destruct (P l) as [P1 P2]. destruct (P l') as [P3 P4].
  apply A in P1. apply B in P2. unfold pap_read. rewrite (settles_one _ _ _ _ _ P1 P3), (settles_one _ _ _ _ _ P2 P4). reflexivity.
Qed.
Example C75_case : process [WithValidation false; WithRedefineCoreRules true; WithValidation true] = mkAO true true /\
  gen_process [WithThreshold 3; WithThreshold 4] = mkGO 16 4 /\
  fuzz_process [WithMaxReps 3; WithStableAddressing; WithMaxReps 2] = mkFO 4096 2 100000 true /\
  settles (fun x => match x with WithValidation b => Some b | _ => None end) true [WithValidation false; WithRedefineCoreRules true] false.
Proof.
  split; [reflexivity|]. split; [reflexivity|]. split; [reflexivity|]. left. exists [], (WithValidation false), [WithRedefineCoreRules true].
  split; [reflexivity|]. split; [reflexivity|]. intros y [<-|[]]. reflexivity.
Qed.

(** ** Reading does not depend on iteration orders *)
Lemma key_one (m : rmap) : NoDup (map (fun z => lower (fst z)) m) -> forall x y, In x m -> In y m -> lower (fst x) = lower (fst y) -> x = y.
Proof.
  induction m as [|z m IH]; intros Nd x y Ix Iy L; [destruct Ix|]. cbn [map] in Nd. inversion Nd as [|? ? N1 N2]; subst.
  destruct Ix as [->|Ix], Iy as [->|Iy]; auto.
  - exfalso. apply N1. rewrite L. apply (in_map (fun z => lower (fst z))). exact Iy.
  - exfalso. apply N1. rewrite <- L. apply (in_map (fun z => lower (fst z))). exact Ix.
Qed.
Section SameState.
  Variables ord ord' : nat -> rmap -> rmap.
  Hypothesis O : any_order ord.
  Hypothesis O' : any_order ord'.
  Variable core : grammar.
  Lemma find_same ds st n : EvalProof.Inv core ds st -> rm_find core n (ord (e_tick st) (e_map st)) = rm_find core n (ord' (e_tick st) (e_map st)).
  Proof.
    intros [Ic Io Nd Ii _ _].
    assert (X : forall o1 o2, any_order o1 -> any_order o2 -> forall e r, rm_find core n (o1 (e_tick st) (e_map st)) = Some (e, r) -> rm_find core n (o2 (e_tick st) (e_map st)) = Some (e, r)).
    { intros o1 o2 H1 H2 e r F. apply rm_find_some in F as (k & I & D & S). apply H1 in I. destruct (Io _ _ I) as (r0 & -> & <-). cbn in D. injection D as ->.
      destruct (rm_find core n (o2 (e_tick st) (e_map st))) as [[e' r']|] eqn:F'.
      - apply rm_find_some in F' as (k' & I' & D' & S'). apply H2 in I'. destruct (Io _ _ I') as (r1 & -> & <-). cbn in D'. injection D' as ->.
        assert (L : lower (rule_name r') = lower (rule_name r)) by (unfold same_name in *; congruence).
        assert (Eq : (rule_name r', Own r') = (rule_name r, Own r)); [|injection Eq as _ <-; reflexivity].
        apply (key_one (e_map st) Nd); assumption.
      - exfalso. apply (rm_find_none _ _ _ F' (rule_name r) (Own r) r); [apply H2; exact I|reflexivity|exact S]. }
    destruct (rm_find core n (ord (e_tick st) (e_map st))) as [[e r]|] eqn:F; [symmetry; apply (X ord ord' O O'); exact F|].
    destruct (rm_find core n (ord' (e_tick st) (e_map st))) as [[e r]|] eqn:F'; [|reflexivity]. apply (X ord' ord O' O) in F'. congruence.
  Qed.
  Lemma define_same ds : forall pre st, EvalProof.Inv core pre st -> e_define_all false ord ds st = e_define_all false ord' ds st.
  Proof.
    induction ds as [|d ds IH]; intros pre st I; [reflexivity|]. cbn [e_define_all].
    assert (E : e_define false ord d st = e_define false ord' d st).
    { destruct d as [rl b]. unfold e_define, rm_get. rewrite (EvalProof.i_core _ _ _ I), (find_same pre st (rule_name rl) I). reflexivity. }
    rewrite <- E. pose proof (EvalProof.step ord O core pre st d I) as S. destruct (e_define false ord d st) as [st'|e|]; auto. exact (IH _ st' (proj1 S)).
  Qed.
End SameState.

(** What ParseABNF does with a text, its definitions [ds'] being the text's up to what
    comments say about operators. *)
Lemma text_defs w : Lang abnf_grammar "rulelist" w -> exists ds ds', text_says any_filler w ds /\ map fst ds' = map fst ds /\
  forall ord, any_order ord -> exists enough, forall fuel ordE sh rd v core, (enough <= fuel)%nat ->
    parse_abnf ord ordE sh fuel rd v core w =
    match e_define_all rd ordE ds' (mkE core [] 0) with
    | EvPanic => PA_panic
    | EvErr e => PA_eval e
    | EvOk st => if v then match semval_abnf (sh 0%nat (rules_of st)) (sh 1%nat (rules_of st)) (rules_of st) with
                           | Some e => PA_sem e | None => PA_ok st end
                 else PA_ok st
    end.
Proof.
  intros L. destruct (proj1 (C55_abnf_texts w) L) as (ds & Sa). exists ds. destruct (text_tree _ _ _ Sa) as (t & ds' & T & Td & M & _). exists ds'.
  split; [exact Sa|]. split; [exact M|]. intros ord O. destruct (parse_abnf_tree ord w O) as [A _]. destruct (A L) as (t' & en & T' & P). exists en.
  intros fuel ordE sh rd v core F. rewrite P by exact F. rewrite (C55_abnf_unambiguous _ _ _ T' T). unfold eval_tree. rewrite (C38_tree_merge rd ordE w _ _ Td). reflexivity.
Qed.
Lemma lang_dec (ord : nat -> list nkey -> list nkey) w : any_order ord -> Lang abnf_grammar "rulelist" w \/ ~ Lang abnf_grammar "rulelist" w.
Proof.
  intros O. destruct (abnf_forest ord w O) as (f & en & H). destruct (H en (le_n _)) as [E _].
  pose proof (C05_forest_valid_exact_partial _ _ _ _ _ _ _ _ O abnf_wf abnf_lex abnf_apart E) as V.
  destruct (f_valid f); [left; apply V; reflexivity|right; intros L; apply V in L; discriminate].
Qed.
(** The grammar returned is the same one whatever the orders maps are iterated in. *)
Lemma read_same ord ord' w : any_order ord -> any_order ord' ->
  exists enough, forall fuel fuel' ordE ordE' sh sh' v st, (enough <= fuel)%nat -> (enough <= fuel')%nat ->
    any_order ordE -> any_order ordE' -> any_shuffle sh -> any_shuffle sh' ->
    parse_abnf ord ordE sh fuel false v core_rules w = PA_ok st -> parse_abnf ord' ordE' sh' fuel' false v core_rules w = PA_ok st.
Proof.
  intros O O'. destruct (lang_dec ord w O) as [L|N].
  2:{ destruct (C57_rejects ord w O) as (e & en & P); [intros X; apply N, C55_abnf_texts, X|]. exists en. intros fuel fuel' ordE ordE' sh sh' v st F _ _ _ _ _ E. rewrite P in E by exact F. discriminate. }
  destruct (text_defs w L) as (ds & ds' & Sa & M & P). destruct (P ord O) as (en1 & P1). destruct (P ord' O') as (en2 & P2).
  destruct (C67_read_well_formed ord w O) as (en3 & Wf).
  exists (Nat.max en1 (Nat.max en2 en3)). intros fuel fuel' ordE ordE' sh sh' v st F F' Oe Oe' Sh Sh' E.
  destruct (Wf fuel ordE sh v st ltac:(lia) Oe Sh E) as (W & _ & Wr & _ & _).
  rewrite P1 in E by lia. rewrite P2 by lia. rewrite (define_same ordE' ordE Oe' Oe core_rules ds' [] _ (EvalProof.inv_init core_rules)).
  destruct (e_define_all false ordE ds' (mkE core_rules [] 0)) as [st'|e|]; try discriminate.
  destruct v; [|exact E]. 
  destruct (semval_abnf (sh 0%nat (rules_of st')) (sh 1%nat (rules_of st')) (rules_of st')) eqn:Se; [discriminate|]. injection E as ->.
  assert (Wa : Forall (fun r => wf_alt (rule_alt r)) (rules_of st)) by (apply Forall_forall; intros r I; rewrite Forall_forall in Wr; apply written_wf, Wr, I).
  apply (C17_semval_exact _ _ _ (Sh 0%nat _) (Sh 1%nat _) Wa) in Se. apply (C17_semval_exact _ _ _ (Sh' 0%nat _) (Sh' 1%nat _) Wa) in Se. rewrite Se. reflexivity.
Qed.
(** The map holds each rule under its name. *)
Lemma read_entries ord w : any_order ord ->
  exists enough, forall fuel ordE sh v st, (enough <= fuel)%nat -> any_order ordE ->
    parse_abnf ord ordE sh fuel false v core_rules w = PA_ok st -> entries st = map (fun r => (rule_name r, r)) (rules_of st).
Proof.
  intros O. destruct (lang_dec ord w O) as [L|N].
  2:{ destruct (C57_rejects ord w O) as (e & en & P); [intros X; apply N, C55_abnf_texts, X|]. exists en. intros fuel ordE sh v st F _ E. rewrite P in E by exact F. discriminate. }
  destruct (text_defs w L) as (ds & ds' & _ & _ & P). destruct (P ord O) as (en & P1). exists en. intros fuel ordE sh v st F Oe E. rewrite P1 in E by exact F.
  pose proof (EvalProof.all_step ordE Oe core_rules ds' [] _ (EvalProof.inv_init core_rules)) as S.
  destruct (e_define_all false ordE ds' (mkE core_rules [] 0)) as [st'|e|]; try discriminate.
  assert (st' = st). { destruct v; [destruct (semval_abnf _ _ _) in E; [discriminate|]|]; congruence. } subst st'. destruct S as [[_ Io _ _ _ _] _].
  unfold entries, rules_of. induction (e_map st) as [|[k x] m IH]; [reflexivity|]. cbn [flat_map fst snd].
  destruct (Io k x (or_introl eq_refl)) as (r & -> & <-). cbn [deref app map]. f_equal. apply IH. intros k0 e0 I. apply Io. right. exact I.
Qed.

(** ** C74: validate *)
(** The order PrettyPrint meets the entries of the map in. *)
Definition any_listing (shP : list (string * rule) -> list (string * rule)) : Prop := forall l, Permutation (shP l) l.
Definition valid_rules (rs : grammar) : Prop := refs_defined rs /\ bounds_ordered rs /\ nums_in_unicode rs.
(** The rules a list of definitions gives. *)
Definition gives (ds : list (rule * bool)) (rs : grammar) : Prop := distinct_names rs /\ forall r, In r rs <-> defined_as ds r.

Lemma valid_same rs rs' : (forall r, In r rs <-> In r rs') -> valid_rules rs -> valid_rules rs'.
Proof.
  intros H (A & B & C). split; [|split].
  - intros r n I Rf. apply H in I. destruct (A r n I Rf) as (a & [(r0 & I0 & X)|[N X]]); exists a.
    + left. exists r0. split; [apply H, I0|exact X].
    + right. split; [|exact X]. intros r0 I0. apply N, H, I0.
  - intros r mn mx e I. apply (B r mn mx e), H, I.
  - intros r mn mx b k es s v I. apply (C r mn mx b k es s v), H, I.
Qed.
Lemma listed_rules shP rs : any_listing shP -> exists rs', Permutation rs' rs /\ shP (map (fun r => (rule_name r, r)) rs) = map (fun r => (rule_name r, r)) rs'.
Proof.
  intros P. destruct (Permutation_map_inv (fun r => (rule_name r, r)) rs (l1 := shP (map (fun r => (rule_name r, r)) rs))) as (rs' & E & Pm); [apply P|].
  exists rs'. split; [symmetry; exact Pm|exact E].
Qed.
Lemma distinct_perm rs rs' : Permutation rs' rs -> distinct_names rs -> distinct_names rs'.
Proof. intros P D. unfold distinct_names in *. eapply Permutation_NoDup; [|exact D]. apply Permutation_map. symmetry. exact P. Qed.
Lemma pretty_rules rs : rs <> [] -> Forall written_rule rs ->
  text_says quiet_filler (bytes (pretty_string (map (fun r => (rule_name r, r)) rs))) (map (fun r => (erase_rule r, false)) rs).
Proof.
  intros NE Wr. pose proof (C40_pretty_text_partial (map (fun r => (rule_name r, r)) rs)) as H. rewrite map_map in H. apply H.
  - destruct rs; [congruence|discriminate].
  - apply Forall_forall. intros [k r] I. apply in_map_iff in I as (r0 & E & I). injection E as <- <-. rewrite Forall_forall in Wr. exact (Wr r0 I).
Qed.

(** On a text: validate prints exactly when the definitions are in order (and, unless
    switched off, the rules are valid), and prints a text of the same rules (without [%s],
    see C40) followed by a line feed.  What a text is taken for is in C56_taken. *)
Theorem C74_validate : forall ord w ds, any_order ord -> text_taken w ds ->
  exists enough, forall fuel ordE sh shP sem_val, (enough <= fuel)%nat -> any_order ordE -> any_shuffle sh -> any_listing shP ->
    match pap_validate ord ordE sh shP fuel sem_val w with
    | Printed t => defs_ok core_rules ds /\ exists rs p, gives ds rs /\ (sem_val <> Some false -> valid_rules rs) /\ t = p ++ [10] /\
        (rs <> [] -> text_says quiet_filler p (map (fun r => (erase_rule r, false)) rs)) /\ (rs = [] -> p = [])
    | Not_read _ => defs_ok core_rules ds -> sem_val <> Some false /\ forall rs, gives ds rs -> ~ valid_rules rs
    | _ => False
    end.
Proof.
  intros ord w ds O H. destruct (C57_reads ord w ds O H) as (en & P). destruct (read_entries ord w O) as (en2 & Pe). destruct (C67_read_well_formed ord w O) as (en3 & Pw).
  exists (Nat.max en (Nat.max en2 en3)). intros fuel ordE sh shP sv F Oe Sh Pl. unfold pap_validate, pap_read.
  set (o := match sv with Some b => [WithValidation b] | None => [] end).
  assert (Rd : redefine_core (process o) = false) by (destruct sv as [[]|]; reflexivity).
  assert (Vd : validate (process o) = true <-> sv <> Some false) by (destruct sv as [[]|]; split; intros; try discriminate; try reflexivity; congruence).
  rewrite Rd. specialize (P fuel ordE sh (validate (process o)) ltac:(lia) Oe Sh).
  destruct (parse_abnf ord ordE sh fuel false (validate (process o)) core_rules w) as [st| | | | | | |e|e| |] eqn:E; try contradiction.
  - destruct P as (Ok & Dn & Rl & _ & Vr). split; [exact Ok|]. rewrite (Pe fuel _ _ _ _ ltac:(lia) Oe E).
    destruct (Pw fuel _ _ _ _ ltac:(lia) Oe Sh E) as (_ & _ & Wr & _).
    destruct (listed_rules shP (rules_of st) Pl) as (rs & Pm & ->). exists rs, (bytes (pretty_string (map (fun r => (rule_name r, r)) rs))).
    split; [split; [exact (distinct_perm _ _ Pm Dn)|]; intros r; rewrite <- Rl; split; apply Permutation_in; [exact Pm|symmetry; exact Pm]|].
    split; [|split; [reflexivity|split; [|intros ->; reflexivity]]].
    + intros V. apply (valid_same (rules_of st)); [|apply Vr, Vd, V]. intros r. split; apply Permutation_in; [symmetry; exact Pm|exact Pm].
    + intros NE. apply pretty_rules; [exact NE|]. apply Forall_forall. intros r I. rewrite Forall_forall in Wr. apply Wr, (Permutation_in _ Pm), I.
  - intros Ok. exfalso. destruct P as (pre & d & post & -> & _ & V). exact (Ok pre d post e eq_refl V).
  - intros _. destruct P as (V & _ & N). split; [apply Vd, V|]. intros rs [D R]. exact (N rs D R).
Qed.

(** What is not an ABNF text is refused by every command, with a report of where (C70). *)
Theorem C74_not_a_text : forall ord w, any_order ord -> ~ (exists ds, text_says any_filler w ds) ->
  exists e enough, forall fuel ordE sh opts, (enough <= fuel)%nat -> pap_read ord ordE sh fuel opts w = PA_parse e.
Proof. intros ord w O N. destruct (C57_rejects ord w O N) as (e & en & P). exists e, en. intros. apply P. assumption. Qed.

(** ** What validate prints cannot be read again *)
Lemma bytes_range s : Forall (fun b => 0 <= b < 256) (bytes s).
Proof.
  induction s as [|c s IH]; [constructor|]. rewrite AbnfRead.bytes_cons. constructor; [|exact IH]. unfold cval. pose proof (N_ascii_bounded c). lia.
Qed.
Lemma pretty_end m : m <> [] -> exists p, bytes (pretty_string m) = p ++ [13; 10].
Proof.
  intros NE. unfold pretty_string. set (f := fun kr : string * rule => _).
  assert (X : forall l, l <> [] -> (forall x, exists q, bytes (f x) = q ++ [13; 10]) -> exists p, bytes (cat_all (map f l)) = p ++ [13; 10]).
  { intros l N H. induction l as [|x l IH]; [congruence|]. cbn [map cat_all]. rewrite PrintText.bytes_sapp. destruct l as [|y l].
    - destruct (H x) as (q & ->). exists q. cbn. rewrite app_nil_r. reflexivity.
    - destruct IH as (p & ->); [discriminate|]. exists (bytes (f x) ++ p). rewrite app_assoc. reflexivity. }
  apply X; [exact NE|]. intros x. unfold f. rewrite !PrintText.bytes_sapp. eexists. rewrite !app_assoc. reflexivity.
Qed.
Lemma blank_after f ds w : text_lines f ds w -> text_lines f ds (w ++ [13; 10]).
Proof.
  induction 1 as [|d w ds w' R H IH|ws nl ds w' A B H IH].
  - apply (tl_blank _ [] [13; 10] [] []); [constructor|constructor|constructor].
  - rewrite <- app_assoc. constructor; assumption.
  - rewrite <- !app_assoc. constructor; assumption.
Qed.
(** Whatever validate prints, every command refuses it, at its last byte: Println ends it
    with a bare line feed, which is what the report hints at. *)
Theorem C74_output_refused : forall ord ord' w, any_order ord -> any_order ord' ->
  exists enough, forall fuel ordE sh shP sem_val t, (enough <= fuel)%nat -> any_order ordE -> any_shuffle sh -> any_listing shP ->
    pap_validate ord ordE sh shP fuel sem_val w = Printed t ->
    exists e enough', forall fuel' ordE' sh' opts, (enough' <= fuel')%nat ->
      pap_read ord' ordE' sh' fuel' opts t = PA_parse e /\ pe_offset e = Z.of_nat (length t) - 1 /\ pe_hint e = true.
Proof.
  intros ord ord' w O O'. destruct (read_entries ord w O) as (en2 & Pe). destruct (C67_read_well_formed ord w O) as (en3 & Pw).
  exists (Nat.max en2 en3). intros fuel ordE sh shP sv t F Oe Sh Pl E. unfold pap_validate, pap_read in E.
  set (o := match sv with Some b => [WithValidation b] | None => [] end) in E.
  assert (Rd : redefine_core (process o) = false) by (destruct sv as [[]|]; reflexivity). rewrite Rd in E.
  destruct (parse_abnf ord ordE sh fuel false (validate (process o)) core_rules w) as [st| | | | | | |e|e| |] eqn:Er; try discriminate.
  rewrite (Pe fuel _ _ _ _ ltac:(lia) Oe Er) in E. destruct (Pw fuel _ _ _ _ ltac:(lia) Oe Sh Er) as (_ & _ & Wr & _).
  destruct (listed_rules shP (rules_of st) Pl) as (rs & Pm & Es). rewrite Es in E. set (p := bytes (pretty_string (map (fun r => (rule_name r, r)) rs))) in *.
  injection E as <-.
  assert (L : Lang abnf_grammar "rulelist" (p ++ 13 :: 10 :: [])).
  { apply C55_abnf_texts. destruct rs as [|r rs].
    - exists []. split; [discriminate|]. apply (blank_after any_filler [] []). constructor.
    - assert (S : text_says quiet_filler p (map (fun r => (erase_rule r, false)) (r :: rs))).
      { apply pretty_rules; [discriminate|]. apply Forall_forall. intros x I. rewrite Forall_forall in Wr. apply Wr, (Permutation_in _ Pm), I. }
      apply says_any in S. destruct S as [_ S]. eexists. split; [|apply blank_after; exact S]. destruct p; discriminate. }
  assert (NC : forall q, p <> q ++ [13]).
  { intros q Eq. destruct rs as [|r rs]; [destruct q; discriminate|]. destruct (pretty_end (map (fun r => (rule_name r, r)) (r :: rs))) as (q' & Eq'); [discriminate|].
    fold p in Eq'. rewrite Eq' in Eq. change [13; 10] with ([13] ++ [10]) in Eq. rewrite app_assoc in Eq. apply app_inj_tail in Eq as [_ X]. discriminate. }
  assert (By : Forall (fun b => 0 <= b < 256) (p ++ 10 :: [])) by (apply Forall_app; split; [apply bytes_range|constructor; [lia|constructor]]).
  destruct (C72_bare_lf ord' p [] [] O' By L NC) as (e & en' & P). exists e, en'. intros fuel' ordE' sh' opts F'.
  destruct (P fuel' ordE' sh' (redefine_core (process opts)) (validate (process opts)) core_rules F') as (A & B & _ & C & _).
  unfold pap_read. split; [exact A|]. split; [|exact C]. rewrite B, app_length. cbn [length]. lia.
Qed.

(** ** generate *)
(** What generate prints is a sentence of the rule, followed by a line feed.  Missing: prose,
    surrogates (see C29). *)
Theorem C74_generate_partial : forall ord w ds source byte n seed repmax thr, any_order ord -> text_taken w ds ->
  (forall s t, 0 <= source s t) -> (forall rs, gives ds rs -> generable rs) ->
  exists enough, forall fuel ordE sh, (enough <= fuel)%nat -> any_order ordE -> any_shuffle sh ->
    match pap_generate ord ordE sh fuel source byte n seed repmax thr w with
    | Printed t => exists rs v, gives ds rs /\ valid_rules rs /\ t = v ++ [10] /\ Lang rs n v
    | Not_read _ => ~ (defs_ok core_rules ds /\ exists rs, gives ds rs /\ valid_rules rs)
    | Not_generated _ => exists rs, gives ds rs /\ valid_rules rs
    | _ => False
    end.
Proof.
  intros ord w ds src byte n seed rm th O H Sr Gb. destruct (C57_reads ord w ds O H) as (en & P). exists en. intros fuel ordE sh F Oe Sh.
  unfold pap_generate, pap_read. cbn [process fold_left redefine_core validate]. specialize (P fuel ordE sh true F Oe Sh).
  destruct (parse_abnf ord ordE sh fuel false true core_rules w) as [st| | | | | | |e|e| |] eqn:E; try contradiction.
  - destruct P as (Ok & Dn & Rl & _ & Vr). assert (Gv : gives ds (rules_of st)) by (split; assumption).
    set (o := gen_process _). clearbody o.
    destruct (generate fuel (src (find_seed seed byte)) (rep_max o) (threshold o) (rules_of st) n) as [out| | | |] eqn:G; try (exists (rules_of st); split; [exact Gv|exact (Vr eq_refl)]).
    exists (rules_of st), out. split; [exact Gv|]. split; [exact (Vr eq_refl)|]. split; [reflexivity|].
    exact (C29_generate_in_language_partial fuel _ _ _ _ n out (Sr _) (Gb _ Gv) G).
  - intros (Ok & _). destruct P as (pre & d & post & -> & _ & V). exact (Ok pre d post e eq_refl V).
  - intros (_ & rs & [D R] & V). destruct P as (_ & _ & N). exact (N rs D R V).
Qed.
(** With the seed given, the same text and flags print the same thing, whatever the orders
    maps are iterated in and whatever crypto/rand returns. *)
Theorem C74_generate_reproducible : forall ord ord' w source byte byte' n s repmax thr, any_order ord -> any_order ord' ->
  exists enough, forall fuel ordE ordE' sh sh' t, (enough <= fuel)%nat -> any_order ordE -> any_order ordE' -> any_shuffle sh -> any_shuffle sh' ->
    pap_generate ord ordE sh fuel source byte n (Some s) repmax thr w = Printed t ->
    pap_generate ord' ordE' sh' fuel source byte' n (Some s) repmax thr w = Printed t.
Proof.
  intros ord ord' w src b b' n s rm th O O'. destruct (read_same ord ord' w O O') as (en & P). exists en. intros fuel ordE ordE' sh sh' t F Oe Oe' Sh Sh' E.
  unfold pap_generate, pap_read in *. cbn [process fold_left redefine_core validate] in *.
  destruct (parse_abnf ord ordE sh fuel false true core_rules w) as [st| | | | | | |e|e| |] eqn:Er; try discriminate.
  rewrite (P fuel fuel ordE ordE' sh sh' true st F F Oe Oe' Sh Sh' Er). exact E.
Qed.
(** Without a seed at most 256 texts can be printed, whatever the grammar. *)
Theorem C74_unseeded : forall ord ordE sh fuel source n repmax thr w, exists l, (length l <= 256)%nat /\
  forall byte t, 0 <= byte < 256 -> pap_generate ord ordE sh fuel source byte n None repmax thr w = Printed t -> In t l.
Proof.
  intros ord ordE sh fuel src n rm th w. set (run := fun b => pap_generate ord ordE sh fuel src b n None rm th w).
  exists (flat_map (fun k => match run (Z.of_nat k) with Printed t => [t] | _ => [] end) (seq 0 256)). split.
  - rewrite <- (seq_length 256 0) at 2. generalize (seq 0 256). induction l as [|k l IH]; [apply le_n|]. cbn [flat_map length]. rewrite app_length.
    destruct (run (Z.of_nat k)); cbn [length]; lia.
  - intros byte t B E. apply in_flat_map. exists (Z.to_nat byte). split; [apply in_seq; lia|]. rewrite Z2Nat.id by lia. change (run byte = Printed t) in E. rewrite E. left. reflexivity.
Qed.

(** ** regex *)
Definition any_keys (keyo : grammar -> list string) : Prop := forall g, key_order (dependency_graph g) (keyo g).
(** What regex prints is, followed by a line feed, an expression that matches the sentences of
    the rule and nothing else; else the rule is missing, or its references go round.
    Missing: counts above the limit of the regexp package, lone surrogates, prose. *)
Theorem C74_regex_partial : forall ord w ds n lim, any_order ord -> text_taken w ds -> 1 <= lim ->
  (forall rs, gives ds rs -> PropRegex.counts_within lim rs /\ PropRegex.no_lone_surrogate rs /\ forall v, ~ occ_elem rs (EProse v)) ->
  exists enough, forall fuel ordE sh keyo, (enough <= fuel)%nat -> any_order ordE -> any_shuffle sh -> any_keys keyo ->
    match pap_regex ord ordE sh keyo fuel n w with
    | Printed t => exists rs u x, gives ds rs /\ valid_rules rs /\ t = u ++ [10] /\
        RegexSpec.reads lim u x /\ (forall y, RegexSpec.reads lim u y -> y = x) /\ forall v, Lang rs n v <-> RegexSpec.matches x v
    | Not_read _ => ~ (defs_ok core_rules ds /\ exists rs, gives ds rs /\ valid_rules rs)
    | Not_a_regex _ => exists rs, gives ds rs /\ valid_rules rs /\
        ((forall a, ~ resolves rs n a) \/ exists m, clos_refl_trans _ (gref rs) n m /\ clos_trans _ (gref rs) m m)
    | _ => False
    end.
Proof.
  intros ord w ds n lim O H Lm Hy. destruct (C57_reads ord w ds O H) as (en & P). destruct (read_small ord w O) as (en2 & Pw).
  exists (Nat.max en en2). intros fuel ordE sh keyo F Oe Sh Ko.
  unfold pap_regex, pap_read. cbn [process fold_left redefine_core validate]. specialize (P fuel ordE sh true ltac:(lia) Oe Sh).
  destruct (parse_abnf ord ordE sh fuel false true core_rules w) as [st| | | | | | |e|e| |] eqn:E; try contradiction.
  - destruct P as (Ok & Dn & Rl & _ & Vr). assert (Gv : gives ds (rules_of st)) by (split; assumption).
    destruct (Hy _ Gv) as (Cw & Ns & Np). destruct (Pw fuel ordE sh true st ltac:(lia) Oe Sh E) as (W & Lx & _ & _ & _ & Fl).
    assert (Fn : (length (names (rules_of st)) < fuel)%nat) by (unfold names; rewrite map_length, app_length; lia).
    pose proof (PropRegex.C24_regex_outcome fuel (rules_of st) (keyo (rules_of st)) n Dn (Ko _) Fn Np) as Out.
    pose proof (Vr eq_refl) as V. destruct V as (V1 & V2 & V3).
    destruct (Regex.regex fuel (rules_of st) (keyo (rules_of st)) 0 n) as [t| | | | |] eqn:R; try contradiction.
    + destruct (PropRegex.C24_C25_regex_text_partial lim fuel _ _ 0 n t Lm W Lx V1 V2 Cw Ns R) as (x & A & B & C).
      exists (rules_of st), t, x. split; [exact Gv|]. split; [exact (Vr eq_refl)|]. auto.
    + exists (rules_of st). split; [exact Gv|]. split; [exact (Vr eq_refl)|]. right. exact Out.
    + exists (rules_of st). split; [exact Gv|]. split; [exact (Vr eq_refl)|]. left. exact Out.
  - intros (Ok & _). destruct P as (pre & d & post & -> & _ & V). exact (Ok pre d post e eq_refl V).
  - intros (_ & rs & [D R] & V). destruct P as (_ & _ & N). exact (N rs D R V).
Qed.

(** ** transition-graph *)
(** Whatever the bytes, the flags and the orders, the command prints a drawing of the
    transition graph of the rule (see C69 for what that is) and a line feed, or returns an
    error: it never panics. *)
Theorem C74_graph : forall ord w, any_order ord ->
  exists enough, forall fuel ordE sh keyo nodeo id n rules charvals numvals thr, (enough <= fuel)%nat -> any_order ordE -> any_shuffle sh ->
    any_keys keyo -> PropMermaid.visits nodeo -> PropMermaid.uuids id ->
    match pap_graph ord ordE sh keyo nodeo fuel id n rules charvals numvals thr w with
    | Printed t => exists rs tg s c, t = bytes s ++ [10] /\ PropMermaid.drawn id tg (PropMermaid.lines s) /\ valid_rules rs /\
        (exists ds, text_taken w ds /\ defs_ok core_rules ds /\ gives ds rs) /\
        exists g1 g2 order, Permutation g1 rs /\ Permutation g2 rs /\ key_order (dependency_graph rs) order /\
          transition_graph fuel (mkOpts (match rules with Some _ => true | None => false end) (match numvals with Some _ => true | None => false end)
            (match charvals with Some _ => true | None => false end) (match thr with Some k => k | None => 256 end) 0) rs g1 g2 order n = TG_ok tg c
    | Not_read (PA_parse _) => ~ Lang abnf_grammar "rulelist" w
    | Not_read (PA_eval _) | Not_read (PA_sem _) => exists ds, text_taken w ds /\ ~ (defs_ok core_rules ds /\ exists rs, gives ds rs /\ valid_rules rs)
    | Not_a_graph (TG_err _) => True
    | _ => False
    end.
Proof.
  intros ord w O. destruct (read_small ord w O) as (en & Pw).
  assert (Q : exists en2, forall fuel ordE sh, (en2 <= fuel)%nat -> any_order ordE -> any_shuffle sh ->
    match parse_abnf ord ordE sh fuel false true core_rules w with
    | PA_ok st => exists ds, text_taken w ds /\ defs_ok core_rules ds /\ gives ds (rules_of st)
    | PA_parse _ => ~ Lang abnf_grammar "rulelist" w
    | PA_eval _ | PA_sem _ => exists ds, text_taken w ds /\ ~ (defs_ok core_rules ds /\ exists rs, gives ds rs /\ valid_rules rs)
    | _ => False
    end).
  { destruct (lang_dec ord w O) as [L|N].
    - destruct (proj1 (C55_abnf_texts w) L) as (ds0 & Sa). destruct (C56_taken w ds0 Sa) as (ds & T & _). destruct (C57_reads ord w ds O T) as (en2 & P).
      exists en2. intros fuel ordE sh F Oe Sh. specialize (P fuel ordE sh true F Oe Sh).
      destruct (parse_abnf ord ordE sh fuel false true core_rules w) as [st| | | | | | |e|e| |]; try contradiction; exists ds; (split; [exact T|]).
      + destruct P as (Ok & Dn & Rl & _). split; [exact Ok|split; assumption].
      + intros (Ok & _). destruct P as (pre & d & post & -> & _ & V). exact (Ok pre d post e eq_refl V).
      + intros (_ & rs & [D R] & V). destruct P as (_ & _ & N). exact (N rs D R V).
    - destruct (C57_rejects ord w O) as (e & en2 & P); [intros X; apply N, C55_abnf_texts, X|]. exists en2. intros fuel ordE sh F Oe Sh. rewrite P by exact F. exact N. }
  destruct Q as (en2 & Q). exists (Nat.max en en2). intros fuel ordE sh keyo nodeo id n ru cv nv th F Oe Sh Ko Vo U.
  unfold pap_graph, pap_read. cbn [process fold_left redefine_core validate]. specialize (Q fuel ordE sh ltac:(lia) Oe Sh).
  destruct (parse_abnf ord ordE sh fuel false true core_rules w) as [st| | | | | | |e|e| |] eqn:E; try contradiction; auto.
  destruct (Pw fuel ordE sh true st ltac:(lia) Oe Sh E) as (W & Lx & _ & _ & Vr & Fl). set (g := rules_of st) in *.
  set (o := tg_process _).
  assert (Eo : o = mkOpts (match ru with Some _ => true | None => false end) (match nv with Some _ => true | None => false end)
            (match cv with Some _ => true | None => false end) (match th with Some k => k | None => 256 end) 0) by (destruct ru, cv, nv, th; reflexivity).
  clearbody o. rewrite <- Eo. clear Eo.
  assert (Fn : (length (names g) < fuel)%nat) by (unfold names; rewrite map_length, app_length; lia).
  pose proof (PropGraph.C31_graph_outcome fuel o g (sh 2%nat g) (sh 3%nat g) (keyo g) n W Lx (Ko g) (Sh _ _) (Sh _ _) Fn) as K.
  destruct (transition_graph fuel o g (sh 2%nat g) (sh 3%nat g) (keyo g) n) as [t c|e| |] eqn:Et; [|exact Logic.I|contradiction|contradiction].
  destruct (PropMermaid.C69_mermaid_exact _ _ _ _ _ _ _ _ _ W Lx Et id nodeo U Vo) as (s & Es & Dr). rewrite Es.
  exists g, t, s, c. split; [reflexivity|]. split; [exact Dr|]. split; [exact (Vr eq_refl)|]. split; [exact Q|].
  exists (sh 2%nat g), (sh 3%nat g), (keyo g). split; [apply Sh|]. split; [apply Sh|]. split; [apply Ko|exact Et].
Qed.

(** *** Reading a printed text *)
(** What is read from the printed form of valid rules without option: those rules. *)
Definition state_of (rs : grammar) : estate := match e_define_all false id_order (map (fun r => (r, false)) rs) (mkE core_rules [] 0) with EvOk st => st | _ => mkE [] [] 0 end.
Lemma printed_read ord rs : any_order ord -> rs <> [] -> forallb printable_rule rs = true -> Forall (fun r => erase_rule r = r) rs ->
  e_define_all false id_order (map (fun r => (r, false)) rs) (mkE core_rules [] 0) = EvOk (state_of rs) ->
  rules_of (state_of rs) = rs -> wf_grammarb rs = true -> semval_abnf rs rs rs = None ->
  exists enough, forall fuel sh, (enough <= fuel)%nat -> any_shuffle sh ->
    pap_read ord id_order sh fuel [] (bytes (grammar_string rs)) = PA_ok (state_of rs).
Proof.
  intros O NE Pr Er E Rs W V. pose proof (C40_printed_text_same rs NE (written_all rs Pr) Er) as Sy. set (w := bytes (grammar_string rs)) in *.
  destruct (parse_abnf_tree ord w O) as [A _].
  pose proof (says_any _ _ _ Sy) as Sa. destruct A as (t & en & D & A); [apply C55_abnf_texts; eauto|].
  exists en. intros fuel sh F Sh. unfold pap_read. cbn [process fold_left redefine_core validate].
  rewrite A, (C56_evaluation_partial _ _ _ _ _ _ Sy D) by auto. rewrite E. cbv iota beta zeta. rewrite !Rs.
  assert (V' : semval_abnf (sh 0%nat rs) (sh 1%nat rs) rs = None); [|rewrite V'; reflexivity].
  assert (W' : Forall (fun r => wf_alt (rule_alt r)) rs) by (apply (wf_grammarb_spec rs); exact W). clear W. rename W' into W. apply (C17_semval_exact rs _ _ (Sh 0%nat rs) (Sh 1%nat rs) W).
  apply (C17_semval_exact rs rs rs (Permutation_refl _) (Permutation_refl _) W). exact V.
Qed.
Definition id_keys : nat -> list nkey -> list nkey := fun _ l => l.
Definition id_rules : nat -> grammar -> grammar := fun _ l => l.
Lemma id_nkeys : any_order id_keys. Proof. intros t l x. reflexivity. Qed.
Lemma id_shuffle : any_shuffle id_rules. Proof. intros t g. apply Permutation_refl. Qed.
Ltac read_printed := apply printed_read; [exact id_nkeys|discriminate|vm_compute; reflexivity|repeat constructor|vm_compute; reflexivity|vm_compute; reflexivity|vm_compute; reflexivity|vm_compute; reflexivity].

(** *** The value of a boolean flag is not looked at *)
(** The full statement: a flag given its default value, false, changes nothing.  It is false
    of [--deflate-rules=false] on [a = b], [b = "x"]: the rules are deflated. *)
Definition rules74 : grammar := [mkRule "a" [[Rep 1 1 (ERule "b")]]; mkRule "b" [[Rep 1 1 (EChar false [120])]]].
Definition text74 : list Z := bytes "a = b" ++ [13; 10] ++ bytes "b = ""x""" ++ [13; 10].
Lemma read74 : exists enough, forall fuel sh, (enough <= fuel)%nat -> any_shuffle sh -> pap_read id_keys id_order sh fuel [] text74 = PA_ok (state_of rules74).
Proof. change text74 with (bytes (grammar_string rules74)). read_printed. Qed.
Definition id74 (a : nat) : string := string_of_list_ascii (repeat "a"%char a).
Definition run74 (fuel : nat) (rules : option bool) : pap_result :=
  pap_graph id_keys id_order id_rules (fun g => map fst (dependency_graph g)) (fun l => l) fuel id74 "a" rules None None None text74.
Theorem C74_flags_refuted : exists fuel t t',
  run74 fuel None = Printed t /\ run74 fuel (Some false) = Printed t' /\ t <> t' /\ run74 fuel (Some true) = Printed t'.
Proof.
  destruct read74 as [en R]. exists (10 + en)%nat. unfold run74, pap_graph. rewrite R by (try exact id_shuffle; lia). clear R.
  eexists. eexists. split; [vm_compute; reflexivity|]. split; [vm_compute; reflexivity|]. split; [discriminate|]. vm_compute. reflexivity.
Qed.
Theorem C74_flag_values_ignored : forall ord ordE sh keyo nodeo fuel id n (r r' c c' m m' : bool) thr w,
  pap_graph ord ordE sh keyo nodeo fuel id n (Some r) (Some c) (Some m) thr w = pap_graph ord ordE sh keyo nodeo fuel id n (Some r') (Some c') (Some m') thr w.
Proof. reflexivity. Qed.

(** *** generate can panic *)
(** On the valid text [a = 17*"x"], with no flag, whatever the seed (see C30). *)
Definition rules74p : grammar := [mkRule "a" [[Rep 17 inf (EChar false [120])]]].
Definition text74p : list Z := bytes "a = 17*""x""" ++ [13; 10].
Lemma read74p : exists enough, forall fuel sh, (enough <= fuel)%nat -> any_shuffle sh -> pap_read id_keys id_order sh fuel [] text74p = PA_ok (state_of rules74p).
Proof. change text74p with (bytes (grammar_string rules74p)). read_printed. Qed.
Theorem C74_generate_panics_refuted : exists fuel, forall source byte seed,
  pap_generate id_keys id_order id_rules fuel source byte "a" seed None None text74p = Not_generated Gen_panic.
Proof.
  destruct read74p as [en R]. exists (10 + en)%nat. intros source byte seed. unfold pap_generate. rewrite R by (try exact id_shuffle; lia).
  change (rules_of (state_of rules74p)) with rules74p. set (rnd := source (find_seed seed byte)). unfold generate.
  assert (C : check_can_generate (10 + en) rules74p "a" = inr (mkRule "a" [[Rep 17 inf (EChar false [120])]])) by (vm_compute; reflexivity).
  rewrite C. set (f := (9 + en)%nat). change (10 + en)%nat with (Datatypes.S f). cbn [gen_alt rule_alt]. unfold gen_alt_with. cbn [length g_tick].
  change (Z.of_nat 1) with 1. rewrite Z.rem_1_r. reflexivity.
Qed.

(** *** Cases *)
Definition ds67 : list (rule * bool) := map (fun r => (r, false)) rules67.
Lemma gives67 rs : gives ds67 rs -> forall r, In r rs -> In r rules67.
Proof.
  intros [_ R] r I. apply R in I as (d & I & N & A). destruct r as [n a]. cbn [rule_name rule_alt] in *. subst n a. cbn [ds67 rules67 map In] in I.
  destruct I as [E|[E|[]]]; injection E as <-; [left|right; left]; vm_compute; reflexivity.
Qed.
Lemma occ67 rs x : gives ds67 rs -> occ_rep rs x -> occ_rep rules67 x.
Proof.
  intros G Oc. destruct x as [mn mx e]. apply Occ.occ_rep_in in Oc as (r & I & Ri). apply Occ.occ_rep_in. exists r. split; [|exact Ri].
  apply in_app_iff in I as [I|I]; apply in_app_iff; [left; exact (gives67 rs G r I)|right; exact I].
Qed.
(** The text of C67_case meets the hypotheses of the theorems above, and the commands print. *)
Example C74_case : text_taken text67 ds67 /\ (forall rs, gives ds67 rs -> generable rs) /\
  (forall rs, gives ds67 rs -> PropRegex.counts_within 1000 rs /\ PropRegex.no_lone_surrogate rs /\ forall v, ~ occ_elem rs (EProse v)) /\
  exists fuel,
    pap_generate id_keys id_order id_rules fuel (fun s t => s + Z.of_nat t) 0 "A" (Some 5) None (Some 9) text67 =
      Printed (bytes "9,Cf,Ob,Kn,Gj,Cf,Ob,Kn,Gj,Cf" ++ [10]) /\
    (exists t, pap_regex id_keys id_order id_rules (fun g => map fst (dependency_graph g)) fuel "A" text67 = Printed t) /\
    pap_validate id_keys id_order id_rules (fun l => l) fuel None text74 =
      Printed (bytes ("a = b" ++ crlf ++ "b = ""x""" ++ crlf)%string ++ [10]).
Proof.
  split; [exact (quiet_taken _ _ (proj1 C67_case))|].
  split. { intros rs G mn mx e Oc. apply (occ67 rs _ G) in Oc. revert mn mx e Oc. change (generable rules67). apply generableb_spec. vm_compute. reflexivity. }
  assert (Gb : forall rs, gives ds67 rs -> generable rs) by (intros rs G mn mx e Oc; apply (occ67 rs _ G) in Oc; revert mn mx e Oc; change (generable rules67); apply generableb_spec; vm_compute; reflexivity).
  split. { intros rs G. destruct (PropRegex.small_facts 1000 rules67 ltac:(vm_compute; reflexivity)) as (_ & A & B). split; [|split].
    - intros r mn mx e I. exact (A r mn mx e (gives67 rs G r I)).
    - intros r mn mx b lo hi v I. exact (B r mn mx b lo hi v (gives67 rs G r I)).
    - intros v Oc. inversion Oc as [mn mx e Or]; subst. exact (proj2 (proj2 (Gb rs G _ _ _ Or))). }
  destruct (rules67_read id_keys id_nkeys) as [en R]. destruct read74 as [en' R']. exists (50 + en + en')%nat.
  assert (R67 : pap_read id_keys id_order id_rules (50 + en + en') [] text67 = PA_ok state67) by (apply R; [lia|exact id_shuffle]).
  specialize (R' (50 + en + en')%nat id_rules ltac:(lia) id_shuffle). clear R.
  split. { unfold pap_generate. rewrite R67. clear R67 R'. vm_compute. reflexivity. }
  split. { unfold pap_regex. rewrite R67. clear R67 R'. eexists. vm_compute. reflexivity. }
  unfold pap_validate. rewrite R'. clear R67 R'. vm_compute. reflexivity.
Qed.

Print Assumptions C75_options_settle.
Print Assumptions C75_same_options.
Print Assumptions C74_validate.
Print Assumptions C74_not_a_text.
Print Assumptions C74_output_refused.
Print Assumptions C74_generate_partial.
Print Assumptions C74_generate_reproducible.
Print Assumptions C74_unseeded.
Print Assumptions C74_regex_partial.
Print Assumptions C74_graph.
Print Assumptions C74_flags_refuted.
Print Assumptions C74_flag_values_ignored.
Print Assumptions C74_generate_panics_refuted.
