(** C26, C27 and C28: ASTGenerator. *)
(** The definitions here are those of statements, proofs and examples; they model no code. *)
From Coq Require Import ZArith Arith String Ascii Bool Relations List Lia.
From Verif Require Import Syntax Spec Utf8 Num Term Printer Check PropTerm Slots Deps LowerLang Errors Furthest PropSem PropGll TreeSpec TreeSound Occ PropDag LeftRec RecogGlue PropRecog Tape Generate PropGenerate Ast AstSpec AstProof AstCost AstVisit AstTerm.
Import ListNotations.
Local Open Scope string_scope.
Local Open Scope list_scope.
Local Open Scope Z_scope.

Definition one (e : elem) : rep := Rep 1 1 e.
Definition x_ : elem := EChar false [120].
Definition id_order : nat -> list rule -> list rule := fun _ l => l.
Lemma id_any : any_order id_order. Proof. intros t l x. reflexivity. Qed.

Lemma new_ok_inv fuel ord g n start m : new_ast fuel ord g n = New_ok start m ->
  get_rule n g = Some start /\ cost_loop fuel g ord 0 (initial_costs g) = Some m /\ too_costly m (rule_name start) = false /\
  exists seen, visit_alt fuel g m [rule_name start] (rule_alt start) = V_ok seen.
Proof.
  unfold new_ast. destruct (get_rule n g) as [r|]; [|discriminate]. destruct (cost_loop fuel g ord 0 (initial_costs g)) as [m'|]; [|discriminate].
  destruct (too_costly m' (rule_name r)) eqn:T; [discriminate|]. destruct (visit_alt fuel g m' [rule_name r] (rule_alt r)) eqn:V; try discriminate.
  intros E. injection E as <- <-. split; auto. split; auto. split; eauto.
Qed.

(** ** C26 *)
(** Missing for the full statement: surrogates in ranges, series that are not of
    characters and reversed bounds, all refuted below ([emittable] excludes them,
    and prose-vals). *)
Theorem C26_generator_in_language_partial :
  forall fuel0 ord g rulename start m fuel max_depth max_len max_repeat (S_ : Type) (intn : Z -> S_ -> Z * S_) src s,
  distinct_names g -> lex_grammar g = true -> emittable g -> draws_ok intn ->
  new_ast fuel0 ord g rulename = New_ok start m ->
  ast_walk fuel g start m max_depth max_len max_repeat intn src = A_ok s ->
  Lang g rulename (a_out s).
Proof.
  intros fuel0 ord g n start m fuel md ml mr S_ intn src s Dn L Em Dr N W. apply new_ok_inv in N as (G & _).
  destruct (lex_facts g L) as (Alt & _). apply (lang_user g n start _ Dn G).
  unfold ast_walk in W. apply ast_alt_lang in W as (w & E & Lw); auto; [|apply occ_alt_reps; eapply occ_alt_rule; eauto|eapply Alt, occ_alt_rule; eauto].
  cbn [a_out app] in E. rewrite E. exact Lw.
Qed.
(** The same for the tapes of Generate. *)
Theorem C26_generate_tape_in_language_partial :
  forall fuel0 ord g rulename start m fuel max_depth max_len max_repeat tape s,
  distinct_names g -> lex_grammar g = true -> emittable g ->
  new_ast fuel0 ord g rulename = New_ok start m ->
  ast_generate fuel g start m max_depth max_len max_repeat tape = A_ok s ->
  Lang g rulename (a_out s).
Proof. intros. eapply C26_generator_in_language_partial; eauto using tape_draw_ok. Qed.

(** expr = term *("+" term)   term = 1*DIGIT / "(" expr ")" / [%s"Log"] %x61-7A *)
Definition g26 : grammar :=
  [mkRule "expr" [[one (ERule "term"); Rep 0 inf (EGroup [[one (EChar false [43]); one (ERule "term")]])]];
   mkRule "term" [[Rep 1 inf (ERule "digit")]; [one (EChar false [40]); one (ERule "EXPR"); one (EChar false [41])];
                  [one (EOption [[one (EChar true [76; 111; 103])]]); one (ENum "x" StatRange ["61"; "7A"])]]].
Definition emitsb (e : elem) : bool :=
  match e with
  | EChar _ vs => forallb valid_rune vs
  | ENum b StatSeries es => forallb (fun s => match numeral b s with Some v => valid_rune v | None => false end) es
  | ENum b StatRange [lo; hi] =>
      match numeral b lo, numeral b hi with
      | Some l, Some h => (l <=? h) && (l <=? 0x10FFFF) && ((Z.min h 0x10FFFF <? 0xD800) || (0xDFFF <? l))
      | _, _ => false
      end
  | ENum _ StatRange _ => false
  | EProse _ => false
  | _ => true
  end.
Definition emittableb (g : grammar) : bool :=
  forallb (fun x => (0 <=? rep_min x) && ((rep_max x =? inf) || (rep_min x <=? rep_max x)) && emitsb (rep_elem x)) (grammar_reps g).
Lemma emittableb_spec g : emittableb g = true -> emittable g.
Proof.
  unfold emittableb. rewrite forallb_forall. intros H mn mx e O. apply occ_rep_listed in O. specialize (H _ O). cbn [rep_min rep_max rep_elem] in H.
  apply andb_true_iff in H as [H He]. apply andb_true_iff in H as [H1 H2]. apply Z.leb_le in H1. split; auto.
  split; [apply orb_true_iff in H2; rewrite Z.eqb_eq, Z.leb_le in H2; auto|]. clear -He.
  destruct e as [n|a|a|s vs|b st es|v]; cbn [emits emitsb] in *; auto; try discriminate.
  - rewrite forallb_forall in He. apply Forall_forall. intros v V. apply valid_rune_scalar. auto.
  - destruct st.
    + rewrite forallb_forall in He. apply Forall_forall. intros x X. specialize (He x X). destruct (numeral b x) as [v|]; [|discriminate].
      exists v. split; auto. apply valid_rune_scalar. auto.
    + destruct es as [|lo [|hi [|? ?]]]; try discriminate. destruct (numeral b lo) as [l|] eqn:El; [|discriminate].
      destruct (numeral b hi) as [h|]; [|discriminate]. exists l, h. apply andb_true_iff in He as [He Hs]. apply andb_true_iff in He as [Ha Hb].
      apply Z.leb_le in Ha, Hb. apply orb_true_iff in Hs. rewrite !Z.ltb_lt in Hs. apply numeral_nonneg in El.
      split; auto. split; auto. split; auto. split; auto. intros r R. unfold scalar. lia.
Qed.
Example C26_case : distinct_names g26 /\ lex_grammar g26 = true /\ emittable g26 /\
  exists start m s, new_ast 30 id_order g26 "Expr" = New_ok start m /\
    ast_generate 60 g26 start m 32 4096 16 [2; 1; 1; 3; 4; 1; 1; 7] = A_ok s /\ a_out s = bytes "Logb+((((0))))+0+0".
Proof.
  split; [apply wf_distinct; vm_compute; reflexivity|]. split; [reflexivity|]. split; [apply emittableb_spec; vm_compute; reflexivity|].
  eexists _, _, _. split; [vm_compute; reflexivity|]. split; [vm_compute; reflexivity|]. vm_compute. reflexivity.
Qed.

(** a = %xD7FF-E000 is accepted, and the values between its bounds are drawn
    uniformly: 1 gives a surrogate, written as U+FFFD. *)
Theorem C26_generator_in_language_refuted_surrogate : exists g rulename start m tape s,
  semval_abnf g g g = None /\ lex_grammar g = true /\ new_ast 30 id_order g rulename = New_ok start m /\
  ast_generate 30 g start m 32 4096 16 tape = A_ok s /\ ~ Lang g rulename (a_out s).
Proof.
  exists g_surr, "a", (mkRule "a" [[one (ENum "x" StatRange ["D7FF"; "E000"])]]). eexists. exists [0; 1]. eexists.
  split; [vm_compute; reflexivity|]. split; [reflexivity|]. split; [vm_compute; reflexivity|]. split; [vm_compute; reflexivity|].
  intros H.
  apply (lang_user g_surr "a" (mkRule "a" [[one (ENum "x" StatRange ["D7FF"; "E000"])]])) in H;
    [|apply wf_distinct; vm_compute; reflexivity|reflexivity].
  inversion H as [c a w I C]; subst. destruct I as [<-|[]]. apply in_single in C.
  inversion C as [| | | | | |b lo hi l h r N1 N2 B Sc E1 E2]. subst b lo hi. cbn in N1, N2. injection N1 as <-. injection N2 as <-.
  assert (X : utf8 r = utf8 0xFFFD) by (rewrite E2; reflexivity).
  apply utf8_inj in X; [|auto|unfold scalar; lia]. subst r. lia.
Qed.

(** a = 5*3"x" is accepted and written five times. *)
Definition g_rev : grammar := [mkRule "a" [[Rep 5 3 x_]]].
Theorem C26_generator_in_language_refuted_bounds : exists g rulename start m s,
  lex_grammar g = true /\ new_ast 30 id_order g rulename = New_ok start m /\
  ast_generate 30 g start m 32 4096 16 [] = A_ok s /\ ~ Lang g rulename (a_out s).
Proof.
  exists g_rev, "a", (mkRule "a" [[Rep 5 3 x_]]). eexists. eexists.
  split; [reflexivity|]. split; [vm_compute; reflexivity|]. split; [vm_compute; reflexivity|].
  intros H.
  apply (lang_user g_rev "a" (mkRule "a" [[Rep 5 3 x_]])) in H; [|apply wf_distinct; vm_compute; reflexivity|reflexivity].
  inversion H as [c a w I C]; subst. destruct I as [<-|[]]. inversion C as [|r c w1 w2 R _]; subst.
  inversion R as [mn mx e k w L1 L2 _]; subst. destruct L2 as [L2|L2]; [discriminate|lia].
Qed.

(** ** C27 *)
Lemma visit_good fuel g ord n start m : any_order ord -> new_ast fuel ord g n = New_ok start m ->
  exists seen, In (rule_name start) seen /\
    forall r, In r (effective g) -> In (rule_name r) seen -> too_costly m (rule_name r) = false /\ forall n', refers (rule_alt r) n' -> found g seen n'.
Proof.
  intros Ord N. apply new_ok_inv in N as (G & E & T & seen & V). pose proof (visit_post g m fuel [rule_name start] (rule_alt start)) as (P & _).
  destruct (P seen V) as (P1 & P2 & P3 & _). exists seen. split; [apply P1; left; auto|].
  intros r I Is. destruct (string_dec (rule_name start) (rule_name r)) as [En|Nn].
  - assert (r = start) as ->; [|split; auto]. pose proof (effective_get _ _ I) as G1. pose proof (effective_in _ _ _ G) as I2.
    pose proof (effective_get _ _ I2). congruence.
  - apply P3; auto. intros [?|[]]. auto.
Qed.
Lemma too_costly_get g m r : covers g m -> In r (effective g) -> too_costly m (rule_name r) = false ->
  exists v, cost_get m (rule_name r) = Some v /\ v < unbounded.
Proof.
  intros C I T. destruct (C r I) as (v & E). exists v. split; auto. unfold too_costly in T. rewrite E in T. apply Z.leb_gt. auto.
Qed.

(** Missing for the full statement: repetition counts over 2^33, for which the
    cost may wrap around (refuted below). *)
Theorem C27_generation_ends_partial :
  forall fuel0 ord g rulename start m max_depth max_len max_repeat (S_ : Type) (intn : Z -> S_ -> Z * S_),
  lex_grammar g = true -> (forall mn mx e, occ_rep g (Rep mn mx e) -> mn <= 2 ^ 33) -> any_order ord -> draws_ok intn ->
  new_ast fuel0 ord g rulename = New_ok start m ->
  exists F, forall fuel src, (F <= fuel)%nat -> exists s, ast_walk fuel g start m max_depth max_len max_repeat intn src = A_ok s.
Proof.
  intros fuel0 ord g n start m md ml mr S_ intn L Sm Ord Dr N. destruct (lex_facts g L) as (Alt & Two & Bd).
  destruct (visit_good _ _ _ _ _ _ Ord N) as (seen & Is & Cl). apply new_ok_inv in N as (G & E & _).
  assert (Small : forall mn mx e, occ_rep g (Rep mn mx e) -> 0 <= mn <= 2 ^ 33) by (intros mn mx e O; split; eauto).
  pose proof (loop_table g Small _ _ _ Ord E) as T.
  destruct (initial_ok g) as (I1 & I2 & _). apply (loop_kept g ord Ord (fun _ => True)) in E as (_ & K & C & _); auto.
  destruct (level_ends g m md ml mr S_ intn Dr Alt) with (Good := found g seen) (k := Z.to_nat md) (n := n) (r := start) as (F & HF); auto.
  - intros b es O. apply Two in O. destruct es as [|lo [|hi [|? ?]]]; try discriminate. eauto.
  - intros n' (r & G' & I'). destruct (Cl r (effective_in _ _ _ G') I') as [Tc Q].
    destruct (too_costly_get g m r C (effective_in _ _ _ G') Tc) as (v & Ev & Lv). exists r, v. auto.
  - exists start. auto.
  - exists F. intros fuel src Lf. destruct (HF fuel Lf 0 (mkA [] src)) as (s & Es & _); [right; lia|]. exists s. exact Es.
Qed.
Theorem C27_generate_tape_ends_partial :
  forall fuel0 ord g rulename start m max_depth max_len max_repeat,
  lex_grammar g = true -> (forall mn mx e, occ_rep g (Rep mn mx e) -> mn <= 2 ^ 33) -> any_order ord ->
  new_ast fuel0 ord g rulename = New_ok start m ->
  exists F, forall fuel tape, (F <= fuel)%nat -> exists s, ast_generate fuel g start m max_depth max_len max_repeat tape = A_ok s.
Proof.
  intros fuel0 ord g n start m md ml mr L Sm Ord N.
  destruct (C27_generation_ends_partial fuel0 ord g n start m md ml mr _ tape_draw L Sm Ord tape_draw_ok N) as (F & H).
  exists F. intros fuel tape Lf. apply H. auto.
Qed.
Definition small_minsb (g : grammar) : bool := forallb (fun x => rep_min x <=? 2 ^ 33) (grammar_reps g).
Lemma small_minsb_spec g : small_minsb g = true -> forall mn mx e, occ_rep g (Rep mn mx e) -> mn <= 2 ^ 33.
Proof. unfold small_minsb. rewrite forallb_forall. intros H mn mx e O. apply occ_rep_listed in O. specialize (H _ O). apply Z.leb_le in H. exact H. Qed.
Example C27_case : lex_grammar g26 = true /\ (forall mn mx e, occ_rep g26 (Rep mn mx e) -> mn <= 2 ^ 33) /\
  exists start m, new_ast 30 id_order g26 "expr" = New_ok start m.
Proof.
  split; [reflexivity|]. split; [apply small_minsb_spec; vm_compute; reflexivity|]. eexists _, _. vm_compute. reflexivity.
Qed.

(** a = "xxxx" / 4611686018427387904("xxx" a): the cost of the second alternative
    wraps around to 0, so it is the one taken when generation should stop. *)
Definition c27 : concatenation := [Rep 4611686018427387904 4611686018427387904 (EGroup [[one (EChar false [120; 120; 120]); one (ERule "a")]])].
Definition g27 : grammar := [mkRule "a" [[one (EChar false [120; 120; 120; 120])]; c27]].
Definition r27 : rule := mkRule "a" [[one (EChar false [120; 120; 120; 120])]; c27].
Definition m27 : costs := match cost_loop 30 g27 id_order 0 (initial_costs g27) with Some m => m | None => [] end.

Lemma loop_fuel g md ml S_ (intn : Z -> S_ -> Z * S_) rec k i lo e d s : (0 < k)%nat ->
  ast_elem g md ml S_ intn rec e d s = A_fuel -> ast_loop g md ml S_ intn rec k i lo e d s = A_fuel.
Proof. intros L E. destruct k as [|k]; [lia|]. cbn [ast_loop]. rewrite E. reflexivity. Qed.

Lemma c27_fuel md ml mr S_ (intn : Z -> S_ -> Z * S_) rec d s :
  (forall s, rec [[one (EChar false [120; 120; 120]); one (ERule "a")]] d s = A_fuel) ->
  ast_cat g27 md ml mr S_ intn rec c27 d s = A_fuel.
Proof.
  intros H. unfold c27. cbn [ast_cat]. unfold ast_rep. change (4611686018427387904 =? inf) with false. rewrite Z.ltb_irrefl. cbn [orb].
  rewrite Z.ltb_irrefl, andb_false_r.
  rewrite loop_fuel; [reflexivity| |].
  - apply Nat2Z.inj_lt. rewrite Z2Nat.id by lia. lia.
  - cbn [ast_elem]. apply H.
Qed.
Lemma rep_one g md ml mr S_ (intn : Z -> S_ -> Z * S_) rec e d s :
  ast_rep g md ml mr S_ intn rec (one e) d s = ast_elem g md ml S_ intn rec e d s.
Proof.
  unfold one, ast_rep. change (1 =? inf) with false. rewrite Z.ltb_irrefl. cbn [orb]. cbv zeta. rewrite Z.ltb_irrefl, andb_false_r.
  change (Z.to_nat 1) with 1%nat. cbn [ast_loop]. destruct (ast_elem g md ml S_ intn rec e d s) as [s'| |]; auto. destruct (_ && _); auto.
Qed.
Lemma cat27_fuel md ml mr S_ (intn : Z -> S_ -> Z * S_) rec d s : (forall s, rec (rule_alt r27) (d + 1) s = A_fuel) ->
  ast_cat g27 md ml mr S_ intn rec [one (EChar false [120; 120; 120]); one (ERule "a")] d s = A_fuel.
Proof.
  intros H. cbn [ast_cat]. rewrite rep_one. change (ast_elem g27 md ml S_ intn rec (EChar false [120; 120; 120]) d s) with (A_ok (gen_chars S_ intn false [120; 120; 120] s)).
  cbv beta iota. rewrite rep_one. unfold ast_elem. change (get_rule "a" g27) with (Some r27). cbv beta iota. rewrite H. reflexivity.
Qed.

(** Whatever the options and the state, over the budget or drawing 1. *)
Lemma g27_fuel md ml mr S_ (intn : Z -> S_ -> Z * S_) :
  (md <= 0 \/ forall n s, fst (intn n s) = 1) -> forall fuel a d s, 0 <= d ->
  (a = rule_alt r27 \/ a = [[one (EChar false [120; 120; 120]); one (ERule "a")]]) ->
  ast_alt fuel g27 m27 md ml mr intn a d s = A_fuel.
Proof.
  intros Hs fuel. induction fuel as [|f IH]; intros a d s Hd Ha; [reflexivity|]. cbn [ast_alt]. destruct Ha as [-> | ->].
  - assert (X : exists s1, ast_alt_with g27 m27 md ml mr S_ intn (ast_alt f g27 m27 md ml mr intn) (rule_alt r27) d s =
      ast_cat g27 md ml mr S_ intn (ast_alt f g27 m27 md ml mr intn) c27 d s1).
    { unfold ast_alt_with. cbn [rule_alt r27]. destruct (over md ml S_ s d) eqn:O.
      - exists s. change (cheapest g27 m27 [[one (EChar false [120; 120; 120; 120])]; c27]) with 1%nat. reflexivity.
      - cbn [length Nat.ltb Nat.leb]. destruct Hs as [Hs|Hs].
        + unfold over in O. apply orb_false_iff in O as [O _]. apply Z.leb_gt in O. lia.
        + specialize (Hs (Z.of_nat 2) (a_src s)). destruct (intn (Z.of_nat 2) (a_src s)) as [k src]. cbn [fst] in Hs. subst k.
          exists (mkA (a_out s) src). reflexivity. }
    destruct X as (s1 & ->). apply c27_fuel. intros s2. apply IH; auto.
  - unfold ast_alt_with. cbn [length Nat.ltb Nat.leb].
    change (cheapest g27 m27 [[one (EChar false [120; 120; 120]); one (ERule "a")]]) with 0%nat.
    destruct (over md ml S_ s d); cbn [nth_error]; apply cat27_fuel; intros s2; apply IH; auto; lia.
Qed.
Theorem C27_generation_ends_refuted : exists g rulename start m,
  lex_grammar g = true /\ semval_abnf g g g = None /\ new_ast 30 id_order g rulename = New_ok start m /\
  (forall fuel max_len max_repeat tape, ast_generate fuel g start m 0 max_len max_repeat tape = A_fuel) /\
  (forall fuel max_depth max_len max_repeat, ast_walk fuel g start m max_depth max_len max_repeat (fun _ (s : unit) => (1, s)) tt = A_fuel).
Proof.
  exists g27, "a", r27, m27. split; [reflexivity|]. split; [vm_compute; reflexivity|]. split; [vm_compute; reflexivity|]. split.
  - intros. apply g27_fuel; [left; lia|lia|auto].
  - intros. apply g27_fuel; [right; intros; reflexivity|lia|auto].
Qed.

(** ** C28 *)
(** NewASTGenerator ends. *)
Theorem C28_new_ends : forall ord g rulename, any_order ord -> exists F, forall fuel, (F <= fuel)%nat -> new_ast fuel ord g rulename <> New_fuel.
Proof.
  intros ord g n Ord. destruct (initial_ok g) as (K & C & N).
  exists (Datatypes.S (max (Z.to_nat (total_cost (initial_costs g))) (length (effective g)))). intros fuel L. unfold new_ast.
  destruct (get_rule n g) as [r|] eqn:G; [|discriminate].
  destruct (loop_ends g ord Ord fuel 0 (initial_costs g) K C N) as (m & E); [lia|]. rewrite E.
  destruct (too_costly m (rule_name r)); [discriminate|].
  pose proof (visit_post g m fuel [rule_name r] (rule_alt r)) as (_ & _ & P).
  destruct (visit_alt fuel g m [rule_name r] (rule_alt r)); try discriminate. exfalso. apply P; auto; [|cbn [length]; lia].
  split; [repeat constructor; intros []|]. intros x [<-|[]]. apply in_map. eapply effective_in; eauto.
Qed.

(** What it accepts: every rule reachable is defined and has a finite derivation. *)
Theorem C28_accepted_is_productive_partial : forall fuel ord g rulename start m,
  distinct_names g -> lex_grammar g = true -> bounds_ordered g ->
  (forall e, occ_elem g e -> terminal e -> exists w, in_elem g e w) -> any_order ord ->
  new_ast fuel ord g rulename = New_ok start m ->
  forall n, leads_to g rulename n -> exists k, size_elem g (ERule n) k.
Proof.
  intros fuel ord g n0 start m Dn L Bo Tm Ord N n Lt. destruct (lex_facts g L) as (Alt & _ & _).
  destruct (visit_good _ _ _ _ _ _ Ord N) as (seen & Is & Cl). apply new_ok_inv in N as (G & E & _).
  destruct (loop_sound g Alt (bounds_facts g L Bo) Tm _ _ _ Ord E) as (T & K & C & _).
  assert (F : found g seen n).
  { assert (F0 : found g seen n0) by (exists start; auto). clear G Is. apply clos_rt_rt1n in Lt. induction Lt as [|x y z (a & R & Rf) _ IH]; auto.
    apply IH. destruct F0 as (r & G & I). destruct (get_rule_resolves g x Dn) as [_ B]. destruct (B a R) as (r' & G' & <-).
    rewrite G in G'. injection G' as <-. apply (Cl r); auto. eapply effective_in; eauto. }
  destruct F as (r & Gr & Ir). pose proof (effective_in _ _ _ Gr) as Ie. destruct (Cl r Ie Ir) as [Tc _].
  destruct (too_costly_get g m r C Ie Tc) as (v & Ev & Lv). destruct (T r v Ie Ev Lv) as (k & Hk). exists (1 + k).
  econstructor; [|exact Hk]. apply (get_rule_resolves g n Dn). eauto.
Qed.

(** What it does not reject: every rule reachable has a derivation of at most
    2^30 bytes and rules. *)
Theorem C28_productive_is_accepted_partial : forall ord g rulename,
  distinct_names g -> lex_grammar g = true -> any_order ord ->
  (forall n, leads_to g rulename n -> exists k, size_elem g (ERule n) k /\ k <= 2 ^ 30) ->
  exists F, forall fuel, (F <= fuel)%nat -> exists start m, new_ast fuel ord g rulename = New_ok start m.
Proof.
  intros ord g n0 Dn L Ord H. destruct (lex_facts g L) as (Alt & _ & Bd). destruct (C28_new_ends ord g n0 Ord) as (F & HF). exists F.
  intros fuel Lf. specialize (HF fuel Lf). unfold new_ast in *.
  destruct (initial_ok g) as (I1 & I2 & _).
  assert (Def : forall n, leads_to g n0 n -> exists r, get_rule n g = Some r).
  { intros n Ln. destruct (H n Ln) as (k & Hk & _). inversion Hk as [? a k' R _| | | |e w T|]; subst; [|contradiction].
    destruct (proj2 (get_rule_resolves g n Dn) a R) as (r & G & _). eauto. }
  destruct (Def n0 (rt_refl _ _ _)) as (start & G). rewrite G in *.
  destruct (cost_loop fuel g ord 0 (initial_costs g)) as [m|] eqn:E; [|congruence].
  apply (loop_kept g ord Ord (fun _ => True)) in E as (_ & K & C & Fx); auto.
  assert (Gd : good_closed g m (leads_to g n0)).
  { intros n Ln. destruct (Def n Ln) as (r & Gr). exists r. split; auto. pose proof (effective_in _ _ _ Gr) as Ie. split.
    - destruct (H n Ln) as (k & Hk & Lk). inversion Hk as [? a k' R Sa| | | |e w T|]; subst; [|contradiction].
      destruct (proj2 (get_rule_resolves g n Dn) a R) as (r' & G' & Ea). rewrite Gr in G'. injection G' as <-. subst a.
      destruct (size_cost g Dn Bd m K C Fx) as (_ & Sc & _). specialize (Sc _ _ Sa (occ_alt_rule _ _ _ Gr)).
      destruct (C r Ie) as (v & Ev). pose proof (Fx r v Ie Ev). unfold too_costly. rewrite Ev. apply Z.leb_gt. unfold unbounded. lia.
    - intros n' Rf. eapply rt_trans; [exact Ln|]. apply rt_step. exists (rule_alt r). split; auto.
      apply (get_rule_resolves g n Dn). eauto. }
  destruct (Gd n0 (rt_refl _ _ _)) as (start' & G' & Tc & Rf). rewrite G in G'. injection G' as <-. rewrite Tc in *.
  pose proof (visit_post g m fuel [rule_name start] (rule_alt start)) as (_ & P & _).
  destruct (P _ Gd Rf) as [(seen & ->)|Ev]; [eauto|]. rewrite Ev in HF. congruence.
Qed.

(** A finite derivation without prose is that of a word. *)
Theorem C28_derivation_is_word : forall g n, (forall v, ~ occ_elem g (EProse v)) ->
  ((exists k, size_elem g (ERule n) k) <-> exists w, Lang g n w).
Proof.
  intros g n Np.
  assert (Oc : forall r a, resolves g n a -> In r (g ++ core_rules) -> rule_alt r = a -> occ_alt g a) by (intros r a _ I <-; left; exists r; auto).
  split.
  - assert (X : (forall e k, size_elem g e k -> (forall v, e = EProse v -> False) -> (forall a, e = EGroup a \/ e = EOption a -> occ_alt g a) -> exists w, in_elem g e w) /\
      (forall a k, size_alt g a k -> occ_alt g a -> exists w, in_alt g a w) /\
      (forall c k, size_cat g c k -> (forall x, In x c -> occ_rep g x) -> exists w, in_cat g c w) /\
      (forall e n k, size_pow g e n k -> (forall v, e = EProse v -> False) -> (forall a, e = EGroup a \/ e = EOption a -> occ_alt g a) -> exists w, in_pow g e n w)).
    { apply size_ind4.
      - intros n' a k R _ IH _ _. destruct IH as (w & W); [|exists w; econstructor; eauto].
        destruct R as [(r & I & _ & <-)|(_ & r & I & _ & <-)]; left; exists r; split; auto; apply in_app_iff; auto.
      - intros a k _ IH _ O. destruct (IH (O a (or_introl eq_refl))) as (w & W). exists w. constructor. auto.
      - intros a _ _. exists []. constructor.
      - intros a k _ IH _ O. destruct (IH (O a (or_intror eq_refl))) as (w & W). exists w. apply in_option_some. auto.
      - intros e w _ W _ _. eauto.
      - intros v H. exfalso. eapply H. eauto.
      - intros c a k C _ IH O. destruct IH as (w & W); [intros x X; eapply occ_alt_reps; eauto|]. exists w. econstructor; eauto.
      - intros _. exists []. constructor.
      - intros mn mx e c k n1 n2 L1 L2 _ IH1 _ IH2 O. pose proof (O _ (or_introl eq_refl)) as Or. pose proof (occ_elem_rep _ _ _ _ Or) as Oe.
        destruct IH1 as (w1 & W1); [intros v ->; apply (Np v); auto|intros a [->| ->]; right; auto|].
        destruct IH2 as (w2 & W2); [intros x X; apply O; right; auto|]. exists (w1 ++ w2). constructor; auto. econstructor; eauto.
      - intros e _ _. exists []. constructor.
      - intros e k n1 n2 _ IH1 _ IH2 H O. destruct (IH1 H O) as (w1 & W1). destruct (IH2 H O) as (w2 & W2). exists (w1 ++ w2). constructor; auto. }
    intros (k & Hk). destruct X as (X & _). apply (X _ _ Hk); [intros v E; discriminate|intros a [E|E]; discriminate].
  - assert (X : (forall e w, in_elem g e w -> exists k, size_elem g e k) /\ (forall a w, in_alt g a w -> exists k, size_alt g a k) /\
      (forall c w, in_cat g c w -> exists k, size_cat g c k) /\
      (forall r w, in_rep g r w -> exists n k, rep_min r <= Z.of_nat n /\ (rep_max r = inf \/ Z.of_nat n <= rep_max r) /\ size_pow g (rep_elem r) n k) /\
      (forall e n w, in_pow g e n w -> exists k, size_pow g e n k)).
    { apply lang_mut.
      - intros n' a w R _ (k & K). exists (1 + k). econstructor; eauto.
      - intros a w _ (k & K). exists k. constructor. auto.
      - intros a. exists 0. constructor.
      - intros a w _ (k & K). exists k. apply sz_option_some. auto.
      - intros s vs rs F Sc. eexists. apply sz_term; [exact Logic.I|constructor; eauto].
      - intros b ns rs F Sc. eexists. apply sz_term; [exact Logic.I|constructor; eauto].
      - intros b lo hi l h r N1 N2 B Sc. eexists. apply sz_term; [exact Logic.I|econstructor; eauto].
      - intros c a w C _ (k & K). exists k. econstructor; eauto.
      - exists 0. constructor.
      - intros [mn mx e] c w1 w2 _ (n1 & k & L1 & L2 & K) _ (k' & K'). exists (k + k'). econstructor; eauto.
      - intros mn mx e n1 w L1 L2 _ (k & K). exists n1, k. auto.
      - intros e. exists 0. constructor.
      - intros e n1 w1 w2 _ (k & K) _ (k' & K'). exists (k + k'). constructor; auto. }
    intros (w & W). destruct X as (X & _). eapply X. exact W.
Qed.

Lemma emits_word g e : emits e -> terminal e -> exists w, in_elem g e w.
Proof.
  intros R T. destruct e as [n|a|a|sens vs|b st es|v]; try contradiction; cbn [emits] in R.
  - exists (utf8s vs). constructor; auto. clear. induction vs; constructor; auto. destruct sens; reflexivity.
  - destruct st.
    + assert (X : exists rs, Forall2 (fun s v => numeral b s = Some v) es rs /\ Forall scalar rs).
      { clear -R. induction R as [|s es (v & Nv & Sv) R (rs & F & S)]; [exists []; auto|]. exists (v :: rs). split; constructor; auto. }
      destruct X as (rs & F & S). exists (utf8s rs). constructor; auto.
    + destruct es as [|lo [|hi [|? ?]]]; try contradiction. destruct R as (l & h & Nl & Nh & L1 & L2 & Sc).
      exists (utf8 l). econstructor; eauto; [lia|]. apply Sc. lia.
Qed.

Lemma g26_names n : leads_to g26 "expr" n -> In (lower n) ["expr"; "term"; "digit"].
Proof.
  intros Lt. apply clos_rt_rtn1 in Lt. induction Lt as [|y z (a & R & Rf) _ IH]; [left; reflexivity|].
  destruct (get_rule_resolves g26 y ltac:(apply wf_distinct; vm_compute; reflexivity)) as [_ B]. destruct (B a R) as (r & G & <-).
  rewrite (LowerLang.get_rule_lower y (lower y) g26) in G by (symmetry; apply lower_lower).
  assert (D : In (lower z) (get_dependencies (rule_alt r))) by (apply get_dependencies_spec; eauto).
  destruct IH as [E|[E|[E|[]]]]; rewrite <- E in G; vm_compute in G; injection G as <-; vm_compute in D; cbn; tauto.
Qed.
Example C28_case : distinct_names g26 /\ lex_grammar g26 = true /\ bounds_ordered g26 /\
  (forall e, occ_elem g26 e -> terminal e -> exists w, in_elem g26 e w) /\
  (forall v, ~ occ_elem g26 (EProse v)) /\
  (exists start m, new_ast 30 id_order g26 "expr" = New_ok start m) /\
  (forall n, leads_to g26 "expr" n -> exists k, size_elem g26 (ERule n) k /\ k <= 2 ^ 30).
Proof.
  assert (Dn : distinct_names g26) by (apply wf_distinct; vm_compute; reflexivity).
  split; auto. split; [reflexivity|].
  assert (Em : emittable g26) by (apply emittableb_spec; vm_compute; reflexivity).
  split; [|split; [|split; [|split]]].
  - destruct (proj1 (C17_semval_exact g26 g26 g26 ltac:(auto) ltac:(auto) (proj2 (wf_grammarb_spec g26 ltac:(vm_compute; reflexivity)))))
      as (_ & B & _); [vm_compute; reflexivity|exact B].
  - intros e O T. inversion O as [mn mx e' Or]; subst. destruct (Em _ _ _ Or) as (_ & _ & R). apply emits_word; auto.
  - intros v O. inversion O as [mn mx e' Or]; subst. destruct (Em _ _ _ Or) as (_ & _ & R). exact R.
  - eexists _, _. vm_compute. reflexivity.
  - assert (Rs : forall n n' r, lower n = n' -> get_rule n' g26 = Some r -> resolves g26 n (rule_alt r)).
    { intros n n' r <- G. apply (get_rule_resolves g26 n Dn).
      rewrite (LowerLang.get_rule_lower n (lower n) g26) by (symmetry; apply lower_lower). auto. }
    assert (Pw : forall e k c k', size_elem g26 e k -> size_cat g26 c k' -> size_cat g26 (Rep 1 inf e :: c) (k + 0 + k') /\ size_cat g26 (Rep 1 1 e :: c) (k + 0 + k')).
    { intros e k c k' A B. split; apply (sz_cons g26 1 _ e c 1); auto; try lia; repeat constructor; auto. }
    assert (D : forall n, lower n = "digit" -> size_elem g26 (ERule n) 2).
    { intros n E. apply (sz_rule g26 n _ 1 (Rs n _ _ E eq_refl)). apply (sz_alt g26 [Rep 1 1 (ENum "x" StatRange ["30"; "39"])]); [left; reflexivity|].
      apply (Pw (ENum "x" StatRange ["30"; "39"]) 1 [] 0); [|constructor].
      apply (sz_term g26 _ [48]); [exact Logic.I|]. apply (in_range g26 "x" "30" "39" 48 57 48); [reflexivity|reflexivity|lia|unfold scalar; lia]. }
    assert (Tm : forall n, lower n = "term" -> size_elem g26 (ERule n) 3).
    { intros n E. apply (sz_rule g26 n _ 2 (Rs n _ _ E eq_refl)). apply (sz_alt g26 [Rep 1 inf (ERule "digit")]); [left; reflexivity|].
      apply (Pw (ERule "digit") 2 [] 0); [apply D; reflexivity|constructor]. }
    assert (Ex : forall n, lower n = "expr" -> size_elem g26 (ERule n) 4).
    { intros n E. apply (sz_rule g26 n _ 3 (Rs n _ _ E eq_refl)). eapply sz_alt; [left; reflexivity|].
      apply (Pw (ERule "term") 3 _ 0); [apply Tm; reflexivity|]. apply (sz_cons g26 0 inf _ [] 0 0 0); [lia|auto|constructor|constructor]. }
    intros n Lt. apply g26_names in Lt as [E|[E|[E|[]]]]; eexists; split; [apply Ex; auto|lia|apply Tm; auto|lia|apply D; auto|lia].
Qed.

(** a = 1073741824"x" derives a word of 2^30 bytes, and is rejected. *)
Definition g28 : grammar := [mkRule "a" [[Rep 1073741824 1073741824 x_]]].
Theorem C28_productive_is_accepted_refuted : exists g rulename,
  distinct_names g /\ lex_grammar g = true /\ semval_abnf g g g = None /\
  (forall n, leads_to g rulename n -> exists w, Lang g n w) /\
  new_ast 30 id_order g rulename = New_unproductive rulename.
Proof.
  exists g28, "a". assert (Dn : distinct_names g28) by (apply wf_distinct; vm_compute; reflexivity).
  split; auto. split; [reflexivity|]. split; [vm_compute; reflexivity|]. split; [|vm_compute; reflexivity].
  intros n Lt. assert (E : lower n = "a").
  { apply clos_rt_rtn1 in Lt. induction Lt as [|y z (a & R & Rf) _ IH]; [reflexivity|].
    destruct (get_rule_resolves g28 y Dn) as [_ B]. destruct (B a R) as (r & G & <-).
    rewrite (LowerLang.get_rule_lower y (lower y) g28) in G by (symmetry; apply lower_lower).
    assert (D : In (lower z) (get_dependencies (rule_alt r))) by (apply get_dependencies_spec; eauto).
    rewrite IH in G. vm_compute in G. injection G as <-. destruct D. }
  assert (X : exists w, in_pow g28 x_ (Z.to_nat 1073741824) w).
  { generalize (Z.to_nat 1073741824). induction n0 as [|k (w & W)]; [exists []; constructor|]. exists (utf8s [120] ++ w). constructor; auto.
    constructor; [repeat constructor|repeat constructor; unfold scalar; lia]. }
  destruct X as (w & W). exists (w ++ []). apply (lang_user g28 n (mkRule "a" [[Rep 1073741824 1073741824 x_]]) _ Dn).
  - rewrite (LowerLang.get_rule_lower n (lower n) g28) by (symmetry; apply lower_lower). rewrite E. reflexivity.
  - econstructor; [left; reflexivity|]. constructor; [|constructor]. apply (in_rep_intro g28 1073741824 1073741824 x_ (Z.to_nat 1073741824)); auto;
    [|right]; rewrite Z2Nat.id by lia; lia.
Qed.

(** a = %xD800 derives nothing, and is accepted. *)
Theorem C28_accepted_is_productive_refuted : exists g rulename start m,
  distinct_names g /\ lex_grammar g = true /\ semval_abnf g g g = None /\
  new_ast 30 id_order g rulename = New_ok start m /\ (forall k, ~ size_elem g (ERule rulename) k) /\ forall w, ~ Lang g rulename w.
Proof.
  exists [mkRule "a" [[one (ENum "x" StatSeries ["D800"])]]], "a". eexists _, _.
  assert (Dn : distinct_names [mkRule "a" [[one (ENum "x" StatSeries ["D800"])]]]) by (apply wf_distinct; vm_compute; reflexivity).
  split; auto. split; [reflexivity|]. split; [vm_compute; reflexivity|]. split; [vm_compute; reflexivity|].
  set (g := [mkRule "a" [[one (ENum "x" StatSeries ["D800"])]]]) in *.
  assert (Nw : forall w, ~ Lang g "a" w).
  { intros w H. apply (lang_user g "a" (mkRule "a" [[one (ENum "x" StatSeries ["D800"])]]) w Dn eq_refl) in H.
    inversion H as [c a w' I C]; subst. destruct I as [<-|[]]. apply in_single in C. inversion C as [| | | | |b ns rs F Sc|]; subst.
    inversion F as [|x r ns rs' N1 F' E1 E2]; subst. cbn in N1. injection N1 as <-. inversion Sc as [|? ? S1 _]; subst. unfold scalar in S1. lia. }
  split; auto. intros k Hk.
  assert (Np : forall v, ~ occ_elem g (EProse v)).
  { intros v O. inversion O as [mn mx e' Or]; subst. apply occ_rep_listed in Or.
    assert (C : forallb (fun x => match rep_elem x with EProse _ => false | _ => true end) (grammar_reps g) = true) by (vm_compute; reflexivity).
    rewrite forallb_forall in C. specialize (C _ Or). discriminate. }
  destruct (proj1 (C28_derivation_is_word g "a" Np) (ex_intro _ k Hk)) as (w & W). exact (Nw w W).
Qed.

Print Assumptions C26_generator_in_language_partial.
Print Assumptions C26_generate_tape_in_language_partial.
Print Assumptions C26_generator_in_language_refuted_surrogate.
Print Assumptions C26_generator_in_language_refuted_bounds.
Print Assumptions C27_generation_ends_partial.
Print Assumptions C27_generate_tape_ends_partial.
Print Assumptions C27_generation_ends_refuted.
Print Assumptions C28_new_ends.
Print Assumptions C28_accepted_is_productive_partial.
Print Assumptions C28_productive_is_accepted_partial.
Print Assumptions C28_derivation_is_word.
Print Assumptions C28_productive_is_accepted_refuted.
Print Assumptions C28_accepted_is_productive_refuted.
