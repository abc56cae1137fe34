(** C42, C43, C44: the parser emitted by GenerateGoParser (codegen.go). *)
(** The definitions here are those of statements, proofs and examples; they model no code. *)
From Coq Require Import ZArith Arith String Ascii Bool List Lia.
From Verif Require Import Syntax Spec Check Utf8 Num Term Printer Slots Gll Bsr BsrProof BsrTerm LowerProof LowerLang LowerBudget Occ PropGll
  Codegen CodegenStmt CodegenProof CodegenGlue GoScope CodegenScope Apart.
From Verif Require RecogCheck PropRegex.
Import ListNotations.
Local Open Scope string_scope.
Local Open Scope list_scope.
Local Open Scope Z_scope.

(** An element of the set of the emitted parser is an element of the interpreter's: its
    slot number is looked up in the emitted table slotInfo. *)
Definition same_elem (pg : program) (ge : gelem) (e : belem) : Prop :=
  exists si, 0 <= ge_sl ge /\ nth_error (pg_info pg) (Z.to_nat (ge_sl ge)) = Some si /\
    be_slot e = mkSlot (si_nt si) (si_alt si) (si_dot si) /\
    ge_l ge = Z.of_nat (be_l e) /\ ge_k ge = Z.of_nat (be_k e) /\ ge_r ge = Z.of_nat (be_r e).

Lemma gen_inv fuel g root pg : generate_go_parser fuel g root = Gen_ok pg ->
  exists sg, compile_slots g root default_max_slots fuel = CS_ok sg /\ emit sg = Some pg.
Proof.
  unfold generate_go_parser. destruct (compile_slots _ _ _ _) as [sg| | |]; try discriminate. destruct (emit sg) as [pg'|] eqn:E; [|discriminate].
  intros X. injection X as <-. eauto.
Qed.

(** ** C42 *)
(** Generation succeeds unless the root is undefined or the lowered grammar is larger
    than the budget of ParseBSR; it never panics. *)
Theorem C42_generates : forall g root fuel, wf_grammar g -> rune_values g -> (S (length g + length core_rules) <= fuel)%nat ->
  match generate_go_parser fuel g root with
  | Gen_ok _ => get_rule root g <> None
  | Gen_rule_not_found => get_rule root g = None
  | Gen_too_large => compile_slots g root default_max_slots fuel = CS_too_large
  | Gen_panic | Gen_fuel => False
  end.
Proof.
  intros g root fuel W Rv F. pose proof (compile_total g default_max_slots root fuel F) as T. unfold generate_go_parser.
  destruct (compile_slots g root default_max_slots fuel) as [sg| | |]; auto. destruct T as [Rt [idx R]].
  destruct (assign_slots sg) as [ids slots] eqn:As. destruct (emit_total sg (compiled_ok g root sg idx R W Rv) ids slots As) as [pg ->]. exact Rt.
Qed.

Lemma run_same fuel g root pg sg input mx gord : wf_grammar g -> rune_values g -> any_order gord ->
  compile_slots g root default_max_slots fuel = CS_ok sg -> emit sg = Some pg -> exists ids slots, assign_slots sg = (ids, slots) /\ sg_ok sg /\ forall fuel',
    match b_parse sg input mx (fun t _ l => nat_order gord t l) fuel' with
    | None => g_parse input mx gord pg fuel' = GP_fuel
    | Some st => vst sg input st /\ g_parse input mx gord pg fuel' = match b_work st with [] => GP_ok (map (ee ids) (b_set st)) | _ => GP_too_large end /\
        (b_work st <> [] -> b_aborted st = true)
    end.
Proof.
  intros W Rv O C E. destruct (compile_ok_represents _ _ _ _ _ C) as [idx R]. pose proof (compiled_ok g root sg idx R W Rv) as Ok.
  destruct (assign_slots sg) as [ids slots] eqn:As. exists ids, slots. split; auto. split; auto. intros fuel'.
  destruct (emit_ok _ _ _ _ As E) as (Inf & Utf & Len & Seed & Comp & St & Qn & Cases).
  apply (parse_sim sg Ok ids slots As input mx (nat_order gord) gord); auto.
  - intros t l x. apply nat_order_any; auto.
  - intros t l. apply nat_order_map. auto.
Qed.
Lemma elem_same sg ids slots pg e : assign_slots sg = (ids, slots) -> pg_info pg = slots -> vslot sg (be_slot e) -> same_elem pg (ee ids e) e.
Proof.
  intros As Inf (p & P & D). pose proof (code_info sg ids slots As _ p P D) as C. eexists. unfold ee. cbn [ge_sl ge_l ge_k ge_r]. unfold cz.
  split; [lia|]. rewrite Nat2Z.id, Inf. split; [exact C|]. cbn [si_nt si_alt si_dot]. split; auto. destruct (be_slot e); reflexivity.
Qed.

(** For every order in which the emitted program may iterate its maps there is an order
    for which the interpreter performs the same run: with the same number of steps it
    ends with the same set, element by element, and the same verdict.  The emitted
    program neither panics nor uses an undeclared variable at run time.  When the
    interpreter reports an exhausted budget the emitted parser may return a result:
    see C43. *)
Theorem C42_same_run : forall gord input mx g root fuel pg, wf_grammar g -> rune_values g -> any_order gord ->
  generate_go_parser fuel g root = Gen_ok pg ->
  exists ord, any_order ord /\ forall fuel', (fuel <= fuel')%nat ->
    match parse_bsr ord fuel' input g root default_max_slots mx with
    | BSR_ok sg set => exists gset, g_parse input mx gord pg fuel' = GP_ok gset /\ Forall2 (same_elem pg) gset set /\
        g_valid pg (length input) gset = Some (bsr_valid sg (length input) set)
    | BSR_forest_too_large => g_parse input mx gord pg fuel' = GP_too_large \/ exists gset, g_parse input mx gord pg fuel' = GP_ok gset
    | BSR_fuel => g_parse input mx gord pg fuel' = GP_fuel
    | BSR_rule_not_found | BSR_grammar_too_large => False
    end.
Proof.
  intros gord input mx g root fuel pg W Rv O G. destruct (gen_inv _ _ _ _ G) as (sg & C & E).
  destruct (run_same fuel g root pg sg input mx gord W Rv O C E) as (ids & slots & As & Ok & Run).
  exists (nat_order gord). split; [apply nat_order_any; auto|]. intros fuel' F. unfold parse_bsr.
  rewrite (compile_mono g root default_max_slots fuel) by (try lia; congruence). rewrite C. specialize (Run fuel').
  destruct (b_parse _ _ _ _ fuel') as [st|]; [|exact Run]. destruct Run as (V & P & A). destruct (b_aborted st) eqn:Ab.
  - destruct (b_work st); eauto.
  - destruct (b_work st) as [|d w]; [|exfalso; assert (X : false = true) by (apply A; discriminate); discriminate].
    destruct (emit_ok _ _ _ _ As E) as (Inf & _). pose proof (v_set _ _ _ V) as Vs. exists (map (ee ids) (b_set st)). split; auto. split.
    + clear -As Inf Vs. induction Vs as [|e l Ve Vs IH]; cbn [map]; constructor; auto. eapply elem_same; eauto.
    + apply (valid_sim sg Ok ids slots As pg E). exact Vs.
Qed.

(** So it decides the language, under the hypotheses C06 needs. *)
Theorem C42_valid_exact_partial : forall gord input g root fuel pg, wf_grammar g -> lex_grammar g = true -> told_apart g -> rune_values g -> any_order gord ->
  generate_go_parser fuel g root = Gen_ok pg ->
  exists enough, forall fuel', (enough <= fuel')%nat ->
    exists gset v, g_parse input 0 gord pg fuel' = GP_ok gset /\ g_valid pg (length input) gset = Some v /\ (v = true <-> Lang g root input).
Proof.
  intros gord input g root fuel pg W Lx Sf Rv O G. destruct (C42_same_run gord input 0 g root fuel pg W Rv O G) as (ord & Oo & H).
  destruct (C07_bsr_terminates ord input g root default_max_slots 0 Oo) as [n N]. exists (Nat.max fuel n). intros fuel' F.
  specialize (H fuel' ltac:(lia)). specialize (N fuel' ltac:(lia)).
  destruct (parse_bsr ord fuel' input g root default_max_slots 0) as [sg set| | | |] eqn:P; try contradiction; try congruence.
  - destruct H as (gset & E & _ & V). exists gset, (bsr_valid sg (length input) set). split; auto. split; auto.
    eapply C06_bsr_valid_exact_partial; eauto.
  - exfalso. unfold parse_bsr in P. destruct (compile_slots _ _ _ _) as [sg| | |]; try discriminate.
    destruct (b_parse _ _ _ _ _) as [st|] eqn:B; [|discriminate]. destruct (b_aborted st) eqn:A; [|discriminate].
    destruct (bsr_abandons _ _ _ _ _ _ B A). lia.
Qed.

(** ** C43 *)
(** The error of the emitted parser is never spurious, and a result that does not fill
    the budget has the right verdict; a positive verdict is always right.  Missing for
    the full statement: a result of exactly MaxElements elements may come from an
    exhausted budget, and its negative verdict may be wrong: see [C43_refuted]. *)
Theorem C43_error_partial : forall gord input mx g root fuel pg fuel', wf_grammar g -> rune_values g -> any_order gord ->
  generate_go_parser fuel g root = Gen_ok pg -> (fuel <= fuel')%nat -> g_parse input mx gord pg fuel' = GP_too_large ->
  exists ord, any_order ord /\ parse_bsr ord fuel' input g root default_max_slots mx = BSR_forest_too_large.
Proof.
  intros gord input mx g root fuel pg fuel' W Rv O G F P. destruct (C42_same_run gord input mx g root fuel pg W Rv O G) as (ord & Oo & H).
  exists ord. split; auto. specialize (H fuel' F). destruct (parse_bsr ord fuel' input g root default_max_slots mx); auto; try contradiction; try congruence.
  destruct H as (gset & E & _). congruence.
Qed.
Theorem C43_result_partial : forall gord input mx g root fuel pg fuel' gset,
  wf_grammar g -> lex_grammar g = true -> told_apart g -> rune_values g -> any_order gord ->
  generate_go_parser fuel g root = Gen_ok pg -> (fuel <= fuel')%nat -> g_parse input mx gord pg fuel' = GP_ok gset ->
  exists v, g_valid pg (length input) gset = Some v /\ (v = true -> Lang g root input) /\
    (mx <= 0 \/ Z.of_nat (length gset) < mx -> Lang g root input -> v = true).
Proof.
  intros gord input mx g root fuel pg fuel' gset W Lx Sf Rv O G F P. destruct (gen_inv _ _ _ _ G) as (sg & C & E).
  destruct (run_same fuel g root pg sg input mx gord W Rv O C E) as (ids & slots & As & Ok & Run). specialize (Run fuel').
  destruct (b_parse sg input mx (fun t _ l => nat_order gord t l) fuel') as [st|] eqn:B; [|congruence]. destruct Run as (V & P' & A). rewrite P in P'.
  destruct (b_work st); [|discriminate]. injection P' as ->. exists (bsr_valid sg (length input) (b_set st)).
  split; [apply (valid_sim sg Ok ids slots As pg E), (v_set _ _ _ V)|].
  rewrite <- (C09_lowering_preserves_language_partial g root default_max_slots fuel sg W Lx Sf C input).
  destruct (compile_ok_represents _ _ _ _ _ C) as [idx R].
  assert (Oi : forall t (l : list nat) x, In x (nat_order gord t l) <-> In x l) by (apply nat_order_any; auto).
  pose proof (wf_reps _ (shape _ _ _ _ R)) as Rp.
  split.
  - intros Tr. eapply (bsr_sound sg input mx (fun t _ l => nat_order gord t l)); eauto. eapply start_plain; eauto.
  - intros Bd. rewrite map_length in Bd.
    assert (Ab : b_aborted st = false).
    { destruct (b_aborted st) eqn:Ab; auto. destruct (bsr_abandons _ _ _ _ _ _ B Ab). lia. }
    apply (bsr_correct sg input mx (fun t _ l => nat_order gord t l)) with (fuel := fuel'); auto.
    + eapply start_plain; eauto.
    + eapply nonempty; eauto.
Qed.

(** ** C44 *)
(** Missing for the full statement: grammars with a prose-val, a numeric series holding a
    value that is no Unicode scalar, an empty alternation or group, a reference to an
    undefined rule, or a repetition whose maximum is below its minimum; there the file may
    be rejected by the compiler: see [C44_refuted].  A grammar read by ParseABNF
    has no empty alternation or group, and one accepted by its semantic validation has
    neither undefined references nor unordered bounds. *)
Theorem C44_compiles_partial : forall g root fuel pg, wf_grammar g -> rune_values g -> emittable_grammar g ->
  generate_go_parser fuel g root = Gen_ok pg -> compiles pg.
Proof.
  intros g root fuel pg W Rv Em G. destruct (gen_inv _ _ _ _ G) as (sg & C & E).
  pose proof (compile_total g default_max_slots root (Nat.max fuel (lower_fuel g)) ltac:(lia)) as T.
  rewrite (compile_mono g root default_max_slots fuel) in T by (try lia; congruence). rewrite C in T. destruct T as [Rt [idx R]].
  eapply emit_compiles; [exact (compiled_ok g root sg idx R W Rv)|exact (compiled_scope g root sg idx R Rt W Rv Em)|exact E].
Qed.


(** *** Cases *)
Definition runesb (x : rep) : bool := match x with Rep _ _ (EChar _ vs) => forallb (fun v => (0 <=? v) && (v <=? 2147483647)) vs | _ => true end.
Lemma runes_of g : forallb runesb (RecogCheck.grammar_reps g) = true -> rune_values g.
Proof.
  rewrite forallb_forall. intros H s vs O. inversion O as [mn mx e Or]; subst. specialize (H _ (RecogCheck.occ_rep_in g _ Or)). cbn [runesb] in H. rewrite forallb_forall in H.
  apply Forall_forall. intros v I. specialize (H v I). apply andb_true_iff in H as [H1 H2]. apply Z.leb_le in H1, H2. auto.
Qed.
Definition emitb (x : rep) : bool :=
  match x with
  | Rep mn mx e => ((mx =? inf) || (mn <=? mx)) && match e with
    | EProse _ => false
    | ENum b StatSeries ns => forallb (fun s => match numeral b s with Some v => (0 <=? v) && (v <? 0xD800) || (0xDFFF <? v) && (v <=? 0x10FFFF) | None => false end) ns
    | EGroup a => negb (Nat.eqb (length a) 0)
    | _ => true end
  end.
Lemma emit_of g : PropRegex.refs_okb g = true -> forallb (fun r => negb (Nat.eqb (length (rule_alt r)) 0)) g = true -> forallb emitb (RecogCheck.grammar_reps g) = true ->
  emittable_grammar g.
Proof.
  intros A B C. split; [apply PropRegex.refs_okb_spec; auto|].
  assert (K : forall r x, In r g -> rep_in (rule_alt r) x -> emitb x = true).
  { rewrite forallb_forall in C. intros r x I R. apply C, RecogCheck.occ_rep_in, Occ.occ_rep_in. exists r. split; [apply in_or_app; auto|exact R]. }
  split.
  - intros r mn mx e I R N. specialize (K r _ I R). cbn [emitb] in K. apply andb_true_iff in K as [K _]. rewrite orb_true_iff, Z.eqb_eq, Z.leb_le in K. tauto.
  - intros r I. rewrite forallb_forall in B. split; [intros E; specialize (B r I); rewrite E in B; discriminate|].
    intros mn mx e R. specialize (K r _ I R). cbn [emitb] in K. apply andb_true_iff in K as [_ K]. destruct e as [n|a|a|c vs|b [|] ns|v]; cbn [emittable]; auto.
    + intros E. rewrite E in K. discriminate.
    + rewrite forallb_forall in K. apply Forall_forall. intros s Is. specialize (K s Is). destruct (numeral b s) as [v|]; [|discriminate]. exists v. split; auto.
      rewrite orb_true_iff, !andb_true_iff, !Z.leb_le, !Z.ltb_lt in K. unfold scalar. lia.
    + discriminate.
Qed.

Definition r1 e := Rep 1 1 e.
Definition g_prose : grammar := [mkRule "a" [[r1 (EProse ["x"])]]].
Definition g_surr : grammar := [mkRule "a" [[r1 (ENum "x" StatSeries ["D800"; "41"])]]].
Definition g_undef : grammar := [mkRule "a" [[r1 (ERule "b")]]].
Definition g_xyz : grammar := [mkRule "a" [[r1 (EChar false [120]); r1 (EChar false [121]); r1 (EChar false [122])]]].
Ltac gwf := apply wf_grammarb_spec; vm_compute; reflexivity.
Ltac grunes := apply runes_of; vm_compute; reflexivity.

Lemma xyz_lang : Lang g_xyz "a" [120; 121; 122].
Proof.
  assert (G : exists pg, generate_go_parser 100 g_xyz "a" = Gen_ok pg /\ exists gset, g_parse [120; 121; 122] 0 (fun _ l => l) pg 100 = GP_ok gset /\ g_valid pg 3 gset = Some true).
  { eexists. split; [vm_compute; reflexivity|]. eexists. split; vm_compute; reflexivity. }
  destruct G as (pg & G & gset & P & V).
  destruct (C43_result_partial (fun _ l => l) [120; 121; 122] 0 g_xyz "a" 100 pg 100 gset) as (v & V' & T & _); auto; [gwf|apply told_apartb_spec; vm_compute; reflexivity|grunes|exact id_order|].
  apply T. change (length [120; 121; 122]) with 3%nat in V'. congruence.
Qed.

(** A budget of one element on [a = "x" "y" "z"]: the second element does not fit, the
    run is abandoned in its last descriptor, and the emitted Parse returns a result that
    says the text does not match, although it does; ParseBSR reports the exhaustion. *)
Theorem C43_refuted : exists gord g root fuel pg input mx gset, wf_grammar g /\ lex_grammar g = true /\ told_apart g /\ rune_values g /\ any_order gord /\
  generate_go_parser fuel g root = Gen_ok pg /\ parse_bsr (fun _ l => l) fuel input g root default_max_slots mx = BSR_forest_too_large /\
  g_parse input mx gord pg fuel = GP_ok gset /\ g_valid pg (length input) gset = Some false /\ Lang g root input.
Proof.
  exists (fun _ l => l), g_xyz, "a", 100%nat. eexists. exists [120; 121; 122], 1. eexists. split; [gwf|]. split; [vm_compute; reflexivity|].
  split; [apply told_apartb_spec; vm_compute; reflexivity|]. split; [grunes|]. split; [exact id_order|].
  split; [vm_compute; reflexivity|]. split; [vm_compute; reflexivity|]. split; [vm_compute; reflexivity|]. split; [vm_compute; reflexivity|]. exact xyz_lang.
Qed.

(** [a = <x>] and [a = %xD800.41]: the statements after the return read [j], which is
    declared nowhere.  [a = b] with [b] undefined: [v] is declared and not used. *)
Lemma scoped_inv o h s r : scoped o h (s :: r) -> typed_stmt (h ++ o) s /\ (forall x, In x (map fst (declares s)) -> used x r) /\ scoped o (declares s ++ h) r.
Proof. intros H. inversion H; subst. auto. Qed.
Lemma no_j pg r : (exists L x1 x2 t, pg_cases pg = (XReturn :: XRecord L x1 x2 (XVar "j") :: t) :: r) -> ~ compiles pg.
Proof.
  intros (L & x1 & x2 & t & E) C. pose proof (cp_cases _ C) as F. rewrite E in F. apply Forall_inv in F.
  apply scoped_inv in F as (_ & _ & F). apply scoped_inv in F as (T & _). inversion T as [| | | | | | | | | |L' a b c T1 T2 Tj|]; subst.
  inversion Tj as [| | |x y Ty| | | | | | | | ]; subst. vm_compute in Ty. discriminate.
Qed.
Theorem C44_refuted : forall w, In w [g_prose; g_surr; g_undef] -> exists fuel pg,
  wf_grammar w /\ lex_grammar w = true /\ rune_values w /\ generate_go_parser fuel w "a" = Gen_ok pg /\ ~ compiles pg.
Proof.
  intros w [<-|[<-|[<-|[]]]]; exists 100%nat; eexists; (split; [gwf|]); (split; [vm_compute; reflexivity|]); (split; [grunes|]); (split; [vm_compute; reflexivity|]).
  - eapply no_j. eexists _, _, _, _. reflexivity.
  - eapply no_j. eexists _, _, _, _. reflexivity.
  - intros C. pose proof (cp_cases _ C) as F. cbn [pg_cases] in F. apply Forall_inv in F.
    apply scoped_inv in F as (_ & U & _). specialize (U "v" (or_introl eq_refl)).
    inversion U as [s q I|s b q I Ub|s q N U']; subst; [destruct I|destruct I|inversion U'].
Qed.

(** A grammar with every kind of element, read on a text that uses them. *)
Definition g_code : grammar :=
  [mkRule "a" [[Rep 1 2 (EGroup [[r1 (EChar false [120])]; [r1 (EChar true [33; 120])]]); Rep 1 1 (EOption [[r1 (ENum "x" StatRange ["30"; "39"])]]); Rep 0 inf (ERule "b")]];
   mkRule "b" [[r1 (ENum "x" StatSeries ["E9"; "21"])]; [r1 (ERule "DQUOTE"); Rep 1 1 (ENum "x" StatRange ["80"; "7FF"])]]].
Example C42_C43_C44_case : wf_grammar g_code /\ lex_grammar g_code = true /\ told_apart g_code /\ rune_values g_code /\ emittable_grammar g_code /\
  exists pg gset, generate_go_parser 200 g_code "a" = Gen_ok pg /\
    let input := bytes "X!x7" ++ [195; 169; 33; 34; 195; 160] in
    g_parse input 40 (fun _ l => rev l) pg 400 = GP_ok gset /\ g_valid pg (length input) gset = Some true /\ (10 < length gset)%nat /\
    g_parse input 3 (fun _ l => rev l) pg 400 = GP_too_large /\ (20 < length (pg_cases pg))%nat /\ pg_utf8 pg = true /\ length (pg_series pg) = 2%nat.
Proof.
  split; [gwf|]. split; [vm_compute; reflexivity|]. split; [apply told_apartb_spec; vm_compute; reflexivity|]. split; [grunes|].
  split; [apply emit_of; vm_compute; reflexivity|]. eexists _, _. split; [vm_compute; reflexivity|]. cbv zeta.
  split; [vm_compute; reflexivity|]. split; [vm_compute; reflexivity|]. split; [vm_compute; lia|]. split; [vm_compute; reflexivity|].
  split; [vm_compute; lia|]. split; vm_compute; reflexivity.
Qed.

Print Assumptions C42_generates.
Print Assumptions C42_same_run.
Print Assumptions C42_valid_exact_partial.
Print Assumptions C43_error_partial.
Print Assumptions C43_result_partial.
Print Assumptions C43_refuted.
Print Assumptions C44_compiles_partial.
Print Assumptions C44_refuted.
