(** Near misses (C36, C50, C51). *)
(** The definitions here are those of statements, proofs and examples; they model no code. *)
From Coq Require Import ZArith Arith String Ascii Bool Relations Sorted List Lia.
From Verif Require Import Syntax Spec Num Utf8 Tape Slots Gll PropGll Deps LeftRec PropLeftRec Dag PropDag Occ Check LowerLang PrintInj Recog RecogProof RecogGlue RecogCheck PropRecog
  Graph GraphSpec PropGraph Ast AstProof PropAst GraphLabel Walk WalkProof PropWalk NearMiss.
Import ListNotations.
Local Open Scope string_scope.
Local Open Scope list_scope.
Local Open Scope Z_scope.

(** ** What a label says *)
Inductive describes (base : list Z) : label -> list Z -> Prop :=
| ds_range u v x b lo hi es (above : bool) r : base = u ++ v ++ x ->
    (forall l h, numeral b lo = Some l -> numeral b hi = Some h ->
       r = (if above then h + 1 else l - 1) /\ exists r0, v = string_of_rune r0 /\ l <= r0 <= h) ->
    0 <= r <= 0x10FFFF ->
    describes base (L_range (Z.of_nat (length u)) above (ENum b StatRange (lo :: hi :: es))) (u ++ string_of_rune r ++ x)
| ds_subst u x v b : base = u ++ x :: v -> b <> x -> (0 <= x < 256 -> 0 <= b < 256) -> describes base (L_subst (Z.of_nat (length u)) b) (u ++ b :: v)
| ds_trunc u x : base = u ++ x -> x <> [] -> describes base (L_trunc (Z.of_nat (length x))) u
| ds_trail b : describes base (L_trail b) (base ++ [b])
| ds_del u x v : base = u ++ x :: v -> describes base (L_del (Z.of_nat (length u))) (u ++ v).

Definition all_described (base : list Z) (cs : list candidate) : Prop := Forall (fun c => describes base (snd c) (fst c)) cs.

Lemma slice_left u x : slice (u ++ x) 0 (Z.of_nat (length u)) = Some u.
Proof.
  unfold slice. rewrite app_length. replace (_ && _ && _) with true by (symmetry; rewrite !andb_true_iff, !Z.leb_le; lia).
  f_equal. replace (Z.to_nat (Z.of_nat (length u) - 0)) with (length u) by lia. cbn [Z.to_nat skipn].
  rewrite firstn_app, Nat.sub_diag, firstn_all. cbn [firstn]. apply app_nil_r.
Qed.
Lemma slice_right u x : slice (u ++ x) (Z.of_nat (length u)) (bytes_len (u ++ x)) = Some x.
Proof.
  unfold slice, bytes_len. rewrite app_length. replace (_ && _ && _) with true by (symmetry; rewrite !andb_true_iff, !Z.leb_le; lia).
  f_equal. rewrite Nat2Z.id, skipn_app, skipn_all, Nat.sub_diag. cbn [skipn app].
  replace (Z.to_nat _) with (length x) by lia. apply firstn_all.
Qed.
Lemma split_at (base : list Z) (p : Z) : 0 <= p < bytes_len base -> exists u x v, base = u ++ x :: v /\ p = Z.of_nat (length u).
Proof.
  unfold bytes_len. intros H. destruct (nth_error base (Z.to_nat p)) as [x|] eqn:E; [|apply nth_error_None in E; lia].
  apply nth_error_split in E as (u & v & -> & L). exists u, x, v. split; [reflexivity|lia].
Qed.
Lemma collect_all_spec {A : Type} (f : A -> option (list candidate)) base l : (forall x, In x l -> exists cs, f x = Some cs /\ all_described base cs) ->
  exists cs, collect_all f l = Some cs /\ all_described base cs.
Proof.
  induction l as [|x l IH]; intros H; [exists []; split; [reflexivity|constructor]|].
  destruct (H x (or_introl eq_refl)) as (c & E & G). destruct IH as (cs & E' & G'); [intros y I; apply H; right; exact I|].
  exists (c ++ cs). cbn [collect_all]. rewrite E, E'. split; [reflexivity|]. apply Forall_app. auto.
Qed.
Lemma range_emitted b lo hi es v l h : emitted (ENum b StatRange (lo :: hi :: es)) v -> v <> [] -> numeral b lo = Some l -> numeral b hi = Some h ->
  exists r0, v = string_of_rune r0 /\ l <= r0 <= h.
Proof.
  intros (k & vt & b0 & v1 & E0 & B & E) Nv N1 N2. unfold node_emit in E0, E.
  rewrite (numval_to_int32_spec _ _ _ N1), (numval_to_int32_spec _ _ _ N2) in E, E0. pose proof (numeral_nonneg _ _ _ N1). unfold MaxInt32 in *.
  set (mx := if 0x10FFFF <? Z.min h _ then _ else _) in *. destruct (_ || _) eqn:C; [injection E as <-; congruence|].
  injection E as <- _. injection E0 as _ <-. apply orb_false_iff in C as [C1 C2]. apply Z.ltb_ge in C1, C2. eexists. split; [reflexivity|].
  unfold mx in *. destruct (Z.ltb_spec 0x10FFFF (Z.min h (2147483647))); lia.
Qed.
Lemma boundaries_spec base s u v x : base = u ++ v ++ x -> v <> [] -> sg_off s = Z.of_nat (length u) -> sg_len s = Z.of_nat (length v) ->
  emitted (sg_elem s) v -> exists cs, boundaries base s = Some cs /\ all_described base cs.
Proof.
  intros E Nv O L Em. unfold boundaries. destruct (sg_elem s) as [n|a|a|sn vs|b [] es|p] eqn:Ee; cbn [numval_range];
    try (exists []; split; [reflexivity|constructor]).
  destruct es as [|lo [|hi es]]; [destruct Em as (k & vt & b0 & v1 & F & _); discriminate..|].
  assert (Q : forall (above : bool) r, (forall l h, numeral b lo = Some l -> numeral b hi = Some h -> 0 <= r <= 0x10FFFF -> r = (if above then h + 1 else l - 1)) ->
    exists cs, boundary base s above r = Some cs /\ all_described base cs).
  { intros above r Hr. unfold boundary. destruct ((r <? 0) || (1114111 <? r)) eqn:C; [exists []; split; [reflexivity|constructor]|].
    apply orb_false_iff in C as [C1 C2]. apply Z.ltb_ge in C1, C2. rewrite E, O, L, slice_left. cbn [obind].
    replace (Z.of_nat (length u) + Z.of_nat (length v)) with (Z.of_nat (length (u ++ v))) by (rewrite app_length; lia).
    rewrite app_assoc, slice_right. cbn [obind]. eexists. split; [reflexivity|]. constructor; [|constructor]. cbn [fst snd]. rewrite Ee.
    rewrite <- app_assoc. apply ds_range with (v := v); [reflexivity| |lia]. intros l h N1 N2. split; [apply Hr; auto; lia|].
    exact (range_emitted _ _ _ _ _ _ _ Em Nv N1 N2). }
  set (mx := if 0x10FFFF <? numval_to_int32 hi b then _ else _).
  destruct (Q false (numval_to_int32 lo b - 1)) as (c1 & -> & G1).
  { intros l h N1 _ Hb. rewrite (numval_to_int32_spec _ _ _ N1) in *. unfold MaxInt32 in *. lia. }
  destruct (Q true (mx + 1)) as (c2 & -> & G2).
  { intros l h _ N2 Hb. unfold mx in *. rewrite (numval_to_int32_spec _ _ _ N2) in *. unfold MaxInt32 in *.
    destruct (Z.ltb_spec 0x10FFFF (Z.min h (2147483647))); lia. }
  exists (c1 ++ c2). split; [reflexivity|]. apply Forall_app. auto.
Qed.
Lemma substitutions_spec base p : 0 <= p < bytes_len base -> exists cs, substitutions base p = Some cs /\ all_described base cs.
Proof.
  intros H. destruct (split_at base p H) as (u & x & v & -> & ->). unfold substitutions.
  destruct (Z.ltb_spec (Z.of_nat (length u)) 0); [lia|]. rewrite Nat2Z.id, nth_error_app2, Nat.sub_diag by lia. cbn [nth_error].
  eexists. split; [reflexivity|]. apply Forall_forall. intros c I. apply in_flat_map in I as (nb & Inb & I).
  destruct (Z.eqb_spec nb x) as [|Ne]; [destruct I|]. destruct I as [<-|[]]. cbn [fst snd].
  rewrite firstn_app, Nat.sub_diag, firstn_all. cbn [firstn]. rewrite app_nil_r.
  replace (skipn (S (length u)) (u ++ x :: v)) with v by (rewrite skipn_app, skipn_all2, Nat.sub_succ_l, Nat.sub_diag by lia; reflexivity).
  apply ds_subst with (x := x); auto. intros Bx. destruct Inb as [<-|[<-|[<-|[<-|[<-|[]]]]]]; try lia; [|apply Z.mod_pos_bound; lia].
  split; [apply Z.lxor_nonneg; lia|]. destruct (Z.eq_dec (Z.lxor x 32) 0) as [->|N0]; [lia|]. apply (Z.log2_lt_pow2 _ 8).
  { pose proof (proj2 (Z.lxor_nonneg x 32) ltac:(lia)). lia. }
  eapply Z.le_lt_trans; [apply Z.log2_lxor; lia|]. apply Z.max_lub_lt; [|reflexivity]. destruct (Z.eq_dec x 0) as [->|]; [reflexivity|]. apply Z.log2_lt_pow2; lia.
Qed.
Lemma truncations_spec base : exists cs, truncations base = Some cs /\ all_described base cs.
Proof.
  unfold truncations. apply collect_all_spec. intros n _. destruct ((n <=? 0) || (bytes_len base <? n)) eqn:C; [exists []; split; [reflexivity|constructor]|].
  apply orb_false_iff in C as [C1 C2]. apply Z.leb_gt in C1. apply Z.ltb_ge in C2. unfold bytes_len in *.
  set (k := Z.to_nat (Z.of_nat (length base) - n)).
  assert (Lk : length (firstn k base) = k) by (apply firstn_length_le; lia).
  assert (Le : length (skipn k base) = Z.to_nat n) by (rewrite skipn_length; lia).
  exists [(firstn k base, L_trunc n)]. split.
  - rewrite <- (firstn_skipn k base) at 1. replace (Z.of_nat (length base) - n) with (Z.of_nat (length (firstn k base))) by lia.
    rewrite slice_left. reflexivity.
  - constructor; [|constructor]. cbn [fst snd]. replace n with (Z.of_nat (length (skipn k base))) by lia.
    apply ds_trunc; [symmetry; apply firstn_skipn|]. intros E. rewrite E in Le. cbn [length] in Le. lia.
Qed.
Lemma deletion_spec base p : 0 <= p < bytes_len base -> exists cs, deletion base p = Some cs /\ all_described base cs.
Proof.
  intros H. destruct (split_at base p H) as (u & x & v & -> & ->). unfold deletion. rewrite slice_left. cbn [obind].
  replace (Z.of_nat (length u) + 1) with (Z.of_nat (length (u ++ [x]))) by (rewrite app_length; cbn [length]; lia).
  replace (u ++ x :: v) with ((u ++ [x]) ++ v) by (rewrite <- app_assoc; reflexivity). rewrite slice_right. cbn [obind].
  eexists. split; [reflexivity|]. constructor; [|constructor]. cbn [fst snd]. apply ds_del with (x := x). rewrite <- app_assoc. reflexivity.
Qed.
Lemma draw_in {S_ : Type} (intn : Z -> S_ -> Z * S_) n s : draws_ok intn -> 0 < n -> 0 <= fst (intn n s) < n.
Proof. intros D H. destruct (D n s). lia. Qed.

Lemma candidates_spec {S_ : Type} (intn : Z -> S_ -> Z * S_) s base tr : draws_ok intn -> traced base tr ->
  exists cs, near_miss_candidates intn s base tr = Some cs /\ all_described base cs /\ forall nb, In nb [0x00; 33; 0xFF; 65] -> In (base ++ [nb], L_trail nb) cs.
Proof.
  intros D T. unfold near_miss_candidates.
  destruct (collect_all_spec (boundaries base) base tr) as (c1 & -> & G1).
  { intros sg I. unfold traced in T. rewrite Forall_forall in T. destruct (T sg I) as (u & v & x & E & Nv & A & B & C). eapply boundaries_spec; eassumption. }
  cbn [obind]. set (ps := match base with [] => (0, s) | _ => _ end). destruct ps as [p s1] eqn:Ep.
  assert (X2 : exists c2, match base with [] => Some [] | _ => substitutions base p end = Some c2 /\ all_described base c2).
  { destruct base as [|y base]; [exists []; split; [reflexivity|constructor]|]. apply substitutions_spec.
    pose proof (draw_in intn (bytes_len (y :: base)) s D ltac:(unfold bytes_len; cbn [length]; lia)) as K. unfold ps in Ep. rewrite Ep in K. exact K. }
  destruct X2 as (c2 & -> & G2). cbn [obind]. destruct (truncations_spec base) as (c3 & -> & G3). cbn [obind].
  set (qs := if 2 <=? bytes_len base then _ else _). destruct qs as [q s2] eqn:Eq.
  assert (X5 : exists c5, (if 2 <=? bytes_len base then deletion base q else Some []) = Some c5 /\ all_described base c5).
  { unfold qs in Eq. destruct (Z.leb_spec 2 (bytes_len base)); [|exists []; split; [reflexivity|constructor]]. apply deletion_spec.
    pose proof (draw_in intn (bytes_len base) s1 D ltac:(lia)) as K. rewrite Eq in K. exact K. }
  destruct X5 as (c5 & -> & G5). cbn [obind]. set (cs := c1 ++ c2 ++ c3 ++ trailing base ++ c5).
  assert (G4 : all_described base (trailing base)).
  { apply Forall_forall. intros c I. apply in_map_iff in I as (nb & <- & _). apply ds_trail. }
  assert (G : all_described base cs) by (repeat (apply Forall_app; split; [assumption|]); assumption).
  assert (Tr : forall nb, In nb [0x00; 33; 0xFF; 65] -> In (base ++ [nb], L_trail nb) cs).
  { intros nb I. unfold cs. apply in_or_app. right. apply in_or_app. right. apply in_or_app. right. apply in_or_app. left.
    apply (in_map (fun nb => (base ++ [nb], L_trail nb))), I. }
  destruct (Nat.ltb_spec 1 (length cs)) as [Lc|Lc]; [|exists cs; auto].
  pose proof (draw_in intn (Z.of_nat (length cs)) s2 D ltac:(lia)) as K. set (k := fst _) in *. unfold rotate.
  replace (_ || _) with false by (symmetry; rewrite orb_false_iff, !Z.ltb_ge; lia). eexists. split; [reflexivity|].
  assert (Pm : forall c, In c cs <-> In c (skipn (Z.to_nat k) cs ++ firstn (Z.to_nat k) cs)).
  { intros c. rewrite in_app_iff. rewrite <- (firstn_skipn (Z.to_nat k) cs) at 1. rewrite in_app_iff. tauto. }
  split; [|intros nb I; apply Pm, Tr, I]. unfold all_described in *. rewrite Forall_forall in *. intros c I. apply G, Pm, I.
Qed.
Lemma first_rejected_spec valid base cs : forall i,
  match first_rejected valid base i cs with
  | NM_ok w l => In (w, l) cs /\ w <> base /\ exists j, valid j w = VBool false
  | NM_none => forall w l, In (w, l) cs -> w <> base -> exists j, valid j w = VBool true \/ valid j w = VNotFound
  | NM_panic => exists j w, valid j w = VPanic
  | NM_fuel => exists j w, valid j w = VFuel
  end.
Proof.
  induction cs as [|[w l] cs IH]; intros i; [cbn; intros w l []|]. cbn [first_rejected]. specialize (IH (S i)).
  assert (Go : (w <> base -> exists j, valid j w = VBool true \/ valid j w = VNotFound) -> match first_rejected valid base (S i) cs with
    | NM_ok w' l' => In (w', l') ((w, l) :: cs) /\ w' <> base /\ exists j, valid j w' = VBool false
    | NM_none => forall w' l', In (w', l') ((w, l) :: cs) -> w' <> base -> exists j, valid j w' = VBool true \/ valid j w' = VNotFound
    | NM_panic => exists j w, valid j w = VPanic | NM_fuel => exists j w, valid j w = VFuel end).
  { intros H. destruct (first_rejected valid base (S i) cs) as [w' l'| | |]; auto.
    - destruct IH as (A & B & C). split; [right; exact A|auto].
    - intros w' l' [E|I] N; [injection E as <- <-; auto|eapply IH; eauto]. }
  destruct (list_eq_dec Z.eq_dec w base) as [->|Ne]; [apply Go; congruence|].
  destruct (valid i w) as [|[]| |] eqn:V; [apply Go; eauto|apply Go; eauto| |eauto|eauto].
  split; [left; reflexivity|eauto].
Qed.

(** ** Theorems *)
(** Missing: the grammars for which IsValid itself is not exact (see C02). *)
Theorem C36_near_miss_partial : forall fuel ordn order ord vfuel g n gen tape w l,
  wf_grammar g -> lex_grammar g = true -> same_flags g -> bounds_ok g -> groups_not_left_recursive g -> count_ok g w ->
  (forall i, any_order (ordn i)) -> (forall i, name_order g (order i)) -> (forall i, fine_first g (order i)) -> (forall i, any_order (ord i)) ->
  (exists a, resolves g n a) -> (recog_fuel g w n <= vfuel w)%nat ->
  near_miss fuel ordn order ord vfuel g n gen tape = NM_ok w l -> ~ Lang g n w.
Proof.
  intros fuel ordn order ord vfuel g n gen tape w l W L F B HG HC On K FF O R Hf E. unfold near_miss in E.
  destruct (walk tape_draw fuel gen (mkTape tape 0)) as [base tr s| |]; try discriminate.
  destruct (near_miss_candidates tape_draw s base tr) as [cs|]; [|discriminate].
  pose proof (first_rejected_spec (fun i w => is_valid (ordn i) (order i) (ord i) (vfuel w) g n w) base cs 0) as X. rewrite E in X.
  destruct X as (_ & _ & j & V). destruct (C02_valid_exact_partial g n w (ordn j) (order j) (ord j) (vfuel w)) as (b & V' & H); auto.
  rewrite V in V'. injection V' as <-. intros H'. apply H in H'. discriminate.
Qed.
(** What is returned is the generated word changed as the label says. *)
Theorem C50_near_miss_label : forall bf opts g g1 g2 border n t c ml mr ms gen fuel ordn order ord vfuel tape w l,
  wf_grammar g -> transition_graph bf opts g g1 g2 border n = TG_ok t c -> new_generator t ml mr ms = Gen_ok gen ->
  (Z.to_nat ms + length (g_dist gen) < fuel)%nat ->
  near_miss fuel ordn order ord vfuel g n gen tape = NM_ok w l ->
  exists base tr, graph_generate fuel false gen tape = W_ok base tr tt /\ w <> base /\ describes base l w.
Proof.
  intros bf opts g g1 g2 border n t c ml mr ms gen fuel ordn order ord vfuel tape w l W E G L H. pose proof (new_generator_spec t ml mr ms) as K. rewrite G in K.
  destruct K as (Go & <- & _ & _ & <-).
  destruct (walk_spec tape_draw tape_draw_ok gen Go (built_all _ _ _ _ _ _ _ _ _ _ (allows_safe opts g W) E) fuel (mkTape tape 0) L) as (base & tr & s & X & T & _).
  unfold near_miss in H. rewrite X in H. destruct (candidates_spec tape_draw s base tr tape_draw_ok T) as (cs & Ec & Gc & _). rewrite Ec in H.
  pose proof (first_rejected_spec (fun i w => is_valid (ordn i) (order i) (ord i) (vfuel w) g n w) base cs 0) as Y. rewrite H in Y.
  destruct Y as (I & Ne & _). exists base, tr. split; [|split; [exact Ne|]].
  - unfold graph_generate. unfold tape_draw in X. rewrite X. reflexivity.
  - unfold all_described in Gc. rewrite Forall_forall in Gc. exact (Gc _ I).
Qed.
(** No word has the byte 0xFF. *)
Lemma utf8_no_ff r : scalar r -> ~ In 0xFF (utf8 r).
Proof.
  unfold scalar, utf8. intros S I.
  destruct (Z.ltb_spec r 0x80); [destruct I as [I|[]]; lia|]. destruct (Z.ltb_spec r 0x800).
  { destruct I as [I|[I|[]]]; [pose proof (Z.div_lt_upper_bound r 64 32 ltac:(lia) ltac:(lia)); lia|pose proof (Z.mod_pos_bound r 64 ltac:(lia)); lia]. }
  destruct (Z.ltb_spec r 0x10000).
  { destruct I as [I|[I|[I|[]]]]; [pose proof (Z.div_lt_upper_bound r 4096 16 ltac:(lia) ltac:(lia)); lia|
      pose proof (Z.mod_pos_bound (r / 64) 64 ltac:(lia)); lia|pose proof (Z.mod_pos_bound r 64 ltac:(lia)); lia]. }
  destruct I as [I|[I|[I|[I|[]]]]]; [pose proof (Z.div_lt_upper_bound r 262144 8 ltac:(lia) ltac:(lia)); lia|
    pose proof (Z.mod_pos_bound (r / 4096) 64 ltac:(lia)); lia|pose proof (Z.mod_pos_bound (r / 64) 64 ltac:(lia)); lia|pose proof (Z.mod_pos_bound r 64 ltac:(lia)); lia].
Qed.
Lemma utf8s_no_ff rs : Forall scalar rs -> ~ In 0xFF (utf8s rs).
Proof. intros F I. apply in_flat_map in I as (r & Ir & I). rewrite Forall_forall in F. exact (utf8_no_ff r (F r Ir) I). Qed.
Lemma words_no_ff g :
  (forall e w, in_elem g e w -> ~ In 0xFF w) /\ (forall a w, in_alt g a w -> ~ In 0xFF w) /\ (forall c w, in_cat g c w -> ~ In 0xFF w) /\
  (forall r w, in_rep g r w -> ~ In 0xFF w) /\ (forall e n w, in_pow g e n w -> ~ In 0xFF w).
Proof.
  apply (lang_mut g (fun _ w => ~ In 0xFF w) (fun _ w => ~ In 0xFF w) (fun _ w => ~ In 0xFF w) (fun _ w => ~ In 0xFF w) (fun _ _ w => ~ In 0xFF w)); auto;
    try (intros; rewrite in_app_iff; tauto).
  - intros s vs rs _ F. apply utf8s_no_ff, F.
  - intros b ns rs _ F. apply utf8s_no_ff, F.
  - intros b lo hi l h r _ _ _ S. apply utf8_no_ff, S.
Qed.
(** IsValid answers right on every input, in each of the calls NearMiss makes ([i]). *)
Definition valid_exact (ordn : nat -> nat -> list string -> list string) (order : nat -> list string) (ord : nat -> nat -> list nat -> list nat)
  (vfuel : list Z -> nat) (g : grammar) (n : string) : Prop :=
  forall i w, exists b, is_valid (ordn i) (order i) (ord i) (vfuel w) g n w = VBool b /\ (b = true <-> Lang g n w).
(** NearMiss ends, does not panic, and never comes back empty-handed. *)
Theorem C51_near_miss_succeeds : forall bf opts g g1 g2 border n t c ml mr ms gen fuel ordn order ord vfuel tape,
  wf_grammar g -> transition_graph bf opts g g1 g2 border n = TG_ok t c -> new_generator t ml mr ms = Gen_ok gen ->
  (Z.to_nat ms + length (g_dist gen) < fuel)%nat -> valid_exact ordn order ord vfuel g n ->
  exists w l, near_miss fuel ordn order ord vfuel g n gen tape = NM_ok w l /\ ~ Lang g n w.
Proof.
  intros bf opts g g1 g2 border n t c ml mr ms gen fuel ordn order ord vfuel tape W E G L V. pose proof (new_generator_spec t ml mr ms) as N. rewrite G in N.
  destruct N as (Go & <- & _ & _ & <-).
  destruct (walk_spec tape_draw tape_draw_ok gen Go (built_all _ _ _ _ _ _ _ _ _ _ (allows_safe opts g W) E) fuel (mkTape tape 0) L) as (base & tr & s & X & T & _).
  destruct (candidates_spec tape_draw s base tr tape_draw_ok T) as (cs & Ec & _ & Tr).
  pose proof (first_rejected_spec (fun i w => is_valid (ordn i) (order i) (ord i) (vfuel w) g n w) base cs 0) as Y.
  assert (Q : near_miss fuel ordn order ord vfuel g n gen tape = first_rejected (fun i w => is_valid (ordn i) (order i) (ord i) (vfuel w) g n w) base 0 cs).
  { unfold near_miss. rewrite X, Ec. reflexivity. }
  rewrite Q. destruct (first_rejected _ base 0 cs) as [w l| | |].
  - exists w, l. split; [reflexivity|]. destruct Y as (_ & _ & j & Y). destruct (V j w) as (b & V' & H). rewrite Y in V'. injection V' as <-.
    intros H'. apply H in H'. discriminate.
  - exfalso. destruct (Y (base ++ [0xFF]) (L_trail 0xFF)) as (j & Z).
    { apply Tr. right. right. left. reflexivity. }
    { intros Q'. apply (f_equal (@length Z)) in Q'. rewrite app_length in Q'. cbn [length] in Q'. lia. }
    destruct (V j (base ++ [0xFF])) as (b & V' & H). destruct Z as [Z|Z]; rewrite V' in Z; [|discriminate]. injection Z as ->.
    apply (proj1 (words_no_ff g)) with (e := ERule n) (w := base ++ [0xFF]); [|apply in_or_app; right; left; reflexivity].
    apply H. reflexivity.
  - destruct Y as (j & w & Y). destruct (V j w) as (b & V' & _). congruence.
  - destruct Y as (j & w & Y). destruct (V j w) as (b & V' & _). congruence.
Qed.
(** The grammars of C02 are such. *)
Theorem C51_exact_c02 : forall g n ordn order ord vfuel,
  wf_grammar g -> lex_grammar g = true -> same_flags g -> bounds_ok g -> groups_not_left_recursive g -> (forall w, count_ok g w) ->
  (exists a, resolves g n a) -> (forall w, recog_fuel g w n <= vfuel w)%nat ->
  (forall i, any_order (ordn i)) -> (forall i, name_order g (order i)) -> (forall i, fine_first g (order i)) -> (forall i, any_order (ord i)) ->
  valid_exact ordn order ord vfuel g n.
Proof. intros g n ordn order ord vfuel W Lx F B HG HC R Hf On K FF O i w. apply C02_valid_exact_partial; auto. Qed.

(** ** Cases *)
Lemma g33_count w : count_ok g33 w.
Proof. apply count_okb_spec. vm_compute. reflexivity. Qed.
Lemma g33_classes : forall n m, mutually_left g33 n m -> same_name m n.
Proof.
  eapply (single_classes g33 idn (all_names g33) "line" _ 10);
    [exact idn_any|apply all_names_order, wf_distinct; vm_compute; reflexivity|apply wf_distinct; vm_compute; reflexivity|
     apply bounds_dec; vm_compute; reflexivity|reflexivity|vm_compute; reflexivity|vm_compute; reflexivity].
Qed.
Definition near33 (tape : list Z) : near_result :=
  near_miss 30 (fun _ => idn) (fun _ => all_names g33) (fun _ => idp) (fun w => recog_fuel g33 w "line") g33 "line" (gen33 false) tape.
Example C36_case : wf_grammar g33 /\ lex_grammar g33 = true /\ same_flags g33 /\ bounds_ok g33 /\ groups_not_left_recursive g33 /\ (forall w, count_ok g33 w) /\
  transition_graph 30 (o33 false) g33 g33 g33 (keys g33) "line" = TG_ok (t33 false) 0 /\ new_generator (t33 false) 6 2 10 = Gen_ok (gen33 false) /\
  (exists a, resolves g33 "line" a) /\ (Z.to_nat 10 + length (g_dist (gen33 false)) < 30)%nat /\
  any_order idn /\ name_order g33 (all_names g33) /\ fine_first g33 (all_names g33) /\ any_order idp /\
  near33 [2; 3; 4; 5; 6; 1; 2; 3] = NM_ok [195; 169; 195; 169; 47; 49] (L_range 4 false (ENum "x" StatRange ["30"; "39"])) /\
  near33 [1; 1; 1; 1; 1; 1; 1; 1; 1; 1; 1; 1] = NM_ok [58; 65; 45; 65; 45; 65; 45] (L_range 0 true (ENum "x" StatRange ["30"; "39"])).
Proof.
  pose proof C33_case as (W & _ & E & G & _ & L & _). split; [exact W|]. split; [vm_compute; reflexivity|]. split; [apply same_flagsb_spec; vm_compute; reflexivity|].
  split; [apply bounds_dec; vm_compute; reflexivity|]. split; [refine (groups_shallow_ok g33 (proj1 W) 10 _); vm_compute; reflexivity|].
  split; [exact g33_count|]. split; [exact E|]. split; [exact G|]. split; [apply get_rule_some; eexists; reflexivity|]. split; [exact L|].
  split; [exact idn_any|]. split; [apply all_names_order, (proj1 W)|]. split; [intros m rest _ _; apply g33_classes|].
  split; [exact idp_any|]. split; vm_compute; reflexivity.
Qed.

(** ** What fails *)
(** IsValid counts up to the length of the input plus two, so it rejects the word x of
    5["x"]; NearMiss believes it. *)
Definition g36 : grammar := [mkRule "a" [[Rep 5 5 (EOption [[Rep 1 1 (EChar false [120])]])]]].
Theorem C36_near_miss_refuted : exists bf opts g border n t c gen fuel ordn order ord vfuel tape w l,
  wf_grammar g /\ lex_grammar g = true /\ same_flags g /\ bounds_ok g /\ groups_not_left_recursive g /\
  any_order ordn /\ name_order g order /\ fine_first g order /\ any_order ord /\
  transition_graph bf opts g g g border n = TG_ok t c /\ new_generator t 4096 32 100 = Gen_ok gen /\
  (recog_fuel g w n <= vfuel w)%nat /\ near_miss fuel (fun _ => ordn) (fun _ => order) (fun _ => ord) vfuel g n gen tape = NM_ok w l /\ Lang g n w.
Proof.
  assert (W : wf_grammar g36) by (apply wf_grammarb_spec; vm_compute; reflexivity).
  exists 30%nat, (o33 false), g36, (keys g36), "a". eexists _, _, _. exists 300%nat, idn, (all_names g36), idp, (fun w => recog_fuel g36 w "a"), [4; 0; 2]. eexists _, _.
  split; [exact W|]. split; [vm_compute; reflexivity|]. split; [apply same_flagsb_spec; vm_compute; reflexivity|]. split; [apply bounds_dec; vm_compute; reflexivity|].
  split; [refine (groups_shallow_ok g36 (proj1 W) 10 _); vm_compute; reflexivity|]. split; [exact idn_any|]. split; [apply all_names_order, (proj1 W)|].
  split.
  { intros m rest _ _. eapply (single_classes g36 idn (all_names g36) "a" _ 10);
    [exact idn_any|apply all_names_order, (proj1 W)|apply (proj1 W)|apply bounds_dec; vm_compute; reflexivity|reflexivity|vm_compute; reflexivity|vm_compute; reflexivity]. }
  split; [exact idp_any|].
  assert (E : exists t c, transition_graph 30 (o33 false) g36 g36 g36 (keys g36) "a" = TG_ok t c /\
    nth_error (tg_heap t) 5 = Some (mkNode (EChar false [120]) []) /\ In (Some 5%nat) (tg_entry t) /\ In (Some 5%nat) (tg_ends t)).
  { eexists _, _. split; [vm_compute; reflexivity|]. split; [reflexivity|]. split; cbn; tauto. }
  assert (H : Lang g36 "a" [88]).
  { destruct E as (t & c & E & E1 & E2 & E3). apply (C31_graph_spells _ _ _ _ _ _ _ _ _ W (eq_refl : o_numvals (o33 false) = false) E).
    exists [5%nat]. split; [split; [exact E2|split; [exact E3|exact Logic.I]]|]. exists [[88]]. split; [|reflexivity]. constructor; [|constructor].
    exists (mkNode (EChar false [120]) []). split; [exact E1|]. apply (in_char _ false [120] [88]); constructor; auto; [reflexivity|unfold scalar; lia]. }
  split; [vm_compute; reflexivity|]. split; [vm_compute; reflexivity|]. split; [apply le_n|]. split; [vm_compute; reflexivity|]. exact H.
Qed.

Print Assumptions C36_near_miss_partial.
Print Assumptions C50_near_miss_label.
Print Assumptions C51_near_miss_succeeds.
Print Assumptions C51_exact_c02.
Print Assumptions C36_case.
Print Assumptions C36_near_miss_refuted.
