(** The emitted statements obey Go's scope and type rules.
    Its definitions are means of proof and model no code. *)
From Coq Require Import ZArith Arith String Ascii Bool List Lia.
From Verif Require RecogGlue.
From Verif Require Import Syntax Spec Utf8 Num Term Printer Slots Gll Bsr LowerProof LowerLang Occ PropGll Codegen CodegenStmt CodegenProof CodegenGlue GoScope.
Import ListNotations.
Local Open Scope string_scope.
Local Open Scope list_scope.
Local Open Scope Z_scope.

(** What a reference, a group and a terminal of the grammar must be for the emitted file
    to compile; [C44_refuted] shows each is needed. *)
Definition emittable (e : elem) : Prop :=
  match e with
  | EProse _ => False
  | ENum b StatSeries ns => Forall (fun s => exists v, numeral b s = Some v /\ scalar v) ns
  | EGroup a => a <> []
  | _ => True
  end.
Definition emittable_grammar (g : grammar) : Prop :=
  refs_defined g /\ bounds_ordered g /\
  forall r, In r g -> rule_alt r <> [] /\ forall mn mx e, rep_in (rule_alt r) (Rep mn mx e) -> emittable e.

(** *** Sequences *)
Lemma used_app x a b : (forall s, In s a -> declares s = []) -> used x b -> used x (a ++ b).
Proof.
  induction a as [|s a IH]; intros H U; cbn [app]; auto. apply used_later; [rewrite (H s (or_introl eq_refl)); intros []|]. apply IH; auto.
  intros t I. apply H. right; auto.
Qed.
Lemma scoped_app outer here a b : (forall s, In s a -> declares s = [] /\ typed_stmt (here ++ outer) s /\ forall c, In c (bodies s) -> scoped (here ++ outer) [] c) ->
  scoped outer here b -> scoped outer here (a ++ b).
Proof.
  induction a as [|s a IH]; intros H U; cbn [app]; auto. destruct (H s (or_introl eq_refl)) as (D & T & B).
  apply scoped_cons; auto; rewrite D; cbn [map app]; [constructor|intros x []|intros x []|]. apply IH; auto. intros t I. apply H. right; auto.
Qed.
Lemma scoped_step outer here s r : declares s = [] -> typed_stmt (here ++ outer) s -> (forall c, In c (bodies s) -> scoped (here ++ outer) [] c) ->
  scoped outer here r -> scoped outer here (s :: r).
Proof. intros D T B U. apply scoped_cons; auto; rewrite D; [constructor|intros x []|intros x []|exact U]. Qed.
Lemma scoped_new outer here s r x t : declares s = [(x, t)] -> bodies s = [] -> typed_stmt (here ++ outer) s -> ~ In x (map fst here) -> used x r ->
  scoped outer ((x, t) :: here) r -> scoped outer here (s :: r).
Proof.
  intros D B T N U S. apply scoped_cons; auto; rewrite ?D, ?B; cbn [map fst app]; auto.
  - intros b [].
  - constructor; auto. constructor.
  - intros y [<-|[]]; auto.
  - intros y [<-|[]]; auto.
Qed.
Ltac newvar x t := apply (scoped_new _ _ _ _ x t); [reflexivity|reflexivity| | | |].
Lemma ret_body c : forall sc b, In b (bodies (ifret c)) -> scoped sc [] b.
Proof.
  intros sc b [<-|[]]. apply scoped_step; [reflexivity|constructor|intros d []|constructor].
Qed.
Lemma ifret_ok outer here c r : typed_cond (here ++ outer) c -> scoped outer here r -> scoped outer here (ifret c :: r).
Proof. intros T S. apply scoped_step; auto; [constructor; auto|apply ret_body]. Qed.

Definition sees (sc : scope) (x : string) (t : gtype) : Prop := type_of x sc = Some t.
Lemma xi_int sc : sees sc "i" TInt -> typed sc xi TInt.
Proof. intros H. constructor. exact H. Qed.

(** What a case of the switch starts from, after more declarations. *)
Record base (sc : scope) : Prop := { b_L : sees sc "L" TInt; b_u : sees sc "u" TNode; b_i : sees sc "i" TInt; b_rc : sees sc "rc" TInt }.
Lemma base_locals : base ([] ++ locals).
Proof. split; reflexivity. Qed.

Lemma call_ok sg ids s X nt ret b : emit_call sg ids s X ret = Some b -> nth_error (sg_nts sg) X = Some nt -> nt_alts nt <> [] ->
  (nt_isrep nt = true -> 0 <= nt_repmin nt /\ (nt_repmax nt = inf \/ nt_repmin nt <= nt_repmax nt)) -> scoped locals [] b.
Proof.
  intros E N Ne Rp. unfold emit_call in E. rewrite N in E.
  assert (Cr : forall r, used "v" r -> scoped locals [("v", TNode)] r -> scoped locals [] (XCreate "v" ret "u" xi (XVar "rc") :: r)).
  { intros r U S. newvar "v" TNode; [|intros []|auto|auto]. constructor; [reflexivity|apply xi_int; reflexivity|constructor; reflexivity]. }
  assert (Rt : forall h, scoped locals h [XReturn]) by (intros h; apply scoped_step; [reflexivity|constructor|intros d []|constructor]).
  assert (Ad : forall h L rc r, sees (h ++ locals) "v" TNode -> sees (h ++ locals) "i" TInt -> typed (h ++ locals) rc TInt -> scoped locals h r -> scoped locals h (XAdd L "v" xi rc :: r)).
  { intros h L rc r V I Rc S. apply scoped_step; auto; [constructor; auto; apply xi_int; auto|intros d []]. }
  assert (Uv : forall L i rc r, used "v" (XAdd L "v" i rc :: r)) by (intros; apply used_here; left; auto).
  destruct (nt_isrep nt).
  - destruct (Rp eq_refl) as [M0 Mx]. destruct (start_id ids X 0) as [s0|]; [|discriminate]. destruct (Nat.eqb X (si_nt s)).
    + destruct (start_id ids X 1) as [s1|]; [|discriminate]. injection E as <-.
      assert (Iv : forall c L rc r, used "v" (XIf c [XAdd L "v" xi rc] :: r)).
      { intros c L rc r. eapply used_inside; [left; reflexivity|]. apply Uv. }
      set (tl := (if nt_repmax nt =? inf then [XAdd (Z.of_nat s1) "v" xi (XVar "crc")] else [XIf (CLt (XVar "crc") (XInt (nt_repmax nt))) [XAdd (Z.of_nat s1) "v" xi (XVar "crc")]]) ++ [XReturn]).
      assert (Inner : forall z L, scoped ([("crc", TInt); ("v", TNode)] ++ locals) [] [XAdd L "v" xi (XVar z)] \/ z <> "crc").
      { intros z L. destruct (string_dec z "crc") as [->|]; auto. left. apply scoped_step; [reflexivity| |intros d []|constructor].
        constructor; [reflexivity|apply xi_int; reflexivity|constructor; reflexivity]. }
      assert (In1 : forall L, scoped ([("crc", TInt); ("v", TNode)] ++ locals) [] [XAdd L "v" xi (XVar "crc")]) by (intros L; destruct (Inner "crc" L) as [|Q]; [auto|congruence]).
      assert (T2 : scoped locals [("crc", TInt); ("v", TNode)] tl).
      { unfold tl. destruct (nt_repmax nt =? inf); cbn [app].
        - apply Ad; try reflexivity; [constructor; reflexivity|apply Rt].
        - apply scoped_step; [reflexivity| |intros d [<-|[]]; apply In1|apply Rt]. constructor. apply (tc_lt _ _ _ TInt); [discriminate|constructor; reflexivity|constructor]. }
      assert (T1 : scoped locals [("crc", TInt); ("v", TNode)] ([XIf (CGe (XVar "crc") (XInt (nt_repmin nt))) [XAdd (Z.of_nat s0) "v" xi (XVar "crc")]] ++ tl)).
      { cbn [app]. apply scoped_step; [reflexivity| |intros d [<-|[]]; apply In1|exact T2]. constructor. apply (tc_ge _ _ _ TInt); [discriminate|constructor; reflexivity|constructor]. }
      assert (Uc : used "crc" ([XIf (CGe (XVar "crc") (XInt (nt_repmin nt))) [XAdd (Z.of_nat s0) "v" xi (XVar "crc")]] ++ tl)) by (cbn [app]; apply used_here; left; auto).
      assert (Uvv : used "v" ([XIf (CGe (XVar "crc") (XInt (nt_repmin nt))) [XAdd (Z.of_nat s0) "v" xi (XVar "crc")]] ++ tl)) by (cbn [app]; apply Iv).
      assert (Db : forall a, scoped ([("crc", TInt); ("v", TNode)] ++ locals) [] [XAssign "crc" (XInt a)]).
      { intros a. apply scoped_step; [reflexivity| |intros d []|constructor]. constructor; [reflexivity|constructor]. }
      apply Cr.
      * apply used_later; [cbn; intros [Q|[]]; discriminate|]. apply used_app; [|exact Uvv]. intros q J. destruct (nt_repmax nt =? inf); [|destruct J]. destruct J as [<-|[]]. reflexivity.
      * newvar "crc" TInt.
        -- constructor. constructor; [constructor; reflexivity|constructor].
        -- cbn. intros [Q|[]]; discriminate.
        -- apply used_app; [|exact Uc]. intros q J. destruct (nt_repmax nt =? inf); [|destruct J]. destruct J as [<-|[]]. reflexivity.
        -- apply scoped_app; [|exact T1]. intros q J. destruct (nt_repmax nt =? inf); [|destruct J]. destruct J as [<-|[]]. split; [reflexivity|]. split.
           ++ constructor. apply (tc_gt _ _ _ TInt); [discriminate|constructor; reflexivity|constructor].
           ++ intros d [<-|[]]. apply Db.
    + assert (St : forall r, scoped locals [("v", TNode)] r -> scoped locals [("v", TNode)] ((if nt_repmin nt =? 0 then [XAdd (Z.of_nat s0) "v" xi (XInt 0)] else []) ++ r)).
      { intros r S. destruct (nt_repmin nt =? 0); cbn [app]; auto. apply Ad; try reflexivity; [constructor|exact S]. }
      destruct ((nt_repmax nt =? inf) || (0 <? nt_repmax nt))%bool eqn:B.
      * destruct (start_id ids X 1) as [s1|]; [|discriminate]. injection E as <-. apply Cr.
        -- apply used_app; [|apply Uv]. intros q J. destruct (nt_repmin nt =? 0); [|destruct J]. destruct J as [<-|[]]. reflexivity.
        -- apply St. apply Ad; try reflexivity; [constructor|apply Rt].
      * injection E as <-. apply orb_false_iff in B as [B1 B2]. apply Z.eqb_neq in B1. apply Z.ltb_ge in B2.
        assert (Z0 : nt_repmin nt = 0) by (destruct Mx; [congruence|lia]). apply Cr; [|apply St, Rt]. rewrite Z0. cbn [Z.eqb app]. apply Uv.
  - destruct (collect (start_id ids X) _) as [l|] eqn:C; [|discriminate]. injection E as <-.
    apply collect_length in C. rewrite seq_length in C. destruct l as [|y l]; [destruct (nt_alts nt); [congruence|discriminate]|].
    apply Cr; [cbn [map app]; apply Uv|]. clear C. generalize (y :: l) as l0. clear y l. induction l0 as [|y l IH]; cbn [map app]; [apply Rt|].
    apply Ad; try reflexivity; [constructor|exact IH].
Qed.

(** *** Terminals *)
Definition tail (next : Z) : list gstmt := [XRecord next (XPos "u") xi (XVar "j"); XAssign "i" (XVar "j"); XAssign "L" (XInt next); XContinue].
Lemma tail_ok next h : base (h ++ locals) -> sees (h ++ locals) "j" TInt -> scoped locals h (tail next).
Proof.
  intros [L U I _] J. unfold tail. apply scoped_step; [reflexivity| |intros d []|].
  - constructor; constructor; auto.
  - apply scoped_step; [reflexivity| |intros d []|]; [constructor; auto; constructor; auto|].
    apply scoped_step; [reflexivity| |intros d []|]; [constructor; auto; constructor; auto|].
    apply scoped_step; [reflexivity|constructor|intros d []|constructor].
Qed.
Lemma used_tail next r : used "j" (tail next ++ r).
Proof. apply used_here. cbn. auto. Qed.
Lemma base_j t : base ([("j", t)] ++ locals).
Proof. split; reflexivity. Qed.
Lemma int32_rune s b : -2147483648 <= numval_to_rune s b <= 2147483647.
Proof.
  unfold numval_to_rune, numval_to_int32. destruct (numval_to_uint64 s b) as [v|] eqn:E.
  - assert (0 <= v).
    { unfold numval_to_uint64, parse_uint in E. destruct s as [|c s]; [discriminate|]. revert E. generalize (String c s) as w. clear c s. intros w.
      assert (H : forall w acc, 0 <= acc -> parse_uint_loop (base_radix b) acc w = Some v -> 0 <= v); [|apply H; lia].
      clear w. induction w as [|c w IH]; intros acc A; cbn [parse_uint_loop]; [intros E; injection E as <-; auto|].
      destruct (go_digit c) as [d|] eqn:D; [|discriminate]. destruct (_ <=? d); [discriminate|]. destruct (_ <=? acc); [discriminate|].
      destruct (MaxUint64 <? _); [discriminate|]. apply IH.
      assert (0 <= d). { unfold go_digit in D. repeat match type of D with context [if ?c then _ else _] => destruct c eqn:? end; try discriminate; injection D as <-; lia. }
      assert (0 <= base_radix b) by (unfold base_radix; repeat match goal with |- context [if ?c then _ else _] => destruct c end; lia). nia. }
    destruct (MaxInt32 <? v) eqn:Q; unfold MaxInt32 in *; lia.
  - unfold MaxInt32. lia.
Qed.
Lemma fold_ascii_range r lo hi : lo <= 65 -> 122 <= hi -> lo <= r <= hi -> lo <= fold_ascii r <= hi.
Proof. intros A B C. unfold fold_ascii. destruct ((65 <=? r) && (r <=? 90))%bool eqn:E; lia. Qed.
Lemma ascii_ok sens h r : base (h ++ locals) -> forall vals off, scoped locals h r -> scoped locals h (ascii_tests sens off vals ++ r).
Proof.
  intros [L U I _] vals. induction vals as [|v vs IH]; intros off S; cbn [ascii_tests app]; auto.
  assert (In0 : typed (h ++ locals) (XInput (XPlus xi (XInt off))) TByte) by (constructor; constructor; [apply xi_int; auto|constructor]).
  pose proof (Z.mod_pos_bound v 256 ltac:(lia)) as Bd.
  destruct sens; apply ifret_ok; auto.
  - apply (tc_ne _ _ _ TByte); auto. apply ty_byte. lia.
  - apply (tc_ne _ _ _ TByte); [constructor; auto|]. apply ty_byte. apply fold_ascii_range; lia.
Qed.
Lemma rune_body (sens : bool) r : -2147483648 <= r <= 2147483647 -> forall outer, sees outer "j" TInt ->
  scoped outer [] [ifret (CGe (XVar "j") XLenInput); XDecode "rv" "rs" (XVar "j");
            ifret (CAnd (CEq (XVar "rv") XRuneError) (CEq (XVar "rs") (XInt 1)));
            (if sens then ifret (CNe (XVar "rv") (XInt r)) else ifret (CNe (XFoldR (XVar "rv")) (XInt (fold_ascii r))));
            XAddTo "j" (XVar "rs")].
Proof.
  intros B outer J. apply ifret_ok; [apply (tc_ge _ _ _ TInt); [discriminate|constructor; exact J|constructor]|].
  apply scoped_cons; cbn [declares map fst app].
  - constructor. constructor. exact J.
  - intros d [].
  - constructor; [intros [Q|[]]; discriminate|]. constructor; [intros []|constructor].
  - intros x _ [].
  - intros x [<-|[<-|[]]]; apply used_here; cbn; auto.
  - assert (J' : type_of "j" ([("rv", TRune); ("rs", TInt)] ++ outer) = Some TInt) by exact J.
    apply ifret_ok; [constructor; [apply (tc_eq _ _ _ TRune)|apply (tc_eq _ _ _ TInt)]; constructor; reflexivity|].
    assert (Last : scoped outer [("rv", TRune); ("rs", TInt)] [XAddTo "j" (XVar "rs")]).
    { apply scoped_step; [reflexivity| |intros d []|constructor]. constructor; [exact J'|constructor; reflexivity]. }
    assert (V : typed ([("rv", TRune); ("rs", TInt)] ++ outer) (XVar "rv") TRune) by (apply ty_var; reflexivity).
    destruct sens; (apply ifret_ok; [apply (tc_ne _ _ _ TRune)|exact Last]).
    + exact V.
    + apply ty_rune. exact B.
    + apply ty_foldr. exact V.
    + apply ty_rune. apply fold_ascii_range; lia.
Qed.

Lemma match_ok t ser m ser' next : emit_match t ser = Some (m, ser') -> is_terminal t = true -> emittable t ->
  (forall s vs, t = EChar s vs -> Forall (fun v => 0 <= v <= 2147483647) vs) -> scoped locals [] (m ++ tail next).
Proof.
  intros E It Et Cv.
  assert (Dj : forall a r, typed ([] ++ locals) a TInt -> used "j" r -> scoped locals [("j", TInt)] r -> scoped locals [] (XDeclare "j" a :: r)).
  { intros a r T U S. newvar "j" TInt; [|intros []|auto|auto]. constructor; auto. }
  assert (Tl : scoped locals [("j", TInt)] (tail next)) by (apply tail_ok; [apply base_j|reflexivity]).
  assert (Ut : used "j" (tail next)) by (rewrite <- (app_nil_r (tail next)); apply used_tail).
  assert (Xi : typed ([] ++ locals) xi TInt) by (apply xi_int; reflexivity).
  destruct t as [n|a|a|sens vals|b stt es|q]; try discriminate; cbn [emit_match emittable] in *; [| |destruct Et].
  - injection E as <- <-. specialize (Cv _ _ eq_refl). unfold emit_char_val. destruct (forallb _ vals).
    + cbn [app]. apply ifret_ok; [apply (tc_gt _ _ _ TInt); [discriminate|constructor; [exact Xi|constructor]|constructor]|].
      rewrite <- app_assoc. apply ascii_ok; [apply base_locals|]. cbn [app]. apply Dj; auto. constructor; [exact Xi|constructor].
    + cbn [app]. apply Dj; auto.
      * apply used_app; auto. intros s I. apply in_map_iff in I as (v & <- & _). reflexivity.
      * apply scoped_app; auto. intros s I. apply in_map_iff in I as (v & <- & I). split; [reflexivity|]. split; [constructor|].
        intros d [<-|[]]. apply rune_body; [rewrite Forall_forall in Cv; specialize (Cv v I); lia|reflexivity].
  - destruct stt.
    + unfold emit_series in E. destruct (forallb valid_rune _) eqn:F.
      * destruct (series_var _ ser) as [k s']. injection E as <- <-. cbn [app]. apply ifret_ok.
        -- constructor; [apply (tc_gt _ _ _ TInt); [discriminate|constructor; [exact Xi|constructor]|constructor]|constructor; exact Xi].
        -- apply Dj; auto. constructor; [exact Xi|constructor].
      * exfalso. apply not_true_iff_false in F. apply F. apply forallb_forall. intros v I. apply in_map_iff in I as (s & <- & I).
        rewrite Forall_forall in Et. destruct (Et s I) as (v & Nv & Sv). apply valid_rune_scalar. unfold numval_to_rune. rewrite (numval_to_int32_spec _ _ _ Nv). unfold scalar, MaxInt32 in *. destruct (Z.min_spec v 2147483647) as [[_ ->]|[? ->]]; lia.
    + destruct es as [|lo [|hi es]]; try discriminate. injection E as <- <-. cbn [app].
      apply ifret_ok; [apply (tc_ge _ _ _ TInt); [discriminate|exact Xi|constructor]|].
      apply scoped_cons; cbn [declares map fst app].
      * constructor. exact Xi.
      * intros d [].
      * constructor; [intros [Q|[]]; discriminate|]. constructor; [intros []|constructor].
      * intros x _ [].
      * intros x [<-|[<-|[]]]; apply used_here; cbn; auto.
      * apply ifret_ok; [constructor; [apply (tc_eq _ _ _ TRune)|apply (tc_eq _ _ _ TInt)]; constructor; reflexivity|].
        apply ifret_ok.
        -- constructor; [apply (tc_lt _ _ _ TRune)|apply (tc_gt _ _ _ TRune)]; try discriminate; try (constructor; reflexivity); apply ty_rune; apply int32_rune.
        -- newvar "j" TInt; auto.
           ++ constructor. constructor; [apply xi_int; reflexivity|constructor; reflexivity].
           ++ cbn. intros [Q|[Q|[]]]; discriminate.
           ++ apply tail_ok; [split; reflexivity|reflexivity].
Qed.

(** *** References to utf8 and to the series *)
Lemma existsb_app' {A} (f : A -> bool) a b : existsb f (a ++ b) = (existsb f a || existsb f b)%bool.
Proof. induction a as [|x a IH]; cbn [app existsb]; auto. rewrite IH, orb_assoc. reflexivity. Qed.
Lemma match_utf8 t ser m ser' : emit_match t ser = Some (m, ser') -> existsb stmt_utf8 m = needs_utf8 t.
Proof.
  destruct t as [n|a|a|sens vals|b stt es|q]; cbn [emit_match needs_utf8]; try (intros E; injection E as <- <-; reflexivity).
  - intros E. injection E as <- <-. unfold emit_char_val. destruct (forallb (fun r => r <=? 127) vals) eqn:F.
    + transitivity false.
      * cbn [existsb]. rewrite existsb_app'. cbn. rewrite orb_false_r. generalize 0 as off. clear F. induction vals as [|v vs IH]; intros off; cbn [ascii_tests existsb]; auto.
        rewrite IH. destruct sens; reflexivity.
      * symmetry. apply not_true_iff_false. intros X. apply existsb_exists in X as (v & I & G). rewrite forallb_forall in F. specialize (F v I). lia.
    + transitivity true; [|symmetry].
      * destruct vals as [|v vs]; [discriminate|]. cbn. reflexivity.
      * apply not_false_iff_true. intros X. apply not_true_iff_false in F. apply F. apply forallb_forall. intros v I. apply Z.leb_le. destruct (Z.ltb_spec 127 v) as [G|]; [|lia].
        exfalso. apply not_true_iff_false in X. apply X. apply existsb_exists. exists v. split; auto. lia.
  - destruct stt.
    + unfold emit_series. destruct (forallb _ _); [destruct (series_var _ ser)|]; intros E; injection E as <- <-; reflexivity.
    + destruct es as [|lo [|hi es]]; intros E; try discriminate. injection E as <- <-. reflexivity.
Qed.
Lemma match_series_in t ser m ser' k : emit_match t ser = Some (m, ser') -> In k (flat_map stmt_series m) -> (k < length ser')%nat.
Proof.
  destruct t as [n|a|a|sens vals|b stt es|q]; cbn [emit_match]; try (intros E; injection E as <- <-; intros []).
  - intros E. injection E as <- <-. unfold emit_char_val. destruct (forallb _ vals).
    + cbn [flat_map]. rewrite flat_map_app. cbn. rewrite app_nil_r. generalize 0 as off. induction vals as [|v vs IH]; intros off; cbn [ascii_tests flat_map]; [intros []|].
      intros I. apply in_app_or in I as [I|I]; [destruct sens; destruct I|eapply IH; eauto].
    + cbn [flat_map]. intros I. apply in_app_or in I as [[]|I]. apply in_flat_map in I as (s & I & J). apply in_map_iff in I as (v & <- & _). destruct sens; destruct J.
  - destruct stt.
    + unfold emit_series. destruct (forallb _ _); [destruct (series_var _ ser) as [n s'] eqn:Sv|]; intros E; injection E as <- <-; [|intros []].
      apply series_var_ok in Sv as [N _]. assert (n < length s')%nat by (apply nth_error_Some; congruence). cbn. intros [<-|[<-|[<-|[]]]]; auto.
    + destruct es as [|lo [|hi es]]; intros E; try discriminate. injection E as <- <-. intros [].
Qed.
Lemma call_plain sg ids s X ret b : emit_call sg ids s X ret = Some b -> existsb stmt_utf8 b = false /\ flat_map stmt_series b = [].
Proof.
  unfold emit_call. destruct (nth_error _ X) as [nt|]; [|discriminate]. destruct (nt_isrep nt).
  - destruct (start_id ids X 0) as [s0|]; [|discriminate]. destruct (Nat.eqb _ _).
    + destruct (start_id ids X 1) as [s1|]; [|discriminate]. intros E. injection E as <-. destruct (_ =? inf); split; reflexivity.
    + destruct (_ || _)%bool; [destruct (start_id ids X 1) as [s1|]; [|discriminate]|]; intros E; injection E as <-; destruct (_ =? 0); split; reflexivity.
  - destruct (collect _ _) as [l|]; [|discriminate]. intros E. injection E as <-. induction l as [|y l IH]; [split; reflexivity|]. exact IH.
Qed.
Lemma case_utf8 sg ids id si ser b ser' : emit_case sg ids id si ser = Some (b, ser') ->
  existsb stmt_utf8 b = match prod_of sg (mkSlot (si_nt si) (si_alt si) 0) with
                        | Some p => if Nat.eqb (si_dot si) (si_plen si) then false else match nth_error p (si_dot si) with Some (STerm t) => needs_utf8 t | _ => false end
                        | None => false end /\
  forall k, In k (flat_map stmt_series b) -> (k < length ser')%nat.
Proof.
  unfold emit_case, prod_of. cbn [s_nt s_alt]. destruct (nth_error (sg_nts sg) (si_nt si)) as [info|]; [|discriminate].
  destruct (Nat.eqb _ _).
  - intros E. injection E as <- <-. split; [|intros k []]. destruct (nth_error _ _); reflexivity.
  - destruct (nth_error (nt_alts info) _) as [p|]; [|discriminate]. destruct (nth_error p _) as [[X|t|]|]; try discriminate.
    + destruct (emit_call _ _ _ _ _) as [b'|] eqn:C; [|discriminate]. intros E. injection E as <- <-. apply call_plain in C as [A B]. rewrite A, B. split; [auto|intros k []].
    + cbn [emit_terminal]. destruct (emit_match t ser) as [[m s']|] eqn:M; [|discriminate]. intros E. injection E as <- <-. split.
      * rewrite existsb_app', (match_utf8 _ _ _ _ M). cbn. rewrite orb_false_r. reflexivity.
      * intros k I. rewrite flat_map_app in I. apply in_app_or in I as [I|[]]. eapply match_series_in; eauto.
    + cbn [emit_terminal]. intros E. injection E as <- <-. split; [reflexivity|intros k []].
Qed.

(** *** The file *)
Record sg_scope (sg : slot_grammar) : Prop := {
  ss_call : forall nt p X nt', In nt (sg_nts sg) -> In p (nt_alts nt) -> In (SNonterm X) p -> nth_error (sg_nts sg) X = Some nt' -> nt_alts nt' <> [];
  ss_rep : forall nt, In nt (sg_nts sg) -> nt_isrep nt = true -> 0 <= nt_repmin nt /\ (nt_repmax nt = inf \/ nt_repmin nt <= nt_repmax nt);
  ss_term : forall nt p t, In nt (sg_nts sg) -> In p (nt_alts nt) -> In (STerm t) p -> is_terminal t = true /\ emittable t /\
    forall s vs, t = EChar s vs -> Forall (fun v => 0 <= v <= 2147483647) vs;
  ss_start : forall nt, nth_error (sg_nts sg) (sg_start sg) = Some nt -> nt_alts nt <> [] }.
Theorem emit_compiles sg pg : sg_ok sg -> sg_scope sg -> emit sg = Some pg -> compiles pg.
Proof.
  intros Ok [Sc Sr St Ss] E. destruct (assign_slots sg) as [ids slots] eqn:As.
  destruct (emit_ok _ _ _ _ As E) as (Inf & Utf & Len & _ & _ & _ & _ & Cases).
  assert (Of : forall b, In b (pg_cases pg) -> exists k si ser1 ser2, nth_error slots k = Some si /\ emit_case sg ids k si ser1 = Some (b, ser2) /\ exists tl, pg_series pg = ser2 ++ tl).
  { intros b I. apply In_nth_error in I as [k N]. assert (Lt : (k < length slots)%nat) by (rewrite <- Len; apply nth_error_Some; congruence).
    destruct (nth_error slots k) as [si|] eqn:Ns; [|apply nth_error_None in Ns; lia]. destruct (Cases k si Ns) as (b' & s1 & s2 & A & B & C).
    exists k, si, s1, s2. rewrite N in A. injection A as <-. auto. }
  split.
  - apply Forall_forall. intros b I. destruct (Of b I) as (k & si & ser1 & ser2 & N & C & _).
    destruct (slot_all sg ids slots As k si N) as (_ & p & P & D & Pl). unfold prod_of in P. cbn [s_nt s_alt] in P.
    unfold emit_case in C. destruct (nth_error (sg_nts sg) (si_nt si)) as [info|] eqn:N1; [|discriminate]. rewrite P in C.
    destruct (Nat.eqb_spec (si_dot si) (si_plen si)).
    + injection C as <- _. apply scoped_step; [reflexivity| |intros d []|].
      * constructor; [reflexivity|apply xi_int; reflexivity].
      * apply scoped_step; [reflexivity|constructor|intros d []|constructor].
    + destruct (nth_error p (si_dot si)) as [[X|t|]|] eqn:Ns; try discriminate; pose proof (nth_error_In _ _ N1) as I1; pose proof (nth_error_In _ _ P) as I2; pose proof (nth_error_In _ _ Ns) as I3.
      * destruct (emit_call sg ids si X _) as [b'|] eqn:Cc; [|discriminate]. injection C as <- _.
        pose proof (so_nt _ Ok info p X I1 I2 I3) as Lt. destruct (nth_error (sg_nts sg) X) as [nt'|] eqn:Nx; [|apply nth_error_None in Nx; lia].
        eapply call_ok; eauto. intros R. apply Sr; auto. eapply nth_error_In; eauto.
      * cbn [emit_terminal] in C. destruct (emit_match t ser1) as [[m s']|] eqn:M; [|discriminate]. injection C as <- _.
        destruct (St info p t I1 I2 I3) as (A & B & G). eapply match_ok; eauto.
      * cbn [emit_terminal] in C. injection C as <- _. apply scoped_step; [reflexivity| |intros d []|].
        -- constructor; try (apply xi_int; reflexivity). constructor; reflexivity.
        -- apply scoped_step; [reflexivity| |intros d []|]; [constructor; [reflexivity|constructor]|].
           apply scoped_step; [reflexivity|constructor|intros d []|constructor].
  - intros x Ix. destruct (nth_error (sg_nts sg) (sg_start sg)) as [nt|] eqn:N; [|apply nth_error_None in N; pose proof (so_start _ Ok); lia].
    specialize (Ss nt eq_refl). destruct (nt_alts nt) as [|p alts] eqn:Al; [congruence|].
    set (L := mkSlot (sg_start sg) 0 (length p)). assert (P : prod_of sg L = Some p) by (unfold prod_of, L; cbn [s_nt s_alt]; rewrite N, Al; reflexivity).
    pose proof (code_info sg ids slots As L p P (le_n _)) as Ci. destruct (Cases _ _ Ci) as (b & s1 & s2 & A & B & _).
    exists b. split; [eapply nth_error_In; eauto|]. unfold emit_case in B. cbn [si_nt si_dot si_plen L s_nt s_dot s_alt] in B. rewrite N, Nat.eqb_refl in B. injection B as <- _.
    apply used_here. cbn. destruct Ix as [<-|[<-|[]]]; auto.
  - rewrite Utf. split.
    + intros H. unfold scan_utf8 in H. apply existsb_exists in H as (nt & I1 & H). apply existsb_exists in H as (p & I2 & H). apply existsb_exists in H as (s & I3 & H).
      apply In_nth_error in I1 as [n N1]. apply In_nth_error in I2 as [a N2]. apply In_nth_error in I3 as [d N3].
      set (L := mkSlot n a d). assert (P : prod_of sg L = Some p) by (unfold prod_of, L; cbn [s_nt s_alt]; rewrite N1; auto).
      assert (Ld : (d < length p)%nat) by (apply nth_error_Some; congruence).
      pose proof (code_info sg ids slots As L p P ltac:(cbn; lia)) as Ci. destruct (Cases _ _ Ci) as (b & s1 & s2 & A & B & _).
      exists b. split; [eapply nth_error_In; eauto|]. apply case_utf8 in B as [B _]. rewrite B. cbn [si_nt si_alt si_dot si_plen L s_nt s_alt s_dot].
      unfold prod_of in P |- *. cbn [s_nt s_alt L] in P |- *. rewrite P. rewrite (proj2 (Nat.eqb_neq _ _)) by lia. rewrite N3. destruct s as [X|t|]; try discriminate. exact H.
    + intros (b & I & H). destruct (Of b I) as (k & si & ser1 & ser2 & N & C & _). apply case_utf8 in C as [C _]. rewrite H in C.
      destruct (prod_of sg _) as [p|] eqn:P; [|discriminate]. destruct (Nat.eqb _ _); [discriminate|]. destruct (nth_error p _) as [[X|t|]|] eqn:Ns; try discriminate.
      apply prod_inv in P as (nt & N1 & N2). apply existsb_exists. exists nt. split; [eapply nth_error_In; eauto|]. apply existsb_exists. exists p.
      split; [eapply nth_error_In; eauto|]. apply existsb_exists. exists (STerm t). split; [eapply nth_error_In; eauto|]. symmetry. exact C.
  - intros b k I J. destruct (Of b I) as (k' & si & ser1 & ser2 & N & C & tl & Tl). apply case_utf8 in C as [_ C]. specialize (C k J). rewrite Tl, app_length. lia.
Qed.

(** *** Compiled grammars *)
Definition core_ok (x : rep) : bool :=
  match x with
  | Rep mn mx e =>
      (((mx =? inf) || (mn <=? mx)) &&
       match e with
       | ERule n => match get_rule_in n core_rules with Some _ => true | None => false end
       | EGroup a => negb (Nat.eqb (length a) 0)
       | ENum b StatSeries ns => forallb (fun s => match numeral b s with Some v => valid_rune v | None => false end) ns
       | EProse _ => false
       | _ => true
       end)%bool
  end.
Lemma core_all : forallb core_ok (grammar_reps []) = true.
Proof. vm_compute. reflexivity. Qed.
Definition occ_ok (g : grammar) (x : rep) : Prop :=
  match x with
  | Rep mn mx e => (mx = inf \/ mn <= mx) /\ emittable e /\ match e with ERule n => exists r, get_rule n g = Some r | _ => True end
  end.
Lemma occ_all g : emittable_grammar g -> forall x, occ_rep g x -> occ_ok g x.
Proof.
  intros (Rd & Bo & Em). apply occ_split.
  - apply Forall_forall. intros [mn mx e] I. pose proof core_all as C. rewrite forallb_forall in C. specialize (C _ I). cbn [core_ok] in C.
    apply andb_true_iff in C as [C1 C2]. cbn [occ_ok]. split; [apply orb_true_iff in C1 as [C1|C1]; [left; apply Z.eqb_eq; auto|right; apply Z.leb_le; auto]|].
    destruct e as [n|a|a|s vs|b [] ns|q]; cbn [emittable]; split; auto; try discriminate.
    + unfold get_rule, get_rule_core. destruct (get_rule_in n g) as [r|]; [eauto|]. destruct (get_rule_in n core_rules) as [r|]; [eauto|discriminate].
    + intros ->. discriminate.
    + apply Forall_forall. intros s J. rewrite forallb_forall in C2. specialize (C2 s J). destruct (numeral b s) as [v|]; [|discriminate].
      exists v. split; auto. apply valid_rune_scalar. auto.
  - intros r [mn mx e] I J. destruct (Em r I) as [_ Em']. split.
    + destruct (Z.eq_dec mx inf) as [|Nq]; auto. right. eapply Bo; eauto.
    + split; [eapply Em'; eauto|]. destruct e as [n|a|a|s vs|b st ns|q]; auto. apply RecogGlue.get_rule_some. eapply (Rd r); eauto. exists mn, mx. exact J.
Qed.
Lemma prefix_app p a b : (p ++ a)%string = (p ++ b)%string -> a = b.
Proof. induction p as [|c p IH]; cbn; auto. intros E. injection E as E. auto. Qed.
Lemma get_rule_fold g n m : lower n = lower m -> get_rule n g = get_rule m g.
Proof.
  intros E. unfold get_rule, get_rule_core, get_rule_in.
  assert (H : forall l, find (fun r => equal_fold n (rule_name r)) l = find (fun r => equal_fold m (rule_name r)) l).
  { induction l as [|r l IH]; cbn [find]; auto. rewrite IH. replace (equal_fold n (rule_name r)) with (equal_fold m (rule_name r)) by (unfold equal_fold; rewrite E; reflexivity). reflexivity. }
  rewrite !H. reflexivity.
Qed.
Section Compiled.
  Variable g : grammar.
  Variable root : string.
  Variable sg : slot_grammar.
  Variable idx : index.
  Hypothesis R : represents g root sg idx.
  Hypothesis Rt : get_rule root g <> None.
  Hypothesis wf : wf_grammar g.
  Hypothesis runes : rune_values g.
  Hypothesis Em : emittable_grammar g.
  Lemma rule_nonempty n r : get_rule n g = Some r -> rule_alt r <> [].
  Proof.
    intros G. apply get_rule_listed in G. apply in_app_or in G as [G|G]; [apply (proj2 (proj2 Em) r G)|].
    assert (C : forallb (fun r => negb (Nat.eqb (length (rule_alt r)) 0)) core_rules = true) by (vm_compute; reflexivity).
    rewrite forallb_forall in C. specialize (C r G). intros E. rewrite E in C. discriminate.
  Qed.
  Lemma item_nonempty it id : assoc (key_of it) idx = Some id -> (match it with IRule n => exists r, get_rule n g = Some r | _ => True end) ->
    forall nt, nth_error (sg_nts sg) id = Some nt -> nt_alts nt <> [].
  Proof.
    intros A Hi nt N. destruct (nt_of_item g root sg idx R it id A) as (it' & nt' & K & O & N' & M). rewrite N in N'. injection N' as <-.
    destruct it' as [n|a|a|[mn mx e]]; cbn [occ_item nt_matches] in *.
    - destruct it as [m|b|b|r0]; try (cbn in K; discriminate). cbn [key_of] in K. apply prefix_app in K. destruct Hi as [r Hr].
      rewrite (get_rule_fold g n m K), Hr in M. destruct M as [_ M]. intros E. rewrite E in M. pose proof (rule_nonempty m r Hr). inversion M. congruence.
    - destruct M as [_ M]. intros E. rewrite E in M. inversion M as [E'|]. inversion O as [mn mx e Oc]; subst. destruct (occ_all g Em _ Oc) as (_ & X & _). apply X. reflexivity.
    - destruct M as (_ & alts & -> & _). discriminate.
    - destruct (occ_all g Em _ (proj1 O)) as (B & _). destruct M as [(C & D & _)|(_ & es & _ & ->)]; [exfalso; destruct B; [congruence|lia]|]. discriminate.
  Qed.
  Lemma compiled_scope : sg_scope sg.
  Proof.
    destruct (wf_occ g wf) as [We Wr]. split.
    - intros nt p X nt' A B C N. destruct (sg_sym g root sg idx R _ _ _ A B C) as (id & Ni & [E|[E|(mn & mx & e & O & E)]]); try discriminate.
      + injection E as ->. rewrite Ni in N. injection N as <-. intros E. rewrite E in B. destruct B.
      + destruct (occ_all g Em _ O) as (_ & _ & Rf).
        assert (H : forall s, elem_sym idx e s -> s = SNonterm X -> nt_alts nt' <> []).
        { intros s Es ->. apply elem_sym_nt in Es as (it & K & Ke). eapply item_nonempty; eauto. destruct e; try (destruct Ke; fail); rewrite Ke; auto. }
        destruct E as [E|[(_ & _ & E)|(_ & x & E & K)]]; [eapply H; eauto|eapply H; eauto|].
        injection E as <-. eapply item_nonempty; eauto. cbn. auto.
    - intros nt A Ir. apply In_nth_error in A as [id N]. destruct (nt_item g root sg idx R id nt N) as (it & _ & O & M).
      destruct it as [n|a|a|[mn mx e]]; cbn [occ_item nt_matches] in *.
      + destruct (get_rule n g); [destruct M as [(H & _) _]; congruence|subst; discriminate].
      + destruct M as [(H & _) _]; congruence.
      + destruct M as [(H & _) _]; congruence.
      + destruct M as [(_ & _ & ->)|(B & es & _ & ->)]; [discriminate|]. cbn [nt_repmin nt_repmax]. split; auto. destruct O as [O _]. apply Wr in O. inversion O; auto.
    - intros nt p t A B C. pose proof (sg_term g root sg idx R _ _ _ A B C) as O. split; [|split].
      + destruct (sg_sym g root sg idx R _ _ _ A B C) as (id & Ni & [E|[E|(mn & mx & e & Oc & E)]]); try discriminate.
        assert (H : elem_sym idx e (STerm t) -> is_terminal t = true) by (destruct e; cbn; try (intros (? & Q & _); discriminate); intros Q; injection Q as ->; reflexivity).
        destruct E as [E|[(_ & _ & E)|(_ & x & E & _)]]; auto. discriminate.
      + inversion O as [mn mx e Oc]; subst. apply (occ_all g Em _ Oc).
      + intros s vs ->. eapply runes; eauto.
    - intros nt N. eapply (item_nonempty (IRule root)); eauto; [apply (rp_start _ _ _ _ R)|]. destruct (get_rule root g) as [r|]; [eauto|congruence].
  Qed.
End Compiled.
