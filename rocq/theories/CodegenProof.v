(** The emitted parser performs the steps of the BSR engine.
    Its definitions are means of proof and model no code. *)
From Coq Require Import ZArith String Bool List Lia.
From Verif Require Import Syntax Spec Utf8 Num Term Printer Slots Gll Bsr Codegen CodegenStmt.
Import ListNotations.
Local Open Scope string_scope.
Local Open Scope list_scope.
Local Open Scope Z_scope.

(** *** Slot numbers *)
Lemma assign_alts_spec nt alts : forall alt slots ids s, assign_alts nt alt alts slots = (ids, s) ->
  length ids = length alts /\ (exists tl, s = slots ++ tl) /\
  forall a p, nth_error alts a = Some p ->
    exists id, nth_error ids a = Some id /\
      forall d, (d <= length p)%nat -> nth_error s (id + d) = Some (mkSI nt (alt + a) d (length p)).
Proof.
  induction alts as [|prod alts IH]; intros alt slots ids s; cbn [assign_alts].
  - intros E. injection E as <- <-. split; auto. split; [exists []; rewrite app_nil_r; auto|]. intros a p N. destruct a; discriminate.
  - destruct (assign_alts nt (S alt) alts _) as [ids' s'] eqn:E. intros X. injection X as <- <-.
    apply IH in E as (L & (tl & T) & H). split; [cbn [length]; congruence|]. split; [subst s'; rewrite <- app_assoc; eauto|].
    intros [|a] p N; cbn [nth_error] in *.
    + injection N as <-. exists (length slots). split; auto. intros d D. subst s'.
      rewrite nth_error_app1 by (rewrite app_length, map_length, seq_length; lia).
      rewrite nth_error_app2 by lia. replace (length slots + d - length slots)%nat with d by lia.
      rewrite nth_error_map, (nth_error_nth' _ 0%nat) by (rewrite seq_length; lia). rewrite seq_nth by lia. cbn. rewrite Nat.add_0_r. reflexivity.
    + destruct (H a p N) as (id & I & J). exists id. split; auto. intros d D. rewrite J by auto. f_equal. f_equal. lia.
Qed.
Lemma assign_nts_spec nts : forall nt slots idss s, assign_nts nt nts slots = (idss, s) ->
  length idss = length nts /\ (exists tl, s = slots ++ tl) /\
  forall n info, nth_error nts n = Some info ->
    exists ids, nth_error idss n = Some ids /\ length ids = length (nt_alts info) /\
      forall a p, nth_error (nt_alts info) a = Some p -> exists id, nth_error ids a = Some id /\
        forall d, (d <= length p)%nat -> nth_error s (id + d) = Some (mkSI (nt + n) a d (length p)).
Proof.
  induction nts as [|info nts IH]; intros nt slots idss s; cbn [assign_nts].
  - intros E. injection E as <- <-. split; auto. split; [exists []; rewrite app_nil_r; auto|]. intros a p N. destruct a; discriminate.
  - destruct (assign_alts nt 0 (nt_alts info) slots) as [ids s1] eqn:E1. destruct (assign_nts (S nt) nts s1) as [idss' s2] eqn:E2.
    intros X. injection X as <- <-. apply assign_alts_spec in E1 as (L1 & (t1 & T1) & H1). apply IH in E2 as (L2 & (t2 & T2) & H2).
    split; [cbn [length]; congruence|]. split; [subst; rewrite <- app_assoc; eauto|].
    intros [|n] i N; cbn [nth_error] in *.
    + injection N as <-. exists ids. split; auto. split; auto. intros a p Na. destruct (H1 a p Na) as (id & I & J).
      exists id. split; auto. intros d D. subst s2. rewrite nth_error_app1; [rewrite J by auto; f_equal; f_equal; lia|].
      apply nth_error_Some. rewrite J by auto. discriminate.
    + destruct (H2 n i N) as (ids' & I & J & K). exists ids'. split; auto. split; auto. intros a p Na.
      destruct (K a p Na) as (id & I2 & J2). exists id. split; auto. intros d D. rewrite J2 by auto. f_equal. f_equal. lia.
Qed.
(** Every slot in the list is one of a production, in order. *)
Lemma assign_alts_all nt alts : forall alt slots ids s, assign_alts nt alt alts slots = (ids, s) ->
  forall k si, nth_error s k = Some si -> nth_error slots k = Some si \/
    exists a p id, nth_error alts a = Some p /\ nth_error ids a = Some id /\ (si_dot si <= length p)%nat /\
      k = (id + si_dot si)%nat /\ si = mkSI nt (alt + a) (si_dot si) (length p).
Proof.
  induction alts as [|prod alts IH]; intros alt slots ids s; cbn [assign_alts].
  - intros E. injection E as <- <-. auto.
  - destruct (assign_alts nt (S alt) alts _) as [ids' s'] eqn:E. intros X. injection X as <- <-. intros k si N.
    destruct (IH _ _ _ _ E k si N) as [N'|(a & p & id & A & B & C & D & F)].
    + destruct (Nat.lt_ge_cases k (length slots)) as [Lt|Ge]; [left; rewrite nth_error_app1 in N' by auto; auto|right].
      rewrite nth_error_app2 in N' by auto.
      rewrite nth_error_map in N'. destruct (nth_error (seq 0 (S (length prod))) (k - length slots)) as [d|] eqn:Sq; [|discriminate].
      assert (Ls : (k - length slots < S (length prod))%nat) by (rewrite <- (seq_length (S (length prod)) 0); apply nth_error_Some; congruence).
      rewrite (nth_error_nth' _ 0%nat) in Sq by (rewrite seq_length; lia). rewrite seq_nth in Sq by lia. injection Sq as <-.
      cbn [option_map] in N'. injection N' as <-. exists 0%nat, prod, (length slots). cbn [nth_error si_dot]. repeat split; auto; try lia.
      f_equal. lia.
    + right. exists (S a), p, id. cbn [nth_error]. repeat split; auto. rewrite F at 1. f_equal. lia.
Qed.
Lemma assign_nts_all nts : forall nt slots idss s, assign_nts nt nts slots = (idss, s) ->
  forall k si, nth_error s k = Some si -> nth_error slots k = Some si \/
    exists n info ids a p id, nth_error nts n = Some info /\ nth_error idss n = Some ids /\ nth_error (nt_alts info) a = Some p /\
      nth_error ids a = Some id /\ (si_dot si <= length p)%nat /\ k = (id + si_dot si)%nat /\ si = mkSI (nt + n) a (si_dot si) (length p).
Proof.
  induction nts as [|info nts IH]; intros nt slots idss s; cbn [assign_nts].
  - intros E. injection E as <- <-. auto.
  - destruct (assign_alts nt 0 (nt_alts info) slots) as [ids s1] eqn:E1. destruct (assign_nts (S nt) nts s1) as [idss' s2] eqn:E2.
    intros X. injection X as <- <-. intros k si N.
    destruct (IH _ _ _ _ E2 k si N) as [N'|(n & inf & ids' & a & p & id & A & B & C & D & F & G & H)].
    + destruct (assign_alts_all _ _ _ _ _ _ E1 k si N') as [N''|(a & p & id & A & B & C & D & F)]; auto. right.
      exists 0%nat, info, ids, a, p, id. cbn [nth_error]. repeat split; auto. rewrite F at 1. f_equal; lia.
    + right. exists (S n), inf, ids', a, p, id. cbn [nth_error]. repeat split; auto. rewrite H at 1. f_equal. lia.
Qed.

(** What the lowering gives. *)
Record sg_ok (sg : slot_grammar) : Prop := {
  so_start : (sg_start sg < length (sg_nts sg))%nat;
  so_nt : forall nt p X, In nt (sg_nts sg) -> In p (nt_alts nt) -> In (SNonterm X) p -> (X < length (sg_nts sg))%nat;
  so_rep : forall nt, In nt (sg_nts sg) -> nt_isrep nt = true -> length (nt_alts nt) = 2%nat /\ 0 <= nt_repmin nt;
  so_range : forall nt p b es, In nt (sg_nts sg) -> In p (nt_alts nt) -> In (STerm (ENum b StatRange es)) p -> length es = 2%nat;
  so_char : forall nt p s vs, In nt (sg_nts sg) -> In p (nt_alts nt) -> In (STerm (EChar s vs)) p -> Forall (fun v => 0 <= v) vs }.

Section Sim.
  Variable sg : slot_grammar.
  Hypothesis Ok : sg_ok sg.
  Variable ids : list (list nat).
  Variable slots : list sinfo.
  Hypothesis As : assign_slots sg = (ids, slots).

  (** A slot of the grammar, and its number. *)
  Definition vslot (L : slot) : Prop := exists p, prod_of sg L = Some p /\ (s_dot L <= length p)%nat.
  Definition code (L : slot) : nat := match start_id ids (s_nt L) (s_alt L) with Some b => b + s_dot L | None => 0 end.

  Lemma prod_inv L p : prod_of sg L = Some p -> exists nt, nth_error (sg_nts sg) (s_nt L) = Some nt /\ nth_error (nt_alts nt) (s_alt L) = Some p.
  Proof. unfold prod_of. destruct (nth_error (sg_nts sg) (s_nt L)) as [nt|]; [|discriminate]. eauto. Qed.
  Lemma start_ok L p : prod_of sg L = Some p -> exists b, start_id ids (s_nt L) (s_alt L) = Some b /\
    forall d, (d <= length p)%nat -> nth_error slots (b + d) = Some (mkSI (s_nt L) (s_alt L) d (length p)).
  Proof.
    intros P. apply prod_inv in P as (nt & N & A). destruct (assign_nts_spec _ _ _ _ _ As) as (_ & _ & H).
    destruct (H _ _ N) as (l & I & _ & K). destruct (K _ _ A) as (id & I' & J). exists id. unfold start_id. rewrite I. split; auto.
  Qed.
  Lemma code_info L p : prod_of sg L = Some p -> (s_dot L <= length p)%nat ->
    nth_error slots (code L) = Some (mkSI (s_nt L) (s_alt L) (s_dot L) (length p)).
  Proof. intros P D. destruct (start_ok L p P) as (b & B & H). unfold code. rewrite B. auto. Qed.
  Lemma code_inj L L' : vslot L -> vslot L' -> code L = code L' -> L = L'.
  Proof.
    intros (p & P & D) (p' & P' & D') E. pose proof (code_info L p P D) as A. pose proof (code_info L' p' P' D') as B. rewrite E, B in A.
    injection A as E1 E2 E3 _. destruct L, L'. cbn in *. congruence.
  Qed.
  Lemma code_adv L p : prod_of sg L = Some p -> code (adv L) = S (code L).
  Proof. intros P. destruct (start_ok L p P) as (b & B & _). unfold code, adv. cbn [s_nt s_alt s_dot]. rewrite B. lia. Qed.
  Lemma code_start nt alt b : start_id ids nt alt = Some b -> code (mkSlot nt alt 0) = b.
  Proof. intros B. unfold code. cbn [s_nt s_alt s_dot]. rewrite B. lia. Qed.
  Lemma slot_all k si : nth_error slots k = Some si -> let L := mkSlot (si_nt si) (si_alt si) (si_dot si) in
    k = code L /\ exists p, prod_of sg L = Some p /\ (si_dot si <= length p)%nat /\ si_plen si = length p.
  Proof.
    intros N. destruct (assign_nts_all _ _ _ _ _ As k si N) as [X|(n & info & l & a & p & id & A & B & C & D & F & G & H)]; [destruct k; discriminate|].
    cbn zeta. rewrite H. cbn [si_nt si_alt si_dot si_plen]. rewrite Nat.add_0_l. split.
    - unfold code, start_id. cbn [s_nt s_alt s_dot]. rewrite B, D. auto.
    - exists p. unfold prod_of. cbn [s_nt s_alt]. rewrite A. auto.
  Qed.

  (** *** States *)
  Variable input : list Z.
  Definition cz (L : slot) : Z := Z.of_nat (code L).
  Definition eg (u : gss) : ggss := match u with U0 => GU0 | GN ret pos rc => GGN (cz ret) (Z.of_nat pos) rc end.
  Definition ee (e : belem) : gelem := mkGE (cz (be_slot e)) (Z.of_nat (be_l e)) (Z.of_nat (be_k e)) (Z.of_nat (be_r e)).
  Definition ed (d : bdesc) : gdesc := mkGD (cz (bd_L d)) (eg (bd_u d)) (Z.of_nat (bd_i d)) (bd_rc d).
  Definition egg (x : gss * gss) : ggss * ggss := (eg (fst x), eg (snd x)).
  Definition egp (x : gss * nat) : ggss * Z := (eg (fst x), Z.of_nat (snd x)).
  Definition es (st : bstate) : gstate :=
    mkG (map ed (b_seen st)) (map ed (b_work st)) (map egg (b_edges st)) (map egp (b_popped st)) (map ee (b_set st)) (b_aborted st) (b_tick st).
  Definition vgss (u : gss) : Prop := match u with U0 => True | GN ret _ _ => vslot ret end.
  Definition vdesc (d : bdesc) : Prop := vslot (bd_L d) /\ vgss (bd_u d) /\ (bd_i d <= length input)%nat.
  Record vst (st : bstate) : Prop := {
    v_seen : Forall vdesc (b_seen st);
    v_work : Forall vdesc (b_work st);
    v_edges : Forall (fun x => vgss (fst x) /\ vgss (snd x)) (b_edges st);
    v_popped : Forall (fun x => vgss (fst x) /\ (snd x <= length input)%nat) (b_popped st);
    v_set : Forall (fun e => vslot (be_slot e)) (b_set st) }.

  Lemma cz_inj L L' : vslot L -> vslot L' -> cz L = cz L' -> L = L'.
  Proof. intros V V' E. apply code_inj; auto. unfold cz in E. lia. Qed.
  Lemma eg_inj u u' : vgss u -> vgss u' -> eg u = eg u' -> u = u'.
  Proof.
    destruct u, u'; cbn; intros V V' E; try discriminate; auto. injection E as E1 E2 ->. apply cz_inj in E1; auto. subst. f_equal. lia.
  Qed.
  Lemma eg_pos u : gg_pos (eg u) = Z.of_nat (g_pos u).
  Proof. destruct u; reflexivity. Qed.
  Lemma ee_inj e e' : vslot (be_slot e) -> vslot (be_slot e') -> ee e = ee e' -> e = e'.
  Proof. destruct e, e'. cbn. unfold ee. cbn. intros V V' E. injection E as E1 E2 E3 E4. apply cz_inj in E1; auto. subst. f_equal; lia. Qed.
  Lemma ed_inj d d' : vdesc d -> vdesc d' -> ed d = ed d' -> d = d'.
  Proof.
    destruct d, d'. unfold vdesc, ed. cbn. intros (V1 & V2 & _) (V1' & V2' & _) E. injection E as E1 E2 E3 E4. apply cz_inj in E1; auto. apply eg_inj in E2; auto.
    subst. f_equal; lia.
  Qed.
  Lemma in_map_dec {A B} (da : forall x y : A, {x = y} + {x <> y}) (db : forall x y : B, {x = y} + {x <> y}) (f : A -> B) (V : A -> Prop) x l :
    (forall a b, V a -> V b -> f a = f b -> a = b) -> V x -> Forall V l ->
    (if in_dec db (f x) (map f l) then true else false) = (if in_dec da x l then true else false).
  Proof.
    intros Inj Vx Vl. destruct (in_dec da x l) as [I|N], (in_dec db (f x) (map f l)) as [I'|N']; auto.
    - exfalso. apply N', in_map, I.
    - exfalso. apply in_map_iff in I' as (y & E & I'). apply N. apply Inj in E; auto; [subst; auto|]. rewrite Forall_forall in Vl. auto.
  Qed.
  Lemma dec_if {A B : Prop} {T} (x : {A} + {~ A}) (y : {B} + {~ B}) (a b : T) :
    (if x then true else false) = (if y then true else false) -> (if x then a else b) = (if y then a else b).
  Proof. destruct x, y; auto; discriminate. Qed.

  (** *** The runtime *)
  Variable mx : Z.
  Variable ord : nat -> list nat -> list nat.
  Variable gord : nat -> list Z -> list Z.
  Hypothesis Oin : forall t l x, In x (ord t l) -> In x l.
  Hypothesis Ord : forall t l, gord t (map Z.of_nat l) = map Z.of_nat (ord t l).
  Variable pg : program.
  Hypothesis Info : pg_info pg = slots.

  Lemma add_sim L u i rc st : vslot L -> vgss u -> (i <= length input)%nat -> vst st ->
    g_add (cz L) (eg u) (Z.of_nat i) rc (es st) = es (b_add L u i rc st) /\ vst (b_add L u i rc st).
  Proof.
    intros V U Li [A B C D E]. unfold g_add, b_add. change (mkGD (cz L) (eg u) (Z.of_nat i) rc) with (ed (mkBD L u i rc)).
    pose proof (in_map_dec bdesc_eq_dec gdesc_eq_dec ed vdesc (mkBD L u i rc) (b_seen st) ed_inj (conj V (conj U Li)) A) as X.
    cbn [gs_seen es]. destruct (in_dec gdesc_eq_dec _ _), (in_dec bdesc_eq_dec _ _); try discriminate; split; try reflexivity; try (constructor; auto; fail).
    constructor; cbn; auto; constructor; auto; split; auto.
  Qed.
  Lemma info_code L p : prod_of sg L = Some p -> (s_dot L <= length p)%nat ->
    info_of pg (cz L) = Some (mkSI (s_nt L) (s_alt L) (s_dot L) (length p)).
  Proof.
    intros P D. unfold info_of, cz. rewrite (proj2 (Z.ltb_ge _ _)) by lia. rewrite Nat2Z.id, Info. apply code_info; auto.
  Qed.
  Lemma record_sim L l k r st : vslot L -> vst st ->
    g_record mx pg (cz L) (Z.of_nat l) (Z.of_nat k) (Z.of_nat r) (es st) = Val (es (b_record sg mx L l k r st)) /\ vst (b_record sg mx L l k r st).
  Proof.
    intros V S. pose proof V as (p & P & D). pose proof S as [S1 S2 S3 S4 S5]. unfold g_record, b_record. rewrite (info_code L p P D), P. cbn [si_dot si_plen].
    destruct (Nat.leb 2 (s_dot L) || Nat.eqb (s_dot L) (length p))%bool; [|auto].
    change (gs_set (es st)) with (map ee (b_set st)). rewrite map_length.
    destruct ((0 <? mx) && (mx <=? Z.of_nat (length (b_set st))))%bool; [split; [reflexivity|constructor; auto]|].
    change (mkGE (cz L) (Z.of_nat l) (Z.of_nat k) (Z.of_nat r)) with (ee (mkBE L l k r)).
    pose proof (in_map_dec belem_eq_dec gelem_eq_dec ee (fun e => vslot (be_slot e)) (mkBE L l k r) (b_set st) ee_inj V S5) as X.
    destruct (in_dec gelem_eq_dec _ _), (in_dec belem_eq_dec _ _); try discriminate; split; auto. constructor; auto.
    cbn [b_set]. constructor; auto.
  Qed.
  Lemma fold_sim {A B} (f : bstate -> A -> bstate) (h : gstate -> B -> res gstate) (c : A -> B) l : forall st,
    (forall s x, In x l -> vst s -> h (es s) (c x) = Val (es (f s x)) /\ vst (f s x)) -> vst st ->
    fold_res h (map c l) (es st) = Val (es (fold_left f l st)) /\ vst (fold_left f l st).
  Proof.
    induction l as [|x l IH]; intros st H V; cbn [map fold_res fold_left]; [auto|].
    destruct (H st x (or_introl eq_refl) V) as [E V']. rewrite E. cbn [bind]. apply IH; auto. intros s y I. apply H. right; auto.
  Qed.
  Lemma popped_map v l : vgss v -> Forall (fun x => vgss (fst x) /\ (snd x <= length input)%nat) l -> g_popped_of (eg v) (map egp l) = map Z.of_nat (popped_of v l).
  Proof.
    intros V F. unfold g_popped_of, popped_of. induction F as [|[w j] l [Vw _] F IH]; cbn [map filter egp fst snd]; auto. cbn [fst] in Vw.
    destruct (ggss_eq_dec (eg w) (eg v)) as [E|N], (gss_eq_dec w v) as [E'|N']; cbn [map snd]; try (f_equal; exact IH); auto.
    - exfalso. apply N'. apply eg_inj; auto.
    - exfalso. apply N. congruence.
  Qed.
  Lemma edges_map v l : vgss v -> Forall (fun x => vgss (fst x) /\ vgss (snd x)) l -> g_edges_of (eg v) (map egg l) = map eg (edges_of v l).
  Proof.
    intros V F. unfold g_edges_of, edges_of. induction F as [|[w j] l Vw F IH]; cbn [map filter egg fst snd]; auto. cbn [fst snd] in Vw.
    destruct (ggss_eq_dec (eg w) (eg v)) as [E|N], (gss_eq_dec w v) as [E'|N']; cbn [map snd]; try (f_equal; exact IH); auto.
    - exfalso. apply N'. apply eg_inj; auto. apply Vw.
    - exfalso. apply N. congruence.
  Qed.
  Lemma egg_inj a b : vgss (fst a) /\ vgss (snd a) -> vgss (fst b) /\ vgss (snd b) -> egg a = egg b -> a = b.
  Proof. destruct a, b. unfold egg. cbn. intros [] [] E. injection E as E1 E2. f_equal; apply eg_inj; auto. Qed.
  Lemma egp_inj a b : vgss (fst a) /\ (snd a <= length input)%nat -> vgss (fst b) /\ (snd b <= length input)%nat -> egp a = egp b -> a = b.
  Proof. destruct a, b. unfold egp. cbn. intros [V1 _] [V2 _] E. injection E as E1 E2. f_equal; [apply eg_inj; auto|lia]. Qed.

  Lemma popped_le v l j : Forall (fun x => vgss (fst x) /\ (snd x <= length input)%nat) l -> In j (popped_of v l) -> (j <= length input)%nat.
  Proof.
    intros F I. unfold popped_of in I. apply in_map_iff in I as ([a b] & <- & I). apply filter_In in I as [I _].
    rewrite Forall_forall in F. apply (F _ I).
  Qed.
  Lemma create_sim ret u i rc st : vslot ret -> vgss u -> vst st ->
    g_create mx gord pg (cz ret) (eg u) (Z.of_nat i) rc (es st) = Val (es (b_create sg mx (fun t _ l => ord t l) ret u i rc st)) /\
    vst (b_create sg mx (fun t _ l => ord t l) ret u i rc st).
  Proof.
    intros V U S. pose proof S as [S1 S2 S3 S4 S5]. unfold g_create, b_create. change (GGN (cz ret) (Z.of_nat i) rc) with (eg (GN ret i rc)).
    change (eg (GN ret i rc), eg u) with (egg (GN ret i rc, u)). change (gs_edges (es st)) with (map egg (b_edges st)).
    pose proof (in_map_dec gg_eq_dec gedge_eq_dec egg (fun x => vgss (fst x) /\ vgss (snd x)) (GN ret i rc, u) (b_edges st) egg_inj (conj V U) S3) as X.
    destruct (in_dec gedge_eq_dec _ _), (in_dec gg_eq_dec _ _); try discriminate; auto.
    change (gs_popped (es st)) with (map egp (b_popped st)). rewrite popped_map, Ord by auto.
    change (gs_tick (es st)) with (b_tick st).
    match goal with |- fold_res ?h (map _ ?l) _ = Val (es (fold_left ?f _ ?s)) /\ _ => 
      assert (E : es s = mkG (gs_seen (es st)) (gs_work (es st)) (map egg (b_edges st) ++ [egg (GN ret i rc, u)]) (map egp (b_popped st)) (gs_set (es st)) (gs_aborted (es st)) (Datatypes.S (b_tick st)))
        by (unfold es; cbn [b_seen b_work b_edges b_popped b_set b_aborted b_tick gs_seen gs_work gs_set gs_aborted]; rewrite map_app; reflexivity);
      rewrite <- E; apply (fold_sim f h Z.of_nat l s) end.
    - intros s j Ij Vs. rewrite eg_pos. apply Oin in Ij. apply popped_le in Ij; auto. destruct (record_sim ret (g_pos u) i j s V Vs) as [E1 V1]. rewrite E1. cbn [bind].
      destruct (add_sim ret u j rc _ V U Ij V1) as [E2 V2]. rewrite E2. auto.
    - constructor; cbn [b_seen b_work b_edges b_popped b_set]; auto. apply Forall_app. split; auto.
  Qed.
  Lemma edges_vgss u l v : Forall (fun x => vgss (fst x) /\ vgss (snd x)) l -> In v (edges_of u l) -> vgss v.
  Proof.
    intros F I. unfold edges_of in I. apply in_map_iff in I as ([a b] & <- & I). apply filter_In in I as [I _].
    rewrite Forall_forall in F. apply (F _ I).
  Qed.
  Lemma pop_sim u j st : vgss u -> (j <= length input)%nat -> vst st ->
    g_pop mx pg (eg u) (Z.of_nat j) (es st) = Val (es (b_pop sg mx u j st)) /\ vst (b_pop sg mx u j st).
  Proof.
    intros U J S. pose proof S as [S1 S2 S3 S4 S5]. destruct u as [|ret pos rc]; [split; auto|]. unfold g_pop, b_pop.
    change (eg (GN ret pos rc)) with (GGN (cz ret) (Z.of_nat pos) rc) at 1. cbn match. change (GGN (cz ret) (Z.of_nat pos) rc) with (eg (GN ret pos rc)).
    change (gs_edges (es st)) with (map egg (b_edges st)). change (gs_popped (es st)) with (map egp (b_popped st)).
    change (eg (GN ret pos rc), Z.of_nat j) with (egp (GN ret pos rc, j)). rewrite edges_map by auto.
    pose proof (in_map_dec gn_eq_dec gpop_eq_dec egp (fun x => vgss (fst x) /\ (snd x <= length input)%nat) (GN ret pos rc, j) (b_popped st) egp_inj (conj U J) S4) as X.
    match goal with |- fold_res ?h (map _ ?l) ?gs = Val (es (fold_left ?f _ ?s)) /\ _ => 
      assert (E : gs = es s /\ vst s) end.
    { destruct (in_dec gpop_eq_dec _ _), (in_dec gn_eq_dec _ _); try discriminate; split; auto; try reflexivity.
      constructor; cbn [b_seen b_work b_edges b_popped b_set]; auto. }
    destruct E as [-> V]. apply fold_sim; auto. intros s v I Vs. rewrite eg_pos. apply edges_vgss in I; auto.
    destruct (record_sim ret (g_pos v) pos j s U Vs) as [E1 V1]. rewrite E1. cbn [bind].
    destruct (add_sim ret v j rc _ U I J V1) as [E2 V2]. rewrite E2. auto.
  Qed.

  (** *** One case of the switch *)
  Hypothesis Cases : forall k si, nth_error slots k = Some si -> exists b ser1 ser2,
    nth_error (pg_cases pg) k = Some b /\ emit_case sg ids k si ser1 = Some (b, ser2) /\ exists tl, pg_series pg = ser2 ++ tl.
  Hypothesis Utf : pg_utf8 pg = scan_utf8 sg.
  Notation ex := (exec input mx gord pg).
  Notation sq := (exec_seq (exec input mx gord pg)).
  Notation border := (fun (t : nat) (_ : gss) (l : list nat) => ord t l).
  Definition benv (L : Z) (u : gss) (i : nat) (rc : Z) : genv := [("L", VNum L); ("u", VNode (eg u)); ("i", VNum (Z.of_nat i)); ("rc", VNum rc)].

  Lemma vslot_start X nt a : nth_error (sg_nts sg) X = Some nt -> (a < length (nt_alts nt))%nat -> vslot (mkSlot X a 0).
  Proof.
    intros N A. destruct (nth_error (nt_alts nt) a) as [p|] eqn:E; [|apply nth_error_None in E; lia].
    exists p. unfold prod_of. cbn [s_nt s_alt s_dot]. rewrite N. split; auto. lia.
  Qed.
  Lemma starts_valid c rc X nt L rc' : nth_error (sg_nts sg) X = Some nt -> In (L, rc') (starts sg c rc X) -> vslot L.
  Proof.
    intros N I. unfold starts in I. rewrite N in I. destruct (nt_isrep nt) eqn:R.
    - destruct (so_rep _ Ok nt (nth_error_In _ _ N) R) as [L2 _]. unfold rep_alts in I. apply in_app_or in I as [I|I].
      + destruct (_ <=? _); [|destruct I]. destruct I as [I|[]]. injection I as <- _. eapply vslot_start; eauto. lia.
      + destruct (_ || _)%bool; [|destruct I]. destruct I as [I|[]]. injection I as <- _. eapply vslot_start; eauto. lia.
    - apply in_map_iff in I as (a & E & I). injection E as <- _. apply in_seq in I. eapply vslot_start; eauto. lia.
  Qed.
  Lemma adds_vst l v i : vgss v -> (i <= length input)%nat -> forall st, (forall x, In x l -> vslot (fst x)) -> vst st ->
    vst (fold_left (fun s x => b_add (fst x) v i (snd x) s) l st).
  Proof.
    intros V I. induction l as [|x l IH]; intros st Vl S; cbn [fold_left]; auto. apply IH; [intros y J; apply Vl; right; auto|].
    apply add_sim; auto. apply Vl. left. auto.
  Qed.
  (** The p.add statements. *)
  Lemma add_exec L v i rcx rc e st : lookup "v" e = Some (VNode (eg v)) -> lookup "i" e = Some (VNum (Z.of_nat i)) -> eval input pg rcx e = Val rc ->
    vslot L -> vgss v -> (i <= length input)%nat -> vst st ->
    ex (XAdd (cz L) "v" xi rcx) e (es st) = ONext e (es (b_add L v i rc st)).
  Proof.
    intros Lv Li E V U I S. cbn [exec]. unfold node_of. rewrite Lv. cbn [with_val]. rewrite (eval_i _ _ _ _ Li), E. cbn [with_val].
    rewrite (proj1 (add_sim L v i rc st V U I S)). reflexivity.
  Qed.
  Lemma adds_exec v i e : lookup "v" e = Some (VNode (eg v)) -> lookup "i" e = Some (VNum (Z.of_nat i)) -> vgss v -> (i <= length input)%nat ->
    forall l st, (forall L, In L l -> vslot L) -> vst st ->
    sq (map (fun L => XAdd (cz L) "v" xi (XInt 0)) l) e (es st) = ONext e (es (fold_left (fun s x => b_add (fst x) v i (snd x) s) (map (fun L => (L, 0)) l) st)).
  Proof.
    intros Lv Li U I. induction l as [|L l IH]; intros st Vl S; cbn [map exec_seq fold_left]; auto.
    rewrite (add_exec L v i (XInt 0) 0 e st) by (auto; apply Vl; left; auto). cbn [fst snd]. apply IH; [intros y J; apply Vl; right; auto|].
    apply add_sim; auto. apply Vl. left. auto.
  Qed.
  Lemma collect_seq X l : forall n k, collect (start_id ids X) (seq k n) = Some l -> map Z.of_nat l = map cz (map (fun a => mkSlot X a 0) (seq k n)).
  Proof.
    intros n k. revert n k l. assert (H : forall n k l, collect (start_id ids X) (seq k n) = Some l -> map Z.of_nat l = map cz (map (fun a => mkSlot X a 0) (seq k n))).
    { induction n as [|n IH]; intros k l; cbn [seq collect map]; [intros E; injection E as <-; auto|].
      destruct (start_id ids X k) as [b|] eqn:B; [|discriminate]. destruct (collect (start_id ids X) (seq (S k) n)) as [r|] eqn:R; [|discriminate].
      intros E. injection E as <-. cbn [map]. f_equal; [|apply IH; auto]. unfold cz. rewrite (code_start _ _ _ B). reflexivity. }
    auto.
  Qed.
  Lemma call_exec L p X rest u i rc st si b : prod_of sg L = Some p -> skipn (s_dot L) p = SNonterm X :: rest -> si_nt si = s_nt L ->
    emit_call sg ids si X (cz (adv L)) = Some b -> vgss u -> (i <= length input)%nat -> vst st ->
    sq b (benv (cz L) u i rc) (es st) = OReturn (es (b_process sg input mx border (SNonterm X :: rest) L u i rc st)) /\
    vst (b_process sg input mx border (SNonterm X :: rest) L u i rc st).
  Proof.
    intros P Sk Sn Em U I S.
    assert (D : (s_dot (adv L) <= length p)%nat).
    { cbn [adv s_dot]. pose proof (skipn_length (s_dot L) p) as Q. rewrite Sk in Q. cbn [length] in Q. lia. }
    assert (Va : vslot (adv L)) by (exists p; split; auto).
    cbn [b_process]. destruct (create_sim (adv L) u i rc st Va U S) as [Ec Vc]. set (st1 := b_create sg mx border (adv L) u i rc st) in *.
    set (v := GN (adv L) i rc). assert (Vv : vgss v) by exact Va.
    unfold emit_call in Em. destruct (nth_error (sg_nts sg) X) as [nt|] eqn:N; [|discriminate].
    assert (Vs : forall x, In x (starts sg (s_nt L) rc X) -> vslot (fst x)) by (intros [L' rc'] J; eapply starts_valid; eauto).
    split; [|apply adds_vst; auto].
    assert (Cr : forall tl, sq (XCreate "v" (cz (adv L)) "u" xi (XVar "rc") :: tl) (benv (cz L) u i rc) (es st) =
      sq tl (("v", VNode (eg v)) :: benv (cz L) u i rc) (es st1)).
    { intros tl. cbn [exec_seq exec]. unfold node_of, benv at 1. cbn [lookup String.eqb Ascii.eqb Bool.eqb with_val].
      rewrite (eval_i _ _ _ (Z.of_nat i)) by reflexivity. cbn [with_val eval]. unfold num_of. cbn [benv lookup String.eqb Ascii.eqb Bool.eqb with_val].
      rewrite Ec. reflexivity. }
    unfold starts in *. rewrite N in Vs |- *. destruct (nt_isrep nt) eqn:R.
    - destruct (so_rep _ Ok nt (nth_error_In _ _ N) R) as [L2 M0].
      destruct (start_id ids X 0) as [s0|] eqn:B0; [|discriminate].
      assert (Z0 : Z.of_nat s0 = cz (mkSlot X 0 0)) by (unfold cz; rewrite (code_start _ _ _ B0); reflexivity).
      assert (V0 : vslot (mkSlot X 0 0)) by (eapply vslot_start; eauto; lia). assert (V1 : vslot (mkSlot X 1 0)) by (eapply vslot_start; eauto; lia).
      rewrite Sn in Em. destruct (Nat.eqb X (s_nt L)) eqn:Self.
      + destruct (start_id ids X 1) as [s1|] eqn:B1; [|discriminate].
        assert (Z1 : Z.of_nat s1 = cz (mkSlot X 1 0)) by (unfold cz; rewrite (code_start _ _ _ B1); reflexivity).
        injection Em as <-. rewrite Cr, Z0, Z1. clear Cr. set (e1 := ("v", VNode (eg v)) :: benv (cz L) u i rc).
        set (crc := cap_rc rc nt) in *.
        assert (Dc : forall tl, sq ((XDeclare "crc" (XPlus (XVar "rc") (XInt 1)) ::
            (if nt_repmax nt =? inf then [XIf (CGt (XVar "crc") (XInt (nt_repmin nt))) [XAssign "crc" (XInt (nt_repmin nt))]] else []) ++ tl)) e1 (es st1) =
          sq tl (("crc", VNum crc) :: e1) (es st1)).
        { intros tl. cbn [exec_seq exec eval]. unfold num_of at 1. subst e1. cbn [benv lookup String.eqb Ascii.eqb Bool.eqb bind with_val].
          subst crc. unfold cap_rc. destruct (nt_repmax nt =? inf); cbn [app andb]; auto. cbn [exec_seq exec test]. unfold compare. cbn [eval].
          unfold num_of at 1. cbn [lookup String.eqb Ascii.eqb Bool.eqb bind with_val]. rewrite Z.gtb_ltb.
          destruct (nt_repmin nt <? rc + 1); reflexivity. }
        rewrite Dc. clear Dc. set (e2 := ("crc", VNum crc) :: e1).
        assert (Lv : lookup "v" e2 = Some (VNode (eg v))) by reflexivity. assert (Li : lookup "i" e2 = Some (VNum (Z.of_nat i))) by reflexivity.
        assert (Lc : eval input pg (XVar "crc") e2 = Val crc) by reflexivity.
        unfold rep_alts. cbn [app]. cbn [exec_seq exec test]. unfold compare. rewrite Lc. cbn [eval bind with_val]. rewrite Z.geb_leb.
        assert (Bl : forall L' s, vslot L' -> vst s -> exec_block ex [XAdd (cz L') "v" xi (XVar "crc")] e2 (es s) = ONext e2 (es (b_add L' v i crc s))).
        { intros L' s V' S'. unfold exec_block. cbn [exec_seq]. rewrite (add_exec L' v i (XVar "crc") crc e2 s) by auto.
          reflexivity. }
        assert (Fin : forall s, vst s -> sq ((if nt_repmax nt =? inf then [XAdd (cz (mkSlot X 1 0)) "v" xi (XVar "crc")]
            else [XIf (CLt (XVar "crc") (XInt (nt_repmax nt))) [XAdd (cz (mkSlot X 1 0)) "v" xi (XVar "crc")]]) ++ [XReturn]) e2 (es s) =
          OReturn (es (fold_left (fun s x => b_add (fst x) v i (snd x) s) (if ((nt_repmax nt =? inf) || (crc <? nt_repmax nt))%bool then [(mkSlot X 1 0, crc)] else []) s))).
        { intros s Vst'. destruct (nt_repmax nt =? inf); cbn [app orb].
          - cbn [exec_seq]. rewrite (add_exec (mkSlot X 1 0) v i (XVar "crc") crc e2 s) by auto. reflexivity.
          - cbn [exec_seq exec test]. unfold compare. rewrite Lc. cbn [eval bind with_val]. destruct (crc <? nt_repmax nt); [|reflexivity].
            rewrite Bl by auto. reflexivity. }
        destruct (nt_repmin nt <=? crc); cbn [app fold_left].
        * rewrite Bl by auto. rewrite Fin by (apply add_sim; auto). reflexivity.
        * rewrite Fin by auto. reflexivity.
      + set (e1 := ("v", VNode (eg v)) :: benv (cz L) u i rc).
        assert (Lv : lookup "v" e1 = Some (VNode (eg v))) by reflexivity. assert (Li : lookup "i" e1 = Some (VNum (Z.of_nat i))) by reflexivity.
        unfold rep_alts.
        assert (Stop : forall tl, sq ((if nt_repmin nt =? 0 then [XAdd (Z.of_nat s0) "v" xi (XInt 0)] else []) ++ tl) e1 (es st1) =
          sq tl e1 (es (fold_left (fun s x => b_add (fst x) v i (snd x) s) (if nt_repmin nt <=? 0 then [(mkSlot X 0 0, 0)] else []) st1))).
        { intros tl. replace (nt_repmin nt <=? 0) with (nt_repmin nt =? 0) by (destruct (Z.eqb_spec (nt_repmin nt) 0); symmetry; [apply Z.leb_le|apply Z.leb_gt]; lia).
          destruct (nt_repmin nt =? 0); cbn [app]; auto. cbn [exec_seq]. rewrite Z0, (add_exec (mkSlot X 0 0) v i (XInt 0) 0 e1 st1) by auto. reflexivity. }
        rewrite fold_left_app. 
        assert (S2 : vst (fold_left (fun s x => b_add (fst x) v i (snd x) s) (if nt_repmin nt <=? 0 then [(mkSlot X 0 0, 0)] else []) st1)).
        { apply adds_vst; auto. intros x J. destruct (nt_repmin nt <=? 0); [|destruct J]. destruct J as [<-|[]]. exact V0. }
        destruct ((nt_repmax nt =? inf) || (0 <? nt_repmax nt))%bool.
        * destruct (start_id ids X 1) as [s1|] eqn:B1; [|discriminate].
          assert (Z1 : Z.of_nat s1 = cz (mkSlot X 1 0)) by (unfold cz; rewrite (code_start _ _ _ B1); reflexivity).
          injection Em as <-. rewrite Cr. fold e1. rewrite Stop, Z1. cbn [exec_seq]. rewrite (add_exec (mkSlot X 1 0) v i (XInt 0) 0 e1 _) by auto. reflexivity.
        * injection Em as <-. rewrite Cr. fold e1. rewrite Stop. reflexivity.
    - destruct (collect (start_id ids X) (seq 0 (length (nt_alts nt)))) as [l|] eqn:C; [|discriminate]. injection Em as <-. rewrite Cr.
      apply collect_seq in C.
      assert (Em : map (fun id => XAdd (Z.of_nat id) "v" xi (XInt 0)) l = map (fun L => XAdd (cz L) "v" xi (XInt 0)) (map (fun a => mkSlot X a 0) (seq 0 (length (nt_alts nt))))).
      { transitivity (map (fun z => XAdd z "v" xi (XInt 0)) (map Z.of_nat l)); [rewrite map_map; reflexivity|]. rewrite C, map_map. reflexivity. }
      rewrite Em, seq_app, (adds_exec v i) by (auto; intros L' J; apply in_map_iff in J as (a & <- & J); apply in_seq in J; eapply vslot_start; eauto; lia).
      rewrite map_map. reflexivity.
  Qed.

  Lemma utf_needed L p s : prod_of sg L = Some p -> In (STerm s) p -> needs_utf8 s = true -> pg_utf8 pg = true.
  Proof.
    intros P I N. rewrite Utf. unfold scan_utf8. apply prod_inv in P as (nt & A & B). apply existsb_exists. exists nt. split; [eapply nth_error_In; eauto|].
    apply existsb_exists. exists p. split; [eapply nth_error_In; eauto|]. apply existsb_exists. exists (STerm s). split; auto.
  Qed.
  Lemma term_exec L p rest s ser1 b ser2 u i rc st : prod_of sg L = Some p -> skipn (s_dot L) p = s :: rest -> (match s with SNonterm _ => False | _ => True end) ->
    emit_terminal s (cz (adv L)) ser1 = Some (b, ser2) -> (exists tl, pg_series pg = ser2 ++ tl) -> vgss u -> (i <= length input)%nat -> vst st ->
    match match_sym s input i with
    | None => exec_block ex b (benv (cz L) u i rc) (es st) = OReturn (es st)
    | Some j => exec_block ex b (benv (cz L) u i rc) (es st) = OContinue (benv (cz (adv L)) u j rc) (es (b_record sg mx (adv L) (g_pos u) i j st)) /\
        vst (b_record sg mx (adv L) (g_pos u) i j st) /\ (j <= length input)%nat
    end.
  Proof.
    intros P Sk Ns Em Ser U I S.
    assert (D : (s_dot (adv L) <= length p)%nat).
    { cbn [adv s_dot]. pose proof (skipn_length (s_dot L) p) as Q. rewrite Sk in Q. cbn [length] in Q. lia. }
    assert (Va : vslot (adv L)) by (exists p; split; auto).
    assert (Ip : In s p) by (rewrite <- (firstn_skipn (s_dot L) p), Sk; apply in_or_app; right; left; auto).
    destruct s as [X|t|]; [destruct Ns| |].
    - cbn [emit_terminal match_sym] in *. destruct (emit_match t ser1) as [[m ser']|] eqn:M; [|discriminate]. injection Em as <- <-.
      assert (Cv : forall s vs, t = EChar s vs -> Forall (fun v => 0 <= v) vs).
      { intros s' vs ->. pose proof P as Q. apply prod_inv in Q as (nt & A & B). eapply (so_char _ Ok); eauto using nth_error_In. }
      pose proof (match_exec input mx gord pg t ser1 m ser' (benv (cz L) u i rc) i (es st) M Ser (utf_needed L p t P Ip) Cv eq_refl I) as H.
      pose proof (match_term_bounds t input i) as Bd.
      destruct (match_term t input i) as [j|].
      + destruct H as (pre & E & Lj & K). destruct (Bd j eq_refl I) as [_ Bj]. destruct (record_sim (adv L) (g_pos u) i j st Va S) as [Er Vr]. split; [|split; auto].
        unfold exec_block. rewrite seq_app, E. cbn [exec_seq exec eval]. unfold node_of, num_of. rewrite (lookup_keeps _ _ "u" K) by (cbn; auto).
        rewrite (eval_i _ _ _ (Z.of_nat i)) by (rewrite (lookup_keeps _ _ "i" K) by (cbn; auto); reflexivity). rewrite Lj.
        cbn [benv lookup String.eqb Ascii.eqb Bool.eqb bind with_val]. rewrite eg_pos, Er. cbn [then_next]. rewrite Lj. cbn [with_val].
        rewrite (lookup_keeps _ _ "i" K) by (cbn; auto). cbn [benv lookup String.eqb Ascii.eqb Bool.eqb with_val].
        rewrite (assign_keeps _ _ "i" _ K) by (cbn; auto). cbn [benv assign String.eqb Ascii.eqb Bool.eqb].
        rewrite (lookup_keeps _ _ "L" K) by (cbn; auto). cbn [benv lookup String.eqb Ascii.eqb Bool.eqb with_val].
        rewrite (assign_keeps _ _ "L" _ K) by (cbn; auto). cbn [benv assign String.eqb Ascii.eqb Bool.eqb].
        rewrite leave_app by reflexivity. reflexivity.
      + unfold exec_block. rewrite seq_app, H. reflexivity.
    - cbn [emit_terminal match_sym] in *. injection Em as <- <-. destruct (record_sim (adv L) (g_pos u) i i st Va S) as [Er Vr]. split; [|split; auto].
      unfold exec_block. cbn [exec_seq exec eval]. unfold node_of. rewrite (eval_i _ _ _ (Z.of_nat i)) by reflexivity.
      cbn [benv lookup String.eqb Ascii.eqb Bool.eqb bind with_val]. rewrite eg_pos, Er. reflexivity.
  Qed.

  Lemma loop_sim : forall rest L p u i rc st fuel, prod_of sg L = Some p -> (s_dot L <= length p)%nat -> skipn (s_dot L) p = rest -> (length rest < fuel)%nat ->
    vgss u -> (i <= length input)%nat -> vst st ->
    g_loop input mx gord pg fuel (benv (cz L) u i rc) (es st) = Some (Val (es (b_process sg input mx border rest L u i rc st))) /\
    vst (b_process sg input mx border rest L u i rc st).
  Proof.
    induction rest as [|s rest IH]; intros L p u i rc st fuel P D Sk F U I S; (destruct fuel as [|fuel]; [cbn in F; lia|]).
    - pose proof (code_info L p P D) as C. destruct (Cases _ _ C) as (b & ser1 & ser2 & Nb & Em & Ser).
      assert (Len : s_dot L = length p). { pose proof (skipn_length (s_dot L) p) as Q. rewrite Sk in Q. cbn in Q. lia. }
      unfold emit_case in Em. cbn [si_nt si_dot si_plen si_alt] in Em. pose proof P as P'. apply prod_inv in P' as (nt & A & B). rewrite A, Len, Nat.eqb_refl in Em. injection Em as <- <-.
      destruct (pop_sim u i st U I S) as [Ep Vp]. cbn [b_process]. split; auto.
      cbn [g_loop]. unfold num_of. cbn [benv lookup String.eqb Ascii.eqb Bool.eqb].
      unfold cz at 1 2. rewrite (proj2 (Z.ltb_ge _ _)) by lia. rewrite Nat2Z.id, Nb. unfold exec_block. cbn [exec_seq exec]. unfold node_of. rewrite (eval_i _ _ _ (Z.of_nat i)) by reflexivity.
      cbn [benv lookup String.eqb Ascii.eqb Bool.eqb with_val]. rewrite Ep. reflexivity.
    - pose proof (code_info L p P D) as C. destruct (Cases _ _ C) as (b & ser1 & ser2 & Nb & Em & Ser).
      assert (Len : (s_dot L < length p)%nat). { pose proof (skipn_length (s_dot L) p) as Q. rewrite Sk in Q. cbn in Q. lia. }
      assert (Ns : nth_error p (s_dot L) = Some s).
      { rewrite <- (firstn_skipn (s_dot L) p), Sk, nth_error_app2; rewrite firstn_length_le by lia; [|lia]. rewrite Nat.sub_diag. reflexivity. }
      assert (Sk' : skipn (s_dot (adv L)) p = rest).
      { cbn [adv s_dot]. rewrite <- (firstn_skipn (s_dot L) p), Sk, skipn_app, firstn_length_le by lia.
        rewrite (skipn_all2 (firstn (s_dot L) p)) by (rewrite firstn_length_le; lia). replace (Datatypes.S (s_dot L) - s_dot L)%nat with 1%nat by lia. reflexivity. }
      unfold emit_case in Em. cbn [si_nt si_dot si_plen si_alt] in Em. pose proof P as P'. apply prod_inv in P' as (nt & A & B).
      rewrite A, (proj2 (Nat.eqb_neq _ _)), B, Ns in Em by lia.
      assert (Cd : Z.of_nat (Datatypes.S (code L)) = cz (adv L)) by (unfold cz; rewrite (code_adv L p P); reflexivity). rewrite Cd in Em.
      assert (Head : g_loop input mx gord pg (Datatypes.S fuel) (benv (cz L) u i rc) (es st) = 
        match exec_block ex b (benv (cz L) u i rc) (es st) with
        | ONext e' st' => g_loop input mx gord pg fuel e' st' | OContinue e' st' => g_loop input mx gord pg fuel e' st' | OReturn st' => Some (Val st') | OPanic => Some Panic | OStuck => Some Stuck end).
      { cbn [g_loop]. unfold num_of. cbn [benv lookup String.eqb Ascii.eqb Bool.eqb].
        unfold cz at 1 2. rewrite (proj2 (Z.ltb_ge _ _)) by lia. rewrite Nat2Z.id, Nb. reflexivity. }
      rewrite Head. clear Head. cbn [length] in F.
      assert (Go : match s with SNonterm _ => False | _ => True end -> emit_terminal s (cz (adv L)) ser1 = Some (b, ser2) ->
        b_process sg input mx border (s :: rest) L u i rc st =
          match match_sym s input i with None => st | Some j => b_process sg input mx border rest (adv L) u j rc (b_record sg mx (adv L) (g_pos u) i j st) end ->
        match exec_block ex b (benv (cz L) u i rc) (es st) with
        | ONext e' st' => g_loop input mx gord pg fuel e' st' | OContinue e' st' => g_loop input mx gord pg fuel e' st' | OReturn st' => Some (Val st') | OPanic => Some Panic | OStuck => Some Stuck end
        = Some (Val (es (b_process sg input mx border (s :: rest) L u i rc st))) /\ vst (b_process sg input mx border (s :: rest) L u i rc st)).
      { intros Nt Et Eq. rewrite Eq. pose proof (term_exec L p rest s ser1 b ser2 u i rc st P Sk Nt Et Ser U I S) as H.
        destruct (match_sym s input i) as [j|]; [|rewrite H; auto]. destruct H as (H & Vr & Jr). rewrite H.
        apply (IH (adv L) p); auto; cbn [adv s_dot]; lia. }
      destruct s as [X|t|]; [|apply Go; auto|apply Go; auto].
      destruct (emit_call sg ids _ X (cz (adv L))) as [b'|] eqn:Ec; [|discriminate]. injection Em as <- <-.
      destruct (call_exec L p X rest u i rc st (mkSI (s_nt L) (s_alt L) (s_dot L) (length p)) b' P Sk eq_refl Ec U I S) as [E V]. split; auto. unfold exec_block. rewrite E. reflexivity.
  Qed.
  Hypothesis Clen : length (pg_cases pg) = length slots.
  Lemma process_sim d st : vdesc d -> vst st ->
    g_process input mx gord pg (ed d) (es st) = Some (Val (es (b_process_desc sg input mx border d st))) /\ vst (b_process_desc sg input mx border d st).
  Proof.
    intros ((p & P & D) & U & I) S. unfold b_process_desc. rewrite P. unfold g_process. apply (loop_sim _ _ p); auto.
    pose proof (start_ok (bd_L d) p P) as (b & _ & H). specialize (H (length p) (le_n _)).
    assert (X : (b + length p < length slots)%nat) by (apply nth_error_Some; rewrite H; discriminate). rewrite skipn_length. lia.
  Qed.

  (** *** Parse *)
  Hypothesis Seed : emit_seed sg ids = Some (pg_seed pg).
  Lemma init_sim : g_init pg = es (b_init sg) /\ vst (b_init sg).
  Proof.
    unfold g_init, b_init, start_slots, emit_seed in *. destruct (nth_error (sg_nts sg) (sg_start sg)) as [nt|] eqn:N; [|discriminate].
    apply collect_seq in Seed.
    assert (H : forall l s, (forall L, In L l -> vslot L) -> vst s ->
      fold_left (fun s z => g_add z GU0 0 0 s) (map cz l) (es s) = es (fold_left (fun s x => b_add (fst x) U0 0 (snd x) s) (map (fun L => (L, 0)) l) s) /\
      vst (fold_left (fun s x => b_add (fst x) U0 0 (snd x) s) (map (fun L => (L, 0)) l) s)).
    { induction l as [|L l IH]; intros s Vl S; cbn [map fold_left fst snd]; auto.
      destruct (add_sim L U0 0 0 s (Vl L (or_introl eq_refl)) Logic.I (Nat.le_0_l _) S) as [E V]. cbn [eg Z.of_nat] in E. rewrite E. apply IH; auto. intros L' J. apply Vl. right; auto. }
    destruct (H (map (fun a => mkSlot (sg_start sg) a 0) (seq 0 (length (nt_alts nt)))) (mkB [] [] [] [] [] false 0)) as [E V].
    - intros L J. apply in_map_iff in J as (a & <- & J). apply in_seq in J. eapply vslot_start; eauto. lia.
    - constructor; constructor.
    - rewrite <- Seed in E. rewrite (map_map _ (fun L => (L, 0))) in E, V. split; [|exact V]. etransitivity; [|exact E]. clear.
      change (mkG [] [] [] [] [] false 0) with (es (mkB [] [] [] [] [] false 0)). generalize (es (mkB [] [] [] [] [] false 0)) as s.
      induction (pg_seed pg) as [|x l IH]; intros s; cbn [map fold_left]; auto.
  Qed.
  Lemma run_sim : forall fuel st, vst st ->
    match b_run sg input mx border fuel st with
    | None => g_run input mx gord pg fuel (es st) = GP_fuel
    | Some st' => vst st' /\ g_run input mx gord pg fuel (es st) =
        match b_work st' with [] => GP_ok (map ee (b_set st')) | _ => GP_too_large end /\ (b_work st' <> [] -> b_aborted st' = true)
    end.
  Proof.
    induction fuel as [|fuel IH]; intros st S; cbn [b_run g_run]; change (gs_work (es st)) with (map ed (b_work st)); change (gs_aborted (es st)) with (b_aborted st);
      (destruct (b_work st) as [|d w] eqn:W; cbn [map]; [rewrite W; split; [auto|]; split; [reflexivity|intuition]|]);
      (destruct (b_aborted st) eqn:Ab; [rewrite W; split; auto|]).
    - reflexivity.
    - pose proof S as [S1 S2 S3 S4 S5]. rewrite W in S2. inversion S2 as [|d' w' Vd Vw]; subst d' w'.
      assert (S' : vst (mkB (b_seen st) w (b_edges st) (b_popped st) (b_set st) (b_aborted st) (b_tick st))) by (constructor; auto).
      destruct (process_sim d _ Vd S') as [E V]. rewrite Ab in E, V.
      match goal with |- context [g_process _ _ _ _ (ed d) ?x] => change x with (es (mkB (b_seen st) w (b_edges st) (b_popped st) (b_set st) false (b_tick st))) end.
      rewrite E. apply IH. exact V.
  Qed.
  Theorem parse_sim fuel :
    match b_parse sg input mx border fuel with
    | None => g_parse input mx gord pg fuel = GP_fuel
    | Some st => vst st /\ g_parse input mx gord pg fuel = match b_work st with [] => GP_ok (map ee (b_set st)) | _ => GP_too_large end /\
        (b_work st <> [] -> b_aborted st = true)
    end.
  Proof. unfold b_parse, g_parse. destruct init_sim as [E V]. rewrite E. apply run_sim. exact V. Qed.
End Sim.

(** *** What emission produces *)
Lemma emit_match_ser t ser m ser' : emit_match t ser = Some (m, ser') -> exists tl, ser' = ser ++ tl.
Proof.
  destruct t as [n|a|a|sens vals|b stt es|p]; cbn [emit_match]; try (intros E; injection E as <- <-; exists []; rewrite app_nil_r; reflexivity).
  destruct stt.
  - unfold emit_series. destruct (forallb valid_rune _).
    + destruct (series_var _ ser) as [k s'] eqn:Sv. intros E. injection E as <- <-. apply series_var_ok in Sv as [_ X]. exact X.
    + intros E. injection E as <- <-. exists []. rewrite app_nil_r. reflexivity.
  - destruct es as [|lo [|hi es]]; intros E; try discriminate. injection E as <- <-. exists []. rewrite app_nil_r. reflexivity.
Qed.
Lemma emit_case_ser sg ids id s ser b ser' : emit_case sg ids id s ser = Some (b, ser') -> exists tl, ser' = ser ++ tl.
Proof.
  assert (R : exists tl, ser = ser ++ tl) by (exists []; rewrite app_nil_r; reflexivity).
  unfold emit_case. destruct (nth_error (sg_nts sg) (si_nt s)) as [info|]; [|discriminate]. destruct (Nat.eqb _ _); [intros E; injection E as <- <-; exact R|].
  destruct (nth_error (nt_alts info) _) as [prod|]; [|discriminate]. destruct (nth_error prod _) as [[X|t|]|]; try discriminate.
  - destruct (emit_call _ _ _ _ _); [|discriminate]. intros E; injection E as <- <-; exact R.
  - cbn [emit_terminal]. destruct (emit_match t ser) as [[m s']|] eqn:M; [|discriminate]. intros E; injection E as <- <-. eapply emit_match_ser; eauto.
  - cbn [emit_terminal]. intros E; injection E as <- <-; exact R.
Qed.
Lemma emit_cases_ser sg ids : forall slots id ser bs ser', emit_cases sg ids id slots ser = Some (bs, ser') -> exists tl, ser' = ser ++ tl.
Proof.
  induction slots as [|s slots IH]; intros id ser bs ser'; cbn [emit_cases]; [intros E; injection E as <- <-; exists []; rewrite app_nil_r; reflexivity|].
  destruct (emit_case sg ids id s ser) as [[b s1]|] eqn:C; [|discriminate]. destruct (emit_cases sg ids (S id) slots s1) as [[bs' s2]|] eqn:D; [|discriminate].
  intros E; injection E as <- <-. apply emit_case_ser in C as [t1 ->]. apply IH in D as [t2 ->]. exists (t1 ++ t2). rewrite app_assoc. reflexivity.
Qed.
Lemma emit_cases_nth sg ids : forall slots id ser bs ser', emit_cases sg ids id slots ser = Some (bs, ser') ->
  length bs = length slots /\ forall k si, nth_error slots k = Some si -> exists b ser1 ser2,
    nth_error bs k = Some b /\ emit_case sg ids (id + k) si ser1 = Some (b, ser2) /\ exists tl, ser' = ser2 ++ tl.
Proof.
  induction slots as [|s slots IH]; intros id ser bs ser'; cbn [emit_cases].
  - intros E; injection E as <- <-. split; auto. intros [|k] si N; discriminate.
  - destruct (emit_case sg ids id s ser) as [[b s1]|] eqn:C; [|discriminate]. destruct (emit_cases sg ids (S id) slots s1) as [[bs' s2]|] eqn:D; [|discriminate].
    intros E; injection E as <- <-. destruct (IH _ _ _ _ D) as [L H]. split; [cbn [length]; congruence|]. intros [|k] si N; cbn [nth_error] in N |- *.
    + injection N as <-. exists b, ser, s1. rewrite Nat.add_0_r. split; auto. split; auto. eapply emit_cases_ser; eauto.
    + destruct (H k si N) as (b' & x & y & A & B & T). exists b', x, y. replace (id + S k)%nat with (S id + k)%nat by lia. auto.
Qed.
Lemma emit_ok sg pg ids slots : assign_slots sg = (ids, slots) -> emit sg = Some pg ->
  pg_info pg = slots /\ pg_utf8 pg = scan_utf8 sg /\ length (pg_cases pg) = length slots /\ emit_seed sg ids = Some (pg_seed pg) /\
  emit_complete sg ids = Some (pg_complete pg) /\ pg_start pg = sg_start sg /\ pg_qnts pg = emit_qnts sg /\
  forall k si, nth_error slots k = Some si -> exists b ser1 ser2,
    nth_error (pg_cases pg) k = Some b /\ emit_case sg ids k si ser1 = Some (b, ser2) /\ exists tl, pg_series pg = ser2 ++ tl.
Proof.
  intros As E. unfold emit in E. rewrite As in E. destruct (emit_cases sg ids 0 slots []) as [[cases ser]|] eqn:C; [|discriminate].
  destruct (emit_seed sg ids) as [seed|] eqn:Se; [|discriminate]. destruct (emit_complete sg ids) as [comp|] eqn:Co; [|discriminate]. injection E as <-.
  cbn [pg_info pg_utf8 pg_cases pg_seed pg_complete pg_start pg_series pg_qnts]. destruct (emit_cases_nth _ _ _ _ _ _ _ C) as [L H]. repeat split; auto.
Qed.

(** Emission does not panic. *)
Lemma collect_some {A B} (f : A -> option B) l : (forall x, In x l -> f x <> None) -> exists ys, collect f l = Some ys.
Proof.
  induction l as [|x l IH]; intros H; cbn [collect]; [eauto|]. destruct (f x) as [y|] eqn:E; [|exfalso; apply (H x (or_introl eq_refl)); auto].
  destruct IH as [ys ->]; [intros z I; apply H; right; auto|]. eauto.
Qed.
Lemma collect_nth {A B} (f : A -> option B) l : forall ys k x, collect f l = Some ys -> nth_error l k = Some x -> exists y, nth_error ys k = Some y /\ f x = Some y.
Proof.
  induction l as [|z l IH]; intros ys k x E N; [destruct k; discriminate|]. cbn [collect] in E. destruct (f z) as [y|] eqn:F; [|discriminate].
  destruct (collect f l) as [ys'|] eqn:C; [|discriminate]. injection E as <-. destruct k as [|k]; cbn [nth_error] in N |- *; [injection N as <-; eauto|]. eauto.
Qed.
Lemma collect_length {A B} (f : A -> option B) l : forall ys, collect f l = Some ys -> length ys = length l.
Proof.
  induction l as [|z l IH]; intros ys E; cbn [collect] in E; [injection E as <-; auto|]. destruct (f z) as [y|]; [|discriminate].
  destruct (collect f l) as [ys'|] eqn:C; [|discriminate]. injection E as <-. cbn [length]. f_equal. auto.
Qed.
Section Total.
  Variable sg : slot_grammar.
  Hypothesis Ok : sg_ok sg.
  Variable ids : list (list nat).
  Variable slots : list sinfo.
  Hypothesis As : assign_slots sg = (ids, slots).
  Lemma start_id_some X nt a : nth_error (sg_nts sg) X = Some nt -> (a < length (nt_alts nt))%nat -> start_id ids X a <> None.
  Proof.
    intros N A. destruct (nth_error (nt_alts nt) a) as [p|] eqn:E; [|apply nth_error_None in E; lia].
    destruct (start_ok sg ids slots As (mkSlot X a 0) p) as (b & B & _); [unfold prod_of; cbn; rewrite N; auto|]. cbn in B. rewrite B. discriminate.
  Qed.
  Lemma comp_id_eq X nt a p : nth_error (sg_nts sg) X = Some nt -> nth_error (nt_alts nt) a = Some p -> comp_id sg ids X a = Some (code ids (mkSlot X a (length p))).
  Proof.
    intros N A. destruct (start_ok sg ids slots As (mkSlot X a 0) p) as (b & B & _); [unfold prod_of; cbn; rewrite N; auto|]. cbn in B.
    unfold comp_id, code. cbn [s_nt s_alt s_dot]. rewrite B, N, A. reflexivity.
  Qed.
  Lemma seed_total : exists l, emit_seed sg ids = Some l.
  Proof.
    unfold emit_seed. destruct (nth_error (sg_nts sg) (sg_start sg)) as [nt|] eqn:N; [|apply nth_error_None in N; pose proof (so_start _ Ok); lia].
    apply collect_some. intros a I. apply in_seq in I. eapply start_id_some; eauto. lia.
  Qed.
  Lemma complete_total : exists l, emit_complete sg ids = Some l.
  Proof.
    apply collect_some. intros X I. apply in_seq in I. destruct (nth_error (sg_nts sg) X) as [nt|] eqn:N; [|apply nth_error_None in N; lia].
    destruct (collect_some (comp_id sg ids X) (seq 0 (length (nt_alts nt)))) as [l ->]; [|discriminate].
    intros a J. apply in_seq in J. destruct (nth_error (nt_alts nt) a) as [p|] eqn:E; [|apply nth_error_None in E; lia].
    rewrite (comp_id_eq X nt a p N E). discriminate.
  Qed.
  Lemma call_total s X ret : (X < length (sg_nts sg))%nat -> exists b, emit_call sg ids s X ret = Some b.
  Proof.
    intros Lt. unfold emit_call. destruct (nth_error (sg_nts sg) X) as [nt|] eqn:N; [|apply nth_error_None in N; lia].
    destruct (nt_isrep nt) eqn:R.
    - destruct (so_rep _ Ok nt (nth_error_In _ _ N) R) as [L2 _].
      destruct (start_id ids X 0) as [s0|] eqn:E0; [|exfalso; eapply (start_id_some X nt 0); eauto; lia].
      destruct (start_id ids X 1) as [s1|] eqn:E1; [|exfalso; eapply (start_id_some X nt 1); eauto; lia].
      destruct (Nat.eqb _ _); [eauto|]. destruct (_ || _)%bool; eauto.
    - destruct (collect_some (start_id ids X) (seq 0 (length (nt_alts nt)))) as [l ->]; [|eauto].
      intros a I. apply in_seq in I. eapply start_id_some; eauto. lia.
  Qed.
  Lemma case_total id si ser : nth_error slots id = Some si -> exists b ser', emit_case sg ids id si ser = Some (b, ser').
  Proof.
    intros N. destruct (slot_all sg ids slots As id si N) as (_ & p & P & D & Pl). unfold emit_case. unfold prod_of in P. cbn [s_nt s_alt] in P.
    destruct (nth_error (sg_nts sg) (si_nt si)) as [info|] eqn:N1; [|discriminate]. rewrite P. destruct (Nat.eqb_spec (si_dot si) (si_plen si)); [eauto|].
    destruct (nth_error p (si_dot si)) as [[X|t|]|] eqn:Ns.
    - destruct (call_total si X (Z.of_nat (S id))) as [b ->]; [|eauto]. eapply (so_nt _ Ok); eauto using nth_error_In.
    - cbn [emit_terminal]. assert (M : exists m s', emit_match t ser = Some (m, s')); [|destruct M as (m & s' & ->); eauto].
      destruct t as [n0|a|a|sens vals|b stt es|q]; cbn [emit_match]; eauto. destruct stt; [destruct (emit_series b es ser); eauto|].
      pose proof (so_range _ Ok info p b es (nth_error_In _ _ N1) (nth_error_In _ _ P) (nth_error_In _ _ Ns)) as L2.
      destruct es as [|lo [|hi es]]; try discriminate; eauto.
    - cbn [emit_terminal]; eauto.
    - apply nth_error_None in Ns. lia.
  Qed.
  Lemma emit_total : exists pg, emit sg = Some pg.
  Proof.
    unfold emit. rewrite As. destruct seed_total as [l1 ->], complete_total as [l2 ->].
    assert (H : forall n k ser, (k + n = length slots)%nat -> exists bs s', emit_cases sg ids k (skipn k slots) ser = Some (bs, s')).
    { induction n as [|n IH]; intros k ser E.
      - rewrite skipn_all2 by lia. cbn. eauto.
      - destruct (nth_error slots k) as [si|] eqn:N; [|apply nth_error_None in N; lia].
        assert (Sk : skipn k slots = si :: skipn (S k) slots).
        { clear -N. revert k N. induction slots as [|x l IH]; intros [|k] N; cbn in *; try discriminate; [congruence|auto]. }
        rewrite Sk. cbn [emit_cases]. destruct (case_total k si ser N) as (b & s1 & ->). destruct (IH (S k) s1) as (bs & s2 & ->); [lia|eauto]. }
    destruct (H (length slots) 0%nat []) as (bs & s' & E); [lia|]. cbn [skipn] in E. rewrite E. eauto.
  Qed.

  (** Valid. *)
  Variable pg : program.
  Hypothesis Em : emit sg = Some pg.
  Lemma valid_sim n set : Forall (fun e => vslot sg (be_slot e)) set -> g_valid pg n (map (ee ids) set) = Some (bsr_valid sg n set).
  Proof.
    intros V. destruct (emit_ok _ _ _ _ As Em) as (_ & _ & _ & _ & Co & St & _). unfold g_valid, bsr_valid. rewrite St.
    destruct (nth_error (sg_nts sg) (sg_start sg)) as [nt|] eqn:N; [|apply nth_error_None in N; pose proof (so_start _ Ok); lia].
    destruct (collect_nth _ _ _ (sg_start sg) (sg_start sg) Co) as (l & Nl & Cl).
    { rewrite (nth_error_nth' _ 0%nat) by (rewrite seq_length; apply (so_start _ Ok)). rewrite seq_nth by apply (so_start _ Ok). reflexivity. }
    rewrite Nl. rewrite N in Cl. f_equal.
    assert (H : forall alts k l, (forall a p, nth_error alts a = Some p -> nth_error (nt_alts nt) (k + a) = Some p) ->
      collect (comp_id sg ids (sg_start sg)) (seq k (length alts)) = Some l ->
      existsb (fun sl => existsb (fun e => (ge_sl e =? Z.of_nat sl) && (ge_l e =? 0) && (ge_r e =? Z.of_nat n))%bool (map (ee ids) set)) l =
      existsb (fun ap => existsb (fun e =>
          (if slot_eq_dec (be_slot e) (mkSlot (sg_start sg) (fst ap) (length (snd ap))) then true else false)
          && Nat.eqb (be_l e) 0 && Nat.eqb (be_r e) n)%bool set) (combine (seq k (length alts)) alts)).
    { induction alts as [|p alts IH]; intros k l0 Ha C; cbn [length seq collect combine existsb] in *; [injection C as <-; reflexivity|].
      pose proof (Ha 0%nat p eq_refl) as A0. rewrite Nat.add_0_r in A0. rewrite (comp_id_eq _ nt k p N A0) in C.
      destruct (collect (comp_id sg ids (sg_start sg)) (seq (S k) (length alts))) as [l'|] eqn:C'; [|discriminate]. injection C as <-. cbn [existsb fst snd].
      f_equal; [|apply IH; auto; intros a q Nq; replace (S k + a)%nat with (k + S a)%nat by lia; apply Ha; auto].
      assert (Vk : vslot sg (mkSlot (sg_start sg) k (length p))) by (exists p; unfold prod_of; cbn [s_nt s_alt s_dot]; rewrite N, A0; auto).
      clear -V As Vk. induction V as [|e set Ve V IH]; cbn [map existsb]; auto. rewrite IH. f_equal. unfold ee. cbn [ge_sl ge_l ge_r].
      f_equal; [f_equal|].
      - destruct (slot_eq_dec (be_slot e) (mkSlot (sg_start sg) k (length p))) as [Q|Q].
        + unfold cz. rewrite Q. apply Z.eqb_refl.
        + apply Z.eqb_neq. intros X. apply Q. eapply (code_inj sg ids slots As); auto. unfold cz in X. lia.
      - destruct (Nat.eqb_spec (be_l e) 0), (Z.eqb_spec (Z.of_nat (be_l e)) 0); lia.
      - destruct (Nat.eqb_spec (be_r e) n), (Z.eqb_spec (Z.of_nat (be_r e)) (Z.of_nat n)); lia. }
    apply (H (nt_alts nt) 0%nat l); auto.
  Qed.
End Total.
