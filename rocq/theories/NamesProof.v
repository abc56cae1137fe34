(** Proofs about the names given by the caller.  Its definitions are means of proof and model no code. *)
From Coq Require Import ZArith Arith String Ascii Bool Relations List Lia.
From Verif Require Import Syntax Spec Utf8 Printer AbnfRead Deps Dag Cycle PropDag PrintInj AstVisit Regex RegexBuild Graph Names.
Import ListNotations.
Local Open Scope string_scope.
Local Open Scope list_scope.
Local Open Scope Z_scope.

(** ASCII strings. *)
Definition ascii_name (s : string) : bool := all_chars (fun c => cval c <? 128) s.

Lemma cval_range c : 0 <= cval c < 256.
Proof.
  unfold cval. split; [apply N2Z.is_nonneg|]. pose proof (N_ascii_bounded c) as H. lia.
Qed.
Lemma cval_inj c v : cval c = v -> c = ascii_of_N (Z.to_N v).
Proof. intros <-. unfold cval. rewrite N2Z.id, ascii_N_embedding. reflexivity. Qed.
Lemma bytes_cons c s : bytes (String c s) = cval c :: bytes s.
Proof. reflexivity. Qed.
Lemma bytes_inj a b : bytes a = bytes b -> a = b.
Proof. intros E. rewrite <- (string_bytes a), <- (string_bytes b), E. reflexivity. Qed.

Lemma lower_val c : cval (lower_ascii c) = if (65 <=? cval c) && (cval c <=? 90) then cval c + 32 else cval c.
Proof. destruct c as [[] [] [] [] [] [] [] []]; reflexivity. Qed.

Lemma runes_ascii c s : cval c < 128 -> runes (String c s) = cval c :: runes s.
Proof.
  intros H. unfold runes. rewrite bytes_cons. cbn [runes_from].
  unfold decode_rune. pose proof (cval_range c). rewrite (proj2 (between_true 0 (cval c) 127)) by lia. reflexivity.
Qed.
Lemma runes_long s : runes (String "197" (String "191" s)) = 0x17F :: runes s.
Proof. reflexivity. Qed.
Lemma runes_kelvin s : runes (String "226" (String "132" (String "170" s))) = 0x212A :: runes s.
Proof. reflexivity. Qed.

Lemma ascii_cons c s : ascii_name (String c s) = true -> cval c < 128 /\ ascii_name s = true.
Proof. unfold ascii_name. cbn [all_chars]. rewrite andb_true_iff, Z.ltb_lt. auto. Qed.

(** The first rune of a name, when it folds to an ASCII one. *)
Lemma decode_plain p r n q0 q : p = q0 :: q -> Forall (fun b => 0 <= b < 256) p -> decode_rune p = (r, n) -> fold_rune r < 128 ->
  (q0 = r /\ n = 1%nat /\ r < 128) \/
  (r = 0x17F /\ n = 2%nat /\ exists q', p = 197 :: 191 :: q') \/
  (r = 0x212A /\ n = 3%nat /\ exists q', p = 226 :: 132 :: 170 :: q').
Proof.
  intros -> B D F.
  assert (R : r < 128 \/ r = 0x17F \/ r = 0x212A).
  { revert F. unfold fold_rune. destruct (Z.leb_spec 65 r), (Z.leb_spec r 90); cbn [andb]; try lia;
      destruct (Z.eqb_spec r 0x17F); auto; destruct (Z.eqb_spec r 0x212A); auto. }
  assert (Ok : decode_ok (q0 :: q) = Some (r, n)).
  { unfold decode_ok. rewrite D. unfold RuneError. destruct (Z.eqb_spec r 0xFFFD); [lia|reflexivity]. }
  apply decode_ok_iff in Ok as (S & N & rest & E). destruct R as [R|[R|R]].
  - left. unfold utf8 in *. destruct (Z.ltb_spec r 128); [|lia]. cbn in E, N. injection E as -> _. auto.
  - right. left. subst r. cbn in E, N. split; auto. split; auto. exists rest. exact E.
  - right. right. subst r. cbn in E, N. split; auto. split; auto. exists rest. exact E.
Qed.
Lemma bytes_ok s : Forall (fun b => 0 <= b < 256) (bytes s).
Proof. induction s as [|c s IH]; [constructor|]. rewrite bytes_cons. constructor; [apply cval_range|exact IH]. Qed.

Lemma bytes_head s v q : bytes s = v :: q -> exists s', s = String (ascii_of_N (Z.to_N v)) s' /\ bytes s' = q.
Proof.
  destruct s as [|c s']; [discriminate|]. rewrite bytes_cons. intros E. injection E as E1 E2. exists s'. split; auto.
  f_equal. apply cval_inj, E1.
Qed.

(** Folding an ASCII name is lower-casing it. *)
Lemma fold_ascii s : ascii_name s = true -> map fold_rune (runes s) = bytes (lower s).
Proof.
  induction s as [|c s IH]; intros A; [reflexivity|]. apply ascii_cons in A as [A1 A2].
  rewrite (runes_ascii c s A1). cbn [map lower]. rewrite bytes_cons, (IH A2), lower_val. f_equal.
  unfold fold_rune. destruct ((65 <=? cval c) && (cval c <=? 90))%bool; [reflexivity|].
  destruct (Z.eqb_spec (cval c) 0x17F); [lia|]. destruct (Z.eqb_spec (cval c) 0x212A); [lia|]. reflexivity.
Qed.

Lemma fold_eq_map a : forall b, fold_eq a b = true <-> map fold_rune a = map fold_rune b.
Proof.
  induction a as [|x a IH]; intros [|y b]; cbn [fold_eq map]; split; intros H; try discriminate; auto.
  - apply andb_true_iff in H as [H1 H2]. apply Z.eqb_eq in H1. apply IH in H2. congruence.
  - injection H as H1 H2. apply andb_true_iff. split; [apply Z.eqb_eq, H1|apply IH, H2].
Qed.

Lemma equal_fold_u_map a b : equal_fold_u a b = true <-> map fold_rune (runes a) = map fold_rune (runes b).
Proof. apply fold_eq_map. Qed.

Lemma equal_fold_ascii a b : ascii_name a = true -> ascii_name b = true -> equal_fold_u a b = equal_fold a b.
Proof.
  intros A B. apply eq_true_iff_eq. rewrite equal_fold_u_map, (fold_ascii a A), (fold_ascii b B).
  unfold equal_fold. rewrite String.eqb_eq. split; [apply bytes_inj|intros ->; reflexivity].
Qed.

Lemma lex_ascii n : lex_name n = true -> ascii_name n = true.
Proof.
  assert (A : forall c, is_alpha c = true -> cval c < 128).
  { intros c. unfold is_alpha. rewrite orb_true_iff, !andb_true_iff, !Z.leb_le. lia. }
  assert (C : forall c, name_char c = true -> cval c < 128).
  { intros c. unfold name_char, is_dig. rewrite !orb_true_iff, andb_true_iff, !Z.leb_le, Z.eqb_eq. intros [[H|H]|H]; [apply A, H|lia|lia]. }
  destruct n as [|c s]; [discriminate|]. cbn [lex_name]. rewrite andb_true_iff. intros [H1 H2].
  unfold ascii_name. cbn [all_chars]. apply andb_true_iff. split; [apply Z.ltb_lt, A, H1|].
  clear -C H2. induction s as [|c s IH]; [reflexivity|]. cbn [all_chars] in *. apply andb_true_iff in H2 as [H1 H2].
  apply andb_true_iff. split; [apply Z.ltb_lt, C, H1|apply IH, H2].
Qed.

Lemma respell_fold b n m : respell b n m -> map fold_rune (runes n) = map fold_rune (runes m).
Proof.
  induction 1 as [|b c n m C _ IH|b n m _ IH|b n m _ IH]; [reflexivity| | |].
  - rewrite !runes_ascii by exact C. cbn [map]. rewrite IH. reflexivity.
  - rewrite runes_kelvin, runes_ascii by (cbn; lia). cbn [map]. rewrite IH. reflexivity.
  - rewrite runes_long, runes_ascii by (cbn; lia). cbn [map]. rewrite IH. reflexivity.
Qed.
Lemma respell_ascii b n m : respell b n m -> ascii_name m = true.
Proof.
  induction 1 as [|b c n m C _ IH|b n m _ IH|b n m _ IH]; [reflexivity| | |]; unfold ascii_name in *; cbn [all_chars]; rewrite IH, andb_true_r; [apply Z.ltb_lt, C|reflexivity|reflexivity].
Qed.
Lemma respell_refl n : ascii_name n = true -> respell false n n.
Proof.
  induction n as [|c n IH]; intros A; [constructor|]. apply ascii_cons in A as [A1 A2]. constructor; [exact A1|apply IH, A2].
Qed.

Lemma fold_respell t : forall n, ascii_name t = true -> map fold_rune (runes n) = map fold_rune (runes t) ->
  exists b m, respell b n m.
Proof.
  induction t as [|c t IH]; intros n A E.
  - destruct n as [|c n]; [exists false, ""; constructor|]. exfalso. unfold runes in E. rewrite bytes_cons in E.
    cbn [runes_from] in E. destruct (decode_rune (cval c :: bytes n)) as [r k]. discriminate.
  - apply ascii_cons in A as [A1 A2]. rewrite (runes_ascii c t A1) in E.
    destruct n as [|d n]; [discriminate|]. pose proof (bytes_ok (String d n)) as B.
    unfold runes in E at 1. rewrite bytes_cons in E, B. cbn [runes_from] in E.
    destruct (decode_rune (cval d :: bytes n)) as [r k] eqn:D. cbn [map] in E. injection E as E1 E2.
    assert (F : fold_rune r < 128).
    { rewrite E1. unfold fold_rune. destruct ((65 <=? cval c) && (cval c <=? 90))%bool eqn:Q.
      - apply andb_true_iff in Q as [_ Q]. apply Z.leb_le in Q. lia.
      - destruct (Z.eqb_spec (cval c) 0x17F); [lia|]. destruct (Z.eqb_spec (cval c) 0x212A); lia. }
    destruct (decode_plain _ r k _ _ eq_refl B D F) as [(R1 & R2 & R3)|[(R1 & R2 & q & R3)|(R1 & R2 & q & R3)]]; subst k.
    + change (runes_from (1 - 1) (bytes n)) with (runes n) in E2. destruct (IH n A2 E2) as (b & m & H).
      exists b, (String d m). constructor; [rewrite R1; exact R3|exact H].
    + injection R3 as R3 R4. apply bytes_head in R4 as (n' & -> & <-).
      change (runes_from (2 - 1) (bytes (String (ascii_of_N (Z.to_N 191)) n'))) with (runes n') in E2.
      destruct (IH n' A2 E2) as (b & m & H). rewrite (cval_inj _ _ R3). exists true, (String "s" m). exact (rs_long_s b n' m H).
    + injection R3 as R3 R4. apply bytes_head in R4 as (n' & -> & R4). apply bytes_head in R4 as (n2 & -> & <-).
      change (runes_from (3 - 1) (bytes (String (ascii_of_N (Z.to_N 132)) (String (ascii_of_N (Z.to_N 170)) n2)))) with (runes n2) in E2.
      destruct (IH n2 A2 E2) as (b & m & H). rewrite (cval_inj _ _ R3). exists b, (String "k" m). exact (rs_kelvin b n2 m H).
Qed.

Definition ascii_names (g : grammar) : Prop := forall r, In r g -> ascii_name (rule_name r) = true.
Lemma lex_names g : lex_grammar g = true -> ascii_names g.
Proof.
  intros L r I. unfold lex_grammar in L. rewrite forallb_forall in L. specialize (L r I). apply andb_true_iff in L as [L _].
  apply lex_ascii, L.
Qed.
Lemma find_ext_in {A} (f h : A -> bool) l : (forall x, In x l -> f x = h x) -> find f l = find h l.
Proof.
  induction l as [|x l IH]; intros H; [reflexivity|]. cbn [find]. rewrite (H x (or_introl eq_refl)), IH; [reflexivity|].
  intros y I. apply H. right. exact I.
Qed.
Lemma get_in_respell b n m g : ascii_names g -> respell b n m -> get_rule_in_u n g = get_rule_in m g.
Proof.
  intros A R. apply find_ext_in. intros r I. rewrite <- (equal_fold_ascii m (rule_name r) (respell_ascii b n m R) (A r I)).
  apply eq_true_iff_eq. rewrite !equal_fold_u_map, (respell_fold b n m R). tauto.
Qed.
Lemma get_in_found n g r : ascii_names g -> get_rule_in_u n g = Some r -> exists b m, respell b n m.
Proof.
  intros A F. apply find_some in F as [I E]. apply equal_fold_u_map in E. apply (fold_respell (rule_name r) n (A r I) E).
Qed.
Lemma get_respell b n m g : lex_grammar g = true -> respell b n m -> get_rule_u n g = get_rule m g.
Proof.
  intros L R. unfold get_rule_u, get_rule, get_rule_core.
  rewrite (get_in_respell b n m g (lex_names g L) R), (get_in_respell b n m core_rules (lex_names _ core_lex) R). reflexivity.
Qed.
Lemma get_found n g r : lex_grammar g = true -> get_rule_u n g = Some r -> exists b m, respell b n m /\ get_rule m g = Some r.
Proof.
  intros L F. assert (K : exists b m, respell b n m).
  { revert F. unfold get_rule_u. destruct (get_rule_in_u n g) as [x|] eqn:E.
    - intros _. apply (get_in_found n g x (lex_names g L) E).
    - intros F. apply (get_in_found n core_rules r (lex_names _ core_lex) F). }
  destruct K as (b & m & R). exists b, m. split; [exact R|]. rewrite <- (get_respell b n m g L R). exact F.
Qed.

(** ** strings.ToLower *)
Section Lower.
  Variable lr : Z -> Z.
  Hypothesis Lr : go_lower lr.

  Lemma enc_ascii r : 0 <= r < 128 -> string_of_rune r = [r].
  Proof.
    intros H. rewrite string_of_rune_utf8 by (unfold scalar; lia). unfold utf8. destruct (Z.ltb_spec r 128); [reflexivity|lia].
  Qed.
  Lemma lower_cons r s : 0 <= r < 128 -> forall c, cval c = r -> 
    string_of_bytes (flat_map (fun r => string_of_rune (lr r)) (r :: s)) = String (lower_ascii c) (string_of_bytes (flat_map (fun r => string_of_rune (lr r)) s)).
  Proof.
    intros H c <-. cbn [flat_map]. rewrite (proj1 Lr) by exact H.
    rewrite <- lower_val. pose proof (cval_range (lower_ascii c)) as B.
    assert (B' : cval (lower_ascii c) < 128).
    { rewrite lower_val. destruct (Z.leb_spec (cval c) 90); rewrite ?andb_true_r, ?andb_false_r; [|lia]. destruct (65 <=? cval c); lia. }
    rewrite enc_ascii by lia. cbn [app]. unfold string_of_bytes. cbn [map string_of_list_ascii].
    f_equal. symmetry. apply (cval_inj _ (cval (lower_ascii c)) eq_refl).
  Qed.

  (** Without U+017F the key is that of the plain name. *)
  Lemma to_lower_plain n m : respell false n m -> to_lower lr n = lower m.
  Proof.
    intros R. remember false as b eqn:Eb. induction R as [|b c n m C R IH|b n m R IH|b n m R IH]; subst; try discriminate; [reflexivity| |].
    - unfold to_lower in *. rewrite (runes_ascii c n C). rewrite (lower_cons (cval c) (runes n)) with (c := c); [|pose proof (cval_range c); lia|reflexivity].
      cbn [lower]. rewrite IH by reflexivity. reflexivity.
    - unfold to_lower in *. rewrite runes_kelvin. cbn [flat_map lower]. rewrite (proj2 (proj2 Lr)).
      change (string_of_rune 107) with [107]. cbn [app].
      change (string_of_bytes (107 :: flat_map (fun r => string_of_rune (lr r)) (runes n))) with (String "k" (string_of_bytes (flat_map (fun r => string_of_rune (lr r)) (runes n)))).
      rewrite IH by reflexivity. reflexivity.
  Qed.
  (** With it the key is no ASCII string. *)
  Lemma to_lower_long n m : respell true n m -> ascii_name (to_lower lr n) = false.
  Proof.
    intros R. remember true as b eqn:Eb. induction R as [|b c n m C R IH|b n m R IH|b n m R IH]; subst; try discriminate.
    - unfold to_lower in *. rewrite (runes_ascii c n C). rewrite (lower_cons (cval c) (runes n)) with (c := c); [|pose proof (cval_range c); lia|reflexivity].
      unfold ascii_name in *. cbn [all_chars]. rewrite IH by reflexivity. apply andb_false_r.
    - unfold to_lower in *. rewrite runes_kelvin. cbn [flat_map]. rewrite (proj2 (proj2 Lr)).
      change (string_of_rune 107) with [107]. cbn [app].
      change (string_of_bytes (107 :: flat_map (fun r => string_of_rune (lr r)) (runes n))) with (String "k" (string_of_bytes (flat_map (fun r => string_of_rune (lr r)) (runes n)))).
      unfold ascii_name in *. cbn [all_chars]. rewrite IH by reflexivity. apply andb_false_r.
    - unfold to_lower. rewrite runes_long. cbn [flat_map]. rewrite (proj1 (proj2 Lr)). reflexivity.
  Qed.
End Lower.

(** ** The cycle check *)
Lemma ascii_lower s : ascii_name s = true -> ascii_name (lower s) = true.
Proof.
  induction s as [|c s IH]; intros A; [reflexivity|]. apply ascii_cons in A as [A1 A2]. unfold ascii_name in *. cbn [lower all_chars].
  rewrite (IH A2), andb_true_r. apply Z.ltb_lt. rewrite lower_val. destruct (Z.leb_spec (cval c) 90); rewrite ?andb_true_r, ?andb_false_r; [|lia]. destruct (65 <=? cval c); lia.
Qed.
Lemma node_ascii g k : ascii_names g -> node_in (dependency_graph g) k -> ascii_name k = true.
Proof.
  intros A. unfold node_in, dependency_graph.
  assert (K : forall l m, ascii_names l -> (forall k, In k (map fst m) -> ascii_name k = true) ->
    forall k, In k (map fst (fold_left (fun m r => dg_set (lower (rule_name r)) (mkDN (rule_name r) (get_dependencies (rule_alt r))) m) l m)) -> ascii_name k = true).
  { clear. induction l as [|r l IH]; intros m Al H k; [apply H|]. cbn [fold_left]. apply IH.
    - intros x I. apply Al. right. exact I.
    - intros x I. assert (Q : forall nd d, In x (map fst (dg_set (lower (rule_name r)) nd d)) -> x = lower (rule_name r) \/ In x (map fst d)).
      { clear. induction d as [|[k' n'] d IHd]; cbn [dg_set map fst]; [intros [<-|[]]; auto|].
        destruct (String.eqb (lower (rule_name r)) k'); cbn [map fst In]; intros [<-|H]; auto. apply IHd in H as [->|H]; auto. }
      apply Q in I as [->|I]; [apply ascii_lower, Al; left; reflexivity|apply H, I]. }
  apply K; [|intros x []]. intros r I. apply in_app_or in I as [I|I]; [apply (lex_names _ core_lex r I)|apply A, I].
Qed.
Lemma dg_get_none k dg : ~ node_in dg k -> dg_get k dg = None.
Proof.
  unfold node_in. induction dg as [|[k' n] dg IH]; intros H; [reflexivity|]. cbn [dg_get map fst In] in *.
  destruct (String.eqb_spec k k') as [->|N]; [exfalso; apply H; auto|]. apply IH. intros I. apply H. auto.
Qed.

Lemma rcc_long lr g order n m : go_lower lr -> lex_grammar g = true -> key_order (dependency_graph g) order ->
  respell true n m -> get_rule m g <> None -> rule_contains_cycle_u lr g order n = RccBool false.
Proof.
  intros Lr L O R F. unfold rule_contains_cycle_u. rewrite (get_respell true n m g L R).
  destruct (get_rule m g) as [r|]; [clear F|contradiction].
  destruct (tarjan_correct (dependency_graph g) order O) as (st & -> & _). cbn [rule_cycle_visit mem_str existsb].
  unfold node_of. rewrite dg_get_none.
  - destruct (existsb (mem_str (to_lower lr n)) (t_sccs st)); reflexivity.
  - intros I. apply (node_ascii g _ (lex_names g L)) in I. rewrite (to_lower_long lr Lr n m R) in I. discriminate.
Qed.
Lemma rcc_plain lr g order n m : go_lower lr -> lex_grammar g = true ->
  respell false n m -> rule_contains_cycle_u lr g order n = rule_contains_cycle g order m.
Proof.
  intros Lr L R. unfold rule_contains_cycle_u, rule_contains_cycle. rewrite (get_respell false n m g L R), (to_lower_plain lr Lr n m R). reflexivity.
Qed.

(** ** Building from a cyclic rule *)
Section Diverge.
  Variable g : grammar.
  Hypothesis D : distinct_names g.

  (** No infinite path of references leaves [n]. *)
  Definition good (n : string) : Prop := Acc (fun m n => gref g n m) n.

  Lemma good_same n m : same_name n m -> good n -> good m.
  Proof.
    intros S H. constructor. intros k E. destruct H as [H]. apply H. apply (gref_lower g m k n k); [symmetry; exact S|reflexivity|exact E].
  Qed.
  Lemma good_acyclic n : good n -> ~ exists m, clos_refl_trans _ (gref g) n m /\ clos_trans _ (gref g) m m.
  Proof.
    induction 1 as [n _ IH]. intros (m & P & C). apply clos_rt_rt1n in P. inversion P as [|k ? E Q]; subst.
    - apply clos_trans_t1n in C. inversion C as [? E|k ? E Q]; subst.
      + apply (IH m E). exists m. split; [apply rt_refl|]. apply t_step, E.
      + apply (IH k E). exists m. apply clos_t1n_trans in Q. split.
        * clear -Q. induction Q; [apply rt_step; auto|eapply rt_trans; eauto].
        * apply t_trans with k; [apply t_step, E|exact Q].
    - apply (IH k E). exists m. split; [apply clos_rt1n_rt, Q|exact C].
  Qed.
  Lemma good_rule n r : get_rule n g = Some r -> (forall k, refers (rule_alt r) k -> good k) -> good n.
  Proof.
    intros G H. constructor. intros m (a & k & Ra & F & S). destruct (proj2 (get_rule_resolves g n D) a Ra) as (r' & G' & <-).
    rewrite G in G'. injection G' as <-. apply (good_same k m S), H, F.
  Qed.
  Lemma good_undefined n : get_rule n g = None -> good n.
  Proof.
    intros G. constructor. intros m (a & k & Ra & _). destruct (proj2 (get_rule_resolves g n D) a Ra) as (r' & G' & _). congruence.
  Qed.

  (** Everything the builder remembers is good. *)
  Definition memo_good (st : bstate) : Prop := forall k, memo_get k (b_memo st) <> None -> good k.
  (** What a run of a part of the builder shows, [P] being about the part. *)
  Definition shows {X} (P : Prop) (f : bstate -> option (X * bstate)) : Prop :=
    forall st x st', memo_good st -> f st = Some (x, st') -> memo_good st' /\ P.

  Lemma traverse_shows {A X} (P : A -> Prop) (f : A -> bstate -> option (X * bstate)) l :
    (forall x, In x l -> shows (P x) (f x)) -> shows (forall x, In x l -> P x) (traverse f l).
  Proof.
    induction l as [|x l IH]; intros H st y st' M E; cbn [traverse] in E.
    - injection E as <- <-. split; [exact M|intros z []].
    - destruct (f x st) as [[b s1]|] eqn:E1; [|discriminate]. destruct (traverse f l s1) as [[bs s2]|] eqn:E2; [|discriminate].
      injection E as <- <-. destruct (H x (or_introl eq_refl) st b s1 M E1) as [M1 P1].
      destruct (IH (fun z I => H z (or_intror I)) s1 bs s2 M1 E2) as [M2 P2]. split; [exact M2|]. intros z [<-|I]; auto.
  Qed.
  Lemma map_shows {X Y} (P : Prop) (f : bstate -> option (X * bstate)) (h : X -> Y) : shows P f ->
    shows P (fun st => match f st with Some (n, st') => Some (h n, st') | None => None end).
  Proof.
    intros H st y st' M E. destruct (f st) as [[x s1]|] eqn:E1; [|discriminate]. injection E as _ <-. apply (H st x s1 M E1).
  Qed.

  Section Call.
    Variable call : string -> bstate -> option (re * bstate).
    Hypothesis Call : forall n, shows (good n) (call n).

    Lemma elem_shows : (forall e, shows (forall k, erefers e k -> good k) (build_elem call e)) /\
      (forall r, shows (forall k, erefers (rep_elem r) k -> good k) (build_rep call r)).
    Proof.
      assert (Alt : forall a, Forall (Forall (fun r => shows (forall k, erefers (rep_elem r) k -> good k) (build_rep call r))) a ->
        shows (forall k, refers a k -> good k) (build_alt call a)).
      { intros a F. unfold build_alt. apply (map_shows _ (traverse (build_cat call) a) RAlt).
        assert (T : shows (forall c, In c a -> forall r, In r c -> forall k, erefers (rep_elem r) k -> good k) (traverse (build_cat call) a)).
        { apply traverse_shows. intros c Ic. unfold build_cat. apply (map_shows _ (traverse (build_rep call) c) RConcat).
          apply (traverse_shows (fun r => forall k, erefers (rep_elem r) k -> good k)). intros r Ir. rewrite Forall_forall in F. specialize (F c Ic).
          rewrite Forall_forall in F. apply F, Ir. }
        intros st x st' M E. destruct (T st x st' M E) as [M' H]. split; [exact M'|]. intros k Rk.
        apply refers_split in Rk as (c & r & I & J & K). apply (H c I r J k K). }
      apply elem_rep_ind.
      - intros n st x st' M E. destruct (Call n st x st' M E) as [M' H]. split; [exact M'|]. intros k R.
        destruct R as [R|(b & [R|R] & _)]; try discriminate. injection R as <-. exact H.
      - intros a F st x st' M E. rewrite build_group in E. destruct (Alt a F st x st' M E) as [M' H]. split; [exact M'|]. intros k R.
        destruct R as [R|(b & [R|R] & Rb)]; try discriminate. injection R as <-. apply H, Rb.
      - intros a F st x st' M E. rewrite build_option in E. destruct (build_alt call a st) as [[y s1]|] eqn:E1; [|discriminate].
        destruct (Alt a F st y s1 M E1) as [M' H]. injection E as _ <-. split; [exact M'|]. intros k R.
        destruct R as [R|(b & [R|R] & Rb)]; try discriminate. injection R as <-. apply H, Rb.
      - intros s vs st x st' M E. injection E as _ <-. split; [exact M|]. intros k R. destruct R as [R|(b & [R|R] & _)]; discriminate.
      - intros b s vs st x st' M E. injection E as _ <-. split; [exact M|]. intros k R. destruct R as [R|(b' & [R|R] & _)]; discriminate.
      - intros vs st x st' M E. injection E as _ <-. split; [exact M|]. intros k R. destruct R as [R|(b & [R|R] & _)]; discriminate.
      - intros mn mx e IH st x st' M E. change (build_rep call (Rep mn mx e) st) with
          (match build_elem call e st with Some (n, st') => Some (RRepeat n mn mx, st') | None => None end) in E.
        destruct (build_elem call e st) as [[y s1]|] eqn:E1; [|discriminate]. injection E as _ <-.
        apply (IH st y s1 M E1).
    Qed.
    Lemma alt_shows a : shows (forall k, refers a k -> good k) (build_alt call a).
    Proof.
      intros st x st' M E. rewrite <- build_group in E. destruct (proj1 elem_shows (EGroup a) st x st' M E) as [M' H]. split; [exact M'|].
      intros k R. apply H. right. exists a. auto.
    Qed.
  End Call.

  Lemma rule_shows fuel : forall n, shows (good n) (build_rule fuel g n).
  Proof.
    induction fuel as [|f IH]; intros n st x st' M E; [discriminate|]. cbn [build_rule] in E.
    destruct (memo_get (lower n) (b_memo st)) as [y|] eqn:Q.
    - injection E as _ <-. split; [exact M|]. apply (good_same (lower n) n); [unfold same_name; apply lower_lower|]. apply M. congruence.
    - destruct (get_rule n g) as [r|] eqn:G; [|injection E as _ <-; split; [exact M|apply good_undefined, G]].
      destruct (build_alt (build_rule f g) (rule_alt r) st) as [[y s1]|] eqn:E1; [|discriminate].
      destruct (alt_shows (build_rule f g) IH (rule_alt r) st y s1 M E1) as [M' H]. injection E as _ <-.
      pose proof (good_rule n r G H) as Gn. split; [|exact Gn]. intros k. cbn [b_memo memo_get].
      destruct (String.eqb_spec (lower n) k) as [<-|N]; [|apply M'].
      intros _. apply (good_same n (lower n)); [unfold same_name; symmetry; apply lower_lower|exact Gn].
  Qed.

  (** From a rule that reaches a cycle the builder never comes back. *)
  Lemma build_diverges fuel n r : get_rule n g = Some r ->
    (exists m, clos_refl_trans _ (gref g) n m /\ clos_trans _ (gref g) m m) ->
    build_alt (build_rule fuel g) (rule_alt r) (mkB [] false) = None.
  Proof.
    intros G C. destruct (build_alt (build_rule fuel g) (rule_alt r) (mkB [] false)) as [[x st]|] eqn:E; [|reflexivity].
    exfalso. destruct (alt_shows _ (rule_shows fuel) (rule_alt r) (mkB [] false) x st) as [_ H]; [intros k K; contradiction K; reflexivity|exact E|].
    apply (good_acyclic n); [apply (good_rule n r G H)|exact C].
  Qed.

  (** *** The transition graph of a rule, its references replaced by their graphs *)
  Section Graphs.
    Variable opts : tgoptions.
    Hypothesis Ru : o_rules opts = true.

    Definition buf_good (st : tgstate) : Prop := forall k, buf_get k (t_buf st) <> None -> good k.
    Definition keeps (st : tgstate) (x : tres) : Prop := match x with T_ok _ _ st' => t_buf st' = t_buf st | _ => True end.
    Definition gives (P : Prop) (st : tgstate) (x : tres) : Prop := buf_good st -> match x with T_ok _ _ st' => buf_good st' /\ P | _ => True end.

    Lemma reserve_keeps n st st' : reserve opts n st = Some st' -> t_buf st' = t_buf st.
    Proof.
      unfold reserve. destruct (o_max opts <=? 0); [intros E; injection E as <-; reflexivity|].
      match goal with |- context [if ?b then None else _] => destruct b end; [discriminate|].
      intros E; injection E as <-. reflexivity.
    Qed.
    Lemma clones_keeps n i st st' : reserve_clones opts n i st = Some st' -> t_buf st' = t_buf st.
    Proof.
      unfold reserve_clones. destruct (o_max opts <=? 0); [intros E; injection E as <-; reflexivity|]. apply reserve_keeps.
    Qed.
    Ltac kp :=
      repeat match goal with
      | |- keeps _ (match reserve ?o ?n ?s with _ => _ end) => let E := fresh "E" in destruct (reserve o n s) eqn:E; [apply reserve_keeps in E|exact Logic.I]
      | |- keeps _ (match reserve_clones ?o ?n ?i ?s with _ => _ end) => let E := fresh "E" in destruct (reserve_clones o n i s) eqn:E; [apply clones_keeps in E|exact Logic.I]
      | |- keeps _ (let '(_, _) := ?x in _) => destruct x
      | |- keeps _ (if ?b then _ else _) => destruct b
      | |- keeps _ (T_ok _ _ _) => cbn [keeps with_heap t_buf] in *; congruence
      | |- keeps _ (T_err _) => exact Logic.I
      | |- keeps _ T_panic => exact Logic.I
      | |- keeps _ (match ?l with [] => _ | _ => _ end) => destruct l
      | |- keeps _ (match ?l with StatRange => _ | StatSeries => _ end) => destruct l
      | |- keeps _ (match ?x with (_, _) => _ end) => destruct x
      end.
    Lemma one_keeps e st : keeps st (one_node opts e st).
    Proof. unfold one_node. kp. Qed.
    Lemma char_keeps s vs st : keeps st (char_graph opts s vs st).
    Proof. unfold char_graph, one_node. kp. Qed.
    Lemma num_keeps b s es st : keeps st (num_graph opts b s es st).
    Proof. unfold num_graph, one_node. kp. Qed.
    Lemma rep_keeps mn mx ei eo st : keeps st (rep_build opts mn mx ei eo st).
    Proof.
      unfold rep_build. kp; try (cbn [keeps with_heap t_buf]; congruence).
      - destruct (1 <? mn); [|kp]. destruct (reserve_clones opts mn ei st) as [s1|] eqn:E; [apply clones_keeps in E|exact Logic.I].
        destruct (chain_graph ei eo (Z.to_nat mn) (t_heap st)) as [[[? ?] ?] ?]. kp.
    Qed.

    Section Walk.
      Variable f : rep -> tgstate -> tres.
      Variable P : rep -> Prop.
      Lemma rest_gives c : (forall r st, In r c -> gives (P r) st (f r st)) -> forall ci co st, gives (forall r, In r c -> P r) st (cat_rest f c ci co st).
      Proof.
        induction c as [|r c IH]; intros H ci co st B; cbn [cat_rest]; [split; [exact B|intros r []]|].
        pose proof (H r st (or_introl eq_refl) B) as K. destruct (f r st) as [ri ro st1| | |]; try exact Logic.I. destruct K as [B1 P1].
        destruct (concat_graphs ci co ri ro (t_heap st1)) as [[ci' co'] h].
        pose proof (IH (fun x s I => H x s (or_intror I)) ci' co' (with_heap st1 h) B1) as K.
        destruct (cat_rest f c ci' co' (with_heap st1 h)) as [? ? st2| | |]; try exact Logic.I. destruct K as [B2 P2].
        split; [exact B2|]. intros x [<-|I]; auto.
      Qed.
      Lemma cat_gives c : (forall r st, In r c -> gives (P r) st (f r st)) -> forall st, gives (forall r, In r c -> P r) st (cat_with f c st).
      Proof.
        destruct c as [|r c]; intros H st B; cbn [cat_with]; [exact Logic.I|].
        pose proof (H r st (or_introl eq_refl) B) as K. destruct (f r st) as [ri ro st1| | |]; try exact Logic.I. destruct K as [B1 P1].
        pose proof (rest_gives c (fun x s I => H x s (or_intror I)) ri ro st1 B1) as K.
        destruct (cat_rest f c ri ro st1) as [? ? st2| | |]; try exact Logic.I. destruct K as [B2 P2].
        split; [exact B2|]. intros x [<-|I]; auto.
      Qed.
      Lemma loop_gives a : (forall c r st, In c a -> In r c -> gives (P r) st (f r st)) -> forall i o st, gives (forall c r, In c a -> In r c -> P r) st (alt_loop f a i o st).
      Proof.
        induction a as [|c a IH]; intros H i o st B; cbn [alt_loop]; [split; [exact B|intros c r []]|].
        pose proof (cat_gives c (fun r s I => H c r s (or_introl eq_refl) I) st B) as K.
        destruct (cat_with f c st) as [ci co st1| | |]; try exact Logic.I. destruct K as [B1 P1].
        pose proof (IH (fun c r s I J => H c r s (or_intror I) J) (join_points i ci) (join_points o co) st1 B1) as K.
        destruct (alt_loop f a (join_points i ci) (join_points o co) st1) as [? ? st2| | |]; try exact Logic.I. destruct K as [B2 P2].
        split; [exact B2|]. intros x r [<-|I] J; eauto.
      Qed.
    End Walk.

    Section Call2.
      Variable call : string -> tgstate -> tres.
      Hypothesis Call2 : forall n st, gives (good n) st (call n st).

      Lemma keeps_gives (P : Prop) st x : keeps st x -> P -> gives P st x.
      Proof. intros K H B. destruct x as [i o st'| | |]; try exact Logic.I. cbn [keeps] in K. split; [|exact H]. unfold buf_good. rewrite K. exact B. Qed.

      Lemma elem_gives : (forall e st, gives (forall k, erefers e k -> good k) st (elem_graph opts call e st)) /\
        (forall r st, gives (forall k, erefers (rep_elem r) k -> good k) st (rep_graph opts call r st)).
      Proof.
        assert (Alt : forall a, Forall (Forall (fun r => forall st, gives (forall k, erefers (rep_elem r) k -> good k) st (rep_graph opts call r st))) a ->
          forall st, gives (forall k, refers a k -> good k) st (alt_with (rep_graph opts call) a st)).
        { intros a F st B. unfold alt_with.
          pose proof (loop_gives (rep_graph opts call) (fun r => forall k, erefers (rep_elem r) k -> good k) a) as K.
          assert (K' : forall c r st, In c a -> In r c -> gives (forall k, erefers (rep_elem r) k -> good k) st (rep_graph opts call r st)).
          { intros c r s I J. rewrite Forall_forall in F. specialize (F c I). rewrite Forall_forall in F. apply F, J. }
          specialize (K K' [] [] st B). destruct (alt_loop (rep_graph opts call) a [] [] st) as [? ? st1| | |]; try exact Logic.I.
          destruct K as [B1 K]. split; [exact B1|]. intros k R. apply refers_split in R as (c & r & I & J & Q). apply (K c r I J k Q). }
        apply elem_rep_ind.
        - intros n st. assert (E : elem_graph opts call (ERule n) st = if o_rules opts then call n st else one_node opts (ERule n) st) by reflexivity.
          rewrite E, Ru. intros B. pose proof (Call2 n st B) as K. destruct (call n st) as [? ? st1| | |]; try exact Logic.I. destruct K as [B1 K].
          split; [exact B1|]. intros k [R|(b & [R|R] & _)]; try discriminate. injection R as <-. exact K.
        - intros a F st. assert (E : elem_graph opts call (EGroup a) st = alt_with (rep_graph opts call) a st) by reflexivity. rewrite E.
          intros B. pose proof (Alt a F st B) as K. destruct (alt_with (rep_graph opts call) a st) as [? ? st1| | |]; try exact Logic.I. destruct K as [B1 K].
          split; [exact B1|]. intros k [R|(b & [R|R] & Rb)]; try discriminate. injection R as <-. apply K, Rb.
        - intros a F st. assert (E : elem_graph opts call (EOption a) st = match alt_with (rep_graph opts call) a st with T_ok i o st1 => T_ok (append_nodes i [None]) (append_nodes o [None]) st1 | x => x end) by reflexivity. rewrite E.
          intros B. pose proof (Alt a F st B) as K. destruct (alt_with (rep_graph opts call) a st) as [? ? st1| | |]; try exact Logic.I. destruct K as [B1 K].
          split; [exact B1|]. intros k [R|(b & [R|R] & Rb)]; try discriminate. injection R as <-. apply K, Rb.
        - intros s vs st. apply keeps_gives; [apply (char_keeps s vs st)|]. intros k [R|(b & [R|R] & _)]; discriminate.
        - intros b s vs st. apply keeps_gives; [apply (num_keeps b s vs st)|]. intros k [R|(b' & [R|R] & _)]; discriminate.
        - intros vs st _. exact Logic.I.
        - intros mn mx e IH st. assert (E : rep_graph opts call (Rep mn mx e) st = match elem_graph opts call e st with T_ok ei eo st1 => rep_build opts mn mx ei eo st1 | x => x end) by reflexivity. rewrite E.
          intros B. pose proof (IH st B) as K. destruct (elem_graph opts call e st) as [ei eo st1| | |]; try exact Logic.I. destruct K as [B1 K].
          pose proof (keeps_gives (forall k, erefers e k -> good k) st1 _ (rep_keeps mn mx ei eo st1) K B1) as Q. exact Q.
      Qed.
      Lemma alt_gives a st : gives (forall k, refers a k -> good k) st (alt_graph opts call a st).
      Proof.
        intros B. pose proof (proj1 elem_gives (EGroup a) st B) as K. change (elem_graph opts call (EGroup a) st) with (alt_graph opts call a st) in K.
        destruct (alt_graph opts call a st) as [? ? st1| | |]; try exact Logic.I. destruct K as [B1 K]. split; [exact B1|]. intros k R. apply K. right. exists a. auto.
      Qed.
    End Call2.

    Lemma graph_gives fuel : forall n st, gives (good n) st (rule_graph fuel opts g n st).
    Proof.
      induction fuel as [|f IH]; intros n st B; [exact Logic.I|]. cbn [rule_graph].
      destruct (buf_get (lower n) (t_buf st)) as [[bi bo]|] eqn:Q.
      - assert (Gn : good n).
        { apply (good_same (lower n) n); [unfold same_name; apply lower_lower|]. apply B. congruence. }
        destruct (reserve_clones opts 1 bi st) as [st1|] eqn:E; [apply clones_keeps in E|exact Logic.I].
        destruct (clone_graph (t_heap st1) bi bo) as [[i o] h1]. split; [|exact Gn]. unfold buf_good. cbn [with_heap t_buf]. rewrite E. exact B.
      - destruct (get_rule n g) as [r|] eqn:G; [|exact Logic.I].
        pose proof (alt_gives (rule_graph f opts g) IH (rule_alt r) st B) as K.
        destruct (alt_graph opts (rule_graph f opts g) (rule_alt r) st) as [i o st1| | |]; try exact Logic.I. destruct K as [B1 K].
        destruct (reserve_clones opts 1 i st1) as [st2|] eqn:E; [apply clones_keeps in E|exact Logic.I].
        destruct (clone_graph (t_heap st2) i o) as [[ni no] h1]. pose proof (good_rule n r G K) as Gn. split; [|exact Gn].
        intros k. cbn [t_buf buf_get]. destruct (String.eqb_spec (lower n) k) as [<-|N].
        + intros _. apply (good_same n (lower n)); [unfold same_name; symmetry; apply lower_lower|exact Gn].
        + rewrite E. apply B1.
    Qed.

    (** From a rule that reaches a cycle no graph is made. *)
    Lemma graph_diverges fuel n r : get_rule n g = Some r ->
      (exists m, clos_refl_trans _ (gref g) n m /\ clos_trans _ (gref g) m m) ->
      forall i o st, alt_graph opts (rule_graph fuel opts g) (rule_alt r) (mkT [] [] 0) <> T_ok i o st.
    Proof.
      intros G C i o st E. pose proof (alt_gives _ (graph_gives fuel) (rule_alt r) (mkT [] [] 0)) as H.
      rewrite E in H. destruct H as [_ H]; [intros k K; contradiction K; reflexivity|].
      apply (good_acyclic n); [apply (good_rule n r G H)|exact C].
    Qed.
  End Graphs.
End Diverge.
