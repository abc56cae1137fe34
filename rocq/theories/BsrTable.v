(** A run of ParseBSR that returns a set is a run of the packed forest parser: the set
    has a node table.  So what was proved of forests applies to sets.
    Its definitions are means of proof and model no code. *)
From Coq Require Import ZArith Arith String Bool List Lia.
From Verif Require Import Syntax Spec Utf8 Num Term Printer Slots PropTerm Gll GllUniv Bsr BsrProof BsrTerm
  LowerProof LowerLang PrintInj Sppf SppfProof PropGll.
From Verif Require ParseAbnf.
Import ListNotations.
Local Open Scope Z_scope.

(** *** A run that is not abandoned does not depend on the budget; orders matter pointwise *)
Section Same.
  Variable sg : slot_grammar.
  Variable input : list Z.
  Variable mx : Z.
  Variable o1 o2 : nat -> gss -> list nat -> list nat.
  Hypothesis Eo : forall t v l, o1 t v l = o2 t v l.
  Notation ab := b_aborted.

  Lemma record_same L l k r st : ab (b_record sg mx L l k r st) = false -> b_record sg mx L l k r st = b_record sg 0 L l k r st.
  Proof.
    unfold b_record. destruct (prod_of sg L); auto. destruct (_ || _)%bool; auto. destruct ((0 <? mx) && _)%bool; [discriminate|]. reflexivity.
  Qed.
  Lemma fold_same {A} (f h : bstate -> A -> bstate) l : (forall s x, ab (f s x) = false -> f s x = h s x) -> (forall s x, le s (f s x)) ->
    forall s, ab (fold_left f l s) = false -> fold_left f l s = fold_left h l s.
  Proof.
    intros H M. induction l as [|x l IH]; cbn [fold_left]; auto. intros s E.
    assert (F : ab (f s x) = false). { destruct (ab (f s x)) eqn:X; auto. rewrite (le_ab _ _ (fold_le f l M (f s x)) X) in E. discriminate. }
    rewrite <- (H s x F). auto.
  Qed.
  Lemma step_le ret u a b j rc (s : bstate) : le s (b_add ret u j rc (b_record sg mx ret a b j s)).
  Proof. eapply le_trans; [apply record_le|apply add_le]. Qed.
  Lemma step_same ret u a b j rc (s : bstate) : ab (b_add ret u j rc (b_record sg mx ret a b j s)) = false ->
    b_add ret u j rc (b_record sg mx ret a b j s) = b_add ret u j rc (b_record sg 0 ret a b j s).
  Proof.
    intros E. rewrite record_same; auto. destruct (ab (b_record sg mx ret a b j s)) eqn:X; auto. rewrite (le_ab _ _ (add_le ret u j rc _) X) in E. discriminate.
  Qed.
  Lemma create_same ret u i rc st : ab (b_create sg mx o1 ret u i rc st) = false -> b_create sg mx o1 ret u i rc st = b_create sg 0 o2 ret u i rc st.
  Proof.
    unfold b_create. destruct (in_dec _ _ _); auto. rewrite Eo. apply fold_same; intros; [apply step_same; auto|apply step_le].
  Qed.
  Lemma pop_same u j st : ab (b_pop sg mx u j st) = false -> b_pop sg mx u j st = b_pop sg 0 u j st.
  Proof. unfold b_pop. destruct u; auto. apply fold_same; intros; [apply step_same; auto|apply step_le]. Qed.
  Lemma process_same rest : forall L u i rc st, ab (b_process sg input mx o1 rest L u i rc st) = false ->
    b_process sg input mx o1 rest L u i rc st = b_process sg input 0 o2 rest L u i rc st.
  Proof.
    induction rest as [|s rest IH]; cbn [b_process]; intros L u i rc st E; [apply pop_same; auto|].
    assert (T : forall j, ab (b_process sg input mx o1 rest (adv L) u j rc (b_record sg mx (adv L) (g_pos u) i j st)) = false ->
      b_process sg input mx o1 rest (adv L) u j rc (b_record sg mx (adv L) (g_pos u) i j st) =
      b_process sg input 0 o2 rest (adv L) u j rc (b_record sg 0 (adv L) (g_pos u) i j st)).
    { intros j Ej. rewrite IH; auto. rewrite record_same; auto. destruct (ab (b_record _ _ _ _ _ _ _)) eqn:X; auto.
      rewrite (le_ab _ _ (process_le sg input mx o1 rest _ _ _ _ _) X) in Ej. discriminate. }
    destruct s; try (destruct (match_sym _ _ _); auto).
    set (f := fun s x => _) in *. rewrite <- create_same; auto.
    destruct (ab (b_create sg mx o1 (adv L) u i rc st)) eqn:X; auto.
    rewrite (le_ab _ _ (fold_le f _ (fun s x => add_le _ _ _ _ s) _) X) in E. discriminate.
  Qed.
  Lemma run_same fuel : forall st st', b_run sg input mx o1 fuel st = Some st' -> ab st' = false -> b_run sg input 0 o2 fuel st = Some st'.
  Proof.
    assert (Mono : forall fuel st st', b_run sg input mx o1 fuel st = Some st' -> ab st' = false -> ab st = false).
    { clear fuel. induction fuel as [|f IH]; intros st st'; cbn [b_run]; destruct (b_work st); try (intros E; injection E as <-; auto; fail);
        destruct (ab st) eqn:A; auto; intros E; injection E as <-; congruence. }
    induction fuel as [|f IH]; intros st st'; cbn [b_run]; destruct (b_work st) as [|d w]; auto; destruct (ab st) eqn:A; auto.
    intros E F. apply IH; auto. pose proof (Mono _ _ _ E F) as G. unfold b_process_desc in *. destruct (prod_of sg (bd_L d)); auto.
    rewrite <- process_same; auto.
  Qed.
  Lemma parse_same fuel st : b_parse sg input mx o1 fuel = Some st -> ab st = false -> b_parse sg input 0 o2 fuel = Some st.
  Proof. apply run_same. Qed.
End Same.

(** *** An order of nodes inducing a given order of positions *)
Definition end_injb (l : list nkey) : bool :=
  forallb (fun x => forallb (fun y => (negb (Nat.eqb (n_end x) (n_end y)) || (if nkey_eq_dec x y then true else false))%bool) l) l.
Definition pick (l : list nkey) (j : nat) : nkey := match find (fun x => Nat.eqb (n_end x) j) l with Some x => x | None => NTerm 0 j end.
Definition node_order (ord : nat -> list nat -> list nat) (t : nat) (l : list nkey) : list nkey :=
  if end_injb l then map (pick l) (ord t (map n_end l)) else l.
Lemma pick_end l j : n_end (pick l j) = j.
Proof. unfold pick. destruct (find _ l) as [x|] eqn:F; [|reflexivity]. apply find_some in F as [_ F]. apply Nat.eqb_eq in F. auto. Qed.
Lemma node_order_any ord : any_order ord -> any_order (node_order ord).
Proof.
  intros O t l x. unfold node_order. destruct (end_injb l) eqn:E; [|tauto]. unfold end_injb in E. rewrite forallb_forall in E.
  assert (Inj : forall a b, In a l -> In b l -> n_end a = n_end b -> a = b).
  { intros a b A B Eq. specialize (E a A). rewrite forallb_forall in E. specialize (E b B). rewrite Eq, Nat.eqb_refl in E. destruct (nkey_eq_dec a b); [auto|discriminate]. }
  assert (Pk : forall j, In j (map n_end l) -> In (pick l j) l).
  { intros j J. apply in_map_iff in J as (y & <- & Y). unfold pick. destruct (find _ l) as [z|] eqn:F; [apply find_some in F; tauto|].
    eapply find_none in F; eauto. rewrite Nat.eqb_refl in F. discriminate. }
  rewrite in_map_iff. split.
  - intros (j & <- & J). apply O in J. auto.
  - intros X. exists (n_end x). split; [|apply O, in_map; auto]. apply Inj; auto; [apply Pk, in_map; auto|apply pick_end].
Qed.
Lemma node_order_ends sg ord t v l : ord' sg (node_order ord) t v l = ord t l.
Proof.
  unfold ord', node_order. replace (end_injb (map (zof sg v) l)) with true.
  - rewrite map_map. erewrite map_ext; [|intros j; apply pick_end]. rewrite map_id. rewrite map_map. f_equal.
    erewrite map_ext; [|intros j; apply zof_end]. apply map_id.
  - symmetry. unfold end_injb. rewrite forallb_forall. intros x X. rewrite forallb_forall. intros y Y.
    apply in_map_iff in X as (j & <- & _), Y as (k & <- & _). rewrite !zof_end. destruct (Nat.eqb_spec j k) as [->|]; auto. cbn. destruct (nkey_eq_dec _ _); auto.
Qed.

(** *** The set has no repetitions *)
Lemma set_nodup sg input mx ord fuel st : b_parse sg input mx ord fuel = Some st -> NoDup (b_set st).
Proof.
  set (P := fun st => NoDup (b_set st)).
  assert (Sa : forall L u i rc st, P st -> P (b_add L u i rc st)) by (unfold P, b_add; intros; destruct (in_dec _ _ _); auto).
  assert (Sr : forall L l k r st, P st -> P (b_record sg mx L l k r st)).
  { unfold P, b_record. intros. destruct (prod_of sg L); auto. destruct (_ || _)%bool; auto. destruct (_ && _)%bool; auto. destruct (in_dec _ _ _); auto. constructor; auto. }
  assert (Sf : forall A (f : bstate -> A -> bstate) l, (forall s x, P s -> P (f s x)) -> forall s, P s -> P (fold_left f l s)) by (intros A f l H; induction l; cbn; auto).
  assert (Sp : forall rest L u i rc st, P st -> P (b_process sg input mx ord rest L u i rc st)).
  { induction rest as [|s rest IH]; cbn [b_process]; intros.
    - unfold b_pop. destruct u; auto. apply Sf; auto. destruct (in_dec _ _ _); auto.
    - destruct s; try (destruct (match_sym _ _ _); auto). apply Sf; auto. unfold b_create. destruct (in_dec _ _ _); auto. }
  assert (R : forall fuel st st', P st -> b_run sg input mx ord fuel st = Some st' -> P st').
  { induction fuel0 as [|f IH]; intros s s' S; cbn [b_run]; destruct (b_work s); try (intros E; injection E as <-; auto; fail);
      destruct (b_aborted s); try discriminate; try (intros E; injection E as <-; auto; fail).
    apply IH. unfold b_process_desc. destruct (prod_of sg _); auto. }
  apply R. unfold b_init. apply Sf; auto. constructor.
Qed.

Record set_facts (g : grammar) (root : string) (input : list Z) (sg : slot_grammar) (set : list belem) (f : forest) : Prop := {
  sf_sg : f_sg f = sg;
  sf_tbl : tbl sg (f_nodes f) set;
  sf_ok : forall e, In e set -> ok_elem sg input e;
  sf_nodup : NoDup set;
  sf_valid : f_valid f = bsr_valid sg (length input) set }.
Theorem bsr_forest ord fuel input g root ms mn sg set : any_order ord -> parse_bsr ord fuel input g root ms mn = BSR_ok sg set ->
  exists f, parse_forest (node_order ord) fuel input g root ms 0 = PF_ok f /\ set_facts g root input sg set f.
Proof.
  intros O E. unfold parse_bsr in E. destruct (compile_slots g root ms fuel) as [sg'| | |] eqn:C; try discriminate.
  destruct (b_parse sg' input mn (fun t _ l => ord t l) fuel) as [st|] eqn:B; [|discriminate]. destruct (b_aborted st) eqn:A; [discriminate|].
  injection E as -> <-. destruct (compile_ok_represents _ _ _ _ _ C) as [idx R].
  pose proof (wf_reps _ (shape _ _ _ _ R)) as W. pose proof (nonempty _ _ _ _ R) as NE.
  assert (B0 : b_parse sg input 0 (ord' sg (node_order ord)) fuel = Some st).
  { apply (parse_same sg input mn (fun t _ l => ord t l)); auto. intros t v l. symmetry. apply node_order_ends. }
  destruct (sppf_total sg input 0 (node_order ord) (node_order_any ord O) NE W fuel st B0) as [ps P].
  pose proof (ParseAbnf.parse_live sg input 0 (node_order ord) ltac:(lia) fuel ps P) as Ap.
  destruct (sppf_as_bsr sg input 0 (node_order ord) (node_order_any ord O) NE W fuel ps P Ap) as (bs & B1 & HR).
  assert (bs = st) by congruence. subst bs. eexists. unfold parse_forest. rewrite C, P, Ap. split; [reflexivity|].
  pose proof (root_valid sg input ps st HR) as V.
  constructor; cbn [f_sg f_nodes]; auto.
  - apply (r_tbl _ _ _ HR).
  - unfold b_parse in B.
    assert (So : Sound sg input st).
    { eapply (run_sound sg input mn (fun t _ l => ord t l)); [intros; apply O|exact W|apply init_sound; exact W| |exact B].
      unfold b_init. set (ff := fun s x => _).
      assert (G : forall l s, (forall d, In d (b_work s) -> In d (b_seen s)) -> forall d, In d (b_work (fold_left ff l s)) -> In d (b_seen (fold_left ff l s))).
      { induction l as [|a l IHl]; cbn [fold_left]; auto. intros s H. apply IHl. unfold ff, b_add. destruct (in_dec _ _ _); auto. cbn. intros d [<-|X]; auto. }
      apply G. cbn. tauto. }
    apply So.
  - eapply set_nodup; eauto.
  - unfold f_valid. cbn [f_root]. destruct (packs_of _ _) as [q|].
    + symmetry. apply V. discriminate.
    + destruct (bsr_valid sg (length input) (b_set st)); auto. exfalso. apply (proj2 V); auto.
Qed.
