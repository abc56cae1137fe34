(** The set a parse ends with does not depend on the order Go ranges over maps, nor on
    the budget when it is not exceeded.
    Its definitions are means of proof and model no code. *)
From Coq Require Import ZArith Arith String Bool List Permutation Lia.
From Verif Require Import Syntax Spec Utf8 Num Term Printer Slots PropTerm Gll Bsr BsrProof LowerProof LowerBudget Check PropGll BsrTable.
Import ListNotations.
Local Open Scope Z_scope.
Local Open Scope list_scope.

Section Within.
  Variable sg : slot_grammar.
  Variable input : list Z.
  Variable mx : Z.
  Variable ord : nat -> gss -> list nat -> list nat.
  Hypothesis ord_in : forall t v l x, In x (ord t v l) <-> In x l.
  (** A state closed under the steps of the engine. *)
  Variable F : bstate.
  Hypothesis F_ab : b_aborted F = false.
  Hypothesis F_done : forall d, In d (b_seen F) -> doned sg input d F.
  Hypothesis F_J : J sg F.

  Record within (st : bstate) : Prop := {
    wi_seen : incl (b_seen st) (b_seen F);
    wi_work : incl (b_work st) (b_seen F);
    wi_edges : incl (b_edges st) (b_edges F);
    wi_popped : incl (b_popped st) (b_popped F);
    wi_set : incl (b_set st) (b_set F) }.

  Lemma within_add L u i rc st : within st -> seenp L u i rc F -> within (b_add L u i rc st).
  Proof.
    intros [] H. unfold b_add. destruct (in_dec _ _ _); [constructor; auto|]. constructor; cbn; auto; intros x [<-|X]; auto.
  Qed.
  Lemma within_record L l k r st : within st -> recd sg L l k r F -> within (b_record sg mx L l k r st).
  Proof.
    intros W H. pose proof W as []. unfold b_record. destruct (prod_of sg L) as [p|] eqn:P; auto.
    destruct (Nat.leb 2 (s_dot L) || Nat.eqb (s_dot L) (length p))%bool eqn:B; auto. destruct (_ && _)%bool; [constructor; auto|]. destruct (in_dec _ _ _); auto.
    constructor; cbn; auto. intros x [<-|X]; auto. destruct H as [H|[H|H]]; [congruence|auto|]. exfalso. destruct (H p P) as [H1 H2].
    apply orb_true_iff in B as [B|B]; [apply Nat.leb_le in B; lia|apply Nat.eqb_eq in B; auto].
  Qed.
  Lemma within_fold {A} (f : bstate -> A -> bstate) l : (forall x, In x l -> forall s, within s -> within (f s x)) -> forall s, within s -> within (fold_left f l s).
  Proof. induction l as [|a l IH]; cbn [fold_left]; auto. intros H s W. apply IH; [intros x X; apply H; right; auto|]. apply H; [left; auto|auto]. Qed.
  Lemma within_create ret u i rc st : within st -> In (GN ret i rc, u) (b_edges F) -> within (b_create sg mx ord ret u i rc st).
  Proof.
    intros W H. pose proof W as []. unfold b_create. destruct (in_dec _ _ _); auto. apply within_fold.
    - intros j Ij s Ws. apply ord_in, popped_of_in in Ij. destruct (F_J _ _ _ _ _ H (wi_popped0 _ Ij)) as [A B].
      apply within_add; auto. apply within_record; auto.
    - constructor; cbn; auto. intros x X. apply in_app_iff in X as [X|[<-|[]]]; auto.
  Qed.
  Lemma within_pop u j st : within st -> (u = U0 \/ In (u, j) (b_popped F)) -> within (b_pop sg mx u j st).
  Proof.
    intros W H. pose proof W as []. unfold b_pop. destruct u as [|ret pos rc]; auto. destruct H as [H|H]; [discriminate|]. apply within_fold.
    - intros v Iv s Ws. apply edges_of_in in Iv. destruct (F_J _ _ _ _ _ (wi_edges0 _ Iv) H) as [A B].
      apply within_add; auto. apply within_record; auto.
    - destruct (in_dec _ _ _); auto. constructor; cbn; auto. intros x [<-|X]; auto.
  Qed.
  Lemma within_process rest : forall L u i rc st, within st -> done sg input rest L u i rc F -> within (b_process sg input mx ord rest L u i rc st).
  Proof.
    induction rest as [|s rest IH]; cbn [b_process done]; intros L u i rc st W D; [apply within_pop; auto|].
    assert (T : (forall k, match_sym s input i = Some k -> recd sg (adv L) (g_pos u) i k F /\ done sg input rest (adv L) u k rc F) ->
      within (match match_sym s input i with None => st | Some j => b_process sg input mx ord rest (adv L) u j rc (b_record sg mx (adv L) (g_pos u) i j st) end)).
    { intros H. destruct (match_sym s input i) as [j|]; auto. destruct (H j eq_refl) as [A B]. apply IH; auto. apply within_record; auto. }
    destruct s as [X|t|]; auto. destruct D as [D1 D2]. apply within_fold; [|apply within_create; auto].
    intros [L' rc'] Ix s Ws. apply within_add; auto.
  Qed.
  Lemma within_run fuel : forall st st', within st -> b_run sg input mx ord fuel st = Some st' -> within st'.
  Proof.
    induction fuel as [|f IH]; intros st st' W R; cbn in R; destruct (b_work st) as [|d w] eqn:E; try (injection R as <-; auto; fail).
    - destruct (b_aborted st); [injection R as <-; auto|discriminate].
    - destruct (b_aborted st); [injection R as <-; auto|]. apply (IH _ _) in R; auto. pose proof W as [].
      assert (W' : within (mkB (b_seen st) w (b_edges st) (b_popped st) (b_set st) false (b_tick st))).
      { constructor; cbn; auto. intros x X. apply wi_work0. rewrite E. right; auto. }
      unfold b_process_desc. destruct (prod_of sg (bd_L d)) as [p|] eqn:P; auto. apply within_process; auto.
      assert (In d (b_seen F)) by (apply wi_work0; rewrite E; left; auto). apply (F_done d); auto.
  Qed.
  Lemma within_parse fuel st : (forall L rc, In (L, rc) (start_slots sg) -> seenp L U0 0 rc F) -> b_parse sg input mx ord fuel = Some st -> within st.
  Proof.
    intros S. apply within_run. unfold b_init. apply within_fold; [|constructor; cbn; intros x []].
    intros [L rc] I s Ws. apply within_add; auto.
  Qed.
End Within.

Lemma parse_within sg input mx ord fuel st mx' ord' fuel' st' : (forall t v l x, In x (ord t v l) <-> In x l) -> (forall t v l x, In x (ord' t v l) <-> In x l) ->
  b_parse sg input mx ord fuel = Some st -> b_parse sg input mx' ord' fuel' = Some st' -> b_aborted st' = false -> within st' st.
Proof.
  intros O O' E E' A. pose proof E' as E0. unfold b_parse in E0. destruct (init_closed sg input) as (I0 & J0 & S0).
  destruct (run_closed sg input mx' ord' O' _ _ _ I0 J0 E0) as [L [X|(I1 & J1 & W)]]; [congruence|].
  eapply within_parse; [exact O|exact A| |exact J1| |exact E].
  - intros d D. destruct (I1 d D) as [[]|[X|X]]; auto. rewrite W in X. destruct X.
  - intros L0 rc M. eapply seenp_le; [exact L|]. apply S0. exact M.
Qed.

(** Two runs of ParseBSR end with the same set. *)
Theorem bsr_same_set ord ord' fuel fuel' input g root ms mn mn' sg sg' set set' : any_order ord -> any_order ord' ->
  parse_bsr ord fuel input g root ms mn = BSR_ok sg set -> parse_bsr ord' fuel' input g root ms mn' = BSR_ok sg' set' ->
  sg' = sg /\ Permutation set set'.
Proof.
  intros O O' E E'. pose proof (parse_bsr_ok _ _ _ _ _ _ _ _ _ E) as (C & _). pose proof (parse_bsr_ok _ _ _ _ _ _ _ _ _ E') as (C' & _).
  assert (Eq : sg' = sg).
  { destruct (Nat.le_ge_cases fuel fuel') as [Le|Le].
    - pose proof (compile_mono g root ms fuel fuel' Le ltac:(congruence)). congruence.
    - pose proof (compile_mono g root ms fuel' fuel Le ltac:(congruence)). congruence. }
  subst sg'. split; auto. unfold parse_bsr in E, E'. rewrite C in E. rewrite C' in E'.
  destruct (b_parse sg input mn (fun t _ l => ord t l) fuel) as [st|] eqn:B; [|discriminate]. destruct (b_aborted st) eqn:A; [discriminate|].
  destruct (b_parse sg input mn' (fun t _ l => ord' t l) fuel') as [st'|] eqn:B'; [|discriminate]. destruct (b_aborted st') eqn:A'; [discriminate|].
  injection E as <-. injection E' as <-. apply NoDup_Permutation; try (eapply set_nodup; eauto).
  assert (Oi : forall (o : nat -> list nat -> list nat), any_order o -> forall t (v : gss) l x, In x (o t l) <-> In x l) by auto.
  intros x. split; intros X.
  - eapply (wi_set st' st); eauto. eapply (parse_within sg input mn (fun t _ l => ord t l) fuel st mn' (fun t _ l => ord' t l)); eauto.
  - eapply (wi_set st st'); eauto. eapply (parse_within sg input mn' (fun t _ l => ord' t l) fuel' st' mn (fun t _ l => ord t l)); eauto.
Qed.
