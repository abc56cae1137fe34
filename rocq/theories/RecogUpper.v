(** The recognizer: what it accepts, for any relation closed under what it does.
    Its definitions are means of proof and model no code. *)
From Coq Require Import ZArith Arith String Ascii Bool Relations List Lia.
From Verif Require Import Syntax Spec Num Term Printer PrintInj Deps Dag Cycle LowerLang PropTerm PropDag LeftRec Recog RecogProof Between Marked.
Import ListNotations.
Local Open Scope list_scope.

Section Upper.
  Variable g : grammar.
  Variable input : list Z.
  Variable lr : string -> option (list string).
  Variable ord : nat -> list nat -> list nat.
  Hypothesis O : forall t l x, In x (ord t l) <-> In x l.
  Hypothesis W : wf_grammar g.
  Hypothesis LG : lex_grammar g = true.
  Hypothesis LL : forall n scc x, lr n = Some scc -> In x scc -> lex_name x = true.
  Notation len := (length input).
  Notation goodS := (good True True).

  Definition named (e : elem) : Prop := occ_elem g e \/ exists n, e = ERule n /\ lex_name n = true.

  Lemma named_lex e : named e -> lex_elem e = true.
  Proof. intros [H|(n & -> & H)]; [apply (lex_occ g LG); auto|exact H]. Qed.
  Lemma named_wf e : named e -> wf_elem e.
  Proof. intros [H|(n & -> & _)]; [apply (wf_occ g W); auto|constructor]. Qed.

  (** The ends an element may have, closed under what the recognizer does. *)
  Variable der : elem -> nat -> nat -> Prop.
  Hypothesis X_le : forall e p q, der e p q -> p <= q <= len.
  Hypothesis X_string : forall e e' i j, named e -> named e' -> elem_string e = elem_string e' -> der e i j -> der e' i j.
  Hypothesis X_rule : forall n r i j, get_rule n g = Some r -> i <= len -> alt_rel der (rule_alt r) i j -> forall m, lower m = lower n -> der (ERule m) i j.
  Hypothesis X_group : forall a i j, i <= len -> alt_rel der a i j -> der (EGroup a) i j.
  Hypothesis X_none : forall a i, i <= len -> der (EOption a) i i.
  Hypothesis X_option : forall a i j, i <= len -> alt_rel der a i j -> der (EOption a) i j.
  Hypothesis X_term : forall e i j, named e -> is_terminal e = true -> i <= len -> match_term e input i = Some j -> der e i j.
  Hypothesis X_lower : forall n i j, der (ERule (lower n)) i j -> der (ERule n) i j.

  (** Every set in the maps holds ends of words of the elements with that key. *)
  Definition snd_key (k : string) (s : list nat) : Prop :=
    forall e i, named e -> i <= len -> k = ekey e i -> forall j, In j s -> der e i j.
  Definition sound (st : rstate) : Prop := forall k s, r_memo st k = Some s \/ r_grow st k = Some s -> snd_key k s.

  Definition named_alt (a : alternation) : Prop := forall c r, In c a -> In r c -> occ_rep g r.
  Lemma named_rule n r : get_rule n g = Some r -> named_alt (rule_alt r).
  Proof. intros G c x Ic Ix. apply get_rule_name in G as [_ I]. eapply occ_rep_rule; eauto. Qed.
  Lemma named_group a : named (EGroup a) -> named_alt a.
  Proof. intros [H|(n & E & _)]; [|discriminate]. intros c x Ic Ix. eapply occ_rep_group; eauto. Qed.
  Lemma named_option a : named (EOption a) -> named_alt a.
  Proof. intros [H|(n & E & _)]; [|discriminate]. intros c x Ic Ix. eapply occ_rep_option; eauto. Qed.
  Lemma named_cat_ok a c r : named_alt a -> In c a -> In r c -> cat_ok r.
  Proof. intros N Ic Ir. pose proof (N c r Ic Ir) as Oc. apply (wf_occ g W) in Oc. destruct Oc; split; auto. Qed.
  Section Body.
    Variable call : elem -> nat -> rstate -> rres (list nat).
    Hypothesis IHc : forall e i st, named e -> i <= len -> sound st -> goodS (call e i st) (fun s st' => sound st' /\ forall j, In j s -> der e i j).

    Definition okS (e : elem) (p : nat) : Prop := named e /\ p <= len.
    Lemma call_S : forall e p st, sound st -> okS e p ->
      goodS (call e p st) (fun s st' => sound st' /\ (False -> forall j, (fun (_ : elem) (_ _ : nat) => False) e p j -> In j s) /\ (forall j, In j s -> der e p j)).
    Proof.
      intros e p st S [N P]. eapply good_weaken; [apply (IHc e p st N P S)|]. cbv beta. intros s st' [S' H]. split; auto. split; auto. intros [].
    Qed.
    Lemma der_hi e p q : der e p q -> p <= len -> p <= q <= len.
    Proof. intros H _. eapply X_le; eauto. Qed.
    Lemma calls_S a i : named_alt a -> i <= len -> alt_calls okS der a i.
    Proof.
      intros N Hi pre mn mx e post p n q I C P. split.
      - left. econstructor. apply (N _ (Rep mn mx e) I). apply in_app_iff. right. left. auto.
      - apply (cat_rel_le input der der_hi) in C; auto.
        assert (forall n p q, pow_rel (der e) n p q -> p <= len -> q <= len) as G; [|eapply G; [exact P|lia]].
        clear -X_le. induction n as [|n IH]; cbn; intros p q P Hp; [lia|]. destruct P as (k & D & P). apply X_le in D. apply (IH k q P). lia.
    Qed.
    Lemma alt_S a i st : named_alt a -> i <= len -> sound st ->
      goodS (reach_alt input ord call a i st) (fun s st' => sound st' /\ forall j, In j s -> alt_rel der a i j).
    Proof.
      intros N Hi S.
      eapply good_weaken; [apply (reach_alt_good input ord O call sound okS True True False (fun _ _ _ => False) der (fun st H => H) call_S der_hi (fun F => match F with end) a i st)|]; auto.
      - intros c r Ic Ir. eapply named_cat_ok; eauto.
      - intros [].
      - apply calls_S; auto.
      - cbv beta. intros s st' (S' & _ & H). auto.
    Qed.
    Lemma compute_S e i st : named e -> i <= len -> sound st ->
      goodS (compute_elem g input ord call e i st) (fun s st' => sound st' /\ forall j, In j s -> der e i j).
    Proof.
      intros N Hi S.
      assert (T : is_terminal e = true -> goodS (ROk (match match_term e input i with Some j => [j] | None => [] end) st) (fun s st' => sound st' /\ forall j, In j s -> der e i j)).
      { intros Te. cbn [Recog.good]. split; auto. intros j J. destruct (match_term e input i) as [j'|] eqn:M; [|easy]. destruct J as [<-|[]].
        apply X_term; auto. }
      destruct e as [n|a|a|s vs|b s0 es|v]; try (apply T; reflexivity); cbn [compute_elem].
      - destruct (get_rule n g) as [r|] eqn:G; [|cbn; split; auto; intros j []].
        eapply good_weaken; [apply alt_S; auto; eapply named_rule; eauto|]. cbv beta. intros s st' [S' H]. split; [exact S'|].
        intros j J. apply (X_rule n r i j G Hi); auto.
      - eapply good_weaken; [apply alt_S; auto; apply named_group; auto|]. cbv beta. intros s st' [S' H]. split; [exact S'|].
        intros j J. apply X_group; auto.
      - eapply good_bind; [apply alt_S; auto; apply named_option; auto|]. cbv beta. intros s st' [S' H]. cbn [Recog.good]. split; [exact S'|].
        intros j J. apply union_in in J as [[<-|[]]|J]; [apply X_none; auto|]. apply X_option; auto.
    Qed.

    Lemma sound_grow x i v st : (forall j, In j v -> i <= len -> der (ERule x) i j) -> lex_name x = true -> sound st -> sound (set_grow (rkey x i) (Some v) st).
    Proof.
      intros D L S k s [H|H]; cbn in H; [apply (S k); auto|]. rewrite upd_case in H. destruct (String.eqb_spec k (rkey x i)) as [->|N]; [|apply (S k); auto].
      injection H as <-. intros e i' Ne Hi E j J. apply rkey_inj in E as [E <-]. apply (X_string (ERule x)); auto. right; eauto.
    Qed.
    Lemma sound_memo e i v st : named e -> (forall j, In j v -> der e i j) -> sound st -> sound (set_memo (ekey e i) v st).
    Proof.
      intros Ne D S k s [H|H]; cbn in H; [|apply (S k); auto]. rewrite upd_case in H. destruct (String.eqb_spec k (ekey e i)) as [->|N]; [|apply (S k); auto].
      injection H as <-. intros e' i' Ne' Hi E j J. apply rkey_inj in E as [E <-]. apply (X_string e); auto.
    Qed.

    Lemma round_S i : i <= len -> forall scc, (forall x, In x scc -> lex_name x = true) -> forall ch st, sound st ->
      goodS (grow_round g input ord call scc i ch st) (fun _ st' => sound st').
    Proof.
      intros Hi. induction scc as [|x scc IH]; intros Lx ch st S; cbn [grow_round]; [exact S|].
      assert (Lx' : forall x, In x scc -> lex_name x = true) by (intros y Y; apply Lx; right; auto).
      destruct (get_rule x g) as [r|] eqn:G; [|apply IH; auto].
      eapply good_bind; [apply alt_S; auto; eapply named_rule; eauto|]. cbv beta. intros ns st1 [S1 H].
      destruct (r_grow st1 (rkey x i)) as [cur|] eqn:Gc; [|destruct ns; [apply IH; auto|exact Logic.I]].
      destruct (existsb (fun e => negb (mem_nat e cur)) ns); [|apply IH; auto].
      apply IH; auto. apply sound_grow; auto; [|apply Lx; left; auto]. intros j J _. apply union_in in J as [J|J].
      - apply (S1 (rkey x i) cur (or_intror Gc) (ERule x) i); auto. right. exists x. split; auto. apply Lx. left. auto.
      - apply (X_rule x r i j G Hi); auto.
    Qed.
    Lemma grow_S i scc : i <= len -> (forall x, In x scc -> lex_name x = true) -> forall k st, sound st ->
      goodS (grow_loop g input ord call k scc i st) (fun _ st' => sound st').
    Proof.
      intros Hi Lx. induction k as [|k IH]; intros st S; cbn [grow_loop]; [exact Logic.I|].
      eapply good_bind; [apply (round_S i Hi scc Lx); auto|]. cbv beta. intros ch st1 S1. destruct ch; [apply IH; auto|exact S1].
    Qed.
    Lemma finish_S name i : i <= len -> lex_name name = true -> forall scc, (forall x, In x scc -> lex_name x = true) -> forall result st, sound st ->
      (forall j, In j result -> der (ERule name) i j) ->
      let '(res, st') := finish name scc i result st in sound st' /\ forall j, In j res -> der (ERule name) i j.
    Proof.
      intros Hi Ln. induction scc as [|x scc IH]; intros Lx result st S R; cbn [finish]; [auto|].
      assert (Lx' : forall x, In x scc -> lex_name x = true) by (intros y Y; apply Lx; right; auto).
      set (v := match r_grow st (rkey x i) with Some v => v | None => [] end).
      assert (V : forall j, In j v -> der (ERule x) i j).
      { intros j J. unfold v in J. destruct (r_grow st (rkey x i)) as [v0|] eqn:E; [|easy].
        apply (S (rkey x i) v0 (or_intror E) (ERule x) i); auto. right. exists x. split; auto. apply Lx. left. auto. }
      apply IH; auto.
      - apply (sound_memo (ERule x) i v); auto; [right; exists x; split; auto; apply Lx; left; auto|].
        intros k s [H|H]; cbn in H; [apply (S k); auto|]. rewrite upd_case in H. destruct (String.eqb k (rkey x i)); [discriminate|apply (S k); auto].
      - destruct (String.eqb_spec x name) as [->|Nx]; auto.
    Qed.
    Lemma seed_S scc i : (forall x, In x scc -> lex_name x = true) -> forall st, sound st -> sound (seed_all scc i st).
    Proof.
      unfold seed_all. induction scc as [|x scc IH]; intros Lx st S; cbn [fold_left]; auto.
      apply IH; [intros y Y; apply Lx; right; auto|]. apply sound_grow; auto; [intros j []|apply Lx; left; auto].
    Qed.
    Lemma left_rec_S n scc i st : lex_name (lower n) = true -> lr (lower n) = Some scc -> i <= len -> sound st ->
      goodS (reach_left_rec g input ord call (lower n) scc i st) (fun s st' => sound st' /\ forall j, In j s -> der (ERule n) i j).
    Proof.
      intros Ln L Hi S.
      assert (Low : forall j, der (ERule (lower n)) i j -> der (ERule n) i j).
      { intros j. apply X_lower. }
      assert (Nm : named (ERule (lower n))) by (right; eauto).
      unfold reach_left_rec. destruct (r_memo st (rkey (lower n) i)) as [v|] eqn:M.
      { cbn. split; auto. intros j J. apply Low. apply (S (rkey (lower n) i) v (or_introl M)); auto. }
      destruct (r_grow st (rkey (lower n) i)) as [v|] eqn:G.
      { cbn. split; auto. intros j J. apply Low. apply (S (rkey (lower n) i) v (or_intror G)); auto. }
      assert (Lx : forall x, In x scc -> lex_name x = true) by (intros x; apply (LL (lower n)); auto).
      eapply good_bind; [apply (grow_S i scc Hi Lx); apply seed_S; auto|]. cbv beta. intros _ st2 S2.
      assert (E0 : forall j, In j [] -> der (ERule (lower n)) i j) by (intros j []).
      pose proof (finish_S (lower n) i Hi Ln scc Lx [] st2 S2 E0) as H. destruct (finish (lower n) scc i [] st2) as [res st3].
      destruct H as [S3 H]. cbn. split; auto.
    Qed.
    Lemma plain_S e i st : named e -> i <= len -> sound st ->
      goodS (reach_plain g input ord call e i st) (fun s st' => sound st' /\ forall j, In j s -> der e i j).
    Proof.
      intros N Hi S. unfold reach_plain. destruct (r_memo st (ekey e i)) as [v|] eqn:M.
      { cbn. split; auto. intros j J. apply (S (ekey e i) v (or_introl M) e i); auto. }
      destruct (r_prog st (ekey e i)); [cbn; split; auto; intros j []|].
      eapply good_bind; [apply (compute_S e i (set_prog (ekey e i) true st)); auto|]. cbv beta. intros out st' [S' H].
      cbn [Recog.good]. split; auto. apply sound_memo; auto.
    Qed.
  End Body.

  Theorem reach_elem_U : forall f e i st, named e -> i <= len -> sound st ->
    goodS (reach_elem g input lr ord f e i st) (fun s st' => sound st' /\ forall j, In j s -> der e i j).
  Proof.
    induction f as [|f IH]; intros e i st N Hi S; [exact Logic.I|]. cbn [reach_elem]. unfold reach_body, is_lr.
    destruct e as [n|a|a|s vs|b s0 es|v]; try (apply plain_S; auto).
    destruct (lr (lower n)) as [scc|] eqn:L; [|apply plain_S; auto]. apply left_rec_S; auto.
    rewrite lex_lower. apply named_lex in N. exact N.
  Qed.
End Upper.

(** ** Taking every quoted string without [%s] *)
Section Widen.
  Variable g : grammar.
  Variable input : list Z.
  Notation len := (length input).
  Notation h := (mark false g).
  Notation up := (mark_elem false).
  Definition wide (e : elem) (i j : nat) : Prop := der h input (up e) i j.

  Lemma core_unmarked r : In r core_rules -> map (map (mark_rep false)) (rule_alt r) = rule_alt r.
  Proof. intros I. repeat (destruct I as [<-|I]; [vm_compute; reflexivity|]). destruct I. Qed.
  Lemma alt_wide a i j : alt_rel wide a i j -> alt_rel (der h input) (map (map (mark_rep false)) a) i j.
  Proof.
    intros (c & I & C). exists (map (mark_rep false) c). split; [apply in_map; exact I|]. clear I. revert i C.
    induction c as [|[mn mx e] c IH]; cbn [map cat_rel]; intros i C; auto. destruct C as (k & R & C). exists k. split; auto.
  Qed.
  Lemma wide_rule n r i j : wf_grammar g -> get_rule n g = Some r -> i <= len -> alt_rel wide (rule_alt r) i j -> forall m, lower m = lower n -> wide (ERule m) i j.
  Proof.
    intros W G Hi A m E. apply alt_wide in A.
    assert (Wh : wf_grammar h) by (apply (narrows_grammar_ok g h (proj2 (mark_narrows_grammar g))); auto).
    pose proof (get_rule_resolves g n (proj1 W)) as [Rg _]. specialize (Rg r G).
    apply alt_der in A as (w & Q & S); auto. exists w. split; auto. cbn [mark_elem]. econstructor; [|exact Q].
    apply (resolves_lower h n m); [symmetry; exact E|]. destruct Rg as [(q & I & Sm & Eq)|(F & q & I & Sm & Eq)].
    - left. exists (mkRule (rule_name q) (map (map (mark_rep false)) (rule_alt q))). split; [apply in_map_iff; exists q; auto|]. cbn. rewrite Eq. auto.
    - right. split; [|exists q; split; auto; split; auto; rewrite <- Eq; symmetry; apply core_unmarked; exact I].
      intros q' I' S'. apply in_map_iff in I' as (q0 & <- & I'). exact (F q0 I' S').
  Qed.
  Lemma wide_string e e' i j : lex_elem e = true -> lex_elem e' = true -> elem_string e = elem_string e' -> wide e i j -> wide e' i j.
  Proof.
    intros L L' E D. apply elem_string_inj in E; auto. unfold wide. rewrite <- (proj1 (mark_erase false) e'), <- E. rewrite (proj1 (mark_erase false) e). exact D.
  Qed.
  Lemma wide_term e i j : wf_elem e -> is_terminal e = true -> i <= len -> match_term e input i = Some j -> wide e i j.
  Proof.
    intros We T Hi M. unfold wide. destruct e as [n|a|a|s vs|b s0 es|v]; try discriminate; cbn [mark_elem].
    - apply (match_term_spec h (EChar false vs)); auto; [constructor|]. cbn [match_term] in *. eapply match_char_le; [|exact M]. discriminate.
    - apply (match_term_spec h (ENum b s0 es)); auto.
  Qed.

  Theorem reach_wide lr ord f n : (forall t l x, In x (ord t l) <-> In x l) -> wf_grammar g -> lex_grammar g = true ->
    (forall m scc x, lr m = Some scc -> In x scc -> lex_name x = true) -> lex_name n = true ->
    good True True (reach_elem g input lr ord f (ERule n) 0 r_init) (fun s _ => forall j, In j s -> wide (ERule n) 0 j).
  Proof.
    intros O W L LL Ln.
    eapply good_weaken; [apply (reach_elem_U g input lr ord O W L LL wide)|].
    - intros e p q H. eapply der_le; eauto.
    - intros e e' i j N N'. apply wide_string; eapply named_lex; eauto.
    - intros n0 r i j. apply wide_rule; auto.
    - intros a i j Hi A. apply alt_wide, alt_der in A as (w & Q & S); auto. exists w. split; auto. cbn. constructor. exact Q.
    - intros a i Hi. exists []. split; [constructor|apply span_nil; auto].
    - intros a i j Hi A. apply alt_wide, alt_der in A as (w & Q & S); auto. exists w. split; auto. cbn. apply in_option_some. exact Q.
    - intros e i j N. apply wide_term. eapply named_wf; eauto.
    - intros m i j (w & I & Sp). exists w. split; auto. cbn in *. inversion I; subst. econstructor; [|eassumption].
      apply (resolves_lower h (lower m) m); auto. unfold same_name. apply lower_lower.
    - right. eauto.
    - lia.
    - intros k s [Q|Q]; discriminate.
    - cbv beta. intros s st' [_ H]. exact H.
  Qed.
End Widen.
