(** The recognizer: every end is found.
    Its definitions are means of proof and model no code. *)
From Coq Require Import ZArith Arith String Ascii Bool Relations List Lia.
From Verif Require Import Syntax Spec Num Term Printer PrintInj Deps Dag Cycle LowerLang PropTerm PropDag LeftRec Recog RecogProof.
Import ListNotations.
Local Open Scope list_scope.

(** ** Left corners between elements *)
Definition canon (e : elem) : elem := match e with ERule n => ERule (lower n) | _ => e end.
Inductive body (g : grammar) : elem -> alternation -> Prop :=
| body_rule n a : resolves g n a -> body g (ERule n) a
| body_group a : body g (EGroup a) a
| body_option a : body g (EOption a) a.
(** [e'] can begin a derivation of [e], one level down. *)
Definition corner (g : grammar) (e e' : elem) : Prop :=
  exists a pre mn mx x post, body g e a /\ In (pre ++ Rep mn mx x :: post) a /\ (forall r, In r pre -> in_rep g r []) /\ canon x = canon e'.
Definition corners (g : grammar) : elem -> elem -> Prop := clos_trans _ (corner g).

Lemma canon_idem e : canon (canon e) = canon e.
Proof. destruct e; cbn; auto. rewrite lower_lower. auto. Qed.
Lemma body_canon g e e' a : canon e = canon e' -> body g e a -> body g e' a.
Proof.
  intros E B. destruct B as [n a R|a|a]; destruct e'; cbn in E; try discriminate; inversion E; subst; try constructor.
  apply (resolves_lower g n); auto.
Qed.
Lemma corner_canon g e1 e1' e2 e2' : canon e1 = canon e1' -> canon e2 = canon e2' -> corner g e1 e2 -> corner g e1' e2'.
Proof.
  intros E1 E2 (a & pre & mn & mx & x & post & B & I & P & X). exists a, pre, mn, mx, x, post.
  split; [eapply body_canon; eauto|]. split; auto. split; auto. congruence.
Qed.
Lemma corners_canon g e1 e1' e2 e2' : canon e1 = canon e1' -> canon e2 = canon e2' -> corners g e1 e2 -> corners g e1' e2'.
Proof.
  intros E1 E2 H. revert e1' e2' E1 E2. induction H as [x y H|x y z H1 IH1 H2 IH2]; intros e1' e2' E1 E2.
  - apply t_step. eapply corner_canon; eauto.
  - apply t_trans with y; [apply IH1; auto|apply IH2; auto].
Qed.

(** ** What is found from given seeds *)
Section Lo.
  Variable g : grammar.
  Variable input : list Z.
  Notation len := (length input).
  Notation der := (der g input).
  Variable gr : string -> option (list nat).

  Fixpoint D (h : nat) (e : elem) (i j : nat) : Prop :=
    match h with
    | O => False
    | S h' =>
        match e with
        | ERule n =>
            match gr (rkey (lower n) i) with
            | Some s => In j s
            | None => exists r, get_rule n g = Some r /\ alt_rel (D h') (rule_alt r) i j
            end
        | EGroup a => alt_rel (D h') a i j
        | EOption a => j = i \/ alt_rel (D h') a i j
        | t => match_term t input i = Some j
        end
    end.
  Definition lo (e : elem) (i j : nat) : Prop := exists h, D h e i j.

  Lemma rep_mono (X Y : elem -> nat -> nat -> Prop) r : (forall e p q, X e p q -> Y e p q) -> forall i j, rep_rel X r i j -> rep_rel Y r i j.
  Proof. destruct r as [mn mx e]. intros H i j (n & A & B & P). exists n. split; auto. split; auto. apply (pow_rel_mono (X e) (Y e)); auto. Qed.
  Lemma cat_mono (X Y : elem -> nat -> nat -> Prop) c : (forall e p q, X e p q -> Y e p q) -> forall i j, cat_rel X c i j -> cat_rel Y c i j.
  Proof.
    intros H. induction c as [|r c IH]; cbn; intros i j; auto. intros (k & A & B). exists k. split; auto. eapply rep_mono; eauto.
  Qed.
  Lemma alt_mono (X Y : elem -> nat -> nat -> Prop) a : (forall e p q, X e p q -> Y e p q) -> forall i j, alt_rel X a i j -> alt_rel Y a i j.
  Proof. intros H i j (c & I & C). exists c. split; auto. eapply cat_mono; eauto. Qed.
  Lemma D_S h : forall e i j, D h e i j -> D (S h) e i j.
  Proof.
    induction h as [|h IH]; intros e i j H; [destruct H|]. destruct e as [n|a|a|s vs|b s0 es|v]; auto.
    - cbn [D] in *. destruct (gr (rkey (lower n) i)); auto. destruct H as (r & G & H). exists r. split; auto. eapply alt_mono; eauto.
    - change (alt_rel (D (S h)) a i j). change (alt_rel (D h) a i j) in H. eapply alt_mono; eauto.
    - change (j = i \/ alt_rel (D (S h)) a i j). change (j = i \/ alt_rel (D h) a i j) in H. destruct H as [H|H]; auto. right. eapply alt_mono; eauto.
  Qed.
  Lemma D_mono h h' e i j : h <= h' -> D h e i j -> D h' e i j.
  Proof. intros L. induction L; auto. intros H. apply D_S. auto. Qed.

  Lemma pow_height e n : forall i j, pow_rel (lo e) n i j -> exists h, pow_rel (D h e) n i j.
  Proof.
    induction n as [|n IH]; cbn; intros i j H; [exists 0; auto|]. destruct H as (k & (h1 & A) & B). apply IH in B as (h2 & B).
    exists (max h1 h2), k. split; [eapply D_mono; [|exact A]; lia|]. eapply pow_rel_mono; [|exact B]. intros p q. apply D_mono. lia.
  Qed.
  Lemma rep_height r i j : rep_rel lo r i j -> exists h, rep_rel (D h) r i j.
  Proof. destruct r as [mn mx e]. intros (n & A & B & P). apply pow_height in P as (h & P). exists h, n. auto. Qed.
  Lemma cat_height c : forall i j, cat_rel lo c i j -> exists h, cat_rel (D h) c i j.
  Proof.
    induction c as [|r c IH]; cbn; intros i j H; [exists 0; auto|]. destruct H as (k & A & B). apply rep_height in A as (h1 & A). apply IH in B as (h2 & B).
    exists (max h1 h2), k. split; [eapply rep_mono; [|exact A]|eapply cat_mono; [|exact B]]; intros e p q; apply D_mono; lia.
  Qed.
  Lemma alt_height a i j : alt_rel lo a i j <-> exists h, alt_rel (D h) a i j.
  Proof.
    split.
    - intros (c & I & C). apply cat_height in C as (h & C). exists h, c. auto.
    - intros (h & H). eapply alt_mono; [|exact H]. intros e p q X. exists h. auto.
  Qed.

  Lemma lo_rule n i j : lo (ERule n) i j <->
    match gr (rkey (lower n) i) with Some s => In j s | None => exists r, get_rule n g = Some r /\ alt_rel lo (rule_alt r) i j end.
  Proof.
    split.
    - intros ([|h] & H); [destruct H|]. cbn [D] in H. destruct (gr (rkey (lower n) i)); auto. destruct H as (r & G & H).
      exists r. split; auto. apply alt_height. eauto.
    - intros H. destruct (gr (rkey (lower n) i)) as [s|] eqn:E.
      + exists 1. cbn [D]. rewrite E. auto.
      + destruct H as (r & G & H). apply alt_height in H as (h & H). exists (S h). cbn [D]. rewrite E. eauto.
  Qed.
  Lemma lo_group a i j : lo (EGroup a) i j <-> alt_rel lo a i j.
  Proof.
    rewrite alt_height. split.
    - intros ([|h] & H); [destruct H|]. exists h. exact H.
    - intros (h & H). exists (S h). exact H.
  Qed.
  Lemma lo_option a i j : lo (EOption a) i j <-> j = i \/ alt_rel lo a i j.
  Proof.
    rewrite alt_height. split.
    - intros ([|h] & H); [destruct H|]. destruct H as [H|H]; eauto.
    - intros [H|(h & H)]; [exists 1; left; auto|]. exists (S h). right. exact H.
  Qed.
  Lemma lo_term t i j : is_terminal t = true -> (lo t i j <-> match_term t input i = Some j).
  Proof.
    intros T. split.
    - intros ([|h] & H); [destruct H|]. destruct t; try discriminate; exact H.
    - intros H. exists 1. destruct t; try discriminate; exact H.
  Qed.

  Hypothesis W : wf_grammar g.
  (** Seeds that hold ends only. *)
  Hypothesis GS : forall n i s j, i <= len -> gr (rkey (lower n) i) = Some s -> In j s -> der (ERule n) i j.

  Definition occ_or_rule (e : elem) : Prop := occ_elem g e \/ exists n, e = ERule n.
  Lemma rel_le (X : elem -> nat -> nat -> Prop) : (forall e p q, X e p q -> p <= len -> p <= q <= len) ->
    (forall e n p q, pow_rel (X e) n p q -> p <= len -> p <= q <= len) /\
    (forall c p q, cat_rel X c p q -> p <= len -> p <= q <= len).
  Proof.
    intros H. assert (P : forall e n p q, pow_rel (X e) n p q -> p <= len -> p <= q <= len).
    { intros e. induction n as [|n IH]; cbn; intros p q A Hp; [lia|]. destruct A as (k & A & B). apply H in A; auto. apply IH in B; lia. }
    split; [exact P|]. induction c as [|[mn mx e] c IH]; cbn; intros p q A Hp; [lia|]. destruct A as (k & (n & _ & _ & A) & B).
    apply P in A; auto. apply IH in B; lia.
  Qed.
  (** Relations used only from the positions of the input. *)
  Lemma alt_mono_le (X Y : elem -> nat -> nat -> Prop) a : (forall e p q, Y e p q -> p <= len -> p <= q <= len) ->
    (forall c mn mx e, In c a -> In (Rep mn mx e) c -> forall p q, p <= len -> X e p q -> Y e p q) ->
    forall i j, i <= len -> alt_rel X a i j -> alt_rel Y a i j.
  Proof.
    intros L H i j Hi (c & I & C). exists c. split; auto. specialize (H c). revert i j Hi C.
    assert (Hc : forall mn mx e, In (Rep mn mx e) c -> forall p q, p <= len -> X e p q -> Y e p q) by (intros; eauto). clear H I.
    induction c as [|[mn mx e] c IH]; cbn [cat_rel]; intros i j Hi C; auto. destruct C as (k & (n & A & B & P) & C).
    assert (P' : pow_rel (Y e) n i k).
    { clear A B C. revert i Hi P. induction n as [|n IHn]; cbn; intros i Hi P; auto. destruct P as (m & P1 & P2).
      assert (Y e i m) as Q by (apply (Hc mn mx e (or_introl eq_refl)); auto). exists m. split; auto. apply L in Q; auto. apply IHn; auto. lia. }
    exists k. split; [exists n; auto|]. apply IH; auto; [|]. { intros mn' mx' e' I. apply (Hc mn' mx'). right. auto. }
    apply (proj1 (rel_le Y L) e n i k P') in Hi. lia.
  Qed.

  Lemma lo_der : forall e i j, occ_or_rule e -> i <= len -> lo e i j -> der e i j.
  Proof.
    intros e i j O Hi (h & H). revert e i j O Hi H.
    induction h as [|h IH]; intros e i j O Hi H; [destruct H|].
    assert (Le : forall e p q, der e p q -> p <= len -> p <= q <= len) by (intros; eapply der_le; eauto).
    assert (Al : forall a, (forall c r, In c a -> In r c -> occ_rep g r) -> alt_rel (D h) a i j -> alt_rel der a i j).
    { intros a Oa. apply alt_mono_le; auto. intros c mn mx x Ic Ir p q Hp. apply IH; auto. left. econstructor. eapply Oa; eauto. }
    destruct e as [n|a|a|s vs|b s0 es|v].
    - cbn [D] in H. destruct (gr (rkey (lower n) i)) as [s|] eqn:E; [eapply GS; eauto|]. destruct H as (r & G & H).
      apply Al in H; [|intros c x Ic Ix; eapply named_rule; eauto]. eapply rule_der; eauto.
    - destruct O as [O|(n & O)]; [|discriminate]. apply Al in H; [|intros c x Ic Ix; eapply occ_rep_group; eauto].
      apply alt_der in H as (w & Q & Sp); auto. exists w. split; auto. constructor. auto.
    - destruct O as [O|(n & O)]; [|discriminate]. destruct H as [->|H].
      + exists []. split; [constructor|apply span_nil; auto].
      + apply Al in H; [|intros c x Ic Ix; eapply occ_rep_option; eauto].
        apply alt_der in H as (w & Q & Sp); auto. exists w. split; auto. apply in_option_some. auto.
    - apply (match_term_spec g (EChar s vs)) in H; auto. constructor.
    - destruct O as [O|(n & O)]; [|discriminate]. apply (match_term_spec g (ENum b s0 es)) in H; auto. apply (wf_occ g W). auto.
    - discriminate H.
  Qed.

  (** *** When the seeds in reach are closed, everything is found *)
  Definition closed (n : string) (i : nat) : Prop :=
    forall s, gr (rkey (lower n) i) = Some s -> forall r j, get_rule n g = Some r -> alt_rel lo (rule_alt r) i j -> In j s.
  Definition closed_from (e : elem) (i : nat) : Prop :=
    (forall n i', i < i' -> i' <= len -> closed n i') /\
    (forall n, canon e = ERule (lower n) \/ corners g e (ERule n) -> closed n i).
  Definition closed_alt (a : alternation) (i : nat) : Prop :=
    (forall n i', i < i' -> i' <= len -> closed n i') /\
    (forall pre mn mx e post, In (pre ++ Rep mn mx e :: post) a -> (forall r, In r pre -> in_rep g r []) -> closed_from e i).
  Lemma closed_later e i p : closed_from e i -> i <= p -> p <= len -> closed_from e p.
  Proof.
    intros [A B] L Hp. split; [intros n i' H H'; apply A; lia|]. intros n H.
    destruct (Nat.eq_dec p i) as [->|N]; [apply B; auto|]. apply A; lia.
  Qed.
  Lemma closed_body e a i : closed_from e i -> body g e a -> closed_alt a i.
  Proof.
    intros [A B] Bd. split; auto. intros pre mn mx x post I P. split; auto. intros n H. apply B. right.
    assert (St : corners g e x) by (apply t_step; exists a, pre, mn, mx, x, post; auto).
    destruct H as [H|H]; [|eapply t_trans; eauto].
    eapply corners_canon; [reflexivity| |exact St]. rewrite H. reflexivity.
  Qed.

  Definition occ_alt (a : alternation) : Prop := forall c r, In c a -> In r c -> occ_rep g r.
  Theorem der_lo_all :
    (forall e w, in_elem g e w -> occ_or_rule e -> forall i j, span input i j w -> closed_from e i -> lo e i j) /\
    (forall a w, in_alt g a w -> occ_alt a -> forall i j, span input i j w -> closed_alt a i -> alt_rel lo a i j) /\
    (forall c w, in_cat g c w -> forall a pre i0 i j, In (pre ++ c) a -> occ_alt a -> closed_alt a i0 -> i0 <= i ->
       (i = i0 -> forall r, In r pre -> in_rep g r []) -> span input i j w -> cat_rel lo c i j) /\
    (forall r w, in_rep g r w -> occ_rep g r -> forall i j, span input i j w -> closed_from (rep_elem r) i -> rep_rel lo r i j) /\
    (forall e n w, in_pow g e n w -> occ_elem g e -> forall i j, span input i j w -> closed_from e i -> pow_rel (lo e) n i j).
  Proof.
    apply lang_mut.
    - intros n a w R _ IH O i j Sp C. apply lo_rule. destruct (proj2 (get_rule_resolves g n (proj1 W)) a R) as (r & G & <-).
      assert (A : alt_rel lo (rule_alt r) i j).
      { apply IH; auto; [intros c x Ic Ix; eapply named_rule; eauto|]. eapply closed_body; eauto. constructor. auto. }
      destruct (gr (rkey (lower n) i)) as [s|] eqn:E; [|eauto]. apply (proj2 C n (or_introl eq_refl) s E r j G A).
    - intros a w _ IH O i j Sp C. apply lo_group. destruct O as [O|(n & O)]; [|discriminate]. apply IH; auto.
      + intros c x Ic Ix. eapply occ_rep_group; eauto.
      + eapply closed_body; eauto. constructor.
    - intros a O i j Sp C. apply lo_option. left. destruct Sp as (p & q & _ & _ & J). cbn in J. lia.
    - intros a w _ IH O i j Sp C. apply lo_option. right. destruct O as [O|(n & O)]; [|discriminate]. apply IH; auto.
      + intros c x Ic Ix. eapply occ_rep_option; eauto.
      + eapply closed_body; eauto. constructor.
    - intros s vs rs F Sc O i j Sp C. apply lo_term; auto. apply (match_term_spec g (EChar s vs)); auto; [constructor|apply span_le in Sp; lia|].
      exists (utf8s rs). split; auto. constructor; auto.
    - intros b ns rs F Sc O i j Sp C. apply lo_term; auto. destruct O as [O|(n & O)]; [|discriminate].
      apply (match_term_spec g (ENum b StatSeries ns)); auto; [apply (wf_occ g W); auto|apply span_le in Sp; lia|].
      exists (utf8s rs). split; auto. constructor; auto.
    - intros b l h lv hv r A B L Sc O i j Sp C. apply lo_term; auto. destruct O as [O|(n & O)]; [|discriminate].
      apply (match_term_spec g (ENum b StatRange [l; h])); auto; [apply (wf_occ g W); auto|apply span_le in Sp; lia|].
      exists (utf8 r). split; auto. econstructor; eauto.
    - intros c a w I _ IH O i j Sp C. exists c. split; auto. apply (IH a [] i i j); auto. intros _ r [].
    - intros a pre i0 i j I O C L P Sp. cbn. destruct Sp as (p & q & _ & _ & J). cbn in J. lia.
    - intros r c w1 w2 I1 IH1 _ IH2 a pre i0 i j I O C L P Sp. apply span_app_inv in Sp as [S1 S2].
      assert (Or : occ_rep g r) by (apply (O _ r I); apply in_app_iff; right; left; auto).
      pose proof (span_le _ _ _ _ S1) as L1.
      exists (i + length w1). split.
      + apply IH1; auto. destruct r as [mn mx e]. cbn [rep_elem]. destruct (Nat.eq_dec i i0) as [->|N].
        * apply (proj2 C pre mn mx e c I). auto.
        * split; [intros n i' H H'; apply (proj1 C); lia|intros n _; apply (proj1 C); lia].
      + apply (IH2 a (pre ++ [r]) i0 (i + length w1) j); auto; [rewrite <- app_assoc; auto|lia|].
        intros E x Ix. apply in_app_iff in Ix as [Ix|[<-|[]]]; [apply P; auto; lia|].
        assert (w1 = []) as -> by (destruct w1; auto; cbn in E; lia). auto.
    - intros mn mx e n w A B _ IH O i j Sp C. exists n. split; auto. split; auto. apply IH; auto. econstructor; eauto.
    - intros e O i j Sp C. cbn. destruct Sp as (p & q & _ & _ & J). cbn in J. lia.
    - intros e n w1 w2 _ IH1 _ IH2 O i j Sp C. apply span_app_inv in Sp as [S1 S2]. exists (i + length w1). split.
      + apply IH1; auto. left. auto.
      + apply IH2; auto. apply (closed_later e i); auto; [lia|]. apply span_le in S1. lia.
  Qed.
  Lemma der_lo e i j : occ_or_rule e -> closed_from e i -> der e i j -> lo e i j.
  Proof. intros O C (w & I & Sp). eapply (proj1 der_lo_all); eauto. Qed.
End Lo.

Lemma good_conj {A} (F1 P1 F2 P2 F P : Prop) (x : rres A) (Q1 Q2 : A -> rstate -> Prop) :
  good F1 P1 x Q1 -> good F2 P2 x Q2 -> (F1 -> F2 -> F) -> (P1 -> P2 -> P) -> good F P x (fun a st => Q1 a st /\ Q2 a st).
Proof. destruct x; cbn; auto. Qed.

Section Complete.
  Variable g : grammar.
  Variable input : list Z.
  Variable lr : string -> option (list string).
  Variable ord : nat -> list nat -> list nat.
  Hypothesis O : forall t l x, In x (ord t l) <-> In x l.
  Hypothesis W : wf_grammar g.
  Hypothesis LG : lex_grammar g = true.
  Hypothesis SF : same_flags g.
  Notation len := (length input).
  Notation der := (der g input).
  Notation lo := (lo g input).
  Notation named := (named g).
  Notation sound := (sound g input).
  Notation named_alt := (named_alt g).
  Notation grow_map := (string -> option (list nat)).
  Hypothesis LI : forall n scc, lr n = Some scc -> In n scc.
  Hypothesis LC : forall n scc m, lr n = Some scc -> In m scc -> exists scc', lr m = Some scc' /\ forall x, In x scc' <-> In x scc.
  Hypothesis LL : forall n scc x, lr n = Some scc -> In x scc -> lex_name x = true.
  Hypothesis LLow : forall n scc x, lr n = Some scc -> In x scc -> lower x = x.
  Hypothesis L1 : forall n, lr (lower n) = None -> ~ corners g (ERule n) (ERule n).
  Hypothesis L2 : forall n scc m, lr (lower n) = Some scc -> corners g (ERule n) (ERule m) -> corners g (ERule m) (ERule n) -> In (lower m) scc.
  Hypothesis L3 : forall n scc x y, lr n = Some scc -> In x scc -> In y scc -> corners g (ERule x) (ERule y).
  Hypothesis L4 : forall n scc, lr n = Some scc -> NoDup scc.
  Hypothesis HG : forall e, occ_elem g e -> (exists a, e = EGroup a \/ e = EOption a) -> ~ corners g e e.
  Hypothesis RO : forall r, occ_rep g r -> repok input der r.

  (** Stored sets are complete. *)
  Definition memoC (st : rstate) : Prop :=
    forall e i s, named e -> i <= len -> r_memo st (ekey e i) = Some s -> forall j, der e i j -> In j s.
  Definition Inv (gr : grow_map) (pr : string -> bool) (st : rstate) : Prop :=
    sound st /\ memoC st /\ same_grow gr st /\ forall k, r_prog st k = pr k.
  Definition grlow (gr : grow_map) : Prop := forall x i s, gr (rkey x i) = Some s -> lower x = x /\ lex_name x = true /\ lr x <> None.
  (** Everything on the stack is at an earlier position or at a left corner above. *)
  Definition stk (gr : grow_map) (pr : string -> bool) (e : elem) (i : nat) : Prop :=
    (forall x i' s, gr (rkey x i') = Some s -> i' <= i /\ (i' = i -> corners g (ERule x) e)) /\
    (forall e' i', named e' -> pr (ekey e' i') = true -> i' <= i /\ (i' = i -> corners g e' e)).
  Definition above (e e0 : elem) : Prop := canon e = canon e0 \/ corners g e e0.
  Definition stk0 (gr : grow_map) (pr : string -> bool) (e0 : elem) (i : nat) : Prop :=
    (forall x i' s, gr (rkey x i') = Some s -> i' <= i /\ (i' = i -> above (ERule x) e0)) /\
    (forall e' i', named e' -> pr (ekey e' i') = true -> i' <= i /\ (i' = i -> above e' e0)).

  Lemma der_lower n i j : der (ERule (lower n)) i j <-> der (ERule n) i j.
  Proof.
    split; intros (w & I & Sp); exists w; split; auto; inversion I; subst; (econstructor; [|eassumption]).
    - apply (resolves_lower g (lower n) n); auto. unfold same_name. apply lower_lower.
    - apply (resolves_lower g n (lower n)); auto. unfold same_name. symmetry. apply lower_lower.
  Qed.
  Lemma Inv_GS gr pr st : Inv gr pr st -> grlow gr -> forall n i s j, i <= len -> gr (rkey (lower n) i) = Some s -> In j s -> der (ERule n) i j.
  Proof.
    intros (S & _ & G & _) L n i s j Hi E J. apply der_lower. rewrite <- G in E.
    apply (S (rkey (lower n) i) s (or_intror E)); auto. right. exists (lower n). split; auto. rewrite G in E. apply (L _ _ _ E).
  Qed.
  Lemma named_occ e : named e -> occ_or_rule g e.
  Proof. intros [H|(n & -> & _)]; [left; auto|right; eauto]. Qed.

  (** Words of an empty span. *)
  Lemma cat_null pre : forall i, i <= len -> cat_rel der pre i i -> forall r, In r pre -> in_rep g r [].
  Proof.
    induction pre as [|r0 pre IH]; intros i Hi C r I; [easy|]. destruct C as (k & R & C).
    assert (LE : forall e p q, der e p q -> p <= len -> p <= q <= len) by (intros; eapply der_le; eauto).
    pose proof (rep_rel_le input der LE r0 i k R Hi) as L1'. pose proof (cat_rel_le input der LE pre k i C ltac:(lia)) as L2'.
    assert (k = i) as -> by lia. destruct I as [<-|I]; [|eapply IH; eauto].
    apply rep_der in R as (w & I & Sp); auto. destruct Sp as (p & s & _ & _ & J). assert (w = []) as -> by (destruct w; auto; cbn in J; lia). auto.
  Qed.
  Lemma stk_step gr pr e0 a i : body g e0 a -> i <= len -> stk0 gr pr e0 i ->
    forall pre mn mx e post p n q, In (pre ++ Rep mn mx e :: post) a -> cat_rel der pre i p -> pow_rel (der e) n p q -> stk gr pr e q.
  Proof.
    intros B Hi [S1 S2] pre mn mx e post p n q I C P.
    assert (LE : forall e p q, der e p q -> p <= len -> p <= q <= len) by (intros; eapply der_le; eauto).
    pose proof (cat_rel_le input der LE pre i p C Hi) as L1'. pose proof (proj1 (rel_le input der LE) e n p q P ltac:(lia)) as L2'.
    assert (St : q = i -> corner g e0 e).
    { intros ->. assert (p = i) as -> by lia. exists a, pre, mn, mx, e, post. split; auto. split; auto. split; auto. eapply cat_null; eauto. }
    assert (Up : forall e1, above e1 e0 -> q = i -> corners g e1 e).
    { intros e1 [A|A] Q; specialize (St Q).
      - apply t_step. eapply corner_canon; [symmetry; exact A|reflexivity|exact St].
      - eapply t_trans; [exact A|apply t_step; exact St]. }
    split.
    - intros x i' s G. destruct (S1 x i' s G) as [A B']. split; [lia|]. intros ->. apply Up; [apply B'|]; lia.
    - intros e' i' N G. destruct (S2 e' i' N G) as [A B']. split; [lia|]. intros ->. apply Up; [apply B'|]; lia.
  Qed.

  Section Body.
    Variable call : elem -> nat -> rstate -> rres (list nat).
    Hypothesis IHc : forall e i gr pr st, named e -> i <= len -> Inv gr pr st -> cls lr gr -> grlow gr -> stk gr pr e i ->
      good True True (call e i st) (fun s st' => Inv gr pr st' /\ (forall j, lo gr e i j -> In j s) /\ (forall j, In j s -> der e i j)).

    Lemma alt_C gr pr e0 a i st : body g e0 a -> named_alt a -> i <= len -> Inv gr pr st -> cls lr gr -> grlow gr -> stk0 gr pr e0 i ->
      good True True (reach_alt input ord call a i st)
        (fun s st' => Inv gr pr st' /\ (forall j, alt_rel (lo gr) a i j -> In j s) /\ (forall j, In j s -> alt_rel der a i j)).
    Proof.
      intros B N Hi V C L S.
      set (lo' := fun e p q => lo gr e p q /\ der e p q).
      set (okc := fun e p => named e /\ p <= len /\ stk gr pr e p).
      assert (LE : forall e p q, der e p q -> p <= len -> p <= q <= len) by (intros; eapply der_le; eauto).
      eapply good_weaken; [apply (reach_alt_good input ord O call (Inv gr pr) okc True True True lo' der); auto|].
      - intros e p st' V' (Ne & Hp & Sk). eapply good_weaken; [apply (IHc e p gr pr st'); auto|]. cbv beta.
        intros s st2 (V2 & A & D). split; auto. split; auto. intros _ j [J _]. auto.
      - intros _ e p q [_ H]. auto.
      - intros c r Ic Ir. eapply named_cat_ok; eauto.
      - intros _ c r Ic Ir. apply RO. eapply N; eauto.
      - intros pre mn mx e post p n q I Cr P. split; [|split].
        + left. econstructor. apply (N _ (Rep mn mx e) I). apply in_app_iff. right. left. auto.
        + pose proof (cat_rel_le input der LE pre i p Cr Hi). pose proof (proj1 (rel_le input der LE) e n p q P ltac:(lia)). lia.
        + eapply stk_step; eauto.
      - cbv beta. intros s st' (V' & A & D). split; auto. split; auto. intros j J. apply A; [exact Logic.I|].
        apply (alt_mono_le input (lo gr) lo'); auto.
        + intros e p q [_ H]. exact (LE e p q H).
        + intros c mn mx e Ic Ir p q Hp H. split; auto. apply (lo_der g input gr W); auto.
          * intros n i' s' j'. apply (Inv_GS gr pr st V L).
          * left. econstructor. eapply N; eauto.
    Qed.

    Definition plain (e : elem) : Prop := match e with ERule n => lr (lower n) = None | _ => True end.
    Lemma plain_acyclic e : named e -> plain e -> ~ corners g e e.
    Proof.
      intros N P. destruct e as [n|a|a|s vs|b s0 es|v].
      - apply L1. exact P.
      - destruct N as [N|(n & E & _)]; [|discriminate]. apply HG; eauto.
      - destruct N as [N|(n & E & _)]; [|discriminate]. apply HG; eauto.
      - intros H. apply clos_trans_t1n in H. assert (exists y, corner g (EChar s vs) y) as (y & a & pre & mn & mx & x & post & B & _) by (inversion H; eauto). inversion B.
      - intros H. apply clos_trans_t1n in H. assert (exists y, corner g (ENum b s0 es) y) as (y & a & pre & mn & mx & x & post & B & _) by (inversion H; eauto). inversion B.
      - intros H. apply clos_trans_t1n in H. assert (exists y, corner g (EProse v) y) as (y & a & pre & mn & mx & x & post & B & _) by (inversion H; eauto). inversion B.
    Qed.

    Lemma compute_C gr pr e i st : named e -> plain e -> i <= len -> Inv gr pr st -> cls lr gr -> grlow gr -> stk0 gr pr e i ->
      (forall n, e = ERule n -> gr (rkey (lower n) i) = None) ->
      good True True (compute_elem g input ord call e i st) (fun s st' => Inv gr pr st' /\ (forall j, lo gr e i j -> In j s)).
    Proof.
      intros N P Hi V C L S Nn.
      assert (T : is_terminal e = true -> good True True (ROk (match match_term e input i with Some j => [j] | None => [] end) st) (fun s st' => Inv gr pr st' /\ forall j, lo gr e i j -> In j s)).
      { intros Te. cbn [Recog.good]. split; auto. intros j J. apply lo_term in J; auto. rewrite J. left. auto. }
      destruct e as [n|a|a|s vs|b s0 es|v]; try (apply T; reflexivity); cbn [compute_elem].
      - destruct (get_rule n g) as [r|] eqn:G.
        + assert (Bd : body g (ERule n) (rule_alt r)) by (constructor; apply (proj1 (get_rule_resolves g n (proj1 W))); auto).
          eapply good_weaken; [apply (alt_C gr pr (ERule n) (rule_alt r) i st Bd (named_rule g n r G)); auto|].
          cbv beta. intros s st' (V' & A & _). split; auto. intros j J. apply lo_rule in J. rewrite (Nn n eq_refl) in J.
            destruct J as (r' & G' & J). assert (r' = r) as -> by congruence. auto.
        + cbn. split; auto. intros j J. apply lo_rule in J. rewrite (Nn n eq_refl) in J. destruct J as (r' & G' & J). congruence.
      - eapply good_weaken; [apply (alt_C gr pr (EGroup a)); auto; [constructor|eapply named_group; eauto]|].
        cbv beta. intros s st' (V' & A & _). split; auto. intros j J. apply lo_group in J. auto.
      - eapply good_bind; [apply (alt_C gr pr (EOption a)); auto; [constructor|eapply named_option; eauto]|].
        cbv beta. intros s st' (V' & A & _). cbn [Recog.good]. split; auto. intros j J. apply lo_option in J. apply union_in.
        destruct J as [->|J]; [left; left; auto|right; auto].
    Qed.

    Lemma plain_C gr pr e i st : named e -> plain e -> i <= len -> Inv gr pr st -> cls lr gr -> grlow gr -> stk gr pr e i ->
      (forall n, e = ERule n -> gr (rkey (lower n) i) = None) ->
      good True True (reach_plain g input ord call e i st)
        (fun s st' => memoC st' /\ (forall k, r_prog st' k = pr k) /\ (forall j, lo gr e i j -> In j s)).
    Proof.
      intros N P Hi V C L S Nn. pose proof V as (Vs & Vm & Vg & Vp). unfold reach_plain.
      assert (Ld : forall j, lo gr e i j -> der e i j) by (intros j; apply (lo_der g input gr W (Inv_GS gr pr st V L)); auto using named_occ).
      destruct (r_memo st (ekey e i)) as [v|] eqn:M.
      { cbn. split; auto. split; auto. intros j J. eapply Vm; eauto. }
      destruct (r_prog st (ekey e i)) eqn:Pg.
      { exfalso. rewrite Vp in Pg. destruct (proj2 S e i N Pg) as [_ Cy]. exact (plain_acyclic e N P (Cy eq_refl)). }
      set (pr' := upd pr (ekey e i) true).
      assert (S' : stk0 gr pr' e i).
      { split.
        - intros x i' s G. destruct (proj1 S x i' s G) as [A B]. split; auto. intros E. right. auto.
        - intros e' i' N' G. unfold pr' in G. rewrite upd_case in G. destruct (String.eqb_spec (ekey e' i') (ekey e i)) as [E|E].
          + apply (named_key g LG SF) in E as [-> ->]; auto. split; auto. intros _. left. auto.
          + destruct (proj2 S e' i' N' G) as [A B]. split; auto. intros E'. right. auto. }
      assert (V' : Inv gr pr' (set_prog (ekey e i) true st)).
      { split; [exact Vs|]. split; [exact Vm|]. split; [exact Vg|]. intros k. cbn. unfold pr'. rewrite !upd_case. destruct (String.eqb k (ekey e i)); auto. }
      eapply good_bind; [apply (compute_C gr pr' e i); auto|]. cbv beta. intros out st' (V2 & A). cbn [Recog.good].
      pose proof V2 as (V2s & V2m & V2g & V2p). split; [|split; [|exact A]].
      - intros e' i' s N' Hi' Ms j J. cbn in Ms. rewrite upd_case in Ms. destruct (String.eqb_spec (ekey e' i') (ekey e i)) as [E|E].
        + injection Ms as <-. apply (named_key g LG SF) in E as [-> ->]; auto. apply A. apply (der_lo g input gr W); auto using named_occ.
          split.
          * intros n i' Lt Hi2 s G. apply (proj1 S) in G as [G _]. lia.
          * intros n Cn s G. exfalso. apply (proj1 S) in G as [_ G]. specialize (G eq_refl).
            assert (G' : corners g (ERule n) e) by (eapply corners_canon; [|reflexivity|exact G]; cbn; rewrite lower_lower; auto).
            apply (plain_acyclic e N P). destruct Cn as [Cn|Cn]; [|eapply t_trans; eauto].
            eapply corners_canon; [|reflexivity|exact G']. rewrite Cn. reflexivity.
        + eapply V2m; eauto.
      - intros k. cbn. rewrite upd_case. destruct (String.eqb_spec k (ekey e i)) as [->|E]; [rewrite <- Vp; auto|].
        rewrite V2p. unfold pr'. apply upd_other. auto.
    Qed.

    (** *** Growth *)
    Definition closedx (gr : grow_map) (x : string) (i : nat) : Prop :=
      forall s r j, gr (rkey x i) = Some s -> get_rule x g = Some r -> alt_rel (lo gr) (rule_alt r) i j -> In j s.
    Definition base (gr0 : grow_map) (full : list string) (i : nat) (gr : grow_map) : Prop :=
      (forall x, In x full -> is_some (gr (rkey x i)) = true) /\ (forall k, (forall x, In x full -> k <> rkey x i) -> gr k = gr0 k).

    Section Grow.
      Variables (n : string) (full : list string) (i : nat) (gr0 : grow_map) (pr : string -> bool).
      Hypothesis Lf : lr n = Some full.
      Hypothesis Hi : i <= len.
      Hypothesis C0 : cls lr gr0.
      Hypothesis L0 : grlow gr0.
      Hypothesis S0 : stk gr0 pr (ERule n) i.

      Lemma base_keys gr x i' s : base gr0 full i gr -> gr (rkey x i') = Some s -> (In x full /\ i' = i) \/ (~ (In x full /\ i' = i) /\ gr0 (rkey x i') = Some s).
      Proof.
        intros [_ B] G. destruct (in_dec string_dec x full) as [I|N]; [destruct (Nat.eq_dec i' i) as [->|E]|].
        - left. auto.
        - right. split; [tauto|]. rewrite B in G; auto. intros y Iy Ey. apply rkey_inj in Ey as [_ Ey]. auto.
        - right. split; [tauto|]. rewrite B in G; auto. intros y Iy Ey. apply rkey_inj in Ey as [<- _]. auto.
      Qed.
      Lemma base_grlow gr : base gr0 full i gr -> grlow gr.
      Proof.
        intros B x i' s G. destruct (base_keys gr x i' s B G) as [[I ->]|[_ G0]]; [|eapply L0; eauto].
        split; [eapply LLow; eauto|]. split; [eapply LL; eauto|]. destruct (LC n full x Lf I) as (sc & E & _). congruence.
      Qed.
      Lemma base_cls gr : base gr0 full i gr -> cls lr gr.
      Proof.
        intros B a scca b i' La Ib Sa. destruct (gr (rkey a i')) as [s|] eqn:Ga; [|discriminate].
        destruct (base_keys gr a i' s B Ga) as [[I ->]|[N G0]].
        - destruct (LC n full a Lf I) as (sc & La' & M). rewrite La in La'. inversion La'; subst sc. apply (proj1 B). apply M. auto.
        - assert (gr (rkey b i') = gr0 (rkey b i')) as ->; [|eapply C0; eauto; rewrite G0; auto].
          apply (proj2 B). intros y Iy E. apply rkey_inj in E as [<- ->]. apply N. split; auto.
          destruct (LC n full b Lf Iy) as (sb & Lb & Mb). destruct (LC a scca b La Ib) as (sb' & Lb' & Mb'). rewrite Lb in Lb'. inversion Lb'; subst sb'.
          apply Mb, Mb'. apply (LI a); auto.
      Qed.
      Lemma base_stk gr x : base gr0 full i gr -> In x full -> stk0 gr pr (ERule x) i.
      Proof.
        intros B Ix. assert (In n full) as In_ by (apply LI; auto). split.
        - intros y i' s G. destruct (base_keys gr y i' s B G) as [[I ->]|[_ G0]].
          + split; auto. intros _. right. eapply L3; eauto.
          + destruct (proj1 S0 y i' s G0) as [A Q]. split; auto. intros E. right. eapply t_trans; [apply Q; auto|]. eapply L3; eauto.
        - intros e' i' N' G. destruct (proj2 S0 e' i' N' G) as [A Q]. split; auto. intros E. right. eapply t_trans; [apply Q; auto|]. eapply L3; eauto.
      Qed.

      Lemma round_C : forall scc, (forall x, In x scc -> In x full) -> forall ch gr st, base gr0 full i gr -> Inv gr pr st ->
        good True True (grow_round g input ord call scc i ch st) (fun ch' st' => exists gr', base gr0 full i gr' /\ Inv gr' pr st' /\
          (ch' = false -> ch = false /\ (forall k, gr' k = gr k) /\ forall x, In x scc -> closedx gr x i)).
      Proof.
        induction scc as [|x scc IH]; intros Sub ch gr st B V; cbn [grow_round].
        { cbn. exists gr. split; auto. split; auto. intros ->. split; auto. split; auto. intros x []. }
        assert (Sub' : forall x, In x scc -> In x full) by (intros y Y; apply Sub; right; auto).
        assert (Ix : In x full) by (apply Sub; left; auto).
        destruct (get_rule x g) as [r|] eqn:G.
        2:{ eapply good_weaken; [apply (IH Sub' ch gr st B V)|]. cbv beta. intros ch' st' (gr' & B' & V' & H). exists gr'. split; auto. split; auto.
            intros E. destruct (H E) as (H1 & H2 & H3). split; auto. split; auto. intros y [<-|Iy]; auto. intros s r j _ Gx. congruence. }
        eapply good_bind.
        { apply (alt_C gr pr (ERule x) (rule_alt r) i st); auto using base_cls, base_grlow, base_stk.
          - constructor. apply (proj1 (get_rule_resolves g x (proj1 W))). auto.
          - eapply named_rule; eauto. }
        cbv beta. intros ns st1 (V1 & A1 & D1). pose proof V1 as (V1s & V1m & V1g & V1p).
        destruct (r_grow st1 (rkey x i)) as [cur|] eqn:Gc; [|destruct ns; [|exact Logic.I]].
        2:{ exfalso. pose proof (proj1 B x Ix) as Q. rewrite <- V1g, Gc in Q. discriminate. }
        destruct (existsb (fun e => negb (mem_nat e cur)) ns) eqn:Nw.
        - set (gr1 := upd gr (rkey x i) (Some (union cur ns))).
          assert (B1 : base gr0 full i gr1).
          { split.
            - intros y Iy. unfold gr1. rewrite upd_case. destruct (String.eqb (rkey y i) (rkey x i)); auto. apply (proj1 B). auto.
            - intros k Nk. unfold gr1. rewrite upd_other; [apply (proj2 B); auto|]. apply Nk. auto. }
          assert (V2 : Inv gr1 pr (set_grow (rkey x i) (Some (union cur ns)) st1)).
          { split; [|split; [exact V1m|split; [|exact V1p]]].
            - apply sound_grow; auto; [|eapply LL; eauto]. intros j J _. apply union_in in J as [J|J].
              + apply (V1s (rkey x i) cur (or_intror Gc)); auto. right. exists x. split; auto. eapply LL; eauto.
              + eapply rule_der; eauto.
            - intros k. cbn. unfold gr1. rewrite !upd_case. destruct (String.eqb k (rkey x i)); auto. }
          eapply good_weaken; [apply (IH Sub' true gr1 _ B1 V2)|]. cbv beta. intros ch' st' (gr' & B' & V' & H). exists gr'. split; auto. split; auto.
          intros E. destruct (H E) as (H1 & _). discriminate.
        - eapply good_weaken; [apply (IH Sub' ch gr st1 B V1)|]. cbv beta. intros ch' st' (gr' & B' & V' & H). exists gr'. split; auto. split; auto.
          intros E. destruct (H E) as (H1 & H2 & H3). split; auto. split; auto. intros y [<-|Iy]; auto. intros s r' j Gs Gr Al.
          assert (r' = r) as -> by congruence. apply A1 in Al. rewrite <- V1g, Gc in Gs. injection Gs as <-.
          destruct (in_dec Nat.eq_dec j cur) as [Ij|Nj]; auto. exfalso.
          assert (existsb (fun e => negb (mem_nat e cur)) ns = true); [|congruence]. apply existsb_exists. exists j. split; auto.
          apply negb_true_iff. destruct (mem_nat j cur) eqn:Mj; auto. apply mem_nat_in in Mj. contradiction.
      Qed.
      Lemma grow_C : forall k gr st, base gr0 full i gr -> Inv gr pr st ->
        good True True (grow_loop g input ord call k full i st) (fun _ st' => exists gr', base gr0 full i gr' /\ Inv gr' pr st' /\ forall x, In x full -> closedx gr' x i).
      Proof.
        induction k as [|k IH]; intros gr st B V; cbn [grow_loop]; [exact Logic.I|].
        eapply good_bind; [apply (round_C full (fun x H => H) false gr st B V)|]. cbv beta. intros ch st1 (gr1 & B1 & V1 & H).
        destruct ch; [apply (IH gr1); auto|]. destruct (H eq_refl) as (_ & E & Cl). cbn. exists gr. split; auto. split; auto.
        destruct V1 as (A1 & A2 & A3 & A4). split; auto. split; auto. split; auto. intros x. rewrite A3. auto.
      Qed.
      (** At a fixpoint the seeds are exact. *)
      Lemma seeds_exact gr st : base gr0 full i gr -> Inv gr pr st -> (forall x, In x full -> closedx gr x i) ->
        forall x s j, In x full -> gr (rkey x i) = Some s -> der (ERule x) i j -> In j s.
      Proof.
        intros B V Cl x s j Ix Gx J. assert (Lx : lower x = x) by (eapply LLow; eauto).
        assert (A : lo gr (ERule x) i j).
        { apply (der_lo g input gr W); auto; [right; eauto|]. split.
          - intros m i' Lt Hi' s' G'. exfalso. destruct (base_keys gr (lower m) i' s' B G') as [[_ ->]|[_ G0]]; [lia|].
            apply (proj1 S0) in G0 as [G0 _]. lia.
          - intros m Cm s' G' r j' Gr Al.
            assert (In (lower m) full) as Im.
            { destruct (base_keys gr (lower m) i s' B G') as [[I _]|[N G0]]; auto. exfalso. apply N. split; auto.
              apply (proj1 S0) in G0 as [_ G0]. specialize (G0 eq_refl).
              assert (Lm : corners g (ERule m) (ERule n)) by (eapply corners_canon; [|reflexivity|exact G0]; cbn; rewrite lower_lower; auto).
              assert (In n full) as In_ by (apply LI; auto). assert (Ln : lower n = n) by (eapply LLow; eauto).
              destruct Cm as [Cm|Cm].
              - cbn in Cm. injection Cm as Cm. rewrite <- Cm, Lx. auto.
              - apply (L2 n full m); [rewrite Ln; auto| |exact Lm]. eapply t_trans; [|exact Cm]. eapply L3; eauto. }
            apply (Cl (lower m) Im s' r j'); auto. rewrite get_rule_lower. auto. }
        apply lo_rule in A. rewrite Lx, Gx in A. auto.
      Qed.
    End Grow.

    Lemma finish_C name i : i <= len -> forall scc, NoDup scc -> (forall x, In x scc -> lex_name x = true) ->
      forall result st, memoC st ->
      (forall x, In x scc -> is_some (r_grow st (rkey x i)) = true) ->
      (forall x s j, In x scc -> r_grow st (rkey x i) = Some s -> der (ERule x) i j -> In j s) ->
      (In name scc \/ forall j, der (ERule name) i j -> In j result) ->
      let '(res, st') := finish name scc i result st in memoC st' /\ (forall j, der (ERule name) i j -> In j res).
    Proof.
      intros Hi. induction scc as [|x scc IH]; intros Nd Lx result st M Sm Ex R; cbn [finish].
      { split; auto. destruct R as [[]|R]. auto. }
      inversion Nd as [|? ? Nx Nd']; subst.
      assert (Lx' : forall x, In x scc -> lex_name x = true) by (intros y Y; apply Lx; right; auto).
      assert (V : forall j, der (ERule x) i j -> In j (match r_grow st (rkey x i) with Some v => v | None => [] end)).
      { intros j J. pose proof (Sm x (or_introl eq_refl)) as Q. destruct (r_grow st (rkey x i)) as [v|] eqn:G; [|discriminate]. eapply Ex; eauto. left; auto. }
      set (v := match r_grow st (rkey x i) with Some v => v | None => [] end) in *.
      assert (Oth : forall y, In y scc -> r_grow (set_memo (rkey x i) v (set_grow (rkey x i) None st)) (rkey y i) = r_grow st (rkey y i)).
      { intros y Iy. cbn. apply upd_other. intros E. apply rkey_inj in E as [-> _]. contradiction. }
      apply IH; auto.
      - intros e i' s N' Hi' Ms j J. cbn in Ms. rewrite upd_case in Ms. destruct (String.eqb_spec (ekey e i') (rkey x i)) as [E|E]; [|eapply M; eauto].
        injection Ms as <-. destruct (named_key g LG SF e (ERule x) i' i N') as [E1 E2]; [right; exists x; split; auto; apply Lx; left; auto|exact E|]. subst e i'. auto.
      - intros y Iy. rewrite Oth by auto. apply Sm. right. auto.
      - intros y s j Iy. rewrite Oth by auto. apply Ex. right. auto.
      - destruct (String.eqb_spec x name) as [->|Ne]; [right; auto|]. destruct R as [[E|R]|R]; [contradiction|auto|auto].
    Qed.

    Lemma finish_prog name i : forall scc result st, forall k, r_prog (snd (finish name scc i result st)) k = r_prog st k.
    Proof. induction scc as [|x scc IH]; intros result st k; cbn [finish]; [auto|]. rewrite IH. reflexivity. Qed.

    Lemma left_rec_C gr pr n scc i st : lex_name n = true -> lr (lower n) = Some scc -> i <= len -> Inv gr pr st -> cls lr gr -> grlow gr -> stk gr pr (ERule n) i ->
      good True True (reach_left_rec g input ord call (lower n) scc i st)
        (fun s st' => memoC st' /\ (forall k, r_prog st' k = pr k) /\ (forall j, lo gr (ERule n) i j -> In j s)).
    Proof.
      intros Ln L Hi V C Gl S. pose proof V as (Vs & Vm & Vg & Vp). unfold reach_left_rec.
      assert (Ld : forall j, lo gr (ERule n) i j -> der (ERule (lower n)) i j).
      { intros j J. apply der_lower. apply (lo_der g input gr W (Inv_GS gr pr st V Gl)) in J; auto. right. eauto. }
      assert (Nm : named (ERule (lower n))) by (right; exists (lower n); split; auto; rewrite lex_lower; auto).
      destruct (r_memo st (rkey (lower n) i)) as [v|] eqn:M.
      { cbn. split; auto. split; auto. intros j J. apply (Vm (ERule (lower n)) i v); auto. }
      destruct (r_grow st (rkey (lower n) i)) as [v|] eqn:G.
      { cbn. split; auto. split; auto. intros j J. apply lo_rule in J. rewrite <- Vg, G in J. auto. }
      set (st1 := seed_all scc i st).
      assert (S1 : forall k, r_grow st1 k = (if existsb (fun x => String.eqb k (rkey x i)) scc then Some [] else r_grow st k) /\ r_memo st1 k = r_memo st k /\ r_prog st1 k = r_prog st k) by (intros k; apply seed_all_grow).
      assert (Ex : forall k, existsb (fun x => String.eqb k (rkey x i)) scc = true <-> exists x, In x scc /\ k = rkey x i).
      { intros k. rewrite existsb_exists. split; intros (x & Ix & E); exists x; split; auto; [apply String.eqb_eq; auto|subst; apply String.eqb_refl]. }
      assert (S' : stk gr pr (ERule (lower n)) i).
      { split; intros a b; [intros s Q|intros N' Q].
        - destruct (proj1 S a b s Q) as [A B]. split; auto. intros E. eapply corners_canon; [reflexivity| |exact (B E)]. cbn. rewrite lower_lower. auto.
        - destruct (proj2 S a b N' Q) as [A B]. split; auto. intros E. eapply corners_canon; [reflexivity| |exact (B E)]. cbn. rewrite lower_lower. auto. }
      assert (B1 : base gr scc i (r_grow st1)).
      { split.
        - intros x Ix. rewrite (proj1 (S1 _)). assert (existsb (fun y => String.eqb (rkey x i) (rkey y i)) scc = true) as -> by (apply Ex; eauto). auto.
        - intros k Nk. rewrite (proj1 (S1 _)). destruct (existsb (fun y => String.eqb k (rkey y i)) scc) eqn:E; [|apply Vg].
          apply Ex in E as (x & Ix & ->). exfalso. eapply Nk; eauto. }
      assert (Lx : forall x, In x scc -> lex_name x = true) by (intros x; apply (LL (lower n)); auto).
      assert (V1 : Inv (r_grow st1) pr st1).
      { split; [apply seed_S; auto|]. split; [|split].
        - intros e i' s N' Hi' Ms. rewrite (proj1 (proj2 (S1 _))) in Ms. eapply Vm; eauto.
        - intros k. reflexivity.
        - intros k. rewrite (proj2 (proj2 (S1 k))). apply Vp. }
      eapply good_bind; [apply (grow_C (lower n) scc i gr pr L Hi C Gl S' _ (r_grow st1) st1 B1 V1)|].
      cbv beta. intros _ st2 (gr2 & B2 & V2 & Cl). pose proof V2 as (V2s & V2m & V2g & V2p).
      pose proof (finish_C (lower n) i Hi scc (L4 _ _ L) Lx [] st2 V2m) as FC. pose proof (finish_prog (lower n) i scc [] st2) as FP.
      destruct (finish (lower n) scc i [] st2) as [res st3]. cbn [snd] in FP. cbn [Recog.good].
      destruct FC as [M3 R3].
      - intros x Ix. rewrite V2g. apply (proj1 B2). auto.
      - intros x s j Ix Gx. rewrite V2g in Gx. revert Gx. apply (seeds_exact (lower n) scc i gr pr L Hi S' gr2 st2); auto.
      - left. apply LI. auto.
      - split; auto. split; [intros k; rewrite FP; auto|]. auto.
    Qed.
  End Body.

  Theorem reach_elem_C : forall f e i gr pr st, named e -> i <= len -> Inv gr pr st -> cls lr gr -> grlow gr -> stk gr pr e i ->
    good True True (reach_elem g input lr ord f e i st) (fun s st' => Inv gr pr st' /\ (forall j, lo gr e i j -> In j s) /\ (forall j, In j s -> der e i j)).
  Proof.
    induction f as [|f IH]; intros e i gr pr st N Hi V C L S; [exact Logic.I|].
    assert (P : good True True (reach_elem g input lr ord (Datatypes.S f) e i st)
      (fun s st' => memoC st' /\ (forall k, r_prog st' k = pr k) /\ (forall j, lo gr e i j -> In j s))).
    { cbn [reach_elem]. unfold reach_body, is_lr.
      assert (Pl : plain e -> good True True (reach_plain g input ord (reach_elem g input lr ord f) e i st)
        (fun s st' => memoC st' /\ (forall k, r_prog st' k = pr k) /\ (forall j, lo gr e i j -> In j s))).
      { intros Pe. apply plain_C; auto. intros n ->. destruct (gr (rkey (lower n) i)) eqn:G; auto. exfalso. apply L in G as (_ & _ & G). exact (G Pe). }
      destruct e as [n|a|a|s vs|b s0 es|v]; try (apply Pl; exact Logic.I).
      destruct (lr (lower n)) as [scc|] eqn:El; [|apply Pl; exact El]. apply left_rec_C; auto. exact (named_lex g LG _ N). }
    pose proof (reach_elem_S g input lr ord O W LG SF LL (Datatypes.S f) e i st N Hi (proj1 V)) as PS.
    pose proof (reach_elem_n g input lr ord O LI LC (Datatypes.S f) e i gr st C (proj1 (proj2 (proj2 V)))) as PN.
    pose proof (good_conj _ _ _ _ True True _ _ _ P PS (fun _ _ => Logic.I) (fun _ _ => Logic.I)) as P1.
    pose proof (good_conj _ _ _ _ True True _ _ _ P1 PN (fun _ _ => Logic.I) (fun _ _ => Logic.I)) as P2.
    eapply good_weaken; [exact P2|]. cbv beta. intros s st' (((A1 & A2 & A3) & B1 & B2) & C1). split; [|auto].
    split; [exact B1|]. split; auto.
  Qed.

  (** From an empty recognizer. *)
  Theorem recognizer_complete f n : lex_name n = true ->
    good True True (reach_elem g input lr ord f (ERule n) 0 r_init) (fun s _ => forall j, der (ERule n) 0 j <-> In j s).
  Proof.
    intros Ln.
    assert (V : Inv (fun _ => None) (fun _ => false) r_init).
    { split; [intros k s [H|H]; discriminate|]. split; [intros e i s _ _ H; discriminate|]. split; intros k; reflexivity. }
    eapply good_weaken; [apply (reach_elem_C f (ERule n) 0 (fun _ => None) (fun _ => false) r_init); auto|].
    - right. eauto.
    - lia.
    - intros a sc b i _ _ H. discriminate.
    - intros x i s H. discriminate.
    - split; intros; discriminate.
    - cbv beta. intros s st' (_ & A & B). intros j. split; auto. intros J. apply A.
      apply (der_lo g input (fun _ => None) W); auto; [right; eauto|]. split; [intros m i' Q1 Q2 s' H'; discriminate H'|intros m Q1 s' H'; discriminate H'].
  Qed.
End Complete.
