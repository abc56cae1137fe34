(** The finite universe of slots, GSS nodes and repetition counts.
    Its definitions are means of proof and model no code. *)
From Coq Require Import ZArith String Bool List Lia.
From Verif Require Import Syntax Spec Utf8 Num Term Printer Slots Gll.
Import ListNotations.
Local Open Scope Z_scope.

(** The shape lowerer.rep gives repetition nonterminals (sppf.go:167-170). *)
Definition rep_shape (sg : slot_grammar) : Prop :=
  forall X nt, nth_error (sg_nts sg) X = Some nt -> nt_isrep nt = true ->
    exists e, nt_alts nt = [[SEps]; [e; SNonterm X]].

Definition slots_univ (sg : slot_grammar) : list slot :=
  flat_map (fun X => match nth_error (sg_nts sg) X with
                     | None => []
                     | Some nt => flat_map (fun a => match nth_error (nt_alts nt) a with
                                                     | None => []
                                                     | Some p => map (mkSlot X a) (seq 0 (S (length p)))
                                                     end) (seq 0 (length (nt_alts nt)))
                     end) (seq 0 (length (sg_nts sg))).

Lemma slots_univ_in sg L p : prod_of sg L = Some p -> (s_dot L <= length p)%nat -> In L (slots_univ sg).
Proof.
  unfold prod_of. destruct (nth_error (sg_nts sg) (s_nt L)) as [nt|] eqn:E; [|discriminate]. intros P H.
  apply in_flat_map. exists (s_nt L). split.
  - apply in_seq. assert (nth_error (sg_nts sg) (s_nt L) <> None) by congruence.
    apply nth_error_Some in H0. lia.
  - rewrite E. apply in_flat_map. exists (s_alt L). split.
    + apply in_seq. assert (nth_error (nt_alts nt) (s_alt L) <> None) by congruence.
      apply nth_error_Some in H0. lia.
    + rewrite P. apply in_map_iff. exists (s_dot L). split; [destruct L; auto|]. apply in_seq. lia.
Qed.

Definition rc_hi (sg : slot_grammar) : Z :=
  fold_right (fun nt m => Z.max (Z.max (nt_repmin nt) (nt_repmax nt)) m) 0 (sg_nts sg).
Definition rc_lo (sg : slot_grammar) : Z :=
  fold_right (fun nt m => Z.min (nt_repmin nt) m) 0 (sg_nts sg).

Definition rcok (sg : slot_grammar) (rc : Z) : Prop := rc_lo sg <= rc <= rc_hi sg.

Lemma rc_hi_ge sg X nt : nth_error (sg_nts sg) X = Some nt ->
  nt_repmin nt <= rc_hi sg /\ nt_repmax nt <= rc_hi sg.
Proof.
  unfold rc_hi. generalize (sg_nts sg). intros l. revert X. induction l as [|y l IH]; intros [|X]; cbn; try discriminate.
  - intros E; inversion E; subst. lia.
  - intros E. destruct (IH X E). lia.
Qed.
Lemma rc_lo_le sg X nt : nth_error (sg_nts sg) X = Some nt -> rc_lo sg <= nt_repmin nt.
Proof.
  unfold rc_lo. generalize (sg_nts sg). intros l. revert X. induction l as [|y l IH]; intros [|X]; cbn; try discriminate.
  - intros E; inversion E; subst. lia.
  - intros E. specialize (IH X E). lia.
Qed.
Lemma rc_0 sg : rcok sg 0.
Proof.
  unfold rcok, rc_lo, rc_hi. induction (sg_nts sg) as [|y l IH]; cbn [fold_right]; lia.
Qed.

Lemma rep_alts_in nt X rc L rc' : In (L, rc') (rep_alts nt X rc) ->
  rc' = rc /\ (L = mkSlot X 0 0 /\ nt_repmin nt <= rc \/
               L = mkSlot X 1 0 /\ (nt_repmax nt = inf \/ rc < nt_repmax nt)).
Proof.
  unfold rep_alts. rewrite in_app_iff. intros [H|H].
  - destruct (Z.leb_spec (nt_repmin nt) rc); [|easy]. destruct H as [H|[]]. inversion H; subst; auto.
  - destruct (_ || _)%bool eqn:E; [|easy]. apply orb_true_iff in E.
    destruct H as [H|[]]. inversion H; subst. split; auto. right. split; auto.
    destruct E as [E|E]; [left; apply Z.eqb_eq; auto|right; apply Z.ltb_lt; auto].
Qed.

Lemma starts_in sg c rc X L rc' : In (L, rc') (starts sg c rc X) ->
  exists nt, nth_error (sg_nts sg) X = Some nt /\ s_nt L = X /\
    (nt_isrep nt = false /\ rc' = 0 \/
     nt_isrep nt = true /\ rc' = (if Nat.eqb X c then cap_rc rc nt else 0) /\
     (L = mkSlot X 0 0 /\ nt_repmin nt <= rc' \/
      L = mkSlot X 1 0 /\ (nt_repmax nt = inf \/ rc' < nt_repmax nt))).
Proof.
  unfold starts. destruct (nth_error _ X) as [nt|]; [|easy]. intros H. exists nt. split; auto.
  destruct (nt_isrep nt).
  - apply rep_alts_in in H as [-> [[-> H]|[-> H]]]; cbn; split; auto; right; repeat split; auto.
  - apply in_map_iff in H as (a & E & _). inversion E; subst; auto.
Qed.

(** Counts stay in range. *)
Lemma rc_step sg u L rc p X L' rc' : rep_shape sg ->
  (forall nt, nth_error (sg_nts sg) (sg_start sg) = Some nt -> nt_isrep nt = false) ->
  In (base L, rc) (callees sg u) -> rcok sg rc -> prod_of sg L = Some p ->
  nth_error p (s_dot L) = Some (SNonterm X) -> In (L', rc') (starts sg (s_nt L) rc X) -> rcok sg rc'.
Proof.
  intros RS WS C R P N S.
  apply starts_in in S as (nt & E & _ & [[_ ->]|(Rp & -> & G)]); [apply rc_0|].
  destruct (Nat.eqb_spec X (s_nt L)); [|apply rc_0]. subst X.
  pose proof (rc_hi_ge _ _ _ E) as [H1 H2]. pose proof (rc_lo_le _ _ _ E) as H3.
  destruct (RS _ _ E Rp) as [el Al].
  unfold prod_of in P. rewrite E, Al in P.
  assert (A : s_alt L = 1%nat).
  { destruct (s_alt L) as [|[|a]] eqn:A; auto; cbn in P.
    - inversion P; subst. destruct (s_dot L) as [|[|]]; cbn in N; discriminate.
    - destruct a; discriminate. }
  assert (B : nt_repmax nt = inf \/ rc < nt_repmax nt).
  { destruct u as [|ret pos rc0]; cbn in C.
    - apply start_dot0 in C as (_ & C & _). cbn in C. rewrite <- C in WS. rewrite (WS _ E) in Rp. discriminate.
    - destruct (prod_of sg ret); [|easy]. destruct (s_dot ret); [easy|].
      destruct (nth_error l n) as [[]|]; try easy.
      apply starts_in in C as (nt' & D1 & D2 & D3). cbn in D2. subst nt0.
      rewrite E in D1. inversion D1; subst nt'.
      destruct D3 as [[D3 _]|(_ & _ & [[D3 _]|[_ D3]])]; [congruence| |auto].
      unfold base in D3. inversion D3. congruence. }
  unfold rcok in *. unfold cap_rc.
  destruct (Z.eqb_spec (nt_repmax nt) inf); destruct (Z.ltb_spec (nt_repmin nt) (rc + 1)); cbn [andb]; lia.
Qed.

Definition rcs_univ (sg : slot_grammar) : list Z :=
  map (fun k => rc_lo sg + Z.of_nat k) (seq 0 (Z.to_nat (rc_hi sg - rc_lo sg + 1))).
Lemma rcs_univ_in sg rc : rcok sg rc -> In rc (rcs_univ sg).
Proof.
  unfold rcok, rcs_univ. intros H. apply in_map_iff. exists (Z.to_nat (rc - rc_lo sg)).
  split; [lia|]. apply in_seq. lia.
Qed.

Definition gok (sg : slot_grammar) (n : nat) (u : gss) : Prop :=
  match u with
  | U0 => True
  | GN ret pos rc => In ret (slots_univ sg) /\ (pos <= n)%nat /\ rcok sg rc
  end.

Definition gss_univ (sg : slot_grammar) (n : nat) : list gss :=
  U0 :: flat_map (fun ret => flat_map (fun pos => map (GN ret pos) (rcs_univ sg)) (seq 0 (S n))) (slots_univ sg).
Lemma gss_univ_in sg n u : gok sg n u -> In u (gss_univ sg n).
Proof.
  destruct u; cbn [gok]; intros H; [left; auto|]. destruct H as (A & B & C). right.
  apply in_flat_map. exists ret. split; auto. apply in_flat_map. exists pos. split; [apply in_seq; lia|].
  apply in_map. apply rcs_univ_in; auto.
Qed.
