(** C54: graphs without dead ends. *)
(** The definitions here are those of statements, proofs and examples; they model no code. *)
From Coq Require Import ZArith Arith String Bool List Lia.
From Verif Require Import Syntax Spec Check Num Occ PropDag AstProof PropAst PropRecog
  Graph GraphSpec GraphRun GraphRep GraphLive GraphBuild GraphLabel PropGraph Walk WalkProof PropWalk.
Import ListNotations.
Local Open Scope string_scope.
Local Open Scope Z_scope.
Local Open Scope list_scope.

Lemma reach_linked h a b : reach h a b <-> exists p, linked h (a :: p) /\ last (a :: p) a = b.
Proof.
  split.
  - induction 1 as [a|a b c I _ (p & L & E)]; [exists []; split; [exact Logic.I|reflexivity]|]. exists (b :: p). split; [split; [exact I|exact L]|].
    change (last (a :: b :: p) a) with (last (b :: p) a). rewrite <- E. apply last_change. discriminate.
  - intros (p & L & <-). revert a L. induction p as [|x p IH]; intros a L; [constructor|]. destruct L as [L1 L2]. apply (re_step _ a x); [exact L1|].
    change (last (a :: x :: p) a) with (last (x :: p) a). rewrite (last_change (x :: p) a x) by discriminate. apply IH, L2.
Qed.
Lemma linked_join h p : forall a q, linked h (a :: p) -> linked h (last (a :: p) a :: q) -> linked h (a :: p ++ q).
Proof.
  induction p as [|x p IH]; intros a q L M; [exact M|]. destruct L as [L1 L2]. cbn [app]. split; [exact L1|]. apply IH; [exact L2|].
  change (last (a :: x :: p) a) with (last (x :: p) a) in M. rewrite (last_change (x :: p) a x) in M by discriminate. exact M.
Qed.
Lemma last_join {A} (p : list A) : forall a b q d, last (a :: p) a = b -> last (a :: p ++ q) d = last (b :: q) d.
Proof.
  induction p as [|x p IH]; intros a b q d E; [cbn in E; subst; reflexivity|]. cbn [app]. change (last (a :: x :: p ++ q) d) with (last (x :: p ++ q) d). apply IH.
  rewrite <- E. change (last (a :: x :: p) a) with (last (x :: p) a). apply last_change. discriminate.
Qed.
Lemma last_in_list {A} (p : list A) : forall a d, In (last (a :: p) d) (a :: p).
Proof. induction p as [|x p IH]; intros a d; [left; reflexivity|]. change (last (a :: x :: p) d) with (last (x :: p) d). right. apply IH. Qed.
Lemma live_through t a p b q : In (Some a) (tg_entry t) -> linked (tg_heap t) (a :: p) -> last (a :: p) a = b -> linked (tg_heap t) (b :: q) ->
  In (Some (last (b :: q) b)) (tg_ends t) -> path t (a :: p ++ q) /\ In b (a :: p ++ q).
Proof.
  intros Ia Lp E Lq En. split.
  - split; [exact Ia|]. split; [|apply linked_join; [exact Lp|rewrite E; exact Lq]]. rewrite (last_join p a b q a E). rewrite (last_change (b :: q) a b) by discriminate. exact En.
  - rewrite <- E. change (In (last (a :: p) a) ((a :: p) ++ q)). apply in_or_app. left. apply last_in_list.
Qed.

(** In a graph built there is a path; every node of it is on one, every end point ends
    one, and the empty word is an end where it is an entry. *)
Theorem C54_no_dead_end : forall fuel opts g g1 g2 order n t c, wf_grammar g -> filled opts g ->
  transition_graph fuel opts g g1 g2 order n = TG_ok t c ->
  (exists p, path t p) /\
  (forall a, in_graph t a -> exists p, path t p /\ In a p) /\
  (forall b, In (Some b) (tg_ends t) -> exists a p, path t (a :: p) /\ last (a :: p) a = b) /\
  (In None (tg_entry t) <-> In None (tg_ends t)).
Proof.
  intros fuel opts g g1 g2 order n t c Wf Fl E. destruct (ok_live _ _ _ _ _ _ _ _ _ Wf Fl E) as [[U D N] Ne].
  destruct (ok_shape _ _ _ _ _ _ _ _ _ Wf E) as (R & G & _). pose proof (gr_none _ _ _ _ _ _ _ G) as N'.
  assert (T : forall a, in_graph t a -> exists p, path t p /\ In a p).
  { intros b (p & a & Ia & L & El). assert (Re : reach (tg_heap t) a b) by (apply reach_linked; eauto).
    destruct (U a b Ia Re) as (e & Ie & Re2). apply reach_linked in Re2 as (q & Lq & Eq). exists (a :: p ++ q). apply (live_through t a p b q); auto. rewrite Eq. exact Ie. }
  split; [|split; [exact T|split; [|tauto]]].
  - destruct (some_none _ Ne) as [X|(a & Ia)]; [exists []; split; [exact X|apply N', X]|]. destruct (T a) as (p & P & _); [|exists p; exact P].
    exists [], a. split; [exact Ia|]. split; [exact Logic.I|reflexivity].
  - intros b Ib. destruct (D b Ib) as (a & Ia & Re). apply reach_linked in Re as (p & L & El). exists a, p. split; [|exact El]. split; [exact Ia|]. split; [rewrite El; exact Ib|exact L].
Qed.

(** With terminals that render, a rule with a graph has a word, so that generating from it
    gives one. *)
Theorem C54_word : forall fuel opts g g1 g2 order n t c, wf_grammar g -> filled opts g -> emittable g -> o_rules opts = true ->
  o_numvals opts = false \/ series_single g -> transition_graph fuel opts g g1 g2 order n = TG_ok t c -> exists w, Lang g n w.
Proof.
  intros fuel opts g g1 g2 order n t c Wf Fl Em Ru D E. destruct (C54_no_dead_end _ _ _ _ _ _ _ _ _ Wf Fl E) as ((p & P) & _).
  assert (X : exists w, spells g t p w).
  { assert (Y : forall a, In a p -> exists w, node_word g (tg_heap t) a w).
    { intros a Ia. pose proof (path_in_graph t p P a Ia) as Ga.
      pose proof (built_all _ _ _ _ _ _ _ _ _ _ (allows_emits opts g Em) E a Ga) as Ea. pose proof (built_all _ _ _ _ _ _ _ _ _ _ (allows_producing opts g Ru) E a Ga) as Pa.
      assert (Z : forall e, emits e -> producing e = true -> exists w, in_elem g e w).
      { clear. intros e Ee Pe. destruct e as [n|a|a|s vs|b k es|v]; try discriminate; cbn [emits] in Ee.
        - exists (utf8s vs). constructor; [|exact Ee]. clear. induction vs as [|v vs IH]; constructor; [destruct s; reflexivity|exact IH].
        - destruct k.
          + assert (K : exists rs, Forall2 (fun s v => numeral b s = Some v) es rs /\ Forall scalar rs).
            { clear Pe. induction Ee as [|s es (v & N & S) _ (rs & F1 & F2)]; [exists []; split; constructor|]. exists (v :: rs). split; constructor; assumption. }
            destruct K as (rs & F1 & F2). exists (utf8s rs). constructor; assumption.
          + destruct es as [|lo [|hi [|]]]; try contradiction. destruct Ee as (l & h & Nl & Nh & L1 & L2 & Sc). exists (utf8 l).
            apply (in_range g b lo hi l h l Nl Nh); [lia|apply Sc; lia]. }
      destruct (Z _ Ea Pa) as (w & Iw). exists w. unfold node_word, elem_at in *. destruct (nth_error (tg_heap t) a) as [x|]; [eauto|discriminate]. }
    clear P. induction p as [|a p IH]; [exists [], []; split; [constructor|reflexivity]|].
    destruct (Y a (or_introl eq_refl)) as (w & Nw). destruct IH as (v & ws & F & ->); [intros x Ix; apply Y; right; exact Ix|]. exists (w ++ concat ws), (w :: ws). split; [constructor; assumption|reflexivity]. }
  destruct X as (w & Sp). exists w. apply (C31_graph_spells_single_partial _ _ _ _ _ _ _ _ _ Wf D E). exists p. auto.
Qed.
Theorem C33_generator_filled_partial : forall fuel opts g g1 g2 order n t c ml mr ms, wf_grammar g -> filled opts g -> emittable g -> o_rules opts = true ->
  o_numvals opts = false \/ series_single g -> transition_graph fuel opts g g1 g2 order n = TG_ok t c ->
  exists gen, new_generator t ml mr ms = Gen_ok gen /\
  forall (S_ : Type) (intn : Z -> S_ -> Z * S_) s k, draws_ok intn -> (Z.to_nat ms + length (g_dist gen) < k)%nat ->
  exists w tr s', walk intn k gen s = W_ok w tr s' /\ Lang g n w.
Proof.
  intros fuel opts g g1 g2 order n t c ml mr ms Wf Fl Em Ru D E. destruct (C33_new_generator_built _ _ _ _ _ _ _ _ _ ml mr ms Ru E) as (gen & G).
  exists gen. split; [exact G|]. apply (C33_generator_partial _ _ _ _ _ _ _ _ _ _ _ _ gen Wf Em D E G). exact (C54_word _ _ _ _ _ _ _ _ _ Wf Fl Em Ru D E).
Qed.

(** ** A case *)
Definition filledb (g : grammar) : bool :=
  forallb (fun r => match rule_alt r with [] => false | _ => true end) g &&
  forallb (fun x => match rep_elem x with
    | EGroup [] | ENum _ StatSeries [] => false
    | ENum b StatRange [lo; hi] => match numeral b lo, numeral b hi with Some l, Some h => (l <=? h) && (l <=? 0x10FFFF) | _, _ => true end
    | _ => true end) (grammar_reps g).
Lemma filledb_spec opts g : filledb g = true -> filled opts g.
Proof.
  unfold filledb. rewrite andb_true_iff, !forallb_forall. intros [A B].
  assert (K : forall e, occ_elem g e -> exists x, In x (grammar_reps g) /\ rep_elem x = e).
  { intros e O. inversion O as [mn mx y O1]; subst. apply occ_rep_listed in O1. exists (Rep mn mx e). auto. }
  split; [intros r I; specialize (A r I); destruct (rule_alt r); discriminate|]. split; [|intros _; split].
  - intros a O. apply K in O as (x & I & Q). specialize (B x I). rewrite Q in B. destruct a; discriminate.
  - intros b O. apply K in O as (x & I & Q). specialize (B x I). rewrite Q in B. discriminate.
  - intros b lo hi l h O Nl Nh. apply K in O as (x & I & Q). specialize (B x I). rewrite Q, Nl, Nh in B. apply andb_true_iff in B as [B1 B2]. rewrite Z.leb_le in *. auto.
Qed.
Definition g54 : grammar :=
  [mkRule "line" [[Rep 1 3 (EGroup [[Rep 0 inf (EChar false [97])]; [Rep 1 1 (ERule "Sub")]]); Rep 1 1 (EOption [[Rep 2 inf (ERule "SUB")]])]];
   mkRule "sub" [[Rep 1 1 (ENum "x" StatRange ["31"; "32"])]; [Rep 0 2 (ENum "x" StatSeries ["E9"])]]].
Definition t54 : tgraph := match transition_graph 30 o31 g54 g54 g54 (keys g54) "line" with TG_ok t _ => t | _ => mkTG [] [] [] end.
Definition c54 : Z := match transition_graph 30 o31 g54 g54 g54 (keys g54) "line" with TG_ok _ c => c | _ => 0 end.
Example C54_case : wf_grammar g54 /\ filled o31 g54 /\ emittable g54 /\ o_rules o31 = true /\ series_single g54 /\
  transition_graph 30 o31 g54 g54 g54 (keys g54) "line" = TG_ok t54 c54 /\ 0 < c54 /\ In None (tg_entry t54) /\ In None (tg_ends t54) /\
  new_generator t54 100 10 50 <> Gen_fuel.
Proof.
  split; [apply wf_grammarb_spec; vm_compute; reflexivity|]. split; [apply filledb_spec; vm_compute; reflexivity|]. split; [apply emittableb_spec; vm_compute; reflexivity|].
  split; [reflexivity|]. split; [apply single_ok; vm_compute; reflexivity|]. split; [vm_compute; reflexivity|]. split; [vm_compute; reflexivity|].
  split; [apply (proj1 (has_empty_spec _)); vm_compute; reflexivity|]. split; [apply (proj1 (has_empty_spec _)); vm_compute; reflexivity|]. vm_compute. discriminate.
Qed.
(** ** What fails *)
(** An empty range that is deflated: the node before it is on no path. *)
Definition g_end : grammar := [mkRule "a" [[Rep 1 1 (EChar true [97]); Rep 1 1 (ENum "x" StatRange ["62"; "61"])]]].
Definition t_end : tgraph := match transition_graph 30 (o33 true) g_end g_end g_end (keys g_end) "a" with TG_ok t _ => t | _ => mkTG [] [] [] end.
Theorem C54_empty_range_refuted : exists fuel opts g order n t c a, wf_grammar g /\ transition_graph fuel opts g g g order n = TG_ok t c /\
  in_graph t a /\ forall p, ~ path t p.
Proof.
  exists 30%nat, (o33 true), g_end, (keys g_end), "a", t_end, 0, 0%nat.
  split; [apply wf_grammarb_spec; vm_compute; reflexivity|]. split; [vm_compute; reflexivity|]. split.
  - exists [], 0%nat. split; [vm_compute; auto|]. split; [exact Logic.I|reflexivity].
  - assert (Q : tg_ends t_end = []) by (vm_compute; reflexivity). intros [|a p] P; unfold path in P; rewrite Q in P; [destruct P as [_ []]|]. destruct P as (_ & [] & _).
Qed.

Print Assumptions C54_no_dead_end.
Print Assumptions C54_word.
Print Assumptions C33_generator_filled_partial.
Print Assumptions C54_case.
Print Assumptions C54_empty_range_refuted.
