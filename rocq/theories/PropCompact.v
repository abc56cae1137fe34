(** C52, C53: the covering set of a transition graph. *)
(** The definitions here are those of statements, proofs and examples; they model no code. *)
From Coq Require Import ZArith Arith String Bool List Lia.
From Verif Require Import Syntax Spec Check Num Utf8 Tape Occ PrintInj LowerLang PropDag PropGll AstProof PropAst RecogGlue PropRecog
  Graph GraphSpec GraphRun GraphRep GraphBuild GraphLabel PropGraph Walk WalkProof PropWalk Reader ReaderProof PropReader Compact CompactProof.
Import ListNotations.
Local Open Scope string_scope.
Local Open Scope nat_scope.
Local Open Scope list_scope.

(** ** Specification *)
(** The number of things a node may emit. *)
Definition variations (e : elem) : Z := match node_emit e 0 with Some (_, vt) => Z.max 1 vt | None => 1%Z end.
(** The nodes of a path emit their ks-th things, together w. *)
Definition renders (t : tgraph) (s : list nat) (ks w : list Z) : Prop :=
  length ks = length s /\
  exists ws, w = concat ws /\
    Forall2 (fun ak b => (0 <= snd ak < variations (elem_at (tg_heap t) (fst ak)))%Z /\ exists v, node_emit (elem_at (tg_heap t) (fst ak)) (snd ak) = Some (b, v))
      (combine s ks) ws.
Definition terminals (t : tgraph) (s : list nat) : Prop := Forall (fun a => producing (elem_at (tg_heap t) a) = true) s.
(** The productions recs together visit every node and edge that is on a path through
    terminals, and have every such node emit each of its things. *)
Definition covers (t : tgraph) (recs : list (list nat * list Z)) : Prop :=
  forall s, path t s -> terminals t s ->
    (s = [] -> exists r, In r recs /\ fst r = []) /\
    (forall a k, In a s -> (0 <= k < variations (elem_at (tg_heap t) a))%Z -> exists r, In r recs /\ In (a, k) (combine (fst r) (snd r))) /\
    (forall e, In e (combine s (tl s)) -> exists r, In r recs /\ In e (combine (fst r) (tl (fst r)))).
Definition builds (p : prepared) (prods : list (list Z)) : Prop := exists f0, forall fuel, f0 <= fuel -> build_compact fuel p = Rd_ok prods.
(** Calls of Next and Scan on the productions. *)
Fixpoint compact_calls (prods : list (list Z)) (i : nat) (cs : list call) : list answer :=
  match cs with
  | [] => []
  | Next :: cs' => Has (compact_next prods i) :: compact_calls prods i cs'
  | Scan :: cs' => let '(o, j) := compact_scan prods i in Got o :: compact_calls prods j cs'
  end.

(** ** Proofs *)
Lemma compact_on_list cs : forall a b, compact_calls (a ++ b) (length a) cs = on_list b cs.
Proof.
  induction cs as [|[] cs IH]; intros a b; [reflexivity| |]; cbn [compact_calls on_list].
  - rewrite IH. f_equal. f_equal. unfold compact_next. rewrite app_length. destruct b; cbn [length]; [apply Nat.ltb_ge|apply Nat.ltb_lt]; lia.
  - unfold compact_scan. rewrite nth_error_app2, Nat.sub_diag by lia. destruct b as [|w b]; cbn [nth_error].
    + rewrite IH. reflexivity.
    + f_equal. specialize (IH (a ++ [w]) b). rewrite app_length, <- app_assoc in IH. cbn [length app] in IH. rewrite Nat.add_1_r in IH. exact IH.
Qed.
(** The nodes of a walk. *)
Definition strip (q : list point) : list nat := flat_map (fun x => match x with Some a => [a] | None => [] end) q.
Definition strip_rec (r : list point * list Z) : list nat * list Z := (strip (fst r), match strip (fst r) with [] => [] | _ => snd r end).
Lemma strip_some s : strip (map Some s) = s.
Proof. induction s as [|a s IH]; [reflexivity|]. cbn [map strip flat_map app]. f_equal. exact IH. Qed.
Lemma strip_points s : strip (points_of s) = s.
Proof. destruct s as [|a s]; [reflexivity|]. apply strip_some. Qed.
Lemma total_variations h a : total_at h (Some a) = variations (elem_at h a).
Proof. reflexivity. Qed.
Lemma render_map h s : forall ks b, render h (map Some s) ks = Some b -> length ks = length s ->
  Forall2 (in_range_at h) (map Some s) ks ->
  exists ws, b = concat ws /\ Forall2 (fun ak b => (0 <= snd ak < variations (elem_at h (fst ak)))%Z /\ exists v, node_emit (elem_at h (fst ak)) (snd ak) = Some (b, v)) (combine s ks) ws.
Proof.
  induction s as [|a s IH]; intros [|k ks] b E L F; try discriminate.
  - injection E as <-. exists []. split; [reflexivity|constructor].
  - cbn [map render] in E. destruct (emit_point h (Some a) k) as [[b1 v]|] eqn:E1; [|discriminate]. destruct (render h (map Some s) ks) as [bs|] eqn:E2; [|discriminate].
    injection E as <-. inversion F as [|? ? ? ? F1 F2]; subst. destruct (IH ks bs E2 ltac:(cbn [length] in L; lia) F2) as (ws & -> & G).
    exists (b1 :: ws). split; [reflexivity|]. cbn [combine]. constructor; [|exact G]. cbn [fst snd]. split; [exact F1|]. exists v. exact E1.
Qed.
Lemma forall2_len {A B} (R : A -> B -> Prop) l l' : Forall2 R l l' -> length l = length l'.
Proof. induction 1; cbn [length]; congruence. Qed.
Lemma in_combine_map {A B} (f : A -> B) (l : list A) x y (l' : list Z) : (forall u v, f u = f v -> u = v) -> In (f x, y) (combine (map f l) l') -> In (x, y) (combine l l').
Proof.
  intros J. revert l'. induction l as [|a l IH]; intros [|k l'] I; try destruct I as [Q|I]; try destruct I; [|right; exact (IH l' I)].
  cbn [combine map] in *. left. injection Q as Q1 <-. rewrite (J _ _ Q1). reflexivity.
Qed.
Lemma combine_tl_map (l : list nat) a b : In (Some a, Some b) (combine (map (@Some nat) l) (tl (map (@Some nat) l))) <-> In (a, b) (combine l (tl l)).
Proof.
  induction l as [|x l IH]; [reflexivity|]. destruct l as [|y l]; [reflexivity|].
  change (In (Some a, Some b) ((Some x, Some y) :: combine (map (@Some nat) (y :: l)) (tl (map (@Some nat) (y :: l)))) <-> In (a, b) ((x, y) :: combine (y :: l) (tl (y :: l)))).
  cbn [In]. rewrite IH. split; (intros [Q|I]; [left; congruence|right; exact I]).
Qed.
Section Glue.
  Variables (t : tgraph) (p : prepared) (P : prep_ok t p) (Safe : forall a, in_graph t a -> emit_safe (elem_at (tg_heap t) a)).
  Lemma walk_safe q : good_walk t p q -> Forall (safe (tg_heap t)) q.
  Proof.
    intros G. destruct (walk_path t p P q G) as (s & -> & Pa & _). destruct s as [|a s]; [constructor; [exact Logic.I|constructor]|].
    cbn [points_of]. apply map_Forall. apply Forall_forall. intros b Ib. cbn [safe]. apply Safe. exact (path_in_graph t (a :: s) Pa b Ib).
  Qed.
  Lemma made_renders r w : made t p r w -> path t (fst (strip_rec r)) /\ terminals t (fst (strip_rec r)) /\ renders t (fst (strip_rec r)) (snd (strip_rec r)) w.
  Proof.
    destruct r as [q va]. unfold made, strip_rec. cbn [fst snd]. intros (G & F & E). destruct (walk_path t p P q G) as (s & -> & Pa & Pr). rewrite strip_points.
    split; [exact Pa|]. split; [exact Pr|]. destruct s as [|a s].
    - split; [reflexivity|]. exists []. split; [|constructor]. cbn [points_of] in E. inversion F as [|? k ? ? _ F2]; subst. inversion F2; subst. injection E as <-. reflexivity.
    - assert (L : length va = length (a :: s)) by (apply forall2_len in F; cbn [points_of] in F; rewrite map_length in F; symmetry; exact F).
      split; [exact L|]. apply (render_map (tg_heap t) (a :: s) va w E L F).
  Qed.
  Lemma strip_covers recs prods : Forall2 (made t p) recs prods ->
    (forall q, good_walk t p q ->
      (forall n k, In n q -> in_range_at (tg_heap t) n k -> exists r, In r recs /\ In (n, k) (combine (fst r) (snd r))) /\
      (forall e, In e (combine q (tl q)) -> exists r, In r recs /\ In e (combine (fst r) (tl (fst r))))) ->
    covers t (map strip_rec recs).
  Proof.
    intros M H s Pa Pr. destruct (path_walk t p P s Pa Pr) as [G _]. destruct (H _ G) as [H1 H2].
    assert (X : forall r, In r recs -> exists s', fst r = points_of s' /\ fst (strip_rec r) = s').
    { intros r Ir. assert (Y : exists b, made t p r b).
      { clear -M Ir. induction M as [|x b recs prods Mx M IH]; [destruct Ir|]. destruct Ir as [->|Ir]; [exists b; exact Mx|exact (IH Ir)]. }
      destruct Y as (b & Gr & _). destruct (walk_path t p P _ Gr) as (s' & E & _). exists s'. split; [exact E|]. unfold strip_rec. cbn [fst]. rewrite E. apply strip_points. }
    split; [|split].
    - intros ->. destruct (H1 None 0%Z (or_introl eq_refl)) as (r & Ir & I); [split; [lia|reflexivity]|].
      exists (strip_rec r). split; [apply in_map, Ir|]. destruct (X r Ir) as (s' & E & ->). rewrite E in I. destruct s' as [|a s']; [reflexivity|].
      apply in_combine_l in I. cbn [points_of] in I. change (In None (map (@Some nat) (a :: s'))) in I. apply in_map_iff in I as (z & Q & _). discriminate.
    - intros a k Ia Hk. destruct s as [|b s]; [destruct Ia|]. cbn [points_of] in H1. destruct (H1 (Some a) k) as (r & Ir & I); [change (In (Some a) (map (@Some nat) (b :: s))); apply in_map, Ia|exact Hk|].
      exists (strip_rec r). split; [apply in_map, Ir|]. destruct (X r Ir) as (s' & E & E2). rewrite E2. rewrite E in I. destruct s' as [|c s'].
      + apply in_combine_l in I. destruct I as [Q|[]]. discriminate.
      + unfold strip_rec. cbn [snd]. unfold strip_rec in E2. cbn [fst] in E2. rewrite E2. cbn [points_of] in I.
        apply (in_combine_map (@Some nat) (c :: s') a k (snd r)); [intros u v Q; congruence|exact I].
    - intros [a b] I. destruct s as [|c s]; [destruct I|]. destruct (H2 (Some a, Some b)) as (r & Ir & Ie); [apply (combine_tl_map (c :: s)), I|].
      exists (strip_rec r). split; [apply in_map, Ir|]. destruct (X r Ir) as (s' & E & E2). rewrite E2. rewrite E in Ie. destruct s' as [|d s']; [destruct Ie|].
      apply (combine_tl_map (d :: s')), Ie.
  Qed.
  Lemma reached_node x : reached p x -> x = None /\ In None (tg_entry t) \/ exists a, x = Some a /\ in_graph t a.
  Proof.
    intros (e & r & Ie & Ch & Ix). apply (pk_entry t p P) in Ie as [Ie _]. destruct e as [a|].
    - right. destruct (chain_some t p P r a Ch) as (s & ->). change (In x (map (@Some nat) (a :: s))) in Ix. apply in_map_iff in Ix as (b & <- & Ib). exists b. split; [reflexivity|].
      apply (chain_linked t p P s a) in Ch. apply in_split in Ib as (l1 & l2 & El). destruct l1 as [|a1 l1].
      + injection El as <- _. exists [], a. split; [exact Ie|]. split; [exact Logic.I|reflexivity].
      + injection El as <- El. exists (l1 ++ [b]), a. split; [exact Ie|]. split; [|rewrite app_comm_cons; apply last_last].
        rewrite El in Ch. clear -Ch. revert a Ch. induction l1 as [|y l1 IH]; intros a Ch; cbn [app] in *; destruct Ch as [C1 C2]; (split; [exact C1|]); [exact Logic.I|exact (IH y C2)].
    - left. destruct r as [|y r]; [|destruct Ch as [[] _]]. destruct Ix as [<-|[]]. auto.
  Qed.
End Glue.
(** ** C52 *)
Theorem C52_compact_covers : forall ord t, any_order ord -> (forall a, in_graph t a -> emit_safe (elem_at (tg_heap t) a)) ->
  exists p prods recs, prepare ord t = Some p /\ builds p prods /\
    Forall2 (fun r w => path t (fst r) /\ terminals t (fst r) /\ renders t (fst r) (snd r) w) recs prods /\ covers t recs /\
    forall cs, compact_calls prods 0 cs = on_list prods cs.
Proof.
  intros ord t O Safe. destruct (prepare_spec ord t O) as (p & E & P).
  destruct (compact_spec t p P (walk_safe t p P Safe)) as (prods & recs & B & M & C & _).
  exists p, prods, (map strip_rec recs). split; [exact E|]. split; [exact B|]. split; [|split; [exact (strip_covers t p P recs prods M C)|intros cs; exact (compact_on_list cs [] prods)]].
  clear B C. induction M as [|r w recs prods Hr M IH]; [constructor|]. cbn [map]. constructor; [apply made_renders with (p := p); assumption|exact IH].
Qed.
(** Every graph built of a grammar is such. *)
Theorem C52_compact_built : forall ord fuel opts g g1 g2 order n t c, any_order ord -> wf_grammar g ->
  transition_graph fuel opts g g1 g2 order n = TG_ok t c ->
  exists p prods recs, prepare ord t = Some p /\ builds p prods /\
    Forall2 (fun r w => path t (fst r) /\ terminals t (fst r) /\ renders t (fst r) (snd r) w) recs prods /\ covers t recs /\
    forall cs, compact_calls prods 0 cs = on_list prods cs.
Proof.
  intros ord fuel opts g g1 g2 order n t c O W E. apply C52_compact_covers; [exact O|].
  exact (built_all _ _ _ _ _ _ _ _ _ _ (allows_safe opts g W) E).
Qed.
(** For the graphs of rules: productions are words.  Missing: nodes that emit what they
    do not match (C33, C34). *)
Theorem C52_compact_lang_partial : forall ord fuel opts g g1 g2 order n t c, any_order ord -> wf_grammar g -> emittable g -> o_rules opts = true ->
  o_numvals opts = false \/ series_single g -> transition_graph fuel opts g g1 g2 order n = TG_ok t c ->
  exists p prods (paths : list (list nat)), prepare ord t = Some p /\ builds p prods /\
    Forall2 (fun s w => path t s /\ spells g t s w /\ Lang g n w) paths prods /\
    forall s, path t s -> (s = [] -> In [] paths) /\
      (forall a, In a s -> exists r, In r paths /\ In a r) /\ (forall e, In e (combine s (tl s)) -> exists r, In r paths /\ In e (combine r (tl r))).
Proof.
  intros ord fuel opts g g1 g2 order n t c O W Em R D E.
  destruct (C52_compact_covers ord t O (built_all _ _ _ _ _ _ _ _ _ _ (allows_safe opts g W) E)) as (p & prods & recs & Ep & B & M & C & _).
  exists p, prods, (map fst recs). split; [exact Ep|]. split; [exact B|].
  pose proof (built_all _ _ _ _ _ _ _ _ _ _ (allows_producing opts g R) E) as Pr. pose proof (built_all _ _ _ _ _ _ _ _ _ _ (allows_emits opts g Em) E) as Ee.
  destruct (built_sane emit_safe opts g (allows_safe opts g W) _ _ _ _ _ _ _ E) as ([_ Nx] & Wi & _). split.
  - clear B C. induction M as [|[s ks] w recs prods (Pa & Tm & (Lk & ws & -> & F)) M IH]; [constructor|]. cbn [map fst snd] in *. constructor; [|exact IH].
    assert (Sp : spells g t s (concat ws)).
    { apply emitted_spells; [exact (path_in_graph t s Pa)| |intros a I; split; auto|].
      - apply in_graph_all; [exact Wi|intros a b _; apply Nx].
      - clear -Lk F. revert ks ws Lk F. induction s as [|a s IH]; intros [|k ks] ws Lk F; try discriminate; inversion F as [|? b ? ws' F1 F2]; subst; constructor.
        + cbn [fst snd] in F1. destruct F1 as (Hk & v & Ev). unfold variations in Hk. unfold emitted. destruct (node_emit (elem_at (tg_heap t) a) 0) as [[b0 vt]|] eqn:E0.
          * exists k, vt, b0, v. auto.
          * assert (k = 0%Z) as -> by lia. congruence.
        + apply (IH ks); [cbn [length] in Lk; lia|exact F2]. }
    split; [exact Pa|]. split; [exact Sp|]. apply (C31_graph_spells_single_partial _ _ _ _ _ _ _ _ _ W D E). exists s. auto.
  - intros s Pa. assert (Tm : terminals t s) by (apply Forall_forall; intros a Ia; apply Pr, (path_in_graph t s Pa a Ia)).
    destruct (C s Pa Tm) as (C1 & C2 & C3). split; [|split].
    + intros Es. destruct (C1 Es) as (r & Ir & Er). apply in_map_iff. exists r. auto.
    + intros a Ia. destruct (C2 a 0%Z Ia) as (r & Ir & I).
      * unfold variations. destruct (node_emit _ 0) as [[b vt]|]; lia.
      * exists (fst r). split; [apply in_map, Ir|]. apply in_combine_l in I. exact I.
    + intros e Ie. destruct (C3 e Ie) as (r & Ir & I). exists (fst r). split; [apply in_map, Ir|exact I].
Qed.
(** ** C53 *)
(** As many productions at most as there are edges, nodes and things to emit; the empty
    node counts as one more of each. *)
Theorem C53_compact_size : forall ord t p prods V E, any_order ord -> (forall a, in_graph t a -> emit_safe (elem_at (tg_heap t) a)) ->
  prepare ord t = Some p -> builds p prods ->
  (forall a, in_graph t a -> In a V) -> (forall a b, in_graph t a -> In b (nexts (tg_heap t) a) -> In (a, b) E) ->
  length prods <= length E + length V + list_sum (map (fun a => Z.to_nat (variations (elem_at (tg_heap t) a))) V) + 2.
Proof.
  intros ord t p prods V E O Safe Ep B HV HE. destruct (prepare_spec ord t O) as (p' & Ep' & P). rewrite Ep in Ep'. injection Ep' as <-.
  destruct (compact_spec t p P (walk_safe t p P Safe)) as (prods' & recs & B' & _ & _ & L).
  assert (prods' = prods) as ->.
  { destruct B as (f & B). destruct B' as (f' & B'). specialize (B (f + f') ltac:(lia)). specialize (B' (f + f') ltac:(lia)). congruence. }
  specialize (L (None :: map Some V) (map (fun e => (Some (fst e), Some (snd e))) E)).
  assert (L1 : forall x, reached p x -> In x (None :: map Some V)).
  { intros x Rx. destruct (reached_node t p P x Rx) as [[-> _]|(a & -> & Ia)]; [left; reflexivity|]. right. apply in_map, HV, Ia. }
  assert (L2 : forall a b, reached p a -> In b (viable p a) -> In (a, b) (map (fun e => (Some (fst e), Some (snd e))) E)).
  { intros a b Rx I. apply (viable_spec t p P) in I as [I _]. destruct (reached_node t p P a Rx) as [[-> _]|(x & -> & Ia)]; [destruct I|]. cbn [succs] in I.
    apply in_map_iff in I as (y & <- & Iy). apply in_map_iff. exists (x, y). split; [reflexivity|]. apply HE; assumption. }
  specialize (L L1 L2). cbn [map length] in L. rewrite !map_length, map_map in L. change (list_sum (?a :: ?b)) with (a + list_sum b) in L.
  replace (Z.to_nat (total_at (tg_heap t) None)) with 1 in L by reflexivity.
  change (list_sum (map (fun a => Z.to_nat (variations (elem_at (tg_heap t) a))) V)) with (list_sum (map (fun x => Z.to_nat (total_at (tg_heap t) (Some x))) V)). lia.
Qed.

(** ** A case *)
Local Open Scope Z_scope.
Definition prods34 : list (list Z) := match build_compact 30 p34 with Rd_ok l => l | _ => [] end.
Example C52_case : any_order (fun (_ : nat) (l : list point) => l) /\ (forall a, in_graph t34 a -> emit_safe (elem_at (tg_heap t34) a)) /\
  prepare (fun _ l => l) t34 = Some p34 /\ builds p34 prods34 /\ prods34 = [[120; 88]; [120; 48]; [120; 45]; []; [120; 49]] /\
  compact_calls prods34 0 [Scan; Next; Scan; Scan; Scan; Next; Scan; Next; Scan] =
    [Got (Some [120; 88]); Has true; Got (Some [120; 48]); Got (Some [120; 45]); Got (Some []); Has true; Got (Some [120; 49]); Has false; Got None].
Proof.
  destruct C34_case as (O & W & _ & E & Ep & _). split; [exact O|]. split; [exact (built_all _ _ _ _ _ _ _ _ _ _ (allows_safe (o33 false) g34 W) E)|].
  split; [exact Ep|]. split; [|split; vm_compute; reflexivity]. exists 30%nat. intros fuel Hf. apply (build_mono p34 30 fuel _ Hf). vm_compute. reflexivity.
Qed.

Print Assumptions C52_compact_covers.
Print Assumptions C52_compact_built.
Print Assumptions C52_compact_lang_partial.
Print Assumptions C53_compact_size.
Print Assumptions C52_case.
