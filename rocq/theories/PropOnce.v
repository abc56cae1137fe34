(** C99, and C34, C53, C69 on the graphs built, with C98: trails by length, every trail
    once, every edge drawn once. *)
(** The definitions here are those of statements, proofs and examples; they model no code. *)
From Coq Require Import ZArith Arith String Ascii Bool Sorted Permutation List Lia.
From Verif Require Import Syntax Spec Check Num Utf8 Tape Occ PrintInj LowerLang PropDag PropGll AstProof PropAst RecogGlue PropRecog
  Graph GraphSpec GraphRun GraphClone GraphRep GraphRepeat GraphLive GraphBuild GraphLabel PropGraph Walk WalkProof PropWalk Reader ReaderProof PropReader Compact CompactProof PropCompact
  Mermaid PropMermaid GraphSimple PropSimple.
Import ListNotations.
Local Open Scope string_scope.
Local Open Scope nat_scope.
Local Open Scope list_scope.

(** ** Specification *)
(** A choice for each node of a path: which of its emissions it makes. *)
Definition choice (t : tgraph) (s : list nat) (ks : list Z) : Prop :=
  Forall2 (fun a k => (0 <= k < variations (elem_at (tg_heap t) a))%Z) s ks.
(** The productions of a path: one for each choice, in some order. *)
Definition each_choice_once (t : tgraph) (s : list nat) (ws : list (list Z)) : Prop :=
  exists kss, NoDup kss /\ (forall ks, In ks kss <-> choice t s ks) /\ Forall2 (renders t s) kss ws.
(** The nodes of a trail; the empty node of the empty trail counts. *)
Definition steps (s : list nat) : nat := Nat.max 1 (length s).

(** ** Proofs *)
Lemma map_inj_nodup {A B} (f : A -> B) l : (forall x y, f x = f y -> x = y) -> NoDup l -> NoDup (map f l).
Proof. intros Inj. induction 1 as [|x l N D IH]; cbn [map]; constructor; [|exact IH]. intros I. apply in_map_iff in I as (y & E & I). apply Inj in E as ->. contradiction. Qed.
Lemma zrange_nodup a b : NoDup (zrange a b).
Proof. unfold zrange. apply map_inj_nodup; [intros x y E; lia|apply seq_NoDup]. Qed.
Lemma vecs_nodup tot : NoDup (vecs tot).
Proof.
  induction tot as [|t tot IH]; cbn [vecs]; [constructor; [intros []|constructor]|].
  induction IH as [|v l N D IHl]; cbn [flat_map]; [constructor|]. apply nodup_keep; [|exact IHl|].
  - apply map_inj_nodup; [intros x y E; injection E as E; exact E|apply zrange_nodup].
  - intros x I1 I2. apply in_map_iff in I1 as (i & <- & _). apply in_flat_map in I2 as (v' & Iv & I2). apply in_map_iff in I2 as (j & E & _). injection E as -> ->. contradiction.
Qed.
Lemma combine_snoc {A B} (l : list A) : forall (m : list B) x y, length l = length m -> combine (l ++ [x]) (m ++ [y]) = combine l m ++ [(x, y)].
Proof. induction l as [|a l IH]; intros [|b m] x y L; try discriminate; [reflexivity|]. cbn [app combine]. rewrite IH by (injection L; auto). reflexivity. Qed.
Lemma word_concat h q : forall v, length v = length q ->
  word h (map Some q) v = concat (map (fun ak => bytes_at h (Some (fst ak)) (snd ak)) (combine (rev q) (rev v))).
Proof.
  induction q as [|x q IH]; intros [|i v] L; try discriminate; [reflexivity|]. cbn [map word rev]. injection L as L.
  rewrite combine_snoc by (rewrite !rev_length; auto). rewrite map_app, concat_app, IH by exact L. cbn [map concat fst snd]. rewrite app_nil_r. reflexivity.
Qed.
Lemma F2_len {A B} (R : A -> B -> Prop) l m : Forall2 R l m -> length l = length m.
Proof. induction 1; cbn [length]; congruence. Qed.
Lemma Forall2_rev {A B} (R : A -> B -> Prop) l m : Forall2 R l m -> Forall2 R (rev l) (rev m).
Proof. induction 1 as [|x y l m H _ IH]; cbn [rev]; [constructor|]. apply Forall2_app; [exact IH|constructor; [exact H|constructor]]. Qed.
Lemma choice_vec t s v : Forall2 (fun i u => (0 <= i < u)%Z) v (map (total_at (tg_heap t)) (map Some (rev s))) <-> choice t s (rev v).
Proof.
  unfold choice. split; intros F.
  - rewrite <- (rev_involutive s). apply Forall2_rev. rewrite map_map in F. revert F. generalize (rev s) as q. induction v as [|i v IH]; intros [|a q] F; inversion F; subst; constructor; auto.
  - apply Forall2_rev in F. rewrite rev_involutive in F. revert F. rewrite map_map. generalize (rev s) as q. induction v as [|i v IH]; intros [|a q] F; inversion F; subst; constructor; auto.
Qed.
Lemma emissions t s : (forall a, In a s -> emit_safe (elem_at (tg_heap t) a)) -> each_choice_once t s (words (tg_heap t) (trail_of s)).
Proof.
  intros Sf. destruct s as [|a0 s0].
  - exists [[]]. split; [constructor; [intros []|constructor]|]. split.
    + intros ks. split; [intros [<-|[]]; constructor|]. intros F. inversion F. left. reflexivity.
    + cbn. constructor; [|constructor]. split; [reflexivity|]. exists []. split; [reflexivity|constructor].
  - set (s := a0 :: s0) in *. change (trail_of s) with (map (@Some nat) (rev s)). set (vs := vecs (map (total_at (tg_heap t)) (map Some (rev s)))).
    exists (map (@rev Z) vs). split; [|split].
    + apply map_inj_nodup; [|apply vecs_nodup]. intros x y E. rewrite <- (rev_involutive x), E, rev_involutive. reflexivity.
    + intros ks. rewrite in_map_iff. split.
      * intros (v & <- & I). apply choice_vec, in_vecs, I.
      * intros C. exists (rev ks). split; [apply rev_involutive|]. apply in_vecs, choice_vec. rewrite rev_involutive. exact C.
    + unfold words. fold vs. assert (H : forall v, In v vs -> choice t s (rev v)) by (intros v I; apply choice_vec, in_vecs, I).
      induction vs as [|v vs IH]; cbn [map]; constructor; [|apply IH; intros x I; apply H; right; exact I].
      assert (C := H v (or_introl eq_refl)). pose proof (F2_len _ _ _ C) as L. split; [symmetry; exact L|].
      exists (map (fun ak => bytes_at (tg_heap t) (Some (fst ak)) (snd ak)) (combine s (rev v))). split.
      * rewrite word_concat, rev_involutive; [reflexivity|]. rewrite rev_length in *. auto.
      * clear -C Sf. revert C Sf. generalize (rev v) as ks. generalize s as l. induction l as [|a l IH]; intros ks C Sf; inversion C as [|? k ? ks' Hk C']; subst; cbn [combine map]; constructor.
        -- split; [exact Hk|]. cbn [fst snd]. unfold bytes_at. cbn [emit_point]. destruct (emit_safe_some _ k (Sf a (or_introl eq_refl))) as (b & vt & E).
           exists vt. unfold elem_at in *. rewrite E. reflexivity.
        -- apply IH; [exact C'|]. intros x I. apply Sf. right. exact I.
Qed.

Lemma sorted_levels {A} (f : A -> nat) (lev : nat -> list A) k : forall l, (forall i x, In x (lev i) -> f x = i) ->
  StronglySorted (fun x y => f x <= f y) (flat_map lev (seq l k)).
Proof.
  induction k as [|k IH]; intros l H; cbn [seq flat_map]; [constructor|].
  assert (T : forall x, In x (flat_map lev (seq (S l) k)) -> l < f x).
  { intros x I. apply in_flat_map in I as (i & Ii & I). apply in_seq in Ii. apply H in I. lia. }
  assert (Hl := H l). induction (lev l) as [|x xs IHx]; cbn [app]; [apply IH, H|]. constructor; [apply IHx; intros y Iy; apply Hl; right; exact Iy|].
  apply Forall_forall. intros y I. rewrite (Hl x (or_introl eq_refl)). apply in_app_or in I as [I|I]; [rewrite (Hl y (or_intror I)); lia|]. apply T in I. lia.
Qed.
Lemma sorted_unmap {A B} (R : B -> B -> Prop) (f : A -> B) l : StronglySorted R (map f l) -> StronglySorted (fun x y => R (f x) (f y)) l.
Proof.
  induction l as [|x l IH]; intros S; [constructor|]. cbn [map] in S. inversion S as [|? ? S' F]; subst. constructor; [apply IH, S'|].
  apply map_Forall, F.
Qed.
Lemma sorted_imp {A} (R Q : A -> A -> Prop) l : (forall x y, R x y -> Q x y) -> StronglySorted R l -> StronglySorted Q l.
Proof. intros H. induction 1 as [|x l S IH F]; constructor; [exact IH|]. eapply Forall_impl; [|exact F]. intros y. apply H. Qed.
Lemma trail_steps s : length (trail_of s) = steps s.
Proof. destruct s as [|a s]; [reflexivity|]. unfold trail_of, steps. rewrite map_length, rev_length. cbn [length]. lia. Qed.
Lemma linked_edges h s : linked h s -> incl (combine s (tl s)) (PropSimple.edges h).
Proof.
  induction s as [|a [|b s] IH]; intros L e I; [destruct I|destruct I|]. destruct L as [L1 L2]. cbn [tl combine] in I. destruct I as [<-|I]; [|apply IH; assumption].
  apply edges_in. unfold nexts in L1. destruct (nth_error h a) as [x|]; [|destruct L1]. exists x. auto.
Qed.
Lemma trail_bound t s : trail t s -> length s <= S (length (PropSimple.edges (tg_heap t))).
Proof.
  intros (P & N & _). destruct s as [|a s]; [cbn [length]; lia|]. destruct P as (_ & _ & L).
  pose proof (NoDup_incl_length N (linked_edges _ _ L)) as K. rewrite combine_length in K. cbn [tl length] in *. lia.
Qed.

(** ** Theorems *)
(** The reader of a graph built serves the trails by their length, each once, and for each
    trail every choice of the emissions of its nodes once.  A trail has at most one node
    more than the graph has edges. *)
Theorem C99_reader_by_length : forall ord fuel opts g g1 g2 order n t c, any_order ord -> wf_grammar g ->
  transition_graph fuel opts g g1 g2 order n = TG_ok t c ->
  exists p, prepare ord t = Some p /\ exists trails outs, serves (new_reader p) (concat outs) /\
    StronglySorted (fun s s' => steps s <= steps s') trails /\ (forall s, In s trails -> length s <= S (length (PropSimple.edges (tg_heap t)))) /\
    NoDup trails /\ (forall s, In s trails <-> trail t s) /\ Forall2 (each_choice_once t) trails outs.
Proof.
  intros ord fuel opts g g1 g2 order n t c O W Et. pose proof (built_all _ _ _ _ _ _ _ _ _ _ (allows_safe opts g W) Et) as Safe.
  destruct (tg_neat _ _ _ _ _ _ _ _ _ W Et) as (De & _ & Sm).
  destruct (prepare_spec ord t O) as (p & E & P). exists p. split; [exact E|]. pose proof (pk_graph t p P) as G.
  assert (Sf : forall s, path t s -> forall a, In a s -> emit_safe (elem_at (tg_heap t) a)) by (intros s Ps a I; apply Safe, (path_in_graph t s Ps a I)).
  destruct (all_trails (from p 1) (trail t)) as (ss & Es & Fs).
  { intros q I. apply (in_from t p P) in I as (s & -> & A & B & C). exists s. split; [reflexivity|]. split; [exact A|]. split; assumption. }
  exists ss, (map (words (tg_heap t)) (map trail_of ss)). split; [|split; [|split; [|split; [|split]]]].
  - exists (from_size p 1). intros k cs Hf.
    assert (Sp : forall q, In q (from p 1) -> Forall (safe (tg_heap (p_graph p))) q).
    { intros q I. apply (in_from t p P) in I as (s & -> & A & _). rewrite G. specialize (Sf s A). destruct s as [|a s]; [constructor; [exact Logic.I|constructor]|].
      unfold trail_of. apply map_Forall. cbn [safe]. apply Forall_rev, Forall_forall, Sf. }
    rewrite (holds_calls p k Sp cs _ _ (new_holds p k Hf)). f_equal. f_equal. unfold outs. rewrite flat_map_concat_map, G, Es. reflexivity.
  - apply (sorted_imp (fun s s' => length (trail_of s) <= length (trail_of s'))); [intros x y; rewrite !trail_steps; auto|].
    apply (sorted_unmap (fun q q' => length q <= length q') trail_of). rewrite <- Es. unfold from. apply sorted_levels.
    intros i q I. apply filter_In in I as [I _]. apply in_leaves in I as [_ I]. cbn [length] in I. lia.
  - intros s I. apply trail_bound. rewrite Forall_forall in Fs. exact (Fs s I).
  - apply (NoDup_map_inv trail_of). rewrite <- Es. apply (from_nodup t p P); [|intros a; apply Sm].
    unfold prepare in E. destruct (fold_left _ _ _) as [all|]; [|discriminate]. destruct (reach_loop _ _ _ _ _ _ _) as [can|]; [|discriminate]. injection E as <-.
    cbn [p_entries]. apply NoDup_filter, De.
  - intros s. split; [intros I; rewrite Forall_forall in Fs; exact (Fs s I)|]. intros (A & B & C).
    assert (I : In (trail_of s) (from p 1)) by (apply (in_from t p P); exists s; auto). rewrite Es in I. apply in_map_iff in I as (s' & Q & I). apply trail_inj in Q as <-. exact I.
  - clear Es. induction Fs as [|s ss Hs Fs IH]; [constructor|]. cbn [map]. constructor; [|exact IH]. apply emissions, Sf, Hs.
Qed.
(** So much of it for C34. *)
Theorem C34_reader_once : forall ord fuel opts g g1 g2 order n t c, any_order ord -> wf_grammar g ->
  transition_graph fuel opts g g1 g2 order n = TG_ok t c ->
  exists p, prepare ord t = Some p /\ exists trails outs, serves (new_reader p) (concat outs) /\
    NoDup trails /\ (forall s, In s trails <-> trail t s) /\ Forall2 (each_choice_once t) trails outs.
Proof.
  intros ord fuel opts g g1 g2 order n t c O W E. destruct (C99_reader_by_length _ _ _ _ _ _ _ _ _ _ O W E) as (p & Ep & ts & outs & H1 & _ & _ & H2 & H3 & H4).
  exists p. split; [exact Ep|]. exists ts, outs. auto.
Qed.

(** The covering set of a graph built has at most the square of the nodes, and the
    nodes and their emissions, productions. *)
Theorem C53_compact_built : forall ord fuel opts g g1 g2 order n t c p prods, any_order ord -> wf_grammar g ->
  transition_graph fuel opts g g1 g2 order n = TG_ok t c -> prepare ord t = Some p -> builds p prods ->
  let size := length (tg_heap t) in
  length prods <= size * size + size + list_sum (map (fun a => Z.to_nat (variations (elem_at (tg_heap t) a))) (seq 0 size)) + 2.
Proof.
  intros ord fuel opts g g1 g2 order n t c p prods O W Et Ep B size. destruct (tg_neat _ _ _ _ _ _ _ _ _ W Et) as (_ & _ & Sm).
  assert (In0 : forall a, in_graph t a -> a < size).
  { destruct (built_sane emit_safe opts g (allows_safe opts g W) _ _ _ _ _ _ _ Et) as ([_ Nx] & Wi & _). apply in_graph_all; [exact Wi|intros a b _; apply Nx]. }
  pose proof (C53_compact_size ord t p prods (seq 0 size) (PropSimple.edges (tg_heap t)) O (built_all _ _ _ _ _ _ _ _ _ _ (allows_safe opts g W) Et) Ep B) as K.
  rewrite seq_length in K. pose proof (edges_count _ Sm) as L. fold size in L.
  eassert (X := K _ _). lia.
  Unshelve.
  - intros a Ia. apply in_seq. specialize (In0 a Ia). lia.
  - intros a b _ Ib. apply edges_in. unfold nexts in Ib. destruct (nth_error (tg_heap t) a) as [x|]; [|destruct Ib]. exists x. auto.
Qed.

(** A drawing has one line for each edge, not several. *)
Theorem C69_edges_once : forall fuel opts g g1 g2 order n t c, wf_grammar g -> lex_grammar g = true -> transition_graph fuel opts g g1 g2 order n = TG_ok t c ->
  forall id ord, uuids id -> visits ord -> exists s, to_mermaid id ord t = D_ok s /\
    forall a b, in_graph t a -> count_occ string_dec (lines s) (edge_line (id a) (id b)) = if in_dec Nat.eq_dec b (nexts (tg_heap t) a) then 1 else 0.
Proof.
  intros fuel opts g g1 g2 order n t c W L E id ord U V. destruct (C69_mermaid_exact _ _ _ _ _ _ _ _ _ W L E id ord U V) as (s & Es & D). exists s. split; [exact Es|].
  intros a b Ia. rewrite (dr_edge _ _ _ D a b Ia). destruct (tg_neat _ _ _ _ _ _ _ _ _ W E) as (_ & _ & Sm).
  destruct (in_dec Nat.eq_dec b (nexts (tg_heap t) a)) as [I|I]; [|apply count_occ_not_In, I]. apply NoDup_count_occ'; [apply Sm|exact I].
Qed.

(** ** Cases *)
(** A trail of the graph of C34, the node of "x" twice, with the first in upper case. *)
Example C34_case_once : any_order (fun (_ : nat) (l : list point) => l) /\ wf_grammar g34 /\ transition_graph 30 (o33 false) g34 g34 g34 (keys g34) "a" = TG_ok t34 0 /\
  prepare (fun _ l => l) t34 = Some p34 /\ builds p34 prods34 /\ trail t34 [0; 0] /\ choice t34 [0; 0] [1; 0]%Z /\ renders t34 [0; 0] [1; 0]%Z [88; 120]%Z /\
  length (tg_heap t34) = 4 /\ length prods34 = 5.
Proof.
  destruct C34_case as (O & W & _ & E & Ep & _). destruct C52_case as (_ & _ & _ & B & _). split; [exact O|]. split; [exact W|]. split; [exact E|]. split; [exact Ep|]. split; [exact B|].
  assert (V : variations (elem_at (tg_heap t34) 0) = 2%Z) by (vm_compute; reflexivity).
  split; [|split; [|split; [|split; vm_compute; reflexivity]]].
  - split; [|split].
    + assert (M : existsb (eq_point (Some 0)) (tg_entry t34) = true /\ existsb (eq_point (Some 0)) (tg_ends t34) = true /\ existsb (Nat.eqb 0) (nexts (tg_heap t34) 0) = true)
        by (split; [|split]; vm_compute; reflexivity). destruct M as (M1 & M2 & M3).
      apply point_in in M1. apply point_in in M2. apply existsb_nat in M3. exact (conj M1 (conj M2 (conj M3 Logic.I))).
    + cbn [tl combine]. constructor; [intros []|constructor].
    + assert (Pr : producing (elem_at (tg_heap t34) 0) = true) by (vm_compute; reflexivity). constructor; [exact Pr|]. constructor; [exact Pr|constructor].
  - unfold choice. constructor; [rewrite V; lia|]. constructor; [rewrite V; lia|constructor].
  - split; [reflexivity|]. exists [[88]; [120]]%Z. split; [reflexivity|]. cbn [combine].
    constructor; [|constructor; [|constructor]]; cbn [fst snd]; (split; [rewrite V; lia|]); exists 2%Z; vm_compute; reflexivity.
Qed.
(** A loop drawn over a loop is one line. *)
Example C69_case_once : wf_grammar g_loops /\ lex_grammar g_loops = true /\ transition_graph 30 o_loops g_loops g_loops g_loops (keys g_loops) "r" = TG_ok t_loops c_loops /\
  uuids dashes /\ visits (fun l => l) /\ in_graph t_loops 0 /\
  match to_mermaid dashes (fun l => l) t_loops with D_ok s => count_occ string_dec (lines s) (edge_line "0" "0") | _ => 0 end = 1.
Proof.
  split; [apply C98_case_loops|]. split; [vm_compute; reflexivity|]. split; [apply C98_case_loops|]. split; [exact dashes_uuids|]. split; [intros l; apply Permutation_refl|].
  split; [|vm_compute; reflexivity]. exists [], 0. split; [vm_compute; auto|]. split; [exact Logic.I|reflexivity].
Qed.

Print Assumptions C99_reader_by_length.
Print Assumptions C34_reader_once.
Print Assumptions C53_compact_built.
Print Assumptions C69_edges_once.
Print Assumptions C34_case_once.
Print Assumptions C69_case_once.
