(** C34: reading the trails of a transition graph. *)
(** The definitions here are those of statements, proofs and examples; they model no code. *)
From Coq Require Import ZArith Arith String Bool List Lia.
From Verif Require Import Syntax Spec Check Num Utf8 Tape Occ PrintInj LowerLang PropDag PropGll AstProof PropAst RecogGlue PropRecog
  Graph GraphSpec GraphRun GraphRep GraphBuild GraphLabel PropGraph Walk WalkProof PropWalk Reader ReaderProof.
Import ListNotations.
Local Open Scope string_scope.
Local Open Scope nat_scope.
Local Open Scope list_scope.

(** ** Specification *)
(** A use of a reader: calls of Next and Scan in any order, and their answers. *)
Inductive call : Type := Next | Scan.
Inductive answer : Type := Has (b : bool) | Got (o : option (list Z)).
Fixpoint calls (fuel : nat) (r : reader) (cs : list call) : rd_result (list answer) :=
  match cs with
  | [] => Rd_ok []
  | Next :: cs' => match reader_next fuel r with
                   | Rd_ok (b, r1) => match calls fuel r1 cs' with Rd_ok l => Rd_ok (Has b :: l) | e => e end
                   | Rd_panic => Rd_panic | Rd_fuel => Rd_fuel
                   end
  | Scan :: cs' => match reader_scan fuel r with
                   | Rd_ok (o, r1) => match calls fuel r1 cs' with Rd_ok l => Rd_ok (Got o :: l) | e => e end
                   | Rd_panic => Rd_panic | Rd_fuel => Rd_fuel
                   end
  end.
(** The same on a list: Next asks whether it is not empty, Scan takes its head. *)
Fixpoint on_list (l : list (list Z)) (cs : list call) : list answer :=
  match cs with
  | [] => []
  | Next :: cs' => Has (match l with [] => false | _ => true end) :: on_list l cs'
  | Scan :: cs' => match l with [] => Got None :: on_list [] cs' | w :: l' => Got (Some w) :: on_list l' cs' end
  end.
(** A reader serves the list: whatever the calls, and given enough fuel. *)
Definition serves (r : reader) (l : list (list Z)) : Prop :=
  exists f0, forall fuel cs, f0 <= fuel -> calls fuel r cs = Rd_ok (on_list l cs).
(** An entry-to-end path that uses no edge twice, and whose nodes are all terminals. *)
Definition trail (t : tgraph) (s : list nat) : Prop :=
  path t s /\ NoDup (combine s (tl s)) /\ Forall (fun a => producing (elem_at (tg_heap t) a) = true) s.
(** A word obtained by emissions of the nodes of a path. *)
Definition emits_along (t : tgraph) (s : list nat) (w : list Z) : Prop :=
  exists ws, Forall2 (fun a b => emitted (elem_at (tg_heap t) a) b) s ws /\ w = concat ws.

(** ** Proofs *)
Lemma holds_calls p F (Safe : forall q, In q (from p 1) -> Forall (safe (tg_heap (p_graph p))) q) cs :
  forall r l, holds p F r l -> calls F r cs = Rd_ok (on_list l cs).
Proof.
  induction cs as [|[] cs IH]; intros r l H; [reflexivity| |]; cbn [calls on_list].
  - destruct (next_spec p F Safe r l H) as (r1 & -> & H1). rewrite (IH r1 l H1). reflexivity.
  - destruct (scan_spec p F Safe r l H) as (r1 & -> & H1). destruct l as [|w l]; cbn [hd_error tl] in *; rewrite (IH _ _ H1); reflexivity.
Qed.
Lemma map_Forall {A B} (P : B -> Prop) (f : A -> B) l : Forall P (map f l) <-> Forall (fun x => P (f x)) l.
Proof. rewrite !Forall_forall. split; intros H x I; [apply H, in_map, I|apply in_map_iff in I as (y & <- & I); apply H, I]. Qed.
Lemma trail_words t s w : Forall (fun a => emit_safe (elem_at (tg_heap t) a)) s ->
  In w (words (tg_heap t) (trail_of s)) <-> emits_along t s w.
Proof.
  intros F. destruct s as [|a s].
  - unfold trail_of, words, emits_along. split.
    + intros [<-|[]]. exists []. split; [constructor|reflexivity].
    + intros (ws & F2 & ->). inversion F2. left. reflexivity.
  - apply in_words. exact F.
Qed.
Lemma trail_inj s s' : trail_of s = trail_of s' -> s = s'.
Proof.
  assert (K : forall a l, trail_of (a :: l) <> [None]).
  { intros a l E. unfold trail_of in E. destruct (rev (a :: l)); discriminate. }
  destruct s as [|a s], s' as [|b s']; intros E; [reflexivity|symmetry in E; destruct (K _ _ E)|destruct (K _ _ E)|].
  unfold trail_of in E. assert (I : forall l l' : list nat, map (@Some nat) l = map (@Some nat) l' -> l = l').
  { induction l as [|x l IH]; intros [|y l'] Q; try discriminate; [reflexivity|]. injection Q as -> Q. f_equal. apply IH, Q. }
  apply I in E. rewrite <- (rev_involutive (a :: s)), E, rev_involutive. reflexivity.
Qed.
Lemma all_trails (qs : list (list point)) (P : list nat -> Prop) : (forall q, In q qs -> exists s, q = trail_of s /\ P s) -> exists ss, qs = map trail_of ss /\ Forall P ss.
Proof.
  induction qs as [|q qs IH]; intros H; [exists []; split; [reflexivity|constructor]|].
  destruct (H q (or_introl eq_refl)) as (s & -> & Hs). destruct IH as (ss & -> & F); [intros q I; apply H; right; exact I|].
  exists (s :: ss). split; [reflexivity|constructor; assumption].
Qed.
Theorem C34_reader_exact : forall ord t, any_order ord -> (forall a, in_graph t a -> emit_safe (elem_at (tg_heap t) a)) ->
  exists p, prepare ord t = Some p /\
  exists trails outs, serves (new_reader p) (concat outs) /\
    (forall s, In s trails <-> trail t s) /\
    Forall2 (fun s ws => ws <> [] /\ forall w, In w ws <-> emits_along t s w) trails outs /\
    (NoDup (tg_entry t) -> (forall a, NoDup (nexts (tg_heap t) a)) -> NoDup trails).
Proof.
  intros ord t O Safe. destruct (prepare_spec ord t O) as (p & E & P). exists p. split; [exact E|].
  pose proof (pk_graph t p P) as G.
  assert (Sf : forall s, path t s -> Forall (fun a => emit_safe (elem_at (tg_heap t) a)) s).
  { intros s Ps. apply Forall_forall. intros a I. apply Safe. exact (path_in_graph t s Ps a I). }
  destruct (all_trails (from p 1) (trail t)) as (ss & Es & Fs).
  { intros q I. apply (in_from t p P) in I as (s & -> & A & B & C). exists s. split; [reflexivity|]. split; [exact A|]. split; assumption. }
  exists ss, (map (words (tg_heap t)) (map trail_of ss)). split; [|split; [|split]].
  - exists (from_size p 1). intros fuel cs Hf. 
    assert (Sp : forall q, In q (from p 1) -> Forall (safe (tg_heap (p_graph p))) q).
    { intros q I. apply (in_from t p P) in I as (s & -> & A & _). rewrite G. specialize (Sf s A). destruct s as [|a s]; [constructor; [exact Logic.I|constructor]|].
      unfold trail_of. apply map_Forall. cbn [safe]. apply Forall_rev, Sf. }
    rewrite (holds_calls p fuel Sp cs _ _ (new_holds p fuel Hf)). f_equal. f_equal. unfold outs. rewrite flat_map_concat_map, G, Es. reflexivity.
  - intros s. split; [intros I; rewrite Forall_forall in Fs; exact (Fs s I)|]. intros (A & B & C).
    assert (I : In (trail_of s) (from p 1)) by (apply (in_from t p P); exists s; auto). rewrite Es in I. apply in_map_iff in I as (s' & Q & I). apply trail_inj in Q as <-. exact I.
  - clear Es. induction Fs as [|s ss Hs Fs IH]; [constructor|]. cbn [map]. constructor; [|exact IH]. destruct Hs as (A & _). specialize (Sf s A). split.
    + unfold words. rewrite (vecs_after _ (totals_pos (tg_heap t) (trail_of s))). discriminate.
    + intros w. apply trail_words, Sf.
  - intros De Dn. apply (NoDup_map_inv trail_of). rewrite <- Es. apply (from_nodup t p P); [|exact Dn].
    unfold prepare in E. destruct (fold_left _ _ _) as [all|]; [|discriminate]. destruct (reach_loop _ _ _ _ _ _ _) as [can|]; [|discriminate]. injection E as <-.
    cbn [p_entries]. apply NoDup_filter, De.
Qed.
(** For the graphs of rules. *)
Theorem C34_reader_built : forall ord fuel opts g g1 g2 order n t c, any_order ord -> wf_grammar g ->
  transition_graph fuel opts g g1 g2 order n = TG_ok t c ->
  exists p, prepare ord t = Some p /\ exists outs, serves (new_reader p) outs /\
    forall w, In w outs <-> exists s, trail t s /\ emits_along t s w.
Proof.
  intros ord fuel opts g g1 g2 order n t c O W E.
  destruct (C34_reader_exact ord t O (built_all _ _ _ _ _ _ _ _ _ _ (allows_safe opts g W) E)) as (p & Ep & ts & outs & Sv & Tr & F & _).
  exists p. split; [exact Ep|]. exists (concat outs). split; [exact Sv|]. intros w.
  rewrite in_concat. split.
  - intros (ws & I & Iw). assert (X : exists s, In s ts /\ (ws <> [] /\ forall w, In w ws <-> emits_along t s w)).
    { clear Tr Sv. induction F as [|s x ts outs Hx F IH]; [destruct I|]. destruct I as [->|I]; [exists s; split; [left; reflexivity|exact Hx]|].
      destruct (IH I) as (s' & Is & K). exists s'. split; [right; exact Is|exact K]. }
    destruct X as (s & Is & _ & K). exists s. split; [apply Tr, Is|apply K, Iw].
  - intros (s & T & Ew). apply Tr in T. clear Sv Tr. induction F as [|s' x ts outs [_ Hx] F IH]; [destruct T|]. destruct T as [->|T].
    + exists x. split; [left; reflexivity|apply Hx, Ew].
    + destruct (IH T) as (ws & I & Iw). exists ws. split; [right; exact I|exact Iw].
Qed.
(** Productions are words, and every trail of a graph with all rules inlined is spelled
    by a production.  Missing: nodes that emit what they do not match (see the
    refutation below). *)
Theorem C34_reader_lang_partial : forall ord fuel opts g g1 g2 order n t c, any_order ord -> wf_grammar g -> emittable g -> o_rules opts = true ->
  o_numvals opts = false \/ series_single g -> transition_graph fuel opts g g1 g2 order n = TG_ok t c ->
  exists p, prepare ord t = Some p /\ exists outs, serves (new_reader p) outs /\
    (forall w, In w outs -> Lang g n w /\ exists s, path t s /\ NoDup (combine s (tl s)) /\ spells g t s w) /\
    (forall s, path t s -> NoDup (combine s (tl s)) -> exists w, In w outs /\ spells g t s w).
Proof.
  intros ord fuel opts g g1 g2 order n t c O W Em R D E.
  destruct (C34_reader_built ord fuel opts g g1 g2 order n t c O W E) as (p & Ep & outs & Sv & H). exists p. split; [exact Ep|]. exists outs. split; [exact Sv|].
  pose proof (built_all _ _ _ _ _ _ _ _ _ _ (allows_producing opts g R) E) as Pr. pose proof (built_all _ _ _ _ _ _ _ _ _ _ (allows_emits opts g Em) E) as Ee.
  destruct (built_sane emit_safe opts g (allows_safe opts g W) _ _ _ _ _ _ _ E) as ([_ Nx] & Wi & _).
  assert (Sp : forall s w, path t s -> emits_along t s w -> spells g t s w).
  { intros s w Ps (ws & F & ->). apply emitted_spells; [exact (path_in_graph t s Ps)| |intros a I; split; auto|exact F].
    apply in_graph_all; [exact Wi|intros a b _; apply Nx]. }
  split.
  - intros w I. apply H in I as (s & (A & B & _) & Ew). split; [|exists s; auto]. apply (C31_graph_spells_single_partial _ _ _ _ _ _ _ _ _ W D E). exists s. auto.
  - intros s A B. assert (X : exists w, emits_along t s w).
    { pose proof (path_in_graph t s A) as Ig. clear A B. induction s as [|a s IH]; [exists [], []; split; [constructor|reflexivity]|].
      destruct IH as (w & ws & F & _); [intros x Ix; apply Ig; right; exact Ix|].
      pose proof (built_all _ _ _ _ _ _ _ _ _ _ (allows_safe opts g W) E a (Ig a (or_introl eq_refl))) as Sa.
      destruct (emit_safe_some _ 0%Z Sa) as (b & vt & Eb). exists (concat (b :: ws)), (b :: ws). split; [|reflexivity]. constructor; [|exact F].
      exists 0%Z, vt, b, vt. split; [exact Eb|]. split; [lia|exact Eb]. }
    destruct X as (w & X). exists w. split; [|exact (Sp s w A X)]. apply H. exists s. split; [|exact X]. split; [exact A|]. split; [exact B|].
    apply Forall_forall. intros a Ia. apply Pr, (path_in_graph t s A a Ia).
Qed.

(** ** A case *)
Local Open Scope Z_scope.
Definition g34 : grammar :=
  [mkRule "a" [[Rep 0 inf (EChar false [120]); Rep 1 1 (EGroup [[Rep 1 1 (ENum "x" StatRange ["30"; "31"])]; [Rep 1 1 (ERule "b")]])]];
   mkRule "b" [[Rep 0 1 (EChar true [45])]]].
Definition t34 : tgraph := match transition_graph 30 (o33 false) g34 g34 g34 (keys g34) "a" with TG_ok t _ => t | _ => mkTG [] [] [] end.
Definition p34 : prepared := match prepare (fun _ l => l) t34 with Some p => p | None => mkPrep t34 [] [] end.
Example C34_case : any_order (fun (_ : nat) (l : list point) => l) /\ wf_grammar g34 /\ emittable g34 /\ transition_graph 30 (o33 false) g34 g34 g34 (keys g34) "a" = TG_ok t34 0 /\
  prepare (fun _ l => l) t34 = Some p34 /\
  calls 100 (new_reader p34) [Next; Scan; Scan; Next; Scan; Scan; Scan; Next; Scan; Scan; Scan] =
    Rd_ok [Has true; Got (Some [120]); Got (Some [88]); Has true; Got (Some [48]); Got (Some [49]); Got (Some []); Has true; Got (Some [45]); Got (Some [120; 120]); Got (Some [120; 88])].
Proof.
  split; [intros i l x; reflexivity|]. split; [apply wf_grammarb_spec; vm_compute; reflexivity|]. split; [apply emittableb_spec; vm_compute; reflexivity|].
  split; [vm_compute; reflexivity|]. split; [vm_compute; reflexivity|]. vm_compute. reflexivity.
Qed.
(** ** What fails *)
(** A path with a node that is not a terminal is not produced. *)
Theorem C34_every_path_refuted : exists ord fuel opts g order n t c p s, any_order ord /\ wf_grammar g /\ emittable g /\
  transition_graph fuel opts g g g order n = TG_ok t c /\ path t s /\ NoDup (combine s (tl s)) /\
  prepare ord t = Some p /\ (exists w, spells g t s w) /\ forall k cs, (1 < k)%nat -> calls k (new_reader p) cs = Rd_ok (on_list [] cs).
Proof.
  set (g := [mkRule "a" [[Rep 1 1 (ERule "b")]]; mkRule "b" [[Rep 1 1 (EChar false [98])]]]).
  assert (W : wf_grammar g) by (apply wf_grammarb_spec; vm_compute; reflexivity).
  exists (fun _ l => l), 30%nat, (mkOpts false false false 256 0), g, (keys g), "a". eexists _, _, _. exists [0%nat].
  split; [intros i l x; reflexivity|]. split; [exact W|]. split; [apply emittableb_spec; vm_compute; reflexivity|].
  split; [vm_compute; reflexivity|]. split; [split; [left; reflexivity|split; [left; reflexivity|exact Logic.I]]|]. split; [constructor|].
  split; [vm_compute; reflexivity|]. split.
  - exists [98], [[98]]. split; [|reflexivity]. constructor; [|constructor]. eexists. split; [vm_compute; reflexivity|]. cbn [n_elem].
    assert (L : Lang g "b" [98]).
    { apply (one_rep_word g "b" (EChar false [98]) [98] ltac:(apply wf_distinct; vm_compute; reflexivity) (mkRule "b" [[Rep 1 1 (EChar false [98])]]) eq_refl eq_refl).
      apply (in_char g false [98] [98]); constructor; auto; [reflexivity|unfold scalar; lia]. }
    exact L.
  - intros k cs Hk. destruct k as [|[|k]]; [lia|lia|].
    set (r0 := new_reader _).
    assert (K : forall r, (r = r0 \/ r_has_staged r = false /\ r_exhausted r = true) -> calls (S (S k)) r cs = Rd_ok (on_list [] cs)).
    { induction cs as [|[] cs IH]; intros r Hr; [reflexivity| |]; cbn [calls on_list].
      - assert (X : exists r1, reader_next (S (S k)) r = Rd_ok (false, r1) /\ r_has_staged r1 = false /\ r_exhausted r1 = true).
        { destruct Hr as [->|[H1 H2]]; [eexists; split; [reflexivity|]; split; reflexivity|]. exists r. unfold reader_next, ensure_staged. rewrite H1, H2. cbn [orb]. rewrite H1. auto. }
        destruct X as (r1 & -> & X). rewrite IH by (right; exact X). reflexivity.
      - assert (X : exists r1, reader_scan (S (S k)) r = Rd_ok (None, r1) /\ r_has_staged r1 = false /\ r_exhausted r1 = true).
        { destruct Hr as [->|[H1 H2]]; [eexists; split; [reflexivity|]; split; reflexivity|]. exists r. unfold reader_scan, ensure_staged. rewrite H1, H2. cbn [orb]. rewrite H1. auto. }
        destruct X as (r1 & -> & X). rewrite IH by (right; exact X). reflexivity. }
    apply K. left. reflexivity.
Qed.
(** A production that is not a word: a surrogate is emitted as U+FFFD. *)
Theorem C34_surrogate_refuted : exists ord fuel opts g order n t c p w, any_order ord /\ wf_grammar g /\ lex_grammar g = true /\ o_numvals opts = false /\
  o_rules opts = true /\ transition_graph fuel opts g g g order n = TG_ok t c /\ prepare ord t = Some p /\
  calls 100 (new_reader p) [Scan; Scan; Scan] = Rd_ok [Got (Some (utf8 0xD7FF)); Got (Some w); Got None] /\ ~ Lang g n w.
Proof.
  exists (fun _ l => l), 30%nat, (o33 false), g_surr, (keys g_surr), "a". eexists _, _, _, _.
  split; [intros i l x; reflexivity|]. split; [apply wf_grammarb_spec; vm_compute; reflexivity|]. split; [vm_compute; reflexivity|]. split; [reflexivity|].
  split; [reflexivity|]. split; [vm_compute; reflexivity|]. split; [vm_compute; reflexivity|]. split; [vm_compute; reflexivity|].
  assert (O : forall w, Lang g_surr "a" w <-> in_elem g_surr (ENum "x" StatRange ["D7FF"; "D800"]) w).
  { intros w. eapply one_rep_word; [apply wf_distinct; vm_compute; reflexivity|reflexivity|reflexivity]. }
  rewrite O. intros H. inversion H as [| | | | | |? ? ? l h r N1 N2 B S E1 E2]; subst.
  vm_compute in N1, N2. injection N1 as <-. injection N2 as <-. unfold scalar in S. assert (r = 0xD7FF) as -> by lia. vm_compute in E2. discriminate.
Qed.

Print Assumptions C34_reader_exact.
Print Assumptions C34_reader_built.
Print Assumptions C34_reader_lang_partial.
Print Assumptions C34_case.
Print Assumptions C34_every_path_refuted.
Print Assumptions C34_surrogate_refuted.
