(** The edges the machine draws: no edge twice.
    Its definitions are means of proof and model no code. *)
From Coq Require Import ZArith Arith String Bool List Lia.
From Verif Require Import Syntax Spec Check Num Tape RegexSpec Deps LeftRec LowerLang RecogGlue PropRecog Graph GraphSpec GraphRun GraphClone GraphRep GraphRepeat GraphLive GraphBuild GraphAlloc.
Import ListNotations.
Local Open Scope nat_scope.
Local Open Scope list_scope.

(** Successors are distinct nodes of the heap. *)
Definition simple (h : heap) : Prop := forall a, NoDup (nexts h a) /\ forall b, In b (nexts h a) -> b < length h.

(** ** Points *)
Lemma append_nodes_nodup n : forall l, NoDup l -> NoDup (append_nodes l n).
Proof.
  induction n as [|p n IH]; intros l D; [exact D|]. unfold append_nodes. cbn [fold_left]. apply IH.
  destruct (existsb (eq_point p) l) eqn:E; [exact D|]. apply NoDup_rev in D. rewrite <- (rev_involutive (l ++ [p])). apply NoDup_rev. rewrite rev_app_distr. cbn [rev app].
  constructor; [|exact D]. intros I. apply in_rev in I.
  assert (X : existsb (eq_point p) l = true); [|congruence]. apply existsb_exists. exists p. split; [exact I|]. destruct p; cbn; [apply Nat.eqb_refl|reflexivity].
Qed.
Lemma append_one_nodup n : NoDup (append_nodes [None] n).
Proof. apply append_nodes_nodup. constructor; [intros []|constructor]. Qed.
Lemma append_zero_nodup n : NoDup (append_nodes [] n).
Proof. apply append_nodes_nodup. constructor. Qed.
Lemma nodup_somes l : NoDup l -> NoDup (somes l).
Proof.
  induction l as [|[a|] l IH]; intros D; [constructor| |]; inversion D as [|? ? N D']; subst; [|exact (IH D')].
  change (NoDup (a :: somes l)). constructor; [|exact (IH D')]. intros I. apply N, somes_in, I.
Qed.
Lemma append_all_nodup tgs : forall l, NoDup l -> NoDup (fold_left (fun l (tg : points * points) => append_nodes l (snd tg)) tgs l).
Proof. induction tgs as [|t tgs IH]; intros l D; cbn [fold_left]; [exact D|]. apply IH, append_nodes_nodup, D. Qed.
Lemma nodup_join (E ni : points) : NoDup E -> NoDup ni -> (forall a, In (Some a) E -> ~ In (Some a) ni) ->
  NoDup (filter (fun p => negb (is_none p)) E ++ ni).
Proof.
  intros D1 D2 Ap. induction E as [|p E IH]; cbn [filter app]; [exact D2|]. inversion D1 as [|? ? N D1']; subst.
  assert (IH' := IH D1' (fun a I => Ap a (or_intror I))). destruct p as [a|]; cbn [is_none negb]; [|exact IH']. cbn [app]. constructor; [|exact IH'].
  intros I. apply in_app_or in I as [I|I]; [apply N, (drop_none_some E a), I|apply (Ap a); [left; reflexivity|exact I]].
Qed.
Lemma nodup_keep {A} (E ni : list A) : NoDup E -> NoDup ni -> (forall p, In p E -> ~ In p ni) -> NoDup (E ++ ni).
Proof.
  intros D1 D2 Ap. induction E as [|p E IH]; cbn [app]; [exact D2|]. inversion D1 as [|? ? N D1']; subst. constructor; [|apply IH; [exact D1'|intros q Iq; apply Ap; right; exact Iq]].
  intros I. apply in_app_or in I as [I|I]; [apply N, I|apply (Ap p); [left; reflexivity|exact I]].
Qed.
Lemma nodup_filter (f : option nat -> bool) l : NoDup l -> NoDup (filter f l).
Proof. apply NoDup_filter. Qed.

(** ** Linking *)
Lemma push_next_nexts h a b x : nexts (push_next h a b) x = if Nat.eqb x a && (x <? length h) then nexts h x ++ [b] else nexts h x.
Proof.
  unfold push_next. rewrite set_nexts_nexts. destruct (Nat.eqb_spec x a) as [->|N]; cbn [andb]; [|reflexivity].
  destruct (Nat.ltb_spec a (length h)) as [L|L]; [reflexivity|]. unfold nexts. apply nth_error_None in L. rewrite L. reflexivity.
Qed.
Lemma link_row h a B x : nexts (fold_left (fun h i => match i with None => h | Some b => push_next h a b end) B h) x =
  (if Nat.eqb x a && (x <? length h) then nexts h x ++ somes B else nexts h x) /\
  length (fold_left (fun h i => match i with None => h | Some b => push_next h a b end) B h) = length h.
Proof.
  revert h. induction B as [|[b|] B IH]; intros h; cbn [fold_left].
  - split; [|reflexivity]. cbn. rewrite app_nil_r. destruct (_ && _); reflexivity.
  - destruct (IH (push_next h a b)) as [I1 I2]. assert (Ln : length (push_next h a b) = length h) by apply (adds_next h a b).
    rewrite I1, I2, Ln, push_next_nexts. change (somes (Some b :: B)) with (b :: somes B). split; [|reflexivity].
    destruct (Nat.eqb x a && (x <? length h)); [rewrite <- app_assoc; reflexivity|reflexivity].
  - apply IH.
Qed.
Lemma link_nexts A : forall h B x, NoDup (somes A) ->
  nexts (link push_next h A B) x = if existsb (Nat.eqb x) (somes A) && (x <? length h) then nexts h x ++ somes B else nexts h x.
Proof.
  unfold link. induction A as [|[a|] A IH]; intros h B x D; cbn [fold_left]; [reflexivity| |exact (IH h B x D)].
  change (somes (Some a :: A)) with (a :: somes A) in *. inversion D as [|? ? N D']; subst. rewrite (IH _ B x D').
  destruct (link_row h a B x) as [L1 L2]. rewrite L1, L2. cbn [existsb]. destruct (Nat.eqb_spec x a) as [->|Nx]; cbn [orb andb]; [|reflexivity].
  destruct (existsb (Nat.eqb a) (somes A)) eqn:E; [apply existsb_nat in E; contradiction|]. reflexivity.
Qed.
Lemma link_next_simple h A B : simple h -> NoDup (somes A) -> NoDup (somes B) -> (forall a b, In (Some a) A -> In (Some b) B -> ~ In b (nexts h a)) ->
  (forall b, In (Some b) B -> b < length h) -> simple (link push_next h A B).
Proof.
  intros S DA DB Ap Be x. destruct (S x) as [S1 S2]. rewrite (proj1 (link_spec push_next h A B adds_next)), (link_nexts A h B x DA).
  destruct (existsb (Nat.eqb x) (somes A) && (x <? length h)) eqn:E; [|split; assumption]. apply andb_true_iff in E as [E _]. apply existsb_nat, somes_in in E. split.
  - apply nodup_app; [exact S1|exact DB|]. intros b Ib Ib'. apply (Ap x b E); [apply somes_in, Ib'|exact Ib].
  - intros b Ib. apply in_app_or in Ib as [Ib|Ib]; [apply S2, Ib|apply Be, somes_in, Ib].
Qed.
Lemma push_new_simple h a b : simple h -> b < length h -> simple (push_new h a b).
Proof.
  intros S Lb. unfold push_new. destruct (existsb (Nat.eqb b) (nexts h a)) eqn:E; [exact S|]. intros x. destruct (S x) as [S1 S2].
  rewrite (proj1 (adds_next h a b)), push_next_nexts. destruct (Nat.eqb_spec x a) as [->|N]; cbn [andb]; [|split; assumption].
  destruct (a <? length h); [|split; assumption]. split.
  - apply nodup_app; [exact S1|constructor; [intros []|constructor]|]. intros y Iy [<-|[]]. apply existsb_nat in Iy. congruence.
  - intros y Iy. apply in_app_or in Iy as [Iy|[<-|[]]]; [apply S2, Iy|exact Lb].
Qed.
Lemma link_new_simple A : forall h B, simple h -> (forall b, In (Some b) B -> b < length h) -> simple (link push_new h A B).
Proof.
  unfold link. induction A as [|[a|] A IH]; intros h B S Be; cbn [fold_left]; [exact S| |apply IH; assumption].
  assert (K : simple (fold_left (fun h i => match i with None => h | Some b => push_new h a b end) B h) /\
    length (fold_left (fun h i => match i with None => h | Some b => push_new h a b end) B h) = length h).
  { clear IH. revert h S Be. induction B as [|[b|] B IHB]; intros h S Be; cbn [fold_left]; [split; [exact S|reflexivity]| |apply IHB; [exact S|intros x Ix; apply Be; right; exact Ix]].
    assert (Ln : length (push_new h a b) = length h) by apply (adds_new h a b).
    destruct (IHB (push_new h a b)) as [I1 I2]; [apply push_new_simple; [exact S|apply Be; left; reflexivity]|intros x Ix; rewrite Ln; apply Be; right; exact Ix|].
    split; [exact I1|rewrite I2; exact Ln]. }
  destruct K as [K1 K2]. apply IH; [exact K1|]. intros b Ib. rewrite K2. apply Be, Ib.
Qed.

(** ** Allocating *)
Lemma alloc_nexts h e x : nexts (h ++ [mkNode e []]) x = nexts h x.
Proof.
  destruct (le_lt_dec (length h) x) as [L|L]; [|apply nexts_app, L]. unfold nexts at 2. apply nth_error_None in L as L'. rewrite L'.
  unfold nexts. destruct (Nat.eq_dec x (length h)) as [->|N]; [rewrite nth_error_app2, Nat.sub_diag by lia; reflexivity|].
  replace (nth_error (h ++ [mkNode e []]) x) with (@None node); [reflexivity|]. symmetry. apply nth_error_None. rewrite app_length. cbn. lia.
Qed.
Lemma grown_simple h h' : simple h -> (forall x, nexts h' x = nexts h x) -> length h <= length h' -> simple h'.
Proof. intros S E L x. rewrite E. destruct (S x) as [S1 S2]. split; [exact S1|]. intros b Ib. specialize (S2 b Ib). lia. Qed.
Lemma alloc_simple h e : simple h -> simple (h ++ [mkNode e []]).
Proof. intros S. apply (grown_simple h); [exact S|apply alloc_nexts|rewrite app_length; lia]. Qed.

(** ** Cloning *)
Lemma clone_tg_nexts fuel : forall origin hm x, nexts (fst (clone_tg fuel origin hm)) x = nexts (fst hm) x.
Proof.
  induction fuel as [|f IH]; intros origin [h m] x; cbn [clone_tg]; [reflexivity|]. unfold alloc.
  set (e := match nth_error h origin with Some n => n_elem n | None => EProse [] end). cbn [fst]. rewrite <- (alloc_nexts h e x).
  assert (Loop : forall l h1 m1, nexts (fst (fold_left (fun hm n => match cget n (snd hm) with Some _ => hm | None => clone_tg f n hm end) l (h1, m1))) x = nexts h1 x).
  { induction l as [|n l IHl]; intros h1 m1; cbn [fold_left]; [reflexivity|]. cbn [snd]. destruct (cget n m1); [apply IHl|].
    pose proof (IH n (h1, m1) x) as X. destruct (clone_tg f n (h1, m1)) as [h2 m2]. cbn [fst] in X. rewrite <- X. apply IHl. }
  apply Loop.
Qed.
Lemma clone_entries_nexts fuel i : forall hm x, nexts (fst (fold_left (fun hm p => match p with None => hm | Some a => clone_tg fuel a hm end) i hm)) x = nexts (fst hm) x.
Proof. induction i as [|[a|] i IH]; intros hm x; cbn [fold_left]; [reflexivity| |apply IH]. rewrite IH. apply clone_tg_nexts. Qed.
Lemma clone_nexts_somes m l : clone_nexts m l = somes (clone_points m (map Some l)).
Proof. unfold clone_nexts, somes, clone_points. induction l as [|a l IH]; cbn [flat_map map]; [reflexivity|]. rewrite IH. reflexivity. Qed.
Lemma clone_points_nodup m i : NoDup (keys m) -> NoDup (vals m) -> (forall a, In (Some a) i -> In a (keys m)) -> NoDup i -> NoDup (clone_points m i).
Proof.
  intros K V Ck D. pose proof (clone_points_nd m i K V (nodup_somes i D)) as S.
  induction i as [|p i IH]; [constructor|]. inversion D as [|? ? N D']; subst. cbn [clone_points map] in *.
  assert (Q : NoDup (somes (clone_points m i))) by (apply clone_points_nd; [exact K|exact V|apply nodup_somes, D']).
  constructor; [|apply IH; [intros a Ia; apply Ck; right; exact Ia|exact D'|exact Q]].
  destruct p as [a|].
  - destruct (proj2 (cget_in a m) (Ck a (or_introl eq_refl))) as (v & G). rewrite G in *. change (NoDup (v :: somes (clone_points m i))) in S. inversion S as [|? ? Nv _]; subst.
    intros I. apply Nv, somes_in, I.
  - intros I. apply in_map_iff in I as ([b|] & E & I); [|contradiction]. destruct (proj2 (cget_in b m) (Ck b (or_intror I))) as (v & G). congruence.
Qed.
Lemma clone_simple h R i o : closed h R -> below h R -> (forall a, In (Some a) i -> In a R) -> simple h -> NoDup i -> NoDup (somes o) ->
  let '(i', o', h') := clone_graph h i o in simple h' /\ NoDup i' /\ NoDup (somes o').
Proof.
  intros C B S Sm Di Do. unfold clone_graph.
  destruct (clone_entries h (fun a => In a R) C B i S) with (h := h) (m := @nil (nat * nat)) as (A1 & A2 & A3 & A4 & A5).
  - split; [split; [lia|reflexivity]|constructor|constructor|intros k v []].
  - intros a b [].
  - cbn zeta in *. assert (Nx := fun x => clone_entries_nexts (Datatypes.S (length h)) i (h, []) x).
    destruct (fold_left _ i (h, [])) as [h1 m]. cbn [fst snd] in *. destruct A1 as [Fr Ck Cv Ci].
    destruct (relink_spec h m m h1 Cv) as (B1 & B2 & B3 & B4 & B5).
    + intros k v I. destruct (Ci k v I) as (Pk & L & _). split; [apply B, Pk|lia].
    + exact Fr.
    + cbn zeta in *. set (h2 := fold_left _ m h1) in *. split; [|split; [apply clone_points_nodup; assumption|apply clone_points_nd; assumption]].
      intros x. destruct (in_dec Nat.eq_dec x (vals m)) as [Iv|Nv].
      * apply in_map_iff in Iv as ((k & v) & E & I). cbn in E. subst v. destruct (Ci k x I) as (_ & L & _). rewrite (B5 k x I) by lia.
        rewrite clone_nexts_somes. split; [apply clone_points_nd; [exact Ck|exact Cv|rewrite somes_map; apply Sm]|].
        intros b Ib. apply somes_in in Ib. unfold clone_points in Ib. apply in_map_iff in Ib as ([y|] & E & _); [|discriminate].
        apply (cget_pair _ _ _ Ck) in E. destruct (Ci _ _ E) as (_ & ? & _). lia.
      * rewrite (B4 x Nv), Nx. destruct (Sm x) as [S1 S2]. split; [exact S1|]. intros b Ib. specialize (S2 b Ib). lia.
Qed.

(** ** Concatenation *)
Lemma concat_simple E F ni no h R : closed h R -> (forall a, In (Some a) E -> In a R) -> (forall a, In (Some a) F -> In a R) ->
  (forall a, In (Some a) ni -> ~ In a R /\ a < length h) -> (forall a, In (Some a) no -> ~ In a R) ->
  simple h -> NoDup E -> NoDup (somes F) -> NoDup ni -> NoDup (somes no) ->
  let '(E', F', h') := concat_graphs E F ni no h in simple h' /\ NoDup E' /\ NoDup (somes F').
Proof.
  intros C SE SF SN SO Sm D1 D2 D3 D4. unfold concat_graphs. split; [|split].
  - apply link_next_simple; [exact Sm|exact D2|apply nodup_somes, D3| |intros b Ib; apply SN, Ib].
    intros a b Ia Ib I. apply (proj1 (SN b Ib)). eapply C; [apply SF, Ia|exact I].
  - destruct (has_empty E); [|exact D1]. apply nodup_join; [exact D1|exact D3|]. intros a Ia Ib. apply (proj1 (SN a Ib)), SE, Ia.
  - rewrite somes_app, somes_drop. apply nodup_app; [destruct (has_empty ni); [exact D2|constructor]|exact D4|].
    intros a Ia Ib. apply somes_in in Ib. apply (SO a Ib). apply SF, somes_in. destruct (has_empty ni); [exact Ia|destruct Ia].
Qed.

Lemma concat_ends E F ni no h (R : list nat) : (forall a, In (Some a) F -> In a R) -> (forall a, In (Some a) no -> ~ In a R) -> NoDup F -> NoDup no ->
  let '(_, F', _) := concat_graphs E F ni no h in NoDup F'.
Proof.
  intros SF SO D1 D2. unfold concat_graphs. apply nodup_keep; [destruct (has_empty ni); [exact D1|constructor]|apply nodup_filter, D2|].
  intros [a|] I1 I2; [|exact (drop_none_none no I2)]. apply (proj1 (drop_none_some _ _)) in I2. apply (SO a I2), SF. destruct (has_empty ni); [exact I1|destruct I1].
Qed.

(** ** Chains *)
Section Chains.
  Variable W : elem -> list Z -> Prop.
  Variables (i o : points) (h0 : heap) (S0 : list nat).
  Hypothesis C0 : closed h0 S0.
  Hypothesis B0 : below h0 S0.
  Hypothesis I0 : forall a, In (Some a) i -> In a S0.
  Hypothesis N0 : In None i -> In None o.
  Hypothesis Di : NoDup i.
  Hypothesis Do : NoDup (somes o).
  Lemma clone_again_simple h : frame h0 h -> simple h -> let '(i', o', h') := clone_graph h i o in simple h' /\ NoDup i' /\ NoDup (somes o').
  Proof.
    intros F Sm. apply (clone_simple h S0); [|intros a Ia; specialize (B0 a Ia); destruct F; lia|exact I0|exact Sm|exact Di|exact Do].
    eapply agree_closed; [|exact C0]. intros a Ia. apply (proj2 F), B0, Ia.
  Qed.
  Lemma chain_f_in h tgs E F R a : chain W i o h0 S0 h tgs E F R -> In (Some a) F -> In a R.
  Proof.
    intros K Ia. apply (ch_f _ _ _ _ _ _ _ _ _ _ K) in Ia. destruct (has_empty i).
    - destruct Ia as (t & It & Ia). eapply (ch_o _ _ _ _ _ _ _ _ _ _ K); eassumption.
    - eapply (ch_o _ _ _ _ _ _ _ _ _ _ K); [apply last_in, (ch_ne _ _ _ _ _ _ _ _ _ _ K)|exact Ia].
  Qed.
  Lemma chain_loop_simple n : forall h tgs E F R, chain W i o h0 S0 h tgs E F R -> simple h -> NoDup E -> NoDup (somes F) ->
    let '(tgs', E', F', h') := chain_loop n i o tgs E F h in simple h' /\ NoDup E' /\ NoDup (somes F').
  Proof.
    induction n as [|n IH]; intros h tgs E F R K Sm D1 D2; cbn [chain_loop]; [split; [exact Sm|split; assumption]|].
    pose proof (chain_step W i o h0 S0 C0 B0 I0 N0 h tgs E F R K) as St. pose proof (ch_frame _ _ _ _ _ _ _ _ _ _ K) as Fr.
    pose proof (clone_again W i o h0 S0 C0 B0 I0 h Fr) as Cl. pose proof (clone_again_simple h Fr Sm) as Al.
    destruct (clone_graph h i o) as [[ni no] h1]. destruct Cl as (R2 & K1 & K2 & K3 & _ & _ & K6 & K7 & _). destruct Al as (Al1 & Al2 & Al3).
    assert (Co : let '(E', F', h') := concat_graphs E F ni no h1 in simple h' /\ NoDup E' /\ NoDup (somes F')).
    { apply (concat_simple E F ni no h1 R).
      - eapply agree_closed; [|apply (ch_closed _ _ _ _ _ _ _ _ _ _ K)]. intros a Ia. apply (proj2 K1), (ch_in _ _ _ _ _ _ _ _ _ _ K a Ia).
      - apply (ch_e _ _ _ _ _ _ _ _ _ _ K).
      - intros a Ia. eapply chain_f_in; eassumption.
      - intros a Ia. apply K6, K3 in Ia. split; [|lia]. intros X. apply (ch_in _ _ _ _ _ _ _ _ _ _ K) in X. lia.
      - intros a Ia X. apply K7, K3 in Ia. apply (ch_in _ _ _ _ _ _ _ _ _ _ K) in X. lia.
      - exact Al1.
      - exact D1.
      - exact D2.
      - exact Al2.
      - exact Al3. }
    destruct (concat_graphs E F ni no h1) as [[E' F'] h2]. destruct Co as (Co1 & Co2 & Co3).
    destruct St as (R' & K'). exact (IH h2 _ E' F' R' K' Co1 Co2 Co3).
  Qed.
  Lemma chain_simple n : simple h0 -> let '(tgs, E, F, h) := chain_graph i o n h0 in simple h /\ NoDup E /\ NoDup (somes F).
  Proof.
    intros Sm. destruct n as [|n]; cbn [chain_graph]; [split; [exact Sm|split; constructor]|].
    pose proof (chain_first W i o h0 S0 C0 B0 I0 N0) as K. pose proof (clone_again_simple h0 (conj (le_n _) (fun _ _ => eq_refl)) Sm) as Al.
    destruct (clone_graph h0 i o) as [[ci co] h1]. destruct K as (R & K). destruct Al as (Al1 & Al2 & Al3).
    exact (chain_loop_simple n h1 _ ci co R K Al1 Al2 Al3).
  Qed.
End Chains.

(** ** Repetitions *)
Section Repeats.
  Variable W : elem -> list Z -> Prop.
  Variable opts : tgoptions.
  Lemma rep_chain lo st R i o L n : gr W lo (t_heap st) R i o L -> NoDup i -> NoDup (somes o) -> simple (t_heap st) ->
    let '(tgs, E, F, h) := chain_graph i o (S n) (t_heap st) in simple h /\ NoDup E /\ NoDup (somes F) /\
      (forall b, In (Some b) E -> b < length h) /\ (forall b, In (Some b) (fst (last tgs ([], []))) -> b < length h).
  Proof.
    intros G D1 D2 Sm.
    pose proof (chain_simple W i o (t_heap st) (seen_from (t_heap st) i) (s0_closed st i) (s0_below W lo st R i o L G) (s0_i st i) (n_ok W lo st R i o L G) D1 D2 (S n) Sm) as A.
    pose proof (chain_spec W i o (t_heap st) (seen_from (t_heap st) i) (s0_closed st i) (s0_below W lo st R i o L G) (s0_i st i) (n_ok W lo st R i o L G) n) as Ch.
    destruct (chain_graph i o (S n) (t_heap st)) as [[[tgs E] F] h]. destruct A as (A1 & A2 & A3). destruct Ch as ((R' & K) & _).
    split; [exact A1|]. split; [exact A2|]. split; [exact A3|]. split.
    - intros b Ib. apply (ch_in _ _ _ _ _ _ _ _ _ _ K), (ch_e _ _ _ _ _ _ _ _ _ _ K), Ib.
    - intros b Ib. destruct (ch_last _ _ _ _ _ _ _ _ _ _ K) as (Rl & L1 & _ & L3 & _). apply (ch_in _ _ _ _ _ _ _ _ _ _ K), L1, L3, Ib.
  Qed.
  Lemma rep_build_simple lo st R i o L mn mx I O st' : gr W lo (t_heap st) R i o L -> lo <= length (t_heap st) -> (0 <= mn)%Z -> (mx = inf \/ (0 <= mx)%Z) ->
    NoDup i -> NoDup (somes o) -> simple (t_heap st) -> rep_build opts mn mx i o st = T_ok I O st' ->
    simple (t_heap st') /\ NoDup I /\ NoDup O.
  Proof.
    intros G Lo Mn Mx D1 D2 Sm. unfold rep_build.
    destruct (Z.eqb_spec mn 0) as [M0|M0].
    - destruct (Z.eqb_spec mx 1) as [X1|X1].
      + intros E. injection E as <- <- <-. split; [exact Sm|]. split; [apply append_one_nodup|apply append_one_nodup].
      + destruct (Z.eqb_spec mx inf) as [X2|X2].
        * intros E. injection E as <- <- <-. cbn [with_heap t_heap]. split; [|split; [apply append_one_nodup|apply append_one_nodup]].
          apply link_new_simple; [exact Sm|]. intros b Ib. apply append_nodes_in in Ib as [[]|Ib]. apply (proj1 (drop_none_some _ _)) in Ib.
          apply (gr_in _ _ _ _ _ _ _ G), (gr_i _ _ _ _ _ _ _ G), Ib.
        * destruct (Z.ltb_spec (o_threshold opts) mx) as [T|T]; [discriminate|].
          destruct (reserve_clones opts mx i st) as [st1|] eqn:Er; [|discriminate].
          assert (X3 : (0 <= mx)%Z) by (destruct Mx; [contradiction|assumption]).
          destruct (Z.to_nat mx) as [|n].
          -- cbn [chain_graph]. intros E. injection E as <- <- <-. cbn [with_heap t_heap fold_left]. split; [exact Sm|]. split; constructor; (intros [] || constructor).
          -- pose proof (rep_chain lo st R i o L n G D1 D2 Sm) as B. destruct (chain_graph i o (S n) (t_heap st)) as [[[tgs chi] cho] h1]. destruct B as (B1 & B2 & B3 & _).
             intros E. injection E as <- <- <-. cbn [with_heap t_heap]. split; [exact B1|]. split; [apply append_one_nodup|]. apply append_all_nodup. constructor; [intros []|constructor].
    - destruct (Z.eqb_spec mx 1) as [X1|X1].
      + destruct (Z.eqb_spec mn 1) as [M1|M1]; [|discriminate]. intros E. injection E as <- <- <-. split; [exact Sm|]. split; [apply append_zero_nodup|apply append_zero_nodup].
      + destruct (Z.eqb_spec mx inf) as [X2|X2].
        * destruct (Z.ltb_spec (o_threshold opts) mn) as [T|T]; [discriminate|].
          destruct (reserve_clones opts mn i st) as [st1|] eqn:Er; [|discriminate]. destruct (to_nat_S mn) as (n & En); [lia|]. rewrite En.
          pose proof (rep_chain lo st R i o L n G D1 D2 Sm) as B. destruct (chain_graph i o (S n) (t_heap st)) as [[[tgs chi] cho] h1]. destruct B as (B1 & B2 & B3 & B4 & B5).
          intros E. injection E as <- <- <-. cbn [with_heap t_heap]. split; [|split; [apply append_zero_nodup|apply append_zero_nodup]]. apply link_new_simple; [exact B1|exact B5].
        * destruct (Z.ltb_spec mx mn) as [M2|M2]; [discriminate|]. destruct (Z.ltb_spec (o_threshold opts) mx) as [T|T]; [discriminate|].
          cbv zeta. set (first := if (1 <? mn)%Z then _ else _). assert (Ef : first = first) by reflexivity. unfold first at 2 in Ef.
          destruct first as [[[fi fo] st1]|]; [|discriminate]. symmetry in Ef.
          destruct (build_first W opts lo st R i o L mn G Lo st1 fi fo ltac:(lia) ltac:(lia) Ef)
            as (R1 & F1 & F2 & F3 & F4 & F5 & F6 & F7 & F8 & F9 & F10 & F11 & F12 & F13).
          assert (P1 : simple (t_heap st1)).
          { destruct (Z.ltb_spec 1 mn) as [M3|M3].
            - destruct (reserve_clones opts mn i st) as [st1'|] eqn:Er; [|discriminate]. destruct (to_nat_S mn) as (n & En); [lia|]. rewrite En in Ef.
              pose proof (rep_chain lo st R i o L n G D1 D2 Sm) as B. destruct (chain_graph i o (S n) (t_heap st)) as [[[tgs chi] cho] h1].
              injection Ef as <- <- <-. apply B.
            - injection Ef as <- <- <-. exact Sm. }
          clear Ef. destruct (Z.ltb_spec 0 (mx - mn)) as [Dm|Dm].
          2: { intros E. injection E as <- <- <-. split; [exact P1|]. split; [apply append_zero_nodup|apply append_zero_nodup]. }
          destruct (reserve_clones opts (mx - mn) i st1) as [st2|] eqn:Er; [|discriminate].
          assert (G1 : gr W lo (t_heap st1) R i o L).
          { eapply gr_agree; [exact G| |exact F3]. intros a Ia. apply F4, (gr_in _ _ _ _ _ _ _ G), Ia. }
          assert (E1 : t_heap st2 = t_heap st1) by (apply (reserve_clones_spec opts (mx - mn) i st1 st2 R Er)). rewrite E1.
          destruct (to_nat_S (mx - mn)) as (n & En); [lia|]. rewrite En.
          pose proof (rep_chain lo st1 R i o L n G1 D1 D2 P1) as B.
          destruct (chain_graph i o (S n) (t_heap st1)) as [[[tgs chi] cho] h2]. destruct B as (B1 & B2 & B3 & B4 & B5). intros E. injection E as <- <- <-. cbn [with_heap t_heap].
          split; [apply link_new_simple; [exact B1|exact B4]|]. split; [apply append_zero_nodup|]. apply append_all_nodup, append_zero_nodup.
  Qed.
End Repeats.

(** ** The machine *)
Section Machine.
  Variable g0 : grammar.
  Variable opts : tgoptions.
  Notation d := (o_numvals opts).
  Notation g := (meant d g0).
  Notation W := (in_elem g).
  Hypothesis Dn : distinct_names g0.
  Hypothesis Wf : forall r, occ_rep g0 r -> wf_rep r.
  Notation hp := t_heap.
  Definition buf_simple (st : tgstate) : Prop := simple (hp st) /\ forall n bi bo, In (n, (bi, bo)) (t_buf st) -> NoDup bi /\ NoDup (somes bo).
  (** A clone may have the empty node as end point more than once; a repetition drops
      the copies. *)
  Definition fair (r : tres) : Prop := match r with T_ok i o st => NoDup i /\ NoDup (somes o) /\ buf_simple st | _ => True end.
  Definition neat (r : tres) : Prop := match r with T_ok i o st => NoDup i /\ NoDup o /\ buf_simple st | _ => True end.
  Lemma neat_fair r : neat r -> fair r.
  Proof. destruct r as [i o st| | |]; cbn; [|tauto..]. intros (N1 & N2 & N3). split; [exact N1|]. split; [apply nodup_somes, N2|exact N3]. Qed.
  Lemma done_in st0 st R i o L a : done g0 opts st0 st R i o L -> In (Some a) i \/ In (Some a) o -> In a R.
  Proof. intros Do [I|I]; [apply (gr_i _ _ _ _ _ _ _ (do_gr _ _ _ _ _ _ _ _ Do)), I|apply (gr_o _ _ _ _ _ _ _ (do_gr _ _ _ _ _ _ _ _ Do)), I]. Qed.
  Lemma done_range st0 st R i o L a : done g0 opts st0 st R i o L -> In a R -> length (hp st0) <= a < length (hp st).
  Proof. intros Do I. apply (gr_in _ _ _ _ _ _ _ (do_gr _ _ _ _ _ _ _ _ Do)), I. Qed.

  Section Traverse.
    Variable f : rep -> tgstate -> tres.
    Definition f_neat (r : rep) : Prop := forall st, buf_ok g0 opts st -> buf_simple st -> neat (f r st).
    Lemma cat_rest_neat c : (forall r, In r c -> f_ok g0 opts f r) -> (forall r, In r c -> f_neat r) -> forall st0 st R ci co L, buf_ok g0 opts st0 ->
      done g0 opts st0 st R ci co L -> (solid g0 opts -> ci <> []) -> neat (T_ok ci co st) -> neat (cat_rest f c ci co st).
    Proof.
      induction c as [|r c IH]; intros F FT st0 st R ci co L B Do Ne (T1 & T2 & T3); cbn [cat_rest]; [split; [exact T1|split; assumption]|].
      pose proof (done_buf_ok _ _ _ _ _ _ _ _ B Do) as B1.
      pose proof (F r (or_introl eq_refl) st B1) as K. pose proof (FT r (or_introl eq_refl) st B1 T3) as KT.
      destruct (f r st) as [ri ro st1| | |]; cbn [good] in K; [|exact Logic.I..]. destruct K as (R2 & D2 & Ne2). destruct KT as (K1 & K2 & K3 & K4).
      pose proof (done_cat _ _ _ _ _ _ _ _ _ _ _ _ _ Do D2) as D3.
      assert (Co : let '(E', F', h') := concat_graphs ci co ri ro (hp st1) in simple h' /\ NoDup E' /\ NoDup (somes F')).
      { apply (concat_simple ci co ri ro (hp st1) R).
        - eapply agree_closed; [|apply (gr_closed _ _ _ _ _ _ _ (do_gr _ _ _ _ _ _ _ _ Do))]. intros a Ia. apply (proj2 (do_frame _ _ _ _ _ _ _ _ D2)), (done_range _ _ _ _ _ _ _ Do Ia).
        - intros a Ia. apply (done_in _ _ _ _ _ _ _ Do). auto.
        - intros a Ia. apply (done_in _ _ _ _ _ _ _ Do). auto.
        - intros a Ia. pose proof (done_range _ _ _ _ _ _ _ D2 (done_in _ _ _ _ _ _ _ D2 (or_introl Ia))) as X. split; [|lia]. intros Y. apply (done_range _ _ _ _ _ _ _ Do) in Y. lia.
        - intros a Ia Y. pose proof (done_range _ _ _ _ _ _ _ D2 (done_in _ _ _ _ _ _ _ D2 (or_intror Ia))) as X. apply (done_range _ _ _ _ _ _ _ Do) in Y. lia.
        - exact K3.
        - exact T1.
        - apply nodup_somes, T2.
        - exact K1.
        - apply nodup_somes, K2. }
      assert (Ce : let '(_, F', _) := concat_graphs ci co ri ro (hp st1) in NoDup F').
      { apply (concat_ends ci co ri ro (hp st1) R); [| |exact T2|exact K2].
        - intros a Ia. apply (done_in _ _ _ _ _ _ _ Do). auto.
        - intros a Ia Y. pose proof (done_range _ _ _ _ _ _ _ D2 (done_in _ _ _ _ _ _ _ D2 (or_intror Ia))) as X. apply (done_range _ _ _ _ _ _ _ Do) in Y. lia. }
      destruct (concat_graphs ci co ri ro (hp st1)) as [[ci' co'] h]. destruct (D3 Ne Ne2) as [D3' Ne3]. destruct Co as (Co1 & Co2 & _).
      apply (IH (fun x I => F x (or_intror I)) (fun x I => FT x (or_intror I)) st0 _ _ _ _ _ B D3' Ne3).
      split; [exact Co2|]. split; [exact Ce|]. split; [exact Co1|exact K4].
    Qed.
    Lemma cat_neat c : (forall r, In r c -> f_ok g0 opts f r) -> (forall r, In r c -> f_neat r) -> forall st, buf_ok g0 opts st -> buf_simple st -> neat (cat_with f c st).
    Proof.
      intros F FT st B Bn. destruct c as [|r c]; cbn [cat_with]; [exact Logic.I|].
      pose proof (F r (or_introl eq_refl) st B) as K. pose proof (FT r (or_introl eq_refl) st B Bn) as KT.
      destruct (f r st) as [ri ro st1| | |]; cbn [good] in K; [|exact Logic.I..]. destruct K as (R & Do & Ne).
      exact (cat_rest_neat c (fun x I => F x (or_intror I)) (fun x I => FT x (or_intror I)) st st1 R ri ro _ B Do Ne KT).
    Qed.
    Lemma join_nodup i ci : NoDup i -> NoDup ci -> (forall a, In (Some a) i -> ~ In (Some a) ci) -> NoDup (join_points i ci).
    Proof.
      intros D1 D2 Ap. unfold join_points. destruct (has_empty i) eqn:E.
      - apply nodup_keep; [exact D1|apply nodup_filter, D2|]. intros [a|] I1 I2; [apply (proj1 (drop_none_some _ _)) in I2; exact (Ap a I1 I2)|exact (drop_none_none ci I2)].
      - apply has_empty_no in E. apply nodup_keep; [exact D1|exact D2|]. intros [a|] I1 I2; [exact (Ap a I1 I2)|contradiction].
    Qed.
    Lemma alt_loop_neat a : (forall c r, In c a -> In r c -> f_ok g0 opts f r) -> (forall c r, In c a -> In r c -> f_neat r) -> forall st0 st R i o L, buf_ok g0 opts st0 ->
      done g0 opts st0 st R i o L -> neat (T_ok i o st) -> neat (alt_loop f a i o st).
    Proof.
      induction a as [|c a IH]; intros F FT st0 st R i o L B Do (T1 & T2 & T3); cbn [alt_loop]; [split; [exact T1|split; assumption]|].
      pose proof (done_buf_ok _ _ _ _ _ _ _ _ B Do) as B1.
      pose proof (cat_good g0 opts f c (fun r I => F c r (or_introl eq_refl) I) st B1) as K.
      pose proof (cat_neat c (fun r I => F c r (or_introl eq_refl) I) (fun r I => FT c r (or_introl eq_refl) I) st B1 T3) as KT.
      destruct (cat_with f c st) as [ci co st1| | |]; cbn [good] in K; [|exact Logic.I..]. destruct K as (R2 & D2 & _). destruct KT as (K1 & K2 & K3).
      apply (IH (fun c' r I => F c' r (or_intror I)) (fun c' r I => FT c' r (or_intror I)) st0 st1 _ _ _ _ B (done_or _ _ _ _ _ _ _ _ _ _ _ _ _ Do D2)).
      assert (Ap : forall x, In x R -> ~ In x R2) by (intros x Ix Iy; apply (done_range _ _ _ _ _ _ _ Do) in Ix; apply (done_range _ _ _ _ _ _ _ D2) in Iy; lia).
      split; [|split; [|exact K3]].
      - apply join_nodup; [exact T1|exact K1|]. intros x Ix Iy. apply (Ap x); [apply (done_in _ _ _ _ _ _ _ Do); auto|apply (done_in _ _ _ _ _ _ _ D2); auto].
      - apply join_nodup; [exact T2|exact K2|]. intros x Ix Iy. apply (Ap x); [apply (done_in _ _ _ _ _ _ _ Do); auto|apply (done_in _ _ _ _ _ _ _ D2); auto].
    Qed.
    Lemma alt_neat a : (forall c r, In c a -> In r c -> f_ok g0 opts f r) -> (forall c r, In c a -> In r c -> f_neat r) -> forall st, buf_ok g0 opts st -> buf_simple st -> neat (alt_with f a st).
    Proof.
      intros F FT st B Bn. unfold alt_with. apply (alt_loop_neat a F FT st st [] [] [] l_none B (done_start g0 opts st)).
      split; [constructor|]. split; [constructor|exact Bn].
    Qed.
  End Traverse.

  (** ** Terminals *)
  Lemma reserve_buf n st st1 h1 : reserve opts n st = Some st1 -> buf_simple st -> simple h1 -> buf_simple (with_heap st1 h1).
  Proof. intros E [S B] S1. apply reserve_spec in E as (E1 & E2 & _). split; [exact S1|]. cbn [with_heap t_buf]. rewrite E2. exact B. Qed.
  Lemma one_node_neat e st : buf_simple st -> fair (one_node opts e st).
  Proof.
    intros Bn. unfold one_node. destruct (reserve opts 1 st) as [st1|] eqn:E; [|exact Logic.I]. unfold alloc.
    pose proof (reserve_spec _ _ _ _ E) as (E1 & _ & _). split; [constructor; [intros []|constructor]|]. split; [cbn; constructor; [intros []|constructor]|].
    apply (reserve_buf 1 st st1 _ E Bn). rewrite E1. apply alloc_simple, Bn.
  Qed.
  Lemma curr_of_simple s r h : let '(curr, h1) := curr_of s r h in
    (forall x, nexts h1 x = nexts h x) /\ length h <= length h1 /\ NoDup curr /\ curr <> [] /\ (forall a, In a curr -> length h <= a < length h1).
  Proof.
    unfold curr_of. destruct (((((97 <=? r) && (r <=? 122)) || ((65 <=? r) && (r <=? 90))) && negb s)%Z); unfold alloc; rewrite ?app_length; cbn [length].
    - split; [intros x; rewrite !alloc_nexts; reflexivity|]. split; [lia|]. split; [constructor; [intros [X|[]]; lia|constructor; [intros []|constructor]]|].
      split; [discriminate|]. intros a [<-|[<-|[]]]; lia.
    - split; [apply alloc_nexts|]. split; [lia|]. split; [constructor; [intros []|constructor]|]. split; [discriminate|]. intros a [<-|[]]; lia.
  Qed.
  Lemma deflate_simple s vs : forall prevs entry h, prevs <> [] -> NoDup prevs -> simple h ->
    let '(i, o, h') := deflate_chars s vs prevs entry h in simple h' /\ i = entry /\ NoDup (somes o).
  Proof.
    induction vs as [|r vs IH]; intros prevs entry h Np D Sm; [cbn [deflate_chars]; split; [exact Sm|split; [reflexivity|rewrite somes_map; exact D]]|].
    rewrite deflate_step. pose proof (curr_of_simple s r h) as C. destruct (curr_of s r h) as [curr h1]. destruct C as (C1 & C2 & C3 & C4 & C5).
    destruct prevs as [|p prevs]; [contradiction|]. apply IH; [exact C4|exact C3|]. apply link_next_simple.
    - apply (grown_simple h); assumption.
    - rewrite somes_map. exact D.
    - rewrite somes_map. exact C3.
    - intros a b _ Ib I. apply in_map_iff in Ib as (y & Q & Ib). injection Q as ->. rewrite C1 in I. apply (proj2 (Sm a)) in I. apply C5 in Ib. lia.
    - intros b Ib. apply in_map_iff in Ib as (y & Q & Ib). injection Q as ->. apply C5, Ib.
  Qed.
  Lemma some_nodup l : NoDup l -> NoDup (map (@Some nat) l).
  Proof.
    induction 1 as [|a l N D IH]; cbn [map]; constructor; [|exact IH]. intros I. apply in_map_iff in I as (y & Q & I). injection Q as ->. contradiction.
  Qed.
  Lemma char_neat s vs st : buf_simple st -> fair (char_graph opts s vs st).
  Proof.
    intros Bn. unfold char_graph. destruct vs as [|r vs]; [split; [constructor; [intros []|constructor]|split; [constructor|exact Bn]]|].
    destruct (o_charvals opts); cbn [negb]; [|apply one_node_neat, Bn].
    destruct (reserve opts (2 * Z.of_nat (length (r :: vs))) st) as [st1|] eqn:E; [|exact Logic.I].
    pose proof (reserve_spec _ _ _ _ E) as (E1 & _ & _). rewrite E1. rewrite deflate_step.
    pose proof (curr_of_simple s r (hp st)) as C. destruct (curr_of s r (hp st)) as [curr h1]. destruct C as (C1 & C2 & C3 & C4 & C5).
    change (link push_next h1 (map Some []) (map Some curr)) with h1. cbn [app].
    assert (S1 : simple h1) by (apply (grown_simple (hp st)); [apply Bn|exact C1|exact C2]).
    pose proof (deflate_simple s vs curr (map Some curr) h1 C4 C3 S1) as K. destruct (deflate_chars s vs curr (map Some curr) h1) as [[i o] h']. destruct K as (K1 & -> & K3).
    split; [apply some_nodup, C3|]. split; [exact K3|]. exact (reserve_buf _ st st1 _ E Bn K1).
  Qed.
  Lemma alloc_series_simple b ss : forall acc h, simple h -> simple (snd (alloc_series b ss acc h)).
  Proof. induction ss as [|s ss IH]; intros acc h Sm; cbn [alloc_series snd]; [exact Sm|]. unfold alloc. apply IH, alloc_simple, Sm. Qed.
  Lemma series_neat b ss n st st1 : reserve opts n st = Some st1 -> buf_simple st -> fair (let '(ps, h1) := alloc_series b ss [] (t_heap st1) in T_ok ps ps (with_heap st1 h1)).
  Proof.
    intros E Bn. pose proof (reserve_spec _ _ _ _ E) as (E1 & _ & _). rewrite E1.
    destruct (alloc_series_spec b ss [] (hp st)) as (R & K). pose proof (alloc_series_simple b ss [] (hp st) (proj1 Bn)) as S1.
    destruct (alloc_series b ss [] (hp st)) as [ps h']. destruct K as (K1 & K2 & _). cbn [app snd] in *. subst ps.
    split; [apply some_nodup, K2|]. split; [rewrite somes_map; exact K2|]. exact (reserve_buf _ st st1 _ E Bn S1).
  Qed.
  Lemma num_neat b k es st : buf_simple st -> fair (num_graph opts b k es st).
  Proof.
    intros Bn. unfold num_graph. destruct (o_numvals opts); cbn [negb]; [|apply one_node_neat, Bn]. destruct k.
    - destruct (reserve opts (Z.of_nat (length es)) st) as [st1|] eqn:E; [|exact Logic.I]. exact (series_neat b es _ st st1 E Bn).
    - destruct es as [|lo [|hi es]]; [exact Logic.I|exact Logic.I|]. cbv zeta. destruct (_ || _)%bool; [split; [constructor|split; [constructor|exact Bn]]|].
      match goal with |- context [reserve opts ?n st] => destruct (reserve opts n st) as [st1|] eqn:E; [|exact Logic.I] end. exact (series_neat b _ _ st st1 E Bn).
  Qed.

  (** ** Elements and rules *)
  Section Step.
    Variable call : string -> tgstate -> tres.
    Hypothesis Call : forall n st, buf_ok g0 opts st -> good g0 opts st (W (ERule n)) (call n st).
    Hypothesis CallN : forall n st, buf_ok g0 opts st -> buf_simple st -> fair (call n st).
    Let Goods := elem_rep_good g0 opts Wf call Call.
    Lemma elem_rep_neat : (forall e, occ_elem g0 e -> wf_elem e -> forall st, buf_ok g0 opts st -> buf_simple st -> fair (elem_graph opts call e st)) /\
      (forall r, occ_rep g0 r -> f_neat (rep_graph opts call) r).
    Proof.
      apply elem_rep_ind.
      - intros n Oc _ st B Bn. change (elem_graph opts call (ERule n) st) with (if o_rules opts then call n st else one_node opts (ERule n) st).
        destruct (o_rules opts); [apply CallN; assumption|apply one_node_neat, Bn].
      - intros a F Oc _ st B Bn. change (elem_graph opts call (EGroup a) st) with (alt_with (rep_graph opts call) a st).
        apply neat_fair, alt_neat; [| |exact B|exact Bn].
        + intros c r Ic Ir. apply (proj2 Goods). eapply occ_rep_group; eassumption.
        + intros c r Ic Ir. rewrite Forall_forall in F. specialize (F c Ic). rewrite Forall_forall in F. apply (F r Ir). eapply occ_rep_group; eassumption.
      - intros a F Oc _ st B Bn. rewrite elem_option.
        assert (K : fair (alt_with (rep_graph opts call) a st)).
        { apply neat_fair, alt_neat; [| |exact B|exact Bn].
          - intros c r Ic Ir. apply (proj2 Goods). eapply occ_rep_option; eassumption.
          - intros c r Ic Ir. rewrite Forall_forall in F. specialize (F c Ic). rewrite Forall_forall in F. apply (F r Ir). eapply occ_rep_option; eassumption. }
        destruct (alt_with (rep_graph opts call) a st) as [i o st1| | |]; [|exact Logic.I..]. destruct K as (K1 & K2 & K3).
        split; [apply append_nodes_nodup, K1|]. split; [apply append_nodes_nd, K2|exact K3].
      - intros s vs Oc _ st B Bn. apply char_neat, Bn.
      - intros b k es Oc Wn st B Bn. apply num_neat, Bn.
      - intros v Oc _ st B Bn. exact Logic.I.
      - intros mn mx e F Oc. assert (Wr : wf_rep (Rep mn mx e)) by (apply Wf, Oc). intros st B Bn.
        assert (Oe : occ_elem g0 e) by (econstructor; exact Oc). assert (We : wf_elem e) by (inversion Wr; assumption).
        change (rep_graph opts call (Rep mn mx e) st) with
          (match elem_graph opts call e st with T_ok ei eo st1 => rep_build opts mn mx ei eo st1 | x => x end).
        specialize (F Oe We st B Bn). pose proof (proj1 Goods e Oe We st B) as K.
        destruct (elem_graph opts call e st) as [ei eo st1| | |]; cbn [good] in K; [|exact Logic.I..]. destruct K as (R & Do & Ne). destruct F as (F1 & F2 & F3 & F4).
        inversion Wr as [? ? ? W1 W2 _]; subst. destruct (rep_build opts mn mx ei eo st1) as [I O st2| | |] eqn:E; [|exact Logic.I..].
        pose proof (proj1 (do_frame _ _ _ _ _ _ _ _ Do)) as Fl.
        destruct (rep_build_simple W opts _ st1 R ei eo _ mn mx I O st2 (do_gr _ _ _ _ _ _ _ _ Do) Fl W1 W2 F1 F2 F3 E) as (P1 & P2 & P3).
        destruct (rep_build_spec W opts _ st1 R ei eo _ mn mx I O st2 (do_gr _ _ _ _ _ _ _ _ Do) Fl W1 W2 E) as (R' & Bu).
        split; [exact P2|]. split; [exact P3|]. split; [exact P1|]. rewrite (bu_buf _ _ _ _ _ _ _ _ _ _ Bu). exact F4.
    Qed.
  End Step.

  Lemma buf_clone_simple st bi bo Rb L : gr W 0 (hp st) Rb bi bo L -> simple (hp st) -> NoDup bi -> NoDup (somes bo) ->
    let '(i, o, h') := clone_graph (hp st) bi bo in simple h' /\ NoDup i /\ NoDup (somes o).
  Proof.
    intros G Sm D1 D2. apply (clone_simple (hp st) (seen_from (hp st) bi) bi bo (s0_closed st bi) (s0_below W 0 st Rb bi bo L G) (s0_i st bi)); assumption.
  Qed.
  Lemma rule_neat fuel : forall n st, buf_ok g0 opts st -> buf_simple st -> fair (rule_graph fuel opts g0 n st).
  Proof.
    induction fuel as [|f IH]; intros n st B Bn; [exact Logic.I|]. cbn [rule_graph].
    destruct (buf_get (lower n) (t_buf st)) as [[bi bo]|] eqn:Eb.
    - apply buf_get_in in Eb. destruct (proj2 B _ _ _ Eb) as (Rb & G & Z & V). destruct (proj2 Bn _ _ _ Eb) as [N1 N2].
      destruct (reserve_clones opts 1 bi st) as [st1|] eqn:Er; [|exact Logic.I].
      pose proof (reserve_clones_spec opts 1 bi st st1 Rb Er) as (E1 & E2 & _). rewrite E1.
      pose proof (buf_clone_simple st bi bo Rb _ G (proj1 Bn) N1 N2) as K. destruct (clone_graph (hp st) bi bo) as [[i o] h']. destruct K as (K1 & K2 & K3).
      split; [exact K2|]. split; [exact K3|]. split; [exact K1|]. cbn [with_heap t_buf]. rewrite E2. apply Bn.
    - destruct (get_rule n g0) as [r|] eqn:Eg; [|exact Logic.I].
      assert (Oc : forall c x, In c (rule_alt r) -> In x c -> occ_rep g0 x) by (intros c x Ic Ix; eapply occ_rep_rule; [eapply LeftRec.get_rule_name; exact Eg|exact Ic|exact Ix]).
      assert (F : forall c x, In c (rule_alt r) -> In x c -> f_ok g0 opts (rep_graph opts (rule_graph f opts g0)) x).
      { intros c x Ic Ix. apply (proj2 (elem_rep_good g0 opts Wf (rule_graph f opts g0) (rule_good g0 opts Dn Wf f))). exact (Oc c x Ic Ix). }
      assert (K : good g0 opts st (in_alt g (meant_alt d (rule_alt r))) (alt_graph opts (rule_graph f opts g0) (rule_alt r) st)).
      { apply alt_good; [exact F|exact B|intros S; exact (rule_some g0 opts n r S Eg)]. }
      assert (KT : fair (alt_graph opts (rule_graph f opts g0) (rule_alt r) st)).
      { apply neat_fair, alt_neat; [exact F| |exact B|exact Bn]. intros c x Ic Ix. apply (proj2 (elem_rep_neat (rule_graph f opts g0) (rule_good g0 opts Dn Wf f) IH)). exact (Oc c x Ic Ix). }
      destruct (alt_graph opts (rule_graph f opts g0) (rule_alt r) st) as [i o st1| | |]; cbn [good] in K; [|exact Logic.I..].
      destruct K as (R & Do & _). destruct KT as (K1 & K2 & K3 & K4).
      destruct (reserve_clones opts 1 i st1) as [st2|] eqn:Er; [|exact Logic.I].
      pose proof (reserve_clones_spec opts 1 i st1 st2 R Er) as (E1 & E2 & _). rewrite E1.
      assert (G0 : gr W 0 (hp st1) R i o (in_alt g (meant_alt d (rule_alt r)))) by (eapply gr_low; [|apply (do_gr _ _ _ _ _ _ _ _ Do)]; lia).
      pose proof (buf_clone_simple st1 i o R _ G0 K3 K1 K2) as K. destruct (clone_graph (hp st1) i o) as [[ni no] h1]. destruct K as (N1 & N2 & N3).
      split; [exact K1|]. split; [exact K2|]. split; [exact N1|]. cbn [t_buf].
      intros m bi bo [Q|I]; [injection Q as <- <- <-; split; assumption|]. rewrite E2 in I. exact (K4 m bi bo I).
  Qed.
  (** The whole construction. *)
  Lemma top_neat fuel n r i o st : get_rule n g0 = Some r -> alt_graph opts (rule_graph fuel opts g0) (rule_alt r) (mkT [] [] 0) = T_ok i o st ->
    NoDup i /\ NoDup o /\ simple (hp st).
  Proof.
    intros Eg E.
    assert (Oc : forall c x, In c (rule_alt r) -> In x c -> occ_rep g0 x) by (intros c x Ic Ix; eapply occ_rep_rule; [eapply LeftRec.get_rule_name; exact Eg|exact Ic|exact Ix]).
    assert (KT : neat (alt_graph opts (rule_graph fuel opts g0) (rule_alt r) (mkT [] [] 0))).
    { apply alt_neat; [| |apply start_ok|].
      - intros c x Ic Ix. apply (proj2 (elem_rep_good g0 opts Wf (rule_graph fuel opts g0) (rule_good g0 opts Dn Wf fuel))). exact (Oc c x Ic Ix).
      - intros c x Ic Ix. apply (proj2 (elem_rep_neat (rule_graph fuel opts g0) (rule_good g0 opts Dn Wf fuel) (rule_neat fuel))). exact (Oc c x Ic Ix).
      - split; [|intros m bi bo []]. intros a. unfold nexts. cbn [hp]. destruct a; cbn; (split; [constructor|intros b []]). }
    rewrite E in KT. destruct KT as (K1 & K2 & K3 & _). split; [exact K1|]. split; [exact K2|exact K3].
  Qed.
End Machine.
