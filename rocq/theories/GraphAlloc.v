(** How many nodes the machine allocates: at most twice what it counts.
    Its definitions are means of proof and model no code. *)
From Coq Require Import ZArith Arith String Bool List Lia.
From Verif Require Import Syntax Spec Check Num Tape RegexSpec Deps LeftRec LowerLang RecogGlue PropRecog Graph GraphSpec GraphRun GraphClone GraphRep GraphRepeat GraphLive GraphBuild.
Import ListNotations.
Local Open Scope nat_scope.
Local Open Scope list_scope.

(** ** Points *)
Lemma somes_app a b : somes (a ++ b) = somes a ++ somes b.
Proof. unfold somes. apply flat_map_app. Qed.
Lemma somes_drop l : somes (filter (fun p => negb (is_none p)) l) = somes l.
Proof. induction l as [|[a|] l IH]; cbn; [reflexivity| |exact IH]. f_equal. exact IH. Qed.
Lemma somes_map l : somes (map Some l) = l.
Proof. induction l as [|a l IH]; cbn; [reflexivity|]. f_equal. exact IH. Qed.
Lemma append_nodes_nd n : forall l, NoDup (somes l) -> NoDup (somes (append_nodes l n)).
Proof.
  induction n as [|p n IH]; intros l D; [exact D|]. unfold append_nodes. cbn [fold_left]. apply IH.
  destruct (existsb (eq_point p) l) eqn:E; [exact D|]. rewrite somes_app. destruct p as [a|]; [|cbn; rewrite app_nil_r; exact D].
  apply nodup_app; [exact D|cbn; constructor; [intros []|constructor]|]. intros x Ix [<-|[]]. apply somes_in in Ix.
  assert (X : existsb (eq_point (Some a)) l = true); [|congruence]. apply existsb_exists. exists (Some a). split; [exact Ix|]. cbn. apply Nat.eqb_refl.
Qed.
Lemma append_none_nd n : NoDup (somes (append_nodes [None] n)).
Proof. apply append_nodes_nd. constructor. Qed.
Lemma append_nil_nd n : NoDup (somes (append_nodes [] n)).
Proof. apply append_nodes_nd. constructor. Qed.
Lemma nodup_low l (P : nat -> Prop) m : NoDup (somes l) -> NoDup (somes m) -> (forall a, In (Some a) l -> P a) -> (forall a, In (Some a) m -> ~ P a) -> NoDup (somes l ++ somes m).
Proof. intros A B X Y. apply nodup_app; [exact A|exact B|]. intros a Ia Ib. apply (Y a); [apply somes_in, Ib|apply X, somes_in, Ia]. Qed.

(** ** Clones *)
Lemma cput_len k v m : length m <= length (cput k v m).
Proof. induction m as [|[x u] m IH]; cbn [cput length]; [lia|]. destruct (Nat.eqb x k); cbn [length]; lia. Qed.
Lemma clone_tg_alloc fuel : forall origin h m, let r := clone_tg fuel origin (h, m) in
  length (fst r) + length m <= S (length h + length (snd r)) /\ (cget origin m = None -> length (fst r) + length m <= length h + length (snd r)).
Proof.
  induction fuel as [|f IH]; intros origin h m; cbn zeta; [cbn [clone_tg fst snd]; lia|]. cbn [clone_tg]. unfold alloc.
  set (e := match nth_error h origin with Some n => n_elem n | None => EProse [] end).
  assert (Loop : forall l h1 m1, let r := fold_left (fun hm n => match cget n (snd hm) with Some _ => hm | None => clone_tg f n hm end) l (h1, m1) in
    length (fst r) + length m1 <= length h1 + length (snd r)).
  { induction l as [|n l IHl]; intros h1 m1; cbn [fold_left]; cbn zeta; [cbn [fst snd]; lia|]. cbn [snd].
    destruct (cget n m1) eqn:G; [apply IHl|]. destruct (IH n h1 m1) as [_ X]. specialize (X G). destruct (clone_tg f n (h1, m1)) as [h2 m2].
    cbn [fst snd] in X. specialize (IHl h2 m2). cbn zeta in IHl. lia. }
  specialize (Loop (nexts h origin) (h ++ [mkNode e []]) (cput origin (length h) m)). cbn zeta in Loop. rewrite app_length in Loop. cbn [length] in Loop.
  set (r := fold_left _ _ _) in *. split.
  - pose proof (cput_len origin (length h) m). lia.
  - intros G. apply cget_none in G. rewrite (cput_fresh origin (length h) m G), app_length in Loop. cbn [length] in Loop. lia.
Qed.
Lemma clone_entries_alloc fuel i : forall h m, let r := fold_left (fun hm p => match p with None => hm | Some a => clone_tg fuel a hm end) i (h, m) in
  length (fst r) + length m <= length h + length (snd r) + length (somes i).
Proof.
  induction i as [|[a|] i IH]; intros h m; cbn [fold_left]; cbn zeta.
  - cbn [fst snd]. lia.
  - destruct (clone_tg_alloc fuel a h m) as [X _]. destruct (clone_tg fuel a (h, m)) as [h1 m1]. cbn [fst snd] in X. specialize (IH h1 m1). cbn zeta in IH.
    change (somes (Some a :: i)) with (a :: somes i). cbn [length]. lia.
  - apply IH.
Qed.
Lemma relink_len m0 (m : list (nat * nat)) : forall h, length (fold_left (fun h oc => set_nexts h (snd oc) (clone_nexts m0 (nexts h (fst oc)))) m h) = length h.
Proof. induction m as [|x m IH]; intros h; cbn [fold_left]; [reflexivity|]. rewrite IH. apply set_nexts_length. Qed.
Lemma clone_points_nd m i : NoDup (keys m) -> NoDup (vals m) -> NoDup (somes i) -> NoDup (somes (clone_points m i)).
Proof.
  intros K V. assert (Inj : forall a b v, In (a, v) m -> In (b, v) m -> a = b).
  { clear K. intros a b v. induction m as [|[x u] m IH]; [intros []|]. cbn [vals map snd] in V. inversion V as [|? ? N V']; subst.
    assert (Q : forall y, In (y, u) m -> False) by (intros y I; apply N; apply in_map_iff; exists (y, u); auto).
    intros [E|I] [E'|I']; [congruence| | |apply IH; assumption].
    - injection E as -> ->. destruct (Q b I').
    - injection E' as -> ->. destruct (Q a I). }
  induction i as [|[a|] i IH]; intros D; [constructor| |exact (IH D)].
  change (somes (Some a :: i)) with (a :: somes i) in D. inversion D as [|? ? N D']; subst. cbn [clone_points map].
  destruct (cget a m) as [v|] eqn:G; [|exact (IH D')].
  change (NoDup (v :: somes (clone_points m i))). constructor; [|exact (IH D')]. intros I. apply somes_in in I. unfold clone_points in I.
  apply in_map_iff in I as ([b|] & E & I); [|discriminate]. apply (cget_pair _ _ _ K) in G. apply (cget_pair _ _ _ K) in E.
  rewrite (Inj a b v G E) in N. apply N, somes_in, I.
Qed.
Lemma clone_alloc h R i o : closed h R -> below h R -> (forall a, In (Some a) i -> In a R) -> NoDup (somes i) ->
  let '(i', o', h') := clone_graph h i o in length h' <= length h + 2 * length R /\ NoDup (somes i').
Proof.
  intros C B S D. unfold clone_graph.
  destruct (clone_entries h (fun a => In a R) C B i S) with (h := h) (m := @nil (nat * nat)) as (A1 & A2 & A3 & A4 & A5).
  - split; [split; [lia|reflexivity]|constructor|constructor|intros k v []].
  - intros a b [].
  - cbn zeta in *. pose proof (clone_entries_alloc (Datatypes.S (length h)) i h []) as L. cbn zeta in L.
    destruct (fold_left _ i (h, [])) as [h1 m]. cbn [fst snd length] in *. destruct A1 as [Fr Ck Cv Ci]. rewrite relink_len. split.
    + assert (X : length m <= length R).
      { rewrite <- (map_length fst m). apply NoDup_incl_length; [exact Ck|]. intros k Ik. apply in_map_iff in Ik as ((x & v) & E & I). cbn in E. subst x. apply (Ci k v I). }
      assert (Y : length (somes i) <= length R) by (apply NoDup_incl_length; [exact D|]; intros a Ia; apply S, somes_in, Ia). lia.
    + apply clone_points_nd; assumption.
Qed.

(** ** Chains *)
Section Chains.
  Variable W : elem -> list Z -> Prop.
  Variables (i o : points) (h0 : heap) (S0 : list nat).
  Hypothesis C0 : closed h0 S0.
  Hypothesis B0 : below h0 S0.
  Hypothesis I0 : forall a, In (Some a) i -> In a S0.
  Hypothesis N0 : In None i -> In None o.
  Hypothesis D0 : NoDup (somes i).
  Lemma clone_again_alloc h : frame h0 h -> let '(i', o', h') := clone_graph h i o in length h' <= length h + 2 * length S0 /\ NoDup (somes i').
  Proof.
    intros F. apply clone_alloc; [|intros a Ia; specialize (B0 a Ia); destruct F; lia|exact I0|exact D0].
    eapply agree_closed; [|exact C0]. intros a Ia. apply (proj2 F), B0, Ia.
  Qed.
  Lemma concat_alloc E F ni no h : (forall a b, In (Some a) E -> In (Some b) ni -> a <> b) -> NoDup (somes E) -> NoDup (somes ni) ->
    let '(E', F', h') := concat_graphs E F ni no h in length h' = length h /\ NoDup (somes E').
  Proof.
    intros Ap DE DN. unfold concat_graphs. split; [apply (link_spec push_next h F ni adds_next)|].
    destruct (has_empty E); [|exact DE]. rewrite somes_app, somes_drop. apply nodup_app; [exact DE|exact DN|].
    intros a Ia Ib. apply (Ap a a); [apply somes_in, Ia|apply somes_in, Ib|reflexivity].
  Qed.
  Lemma chain_loop_alloc n : forall h tgs E F R, chain W i o h0 S0 h tgs E F R -> NoDup (somes E) ->
    let '(tgs', E', F', h') := chain_loop n i o tgs E F h in length h' <= length h + n * (2 * length S0) /\ NoDup (somes E').
  Proof.
    induction n as [|n IH]; intros h tgs E F R K D; cbn [chain_loop]; [split; [lia|exact D]|].
    pose proof (chain_step W i o h0 S0 C0 B0 I0 N0 h tgs E F R K) as St. pose proof (ch_frame _ _ _ _ _ _ _ _ _ _ K) as Fr.
    pose proof (clone_again W i o h0 S0 C0 B0 I0 h Fr) as Cl. pose proof (clone_again_alloc h Fr) as Al.
    destruct (clone_graph h i o) as [[ni no] h1]. destruct Cl as (R2 & K1 & K2 & K3 & _ & _ & K6 & _). destruct Al as [Al1 Al2].
    assert (Ap : forall a b, In (Some a) E -> In (Some b) ni -> a <> b).
    { intros a b Ia Ib ->. apply (ch_e _ _ _ _ _ _ _ _ _ _ K), (ch_in _ _ _ _ _ _ _ _ _ _ K) in Ia. apply K6, K3 in Ib. lia. }
    pose proof (concat_alloc E F ni no h1 Ap D Al2) as Co. destruct (concat_graphs E F ni no h1) as [[E' F'] h2]. destruct Co as [Co1 Co2].
    destruct St as (R' & K'). specialize (IH h2 _ E' F' R' K' Co2). destruct (chain_loop n i o (tgs ++ [(ni, no)]) E' F' h2) as [[[t' E''] F''] h3].
    destruct IH as [I1 I2]. split; [lia|exact I2].
  Qed.
  Lemma chain_alloc n : let '(tgs, E, F, h) := chain_graph i o n h0 in length h <= length h0 + n * (2 * length S0) /\ NoDup (somes E).
  Proof.
    destruct n as [|n]; cbn [chain_graph]; [split; [lia|constructor]|].
    pose proof (chain_first W i o h0 S0 C0 B0 I0 N0) as K. pose proof (clone_again_alloc h0 (conj (le_n _) (fun _ _ => eq_refl))) as Al.
    destruct (clone_graph h0 i o) as [[ci co] h1]. destruct K as (R & K). destruct Al as [Al1 Al2].
    pose proof (chain_loop_alloc n h1 _ ci co R K Al2) as X. destruct (chain_loop n i o [(ci, co)] ci co h1) as [[[t E] F] h]. destruct X as [X Y]. split; [lia|exact Y].
  Qed.
End Chains.

(** ** Repetitions *)
Section Repeats.
  Variable W : elem -> list Z -> Prop.
  Variable opts : tgoptions.
  (** Twice what is counted pays for what is allocated. *)
  Definition paid (st st' : tgstate) : Prop := (Z.of_nat (length (t_heap st')) + 2 * t_count st <= Z.of_nat (length (t_heap st)) + 2 * t_count st')%Z.
  Lemma chain_paid lo st R i o L k st1 : gr W lo (t_heap st) R i o L -> NoDup (somes i) -> reserve_clones opts k i st = Some st1 -> (0 <= k <= o_threshold opts)%Z ->
    let '(_, E, _, h) := chain_graph i o (Z.to_nat k) (t_heap st) in NoDup (somes E) /\
      (budget opts -> in_budget opts st -> (Z.of_nat (length R) <= t_count st)%Z -> paid st (with_heap st1 h)).
  Proof.
    intros G D Er K. pose proof (size_count W opts lo st R i o L G k st1 Er) as Sz.
    pose proof (chain_alloc W i o (t_heap st) (seen_from (t_heap st) i) (s0_closed st i) (s0_below W lo st R i o L G) (s0_i st i) (n_ok W lo st R i o L G) D (Z.to_nat k)) as A.
    destruct (chain_graph i o (Z.to_nat k) (t_heap st)) as [[[t E] F] h]. destruct A as [A1 A2]. split; [exact A2|].
    intros B I Le. destruct (Sz B I) as [X Y]; [lia|left; lia|exact Le|]. unfold paid. cbn [with_heap t_heap t_count]. rewrite Y. nia.
  Qed.
  Lemma rep_build_paid lo st R i o L mn mx I O st' : gr W lo (t_heap st) R i o L -> lo <= length (t_heap st) -> (0 <= mn)%Z -> (mx = inf \/ (0 <= mx)%Z) ->
    NoDup (somes i) -> rep_build opts mn mx i o st = T_ok I O st' ->
    NoDup (somes I) /\ (budget opts -> in_budget opts st -> (Z.of_nat (length R) <= t_count st)%Z -> paid st st').
  Proof.
    intros G Lo Mn Mx D. unfold rep_build.
    assert (LK : forall push h A B, adds push -> length (link push h A B) = length h) by (intros; apply link_spec; assumption).
    destruct (Z.eqb_spec mn 0) as [M0|M0].
    - destruct (Z.eqb_spec mx 1) as [X1|X1].
      + intros E. injection E as <- <- <-. split; [apply append_none_nd|]. unfold paid. lia.
      + destruct (Z.eqb_spec mx inf) as [X2|X2].
        * intros E. injection E as <- <- <-. split; [apply append_none_nd|]. unfold paid. cbn [with_heap t_heap t_count]. rewrite LK by apply adds_new. lia.
        * destruct (Z.ltb_spec (o_threshold opts) mx) as [T|T]; [discriminate|].
          destruct (reserve_clones opts mx i st) as [st1|] eqn:Er; [|discriminate].
          assert (X3 : (0 <= mx)%Z) by (destruct Mx; [contradiction|assumption]).
          pose proof (chain_paid lo st R i o L mx st1 G D Er (conj X3 T)) as B. destruct (chain_graph i o (Z.to_nat mx) (t_heap st)) as [[[tgs chi] cho] h1].
          intros E. injection E as <- <- <-. split; [apply append_none_nd|apply B].
    - destruct (Z.eqb_spec mx 1) as [X1|X1].
      + destruct (Z.eqb_spec mn 1) as [M1|M1]; [|discriminate]. intros E. injection E as <- <- <-. split; [apply append_nil_nd|]. unfold paid. lia.
      + destruct (Z.eqb_spec mx inf) as [X2|X2].
        * destruct (Z.ltb_spec (o_threshold opts) mn) as [T|T]; [discriminate|].
          destruct (reserve_clones opts mn i st) as [st1|] eqn:Er; [|discriminate].
          pose proof (chain_paid lo st R i o L mn st1 G D Er (conj Mn T)) as B. destruct (chain_graph i o (Z.to_nat mn) (t_heap st)) as [[[tgs chi] cho] h1].
          intros E. injection E as <- <- <-. split; [apply append_nil_nd|]. intros B1 B2 B3. specialize (proj2 B B1 B2 B3). unfold paid. cbn [with_heap t_heap t_count]. rewrite LK by apply adds_new. auto.
        * destruct (Z.ltb_spec mx mn) as [M2|M2]; [discriminate|]. destruct (Z.ltb_spec (o_threshold opts) mx) as [T|T]; [discriminate|].
          cbv zeta. set (first := if (1 <? mn)%Z then _ else _). assert (Ef : first = first) by reflexivity. unfold first at 2 in Ef.
          destruct first as [[[fi fo] st1]|]; [|discriminate]. symmetry in Ef.
          destruct (build_first W opts lo st R i o L mn G Lo st1 fi fo ltac:(lia) ltac:(lia) Ef)
            as (R1 & F1 & F2 & F3 & F4 & F5 & F6 & F7 & F8 & F9 & F10 & F11 & F12 & F13).
          assert (P1 : budget opts -> in_budget opts st -> (Z.of_nat (length R) <= t_count st)%Z -> paid st st1).
          { destruct (Z.ltb_spec 1 mn) as [M3|M3].
            - destruct (reserve_clones opts mn i st) as [st1'|] eqn:Er; [|discriminate].
              pose proof (chain_paid lo st R i o L mn st1' G D Er ltac:(lia)) as B. destruct (chain_graph i o (Z.to_nat mn) (t_heap st)) as [[[tgs chi] cho] h1].
              injection Ef as <- <- <-. apply B.
            - injection Ef as <- <- <-. unfold paid. lia. }
          clear Ef. destruct (Z.ltb_spec 0 (mx - mn)) as [Dm|Dm].
          2: { intros E. injection E as <- <- <-. split; [apply append_nil_nd|exact P1]. }
          destruct (reserve_clones opts (mx - mn) i st1) as [st2|] eqn:Er; [|discriminate].
          assert (G1 : gr W lo (t_heap st1) R i o L).
          { eapply gr_agree; [exact G| |exact F3]. intros a Ia. apply F4, (gr_in _ _ _ _ _ _ _ G), Ia. }
          assert (E1 : t_heap st2 = t_heap st1) by (apply (reserve_clones_spec opts (mx - mn) i st1 st2 R Er)). rewrite E1.
          pose proof (chain_paid lo st1 R i o L (mx - mn) st2 G1 D Er ltac:(lia)) as B.
          destruct (chain_graph i o (Z.to_nat (mx - mn)) (t_heap st1)) as [[[tgs chi] cho] h2]. intros E. injection E as <- <- <-.
          split; [apply append_nil_nd|]. intros B1 B2 B3. destruct (F13 B1 B2 B3) as (X3 & X4 & _). specialize (P1 B1 B2 B3).
          assert (Q : paid st1 (with_heap st2 h2)) by (apply B; [exact B1|exact X3|lia]). unfold paid in *. cbn [with_heap t_heap t_count] in *. rewrite LK by apply adds_new. lia.
  Qed.
End Repeats.

(** ** The machine *)
Section Machine.
  Variable g0 : grammar.
  Variable opts : tgoptions.
  Notation d := (o_numvals opts).
  Notation g := (meant d g0).
  Notation W := (in_elem g).
  Hypothesis Dn : distinct_names g0.
  Hypothesis Wf : forall r, occ_rep g0 r -> wf_rep r.
  Notation hp := t_heap.
  Definition buf_nd (st : tgstate) : Prop := forall n bi bo, In (n, (bi, bo)) (t_buf st) -> NoDup (somes bi).
  Definition tight (st0 : tgstate) (r : tres) : Prop :=
    match r with T_ok i o st => NoDup (somes i) /\ buf_nd st /\ (bud g0 opts -> in_budget opts st0 -> paid st0 st) | _ => True end.
  Lemma tight_next st0 st1 R i o L i' o' st2 : done g0 opts st0 st1 R i o L -> (bud g0 opts -> in_budget opts st0 -> paid st0 st1) ->
    (bud g0 opts -> in_budget opts st1 -> paid st1 st2) -> NoDup (somes i') -> buf_nd st2 -> tight st0 (T_ok i' o' st2).
  Proof.
    intros Do P1 P2 N B. split; [exact N|]. split; [exact B|]. intros B0 I0. destruct (do_count _ _ _ _ _ _ _ _ Do B0 I0) as [X _].
    specialize (P1 B0 I0). specialize (P2 B0 X). unfold paid in *. lia.
  Qed.
  Lemma done_low st0 st R i o L a : done g0 opts st0 st R i o L -> In (Some a) i -> length (hp st0) <= a < length (hp st).
  Proof. intros Do I. apply (gr_in _ _ _ _ _ _ _ (do_gr _ _ _ _ _ _ _ _ Do)), (gr_i _ _ _ _ _ _ _ (do_gr _ _ _ _ _ _ _ _ Do)), I. Qed.

  Section Traverse.
    Variable f : rep -> tgstate -> tres.
    Definition f_tight (r : rep) : Prop := forall st, buf_ok g0 opts st -> buf_nd st -> tight st (f r st).
    Lemma cat_rest_tight c : (forall r, In r c -> f_ok g0 opts f r) -> (forall r, In r c -> f_tight r) -> forall st0 st R ci co L, buf_ok g0 opts st0 ->
      done g0 opts st0 st R ci co L -> (solid g0 opts -> ci <> []) -> tight st0 (T_ok ci co st) -> tight st0 (cat_rest f c ci co st).
    Proof.
      induction c as [|r c IH]; intros F FT st0 st R ci co L B Do Ne (T1 & T2 & T3); cbn [cat_rest]; [split; [exact T1|split; assumption]|].
      pose proof (done_buf_ok _ _ _ _ _ _ _ _ B Do) as B1.
      pose proof (F r (or_introl eq_refl) st B1) as K. pose proof (FT r (or_introl eq_refl) st B1 T2) as KT.
      destruct (f r st) as [ri ro st1| | |]; cbn [good] in K; [|exact Logic.I..]. destruct K as (R2 & D2 & Ne2). destruct KT as (K1 & K2 & K3).
      assert (Ap : forall a b, In (Some a) ci -> In (Some b) ri -> a <> b).
      { intros a b Ia Ib ->. apply (done_low _ _ _ _ _ _ _ Do) in Ia. apply (done_low _ _ _ _ _ _ _ D2) in Ib. lia. }
      pose proof (concat_alloc ci co ri ro (hp st1) Ap T1 K1) as Co. pose proof (done_cat _ _ _ _ _ _ _ _ _ _ _ _ _ Do D2) as D3.
      destruct (concat_graphs ci co ri ro (hp st1)) as [[ci' co'] h]. destruct (D3 Ne Ne2) as [D3' Ne3]. destruct Co as [Co1 Co2].
      apply (IH (fun x I => F x (or_intror I)) (fun x I => FT x (or_intror I)) st0 _ _ _ _ _ B D3' Ne3).
      eapply tight_next; [exact Do|exact T3| |exact Co2|exact K2]. intros B0 I0. specialize (K3 B0 I0). unfold paid in *. cbn [with_heap t_heap t_count]. rewrite Co1. exact K3.
    Qed.
    Lemma cat_tight c : (forall r, In r c -> f_ok g0 opts f r) -> (forall r, In r c -> f_tight r) -> forall st, buf_ok g0 opts st -> buf_nd st -> tight st (cat_with f c st).
    Proof.
      intros F FT st B Bn. destruct c as [|r c]; cbn [cat_with]; [exact Logic.I|].
      pose proof (F r (or_introl eq_refl) st B) as K. pose proof (FT r (or_introl eq_refl) st B Bn) as KT.
      destruct (f r st) as [ri ro st1| | |]; cbn [good] in K; [|exact Logic.I..]. destruct K as (R & Do & Ne).
      exact (cat_rest_tight c (fun x I => F x (or_intror I)) (fun x I => FT x (or_intror I)) st st1 R ri ro _ B Do Ne KT).
    Qed.
    Lemma alt_loop_tight a : (forall c r, In c a -> In r c -> f_ok g0 opts f r) -> (forall c r, In c a -> In r c -> f_tight r) -> forall st0 st R i o L, buf_ok g0 opts st0 ->
      done g0 opts st0 st R i o L -> tight st0 (T_ok i o st) -> tight st0 (alt_loop f a i o st).
    Proof.
      induction a as [|c a IH]; intros F FT st0 st R i o L B Do (T1 & T2 & T3); cbn [alt_loop]; [split; [exact T1|split; assumption]|].
      pose proof (done_buf_ok _ _ _ _ _ _ _ _ B Do) as B1.
      pose proof (cat_good g0 opts f c (fun r I => F c r (or_introl eq_refl) I) st B1) as K.
      pose proof (cat_tight c (fun r I => F c r (or_introl eq_refl) I) (fun r I => FT c r (or_introl eq_refl) I) st B1 T2) as KT.
      destruct (cat_with f c st) as [ci co st1| | |]; cbn [good] in K; [|exact Logic.I..]. destruct K as (R2 & D2 & _). destruct KT as (K1 & K2 & K3).
      apply (IH (fun c' r I => F c' r (or_intror I)) (fun c' r I => FT c' r (or_intror I)) st0 st1 _ _ _ _ B (done_or _ _ _ _ _ _ _ _ _ _ _ _ _ Do D2)).
      eapply tight_next; [exact Do|exact T3|exact K3| |exact K2]. unfold join_points.
      assert (Q : NoDup (somes i ++ somes ci)).
      { apply nodup_app; [exact T1|exact K1|]. intros x Ix Iy. apply somes_in in Ix. apply somes_in in Iy.
        apply (done_low _ _ _ _ _ _ _ Do) in Ix. apply (done_low _ _ _ _ _ _ _ D2) in Iy. lia. }
      rewrite somes_app. destruct (has_empty i); [rewrite somes_drop|]; exact Q.
    Qed.
    Lemma alt_tight a : (forall c r, In c a -> In r c -> f_ok g0 opts f r) -> (forall c r, In c a -> In r c -> f_tight r) -> forall st, buf_ok g0 opts st -> buf_nd st -> tight st (alt_with f a st).
    Proof.
      intros F FT st B Bn. unfold alt_with. apply (alt_loop_tight a F FT st st [] [] [] l_none B (done_start g0 opts st)).
      split; [constructor|]. split; [exact Bn|]. intros _ _. unfold paid. lia.
    Qed.
  End Traverse.

  (** ** Terminals *)
  Lemma fresh_tight n st st1 h1 i o : reserve opts n st = Some st1 -> NoDup (somes i) -> buf_nd st -> (bud g0 opts -> n < 2 ^ 63)%Z ->
    (Z.of_nat (length h1) <= Z.of_nat (length (hp st)) + n)%Z -> tight st (T_ok i o (with_heap st1 h1)).
  Proof.
    intros E N Bn Bd L. apply reserve_spec in E as (E1 & E2 & E3). split; [exact N|]. split.
    - intros m bi bo I. cbn [with_heap t_buf] in I. rewrite E2 in I. exact (Bn m bi bo I).
    - intros B0 I0. destruct (E3 (proj1 B0) I0 (Bd B0)) as (_ & Y & Y0). unfold paid. cbn [with_heap t_heap t_count]. lia.
  Qed.
  Lemma same_tight st i o : NoDup (somes i) -> buf_nd st -> tight st (T_ok i o st).
  Proof. intros N Bn. split; [exact N|]. split; [exact Bn|]. intros _ _. unfold paid. lia. Qed.
  Lemma one_node_tight e st : buf_nd st -> tight st (one_node opts e st).
  Proof.
    intros Bn. unfold one_node. destruct (reserve opts 1 st) as [st1|] eqn:E; [|exact Logic.I]. unfold alloc.
    pose proof (reserve_spec _ _ _ _ E) as (E1 & _ & _). eapply fresh_tight; [exact E|cbn; constructor; [intros []|constructor]|exact Bn|lia|].
    rewrite app_length, E1. cbn [length]. lia.
  Qed.
  Lemma curr_of_len s r h : let '(curr, h1) := curr_of s r h in length h1 <= length h + 2 /\ NoDup curr /\ curr <> [].
  Proof.
    unfold curr_of. destruct (((((97 <=? r) && (r <=? 122)) || ((65 <=? r) && (r <=? 90))) && negb s)%Z); unfold alloc; rewrite ?app_length; cbn [length].
    - split; [lia|]. split; [|discriminate]. constructor; [intros [X|[]]; rewrite ?app_length in X; cbn in X; lia|constructor; [intros []|constructor]].
    - split; [lia|]. split; [|discriminate]. constructor; [intros []|constructor].
  Qed.
  Lemma deflate_len s vs : forall prevs entry h, prevs <> [] -> let '(i, o, h') := deflate_chars s vs prevs entry h in i = entry /\ length h' <= length h + 2 * length vs.
  Proof.
    induction vs as [|r vs IH]; intros prevs entry h Np; [cbn [deflate_chars length]; split; [reflexivity|lia]|].
    rewrite deflate_step. pose proof (curr_of_len s r h) as C. destruct (curr_of s r h) as [curr h1]. destruct C as (C1 & _ & C3).
    destruct prevs as [|p prevs]; [contradiction|]. specialize (IH curr entry (link push_next h1 (map Some (p :: prevs)) (map Some curr)) C3).
    destruct (deflate_chars s vs curr entry (link push_next h1 (map Some (p :: prevs)) (map Some curr))) as [[i o] h']. destruct IH as [I1 I2]. split; [exact I1|].
    rewrite (proj1 (link_spec push_next h1 (map Some (p :: prevs)) (map Some curr) adds_next)) in I2. cbn [length]. lia.
  Qed.
  Lemma char_tight s vs st : occ_elem g0 (EChar s vs) -> buf_nd st -> tight st (char_graph opts s vs st).
  Proof.
    intros Oc Bn. unfold char_graph. destruct vs as [|r vs]; [apply same_tight; [constructor|exact Bn]|].
    destruct (o_charvals opts); cbn [negb]; [|apply one_node_tight, Bn].
    destruct (reserve opts (2 * Z.of_nat (length (r :: vs))) st) as [st1|] eqn:E; [|exact Logic.I].
    pose proof (reserve_spec _ _ _ _ E) as (E1 & _ & _). rewrite E1. rewrite deflate_step.
    pose proof (curr_of_len s r (hp st)) as C. destruct (curr_of s r (hp st)) as [curr h1]. destruct C as (C1 & C2 & C3).
    change (link push_next h1 (map Some []) (map Some curr)) with h1. cbn [app].
    pose proof (deflate_len s vs curr (map Some curr) h1 C3) as K. destruct (deflate_chars s vs curr (map Some curr) h1) as [[i o] h']. destruct K as [-> K].
    eapply fresh_tight; [exact E|rewrite somes_map; exact C2|exact Bn|intros (_ & X & _); specialize (X _ _ Oc); lia|]. cbn [length] in *. lia.
  Qed.
  Lemma alloc_series_len b ss : forall acc h, length (snd (alloc_series b ss acc h)) = length h + length ss.
  Proof. induction ss as [|s ss IH]; intros acc h; cbn [alloc_series length snd]; [lia|]. unfold alloc. rewrite IH, app_length. cbn [length]. lia. Qed.
  Lemma series_tight b ss n st st1 : reserve opts n st = Some st1 -> (bud g0 opts -> n < 2 ^ 63)%Z -> (Z.of_nat (length ss) <= n)%Z -> buf_nd st ->
    tight st (let '(ps, h1) := alloc_series b ss [] (t_heap st1) in T_ok ps ps (with_heap st1 h1)).
  Proof.
    intros E Bd L Bn. pose proof (reserve_spec _ _ _ _ E) as (E1 & _ & _). rewrite E1.
    destruct (alloc_series_spec b ss [] (hp st)) as (R & K). pose proof (alloc_series_len b ss [] (hp st)) as Ln.
    destruct (alloc_series b ss [] (hp st)) as [ps h']. destruct K as (K1 & K2 & _). cbn [app snd] in *. subst ps.
    eapply fresh_tight; [exact E|rewrite somes_map; exact K2|exact Bn|exact Bd|lia].
  Qed.
  Lemma num_tight b k es st : occ_elem g0 (ENum b k es) -> wf_num b k es -> buf_nd st -> tight st (num_graph opts b k es st).
  Proof.
    intros Oc [W1 W2] Bn. unfold num_graph. destruct (o_numvals opts); cbn [negb]; [|apply one_node_tight, Bn]. destruct k.
    - destruct (reserve opts (Z.of_nat (length es)) st) as [st1|] eqn:E; [|exact Logic.I].
      apply (series_tight b es _ st st1 E); [intros (_ & _ & X); exact (X _ _ _ Oc)|lia|exact Bn].
    - destruct es as [|lo [|hi es]]; [exact Logic.I|exact Logic.I|]. inversion W1 as [|? ? (l & El) _]; subst.
      pose proof (numval_to_int32_spec _ _ _ El) as Ml. pose proof (numeral_nonneg _ _ _ El) as Pl. unfold MaxInt32 in Ml.
      cbv zeta. set (a := numval_to_int32 lo b) in *. set (c := Z.min _ _).
      destruct (Z.ltb_spec 0x10FFFF a) as [L1|L1]; cbn [orb]; [apply same_tight; [constructor|exact Bn]|].
      destruct (Z.ltb_spec c a) as [L2|L2]; [apply same_tight; [constructor|exact Bn]|].
      destruct (reserve opts (c - a + 1) st) as [st1|] eqn:E; [|exact Logic.I].
      apply (series_tight b (range_values b a c) _ st st1 E); [|unfold range_values; rewrite map_length, seq_length; lia|exact Bn].
      intros _. assert (c <= 0x10FFFF)%Z by (unfold c; lia). lia.
  Qed.

  (** ** Elements and rules *)
  Section Step.
    Variable call : string -> tgstate -> tres.
    Hypothesis Call : forall n st, buf_ok g0 opts st -> good g0 opts st (W (ERule n)) (call n st).
    Hypothesis CallT : forall n st, buf_ok g0 opts st -> buf_nd st -> tight st (call n st).
    Let Goods := elem_rep_good g0 opts Wf call Call.
    Lemma elem_rep_tight : (forall e, occ_elem g0 e -> wf_elem e -> forall st, buf_ok g0 opts st -> buf_nd st -> tight st (elem_graph opts call e st)) /\
      (forall r, occ_rep g0 r -> f_tight (rep_graph opts call) r).
    Proof.
      apply elem_rep_ind.
      - intros n Oc _ st B Bn. change (elem_graph opts call (ERule n) st) with (if o_rules opts then call n st else one_node opts (ERule n) st).
        destruct (o_rules opts); [apply CallT; assumption|apply one_node_tight, Bn].
      - intros a F Oc _ st B Bn. change (elem_graph opts call (EGroup a) st) with (alt_with (rep_graph opts call) a st).
        apply alt_tight; [| |exact B|exact Bn].
        + intros c r Ic Ir. apply (proj2 Goods). eapply occ_rep_group; eassumption.
        + intros c r Ic Ir. rewrite Forall_forall in F. specialize (F c Ic). rewrite Forall_forall in F. apply (F r Ir). eapply occ_rep_group; eassumption.
      - intros a F Oc _ st B Bn. rewrite elem_option.
        assert (K : tight st (alt_with (rep_graph opts call) a st)).
        { apply alt_tight; [| |exact B|exact Bn].
          - intros c r Ic Ir. apply (proj2 Goods). eapply occ_rep_option; eassumption.
          - intros c r Ic Ir. rewrite Forall_forall in F. specialize (F c Ic). rewrite Forall_forall in F. apply (F r Ir). eapply occ_rep_option; eassumption. }
        destruct (alt_with (rep_graph opts call) a st) as [i o st1| | |]; [|exact Logic.I..]. destruct K as (K1 & K2 & K3).
        split; [apply append_nodes_nd, K1|]. split; assumption.
      - intros s vs Oc _ st B Bn. apply char_tight; assumption.
      - intros b k es Oc Wn st B Bn. apply num_tight; [exact Oc|inversion Wn; assumption|exact Bn].
      - intros v Oc _ st B Bn. exact Logic.I.
      - intros mn mx e F Oc. assert (Wr : wf_rep (Rep mn mx e)) by (apply Wf, Oc). intros st B Bn.
        assert (Oe : occ_elem g0 e) by (econstructor; exact Oc). assert (We : wf_elem e) by (inversion Wr; assumption).
        change (rep_graph opts call (Rep mn mx e) st) with
          (match elem_graph opts call e st with T_ok ei eo st1 => rep_build opts mn mx ei eo st1 | x => x end).
        specialize (F Oe We st B Bn). pose proof (proj1 Goods e Oe We st B) as K.
        destruct (elem_graph opts call e st) as [ei eo st1| | |]; cbn [good] in K; [|exact Logic.I..]. destruct K as (R & Do & Ne). destruct F as (F1 & F2 & F3).
        inversion Wr as [? ? ? W1 W2 _]; subst. destruct (rep_build opts mn mx ei eo st1) as [I O st2| | |] eqn:E; [|exact Logic.I..].
        pose proof (proj1 (do_frame _ _ _ _ _ _ _ _ Do)) as Fl.
        destruct (rep_build_paid W opts _ st1 R ei eo _ mn mx I O st2 (do_gr _ _ _ _ _ _ _ _ Do) Fl W1 W2 F1 E) as [P1 P2].
        destruct (rep_build_spec W opts _ st1 R ei eo _ mn mx I O st2 (do_gr _ _ _ _ _ _ _ _ Do) Fl W1 W2 E) as (R' & Bu).
        split; [exact P1|]. split; [unfold buf_nd; rewrite (bu_buf _ _ _ _ _ _ _ _ _ _ Bu); exact F2|].
        intros B0 I0. destruct (do_count _ _ _ _ _ _ _ _ Do B0 I0) as [X1 X2]. specialize (F3 B0 I0).
        assert (Q : paid st1 st2) by (apply P2; [apply B0|exact X1|destruct I0; lia]). unfold paid in *. lia.
    Qed.
  End Step.

  Lemma buf_clone_paid st bi bo Rb L st1 : gr W 0 (hp st) Rb bi bo L -> NoDup (somes bi) -> reserve_clones opts 1 bi st = Some st1 ->
    let '(i, o, h') := clone_graph (hp st) bi bo in NoDup (somes i) /\
      (budget opts -> in_budget opts st -> (Z.of_nat (length Rb) <= t_count st)%Z -> paid st (with_heap st1 h')).
  Proof.
    intros G D Er. pose proof (size_count W opts 0 st Rb bi bo L G 1 st1 Er) as Sz.
    pose proof (clone_alloc (hp st) (seen_from (hp st) bi) bi bo (s0_closed st bi) (s0_below W 0 st Rb bi bo L G) (s0_i st bi) D) as A.
    destruct (clone_graph (hp st) bi bo) as [[i o] h']. destruct A as [A1 A2]. split; [exact A2|]. intros B I Le.
    destruct (Sz B I) as [X Y]; [lia|auto|exact Le|]. unfold paid. cbn [with_heap t_heap t_count]. rewrite Y. lia.
  Qed.
  Lemma rule_tight fuel : forall n st, buf_ok g0 opts st -> buf_nd st -> tight st (rule_graph fuel opts g0 n st).
  Proof.
    induction fuel as [|f IH]; intros n st B Bn; [exact Logic.I|]. cbn [rule_graph].
    destruct (buf_get (lower n) (t_buf st)) as [[bi bo]|] eqn:Eb.
    - apply buf_get_in in Eb. destruct (proj2 B _ _ _ Eb) as (Rb & G & Z & V).
      destruct (reserve_clones opts 1 bi st) as [st1|] eqn:Er; [|exact Logic.I].
      pose proof (reserve_clones_spec opts 1 bi st st1 Rb Er) as (E1 & E2 & _). rewrite E1.
      pose proof (buf_clone_paid st bi bo Rb _ st1 G (Bn _ _ _ Eb) Er) as K. destruct (clone_graph (hp st) bi bo) as [[i o] h']. destruct K as [K1 K2].
      split; [exact K1|]. split; [unfold buf_nd; cbn [with_heap t_buf]; rewrite E2; exact Bn|]. intros B0 I0. apply K2; [apply B0|exact I0|apply Z, B0].
    - destruct (get_rule n g0) as [r|] eqn:Eg; [|exact Logic.I].
      assert (Oc : forall c x, In c (rule_alt r) -> In x c -> occ_rep g0 x) by (intros c x Ic Ix; eapply occ_rep_rule; [eapply LeftRec.get_rule_name; exact Eg|exact Ic|exact Ix]).
      assert (F : forall c x, In c (rule_alt r) -> In x c -> f_ok g0 opts (rep_graph opts (rule_graph f opts g0)) x).
      { intros c x Ic Ix. apply (proj2 (elem_rep_good g0 opts Wf (rule_graph f opts g0) (rule_good g0 opts Dn Wf f))). exact (Oc c x Ic Ix). }
      assert (K : good g0 opts st (in_alt g (meant_alt d (rule_alt r))) (alt_graph opts (rule_graph f opts g0) (rule_alt r) st)).
      { apply alt_good; [exact F|exact B|intros S; exact (rule_some g0 opts n r S Eg)]. }
      assert (KT : tight st (alt_graph opts (rule_graph f opts g0) (rule_alt r) st)).
      { apply alt_tight; [exact F| |exact B|exact Bn]. intros c x Ic Ix. apply (proj2 (elem_rep_tight (rule_graph f opts g0) (rule_good g0 opts Dn Wf f) IH)). exact (Oc c x Ic Ix). }
      destruct (alt_graph opts (rule_graph f opts g0) (rule_alt r) st) as [i o st1| | |]; cbn [good] in K; [|exact Logic.I..].
      destruct K as (R & Do & _). destruct KT as (K1 & K2 & K3).
      destruct (reserve_clones opts 1 i st1) as [st2|] eqn:Er; [|exact Logic.I].
      pose proof (reserve_clones_spec opts 1 i st1 st2 R Er) as (E1 & E2 & _). rewrite E1.
      assert (G0 : gr W 0 (hp st1) R i o (in_alt g (meant_alt d (rule_alt r)))) by (eapply gr_low; [|apply (do_gr _ _ _ _ _ _ _ _ Do)]; lia).
      pose proof (buf_clone_paid st1 i o R _ st2 G0 K1 Er) as K. destruct (clone_graph (hp st1) i o) as [[ni no] h1]. destruct K as [N1 N2].
      split; [exact K1|]. split.
      + intros m bi bo [Q|I]; [injection Q as <- <- <-; exact N1|]. rewrite E2 in I. exact (K2 m bi bo I).
      + intros B0 I0. destruct (do_count _ _ _ _ _ _ _ _ Do B0 I0) as [X1 X2]. specialize (K3 B0 I0).
        assert (Q : paid st1 (with_heap st2 h1)) by (apply N2; [apply B0|exact X1|destruct I0; lia]). unfold paid in *. cbn [with_heap t_heap t_count] in *. lia.
  Qed.
  (** The whole construction. *)
  Lemma top_paid fuel n r i o st : bud g0 opts -> get_rule n g0 = Some r -> alt_graph opts (rule_graph fuel opts g0) (rule_alt r) (mkT [] [] 0) = T_ok i o st ->
    (Z.of_nat (length (hp st)) <= 2 * t_count st)%Z.
  Proof.
    intros B0 Eg E.
    assert (Oc : forall c x, In c (rule_alt r) -> In x c -> occ_rep g0 x) by (intros c x Ic Ix; eapply occ_rep_rule; [eapply LeftRec.get_rule_name; exact Eg|exact Ic|exact Ix]).
    assert (KT : tight (mkT [] [] 0) (alt_graph opts (rule_graph fuel opts g0) (rule_alt r) (mkT [] [] 0))).
    { apply alt_tight; [| |apply start_ok|intros m bi bo []].
      - intros c x Ic Ix. apply (proj2 (elem_rep_good g0 opts Wf (rule_graph fuel opts g0) (rule_good g0 opts Dn Wf fuel))). exact (Oc c x Ic Ix).
      - intros c x Ic Ix. apply (proj2 (elem_rep_tight (rule_graph fuel opts g0) (rule_good g0 opts Dn Wf fuel) (rule_tight fuel))). exact (Oc c x Ic Ix). }
    rewrite E in KT. destruct KT as (_ & _ & K). specialize (K B0 (proj1 (start_ok g0 opts) B0)). unfold paid in K. cbn [t_heap t_count length] in K. lia.
  Qed.
End Machine.
