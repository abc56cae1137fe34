(** The graph of a repetition, from the graph of its element.
    Its definitions are means of proof and model no code. *)
From Coq Require Import ZArith Arith String Bool List Lia.
From Verif Require Import Syntax Spec Tape RegexSpec Graph GraphRun GraphClone GraphRep.
Import ListNotations.
Local Open Scope nat_scope.
Local Open Scope list_scope.

(** ** Counting *)
Lemma pow_zero (N : clang) w : l_pow N 0 w <-> w = [].
Proof. reflexivity. Qed.
Lemma pow_opt nu N k w : l_pow (opt nu N) k w <-> if nu then exists m, m <= k /\ l_pow N m w else l_pow N k w.
Proof. destruct nu; [apply pow_opt_true|apply pow_opt_false]. Qed.
Lemma count_0n nu N d w : (w = [] \/ exists j, j < d /\ cnt nu N (S j) w) <-> exists k, k <= d /\ l_pow (opt nu N) k w.
Proof.
  setoid_rewrite pow_opt. unfold cnt. destruct nu; split.
  - intros [->|(j & L & m & Lm & P)]; [exists 0; split; [lia|]; exists 0; split; [lia|reflexivity]|].
    exists (S j). split; [lia|]. exists m. split; [lia|exact P].
  - intros (k & L & m & Lm & P). destruct m as [|m]; [left; exact P|]. right. exists m. split; [lia|]. exists (S m). split; [lia|exact P].
  - intros [->|(j & L & P)]; [exists 0; split; [lia|reflexivity]|]. exists (S j). split; [lia|exact P].
  - intros (k & L & P). destruct k as [|k]; [left; exact P|]. right. exists k. split; [lia|exact P].
Qed.
Lemma count_star nu N w : (w = [] \/ N w \/ exists u v m, w = u ++ v /\ N u /\ 1 <= m /\ l_pow N m v) <-> exists k, l_pow (opt nu N) k w.
Proof.
  assert (E : (w = [] \/ N w \/ exists u v m, w = u ++ v /\ N u /\ 1 <= m /\ l_pow N m v) <-> exists k, l_pow N k w).
  { split.
    - intros [->|[H|(u & v & m & -> & H & _ & P)]]; [exists 0; reflexivity|exists 1; apply l_pow_one, H|]. exists (S m). exists u, v. auto.
    - intros ([|[|k]] & P); [left; exact P|right; left; apply l_pow_one, P|].
      destruct P as (u & v & -> & H & P). right. right. exists u, v, (S k). split; [reflexivity|]. split; [exact H|]. split; [lia|exact P]. }
  rewrite E. setoid_rewrite pow_opt. destruct nu; [|reflexivity]. split; [intros (k & P); exists k, k; auto|]. intros (k & m & _ & P). eauto.
Qed.
Lemma count_inf nu N a w : 1 <= a ->
  ((nu = true /\ w = []) \/ cnt nu N a w \/ exists u v m, w = u ++ v /\ cnt nu N a u /\ 1 <= m /\ l_pow N m v) <->
  exists k, a <= k /\ l_pow (opt nu N) k w.
Proof.
  intros La. setoid_rewrite pow_opt. unfold cnt. destruct nu; split.
  - intros [(_ & ->)|[(m & Lm & P)|(u & v & m & -> & (m' & Lm' & P') & Lm & P)]].
    + exists a. split; [lia|]. exists 0. split; [lia|reflexivity].
    + exists a. split; [lia|]. exists m. split; [lia|exact P].
    + exists (a + m' + m). split; [lia|]. exists (m' + m). split; [lia|]. apply l_pow_app. exists u, v. auto.
  - intros (k & Lk & m & Lm & P). destruct m as [|m]; [left; auto|]. right. destruct (le_lt_dec (S m) a) as [L|L]; [left; exists (S m); split; [lia|exact P]|].
    right. replace (S m) with (a + (S m - a)) in P by lia. apply l_pow_app in P as (u & v & -> & P1 & P2).
    exists u, v, (S m - a). split; [reflexivity|]. split; [exists a; split; [lia|exact P1]|]. split; [lia|exact P2].
  - intros [(X & _)|[P|(u & v & m & -> & P1 & Lm & P2)]]; [discriminate|exists a; auto|]. exists (a + m). split; [lia|]. apply l_pow_app. exists u, v. auto.
  - intros (k & Lk & P). right. destruct (Nat.eq_dec k a) as [->|Ne]; [left; exact P|]. right.
    replace k with (a + (k - a)) in P by lia. apply l_pow_app in P as (u & v & -> & P1 & P2). exists u, v, (k - a). split; [reflexivity|]. split; [exact P1|]. split; [lia|exact P2].
Qed.
Lemma count_nm nu N a d w : 1 <= a ->
  ((nu = true /\ w = []) \/ cnt nu N a w \/ exists j, j < d /\ l_cat (cnt nu N a) (cnt nu N (S j)) w) <->
  exists k, a <= k <= a + d /\ l_pow (opt nu N) k w.
Proof.
  intros La. setoid_rewrite pow_opt. unfold cnt. destruct nu; split.
  - intros [(_ & ->)|[(m & Lm & P)|(j & Lj & u & v & -> & (m' & Lm' & P') & m & Lm & P)]].
    + exists a. split; [lia|]. exists 0. split; [lia|reflexivity].
    + exists a. split; [lia|]. exists m. split; [lia|exact P].
    + exists (a + d). split; [lia|]. exists (m' + m). split; [lia|]. apply l_pow_app. exists u, v. auto.
  - intros (k & Lk & m & Lm & P). destruct m as [|m]; [left; auto|]. right. destruct (le_lt_dec (S m) a) as [L|L]; [left; exists (S m); split; [lia|exact P]|].
    right. replace (S m) with (a + (S m - a)) in P by lia. apply l_pow_app in P as (u & v & -> & P1 & P2).
    exists (S m - a - 1). split; [lia|]. exists u, v. split; [reflexivity|]. split; [exists a; split; [lia|exact P1]|]. exists (S m - a). split; [lia|exact P2].
  - intros [(X & _)|[P|(j & Lj & u & v & -> & P1 & P2)]]; [discriminate|exists a; split; [lia|exact P]|]. exists (a + S j). split; [lia|]. apply l_pow_app. exists u, v. auto.
  - intros (k & Lk & P). right. destruct (Nat.eq_dec k a) as [->|Ne]; [left; exact P|]. right. exists (k - a - 1). split; [lia|].
    replace k with (a + S (k - a - 1)) in P by lia. apply l_pow_app in P as (u & v & -> & P1 & P2). exists u, v. auto.
Qed.
Lemma reps_ext L L' mn mx : leq L L' -> leq (reps L mn mx) (reps L' mn mx).
Proof. intros E w. unfold reps. split; intros (k & A & B & P); exists k; (split; [exact A|]); (split; [exact B|]); apply (l_pow_ext _ _ k E); exact P. Qed.

(** ** The budget *)
Section Budget.
  Variable opts : tgoptions.
  Definition budget : Prop := (0 < o_max opts < 2 ^ 63 /\ o_threshold opts * o_max opts < 2 ^ 63)%Z.
  Definition in_budget (st : tgstate) : Prop := (0 <= t_count st <= o_max opts)%Z.
  Lemma wrap64_small z : (- 2 ^ 63 <= z < 2 ^ 63)%Z -> wrap64 z = z.
  Proof. intros H. unfold wrap64. rewrite Z.mod_small by lia. lia. Qed.
  Lemma wrap64_high z : (2 ^ 63 <= z < 2 ^ 64)%Z -> (wrap64 z < 0)%Z.
  Proof. intros H. unfold wrap64. replace (z + 2 ^ 63)%Z with (z - 2 ^ 63 + 1 * 2 ^ 64)%Z by lia. rewrite Z_mod_plus_full, Z.mod_small; lia. Qed.
  Lemma reserve_spec n st st' : reserve opts n st = Some st' -> t_heap st' = t_heap st /\ t_buf st' = t_buf st /\
    (budget -> in_budget st -> (n < 2 ^ 63)%Z -> in_budget st' /\ t_count st' = (t_count st + n)%Z /\ (0 <= n)%Z).
  Proof.
    unfold reserve. destruct (Z.leb_spec (o_max opts) 0) as [L|L].
    - intros E. injection E as <-. split; [reflexivity|]. split; [reflexivity|]. intros (B & _). lia.
    - destruct (Z.ltb_spec n 0) as [L1|L1]; cbn [orb]; [discriminate|].
      destruct (Z.ltb_spec (wrap64 (t_count st + n)) 0) as [L2|L2]; cbn [orb]; [discriminate|].
      destruct (Z.ltb_spec (o_max opts) (wrap64 (t_count st + n))) as [L3|L3]; [discriminate|].
      intros E. injection E as <-. split; [reflexivity|]. split; [reflexivity|]. cbn [t_count]. intros (B & _) [C1 C2] Ln.
      assert (Q : wrap64 (t_count st + n) = (t_count st + n)%Z).
      { apply wrap64_small. split; [lia|]. destruct (Z.lt_ge_cases (t_count st + n) (2 ^ 63)) as [H|H]; [exact H|].
        exfalso. pose proof (wrap64_high (t_count st + n)). lia. }
      unfold in_budget. cbn [t_count]. rewrite Q in *. lia.
  Qed.
  Lemma reserve_clones_spec k i st st' R : reserve_clones opts k i st = Some st' -> t_heap st' = t_heap st /\ t_buf st' = t_buf st /\
    (budget -> in_budget st -> (0 <= k)%Z -> (k <= o_threshold opts \/ k = 1)%Z ->
     closed (t_heap st) R -> (forall a, In (Some a) i -> In a R) -> NoDup R -> (Z.of_nat (length R) <= t_count st)%Z ->
     in_budget st' /\ t_count st' = (t_count st + k * Z.of_nat (length (seen_from (t_heap st) i)))%Z).
  Proof.
    unfold reserve_clones. destruct (Z.leb_spec (o_max opts) 0) as [L|L].
    - intros E. injection E as <-. split; [reflexivity|]. split; [reflexivity|]. intros (B & _). lia.
    - intros E. apply reserve_spec in E as (E1 & E2 & E3). split; [exact E1|]. split; [exact E2|].
      intros B I K0 K1 C S D Le. pose proof (seen_from_region (t_heap st) i R C S D) as Lc. unfold count_reachable in E3.
      set (c := Z.of_nat (length (seen_from (t_heap st) i))) in *.
      assert (0 <= c <= o_max opts)%Z as Hc by (destruct I; unfold c; lia).
      assert (Q : (0 <= k * c < 2 ^ 63)%Z).
      { split; [nia|]. destruct B as [B1 B2]. destruct K1 as [K1|K1]; [|nia].
        apply Z.le_lt_trans with (o_threshold opts * o_max opts)%Z; [|exact B2]. apply Z.mul_le_mono_nonneg; lia. }
      rewrite wrap64_small in E3 by lia. destruct (E3 B I) as (X & Y & _); [lia|]. auto.
  Qed.
End Budget.

Lemma to_nat_S z : (0 < z)%Z -> exists n, Z.to_nat z = S n.
Proof. intros H. exists (Z.to_nat z - 1). lia. Qed.

Section Repeat.
  Variable W : elem -> list Z -> Prop.
  Variable opts : tgoptions.

  (** What building on a graph in region [R] gives. *)
  Record built (lo : nat) (R : list nat) (st st' : tgstate) (R' : list nat) (I O : points) (L : clang) : Prop := {
    bu_gr : gr W lo (t_heap st') R' I O L;
    bu_len : length (t_heap st) <= length (t_heap st');
    bu_old : forall a, a < length (t_heap st) -> ~ In a R -> nth_error (t_heap st') a = nth_error (t_heap st) a;
    bu_new : forall a, In a R' -> In a R \/ length (t_heap st) <= a;
    bu_buf : t_buf st' = t_buf st;
    bu_count : budget opts -> in_budget opts st -> (Z.of_nat (length R) <= t_count st)%Z ->
      in_budget opts st' /\ (t_count st <= t_count st')%Z /\ (Z.of_nat (length R') <= Z.of_nat (length R) + (t_count st' - t_count st))%Z }.

  Section One.
    Variables (lo : nat) (st : tgstate) (R : list nat) (i o : points) (L : clang) (mn mx : Z).
    Hypothesis G : gr W lo (t_heap st) R i o L.
    Hypothesis LoLe : lo <= length (t_heap st).
    Let h := t_heap st.
    Let N := between W h i o.
    Let nu := has_empty i.
    Let S0 := seen_from h i.
    Lemma s0_closed : closed h S0. Proof. apply reachable_closed. Qed.
    Lemma s0_i a : In (Some a) i -> In a S0. Proof. apply reachable_closed. Qed.
    Lemma s0_sub a : In a S0 -> In a R.
    Proof.
      apply (count_loop_in h (fun a => In a R)); [apply (gr_closed _ _ _ _ _ _ _ G)| |intros b []].
      intros b Ib. apply (gr_i _ _ _ _ _ _ _ G), somes_in. apply in_rev. exact Ib.
    Qed.
    Lemma s0_below : below h S0. Proof. intros a Ia. apply (gr_in _ _ _ _ _ _ _ G), s0_sub, Ia. Qed.
    Lemma lang_n : leq L (opt nu N). Proof. apply (gr_opt W lo h R i o L G). Qed.
    Lemma nu_none : In None i <-> nu = true. Proof. unfold nu. rewrite has_empty_spec. reflexivity. Qed.
    Lemma n_ok : In None i -> In None o. Proof. apply (gr_none _ _ _ _ _ _ _ G). Qed.
    Lemma size_count k st1 : reserve_clones opts k i st = Some st1 -> budget opts -> in_budget opts st -> (0 <= k)%Z -> (k <= o_threshold opts \/ k = 1)%Z ->
      (Z.of_nat (length R) <= t_count st)%Z -> in_budget opts st1 /\ t_count st1 = (t_count st + k * Z.of_nat (length S0))%Z.
    Proof.
      intros E B I K0 K1 Le. destruct (reserve_clones_spec opts k i st st1 R E) as (_ & _ & H). apply H; auto; apply G.
    Qed.

    Lemma build_one I O : (forall p, In p I <-> In p i) -> (forall p, In p O <-> In p o) -> mn = 1%Z -> mx = 1%Z ->
      built lo R st st R I O (reps L mn mx).
    Proof.
      intros EI EO -> ->. split; [|lia|reflexivity|auto|reflexivity|intros B I1 _; split; [exact I1|lia]].
      destruct G as [A1 A2 A3 A4 A5 A6 A7]. split; [exact A1|exact A2|exact A3| | | |].
      - intros a Ia. apply A4, EI, Ia.
      - intros a Ia. apply A5, EO, Ia.
      - rewrite EI, EO. exact A6.
      - intros w. transitivity (L w).
        + rewrite <- (A7 w). unfold glang, between, upto. setoid_rewrite EI. setoid_rewrite EO. reflexivity.
        + unfold reps. rewrite <- l_pow_one. split; [intros H; exists 1; split; [lia|]; split; [lia|exact H]|].
          intros (k & K1 & [K2|K2] & H); [unfold inf in K2; lia|]. assert (k = 1) as -> by lia. exact H.
    Qed.

    Lemma build_opt I O : (forall p, In p I <-> p = None \/ In p i) -> (forall p, In p O <-> p = None \/ In p o) -> mn = 0%Z -> mx = 1%Z ->
      built lo R st st R I O (reps L mn mx).
    Proof.
      intros EI EO -> ->. split; [|lia|reflexivity|auto|reflexivity|intros B I1 _; split; [exact I1|lia]].
      pose proof lang_n as LN. destruct G as [A1 A2 A3 A4 A5 A6 A7].
      assert (SI : forall a, In (Some a) I <-> In (Some a) i) by (intros a; rewrite EI; intuition discriminate).
      assert (SO : forall a, In (Some a) O <-> In (Some a) o) by (intros a; rewrite EO; intuition discriminate).
      split; [exact A1|exact A2|exact A3| | | |].
      - intros a Ia. apply A4, SI, Ia.
      - intros a Ia. apply A5, SO, Ia.
      - intros _. apply EO. auto.
      - intros w. rewrite (reps_ext L _ 0 1 LN w). transitivity (w = [] \/ N w).
        + unfold glang. assert (In None I) by (apply EI; auto).
          assert (between W h I O w <-> N w) as X by (unfold N, between, upto; setoid_rewrite SI; setoid_rewrite SO; reflexivity).
          fold h. rewrite X. tauto.
        + pose proof (count_0n nu N 1 w) as K.
          assert (Q : (exists j, j < 1 /\ cnt nu N (S j) w) <-> N w).
          { unfold cnt. destruct nu; split.
            - intros (j & Lj & m & Lm & P). assert (m = 1) as -> by lia. apply (l_pow_one N), P.
            - intros H. exists 0. split; [lia|]. exists 1. split; [lia|apply (l_pow_one N), H].
            - intros (j & Lj & P). assert (j = 0) as -> by lia. apply (l_pow_one N), P.
            - intros H. exists 0. split; [lia|]. apply (l_pow_one N), H. }
          rewrite Q in K. rewrite K. unfold reps. split; intros (k & P); exists k; [destruct P; split; [lia|]; split; [right; lia|assumption]|].
          destruct P as (_ & [P|P] & H); [unfold inf in P; lia|]. split; [lia|exact H].
    Qed.

    Lemma build_star I O J : (forall p, In p I <-> p = None \/ In p i) -> (forall p, In p O <-> p = None \/ In p o) ->
      (forall a, In (Some a) J <-> In (Some a) i) -> mn = 0%Z -> mx = inf ->
      built lo R st (with_heap st (link push_new h o J)) R I O (reps L mn mx).
    Proof.
      intros EI EO EJ -> ->. pose proof lang_n as LN. destruct G as [A1 A2 A3 A4 A5 A6 A7].
      destruct (link_spec push_new h o J adds_new) as (Ln & Lab & Oth & _).
      assert (Be : below h R) by (intros a Ia; apply A1, Ia).
      assert (Edg := link_edges push_new h o J R adds_new A5 Be).
      set (h' := link push_new h o J) in *.
      split; [|cbn [with_heap t_heap]; unfold h in Ln; lia| |auto|reflexivity|intros B I1 _; split; [exact I1|cbn [with_heap t_count]; lia]].
      2: { cbn [with_heap t_heap]. intros a _ Na. apply Oth. intros X. apply Na, A5, X. }
      assert (SI : forall a, In (Some a) I <-> In (Some a) i) by (intros a; rewrite EI; intuition discriminate).
      assert (SO : forall a, In (Some a) O <-> In (Some a) o) by (intros a; rewrite EO; intuition discriminate).
      cbn [with_heap t_heap]. split.
      - intros a Ia. rewrite Ln. apply A1, Ia.
      - exact A2.
      - intros a b Ia E. apply Edg in E as [E|[_ E]]; [eapply A3; eassumption|apply A4, EJ, E].
      - intros a Ia. apply A4, SI, Ia.
      - intros a Ia. apply A5, SO, Ia.
      - intros _. apply EO. auto.
      - intros w. rewrite (reps_ext L _ 0 inf LN w). transitivity (exists k, l_pow (opt nu N) k w).
        + rewrite <- (count_star nu N w). unfold glang. assert (In None I) by (apply EI; auto).
          assert (between W h' I O w <-> between W h' i o w) as -> by (unfold between, upto; setoid_rewrite SI; setoid_rewrite SO; reflexivity).
          rewrite (loop_between W h h' i o R Lab J EJ Edg i o w A4 A3); [|auto|auto]. fold N. tauto.
        + unfold reps. split; intros (k & P); exists k; [split; [lia|]; split; [left; reflexivity|exact P]|]. apply P.
    Qed.

    Lemma build_0n st1 : (0 <= mx)%Z -> (mx <= o_threshold opts)%Z -> mn = 0%Z -> reserve_clones opts mx i st = Some st1 ->
      let '(tgs, chi, _, h1) := chain_graph i o (Z.to_nat mx) h in
      exists R', built lo R st (with_heap st1 h1) R' (append_nodes [None] chi) (fold_left (fun l tg => append_nodes l (snd tg)) tgs [None]) (reps L mn mx).
    Proof.
      intros M0 Mt -> Er. pose proof lang_n as LN. pose proof (size_count mx st1 Er) as Sz.
      destruct (reserve_clones_spec opts mx i st st1 R Er) as (E1 & E2 & _).
      assert (Lg : forall w, (w = [] \/ exists j, j < Z.to_nat mx /\ cnt nu N (S j) w) <-> reps L 0 mx w).
      { intros w. rewrite (count_0n nu N (Z.to_nat mx) w), (reps_ext L _ 0 mx LN w). unfold reps.
        split; intros (k & P); exists k; [destruct P as [P1 P2]; split; [lia|]; split; [right; lia|exact P2]|].
        destruct P as (_ & [P|P] & H); [unfold inf in P; lia|]. split; [lia|exact H]. }
      destruct (Z.eq_dec mx 0) as [Z0|Z0].
      - rewrite Z0 in *. cbn [Z.to_nat chain_graph fold_left]. exists []. split; [|cbn; fold h; lia|reflexivity|intros a []|exact E2|].
        + split; [intros a []|constructor|intros a b []| | | |].
          * intros a [X|[]]; discriminate.
          * intros a [X|[]]; discriminate.
          * auto.
          * intros w. rewrite <- (Lg w). unfold glang, between, upto. cbn [append_nodes fold_left In]. split.
            -- intros [(_ & ->)|(b & [X|[]] & _)]; [auto|discriminate].
            -- intros [->|(j & X & _)]; [auto|cbn in X; lia].
        + intros B I1 Le. destruct (Sz B I1) as [X Y]; [lia|auto|exact Le|]. split; [exact X|]. cbn [with_heap t_count length]. lia.
      - destruct (to_nat_S mx) as (n & En); [lia|]. rewrite En in *.
        pose proof (chain_spec W i o h S0 s0_closed s0_below s0_i n_ok n) as Ch.
        destruct (chain_graph i o (S n) h) as [[[tgs chi] cho] h1]. destruct Ch as ((R' & K) & Len). exists R'.
        pose proof (ch_at _ _ _ _ _ _ _ _ _ _ K) as At. fold N nu in At.
        assert (IE : forall a, In (Some a) (append_nodes [None] chi) <-> In (Some a) chi).
        { intros a. rewrite append_nodes_in. cbn [In]. intuition discriminate. }
        assert (OE : forall b, In (Some b) (fold_left (fun l tg => append_nodes l (snd tg)) tgs [None]) <-> exists t, In t tgs /\ In (Some b) (snd t)).
        { intros b. rewrite append_all_in. cbn [In]. intuition discriminate. }
        split.
        + cbn [with_heap t_heap]. split.
          * intros a Ia. pose proof (ch_in _ _ _ _ _ _ _ _ _ _ K a Ia). unfold h in *. lia.
          * apply K.
          * apply (ch_closed _ _ _ _ _ _ _ _ _ _ K).
          * intros a Ia. apply IE in Ia. apply (ch_e _ _ _ _ _ _ _ _ _ _ K), Ia.
          * intros a Ia. destruct (proj1 (OE a) Ia) as (t & It & Ia'). exact (ch_o _ _ _ _ _ _ _ _ _ _ K t a It Ia').
          * intros _. apply append_all_in. left. left. reflexivity.
          * intros w. rewrite <- (Lg w). unfold glang. assert (In None (append_nodes [None] chi)) by (apply append_nodes_in; left; left; reflexivity).
            assert (between W h1 (append_nodes [None] chi) (fold_left (fun l tg => append_nodes l (snd tg)) tgs [None]) w <-> exists j, j < S n /\ cnt nu N (S j) w); [|tauto].
            unfold between at 1, upto. setoid_rewrite IE. setoid_rewrite OE. split.
            -- intros (b & (t & It & Ib) & H1). apply In_nth_error in It as (j & Ej). exists j.
               split; [rewrite <- Len; apply nth_error_Some; congruence|]. apply (At j t Ej). exists b. auto.
            -- intros (j & Lj & P). destruct (nth_error tgs j) as [t|] eqn:Ej; [|apply nth_error_None in Ej; lia].
               destruct (proj2 (At j t Ej w) P) as (b & Ib & H1). exists b. split; [exists t; split; [eapply nth_error_In; exact Ej|exact Ib]|exact H1].
        + cbn [with_heap t_heap]. apply (ch_frame _ _ _ _ _ _ _ _ _ _ K).
        + cbn [with_heap t_heap]. intros a La _. apply (proj2 (ch_frame _ _ _ _ _ _ _ _ _ _ K)), La.
        + intros a Ia. right. apply (ch_in _ _ _ _ _ _ _ _ _ _ K a Ia).
        + exact E2.
        + intros B I1 Le. destruct (Sz B I1) as [X Y]; [lia|auto|exact Le|]. cbn [with_heap t_count]. split; [exact X|].
          pose proof (ch_size _ _ _ _ _ _ _ _ _ _ K) as Q. rewrite Len in Q. split; nia.
    Qed.

    Lemma build_inf st1 : (1 <= mn)%Z -> (mn <= o_threshold opts)%Z -> mx = inf -> reserve_clones opts mn i st = Some st1 ->
      let '(tgs, chi, cho, h1) := chain_graph i o (Z.to_nat mn) h in
      exists R', built lo R st (with_heap st1 (link push_new h1 (snd (last tgs ([], []))) (fst (last tgs ([], []))))) R'
        (append_nodes [] chi) (append_nodes [] cho) (reps L mn mx).
    Proof.
      intros M0 Mt -> Er. pose proof lang_n as LN. pose proof (size_count mn st1 Er) as Sz.
      destruct (reserve_clones_spec opts mn i st st1 R Er) as (E1 & E2 & _).
      destruct (to_nat_S mn) as (n & En); [lia|]. rewrite En in *.
      pose proof (chain_spec W i o h S0 s0_closed s0_below s0_i n_ok n) as Ch.
      destruct (chain_graph i o (S n) h) as [[[tgs chi] cho] h1]. destruct Ch as ((R' & K) & Len). exists R'.
      pose proof (chain_f_between _ _ _ _ _ _ _ _ _ _ K) as FB. rewrite Len in FB. fold N nu in FB.
      destruct (ch_last _ _ _ _ _ _ _ _ _ _ K) as (Rl & L1 & L2 & L3 & L4 & L5 & L6). fold N in L5.
      pose proof (ch_at _ _ _ _ _ _ _ _ _ _ K) as At. pose proof (ch_ne _ _ _ _ _ _ _ _ _ _ K) as Ne.
      pose proof (At _ _ (last_nth tgs ([], []) Ne)) as AtL. replace (S (length tgs - 1)) with (S n) in AtL by lia. fold N nu in AtL. clear At.
      pose proof (last_in tgs ([], []) Ne) as LI. set (tl := last tgs ([], [])) in *.
      destruct (link_spec push_new h1 (snd tl) (fst tl) adds_new) as (Ln & Lab & Oth & _).
      pose proof (ch_in _ _ _ _ _ _ _ _ _ _ K) as KI.
      assert (Be : below h1 Rl) by (intros a Ia; apply KI, L1, Ia).
      assert (Edg := link_edges push_new h1 (snd tl) (fst tl) Rl adds_new L4 Be).
      set (h2 := link push_new h1 (snd tl) (fst tl)) in *.
      assert (IE : forall p, In p (append_nodes [] chi) <-> In p chi) by (intros p; rewrite append_nodes_in; cbn; tauto).
      assert (OE : forall p, In p (append_nodes [] cho) <-> In p cho) by (intros p; rewrite append_nodes_in; cbn; tauto).
      pose proof (ch_frame _ _ _ _ _ _ _ _ _ _ K) as Fr. pose proof (ch_f _ _ _ _ _ _ _ _ _ _ K) as Ff. fold nu in Ff.
      assert (FR : forall b, In (Some b) cho -> exists t, In t tgs /\ In (Some b) (snd t)).
      { intros b Ib. apply Ff in Ib. destruct nu; [exact Ib|]. exists tl. auto. }
      split; cbn [with_heap t_heap].
      - split.
        + intros a Ia. rewrite Ln. specialize (KI a Ia). unfold h in *. lia.
        + apply K.
        + intros a b Ia E. apply Edg in E as [E|[_ E]]; [eapply (ch_closed _ _ _ _ _ _ _ _ _ _ K); eassumption|apply L1, L3, E].
        + intros a Ia. apply IE in Ia. apply (ch_e _ _ _ _ _ _ _ _ _ _ K), Ia.
        + intros a Ia. apply OE, FR in Ia as (t & It & Ia). eapply (ch_o _ _ _ _ _ _ _ _ _ _ K); eassumption.
        + rewrite IE, OE, (ch_en _ _ _ _ _ _ _ _ _ _ K). apply (ch_fn _ _ _ _ _ _ _ _ _ _ K).
        + intros w. rewrite (reps_ext L _ mn inf LN w).
          transitivity (exists k, S n <= k /\ l_pow (opt nu N) k w).
          * rewrite <- (count_inf nu N (S n) w) by lia. unfold glang. rewrite IE, (ch_en _ _ _ _ _ _ _ _ _ _ K). fold nu.
            assert (between W h2 (append_nodes [] chi) (append_nodes [] cho) w <-> between W h2 chi cho w) as -> by (unfold between, upto; setoid_rewrite IE; setoid_rewrite OE; reflexivity).
            rewrite (loop_between W h1 h2 (fst tl) (snd tl) Rl Lab (fst tl) (fun a => iff_refl _) Edg chi cho w L3 L2).
            -- rewrite (FB w). apply or_iff_compat_l. apply or_iff_compat_l.
               split; intros (u & v & m & -> & P1 & Lm & P2); exists u, v, m; (split; [reflexivity|]); (split; [apply AtL; exact P1|]); (split; [exact Lm|]); apply (l_pow_ext _ _ m L5); exact P2.
            -- intros b Ib. apply Ff. destruct nu; [exists tl; auto|exact Ib].
            -- intros b Ib Rb. apply FR in Ib as (t & It & Ib). eapply L6; eassumption.
          * unfold reps. split; intros (k & P); exists k; [destruct P; split; [lia|]; split; [left; reflexivity|assumption]|]. split; [lia|apply P].
      - rewrite Ln. apply Fr.
      - intros a La _. rewrite Oth; [apply (proj2 Fr), La|]. intros X. apply L4, L1, KI in X. unfold h in X. lia.
      - intros a Ia. right. apply (KI a Ia).
      - exact E2.
      - intros B I1 Le. destruct (Sz B I1) as [X Y]; [lia|auto|exact Le|]. cbn [with_heap t_count]. split; [exact X|].
        pose proof (ch_size _ _ _ _ _ _ _ _ _ _ K) as Q. rewrite Len in Q. split; nia.
    Qed.

    (** The first [mn] copies of a bounded repetition. *)
    Lemma build_first st1 fi fo : (1 <= mn)%Z -> (mn <= o_threshold opts)%Z ->
      (if (1 <? mn)%Z then
         match reserve_clones opts mn i st with
         | None => None
         | Some st1 => let '(_, fi, lo, h1) := chain_graph i o (Z.to_nat mn) h in Some (fi, lo, with_heap st1 h1)
         end
       else Some (i, o, st)) = Some (fi, fo, st1) ->
      exists R', agree S0 h (t_heap st1) /\ t_buf st1 = t_buf st /\ length h <= length (t_heap st1) /\
        (forall a, a < length h -> nth_error (t_heap st1) a = nth_error h a) /\
        (forall a, In a R' -> (In a R \/ length h <= a) /\ lo <= a < length (t_heap st1)) /\ NoDup R' /\ closed (t_heap st1) R' /\
        (forall a, In (Some a) fi -> In a R') /\ (forall a, In (Some a) fo -> In a R') /\ (In None fi <-> nu = true) /\ (nu = true -> In None fo) /\
        leq (between W (t_heap st1) fi fo) (cnt nu N (Z.to_nat mn)) /\
        (budget opts -> in_budget opts st -> (Z.of_nat (length R) <= t_count st)%Z ->
          in_budget opts st1 /\ (t_count st <= t_count st1)%Z /\ (Z.of_nat (length R') <= Z.of_nat (length R) + (t_count st1 - t_count st))%Z).
    Proof.
      intros M0 Mt E. destruct (Z.ltb_spec 1 mn) as [M1|M1].
      - destruct (reserve_clones opts mn i st) as [st1'|] eqn:Er; [|discriminate]. pose proof (size_count mn st1' Er) as Sz.
        destruct (reserve_clones_spec opts mn i st st1' R Er) as (E1 & E2 & _).
        destruct (to_nat_S mn) as (n & En); [lia|]. rewrite En in *.
        pose proof (chain_spec W i o h S0 s0_closed s0_below s0_i n_ok n) as Ch.
        destruct (chain_graph i o (S n) h) as [[[tgs chi] cho] h1]. injection E as <- <- <-. destruct Ch as ((R' & K) & Len). exists R'.
        cbn [with_heap t_heap t_buf t_count]. pose proof (chain_f_between _ _ _ _ _ _ _ _ _ _ K) as FB. rewrite Len in FB. fold N nu in FB.
        pose proof (ch_frame _ _ _ _ _ _ _ _ _ _ K) as Fr. pose proof (ch_in _ _ _ _ _ _ _ _ _ _ K) as KI.
        split; [intros a Ia; apply (proj2 Fr), s0_below, Ia|]. split; [exact E2|]. split; [apply Fr|]. split; [apply Fr|].
        split; [intros a Ia; specialize (KI a Ia); split; [right; lia|unfold h in *; lia]|].
        split; [apply K|]. split; [apply (ch_closed _ _ _ _ _ _ _ _ _ _ K)|]. split; [apply (ch_e _ _ _ _ _ _ _ _ _ _ K)|].
        split. { intros a Ia. apply (ch_f _ _ _ _ _ _ _ _ _ _ K) in Ia. destruct (has_empty i).
          - destruct Ia as (t & It & Ia). eapply (ch_o _ _ _ _ _ _ _ _ _ _ K); eassumption.
          - eapply (ch_o _ _ _ _ _ _ _ _ _ _ K); [apply last_in, (ch_ne _ _ _ _ _ _ _ _ _ _ K)|exact Ia]. }
        split; [apply (ch_en _ _ _ _ _ _ _ _ _ _ K)|]. split; [apply (ch_fn _ _ _ _ _ _ _ _ _ _ K)|]. split; [exact FB|].
        intros B I1 Le. destruct (Sz B I1) as [X Y]; [lia|auto|exact Le|]. split; [exact X|].
        pose proof (ch_size _ _ _ _ _ _ _ _ _ _ K) as Q. rewrite Len in Q. split; nia.
      - injection E as <- <- <-. exists R. assert (mn = 1%Z) as -> by lia. destruct G as [A1 A2 A3 A4 A5 A6 A7].
        split; [intros a Ia; reflexivity|]. split; [reflexivity|]. split; [fold h; lia|]. split; [reflexivity|].
        split; [auto|]. split; [exact A2|]. split; [exact A3|]. split; [exact A4|]. split; [exact A5|]. split; [exact nu_none|].
        split; [intros X; apply A6, nu_none, X|]. split; [|intros B I1 _; split; [exact I1|lia]].
        intros w. fold h N. unfold cnt. change (Z.to_nat 1) with 1. destruct nu; split.
        + intros H. exists 1. split; [lia|apply l_pow_one, H].
        + intros (m & Lm & P). assert (m = 1) as -> by lia. apply (l_pow_one N), P.
        + intros H. apply l_pow_one, H.
        + intros P. apply (l_pow_one N), P.
    Qed.
  End One.

  Lemma rep_build_spec lo st R i o L mn mx I O st' : gr W lo (t_heap st) R i o L -> lo <= length (t_heap st) -> (0 <= mn)%Z -> (mx = inf \/ (0 <= mx)%Z) ->
    rep_build opts mn mx i o st = T_ok I O st' -> exists R', built lo R st st' R' I O (reps L mn mx).
  Proof.
    intros G Lo Mn Mx. unfold rep_build.
    assert (AN : forall l p, In p (append_nodes [None] l) <-> p = None \/ In p l) by (intros l p; rewrite append_nodes_in; cbn; intuition).
    assert (A0 : forall l p, In p (append_nodes [] l) <-> In p l) by (intros l p; rewrite append_nodes_in; cbn; tauto).
    destruct (Z.eqb_spec mn 0) as [M0|M0].
    - destruct (Z.eqb_spec mx 1) as [X1|X1].
      + intros E. injection E as <- <- <-. exists R. apply (build_opt lo st R i o L mn mx G); auto.
      + destruct (Z.eqb_spec mx inf) as [X2|X2].
        * intros E. injection E as <- <- <-. exists R. apply (build_star lo st R i o L mn mx G); auto.
          intros a. rewrite A0. apply drop_none_some.
        * destruct (Z.ltb_spec (o_threshold opts) mx) as [T|T]; [discriminate|].
          destruct (reserve_clones opts mx i st) as [st1|] eqn:Er; [|discriminate].
          assert (X3 : (0 <= mx)%Z) by (destruct Mx; [contradiction|assumption]).
          pose proof (build_0n lo st R i o L mn mx G Lo st1 X3 T M0 Er) as B. destruct (chain_graph i o (Z.to_nat mx) (t_heap st)) as [[[tgs chi] cho] h1].
          intros E. injection E as <- <- <-. exact B.
    - destruct (Z.eqb_spec mx 1) as [X1|X1].
      + destruct (Z.eqb_spec mn 1) as [M1|M1]; [|discriminate]. intros E. injection E as <- <- <-. exists R. apply (build_one lo st R i o L mn mx G); auto.
      + destruct (Z.eqb_spec mx inf) as [X2|X2].
        * destruct (Z.ltb_spec (o_threshold opts) mn) as [T|T]; [discriminate|].
          destruct (reserve_clones opts mn i st) as [st1|] eqn:Er; [|discriminate].
          assert (M1 : (1 <= mn)%Z) by lia.
          pose proof (build_inf lo st R i o L mn mx G Lo st1 M1 T X2 Er) as B. destruct (chain_graph i o (Z.to_nat mn) (t_heap st)) as [[[tgs chi] cho] h1].
          intros E. injection E as <- <- <-. exact B.
        * destruct (Z.ltb_spec mx mn) as [M2|M2]; [discriminate|]. destruct (Z.ltb_spec (o_threshold opts) mx) as [T|T]; [discriminate|].
          cbv zeta. set (first := if (1 <? mn)%Z then _ else _). assert (Ef : first = first) by reflexivity. unfold first at 2 in Ef.
          destruct first as [[[fi fo] st1]|]; [|discriminate]. symmetry in Ef.
          destruct (build_first lo st R i o L mn G Lo st1 fi fo ltac:(lia) ltac:(lia) Ef)
            as (R1 & F1 & F2 & F3 & F4 & F5 & F6 & F7 & F8 & F9 & F10 & F11 & F12 & F13). clear Ef.
          pose proof (lang_n lo st R i o L G) as LN.
          set (h := t_heap st) in *. set (N := between W h i o) in *. set (nu := has_empty i) in *. set (S0 := seen_from h i) in *.
          assert (M1 : 1 <= Z.to_nat mn) by lia.
          destruct (Z.ltb_spec 0 (mx - mn)) as [D|D].
          -- destruct (reserve_clones opts (mx - mn) i st1) as [st2|] eqn:Er; [|discriminate].
             destruct (reserve_clones_spec opts (mx - mn) i st1 st2 S0 Er) as (E1 & E2 & _). rewrite E1.
             set (h1 := t_heap st1) in *. destruct (to_nat_S (mx - mn) D) as (n & En). rewrite En.
             set (S1 := seen_from h1 i).
             assert (S1c : closed h1 S1) by apply reachable_closed.
             assert (S1i : forall a, In (Some a) i -> In a S1) by apply reachable_closed.
             assert (C1 : closed h1 S0) by (eapply agree_closed; [exact F1|apply (s0_closed st i)]).
             assert (S0i : forall a, In (Some a) i -> In a S0) by apply (s0_i st i).
             assert (S1s : forall a, In a S1 -> In a S0).
             { apply (count_loop_in h1 (fun a => In a S0)); [exact C1| |intros b []]. intros b Ib. apply S0i, somes_in. apply in_rev. exact Ib. }
             assert (S1b : below h1 S1) by (intros a Ia; pose proof (s0_below lo st R i o L G a (S1s a Ia)); fold h in H; lia).
             pose proof (chain_spec W i o h1 S1 S1c S1b S1i (n_ok lo st R i o L G) n) as Ch.
             destruct (chain_graph i o (S n) h1) as [[[tgs chi] cho] h2]. intros E. injection E as <- <- <-.
             destruct Ch as ((R2 & K) & Len).
             assert (NE : leq (between W h1 i o) N).
             { intros w. symmetry. apply (between_agree W S0 h h1 i o w (s0_closed st i) F1 S0i). }
             pose proof (ch_frame _ _ _ _ _ _ _ _ _ _ K) as Fr. pose proof (ch_in _ _ _ _ _ _ _ _ _ _ K) as KI.
             pose proof (ch_at _ _ _ _ _ _ _ _ _ _ K) as At. fold nu in At.
             pose proof (ch_closed _ _ _ _ _ _ _ _ _ _ K) as KC. pose proof (ch_e _ _ _ _ _ _ _ _ _ _ K) as KE. pose proof (ch_o _ _ _ _ _ _ _ _ _ _ K) as KO.
             assert (D12 : forall a, In a R1 -> ~ In a R2) by (intros a X Y; specialize (KI a Y); destruct (F5 a X) as (_ & ?); lia).
             assert (Ag : agree R1 h1 h2) by (intros a Ia; apply (proj2 Fr); apply F5, Ia).
             assert (RC1 : closed h2 R1) by (eapply agree_closed; eassumption).
             destruct (link_spec push_new h2 fo chi adds_new) as (Ln & Lab & Oth & _).
             assert (Be : below h2 R1) by (intros a Ia; destruct (F5 a Ia) as (_ & ?); destruct Fr; lia).
             assert (Edg := link_edges push_new h2 fo chi R1 adds_new F9 Be).
             set (h3 := link push_new h2 fo chi) in *.
             assert (OE : forall p, In p (fold_left (fun l tg => append_nodes l (snd tg)) tgs (append_nodes [] fo)) <-> In p fo \/ exists t, In t tgs /\ In p (snd t)).
             { intros p. rewrite append_all_in, A0. reflexivity. }
             exists (R1 ++ R2). split; cbn [with_heap t_heap].
             ++ split.
                ** intros a Ia. rewrite Ln. destruct Fr as [Fr1 _]. apply in_app_or in Ia as [Ia|Ia]; [destruct (F5 a Ia) as (_ & ?); lia|specialize (KI a Ia); lia].
                ** apply nodup_app; [exact F6|apply K|exact D12].
                ** exact (closed_apart h2 h3 fo chi Edg R1 R2 RC1 KC KE).
                ** intros a Ia. apply in_or_app. left. apply F8, A0, Ia.
                ** intros a Ia. apply in_or_app. apply OE in Ia as [Ia|(t & It & Ia)]; [left; apply F9, Ia|right; eapply KO; eassumption].
                ** rewrite A0, OE, F10. auto.
                ** intros w. rewrite (reps_ext L _ mn mx LN w). transitivity (exists k, Z.to_nat mn <= k <= Z.to_nat mn + S n /\ l_pow (opt nu N) k w).
                   2: { unfold reps. split; intros (k & P); exists k; [destruct P as [P1 P2]; split; [lia|]; split; [right; lia|exact P2]|].
                        destruct P as (P1 & [P2|P2] & P3); [contradiction|]. split; [lia|exact P3]. }
                   rewrite <- (count_nm nu N (Z.to_nat mn) (S n) w M1). unfold glang. rewrite A0, F10. apply or_iff_compat_l.
                   assert (IE : forall a, In (Some a) (append_nodes [] fi) -> In a R1 \/ In a R2) by (intros a Ia; left; apply F8, A0, Ia).
                   assert (U : forall b v, In b R1 -> (upto W h2 (append_nodes [] fi) b v <-> upto W h1 fi b v)).
                   { intros b v Ib. unfold upto. setoid_rewrite A0. split; intros (a & Ia & H); exists a; (split; [exact Ia|]); apply (run_agree W R1 h1 h2 a b v F7 Ag (F8 a Ia)); exact H. }
                   unfold between at 1. split.
                   --- intros (b & Ib & H). apply OE in Ib as [Ib|(t & It & Ib)].
                       +++ left. apply F12. exists b. split; [exact Ib|]. apply U; [apply F9, Ib|].
                           apply (upto_left W h2 h3 fo chi Lab Edg R1 R2 KC D12 F9 KE _ b w (F9 b Ib)). exact H.
                       +++ right. apply In_nth_error in It as (j & Ej). exists j. split; [rewrite <- Len; apply nth_error_Some; congruence|].
                           assert (Ib2 : In b R2) by (eapply KO; [eapply nth_error_In; exact Ej|exact Ib]).
                           apply (upto_right W h2 h3 fo chi Lab Edg R1 R2 KC D12 F9 KE _ b w IE Ib2) in H as [(a & Ia & H)|(u & v & -> & (x & Ix & H) & J)].
                           *** exfalso. apply (D12 b); [|exact Ib2]. eapply run_closed; [exact RC1|exact H|apply F8, A0, Ia].
                           *** exists u, v. split; [reflexivity|]. split; [apply F12; exists x; split; [exact Ix|apply U; [apply F9, Ix|exact H]]|].
                               apply (cnt_ext nu _ _ (S j) NE). apply (At j t Ej). exists b. auto.
                   --- intros [P|(j & Lj & u & v & -> & P & Q)].
                       +++ apply F12 in P as (b & Ib & H). exists b. split; [apply OE; auto|].
                           apply (upto_left W h2 h3 fo chi Lab Edg R1 R2 KC D12 F9 KE _ b w (F9 b Ib)). apply U; [apply F9, Ib|exact H].
                       +++ apply F12 in P as (x & Ix & P). apply (cnt_ext nu _ _ (S j) NE) in Q.
                           destruct (nth_error tgs j) as [t|] eqn:Ej; [|apply nth_error_None in Ej; lia]. destruct (proj2 (At j t Ej v) Q) as (b & Ib & Q').
                           assert (It : In t tgs) by (eapply nth_error_In; exact Ej).
                           exists b. split; [apply OE; right; eauto|].
                           apply (upto_right W h2 h3 fo chi Lab Edg R1 R2 KC D12 F9 KE _ b _ IE (KO t b It Ib)). right.
                           exists u, v. split; [reflexivity|]. split; [|exact Q']. exists x. split; [exact Ix|apply U; [apply F9, Ix|exact P]].
             ++ rewrite Ln. destruct Fr as [Fr1 _]. unfold h in F3. lia.
             ++ intros a La Na. rewrite Oth.
                ** rewrite (proj2 Fr) by (unfold h in F3; lia). apply F4, La.
                ** intros X. destruct (F5 a (F9 a X)) as ([Y|Y] & _); [contradiction|unfold h in Y; lia].
             ++ intros a Ia. apply in_app_or in Ia as [Ia|Ia]; [apply (F5 a Ia)|right; specialize (KI a Ia); unfold h in *; lia].
             ++ cbn [with_heap t_buf]. congruence.
             ++ intros B I1 Le. destruct (F13 B I1 Le) as (X1' & X2' & X3').
                assert (NR : NoDup R) by apply G.
                assert (Sub : length S1 <= length R).
                { apply NoDup_incl_length; [apply count_loop_nodup; constructor|]. intros a Ia. apply (s0_sub lo st R i o L G), S1s, Ia. }
                destruct (reserve_clones_spec opts (mx - mn) i st1 st2 S1 Er) as (_ & _ & X4).
                destruct X4 as (X5 & X6); [exact B|exact X1'|lia|left; lia|exact S1c|exact S1i|apply count_loop_nodup; constructor|lia|].
                cbn [with_heap t_count]. split; [exact X5|]. pose proof (ch_size _ _ _ _ _ _ _ _ _ _ K) as Q. rewrite Len in Q.
                change (seen_from (t_heap st1) i) with S1 in X6. rewrite app_length. rewrite X6. split; nia.
          -- intros E. injection E as <- <- <-. exists R1. split.
             ++ split.
                ** intros a Ia. apply (F5 a Ia).
                ** exact F6.
                ** exact F7.
                ** intros a Ia. apply F8, A0, Ia.
                ** intros a Ia. apply F9, A0, Ia.
                ** rewrite !A0, F10. exact F11.
                ** intros w. rewrite (reps_ext L _ mn mx LN w). transitivity (exists k, Z.to_nat mn <= k <= Z.to_nat mn + 0 /\ l_pow (opt nu N) k w).
                   2: { unfold reps. split; intros (k & P); exists k; [destruct P as [P1 P2]; split; [lia|]; split; [right; lia|exact P2]|].
                        destruct P as (P1 & [P2|P2] & P3); [contradiction|]. split; [lia|exact P3]. }
                   rewrite <- (count_nm nu N (Z.to_nat mn) 0 w M1). unfold glang. rewrite A0, F10. apply or_iff_compat_l.
                   assert (between W (t_heap st1) (append_nodes [] fi) (append_nodes [] fo) w <-> between W (t_heap st1) fi fo w) as -> by (unfold between, upto; setoid_rewrite A0; reflexivity).
                   rewrite (F12 w). split; [auto|]. intros [P|(j & Lj & _)]; [exact P|lia].
             ++ exact F3.
             ++ intros a La _. apply F4, La.
             ++ intros a Ia. apply (F5 a Ia).
             ++ exact F2.
             ++ exact F13.
  Qed.
End Repeat.
