(** Proofs about the cost of the analyses. Its definitions are means of proof and model no code. *)
From Coq Require Import ZArith Arith String Ascii Bool Relations Sorted List Lia.
From Verif Require Import Syntax Spec Utf8 Num Tape Deps Dag Cycle Occ Slots PropTerm PropGll TreeSpec LeftRec Ast AstCost AnaCost.
Import ListNotations.
Local Open Scope string_scope.
Local Open Scope list_scope.
Local Open Scope nat_scope.

(** ** The calls of strongconnect *)
Section Tarjan.
  Variable dg : depgraph.
  Definition fresh (st : tstate) : Prop :=
    (t_next st = 0 /\ forall x, t_index st x = 0) \/ (1 <= t_next st /\ t_next st + whites dg st <= S (length dg)).

  Lemma enter_fresh v st : fresh st -> node_in dg v -> t_index st v = 0 -> fresh (enter v st).
  Proof.
    intros [[N Z]|[N L]] D I; right; cbn [enter t_next].
    - rewrite N. split; [lia|]. assert (whites dg (enter v st) <= length dg); [|lia].
      unfold whites. rewrite <- (map_length fst dg). apply filter_le_length.
    - split; [lia|]. assert (whites dg (enter v st) < whites dg st); [|lia]. apply whites_lt with (y := v); auto.
      + intros x. unfold visited. cbn [enter t_index]. unfold upd. destruct (String.eqb x v); [lia|auto].
      + unfold visited. cbn [enter t_index]. unfold upd. rewrite String.eqb_refl. clear -N. lia.
  Qed.
  Lemma fresh_same st st' : t_next st' = t_next st -> t_index st' = t_index st -> fresh st -> fresh st'.
  Proof. intros E1 E2. unfold fresh, whites. rewrite E1, E2. auto. Qed.

  Lemma strong_fresh fuel : forall v st st', fresh st -> node_in dg v -> t_index st v = 0 ->
    strongconnect dg fuel v st = TOk st' -> fresh st'.
  Proof.
    induction fuel as [|f IH]; intros v st st' F D I E; cbn [strongconnect] in E; [discriminate|].
    assert (L : forall deps s s', fresh s -> deps_loop dg (strongconnect dg f) v deps s = TOk s' -> fresh s').
    { induction deps as [|w deps IHd]; intros s s' Fs Es; cbn [deps_loop] in Es; [injection Es as <-; auto|].
      destruct (dg_get w dg) as [nd|] eqn:G; [|eauto].
      destruct (Nat.eqb_spec (t_index s w) 0) as [Zw|Zw].
      - destruct (strongconnect dg f w s) as [s1| |] eqn:E1; try discriminate.
        eapply IHd; [|exact Es]. eapply fresh_same; [| |eapply IH; [exact Fs| |exact Zw|exact E1]]; auto.
        apply dg_get_in. eauto.
      - destruct (t_on s w); [|eauto]. eapply IHd; [|exact Es]. eapply fresh_same; [| |exact Fs]; auto. }
    destruct (deps_loop dg (strongconnect dg f) v (deps_of dg v) (enter v st)) as [s2| |] eqn:Ed; try discriminate.
    apply L in Ed; [|apply enter_fresh; auto]. unfold leave in E.
    destruct (t_low s2 v =? t_index s2 v); [|injection E as <-; auto].
    destruct (pop_until v (t_stack s2) (t_on s2) []) as [[[sk on] scc]|]; [|discriminate]. injection E as <-.
    eapply fresh_same; [| |exact Ed]; auto.
  Qed.
  Lemma find_fresh fuel : forall order st st', fresh st -> (forall x, In x order -> node_in dg x) ->
    find_sccs dg fuel order st = TOk st' -> fresh st'.
  Proof.
    induction order as [|v order IH]; intros st st' F D E; cbn [find_sccs] in E; [injection E as <-; auto|].
    destruct (Nat.eqb_spec (t_index st v) 0) as [Z|Z].
    - destruct (strongconnect dg fuel v st) as [s1| |] eqn:E1; try discriminate.
      eapply IH; [| |exact E]; [|intros; apply D; right; auto]. eapply strong_fresh; [exact F| |exact Z|exact E1]. apply D. left. auto.
    - eapply IH; [exact F| |exact E]. intros; apply D; right; auto.
  Qed.
  Lemma tarjan_calls order st : (forall x, In x order -> node_in dg x) -> tarjan dg order = TOk st -> t_next st <= S (length dg).
  Proof.
    intros D E. assert (F : fresh st).
    { eapply find_fresh; [|exact D|exact E]. left. split; auto. }
    destruct F as [[-> _]|[_ L]]; lia.
  Qed.
End Tarjan.

(** ** The calls of ruleCycleVisit *)
Section Visit.
  Variable dg : depgraph.
  Variable sccs : list (list string).

  Lemma visits_same fuel : forall key vis, rule_cycle_visit dg sccs fuel key vis =
    match rule_cycle_visits dg sccs fuel key vis with Some (b, v, _) => Some (b, v) | None => None end.
  Proof.
    induction fuel as [|f IH]; intros key vis; cbn [rule_cycle_visit rule_cycle_visits]; auto.
    destruct (mem_str key vis); auto. destruct (node_of dg sccs key) as [nd|]; auto. destruct (existsb _ (dn_deps nd)); auto.
    destruct (in_cycle sccs key); auto. generalize (key :: vis) 1. generalize (dn_deps nd).
    induction l as [|d l IHl]; intros v n; cbn [visit_deps visits_deps]; auto. destruct (String.eqb (lower d) key); auto.
    rewrite IH. destruct (rule_cycle_visits dg sccs f (lower d) v) as [[[[|] v'] k]|]; auto.
  Qed.

  Definition fan (x : string) : nat := length (deps_of dg x).
  Definition fans (l : list string) : nat := list_sum (map fan l).
  Lemma fans_cons x l : fans (x :: l) = fan x + fans l.
  Proof. reflexivity. Qed.
  Lemma visits_bound fuel : forall key vis b vis' n, NoDup vis -> rule_cycle_visits dg sccs fuel key vis = Some (b, vis', n) ->
    NoDup vis' /\ n + fans vis <= 1 + fans vis'.
  Proof.
    induction fuel as [|f IH]; intros key vis b vis' n N E; cbn [rule_cycle_visits] in E; [discriminate|].
    destruct (mem_str key vis) eqn:M; [injection E as <- <- <-; split; auto; lia|].
    assert (N1 : NoDup (key :: vis)).
    { constructor; auto. intros H. apply mem_str_in in H. congruence. }
    pose proof (fans_cons key vis) as Fc.
    destruct (node_of dg sccs key) as [nd|] eqn:G; [|injection E as <- <- <-; split; auto; lia].
    destruct (existsb _ (dn_deps nd)); [injection E as <- <- <-; split; auto; lia|].
    destruct (in_cycle sccs key); [injection E as <- <- <-; split; auto; lia|].
    assert (Fk : fan key = length (dn_deps nd)).
    { unfold node_of in G. destruct (existsb (mem_str key) sccs); [|discriminate]. unfold fan, deps_of. rewrite G. reflexivity. }
    assert (L : forall l v m b' v' m', NoDup v -> visits_deps (rule_cycle_visits dg sccs f) key l v m = Some (b', v', m') ->
      NoDup v' /\ m' + fans v <= m + length l + fans v').
    { induction l as [|d l IHl]; intros v m b' v' m' Nv Ev; cbn [visits_deps] in Ev; [injection Ev as <- <- <-; split; auto; lia|]. cbn [length].
      destruct (String.eqb (lower d) key); [destruct (IHl _ _ _ _ _ Nv Ev); split; auto; lia|].
      destruct (rule_cycle_visits dg sccs f (lower d) v) as [[[[|] v1] k]|] eqn:E1; [|..|discriminate]; destruct (IH _ _ _ _ _ Nv E1) as [N2 L2].
      - injection Ev as <- <- <-. split; auto. lia.
      - destruct (IHl _ _ _ _ _ N2 Ev). split; auto. lia. }
    destruct (L _ _ _ _ _ _ N1 E) as [N2 L2]. split; auto. lia.
  Qed.
End Visit.

(** Distinct keys have distinct nodes. *)
Definition all_deps (dg : depgraph) : nat := list_sum (map (fun kv => length (dn_deps (snd kv))) dg).
Lemma fans_all dg : forall l, NoDup l -> fans dg l <= all_deps dg.
Proof.
  induction dg as [|[k nd] m IH]; intros l N.
  - induction l as [|x l IHl]; [cbn; lia|]. rewrite fans_cons. inversion N; subst. etransitivity; [|apply IHl; auto]. cbn; lia.
  - assert (H : fans ((k, nd) :: m) l <= (if in_dec string_dec k l then length (dn_deps nd) else 0) + fans m (remove string_dec k l)).
    { clear IH. induction l as [|x l IHl]; [cbn; lia|]. inversion N as [|? ? N1 N2]; subst. specialize (IHl N2). rewrite fans_cons.
      assert (Fx : fan ((k, nd) :: m) x = if String.eqb x k then length (dn_deps nd) else fan m x).
      { unfold fan, deps_of. cbn [dg_get]. destruct (String.eqb x k); reflexivity. }
      rewrite Fx. cbn [remove]. destruct (String.eqb_spec x k) as [->|Nx].
      - destruct (string_dec k k); [|congruence]. destruct (in_dec string_dec k l) as [I|_]; [contradiction|].
        destruct (in_dec string_dec k (k :: l)) as [_|Q]; [lia|]. exfalso. apply Q. left. auto.
      - destruct (string_dec k x); [congruence|]. rewrite fans_cons. destruct (in_dec string_dec k l) as [I|Q].
        + destruct (in_dec string_dec k (x :: l)) as [_|Q]; [lia|]. exfalso. apply Q. right. auto.
        + destruct (in_dec string_dec k (x :: l)) as [[I|I]|_]; [congruence|contradiction|lia]. }
    etransitivity; [exact H|].
    assert (N' : NoDup (remove string_dec k l)).
    { clear -N. induction N as [|x l I N IH]; cbn [remove]; [constructor|]. destruct (string_dec k x); auto. constructor; auto.
      intros H. apply in_remove in H as [H _]. auto. }
    specialize (IH _ N'). change (all_deps ((k, nd) :: m)) with (length (dn_deps nd) + all_deps m). destruct (in_dec string_dec k l); lia.
Qed.

(** ** The passes of NewASTGenerator *)
Local Open Scope Z_scope.
Section Passes.
  Variable g : grammar.
  Hypothesis Small : forall mn mx e, occ_rep g (Rep mn mx e) -> 0 <= mn <= 2 ^ 33.
  Variable M : costs.
  Hypothesis M_ok : cost_ok M.
  Hypothesis M_cov : covers g M.
  Hypothesis M_fix : forall r v, In r (effective g) -> cost_get M (rule_name r) = Some v -> cost_alt g M (rule_alt r) = v.

  (** A cost below the sentinel is found again in a table agreeing on what it is made of. *)
  Lemma agree_cost m B : cost_ok m -> (forall r v, In r (effective g) -> cost_get M (rule_name r) = Some v -> v < B -> cost_get m (rule_name r) = Some v) ->
    (forall e, occ_elem g e -> cost_elem g M e < unbounded -> cost_elem g M e <= B -> cost_elem g m e <= cost_elem g M e) /\
    (forall r, occ_rep g r -> cost_rep g M r < unbounded -> cost_rep g M r <= B -> cost_rep g m r <= cost_rep g M r).
  Proof.
    intros K A. apply elem_rep_ind.
    - intros n _. cbn [cost_elem]. destruct (get_rule n g) as [r|] eqn:G; [|lia].
      destruct (cost_get M (rule_name r)) as [c|] eqn:E; [|lia]. intros L1 L2. apply add_clamp_lt in L1 as (X1 & X2 & X3).
      rewrite (A r c (effective_in _ _ _ G) E) by lia. lia.
    - intros a F O L1 L2.
      assert (Eg : forall m, cost_elem g m (EGroup a) = min_cost (map (fun c => fold_left (fun t r => add_clamp t (cost_rep g m r)) c 0) a)) by reflexivity.
      rewrite Eg in L1, L2. rewrite !Eg. clear Eg.
      assert (Q : forall c, In c a -> fold_left (fun t r => add_clamp t (cost_rep g M r)) c 0 < unbounded ->
        fold_left (fun t r => add_clamp t (cost_rep g M r)) c 0 <= B ->
        fold_left (fun t r => add_clamp t (cost_rep g m r)) c 0 <= fold_left (fun t r => add_clamp t (cost_rep g M r)) c 0).
      { intros c C H1 H2. apply clamp_fold_mono; [|lia]. intros x X. split; [apply cost_nonneg; auto|].
        assert (P : forall y, In y c -> 0 <= cost_rep g M y) by (intros; apply cost_nonneg; auto).
        destruct (clamp_fold_lt (cost_rep g M) c P 0 ltac:(lia) H1) as [_ P2]. specialize (P2 x X).
        rewrite Forall_forall in F. specialize (F c C). rewrite Forall_forall in F. apply F; auto; [eapply occ_rep_group; eauto|lia|lia]. }
      destruct a as [|c0 a]; [cbn; lia|]. set (l := c0 :: a) in *.
      pose proof (min_cost_lt (map (fun c => fold_left (fun t r => add_clamp t (cost_rep g M r)) c 0) l) ltac:(discriminate) L1) as I.
      apply in_map_iff in I as (c & Ec & Ic). cbv beta in Ec. rewrite <- Ec in L1, L2 |- *.
      transitivity (fold_left (fun t r => add_clamp t (cost_rep g m r)) c 0); [|apply Q; auto].
      apply min_cost_le. apply in_map_iff. exists c. auto.
    - intros; cbn; lia.
    - intros; cbn; lia.
    - intros; cbn; lia.
    - intros; cbn; lia.
    - intros mn mx e IH O L1 L2.
      assert (Er : forall m, cost_rep g m (Rep mn mx e) = mul_clamp mn (cost_elem g m e)) by reflexivity.
      rewrite Er in L1, L2. rewrite !Er. clear Er. destruct (Small _ _ _ O) as [S1 S2].
      destruct (Z.eq_dec mn 0) as [->|N]; [unfold mul_clamp; cbn; lia|].
      pose proof (mul_clamp_ge mn (cost_elem g M e) ltac:(lia) ltac:(apply cost_nonneg; auto) L1) as Ge.
      apply mul_clamp_le; [lia|]. split; [apply cost_nonneg; auto|]. apply IH; [econstructor; eauto|lia|lia].
  Qed.
  Lemma agree_alt m a : cost_ok m -> (forall c x, In c a -> In x c -> occ_rep g x) -> cost_alt g M a < unbounded ->
    (forall r v, In r (effective g) -> cost_get M (rule_name r) = Some v -> v < cost_alt g M a -> cost_get m (rule_name r) = Some v) ->
    cost_alt g m a <= cost_alt g M a.
  Proof.
    intros K O L A. destruct (agree_cost m (cost_alt g M a) K A) as [_ P]. unfold cost_alt in *.
    destruct a as [|c0 a]; [cbn; lia|]. set (l := c0 :: a) in *.
    pose proof (min_cost_lt (map (cost_cat g M) l) ltac:(discriminate) L) as I. apply in_map_iff in I as (c & Ec & Ic). rewrite <- Ec in L |- *. rewrite <- Ec in P.
    transitivity (cost_cat g m c); [apply min_cost_le; apply in_map; auto|]. unfold cost_cat in *.
    assert (P1 : forall y, In y c -> 0 <= cost_rep g M y) by (intros; apply cost_nonneg; auto).
    destruct (clamp_fold_lt (cost_rep g M) c P1 0 ltac:(lia) L) as [_ P2].
    apply clamp_fold_mono; [|lia]. intros x X. split; [apply cost_nonneg; auto|]. apply P; [eauto|specialize (P2 x X); lia|auto].
  Qed.

  (** The rules cheaper than a cost. *)
  Definition val (r : rule) : Z := match cost_get M (rule_name r) with Some v => v | None => 0 end.
  Definition lvl (v : Z) : nat := length (filter (fun r => val r <? v) (effective g)).
  Lemma lvl_lt v r : In r (effective g) -> val r < v -> (lvl (val r) < lvl v)%nat.
  Proof.
    intros I L. apply filter_lt_mono with (y := r); auto.
    - intros x _ H. apply Z.ltb_lt in H. apply Z.ltb_lt. lia.
    - apply Z.ltb_irrefl.
    - apply Z.ltb_lt. auto.
  Qed.
  Lemma lvl_max r : In r (effective g) -> (lvl (val r) < length (effective g))%nat.
  Proof.
    intros I. unfold lvl. apply Nat.lt_le_trans with (length (filter (fun _ : rule => true) (effective g))); [|apply filter_le_length].
    apply filter_lt_mono with (y := r); auto. apply Z.ltb_irrefl.
  Qed.
  Lemma body_occ r : In r (effective g) -> forall c x, In c (rule_alt r) -> In x c -> occ_rep g x.
  Proof.
    intros I c x C X. apply effective_get in I. destruct (get_rule_name _ _ _ I) as [_ J]. eapply occ_rep_rule; eauto.
  Qed.

  (** The table [m] is above [M], and equal to it on the [t] cheapest rules. *)
  Definition above (m : costs) : Prop := cost_ok m /\ covers g m /\ cost_le M m.
  Definition settled (m : costs) (r : rule) : Prop := cost_get m (rule_name r) = Some (val r).
  Definition upto (t : nat) (m : costs) : Prop := forall r, In r (effective g) -> (lvl (val r) < t)%nat -> settled m r.

  Lemma above_step m r : above m -> In r (effective g) -> above (cost_set m (rule_name r) (cost_alt g m (rule_alt r))).
  Proof.
    intros (K & C & L) I. split; [|split].
    - intros n w. rewrite cost_get_set. destruct (String.eqb _ _); [|apply K]. intros E; injection E as <-. apply cost_alt_range; auto.
    - intros x X. rewrite cost_get_set. destruct (String.eqb _ _); eauto.
    - intros n v. rewrite cost_get_set. destruct (String.eqb_spec (rule_name r) n) as [<-|N]; [|apply L]. intros E; injection E as <-.
      destruct (M_cov r I) as (v & Ev). exists v. split; auto. rewrite <- (M_fix r v I Ev). apply cost_alt_mono; auto. apply body_occ; auto.
  Qed.
  Lemma val_get r : In r (effective g) -> cost_get M (rule_name r) = Some (val r).
  Proof. intros I. destruct (M_cov r I) as (v & Ev). unfold val. rewrite Ev. auto. Qed.
  Lemma above_val m r v : above m -> In r (effective g) -> cost_get m (rule_name r) = Some v -> val r <= v.
  Proof. intros (K & C & L) I E. destruct (L _ _ E) as (w & E1 & E2). rewrite (val_get r I) in E1. injection E1 as <-. auto. Qed.
  Lemma settled_step m r x : above m -> In r (effective g) -> In x (effective g) -> settled m x ->
    cost_alt g m (rule_alt r) < match cost_get m (rule_name r) with Some v => v | None => 0 end ->
    settled (cost_set m (rule_name r) (cost_alt g m (rule_alt r))) x.
  Proof.
    intros A I X S L. unfold settled in *. rewrite cost_get_set. destruct (String.eqb_spec (rule_name r) (rule_name x)) as [E|E]; auto.
    exfalso. pose proof (effective_get _ _ I) as G1. pose proof (effective_get _ _ X) as G2. rewrite E in G1. rewrite G1 in G2. injection G2 as ->.
    rewrite S in L. pose proof (above_val _ x (cost_alt g m (rule_alt x)) (above_step m x A X) X) as Q.
    rewrite cost_get_set, String.eqb_refl in Q. specialize (Q eq_refl). lia.
  Qed.

  Lemma pass_settles t rs : incl rs (effective g) -> forall m ch, above m -> upto t m ->
    let '(m', _) := cost_pass g rs m ch in
    above m' /\ (forall x, In x (effective g) -> settled m x -> settled m' x) /\
    (forall r, In r rs -> (lvl (val r) <= t)%nat -> settled m' r).
  Proof.
    induction rs as [|r rs IH]; intros Inc m ch A U; cbn [cost_pass].
    - split; auto. split; auto. intros ? [].
    - pose proof (Inc r (or_introl eq_refl)) as Ir. pose proof (fun x X => Inc x (or_intror X)) as Inc'.
      destruct A as (K & C & L). destruct (C r Ir) as (v & Ev). pose proof (above_val m r v (conj K (conj C L)) Ir Ev) as Lv.
      assert (Key : (lvl (val r) <= t)%nat -> cost_alt g m (rule_alt r) <= val r).
      { intros Ll. pose proof (M_fix r _ Ir (val_get r Ir)) as Ef.
        destruct (Z_lt_le_dec (val r) unbounded) as [Lu|Lu].
        - rewrite <- Ef. apply agree_alt; auto; [apply body_occ; auto|lia|]. intros x w X Ew Lw. rewrite Ef in Lw.
          assert (Vx : val x = w) by (unfold val; rewrite Ew; auto). rewrite <- Vx. apply U; auto.
          pose proof (lvl_lt (val r) x X ltac:(lia)). lia.
        - pose proof (cost_alt_range g m (rule_alt r) K). lia. }
      destruct (cost_alt g m (rule_alt r) <? match cost_get m (rule_name r) with Some v => v | None => 0 end) eqn:Lt.
      + apply Z.ltb_lt in Lt. pose proof (above_step m r (conj K (conj C L)) Ir) as A'.
        assert (U' : upto t (cost_set m (rule_name r) (cost_alt g m (rule_alt r)))).
        { intros x X Lx. apply settled_step; auto. split; auto. }
        specialize (IH Inc' _ true A' U'). destruct (cost_pass g rs _ true) as [m' ch']. destruct IH as (I1 & I2 & I3).
        split; auto. split.
        * intros x X S. apply I2; auto. apply settled_step; auto. split; auto.
        * intros x [<-|X] Lx; [|auto]. apply I2; auto. unfold settled. rewrite cost_get_set, String.eqb_refl. f_equal.
          pose proof (above_val _ r (cost_alt g m (rule_alt r)) A' Ir) as Q. rewrite cost_get_set, String.eqb_refl in Q. specialize (Q eq_refl). specialize (Key Lx). lia.
      + apply Z.ltb_ge in Lt. rewrite Ev in Lt.
        specialize (IH Inc' m ch (conj K (conj C L)) U). destruct (cost_pass g rs m ch) as [m' ch']. destruct IH as (I1 & I2 & I3).
        split; auto. split; auto. intros x [<-|X] Lx; [|auto]. apply I2; auto. unfold settled. rewrite Ev. f_equal. specialize (Key Lx). lia.
  Qed.
  Lemma pass_done rs : incl rs (effective g) -> forall m, above m -> (forall r, In r (effective g) -> settled m r) ->
    cost_pass g rs m false = (m, false).
  Proof.
    induction rs as [|r rs IH]; intros Inc m A S; cbn [cost_pass]; auto.
    pose proof (Inc r (or_introl eq_refl)) as Ir. rewrite (S r Ir).
    pose proof (above_val _ r (cost_alt g m (rule_alt r)) (above_step m r A Ir) Ir) as Q. rewrite cost_get_set, String.eqb_refl in Q. specialize (Q eq_refl).
    replace (cost_alt g m (rule_alt r) <? val r) with false by (symmetry; apply Z.ltb_ge; auto). apply IH; auto. intros x X; apply Inc; right; auto.
  Qed.

  Lemma loop_short ord fuel : any_order ord -> forall t s m, above m -> upto t m -> (t <= length (effective g))%nat ->
    (length (effective g) < fuel + t)%nat -> cost_loop fuel g ord s m <> None.
  Proof.
    intros Ord. induction fuel as [|f IH]; intros t s m A U L1 L2; [lia|]. cbn [cost_loop].
    assert (Inc : incl (ord s (effective g)) (effective g)) by (intros x X; apply (Ord s _ x); auto).
    destruct (Nat.eq_dec t (length (effective g))) as [Et|Nt].
    - rewrite (pass_done _ Inc m A); [discriminate|]. intros r I. apply U; auto. rewrite Et. apply lvl_max. auto.
    - pose proof (pass_settles t _ Inc m false A U) as P. destruct (cost_pass g (ord s (effective g)) m false) as [m' ch].
      destruct P as (P1 & P2 & P3). destruct ch; [|discriminate]. apply (IH (Datatypes.S t)); auto; try lia.
      intros r I Lr. apply P3; [apply Ord; auto|lia].
  Qed.
End Passes.

Lemma passes_bound g ord : (forall mn mx e, occ_rep g (Rep mn mx e) -> 0 <= mn <= 2 ^ 33) -> any_order ord ->
  exists m, cost_loop (S (length (effective g))) g ord 0 (initial_costs g) = Some m.
Proof.
  intros Small Ord. destruct (initial_ok g) as (K & C & N).
  destruct (loop_ends g ord Ord (S (Z.to_nat (total_cost (initial_costs g)))) 0 (initial_costs g) K C N ltac:(lia)) as (M & E).
  set (J := fun m => forall r v, In r (effective g) -> cost_get m (rule_name r) = Some v -> cost_alt g m (rule_alt r) <= v).
  assert (J0 : J (initial_costs g)).
  { intros r v I Ev. apply initial_get_inv in Ev. subst v. apply cost_alt_range. auto. }
  assert (St : forall m r, J m -> cost_ok m -> covers g m -> In r (effective g) ->
      cost_alt g m (rule_alt r) < match cost_get m (rule_name r) with Some v => v | None => 0 end ->
      J (cost_set m (rule_name r) (cost_alt g m (rule_alt r)))).
  { intros m r Hm Km Cm Ir L. destruct (Cm r Ir) as (v & Ev). rewrite Ev in L.
    assert (K' : cost_ok (cost_set m (rule_name r) (cost_alt g m (rule_alt r)))).
    { intros n w. rewrite cost_get_set. destruct (String.eqb _ _); [|apply Km]. intros X; injection X as <-. apply cost_alt_range; auto. }
    assert (Le : cost_le (cost_set m (rule_name r) (cost_alt g m (rule_alt r))) m).
    { intros n w W. rewrite cost_get_set. destruct (String.eqb_spec (rule_name r) n) as [<-|]; [|exists w; split; auto; lia].
      rewrite Ev in W. injection W as <-. eexists. split; [reflexivity|lia]. }
    intros x w Ix Ew. transitivity (cost_alt g m (rule_alt x)); [apply cost_alt_mono; auto; apply body_occ; auto|].
    rewrite cost_get_set in Ew. destruct (String.eqb_spec (rule_name r) (rule_name x)) as [En|]; [|apply (Hm x w); auto].
    injection Ew as <-. pose proof (effective_get _ _ Ir) as G1. pose proof (effective_get _ _ Ix) as G2. rewrite En in G1. rewrite G1 in G2. injection G2 as ->. lia. }
  destruct (loop_kept g ord Ord J St _ _ _ _ J0 K C E) as (J1 & K1 & C1 & F1).
  assert (Fix : forall r v, In r (effective g) -> cost_get M (rule_name r) = Some v -> cost_alt g M (rule_alt r) = v).
  { intros r v I Ev. specialize (J1 r v I Ev). specialize (F1 r v I Ev). lia. }
  pose proof (loop_short g Small M K1 C1 Fix ord (S (length (effective g))) Ord 0 0 (initial_costs g)) as H.
  destruct (cost_loop (S (length (effective g))) g ord 0 (initial_costs g)) as [m|]; [eauto|]. exfalso. apply H; auto; try lia.
  - split; auto. split; auto. intros n v Ev. pose proof (initial_get_inv _ _ _ Ev) as ->.
    assert (In n (map rule_name (effective g))) as I.
    { unfold initial_costs in Ev. clear -Ev. induction (effective g) as [|r l IH]; cbn [map cost_get] in *; [discriminate|].
      destruct (String.eqb_spec (rule_name r) n); [left; auto|right; auto]. }
    apply in_map_iff in I as (r & <- & I). destruct (C1 r I) as (w & Ew). exists w. split; auto. apply (K1 _ _ Ew).
  - intros r _ L. lia.
Qed.
