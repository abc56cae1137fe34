(** Proofs about the cost analysis and the visit of NewASTGenerator.
    Its definitions are means of proof and model no code. *)
From Coq Require Import ZArith Arith String Bool List Lia.
From Verif Require Import Syntax Spec Utf8 Num Term Printer Check PropTerm Slots LowerLang PropSem PropGll TreeSpec TreeSound Occ PropDag LeftRec Tape Ast PropGenerate AstProof.
Import ListNotations.
Local Open Scope string_scope.
Local Open Scope list_scope.
Local Open Scope Z_scope.

(** ** The effective rules *)
Lemma effective_from_spec g : forall names acc,
  (forall x, In x acc -> get_rule (rule_name x) g = Some x) -> NoDup (map rule_name acc) ->
  let l := effective_from g names acc in
  (forall x, In x l -> get_rule (rule_name x) g = Some x) /\ NoDup (map rule_name l) /\ incl acc l /\
  (forall n r, In n names -> get_rule n g = Some r -> In r l).
Proof.
  induction names as [|n names IH]; intros acc A N; cbn [effective_from].
  - split; auto. split; auto. split; [apply incl_refl|]. intros ? ? [].
  - destruct (get_rule n g) as [r|] eqn:G.
    + assert (Gr : get_rule (rule_name r) g = Some r).
      { rewrite <- G. apply LowerLang.get_rule_lower. apply (get_rule_name _ _ _ G). }
      set (acc' := if existsb _ acc then acc else acc ++ [r]).
      assert (R : In r acc').
      { subst acc'. destruct (existsb _ acc) eqn:E; [|apply in_app_iff; right; left; auto].
        apply existsb_exists in E as (x & X1 & X2). apply String.eqb_eq in X2. pose proof (A x X1) as Gx. rewrite X2 in Gx.
        rewrite Gr in Gx. injection Gx as ->. auto. }
      assert (A' : forall x, In x acc' -> get_rule (rule_name x) g = Some x).
      { subst acc'. destruct (existsb _ acc); auto. intros x X. apply in_app_iff in X as [X|[<-|[]]]; auto. }
      assert (N' : NoDup (map rule_name acc')).
      { subst acc'. destruct (existsb _ acc) eqn:E; auto. rewrite map_app. cbn [map].
        apply NoDup_rev in N. rewrite <- (rev_involutive (map rule_name acc ++ [rule_name r])). apply NoDup_rev. rewrite rev_app_distr. cbn.
        constructor; auto. rewrite <- in_rev. intros I. apply in_map_iff in I as (x & X1 & X2).
        assert (X : existsb (fun x => String.eqb (rule_name x) (rule_name r)) acc = true); [|congruence].
        apply existsb_exists. exists x. split; auto. apply String.eqb_eq. auto. }
      destruct (IH acc' A' N') as (I1 & I2 & I3 & I4). split; auto. split; auto. split.
      * intros x X. apply I3. subst acc'. destruct (existsb _ acc); auto. apply in_app_iff. auto.
      * intros n' r' [<-|H] G'; [rewrite G in G'; injection G' as <-; auto|eauto].
    + destruct (IH acc A N) as (I1 & I2 & I3 & I4). split; auto. split; auto. split; auto.
      intros n' r' [<-|H] G'; [congruence|eauto].
Qed.
Lemma effective_get g x : In x (effective g) -> get_rule (rule_name x) g = Some x.
Proof. apply (effective_from_spec g _ []); [intros ? []|constructor]. Qed.
Lemma effective_nodup g : NoDup (map rule_name (effective g)).
Proof. apply (effective_from_spec g _ []); [intros ? []|constructor]. Qed.
Lemma effective_in g n r : get_rule n g = Some r -> In r (effective g).
Proof.
  intros G. assert (Gr : get_rule (rule_name r) g = Some r).
  { rewrite <- G. apply LowerLang.get_rule_lower. apply (get_rule_name _ _ _ G). }
  destruct (get_rule_name _ _ _ G) as [_ I].
  destruct (effective_from_spec g (map rule_name g ++ map rule_name core_rules) [] ltac:(intros ? []) ltac:(constructor)) as (_ & _ & _ & H).
  apply (H (rule_name r)); auto. rewrite <- map_app. apply in_map. auto.
Qed.

(** ** Arithmetic of the clamps *)
Lemma add_clamp_range a b : 0 <= a -> 0 <= b -> 0 <= add_clamp a b <= unbounded.
Proof.
  intros A B. unfold add_clamp. destruct (Z.leb_spec unbounded a), (Z.leb_spec unbounded b); cbn [orb]; unfold unbounded in *; try lia.
  destruct (Z.ltb_spec (a + b) (2 ^ 30)); lia.
Qed.
Lemma add_clamp_lt a b : add_clamp a b < unbounded -> a < unbounded /\ b < unbounded /\ add_clamp a b = a + b.
Proof.
  unfold add_clamp. destruct (Z.leb_spec unbounded a), (Z.leb_spec unbounded b); cbn [orb]; intros L; try lia.
  destruct (Z.ltb_spec (a + b) unbounded); lia.
Qed.
Lemma add_clamp_le a b a' b' : 0 <= a -> 0 <= b -> a <= a' -> b <= b' -> add_clamp a b <= add_clamp a' b'.
Proof.
  intros A B H1 H2. unfold add_clamp.
  destruct (Z.leb_spec unbounded a), (Z.leb_spec unbounded b), (Z.leb_spec unbounded a'), (Z.leb_spec unbounded b'); cbn [orb]; try lia;
  destruct (Z.ltb_spec (a + b) unbounded); try lia; destruct (Z.ltb_spec (a' + b') unbounded); lia.
Qed.
Lemma add_clamp_sum a b : 0 <= a -> 0 <= b -> add_clamp a b <= a + b.
Proof.
  intros A B. unfold add_clamp. destruct (Z.leb_spec unbounded a), (Z.leb_spec unbounded b); cbn [orb]; try lia.
  destruct (Z.ltb_spec (a + b) unbounded); lia.
Qed.
Lemma mul_clamp_range n c : 0 <= c -> 0 <= mul_clamp n c <= unbounded.
Proof.
  intros C. unfold mul_clamp. cbv zeta. unfold unbounded. destruct (n =? 0); [lia|]. destruct (Z.leb_spec (2 ^ 30) c); [lia|].
  destruct (Z.leb_spec 0 (wrap64 (n * c))), (Z.ltb_spec (wrap64 (n * c)) (2 ^ 30)); cbn [andb]; lia.
Qed.
Lemma mul_clamp_lt n c : mul_clamp n c < unbounded -> n = 0 \/ c < unbounded.
Proof.
  unfold mul_clamp. cbv zeta. destruct (Z.eqb_spec n 0); [auto|]. destruct (Z.leb_spec unbounded c); [lia|auto].
Qed.
Lemma mul_clamp_prod n c : 0 <= n -> 0 <= c -> mul_clamp n c <= n * c.
Proof.
  intros N C. unfold mul_clamp. cbv zeta. destruct (Z.eqb_spec n 0); [lia|]. destruct (Z.leb_spec unbounded c); [unfold unbounded in *; nia|].
  destruct (Z.leb_spec 0 (wrap64 (n * c))), (Z.ltb_spec (wrap64 (n * c)) unbounded); cbn [andb].
  - apply wrap64_le; nia.
  - unfold unbounded in *. destruct (Z_lt_le_dec (n * c) (2 ^ 30)); [|lia]. rewrite wrap64_id in * by nia. lia.
  - unfold unbounded in *. destruct (Z_lt_le_dec (n * c) (2 ^ 30)); [|lia]. rewrite wrap64_id in * by nia. lia.
  - unfold unbounded in *. destruct (Z_lt_le_dec (n * c) (2 ^ 30)); [|lia]. rewrite wrap64_id in * by nia. lia.
Qed.
(** With counts up to 2^33 the product does not wrap, and the clamp is monotone. *)
Lemma mul_clamp_exact n c : 0 <= n <= 2 ^ 33 -> 0 <= c ->
  mul_clamp n c = if n =? 0 then 0 else Z.min unbounded (n * c).
Proof.
  intros N C. unfold mul_clamp. cbv zeta. destruct (Z.eqb_spec n 0); [lia|]. unfold unbounded.
  destruct (Z.leb_spec (2 ^ 30) c); [nia|]. rewrite wrap64_id by nia.
  destruct (Z.leb_spec 0 (n * c)); [|nia]. destruct (Z.ltb_spec (n * c) (2 ^ 30)); cbn [andb]; lia.
Qed.
Lemma mul_clamp_le n c c' : 0 <= n <= 2 ^ 33 -> 0 <= c <= c' -> mul_clamp n c <= mul_clamp n c'.
Proof. intros N C. rewrite !mul_clamp_exact by lia. destruct (n =? 0); nia. Qed.
Lemma mul_clamp_ge n c : 0 < n <= 2 ^ 33 -> 0 <= c -> mul_clamp n c < unbounded -> c <= mul_clamp n c.
Proof. intros N C. rewrite mul_clamp_exact by lia. destruct (Z.eqb_spec n 0); nia. Qed.

(** The smallest element, or the sentinel. *)
Lemma min_fold l : forall b, let r := fold_left (fun best v => if v <? best then v else best) l b in
  (r <= b /\ forall x, In x l -> r <= x) /\ (r = b \/ In r l).
Proof.
  induction l as [|x l IH]; intros b; cbn [fold_left].
  - split; [split; [lia|intros ? []]|auto].
  - destruct (IH (if x <? b then x else b)) as ((I1 & I2) & I3). destruct (Z.ltb_spec x b).
    + split; [split; [lia|intros y [<-|Y]; [lia|auto]]|]. right. destruct I3 as [-> |I3]; [left; auto|right; auto].
    + split; [split; [lia|intros y [<-|Y]; [lia|auto]]|]. destruct I3 as [-> |I3]; [left; auto|right; right; auto].
Qed.
Lemma min_cost_le l x : In x l -> min_cost l <= x.
Proof. intros I. unfold min_cost. destruct l as [|y l]; [destruct I|]. apply (min_fold (y :: l) unbounded). auto. Qed.
Lemma min_cost_lt l : l <> [] -> min_cost l < unbounded -> In (min_cost l) l.
Proof.
  intros N L. unfold min_cost in *. destruct l as [|y l]; [congruence|].
  destruct (proj2 (min_fold (y :: l) unbounded)) as [E|I]; [rewrite E in L; unfold unbounded in L; lia|auto].
Qed.
Lemma min_cost_range l : (forall x, In x l -> 0 <= x) -> 0 <= min_cost l <= unbounded.
Proof.
  intros H. unfold min_cost. destruct l as [|y l]; [unfold unbounded; lia|].
  destruct (min_fold (y :: l) unbounded) as ((I1 & I2) & [E|I]); [rewrite E in *; unfold unbounded; lia|]. split; [auto|auto].
Qed.
Lemma min_cost_mono {A} (f f' : A -> Z) l : (forall x, In x l -> 0 <= f x <= f' x) -> min_cost (map f l) <= min_cost (map f' l).
Proof.
  intros H. destruct l as [|y l]; [cbn; lia|].
  destruct (Z_lt_le_dec (min_cost (map f' (y :: l))) unbounded) as [L|L].
  - apply min_cost_lt in L; [|discriminate]. apply in_map_iff in L as (x & E & I). rewrite <- E.
    transitivity (f x); [apply min_cost_le; apply in_map; auto|]. apply H. auto.
  - pose proof (min_cost_range (map f (y :: l))) as R.
    assert (Q : forall x, In x (map f (y :: l)) -> 0 <= x) by (intros x I; apply in_map_iff in I as (z & <- & I); apply H; auto).
    specialize (R Q). lia.
Qed.
Lemma rune_len_pos r : 0 <= rune_len r.
Proof. unfold rune_len. lia. Qed.
Lemma sum_fold {A} (f : A -> Z) l : forall b, fold_left (fun n v => n + f v) l b = b + fold_right (fun v n => f v + n) 0 l.
Proof. induction l as [|x l IH]; intros b; cbn [fold_left fold_right]; [lia|]. rewrite IH. lia. Qed.

(** The cost of a concatenation as a fold. *)
Lemma clamp_fold_range (f : rep -> Z) c : (forall x, In x c -> 0 <= f x) -> forall b, 0 <= b <= unbounded ->
  0 <= fold_left (fun t r => add_clamp t (f r)) c b <= unbounded.
Proof.
  induction c as [|x c IH]; intros H b B; cbn [fold_left]; [lia|]. apply IH; [intros; apply H; right; auto|].
  apply add_clamp_range; [lia|apply H; left; auto].
Qed.
Lemma clamp_fold_lt (f : rep -> Z) c : (forall x, In x c -> 0 <= f x) -> forall b, 0 <= b ->
  fold_left (fun t r => add_clamp t (f r)) c b < unbounded -> 
  b <= fold_left (fun t r => add_clamp t (f r)) c b /\ forall x, In x c -> f x <= fold_left (fun t r => add_clamp t (f r)) c b.
Proof.
  induction c as [|x c IH]; intros H b B L; cbn [fold_left] in *; [split; [lia|intros ? []]|].
  pose proof (H x (or_introl eq_refl)) as Fx.
  destruct (IH (fun y Y => H y (or_intror Y)) (add_clamp b (f x)) (proj1 (add_clamp_range _ _ B Fx)) L) as [I1 I2].
  assert (X : add_clamp b (f x) < unbounded) by lia. apply add_clamp_lt in X as (X1 & X2 & X3). rewrite X3 in *.
  split; [lia|]. intros y [<-|Y]; [lia|auto].
Qed.
Lemma clamp_fold_mono (f f' : rep -> Z) c : (forall x, In x c -> 0 <= f x <= f' x) -> forall b b', 0 <= b <= b' ->
  fold_left (fun t r => add_clamp t (f r)) c b <= fold_left (fun t r => add_clamp t (f' r)) c b'.
Proof.
  induction c as [|x c IH]; intros H b b' B; cbn [fold_left]; [lia|].
  pose proof (H x (or_introl eq_refl)). apply IH; [intros; apply H; right; auto|].
  split; [apply add_clamp_range; lia|]. apply add_clamp_le; lia.
Qed.

(** ** Costs *)
Section Costs.
  Variable g : grammar.
  Definition cost_ok (m : costs) : Prop := forall n v, cost_get m n = Some v -> 0 <= v <= unbounded.

  Lemma cost_nonneg m : cost_ok m -> (forall e, 0 <= cost_elem g m e) /\ (forall r, 0 <= cost_rep g m r <= unbounded).
  Proof.
    intros K. apply elem_rep_ind.
    - intros n. cbn [cost_elem]. destruct (get_rule n g) as [r|]; [|unfold unbounded; lia].
      destruct (cost_get m (rule_name r)) as [c|] eqn:E; [|unfold unbounded; lia]. apply K in E. apply add_clamp_range; lia.
    - intros a F. cbn [cost_elem]. apply min_cost_range. intros x X. apply in_map_iff in X as (c & <- & C).
      rewrite Forall_forall in F. specialize (F c C). rewrite Forall_forall in F.
      apply clamp_fold_range; [intros y Y; apply F; auto|unfold unbounded; lia].
    - intros; cbn; lia.
    - intros s vs. cbn [cost_elem]. rewrite sum_fold. induction vs as [|v vs IH]; cbn [fold_right]; [lia|]. pose proof (rune_len_pos v). lia.
    - intros b st es. cbn [cost_elem]. destruct st.
      + rewrite (sum_fold (fun v => rune_len (numval_to_rune v b))). induction es as [|v es IH]; cbn [fold_right]; [lia|].
        pose proof (rune_len_pos (numval_to_rune v b)). lia.
      + destruct es; [lia|apply rune_len_pos].
    - intros; cbn; lia.
    - intros mn mx e IH. cbn [cost_rep]. apply mul_clamp_range. auto.
  Qed.
  Lemma cost_cat_range m c : cost_ok m -> 0 <= cost_cat g m c <= unbounded.
  Proof. intros K. apply clamp_fold_range; [intros; apply cost_nonneg; auto|unfold unbounded; lia]. Qed.
  Lemma cost_alt_range m a : cost_ok m -> 0 <= cost_alt g m a <= unbounded.
  Proof. intros K. apply min_cost_range. intros x X. apply in_map_iff in X as (c & <- & _). apply cost_cat_range. auto. Qed.

  (** Lower costs of the rules give lower costs. *)
  Definition cost_le (m m' : costs) : Prop := forall n v', cost_get m' n = Some v' -> exists v, cost_get m n = Some v /\ v <= v'.
  Hypothesis Small : forall mn mx e, occ_rep g (Rep mn mx e) -> 0 <= mn <= 2 ^ 33.

  Lemma cost_mono m m' : cost_ok m -> cost_ok m' -> cost_le m m' ->
    (forall e, occ_elem g e -> cost_elem g m e <= cost_elem g m' e) /\ (forall r, occ_rep g r -> cost_rep g m r <= cost_rep g m' r).
  Proof.
    intros K K' Le. apply elem_rep_ind.
    - intros n _. cbn [cost_elem]. destruct (get_rule n g) as [r|]; [|lia].
      destruct (cost_get m' (rule_name r)) as [c'|] eqn:E'.
      + destruct (Le _ _ E') as (c & E & L). rewrite E. pose proof (K _ _ E). apply add_clamp_le; lia.
      + destruct (cost_get m (rule_name r)) as [c|] eqn:E; [|lia]. apply K in E. apply add_clamp_range; lia.
    - intros a F O. cbn [cost_elem]. apply min_cost_mono. intros c C. split.
      + apply clamp_fold_range; [intros; apply cost_nonneg; auto|unfold unbounded; lia].
      + apply clamp_fold_mono; [|lia]. intros x X. split; [apply cost_nonneg; auto|].
        rewrite Forall_forall in F. specialize (F c C). rewrite Forall_forall in F. apply F; auto. eapply occ_rep_group; eauto.
    - intros; cbn; lia.
    - intros; cbn; lia.
    - intros; cbn; lia.
    - intros; cbn; lia.
    - intros mn mx e IH O. cbn [cost_rep]. apply mul_clamp_le; [eauto|]. split; [apply cost_nonneg; auto|]. apply IH. econstructor; eauto.
  Qed.
  Lemma cost_alt_mono m m' a : cost_ok m -> cost_ok m' -> cost_le m m' -> (forall c x, In c a -> In x c -> occ_rep g x) ->
    cost_alt g m a <= cost_alt g m' a.
  Proof.
    intros K K' Le O. apply min_cost_mono. intros c C. split; [apply cost_cat_range; auto|].
    apply clamp_fold_mono; [|lia]. intros x X. split; [apply cost_nonneg; auto|]. apply (cost_mono m m'); eauto.
  Qed.
End Costs.

Lemma cost_get_set m n c k : cost_get (cost_set m n c) k = if String.eqb n k then Some c else cost_get m k.
Proof.
  induction m as [|[x v] m IH]; cbn [cost_set cost_get]; [destruct (String.eqb n k); auto|].
  destruct (String.eqb_spec x n) as [->|N]; cbn [cost_get].
  - destruct (String.eqb_spec n k); auto.
  - rewrite IH. destruct (String.eqb_spec x k) as [->|]; auto. destruct (String.eqb_spec n k); congruence.
Qed.
Lemma cost_set_keys m n c v : cost_get m n = Some v -> map fst (cost_set m n c) = map fst m.
Proof.
  induction m as [|[x w] m IH]; cbn [cost_set cost_get map fst]; [discriminate|].
  destruct (String.eqb_spec x n) as [->|N]; cbn [map fst]; auto. intros E. f_equal. auto.
Qed.
Definition total_cost (m : costs) : Z := fold_right (fun kv n => snd kv + n) 0 m.
Lemma total_set m n c v : cost_get m n = Some v -> total_cost (cost_set m n c) = total_cost m - v + c.
Proof.
  unfold total_cost. induction m as [|[x w] m IH]; cbn [cost_set cost_get fold_right snd]; [discriminate|].
  destruct (String.eqb_spec x n) as [->|N]; cbn [fold_right snd]; intros E; [injection E as ->; lia|]. rewrite (IH E). lia.
Qed.
Lemma initial_get l n : (exists r, In r l /\ rule_name r = n) -> cost_get (map (fun r => (rule_name r, unbounded)) l) n = Some unbounded.
Proof.
  induction l as [|x l IH]; intros (r & I & E); [destruct I|]. cbn [map cost_get]. destruct (String.eqb_spec (rule_name x) n); auto.
  apply IH. destruct I as [<-|I]; [congruence|eauto].
Qed.
Lemma initial_get_inv l n v : cost_get (map (fun r => (rule_name r, unbounded)) l) n = Some v -> v = unbounded.
Proof.
  induction l as [|x l IH]; cbn [map cost_get]; [discriminate|]. destruct (String.eqb_spec (rule_name x) n); [congruence|auto].
Qed.

(** ** The loop *)
Section Loop.
  Variable g : grammar.
  Variable ord : nat -> list rule -> list rule.
  Hypothesis Ord : any_order ord.
  Definition covers (m : costs) : Prop := forall r, In r (effective g) -> exists v, cost_get m (rule_name r) = Some v.

  (** A predicate on cost tables kept by every update of a pass. *)
  Section Kept.
    Variable J : costs -> Prop.
    Hypothesis Step : forall m r, J m -> cost_ok m -> covers m -> In r (effective g) ->
      cost_alt g m (rule_alt r) < match cost_get m (rule_name r) with Some v => v | None => 0 end ->
      J (cost_set m (rule_name r) (cost_alt g m (rule_alt r))).
    Lemma pass_kept rs : incl rs (effective g) -> forall m ch, J m -> cost_ok m -> covers m ->
      let '(m', ch') := cost_pass g rs m ch in
      J m' /\ cost_ok m' /\ covers m' /\ total_cost m' <= total_cost m /\ (ch = true -> ch' = true) /\
      (ch = false -> ch' = true -> total_cost m' < total_cost m) /\
      (ch' = false -> m' = m /\ forall r v, In r rs -> cost_get m (rule_name r) = Some v -> v <= cost_alt g m (rule_alt r)).
    Proof.
      induction rs as [|r rs IH]; intros I m ch HJ K C; cbn [cost_pass].
      - split; auto. split; auto. split; auto. split; [lia|]. split; auto. split; [intros; congruence|]. intros _. split; auto. intros ? ? [].
      - pose proof (I r (or_introl eq_refl)) as Ir. destruct (C r Ir) as (v & Ev).
        set (c := cost_alt g m (rule_alt r)).
        destruct (c <? match cost_get m (rule_name r) with Some v => v | None => 0 end) eqn:L.
        + assert (L' := L). apply Z.ltb_lt in L'.
          assert (K' : cost_ok (cost_set m (rule_name r) c)).
          { intros n w. rewrite cost_get_set. destruct (String.eqb _ _); [|apply K]. intros E; injection E as <-. apply cost_alt_range; auto. }
          assert (C' : covers (cost_set m (rule_name r) c)).
          { intros x X. rewrite cost_get_set. destruct (String.eqb _ _); eauto. }
          specialize (IH (fun x X => I x (or_intror X)) (cost_set m (rule_name r) c) true (Step m r HJ K C Ir L') K' C').
          destruct (cost_pass g rs (cost_set m (rule_name r) c) true) as [m' ch']. destruct IH as (J1 & J2 & J3 & J4 & J5 & J6 & J7).
          rewrite (total_set m (rule_name r) c v Ev) in J4. rewrite Ev in L'.
          split; auto. split; auto. split; auto. split; [lia|]. split; auto. split; [intros; lia|].
          intros E. rewrite J5 in E by auto. discriminate.
        + apply Z.ltb_ge in L. rewrite Ev in L.
          specialize (IH (fun x X => I x (or_intror X)) m ch HJ K C).
          destruct (cost_pass g rs m ch) as [m' ch']. destruct IH as (J1 & J2 & J3 & J4 & J5 & J6 & J7).
          split; auto. split; auto. split; auto. split; auto. split; auto. split; auto.
          intros E. destruct (J7 E) as [-> Q]. split; auto. intros x w [<-|X] Ew; [rewrite Ev in Ew; injection Ew as <-; auto|eauto].
    Qed.

    Definition at_fixpoint (m : costs) : Prop :=
      forall r v, In r (effective g) -> cost_get m (rule_name r) = Some v -> v <= cost_alt g m (rule_alt r).
    Lemma loop_kept fuel : forall t m m', J m -> cost_ok m -> covers m -> cost_loop fuel g ord t m = Some m' ->
      J m' /\ cost_ok m' /\ covers m' /\ at_fixpoint m'.
    Proof.
      induction fuel as [|f IH]; intros t m m' HJ K C E; cbn [cost_loop] in E; [discriminate|].
      pose proof (pass_kept (ord t (effective g)) (fun x X => proj1 (Ord t _ x) X) m false HJ K C) as P.
      destruct (cost_pass g (ord t (effective g)) m false) as [m1 ch]. destruct P as (J1 & J2 & J3 & _ & _ & _ & J7).
      destruct ch; [eauto|]. injection E as <-. destruct (J7 eq_refl) as [-> Q]. split; auto. split; auto. split; auto.
      intros r v I Ev. apply Q; auto. apply Ord. auto.
    Qed.
  End Kept.

  Lemma total_nonneg m : cost_ok m -> NoDup (map fst m) -> 0 <= total_cost m.
  Proof.
    intros K N. assert (X : forall k v, In (k, v) m -> 0 <= v).
    { intros k v I. apply (K k). clear K. induction m as [|[x w] m IH]; [destruct I|]. cbn [cost_get]. inversion N as [|? ? N1 N2]; subst.
      destruct I as [E|I].
      - injection E as -> ->. rewrite String.eqb_refl. auto.
      - destruct (String.eqb_spec x k) as [->|]; [|auto]. exfalso. apply N1. apply in_map_iff. exists (k, v). auto. }
    unfold total_cost. clear K N. induction m as [|[x w] m IH]; cbn [fold_right snd]; [lia|].
    pose proof (X x w (or_introl eq_refl)). assert (0 <= fold_right (fun kv n => snd kv + n) 0 m); [|lia].
    apply IH. intros; eapply X; right; eauto.
  Qed.

  Lemma loop_ends fuel : forall t m, cost_ok m -> covers m -> NoDup (map fst m) -> (Z.to_nat (total_cost m) < fuel)%nat ->
    exists m', cost_loop fuel g ord t m = Some m'.
  Proof.
    induction fuel as [|f IH]; intros t m K C N L; [lia|]. cbn [cost_loop].
    pose proof (pass_kept (fun m => NoDup (map fst m))) as P.
    assert (St : forall m r, NoDup (map fst m) -> cost_ok m -> covers m -> In r (effective g) ->
      cost_alt g m (rule_alt r) < match cost_get m (rule_name r) with Some v => v | None => 0 end ->
      NoDup (map fst (cost_set m (rule_name r) (cost_alt g m (rule_alt r))))).
    { intros m0 r N0 K0 C0 I0 _. destruct (C0 r I0) as (v & Ev). rewrite (cost_set_keys _ _ _ _ Ev). auto. }
    specialize (P St (ord t (effective g)) (fun x X => proj1 (Ord t _ x) X) m false N K C).
    destruct (cost_pass g (ord t (effective g)) m false) as [m1 ch]. destruct P as (J1 & J2 & J3 & _ & _ & J6 & _).
    destruct ch; [|eauto]. apply IH; auto. pose proof (total_nonneg m1 J2 J1). specialize (J6 eq_refl eq_refl). lia.
  Qed.

  Lemma initial_ok : cost_ok (initial_costs g) /\ covers (initial_costs g) /\ NoDup (map fst (initial_costs g)).
  Proof.
    split; [|split].
    - intros n v E. apply initial_get_inv in E. subst. unfold unbounded. lia.
    - intros r I. exists unbounded. apply initial_get. eauto.
    - unfold initial_costs. rewrite map_map. cbn [fst]. apply effective_nodup.
  Qed.
End Loop.
