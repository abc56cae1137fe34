(** The steps of the recognizer are bounded.
    Its definitions are means of proof and model no code. *)
From Coq Require Import ZArith Arith String Ascii Bool Relations Permutation List Lia.
From Verif Require Import Syntax Spec Term Printer Deps LeftRec PropTerm Slots Cost Recog RecogProof RecogCost.
Import ListNotations.
Local Open Scope list_scope.
Local Open Scope nat_scope.

(** The concatenations and repetitions of one alternation, not of those inside it. *)
Definition aw (a : alternation) : nat := list_sum (map (fun c => 1 + length c) a).

Section Loops.
  Variable input : list Z.
  Notation len := (length input).
  Notation N := (length input + 2).
  Variable g : grammar.
  Variable ord : nat -> list nat -> list nat.
  Hypothesis O : forall t l, Permutation (ord t l) l.
  Variable call : elem -> nat -> rstate -> rres (list nat).
  Variable callc : elem -> nat -> rstate -> nat.
  Variable I : rstate -> Prop.
  Variable K : elem -> Prop.
  Variable pot : rstate -> nat.
  (** What a call returns and spends: at most [b] besides what the potential pays for. *)
  Definition within {A} (x : rres A) (c b : nat) (st : rstate) (Q : A -> Prop) : Prop :=
    match x with ROk a st' => I st' /\ Q a /\ c + pot st' <= b + pot st | _ => c <= b + pot st end.
  Definition fin (s : list nat) : Prop := forall j, In j s -> j <= len.
  Hypothesis I_tick : forall st, I st -> I (tick st) /\ pot (tick st) = pot st.
  Hypothesis call_w : forall e p st, I st -> K e -> p <= len -> within (call e p st) (callc e p st) 1 st fin.

  Lemma card_fin s : fin s -> card s <= S len.
  Proof.
    intros F. unfold card. rewrite <- (seq_length (S len) 0). apply NoDup_incl_length; [apply NoDup_nodup|].
    intros j J. apply nodup_In in J. apply in_seq. specialize (F j J). lia.
  Qed.
  Lemma len_fin s : NoDup s -> fin s -> length s <= S len.
  Proof. intros D F. rewrite <- (seq_length (S len) 0). apply NoDup_incl_length; auto. intros j J. apply in_seq. specialize (F j J). lia. Qed.
  Lemma fin_union a b : fin a -> fin b -> fin (union a b).
  Proof. intros A B j J. apply union_in in J as [J|J]; auto. Qed.
  Lemma fin_one i : i <= len -> fin [i].
  Proof. intros H j [<-|[]]. exact H. Qed.
  Lemma nodup_union a b : NoDup (union a b).
  Proof. apply NoDup_nodup. Qed.

  Lemma each_w f fc b : (forall p st, I st -> p <= len -> within (f p st) (fc p st) b st fin) ->
    forall ps acc st, I st -> fin ps -> fin acc -> NoDup acc ->
    within (each_pos f ps acc st) (each_c f fc ps acc st) (length ps * (b + N)) st (fun s => fin s /\ NoDup s).
  Proof.
    intros Hf. induction ps as [|p ps IH]; intros acc st Ist Fp Fa Na; cbn [each_pos each_c length].
    - cbn [within]. repeat split; auto.
    - specialize (Hf p st Ist (Fp p (or_introl eq_refl))). destruct (f p st) as [s st'| |]; cbn [within rbind] in *; try (cbn; lia).
      destruct Hf as (I' & F' & C'). pose proof (card_fin s F') as Cs.
      assert (X : within (each_pos f ps (union acc s) st') (each_c f fc ps (union acc s) st') (length ps * (b + N)) st' (fun s => fin s /\ NoDup s)).
      { apply IH; auto using fin_union, nodup_union. intros q Q. apply Fp. right. auto. }
      destruct (each_pos f ps (union acc s) st') as [s2 st2| |]; cbn [within] in *.
      + destruct X as (I2 & Q2 & C2). split; auto. split; auto. lia.
      + lia.
      + lia.
  Qed.
  Lemma range_w f fc b : (forall p st, I st -> p <= len -> within (f p st) (fc p st) b st fin) ->
    forall s st, I st -> fin s -> NoDup s ->
    within (range_pos ord f s st) (range_c ord f fc s st) (S len * (b + N)) st (fun s => fin s /\ NoDup s).
  Proof.
    intros Hf s st Ist Fs Ns. unfold range_pos, range_c. destruct (I_tick st Ist) as [It Pt].
    assert (Fo : fin (ord (r_tick st) s)) by (intros j J; apply Fs; apply (Permutation_in j (O (r_tick st) s)); exact J).
    assert (Lo : length (ord (r_tick st) s) <= S len) by (rewrite (Permutation_length (O (r_tick st) s)); apply len_fin; auto).
    pose proof (each_w f fc b Hf (ord (r_tick st) s) [] (tick st) It Fo (fun j J => match J with end) (NoDup_nil _)) as X.
    assert (L : length (ord (r_tick st) s) * (b + N) <= S len * (b + N)) by (apply Nat.mul_le_mono_r; exact Lo).
    destruct (each_pos f (ord (r_tick st) s) [] (tick st)) as [s2 st2| |]; cbn [within] in *; rewrite Pt in X.
    - destruct X as (A & B & C). split; auto. split; auto. lia.
    - lia.
    - lia.
  Qed.

  Lemma rep_loop_w mn mx e : K e -> forall k c level seen ends st, I st -> fin level -> NoDup level -> fin ends ->
    within (rep_loop ord call k c mn mx e level seen ends st) (rep_c ord call callc k c mn mx e level seen st) (k * (2 * N * N)) st fin.
  Proof.
    intros Ke. induction k as [|k IH]; intros c level seen ends st Ist Fl Nl Fe; cbn [rep_loop rep_c].
    - cbn [within]. repeat split; auto.
    - assert (P : forall m, 1 + m <= S k * m -> m <> 0) by lia.
      assert (R : 1 + S len * (1 + N) + (S len + S len) <= 2 * N * N).
      { replace (S len) with (len + 1) by lia. replace (2 * N * N) with (2 * (len + 1) * (len + 1) + 4 * (len + 1) + 2) by ring.
        replace ((len + 1) * (1 + N)) with ((len + 1) * (len + 1) + 2 * (len + 1)) by ring. lia. }
      destruct (_ && _)%bool.
      { cbn [within]. split; auto. split; auto. change (S k * (2 * N * N)) with (2 * N * N + k * (2 * N * N)). lia. }
      pose proof (range_w (fun p => call e p) (fun p => callc e p) 1 (fun p st I' P' => call_w e p st I' Ke P') level st Ist Fl Nl) as X.
      set (rg := range_c ord (fun p => call e p) (fun p => callc e p) level st) in *.
      destruct (range_pos ord (fun p => call e p) level st) as [next st'| |]; cbn [within rbind] in *;
        try (change (S k * (2 * N * N)) with (2 * N * N + k * (2 * N * N)); lia).
      destruct X as (I' & (Fn & Nn) & C'). pose proof (card_fin next Fn) as Cn.
      destruct next as [|n0 nx] eqn:En.
      { cbn [within]. split; auto. split; auto. change (S k * (2 * N * N)) with (2 * N * N + k * (2 * N * N)). lia. }
      rewrite <- En in *. clear En n0 nx.
      assert (Fe' : fin (if (mn <=? c)%Z then union ends next else ends)) by (destruct (mn <=? c)%Z; auto using fin_union).
      assert (Ce : (if (mn <=? c)%Z then card next else 0) <= S len) by (destruct (mn <=? c)%Z; lia).
      set (ce := if (mn <=? c)%Z then card next else 0) in *.
      destruct (negb (existsb (fun x => negb (mem_nat x seen)) next) && (mn <=? c)%Z)%bool.
      { cbn [within]. split; auto. split; auto. change (S k * (2 * N * N)) with (2 * N * N + k * (2 * N * N)). lia. }
      specialize (IH (c + 1)%Z next (union seen next) _ st' I' Fn Nn Fe').
      set (rc := rep_c ord call callc k (c + 1) mn mx e next (union seen next) st') in *.
      change (S k * (2 * N * N)) with (2 * N * N + k * (2 * N * N)).
      destruct (rep_loop ord call k (c + 1) mn mx e next (union seen next) _ st') as [s2 st2| |]; cbn [within] in *.
      + destruct IH as (A & B & C). split; auto. split; auto. lia.
      + lia.
      + lia.
  Qed.
  Lemma reach_rep_w r i st : K (rep_elem r) -> I st -> i <= len ->
    within (reach_rep input ord call r i st) (reach_rep_c input ord call callc r i st) (N * (2 * N * N)) st fin.
  Proof.
    destruct r as [mn mx e]. intros Ke Ist Hi. cbn [reach_rep reach_rep_c]. apply rep_loop_w; auto using fin_one.
    - constructor; [easy|constructor].
    - destruct (mn =? 0)%Z; [apply fin_one; auto|intros j []].
  Qed.

  Lemma cat_loop_w c : (forall r, In r c -> K (rep_elem r)) -> forall cur st, I st -> fin cur -> NoDup cur ->
    within (cat_loop input ord call c cur st) (cat_c input ord call callc c cur st) (length c * (2 * N * N * N * N)) st fin.
  Proof.
    induction c as [|r c IH]; intros Kc cur st Ist Fc Nc; cbn [cat_loop cat_c length].
    - cbn [within]. repeat split; auto.
    - assert (R : 1 + S len * (N * (2 * N * N) + N) <= 2 * N * N * N * N).
      { replace (S len) with (len + 1) by lia. set (m := len + 1). replace N with (m + 1) by (subst m; lia).
        replace (2 * (m + 1) * (m + 1) * (m + 1) * (m + 1)) with (m * ((m + 1) * (2 * (m + 1) * (m + 1))) + 2 * (m + 1) * (m + 1) * (m + 1)) by ring.
        replace (m * ((m + 1) * (2 * (m + 1) * (m + 1)) + (m + 1))) with (m * ((m + 1) * (2 * (m + 1) * (m + 1))) + (m * m + m)) by ring.
        enough (1 + (m * m + m) <= 2 * (m + 1) * (m + 1) * (m + 1)) by lia.
        replace (2 * (m + 1) * (m + 1) * (m + 1)) with (2 * m * m * m + 6 * (m * m) + 6 * m + 2) by ring. lia. }
      pose proof (range_w (fun p => reach_rep input ord call r p) (fun p => reach_rep_c input ord call callc r p) (N * (2 * N * N))
        (fun p st I' P' => reach_rep_w r p st (Kc r (or_introl eq_refl)) I' P') cur st Ist Fc Nc) as X.
      set (rg := range_c ord (fun p => reach_rep input ord call r p) (fun p => reach_rep_c input ord call callc r p) cur st) in *.
      set (w := 2 * N * N * N * N) in *. set (x := S len * (N * (2 * N * N) + N)) in *.
      change (S (length c) * w) with (w + length c * w).
      destruct (range_pos ord (fun p => reach_rep input ord call r p) cur st) as [next st'| |]; cbn [within rbind] in *; try lia.
      destruct X as (I' & (Fn & Nn) & C').
      destruct next as [|n0 nx] eqn:En.
      { cbn [within]. split; auto. split; [intros j []|lia]. }
      rewrite <- En in *. clear En n0 nx.
      assert (Kc' : forall r, In r c -> K (rep_elem r)) by (intros r' R'; apply Kc; right; auto).
      specialize (IH Kc' next st' I' Fn Nn). set (cc := cat_c input ord call callc c next st') in *.
      destruct (cat_loop input ord call c next st') as [s2 st2| |]; cbn [within] in *.
      + destruct IH as (A & B & C). split; auto. split; auto. lia.
      + lia.
      + lia.
  Qed.

  Lemma alt_w a i st : (forall c r, In c a -> In r c -> K (rep_elem r)) -> I st -> i <= len ->
    within (reach_alt input ord call a i st) (alt_c input ord call callc a i st) (aw a * (2 * N * N * N * N)) st fin.
  Proof.
    intros Ka Ist Hi. unfold reach_alt. assert (F0 : fin []) by (intros j []). revert Ka F0. generalize (@nil nat) as acc. revert st Ist.
    assert (Nw : N <= 2 * N * N * N * N).
    { set (n := N). assert (1 <= n * n * n) by (assert (1 <= n) by (subst n; lia); assert (1 <= n * n) by (apply (Nat.mul_le_mono 1 n 1 n); auto); apply (Nat.mul_le_mono 1 (n * n) 1 n); auto).
      replace (2 * n * n * n * n) with (n * (2 * (n * n * n))) by ring. rewrite <- (Nat.mul_1_r n) at 1. apply Nat.mul_le_mono_l. lia. }
    induction a as [|c a IH]; intros st Ist acc Ka Fa; cbn [alt_loop alt_c].
    - cbn [within]. repeat split; auto. 
    - unfold aw. cbn [map]. change (list_sum (?x :: ?l)) with (x + list_sum l). fold (aw a).
      assert (Kc : forall r, In r c -> K (rep_elem r)) by (intros r R; apply (Ka c); [left; auto|auto]).
      assert (Ka' : forall c r, In c a -> In r c -> K (rep_elem r)) by (intros c' r C R; apply (Ka c'); [right; auto|auto]).
      assert (N1 : NoDup [i]) by (constructor; [easy|constructor]).
      pose proof (cat_loop_w c Kc [i] st Ist (fin_one i Hi) N1) as X.
      set (cc := cat_c input ord call callc c [i] st) in *. set (w := 2 * N * N * N * N) in *.
      replace ((1 + length c + aw a) * w) with (w + length c * w + aw a * w) by ring.
      destruct (cat_loop input ord call c [i] st) as [s st'| |]; cbn [within rbind] in *; try lia.
      destruct X as (I' & Fs & C'). pose proof (card_fin s Fs).
      specialize (IH st' I' (union acc s) Ka' (fin_union _ _ Fa Fs)). set (ac := alt_c input ord call callc a i st') in *.
      destruct (alt_loop input ord call a i (union acc s) st') as [s2 st2| |]; cbn [within] in *.
      + destruct IH as (A & B & C). split; auto. split; auto. lia.
      + lia.
      + lia.
  Qed.

  Lemma compute_w (T : nat) e i st : I st -> i <= len ->
    (forall n r, e = ERule n -> get_rule n g = Some r -> aw (rule_alt r) <= T /\ forall c x, In c (rule_alt r) -> In x c -> K (rep_elem x)) ->
    (forall a, e = EGroup a \/ e = EOption a -> aw a <= T /\ forall c x, In c a -> In x c -> K (rep_elem x)) ->
    match_cost (STerm e) <= T ->
    within (compute_elem g input ord call e i st) (compute_c g input ord call callc e i st) (T * (2 * N * N * N * N) + N) st fin.
  Proof.
    intros Ist Hi Kr Kg Km.
    assert (W : forall a, aw a <= T -> aw a * (2 * N * N * N * N) <= T * (2 * N * N * N * N)) by (intros a L; apply Nat.mul_le_mono_r; exact L).
    assert (Tw : T <= T * (2 * N * N * N * N)).
    { rewrite <- (Nat.mul_1_r T) at 1. apply Nat.mul_le_mono_l. replace (2 * N * N * N * N) with (2 * (N * N * N * N)) by ring.
      assert (A : 1 <= N) by lia. assert (B : 1 <= N * N) by (apply (Nat.mul_le_mono 1 N 1 N); auto).
      assert (C : 1 <= N * N * N) by (apply (Nat.mul_le_mono 1 (N * N) 1 N); auto).
      assert (D : 1 <= N * N * N * N) by (apply (Nat.mul_le_mono 1 (N * N * N) 1 N); auto). lia. }
    set (w := 2 * N * N * N * N) in *.
    destruct e as [n|a|a|s vs|b s0 es|v]; cbn [compute_elem compute_c].
    - destruct (get_rule n g) as [r|] eqn:G; [|cbn [within]; split; auto; split; [intros j []|lia]].
      destruct (Kr n r eq_refl G) as [La Ka]. pose proof (alt_w (rule_alt r) i st Ka Ist Hi) as X. fold w in X. specialize (W _ La).
      destruct (reach_alt input ord call (rule_alt r) i st) as [s st'| |]; cbn [within] in *; [destruct X as (A & B & C); split; auto; split; auto; lia|lia|lia].
    - destruct (Kg a (or_introl eq_refl)) as [La Ka]. pose proof (alt_w a i st Ka Ist Hi) as X. fold w in X. specialize (W _ La).
      destruct (reach_alt input ord call a i st) as [s st'| |]; cbn [within] in *; [destruct X as (A & B & C); split; auto; split; auto; lia|lia|lia].
    - destruct (Kg a (or_intror eq_refl)) as [La Ka]. pose proof (alt_w a i st Ka Ist Hi) as X. fold w in X. specialize (W _ La).
      destruct (reach_alt input ord call a i st) as [s st'| |]; cbn [within rbind] in *; [|lia|lia].
      destruct X as (A & B & C). split; auto. split; [apply fin_union; auto using fin_one|]. pose proof (card_fin s B). lia.
    - cbn [within]. split; auto. split; [|cbn [match_cost] in *; lia].
      destruct (match_term (EChar s vs) input i) as [j|] eqn:M; [|intros j []]. apply fin_one. eapply match_term_bounds; eauto.
    - cbn [within]. split; auto. split; [|cbn [match_cost] in *; lia].
      destruct (match_term (ENum b s0 es) input i) as [j|] eqn:M; [|intros j []]. apply fin_one. eapply match_term_bounds; eauto.
    - cbn [within]. split; auto. split; [|cbn [match_cost] in *; lia].
      destruct (match_term (EProse v) input i) as [j|] eqn:M; [|intros j []]. apply fin_one. eapply match_term_bounds; eauto.
  Qed.
End Loops.

(** ** The whole recognizer *)
Section Total.
  Variable g : grammar.
  Variable input : list Z.
  Variable lr : string -> option (list string).
  Variable ord : nat -> list nat -> list nat.
  Variable root : string.
  Hypothesis O : forall t l, Permutation (ord t l) l.
  Hypothesis LI : forall n scc, lr n = Some scc -> In n scc.
  Notation len := (length input).
  Notation N := (length input + 2).
  Notation fin := (fin input).
  Notation w := (2 * N * N * N * N).
  Variables T W : nat.
  Hypothesis T_rule : forall n r, get_rule n g = Some r -> aw (rule_alt r) <= T.
  Hypothesis T_sub : forall a, In (EGroup a) (all_elems g root) \/ In (EOption a) (all_elems g root) -> aw a <= T.
  Hypothesis T_term : forall e, In e (all_elems g root) -> match_cost (STerm e) <= T.
  (** The work for a component. *)
  Definition lrw (n : nat) : nat := n + S (n * N) * (1 + n * (T * w + N)) + n * (2 * N).
  Hypothesis W_plain : T * w + 2 * N <= W.
  Hypothesis W_lr : forall n scc, lr n = Some scc -> lrw (length scc) <= W.
  Notation free := (free g input root).
  Notation bounded := (bounded input).
  Definition pot (st : rstate) : nat := W * free st.
  (** A call spends one step and what the potential pays. *)
  Definition paid {A} (x : rres A) (c b : nat) (st : rstate) : Prop :=
    match x with ROk _ st' => c + pot st' <= b + pot st | _ => c <= b + pot st end.

  Lemma O_in : forall t l x, In x (ord t l) <-> In x l.
  Proof. intros t l x. split; apply Permutation_in; [apply O|apply Permutation_sym, O]. Qed.
  Lemma pot_mono a b : grows a b -> pot b <= pot a.
  Proof. intros H. apply Nat.mul_le_mono_l. apply free_mono. exact H. Qed.

  Section Body.
    Variable f : nat.
    Notation call := (reach_elem g input lr ord f).
    Notation callc := (elem_c g input lr ord f).
    Hypothesis IHf : forall e i st, In e (all_elems g root) -> i <= len -> bounded st -> free st < f -> paid (call e i st) (callc e i st) 1 st.

    Lemma call_paid st0 : free st0 < f -> forall e p st, It input st0 st -> In e (all_elems g root) -> p <= len ->
      within (It input st0) pot (call e p st) (callc e p st) 1 st fin.
    Proof.
      intros F e p st [E B] Ke Hp. pose proof (free_mono g input root st0 st (ext_grows _ _ E)) as Fm.
      assert (Fs : free st < f) by lia.
      pose proof (IHf e p st Ke Hp B Fs) as X. pose proof (reach_elem_t g input lr ord root O_in LI f e p st Ke Hp B Fs) as Y.
      destruct (call e p st) as [s st'| |]; cbn [paid within good] in *; auto.
      destruct Y as (E' & B' & A'). split; [split; auto; eapply ext_trans; eauto|]. split; auto.
    Qed.
    Lemma tick_paid st0 st : It input st0 st -> It input st0 (tick st) /\ pot (tick st) = pot st.
    Proof. intros H. split; [apply It_tick; exact H|reflexivity]. Qed.
    Lemma alt_paid a i st : (forall c r, In c a -> In r c -> In (rep_elem r) (all_elems g root)) -> aw a <= T -> i <= len -> bounded st -> free st < f ->
      within (It input st) pot (reach_alt input ord call a i st) (alt_c input ord call callc a i st) (T * w) st fin.
    Proof.
      intros Ka La Hi B F. assert (I0 : It input st st) by (split; [apply ext_refl|exact B]).
      pose proof (alt_w input ord O call callc (It input st) (fun e => In e (all_elems g root)) pot (tick_paid st) (call_paid st F) a i st Ka I0 Hi) as X.
      assert (L : aw a * w <= T * w) by (apply Nat.mul_le_mono_r; exact La).
      destruct (reach_alt input ord call a i st) as [s st'| |]; cbn [within] in *; [destruct X as (A1 & A2 & A3); split; auto; split; auto; lia|lia|lia].
    Qed.

    Lemma round_paid i : i <= len -> forall scc ch st, bounded st -> free st < f ->
      match grow_round g input ord call scc i ch st with
      | ROk _ st' => bounded st' /\ free st' <= free st /\ round_c g input ord call callc scc i st + pot st' <= length scc * (T * w + N) + pot st
      | _ => round_c g input ord call callc scc i st <= length scc * (T * w + N) + pot st
      end.
    Proof.
      intros Hi. induction scc as [|x scc IH]; intros ch st B F; cbn [grow_round round_c length].
      { split; auto. }
      set (v := T * w + N) in *. change (S (length scc) * v) with (v + length scc * v).
      destruct (get_rule x g) as [r|] eqn:G.
      2:{ specialize (IH ch st B F). destruct (grow_round g input ord call scc i ch st) as [c' st'| |]; [destruct IH as (A1 & A2 & A3); split; auto; split; auto; lia|lia|lia]. }
      assert (Ka : forall c y, In c (rule_alt r) -> In y c -> In (rep_elem y) (all_elems g root)) by (intros c y Ic Iy; eapply all_elems_rule; eauto).
      pose proof (alt_paid (rule_alt r) i st Ka (T_rule x r G) Hi B F) as X.
      set (ac := alt_c input ord call callc (rule_alt r) i st) in *.
      destruct (reach_alt input ord call (rule_alt r) i st) as [ns st1| |]; cbn [within rbind] in *; try lia.
      destruct X as ([E1 B1] & Fn & C1). pose proof (card_fin input ns Fn) as Cn. pose proof (free_mono g input root st st1 (ext_grows _ _ E1)) as F1.
      assert (Skip : forall ch1, match grow_round g input ord call scc i ch1 st1 with
        | ROk _ st' => bounded st' /\ free st' <= free st /\ 1 + (ac + (card ns + round_c g input ord call callc scc i st1)) + pot st' <= v + length scc * v + pot st
        | _ => 1 + (ac + (card ns + round_c g input ord call callc scc i st1)) <= v + length scc * v + pot st
        end).
      { intros ch1. assert (F1' : free st1 < f) by lia. specialize (IH ch1 st1 B1 F1').
        destruct (grow_round g input ord call scc i ch1 st1) as [c' st'| |]; [destruct IH as (A1 & A2 & A3); split; auto; split; [lia|]|..]; unfold v in *; lia. }
      destruct (r_grow st1 (rkey x i)) as [cur|] eqn:Gx.
      - destruct (existsb (fun e => negb (mem_nat e cur)) ns) eqn:New; [|apply Skip].
        set (st2 := set_grow (rkey x i) (Some (union cur ns)) st1).
        assert (B2 : bounded st2).
        { intros k s [H|H]; [apply (B1 k); auto|]. cbn in H. rewrite upd_case in H. destruct (String.eqb_spec k (rkey x i)) as [->|Nk]; [|apply (B1 k); auto].
          injection H as <-. apply allB_union; [apply (B1 (rkey x i)); auto|exact Fn]. }
        assert (Bu : grows st1 st2).
        { split; intros k; unfold busyG, busyP; cbn; auto. rewrite upd_case. destruct (String.eqb_spec k (rkey x i)) as [->|Nk]; auto.
          intros _. apply orb_true_r. }
        pose proof (free_mono g input root _ _ Bu) as F2. pose proof (pot_mono _ _ Bu) as P2. assert (F2' : free st2 < f) by lia.
        specialize (IH true st2 B2 F2'). destruct (grow_round g input ord call scc i true st2) as [c' st'| |];
          [destruct IH as (A1 & A2 & A3); split; auto; split; [lia|]|..]; unfold v in *; lia.
      - destruct ns; [apply Skip|]. unfold v. lia.
    Qed.
    Lemma growth_paid i scc : i <= len -> forall k st, bounded st -> free st < f ->
      match grow_loop g input ord call k scc i st with
      | ROk _ st' => bounded st' /\ free st' <= free st /\ growth_c g input ord call callc k scc i st + pot st' <= k * (1 + length scc * (T * w + N)) + pot st
      | _ => growth_c g input ord call callc k scc i st <= k * (1 + length scc * (T * w + N)) + pot st
      end.
    Proof.
      intros Hi. induction k as [|k IH]; intros st B F; cbn [grow_loop growth_c].
      { lia. }
      pose proof (round_paid i Hi scc false st B F) as X. set (v := length scc * (T * w + N)) in *.
      change (S k * (1 + v)) with (1 + v + k * (1 + v)).
      destruct (grow_round g input ord call scc i false st) as [c' st'| |]; cbn [rbind]; try lia.
      destruct X as (B1 & F1 & C1). destruct c'.
      - assert (F1' : free st' < f) by lia. specialize (IH st' B1 F1').
        destruct (grow_loop g input ord call k scc i st') as [u st2| |]; [destruct IH as (A1 & A2 & A3); split; auto; split; [lia|lia]|lia|lia].
      - split; auto. split; auto. lia.
    Qed.
    Lemma finish_paid i : forall scc st, bounded st -> finish_c scc i st <= length scc * (2 * N).
    Proof.
      induction scc as [|x scc IH]; intros st B; cbn [finish_c length]; [lia|].
      set (v := match r_grow st (rkey x i) with Some v => v | None => [] end).
      assert (Fv : fin v) by (unfold v; destruct (r_grow st (rkey x i)) eqn:E; [apply (B (rkey x i)); auto|intros j []]).
      pose proof (card_fin input v Fv).
      assert (B1 : bounded (set_memo (rkey x i) v (set_grow (rkey x i) None st))).
      { intros k s [H'|H']; cbn in H'; rewrite upd_case in H'.
        - destruct (String.eqb k (rkey x i)); [injection H' as <-; exact Fv|apply (B k); auto].
        - destruct (String.eqb k (rkey x i)); [discriminate|apply (B k); auto]. }
      specialize (IH _ B1). change (S (length scc) * (2 * N)) with (2 * N + length scc * (2 * N)). cbv zeta. fold v.
      set (fc := finish_c scc i _) in *. lia.
    Qed.

    Lemma left_rec_paid n scc i st : In (ERule n) (all_elems g root) -> i <= len -> lr (lower n) = Some scc -> bounded st -> free st < S f ->
      paid (reach_left_rec g input ord call (lower n) scc i st) (left_rec_c g input ord call callc (lower n) scc i st) 0 st.
    Proof.
      intros Ke Hi L B F. unfold reach_left_rec, left_rec_c.
      destruct (r_memo st (rkey (lower n) i)) as [v|] eqn:M; [cbn [paid]; lia|].
      destruct (r_grow st (rkey (lower n) i)) as [v|] eqn:G; [cbn [paid]; lia|].
      set (st1 := seed_all scc i st).
      assert (S1 : forall k, r_grow st1 k = (if existsb (fun x => String.eqb k (rkey x i)) scc then Some [] else r_grow st k) /\
        r_memo st1 k = r_memo st k /\ r_prog st1 k = r_prog st k) by (intros k; apply seed_all_grow).
      assert (Inn : existsb (fun x => String.eqb (rkey (lower n) i) (rkey x i)) scc = true).
      { apply existsb_exists. exists (lower n). split; [apply (LI (lower n)); auto|apply String.eqb_refl]. }
      assert (B1 : bounded st1).
      { intros k s [H|H]; destruct (S1 k) as (A & Bk & C).
        - rewrite Bk in H. apply (B k); auto.
        - rewrite A in H. destruct (existsb (fun x => String.eqb k (rkey x i)) scc); [injection H as <-; intros j J; destruct J|apply (B k); auto]. }
      assert (F1 : free st1 < free st).
      { unfold RecogProof.free.
        assert (cnt g input root (busyP st1) <= cnt g input root (busyP st)).
        { apply cnt_mono. intros k. unfold busyP. destruct (S1 k) as (A & Bk & C). rewrite Bk, C. auto. }
        enough (cnt g input root (busyG st1) < cnt g input root (busyG st)) by lia.
        apply (cnt_lt g input root _ _ (rkey (lower n) i)).
        - intros k. unfold busyG. destruct (S1 k) as (A & Bk & C). rewrite A, Bk. destruct (existsb (fun x => String.eqb k (rkey x i)) scc); auto. intros _. apply orb_true_r.
        - apply (key_in g input root (ERule n) i); auto. right. left. reflexivity.
        - unfold busyG. rewrite M, G. reflexivity.
        - unfold busyG. destruct (S1 (rkey (lower n) i)) as (A & _ & _). rewrite A, Inn. apply orb_true_r. }
      assert (P1 : pot st1 + W <= pot st) by (unfold pot; replace (W * free st1 + W) with (W * S (free st1)) by ring; apply Nat.mul_le_mono_l; lia).
      assert (F1' : free st1 < f) by lia.
      pose proof (growth_paid i scc Hi (S (length scc * N)) st1 B1 F1') as X. pose proof (W_lr _ _ L) as Wl. unfold lrw in Wl.
      cbv zeta. set (gc := growth_c g input ord call callc (S (length scc * N)) scc i st1) in *.
      set (bd := S (length scc * N) * (1 + length scc * (T * w + N))) in *.
      destruct (grow_loop g input ord call (S (length scc * N)) scc i st1) as [u st2| |]; cbn [rbind paid]; try lia.
      destruct X as (B2 & F2 & C2). pose proof (finish_paid i scc st2 B2) as Fc.
      pose proof (finish_spec input (lower n) i scc [] st2) as FS. destruct (finish (lower n) scc i [] st2) as [res st3].
      destruct FS as (D1 & D2 & D3 & D4 & D5). cbn [paid].
      assert (Gr : grows st2 st3).
      { split; intros k H; unfold busyG, busyP in *.
        - destruct (existsb (fun x => String.eqb k (rkey x i)) scc) eqn:Ex.
          + apply existsb_exists in Ex as (x & Ix & E). apply String.eqb_eq in E as ->. destruct (D4 x Ix) as [_ ->]. reflexivity.
          + assert (Nk : forall x, In x scc -> k <> rkey x i).
            { intros x Ix ->. assert (existsb (fun y => String.eqb (rkey x i) (rkey y i)) scc = true); [|congruence].
              apply existsb_exists. exists x. split; auto. apply String.eqb_refl. }
            destruct (D3 k Nk) as [-> ->]. exact H.
        - rewrite D1. apply orb_true_iff in H as [H|H]; [rewrite D2 by auto; auto|rewrite H, orb_true_r; auto]. }
      pose proof (pot_mono _ _ Gr). lia.
    Qed.

    Lemma plain_paid e i st : In e (all_elems g root) -> i <= len -> bounded st -> free st < S f ->
      paid (reach_plain g input ord call e i st) (plain_c g input ord call callc e i st) 0 st.
    Proof.
      intros Ke Hi B F. unfold reach_plain, plain_c.
      destruct (r_memo st (ekey e i)) as [v|] eqn:M; [cbn [paid]; lia|].
      destruct (r_prog st (ekey e i)) eqn:P; [cbn [paid]; lia|].
      set (st1 := set_prog (ekey e i) true st).
      assert (F1 : free st1 < free st).
      { unfold RecogProof.free. change (busyG st1) with (busyG st).
        enough (cnt g input root (busyP st1) < cnt g input root (busyP st)) by lia. apply (cnt_lt g input root _ _ (ekey e i)).
        - intros k. unfold busyP. cbn. rewrite upd_case. destruct (String.eqb k (ekey e i)); auto. intros _. apply orb_true_r.
        - apply (key_in g input root e i); auto. left. reflexivity.
        - unfold busyP. rewrite M, P. reflexivity.
        - unfold busyP. cbn. rewrite upd_same. apply orb_true_r. }
      assert (P1 : pot st1 + W <= pot st) by (unfold pot; replace (W * free st1 + W) with (W * S (free st1)) by ring; apply Nat.mul_le_mono_l; lia).
      assert (F1' : free st1 < f) by lia.
      assert (I1 : It input st1 st1) by (split; [apply ext_refl|exact B]).
      assert (Kr : forall n r, e = ERule n -> get_rule n g = Some r -> aw (rule_alt r) <= T /\ forall c x, In c (rule_alt r) -> In x c -> In (rep_elem x) (all_elems g root)).
      { intros n r _ G. split; [eapply T_rule; eauto|]. intros c x Ic Ix. eapply all_elems_rule; eauto. }
      assert (Kg : forall a, e = EGroup a \/ e = EOption a -> aw a <= T /\ forall c x, In c a -> In x c -> In (rep_elem x) (all_elems g root)).
      { intros a E. assert (Ia : In (EGroup a) (all_elems g root) \/ In (EOption a) (all_elems g root)) by (destruct E as [->| ->]; auto).
        split; [apply T_sub; exact Ia|]. intros c x Ic Ix. eapply all_elems_sub; eauto. }
      pose proof (compute_w input g ord O call callc (It input st1) (fun e => In e (all_elems g root)) pot (tick_paid st1) (call_paid st1 F1') T e i st1 I1 Hi Kr Kg (T_term e Ke)) as X.
      set (cc := compute_c g input ord call callc e i st1) in *.
      destruct (compute_elem g input ord call e i st1) as [out st2| |]; cbn [within paid rbind] in *; try lia.
      destruct X as ([E2 B2] & Fo & C2). pose proof (card_fin input out Fo).
      assert (Gr : grows st2 (set_memo (ekey e i) out (set_prog (ekey e i) false st2))).
      { split; intros k Hk; unfold busyG, busyP in *; cbn; rewrite !upd_case; destruct (String.eqb k (ekey e i)); auto. }
      pose proof (pot_mono _ _ Gr). lia.
    Qed.
  End Body.

  Theorem elem_paid : forall f e i st, In e (all_elems g root) -> i <= len -> bounded st -> free st < f ->
    paid (reach_elem g input lr ord f e i st) (elem_c g input lr ord f e i st) 1 st.
  Proof.
    induction f as [|f IH]; intros e i st Ke Hi B F; [lia|]. cbn [reach_elem elem_c]. unfold reach_body, body_c, is_lr.
    assert (One : forall x c, paid x c 0 st -> @paid (list nat) x (1 + c) 1 st) by (intros x c H; destruct x; cbn [paid] in *; lia).
    destruct e as [n|a|a|s vs|b s0 es|v]; try (apply One, plain_paid; auto).
    destruct (lr (lower n)) as [scc|] eqn:L; [apply One, left_rec_paid; auto|apply One, plain_paid; auto].
  Qed.
  Lemma total_steps f : recog_fuel g input root <= f -> elem_c g input lr ord f (ERule root) 0 r_init <= 1 + W * (2 * length (key_univ g input root)).
  Proof.
    intros F. pose proof (elem_paid f (ERule root) 0 r_init) as X.
    assert (B : bounded r_init) by (intros k s [Q|Q]; discriminate).
    pose proof (recog_fuel_enough g input root) as E. assert (Fr : free r_init < f) by lia.
    specialize (X (or_introl eq_refl) (Nat.le_0_l _) B Fr).
    assert (L : pot r_init <= W * (2 * length (key_univ g input root))).
    { apply Nat.mul_le_mono_l. unfold recog_fuel in E. lia. }
    destruct (reach_elem g input lr ord f (ERule root) 0 r_init); cbn [paid] in X; lia.
  Qed.
End Total.
