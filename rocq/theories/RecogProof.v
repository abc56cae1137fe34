(** The recognizer: termination, no panic, soundness.
    Its definitions are means of proof and model no code. *)
From Coq Require Import ZArith Arith String Ascii Bool Relations List Lia.
From Verif Require Import Syntax Spec Num Term Printer PrintInj Deps Dag Cycle LowerLang PropTerm PropDag LeftRec Recog.
Import ListNotations.
Local Open Scope list_scope.

(** ** Keys *)
Lemma at_split d1 : forall s1 s2 d2, all_chars is_dig d1 = true -> all_chars is_dig d2 = true ->
  (s1 ++ "@" ++ d1 = s2 ++ "@" ++ d2)%string -> s1 = s2 /\ d1 = d2.
Proof.
  assert (N : forall s d, all_chars is_dig (s ++ "@" ++ d)%string = true -> False).
  { induction s as [|c s IH]; intros d H; [discriminate|]. cbn in H. apply andb_true_iff in H as [_ H]. exact (IH _ H). }
  induction s1 as [|c s1 IH]; intros [|c2 s2] d2 H1 H2 E.
  - injection E as E. split; [reflexivity|exact E].
  - injection E as _ E. exfalso. apply (N s2 d2). change (s2 ++ String "@" d2)%string with (s2 ++ "@" ++ d2)%string in E. congruence.
  - injection E as _ E. exfalso. apply (N s1 d1). change (s1 ++ String "@" d1)%string with (s1 ++ "@" ++ d1)%string in E. congruence.
  - injection E as -> E. destruct (IH s2 d2 H1 H2 E) as [-> ->]. split; reflexivity.
Qed.
Lemma rkey_inj s i s' i' : rkey s i = rkey s' i' -> s = s' /\ i = i'.
Proof.
  intros E. apply at_split in E as [-> E]; [|apply itoa_digits; lia|apply itoa_digits; lia].
  split; [reflexivity|]. apply itoa_inj in E; lia.
Qed.

Lemma upd_same {A} (f : string -> A) k v : upd f k v k = v.
Proof. unfold upd. rewrite String.eqb_refl. reflexivity. Qed.
Lemma upd_other {A} (f : string -> A) k v k' : k' <> k -> upd f k v k' = f k'.
Proof. unfold upd. intros N. destruct (String.eqb_spec k' k); [contradiction|]. reflexivity. Qed.
Lemma upd_case {A} (f : string -> A) k v k' : upd f k v k' = (if String.eqb k' k then v else f k').
Proof. reflexivity. Qed.

(** ** Loops, for a property of states and positions *)
Section Simple.
  Variable input : list Z.
  Variable g : grammar.
  Variable ord : nat -> list nat -> list nat.
  Hypothesis O : forall t l x, In x (ord t l) <-> In x l.
  Variable call : elem -> nat -> rstate -> rres (list nat).
  Variable I : rstate -> Prop.
  Variables (K : elem -> Prop) (B : nat -> Prop).
  Variables FA PA : Prop.
  Notation good := (good FA PA).
  Hypothesis I_tick : forall st, I st -> I (tick st).
  Definition allB (s : list nat) : Prop := forall j, In j s -> B j.
  Hypothesis call_s : forall e p st, I st -> K e -> B p -> good (call e p st) (fun s st' => I st' /\ allB s).

  Lemma allB_union a b : allB a -> allB b -> allB (union a b).
  Proof. intros H1 H2 j J. apply union_in in J as [J|J]; auto. Qed.
  Lemma each_pos_s f : (forall p st, I st -> B p -> good (f p st) (fun s st' => I st' /\ allB s)) ->
    forall ps acc st, I st -> allB ps -> allB acc -> good (each_pos f ps acc st) (fun s st' => I st' /\ allB s).
  Proof.
    intros Hf. induction ps as [|p ps IH]; intros acc st Ist Hp Ha; cbn [each_pos]; [cbn; auto|].
    eapply good_bind; [apply Hf; auto; apply Hp; left; auto|]. intros s st' [I' H'].
    apply IH; auto; [intros q Q; apply Hp; right; auto|apply allB_union; auto].
  Qed.
  Lemma range_pos_s f : (forall p st, I st -> B p -> good (f p st) (fun s st' => I st' /\ allB s)) ->
    forall S st, I st -> allB S -> good (range_pos ord f S st) (fun s st' => I st' /\ allB s).
  Proof.
    intros Hf S st Ist H. unfold range_pos. apply each_pos_s; auto; [|intros j []].
    intros p P. apply O in P. auto.
  Qed.
  Lemma rep_loop_s mn mx e : K e -> forall k c level seen ends st, I st -> allB level -> allB ends ->
    good (rep_loop ord call k c mn mx e level seen ends st) (fun s st' => I st' /\ allB s).
  Proof.
    intros Ke. induction k as [|k IH]; intros c level seen ends st Ist Hl He; cbn [rep_loop]; [cbn; auto|].
    destruct (_ && _)%bool; [cbn; auto|].
    eapply good_bind; [apply range_pos_s; auto|]. cbv beta. intros next st' [I' H'].
    assert (E' : allB (if (mn <=? c)%Z then union ends next else ends)) by (destruct (mn <=? c)%Z; auto using allB_union).
    destruct next as [|n0 nx] eqn:En; [cbn; auto|]. rewrite <- En in *. destruct (_ && _)%bool; [cbn; auto|]. apply IH; auto.
  Qed.
  Lemma reach_rep_s r i st : K (rep_elem r) -> I st -> B i -> good (reach_rep input ord call r i st) (fun s st' => I st' /\ allB s).
  Proof.
    destruct r as [mn mx e]. intros Ke Ist Hi. cbn [reach_rep]. apply rep_loop_s; auto.
    - intros j [<-|[]]. auto.
    - destruct (mn =? 0)%Z; [intros j [<-|[]]; auto|intros j []].
  Qed.
  Lemma cat_loop_s c : (forall r, In r c -> K (rep_elem r)) -> forall cur st, I st -> allB cur ->
    good (cat_loop input ord call c cur st) (fun s st' => I st' /\ allB s).
  Proof.
    induction c as [|r c IH]; intros Kc cur st Ist Hc; cbn [cat_loop]; [cbn; auto|].
    eapply good_bind; [apply range_pos_s; auto; intros p st' I' P; apply reach_rep_s; auto; apply Kc; left; auto|].
    cbv beta. intros next st' [I' H']. destruct next as [|n0 nx] eqn:En; [cbn; split; auto; intros j []|]. rewrite <- En in *.
    apply IH; auto. intros r' R. apply Kc. right. auto.
  Qed.
  Lemma reach_alt_s a i st : (forall c r, In c a -> In r c -> K (rep_elem r)) -> I st -> B i ->
    good (reach_alt input ord call a i st) (fun s st' => I st' /\ allB s).
  Proof.
    intros Ka Ist Hi. unfold reach_alt. assert (allB []) as H0 by (intros j []). revert Ka H0. generalize (@nil nat) as acc.
    revert st Ist. induction a as [|c a IH]; intros st Ist acc Ka Ha; cbn [alt_loop]; [cbn; auto|].
    eapply good_bind; [apply cat_loop_s; auto; [intros r R; eapply Ka; [left; reflexivity|exact R]|intros j [<-|[]]; auto]|].
    cbv beta. intros s st' [I' H']. apply IH; auto; [|apply allB_union; auto]. intros c' r C R. eapply Ka; [right; exact C|exact R].
  Qed.
  (** computeElem, once the definitions it explores are known. *)
  Lemma compute_elem_s e i st : I st -> B i ->
    (forall n r, e = ERule n -> get_rule n g = Some r -> forall c x, In c (rule_alt r) -> In x c -> K (rep_elem x)) ->
    (forall a c x, e = EGroup a \/ e = EOption a -> In c a -> In x c -> K (rep_elem x)) ->
    (forall j, match_term e input i = Some j -> B j) ->
    good (compute_elem g input ord call e i st) (fun s st' => I st' /\ allB s).
  Proof.
    intros Ist Hi Kr Kg Km. destruct e as [n|a|a|s vs|b st0 es|vs]; cbn [compute_elem].
    - destruct (get_rule n g) as [r|] eqn:G; [|cbn; split; auto; intros j []]. apply reach_alt_s; eauto.
    - apply reach_alt_s; eauto.
    - eapply good_bind; [apply reach_alt_s; eauto|]. cbv beta. intros s st' [I' H']. split; [exact I'|].
      assert (Bi : allB [i]) by (intros j [<-|[]]; exact Hi). apply allB_union; assumption.
    - cbn. split; auto. destruct (match_char s vs input i) eqn:M; [intros j [<-|[]]; apply Km; auto|intros j []].
    - cbn [good Recog.good]. split; auto. destruct (match_term (ENum b st0 es) input i) eqn:M; [intros j [<-|[]]; apply Km; auto|intros j []].
    - cbn. split; auto. intros j [].
  Qed.
End Simple.

(** ** Elements of a grammar *)
Fixpoint elem_subs (e : elem) : list elem :=
  e :: match e with EGroup a | EOption a => flat_map (fun c => flat_map (fun r => rep_subs r) c) a | _ => [] end
with rep_subs (r : rep) : list elem := match r with Rep _ _ e => elem_subs e end.
Definition alt_subs (a : alternation) : list elem := flat_map (fun c => flat_map (fun r => rep_subs r) c) a.
Definition all_elems (g : grammar) (root : string) : list elem :=
  ERule root :: flat_map (fun r => alt_subs (rule_alt r)) (g ++ core_rules).

Lemma alt_subs_in a c r : In c a -> In r c -> In (rep_elem r) (alt_subs a).
Proof.
  intros Ic Ir. unfold alt_subs. apply in_flat_map. exists c. split; auto. apply in_flat_map. exists r. split; auto.
  destruct r as [mn mx e]. destruct e; left; reflexivity.
Qed.
Lemma alt_subs_elim a x : In x (alt_subs a) -> exists c r, In c a /\ In r c /\ In x (rep_subs r).
Proof. unfold alt_subs. intros H. apply in_flat_map in H as (c & Ic & H). apply in_flat_map in H as (r & Ir & H). eauto. Qed.
Lemma subs_trans : (forall e y, In y (elem_subs e) -> forall a, y = EGroup a \/ y = EOption a -> forall c r, In c a -> In r c -> In (rep_elem r) (elem_subs e)) /\
  (forall r y, In y (rep_subs r) -> forall a, y = EGroup a \/ y = EOption a -> forall c x, In c a -> In x c -> In (rep_elem x) (rep_subs r)).
Proof.
  assert (AL : forall b, Forall (Forall (fun r => forall y, In y (rep_subs r) -> forall a, y = EGroup a \/ y = EOption a -> forall c x, In c a -> In x c -> In (rep_elem x) (rep_subs r))) b ->
    forall y, In y (alt_subs b) -> forall a, y = EGroup a \/ y = EOption a -> forall c x, In c a -> In x c -> In (rep_elem x) (alt_subs b)).
  { intros b F y Y a E c x Ic Ix. apply alt_subs_elim in Y as (c0 & r0 & I0 & I1 & Y).
    rewrite Forall_forall in F. specialize (F c0 I0). rewrite Forall_forall in F. specialize (F r0 I1 y Y a E c x Ic Ix).
    unfold alt_subs. apply in_flat_map. exists c0. split; auto. apply in_flat_map. exists r0. auto. }
  apply elem_rep_ind.
  - intros n y [<-|[]] a [E|E]; discriminate.
  - intros b F y [<-|Y] a E c r Ic Ir; right.
    + destruct E as [E|E]; inversion E; subst. apply (alt_subs_in a c r); auto.
    + eapply (AL b F); eauto.
  - intros b F y [<-|Y] a E c r Ic Ir; right.
    + destruct E as [E|E]; inversion E; subst. apply (alt_subs_in a c r); auto.
    + eapply (AL b F); eauto.
  - intros s v y [<-|[]] a [E|E]; discriminate.
  - intros b s v y [<-|[]] a [E|E]; discriminate.
  - intros v y [<-|[]] a [E|E]; discriminate.
  - intros mn mx e IH. exact IH.
Qed.
Lemma all_elems_sub g root a c r : In (EGroup a) (all_elems g root) \/ In (EOption a) (all_elems g root) -> In c a -> In r c -> In (rep_elem r) (all_elems g root).
Proof.
  intros H Ic Ir. right.
  assert (exists y, (y = EGroup a \/ y = EOption a) /\ In y (flat_map (fun r => alt_subs (rule_alt r)) (g ++ core_rules))) as (y & E & Y).
  { destruct H as [[H|H]|[H|H]]; try discriminate; eauto. }
  apply in_flat_map in Y as (ru & Iru & Y). apply in_flat_map. exists ru. split; auto.
  apply alt_subs_elim in Y as (c0 & r0 & I0 & I1 & Y). unfold alt_subs. apply in_flat_map. exists c0. split; auto.
  apply in_flat_map. exists r0. split; auto. eapply (proj2 subs_trans); eauto.
Qed.
Lemma all_elems_rule g root n r c x : get_rule n g = Some r -> In c (rule_alt r) -> In x c -> In (rep_elem x) (all_elems g root).
Proof.
  intros G Ic Ix. right. destruct (get_rule_name _ _ _ G) as [_ I]. apply in_flat_map. exists r. split; auto. eapply alt_subs_in; eauto.
Qed.

(** ** Termination *)
Section Term.
  Variable g : grammar.
  Variable input : list Z.
  Variable lr : string -> option (list string).
  Variable ord : nat -> list nat -> list nat.
  Variable root : string.
  Hypothesis O : forall t l x, In x (ord t l) <-> In x l.
  Hypothesis LI : forall n scc, lr n = Some scc -> In n scc.
  Notation len := (length input).
  Notation goodT := (good False True).

  Definition keys (e : elem) (i : nat) : list string :=
    ekey e i :: match e with ERule n => [rkey (lower n) i] | _ => [] end.
  Definition key_univ : list string :=
    flat_map (fun e => flat_map (keys e) (seq 0 (S len))) (all_elems g root).
  Definition recog_fuel : nat := S (2 * length key_univ).

  Definition is_some {A} (x : option A) : bool := match x with Some _ => true | None => false end.
  Definition busyG (st : rstate) (k : string) : bool := (is_some (r_memo st k) || is_some (r_grow st k))%bool.
  Definition busyP (st : rstate) (k : string) : bool := (is_some (r_memo st k) || r_prog st k)%bool.
  Definition cnt (p : string -> bool) : nat := length (filter (fun k => negb (p k)) key_univ).
  Definition free (st : rstate) : nat := cnt (busyG st) + cnt (busyP st).
  Definition grows (a b : rstate) : Prop := (forall k, busyG a k = true -> busyG b k = true) /\ (forall k, busyP a k = true -> busyP b k = true).

  Definition inb (j : nat) : Prop := j <= len.
  Definition bounded (st : rstate) : Prop := forall k s, r_memo st k = Some s \/ r_grow st k = Some s -> allB inb s.
  Definition ext (a b : rstate) : Prop :=
    (forall k, is_some (r_memo a k) = true -> is_some (r_memo b k) = true) /\
    (forall k, r_prog b k = r_prog a k) /\
    (forall k, r_grow b k = r_grow a k \/ (r_grow b k = None /\ is_some (r_memo b k) = true)).

  Lemma ext_refl a : ext a a.
  Proof. split; [auto|]. split; auto. Qed.
  Lemma ext_trans a b c : ext a b -> ext b c -> ext a c.
  Proof.
    intros (A1 & A2 & A3) (B1 & B2 & B3). split; [auto|]. split; [intros k; rewrite B2; auto|].
    intros k. destruct (B3 k) as [E|E]; [|auto]. destruct (A3 k) as [E'|[E' E2]]; [left; congruence|right]. split; [congruence|auto].
  Qed.
  Lemma ext_grows a b : ext a b -> grows a b.
  Proof.
    intros (A1 & A2 & A3). split; intros k H; unfold busyG, busyP in *.
    - apply orb_true_iff in H as [H|H]; [rewrite A1 by auto; auto|].
      destruct (A3 k) as [->|[-> M]]; [rewrite H, orb_true_r; auto|rewrite M; auto].
    - rewrite A2. apply orb_true_iff in H as [H|H]; [rewrite A1 by auto; auto|rewrite H, orb_true_r; auto].
  Qed.
  Lemma grows_trans a b c : grows a b -> grows b c -> grows a c.
  Proof. intros [A B] [C D]. split; auto. Qed.
  Lemma cnt_mono (p q : string -> bool) : (forall k, p k = true -> q k = true) -> cnt q <= cnt p.
  Proof.
    intros H. apply filter_le_mono. intros x _ X. apply negb_true_iff in X. apply negb_true_iff.
    destruct (p x) eqn:E; auto. apply H in E. congruence.
  Qed.
  Lemma cnt_lt (p q : string -> bool) k : (forall k, p k = true -> q k = true) -> In k key_univ -> p k = false -> q k = true -> cnt q < cnt p.
  Proof.
    intros H I A B. apply filter_lt_mono with (y := k); auto; [|rewrite B; auto|rewrite A; auto].
    intros x _ X. apply negb_true_iff in X. apply negb_true_iff. destruct (p x) eqn:E; auto. apply H in E. congruence.
  Qed.
  Lemma free_mono a b : grows a b -> free b <= free a.
  Proof. intros [A B]. unfold free. pose proof (cnt_mono _ _ A). pose proof (cnt_mono _ _ B). lia. Qed.
  Lemma ext_tick a : ext a (tick a).
  Proof. split; [auto|]. split; auto. Qed.

  Lemma key_in e i k : In e (all_elems g root) -> i <= len -> In k (keys e i) -> In k key_univ.
  Proof.
    intros E Hi K. unfold key_univ. apply in_flat_map. exists e. split; auto. apply in_flat_map. exists i. split; auto.
    apply in_seq. lia.
  Qed.

  (** How much the seeds of a component can still grow. *)
  Definition pot (x : option (list nat)) : nat :=
    match x with None => len + 2 | Some s => length (filter (fun j => mem_nat j s) (seq 0 (S len))) end.
  Definition phi (scc : list string) (i : nat) (st : rstate) : nat := list_sum (map (fun x => pot (r_grow st (rkey x i))) scc).
  Lemma pot_le x : pot x <= len + 2.
  Proof. destruct x as [s|]; cbn [pot]; auto. pose proof (filter_le_length (fun j => mem_nat j s) (seq 0 (S len))) as H. rewrite seq_length in H. lia. Qed.
  Lemma phi_le scc i st : phi scc i st <= length scc * (len + 2).
  Proof.
    unfold phi. induction scc as [|x scc IH]; [auto|]. cbn [map length]. change (list_sum (?a :: ?l)) with (a + list_sum l).
    pose proof (pot_le (r_grow st (rkey x i))). lia.
  Qed.
  Lemma phi_mono scc i a b : (forall k, pot (r_grow a k) <= pot (r_grow b k)) -> phi scc i a <= phi scc i b.
  Proof.
    intros H. unfold phi. induction scc as [|x scc IH]; [auto|]. cbn [map]. change (list_sum (?a :: ?l)) with (a + list_sum l).
    pose proof (H (rkey x i)). lia.
  Qed.
  Lemma phi_lt scc i a b x : (forall k, pot (r_grow a k) <= pot (r_grow b k)) -> In x scc ->
    pot (r_grow a (rkey x i)) < pot (r_grow b (rkey x i)) -> phi scc i a < phi scc i b.
  Proof.
    intros H I L. unfold phi. induction scc as [|y scc IH]; [easy|]. cbn [map]. change (list_sum (?a :: ?l)) with (a + list_sum l).
    destruct I as [->|I].
    - pose proof (phi_mono scc i a b H) as M. unfold phi in M. lia.
    - pose proof (H (rkey y i)). specialize (IH I). lia.
  Qed.
  Lemma ext_pot a b : ext a b -> forall k, pot (r_grow a k) <= pot (r_grow b k).
  Proof. intros (_ & _ & E) k. destruct (E k) as [->|[-> _]]; auto. apply pot_le. Qed.
  Lemma pot_union cur ns e : In e ns -> e <= len -> ~ In e cur -> pot (Some cur) < pot (Some (union cur ns)).
  Proof.
    intros I L N. cbn [pot]. apply filter_lt_mono with (y := e).
    - intros x _ X. apply mem_nat_in in X. apply mem_nat_in. apply union_in. auto.
    - apply in_seq. lia.
    - destruct (mem_nat e cur) eqn:E; auto. apply mem_nat_in in E. contradiction.
    - apply mem_nat_in, union_in. auto.
  Qed.

  Section Body.
    Variable f : nat.
    Notation call := (reach_elem g input lr ord f).
    Notation Kn := (fun e => In e (all_elems g root)).
    Hypothesis IHf : forall e i st, In e (all_elems g root) -> i <= len -> bounded st -> free st < f ->
      goodT (call e i st) (fun s st' => ext st st' /\ bounded st' /\ allB inb s).

    Definition It (st0 st : rstate) : Prop := ext st0 st /\ bounded st.
    Lemma It_call st0 : free st0 < f -> forall e p st, It st0 st -> Kn e -> inb p -> goodT (call e p st) (fun s st' => It st0 st' /\ allB inb s).
    Proof.
      intros F e p st [E B] Ke P. pose proof (free_mono st0 st (ext_grows _ _ E)).
      eapply good_weaken; [apply IHf; auto; lia|]. cbv beta. intros s st' (E' & B' & H'). split; auto. split; auto. eapply ext_trans; eauto.
    Qed.
    Lemma It_tick st0 st : It st0 st -> It st0 (tick st).
    Proof. intros [E B]. split; [eapply ext_trans; eauto using ext_tick|exact B]. Qed.

    Lemma alt_t st0 a i st : free st0 < f -> (forall c r, In c a -> In r c -> Kn (rep_elem r)) -> It st0 st -> i <= len ->
      goodT (reach_alt input ord call a i st) (fun s st' => It st0 st' /\ allB inb s).
    Proof.
      intros F Ka I Hi. apply (reach_alt_s input ord O call (It st0) Kn inb False True (It_tick st0) (It_call st0 F)); auto.
    Qed.

    (** One round over (part of) the component. *)
    Lemma round_t full i : i <= len -> forall scc, (forall x, In x scc -> In x full) -> forall ch st, bounded st -> free st < f ->
      goodT (grow_round g input ord call scc i ch st) (fun ch' st' =>
        bounded st' /\ grows st st' /\ (forall k, r_prog st' k = r_prog st k) /\
        (forall k, is_some (r_memo st k) = true -> is_some (r_memo st' k) = true) /\
        (forall k, (forall x, In x scc -> k <> rkey x i) -> r_grow st' k = r_grow st k \/ (r_grow st' k = None /\ is_some (r_memo st' k) = true)) /\
        (forall k, pot (r_grow st k) <= pot (r_grow st' k)) /\
        (ch' = true -> ch = true \/ phi full i st < phi full i st')).
    Proof.
      intros Hi. induction scc as [|x scc IH]; intros Sub ch st B F; cbn [grow_round].
      { cbn. split; auto. split; [split; auto|]. split; auto. }
      assert (Sub' : forall x, In x scc -> In x full) by (intros y Y; apply Sub; right; auto).
      destruct (get_rule x g) as [r|] eqn:G.
      2:{ eapply good_weaken; [apply IH; auto|]. cbv beta. intros ch' st' (A1 & A2 & A3 & A4 & A5 & A6 & A7).
          split; auto. split; auto. split; auto. split; auto. split; auto. intros k N. apply A5. intros y Y. apply N. right. auto. }
      eapply good_bind.
      { apply (alt_t st); auto; [intros c z Ic Iz; eapply all_elems_rule; eauto|split; [apply ext_refl|exact B]]. }
      cbv beta. intros ns st1 [[E1 B1] Hns].
      pose proof (free_mono st st1 (ext_grows _ _ E1)) as F1.
      assert (Skip : forall ch1, (ch1 = true -> ch = true) -> goodT (grow_round g input ord call scc i ch1 st1) (fun ch' st' =>
        bounded st' /\ grows st st' /\ (forall k, r_prog st' k = r_prog st k) /\
        (forall k, is_some (r_memo st k) = true -> is_some (r_memo st' k) = true) /\
        (forall k, (forall y, In y (x :: scc) -> k <> rkey y i) -> r_grow st' k = r_grow st k \/ (r_grow st' k = None /\ is_some (r_memo st' k) = true)) /\
        (forall k, pot (r_grow st k) <= pot (r_grow st' k)) /\
        (ch' = true -> ch = true \/ phi full i st < phi full i st'))).
      { intros ch1 Hch. eapply good_weaken; [apply (IH Sub' ch1 st1); auto; lia|]. cbv beta. intros ch' st' (A1 & A2 & A3 & A4 & A5 & A6 & A7).
        pose proof (ext_pot _ _ E1) as P1. split; auto.
        split; [eapply grows_trans; [apply ext_grows; exact E1|exact A2]|]. split; [intros k; rewrite A3; apply E1|].
        split; [intros k M; apply A4, E1; auto|]. split.
        - intros k N. destruct (A5 k) as [E|E]; [intros y Y; apply N; right; auto| |auto].
          destruct (proj2 (proj2 E1) k) as [E'|[E' M]]; [left; congruence|right]. split; [congruence|]. apply A4; auto.
        - split; [intros k; specialize (A6 k); specialize (P1 k); lia|].
          intros C. destruct (A7 C) as [C'|C']; auto. right. pose proof (phi_mono full i st st1 P1). lia. }
      destruct (r_grow st1 (rkey x i)) as [cur|] eqn:Gx.
      - destruct (existsb (fun e => negb (mem_nat e cur)) ns) eqn:New; [|apply Skip; auto].
        apply existsb_exists in New as (e & Ie & Ne). apply negb_true_iff in Ne.
        assert (Ne' : ~ In e cur) by (intros H; apply mem_nat_in in H; congruence).
        set (st2 := set_grow (rkey x i) (Some (union cur ns)) st1).
        assert (B2 : bounded st2).
        { intros k s [H|H]; [apply (B1 k); auto|]. cbn in H. rewrite upd_case in H. destruct (String.eqb_spec k (rkey x i)) as [->|N]; [|apply (B1 k); auto].
          inversion H; subst. apply allB_union; auto. apply (B1 (rkey x i)). auto. }
        assert (P2 : forall k, pot (r_grow st1 k) <= pot (r_grow st2 k)).
        { intros k. cbn. rewrite upd_case. destruct (String.eqb_spec k (rkey x i)) as [->|N]; auto. rewrite Gx.
          apply Nat.lt_le_incl. apply (pot_union cur ns e); auto. apply Hns. auto. }
        assert (Bu : grows st1 st2).
        { split; intros k; unfold busyG, busyP; cbn; auto. rewrite upd_case. destruct (String.eqb_spec k (rkey x i)) as [->|N]; auto.
          intros _. apply orb_true_r. }
        assert (L2 : phi full i st1 < phi full i st2).
        { apply phi_lt with (x := x); auto; [apply Sub; left; auto|]. cbn [r_grow st2 set_grow]. unfold st2. cbn. rewrite upd_same, Gx.
          apply (pot_union cur ns e); auto. apply Hns. auto. }
        pose proof (free_mono st1 st2 Bu) as F2. pose proof (ext_pot _ _ E1) as P1.
        eapply good_weaken; [apply (IH Sub' true st2); auto; lia|]. cbv beta. intros ch' st' (A1 & A2 & A3 & A4 & A5 & A6 & A7). split; auto.
        split; [eapply grows_trans; [apply ext_grows; exact E1|eapply grows_trans; [exact Bu|exact A2]]|]. split; [intros k; rewrite A3; apply E1|].
        split; [intros k M; apply A4, E1; auto|]. split.
        + intros k N. destruct (A5 k) as [E|E]; [intros y Y; apply N; right; auto| |auto].
          assert (Ek : r_grow st2 k = r_grow st1 k) by (cbn; apply upd_other; apply N; left; auto).
          destruct (proj2 (proj2 E1) k) as [E'|[E' M]]; [left; congruence|right]. split; [congruence|]. apply A4; auto.
        + split; [intros k; specialize (A6 k); specialize (P1 k); specialize (P2 k); lia|]. intros _. right.
          pose proof (phi_mono full i st st1 P1). pose proof (phi_mono full i st2 st' A6). lia.
      - destruct ns; [apply Skip; auto|exact Logic.I].
    Qed.

    Lemma grow_t full i : i <= len -> forall k st, bounded st -> free st < f -> length full * (len + 2) < k + phi full i st ->
      goodT (grow_loop g input ord call k full i st) (fun _ st' =>
        bounded st' /\ (forall k, r_prog st' k = r_prog st k) /\
        (forall k, is_some (r_memo st k) = true -> is_some (r_memo st' k) = true) /\
        (forall k, (forall x, In x full -> k <> rkey x i) -> r_grow st' k = r_grow st k \/ (r_grow st' k = None /\ is_some (r_memo st' k) = true))).
    Proof.
      intros Hi. induction k as [|k IH]; intros st B F L; cbn [grow_loop].
      { pose proof (phi_le full i st). lia. }
      eapply good_bind; [apply (round_t full i Hi full); auto|]. cbv beta. intros ch st1 (A1 & A2 & A3 & A4 & A5 & A6 & A7).
      destruct ch; [|cbn; auto]. destruct (A7 eq_refl) as [C|C]; [discriminate|]. pose proof (free_mono st st1 A2).
      eapply good_weaken; [apply (IH st1); auto; lia|]. cbv beta. intros _ st2 (B1 & B2 & B3 & B4). split; auto.
      split; [intros x; rewrite B2; auto|]. split; auto. intros x N. destruct (B4 x N) as [E|E]; auto.
      destruct (A5 x N) as [E'|[E' M]]; [left; congruence|right]. split; [congruence|auto].
    Qed.

    Lemma seed_all_grow scc i : forall st k, r_grow (seed_all scc i st) k = (if existsb (fun x => String.eqb k (rkey x i)) scc then Some [] else r_grow st k) /\
      r_memo (seed_all scc i st) k = r_memo st k /\ r_prog (seed_all scc i st) k = r_prog st k.
    Proof.
      unfold seed_all. induction scc as [|x scc IH]; intros st k; cbn [fold_left existsb]; [auto|].
      destruct (IH (set_grow (rkey x i) (Some []) st) k) as (A & B & C). rewrite A, B, C. cbn [r_grow r_memo r_prog set_grow].
      rewrite upd_case. destruct (String.eqb k (rkey x i)); cbn [orb]; auto. destruct (existsb _ scc); auto.
    Qed.
    Lemma finish_spec name i : forall scc result st, let '(res, st') := finish name scc i result st in
      (forall k, r_prog st' k = r_prog st k) /\
      (forall k, is_some (r_memo st k) = true -> is_some (r_memo st' k) = true) /\
      (forall k, (forall x, In x scc -> k <> rkey x i) -> r_grow st' k = r_grow st k /\ r_memo st' k = r_memo st k) /\
      (forall x, In x scc -> r_grow st' (rkey x i) = None /\ is_some (r_memo st' (rkey x i)) = true) /\
      (bounded st -> allB inb result -> bounded st' /\ allB inb res).
    Proof.
      induction scc as [|x scc IH]; intros result st; cbn [finish].
      { split; auto. split; auto. split; auto. split; [intros x []|auto]. }
      set (v := match r_grow st (rkey x i) with Some v => v | None => [] end).
      set (st1 := set_memo (rkey x i) v (set_grow (rkey x i) None st)).
      specialize (IH (if String.eqb x name then v else result) st1).
      destruct (finish name scc i _ st1) as [res st']. destruct IH as (A1 & A2 & A3 & A4 & A5).
      split; [intros k; rewrite A1; reflexivity|]. split; [|split; [|split]].
      - intros k M. apply A2. cbn. rewrite upd_case. destruct (String.eqb k (rkey x i)); auto.
      - intros k N. destruct (A3 k) as [E1 E2]; [intros y Y; apply N; right; auto|]. rewrite E1, E2. cbn.
        rewrite !upd_other by (apply N; left; auto). auto.
      - intros y Y. destruct (in_dec string_dec y scc) as [I|N]; [auto|]. destruct Y as [<-|Y]; [|contradiction].
        destruct (A3 (rkey x i)) as [E1 E2].
        { intros y Y E. apply rkey_inj in E as [<- _]. contradiction. }
        rewrite E1, E2. cbn. rewrite !upd_same. auto.
      - intros B R. assert (Bv : allB inb v).
        { unfold v. destruct (r_grow st (rkey x i)) eqn:E; [apply (B (rkey x i)); auto|intros j []]. }
        apply A5; [|destruct (String.eqb x name); auto]. intros k s [H|H]; cbn in H; rewrite upd_case in H.
        + destruct (String.eqb k (rkey x i)); [inversion H; subst; auto|apply (B k); auto].
        + destruct (String.eqb k (rkey x i)); [discriminate|apply (B k); auto].
    Qed.

    Lemma left_rec_t n scc i st : In (ERule n) (all_elems g root) -> i <= len -> lr (lower n) = Some scc -> bounded st -> free st < S f ->
      goodT (reach_left_rec g input ord call (lower n) scc i st) (fun s st' => ext st st' /\ bounded st' /\ allB inb s).
    Proof.
      intros Ke Hi L B F. unfold reach_left_rec.
      destruct (r_memo st (rkey (lower n) i)) as [v|] eqn:M.
      { cbn. split; [apply ext_refl|]. split; auto. apply (B (rkey (lower n) i)). auto. }
      destruct (r_grow st (rkey (lower n) i)) as [v|] eqn:G.
      { cbn. split; [apply ext_refl|]. split; auto. apply (B (rkey (lower n) i)). auto. }
      set (st1 := seed_all scc i st).
      assert (S1 : forall k, r_grow st1 k = (if existsb (fun x => String.eqb k (rkey x i)) scc then Some [] else r_grow st k) /\
        r_memo st1 k = r_memo st k /\ r_prog st1 k = r_prog st k) by (intros k; apply seed_all_grow).
      assert (Inn : existsb (fun x => String.eqb (rkey (lower n) i) (rkey x i)) scc = true).
      { apply existsb_exists. exists (lower n). split; [apply (LI (lower n)); auto|apply String.eqb_refl]. }
      assert (B1 : bounded st1).
      { intros k s [H|H]; destruct (S1 k) as (A & Bk & C).
        - rewrite Bk in H. apply (B k); auto.
        - rewrite A in H. destruct (existsb (fun x => String.eqb k (rkey x i)) scc); [injection H as <-; intros j J; destruct J|apply (B k); auto]. }
      assert (F1 : free st1 < f).
      { enough (free st1 < free st) by lia. unfold free.
        assert (cnt (busyP st1) <= cnt (busyP st)).
        { apply cnt_mono. intros k. unfold busyP. destruct (S1 k) as (A & Bk & C). rewrite Bk, C. auto. }
        enough (cnt (busyG st1) < cnt (busyG st)) by lia.
        apply (cnt_lt _ _ (rkey (lower n) i)).
        - intros k. unfold busyG. destruct (S1 k) as (A & Bk & C). rewrite A, Bk. destruct (existsb (fun x => String.eqb k (rkey x i)) scc); auto. intros _. apply orb_true_r.
        - apply (key_in (ERule n) i); auto. right. left. reflexivity.
        - unfold busyG. rewrite M, G. reflexivity.
        - unfold busyG. destruct (S1 (rkey (lower n) i)) as (A & _ & _). rewrite A, Inn. apply orb_true_r. }
      eapply good_bind; [apply (grow_t scc i Hi); auto; lia|]. cbv beta. intros _ st2 (A1 & A2 & A3 & A4).
      pose proof (finish_spec (lower n) i scc [] st2) as FS. destruct (finish (lower n) scc i [] st2) as [res st3].
      destruct FS as (D1 & D2 & D3 & D4 & D5). cbn [Recog.good]. assert (E0 : allB inb []) by (intros j []). destruct (D5 A1 E0) as [B3 R3].
      split; [|auto]. split; [|split].
      - intros k Mk. apply D2, A3. destruct (S1 k) as (_ & -> & _). auto.
      - intros k. rewrite D1, A2. apply S1.
      - intros k. destruct (existsb (fun x => String.eqb k (rkey x i)) scc) eqn:Ex.
        + apply existsb_exists in Ex as (x & Ix & E). apply String.eqb_eq in E as ->. right. apply D4. auto.
        + assert (N : forall x, In x scc -> k <> rkey x i).
          { intros x Ix ->. assert (existsb (fun y => String.eqb (rkey x i) (rkey y i)) scc = true); [|congruence].
            apply existsb_exists. exists x. split; auto. apply String.eqb_refl. }
          destruct (D3 k N) as [E1 E2]. rewrite E1, E2. destruct (S1 k) as (Sg & _ & _). rewrite Ex in Sg.
          destruct (A4 k N) as [E|E]; [left; congruence|auto].
    Qed.

    Lemma plain_t e i st : In e (all_elems g root) -> i <= len -> bounded st -> free st < S f ->
      goodT (reach_plain g input ord call e i st) (fun s st' => ext st st' /\ bounded st' /\ allB inb s).
    Proof.
      intros Ke Hi B F. unfold reach_plain.
      destruct (r_memo st (ekey e i)) as [v|] eqn:M.
      { cbn. split; [apply ext_refl|]. split; auto. apply (B (ekey e i)). auto. }
      destruct (r_prog st (ekey e i)) eqn:P.
      { cbn. split; [apply ext_refl|]. split; auto. intros j []. }
      set (st1 := set_prog (ekey e i) true st).
      assert (F1 : free st1 < f).
      { enough (free st1 < free st) by lia. unfold free. change (busyG st1) with (busyG st).
        enough (cnt (busyP st1) < cnt (busyP st)) by lia. apply (cnt_lt _ _ (ekey e i)).
        - intros k. unfold busyP. cbn. rewrite upd_case. destruct (String.eqb k (ekey e i)); auto. intros _. apply orb_true_r.
        - apply (key_in e i); auto. left. reflexivity.
        - unfold busyP. rewrite M, P. reflexivity.
        - unfold busyP. cbn. rewrite upd_same. apply orb_true_r. }
      eapply good_bind.
      { apply (compute_elem_s input g ord O call (It st1) (fun e => In e (all_elems g root)) inb False True (It_tick st1) (It_call st1 F1)).
        - split; [apply ext_refl|exact B].
        - exact Hi.
        - intros n r _ G c x Ic Ix. eapply all_elems_rule; eauto.
        - intros a c x E Ic Ix. eapply all_elems_sub; eauto. destruct E as [->| ->]; auto.
        - intros j Mt. apply match_term_bounds in Mt; auto. unfold inb. lia. }
      cbv beta. intros out st2 [[(E1 & E2 & E3) B2] Ho]. cbn [Recog.good]. split; [|split; auto].
      - split; [|split].
        + intros k Mk. cbn. rewrite upd_case. destruct (String.eqb k (ekey e i)); auto.
        + intros k. cbn. rewrite upd_case. destruct (String.eqb_spec k (ekey e i)) as [->|N]; [auto|].
          rewrite E2. cbn. apply upd_other. auto.
        + intros k. cbn. rewrite upd_case. destruct (E3 k) as [E|[E Mk]]; [left; exact E|right]. split; auto. destruct (String.eqb k (ekey e i)); auto.
      - intros k s [H|H]; cbn in H; [|apply (B2 k); auto]. rewrite upd_case in H. destruct (String.eqb k (ekey e i)); [inversion H; subst; auto|apply (B2 k); auto].
    Qed.
  End Body.

  (** Enough fuel exists, whatever the grammar, the input and the orders. *)
  Theorem reach_elem_t : forall f e i st, In e (all_elems g root) -> i <= len -> bounded st -> free st < f ->
    goodT (reach_elem g input lr ord f e i st) (fun s st' => ext st st' /\ bounded st' /\ allB inb s).
  Proof.
    induction f as [|f IH]; intros e i st Ke Hi B F; [lia|]. cbn [reach_elem]. unfold reach_body, is_lr.
    destruct e as [n|a|a|s vs|b s0 es|v]; try (apply plain_t; auto).
    destruct (lr (lower n)) as [scc|] eqn:L; [apply left_rec_t; auto|apply plain_t; auto].
  Qed.
  Lemma recog_fuel_enough : free r_init < recog_fuel.
  Proof.
    unfold free, recog_fuel. enough (forall p, cnt p <= length key_univ) as H by (pose proof (H (busyG r_init)); pose proof (H (busyP r_init)); lia).
    intros p. apply filter_le_length.
  Qed.
End Term.

(** ** No write to a missing seed, when components are classes *)
Section Panic.
  Variable g : grammar.
  Variable input : list Z.
  Variable lr : string -> option (list string).
  Variable ord : nat -> list nat -> list nat.
  Hypothesis O : forall t l x, In x (ord t l) <-> In x l.
  Hypothesis LI : forall n scc, lr n = Some scc -> In n scc.
  Hypothesis LC : forall n scc m, lr n = Some scc -> In m scc -> exists scc', lr m = Some scc' /\ forall x, In x scc' <-> In x scc.
  Notation len := (length input).
  Notation goodN := (good True False).
  Notation grow_t := (string -> option (list nat)).

  Definition cls (gr : grow_t) : Prop :=
    forall n scc m i, lr n = Some scc -> In m scc -> is_some (gr (rkey n i)) = true -> is_some (gr (rkey m i)) = true.
  Definition same_grow (gr : grow_t) (st : rstate) : Prop := forall k, r_grow st k = gr k.
  Lemma cls_same gr gr' : (forall k, is_some (gr' k) = is_some (gr k)) -> cls gr -> cls gr'.
  Proof. intros H C n scc m i L I. rewrite !H. eauto. Qed.

  Section Body.
    Variable call : elem -> nat -> rstate -> rres (list nat).
    Hypothesis IHc : forall e i gr st, cls gr -> same_grow gr st -> goodN (call e i st) (fun _ st' => same_grow gr st').

    Lemma call_n gr : cls gr -> forall e p st, same_grow gr st -> True -> True -> goodN (call e p st) (fun s st' => same_grow gr st' /\ allB (fun _ => True) s).
    Proof.
      intros C e p st S _ _. eapply good_weaken; [apply (IHc e p gr st C S)|]. cbv beta. intros s st' H. split; [exact H|]. intros j _. exact Logic.I.
    Qed.
    Lemma alt_n gr a i st : cls gr -> same_grow gr st -> goodN (reach_alt input ord call a i st) (fun _ st' => same_grow gr st').
    Proof.
      intros C S. eapply good_weaken.
      - apply (reach_alt_s input ord O call (same_grow gr) (fun _ => True) (fun _ => True) True False (fun st H => H) (call_n gr C) a i st); auto.
      - cbv beta. intros s st' [H _]. exact H.
    Qed.
    Lemma round_n full i : forall scc, (forall x, In x scc -> In x full) -> forall ch gr st, cls gr -> same_grow gr st ->
      (forall x, In x full -> is_some (gr (rkey x i)) = true) ->
      goodN (grow_round g input ord call scc i ch st) (fun _ st' =>
        (forall k, is_some (r_grow st' k) = is_some (gr k)) /\ (forall k, (forall x, In x full -> k <> rkey x i) -> r_grow st' k = gr k)).
    Proof.
      induction scc as [|x scc IH]; intros Sub ch gr st C S A; cbn [grow_round].
      { cbn. split; intros k; rewrite S; auto. }
      assert (Sub' : forall x, In x scc -> In x full) by (intros y Y; apply Sub; right; auto).
      destruct (get_rule x g) as [r|] eqn:G; [|apply IH; auto].
      eapply good_bind; [apply (alt_n gr); auto|]. cbv beta. intros ns st1 S1.
      assert (Gx : is_some (r_grow st1 (rkey x i)) = true) by (rewrite S1; apply A, Sub; left; auto).
      destruct (r_grow st1 (rkey x i)) as [cur|] eqn:Gc; [|discriminate].
      destruct (existsb (fun e => negb (mem_nat e cur)) ns); [|apply IH; auto].
      set (gr' := upd gr (rkey x i) (Some (union cur ns))).
      assert (Same : forall k, is_some (gr' k) = is_some (gr k)).
      { intros k. unfold gr'. rewrite upd_case. destruct (String.eqb_spec k (rkey x i)) as [->|N]; auto. rewrite <- S1, Gc. reflexivity. }
      eapply good_weaken; [apply (IH Sub' true gr')|].
      - eapply cls_same; eauto.
      - intros k. cbn. unfold gr'. rewrite !upd_case. destruct (String.eqb k (rkey x i)); auto.
      - intros y Y. rewrite Same. auto.
      - cbv beta. intros _ st' [E1 E2]. split; [intros k; rewrite E1; auto|]. intros k N. rewrite E2 by auto. unfold gr'.
        apply upd_other. apply N, Sub. left. auto.
    Qed.
    Lemma grow_n full i : forall k gr st, cls gr -> same_grow gr st -> (forall x, In x full -> is_some (gr (rkey x i)) = true) ->
      goodN (grow_loop g input ord call k full i st) (fun _ st' => forall k, (forall x, In x full -> k <> rkey x i) -> r_grow st' k = gr k).
    Proof.
      induction k as [|k IH]; intros gr st C S A; cbn [grow_loop]; [exact Logic.I|].
      eapply good_bind; [apply (round_n full i full (fun x H => H) false gr st); auto|]. cbv beta. intros ch st1 [E1 E2].
      destruct ch; [|cbn; auto]. eapply good_weaken; [apply (IH (r_grow st1) st1)|].
      - eapply cls_same; eauto.
      - intros x. reflexivity.
      - intros x X. rewrite E1. auto.
      - cbv beta. intros _ st2 H x N. rewrite H by auto. apply E2. auto.
    Qed.
    Lemma left_rec_n n scc i gr st : lr n = Some scc -> cls gr -> same_grow gr st ->
      goodN (reach_left_rec g input ord call n scc i st) (fun _ st' => same_grow gr st').
    Proof.
      intros L C S. unfold reach_left_rec. destruct (r_memo st (rkey n i)); [exact S|].
      destruct (r_grow st (rkey n i)) eqn:G; [exact S|].
      set (st1 := seed_all scc i st).
      assert (S1 : forall k, r_grow st1 k = (if existsb (fun x => String.eqb k (rkey x i)) scc then Some [] else r_grow st k)) by (intros k; apply seed_all_grow).
      assert (None_ : forall x, In x scc -> gr (rkey x i) = None).
      { intros x Ix. destruct (gr (rkey x i)) eqn:E; auto. destruct (LC n scc x L Ix) as (scc' & L' & M').
        assert (is_some (gr (rkey n i)) = true); [|rewrite <- S, G in *; discriminate].
        apply (C x scc' n i L'); [apply M'; apply (LI n); auto|rewrite E; auto]. }
      assert (Ex : forall k, existsb (fun x => String.eqb k (rkey x i)) scc = true <-> exists x, In x scc /\ k = rkey x i).
      { intros k. rewrite existsb_exists. split; intros (x & Ix & E); exists x; split; auto; [apply String.eqb_eq; auto|subst; apply String.eqb_refl]. }
      assert (C1 : cls (r_grow st1)).
      { intros a scca b j La Ib. rewrite !S1.
        destruct (existsb (fun x => String.eqb (rkey b j) (rkey x i)) scc) eqn:Eb; auto.
        destruct (existsb (fun x => String.eqb (rkey a j) (rkey x i)) scc) eqn:Ea; [|rewrite !S; apply (C a scca); auto].
        exfalso. apply Ex in Ea as (x & Ix & E). apply rkey_inj in E as [<- ->].
        destruct (LC n scc a L Ix) as (scc' & L' & M'). rewrite La in L'. inversion L'; subst scc'.
        assert (existsb (fun x => String.eqb (rkey b i) (rkey x i)) scc = true); [|congruence]. apply Ex. exists b. split; auto. apply M'. auto. }
      eapply good_bind; [apply (grow_n scc i _ (r_grow st1) st1 C1)|].
      - intros k. reflexivity.
      - intros x Ix. rewrite S1. assert (existsb (fun y => String.eqb (rkey x i) (rkey y i)) scc = true) as -> by (apply Ex; eauto). auto.
      - cbv beta. intros _ st2 H2. pose proof (finish_spec input n i scc [] st2) as FS. destruct (finish n scc i [] st2) as [res st3].
        destruct FS as (D1 & D2 & D3 & D4 & D5). cbn [Recog.good]. intros k.
        destruct (existsb (fun x => String.eqb k (rkey x i)) scc) eqn:Ek.
        + apply Ex in Ek as (x & Ix & ->). rewrite None_ by auto. apply D4. auto.
        + assert (N : forall x, In x scc -> k <> rkey x i).
          { intros x Ix ->. assert (existsb (fun y => String.eqb (rkey x i) (rkey y i)) scc = true) by (apply Ex; eauto). congruence. }
          destruct (D3 k N) as [E1 _]. rewrite E1, H2, S1, Ek by auto. apply S.
    Qed.
    Lemma plain_n e i gr st : cls gr -> same_grow gr st -> goodN (reach_plain g input ord call e i st) (fun _ st' => same_grow gr st').
    Proof.
      intros C S. unfold reach_plain. destruct (r_memo st (ekey e i)); [exact S|]. destruct (r_prog st (ekey e i)); [exact S|].
      eapply good_bind.
      - apply (compute_elem_s input g ord O call (same_grow gr) (fun _ => True) (fun _ => True) True False (fun st H => H) (call_n gr C)); auto.
      - cbv beta. intros out st' [H _]. exact H.
    Qed.
  End Body.
  Theorem reach_elem_n : forall f e i gr st, cls gr -> same_grow gr st ->
    goodN (reach_elem g input lr ord f e i st) (fun _ st' => same_grow gr st').
  Proof.
    induction f as [|f IH]; intros e i gr st C S; [exact Logic.I|]. cbn [reach_elem]. unfold reach_body, is_lr.
    destruct e as [n|a|a|s vs|b s0 es|v]; try (apply plain_n; auto).
    destruct (lr (lower n)) as [scc|] eqn:L; [apply left_rec_n; auto|apply plain_n; auto].
  Qed.
End Panic.

(** ** What the relations between positions say about words *)
Section Der.
  Variable g : grammar.
  Variable input : list Z.
  Notation len := (length input).
  (** [e] derives what stands between [i] and [j]. *)
  Definition der (e : elem) (i j : nat) : Prop := exists w, in_elem g e w /\ span input i j w.

  Lemma der_le e p q : der e p q -> p <= q <= len.
  Proof. intros (w & _ & S). apply span_le in S. auto. Qed.
  Lemma pow_der e n : forall i j, i <= len -> (pow_rel (der e) n i j <-> exists w, in_pow g e n w /\ span input i j w).
  Proof.
    induction n as [|n IH]; intros i j Hi; cbn [pow_rel]; split.
    - intros <-. exists []. split; [constructor|apply span_nil; auto].
    - intros (w & P & S). inversion P; subst. destruct S as (p & s & E & L & J). cbn in J. lia.
    - intros (k & D & P). pose proof (der_le _ _ _ D). destruct D as (w1 & I1 & S1). apply IH in P as (w2 & I2 & S2); [|lia].
      exists (w1 ++ w2). split; [constructor; auto|eapply span_app; eauto].
    - intros (w & P & S). inversion P as [|? ? w1 w2 I1 I2]; subst. apply span_app_inv in S as [S1 S2].
      exists (i + length w1). split; [exists w1; auto|]. apply IH; [apply span_le in S1; lia|]. exists w2. auto.
  Qed.
  Lemma rep_der r i j : i <= len -> (rep_rel der r i j <-> exists w, in_rep g r w /\ span input i j w).
  Proof.
    destruct r as [mn mx e]. intros Hi. cbn [rep_rel]. split.
    - intros (n & A & B & P). apply pow_der in P as (w & P & S); auto. exists w. split; auto. econstructor; eauto.
    - intros (w & P & S). inversion P as [? ? ? n ? A B Q]; subst. exists n. split; auto. split; auto. apply pow_der; eauto.
  Qed.
  Lemma cat_der c : forall i j, i <= len -> (cat_rel der c i j <-> exists w, in_cat g c w /\ span input i j w).
  Proof.
    induction c as [|r c IH]; intros i j Hi; cbn [cat_rel]; split.
    - intros <-. exists []. split; [constructor|apply span_nil; auto].
    - intros (w & P & S). inversion P; subst. destruct S as (p & s & E & L & J). cbn in J. lia.
    - intros (k & D & P). apply rep_der in D as (w1 & I1 & S1); auto. pose proof (span_le _ _ _ _ S1).
      apply IH in P as (w2 & I2 & S2); [|lia]. exists (w1 ++ w2). split; [constructor; auto|eapply span_app; eauto].
    - intros (w & P & S). inversion P as [|? ? w1 w2 I1 I2]; subst. apply span_app_inv in S as [S1 S2].
      exists (i + length w1). split; [apply rep_der; eauto|]. apply IH; [apply span_le in S1; lia|]. exists w2. auto.
  Qed.
  Lemma alt_der a i j : i <= len -> (alt_rel der a i j <-> exists w, in_alt g a w /\ span input i j w).
  Proof.
    intros Hi. split.
    - intros (c & I & P). apply cat_der in P as (w & P & S); auto. exists w. split; auto. econstructor; eauto.
    - intros (w & P & S). inversion P as [c ? ? I Q]; subst. exists c. split; auto. apply cat_der; eauto.
  Qed.
End Der.

(** ** Soundness *)
Lemma lower_char c : is_alpha (lower_ascii c) = is_alpha c /\ name_char (lower_ascii c) = name_char c.
Proof. destruct c as [[] [] [] [] [] [] [] []]; split; reflexivity. Qed.
Lemma lex_lower n : lex_name (lower n) = lex_name n.
Proof.
  destruct n as [|c n]; [reflexivity|]. cbn. rewrite (proj1 (lower_char c)). f_equal.
  induction n as [|d n IH]; cbn; [reflexivity|]. rewrite (proj2 (lower_char d)), IH. reflexivity.
Qed.

Section Sound.
  Variable g : grammar.
  Variable input : list Z.
  Variable lr : string -> option (list string).
  Variable ord : nat -> list nat -> list nat.
  Hypothesis O : forall t l x, In x (ord t l) <-> In x l.
  Hypothesis W : wf_grammar g.
  Hypothesis LG : lex_grammar g = true.
  Hypothesis SF : same_flags g.
  Hypothesis LL : forall n scc x, lr n = Some scc -> In x scc -> lex_name x = true.
  Notation len := (length input).
  Notation goodS := (good True True).
  Notation der := (der g input).

  Definition named (e : elem) : Prop := occ_elem g e \/ exists n, e = ERule n /\ lex_name n = true.

  Lemma named_lex e : named e -> lex_elem e = true.
  Proof. intros [H|(n & -> & H)]; [apply (lex_occ g LG); auto|exact H]. Qed.
  Lemma named_string e e' : named e -> named e' -> elem_string e = elem_string e' -> e = e'.
  Proof.
    intros N N' E. apply elem_string_inj in E; [|apply named_lex; auto|apply named_lex; auto].
    destruct N as [N|(n & -> & N)], N' as [N'|(n' & -> & N')].
    - apply (erase_eq g SF); auto.
    - cbn in E. destruct e; cbn in E; congruence.
    - cbn in E. destruct e'; cbn in E; congruence.
    - cbn in E. congruence.
  Qed.
  Lemma named_key e e' i i' : named e -> named e' -> ekey e i = ekey e' i' -> e = e' /\ i = i'.
  Proof. intros N N' E. apply rkey_inj in E as [E ->]. split; [apply named_string; auto|reflexivity]. Qed.
  Lemma named_wf e : named e -> wf_elem e.
  Proof. intros [H|(n & -> & _)]; [apply (wf_occ g W); auto|constructor]. Qed.

  (** Every set in the maps holds ends of words of the elements with that key. *)
  Definition snd_key (k : string) (s : list nat) : Prop :=
    forall e i, named e -> i <= len -> k = ekey e i -> forall j, In j s -> der e i j.
  Definition sound (st : rstate) : Prop := forall k s, r_memo st k = Some s \/ r_grow st k = Some s -> snd_key k s.

  Definition named_alt (a : alternation) : Prop := forall c r, In c a -> In r c -> occ_rep g r.
  Lemma named_rule n r : get_rule n g = Some r -> named_alt (rule_alt r).
  Proof. intros G c x Ic Ix. apply get_rule_name in G as [_ I]. eapply occ_rep_rule; eauto. Qed.
  Lemma named_group a : named (EGroup a) -> named_alt a.
  Proof. intros [H|(n & E & _)]; [|discriminate]. intros c x Ic Ix. eapply occ_rep_group; eauto. Qed.
  Lemma named_option a : named (EOption a) -> named_alt a.
  Proof. intros [H|(n & E & _)]; [|discriminate]. intros c x Ic Ix. eapply occ_rep_option; eauto. Qed.
  Lemma named_cat_ok a c r : named_alt a -> In c a -> In r c -> cat_ok r.
  Proof. intros N Ic Ir. pose proof (N c r Ic Ir) as Oc. apply (wf_occ g W) in Oc. destruct Oc; split; auto. Qed.
  Lemma rule_der n r i j : get_rule n g = Some r -> i <= len -> alt_rel der (rule_alt r) i j -> forall m, lower m = lower n -> der (ERule m) i j.
  Proof.
    intros G Hi A m E. apply alt_der in A as (w & Q & S); auto. exists w. split; auto. econstructor; [|exact Q].
    apply (resolves_lower g n m); [symmetry; exact E|]. apply (proj1 (get_rule_resolves g n (proj1 W))). auto.
  Qed.

  Section Body.
    Variable call : elem -> nat -> rstate -> rres (list nat).
    Hypothesis IHc : forall e i st, named e -> i <= len -> sound st -> goodS (call e i st) (fun s st' => sound st' /\ forall j, In j s -> der e i j).

    Definition okS (e : elem) (p : nat) : Prop := named e /\ p <= len.
    Lemma call_S : forall e p st, sound st -> okS e p ->
      goodS (call e p st) (fun s st' => sound st' /\ (False -> forall j, (fun (_ : elem) (_ _ : nat) => False) e p j -> In j s) /\ (forall j, In j s -> der e p j)).
    Proof.
      intros e p st S [N P]. eapply good_weaken; [apply (IHc e p st N P S)|]. cbv beta. intros s st' [S' H]. split; auto. split; auto. intros [].
    Qed.
    Lemma der_hi e p q : der e p q -> p <= len -> p <= q <= len.
    Proof. intros H _. eapply der_le; eauto. Qed.
    Lemma calls_S a i : named_alt a -> i <= len -> alt_calls okS der a i.
    Proof.
      intros N Hi pre mn mx e post p n q I C P. split.
      - left. econstructor. apply (N _ (Rep mn mx e) I). apply in_app_iff. right. left. auto.
      - apply (cat_rel_le input der der_hi) in C; auto.
        assert (forall n p q, pow_rel (der e) n p q -> p <= len -> q <= len) as G; [|eapply G; [exact P|lia]].
        clear. induction n as [|n IH]; cbn; intros p q P Hp; [lia|]. destruct P as (k & D & P). apply der_le in D. apply (IH k q P). lia.
    Qed.
    Lemma alt_S a i st : named_alt a -> i <= len -> sound st ->
      goodS (reach_alt input ord call a i st) (fun s st' => sound st' /\ forall j, In j s -> alt_rel der a i j).
    Proof.
      intros N Hi S.
      eapply good_weaken; [apply (reach_alt_good input ord O call sound okS True True False (fun _ _ _ => False) der (fun st H => H) call_S der_hi (fun F => match F with end) a i st)|]; auto.
      - intros c r Ic Ir. eapply named_cat_ok; eauto.
      - intros [].
      - apply calls_S; auto.
      - cbv beta. intros s st' (S' & _ & H). auto.
    Qed.
    Lemma compute_S e i st : named e -> i <= len -> sound st ->
      goodS (compute_elem g input ord call e i st) (fun s st' => sound st' /\ forall j, In j s -> der e i j).
    Proof.
      intros N Hi S.
      assert (T : is_terminal e = true -> goodS (ROk (match match_term e input i with Some j => [j] | None => [] end) st) (fun s st' => sound st' /\ forall j, In j s -> der e i j)).
      { intros Te. cbn [Recog.good]. split; auto. intros j J. destruct (match_term e input i) as [j'|] eqn:M; [|easy]. destruct J as [<-|[]].
        apply (match_term_spec g e Te (named_wf e N)) in M; auto. }
      destruct e as [n|a|a|s vs|b s0 es|v]; try (apply T; reflexivity); cbn [compute_elem].
      - destruct (get_rule n g) as [r|] eqn:G; [|cbn; split; auto; intros j []].
        eapply good_weaken; [apply alt_S; auto; eapply named_rule; eauto|]. cbv beta. intros s st' [S' H]. split; auto.
        intros j J. apply (rule_der n r i j G Hi); auto.
      - eapply good_weaken; [apply alt_S; auto; apply named_group; auto|]. cbv beta. intros s st' [S' H]. split; auto.
        intros j J. apply H, alt_der in J as (w & Q & Sp); auto. exists w. split; auto. constructor. auto.
      - eapply good_bind; [apply alt_S; auto; apply named_option; auto|]. cbv beta. intros s st' [S' H]. cbn [Recog.good]. split; auto.
        intros j J. apply union_in in J as [[<-|[]]|J]; [exists []; split; [constructor|apply span_nil; auto]|].
        apply H, alt_der in J as (w & Q & Sp); auto. exists w. split; auto. apply in_option_some. auto.
    Qed.

    Lemma sound_grow x i v st : (forall j, In j v -> i <= len -> der (ERule x) i j) -> lex_name x = true -> sound st -> sound (set_grow (rkey x i) (Some v) st).
    Proof.
      intros D L S k s [H|H]; cbn in H; [apply (S k); auto|]. rewrite upd_case in H. destruct (String.eqb_spec k (rkey x i)) as [->|N]; [|apply (S k); auto].
      injection H as <-. intros e i' Ne Hi E j J. destruct (named_key e (ERule x) i' i Ne) as [E1 E2]; [right; eauto|symmetry; exact E|]. subst e i'. auto.
    Qed.
    Lemma sound_memo e i v st : named e -> (forall j, In j v -> der e i j) -> sound st -> sound (set_memo (ekey e i) v st).
    Proof.
      intros Ne D S k s [H|H]; cbn in H; [|apply (S k); auto]. rewrite upd_case in H. destruct (String.eqb_spec k (ekey e i)) as [->|N]; [|apply (S k); auto].
      injection H as <-. intros e' i' Ne' Hi E j J. destruct (named_key e e' i i' Ne Ne' E) as [<- <-]. auto.
    Qed.

    Lemma round_S i : i <= len -> forall scc, (forall x, In x scc -> lex_name x = true) -> forall ch st, sound st ->
      goodS (grow_round g input ord call scc i ch st) (fun _ st' => sound st').
    Proof.
      intros Hi. induction scc as [|x scc IH]; intros Lx ch st S; cbn [grow_round]; [exact S|].
      assert (Lx' : forall x, In x scc -> lex_name x = true) by (intros y Y; apply Lx; right; auto).
      destruct (get_rule x g) as [r|] eqn:G; [|apply IH; auto].
      eapply good_bind; [apply alt_S; auto; eapply named_rule; eauto|]. cbv beta. intros ns st1 [S1 H].
      destruct (r_grow st1 (rkey x i)) as [cur|] eqn:Gc; [|destruct ns; [apply IH; auto|exact Logic.I]].
      destruct (existsb (fun e => negb (mem_nat e cur)) ns); [|apply IH; auto].
      apply IH; auto. apply sound_grow; auto; [|apply Lx; left; auto]. intros j J _. apply union_in in J as [J|J].
      - apply (S1 (rkey x i) cur (or_intror Gc) (ERule x) i); auto. right. exists x. split; auto. apply Lx. left. auto.
      - apply (rule_der x r i j G Hi); auto.
    Qed.
    Lemma grow_S i scc : i <= len -> (forall x, In x scc -> lex_name x = true) -> forall k st, sound st ->
      goodS (grow_loop g input ord call k scc i st) (fun _ st' => sound st').
    Proof.
      intros Hi Lx. induction k as [|k IH]; intros st S; cbn [grow_loop]; [exact Logic.I|].
      eapply good_bind; [apply (round_S i Hi scc Lx); auto|]. cbv beta. intros ch st1 S1. destruct ch; [apply IH; auto|exact S1].
    Qed.
    Lemma finish_S name i : i <= len -> lex_name name = true -> forall scc, (forall x, In x scc -> lex_name x = true) -> forall result st, sound st ->
      (forall j, In j result -> der (ERule name) i j) ->
      let '(res, st') := finish name scc i result st in sound st' /\ forall j, In j res -> der (ERule name) i j.
    Proof.
      intros Hi Ln. induction scc as [|x scc IH]; intros Lx result st S R; cbn [finish]; [auto|].
      assert (Lx' : forall x, In x scc -> lex_name x = true) by (intros y Y; apply Lx; right; auto).
      set (v := match r_grow st (rkey x i) with Some v => v | None => [] end).
      assert (V : forall j, In j v -> der (ERule x) i j).
      { intros j J. unfold v in J. destruct (r_grow st (rkey x i)) as [v0|] eqn:E; [|easy].
        apply (S (rkey x i) v0 (or_intror E) (ERule x) i); auto. right. exists x. split; auto. apply Lx. left. auto. }
      apply IH; auto.
      - apply (sound_memo (ERule x) i v); auto; [right; exists x; split; auto; apply Lx; left; auto|].
        intros k s [H|H]; cbn in H; [apply (S k); auto|]. rewrite upd_case in H. destruct (String.eqb k (rkey x i)); [discriminate|apply (S k); auto].
      - destruct (String.eqb_spec x name) as [->|Nx]; auto.
    Qed.
    Lemma seed_S scc i : (forall x, In x scc -> lex_name x = true) -> forall st, sound st -> sound (seed_all scc i st).
    Proof.
      unfold seed_all. induction scc as [|x scc IH]; intros Lx st S; cbn [fold_left]; auto.
      apply IH; [intros y Y; apply Lx; right; auto|]. apply sound_grow; auto; [intros j []|apply Lx; left; auto].
    Qed.
    Lemma left_rec_S n scc i st : lex_name (lower n) = true -> lr (lower n) = Some scc -> i <= len -> sound st ->
      goodS (reach_left_rec g input ord call (lower n) scc i st) (fun s st' => sound st' /\ forall j, In j s -> der (ERule n) i j).
    Proof.
      intros Ln L Hi S.
      assert (Low : forall j, der (ERule (lower n)) i j -> der (ERule n) i j).
      { intros j (w & I & Sp). exists w. split; auto. inversion I; subst. econstructor; [|eassumption].
        apply (resolves_lower g (lower n) n); auto. unfold same_name. apply lower_lower. }
      assert (Nm : named (ERule (lower n))) by (right; eauto).
      unfold reach_left_rec. destruct (r_memo st (rkey (lower n) i)) as [v|] eqn:M.
      { cbn. split; auto. intros j J. apply Low. apply (S (rkey (lower n) i) v (or_introl M)); auto. }
      destruct (r_grow st (rkey (lower n) i)) as [v|] eqn:G.
      { cbn. split; auto. intros j J. apply Low. apply (S (rkey (lower n) i) v (or_intror G)); auto. }
      assert (Lx : forall x, In x scc -> lex_name x = true) by (intros x; apply (LL (lower n)); auto).
      eapply good_bind; [apply (grow_S i scc Hi Lx); apply seed_S; auto|]. cbv beta. intros _ st2 S2.
      assert (E0 : forall j, In j [] -> der (ERule (lower n)) i j) by (intros j []).
      pose proof (finish_S (lower n) i Hi Ln scc Lx [] st2 S2 E0) as H. destruct (finish (lower n) scc i [] st2) as [res st3].
      destruct H as [S3 H]. cbn. split; auto.
    Qed.
    Lemma plain_S e i st : named e -> i <= len -> sound st ->
      goodS (reach_plain g input ord call e i st) (fun s st' => sound st' /\ forall j, In j s -> der e i j).
    Proof.
      intros N Hi S. unfold reach_plain. destruct (r_memo st (ekey e i)) as [v|] eqn:M.
      { cbn. split; auto. intros j J. apply (S (ekey e i) v (or_introl M) e i); auto. }
      destruct (r_prog st (ekey e i)); [cbn; split; auto; intros j []|].
      eapply good_bind; [apply (compute_S e i (set_prog (ekey e i) true st)); auto|]. cbv beta. intros out st' [S' H].
      cbn [Recog.good]. split; auto. apply sound_memo; auto.
    Qed.
  End Body.

  Theorem reach_elem_S : forall f e i st, named e -> i <= len -> sound st ->
    goodS (reach_elem g input lr ord f e i st) (fun s st' => sound st' /\ forall j, In j s -> der e i j).
  Proof.
    induction f as [|f IH]; intros e i st N Hi S; [exact Logic.I|]. cbn [reach_elem]. unfold reach_body, is_lr.
    destruct e as [n|a|a|s vs|b s0 es|v]; try (apply plain_S; auto).
    destruct (lr (lower n)) as [scc|] eqn:L; [|apply plain_S; auto]. apply left_rec_S; auto.
    rewrite lex_lower. apply named_lex in N. exact N.
  Qed.
End Sound.
