(** Claim C73: what WithRedefineCoreRules does to a list of definitions (grammar.go:162-194). *)
(** The definitions here without a citation are those of statements, proofs and examples; they model no code. *)
From Coq Require Import ZArith Arith String Ascii Bool Permutation List Lia.
From Verif Require Import Syntax Spec Utf8 Num Printer Tape Eval EvalProof ReadSpec PropTerm PropGll LowerLang PropEval.
From Verif Require PropDag ParseAbnf PropParse PropRead.
Import ListNotations.
Local Open Scope string_scope.
Local Open Scope list_scope.

(** ** Specification *)
(** The definitions of a name, in order. *)
Definition defs_of (n : string) (ds : list (rule * bool)) : list (rule * bool) :=
  filter (fun d => equal_fold n (rule_name (fst d))) ds.
(** The rule since the last [=]: it and what [=/] added after it. *)
Fixpoint last_value (v : option rule) (l : list (rule * bool)) : option rule :=
  match l with
  | [] => v
  | (r, false) :: l' => last_value (Some r) l'
  | (r, true) :: l' => last_value (match v with Some r0 => Some (mkRule (rule_name r0) (rule_alt r0 ++ rule_alt r)) | None => None end) l'
  end.
(** What [=/] adds before the first [=]. *)
Fixpoint early (l : list (rule * bool)) : alternation :=
  match l with
  | (r, true) :: l' => rule_alt r ++ early l'
  | _ => []
  end.
(** The core rules afterwards. *)
Definition core_after (core : grammar) (ds : list (rule * bool)) : grammar :=
  map (fun c => mkRule (rule_name c) (rule_alt c ++ early (defs_of (rule_name c) ds))) core.
(** [r] is a rule of the grammar: the value since the last [=] of its name, or, for a name
    that is only extended, the core rule as it is afterwards. *)
Definition redefined (core : grammar) (ds : list (rule * bool)) (r : rule) : Prop :=
  last_value None (defs_of (rule_name r) ds) = Some r \/
  (last_value None (defs_of (rule_name r) ds) = None /\ defs_of (rule_name r) ds <> [] /\ In r (core_after core ds)).
(** Core names redefined with [=] are spelled as in the core rules. *)
Definition core_spelling (core : grammar) (ds : list (rule * bool)) : Prop :=
  forall d c, In (d, false) ds -> In c core -> same_name (rule_name d) (rule_name c) -> rule_name d = rule_name c.
(** Definitions at fault: only for names that are not of core rules. *)
Definition faulty (core : grammar) (pre : list (rule * bool)) (d : rule * bool) (e : eval_error) : Prop :=
  ~ core_name core (rule_name (fst d)) /\ violates core pre d e.

(** ** Proofs *)
Lemma defs_app n a b : defs_of n (a ++ b) = defs_of n a ++ defs_of n b.
Proof. apply filter_app. Qed.
Lemma defs_one_same n d : same_name n (rule_name (fst d)) -> defs_of n [d] = [d].
Proof. intros S. cbn. apply equal_fold_iff in S. rewrite S. reflexivity. Qed.
Lemma defs_one_other n d : ~ same_name n (rule_name (fst d)) -> defs_of n [d] = [].
Proof. intros S. cbn. destruct (equal_fold n (rule_name (fst d))) eqn:E; auto. apply equal_fold_iff in E. contradiction. Qed.
Lemma defs_same n m ds : same_name n m -> defs_of n ds = defs_of m ds.
Proof. intros S. unfold defs_of, equal_fold. rewrite S. reflexivity. Qed.
Lemma last_app l : forall v l', last_value v (l ++ l') = last_value (last_value v l) l'.
Proof. induction l as [|[r []] l IH]; intros v l'; cbn; auto. Qed.
Lemma last_some l : forall v, v <> None -> last_value v l <> None.
Proof. induction l as [|[r []] l IH]; intros v N; cbn; auto; apply IH; [destruct v; congruence|discriminate]. Qed.
Lemma last_none l : last_value None l = None -> Forall (fun d => snd d = true) l.
Proof.
  induction l as [|[r []] l IH]; intros H; cbn in H; [constructor|constructor; auto|]. exfalso. revert H. apply last_some. discriminate.
Qed.
Lemma early_ext l d : last_value None l = None -> early (l ++ [(d, true)]) = early l ++ rule_alt d.
Proof.
  intros H. apply last_none in H. induction l as [|[r b] l IH]; cbn; [apply app_nil_r|]. inversion H as [|? ? A B]; subst. cbn in A. subst b.
  rewrite IH by auto. apply app_assoc.
Qed.
Lemma early_set l d : early (l ++ [(d, false)]) = early l.
Proof. induction l as [|[r []] l IH]; cbn; auto. congruence. Qed.
Lemma early_past l d : last_value None l <> None -> early (l ++ [d]) = early l.
Proof. induction l as [|[r []] l IH]; cbn; intros N; auto; [congruence|]. rewrite IH; auto. Qed.
Lemma last_name l : forall v r, last_value v l = Some r ->
  (exists d, In (d, false) l /\ rule_name d = rule_name r) \/ (exists r0, v = Some r0 /\ rule_name r0 = rule_name r).
Proof.
  induction l as [|[x []] l IH]; intros v r H; cbn in H.
  - right. eauto.
  - destruct (IH _ _ H) as [(d & I & E)|(r0 & V & E)]; [left; exists d; split; [right|]; auto|].
    destruct v as [r1|]; [|discriminate]. injection V as <-. right. exists r1. auto.
  - destruct (IH _ _ H) as [(d & I & E)|(r0 & V & E)]; left; [exists d; split; [right|]; auto|]. injection V as <-. exists x. split; [left|]; auto.
Qed.

(** Entries by name. *)
Definition look (n : string) (m : rmap) : option (string * entry) := find (fun ke => equal_fold n (fst ke)) m.
Definition lkeys (m : rmap) : list string := map (fun x => lower (fst x)) m.
Lemma look_in n m k e : look n m = Some (k, e) -> In (k, e) m /\ same_name n k.
Proof. intros H. apply find_some in H as [A B]. cbn in B. split; auto. apply equal_fold_iff, B. Qed.
Lemma in_look n m k e : NoDup (lkeys m) -> In (k, e) m -> same_name n k -> look n m = Some (k, e).
Proof.
  induction m as [|[k' e'] m IH]; intros N I S; [destruct I|]. cbn in N. inversion N as [|? ? N1 N2]; subst. unfold look. cbn [find fst].
  destruct I as [I|I].
  - injection I as -> ->. apply equal_fold_iff in S. rewrite S. reflexivity.
  - destruct (equal_fold n k') eqn:E; [|apply IH; auto]. exfalso. apply equal_fold_iff in E. apply N1. apply in_map_iff. exists (k, e).
    split; [unfold same_name in *; cbn; congruence|exact I].
Qed.
Lemma look_set n k e m : NoDup (lkeys m) -> In k (map fst m) \/ ~ In (lower k) (lkeys m) ->
  look n (rm_set k e m) = if equal_fold n k then Some (k, e) else look n m.
Proof.
  induction m as [|[k0 e0] m IH]; intros N H; cbn [rm_set look find fst]; [destruct (equal_fold n k); reflexivity|].
  cbn in N. inversion N as [|? ? N1 N2]; subst. destruct (String.eqb_spec k k0) as [<-|E]; cbn [find fst look].
  - unfold look. cbn [find fst]. destruct (equal_fold n k); reflexivity.
  - unfold look in *. cbn [find fst]. destruct (equal_fold n k0) eqn:F.
    + destruct (equal_fold n k) eqn:G; [|reflexivity]. exfalso. apply equal_fold_iff in F, G. unfold same_name in *.
      destruct H as [[H|H]|H]; [cbn in H; congruence| |].
      * apply N1. rewrite <- F, G. apply in_map_iff in H as ([k1 e1] & <- & H). apply in_map_iff. exists (k1, e1). auto.
      * apply H. left. cbn. congruence.
    + apply IH; auto. destruct H as [[H|H]|H]; [cbn in H; congruence|auto|right]. intros X. apply H. right. exact X.
Qed.
Lemma look_none n m : look n m = None -> ~ In (lower n) (lkeys m).
Proof.
  intros H I. apply in_map_iff in I as ([k e] & E & I). cbn in E. pose proof (find_none _ _ H (k, e) I) as F. cbn in F.
  assert (S : same_name n k) by (unfold same_name; auto). apply equal_fold_iff in S. congruence.
Qed.

Section Redefine.
  Variable ord : nat -> rmap -> rmap.
  Hypothesis ord_in : any_order ord.
  Variable core : grammar.
  Hypothesis core_nodup : distinct_names core.

  (** The entry a list of definitions gives to a name. *)
  Definition entry_of (ds : list (rule * bool)) (n : string) : option (string * entry) :=
    match last_value None (defs_of n ds) with
    | Some r => Some (rule_name r, Own r)
    | None => match defs_of n ds with
              | [] => None
              | _ => match get_rule_in n core with Some c => Some (rule_name c, Shared (rule_name c)) | None => None end
              end
    end.
  Record InvR (ds : list (rule * bool)) (st : estate) : Prop := {
    r_core : e_core st = core_after core ds;
    r_keys : NoDup (lkeys (e_map st));
    r_refs : forall k e, In (k, e) (e_map st) -> exists r, deref (e_core st) e = Some r /\ rule_name r = k;
    r_look : forall n, look n (e_map st) = entry_of ds n;
    r_own : forall n, ~ core_name core n -> defs_of n ds <> [] -> last_value None (defs_of n ds) <> None }.

  Lemma core_get ds n : get_rule_in n (core_after core ds) =
    match get_rule_in n core with Some c => Some (mkRule (rule_name c) (rule_alt c ++ early (defs_of (rule_name c) ds))) | None => None end.
  Proof.
    unfold get_rule_in, core_after. clear core_nodup. induction core as [|c l IH]; [reflexivity|]. cbn [map find rule_name].
    destruct (equal_fold n (rule_name c)); auto.
  Qed.
  Lemma core_unique c c' : In c core -> In c' core -> same_name (rule_name c) (rule_name c') -> c = c'.
  Proof.
    clear ord ord_in. unfold distinct_names in core_nodup. revert core_nodup. induction core as [|x l IH]; intros N I J S; [destruct I|].
    cbn in N. inversion N as [|? ? N1 N2]; subst. unfold same_name in S. destruct I as [->|I], J as [->|J]; auto; exfalso; apply N1; apply in_map_iff; eauto.
  Qed.
  Lemma get_core n c : get_rule_in n core = Some c <-> In c core /\ same_name n (rule_name c).
  Proof.
    split.
    - intros H. apply find_some in H as [A B]. split; auto. apply equal_fold_iff, B.
    - intros [I S]. destruct (get_rule_in n core) as [c'|] eqn:G.
      + apply find_some in G as [A B]. apply equal_fold_iff in B. f_equal. apply core_unique; auto. unfold same_name in *. congruence.
      + pose proof (find_none _ _ G c I) as N. cbn in N. apply equal_fold_iff in S. congruence.
  Qed.
  Lemma find_look ds st t n : InvR ds st -> rm_find (e_core st) n (ord t (e_map st)) =
    match look n (e_map st) with Some (k, e) => match deref (e_core st) e with Some r => Some (e, r) | None => None end | None => None end.
  Proof.
    intros [Rc Rk Rr Rl Ro]. destruct (rm_find (e_core st) n (ord t (e_map st))) as [[e r]|] eqn:F.
    - apply rm_find_some in F as (k & I & D & S). apply ord_in in I. destruct (Rr _ _ I) as (r' & D' & E). rewrite D in D'. injection D' as <-.
      rewrite (in_look n _ k e Rk I), D; [reflexivity|congruence].
    - destruct (look n (e_map st)) as [[k e]|] eqn:L; [|reflexivity]. apply look_in in L as [I S]. destruct (Rr _ _ I) as (r & D & E).
      exfalso. eapply (rm_find_none _ _ _ F k e r); eauto; [apply ord_in; exact I|congruence].
  Qed.
  Lemma entry_same ds n n' : same_name n n' -> entry_of ds n = entry_of ds n'.
  Proof. intros S. unfold entry_of. rewrite (defs_same n n' ds S). unfold get_rule_in, equal_fold. rewrite S. reflexivity. Qed.
  Lemma entry_other ds d n : ~ same_name n (rule_name (fst d)) -> entry_of (ds ++ [d]) n = entry_of ds n.
  Proof. intros S. unfold entry_of. rewrite defs_app, (defs_one_other _ _ S), app_nil_r. reflexivity. Qed.
  Lemma named_defs n ds : named n ds <-> defs_of n ds <> [].
  Proof.
    unfold named, defs_of. split.
    - intros (d & I & S) E. apply equal_fold_iff in S. assert (X : In d (filter (fun d => equal_fold n (rule_name (fst d))) ds)) by (apply filter_In; auto).
      rewrite E in X. exact X.
    - intros H. destruct (filter (fun d => equal_fold n (rule_name (fst d))) ds) as [|d l] eqn:E; [congruence|].
      assert (X : In d (filter (fun d => equal_fold n (rule_name (fst d))) ds)) by (rewrite E; left; auto). apply filter_In in X as [A B].
      exists d. split; auto. apply equal_fold_iff, B.
  Qed.

  (** The core rules after one more definition. *)
  Lemma core_same ds d : (forall c, In c core -> same_name (rule_name c) (rule_name (fst d)) -> early (defs_of (rule_name c) ds ++ [d]) = early (defs_of (rule_name c) ds)) ->
    core_after core (ds ++ [d]) = core_after core ds.
  Proof.
    intros H. unfold core_after. apply map_ext_in. intros c I. f_equal. f_equal. rewrite defs_app.
    destruct (string_dec (lower (rule_name c)) (lower (rule_name (fst d)))) as [S|S].
    - rewrite defs_one_same by exact S. apply H; auto.
    - rewrite defs_one_other by exact S. rewrite app_nil_r. reflexivity.
  Qed.
  Lemma core_ext ds rl c : In c core -> same_name (rule_name rl) (rule_name c) -> last_value None (defs_of (rule_name c) ds) = None ->
    core_after core (ds ++ [(rl, true)]) =
    core_set (rule_name c) ((rule_alt c ++ early (defs_of (rule_name c) ds)) ++ rule_alt rl) (core_after core ds).
  Proof.
    intros I S L. unfold core_after, core_set. rewrite map_map. apply map_ext_in. intros x J. cbn [rule_name]. rewrite defs_app.
    destruct (String.eqb_spec (rule_name c) (rule_name x)) as [E|E].
    - rewrite <- E. rewrite defs_one_same by (unfold same_name in *; cbn; congruence). rewrite early_ext by exact L.
      assert (c = x) as -> by (apply core_unique; auto; unfold same_name; congruence). rewrite app_assoc. reflexivity.
    - rewrite defs_one_other; [rewrite app_nil_r; reflexivity|]. cbn [fst]. intros X. apply E. f_equal. apply core_unique; auto. unfold same_name in *. congruence.
  Qed.
  Lemma deref_core_set c a co e r : deref co e = Some r -> exists r', deref (core_set c a co) e = Some r' /\ rule_name r' = rule_name r.
  Proof.
    destruct e as [x|s]; cbn [deref]; [intros H; injection H as ->; eauto|]. unfold core_set. induction co as [|y l IH]; cbn [find map]; [discriminate|].
    assert (Ny : rule_name (if String.eqb c (rule_name y) then mkRule (rule_name y) a else y) = rule_name y) by (destruct (String.eqb c (rule_name y)); reflexivity).
    rewrite Ny. destruct (String.eqb s (rule_name y)); [intros H; injection H as ->; eauto|exact IH].
  Qed.
  Lemma shared_core c ds : In c core -> deref (core_after core ds) (Shared (rule_name c)) = Some (mkRule (rule_name c) (rule_alt c ++ early (defs_of (rule_name c) ds))).
  Proof.
    intros I. cbn [deref]. unfold core_after. assert (U : forall x, In x core -> rule_name x = rule_name c -> x = c).
    { intros x J E. apply core_unique; auto. unfold same_name. congruence. }
    clear core_nodup. induction core as [|x l IH]; [destruct I|]. cbn [map find rule_name]. destruct (String.eqb_spec (rule_name c) (rule_name x)) as [E|E].
    - assert (x = c) as -> by (apply U; [left; auto|auto]). reflexivity.
    - destruct I as [->|I]; [congruence|]. apply IH; auto. intros y J. apply U. right. exact J.
  Qed.

  Lemma step_redefine ds d st : InvR ds st -> core_spelling core (ds ++ [d]) ->
    match e_define true ord d st with
    | EvOk st' => InvR (ds ++ [d]) st' /\ forall e, ~ faulty core ds d e
    | EvErr e => faulty core ds d e
    | EvPanic => False
    end.
  Proof.
    intros I Sp. pose proof I as [Rc Rk Rr Rl Ro]. destruct d as [rl b]. unfold e_define. cbn [negb andb].
    set (n := rule_name rl). pose proof (find_look ds st (e_tick st) n I) as FL. rewrite (Rl n) in FL.
    assert (IsC : forall c, get_rule_in n core = Some c -> core_name core n) by (intros c G; apply find_core; eauto).
    assert (NotC : get_rule_in n core = None -> ~ core_name core n) by (intros G H; apply find_core in H as [c H]; congruence).
    assert (Dn : forall m, same_name m n -> defs_of m (ds ++ [(rl, b)]) = defs_of n ds ++ [(rl, b)]).
    { intros m S. rewrite defs_app, (defs_same m n ds S), defs_one_same; [reflexivity|exact S]. }
    (* what remains once the entry is known *)
    assert (Fin : forall e st', entry_of (ds ++ [(rl, b)]) n = Some (fst e, snd e) ->
      e_core st' = core_after core (ds ++ [(rl, b)]) -> e_map st' = rm_set (fst e) (snd e) (e_map st) -> same_name n (fst e) ->
      (In (fst e) (map fst (e_map st)) \/ look n (e_map st) = None) ->
      (forall k x, In (k, x) (e_map st) -> exists r, deref (e_core st') x = Some r /\ rule_name r = k) ->
      (exists r, deref (e_core st') (snd e) = Some r /\ rule_name r = fst e) ->
      (~ core_name core n -> last_value None (defs_of n ds ++ [(rl, b)]) <> None) ->
      InvR (ds ++ [(rl, b)]) st').
    { intros [k e] st' En Co Em Sk Kk Rf Rd Ow. cbn [fst snd] in *.
      assert (Kk' : In k (map fst (e_map st)) \/ ~ In (lower k) (lkeys (e_map st))).
      { destruct Kk as [H|H]; [auto|right]. apply look_none in H. unfold same_name in Sk. rewrite <- Sk. exact H. }
      split.
      - exact Co.
      - rewrite Em. apply rm_set_lnodup; auto.
      - rewrite Em. intros k' e' In'. apply rm_set_in in In'; [|apply lnodup_nodup; exact Rk]. destruct In' as [Eq|[In' _]]; [injection Eq as -> ->; exact Rd|apply Rf, In'].
      - intros m. rewrite Em, look_set by auto. destruct (equal_fold m k) eqn:F.
        + apply equal_fold_iff in F. rewrite (entry_same _ m n); [symmetry; exact En|]. unfold same_name in *. congruence.
        + rewrite entry_other; [apply Rl|]. intros X. change (lower m = lower n) in X. assert (Y : same_name m k) by (unfold same_name in *; congruence). apply equal_fold_iff in Y. congruence.
      - intros m Nc Nd. destruct (string_dec (lower m) (lower n)) as [S|S].
        + rewrite (Dn m S). apply Ow. intros (c & C1 & C2). apply Nc. exists c. unfold same_name in *. split; [auto|congruence].
        + rewrite defs_app, defs_one_other, app_nil_r in * by exact S. auto. }
    assert (EnSet : b = false -> entry_of (ds ++ [(rl, b)]) n = Some (n, Own rl)).
    { intros ->. unfold entry_of. rewrite (Dn n eq_refl), last_app. reflexivity. }
    rewrite Rc in *. rewrite core_get. destruct (get_rule_in n core) as [c|] eqn:G.
    - (* a core name *)
      assert (NF : forall e, ~ faulty core ds (rl, b) e) by (intros e [H _]; apply H; eauto).
      assert (Cc : In c core /\ same_name n (rule_name c)) by (apply get_core; exact G). destruct Cc as [Ic Sc].
      destruct b.
      + unfold rm_get. rewrite FL. unfold entry_of. destruct (last_value None (defs_of n ds)) as [r|] eqn:L.
        * (* an own rule is extended *)
          cbn [deref]. split; [|exact NF].
          assert (Nr : same_name n (rule_name r)).
          { apply last_name in L as [(d & Id & Ed)|(r0 & X & _)]; [|discriminate]. apply filter_In in Id as [_ Id]. apply equal_fold_iff in Id. cbn in Id.
            unfold same_name in *. congruence. }
          assert (Lk : look n (e_map st) = Some (rule_name r, Own r)) by (rewrite Rl; unfold entry_of; rewrite L; reflexivity).
          apply (Fin (rule_name r, Own (mkRule (rule_name r) (rule_alt r ++ rule_alt rl)))); cbn [fst snd e_core e_map]; auto.
          -- unfold entry_of. rewrite (Dn n eq_refl), last_app, L. reflexivity.
          -- symmetry. apply core_same. intros x Ix Sx. rewrite (defs_same _ n) by exact Sx. apply early_past. congruence.
          -- left. apply look_in in Lk as [Lk _]. apply in_map_iff. exists (rule_name r, Own r). auto.
          -- cbn. eauto.
          -- intros X. exfalso. apply X. eauto.
        * destruct (defs_of n ds) as [|d0 l0] eqn:Dl.
          -- (* first extension of the core rule *)
             cbn [rule_name rule_alt]. rewrite core_get, G. cbn [rule_name rule_alt]. split; [|exact NF].
             apply (Fin (rule_name c, Shared (rule_name c))); cbn [fst snd e_core e_map]; auto.
             ++ unfold entry_of. rewrite (Dn n eq_refl). cbn [app last_value]. rewrite G. reflexivity.
             ++ symmetry. apply core_ext; auto. rewrite (defs_same _ n) by (unfold same_name in *; congruence). rewrite Dl. reflexivity.
             ++ right. rewrite Rl. unfold entry_of. rewrite Dl. reflexivity.
             ++ intros k x Hx. destruct (Rr k x Hx) as (r & D & E). destruct (deref_core_set (rule_name c) ((rule_alt c ++ early (defs_of (rule_name c) ds)) ++ rule_alt rl) _ _ _ D) as (r' & D' & E'). exists r'. split; [exact D'|congruence].
             ++ destruct (deref_core_set (rule_name c) ((rule_alt c ++ early (defs_of (rule_name c) ds)) ++ rule_alt rl) _ _ _ (shared_core c ds Ic)) as (r' & D' & E'). exists r'. split; [exact D'|exact E'].
             ++ intros X. exfalso. apply X. eauto.
          -- (* a further extension *)
             rewrite G. rewrite (shared_core c ds Ic). cbn [rule_name rule_alt]. split; [|exact NF].
             assert (Lk : look n (e_map st) = Some (rule_name c, Shared (rule_name c))) by (rewrite Rl; unfold entry_of; rewrite Dl, L, G; reflexivity).
             apply (Fin (rule_name c, Shared (rule_name c))); cbn [fst snd e_core e_map]; auto.
             ++ unfold entry_of. rewrite (Dn n eq_refl), last_app, L. cbn [app last_value]. rewrite G. reflexivity.
             ++ symmetry. apply core_ext; auto. rewrite (defs_same _ n) by (unfold same_name in *; congruence). rewrite Dl. exact L.
             ++ left. apply look_in in Lk as [Lk _]. apply in_map_iff. exists (rule_name c, Shared (rule_name c)). auto.
             ++ intros k x Hx. destruct (Rr k x Hx) as (r & D & E). destruct (deref_core_set (rule_name c) ((rule_alt c ++ early (defs_of (rule_name c) ds)) ++ rule_alt rl) _ _ _ D) as (r' & D' & E'). exists r'. split; [exact D'|congruence].
             ++ destruct (deref_core_set (rule_name c) ((rule_alt c ++ early (defs_of (rule_name c) ds)) ++ rule_alt rl) _ _ _ (shared_core c ds Ic)) as (r' & D' & E'). exists r'. split; [exact D'|exact E'].
             ++ intros X. exfalso. apply X. eauto.
      + (* redefined *)
        split; [|exact NF]. apply (Fin (n, Own rl)); cbn [fst snd e_core e_map]; auto.
        * symmetry. apply core_same. intros x Ix Sx. rewrite (defs_same _ n) by exact Sx. apply early_set.
        * reflexivity.
        * destruct (look n (e_map st)) as [[k e]|] eqn:Lk; [left|auto].
          assert (k = n) as ->.
          { assert (Nc : n = rule_name c) by (apply (Sp rl c); auto; apply in_or_app; right; left; reflexivity).
            rewrite Rl in Lk. unfold entry_of in Lk. destruct (last_value None (defs_of n ds)) as [r|] eqn:L.
            - injection Lk as <- _. apply last_name in L as [(d & Id & Ed)|(r0 & X & _)]; [|discriminate]. apply filter_In in Id as [Id Sd]. apply equal_fold_iff in Sd. cbn in Sd.
              rewrite <- Ed, Nc. apply (Sp d c); auto; [apply in_or_app; auto|]. unfold same_name in *. congruence.
            - destruct (defs_of n ds); [discriminate|]. rewrite G in Lk. injection Lk as <- _. auto. }
          apply look_in in Lk as [Lk _]. apply in_map_iff. exists (n, e). auto.
        * cbn. eauto.
        * intros X. exfalso. apply X. eauto.
    - (* any other name *)
      specialize (NotC eq_refl). unfold rm_get. rewrite core_get, G, FL. unfold entry_of. rewrite G.
      destruct (last_value None (defs_of n ds)) as [r|] eqn:L.
      + cbn [deref]. assert (Nm : named n ds) by (apply named_defs; intros X; rewrite X in L; discriminate).
        destruct b; [|split; [exact NotC|apply v_dup; auto]].
        split; [|intros e [_ V]; inversion V; cbn in *; try contradiction; discriminate].
        assert (Nr : same_name n (rule_name r)).
        { apply last_name in L as [(d & Id & Ed)|(r0 & X & _)]; [|discriminate]. apply filter_In in Id as [_ Id]. apply equal_fold_iff in Id. cbn in Id.
          unfold same_name in *. congruence. }
        assert (Lk : look n (e_map st) = Some (rule_name r, Own r)) by (rewrite Rl; unfold entry_of; rewrite L; reflexivity).
        apply (Fin (rule_name r, Own (mkRule (rule_name r) (rule_alt r ++ rule_alt rl)))); cbn [fst snd e_core e_map]; auto.
        * unfold entry_of. rewrite (Dn n eq_refl), last_app, L. reflexivity.
        * symmetry. apply core_same. intros x Ix Sx. rewrite (defs_same _ n) by exact Sx. apply early_past. congruence.
        * left. apply look_in in Lk as [Lk _]. apply in_map_iff. exists (rule_name r, Own r). auto.
        * cbn. eauto.
        * intros _. rewrite last_app, L. discriminate.
      + assert (Nn : defs_of n ds = []) by (destruct (defs_of n ds) eqn:X; auto; exfalso; apply (Ro n NotC); congruence).
        assert (Nm : ~ named n ds) by (intros X; apply named_defs in X; contradiction).
        replace (match defs_of n ds with [] => None | _ :: _ => None end) with (@None (string * entry)) by (destruct (defs_of n ds); reflexivity).
        destruct b; [split; [exact NotC|apply v_missing; auto]|].
        split; [|intros e [_ V]; inversion V; cbn in *; try contradiction; discriminate].
        apply (Fin (n, Own rl)); cbn [fst snd e_core e_map]; auto.
        * symmetry. apply core_same. intros x Ix Sx. rewrite (defs_same _ n) by exact Sx. apply early_set.
        * reflexivity.
        * right. rewrite Rl. unfold entry_of. rewrite L, Nn. reflexivity.
        * cbn. eauto.
        * intros _. rewrite last_app. cbn. discriminate.
  Qed.
  Lemma init_redefine : InvR [] (mkE core [] 0).
  Proof.
    split.
    - cbn [e_core]. unfold core_after. rewrite <- (map_id core) at 1. apply map_ext. intros [m a]. cbn. rewrite app_nil_r. reflexivity.
    - constructor.
    - intros k e [].
    - reflexivity.
    - intros n _ H. cbn in H. congruence.
  Qed.
  Lemma all_redefine ds : forall pre st, InvR pre st -> core_spelling core (pre ++ ds) ->
    match e_define_all true ord ds st with
    | EvOk st' => InvR (pre ++ ds) st' /\ forall p d q e, ds = p ++ d :: q -> ~ faulty core (pre ++ p) d e
    | EvErr e => exists p d q, ds = p ++ d :: q /\ (forall p' d' q' e', p = p' ++ d' :: q' -> ~ faulty core (pre ++ p') d' e') /\ faulty core (pre ++ p) d e
    | EvPanic => False
    end.
  Proof.
    induction ds as [|d ds IH]; intros pre st I Sp; cbn [e_define_all].
    - rewrite app_nil_r. split; [exact I|]. intros p d q e E. destruct p; discriminate.
    - assert (Sp' : core_spelling core (pre ++ [d])).
      { intros x c J. apply Sp. apply in_app_or in J as [J|[J|[]]]; apply in_or_app; [auto|right; left; exact J]. }
      pose proof (step_redefine pre d st I Sp') as S. destruct (e_define true ord d st) as [st'|e|]; [|exists [], d, ds|exact S].
      + destruct S as [I' N]. assert (Sq : core_spelling core ((pre ++ [d]) ++ ds)) by (rewrite <- app_assoc; exact Sp).
        specialize (IH _ _ I' Sq). destruct (e_define_all true ord ds st') as [st''|e|]; [| |exact IH].
        * destruct IH as [A B]. split; [rewrite <- app_assoc in A; exact A|]. intros [|x p] y q e E; cbn [app] in E; injection E as <- ->.
          -- rewrite app_nil_r. apply N.
          -- specialize (B p y q e eq_refl). rewrite <- app_assoc in B. exact B.
        * destruct IH as (p & y & q & -> & A & B). exists (d :: p), y, q. split; [reflexivity|]. rewrite <- app_assoc in B. split; [|exact B].
          intros [|x p'] y' q' e' E; cbn [app] in E; injection E as <- ->; [rewrite app_nil_r; apply N|].
          specialize (A p' y' q' e' eq_refl). rewrite <- app_assoc in A. exact A.
      + split; [reflexivity|]. rewrite app_nil_r. split; [|exact S]. intros p' d' q' e' E. destruct p'; discriminate.
  Qed.
End Redefine.

(** ** C73 *)
(** With the option, definitions of core names spelled as in the core rules never fail;
    every other name behaves as without it (C38).  The grammar holds exactly one rule per
    defined name: what was written since the last [=], or the core rule itself, extended in
    place, when there is no [=].  What [=/] adds to a core name before any [=] of it is added
    to the core rule that all grammars share. *)
Theorem C73_redefine_exact_partial : forall core ord ds, any_order ord -> distinct_names core -> core_spelling core ds ->
  match e_define_all true ord ds (mkE core [] 0) with
  | EvOk st => (forall pre d post e, ds = pre ++ d :: post -> ~ faulty core pre d e) /\
      distinct_names (rules_of st) /\ (forall r, In r (rules_of st) <-> redefined core ds r) /\ e_core st = core_after core ds
  | EvErr e => exists pre d post, ds = pre ++ d :: post /\ (forall p d' q e', pre = p ++ d' :: q -> ~ faulty core p d' e') /\ faulty core pre d e
  | EvPanic => False
  end.
Proof.
  intros core ord ds O D Sp. pose proof (all_redefine ord O core D ds [] _ (init_redefine core) Sp) as H.
  destruct (e_define_all true ord ds (mkE core [] 0)) as [st|e|]; [|exact H|exact H]. cbn [app] in H. destruct H as [[Rc Rk Rr Rl Ro] N].
  split; [exact N|]. split; [|split; [|exact Rc]].
  - unfold distinct_names, rules_of. assert (E : map (fun r => lower (rule_name r)) (flat_map (fun ke => match deref (e_core st) (snd ke) with Some r => [r] | None => [] end) (e_map st)) = lkeys (e_map st)).
    { clear - Rr. unfold lkeys. induction (e_map st) as [|[k e] m IH]; [reflexivity|]. cbn [flat_map snd map fst].
      destruct (Rr k e (or_introl eq_refl)) as (r & -> & <-). cbn [app map]. f_equal. apply IH. intros k' e' I. apply Rr. right. exact I. }
    rewrite E. exact Rk.
  - intros r. unfold rules_of. rewrite in_flat_map. split.
    + intros ([k e] & I & J). cbn [snd] in J. destruct (Rr k e I) as (r' & De & Nr). rewrite De in J. destruct J as [->|[]].
      assert (L : entry_of core ds (rule_name r) = Some (k, e)) by (rewrite <- Rl; apply in_look; auto; unfold same_name; congruence).
      unfold entry_of in L. destruct (last_value None (defs_of (rule_name r) ds)) as [r0|] eqn:Lv.
      * injection L as _ <-. cbn in De. injection De as ->. left. exact Lv.
      * right. split; [exact Lv|]. destruct (defs_of (rule_name r) ds) as [|d0 l0]; [discriminate|]. split; [discriminate|].
        destruct (get_rule_in (rule_name r) core) as [c|]; [|discriminate]. injection L as <- <-. cbn in De. rewrite Rc in De. apply find_some in De as [De _]. exact De.
    + assert (X : forall k e, entry_of core ds (rule_name r) = Some (k, e) -> deref (e_core st) e = Some r -> exists x, In x (e_map st) /\ In r (match deref (e_core st) (snd x) with Some r => [r] | None => [] end)).
      { intros k e L De. rewrite <- Rl in L. apply look_in in L as [I _]. exists (k, e). split; [exact I|]. cbn [snd]. rewrite De. left. reflexivity. }
      intros [Lv|(Lv & Nd & I)].
      * apply (X (rule_name r) (Own r)); [|reflexivity]. unfold entry_of. rewrite Lv. reflexivity.
      * rewrite <- Rc in I. assert (I' := I). rewrite Rc in I'. apply in_map_iff in I' as (c & Ec & Ic).
        assert (Nc : rule_name c = rule_name r) by (rewrite <- Ec; reflexivity).
        apply (X (rule_name c) (Shared (rule_name c))); [|rewrite Rc, (shared_core core D c ds Ic), <- Ec; reflexivity].
        unfold entry_of. rewrite Lv. destruct (defs_of (rule_name r) ds) as [|d0 l0]; [congruence|].
        rewrite (proj2 (get_core core D (rule_name r) c)); [reflexivity|]. split; [exact Ic|]. unfold same_name. congruence.
Qed.

(** Whatever the spelling and the option, only core rules named by some [=/] change. *)
Theorem C73_core_untouched : forall redefine ord ds st st', e_define_all redefine ord ds st = EvOk st' ->
  map rule_name (e_core st') = map rule_name (e_core st) /\
  forall c, In c (e_core st) -> (forall d, In (d, true) ds -> ~ same_name (rule_name d) (rule_name c)) -> In c (e_core st').
Proof.
  intros rd ord ds. induction ds as [|[rl b] ds IH]; intros st st' E; cbn [e_define_all] in E; [injection E as <-; auto|].
  destruct (e_define rd ord (rl, b) st) as [s1|e|] eqn:D; try discriminate. destruct (IH _ _ E) as [A B]. clear IH E.
  assert (S : map rule_name (e_core s1) = map rule_name (e_core st) /\
    forall c, In c (e_core st) -> (b = true -> ~ same_name (rule_name rl) (rule_name c)) -> In c (e_core s1)).
  { unfold e_define in D. destruct b.
    - destruct (negb rd && _)%bool; [discriminate|]. destruct (rm_get (e_core st) (rule_name rl) (ord (e_tick st) (e_map st))) as [[p r]|] eqn:G; [|discriminate].
      assert (Sm : same_name (rule_name rl) (rule_name r) /\ forall c, p = Shared c -> c = rule_name r).
      { unfold rm_get in G. destruct (rm_find _ _ _) as [[p' r']|] eqn:F.
        - injection G as -> ->. apply rm_find_some in F as (k & _ & De & Sm). split; [exact Sm|]. intros c ->. cbn in De. apply find_some in De as [_ De]. apply String.eqb_eq in De. auto.
        - destruct (get_rule_in (rule_name rl) (e_core st)) as [c|] eqn:Gc; [|discriminate]. injection G as <- <-. apply find_some in Gc as [_ Gc]. apply equal_fold_iff in Gc.
          split; [exact Gc|]. intros x X. injection X as <-. reflexivity. }
      destruct p as [x|c]; injection D as <-; cbn [e_core]; [auto|]. destruct Sm as [Sm Sc]. rewrite (Sc c eq_refl). unfold core_set. split.
      + rewrite map_map. apply map_ext. intros x. destruct (String.eqb (rule_name r) (rule_name x)); reflexivity.
      + intros x I N. apply in_map_iff. exists x. split; [|exact I]. destruct (String.eqb_spec (rule_name r) (rule_name x)) as [Q|]; [|reflexivity].
        exfalso. apply (N eq_refl). unfold same_name in *. congruence.
    - destruct (match get_rule_in (rule_name rl) (e_core st) with Some _ => true | None => false end).
      + destruct rd; [|discriminate]. injection D as <-. auto.
      + destruct (rm_get _ _ _); [discriminate|]. injection D as <-. auto. }
  destruct S as [S1 S2]. split; [congruence|]. intros c I N. apply B; [apply S2; auto|].
  - intros ->. apply N. left. reflexivity.
  - intros d J. apply N. right. exact J.
Qed.

(** ParseABNF with the option and without validation, on every text whose definitions are
    spelled so: the result is what the definitions say. *)
Theorem C73_parse_partial : forall ord w ds, any_order ord -> text_taken w ds -> core_spelling core_rules ds ->
  exists enough, forall fuel ordE sh, (enough <= fuel)%nat -> any_order ordE ->
    match ParseAbnf.parse_abnf ord ordE sh fuel true false core_rules w with
    | ParseAbnf.PA_ok st => (forall pre d post e, ds = pre ++ d :: post -> ~ faulty core_rules pre d e) /\
        distinct_names (rules_of st) /\ (forall r, In r (rules_of st) <-> redefined core_rules ds r) /\ e_core st = core_after core_rules ds
    | ParseAbnf.PA_eval e => exists pre d post, ds = pre ++ d :: post /\
        (forall p d' q e', pre = p ++ d' :: q -> ~ faulty core_rules p d' e') /\ faulty core_rules pre d e
    | _ => False
    end.
Proof.
  intros ord w ds O H Sp. destruct (PropParse.parse_abnf_tree ord w O) as [A _].
  destruct (AbnfEval.taken_says _ _ H) as (da & Ha & _).
  destruct A as (t & en & D & A); [apply PropRead.C55_abnf_texts; eauto|]. exists en. intros fuel ordE sh F Oe.
  rewrite A, (PropRead.C56_evaluation_exact w ds t true ordE core_rules H D) by auto.
  pose proof (C73_redefine_exact_partial core_rules ordE ds Oe core_distinct Sp) as M.
  destruct (e_define_all true ordE ds (mkE core_rules [] 0)) as [st|e|]; auto.
Qed.

(** With another spelling the result depends on the order Go iterates the map in: two
    entries stand for one name, and [=/] extends the one met first. *)
Theorem C73_spelling_refuted : exists ds ord ord' st st' r, any_order ord /\ any_order ord' /\
  e_define_all true ord ds (mkE core_rules [] 0) = EvOk st /\ e_define_all true ord' ds (mkE core_rules [] 0) = EvOk st' /\
  In r (rules_of st) /\ ~ In r (rules_of st') /\ ~ distinct_names (rules_of st).
Proof.
  exists [(mkRule "bit" (lit 120), false); (mkRule "BIT" (lit 121), false); (mkRule "Bit" (lit 122), true)], id_order, (fun _ l => rev l).
  eexists. eexists. exists (mkRule "bit" (lit 120 ++ lit 122)). split; [apply id_order_any|]. split; [intros t l x; symmetry; apply in_rev|].
  split; [vm_compute; reflexivity|]. split; [vm_compute; reflexivity|]. split; [left; reflexivity|]. split.
  - vm_compute. intros [H|[H|[]]]; discriminate.
  - vm_compute. intros H. inversion H as [|? ? H1 _]; subst. apply H1. left. reflexivity.
Qed.

(** [BIT =/ x], [CR = y], [CR =/ z], [CR = w], [cr =/ v], [a =  u]. *)
Definition ds73 : list (rule * bool) :=
  [(mkRule "BIT" (lit 120), true); (mkRule "CR" (lit 121), false); (mkRule "CR" (lit 122), true);
   (mkRule "CR" (lit 119), false); (mkRule "cr" (lit 118), true); (mkRule "a" (lit 117), false)].
Example C73_case : distinct_names core_rules /\ core_spelling core_rules ds73 /\
  exists st, e_define_all true id_order ds73 (mkE core_rules [] 0) = EvOk st /\
    rules_of st = [mkRule "BIT" (rule_alt r_bit ++ lit 120); mkRule "CR" (lit 119 ++ lit 118); mkRule "a" (lit 117)] /\
    get_rule_in "BIT" (e_core st) = Some (mkRule "BIT" (rule_alt r_bit ++ lit 120)) /\ get_rule_in "CR" (e_core st) = Some r_cr.
Proof.
  split; [apply core_distinct|]. split.
  - intros d c I J S. unfold ds73 in I. cbn [In] in I.
    assert (X : forall n, In n ["CR"; "a"] -> forall c, In c core_rules -> lower n = lower (rule_name c) -> n = rule_name c).
    { assert (Q : forallb (fun n => forallb (fun c => negb (equal_fold n (rule_name c)) || String.eqb n (rule_name c)) core_rules) ["CR"; "a"] = true) by (vm_compute; reflexivity).
      intros n In1 x Ix Sx. rewrite forallb_forall in Q. specialize (Q n In1). rewrite forallb_forall in Q. specialize (Q x Ix).
      assert (Sx' : same_name n (rule_name x)) by exact Sx. apply equal_fold_iff in Sx'. rewrite Sx' in Q. apply String.eqb_eq, Q. }
    apply X; auto. destruct I as [I|[I|[I|[I|[I|[I|[]]]]]]]; try discriminate I; injection I as <-; cbn; auto.
  - eexists. split; [vm_compute; reflexivity|]. split; [vm_compute; reflexivity|]. split; vm_compute; reflexivity.
Qed.

Print Assumptions C73_redefine_exact_partial.
Print Assumptions C73_core_untouched.
Print Assumptions C73_parse_partial.
Print Assumptions C73_spelling_refuted.
