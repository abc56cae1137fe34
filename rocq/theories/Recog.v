(** Validity: recognize.go and Grammar.IsValid (grammar.go:19-40). *)
From Coq Require Import ZArith Arith String Bool Relations List Lia.
From Verif Require Import Syntax Spec Term Printer Deps Dag Cycle LeftRec.
Import ListNotations.
Local Open Scope list_scope.

(** ** Model *)

(** The mutable part of a recognizer (recognize.go:22-34).  Maps are functions;
    the value of a map[int]bool is the list of its keys.  [r_tick] counts the
    iterations over maps that make calls, and selects their order. *)
Record rstate := mkR {
  r_memo : string -> option (list nat);
  r_prog : string -> bool;
  r_grow : string -> option (list nat);
  r_tick : nat
}.
(** The maps of a new recognizer (grammar.go:27-37). *)
Definition r_init : rstate := mkR (fun _ => None) (fun _ => false) (fun _ => None) 0.
(** (auxiliary) one more iteration over a map. *)
Definition tick (st : rstate) : rstate := mkR (r_memo st) (r_prog st) (r_grow st) (S (r_tick st)).
(** r.memo[key] = … (recognize.go:151, 202). *)
Definition set_memo (k : string) (v : list nat) (st : rstate) : rstate :=
  mkR (upd (r_memo st) k (Some v)) (r_prog st) (r_grow st) (r_tick st).
(** r.inProgress[key] = true and delete (recognize.go:143, 145). *)
Definition set_prog (k : string) (b : bool) (st : rstate) : rstate :=
  mkR (r_memo st) (upd (r_prog st) k b) (r_grow st) (r_tick st).
(** r.growing[key] = … and delete (recognize.go:174, 187, 201). *)
Definition set_grow (k : string) (v : option (list nat)) (st : rstate) : rstate :=
  mkR (r_memo st) (r_prog st) (upd (r_grow st) k v) (r_tick st).

(** A call returns, needs more fuel, or panics (write to a nil map). *)
Inductive rres (A : Type) := ROk (a : A) (st : rstate) | RFuel | RPanic.
Arguments ROk {A}. Arguments RFuel {A}. Arguments RPanic {A}.
(** (auxiliary) running one call after another. *)
Definition rbind {A B} (x : rres A) (f : A -> rstate -> rres B) : rres B :=
  match x with ROk a st => f a st | RFuel => RFuel | RPanic => RPanic end.

(** Keys of the maps: text @ index (recognize.go:133, 162-163). *)
Definition rkey (s : string) (i : nat) : string := (s ++ "@" ++ itoa (Z.of_nat i))%string.
(** The key of an element (recognize.go:133). *)
Definition ekey (e : elem) (i : nat) : string := rkey (elem_string e) i.

(** A read of a map[int]bool (recognize.go:109, 186). *)
Definition mem_nat (x : nat) (l : list nat) : bool := existsb (Nat.eqb x) l.
(** Adding the keys of one map to another (recognize.go:47-49, 103-105, 225-227). *)
Definition union (a b : list nat) : list nat := nodup Nat.eq_dec (a ++ b).

Section Recognizer.
  Variable g : grammar.
  Variable input : list Z.
  Variable lr : string -> option (list string).      (* leftRec *)
  Variable ord : nat -> list nat -> list nat.         (* map iteration order *)

  Section Call.
    Variable call : elem -> nat -> rstate -> rres (list nat).   (* reachElem *)

    (** [for p := range S { for e := range f(p) { next[e] = true } }]
        (recognize.go:58-62, 94-98). *)
    Fixpoint each_pos (f : nat -> rstate -> rres (list nat)) (ps acc : list nat) (st : rstate) : rres (list nat) :=
      match ps with
      | [] => ROk acc st
      | p :: ps' => rbind (f p st) (fun s st' => each_pos f ps' (union acc s) st')
      end.
    (** The nested loops over positions (recognize.go:58-62, 94-98), in an order of their own. *)
    Definition range_pos (f : nat -> rstate -> rres (list nat)) (s : list nat) (st : rstate) : rres (list nat) :=
      each_pos f (ord (r_tick st) s) [] (tick st).

    (** The counting loop of reachRep (recognize.go:89-119); [k] iterations left,
        [c] the count. *)
    Fixpoint rep_loop (k : nat) (c mn mx : Z) (e : elem) (level seen ends : list nat) (st : rstate) : rres (list nat) :=
      match k with
      | O => ROk ends st
      | S k' =>
          if (negb (mx =? inf)%Z && (mx <? c)%Z)%bool then ROk ends st
          else rbind (range_pos (fun p => call e p) level st) (fun next st' =>
            match next with
            | [] => ROk ends st'
            | _ =>
                let ends' := if (mn <=? c)%Z then union ends next else ends in
                let grew := existsb (fun x => negb (mem_nat x seen)) next in
                if (negb grew && (mn <=? c)%Z)%bool then ROk ends' st'
                else rep_loop k' (c + 1) mn mx e next (union seen next) ends' st'
            end)
      end.
    (** reachRep (recognize.go:71-121). *)
    Definition reach_rep (r : rep) (i : nat) (st : rstate) : rres (list nat) :=
      match r with
      | Rep mn mx e => rep_loop (length input + 2) 1 mn mx e [i] [i] (if (mn =? 0)%Z then [i] else []) st
      end.
    (** reachConcat (recognize.go:54-69). *)
    Fixpoint cat_loop (c : concatenation) (cur : list nat) (st : rstate) : rres (list nat) :=
      match c with
      | [] => ROk cur st
      | r :: c' => rbind (range_pos (fun p => reach_rep r p) cur st) (fun next st' =>
          match next with [] => ROk [] st' | _ => cat_loop c' next st' end)
      end.
    (** reachAlt (recognize.go:44-52). *)
    Fixpoint alt_loop (a : alternation) (i : nat) (acc : list nat) (st : rstate) : rres (list nat) :=
      match a with
      | [] => ROk acc st
      | c :: a' => rbind (cat_loop c [i] st) (fun s st' => alt_loop a' i (union acc s) st')
      end.
    (** reachAlt (recognize.go:44-52). *)
    Definition reach_alt (a : alternation) (i : nat) (st : rstate) : rres (list nat) := alt_loop a i [] st.

    (** computeElem (recognize.go:210-292); the terminal cases are [match_term]. *)
    Definition compute_elem (e : elem) (i : nat) (st : rstate) : rres (list nat) :=
      match e with
      | ERule n =>
          match get_rule n g with
          | None => ROk [] st
          | Some r => reach_alt (rule_alt r) i st
          end
      | EGroup a => reach_alt a i st
      | EOption a => rbind (reach_alt a i st) (fun s st' => ROk (union [i] s) st')
      | t => ROk (match match_term t input i with Some j => [j] | None => [] end) st
      end.

    (** One pass over the rules of the component (recognize.go:178-191). *)
    Fixpoint grow_round (scc : list string) (i : nat) (changed : bool) (st : rstate) : rres bool :=
      match scc with
      | [] => ROk changed st
      | x :: scc' =>
          match get_rule x g with
          | None => grow_round scc' i changed st
          | Some r => rbind (reach_alt (rule_alt r) i st) (fun ns st' =>
              match r_grow st' (rkey x i) with
              | None => match ns with [] => grow_round scc' i changed st' | _ => RPanic end
              | Some cur =>
                  if existsb (fun e => negb (mem_nat e cur)) ns
                  then grow_round scc' i true (set_grow (rkey x i) (Some (union cur ns)) st')
                  else grow_round scc' i changed st'
              end)
          end
      end.
    (** The growth loop (recognize.go:176-192), [k] rounds at most. *)
    Fixpoint grow_loop (k : nat) (scc : list string) (i : nat) (st : rstate) : rres unit :=
      match k with
      | O => RFuel
      | S k' => rbind (grow_round scc i false st) (fun ch st' => if ch then grow_loop k' scc i st' else ROk tt st')
      end.
    (** Closing the component (recognize.go:199-206). *)
    Fixpoint finish (name : string) (scc : list string) (i : nat) (result : list nat) (st : rstate) : list nat * rstate :=
      match scc with
      | [] => (result, st)
      | x :: scc' =>
          let v := match r_grow st (rkey x i) with Some v => v | None => [] end in
          finish name scc' i (if String.eqb x name then v else result)
            (set_memo (rkey x i) v (set_grow (rkey x i) None st))
      end.
    (** The empty seeds (recognize.go:171-175). *)
    Definition seed_all (scc : list string) (i : nat) (st : rstate) : rstate :=
      fold_left (fun st x => set_grow (rkey x i) (Some []) st) scc st.
    (** reachLeftRec (recognize.go:161-208). *)
    Definition reach_left_rec (name : string) (scc : list string) (i : nat) (st : rstate) : rres (list nat) :=
      match r_memo st (rkey name i) with
      | Some v => ROk v st
      | None =>
          match r_grow st (rkey name i) with
          | Some v => ROk v st
          | None =>
              rbind (grow_loop (S (length scc * (length input + 2))) scc i (seed_all scc i st)) (fun _ st' =>
                let '(res, st'') := finish name scc i [] st' in ROk res st'')
          end
      end.

    (** The memoized path of reachElem (recognize.go:133-152). *)
    Definition reach_plain (e : elem) (i : nat) (st : rstate) : rres (list nat) :=
      let k := ekey e i in
      match r_memo st k with
      | Some v => ROk v st
      | None =>
          if r_prog st k then ROk [] st
          else rbind (compute_elem e i (set_prog k true st)) (fun out st' => ROk out (set_memo k out (set_prog k false st')))
      end.

    (** The test at the head of reachElem (recognize.go:127-131). *)
    Definition is_lr (e : elem) : option (string * list string) :=
      match e with
      | ERule n => match lr (lower n) with Some scc => Some (lower n, scc) | None => None end
      | _ => None
      end.
    (** reachElem (recognize.go:123-153). *)
    Definition reach_body (e : elem) (i : nat) (st : rstate) : rres (list nat) :=
      match is_lr e with
      | Some (name, scc) => reach_left_rec name scc i st
      | None => reach_plain e i st
      end.
  End Call.

  (** reachElem (recognize.go:123-153); fuel bounds the depth of calls. *)
  Fixpoint reach_elem (fuel : nat) (e : elem) (i : nat) (st : rstate) : rres (list nat) :=
    match fuel with
    | O => RFuel
    | S f => reach_body (reach_elem f) e i st
    end.
End Recognizer.

(** Grammar.IsValid (grammar.go:19-40).  [ordn] and [order] are the iteration
    orders of the left-recursion analysis, [ord] those of the recognizer. *)
Inductive valid_result := VNotFound | VBool (b : bool) | VFuel | VPanic.
(** IsValid (grammar.go:19-40). *)
Definition is_valid (ordn : nat -> list string -> list string) (order : list string) (ord : nat -> list nat -> list nat)
  (fuel : nat) (g : grammar) (rulename : string) (input : list Z) : valid_result :=
  match get_rule rulename g with
  | None => VNotFound
  | Some _ =>
      match left_recursive_sccs g ordn order with
      | None => VFuel
      | Some lr =>
          match reach_elem g input lr ord fuel (ERule rulename) 0 r_init with
          | ROk ends _ => VBool (mem_nat (length input) ends)
          | RFuel => VFuel
          | RPanic => VPanic
          end
      end
  end.

(** ** Relations between positions *)
Fixpoint pow_rel (X : nat -> nat -> Prop) (n i j : nat) : Prop :=
  match n with
  | O => i = j
  | S n' => exists k, X i k /\ pow_rel X n' k j
  end.
(** (specification) a repetition of [X] between two positions. *)
Definition rep_rel (X : elem -> nat -> nat -> Prop) (r : rep) (i j : nat) : Prop :=
  match r with
  | Rep mn mx e => exists n, (mn <= Z.of_nat n)%Z /\ (mx = inf \/ (Z.of_nat n <= mx)%Z) /\ pow_rel (X e) n i j
  end.
(** (specification) a concatenation between two positions. *)
Fixpoint cat_rel (X : elem -> nat -> nat -> Prop) (c : concatenation) (i j : nat) : Prop :=
  match c with
  | [] => i = j
  | r :: c' => exists k, rep_rel X r i k /\ cat_rel X c' k j
  end.
(** (specification) an alternation between two positions. *)
Definition alt_rel (X : elem -> nat -> nat -> Prop) (a : alternation) (i j : nat) : Prop :=
  exists c, In c a /\ cat_rel X c i j.

Lemma mem_nat_in x l : mem_nat x l = true <-> In x l.
Proof.
  unfold mem_nat. rewrite existsb_exists. split.
  - intros (y & I & E). apply Nat.eqb_eq in E. subst. auto.
  - intros I. exists x. split; auto. apply Nat.eqb_refl.
Qed.
Lemma union_in x a b : In x (union a b) <-> In x a \/ In x b.
Proof. unfold union. rewrite nodup_In, in_app_iff. reflexivity. Qed.

Lemma pow_rel_snoc X n : forall i k j, pow_rel X n i k -> X k j -> pow_rel X (S n) i j.
Proof.
  induction n as [|n IH]; intros i k j H Hk; cbn in *.
  - subst. exists j. auto.
  - destruct H as (m & A & B). exists m. split; auto. apply (IH m k j); auto.
Qed.
Lemma pow_rel_app X n m : forall i k j, pow_rel X n i k -> pow_rel X m k j -> pow_rel X (n + m) i j.
Proof.
  induction n as [|n IH]; intros i k j H H2; cbn in *; [subst; auto|].
  destruct H as (p & A & B). exists p. split; auto. eapply IH; eauto.
Qed.
Lemma pow_rel_split X n m : forall i j, pow_rel X (n + m) i j -> exists k, pow_rel X n i k /\ pow_rel X m k j.
Proof.
  induction n as [|n IH]; intros i j H; cbn in *; [eauto|].
  destruct H as (p & A & B). apply IH in B as (k & B & C). exists k. split; eauto.
Qed.
Lemma cat_rel_app X c1 c2 : forall i j, cat_rel X (c1 ++ c2) i j <-> exists k, cat_rel X c1 i k /\ cat_rel X c2 k j.
Proof.
  induction c1 as [|r c1 IH]; intros i j; cbn [cat_rel app].
  - split; [intros H; exists i; auto|intros (k & <- & H); auto].
  - split.
    + intros (k & A & B). apply IH in B as (m & B & C). exists m. split; eauto.
    + intros (m & (k & A & B) & C). exists k. split; auto. apply IH. eauto.
Qed.
Lemma pow_rel_mono (X Y : nat -> nat -> Prop) n : (forall p q, X p q -> Y p q) -> forall i j, pow_rel X n i j -> pow_rel Y n i j.
Proof. intros H. induction n as [|n IH]; cbn; intros i j; auto. intros (k & A & B). exists k. auto. Qed.

(** ** The loops, for any specification of the calls *)
Section Loops.
  Variable input : list Z.
  Notation len := (length input).
  Variable ord : nat -> list nat -> list nat.
  Hypothesis O : forall t l x, In x (ord t l) <-> In x l.
  Variable call : elem -> nat -> rstate -> rres (list nat).
  Variable I : rstate -> Prop.
  Variable okc : elem -> nat -> Prop.           (* calls that are made *)
  Variables FA PA CA : Prop.                     (* fuel may run out; panics may happen; results are complete *)
  Variables lo hi : elem -> nat -> nat -> Prop.  (* what must be found; what may be found *)
  Definition good {A} (x : rres A) (Q : A -> rstate -> Prop) : Prop :=
    match x with ROk a st => Q a st | RFuel => FA | RPanic => PA end.
  Hypothesis I_tick : forall st, I st -> I (tick st).
  Hypothesis call_good : forall e p st, I st -> okc e p ->
    good (call e p st) (fun s st' => I st' /\ (CA -> forall j, lo e p j -> In j s) /\ (forall j, In j s -> hi e p j)).
  Hypothesis hi_le : forall e p q, hi e p q -> p <= len -> p <= q <= len.
  Hypothesis lo_hi : CA -> forall e p q, lo e p q -> hi e p q.

  Lemma good_bind {A B} (x : rres A) (f : A -> rstate -> rres B) Q R :
    good x Q -> (forall a st, Q a st -> good (f a st) R) -> good (rbind x f) R.
  Proof. destruct x as [a st| |]; cbn; auto. Qed.
  Lemma good_weaken {A} (x : rres A) (Q R : A -> rstate -> Prop) : good x Q -> (forall a st, Q a st -> R a st) -> good x R.
  Proof. destruct x; cbn; auto. Qed.

  (** A set [s] found from the positions [S]. *)
  Definition between (lo' hi' : nat -> nat -> Prop) (S s : list nat) : Prop :=
    (CA -> forall p j, In p S -> lo' p j -> In j s) /\ (forall j, In j s -> exists p, In p S /\ hi' p j).

  Lemma each_pos_good f (lo' hi' : nat -> nat -> Prop) (ok : nat -> Prop) :
    (forall p st, I st -> ok p -> good (f p st) (fun s st' => I st' /\ (CA -> forall j, lo' p j -> In j s) /\ (forall j, In j s -> hi' p j))) ->
    forall ps acc st, I st -> (forall p, In p ps -> ok p) ->
    good (each_pos f ps acc st) (fun s st' => I st' /\
      (CA -> forall j, In j acc \/ (exists p, In p ps /\ lo' p j) -> In j s) /\
      (forall j, In j s -> In j acc \/ exists p, In p ps /\ hi' p j)).
  Proof.
    intros Hf. induction ps as [|p ps IH]; intros acc st Ist Ok; cbn [each_pos].
    - cbn [good]. split; auto. split; [|auto]. intros _ j [H|(p & [] & _)]; auto.
    - eapply good_bind; [apply Hf; auto; apply Ok; left; auto|]. intros s st' (I' & L & H).
      eapply good_weaken; [apply IH; auto; intros q Q; apply Ok; right; auto|]. intros s2 st2 (I2 & L2 & H2).
      split; auto. split.
      + intros Hc j [J|(q & [<-|Q] & J)]; apply L2; auto; [left|left|right; eauto]; apply union_in; auto.
      + intros j J. destruct (H2 j J) as [J2|(q & Q & J2)]; [|right; exists q; split; [right|]; auto].
        apply union_in in J2 as [J2|J2]; [auto|]. right. exists p. split; [left|]; auto.
  Qed.
  Lemma range_pos_good f (lo' hi' : nat -> nat -> Prop) (ok : nat -> Prop) :
    (forall p st, I st -> ok p -> good (f p st) (fun s st' => I st' /\ (CA -> forall j, lo' p j -> In j s) /\ (forall j, In j s -> hi' p j))) ->
    forall S st, I st -> (forall p, In p S -> ok p) ->
    good (range_pos ord f S st) (fun s st' => I st' /\ between lo' hi' S s).
  Proof.
    intros Hf S st Ist Ok. unfold range_pos. eapply good_weaken; [apply (each_pos_good f lo' hi' ok Hf); auto|].
    - intros p P. apply Ok. apply O in P. auto.
    - cbv beta. intros s st' (I' & L & H). split; auto. split.
      + intros Hc p j P J. apply L; auto. right. exists p. split; auto. apply O. auto.
      + intros j J. destruct (H j J) as [[]|(p & P & Q)]. exists p. split; auto. apply O in P. auto.
  Qed.

  (** *** Repetitions *)
  (** When the counting loop finds every end. *)
  Definition repok (r : rep) : Prop :=
    match r with
    | Rep mn mx e => (0 <= mn)%Z /\
        ((mn <= 2)%Z \/
         ((mn = mx \/ forall p q q', hi e p q -> hi e p q' -> q = q') /\
          ((mn <= Z.of_nat len + 2)%Z \/ forall p, ~ hi e p p)))
    end.

  Section Rep.
    Variables (mn mx : Z) (e : elem) (i : nat).
    Hypothesis Hi : i <= len.
    Hypothesis RO : CA -> repok (Rep mn mx e).
    Hypothesis ok : forall n p, pow_rel (hi e) n i p -> okc e p.

    Lemma pow_le (X : nat -> nat -> Prop) n : (forall p q, X p q -> hi e p q) -> forall p q, pow_rel X n p q -> p <= len -> p <= q <= len.
    Proof.
      intros Hx. induction n as [|n IH]; cbn; intros p q H Hp; [subst; lia|].
      destruct H as (k & A & B). apply Hx, hi_le in A; auto. apply IH in B; lia.
    Qed.
    (** A long path has a step that does not move. *)
    Lemma pow_short : CA -> forall n p q, p <= len -> pow_rel (lo e) n p q -> (len < p + n) ->
      exists m, n = S m /\ pow_rel (lo e) m p q /\ exists k, hi e k k.
    Proof.
      intros Hc. induction n as [|n IH]; intros p q Hp H L; [lia|]. cbn in H. destruct H as (k & A & B).
      pose proof (hi_le _ _ _ (lo_hi Hc _ _ _ A) Hp) as K. destruct (Nat.eq_dec k p) as [->|N].
      - exists n. split; auto. split; auto. exists p. apply lo_hi; auto.
      - destruct (IH k q) as (m & -> & C & D); auto; [lia|lia|]. exists (S m). split; auto. split; auto. cbn. eauto.
    Qed.
    (** Paths can be shortened to the number of rounds. *)
    Lemma pow_cap : CA -> forall n j, (mn <= Z.of_nat n)%Z -> (mx = inf \/ (Z.of_nat n <= mx)%Z) -> pow_rel (lo e) n i j ->
      exists m, m <= len + 2 /\ (mn <= Z.of_nat m)%Z /\ (mx = inf \/ (Z.of_nat m <= mx)%Z) /\ pow_rel (lo e) m i j.
    Proof.
      intros Hc. induction n as [n IH] using lt_wf_ind; intros j H1 H2 P.
      destruct (le_lt_dec n (len + 2)) as [L|L]; [exists n; auto|].
      destruct (pow_short Hc n i j Hi P) as (m & -> & Q & (k & K)); [lia|].
      destruct (Z.leb_spec mn (Z.of_nat m)) as [M|M].
      - apply (IH m); [lia|lia|destruct H2 as [H2|H2]; [auto|right; lia]|auto].
      - exfalso. assert (mn = Z.of_nat (S m)) by lia. destruct (RO Hc) as [Hmn [R|[_ [R|R]]]]; try lia. apply (R k). auto.
    Qed.

    (** The invariant of the loop: [levels c'] are the sets computed for the
        counts up to the current one. *)
    Lemma rep_loop_good : forall k c level seen ends st (levels : nat -> list nat),
      I st -> levels c = level -> levels 0 = [i] ->
      (forall c' p, c' <= c -> In p (levels c') -> pow_rel (hi e) c' i p) ->
      (CA -> forall c' p q, c' < c -> In p (levels c') -> lo e p q -> In q (levels (S c'))) ->
      (forall p, In p seen <-> exists c', c' <= c /\ In p (levels c')) ->
      (forall p, In p ends <-> exists c', c' <= c /\ (mn <= Z.of_nat c')%Z /\ In p (levels c')) ->
      (mx = inf \/ c = 0 \/ (Z.of_nat c <= mx)%Z) ->
      k + c = len + 2 -> (CA -> 0 <= mn)%Z ->
      good (rep_loop ord call k (Z.of_nat c + 1) mn mx e level seen ends st) (fun s st' => I st' /\
        (CA -> forall j, rep_rel lo (Rep mn mx e) i j -> In j s) /\
        (forall j, In j s -> rep_rel hi (Rep mn mx e) i j \/ (mn <= 0)%Z /\ j = i)).
    Proof.
      induction k as [|k IH]; intros c level seen ends st levels Ist Lc L0 Lh Ll Se En Mx Hk Hmn.
      - cbn [rep_loop good]. assert (Done : forall n j, CA -> n <= c -> (mn <= Z.of_nat n)%Z -> pow_rel (lo e) n i j -> In j ends).
        { intros n j Hc Hn Hm P. apply En. exists n. split; auto. split; auto.
          assert (G : forall m, m <= c -> forall j, pow_rel (lo e) m i j -> In j (levels m)).
          { induction m as [|m IHm]; intros Hm' j' Q.
            - cbn in Q. subst. rewrite L0. left. auto.
            - rewrite <- Nat.add_1_r in Q. apply pow_rel_split in Q as (q & Q1 & Q2). cbn in Q2. destruct Q2 as (z & Q2 & <-).
              apply (Ll Hc m q); auto; try lia. apply IHm; auto. lia. }
          apply G; auto. }
        split; auto. split.
        + intros Hc j (n & H1 & H2 & P). destruct (pow_cap Hc n j H1 H2 P) as (m & M1 & M2 & M3 & Q). apply (Done m); auto. lia.
        + intros j J. apply En in J as (c' & C & M & J). destruct Mx as [Mx|[Mx|Mx]].
          * left. exists c'. split; [exact M|]. split; [left; exact Mx|apply Lh; auto].
          * subst c. assert (c' = 0) by lia. subst c'. rewrite L0 in J. destruct J as [<-|[]]. right. cbn in M. auto.
          * left. exists c'. split; [exact M|]. split; [right; lia|apply Lh; auto].
      - assert (Reach : CA -> forall m, m <= c -> forall j, pow_rel (lo e) m i j -> In j (levels m)).
        { intros Hc. induction m as [|m IHm]; intros Hm' j' Q.
          - cbn in Q. subst. rewrite L0. left. auto.
          - rewrite <- Nat.add_1_r in Q. apply pow_rel_split in Q as (q & Q1 & Q2). cbn in Q2. destruct Q2 as (z & Q2 & <-).
            apply (Ll Hc m q); auto; try lia. apply IHm; auto. lia. }
        assert (Hends : forall j, In j ends -> rep_rel hi (Rep mn mx e) i j \/ (mn <= 0)%Z /\ j = i).
        { intros j J. apply En in J as (c' & C & M & J). destruct Mx as [Mx|[Mx|Mx]].
          * left. exists c'. split; [exact M|]. split; [left; exact Mx|apply Lh; auto].
          * subst c. assert (c' = 0) by lia. subst c'. rewrite L0 in J. destruct J as [<-|[]]. right. cbn in M. auto.
          * left. exists c'. split; [exact M|]. split; [right; lia|apply Lh; auto]. }
        cbn [rep_loop].
        destruct (negb (mx =? inf)%Z && (mx <? Z.of_nat c + 1)%Z)%bool eqn:Bx.
        { cbn [good]. apply andb_true_iff in Bx as [B1 B2]. apply negb_true_iff, Z.eqb_neq in B1. apply Z.ltb_lt in B2.
          split; auto. split; auto. intros Hc j (n & H1 & [H2|H2] & P); [contradiction|]. apply En. exists n.
          assert (n <= c) by lia. split; auto. }
        assert (Mx' : mx = inf \/ (Z.of_nat (S c) <= mx)%Z).
        { apply andb_false_iff in Bx as [B1|B1]; [left; apply negb_false_iff, Z.eqb_eq in B1; auto|right; apply Z.ltb_ge in B1; lia]. }
        eapply good_bind.
        { apply (range_pos_good (fun p => call e p) (lo e) (hi e) (okc e)); [intros; apply call_good; auto|exact Ist|].
          intros p P. apply (ok c). apply Lh; auto. rewrite Lc. auto. }
        cbv beta. intros next st' (I' & NL & NH).
        assert (Nh : forall p, In p next -> pow_rel (hi e) (S c) i p).
        { intros p P. destruct (NH p P) as (q & Q & H). apply pow_rel_snoc with q; auto. apply Lh; auto. rewrite Lc. auto. }
        destruct next as [|n0 next'] eqn:En0.
        { cbn [good]. split; auto. split; auto. intros Hc j (n & H1 & H2 & P).
          destruct (le_lt_dec n c) as [L|L]; [apply En; exists n; auto|]. exfalso.
          replace n with (c + S (n - S c)) in P by lia. apply pow_rel_split in P as (q & P1 & P2). cbn in P2.
          destruct P2 as (z & P2 & _). apply (NL Hc q z); auto. rewrite <- Lc. apply Reach; auto. }
        rewrite <- En0 in *. clear En0 n0 next'.
        set (levels' := fun c' => if Nat.eqb c' (S c) then next else levels c').
        assert (L'o : forall c', c' <= c -> levels' c' = levels c').
        { intros c' H. unfold levels'. destruct (Nat.eqb_spec c' (S c)); [lia|auto]. }
        assert (L'n : levels' (S c) = next) by (unfold levels'; rewrite Nat.eqb_refl; auto).
        assert (Lh' : forall c' p, c' <= S c -> In p (levels' c') -> pow_rel (hi e) c' i p).
        { intros c' p H P. destruct (Nat.eq_dec c' (S c)) as [->|N]; [rewrite L'n in P; auto|].
          rewrite L'o in P by lia. apply Lh; auto. lia. }
        assert (Ll' : CA -> forall c' p q, c' < S c -> In p (levels' c') -> lo e p q -> In q (levels' (S c'))).
        { intros Hc c' p q H P Q. rewrite L'o in P by lia. destruct (Nat.eq_dec c' c) as [->|N].
          - rewrite L'n. apply (NL Hc p q); auto. rewrite <- Lc. auto.
          - rewrite L'o by lia. apply (Ll Hc c' p q); auto. lia. }
        assert (Se' : forall p, In p (union seen next) <-> exists c', c' <= S c /\ In p (levels' c')).
        { intros p. rewrite union_in, Se. split.
          - intros [(c' & C & P)|P]; [exists c'; rewrite L'o by lia; auto|exists (S c); rewrite L'n; auto].
          - intros (c' & C & P). destruct (Nat.eq_dec c' (S c)) as [->|N]; [rewrite L'n in P; auto|].
            rewrite L'o in P by lia. left. exists c'. split; auto. lia. }
        set (ends' := if (mn <=? Z.of_nat c + 1)%Z then union ends next else ends).
        assert (En' : forall p, In p ends' <-> exists c', c' <= S c /\ (mn <= Z.of_nat c')%Z /\ In p (levels' c')).
        { intros p. unfold ends'. destruct (Z.leb_spec mn (Z.of_nat c + 1)) as [M|M].
          - rewrite union_in, En. split.
            + intros [(c' & C & M' & P)|P]; [exists c'; rewrite L'o by lia; auto|exists (S c); rewrite L'n; split; auto; split; auto; lia].
            + intros (c' & C & M' & P). destruct (Nat.eq_dec c' (S c)) as [->|N]; [rewrite L'n in P; auto|].
              rewrite L'o in P by lia. left. exists c'. split; auto. lia.
          - rewrite En. split.
            + intros (c' & C & M' & P). exists c'. rewrite L'o by lia. auto.
            + intros (c' & C & M' & P). destruct (Nat.eq_dec c' (S c)) as [->|N]; [lia|].
              rewrite L'o in P by lia. exists c'. split; auto. lia. }
        assert (Hends' : forall j, In j ends' -> rep_rel hi (Rep mn mx e) i j \/ (mn <= 0)%Z /\ j = i).
        { intros j J. apply En' in J as (c' & C & M & J). left. exists c'. split; [exact M|].
          split; [destruct Mx' as [Mx'|Mx']; [auto|right; lia]|apply Lh'; auto]. }
        destruct (negb (existsb (fun x => negb (mem_nat x seen)) next) && (mn <=? Z.of_nat c + 1)%Z)%bool eqn:Br.
        { cbn [good]. split; auto. split; auto. apply andb_true_iff in Br as [B1 B2]. apply negb_true_iff in B1. apply Z.leb_le in B2.
          assert (Sub : forall p, In p next -> In p seen).
          { intros p P. destruct (mem_nat p seen) eqn:E; [apply mem_nat_in; auto|]. exfalso.
            assert (existsb (fun x => negb (mem_nat x seen)) next = true); [|congruence]. apply existsb_exists. exists p. rewrite E. auto. }
          intros Hc j (n & H1 & H2 & P). apply En'.
          assert (Reach' : forall m, m <= S c -> forall j, pow_rel (lo e) m i j -> In j (levels' m)).
          { induction m as [|m IHm]; intros Hm' j' Q.
            - cbn in Q. subst j'. rewrite L'o by lia. rewrite L0. left. auto.
            - rewrite <- Nat.add_1_r in Q. apply pow_rel_split in Q as (q & Q1 & Q2). cbn in Q2. destruct Q2 as (z & Q2 & <-).
              apply (Ll' Hc m q); auto; try lia. apply IHm; auto. lia. }
          destruct (le_lt_dec n (S c)) as [L|L]; [exists n; auto|].
          destruct (RO Hc) as [Rm [R|[[R|R] _]]].
          - (* small minimum *)
            assert (G : forall m j, pow_rel (lo e) (S c + m) i j -> exists c', c' <= S c /\ (mn <= Z.of_nat c')%Z /\ In j (levels' c')).
            { induction m as [|m IHm]; intros j' Q.
              - rewrite Nat.add_0_r in Q. exists (S c). split; auto. split; [lia|]. apply Reach'; auto.
              - replace (S c + S m) with (S c + m + 1) in Q by lia. apply pow_rel_split in Q as (q & Q1 & Q2).
                cbn [pow_rel] in Q2. destruct Q2 as (z & Q2 & <-). destruct (IHm q Q1) as (c' & C & M & J).
                destruct (Nat.eq_dec c' (S c)) as [->|N].
                2:{ exists (S c'). split; [lia|]. split; [lia|]. apply (Ll' Hc c' q); auto. lia. }
                rewrite L'n in J. apply Sub, Se in J as (c'' & C'' & J). rewrite <- L'o in J by auto.
                destruct c'' as [|c''].
                + (* back at the start: nothing has moved *)
                  rewrite L'o, L0 in J by lia. destruct J as [<-|[]].
                  assert (lo e i i) as Li.
                  { replace (S c + m) with (S (c + m)) in Q1 by lia. cbn [pow_rel] in Q1. destruct Q1 as (k1 & K1 & K2).
                    pose proof (hi_le _ _ _ (lo_hi Hc _ _ _ K1) Hi). apply (pow_le (lo e)) in K2; [|apply lo_hi; auto|lia].
                    assert (k1 = i) by lia. subst k1. auto. }
                  assert (J1 : In i (levels' 1)) by (apply (Ll' Hc 0 i); [lia|rewrite L'o, L0 by lia; left; auto|auto]).
                  destruct c as [|c0].
                  * exists 1. split; auto. split; [cbn in *; lia|]. apply (Ll' Hc 0 i); [lia|rewrite L'o, L0 by lia; left; auto|auto].
                  * exists 2. split; [lia|]. split; [lia|]. apply (Ll' Hc 1 i); auto. lia.
                + exists (S (S c'')). split; [lia|]. split; [lia|]. apply (Ll' Hc (S c'') q); auto. lia. }
            apply (G (n - S c)). replace (S c + (n - S c)) with n by lia. auto.
          - (* an exact count *)
            exfalso. destruct H2 as [H2|H2]; [|lia]. unfold inf in *. lia.
          - (* one end at each position *)
            assert (Det : forall m p q, pow_rel (hi e) m i p -> pow_rel (hi e) m i q -> p = q).
            { clear -R. intros m. generalize i. induction m as [|m IHm]; cbn; intros i0 p q P Q; [congruence|].
              destruct P as (k1 & P1 & P2), Q as (k2 & Q1 & Q2). rewrite (R _ _ _ P1 Q1) in P2. eauto. }
            assert (Pc : exists pc, pow_rel (lo e) (S c) i pc /\ pow_rel (lo e) (n - S c) pc j).
            { apply pow_rel_split. replace (S c + (n - S c)) with n by lia. auto. }
            destruct Pc as (pc & P1 & P2). assert (Jc : In pc next) by (rewrite <- L'n; apply Reach'; auto).
            apply Sub, Se in Jc as (c'' & C'' & Jc). apply (Lh c'' pc C'') in Jc.
            assert (Sp : exists pd, pow_rel (lo e) c'' i pd /\ pow_rel (lo e) (S c - c'') pd pc).
            { apply pow_rel_split. replace (c'' + (S c - c'')) with (S c) by lia. auto. }
            destruct Sp as (pd & S1 & S2).
            assert (pd = pc) by (apply (Det c'' pd pc); [apply (pow_rel_mono (lo e)); [apply (lo_hi Hc e)|exact S1]|exact Jc]). subst pd.
            assert (Stay : hi e pc pc).
            { replace (S c - c'') with (S (c - c'')) in S2 by lia. cbn [pow_rel] in S2. destruct S2 as (k1 & K1 & K2).
              assert (Ppc : i <= pc <= len) by (apply (pow_le (lo e) (S c)); [apply (lo_hi Hc)|exact P1|exact Hi]).
              pose proof (hi_le _ _ _ (lo_hi Hc _ _ _ K1) (proj2 Ppc)) as K3.
              apply (pow_le (lo e)) in K2; [|apply (lo_hi Hc)|lia]. assert (k1 = pc) by lia. subst k1. apply (lo_hi Hc). auto. }
            assert (Ej : forall m j, pow_rel (lo e) m pc j -> j = pc).
            { induction m as [|m IHm]; cbn; intros j' Q; [auto|]. destruct Q as (k1 & K1 & K2).
              rewrite (R _ _ _ (lo_hi Hc _ _ _ K1) Stay) in K2. auto. }
            rewrite (Ej _ _ P2). exists (S c). split; auto. split; [lia|]. apply Reach'; auto. }
        replace (Z.of_nat c + 1 + 1)%Z with (Z.of_nat (S c) + 1)%Z by lia.
        apply (IH (S c) next (union seen next) ends' st' levels'); auto; try lia.
    Qed.

    Lemma reach_rep_good st : I st -> (0 <= mn)%Z -> (mx = inf \/ (0 <= mx)%Z) ->
      good (reach_rep input ord call (Rep mn mx e) i st) (fun s st' => I st' /\
        (CA -> forall j, rep_rel lo (Rep mn mx e) i j -> In j s) /\ (forall j, In j s -> rep_rel hi (Rep mn mx e) i j)).
    Proof.
      intros Ist Hmn Hmx. cbn [reach_rep].
      eapply good_weaken; [apply (rep_loop_good (len + 2) 0 [i] [i] _ st (fun _ => [i])); auto|].
      - intros c' p H [<-|[]]. assert (c' = 0) by lia. subst. reflexivity.
      - intros _ c' p q H. lia.
      - intros p. split; [intros H; exists 0; auto|intros (c' & _ & H); auto].
      - intros p. destruct (Z.eqb_spec mn 0) as [->|N].
        + split; [intros H; exists 0; split; [lia|split; [lia|exact H]]|intros (c' & _ & _ & H); exact H].
        + split; [intros []|]. intros (c' & C & M & _). assert (c' = 0) by lia. subst. cbn in M. lia.
      - cbv beta. intros s st' (I' & A & B). split; auto. split; auto. intros j J. destruct (B j J) as [H|[H ->]]; auto.
        exists 0. split; [cbn; lia|]. split; [|reflexivity]. destruct Hmx; auto.
    Qed.
  End Rep.

  (** *** Concatenations and alternations *)
  Definition cat_ok (r : rep) : Prop :=
    match r with Rep mn mx e => (0 <= mn)%Z /\ (mx = inf \/ (0 <= mx)%Z) end.
  Lemma rep_rel_le r i j : rep_rel hi r i j -> i <= len -> i <= j <= len.
  Proof.
    destruct r as [mn mx e]. intros (n & _ & _ & P) Hi. revert i P Hi. induction n as [|n IH]; cbn; intros i P Hi; [subst; lia|].
    destruct P as (k & A & B). apply hi_le in A; auto. apply IH in B; lia.
  Qed.
  Lemma cat_rel_le c : forall i j, cat_rel hi c i j -> i <= len -> i <= j <= len.
  Proof.
    induction c as [|r c IH]; cbn; intros i j H Hi; [subst; lia|]. destruct H as (k & A & B).
    apply rep_rel_le in A; auto. apply IH in B; lia.
  Qed.

  Lemma cat_loop_good i : i <= len -> forall c cur pre st,
    I st -> (forall r, In r c -> cat_ok r) -> (CA -> forall r, In r c -> repok r) ->
    (forall p, In p cur -> cat_rel hi pre i p) ->
    (forall pre' mn mx e post p n q, pre ++ c = pre' ++ Rep mn mx e :: post -> cat_rel hi pre' i p -> pow_rel (hi e) n p q -> okc e q) ->
    good (cat_loop input ord call c cur st) (fun s st' => I st' /\
      (CA -> forall p j, In p cur -> cat_rel lo c p j -> In j s) /\ (forall j, In j s -> exists p, In p cur /\ cat_rel hi c p j)).
  Proof.
    intros Hi. induction c as [|r c IH]; intros cur pre st Ist Ok RO Cur Okc; cbn [cat_loop].
    - cbn [good cat_rel]. split; auto. split; [intros _ p j P <-; auto|intros j J; eauto].
    - destruct r as [mn mx e]. destruct (Ok (Rep mn mx e) (or_introl eq_refl)) as [Hmn Hmx].
      eapply good_bind.
      { apply (range_pos_good (fun p => reach_rep input ord call (Rep mn mx e) p) (rep_rel lo (Rep mn mx e)) (rep_rel hi (Rep mn mx e)) (fun p => In p cur)); auto.
        intros p st' I' P. pose proof (Cur p P) as Cp. pose proof (cat_rel_le _ _ _ Cp Hi). apply reach_rep_good; auto; [lia|intros Hc; apply RO; [auto|left; auto]|].
        intros n q Q. eapply Okc; eauto. }
      cbv beta. intros next st' (I' & NL & NH). destruct next as [|n0 next'] eqn:En0.
      + cbn [good]. split; auto. split; [|intros j []]. intros Hc p j P (k & A & B). apply (NL Hc p k) in A; auto.
      + rewrite <- En0 in *. clear En0 n0 next'. eapply good_weaken.
        * apply (IH next (pre ++ [Rep mn mx e]) st'); auto.
          -- intros r' R. apply Ok. right. auto.
          -- intros Hc r' R. apply RO; auto. right. auto.
          -- intros q Q. destruct (NH q Q) as (p & P & R). apply cat_rel_app. exists p. split; auto. cbn [cat_rel]. exists q. auto.
          -- intros pre' mn' mx' e' post p n q E. rewrite <- app_assoc in E. cbn [app] in E. eapply Okc; eauto.
        * cbv beta. intros s st2 (I2 & A & B). split; auto. split.
          -- intros Hc p j P (k & R & C). apply (A Hc k j); auto. apply (NL Hc p k); auto.
          -- intros j J. destruct (B j J) as (k & K & C). destruct (NH k K) as (p & P & R). exists p. split; auto. cbn [cat_rel]. exists k. auto.
  Qed.

  (** What is called while alternation [a] is explored from [i]. *)
  Definition alt_calls (a : alternation) (i : nat) : Prop :=
    forall pre mn mx e post p n q, In (pre ++ Rep mn mx e :: post) a -> cat_rel hi pre i p -> pow_rel (hi e) n p q -> okc e q.

  Lemma reach_alt_good a i st : i <= len -> I st ->
    (forall c r, In c a -> In r c -> cat_ok r) -> (CA -> forall c r, In c a -> In r c -> repok r) ->
    alt_calls a i ->
    good (reach_alt input ord call a i st) (fun s st' => I st' /\
      (CA -> forall j, alt_rel lo a i j -> In j s) /\ (forall j, In j s -> alt_rel hi a i j)).
  Proof.
    intros Hi Ist Ok RO Okc. unfold reach_alt.
    assert (G : forall b acc st, (forall c, In c b -> In c a) -> I st ->
      good (alt_loop input ord call b i acc st) (fun s st' => I st' /\
        (CA -> forall j, In j acc \/ alt_rel lo b i j -> In j s) /\ (forall j, In j s -> In j acc \/ alt_rel hi b i j))).
    { induction b as [|c b IH]; intros acc st0 Sub I0; cbn [alt_loop].
      - cbn [good]. split; auto. split; [|auto]. intros _ j [H|(c & [] & _)]; auto.
      - eapply good_bind.
        + apply (cat_loop_good i Hi c [i] [] st0); auto.
          * intros r R. eapply Ok; eauto. apply Sub. left. auto.
          * intros Hc r R. eapply RO; eauto. apply Sub. left. auto.
          * intros p [<-|[]]. reflexivity.
          * intros pre mn mx e post p n q E. cbn [app] in E. eapply Okc. rewrite <- E. apply Sub. left. auto.
        + cbv beta. intros s st' (I' & A & B). eapply good_weaken; [apply IH; auto; intros c' C; apply Sub; right; auto|].
          cbv beta. intros s2 st2 (I2 & A2 & B2). split; auto. split.
          * intros Hc j [J|(c' & [<-|C] & R)]; apply A2; auto.
            -- left. apply union_in. auto.
            -- left. apply union_in. right. apply (A Hc i j); [left; auto|auto].
            -- right. exists c'. auto.
          * intros j J. destruct (B2 j J) as [J2|(c' & C & R)]; [|right; exists c'; split; [right|]; auto].
            apply union_in in J2 as [J2|J2]; auto. destruct (B j J2) as (p & [<-|[]] & R). right. exists c. split; [left|]; auto. }
    eapply good_weaken; [apply G; auto|]. cbv beta. intros s st' (I' & A & B). split; auto. split; auto.
    intros j J. destruct (B j J) as [[]|H]; auto.
  Qed.
End Loops.
