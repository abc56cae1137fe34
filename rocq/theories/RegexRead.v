(** Rendering: the text written, the length limit, and reading the text back.
    Its definitions are means of proof and model no code. *)
From Coq Require Import ZArith String Bool List Lia.
From Verif Require Import Syntax Spec Utf8 Regex RegexSpec.
Import ListNotations.
Local Open Scope Z_scope.
Local Open Scope list_scope.

(** ** Languages *)
Lemma leq_refl L : leq L L. Proof. intros w; tauto. Qed.
Lemma leq_sym L M : leq L M -> leq M L. Proof. intros H w. symmetry. apply H. Qed.
Lemma leq_trans L M N : leq L M -> leq M N -> leq L N.
Proof. intros H K w. rewrite (H w). apply K. Qed.
Lemma l_cat_leq L L' M M' : leq L L' -> leq M M' -> leq (l_cat L M) (l_cat L' M').
Proof.
  intros H K w; split; intros (u & v & -> & A & B); exists u, v; (split; [reflexivity|]);
    split; [apply H, A|apply K, B|apply H, A|apply K, B].
Qed.
Lemma l_or_leq L L' M M' : leq L L' -> leq M M' -> leq (l_or L M) (l_or L' M').
Proof. intros H K w; unfold l_or. rewrite (H w), (K w). tauto. Qed.
Lemma l_pow_leq L L' k : leq L L' -> leq (l_pow L k) (l_pow L' k).
Proof. intros H. induction k as [|k IH]; cbn [l_pow]; [apply leq_refl|apply l_cat_leq; assumption]. Qed.
Lemma l_rep_leq L L' a b : leq L L' -> leq (l_rep L a b) (l_rep L' a b).
Proof.
  intros H w; split; intros (k & A & B & C); exists k; split; [exact A| |exact A|];
    (split; [exact B|]); apply (l_pow_leq _ _ k H w); exact C.
Qed.
Lemma l_cat_assoc L M N : leq (l_cat (l_cat L M) N) (l_cat L (l_cat M N)).
Proof.
  intros w; split.
  - intros (u & v & -> & (a & b & -> & A & B) & C). exists a, (b ++ v).
    split; [rewrite app_assoc; reflexivity|]. split; [exact A|]. exists b, v. auto.
  - intros (a & x & -> & A & (b & v & -> & B & C)). exists (a ++ b), v.
    split; [rewrite app_assoc; reflexivity|]. split; [|exact C]. exists a, b. auto.
Qed.
Lemma l_cat_eps_l L : leq (l_cat l_eps L) L.
Proof.
  intros w; split.
  - intros (u & v & -> & E & A). rewrite E. exact A.
  - intros A. exists [], w. repeat split; auto.
Qed.
Lemma l_cat_eps_r L : leq (l_cat L l_eps) L.
Proof.
  intros w; split.
  - intros (u & v & -> & A & E). rewrite E, app_nil_r. exact A.
  - intros A. exists w, []. rewrite app_nil_r. repeat split; auto.
Qed.
Lemma l_or_none L : leq (l_or L l_none) L.
Proof. intros w; unfold l_or, l_none; tauto. Qed.
Lemma l_or_assoc L M N : leq (l_or (l_or L M) N) (l_or L (l_or M N)).
Proof. intros w; unfold l_or; tauto. Qed.

(** ** The text written *)
Fixpoint join (l : list (list Z)) : list Z :=
  match l with [] => [] | [t] => t | t :: l' => t ++ bytes "|" ++ join l' end.
Fixpoint re_text (n : re) (ctx : Z) : list Z :=
  let grp := prec n <? ctx in
  let body :=
    match n with
    | REmpty => if grp then [] else bytes "(?:)"
    | RNever => bytes "[^\x00-\x{10ffff}]"
    | RClass rs => render_class rs
    | RConcat ps => flat_map (fun p => re_text p 2) ps
    | RAlt os => join (map (fun o => re_text o 1) os)
    | RRepeat sub mn mx => re_text sub 4 ++ quantifier mn mx
    end in
  if grp then bytes "(?:" ++ body ++ bytes ")" else body.

(** Induction over nodes. *)
Section ReInd.
  Variable P : re -> Prop.
  Hypothesis Hclass : forall rs, P (RClass rs).
  Hypothesis Hconcat : forall ps, Forall P ps -> P (RConcat ps).
  Hypothesis Halt : forall os, Forall P os -> P (RAlt os).
  Hypothesis Hrep : forall s mn mx, P s -> P (RRepeat s mn mx).
  Hypothesis Hempty : P REmpty.
  Hypothesis Hnever : P RNever.
  Fixpoint re_ind' (n : re) : P n :=
    match n with
    | RClass rs => Hclass rs
    | RConcat ps => Hconcat ps ((fix go l := match l return Forall P l with [] => Forall_nil _ | x :: l' => Forall_cons _ (re_ind' x) (go l') end) ps)
    | RAlt os => Halt os ((fix go l := match l return Forall P l with [] => Forall_nil _ | x :: l' => Forall_cons _ (re_ind' x) (go l') end) os)
    | RRepeat s mn mx => Hrep s mn mx (re_ind' s)
    | REmpty => Hempty
    | RNever => Hnever
    end.
End ReInd.

(** Writing a text within the limit, or not. *)
Definition fits (max n : Z) : Prop := max <= 0 \/ n <= max.
Definition len (t : list Z) : Z := Z.of_nat (length t).
Lemma len_app a b : len (a ++ b) = len a + len b.
Proof. unfold len. rewrite app_length. lia. Qed.
Lemma len_pos a : 0 <= len a. Proof. unfold len. lia. Qed.
Definition effect (max : Z) (st st' : rstate) (t : list Z) : Prop :=
  (r_err st = true -> st' = st) /\
  (r_err st = false -> fits max (r_n st + len t) -> st' = mkR (r_n st + len t) false (r_out st ++ t)) /\
  (r_err st = false -> ~ fits max (r_n st + len t) -> r_err st' = true).
Lemma effect_write max t st : effect max st (write max t st) t.
Proof.
  unfold effect, write. destruct (r_err st) eqn:E.
  { split; [reflexivity|]. split; discriminate. }
  destruct ((0 <? max) && (max <? r_n st + Z.of_nat (length t))) eqn:F.
  - apply andb_true_iff in F as [A B]. apply Z.ltb_lt in A. apply Z.ltb_lt in B.
    unfold fits, len. split; [discriminate|]. split; [intros _ G; lia|reflexivity].
  - split; [discriminate|]. split; [reflexivity|]. intros _ N. exfalso. apply N.
    unfold fits, len. apply andb_false_iff in F as [A|B]; [apply Z.ltb_ge in A; left; exact A|apply Z.ltb_ge in B; right; exact B].
Qed.
Lemma effect_app max a b c t u : effect max a b t -> effect max b c u -> effect max a c (t ++ u).
Proof.
  intros (A1 & A2 & A3) (B1 & B2 & B3).
  assert (FF : fits max (r_n a + len (t ++ u)) -> fits max (r_n a + len t)).
  { unfold fits. rewrite len_app. pose proof (len_pos u). lia. }
  split; [|split].
  - intros E. pose proof (A1 E) as ->. apply B1. exact E.
  - intros E F. rewrite (A2 E (FF F)) in *. cbn [r_err r_n r_out] in *.
    rewrite len_app in *. rewrite B2; [rewrite Z.add_assoc, app_assoc; reflexivity|reflexivity|].
    rewrite <- Z.add_assoc. exact F.
  - intros E F.
    assert (D : fits max (r_n a + len t) \/ ~ fits max (r_n a + len t)) by (unfold fits; lia).
    destruct D as [D|D].
    + rewrite (A2 E D) in *. cbn [r_err r_n r_out] in *. apply B3; [reflexivity|].
      intros K. apply F. rewrite len_app, Z.add_assoc. exact K.
    + pose proof (A3 E D) as E'. rewrite (B1 E'). exact E'.
Qed.
Lemma effect_nil max st : (r_err st = false -> fits max (r_n st)) -> effect max st st [].
Proof.
  intros H. split; [reflexivity|]. split.
  - intros E _. destruct st as [n e o]. cbn in *. rewrite E. unfold len. cbn. rewrite Z.add_0_r, app_nil_r. reflexivity.
  - intros E N. exfalso. apply N. unfold len. cbn. rewrite Z.add_0_r. apply H, E.
Qed.
(** States met: within the limit unless in error. *)
Definition okst (max : Z) (st : rstate) : Prop := r_err st = false -> fits max (r_n st).
Lemma effect_ok max a b t : effect max a b t -> okst max a -> okst max b.
Proof.
  intros (A1 & A2 & A3) H E.
  destruct (r_err a) eqn:Ea; [rewrite (A1 eq_refl) in E; congruence|].
  assert (D : fits max (r_n a + len t) \/ ~ fits max (r_n a + len t)) by (unfold fits; lia).
  destruct D as [D|D]; [rewrite (A2 eq_refl D); exact D|rewrite (A3 eq_refl D) in E; discriminate].
Qed.

Lemma join_cons p ps : join (map (fun o => re_text o 1) (p :: ps)) = re_text p 1 ++ flat_map (fun o => bytes "|" ++ re_text o 1) ps.
Proof.
  revert p. induction ps as [|q ps IH]; intros p; [cbn [map join flat_map]; rewrite app_nil_r; reflexivity|].
  change (join (map (fun o => re_text o 1) (p :: q :: ps))) with (re_text p 1 ++ bytes "|" ++ join (map (fun o => re_text o 1) (q :: ps))).
  rewrite IH. cbn [flat_map]. rewrite <- app_assoc. reflexivity.
Qed.
Lemma render_effect max : forall n ctx st, okst max st -> effect max st (render max n ctx st) (re_text n ctx).
Proof.
  assert (W : forall (n : re) (ctx : Z) st (body : rstate -> rstate) (t : list Z) (grp : bool), okst max st ->
    (forall st, okst max st -> effect max st (body st) t) ->
    effect max st
      (if r_err st then st else let st1 := if grp then write max (bytes "(?:") st else st in
        let st2 := body st1 in if grp then write max (bytes ")") st2 else st2)
      (if grp then bytes "(?:" ++ t ++ bytes ")" else t)).
  { intros n ctx st body t grp O B. destruct (r_err st) eqn:E.
    { split; [reflexivity|]. split; intros F; rewrite F in E; discriminate. }
    destruct grp; cbn zeta.
    - eapply effect_app; [apply effect_write|]. eapply effect_app; [|apply effect_write].
      apply B. eapply effect_ok; [apply effect_write|exact O].
    - apply B, O. }
  induction n as [rs|ps IH|os IH|s mn mx IH| |] using re_ind'; intros ctx st O.
  - apply (W (RClass rs) ctx st (write max (render_class rs)) (render_class rs) (prec (RClass rs) <? ctx) O).
    intros; apply effect_write.
  - apply (W (RConcat ps) ctx st (fun st => fold_left (fun st p => render max p 2 st) ps st) (flat_map (fun p => re_text p 2) ps) (prec (RConcat ps) <? ctx) O).
    clear st O. induction IH as [|p ps Hp _ IHps]; intros st O; cbn [fold_left flat_map].
    + apply effect_nil, O.
    + eapply effect_app; [apply Hp, O|]. apply IHps. eapply effect_ok; [apply Hp, O|exact O].
  - set (go := fix go (first : bool) (l : list re) (st : rstate) : rstate :=
             match l with
             | [] => st
             | o :: l' => go false l' (render max o 1 (if first then st else write max (bytes "|") st))
             end).
    apply (W (RAlt os) ctx st (go true os) (join (map (fun o => re_text o 1) os)) (prec (RAlt os) <? ctx) O).
    clear st O.
    assert (G : forall l, Forall (fun n => forall ctx st, okst max st -> effect max st (render max n ctx st) (re_text n ctx)) l ->
      forall st, okst max st -> effect max st (go false l st) (flat_map (fun o => bytes "|" ++ re_text o 1) l)).
    { clear IH. intros l IH. induction IH as [|p ps Hp _ IHps]; intros st O.
      - apply effect_nil, O.
      - change (go false (p :: ps) st) with (go false ps (render max p 1 (write max (bytes "|") st))).
        cbn [flat_map].
        assert (O1 : okst max (write max (bytes "|") st)) by (eapply effect_ok; [apply effect_write|exact O]).
        eapply effect_app; [eapply effect_app; [apply effect_write|apply Hp, O1]|].
        apply IHps. eapply effect_ok; [apply Hp, O1|exact O1]. }
    destruct IH as [|p ps Hp Hps]; intros st O; [apply effect_nil, O|].
    change (go true (p :: ps) st) with (go false ps (render max p 1 st)).
    rewrite join_cons. eapply effect_app; [apply Hp, O|]. apply (G ps Hps).
    eapply effect_ok; [apply Hp, O|exact O].
  - apply (W (RRepeat s mn mx) ctx st (fun st => write max (quantifier mn mx) (render max s 4 st)) (re_text s 4 ++ quantifier mn mx) (prec (RRepeat s mn mx) <? ctx) O).
    intros st1 O1. eapply effect_app; [apply IH, O1|apply effect_write].
  - assert (H := W REmpty ctx st (fun st => if prec REmpty <? ctx then st else write max (bytes "(?:)") st) (if prec REmpty <? ctx then [] else bytes "(?:)") (prec REmpty <? ctx) O).
    apply H. intros st1 O1. destruct (prec REmpty <? ctx); [apply effect_nil, O1|apply effect_write].
  - apply (W RNever ctx st (write max (bytes "[^\x00-\x{10ffff}]")) (bytes "[^\x00-\x{10ffff}]") (prec RNever <? ctx) O).
    intros; apply effect_write.
Qed.

(** ** Reading *)
Section Reading.
  Variable lim : Z.
  Lemma p_alt_S f s : p_alt lim (S f) s =
        match p_cat lim f s with
        | None => None
        | Some (x, s1) =>
            match eats 124 s1 with
            | None => Some (x, s1)
            | Some s2 => match p_alt lim f s2 with Some (y, s3) => Some (XAlt x y, s3) | None => None end
            end
        end.
  Proof. reflexivity. Qed.
  Lemma p_cat_S f s : p_cat lim (S f) s =
        match s with
        | [] => Some (XEmpty, s)
        | b :: _ =>
            if (b =? 124) || (b =? 41) then Some (XEmpty, s)
            else match p_atom lim f s with
                 | None => None
                 | Some (x, s1) =>
                     match read_quant lim x s1 with
                     | None => None
                     | Some (y, s2) => match p_cat lim f s2 with Some (z, s3) => Some (XCat y z, s3) | None => None end
                     end
                 end
        end.
  Proof. reflexivity. Qed.
  Lemma p_atom_S f s : p_atom lim (S f) s =
        match s with
        | [] => None
        | b :: s1 =>
            if b =? 40 then
              match eats 63 s1 with
              | None => None
              | Some s2 =>
                  match eats 58 s2 with
                  | None => None
                  | Some s3 =>
                      match p_alt lim f s3 with
                      | None => None
                      | Some (x, s4) => match eats 41 s4 with Some s5 => Some (x, s5) | None => None end
                      end
                  end
              end
            else if b =? 91 then read_class s1
            else if b =? 92 then
              match s1 with
              | c :: s2 => if is_punct c then Some (XChars false [(c, c)], s2) else None
              | [] => None
              end
            else if is_meta b then None
            else match decode_ok s with Some (r, n) => Some (XChars false [(r, r)], skipn n s) | None => None end
        end.
  Proof. reflexivity. Qed.
  Lemma p_mono f : forall f', (f <= f')%nat ->
    (forall s r, p_alt lim f s = Some r -> p_alt lim f' s = Some r) /\
    (forall s r, p_cat lim f s = Some r -> p_cat lim f' s = Some r) /\
    (forall s r, p_atom lim f s = Some r -> p_atom lim f' s = Some r).
  Proof.
    induction f as [|f IH]; intros f' L; [split; [|split]; intros s r E; discriminate E|].
    destruct f' as [|f']; [lia|]. destruct (IH f' ltac:(lia)) as (IA & IC & IT). clear IH.
    split; [|split]; intros s r; rewrite ?p_alt_S, ?p_cat_S, ?p_atom_S.
    - destruct (p_cat lim f s) as [[x s1]|] eqn:E; [|discriminate]. rewrite (IC _ _ E).
      destruct (eats 124 s1) as [s2|]; [|auto].
      destruct (p_alt lim f s2) as [[y s3]|] eqn:E2; [|discriminate]. rewrite (IA _ _ E2). auto.
    - destruct s as [|b s]; [auto|]. destruct ((b =? 124) || (b =? 41)); [auto|].
      destruct (p_atom lim f (b :: s)) as [[x s1]|] eqn:E; [|discriminate]. rewrite (IT _ _ E).
      destruct (read_quant lim x s1) as [[y s2]|]; [|auto].
      destruct (p_cat lim f s2) as [[z s3]|] eqn:E2; [|discriminate]. rewrite (IC _ _ E2). auto.
    - destruct s as [|b s]; [auto|]. destruct (b =? 40); [|auto].
      destruct (eats 63 s) as [s2|]; [|auto]. destruct (eats 58 s2) as [s3|]; [|auto].
      destruct (p_alt lim f s3) as [[x s4]|] eqn:E; [|discriminate]. rewrite (IA _ _ E). auto.
  Qed.

  Definition RA s x r := exists f, p_alt lim f s = Some (x, r).
  Definition RC s x r := exists f, p_cat lim f s = Some (x, r).
  Definition RT s x r := exists f, p_atom lim f s = Some (x, r).

  Lemma reads_unique t x y : reads lim t x -> reads lim t y -> x = y.
  Proof.
    intros [f A] [f' B].
    pose proof (proj1 (p_mono f (Nat.max f f') ltac:(lia)) _ _ A) as A'.
    pose proof (proj1 (p_mono f' (Nat.max f f') ltac:(lia)) _ _ B) as B'. congruence.
  Qed.

  Lemma ra_one s x r : RC s x r -> eats 124 r = None -> RA s x r.
  Proof. intros [f H] E. exists (S f). rewrite p_alt_S. rewrite H, E. reflexivity. Qed.
  Lemma ra_more s x s' y r : RC s x (124 :: s') -> RA s' y r -> RA s (XAlt x y) r.
  Proof.
    intros [f H] [f' H']. exists (S (Nat.max f f')). rewrite p_alt_S.
    rewrite (proj1 (proj2 (p_mono f (Nat.max f f') ltac:(lia))) _ _ H).
    cbn [eats]. rewrite Z.eqb_refl.
    rewrite (proj1 (p_mono f' (Nat.max f f') ltac:(lia)) _ _ H'). reflexivity.
  Qed.
  (** Where a sequence ends. *)
  Definition ends (s : list Z) : Prop := match s with [] => True | b :: _ => b = 124 \/ b = 41 end.
  Lemma rc_nil s : ends s -> RC s XEmpty s.
  Proof.
    intros E. exists 1%nat. rewrite p_cat_S. destruct s as [|b s]; [reflexivity|].
    destruct E as [-> | ->]; reflexivity.
  Qed.
  Lemma rt_head s x r : RT s x r -> match s with [] => False | b :: _ => (b =? 124) || (b =? 41) = false /\ quant_head s = false end.
  Proof.
    intros [f H]. destruct f as [|f]; [discriminate|]. rewrite p_atom_S in H. destruct s as [|b s]; [discriminate|].
    assert (K : is_meta b = false \/ b = 40 \/ b = 91 \/ b = 92).
    { destruct (Z.eqb_spec b 40); [auto|]. destruct (Z.eqb_spec b 91); [auto|]. destruct (Z.eqb_spec b 92); [auto|].
      destruct (is_meta b); [discriminate|auto]. }
    unfold quant_head.
    destruct (Z.eqb_spec b 124) as [->|]; [exfalso; destruct K as [K|K]; [discriminate K|lia]|].
    destruct (Z.eqb_spec b 41) as [->|]; [exfalso; destruct K as [K|K]; [discriminate K|lia]|].
    destruct (Z.eqb_spec b 63) as [->|]; [exfalso; destruct K as [K|K]; [discriminate K|lia]|].
    destruct (Z.eqb_spec b 42) as [->|]; [exfalso; destruct K as [K|K]; [discriminate K|lia]|].
    destruct (Z.eqb_spec b 43) as [->|]; [exfalso; destruct K as [K|K]; [discriminate K|lia]|].
    destruct (Z.eqb_spec b 123) as [->|]; [exfalso; destruct K as [K|K]; [discriminate K|lia]|].
    split; reflexivity.
  Qed.
  Lemma rc_cons s x s1 y s2 z s3 : RT s x s1 -> read_quant lim x s1 = Some (y, s2) -> RC s2 z s3 -> RC s (XCat y z) s3.
  Proof.
    intros T Q [f' C]. pose proof (rt_head _ _ _ T) as Hd. destruct T as [f T].
    exists (S (Nat.max f f')). rewrite p_cat_S. destruct s as [|b s]; [contradiction|]. destruct Hd as [-> _].
    rewrite (proj2 (proj2 (p_mono f (Nat.max f f') ltac:(lia))) _ _ T), Q.
    rewrite (proj1 (proj2 (p_mono f' (Nat.max f f') ltac:(lia))) _ _ C). reflexivity.
  Qed.
  Lemma rc_no_quant s y r : RC s y r -> quant_head s = false.
  Proof.
    intros [f H]. destruct f as [|f]; [discriminate|]. rewrite p_cat_S in H. destruct s as [|b s]; [reflexivity|].
    destruct ((b =? 124) || (b =? 41)) eqn:E.
    - apply orb_true_iff in E as [E|E]; apply Z.eqb_eq in E; subst b; reflexivity.
    - destruct (p_atom lim f (b :: s)) as [[x s1]|] eqn:F; [|discriminate].
      exact (proj2 (rt_head (b :: s) x s1 (ex_intro _ f F))).
  Qed.
  Lemma rt_group s x r : RA s x (41 :: r) -> RT (bytes "(?:" ++ s) x r.
  Proof. intros [f H]. exists (S f). change (bytes "(?:" ++ s) with (40 :: 63 :: 58 :: s). rewrite p_atom_S. cbn [eats Z.eqb Pos.eqb]. rewrite H. reflexivity. Qed.
  Lemma quant_none x s : quant_head s = false -> read_quant lim x s = Some (x, s).
  Proof. intros H. unfold read_quant. destruct s as [|b s]; [reflexivity|]. rewrite H. reflexivity. Qed.
  Lemma rc_atom s x s1 z s3 : RT s x s1 -> RC s1 z s3 -> RC s (XCat x z) s3.
  Proof. intros T C. eapply rc_cons; [exact T|apply quant_none, (rc_no_quant _ _ _ C)|exact C]. Qed.

  (** Numbers. *)
  Lemma digit_byte_of radix d : 2 <= radix <= 16 -> 0 <= d < radix -> digit_of radix (digit_byte d) = Some d.
  Proof.
    intros R D. unfold digit_of, digit_byte. destruct (Z.ltb_spec d 10).
    - replace ((48 <=? 48 + d) && (48 + d <=? 57)) with true by (symmetry; apply andb_true_iff; rewrite !Z.leb_le; lia).
      replace (48 + d - 48) with d by lia. rewrite (proj2 (Z.ltb_lt d radix)) by lia. reflexivity.
    - replace ((48 <=? 87 + d) && (87 + d <=? 57)) with false by (symmetry; apply andb_false_iff; rewrite !Z.leb_gt; lia).
      replace ((65 <=? 87 + d) && (87 + d <=? 70)) with false by (symmetry; apply andb_false_iff; rewrite !Z.leb_gt; lia).
      replace ((97 <=? 87 + d) && (87 + d <=? 102)) with true by (symmetry; apply andb_true_iff; rewrite !Z.leb_le; lia).
      replace (87 + d - 87) with d by lia. rewrite (proj2 (Z.ltb_lt d radix)) by lia. reflexivity.
  Qed.
  Lemma num_loop_read radix : 2 <= radix <= 16 -> forall fuel v acc, 0 <= v < radix ^ Z.of_nat fuel -> (0 < fuel)%nat ->
    exists k d, 0 <= d < radix /\ (exists t, num_loop fuel radix v acc = digit_byte d :: t) /\
    forall a rest, read_digits radix a (num_loop fuel radix v acc ++ rest) = read_digits radix (a * k + v) (acc ++ rest).
  Proof.
    intros R. induction fuel as [|f IH]; intros v acc V F; [lia|]. cbn [num_loop].
    pose proof (Z.mod_pos_bound v radix ltac:(lia)) as M.
    destruct (Z.ltb_spec v radix) as [L|L].
    - exists radix, (v mod radix). split; [exact M|]. split; [eexists; reflexivity|]. intros a rest. cbn [app read_digits].
      rewrite digit_byte_of by (try lia; exact M). rewrite (Z.mod_small v radix) by lia. reflexivity.
    - rewrite Nat2Z.inj_succ, Z.pow_succ_r in V by lia.
      assert (D : 0 <= v / radix < radix ^ Z.of_nat f).
      { split; [apply Z.div_pos; lia|]. apply Z.div_lt_upper_bound; lia. }
      assert (F' : (0 < f)%nat).
      { destruct f; [|lia]. change (Z.of_nat 0) with 0 in *. rewrite Z.pow_0_r in V. lia. }
      destruct (IH (v / radix) (digit_byte (v mod radix) :: acc) D F') as (k & d & Dd & Hd & K).
      exists (k * radix), d. split; [exact Dd|]. split; [exact Hd|]. intros a rest. rewrite K. cbn [app read_digits].
      rewrite digit_byte_of by (try lia; exact M). f_equal. pose proof (Z.div_mod v radix ltac:(lia)). lia.
  Qed.
  Definition not_digit radix (s : list Z) : Prop := match s with [] => True | b :: _ => digit_of radix b = None end.
  Lemma num_text_read radix v rest : 2 <= radix <= 16 -> 0 <= v -> not_digit radix rest ->
    read_number radix (num_text radix v ++ rest) = Some (v, rest).
  Proof.
    intros R V N. unfold num_text.
    destruct (num_loop_read radix R (S (Z.to_nat (Z.log2 v))) v []) as (k & d & Dd & (t & Ht) & K); [|lia|].
    { split; [exact V|]. rewrite Nat2Z.inj_succ, Z2Nat.id by apply Z.log2_nonneg.
      destruct (Z.eq_dec v 0) as [->|]; [cbn; lia|].
      pose proof (Z.log2_spec v ltac:(lia)) as [_ L].
      eapply Z.lt_le_trans; [exact L|]. apply Z.pow_le_mono_l. lia. }
    specialize (K 0 rest). unfold read_number. rewrite Ht in *. cbn [app] in *.
    rewrite digit_byte_of by lia. rewrite K. cbn [Z.mul Z.add]. f_equal.
    destruct rest as [|b rest]; [reflexivity|]. cbn [read_digits]. cbn in N. rewrite N. reflexivity.
  Qed.

  (** Quantifiers. *)
  Lemma num_text_head radix v : 2 <= radix <= 16 -> 0 <= v -> exists d t, 0 <= d < radix /\ num_text radix v = digit_byte d :: t.
  Proof.
    intros R V. unfold num_text.
    destruct (num_loop_read radix R (S (Z.to_nat (Z.log2 v))) v []) as (k & d & Dd & (t & Ht) & K); [|lia|].
    { split; [exact V|]. rewrite Nat2Z.inj_succ, Z2Nat.id by apply Z.log2_nonneg.
      destruct (Z.eq_dec v 0) as [->|]; [cbn; lia|].
      pose proof (Z.log2_spec v ltac:(lia)) as [_ L].
      eapply Z.lt_le_trans; [exact L|]. apply Z.pow_le_mono_l. lia. }
    exists d, t. auto.
  Qed.
  Definition ok_bounds (mn mx : Z) : Prop :=
    0 <= mn <= lim /\ (mx = inf \/ mn <= mx <= lim).
  Lemma brace_quant x lo hi s rest : read_bounds s = Some (lo, hi, rest) -> good_bounds lim lo hi = true -> quant_head rest = false ->
    read_quant lim x (123 :: s) = Some (XRep x lo hi, rest).
  Proof. intros R G Q. unfold read_quant. cbn -[read_bounds]. rewrite R, G, Q. reflexivity. Qed.
  Lemma bounds_open n rest : 0 <= n -> read_bounds (num_text 10 n ++ bytes ",}" ++ rest) = Some (n, None, rest).
  Proof. intros N. unfold read_bounds. rewrite num_text_read by (first [lia|reflexivity]). reflexivity. Qed.
  Lemma bounds_one n rest : 0 <= n -> read_bounds (num_text 10 n ++ bytes "}" ++ rest) = Some (n, Some n, rest).
  Proof. intros N. unfold read_bounds. rewrite num_text_read by (first [lia|reflexivity]). reflexivity. Qed.
  Lemma bounds_two n m rest : 0 <= n -> 0 <= m -> read_bounds (num_text 10 n ++ bytes "," ++ num_text 10 m ++ bytes "}" ++ rest) = Some (n, Some m, rest).
  Proof.
    intros N M. unfold read_bounds. rewrite num_text_read by (first [lia|reflexivity]).
    destruct (num_text_head 10 m ltac:(lia) M) as (d & t & D & Ht).
    change (eats 125 (bytes "," ++ num_text 10 m ++ bytes "}" ++ rest)) with (@None (list Z)).
    change (eats 44 (bytes "," ++ num_text 10 m ++ bytes "}" ++ rest)) with (Some (num_text 10 m ++ bytes "}" ++ rest)).
    cbn match. replace (eats 125 (num_text 10 m ++ bytes "}" ++ rest)) with (@None (list Z)).
    { rewrite num_text_read by (first [lia|reflexivity]). reflexivity. }
    rewrite Ht. cbn [app eats]. unfold digit_byte. destruct (Z.ltb_spec d 10); [|lia].
    destruct (Z.eqb_spec (48 + d) 125); [lia|reflexivity].
  Qed.
  Lemma quant_read x mn mx rest : ok_bounds mn mx -> quant_head rest = false ->
    read_quant lim x (quantifier mn mx ++ rest) = Some (XRep x mn (bound mx), rest).
  Proof.
    intros ((B0 & B1) & B2) Q. unfold quantifier, bound.
    destruct ((mn =? 0) && (mx =? 1)) eqn:C1.
    { apply andb_true_iff in C1 as [C1 C2]. apply Z.eqb_eq in C1. apply Z.eqb_eq in C2. subst. cbn. rewrite Q. reflexivity. }
    destruct ((mn =? 0) && (mx =? inf)) eqn:C2.
    { apply andb_true_iff in C2 as [C2 C3]. apply Z.eqb_eq in C2. apply Z.eqb_eq in C3. subst. cbn. rewrite Q. reflexivity. }
    destruct ((mn =? 1) && (mx =? inf)) eqn:C3.
    { apply andb_true_iff in C3 as [C3 C4]. apply Z.eqb_eq in C3. apply Z.eqb_eq in C4. subst. cbn. rewrite Q. reflexivity. }
    destruct (Z.eqb_spec mx inf) as [Ei|Ni].
    { rewrite <- !app_assoc. apply (brace_quant x mn None (num_text 10 mn ++ bytes ",}" ++ rest) rest); [apply bounds_open, B0| |exact Q].
      unfold good_bounds. rewrite (proj2 (Z.leb_le _ _) B1). reflexivity. }
    destruct B2 as [B2|B2]; [contradiction|].
    assert (G : good_bounds lim mn (Some mx) = true).
    { unfold good_bounds. rewrite !andb_true_iff, !Z.leb_le. lia. }
    destruct (Z.eqb_spec mn mx) as [E|N].
    { subst mx. rewrite <- !app_assoc. apply (brace_quant x mn (Some mn) (num_text 10 mn ++ bytes "}" ++ rest) rest); [apply bounds_one, B0|exact G|exact Q]. }
    destruct (Z.eqb_spec mn 0) as [E|N'].
    { subst mn. rewrite <- !app_assoc.
      apply (brace_quant x 0 (Some mx) (num_text 10 0 ++ bytes "," ++ num_text 10 mx ++ bytes "}" ++ rest) rest); [apply bounds_two; lia|exact G|exact Q]. }
    rewrite <- !app_assoc.
    apply (brace_quant x mn (Some mx) (num_text 10 mn ++ bytes "," ++ num_text 10 mx ++ bytes "}" ++ rest) rest); [apply bounds_two; lia|exact G|exact Q].
  Qed.

  (** Classes. *)
  Definition char_bound (c : Z) : Prop := 0 <= c <= 0x10FFFF.
  Lemma member_read c rest : char_bound c -> read_member (class_escape c ++ rest) = Some (c, rest).
  Proof.
    intros B. unfold class_escape.
    destruct (((97 <=? c) && (c <=? 122)) || ((65 <=? c) && (c <=? 90)) || ((48 <=? c) && (c <=? 57))) eqn:E.
    - assert (R : 48 <= c <= 122) by (rewrite !orb_true_iff, !andb_true_iff, !Z.leb_le in E; lia).
      assert (A : is_alnum c = true).
      { unfold is_alnum. rewrite !orb_true_iff, !andb_true_iff, !Z.leb_le in *. tauto. }
      rewrite string_of_rune_utf8 by (unfold scalar; lia). unfold utf8. rewrite (proj2 (Z.ltb_lt c 128)) by lia.
      cbn [app read_member]. rewrite A. reflexivity.
    - rewrite <- !app_assoc.
      change (bytes "\x{" ++ num_text 16 c ++ bytes "}" ++ rest) with (92 :: 120 :: 123 :: (num_text 16 c ++ bytes "}" ++ rest)).
      unfold read_member. change (is_alnum 92) with false. cbn match. unfold eats at 1 2 3. cbn [Z.eqb Pos.eqb].
      rewrite num_text_read by (first [lia|apply B|reflexivity]).
      change (eats 125 (bytes "}" ++ rest)) with (Some rest). cbn match.
      rewrite (proj2 (Z.leb_le c 0x10FFFF)) by apply B. reflexivity.
  Qed.
  (** What follows a member that is not the first of a range. *)
  Lemma member_head c rest : char_bound c -> exists b t, class_escape c ++ rest = b :: t /\ b <> 45 /\ b <> 93 /\ b <> 94.
  Proof.
    intros B. unfold class_escape.
    destruct (((97 <=? c) && (c <=? 122)) || ((65 <=? c) && (c <=? 90)) || ((48 <=? c) && (c <=? 57))) eqn:E.
    - assert (R : 48 <= c <= 122 /\ ~ 91 <= c <= 96) by (rewrite !orb_true_iff, !andb_true_iff, !Z.leb_le in E; lia).
      rewrite string_of_rune_utf8 by (unfold scalar; lia). unfold utf8. rewrite (proj2 (Z.ltb_lt c 128)) by lia.
      exists c, rest. split; [reflexivity|lia].
    - exists 92, (120 :: 123 :: (num_text 16 c ++ bytes "}" ++ rest)). rewrite <- !app_assoc. split; [reflexivity|lia].
  Qed.
  Definition item_text (r : Z * Z) : list Z :=
    if fst r =? snd r then class_escape (fst r) else class_escape (fst r) ++ bytes "-" ++ class_escape (snd r).
  Definition range_bound (r : Z * Z) : Prop := char_bound (fst r) /\ char_bound (snd r) /\ fst r <= snd r.
  Lemma item_read r rest : range_bound r -> eats 45 rest = None -> read_item (item_text r ++ rest) = Some (r, rest).
  Proof.
    destruct r as [lo hi]. intros (B1 & B2 & L) N. unfold item_text, read_item. cbn [fst snd] in *.
    destruct (Z.eqb_spec lo hi) as [->|D].
    - rewrite member_read by exact B1. rewrite N. reflexivity.
    - rewrite <- !app_assoc, member_read by exact B1.
      change (eats 45 (bytes "-" ++ class_escape hi ++ rest)) with (Some (class_escape hi ++ rest)). cbn match.
      rewrite member_read by exact B2. rewrite (proj2 (Z.leb_le _ _) L). reflexivity.
  Qed.
  Lemma item_head r rest : range_bound r -> exists b t, item_text r ++ rest = b :: t /\ b <> 45 /\ b <> 93 /\ b <> 94.
  Proof.
    intros (B1 & _). unfold item_text. destruct (fst r =? snd r).
    - apply member_head, B1.
    - rewrite <- app_assoc. apply member_head, B1.
  Qed.
  Lemma items_read rest : forall rs f, rs <> [] -> Forall range_bound rs -> (length rs <= f)%nat ->
    read_items f (flat_map item_text rs ++ 93 :: rest) = Some (rs, rest).
  Proof.
    induction rs as [|r rs IH]; intros f N F L; [congruence|]. clear N.
    destruct f as [|f]; [cbn in L; lia|]. inversion F as [|? ? Fr Frs]; subst. cbn [flat_map read_items].
    rewrite <- app_assoc. destruct rs as [|r' rs].
    - cbn [flat_map app]. rewrite item_read; [reflexivity|exact Fr|reflexivity].
    - assert (Fr' : range_bound r') by (inversion Frs; assumption).
      destruct (item_head r' (flat_map item_text rs ++ 93 :: rest) Fr') as (b & t & E & N1 & N2 & _).
      assert (E' : flat_map item_text (r' :: rs) ++ 93 :: rest = b :: t) by (cbn [flat_map]; rewrite <- app_assoc; exact E).
      rewrite item_read; [|exact Fr|rewrite E'; cbn [eats]; destruct (Z.eqb_spec b 45); [contradiction|reflexivity]].
      rewrite E' at 1. cbn [eats]. destruct (Z.eqb_spec b 93); [contradiction|].
      rewrite IH; [reflexivity|discriminate|exact Frs|cbn in *; lia].
  Qed.
  Lemma class_read rs rest : rs <> [] -> Forall range_bound rs ->
    RT (bytes "[" ++ flat_map item_text rs ++ bytes "]" ++ rest) (XChars false rs) rest.
  Proof.
    intros N F. exists 1%nat.
    change (p_atom lim 1 (bytes "[" ++ flat_map item_text rs ++ bytes "]" ++ rest)) with (read_class (flat_map item_text rs ++ 93 :: rest)).
    unfold read_class.
    destruct rs as [|r rs]; [congruence|]. inversion F as [|? ? Fr Frs]; subst.
    destruct (item_head r (flat_map item_text rs ++ 93 :: rest) Fr) as (b & t & E & _ & _ & N3).
    assert (E' : flat_map item_text (r :: rs) ++ 93 :: rest = b :: t) by (cbn [flat_map]; rewrite <- app_assoc; exact E).
    replace (eats 94 (flat_map item_text (r :: rs) ++ 93 :: rest)) with (@None (list Z)).
    2:{ rewrite E'. cbn [eats]. destruct (Z.eqb_spec b 94); [contradiction|reflexivity]. }
    rewrite items_read; [reflexivity|discriminate|exact F|].
    rewrite app_length.
    assert (L : forall l, Forall range_bound l -> (length l <= length (flat_map item_text l))%nat).
    { clear. induction l as [|x l IH]; intros F; [cbn; lia|]. inversion F as [|? ? Fx Fl]; subst. cbn [flat_map].
      rewrite app_length. specialize (IH Fl). destruct (item_head x [] Fx) as (b & t & E & _). rewrite app_nil_r in E. rewrite E. cbn. lia. }
    specialize (L _ F). cbn [length] in *. lia.
  Qed.
  Lemma never_read rest : exists x, RT (bytes "[^\x00-\x{10ffff}]" ++ rest) x rest /\ leq (rx_lang x) l_none.
  Proof.
    exists (XChars true [(0, 0x10FFFF)]). split; [exists 1%nat; vm_compute; reflexivity|].
    intros w. cbn [rx_lang]. unfold l_char, l_none. split; [|tauto].
    intros (c & _ & S & N). apply N. exists 0, 0x10FFFF. split; [left; reflexivity|]. unfold scalar in S. lia.
  Qed.
  Lemma char_read c rest : scalar c -> RT (regescape c ++ rest) (XChars false [(c, c)]) rest.
  Proof.
    intros S. unfold regescape. rewrite string_of_rune_utf8 by exact S. exists 1%nat.
    destruct (Z.ltb_spec c 128) as [L|L].
    - assert (U : utf8 c = [c]) by (unfold utf8; rewrite (proj2 (Z.ltb_lt c 0x80)) by exact L; reflexivity).
      rewrite U. unfold quote_meta. cbn [flat_map]. rewrite app_nil_r.
      destruct (is_special c) eqn:Sp.
      + unfold is_special in Sp. cbn [existsb] in Sp. rewrite orb_false_r in Sp.
        assert (K : In c [92; 46; 43; 42; 63; 40; 41; 124; 91; 93; 123; 125; 94; 36]).
        { repeat (apply orb_true_iff in Sp as [Sp|Sp]; [apply Z.eqb_eq in Sp; subst c; cbn; tauto|]).
          apply Z.eqb_eq in Sp; subst c; cbn; tauto. }
        cbn in K. repeat (destruct K as [<-|K]; [reflexivity|]). contradiction.
      + assert (M : is_meta c = false) by exact Sp.
        cbn [app]. rewrite p_atom_S.
        destruct (Z.eqb_spec c 40) as [->|]; [discriminate|]. destruct (Z.eqb_spec c 91) as [->|]; [discriminate|].
        destruct (Z.eqb_spec c 92) as [->|]; [discriminate|]. rewrite M.
        pose proof (decode_utf8 c rest S) as D. rewrite U in D. cbn [app length] in D.
        unfold decode_ok. rewrite D. destruct (Z.eqb_spec c RuneError) as [->|]; [unfold RuneError in L; lia|]. reflexivity.
    - assert (HB : Forall (fun b => 128 <= b) (utf8 c)).
      { unfold utf8. rewrite (proj2 (Z.ltb_ge c 0x80)) by exact L.
        pose proof (Z.mod_pos_bound c 64 ltac:(lia)). pose proof (Z.mod_pos_bound (c / 64) 64 ltac:(lia)).
        pose proof (Z.mod_pos_bound (c / 4096) 64 ltac:(lia)).
        pose proof (Z.div_pos c 64 ltac:(lia) ltac:(lia)). pose proof (Z.div_pos c 4096 ltac:(lia) ltac:(lia)).
        pose proof (Z.div_pos c 262144 ltac:(lia) ltac:(lia)).
        destruct (c <? 0x800); [|destruct (c <? 0x10000)]; repeat (apply Forall_cons; [lia|]); apply Forall_nil. }
      assert (Q : quote_meta (utf8 c) = utf8 c).
      { clear - HB. induction HB as [|b l Hb _ IH]; [reflexivity|]. unfold quote_meta in *. cbn [flat_map]. rewrite IH.
        replace (is_special b) with false; [reflexivity|]. symmetry. unfold is_special. cbn [existsb].
        repeat (match goal with |- context [b =? ?k] => rewrite (proj2 (Z.eqb_neq b k)) by lia end). reflexivity. }
      rewrite Q. pose proof (decode_utf8 c rest S) as D.
      destruct (utf8 c) as [|b t] eqn:U; [exfalso; exact (utf8_nonnil c U)|].
      assert (Hb : 128 <= b) by (inversion HB; assumption).
      cbn [app] in *. rewrite p_atom_S.
      destruct (Z.eqb_spec b 40); [lia|]. destruct (Z.eqb_spec b 91); [lia|]. destruct (Z.eqb_spec b 92); [lia|].
      replace (is_meta b) with false.
      2:{ symmetry. unfold is_meta. cbn.
          repeat (match goal with |- context [b =? ?k] => rewrite (proj2 (Z.eqb_neq b k)) by lia end). reflexivity. }
      unfold decode_ok. rewrite D.
      assert (T : t <> []).
      { intros ->. clear - U L. unfold utf8 in U. rewrite (proj2 (Z.ltb_ge c 0x80)) in U by exact L.
        destruct (c <? 0x800); [discriminate|]. destruct (c <? 0x10000); discriminate. }
      destruct t as [|t0 t]; [congruence|]. cbn [length Nat.leb]. rewrite andb_false_r.
      change (b :: (t0 :: t) ++ rest) with ((b :: t0 :: t) ++ rest).
      rewrite (skipn_app (Datatypes.S (Datatypes.S (length t)))). cbn [length]. rewrite Nat.sub_diag, skipn_O.
      rewrite (skipn_all2 (b :: t0 :: t)) by (cbn; lia). reflexivity.
  Qed.

  (** Nodes whose text means what they mean. *)
  Inductive wf_re : re -> Prop :=
  | wfr_class rs : rs <> [] -> Forall range_bound rs -> Forall (fun r => fst r = snd r -> scalar (fst r)) rs -> wf_re (RClass rs)
  | wfr_concat ps : Forall wf_re ps -> wf_re (RConcat ps)
  | wfr_alt os : os <> [] -> Forall wf_re os -> wf_re (RAlt os)
  | wfr_repeat s mn mx : ok_bounds mn mx -> wf_re s -> wf_re (RRepeat s mn mx)
  | wfr_empty : wf_re REmpty
  | wfr_never : wf_re RNever.

  Lemma render_class_read rs rest : rs <> [] -> Forall range_bound rs -> Forall (fun r => fst r = snd r -> scalar (fst r)) rs ->
    RT (render_class rs ++ rest) (XChars false rs) rest.
  Proof.
    intros N B F. unfold render_class. fold item_text. 
    change (fun r : Z * Z => if fst r =? snd r then class_escape (fst r) else class_escape (fst r) ++ bytes "-" ++ class_escape (snd r)) with item_text.
    destruct rs as [|[lo hi] rs]; [congruence|]. destruct rs as [|r rs].
    - destruct (Z.eqb_spec lo hi) as [->|D].
      + apply char_read. inversion F as [|? ? Fx _]; subst. apply Fx. reflexivity.
      + rewrite <- !app_assoc. apply class_read; assumption.
    - rewrite <- !app_assoc. apply class_read; assumption.
  Qed.

  Lemma text_group n ctx : 1 <= prec n -> prec n < ctx -> (forall rs, n <> RClass rs) -> n <> REmpty -> n <> RNever ->
    re_text n ctx = bytes "(?:" ++ re_text n 1 ++ bytes ")".
  Proof.
    intros P L N1 N2 N3. destruct n; try congruence; cbn [re_text prec] in *;
      rewrite (proj2 (Z.ltb_lt _ ctx) L), (proj2 (Z.ltb_ge _ 1) P); reflexivity.
  Qed.

  Lemma lang_cons_p p ps : re_lang (RConcat (p :: ps)) = l_cat (re_lang p) (re_lang (RConcat ps)).
  Proof. reflexivity. Qed.
  Lemma lang_cons_o o os : re_lang (RAlt (o :: os)) = l_or (re_lang o) (re_lang (RAlt os)).
  Proof. reflexivity. Qed.

  Definition reads4 n := forall rest, exists x, RT (re_text n 4 ++ rest) x rest /\ leq (rx_lang x) (re_lang n).
  Definition reads2 n := forall rest y r, RC rest y r ->
    exists x, RC (re_text n 2 ++ rest) x r /\ leq (rx_lang x) (l_cat (re_lang n) (rx_lang y)).
  Definition reads1a n := forall rest, ends rest -> eats 124 rest = None ->
    exists x, RA (re_text n 1 ++ rest) x rest /\ leq (rx_lang x) (re_lang n).
  Definition reads1b n := forall s y r, RA s y r ->
    exists x, RA (re_text n 1 ++ 124 :: s) x r /\ leq (rx_lang x) (l_or (re_lang n) (rx_lang y)).

  (** From a sequence to an alternation, and to an atom. *)
  Lemma seq_alt n : re_text n 1 = re_text n 2 -> reads2 n -> reads1a n /\ reads1b n.
  Proof.
    intros E H. unfold reads1a, reads1b. rewrite E. split.
    - intros rest En Nb. destruct (H rest XEmpty rest (rc_nil _ En)) as (x & X & L).
      exists x. split; [apply ra_one; assumption|].
      eapply leq_trans; [exact L|]. apply l_cat_eps_r.
    - intros s y r A. destruct (H (124 :: s) XEmpty (124 :: s) (rc_nil (124 :: s) (or_introl eq_refl))) as (x & X & L).
      exists (XAlt x y). split; [eapply ra_more; eassumption|]. cbn [rx_lang].
      apply l_or_leq; [|apply leq_refl]. eapply leq_trans; [exact L|]. apply l_cat_eps_r.
  Qed.
  Lemma group_atom n ctx rest : 1 <= prec n -> prec n < ctx -> (forall rs, n <> RClass rs) -> n <> REmpty -> n <> RNever ->
    reads1a n -> exists x, RT (re_text n ctx ++ rest) x rest /\ leq (rx_lang x) (re_lang n).
  Proof.
    intros P L N1 N2 N3 H. rewrite (text_group n ctx P L N1 N2 N3).
    destruct (H (41 :: rest) (or_intror eq_refl) eq_refl) as (x & X & E). exists x. split; [|exact E].
    rewrite <- !app_assoc. apply rt_group. exact X.
  Qed.
  Lemma atom_seq n : re_text n 2 = re_text n 4 -> reads4 n -> reads2 n.
  Proof.
    intros E H rest y r C. destruct (H rest) as (x & X & L). exists (XCat x y). rewrite E.
    split; [eapply rc_atom; eassumption|]. cbn [rx_lang]. apply l_cat_leq; [exact L|apply leq_refl].
  Qed.

  Theorem text_reads n : wf_re n -> reads4 n /\ reads2 n /\ reads1a n /\ reads1b n.
  Proof.
    induction n as [rs|ps IH|os IH|s mn mx IH| |] using re_ind'; intros W.
    - inversion W as [? N B F| | | | |]; subst.
      assert (R4 : reads4 (RClass rs)).
      { intros rest. exists (XChars false rs). split; [apply render_class_read; assumption|apply leq_refl]. }
      pose proof (atom_seq (RClass rs) eq_refl R4) as R2.
      split; [exact R4|]. split; [exact R2|]. apply seq_alt; [reflexivity|exact R2].
    - inversion W as [|? F| | | |]; subst.
      assert (R2 : reads2 (RConcat ps)).
      { change (re_text (RConcat ps) 2) with (flat_map (fun p => re_text p 2) ps). unfold reads2.
        intros rest y r. change (re_text (RConcat ps) 2) with (flat_map (fun p => re_text p 2) ps).
        clear W. revert F. induction IH as [|p ps Hp _ IHps]; intros F C.
        - exists y. split; [exact C|]. apply leq_sym, l_cat_eps_l.
        - inversion F as [|? ? Fp Fps]; subst. destruct (IHps Fps C) as (x & X & L).
          destruct (proj1 (proj2 (Hp Fp)) _ _ _ X) as (z & Z & K). exists z.
          cbn [flat_map]. rewrite <- app_assoc. split; [exact Z|].
          eapply leq_trans; [exact K|]. rewrite lang_cons_p.
          eapply leq_trans; [apply l_cat_leq; [apply leq_refl|exact L]|]. apply leq_sym, l_cat_assoc. }
      destruct (seq_alt (RConcat ps) eq_refl R2) as [R1a R1b].
      split; [|auto]. intros rest. apply group_atom; try discriminate; cbn; try lia. exact R1a.
    - inversion W as [| |? N F| | |]; subst.
      assert (R1a : reads1a (RAlt os)).
      { intros rest En Nb. change (re_text (RAlt os) 1) with (join (map (fun o => re_text o 1) os)).
        clear W. revert N F. induction IH as [|p ps Hp _ IHps]; intros N F; [congruence|].
        inversion F as [|? ? Fp Fps]; subst. destruct (Hp Fp) as (_ & _ & Pa & Pb). destruct ps as [|q ps].
        - destruct (Pa rest En Nb) as (x & X & L). exists x. split; [exact X|].
          eapply leq_trans; [exact L|]. rewrite lang_cons_o. apply leq_sym, l_or_none.
        - destruct (IHps ltac:(discriminate) Fps) as (x & X & L). destruct (Pb _ _ _ X) as (z & Z & K).
          exists z. split.
          + change (join (map (fun o => re_text o 1) (p :: q :: ps))) with (re_text p 1 ++ bytes "|" ++ join (map (fun o => re_text o 1) (q :: ps))).
            rewrite <- !app_assoc. exact Z.
          + eapply leq_trans; [exact K|]. rewrite (lang_cons_o p). apply l_or_leq; [apply leq_refl|exact L]. }
      assert (R1b : reads1b (RAlt os)).
      { intros s y r A. change (re_text (RAlt os) 1) with (join (map (fun o => re_text o 1) os)).
        clear W R1a. revert N F. induction IH as [|p ps Hp _ IHps]; intros N F; [congruence|].
        inversion F as [|? ? Fp Fps]; subst. destruct (Hp Fp) as (_ & _ & Pa & Pb). destruct ps as [|q ps].
        - destruct (Pb s y r A) as (x & X & L). exists x. split; [exact X|].
          eapply leq_trans; [exact L|]. rewrite lang_cons_o. apply l_or_leq; [apply leq_sym, l_or_none|apply leq_refl].
        - destruct (IHps ltac:(discriminate) Fps) as (x & X & L). destruct (Pb _ _ _ X) as (z & Z & K).
          exists z. split.
          + change (join (map (fun o => re_text o 1) (p :: q :: ps))) with (re_text p 1 ++ bytes "|" ++ join (map (fun o => re_text o 1) (q :: ps))).
            rewrite <- !app_assoc. exact Z.
          + eapply leq_trans; [exact K|]. rewrite (lang_cons_o p).
            eapply leq_trans; [apply l_or_leq; [apply leq_refl|exact L]|]. apply leq_sym, l_or_assoc. }
      split; [intros rest; apply group_atom; try discriminate; cbn; try lia; exact R1a|].
      split; [|auto].
      intros rest y r C.
      destruct (group_atom (RAlt os) 2 rest) as (x & X & L); try discriminate; cbn; try lia; [exact R1a|].
      exists (XCat x y). split; [eapply rc_atom; eassumption|]. apply l_cat_leq; [exact L|apply leq_refl].
    - inversion W as [| | |? ? ? B Ws| |]; subst. destruct (IH Ws) as (P4 & _).
      assert (R2 : reads2 (RRepeat s mn mx)).
      { intros rest y r C. change (re_text (RRepeat s mn mx) 2) with (re_text s 4 ++ quantifier mn mx).
        destruct (P4 (quantifier mn mx ++ rest)) as (x & X & L). exists (XCat (XRep x mn (bound mx)) y).
        rewrite <- app_assoc. split.
        - eapply rc_cons; [exact X|apply quant_read; [exact B|apply (rc_no_quant _ _ _ C)]|exact C].
        - cbn [rx_lang re_lang]. apply l_cat_leq; [apply l_rep_leq, L|apply leq_refl]. }
      destruct (seq_alt (RRepeat s mn mx) eq_refl R2) as [R1a R1b].
      split; [|auto]. intros rest. apply group_atom; try discriminate; cbn; try lia. exact R1a.
    - assert (R4 : reads4 REmpty).
      { intros rest. exists XEmpty. split; [|apply leq_refl].
        apply (rt_group (41 :: rest)). apply ra_one; [apply rc_nil; right; reflexivity|reflexivity]. }
      pose proof (atom_seq REmpty eq_refl R4) as R2.
      split; [exact R4|]. split; [exact R2|]. apply seq_alt; [reflexivity|exact R2].
    - assert (R4 : reads4 RNever).
      { intros rest. destruct (never_read rest) as (x & X & L). exists x. split; [exact X|exact L]. }
      pose proof (atom_seq RNever eq_refl R4) as R2.
      split; [exact R4|]. split; [exact R2|]. apply seq_alt; [reflexivity|exact R2].
  Qed.

  Theorem render_reads n : wf_re n -> exists x, reads lim (re_text n 1) x /\ leq (rx_lang x) (re_lang n).
  Proof.
    intros W. destruct (text_reads n W) as (_ & _ & Pa & _).
    destruct (Pa [] Logic.I eq_refl) as (x & X & L). rewrite app_nil_r in X. exists x. split; [exact X|exact L].
  Qed.
End Reading.

(** The whole text. *)
Theorem render_text max n : let st := render max n 1 (mkR 0 false []) in
  (r_err st = false <-> fits max (len (re_text n 1))) /\ (r_err st = false -> r_out st = re_text n 1).
Proof.
  cbn zeta. destruct (render_effect max n 1 (mkR 0 false [])) as (_ & A & B).
  { intros _. unfold fits. cbn. lia. }
  cbn [r_err r_n r_out app] in A, B. rewrite Z.add_0_l in *.
  assert (D : fits max (len (re_text n 1)) \/ ~ fits max (len (re_text n 1))) by (unfold fits; lia).
  destruct D as [D|D].
  - rewrite (A eq_refl D). cbn. tauto.
  - rewrite (B eq_refl D). split; [split; [discriminate|tauto]|discriminate].
Qed.
