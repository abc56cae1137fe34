(** A repetition of the recognizer that takes a cubic number of steps: *(1*"a" / "b") on
    a...ab...b.  Its definitions, but for [g_runs], are means of proof and model no code. *)
From Coq Require Import ZArith Arith String Ascii Bool Relations Permutation List Lia.
From Verif Require Import Syntax Spec Utf8 Term Printer Deps LeftRec Slots Cost Recog RecogProof RecogCost.
Import ListNotations.
Local Open Scope string_scope.
Local Open Scope list_scope.
Local Open Scope nat_scope.

Definition Ea : elem := EChar false [97%Z].
Definition Eb : elem := EChar false [98%Z].
(** 1*"a" / "b" *)
Definition runs : alternation := [[Rep 1 inf Ea]; [Rep 1 1 Eb]].
Definition G : elem := EGroup runs.
(** s = *(1*"a" / "b") *)
Definition g_runs : grammar := [mkRule "s" [[Rep 0 inf G]]].

Section Runs.
  Variable m : nat.
  Notation input := (repeat 97%Z m ++ repeat 98%Z m).
  Notation len := (length input).
  Variable ord : nat -> list nat -> list nat.
  Hypothesis O : forall t l x, In x (ord t l) <-> In x l.
  Variable lr : string -> option (list string).

  Lemma len_input : len = 2 * m.
  Proof. rewrite app_length, !repeat_length. lia. Qed.
  Lemma skip_a p : p < m -> skipn p input = 97%Z :: (repeat 97%Z (m - S p) ++ repeat 98%Z m).
  Proof.
    intros L. rewrite skipn_app, repeat_length. replace (p - m) with 0 by lia. cbn [skipn].
    replace m with (p + S (m - S p)) at 1 by lia. rewrite repeat_app, skipn_app, repeat_length, Nat.sub_diag.
    rewrite skipn_all2 by (rewrite repeat_length; lia). reflexivity.
  Qed.
  Lemma skip_b p : m <= p < 2 * m -> skipn p input = 98%Z :: repeat 98%Z (2 * m - S p).
  Proof.
    intros L. rewrite skipn_app, repeat_length. rewrite skipn_all2 by (rewrite repeat_length; lia). cbn [app].
    replace m with ((p - m) + S (2 * m - S p)) at 2 by lia. rewrite repeat_app, skipn_app, repeat_length, Nat.sub_diag.
    rewrite skipn_all2 by (rewrite repeat_length; lia). reflexivity.
  Qed.
  Lemma match_a p : match_term Ea input p = if p <? m then Some (S p) else None.
  Proof.
    cbn [Ea match_term match_char]. rewrite len_input. destruct (Nat.leb_spec (2 * m) p) as [H|H].
    - destruct (Nat.ltb_spec p m); [lia|reflexivity].
    - destruct (Nat.ltb_spec p m) as [L|L].
      + rewrite skip_a by exact L. set (r := repeat _ _ ++ _). assert (D : decode_rune (97%Z :: r) = (97%Z, 1)) by reflexivity. rewrite D.
        cbn [Z.eqb Nat.eqb andb]. change (sensequal 97 97 false) with true. cbv iota. cbn [match_char]. rewrite Nat.add_1_r. reflexivity.
      + rewrite skip_b by lia. set (r := repeat _ _). assert (D : decode_rune (98%Z :: r) = (98%Z, 1)) by reflexivity. rewrite D. reflexivity.
  Qed.
  Lemma match_b p : match_term Eb input p = if (m <=? p) && (p <? 2 * m) then Some (S p) else None.
  Proof.
    cbn [Eb match_term match_char]. rewrite len_input. destruct (Nat.leb_spec (2 * m) p) as [H|H].
    - destruct (Nat.ltb_spec p (2 * m)); [lia|]. rewrite andb_false_r. reflexivity.
    - destruct (Nat.ltb_spec p (2 * m)); [|lia]. rewrite andb_true_r. destruct (Nat.leb_spec m p) as [L|L].
      + rewrite skip_b by lia. set (r := repeat _ _). assert (D : decode_rune (98%Z :: r) = (98%Z, 1)) by reflexivity. rewrite D.
        cbn [Z.eqb Nat.eqb andb]. change (sensequal 98 98 false) with true. cbv iota. cbn [match_char]. rewrite Nat.add_1_r. reflexivity.
      + rewrite skip_a by exact L. set (r := repeat _ _ ++ _). assert (D : decode_rune (97%Z :: r) = (97%Z, 1)) by reflexivity. rewrite D. reflexivity.
  Qed.

  (** The ends of the group from a position. *)
  Definition R (p q : nat) : Prop := (p < m /\ p < q <= m) \/ (m <= p < 2 * m /\ q = S p).
  Definition letter (e : elem) : Prop := e = Ea \/ e = Eb.
  Definition mt (e : elem) (p q : nat) : Prop := match_term e input p = Some q.
  Lemma mt_a p q : mt Ea p q <-> p < m /\ q = S p.
  Proof. unfold mt. rewrite match_a. destruct (Nat.ltb_spec p m); split; try discriminate; try lia; [intros E; injection E as <-; auto|intros [_ ->]; auto]. Qed.
  Lemma mt_b p q : mt Eb p q <-> m <= p < 2 * m /\ q = S p.
  Proof.
    unfold mt. rewrite match_b. destruct (Nat.leb_spec m p); cbn [andb]; [|split; [discriminate|lia]].
    destruct (Nat.ltb_spec p (2 * m)); split; try discriminate; try lia; [intros E; injection E as <-; auto|intros [_ ->]; auto].
  Qed.
  Lemma pow_a n : forall p q, pow_rel (mt Ea) n p q <-> q = p + n /\ (n = 0 \/ q <= m).
  Proof.
    induction n as [|n IH]; intros p q; cbn [pow_rel].
    - split; [intros <-; lia|intros [-> _]; lia].
    - split.
      + intros (k & A & B). apply mt_a in A as [A ->]. apply IH in B. lia.
      + intros [E L]. exists (S p). split; [apply mt_a; lia|]. apply IH. lia.
  Qed.
  Lemma runs_R p q : alt_rel mt runs p q <-> R p q.
  Proof.
    unfold alt_rel, runs, R. split.
    - intros (c & [<-|[<-|[]]] & H); cbn [cat_rel] in H; destruct H as (k & (n & N1 & N2 & P) & <-).
      + apply pow_a in P. left. lia.
      + destruct N2 as [N2|N2]; [discriminate|]. assert (n = 1) by lia. subst n. cbn [pow_rel] in P. destruct P as (k' & A & <-). apply mt_b in A. right. lia.
    - intros [[A B]|[A ->]].
      + exists [Rep 1 inf Ea]. split; [left; reflexivity|]. cbn [cat_rel]. exists q. split; [|reflexivity]. exists (q - p). split; [lia|]. split; [left; reflexivity|]. apply pow_a. lia.
      + exists [Rep 1 1 Eb]. split; [right; left; reflexivity|]. cbn [cat_rel]. exists (S p). split; [|reflexivity]. exists 1. split; [lia|]. split; [right; lia|].
        cbn [pow_rel]. exists (S p). split; [apply mt_b; lia|reflexivity].
  Qed.

  (** What the memo may hold while the letters are looked at. *)
  Definition J1 (st : rstate) : Prop := forall e p, letter e -> p <= len ->
    r_prog st (ekey e p) = false /\ forall v, r_memo st (ekey e p) = Some v -> forall q, In q v <-> mt e p q.
  Definition J (st : rstate) : Prop := J1 st /\ forall p, p <= len ->
    r_prog st (ekey G p) = false /\ forall v, r_memo st (ekey G p) = Some v -> forall q, In q v <-> R p q.
  Definition sameG (a b : rstate) : Prop := forall p, r_prog b (ekey G p) = r_prog a (ekey G p) /\ r_memo b (ekey G p) = r_memo a (ekey G p).

  Lemma key_neq e e' p p' : elem_string e <> elem_string e' -> ekey e p <> ekey e' p'.
  Proof. intros N E. apply rkey_inj in E as [E _]. contradiction. Qed.
  Lemma letter_G e p p' : letter e -> ekey e p <> ekey G p'.
  Proof. intros [->| ->]; apply key_neq; vm_compute; discriminate. Qed.
  Lemma letter_inj e e' p p' : letter e -> letter e' -> ekey e p = ekey e' p' -> e = e' /\ p = p'.
  Proof.
    intros L L' E. apply rkey_inj in E as [E ->]. split; [|reflexivity]. destruct L as [->| ->], L' as [->| ->]; auto; vm_compute in E; discriminate.
  Qed.

  Lemma letter_call f e p st : letter e -> p <= len -> J1 st ->
    exists s st', reach_elem g_runs input lr ord (S f) e p st = ROk s st' /\ J1 st' /\ sameG st st' /\ forall q, In q s <-> mt e p q.
  Proof.
    intros L Hp J0. destruct (J0 e p L Hp) as [Pr Me].
    assert (E : reach_elem g_runs input lr ord (S f) e p st = reach_plain g_runs input ord (reach_elem g_runs input lr ord f) e p st) by (destruct L as [->| ->]; reflexivity).
    rewrite E. unfold reach_plain. destruct (r_memo st (ekey e p)) as [v|] eqn:M.
    - exists v, st. split; auto. split; auto. split; [intros p'; auto|]. apply Me. reflexivity.
    - rewrite Pr. set (st1 := set_prog (ekey e p) true st).
      assert (Cm : compute_elem g_runs input ord (reach_elem g_runs input lr ord f) e p st1 =
        ROk (match match_term e input p with Some j => [j] | None => [] end) st1) by (destruct L as [->| ->]; reflexivity).
      rewrite Cm. cbn [rbind]. set (out := match match_term e input p with Some j => [j] | None => [] end).
      assert (Ho : forall q, In q out <-> mt e p q).
      { intros q. unfold out, mt. destruct (match_term e input p) as [j|]; cbn [In]; split; [intros [->|[]]; auto|intros X; injection X as ->; auto|intros []|discriminate]. }
      eexists _, _. split; [reflexivity|]. split; [|split; [|exact Ho]].
      + intros e' p' L' Hp'. cbn [r_prog r_memo set_memo set_prog]. rewrite !upd_case. destruct (String.eqb_spec (ekey e' p') (ekey e p)) as [Ek|Nk].
        * apply letter_inj in Ek as [-> ->]; auto. split; [reflexivity|]. intros v X. injection X as <-. exact Ho.
        * unfold st1. cbn [r_prog r_memo set_prog]. rewrite upd_other by exact Nk. apply J0; auto.
      + intros p'. cbn [r_prog r_memo set_memo set_prog]. unfold st1. cbn [r_prog r_memo set_prog].
        assert (Nk : ekey G p' <> ekey e p) by (intros X; apply (letter_G e p p' L); auto).
        rewrite !upd_other by exact Nk. split; reflexivity.
  Qed.

  Lemma G_call f p st : p <= len -> J st ->
    exists s st', reach_elem g_runs input lr ord (S (S f)) G p st = ROk s st' /\ J st' /\ forall q, In q s <-> R p q.
  Proof.
    intros Hp [J0 JG]. destruct (JG p Hp) as [Pr Me].
    change (reach_elem g_runs input lr ord (S (S f)) G p st) with (reach_plain g_runs input ord (reach_elem g_runs input lr ord (S f)) G p st).
    unfold reach_plain. destruct (r_memo st (ekey G p)) as [v|] eqn:M.
    - exists v, st. split; auto. split; [split; auto|]. apply Me. reflexivity.
    - rewrite Pr. set (st1 := set_prog (ekey G p) true st).
      set (Iv := fun s => J1 s /\ sameG st1 s).
      assert (I1 : Iv st1).
      { split; [|intros p'; auto]. intros e p' L Hp'. unfold st1. cbn [r_prog r_memo set_prog]. rewrite upd_other by (apply letter_G; exact L). apply J0; auto. }
      change (compute_elem g_runs input ord (reach_elem g_runs input lr ord (S f)) G p st1) with (reach_alt input ord (reach_elem g_runs input lr ord (S f)) runs p st1).
      pose proof (reach_alt_good input ord O (reach_elem g_runs input lr ord (S f)) Iv (fun e p => letter e /\ p <= len) False False True mt mt) as X.
      assert (It : forall s, Iv s -> Iv (tick s)) by (intros s [A B]; split; [exact A|exact B]).
      assert (Cg : forall e p0 s, Iv s -> letter e /\ p0 <= len -> good False False (reach_elem g_runs input lr ord (S f) e p0 s)
        (fun s0 st' => Iv st' /\ (True -> forall j, mt e p0 j -> In j s0) /\ (forall j, In j s0 -> mt e p0 j))).
      { intros e p0 s [A B] [Le Lp]. destruct (letter_call f e p0 s Le Lp A) as (s0 & st' & -> & A' & B' & Q). cbn [good].
        split; [split; auto|]. 2:{ split; [intros _ j; apply Q|intros j; apply Q]. }
        intros p'. destruct (B p') as [B1 B2], (B' p') as [B3 B4]. split; congruence. }
      assert (Hle : forall e p0 q, mt e p0 q -> p0 <= len -> p0 <= q <= len) by (intros e p0 q Mt Lp; eapply match_term_bounds; eauto).
      specialize (X It Cg Hle (fun _ _ _ _ Q => Q) runs p st1 Hp I1).
      assert (Y : good False False (reach_alt input ord (reach_elem g_runs input lr ord (S f)) runs p st1)
        (fun s st' => Iv st' /\ (True -> forall j, alt_rel mt runs p j -> In j s) /\ (forall j, In j s -> alt_rel mt runs p j))).
      { apply X; clear X.
        - intros c r Ic Ir. destruct Ic as [<-|[<-|[]]]; destruct Ir as [<-|[]]; cbn [cat_ok]; (split; [discriminate|]); [left; reflexivity|right; discriminate].
        - intros _ c r Ic Ir. destruct Ic as [<-|[<-|[]]]; destruct Ir as [<-|[]]; cbn [repok]; (split; [discriminate|]); left; discriminate.
        - intros pre mn mx e post p0 n q Ic Cr Pw. split.
          + destruct Ic as [Ic|[Ic|[]]]; destruct pre as [|x pre]; cbn [app] in Ic; injection Ic as ?; try (subst; auto; fail).
            * subst. left. reflexivity.
            * destruct pre; discriminate.
            * subst. right. reflexivity.
            * destruct pre; discriminate.
          + assert (A1 : p <= p0 <= len) by (eapply cat_rel_le; eauto). assert (A2 : p0 <= q <= len); [|lia].
            clear -Pw A1 Hle. destruct A1 as [_ A1]. revert p0 A1 Pw. induction n as [|n IH]; cbn [pow_rel]; intros p0 A1 Pw; [subst; lia|].
            destruct Pw as (k & A & B). apply Hle in A; [|exact A1]. apply IH in B; lia. }
      destruct (reach_alt input ord (reach_elem g_runs input lr ord (S f)) runs p st1) as [s st2| |]; cbn [good] in Y; try contradiction.
      destruct Y as ([A B] & C & D). cbn [rbind]. eexists _, _. split; [reflexivity|].
      assert (Hs : forall q, In q s <-> R p q) by (intros q; rewrite <- runs_R; split; [apply D|apply C; exact Logic.I]).
      split; [|exact Hs]. split.
      + intros e p' L Hp'. cbn [r_prog r_memo set_memo set_prog]. rewrite !upd_other by (apply letter_G; exact L). apply A; auto.
      + intros p' Hp'. cbn [r_prog r_memo set_memo set_prog]. rewrite !upd_case. destruct (String.eqb_spec (ekey G p') (ekey G p)) as [Ek|Nk].
        * apply rkey_inj in Ek as [_ ->]. split; [reflexivity|]. intros v Xv. injection Xv as <-. exact Hs.
        * destruct (B p') as [B1 B2]. rewrite B1, B2. unfold st1. cbn [r_prog r_memo set_prog]. rewrite upd_other by exact Nk. apply JG. exact Hp'.
  Qed.

  (** *** The cost of the rounds *)
  Variable f : nat.
  Notation call := (reach_elem g_runs input lr ord (S (S f))).
  Variable callc : elem -> nat -> rstate -> nat.
  Variable h : nat.
  Hypothesis Hm : m = 4 * h.
  Lemma card_R p s : p < 2 * h -> (forall q, In q s <-> R p q) -> 2 * h <= card s.
  Proof.
    intros L H. unfold card. rewrite <- (seq_length (2 * h) (2 * h + 1)). apply NoDup_incl_length; [apply seq_NoDup|].
    intros q Q. apply in_seq in Q. apply nodup_In, H. left. lia.
  Qed.
  Lemma each_cost : forall ps acc st, J st -> (forall p, In p ps -> p <= len) ->
    2 * h * length (filter (fun p => p <? 2 * h) ps) <= each_c (fun p => call G p) (fun p => callc G p) ps acc st.
  Proof.
    induction ps as [|p ps IH]; intros acc st Jst Hp; cbn [filter each_c length]; [lia|].
    destruct (G_call f p st (Hp p (or_introl eq_refl)) Jst) as (s & st' & E & J' & Q). rewrite E.
    specialize (IH (union acc s) st' J' (fun q Iq => Hp q (or_intror Iq))). set (ec := each_c _ _ ps (union acc s) st') in *.
    destruct (Nat.ltb_spec p (2 * h)) as [L|L]; cbn [length].
    - pose proof (card_R p s L Q). replace (2 * h * S (length (filter (fun p => p <? 2 * h) ps))) with (2 * h + 2 * h * length (filter (fun p => p <? 2 * h) ps)) by ring. lia.
    - lia.
  Qed.
  Lemma G_range s st : J st -> (forall p, In p s -> p <= len) ->
    exists next st', range_pos ord (fun p => call G p) s st = ROk next st' /\ J st' /\ forall q, In q next <-> exists p, In p s /\ R p q.
  Proof.
    intros Jst Hs.
    pose proof (range_pos_good ord O J False False True (fun st J => J) (fun p => call G p) R R (fun p => p <= len)) as X.
    assert (Y : good False False (range_pos ord (fun p => call G p) s st) (fun s0 st' => J st' /\ between True R R s s0)).
    { apply X; auto. intros p st0 J0 Hp. destruct (G_call f p st0 Hp J0) as (s0 & st' & -> & J' & Q). cbn [good]. split; auto. split; [intros _ j; apply Q|intros j; apply Q]. }
    destruct (range_pos ord (fun p => call G p) s st) as [next st'| |]; cbn [good] in Y; try contradiction. destruct Y as (J' & A & B).
    exists next, st'. split; auto. split; auto. intros q. split; [apply B|intros (p & Ip & Rp); apply (A Logic.I p); auto].
  Qed.

  (** The positions after [c] rounds. *)
  Definition level (c : nat) (q : nat) : Prop := match c with 0 => q = 0 | S c' => c <= q <= m + c' end.
  Lemma rounds : forall k c lv seen st, J st -> c <= h -> h <= k + c ->
    (forall q, In q lv <-> level c q) -> (forall q, In q seen <-> q = 0 \/ (0 < c /\ q < m + c)) ->
    (h - Nat.max 1 c) * (2 * h * h) <= rep_c ord call callc k (Z.of_nat c + 1) 0 inf G lv seen st.
  Proof.
    induction k as [|k IH]; intros c lv seen st Jst Hc Hk Hl Hs; cbn [rep_c].
    - replace (h - Nat.max 1 c) with 0 by lia. lia.
    - change (negb (inf =? inf)%Z && (inf <? Z.of_nat c + 1)%Z)%bool with false. cbv iota.
      destruct (Nat.eq_dec c h) as [->|Nc]; [replace (h - Nat.max 1 h) with 0 by lia; lia|].
      assert (Fl : forall p, In p lv -> p <= len).
      { intros p P. rewrite len_input. apply Hl in P. destruct c; cbn [level] in P; lia. }
      destruct (G_range lv st Jst Fl) as (next & st' & E & J' & Hn). rewrite E.
      assert (Hn' : forall q, In q next <-> level (S c) q).
      { intros q. rewrite Hn. unfold R. cbn [level]. split.
        - intros (p & P & Rp). apply Hl in P. destruct c; cbn [level] in P; lia.
        - intros Q. destruct c as [|c].
          + exists 0. split; [apply Hl; reflexivity|]. left. lia.
          + destruct (Nat.le_gt_cases q m) as [Lq|Lq].
            * exists (q - 1). split; [apply Hl; cbn [level]; lia|]. left. lia.
            * exists (q - 1). split; [apply Hl; cbn [level]; lia|]. right. lia. }
      destruct next as [|n0 nx] eqn:En.
      { exfalso. assert (X : In (S c) []) by (apply Hn'; cbn [level]; lia). destruct X. }
      rewrite <- En in *. clear En n0 nx.
      assert (Grew : existsb (fun x => negb (mem_nat x seen)) next = true).
      { apply existsb_exists. exists (m + c). split; [apply Hn'; cbn [level]; lia|]. apply negb_true_iff.
        destruct (mem_nat (m + c) seen) eqn:Em; auto. apply mem_nat_in, Hs in Em. lia. }
      rewrite Grew. cbn [negb andb].
      assert (Hseen : forall q, In q (union seen next) <-> q = 0 \/ (0 < S c /\ q < m + S c)).
      { intros q. rewrite union_in, Hs, Hn'. cbn [level]. lia. }
      specialize (IH (S c) next (union seen next) st' J' ltac:(lia) ltac:(lia) Hn' Hseen).
      replace (Z.of_nat c + 1 + 1)%Z with (Z.of_nat (S c) + 1)%Z by lia.
      set (rc := rep_c ord call callc k (Z.of_nat (S c) + 1) 0 inf G next (union seen next) st') in *.
      (* the first round looks at one position only *)
      assert (Rg : c = 0 \/ 2 * h * h <= range_c ord (fun p => call G p) (fun p => callc G p) lv st).
      { destruct c as [|c]; [left; auto|right]. unfold range_c.
        assert (Fo : forall p, In p (ord (r_tick st) lv) -> p <= len) by (intros p P; apply Fl; apply O in P; exact P).
        pose proof (each_cost (ord (r_tick st) lv) [] (tick st) Jst Fo) as X.
        assert (Ln : h <= length (filter (fun p => p <? 2 * h) (ord (r_tick st) lv))).
        { rewrite <- (seq_length h h) at 1. apply NoDup_incl_length; [apply seq_NoDup|]. intros q Q. apply in_seq in Q. apply filter_In. split.
          - apply O, Hl. cbn [level]. lia.
          - apply Nat.ltb_lt. lia. }
        eapply Nat.le_trans; [|exact X]. apply Nat.mul_le_mono_l. exact Ln. }
      change (Nat.max 1 (S c)) with (S c) in IH. destruct Rg as [->|Rg]; [cbn [Nat.max]; lia|].
      destruct c as [|c]; [cbn [Nat.max]; lia|]. change (Nat.max 1 (S c)) with (S c).
      replace (h - S c) with (S (h - S (S c))) by lia. change (S (h - S (S c)) * (2 * h * h)) with (2 * h * h + (h - S (S c)) * (2 * h * h)). lia.
  Qed.

  Lemma J_start : J (set_prog (ekey (ERule "s") 0) true r_init).
  Proof.
    assert (N : forall e p, letter e \/ e = G -> ekey e p <> ekey (ERule "s") 0).
    { intros e p H. apply key_neq. destruct H as [[->| ->]| ->]; vm_compute; discriminate. }
    split; [intros e p L Hp|intros p Hp]; cbn [r_prog r_memo set_prog]; rewrite upd_other by (apply N; auto); (split; [reflexivity|intros v X; discriminate]).
  Qed.
End Runs.

Lemma runs_cost h ord lr f : (forall t l, Permutation (ord t l) l) -> lr "s" = None ->
  let input := repeat 97%Z (4 * h) ++ repeat 98%Z (4 * h) in
  (h - 1) * (2 * h * h) <= elem_c g_runs input lr ord (S (S (S f))) (ERule "s") 0 r_init.
Proof.
  intros Op L input. assert (O : forall t l x, In x (ord t l) <-> In x l) by (intros t l x; split; apply Permutation_in; [|apply Permutation_sym]; apply Op).
  set (call := reach_elem g_runs input lr ord (S (S f))). set (callc := elem_c g_runs input lr ord (S (S f))).
  set (st1 := set_prog (ekey (ERule "s") 0) true r_init).
  assert (B : forall st, elem_c g_runs input lr ord (S (S (S f))) (ERule "s") 0 st = 1 + plain_c g_runs input ord call callc (ERule "s") 0 st).
  { intros st. cbn [elem_c]. unfold body_c, is_lr. change (lower "s") with "s". rewrite L. reflexivity. }
  rewrite B. clear B. unfold plain_c. change (r_memo r_init (ekey (ERule "s") 0)) with (@None (list nat)). change (r_prog r_init (ekey (ERule "s") 0)) with false.
  cbv beta iota zeta. fold st1.
  change (compute_c g_runs input ord call callc (ERule "s") 0 st1) with (alt_c input ord call callc [[Rep 0 inf G]] 0 st1).
  cbn [alt_c cat_c]. unfold range_c at 1.
  assert (E : ord (r_tick st1) [0] = [0]) by (apply Permutation_length_1_inv, Permutation_sym, Op). rewrite E. cbn [each_c]. unfold reach_rep_c at 1.
  pose proof (rounds (4 * h) ord O lr f callc h eq_refl (length input + 2) 0 [0] [0] (tick st1) (J_start (4 * h))) as X.
  fold input in X. fold call in X. change (Z.of_nat 0 + 1)%Z with 1%Z in X. change (Nat.max 1 0) with 1 in X.
  assert (Y : (h - 1) * (2 * h * h) <= rep_c ord call callc (length input + 2) 1 0 inf G [0] [0] (tick st1)).
  { apply X; [lia| | |].
    - unfold input. rewrite len_input. lia.
    - intros q. cbn [In level]. lia.
    - intros q. cbn [In]. lia. }
  lia.
Qed.
