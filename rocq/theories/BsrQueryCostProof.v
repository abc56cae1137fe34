(** Bounds of the calls counted in BsrQueryCost.v.
    Its definitions are means of proof and model no code. *)
From Coq Require Import ZArith Arith String Bool List Lia.
From Verif Require Import Syntax Spec Utf8 Num Term Printer Slots PropTerm Gll GllUniv Bsr BsrProof BsrTerm
  Sppf SppfProof TreeSpec Tree Codegen BsrTree BsrCount BsrTreeProof BsrQueryCost.
From Verif Require TreeProof.
Import ListNotations.
Local Open Scope list_scope.
Local Open Scope nat_scope.

Section Walks.
  Variable K : Type.
  Variable K_dec : forall a b : K, {a = b} + {a <> b}.
  Variable prod_dot : K -> option (list qsym * nat).
  Variable before : K -> K.
  Variable complete : nat -> option (list K).
  Variable pivots : K -> nat -> nat -> list nat.
  Notation parts' := (parts prod_dot before).
  Notation elems' := (elems complete pivots).
  Notation count' := (q_count K_dec prod_dot before complete pivots).
  Notation amb' := (q_amb K_dec prod_dot before complete pivots).
  Notation qcc := (qc_count K_dec prod_dot before complete pivots).
  Notation qca := (qc_amb K_dec prod_dot before complete pivots).
  Notation mem := (qid_mem K_dec).
  Notation el' := (el K complete pivots).
  Notation kids' := (kids K prod_dot before).
  Notation parts_of' := (parts_of K prod_dot before).
  Notation celem' := (celem K K_dec prod_dot before complete pivots).
  Notation csum' := (csum K K_dec prod_dot before complete pivots).
  Notation ways' := (ways K K_dec prod_dot before complete pivots).
  Notation apart' := (apart K K_dec prod_dot before complete pivots).
  Notation aelem' := (aelem K K_dec prod_dot before complete pivots).
  Notation aany' := (aany K K_dec prod_dot before complete pivots).
  Notation state := (qmemo K * bool)%type.

  Variable U : qid K -> Prop.
  Hypothesis U_kids : forall id e c, U id -> In e (el' id) -> In c (kids' id e) -> U c.

  Definition wt1 (id : qid K) : nat := 3 * length (el' id).
  Definition wt (l : list (qid K)) : nat := list_sum (map wt1 l).
  Lemma wt_cons k l : wt (k :: l) = wt1 k + wt l. Proof. reflexivity. Qed.

  (** *** NumTrees *)
  Definition ckeys (st : state) : list (qid K) := map fst (fst st).
  Definition cpart (f : nat) (id : qid K) (on : list (qid K)) (p : part K) (st : state) : nat :=
    match node_of_part p with None => 0 | Some c => qcc f c (id :: on) st end.
  Definition cafter (f : nat) (id : qid K) (on : list (qid K)) (p : part K) (st : state) : option state :=
    match node_of_part p with
    | None => Some st
    | Some c => match count' f c (id :: on) st with QVal (_, st') => Some st' | _ => None end
    end.
  Definition cgo (f : nat) (id : qid K) (on : list (qid K)) := fix go (es : list (K * nat)) (st : state) : nat :=
    match es with
    | [] => 0
    | e :: es' =>
        1 + match parts' (fst e) (left_end id) (snd e) (right_end id) with
            | None => 0
            | Some (p, q) =>
                cpart f id on q st + match cafter f id on q st with
                                     | None => 0
                                     | Some st1 => cpart f id on p st1 + match cafter f id on p st1 with None => 0 | Some st2 => go es' st2 end
                                     end
            end
    end.
  Lemma qcc_S f id on st : qcc (S f) id on st =
    1 + match qmemo_get K_dec id (fst st) with
        | Some _ => 0
        | None => if mem id on then 0 else match elems' id with QVal es => cgo f id on es st | _ => 0 end
        end.
  Proof. reflexivity. Qed.
  Lemma cgo_cons f id on e es st : cgo f id on (e :: es) st =
    1 + match parts_of' id e with
        | None => 0
        | Some (p, q) =>
            cpart f id on q st + match cafter f id on q st with
                                 | None => 0
                                 | Some st1 => cpart f id on p st1 + match cafter f id on p st1 with None => 0 | Some st2 => cgo f id on es st2 end
                                 end
        end.
  Proof. reflexivity. Qed.
  Lemma memo_none k (m : qmemo K) : qmemo_get K_dec k m = None -> ~ In k (map fst m).
  Proof.
    unfold qmemo_get. induction m as [|[k' v] m IH]; cbn; [tauto|]. destruct (qid_dec K_dec k k'); [discriminate|].
    intros E [<-|I]; [congruence|]. apply IH in E. auto.
  Qed.

  Definition cpost (on : list (qid K)) (st st' : state) (calls extra : nat) : Prop :=
    NoDup (ckeys st') /\ Forall U (ckeys st') /\ (forall x, In x on -> In x (ckeys st') -> In x (ckeys st)) /\
    calls + wt (ckeys st) <= extra + wt (ckeys st').

  Lemma qcc_bound f : forall id on st v st', U id -> NoDup (ckeys st) -> Forall U (ckeys st) -> count' f id on st = QVal (v, st') ->
    cpost on st st' (qcc f id on st) 1.
  Proof.
    induction f as [|f IH]; intros id on st v st' Hu N F E; [discriminate|]. rewrite count_S in E. rewrite qcc_S.
    destruct (qmemo_get K_dec id (fst st)) as [v0|] eqn:M; [injection E as <- <-; repeat split; auto|].
    destruct (mem id on) eqn:Mo; [injection E as <- <-; repeat split; auto|].
    destruct (elems' id) as [es| |] eqn:Ee; try discriminate. cbn [qbind] in E.
    assert (El : el' id = es) by (unfold el; rewrite Ee; reflexivity).
    assert (P : forall p st v st', (forall c, node_of_part p = Some c -> U c) -> NoDup (ckeys st) -> Forall U (ckeys st) ->
      ways' f id on p st = QVal (v, st') -> cafter f id on p st = Some st' /\ cpost (id :: on) st st' (cpart f id on p st) 1).
    { intros p s0 v0 s1 Uc N0 F0 E0. unfold ways in E0. unfold cafter, cpart. destruct (node_of_part p) as [c|].
      - rewrite E0. split; [reflexivity|]. eapply IH; eauto.
      - injection E0 as <- <-. split; [reflexivity|]. repeat split; auto. }
    assert (L : forall xs tot st v st', incl xs es -> NoDup (ckeys st) -> Forall U (ckeys st) -> csum' f id on xs tot st = QVal (v, st') ->
      cpost (id :: on) st st' (cgo f id on xs st) (3 * length xs)).
    { induction xs as [|e xs IHx]; intros tot s0 v0 s1 In0 N0 F0 E0.
      - injection E0 as <- <-. repeat split; auto.
      - rewrite csum_cons in E0. rewrite cgo_cons. unfold celem in E0.
        assert (Uc : forall c, In c (kids' id e) -> U c).
        { intros c C. eapply U_kids; eauto. rewrite El. apply In0. left; auto. }
        unfold kids in Uc. destruct (parts_of' id e) as [[p q]|]; [|discriminate]. cbn [of_opt qbind fst snd] in E0.
        destruct (ways' f id on q s0) as [[vq sq]| |] eqn:Eq; try discriminate. cbn [qbind fst snd] in E0.
        destruct (ways' f id on p sq) as [[vp sp]| |] eqn:Ep; try discriminate. cbn [qbind fst snd] in E0.
        destruct (P q s0 vq sq) as (Aq & N1 & F1 & O1 & B1); auto.
        { intros c C. apply Uc. rewrite C. left; reflexivity. }
        destruct (P p sq vp sp) as (Ap & N2 & F2 & O2 & B2); auto.
        { intros c C. apply Uc. rewrite C. apply in_or_app. right. left; reflexivity. }
        rewrite Aq, Ap. destruct (IHx _ _ _ _ (fun x X => In0 x (or_intror X)) N2 F2 E0) as (N3 & F3 & O3 & B3).
        split; [auto|]. split; [auto|]. split; [intros x I1 I2; auto|]. cbn [length]. lia. }
    destruct (csum' f id on es 0%Z st) as [[v1 s1]| |] eqn:E1; try discriminate. cbn [qbind fst snd] in E. injection E as <- <-.
    destruct (L es 0%Z st v1 s1 (fun x X => X) N F E1) as (N1 & F1 & O1 & B1).
    assert (Nk : ~ In id (ckeys s1)).
    { intros I. apply (O1 id (or_introl eq_refl)) in I. revert I. apply memo_none. exact M. }
    unfold cpost, ckeys. cbn [fst snd map]. split; [constructor; auto|]. split; [constructor; auto|]. split.
    - intros x I [<-|J].
      + exfalso. apply (proj2 (mem_in K K_dec id on)) in I. congruence.
      + apply O1; auto. right; auto.
    - rewrite wt_cons. unfold wt1 at 1. rewrite El. unfold ckeys in B1. lia.
  Qed.

  (** *** Ambiguous *)
  Definition acpart (f : nat) (p : part K) (vis : list (qid K)) : nat := match node_of_part p with None => 0 | Some c => qca f c vis end.
  Definition acafter (f : nat) (p : part K) (vis : list (qid K)) : option (list (qid K)) :=
    match node_of_part p with
    | None => Some vis
    | Some c => match amb' f c vis with QVal (false, vis') => Some vis' | _ => None end
    end.
  Definition acgo (f : nat) (id : qid K) := fix go (es : list (K * nat)) (vis : list (qid K)) : nat :=
    match es with
    | [] => 0
    | e :: es' =>
        1 + match parts' (fst e) (left_end id) (snd e) (right_end id) with
            | None => 0
            | Some (p, q) =>
                acpart f q vis + match acafter f q vis with
                                 | None => 0
                                 | Some v1 => acpart f p v1 + match acafter f p v1 with None => 0 | Some v2 => go es' v2 end
                                 end
            end
    end.
  Lemma qca_S f id vis : qca (S f) id vis =
    1 + (if mem id vis then 0
         else match elems' id with QVal es => if Nat.ltb 1 (length es) then 0 else acgo f id es (id :: vis) | _ => 0 end).
  Proof. reflexivity. Qed.
  Lemma acgo_cons f id e es vis : acgo f id (e :: es) vis =
    1 + match parts_of' id e with
        | None => 0
        | Some (p, q) =>
            acpart f q vis + match acafter f q vis with
                             | None => 0
                             | Some v1 => acpart f p v1 + match acafter f p v1 with None => 0 | Some v2 => acgo f id es v2 end
                             end
        end.
  Proof. reflexivity. Qed.

  Definition apost (vis vis' : list (qid K)) (calls extra : nat) : Prop :=
    NoDup vis' /\ Forall U vis' /\ calls + wt vis <= extra + wt vis'.
  Lemma qca_bound f : forall id vis b s, U id -> NoDup vis -> Forall U vis -> amb' f id vis = QVal (b, s) -> apost vis s (qca f id vis) 1.
  Proof.
    induction f as [|f IH]; intros id vis b s Hu N F E; [discriminate|]. rewrite amb_S in E. rewrite qca_S.
    destruct (mem id vis) eqn:M; [injection E as <- <-; repeat split; auto|].
    destruct (elems' id) as [es| |] eqn:Ee; try discriminate. cbn [qbind] in E.
    assert (El : el' id = es) by (unfold el; rewrite Ee; reflexivity).
    assert (N' : NoDup (id :: vis)) by (constructor; auto; intros I; apply (proj2 (mem_in K K_dec id vis)) in I; congruence).
    assert (F' : Forall U (id :: vis)) by (constructor; auto).
    destruct (Nat.ltb 1 (length es)); [injection E as <- <-; split; auto; split; auto; rewrite wt_cons; lia|].
    assert (P : forall p v b s, (forall c, node_of_part p = Some c -> U c) -> NoDup v -> Forall U v ->
      apart' f p v = QVal (b, s) -> acafter f p v = (if b then None else Some s) /\ apost v s (acpart f p v) 1).
    { intros p v0 b0 s0 Uc N0 F0 E0. unfold apart in E0. unfold acafter, acpart. destruct (node_of_part p) as [c|].
      - rewrite E0. split; [destruct b0; reflexivity|]. eapply IH; eauto.
      - injection E0 as <- <-. split; [reflexivity|]. repeat split; auto. }
    assert (L : forall xs v b s, incl xs es -> NoDup v -> Forall U v -> aany' f id xs v = QVal (b, s) ->
      apost v s (acgo f id xs v) (3 * length xs)).
    { induction xs as [|e xs IHx]; intros v0 b0 s0 In0 N0 F0 E0.
      - injection E0 as <- <-. repeat split; auto.
      - rewrite aany_cons in E0. rewrite acgo_cons. unfold aelem in E0.
        assert (Uc : forall c, In c (kids' id e) -> U c).
        { intros c C. eapply U_kids; eauto. rewrite El. apply In0. left; auto. }
        unfold kids in Uc. destruct (parts_of' id e) as [[p q]|]; [|discriminate]. cbn [of_opt qbind fst snd] in E0.
        destruct (apart' f q v0) as [[bq sq]| |] eqn:Eq; try discriminate. cbn [qbind fst snd] in E0.
        destruct (P q v0 bq sq) as (Aq & N1 & F1 & B1); auto.
        { intros c C. apply Uc. rewrite C. left; reflexivity. }
        rewrite Aq. destruct bq.
        { cbn [qbind fst snd] in E0. injection E0 as <- <-. split; auto. split; auto. cbn [length]. lia. }
        destruct (apart' f p sq) as [[bp sp]| |] eqn:Ep; try discriminate. cbn [qbind fst snd] in E0.
        destruct (P p sq bp sp) as (Ap & N2 & F2 & B2); auto.
        { intros c C. apply Uc. rewrite C. apply in_or_app. right. left; reflexivity. }
        rewrite Ap. destruct bp.
        { injection E0 as <- <-. split; auto. split; auto. cbn [length]. lia. }
        destruct (IHx _ _ _ (fun x X => In0 x (or_intror X)) N2 F2 E0) as (N3 & F3 & B3).
        split; auto. split; auto. cbn [length]. lia. }
    destruct (L es _ _ _ (fun x X => X) N' F' E) as (A & B & C). split; auto. split; auto.
    rewrite wt_cons in C. unfold wt1 in C. rewrite El in C. lia.
  Qed.
End Walks.

Lemma filter_le_length {A} (p : A -> bool) l : length (filter p l) <= length l.
Proof. induction l as [|x l IH]; cbn; auto. destruct (p x); cbn; lia. Qed.
Lemma filter_le_mono {A} (p q : A -> bool) l : (forall x, In x l -> p x = true -> q x = true) ->
  length (filter p l) <= length (filter q l).
Proof.
  induction l as [|x l IH]; cbn; intros H; auto.
  assert (length (filter p l) <= length (filter q l)) by (apply IH; intros; apply H; auto).
  destruct (p x) eqn:P; [rewrite (H x) by auto; cbn; lia|]. destruct (q x); cbn; lia.
Qed.
Lemma filter_lt_mono {A} (p q : A -> bool) l y : (forall x, In x l -> p x = true -> q x = true) ->
  In y l -> p y = false -> q y = true -> length (filter p l) < length (filter q l).
Proof.
  induction l as [|x l IH]; cbn; intros H I P Q; [easy|].
  assert (length (filter p l) <= length (filter q l)) by (apply filter_le_mono; intros; apply H; auto).
  destruct I as [->|I].
  - rewrite P, Q. cbn. lia.
  - assert (length (filter p l) < length (filter q l)) by (apply IH; auto).
    destruct (p x) eqn:Px; [rewrite (H x) by auto; cbn; lia|]. destruct (q x); cbn; lia.
Qed.

(** *** The weight of a set *)
Section World.
  Variable sg : slot_grammar.
  Variable input : list Z.
  Variable nodes : ntable.
  Variable set : list belem.
  Hypothesis T : tbl sg nodes set.
  Notation ell := (el slot (bf_complete sg) (bf_pivots set)).
  Definition belem_of (id : qid slot) (e : slot * nat) : belem := mkBE (fst e) (left_end id) (snd e) (right_end id).
  Hypothesis ND : NoDup set.
  Lemma els_le l : NoDup l -> Forall (U nodes) l -> list_sum (map (fun id => length (ell id)) l) <= length set.
  Proof.
    intros N F. set (es := flat_map (fun id => map (belem_of id) (ell id)) l).
    assert (Le : length es = list_sum (map (fun id => length (ell id)) l)).
    { unfold es. clear N F. induction l as [|id l IH]; [reflexivity|]. cbn [flat_map map]. rewrite app_length, map_length, IH. reflexivity. }
    rewrite <- Le. rewrite Forall_forall in F.
    assert (In1 : forall id e, U nodes id -> In e (map (belem_of id) (ell id)) -> In e set /\ ekey sg e = nk id).
    { intros id e Hu I. apply in_map_iff in I as ([s k] & <- & I). apply (el_in sg nodes set T) in I; auto. }
    apply NoDup_incl_length.
    - unfold es. clear Le es. induction N as [|id l Ni N IH]; cbn [flat_map]; [constructor|].
      apply TreeProof.NoDup_app_intro.
      + apply TreeProof.NoDup_map_inj; [|apply (el_nodup sg nodes set ND); apply F; left; auto].
        intros [s k] [s' k'] E. inversion E. reflexivity.
      + apply IH. intros x X. apply F. right; auto.
      + intros e I1 I2. apply in_flat_map in I2 as (id' & Il & I2).
        apply In1 in I1 as [_ E1]; [|apply F; left; auto]. apply In1 in I2 as [_ E2]; [|apply F; right; auto].
        rewrite E1 in E2. apply nk_inj in E2. subst id'. contradiction.
    - intros e I. apply in_flat_map in I as (id & Il & I). apply (In1 id) in I; [tauto|auto].
  Qed.
  Lemma wt_le l : NoDup l -> Forall (U nodes) l -> wt slot (bf_complete sg) (bf_pivots set) l <= 3 * length set.
  Proof.
    intros N F. pose proof (els_le l N F) as H. unfold wt, wt1.
    assert (E : list_sum (map (fun id => 3 * length (ell id)) l) = 3 * list_sum (map (fun id => length (ell id)) l)).
    { clear. induction l as [|x l IH]; [reflexivity|]. cbn [map]. change (3 * length (ell x) + list_sum (map (fun id => 3 * length (ell id)) l) = 3 * (length (ell x) + list_sum (map (fun id => length (ell id)) l))). lia. }
    unfold wt1. lia.
  Qed.

  (** *** Tree *)
  Hypothesis OK : forall e, In e set -> ok_elem sg input e.
  Notation qct := (qc_collect slot_eq_dec (bf_prod_dot sg) bf_before (bf_complete sg) (bf_pivots set)).
  Notation mem := (qid_mem slot_eq_dec).
  Definition NN : nat := length (sg_nts sg).
  Definition LL : nat := list_max (map (@length ssym) (concat (map nt_alts (sg_nts sg)))).
  Fixpoint VV (h : nat) : nat := match h with O => 0 | S h => LL * (2 + VV h) end.
  Definition BB : nat := LL * (2 + VV NN).
  Definition DD : nat := (NN + 1) * BB.
  Definition XX (m h : nat) : nat := match m with O => VV h | S m' => DD * (2 * m') + h * BB end.
  Definition AA (d m h : nat) : nat := match m with O => d * (2 + VV h) | S _ => d * (2 + VV NN) + XX m h end.
  Definition free (vis : list (qid slot)) (a b : nat) : nat := length (filter (fun x => negb (mem (QS x a b) vis)) (seq 0 NN)).

  Lemma free_le vis a b : free vis a b <= NN.
  Proof. unfold free. etransitivity; [apply filter_le_length|]. rewrite seq_length. auto. Qed.
  Lemma free_cons vis x a b : x < NN -> mem (QS x a b) vis = false -> free (QS x a b :: vis) a b < free vis a b.
  Proof.
    intros Lx M. unfold free. apply filter_lt_mono with (y := x).
    - intros y _ E. apply negb_true_iff in E. apply negb_true_iff. destruct (mem (QS y a b) vis) eqn:My; auto.
      apply mem_in in My. assert (mem (QS y a b) (QS x a b :: vis) = true) by (apply mem_in; right; auto). congruence.
    - apply in_seq. lia.
    - apply negb_false_iff. apply mem_in. left; auto.
    - rewrite M. reflexivity.
  Qed.
  Lemma VV_mono h h' : h <= h' -> VV h <= VV h'.
  Proof.
    intros H. assert (S1 : forall i, VV i <= VV (S i)).
    { induction i as [|i IH]; [cbn; lia|]. change (VV (S (S i))) with (LL * (2 + VV (S i))). change (VV (S i)) with (LL * (2 + VV i)) at 1. apply Nat.mul_le_mono_l. lia. }
    induction H as [|h' H IH]; auto. specialize (S1 h'). lia.
  Qed.
  Lemma bound_step d m1 m2 h h1 h2 p q : h1 <= NN -> h2 <= NN -> (m1 = 0 -> h2 = h) -> (m2 = 0 -> h1 = h) ->
    p <= AA d m1 h1 -> q <= 1 + XX m2 h2 -> 1 + (p + q) <= AA (S d) (m1 + m2) h.
  Proof.
    intros H1 H2 E1 E2 P Q. pose proof (VV_mono h1 NN H1) as V1. pose proof (VV_mono h2 NN H2) as V2.
    destruct m1 as [|m1], m2 as [|m2]; cbn [AA XX Nat.add] in *.
    - rewrite (E1 eq_refl) in *. rewrite (E2 eq_refl) in *. cbn [Nat.mul]. lia.
    - rewrite (E1 eq_refl) in *. cbn [Nat.mul]. assert (d * (2 + VV h1) <= d * (2 + VV NN)) by (apply Nat.mul_le_mono_l; lia). lia.
    - rewrite (E2 eq_refl) in *. rewrite Nat.add_0_r. cbn [Nat.mul] in *. lia.
    - assert (Y1 : h1 * BB <= NN * BB) by (apply Nat.mul_le_mono_r; auto).
      assert (Y2 : h2 * BB <= NN * BB) by (apply Nat.mul_le_mono_r; auto).
      replace (DD * (2 * (m1 + S m2))) with (DD * (2 * m1) + DD * (2 * m2) + 2 * DD) by ring.
      assert (Dd : DD = NN * BB + BB) by (unfold DD; ring). cbn [Nat.mul Nat.add] in *. lia.
  Qed.

  Lemma piv_hd s a b k ks : bf_pivots set s a b = k :: ks -> In (mkBE s a k b) set.
  Proof. intros E. apply piv_in. rewrite E. left; auto. Qed.
  Lemma first_in sls a b s k : first_elem (bf_pivots set) sls a b = Some (s, k) -> In (mkBE s a k b) set.
  Proof.
    induction sls as [|x sls IH]; cbn [first_elem]; [discriminate|]. destruct (bf_pivots set x a b) as [|k' ks] eqn:E; auto.
    intros X. injection X as <- <-. eapply piv_hd; eauto.
  Qed.
  Lemma elem_facts s l k r : In (mkBE s l k r) set ->
    l <= k <= r /\ exists p d, bf_prod_dot sg s = Some (map qsym_of p, S d) /\ s_dot s = S d /\ S d <= LL /\ prod_of sg s = Some p.
  Proof.
    intros I. pose proof (OK _ I) as (L & u & rc & E1 & E2 & O1 & Sy & O2). cbn [be_slot be_l be_k be_r] in *.
    destruct O1 as (_ & _ & B1 & _). pose proof (symder_bounds sg input L rc k r ltac:(lia) Sy).
    split; [lia|]. destruct O2 as (_ & (p & P & D) & _). rewrite <- E1 in *. exists p, (s_dot L).
    unfold bf_prod_dot. rewrite P. assert (Ds : s_dot s = S (s_dot L)) by (rewrite E1; reflexivity). rewrite Ds in *.
    split; [reflexivity|]. split; [reflexivity|]. split; [|auto].
    assert (length p <= LL); [|lia]. unfold LL.
    assert (Ip : In (length p) (map (@length ssym) (concat (map nt_alts (sg_nts sg))))).
    { apply in_map. apply in_concat. unfold prod_of in P. destruct (nth_error (sg_nts sg) (s_nt s)) as [nt|] eqn:Nt; [|discriminate].
      exists (nt_alts nt). split; [apply in_map; eapply nth_error_In; eauto|eapply nth_error_In; eauto]. }
    pose proof (proj1 (list_max_le _ _) (le_n (list_max (map (@length ssym) (concat (map nt_alts (sg_nts sg))))))) as F.
    rewrite Forall_forall in F. apply F; auto.
  Qed.

  Lemma AA_body d m h : d <= LL -> S h <= NN -> AA d m h <= XX m (S h).
  Proof.
    intros D H. destruct m as [|m]; cbn [AA XX].
    - cbn [VV]. apply Nat.mul_le_mono_r. auto.
    - assert (d * (2 + VV NN) <= BB) by (unfold BB; apply Nat.mul_le_mono_r; auto). cbn [Nat.mul]. lia.
  Qed.
  Lemma AA_pos d m h : 1 + 0 <= AA (S d) m h.
  Proof. destruct m; cbn [AA Nat.mul]; lia. Qed.
  Lemma XX_mono m h h' : h <= h' -> XX m h <= XX m h'.
  Proof. intros H. destruct m; cbn [XX]; [apply VV_mono; auto|]. apply Nat.add_le_mono_l, Nat.mul_le_mono_r; auto. Qed.

  Definition tpart (f : nat) (vis : list (qid slot)) (p : part slot) : nat :=
    match p with
    | PNone => 0
    | PSym (QNT x) a b =>
        1 + (if mem (QS x a b) vis then 0
             else match bf_complete sg x with
                  | None => 0
                  | Some sls =>
                      match first_elem (bf_pivots set) sls a b with
                      | None => 0
                      | Some (sl', k') => qct f sl' a k' b (QS x a b :: vis)
                      end
                  end)
    | PSym _ _ _ => 1
    | PInter s a b => match bf_pivots set s a b with [] => 0 | k' :: _ => qct f s a k' b vis end
    end.
  Lemma qct_S f sl l k r vis : qct (S f) sl l k r vis =
    1 + match parts (bf_prod_dot sg) bf_before sl l k r with None => 0 | Some (p, q) => tpart f vis p + tpart f vis q end.
  Proof. reflexivity. Qed.

  Lemma qct_bound f : forall sl l k r vis, In (mkBE sl l k r) set -> qct f sl l k r vis <= AA (s_dot sl) (r - l) (free vis l r).
  Proof.
    induction f as [|f IH]; intros sl l k r vis I; [cbn; lia|]. rewrite qct_S.
    destruct (elem_facts _ _ _ _ I) as (Or & p & d & Pd & Ds & Dl & Pr).
    assert (Sym : forall y a b, tpart f vis (PSym y a b) <= 1 + XX (b - a) (free vis a b)).
    { intros y a b. destruct y as [x| |]; cbn [tpart]; try lia. apply le_n_S. destruct (mem (QS x a b) vis) eqn:M; [lia|].
      destruct (bf_complete sg x) as [sls|] eqn:C; [|lia]. destruct (first_elem (bf_pivots set) sls a b) as [[s' k']|] eqn:F; [|lia].
      apply first_in in F. destruct (elem_facts _ _ _ _ F) as (_ & _ & d' & _ & Ds' & Dl' & _).
      assert (Lx : x < NN). { unfold bf_complete in C. destruct (nth_error (sg_nts sg) x) eqn:Nx; [|discriminate]. apply nth_error_Some. congruence. }
      pose proof (free_cons vis x a b Lx M) as Fc. pose proof (free_le vis a b) as Fl.
      etransitivity; [apply IH; exact F|]. rewrite Ds'. etransitivity; [apply AA_body; [exact Dl'|lia]|]. apply XX_mono. lia. }
    unfold parts. rewrite Pd, Ds. destruct (nth_error (map qsym_of p) d) as [last|]; [|apply AA_pos].
    replace (r - l) with ((k - l) + (r - k)) by lia.
    assert (Go : forall q, q <= AA d (k - l) (free vis l k) -> 1 + (q + tpart f vis (PSym last k r)) <= AA (S d) (k - l + (r - k)) (free vis l r)).
    { intros q Q. apply bound_step with (h1 := free vis l k) (h2 := free vis k r); auto using free_le.
      - intros Z. replace k with l by lia. reflexivity.
      - intros Z. replace r with k by lia. reflexivity. }
    destruct d as [|[|d]].
    - apply (Go 0). lia.
    - destruct (map qsym_of p) as [|y ys]; [apply AA_pos|]. apply Go. etransitivity; [apply Sym|]. destruct (k - l); cbn [AA XX]; lia.
    - apply Go. cbn [tpart]. destruct (bf_pivots set (bf_before sl) l k) as [|k' ks] eqn:Pv; [lia|].
      apply piv_hd in Pv. etransitivity; [apply IH; exact Pv|]. unfold bf_before. cbn [s_dot]. rewrite Ds. cbn [pred]. lia.
  Qed.
  Lemma tree_bound n fuel : bf_tree_steps sg set n fuel <= (BB + 2 * DD) * (n + 1).
  Proof.
    unfold bf_tree_steps. destruct (q_valid _ _ _ _) as [[]| |]; try lia. destruct (bf_complete sg (sg_start sg)) as [sls|]; [|lia].
    destruct (first_elem (bf_pivots set) sls 0 n) as [[sl k]|] eqn:F; [|lia]. apply first_in in F.
    destruct (elem_facts _ _ _ _ F) as (_ & _ & d & _ & Ds & Dl & _).
    etransitivity; [apply qct_bound; exact F|]. rewrite Ds, Nat.sub_0_r. pose proof (free_le [] 0 n) as Fl. set (h := free [] 0 n) in *.
    assert (X : AA (S d) n h <= BB + DD * (2 * n)); [|etransitivity; [exact X|]].
    - destruct n as [|m]; cbn [AA XX].
      + assert (S d * (2 + VV h) <= BB); [|lia]. unfold BB. apply Nat.mul_le_mono; auto. pose proof (VV_mono h NN Fl). lia.
      + assert (S d * (2 + VV NN) <= BB) by (unfold BB; apply Nat.mul_le_mono; auto).
        assert (h * BB <= NN * BB) by (apply Nat.mul_le_mono_r; auto). assert (Dd : DD = NN * BB + BB) by (unfold DD; ring).
        replace (DD * (2 * S m)) with (DD * (2 * m) + 2 * DD) by ring. lia.
    - replace ((BB + 2 * DD) * (n + 1)) with (BB + DD * (2 * n) + (BB * n + 2 * DD)) by ring. lia.
  Qed.
End World.
