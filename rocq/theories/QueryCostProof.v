(** Bounds of the calls counted in QueryCost.v.
    Its definitions are means of proof and model no code. *)
From Coq Require Import ZArith Arith String Bool List Lia.
From Verif Require Import Syntax Spec Utf8 Num Term Printer Slots PropTerm Gll GllUniv Bsr BsrProof BsrTerm
  LowerProof LowerLang Sppf SppfProof TreeSpec Tree TreeProof Cost CostProof QueryCost.
Import ListNotations.
Local Open Scope list_scope.
Local Open Scope nat_scope.

Lemma sum_incl {A} (w : A -> nat) : forall l ks, NoDup l -> (forall x, In x l -> w x = 0 \/ In x ks) ->
  list_sum (map w l) <= list_sum (map w ks).
Proof.
  induction l as [|x l IH]; intros ks N H; [cbn; lia|]. apply NoDup_cons_iff in N as [N1 N2].
  change (list_sum (map w (x :: l))) with (w x + list_sum (map w l)).
  destruct (H x (or_introl eq_refl)) as [E|I].
  - rewrite E. apply IH; auto. intros y Y. apply H. right; auto.
  - apply in_split in I as (a & b & ->).
    assert (X : list_sum (map w l) <= list_sum (map w (a ++ b))).
    { apply IH; auto. intros y Y. destruct (H y (or_intror Y)) as [|J]; auto. right.
      apply in_app_iff in J as [J|[<-|J]]; [apply in_app_iff; auto|contradiction|apply in_app_iff; auto]. }
    rewrite map_app, list_sum_app in X |- *. cbn [map list_sum fold_right]. change (fold_right Nat.add 0) with list_sum. lia.
Qed.

Section Weights.
  Variable nodes : ntable.
  Notation packs := (packs nodes).

  Definition wt1 (k : nkey) : nat := length (concat (packs k)).
  Definition wt (l : list nkey) : nat := list_sum (map wt1 l).
  Lemma wt_cons k l : wt (k :: l) = wt1 k + wt l. Proof. reflexivity. Qed.

  Lemma packs_of_entry : forall (t : ntable), NoDup (map fst t) -> forall e, In e t -> packs_of (fst e) t = Some (snd e).
  Proof.
    induction t as [|[k ps] t IH]; intros N e I; [destruct I|]. cbn in N. apply NoDup_cons_iff in N as [N1 N2]. destruct I as [<-|I].
    - cbn. destruct (nkey_eq_dec k k); congruence.
    - cbn. destruct (nkey_eq_dec (fst e) k) as [E|]; auto. exfalso. apply N1. rewrite <- E. apply in_map. auto.
  Qed.
  (** The number of children in all packs. *)
  Definition links (t : ntable) : nat := list_sum (map (fun e => length (concat (snd e))) t).
  Lemma wt_le l : NoDup (map fst nodes) -> NoDup l -> wt l <= links nodes.
  Proof.
    intros N Nl. unfold wt. etransitivity; [apply (sum_incl wt1 l (map fst nodes) Nl)|].
    - intros x _. destruct (packs_of x nodes) eqn:E; [right; apply packs_of_key; congruence|].
      left. unfold wt1, Tree.packs. rewrite E. reflexivity.
    - rewrite map_map. unfold links. apply Nat.eq_le_incl. f_equal. apply map_ext_in. intros e I.
      unfold wt1, Tree.packs. rewrite (packs_of_entry _ N e I). reflexivity.
  Qed.
  Lemma links_le : NoDup (map fst nodes) -> pack_shape nodes -> links nodes <= 2 * total_packs nodes.
  Proof.
    intros N PS. unfold links, total_packs.
    assert (H : forall e, In e nodes -> length (concat (snd e)) <= 2 * length (snd e)).
    { intros e I.
      assert (Q : forall pk, In pk (snd e) -> length pk <= 2).
      { intros pk J. destruct (PS (fst e) pk) as [(c & ->)|(w & c & ->)]; cbn; auto.
        unfold Tree.packs. rewrite (packs_of_entry _ N e I). auto. }
      clear I. revert Q. induction (snd e) as [|pk ps IHp]; intros Q; [cbn; lia|].
      cbn [concat length]. rewrite app_length. pose proof (Q pk (or_introl eq_refl)). specialize (IHp (fun p P => Q p (or_intror P))). lia. }
    clear N PS. revert H. induction nodes as [|e t IH]; intros H; [cbn; lia|].
    pose proof (H e (or_introl eq_refl)). specialize (IH (fun x X => H x (or_intror X))).
    cbn [map list_sum fold_right]. change (fold_right Nat.add 0) with list_sum. lia.
  Qed.

  (** *** Ambiguous *)
  Definition ac_list (f : nat) := fix go (cs : list nkey) (seen : list nkey) : nat :=
    match cs with
    | [] => 0
    | c :: cs' => ac_walk nodes f c seen + match amb_walk nodes f c seen with Some (false, s) => go cs' s | _ => 0 end
    end.
  Lemma ac_S f k seen : ac_walk nodes (S f) k seen =
    1 + (if nkey_mem k seen then 0 else if Nat.ltb 1 (length (packs k)) then 0 else ac_list f (concat (packs k)) (k :: seen)).
  Proof. reflexivity. Qed.
  Lemma ac_cons f c cs seen : ac_list f (c :: cs) seen =
    ac_walk nodes f c seen + match amb_walk nodes f c seen with Some (false, s) => ac_list f cs s | _ => 0 end.
  Proof. reflexivity. Qed.

  Lemma ac_bound f : forall k seen b s, NoDup seen -> amb_walk nodes f k seen = Some (b, s) ->
    NoDup s /\ ac_walk nodes f k seen + wt seen <= 1 + wt s.
  Proof.
    induction f as [|f IH]; intros k seen b s N E; [discriminate|]. rewrite amb_S in E. rewrite ac_S.
    destruct (nkey_mem k seen) eqn:M; [injection E as <- <-; split; [auto|lia]|].
    assert (N' : NoDup (k :: seen)) by (constructor; auto; intros I; apply nkey_mem_in in I; congruence).
    destruct (Nat.ltb 1 (length (packs k))); [injection E as <- <-; split; [auto|rewrite wt_cons; lia]|].
    assert (L : forall cs seen b s, NoDup seen -> amb_list nodes f cs seen = Some (b, s) ->
      NoDup s /\ ac_list f cs seen + wt seen <= length cs + wt s).
    { induction cs as [|c cs IHc]; intros sn b' s' Ns Es.
      - injection Es as <- <-. split; auto.
      - rewrite amb_cons in Es. rewrite ac_cons. destruct (amb_walk nodes f c sn) as [[[] s1]|] eqn:E1; try discriminate.
        + injection Es as <- <-. destruct (IH _ _ _ _ Ns E1) as [A B]. split; auto. cbn [length]. lia.
        + destruct (IH _ _ _ _ Ns E1) as [A B]. destruct (IHc _ _ _ A Es) as [C D]. split; auto. cbn [length]. lia. }
    destruct (L _ _ _ _ N' E) as [A B]. split; auto. rewrite wt_cons in B. unfold wt1 in B. lia.
  Qed.

  (** *** Nodes *)
  Definition nw_list (f : nat) := fix go (cs : list nkey) (seen : list nkey) : option (list nkey) :=
    match cs with [] => Some seen | c :: r => match node_walk nodes f c seen with Some s => go r s | None => None end end.
  Definition nc_list (f : nat) := fix go (cs : list nkey) (seen : list nkey) : nat :=
    match cs with
    | [] => 0
    | c :: cs' => nc_walk nodes f c seen + match node_walk nodes f c seen with Some s => go cs' s | None => 0 end
    end.
  Lemma nw_S f k seen : node_walk nodes (S f) k seen = if nkey_mem k seen then Some seen else nw_list f (concat (packs k)) (k :: seen).
  Proof. reflexivity. Qed.
  Lemma nc_S f k seen : nc_walk nodes (S f) k seen = 1 + (if nkey_mem k seen then 0 else nc_list f (concat (packs k)) (k :: seen)).
  Proof. reflexivity. Qed.
  Lemma nw_cons f c cs seen : nw_list f (c :: cs) seen = match node_walk nodes f c seen with Some s => nw_list f cs s | None => None end.
  Proof. reflexivity. Qed.
  Lemma nc_cons f c cs seen : nc_list f (c :: cs) seen =
    nc_walk nodes f c seen + match node_walk nodes f c seen with Some s => nc_list f cs s | None => 0 end.
  Proof. reflexivity. Qed.

  Lemma nc_bound f : forall k seen s, NoDup seen -> node_walk nodes f k seen = Some s ->
    NoDup s /\ nc_walk nodes f k seen + wt seen <= 1 + wt s.
  Proof.
    induction f as [|f IH]; intros k seen s N E; [discriminate|]. rewrite nw_S in E. rewrite nc_S.
    destruct (nkey_mem k seen) eqn:M; [injection E as <-; split; [auto|lia]|].
    assert (N' : NoDup (k :: seen)) by (constructor; auto; intros I; apply nkey_mem_in in I; congruence).
    assert (L : forall cs seen s, NoDup seen -> nw_list f cs seen = Some s ->
      NoDup s /\ nc_list f cs seen + wt seen <= length cs + wt s).
    { induction cs as [|c cs IHc]; intros sn s' Ns Es.
      - injection Es as <-. split; auto.
      - rewrite nw_cons in Es. rewrite nc_cons. destruct (node_walk nodes f c sn) as [s1|] eqn:E1; try discriminate.
        destruct (IH _ _ _ Ns E1) as [A B]. destruct (IHc _ _ A Es) as [C D]. split; auto. cbn [length]. lia. }
    destruct (L _ _ _ N' E) as [A B]. split; auto. rewrite wt_cons in B. unfold wt1 in B. lia.
  Qed.

  (** *** NumTrees *)
  Definition ckeys (st : cstate) : list nkey := map fst (fst st).
  Definition cgo (f : nat) (on : list nkey) := fix go (cs : list nkey) (st : cstate) : option cstate :=
    match cs with
    | [] => Some st
    | c :: cs' => match count nodes f c on st with Some (_, st') => go cs' st' | None => None end
    end.
  Definition cc_list (f : nat) (on : list nkey) := fix go (cs : list nkey) (st : cstate) : nat :=
    match cs with
    | [] => 0
    | c :: cs' => cc_count nodes f c on st + match count nodes f c on st with Some (_, st') => go cs' st' | None => 0 end
    end.
  Lemma cgo_cons f on c cs st : cgo f on (c :: cs) st = match count nodes f c on st with Some (_, st') => cgo f on cs st' | None => None end.
  Proof. reflexivity. Qed.
  Lemma cc_cons f on c cs st : cc_list f on (c :: cs) st =
    cc_count nodes f c on st + match count nodes f c on st with Some (_, st') => cc_list f on cs st' | None => 0 end.
  Proof. reflexivity. Qed.
  Lemma cc_S f k on st : cc_count nodes (S f) k on st =
    1 + match memo_get k (fst st) with
        | Some _ => 0
        | None => if nkey_mem k on then 0 else cc_list f (k :: on) (concat (packs k)) st
        end.
  Proof. reflexivity. Qed.
  Lemma cgo_app f on : forall a b st st', cgo f on a st = Some st' -> cgo f on (a ++ b) st = cgo f on b st'.
  Proof.
    induction a as [|c a IH]; intros b st st' E; [injection E as <-; reflexivity|].
    rewrite cgo_cons in E. cbn [app]. rewrite cgo_cons. destruct (count nodes f c on st) as [[v s1]|]; [auto|discriminate].
  Qed.
  Lemma cprod_go f k on : forall cs acc st v st', cprod nodes f k on cs acc st = Some (v, st') -> cgo f (k :: on) cs st = Some st'.
  Proof.
    induction cs as [|c cs IH]; intros acc st v st' E; [injection E as _ <-; reflexivity|].
    rewrite cprod_cons in E. rewrite cgo_cons. destruct (count nodes f c (k :: on) st) as [[v1 s1]|]; [eauto|discriminate].
  Qed.
  Lemma csum_go f k on : forall ps tot st v st', csum nodes f k on ps tot st = Some (v, st') -> cgo f (k :: on) (concat ps) st = Some st'.
  Proof.
    induction ps as [|p ps IH]; intros tot st v st' E; [injection E as _ <-; reflexivity|].
    rewrite csum_cons in E. cbn [concat]. destruct (cprod nodes f k on p 1%Z st) as [[v1 s1]|] eqn:E1; [|discriminate].
    rewrite (cgo_app _ _ _ _ _ _ (cprod_go _ _ _ _ _ _ _ _ E1)). eauto.
  Qed.
  Lemma memo_none k (m : list (nkey * Z)) : memo_get k m = None -> ~ In k (map fst m).
  Proof.
    unfold memo_get. induction m as [|[k' v] m IH]; cbn; [tauto|]. destruct (nkey_eq_dec k k'); [discriminate|].
    intros E [<-|I]; [congruence|]. apply IH in E. auto.
  Qed.

  Definition cpost (on : list nkey) (st st' : cstate) (calls extra : nat) : Prop :=
    NoDup (ckeys st') /\ (forall x, In x on -> In x (ckeys st') -> In x (ckeys st)) /\
    calls + wt (ckeys st) <= extra + wt (ckeys st').

  Lemma cc_bound f : forall k on st v st', NoDup (ckeys st) -> count nodes f k on st = Some (v, st') ->
    cpost on st st' (cc_count nodes f k on st) 1.
  Proof.
    induction f as [|f IH]; intros k on st v st' N E; [discriminate|]. rewrite count_S in E. rewrite cc_S.
    destruct (memo_get k (fst st)) as [v0|] eqn:Mk; [injection E as _ <-; split; [auto|split; [auto|lia]]|].
    destruct (nkey_mem k on) eqn:M; [injection E as _ <-; split; [auto|split; [auto|unfold ckeys; cbn [fst]; lia]]|].
    destruct (csum nodes f k on (packs k) _ st) as [[tot s1]|] eqn:E1; [|discriminate]. injection E as _ <-.
    apply csum_go in E1.
    assert (L : forall cs st st', NoDup (ckeys st) -> cgo f (k :: on) cs st = Some st' ->
      cpost (k :: on) st st' (cc_list f (k :: on) cs st) (length cs)).
    { clear - IH. induction cs as [|c cs IHc]; intros st st' N E.
      - injection E as <-. split; [auto|split; [auto|cbn; lia]].
      - rewrite cgo_cons in E. rewrite cc_cons. destruct (count nodes f c (k :: on) st) as [[v s1]|] eqn:E1; [|discriminate].
        destruct (IH _ _ _ _ _ N E1) as (A1 & A2 & A3). destruct (IHc _ _ A1 E) as (B1 & B2 & B3).
        split; [auto|]. split; [eauto|]. cbn [length]. lia. }
    destruct (L _ _ _ N E1) as (A1 & A2 & A3). apply memo_none in Mk. fold (ckeys st) in Mk.
    assert (Nk : ~ In k (ckeys s1)) by (intros I; apply Mk, A2; [left; auto|auto]).
    change (ckeys ((k, tot) :: fst s1, snd s1)) with (k :: ckeys s1) in *.
    unfold cpost. change (ckeys ((k, tot) :: fst s1, snd s1)) with (k :: ckeys s1). split; [constructor; auto|]. split.
    - intros x Ix [<-|J]; [|apply A2; [right; auto|auto]]. exfalso. apply nkey_mem_in in Ix. cbn [fst] in Ix. congruence.
    - rewrite wt_cons. unfold wt1. cbn [fst]. lia.
  Qed.
End Weights.

(** ** Tree *)
Section TreeCalls.
  Variable nodes : ntable.
  Variable M : nat.
  Notation packs := (packs nodes).
  Notation rk := (fun k => rank k nodes).
  Definition same_span (x y : nkey) : Prop := n_start x = n_start y /\ n_end x = n_end y.

  (** A pack divides the span of its node. *)
  Definition divides : Prop := forall k pk, In pk (packs k) ->
    (exists c, pk = [c] /\ same_span c k) \/
    (exists w c, pk = [w; c] /\ n_start w = n_start k /\ n_end w = n_start c /\ n_end c = n_end k /\
       n_start w <= n_end w <= n_end c).
  (** No more than [M] nodes over one span. *)
  Definition few : Prop := forall k l, NoDup l -> (forall x, In x l -> known x nodes /\ same_span x k) -> length l <= M.

  Hypothesis DV : divides.
  Hypothesis FW : few.
  Hypothesis CL : closed nodes.
  Hypothesis FE : first_earlier nodes.

  Definition chain (k : nkey) (l : list nkey) : Prop :=
    NoDup l /\ (forall x, In x l -> known x nodes /\ same_span x k /\ rk k <= rk x).
  Definition len (k : nkey) : nat := n_end k - n_start k.
  Definition EE : nat := 2 ^ (M + 2).
  Definition DD : nat := 2 * ((M + 1) * (2 + EE)).
  (** The bound over a span of length [n] after a chain with [h] nodes to go. *)
  Definition BB (n h : nat) : nat :=
    match n with O => 2 ^ (h + 2) - 2 | S n' => n' * DD + (h + 1) * (2 + EE) end.

  Lemma pow_pos h : 1 <= 2 ^ h.
  Proof. pose proof (Nat.pow_nonzero 2 h ltac:(lia)). lia. Qed.
  Lemma bb0_S h : BB 0 (S h) = 2 * (1 + BB 0 h).
  Proof. cbn [BB]. replace (S h + 2) with (S (h + 2)) by lia. cbn [Nat.pow]. pose proof (Nat.pow_le_mono_r 2 1 (h + 2) ltac:(lia) ltac:(lia)). cbn [Nat.pow] in H. lia. Qed.
  Lemma bb0_le h : h <= M -> BB 0 h <= EE.
  Proof. intros H. unfold EE. cbn [BB]. pose proof (Nat.pow_le_mono_r 2 (h + 2) (M + 2) ltac:(lia) ltac:(lia)). lia. Qed.
  Lemma bb_S n h : BB (S n) (S h) = 2 + EE + BB (S n) h.
  Proof. cbn [BB]. ring. Qed.
  Lemma bb_mono n h h' : h <= h' -> BB n h <= BB n h'.
  Proof.
    intros H. destruct n as [|n]; cbn [BB].
    - pose proof (Nat.pow_le_mono_r 2 (h + 2) (h' + 2) ltac:(lia) ltac:(lia)). lia.
    - apply Nat.add_le_mono_l, Nat.mul_le_mono_r. lia.
  Qed.
  Lemma bb_split a b h : 2 + BB (S a) M + BB (S b) M <= BB (S (S (a + b))) h.
  Proof.
    cbn [BB]. assert (E : DD = (M + 1) * (2 + EE) + (M + 1) * (2 + EE)) by (unfold DD; lia).
    set (q := (M + 1) * (2 + EE)) in *. assert (2 <= (h + 1) * (2 + EE)) by nia.
    replace (S (a + b) * DD) with (a * DD + b * DD + DD) by ring. lia.
  Qed.

  Lemma chain_cons k l pk ps c : chain k l -> packs k = pk :: ps -> In c pk -> same_span c k -> chain c (c :: l).
  Proof.
    intros [N H] E I S. pose proof (first_rank nodes FE k pk ps c E I) as Lt.
    assert (Kc : known c nodes) by (apply (CL k pk c); auto; rewrite E; left; auto). split.
    - constructor; auto. intros J. apply H in J as (_ & _ & J). lia.
    - intros x [<-|X]; [split; [auto|split; [split; auto|lia]]|]. destruct (H x X) as (A & (B1 & B2) & C). destruct S as [S1 S2].
      split; auto. split; [split; congruence|lia].
  Qed.
  Lemma chain_one k : known k nodes -> chain k [k].
  Proof. intros K. split; [repeat constructor; cbn; tauto|]. intros x [<-|[]]. split; auto. split; [split; auto|lia]. Qed.
  Lemma chain_len k l : chain k l -> length l <= M.
  Proof. intros [N H]. apply (FW k l N). intros x X. destruct (H x X) as (A & B & _). auto. Qed.

  Definition cost1 (f : nat) (on : list nkey) (c : nkey) : nat :=
    match c with NTerm _ _ => 0 | _ => if nkey_mem c on then 0 else tc_collect nodes f c (c :: on) end.
  Lemma tc_S f k on : tc_collect nodes (S f) k on =
    match packs k with [] => 0 | pk :: _ => list_sum (map (fun c => 1 + cost1 f on c) pk) end.
  Proof. reflexivity. Qed.
  Lemma cost1_le f on c b : (forall on', tc_collect nodes f c on' <= b) -> cost1 f on c <= b.
  Proof. intros H. unfold cost1. destruct c; try lia; destruct (nkey_mem _ on); auto; lia. Qed.

  Lemma tc_bound f : forall k on l, known k nodes -> chain k l -> tc_collect nodes f k on <= BB (len k) (M - length l).
  Proof.
    induction f as [|f IH]; intros k on l K C; [cbn; lia|]. rewrite tc_S.
    destruct (packs k) as [|pk ps] eqn:E; [lia|].
    assert (I0 : In pk (packs k)) by (rewrite E; left; auto).
    assert (Kn : forall c, In c pk -> known c nodes) by (intros c I; apply (CL k pk c); auto).
    (* a child with the span of its parent *)
    assert (SM : forall c, In c pk -> same_span c k -> exists h, M - length l = S h /\ forall on', cost1 f on' c <= BB (len k) h).
    { intros c I S. pose proof (chain_cons k l pk ps c C E I S) as C'. pose proof (chain_len c _ C') as L. cbn [length] in L.
      exists (M - Datatypes.S (length l)). split; [lia|]. intros on'. apply cost1_le. intros on2.
      pose proof (IH c on2 (c :: l) (Kn c I) C') as X. cbn [length] in X.
      destruct S as [S1 S2]. unfold len in *. rewrite S1, S2 in X. exact X. }
    (* any child *)
    assert (AN : forall c on', In c pk -> cost1 f on' c <= BB (len c) M).
    { intros c on' I. apply cost1_le. intros on2. etransitivity; [apply (IH c on2 [c]); [auto|apply chain_one; auto]|].
      apply bb_mono. lia. }
    destruct (DV k pk I0) as [(c & -> & S)|(w & c & -> & A1 & A2 & A3 & A4)].
    - destruct (SM c (or_introl eq_refl) S) as (h & Eh & B). rewrite Eh. specialize (B on).
      cbn [map list_sum fold_right]. destruct (len k) as [|n]; [rewrite bb0_S|rewrite bb_S]; lia.
    - cbn [map list_sum fold_right].
      destruct (Nat.eq_dec (n_start w) (n_end w)) as [Ew|Nw].
      + assert (Sc : same_span c k) by (split; congruence).
        destruct (SM c (or_intror (or_introl eq_refl)) Sc) as (h & Eh & B). specialize (B on). rewrite Eh.
        destruct (len k) as [|n] eqn:Ln.
        * assert (Sw : same_span w k) by (split; [auto|]; unfold len in Ln; lia).
          destruct (SM w (or_introl eq_refl) Sw) as (h' & Eh' & B'). specialize (B' on). rewrite Eh in Eh'. injection Eh' as <-.
          rewrite bb0_S. lia.
        * pose proof (AN w on (or_introl eq_refl)) as Aw. replace (len w) with 0 in Aw by (unfold len; lia).
          pose proof (bb0_le M (le_n _)). rewrite bb_S. lia.
      + destruct (Nat.eq_dec (n_start c) (n_end c)) as [Ec|Nc].
        * assert (Sw : same_span w k) by (split; congruence).
          destruct (SM w (or_introl eq_refl) Sw) as (h & Eh & B). specialize (B on). rewrite Eh.
          destruct (len k) as [|n] eqn:Ln; [unfold len in Ln; lia|].
          pose proof (AN c on (or_intror (or_introl eq_refl))) as Ac. replace (len c) with 0 in Ac by (unfold len; lia).
          pose proof (bb0_le M (le_n _)). rewrite bb_S. lia.
        * pose proof (AN w on (or_introl eq_refl)) as Aw. pose proof (AN c on (or_intror (or_introl eq_refl))) as Ac.
          destruct (len w) as [|a] eqn:La; [unfold len in La; lia|]. destruct (len c) as [|b] eqn:Lb; [unfold len in Lb; lia|].
          assert (Lk : len k = S (S (a + b))) by (unfold len in *; lia). rewrite Lk.
          pose proof (bb_split a b (M - length l)). lia.
  Qed.
End TreeCalls.

(** ** The table of a run *)
Section Run.
  Variable sg : slot_grammar.
  Variable input : list Z.
  Notation n := (length input).

  Lemma wof_ends L s e w : wof sg L s e = Some w -> n_start w = s /\ n_end w = e.
  Proof.
    unfold wof. destruct (prod_of sg L) as [p|]; [|discriminate]. destruct (s_dot L) as [|d]; [discriminate|].
    destruct (Nat.eqb _ _); [intros E; injection E as <-; auto|]. destruct d; [|intros E; injection E as <-; auto].
    destruct (nth_error p 0) as [x|]; [|discriminate]. intros E; injection E as <-. rewrite symnode_start, symnode_end. auto.
  Qed.
  Lemma elem_order bs e : T sg input bs -> In e (b_set bs) -> be_l e <= be_k e <= be_r e.
  Proof.
    intros H I. apply (t_sound _ _ _ H) in I. destruct I as (L & u & rc & E1 & E2 & O1 & Sy & O2).
    destruct O1 as (_ & _ & B1 & _). pose proof (symder_bounds sg input L rc (be_k e) (be_r e) ltac:(lia) Sy). lia.
  Qed.

  Lemma divides_ok ps bs : R sg ps bs -> good sg input bs -> divides (p_nodes ps).
  Proof.
    intros H G k pk. unfold packs. destruct (packs_of k (p_nodes ps)) as [q|] eqn:E; [|easy]. intros I.
    pose proof (r_tbl _ _ _ H) as Tb. destruct (t_from _ _ _ Tb _ _ _ E I) as (e & Ie & <- & <-).
    destruct (t_rec _ _ _ Tb e Ie) as (L & p & x & Es & P & N & Z & _).
    pose proof (elem_order bs e (gd_T _ _ _ G) Ie) as Or. destruct (ekey_ends sg e) as [S1 S2].
    unfold epack. rewrite Es. rewrite pre_adv. change (prod_of sg (adv L)) with (prod_of sg L). rewrite P. cbn [adv s_dot pred]. rewrite N.
    destruct (wof sg L (be_l e) (be_k e)) as [w|] eqn:W.
    - right. exists w, (symnode x (be_k e) (be_r e)). apply wof_ends in W as [W1 W2].
      rewrite symnode_start, symnode_end, S1, S2. repeat split; auto; lia.
    - left. eexists. split; [reflexivity|]. split; [|rewrite symnode_end; auto]. rewrite symnode_start, S1. apply Z.
      unfold wof in W. rewrite P in W. destruct (s_dot L) as [|d] eqn:D; auto.
      destruct (Nat.eqb _ _); [discriminate|]. destruct d; [|discriminate].
      destruct (nth_error p 0) eqn:Q; [discriminate|]. apply nth_error_None in Q.
      assert (nth_error p 1 <> None) by congruence. apply nth_error_Some in H0. lia.
  Qed.

  Lemma few_ok ps bs : R sg ps bs -> good sg input bs -> few (p_nodes ps) (2 * nS sg + 1).
  Proof.
    intros H G k0 l N Hl. pose proof (r_tbl _ _ _ H) as Tb.
    set (s := n_start k0) in *. set (e0 := n_end k0) in *.
    set (u := (map (fun x => NSym (s_nt x) s e0) (slots_univ sg) ++ map (fun x => NInter x s e0) (slots_univ sg) ++ [NTerm s e0])%list).
    assert (El : length u = 2 * nS sg + 1) by (unfold u; rewrite !app_length, !map_length; unfold nS; cbn; lia).
    rewrite <- El. apply NoDup_incl_length; auto. intros k I. destruct (Hl k I) as [K [K1 K2]]. fold s in K1. fold e0 in K2.
    unfold known in K. destruct (packs_of k (p_nodes ps)) as [q|] eqn:E; [|congruence].
    destruct (t_full _ _ _ Tb _ _ E) as [(a & b & ->)|NE].
    - cbn in K1, K2. subst a b. apply in_app_iff. right. apply in_app_iff. right. left; auto.
    - destruct q as [|pk q]; [congruence|]. destruct (t_from _ _ _ Tb _ _ pk E (or_introl eq_refl)) as (e & Ie & Ek & Ep).
      destruct (elem_range sg input bs e (gd_T _ _ _ G) Ie) as (B & _).
      destruct (ekey_ends sg e) as [S1 S2]. rewrite Ek, K1 in S1. rewrite Ek, K2 in S2.
      assert (X1 : In (NInter (be_slot e) s e0) u) by (apply in_app_iff; right; apply in_app_iff; left; apply in_map_iff; eauto).
      assert (X2 : In (NSym (s_nt (be_slot e)) s e0) u) by (apply in_app_iff; left; apply in_map_iff; eauto).
      rewrite <- Ek. unfold ekey. rewrite <- S1, <- S2. destruct (prod_of sg (be_slot e)); [destruct (Nat.eqb _ _)|]; auto.
  Qed.
End Run.
