(** What the queries on a forest return: trees, ambiguity, counts.
    Its definitions are means of proof and model no code. *)
From Coq Require Import ZArith String Bool List Lia.
From Verif Require Import Syntax Spec Utf8 Num Term Printer Slots PropTerm Gll GllUniv Bsr BsrProof BsrTerm
  LowerProof LowerLang Sppf SppfProof TreeSpec Tree.
Import ListNotations.
Local Open Scope Z_scope.

(** ** Unfolding a table of nodes *)
Section Unfold.
  Variable sg : slot_grammar.
  Variable nodes : ntable.

  (** The trees of a child as its parent shows them. *)
  Definition wrap (c : nkey) (ts : list ptree) : list ptree :=
    match rule_of sg c with Some r => [PT r (n_start c) (n_end c) ts] | None => ts end.

  (** [ft k ts]: some choice of a pack at each node below [k] shows [ts]. *)
  Inductive ft : nkey -> list ptree -> Prop :=
  | ft_term s e : ft (NTerm s e) (leaf s e)
  | ft_one k c ts : In [c] (packs nodes k) -> ft c ts -> ft k (wrap c ts)
  | ft_two k w c ts1 ts2 : In [w; c] (packs nodes k) -> ft w ts1 -> ft c ts2 -> ft k (wrap w ts1 ++ wrap c ts2).

  Definition pack_shape : Prop := forall k pk, In pk (packs nodes k) -> (exists c, pk = [c]) \/ (exists w c, pk = [w; c]).
  Definition term_packs : Prop := forall s e, packs nodes (NTerm s e) = [].
  Definition full : Prop := forall k ps, packs_of k nodes = Some ps -> (exists a b, k = NTerm a b) \/ ps <> [].
  Definition closed : Prop := forall k pk c, In pk (packs nodes k) -> In c pk -> known c nodes.

  Hypothesis PS : pack_shape.
  Hypothesis TP : term_packs.
  Hypothesis FU : full.
  Hypothesis CL : closed.
  Hypothesis FE : first_earlier nodes.

  (** *** The position of a node in the table *)
  Fixpoint rank (k : nkey) (t : ntable) : nat :=
    match t with
    | [] => 0
    | (k', _) :: t' => if nkey_eq_dec k k' then 0 else S (rank k t')
    end.

  Lemma packs_split k ps : forall t, packs_of k t = Some ps ->
    exists t1 t2, t = (t1 ++ (k, ps) :: t2)%list /\ packs_of k t1 = None /\ rank k t = length t1.
  Proof.
    induction t as [|[k' ps'] t IH]; cbn; [discriminate|]. destruct (nkey_eq_dec k k') as [<-|N]; intros H.
    - inversion H; subst. exists [], t. auto.
    - destruct (IH H) as (t1 & t2 & -> & A & B). exists ((k', ps') :: t1), t2. cbn.
      destruct (nkey_eq_dec k k'); [easy|]. auto.
  Qed.
  Lemma rank_known c t2 : forall t1, known c t1 -> (rank c (t1 ++ t2) < length t1)%nat.
  Proof.
    induction t1 as [|[k' ps'] t IH]; cbn; unfold known; cbn; [easy|].
    destruct (nkey_eq_dec c k'); [lia|]. intros H. apply IH in H. lia.
  Qed.

  Lemma first_rank k pk ps c : packs nodes k = pk :: ps -> In c pk -> (rank c nodes < rank k nodes)%nat.
  Proof.
    unfold packs. destruct (packs_of k nodes) as [q|] eqn:E; [|discriminate]. intros -> I.
    destruct (packs_split _ _ _ E) as (t1 & t2 & E1 & _ & E3). rewrite E3.
    pose proof (FE t1 k pk ps t2 c E1 I) as K. rewrite E1. apply rank_known. auto.
  Qed.

  (** *** Tree *)
  Definition child (f : nat) (on : list nkey) (c : nkey) : option (list ptree) :=
    match c with
    | NTerm s e => Some (term_leaf s e)
    | _ =>
        match rule_of sg c with
        | Some r =>
            if nkey_mem c on then Some [PT r (n_start c) (n_end c) []]
            else match collect sg nodes f c (c :: on) with
                 | Some ts => Some [PT r (n_start c) (n_end c) ts]
                 | None => None
                 end
        | None => if nkey_mem c on then Some [] else collect sg nodes f c (c :: on)
        end
    end.

  Lemma collect_S f k on : collect sg nodes (S f) k on =
    match packs nodes k with
    | [] => Some (match k with NTerm s e => term_leaf s e | _ => [] end)
    | pk :: _ =>
        (fix go (cs : list nkey) : option (list ptree) :=
           match cs with
           | [] => Some []
           | c :: cs' => match child f on c, go cs' with Some ts, Some ts' => Some (ts ++ ts')%list | _, _ => None end
           end) pk
    end.
  Proof. reflexivity. Qed.

  Lemma nkey_mem_in k l : nkey_mem k l = true <-> In k l.
  Proof. unfold nkey_mem. destruct (in_dec _ _ _); split; auto; discriminate. Qed.

  Lemma collect_ft f : forall k on, known k nodes -> (rank k nodes < f)%nat ->
    (forall x, In x on -> (rank k nodes <= rank x nodes)%nat) ->
    exists ts, collect sg nodes f k on = Some ts /\ ft k ts.
  Proof.
    induction f as [|f IH]; intros k on K Rk On; [lia|]. rewrite collect_S.
    destruct (packs nodes k) as [|pk ps] eqn:E.
    - unfold packs in E. destruct (packs_of k nodes) as [q|] eqn:Q; [|exfalso; apply K; auto]. subst q.
      destruct (FU _ _ Q) as [(a & b & ->)|]; [|easy]. eexists. split; [reflexivity|]. apply ft_term.
    - assert (C : forall c, In c pk -> exists ts, child f on c = Some (wrap c ts) /\ ft c ts).
      { intros c I. pose proof (first_rank _ _ _ _ E I) as Lt.
        assert (Nm : nkey_mem c on = false).
        { destruct (nkey_mem c on) eqn:M; auto. apply nkey_mem_in in M. apply On in M. lia. }
        assert (Kc : known c nodes) by (apply (CL k pk c); auto; rewrite E; left; auto).
        destruct (IH c (c :: on) Kc ltac:(lia)) as (ts & A & B).
        { intros x [<-|X]; auto. apply On in X. lia. }
        destruct c as [X s e|L s e|s e].
        - exists ts. split; auto. unfold child, wrap. rewrite Nm, A. destruct (rule_of sg (NSym X s e)); auto.
        - exists ts. split; auto. unfold child, wrap. cbn [rule_of]. rewrite Nm, A. auto.
        - exists (leaf s e). split; [reflexivity|apply ft_term]. }
      assert (I0 : In pk (packs nodes k)) by (rewrite E; left; auto).
      destruct (PS k pk I0) as [(c & ->)|(w & c & ->)].
      + destruct (C c ltac:(left; auto)) as (ts & A & B). rewrite A. rewrite app_nil_r.
        eexists. split; [reflexivity|]. eapply ft_one; eauto.
      + destruct (C w ltac:(left; auto)) as (ts1 & A1 & B1). destruct (C c ltac:(right; left; auto)) as (ts2 & A2 & B2).
        rewrite A1, A2, app_nil_r. eexists. split; [reflexivity|]. eapply ft_two; eauto.
  Qed.

  Lemma emit_ft f k : known k nodes -> (rank k nodes < f)%nat ->
    exists ts, emit_symbol sg nodes f k [] =
      Some (PT (match rule_of sg k with Some r => r | None => "" end) (n_start k) (n_end k) ts) /\ ft k ts.
  Proof.
    intros K Rk. destruct (collect_ft f k [k] K Rk) as (ts & A & B).
    - intros x [<-|[]]; auto.
    - exists ts. unfold emit_symbol. rewrite A. auto.
  Qed.

  Lemma rank_lt k : forall t, known k t -> (rank k t < length t)%nat.
  Proof. intros t H. apply (rank_known k []) in H. rewrite app_nil_r in H. auto. Qed.

  (** *** One pack per node, one tree *)
  Inductive reach : nkey -> nkey -> Prop :=
  | reach_refl k : reach k k
  | reach_step k pk c k' : In pk (packs nodes k) -> In c pk -> reach c k' -> reach k k'.

  Lemma reach_trans a b c : reach a b -> reach b c -> reach a c.
  Proof. induction 1; eauto using reach. Qed.

  Lemma ft_unique k ts : ft k ts -> (forall k', reach k k' -> (length (packs nodes k') <= 1)%nat) ->
    forall ts', ft k ts' -> ts' = ts.
  Proof.
    assert (One : forall (l : list (list nkey)) a b, (length l <= 1)%nat -> In a l -> In b l -> a = b).
    { intros [|x [|y l]] a b H A B; cbn in *; [easy| |lia]. destruct A as [<-|[]], B as [<-|[]]. auto. }
    induction 1 as [s e|k c ts I F IH|k w c ts1 ts2 I F1 IH1 F2 IH2]; intros U ts' H.
    - inversion H as [|? ? ? I F|? ? ? ? ? I F1 F2]; subst; auto; rewrite TP in I; destruct I.
    - pose proof (U k (reach_refl k)) as Uk.
      inversion H as [s e|? c' ts2 I' F'|? w' c' ? ? I' F1 F2]; subst.
      + rewrite TP in I; destruct I.
      + pose proof (One _ _ _ Uk I I') as E. inversion E; subst c'. f_equal. apply IH; auto.
        intros k' R. apply U. eapply reach_step; eauto. left; auto.
      + pose proof (One _ _ _ Uk I I') as E. inversion E.
    - pose proof (U k (reach_refl k)) as Uk.
      inversion H as [s e|? c' ? I' F'|? w' c' ? ? I' F1' F2']; subst.
      + rewrite TP in I; destruct I.
      + pose proof (One _ _ _ Uk I I') as E. inversion E.
      + pose proof (One _ _ _ Uk I I') as E. inversion E; subst w' c'. f_equal; f_equal.
        * apply IH1; auto. intros k' R. apply U. eapply reach_step; eauto. left; auto.
        * apply IH2; auto. intros k' R. apply U. eapply reach_step; eauto. right; left; auto.
  Qed.

  (** *** Ambiguous *)
  Definition amb_list (f : nat) := fix go (cs : list nkey) (seen : list nkey) : option (bool * list nkey) :=
    match cs with
    | [] => Some (false, seen)
    | c :: cs' =>
        match amb_walk nodes f c seen with
        | Some (true, s) => Some (true, s)
        | Some (false, s) => go cs' s
        | None => None
        end
    end.
  Lemma amb_S f k seen : amb_walk nodes (S f) k seen =
    if nkey_mem k seen then Some (false, seen)
    else if Nat.ltb 1 (length (packs nodes k)) then Some (true, k :: seen)
    else amb_list f (concat (packs nodes k)) (k :: seen).
  Proof. reflexivity. Qed.

  Lemma amb_cons f c cs seen : amb_list f (c :: cs) seen =
    match amb_walk nodes f c seen with
    | Some (true, s) => Some (true, s)
    | Some (false, s) => amb_list f cs s
    | None => None
    end.
  Proof. reflexivity. Qed.

  Definition fresh_done (seen seen' : list nkey) : Prop :=
    incl seen seen' /\
    forall x, In x seen' -> In x seen \/ ((length (packs nodes x) <= 1)%nat /\ forall c, In c (concat (packs nodes x)) -> In c seen').

  Lemma fresh_refl s : fresh_done s s.
  Proof. split; [apply incl_refl|auto]. Qed.
  Lemma fresh_trans a b c : fresh_done a b -> fresh_done b c -> fresh_done a c.
  Proof.
    intros [A1 A2] [B1 B2]. split; [eapply incl_tran; eauto|]. intros x X.
    destruct (B2 x X) as [Y|Y]; auto. destruct (A2 x Y) as [Z|[Z1 Z2]]; auto.
  Qed.

  Lemma amb_false f : (forall k seen s, amb_walk nodes f k seen = Some (false, s) -> fresh_done seen s /\ In k s) /\
    (forall cs seen s, amb_list f cs seen = Some (false, s) -> fresh_done seen s /\ forall c, In c cs -> In c s).
  Proof.
    induction f as [|f [IH1 IH2]].
    - split; [discriminate|]. intros [|c cs] seen s; cbn; intros H; inversion H; subst.
      split; [apply fresh_refl|easy].
    - assert (W : forall k seen s, amb_walk nodes (S f) k seen = Some (false, s) -> fresh_done seen s /\ In k s).
      { intros k seen s. rewrite amb_S. destruct (nkey_mem k seen) eqn:M.
        - intros H; inversion H; subst. apply nkey_mem_in in M. split; [apply fresh_refl|auto].
        - destruct (Nat.ltb_spec 1 (length (packs nodes k))) as [|Le]; [discriminate|]. intros H.
          destruct (IH2 _ _ _ H) as [[A1 A2] B]. split; [|apply A1; left; auto]. split.
          + intros x X. apply A1. right; auto.
          + intros x X. destruct (A2 x X) as [[<-|Y]|Y]; auto. }
      split; [exact W|]. induction cs as [|c cs IHc]; intros seen s.
      + intros H; inversion H; subst. split; [apply fresh_refl|easy].
      + rewrite amb_cons. destruct (amb_walk nodes (S f) c seen) as [[[] s1]|] eqn:E; try discriminate. intros H.
        destruct (W _ _ _ E) as [A B]. destruct (IHc _ _ H) as [C D]. split; [eapply fresh_trans; eauto|].
        intros x [<-|X]; auto. apply C. auto.
  Qed.

  Lemma amb_false_unique f k s : amb_walk nodes f k [] = Some (false, s) ->
    forall k', reach k k' -> (length (packs nodes k') <= 1)%nat.
  Proof.
    intros H. destruct (proj1 (amb_false f) _ _ _ H) as [[_ F] K].
    assert (G : forall a b, reach a b -> In a s -> In b s).
    { induction 1; auto. intros I. apply IHreach. destruct (F _ I) as [[]|[_ C]]. apply C. apply in_concat. eauto. }
    intros k' R. destruct (F k' (G _ _ R K)) as [[]|[L _]]. auto.
  Qed.

  Lemma amb_true f : (forall k seen s, amb_walk nodes f k seen = Some (true, s) ->
      exists k', reach k k' /\ (1 < length (packs nodes k'))%nat) /\
    (forall cs seen s, amb_list f cs seen = Some (true, s) ->
      exists c k', In c cs /\ reach c k' /\ (1 < length (packs nodes k'))%nat).
  Proof.
    induction f as [|f [IH1 IH2]].
    - split; [discriminate|]. intros [|c cs] seen s; cbn; discriminate.
    - assert (W : forall k seen s, amb_walk nodes (S f) k seen = Some (true, s) ->
        exists k', reach k k' /\ (1 < length (packs nodes k'))%nat).
      { intros k seen s. rewrite amb_S. destruct (nkey_mem k seen); [discriminate|].
        destruct (Nat.ltb_spec 1 (length (packs nodes k))) as [Lt|Le].
        - intros _. exists k. split; [constructor|auto].
        - intros H. destruct (IH2 _ _ _ H) as (c & k' & I & R & L). exists k'. split; auto.
          apply in_concat in I as (pk & I1 & I2). eapply reach_step; eauto. }
      split; [exact W|]. induction cs as [|c cs IHc]; intros seen s; [discriminate|]. rewrite amb_cons.
      destruct (amb_walk nodes (S f) c seen) as [[[] s1]|] eqn:E; try discriminate.
      + intros H. destruct (W _ _ _ E) as (k' & R & L). exists c, k'. split; [left; auto|auto].
      + intros H. destruct (IHc _ _ H) as (c' & k' & I & R). exists c', k'. split; [right; auto|auto].
  Qed.

  (** *** Fuel: each level of a walk adds a node *)
  Definition keys : list nkey := map fst nodes.
  Lemma known_keys k : known k nodes <-> In k keys.
  Proof.
    unfold known, keys. clear. induction nodes as [|[k' ps] t IH]; cbn; [easy|].
    destruct (nkey_eq_dec k k') as [<-|N]; [split; [auto|discriminate]|]. rewrite IH.
    split; auto. intros [<-|H]; [easy|auto].
  Qed.

  Lemma fresh_len (seen : list nkey) : NoDup seen -> (forall x, In x seen -> known x nodes) -> (length seen <= length nodes)%nat.
  Proof.
    intros N K. replace (length nodes) with (length keys) by (unfold keys; apply map_length).
    apply NoDup_incl_length; auto. intros x X. apply known_keys; auto.
  Qed.

  Lemma closed_concat k c : In c (concat (packs nodes k)) -> known c nodes.
  Proof. intros I. apply in_concat in I as (pk & A & B). eapply CL; eauto. Qed.

  Definition seen_ok (seen : list nkey) : Prop := NoDup seen /\ forall x, In x seen -> known x nodes.

  Lemma amb_total f : (forall k seen, known k nodes -> seen_ok seen -> (length nodes < f + length seen)%nat ->
      exists b s, amb_walk nodes f k seen = Some (b, s) /\ seen_ok s /\ (length seen <= length s)%nat) /\
    (forall cs seen, (forall c, In c cs -> known c nodes) -> seen_ok seen -> (length nodes < f + length seen)%nat ->
      exists b s, amb_list f cs seen = Some (b, s) /\ seen_ok s /\ (length seen <= length s)%nat).
  Proof.
    induction f as [|f [IH1 IH2]].
    - split.
      + intros k seen K [N O] L. pose proof (fresh_len seen N O). lia.
      + intros cs seen K [N O] L. pose proof (fresh_len seen N O). lia.
    - assert (W : forall k seen, known k nodes -> seen_ok seen -> (length nodes < S f + length seen)%nat ->
        exists b s, amb_walk nodes (S f) k seen = Some (b, s) /\ seen_ok s /\ (length seen <= length s)%nat).
      { intros k seen K O L. rewrite amb_S. destruct (nkey_mem k seen) eqn:M.
        - exists false, seen. auto.
        - assert (O' : seen_ok (k :: seen)).
          { destruct O as [O1 O2]. split.
            - constructor; auto. intros I. apply nkey_mem_in in I. congruence.
            - intros x [<-|X]; auto. }
          destruct (Nat.ltb _ _); [exists true, (k :: seen); split; auto; split; auto; cbn; lia|].
          destruct (IH2 (concat (packs nodes k)) (k :: seen)) as (b & s & A & B & C); auto.
          + intros c. apply closed_concat.
          + cbn. lia.
          + exists b, s. split; auto. split; auto. cbn in C. lia. }
      split; [exact W|]. induction cs as [|c cs IHc]; intros seen K O L.
      + exists false, seen. auto.
      + rewrite amb_cons. destruct (W c seen) as (b & s & A & B & C); auto; [apply K; left; auto|]. rewrite A. destruct b.
        * exists true, s. auto.
        * destruct (IHc s) as (b & s' & A' & B' & C'); auto; [intros; apply K; right; auto|lia|].
          exists b, s'. split; auto. split; auto. lia.
  Qed.

  (** *** NumTrees *)
  Inductive ut : Type := UT (k : nkey) (us : list ut).
  Definition uroot (u : ut) : nkey := match u with UT k _ => k end.

  (** [unf k u]: [u] unfolds [k] by a choice of a pack at each node. *)
  Inductive unf : nkey -> ut -> Prop :=
  | unf_leaf k : packs nodes k = [] -> unf k (UT k [])
  | unf_pack k pk us : In pk (packs nodes k) -> Forall2 unf pk us -> unf k (UT k us).

  Definition step (c k : nkey) : Prop := exists pk, In pk (packs nodes k) /\ In c pk.
  (** Exactly [v] unfoldings, and no cycle below. *)
  Definition cnt (k : nkey) (v : Z) : Prop :=
    Acc step k /\ exists l, NoDup l /\ Z.of_nat (length l) = v /\ forall u, In u l <-> unf k u.
  Definition cntl (cs : list nkey) (v : Z) : Prop :=
    (forall c, In c cs -> Acc step c) /\
    exists l, NoDup l /\ Z.of_nat (length l) = v /\ forall us, In us l <-> Forall2 unf cs us.
  Definition cnts (ps : list (list nkey)) (v : Z) : Prop :=
    (forall pk c, In pk ps -> In c pk -> Acc step c) /\
    exists l, NoDup l /\ Z.of_nat (length l) = v /\ forall us, In us l <-> exists pk, In pk ps /\ Forall2 unf pk us.

  Lemma unf_root k u : unf k u -> uroot u = k.
  Proof. intros H; inversion H; auto. Qed.
  Lemma unfs_roots cs us : Forall2 unf cs us -> map uroot us = cs.
  Proof. induction 1; cbn; auto. f_equal; auto. apply unf_root; auto. Qed.

  Lemma NoDup_app_intro {A} (a b : list A) : NoDup a -> NoDup b -> (forall x, In x a -> In x b -> False) -> NoDup (a ++ b).
  Proof.
    induction 1 as [|x a N H IH]; cbn; intros B D; auto. constructor.
    - rewrite in_app_iff. intros [I|I]; [easy|]. apply (D x); auto.
    - apply IH; auto. intros y Y1 Y2. apply (D y); auto.
  Qed.
  Lemma NoDup_map_inj {A B} (f : A -> B) l : (forall x y, f x = f y -> x = y) -> NoDup l -> NoDup (map f l).
  Proof.
    intros I. induction 1 as [|x l N H IH]; cbn; constructor; auto. rewrite in_map_iff. intros (y & E & Y).
    apply I in E. subst. auto.
  Qed.

  Definition pairs (l1 : list ut) (l2 : list (list ut)) : list (list ut) := flat_map (fun u => map (cons u) l2) l1.
  Lemma pairs_in l1 l2 us : In us (pairs l1 l2) <-> exists u t, us = u :: t /\ In u l1 /\ In t l2.
  Proof.
    unfold pairs. rewrite in_flat_map. split.
    - intros (u & U & I). apply in_map_iff in I as (t & <- & T). eauto.
    - intros (u & t & -> & U & T). exists u. split; auto. apply in_map. auto.
  Qed.
  Lemma pairs_len l1 l2 : length (pairs l1 l2) = (length l1 * length l2)%nat.
  Proof. unfold pairs. induction l1; cbn; auto. rewrite app_length, map_length, IHl1. auto. Qed.
  Lemma pairs_nodup l1 l2 : NoDup l1 -> NoDup l2 -> NoDup (pairs l1 l2).
  Proof.
    intros H1 H2. induction H1 as [|u l1 N H1 IH]; cbn; [constructor|]. apply NoDup_app_intro; auto.
    - apply NoDup_map_inj; auto. intros x y E. inversion E; auto.
    - intros x X Y. apply in_map_iff in X as (t & <- & T). apply pairs_in in Y as (u' & t' & E & U & _).
      inversion E; subst. auto.
  Qed.

  Lemma cntl_nil : cntl [] 1.
  Proof.
    split; [easy|]. exists [[]]. split; [constructor; [easy|constructor]|]. split; auto. intros us. split.
    - intros [<-|[]]. constructor.
    - intros H; inversion H; left; auto.
  Qed.
  Lemma cntl_cons c cs v w : cnt c v -> cntl cs w -> cntl (c :: cs) (v * w).
  Proof.
    intros (A & l1 & N1 & E1 & H1) (B & l2 & N2 & E2 & H2). split; [intros x [<-|X]; auto|].
    exists (pairs l1 l2). split; [apply pairs_nodup; auto|]. split; [rewrite pairs_len; lia|].
    intros us. rewrite pairs_in. split.
    - intros (u & t & -> & U & T). constructor; [apply H1|apply H2]; auto.
    - intros H; inversion H; subst. eexists _, _. split; [reflexivity|]. split; [apply H1|apply H2]; auto.
  Qed.
  Lemma cnts_nil : cnts [] 0.
  Proof. split; [easy|]. exists []. split; [constructor|]. split; auto. intros us. split; [easy|]. intros (pk & [] & _). Qed.
  Lemma cnts_cons pk ps v w : ~ In pk ps -> cntl pk v -> cnts ps w -> cnts (pk :: ps) (v + w).
  Proof.
    intros N (A & l1 & N1 & E1 & H1) (B & l2 & N2 & E2 & H2). split; [intros q c [<-|Q]; eauto|].
    exists (l1 ++ l2)%list. split.
    - apply NoDup_app_intro; auto. intros us X Y. apply H1, unfs_roots in X. apply H2 in Y as (q & Q & Y).
      apply unfs_roots in Y. congruence.
    - split; [rewrite app_length; lia|]. intros us. rewrite in_app_iff, H1, H2. split.
      + intros [H|(q & Q & H)]; [exists pk|exists q]; cbn; auto.
      + intros (q & [<-|Q] & H); eauto.
  Qed.

  Definition cprod (f : nat) (k : nkey) (on : list nkey) := fix prod (cs : list nkey) (acc : Z) (st : cstate) : option (Z * cstate) :=
    match cs with
    | [] => Some (acc, st)
    | c :: cs' =>
        match count nodes f c (k :: on) st with
        | Some (v, st') => prod cs' (acc * v) st'
        | None => None
        end
    end.
  Definition csum (f : nat) (k : nkey) (on : list nkey) := fix sum (ps : list (list nkey)) (total : Z) (st : cstate) : option (Z * cstate) :=
    match ps with
    | [] => Some (total, st)
    | pk :: ps' =>
        match cprod f k on pk 1 st with
        | Some (v, st') => sum ps' (total + v) st'
        | None => None
        end
    end.
  Lemma count_S f k on st : count nodes (S f) k on st =
    match memo_get k (fst st) with
    | Some v => Some (v, st)
    | None =>
        if nkey_mem k on then Some (1, (fst st, true))
        else match csum f k on (packs nodes k) (match packs nodes k with [] => 1 | _ => 0 end) st with
             | Some (total, st') => Some (total, ((k, total) :: fst st', snd st'))
             | None => None
             end
    end.
  Proof. reflexivity. Qed.
  Lemma cprod_cons f k on c cs acc st : cprod f k on (c :: cs) acc st =
    match count nodes f c (k :: on) st with
    | Some (v, st') => cprod f k on cs (acc * v) st'
    | None => None
    end.
  Proof. reflexivity. Qed.
  Lemma csum_cons f k on pk ps total st : csum f k on (pk :: ps) total st =
    match cprod f k on pk 1 st with
    | Some (v, st') => csum f k on ps (total + v) st'
    | None => None
    end.
  Proof. reflexivity. Qed.

  Hypothesis ND : forall k, NoDup (packs nodes k).

  Definition minv (m : list (nkey * Z)) : Prop := forall k v, memo_get k m = Some v -> cnt k v.
  Definition cres (st st' : cstate) (P : Prop) : Prop :=
    (snd st' = false -> snd st = false) /\ (snd st' = false -> minv (fst st) -> minv (fst st') /\ P).

  Lemma memo_get_cons k k' v m : memo_get k ((k', v) :: m) = if nkey_eq_dec k k' then Some v else memo_get k m.
  Proof. unfold memo_get. cbn. destruct (nkey_eq_dec k k'); auto. Qed.

  Lemma count_exact f : forall k on st v st', count nodes f k on st = Some (v, st') -> cres st st' (cnt k v).
  Proof.
    induction f as [|f IH]; intros k on st v st'; [discriminate|]. rewrite count_S.
    destruct (memo_get k (fst st)) as [v0|] eqn:M.
    { intros H; inversion H; subst. split; auto. }
    destruct (nkey_mem k on).
    { intros H; inversion H; subst. split; discriminate. }
    assert (Pr : forall cs acc st v st', cprod f k on cs acc st = Some (v, st') ->
      cres st st' (exists w, v = acc * w /\ cntl cs w)).
    { clear - IH. induction cs as [|c cs IHc]; intros acc st v st'.
      - intros H; inversion H; subst. split; auto. intros _ I. split; auto. exists 1. split; [lia|apply cntl_nil].
      - rewrite cprod_cons. destruct (count nodes f c (k :: on) st) as [[v1 st1]|] eqn:E; [|discriminate]. intros H.
        destruct (IH _ _ _ _ _ E) as [A1 A2]. destruct (IHc _ _ _ _ H) as [B1 B2]. split; auto.
        intros F I. destruct (A2 (B1 F) I) as [A3 A4]. destruct (B2 F A3) as [B3 (w & Ew & B4)]. split; auto.
        exists (v1 * w). split; [lia|]. apply cntl_cons; auto. }
    assert (Sm : forall ps total st v st', NoDup ps -> csum f k on ps total st = Some (v, st') ->
      cres st st' (exists w, v = total + w /\ cnts ps w)).
    { clear - Pr. induction ps as [|pk ps IHp]; intros total st v st' N.
      - intros H; inversion H; subst. split; auto. intros _ I. split; auto. exists 0. split; [lia|apply cnts_nil].
      - inversion N as [|? ? N1 N2]; subst. rewrite csum_cons.
        destruct (cprod f k on pk 1 st) as [[v1 st1]|] eqn:E; [|discriminate]. intros H.
        destruct (Pr _ _ _ _ _ E) as [A1 A2]. destruct (IHp _ _ _ _ N2 H) as [B1 B2]. split; auto.
        intros F I. destruct (A2 (B1 F) I) as [A3 (w1 & E1 & A4)]. destruct (B2 F A3) as [B3 (w & Ew & B4)]. split; auto.
        exists (w1 + w). split; [lia|]. apply cnts_cons; auto. }
    destruct (csum _ _ _ _ _ _) as [[total st1]|] eqn:E; [|discriminate]. intros H. inversion H; subst v st'. clear H.
    destruct (Sm _ _ _ _ _ (ND k) E) as [A B]. split; cbn [fst snd]; auto.
    intros F I. destruct (B F I) as [B1 (w & Ew & B2)].
    assert (C : cnt k total).
    { destruct B2 as (C1 & l & C2 & C3 & C4). destruct (packs nodes k) as [|pk ps] eqn:Q.
      - split.
        + constructor. intros c (pk & X & _). rewrite Q in X. destruct X.
        + exists [UT k []]. split; [constructor; [easy|constructor]|].
          assert (length l = 0%nat).
          { destruct l as [|us l]; auto. destruct (proj1 (C4 us) (or_introl eq_refl)) as (pk & [] & _). }
          split; [cbn; lia|]. intros u. split.
          * intros [<-|[]]. constructor; auto.
          * intros U. inversion U as [? Z|? ? ? Z]; subst; [left; auto|]. rewrite Q in Z. destruct Z.
      - split.
        + constructor. intros c (q & X & Y). rewrite Q in X. eauto.
        + exists (map (UT k) l). split; [apply NoDup_map_inj; auto; intros x y Exy; inversion Exy; auto|].
          split; [rewrite map_length; lia|]. intros u. rewrite in_map_iff. split.
          * intros (us & <- & U). apply C4 in U as (q & X & Y). apply unf_pack with (pk := q); auto. rewrite Q. auto.
          * intros U. inversion U as [? Z|? q us Z1 Z2]; subst; [congruence|]. exists us. split; auto. apply C4.
            exists q. rewrite <- Q. auto. }
    split; auto. intros k' v'. rewrite memo_get_cons. destruct (nkey_eq_dec k' k) as [->|]; [|apply B1].
    intros X; inversion X; subst. auto.
  Qed.

  (** The flag is raised only on a cycle. *)
  Definition below (x y : nkey) : Prop := exists c, step c x /\ reach c y.
  Lemma count_cycle f : forall k on st v st', count nodes f k on st = Some (v, st') ->
    snd st = false -> snd st' = true -> (forall x, In x on -> below x k) -> exists x, reach k x /\ below x x.
  Proof.
    induction f as [|f IH]; intros k on st v st'; [discriminate|]. rewrite count_S.
    destruct (memo_get k (fst st)) as [v0|] eqn:M.
    { intros H; inversion H; subst. congruence. }
    destruct (nkey_mem k on) eqn:Mem.
    { intros H; inversion H; subst. intros _ _ On. exists k. split; [constructor|]. apply On. apply nkey_mem_in; auto. }
    intros H S0 S1 On.
    assert (Pr : forall cs acc st v st', (forall c, In c cs -> step c k) -> cprod f k on cs acc st = Some (v, st') ->
      snd st = false -> snd st' = true -> exists x, reach k x /\ below x x).
    { clear - IH On. induction cs as [|c cs IHc]; intros acc st v st' Cs.
      - intros H; inversion H; subst. congruence.
      - rewrite cprod_cons. destruct (count nodes f c (k :: on) st) as [[v1 st1]|] eqn:E; [|discriminate]. intros H S0 S1.
        destruct (snd st1) eqn:F.
        + assert (Sc : step c k) by (apply Cs; left; auto).
          destruct (IH _ _ _ _ _ E S0 F) as (x & X1 & X2).
          * intros y [<-|Y]; [exists c; split; [auto|constructor]|]. destruct (On y Y) as (d & D1 & D2). exists d. split; auto.
            eapply reach_trans; eauto. destruct Sc as (pk & P1 & P2). eapply reach_step; eauto. constructor.
          * exists x. split; auto. destruct Sc as (pk & P1 & P2). eapply reach_step; eauto.
        + eapply IHc; eauto. intros d D. apply Cs. right; auto. }
    assert (Sm : forall ps total st v st', (forall pk, In pk ps -> In pk (packs nodes k)) -> csum f k on ps total st = Some (v, st') ->
      snd st = false -> snd st' = true -> exists x, reach k x /\ below x x).
    { clear - Pr. induction ps as [|pk ps IHp]; intros total st v st' Ps.
      - intros H; inversion H; subst. congruence.
      - rewrite csum_cons. destruct (cprod f k on pk 1 st) as [[v1 st1]|] eqn:E; [|discriminate]. intros H S0 S1.
        destruct (snd st1) eqn:F.
        + eapply Pr; [|exact E|auto|auto]. intros c C. exists pk. split; auto. apply Ps. left; auto.
        + eapply IHp; eauto. intros q Q. apply Ps. right; auto. }
    destruct (csum _ _ _ _ _ _) as [[total st1]|] eqn:E; [|discriminate]. inversion H; subst v st'.
    eapply Sm; [|exact E|auto|auto]. auto.
  Qed.

  Lemma acc_no_cycle k : Acc step k -> forall x, reach k x -> ~ below x x.
  Proof.
    intros A x R. assert (Ax : Acc step x).
    { revert A. clear - R. induction R; auto. intros [A]. apply IHR. apply A. exists pk. auto. }
    clear A R. induction Ax as [x _ IH]. intros (c & S & R). apply (IH c S).
    clear IH. inversion R as [|? pk d ? P1 P2 R']; subst; [eexists; split; [exact S|constructor]|].
    exists d. split; [exists pk; auto|]. eapply reach_trans; eauto. destruct S as (q & Q1 & Q2).
    eapply reach_step; eauto. constructor.
  Qed.

  Lemma count_total f : forall k on st, known k nodes -> seen_ok on -> (length nodes < f + length on)%nat ->
    exists v st', count nodes f k on st = Some (v, st').
  Proof.
    induction f as [|f IH]; intros k on st K O L.
    { destruct O as [N O]. pose proof (fresh_len on N O). lia. }
    rewrite count_S. destruct (memo_get k (fst st)) as [v0|]; [eauto|].
    destruct (nkey_mem k on) eqn:M; [eauto|].
    assert (O' : seen_ok (k :: on)).
    { destruct O as [O1 O2]. split.
      - constructor; auto. intros I. apply nkey_mem_in in I. congruence.
      - intros x [<-|X]; auto. }
    assert (Pr : forall cs acc st, (forall c, In c cs -> known c nodes) -> exists v st', cprod f k on cs acc st = Some (v, st')).
    { induction cs as [|c cs IHc]; intros acc st0 Kc; [cbn; eauto|]. rewrite cprod_cons.
      destruct (IH c (k :: on) st0) as (v & st' & E); auto; [apply Kc; left; auto|cbn; lia|]. rewrite E.
      apply IHc. intros d D. apply Kc. right; auto. }
    assert (Sm : forall ps total st, (forall pk, In pk ps -> In pk (packs nodes k)) ->
      exists v st', csum f k on ps total st = Some (v, st')).
    { induction ps as [|pk ps IHp]; intros total st0 Ps; [cbn; eauto|]. rewrite csum_cons.
      destruct (Pr pk 1 st0) as (v & st' & E); [intros c C; eapply CL; eauto; apply Ps; left; auto|]. rewrite E.
      apply IHp. intros q Q. apply Ps. right; auto. }
    destruct (Sm (packs nodes k) (match packs nodes k with [] => 1 | _ => 0 end) st) as (v & st' & E); auto.
    rewrite E. eauto.
  Qed.

  (** *** Trees shown by unfoldings *)
  Fixpoint show (u : ut) : list ptree :=
    match u with
    | UT k us =>
        match us with
        | [] => match k with NTerm s e => leaf s e | _ => [] end
        | _ => concat (map (fun u => wrap (uroot u) (show u)) us)
        end
    end.

  Lemma ft_unf k ts : ft k ts -> exists u, unf k u /\ show u = ts.
  Proof.
    induction 1 as [s e|k c ts I F (u & U & S)|k w c ts1 ts2 I F1 (u1 & U1 & S1) F2 (u2 & U2 & S2)].
    - exists (UT (NTerm s e) []). split; [constructor; apply TP|reflexivity].
    - exists (UT k [u]). split; [eapply unf_pack; eauto|]. cbn. rewrite S, (unf_root _ _ U). apply app_nil_r.
    - exists (UT k [u1; u2]). split; [eapply unf_pack; eauto|]. cbn.
      rewrite S1, S2, (unf_root _ _ U1), (unf_root _ _ U2), app_nil_r. reflexivity.
  Qed.

  (** No more trees than counted. *)
  Lemma cnt_bound k v l : cnt k v -> NoDup l -> (forall ts, In ts l -> ft k ts) -> Z.of_nat (length l) <= v.
  Proof.
    intros (_ & us & N & <- & U) Nl H. apply inj_le. rewrite <- (map_length show us).
    apply NoDup_incl_length; auto. intros ts I. apply H, ft_unf in I as (u & X & <-). apply in_map. apply U; auto.
  Qed.
End Unfold.
