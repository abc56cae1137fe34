(** The unfoldings of the set of ParseBSR and those of the nodes of ParseForest: the
    former map onto the latter, one to one unless two alternates of a nonterminal have
    the same children.
    Its definitions are means of proof and model no code. *)
From Coq Require Import ZArith Arith String Bool List Lia.
From Verif Require Import Syntax Spec Utf8 Num Term Printer Slots PropTerm Gll GllUniv Bsr BsrProof
  LowerProof LowerLang Sppf SppfProof TreeSpec Tree PropGll TreeCount Codegen BsrTree BsrCount BsrTreeProof.
From Verif Require TreeProof TreeSound.
Import ListNotations.
Local Open Scope list_scope.
Local Open Scope nat_scope.

(** Two symbols that can have one node: the same nonterminal, or terminals (or the empty
    symbol) that match the same bytes somewhere in the input. *)
Definition alike (input : list Z) (x y : ssym) : Prop :=
  match x, y with
  | SNonterm a, SNonterm b => a = b
  | SNonterm _, _ | _, SNonterm _ => False
  | _, _ => exists i j, i <= length input /\ match_sym x input i = Some j /\ match_sym y input i = Some j
  end.
(** No two alternates of a nonterminal, of at most two symbols, are alike. *)
Definition no_twins (sg : slot_grammar) (input : list Z) : Prop :=
  forall X nt a b p q, nth_error (sg_nts sg) X = Some nt -> a <> b ->
    nth_error (nt_alts nt) a = Some p -> nth_error (nt_alts nt) b = Some q ->
    length p <= 2 -> ~ Forall2 (alike input) p q.

Section Agree.
  Variable sg : slot_grammar.
  Variable input : list Z.
  Variable nodes : ntable.
  Variable set : list belem.
  Hypothesis T : tbl sg nodes set.
  Hypothesis OK : forall e, In e set -> ok_elem sg input e.
  Hypothesis ND : NoDup set.
  Hypothesis TP : TreeProof.term_packs nodes.
  Hypothesis CL : TreeProof.closed nodes.

  Notation pd := (bf_prod_dot sg).
  Notation bc := (bf_complete sg).
  Notation pv := (bf_pivots set).
  Notation ell := (el slot bc pv).
  Notation kds := (kids slot pd bf_before).
  Notation pts := (parts_of slot pd bf_before).
  Notation unf' := (unf slot pd bf_before bc pv).
  Notation step' := (step slot pd bf_before bc pv).
  Notation reach' := (reach slot pd bf_before bc pv).
  Notation below' := (below slot pd bf_before bc pv).
  Notation U' := (U nodes).
  Notation ut := TreeProof.ut.
  Notation UT := TreeProof.UT.

  Lemma pack_elem id pk : In pk (packs nodes (nk id)) -> U' id /\
    exists e p q, In e (ell id) /\ pts id e = Some (p, q) /\ pk = pkey p ++ pkey q /\ pkey q <> [].
  Proof.
    intros I. assert (Hu : U' id) by (unfold U, known; unfold packs in I; destruct (packs_of (nk id) nodes); [discriminate|destruct I]).
    split; auto. unfold packs in I. destruct (packs_of (nk id) nodes) as [ps|] eqn:E; [|destruct I]. destruct (t_from _ _ _ T _ _ _ E I) as (e & Ie & Ek & Ep).
    assert (Ee : mkBE (be_slot e) (left_end id) (be_k e) (right_end id) = e).
    { destruct (t_rec _ _ _ T e Ie) as (L & p & y & Es & P & _). unfold ekey in Ek. rewrite Es in Ek. change (prod_of sg (adv L)) with (prod_of sg L) in Ek. rewrite P in Ek.
      destruct e as [s l k0 r]. cbn [be_slot be_l be_r be_k] in *. destruct (Nat.eqb _ _), id; cbn [nk] in Ek; inversion Ek; subst; reflexivity. }
    assert (Il : In (be_slot e, be_k e) (ell id)) by (apply (el_in sg nodes set T); auto; rewrite Ee; auto).
    rewrite <- Ee in Ie. destruct (parts_ok sg input nodes set T OK _ _ _ _ Ie) as (p & q & A & B & C & _). exists (be_slot e, be_k e), p, q. split; auto. split; [exact A|].
    rewrite Ee in B. split; [congruence|exact C].
  Qed.

  (** *** Steps *)
  Lemma step_to c id : U' id -> step' c id -> TreeProof.step nodes (nk c) (nk id).
  Proof.
    intros Hu (e & I & C). destruct (parts_of_ok sg input nodes set T OK id e Hu I) as (p & q & E & Ip & _). exists (pkey p ++ pkey q). split; auto.
    unfold kids in C. rewrite E in C. apply in_or_app. pose proof (pkey_node p) as Kp. pose proof (pkey_node q) as Kq.
    apply in_app_or in C as [C|C]; [destruct (node_of_part q); [|destruct C]; right; rewrite Kq|destruct (node_of_part p); [|destruct C]; left; rewrite Kp]; destruct C as [->|[]]; left; auto.
  Qed.
  Lemma part_key x id : In (nk id) (pkey x) -> node_of_part x = Some id.
  Proof. destruct x as [|[y| |] a b|s a b]; cbn; intros [E|[]] || intros []; destruct id; cbn in E; inversion E; auto. Qed.
  Lemma step_from c id : TreeProof.step nodes (nk c) (nk id) -> step' c id.
  Proof.
    intros (pk & I & C). destruct (pack_elem id pk I) as (Hu & e & p & q & Ie & Ep & -> & _). exists e. split; auto. unfold kids. rewrite Ep. apply in_or_app.
    apply in_app_or in C as [C|C]; apply part_key in C; rewrite C; cbn; auto.
  Qed.
  Lemma step_below k id : TreeProof.step nodes k (nk id) -> (exists c, k = nk c) \/ exists a b, k = NTerm a b.
  Proof. intros _. destruct k as [X l r|s l r|a b]; [left; exists (QS X l r)|left; exists (QI s l r)|right; eauto]; auto. Qed.
  Lemma term_no_step a b k : ~ TreeProof.step nodes k (NTerm a b).
  Proof. intros (pk & I & _). rewrite TP in I. destruct I. Qed.
  Lemma reach_to a b : reach' a b -> U' a -> TreeProof.reach nodes (nk a) (nk b).
  Proof.
    induction 1 as [id|id c x S R IH]; intros Hu; [constructor|]. destruct (step_to c id Hu S) as (pk & I & C). eapply TreeProof.reach_step; eauto. apply IH.
    destruct S as (e & I' & C'). eapply U_kids_ok; eauto.
  Qed.
  Lemma reach_from k x : TreeProof.reach nodes k x -> forall a b, nk a = k -> nk b = x -> reach' a b.
  Proof.
    induction 1 as [k|k pk c x I C R IH]; intros a b Ea Eb.
    - rewrite <- Eb in Ea. apply nk_inj in Ea. subst. constructor.
    - subst k. destruct c as [X l r|s l r|p q].
      + eapply reach_step; [apply (step_from (QS X l r)); exists pk; auto|]. apply IH; auto.
      + eapply reach_step; [apply (step_from (QI s l r)); exists pk; auto|]. apply IH; auto.
      + exfalso. inversion R as [|? pk' c' ? I' C']; subst; [destruct b; discriminate|]. rewrite TP in I'. destruct I'.
  Qed.
  Lemma cycle_same id : U' id ->
    ((exists x, reach' id x /\ below' x x) <-> exists x, TreeProof.reach nodes (nk id) x /\ TreeProof.below nodes x x).
  Proof.
    intros Hu. split.
    - intros (x & R & c & S & R2). exists (nk x). split; [apply reach_to; auto|].
      assert (Ux : U' x). { clear S R2. induction R as [|id c' x S R IH]; auto. apply IH. destruct S as (e & I & C). eapply U_kids_ok; eauto. }
      exists (nk c). split; [apply step_to; auto|]. apply reach_to; auto. destruct S as (e & I & C). eapply U_kids_ok; eauto.
    - intros (x & R & c & S & R2). destruct x as [X l r|s l r|p q].
      + exists (QS X l r). split; [apply (reach_from _ _ R); auto|]. destruct c as [X' l' r'|s' l' r'|p q].
        * exists (QS X' l' r'). split; [apply step_from; auto|apply (reach_from _ _ R2); auto].
        * exists (QI s' l' r'). split; [apply step_from; auto|apply (reach_from _ _ R2); auto].
        * exfalso. inversion R2 as [|? pk' c' ? I' C']; subst. rewrite TP in I'. destruct I'.
      + exists (QI s l r). split; [apply (reach_from _ _ R); auto|]. destruct c as [X' l' r'|s' l' r'|p q].
        * exists (QS X' l' r'). split; [apply step_from; auto|apply (reach_from _ _ R2); auto].
        * exists (QI s' l' r'). split; [apply step_from; auto|apply (reach_from _ _ R2); auto].
        * exfalso. inversion R2 as [|? pk' c' ? I' C']; subst. rewrite TP in I'. destruct I'.
      + exfalso. eapply term_no_step; eauto.
  Qed.

  (** *** Unfoldings *)
  Lemma F2_len {A B} (R : A -> B -> Prop) l l' : Forall2 R l l' -> length l = length l'.
  Proof. induction 1; cbn; auto. Qed.
  Definition cleaf (p : part slot) : list ut := map (fun k => UT k []) (pkey p).
  Definition cpart (p : part slot) (l : list ut) : list ut := match node_of_part p with Some _ => l | None => cleaf p end.
  Fixpoint conv (u : ub slot) : ut :=
    match u with
    | UB _ id e us =>
        let cs := map conv us in
        UT (nk id)
          (match pts id e with
           | Some (p, q) => match node_of_part q with Some _ => cpart p (tl cs) ++ firstn 1 cs | None => cpart p cs ++ cleaf q end
           | None => []
           end)
    end.
  Lemma leaf_unf p : node_of_part p = None -> Forall2 (TreeProof.unf nodes) (pkey p) (cleaf p).
  Proof. destruct p as [|[y| |] a b|s a b]; cbn; try discriminate; intros _; repeat constructor; auto; apply TP. Qed.
  Lemma leaf_inv p us : node_of_part p = None -> Forall2 (TreeProof.unf nodes) (pkey p) us -> us = cleaf p.
  Proof.
    destruct p as [|[y| |] a b|s a b]; cbn; try discriminate; intros _ F; inversion F as [|? u ? us' Hu Hs]; subst; auto;
      inversion Hs; subst; inversion Hu as [? E|? pk ? I]; subst; auto; rewrite TP in I; destruct I.
  Qed.
  (** The unfoldings of the node of a part, or none. *)
  Lemma kid_split p q us : Forall2 unf' (o2l (node_of_part q) ++ o2l (node_of_part p)) us ->
    exists uq up, us = uq ++ up /\ Forall2 unf' (o2l (node_of_part q)) uq /\ Forall2 unf' (o2l (node_of_part p)) up.
  Proof. intros F. apply Forall2_app_inv_l in F as (a & b & Fa & Fb & ->). eauto. Qed.
  Lemma conv_eq id e p q uq up : pts id e = Some (p, q) -> length uq = length (o2l (node_of_part q)) -> length up = length (o2l (node_of_part p)) ->
    conv (UB slot id e (uq ++ up)) = UT (nk id) (cpart p (map conv up) ++ cpart q (map conv uq)).
  Proof.
    intros E L1 L2. cbn [conv]. rewrite E. unfold cpart. destruct (node_of_part q); cbn [o2l length] in L1.
    - destruct uq as [|u [|]]; try discriminate. cbn [app map tl firstn]. reflexivity.
    - destruct uq; try discriminate. cbn [app]. reflexivity.
  Qed.
  Lemma conv_unf u : forall id, U' id -> unf' id u -> TreeProof.unf nodes (nk id) (conv u).
  Proof.
    revert u. fix IH 1. intros u id Hu F. destruct u as [id' e us]. inversion F as [? ? ? I K]; subst. rename id' into id.
    assert (G : Forall (fun v => forall c, U' c -> unf' c v -> TreeProof.unf nodes (nk c) (conv v)) us).
    { clear F K. induction us as [|v us IHu]; constructor; [apply IH|exact IHu]. }
    clear IH. destruct (parts_of_ok sg input nodes set T OK id e Hu I) as (p & q & E & Ip & _).
    unfold kids in K. rewrite E in K. destruct (kid_split p q us K) as (uq & up & -> & Fq & Fp).
    rewrite (conv_eq id e p q) by (auto; symmetry; eapply F2_len; eauto).
    apply Forall_app in G as [Gq Gp].
    assert (W : forall x vs, (x = p \/ x = q) -> Forall2 unf' (o2l (node_of_part x)) vs ->
      Forall (fun v => forall c, U' c -> unf' c v -> TreeProof.unf nodes (nk c) (conv v)) vs ->
      Forall2 (TreeProof.unf nodes) (pkey x) (cpart x (map conv vs))).
    { intros x vs X Fx Gx. pose proof (pkey_node x) as Kx. unfold cpart. destruct (node_of_part x) as [c|] eqn:N; [|apply leaf_unf; auto].
      rewrite Kx. cbn [o2l] in Fx. inversion Fx as [|? v ? vs' Hv Hvs]; subst. inversion Hvs; subst. inversion Gx as [|? ? Gv _]; subst. cbn [map].
      constructor; [|constructor]. apply Gv; auto. eapply (kid_known sg nodes set T id p q Ip x); eauto. }
    eapply TreeProof.unf_pack; [exact Ip|]. apply Forall2_app; [apply (W p)|apply (W q)]; auto.
  Qed.
  Lemma conv_onto t : forall id, TreeProof.unf nodes (nk id) t -> U' id -> exists u, unf' id u /\ conv u = t.
  Proof.
    revert t. fix IH 1. intros t id F Hu. destruct t as [k us].
    assert (G : Forall (fun v => forall c, TreeProof.unf nodes (nk c) v -> U' c -> exists u, unf' c u /\ conv u = v) us).
    { clear F. induction us as [|v us IHu]; constructor; [apply IH|exact IHu]. }
    clear IH. inversion F as [? E|? pk us' I K]; subst.
    { exfalso. unfold U, known in Hu. unfold packs in E. destruct (packs_of (nk id) nodes) as [ps|] eqn:P; [|congruence]. subst ps.
      destruct (t_full _ _ _ T _ _ P) as [(a & b & X)|X]; [destruct id; discriminate|congruence]. }
    destruct (pack_elem id pk I) as (_ & e & p & q & Ie & Ep & -> & _).
    apply Forall2_app_inv_l in K as (tp & tq & Fp & Fq & ->). apply Forall_app in G as [Gp Gq].
    assert (W : forall x vs, (x = p \/ x = q) -> Forall2 (TreeProof.unf nodes) (pkey x) vs ->
      Forall (fun v => forall c, TreeProof.unf nodes (nk c) v -> U' c -> exists u, unf' c u /\ conv u = v) vs ->
      exists ws, Forall2 unf' (o2l (node_of_part x)) ws /\ cpart x (map conv ws) = vs).
    { intros x vs X Fx Gx. pose proof (pkey_node x) as Kx. unfold cpart. destruct (node_of_part x) as [c|] eqn:N.
      - rewrite Kx in Fx. inversion Fx as [|? v ? vs' Hv Hvs]; subst. inversion Hvs; subst. inversion Gx as [|? ? Gv _]; subst.
        destruct (Gv c Hv) as (u & Hu' & <-); [eapply (kid_known sg nodes set T id p q I x); eauto|]. exists [u]. cbn [o2l map]. split; auto.
      - exists []. split; [constructor|]. symmetry. apply leaf_inv; auto. }
    destruct (W p tp) as (up & Up & <-); auto. destruct (W q tq) as (uq & Uq & <-); auto.
    exists (UB slot id e (uq ++ up)). split.
    - constructor; auto. unfold kids. rewrite Ep. apply Forall2_app; auto.
    - apply conv_eq; auto; symmetry; eapply F2_len; eauto.
  Qed.

  (** *** One to one *)
  Definition inj_elems : Prop := forall id e e' p q p' q', U' id -> In e (ell id) -> In e' (ell id) ->
    pts id e = Some (p, q) -> pts id e' = Some (p', q') -> pkey p ++ pkey q = pkey p' ++ pkey q' -> e = e'.
  Definition troot (u : ut) : nkey := TreeProof.uroot u.
  Lemma conv_root u : forall id, unf' id u -> TreeProof.uroot (conv u) = nk id.
  Proof. intros id F. inversion F; subst. reflexivity. Qed.
  Lemma roots_of_part x vs : Forall2 unf' (o2l (node_of_part x)) vs -> map (TreeProof.uroot) (cpart x (map conv vs)) = pkey x.
  Proof.
    intros F. pose proof (pkey_node x) as Kx. unfold cpart. destruct (node_of_part x) as [c|] eqn:N.
    - cbn [o2l] in F. inversion F as [|? v ? vs' Hv Hvs]; subst. inversion Hvs; subst. cbn [map]. rewrite Kx. f_equal. eapply conv_root; eauto.
    - unfold cleaf. rewrite map_map. cbn. apply map_id.
  Qed.
  Lemma conv_inj : inj_elems -> forall u u' id, U' id -> unf' id u -> unf' id u' -> conv u = conv u' -> u = u'.
  Proof.
    intros Inj. fix IH 1. intros u u' id Hu F F' E. destruct u as [id0 e us].
    assert (G : Forall (fun v => forall v' c, U' c -> unf' c v -> unf' c v' -> conv v = conv v' -> v = v') us).
    { clear F E. induction us as [|v us IHu]; constructor; [apply IH|exact IHu]. }
    clear IH. inversion F as [? ? ? I K]; subst id0. inversion F' as [? e' us' I' K']; subst u'.
    destruct (parts_of_ok sg input nodes set T OK id e Hu I) as (p & q & Ep & Ip & _).
    destruct (parts_of_ok sg input nodes set T OK id e' Hu I') as (p' & q' & Ep' & Ip' & _).
    unfold kids in K, K'. rewrite Ep in K. rewrite Ep' in K'.
    destruct (kid_split p q us K) as (uq & up & -> & Fq & Fp). destruct (kid_split p' q' us' K') as (uq' & up' & -> & Fq' & Fp').
    rewrite (conv_eq id e p q), (conv_eq id e' p' q') in E by (auto; symmetry; eapply F2_len; eauto). injection E as E.
    assert (e = e').
    { eapply Inj; eauto. rewrite <- (roots_of_part p up Fp), <- (roots_of_part q uq Fq), <- (roots_of_part p' up' Fp'), <- (roots_of_part q' uq' Fq').
      rewrite <- !map_app. f_equal. exact E. }
    subst e'. rewrite Ep in Ep'. injection Ep' as <- <-. apply Forall_app in G as [Gq Gp].
    assert (Lq : length (cpart p (map conv up)) = length (cpart p (map conv up'))).
    { rewrite <- !(map_length (TreeProof.uroot)). rewrite (roots_of_part p up Fp), (roots_of_part p up' Fp'). reflexivity. }
    assert (E12 : cpart p (map conv up) = cpart p (map conv up') /\ cpart q (map conv uq) = cpart q (map conv uq')).
    { clear - E Lq. revert Lq E. generalize (cpart p (map conv up)) (cpart p (map conv up')) (cpart q (map conv uq)) (cpart q (map conv uq')).
      induction l as [|a l IH]; intros [|b l'] r r' Lq E; cbn in *; try discriminate; auto. injection E as -> E. destruct (IH l' r r') as [-> ->]; auto. }
    destruct E12 as [E1 E2].
    assert (W : forall x vs vs', (x = p \/ x = q) -> Forall2 unf' (o2l (node_of_part x)) vs -> Forall2 unf' (o2l (node_of_part x)) vs' ->
      Forall (fun v => forall v' c, U' c -> unf' c v -> unf' c v' -> conv v = conv v' -> v = v') vs ->
      cpart x (map conv vs) = cpart x (map conv vs') -> vs = vs').
    { intros x vs vs' X Fx Fx' Gx. unfold cpart. destruct (node_of_part x) as [c|] eqn:N; cbn [o2l] in *.
      - inversion Fx as [|? v ? vs1 Hv Hvs]; subst. inversion Hvs; subst. inversion Fx' as [|? v' ? vs1' Hv' Hvs']; subst. inversion Hvs'; subst.
        inversion Gx as [|? ? Gv _]; subst. cbn [map]. intros Ex. injection Ex as Ex. f_equal. apply (Gv v' c); auto.
        eapply (kid_known sg nodes set T id p q Ip x); eauto.
      - inversion Fx; inversion Fx'; auto. }
    f_equal. f_equal; [apply (W q)|apply (W p)]; auto.
  Qed.

  (** *** Counting *)
  Lemma NoDup_map_on {A B} (f : A -> B) l : (forall x y, In x l -> In y l -> f x = f y -> x = y) -> NoDup l -> NoDup (map f l).
  Proof.
    intros H N. induction N as [|x l Nx N IH]; cbn; constructor.
    - rewrite in_map_iff. intros (y & E & Y). apply Nx. rewrite (H x y); auto; [left; auto|right; auto].
    - apply IH. intros; apply H; auto; right; auto.
  Qed.
  Lemma cnt_le id v w : U' id -> cnt slot pd bf_before bc pv id v -> TreeProof.cnt nodes (nk id) w -> (w <= v)%Z /\ (inj_elems -> w = v).
  Proof.
    intros Hu (_ & l & N & Ev & Hl) (_ & l' & N' & Ew & Hl').
    assert (A : length l' <= length l).
    { rewrite <- (map_length conv l). apply NoDup_incl_length; auto. intros t It. apply Hl' in It. destruct (conv_onto t id It Hu) as (u & Fu & <-). apply in_map, Hl, Fu. }
    split; [lia|]. intros Inj. assert (B : length l <= length l').
    { rewrite <- (map_length conv l). apply NoDup_incl_length; [|intros t It; apply in_map_iff in It as (u & <- & Iu); apply Hl', conv_unf; auto; apply Hl; auto].
      apply NoDup_map_on; auto. intros x y X Y. apply (conv_inj Inj x y id); auto; apply Hl; auto. }
    lia.
  Qed.

  (** *** Elements with the same children *)
  Lemma wof_cases L p l k : prod_of sg L = Some p -> s_dot L < length p ->
    (s_dot L = 0 /\ wof sg L l k = None) \/ (s_dot L = 1 /\ exists y, nth_error p 0 = Some y /\ wof sg L l k = Some (symnode y l k)) \/
    (2 <= s_dot L /\ wof sg L l k = Some (NInter L l k)).
  Proof.
    intros P Lt. unfold wof. rewrite P. destruct (s_dot L) as [|[|d]] eqn:D; auto.
    - right; left. split; auto. destruct (Nat.eqb_spec 1 (length p)); [lia|]. destruct (nth_error p 0) as [y|] eqn:N; [eauto|]. apply nth_error_None in N. lia.
    - right; right. split; [lia|]. destruct (Nat.eqb_spec (S (S d)) (length p)); [lia|]. auto.
  Qed.
  Lemma symnode_alike x y a b c d : a <= length input -> symnode x a b = symnode y c d ->
    (match x with SNonterm _ => True | _ => match_sym x input a = Some b end) ->
    (match y with SNonterm _ => True | _ => match_sym y input c = Some d end) -> a = c /\ b = d /\ alike input x y.
  Proof.
    intros B E X Y. destruct x, y; cbn [symnode] in E; inversion E; subst; cbn [alike]; split; auto; split; auto; exists c, d; auto.
  Qed.
  Lemma sym_term L rc i j p x : prod_of sg L = Some p -> nth_error p (s_dot L) = Some x -> symder sg input L rc i j ->
    match x with SNonterm _ => True | _ => match_sym x input i = Some j end.
  Proof.
    intros P N (p' & s & P' & N' & H). rewrite P in P'. injection P' as <-. rewrite N in N'. injection N' as <-.
    destruct H as [M|(X & _ & _ & -> & _)]; auto. destruct x; auto.
  Qed.
  Lemma dpre_first L rc i j p y : s_dot L = 1 -> prod_of sg L = Some p -> nth_error p 0 = Some y -> dpre sg input L rc i j ->
    match y with SNonterm _ => True | _ => match_sym y input i = Some j end.
  Proof.
    intros D P N H. inversion H as [|L0 rc0 i0 k0 j0 H0 Sd E1]; subst; [congruence|]. cbn [adv s_dot] in D. inversion H0 as [? ? ? D0|? ? ? ? ? ? ? E2]; subst; [|discriminate D].
    apply (sym_term L0 rc k0 j p y); auto. rewrite D0. auto.
  Qed.
  Lemma twins_inj : no_twins sg input -> inj_elems.
  Proof.
    intros NT id [s k] [s' k'] p q p' q' Hu I I' E E' Eq.
    apply (el_in sg nodes set T) in I as [I K]; auto. apply (el_in sg nodes set T) in I' as [I' K']; auto.
    destruct (parts_ok sg input nodes set T OK _ _ _ _ I) as (p1 & q1 & A & B & _). unfold parts_of in E, E'. cbn [fst snd] in E, E'. rewrite A in E. injection E as -> ->.
    destruct (parts_ok sg input nodes set T OK _ _ _ _ I') as (p2 & q2 & A' & B' & _). rewrite A' in E'. injection E' as -> ->. rewrite <- B, <- B' in Eq. clear A A' B B' p q p' q'.
    revert I I' K K' Eq. generalize (left_end id) (right_end id). intros l r I I' K K' Eq. rewrite <- K' in K. clear K'.
    destruct (t_rec _ _ _ T _ I) as (L & p & x & Es & P & N & _). destruct (OK _ I) as (L0 & u & rc & Es' & El & O & Sy & _).
    cbn [be_slot be_l be_k be_r] in *. assert (L0 = L) by (rewrite Es in Es'; destruct L, L0; inversion Es'; auto). subst L0 s. clear Es'.
    destruct (t_rec _ _ _ T _ I') as (L' & p' & x' & Es & P' & N' & _). destruct (OK _ I') as (L0 & u' & rc' & Es' & El' & O' & Sy' & _).
    cbn [be_slot be_l be_k be_r] in *. assert (L0 = L') by (rewrite Es in Es'; destruct L', L0; inversion Es'; auto). subst L0 s'. clear Es'.
    assert (Lt : s_dot L < length p) by (apply nth_error_Some; congruence). assert (Lt' : s_dot L' < length p') by (apply nth_error_Some; congruence).
    assert (Ep : forall L p x k, prod_of sg L = Some p -> nth_error p (s_dot L) = Some x ->
      epack sg (mkBE (adv L) l k r) = match wof sg L l k with Some w => [w; symnode x k r] | None => [symnode x k r] end).
    { clear. intros L p x k P N. unfold epack. cbn [be_slot be_l be_k be_r]. change (prod_of sg (adv L)) with (prod_of sg L). rewrite P, pre_adv. cbn [adv s_dot pred]. rewrite N. reflexivity. }
    rewrite (Ep _ _ _ _ P N), (Ep _ _ _ _ P' N') in Eq. clear Ep.
    pose proof (sym_term _ _ _ _ _ _ P N Sy) as Tx. pose proof (sym_term _ _ _ _ _ _ P' N' Sy') as Tx'.
    destruct O as (_ & _ & Bd & _ & Dp). destruct O' as (_ & _ & Bd' & _ & Dp').
    assert (Last : symnode x k r = symnode x' k' r) by (destruct (wof sg L l k), (wof sg L' l k'); inversion Eq; auto).
    destruct (symnode_alike x x' k r k' r) as (<- & _ & Al); auto; [lia|].
    unfold ekey in K. cbn [be_slot be_l be_r] in K. change (prod_of sg (adv L)) with (prod_of sg L) in K. change (prod_of sg (adv L')) with (prod_of sg L') in K.
    rewrite P, P' in K. destruct (Nat.eqb_spec (s_dot (adv L)) (length p)) as [D|D], (Nat.eqb_spec (s_dot (adv L')) (length p')) as [D'|D']; inversion K as [Kn]; auto.
    2: { f_equal. destruct L as [a1 b1 c1], L' as [a2 b2 c2]. cbn [adv s_nt s_alt s_dot] in *. congruence. }
    cbn [adv s_dot] in D, D'.
    assert (Done : s_alt L = s_alt L' -> (adv L, k) = (adv L', k)).
    { intros Ea. assert (p = p') by (unfold prod_of in P, P'; rewrite Kn, Ea in P; congruence). subst p'. destruct L as [a1 b1 c1], L' as [a2 b2 c2]. unfold adv. cbn [s_nt s_alt s_dot] in *. repeat f_equal; auto; lia. }
    destruct (Nat.eq_dec (s_alt L) (s_alt L')) as [Ea|Ea]; auto. exfalso.
    pose proof P as P0. pose proof P' as P0'.
    assert (G : length p <= 2 -> Forall2 (alike input) p p' -> False).
    { unfold prod_of in P, P'. rewrite Kn in P. destruct (nth_error (sg_nts sg) (s_nt L')) as [nt|] eqn:Nt; [|discriminate]. intros; eapply NT; eauto. }
    destruct (wof_cases L p l k P0 Lt) as [(d & W)|[(d & y & Ny & W)|(d & W)]], (wof_cases L' p' l k P0' Lt') as [(d' & W')|[(d' & y' & Ny' & W')|(d' & W')]];
      rewrite W, W' in Eq; try discriminate.
    - apply G; [lia|]. destruct p as [|a [|]]; cbn in D; try lia. destruct p' as [|a' [|]]; cbn in D'; try lia. rewrite d in N. rewrite d' in N'. cbn in N, N'. injection N as ->. injection N' as ->.
      constructor; auto.
    - assert (Eqy : symnode y l k = symnode y' l k) by congruence.
      assert (Ay : alike input y y').
      { apply (symnode_alike y y' l k l k); auto; [lia| |]; [eapply (dpre_first L)|eapply (dpre_first L')]; eauto; [rewrite El|rewrite El']; eauto. }
      apply G; [lia|]. destruct p as [|a [|b [|]]]; cbn in D; try lia. destruct p' as [|a' [|b' [|]]]; cbn in D'; try lia. rewrite d in N. rewrite d' in N'. cbn in N, N', Ny, Ny'.
      injection N as ->. injection N' as ->. injection Ny as ->. injection Ny' as ->. constructor; auto.
    - exfalso. destruct y; discriminate.
    - exfalso. destruct y'; discriminate.
    - assert (L = L') by congruence. subst L'. congruence.
  Qed.
End Agree.
