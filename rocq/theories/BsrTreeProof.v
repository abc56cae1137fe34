(** The queries on the set of ParseBSR: its elements against the node table of BsrTable.v.
    Its definitions are means of proof and model no code. *)
From Coq Require Import ZArith Arith String Bool List Lia.
From Verif Require Import Syntax Spec Utf8 Num Term Printer Slots PropTerm Gll GllUniv Bsr BsrProof
  Sppf SppfProof TreeSpec Tree Codegen BsrTree BsrCount.
From Verif Require TreeProof TreeSound.
Import ListNotations.
Local Open Scope string_scope.
Local Open Scope list_scope.
Local Open Scope nat_scope.

(** A tree without the leaves that span nothing. *)
Fixpoint drop_empty (t : ptree) : list ptree :=
  match t with
  | PT nm a b cs =>
      if (String.eqb nm "" && negb (Nat.ltb a b) && match cs with [] => true | _ => false end)%bool then []
      else [PT nm a b (flat_map drop_empty cs)]
  end.

Section World.
  Variable sg : slot_grammar.
  Variable input : list Z.
  Variable nodes : ntable.
  Variable set : list belem.
  Hypothesis T : tbl sg nodes set.
  Hypothesis OK : forall e, In e set -> ok_elem sg input e.
  Hypothesis ND : NoDup set.
  Hypothesis Names : forall X nt, nth_error (sg_nts sg) X = Some nt -> nt_isrule nt = true -> nt_rulename nt <> "".

  Notation pd := (bf_prod_dot sg).
  Notation bc := (bf_complete sg).
  Notation pv := (bf_pivots set).
  Notation ell := (el slot bc pv).
  Notation kds := (kids slot pd bf_before).
  Notation pts := (parts_of slot pd bf_before).
  Notation unf' := (unf slot pd bf_before bc pv).
  Notation step' := (step slot pd bf_before bc pv).
  Notation reach' := (reach slot pd bf_before bc pv).
  Notation below' := (below slot pd bf_before bc pv).

  Definition nk (id : qid slot) : nkey := match id with QI s l r => NInter s l r | QS x l r => NSym x l r end.
  Definition U (id : qid slot) : Prop := known (nk id) nodes.

  Lemma nk_inj a b : nk a = nk b -> a = b.
  Proof. destruct a, b; cbn; intros E; inversion E; auto. Qed.
  (** *** Elements *)
  Lemma piv_in s l r k : In k (pv s l r) <-> In (mkBE s l k r) set.
  Proof.
    unfold bf_pivots. rewrite in_map_iff. split.
    - intros ([s' l' k' r'] & <- & I). cbn [be_k]. apply filter_In in I as [I B]. cbn [be_slot be_l be_r] in B.
      apply andb_true_iff in B as [B B3]. apply andb_true_iff in B as [B1 B2]. apply Nat.eqb_eq in B2, B3. destruct (slot_eq_dec s' s); [subst; auto|discriminate].
    - intros I. exists (mkBE s l k r). split; auto. apply filter_In. split; auto. cbn [be_slot be_l be_r]. rewrite !Nat.eqb_refl. destruct (slot_eq_dec s s); auto.
  Qed.
  Lemma piv_nodup s l r : NoDup (pv s l r).
  Proof.
    unfold bf_pivots. set (f := fun e => _).
    assert (F : Forall (fun e => f e = true) (filter f set)) by (rewrite Forall_forall; intros e I; apply filter_In in I; tauto).
    pose proof (NoDup_filter f ND) as N. induction N as [|e l' Ni N IH]; cbn [map]; constructor.
    - rewrite in_map_iff. intros (e' & E & I). apply Ni. inversion F as [|? ? F1 F2]; subst. rewrite Forall_forall in F2. specialize (F2 e' I). unfold f in F1, F2.
      apply andb_true_iff in F1 as [F1 A3]. apply andb_true_iff in F1 as [A1 A2]. apply andb_true_iff in F2 as [F2 B3]. apply andb_true_iff in F2 as [B1 B2].
      apply Nat.eqb_eq in A2, A3, B2, B3. destruct (slot_eq_dec (be_slot e) s), (slot_eq_dec (be_slot e') s); try discriminate.
      assert (e = e'); [|subst; auto]. destruct e, e'; cbn in *; congruence.
    - apply IH. inversion F; auto.
  Qed.

  Lemma combine_in {A} (l : list A) : forall s a p, In (a, p) (combine (seq s (length l)) l) <-> s <= a /\ nth_error l (a - s) = Some p.
  Proof.
    induction l as [|x l IH]; cbn [length seq combine In]; intros s a p.
    - destruct (a - s); split; try tauto; intros [_ H]; discriminate.
    - rewrite IH. split.
      + intros [E|[L N]]; [inversion E; subst; rewrite Nat.sub_diag; auto|]. split; [lia|]. replace (a - s) with (S (a - S s)) by lia. auto.
      + intros [L N]. destruct (a - s) as [|d] eqn:D; cbn in N.
        * left. f_equal; [lia|congruence].
        * right. split; [lia|]. replace (a - S s) with d by lia. auto.
  Qed.
  Lemma complete_in x sls s : bc x = Some sls -> (In s sls <-> s_nt s = x /\ exists p, prod_of sg s = Some p /\ s_dot s = length p).
  Proof.
    unfold bf_complete. destruct (nth_error (sg_nts sg) x) as [nt|] eqn:N; [|discriminate]. intros E. injection E as <-. rewrite in_map_iff. split.
    - intros ([a p] & <- & I). apply combine_in in I as [_ I]. rewrite Nat.sub_0_r in I. cbn [fst snd s_nt s_dot]. split; auto. exists p. split; auto.
      unfold prod_of. cbn [s_nt s_alt]. rewrite N. auto.
    - intros (<- & p & P & D). unfold prod_of in P. rewrite N in P. exists (s_alt s, p). split; [destruct s; cbn in *; congruence|].
      apply combine_in. rewrite Nat.sub_0_r. split; [lia|auto].
  Qed.
  Lemma complete_nodup x sls : bc x = Some sls -> NoDup sls.
  Proof.
    unfold bf_complete. destruct (nth_error (sg_nts sg) x) as [nt|]; [|discriminate]. intros E. injection E as <-.
    assert (G : forall (l : list (list ssym)) s, NoDup (map (fun ap => mkSlot x (fst ap) (length (snd ap))) (combine (seq s (length l)) l)) /\
      forall a, In a (map (fun ap => mkSlot x (fst ap) (length (snd ap))) (combine (seq s (length l)) l)) -> s <= s_alt a).
    { induction l as [|p l IH]; cbn [length seq combine map]; intros s; [split; [constructor|intros a []]|]. destruct (IH (S s)) as [A B]. split.
      - constructor; auto. intros I. apply B in I. cbn in I. lia.
      - intros a [<-|I]; [cbn; lia|]. apply B in I. lia. }
    apply G.
  Qed.
  Lemma complete_some e x l r : In e set -> ekey sg e = NSym x l r -> bc x <> None.
  Proof.
    intros I. destruct (t_rec _ _ _ T e I) as (L & p & y & Es & P & _). unfold ekey. rewrite Es. change (prod_of sg (adv L)) with (prod_of sg L). rewrite P.
    destruct (Nat.eqb _ _); [|discriminate]. intros E. injection E as E _ _. cbn [adv s_nt] in E. unfold prod_of in P. rewrite E in P.
    unfold bf_complete. destruct (nth_error (sg_nts sg) x); [discriminate|discriminate].
  Qed.
  (** A known node has an element. *)
  Lemma U_elem id : U id -> exists e, In e set /\ ekey sg e = nk id.
  Proof.
    unfold U, known. destruct (packs_of (nk id) nodes) as [ps|] eqn:E; [|congruence]. intros _.
    destruct (t_full _ _ _ T _ _ E) as [(a & b & X)|N]; [destruct id; discriminate|]. destruct ps as [|pk ps]; [congruence|].
    destruct (t_from _ _ _ T _ _ pk E) as (e & I & Ek & _); [left; auto|]. eauto.
  Qed.
  (** There are no more known nodes than elements. *)
  Lemma bound_ok l : NoDup l -> Forall U l -> length l <= length set.
  Proof.
    intros N F. rewrite <- (map_length nk), <- (map_length (ekey sg) set). apply NoDup_incl_length.
    - apply TreeProof.NoDup_map_inj; auto. intros; apply nk_inj; auto.
    - intros k K. apply in_map_iff in K as (id & <- & I). rewrite Forall_forall in F. destruct (U_elem id (F id I)) as (e & Ie & E).
      rewrite <- E. apply in_map. auto.
  Qed.
  Lemma elems_ok id : U id -> elems bc pv id = QVal (ell id).
  Proof.
    intros Hu. unfold el. destruct id as [s l r|x l r]; cbn [elems]; auto. destruct (U_elem _ Hu) as (e & I & Ek). pose proof (complete_some _ _ _ _ I Ek) as N.
    destruct (bc x); [reflexivity|congruence].
  Qed.
  Lemma ekey_inter e s l r : In e set -> ekey sg e = NInter s l r -> be_slot e = s /\ be_l e = l /\ be_r e = r /\ exists p, prod_of sg s = Some p /\ s_dot s <> length p.
  Proof.
    intros I. destruct (t_rec _ _ _ T e I) as (L & p & y & Es & P & _). unfold ekey. rewrite Es. change (prod_of sg (adv L)) with (prod_of sg L). rewrite P.
    destruct (Nat.eqb_spec (s_dot (adv L)) (length p)); [discriminate|]. intros E. inversion E; subst. split; auto. split; auto. split; auto. exists p. auto.
  Qed.
  Lemma el_in id s k : U id -> (In (s, k) (ell id) <-> In (mkBE s (left_end id) k (right_end id)) set /\ ekey sg (mkBE s (left_end id) k (right_end id)) = nk id).
  Proof.
    intros Hu. destruct (U_elem _ Hu) as (e0 & I0 & E0). destruct id as [s0 l r|x l r]; cbn [left_end right_end nk] in *.
    - destruct (ekey_inter _ _ _ _ I0 E0) as (Es & El & Er & p & P & D). unfold el. cbn [elems]. rewrite in_map_iff. split.
      + intros (k' & E & I). inversion E; subst s k'. apply piv_in in I. split; auto. unfold ekey. cbn [be_slot be_l be_r]. rewrite P.
        destruct (Nat.eqb_spec (s_dot s0) (length p)); [congruence|reflexivity].
      + intros [I E]. apply ekey_inter in E as (E & _); auto. cbn in E. subst s. exists k. split; auto. apply piv_in; auto.
    - pose proof (complete_some _ _ _ _ I0 E0) as N. unfold el. cbn [elems]. destruct (bc x) as [sls|] eqn:B; [|congruence]. cbn [of_opt qbind]. rewrite in_flat_map. split.
      + intros (s' & Is & I). apply in_map_iff in I as (k' & E & I). inversion E; subst s' k'. apply piv_in in I. split; auto.
        apply (complete_in x sls s B) in Is as (Ex & p & P & D). unfold ekey. cbn [be_slot be_l be_r]. rewrite P, D, Nat.eqb_refl, Ex. reflexivity.
      + intros [I E]. exists s. split; [|apply in_map_iff; exists k; split; auto; apply piv_in; auto].
        destruct (t_rec _ _ _ T _ I) as (L & p & y & Es & P & _). cbn [be_slot] in Es. subst s. unfold ekey in E. cbn [be_slot be_l be_r] in E.
        change (prod_of sg (adv L)) with (prod_of sg L) in E. rewrite P in E. destruct (Nat.eqb_spec (s_dot (adv L)) (length p)) as [D|]; [|discriminate].
        inversion E as [Ex]. apply (complete_in (s_nt L) sls (adv L)); [rewrite Ex; auto|]. split; auto. exists p. auto.
  Qed.
  Lemma el_nodup id : U id -> NoDup (ell id).
  Proof.
    intros Hu. unfold el. destruct id as [s l r|x l r]; cbn [elems].
    - apply TreeProof.NoDup_map_inj; [intros a b E; inversion E; auto|apply piv_nodup].
    - destruct (bc x) as [sls|] eqn:B; cbn [of_opt qbind]; [|constructor]. pose proof (complete_nodup x sls B) as N. clear B.
      induction N as [|s sls Ns N IH]; cbn [flat_map]; [constructor|]. apply TreeProof.NoDup_app_intro; auto.
      + apply TreeProof.NoDup_map_inj; [intros a b E; inversion E; auto|apply piv_nodup].
      + intros [s' k'] A B. apply in_map_iff in A as (k & E & _). inversion E; subst. apply in_flat_map in B as (s2 & I2 & I3).
        apply in_map_iff in I3 as (k2 & E2 & _). inversion E2; subst. auto.
  Qed.
  Lemma el_some id : U id -> ell id <> [].
  Proof.
    intros Hu E. destruct (U_elem _ Hu) as (e & I & Ek). assert (X : In (be_slot e, be_k e) (ell id)); [|rewrite E in X; destruct X].
    apply el_in; auto. assert (mkBE (be_slot e) (left_end id) (be_k e) (right_end id) = e); [|rewrite H; auto].
    destruct (t_rec _ _ _ T e I) as (L & p & y & Es & P & _). unfold ekey in Ek. rewrite Es in Ek. change (prod_of sg (adv L)) with (prod_of sg L) in Ek. rewrite P in Ek.
    destruct e as [s l k r]. cbn [be_slot be_l be_r be_k] in *. destruct (Nat.eqb _ _), id; cbn [nk] in Ek; inversion Ek; subst; reflexivity.
  Qed.

  (** *** Parts *)
  Definition pkey (p : part slot) : list nkey :=
    match p with
    | PNone => []
    | PSym (QNT x) a b => [NSym x a b]
    | PSym _ a b => [NTerm a b]
    | PInter s a b => [NInter s a b]
    end.
  Lemma pkey_sym x a b : pkey (PSym (qsym_of x) a b) = [symnode x a b].
  Proof. destruct x; reflexivity. Qed.
  Lemma pkey_node p : match node_of_part p with Some c => pkey p = [nk c] | None => pkey p = [] \/ exists a b, pkey p = [NTerm a b] end.
  Proof. destruct p as [|[x| |] a b|s a b]; cbn; eauto. Qed.

  Lemma parts_ok s l k r : In (mkBE s l k r) set -> exists p q, parts pd bf_before s l k r = Some (p, q) /\
    epack sg (mkBE s l k r) = pkey p ++ pkey q /\ pkey q <> [] /\
    (forall a b, p = PSym QEps a b -> a = b) /\ (forall a b, q = PSym QEps a b -> a = b) /\ (forall a b y, q <> PInter y a b) /\ (q <> PNone).
  Proof.
    intros I. destruct (t_rec _ _ _ T _ I) as (L & p & x & Es & P & N & _). destruct (OK _ I) as (L' & u & rc & Es' & El & O & Sy & _).
    cbn [be_slot be_l be_k be_r] in *. assert (L' = L) by (rewrite Es in Es'; destruct L, L'; inversion Es'; auto). subst L' s.
    assert (Lt : s_dot L < length p) by (apply nth_error_Some; congruence).
    assert (Eps : forall L rc i j p, prod_of sg L = Some p -> nth_error p (s_dot L) = Some SEps -> symder sg input L rc i j -> i = j).
    { clear. intros L rc i j p P N (p' & s & P' & N' & [M|(X & _ & _ & -> & _)]); rewrite P in P'; inversion P'; subst p'; rewrite N in N'; inversion N'; subst.
      cbn in M. congruence. }
    unfold parts, bf_prod_dot. change (prod_of sg (adv L)) with (prod_of sg L). rewrite P. cbn [adv s_dot]. rewrite nth_error_map, N. cbn [option_map].
    assert (Ep : epack sg (mkBE (adv L) l k r) = match wof sg L l k with Some w => [w; symnode x k r] | None => [symnode x k r] end).
    { unfold epack. cbn [be_slot be_l be_k be_r]. change (prod_of sg (adv L)) with (prod_of sg L). rewrite P, pre_adv. cbn [adv s_dot pred]. rewrite N. reflexivity. }
    assert (Eq : forall a b, PSym (K := slot) (qsym_of x) k r = PSym QEps a b -> a = b).
    { intros a b E. inversion E; subst. destruct x; try discriminate. eapply Eps; eauto. }
    assert (Ki : forall a b y, PSym (K := slot) (qsym_of x) k r <> PInter y a b) by (intros; discriminate).
    assert (Kn : PSym (K := slot) (qsym_of x) k r <> PNone) by discriminate.
    assert (Kq : pkey (PSym (qsym_of x) k r) <> []) by (rewrite pkey_sym; discriminate).
    unfold wof in Ep. rewrite P in Ep. destruct (s_dot L) as [|[|d]] eqn:D.
    - do 2 eexists. split; [reflexivity|]. rewrite pkey_sym. split; [exact Ep|]. rewrite <- pkey_sym. repeat (split; [first [exact Kq|exact Eq|discriminate]|]). auto.
    - destruct p as [|x0 p]; [cbn in Lt; lia|]. cbn [map].
      destruct (Nat.eqb_spec 1 (length (x0 :: p))) as [X|_]; [lia|]. cbn [nth_error] in Ep.
      do 2 eexists. split; [reflexivity|]. rewrite !pkey_sym. split; [exact Ep|]. rewrite <- pkey_sym. split; [exact Kq|]. split; [|auto].
      intros a b E. inversion E; subst a b. destruct x0; try discriminate. destruct O as (_ & _ & _ & _ & Dp). rewrite <- El in Dp.
      inversion Dp as [? ? ? D0|L1 ? ? k' ? Dp' Sy' EqL]; subst; [lia|]. cbn [adv s_dot] in D.
      inversion Dp' as [? ? ? D0|L2]; subst; [|cbn [adv s_dot] in D; lia].
      assert (D1 : s_dot L1 = 0) by lia. apply (Eps L1 rc (g_pos u) k (SEps :: p)); [exact P| |exact Sy']. rewrite D1. reflexivity.
    - destruct (Nat.eqb_spec (S (S d)) (length p)) as [X|_]; [lia|].
      do 2 eexists. split; [reflexivity|]. rewrite pkey_sym. cbn [pkey]. unfold bf_before. cbn [adv s_nt s_alt s_dot pred].
      split; [|rewrite <- pkey_sym; split; [exact Kq|split; [intros; discriminate|auto]]]. rewrite Ep. cbn [app]. f_equal. f_equal. destruct L; cbn in *; congruence.
  Qed.
  Lemma parts_of_ok id e : U id -> In e (ell id) -> exists p q, pts id e = Some (p, q) /\
    In (pkey p ++ pkey q) (packs nodes (nk id)) /\ pkey q <> [] /\
    (forall a b, p = PSym QEps a b -> a = b) /\ (forall a b, q = PSym QEps a b -> a = b) /\ (forall a b y, q <> PInter y a b) /\ q <> PNone.
  Proof.
    intros Hu I. destruct e as [s k]. apply el_in in I as [I E]; auto. destruct (parts_ok _ _ _ _ I) as (p & q & A & B & C). exists p, q. split; [exact A|].
    split; [|exact C]. destruct (t_to _ _ _ T _ I) as (ps & P1 & P2). rewrite E in P1. unfold packs. rewrite P1, <- B. auto.
  Qed.
  Lemma U_parts_ok id e : U id -> In e (ell id) -> pts id e <> None.
  Proof. intros Hu I. destruct (parts_of_ok id e Hu I) as (p & q & -> & _). discriminate. Qed.
  Lemma kid_known id p q : In (pkey p ++ pkey q) (packs nodes (nk id)) -> forall x c, x = p \/ x = q -> node_of_part x = Some c -> U c.
  Proof.
    intros I x c Ex N. pose proof (pkey_node x) as K. rewrite N in K. unfold U.
    assert (Ic : In (nk c) (pkey p ++ pkey q)) by (apply in_or_app; destruct Ex as [->| ->]; rewrite K; [left|right]; left; auto).
    unfold packs in I. destruct (packs_of (nk id) nodes) as [ps|] eqn:E; [|destruct I]. eapply t_child; eauto.
  Qed.
  Lemma U_kids_ok id e c : U id -> In e (ell id) -> In c (kds id e) -> U c.
  Proof.
    intros Hu I. destruct (parts_of_ok id e Hu I) as (p & q & E & Ip & _). unfold kids. rewrite E. intros C.
    apply in_app_or in C as [C|C].
    - destruct (node_of_part q) as [d|] eqn:N; [|destruct C]. destruct C as [->|[]]. apply (kid_known id p q Ip q c); auto.
    - destruct (node_of_part p) as [d|] eqn:N; [|destruct C]. destruct C as [->|[]]. apply (kid_known id p q Ip p c); auto.
  Qed.

  (** *** What an unfolding shows *)
  Definition uroot (u : ub slot) : qid slot := match u with UB _ id _ _ => id end.
  Definition pleaf (p : part slot) : list ptree := match p with PSym _ a b => leaf a b | _ => [] end.
  Definition pshow (p : part slot) (l : list (list ptree)) : list ptree :=
    match node_of_part p with Some _ => hd [] l | None => pleaf p end.
  Fixpoint showb (u : ub slot) : list ptree :=
    match u with
    | UB _ id e us =>
        let sh := map (fun v => TreeProof.wrap sg (nk (uroot v)) (showb v)) us in
        match pts id e with
        | Some (p, q) => match node_of_part q with Some _ => pshow p (tl sh) ++ hd [] sh | None => pshow p sh ++ pleaf q end
        | None => []
        end
    end.
  Notation ft' := (TreeProof.ft sg nodes).
  Hypothesis TP : TreeProof.term_packs nodes.
  Lemma ft_term_inv a b ts : ft' (NTerm a b) ts -> ts = leaf a b.
  Proof. intros H. inversion H as [|? ? ? I|? ? ? ? ? I]; subst; auto; rewrite TP in I; destruct I. Qed.
  Lemma wrap_term a b ts : TreeProof.wrap sg (NTerm a b) ts = ts.
  Proof. reflexivity. Qed.

  Lemma ft_unf k ts : ft' k ts -> forall id, nk id = k -> exists u, unf' id u /\ showb u = ts.
  Proof.
    assert (Pk : forall id pk, In pk (packs nodes (nk id)) -> exists e p q, In e (ell id) /\ pts id e = Some (p, q) /\ pk = pkey p ++ pkey q /\ pkey q <> []).
    { intros id pk I. assert (Hu : U id) by (unfold U, known; unfold packs in I; destruct (packs_of (nk id) nodes); [discriminate|destruct I]).
      unfold packs in I. destruct (packs_of (nk id) nodes) as [ps|] eqn:E; [|destruct I]. destruct (t_from _ _ _ T _ _ _ E I) as (e & Ie & Ek & Ep).
      assert (Ee : mkBE (be_slot e) (left_end id) (be_k e) (right_end id) = e).
      { destruct (t_rec _ _ _ T e Ie) as (L & p & y & Es & P & _). unfold ekey in Ek. rewrite Es in Ek. change (prod_of sg (adv L)) with (prod_of sg L) in Ek. rewrite P in Ek.
        destruct e as [s l k0 r]. cbn [be_slot be_l be_r be_k] in *. destruct (Nat.eqb _ _), id; cbn [nk] in Ek; inversion Ek; subst; reflexivity. }
      assert (Il : In (be_slot e, be_k e) (ell id)) by (apply el_in; auto; rewrite Ee; auto).
      rewrite <- Ee in Ie. destruct (parts_ok _ _ _ _ Ie) as (p & q & A & B & C & _). exists (be_slot e, be_k e), p, q. split; auto. split; [exact A|].
      rewrite Ee in B. split; [congruence|exact C]. }
    assert (Kid : forall x c, pkey x = [c] -> forall ts, ft' c ts -> (forall id, nk id = c -> exists u, unf' id u /\ showb u = ts) ->
      exists us, Forall2 unf' (o2l (node_of_part x)) us /\ pshow x (map (fun v => TreeProof.wrap sg (nk (uroot v)) (showb v)) us) = TreeProof.wrap sg c ts).
    { intros x c E ts0 F IH. pose proof (pkey_node x) as K. unfold pshow. destruct (node_of_part x) as [id|] eqn:N.
      - rewrite E in K. injection K as K. destruct (IH id (eq_sym K)) as (u & Hu & S). exists [u]. cbn [o2l map hd]. split; [constructor; auto|].
        assert (uroot u = id) by (inversion Hu; auto). rewrite H, <- K, S. reflexivity.
      - exists []. split; [constructor|]. destruct x as [|[y| |] a b|s a b]; try discriminate; cbn [pkey pleaf] in *; injection E as <-; rewrite wrap_term; symmetry; apply ft_term_inv; auto. }
    induction 1 as [s e|k c ts I F IH|k w c ts1 ts2 I F1 IH1 F2 IH2]; intros id Ek.
    - destruct id; discriminate.
    - subst k. destruct (Pk _ _ I) as (e & p & q & Ie & Ep & Epk & Nq).
      assert (pkey p = [] /\ pkey q = [c]) as [Kp Kq].
      { destruct (pkey p) as [|a l]; [auto|]. destruct l; [|discriminate]. cbn in Epk. inversion Epk as [[Ea Eb]]. destruct (pkey q); [congruence|discriminate]. }
      destruct (Kid q c Kq ts F IH) as (us & Fu & S). exists (UB slot id e us). split.
      + constructor; auto. unfold kids. rewrite Ep. assert (node_of_part p = None) as ->; [|rewrite app_nil_r; auto]. destruct p as [|[]|]; cbn in Kp |- *; congruence.
      + cbn [showb]. rewrite Ep. assert (node_of_part p = None /\ pleaf p = []) as [P1 P2] by (destruct p as [|[]|]; cbn in Kp |- *; try discriminate; auto).
        unfold pshow at 1 2. rewrite P1, P2. cbn [app]. unfold pshow in S. destruct (node_of_part q); auto.
    - subst k. destruct (Pk _ _ I) as (e & p & q & Ie & Ep & Epk & Nq).
      assert (pkey p = [w] /\ pkey q = [c]) as [Kp Kq].
      { destruct (pkey p) as [|a l] eqn:Kp.
        - cbn in Epk. exfalso. destruct q as [|[]|]; cbn in Epk; discriminate.
        - assert (l = []) as -> by (destruct p as [|[]|]; cbn in Kp; inversion Kp; auto). cbn in Epk. inversion Epk. auto. }
      destruct (Kid p w Kp ts1 F1 IH1) as (us1 & Fu1 & S1). destruct (Kid q c Kq ts2 F2 IH2) as (us2 & Fu2 & S2). exists (UB slot id e (us2 ++ us1)). split.
      + constructor; auto. unfold kids. rewrite Ep. apply Forall2_app; auto.
      + cbn [showb]. rewrite Ep, map_app. rewrite <- S1, <- S2. unfold pshow in *. destruct (node_of_part q) as [cq|]; cbn [o2l] in Fu2.
        * inversion Fu2 as [|? v ? vs Hv Hvs]; subst. inversion Hvs; subst. cbn [map app tl hd]. reflexivity.
        * inversion Fu2; subst. cbn [map app]. reflexivity.
  Qed.

  (** *** Hypotheses on the table used below *)
  Hypothesis PS : TreeProof.pack_shape nodes.
  Hypothesis FU : TreeProof.full nodes.
  Hypothesis CL : TreeProof.closed nodes.
  Hypothesis FE : first_earlier nodes.
  Lemma U_unf_ok id : U id -> exists u, unf' id u.
  Proof.
    intros Hu. destruct (TreeProof.collect_ft sg nodes PS FU CL FE (S (TreeProof.rank (nk id) nodes)) (nk id) [] Hu) as (ts & _ & F); [lia|easy|].
    destruct (ft_unf _ _ F id eq_refl) as (u & H & _). eauto.
  Qed.
  (** With one element per node there is no cycle. *)
  Lemma packs_el id : U id -> length (ell id) <= 1 -> length (packs nodes (nk id)) <= 1.
  Proof.
    intros Hu L. pose proof (TreeSound.nodup_ok sg nodes set T (nk id)) as N.
    assert (G : forall pk, In pk (packs nodes (nk id)) -> exists e p q, In e (ell id) /\ pts id e = Some (p, q) /\ pk = pkey p ++ pkey q).
    { intros pk I. unfold packs in I. destruct (packs_of (nk id) nodes) as [ps|] eqn:E; [|destruct I]. destruct (t_from _ _ _ T _ _ _ E I) as (e & Ie & Ek & Ep).
      assert (Ee : mkBE (be_slot e) (left_end id) (be_k e) (right_end id) = e).
      { destruct (t_rec _ _ _ T e Ie) as (L0 & p & y & Es & P & _). unfold ekey in Ek. rewrite Es in Ek. change (prod_of sg (adv L0)) with (prod_of sg L0) in Ek. rewrite P in Ek.
        destruct e as [s l k0 r]. cbn [be_slot be_l be_r be_k] in *. destruct (Nat.eqb _ _), id; cbn [nk] in Ek; inversion Ek; subst; reflexivity. }
      assert (Il : In (be_slot e, be_k e) (ell id)) by (apply el_in; auto; rewrite Ee; auto).
      rewrite <- Ee in Ie. destruct (parts_ok _ _ _ _ Ie) as (p & q & A & B & _). exists (be_slot e, be_k e), p, q. split; auto. split; [exact A|]. rewrite Ee in B. congruence. }
    destruct (packs nodes (nk id)) as [|a [|b ps]]; cbn; try lia. exfalso.
    destruct (G a) as (e1 & p1 & q1 & I1 & E1 & X1); [left; auto|]. destruct (G b) as (e2 & p2 & q2 & I2 & E2 & X2); [right; left; auto|].
    assert (e1 = e2) by (destruct (ell id) as [|x [|y l]]; cbn in L; [destruct I1| |lia]; destruct I1 as [<-|[]], I2 as [<-|[]]; auto).
    subst e2. rewrite E1 in E2. inversion E2; subst. inversion N as [|? ? Nx Ny]; subst. apply Nx. left; auto.
  Qed.
  Lemma step_rank id c : U id -> length (ell id) <= 1 -> step' c id -> TreeProof.rank (nk c) nodes < TreeProof.rank (nk id) nodes.
  Proof.
    intros Hu L (e & I & C). destruct (parts_of_ok id e Hu I) as (p & q & E & Ip & _). pose proof (packs_el id Hu L) as Lp.
    destruct (packs nodes (nk id)) as [|pk [|b ps]] eqn:Ek; cbn in Lp; try lia; [destruct Ip|]. destruct Ip as [Ip|[]].
    apply (TreeProof.first_rank nodes FE (nk id) pk [] (nk c) Ek). rewrite Ip. unfold kids in C. rewrite E in C. apply in_or_app. pose proof (pkey_node p) as Kp. pose proof (pkey_node q) as Kq.
    apply in_app_or in C as [C|C]; [destruct (node_of_part q); [|destruct C]; right; rewrite Kq|destruct (node_of_part p); [|destruct C]; left; rewrite Kp]; destruct C as [->|[]]; left; auto.
  Qed.
  Lemma single_acc id : U id -> (forall x, reach' id x -> length (ell x) <= 1) -> Acc step' id.
  Proof.
    intros Hu One. remember (TreeProof.rank (nk id) nodes) as n eqn:En. revert id Hu One En. induction n as [n IH] using lt_wf_ind. intros id Hu One En.
    constructor. intros c Sc. pose proof (step_rank id c Hu (One id (reach_refl _ _ _ _ _ id)) Sc) as Lt. eapply IH; [rewrite En; exact Lt| | |reflexivity].
    - destruct Sc as (e & I & C). eapply U_kids_ok; eauto.
    - intros x R. apply One. eapply reach_step; eauto.
  Qed.

  (** *** Tree *)
  Notation coll := (collect_elem slot_eq_dec pd bf_before bc (bf_is_rule sg) (bf_rule_name sg) pv).
  Notation child := (collect_child slot_eq_dec bc (bf_is_rule sg) (bf_rule_name sg) pv).
  Lemma first_hd sls a b : first_elem pv sls a b = hd_error (flat_map (fun s => map (pair s) (pv s a b)) sls).
  Proof. induction sls as [|s sls IH]; cbn [first_elem flat_map]; auto. destruct (pv s a b); cbn [map app hd_error]; auto. Qed.
  Lemma drop_app l1 l2 : flat_map drop_empty (l1 ++ l2) = flat_map drop_empty l1 ++ flat_map drop_empty l2.
  Proof. induction l1; cbn [flat_map app]; auto. rewrite IHl1, app_assoc. auto. Qed.
  Lemma drop_node nm a b cs : nm <> "" -> flat_map drop_empty [PT nm a b cs] = [PT nm a b (flat_map drop_empty cs)].
  Proof. intros N. cbn [flat_map drop_empty]. destruct (String.eqb_spec nm ""); [congruence|reflexivity]. Qed.
  Lemma drop_leaf a b : flat_map drop_empty [PT "" a b []] = leaf a b.
  Proof. unfold leaf. cbn [flat_map drop_empty String.eqb]. destruct (Nat.ltb a b); reflexivity. Qed.

  Definition of_part (f : nat) (vis : list (qid slot)) (p : part slot) : qres (list ptree) :=
    match p with
    | PNone => QVal []
    | PSym s a b => child (coll f) s a b vis
    | PInter s a b => match pv s a b with [] => QVal [] | k' :: _ => coll f s a k' b vis end
    end.
  Lemma coll_S f sl l k r vis : coll (S f) sl l k r vis =
    qbind (of_opt (parts pd bf_before sl l k r)) (fun pq =>
    qbind (of_part f vis (fst pq)) (fun x => qbind (of_part f vis (snd pq)) (fun y => QVal (x ++ y)))).
  Proof. reflexivity. Qed.

  Lemma coll_ok f : forall id s k vis path, U id -> In (s, k) (ell id) -> Acc step' id ->
    seen_ok slot U path -> (forall x, In x path -> below' x id) -> length set <= f + length path -> (forall x, In x vis -> ~ below' id x) ->
    exists ts, coll f s (left_end id) k (right_end id) vis = QVal ts /\ ft' (nk id) (flat_map drop_empty ts).
  Proof.
    induction f as [|f IH]; intros id s k vis path Hu I A Pa Pb Lf Vi.
    { exfalso. destruct Pa as [P1 P2]. assert (length (id :: path) <= length set); [|cbn in *; lia]. apply bound_ok; constructor; auto.
      intros X. apply (acc_no_cycle _ _ _ _ _ id A id (reach_refl _ _ _ _ _ id)). auto. }
    rewrite coll_S. destruct (parts_of_ok id (s, k) Hu I) as (p & q & E & Ip & Kq & Ep & Eq & Nq & Nn). unfold parts_of in E. cbn [fst snd] in E. rewrite E. cbn [of_opt qbind fst snd].
    assert (Pc : forall x, x = p \/ x = q -> x = PNone \/ exists c ts, pkey x = [c] /\ of_part f vis x = QVal ts /\ exists ts', ft' c ts' /\ flat_map drop_empty ts = TreeProof.wrap sg c ts').
    { intros x Ex. destruct (node_of_part x) as [c|] eqn:N.
      - right. assert (Uc : U c) by (eapply kid_known; eauto). pose proof (pkey_node x) as Kx. rewrite N in Kx.
        assert (Sc : step' c id).
        { exists (s, k). split; auto. unfold kids, parts_of. cbn [fst snd]. rewrite E. apply in_or_app. destruct Ex as [<-|<-]; rewrite N; [right|left]; left; auto. }
        assert (Bc : below' id c) by (exists c; split; [auto|constructor]).
        assert (Ac : Acc step' c) by (destruct A as [A]; auto).
        assert (Pa' : seen_ok slot U (id :: path)).
        { destruct Pa as [P1 P2]. split; constructor; auto. intros X. apply (acc_no_cycle _ _ _ _ _ id A id (reach_refl _ _ _ _ _ id)). auto. }
        assert (Pb' : forall y, In y (id :: path) -> below' y c).
        { intros y [<-|Y]; auto. destruct (Pb y Y) as (d & D1 & D2). exists d. split; auto. eapply reach_trans; eauto. eapply reach_step; [exact Sc|constructor]. }
        assert (Down : forall y, below' c y -> below' id y) by (intros y (d & D1 & D2); exists c; split; auto; eapply reach_step; eauto).
        destruct (ell c) as [|[s1 k1] rest] eqn:El; [exfalso; apply (el_some c Uc El)|].
        assert (I1 : In (s1, k1) (ell c)) by (rewrite El; left; auto).
        destruct x as [|[y| |] a b|s0 a b]; try discriminate; injection N as <-; cbn [nk left_end right_end] in *.
        + destruct (IH (QS y a b) s1 k1 (QS y a b :: vis) (id :: path) Uc I1 Ac Pa' Pb') as (ts & C1 & C2); [cbn [length]; lia| |].
          { intros z [<-|Z]; [apply (acc_no_cycle _ _ _ _ _ _ Ac); constructor|]. intros B. apply (Vi z Z). auto. }
          cbn [nk left_end right_end] in C1, C2. unfold el in El. cbn [elems] in El. destruct (bc y) as [sls|] eqn:By; [|discriminate]. cbn [of_opt qbind] in El.
          assert (Nt : exists nt, nth_error (sg_nts sg) y = Some nt) by (unfold bf_complete in By; destruct (nth_error (sg_nts sg) y); [eauto|discriminate]).
          destruct Nt as [nt Nt]. exists (NSym y a b), (if nt_isrule nt then [PT (nt_rulename nt) a b ts] else ts). split; auto. split.
          * unfold of_part. unfold collect_child. destruct (qid_mem slot_eq_dec (QS y a b) vis) eqn:M; [exfalso; apply mem_in in M; eapply Vi; eauto|].
            rewrite By. cbn [of_opt qbind]. rewrite first_hd, El. cbn [hd_error].
            assert (R1 : bf_is_rule sg y = Some (nt_isrule nt)) by (unfold bf_is_rule; rewrite Nt; reflexivity).
            assert (R2 : bf_rule_name sg y = Some (if nt_isrule nt then nt_rulename nt else "")) by (unfold bf_rule_name; rewrite Nt; reflexivity).
            rewrite R1. cbn [of_opt qbind]. rewrite C1. cbn [qbind]. rewrite R2. destruct (nt_isrule nt); reflexivity.
          * exists (flat_map drop_empty ts). split; auto. unfold TreeProof.wrap, rule_of. rewrite Nt. destruct (nt_isrule nt) eqn:Ru; auto. apply drop_node. eauto.
        + destruct (IH (QI s0 a b) s1 k1 vis (id :: path) Uc I1 Ac Pa' Pb') as (ts & C1 & C2); [cbn [length]; lia| |].
          { intros z Z B. apply (Vi z Z). auto. }
          cbn [nk left_end right_end] in C1, C2. unfold el in El. cbn [elems] in El. exists (NInter s0 a b), ts. split; auto. split.
          * unfold of_part. destruct (pv s0 a b) as [|k0 l]; [discriminate|]. cbn [map] in El. inversion El; subst. exact C1.
          * exists (flat_map drop_empty ts). split; auto.
      - destruct x as [|[y| |] a b|s0 a b]; try discriminate; auto; right.
        + exists (NTerm a b), [PT "" a b []]. split; auto. split; [reflexivity|]. exists (leaf a b). split; [constructor|]. rewrite drop_leaf. reflexivity.
        + exists (NTerm a b), []. split; auto. split; [reflexivity|]. exists (leaf a b). split; [constructor|].
          assert (a = b) by (destruct Ex as [Ex|Ex]; symmetry in Ex; eauto). subst b. unfold leaf. rewrite Nat.ltb_irrefl. reflexivity. }
    destruct (Pc q (or_intror eq_refl)) as [->|(cq & tq & Eq1 & Eq2 & tq' & Fq & Dq)]; [congruence|].
    destruct (Pc p (or_introl eq_refl)) as [->|(cp & tp & Ep1 & Ep2 & tp' & Fp & Dp)].
    - exists tq. split; [cbn [of_part qbind]; rewrite Eq2; reflexivity|]. rewrite Dq. eapply TreeProof.ft_one; eauto. cbn [pkey app] in Ip. rewrite Eq1 in Ip. exact Ip.
    - exists (tp ++ tq). split; [rewrite Ep2, Eq2; reflexivity|]. rewrite drop_app, Dp, Dq. eapply TreeProof.ft_two; eauto. rewrite Ep1, Eq1 in Ip. exact Ip.
  Qed.
End World.
