(** The SPPF engine runs in lockstep with the BSR engine: nodes and packs are
    the image of the BSR set.
    Its definitions are means of proof and model no code. *)
From Coq Require Import ZArith String Bool List Lia.
From Verif Require Import Syntax Spec Utf8 Num Term Printer Slots Gll Bsr BsrProof BsrTerm Sppf.
Import ListNotations.
Local Open Scope Z_scope.

Lemma packs_app k t t' : packs_of k (t ++ t') = match packs_of k t with Some x => Some x | None => packs_of k t' end.
Proof. induction t as [|[k' ps] t IH]; cbn; auto. destruct (nkey_eq_dec k k'); auto. Qed.

Lemma packs_add k pk t k' : packs_of k' (add_pack k pk t) =
  match packs_of k' t with
  | Some ps => Some (if nkey_eq_dec k' k then if in_dec pack_eq_dec pk ps then ps else (ps ++ [pk])%list else ps)
  | None => None
  end.
Proof.
  induction t as [|[k0 ps] t IH]; cbn; auto.
  destruct (nkey_eq_dec k k0); cbn.
  - subst. destruct (nkey_eq_dec k' k0); auto. destruct (packs_of k' t); auto.
  - destruct (nkey_eq_dec k' k0); auto. subst. destruct (nkey_eq_dec k0 k); congruence.
Qed.

Lemma add_pack_length k pk t : length (add_pack k pk t) = length t.
Proof. induction t as [|[k0 ps] t IH]; cbn; auto. destruct (nkey_eq_dec k k0); cbn; auto. Qed.

Lemma fold_left_map {A B C} (f : A -> B -> A) (g : C -> B) l : forall a,
  fold_left f (map g l) a = fold_left (fun a c => f a (g c)) l a.
Proof. induction l; cbn; auto. Qed.

Section Sim.
  Variable sg : slot_grammar.
  Variable input : list Z.
  Variable mx : Z.
  Variable ord : nat -> list nkey -> list nkey.
  Hypothesis ord_in : forall t l x, In x (ord t l) <-> In x l.

  (** The node of a symbol over a span. *)
  Definition symnode (s : ssym) (a b : nat) : nkey :=
    match s with SNonterm X => NSym X a b | _ => NTerm a b end.

  (** The node describing what lies before the dot, over a span. *)
  Definition wof (L : slot) (s e : nat) : option nkey :=
    match prod_of sg L with
    | None => None
    | Some p =>
        match s_dot L with
        | O => None
        | S d =>
            if Nat.eqb (S d) (length p) then Some (NSym (s_nt L) s e)
            else match d with
                 | O => match nth_error p 0 with Some x => Some (symnode x s e) | None => None end
                 | S _ => Some (NInter L s e)
                 end
        end
    end.

  (** The node a call of [v] returns. *)
  Definition zof (v : gss) (j : nat) : nkey :=
    match v with
    | U0 => NTerm 0 j
    | GN ret pos rc =>
        match prod_of sg ret, s_dot ret with
        | Some p, S d => match nth_error p d with Some x => symnode x pos j | None => NTerm pos j end
        | _, _ => NTerm pos j
        end
    end.

  Lemma symnode_end x a b : n_end (symnode x a b) = b. Proof. destruct x; reflexivity. Qed.
  Lemma symnode_start x a b : n_start (symnode x a b) = a. Proof. destruct x; reflexivity. Qed.
  Lemma zof_end v j : n_end (zof v j) = j.
  Proof.
    destruct v; cbn; auto. destruct (prod_of sg ret); auto. destruct (s_dot ret); auto.
    destruct (nth_error l n); auto. apply symnode_end.
  Qed.
  Lemma wof_start L s e w : wof L s e = Some w -> n_start w = s.
  Proof.
    unfold wof. destruct (prod_of sg L) as [p|]; [|easy]. destruct (s_dot L) as [|d]; [easy|].
    destruct (Nat.eqb _ _); [intros H; inversion H; auto|].
    destruct d; [destruct (nth_error p 0); [|easy]|]; intros H; inversion H; auto. apply symnode_start.
  Qed.

  (** Node and pack of a BSR element. *)
  Definition ekey (e : belem) : nkey :=
    match prod_of sg (be_slot e) with
    | Some p => if Nat.eqb (s_dot (be_slot e)) (length p) then NSym (s_nt (be_slot e)) (be_l e) (be_r e)
                else NInter (be_slot e) (be_l e) (be_r e)
    | None => NInter (be_slot e) (be_l e) (be_r e)
    end.
  Definition pre (L : slot) : slot := mkSlot (s_nt L) (s_alt L) (pred (s_dot L)).
  Definition epack (e : belem) : list nkey :=
    let last := match prod_of sg (be_slot e) with
                | Some p => match nth_error p (pred (s_dot (be_slot e))) with
                            | Some x => symnode x (be_k e) (be_r e)
                            | None => NTerm (be_k e) (be_r e)
                            end
                | None => NTerm (be_k e) (be_r e)
                end in
    match wof (pre (be_slot e)) (be_l e) (be_k e) with
    | Some w => [w; last]
    | None => [last]
    end.

  Definition recorded (L : slot) : bool :=
    match prod_of sg L with
    | Some p => (Nat.leb 2 (s_dot L) || Nat.eqb (s_dot L) (length p))%bool
    | None => false
    end.

  Lemma pre_adv L : pre (adv L) = L.
  Proof. destruct L; reflexivity. Qed.

  Lemma node_p_spec L p x s k r : prod_of sg L = Some p -> nth_error p (s_dot L) = Some x ->
    (s_dot L = 0%nat -> k = s) ->
    exists y, wof (adv L) s r = Some y /\
      node_p sg (adv L) (wof L s k) (symnode x k r) =
        (y, if recorded (adv L) then Some (epack (mkBE (adv L) s k r)) else None) /\
      (recorded (adv L) = true -> ekey (mkBE (adv L) s k r) = y).
  Proof.
    intros P N Z. unfold node_p, recorded. change (prod_of sg (adv L)) with (prod_of sg L).
    assert (Lt : (s_dot L < length p)%nat) by (apply nth_error_Some; congruence).
    rewrite P. cbn [s_dot adv]. unfold wof at 1. change (prod_of sg (adv L)) with (prod_of sg L). rewrite P.
    cbn [s_dot adv s_nt]. unfold epack, ekey. cbn [be_slot be_l be_k be_r].
    change (prod_of sg (adv L)) with (prod_of sg L). rewrite P. cbn [adv s_dot pred s_nt]. rewrite N.
    change (pre (mkSlot (s_nt L) (s_alt L) (S (s_dot L)))) with (pre (adv L)). rewrite pre_adv.
    rewrite symnode_end.
    assert (St : match wof L s k with Some w => n_start w | None => n_start (symnode x k r) end = s).
    { destruct (wof L s k) eqn:W; [eapply wof_start; eauto|]. rewrite symnode_start. apply Z.
      unfold wof in W. rewrite P in W. destruct (s_dot L) as [|d]; auto.
      destruct (Nat.eqb _ _); [discriminate|]. destruct d; [|discriminate].
      destruct (nth_error p 0) eqn:Q; [discriminate|]. apply nth_error_None in Q. lia. }
    rewrite St.
    destruct (Nat.eqb (S (s_dot L)) (length p)) eqn:C.
    - rewrite andb_false_r, orb_true_r. eexists. split; [reflexivity|]. split; auto.
    - rewrite orb_false_r. destruct (s_dot L) as [|d] eqn:D; cbn [Nat.eqb negb andb Nat.leb].
      + rewrite N. eexists. split; [reflexivity|]. split; [|discriminate]. rewrite Z by auto. auto.
      + eexists. split; [reflexivity|]. split; auto.
  Qed.

  Definition ord' (t : nat) (v : gss) (l : list nat) : list nat := map n_end (ord t (map (zof v) l)).
  Lemma ord'_in t v l x : In x (ord' t v l) <-> In x l.
  Proof.
    unfold ord'. rewrite in_map_iff. split.
    - intros (z & E & H). apply ord_in in H. apply in_map_iff in H as (j & E2 & H). subst. rewrite zof_end. auto.
    - intros H. exists (zof v x). rewrite zof_end. split; auto. apply ord_in. apply in_map. auto.
  Qed.

  (** *** The relation *)
  Definition known (k : nkey) (t : ntable) : Prop := packs_of k t <> None.
  Definition wknown (w : option nkey) (t : ntable) : Prop := forall k, w = Some k -> known k t.

  Definition dinv (L : slot) (u : gss) (i : nat) (w : option nkey) : Prop :=
    w = wof L (g_pos u) i /\ (s_dot L = 0%nat -> i = g_pos u) /\
    (exists p, prod_of sg L = Some p /\ (s_dot L <= length p)%nat /\ p <> []) /\
    match u with
    | U0 => True
    | GN ret pos rc => exists L0 p, ret = adv L0 /\ prod_of sg L0 = Some p /\
                         nth_error p (s_dot L0) = Some (SNonterm (s_nt L))
    end.

  Definition einv (v : gss) (w : option nkey) (u : gss) : Prop :=
    match v with
    | U0 => False
    | GN ret pos rc => exists L p X, ret = adv L /\ prod_of sg L = Some p /\
        nth_error p (s_dot L) = Some (SNonterm X) /\ dinv L u pos w
    end.
  Definition zinv (v : gss) (z : nkey) : Prop := z = zof v (n_end z).

  Definition projd (d : sdesc) : bdesc := mkBD (sd_L d) (sd_u d) (sd_i d) (sd_rc d).
  Definition proje (e : sedge) : gss * gss := (fst e, snd (snd e)).
  Definition projz (z : gss * nkey) : gss * nat := (fst z, n_end (snd z)).

  Definition okd (t : ntable) (d : sdesc) : Prop :=
    dinv (sd_L d) (sd_u d) (sd_i d) (sd_w d) /\ wknown (sd_w d) t.
  Definition oke (t : ntable) (e : sedge) : Prop :=
    einv (fst e) (fst (snd e)) (snd (snd e)) /\ wknown (fst (snd e)) t.
  Definition okz (t : ntable) (z : gss * nkey) : Prop := zinv (fst z) (snd z) /\ known (snd z) t.

  (* the children of the first pack of a node are allocated before the node *)
  Definition first_earlier (t : ntable) : Prop :=
    forall t1 k pk ps t2 c, t = (t1 ++ (k, pk :: ps) :: t2)%list -> In c pk -> known c t1.

  Record tbl (t : ntable) (set : list belem) : Prop := {
    t_to : forall e, In e set -> exists ps, packs_of (ekey e) t = Some ps /\ In (epack e) ps;
    t_from : forall k ps pk, packs_of k t = Some ps -> In pk ps ->
      exists e, In e set /\ ekey e = k /\ epack e = pk;
    t_full : forall k ps, packs_of k t = Some ps -> (exists a b, k = NTerm a b) \/ ps <> [];
    t_nodup : forall k ps, packs_of k t = Some ps -> NoDup ps;
    t_child : forall k ps pk c, packs_of k t = Some ps -> In pk ps -> In c pk -> known c t;
    t_rec : forall e, In e set -> exists L p x, be_slot e = adv L /\ prod_of sg L = Some p /\
       nth_error p (s_dot L) = Some x /\ (s_dot L = 0%nat -> be_k e = be_l e) /\ recorded (be_slot e) = true;
    t_first : first_earlier t }.

  Record R (ps : pstate) (bs : bstate) : Prop := {
    r_seen : b_seen bs = map projd (p_seen ps);
    r_work : b_work bs = map projd (p_work ps);
    r_edges : b_edges bs = map proje (p_edges ps);
    r_popped : b_popped bs = map projz (p_popped ps);
    r_tick : b_tick bs = p_tick ps;
    r_ab : b_aborted bs = false;
    r_okd : forall d, In d (p_seen ps) -> okd (p_nodes ps) d;
    r_okw : incl (p_work ps) (p_seen ps);
    r_oke : forall e, In e (p_edges ps) -> oke (p_nodes ps) e;
    r_okz : forall z, In z (p_popped ps) -> okz (p_nodes ps) z;
    r_tbl : tbl (p_nodes ps) (b_set bs) }.

  Lemma dinv_inj L u i w w' : dinv L u i w -> dinv L u i w' -> w = w'.
  Proof. intros (-> & _) (-> & _). auto. Qed.

  Lemma add_R L u i w rc ps bs : R ps bs -> dinv L u i w -> wknown w (p_nodes ps) ->
    R (p_add L u i w rc ps) (b_add L u i rc bs).
  Proof.
    intros H D K. unfold p_add, b_add.
    assert (E : In (mkSD L u i w rc) (p_seen ps) <-> In (mkBD L u i rc) (b_seen bs)).
    { rewrite (r_seen _ _ H), in_map_iff. split.
      - intros X. exists (mkSD L u i w rc). auto.
      - intros ((L', u', i', w', rc') & E & X). inversion E; cbn in *; subst.
        destruct (r_okd _ _ H _ X) as [D' _]. cbn in D'. rewrite (dinv_inj _ _ _ _ _ D D'). auto. }
    destruct (in_dec sdesc_eq_dec _ _) as [I|I], (in_dec bdesc_eq_dec _ _) as [I'|I']; try tauto.
    destruct H. split; cbn; auto; try congruence.
    - f_equal; auto.
    - f_equal; auto.
    - intros d [<-|X]; auto. split; auto.
    - intros d [<-|X]; [left; auto|right; auto].
  Qed.

  (** *** Table steps *)
  Lemma known_find k st k' : known k' (p_nodes st) -> known k' (p_nodes (find_node mx k st)).
  Proof.
    unfold find_node, known. destruct (packs_of k (p_nodes st)); auto. cbn. rewrite packs_app.
    destruct (packs_of k' (p_nodes st)); congruence.
  Qed.
  Lemma find_known k st : known k (p_nodes (find_node mx k st)).
  Proof.
    unfold find_node, known. destruct (packs_of k (p_nodes st)) eqn:E; [congruence|]. cbn.
    rewrite packs_app, E. cbn. destruct (nkey_eq_dec k k); congruence.
  Qed.
  Lemma wknown_mono w t t' : (forall k, known k t -> known k t') -> wknown w t -> wknown w t'.
  Proof. unfold wknown. eauto. Qed.

  Definition upd_nodes (st : pstate) (t : ntable) (a : bool) : pstate :=
    mkP (p_seen st) (p_work st) (p_edges st) (p_popped st) t a (p_maxpos st) (p_expected st) (p_tick st).

  Lemma R_nodes ps bs t a bs' : R ps bs -> (forall k, known k (p_nodes ps) -> known k t) ->
    tbl t (b_set bs') -> b_seen bs' = b_seen bs -> b_work bs' = b_work bs -> b_edges bs' = b_edges bs ->
    b_popped bs' = b_popped bs -> b_tick bs' = b_tick bs -> b_aborted bs' = b_aborted bs ->
    R (upd_nodes ps t a) bs'.
  Proof.
    intros [] K T E1 E2 E3 E4 E5 E6. split; cbn; auto; try congruence.
    - intros d I. destruct (r_okd0 _ I). split; [auto|]. eapply wknown_mono; eauto.
    - intros d I. destruct (r_oke0 _ I). split; [auto|]. eapply wknown_mono; eauto.
    - intros d I. destruct (r_okz0 _ I). split; auto.
  Qed.

  Lemma find_node_eq k st : find_node mx k st =
    upd_nodes st (p_nodes (find_node mx k st)) (p_aborted (find_node mx k st)).
  Proof. unfold find_node. destruct (packs_of k (p_nodes st)); destruct st; reflexivity. Qed.

  Lemma list_split3 {A} (t1 a : list A) x y t2 b : (t1 ++ x :: t2 = a ++ y :: b)%list ->
    (exists a2, a = t1 ++ x :: a2)%list \/ (t1 = a /\ x = y) \/ (exists b1, t1 = a ++ y :: b1 /\ b = b1 ++ x :: t2)%list.
  Proof.
    revert a. induction t1 as [|z t1 IH]; intros [|w a] E; cbn in E; inversion E; subst; auto.
    - left. exists a. auto.
    - right. right. exists t1. auto.
    - destruct (IH _ H1) as [(a2 & ->)|[[-> ->]|(b1 & -> & ->)]]; auto.
      + left. exists a2. auto.
      + right. right. exists b1. auto.
  Qed.
  Lemma first_app_nil t k : first_earlier t -> first_earlier (t ++ [(k, [])]).
  Proof.
    intros H t1 k' pk ps t2 c E I. symmetry in E.
    apply list_split3 in E as [(a2 & ->)|[[-> E]|(b1 & -> & E)]].
    - eapply H; eauto.
    - inversion E.
    - destruct b1; discriminate.
  Qed.
  Lemma first_add a y ps pk ps' b : first_earlier (a ++ (y, ps) :: b) ->
    (ps = [] -> forall c, In c pk -> known c a) -> ps' = ps \/ ps' = (ps ++ [pk])%list ->
    first_earlier (a ++ (y, ps') :: b).
  Proof.
    intros H N E t1 k q qs t2 c E1 I. symmetry in E1.
    apply list_split3 in E1 as [(a2 & ->)|[[-> E1]|(b1 & -> & ->)]].
    - rewrite <- app_assoc in H. cbn [app] in H. eapply H; eauto.
    - inversion E1; subst k ps'. destruct ps as [|q0 ps].
      + destruct E as [E|E]; [discriminate|]. inversion E; subst. auto.
      + assert (q0 = q) by (destruct E as [E|E]; inversion E; auto). subst q0. eapply H; eauto.
    - assert (K : known c (a ++ (y, ps) :: b1)).
      { eapply (H (a ++ (y, ps) :: b1)%list k q qs t2 c); [rewrite <- app_assoc; reflexivity|auto]. }
      unfold known in *. rewrite packs_app in *. destruct (packs_of c a); [congruence|]. cbn in *.
      destruct (nkey_eq_dec c y); congruence.
  Qed.
  Lemma add_pack_split y pk t ps : packs_of y t = Some ps -> exists a b, t = (a ++ (y, ps) :: b)%list /\ packs_of y a = None /\
    add_pack y pk t = (a ++ (y, if in_dec pack_eq_dec pk ps then ps else (ps ++ [pk])%list) :: b)%list.
  Proof.
    induction t as [|[k0 ps0] t IH]; cbn; [discriminate|]. destruct (nkey_eq_dec y k0) as [->|Ne].
    - intros E; inversion E; subst. exists [], t. auto.
    - intros E. destruct (IH E) as (a & b & -> & N & E2). exists ((k0, ps0) :: a), b. rewrite E2. cbn.
      destruct (nkey_eq_dec y k0); [congruence|]. auto.
  Qed.

  Lemma find_term_R a b ps bs : R ps bs -> R (find_node mx (NTerm a b) ps) bs.
  Proof.
    intros H. rewrite find_node_eq. apply R_nodes with (bs := bs); auto; [intros; apply known_find; auto|].
    pose proof (r_tbl _ _ H) as T. unfold find_node. destruct (packs_of (NTerm a b) (p_nodes ps)) eqn:E; auto.
    cbn. assert (Q : forall k ps', packs_of k (p_nodes ps ++ [(NTerm a b, [])]) = Some ps' ->
      packs_of k (p_nodes ps) = Some ps' \/ (k = NTerm a b /\ ps' = [])).
    { intros k ps'. rewrite packs_app. destruct (packs_of k (p_nodes ps)); auto. cbn.
      destruct (nkey_eq_dec k (NTerm a b)); [|discriminate]. intros X; inversion X; subst; auto. }
    destruct T. split.
    - intros e I. destruct (t_to0 e I) as (q & A & B). exists q. rewrite packs_app, A. auto.
    - intros k q pk A B. apply Q in A as [A|[-> ->]]; [eauto|easy].
    - intros k q A. apply Q in A as [A|[-> ->]]; eauto.
    - intros k q A. apply Q in A as [A|[-> ->]]; eauto. constructor.
    - intros k q pk c A B C. apply Q in A as [A|[-> ->]]; [|easy].
      unfold known. rewrite packs_app. specialize (t_child0 _ _ _ _ A B C). unfold known in t_child0.
      destruct (packs_of c (p_nodes ps)); congruence.
    - auto.
    - apply first_app_nil. auto.
  Qed.

  Lemma record_some L s k r bs e : recorded L = true -> e = mkBE L s k r -> b_aborted bs = false ->
    (b_record sg 0 L s k r bs =
      mkB (b_seen bs) (b_work bs) (b_edges bs) (b_popped bs) (b_set (b_record sg 0 L s k r bs)) false (b_tick bs)) /\
    (forall x, In x (b_set (b_record sg 0 L s k r bs)) <-> x = e \/ In x (b_set bs)).
  Proof.
    unfold recorded, b_record. destruct (prod_of sg L); [|discriminate]. intros -> -> A.
    change (0 <? 0) with false. cbn [andb].
    destruct (in_dec belem_eq_dec _ _) as [I|I]; cbn.
    - split; [destruct bs; cbn in *; congruence|]. intros x. split; auto. intros [->|X]; auto.
    - split; [rewrite A; auto|]. intros x. split; intros [->|X]; auto.
  Qed.

  (** One step of getNodeP with record. *)
  Lemma get_R L p x u k r ps bs w : R ps bs -> prod_of sg L = Some p -> nth_error p (s_dot L) = Some x ->
    (s_dot L = 0%nat -> k = g_pos u) -> w = wof L (g_pos u) k -> wknown w (p_nodes ps) ->
    known (symnode x k r) (p_nodes ps) ->
    forall y ps', get_node_p sg mx (adv L) w (symnode x k r) ps = (y, ps') ->
      wof (adv L) (g_pos u) r = Some y /\ known y (p_nodes ps') /\
      (forall k, known k (p_nodes ps) -> known k (p_nodes ps')) /\
      R ps' (b_record sg 0 (adv L) (g_pos u) k r bs).
  Proof.
    intros H P N Z W KW KZ y ps' G.
    destruct (node_p_spec L p x (g_pos u) k r P N Z) as (y0 & W0 & E & EK).
    unfold get_node_p in G. rewrite W in G. rewrite E in G.
    destruct (recorded (adv L)) eqn:Rc.
    - injection G as <- <-. split; auto. set (e := mkBE (adv L) (g_pos u) k r) in *.
      specialize (EK eq_refl).
      assert (KM : forall k0, known k0 (p_nodes ps) -> known k0 (add_pack y0 (epack e) (p_nodes (find_node mx y0 ps)))).
      { intros k0 K. unfold known. rewrite packs_add. pose proof (known_find y0 ps k0 K) as K2. unfold known in K2.
        destruct (packs_of k0 _); congruence. }
      assert (KY : known y0 (add_pack y0 (epack e) (p_nodes (find_node mx y0 ps)))).
      { unfold known. rewrite packs_add. pose proof (find_known y0 ps) as K2. unfold known in K2.
        destruct (packs_of y0 _); congruence. }
      split; [exact KY|]. split; [exact KM|].
      destruct (record_some (adv L) (g_pos u) k r bs e Rc eq_refl (r_ab _ _ H)) as [B1 B2].
      assert (Q : forall k0 q, packs_of k0 (p_nodes (find_node mx y0 ps)) = Some q ->
         packs_of k0 (p_nodes ps) = Some q \/ (k0 = y0 /\ q = [])).
      { intros k0 q. unfold find_node. destruct (packs_of y0 (p_nodes ps)) eqn:E0; auto. cbn. rewrite packs_app.
        destruct (packs_of k0 (p_nodes ps)); auto. cbn. destruct (nkey_eq_dec k0 y0); [|discriminate].
        intros X; inversion X; subst; auto. }
      assert (FS : p_seen (find_node mx y0 ps) = p_seen ps /\ p_work (find_node mx y0 ps) = p_work ps /\
        p_edges (find_node mx y0 ps) = p_edges ps /\ p_popped (find_node mx y0 ps) = p_popped ps /\
        p_maxpos (find_node mx y0 ps) = p_maxpos ps /\ p_expected (find_node mx y0 ps) = p_expected ps /\
        p_tick (find_node mx y0 ps) = p_tick ps).
      { unfold find_node. destruct (packs_of y0 (p_nodes ps)); cbn; repeat split. }
      destruct FS as (-> & -> & -> & -> & -> & -> & ->).
      apply (R_nodes ps bs (add_pack y0 (epack e) (p_nodes (find_node mx y0 ps))) (p_aborted (find_node mx y0 ps)));
        auto; [|rewrite B1; cbn; auto; rewrite (r_ab _ _ H); auto..].
      pose proof (r_tbl _ _ H) as T.
      assert (KM' : forall k0 q, packs_of k0 (p_nodes ps) = Some q -> exists q', packs_of k0 (p_nodes (find_node mx y0 ps)) = Some q' /\ q' = q).
      { intros k0 q A. unfold find_node. destruct (packs_of y0 (p_nodes ps)) eqn:E0; eauto. cbn. rewrite packs_app, A. eauto. }
      split.
      + intros e0 I. apply B2 in I as [->|I].
        * rewrite EK. pose proof (find_known y0 ps) as K2. unfold known in K2.
          rewrite packs_add. destruct (packs_of y0 (p_nodes (find_node mx y0 ps))) as [q|] eqn:A; [|congruence].
          eexists. split; [reflexivity|]. destruct (nkey_eq_dec y0 y0); [|congruence].
          destruct (in_dec pack_eq_dec (epack e) q); auto. apply in_app_iff. cbn; auto.
        * destruct (t_to _ _ T e0 I) as (q & A & B). destruct (KM' _ _ A) as (q' & A' & ->).
          rewrite packs_add, A'. eexists. split; [reflexivity|]. destruct (nkey_eq_dec (ekey e0) y0); auto.
          destruct (in_dec pack_eq_dec _ _); auto. apply in_app_iff; auto.
      + intros k0 q pk A B. rewrite packs_add in A. destruct (packs_of k0 (p_nodes (find_node mx y0 ps))) as [q0|] eqn:A0; [|discriminate].
        assert (Old : In pk q0 -> exists e0, In e0 (b_set (b_record sg 0 (adv L) (g_pos u) k r bs)) /\ ekey e0 = k0 /\ epack e0 = pk).
        { intros I. apply Q in A0 as [A0|[-> ->]]; [|easy]. destruct (t_from _ _ T _ _ _ A0 I) as (e0 & E0 & E1 & E2).
          exists e0. split; auto. apply B2. auto. }
        inversion A; subst q. destruct (nkey_eq_dec k0 y0) as [->|]; auto.
        destruct (in_dec pack_eq_dec _ _); auto. apply in_app_iff in B as [B|[<-|[]]]; auto.
        exists e. split; auto. apply B2. auto.
      + intros k0 q A. rewrite packs_add in A. destruct (packs_of k0 (p_nodes (find_node mx y0 ps))) as [q0|] eqn:A0; [|discriminate].
        inversion A; subst q. destruct (nkey_eq_dec k0 y0) as [->|Ne].
        * right. destruct (in_dec pack_eq_dec (epack e) q0) as [I|I]; [destruct q0; [easy|discriminate]|].
          destruct q0; discriminate.
        * apply Q in A0 as [A0|[? ?]]; [|congruence]. eapply t_full; eauto.
      + intros k0 q A. rewrite packs_add in A. destruct (packs_of k0 (p_nodes (find_node mx y0 ps))) as [q0|] eqn:A0; [|discriminate].
        assert (ND : NoDup q0). { apply Q in A0 as [A0|[-> ->]]; [eapply t_nodup; eauto|constructor]. }
        inversion A; subst q. destruct (nkey_eq_dec k0 y0) as [->|]; auto.
        destruct (in_dec pack_eq_dec _ _) as [|NI]; auto.
        apply NoDup_rev in ND. rewrite <- (rev_involutive (q0 ++ [epack e])). apply NoDup_rev.
        rewrite rev_app_distr. cbn. constructor; auto. rewrite <- in_rev. auto.
      + intros k0 q pk c A B C. rewrite packs_add in A. destruct (packs_of k0 (p_nodes (find_node mx y0 ps))) as [q0|] eqn:A0; [|discriminate].
        assert (Old : In pk q0 -> known c (p_nodes ps)).
        { intros I. apply Q in A0 as [A0|[-> ->]]; [|easy]. eapply t_child; eauto. }
        apply KM. inversion A; subst q. destruct (nkey_eq_dec k0 y0) as [->|]; auto.
        destruct (in_dec pack_eq_dec _ _); auto. apply in_app_iff in B as [B|[<-|[]]]; auto.
        unfold epack, e in C. cbn [be_slot be_l be_k be_r] in C. rewrite pre_adv in C.
        change (prod_of sg (adv L)) with (prod_of sg L) in C. rewrite P in C. cbn [adv s_dot pred] in C. rewrite N in C.
        rewrite <- W in C. destruct w as [w|]; cbn in C; intuition; subst; auto.
      + intros e0 I. apply B2 in I as [->|I]; [|eapply t_rec; eauto].
        exists L, p, x. unfold e. cbn. auto.
      + assert (PK : forall c, In c (epack e) -> known c (p_nodes ps)).
        { intros c C. unfold epack, e in C. cbn [be_slot be_l be_k be_r] in C. rewrite pre_adv in C.
          change (prod_of sg (adv L)) with (prod_of sg L) in C. rewrite P in C. cbn [adv s_dot pred] in C. rewrite N in C.
          rewrite <- W in C. destruct w as [w|]; cbn in C; intuition; subst; auto. }
        pose proof (t_first _ _ T) as TF.
        assert (NT : forall a b, y0 <> NTerm a b).
        { intros a b ->. unfold ekey in EK. destruct (prod_of sg (be_slot e)); [destruct (Nat.eqb _ _)|]; discriminate. }
        unfold find_node. destruct (packs_of y0 (p_nodes ps)) as [q|] eqn:E0; cbn [p_nodes].
        * destruct (add_pack_split y0 (epack e) _ _ E0) as (a & b & E1 & _ & ->). rewrite E1 in TF.
          eapply first_add with (pk := epack e); [exact TF| |destruct (in_dec _ _ _); auto].
          intros ->. exfalso. destruct (t_full _ _ T _ _ E0) as [(a1 & b1 & E2)|E2]; [|congruence].
          apply (NT _ _ E2).
        * assert (E1 : packs_of y0 (p_nodes ps ++ [(y0, [])]) = Some []).
          { rewrite packs_app, E0. cbn. destruct (nkey_eq_dec y0 y0); congruence. }
          destruct (add_pack_split y0 (epack e) _ _ E1) as (a & b & E2 & E3 & ->).
          pose proof (first_app_nil _ y0 TF) as TF2. rewrite E2 in TF2.
          eapply first_add with (pk := epack e); [exact TF2| |destruct (in_dec _ _ _); auto].
          intros _ c C. apply list_split3 in E2 as [(a2 & ->)|[[<- _]|(b1 & E2 & E4)]]; auto.
          -- rewrite packs_app, E0 in E3. cbn in E3. destruct (nkey_eq_dec y0 y0); congruence.
          -- exfalso. rewrite E2, packs_app, E3 in E0. cbn in E0. destruct (nkey_eq_dec y0 y0); congruence.
    - injection G as <- <-. split; auto.
      assert (KY : known y0 (p_nodes ps)).
      { unfold node_p in E. change (prod_of sg (adv L)) with (prod_of sg L) in E. rewrite P in E.
        destruct (Nat.eqb (s_dot (adv L)) 1 && _)%bool; [|destruct (Nat.eqb _ _); discriminate].
        inversion E; subst. auto. }
      split; auto. split; auto.
      replace (b_record sg 0 (adv L) (g_pos u) k r bs) with bs; auto.
      unfold b_record. unfold recorded in Rc. destruct (prod_of sg (adv L)); auto. rewrite Rc. auto.
  Qed.

  Lemma dinv_adv L p x u i j w w' : dinv L u i w -> prod_of sg L = Some p -> nth_error p (s_dot L) = Some x ->
    wof (adv L) (g_pos u) j = Some w' -> dinv (adv L) u j (Some w').
  Proof.
    intros (_ & _ & (p' & P' & Le & NE) & C) P N W. split; [auto|]. split; [cbn; discriminate|]. split; [|exact C].
    exists p. change (prod_of sg (adv L)) with (prod_of sg L). split; auto. rewrite P in P'. inversion P'; subst.
    split; auto. cbn. assert (nth_error p' (s_dot L) <> None) as NN by congruence. apply nth_error_Some in NN. lia.
  Qed.

  (** Resuming an edge with a result. *)
  Lemma resume_R ret pos rc w u z ps bs : R ps bs -> oke (p_nodes ps) (GN ret pos rc, (w, u)) ->
    okz (p_nodes ps) (GN ret pos rc, z) ->
    R (let '(y, s') := get_node_p sg mx ret w z ps in p_add ret u (n_end z) (Some y) rc s')
      (b_add ret u (n_end z) rc (b_record sg 0 ret (g_pos u) pos (n_end z) bs)) /\
    (forall k, known k (p_nodes ps) -> known k (p_nodes (let '(y, s') := get_node_p sg mx ret w z ps in p_add ret u (n_end z) (Some y) rc s'))).
  Proof.
    intros H [E KW] [Z KZ]. cbn in E, KW, Z, KZ. destruct E as (L & p & X & -> & P & N & D).
    unfold zinv, zof in Z. change (prod_of sg (adv L)) with (prod_of sg L) in Z. rewrite P in Z. cbn [adv s_dot] in Z. rewrite N in Z.
    destruct (get_node_p sg mx (adv L) w z ps) as [y ps'] eqn:G.
    rewrite Z in G, KZ. destruct D as (D1 & D2 & D3) eqn:DD.
    destruct (get_R L p (SNonterm X) u pos (n_end z) ps bs w H P N D2 D1 KW KZ y ps' G) as (A & B & C & F).
    split.
    - apply add_R; auto.
      + eapply dinv_adv; [exact (conj D1 (conj D2 D3))|eauto..].
      + intros k K; inversion K; subst; auto.
    - intros k K. unfold p_add. destruct (in_dec _ _ _); cbn; auto.
  Qed.

  Lemma fold_R {A} (f : pstate -> A -> pstate) (h : bstate -> A -> bstate) (Q : ntable -> A -> Prop) l :
    (forall ps bs x, R ps bs -> Q (p_nodes ps) x ->
       R (f ps x) (h bs x) /\ (forall k, known k (p_nodes ps) -> known k (p_nodes (f ps x)))) ->
    (forall t t' x, (forall k, known k t -> known k t') -> Q t x -> Q t' x) ->
    forall ps bs, R ps bs -> (forall x, In x l -> Q (p_nodes ps) x) ->
    R (fold_left f l ps) (fold_left h l bs) /\ (forall k, known k (p_nodes ps) -> known k (p_nodes (fold_left f l ps))).
  Proof.
    intros H M. induction l as [|x l IH]; cbn; intros ps bs HR HQ; [auto|].
    destruct (H ps bs x HR (HQ x (or_introl eq_refl))) as [A1 B1].
    destruct (IH _ _ A1) as [C1 D1]; [intros y Y; eapply M; [exact B1|apply HQ; auto]|]. split; auto.
  Qed.

  Lemma okz_mono t t' z : (forall k, known k t -> known k t') -> okz t z -> okz t' z.
  Proof. intros K [A B]. split; auto. Qed.
  Lemma oke_mono t t' z : (forall k, known k t -> known k t') -> oke t z -> oke t' z.
  Proof. intros K [A B]. split; [auto|]. eapply wknown_mono; eauto. Qed.

  Lemma popped_map v l t : (forall z, In z l -> okz t z) ->
    map (zof v) (popped_of v (map projz l)) = spopped_of v l.
  Proof.
    unfold popped_of, spopped_of. induction l as [|[v' z] l IH]; cbn; intros H; auto.
    destruct (gss_eq_dec v' v) as [->|]; cbn; [|apply IH; auto]. rewrite IH by auto. f_equal.
    destruct (H (v, z) (or_introl eq_refl)) as [Z _]. symmetry. apply Z.
  Qed.
  Lemma spopped_of_in u l k : In k (spopped_of u l) <-> In (u, k) l.
  Proof.
    unfold spopped_of. rewrite in_map_iff. split.
    - intros ((a, b) & E & F). apply filter_In in F as [F G]. cbn in *. subst.
      destruct (gss_eq_dec a u); [subst; auto|discriminate].
    - intros H. exists (u, k). split; auto. apply filter_In. split; auto. cbn.
      destruct (gss_eq_dec u u); auto.
  Qed.
  Lemma edges_map v l : edges_of v (map proje l) = map snd (sedges_of v l).
  Proof.
    unfold edges_of, sedges_of. induction l as [|[v' [w u]] l IH]; cbn; auto.
    destruct (gss_eq_dec v' v) as [->|]; cbn; [|apply IH; auto]. f_equal. auto.
  Qed.
  Lemma sedges_of_in u l k : In k (sedges_of u l) <-> In (u, k) l.
  Proof.
    unfold sedges_of. rewrite in_map_iff. split.
    - intros ((a, b) & E & F). apply filter_In in F as [F G]. cbn in *. subst.
      destruct (gss_eq_dec a u); [subst; auto|discriminate].
    - intros H. exists (u, k). split; auto. apply filter_In. split; auto. cbn.
      destruct (gss_eq_dec u u); auto.
  Qed.

  Lemma create_R L p X u i w rc ps bs : R ps bs -> dinv L u i w -> wknown w (p_nodes ps) ->
    prod_of sg L = Some p -> nth_error p (s_dot L) = Some (SNonterm X) ->
    R (p_create sg mx ord (adv L) u i w rc ps) (b_create sg 0 ord' (adv L) u i rc bs).
  Proof.
    intros H D K P N. unfold p_create, b_create. set (v := GN (adv L) i rc).
    assert (EI : einv v w u) by (exists L, p, X; auto).
    assert (E : In (v, (w, u)) (p_edges ps) <-> In (v, u) (b_edges bs)).
    { rewrite (r_edges _ _ H), in_map_iff. split.
      - intros I. exists (v, (w, u)). auto.
      - intros ((v', (w', u')) & E & I). inversion E; cbn in *; subst.
        destruct (r_oke _ _ H _ I) as [E' _]. cbn in E'. destruct E' as (L' & p' & X' & A1 & A2 & A3 & A4).
        assert (L = L') by (destruct L, L'; cbn in A1; inversion A1; reflexivity). subst L'.
        rewrite (dinv_inj _ _ _ _ _ D A4). auto. }
    destruct (in_dec sedge_eq_dec _ _) as [I|I], (in_dec gg_eq_dec _ _) as [I'|I']; try tauto.
    assert (HR1 : R (mkP (p_seen ps) (p_work ps) (p_edges ps ++ [(v, (w, u))]) (p_popped ps) (p_nodes ps)
                     (p_aborted ps) (p_maxpos ps) (p_expected ps) (S (p_tick ps)))
                    (mkB (b_seen bs) (b_work bs) (b_edges bs ++ [(v, u)]) (b_popped bs) (b_set bs)
                     (b_aborted bs) (S (b_tick bs)))).
    { destruct H. split; cbn; auto.
      - rewrite map_app. f_equal; auto.
      - intros e X'. apply in_app_iff in X' as [X'|[<-|[]]]; auto. split; auto. }
    unfold ord' at 1. rewrite (r_popped _ _ H), (popped_map v _ (p_nodes ps)) by apply (r_okz _ _ H).
    rewrite (r_tick _ _ H). rewrite (r_tick _ _ H), (r_popped _ _ H) in HR1. rewrite fold_left_map.
    eapply fold_R with (Q := fun t z => okz t (v, z) /\ oke t (v, (w, u))); [| |exact HR1|].
    - intros ps0 bs0 z R0 [Q1 Q2]. apply resume_R; auto.
    - intros t t' z M [Q1 Q2]. split; [eapply okz_mono|eapply oke_mono]; eauto.
    - cbn. intros z Z. apply ord_in in Z. apply spopped_of_in in Z. split; [apply (r_okz _ _ H); auto|split; auto].
  Qed.

  Lemma pop_R u i z ps bs : R ps bs -> (forall ret pos rc, u = GN ret pos rc -> okz (p_nodes ps) (u, z)) ->
    n_end z = i -> R (p_pop sg mx u i z ps) (b_pop sg 0 u i bs).
  Proof.
    intros H Z E. subst i. destruct u as [|ret pos rc]; auto. unfold p_pop, b_pop. specialize (Z ret pos rc eq_refl).
    set (u := GN ret pos rc) in *.
    assert (EQ : In (u, z) (p_popped ps) <-> In (u, n_end z) (b_popped bs)).
    { rewrite (r_popped _ _ H), in_map_iff. split.
      - intros I. exists (u, z). auto.
      - intros ((v', z') & E & I). inversion E as [[E1 E2]]. cbn in *. subst v'.
        destruct (r_okz _ _ H _ I) as [Z' _]. destruct Z as [Z _]. unfold zinv in Z, Z'. cbn [fst snd] in Z, Z'.
        rewrite Z, <- E2, <- Z'. auto. }
    rewrite (r_edges _ _ H), edges_map, fold_left_map.
    assert (HR1 : R (if in_dec gk_eq_dec (u, z) (p_popped ps) then ps
                   else mkP (p_seen ps) (p_work ps) (p_edges ps) ((u, z) :: p_popped ps) (p_nodes ps)
                            (p_aborted ps) (p_maxpos ps) (p_expected ps) (p_tick ps))
                   (if in_dec gn_eq_dec (u, n_end z) (b_popped bs) then bs
                   else mkB (b_seen bs) (b_work bs) (b_edges bs) ((u, n_end z) :: b_popped bs) (b_set bs)
                            (b_aborted bs) (b_tick bs))).
    { destruct (in_dec gk_eq_dec _ _) as [I|I], (in_dec gn_eq_dec _ _) as [I'|I']; try tauto.
      destruct H. split; cbn; auto.
      - rewrite r_popped0. reflexivity.
      - intros z' [<-|X]; auto. }
    eapply fold_R with (Q := fun t e => okz t (u, z) /\ oke t (u, e)); [| |rewrite <- (r_edges _ _ H); exact HR1|].
    - intros ps0 bs0 [w v] R0 [Q1 Q2]. apply resume_R; auto.
    - intros t t' e M [Q1 Q2]. split; [eapply okz_mono|eapply oke_mono]; eauto.
    - intros e X. apply sedges_of_in in X. assert (N : forall b : {In (u, z) (p_popped ps)} + {~ In (u, z) (p_popped ps)},
        p_nodes (if b then ps else mkP (p_seen ps) (p_work ps) (p_edges ps) ((u, z) :: p_popped ps) (p_nodes ps)
                            (p_aborted ps) (p_maxpos ps) (p_expected ps) (p_tick ps)) = p_nodes ps) by (intros []; auto).
      rewrite N. split; auto. apply (r_oke _ _ H); auto.
  Qed.

  Lemma note_R i s ps bs : R ps bs -> R (note_fail i s ps) bs.
  Proof.
    intros H. unfold note_fail. destruct (if Nat.ltb _ _ then _ else _). destruct H; split; auto.
  Qed.

  Hypothesis nonempty : forall L p, prod_of sg L = Some p -> p <> [].
  Hypothesis wf_reps : forall X nt, nth_error (sg_nts sg) X = Some nt -> nt_isrep nt = true ->
    length (nt_alts nt) = 2%nat.

  Lemma callee_dinv u L rc : In (L, rc) (callees sg u) -> dinv L u (g_pos u) None.
  Proof.
    intros C. pose proof (callees_dot0 _ _ _ _ C) as D.
    assert (P : exists p, prod_of sg L = Some p).
    { destruct u; cbn in C.
      - unfold start_slots in C. destruct (nth_error (sg_nts sg) (sg_start sg)) as [nt|] eqn:E; [|easy].
        apply in_map_iff in C as (a & E1 & E2). apply in_seq in E2. inversion E1; subst.
        unfold prod_of. cbn. rewrite E. destruct (nth_error (nt_alts nt) a) eqn:F; eauto.
        apply nth_error_None in F. lia.
      - destruct (prod_of sg ret); [|easy]. destruct (s_dot ret) as [|dd]; [easy|].
        destruct (nth_error l dd) as [[]|]; try easy. eapply starts_prod; eauto. }
    destruct P as [p P]. split; [unfold wof; rewrite P, D; auto|]. split; auto. split.
    - exists p. split; auto. split; [lia|eauto].
    - destruct u as [|ret pos rc']; auto. cbn in C. destruct (prod_of sg ret) as [q|] eqn:Q; [|easy].
      destruct ret as [a b [|d]]; cbn in *; [easy|]. destruct (nth_error q d) as [[X| |]|] eqn:E; try easy.
      exists (mkSlot a b d), q. split; auto. split; auto. cbn.
      apply starts_dot0 in C as [_ <-]. auto.
  Qed.

  Lemma process_R rest : forall L u i w rc ps bs p, R ps bs -> dinv L u i w -> wknown w (p_nodes ps) ->
    prod_of sg L = Some p -> skipn (s_dot L) p = rest ->
    R (p_process sg input mx ord rest L u i w rc ps) (b_process sg input 0 ord' rest L u i rc bs).
  Proof.
    induction rest as [|s rest IH]; intros L u i w rc ps bs p H D K P E.
    - cbn. pose proof D as (D1 & D2 & (p' & P' & Le & NE) & C). rewrite P in P'. inversion P'; subst p'.
      apply skipn_nil_len in E; auto.
      assert (W : w = Some (NSym (s_nt L) (g_pos u) i)).
      { rewrite D1. unfold wof. rewrite P. destruct (s_dot L) as [|d]; [destruct p; [easy|discriminate]|].
        rewrite E, Nat.eqb_refl. auto. }
      rewrite W. apply pop_R; auto. intros ret pos rc' ->. split; cbn [fst snd].
      + destruct C as (L0 & q & -> & Q & NQ). unfold zinv, zof. change (prod_of sg (adv L0)) with (prod_of sg L0).
        rewrite Q. cbn [adv s_dot]. rewrite NQ. cbn. auto.
      + apply K. auto.
    - destruct (nth_skipn _ _ _ _ E) as (N & E2 & _).
      assert (T : (forall X, s <> SNonterm X) -> forall j,
        R (let '(y, st2) := get_node_p sg mx (adv L) w (NTerm i j) (find_node mx (NTerm i j) ps) in
            p_process sg input mx ord rest (adv L) u j (Some y) rc st2)
          (b_process sg input 0 ord' rest (adv L) u j rc (b_record sg 0 (adv L) (g_pos u) i j bs))).
      { intros NT j. destruct (get_node_p _ _ _ _ _ _) as [y ps'] eqn:G.
        assert (SN : NTerm i j = symnode s i j) by (destruct s; [exfalso; eapply NT; eauto|auto..]).
        assert (H1 : R (find_node mx (NTerm i j) ps) bs) by (apply find_term_R; auto).
        rewrite SN in G. rewrite SN in H1. pose proof D as (D1 & D2 & _).
        destruct (get_R L p s u i j _ bs w H1 P N D2 D1) with (y := y) (ps' := ps') as (A & B & C & F); auto.
        - eapply wknown_mono; [|exact K]. intros; apply known_find; auto.
        - apply find_known.
        - eapply IH; eauto.
          + eapply dinv_adv; eauto.
          + intros k X; inversion X; subst; auto. }
      destruct s as [X|t|].
      + cbn [p_process b_process]. refine (proj1 (fold_R _ _ (fun _ x => In x (starts sg (s_nt L) rc X)) _ _ _ _ _ _ _)); auto.
        * intros ps0 bs0 [L' rc'] R0 I. cbn [fst snd]. split.
          -- apply add_R; auto; [|intros k0 X0; discriminate].
             apply (callee_dinv (GN (adv L) i rc) L' rc'). cbn [callees].
             change (prod_of sg (adv L)) with (prod_of sg L). rewrite P. cbn. rewrite N. auto.
          -- intros k0 K0. unfold p_add. destruct (in_dec _ _ _); auto.
        * eapply create_R; eauto.
      + cbn [p_process b_process]. destruct (match_sym _ _ _); [apply T; discriminate|apply note_R; auto].
      + cbn [p_process b_process]. destruct (match_sym _ _ _); [apply T; discriminate|apply note_R; auto].
  Qed.

  Lemma init_R : R (p_init sg) (b_init sg).
  Proof.
    unfold p_init, b_init.
    refine (proj1 (fold_R _ _ (fun _ x => In x (start_slots sg)) _ _ _ _ _ _ _)); auto.
    - intros ps0 bs0 [L' rc'] R0 I. cbn [fst snd]. split.
      + apply add_R; auto; [|intros k0 X0; discriminate]. apply (callee_dinv U0 L' rc'). auto.
      + intros k0 K0. unfold p_add. destruct (in_dec _ _ _); auto.
    - split; cbn; try easy. all: split; cbn; try easy. intros [|? ?] ? ? ? ? ? E0; discriminate.
  Qed.

  Lemma pop_R_work d wk ps bs : R ps bs -> p_work ps = d :: wk ->
    R (mkP (p_seen ps) wk (p_edges ps) (p_popped ps) (p_nodes ps) (p_aborted ps) (p_maxpos ps) (p_expected ps) (p_tick ps))
      (mkB (b_seen bs) (map projd wk) (b_edges bs) (b_popped bs) (b_set bs) (b_aborted bs) (b_tick bs)).
  Proof.
    intros H E. destruct H. split; cbn; auto. intros x X. apply r_okw0. rewrite E. right. auto.
  Qed.

  Lemma step_R d wk ps bs : R ps bs -> p_work ps = d :: wk ->
    R (p_process_desc sg input mx ord d (mkP (p_seen ps) wk (p_edges ps) (p_popped ps) (p_nodes ps) (p_aborted ps) (p_maxpos ps) (p_expected ps) (p_tick ps)))
      (b_process_desc sg input 0 ord' (projd d) (mkB (b_seen bs) (map projd wk) (b_edges bs) (b_popped bs) (b_set bs) (b_aborted bs) (b_tick bs))).
  Proof.
    intros H E. assert (I : In d (p_seen ps)) by (apply (r_okw _ _ H); rewrite E; left; auto).
    destruct (r_okd _ _ H _ I) as [D K]. unfold p_process_desc, b_process_desc. cbn [projd bd_L bd_u bd_i bd_rc].
    pose proof D as (_ & _ & (p & P & _) & _). rewrite P.
    apply process_R with (p := p); auto. apply pop_R_work with (d := d); auto.
  Qed.

  (** An SPPF run that is not aborted is a BSR run without budget. *)
  Lemma run_R fuel : forall ps bs ps', R ps bs -> p_run sg input mx ord fuel ps = Some ps' ->
    p_aborted ps' = false -> exists bs', b_run sg input 0 ord' fuel bs = Some bs' /\ R ps' bs' /\ p_work ps' = [].
  Proof.
    induction fuel as [|f IH]; intros ps bs ps' H E A; cbn in E |- *; rewrite (r_work _ _ H);
      destruct (p_work ps) as [|d wk] eqn:W; cbn.
    - inversion E; subst. eauto.
    - destruct (p_aborted ps) eqn:A'; [inversion E; subst; congruence|discriminate].
    - inversion E; subst. eauto.
    - destruct (p_aborted ps) eqn:A'; [inversion E; subst; congruence|]. rewrite (r_ab _ _ H).
      pose proof (step_R d wk ps bs H W) as S. rewrite A', (r_ab _ _ H) in S.
      eapply IH; eauto.
  Qed.

  Lemma run_total_R fuel : forall ps bs bs', R ps bs -> b_run sg input 0 ord' fuel bs = Some bs' ->
    exists ps', p_run sg input mx ord fuel ps = Some ps'.
  Proof.
    induction fuel as [|f IH]; intros ps bs ps' H E; cbn in E |- *; rewrite (r_work _ _ H) in E;
      destruct (p_work ps) as [|d wk] eqn:W; cbn in E; eauto.
    - rewrite (r_ab _ _ H) in E. discriminate.
    - destruct (p_aborted ps) eqn:A'; eauto. rewrite (r_ab _ _ H) in E.
      pose proof (step_R d wk ps bs H W) as S. rewrite A', (r_ab _ _ H) in S.
      eapply IH; eauto.
  Qed.

  Theorem sppf_as_bsr fuel ps : p_parse sg input mx ord fuel = Some ps -> p_aborted ps = false ->
    exists bs, b_parse sg input 0 ord' fuel = Some bs /\ R ps bs.
  Proof.
    intros E A. destruct (run_R fuel _ _ _ init_R E A) as (bs & B & HR & _). eauto.
  Qed.

  Theorem sppf_total fuel bs : b_parse sg input 0 ord' fuel = Some bs ->
    exists ps, p_parse sg input mx ord fuel = Some ps.
  Proof. intros E. exact (run_total_R fuel _ _ _ init_R E). Qed.

  (** The root is present exactly when the BSR set is valid. *)
  Lemma root_valid ps bs : R ps bs ->
    (packs_of (NSym (sg_start sg) 0 (length input)) (p_nodes ps) <> None <->
     bsr_valid sg (length input) (b_set bs) = true).
  Proof.
    intros H. pose proof (r_tbl _ _ H) as T.
    assert (V : bsr_valid sg (length input) (b_set bs) = true <->
      exists e p, In e (b_set bs) /\ prod_of sg (be_slot e) = Some p /\ s_nt (be_slot e) = sg_start sg /\
        s_dot (be_slot e) = length p /\ be_l e = 0%nat /\ be_r e = length input).
    { unfold bsr_valid. destruct (nth_error (sg_nts sg) (sg_start sg)) as [nt|] eqn:E.
      - rewrite existsb_exists. split.
        + intros ((a, p) & I & X). apply existsb_exists in X as (e & Ie & Y).
          apply andb_true_iff in Y as [Y Y3]. apply andb_true_iff in Y as [Y1 Y2].
          apply Nat.eqb_eq in Y2, Y3. destruct (slot_eq_dec _ _) as [Eq|]; [|discriminate].
          cbn [fst snd] in Eq. exists e, p. rewrite Eq. cbn. repeat split; auto.
          unfold prod_of. cbn. rewrite E. apply In_nth_error in I as (m & I).
          clear - I. assert (G : forall (l : list (list ssym)) s m, nth_error (combine (seq s (length l)) l) m = Some (a, p) -> nth_error l (a - s) = Some p /\ (s <= a)%nat).
          { induction l as [|x l IH]; cbn; intros s [|m0] Q; try discriminate.
            - inversion Q; subst. rewrite Nat.sub_diag. auto.
            - apply IH in Q as [Q1 Q2]. replace (a - s)%nat with (S (a - S s)) by lia. split; auto. lia. }
          apply G in I as [I _]. rewrite Nat.sub_0_r in I. auto.
        + intros (e & p & Ie & P & N & Dt & L0 & R0). unfold prod_of in P. rewrite N, E in P.
          exists (s_alt (be_slot e), p). split.
          * clear - P. assert (G : forall (l : list (list ssym)) s m, nth_error l m = Some p -> In ((s + m)%nat, p) (combine (seq s (length l)) l)).
            { induction l as [|x l IH]; cbn; intros s [|m] Q; try discriminate.
              - inversion Q; subst. left. f_equal. lia.
              - right. replace (s + S m)%nat with (S s + m)%nat by lia. apply IH. auto. }
            apply (G _ 0%nat _ P).
          * apply existsb_exists. exists e. split; auto. cbn [fst snd]. rewrite L0, R0, !Nat.eqb_refl.
            destruct (slot_eq_dec _ _) as [|NE]; auto. exfalso. apply NE. destruct (be_slot e); cbn in *; subst; auto.
      - split; [discriminate|]. intros (e & p & Ie & P & N & _). unfold prod_of in P. rewrite N, E in P. discriminate. }
    rewrite V. split.
    - intros K. destruct (packs_of _ _) as [q|] eqn:E; [|congruence]. 
      destruct (t_full _ _ T _ _ E) as [(a & b & ?)|NE]; [discriminate|].
      destruct q as [|pk q]; [easy|]. destruct (t_from _ _ T _ _ pk E) as (e & Ie & Ek & _); [left; auto|].
      destruct (t_rec _ _ T e Ie) as (L & p & x & Es & P & _). unfold ekey in Ek. rewrite Es in Ek.
      change (prod_of sg (adv L)) with (prod_of sg L) in Ek. rewrite P in Ek.
      destruct (Nat.eqb _ _) eqn:Eq; [|discriminate]. apply Nat.eqb_eq in Eq. inversion Ek as [[K1 K2 K3]].
      exists e, p. rewrite Es, K1, K2, K3. repeat split; auto.
    - intros (e & p & Ie & P & N & Dt & L0 & R0). destruct (t_to _ _ T e Ie) as (q & A & _).
      unfold ekey in A. rewrite P, Dt, Nat.eqb_refl, N, L0, R0 in A. congruence.
  Qed.

  (** *** Budget *)
  Definition smallp (st : pstate) : Prop :=
    p_aborted st = true \/ Z.of_nat (length (p_nodes st)) <= mx.

  Lemma find_small k st : 0 < mx -> smallp st -> smallp (find_node mx k st).
  Proof.
    intros M [H|H]; unfold find_node; destruct (packs_of k (p_nodes st)); try (left; auto; fail); try (right; auto; fail).
    - left. cbn. rewrite H. apply orb_true_r.
    - destruct (Z_le_gt_dec mx (Z.of_nat (length (p_nodes st)))) as [L|L].
      + left. cbn [p_aborted]. rewrite (proj2 (Z.ltb_lt 0 mx)), (proj2 (Z.leb_le _ _)); auto.
      + right. cbn [p_nodes]. rewrite app_length. cbn [length]. lia.
  Qed.
  Lemma get_small L w z st : 0 < mx -> smallp st -> smallp (snd (get_node_p sg mx L w z st)).
  Proof.
    intros M H. unfold get_node_p. destruct (node_p sg L w z) as [y [pk|]]; auto. cbn [snd].
    destruct (find_small y st M H) as [A|A]; [left|right]; cbn; auto. rewrite add_pack_length. auto.
  Qed.
  Lemma add_small L u i w rc st : smallp st -> smallp (p_add L u i w rc st).
  Proof. unfold p_add. destruct (in_dec _ _ _); auto. Qed.
  Lemma fold_small {A} (f : pstate -> A -> pstate) l : (forall s x, smallp s -> smallp (f s x)) ->
    forall s, smallp s -> smallp (fold_left f l s).
  Proof. intros H. induction l; cbn; auto. Qed.
  Lemma process_small rest : 0 < mx -> forall L u i w rc st, smallp st ->
    smallp (p_process sg input mx ord rest L u i w rc st).
  Proof.
    intros M. assert (RS : forall ret u z w rc i s, smallp s ->
      smallp (let '(y, s') := get_node_p sg mx ret w z s in p_add ret u i (Some y) rc s')).
    { intros ret u z w rc i s S. pose proof (get_small ret w z s M S) as G.
      destruct (get_node_p sg mx ret w z s). apply add_small. auto. }
    assert (PS : forall u i z st, smallp st -> smallp (p_pop sg mx u i z st)).
    { intros u i z st S. unfold p_pop. destruct u; auto. apply fold_small; [intros; apply RS; auto|].
      destruct (in_dec _ _ _); auto. }
    assert (TS : forall L w i j st, smallp st -> smallp (snd (get_node_p sg mx (adv L) w (NTerm i j) (find_node mx (NTerm i j) st)))).
    { intros. apply get_small; auto. apply find_small; auto. }
    assert (NS : forall i s st, smallp st -> smallp (note_fail i s st)).
    { intros i s st. unfold note_fail. destruct (if Nat.ltb _ _ then _ else _). auto. }
    induction rest as [|s rest IH]; cbn; intros L u i w rc st S.
    - destruct w; apply PS; auto. apply find_small; auto.
    - destruct s.
      + apply fold_small; [intros; apply add_small; auto|]. unfold p_create. destruct (in_dec _ _ _); auto.
        apply fold_small; [intros; apply RS; auto|]. auto.
      + destruct (match_sym _ _ _) as [j|]; [|apply NS; auto]. specialize (TS L w i j st S).
        destruct (get_node_p _ _ _ _ _ _). apply IH. auto.
      + destruct (match_sym _ _ _) as [j|]; [|apply NS; auto]. specialize (TS L w i j st S).
        destruct (get_node_p _ _ _ _ _ _). apply IH. auto.
  Qed.
  Theorem sppf_budget fuel ps : 0 < mx -> p_parse sg input mx ord fuel = Some ps -> smallp ps.
  Proof.
    intros M. assert (G : forall fuel st st', smallp st -> p_run sg input mx ord fuel st = Some st' -> smallp st').
    { clear fuel. induction fuel as [|f IH]; cbn; intros st st' S E; destruct (p_work st); try (inversion E; subst; auto; fail).
      - destruct (p_aborted st); inversion E; subst; auto.
      - destruct (p_aborted st) eqn:A; [inversion E; subst; auto|]. eapply IH; [|exact E].
        unfold p_process_desc. assert (smallp (mkP (p_seen st) l (p_edges st) (p_popped st) (p_nodes st) false (p_maxpos st) (p_expected st) (p_tick st))).
        { destruct S as [S|S]; [congruence|right; auto]. }
        destruct (prod_of sg (sd_L s)); auto. apply process_small; auto. }
    apply G. unfold p_init. apply fold_small; [intros; apply add_small; auto|]. right. cbn. lia.
  Qed.
End Sim.
