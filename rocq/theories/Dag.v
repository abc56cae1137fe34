(** Tarjan's search as written in dag.go:180-237, and its correctness. *)
From Coq Require Import Arith String Bool Relations Sorted List Lia.
From Verif Require Import Syntax Spec Deps.
Import ListNotations.
Local Open Scope list_scope.

(** ** Model *)

(** The scratch fields of the nodes (dag.go:10-12) and the fields of [cycle]
    (dag.go:180-186).  A node is named by its key in the graph; the key is the
    node's name in lower case (dag.go:26, 32; leftrec.go:89-94), so comparing
    names with EqualFold is comparing keys.  The stack is listed top first; sccs
    are listed latest first. *)
Record tstate : Type := mkT {
  t_index : string -> nat;
  t_low : string -> nat;
  t_on : string -> bool;
  t_next : nat;
  t_stack : list string;
  t_sccs : list (list string) }.

(** Writing a scratch field of a node (dag.go:198-202, 215, 221, 232). *)
Definition upd {A} (f : string -> A) (k : string) (v : A) : string -> A :=
  fun x => if String.eqb x k then v else f x.

(** The state before find (dag.go:84-88): every scratch field is zero. *)
Definition t_init : tstate := mkT (fun _ => 0) (fun _ => 0) (fun _ => false) 0 [] [].

(** Popping the component of [v] (dag.go:227-236); [None] is the out-of-range
    panic on an empty stack. *)
Fixpoint pop_until (v : string) (stack : list string) (on : string -> bool) (scc : list string)
  : option (list string * (string -> bool) * list string) :=
  match stack with
  | [] => None
  | w :: stack' =>
      let on' := upd on w false in
      if String.eqb v w then Some (stack', on', scc ++ [w])
      else pop_until v stack' on' (scc ++ [w])
  end.

(** The result of strongconnect (dag.go:196-237): the state, out of fuel, or the panic on an
    empty stack (dag.go:230). *)
Inductive tres : Type := TOk (st : tstate) | TFuel | TPanic.

Section Search.
  Variable dg : depgraph.

  (** The successor loop of strongconnect (dag.go:205-224); [visit] is the
      recursive call. *)
  Section Loop.
    Variable visit : string -> tstate -> tres.
    Variable v : string.
    (** The loop over the successors (dag.go:205-224). *)
    Fixpoint deps_loop (deps : list string) (st : tstate) : tres :=
      match deps with
      | [] => TOk st
      | w :: deps' =>
          match dg_get w dg with
          | None => deps_loop deps' st
          | Some _ =>
              if t_index st w =? 0 then
                match visit w st with
                | TOk st1 =>
                    deps_loop deps' (mkT (t_index st1) (upd (t_low st1) v (Nat.min (t_low st1 v) (t_low st1 w)))
                                         (t_on st1) (t_next st1) (t_stack st1) (t_sccs st1))
                | r => r
                end
              else if t_on st w then
                deps_loop deps' (mkT (t_index st) (upd (t_low st) v (Nat.min (t_low st v) (t_index st w)))
                                     (t_on st) (t_next st) (t_stack st) (t_sccs st))
              else deps_loop deps' st
          end
      end.
  End Loop.

  (** v.Dependencies (dag.go:205) for the node with key [v]. *)
  Definition deps_of (v : string) : list string :=
    match dg_get v dg with Some n => dn_deps n | None => [] end.

  (** The first lines of strongconnect (dag.go:197-202). *)
  Definition enter (v : string) (st : tstate) : tstate :=
    mkT (upd (t_index st) v (t_next st)) (upd (t_low st) v (t_next st)) (upd (t_on st) v true)
        (S (t_next st)) (v :: t_stack st) (t_sccs st).

  (** The last lines of strongconnect (dag.go:226-236). *)
  Definition leave (v : string) (st : tstate) : tres :=
    if t_low st v =? t_index st v then
      match pop_until v (t_stack st) (t_on st) [] with
      | Some (stack', on', scc) =>
          TOk (mkT (t_index st) (t_low st) on' (t_next st) stack' (scc :: t_sccs st))
      | None => TPanic
      end
    else TOk st.

  (** strongconnect (dag.go:196-237). *)
  Fixpoint strongconnect (fuel : nat) (v : string) (st : tstate) : tres :=
    match fuel with
    | O => TFuel
    | S f =>
        match deps_loop (strongconnect f) v (deps_of v) (enter v st) with
        | TOk st2 => leave v st2
        | r => r
        end
    end.

  (** find (dag.go:188-194); [order] lists the keys in map iteration order. *)
  Fixpoint find_sccs (fuel : nat) (order : list string) (st : tstate) : tres :=
    match order with
    | [] => TOk st
    | v :: order' =>
        if t_index st v =? 0 then
          match strongconnect fuel v st with
          | TOk st1 => find_sccs fuel order' st1
          | r => r
          end
        else find_sccs fuel order' st
    end.

  (** The fuel that is always enough: the number of nodes plus two. *)
  Definition tarjan (order : list string) : tres := find_sccs (S (S (length dg))) order t_init.

  (** ** Specification *)
  Definition node_in (x : string) : Prop := In x (map fst dg).
  (** (specification) an edge of the dependency graph between nodes that exist (dag.go:205-211). *)
  Definition edge (x y : string) : Prop := In y (deps_of x) /\ node_in y.
  (** (specification) paths of any length. *)
  Definition reach : string -> string -> Prop := clos_refl_trans _ edge.
  (** Reaching by at least one edge. *)
  Definition reach1 : string -> string -> Prop := clos_trans _ edge.

  (** A strongly connected component, listed without duplicates. *)
  Definition is_scc (s : list string) : Prop :=
    s <> [] /\ NoDup s /\ (forall x, In x s -> node_in x) /\
    forall x, In x s -> forall y, In y s <-> (reach x y /\ reach y x).

  (** ** Proof *)
  Lemma dg_get_in x m : In x (map fst m) <-> exists n, dg_get x m = Some n.
  Proof.
    induction m as [|[k n] m IH]; cbn; [split; [easy|intros (n & H); discriminate]|].
    destruct (String.eqb_spec x k) as [->|E]; [split; eauto|]. rewrite IH. split; [intros [H|H]; auto; congruence|auto].
  Qed.

  Lemma reach_refl x : reach x x. Proof. apply rt_refl. Qed.
  Lemma reach_trans x y z : reach x y -> reach y z -> reach x z. Proof. apply rt_trans. Qed.
  Lemma reach_edge x y : edge x y -> reach x y. Proof. apply rt_step. Qed.

  (** (proof) the search has numbered the node (dag.go:190, 212). *)
  Definition visited (st : tstate) (x : string) : Prop := t_index st x <> 0.

  Section Inv.
    (* the part of the stack below this search, and the extra component the
       first frame may have emitted *)
    Variable base : list string.
    Variable Ex : list string -> Prop.

    (** The invariant of the search; [gray] are the open calls, innermost first,
        [S] the part of the stack pushed by this search. *)
    Record wf (gray S : list string) (st : tstate) : Prop := {
      w_stack : t_stack st = S ++ base;
      w_next : 1 <= t_next st;
      w_lt : forall x, t_index st x < t_next st;
      w_sorted : StronglySorted (fun x y => t_index st y < t_index st x) S;
      w_on : forall x, visited st x -> (t_on st x = true <-> In x S);
      w_S : forall x, In x S -> visited st x;
      w_dom : forall x, visited st x -> node_in x;
      w_gray : forall x, In x gray -> In x S;
      w_gsorted : StronglySorted (fun x y => t_index st y < t_index st x) gray;
      w_black : forall x y, visited st x -> ~ In x gray -> edge x y -> visited st y;
      w_done : forall x y, visited st x -> ~ In x S -> edge x y -> ~ In y S;
      w_up : forall x, In x S -> exists g, In g gray /\ t_index st g <= t_index st x /\ reach x g;
      w_down : forall g y, In g gray -> In y S -> t_index st g <= t_index st y -> reach g y;
      w_sccs : forall s, In s (t_sccs st) -> is_scc s \/ Ex s;
      w_cover : forall x, visited st x -> ~ In x S -> exists s, In s (t_sccs st) /\ is_scc s /\ In x s }.

    (** What a call changes. *)
    Record ext (st st' : tstate) : Prop := {
      e_index : forall x, visited st x -> t_index st' x = t_index st x;
      e_new : forall x, ~ visited st x -> visited st' x -> t_next st <= t_index st' x;
      e_next : t_next st <= t_next st';
      e_low : forall x, visited st x \/ ~ visited st' x -> t_low st' x = t_low st x;
      e_sccs : forall s, In s (t_sccs st) -> In s (t_sccs st') }.

    Lemma ext_refl st : ext st st.
    Proof. split; auto. tauto. Qed.

    Lemma ext_visited st st' x : ext st st' -> visited st x -> visited st' x.
    Proof. intros E H. unfold visited. rewrite (e_index _ _ E); auto. Qed.

    (** The number of unvisited nodes bounds the depth of the recursion. *)
    Definition whites (st : tstate) : nat := length (filter (fun x => t_index st x =? 0) (map fst dg)).

    Lemma filter_le_length {A} (p : A -> bool) l : length (filter p l) <= length l.
    Proof. induction l as [|x l IH]; cbn; auto. destruct (p x); cbn; lia. Qed.
    Lemma filter_le_mono {A} (p q : A -> bool) l : (forall x, In x l -> p x = true -> q x = true) ->
      length (filter p l) <= length (filter q l).
    Proof.
      induction l as [|x l IH]; cbn; intros H; auto.
      assert (length (filter p l) <= length (filter q l)) by (apply IH; intros; apply H; auto).
      destruct (p x) eqn:P; [rewrite (H x) by auto; cbn; lia|]. destruct (q x); cbn; lia.
    Qed.
    Lemma filter_lt_mono {A} (p q : A -> bool) l y : (forall x, In x l -> p x = true -> q x = true) ->
      In y l -> p y = false -> q y = true -> length (filter p l) < length (filter q l).
    Proof.
      induction l as [|x l IH]; cbn; intros H I P Q; [easy|].
      assert (length (filter p l) <= length (filter q l)) by (apply filter_le_mono; intros; apply H; auto).
      destruct I as [->|I].
      - rewrite P, Q. cbn. lia.
      - assert (length (filter p l) < length (filter q l)) by (apply IH; auto).
        destruct (p x) eqn:Px; [rewrite (H x) by auto; cbn; lia|]. destruct (q x); cbn; lia.
    Qed.
    Lemma whites_mono st st' : (forall x, visited st x -> visited st' x) -> whites st' <= whites st.
    Proof.
      intros H. apply filter_le_mono. intros x _ E. apply Nat.eqb_eq in E. apply Nat.eqb_eq.
      destruct (Nat.eq_dec (t_index st x) 0) as [Z|Z]; auto. apply H in Z. contradiction.
    Qed.
    Lemma whites_lt st st' y : (forall x, visited st x -> visited st' x) -> node_in y -> ~ visited st y -> visited st' y ->
      whites st' < whites st.
    Proof.
      intros H D N V. apply filter_lt_mono with (y := y); auto.
      - intros x _ E. apply Nat.eqb_eq in E. apply Nat.eqb_eq.
        destruct (Nat.eq_dec (t_index st x) 0) as [Z|Z]; auto. apply H in Z. contradiction.
      - apply Nat.eqb_neq. exact V.
      - apply Nat.eqb_eq. unfold visited in N. lia.
    Qed.

    (** Contract of a call on an unvisited node. *)
    Definition call_ok (visit : string -> tstate -> tres) (k : nat) : Prop :=
      forall v gray S st, wf gray S st -> node_in v -> ~ visited st v -> (forall g, In g gray -> reach g v) ->
        whites st <= k ->
        exists st' T, visit v st = TOk st' /\ wf gray (T ++ S) st' /\ ext st st' /\ visited st' v /\
          (In v (T ++ S) ->
             (exists y, In y S /\ reach v y /\ t_low st' v = t_index st' y) /\
             (forall x y, In x T -> edge x y -> In y (T ++ S) -> t_low st' v <= t_index st' y)) /\
          (~ In v (T ++ S) -> T = [] /\ t_next st <= t_low st' v).

    Lemma sorted_app_gt (f : string -> nat) A B : StronglySorted (fun x y => f y < f x) (A ++ B) ->
      forall x y, In x A -> In y B -> f y < f x.
    Proof.
      induction A as [|a A IH]; cbn; intros H x y Ix Iy; [easy|]. inversion H as [|? ? H1 H2]; subst.
      destruct Ix as [<-|Ix]; [|eauto]. rewrite Forall_forall in H2. apply H2. apply in_app_iff. auto.
    Qed.
    Lemma sorted_nodup (f : string -> nat) A : StronglySorted (fun x y => f y < f x) A -> NoDup A.
    Proof.
      induction 1 as [|a A H IH F]; constructor; auto. rewrite Forall_forall in F. intros I. apply F in I. lia.
    Qed.
    Lemma sorted_ext (f f' : string -> nat) A : (forall x, In x A -> f' x = f x) ->
      StronglySorted (fun x y => f y < f x) A -> StronglySorted (fun x y => f' y < f' x) A.
    Proof.
      intros E H. induction H as [|a A H IH F]; constructor.
      - apply IH. intros x I. apply E. right. auto.
      - rewrite Forall_forall in *. intros x I. rewrite (E a), (E x); [apply F; auto|right; auto|left; auto].
    Qed.
    Lemma sorted_tail (f : string -> nat) A B : StronglySorted (fun x y => f y < f x) (A ++ B) ->
      StronglySorted (fun x y => f y < f x) B.
    Proof. induction A as [|a A IH]; cbn; auto. intros H. inversion H; auto. Qed.

    Lemma nodup_prefix {A} (l l' : list A) : NoDup (l ++ l') -> NoDup l.
    Proof.
      induction l as [|x l IH]; cbn; intros H; constructor; inversion H as [|? ? H1 H2]; subst; auto.
      intros I. apply H1. apply in_app_iff. auto.
    Qed.

    (** Entering a node keeps the invariant, the node being the innermost open call. *)
    Lemma wf_enter gray S st v : wf gray S st -> node_in v -> ~ visited st v -> (forall g, In g gray -> reach g v) ->
      wf (v :: gray) (v :: S) (enter v st).
    Proof.
      intros [Ws Wn Wl Wso Won WS Wd Wg Wgs Wb Wdn Wu Wdw Wsc Wc] D N G.
      assert (NV : forall x, visited st x -> x <> v) by (intros x H ->; contradiction).
      assert (IX : forall x, visited st x -> t_index (enter v st) x = t_index st x).
      { intros x H. cbn. unfold upd. destruct (String.eqb_spec x v); auto. subst; contradiction. }
      assert (IV : t_index (enter v st) v = t_next st).
      { cbn. unfold upd. rewrite String.eqb_refl. reflexivity. }
      assert (VV : visited (enter v st) v) by (unfold visited; rewrite IV; lia).
      assert (VX : forall x, visited st x -> visited (enter v st) x) by (intros x H; unfold visited; rewrite IX; auto).
      assert (XV : forall x, visited (enter v st) x -> x <> v -> visited st x).
      { intros x H E. unfold visited in *. cbn in H. unfold upd in H. destruct (String.eqb_spec x v); [contradiction|auto]. }
      split.
      - cbn. rewrite Ws. reflexivity.
      - cbn. lia.
      - intros x. cbn [enter t_index t_next]. unfold upd. destruct (String.eqb x v); [lia|specialize (Wl x); lia].
      - constructor.
        + apply (sorted_ext (t_index st)); auto.
        + apply Forall_forall. intros x I. rewrite IV, IX by auto. auto.
      - intros x V. cbn [enter t_on]. unfold upd. destruct (String.eqb_spec x v) as [->|E].
        + split; [left; auto|auto].
        + cbn [In]. rewrite (Won x) by auto. split; [auto|]. intros [H|H]; [congruence|auto].
      - intros x [<-|H]; auto.
      - intros x V. destruct (string_dec x v) as [->|E]; auto.
      - intros x [<-|H]; [left; auto|right; auto].
      - constructor.
        + apply (sorted_ext (t_index st)); auto.
        + apply Forall_forall. intros x I. rewrite IV, IX by auto. auto.
      - intros x y V I E. apply VX. apply (Wb x y); auto; [apply XV; auto; intros ->; apply I; left; auto|].
        intros H. apply I. right. auto.
      - intros x y V I E. assert (Nx : x <> v) by (intros ->; apply I; left; auto).
        assert (Ix : ~ In x S) by (intros H; apply I; right; auto).
        assert (Vy : visited st y).
        { apply (Wb x y); auto. }
        intros [H|H]; [subst; contradiction|]. revert H. apply (Wdn x y); auto.
      - intros x [<-|H].
        + exists v. split; [left; auto|]. split; auto. apply reach_refl.
        + destruct (Wu x H) as (g & A & B & C). exists g. split; [right; auto|]. split; auto.
          rewrite !IX; auto.
      - intros g y Ig Iy L. destruct Iy as [<-|Iy].
        + destruct Ig as [<-|Ig]; [apply reach_refl|auto].
        + destruct Ig as [<-|Ig].
          * rewrite IV, IX in L by auto. specialize (Wl y). lia.
          * apply Wdw; auto. rewrite !IX in L; auto.
      - exact Wsc.
      - intros x V I. assert (Nx : x <> v) by (intros ->; apply I; left; auto).
        apply Wc; auto. intros H. apply I. right. auto.
    Qed.

    (** Changing lowlinks keeps the invariant. *)
    Definition set_low (st : tstate) (v : string) (n : nat) : tstate :=
      mkT (t_index st) (upd (t_low st) v n) (t_on st) (t_next st) (t_stack st) (t_sccs st).
    Lemma wf_low gray S st v n : wf gray S st -> wf gray S (set_low st v n).
    Proof. intros [Ws Wn Wl Wso Won WS Wd Wg Wgs Wb Wdn Wu Wdw Wsc Wc]. split; auto. Qed.

    (** The loop invariant of the frame of [v]. *)
    Record frame (v : string) (gray S T : list string) (done : list string) (st0 st : tstate) : Prop := {
      f_wf : wf (v :: gray) (T ++ v :: S) st;
      f_ext : forall x, visited st0 x -> t_index st x = t_index st0 x;
      f_new : forall x, ~ visited st0 x -> visited st x -> x <> v -> t_index st v < t_index st x;
      f_lo : forall x, visited st0 x \/ ~ visited st x -> t_low st x = t_low st0 x;
      f_sc : forall s, In s (t_sccs st0) -> In s (t_sccs st);
      f_iv : t_index st v = t_next st0;
      f_le : t_low st v <= t_index st v;
      f_hit : exists y, In y (v :: S) /\ reach v y /\ t_low st v = t_index st y;
      f_T : forall x y, In x T -> edge x y -> In y (T ++ v :: S) -> t_low st v <= t_index st y;
      f_done : forall y, In y done -> node_in y -> visited st y /\ (In y (T ++ v :: S) -> t_low st v <= t_index st y) }.

    Lemma loop_ok visit k v gray S st0 : call_ok visit k -> ~ visited st0 v ->
      forall deps done T st, (forall y, In y deps -> In y (deps_of v)) ->
      frame v gray S T done st0 st -> whites st <= k ->
      exists st' T', deps_loop visit v deps st = TOk st' /\ frame v gray S T' (deps ++ done) st0 st'.
    Proof.
      intros CO Nv. induction deps as [|w deps IH]; intros done T st Sub F Wh; cbn [deps_loop].
      { exists st, T. split; auto. }
      assert (Sub' : forall y, In y deps -> In y (deps_of v)) by (intros y I; apply Sub; right; auto).
      assert (Perm : forall T st, frame v gray S T (w :: done) st0 st -> whites st <= k ->
        exists st' T', deps_loop visit v deps st = TOk st' /\ frame v gray S T' ((w :: deps) ++ done) st0 st').
      { intros T1 st1 F1 W1. destruct (IH (w :: done) T1 st1 Sub' F1 W1) as (st' & T' & E & F').
        exists st', T'. split; auto. destruct F' as [? ? ? ? ? ? ? ? ? Fd]. split; auto.
        intros y I. apply Fd. cbn in I. rewrite in_app_iff in *. cbn. tauto. }
      destruct F as [Fw Fe Fn Fl Fs Fi Fle Fh FT Fd].
      pose proof Fw as [Ws Wn Wl Wso Won WS Wd Wg Wgs Wb Wdn Wu Wdw Wsc Wc].
      destruct (dg_get w dg) as [nd|] eqn:G.
      2:{ apply (Perm T); auto. split; auto. intros y [<-|I]; auto. intros D. apply dg_get_in in D as (n & D). congruence. }
      assert (Dw : node_in w) by (apply dg_get_in; eauto).
      assert (Ew : edge v w) by (split; auto; apply Sub; left; auto).
      assert (Vv : visited st v) by (apply WS; apply in_app_iff; right; left; auto).
      destruct (Nat.eqb_spec (t_index st w) 0) as [Zw|Zw].
      - (* unvisited *)
        assert (Nw : ~ visited st w) by (intros H; apply H; auto).
        destruct (CO w (v :: gray) (T ++ v :: S) st Fw Dw Nw) as (st1 & T1 & E & W1 & X1 & V1 & On & Off).
        { intros g [<-|Ig]; [apply reach_edge; auto|]. apply reach_trans with v; [|apply reach_edge; auto].
          apply Wdw; [right; auto|apply in_app_iff; right; left; auto|].
          inversion Wgs as [|? ? H1 H2]; subst. rewrite Forall_forall in H2. specialize (H2 g Ig). lia. }
        { auto. }
        rewrite E.
        assert (Lv : t_low st1 v = t_low st v) by (apply (e_low _ _ X1); auto).
        assert (Iv : t_index st1 v = t_index st v) by (apply (e_index _ _ X1); auto).
        apply (Perm (T1 ++ T) (set_low st1 v (Nat.min (t_low st1 v) (t_low st1 w)))).
        2:{ apply Nat.le_trans with (whites st); auto. change (whites (set_low st1 v (Nat.min (t_low st1 v) (t_low st1 w)))) with (whites st1).
            apply whites_mono. intros x. apply ext_visited; auto. }
        assert (LV : t_low (set_low st1 v (Nat.min (t_low st1 v) (t_low st1 w))) v = Nat.min (t_low st v) (t_low st1 w)).
        { cbn. unfold upd. rewrite String.eqb_refl, Lv. reflexivity. }
        set (st2 := set_low st1 v (Nat.min (t_low st1 v) (t_low st1 w))) in *.
        assert (IX : forall x, t_index st2 x = t_index st1 x) by reflexivity.
        split.
        + rewrite <- app_assoc. apply wf_low. exact W1.
        + intros x V. rewrite IX, (e_index _ _ X1); auto. unfold visited. rewrite Fe; auto.
        + intros x N V Nx. rewrite !IX. destruct (Nat.eq_dec (t_index st x) 0) as [Z|Z].
          * pose proof (e_new _ _ X1 x) as H. unfold visited in H. specialize (H ltac:(lia) V).
            rewrite Iv. specialize (Wl v). lia.
          * rewrite Iv, (e_index _ _ X1) by auto. apply Fn; auto.
        + intros x H. cbn [st2 set_low t_low]. unfold upd. destruct (String.eqb_spec x v) as [->|Nx].
          * exfalso. destruct H as [H|H]; [contradiction|]. apply H. unfold visited. rewrite IX, Iv. auto.
          * destruct H as [H|H].
            -- rewrite (e_low _ _ X1); [apply Fl; auto|]. left. unfold visited. rewrite Fe; auto.
            -- rewrite (e_low _ _ X1); [apply Fl; right; intros H'; apply H; apply (ext_visited _ _ _ X1); auto|]. right. exact H.
        + intros s I. apply (e_sccs _ _ X1). auto.
        + rewrite IX, Iv. auto.
        + rewrite LV, IX, Iv. lia.
        + rewrite LV. destruct (Nat.min_spec (t_low st v) (t_low st1 w)) as [[_ ->]|[Le ->]].
          * destruct Fh as (y & Iy & Ry & Ey). exists y. split; auto. split; auto. rewrite IX, (e_index _ _ X1); auto.
            apply WS. apply in_app_iff. right. auto.
          * destruct (in_dec string_dec w (T1 ++ T ++ v :: S)) as [Iw|Iw].
            -- destruct (On Iw) as ((y & Iy & Ry & Ey) & _).
               apply in_app_iff in Iy as [Iy|Iy].
               ++ (* in T: then its index exceeds that of v, so the minimum is low v *)
                  exfalso. pose proof (sorted_app_gt _ _ _ Wso y v Iy (or_introl eq_refl)) as Q.
                  rewrite (e_index _ _ X1) in Ey by (apply WS; apply in_app_iff; auto). lia.
               ++ exists y. split; auto. split; [apply reach_trans with w; auto; apply reach_edge; auto|auto].
            -- destruct (Off Iw) as [_ H]. specialize (Wl v). lia.
        + intros x y Ix Ex1 Iy. rewrite LV, IX. rewrite <- app_assoc in Iy. apply in_app_iff in Ix as [Ix|Ix].
          * destruct (in_dec string_dec w (T1 ++ T ++ v :: S)) as [Iw|Iw].
            -- destruct (On Iw) as (_ & H). specialize (H x y Ix Ex1 Iy). lia.
            -- destruct (Off Iw) as [-> _]. destruct Ix.
          * assert (Vx : visited st x) by (apply WS; apply in_app_iff; auto).
            assert (Vy : visited st y).
            { apply (Wb x y); auto. intros Ig. apply in_app_iff in Iy as [Iy|Iy]; [|].
              - pose proof (sorted_app_gt _ _ _ Wso x v Ix (or_introl eq_refl)).
                destruct Ig as [<-|Ig]; [lia|].
                inversion Wgs as [|? ? H1 H2]; subst. rewrite Forall_forall in H2. specialize (H2 x Ig). lia.
              - pose proof (sorted_app_gt _ _ _ Wso x v Ix (or_introl eq_refl)).
                destruct Ig as [<-|Ig]; [lia|].
                inversion Wgs as [|? ? H1 H2]; subst. rewrite Forall_forall in H2. specialize (H2 x Ig). lia. }
            assert (Iy' : In y (T ++ v :: S)).
            { apply in_app_iff in Iy as [Iy|Iy]; auto. exfalso.
              (* y is visited before, hence not in T1 unless on the old stack: indices *)
              pose proof (w_sorted _ _ _ W1) as So1.
              apply Won in Vy as Q. destruct (in_dec string_dec y (T ++ v :: S)) as [J|J].
              - pose proof (sorted_nodup _ _ So1) as ND. apply in_split in Iy as (l1 & l2 & ->).
                rewrite <- app_assoc in ND. cbn in ND. apply NoDup_remove_2 in ND. apply ND. apply in_app_iff. right. apply in_app_iff. auto.
              - (* finished nodes stay finished *)
                destruct (w_up _ _ _ W1 y) as (g & Ig & Lg & Rg).
                { apply in_app_iff. left. auto. }
                (* reach y g with g gray: walk stays finished *)
                assert (Cl : forall a b, reach a b -> visited st a -> ~ In a (T ++ v :: S) -> visited st b /\ ~ In b (T ++ v :: S)).
                { clear -Wb Wdn Wg. intros a b R. apply clos_rt_rt1n in R. induction R as [|a b c Ed R IHR]; intros Va Na; auto.
                  apply IHR; [apply (Wb a b); auto|apply (Wdn a b); auto]. }
                destruct (Cl y g Rg Vy J) as [_ Ng]. apply Ng. apply Wg. auto. }
            specialize (FT x y Ix Ex1 Iy'). rewrite (e_index _ _ X1) by auto. lia.
        + intros y [<-|Iy] Dy.
          * split; [exact V1|]. intros Iw. rewrite LV, IX. rewrite <- app_assoc in Iw.
            destruct (On Iw) as ((y & Iy & Ry & Ey) & _). 
            assert (t_low st1 w <= t_index st1 w); [|lia].
            rewrite Ey. rewrite (e_index _ _ X1) by (apply WS; auto).
            pose proof (e_new _ _ X1 w Nw V1). specialize (Wl y). lia.
          * destruct (Fd y Iy Dy) as [Vy Hy]. split; [apply (ext_visited _ _ _ X1); auto|].
            intros I. rewrite LV, IX. rewrite <- app_assoc in I.
            assert (I' : In y (T ++ v :: S)).
            { destruct (in_dec string_dec y (T ++ v :: S)) as [J|J]; auto. exfalso.
              assert (Cl : forall a b, reach a b -> visited st a -> ~ In a (T ++ v :: S) -> visited st b /\ ~ In b (T ++ v :: S)).
              { clear -Wb Wdn Wg. intros a b R. apply clos_rt_rt1n in R. induction R as [|a b c Ed R IHR]; intros Va Na; auto.
                apply IHR; [apply (Wb a b); auto|apply (Wdn a b); auto]. }
              destruct (w_up _ _ _ W1 y) as (g & Ig & Lg & Rg); [auto|].
              destruct (Cl y g Rg Vy J) as [_ Ng]. apply Ng. apply Wg. auto. }
            specialize (Hy I'). rewrite (e_index _ _ X1) by auto. lia.
      - (* visited *)
        assert (Vw : visited st w) by exact Zw.
        destruct (t_on st w) eqn:On.
        + apply Won in On; auto.
          apply (Perm T (set_low st v (Nat.min (t_low st v) (t_index st w)))); [|exact Wh].
          assert (LV : t_low (set_low st v (Nat.min (t_low st v) (t_index st w))) v = Nat.min (t_low st v) (t_index st w)).
          { cbn. unfold upd. rewrite String.eqb_refl. reflexivity. }
          set (st2 := set_low st v (Nat.min (t_low st v) (t_index st w))) in *.
          assert (IX : forall x, t_index st2 x = t_index st x) by reflexivity.
          split; auto.
          * apply wf_low. auto.
          * intros x H. cbn [st2 set_low t_low]. unfold upd. destruct (String.eqb_spec x v) as [->|Nx]; [|apply Fl; auto].
            exfalso. destruct H as [H|H]; [contradiction|apply H; exact Vv].
          * rewrite LV, IX. lia.
          * rewrite LV. destruct (Nat.min_spec (t_low st v) (t_index st w)) as [[_ ->]|[Le ->]].
            -- destruct Fh as (y & Iy & Ry & Ey). exists y. auto.
            -- exists w. split; [|split; [apply reach_edge; auto|auto]].
               apply in_app_iff in On as [On|On]; auto. exfalso.
               pose proof (sorted_app_gt _ _ _ Wso w v On (or_introl eq_refl)). lia.
          * intros x y Ix E1 Iy. rewrite LV, IX. specialize (FT x y Ix E1 Iy). lia.
          * intros y [<-|Iy] Dy; rewrite LV, IX.
            -- split; auto. intros _. lia.
            -- destruct (Fd y Iy Dy) as [Vy Hy]. split; auto. intros I. specialize (Hy I). lia.
        + apply (Perm T); auto. split; auto. intros y [<-|Iy] Dy; auto. split; auto.
          intros I. apply Won in I; auto. congruence.
    Qed.

    Lemma pop_until_ok v T S on scc : ~ In v T -> 
      exists on', pop_until v (T ++ v :: S) on scc = Some (S, on', scc ++ T ++ [v]) /\
        forall x, on' x = if in_dec string_dec x (T ++ [v]) then false else on x.
    Proof.
      intros N. revert on scc. induction T as [|a T IH]; intros on scc; cbn [pop_until app].
      - rewrite String.eqb_refl. eexists. split; [reflexivity|]. intros x. unfold upd.
        destruct (in_dec string_dec x [v]) as [[<-|[]]|H]; [rewrite String.eqb_refl; auto|].
        destruct (String.eqb_spec x v) as [->|]; auto. exfalso. apply H. left. auto.
      - destruct (String.eqb_spec v a) as [->|E]; [exfalso; apply N; left; auto|].
        destruct (IH (fun H => N (or_intror H)) (upd on a false) (scc ++ [a])) as (on' & P & Q). exists on'. rewrite P.
        rewrite <- app_assoc. split; auto. intros x. rewrite Q.
        destruct (in_dec string_dec x (T ++ [v])) as [H|H]; destruct (in_dec string_dec x (a :: T ++ [v])) as [H'|H']; auto.
        + exfalso. apply H'. right. auto.
        + destruct H' as [->|H']; [unfold upd; rewrite String.eqb_refl; auto|contradiction].
        + unfold upd. destruct (String.eqb_spec x a) as [->|]; auto. exfalso. apply H'. left. auto.
    Qed.

    Lemma call_fuel k : call_ok (strongconnect k) k.
    Proof.
      induction k as [|k IH]; intros v gray S st W Dv Nv G Wh.
      { exfalso. unfold whites in Wh. assert (In v (filter (fun x => t_index st x =? 0) (map fst dg))) as I.
        { apply filter_In. split; auto. apply Nat.eqb_eq. unfold visited in Nv. lia. }
        destruct (filter _ _); [destruct I|cbn in Wh; lia]. }
      cbn [strongconnect].
      pose proof (wf_enter gray S st v W Dv Nv G) as We.
      assert (IV : t_index (enter v st) v = t_next st) by (cbn; unfold upd; rewrite String.eqb_refl; auto).
      assert (LV : t_low (enter v st) v = t_next st) by (cbn; unfold upd; rewrite String.eqb_refl; auto).
      assert (OT : forall x, x <> v -> t_index (enter v st) x = t_index st x /\ t_low (enter v st) x = t_low st x).
      { intros x H. cbn. unfold upd. destruct (String.eqb_spec x v); [contradiction|auto]. }
      assert (NX : forall x, visited st x -> x <> v) by (intros x H ->; contradiction).
      assert (F0 : frame v gray S [] [] st (enter v st)).
      { split; auto.
        - intros x V. apply OT; auto.
        - intros x N V Nx. exfalso. apply N. unfold visited in *. destruct (OT x Nx) as [H _]. rewrite H in V. auto.
        - intros x H. apply OT. destruct H as [H|H]; auto. intros ->. apply H. unfold visited. rewrite IV.
          pose proof (w_next _ _ _ W). lia.
        - rewrite IV, LV. auto.
        - exists v. split; [left; auto|]. split; [apply reach_refl|]. rewrite IV, LV. auto.
        - intros x y [].
        - intros y []. }
      destruct (loop_ok (strongconnect k) k v gray S st IH Nv (deps_of v) [] [] (enter v st) ltac:(auto) F0) as (st2 & T & E & F).
      { assert (whites (enter v st) < whites st); [|lia]. apply whites_lt with (y := v); auto.
        - intros x V. unfold visited. destruct (OT x (NX x V)) as [H _]. rewrite H. auto.
        - unfold visited. rewrite IV. pose proof (w_next _ _ _ W). lia. }
      rewrite E. rewrite app_nil_r in F.
      destruct F as [Fw Fe Fn Fl Fs Fi Fle Fh FT Fd].
      pose proof Fw as [Ws Wn Wl Wso Won WS Wd Wg Wgs Wb Wdn Wu Wdw Wsc Wc].
      pose proof (sorted_nodup _ _ Wso) as ND.
      assert (NvT : ~ In v T) by (apply NoDup_remove_2 in ND; intros H; apply ND; apply in_app_iff; auto).
      assert (NvS : ~ In v S) by (apply NoDup_remove_2 in ND; intros H; apply ND; apply in_app_iff; auto).
      assert (Vv : visited st2 v) by (apply WS; apply in_app_iff; right; left; auto).
      assert (Grl : forall g, In g gray -> t_index st2 g < t_index st2 v).
      { inversion Wgs as [|? ? H1 H2]; subst. rewrite Forall_forall in H2. auto. }
      assert (Grv : forall g, In g gray -> reach g v).
      { intros g I. apply Wdw; [right; auto|apply in_app_iff; right; left; auto|]. specialize (Grl g I). lia. }
      assert (SW : forall x, In x S -> visited st x) by apply (w_S _ _ _ W).
      assert (Vmono : forall x, visited st x -> visited st2 x) by (intros x V; unfold visited; rewrite Fe; auto).
      unfold leave. destruct (Nat.eqb_spec (t_low st2 v) (t_index st2 v)) as [Q|Q].
      - (* root *)
        rewrite Ws. rewrite <- app_assoc. cbn [app].
        destruct (pop_until_ok v T (S ++ base) (t_on st2) [] NvT) as (on' & P & On').
        rewrite P. cbn [app].
        set (C := T ++ [v]).
        assert (inC : forall x, In x C <-> In x T \/ x = v).
        { intros x. unfold C. rewrite in_app_iff. cbn. intuition. }
        assert (inAll : forall x, In x (T ++ v :: S) <-> In x C \/ In x S).
        { intros x. rewrite inC, in_app_iff. cbn. intuition. }
        assert (disj : forall x, In x C -> ~ In x S).
        { intros x Ix Is. assert (In v (v :: S)) by (left; auto). apply inC in Ix as [Ix| ->]; [|contradiction].
          pose proof (sorted_app_gt _ _ _ Wso x x Ix (or_intror Is)). lia. }
        assert (idxC : forall x, In x C -> t_index st2 v <= t_index st2 x).
        { intros x Ix. apply inC in Ix as [Ix| ->]; auto.
          pose proof (sorted_app_gt _ _ _ Wso x v Ix (or_introl eq_refl)). lia. }
        assert (idxS : forall x, In x S -> t_index st2 x < t_index st2 v).
        { intros x Ix. apply sorted_tail in Wso. inversion Wso as [|? ? H1 H2]; subst. rewrite Forall_forall in H2. auto. }
        (* edges leaving the component go to finished nodes *)
        assert (Out : forall x y, In x C -> edge x y -> visited st2 y /\ (In y C \/ ~ In y (T ++ v :: S))).
        { intros x y Ix Ed. apply inC in Ix as Jx.
          assert (Vy : visited st2 y /\ (In y (T ++ v :: S) -> t_low st2 v <= t_index st2 y)).
          { destruct Jx as [Jx| ->].
            - split.
              + apply (Wb x y); auto.
                * apply WS. apply in_app_iff. auto.
                * intros [->|Ig]; [contradiction|]. specialize (idxC x Ix). specialize (Grl x Ig). lia.
              + apply (FT x); auto.
            - destruct Ed as [Ed1 Ed2]. apply Fd; auto. }
          destruct Vy as [Vy Ly]. split; auto. destruct (in_dec string_dec y (T ++ v :: S)) as [J|J]; auto.
          left. specialize (Ly J). apply inAll in J as [J|J]; auto. specialize (idxS y J). lia. }
        assert (DoneR : forall x y, reach x y -> visited st2 x -> ~ In x (T ++ v :: S) -> visited st2 y /\ ~ In y (T ++ v :: S)).
        { intros a b R. apply clos_rt_rt1n in R. induction R as [|a b c Ed R IHR]; intros Va Na; auto.
          apply IHR; [apply (Wb a b); auto|apply (Wdn a b); auto]. }
        assert (CR : forall x y, reach x y -> In x C -> In y C \/ (visited st2 y /\ ~ In y (T ++ v :: S))).
        { intros a b R. apply clos_rt_rt1n in R. induction R as [|a b c Ed R IHR]; intros Ia; auto.
          destruct (Out a b Ia Ed) as [Vb [Ib|Ib]]; auto.
          right. apply clos_rt1n_rt in R. apply (DoneR b c); auto. }
        assert (toV : forall x, In x C -> reach x v).
        { intros x Ix. destruct (Wu x) as (g & Ig & Lg & Rg); [apply inAll; auto|].
          apply reach_trans with g; auto. destruct Ig as [<-|Ig]; [apply reach_refl|auto]. }
        assert (fromV : forall x, In x C -> reach v x).
        { intros x Ix. apply Wdw; [left; auto|apply inAll; auto|]. apply idxC. auto. }
        assert (SCC : is_scc C).
        { split; [unfold C; destruct T; discriminate|]. split; [|split].
          - unfold C. apply (nodup_prefix (T ++ [v]) S). rewrite <- app_assoc. exact ND.
          - intros x Ix. apply Wd. apply WS. apply inAll. auto.
          - intros x Ix y. split.
            + intros Iy. split; [apply reach_trans with v; auto|apply reach_trans with v; auto].
            + intros [R1 R2]. destruct (CR x y R1 Ix) as [Iy|[Vy Ny]]; auto. exfalso.
              destruct (DoneR y x R2 Vy Ny) as [_ Nx]. apply Nx. apply inAll. auto. }
        eexists. exists []. split; [reflexivity|]. cbn [app].
        assert (Vst : forall x, visited (mkT (t_index st2) (t_low st2) on' (t_next st2) (S ++ base) (C :: t_sccs st2)) x <-> visited st2 x) by (intros; reflexivity).
        split; [|split; [|split; [|split]]].
        + split; cbn [t_stack t_next t_index t_on t_sccs].
          * reflexivity.
          * exact Wn.
          * exact Wl.
          * apply sorted_tail in Wso. inversion Wso; auto.
          * intros x V. rewrite On'. destruct (in_dec string_dec x (T ++ [v])) as [H|H].
            -- split; [discriminate|]. intros Is. exfalso. apply (disj x); auto.
            -- rewrite (Won x) by auto. rewrite inAll. unfold C. tauto.
          * intros x Ix. apply WS. apply inAll. auto.
          * exact Wd.
          * intros x Ix. apply (w_gray _ _ _ W). auto.
          * inversion Wgs; auto.
          * intros x y V Ng Ed. destruct (string_dec x v) as [->|Nx].
            -- apply (Out v y); auto. apply inC. auto.
            -- apply (Wb x y); auto. intros [H|H]; [congruence|auto].
          * intros x y V Ns Ed. destruct (in_dec string_dec x C) as [Ic|Ic].
            -- destruct (Out x y Ic Ed) as [_ [H|H]]; [apply disj; auto|]. intros Is. apply H. apply inAll. auto.
            -- intros Is. apply (Wdn x y) with (3 := Ed); auto; [|apply inAll; auto]. intros H. apply inAll in H as [H|H]; auto.
          * intros x Ix. destruct (Wu x) as (g & Ig & Lg & Rg); [apply inAll; auto|].
            destruct Ig as [<-|Ig]; [specialize (idxS x Ix); lia|eauto].
          * intros g y Ig Iy L. apply Wdw; [right; auto|apply inAll; auto|auto].
          * intros s [<-|Is]; auto.
          * intros x V Ns. destruct (in_dec string_dec x C) as [Ic|Ic].
            -- exists C. split; [left; auto|auto].
            -- destruct (Wc x V) as (s & A & B & D); [intros H; apply inAll in H as [H|H]; auto|].
               exists s. split; [right; auto|auto].
        + split; cbn [t_index t_next t_low t_sccs]; auto.
          * intros x N V. destruct (string_dec x v) as [->|Nx]; [rewrite Fi; auto|]. specialize (Fn x N V Nx). lia.
          * specialize (Wl v). lia.
          * intros s Is. right. auto.
        + exact Vv.
        + intros H. contradiction.
        + intros _. split; auto. cbn [t_low]. rewrite Q, Fi. auto.
      - (* not a root: v stays on the stack *)
        assert (Lt : t_low st2 v < t_index st2 v) by lia.
        exists st2, (T ++ [v]). split; auto. rewrite <- app_assoc. cbn [app].
        destruct Fh as (yh & Iyh & Ryh & Eyh).
        assert (IyS : In yh S) by (destruct Iyh as [<-|H]; [lia|auto]).
        assert (Gy : exists g, In g gray /\ t_index st2 g <= t_index st2 yh /\ reach v g).
        { destruct (Wu yh) as (g & Ig & Lg & Rg); [apply in_app_iff; right; right; auto|].
          destruct Ig as [<-|Ig]; [lia|]. exists g. split; auto. split; auto. apply reach_trans with yh; auto. }
        split; [|split; [|split; [|split]]].
        + split; auto.
          * intros x Ix. apply in_app_iff. right. right. apply (w_gray _ _ _ W). auto.
          * inversion Wgs; auto.
          * intros x y V Ng Ed. destruct (string_dec x v) as [->|Nx].
            -- destruct Ed. apply Fd; auto.
            -- apply (Wb x y); auto. intros [H|H]; [congruence|auto].
          * intros x Ix. destruct (Wu x Ix) as (g & Ig & Lg & Rg). destruct Ig as [<-|Ig]; [|eauto].
            destruct Gy as (g & A & B & C). exists g. split; auto. split; [lia|]. apply reach_trans with v; auto.
          * intros g y Ig Iy L. apply Wdw; [right; auto|auto|auto].
        + split; auto.
          * intros x N V. destruct (string_dec x v) as [->|Nx]; [rewrite Fi; auto|]. specialize (Fn x N V Nx). lia.
          * specialize (Wl v). lia.
        + exact Vv.
        + intros _. split.
          * exists yh. auto.
          * intros x y Ix Ed Iy. apply in_app_iff in Ix as [Ix|[<-|[]]]; [eauto|].
            destruct Ed. apply Fd; auto.
        + intros H. exfalso. apply H. apply in_app_iff. right. left. auto.
    Qed.
  End Inv.

  Lemma wf_empty_stack base Ex S st : wf base Ex [] S st -> S = [].
  Proof.
    intros W. destruct S as [|x S]; auto. destruct (w_up _ _ _ _ _ W x (or_introl eq_refl)) as (g & [] & _).
  Qed.

  (** The successor loop of the very first call: its node [r] has index 0, so to
      the rest of the search [r] is an unvisited node, and this frame is not part
      of it. *)
  Lemma first_loop base Ex k r : forall deps st, wf base Ex [] [] st -> whites st <= k ->
    exists st', deps_loop (strongconnect k) r deps st = TOk st' /\ wf base Ex [] [] st' /\
      (forall x, visited st x -> visited st' x) /\
      (forall y, In y deps -> node_in y -> visited st' y) /\
      (~ visited st' r -> t_index st' r = t_index st r /\ (t_low st r = 0 -> t_low st' r = 0)).
  Proof.
    induction deps as [|w deps IH]; intros st W Wh; cbn [deps_loop].
    - exists st. split; auto. split; auto. split; auto. split; [intros y []|auto].
    - destruct (dg_get w dg) as [nd|] eqn:G.
      2:{ destruct (IH st W Wh) as (st' & E & W' & V & D & R). exists st'. split; auto. split; auto. split; auto. split; auto.
          intros y [<-|I] Dy; auto. apply dg_get_in in Dy as (n & Dy). congruence. }
      assert (Dw : node_in w) by (apply dg_get_in; eauto).
      destruct (Nat.eqb_spec (t_index st w) 0) as [Z|Z].
      + destruct (call_fuel base Ex k w [] [] st W Dw) as (st1 & T & E & W1 & X & V1 & _).
        { unfold visited. lia. }
        { intros g []. }
        { auto. }
        rewrite E. rewrite app_nil_r in W1. pose proof (wf_empty_stack _ _ _ _ W1) as ->.
        set (st2 := mkT (t_index st1) (upd (t_low st1) r (Nat.min (t_low st1 r) (t_low st1 w))) (t_on st1) (t_next st1) (t_stack st1) (t_sccs st1)).
        assert (W2 : wf base Ex [] [] st2) by (apply wf_low; exact W1).
        destruct (IH st2 W2) as (st' & E' & W' & V & D & R).
        { change (whites st2) with (whites st1). apply Nat.le_trans with (whites st); auto. apply whites_mono.
          intros x. apply ext_visited; auto. }
        exists st'. split; auto. split; auto. split.
        { intros x Vx. apply V. apply (ext_visited _ _ _ X) in Vx. exact Vx. }
        split.
        { intros y [<-|I] Dy; auto. }
        intros N. destruct (R N) as [Ri Rl]. assert (N1 : ~ visited st1 r) by (intros H; apply N; apply V; exact H).
        assert (N0 : ~ visited st r) by (intros H; apply N1; apply (ext_visited _ _ _ X); auto).
        unfold visited in N1, N0. split; [change (t_index st2 r) with (t_index st1 r) in Ri; lia|].
        intros L. apply Rl. cbn [st2 t_low]. unfold upd. rewrite String.eqb_refl.
        rewrite (e_low _ _ X r) by (right; unfold visited; lia). lia.
      + assert (On : t_on st w = false).
        { destruct (t_on st w) eqn:O; auto. apply (w_on _ _ _ _ _ W) in O; [destruct O|exact Z]. }
        rewrite On. destruct (IH st W Wh) as (st' & E & W' & V & D & R). exists st'. split; auto. split; auto. split; auto.
        split; auto. intros y [<-|I] Dy; auto.
  Qed.

  Lemma find_rest base Ex k : forall order st, wf base Ex [] [] st -> whites st <= k ->
    (forall x, In x order -> node_in x) ->
    exists st', find_sccs k order st = TOk st' /\ wf base Ex [] [] st' /\
      (forall x, visited st x -> visited st' x) /\ (forall x, In x order -> visited st' x) /\
      (forall s, In s (t_sccs st) -> In s (t_sccs st')).
  Proof.
    induction order as [|v order IH]; intros st W Wh Dom; cbn [find_sccs].
    - exists st. split; auto. split; auto. split; auto. split; [intros x []|auto].
    - destruct (Nat.eqb_spec (t_index st v) 0) as [Z|Z].
      + destruct (call_fuel base Ex k v [] [] st W (Dom v (or_introl eq_refl))) as (st1 & T & E & W1 & X & V1 & _).
        { unfold visited. lia. }
        { intros g []. }
        { auto. }
        rewrite E. rewrite app_nil_r in W1. pose proof (wf_empty_stack _ _ _ _ W1) as ->.
        destruct (IH st1 W1) as (st' & E' & W' & V & O & Sc).
        { apply Nat.le_trans with (whites st); auto. apply whites_mono. intros x. apply ext_visited; auto. }
        { intros x I. apply Dom. right. auto. }
        exists st'. split; auto. split; auto. split; [|split].
        * intros x Vx. apply V. apply (ext_visited _ _ _ X); auto.
        * intros x [<-|I]; auto.
        * intros s I. apply Sc. apply (e_sccs _ _ X). auto.
      + destruct (IH st W Wh) as (st' & E' & W' & V & O & Sc); [intros x I; apply Dom; right; auto|].
        exists st'. split; auto. split; auto. split; auto. split; auto. intros x [<-|I]; auto.
  Qed.

  (** Every emitted list is a strongly connected component, except possibly an
      extra singleton of the first node of the iteration; every node is in an
      emitted component. *)
  Theorem tarjan_correct order : (forall x, In x order <-> node_in x) ->
    exists st, tarjan order = TOk st /\
      (forall s, In s (t_sccs st) -> is_scc s \/ (exists r rest, order = r :: rest /\ s = [r])) /\
      (forall x, node_in x -> exists s, In s (t_sccs st) /\ is_scc s /\ In x s).
  Proof.
    intros Dom. unfold tarjan. destruct order as [|r order].
    { exists t_init. split; auto. split; [intros s []|]. intros x I. apply Dom in I. destruct I. }
    set (Ex := fun s => s = [r]). set (k := length dg).
    cbn [find_sccs]. change (t_index t_init r =? 0) with true. cbv iota.
    change (strongconnect (S (S k)) r t_init) with
      (match deps_loop (strongconnect (S k)) r (deps_of r) (enter r t_init) with TOk st2 => leave r st2 | x => x end).
    assert (Zr : forall x, t_index (enter r t_init) x = 0).
    { intros x. cbn. unfold upd. destruct (String.eqb x r); auto. }
    assert (W0 : wf [r] Ex [] [] (enter r t_init)).
    { assert (NV : forall x, ~ visited (enter r t_init) x) by (intros x V; apply V; apply Zr).
      split.
      - reflexivity.
      - cbn. auto.
      - intros x. rewrite Zr. cbn. lia.
      - constructor.
      - intros x V. exfalso. apply (NV x); auto.
      - intros x [].
      - intros x V. exfalso. apply (NV x); auto.
      - intros x [].
      - constructor.
      - intros x y V. exfalso. apply (NV x); auto.
      - intros x y V. exfalso. apply (NV x); auto.
      - intros x [].
      - intros g y [].
      - intros s [].
      - intros x V. exfalso. apply (NV x); auto. }
    assert (Wk : forall st, whites st <= k).
    { intros st. unfold whites, k. rewrite <- (map_length fst dg). apply filter_le_length. }
    destruct (first_loop [r] Ex (S k) r (deps_of r) _ W0) as (st2 & E & W2 & V2 & D2 & R2).
    { specialize (Wk (enter r t_init)). lia. }
    rewrite E.
    (* the state after the first frame *)
    assert (LV : exists st3 base, leave r st2 = TOk st3 /\ wf base Ex [] [] st3 /\
      (visited st3 r \/ (In [r] (t_sccs st3) /\ is_scc [r]))).
    { unfold leave. destruct (Nat.eqb_spec (t_low st2 r) (t_index st2 r)) as [Q|Q].
      - assert (Sk : t_stack st2 = [r]) by (rewrite (w_stack _ _ _ _ _ W2); reflexivity).
        rewrite Sk. cbn [pop_until]. rewrite String.eqb_refl. eexists. exists []. split; [reflexivity|].
        assert (W3 : wf [] Ex [] [] (mkT (t_index st2) (t_low st2) (upd (t_on st2) r false) (t_next st2) [] ([r] :: t_sccs st2))).
        { destruct W2 as [Ws Wn Wl Wso Won WS Wd Wg Wgs Wb Wdn Wu Wdw Wsc Wc].
          split; cbn [t_stack t_next t_index t_on t_sccs app]; auto.
          - intros x V. unfold upd. destruct (String.eqb x r); [split; [discriminate|intros []]|auto].
          - intros s [<-|I]; auto. right. reflexivity.
          - intros x V N. destruct (Wc x V N) as (s & A & B & C). exists s. split; auto. right. auto. }
        split; [exact W3|].
        destruct (Nat.eq_dec (t_index st2 r) 0) as [Z|Z]; [|left; exact Z]. right. cbn [t_sccs app].
        split; [left; auto|].
        assert (Cl : forall a b, reach a b -> visited st2 a -> visited st2 b).
        { intros a b Rb. apply clos_rt_rt1n in Rb. induction Rb as [|a b c Ed Rb IHR]; intros Va; auto.
          apply IHR. apply (w_black _ _ _ _ _ W2 a b); auto. }
        split; [discriminate|]. split; [repeat constructor; auto|]. split.
        { intros x [<-|[]]. apply Dom. left. auto. }
        intros x [<-|[]] y. split.
        { intros [<-|[]]. split; apply reach_refl. }
        intros [R1 R2']. apply clos_rt_rt1n in R1. inversion R1 as [|b c Ed R1']; subst; [left; auto|].
        exfalso. apply clos_rt1n_rt in R1'. assert (Vb : visited st2 b) by (destruct Ed; apply D2; auto).
        assert (Vr : visited st2 r) by (apply (Cl b r); auto; eapply reach_trans; eauto). apply Vr. exact Z.
      - exists st2, [r]. split; auto. split; auto. left. intros Z.
        assert (N : ~ visited st2 r) by (intros H; apply H; auto). destruct (R2 N) as [_ L]. apply Q. rewrite L, Z; auto.
        cbn. unfold upd. rewrite String.eqb_refl. reflexivity. }
    destruct LV as (st3 & base & E3 & W3 & R3). rewrite E3.
    destruct (find_rest base Ex (S (S k)) order st3 W3) as (st' & E' & W' & V & O & Sc).
    { specialize (Wk st3). lia. }
    { intros x I. apply Dom. right. auto. }
    exists st'. split; auto. split.
    - intros s I. destruct (w_sccs _ _ _ _ _ W' s I) as [H|H]; auto. right. exists r, order. auto.
    - intros x Dx. apply Dom in Dx. destruct Dx as [<-|I].
      + destruct R3 as [R3|[R3 C3]].
        * apply (w_cover _ _ _ _ _ W'); auto.
        * exists [r]. split; [auto|]. split; auto. left. auto.
      + apply (w_cover _ _ _ _ _ W'); auto.
  Qed.
End Search.
