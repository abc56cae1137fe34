(** C102: what the generator on a transition graph draws does not depend on what the nodes
    are called.  Its definitions are means of proof and model no code. *)
From Coq Require Import ZArith Arith String Bool Permutation List Lia.
From Verif Require Import Syntax Spec Check Num Utf8 Tape Occ PrintInj LowerLang PropDag PropGll AstProof PropAst RecogGlue PropRecog
  Graph GraphSpec GraphRun GraphRep GraphBuild GraphLabel PropGraph Walk WalkProof PropWalk Reader ReaderProof PropReader Compact CompactProof PropCompact PropServed PropRenumber.
Import ListNotations.
Local Open Scope string_scope.
Local Open Scope nat_scope.
Local Open Scope list_scope.

Lemma collect_more h k : forall j st ns ra, collect k h st ns ra <> inl None -> collect (k + j) h st ns ra = collect k h st ns ra.
Proof.
  induction k as [|k IH]; intros j st ns ra N; [destruct N; reflexivity|]. cbn [Nat.add collect] in *. destruct st as [|n st]; [reflexivity|].
  destruct (existsb _ _); [apply IH, N|]. destruct (negb _); [reflexivity|apply IH, N].
Qed.

Section Renamed.
  Variables (f : nat -> nat) (t t' : tgraph).
  Hypothesis R : renamed f t t'.
  Notation h := (tg_heap t).
  Notation h' := (tg_heap t').
  Notation F := (option_map f).
  Notation f2 := (fun e : nat * nat => (f (fst e), f (snd e))).
  Lemma eqb_f a b : Nat.eqb (f a) (f b) = Nat.eqb a b.
  Proof. exact (eq_F f t t' R (Some a) (Some b)). Qed.
  Lemma mem_f a l : existsb (Nat.eqb (f a)) (map f l) = existsb (Nat.eqb a) l.
  Proof. induction l as [|b l IH]; [reflexivity|]. cbn [map existsb]. rewrite eqb_f, IH. reflexivity. Qed.
  (** *** NewGenerator *)
  Lemma collect_f k : forall st ns ra, collect k h' (map f st) (map f ns) (map f2 ra) =
    match collect k h st ns ra with inr e => inr e | inl None => inl None | inl (Some (ns1, ra1)) => inl (Some (map f ns1, map f2 ra1)) end.
  Proof.
    induction k as [|k IH]; intros st ns ra; [reflexivity|]. cbn [collect]. destruct st as [|n st]; [reflexivity|]. cbn [map]. rewrite mem_f. destruct (existsb _ _); [apply IH|].
    rewrite (rn_elem _ _ _ R). destruct (negb _); [reflexivity|]. rewrite <- IH, (rn_next _ _ _ R). cbn [map]. rewrite !map_app, map_rev, !map_map. reflexivity.
  Qed.
  Notation fd := (fun e : option nat * nat => (F (fst e), snd e)).
  Lemma dget_f x m : dget (F x) (map fd m) = dget x m.
  Proof. induction m as [|[k v] m IH]; [reflexivity|]. cbn [map dget fst snd]. rewrite (eq_F f t t' R), IH. reflexivity. Qed.
  Lemma starts_f es : forall m q, fold_left (fun mq id => match dget id (fst mq) with Some _ => mq | None => (fst mq ++ [(id, O)], snd mq ++ [id]) end) (map F es) (map fd m, map F q) =
    let mq := fold_left (fun mq id => match dget id (fst mq) with Some _ => mq | None => (fst mq ++ [(id, O)], snd mq ++ [id]) end) es (m, q) in (map fd (fst mq), map F (snd mq)).
  Proof.
    induction es as [|e es IH]; intros m q; [reflexivity|]. cbn [map fold_left fst snd]. rewrite dget_f. destruct (dget e m); [apply IH|]. rewrite <- IH, !map_app. reflexivity.
  Qed.
  Lemma starting_f : start_ends (tg_ends t') = (map fd (fst (start_ends (tg_ends t))), map F (snd (start_ends (tg_ends t)))).
  Proof. unfold start_ends. rewrite (rn_ends _ _ _ R). exact (starts_f (tg_ends t) [] []). Qed.
  Lemma preds_f ra x : preds (map f2 ra) (F x) = map f (preds ra x).
  Proof.
    unfold preds. induction ra as [|e ra IH]; [reflexivity|]. cbn [map flat_map fst snd]. rewrite IH, map_app. f_equal.
    change (Some (f (fst e))) with (F (Some (fst e))). rewrite (eq_F f t t' R). destruct (eq_point _ _); reflexivity.
  Qed.
  Lemma found_f d ps : forall m q, fold_left (fun mq p => match dget (Some p) (fst mq) with Some _ => mq | None => (fst mq ++ [(Some p, S d)], snd mq ++ [Some p]) end) (map f ps) (map fd m, map F q) =
    let mq := fold_left (fun mq p => match dget (Some p) (fst mq) with Some _ => mq | None => (fst mq ++ [(Some p, S d)], snd mq ++ [Some p]) end) ps (m, q) in (map fd (fst mq), map F (snd mq)).
  Proof.
    induction ps as [|e ps IH]; intros m q; [reflexivity|]. cbn [map fold_left fst snd]. change (Some (f e)) with (F (Some e)). rewrite dget_f. destruct (dget (Some e) m); [apply IH|].
    rewrite <- IH, !map_app. reflexivity.
  Qed.
  Lemma search_f k ra : forall m q, search k (map f2 ra) (map fd m) (map F q) = option_map (map fd) (search k ra m q).
  Proof.
    induction k as [|k IH]; intros m q; [reflexivity|]. cbn [search]. destruct q as [|x q]; [reflexivity|]. cbn [map]. cbv zeta. rewrite dget_f, preds_f.
    assert (G : forall mq mq' : dmap * list (option nat), mq' = (map fd (fst mq), map F (snd mq)) ->
      (let '(m1, q1) := mq' in search k (map f2 ra) m1 q1) = option_map (map fd) (let '(m1, q1) := mq in search k ra m1 q1)).
    { intros [m1 q1] mq' ->. apply IH. }
    apply G, found_f.
  Qed.
  Lemma can_f m x : can_reach (map fd m) (F x) = can_reach m x.
  Proof. unfold can_reach. rewrite dget_f. reflexivity. Qed.
  Lemma somes_f l : somes (map F l) = map f (somes l).
  Proof. unfold somes. induction l as [|[a|] l IH]; cbn; [reflexivity|f_equal; exact IH|exact IH]. Qed.
  Definition gen_f (g : generator) : generator := mkGen t' (g_length g) (g_reps g) (g_steps g) (map fd (g_dist g)) (map F (g_entries g)).
  Lemma new_f ml mr ms : new_generator t' ml mr ms = match new_generator t ml mr ms with Gen_ok g => Gen_ok (gen_f g) | Gen_err e => Gen_err e | Gen_fuel => Gen_fuel end.
  Proof.
    pose proof (C33_new_generator t ml mr ms) as K. pose proof (C33_new_generator t' ml mr ms) as K'. unfold new_generator in *.
    set (k := S (length (tg_entry t) + edge_count h)) in *. set (k' := S (length (tg_entry t') + edge_count h')) in *.
    assert (E : collect k' h' (rev (somes (tg_entry t'))) [] [] = 
      match collect k h (rev (somes (tg_entry t))) [] [] with inr e => inr e | inl None => inl None | inl (Some (ns1, ra1)) => inl (Some (map f ns1, map f2 ra1)) end).
    { assert (E1 : collect k h (rev (somes (tg_entry t))) [] [] <> inl None) by (intros E; rewrite E in K; exact K).
      assert (E2 : collect k' h' (rev (somes (tg_entry t'))) [] [] <> inl None) by (intros E; rewrite E in K'; exact K').
      rewrite <- (collect_more h' k' k _ _ _ E2), <- (collect_more h k k' _ _ _ E1), (Nat.add_comm k k'), (rn_entry _ _ _ R), somes_f, <- map_rev. exact (collect_f (k' + k) _ [] []). }
    rewrite E. destruct (collect k h _ [] []) as [[[ns ra]|]|e]; [|reflexivity|reflexivity]. rewrite starting_f. destruct (start_ends (tg_ends t)) as [m q]. cbn [fst snd].
    rewrite (rn_ends _ _ _ R), !map_length, search_f. destruct (search _ ra m q) as [m1|]; [|reflexivity]. cbn [option_map]. f_equal. unfold gen_f. cbn [g_length g_reps g_steps g_dist g_entries].
    f_equal. rewrite (rn_entry _ _ _ R). apply filter_F. intros x. apply can_f.
  Qed.

  (** *** walk *)
  Variable g : generator.
  Hypothesis Gt : g_graph g = t.
  Lemma dist_f a : dist (map fd (g_dist g)) (f a) = dist (g_dist g) a.
  Proof. unfold dist. change (Some (f a)) with (F (Some a)). rewrite dget_f. reflexivity. Qed.
  Lemma nearest_f l : forall a, nearest (map fd (g_dist g)) (f a) (map f l) = f (nearest (g_dist g) a l).
  Proof.
    unfold nearest. induction l as [|b l IH]; intros a; [reflexivity|]. cbn [map fold_left]. rewrite <- IH, !dist_f. f_equal. destruct (Nat.ltb _ _); reflexivity.
  Qed.
  Lemma visits_f vs a b : visits (map f2 vs) (f a) (f b) = visits vs a b.
  Proof.
    unfold visits. f_equal. induction vs as [|e vs IH]; [reflexivity|]. cbn [map filter fst snd]. rewrite !eqb_f. destruct (_ && _); cbn [length]; rewrite IH; reflexivity.
  Qed.
  Lemma filter_f (P P' : nat -> bool) l : (forall x, P' (f x) = P x) -> filter P' (map f l) = map f (filter P l).
  Proof. intros H. induction l as [|x l IH]; [reflexivity|]. cbn [map filter]. rewrite H. destruct (P x); cbn [map]; rewrite IH; reflexivity. Qed.
  Definition choice_f (c : Walk.choice) : Walk.choice := match c with Walk.Next b => Walk.Next (f b) | Stop => Stop | Panic => Panic end.
  Lemma pick_f l k : pick (map f l) k = choice_f (pick l k).
  Proof. unfold pick. destruct (k <? 0)%Z; [reflexivity|]. rewrite nth_error_map. destruct (nth_error l (Z.to_nat k)); reflexivity. Qed.
  Section Source.
    Variables (S_ : Type) (intn : Z -> S_ -> Z * S_).
    Lemma decide_f a len vs steps s : decide intn (gen_f g) (f a) len (map f2 vs) steps s = (choice_f (fst (decide intn g a len vs steps s)), snd (decide intn g a len vs steps s)).
    Proof.
      unfold decide. cbn [gen_f g_graph g_dist g_reps g_length g_steps]. cbv zeta. rewrite Gt, (rn_next _ _ _ R).
      rewrite (filter_f (fun b => can_reach (g_dist g) (Some b))) by (intros x; exact (can_f _ (Some x))). set (live := filter (fun b => can_reach (g_dist g) (Some b)) (nexts h a)).
      rewrite (filter_f (fun b => visits vs a b <? g_reps g)%Z) by (intros x; rewrite visits_f; reflexivity). set (capped := filter (fun b => visits vs a b <? g_reps g)%Z live).
      destruct live as [|first rest]; [reflexivity|]. cbn [map]. rewrite (rn_ends _ _ _ R).
      replace (existsb (eq_point (Some (f a))) (map F (tg_ends t))) with (existsb (eq_point (Some a)) (tg_ends t)) by (symmetry; exact (mem_F f t t' R (Some a) (tg_ends t))).
      rewrite map_length. replace (match map f capped with [] => true | _ => false end) with (match capped with [] => true | _ => false end) by (destruct capped; reflexivity).
      destruct (existsb _ _), ((g_length g <=? len) || (g_steps g <=? steps) || _)%Z.
      - reflexivity.
      - destruct (intn _ s) as [c s1]. destruct (c =? 0)%Z; [reflexivity|]. rewrite pick_f. reflexivity.
      - rewrite nearest_f. reflexivity.
      - destruct (intn _ s) as [c s1]. rewrite pick_f. reflexivity.
    Qed.
    Lemma walking_f k : forall x out tr vs steps s, walk_loop intn k (gen_f g) (F x) out tr (map f2 vs) steps s = walk_loop intn k g x out tr vs steps s.
    Proof.
      induction k as [|k IH]; intros x out tr vs steps s; [reflexivity|]. cbn [walk_loop]. destruct x as [a|]; [|reflexivity]. cbn [option_map gen_f g_graph]. rewrite (rn_elem _ _ _ R), Gt.
      destruct (walk_emit _ _ _ _ _) as [[[out1 tr1] s1]|]; [|reflexivity]. fold (gen_f g). rewrite decide_f. destruct (decide intn g a _ vs steps s1) as [[|b|] s2]; cbn [fst snd choice_f]; [reflexivity| |reflexivity].
      exact (IH (Some b) out1 tr1 ((a, b) :: vs) (steps + 1)%Z s2).
    Qed.
    Lemma walk_f k s : walk intn k (gen_f g) s = walk intn k g s.
    Proof.
      unfold walk. change (g_entries (gen_f g)) with (map F (g_entries g)). rewrite map_length.
      destruct (g_entries g) as [|e es] eqn:E; [reflexivity|]. cbn [map]. destruct (intn _ s) as [c s1]. destruct (c <? 0)%Z; [reflexivity|].
      change (F e :: map F es) with (map F (e :: es)). rewrite nth_error_map. destruct (nth_error (e :: es) (Z.to_nat c)) as [n|]; [|reflexivity]. exact (walking_f k n [] [] [] 0%Z s1).
    Qed.
  End Source.
End Renamed.

(** On two graphs that differ in the names of their nodes, NewGenerator refuses both because
    of the same element, or accepts both; then, whatever the source, it draws the same
    decisions: the same bytes, the same trace and the same state of the source. *)
Theorem C102_generator_names : forall f t t' ml mr ms, renamed f t t' ->
  match new_generator t ml mr ms, new_generator t' ml mr ms with
  | Gen_ok gen, Gen_ok gen' =>
      (forall (S_ : Type) (intn : Z -> S_ -> Z * S_) k s, walk intn k gen' s = walk intn k gen s) /\
      (forall stable tape k, graph_generate k stable gen' tape = graph_generate k stable gen tape)
  | Gen_err e, Gen_err e' => e = e'
  | _, _ => False
  end.
Proof.
  intros f t t' ml mr ms R. pose proof (C33_new_generator t ml mr ms) as K. rewrite (new_f f t t' R ml mr ms). destruct (new_generator t ml mr ms) as [gen|e|]; [|reflexivity|exact K].
  destruct K as [Gt _]. assert (W : forall (S_ : Type) (intn : Z -> S_ -> Z * S_) k s, walk intn k (gen_f f t' gen) s = walk intn k gen s).
  { intros S_ intn k s. exact (walk_f f t t' R gen Gt S_ intn k s). }
  split; [exact W|]. intros stable tape k. unfold graph_generate. rewrite !W. reflexivity.
Qed.

(** The two graphs of C101. *)
Example C102_case : renamed turn34 t34 t34r /\ exists gen gen' w tr, new_generator t34 6 2 10 = Gen_ok gen /\ new_generator t34r 6 2 10 = Gen_ok gen' /\ g_dist gen <> g_dist gen' /\
  graph_generate 50 false gen [0; 1; 1; 1; 1; 0]%Z = W_ok w tr tt /\ graph_generate 50 false gen' [0; 1; 1; 1; 1; 0]%Z = W_ok w tr tt /\ 2 <= length w.
Proof.
  split; [apply C101_case|]. eexists _, _, _, _. split; [vm_compute; reflexivity|]. split; [vm_compute; reflexivity|]. split; [vm_compute; discriminate|].
  split; [vm_compute; reflexivity|]. split; [vm_compute; reflexivity|]. vm_compute. lia.
Qed.

Print Assumptions C102_generator_names.
Print Assumptions C102_case.
