(** C69: the drawings of transition graphs and of dependency graphs, and the fuzz
    targets of transition_graph_fuzz.go. *)
(** The definitions here without a citation are those of statements, proofs and examples; they model no code. *)
From Coq Require Import ZArith Arith String Ascii Bool Relations Permutation List Lia.
From Verif Require Import Syntax Spec Check Num Occ PrintInj Deps Dag Cycle LowerLang PropSem PropDag PropGll RecogGlue PropRecog RegexBuild
  Graph GraphSpec GraphRun GraphRep GraphBuild GraphLabel PropGraph Walk PropWalk PropExpect Reader PropReader Eval ParseAbnf PropParse PropFromAbnf Mermaid.
Import ListNotations.
Local Open Scope string_scope.
Local Open Scope nat_scope.
Local Open Scope list_scope.

(** ** Specification *)
(** The lines of a text, as strings.Split(s, "\n") gives them. *)
Fixpoint lines (s : string) : list string :=
  match s with
  | EmptyString => [""]
  | String c s' => if Ascii.eqb c (ascii_of_nat 10) then "" :: lines s'
                   else match lines s' with x :: l => String c x :: l | [] => [] end
  end.
(** The line of an edge between two IDs. *)
Definition edge_line (a b : string) : string := ("    " ++ a ++ " --> " ++ b)%string.
(** The line of a node: its shape says whether it is an end point, its class whether it
    is an entry point. *)
Definition quoted (l : string) : string := String (ascii_of_nat 34) (l ++ String (ascii_of_nat 34) "")%string.
Inductive node_line (t : tgraph) (a : nat) (i l : string) : string -> Prop :=
| node_line_of shape class :
    (In (Some a) (tg_ends t) /\ shape = ("(((" ++ quoted l ++ ")))")%string \/ ~ In (Some a) (tg_ends t) /\ shape = ("[" ++ quoted l ++ "]")%string) ->
    (In (Some a) (tg_entry t) /\ class = ":::entrypoint" \/ ~ In (Some a) (tg_entry t) /\ class = "") ->
    node_line t a i l ("    " ++ i ++ shape ++ class)%string.
(** Texts of IDs (transition_graph.go:1452): distinct, made of hexadecimal digits and
    hyphens. *)
Definition uuid_char (c : ascii) : bool := (is_dig c || (97 <=? cval c)%Z && (cval c <=? 102)%Z || (cval c =? 45)%Z)%bool.
Definition uuids (id : nat -> string) : Prop := (forall a b, id a = id b -> a = b) /\ forall a, all_chars uuid_char (id a) = true.
(** No quote and no end of line. *)
Definition label_char (c : ascii) : bool := (negb (Ascii.eqb c (ascii_of_nat 10)) && negb (Ascii.eqb c (ascii_of_nat 34)))%bool.
(** A map is visited in any order, each key once. *)
Definition visits (ord : list nat -> list nat) : Prop := forall l, Permutation (ord l) l.

(** What the reading below needs of IDs: no character used around them. *)
Definition id_char (c : ascii) : bool := (is_alpha c || is_dig c || (cval c =? 45)%Z)%bool.
Definition ids_ok (id : nat -> string) : Prop := (forall a b, id a = id b -> a = b) /\ forall a, all_chars id_char (id a) = true.

(** ** Visiting the nodes *)
Section Visit.
  Variable h : heap.
  Definition left (mp : list nat) : nat := length (filter (fun i => negb (existsb (Nat.eqb i) mp)) (seq 0 (length h))).
  Lemma mem_in a l : existsb (Nat.eqb a) l = true <-> In a l.
  Proof. rewrite existsb_exists. split; [intros (x & I & E); apply Nat.eqb_eq in E; subst; exact I|intros I; exists a; split; [exact I|apply Nat.eqb_refl]]. Qed.
  Lemma filter_le {A} (p q : A -> bool) l : (forall x, p x = true -> q x = true) -> length (filter p l) <= length (filter q l).
  Proof. intros H. induction l as [|x l IH]; [apply Nat.le_refl|]. cbn [filter]. destruct (p x) eqn:Px; [rewrite (H x Px); cbn; lia|destruct (q x); cbn; lia]. Qed.
  Lemma filter_lt {A} (p q : A -> bool) l y : (forall x, p x = true -> q x = true) -> In y l -> p y = false -> q y = true -> length (filter p l) < length (filter q l).
  Proof.
    intros H I Py Qy. induction l as [|x l IH]; [destruct I|]. cbn [filter]. destruct I as [->|I].
    - rewrite Py, Qy. cbn. pose proof (filter_le p q l H). lia.
    - specialize (IH I). destruct (p x) eqn:Px; [rewrite (H x Px); cbn; lia|destruct (q x); cbn; lia].
  Qed.
  Lemma filter_all {A} (l : list A) : filter (fun _ => true) l = l.
  Proof. induction l as [|x l IH]; [reflexivity|]. cbn [filter]. rewrite IH. reflexivity. Qed.
  Lemma left_mono mp mp' : incl mp mp' -> left mp' <= left mp.
  Proof.
    intros I. apply filter_le. intros x. rewrite !negb_true_iff. intros E. destruct (existsb (Nat.eqb x) mp) eqn:E'; [|reflexivity].
    apply mem_in, I, mem_in in E'. congruence.
  Qed.
  Lemma left_less mp a : a < length h -> ~ In a mp -> left (mp ++ [a]) < left mp.
  Proof.
    intros L N. apply (filter_lt _ _ _ a).
    - intros x. rewrite !negb_true_iff, existsb_app. intros E. apply orb_false_iff in E. apply E.
    - apply in_seq. lia.
    - apply negb_false_iff, mem_in, in_or_app. right. left. reflexivity.
    - apply negb_true_iff. destruct (existsb (Nat.eqb a) mp) eqn:E; [apply mem_in in E; contradiction|reflexivity].
  Qed.
  (** What one call adds. *)
  Record grown (from : nat -> Prop) (mp mp' : list nat) : Prop := {
    gr_incl : incl mp mp';
    gr_nodup : NoDup mp -> NoDup mp';
    gr_from : forall x, In x mp' -> In x mp \/ exists p a, from a /\ linked h (a :: p) /\ last (a :: p) a = x;
    gr_closed : forall x y, In x mp' -> ~ In x mp -> In y (nexts h x) -> In y mp' }.
  Lemma grown_refl f mp : grown f mp mp.
  Proof. split; [apply incl_refl|auto|auto|]. intros x y A B. contradiction. Qed.
  Lemma grown_trans (f1 f2 f : nat -> Prop) a b c : (forall x, f1 x -> f x) -> (forall x, f2 x -> f x) -> grown f1 a b -> grown f2 b c -> grown f a c.
  Proof.
    intros F1 F2 [A1 A2 A3 A4] [B1 B2 B3 B4]. split.
    - eapply incl_tran; eassumption.
    - auto.
    - intros x I. apply B3 in I as [I|(p & y & Fy & L)]; [|right; exists p, y; auto]. apply A3 in I as [I|(p & y & Fy & L)]; [auto|right; exists p, y; auto].
    - intros x y I N Iy. destruct (in_dec Nat.eq_dec x b) as [D|D]; [apply B1; eapply A4; eassumption|eapply B4; eassumption].
  Qed.
  Lemma visit_list f l : (forall mp a, In a l -> left mp < f -> exists mp', map_nodes f h mp a = Some mp' /\ In a mp' /\ grown (eq a) mp mp') ->
    forall mp, left mp < f -> exists mp', fold_left (fun acc b => match acc with Some m => map_nodes f h m b | None => None end) l (Some mp) = Some mp' /\
      (forall a, In a l -> In a mp') /\ grown (fun a => In a l) mp mp'.
  Proof.
    induction l as [|a l IH]; intros H mp L; cbn [fold_left].
    - exists mp. split; [reflexivity|]. split; [intros a []|]. apply grown_refl.
    - destruct (H mp a (or_introl eq_refl) L) as (m1 & -> & I1 & G1).
      destruct (IH (fun mp x I => H mp x (or_intror I)) m1) as (m2 & E2 & I2 & G2).
      { pose proof (left_mono mp m1 (gr_incl _ _ _ G1)). lia. }
      exists m2. split; [exact E2|]. split.
      + intros x [<-|I]; [apply (gr_incl _ _ _ G2), I1|apply I2, I].
      + eapply grown_trans; [| |exact G1|exact G2]; [intros x <-; left; reflexivity|intros x I; right; exact I].
  Qed.
  Lemma visit_ok f : forall mp a, left mp < f -> exists mp', map_nodes f h mp a = Some mp' /\ In a mp' /\ grown (eq a) mp mp'.
  Proof.
    induction f as [|f IH]; intros mp a L; [lia|]. cbn [map_nodes]. destruct (existsb (Nat.eqb a) mp) eqn:E.
    - apply mem_in in E. exists mp. split; [reflexivity|]. split; [exact E|apply grown_refl].
    - assert (N : ~ In a mp) by (intros I; apply mem_in in I; congruence).
      assert (X : exists mp', fold_left (fun acc b => match acc with Some m => map_nodes f h m b | None => None end) (nexts h a) (Some (mp ++ [a])) = Some mp' /\
        (forall b, In b (nexts h a) -> In b mp') /\ grown (fun b => In b (nexts h a)) (mp ++ [a]) mp').
      { destruct (Nat.lt_ge_cases a (length h)) as [Lt|Ge].
        - apply visit_list; [intros m b _; apply IH|]. pose proof (left_less mp a Lt N). lia.
        - assert (Z : nexts h a = []) by (unfold nexts; apply nth_error_None in Ge; rewrite Ge; reflexivity).
          rewrite Z. cbn [fold_left]. exists (mp ++ [a]). split; [reflexivity|]. split; [intros b []|apply grown_refl]. }
      destruct X as (mp' & -> & In1 & [A B C D]). exists mp'. split; [reflexivity|]. assert (Ia : In a mp') by (apply A, in_or_app; right; left; reflexivity).
      split; [exact Ia|]. split.
      + intros x I. apply A, in_or_app. auto.
      + intros Nd. apply B. apply (Permutation_NoDup (Permutation_cons_append mp a)). constructor; assumption.
      + intros x I. apply C in I as [I|(p & b & Ib & Lk & El)].
        * apply in_app_or in I as [I|[<-|[]]]; [auto|]. right. exists [], a. split; [reflexivity|]. split; [exact Logic.I|reflexivity].
        * right. exists (b :: p), a. split; [reflexivity|]. split; [split; [exact Ib|exact Lk]|]. rewrite <- El.
          change (last (a :: b :: p) a) with (last (b :: p) a). apply last_change. discriminate.
      + intros x y I Nx Iy. destruct (Nat.eq_dec x a) as [->|Nxa]; [apply In1, Iy|]. apply (D x y I); [|exact Iy].
        intros J. apply in_app_or in J as [J|[J|[]]]; [exact (Nx J)|congruence].
  Qed.
End Visit.
Lemma mapped_nodes t : exists mp, fold_left (fun acc p => match acc, p with
    | Some m, Some a => map_nodes (S (length (tg_heap t))) (tg_heap t) m a | _, _ => acc end) (tg_entry t) (Some []) = Some mp /\
  NoDup mp /\ forall a, In a mp <-> in_graph t a.
Proof.
  set (h := tg_heap t).
  assert (X : forall (l : points) mp, exists mp', fold_left (fun acc p => match acc, p with Some m, Some a => map_nodes (S (length h)) h m a | _, _ => acc end) l (Some mp) = Some mp' /\
    (forall a, In (Some a) l -> In a mp') /\ grown h (fun a => In (Some a) l) mp mp').
  { induction l as [|[a|] l IH]; intros mp; cbn [fold_left].
    - exists mp. split; [reflexivity|]. split; [intros a []|apply grown_refl].
    - destruct (visit_ok h (S (length h)) mp a) as (m1 & -> & I1 & G1).
      { unfold left. apply Nat.lt_succ_r. etransitivity; [apply (filter_le _ (fun _ => true)); reflexivity|]. rewrite filter_all, seq_length. apply Nat.le_refl. }
      destruct (IH m1) as (m2 & E2 & I2 & G2). exists m2. split; [exact E2|]. split.
      + intros x [Q|I]; [injection Q as <-; apply (gr_incl _ _ _ _ G2), I1|apply I2, I].
      + eapply grown_trans; [| |exact G1|exact G2]; [intros x <-; left; reflexivity|intros x I; right; exact I].
    - destruct (IH mp) as (m2 & E2 & I2 & G2). exists m2. split; [exact E2|]. split; [intros x [Q|I]; [discriminate|apply I2, I]|].
      destruct G2 as [A B C D]. split; [exact A|exact B| |exact D]. intros x I. apply C in I as [I|(p & a & Ia & L)]; [auto|]. right. exists p, a. split; [right; exact Ia|exact L]. }
  destruct (X (tg_entry t) []) as (mp & E & I & [A B C D]). exists mp. split; [exact E|]. split; [apply B; constructor|].
  intros a. split.
  - intros Ia. apply C in Ia as [[]|(p & e & Ie & L & El)]. exists p, e. auto.
  - apply in_graph_region; [|exact I]. intros x y Ix Iy. apply (D x y Ix); [intros []|exact Iy].
Qed.

(** ** The text *)
Definition no_nl (c : ascii) : bool := negb (Ascii.eqb c (ascii_of_nat 10)).
Notation one_line := (all_chars no_nl).
Lemma weaken (p q : ascii -> bool) s : (forall c, p c = true -> q c = true) -> all_chars p s = true -> all_chars q s = true.
Proof. intros H. induction s as [|c s IH]; [reflexivity|]. cbn [all_chars]. rewrite !andb_true_iff. intros [A B]. auto. Qed.
Lemma lines_some s : lines s <> [].
Proof. destruct s as [|c s]; [discriminate|]. cbn [lines]. destruct (Ascii.eqb c (ascii_of_nat 10)); [discriminate|]. destruct (lines s) eqn:E; [|discriminate]. exfalso. revert E. induction s as [|d s IH]; [discriminate|]. cbn [lines]. destruct (Ascii.eqb d (ascii_of_nat 10)); [discriminate|]. destruct (lines s); [intros _; apply IH; reflexivity|discriminate]. Qed.
Lemma lines_line x s : one_line x = true -> lines (x ++ newline ++ s)%string = x :: lines s.
Proof.
  induction x as [|c x IH]; [reflexivity|]. cbn [all_chars]. intros A. apply andb_true_iff in A as [A B]. unfold no_nl in A. apply negb_true_iff in A.
  change (lines (String c (x ++ newline ++ s)) = String c x :: lines s). cbn [lines]. rewrite A, (IH B). reflexivity.
Qed.
Lemma sapp_assoc a b c : ((a ++ b) ++ c = a ++ b ++ c)%string.
Proof. induction a as [|x a IH]; [reflexivity|]. cbn. f_equal. exact IH. Qed.
Lemma lines_cat {A} (f : A -> string) l s : (forall x, In x l -> one_line (f x) = true) ->
  lines (cat (fun x => f x ++ newline) l ++ s)%string = map f l ++ lines s.
Proof.
  intros H. induction l as [|x l IH]; [reflexivity|]. cbn [cat fold_right map]. rewrite !sapp_assoc, lines_line by (apply H; left; reflexivity).
  cbn [app]. f_equal. apply IH. intros y I. apply H. right. exact I.
Qed.
Lemma cat_ext {A} (f g : A -> string) l : (forall x, f x = g x) -> cat f l = cat g l.
Proof. intros H. induction l as [|x l IH]; [reflexivity|]. cbn [cat fold_right]. rewrite H. f_equal. exact IH. Qed.
Lemma id_one id a : ids_ok id -> one_line (id a) = true.
Proof.
  intros [_ H]. eapply weaken; [|apply H]. intros c. unfold id_char, no_nl, is_alpha, is_dig. destruct (Ascii.eqb_spec c (ascii_of_nat 10)) as [->|N]; [discriminate|reflexivity].
Qed.
Lemma label_one l : all_chars label_char l = true -> one_line l = true.
Proof. apply weaken. intros c. unfold label_char, no_nl. intros H. apply andb_true_iff in H. apply H. Qed.
Lemma edge_one id a b : ids_ok id -> one_line (edge_line (id a) (id b)) = true.
Proof. intros H. unfold edge_line. rewrite !all_chars_app, !id_one by exact H. reflexivity. Qed.
Lemma point_in a l : existsb (eq_point (Some a)) l = true <-> In (Some a) l.
Proof.
  rewrite existsb_exists. split.
  - intros ([x|] & I & E); [|discriminate]. apply Nat.eqb_eq in E. subst. exact I.
  - intros I. exists (Some a). split; [exact I|apply Nat.eqb_refl].
Qed.
Definition lines_of (t : tgraph) (id : nat -> string) (a : nat) (first : string) : list string :=
  first :: map (fun b => edge_line (id a) (id b)) (nexts (tg_heap t) a) ++ [""].
Lemma node_text_lines id t a l : ids_ok id -> label (tg_heap t) a <> None -> elem_to_string (elem_at (tg_heap t) a) = Some l -> all_chars label_char l = true ->
  exists x first, node_text id t a = Some x /\ node_line t a (id a) l first /\ forall s, lines (x ++ s)%string = lines_of t id a first ++ lines s.
Proof.
  intros Ok La El Pl. unfold node_text. unfold label in La. unfold elem_at in El. destruct (nth_error (tg_heap t) a) as [n|] eqn:E; [|contradiction]. rewrite El.
  set (shape := if existsb (eq_point (Some a)) (tg_ends t) then _ else _). set (class := if existsb (eq_point (Some a)) (tg_entry t) then _ else _).
  eexists. exists ("    " ++ id a ++ shape ++ class)%string. split; [reflexivity|].
  assert (One : one_line ("    " ++ id a ++ shape ++ class)%string = true).
  { rewrite !all_chars_app, (id_one id a Ok). unfold shape, class. pose proof (label_one l Pl) as Ll.
    destruct (existsb (eq_point (Some a)) (tg_ends t)), (existsb (eq_point (Some a)) (tg_entry t)); rewrite all_chars_app;
    change (String (ascii_of_nat 34) l) with (String (ascii_of_nat 34) "" ++ l)%string; rewrite !all_chars_app, Ll; reflexivity. }
  split.
  - constructor.
    + unfold shape. destruct (existsb (eq_point (Some a)) (tg_ends t)) eqn:Q; [left; split; [apply point_in, Q|]|right; split; [intros I; apply point_in in I; congruence|]];
        unfold quoted; cbn [append]; do 2 f_equal; rewrite sapp_assoc; reflexivity.
    + unfold class. destruct (existsb (eq_point (Some a)) (tg_entry t)) eqn:Q; [left; split; [apply point_in, Q|reflexivity]|right; split; [intros I; apply point_in in I; congruence|reflexivity]].
  - intros s. unfold lines_of. replace (nexts (tg_heap t) a) with (n_nexts n) by (unfold nexts; rewrite E; reflexivity).
    rewrite (cat_ext _ (fun b => edge_line (id a) (id b) ++ newline)%string) by (intros b; unfold edge_line; rewrite !sapp_assoc; reflexivity).
    assert (R : forall u v w x y z : string, ((u ++ v ++ w ++ x ++ newline ++ y ++ newline) ++ z = (u ++ v ++ w ++ x) ++ newline ++ y ++ newline ++ z)%string) by (intros; rewrite !sapp_assoc; reflexivity).
    rewrite R, lines_line by exact One. cbn [app]. f_equal. rewrite lines_cat by (intros b _; apply edge_one, Ok). rewrite <- app_assoc. f_equal.
Qed.

Section Drawn.
  Variables (id : nat -> string) (t : tgraph).
  Hypothesis Ok : ids_ok id.
  Hypothesis Lab : forall a, in_graph t a -> label (tg_heap t) a <> None /\ exists l, elem_to_string (elem_at (tg_heap t) a) = Some l /\ all_chars label_char l = true.
  Lemma nodes_text_lines l : (forall a, In a l -> in_graph t a) -> exists x firsts, nodes_text id t l = Some x /\
    Forall2 (fun a first => exists lab, elem_to_string (elem_at (tg_heap t) a) = Some lab /\ node_line t a (id a) lab first) l firsts /\
    forall s, lines (x ++ s)%string = flat_map (fun p => lines_of t id (fst p) (snd p)) (combine l firsts) ++ lines s.
  Proof.
    induction l as [|a l IH]; intros H; cbn [nodes_text].
    - exists "", []. split; [reflexivity|]. split; [constructor|reflexivity].
    - destruct (Lab a (H a (or_introl eq_refl))) as (La & lab & El & Pl). destruct (node_text_lines id t a lab Ok La El Pl) as (x & f & -> & N & Lx).
      destruct IH as (y & fs & -> & F & Ly); [intros b I; apply H; right; exact I|]. exists (x ++ y)%string, (f :: fs).
      split; [reflexivity|]. split; [constructor; [exists lab; auto|exact F]|]. intros s. cbn [combine flat_map fst snd]. rewrite sapp_assoc, Lx, Ly, <- app_assoc. reflexivity.
  Qed.
  Lemma drawn_lines ord : visits ord -> exists s l firsts, to_mermaid id ord t = D_ok s /\ NoDup l /\ (forall a, In a l <-> in_graph t a) /\
    Forall2 (fun a first => exists lab, elem_to_string (elem_at (tg_heap t) a) = Some lab /\ node_line t a (id a) lab first) l firsts /\
    lines s = ["flowchart LR"; "    classDef entrypoint fill:#479abf"; ""] ++ flat_map (fun p => lines_of t id (fst p) (snd p)) (combine l firsts) ++
      (if has_empty (tg_entry t) then [("    emptyNode(((" ++ String (ascii_of_nat 226) (String (ascii_of_nat 136) (String (ascii_of_nat 133) "))):::entrypoint")))%string; ""] else [""]).
  Proof.
    intros Vo. unfold to_mermaid. destruct (mapped_nodes t) as (mp & -> & Nd & Im).
    destruct (nodes_text_lines (ord mp)) as (x & fs & -> & F & Lx); [intros a I; apply Im, (Permutation_in _ (Vo mp)), I|].
    eexists. exists (ord mp), fs. split; [reflexivity|]. split; [apply (Permutation_NoDup (Permutation_sym (Vo mp)) Nd)|].
    split; [intros a; rewrite <- Im; split; apply Permutation_in; [apply Vo|apply Permutation_sym, Vo]|]. split; [exact F|].
    rewrite lines_line by reflexivity. cbn [app]. f_equal. rewrite lines_line by reflexivity. f_equal. change (newline ++ ?z)%string with ("" ++ newline ++ z)%string. 
    rewrite (lines_line ""), Lx by reflexivity. f_equal. f_equal. destruct (has_empty (tg_entry t)); reflexivity.
  Qed.
End Drawn.
(** ** Reading the text back *)
Lemma first_other x : forall y c d r q, all_chars id_char x = true -> all_chars id_char y = true -> id_char c = false -> id_char d = false ->
  (x ++ String c r = y ++ String d q)%string -> x = y /\ c = d /\ r = q.
Proof.
  induction x as [|a x IH]; intros [|b y] c d r q Px Py Pc Pd E.
  - injection E as -> ->. auto.
  - exfalso. injection E as -> _. cbn [all_chars] in Py. rewrite Pc in Py. discriminate.
  - exfalso. injection E as -> _. cbn [all_chars] in Px. rewrite Pd in Px. discriminate.
  - injection E as -> E. cbn [all_chars] in Px, Py. apply andb_true_iff in Px as [_ Px]. apply andb_true_iff in Py as [_ Py].
    destruct (IH y c d r q Px Py Pc Pd E) as (-> & -> & ->). auto.
Qed.
Lemma same_tail x : forall y r q, (x ++ r = y ++ q)%string -> x = y -> r = q.
Proof. induction x as [|c x IH]; intros y r q E <-; [exact E|]. injection E as E. eapply IH; [exact E|reflexivity]. Qed.
Lemma spaces_inj a b : ("    " ++ a = "    " ++ b)%string -> a = b.
Proof. intros E. injection E as E. exact E. Qed.
Lemma arrow b : (" --> " ++ b = String (ascii_of_nat 32) ("--> " ++ b))%string.
Proof. reflexivity. Qed.
Lemma edge_eq x y x' y' : all_chars id_char x = true -> all_chars id_char x' = true -> edge_line x y = edge_line x' y' -> x = x' /\ y = y'.
Proof.
  intros A B E. apply spaces_inj in E. rewrite !arrow in E. apply first_other in E as (E1 & _ & E2); auto. split; [exact E1|]. injection E2 as E2. exact E2.
Qed.
Lemma node_shape t a i l f : node_line t a i l f -> exists d q, f = ("    " ++ i ++ String d q)%string /\ id_char d = false /\ (d = "("%char \/ d = "["%char).
Proof.
  intros [shape class [[_ ->]|[_ ->]] _]; eexists _, _; (split; [cbn [append]; do 4 f_equal; rewrite ?sapp_assoc; cbn [append]; reflexivity|]); (split; [reflexivity|auto]).
Qed.
Lemma node_not_edge t a i l f x y : node_line t a i l f -> all_chars id_char i = true -> all_chars id_char x = true -> f <> edge_line x y.
Proof.
  intros N A B E. apply node_shape in N as (d & q & -> & Pd & D). apply spaces_inj in E. rewrite arrow in E. apply first_other in E as (_ & E & _); auto.
  destruct D as [->| ->]; discriminate.
Qed.
Lemma node_ids t a i l f a' i' l' f' : node_line t a i l f -> node_line t a' i' l' f' -> all_chars id_char i = true -> all_chars id_char i' = true -> f = f' -> i = i'.
Proof.
  intros N N' A B E. apply node_shape in N as (d & q & -> & Pd & _). apply node_shape in N' as (d' & q' & -> & Pd' & _). apply spaces_inj in E.
  apply first_other in E as (E & _ & _); auto.
Qed.
Lemma count_none (X : string) l : ~ In X l -> count_occ string_dec l X = 0.
Proof. apply count_occ_not_In. Qed.
Lemma count_flat {A} (F : A -> list string) (key : A -> nat) X a k L : (forall p, In p L -> key p <> a -> count_occ string_dec (F p) X = 0) ->
  (forall p, In p L -> key p = a -> count_occ string_dec (F p) X = k) -> NoDup (map key L) -> In a (map key L) -> count_occ string_dec (flat_map F L) X = k.
Proof.
  intros H0 H1 Nd I. induction L as [|p L IH]; [destruct I|]. cbn [flat_map map] in *. rewrite count_occ_app. inversion Nd as [|? ? Np Nd']; subst.
  destruct (Nat.eq_dec (key p) a) as [E|E].
  - rewrite (H1 p (or_introl eq_refl) E). replace (count_occ string_dec (flat_map F L) X) with 0; [lia|]. symmetry.
    assert (Z : forall q, In q L -> count_occ string_dec (F q) X = 0).
    { intros q Iq. apply H0; [right; exact Iq|]. intros Q. apply Np. rewrite E, <- Q. apply in_map, Iq. }
    clear -Z. induction L as [|q L IH]; [reflexivity|]. cbn [flat_map]. rewrite count_occ_app, (Z q (or_introl eq_refl)), IH; [reflexivity|]. intros p Ip. apply Z. right. exact Ip.
  - rewrite (H0 p (or_introl eq_refl) E). destruct I as [I|I]; [contradiction|]. apply IH; auto.
    + intros q Iq. apply H0. right. exact Iq.
    + intros q Iq. apply H1. right. exact Iq.
Qed.
Lemma count_map id a b l : ids_ok id -> count_occ string_dec (map (fun x => edge_line (id a) (id x)) l) (edge_line (id a) (id b)) = count_occ Nat.eq_dec l b.
Proof.
  intros [Inj Ch]. induction l as [|x l IH]; [reflexivity|]. cbn [map count_occ]. rewrite IH.
  destruct (string_dec (edge_line (id a) (id x)) (edge_line (id a) (id b))) as [E|E], (Nat.eq_dec x b) as [Q|Q]; try reflexivity; exfalso.
  - apply edge_eq in E as [_ E]; auto.
  - subst. apply E. reflexivity.
Qed.
Definition empty_line : string := ("    emptyNode(((" ++ String (ascii_of_nat 226) (String (ascii_of_nat 136) (String (ascii_of_nat 133) "))):::entrypoint")))%string.
Lemma combine_fst {A B} (R : A -> B -> Prop) l m : Forall2 R l m -> map fst (combine l m) = l.
Proof. induction 1 as [|x y l m _ _ IH]; [reflexivity|]. cbn. f_equal. exact IH. Qed.
Lemma combine_rel {A B} (R : A -> B -> Prop) l m p : Forall2 R l m -> In p (combine l m) -> R (fst p) (snd p).
Proof. intros F. induction F as [|x y l m H _ IH]; [intros []|]. intros [<-|I]; auto. Qed.

(** The lines of a drawing. *)
Record drawn (id : nat -> string) (t : tgraph) (ls : list string) : Prop := {
  (** As many lines for an edge as there are edges. *)
  dr_edge : forall a b, in_graph t a -> count_occ string_dec ls (edge_line (id a) (id b)) = count_occ Nat.eq_dec (nexts (tg_heap t) a) b;
  (** One line for a node. *)
  dr_node : forall a, in_graph t a -> exists lab line, elem_to_string (elem_at (tg_heap t) a) = Some lab /\ all_chars label_char lab = true /\
    node_line t a (id a) lab line /\ count_occ string_dec ls line = 1;
  dr_empty : In empty_line ls <-> In None (tg_entry t);
  (** Nothing else. *)
  dr_all : forall x, In x ls -> In x ["flowchart LR"; "    classDef entrypoint fill:#479abf"; ""; empty_line] \/
    (exists a b, in_graph t a /\ In b (nexts (tg_heap t) a) /\ x = edge_line (id a) (id b)) \/
    (exists a lab, in_graph t a /\ elem_to_string (elem_at (tg_heap t) a) = Some lab /\ node_line t a (id a) lab x) }.
Lemma has_empty_in l : has_empty l = true <-> In None l.
Proof.
  unfold has_empty. rewrite existsb_exists. split; [intros ([x|] & I & E); [discriminate|exact I]|intros I; exists None; auto].
Qed.
Lemma empty_not_edge x y : all_chars id_char x = true -> empty_line <> edge_line x y.
Proof.
  intros P E. apply spaces_inj in E. rewrite arrow in E. change ("emptyNode" ++ String "(" ("((" ++ String (ascii_of_nat 226) (String (ascii_of_nat 136) (String (ascii_of_nat 133) "))):::entrypoint"))) = x ++ String (ascii_of_nat 32) ("--> " ++ y))%string in E.
  apply first_other in E as (_ & E & _); auto; discriminate.
Qed.
Lemma head_not_edge x y : all_chars id_char x = true -> ~ In (edge_line x y) ["flowchart LR"; "    classDef entrypoint fill:#479abf"; ""].
Proof.
  intros P [E|[E|[E|[]]]]; try discriminate. apply spaces_inj in E. rewrite arrow in E.
  change ("classDef" ++ String " " "entrypoint fill:#479abf" = x ++ String (ascii_of_nat 32) ("--> " ++ y))%string in E. apply first_other in E as (_ & _ & E); auto; discriminate.
Qed.
Section Readback.
  Variables (id : nat -> string) (t : tgraph).
  Hypothesis Ok : ids_ok id.
  (** The empty node is written with a fixed name. *)
  Hypothesis Ne : forall a, id a <> "emptyNode".
  Hypothesis Lab : forall a, in_graph t a -> label (tg_heap t) a <> None /\ exists l, elem_to_string (elem_at (tg_heap t) a) = Some l /\ all_chars label_char l = true.
  Lemma node_not_empty a l f : node_line t a (id a) l f -> f <> empty_line.
  Proof.
    intros N E. apply node_shape in N as (d & q & -> & Pd & _). apply spaces_inj in E.
    change (id a ++ String d q = "emptyNode" ++ String "(" ("((" ++ String (ascii_of_nat 226) (String (ascii_of_nat 136) (String (ascii_of_nat 133) "))):::entrypoint"))))%string in E.
    apply first_other in E as (E & _ & _); [exact (Ne a E)|apply Ok|reflexivity|exact Pd|reflexivity].
  Qed.
  Lemma node_not_head a l f : node_line t a (id a) l f -> ~ In f ["flowchart LR"; "    classDef entrypoint fill:#479abf"; ""].
  Proof.
    intros N. apply node_shape in N as (d & q & -> & Pd & D). intros [E|[E|[E|[]]]]; try discriminate. symmetry in E. apply spaces_inj in E.
    change (id a ++ String d q = "classDef" ++ String " " "entrypoint fill:#479abf")%string in E. apply first_other in E as (_ & E & _); [|apply Ok|reflexivity|exact Pd|reflexivity].
    destruct D as [->| ->]; discriminate.
  Qed.
  Lemma drawing_read ord : visits ord -> exists s, to_mermaid id ord t = D_ok s /\ drawn id t (lines s).
  Proof.
    intros Vo. destruct (drawn_lines id t Ok Lab ord Vo) as (s & l & fs & E & Nd & Il & F & Ls). exists s. split; [exact E|].
    set (tail := if has_empty (tg_entry t) then [empty_line; ""] else [""]).
    change (lines s = ["flowchart LR"; "    classDef entrypoint fill:#479abf"; ""] ++ flat_map (fun p => lines_of t id (fst p) (snd p)) (combine l fs) ++ tail) in Ls.
    set (mid := flat_map (fun p => lines_of t id (fst p) (snd p)) (combine l fs)) in *.
    assert (Kf : map fst (combine l fs) = l) by exact (combine_fst _ _ _ F).
    assert (Kr : forall p, In p (combine l fs) -> in_graph t (fst p) /\ exists lab, elem_to_string (elem_at (tg_heap t) (fst p)) = Some lab /\ node_line t (fst p) (id (fst p)) lab (snd p)).
    { intros p I. split; [apply Il; rewrite <- Kf; apply in_map, I|exact (combine_rel _ _ _ _ F I)]. }
    destruct Ok as [Inj Ch].
    assert (Ht : forall x, In x tail -> x = "" \/ x = empty_line /\ In None (tg_entry t)).
    { intros x. unfold tail. destruct (has_empty (tg_entry t)) eqn:He; [apply has_empty_in in He|]; intros H; repeat (destruct H as [<-|H]; [auto|]); destruct H. }
    split.
    - intros a b Ia. rewrite Ls, !count_occ_app. rewrite (count_none _ [_; _; _]) by (apply head_not_edge, Ch).
      rewrite (count_none _ tail).
      2: { intros I. apply Ht in I as [I|[I _]]; [discriminate|symmetry in I; revert I; apply empty_not_edge, Ch]. }
      unfold mid. rewrite (count_flat _ fst _ a (count_occ Nat.eq_dec (nexts (tg_heap t) a) b)); [lia| | |rewrite Kf; exact Nd|rewrite Kf; apply Il, Ia].
      + intros [x f] Ip Nx. destruct (Kr _ Ip) as (_ & lab & _ & N). cbn [fst snd] in *. apply count_none. intros [I|I].
        * revert I. eapply node_not_edge; [exact N|apply Ch|apply Ch].
        * apply in_app_or in I as [I|[I|[]]]; [|discriminate]. apply in_map_iff in I as (y & Q & _). apply edge_eq in Q as [Q _]; auto.
      + intros [x f] Ip Q. destruct (Kr _ Ip) as (_ & lab & _ & N). cbn [fst snd] in *. subst x. unfold lines_of.
        change (f :: ?m ++ [""]) with ([f] ++ m ++ [""]). rewrite !count_occ_app, count_map by (split; assumption).
        rewrite (count_none _ [f]), (count_none _ [""]); [lia|intros [I|[]]; discriminate|].
        intros [I|[]]. revert I. eapply node_not_edge; [exact N|apply Ch|apply Ch].
    - intros a Ia. destruct (Lab a Ia) as (_ & lab & El & Pl). exists lab.
      assert (X : exists f, In (a, f) (combine l fs)).
      { assert (Il' : In a (map fst (combine l fs))) by (rewrite Kf; apply Il, Ia). apply in_map_iff in Il' as ([x f] & <- & I). exists f. exact I. }
      destruct X as (f & If). exists f. destruct (Kr _ If) as (_ & lab' & El' & N). cbn [fst snd] in *. rewrite El in El'. injection El' as <-.
      split; [exact El|]. split; [exact Pl|]. split; [exact N|].
      rewrite Ls, !count_occ_app. rewrite (count_none _ [_; _; _]) by exact (node_not_head a lab f N).
      rewrite (count_none _ tail).
      2: { intros I. apply Ht in I as [->|[-> _]]; [inversion N as [sh cl _ _ Z]; discriminate|exact (node_not_empty a lab _ N eq_refl)]. }
      unfold mid. rewrite (count_flat _ fst _ a 1); [lia| | |rewrite Kf; exact Nd|rewrite Kf; apply Il, Ia].
      + intros [x f'] Ip Nx. destruct (Kr _ Ip) as (_ & lab' & _ & N'). cbn [fst snd] in *. apply count_none. intros [I|I].
        * apply Nx, Inj. eapply node_ids; [exact N'|exact N|apply Ch|apply Ch|exact I].
        * apply in_app_or in I as [I|[I|[]]]; [|subst f; inversion N as [sh cl _ _ Z]; discriminate]. apply in_map_iff in I as (y & Q & _). symmetry in Q. revert Q.
          eapply node_not_edge; [exact N|apply Ch|apply Ch].
      + intros [x f'] Ip Q. destruct (Kr _ Ip) as (_ & lab' & _ & N'). cbn [fst snd] in *. subst x.
        assert (f' = f).
        { clear - Nd If Ip F. assert (Nd' : NoDup (map fst (combine l fs))) by (rewrite (combine_fst _ _ _ F); exact Nd).
          revert Nd' If Ip. generalize (combine l fs). intros L. induction L as [|[u v] L IH]; [intros _ []|]. cbn [map fst]. intros Nd'. inversion Nd' as [|? ? Nu Nd'']; subst.
          intros [A|A] [B|B]; [congruence| | |auto].
          - injection A as -> ->. exfalso. apply Nu. apply (in_map fst) in B. exact B.
          - injection B as -> ->. exfalso. apply Nu. apply (in_map fst) in A. exact A. }
        subst f'. unfold lines_of. change (f :: ?m ++ [""]) with ([f] ++ m ++ [""]). rewrite !count_occ_app. rewrite (count_none _ (map _ _)), (count_none _ [""]).
        * cbn [count_occ]. destruct (string_dec f f); [reflexivity|contradiction].
        * intros [I|[]]. subst f. inversion N as [sh cl _ _ Z]; discriminate.
        * intros I. apply in_map_iff in I as (y & Q & _). symmetry in Q. revert Q. eapply node_not_edge; [exact N|apply Ch|apply Ch].
    - rewrite Ls. split.
      + intros I. apply in_app_or in I as [[I|[I|[I|[]]]]|I]; try discriminate. apply in_app_or in I as [I|I].
        * exfalso. unfold mid in I. apply in_flat_map in I as ([x f] & Ip & I). destruct (Kr _ Ip) as (_ & lab & _ & N). cbn [fst snd] in *. destruct I as [I|I]; [exact (node_not_empty x lab f N I)|].
          apply in_app_or in I as [I|[I|[]]]; [|discriminate]. apply in_map_iff in I as (y & Q & _). symmetry in Q. revert Q. apply empty_not_edge, Ch.
        * apply Ht in I as [I|[_ I]]; [discriminate|exact I].
      + intros I. apply in_or_app. right. apply in_or_app. right. unfold tail. apply has_empty_in in I. rewrite I. left. reflexivity.
    - intros x. rewrite Ls. intros I. apply in_app_or in I as [I|I].
      + left. destruct I as [<-|[<-|[<-|[]]]]; cbn [In]; auto.
      + apply in_app_or in I as [I|I].
        * unfold mid in I. apply in_flat_map in I as ([y f] & Ip & I). destruct (Kr _ Ip) as (Gy & lab & El & N). cbn [fst snd] in *. destruct I as [<-|I].
          -- right. right. exists y, lab. auto.
          -- apply in_app_or in I as [I|[<-|[]]]; [|left; cbn [In]; auto]. apply in_map_iff in I as (b & <- & Ib). right. left. exists y, b. auto.
        * left. apply Ht in I as [->|[-> _]]; cbn [In]; auto.
  Qed.
End Readback.

Lemma uuids_ok id : uuids id -> ids_ok id /\ forall a, id a <> "emptyNode".
Proof.
  intros [Inj Ch]. split; [split; [exact Inj|]|].
  - intros a. eapply weaken; [|apply Ch]. intros c. unfold uuid_char, id_char, is_alpha. rewrite !orb_true_iff, !andb_true_iff, !Z.leb_le. intros [[A|A]|A]; [tauto| |tauto].
    left. left. right. lia.
  - intros a E. specialize (Ch a). rewrite E in Ch. discriminate.
Qed.

(** ** Labels of built graphs *)
Definition labelled (e : elem) : Prop := exists l, elem_to_string e = Some l.
Definition plain_label (e : elem) : Prop := exists l, elem_to_string e = Some l /\ all_chars label_char l = true.
Lemma allows_labelled opts g : wf_grammar g -> allows labelled opts g.
Proof.
  intros W. split; intros; try (eexists; reflexivity).
  - split; [eexists; reflexivity|]. intros _. split; eexists; reflexivity.
  - pose proof (proj1 (wf_occ g W) _ H0) as X. inversion X as [| | | |? ? ? [_ Y]|]; subst. destruct k; [eexists; reflexivity|].
    destruct es as [|lo [|hi es]]; try discriminate. eexists. reflexivity.
Qed.
Lemma value_plain v : all_chars label_char (value_text v) = true.
Proof.
  unfold value_text. destruct (Z.eqb_spec v 96); [reflexivity|]. destruct (Z.eqb_spec v 34); [reflexivity|]. destruct (Z.leb_spec 33 v); [|reflexivity].
  destruct (Z.leb_spec v 127); [|reflexivity]. cbn [andb all_chars]. rewrite andb_true_r. unfold label_char.
  rewrite andb_true_iff, !negb_true_iff. split; apply Ascii.eqb_neq; intros E; apply (f_equal nat_of_ascii) in E; rewrite !nat_ascii_embedding in E by lia; lia.
Qed.
Lemma values_plain vs : all_chars label_char (cat value_text vs) = true.
Proof. induction vs as [|v vs IH]; [reflexivity|]. cbn [cat fold_right]. rewrite all_chars_app, value_plain. exact IH. Qed.
Lemma alnum_plain s : all_chars (fun c => is_alpha c || is_dig c)%bool s = true -> all_chars label_char s = true.
Proof.
  apply weaken. intros c. unfold label_char. destruct (Ascii.eqb_spec c (ascii_of_nat 10)) as [->|N]; [discriminate|]. destruct (Ascii.eqb_spec c (ascii_of_nat 34)) as [->|N']; [discriminate|reflexivity].
Qed.
Lemma name_plain n : lex_name n = true -> all_chars label_char n = true.
Proof.
  destruct n as [|c n]; [discriminate|]. cbn [lex_name]. rewrite andb_true_iff. intros [A B].
  assert (X : all_chars name_char (String c n) = true) by (cbn [all_chars]; rewrite B; unfold name_char; rewrite A; reflexivity).
  revert X. apply weaken. intros d. unfold label_char. destruct (Ascii.eqb_spec d (ascii_of_nat 10)) as [->|N]; [discriminate|]. destruct (Ascii.eqb_spec d (ascii_of_nat 34)) as [->|N']; [discriminate|reflexivity].
Qed.
Lemma digit_plain d : (0 <= d < 16)%Z -> label_char (digit_char d) = true.
Proof.
  intros D. unfold digit_char. assert (X : (48 <= (if d <? 10 then 48 + d else 55 + d) < 80)%Z) by (destruct (Z.ltb_spec d 10); lia).
  set (k := (if d <? 10 then 48 + d else 55 + d)%Z) in *. unfold label_char. rewrite andb_true_iff, !negb_true_iff.
  split; apply Ascii.eqb_neq; intros E; apply (f_equal N_of_ascii) in E; rewrite N_ascii_embedding in E by lia; [set (z := N_of_ascii (ascii_of_nat 10)) in E; change z with 10%N in E|set (z := N_of_ascii (ascii_of_nat 34)) in E; change z with 34%N in E]; lia.
Qed.
Lemma format_plain f r : (0 < r <= 16)%Z -> forall v acc, (0 <= v)%Z -> all_chars label_char acc = true -> all_chars label_char (format_loop f r v acc) = true.
Proof.
  intros R. induction f as [|f IH]; intros v acc V A; [exact A|]. cbn [format_loop]. cbn zeta.
  assert (X : all_chars label_char (String (digit_char (v mod r)) acc) = true).
  { cbn [all_chars]. rewrite A, digit_plain; [reflexivity|]. pose proof (Z.mod_pos_bound v r). lia. }
  destruct (v <? r)%Z; [exact X|]. apply IH; [apply Z.div_pos; lia|exact X].
Qed.
Lemma base_ok b : (String.eqb b "b" || String.eqb b "d" || String.eqb b "x")%bool = true -> (0 < base_radix b <= 16)%Z /\ all_chars label_char b = true.
Proof. rewrite !orb_true_iff, !String.eqb_eq. intros [[->| ->]| ->]; split; try reflexivity; split; vm_compute; congruence. Qed.
Lemma numval_plain v b : (0 < base_radix b <= 16)%Z -> all_chars label_char (int32_to_numval v b) = true.
Proof.
  intros R. unfold int32_to_numval. destruct (Z.ltb_spec v 0); [|apply format_plain; auto; lia]. cbn [all_chars]. apply format_plain; auto; lia.
Qed.
Lemma concat_plain l : Forall (fun s => all_chars label_char s = true) l -> all_chars label_char (String.concat "." l) = true.
Proof.
  induction 1 as [|s l P F IH]; [reflexivity|]. destruct l as [|s' l]; [exact P|]. change (String.concat "." (s :: s' :: l)) with (s ++ "." ++ String.concat "." (s' :: l))%string.
  rewrite !all_chars_app, P, IH. reflexivity.
Qed.
Lemma allows_plain opts g : wf_grammar g -> lex_grammar g = true -> allows plain_label opts g.
Proof.
  intros W L. destruct (lex_occ g L) as [Le _].
  assert (Nm : forall b k es, occ_elem g (ENum b k es) -> (0 < base_radix b <= 16)%Z /\ all_chars label_char b = true /\ Forall (fun s => all_chars label_char s = true) es).
  { intros b k es O. apply Le in O. cbn [lex_elem] in O. unfold lex_num in O. rewrite !andb_true_iff in O. destruct O as [[A B] _]. destruct (base_ok b A) as [R P].
    split; [exact R|]. split; [exact P|]. rewrite forallb_forall in B. apply Forall_forall. intros s I. apply B in I. apply andb_true_iff in I as [_ I]. apply alnum_plain, I. }
  split; intros.
  - exists n. split; [reflexivity|]. apply name_plain. exact (Le _ H0).
  - eexists. split; [reflexivity|]. apply values_plain.
  - split; [eexists; split; [reflexivity|apply values_plain]|]. intros _. split; eexists; (split; [reflexivity|apply values_plain]).
  - destruct (Nm _ _ _ H0) as (_ & Pb & Pe). destruct k.
    + eexists. split; [reflexivity|]. rewrite !all_chars_app, Pb, concat_plain by exact Pe. reflexivity.
    + pose proof (proj1 (wf_occ g W) _ H0) as X. inversion X as [| | | |? ? ? [_ Y]|]; subst. destruct es as [|lo [|hi es]]; try discriminate.
      inversion Pe as [|? ? P1 P2]; subst. inversion P2 as [|? ? P3 _]; subst. eexists. split; [reflexivity|]. rewrite !all_chars_app, Pb, P1, P3. reflexivity.
  - destruct (Nm _ _ _ H) as (_ & Pb & Pe). rewrite Forall_forall in Pe. eexists. split; [reflexivity|]. cbn [String.concat]. rewrite !all_chars_app, Pb, (Pe s H0). reflexivity.
  - destruct (Nm _ _ _ H) as (Rb & Pb & _). eexists. split; [reflexivity|]. cbn [String.concat]. rewrite !all_chars_app, Pb, (numval_plain _ _ Rb). reflexivity.
Qed.
Lemma built_label P opts g (Al : allows P opts g) fuel g1 g2 order n t c : transition_graph fuel opts g g1 g2 order n = TG_ok t c ->
  forall a, in_graph t a -> label (tg_heap t) a <> None /\ P (elem_at (tg_heap t) a).
Proof.
  intros E a Ia. destruct (built_sane P opts g Al _ _ _ _ _ _ _ E) as ([La Nx] & We & _).
  assert (Lt : a < length (tg_heap t)).
  { destruct Ia as (p & x & Ix & Lk & <-). apply We in Ix. clear We La. revert x Ix Lk. induction p as [|y p IH]; intros x Ix Lk; [exact Ix|].
    destruct Lk as [L1 L2]. change (last (x :: y :: p) x) with (last (y :: p) x). rewrite (last_change (y :: p) x y) by discriminate. apply IH; [exact (Nx x y L1)|exact L2]. }
  apply nth_error_Some in Lt. unfold label, elem_at in *. destruct (nth_error (tg_heap t) a) as [nd|] eqn:En; [|contradiction]. split; [discriminate|]. apply (La a). unfold label. rewrite En. reflexivity.
Qed.

(** ** C69 *)
(** ToMermaid returns, on every graph TransitionGraph returns. *)
Theorem C69_mermaid_total : forall fuel opts g g1 g2 order n t c, wf_grammar g -> transition_graph fuel opts g g1 g2 order n = TG_ok t c ->
  forall id ord, visits ord -> exists s, to_mermaid id ord t = D_ok s.
Proof.
  intros fuel opts g g1 g2 order n t c W E id ord Vo. unfold to_mermaid. destruct (mapped_nodes t) as (mp & -> & _ & Im).
  assert (X : forall l, (forall a, In a l -> in_graph t a) -> exists x, nodes_text id t l = Some x).
  { induction l as [|a l IH]; intros H; [eexists; reflexivity|]. cbn [nodes_text]. destruct (built_label labelled opts g (allows_labelled opts g W) _ _ _ _ _ _ _ E a (H a (or_introl eq_refl))) as [La [lab Lb]].
    destruct IH as (y & Ey); [intros b I; apply H; right; exact I|]. rewrite Ey. unfold node_text. unfold label, elem_at in *. destruct (nth_error (tg_heap t) a); [|contradiction]. rewrite Lb. eexists. reflexivity. }
  destruct (X (ord mp)) as (x & ->); [intros a I; apply Im, (Permutation_in _ (Vo mp)), I|]. eexists. reflexivity.
Qed.
(** The drawing of a grammar that can be written shows every node and every edge of the
    graph, the entry points and the end points, and nothing else. *)
Theorem C69_mermaid_exact : forall fuel opts g g1 g2 order n t c, wf_grammar g -> lex_grammar g = true -> transition_graph fuel opts g g1 g2 order n = TG_ok t c ->
  forall id ord, uuids id -> visits ord -> exists s, to_mermaid id ord t = D_ok s /\ drawn id t (lines s).
Proof.
  intros fuel opts g g1 g2 order n t c W L E id ord U Vo. destruct (uuids_ok id U) as [Ok Ne].
  exact (drawing_read id t Ok Ne (built_label plain_label opts g (allows_plain opts g W L) _ _ _ _ _ _ _ E) ord Vo).
Qed.

(** ** The fuzz targets (transition_graph_fuzz.go:28-43, 63-81) *)
(** for tgr.Next() { tgr.Scan() } (transition_graph_fuzz.go:78-80), and what the calls of
    Scan return; [None]: more rounds than [rounds]. *)
Fixpoint drain (rounds fuel : nat) (r : reader) : option (rd_result (list (option (list Z)))) :=
  match rounds with
  | O => None
  | S k =>
      match reader_next fuel r with
      | Rd_ok (false, _) => Some (Rd_ok [])
      | Rd_ok (true, r1) =>
          match reader_scan fuel r1 with
          | Rd_ok (o, r2) => match drain k fuel r2 with
                             | Some (Rd_ok l) => Some (Rd_ok (o :: l))
                             | x => x
                             end
          | Rd_panic => Some Rd_panic | Rd_fuel => Some Rd_fuel
          end
      | Rd_panic => Some Rd_panic | Rd_fuel => Some Rd_fuel
      end
  end.
Lemma drain_list fuel l : forall r rounds, (forall cs, calls fuel r cs = Rd_ok (on_list l cs)) -> length l < rounds -> drain rounds fuel r = Some (Rd_ok (map Some l)).
Proof.
  induction l as [|w l IH]; intros r [|k] H L; cbn [length] in L; try lia; cbn [drain].
  - pose proof (H [Next]) as N. cbn [calls on_list] in N. destruct (reader_next fuel r) as [[b r1]| |]; [|discriminate|discriminate]. injection N as ->. reflexivity.
  - pose proof (H [Next]) as N. cbn [calls on_list] in N. destruct (reader_next fuel r) as [[b r1]| |] eqn:En; [|discriminate|discriminate]. injection N as ->.
    assert (H1 : forall cs, calls fuel r1 cs = Rd_ok (on_list (w :: l) cs)).
    { intros cs. pose proof (H (Next :: cs)) as X. cbn [calls on_list] in X. rewrite En in X. destruct (calls fuel r1 cs) as [x| |]; [|discriminate|discriminate]. injection X as ->. reflexivity. }
    pose proof (H1 [Scan]) as N1. cbn [calls on_list] in N1. destruct (reader_scan fuel r1) as [[o r2]| |] eqn:Es; [|discriminate|discriminate]. injection N1 as ->.
    rewrite (IH r2 k); [reflexivity| |lia]. intros cs. pose proof (H1 (Scan :: cs)) as X. cbn [calls on_list] in X. rewrite Es in X. destruct (calls fuel r2 cs) as [x| |]; [|discriminate|discriminate]. injection X as ->. reflexivity.
Qed.
(** Whatever the text and the rule name, and for all the options of TransitionGraph: a text
    that parses gives a graph or an error, the graph is drawn, and its reader is drained. *)
Theorem C69_fuzz_targets : forall ord w, any_order ord ->
  exists enough, forall fuel ordE sh st, enough <= fuel -> any_order ordE -> any_shuffle sh ->
    parse_abnf ord ordE sh fuel false false core_rules w = PA_ok st ->
    forall gfuel opts g1 g2 order n, Permutation g1 (rules_of st) -> Permutation g2 (rules_of st) ->
    key_order (dependency_graph (rules_of st)) order -> length (names (rules_of st)) < gfuel ->
    match transition_graph gfuel opts (rules_of st) g1 g2 order n with
    | TG_ok t _ =>
        (forall id iord, uuids id -> visits iord -> exists s, to_mermaid id iord t = D_ok s /\ drawn id t (lines s)) /\
        (forall rord, any_order rord -> exists p outs f0, prepare rord t = Some p /\
          forall rfuel rounds, f0 <= rfuel -> length outs < rounds -> drain rounds rfuel (new_reader p) = Some (Rd_ok (map Some outs)))
    | TG_err _ => True
    | TG_panic | TG_fuel => False
    end.
Proof.
  intros ord w O. destruct (C67_read_well_formed ord w O) as [en H]. exists en. intros fuel ordE sh st F Oe Sh E gfuel opts g1 g2 order n P1 P2 Ko Gf.
  destruct (H fuel ordE sh false st F Oe Sh E) as (W & L & _).
  pose proof (C31_graph_outcome gfuel opts _ g1 g2 order n W L Ko P1 P2 Gf) as K.
  destruct (transition_graph gfuel opts (rules_of st) g1 g2 order n) as [t c|e| |] eqn:Et; [|exact Logic.I|exact K|exact K]. split.
  - intros id iord U Vo. eapply C69_mermaid_exact; eassumption.
  - intros rord Or. destruct (C34_reader_built rord _ _ _ _ _ _ _ _ _ Or W Et) as (p & Ep & outs & (f0 & Sv) & _). exists p, outs, f0. split; [exact Ep|].
    intros rfuel rounds Fr Ro. apply drain_list; [|exact Ro]. intros cs. apply Sv, Fr.
Qed.

(** ** Labels do not tell elements apart *)
(** Characters up to the space are dropped, quotes and backquotes are spelled out, case
    sensitivity is not shown, and a rule name looks like a string. *)
Theorem C69_labels_refuted : exists g n t c a b la lb, wf_grammar g /\ lex_grammar g = true /\
  transition_graph 30 (mkOpts false false false 256 0) g g g (keys g) n = TG_ok t c /\ in_graph t a /\ in_graph t b /\
  elem_to_string (elem_at (tg_heap t) a) = Some la /\ elem_to_string (elem_at (tg_heap t) b) = Some lb /\ la = lb /\
  (exists w, in_elem g (elem_at (tg_heap t) a) w /\ ~ in_elem g (elem_at (tg_heap t) b) w).
Proof.
  set (g := [mkRule "a" [[Rep 1 1 (EChar false [120; 32]%Z)]; [Rep 1 1 (EChar false [120]%Z)]]]).
  exists g, "a". eexists _, _. exists 0, 1, "x", "x".
  split; [apply wf_grammarb_spec; vm_compute; reflexivity|]. split; [vm_compute; reflexivity|]. split; [vm_compute; reflexivity|].
  split; [exists [], 0; split; [left; reflexivity|split; [exact Logic.I|reflexivity]]|]. split; [exists [], 1; split; [right; left; reflexivity|split; [exact Logic.I|reflexivity]]|].
  split; [reflexivity|]. split; [reflexivity|]. split; [reflexivity|]. exists [120; 32]%Z. split.
  - change (in_elem g (EChar false [120; 32]%Z) [120; 32]%Z). apply (in_char g false [120; 32]%Z [120; 32]%Z); repeat constructor; unfold scalar; lia.
  - change (~ in_elem g (EChar false [120]%Z) [120; 32]%Z). intros H.
    assert (X : exists rs, Forall2 (char_ok false) [120%Z] rs /\ utf8s rs = [120; 32]%Z) by (inversion H; subst; eauto).
    destruct X as (rs & F & E). inversion F as [|? r ? rs' F1 F2]; subst. inversion F2; subst.
    assert (X : r = 120%Z \/ r = 88%Z).
    { revert F1. unfold char_ok, fold_case. cbn [andb Z.leb]. destruct (Z.leb_spec 65 r), (Z.leb_spec r 90); cbn; lia. }
    destruct X as [->| ->]; discriminate.
Qed.

(** ** Depgraph.Mermaid *)
Definition dep_line (a b : string) : string := String (ascii_of_nat 9) (a ++ " --> " ++ b)%string.
Lemma dep_eq x y x' y' : all_chars id_char x = true -> all_chars id_char x' = true -> dep_line x y = dep_line x' y' -> x = x' /\ y = y'.
Proof.
  intros A B E. apply (edge_eq x y x' y' A B). unfold edge_line, dep_line in *. injection E as E. cbn [append]. do 4 f_equal. exact E.
Qed.
Lemma dep_lines ns : (forall n, In n ns -> one_line (dn_name n) = true /\ forall d, In d (dn_deps n) -> one_line d = true) ->
  lines (depgraph_mermaid ns) = "flowchart TD" :: flat_map (fun n => map (dep_line (dn_name n)) (dn_deps n) ++ [""]) ns ++ [""].
Proof.
  intros H. unfold depgraph_mermaid. rewrite lines_line by reflexivity. f_equal. induction ns as [|n ns IH]; [reflexivity|].
  cbn [cat fold_right flat_map]. destruct (H n (or_introl eq_refl)) as [Hn Hd].
  rewrite (cat_ext _ (fun d => dep_line (dn_name n) d ++ newline)%string) by (intros d; unfold dep_line; cbn [append]; rewrite !sapp_assoc; reflexivity).
  rewrite !sapp_assoc, lines_cat.
  - rewrite <- !app_assoc. f_equal. change (newline ++ ?z)%string with ("" ++ newline ++ z)%string. rewrite (lines_line ""), <- IH by (try reflexivity; intros m I; apply H; right; exact I). reflexivity.
  - intros d I. unfold dep_line. cbn [all_chars]. rewrite !all_chars_app, Hn, (Hd d I). reflexivity.
Qed.

Lemma dg_set_nodes k n m : (forall p, In p m -> fst p = lower (dn_name (snd p))) -> k = lower (dn_name n) -> forall p, In p (dg_set k n m) -> fst p = lower (dn_name (snd p)).
Proof.
  intros H E. induction m as [|[k' n'] m IH]; cbn [dg_set].
  - intros p [<-|[]]. exact E.
  - destruct (String.eqb k k').
    + intros p [<-|I]; [exact E|apply H; right; exact I].
    + intros p [<-|I]; [apply (H (k', n') (or_introl eq_refl))|]. apply IH; [intros q Iq; apply H; right; exact Iq|exact I].
Qed.
Lemma dg_set_keys k n m : NoDup (map fst m) -> NoDup (map fst (dg_set k n m)) /\ forall x, In x (map fst (dg_set k n m)) -> x = k \/ In x (map fst m).
Proof.
  induction m as [|[k' n'] m IH]; cbn [dg_set map fst]; intros Nd.
  - split; [repeat constructor; intros []|]. intros x [<-|[]]. auto.
  - inversion Nd as [|? ? N1 N2]; subst. destruct (String.eqb_spec k k') as [->|Ne].
    + split; [exact Nd|]. intros x [<-|I]; auto. right. right. exact I.
    + destruct (IH N2) as [A B]. cbn [map fst]. split.
      * constructor; [|exact A]. intros I. apply B in I as [I|I]; [congruence|contradiction].
      * intros x [<-|I]; [right; left; reflexivity|]. apply B in I as [I|I]; [auto|right; right; exact I].
Qed.
Lemma dg_shape g : NoDup (map fst (dependency_graph g)) /\ forall p, In p (dependency_graph g) -> fst p = lower (dn_name (snd p)).
Proof.
  unfold dependency_graph. assert (X : forall rs m, NoDup (map fst m) /\ (forall p, In p m -> fst p = lower (dn_name (snd p))) ->
    let m' := fold_left (fun m r => dg_set (lower (rule_name r)) (mkDN (rule_name r) (get_dependencies (rule_alt r))) m) rs m in
    NoDup (map fst m') /\ forall p, In p m' -> fst p = lower (dn_name (snd p))).
  { induction rs as [|r rs IH]; intros m H; [exact H|]. cbn [fold_left]. apply IH. destruct H as [A B]. split; [apply dg_set_keys, A|]. apply dg_set_nodes; [exact B|reflexivity]. }
  apply X. split; [constructor|intros p []].
Qed.
Lemma dg_get_member k n m : NoDup (map fst m) -> In (k, n) m <-> dg_get k m = Some n.
Proof.
  induction m as [|[k' n'] m IH]; cbn [dg_get map fst]; intros Nd; [split; [intros []|discriminate]|]. inversion Nd as [|? ? N1 N2]; subst. destruct (String.eqb_spec k k') as [->|Ne].
  - split; [|intros E; injection E as ->; left; reflexivity]. intros [E|I]; [injection E as ->; reflexivity|]. exfalso. apply N1. apply (in_map fst) in I. exact I.
  - rewrite <- (IH N2). split; [intros [E|I]; [congruence|exact I]|intros I; right; exact I].
Qed.
Lemma dep_node g n : distinct_names g -> In n (map snd (dependency_graph g)) <-> exists r, get_rule (rule_name r) g = Some r /\ n = mkDN (rule_name r) (get_dependencies (rule_alt r)).
Proof.
  intros D. destruct (dg_shape g) as [Nd Sh]. rewrite in_map_iff. split.
  - intros ([k m] & E & I). cbn [snd] in E. subst m. pose proof (Sh _ I) as K. cbn [fst snd] in K. subst k. apply dg_get_member in I; [|exact Nd].
    rewrite C22_dependency_graph_exact in I by exact D. destruct (get_rule (dn_name n) g) as [r|] eqn:G; [|discriminate]. injection I as <-. exists r. split; [|reflexivity]. exact G.
  - intros (r & G & ->). exists (lower (rule_name r), mkDN (rule_name r) (get_dependencies (rule_alt r))). split; [reflexivity|]. apply dg_get_member; [exact Nd|].
    rewrite C22_dependency_graph_exact by exact D. rewrite G. reflexivity.
Qed.
Lemma name_one n : lex_name n = true -> one_line n = true.
Proof. intros L. apply label_one, name_plain, L. Qed.
Lemma name_id n : lex_name n = true -> all_chars id_char n = true.
Proof.
  destruct n as [|c n]; [discriminate|]. cbn [lex_name all_chars]. rewrite !andb_true_iff. intros [A B]. split; [unfold id_char; rewrite A; reflexivity|exact B].
Qed.
Lemma lower_one s : one_line s = true -> one_line (lower s) = true.
Proof.
  induction s as [|c s IH]; [reflexivity|]. cbn [lower all_chars]. rewrite !andb_true_iff. intros [A B]. split; [|apply IH, B].
  unfold lower_ascii. cbn zeta. destruct (N.leb_spec 65 (N_of_ascii c)); [|exact A]. destruct (N.leb_spec (N_of_ascii c) 90); [|exact A]. cbn [andb].
  unfold no_nl. apply negb_true_iff, Ascii.eqb_neq. intros E. apply (f_equal N_of_ascii) in E. rewrite N_ascii_embedding in E by lia. set (z := N_of_ascii (ascii_of_nat 10)) in E. change z with 10%N in E. lia.
Qed.
Lemma lower_id s : all_chars id_char s = true -> all_chars id_char (lower s) = true.
Proof.
  induction s as [|c s IH]; [reflexivity|]. cbn [lower all_chars]. rewrite !andb_true_iff. intros [A B]. split; [|apply IH, B].
  unfold lower_ascii. cbn zeta. destruct (N.leb_spec 65 (N_of_ascii c)); [|exact A]. destruct (N.leb_spec (N_of_ascii c) 90); [|exact A]. cbn [andb].
  unfold id_char, is_alpha, cval. rewrite N_ascii_embedding by lia. apply orb_true_iff. left. apply orb_true_iff. left. apply orb_true_iff. right. apply andb_true_iff. split; apply Z.leb_le; lia.
Qed.
Lemma get_rule_member n g r : get_rule n g = Some r -> In r (g ++ core_rules) /\ lower n = lower (rule_name r).
Proof.
  unfold get_rule, get_rule_core, get_rule_in. destruct (find (fun r => equal_fold n (rule_name r)) g) as [x|] eqn:F; intros E.
  - injection E as ->. apply find_some in F as [I Q]. split; [apply in_or_app; auto|apply String.eqb_eq, Q].
  - apply find_some in E as [I Q]. split; [apply in_or_app; auto|apply String.eqb_eq, Q].
Qed.
Lemma rule_lex g r : lex_grammar g = true -> In r (g ++ core_rules) -> lex_name (rule_name r) = true.
Proof.
  intros L I. pose proof core_lex as C. unfold lex_grammar in *. rewrite forallb_forall in L, C. apply in_app_or in I as [I|I]; [apply L in I|apply C in I]; apply andb_true_iff in I; apply I.
Qed.
Lemma refers_occ g r k : In r (g ++ core_rules) -> refers (rule_alt r) k -> occ_elem g (ERule k).
Proof.
  intros I (mn & mx & R). apply (occ_elem_rep g mn mx). apply Occ.occ_rep_in. exists r. auto.
Qed.
(** A line joins a rule, by the name it is defined with, to the lower-cased name of a rule
    it refers to. *)
Theorem C69_depgraph_exact : forall g ns, distinct_names g -> lex_grammar g = true -> Permutation ns (map snd (dependency_graph g)) ->
  forall x y, all_chars id_char x = true ->
    In (dep_line x y) (lines (depgraph_mermaid ns)) <->
    exists r k, get_rule x g = Some r /\ rule_name r = x /\ refers (rule_alt r) k /\ y = lower k.
Proof.
  intros g ns D L P x y Px. rewrite dep_lines.
  2: { intros n I. apply (Permutation_in _ P), (dep_node g n D) in I as (r & G & ->). cbn [dn_name dn_deps]. apply get_rule_member in G as [G _].
       split; [apply name_one, (rule_lex g r L G)|]. intros d Id. apply get_dependencies_spec in Id as (k & R & ->). apply lower_one, name_one.
       exact (proj1 (lex_occ g L) _ (refers_occ g r k G R)). }
  split.
  - intros [E|I]; [discriminate|]. apply in_app_or in I as [I|[I|[]]]; [|discriminate]. apply in_flat_map in I as (n & In1 & I).
    apply (Permutation_in _ P), (dep_node g n D) in In1 as (r & G & ->). cbn [dn_name dn_deps] in I. apply in_app_or in I as [I|[I|[]]]; [|discriminate].
    apply in_map_iff in I as (d & E & Id). pose proof (get_rule_member _ _ _ G) as [Gi _].
    apply dep_eq in E as [E1 ->]; [|apply name_id, (rule_lex g r L Gi)|exact Px].
    apply get_dependencies_spec in Id as (k & R & ->). exists r, k. rewrite <- E1. auto.
  - intros (r & k & G & E & R & ->). subst x. right. apply in_or_app. left. apply in_flat_map. exists (mkDN (rule_name r) (get_dependencies (rule_alt r))). split.
    + apply (Permutation_in _ (Permutation_sym P)), (dep_node g _ D). exists r. auto.
    + cbn [dn_name dn_deps]. apply in_or_app. left. apply in_map. apply get_dependencies_spec. exists k. auto.
Qed.
(** The two ends of a line are not written in the same case: LWSP refers to WSP and WSP to
    SP, but no path of two lines is drawn. *)
Theorem C69_depgraph_refuted : exists g a b c, wf_grammar g /\ gref g a b /\ gref g b c /\
  forall ns, Permutation ns (map snd (dependency_graph g)) ->
    ~ exists x m z, all_chars id_char x = true /\ In (dep_line x m) (lines (depgraph_mermaid ns)) /\ In (dep_line m z) (lines (depgraph_mermaid ns)).
Proof.
  assert (W : wf_grammar []) by (split; constructor).
  assert (G : forall n r k, get_rule n [] = Some r -> refers (rule_alt r) k -> gref [] n k).
  { intros n r k E R. exists (rule_alt r), k. split; [apply (proj1 (get_rule_resolves [] n (proj1 W))), E|]. split; [exact R|reflexivity]. }
  exists [], "LWSP", "WSP", "SP". split; [exact W|]. split; [|split].
  - apply (G "LWSP" r_lwsp); [reflexivity|]. exists 1%Z, 1%Z. eapply rep_in_group; [left; reflexivity|left; reflexivity|]. eapply rep_in_here; [left; reflexivity|left; reflexivity].
  - apply (G "WSP" r_wsp); [reflexivity|]. exists 1%Z, 1%Z. eapply rep_in_here; [left; reflexivity|left; reflexivity].
  - intros ns P (x & m & z & Px & A & B). apply (C69_depgraph_exact [] ns (proj1 W) eq_refl P) in A as (r & k & Gr & _ & R & ->); [|exact Px].
    pose proof (get_rule_member _ _ _ Gr) as [Ir _].
    apply (C69_depgraph_exact [] ns (proj1 W) eq_refl P) in B as (r' & k' & Gr' & E' & _ & _).
    + apply get_rule_member in Gr' as [Ir' _]. cbn [app] in Ir'.
      assert (X : forallb (fun r => negb (String.eqb (rule_name r) (lower (rule_name r)))) core_rules = true) by (vm_compute; reflexivity).
      rewrite forallb_forall in X. specialize (X r' Ir'). rewrite E', lower_lower, String.eqb_refl in X. discriminate.
    + apply lower_id, name_id. exact (proj1 (lex_occ [] eq_refl) _ (refers_occ [] r k Ir R)).
Qed.

(** ** Cases *)
Fixpoint dashes (n : nat) : string := match n with O => "0" | S k => String "-" (dashes k) end.
Lemma dashes_uuids : uuids dashes.
Proof.
  split.
  - induction a as [|a IH]; intros [|b] E; try discriminate; [reflexivity|]. injection E as E. f_equal. apply IH, E.
  - induction a as [|a IH]; [reflexivity|]. exact IH.
Qed.
Definition quote : string := String (ascii_of_nat 34) "".
(** a = *("x" / %x30-39) / %s"`!" *)
Definition g69 : grammar := [mkRule "a" [[Rep 0 inf (EGroup [[Rep 1 1 (EChar false [120]%Z)]; [Rep 1 1 (ENum "x" StatRange ["30"; "39"])]])]; [Rep 1 1 (EChar true [96; 33]%Z)]]].
Definition o69 : tgoptions := mkOpts true false false 3 0.
Definition t69 : tgraph := match transition_graph 30 o69 g69 g69 g69 (keys g69) "A" with TG_ok t _ => t | _ => mkTG [] [] [] end.
Example C69_case : wf_grammar g69 /\ lex_grammar g69 = true /\ transition_graph 30 o69 g69 g69 g69 (keys g69) "A" = TG_ok t69 0 /\ uuids dashes /\ visits (fun l => l) /\
  exists s, to_mermaid dashes (fun l => l) t69 = D_ok s /\ lines s =
    ["flowchart LR"; "    classDef entrypoint fill:#479abf"; ""] ++
    [("    0(((" ++ quote ++ "x" ++ quote ++ "))):::entrypoint")%string; edge_line "0" "0"; edge_line "0" "-0"; ""] ++
    [("    -0(((" ++ quote ++ "0x30-39" ++ quote ++ "))):::entrypoint")%string; edge_line "-0" "0"; edge_line "-0" "-0"; ""] ++
    [("    --0(((" ++ quote ++ "backquote!" ++ quote ++ "))):::entrypoint")%string; ""] ++
    [empty_line; ""].
Proof.
  split; [apply wf_grammarb_spec; vm_compute; reflexivity|]. split; [reflexivity|]. split; [vm_compute; reflexivity|]. split; [exact dashes_uuids|]. split; [intros l; apply Permutation_refl|].
  eexists. split; [vm_compute; reflexivity|]. vm_compute. reflexivity.
Qed.
(** a=["x"] *)
Definition text69 : list Z := bytes ("a=[" ++ quote ++ "x" ++ quote ++ "]" ++ String (ascii_of_nat 13) newline).
Example C69_fuzz_case : exists st t p, parse_abnf (fun _ l => l) (fun _ l => l) (fun _ l => l) 600 false false core_rules text69 = PA_ok st /\
  transition_graph 30 o69 (rules_of st) (rules_of st) (rules_of st) (keys (rules_of st)) "a" = TG_ok t 0 /\ prepare (fun _ l => l) t = Some p /\
  drain 9 40 (new_reader p) = Some (Rd_ok [Some [120]%Z; Some [88]%Z; Some []]).
Proof.
  eexists _, _, _. split; [vm_compute; reflexivity|]. split; [vm_compute; reflexivity|]. split; [vm_compute; reflexivity|]. vm_compute. reflexivity.
Qed.
Example C69_depgraph_case : let g := [mkRule "Aa" [[Rep 1 1 (ERule "BB"); Rep 1 1 (ERule "DIGIT")]]; mkRule "bb" [[Rep 1 1 (ERule "AA")]]] in
  distinct_names g /\ lex_grammar g = true /\
  In (dep_line "Aa" "bb") (lines (depgraph_mermaid (map snd (dependency_graph g)))) /\ In (dep_line "Aa" "digit") (lines (depgraph_mermaid (map snd (dependency_graph g)))) /\
  In (dep_line "bb" "aa") (lines (depgraph_mermaid (map snd (dependency_graph g)))).
Proof.
  intros g. split; [apply wf_distinct; vm_compute; reflexivity|]. split; [reflexivity|].
  split; [|split]; vm_compute; repeat (first [left; reflexivity|right]).
Qed.

Print Assumptions C69_mermaid_total.
Print Assumptions C69_mermaid_exact.
Print Assumptions C69_fuzz_targets.
Print Assumptions C69_labels_refuted.
Print Assumptions C69_depgraph_exact.
Print Assumptions C69_depgraph_refuted.
