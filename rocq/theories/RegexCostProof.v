(** The nodes as pointers stand for the nodes as values, and what they cost.
    Its definitions are means of proof and model no code. *)
From Coq Require Import ZArith Arith String Ascii Bool Relations List Lia.
From Verif Require Import Syntax Spec Utf8 Num Tape Deps Dag Cycle PropDag Regex RegexBuild RegexRead LowerSize RegexCost.
Import ListNotations.
Local Open Scope string_scope.
Local Open Scope list_scope.
Local Open Scope nat_scope.

(** ** The tree a pointer stands for *)
Definition at_ (ts : list re) (p : nat) : re := nth p ts REmpty.
Definition tree_of (ts : list re) (n : hnode) : re :=
  match n with
  | HClass rs => RClass rs
  | HConcat ps => RConcat (map (at_ ts) ps)
  | HAlt os => RAlt (map (at_ ts) os)
  | HRepeat p mn mx => RRepeat (at_ ts p) mn mx
  | HEmpty => REmpty
  | HNever => RNever
  end.
Definition trees (h : list hnode) : list re := fold_left (fun ts n => ts ++ [tree_of ts n]) h [].
Definition tree (h : list hnode) (p : nat) : re := at_ (trees h) p.
Definition kids (n : hnode) : list nat :=
  match n with HConcat ps => ps | HAlt os => os | HRepeat p _ _ => [p] | _ => [] end.

Lemma trees_snoc h n : trees (h ++ [n]) = trees h ++ [tree_of (trees h) n].
Proof. unfold trees. rewrite fold_left_app. reflexivity. Qed.
Lemma trees_len h : length (trees h) = length h.
Proof. induction h as [|n h IH] using rev_ind; [reflexivity|]. rewrite trees_snoc, !app_length, IH. reflexivity. Qed.
Lemma tree_ext h l p : p < length h -> tree (h ++ l) p = tree h p.
Proof.
  intros H. unfold tree, at_. revert l. induction l as [|n l IH] using rev_ind; [rewrite app_nil_r; reflexivity|].
  rewrite app_assoc, trees_snoc, app_nth1; [exact IH|]. rewrite trees_len, app_length. lia.
Qed.
Lemma tree_new h n : tree (h ++ [n]) (length h) = tree_of (trees h) n.
Proof. unfold tree, at_. rewrite trees_snoc, app_nth2 by (rewrite trees_len; lia). rewrite trees_len, Nat.sub_diag. reflexivity. Qed.
Definition wfh (h : list hnode) : Prop := forall p n, nth_error h p = Some n -> Forall (fun c => c < p) (kids n).
Lemma wfh_snoc h n : wfh h -> Forall (fun c => c < length h) (kids n) -> wfh (h ++ [n]).
Proof.
  intros W K p m E. destruct (Nat.lt_ge_cases p (length h)) as [L|L].
  - rewrite nth_error_app1 in E by lia. eapply W, E.
  - rewrite nth_error_app2 in E by lia. destruct (p - length h) as [|d] eqn:D; [|destruct d; discriminate].
    injection E as <-. replace p with (length h) by lia. exact K.
Qed.
Lemma tree_nth h p : wfh h -> p < length h -> tree h p = match nth p h HEmpty with
  | HClass rs => RClass rs
  | HConcat ps => RConcat (map (tree h) ps)
  | HAlt os => RAlt (map (tree h) os)
  | HRepeat q mn mx => RRepeat (tree h q) mn mx
  | HEmpty => REmpty
  | HNever => RNever
  end.
Proof.
  intros W L. destruct (nth_error_split h p (nth_error_nth' h HEmpty L)) as (h1 & h2 & E & L1).
  pose proof (W p _ (nth_error_nth' h HEmpty L)) as K. set (n := nth p h HEmpty) in *. clearbody n.
  replace (h1 ++ n :: h2) with ((h1 ++ [n]) ++ h2) in E by (rewrite <- app_assoc; reflexivity).
  assert (S1 : forall q, q < p -> at_ (trees h1) q = tree h q).
  { intros q Q. rewrite E, tree_ext by (rewrite app_length; cbn; lia). symmetry. apply tree_ext. lia. }
  rewrite E at 1. rewrite tree_ext by (rewrite app_length; cbn; lia). rewrite <- L1 at 1. rewrite tree_new.
  destruct n; cbn [tree_of kids] in *; try reflexivity.
  - f_equal. apply map_ext_in. intros q Q. apply S1. rewrite Forall_forall in K. apply K, Q.
  - f_equal. apply map_ext_in. intros q Q. apply S1. rewrite Forall_forall in K. apply K, Q.
  - f_equal. apply S1. rewrite Forall_forall in K. apply K. left. reflexivity.
Qed.

(** ** The builder *)
Definition ext (h h' : list hnode) : Prop := exists l, h' = h ++ l.
Lemma ext_refl h : ext h h. Proof. exists []. symmetry. apply app_nil_r. Qed.
Lemma ext_trans a b c : ext a b -> ext b c -> ext a c.
Proof. intros (l & ->) (m & ->). exists (l ++ m). symmetry. apply app_assoc. Qed.
Lemma ext_len h h' : ext h h' -> length h <= length h'.
Proof. intros (l & ->). rewrite app_length. lia. Qed.
Lemma ext_tree h h' p : ext h h' -> p < length h -> tree h' p = tree h p.
Proof. intros (l & ->) L. apply tree_ext, L. Qed.
Lemma ext_trees h h' ps : ext h h' -> Forall (fun p => p < length h) ps -> map (tree h') ps = map (tree h) ps.
Proof. intros E F. apply map_ext_in. intros p I. apply ext_tree; [exact E|]. rewrite Forall_forall in F. apply F, I. Qed.

Record Rel (st : hstate) (bt : bstate) : Prop := {
  rel_memo : map (fun kv => (fst kv, tree (h_heap st) (snd kv))) (h_memo st) = b_memo bt;
  rel_err : h_err st = b_err bt;
  rel_lt : Forall (fun kv => snd kv < length (h_heap st)) (h_memo st);
  rel_wf : wfh (h_heap st);
  rel_two : ext [HEmpty; HNever] (h_heap st)
}.
Lemma rel_init : Rel h_init (mkB [] false).
Proof.
  split; try reflexivity; [constructor| |apply ext_refl].
  intros p n E. destruct p as [|[|p]]; cbn in E; [injection E as <-; constructor|injection E as <-; constructor|destruct p; discriminate].
Qed.
Lemma rel_empty st bt : Rel st bt -> p_empty < length (h_heap st) /\ tree (h_heap st) p_empty = REmpty.
Proof.
  intros R. pose proof (ext_len _ _ (rel_two _ _ R)) as L. cbn [length] in L. split; [unfold p_empty; lia|].
  rewrite (ext_tree _ _ p_empty (rel_two _ _ R)) by (cbn; unfold p_empty; lia). reflexivity.
Qed.
Lemma rel_never st bt : Rel st bt -> p_never < length (h_heap st) /\ tree (h_heap st) p_never = RNever.
Proof.
  intros R. pose proof (ext_len _ _ (rel_two _ _ R)) as L. cbn [length] in L. split; [unfold p_never; lia|].
  rewrite (ext_tree _ _ p_never (rel_two _ _ R)) by (cbn; unfold p_never; lia). reflexivity.
Qed.

Section Costs.
  Variable g : grammar.

  (** What an element costs. *)
  Fixpoint elem_steps (e : elem) : nat :=
    match e with
    | ERule _ => 1
    | EGroup a => 1 + list_sum (map (fun c => 1 + list_sum (map rep_steps c)) a)
    | EOption a => 2 + list_sum (map (fun c => 1 + list_sum (map rep_steps c)) a)
    | EChar _ vs => 1 + length vs
    | ENum _ _ ns => 1 + length ns
    | EProse _ => 0
    end
  with rep_steps (r : rep) : nat := match r with Rep _ _ e => 1 + elem_steps e end.
  Definition cat_steps (c : concatenation) : nat := 1 + list_sum (map rep_steps c).
  Definition alt_steps (a : alternation) : nat := 1 + list_sum (map cat_steps a).
  Definition bw (k : string) : nat := match get_rule k g with Some r => alt_steps (rule_alt r) | None => 0 end.
  Definition mw (m : list (string * nat)) : nat := list_sum (map (fun kv => bw (fst kv)) m).
  Definition on_cycle (k : string) : Prop := clos_trans _ (gref g) k k.

  Record Post (w : nat) (R : string -> Prop) (st st' : hstate) : Prop := {
    po_ext : ext (h_heap st) (h_heap st');
    po_steps : h_steps st' + mw (h_memo st) <= h_steps st + w + mw (h_memo st');
    po_heap : length (h_heap st') + h_steps st <= length (h_heap st) + h_steps st';
    po_news : exists l, h_memo st' = l ++ h_memo st /\ Forall (fun kv => R (fst kv)) l;
    po_nodup : (forall k, R k -> ~ on_cycle k) -> NoDup (map fst (h_memo st)) -> NoDup (map fst (h_memo st'))
  }.
  Lemma post_refl R st : Post 0 R st st.
  Proof. split; [apply ext_refl|lia|lia|exists []; split; [reflexivity|constructor]|auto]. Qed.
  Lemma post_trans w1 w2 R st st1 st2 : Post w1 R st st1 -> Post w2 R st1 st2 -> Post (w1 + w2) R st st2.
  Proof.
    intros [E1 S1 H1 (l1 & N1 & F1) D1] [E2 S2 H2 (l2 & N2 & F2) D2]. split.
    - eapply ext_trans; eassumption.
    - lia.
    - lia.
    - exists (l2 ++ l1). rewrite N2, N1. split; [apply app_assoc|apply Forall_app; auto].
    - auto.
  Qed.
  Lemma post_le w w' R st st' : w <= w' -> Post w R st st' -> Post w' R st st'.
  Proof. intros L [E S H N D]. split; auto. lia. Qed.
  Lemma post_new R n st : Post 1 R st (snd (h_new n st)).
  Proof.
    split; cbn [h_new snd h_heap h_steps h_memo]; [exists [n]; reflexivity|lia|rewrite app_length; cbn; lia|
      exists []; split; [reflexivity|constructor]|auto].
  Qed.
  Lemma rel_new n st bt : Rel st bt -> Forall (fun c => c < length (h_heap st)) (kids n) ->
    Rel (snd (h_new n st)) bt.
  Proof.
    intros [M E L W T] K. split; cbn [h_new snd h_heap h_memo h_err]; auto.
    - rewrite <- M. apply map_ext_in. intros kv I. f_equal. apply tree_ext. rewrite Forall_forall in L. apply L, I.
    - eapply Forall_impl; [|exact L]. intros kv H. cbn beta in H |- *. rewrite app_length. cbn [length]. lia.
    - apply wfh_snoc; assumption.
    - eapply ext_trans; [exact T|exists [n]; reflexivity].
  Qed.

  (** A step of the builder on pointers and the step on values. *)
  Definition Step (w : nat) (R : string -> Prop) (hf : hstate -> option (nat * hstate)) (bf : bstate -> option (re * bstate)) : Prop :=
    forall st bt, Rel st bt ->
    match hf st, bf bt with
    | Some (p, st'), Some (n, bt') => Rel st' bt' /\ Post w R st st' /\ p < length (h_heap st') /\ tree (h_heap st') p = n
    | None, None => True
    | _, _ => False
    end.
  Definition Steps (w : nat) (R : string -> Prop) (hf : hstate -> option (list nat * hstate)) (bf : bstate -> option (list re * bstate)) : Prop :=
    forall st bt, Rel st bt ->
    match hf st, bf bt with
    | Some (ps, st'), Some (ns, bt') => Rel st' bt' /\ Post w R st st' /\ Forall (fun p => p < length (h_heap st')) ps /\ map (tree (h_heap st')) ps = ns
    | None, None => True
    | _, _ => False
    end.
  Lemma traverse_sim {A} (w : A -> nat) R hf bf l : (forall x, In x l -> Step (w x) R (hf x) (bf x)) ->
    Steps (list_sum (map w l)) R (traverse hf l) (traverse bf l).
  Proof.
    induction l as [|x l IH]; intros H st bt Re.
    - cbn [traverse map]. split; [exact Re|]. split; [apply post_refl|]. split; [constructor|reflexivity].
    - rewrite !traverse_cons. pose proof (H x (or_introl eq_refl) st bt Re) as K.
      destruct (hf x st) as [[p st1]|], (bf x bt) as [[n bt1]|]; auto; [|contradiction..].
      destruct K as (Re1 & P1 & L1 & T1). specialize (IH (fun y I => H y (or_intror I)) st1 bt1 Re1).
      destruct (traverse hf l st1) as [[ps st2]|], (traverse bf l bt1) as [[ns bt2]|]; auto; [|contradiction..].
      destruct IH as (Re2 & P2 & L2 & T2). split; [exact Re2|]. split; [exact (post_trans _ _ _ _ _ _ P1 P2)|]. split.
      + constructor; [|exact L2]. pose proof (ext_len _ _ (po_ext _ _ _ _ P2)). lia.
      + cbn [map]. f_equal; [|exact T2]. rewrite <- T1. apply ext_tree; [apply P2|exact L1].
  Qed.
  Lemma tree_made n st : tree (h_heap (snd (h_new n st))) (fst (h_new n st)) = tree_of (trees (h_heap st)) n.
  Proof. apply tree_new. Qed.
  Lemma made_lt n st : fst (h_new n st) < length (h_heap (snd (h_new n st))).
  Proof. cbn [h_new fst snd h_heap]. rewrite app_length. cbn. lia. Qed.
  (** One node over pointers of the state. *)
  Lemma new_sim w R n st st' bt' : Rel st' bt' -> Post w R st st' -> Forall (fun c => c < length (h_heap st')) (kids n) ->
    Rel (snd (h_new n st')) bt' /\ Post (w + 1) R st (snd (h_new n st')) /\ fst (h_new n st') < length (h_heap (snd (h_new n st'))) /\
    tree (h_heap (snd (h_new n st'))) (fst (h_new n st')) = tree_of (trees (h_heap st')) n.
  Proof.
    intros Re P K. split; [apply rel_new; assumption|]. split; [eapply post_trans; [exact P|apply post_new]|]. split; [apply made_lt|apply tree_made].
  Qed.
  Lemma list_sim w R hf bf (mk : list nat -> hnode) (mkr : list re -> re) :
    (forall ps, kids (mk ps) = ps) -> (forall ts ps, tree_of ts (mk ps) = mkr (map (at_ ts) ps)) -> Steps w R hf bf ->
    Step (w + 1) R (fun st => match hf st with Some (ps, st') => Some (h_new (mk ps) st') | None => None end)
      (fun bt => match bf bt with Some (ns, bt') => Some (mkr ns, bt') | None => None end).
  Proof.
    intros Kd Tr H st bt Re. specialize (H st bt Re).
    destruct (hf st) as [[ps st1]|], (bf bt) as [[ns bt1]|]; auto; [|contradiction..].
    destruct H as (Re1 & P1 & L1 & T1).
    destruct (new_sim w R (mk ps) st st1 bt1 Re1 P1) as (A & B & C & D); [rewrite Kd; exact L1|].
    destruct (h_new (mk ps) st1) as [p st2]. cbn [fst snd] in *. split; [exact A|]. split; [exact B|]. split; [exact C|].
    rewrite D, Tr. f_equal. exact T1.
  Qed.
  Lemma one_sim w R hf bf (mk : nat -> hnode) (mkr : re -> re) :
    (forall p, kids (mk p) = [p]) -> (forall ts p, tree_of ts (mk p) = mkr (at_ ts p)) -> Step w R hf bf ->
    Step (w + 1) R (fun st => match hf st with Some (p, st') => Some (h_new (mk p) st') | None => None end)
      (fun bt => match bf bt with Some (n, bt') => Some (mkr n, bt') | None => None end).
  Proof.
    intros Kd Tr H st bt Re. specialize (H st bt Re).
    destruct (hf st) as [[p st1]|], (bf bt) as [[n bt1]|]; auto; [|contradiction..].
    destruct H as (Re1 & P1 & L1 & T1).
    destruct (new_sim w R (mk p) st st1 bt1 Re1 P1) as (A & B & C & D); [rewrite Kd; constructor; [exact L1|constructor]|].
    destruct (h_new (mk p) st1) as [q st2]. cbn [fst snd] in *. split; [exact A|]. split; [exact B|]. split; [exact C|].
    rewrite D, Tr. f_equal. exact T1.
  Qed.
  Lemma step_le w w' R hf bf : w <= w' -> Step w R hf bf -> Step w' R hf bf.
  Proof.
    intros L H st bt Re. specialize (H st bt Re). destruct (hf st) as [[p st1]|], (bf bt) as [[n bt1]|]; auto.
    destruct H as (A & B & C & D). split; [exact A|]. split; [eapply post_le; [exact L|exact B]|]. split; [exact C|exact D].
  Qed.

  (** The leaves. *)
  Lemma char_ranges_class c s : char_class c s = RClass (char_ranges c s).
  Proof. unfold char_ranges, char_class. repeat (match goal with |- context [if ?b then _ else _] => destruct b end); reflexivity. Qed.
  Lemma chars_sim R s vs : forall st bt, Rel st bt ->
    Rel (snd (h_chars s vs st)) bt /\ Post (length vs) R st (snd (h_chars s vs st)) /\
    Forall (fun p => p < length (h_heap (snd (h_chars s vs st)))) (fst (h_chars s vs st)) /\
    map (tree (h_heap (snd (h_chars s vs st)))) (fst (h_chars s vs st)) = map (fun c => char_class c s) vs.
  Proof.
    induction vs as [|c vs IH]; intros st bt Re.
    - cbn [h_chars fst snd map length]. split; [exact Re|]. split; [apply post_refl|]. split; [constructor|reflexivity].
    - cbn [h_chars]. destruct (new_sim 0 R (HClass (char_ranges c s)) st st bt Re (post_refl R st)) as (A & B & C & D); [constructor|].
      destruct (h_new (HClass (char_ranges c s)) st) as [p st1]. cbn [fst snd] in A, B, C, D.
      specialize (IH st1 bt A). destruct (h_chars s vs st1) as [ps st2]. cbn [fst snd] in IH |- *.
      destruct IH as (Re2 & P2 & L2 & T2). split; [exact Re2|]. split; [exact (post_trans _ _ _ _ _ _ B P2)|]. split.
      + constructor; [|exact L2]. pose proof (ext_len _ _ (po_ext _ _ _ _ P2)). lia.
      + cbn [map]. f_equal; [|exact T2]. rewrite (ext_tree _ _ p (po_ext _ _ _ _ P2) C), D. cbn [tree_of]. symmetry. apply char_ranges_class.
  Qed.
  Lemma series_sim R cs : forall st bt, Rel st bt ->
    Rel (snd (h_series cs st)) bt /\ Post (length cs) R st (snd (h_series cs st)) /\
    match fst (h_series cs st), series_parts cs with
    | Some ps, Some ns => Forall (fun p => p < length (h_heap (snd (h_series cs st)))) ps /\ map (tree (h_heap (snd (h_series cs st)))) ps = ns
    | None, None => True
    | _, _ => False
    end.
  Proof.
    induction cs as [|c cs IH]; intros st bt Re.
    - cbn [h_series fst snd map length series_parts]. split; [exact Re|]. split; [apply post_refl|]. split; [constructor|reflexivity].
    - cbn [h_series series_parts]. destruct (valid_rune c).
      + destruct (new_sim 0 R (HClass [(c, c)]) st st bt Re (post_refl R st)) as (A & B & C & D); [constructor|].
        destruct (h_new (HClass [(c, c)]) st) as [p st1]. cbn [fst snd] in A, B, C, D.
        specialize (IH st1 bt A). destruct (h_series cs st1) as [r st2]. cbn [fst snd] in IH |- *.
        destruct IH as (Re2 & P2 & K2). split; [exact Re2|]. split; [exact (post_trans _ _ _ _ _ _ B P2)|].
        destruct r as [ps|], (series_parts cs) as [ns|]; auto. destruct K2 as [L2 T2]. split.
        * constructor; [|exact L2]. pose proof (ext_len _ _ (po_ext _ _ _ _ P2)). lia.
        * cbn [map]. f_equal; [|exact T2]. rewrite (ext_tree _ _ p (po_ext _ _ _ _ P2) C), D. reflexivity.
      + cbn [fst snd]. split; [exact Re|]. split; [|exact I]. eapply post_le; [|apply post_refl]. lia.
  Qed.
  Lemma num_sim R b k es : Step (1 + length es) R (fun st => Some (h_num b k es st)) (fun bt => Some (num_node b k es, bt)).
  Proof.
    intros st bt Re. destruct k.
    - cbn [h_num num_node]. pose proof (series_sim R (map (fun s => numval_to_rune s b) es) st bt Re) as (A & B & K). rewrite map_length in B.
      destruct (h_series (map (fun s => numval_to_rune s b) es) st) as [r st1]. cbn [fst snd] in A, B, K.
      destruct r as [ps|], (series_parts (map (fun s => numval_to_rune s b) es)) as [ns|]; try contradiction.
      + destruct K as [L T]. destruct (new_sim _ R (HConcat ps) st st1 bt A B) as (A2 & B2 & C2 & D2); [exact L|].
        destruct (h_new (HConcat ps) st1) as [q st2]. cbn [fst snd] in *. split; [exact A2|]. split; [eapply post_le; [|exact B2]; lia|].
        split; [exact C2|]. rewrite D2. cbn [tree_of]. f_equal. exact T.
      + destruct (rel_never _ _ A) as [L T]. split; [exact A|]. split; [eapply post_le; [|exact B]; lia|]. split; [exact L|exact T].
    - unfold h_num. assert (V : (exists rs, num_node b StatRange es = RClass rs) \/ num_node b StatRange es = RNever).
      { cbn [num_node]. destruct es as [|lo [|hi es]]; auto. unfold range_node. cbn zeta. destruct (_ || _); eauto. }
      destruct V as [(rs & ->)| ->].
      + destruct (new_sim 0 R (HClass rs) st st bt Re (post_refl R st)) as (A2 & B2 & C2 & D2); [constructor|].
        destruct (h_new (HClass rs) st) as [q st2]. cbn [fst snd] in *. split; [exact A2|]. split; [eapply post_le; [|exact B2]; lia|].
        split; [exact C2|]. rewrite D2. reflexivity.
      + destruct (rel_never _ _ Re) as [L T]. split; [exact Re|]. split; [eapply post_le; [|apply post_refl]; lia|]. split; [exact L|exact T].
  Qed.

  (** The references of an element. *)
  Definition erefers (e : elem) (n : string) : Prop := e = ERule n \/ exists b, (e = EGroup b \/ e = EOption b) /\ refers b n.
  Lemma refers_in a c x n : In c a -> In x c -> erefers (rep_elem x) n -> refers a n.
  Proof.
    intros Ic Ix Hn. destruct x as [mn mx e]. cbn [rep_elem] in Hn. destruct Hn as [->|(b & [-> | ->] & mn' & mx' & Rb)].
    - exists mn, mx. eapply rep_in_here; eassumption.
    - exists mn', mx'. eapply rep_in_group; eassumption.
    - exists mn', mx'. eapply rep_in_option; eassumption.
  Qed.
  Lemma h_group hc a st : h_elem hc (EGroup a) st = h_alt hc a st.
  Proof. reflexivity. Qed.
  Lemma h_option hc a st : h_elem hc (EOption a) st =
    match h_alt hc a st with Some (p, st') => Some (h_new (HRepeat p 0 1) st') | None => None end.
  Proof.
    unfold h_alt. change (h_elem hc (EOption a) st) with
      (match traverse (h_cat hc) a st with Some (os, st') => let '(p, st1) := h_new (HAlt os) st' in Some (h_new (HRepeat p 0 1) st1) | None => None end).
    destruct (traverse (h_cat hc) a st) as [[os st']|]; reflexivity.
  Qed.

  Section Body.
    Variable hc : string -> hstate -> option (nat * hstate).
    Variable bc : string -> bstate -> option (re * bstate).
    Variable R : string -> Prop.
    Lemma alt_sim a : (forall c x, In c a -> In x c -> Step (rep_steps x) R (h_rep hc x) (build_rep bc x)) ->
      Step (alt_steps a) R (h_alt hc a) (build_alt bc a).
    Proof.
      intros H. unfold alt_steps. apply step_le with (list_sum (map cat_steps a) + 1); [lia|].
      apply (list_sim _ R (traverse (h_cat hc) a) (traverse (build_cat bc) a) HAlt RAlt); try reflexivity.
      apply traverse_sim. intros c Ic. unfold cat_steps. apply step_le with (list_sum (map rep_steps c) + 1); [lia|].
      apply (list_sim _ R (traverse (h_rep hc) c) (traverse (build_rep bc) c) HConcat RConcat); try reflexivity.
      apply traverse_sim. intros x Ix. eapply H; eassumption.
    Qed.
    Lemma elem_sim : (forall e, (forall n, erefers e n -> Step 1 R (hc n) (bc n)) -> Step (elem_steps e) R (h_elem hc e) (build_elem bc e)) /\
      (forall r, (forall n, erefers (rep_elem r) n -> Step 1 R (hc n) (bc n)) -> Step (rep_steps r) R (h_rep hc r) (build_rep bc r)).
    Proof.
      apply elem_rep_ind.
      - intros n H. apply H. left. reflexivity.
      - intros a F H st bt Re. rewrite h_group, build_group. revert st bt Re. change (elem_steps (EGroup a)) with (alt_steps a).
        apply alt_sim. intros c x Ic Ix. rewrite Forall_forall in F. specialize (F c Ic). rewrite Forall_forall in F. apply (F x Ix).
        intros n Hn. apply H. right. exists a. split; [left; reflexivity|eapply refers_in; eassumption].
      - intros a F H st bt Re. rewrite h_option, build_option. revert st bt Re.
        apply (step_le (alt_steps a + 1)); [change (elem_steps (EOption a)) with (S (alt_steps a)); lia|].
        apply (one_sim _ R (h_alt hc a) (build_alt bc a) (fun p => HRepeat p 0 1) (fun n => RRepeat n 0 1)); try reflexivity.
        apply alt_sim. intros c x Ic Ix. rewrite Forall_forall in F. specialize (F c Ic). rewrite Forall_forall in F. apply (F x Ix).
        intros n Hn. apply H. right. exists a. split; [right; reflexivity|eapply refers_in; eassumption].
      - intros s vs _ st bt Re. cbn [h_elem build_elem elem_steps]. pose proof (chars_sim R s vs st bt Re) as (A & B & C & D).
        destruct (h_chars s vs st) as [ps st1]. cbn [fst snd] in *.
        destruct (new_sim _ R (HConcat ps) st st1 bt A B) as (A2 & B2 & C2 & D2); [exact C|].
        destruct (h_new (HConcat ps) st1) as [q st2]. cbn [fst snd] in *. split; [exact A2|]. split; [eapply post_le; [|exact B2]; lia|].
        split; [exact C2|]. rewrite D2. cbn [tree_of]. f_equal. exact D.
      - intros b k es _. apply num_sim.
      - intros vs _ st bt Re. cbn [h_elem build_elem elem_steps]. destruct (rel_empty _ _ Re) as [L T].
        split; [destruct Re as [M E L0 W Tw]; split; auto|]. split; [|split; [exact L|exact T]].
        split; cbn [h_heap h_memo h_steps]; [apply ext_refl|lia|lia|exists []; split; [reflexivity|constructor]|auto].
      - intros mn mx e IH H. cbn [rep_elem] in H. apply (step_le (elem_steps e + 1)); [cbn [rep_steps]; lia|].
        apply (one_sim _ R (h_elem hc e) (build_elem bc e) (fun p => HRepeat p mn mx) (fun n => RRepeat n mn mx)); try reflexivity. apply IH, H.
    Qed.
    Lemma body_sim a : (forall n, refers a n -> Step 1 R (hc n) (bc n)) -> Step (alt_steps a) R (h_alt hc a) (build_alt bc a).
    Proof. intros H. apply alt_sim. intros c x Ic Ix. apply (proj2 elem_sim). intros n Hn. apply H. eapply refers_in; eassumption. Qed.
  End Body.

  Lemma memo_sim st bt k : Rel st bt -> memo_get k (b_memo bt) = match pmemo_get k (h_memo st) with Some p => Some (tree (h_heap st) p) | None => None end.
  Proof.
    intros Re. rewrite <- (rel_memo _ _ Re). generalize (h_memo st) as m. induction m as [|[x p] m IH]; [reflexivity|].
    cbn [map memo_get pmemo_get fst snd]. destruct (String.eqb x k); auto.
  Qed.
  Lemma pmemo_in k m p : pmemo_get k m = Some p -> In (k, p) m.
  Proof.
    induction m as [|[x q] m IH]; [discriminate|]. cbn [pmemo_get]. destruct (String.eqb_spec x k) as [->|N]; intros E; [injection E as ->; left; reflexivity|right; auto].
  Qed.
  Lemma pmemo_none k m : pmemo_get k m = None -> ~ In k (map fst m).
  Proof.
    induction m as [|[x q] m IH]; [intros _ []|]. cbn [pmemo_get map fst]. destruct (String.eqb_spec x k) as [->|N]; [discriminate|].
    intros E [I|I]; [congruence|exact (IH E I)].
  Qed.

  (** The keys a rule may enter in the memo. *)
  Definition news (n k : string) : Prop := (exists m, lower m = k /\ clos_refl_trans _ (gref g) n m) /\ exists r, get_rule k g = Some r.
  Definition newsa (a : alternation) (k : string) : Prop := exists n, refers a n /\ news n k.
  Lemma step_sub w (R R' : string -> Prop) hf bf : (forall k, R k -> R' k) -> Step w R hf bf -> Step w R' hf bf.
  Proof.
    intros L H st bt Re. specialize (H st bt Re). destruct (hf st) as [[p st1]|], (bf bt) as [[n bt1]|]; auto.
    destruct H as (A & [P1 P2 P3 (l & P4 & P5) P6] & C & D). split; [exact A|]. split; [|split; [exact C|exact D]]. split; try assumption.
    - exists l. split; [exact P4|]. eapply Forall_impl; [|exact P5]. intros kv. apply L.
    - intros Hc. apply P6. auto.
  Qed.
  Hypothesis Dn : distinct_names g.
  Lemma gref_of n r m : get_rule n g = Some r -> refers (rule_alt r) m -> gref g n m.
  Proof. intros G F. exists (rule_alt r), m. split; [apply (proj1 (get_rule_resolves g n Dn)), G|]. split; [exact F|reflexivity]. Qed.
  Lemma trans_end n m m' : same_name m m' -> clos_trans _ (gref g) n m -> clos_trans _ (gref g) n m'.
  Proof.
    intros S2 C. apply clos_trans_tn1 in C. destruct C as [y E|y z E C].
    - apply t_step. eapply gref_lower; [reflexivity|exact S2|exact E].
    - eapply t_trans; [apply clos_tn1_trans; exact C|]. apply t_step. eapply gref_lower; [reflexivity|exact S2|exact E].
  Qed.
  Lemma trans_start n n' m : same_name n n' -> clos_trans _ (gref g) n m -> clos_trans _ (gref g) n' m.
  Proof.
    intros S2 C. apply clos_trans_t1n in C. destruct C as [y E|y z E C].
    - apply t_step. eapply gref_lower; [exact S2|reflexivity|exact E].
    - eapply t_trans; [|apply clos_t1n_trans; exact C]. apply t_step. eapply gref_lower; [exact S2|reflexivity|exact E].
  Qed.
  Lemma lower_cycle n m : lower m = lower n -> clos_trans _ (gref g) n m -> on_cycle (lower n).
  Proof.
    intros E C. unfold on_cycle. apply trans_start with n; [unfold same_name; rewrite lower_lower; reflexivity|].
    apply trans_end with m; [unfold same_name; rewrite lower_lower; exact E|exact C].
  Qed.
  Lemma trans_rt n m : clos_trans _ (gref g) n m -> clos_refl_trans _ (gref g) n m.
  Proof. induction 1; [apply rt_step; assumption|eapply rt_trans; eassumption]. Qed.
  Lemma rule_sim fuel : forall n, Step 1 (news n) (h_rule fuel g n) (build_rule fuel g n).
  Proof.
    induction fuel as [|f IH]; intros n st bt Re; [exact I|]. cbn [h_rule build_rule h_memo].
    set (st0 := mkH (h_heap st) (h_memo st) (h_err st) (S (h_steps st))).
    assert (Re0 : Rel st0 bt) by (destruct Re as [M E L W T]; split; assumption).
    assert (P0 : Post 1 (news n) st st0).
    { split; cbn [st0 h_heap h_memo h_steps]; [apply ext_refl|lia|lia|exists []; split; [reflexivity|constructor]|auto]. }
    rewrite (memo_sim st bt (lower n) Re). destruct (pmemo_get (lower n) (h_memo st)) as [p|] eqn:Em.
    - split; [exact Re0|]. split; [exact P0|]. split; [|reflexivity].
      pose proof (rel_lt _ _ Re) as L. rewrite Forall_forall in L. exact (L _ (pmemo_in _ _ _ Em)).
    - destruct (get_rule n g) as [r|] eqn:G.
      2:{ destruct (rel_empty _ _ Re0) as [L T]. split; [exact Re0|]. split; [exact P0|]. split; [exact L|exact T]. }
      assert (B : Step (alt_steps (rule_alt r)) (newsa (rule_alt r)) (h_alt (h_rule f g) (rule_alt r)) (build_alt (build_rule f g) (rule_alt r))).
      { apply body_sim. intros m Hm. eapply step_sub; [|apply IH]. intros k K. exists m. auto. }
      specialize (B st0 bt Re0). destruct (h_alt (h_rule f g) (rule_alt r) st0) as [[p st1]|], (build_alt (build_rule f g) (rule_alt r) bt) as [[x bt1]|]; auto; [|contradiction..].
      destruct B as (Re1 & P1 & L1 & T1). assert (Gl : get_rule (lower n) g = Some r).
      { rewrite <- G. apply LowerLang.get_rule_lower. apply lower_lower. }
      split.
      { destruct Re1 as [M E L W T]. split; cbn [h_heap h_memo h_err b_memo b_err]; auto.
        cbn [map fst snd]. rewrite M, T1. reflexivity. }
      split; [|split; [exact L1|exact T1]].
      destruct P1 as [Q1 Q2 Q3 (l & Q4 & Q5) Q6]. cbn [st0 h_heap h_memo h_steps] in *.
      assert (Up : forall k, newsa (rule_alt r) k -> news n k).
      { intros k (m & Hm & (m' & Em' & C) & Gk). split; [|exact Gk]. exists m'. split; [exact Em'|].
        eapply rt_trans; [apply rt_step; eapply gref_of; eassumption|exact C]. }
      split; cbn [h_heap h_memo h_steps].
      + exact Q1.
      + change (mw ((lower n, p) :: h_memo st1)) with (bw (lower n) + mw (h_memo st1)). unfold bw at 1. rewrite Gl. lia.
      + lia.
      + exists ((lower n, p) :: l). split; [rewrite Q4; reflexivity|]. constructor.
        * cbn [fst]. split; [exists n; split; [reflexivity|apply rt_refl]|eauto].
        * eapply Forall_impl; [|exact Q5]. intros kv. apply Up.
      + intros Nc Nd. cbn [map fst]. constructor; [|apply Q6; auto]. rewrite Q4, map_app. intros I. apply in_app_iff in I as [I|I].
        * apply in_map_iff in I as (kv & Ekv & I). rewrite Forall_forall in Q5. specialize (Q5 kv I). rewrite Ekv in Q5.
          destruct Q5 as (m & Hm & (m' & Em' & C) & _). apply (Nc (lower n)).
          -- split; [exists n; split; [reflexivity|apply rt_refl]|eauto].
          -- apply lower_cycle with m'; [exact Em'|]. apply clos_rt_rt1n in C. pose proof (gref_of n r m G Hm) as E1.
             apply clos_rt1n_rt, clos_rt_rtn1 in C. clear - E1 C. induction C as [|x y E2 C IH]; [apply t_step; exact E1|eapply t_trans; [exact IH|apply t_step; exact E2]].
        * exact (pmemo_none _ _ Em I).
  Qed.
  Lemma root_sim fuel n r : get_rule n g = Some r -> Step (alt_steps (rule_alt r)) (newsa (rule_alt r)) (h_alt (h_rule fuel g) (rule_alt r)) (build_alt (build_rule fuel g) (rule_alt r)).
  Proof. intros G. apply body_sim. intros m Hm. eapply step_sub; [|apply rule_sim]. intros k K. exists m. auto. Qed.

  (** The steps and the size of the grammar. *)
  Lemma sum_map_le {A} (f h : A -> nat) l : (forall x, In x l -> f x <= h x) -> list_sum (map f l) <= list_sum (map h l).
  Proof.
    induction l as [|x l IH]; intros H; [apply le_n|]. exact (Nat.add_le_mono _ _ _ _ (H x (or_introl eq_refl)) (IH (fun y Y => H y (or_intror Y)))).
  Qed.
  Lemma sum_twice {A} (f : A -> nat) l : list_sum (map (fun x => 2 * f x) l) = 2 * list_sum (map f l).
  Proof.
    induction l as [|x l IH]; [reflexivity|]. change (list_sum (map (fun x => 2 * f x) (x :: l))) with (2 * f x + list_sum (map (fun x => 2 * f x) l)).
    change (list_sum (map f (x :: l))) with (f x + list_sum (map f l)). rewrite IH. lia.
  Qed.
  Lemma cats_steps a : Forall (Forall (fun r => rep_steps r <= 2 * rep_size r)) a ->
    list_sum (map (fun c => 1 + list_sum (map rep_steps c)) a) <= 2 * list_sum (map (fun c => 1 + list_sum (map rep_size c)) a).
  Proof.
    intros F. rewrite <- sum_twice. apply sum_map_le. intros c I. rewrite Forall_forall in F. specialize (F c I).
    assert (H : list_sum (map rep_steps c) <= list_sum (map (fun r => 2 * rep_size r) c)).
    { apply sum_map_le. intros x X. rewrite Forall_forall in F. apply F, X. }
    rewrite sum_twice in H. lia.
  Qed.
  Lemma steps_size : (forall e, elem_steps e <= 1 + 2 * elem_size e) /\ (forall r, rep_steps r <= 2 * rep_size r).
  Proof.
    apply elem_rep_ind.
    - intros n. cbn. lia.
    - intros a F. pose proof (cats_steps a F). cbn [elem_steps elem_size]. lia.
    - intros a F. pose proof (cats_steps a F). cbn [elem_steps elem_size]. lia.
    - intros s vs. cbn [elem_steps elem_size]. lia.
    - intros b k es. cbn [elem_steps elem_size]. lia.
    - intros v. cbn [elem_steps elem_size]. lia.
    - intros mn mx e H. cbn [rep_steps rep_size]. lia.
  Qed.
  Lemma alt_steps_size a : alt_steps a <= 1 + 2 * alt_size a.
  Proof.
    unfold alt_steps, alt_size. apply Nat.add_le_mono_l, (cats_steps a). apply Forall_forall. intros c _. apply Forall_forall.
    intros r _. apply (proj2 steps_size).
  Qed.
  Lemma sum_part {A} (f : A -> nat) : forall l l', NoDup l -> incl l l' -> list_sum (map f l) <= list_sum (map f l').
  Proof.
    induction l as [|x l IH]; intros l' N I; [apply Nat.le_0_l|]. inversion N as [|? ? Nx Nl]; subst.
    destruct (in_split x l' (I x (or_introl eq_refl))) as (l1 & l2 & ->).
    assert (H : list_sum (map f l) <= list_sum (map f (l1 ++ l2))).
    { apply IH; [exact Nl|]. intros y Y. pose proof (I y (or_intror Y)) as J. apply in_app_iff in J as [J|[->|J]]; [apply in_or_app; auto|contradiction|apply in_or_app; auto]. }
    rewrite map_app, list_sum_app in *. change (list_sum (map f (x :: l))) with (f x + list_sum (map f l)).
    change (list_sum (map f (x :: l2))) with (f x + list_sum (map f l2)). lia.
  Qed.
  Lemma sum_steps l : list_sum (map (fun r => 1 + 2 * alt_size (rule_alt r)) l) = length l + 2 * list_sum (map (fun r => alt_size (rule_alt r)) l).
  Proof.
    induction l as [|x l IH]; [reflexivity|]. change (list_sum (map (fun r => 1 + 2 * alt_size (rule_alt r)) (x :: l))) with
      (1 + 2 * alt_size (rule_alt x) + list_sum (map (fun r => 1 + 2 * alt_size (rule_alt r)) l)).
    change (list_sum (map (fun r => alt_size (rule_alt r)) (x :: l))) with (alt_size (rule_alt x) + list_sum (map (fun r => alt_size (rule_alt r)) l)).
    cbn [length]. rewrite IH. lia.
  Qed.
  Definition rule_of (k : string) : list rule := match get_rule k g with Some r => [r] | None => [] end.
  Lemma mw_size m : NoDup (map fst m) -> Forall (fun kv => lower (fst kv) = fst kv /\ exists r, get_rule (fst kv) g = Some r) m ->
    mw m <= length (g ++ core_rules) + 2 * size g.
  Proof.
    intros Nd F. unfold size. rewrite <- sum_steps.
    assert (H : exists rs, mw m <= list_sum (map (fun r => 1 + 2 * alt_size (rule_alt r)) rs) /\ map (fun r => lower (rule_name r)) rs = map fst m /\ incl rs (g ++ core_rules)).
    { clear Nd. induction F as [|[k p] m [Lk (r & G)] F (rs & A & B & C)]; [exists []; split; [apply le_n|split; [reflexivity|intros x []]]|].
      cbn [fst] in *. destruct (LeftRec.get_rule_name k g r G) as [Nm In_]. exists (r :: rs). split; [|split].
      - change (mw ((k, p) :: m)) with (bw k + mw m). change (list_sum (map (fun r => 1 + 2 * alt_size (rule_alt r)) (r :: rs))) with
          (1 + 2 * alt_size (rule_alt r) + list_sum (map (fun r => 1 + 2 * alt_size (rule_alt r)) rs)).
        unfold bw. rewrite G. pose proof (alt_steps_size (rule_alt r)). lia.
      - cbn [map fst]. rewrite B, Nm, Lk. reflexivity.
      - intros x [<-|I]; auto. }
    destruct H as (rs & A & B & C). etransitivity; [exact A|]. apply sum_part; [|exact C].
    rewrite <- B in Nd. eapply NoDup_map_inv, Nd.
  Qed.
  (** What the builder costs. *)
  Theorem build_cost fuel n r p st : get_rule n g = Some r ->
    (~ exists m, clos_refl_trans _ (gref g) n m /\ clos_trans _ (gref g) m m) ->
    h_alt (h_rule fuel g) (rule_alt r) h_init = Some (p, st) ->
    h_steps st <= 2 * (length (g ++ core_rules) + 2 * size g) /\ length (h_heap st) <= 2 + h_steps st.
  Proof.
    intros G Acy E. pose proof (root_sim fuel n r G h_init _ rel_init) as K. rewrite E in K.
    destruct (build_alt (build_rule fuel g) (rule_alt r) (mkB [] false)) as [[x bt]|]; [|contradiction].
    destruct K as (_ & [_ P2 P3 (l & P4 & P5) P6] & _ & _). cbn [h_init h_steps h_memo h_heap length] in *. rewrite app_nil_r in P4. subst l.
    change (mw []) with 0 in P2. split; [|lia].
    assert (M : mw (h_memo st) <= length (g ++ core_rules) + 2 * size g).
    { apply mw_size.
      - apply P6; [|constructor]. intros k (m & Hm & (m' & <- & C) & _) Cy. apply Acy. exists (lower m'). split; [|exact Cy].
        assert (E1 : clos_trans _ (gref g) n m').
        { pose proof (gref_of n r m G Hm) as E1. apply clos_rt_rtn1 in C. clear - E1 C. induction C as [|y z E2 C IH]; [apply t_step; exact E1|eapply t_trans; [exact IH|apply t_step; exact E2]]. }
        apply trans_rt, trans_end with m'; [unfold same_name; rewrite lower_lower; reflexivity|exact E1].
      - eapply Forall_impl; [|exact P5]. intros kv (m & _ & (m' & Em & _) & Gk). split; [rewrite <- Em; apply lower_lower|exact Gk]. }
    assert (Rt : 1 + 2 * alt_size (rule_alt r) <= length (g ++ core_rules) + 2 * size g).
    { unfold size. rewrite <- sum_steps. destruct (LeftRec.get_rule_name n g r G) as [_ I].
      pose proof (sum_part (fun r => 1 + 2 * alt_size (rule_alt r)) [r] (g ++ core_rules)) as S1. cbn [map list_sum fold_right] in S1.
      rewrite Nat.add_0_r in S1. apply S1; [constructor; [intros []|constructor]|]. intros z [<-|[]]. exact I. }
    pose proof (alt_steps_size (rule_alt r)). lia.
  Qed.
End Costs.

(** ** simplify *)
Fixpoint re_size (n : re) : nat :=
  match n with
  | RClass rs => 1 + length rs
  | RConcat ps => 1 + list_sum (map re_size ps)
  | RAlt os => 1 + list_sum (map re_size os)
  | RRepeat sub _ _ => 1 + re_size sub
  | REmpty | RNever => 1
  end.
Lemma re_size_pos n : 1 <= re_size n.
Proof. destruct n; cbn [re_size]; lia. Qed.
Lemma list_sum_cons x l : list_sum (x :: l) = x + list_sum l.
Proof. reflexivity. Qed.
Lemma insert_len x l : length (insert_range x l) = S (length l).
Proof. induction l as [|y l IH]; [reflexivity|]. cbn [insert_range]. destruct (range_le x y); cbn [length]; [reflexivity|rewrite IH; reflexivity]. Qed.
Lemma sort_len l : length (sort_ranges l) = length l.
Proof. unfold sort_ranges. induction l as [|x l IH]; [reflexivity|]. cbn [fold_right length]. rewrite insert_len, IH. reflexivity. Qed.
Lemma coalesce_len l : forall x, length (coalesce x l) <= S (length l).
Proof. induction l as [|r l IH]; intros x; cbn [coalesce length]; [lia|]. destruct (_ <=? _)%Z; [etransitivity; [apply IH|lia]|]. cbn [length]. specialize (IH r). lia. Qed.
Lemma normalize_len rs : length (normalize_ranges rs) <= length rs.
Proof.
  unfold normalize_ranges. destruct rs as [|r [|r' rs]]; try lia. pose proof (sort_len (r :: r' :: rs)) as L.
  destruct (sort_ranges (r :: r' :: rs)) as [|x l]; [cbn; lia|]. rewrite <- L. apply coalesce_len.
Qed.
Lemma flat_parts_size ns : list_sum (map re_size (flat_map flat_part ns)) <= list_sum (map re_size ns).
Proof.
  induction ns as [|n ns IH]; [apply le_n|]. cbn [flat_map]. rewrite map_app, list_sum_app. cbn [map]. rewrite list_sum_cons.
  apply Nat.add_le_mono; [|exact IH]. destruct n; cbn [flat_part map re_size]; rewrite ?list_sum_cons; cbn [list_sum fold_right]; lia.
Qed.
Lemma flat_opts_size ns : list_sum (map re_size (flat_map flat_opt ns)) <= list_sum (map re_size ns).
Proof.
  induction ns as [|n ns IH]; [apply le_n|]. cbn [flat_map]. rewrite map_app, list_sum_app. cbn [map]. rewrite list_sum_cons.
  apply Nat.add_le_mono; [|exact IH]. destruct n; cbn [flat_opt map re_size]; rewrite ?list_sum_cons; cbn [list_sum fold_right]; lia.
Qed.
Lemma sum_len ns : length ns <= list_sum (map re_size ns).
Proof. induction ns as [|n ns IH]; [apply le_n|]. cbn [map length]. rewrite list_sum_cons. pose proof (re_size_pos n). lia. Qed.
Lemma join_concat_size ns : re_size (join_concat ns) <= 1 + list_sum (map re_size ns).
Proof.
  unfold join_concat. destruct (existsb is_never ns); [cbn; lia|]. pose proof (flat_parts_size ns) as F.
  destruct (flat_map flat_part ns) as [|x [|y l]]; [cbn; lia| |].
  - cbn [map] in F. rewrite list_sum_cons in F. lia.
  - change (re_size (RConcat (x :: y :: l))) with (1 + list_sum (map re_size (x :: y :: l))). lia.
Qed.
Lemma others_size os : list_sum (map re_size (filter (fun o => negb (is_class o)) os)) + length (flat_map class_ranges os) + (if existsb is_class os then 1 else 0) <= list_sum (map re_size os).
Proof.
  induction os as [|o os IH]; [apply le_n|]. cbn [filter flat_map existsb map]. rewrite app_length, list_sum_cons.
  destruct o; cbn [is_class negb class_ranges length orb map re_size]; rewrite ?list_sum_cons; cbn [re_size]; destruct (existsb is_class os); lia.
Qed.
Lemma join_alt_size ns : re_size (join_alt ns) <= 1 + list_sum (map re_size ns).
Proof.
  unfold join_alt. pose proof (flat_opts_size ns) as F. set (opts := flat_map flat_opt ns) in *. pose proof (others_size opts) as O.
  set (others := filter (fun o => negb (is_class o)) opts) in *.
  pose proof (normalize_len (flat_map class_ranges opts)) as L.
  assert (M : list_sum (map re_size (if existsb is_class opts then RClass (normalize_ranges (flat_map class_ranges opts)) :: others else others)) <= list_sum (map re_size opts)).
  { destruct (existsb is_class opts); [|lia]. cbn [map]. rewrite list_sum_cons. cbn [re_size]. lia. }
  cbn zeta. set (merged := if existsb is_class opts then RClass (normalize_ranges (flat_map class_ranges opts)) :: others else others) in *.
  destruct merged as [|x [|y l]]; [cbn; lia| |].
  - cbn [map] in M. rewrite list_sum_cons in M. lia.
  - change (re_size (RAlt (x :: y :: l))) with (1 + list_sum (map re_size (x :: y :: l))). lia.
Qed.
Lemma join_repeat_size s mn mx : re_size (join_repeat s mn mx) <= 1 + re_size s.
Proof. unfold join_repeat. pose proof (re_size_pos s). repeat match goal with |- context [if ?b then _ else _] => destruct b end; cbn [re_size]; lia. Qed.
Lemma concat_cost_size ns : concat_cost ns <= list_sum (map re_size ns).
Proof. unfold concat_cost. etransitivity; [apply sum_len|apply flat_parts_size]. Qed.
Lemma alt_cost_size ns : alt_cost ns <= 3 * list_sum (map re_size ns).
Proof.
  unfold alt_cost. pose proof (flat_opts_size ns) as F. set (opts := flat_map flat_opt ns) in *. pose proof (others_size opts) as O.
  pose proof (sum_len opts) as L1. pose proof (sum_len (filter (fun o => negb (is_class o)) opts)) as L2. cbn zeta.
  destruct (existsb is_class opts); lia.
Qed.
Lemma simplify_repeat s mn mx : simplify (RRepeat s mn mx) = join_repeat (simplify s) mn mx.
Proof. reflexivity. Qed.
Lemma map_simplify_size ns : Forall (fun n => re_size (simplify n) <= re_size n) ns ->
  list_sum (map re_size (map simplify ns)) <= list_sum (map re_size ns).
Proof. intros F. rewrite map_map. apply sum_map_le. intros x I. rewrite Forall_forall in F. apply F, I. Qed.
Lemma simplify_size n : re_size (simplify n) <= re_size n.
Proof.
  induction n as [rs|ps IH|os IH|s mn mx IH| |] using re_ind'.
  - cbn [simplify re_size]. pose proof (normalize_len rs). lia.
  - cbn [simplify]. etransitivity; [apply join_concat_size|]. change (re_size (RConcat ps)) with (1 + list_sum (map re_size ps)).
    apply Nat.add_le_mono_l, map_simplify_size, IH.
  - cbn [simplify]. etransitivity; [apply join_alt_size|]. change (re_size (RAlt os)) with (1 + list_sum (map re_size os)).
    apply Nat.add_le_mono_l, map_simplify_size, IH.
  - rewrite simplify_repeat. etransitivity; [apply join_repeat_size|]. cbn [re_size]. lia.
  - apply le_n.
  - apply le_n.
Qed.
Lemma map_simplify_le ns : list_sum (map re_size (map simplify ns)) <= list_sum (map re_size ns).
Proof. apply map_simplify_size. apply Forall_forall. intros x _. apply simplify_size. Qed.

Section Simp.
  Variable h : list hnode.
  Hypothesis W : wfh h.
  Record SInv (st : sstate) : Prop := {
    si_memo : forall p r, smemo_get p (s_memo st) = Some r -> r = simplify (tree h p);
    si_nodup : NoDup (map fst (s_memo st));
    si_lt : Forall (fun q => q < length h) (map fst (s_memo st));
    si_bodies : s_bodies st = length (s_memo st)
  }.
  (** From [st] to [st']: keys below [b] are entered, each body appends at most [3 * B]. *)
  Record SPost (b B : nat) (st st' : sstate) : Prop := {
    sp_inv : SInv st';
    sp_keys : forall q, In q (map fst (s_memo st')) -> In q (map fst (s_memo st)) \/ q < b;
    sp_cost : s_appends st' + 3 * B * s_bodies st <= s_appends st + 3 * B * s_bodies st'
  }.
  Lemma spost_refl b B st : SInv st -> SPost b B st st.
  Proof. intros I. split; [exact I|auto|lia]. Qed.
  Lemma spost_trans b B st st1 st2 : SPost b B st st1 -> SPost b B st1 st2 -> SPost b B st st2.
  Proof. intros [I1 K1 C1] [I2 K2 C2]. split; [exact I2| |lia]. intros q Q. destruct (K2 q Q) as [Q1|]; auto. Qed.
  Lemma spost_le b b' B st st' : b <= b' -> SPost b B st st' -> SPost b' B st st'.
  Proof. intros L [I K C]. split; auto. intros q Q. destruct (K q Q); auto. right. lia. Qed.
  Lemma smemo_none p m : smemo_get p m = None -> ~ In p (map fst m).
  Proof.
    induction m as [|[x q] m IH]; [intros _ []|]. cbn [smemo_get map fst]. destruct (Nat.eqb_spec x p) as [->|N]; [discriminate|].
    intros E [I|I]; [congruence|exact (IH E I)].
  Qed.
  Lemma smemo_get_cons p q r m : smemo_get p ((q, r) :: m) = if Nat.eqb q p then Some r else smemo_get p m.
  Proof. reflexivity. Qed.
  Lemma done_ok p k B st st' : SInv st -> smemo_get p (s_memo st) = None -> p < length h -> SPost p B st st' -> k <= 3 * B ->
    SPost (S p) B st (snd (s_done p (simplify (tree h p)) k st')).
  Proof.
    intros I0 N L [I K C] Hk. cbn [s_done snd]. split.
    - split; cbn [s_memo s_bodies map fst].
      + intros q r. rewrite smemo_get_cons. destruct (Nat.eqb_spec p q) as [<-|Nq]; [intros E; injection E as <-; reflexivity|apply I].
      + constructor; [|apply I]. intros J. destruct (K p J) as [J1|J1]; [exact (smemo_none _ _ N J1)|lia].
      + constructor; [exact L|apply I].
      + cbn [length]. rewrite (si_bodies _ I). reflexivity.
    - cbn [s_memo map fst]. intros q [<-|Q]; [right; lia|]. destruct (K q Q); auto.
    - cbn [s_appends s_bodies]. lia.
  Qed.
  Lemma straverse B f ps p : forall st, SInv st ->
    (forall q st, In q ps -> SInv st -> exists st', f q st = Some (simplify (tree h q), st') /\ SPost (S q) B st st') ->
    Forall (fun q => q < p) ps ->
    exists st', traverse f ps st = Some (map simplify (map (tree h) ps), st') /\ SPost p B st st'.
  Proof.
    induction ps as [|q ps IH]; intros st I H F.
    - exists st. split; [reflexivity|apply spost_refl, I].
    - inversion F as [|? ? Lq F']; subst. destruct (H q st (or_introl eq_refl) I) as (st1 & E1 & P1).
      destruct (IH st1 (sp_inv _ _ _ _ P1) (fun q' s J => H q' s (or_intror J)) F') as (st2 & E2 & P2).
      exists st2. rewrite traverse_cons, E1, E2. split; [reflexivity|]. eapply spost_trans; [eapply spost_le; [|exact P1]; lia|exact P2].
  Qed.
  Lemma in_sum ns n : In n ns -> re_size n <= list_sum (map re_size ns).
  Proof. induction ns as [|x ns IH]; [intros []|]. cbn [map]. rewrite list_sum_cons. intros [->|I]; [lia|specialize (IH I); lia]. Qed.
  Lemma h_simplify_ok B fuel : forall p st, p < fuel -> p < length h -> SInv st -> re_size (tree h p) <= B ->
    exists st', h_simplify fuel h p st = Some (simplify (tree h p), st') /\ SPost (S p) B st st'.
  Proof.
    induction fuel as [|f IH]; intros p st Lf Lh I HB; [lia|]. cbn [h_simplify].
    destruct (smemo_get p (s_memo st)) as [r|] eqn:Em.
    { exists st. rewrite (si_memo _ I _ _ Em). split; [reflexivity|apply spost_refl, I]. }
    pose proof (tree_nth h p W Lh) as T. pose proof (W p _ (nth_error_nth' h HEmpty Lh)) as K.
    assert (Sub : forall ps, Forall (fun q => q < p) ps -> list_sum (map re_size (map (tree h) ps)) <= B ->
      exists st', traverse (h_simplify f h) ps st = Some (map simplify (map (tree h) ps), st') /\ SPost p B st st').
    { intros ps F S1. apply straverse; [exact I| |exact F]. intros q s Q Is. rewrite Forall_forall in F. specialize (F q Q).
      apply IH; try lia; [exact Is|]. etransitivity; [|exact S1]. apply in_sum, in_map, Q. }
    destruct (nth p h HEmpty) as [rs|ps|os|q mn mx| |] eqn:En; cbn [kids] in K.
    - rewrite T in *. exists (snd (s_done p (simplify (tree h p)) (length rs) st)). split; [cbn [s_done snd]; rewrite T; reflexivity|].
      apply done_ok; auto; [apply spost_refl, I|]. cbn [re_size] in HB. lia.
    - assert (S1 : list_sum (map re_size (map (tree h) ps)) <= B).
      { rewrite T in HB. change (1 + list_sum (map re_size (map (tree h) ps)) <= B) in HB. lia. }
      destruct (Sub ps K S1) as (st' & -> & P).
      exists (snd (s_done p (simplify (tree h p)) (concat_cost (map simplify (map (tree h) ps))) st')). split; [cbn [s_done snd]; rewrite T; reflexivity|].
      apply done_ok; auto. pose proof (concat_cost_size (map simplify (map (tree h) ps))). pose proof (map_simplify_le (map (tree h) ps)). lia.
    - assert (S1 : list_sum (map re_size (map (tree h) os)) <= B).
      { rewrite T in HB. change (1 + list_sum (map re_size (map (tree h) os)) <= B) in HB. lia. }
      destruct (Sub os K S1) as (st' & -> & P).
      exists (snd (s_done p (simplify (tree h p)) (alt_cost (map simplify (map (tree h) os))) st')). split; [cbn [s_done snd]; rewrite T; reflexivity|].
      apply done_ok; auto. pose proof (alt_cost_size (map simplify (map (tree h) os))). pose proof (map_simplify_le (map (tree h) os)). lia.
    - inversion K as [|? ? Lq _]; subst. destruct (IH q st) as (st' & E & P); try lia; [exact I| |].
      { rewrite T in HB. cbn [re_size] in HB. lia. }
      exists (snd (s_done p (simplify (tree h p)) 0 st')). rewrite E. split; [cbn [s_done snd]; rewrite T; reflexivity|].
      apply done_ok; auto; [eapply spost_le; [|exact P]; lia|lia].
    - exists (snd (s_done p (simplify (tree h p)) 0 st)). split; [cbn [s_done snd]; rewrite T; reflexivity|].
      apply done_ok; auto; [apply spost_refl, I|lia].
    - exists (snd (s_done p (simplify (tree h p)) 0 st)). split; [cbn [s_done snd]; rewrite T; reflexivity|].
      apply done_ok; auto; [apply spost_refl, I|lia].
  Qed.
  Lemma bodies_le st : SInv st -> s_bodies st <= length h.
  Proof.
    intros I. rewrite (si_bodies _ I). rewrite <- (map_length fst). rewrite <- (seq_length (length h) 0).
    apply NoDup_incl_length; [apply I|]. intros q Q. apply in_seq. pose proof (si_lt _ I) as F. rewrite Forall_forall in F. specialize (F q Q). lia.
  Qed.
  Lemma sinv_init : SInv (mkS [] 0 0).
  Proof. split; cbn; try constructor. intros p r E. discriminate. Qed.
  Theorem simplify_cost p : p < length h -> exists ss, h_simplify (length h) h p (mkS [] 0 0) = Some (simplify (tree h p), ss) /\
    s_bodies ss <= length h /\ s_appends ss <= 3 * re_size (tree h p) * length h.
  Proof.
    intros L. destruct (h_simplify_ok (re_size (tree h p)) (length h) p (mkS [] 0 0) L L sinv_init (le_n _)) as (ss & E & P).
    exists ss. split; [exact E|]. pose proof (bodies_le ss (sp_inv _ _ _ _ P)) as Bl. split; [exact Bl|].
    pose proof (sp_cost _ _ _ _ P) as C. cbn [s_appends s_bodies] in C. rewrite Nat.mul_0_r, !Nat.add_0_r, Nat.add_0_l in C.
    etransitivity; [exact C|]. apply Nat.mul_le_mono_l, Bl.
  Qed.
End Simp.

(** ** render *)
Lemma render_calls_err max n ctx st : r_err st = true -> render_calls max n ctx st = 1.
Proof. intros E. destruct n; cbn [render_calls]; rewrite E; reflexivity. Qed.
Definition concat_calls (max : Z) : list re -> rstate -> nat :=
  fix go (l : list re) (st : rstate) : nat :=
    match l with [] => 0 | p :: l' => render_calls max p 2 st + go l' (render max p 2 st) end.
Definition alt_calls (max : Z) : bool -> list re -> rstate -> nat :=
  fix go (first : bool) (l : list re) (st : rstate) : nat :=
    match l with
    | [] => 0
    | o :: l' => let st := if first then st else write max (bytes "|") st in render_calls max o 1 st + go false l' (render max o 1 st)
    end.
Lemma concat_calls_cons max p l st : concat_calls max (p :: l) st = render_calls max p 2 st + concat_calls max l (render max p 2 st).
Proof. reflexivity. Qed.
Lemma render_calls_concat max ps ctx st : r_err st = false ->
  render_calls max (RConcat ps) ctx st = S (concat_calls max ps (if (2 <? ctx)%Z then write max (bytes "(?:") st else st)).
Proof. intros E. cbn [render_calls]. rewrite E. reflexivity. Qed.
Lemma render_calls_size max n : forall ctx st, render_calls max n ctx st <= re_size n.
Proof.
  induction n as [rs|ps IH|os IH|s mn mx IH| |] using re_ind'; intros ctx st; cbn [render_calls]; destruct (r_err st); try (cbn [re_size]; lia).
  - change (S (concat_calls max ps (if (prec (RConcat ps) <? ctx)%Z then write max (bytes "(?:") st else st)) <= 1 + list_sum (map re_size ps)).
    apply le_n_S. generalize (if (prec (RConcat ps) <? ctx)%Z then write max (bytes "(?:") st else st). clear st.
    induction IH as [|p l Hp Fl IHl]; intros st; [apply le_n|]. rewrite concat_calls_cons. cbn [map]. rewrite list_sum_cons.
    apply Nat.add_le_mono; [apply Hp|apply IHl].
  - change (S (alt_calls max true os (if (prec (RAlt os) <? ctx)%Z then write max (bytes "(?:") st else st)) <= 1 + list_sum (map re_size os)).
    apply le_n_S. generalize (if (prec (RAlt os) <? ctx)%Z then write max (bytes "(?:") st else st). generalize true. clear st.
    induction IH as [|p l Hp Fl IHl]; intros b st; [apply le_n|]. cbn [alt_calls map]. rewrite list_sum_cons.
    apply Nat.add_le_mono; [apply Hp|apply IHl].
  - cbn [re_size]. apply le_n_S, IH.
Qed.
(** Each part is one call at least, whether err is set or not. *)
Lemma concat_calls_len max l : forall st, length l <= concat_calls max l st.
Proof.
  induction l as [|p l IH]; intros st; [apply le_n|]. rewrite concat_calls_cons. cbn [length].
  assert (1 <= render_calls max p 2 st) by (destruct p; cbn [render_calls]; destruct (r_err st); lia). specialize (IH (render max p 2 st)). lia.
Qed.

(** ** Regex *)
Section Whole.
  Variable g : grammar.
  Hypothesis Dn : distinct_names g.
  (** The steps of Regex once the search for cycles has passed. *)
  Lemma h_regex_run fuel order max n r x bt : rule_contains_cycle g order n = RccBool false -> get_rule n g = Some r ->
    build_alt (build_rule fuel g) (rule_alt r) (mkB [] false) = Some (x, bt) -> b_err bt = false ->
    exists p st ss, h_alt (h_rule fuel g) (rule_alt r) h_init = Some (p, st) /\ h_err st = false /\ p < length (h_heap st) /\ tree (h_heap st) p = x /\ wfh (h_heap st) /\
      h_simplify (length (h_heap st)) (h_heap st) p (mkS [] 0 0) = Some (simplify x, ss) /\
      s_bodies ss <= length (h_heap st) /\ s_appends ss <= 3 * re_size x * length (h_heap st) /\
      h_regex fuel g order max n =
        (let rs := render max (simplify x) 1 (mkR 0 false []) in
         if r_err rs then Regex_too_large else Regex_text (r_out rs),
         mkC (h_steps st) (s_bodies ss) (s_appends ss) (render_calls max (simplify x) 1 (mkR 0 false []))).
  Proof.
    intros C G Eb Er. pose proof (root_sim g Dn fuel n r G h_init _ rel_init) as K. rewrite Eb in K.
    destruct (h_alt (h_rule fuel g) (rule_alt r) h_init) as [[p st]|] eqn:Eh; [|contradiction].
    destruct K as (Re & P & L & T). destruct (simplify_cost (h_heap st) (rel_wf _ _ Re) p L) as (ss & Es & B1 & B2). rewrite T in Es, B2.
    pose proof (rel_err _ _ Re) as Er'. rewrite Er in Er'.
    exists p, st, ss. split; [reflexivity|]. split; [exact Er'|]. split; [exact L|]. split; [exact T|]. split; [apply Re|]. split; [exact Es|]. split; [exact B1|].
    split; [exact B2|]. unfold h_regex. rewrite C, G, Eh, Er', Es. reflexivity.
  Qed.
  Theorem regex_shared fuel order max n : fst (h_regex fuel g order max n) = regex fuel g order max n.
  Proof.
    destruct (rule_contains_cycle g order n) as [|[|]|] eqn:C; try (unfold h_regex, regex; rewrite C; reflexivity).
    destruct (get_rule n g) as [r|] eqn:G; [|unfold h_regex, regex; rewrite C, G; reflexivity].
    pose proof (root_sim g Dn fuel n r G h_init _ rel_init) as K.
    destruct (build_alt (build_rule fuel g) (rule_alt r) (mkB [] false)) as [[x bt]|] eqn:Eb.
    - destruct (b_err bt) eqn:Er.
      + destruct (h_alt (h_rule fuel g) (rule_alt r) h_init) as [[p st]|] eqn:Eh; [|contradiction].
        destruct K as (Re & _). pose proof (rel_err _ _ Re) as Er'. rewrite Er in Er'.
        unfold h_regex, regex. rewrite C, G, Eh, Eb, Er, Er'. reflexivity.
      + destruct (h_regex_run fuel order max n r x bt C G Eb Er) as (p & st & ss & _ & _ & _ & _ & _ & _ & _ & _ & E).
        rewrite E. unfold regex. rewrite C, G, Eb, Er. reflexivity.
    - destruct (h_alt (h_rule fuel g) (rule_alt r) h_init) as [[p st]|] eqn:Eh; [contradiction|].
      unfold h_regex, regex. rewrite C, G, Eh, Eb. reflexivity.
  Qed.
End Whole.
