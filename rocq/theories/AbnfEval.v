(** A text that says something has a derivation tree that evaluates to it.
    Its definitions are means of proof and model no code. *)
From Coq Require Import ZArith Arith String Ascii Bool List Lia.
From Verif Require Import Syntax Spec Utf8 Num Term Printer Tape Eval EvalProof ReadSpec TreeSpec TreeSound PropEval AbnfDen AbnfUnique AbnfRead.
Import ListNotations.
Local Open Scope string_scope.
Local Open Scope list_scope.
Local Open Scope Z_scope.

(** *** Terminals *)
Lemma index_first vs r : Forall (fun v => quotable v = true) vs -> last_index_byte 34 (vs ++ 34 :: r) <> None.
Proof.
  intros _. induction vs as [|v vs IH]; cbn [app last_index_byte].
  - destruct (last_index_byte 34 r); [discriminate|]. change (34 =? 34) with true. discriminate.
  - destruct (last_index_byte 34 (vs ++ 34 :: r)); [discriminate|congruence].
Qed.
Lemma last_index_quoted vs : Forall (fun v => quotable v = true) vs -> last_index_byte 34 (vs ++ [34]) = Some (length vs).
Proof.
  intros F. induction F as [|v vs Q F IH]; [reflexivity|]. cbn [app last_index_byte length]. rewrite IH. reflexivity.
Qed.
Lemma slice_inner a vs z : slice (a :: vs ++ [z]) 1 (S (length vs)) = vs.
Proof.
  unfold slice. cbn [skipn]. replace (S (length vs) - 1)%nat with (length vs) by lia.
  rewrite firstn_app, firstn_all, Nat.sub_diag. cbn [firstn]. apply app_nil_r.
Qed.
Lemma runes_ascii vs : Forall (fun v => 0 <= v <= 127) vs -> runes_of vs = vs.
Proof.
  unfold runes_of. intros F. induction F as [|v vs Q F IH]; [reflexivity|]. cbn [length runes_of_fuel decode_rune].
  assert (B : between 0 v 127 = true) by (unfold between; lia). rewrite B. cbn [Nat.max skipn]. rewrite IH. reflexivity.
Qed.
Lemma char_val_text s m vs : case_mark s m -> Forall (fun v => quotable v = true) vs -> char_val (m ++ 34 :: vs ++ [34]) = EChar s vs.
Proof.
  intros M F.
  assert (Q : forall b, (match index_byte 34 (34 :: vs ++ [34]), last_index_byte 34 (34 :: vs ++ [34]) with
      | Some i, Some j => if Nat.ltb i j then EChar b (runes_of (slice (34 :: vs ++ [34]) (S i) j)) else EChar b []
      | _, _ => EChar b [] end) = EChar b vs).
  { intros b. cbn [index_byte last_index_byte]. change (34 =? 34) with true. cbn match. rewrite (last_index_quoted vs F). cbn [Nat.ltb Nat.leb].
    rewrite slice_inner, runes_ascii; auto. eapply Forall_impl; [|exact F]. intros v H. unfold quotable in H. lia. }
  unfold char_val. destruct M as [|c C|c C]; cbn [app].
  - apply Q.
  - destruct C as [->| ->]; apply Q.
  - destruct C as [->| ->]; apply Q.
Qed.
Lemma prose_val_text vs : Forall (fun v => 32 <= v <= 126 /\ v <> 62) vs -> prose_val (60 :: vs ++ [62]) = EProse (map one_char vs).
Proof.
  intros F. unfold prose_val. cbn [length]. rewrite app_length. cbn [length].
  replace (S (length vs + 1) - 1)%nat with (S (length vs)) by lia. rewrite slice_inner. f_equal. apply map_ext_in. intros v I.
  rewrite Forall_forall in F. specialize (F v I). unfold string_of_rune.
  assert (Hv : valid_rune v = true) by (unfold valid_rune; lia). rewrite Hv.
  destruct (Z.leb_spec v 127); [|lia]. reflexivity.
Qed.

(** The bytes of numerals are neither hyphens nor dots. *)
Definition alnum_byte (c : Z) : Prop := 48 <= c.
Lemma base_digit_alnum b c : base_digit b c -> alnum_byte (cval c).
Proof.
  intros (r & d & _ & H & _). unfold digit_val in H. cbv zeta in H. change (Z.of_N (N_of_ascii c)) with (cval c) in H. unfold alnum_byte.
  destruct ((48 <=? cval c) && (cval c <=? 57)) eqn:X1; [lia|]. destruct ((65 <=? cval c) && (cval c <=? 70)) eqn:X2; [lia|].
  destruct ((97 <=? cval c) && (cval c <=? 102)) eqn:X3; [lia|discriminate].
Qed.
Lemma number_bytes b s : number_in b s -> Forall alnum_byte (bytes s).
Proof.
  intros N. apply number_digits in N as [_ F]. unfold bytes. rewrite Forall_map. eapply Forall_impl; [|exact F]. apply base_digit_alnum.
Qed.
Lemma split_none sep w : sep < 48 -> Forall alnum_byte w -> split_at sep w = [w].
Proof.
  intros L F. induction F as [|c w C F IH]; [reflexivity|]. cbn [split_at]. unfold alnum_byte in C.
  destruct (Z.eqb_spec c sep); [lia|]. rewrite IH. reflexivity.
Qed.
Lemma split_first sep w r : sep < 48 -> Forall alnum_byte w -> split_at sep (w ++ sep :: r) = w :: split_at sep r.
Proof.
  intros L F. induction F as [|c w C F IH].
  - cbn [app split_at]. rewrite Z.eqb_refl. reflexivity.
  - cbn [app split_at]. unfold alnum_byte in C. destruct (Z.eqb_spec c sep); [lia|]. rewrite IH. reflexivity.
Qed.
Lemma split_dotted b es : es <> [] -> Forall (number_in b) es -> split_at 46 (dotted es) = map bytes es.
Proof.
  intros NE F. induction F as [|s es N F IH]; [congruence|]. destruct es as [|s' es].
  - cbn [dotted map]. apply split_none; [lia|]. eapply number_bytes; eauto.
  - rewrite dotted_cons, split_first; [|lia|eapply number_bytes; eauto]. rewrite IH by discriminate. reflexivity.
Qed.
Lemma no_hyphen w : (forall c, In c w -> c = 46 \/ alnum_byte c) -> existsb (Z.eqb 45) w = false.
Proof.
  intros H. destruct (existsb (Z.eqb 45) w) eqn:E; auto. apply existsb_exists in E as (c & I & E). apply Z.eqb_eq in E. subst c.
  apply H in I. unfold alnum_byte in I. lia.
Qed.
Lemma dotted_in b es : Forall (number_in b) es -> forall c, In c (dotted es) -> c = 46 \/ alnum_byte c.
Proof.
  intros F. assert (A : forall s c, In s es -> In c (bytes s) -> alnum_byte c).
  { intros s c I J. rewrite Forall_forall in F. apply F in I. apply number_bytes in I. rewrite Forall_forall in I. auto. }
  clear F. induction es as [|s es IH]; intros c I; [destruct I|]. destruct es as [|s' es].
  - right. eapply A; [left; reflexivity|exact I].
  - rewrite dotted_cons in I. apply in_app_or in I as [I|[I|I]].
    + right. eapply A; [left; reflexivity|exact I].
    + left. auto.
    + apply IH; auto. intros s0 c0 I0. apply A. right. exact I0.
Qed.
Lemma base_of_letter b c : base_letter b c ->
  (if (c =? 98) || (c =? 66) then "b" else if (c =? 100) || (c =? 68) then "d" else if (c =? 120) || (c =? 88) then "x" else "d") = b.
Proof. intros [d [->| ->]|d [->| ->]|d [->| ->]]; reflexivity. Qed.
Lemma num_val_series b c es : base_letter b c -> es <> [] -> Forall (number_in b) es -> num_val (37 :: c :: dotted es) = ENum b StatSeries es.
Proof.
  intros B NE F. unfold num_val. rewrite (base_of_letter b c B). rewrite no_hyphen by (eapply dotted_in; eauto).
  erewrite split_dotted by eauto. rewrite map_map. f_equal. rewrite <- (map_id es) at 2. apply map_ext. apply string_bytes.
Qed.
Lemma num_val_range b c lo hi : base_letter b c -> number_in b lo -> number_in b hi ->
  num_val (37 :: c :: bytes lo ++ 45 :: bytes hi) = ENum b StatRange [lo; hi].
Proof.
  intros B N1 N2. unfold num_val. rewrite (base_of_letter b c B).
  assert (E : existsb (Z.eqb 45) (bytes lo ++ 45 :: bytes hi) = true).
  { apply existsb_exists. exists 45. split; [apply in_or_app; right; left; reflexivity|reflexivity]. }
  rewrite E, split_first, split_none; try lia; try (eapply number_bytes; eauto).
  cbn [map]. rewrite !string_bytes. reflexivity.
Qed.

(** *** [=/] *)
Lemma has_eq_slash_cons c u : has_eq_slash (c :: u) = ((c =? 61) && match u with c' :: _ => c' =? 47 | [] => false end) || has_eq_slash u.
Proof.
  cbn [has_eq_slash]. destruct (Z.eqb_spec c 61) as [->|E].
  - destruct u as [|c' u']; [reflexivity|]. destruct (Z.eqb_spec c' 47) as [->|E']; [reflexivity|]. cbn [andb orb].
    destruct c' as [|p|p]; try reflexivity. do 6 (destruct p as [p|p|]; try reflexivity). congruence.
  - cbn [andb orb]. destruct c as [|p|p]; try reflexivity. do 6 (destruct p as [p|p|]; try reflexivity). congruence.
Qed.
Lemma has_eq_slash_mid p s : has_eq_slash (p ++ [61; 47] ++ s) = true.
Proof. induction p as [|c p IH]; [reflexivity|]. cbn [app]. rewrite has_eq_slash_cons. cbn [app] in IH. rewrite IH. apply orb_true_r. Qed.
Lemma has_eq_slash_split p s : has_eq_slash (p ++ 61 :: s) = has_eq_slash p || has_eq_slash (61 :: s).
Proof.
  induction p as [|c p IH]; [reflexivity|]. cbn [app]. rewrite !has_eq_slash_cons. rewrite IH, has_eq_slash_cons, orb_assoc. f_equal. f_equal.
  destruct p; reflexivity.
Qed.
Lemma quiet_no_slash u : quiet_filler u -> has_eq_slash u = false.
Proof.
  induction u as [|c u IH]; intros Q; [reflexivity|]. rewrite has_eq_slash_cons, IH.
  2:{ intros p s E. apply (Q (c :: p) s). rewrite E. reflexivity. }
  destruct (Z.eqb_spec c 61) as [->|E]; [|reflexivity]. destruct u as [|c' u']; [reflexivity|].
  destruct (Z.eqb_spec c' 47) as [->|E']; [|reflexivity]. exfalso. apply (Q [] u'). reflexivity.
Qed.

Lemma loud_slash u : has_eq_slash u = true <-> loud_filler u.
Proof.
  split; [|intros (p & s & ->); apply has_eq_slash_mid].
  induction u as [|c u IH]; [discriminate|]. rewrite has_eq_slash_cons. intros H. apply orb_prop in H as [H|H].
  - apply andb_prop in H as [H1 H2]. apply Z.eqb_eq in H1 as ->. destruct u as [|c' u']; [discriminate|]. apply Z.eqb_eq in H2 as ->. exists [], u'. reflexivity.
  - apply IH in H as (p & s & ->). exists (c :: p), s. reflexivity.
Qed.
Lemma defined_slash b1 inc b2 : blanks b2 -> has_eq_slash (b1 ++ operator inc ++ b2) = inc || has_eq_slash b1 || has_eq_slash b2.
Proof.
  intros H2. destruct inc; [apply has_eq_slash_mid|]. cbn [operator app orb]. rewrite has_eq_slash_split. f_equal. rewrite has_eq_slash_cons.
  assert (F : match b2 with c' :: _ => c' =? 47 | [] => false end = false).
  { destruct H2 as [|x y Bx _]; [reflexivity|]. destruct Bx as [c [->| ->]|u c Nu _]; [reflexivity|reflexivity|]. destruct Nu; reflexivity. }
  rewrite F. reflexivity.
Qed.

(** *** Children *)
Lemma each_app {A} (f : ptree -> evr A) n l1 l2 x1 x2 : each_child f n l1 = EvOk x1 -> each_child f n l2 = EvOk x2 ->
  each_child f n (l1 ++ l2) = EvOk (x1 ++ x2).
Proof.
  revert x1. induction l1 as [|c l1 IH]; cbn [each_child app]; intros x1 H1 H2; [injection H1 as <-; exact H2|].
  destruct (String.eqb (pt_rule c) n); [|auto].
  destruct (f c) as [x| |]; try discriminate. destruct (each_child f n l1) as [xs| |] eqn:E; try discriminate. injection H1 as <-.
  rewrite (IH _ eq_refl H2). reflexivity.
Qed.
Lemma each_skip {A} (f : ptree -> evr A) n m ts : tag m ts -> m <> n -> each_child f n ts = EvOk [].
Proof.
  intros T N. induction T as [|t ts E T IH]; [reflexivity|]. cbn [each_child]. rewrite E. apply String.eqb_neq in N. rewrite N. exact IH.
Qed.
Lemma each_one {A} (f : ptree -> evr A) t x : f t = EvOk x -> each_child f (pt_rule t) [t] = EvOk [x].
Proof. intros E. cbn [each_child]. rewrite String.eqb_refl, E. reflexivity. Qed.
Lemma first_skip {A} (f : ptree -> evr A) names none m ts l : tag m ts -> existsb (String.eqb m) names = false ->
  first_child f names none (ts ++ l) = first_child f names none l.
Proof.
  intros T N. induction T as [|t ts E T IH]; [reflexivity|]. cbn [first_child app]. rewrite E, N. exact IH.
Qed.
Lemma find_skip n m ts l : tag m ts -> m <> n ->
  find (fun c => String.eqb (pt_rule c) n) (ts ++ l) = find (fun c => String.eqb (pt_rule c) n) l.
Proof.
  intros T N. induction T as [|t ts E T IH]; [reflexivity|]. cbn [find app]. rewrite E. apply String.eqb_neq in N. rewrite N. exact IH.
Qed.
Lemma tag_app m l1 l2 : tag m l1 -> tag m l2 -> tag m (l1 ++ l2).
Proof. intros. apply Forall_app. auto. Qed.
Lemma tag_leaf i j : tag "" [PT "" i j []].
Proof. constructor; [reflexivity|constructor]. Qed.

(** Nodes, one step. *)
Lemma e_alt_eq input n i j cs : e_node input KAlt (PT n i j cs) = each_child (fun c => e_node input KCat c) "concatenation" cs.
Proof. reflexivity. Qed.
Lemma e_cat_eq input n i j cs : e_node input KCat (PT n i j cs) = each_child (fun c => e_node input KRep c) "repetition" cs.
Proof. reflexivity. Qed.

Section Build.
  Variable input : list Z.
  Notation R := (AbnfDen.R abnf_grammar input).
  Notation p_star := (AbnfDen.p_star input).
  Notation p_plus := (AbnfDen.p_plus input).
  Notation p_byte := (AbnfDen.p_byte input).
  Notation p_ws := (AbnfUnique.p_ws input).
  Notation more_cat := (AbnfUnique.more_cat input).
  Notation more_alt := (AbnfUnique.more_alt input).
  Notation lit v := (p_byte (same_letter v)).
  Notation sp := (span input).

  Definition B_elem (e : elem) (w : list Z) : Prop := forall i j, sp i j w ->
    exists cs, R "element" i j [PT "element" i j cs] /\ e_node input KElem (PT "element" i j cs) = EvOk e.
  Definition B_rep (r : rep) (w : list Z) : Prop := forall i j, sp i j w ->
    exists cs, R "repetition" i j [PT "repetition" i j cs] /\ e_node input KRep (PT "repetition" i j cs) = EvOk r.
  Definition B_cat (c : concatenation) (w : list Z) : Prop := forall i j, sp i j w ->
    exists cs, p_seq (R "repetition") (p_star more_cat) i j cs /\ each_child (fun c => e_node input KRep c) "repetition" cs = EvOk c.
  Definition B_alt (a : alternation) (w : list Z) : Prop := forall i j, sp i j w ->
    exists cs, p_seq (R "concatenation") (p_star more_alt) i j cs /\ each_child (fun c => e_node input KCat c) "concatenation" cs = EvOk a.

  Lemma b_alt_node a w i j : B_alt a w -> sp i j w ->
    exists cs, R "alternation" i j [PT "alternation" i j cs] /\ e_node input KAlt (PT "alternation" i j cs) = EvOk a.
  Proof.
    intros B H. destruct (B _ _ H) as (cs & P & E). exists cs. split; [|exact E]. apply q_alternation. exists cs. auto.
  Qed.
  Lemma b_cat_node c w i j : B_cat c w -> sp i j w ->
    exists cs, R "concatenation" i j [PT "concatenation" i j cs] /\ e_node input KCat (PT "concatenation" i j cs) = EvOk c.
  Proof.
    intros B H. destruct (B _ _ H) as (cs & P & E). exists cs. split; [|exact E]. apply q_concatenation. exists cs. auto.
  Qed.

  Lemma b_bracket (n : string) (o c : Z) (mk : alternation -> elem) a b1 w b2 : 
    (forall v, peq (R n) (p_node n (p_seq (lit o) (p_seq p_ws (p_seq (R "alternation") (p_seq p_ws (lit c)))))) ->
    forall i j, R n i j v -> p_or (R "rulename") (p_or (R "group") (p_or (R "option") (p_or (R "char-val") (p_or (R "num-val") (R "prose-val"))))) i j v) ->
    peq (R n) (p_node n (p_seq (lit o) (p_seq p_ws (p_seq (R "alternation") (p_seq p_ws (lit c)))))) ->
    same_letter o o = true -> same_letter c c = true ->
    (forall i j cs a' s, first_child (fun t => match e_node input KAlt t with EvOk x => EvOk (mk x) | EvErr e => EvErr e | EvPanic => EvPanic end) ["alternation"] EvPanic cs = EvOk a' ->
      e_node input KElem (PT s i j [PT n i j cs]) = EvOk a') ->
    blanks b1 -> B_alt a w -> blanks b2 -> B_elem (mk a) (o :: b1 ++ w ++ b2 ++ [c]).
  Proof.
    intros In Q O C Ev H1 B H2 i j H. apply span_cons in H as [E H]. apply span_split in H as (k1 & S1 & H). apply span_split in H as (k2 & S2 & H).
    apply span_snoc in H as (k3 & S3 & E3 & ->).
    destruct (mk_blanks _ _ H1 _ _ S1) as (t1 & P1 & T1). destruct (mk_blanks _ _ H2 _ _ S3) as (t2 & P2 & T2).
    destruct (b_alt_node _ _ _ _ B S2) as (cs & Pa & Ea).
    set (kids := [PT "" i (S i) []] ++ t1 ++ [PT "alternation" k1 k2 cs] ++ t2 ++ [PT "" k3 (S k3) []]).
    assert (N : R n i (S k3) [PT n i (S k3) kids]).
    { apply Q. exists kids. split; [reflexivity|]. exists (S i). do 2 eexists. split; [apply mk_byte with o; auto|]. split; [|reflexivity].
      exists k1. do 2 eexists. split; [exact P1|]. split; [|reflexivity]. exists k2. do 2 eexists. split; [exact Pa|]. split; [|reflexivity].
      exists k3. do 2 eexists. split; [exact P2|]. split; [|reflexivity]. apply mk_byte with c; auto. }
    exists [PT n i (S k3) kids]. split.
    - apply q_element. eexists. split; [reflexivity|]. apply In; auto.
    - apply Ev. unfold kids. rewrite (first_skip _ _ _ "") by (auto using tag_leaf). rewrite (first_skip _ _ _ "c-wsp") by auto.
      cbn [first_child app pt_rule existsb]. change (String.eqb "alternation" "alternation") with true. cbn [orb]. rewrite Ea. reflexivity.
  Qed.

  Lemma build : (forall e w, text_elem e w -> B_elem e w) /\ (forall r w, text_rep r w -> B_rep r w) /\
    (forall c w, text_cat c w -> B_cat c w) /\ (forall a w, text_alt a w -> B_alt a w).
  Proof.
    apply text_mut.
    - intros n L i j H. destruct (mk_name input n i j L H) as (cs & N). exists [PT "rulename" i j cs]. split.
      + apply q_element. eexists. split; [reflexivity|]. left. exact N.
      + cbn. rewrite (span_slice _ _ _ _ H), string_bytes. reflexivity.
    - intros a b1 w b2 H1 _ B H2. apply (b_bracket "group" 40 41 EGroup); auto; try reflexivity.
      + intros v _ i j H. right; left. exact H.
      + apply q_group.
    - intros a b1 w b2 H1 _ B H2. apply (b_bracket "option" 91 93 EOption); auto; try reflexivity.
      + intros v _ i j H. do 2 right; left. exact H.
      + apply q_option.
    - intros s m vs M F i j H. destruct (mk_char input s m vs i j M F H) as (cs & N). exists [PT "char-val" i j cs]. split.
      + apply q_element. eexists. split; [reflexivity|]. do 3 right; left. exact N.
      + cbn. rewrite (span_slice _ _ _ _ H). f_equal. apply char_val_text; auto.
    - intros b c es B NE F i j H. destruct (mk_series input b c es i j B NE F H) as (cs & N). exists [PT "num-val" i j cs]. split.
      + apply q_element. eexists. split; [reflexivity|]. do 4 right; left. exact N.
      + cbn. rewrite (span_slice _ _ _ _ H). f_equal. apply num_val_series; auto.
    - intros b c lo hi B N1 N2 i j H. destruct (mk_range input b c lo hi i j B N1 N2 H) as (cs & N). exists [PT "num-val" i j cs]. split.
      + apply q_element. eexists. split; [reflexivity|]. do 4 right; left. exact N.
      + cbn. rewrite (span_slice _ _ _ _ H). f_equal. apply num_val_range; auto.
    - intros vs F i j H. destruct (mk_prose input vs i j F H) as (cs & N). exists [PT "prose-val" i j cs]. split.
      + apply q_element. eexists. split; [reflexivity|]. do 5 right. exact N.
      + cbn. rewrite (span_slice _ _ _ _ H). f_equal. apply prose_val_text; auto.
    - intros e w _ B i j H. destruct (B _ _ H) as (cs & N & E). exists [PT "element" i j cs]. split.
      + apply q_repetition. eexists. split; [reflexivity|]. exists i. do 2 eexists. split; [left; apply span_le in H; repeat split; lia|]. split; [exact N|reflexivity].
      + change (match e_node input KElem (PT "element" i j cs) with EvOk e => EvOk (Rep 1 1 e) | EvErr e => EvErr e | EvPanic => EvPanic end = EvOk (Rep 1 1 e)).
        rewrite E. reflexivity.
    - intros s mn mx e w Rp _ B i j H. apply span_split in H as (k & H1 & H2). destruct (mk_repeat input s mn mx i k Rp H1) as (cr & Nr).
      destruct (B _ _ H2) as (cs & N & E). exists ([PT "repeat" i k cr] ++ [PT "element" k j cs]). split.
      + apply q_repetition. eexists. split; [reflexivity|]. exists k. do 2 eexists. split; [right; exact Nr|]. split; [exact N|reflexivity].
      + change ((let '(mn0, mx0) := parse_repeat (slice input i k) in
          match e_node input KElem (PT "element" k j cs) with EvOk e => EvOk (Rep mn0 mx0 e) | EvErr e => EvErr e | EvPanic => EvPanic end) = EvOk (Rep (saturate mn) (saturate mx) e)).
        rewrite (span_slice _ _ _ _ H1), (C41_repeat_bounds_saturate _ _ _ Rp), E. reflexivity.
    - intros r w _ B i j H. destruct (B _ _ H) as (cs & N & E). exists [PT "repetition" i j cs]. split.
      + exists j. do 2 eexists. split; [exact N|]. split; [constructor; apply span_le in H; lia|reflexivity].
      + apply (each_one (fun c => e_node input KRep c)). exact E.
    - intros r w b1 b c w' _ B Bl1 Bl _ Bc i j H. apply span_split in H as (k1 & H1 & H). apply span_split in H as (k2 & H2 & H). apply span_split in H as (k3 & H3 & H4).
      destruct (B _ _ H1) as (cs & N & E). destruct (mk_blank _ _ _ _ Bl1 H2) as (c1 & P1). destruct (mk_blanks _ _ Bl _ _ H3) as (t2 & P2 & T2).
      destruct (Bc _ _ H4) as (ts & (k4 & r1 & r2 & X1 & X2 & ->) & Ec).
      exists ([PT "repetition" i k1 cs] ++ ([PT "c-wsp" k1 k2 c1] ++ t2) ++ r1 ++ r2). split.
      + exists k1. do 2 eexists. split; [exact N|]. split; [|reflexivity]. rewrite app_assoc. econstructor; [|exact X2].
        exists k3. do 2 eexists. split; [exists k2; do 2 eexists; split; [exact P1|]; split; [exact P2|reflexivity]|]. split; [exact X1|reflexivity].
      + apply (each_app _ _ _ _ [r] c); [apply (each_one (fun c => e_node input KRep c)); exact E|].
        apply (each_app _ _ _ _ [] c); [|exact Ec]. apply (each_skip _ _ "c-wsp"); [|discriminate]. constructor; [reflexivity|exact T2].
    - intros c w _ B i j H. destruct (b_cat_node _ _ _ _ B H) as (cs & N & E). exists [PT "concatenation" i j cs]. split.
      + exists j. do 2 eexists. split; [exact N|]. split; [constructor; apply span_le in H; lia|reflexivity].
      + apply (each_one (fun c => e_node input KCat c)). exact E.
    - intros c w b1 b2 a w' _ B Bl1 Bl2 _ Ba i j H. apply span_split in H as (k1 & H1 & H). apply span_split in H as (k2 & H2 & H).
      apply span_cons in H as [E0 H]. apply span_split in H as (k3 & H3 & H4).
      destruct (b_cat_node _ _ _ _ B H1) as (cs & N & E). destruct (mk_blanks _ _ Bl1 _ _ H2) as (t1 & P1 & T1). destruct (mk_blanks _ _ Bl2 _ _ H3) as (t2 & P2 & T2).
      destruct (Ba _ _ H4) as (ts & (k4 & r1 & r2 & X1 & X2 & ->) & Ec).
      exists ([PT "concatenation" i k1 cs] ++ (t1 ++ [PT "" k2 (S k2) []] ++ t2 ++ r1) ++ r2). split.
      + exists k1. do 2 eexists. split; [exact N|]. split; [|reflexivity]. econstructor; [|exact X2].
        exists k2. do 2 eexists. split; [exact P1|]. split; [|reflexivity]. exists (S k2). do 2 eexists. split; [apply mk_byte with 47; [exact E0|reflexivity]|]. split; [|reflexivity].
        exists k3. do 2 eexists. split; [exact P2|]. split; [exact X1|reflexivity].
      + apply (each_app _ _ _ _ [c] a); [apply (each_one (fun c => e_node input KCat c)); exact E|].
        rewrite <- !app_assoc. apply (each_app _ _ _ _ [] a); [apply (each_skip _ _ "c-wsp"); [auto|discriminate]|].
        apply (each_app _ _ _ _ [] a); [apply (each_skip _ _ ""); [apply tag_leaf|discriminate]|].
        apply (each_app _ _ _ _ [] a); [apply (each_skip _ _ "c-wsp"); [auto|discriminate]|]. exact Ec.
  Qed.

  (** *** Rules and lines *)
  (** Whether the operator among the children of [defined-as] is [=/]. *)
  Definition shown_op (t : ptree) : option bool :=
    match find (fun c => String.eqb (pt_rule c) "defined-as") (pt_children t) with
    | Some d => match find (fun c => String.eqb (pt_rule c) "") (pt_children d) with
                | Some o => Some (Nat.eqb (pt_end o) (pt_start o + 2))
                | None => None
                end
    | None => None
    end.

  Definition shown_ops (ts : list ptree) : list (option bool) :=
    flat_map (fun t => if String.eqb (pt_rule t) "rule" then [shown_op t] else []) ts.

  Lemma build_defined b1 inc b2 i j : blanks b1 -> blanks b2 -> sp i j (b1 ++ operator inc ++ b2) ->
    exists cs, R "defined-as" i j [PT "defined-as" i j cs] /\
      match find (fun c => String.eqb (pt_rule c) "") cs with Some o => Some (Nat.eqb (pt_end o) (pt_start o + 2)) | None => None end = Some inc.
  Proof.
    intros H1 H2 H. apply span_split in H as (k1 & S1 & H). apply span_split in H as (k2 & S2 & S3).
    destruct (mk_blanks _ _ H1 _ _ S1) as (t1 & P1 & T1). destruct (mk_blanks _ _ H2 _ _ S3) as (t2 & P2 & T2).
    assert (O : p_or (lit 61) (p_two input (same_letter 61) (same_letter 47)) k1 k2 [PT "" k1 k2 []] /\ Nat.eqb k2 (k1 + 2) = inc).
    { destruct inc; cbn [operator] in S2.
      - apply span_two in S2 as (E1 & E2 & ->). split; [right; apply mk_two with 61 47; auto|]. apply Nat.eqb_eq. lia.
      - apply span_one in S2 as (E1 & ->). split; [left; apply mk_byte with 61; auto|]. apply Nat.eqb_neq. lia. }
    destruct O as [O1 O2]. exists (t1 ++ [PT "" k1 k2 []] ++ t2). split.
    - apply q_defined. eexists. split; [reflexivity|]. exists k1. do 2 eexists. split; [exact P1|]. split; [|reflexivity].
      exists k2. do 2 eexists. split; [exact O1|]. split; [exact P2|reflexivity].
    - rewrite (find_skip _ "c-wsp") by (auto; discriminate). cbn [find app pt_rule String.eqb pt_end pt_start]. rewrite O2. reflexivity.
  Qed.

  Lemma build_text n b1 inc b2 a w0 ws nl i j : lex_name n = true -> blanks b1 -> blanks b2 -> text_alt a w0 -> Forall white ws -> newline nl ->
    sp i j (bytes n ++ b1 ++ operator inc ++ b2 ++ w0 ++ ws ++ nl) ->
    exists cs, R "rule" i j [PT "rule" i j cs] /\ e_rule input (PT "rule" i j cs) = EvOk (mkRule n a, has_eq_slash (b1 ++ operator inc ++ b2)) /\
      shown_op (PT "rule" i j cs) = Some inc.
  Proof.
    intros L H1 H2 A W N H.
    replace (bytes n ++ b1 ++ operator inc ++ b2 ++ w0 ++ ws ++ nl) with (bytes n ++ (b1 ++ operator inc ++ b2) ++ (w0 ++ ws) ++ nl) in H by (rewrite <- !app_assoc; reflexivity).
    apply span_split in H as (k1 & S1 & H). apply span_split in H as (k2 & S2 & H). apply span_split in H as (k3 & S3 & S4).
    apply span_split in S3 as (k4 & S3 & S5).
    destruct (mk_name _ _ _ _ L S1) as (c1 & P1). destruct (build_defined _ _ _ _ _ H1 H2 S2) as (c2 & P2 & F2).
    destruct build as (_ & _ & _ & Ba). destruct (b_alt_node _ _ _ _ (Ba _ _ A) S3) as (c3 & P3 & E3).
    destruct (mk_wsps _ _ _ _ W S5) as (t5 & P5 & T5). destruct (mk_newline _ _ _ _ N S4) as (c4 & P4).
    exists ([PT "rulename" i k1 c1] ++ [PT "defined-as" k1 k2 c2] ++ [PT "elements" k2 k3 ([PT "alternation" k2 k4 c3] ++ t5)] ++ [PT "c-nl" k3 j c4]).
    split; [|split].
    - apply q_rule. eexists. split; [reflexivity|]. exists k1. do 2 eexists. split; [exact P1|]. split; [|reflexivity].
      exists k2. do 2 eexists. split; [exact P2|]. split; [|reflexivity]. exists k3. do 2 eexists. split; [|split; [exact P4|reflexivity]].
      apply q_elements. eexists. split; [reflexivity|]. exists k4. do 2 eexists. split; [exact P3|]. split; [exact P5|reflexivity].
    - change (e_rule input (PT "rule" i j ([PT "rulename" i k1 c1] ++ [PT "defined-as" k1 k2 c2] ++ [PT "elements" k2 k3 ([PT "alternation" k2 k4 c3] ++ t5)] ++ [PT "c-nl" k3 j c4])))
        with (match e_node input KAlt (PT "alternation" k2 k4 c3) with
          | EvOk alt => EvOk (mkRule (string_of_bytes (slice input i k1)) alt, has_eq_slash (slice input k1 k2))
          | EvErr x => EvErr x | EvPanic => EvPanic end).
      rewrite E3, (span_slice _ _ _ _ S1), (span_slice _ _ _ _ S2), string_bytes. reflexivity.
    - exact F2.
  Qed.
  Lemma build_rule filler d w i j : text_rule filler d w -> sp i j w ->
    exists cs f, R "rule" i j [PT "rule" i j cs] /\ e_rule input (PT "rule" i j cs) = EvOk (fst d, f) /\
      shown_op (PT "rule" i j cs) = Some (snd d) /\
      ((forall u, filler u -> quiet_filler u) -> f = snd d) /\
      ((forall u, filler u -> has_eq_slash u = true) -> f = true).
  Proof.
    intros [n b1 inc b2 a w0 ws nl L H1 Q1 H2 Q2 A W N] H. destruct (build_text _ _ _ _ _ _ _ _ _ _ L H1 H2 A W N H) as (cs & P & E & O).
    exists cs. eexists. split; [exact P|]. split; [exact E|]. split; [exact O|]. rewrite (defined_slash b1 inc b2 H2). split; intros Q.
    - rewrite (quiet_no_slash _ (Q _ Q1)), (quiet_no_slash _ (Q _ Q2)), !orb_false_r. reflexivity.
    - rewrite (Q _ Q1), orb_true_r. reflexivity.
  Qed.
  Lemma build_taken_rule d w i j : taken_rule d w -> sp i j w ->
    exists cs, R "rule" i j [PT "rule" i j cs] /\ e_rule input (PT "rule" i j cs) = EvOk d.
  Proof.
    intros [n b1 inc b2 a w0 ws nl inc' L H1 H2 A W N F] H. destruct (build_text _ _ _ _ _ _ _ _ _ _ L H1 H2 A W N H) as (cs & P & E & _).
    exists cs. split; [exact P|]. rewrite E, (defined_slash b1 inc b2 H2). do 2 f_equal. rewrite <- !loud_slash in F. clear - F.
    destruct inc, inc', (has_eq_slash b1), (has_eq_slash b2); try reflexivity; exfalso; intuition discriminate.
  Qed.

  Lemma build_lines filler ds w : text_lines filler ds w -> forall i j, sp i j w ->
    exists ts ds', p_star (AbnfUnique.line input) i j ts /\ tree_defs input ts ds' /\ map fst ds' = map fst ds /\
      shown_ops ts = map (fun d => Some (snd d)) ds /\ ((forall u, filler u -> quiet_filler u) -> ds' = ds) /\
      ((forall u, filler u -> has_eq_slash u = true) -> Forall (fun d => snd d = true) ds').
  Proof.
    intros H. induction H as [|d w ds w' T H IH|ws nl ds w' W N H IH]; intros i j S.
    - apply span_empty in S as [<- L]. exists [], []. split; [constructor; auto|]. split; [constructor|]. split; [auto|]. split; [auto|]. split; [auto|]. constructor.
    - apply span_split in S as (k & S1 & S2). destruct (build_rule _ _ _ _ _ T S1) as (cs & f & P & E & O & Q & Ld).
      destruct (IH _ _ S2) as (ts & ds' & Ps & D & M & Os & Qs & Ls). exists ([PT "rule" i k cs] ++ ts), ((fst d, f) :: ds').
      split; [econstructor; [left; exact P|exact Ps]|]. split; [apply td_rule; auto|]. split; [cbn [map fst]; congruence|].
      split; [change (shown_op (PT "rule" i k cs) :: shown_ops ts = Some (snd d) :: map (fun d => Some (snd d)) ds); congruence|].
      split; [intros Qf; rewrite (Q Qf), (Qs Qf); destruct d; reflexivity|]. intros Lf. constructor; [cbn [snd]; auto|auto].
    - apply span_split in S as (k & S1 & S2). apply span_split in S2 as (k' & S2 & S3).
      destruct (mk_wsps _ _ _ _ W S1) as (t1 & P1 & T1). destruct (mk_newline _ _ _ _ N S2) as (c2 & P2).
      destruct (IH _ _ S3) as (ts & ds' & Ps & D & M & Os & Qs & Ls). exists ((t1 ++ [PT "c-nl" k k' c2]) ++ ts), ds'.
      split; [econstructor; [right; exists k; do 2 eexists; split; [exact P1|]; split; [exact P2|reflexivity]|exact Ps]|].
      split; [|split; [auto|split; [|auto]]]; rewrite <- app_assoc.
      2:{ rewrite <- Os. clear - T1. induction T1 as [|t t1 E T1 IH]; [reflexivity|]. cbn [app]. unfold shown_ops in *. cbn [flat_map]. rewrite E. exact IH. }
      clear - T1 D. induction T1 as [|t t1 E T1 IH]; cbn [app].
      + apply td_skip; [discriminate|exact D].
      + apply td_skip; [rewrite E; discriminate|exact IH].
  Qed.
  Lemma build_taken ds w : taken_lines ds w -> forall i j, sp i j w ->
    exists ts, p_star (AbnfUnique.line input) i j ts /\ tree_defs input ts ds.
  Proof.
    intros H. induction H as [|d w ds w' T H IH|ws nl ds w' W N H IH]; intros i j S.
    - apply span_empty in S as [<- L]. exists []. split; [constructor; auto|constructor].
    - apply span_split in S as (k & S1 & S2). destruct (build_taken_rule _ _ _ _ T S1) as (cs & P & E).
      destruct (IH _ _ S2) as (ts & Ps & D). exists ([PT "rule" i k cs] ++ ts).
      split; [econstructor; [left; exact P|exact Ps]|]. apply td_rule; auto.
    - apply span_split in S as (k & S1 & S2). apply span_split in S2 as (k' & S2 & S3).
      destruct (mk_wsps _ _ _ _ W S1) as (t1 & P1 & T1). destruct (mk_newline _ _ _ _ N S2) as (c2 & P2).
      destruct (IH _ _ S3) as (ts & Ps & D). exists ((t1 ++ [PT "c-nl" k k' c2]) ++ ts).
      split; [econstructor; [right; exists k; do 2 eexists; split; [exact P1|]; split; [exact P2|reflexivity]|exact Ps]|].
      rewrite <- app_assoc. clear - T1 D. induction T1 as [|t t1 E T1 IH]; cbn [app].
      + apply td_skip; [discriminate|exact D].
      + apply td_skip; [rewrite E; discriminate|exact IH].
  Qed.
End Build.

(** What a text says and what it is taken for differ in operators only, and not at all when
    the filler is quiet. *)
Lemma says_taken filler w ds : text_says filler w ds -> exists ds', text_taken w ds' /\ map fst ds' = map fst ds /\
  ((forall u, filler u -> quiet_filler u) -> ds' = ds).
Proof.
  intros [NE H]. cut (exists ds', taken_lines ds' w /\ map fst ds' = map fst ds /\ ((forall u, filler u -> quiet_filler u) -> ds' = ds)).
  { intros (ds' & A & B). exists ds'. split; [split; assumption|exact B]. }
  clear NE. induction H as [|d w ds w' T H IH|ws nl ds w' W N H IH].
  - exists []. repeat split. constructor.
  - destruct IH as (ds' & A & B & C). destruct T as [n b1 inc b2 a w0 ws nl Ln H1 Q1 H2 Q2 Al W N].
    exists ((mkRule n a, inc || has_eq_slash b1 || has_eq_slash b2) :: ds'). split; [|split].
    + apply kl_rule; [|exact A]. apply taken_rule_intro; auto. rewrite !orb_true_iff, !loud_slash. tauto.
    + cbn [map fst]. congruence.
    + intros Q. rewrite (C Q), (quiet_no_slash _ (Q _ Q1)), (quiet_no_slash _ (Q _ Q2)), !orb_false_r. reflexivity.
  - destruct IH as (ds' & A & B & C). exists ds'. split; [apply kl_blank; assumption|]. auto.
Qed.
Lemma quiet_taken w ds : text_says quiet_filler w ds -> text_taken w ds.
Proof. intros H. destruct (says_taken _ _ _ H) as (ds' & T & _ & Q). rewrite (Q (fun u h => h)) in T. exact T. Qed.
Lemma taken_says w ds : text_taken w ds -> exists ds', text_says any_filler w ds' /\ map fst ds' = map fst ds.
Proof.
  intros [NE H]. cut (exists ds', text_lines any_filler ds' w /\ map fst ds' = map fst ds).
  { intros (ds' & A & B). exists ds'. split; [split; assumption|exact B]. }
  clear NE. induction H as [|d w ds w' T H IH|ws nl ds w' W N H IH].
  - exists []. split; [constructor|reflexivity].
  - destruct IH as (ds' & A & B). destruct T as [n b1 inc b2 a w0 ws nl inc' Ln H1 H2 Al W N F]. exists ((mkRule n a, inc) :: ds'). split.
    + apply tl_rule; [|exact A]. apply text_rule_intro; auto; exact Logic.I.
    + cbn [map fst]. congruence.
  - destruct IH as (ds' & A & B). exists ds'. split; [apply tl_blank; assumption|exact B].
Qed.
Theorem taken_tree w ds : text_taken w ds -> exists t, Derivation abnf_grammar "rulelist" w t /\ tree_defs w (pt_children t) ds.
Proof.
  intros [NE H]. assert (S : span w 0 (length w) w) by (exists [], []; rewrite app_nil_r; auto).
  destruct (build_taken w _ _ H _ _ S) as (ts & P & D). exists (PT "rulelist" 0 (length w) ts).
  split; [|exact D]. apply (q_rulelist w). eexists. split; [reflexivity|]. apply star_plus; auto. destruct w; [congruence|]. cbn [length]. lia.
Qed.

Theorem text_tree filler w ds : text_says filler w ds ->
  exists t ds', Derivation abnf_grammar "rulelist" w t /\ tree_defs w (pt_children t) ds' /\ map fst ds' = map fst ds /\
    shown_ops (pt_children t) = map (fun d => Some (snd d)) ds /\ ((forall u, filler u -> quiet_filler u) -> ds' = ds) /\
      ((forall u, filler u -> has_eq_slash u = true) -> Forall (fun d => snd d = true) ds').
Proof.
  intros [NE H]. assert (S : span w 0 (length w) w) by (exists [], []; rewrite app_nil_r; auto).
  destruct (build_lines w _ _ _ H _ _ S) as (ts & ds' & P & D & M & O & Q & Ld). exists (PT "rulelist" 0 (length w) ts), ds'.
  split; [|auto]. apply (q_rulelist w). eexists. split; [reflexivity|]. apply star_plus; auto. destruct w; [congruence|]. cbn [length]. lia.
Qed.
