(** The text printed for a definition that can be written says it, up to [%s].
    Its definitions are means of proof and model no code. *)
From Coq Require Import ZArith Arith String Ascii Bool List Lia.
From Verif Require Import Syntax Spec Utf8 Num Term Printer PrintInj ReadSpec AbnfRead AbnfForward AbnfUnique.
Import ListNotations.
Local Open Scope string_scope.
Local Open Scope list_scope.
Local Open Scope Z_scope.

Lemma bytes_sapp a b : bytes (a ++ b)%string = bytes a ++ bytes b.
Proof. induction a as [|c a IH]; [reflexivity|]. cbn [append]. rewrite !bytes_cons, IH. reflexivity. Qed.

(** *** Numbers *)
Lemma decimal_itoa s : all_chars is_dig s = true -> forall acc, decimal acc (bytes s) = digits_val 10 acc s.
Proof.
  induction s as [|c s IH]; intros A acc; [reflexivity|]. cbn [all_chars] in A. apply andb_true_iff in A as [A1 A2].
  rewrite bytes_cons. cbn [decimal digits_val]. unfold is_dig in A1. rewrite A1. unfold digit_val. cbv zeta.
  change (Z.of_N (N_of_ascii c)) with (cval c). rewrite A1. assert (L : (cval c - 48 <? 10) = true) by lia. rewrite L.
  rewrite IH by exact A2. f_equal. lia.
Qed.
Lemma itoa_denotes v : 0 <= v -> digits_denote (bytes (itoa v)) v.
Proof.
  intros H. destruct (itoa_pos v H) as [N E]. split.
  - destruct (itoa v); [congruence|discriminate].
  - rewrite decimal_itoa by (apply itoa_digits; exact H). unfold numeral in N. cbn [radix_of String.eqb] in N. 
    change (radix_of "d") with (Some 10) in N. destruct (itoa v); [congruence|exact N].
Qed.

Definition fits (v : Z) : Prop := 0 <= v <= 2 ^ 63 - 1.
Lemma fits_saturate v : fits v -> saturate v = v.
Proof. unfold fits, saturate, inf. intros H. destruct (Z.eqb_spec v (-1)); lia. Qed.
Lemma decimal_nn s : forall acc v, 0 <= acc -> decimal acc s = Some v -> 0 <= v.
Proof.
  induction s as [|c s IH]; cbn [decimal]; intros acc v A H; [injection H as <-; auto|].
  destruct ((48 <=? c) && (c <=? 57)) eqn:E; [|discriminate]. eapply IH; [|exact H]. lia.
Qed.
Lemma saturate_fits v : 0 <= v -> fits (saturate v).
Proof. unfold fits, saturate, inf. intros H. destruct (Z.eqb_spec v (-1)); lia. Qed.
Lemma repeat_bounds s mn mx : repeat_denotes s mn mx -> fits (saturate mn) /\ (saturate mx = inf \/ fits (saturate mx)).
Proof.
  assert (D : forall s v, digits_denote s v -> fits (saturate v)).
  { intros s0 v [_ H]. apply saturate_fits. eapply decimal_nn; [|exact H]. lia. }
  intros [s0 n H| |s0 n H|s0 m H|s0 n s1 m H H']; (split; [eauto|]); eauto; try (left; reflexivity).
  all: try (vm_compute; split; discriminate). 
Qed.

(** *** Elements *)
Lemma quoted_bytes vs : Forall (fun v => quotable v = true) vs ->
  bytes (cat_all (map (fun v => string_of_bytes (string_of_rune v)) vs)) = vs.
Proof.
  intros F. induction F as [|v vs Q F IH]; [reflexivity|]. cbn [map cat_all]. rewrite bytes_sapp, IH.
  unfold quotable in Q. assert (E : string_of_rune v = [v]).
  { unfold string_of_rune. assert (Hv : valid_rune v = true) by (unfold valid_rune; lia). rewrite Hv. destruct (Z.leb_spec v 127); [reflexivity|lia]. }
  rewrite E, bytes_string; [reflexivity|]. constructor; [lia|constructor].
Qed.
Lemma char_bytes vs : Forall (fun v => quotable v = true) vs -> bytes (char_string vs) = 34 :: vs ++ [34].
Proof. intros F. unfold char_string. rewrite bytes_cons, bytes_sapp, quoted_bytes by exact F. reflexivity. Qed.
Lemma prose_bytes vs : Forall (fun v => 32 <= v <= 126 /\ v <> 62) vs -> bytes (cat_all (map one_char vs)) = vs.
Proof.
  intros F. induction F as [|v vs Q F IH]; [reflexivity|]. cbn [map cat_all]. rewrite bytes_sapp, IH. unfold one_char.
  rewrite bytes_cons. rewrite cval_byte by lia. reflexivity.
Qed.
Lemma join_cons sep x y l : join sep (x :: y :: l) = (x ++ sep ++ join sep (y :: l))%string.
Proof. reflexivity. Qed.
Lemma dotted_join es : bytes (join "." es) = dotted es.
Proof.
  induction es as [|s es IH]; [reflexivity|]. destruct es as [|s' es]; [reflexivity|].
  rewrite join_cons, dotted_cons, !bytes_sapp, IH. reflexivity.
Qed.
Lemma base_bytes b c : base_letter b c -> exists c', bytes b = [c'] /\ base_letter b c'.
Proof. intros [d D|d D|d D]; eexists; (split; [reflexivity|]); constructor; left; reflexivity. Qed.

Definition P_elem (e : elem) : Prop := text_elem (erase_elem e) (bytes (elem_string e)).
Definition P_rep (r : rep) : Prop := text_rep (erase_rep r) (bytes (rep_string r)).
Definition P_cat (c : concatenation) : Prop := text_cat (map erase_rep c) (bytes (cat_string c)).
Definition P_alt (a : alternation) : Prop := text_alt (erase_alt a) (bytes (alt_string a)).

Lemma repeat_text mn mx e : fits mn -> (mx = inf \/ fits mx) -> P_elem e -> P_rep (Rep mn mx e).
Proof.
  intros Fn Fx E. unfold P_rep. cbn [erase_rep rep_string]. rewrite bytes_sapp. unfold repeat_string.
  assert (Sn : saturate mn = mn) by (apply fits_saturate; auto).
  assert (Sx : saturate mx = mx) by (destruct Fx as [->|Fx]; [reflexivity|apply fits_saturate; auto]).
  assert (K : forall s, repeat_denotes s mn mx -> text_rep (Rep mn mx (erase_elem e)) (s ++ bytes (elem_string e))).
  { intros s D. rewrite <- Sn, <- Sx. constructor; auto. }
  destruct (Z.eqb_spec mn mx) as [<-|Ne].
  - destruct (Z.eqb_spec mn 1) as [->|N1]; [apply (tr_once _ _ E)|]. apply K. constructor. apply itoa_denotes. apply Fn.
  - apply K. rewrite !bytes_sapp. change (bytes "*") with [42].
    destruct (Z.eqb_spec mn 0) as [->|N0]; destruct (Z.eqb_spec mx inf) as [->|Ni].
    + apply rd_any.
    + apply rd_max. apply itoa_denotes. destruct Fx as [Fx|Fx]; [congruence|apply Fx].
    + apply rd_min. apply itoa_denotes. apply Fn.
    + apply rd_both; apply itoa_denotes; [apply Fn|]. destruct Fx as [Fx|Fx]; [congruence|apply Fx].
Qed.

Lemma a_blank : blanks [32].
Proof. apply (bs_cons [32] []); [|constructor]. constructor. left. reflexivity. Qed.

Lemma print_text :
  (forall e w, text_elem e w -> P_elem e) /\ (forall r w, text_rep r w -> P_rep r) /\
  (forall c w, text_cat c w -> P_cat c) /\ (forall a w, text_alt a w -> P_alt a).
Proof.
  apply text_mut; unfold P_elem.
  - intros n L. apply (te_rule n L).
  - intros a b1 w b2 _ _ H _. cbn [erase_elem elem_string]. change (map (map erase_rep) a) with (erase_alt a).
    change (join " / " (map (fun c => join " " (map rep_string c)) a)) with (alt_string a).
    rewrite !bytes_sapp. apply (te_group (erase_alt a) [] (bytes (alt_string a)) []); [constructor|exact H|constructor].
  - intros a b1 w b2 _ _ H _. cbn [erase_elem elem_string]. change (map (map erase_rep) a) with (erase_alt a).
    change (join " / " (map (fun c => join " " (map rep_string c)) a)) with (alt_string a).
    rewrite !bytes_sapp. apply (te_option (erase_alt a) [] (bytes (alt_string a)) []); [constructor|exact H|constructor].
  - intros s m vs _ F. cbn [erase_elem elem_string]. rewrite char_bytes by exact F. apply (te_char false [] vs); [constructor|exact F].
  - intros b c es B NE F. cbn [erase_elem elem_string]. unfold num_string. rewrite !bytes_sapp, dotted_join.
    destruct (base_bytes b c B) as (c' & -> & B'). apply (te_series b c' es B' NE F).
  - intros b c lo hi B N1 N2. cbn [erase_elem elem_string]. unfold num_string. rewrite !bytes_sapp, join_cons, !bytes_sapp.
    destruct (base_bytes b c B) as (c' & -> & B'). apply (te_range b c' lo hi B' N1 N2).
  - intros vs F. cbn [erase_elem elem_string]. rewrite !bytes_sapp, prose_bytes by exact F. apply (te_prose vs F).
  - intros e w _ H. apply repeat_text; auto; [|right]; vm_compute; split; discriminate.
  - intros s mn mx e w D _ H. destruct (repeat_bounds _ _ _ D). apply repeat_text; auto.
  - intros r w _ H. apply (tc_one _ _ H).
  - intros r w b1 b c w' _ H _ _ Hc IH. unfold P_cat in *. destruct c as [|r' c]; [inversion Hc|].
    unfold cat_string in *. cbn [map] in *. rewrite join_cons, !bytes_sapp.
    apply (tc_more _ _ [32] [] _ _ H); [constructor; left; reflexivity|constructor|exact IH].
  - intros c w _ H. apply (ta_one _ _ H).
  - intros c w b1 b2 a w' _ H _ _ Ha IH. unfold P_alt in *. destruct a as [|c' a]; [inversion Ha|].
    unfold alt_string, erase_alt in *. cbn [map] in *. rewrite join_cons, !bytes_sapp.
    apply (ta_more _ _ [32] [32] _ _ H); [apply a_blank|apply a_blank|exact IH].
Qed.
