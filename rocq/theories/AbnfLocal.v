(** No part of the ABNF grammar can be divided in two ways over the same part of a
    text (rules.go:516-1866), so its forests have one pack per node.
    Its definitions are means of proof and model no code. *)
From Coq Require Import ZArith Arith String Ascii Bool List Lia.
From Verif Require Import Syntax Spec Term Check Occ TreeSpec TreeSound TreeComplete TreeLang ForestUnique AbnfDen AbnfUnique.
Import ListNotations.
Local Open Scope string_scope.
Local Open Scope list_scope.
Local Open Scope Z_scope.

Section Local.
  Variable input : list Z.
  Notation len := (length input).
  Notation den_cat := (AbnfDen.den_cat abnf_grammar input).
  Notation den_rep := (AbnfDen.den_rep abnf_grammar input).
  Notation den_elem := (AbnfDen.den_elem abnf_grammar input).
  Notation pr := AbnfDen.pr.

  (** Results that reach the end of the input. *)
  Definition apart (P Q : pr) : Prop := forall l t t', P l len t -> Q l len t' -> False.
  Definition split1 (P Q : pr) : Prop := forall l m t1 t2 m' t1' t2', P l m t1 -> Q m len t2 -> P l m' t1' -> Q m' len t2' -> m = m'.
  Definition filled (P : pr) : Prop := forall t, P len len t -> False.

  Fixpoint all_apart (l : list pr) : Prop :=
    match l with [] => True | P :: l' => fold_right (fun Q X => apart P Q /\ X) True l' /\ all_apart l' end.
  (* [pre] before the part considered, in order *)
  Fixpoint all_split (pre c : list pr) : Prop :=
    match c with [] => True | P :: c' => match pre with [] => True | _ => split1 (p_seqs input pre) P end /\ all_split (pre ++ [P]) c' end.

  Definition good_alt (a : alternation) : Prop :=
    all_apart (map den_cat a) /\ fold_right (fun c X => all_split [] (map den_rep c) /\ X) True a.
  Definition good_opt (a : alternation) : Prop := fold_right (fun c X => filled (den_cat c) /\ X) True a.
  Definition good_rep (r : rep) : Prop :=
    match r with
    | Rep mn mx e =>
        (if (mn =? 1) && (mx =? 1) then True
         else filled (den_elem e) /\ split1 (den_elem e) (AbnfDen.p_star input (den_elem e))) /\
        match e with EGroup a => good_alt a | EOption a => good_alt a /\ good_opt a | _ => True end
    end.

  Lemma all_apart_nth l : all_apart l -> forall n P n' Q, nth_error l n = Some P -> nth_error l n' = Some Q ->
    forall i t t', P i len t -> Q i len t' -> n = n'.
  Proof.
    induction l as [|P l IH]; intros A n X n' Y; [destruct n; discriminate|]. destruct A as [A B].
    assert (F : forall k Z, nth_error l k = Some Z -> apart P Z).
    { clear - A. induction l as [|Q l IH]; intros [|k] Z H; try discriminate; destruct A as [A B]; cbn in H; [injection H as <-; exact A|eauto]. }
    destruct n as [|n], n' as [|n']; cbn [nth_error]; intros E E' i t t' H H'; auto.
    - exfalso. inversion E; subst. eapply F; eauto.
    - exfalso. inversion E'; subst. eapply F; eauto.
    - f_equal. eapply IH; eauto.
  Qed.
  Lemma all_split_at c : forall pre, all_split pre c -> forall c1 P c2, c = c1 ++ P :: c2 ->
    pre ++ c1 = [] \/ split1 (p_seqs input (pre ++ c1)) P.
  Proof.
    induction c as [|Q c IH]; intros pre H c1 P c2 E; [destruct c1; discriminate|]. destruct H as [H1 H2].
    destruct c1 as [|R c1]; cbn [app] in E; inversion E; subst.
    - rewrite app_nil_r. destruct pre; auto.
    - destruct (IH _ H2 c1 P c2 eq_refl) as [X|X]; rewrite <- app_assoc in X; cbn [app] in X; auto.
  Qed.

  (** From one result per start. *)
  Lemma split_un P (Q : pr) (G : nat -> Prop) : un 0 P G -> (forall k t, Q k len t -> G k) -> split1 P Q.
  Proof. intros U H l m t1 t2 m' t1' t2' A B A' B'. destruct (U l m t1 m' t1') as [-> _]; eauto. lia. Qed.
  Lemma split_any P (Q : pr) : un 0 P any -> split1 P Q.
  Proof. intros U. apply (split_un P Q any U). intros; exact Logic.I. Qed.
  Lemma filled_first P S : first input P S -> filled P.
  Proof.
    intros F t H. apply F in H as (b & E & _). assert (len < len)%nat by (apply nth_error_Some; congruence). lia.
  Qed.
  Lemma apart_first P Q S T : first input P S -> first input Q T -> (forall b, S b = true -> T b = true -> False) -> apart P Q.
  Proof. intros A B X l t t' H K. apply A in H as (b & N & H). apply B in K as (c & M & K). rewrite N in M. injection M as <-. eauto. Qed.

  Notation R := (AbnfDen.R abnf_grammar input).
  Notation p_star := (AbnfDen.p_star input).
  Notation p_plus := (AbnfDen.p_plus input).
  Notation p_byte := (AbnfDen.p_byte input).
  Notation p_two := (AbnfDen.p_two input).
  Notation p_opt := (AbnfDen.p_opt input).
  Notation p_nil := (AbnfDen.p_nil input).
  Notation lit v := (p_byte (same_letter v)).
  Notation first := (AbnfUnique.first input).
  Notation nf := (AbnfUnique.nf input).
  Notation mono := (AbnfDen.mono input).
  Notation p_ws := (AbnfUnique.p_ws input).

  (** What can follow, up to the end of the input. *)
  Definition foll (Q : pr) (G : nat -> Prop) : Prop := forall k t, Q k len t -> G k.
  Lemma nf_len S : nf S len.
  Proof. intros b E. assert (len < len)%nat by (apply nth_error_Some; congruence). lia. Qed.
  Lemma foll_first Q S T : first Q T -> (forall b, T b = true -> S b = true -> False) -> foll Q (nf S).
  Proof. intros F X k t H. eapply nf_first; eauto. Qed.
  Lemma foll_star P S T : first P T -> (forall b, T b = true -> S b = true -> False) -> foll (p_star P) (nf S).
  Proof. intros F X k t H. inversion H as [? Hi|? m ? ta tb A B]; subst; [apply nf_len|]. eapply nf_first; eauto. Qed.
  Lemma foll_opt P S T : first P T -> (forall b, T b = true -> S b = true -> False) -> foll (p_opt P) (nf S).
  Proof. intros F X k t [(-> & _)|H]; [apply nf_len|]. eapply nf_first; eauto. Qed.
  Lemma foll_seq_star P Q S T : first P T -> (forall b, T b = true -> S b = true -> False) -> foll Q (nf S) -> foll (p_seq (p_star P) Q) (nf S).
  Proof.
    intros F X N k t (m & t1 & t2 & H & K & _). inversion H as [? Hi|? m' ? ta tb A B]; subst; [eapply N; eauto|]. eapply nf_first; eauto.
  Qed.

  Lemma split_by P Q (G : nat -> Prop) : un 0 P G -> foll Q G -> split1 P Q.
  Proof. intros U H. eapply split_un; eauto. Qed.
  Lemma split_seq P Q T : split1 P (p_seq Q T) -> split1 Q T -> split1 (p_seq P Q) T.
  Proof.
    intros A B l m t1 t2 m' t1' t2' (k & ta & tb & H1 & H2 & _) K (k' & ta' & tb' & H1' & H2' & _) K'.
    assert (k = k'). { eapply A; [exact H1| |exact H1'|]; do 3 eexists; eauto. }
    subst k'. eapply B; eauto.
  Qed.
  Lemma split_star P Q S : mono P -> un 0 P any -> first P S -> foll Q (nf S) -> split1 (p_star P) Q.
  Proof. intros M U F N. eapply split_by; [|exact N]. eapply un_items; eauto. Qed.
  Lemma split_plus P Q S : mono P -> un 0 P any -> first P S -> foll Q (nf S) -> split1 (p_plus P) Q.
  Proof. intros M U F N. eapply split_by; [|exact N]. eapply un_items1; eauto. Qed.
  Lemma split_opt P Q S : un 0 P (nf S) -> first P S -> foll Q (nf S) -> split1 (p_opt P) Q.
  Proof.
    intros U F N. eapply split_by; [|exact N]. apply un_opt; auto. intros i j ts H X _. eapply nf_clash; eauto.
  Qed.

  Ltac fz := clear; let b := fresh "b" in intros b; intros; zb.
  Lemma f_bit' : first (R "BIT") (fun b => (b =? 48) || (b =? 49)).
  Proof. eapply first_peq; [apply q_bit|]. apply first_node. eapply first_weak; [apply first_or; apply first_byte|fz]. Qed.
  Lemma f_hexdig' : first (R "HEXDIG") (fun b => b_digit b || b_alpha b).
  Proof.
    eapply first_peq; [apply q_hexdig|]. apply first_node.
    eapply first_weak; [repeat (apply first_or; [first [apply f_digit|apply first_byte]|]); apply first_byte|fz].
  Qed.
  Lemma f_bin : first (R "bin-val") (same_letter 98).
  Proof. eapply first_peq; [apply q_bin|apply first_node, first_seq, first_byte]. Qed.
  Lemma f_dec : first (R "dec-val") (same_letter 100).
  Proof. eapply first_peq; [apply q_dec|apply first_node, first_seq, first_byte]. Qed.
  Lemma f_hex : first (R "hex-val") (same_letter 120).
  Proof. eapply first_peq; [apply q_hex|apply first_node, first_seq, first_byte]. Qed.

  (** Filler up to the end of the input. *)
  Lemma ws_len k t : p_ws len k t -> k = len.
  Proof. intros H. apply mono_star in H; [lia|]. apply mono_R. Qed.
  Lemma ws_end_alt k t : p_ws k len t -> e_alt input k.
  Proof.
    intros H. split.
    - inversion H as [? Hi|? m ? ta tb A B]; subst; [apply nf_len|]. eapply nf_first; [apply f_cwsp|exact A|fz].
    - intros k2 t2 H2. destruct (star_prefix input (R "c-wsp") (u_cwsp _ _ _) k len t H k2 t2 H2) as [[x X]|[x X]].
      + apply ws_len in X. subst k2. apply nf_len.
      + inversion X as [? Hi|? m ? ta tb A B]; subst; [apply nf_len|]. eapply nf_first; [apply f_cwsp|exact A|fz].
  Qed.
  Lemma wsp_ws k j t : p_star (R "WSP") k j t -> exists t', p_ws k j t'.
  Proof.
    intros H. induction H as [k Hk|k m j t1 t2 A B (t' & IH)]; [eexists; constructor; auto|].
    exists ([PT "c-wsp" k m t1] ++ t'). econstructor; eauto. apply q_cwsp. exists t1. split; auto. left. auto.
  Qed.
  Lemma foll_alt_wsp : foll (p_star (R "WSP")) (e_alt input).
  Proof. intros k t H. apply wsp_ws in H as (t' & H). eapply ws_end_alt; eauto. Qed.
  Lemma foll_alt_ws : foll p_ws (e_alt input).
  Proof. intros k t H. eapply ws_end_alt; eauto. Qed.
  Lemma foll_alt_close c : b_ws c = false -> b_item c = false -> c <> 47 -> b_more c = false -> (forall b, same_letter c b = true -> b = c) ->
    foll (p_seq p_ws (lit c)) (e_alt input).
  Proof.
    intros W It Sl Mo Le k t (k1 & ta & tb & A1 & (b0 & E0 & Sm0 & _) & _). apply Le in Sm0. subst b0. split.
    - eapply ws_more; eauto.
    - intros k2 t0 A2. eapply ws_end; [exact A1|exact E0| | | |exact A2]; auto; [|fz].
      rewrite It. apply Z.eqb_neq. auto.
  Qed.
  Lemma e_alt_len : e_alt input len.
  Proof. eapply ws_end_alt. apply st_nil. lia. Qed.
  Lemma foll_more_alt : foll (p_star (more_alt input)) (e_cat input).
  Proof.
    intros k ts H. inversion H as [? Hi|? m ? ta tb (k1 & tc & td & A & (k2 & te & tf & (b & E & Sm & _) & _) & _) _]; subst; [apply e_alt_cat, e_alt_len|].
    assert (b = 47) by zb. subst b. split.
    - eapply ws_more; eauto.
    - intros k3 t3 A3. eapply ws_end; [exact A|exact E| | | |exact A3]; auto. fz.
  Qed.
  Lemma foll_body : foll (R "c-nl") (e_body input).
  Proof. intros k t H. exists len, t. split; auto. exists []. constructor. lia. Qed.
  Lemma foll_line : foll (p_star (line input)) (e_line input).
  Proof. intros k t H. exists t. auto. Qed.

  Lemma un_concatenation : un 0 (R "concatenation") (e_cat input).
  Proof. apply u_concatenation. apply alternation_unique. Qed.
  Lemma un_repetition : un 0 (R "repetition") (e_elem input).
  Proof. apply u_repetition. apply alternation_unique. Qed.
  Lemma un_name : un 0 (R "rulename") (nf b_name).
  Proof. apply u_rulename. auto. Qed.
  Lemma un_op : un 0 (p_op input) (nf (fun b => b =? 47)).
  Proof. apply u_op. auto. Qed.
  Lemma un_repeat : un 0 (R "repeat") (nf b_rep).
  Proof. apply u_repeat. auto. Qed.

  (** Alternatives told apart otherwise. *)
  Lemma apart_strings : apart (R "case-insensitive-string") (R "case-sensitive-string").
  Proof.
    intros i ts ts' A B. pose proof (f_sens _ _ _ _ B) as (b & N & E). apply Z.eqb_eq in E. subst b.
    apply sec_insens in A as (b & N1 & E1); auto. apply sec_sens in B as (c & N2 & E2); auto.
    rewrite N1 in N2. injection N2 as <-. zb.
  Qed.
  Lemma apart_vals : apart (R "char-val") (R "num-val").
  Proof.
    intros i ts ts' A B. pose proof (f_numval _ _ _ _ B) as (b & N & E). apply Z.eqb_eq in E. subst b.
    apply sec_charval in A as (b & N1 & E1); auto. apply sec_numval in B as (c & N2 & E2); auto.
    rewrite N1 in N2. injection N2 as <-. zb.
  Qed.
  Lemma apart_op : apart (lit 61) (p_two (same_letter 61) (same_letter 47)).
  Proof. intros i t t' (b & _ & _ & E & _) (b' & c & _ & _ & _ & _ & E' & _). lia. Qed.
  Lemma apart_repeat : apart (p_plus (R "DIGIT")) (p_seq (p_star (R "DIGIT")) (p_seq (lit 42) (p_star (R "DIGIT")))).
  Proof.
    intros i ts ts' A (k & t1 & t2 & B1 & B2 & _).
    assert (A' : p_star (R "DIGIT") i len ts) by (destruct A as (k' & ta & tb & A1 & A2 & ->); econstructor; eauto).
    assert (Z0 : nth_error input k = Some 42).
    { destruct B2 as (k' & ta & tb & (b & E & Sm & _) & _). rewrite E. f_equal. zb. }
    destruct (un_items input 0 (R "DIGIT") b_digit (nf b_digit)) with (i := i) (j := len) (ts := ts) (j' := k) (ts' := t1) as [E _]; auto.
    - apply mono_R.
    - apply u_digit.
    - apply f_digit.
    - lia.
    - apply nf_len.
    - intros b E. rewrite Z0 in E. injection E as <-. reflexivity.
    - subst k. apply (nf_len (fun b => b =? 42)) in Z0. discriminate.
  Qed.

  (** *** The cases *)
  Ltac consts := repeat match goal with
    | |- context [?a =? ?b] => let x := eval vm_compute in (a =? b) in match x with true => change (a =? b) with true | false => change (a =? b) with false end
    end.
  Ltac shape := cbv [good_rep good_alt good_opt fold_right map all_apart all_split AbnfDen.den_cat AbnfDen.den_rep AbnfDen.den_elem
      app p_seqs p_ors inf]; consts; change (true && true) with true; change (true && false) with false; change (false && true) with false; change (false && false) with false; cbv beta iota.
  Ltac fs := lazymatch goal with
    | |- AbnfUnique.first _ (p_seq (AbnfDen.p_star _ _) _) _ => eapply first_star_seq; fs
    | |- AbnfUnique.first _ (p_seq (AbnfDen.p_opt _ _) _) _ => eapply first_opt_seq; fs
    | |- AbnfUnique.first _ (p_seq _ _) _ => eapply first_seq; fs
    | |- AbnfUnique.first _ (AbnfDen.p_plus _ _) _ => eapply first_seq; fs
    | |- AbnfUnique.first _ (p_or _ _) _ => eapply first_or; fs
    | |- AbnfUnique.first _ (AbnfDen.p_byte _ _) _ => eapply first_byte
    | |- AbnfUnique.first _ (AbnfDen.p_two _ _ _) _ => eapply first_two
    | |- AbnfUnique.first _ (AbnfDen.R _ _ "ALPHA") _ => apply f_alpha
    | |- AbnfUnique.first _ (AbnfDen.R _ _ "DIGIT") _ => apply f_digit
    | |- AbnfUnique.first _ (AbnfDen.R _ _ "SP") _ => apply f_sp
    | |- AbnfUnique.first _ (AbnfDen.R _ _ "HTAB") _ => apply f_htab
    | |- AbnfUnique.first _ (AbnfDen.R _ _ "WSP") _ => apply f_wsp
    | |- AbnfUnique.first _ (AbnfDen.R _ _ "VCHAR") _ => apply f_vchar
    | |- AbnfUnique.first _ (AbnfDen.R _ _ "CR") _ => apply f_cr
    | |- AbnfUnique.first _ (AbnfDen.R _ _ "CRLF") _ => apply f_crlf
    | |- AbnfUnique.first _ (AbnfDen.R _ _ "comment") _ => apply f_comment
    | |- AbnfUnique.first _ (AbnfDen.R _ _ "c-nl") _ => apply f_cnl
    | |- AbnfUnique.first _ (AbnfDen.R _ _ "c-wsp") _ => apply f_cwsp
    | |- AbnfUnique.first _ (AbnfDen.R _ _ "DQUOTE") _ => apply f_dquote
    | |- AbnfUnique.first _ (AbnfDen.R _ _ "HEXDIG") _ => apply f_hexdig'
    | |- AbnfUnique.first _ (AbnfDen.R _ _ "BIT") _ => apply f_bit'
    | |- AbnfUnique.first _ (AbnfDen.R _ _ "bin-val") _ => apply f_bin
    | |- AbnfUnique.first _ (AbnfDen.R _ _ "dec-val") _ => apply f_dec
    | |- AbnfUnique.first _ (AbnfDen.R _ _ "hex-val") _ => apply f_hex
    | |- AbnfUnique.first _ (AbnfDen.R _ _ "rulename") _ => apply f_rulename
    | |- AbnfUnique.first _ (AbnfDen.R _ _ "group") _ => apply f_group
    | |- AbnfUnique.first _ (AbnfDen.R _ _ "option") _ => apply f_option
    | |- AbnfUnique.first _ (AbnfDen.R _ _ "quoted-string") _ => apply f_quoted
    | |- AbnfUnique.first _ (AbnfDen.R _ _ "case-insensitive-string") _ => apply f_insens
    | |- AbnfUnique.first _ (AbnfDen.R _ _ "case-sensitive-string") _ => apply f_sens
    | |- AbnfUnique.first _ (AbnfDen.R _ _ "char-val") _ => apply f_charval
    | |- AbnfUnique.first _ (AbnfDen.R _ _ "num-val") _ => apply f_numval
    | |- AbnfUnique.first _ (AbnfDen.R _ _ "prose-val") _ => apply f_prose
    | |- AbnfUnique.first _ (AbnfDen.R _ _ "element") _ => apply f_element
    | |- AbnfUnique.first _ (AbnfDen.R _ _ "repeat") _ => apply f_repeat
    | |- AbnfUnique.first _ (AbnfDen.R _ _ "repetition") _ => apply f_repetition
    | |- AbnfUnique.first _ (AbnfDen.R _ _ "concatenation") _ => apply f_concatenation
    | |- AbnfUnique.first _ (AbnfDen.R _ _ "alternation") _ => apply f_alternation
    | |- AbnfUnique.first _ (AbnfDen.R _ _ "rule") _ => apply f_rule
    | |- AbnfUnique.first _ (AbnfDen.R _ _ "elements") _ => apply f_elements
    | |- AbnfUnique.first _ (AbnfDen.R _ _ "defined-as") _ => apply f_defined
    end.
  Ltac nums := repeat match goal with
    | H : context [num_of ?b ?s] |- _ => let x := eval vm_compute in (num_of b s) in change (num_of b s) with x in H
    | |- context [num_of ?b ?s] => let x := eval vm_compute in (num_of b s) in change (num_of b s) with x
    end.
  Ltac fzn := clear; let b := fresh "b" in intros b; intros; cbv beta in *; nums; zb.
  Ltac mn := repeat first [apply mono_R | apply mono_seq | apply mono_or | apply mono_star | apply mono_plus |
    apply mono_opt | apply mono_node | apply mono_byte | apply mono_two | apply mono_nil].
  Ltac ua := lazymatch goal with
    | |- un _ (p_or _ _) _ => apply un_or; [ua|ua|eapply disj_first; [fs|fs|fzn]]
    | |- un _ (p_seq _ _) _ => eapply (un_seq input) with (G := any); [mn|ua|ua|intros; exact Logic.I]
    | |- _ => first [apply un_byte|apply un_two|apply u_alpha|apply u_bit|apply u_digit|apply u_hexdig|apply u_wsp|apply u_vchar|apply u_dquote
        |apply u_crlf|apply u_cnl|apply u_cwsp|apply u_quoted|eapply un_peq; [apply q_cr|apply un_node, un_byte]]
    end.
  Ltac fo := lazymatch goal with
    | |- foll (p_seq (AbnfDen.p_star _ _) _) _ => first [eapply foll_first; [fs|fzn]|eapply foll_seq_star; [fs|fzn|fo]]
    | |- foll (AbnfDen.p_star _ _) _ => eapply foll_star; [fs|fzn]
    | |- foll (AbnfDen.p_opt _ _) _ => eapply foll_opt; [fs|fzn]
    | |- foll _ _ => eapply foll_first; [fs|fzn]
    end.
  Ltac sp := lazymatch goal with
    | |- split1 (p_seq _ _) _ => apply split_seq; sp
    | |- split1 (AbnfDen.p_star _ _) _ => eapply split_star; [mn|ua|fs|fo]
    | |- split1 (AbnfDen.p_plus _ _) _ => eapply split_plus; [mn|ua|fs|fo]
    | |- split1 (AbnfDen.R _ _ "rulename") _ => eapply split_by; [apply un_name|fo]
    | |- split1 (AbnfDen.R _ _ "defined-as") _ => eapply split_by; [apply u_defined|fo]
    | |- split1 (AbnfDen.R _ _ "elements") _ => eapply split_by; [apply u_elements|apply foll_body]
    | |- split1 (AbnfDen.R _ _ "alternation") _ => eapply split_by; [apply alternation_unique|first [apply foll_alt_wsp|apply foll_alt_ws|
         apply foll_alt_close; [reflexivity|reflexivity|discriminate|reflexivity|fz]]]
    | |- split1 (AbnfDen.R _ _ "concatenation") _ => eapply split_by; [apply un_concatenation|apply foll_more_alt]
    | |- split1 (AbnfDen.R _ _ "repetition") _ => eapply split_by; [apply un_repetition|fo]
    | |- split1 (AbnfDen.p_opt _ (AbnfDen.R _ _ "repeat")) _ => eapply split_opt; [apply un_repeat|apply f_repeat|fo]
    | |- split1 (AbnfDen.p_opt _ _) _ => eapply split_opt; [ua|fs|fo]
    | |- split1 (p_or (AbnfDen.R _ _ "rule") _) _ => eapply split_by; [apply u_line|apply foll_line]
    | |- split1 _ _ => first [apply split_any; ua|eapply split_by; [apply un_op|fo]]
    end.
  Ltac leaf := lazymatch goal with
    | |- True => exact Logic.I
    | |- apart _ _ => first [eapply apart_first; [fs|fs|fzn]|apply apart_strings|apply apart_vals|apply apart_op|apply apart_repeat]
    | |- filled _ => eapply filled_first; fs
    | |- split1 _ _ => sp
    end.

  Lemma rules_good : Forall (fun r => good_alt (rule_alt r)) (abnf_grammar ++ core_rules).
  Proof.
    set (l := abnf_grammar ++ core_rules). vm_compute in l. subst l.
    repeat (apply Forall_cons); [..|apply Forall_nil]; cbv [rule_alt]; shape; repeat split; leaf.
  Qed.
  Lemma reps_good : Forall good_rep (grammar_reps abnf_grammar).
  Proof.
    set (l := grammar_reps _). vm_compute in l. subst l.
    repeat (apply Forall_cons); [..|apply Forall_nil]; shape; repeat split; leaf.
  Qed.
End Local.

(** *** Parts of the text, cut at their end *)
Lemma span_cut (input : list Z) r i j w : (j <= r)%nat -> (r <= length input)%nat -> span input i j w -> span (firstn r input) i j w.
Proof.
  intros L L' (p & s & -> & <- & ->). exists p, (firstn (r - length p - length w) s).
  rewrite firstn_app, (firstn_all2 p) by lia. rewrite firstn_app, (firstn_all2 w) by lia. auto.
Qed.

Section Cut.
  Variable input : list Z.
  Variable r : nat.
  Hypothesis R1 : (r <= length input)%nat.
  Notation inp := (firstn r input).
  Let len : length inp = r.
  Proof. apply firstn_length_le. exact R1. Qed.

  Lemma cut_cat c i j : forallb plain_rep c = true -> (j <= r)%nat -> x_cat abnf_grammar input c i j -> exists t, den_cat abnf_grammar inp c i j t.
  Proof.
    intros P L (w & S & H). apply (span_cut _ r) in S; auto.
    destruct (proj1 (proj2 (proj2 (lang_d abnf_grammar inp))) c w H i j S) as (t & D). exists t.
    apply cats_ok in D; auto. rewrite forallb_forall in P. apply Forall_forall. intros x I. apply plain_den; auto.
  Qed.
  Lemma cut_rep x i j : plain_rep x = true -> (j <= r)%nat -> x_rep abnf_grammar input x i j -> exists t, den_rep abnf_grammar inp x i j t.
  Proof.
    intros P L (w & S & H). apply (span_cut _ r) in S; auto.
    destruct (proj1 (proj2 (proj2 (proj2 (lang_d abnf_grammar inp)))) x w H i j S) as (t & D). exists t.
    apply plain_den in D; auto.
  Qed.
  Lemma cut_elem e i j : plain_elem e = true -> (j <= r)%nat -> x_elem abnf_grammar input e i j -> exists t, den_elem abnf_grammar inp e i j t.
  Proof.
    intros P L (w & S & H). apply (span_cut _ r) in S; auto.
    destruct (proj1 (lang_d abnf_grammar inp) e w H i j S) as (t & D). exists t. apply plain_den in D; auto.
  Qed.
  Lemma cut_pow e i j : plain_elem e = true -> (j <= r)%nat -> x_pow abnf_grammar input e i j -> exists t, AbnfDen.p_star inp (den_elem abnf_grammar inp e) i j t.
  Proof.
    intros P L (n & w & S & H). apply (span_cut _ r) in S; auto.
    destruct (proj2 (proj2 (proj2 (proj2 (lang_d abnf_grammar inp)))) e n w H i j S) as (t & D). exists t.
    apply (pow_star abnf_grammar inp (den_elem abnf_grammar inp e) e); eauto. intros i' j' ts. apply plain_den; auto.
  Qed.
End Cut.

(** The alternations are listed. *)
Definition alts_within (x : rep) : list alternation := match rep_elem x with EGroup a | EOption a => [a] | _ => [] end.
Lemma plain_rules : forallb (fun r => plain_alt (rule_alt r) || ((length (rule_alt r) =? 1)%nat && forallb (fun c => (length c =? 1)%nat) (rule_alt r))) (abnf_grammar ++ core_rules) = true.
Proof. vm_compute. reflexivity. Qed.
Lemma plain_reps : forallb (fun x => plain_rep x || ((rep_min x =? 1) && (rep_max x =? 1) && match alts_within x with [] => true | _ => false end)) (grammar_reps abnf_grammar) = true.
Proof. vm_compute. reflexivity. Qed.

Definition singular (a : alternation) : Prop := length a = 1%nat /\ forall c, In c a -> length c = 1%nat.
Lemma alt_good a : occ_alt abnf_grammar a -> (forall input, good_alt input a) /\ (plain_alt a = true \/ singular a).
Proof.
  assert (Rp : forall mn mx e, occ_rep abnf_grammar (Rep mn mx e) -> (forall input, good_rep input (Rep mn mx e)) /\
    (alts_within (Rep mn mx e) = [a] -> plain_elem e = true)).
  { intros mn mx e O. apply occ_rep_listed in O. split.
    - intros input. pose proof (reps_good input) as G. rewrite Forall_forall in G. auto.
    - intros E. pose proof plain_reps as G. rewrite forallb_forall in G. specialize (G _ O). rewrite E in G.
      rewrite andb_false_r, orb_false_r in G. cbn [plain_rep] in G. apply andb_true_iff in G. tauto. }
  intros [(r & I & ->)|[O|O]].
  - split.
    + intros input. pose proof (rules_good input) as G. rewrite Forall_forall in G. auto.
    + pose proof plain_rules as G. rewrite forallb_forall in G. specialize (G _ I). apply orb_true_iff in G as [G|G]; auto. right.
      apply andb_true_iff in G as [G1 G2]. apply Nat.eqb_eq in G1. rewrite forallb_forall in G2. split; auto.
      intros c Ic. apply Nat.eqb_eq. auto.
  - inversion O as [mn mx ? O']; subst. destruct (Rp _ _ _ O') as [G P]. split; [|left; apply P; reflexivity].
    intros input. apply (G input).
  - inversion O as [mn mx ? O']; subst. destruct (Rp _ _ _ O') as [G P]. split; [|left; apply P; reflexivity].
    intros input. apply (G input).
Qed.
Lemma rep_good mn mx e : occ_rep abnf_grammar (Rep mn mx e) -> ~ (mn = 1 /\ mx = 1) ->
  plain_elem e = true /\ forall input, filled input (den_elem abnf_grammar input e) /\
    split1 input (den_elem abnf_grammar input e) (AbnfDen.p_star input (den_elem abnf_grammar input e)).
Proof.
  intros O N. apply occ_rep_listed in O. split.
  - pose proof plain_reps as G. rewrite forallb_forall in G. specialize (G _ O). apply orb_true_iff in G as [G|G].
    + cbn [plain_rep] in G. apply andb_true_iff in G. tauto.
    + exfalso. apply N. cbn [rep_min rep_max] in G. rewrite !andb_true_iff, !Z.eqb_eq in G. tauto.
  - intros input. pose proof (reps_good input) as G. rewrite Forall_forall in G. specialize (G _ O). cbn [good_rep] in G.
    destruct G as [G _]. destruct ((mn =? 1) && (mx =? 1)) eqn:E; auto. exfalso. apply N. rewrite andb_true_iff, !Z.eqb_eq in E. tauto.
Qed.
Lemma x_len g input c i j : x_cat g input c i j -> (i <= j <= length input)%nat.
Proof. intros (w & S & _). pose proof (span_le _ _ _ _ S). destruct S as (p & s & -> & <- & ->). rewrite !app_length in *. lia. Qed.
Lemma xr_len g input c i j : x_rep g input c i j -> (i <= j <= length input)%nat.
Proof. intros (w & S & _). pose proof (span_le _ _ _ _ S). destruct S as (p & s & -> & <- & ->). rewrite !app_length in *. lia. Qed.
Lemma xe_len g input c i j : x_elem g input c i j -> (i <= j <= length input)%nat.
Proof. intros (w & S & _). pose proof (span_le _ _ _ _ S). destruct S as (p & s & -> & <- & ->). rewrite !app_length in *. lia. Qed.
Lemma xp_len g input c i j : x_pow g input c i j -> (i <= j <= length input)%nat.
Proof. intros (n & w & S & _). pose proof (span_le _ _ _ _ S). destruct S as (p & s & -> & <- & ->). rewrite !app_length in *. lia. Qed.

Theorem abnf_undivided input : undivided abnf_grammar input.
Proof.
  split.
  - intros a n c n' c' l r O N N' X X'. destruct (alt_good a O) as [G [P|[S _]]].
    + pose proof (x_len _ _ _ _ _ X) as B. unfold plain_alt in P. rewrite forallb_forall in P.
      apply (cut_cat input r) in X as (t & X); [|lia|apply P; eapply nth_error_In; eauto|lia].
      apply (cut_cat input r) in X' as (t' & X'); [|lia|apply P; eapply nth_error_In; eauto|lia].
      destruct (G (firstn r input)) as [G1 _].
      eapply (all_apart_nth _ _ G1 n _ n' _); [rewrite nth_error_map, N; reflexivity|rewrite nth_error_map, N'; reflexivity| |];
        rewrite firstn_length_le by lia; eauto.
    + assert (n < length a)%nat by (apply nth_error_Some; congruence). assert (n' < length a)%nat by (apply nth_error_Some; congruence). lia.
  - intros a c l O I X. inversion O as [mn mx ? O']; subst. pose proof (x_len _ _ _ _ _ X) as B.
    pose proof (occ_rep_listed _ _ O') as L.
    assert (P : plain_elem (EOption a) = true).
    { pose proof plain_reps as G. rewrite forallb_forall in G. specialize (G _ L). cbn [alts_within rep_elem] in G.
      rewrite andb_false_r, orb_false_r in G. cbn [plain_rep] in G. apply andb_true_iff in G. tauto. }
    cbn [plain_elem] in P. rewrite forallb_forall in P.
    apply (cut_cat input l) in X as (t & X); [|lia|apply P; auto|lia].
    pose proof (reps_good (firstn l input)) as G. rewrite Forall_forall in G. specialize (G _ L). destruct G as [_ [_ G]].
    assert (F : filled (firstn l input) (den_cat abnf_grammar (firstn l input) c)).
    { clear - G I. unfold good_opt in G. induction a as [|c' a IH]; [destruct I|]. destruct G as [G1 G2]. destruct I as [<-|I]; auto. }
    apply (F t). rewrite firstn_length_le by lia. exact X.
  - intros a c1 x c2 l m m' r O I X1 X2 X1' X2'. destruct c1 as [|y c1].
    { destruct X1 as (w & (p & s & _ & <- & ->) & H). inversion H; subst. destruct X1' as (w & (p' & s' & _ & E & ->) & H'). inversion H'; subst. cbn. lia. }
    destruct (alt_good a O) as [G [P|[_ S]]].
    + pose proof (x_len _ _ _ _ _ X1) as B. pose proof (xr_len _ _ _ _ _ X2) as B'. pose proof (xr_len _ _ _ _ _ X2') as B''.
      unfold plain_alt in P. rewrite forallb_forall in P. specialize (P _ I). rewrite forallb_app in P. apply andb_true_iff in P as [P1 P2].
      cbn [forallb] in P2. apply andb_true_iff in P2 as [P2 _].
      apply (cut_cat input r) in X1 as (t1 & X1); [|lia|exact P1|lia]. apply (cut_cat input r) in X1' as (t1' & X1'); [|lia|exact P1|lia].
      apply (cut_rep input r) in X2 as (t2 & X2); [|lia|exact P2|lia]. apply (cut_rep input r) in X2' as (t2' & X2'); [|lia|exact P2|lia].
      destruct (G (firstn r input)) as [_ G2].
      assert (F : all_split (firstn r input) [] (map (den_rep abnf_grammar (firstn r input)) ((y :: c1) ++ x :: c2))).
      { clear - G2 I. induction a as [|c' a IH]; [destruct I|]. destruct G2 as [A A']. destruct I as [<-|I]; auto. }
      destruct (all_split_at _ _ [] F (map (den_rep abnf_grammar (firstn r input)) (y :: c1)) (den_rep abnf_grammar (firstn r input) x) (map (den_rep abnf_grammar (firstn r input)) c2)) as [E|E].
      * rewrite map_app. reflexivity.
      * discriminate E.
      * eapply E; [exact X1| |exact X1'|]; rewrite firstn_length_le by lia; eauto.
    + apply S in I. rewrite app_length in I. cbn in I. lia.
  - intros mn mx e l O N X. destruct (rep_good _ _ _ O N) as [P G]. pose proof (xe_len _ _ _ _ _ X) as B.
    apply (cut_elem input l) in X as (t & X); auto; try lia. destruct (G (firstn l input)) as [F _].
    apply (F t). rewrite firstn_length_le by lia. exact X.
  - intros mn mx e l m m' r O N X1 X2 X1' X2'. destruct (rep_good _ _ _ O N) as [P G].
    pose proof (xp_len _ _ _ _ _ X2) as B. pose proof (xp_len _ _ _ _ _ X2') as B'.
    apply (cut_elem input r) in X1 as (t1 & X1); auto; try lia. apply (cut_elem input r) in X1' as (t1' & X1'); auto; try lia.
    apply (cut_pow input r) in X2 as (t2 & X2); auto; try lia. apply (cut_pow input r) in X2' as (t2' & X2'); auto; try lia.
    destruct (G (firstn r input)) as [_ F].
    eapply F; [exact X1| |exact X1'|]; rewrite firstn_length_le by lia; eauto.
Qed.
