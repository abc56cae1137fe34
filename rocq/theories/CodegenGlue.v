(** Compiled grammars satisfy what the emitter relies on. *)
(** The definitions here are those of statements, proofs and examples; they model no code. *)
From Coq Require Import ZArith Arith String Ascii Bool List Lia.
From Verif Require Import Syntax Spec Utf8 Num Term Printer Slots Gll Bsr LowerProof LowerLang PropGll Codegen CodegenStmt CodegenProof.
Import ListNotations.
Local Open Scope string_scope.
Local Open Scope list_scope.
Local Open Scope Z_scope.

(** Every value of a quoted string is a rune (int32) of a text, so not negative. *)
Definition rune_values (g : grammar) : Prop := forall s vs, occ_elem g (EChar s vs) -> Forall (fun v => 0 <= v <= 2147483647) vs.

Lemma get_rule_listed g n r : get_rule n g = Some r -> In r (g ++ core_rules).
Proof.
  unfold get_rule, get_rule_core, get_rule_in. destruct (find _ g) as [x|] eqn:F.
  - intros E. injection E as <-. apply find_some in F as [A _]. apply in_or_app. auto.
  - intros E. apply find_some in E as [A _]. apply in_or_app. auto.
Qed.

(** Where a symbol of a compiled grammar comes from. *)
Definition sym_of (g : grammar) (idx : index) (id : nat) (s : ssym) : Prop :=
  s = SEps \/ s = SNonterm id \/ exists mn mx e, occ_rep g (Rep mn mx e) /\ (elem_sym idx e s \/ rep_sym idx (Rep mn mx e) s).
Lemma cat_syms g idx id c p : (forall r, In r c -> occ_rep g r) -> cat_sym idx c p -> forall s, In s p -> sym_of g idx id s.
Proof.
  intros Oc (sq & F & ->) s I. unfold nonempty_seq in I. destruct sq as [|x sq']; [destruct I as [<-|[]]; left; auto|].
  revert I. generalize (x :: sq') as sq0, F. clear x sq' F. intros sq0 F. induction F as [|r y c' sq1 R F IH]; intros I; [destruct I|].
  destruct I as [<-|I]; [|apply IH; auto; intros r' J; apply Oc; right; auto].
  right. right. destruct r as [mn mx e]. exists mn, mx, e. split; [apply Oc; left; auto|]. right; auto.
Qed.
Lemma alts_syms g idx id a l : (forall c r, In c a -> In r c -> occ_rep g r) -> Forall2 (cat_sym idx) a l -> forall p s, In p l -> In s p -> sym_of g idx id s.
Proof.
  intros Oc F. induction F as [|c p a' l' C F IH]; intros q s I J; [destruct I|]. destruct I as [<-|I].
  - eapply cat_syms; eauto. intros r K. apply (Oc c); auto. left; auto.
  - eapply IH; eauto. intros c' r K. apply Oc. right; auto.
Qed.
Lemma nt_syms g idx id it nt : occ_item g it -> nt_matches g idx id it nt -> forall p s, In p (nt_alts nt) -> In s p -> sym_of g idx id s.
Proof.
  intros O M p s I J. destruct it as [n|a|a|[mn mx e]]; cbn [occ_item nt_matches] in *.
  - destruct (get_rule n g) as [r|] eqn:G; [|subst; destruct I]. destruct M as [_ M]. eapply alts_syms; eauto.
    intros c x K K'. eapply occ_rep_rule; eauto. eapply get_rule_listed; eauto.
  - destruct M as [_ M]. eapply alts_syms; eauto. intros c x K K'. eapply occ_rep_group; eauto.
  - destruct M as (_ & alts & E & M). rewrite E in I. destruct I as [<-|I].
    + destruct J as [<-|[]]. left; auto.
    + eapply alts_syms; eauto. intros c x K K'. eapply occ_rep_option; eauto.
  - destruct M as [(_ & _ & ->)|(_ & es & E & ->)]; [destruct I|]. cbn [nt_alts] in I. destruct I as [<-|[<-|[]]].
    + destruct J as [<-|[]]. left; auto.
    + destruct J as [<-|[<-|[]]]; [|right; left; auto]. right. right. exists mn, mx, e. split; [apply O|auto].
Qed.
Section Compiled.
  Variable g : grammar.
  Variable root : string.
  Variable sg : slot_grammar.
  Variable idx : index.
  Hypothesis R : represents g root sg idx.
  Lemma nt_item id nt : nth_error (sg_nts sg) id = Some nt -> exists it, assoc (key_of it) idx = Some id /\ occ_item g it /\ nt_matches g idx id it nt.
  Proof.
    intros N. assert (Lt : (id < length (sg_nts sg))%nat) by (apply nth_error_Some; congruence).
    destruct (rp_surj _ _ _ _ R id Lt) as [k K]. destruct (rp_done _ _ _ _ R k id K) as (it & nt' & E & O & N' & M). exists it.
    rewrite N in N'. injection N' as <-. subst k. auto.
  Qed.
  Lemma nt_of_item it id : assoc (key_of it) idx = Some id -> exists it' nt, key_of it' = key_of it /\ occ_item g it' /\ nth_error (sg_nts sg) id = Some nt /\ nt_matches g idx id it' nt.
  Proof. intros A. destruct (rp_done _ _ _ _ R _ id A) as (it' & nt & E & O & N & M). exists it', nt. auto. Qed.
  Lemma sg_sym nt p s : In nt (sg_nts sg) -> In p (nt_alts nt) -> In s p -> exists id, nth_error (sg_nts sg) id = Some nt /\ sym_of g idx id s.
  Proof.
    intros A B C. apply In_nth_error in A as [id N]. exists id. split; auto. destruct (nt_item id nt N) as (it & _ & O & M). eapply nt_syms; eauto.
  Qed.
  Lemma elem_sym_term e t : elem_sym idx e (STerm t) -> e = t.
  Proof. destruct e; cbn; try (intros (? & ? & _); discriminate); intros E; injection E as <-; auto. Qed.
  Lemma sg_term nt p t : In nt (sg_nts sg) -> In p (nt_alts nt) -> In (STerm t) p -> occ_elem g t.
  Proof.
    intros A B C. destruct (sg_sym _ _ _ A B C) as (id & _ & [E|[E|(mn & mx & e & O & [E|E])]]); try discriminate.
    - apply elem_sym_term in E as ->. econstructor; eauto.
    - destruct E as [(_ & _ & E)|(_ & x & E & _)]; [|discriminate]. cbn in E. apply elem_sym_term in E as ->. econstructor; eauto.
  Qed.
  Lemma elem_sym_nt e X : elem_sym idx e (SNonterm X) -> exists it, assoc (key_of it) idx = Some X /\
    match e with ERule n => it = IRule n | EGroup a => it = IGrp a | EOption a => it = IOpt a | _ => False end.
  Proof.
    destruct e as [n|a|a|s vs|b st es|ws]; cbn [elem_sym]; try (intros E; discriminate); intros (id & E & A); injection E as <-.
    - exists (IRule n). auto.
    - exists (IGrp a). auto.
    - exists (IOpt a). auto.
  Qed.
  Hypothesis wf : wf_grammar g.
  Hypothesis nonneg : rune_values g.
  Lemma compiled_ok : sg_ok sg.
  Proof.
    destruct (wf_occ g wf) as [We Wr]. split.
    - eapply (rp_lt _ _ _ _ R). apply (rp_start _ _ _ _ R).
    - intros nt p X A B C. destruct (sg_sym _ _ _ A B C) as (id & N & [E|[E|(mn & mx & e & O & [E|E])]]); try discriminate.
      + injection E as ->. apply nth_error_Some. congruence.
      + apply elem_sym_nt in E as (it & K & _). eapply (rp_lt _ _ _ _ R); eauto.
      + destruct E as [(_ & _ & E)|(_ & x & E & K)].
        * apply elem_sym_nt in E as (it & K & _). eapply (rp_lt _ _ _ _ R); eauto.
        * injection E as ->. eapply (rp_lt _ _ _ _ R); eauto.
    - intros nt A Ir. apply In_nth_error in A as [id N]. destruct (nt_item id nt N) as (it & _ & O & M).
      destruct it as [n|a|a|[mn mx e]]; cbn [occ_item nt_matches] in *.
      + destruct (get_rule n g); [destruct M as [(H & _) _]; congruence|subst; discriminate].
      + destruct M as [(H & _) _]; congruence.
      + destruct M as [(H & _) _]; congruence.
      + destruct M as [(_ & _ & ->)|(_ & es & _ & ->)]; [discriminate|]. cbn. split; auto. destruct O as [O _]; apply Wr in O. inversion O; auto.
    - intros nt p b es A B C. pose proof (sg_term _ _ _ A B C) as O. apply We in O. inversion O as [| | | |b' st' es' [_ W] |]; subst. exact W.
    - intros nt p s vs A B C. eapply Forall_impl; [|eapply nonneg, sg_term; eauto]. cbn. lia.
  Qed.
End Compiled.

(** Iterating popped[v] in some order. *)
Definition nat_order (gord : nat -> list Z -> list Z) : nat -> list nat -> list nat := fun t l => map Z.to_nat (gord t (map Z.of_nat l)).
Lemma nat_order_map gord t l : any_order gord -> gord t (map Z.of_nat l) = map Z.of_nat (nat_order gord t l).
Proof.
  intros O. unfold nat_order. rewrite map_map, <- (map_id (gord t (map Z.of_nat l))) at 1. apply map_ext_in. intros z I. apply O in I.
  apply in_map_iff in I as (k & <- & _). rewrite Nat2Z.id. reflexivity.
Qed.
Lemma nat_order_any gord : any_order gord -> any_order (nat_order gord).
Proof.
  intros O t l x. unfold nat_order. split.
  - intros I. apply in_map_iff in I as (z & <- & I). apply O in I. apply in_map_iff in I as (k & <- & I). rewrite Nat2Z.id. exact I.
  - intros I. apply in_map_iff. exists (Z.of_nat x). rewrite Nat2Z.id. split; auto. apply O. apply in_map. exact I.
Qed.
