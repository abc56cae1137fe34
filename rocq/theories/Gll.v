(** What the two GLL engines share: slots, GSS nodes, the gating of counted
    repetitions (sppf.go:275-335, 585-608; bsr.go:38-51, 130-138), and the
    language a slot grammar denotes. *)
From Coq Require Import ZArith String Bool List Lia.
From Verif Require Import Syntax Spec Utf8 Num Term Printer Slots.
Import ListNotations.
Local Open Scope Z_scope.

(** slot (sppf.go:275). *)
Record slot : Type := mkSlot { s_nt : nat; s_alt : nat; s_dot : nat }.

(** GSS nodes are interned by gssKey (sppf.go:331-335, 346-354; bsr.go:77-85), so
    a pointer is represented by its key; [U0] is the bottom node. *)
Inductive gss : Type :=
| U0
| GN (ret : slot) (pos : nat) (rc : Z).

(** gssNode.pos (sppf.go:279). *)
Definition g_pos (u : gss) : nat := match u with U0 => 0%nat | GN _ p _ => p end.

(** Slots are compared as values (sppf.go:275, 324-335). *)
Definition slot_eq_dec (a b : slot) : {a = b} + {a <> b}.
Proof. decide equality; apply Nat.eq_dec. Defined.
(** GSS keys are compared as values (sppf.go:331-335). *)
Definition gss_eq_dec (a b : gss) : {a = b} + {a <> b}.
Proof. decide equality; [apply Z.eq_dec|apply Nat.eq_dec|apply slot_eq_dec]. Defined.

(** p.sg.nts[L.nt].alts[L.alt]; [None] is an index out of range. *)
Definition prod_of (sg : slot_grammar) (L : slot) : option (list ssym) :=
  match nth_error (sg_nts sg) (s_nt L) with
  | None => None
  | Some nt => nth_error (nt_alts nt) (s_alt L)
  end.

(** slot{L.nt, L.alt, L.dot + 1} (sppf.go:521, 547; bsr.go:223). *)
Definition adv (L : slot) : slot := mkSlot (s_nt L) (s_alt L) (S (s_dot L)).
(** slot{nt, alt, 0} (sppf.go:493, 536; bsr.go:201, 233). *)
Definition base (L : slot) : slot := mkSlot (s_nt L) (s_alt L) 0.

(** capRC (sppf.go:585-591). *)
Definition cap_rc (rc : Z) (nt : sgNT) : Z :=
  let next := rc + 1 in
  if ((nt_repmax nt =? inf) && (nt_repmin nt <? next))%bool then nt_repmin nt else next.

(** The alternates added by addRepAlts (sppf.go:600-608, bsr.go:130-138). *)
Definition rep_alts (nt : sgNT) (X : nat) (rc : Z) : list (slot * Z) :=
  (if nt_repmin nt <=? rc then [(mkSlot X 0 0, rc)] else []) ++
  (if ((nt_repmax nt =? inf) || (rc <? nt_repmax nt))%bool then [(mkSlot X 1 0, rc)] else []).

(** The alternates a call of nonterminal [X] adds from a production of
    [caller] at count [rc] (sppf.go:525-538, bsr.go:225-235). *)
Definition starts (sg : slot_grammar) (caller : nat) (rc : Z) (X : nat) : list (slot * Z) :=
  match nth_error (sg_nts sg) X with
  | None => []
  | Some nt =>
      if nt_isrep nt then rep_alts nt X (if Nat.eqb X caller then cap_rc rc nt else 0)
      else map (fun ai => (mkSlot X ai 0, 0)) (seq 0 (length (nt_alts nt)))
  end.

(** The alternates parse() adds for the start symbol (sppf.go:492-494, bsr.go:200-202). *)
Definition start_slots (sg : slot_grammar) : list (slot * Z) :=
  match nth_error (sg_nts sg) (sg_start sg) with
  | None => []
  | Some nt => map (fun ai => (mkSlot (sg_start sg) ai 0, 0)) (seq 0 (length (nt_alts nt)))
  end.

(** matchTerm on a terminal or epsilon symbol (sppf.go:427-486, bsr.go:140-195). *)
Definition match_sym (s : ssym) (input : list Z) (i : nat) : option nat :=
  match s with
  | SEps => Some i
  | STerm t => match_term t input i
  | SNonterm _ => None
  end.

(** ** Denotation of a slot grammar with counters

    [drest sg input L rc i j]: the part of the production after the dot of [L],
    in a frame whose repetition count is [rc], derives input[i:j]. *)
Inductive drest (sg : slot_grammar) (input : list Z) : slot -> Z -> nat -> nat -> Prop :=
| drest_end L rc i p : prod_of sg L = Some p -> s_dot L = length p ->
    drest sg input L rc i i
| drest_term L rc i k j p s : prod_of sg L = Some p -> nth_error p (s_dot L) = Some s ->
    match_sym s input i = Some k -> drest sg input (adv L) rc k j ->
    drest sg input L rc i j
| drest_nt L rc i k j p X L' rc' : prod_of sg L = Some p ->
    nth_error p (s_dot L) = Some (SNonterm X) ->
    In (L', rc') (starts sg (s_nt L) rc X) ->
    drest sg input L' rc' i k -> drest sg input (adv L) rc k j ->
    drest sg input L rc i j.

(** (specification) the start symbol derives the whole input. *)
Definition sg_accepts (sg : slot_grammar) (input : list Z) : Prop :=
  exists L rc, In (L, rc) (start_slots sg) /\ drest sg input L rc 0 (length input).

(** The alternates a GSS node was created for. *)
Definition callees (sg : slot_grammar) (u : gss) : list (slot * Z) :=
  match u with
  | U0 => start_slots sg
  | GN ret _ rc =>
      match prod_of sg ret, s_dot ret with
      | Some p, S d =>
          match nth_error p d with
          | Some (SNonterm X) => starts sg (s_nt ret) rc X
          | _ => []
          end
      | _, _ => []
      end
  end.

Lemma match_sym_bounds s input i k : (i <= length input)%nat ->
  match_sym s input i = Some k -> (i <= k <= length input)%nat.
Proof.
  destruct s; cbn; intros H E; try discriminate.
  - eapply match_term_bounds; eauto.
  - inversion E; lia.
Qed.

Lemma drest_bounds sg input L rc i j : (i <= length input)%nat ->
  drest sg input L rc i j -> (i <= j <= length input)%nat.
Proof.
  intros H D. revert H. induction D; intros H'; try lia.
  apply match_sym_bounds in H1; lia.
Qed.

Lemma prod_adv sg L : prod_of sg (adv L) = prod_of sg L.
Proof. reflexivity. Qed.

Lemma prod_base sg L : prod_of sg (base L) = prod_of sg L.
Proof. reflexivity. Qed.

Lemma base_adv L : base (adv L) = base L.
Proof. reflexivity. Qed.

Lemma starts_dot0 sg c rc X L rc' : In (L, rc') (starts sg c rc X) -> s_dot L = 0%nat /\ s_nt L = X.
Proof.
  unfold starts. destruct (nth_error _ X) as [nt|]; [|easy].
  destruct (nt_isrep nt).
  - unfold rep_alts. rewrite in_app_iff.
    destruct (_ <=? _); destruct (_ || _)%bool; cbn; intuition; match goal with H : _ = _ |- _ => inversion H; subst end; auto.
  - rewrite in_map_iff. intros (a & E & _). inversion E; auto.
Qed.

Lemma start_dot0 sg L rc : In (L, rc) (start_slots sg) -> s_dot L = 0%nat /\ s_nt L = sg_start sg /\ rc = 0.
Proof.
  unfold start_slots. destruct (nth_error _ _) as [nt|]; [|easy].
  rewrite in_map_iff. intros (a & E & _). inversion E; auto.
Qed.

Lemma starts_nonrep_rc sg c rc X L rc' nt : nth_error (sg_nts sg) X = Some nt -> nt_isrep nt = false ->
  In (L, rc') (starts sg c rc X) -> rc' = 0.
Proof.
  unfold starts. intros -> ->. rewrite in_map_iff. intros (a & E & _). inversion E; auto.
Qed.

Lemma callees_dot0 sg u L rc : In (L, rc) (callees sg u) -> s_dot L = 0%nat.
Proof.
  destruct u; cbn; intros H; [apply start_dot0 in H; tauto|].
  destruct (prod_of sg ret); [|easy]. destruct (s_dot ret); [easy|].
  destruct (nth_error l n) as [[]|]; try easy. apply starts_dot0 in H. tauto.
Qed.

Lemma callees_base sg u L rc : In (L, rc) (callees sg u) -> base L = L.
Proof. intros H. apply callees_dot0 in H. destruct L; cbn in *; subst; reflexivity. Qed.

(** A frame of a plain nonterminal runs at count 0. *)
Lemma callees_nonrep_rc sg u L rc nt : nth_error (sg_nts sg) (s_nt L) = Some nt -> nt_isrep nt = false ->
  In (L, rc) (callees sg u) -> rc = 0.
Proof.
  intros N R. destruct u; cbn; intros H; [apply start_dot0 in H; tauto|].
  destruct (prod_of sg ret); [|easy]. destruct (s_dot ret); [easy|].
  destruct (nth_error l n) as [[]|]; try easy.
  destruct (starts_dot0 _ _ _ _ _ _ H) as [_ E]. subst. eapply starts_nonrep_rc; eauto.
Qed.
