(** Claim C81: the work of IsValid is polynomial (recognize.go:9-16), whatever the bounds of the
    repetitions; but not every unbounded repetition takes O(n^2) (recognize.go:79-85). *)
From Coq Require Import ZArith Arith String Ascii Bool Relations Permutation List Lia.
From Verif Require Import Syntax Spec Utf8 Num Term Printer Deps LeftRec Slots Occ PropGll PropLeftRec Cost PropCost LowerSize
  Recog RecogProof RecogGlue RecogCheck PropRecog RecogCost RecogCostProof RecogCostLow.
Import ListNotations.
Local Open Scope string_scope.
Local Open Scope list_scope.
Local Open Scope nat_scope.

(** (specification) The size of a grammar, the rules counted too. *)
Definition weight (g : grammar) : nat := size g + length (g ++ core_rules).

(** *** The size bounds what the recognizer meets *)
Lemma sum_le {A} (f h : A -> nat) l : Forall (fun x => f x <= h x) l -> list_sum (map f l) <= list_sum (map h l).
Proof. induction 1 as [|x l F _ IH]; [apply le_n|]. exact (Nat.add_le_mono _ _ _ _ F IH). Qed.
Lemma sum_in {A} (f : A -> nat) l x : In x l -> f x <= list_sum (map f l).
Proof.
  induction l as [|y l IH]; cbn [In map]; [intros []|]. change (list_sum (f y :: map f l)) with (f y + list_sum (map f l)).
  intros [->|I]; [lia|]. specialize (IH I). lia.
Qed.
Lemma flat_len {A B} (f : A -> list B) l : length (flat_map f l) = list_sum (map (fun x => length (f x)) l).
Proof. induction l as [|x l IH]; cbn; [reflexivity|]. rewrite app_length, IH. reflexivity. Qed.
Lemma aw_size a : aw a <= alt_size a.
Proof.
  unfold aw, alt_size. apply sum_le, Forall_forall. intros c _. apply le_n_S.
  induction c as [|r c IH]; [apply le_n|]. change (S (length c) <= rep_size r + list_sum (map rep_size c)). destruct r as [mn mx e]. cbn [rep_size]. lia.
Qed.
(** What a listed element weighs, and how many are listed. *)
Lemma subs_size : (forall e, length (elem_subs e) <= 1 + elem_size e /\ forall y, In y (elem_subs e) -> elem_size y <= elem_size e) /\
  (forall r, length (rep_subs r) <= rep_size r /\ forall y, In y (rep_subs r) -> elem_size y <= rep_size r).
Proof.
  assert (AL : forall a, Forall (Forall (fun r => length (rep_subs r) <= rep_size r /\ forall y, In y (rep_subs r) -> elem_size y <= rep_size r)) a ->
    length (alt_subs a) <= alt_size a /\ forall y, In y (alt_subs a) -> elem_size y <= alt_size a).
  { intros a F. split.
    - unfold alt_subs, alt_size. rewrite flat_len. apply sum_le. eapply Forall_impl; [|exact F]. cbv beta. intros c Fc.
      rewrite flat_len. apply le_S. apply sum_le. eapply Forall_impl; [|exact Fc]. cbv beta. intros r [Q _]. exact Q.
    - intros y Y. apply alt_subs_elim in Y as (c & r & Ic & Ir & Y). rewrite Forall_forall in F. specialize (F c Ic). rewrite Forall_forall in F.
      destruct (F r Ir) as [_ Q]. specialize (Q y Y).
      pose proof (sum_in rep_size c r Ir). pose proof (sum_in (fun c => 1 + list_sum (map rep_size c)) a c Ic). cbv beta in *. unfold alt_size. lia. }
  apply elem_rep_ind.
  - intros n. split; [cbn; lia|]. intros y [<-|[]]. lia.
  - intros a F. apply AL in F as [F1 F2]. change (elem_subs (EGroup a)) with (EGroup a :: alt_subs a). change (elem_size (EGroup a)) with (1 + alt_size a).
    split; [cbn [length]; lia|]. intros y [<-|Y]; [change (elem_size (EGroup a)) with (1 + alt_size a); lia|]. specialize (F2 y Y). lia.
  - intros a F. apply AL in F as [F1 F2]. change (elem_subs (EOption a)) with (EOption a :: alt_subs a). change (elem_size (EOption a)) with (1 + alt_size a).
    split; [cbn [length]; lia|]. intros y [<-|Y]; [change (elem_size (EOption a)) with (1 + alt_size a); lia|]. specialize (F2 y Y). lia.
  - intros s vs. split; [cbn; lia|]. intros y [<-|[]]. lia.
  - intros b s vs. split; [cbn; lia|]. intros y [<-|[]]. lia.
  - intros s. split; [cbn; lia|]. intros y [<-|[]]. lia.
  - intros mn mx e [Q1 Q2]. cbn [rep_subs rep_size]. split; [exact Q1|]. intros y Y. specialize (Q2 y Y). lia.
Qed.
Lemma alt_subs_size a : length (alt_subs a) <= alt_size a /\ forall y, In y (alt_subs a) -> elem_size y <= alt_size a.
Proof.
  split.
  - unfold alt_subs, alt_size. rewrite flat_len. apply sum_le, Forall_forall. intros c _. rewrite flat_len. apply le_S. apply sum_le, Forall_forall.
    intros r _. apply (proj2 subs_size).
  - intros y Y. apply alt_subs_elim in Y as (c & r & Ic & Ir & Y). pose proof (proj2 (proj2 subs_size r) y Y).
    pose proof (sum_in rep_size c r Ir). pose proof (sum_in (fun c => 1 + list_sum (map rep_size c)) a c Ic). cbv beta in *. unfold alt_size. lia.
Qed.
Lemma rule_size g n r : get_rule n g = Some r -> alt_size (rule_alt r) <= size g.
Proof. intros G. destruct (get_rule_name _ _ _ G) as [_ Ir]. exact (sum_in (fun r => alt_size (rule_alt r)) _ _ Ir). Qed.
Lemma all_elems_size g root : length (all_elems g root) <= 1 + size g /\ forall y, In y (all_elems g root) -> elem_size y <= size g.
Proof.
  unfold all_elems. split.
  - cbn [length]. apply le_n_S. rewrite flat_len. unfold size. apply sum_le, Forall_forall. intros r _. apply alt_subs_size.
  - intros y [<-|Y]; [cbn; lia|]. apply in_flat_map in Y as (r & Ir & Y). pose proof (proj2 (alt_subs_size (rule_alt r)) y Y).
    pose proof (sum_in (fun r => alt_size (rule_alt r)) _ _ Ir). cbv beta in *. unfold size. lia.
Qed.
Lemma keys_size g input root : length (key_univ g input root) <= 2 * weight g * S (length input).
Proof.
  unfold key_univ. rewrite flat_len. pose proof (proj1 (all_elems_size g root)) as L.
  assert (C : length (g ++ core_rules) >= 1) by (rewrite app_length; change (length core_rules) with 16; lia).
  assert (X : forall l, list_sum (map (fun e => length (flat_map (keys e) (seq 0 (S (length input))))) l) <= length l * (2 * S (length input))).
  { induction l as [|e l IH]; [cbn; lia|]. cbn [map length]. set (f := fun e => length (flat_map (keys e) (seq 0 (S (length input))))) in *.
    change (list_sum (f e :: map f l)) with (f e + list_sum (map f l)).
    assert (F : f e <= 2 * S (length input)).
    { unfold f. rewrite flat_len. rewrite <- (seq_length (S (length input)) 0) at 2. generalize (seq 0 (S (length input))). intros s.
      induction s as [|i s IHs]; [cbn; lia|]. cbn [map length]. change (list_sum (length (keys e i) :: ?r)) with (length (keys e i) + list_sum r).
      assert (length (keys e i) <= 2) by (destruct e; cbn; lia). lia. }
    exact (Nat.add_le_mono _ _ _ _ F IH). }
  eapply Nat.le_trans; [apply X|]. replace (2 * weight g * S (length input)) with (weight g * (2 * S (length input))) by ring.
  apply Nat.mul_le_mono_r. unfold weight. lia.
Qed.

(** *** The polynomials *)
Lemma poly_lr q k : S q + (1 + S q * S (S k)) * (1 + S q * (S q * (2 * S (S k) * S (S k) * S (S k) * S (S k)) + S (S k))) + S q * (2 * S (S k)) <=
  4 * S q ^ 3 * S (S k) ^ 5.
Proof.
  apply Nat.le_trans with (1 := Nat.le_add_r _ (18 * q ^ 0 * k ^ 0 + 88 * q ^ 0 * k ^ 1 + 111 * q ^ 0 * k ^ 2 + 64 * q ^ 0 * k ^ 3 + 18 * q ^ 0 * k ^ 4 + 2 * q ^ 0 * k ^ 5 + 111 * q ^ 1 * k ^ 0 + 340 * q ^ 1 * k ^ 1 + 382 * q ^ 1 * k ^ 2 + 208 * q ^ 1 * k ^ 3 + 56 * q ^ 1 * k ^ 4 + 6 * q ^ 1 * k ^ 5 + 156 * q ^ 2 * k ^ 0 + 412 * q ^ 2 * k ^ 1 + 431 * q ^ 2 * k ^ 2 + 224 * q ^ 2 * k ^ 3 + 58 * q ^ 2 * k ^ 4 + 6 * q ^ 2 * k ^ 5 + 64 * q ^ 3 * k ^ 0 + 160 * q ^ 3 * k ^ 1 + 160 * q ^ 3 * k ^ 2 + 80 * q ^ 3 * k ^ 3 + 20 * q ^ 3 * k ^ 4 + 2 * q ^ 3 * k ^ 5)).
  apply Nat.eq_le_incl. cbn [Nat.pow]. ring.
Qed.
Lemma poly_end W Q n c : 1 <= W * Q -> c <= 1 + W * (2 * (2 * Q * S n)) -> c <= W * (4 * Q * (n + 2)).
Proof.
  intros P H. eapply Nat.le_trans; [exact H|]. replace (W * (4 * Q * (n + 2))) with (4 * (W * Q) + W * (2 * (2 * Q * S n))) by ring. lia.
Qed.
Lemma lrw_mono input T Q n : T <= Q -> n <= Q -> lrw input T n <= lrw input Q Q.
Proof.
  intros A B. unfold lrw. set (N := length input + 2). set (w := 2 * N * N * N * N).
  apply Nat.add_le_mono; [apply Nat.add_le_mono; [exact B|]|apply Nat.mul_le_mono_r; exact B].
  apply Nat.mul_le_mono; [apply le_n_S, Nat.mul_le_mono_r; exact B|]. apply le_n_S. apply Nat.mul_le_mono; [exact B|].
  apply Nat.add_le_mono_r, Nat.mul_le_mono_r; exact A.
Qed.
Lemma lrw_poly input Q : 1 <= Q -> lrw input Q Q <= 4 * Q ^ 3 * (length input + 2) ^ 5.
Proof.
  intros H. destruct Q as [|q]; [lia|]. unfold lrw. replace (length input + 2) with (S (S (length input))) by lia. apply poly_lr.
Qed.
Lemma plain_poly T Q N : T <= Q -> 1 <= Q -> 2 <= N -> T * (2 * N * N * N * N) + 2 * N <= 3 * Q * N ^ 4.
Proof.
  intros A B C. replace (3 * Q * N ^ 4) with (Q * (2 * N * N * N * N) + Q * N * (N * N * N)) by (cbn [Nat.pow]; ring).
  apply Nat.add_le_mono; [apply Nat.mul_le_mono_r; auto|]. rewrite (Nat.mul_comm 2 N).
  apply Nat.mul_le_mono; [|]; nia.
Qed.

Section Bounds.
  Variable g : grammar.
  Variable input : list Z.
  Variable ord : nat -> list nat -> list nat.
  Hypothesis O : map_order ord.
  Variable lr : string -> option (list string).
  Hypothesis LI : forall n scc, lr n = Some scc -> In n scc.
  Variable root : string.
  Variable W : nat.
  Hypothesis W_plain : size g * (2 * (length input + 2) * (length input + 2) * (length input + 2) * (length input + 2)) + 2 * (length input + 2) <= W.
  Hypothesis W_lr : forall n scc, lr n = Some scc -> lrw input (size g) (length scc) <= W.
  Lemma bound f : recog_fuel g input root <= f -> 1 <= W * weight g ->
    elem_c g input lr ord f (ERule root) 0 r_init <= W * (4 * weight g * (length input + 2)).
  Proof.
    intros F P. apply poly_end; auto.
    eapply Nat.le_trans; [apply (total_steps g input lr ord root O LI (size g) W); auto|].
    - intros n r G. eapply Nat.le_trans; [apply aw_size|]. eapply rule_size; eauto.
    - intros a H. eapply Nat.le_trans; [apply aw_size|].
      destruct H as [H|H]; apply (proj2 (all_elems_size g root)) in H; cbn [elem_size] in H; unfold alt_size; lia.
    - intros e H. apply (proj2 (all_elems_size g root)) in H. destruct e; cbn [match_cost elem_size] in *; lia.
    - apply le_n_S. apply Nat.mul_le_mono_l. apply Nat.mul_le_mono_l. apply keys_size.
  Qed.
End Bounds.

Lemma scc_small g (lr : string -> option (list string)) : (forall n scc, lr n = Some scc -> NoDup scc) ->
  (forall n scc x, lr n = Some scc -> In x scc -> lower x = x /\ exists a, resolves g x a) ->
  forall n (scc : list string), lr n = Some scc -> length scc <= length (g ++ core_rules).
Proof.
  intros ND SR n scc L. rewrite <- (map_length (fun r => lower (rule_name r)) (g ++ core_rules)). apply NoDup_incl_length; [eapply ND; eauto|].
  intros x Ix. destruct (SR n scc x L Ix) as [Lx (a & [(r & Ir & S & _)|(_ & r & Ir & S & _)])].
  - apply in_map_iff. exists r. split; [rewrite <- Lx; symmetry; exact S|apply in_or_app; auto].
  - apply in_map_iff. exists r. split; [rewrite <- Lx; symmetry; exact S|apply in_or_app; auto].
Qed.

(** ** C81: the work is polynomial *)
(** Whatever the grammar, its bounds and its left recursion, the input, and the orders in
    which Go walks its maps: the steps of IsValid are at most 16 Q^4 (n + 2)^6, with Q the weight
    of the grammar and n the length of the input. *)
Theorem C81_valid_polynomial : forall g n input ordn order ord fuel,
  any_order ordn -> name_order g order -> map_order ord -> recog_fuel g input n <= fuel ->
  valid_steps ordn order ord fuel g n input <= 16 * weight g ^ 4 * (length input + 2) ^ 6.
Proof.
  intros g n input ordn order ord fuel On K O F. unfold valid_steps. destruct (get_rule n g) as [r|]; [|lia].
  destruct (analysis_total g ordn order On K) as (lr & -> & LI & ND & SR).
  set (N := length input + 2). assert (Q1 : 1 <= weight g) by (unfold weight; rewrite app_length; change (length core_rules) with 16; lia).
  set (W := 4 * weight g ^ 3 * N ^ 5).
  assert (Ns : 1 <= N ^ 5) by (apply Nat.neq_0_lt_0, Nat.pow_nonzero; unfold N; lia).
  assert (Qs : 1 <= weight g ^ 3) by (apply Nat.neq_0_lt_0, Nat.pow_nonzero; lia).
  assert (P : 1 <= W * weight g). { unfold W. pose proof (Nat.mul_le_mono 1 _ 1 _ Qs Ns). pose proof (Nat.mul_le_mono 1 _ 1 _ H Q1). nia. }
  assert (Sz : size g <= weight g) by (unfold weight; lia).
  assert (L : forall m scc, lr m = Some scc -> lrw input (size g) (length scc) <= W).
  { intros m scc E. eapply Nat.le_trans; [apply (lrw_mono input _ (weight g)); auto|apply lrw_poly; auto].
    pose proof (scc_small g lr ND SR m scc E). unfold weight. lia. }
  assert (Pl : size g * (2 * N * N * N * N) + 2 * N <= W).
  { eapply Nat.le_trans; [apply (plain_poly _ (weight g)); auto; unfold N; lia|]. unfold W.
    replace (4 * weight g ^ 3 * N ^ 5) with (4 * weight g * N ^ 4 * (weight g * weight g * N)) by (cbn [Nat.pow]; ring).
    assert (X : 1 <= weight g * weight g * N) by (pose proof (Nat.mul_le_mono 1 _ 1 _ Q1 Q1); assert (1 <= N) by (unfold N; lia); nia).
    pose proof (Nat.mul_le_mono_l _ _ (4 * weight g * N ^ 4) X). nia. }
  eapply Nat.le_trans; [apply (bound g input ord O lr LI n W); auto|]. fold N. unfold W. apply Nat.eq_le_incl. cbn [Nat.pow]. ring.
Qed.

(** Without left recursion: at most 12 Q^2 (n + 2)^5. *)
Theorem C81_valid_plain : forall g n input ordn order ord fuel,
  distinct_names g -> bounds_ok g -> (forall m, ~ left_recursive g m) ->
  any_order ordn -> name_order g order -> map_order ord -> recog_fuel g input n <= fuel ->
  valid_steps ordn order ord fuel g n input <= 12 * weight g ^ 2 * (length input + 2) ^ 5.
Proof.
  intros g n input ordn order ord fuel D B NL On K O F. unfold valid_steps. destruct (get_rule n g) as [r|]; [|lia].
  destruct (analysis_total g ordn order On K) as (lr & E & LI & ND & SR).
  destruct (C45_left_recursion_detected g ordn order D B On K) as (lr' & E' & Det). rewrite E in E'. injection E' as <-. rewrite E.
  set (N := length input + 2). assert (Q1 : 1 <= weight g) by (unfold weight; rewrite app_length; change (length core_rules) with 16; lia).
  set (W := 3 * weight g * N ^ 4).
  assert (Ns : 1 <= N ^ 4) by (apply Nat.neq_0_lt_0, Nat.pow_nonzero; unfold N; lia).
  assert (P : 1 <= W * weight g). { unfold W. pose proof (Nat.mul_le_mono 1 _ 1 _ Q1 Ns). pose proof (Nat.mul_le_mono 1 _ 1 _ H Q1). nia. }
  assert (Sz : size g <= weight g) by (unfold weight; lia).
  assert (L : forall m scc, lr m = Some scc -> lrw input (size g) (length scc) <= W).
  { intros m scc Em. exfalso. apply (NL m). apply Det. exists scc. destruct (SR m scc m Em (LI _ _ Em)) as [-> _]. exact Em. }
  assert (Pl : size g * (2 * N * N * N * N) + 2 * N <= W) by (apply plain_poly; auto; unfold N; lia).
  eapply Nat.le_trans; [apply (bound g input ord O lr LI n W); auto|]. fold N. unfold W. apply Nat.eq_le_incl. cbn [Nat.pow]. ring.
Qed.

(** Whether no rule is left recursive, by running the analysis. *)
Definition no_left_recursion (g : grammar) : bool :=
  match left_recursive_sccs g idn (all_names g) with
  | Some lr => forallb (fun r => match lr (lower (rule_name r)) with None => true | _ => false end) (g ++ core_rules)
  | None => false
  end.
Lemma no_left_recursion_ok g : distinct_names g -> bounds_ok g -> no_left_recursion g = true -> forall m, ~ left_recursive g m.
Proof.
  intros D B H m L. unfold no_left_recursion in H.
  destruct (analysis_total g idn (all_names g) idn_any (all_names_order g D)) as (lr & E & LI & _ & SR).
  destruct (C45_left_recursion_detected g idn (all_names g) D B idn_any (all_names_order g D)) as (lr' & E' & Det). rewrite E in E'. injection E' as <-. rewrite E in H.
  apply Det in L as (scc & L). destruct (SR _ _ _ L (LI _ _ L)) as [_ (a & Ra)]. rewrite forallb_forall in H.
  assert (X : exists r, In r (g ++ core_rules) /\ lower (rule_name r) = lower m).
  { destruct Ra as [(r & Ir & S & _)|(_ & r & Ir & S & _)]; exists r; (split; [apply in_or_app; auto|]); unfold same_name in S; rewrite <- S; apply lower_lower. }
  destruct X as (r & Ir & Er). specialize (H r Ir). rewrite Er, L in H. discriminate.
Qed.
Lemma runs_wf : distinct_names g_runs /\ bounds_ok g_runs /\ forall m, ~ left_recursive g_runs m.
Proof.
  assert (D : distinct_names g_runs) by (unfold distinct_names; repeat constructor; cbn; intuition discriminate).
  assert (B : bounds_ok g_runs) by (apply bounds_dec; vm_compute; reflexivity).
  split; [exact D|]. split; [exact B|]. apply no_left_recursion_ok; auto; vm_compute; reflexivity.
Qed.

(** ** A repetition that is not quadratic *)
(** The comment of reachRep (recognize.go:79-85) says that stopping once no new position is
    reached keeps an unbounded repetition over an element with large reach-sets at O(n^2).
    s = *(1*"a" / "b") on 4h a's and 4h b's takes a cubic number of steps: each b gives one
    more round, and each round walks the ends of all the a's again. *)
Theorem C81_repetition_cubic : forall h ordn order ord fuel,
  let input := repeat 97%Z (4 * h) ++ repeat 98%Z (4 * h) in
  any_order ordn -> name_order g_runs order -> map_order ord -> recog_fuel g_runs input "s" <= fuel ->
  (h - 1) * (2 * h * h) <= valid_steps ordn order ord fuel g_runs "s" input.
Proof.
  intros h ordn order ord fuel input On K O F. unfold valid_steps. change (get_rule "s" g_runs) with (Some (mkRule "s" [[Rep 0 inf G]])).
  destruct runs_wf as (D & B & NL).
  destruct (C45_left_recursion_detected g_runs ordn order D B On K) as (lr & -> & Det).
  assert (L : lr "s" = None). { destruct (lr "s") as [scc|] eqn:E; auto. exfalso. apply (NL "s"). apply Det. exists scc. exact E. }
  assert (F3 : 3 <= fuel).
  { eapply Nat.le_trans; [|exact F]. unfold recog_fuel. apply le_n_S. unfold key_univ, all_elems. cbn [flat_map seq]. rewrite !app_length.
    cbn [keys length]. lia. }
  destruct fuel as [|[|[|f]]]; try lia. apply runs_cost; auto.
Qed.
(** No constant makes it O(n^2). *)
Theorem C81_repetition_quadratic_refuted : exists g n, distinct_names g /\ bounds_ok g /\ (forall m, ~ left_recursive g m) /\
  forall C, exists input, forall ordn order ord fuel,
    any_order ordn -> name_order g order -> map_order ord -> recog_fuel g input n <= fuel ->
    C * (length input + 2) ^ 2 < valid_steps ordn order ord fuel g n input.
Proof.
  exists g_runs, "s". destruct runs_wf as (D & B & NL). split; [exact D|]. split; [exact B|]. split; [exact NL|].
  intros C. set (h := 50 * C + 2). exists (repeat 97%Z (4 * h) ++ repeat 98%Z (4 * h)). intros ordn order ord fuel On K O F.
  eapply Nat.lt_le_trans; [|apply (C81_repetition_cubic h); auto].
  rewrite len_input. replace (2 * (4 * h)) with (8 * h) by ring.
  assert (A : C * (8 * h + 2) ^ 2 <= C * (100 * (h * h))).
  { apply Nat.mul_le_mono_l. cbn [Nat.pow]. assert (h <= h * h) by (unfold h; nia). assert (1 <= h) by (unfold h; lia).
    replace ((8 * h + 2) * ((8 * h + 2) * 1)) with (64 * (h * h) + 32 * h + 4) by ring. lia. }
  eapply Nat.le_lt_trans; [exact A|]. replace (h - 1) with (50 * C + 1) by (unfold h; lia).
  replace ((50 * C + 1) * (2 * h * h)) with (C * (100 * (h * h)) + 2 * (h * h)) by ring. assert (1 <= h * h) by (unfold h; nia). lia.
Qed.

(** *** A case *)
(** A left recursive grammar: e = e "+" n / n, n = 1*%x30-39. *)
Definition g_sum : grammar :=
  [mkRule "e" [[one (ERule "e"); one (lit "+"); one (ERule "n")]; [one (ERule "n")]];
   mkRule "n" [[Rep 1 inf (ENum "x" StatRange ["30"; "39"])]]].
(** The bounds are met with room: steps for 1+1, 1+1+1+1 and 1+1+1+1+1+1+1+1; and the steps
    for s = *(1*"a" / "b") on 4, 8 and 16 a's and as many b's. *)
Example C81_case :
  weight g_sum = 116 /\
  map (fun s => valid_steps idn (first_name "e" g_sum) idp (recog_fuel g_sum (bytes s) "e") g_sum "e" (bytes s)) ["1+1"; "1+1+1+1"; "1+1+1+1+1+1+1+1"] = [175; 439; 1255] /\
  map (fun m => valid_steps idn (first_name "s" g_runs) idp (recog_fuel g_runs (repeat 97%Z m ++ repeat 98%Z m) "s") g_runs "s" (repeat 97%Z m ++ repeat 98%Z m)) [4; 8; 16] = [404; 1138; 3918] /\
  any_order idn /\ name_order g_sum (first_name "e" g_sum) /\ name_order g_runs (first_name "s" g_runs) /\ map_order idp.
Proof.
  split; [vm_compute; reflexivity|]. split; [vm_compute; reflexivity|]. split; [vm_compute; reflexivity|].
  split; [exact idn_any|].
  split; [apply first_name_order; [unfold distinct_names; repeat constructor; cbn; intuition discriminate|vm_compute; auto]|].
  split; [apply first_name_order; [exact (proj1 runs_wf)|vm_compute; auto]|]. intros t l. apply Permutation_refl.
Qed.

Print Assumptions C81_valid_polynomial.
Print Assumptions C81_valid_plain.
Print Assumptions C81_repetition_cubic.
Print Assumptions C81_repetition_quadratic_refuted.
