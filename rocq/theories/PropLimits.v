(** C103: what the limits of a generator on a transition graph promise.  Its definitions are
    those of the examples and model no code. *)
From Coq Require Import ZArith Arith String Bool Permutation List Lia.
From Verif Require Import Syntax Spec Check Num Utf8 Tape Occ PrintInj LowerLang PropDag PropGll AstProof PropAst RecogGlue PropRecog
  Graph GraphSpec GraphRun GraphRep GraphBuild GraphLabel PropGraph Walk WalkProof PropWalk.
Import ListNotations.
Local Open Scope string_scope.
Local Open Scope nat_scope.
Local Open Scope list_scope.

Section Limits.
  Variables (S_ : Type) (intn : Z -> S_ -> Z * S_).
  Hypothesis Dr : draws_ok intn.
  Variable g : generator.
  Hypothesis Go : gen_ok g.
  Notation h := (tg_heap (g_graph g)).
  Hypothesis Safe : forall a, in_graph (g_graph g) a -> emit_safe (elem_at h a).
  Variable M : nat.
  Hypothesis Small : forall a b, in_graph (g_graph g) a -> emitted (elem_at h a) b -> length b <= M.
  Notation N := (length (g_dist g)).
  Lemma decide_over a len vs steps s : (g_length g <= len)%Z -> decide intn g a len vs steps s = decide intn g a len vs (g_steps g) s.
  Proof. intros L. unfold decide. cbv zeta. replace (g_length g <=? len)%Z with true by (symmetry; apply Z.leb_le, L). reflexivity. Qed.
  Lemma emit_trace e out tr s out1 tr1 s1 : walk_emit intn e out tr s = Some (out1, tr1, s1) -> length tr1 <= S (length tr).
  Proof.
    unfold walk_emit. destruct (producing e); [|intros E; injection E as _ <- _; lia]. destruct (node_emit e 0) as [[b0 vt]|]; [|discriminate]. cbv zeta. match goal with |- context [let '(_, _) := ?X in _] => destruct X as [idx s'] end.
    destruct (node_emit e idx) as [[b v]|]; [|discriminate]. intros E. injection E as _ <- _. destruct b; [lia|]. rewrite app_length. cbn [length]. lia.
  Qed.
  Definition bytes_left (a_dist len : nat) : nat := if len <? Z.to_nat (g_length g) then Z.to_nat (g_length g) + M * N else len + M * S a_dist.
  Definition segs_left (a_dist segs : nat) (steps : Z) : nat := if (steps <? g_steps g)%Z then segs + Z.to_nat (g_steps g - steps) + N else segs + S a_dist.
  Lemma loop_limits fuel : forall a d out tr vs steps s w tr' s', in_graph (g_graph g) a -> dget (Some a) (g_dist g) = Some d -> traced out tr ->
    walk_loop intn fuel g (Some a) out tr vs steps s = W_ok w tr' s' -> length w <= bytes_left d (length out) /\ length tr' <= segs_left d (length tr) steps.
  Proof.
    induction fuel as [|k IH]; intros a d out tr vs steps s w tr' s' Ig Ed T E; [discriminate|]. cbn [walk_loop] in E.
    destruct (walk_emit_spec intn Dr (elem_at h a) out tr s (go_prod g Go a Ig) (Safe a Ig) T) as (b & tr1 & s1 & Ew & Em & T1). rewrite Ew in E. apply emit_trace in Ew.
    pose proof (Small a b Ig Em) as Sb. pose proof (dist_bound g Go _ _ Ed) as B. assert (MB : M * S d <= M * N) by (apply Nat.mul_le_mono_l; lia).
    pose proof (decide_spec intn Dr g Go a d (Z.of_nat (length (out ++ b))) vs steps s1 Ig Ed) as K.
    pose proof (decide_spec intn Dr g Go a d (Z.of_nat (length (out ++ b))) vs (g_steps g) s1 Ig Ed) as K'.
    pose proof (decide_over a (Z.of_nat (length (out ++ b))) vs steps s1) as Q.
    assert (Lo : length (out ++ b) = length out + length b) by apply app_length.
    destruct (decide intn g a (Z.of_nat (length (out ++ b))) vs steps s1) as [[|c|] s2] eqn:Ed1; [| |discriminate].
    - injection E as <- <- _. unfold bytes_left, segs_left. split.
      + destruct (Nat.ltb_spec (length out) (Z.to_nat (g_length g))); nia.
      + destruct (Z.ltb_spec steps (g_steps g)); lia.
    - destruct K as (Ic & d' & Ec & Lt). pose proof (dist_bound g Go _ _ Ec) as B'. assert (MB' : M * S d' <= M * N) by (apply Nat.mul_le_mono_l; lia).
      assert (Lt' : (g_length g <= Z.of_nat (length (out ++ b)))%Z -> d' < d).
      { intros L. rewrite <- (Q L) in K'. destruct K' as (_ & d2 & E2 & L2). rewrite Ec in E2. injection E2 as <-. apply L2. lia. }
      destruct (IH c d' _ _ _ _ _ _ _ _ (in_graph_next _ _ _ Ig Ic) Ec T1 E) as [I1 I2]. unfold bytes_left, segs_left in *. split.
      + destruct (Nat.ltb_spec (length (out ++ b)) (Z.to_nat (g_length g))), (Nat.ltb_spec (length out) (Z.to_nat (g_length g))); try lia.
        * specialize (Lt' ltac:(lia)). assert (M * S (S d') <= M * S d) by (apply Nat.mul_le_mono_l; lia). nia.
        * specialize (Lt' ltac:(lia)). assert (M * S (S d') <= M * S d) by (apply Nat.mul_le_mono_l; lia). nia.
      + destruct (Z.ltb_spec (steps + 1) (g_steps g)), (Z.ltb_spec steps (g_steps g)); try lia.
  Qed.
  Lemma walk_limits fuel s w tr s' : walk intn fuel g s = W_ok w tr s' -> length w <= Z.to_nat (g_length g) + M * N /\ length tr <= Z.to_nat (g_steps g) + N.
  Proof.
    unfold walk. destruct (g_entries g) as [|e es] eqn:Ee; [intros E; injection E as <- <- _; cbn; lia|]. rewrite <- Ee. destruct (intn _ s) as [c s1]. destruct (c <? 0)%Z; [discriminate|].
    destruct (nth_error (g_entries g) (Z.to_nat c)) as [x|] eqn:En; [|discriminate]. apply nth_error_In in En. apply (go_entry g Go) in En as [I1 (d & Ed)]. destruct x as [a|].
    - intros E. pose proof (dist_bound g Go _ _ Ed) as B. assert (MB : M * S d <= M * N) by (apply Nat.mul_le_mono_l; lia).
      destruct (loop_limits fuel a d [] [] [] 0%Z s1 w tr s' (in_graph_entry _ _ I1) Ed (Forall_nil _) E) as [L1 L2]. unfold bytes_left, segs_left in *. cbn [length] in *.
      destruct (Nat.ltb_spec 0 (Z.to_nat (g_length g))), (Z.ltb_spec 0 (g_steps g)); lia.
    - destruct fuel as [|k]; [discriminate|]. cbn [walk_loop]. intros E. injection E as <- <- _. cbn. lia.
  Qed.
End Limits.

(** A production has at most maxLength bytes, and those of as many nodes as reach an end
    point; a walk emits at most maxSteps times, and as many times as nodes reach an end point.
    The two sums are what the limits promise: past a limit the walk takes the shortest way
    to an end point. *)
Theorem C103_limits : forall fuel opts g g1 g2 order n t c ml mr ms gen M, wf_grammar g ->
  transition_graph fuel opts g g1 g2 order n = TG_ok t c -> new_generator t ml mr ms = Gen_ok gen ->
  (forall a b, in_graph t a -> emitted (elem_at (tg_heap t) a) b -> length b <= M) ->
  forall (S_ : Type) (intn : Z -> S_ -> Z * S_) s k w tr s', draws_ok intn -> walk intn k gen s = W_ok w tr s' ->
  length w <= Z.to_nat ml + M * length (g_dist gen) /\ length tr <= Z.to_nat ms + length (g_dist gen).
Proof.
  intros fuel opts g g1 g2 order n t c ml mr ms gen M W E G Sm S_ intn s k w tr s' Dr X. pose proof (new_generator_spec t ml mr ms) as K. rewrite G in K.
  destruct K as (Go & <- & <- & _ & <-). exact (walk_limits S_ intn Dr gen Go (built_all _ _ _ _ _ _ _ _ _ _ (allows_safe opts g W) E) M Sm k s w tr s' X).
Qed.

(** The repetition 1*(%s"x" %s"y"), its graph of two nodes, and the limits at work. *)
Definition g_xy : grammar := [mkRule "a" [[Rep 1 inf (EGroup [[Rep 1 1 (EChar true [120%Z]); Rep 1 1 (EChar true [121%Z])]])]]].
Definition t_xy : tgraph := match transition_graph 30 (o33 false) g_xy g_xy g_xy (keys g_xy) "a" with TG_ok t _ => t | _ => mkTG [] [] [] end.
Example C103_case : wf_grammar g_xy /\ transition_graph 30 (o33 false) g_xy g_xy g_xy (keys g_xy) "a" = TG_ok t_xy 0 /\
  (forall a b, in_graph t_xy a -> emitted (elem_at (tg_heap t_xy) a) b -> length b <= 1) /\
  exists gen tr, new_generator t_xy 3 32 100 = Gen_ok gen /\ length (g_dist gen) = 2 /\ graph_generate 50 false gen [1; 1; 1; 1]%Z = W_ok (bytes "xyxy") tr tt /\ length tr = 4.
Proof.
  split; [apply wf_grammarb_spec; vm_compute; reflexivity|]. split; [vm_compute; reflexivity|]. split.
  - assert (H : tg_heap t_xy = [mkNode (EChar true [120%Z]) [1]; mkNode (EChar true [121%Z]) []; mkNode (EChar true [120%Z]) [3]; mkNode (EChar true [121%Z]) [2]]) by (vm_compute; reflexivity).
    intros a b _ (k & vt & b0 & v1 & _ & _ & E). rewrite H in E. clear H.
    assert (Q : b = [120%Z] \/ b = [121%Z] \/ b = []).
    { do 4 (destruct a as [|a]; [injection E as <- _; vm_compute; auto|]). unfold elem_at in E. cbn [nth_error] in E. destruct a; injection E as <- _; auto. }
    destruct Q as [->|[->| ->]]; cbn; lia.
  - eexists _, _. split; [vm_compute; reflexivity|]. split; [vm_compute; reflexivity|]. split; vm_compute; reflexivity.
Qed.
(** maxLength is no bound of the production, even where a production within it exists: here
    it is 3, "xy" is a word, and "xyxy" is returned. *)
Theorem C103_length_refuted : exists fuel opts g order n t c gen tape k w tr w0, wf_grammar g /\
  transition_graph fuel opts g g g order n = TG_ok t c /\ new_generator t 3 32 100 = Gen_ok gen /\
  graph_generate k false gen tape = W_ok w tr tt /\ (3 < length w) /\
  (exists tape0 tr0, graph_generate k false gen tape0 = W_ok w0 tr0 tt) /\ (length w0 <= 3).
Proof.
  exists 30, (o33 false), g_xy, (keys g_xy), "a". eexists _, _, _. exists [1; 1; 1; 1]%Z, 50. eexists _, _. exists (bytes "xy").
  split; [apply wf_grammarb_spec; vm_compute; reflexivity|]. split; [vm_compute; reflexivity|]. split; [vm_compute; reflexivity|]. split; [vm_compute; reflexivity|].
  split; [vm_compute; lia|]. split; [|vm_compute; lia]. exists []. eexists. vm_compute. reflexivity.
Qed.
(** maxReps is no bound of the times an edge is taken: here it is 1, the only entry point has
    one edge, to a node whose only edge leads back, and the production is "xyxy": the first
    edge is taken twice. *)
Theorem C103_reps_refuted : exists fuel opts g order n t c gen tape k tr a b, wf_grammar g /\
  transition_graph fuel opts g g g order n = TG_ok t c /\ new_generator t 4096 1 100 = Gen_ok gen /\
  tg_entry t = [Some a] /\ nexts (tg_heap t) a = [b] /\ nexts (tg_heap t) b = [a] /\
  elem_at (tg_heap t) a = EChar true [120%Z] /\ elem_at (tg_heap t) b = EChar true [121%Z] /\
  graph_generate k false gen tape = W_ok (bytes "xyxy") tr tt.
Proof.
  exists 30, (o33 false), g_xy, (keys g_xy), "a". eexists _, _, _. exists [1; 1; 1; 1]%Z, 50. eexists. exists 2, 3.
  split; [apply wf_grammarb_spec; vm_compute; reflexivity|]. split; [vm_compute; reflexivity|]. split; [vm_compute; reflexivity|]. split; [vm_compute; reflexivity|].
  split; [vm_compute; reflexivity|]. split; [vm_compute; reflexivity|]. split; [vm_compute; reflexivity|]. split; [vm_compute; reflexivity|]. vm_compute. reflexivity.
Qed.

Print Assumptions C103_limits.
Print Assumptions C103_case.
Print Assumptions C103_length_refuted.
Print Assumptions C103_reps_refuted.
