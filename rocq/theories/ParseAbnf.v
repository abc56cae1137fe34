(** ParseABNF (grammar.go:80-106): the parser on the grammar of ABNF, then the
    evaluator, then the validation. *)
From Coq Require Import ZArith Arith String Bool List Lia.
From Verif Require Import Syntax Spec Printer Slots LowerProof LowerBudget Gll Bsr Sppf Tree Errors Deps Eval.
Import ListNotations.
Local Open Scope string_scope.
Local Open Scope list_scope.
Local Open Scope Z_scope.

(** What ParseABNF returns: the grammar with the core rules as they are afterwards, or an error. *)
Inductive pa_result : Type :=
| PA_ok (st : estate)
| PA_parse (e : parse_error)            (* f.ParseError() *)
| PA_rule_not_found | PA_grammar_too_large | PA_forest_too_large   (* the errors of Parse *)
| PA_ambiguous                          (* ErrMultipleSolutionsFound *)
| PA_no_solution                        (* ErrNoSolutionFound *)
| PA_eval (e : eval_error)
| PA_sem (e : sem_error)
| PA_panic
| PA_fuel.

(** ParseABNF (grammar.go:80-106), with the options of option.go:8-40 as booleans.
    [ord] is the order the parser iterates its sets in, [ordE] the order the
    evaluator iterates rule maps in, [sh] the order the validation does. *)
Definition parse_abnf (ord : nat -> list nkey -> list nkey) (ordE : nat -> rmap -> rmap) (sh : nat -> grammar -> grammar)
  (fuel : nat) (redefine validate : bool) (core : grammar) (input : list Z) : pa_result :=
  match parse_forest ord fuel input abnf_grammar "rulelist" default_max_slots 0 with
  | PF_rule_not_found => PA_rule_not_found
  | PF_grammar_too_large => PA_grammar_too_large
  | PF_forest_too_large => PA_forest_too_large
  | PF_fuel => PA_fuel
  | PF_ok f =>
      match f_parse_error f with
      | Some e => PA_parse e
      | None =>
          match f_ambiguous fuel f with
          | None => PA_fuel
          | Some true => PA_ambiguous
          | Some false =>
              match f_tree fuel f with
              | None => PA_fuel
              | Some None => PA_no_solution
              | Some (Some t) =>
                  match eval_tree redefine ordE core input t with
                  | EvPanic => PA_panic
                  | EvErr e => PA_eval e
                  | EvOk st =>
                      let g := rules_of st in
                      if validate then
                        match semval_abnf (sh 0%nat g) (sh 1%nat g) g with
                        | Some e => PA_sem e
                        | None => PA_ok st
                        end
                      else PA_ok st
                  end
              end
          end
      end
  end.

(** *** Without a budget the parser does not abort; more fuel does not change it *)
Section Engine.
  Variable sg : slot_grammar.
  Variable input : list Z.
  Variable mx : Z.
  Variable ord : nat -> list nkey -> list nkey.

  Lemma p_run_mono f : forall f' st st', (f <= f')%nat -> p_run sg input mx ord f st = Some st' -> p_run sg input mx ord f' st = Some st'.
  Proof.
    induction f as [|f IH]; intros f' st st' L; destruct f' as [|f']; try lia; auto.
    - cbn [p_run]. destruct (p_work st); auto. destruct (p_aborted st); [auto|discriminate].
    - cbn [p_run]. destruct (p_work st); auto. destruct (p_aborted st); auto. apply IH. lia.
  Qed.

  Hypothesis M : mx <= 0.
  Lemma find_live k st : p_aborted st = false -> p_aborted (find_node mx k st) = false.
  Proof.
    intros A. unfold find_node. destruct (packs_of k (p_nodes st)); auto. cbn [p_aborted]. rewrite A.
    destruct (Z.ltb_spec 0 mx); [lia|]. reflexivity.
  Qed.
  Lemma get_live L w z st : p_aborted st = false -> p_aborted (snd (get_node_p sg mx L w z st)) = false.
  Proof.
    intros A. unfold get_node_p. destruct (node_p sg L w z) as [y [pk|]]; auto. cbn [snd p_aborted]. apply find_live. auto.
  Qed.
  Lemma add_live L u i w rc st : p_aborted st = false -> p_aborted (p_add L u i w rc st) = false.
  Proof. unfold p_add. destruct (in_dec _ _ _); auto. Qed.
  Lemma fold_live {A} (f : pstate -> A -> pstate) l : (forall s x, p_aborted s = false -> p_aborted (f s x) = false) ->
    forall s, p_aborted s = false -> p_aborted (fold_left f l s) = false.
  Proof. intros H. induction l; cbn [fold_left]; auto. Qed.
  Lemma process_live rest : forall L u i w rc st, p_aborted st = false -> p_aborted (p_process sg input mx ord rest L u i w rc st) = false.
  Proof.
    assert (RS : forall ret u z w rc i s, p_aborted s = false ->
      p_aborted (let '(y, s') := get_node_p sg mx ret w z s in p_add ret u i (Some y) rc s') = false).
    { intros ret u z w rc i s S. pose proof (get_live ret w z s S) as G.
      destruct (get_node_p sg mx ret w z s). apply add_live. auto. }
    assert (PS : forall u i z st, p_aborted st = false -> p_aborted (p_pop sg mx u i z st) = false).
    { intros u i z st S. unfold p_pop. destruct u; auto. apply fold_live; [intros; apply RS; auto|].
      destruct (in_dec _ _ _); auto. }
    assert (TS : forall L w i j st, p_aborted st = false -> p_aborted (snd (get_node_p sg mx (adv L) w (NTerm i j) (find_node mx (NTerm i j) st))) = false).
    { intros. apply get_live; auto. apply find_live; auto. }
    assert (NS : forall i s st, p_aborted st = false -> p_aborted (note_fail i s st) = false).
    { intros i s st. unfold note_fail. destruct (if Nat.ltb _ _ then _ else _). auto. }
    induction rest as [|s rest IH]; cbn; intros L u i w rc st S.
    - destruct w; apply PS; auto. apply find_live; auto.
    - destruct s.
      + apply fold_live; [intros; apply add_live; auto|]. unfold p_create. destruct (in_dec _ _ _); auto.
        apply fold_live; [intros; apply RS; auto|]. auto.
      + destruct (match_sym _ _ _) as [j|]; [|apply NS; auto]. specialize (TS L w i j st S).
        destruct (get_node_p _ _ _ _ _ _). apply IH. auto.
      + destruct (match_sym _ _ _) as [j|]; [|apply NS; auto]. specialize (TS L w i j st S).
        destruct (get_node_p _ _ _ _ _ _). apply IH. auto.
  Qed.
  Lemma parse_live fuel st : p_parse sg input mx ord fuel = Some st -> p_aborted st = false.
  Proof.
    assert (G : forall fuel st st', p_aborted st = false -> p_run sg input mx ord fuel st = Some st' -> p_aborted st' = false).
    { clear fuel st. induction fuel as [|f IH]; cbn [p_run]; intros st st' S E; destruct (p_work st); try (injection E as <-; auto; fail); rewrite S in E.
      - discriminate.
      - eapply IH; [|exact E]. unfold p_process_desc. destruct (prod_of sg (sd_L s)); auto. apply process_live. auto. }
    apply G. unfold p_init. apply fold_live; [intros; apply add_live; auto|]. reflexivity.
  Qed.
End Engine.

Lemma parse_forest_mono ord f f' input g root ms mn x : (f <= f')%nat -> parse_forest ord f input g root ms mn = x -> x <> PF_fuel ->
  parse_forest ord f' input g root ms mn = x.
Proof.
  intros L E N. unfold parse_forest in *.
  assert (C : compile_slots g root ms f <> CS_fuel) by (intros X; rewrite X in E; congruence).
  rewrite (compile_mono g root ms f f') by auto. destruct (compile_slots g root ms f) as [sg| | |]; auto.
  unfold p_parse in *. destruct (p_run sg input mn ord f _) as [st|] eqn:R; [|congruence].
  rewrite (p_run_mono sg input mn ord f f' _ st L R). auto.
Qed.
Lemma parse_forest_live ord f input g root ms mn : mn <= 0 -> parse_forest ord f input g root ms mn <> PF_forest_too_large.
Proof.
  intros M. unfold parse_forest. destruct (compile_slots g root ms f) as [sg| | |]; try discriminate.
  destruct (p_parse sg input mn ord f) as [st|] eqn:R; [|discriminate]. rewrite (parse_live _ _ _ _ M _ _ R). discriminate.
Qed.
