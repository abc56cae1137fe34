(** The functional options (option.go, generate.go:124-154, transition_graph.go:105-207,
    279-305, ast.go:38-72, fuzz.go:130-174, sppf.go:628-645, regex.go:58-71) and
    the commands of the command line tool (cmd/pap/commands). *)
From Coq Require Import ZArith Arith String Ascii Bool List Lia.
From Verif Require Import Syntax Spec Printer Slots Sppf Deps Dag Eval ParseAbnf Generate Graph Mermaid.
From Verif Require Regex.
Import ListNotations.
Local Open Scope string_scope.
Local Open Scope list_scope.
Local Open Scope Z_scope.

(** ** Options *)
(** ABNFOption (option.go:19-22): WithValidation (option.go:29-43) and WithRedefineCoreRules
    (option.go:45-64). *)
Inductive abnf_option : Type := WithValidation (b : bool) | WithRedefineCoreRules (b : bool).
(** abnfOptions (option.go:24-27). *)
Record abnf_options : Type := mkAO { validate : bool; redefine_core : bool }.
(** The apply methods (option.go:34-36, 50-52). *)
Definition apply_abnf (o : abnf_options) (x : abnf_option) : abnf_options :=
  match x with
  | WithValidation b => mkAO b (redefine_core o)
  | WithRedefineCoreRules b => mkAO (validate o) b
  end.
(** process and its defaults (option.go:3-17). *)
Definition process (opts : list abnf_option) : abnf_options := fold_left apply_abnf opts (mkAO true false).

(** GenerateOption (generate.go:124-127): WithRepMax (generate.go:134-139) and WithThreshold
    (generate.go:145-150). *)
Inductive gen_option : Type := WithRepMax (n : Z) | WithThreshold (n : Z).
(** genOpts (generate.go:129-132). *)
Record gen_opts : Type := mkGO { rep_max : Z; threshold : Z }.
(** The apply methods (generate.go:141-143, 152-154). *)
Definition apply_gen (o : gen_opts) (x : gen_option) : gen_opts :=
  match x with
  | WithRepMax n => mkGO n (threshold o)
  | WithThreshold n => mkGO (rep_max o) n
  end.
(** The defaults and the loop in Generate (generate.go:29-36). *)
Definition gen_process (opts : list gen_option) : gen_opts := fold_left apply_gen opts (mkGO 16 256).

(** TGOption (transition_graph.go:113-115), with its five options
    (transition_graph.go:117-207); tgoptions is [tgoptions] of Graph.v. *)
Inductive tg_option : Type :=
| WithDeflateRules (b : bool) | WithDeflateNumVals (b : bool) | WithDeflateCharVals (b : bool)
| WithRepetitionThreshold (n : Z) | WithMaxNodes (n : Z).
(** The apply methods (transition_graph.go:117-207). *)
Definition apply_tg (o : tgoptions) (x : tg_option) : tgoptions :=
  match x with
  | WithDeflateRules b => mkOpts b (o_numvals o) (o_charvals o) (o_threshold o) (o_max o)
  | WithDeflateNumVals b => mkOpts (o_rules o) b (o_charvals o) (o_threshold o) (o_max o)
  | WithDeflateCharVals b => mkOpts (o_rules o) (o_numvals o) b (o_threshold o) (o_max o)
  | WithRepetitionThreshold n => mkOpts (o_rules o) (o_numvals o) (o_charvals o) n (o_max o)
  | WithMaxNodes n => mkOpts (o_rules o) (o_numvals o) (o_charvals o) (o_threshold o) n
  end.
(** The defaults and the loop in TransitionGraph (transition_graph.go:40-49). *)
Definition tg_process (opts : list tg_option) : tgoptions := fold_left apply_tg opts (mkOpts false false false 256 0).

(** ASTGenOption (ast.go:38-41), with its three options (ast.go:49-72). *)
Inductive ast_option : Type := WithMaxDepth (n : Z) | WithMaxLen (n : Z) | WithMaxRepeat (n : Z).
(** The fields of ASTGenerator they set (ast.go:31-33). *)
Record ast_opts : Type := mkASTO { max_depth : Z; max_len : Z; max_repeat : Z }.
(** The apply method and the functions of the options (ast.go:45-72). *)
Definition apply_ast (o : ast_opts) (x : ast_option) : ast_opts :=
  match x with
  | WithMaxDepth n => mkASTO n (max_len o) (max_repeat o)
  | WithMaxLen n => mkASTO (max_depth o) n (max_repeat o)
  | WithMaxRepeat n => mkASTO (max_depth o) (max_len o) n
  end.
(** The defaults and the loop in NewASTGenerator (ast.go:83-92). *)
Definition ast_process (opts : list ast_option) : ast_opts := fold_left apply_ast opts (mkASTO 32 4096 16).

(** GenOption (fuzz.go:130-133), with its four options (fuzz.go:141-174). *)
Inductive fuzz_option : Type := WithMaxLength (n : Z) | WithMaxReps (n : Z) | WithMaxSteps (n : Z) | WithStableAddressing.
(** The fields of Generator they set (fuzz.go:111-128). *)
Record fuzz_opts : Type := mkFO { max_length : Z; max_reps : Z; max_steps : Z; stable_addr : bool }.
(** The apply method and the functions of the options (fuzz.go:137-174). *)
Definition apply_fuzz (o : fuzz_opts) (x : fuzz_option) : fuzz_opts :=
  match x with
  | WithMaxLength n => mkFO n (max_reps o) (max_steps o) (stable_addr o)
  | WithMaxReps n => mkFO (max_length o) n (max_steps o) (stable_addr o)
  | WithMaxSteps n => mkFO (max_length o) (max_reps o) n (stable_addr o)
  | WithStableAddressing => mkFO (max_length o) (max_reps o) (max_steps o) true
  end.
(** The defaults and the loop in NewGenerator (fuzz.go:183-191). *)
Definition fuzz_process (opts : list fuzz_option) : fuzz_opts := fold_left apply_fuzz opts (mkFO 4096 32 100000 false).

(** ForestOption (sppf.go:628-629): WithMaxForestNodes (sppf.go:636-639) and WithMaxSlots
    (sppf.go:641-645). *)
Inductive forest_option : Type := WithMaxForestNodes (n : Z) | WithMaxSlots (n : Z).
(** forestConfig (sppf.go:631-634). *)
Record forest_config : Type := mkFC { max_nodes : Z; max_slots : Z }.
(** What the options do to it (sppf.go:639, 645). *)
Definition apply_forest (o : forest_config) (x : forest_option) : forest_config :=
  match x with
  | WithMaxForestNodes n => mkFC n (max_slots o)
  | WithMaxSlots n => mkFC (max_nodes o) n
  end.
(** The defaults and the loops in ParseForest and ParseBSR (sppf.go:669-672,
    bsr.go:558-561). *)
Definition forest_process (opts : list forest_option) : forest_config := fold_left apply_forest opts (mkFC 0 default_max_slots).

(** RegexOption (regex.go:58-71) has one option, WithMaxRegexLen, which is its number; the
    loop in Regex (regex.go:23-26). *)
Definition regex_process (opts : list Z) : Z := fold_left (fun _ n => n) opts 0.
(** CoverageMode (transition_graph.go:258-276). *)
Inductive coverage_mode : Type := CoverageAllTrails | CoverageCompact.
(** ReaderOption (transition_graph.go:278-297) has one option, WithCoverageMode, which is its
    mode; the loop in Reader (transition_graph.go:300-303). *)
Definition reader_process (opts : list coverage_mode) : coverage_mode := fold_left (fun _ m => m) opts CoverageAllTrails.

(** ** Commands *)
(** A flag that is set carries its value: ctx.IsSet is [Some], and an unset flag is not
    looked at (cli.Context.IsSet; flags have no environment variables).  Reading the input
    (commands/utils.go:11-18) and parsing the command line are not modelled: a command takes
    the bytes read and the flags. *)
Inductive pap_result : Type :=
| Printed (out : list Z)                 (* standard output, exit code 0 *)
| Not_read (r : pa_result)               (* ParseABNF did not return a grammar *)
| Not_generated (r : gen_result)
| Not_a_regex (r : Regex.regex_result)
| Not_a_graph (r : tg_result)
| Not_drawn (r : drawing).

Section Commands.
  (* iteration orders: of the parser's sets, of the rule map in the evaluator, in the
     validation, when printing; of the dependency graph, and of the nodes drawn *)
  Variable ord : nat -> list nkey -> list nkey.
  Variable ordE : nat -> rmap -> rmap.
  Variable sh : nat -> grammar -> grammar.
  Variable shP : list (string * rule) -> list (string * rule).
  Variable keyo : grammar -> list string.
  Variable nodeo : list nat -> list nat.
  (* bounds of the model's recursions *)
  Variable fuel : nat.

  (** What [ParseABNF(b, opts...)] returns (grammar.go:80-106). *)
  Definition pap_read (opts : list abnf_option) (input : list Z) : pa_result :=
    parse_abnf ord ordE sh fuel (redefine_core (process opts)) (validate (process opts)) core_rules input.

  (** The entries of Rulemap, with the rules the pointers point to. *)
  Definition entries (st : estate) : list (string * rule) :=
    flat_map (fun ke => match deref (e_core st) (snd ke) with Some r => [(fst ke, r)] | None => [] end) (e_map st).

  (** validate (commands/validate.go:29-48). fmt.Println ends with a line feed. *)
  Definition pap_validate (sem_val : option bool) (input : list Z) : pap_result :=
    match pap_read (match sem_val with Some b => [WithValidation b] | None => [] end) input with
    | PA_ok st => Printed (bytes (pretty_string (shP (entries st))) ++ [10])
    | e => Not_read e
    end.

  (** findSeed (commands/utils.go:20-29); [byte] is what crypto/rand returns. *)
  Definition find_seed (seed : option Z) (byte : Z) : Z := match seed with Some s => s | None => byte end.

  (** generate (commands/generate.go:41-69).  [source seed] are the draws of
      rand.NewSource(seed). *)
  Definition pap_generate (source : Z -> nat -> Z) (byte : Z) (rulename : string) (seed repmax thr : option Z) (input : list Z) : pap_result :=
    match pap_read [] input with
    | PA_ok st =>
        let o := gen_process (match repmax with Some n => [WithRepMax n] | None => [] end ++ match thr with Some n => [WithThreshold n] | None => [] end) in
        match generate fuel (source (find_seed seed byte)) (rep_max o) (threshold o) (rules_of st) rulename with
        | Gen_ok out => Printed (out ++ [10])
        | e => Not_generated e
        end
    | e => Not_read e
    end.

  (** regex (commands/regex.go:29-49). *)
  Definition pap_regex (rulename : string) (input : list Z) : pap_result :=
    match pap_read [] input with
    | PA_ok st =>
        match Regex.regex fuel (rules_of st) (keyo (rules_of st)) 0 rulename with
        | Regex.Regex_text t => Printed (t ++ [10])
        | e => Not_a_regex e
        end
    | e => Not_read e
    end.

  (** transitionGraph (commands/transition_graph.go:40-76): the boolean flags are tested
      with IsSet and their value is not looked at.  [id] are the IDs of nodes. *)
  Definition given {A} (x : option A) (o : tg_option) : list tg_option := match x with Some _ => [o] | None => [] end.
  (** See above. *)
  Definition pap_graph (id : nat -> string) (rulename : string) (rules charvals numvals : option bool) (thr : option Z) (input : list Z) : pap_result :=
    match pap_read [] input with
    | PA_ok st =>
        let g := rules_of st in
        let o := tg_process (given rules (WithDeflateRules true) ++ given charvals (WithDeflateCharVals true) ++
                             given numvals (WithDeflateNumVals true) ++ match thr with Some n => [WithRepetitionThreshold n] | None => [] end) in
        match transition_graph fuel o g (sh 2%nat g) (sh 3%nat g) (keyo g) rulename with
        | TG_ok t _ =>
            match to_mermaid id nodeo t with
            | D_ok s => Printed (bytes s ++ [10])
            | e => Not_drawn e
            end
        | e => Not_a_graph e
        end
    | e => Not_read e
    end.
End Commands.
