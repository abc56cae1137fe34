(** Abstract syntax of ABNF grammars, as in abnf.go, and the built-in rules. *)
From Coq Require Import ZArith String Ascii Bool List.
Import ListNotations.
Local Open Scope Z_scope.
Local Open Scope string_scope.

(** [inf] (rules.go:4). *)
Definition inf : Z := -1.

(** Status of a num-val (abnf.go:205-214). *)
Inductive status := StatSeries | StatRange.

(** Elements (ElemItf and its six implementations, abnf.go:97-200) and
    repetitions (abnf.go:73-76).  An [Alternation] (abnf.go:40-44) is the list
    of its concatenations, a [Concatenation] (abnf.go:57-60) the list of its
    repetitions.  Go [int] bounds are [Z]; runes are [Z]. *)
Inductive elem : Type :=
| ERule (name : string)
| EGroup (a : list (list rep))
| EOption (a : list (list rep))
| EChar (sensitive : bool) (values : list Z)
| ENum (base : string) (st : status) (elems : list string)
| EProse (values : list string)
with rep : Type :=
| Rep (rmin rmax : Z) (re : elem).

(** Concatenation (abnf.go:57-60). *)
Definition concatenation := list rep.
(** Alternation (abnf.go:40-44). *)
Definition alternation := list concatenation.

(** rep.Min (abnf.go:74). *)
Definition rep_min (r : rep) : Z := match r with Rep m _ _ => m end.
(** rep.Max (abnf.go:74). *)
Definition rep_max (r : rep) : Z := match r with Rep _ m _ => m end.
(** rep.Element (abnf.go:75). *)
Definition rep_elem (r : rep) : elem := match r with Rep _ _ e => e end.

(** Rule (abnf.go:25-31). *)
Record rule : Type := mkRule { rule_name : string; rule_alt : alternation }.

(** Grammar.Rulemap (grammar.go:11-15), a Go map keyed by the rule name.  It is
    modelled by the list of its values in iteration order; the key of a rule is
    its name. *)
Definition grammar := list rule.

(** A nested induction principle for elements and repetitions. *)
Section ElemInd.
  Variable P : elem -> Prop.
  Variable Q : rep -> Prop.
  Hypothesis HRule : forall n, P (ERule n).
  Hypothesis HGroup : forall a, Forall (Forall Q) a -> P (EGroup a).
  Hypothesis HOption : forall a, Forall (Forall Q) a -> P (EOption a).
  Hypothesis HChar : forall s v, P (EChar s v).
  Hypothesis HNum : forall b s v, P (ENum b s v).
  Hypothesis HProse : forall v, P (EProse v).
  Hypothesis HRep : forall mn mx e, P e -> Q (Rep mn mx e).

  (** (induction principle) elements. *)
  Fixpoint elem_rect' (e : elem) : P e :=
    match e with
    | ERule n => HRule n
    | EGroup a => HGroup a
        ((fix go (a : list (list rep)) : Forall (Forall Q) a :=
            match a with
            | nil => Forall_nil _
            | cons c a' => Forall_cons _
                ((fix go2 (c : list rep) : Forall Q c :=
                    match c with
                    | nil => Forall_nil _
                    | cons r c' => Forall_cons _ (rep_rect' r) (go2 c')
                    end) c) (go a')
            end) a)
    | EOption a => HOption a
        ((fix go (a : list (list rep)) : Forall (Forall Q) a :=
            match a with
            | nil => Forall_nil _
            | cons c a' => Forall_cons _
                ((fix go2 (c : list rep) : Forall Q c :=
                    match c with
                    | nil => Forall_nil _
                    | cons r c' => Forall_cons _ (rep_rect' r) (go2 c')
                    end) c) (go a')
            end) a)
    | EChar s v => HChar s v
    | ENum b s v => HNum b s v
    | EProse v => HProse v
    end
  with rep_rect' (r : rep) : Q r :=
    match r with Rep mn mx e => HRep mn mx e (elem_rect' e) end.

  Lemma alt_ind' : forall a, Forall (Forall Q) a.
  Proof.
    intros a. induction a as [|c a IH]; constructor; auto.
    induction c as [|r c IHc]; constructor; auto. apply rep_rect'.
  Qed.

  Lemma elem_rep_ind : (forall e, P e) /\ (forall r, Q r).
  Proof. split; [apply elem_rect' | apply rep_rect']. Qed.
End ElemInd.

(** ASCII lower-casing of names: strings.ToLower / canon (sppf.go:223-231) /
    strings.EqualFold (utils.go:147) restricted to ASCII.  Rule names produced by
    the parser are ASCII; names given by the caller that are not: Names.v. *)
Definition lower_ascii (c : ascii) : ascii :=
  let n := N_of_ascii c in
  if (N.leb 65 n && N.leb n 90)%bool then ascii_of_N (n + 32) else c.

(** strings.ToLower (leftrec.go:22, 73) and canon (sppf.go:223-231). *)
Fixpoint lower (s : string) : string :=
  match s with
  | EmptyString => EmptyString
  | String c s' => String (lower_ascii c) (lower s')
  end.

(** strings.EqualFold on ASCII names. *)
Definition equal_fold (a b : string) : bool := String.eqb (lower a) (lower b).

(** getRuleIn (utils.go:145-152): first match in iteration order. *)
Definition get_rule_in (name : string) (g : grammar) : option rule :=
  find (fun r => equal_fold name (rule_name r)) g.

(* rules.go:27-58 *)
Definition r_alpha : rule := mkRule "ALPHA"
  [[Rep 1 1 (ENum "x" StatRange ["41"; "5A"])]; [Rep 1 1 (ENum "x" StatRange ["61"; "7A"])]].

(* rules.go:61-90 *)
Definition r_bit : rule := mkRule "BIT"
  [[Rep 1 1 (EChar false [48])]; [Rep 1 1 (EChar false [49])]].

(* rules.go:93-112 *)
Definition r_char : rule := mkRule "CHAR"
  [[Rep 1 1 (ENum "x" StatRange ["01"; "7F"])]].

(* rules.go:115-134 *)
Definition r_cr : rule := mkRule "CR"
  [[Rep 1 1 (ENum "x" StatSeries ["0D"])]].

(* rules.go:137-160 *)
Definition r_crlf : rule := mkRule "CRLF"
  [[Rep 1 1 (ERule "CR"); Rep 1 1 (ERule "LF")]].

(* rules.go:163-194 *)
Definition r_ctl : rule := mkRule "CTL"
  [[Rep 1 1 (ENum "x" StatRange ["00"; "1F"])]; [Rep 1 1 (ENum "x" StatSeries ["7F"])]].

(* rules.go:197-216 *)
Definition r_digit : rule := mkRule "DIGIT"
  [[Rep 1 1 (ENum "x" StatRange ["30"; "39"])]].

(* rules.go:219-238 *)
Definition r_dquote : rule := mkRule "DQUOTE"
  [[Rep 1 1 (ENum "x" StatSeries ["22"])]].

(* rules.go:241-324 *)
Definition r_hexdig : rule := mkRule "HEXDIG"
  [[Rep 1 1 (ERule "DIGIT")]; [Rep 1 1 (EChar false [65])]; [Rep 1 1 (EChar false [66])]; [Rep 1 1 (EChar false [67])]; [Rep 1 1 (EChar false [68])]; [Rep 1 1 (EChar false [69])]; [Rep 1 1 (EChar false [70])]].

(* rules.go:327-346 *)
Definition r_htab : rule := mkRule "HTAB"
  [[Rep 1 1 (ENum "x" StatSeries ["09"])]].

(* rules.go:349-368 *)
Definition r_lf : rule := mkRule "LF"
  [[Rep 1 1 (ENum "x" StatSeries ["0A"])]].

(* rules.go:371-418 *)
Definition r_lwsp : rule := mkRule "LWSP"
  [[Rep 0 (-1) (EGroup [[Rep 1 1 (ERule "WSP")]; [Rep 1 1 (ERule "CRLF"); Rep 1 1 (ERule "WSP")]])]].

(* rules.go:421-440 *)
Definition r_octet : rule := mkRule "OCTET"
  [[Rep 1 1 (ENum "x" StatRange ["00"; "FF"])]].

(* rules.go:443-462 *)
Definition r_sp : rule := mkRule "SP"
  [[Rep 1 1 (ENum "x" StatSeries ["20"])]].

(* rules.go:465-484 *)
Definition r_vchar : rule := mkRule "VCHAR"
  [[Rep 1 1 (ENum "x" StatRange ["21"; "7E"])]].

(* rules.go:487-514 *)
Definition r_wsp : rule := mkRule "WSP"
  [[Rep 1 1 (ERule "SP")]; [Rep 1 1 (ERule "HTAB")]].

(* rules.go:518-579 *)
Definition r_abnfRulelist : rule := mkRule "rulelist"
  [[Rep 1 (-1) (EGroup [[Rep 1 1 (ERule "rule")]; [Rep 1 1 (EGroup [[Rep 0 (-1) (ERule "WSP"); Rep 1 1 (ERule "c-nl")]])]])]].

(* rules.go:581-616 *)
Definition r_abnfRule : rule := mkRule "rule"
  [[Rep 1 1 (ERule "rulename"); Rep 1 1 (ERule "defined-as"); Rep 1 1 (ERule "elements"); Rep 1 1 (ERule "c-nl")]].

(* rules.go:618-676 *)
Definition r_abnfRulename : rule := mkRule "rulename"
  [[Rep 1 1 (ERule "ALPHA"); Rep 0 (-1) (EGroup [[Rep 1 1 (ERule "ALPHA")]; [Rep 1 1 (ERule "DIGIT")]; [Rep 1 1 (EChar false [45])]])]].

(* rules.go:678-733 *)
Definition r_abnfDefinedAs : rule := mkRule "defined-as"
  [[Rep 0 (-1) (ERule "c-wsp"); Rep 1 1 (EGroup [[Rep 1 1 (EChar false [61])]; [Rep 1 1 (EChar false [61; 47])]]); Rep 0 (-1) (ERule "c-wsp")]].

(* rules.go:735-758 *)
Definition r_abnfElements : rule := mkRule "elements"
  [[Rep 1 1 (ERule "alternation"); Rep 0 (-1) (ERule "WSP")]].

(* rules.go:760-807 *)
Definition r_abnfCWsp : rule := mkRule "c-wsp"
  [[Rep 1 1 (ERule "WSP")]; [Rep 1 1 (EGroup [[Rep 1 1 (ERule "c-nl"); Rep 1 1 (ERule "WSP")]])]].

(* rules.go:809-836 *)
Definition r_abnfCNl : rule := mkRule "c-nl"
  [[Rep 1 1 (ERule "comment")]; [Rep 1 1 (ERule "CRLF")]].

(* rules.go:838-895 *)
Definition r_abnfComment : rule := mkRule "comment"
  [[Rep 1 1 (EChar false [59]); Rep 0 (-1) (EGroup [[Rep 1 1 (ERule "WSP")]; [Rep 1 1 (ERule "VCHAR")]]); Rep 1 1 (ERule "CRLF")]].

(* rules.go:897-957 *)
Definition r_abnfAlternation : rule := mkRule "alternation"
  [[Rep 1 1 (ERule "concatenation"); Rep 0 (-1) (EGroup [[Rep 0 (-1) (ERule "c-wsp"); Rep 1 1 (EChar false [47]); Rep 0 (-1) (ERule "c-wsp"); Rep 1 1 (ERule "concatenation")]])]].

(* rules.go:959-1004 *)
Definition r_abnfConcatenation : rule := mkRule "concatenation"
  [[Rep 1 1 (ERule "repetition"); Rep 0 (-1) (EGroup [[Rep 1 (-1) (ERule "c-wsp"); Rep 1 1 (ERule "repetition")]])]].

(* rules.go:1006-1044 *)
Definition r_abnfRepetition : rule := mkRule "repetition"
  [[Rep 1 1 (EOption [[Rep 1 1 (ERule "repeat")]]); Rep 1 1 (ERule "element")]].

(* rules.go:1046-1103 *)
Definition r_abnfRepeat : rule := mkRule "repeat"
  [[Rep 1 (-1) (ERule "DIGIT")]; [Rep 1 1 (EGroup [[Rep 0 (-1) (ERule "DIGIT"); Rep 1 1 (EChar false [42]); Rep 0 (-1) (ERule "DIGIT")]])]].

(* rules.go:1105-1177 *)
Definition r_abnfElement : rule := mkRule "element"
  [[Rep 1 1 (ERule "rulename")]; [Rep 1 1 (ERule "group")]; [Rep 1 1 (ERule "option")]; [Rep 1 1 (ERule "char-val")]; [Rep 1 1 (ERule "num-val")]; [Rep 1 1 (ERule "prose-val")]].

(* rules.go:1179-1226 *)
Definition r_abnfGroup : rule := mkRule "group"
  [[Rep 1 1 (EChar false [40]); Rep 0 (-1) (ERule "c-wsp"); Rep 1 1 (ERule "alternation"); Rep 0 (-1) (ERule "c-wsp"); Rep 1 1 (EChar false [41])]].

(* rules.go:1228-1275 *)
Definition r_abnfOption : rule := mkRule "option"
  [[Rep 1 1 (EChar false [91]); Rep 0 (-1) (ERule "c-wsp"); Rep 1 1 (ERule "alternation"); Rep 0 (-1) (ERule "c-wsp"); Rep 1 1 (EChar false [93])]].

(* rules.go:1278-1305 *)
Definition r_abnfCharVal : rule := mkRule "char-val"
  [[Rep 1 1 (ERule "case-insensitive-string")]; [Rep 1 1 (ERule "case-sensitive-string")]].

(* rules.go:1307-1345 *)
Definition r_abnfCaseInsensitiveString : rule := mkRule "case-insensitive-string"
  [[Rep 1 1 (EOption [[Rep 1 1 (EChar false [37; 105])]]); Rep 1 1 (ERule "quoted-string")]].

(* rules.go:1347-1371 *)
Definition r_abnfCaseSensitiveString : rule := mkRule "case-sensitive-string"
  [[Rep 1 1 (EChar false [37; 115]); Rep 1 1 (ERule "quoted-string")]].

(* rules.go:1373-1430 *)
Definition r_abnfQuotedString : rule := mkRule "quoted-string"
  [[Rep 1 1 (ERule "DQUOTE"); Rep 0 (-1) (EGroup [[Rep 1 1 (ENum "x" StatRange ["20"; "21"])]; [Rep 1 1 (ENum "x" StatRange ["23"; "7E"])]]); Rep 1 1 (ERule "DQUOTE")]].

(* rules.go:1432-1493 *)
Definition r_abnfNumVal : rule := mkRule "num-val"
  [[Rep 1 1 (EChar false [37]); Rep 1 1 (EGroup [[Rep 1 1 (ERule "bin-val")]; [Rep 1 1 (ERule "dec-val")]; [Rep 1 1 (ERule "hex-val")]])]].

(* rules.go:1495-1596 *)
Definition r_abnfBinVal : rule := mkRule "bin-val"
  [[Rep 1 1 (EChar false [98]); Rep 1 (-1) (ERule "BIT"); Rep 1 1 (EOption [[Rep 1 (-1) (EGroup [[Rep 1 1 (EChar false [46]); Rep 1 (-1) (ERule "BIT")]])]; [Rep 1 1 (EGroup [[Rep 1 1 (EChar false [45]); Rep 1 (-1) (ERule "BIT")]])]])]].

(* rules.go:1598-1699 *)
Definition r_abnfDecVal : rule := mkRule "dec-val"
  [[Rep 1 1 (EChar false [100]); Rep 1 (-1) (ERule "DIGIT"); Rep 1 1 (EOption [[Rep 1 (-1) (EGroup [[Rep 1 1 (EChar false [46]); Rep 1 (-1) (ERule "DIGIT")]])]; [Rep 1 1 (EGroup [[Rep 1 1 (EChar false [45]); Rep 1 (-1) (ERule "DIGIT")]])]])]].

(* rules.go:1701-1802 *)
Definition r_abnfHexVal : rule := mkRule "hex-val"
  [[Rep 1 1 (EChar false [120]); Rep 1 (-1) (ERule "HEXDIG"); Rep 1 1 (EOption [[Rep 1 (-1) (EGroup [[Rep 1 1 (EChar false [46]); Rep 1 (-1) (ERule "HEXDIG")]])]; [Rep 1 1 (EGroup [[Rep 1 1 (EChar false [45]); Rep 1 (-1) (ERule "HEXDIG")]])]])]].

(* rules.go:1804-1866 *)
Definition r_abnfProseVal : rule := mkRule "prose-val"
  [[Rep 1 1 (EChar false [60]); Rep 0 (-1) (EGroup [[Rep 1 1 (ENum "x" StatRange ["20"; "3D"])]; [Rep 1 1 (ENum "x" StatRange ["3F"; "7E"])]]); Rep 1 1 (EChar false [62])]].

(* rules.go:7-24, the map coreRules; the list order is one iteration order. *)
Definition core_rules : grammar := [r_alpha; r_bit; r_char; r_cr; r_crlf; r_ctl; r_digit; r_dquote; r_hexdig; r_htab; r_lf; r_lwsp; r_octet; r_sp; r_vchar; r_wsp].

(* abnf.go:217-244, the rule map of the meta-grammar ABNF. *)
Definition abnf_grammar : grammar := [r_abnfRulelist; r_abnfRule; r_abnfRulename; r_abnfDefinedAs; r_abnfElements; r_abnfCWsp; r_abnfCNl; r_abnfComment; r_abnfAlternation; r_abnfConcatenation; r_abnfRepetition; r_abnfRepeat; r_abnfElement; r_abnfGroup; r_abnfOption; r_abnfCharVal; r_abnfCaseInsensitiveString; r_abnfCaseSensitiveString; r_abnfQuotedString; r_abnfNumVal; r_abnfBinVal; r_abnfDecVal; r_abnfHexVal; r_abnfProseVal].

(** GetRule (utils.go:137-143): user rules first, then the core rules.  The core
    table is a parameter because evaluation can modify it (see Eval.v). *)
Definition get_rule_core (core : grammar) (name : string) (g : grammar) : option rule :=
  match get_rule_in name g with
  | Some r => Some r
  | None => get_rule_in name core
  end.

(** GetRule (utils.go:137-143), with the core rules as they are declared. *)
Definition get_rule (name : string) (g : grammar) : option rule :=
  get_rule_core core_rules name g.

(** ParseTree (sppf.go:800-804). *)
Inductive ptree : Type := PT (rule : string) (s e : nat) (children : list ptree).
(** ParseTree.Rule (sppf.go:801). *)
Definition pt_rule (t : ptree) : string := match t with PT r _ _ _ => r end.
(** ParseTree.Start (sppf.go:802). *)
Definition pt_start (t : ptree) : nat := match t with PT _ s _ _ => s end.
(** ParseTree.End (sppf.go:802). *)
Definition pt_end (t : ptree) : nat := match t with PT _ _ e _ => e end.
(** ParseTree.Children (sppf.go:803). *)
Definition pt_children (t : ptree) : list ptree := match t with PT _ _ _ c => c end.
