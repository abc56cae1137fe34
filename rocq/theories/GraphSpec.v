(** Specification for transition graphs: paths and what they spell.  Nothing here
    is modelled on the code, except that graphs are those of [Graph.v]. *)
From Coq Require Import ZArith String Bool List.
From Verif Require Import Syntax Spec Graph.
Import ListNotations.
Local Open Scope Z_scope.
Local Open Scope list_scope.

(** Consecutive nodes are joined by edges. *)
Fixpoint linked (h : heap) (p : list nat) : Prop :=
  match p with
  | a :: (b :: _) as q => In b (nexts h a) /\ linked h q
  | _ => True
  end.
(** A path from an entry point to an end point; the empty path when the empty entry
    is an end point. *)
Definition path (t : tgraph) (p : list nat) : Prop :=
  match p with
  | [] => In None (tg_entry t) /\ In None (tg_ends t)
  | a :: _ => In (Some a) (tg_entry t) /\ In (Some (last p a)) (tg_ends t) /\ linked (tg_heap t) p
  end.
(** A node spells the words of its element. *)
Definition node_word (g : grammar) (h : heap) (a : nat) (w : list Z) : Prop :=
  exists n, nth_error h a = Some n /\ in_elem g (n_elem n) w.
(** A path spells a word. *)
Definition spells (g : grammar) (t : tgraph) (p : list nat) (w : list Z) : Prop :=
  exists ws, Forall2 (node_word g (tg_heap t)) p ws /\ w = concat ws.
(** The nodes of a graph: those on walks from the entry points. *)
Definition in_graph (t : tgraph) (b : nat) : Prop :=
  exists p a, In (Some a) (tg_entry t) /\ linked (tg_heap t) (a :: p) /\ last (a :: p) a = b.

(** Every series of values taken as alternatives, all other elements kept. *)
Fixpoint split_elem (e : elem) : elem :=
  match e with
  | EGroup a => EGroup (map (map split_rep) a)
  | EOption a => EOption (map (map split_rep) a)
  | ENum b StatSeries es =>
      match es with [_] => e | _ => EGroup (map (fun s => [Rep 1 1 (ENum b StatSeries [s])]) es) end
  | _ => e
  end
with split_rep (r : rep) : rep := match r with Rep mn mx e => Rep mn mx (split_elem e) end.
(** A grammar whose series are taken apart. *)
Definition split_series (g : grammar) : grammar :=
  map (fun r => mkRule (rule_name r) (map (map split_rep) (rule_alt r))) g.

(** The elements used from a rule: those of its definition and of the rules it refers
    to, directly or not. *)
Inductive used_elem (g : grammar) (n : string) : elem -> Prop :=
| used_of mn mx e : used_rep g n (Rep mn mx e) -> used_elem g n e
with used_rep (g : grammar) (n : string) : rep -> Prop :=
| used_top a c x : resolves g n a -> In c a -> In x c -> used_rep g n x
| used_group a c x : used_elem g n (EGroup a) -> In c a -> In x c -> used_rep g n x
| used_option a c x : used_elem g n (EOption a) -> In c a -> In x c -> used_rep g n x
| used_rule m a c x : used_elem g n (ERule m) -> resolves g m a -> In c a -> In x c -> used_rep g n x.

(** No rule and no group is without alternatives; where values are deflated, no series
    and no range is without values. *)
Definition filled (opts : tgoptions) (g : grammar) : Prop := (forall r, In r g -> rule_alt r <> []) /\ (forall a, occ_elem g (EGroup a) -> a <> []) /\
  (o_numvals opts = true -> (forall b, ~ occ_elem g (ENum b StatSeries [])) /\
    forall b lo hi l h, occ_elem g (ENum b StatRange [lo; hi]) -> numeral b lo = Some l -> numeral b hi = Some h -> (l <= h /\ l <= 0x10FFFF)%Z).
