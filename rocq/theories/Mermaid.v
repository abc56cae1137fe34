(** Drawings: TransitionGraph.ToMermaid (transition_graph.go:1461-1501, with 1503-1536) and
    Depgraph.Mermaid (dag.go:66-77). *)
From Coq Require Import ZArith Arith String Ascii Bool List.
From Verif Require Import Syntax Spec Deps Graph.
Import ListNotations.
Local Open Scope string_scope.
Local Open Scope list_scope.

(** "\n". *)
Definition newline : string := String (ascii_of_nat 10) "".
(** A loop s += f(x). *)
Definition cat {A} (f : A -> string) (l : list A) : string := fold_right (fun x s => (f x ++ s)%string) "" l.

(** The loop over the values of a char-val (transition_graph.go:1518-1526): one value. *)
Definition value_text (v : Z) : string :=
  if Z.eqb v 96 then "backquote"
  else if Z.eqb v 34 then "dquote"
  else if (Z.leb 33 v && Z.leb v 127)%bool then String (ascii_of_nat (Z.to_nat v)) ""
  else "".
(** elemToString (transition_graph.go:1513-1536); [None] is its panic, or that of an
    index out of range.  Strings are Coq strings. *)
Definition elem_to_string (e : elem) : option string :=
  match e with
  | ERule n => Some n
  | EChar _ vs => Some (cat value_text vs)
  | ENum b StatRange (lo :: hi :: _) => Some ("0" ++ b ++ lo ++ "-" ++ hi)%string
  | ENum b StatRange _ => None
  | ENum b StatSeries es => Some ("0" ++ b ++ String.concat "." es)%string
  | _ => None
  end.

(** mapNodes (transition_graph.go:1503-1511): the keys of the map, oldest first.  A
    node is its ID, see [Graph.node]; [None]: out of fuel. *)
Fixpoint map_nodes (fuel : nat) (h : heap) (mp : list nat) (a : nat) : option (list nat) :=
  match fuel with
  | O => None
  | S f =>
      if existsb (Nat.eqb a) mp then Some mp
      else fold_left (fun acc b => match acc with Some m => map_nodes f h m b | None => None end) (nexts h a) (Some (mp ++ [a]))
  end.

(** What ToMermaid does (transition_graph.go:1461-1501): a text, the panic of elemToString, or
    out of fuel. *)
Inductive drawing : Type := D_ok (text : string) | D_panic | D_fuel.
(** One round of the loop writing the nodes (transition_graph.go:1473-1493).  [id] gives
    the text of IDs. *)
Definition node_text (id : nat -> string) (t : tgraph) (a : nat) : option string :=
  match nth_error (tg_heap t) a with
  | None => None
  | Some n =>
      match elem_to_string (n_elem n) with
      | None => None
      | Some l =>
          Some ("    " ++ id a ++
                (if existsb (eq_point (Some a)) (tg_ends t) then "(((" ++ String (ascii_of_nat 34) l ++ String (ascii_of_nat 34) ")))" else "[" ++ String (ascii_of_nat 34) l ++ String (ascii_of_nat 34) "]") ++
                (if existsb (eq_point (Some a)) (tg_entry t) then ":::entrypoint" else "") ++ newline ++
                cat (fun b => "    " ++ id a ++ " --> " ++ id b ++ newline) (n_nexts n) ++ newline)%string
      end
  end.
(** The loop writing the nodes (transition_graph.go:1473-1493). *)
Fixpoint nodes_text (id : nat -> string) (t : tgraph) (l : list nat) : option string :=
  match l with
  | [] => Some ""
  | a :: l' => match node_text id t a with
               | None => None
               | Some x => match nodes_text id t l' with None => None | Some y => Some (x ++ y)%string end
               end
  end.
(** ToMermaid (transition_graph.go:1461-1501).  [ord] is the iteration order of the map
    of nodes.  The sign of the empty set is the UTF-8 of U+2205. *)
Definition to_mermaid (id : nat -> string) (ord : list nat -> list nat) (t : tgraph) : drawing :=
  match fold_left (fun acc p => match acc, p with
          | Some m, Some a => map_nodes (S (length (tg_heap t))) (tg_heap t) m a
          | _, _ => acc
          end) (tg_entry t) (Some []) with
  | None => D_fuel
  | Some mp =>
      match nodes_text id t (ord mp) with
      | None => D_panic
      | Some body =>
          D_ok ("flowchart LR" ++ newline ++ "    classDef entrypoint fill:#479abf" ++ newline ++ newline ++ body ++
                (if has_empty (tg_entry t) then "    emptyNode(((" ++ String (ascii_of_nat 226) (String (ascii_of_nat 136) (String (ascii_of_nat 133) "))):::entrypoint")) ++ newline else ""))%string
      end
  end.

(** Depgraph.Mermaid (dag.go:66-77), for the nodes in the order of the map. *)
Definition depgraph_mermaid (nodes : list dnode) : string :=
  ("flowchart TD" ++ newline ++
   cat (fun n => cat (fun d => String (ascii_of_nat 9) (dn_name n) ++ " --> " ++ d ++ newline) (dn_deps n) ++ newline) nodes)%string.
