(** Specification for AdjCache.v: what the programs on one AdjacencyList should return, and what they do return. *)
From Coq Require Import List ZArith Arith Bool.
From Verif Require Import Prelude SpecAdj.
Import ListNotations.

Section Spec.
Context {F V : Type}.
(** Statements of a program that holds one AdjacencyList. *)
Inductive aop :=
| Nodes | Roots | Leaves | Matrix | Descendants (v : Z)      (* reads *)
| Assign (p : nat) (e : Z * Z)                               (* adj.edges[p] = e, p a valid position *)
| Weights (w : list F).                                      (* adj.weights = w *)

(** The five quantities as functions of the edges (and weights): C30 - C32, C36. *)
Variables (nodes roots leaves : edges -> res V) (matrix : edges -> list F -> res V) (descendants : edges -> Z -> res V).
(** The descendants when the edges now are [es] but the connections are still those of [e0]: the first edge that now starts at
    [v] is looked up, and the descendants in [e0] of the vertex at which that edge started there are marked; if no edge
    starts at [v] now, the edges now ending at [v] are. *)
Variable ending : edges -> Z -> res V.
Fixpoint first_from (es : edges) (v : Z) : option nat :=
  match es with [] => None | e :: r => if Z.eqb (fst e) v then Some 0 else option_map S (first_from r v) end.
Definition mixed (es e0 : edges) (v : Z) : res V :=
  match first_from es v with
  | None => ending es v
  | Some i => match nth_error e0 i with Some e => descendants e0 (fst e) | None => Err IndexError end
  end.

(** Always up to date. *)
Fixpoint current (es : edges) (w : list F) (ops : list aop) : list (res V) :=
  match ops with
  | [] => []
  | Nodes :: r => nodes es :: current es w r
  | Roots :: r => roots es :: current es w r
  | Leaves :: r => leaves es :: current es w r
  | Matrix :: r => matrix es w :: current es w r
  | Descendants v :: r => descendants es v :: current es w r
  | Assign p e :: r => current (set_nth es p e) w r
  | Weights w' :: r => current es w' r
  end.
(** The connections are frozen at the first statement that needs them ([fz]: the edges at that moment). Looking up the
    descendants of a vertex from which no edge starts does not need them. *)
Definition at_ (fz : option edges) (es : edges) : edges := match fz with Some e => e | None => es end.
Fixpoint frozen (es : edges) (fz : option edges) (w : list F) (ops : list aop) : list (res V) :=
  match ops with
  | [] => []
  | Nodes :: r => nodes es :: frozen es fz w r
  | Roots :: r => roots (at_ fz es) :: frozen es (Some (at_ fz es)) w r
  | Leaves :: r => leaves (at_ fz es) :: frozen es (Some (at_ fz es)) w r
  | Matrix :: r => matrix (at_ fz es) w :: frozen es (Some (at_ fz es)) w r
  | Descendants v :: r =>
      mixed es (at_ fz es) v :: frozen es (match first_from es v with None => fz | Some _ => Some (at_ fz es) end) w r
  | Assign p e :: r => frozen (set_nth es p e) fz w r
  | Weights w' :: r => frozen es fz w' r
  end.
(** No assignment to the edges comes after a statement that looks at the connections. *)
Definition looks (o : aop) : bool := match o with Roots | Leaves | Matrix | Descendants _ => true | _ => false end.
Fixpoint settled (seen : bool) (ops : list aop) : bool :=
  match ops with
  | [] => true
  | Assign _ _ :: r => negb seen && settled seen r
  | o :: r => settled (seen || looks o) r
  end.
End Spec.
Arguments aop : clear implicits.
