(** Vocabulary for the edge-list properties.  Imports no model file. *)
From Verif Require Import Prelude.
From Coq Require Export Sorted.

(** A directed multigraph: the list of its edges (source, destination). *)
Definition edges := list (Z * Z).

Definition src_of (es : edges) (v : Z) : Prop := exists w, In (v, w) es.
Definition dst_of (es : edges) (v : Z) : Prop := exists w, In (w, v) es.
Definition vertex (es : edges) (v : Z) : Prop := src_of es v \/ dst_of es v.

(** [u] lists the vertices once each, in ascending order. *)
Definition ascending_vertices (es : edges) (u : list Z) : Prop :=
  StronglySorted Z.lt u /\ forall v, In v u <-> vertex es v.

(** Directed path of any length (including none). *)
Inductive reach (es : edges) (v : Z) : Z -> Prop :=
| R_refl : reach es v v
| R_step a b : reach es v a -> In (a, b) es -> reach es v b.

(** The weights attached to the edges a -> b, in order. *)
Definition weights_between {F} (es : edges) (w : list F) (a b : Z) : list F :=
  map snd (filter (fun p => (fst (fst p) =? a)%Z && (snd (fst p) =? b)%Z) (combine es w)).

(** numpy's contract for argsort: a permutation of the positions along which
    the keys do not decrease.  The default sort is not stable. *)
Definition sorts (argsort : list Z -> list nat) : Prop :=
  forall keys, Permutation (argsort keys) (seq 0 (length keys)) /\
    StronglySorted Z.le (map (fun i => nth i keys 0%Z) (argsort keys)).

(** Square matrix of size n. *)
Definition square {F} (n : nat) (m : list (list F)) : Prop :=
  length m = n /\ Forall (fun r => length r = n) m.
Definition entry {F} (m : list (list F)) (i j : nat) : option F :=
  match nth_error m i with Some r => nth_error r j | None => None end.

(** Index i touches no non-zero entry. *)
Definition isolated {F} (zero : F) (m : list (list F)) (i : nat) : Prop :=
  forall j x, entry m i j = Some x \/ entry m j i = Some x -> x = zero.

(** Sum of a list of numbers, from an addition. *)
Definition total {F} (add : F -> F -> F) (zero : F) (l : list F) : F := fold_left add l zero.

(** Edges can be compared (for [count_occ]). *)
Definition edge_dec : forall x y : Z * Z, {x = y} + {x <> y}.
Proof. decide equality; apply Z.eq_dec. Defined.
Arguments edge_dec : simpl never.
