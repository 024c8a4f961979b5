(** Vocabulary for color_singlets, any_overlap and fastjet_clusters.  Imports no model file. *)
From Verif Require Import Prelude MaskTypes SpecMask.
From Coq Require Export Sorted.

(** The only outgoing hard parton in the leaf [d] has the color pair [c]. *)
Definition sole_parton (outgoing : list bool) (color : list (Z * Z)) (d : list bool) (c : Z * Z) : Prop :=
  exists p, nth_error outgoing p = Some true /\ nth_error d p = Some true /\ nth_error color p = Some c /\
    forall q, nth_error outgoing q = Some true -> nth_error d q = Some true -> q = p.

(** Positions [ix] of leaves whose set of colors is their set of anticolors. *)
Definition neutral (cs : list (Z * Z)) (ix : list nat) : Prop :=
  forall x : Z, (exists i c, In i ix /\ nth_error cs i = Some c /\ fst c = x) <->
                (exists i c, In i ix /\ nth_error cs i = Some c /\ snd c = x).

Definition colored (cs : list (Z * Z)) (i : nat) : Prop :=
  exists c, nth_error cs i = Some c /\ c <> (0, 0)%Z.

(** Pairs or triples of distinct colored leaves, each written in ascending order. *)
Definition combination (cs : list (Z * Z)) (ix : list nat) : Prop :=
  (length ix = 2 \/ length ix = 3) /\ StronglySorted lt ix /\ forall i, In i ix -> colored cs i.

(** Order of itertools.combinations: pairs before triples, then lexicographic. *)
Inductive lex : list nat -> list nat -> Prop :=
| lex_here x y a b : x < y -> lex (x :: a) (y :: b)
| lex_there x a b : lex a b -> lex (x :: a) (x :: b).
Definition before (a b : list nat) : Prop := length a < length b \/ (length a = length b /\ lex a b).

(** Two different children of a group are True at one position. *)
Definition overlapping (ms : list (list bool)) : Prop :=
  exists i j a b p, i < j /\ nth_error ms i = Some a /\ nth_error ms j = Some b /\
    nth_error a p = Some true /\ nth_error b p = Some true.

(** numpy's argsort contract over any strict order: a permutation of the positions along
    which the keys never decrease. *)
Definition argsorts {T} (ltb : T -> T -> bool) (argsort : list T -> list nat) : Prop :=
  forall keys, Permutation (argsort keys) (seq 0 (length keys)) /\
    StronglySorted (fun i j => forall x y, nth_error keys i = Some x -> nth_error keys j = Some y -> ltb y x = false) (argsort keys).
