(** Vocabulary for the properties of the particle data arrays.  Imports no
    model file. *)
From Verif Require Import Prelude.
Local Open Scope string_scope.

(** The documented field names of structured input (data.py docstrings):
    every component with its accepted spellings. *)
Definition pmu_alias (component name : string) : Prop :=
  (component = "x" /\ (name = "x" \/ name = "px")) \/
  (component = "y" /\ (name = "y" \/ name = "py")) \/
  (component = "z" /\ (name = "z" \/ name = "pz")) \/
  (component = "e" /\ (name = "e" \/ name = "pe" \/ name = "E")).

Definition edge_alias (component name : string) : Prop :=
  (component = "src" /\ (name = "src" \/ name = "in")) \/
  (component = "dst" /\ (name = "dst" \/ name = "out")).

(** In a record with field names [names] and values [row], field [n] holds [v]. *)
Definition field_is {A} (names : list string) (row : list A) (n : string) (v : A) : Prop :=
  exists j, nth_error names j = Some n /\ nth_error row j = Some v.

(** Two's complement ranges. *)
Definition fits32 (z : Z) : Prop := (- 2 ^ 31 <= z < 2 ^ 31)%Z.
Definition fits16 (z : Z) : Prop := (- 2 ^ 15 <= z < 2 ^ 15)%Z.
