(** Vocabulary for the partition properties.  Imports no model file. *)
From Verif Require Import Prelude SpecAdj SpecArray MaskTypes SpecMask.

(** A hadronisation vertex: particles of status 80 to 90 start there. *)
Definition hadron_vertex (es : edges) (status : list Z) (v : Z) : Prop :=
  exists i w s, nth_error es i = Some (v, w) /\ nth_error status i = Some s /\ (80 <= Z.abs s <= 90)%Z.

(** Particle [e] ends at vertex [v]. *)
Definition incident (es : edges) (v : Z) (e : nat) : Prop := exists a, nth_error es e = Some (a, v).

(** Particle [i] is in the final state and descends from vertex [v]. *)
Definition final_desc (es : edges) (final : list bool) (v : Z) (i : nat) : Prop :=
  nth_error final i = Some true /\ exists a b, nth_error es i = Some (a, b) /\ reach es v a.

(** [d] contains a particle ending at [v]. *)
Definition touches (es : edges) (d : list bool) (v : Z) : Prop := exists e, incident es v e /\ nth_error d e = Some true.

(** A strict weak order, as "<" on numbers without NaN. *)
Definition weak_order {D} (lt : D -> D -> bool) : Prop :=
  (forall x, lt x x = false) /\ (forall x y z, lt x y = true -> lt y z = true -> lt x z = true) /\
  (forall x y z, lt x z = true -> lt x y = true \/ lt y z = true).

(** Among the particles ending at [v], [e] is nearest to particle [i], the first on ties. *)
Definition nearest {P D} (dist : P -> P -> D) (lt : D -> D -> bool) (es : edges) (pmu : list P) (v : Z) (i e : nat) : Prop :=
  incident es v e /\ exists pe pi, nth_error pmu e = Some pe /\ nth_error pmu i = Some pi /\
    forall e' pe', incident es v e' -> nth_error pmu e' = Some pe' ->
      lt (dist pe' pi) (dist pe pi) = false /\ (e' < e -> lt (dist pe pi) (dist pe' pi) = true).

(** What partitioning the vertices [proc] makes of the leaf [d]. *)
Definition partitioned {P D} (dist : P -> P -> D) (lt : D -> D -> bool) (es : edges) (final : list bool) (pmu : list P)
    (proc : Z -> Prop) (d d' : list bool) : Prop :=
  length d' = length d /\
  (forall v i e, proc v -> touches es d v -> final_desc es final v i -> nearest dist lt es pmu v i e ->
     (nth_error d' i = Some true <-> nth_error d e = Some true)) /\
  (forall i, (forall v, proc v -> touches es d v -> ~ final_desc es final v i) -> nth_error d' i = nth_error d i).

(** The hadronisation vertices that get partitioned: some particle ending there is in a branch. *)
Definition selected (es : edges) (status : list Z) (kids : list (string * mask)) (v : Z) : Prop :=
  hadron_vertex es status v /\ exists e k c, incident es v e /\ In (k, c) kids /\ true_at e c.

(** Generator records: one length, distinct hadronisation vertices have no common final
    descendant, and final particles do not end at a hadronisation vertex. *)
Definition event_ok {P} (n : nat) (es : edges) (status : list Z) (final : list bool) (pmu : list P) : Prop :=
  length es = n /\ length status = n /\ length final = n /\ length pmu = n /\ Forall fits16 status /\
  (forall v w i, hadron_vertex es status v -> hadron_vertex es status w -> final_desc es final v i -> final_desc es final w i -> v = w) /\
  (forall v i, hadron_vertex es status v -> nth_error final i = Some true -> ~ incident es v i).

(** The branches of a hierarchy: at least one, each a mask over the [n] particles. *)
Definition branches_ok (n : nat) (kids : list (string * mask)) : Prop :=
  kids <> [] /\ forall k c, In (k, c) kids -> aggregable n c.

(** [d] is a leaf mask at path [p] of the group with children [kids], not under a nested 'latent'. *)
Definition leaf_at (agg : string) (kids : list (string * mask)) (p : list string) (d : list bool) : Prop :=
  at_path (MGrp agg kids) p = Some (MArr d) /\ has "latent" (tl p) = false.
