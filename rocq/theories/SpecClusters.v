(** Vocabulary for the clusters property.  Imports no model file. *)
From Verif Require Import Prelude SpecArray SpecAdj MaskTypes SpecMask SpecHard SpecPart SpecReal.

(** [p] is the path of a leaf of the tree, holding [d]; nested 'latent' masks are no leaves. *)
Definition leaf (tree : mask) (p : list string) (d : list bool) : Prop :=
  at_path tree p = Some (MArr d) /\ ~ In "latent"%string p.

(** Particle [q] is an outgoing parton of the hard process. *)
Definition outgoing (ev : event) (q : nat) : Prop := exists z, nth_error (e_status ev) q = Some z /\ Z.abs z = 23%Z.

(** [q] is the outgoing parton in the leaf at [p]. *)
Definition parton_of (ev : event) (tree : mask) (p : list string) (q : nat) : Prop :=
  exists d, leaf tree p d /\ nth_error d q = Some true /\ outgoing ev q.

(** The parton of the leaf at [p] has the colours [c]. *)
Definition leaf_color (ev : event) (color : list (Z * Z)) (tree : mask) (p : list string) (c : Z * Z) : Prop :=
  exists q, parton_of ev tree p q /\ nth_error color q = Some c.

Definition colored_leaf ev color tree p : Prop := exists c, leaf_color ev color tree p c /\ c <> (0, 0)%Z.

(** Two or three coloured leaves whose colours are together their anticolours. *)
Definition singlet ev color tree (ps : list (list string)) : Prop :=
  (length ps = 2 \/ length ps = 3)%nat /\ NoDup ps /\ (forall p, In p ps -> colored_leaf ev color tree p) /\
  forall x, (exists p c, In p ps /\ leaf_color ev color tree p c /\ fst c = x) <->
            (exists p c, In p ps /\ leaf_color ev color tree p c /\ snd c = x).

(** The leaf is coloured and in no singlet: its colour is annihilated with the background. *)
Definition background ev color tree p : Prop :=
  colored_leaf ev color tree p /\ ~ exists ps, In p ps /\ singlet ev color tree ps.

(** Particle [b] lies within [radius] of [a] in the pseudorapidity-azimuth plane.  Particles on the beam line have no
    such position (the code treats pT up to 1e-10 of [a] as none). *)
Definition near (a b : mom) (radius : R) : Prop :=
  (/ 10000000000 < sqrt (pt_sq a) /\ 0 < pt_sq b /\ exists fa fb g,
    azimuth_of (px a) (py a) fa /\ azimuth_of (px b) (py b) fb /\ - PI < g <= PI /\ same_angle g (fb - fa) /\
    sqrt ((pseudo_rap b - pseudo_rap a) * (pseudo_rap b - pseudo_rap a) + g * g) < radius)%R.

(** The records of the final state, in order. *)
Definition final_rows (ev : event) : list nat := filter (fun i => nth i (e_final ev) false) (seq 0 (length (e_final ev))).

(** Record [i] belongs to the cluster of the leaf at [p]: its hadrons are shared out among the partons ending at their
    vertex, and a background leaf keeps only what is near its parton. *)
Definition in_cluster {D} (dist : mom -> mom -> D) (lt : D -> D -> bool) (ev : event) (color : list (Z * Z)) (pmu : list mom)
    (radius : R) (agg : string) (kids : list (string * mask)) (p : list string) (i : nat) : Prop :=
  exists d0 d1, leaf (MGrp agg kids) p d0 /\
    partitioned dist lt (e_edges ev) (e_final ev) pmu (selected (e_edges ev) (e_status ev) kids) d0 d1 /\
    nth_error d1 i = Some true /\
    (background ev color (MGrp agg kids) p ->
     exists q a b, parton_of ev (MGrp agg kids) p q /\ nth_error pmu q = Some a /\ nth_error pmu i = Some b /\ near a b radius).
