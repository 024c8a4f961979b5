(** The distances partition_descendants uses (continues Partition.v and Matrix.v). *)
From Coq Require Import Reals.
From Verif Require Import Prelude SpecReal Kinem DeltaR Matrix SpecAdj MaskTypes Partition.

(** One entry of [dist_strat(parton_pmu, hadron_pmu)], select.py 417 with 457: parton_hadron_distance of two
    different arrays (matrix.py 257-259), whose delta_R uses the pseudorapidity (matrix.py 257, calculate.py's default). *)
Definition phd_entry (pt_exp : R) (p h : mom) : ext := emul2 (np_power (pt p) pt_exp) (delta_entry eta p h).

(** The comparison made by [np.argmin], select.py 418: a NaN comes before every number, and numbers are ordered as usual. *)
Definition argmin_lt (x y : ext) : bool :=
  match x, y with
  | NaN, NaN => false | NaN, _ => true | _, NaN => false
  | NInf, NInf => false | NInf, _ => true | _, NInf => false
  | PInf, _ => false | _, PInf => true
  | Fin a, Fin b => if Rlt_dec a b then true else false
  end.

(** partition_descendants, select.py 424-476, of an event with momenta [pmu]. *)
Definition partition_event (pt_exp : R) (es : edges) (status : list Z) (final : list bool) (pmu : list mom) (hier : mask) : res mask :=
  partition_descendants (phd_entry pt_exp) argmin_lt es status final pmu hier.
