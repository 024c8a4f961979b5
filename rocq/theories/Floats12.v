(** matrix.py in IEEE doubles: delta_R_aff, cut_adj, knn_adj (continues Matrix.v and Floats.v). *)
From Coq Require Import ZArith List Bool String Permutation.
From Flocq Require Import Core BinarySingleNaN.
From Verif Require Import Prelude Keys SpecIEEE Kinem DeltaR Matrix Floats Floats3.
Import ListNotations.

(** matrix.py 192-216 with calculate.py 304-335 (_delta_R_symmetric): the diagonal is 0.0 and the cells (i, j) and (j, i) with i < j hold one
    distance.  Every schedule of the parallel loop gives this array (C66 proves it with exact arithmetic; the loop writes the same cells). *)
Definition f_affinity (hypot atan2 : f64 -> f64 -> f64) (arctanh : f64 -> f64) (pmu : list fmom) : list (list f64) :=
  let rapidity := map (fun p => f_eta hypot arctanh (mx p) (my p) (mz p)) pmu in
  let xy_pol := map (fun p => (mx p, my p)) pmu in
  let pair i j := f_delta hypot atan2 (nth i rapidity fzero) (nth j rapidity fzero) (nth i xy_pol (fzero, fzero)) (nth j xy_pol (fzero, fzero)) in
  build (length pmu) (length pmu) (fun i j => if Nat.eqb i j then fzero else if Nat.ltb i j then pair i j else pair j i).

(** Boolean or double result. *)
Inductive f_adj := FBools (B : list (list bool)) | FDoubles (M : list (list f64)).

(** cut_adj, matrix.py 66-87. [astype("<?")]: zeros of either sign are False, everything else (NaN too) is True. *)
Definition f_cut_adj (M : list (list f64)) (cut : f64) (mode : string) (self_loop weighted : pyflag) : res f_adj :=
  mask <- (if String.eqb mode "max" then Ok (map (map (fun x => flt x cut)) M)
           else if String.eqb mode "min" then Ok (map (map (fun x => flt cut x)) M)
           else Err ValueError) ;;
  weights <- (match weighted with FTrue => Ok (fun x : f64 => x) | FFalse => Ok (fun _ => fone) | FOther => Err ValueError end) ;;
  let adj := map2 (map2 (fun (b : bool) x => if b then weights x else fzero)) mask M in
  let adj := match self_loop with FFalse => fill_diagonal adj fzero | _ => fill_diagonal adj fone end in
  Ok (match weighted with FFalse => FBools (map (map (fun x => negb (feq x fzero))) adj) | _ => FDoubles adj end).

(** numpy's order for sorting doubles (npy_sort, used by np.argpartition in matrix.py 137): NaN after everything else. *)
Definition f_sort_le (a b : f64) : Prop := (flt b a || (is_nan a && negb (is_nan b)))%bool = false.
(** np.argpartition of one column of doubles, matrix.py 137: any permutation with the kth element in its sorted place. *)
Definition f_argpartition (col : list f64) (kth : nat) (p : list nat) : Prop :=
  Permutation p (seq 0 (length col)) /\
  forall a, (a < length col)%nat ->
    let v := fun a => nth (nth a p O) col B754_nan in
    ((a <= kth)%nat -> f_sort_le (v a) (v kth)) /\ ((kth <= a)%nat -> f_sort_le (v kth) (v a)).

(** knn_adj, matrix.py 133-158. The dtype argument is not given or float64. *)
Definition f_column (M : list (list f64)) (j : nat) : list f64 := map (fun r => nth j r B754_nan) M.
Definition f_knn_adj (M : list (list f64)) (k : Z) (self_loop weighted row : pyflag) (out : res f_adj) : Prop :=
  let n := length M in
  let m := match M with [] => O | r :: _ => length r end in
  let k := match self_loop with FFalse => (k + 1)%Z | _ => k end in
  match norm_kth n k with
  | Err e => out = Err e
  | Ok kth =>
      exists knn_idxs : list (list nat), length knn_idxs = m /\
      (forall j p, nth_error knn_idxs j = Some p -> f_argpartition (f_column M j) kth p) /\
      let near := map (head k) knn_idxs in
      let finish := fun (A : Type) (zero : A) (adj : list (list A)) =>
        let adj := match row with FFalse => transpose zero n m adj | _ => adj end in
        match self_loop with FFalse => fill_diagonal adj zero | _ => adj end in
      match weighted with
      | FTrue =>
          let edge_weights := fun j => map (fun i => nth i (f_column M j) B754_nan) (nth j near []) in
          let cols := map (fun j => put_along (repeat fzero n) (nth j near []) (edge_weights j)) (seq 0 m) in
          out = Ok (FDoubles (finish f64 fzero (build n m (fun i j => nth i (nth j cols []) fzero))))
      | _ =>
          let cols := map (fun j => put_along (repeat false n) (nth j near []) (map (fun _ => true) (nth j near []))) (seq 0 m) in
          out = Ok (FBools (finish bool false (build n m (fun i j => nth i (nth j cols []) false))))
      end
  end.
