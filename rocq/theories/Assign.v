(** Model of _assignment_cost (calculate.py 915-941) and arg_closest (select.py 1165-1234). *)
From Verif Require Import Prelude Keys SpecReal SpecAssign RealBase Kinem Par DeltaR.
Open Scope R_scope.

Definition is_fin (e : ext) : bool := match e with Fin _ => true | _ => false end.
Definition fval (e : ext) : R := match e with Fin x => x | _ => 0 end.
Definition expm1 (x : R) : R := exp x - 1.

(** One entry of _delta_R, calculate.py 291-297, from the rapidity and xy arrays it is handed. *)
Definition delta_pair (y1 y2 : ext) (p q : mom) : ext :=
  let drap := esub y1 y2 in
  let drap := match drap with NaN => Fin 0 | d => d end in
  ehypot drap (delta_phi p q).
Definition nthe (l : list ext) (i : nat) : ext := nth i l NaN.
(** _delta_R, calculate.py 289-298, as a parallel loop. *)
Definition dist_loop (y1 y2 : list ext) (l r : list mom) : list (iter cell ext unit) :=
  map (fun i => (map (fun j => write i j (delta_pair (nthe y1 i) (nthe y2 j) (nthm l i) (nthm r j))) (seq 0 (length r)), tt))
      (seq 0 (length l)).

(** [np.var]: the mean of the squared deviations; NaN if an entry is infinite or NaN. *)
Definition np_mean (l : list R) : R := rsum l / INR (length l).
Definition np_var (l : list R) : R :=
  let m := np_mean l in rsum (map (fun x => (x - m) * (x - m)) l) / INR (length l).
Definition evar (l : list ext) : ext := if forallb is_fin l then Fin (np_var (map fval l)) else NaN.

Section Cost.
  (** What a cell becomes when the variance of its row is zero: division by zero inside a
      parallel region, left unspecified. *)
  Context (deg : nat -> nat -> ext).

  (** Lines 937-940: one entry of the cost row. *)
  Definition cost_entry (i j : nat) (var_dR : ext) (var_pt_recip : R) (dR : ext) (dpt : R) : ext :=
    match var_dR, dR with
    | Fin v, Fin d =>
        if Req_EM_T v 0 then deg i j
        else let var_dR_recip := 1 / v in
             let dR_cost := expm1 (- / 2 * var_dR_recip * d * d) in
             let pt_cost := expm1 (- / 2 * var_pt_recip * dpt * dpt) in
             Fin (- (dR_cost + pt_cost))
    | _, _ => NaN
    end.

  (** One iteration of the parallel loop, lines 932-940: first the variance of the row is read
      into a local variable, then every entry is read and overwritten. *)
  Definition cost_body (var_pt_recip : R) (pt_1 pt_2 : list R) (n2 : nat) (i : nat) : iter cell ext ext :=
    ((fun _ m => (evar (map (fun j => m (i, j)) (seq 0 n2)), m)) ::
     map (fun j => fun v m =>
            (v, fun c => if cell_eqb (i, j) c
                         then cost_entry i j v var_pt_recip (m (i, j)) (nth i pt_1 0 - nth j pt_2 0) else m c))
         (seq 0 n2), NaN).
  Definition cost_loop (var_pt_recip : R) (pt_1 pt_2 : list R) (n1 n2 : nat) : list (iter cell ext ext) :=
    map (cost_body var_pt_recip pt_1 pt_2 n2) (seq 0 n1).

  (** _assignment_cost, calculate.py 920-941.  Both loops run in parallel, the second on the memory
      the first one left; [1.0 / np.var(pt_2)] between them raises on zero. *)
  Definition assignment_cost (y1 y2 : list ext) (l r : list mom) (out : res (list (list ext))) : Prop :=
    exists m0 m1, runs (dist_loop y1 y2 l r) m0 m1 /\
    let pt_2 := map pt r in
    if Req_EM_T (np_var pt_2) 0 then out = Err ZeroDivisionError
    else exists m2, runs (cost_loop (1 / np_var pt_2) (map pt l) pt_2 (length l) (length r)) m1 m2 /\
         out = Ok (read_out (length l) (length r) m2).

  (** scipy.optimize.linear_sum_assignment: rejects a matrix with NaN, else returns a best matching. *)
  Definition linear_sum_assignment (n1 n2 : nat) (C : list (list ext)) (out : res (list (nat * nat))) : Prop :=
    if forallb (forallb is_fin) C
    then exists a, best_matching n1 n2 (fun i j => fval (nth j (nth i C []) NaN)) a /\ out = Ok a
    else out = Err ValueError.

  (** The rapidity arrays in memory, and which of them the two objects have cached. *)
  Record rapstate := RapState { rheap : list (list ext); rfocus : option nat; rcand : option nat }.
  (** Reading the cached property [rapidity], data.py 1540-1547. *)
  Definition read_rap (c : option nat) (l : list mom) (h : list (list ext)) : nat * list (list ext) :=
    match c with Some a => (a, h) | None => (length h, h ++ [map (rapidity ZERO_TOL) l]) end.

  (** arg_closest, select.py 1225-1234.  [same]: both arguments are one object.  The kernel overwrites
      the candidates' rapidity array by their transverse momenta (calculate.py 927-929) before
      anything can raise; [del candidate.rapidity] drops it after a normal return of the kernel. *)
  Definition arg_closest (same : bool) (focus cand : list mom) (s : rapstate) (out : res (list nat)) (s' : rapstate) : Prop :=
    let '(af, h1) := read_rap (if same then rcand s else rfocus s) focus (rheap s) in
    let cf := if same then rfocus s else Some af in
    let '(ac, h2) := read_rap (if same then Some af else rcand s) cand h1 in
    exists M, assignment_cost (nth af h2 []) (nth ac h2 []) focus cand M /\
    let h3 := set_nth h2 ac (map (fun p => Fin (pt p)) cand) in
    match M with
    | Err e => out = Err e /\ s' = RapState h3 cf (Some ac)
    | Ok C => s' = RapState h3 cf None /\
        exists r, linear_sum_assignment (length focus) (length cand) C r /\ out = (a <- r ;; Ok (map snd a))
    end.
  (** [candidate.rapidity] read afterwards. *)
  Definition cand_rapidity (cand : list mom) (s : rapstate) : list ext :=
    let '(a, h) := read_rap (rcand s) cand (rheap s) in nth a h [].
End Cost.

(** arg_closest and the thread setting, select.py 1225-1234: kernel [k] inside the scope, [post] after it. *)
Definition t_arg_closest {A B} (maxt threads : nat) (k : thr A) (post : A -> res B) : thr B :=
  tbind (thread_scope maxt threads k) (fun c => tret (post c)).
