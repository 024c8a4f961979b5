(** The parallel loops of calculate.py as schedules (see Par.v), and the thread setting. *)
From Verif Require Import Prelude Keys SpecReal RealBase Kinem Par.
Open Scope R_scope.

Definition cell := (nat * nat)%type.
Definition cell_eqb (a b : cell) : bool := (Nat.eqb (fst a) (fst b) && Nat.eqb (snd a) (snd b))%bool.
Definition write (i j : nat) (v : ext) : action cell ext unit := put_cell cell_eqb (i, j) v.
(** Reading the finished output array. *)
Definition read_out {V} (n1 n2 : nat) (m : mem cell V) : list (list V) :=
  map (fun i => map (fun j => m (i, j)) (seq 0 n2)) (seq 0 n1).
Definition nthm (l : list mom) (i : nat) : mom := nth i l mzero.

(** _delta_R, calculate.py 289-298: iteration i of the parallel loop writes row i.  The memory
    before the loop is whatever [np.empty] returned. *)
Definition delta_R_body (rap : mom -> ext) (l r : list mom) (i : nat) : iter cell ext unit :=
  (map (fun j => write i j (delta_entry rap (nthm l i) (nthm r j))) (seq 0 (length r)), tt).
Definition delta_R_loop (rap : mom -> ext) (l r : list mom) : list (iter cell ext unit) :=
  map (delta_R_body rap l r) (seq 0 (length l)).

(** _delta_R_symmetric, calculate.py 324-335: iteration i writes (i,i), then (i,j) and (j,i) for j > i. *)
Definition delta_R_sym_body (rap : mom -> ext) (l : list mom) (i : nat) : iter cell ext unit :=
  (write i i (Fin 0) ::
   flat_map (fun j => let v := delta_entry rap (nthm l i) (nthm l j) in [write i j v; write j i v])
            (seq (i + 1) (length l - (i + 1))), tt).
Definition delta_R_sym_loop (rap : mom -> ext) (l : list mom) : list (iter cell ext unit) :=
  map (delta_R_sym_body rap l) (seq 0 (length l)).

(** MomentumArray.delta_R, data.py 1786-1796: [same] says whether [other] is the very same object. *)
Definition delta_R_call (same : bool) (pseudo : bool) (l r : list mom) (M : list (list ext)) : Prop :=
  let rap := if pseudo then eta else rapidity ZERO_TOL in
  if same then exists m0 m, runs (delta_R_sym_loop rap l) m0 m /\ M = read_out (length l) (length l) m
  else exists m0 m, runs (delta_R_loop rap l r) m0 m /\ M = read_out (length l) (length r) m.

(** _clust_coeffs, calculate.py 338-349: iteration i writes cell i. *)
Definition adj_at (adj : list (list bool)) (i j : nat) : bool := nth j (nth i adj []) false.
Definition clust_coeff (adj : list (list bool)) (i : nat) : R :=
  let neibs := positions (nth i adj []) in
  let k := length neibs in
  if Nat.ltb k 2 then 0
  else INR (length (filter (fun ab => adj_at adj (fst ab) (snd ab)) (list_prod neibs neibs)))
       / INR (k * (k - 1)).
Definition clust_loop (adj : list (list bool)) : list (iter nat R unit) :=
  map (fun i => ([put_cell Nat.eqb i (clust_coeff adj i)], tt)) (seq 0 (length adj)).
Definition elt (d : ext) (r : R) : bool :=
  match d with Fin x => if Rlt_dec x r then true else false | NInf => true | _ => false end.
(** [adj = pmu.delta_R(pmu, ...) < radius; np.fill_diagonal(adj, False)], calculate.py 386-387. *)
Definition radius_adj (M : list (list ext)) (radius : R) : list (list bool) :=
  map (fun ir => map (fun jd => (elt (snd jd) radius && negb (Nat.eqb (fst ir) (fst jd)))%bool) (enumerate (snd ir))) (enumerate M).
(** cluster_coeff_distbn, calculate.py 352-389. *)
Definition cluster_coeff_distbn (pseudo : bool) (l : list mom) (radius : R) (out : list R) : Prop :=
  exists M m0 m, delta_R_call true pseudo l l M /\
    runs (clust_loop (radius_adj M radius)) m0 m /\ out = map m (seq 0 (length l)).

(** ** The process-wide thread setting *)
(** A computation that may change the setting, return or raise. *)
Definition thr (A : Type) := nat -> nat * res A.
Definition tret {A} (x : res A) : thr A := fun s => (s, x).
Definition tbind {A B} (c : thr A) (f : A -> thr B) : thr B :=
  fun s => match c s with (s', Ok x) => f x s' | (s', Err e) => (s', Err e) end.
(** [nb.set_num_threads], which rejects numbers outside 1..max before changing anything. *)
Definition set_num_threads (maxt n : nat) : thr unit :=
  fun s => if (Nat.leb 1 n && Nat.leb n maxt)%bool then (n, Ok tt) else (s, Err ValueError).
(** _thread_scope, calculate.py 392-399 as a with block: [finally] runs on return and on raise. *)
Definition thread_scope {A} (maxt n : nat) (body : thr A) : thr A :=
  fun prev =>
    match set_num_threads maxt n prev with
    | (s, Err e) => (s, Err e)
    | (s, Ok _) =>
        let '(s1, r) := body s in
        match set_num_threads maxt prev s1 with
        | (s2, Ok _) => (s2, r)
        | (s2, Err e) => (s2, Err e)
        end
    end.
(** delta_R and cluster_coeff_distbn, data.py 1790-1796, calculate.py 386-389: the kernels are
    arbitrary computations [k], [k1], [k2]. *)
Definition t_delta_R {A} (maxt threads : nat) (k : thr A) : thr A := thread_scope maxt threads k.
Definition t_cluster_coeff {A B} (maxt threads : nat) (k1 : thr A) (k2 : A -> thr B) : thr B :=
  tbind (t_delta_R maxt threads k1) (fun adj => thread_scope maxt threads (k2 adj)).
