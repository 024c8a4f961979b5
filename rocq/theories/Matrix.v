(** Model of matrix.py.  Rounding to narrower dtypes is not modelled. *)
From Verif Require Import Prelude SpecReal SpecMatrix Kinem Par DeltaR.
From Coq Require Import Permutation.
Open Scope R_scope.

(** A flag argument tested with [is]: the two singletons, or any other object. *)
Inductive pyflag := FTrue | FFalse | FOther.
(** Boolean or floating point result. *)
Inductive adjm := Bools (B : list (list bool)) | Floats (M : list (list ext)).

(** [a < b] on float64. *)
Definition eltb (a b : ext) : bool :=
  match a, b with
  | NaN, _ | _, NaN => false
  | NInf, NInf => false | NInf, _ => true
  | Fin x, Fin y => if Rlt_dec x y then true else false
  | Fin _, PInf => true | Fin _, NInf => false
  | PInf, _ => false
  end.
(** [astype("<?")]. *)
Definition nonzero (e : ext) : bool := match e with Fin x => if Req_EM_T x 0 then false else true | _ => true end.

(** [np.fill_diagonal] of a 2-d array. *)
Fixpoint fill_from {A} (i : nat) (M : list (list A)) (v : A) : list (list A) :=
  match M with [] => [] | r :: M' => set_nth r i v :: fill_from (S i) M' v end.
Definition fill_diagonal {A} := @fill_from A 0.

(** cut_adj, matrix.py 22-87.  The strings "max" and "min" are the modes. *)
Definition cut_adj (M : list (list ext)) (cut : ext) (mode : string) (self_loop weighted : pyflag) : res adjm :=
  mask <- (if String.eqb mode "max" then Ok (map (map (fun x => eltb x cut)) M)
           else if String.eqb mode "min" then Ok (map (map (fun x => eltb cut x)) M)
           else Err ValueError) ;;
  weights <- (match weighted with FTrue => Ok (fun x : ext => x) | FFalse => Ok (fun _ => Fin 1) | FOther => Err ValueError end) ;;
  let adj := map2 (map2 (fun (b : bool) x => if b then weights x else Fin 0)) mask M in
  let adj := match self_loop with FFalse => fill_diagonal adj (Fin 0) | _ => fill_diagonal adj (Fin 1) end in
  Ok (match weighted with FFalse => Bools (map (map nonzero) adj) | _ => Floats adj end).

(** The [n] by [m] matrix with entries [f i j]. *)
Definition build {A} (n m : nat) (f : nat -> nat -> A) : list (list A) := map (fun i => map (f i) (seq 0 m)) (seq 0 n).

(** np.argpartition of one column, [kth] non-negative: any permutation with the kth element in its
    sorted place. *)
Definition argpartition (col : list ext) (kth : nat) (p : list nat) : Prop :=
  Permutation p (seq 0 (length col)) /\
  forall a, (a < length col)%nat ->
    let v := fun a => nth (nth a p O) col NaN in
    ((a <= kth)%nat -> sort_le (v a) (v kth)) /\ ((kth <= a)%nat -> sort_le (v kth) (v a)).
(** kth is checked and normalised. *)
Definition norm_kth (n : nat) (k : Z) : res nat :=
  if ((- Z.of_nat n <=? k) && (k <? Z.of_nat n))%Z then Ok (Z.to_nat (if (k <? 0)%Z then k + Z.of_nat n else k)) else Err ValueError.
(** [x[:k]]. *)
Definition head {A} (k : Z) (x : list A) : list A :=
  firstn (Z.to_nat (if (k <? 0)%Z then k + Z.of_nat (length x) else k)) x.
(** [np.put_along_axis] on one column. *)
Definition put_along {A} (col : list A) (idx : list nat) (vals : list A) : list A :=
  fold_left (fun c p => set_nth c (fst p) (snd p)) (combine idx vals) col.
Definition column (M : list (list ext)) (j : nat) : list ext := map (fun r => nth j r NaN) M.
Definition transpose {A} (d : A) (n m : nat) (M : list (list A)) : list (list A) :=
  build m n (fun i j => nth i (nth j M []) d).

(** The dtype argument: not given, a floating point type, another type. *)
Inductive dtype := DNone | DFloating | DOther.

(** knn_adj, matrix.py 90-158.  The partial sort is any admissible one. *)
Definition knn_adj (M : list (list ext)) (k : Z) (self_loop weighted row : pyflag) (dt : dtype) (out : res adjm) : Prop :=
  let n := length M in
  let m := match M with [] => O | r :: _ => length r end in
  let k := match self_loop with FFalse => (k + 1)%Z | _ => k end in
  match norm_kth n k with
  | Err e => out = Err e
  | Ok kth =>
      exists knn : list (list nat), length knn = m /\
      (forall j p, nth_error knn j = Some p -> argpartition (column M j) kth p) /\
      let near := map (head k) knn in
      let finish := fun (A : Type) (zero : A) (adj : list (list A)) =>
        let adj := match row with FFalse => transpose zero n m adj | _ => adj end in
        match self_loop with FFalse => fill_diagonal adj zero | _ => adj end in
      match weighted with
      | FTrue =>
          match dt with
          | DOther => out = Err ValueError
          | _ =>
              let edge_weights := fun j => map (fun i => nth i (column M j) NaN) (nth j near []) in
              let cols := map (fun j => put_along (repeat (Fin 0) n) (nth j near []) (edge_weights j)) (seq 0 m) in
              out = Ok (Floats (finish ext (Fin 0) (build n m (fun i j => nth i (nth j cols []) (Fin 0)))))
          end
      | _ =>
          let cols := map (fun j => put_along (repeat false n) (nth j near []) (map (fun _ => true) (nth j near []))) (seq 0 m) in
          out = Ok (Bools (finish bool false (build n m (fun i j => nth i (nth j cols []) false))))
      end
  end.

(** fc_adj, matrix.py 161-189, for a dtype with the given one and zero. *)
Definition fc_adj {A} (one zero : A) (num_nodes : Z) (self_loop : pyflag) : res (list (list A)) :=
  if (num_nodes <? 0)%Z then Err ValueError
  else let n := Z.to_nat num_nodes in
       let adj := build n n (fun _ _ => one) in
       Ok (match self_loop with FFalse => fill_diagonal adj zero | _ => adj end).

(** delta_R_aff, matrix.py 192-216: both arguments are one object. *)
Definition delta_R_aff (l : list mom) (M : list (list ext)) : Prop := delta_R_call true true l l M.

(** [np.power] of a non-negative base. *)
Definition np_power (x e : R) : ext :=
  if Rlt_dec 0 x then Fin (Rpower x e) else if Req_EM_T e 0 then Fin 1 else if Rlt_dec e 0 then PInf else Fin 0.
(** Product of floats, the first not negative. *)
Definition emul2 (a b : ext) : ext :=
  match a, b with
  | Fin x, _ => emul b x
  | PInf, Fin y => if Req_EM_T y 0 then NaN else if Rlt_dec 0 y then PInf else NInf
  | PInf, PInf => PInf | PInf, NInf => NInf
  | _, _ => NaN
  end.
(** parton_hadron_distance, matrix.py 219-259.  [same]: both arguments are one object. *)
Definition parton_hadron_distance (same : bool) (partons hadrons : list mom) (pt_exp : R) (out : list (list ext)) : Prop :=
  exists D, delta_R_call same true partons hadrons D /\
  let pt_weight := map (fun p => np_power (pt p) pt_exp) partons in
  out = map2 (fun w row => map (emul2 w) row) pt_weight D.
