(** matrix.py in IEEE doubles (C231, C232, C233). *)
From Coq Require Import ZArith Reals Ratan List Bool String Lia Lra Permutation Sorting.
From Flocq Require Import Core BinarySingleNaN.
From Verif Require Import Prelude Keys SpecReal SpecIEEE SpecDist RealBase Kinem KinemProofs Par DeltaR DeltaRProofs P_Kinem P_DeltaR SpecMatrix Matrix P_Matrix Floats FloatBase FloatOps Floats3 P_Float P_Float9 P_Float18.
From Verif Require Import SpecAdj SpecArray Arrays ArraysProofs Composite Adjacency AdjacencyProofs P_Equiv P_Order P_Float6 P_Float7 P_Float19 P_Float22 P_Float23.
From Verif Require Import P_Graph Floats12.
Import ListNotations.
Open Scope R_scope.

(** * Doubles as reals and infinities *)
(** The result of cut_adj and knn_adj with its doubles replaced by the numbers they stand for. *)
Definition emb (a : f_adj) : adjm := match a with FBools B => Bools B | FDoubles M => Floats (map (map key) M) end.
Definition emb_res (r : res f_adj) : res adjm := match r with Ok a => Ok (emb a) | Err e => Err e end.

Lemma key_fin x : fin x -> key x = Fin (val x).
Proof. destruct x; cbn; try discriminate; reflexivity. Qed.
Lemma key_zero : key fzero = Fin 0. Proof. reflexivity. Qed.
Lemma key_one : key fone = Fin 1.
Proof. destruct (lit_int 1) as (V & F); [lia|]. rewrite key_fin by exact F. f_equal. exact V. Qed.
Lemma flt_real a b : fin a -> fin b -> flt a b = if Rlt_dec (val a) (val b) then true else false.
Proof. intros A B. pose proof (flt_ok a b A B) as H. destruct (Rlt_dec (val a) (val b)) as [L|L], (flt a b); try reflexivity; [apply H; exact L | exfalso; apply L, H; reflexivity]. Qed.
Lemma key_flt x y : flt x y = eltb (key x) (key y).
Proof.
  destruct x as [s|s| |s m e B], y as [s'|s'| |s' m' e' B']; cbn [key eltb]; try reflexivity; try (apply flt_real; reflexivity); try (destruct s; reflexivity); try (destruct s'; reflexivity); destruct s, s'; reflexivity.
Qed.
Lemma key_nonzero x : negb (feq x fzero) = nonzero (key x).
Proof.
  destruct x as [s|s| |s m e B]; [destruct s; cbn; destruct (Req_EM_T 0 0); congruence | destruct s; reflexivity | reflexivity |].
  cbn [key nonzero]. assert (N : val (B754_finite s m e B : f64) <> 0). { unfold val, B2R. intros E. apply Float_prop.eq_0_F2R in E. destruct s; discriminate E. }
  destruct (Req_EM_T _ 0); [contradiction|]. destruct s; reflexivity.
Qed.
Lemma key_sort a b : f_sort_le a b <-> sort_le (key a) (key b).
Proof.
  unfold f_sort_le. rewrite key_flt.
  assert (N : forall x, is_nan x = match key x with NaN => true | _ => false end) by (intros [s|[|]| |s m e B]; reflexivity). rewrite !N.
  destruct (key a) as [x| | |], (key b) as [y| | |]; cbn; try (split; [tauto | reflexivity]); try (split; [discriminate | tauto]).
  destruct (Rlt_dec y x); cbn; split; intros; try discriminate; try lra; reflexivity.
Qed.

Lemma set_nth_map {A B} (f : A -> B) v : forall l i, set_nth (map f l) i (f v) = map f (set_nth l i v).
Proof. induction l as [|x l IH]; intros [|i]; cbn; try reflexivity. f_equal. apply IH. Qed.
Lemma fill_from_map {A B} (f : A -> B) v : forall M k, fill_from k (map (map f) M) (f v) = map (map f) (fill_from k M v).
Proof. induction M as [|r M IH]; intros k; cbn; [reflexivity|]. rewrite set_nth_map, IH. reflexivity. Qed.
Lemma fill_map {A B} (f : A -> B) v M : fill_diagonal (map (map f) M) (f v) = map (map f) (fill_diagonal M v).
Proof. apply fill_from_map. Qed.
Lemma map2_gen {A B C A' B' C'} (f : A -> B -> C) (g : A' -> B' -> C') (p : A -> A') (q : B -> B') (r : C -> C') : (forall a b, g (p a) (q b) = r (f a b)) ->
  forall l m, map2 g (map p l) (map q m) = map r (map2 f l m).
Proof. intros H. induction l as [|a l IH]; intros [|b m]; cbn; try reflexivity. rewrite H, IH. reflexivity. Qed.
Lemma put_map {A B} (f : A -> B) : forall idx vals col, put_along (map f col) idx (map f vals) = map f (put_along col idx vals).
Proof.
  unfold put_along. intros idx vals. revert idx. induction vals as [|v vals IH]; intros [|i idx] col; cbn; try reflexivity. rewrite <- IH, set_nth_map. reflexivity.
Qed.
Lemma build_map {A B} (f : A -> B) n m (g : nat -> nat -> A) : build n m (fun i j => f (g i j)) = map (map f) (build n m g).
Proof. unfold build. rewrite map_map. apply map_ext. intros i. rewrite map_map. reflexivity. Qed.
Lemma build_ext {A} n m (f g : nat -> nat -> A) : (forall i j, f i j = g i j) -> build n m f = build n m g.
Proof. intros H. unfold build. apply map_ext. intros i. apply map_ext. intros j. apply H. Qed.
Lemma transpose_map {A B} (f : A -> B) z n m M : transpose (f z) n m (map (map f) M) = map (map f) (transpose z n m M).
Proof.
  unfold transpose. rewrite <- build_map. apply build_ext. intros i j. change (@nil B) with (map f []). rewrite map_nth. apply map_nth.
Qed.
Lemma column_map M j : Matrix.column (map (map key) M) j = map key (f_column M j).
Proof. unfold Matrix.column, f_column. rewrite !map_map. apply map_ext. intros r. change NaN with (key B754_nan). apply map_nth. Qed.

(** * C231 *)
(** cut_adj on doubles does what it does on the numbers they stand for: no rounding anywhere. *)
Theorem C231_cut : forall M cut mode self_loop weighted,
  emb_res (f_cut_adj M cut mode self_loop weighted) = cut_adj (map (map key) M) (key cut) mode self_loop weighted.
Proof.
  intros M cut mode sl w. unfold f_cut_adj, cut_adj.
  assert (H : forall (t : f64 -> bool) (t' : ext -> bool), (forall x, t x = t' (key x)) -> map (map t') (map (map key) M) = map (map t) M).
  { intros t t' H. rewrite map_map. apply map_ext. intros r. rewrite map_map. apply map_ext. intros x. symmetry. apply H. }
  assert (W : forall mask (wt : f64 -> f64) (wt' : ext -> ext), (forall x, wt' (key x) = key (wt x)) ->
    map2 (map2 (fun (b : bool) x => if b then wt' x else Fin 0)) mask (map (map key) M) = map (map key) (map2 (map2 (fun (b : bool) x => if b then wt x else fzero)) mask M)).
  { intros mask wt wt' HW. rewrite <- (map_id mask) at 1. apply (map2_gen _ _ (fun x => x) (map key) (map key)). intros a b. rewrite <- (map_id a) at 1. apply (map2_gen _ _ (fun x => x) key key).
    intros [|] y; [apply HW | reflexivity]. }
  assert (D : forall mask (wt : f64 -> f64) (wt' : ext -> ext), (forall x, wt' (key x) = key (wt x)) ->
    let adj := map2 (map2 (fun (b : bool) x => if b then wt x else fzero)) mask M in let adj' := map2 (map2 (fun (b : bool) x => if b then wt' x else Fin 0)) mask (map (map key) M) in
    match sl with FFalse => fill_diagonal adj' (Fin 0) | _ => fill_diagonal adj' (Fin 1) end = map (map key) (match sl with FFalse => fill_diagonal adj fzero | _ => fill_diagonal adj fone end)).
  { intros mask wt wt' HW adj adj'. unfold adj, adj'. rewrite (W mask wt wt' HW), <- key_zero, <- key_one. destruct sl; apply fill_map. }
  assert (NZ : forall A, map (map nonzero) (map (map key) A) = map (map (fun x => negb (feq x fzero))) A).
  { intros A. rewrite map_map. apply map_ext. intros r. rewrite map_map. apply map_ext. intros x. symmetry. apply key_nonzero. }
  destruct (String.eqb mode "max") eqn:E1.
  - cbn [bind]. rewrite (H (fun x => flt x cut) (fun x => eltb x (key cut))) by (intros; apply key_flt). destruct w; cbn [bind emb_res emb]; [| |reflexivity].
    + rewrite (D _ (fun x => x) (fun x => x)) by reflexivity. reflexivity.
    + rewrite (D _ (fun _ => fone) (fun _ => Fin 1)) by (intros; symmetry; apply key_one). rewrite NZ. reflexivity.
  - destruct (String.eqb mode "min") eqn:E2; [|reflexivity]. cbn [bind]. rewrite (H (fun x => flt cut x) (fun x => eltb (key cut) x)) by (intros; apply key_flt). destruct w; cbn [bind emb_res emb]; [| |reflexivity].
    + rewrite (D _ (fun x => x) (fun x => x)) by reflexivity. reflexivity.
    + rewrite (D _ (fun _ => fone) (fun _ => Fin 1)) by (intros; symmetry; apply key_one). rewrite NZ. reflexivity.
Qed.

Lemma argpartition_key col kth p : f_argpartition col kth p <-> argpartition (map key col) kth p.
Proof.
  unfold f_argpartition, argpartition. rewrite map_length.
  assert (E : forall i, nth i (map key col) NaN = key (nth i col B754_nan)) by (intros; change NaN with (key B754_nan); apply map_nth).
  split; intros (P & H); (split; [exact P|]); intros a Ha; specialize (H a Ha); cbv zeta in *; rewrite ?E in *; rewrite ?key_sort in *; exact H.
Qed.
(** The same for knn_adj; and it always returns. *)
Theorem C231_knn : forall M k self_loop weighted row,
  (exists out, f_knn_adj M k self_loop weighted row out) /\
  forall out, f_knn_adj M k self_loop weighted row out -> knn_adj (map (map key) M) k self_loop weighted row DNone (emb_res out).
Proof.
  intros M k sl w row. split.
  - destruct (C83_runs (map (map key) M) k sl w row DNone) as (out & H). unfold knn_adj in H. unfold f_knn_adj. rewrite map_length in H.
    destruct (norm_kth (length M) (match sl with FFalse => (k + 1)%Z | _ => k end)) as [kth|e]; [|eauto].
    destruct H as (knn & L & A & _).
    assert (LM : match map (map key) M with [] => O | r :: _ => length r end = match M with [] => O | r :: _ => length r end) by (destruct M; [reflexivity | apply map_length]). rewrite LM in L.
    assert (A' : forall j p, nth_error knn j = Some p -> f_argpartition (f_column M j) kth p) by (intros j p Hp; apply argpartition_key; rewrite <- column_map; apply (A j p Hp)).
    destruct w; eexists; exists knn; (split; [exact L|]); (split; [exact A'|]); reflexivity.
  - intros out H. unfold f_knn_adj in H. unfold knn_adj. rewrite map_length.
    destruct (norm_kth (length M) (match sl with FFalse => (k + 1)%Z | _ => k end)) as [kth|e]; [|subst out; reflexivity].
    assert (LM : match map (map key) M with [] => O | r :: _ => length r end = match M with [] => O | r :: _ => length r end) by (destruct M; [reflexivity | apply map_length]). rewrite LM. clear LM.
    set (n := length M) in *. set (m := match M with [] => O | r :: _ => length r end) in *.
    destruct H as (knn & L & A & H). exists knn. split; [exact L|]. split; [intros j p Hp; rewrite column_map; apply argpartition_key, (A j p Hp)|].
    destruct w; [| subst out; reflexivity..]. subst out. cbn [emb_res emb]. do 2 f_equal.
    set (near := map (head (match sl with FFalse => (k + 1)%Z | _ => k end)) knn).
    assert (C : map (fun j => put_along (repeat (Fin 0) n) (nth j near []) (map (fun i => nth i (Matrix.column (map (map key) M) j) NaN) (nth j near []))) (seq 0 m) =
      map (map key) (map (fun j => put_along (repeat fzero n) (nth j near []) (map (fun i => nth i (f_column M j) B754_nan) (nth j near []))) (seq 0 m))).
    { rewrite map_map. apply map_ext. intros j. rewrite <- put_map, map_map, column_map. f_equal.
      - clear. induction n; cbn; [reflexivity | f_equal; assumption].
      - apply map_ext. intros i. change NaN with (key B754_nan). apply map_nth. }
    rewrite C. set (cols := map (fun j => put_along (repeat fzero n) _ _) (seq 0 m)).
    assert (B : build n m (fun i j => nth i (nth j (map (map key) cols) []) (Fin 0)) = map (map key) (build n m (fun i j => nth i (nth j cols []) fzero))).
    { rewrite <- build_map. apply build_ext. intros i j. change (@nil ext) with (map key []). rewrite map_nth. rewrite <- key_zero. apply map_nth. }
    rewrite B. rewrite <- key_zero. destruct row; [|rewrite transpose_map|]; destruct sl; try (symmetry; apply fill_map); try reflexivity.
    all: symmetry; try apply fill_map; reflexivity.
Qed.

(** * C232 *)
(** The event of numbers that the event of doubles stands for. *)
Definition event_of (pmu : list fmom) : list mom := map stands_for pmu.
(** What rounding can blur in the distance [d] of the particles [i] and [j]. *)
Definition blur_between (k : R) (pmu : list fmom) (i j : nat) (d : R) : R :=
  ((2 * k + 2) * d + 4) * u + 101 / 100 * (eta_error k (nth i (event_of pmu) mzero) + eta_error k (nth j (event_of pmu) mzero)).
(** The steps a user writes, on doubles. *)
Definition f_radius_graph (hypot atan2 : f64 -> f64 -> f64) (arctanh : f64 -> f64) (pmu : list fmom) (r : f64) (a : adjl bool) : Prop :=
  exists B, f_cut_adj (f_affinity hypot atan2 arctanh pmu) r "max" FFalse FFalse = Ok (FBools B) /\ from_matrix negb false B false false = Ok a.

Lemma f_aff_shape hypot atan2 arctanh pmu : shape (length pmu) (length pmu) (f_affinity hypot atan2 arctanh pmu).
Proof. apply shape_build. Qed.
Lemma f_aff_sym hypot atan2 arctanh pmu i j : at2 (f_affinity hypot atan2 arctanh pmu) i j = at2 (f_affinity hypot atan2 arctanh pmu) j i.
Proof.
  unfold f_affinity. rewrite !at2_build. rewrite Bool.andb_comm. destruct (_ && _)%bool; [|reflexivity]. f_equal. rewrite (Nat.eqb_sym j i).
  destruct (Nat.eqb_spec i j); [reflexivity|]. destruct (Nat.ltb_spec i j), (Nat.ltb_spec j i); try reflexivity; lia.
Qed.
Lemma f_aff_diag hypot atan2 arctanh pmu i : (i < length pmu)%nat -> at2 (f_affinity hypot atan2 arctanh pmu) i i = Some fzero.
Proof. intros H. unfold f_affinity. rewrite at2_build, Nat.eqb_refl. destruct (Nat.ltb_spec i (length pmu)); [reflexivity | lia]. Qed.

Lemma separated_sym l i j d : (forall p, In p l -> 0 < pt_sq p) -> separated l i j d -> separated l j i d.
Proof.
  intros PT (p & q & g & Hp & Hq & G & ->). destruct (call_exists true true l l) as (M & HM). destruct (C65_delta_R_aff l M HM) as (_ & SYM & _).
  destruct (aff_entry l M i j p q HM PT Hp Hq) as (g1 & G1 & A1). destruct (aff_entry l M j i q p HM PT Hq Hp) as (g2 & G2 & A2).
  rewrite SYM in A2. rewrite A1 in A2. injection A2 as A2. exists q, p, g2. do 2 (split; [assumption|]). split; [exact G2|].
  replace g with g1; [exact A2|]. eapply gap_unique; [apply PT; eapply nth_error_In, Hp | apply PT; eapply nth_error_In, Hq | exact G1 | exact G].
Qed.
Lemma event_pt k pmu : (forall p, In p pmu -> prunable k p) -> forall p, In p (event_of pmu) -> 0 < pt_sq p.
Proof. intros H p I. apply in_map_iff in I as (w & <- & I). destruct (H w I) as (M & _). apply (measured_pt _ _ _ M). Qed.

(** Every entry off the diagonal is finite and near the exact distance. *)
Lemma f_aff_entry hypot atan2 arctanh k : 1 <= k <= 1000 -> good_hypot k hypot -> good_atan2 k atan2 -> good_atanh k arctanh ->
  forall pmu, (forall p, In p pmu -> prunable k p) -> forall i j d, i <> j -> separated (event_of pmu) i j d ->
  exists x, at2 (f_affinity hypot atan2 arctanh pmu) i j = Some x /\ fin x /\ Rabs (val x - d) <= blur_between k pmu i j d.
Proof.
  intros K GH GA GT pmu HP.
  assert (L : forall i j d, (i < j)%nat -> separated (event_of pmu) i j d -> exists x, at2 (f_affinity hypot atan2 arctanh pmu) i j = Some x /\ fin x /\ Rabs (val x - d) <= blur_between k pmu i j d).
  { intros i j d LT (p & q & g & Hp & Hq & G & ->). unfold blur_between. rewrite (nth_error_nth _ _ mzero Hp), (nth_error_nth _ _ mzero Hq).
    unfold event_of in Hp, Hq. rewrite nth_error_map' in Hp, Hq. destruct (nth_error pmu i) as [a|] eqn:Ha; [|discriminate]. destruct (nth_error pmu j) as [b|] eqn:Hb; [|discriminate].
    cbn [option_map] in Hp, Hq. injection Hp as <-. injection Hq as <-. destruct (HP a (nth_error_In _ _ Ha)) as (MA & CA). destruct (HP b (nth_error_In _ _ Hb)) as (MB & CB).
    eexists. split.
    - unfold f_affinity. rewrite at2_build. assert (i < length pmu)%nat by (apply nth_error_Some; congruence). assert (j < length pmu)%nat by (apply nth_error_Some; congruence).
      destruct (Nat.ltb_spec i (length pmu)); [|lia]. destruct (Nat.ltb_spec j (length pmu)); [|lia]. cbn [andb]. destruct (Nat.eqb_spec i j); [lia|]. destruct (Nat.ltb_spec i j); [|lia].
      assert (N : forall (A : Type) (f : fmom -> A) z c w, nth_error pmu c = Some w -> nth c (map f pmu) z = f w) by (intros A f z c w Hw; apply nth_error_nth; rewrite nth_error_map', Hw; reflexivity).
      rewrite !(N _ _ _ _ _ Ha), !(N _ _ _ _ _ Hb). reflexivity.
    - apply (C216_accuracy hypot atan2 arctanh k K GH GA GT (mx a) (my a) (mz a) (mx b) (my b) (mz b) g MA MB); [exact G | exact CA | exact CB]. }
  intros i j d N S. destruct (Nat.lt_ge_cases i j) as [LT|GE]; [apply L; assumption|]. apply separated_sym in S; [|exact (event_pt k pmu HP)].
  destruct (L j i d ltac:(lia) S) as (x & A & F & B). exists x. rewrite f_aff_sym. split; [exact A|]. split; [exact F|]. unfold blur_between in *. rewrite Rplus_comm with (r1 := eta_error k (nth i _ _)). exact B.
Qed.
Lemma event_separated pmu i j : (i < length pmu)%nat -> (j < length pmu)%nat -> (forall p, In p (event_of pmu) -> 0 < pt_sq p) -> exists d, separated (event_of pmu) i j d /\ 0 <= d.
Proof.
  intros Hi Hj PT. destruct (call_exists true true (event_of pmu) (event_of pmu)) as (M & HM).
  destruct (aff_separated (event_of pmu) M i j HM PT) as (d & S & P & _); [unfold event_of; rewrite map_length; assumption..|]. eauto.
Qed.

(** On doubles the steps always succeed; the graph has no self loops, lists each edge once, row by row, and has the reverse of every edge;
    two particles are linked exactly when their exact distance is below the radius, if it is not within the rounding error of it. *)
Theorem C232_edges : forall hypot atan2 arctanh k, 1 <= k <= 1000 -> good_hypot k hypot -> good_atan2 k atan2 -> good_atanh k arctanh ->
  forall pmu r, (forall p, In p pmu -> prunable k p) -> fin r -> (Z.of_nat (length pmu) <= 2 ^ 31)%Z ->
  exists a, f_radius_graph hypot atan2 arctanh pmu r a /\ a_weights a = [] /\ Sorted.StronglySorted before (edges_of (a_data a)) /\ NoDup (edges_of (a_data a)) /\
    (forall u v, In (u, v) (edges_of (a_data a)) -> exists i j, u = Z.of_nat i /\ v = Z.of_nat j /\ i <> j /\ (i < length pmu)%nat /\ (j < length pmu)%nat) /\
    (forall u v, In (u, v) (edges_of (a_data a)) <-> In (v, u) (edges_of (a_data a))) /\
    forall i j d, i <> j -> separated (event_of pmu) i j d -> blur_between k pmu i j d < Rabs (d - val r) ->
      (In (Z.of_nat i, Z.of_nat j) (edges_of (a_data a)) <-> d < val r).
Proof.
  intros hypot atan2 arctanh k K GH GA GT pmu r HP FR Hn. set (n := length pmu) in *. set (M := f_affinity hypot atan2 arctanh pmu).
  pose proof (event_pt k pmu HP) as PT. assert (SM : shape n n (map (map key) M)) by (apply shape_map, f_aff_shape).
  destruct (C81_unweighted n (map (map key) M) (key r) "max"%string FFalse SM (or_introl eq_refl)) as (B & EB & SB & OFF & DI).
  assert (EF : f_cut_adj M r "max" FFalse FFalse = Ok (FBools B)).
  { pose proof (C231_cut M r "max" FFalse FFalse) as C. rewrite EB in C. destruct (f_cut_adj M r "max" FFalse FFalse) as [[B'|]|]; cbn [emb_res emb] in C; try discriminate. congruence. }
  destruct (bool_graph n B SB Hn) as (a & Ea & W & SS & IN). exists a. split; [exists B; split; assumption|]. split; [exact W|]. split; [exact SS|]. split; [apply before_NoDup, SS|].
  assert (IX : forall i j, at2 B i j = Some true -> (i < n)%nat /\ (j < n)%nat /\ i <> j).
  { intros i j T. unfold at2 in T. destruct (nth_error B i) as [row|] eqn:Er; [|discriminate]. destruct SB as (LB & FB). assert (i < n)%nat by (rewrite <- LB; apply nth_error_Some; congruence).
    rewrite Forall_forall in FB. assert (j < n)%nat by (rewrite <- (FB _ (nth_error_In _ _ Er)); apply nth_error_Some; congruence). split; [assumption|]. split; [assumption|].
    intros ->. specialize (DI j ltac:(assumption)). unfold at2 in DI. rewrite Er in DI. congruence. }
  assert (VAL : forall i j x, i <> j -> at2 M i j = Some x -> exists b, at2 B i j = Some b /\ (b = true <-> flt x r = true)).
  { intros i j x N Hx. destruct (OFF i j (key x) N ltac:(rewrite at2_map, Hx; reflexivity)) as (b & Eb & Hb). exists b. split; [exact Eb|]. rewrite Hb. unfold on_side. cbn [String.eqb Ascii.eqb Bool.eqb].
    rewrite key_flt. symmetry. apply eltb_spec. }
  assert (HALF : forall u v, In (u, v) (edges_of (a_data a)) -> In (v, u) (edges_of (a_data a))).
  { intros u v I. apply IN in I as (i & j & -> & -> & T). apply IN. exists j, i. do 2 (split; [reflexivity|]). destruct (IX i j T) as (Li & Lj & N).
    destruct (at2_shape n n M i j (f_aff_shape _ _ _ _) Li Lj) as (x & Hx). destruct (VAL i j x N Hx) as (b & Eb & Hb). unfold M in Hx. rewrite f_aff_sym in Hx.
    destruct (VAL j i x ltac:(congruence) Hx) as (b' & Eb' & Hb'). rewrite Eb'. f_equal. apply Hb', Hb. congruence. }
  split; [|split].
  - intros u v I. apply IN in I as (i & j & -> & -> & T). destruct (IX i j T) as (Li & Lj & N). exists i, j. tauto.
  - intros u v. split; apply HALF.
  - intros i j d N S BL. destruct (f_aff_entry hypot atan2 arctanh k K GH GA GT pmu HP i j d N S) as (x & Hx & Fx & Ax). destruct (VAL i j x N Hx) as (b & Eb & Hb). rewrite flt_ok in Hb by assumption.
    transitivity (b = true).
    + rewrite IN. split.
      * intros (i' & j' & E1 & E2 & T). apply Nat2Z.inj in E1. apply Nat2Z.inj in E2. subst i' j'. congruence.
      * intros ->. exists i, j. tauto.
    + rewrite Hb. apply Rabs_le_inv in Ax. unfold Rabs in BL. destruct (Rcase_abs (d - val r)); split; intros; lra.
Qed.

(** If no distance is that close to the radius, it is the graph of the exact distances. *)
Theorem C232_same : forall hypot atan2 arctanh k, 1 <= k <= 1000 -> good_hypot k hypot -> good_atan2 k atan2 -> good_atanh k arctanh ->
  forall pmu r a b, (forall p, In p pmu -> prunable k p) -> fin r -> (Z.of_nat (length pmu) <= 2 ^ 31)%Z ->
  (forall i j d, i <> j -> separated (event_of pmu) i j d -> blur_between k pmu i j d < Rabs (d - val r)) ->
  f_radius_graph hypot atan2 arctanh pmu r a -> radius_graph (event_of pmu) (val r) b -> edges_of (a_data a) = edges_of (a_data b).
Proof.
  intros hypot atan2 arctanh k K GH GA GT pmu r a b HP FR Hn BL HA HB.
  destruct (C232_edges hypot atan2 arctanh k K GH GA GT pmu r HP FR Hn) as (a' & HA' & _ & SS & _ & IX & _ & H).
  assert (a' = a) as ->. { destruct HA as (B & E & F). destruct HA' as (B' & E' & F'). congruence. }
  pose proof (event_pt k pmu HP) as PT. destruct (C229_edges (event_of pmu) (val r) PT) as (_ & C); [unfold event_of; rewrite map_length; exact Hn|].
  destruct (C b HB) as (_ & SS' & _ & IN & _). apply before_ext; [exact SS | exact SS'|]. intros (x, y). rewrite IN. split.
  - intros I. destruct (IX x y I) as (i & j & -> & -> & N & Li & Lj). destruct (event_separated pmu i j Li Lj PT) as (d & S & _). exists i, j. do 2 (split; [reflexivity|]). split; [exact N|].
    exists d. split; [exact S|]. apply (H i j d N S (BL i j d N S)), I.
  - intros (i & j & -> & -> & N & d & S & LT). apply (H i j d N S (BL i j d N S)), LT.
Qed.

(** * C233 *)
(** The steps for the k nearest neighbours, on doubles. *)
Definition f_knn_graph (hypot atan2 : f64 -> f64 -> f64) (arctanh : f64 -> f64) (pmu : list fmom) (k : nat) (a : adjl bool) : Prop :=
  exists G, f_knn_adj (f_affinity hypot atan2 arctanh pmu) (Z.of_nat k) FFalse FFalse FTrue (Ok (FBools G)) /\ from_matrix negb false G false false = Ok a.

(** Particles further apart than rounding: the graph exists, each particle is the target of exactly [n] edges from n other particles, and
    none of those is further than one left out, beyond rounding. *)
Theorem C233_knn : forall hypot atan2 arctanh k, 1 <= k <= 1000 -> good_hypot k hypot -> good_atan2 k atan2 -> good_atanh k arctanh ->
  forall pmu n, (forall p, In p pmu -> prunable k p) -> (Z.of_nat (length pmu) <= 2 ^ 31)%Z -> (S n < length pmu)%nat ->
  (forall i j d, i <> j -> separated (event_of pmu) i j d -> blur_between k pmu i j d < d) ->
  (exists a, f_knn_graph hypot atan2 arctanh pmu n a) /\
  forall a, f_knn_graph hypot atan2 arctanh pmu n a -> Sorted.StronglySorted before (edges_of (a_data a)) /\
    forall j, (j < length pmu)%nat -> exists near, NoDup near /\ length near = n /\ (forall i, In i near -> (i < length pmu)%nat /\ i <> j) /\
      Permutation (filter (fun e => Z.eqb (snd e) (Z.of_nat j)) (edges_of (a_data a))) (map (fun i => (Z.of_nat i, Z.of_nat j)) near) /\
      forall i i' d d', In i near -> ~ In i' near -> i' <> j -> separated (event_of pmu) i j d -> separated (event_of pmu) i' j d' ->
        d <= d' + blur_between k pmu i j d + blur_between k pmu i' j d'.
Proof.
  intros hypot atan2 arctanh k K GH GA GT pmu n HP Hn Hk FAR. set (M := f_affinity hypot atan2 arctanh pmu). set (N := length pmu) in *.
  pose proof (event_pt k pmu HP) as PT. assert (SM : shape N N (map (map key) M)) by (apply shape_map, f_aff_shape).
  assert (ENT : forall i j d, i <> j -> separated (event_of pmu) i j d -> exists x, P_Matrix.entry (map (map key) M) i j = Fin x /\ Rabs (x - d) <= blur_between k pmu i j d).
  { intros i j d NE S. destruct (f_aff_entry hypot atan2 arctanh k K GH GA GT pmu HP i j d NE S) as (x & Hx & Fx & Ax). exists (val x). split; [|exact Ax].
    unfold P_Matrix.entry. rewrite at2_map. unfold M. rewrite Hx. cbn [option_map]. apply key_fin, Fx. }
  assert (SN : self_nearest N (map (map key) M)).
  { intros i j Hi Hj NE. destruct (event_separated pmu i j Hi Hj PT) as (d & S & _). destruct (ENT i j d NE S) as (x & -> & A). unfold P_Matrix.entry. rewrite at2_map. unfold M. rewrite f_aff_diag by exact Hj. cbn [option_map].
    rewrite key_zero. cbn [sort_le]. pose proof (FAR i j d NE S). apply Rabs_le_inv in A. lra. }
  split.
  - destruct (C231_knn M (Z.of_nat n) FFalse FFalse FTrue) as ((out & HO) & E). specialize (E out HO).
    destruct (C83_others N (map (map key) M) n FTrue DNone _ SM SN Hk E) as (nb & G & _ & EG & SG & _). destruct (bool_graph N G SG Hn) as (a & Ea & _).
    exists a, G. split; [|exact Ea]. destruct out as [[G'|]|]; cbn [emb_res emb] in EG; try discriminate. injection EG as ->. exact HO.
  - intros a (G' & HO & Ea). destruct (C231_knn M (Z.of_nat n) FFalse FFalse FTrue) as (_ & E). specialize (E _ HO). cbn [emb_res emb] in E.
    destruct (C83_others N (map (map key) M) n FTrue DNone _ SM SN Hk E) as (nb & G & NB & EG & SG & HG). injection EG as ->.
    destruct (bool_graph N G SG Hn) as (a' & Ea' & _ & SS & IN). assert (a' = a) as -> by congruence. split; [exact SS|]. intros j Hj. exists (nb j). destruct (NB j Hj) as (ND & LN & RG & MIN).
    split; [exact ND|]. split; [exact LN|]. split; [exact RG|]. split.
    + apply NoDup_Permutation.
      * apply NoDup_filter, before_NoDup, SS.
      * apply FinFun.Injective_map_NoDup; [|exact ND]. intros x y E0. injection E0 as E0. apply Nat2Z.inj in E0. exact E0.
      * intros (x, y). rewrite filter_In, IN, in_map_iff. cbn [snd]. split.
        -- intros ((i & j' & -> & -> & T) & E0). apply Z.eqb_eq, Nat2Z.inj in E0. subst j'. exists i. split; [reflexivity|].
           assert (Li : (i < N)%nat). { unfold at2 in T. destruct SG as (L & _). rewrite <- L. apply nth_error_Some. intros E1. rewrite E1 in T. discriminate. }
           destruct (HG i j Li Hj) as (b & Eb & Hb). cbn [link] in Eb. rewrite T in Eb. injection Eb as <-. apply Hb. reflexivity.
        -- intros (i & E0 & Hi). injection E0 as <- <-. split; [|apply Z.eqb_refl]. exists i, j. do 2 (split; [reflexivity|]). destruct (RG i Hi) as (Li & _).
           destruct (HG i j Li Hj) as (b & Eb & Hb). cbn [link] in Eb. rewrite Eb. f_equal. apply Hb, Hi.
    + intros i i' d d' Hi Hi' Ni SD SD'. destruct (RG i Hi) as (Li & NE).
      assert (Li' : (i' < N)%nat). { destruct SD' as (p & q & g & Hp & _). unfold event_of in Hp. rewrite nth_error_map' in Hp. apply nth_error_Some. intros E0. rewrite E0 in Hp. discriminate. }
      specialize (MIN i i' Hi Li' Ni Hi'). destruct (ENT i j d NE SD) as (x & E1 & A1). destruct (ENT i' j d' Ni SD') as (x' & E2 & A2). rewrite E1, E2 in MIN. cbn [sort_le] in MIN.
      apply Rabs_le_inv in A1. apply Rabs_le_inv in A2. lra.
Qed.

(** * Cases: the same three particles as C229, in doubles. *)
Definition three_doubles : list fmom := [(fone, fzero, fzero, fone); (fzero, fone, fzero, fone); (fneg fone, fzero, fzero, fone)].
Lemma fone_val : val fone = 1 /\ fin fone. Proof. exact (lit_int 1 ltac:(lia)). Qed.
Lemma three_event : event_of three_doubles = [Mom 1 0 0 0; Mom 0 1 0 0; Mom (-1) 0 0 0].
Proof.
  destruct fone_val as (V & F). unfold event_of, three_doubles, stands_for, exactly, mx, my, mz. cbn [map fst snd].
  change (val fzero) with 0. rewrite (fneg_ok fone), V. reflexivity.
Qed.
Lemma separated_energy l l' : Forall2 (fun p q => px p = px q /\ py p = py q /\ pz p = pz q) l l' -> forall i j d, separated l i j d -> separated l' i j d.
Proof.
  intros H i j d (p & q & g & Hp & Hq & G & ->).
  assert (N : forall i p, nth_error l i = Some p -> exists p', nth_error l' i = Some p' /\ px p = px p' /\ py p = py p' /\ pz p = pz p').
  { clear - H. induction H as [|a b l l' E H IH]; intros [|i] p Hp; cbn in *; try discriminate; [injection Hp as <-; eauto | apply IH, Hp]. }
  destruct (N i p Hp) as (p' & Hp' & P1 & P2 & P3). destruct (N j q Hq) as (q' & Hq' & Q1 & Q2 & Q3).
  exists p', q', g. do 2 (split; [assumption|]). split; [unfold azimuth_gap in *; rewrite <- P1, <- P2, <- Q1, <- Q2; exact G|]. unfold pseudo_rap, p_sq. rewrite <- P1, <- P2, <- P3, <- Q1, <- Q2, <- Q3. reflexivity.
Qed.
Lemma three_doubles_dist i j d : i <> j -> separated (event_of three_doubles) i j d -> d = PI / 2 \/ d = PI.
Proof.
  intros N S. apply (three_dist i j d N). eapply separated_energy; [|exact S]. rewrite three_event. unfold three. repeat (constructor; [split; [reflexivity | split; reflexivity]|]). constructor.
Qed.
Lemma flat_error p : pz p = 0 -> p_sq p = 1 -> pt_sq p = 1 -> eta_error 2 p <= u.
Proof.
  intros Z P T. pose proof u_b as [U0 U1]. pose proof mn_pos as MN. destruct mn_tiny as [_ MU].
  assert (E0 : pseudo_rap p = 0). { unfold pseudo_rap. rewrite P, Z, sqrt_1. replace ((1 + 0) / (1 - 0)) with 1 by field. rewrite ln_1. ring. }
  unfold eta_error, collimation. rewrite E0, P, T, Z, sqrt_1, Rabs_R0. replace ((0 / 1 + min_normal) * (1 / 1)) with min_normal by field. rewrite Rplus_0_l.
  replace ((3 * 2 + 2) * u * min_normal + 2 * u * min_normal) with (u * (10 * min_normal)) by ring. apply Rle_trans with (u * 1); [apply Rmult_le_compat_l; lra | lra].
Qed.
Lemma three_prunable : forall p, In p three_doubles -> prunable 2 p.
Proof.
  destruct fone_val as (V & F). pose proof u_b as [U0 U1]. assert (P5 : 1 <= 2 ^ 500) by (apply pow_R1_Rle; lra). assert (I5 : / 2 ^ 500 <= 1) by (rewrite <- Rinv_1; apply Rinv_le_contravar; lra).
  assert (MO : modest fone) by (split; [exact F | rewrite V, Rabs_R1; exact P5]). assert (MZ : modest fzero) by (split; [reflexivity | change (val fzero) with 0; rewrite Rabs_R0; lra]).
  assert (VN : val (fneg fone) = -1) by (rewrite (fneg_ok fone), V; reflexivity).
  assert (MN : modest (fneg fone)) by (split; [apply fneg_fin, F | rewrite VN; replace (Rabs (-1)) with 1 by (unfold Rabs; destruct (Rcase_abs (-1)); lra); exact P5]).
  intros p [<-|[<-|[<-|[]]]]; unfold prunable, measured, usable, stands_for, collimation, p_sq, pt_sq, exactly, mx, my, mz, re, im; cbn [fst snd px py pz]; change (val fzero) with 0; rewrite ?V, ?VN;
    (split; [split; [split; [assumption | split; [assumption|]] | assumption] |]).
  1,3,5: match goal with |- _ <= sqrt ?x => replace x with 1 by ring end; rewrite sqrt_1; exact I5.
  all: match goal with |- _ * (?x / ?y) <= _ => replace x with 1 by ring; replace y with 1 by ring end; lra.
Qed.
Lemma three_blur i j d : separated (event_of three_doubles) i j d -> 0 <= d <= 4 -> blur_between 2 three_doubles i j d <= 40 * u.
Proof.
  intros S D. pose proof u_b as [U0 U1]. unfold blur_between.
  assert (E : forall c p, nth_error (event_of three_doubles) c = Some p -> eta_error 2 (nth c (event_of three_doubles) mzero) <= u).
  { intros c p Hc. rewrite three_event in *. destruct c as [|[|[|c]]]; [apply flat_error; unfold p_sq, pt_sq; cbn [nth px py pz]; ring..|destruct c; discriminate Hc]. }
  destruct S as (p & q & g & Hp & Hq & _). specialize (E i p Hp) as Ei. specialize (E j q Hq) as Ej.
  assert (((2 * 2 + 2) * d + 4) * u <= 28 * u) by (apply Rmult_le_compat_r; lra). lra.
Qed.

(** Library routines accurate to 2 units, the three particles, the radius 5/2: no distance (pi/2, pi) is near the radius or 0. *)
Example C232_case : good_hypot 2 ref_hypot /\ good_atan2 2 ref_atan2 /\ good_atanh 2 ref_atanh /\ (forall p, In p three_doubles -> prunable 2 p) /\ fin (lit 5 (-1)) /\ val (lit 5 (-1)) = 5 / 2 /\
  (forall i j d, i <> j -> separated (event_of three_doubles) i j d -> blur_between 2 three_doubles i j d < Rabs (d - val (lit 5 (-1))) /\ blur_between 2 three_doubles i j d < d) /\
  separated (event_of three_doubles) 0 1 (PI / 2) /\ separated (event_of three_doubles) 0 2 PI.
Proof.
  split; [intros a b Fa Fb H; destruct (ref_hypot_good a b Fa Fb H) as (G1 & G2); split; [exact G1 | apply close_up, G2]|].
  split; [intros y x Fy Fx H; destruct (ref_atan2_good y x Fy Fx H) as (G1 & G2); split; [exact G1 | intros a Ha; apply close_up, G2, Ha]|].
  split; [intros t Ft H; destruct (ref_atanh_good t Ft H) as (G1 & G2); split; [exact G1 | apply close_up, G2]|].
  split; [exact three_prunable|]. destruct (lit_ok 5 (-1) ltac:(lia) ltac:(lia)) as (V & F). change (bpow radix2 (-1)) with (/ 2) in V. replace (5 * / 2) with (5 / 2) in V by lra. split; [exact F|]. split; [exact V|].
  pose proof PI_4. assert (P3 : 3 < PI) by (pose proof PI2_3_2; lra). pose proof u_b as [U0 U1]. split.
  - intros i j d N S. rewrite V. pose proof (three_doubles_dist i j d N S) as D.
    assert (B : blur_between 2 three_doubles i j d <= 40 * u) by (apply three_blur; [exact S | destruct D; lra]).
    destruct D as [-> | ->]; (split; [unfold Rabs; destruct (Rcase_abs _); lra | lra]).
  - destruct three_all as (S01 & _ & _ & _ & _ & S02).
    split; (eapply separated_energy; [|eassumption]); rewrite three_event; unfold three; repeat (constructor; [split; [reflexivity | split; reflexivity]|]); constructor.
Qed.
Print Assumptions C231_cut.
Print Assumptions C231_knn.
Print Assumptions C232_edges.
Print Assumptions C232_same.
Print Assumptions C233_knn.
