(** Property theorems about operators on the particle data arrays: C105-C115. *)
From Verif Require Import Prelude Dict Keys MaskTypes SpecArray Arrays ArraysProofs ArrayOps.

Lemma bc_same {A B C} (f : A -> B -> C) x y : length x = length y -> bc f x y = Ok (map2 f x y).
Proof. intros H. unfold bc. rewrite H, Nat.eqb_refl. reflexivity. Qed.

Lemma bc_err {A B C} (f : A -> B -> C) x y :
  length x <> length y -> length x <> 1 -> length y <> 1 -> bc f x y = Err ValueError.
Proof.
  intros H H1 H2. unfold bc. destruct (Nat.eqb_spec (length x) (length y)); [contradiction|].
  destruct x as [|a [|a' x]], y as [|b [|b' y]]; cbn in *; try lia; try reflexivity.
Qed.

Lemma map2_idem {A B C} (g : C -> C) (f : A -> B -> C) x y :
  map g (map2 f x y) = map2 (fun a b => g (f a b)) x y.
Proof. revert y; induction x as [|a x IH]; intros [|b y]; cbn; auto. f_equal. apply IH. Qed.

Lemma map2_ext {A B C} (f g : A -> B -> C) x y : (forall a b, f a b = g a b) -> map2 f x y = map2 g x y.
Proof. intros H. revert y; induction x as [|a x IH]; intros [|b y]; cbn; auto. f_equal; auto. Qed.

Lemma mapM_bc_same {A B C} (f : A -> B -> C) c (x : list (list A)) (y : list (list B)) :
  Forall (fun r => length r = c) x -> Forall (fun r => length r = c) y -> length x = length y ->
  (ps <- bc pair x y ;; mapM (fun p => bc f (fst p) (snd p)) ps) = Ok (map2 (map2 f) x y).
Proof.
  intros HX HY HL. rewrite bc_same by exact HL. cbn [bind].
  revert y HY HL; induction HX as [|r x Hr HX IH]; intros [|s y] HY HL; cbn in HL; try discriminate; [reflexivity|].
  inversion HY as [|? ? Hs HY']; subst. cbn [map2 mapM fst snd]. rewrite bc_same by congruence. cbn [bind].
  rewrite IH by (auto; lia). reflexivity.
Qed.

Lemma nd_bin_mat {A B C} (f : A -> B -> C) c (x : list (list A)) (y : list (list B)) :
  Forall (fun r => length r = c) x -> Forall (fun r => length r = c) y -> length x = length y ->
  nd_bin f (Mat c x) (Mat c y) = Ok (Mat c (map2 (map2 f) x y)).
Proof.
  intros HX HY HL. unfold nd_bin, bdim. rewrite Nat.eqb_refl. cbn [bind].
  pose proof (mapM_bc_same f c x y HX HY HL) as H.
  destruct (bc pair x y) as [ps|e]; cbn [bind] in *; [|discriminate]. rewrite H. reflexivity.
Qed.

Lemma map2_rows {A B C} (f : A -> B -> C) c x y :
  Forall (fun r => length r = c) x -> Forall (fun r => length r = c) y ->
  Forall (fun r => length r = c) (map2 (map2 f) x y).
Proof.
  intros HX; revert y; induction HX as [|r x Hr HX IH]; intros y HY; [constructor|].
  destruct HY as [|s y Hs HY]; [constructor|]. cbn [map2]. constructor; [|auto].
  rewrite map2_length, Hr, Hs. apply Nat.min_id.
Qed.

Lemma pmu_new_rows {A} (rows : list (list A)) :
  Forall (fun r => length r = 4) rows -> pmu_new (Plain (Mat 4 rows)) = Ok (Mat 4 rows).
Proof.
  intros H. unfold pmu_new, converter, to_plain. cbn [bind]. rewrite nd_map_id. cbn [check_shape Nat.eqb negb].
  rewrite andb_false_r. cbn [bind]. apply reshape_mat; [lia | exact H].
Qed.

Lemma flat_new_idem w l : (w = wrap32 \/ w = wrap16) ->
  converter w 1 (Plain (Vec (map w l))) = Ok (Vec (map w l)).
Proof.
  intros H. unfold converter, to_plain. cbn [bind nd_map check_shape Nat.eqb]. rewrite map_map.
  do 2 f_equal. apply map_ext. intros z. destruct H as [->| ->]; [apply wrap32_idem | apply wrap16_idem].
Qed.

(** * C105 operators keep the class and act element by element *)

(** Two arrays of one flat class: same class, element by element; the stored
    value is the exact result whenever that fits the storage type. *)
Theorem C105_flat_arrays : forall (f : Z -> Z -> Z) (x y : list Z), length x = length y ->
  (exists r, pdg_arith f (Vec x) (OArr (Vec y)) = Ok (UArr (Vec r)) /\ length r = length x /\
     forall i a b, nth_error x i = Some a -> nth_error y i = Some b -> fits32 (f a b) ->
       nth_error r i = Some (f a b)) /\
  (exists r, helicity_arith f (Vec x) (OArr (Vec y)) = Ok (UArr (Vec r)) /\
     status_arith f (Vec x) (OArr (Vec y)) = Ok (UArr (Vec r)) /\ length r = length x /\
     forall i a b, nth_error x i = Some a -> nth_error y i = Some b -> fits16 (f a b) ->
       nth_error r i = Some (f a b)).
Proof.
  intros f x y H. unfold pdg_arith, helicity_arith, status_arith, ufunc_arith, nd_bin.
  rewrite !bc_same by exact H. cbn [bind]. unfold pdg_new, helicity_new, status_new.
  rewrite <- !map2_idem. rewrite !flat_new_idem by auto. cbn [bind].
  split; eexists; repeat split; rewrite ?map_length, ?map2_length, ?H, ?Nat.min_id; auto;
    intros i a b Ha Hb Hf; rewrite nth_error_map', map2_nth, Ha, Hb; cbn [option_map];
    f_equal; [apply wrap32_id | apply wrap16_id]; exact Hf.
Qed.
Print Assumptions C105_flat_arrays.

(** An array of a flat class and a number. *)
Theorem C105_flat_scalar : forall (f : Z -> Z -> Z) (x : list Z) (s : Z),
  (exists r, pdg_arith f (Vec x) (ORaw (Sc s)) = Ok (UArr (Vec r)) /\ length r = length x /\
     forall i a, nth_error x i = Some a -> fits32 (f a s) -> nth_error r i = Some (f a s)) /\
  (exists r, helicity_arith f (Vec x) (ORaw (Sc s)) = Ok (UArr (Vec r)) /\
     status_arith f (Vec x) (ORaw (Sc s)) = Ok (UArr (Vec r)) /\ length r = length x /\
     forall i a, nth_error x i = Some a -> fits16 (f a s) -> nth_error r i = Some (f a s)).
Proof.
  intros f x s. unfold pdg_arith, helicity_arith, status_arith, ufunc_arith, nd_bin. cbn [bind nd_map].
  rewrite <- (map_map (fun a => f a s) wrap32), <- (map_map (fun a => f a s) wrap16).
  unfold pdg_new, helicity_new, status_new. rewrite !flat_new_idem by auto. cbn [bind].
  split; eexists; repeat split; rewrite ?map_length; auto;
    intros i a Ha Hf; rewrite !nth_error_map', Ha; cbn [option_map];
    f_equal; [apply wrap32_id | apply wrap16_id]; exact Hf.
Qed.
Print Assumptions C105_flat_scalar.

(** Two momentum arrays of the same number of particles, or a momentum array
    and a number: the same number of particles, each component the result for
    that component. *)
Theorem C105_momentum : forall {A} (f : A -> A -> A) (x y : list (list A)) (s : A),
  Forall (fun r => length r = 4) x -> Forall (fun r => length r = 4) y ->
  (length x = length y -> exists r, pmu_arith f (Mat 4 x) (OArr (Mat 4 y)) = Ok (UArr (Mat 4 r)) /\
     length r = length x /\
     forall i j p q a b, nth_error x i = Some p -> nth_error y i = Some q ->
       nth_error p j = Some a -> nth_error q j = Some b ->
       exists t, nth_error r i = Some t /\ nth_error t j = Some (f a b)) /\
  (exists r, pmu_arith f (Mat 4 x) (ORaw (Sc s)) = Ok (UArr (Mat 4 r)) /\ length r = length x /\
     forall i j p a, nth_error x i = Some p -> nth_error p j = Some a ->
       exists t, nth_error r i = Some t /\ nth_error t j = Some (f a s)).
Proof.
  intros A f x y s HX HY. split.
  - intros HL. exists (map2 (map2 f) x y). unfold pmu_arith, ufunc_arith.
    rewrite (nd_bin_mat f 4 x y HX HY HL). cbn [bind].
    rewrite pmu_new_rows by (apply map2_rows; assumption). cbn [bind].
    split; [reflexivity|]. split; [rewrite map2_length, HL; apply Nat.min_id|].
    intros i j p q a b Hp Hq Ha Hb. exists (map2 f p q). rewrite !map2_nth, Hp, Hq, Ha, Hb. auto.
  - exists (map (map (fun a => f a s)) x). unfold pmu_arith, ufunc_arith, nd_bin. cbn [nd_map bind].
    rewrite pmu_new_rows.
    + cbn [bind]. split; [reflexivity|]. split; [apply map_length|].
      intros i j p a Hp Ha. exists (map (fun a => f a s) p). rewrite !nth_error_map', Hp, Ha. auto.
    + apply Forall_forall. intros r Hr. apply in_map_iff in Hr as (t & <- & Ht). rewrite map_length.
      rewrite Forall_forall in HX. apply HX; exact Ht.
Qed.
Print Assumptions C105_momentum.

(** Arrays of different lengths, neither of length one, do not combine. *)
Theorem C105_lengths_must_agree : forall {A} (f : A -> A -> A) (g : Z -> Z -> Z) (x y : list (list A)) (u v : list Z),
  length x <> length y -> length x <> 1 -> length y <> 1 ->
  length u <> length v -> length u <> 1 -> length v <> 1 ->
  pmu_arith f (Mat 4 x) (OArr (Mat 4 y)) = Err ValueError /\
  pdg_arith g (Vec u) (OArr (Vec v)) = Err ValueError /\
  helicity_arith g (Vec u) (OArr (Vec v)) = Err ValueError /\
  status_arith g (Vec u) (OArr (Vec v)) = Err ValueError.
Proof.
  intros. unfold pmu_arith, pdg_arith, helicity_arith, status_arith, ufunc_arith, nd_bin, bdim.
  rewrite !bc_err by assumption. auto.
Qed.
Print Assumptions C105_lengths_must_agree.

(** Unary operators. *)
Theorem C105_unary : forall {A} (f : A -> A) (g : Z -> Z) (x : list (list A)) (u : list Z),
  Forall (fun r => length r = 4) x ->
  pmu_unary f (Mat 4 x) = Ok (UArr (Mat 4 (map (map f) x))) /\
  exists r, pdg_unary g (Vec u) = Ok (UArr (Vec r)) /\ length r = length u /\
    forall i a, nth_error u i = Some a -> fits32 (g a) -> nth_error r i = Some (g a).
Proof.
  intros A f g x u HX. unfold pmu_unary, pdg_unary, ufunc_unary. cbn [nd_map]. split.
  - rewrite pmu_new_rows; [reflexivity|]. apply Forall_forall. intros r Hr.
    apply in_map_iff in Hr as (t & <- & Ht). rewrite map_length. rewrite Forall_forall in HX. apply HX; exact Ht.
  - rewrite <- (map_map g wrap32). unfold pdg_new. rewrite flat_new_idem by auto. cbn [bind].
    eexists. split; [reflexivity|]. rewrite !map_length. split; [reflexivity|].
    intros i a Ha Hf. rewrite !nth_error_map', Ha. cbn. f_equal. apply wrap32_id; exact Hf.
Qed.
Print Assumptions C105_unary.

Example C105_case :
  pdg_arith Z.add (Vec [11; -13]%Z) (OArr (Vec [1; 1]%Z)) = Ok (UArr (Vec [12; -12]%Z)) /\
  pmu_arith Z.mul (Mat 4 [[1; 2; 3; 4]; [0; 1; 0; 1]]%Z) (ORaw (Sc 2%Z)) = Ok (UArr (Mat 4 [[2; 4; 6; 8]; [0; 2; 0; 2]]%Z)).
Proof. split; reflexivity. Qed.

(** * C106 ordering comparisons give masks *)

(** The expectation: comparing the components of a record array with a number
    gives some mask. *)
Definition comparisons_give_masks : Prop := forall (f : Z -> Z -> bool) (rows : list (list Z)) (s : Z),
  Forall (fun r => length r = 4) rows -> exists m, ufunc_cmp f (Mat 4 rows) (ORaw (Sc s)) = Ok m.

Theorem C190_momentum_comparison_refuted : ~ comparisons_give_masks.
Proof.
  intros H. destruct (H Z.ltb [[1; 2; 3; 4]]%Z 0%Z) as (m & Hm); [repeat constructor|]. discriminate Hm.
Qed.
Print Assumptions C190_momentum_comparison_refuted.

(** It never does, for any non-empty momentum or colour array. *)
Theorem C190_record_comparison_fails : forall {A} (f : A -> A -> bool) c (rows : list (list A)) s,
  1 < c -> rows <> [] -> ufunc_cmp f (Mat c rows) (ORaw (Sc s)) = Err ValueError.
Proof.
  intros A f c rows s Hc HN. unfold ufunc_cmp, nd_bin. cbn [nd_map bind].
  unfold mask_new, converter, to_plain. cbn [bind]. rewrite nd_map_id. cbn [check_shape].
  destruct (Nat.eqb_spec c 1) as [->|N]; [lia|]. rewrite map_length.
  destruct rows; [contradiction|]. reflexivity.
Qed.
Print Assumptions C190_record_comparison_fails.

(** The flat classes do give the mask of the elements satisfying it. *)
Theorem C106_flat_comparison : forall (f : Z -> Z -> bool) (x y : list Z) (s : Z),
  (exists m, ufunc_cmp f (Vec x) (ORaw (Sc s)) = Ok (Vec m) /\ length m = length x /\
     forall i a, nth_error x i = Some a -> nth_error m i = Some (f a s)) /\
  (length x = length y -> exists m, ufunc_cmp f (Vec x) (OArr (Vec y)) = Ok (Vec m) /\ length m = length x /\
     forall i a b, nth_error x i = Some a -> nth_error y i = Some b -> nth_error m i = Some (f a b)).
Proof.
  intros f x y s. split.
  - exists (map (fun a => f a s) x). unfold ufunc_cmp, nd_bin. cbn [nd_map bind].
    unfold mask_new, converter, to_plain. cbn [bind]. rewrite nd_map_id. cbn [check_shape Nat.eqb].
    split; [reflexivity|]. split; [apply map_length|]. intros i a Ha. rewrite nth_error_map', Ha. reflexivity.
  - intros H. exists (map2 f x y). unfold ufunc_cmp, nd_bin. rewrite bc_same by exact H. cbn [bind].
    unfold mask_new, converter, to_plain. cbn [bind]. rewrite nd_map_id. cbn [check_shape Nat.eqb].
    split; [reflexivity|]. split; [rewrite map2_length, H; apply Nat.min_id|].
    intros i a b Ha Hb. rewrite map2_nth, Ha, Hb. reflexivity.
Qed.
Print Assumptions C106_flat_comparison.

Example C106_case : ufunc_cmp Z.ltb (Vec [-3; 7; 2]%Z) (ORaw (Sc 2%Z)) = Ok (Vec [true; false; false]).
Proof. reflexivity. Qed.

(** * C107 mixing classes *)

Definition classes_mix : Prop := forall (f : Z -> Z -> Z) (x y : list Z),
  length x = length y -> exists r, pdg_arith f (Vec x) (OOther (Vec y)) = Ok r.

Theorem C107_mixing_classes_refuted : ~ classes_mix.
Proof. intros H. destruct (H Z.add [1]%Z [2]%Z eq_refl) as (r & Hr). discriminate Hr. Qed.
Print Assumptions C107_mixing_classes_refuted.

(** No operator, ordering included, ever succeeds between two classes; flat
    arrays of equal length always end in AttributeError. *)
Theorem C107_mixing_never_works : forall {A} (f : A -> A -> A) (g : Z -> Z -> Z) (h : Z -> Z -> bool) x y u v,
  (forall r, pmu_arith f x (OOther y) <> Ok r) /\ (forall r, pdg_arith g u (OOther v) <> Ok r) /\
  (forall r, helicity_arith g u (OOther v) <> Ok r) /\ (forall r, status_arith g u (OOther v) <> Ok r) /\
  (forall r, ufunc_cmp h u (OOther v) <> Ok r).
Proof.
  intros A f g h x y u v. unfold pmu_arith, pdg_arith, helicity_arith, status_arith, ufunc_arith, ufunc_cmp.
  repeat split; intros r;
    match goal with |- context [nd_bin ?F ?X ?Y] => destruct (nd_bin F X Y) as [w|e]; cbn [bind]; [|discriminate] end;
    match goal with |- context [bind ?E _] => destruct E; cbn [bind]; discriminate end.
Qed.
Print Assumptions C107_mixing_never_works.

Theorem C107_mixing_flat_partial : forall (g : Z -> Z -> Z) (h : Z -> Z -> bool) (u v : list Z), length u = length v ->
  pdg_arith g (Vec u) (OOther (Vec v)) = Err AttributeError /\
  helicity_arith g (Vec u) (OOther (Vec v)) = Err AttributeError /\
  status_arith g (Vec u) (OOther (Vec v)) = Err AttributeError /\
  ufunc_cmp h (Vec u) (OOther (Vec v)) = Err AttributeError.
Proof.
  intros g h u v H. unfold pdg_arith, helicity_arith, status_arith, ufunc_arith, ufunc_cmp, nd_bin.
  rewrite !bc_same by exact H. cbn. auto.
Qed.
Print Assumptions C107_mixing_flat_partial.

(** * C108 one weight per particle *)

(** The expectation: multiplying a momentum array by one number per particle
    scales particle [i] by weight [i]. *)
Definition weights_scale_particles : Prop := forall (x : list (list Z)) (w : list Z),
  Forall (fun r => length r = 4) x -> length w = length x ->
  exists r, pmu_arith Z.mul (Mat 4 x) (ORaw (Vec w)) = Ok (UArr (Mat 4 r)) /\
    forall i p s, nth_error x i = Some p -> nth_error w i = Some s ->
      nth_error r i = Some (map (fun a => a * s)%Z p).

Theorem C108_weights_refuted : ~ weights_scale_particles.
Proof.
  intros H. destruct (H [[1; 2; 3; 4]; [1; 2; 3; 4]]%Z [1; 2]%Z) as (r & Hr & _); [repeat constructor | reflexivity|].
  discriminate Hr.
Qed.
Print Assumptions C108_weights_refuted.

(** What happens: a ValueError unless there are one or four particles (or
    none); with four the weights scale the components instead. *)
Theorem C108_weights_partial : forall {A} (f : A -> A -> A) (x : list (list A)) (w : list A),
  Forall (fun r => length r = 4) x -> length w = length x ->
  (length x <> 1 -> length x <> 4 -> pmu_arith f (Mat 4 x) (ORaw (Vec w)) = Err ValueError) /\
  (forall s, w = [s] -> pmu_arith f (Mat 4 x) (ORaw (Vec w)) = Ok (UArr (Mat 4 (map (map (fun a => f a s)) x)))) /\
  (length x = 4 -> pmu_arith f (Mat 4 x) (ORaw (Vec w)) = Ok (UArr (Mat 4 (map (fun p => map2 f p w) x)))).
Proof.
  intros A f x w HX HW. unfold pmu_arith, ufunc_arith, nd_bin, bdim. repeat split.
  - intros H1 H4. rewrite HW. destruct (Nat.eqb_spec 4 (length x)); [lia|]. cbn [Nat.eqb].
    destruct (Nat.eqb_spec (length x) 1); [contradiction|]. reflexivity.
  - intros s ->. cbn [length Nat.eqb bind].
    assert (E : mapM (fun l => bc f l [s]) x = Ok (map (map (fun a => f a s)) x)).
    { clear HW. induction HX as [|r x Hr HX IH]; [reflexivity|]. cbn [mapM map]. unfold bc at 1. rewrite Hr. cbn [length Nat.eqb].
      destruct r as [|r1 [|r2 r]]; cbn in Hr; try discriminate. cbn [bind]. rewrite IH. reflexivity. }
    rewrite E. cbn [bind]. rewrite pmu_new_rows; [reflexivity|].
    apply Forall_forall. intros r Hr. apply in_map_iff in Hr as (t & <- & Ht). rewrite map_length.
    rewrite Forall_forall in HX. apply HX; exact Ht.
  - intros H4. rewrite HW, H4. cbn [Nat.eqb bind]. rewrite H4 in HW.
    assert (E : mapM (fun l => bc f l w) x = Ok (map (fun p => map2 f p w) x)).
    { clear H4. induction HX as [|r x Hr HX IH]; [reflexivity|]. cbn [mapM map]. rewrite bc_same by congruence. cbn [bind].
      rewrite IH. reflexivity. }
    rewrite E. cbn [bind]. rewrite pmu_new_rows; [reflexivity|].
    apply Forall_forall. intros r Hr. apply in_map_iff in Hr as (t & <- & Ht). rewrite map2_length, HW.
    rewrite Forall_forall in HX. rewrite (HX t Ht). reflexivity.
Qed.
Print Assumptions C108_weights_partial.

(** * C109 sums *)

Lemma fold_rows_nth {A} (add : A -> A -> A) zero c rows j : j < c ->
  Forall (fun r => length r = c) rows ->
  length (fold_right (map2 add) (repeat zero c) rows) = c /\
  nth_error (fold_right (map2 add) (repeat zero c) rows) j
  = Some (fold_right add zero (map (fun r => nth j r zero) rows)).
Proof.
  intros Hj H. induction H as [|r rows Hr H [IH1 IH2]]; cbn [fold_right map].
  - rewrite repeat_length. split; [reflexivity|]. apply nth_error_repeat; exact Hj.
  - rewrite map2_length, IH1, Hr, Nat.min_id. split; [reflexivity|].
    rewrite map2_nth, IH2, (nth_error_nth' r zero) by lia. reflexivity.
Qed.

(** [np.sum(pmu, axis=0)]: one momentum whose components are the totals;
    [axis=1]: one bare number per particle; no axis: one bare number. *)
Theorem C109_momentum_sum : forall {A} (add : A -> A -> A) (zero : A) (rows : list (list A)),
  Forall (fun r => length r = 4) rows ->
  (exists t, pmu_sum add zero (Some 0%Z) (Mat 4 rows) = Ok (UArr (Mat 4 [t])) /\ length t = 4 /\
     forall j, j < 4 -> nth_error t j = Some (fold_right add zero (map (fun r => nth j r zero) rows))) /\
  pmu_sum add zero (Some 1%Z) (Mat 4 rows) = Ok (URaw (Vec (map (fold_right add zero) rows))) /\
  pmu_sum add zero None (Mat 4 rows) = Ok (URaw (Sc (fold_right add zero (concat rows)))).
Proof.
  intros A add zero rows H. split; [|split; reflexivity].
  pose proof (fun j Hj => fold_rows_nth add zero 4 rows j Hj H) as F.
  exists (fold_right (map2 add) (repeat zero 4) rows).
  destruct (F 0) as [FL _]; [lia|].
  split; [|split; [exact FL | intros j Hj; apply F; exact Hj]].
  unfold pmu_sum, ufunc_sum. cbn [np_sum Z.eqb orb bind].
  set (t := fold_right (map2 add) (repeat zero 4) rows) in *.
  destruct t as [|a [|b [|c [|d [|]]]]]; cbn in FL; try discriminate. reflexivity.
Qed.
Print Assumptions C109_momentum_sum.

(** [np.sum] of a flat array is the total, of a mask the number of True
    entries, as plain numbers. *)
Theorem C109_flat_sum : forall (x : list Z) (m : list bool),
  flat_sum x = Ok (URaw (Sc (fold_right Z.add 0%Z x))) /\
  mask_sum m = Ok (URaw (Sc (Z.of_nat (length (filter (fun b => b) m))))).
Proof.
  intros x m. split; [reflexivity|]. unfold mask_sum, ufunc_sum. cbn [np_sum elems bind].
  do 3 f_equal. induction m as [|[] m IH]; cbn [map fold_right filter length]; [reflexivity| |]; rewrite ?IH; lia.
Qed.
Print Assumptions C109_flat_sum.

Example C109_case : pmu_sum Z.add 0%Z (Some 0%Z) (Mat 4 [[1; 2; 3; 4]; [10; 20; 30; 40]]%Z)
  = Ok (UArr (Mat 4 [[11; 22; 33; 44]]%Z)).
Proof. reflexivity. Qed.

(** * C110 axis -1 *)

Definition last_axis_is_axis_one : Prop := forall rows : list (list Z),
  Forall (fun r => length r = 4) rows ->
  pmu_sum Z.add 0%Z (Some (-1)%Z) (Mat 4 rows) = pmu_sum Z.add 0%Z (Some 1%Z) (Mat 4 rows).

Theorem C110_last_axis_refuted : ~ last_axis_is_axis_one.
Proof.
  intros H. specialize (H [[1; 2; 3; 4]]%Z ltac:(repeat constructor)). discriminate H.
Qed.
Print Assumptions C110_last_axis_refuted.

(** [axis=-1]: ValueError, except that four per-particle sums are taken for
    the four components of one momentum and no particles give no particles. *)
Theorem C110_last_axis_partial : forall {A} (add : A -> A -> A) (zero : A) (rows : list (list A)),
  (length rows <> 0 -> length rows <> 4 -> pmu_sum add zero (Some (-1)%Z) (Mat 4 rows) = Err ValueError) /\
  (length rows = 4 -> pmu_sum add zero (Some (-1)%Z) (Mat 4 rows)
                      = Ok (UArr (Mat 4 [map (fold_right add zero) rows]))) /\
  (rows = [] -> pmu_sum add zero (Some (-1)%Z) (Mat 4 rows) = Ok (UArr (Mat 4 []))).
Proof.
  intros A add zero rows. unfold pmu_sum, ufunc_sum. cbn [np_sum Z.eqb Pos.eqb orb bind]. repeat split.
  - intros H0 H4. unfold pmu_new, converter, to_plain. cbn [bind]. rewrite nd_map_id. cbn [check_shape Nat.eqb].
    rewrite map_length. destruct (Nat.eqb_spec (length rows) 0); [contradiction|].
    destruct (Nat.eqb_spec (length rows) 4); [contradiction|]. reflexivity.
  - intros H4. destruct rows as [|a [|b [|c [|d [|]]]]]; cbn in H4; try discriminate. reflexivity.
  - intros ->. reflexivity.
Qed.
Print Assumptions C110_last_axis_partial.

(** * C111 division of integer arrays *)

Definition division_is_exact : Prop := forall (x : list Z) (s : Z), s <> 0%Z -> Forall fits16 x ->
  forall r i a, helicity_div (Vec x) (ORaw (Sc s)) = Ok (UArr (Vec r)) -> nth_error x i = Some a ->
  exists q, nth_error r i = Some q /\ (q * s = a)%Z.

Theorem C111_division_refuted : ~ division_is_exact.
Proof.
  intros H. destruct (H [1]%Z 2%Z) with (r := [0%Z]) (i := 0) (a := 1%Z) as (q & Hq & E);
    [lia | repeat constructor; unfold fits16; lia | reflexivity | reflexivity|].
  injection Hq as <-. lia.
Qed.
Print Assumptions C111_division_refuted.

(** Division keeps the class and drops the fractional part (toward zero). *)
Theorem C111_division_partial : forall (x : list Z) (s : Z), s <> 0%Z ->
  (Forall fits16 x -> Forall (fun a => a <> - 2 ^ 15)%Z x ->
   exists r, helicity_div (Vec x) (ORaw (Sc s)) = Ok (UArr (Vec r)) /\ length r = length x /\
     forall i a, nth_error x i = Some a -> exists q, nth_error r i = Some q /\
       (Z.abs (q * s) <= Z.abs a < Z.abs (q * s) + Z.abs s)%Z /\ (0 <= q * s * a)%Z) /\
  (Forall fits32 x -> Forall (fun a => a <> - 2 ^ 31)%Z x ->
   exists r, pdg_div (Vec x) (ORaw (Sc s)) = Ok (UArr (Vec r)) /\ length r = length x /\
     forall i a, nth_error x i = Some a -> exists q, nth_error r i = Some q /\
       (Z.abs (q * s) <= Z.abs a < Z.abs (q * s) + Z.abs s)%Z /\ (0 <= q * s * a)%Z).
Proof.
  intros x s Hs.
  assert (Q : forall a, (Z.abs (Z.quot a s * s) <= Z.abs a < Z.abs (Z.quot a s * s) + Z.abs s)%Z /\ (0 <= Z.quot a s * s * a)%Z
              /\ (Z.abs (Z.quot a s) <= Z.abs a)%Z).
  { intros a. pose proof (Z.quot_rem' a s) as E.
    pose proof (Z.quot_abs a s Hs) as QA.
    assert (SP : (0 < Z.abs s)%Z) by lia.
    pose proof (Z.quot_div_nonneg (Z.abs a) (Z.abs s) ltac:(lia) SP) as QD.
    pose proof (Z.div_mod (Z.abs a) (Z.abs s) ltac:(lia)) as DM.
    pose proof (Z.mod_pos_bound (Z.abs a) (Z.abs s) SP) as MB.
    assert (AQ : Z.abs (Z.quot a s) = (Z.abs a / Z.abs s)%Z) by (rewrite <- QA; exact QD).
    assert (AM : Z.abs (Z.quot a s * s) = (Z.abs s * (Z.abs a / Z.abs s))%Z) by (rewrite Z.abs_mul, AQ; ring).
    assert (DN : (0 <= Z.abs a / Z.abs s)%Z) by (apply Z.div_pos; lia).
    split; [rewrite AM; lia|]. split.
    - pose proof (Z.rem_sign_mul a s Hs) as S.
      replace (Z.quot a s * s)%Z with (a - Z.rem a s)%Z by lia.
      assert (Z.abs (Z.rem a s) <= Z.abs a)%Z by (rewrite <- Z.rem_abs, Z.rem_mod_nonneg by lia; nia).
      nia.
    - rewrite AQ. nia. }
  unfold helicity_div, pdg_div, ufunc_arith, nd_bin. cbn [nd_map bind].
  unfold helicity_new, pdg_new, converter, to_plain. cbn [bind nd_map check_shape Nat.eqb]. rewrite !map_map.
  split; intros HF HM; eexists; (split; [reflexivity|]); (split; [apply map_length|]);
    intros i a Ha; exists (Z.quot a s); rewrite nth_error_map', Ha; cbn [option_map];
    destruct (Q a) as (Q1 & Q2 & Q3); (split; [|auto]); f_equal;
    [apply wrap16_id | apply wrap32_id];
    assert (FA : _) by (eapply Forall_nth_error in HF; [exact HF | exact Ha]);
    assert (MA : _) by (eapply Forall_nth_error in HM; [exact HM | exact Ha]); cbn beta in MA;
    unfold fits16, fits32 in *; lia.
Qed.
Print Assumptions C111_division_partial.

Example C111_case : helicity_div (Vec [1; -1; 7; 2]%Z) (ORaw (Sc 2%Z)) = Ok (UArr (Vec [0; 0; 3; 1]%Z)).
Proof. reflexivity. Qed.

(** * C112 equality of arrays of one kind *)

Lemma mask_new_vec l : mask_new (Plain (Vec l)) = Ok (Vec l).
Proof. unfold mask_new, converter, to_plain. cbn [bind]. rewrite nd_map_id. reflexivity. Qed.

(** PdgArray, HelicityArray, StatusArray: [==] / [!=] against any array of
    the same length, of whatever flat class or a plain sequence, or a number. *)
Theorem C112_flat_equality : forall (x y : list Z) (s : Z),
  (length x = length y -> exists e n,
     (flat_eq (Vec x) (OArr (Vec y)) = Ok (Vec e) /\ flat_eq (Vec x) (OOther (Vec y)) = Ok (Vec e) /\
      flat_eq (Vec x) (ORaw (Vec y)) = Ok (Vec e)) /\
     (flat_ne (Vec x) (OArr (Vec y)) = Ok (Vec n) /\ flat_ne (Vec x) (OOther (Vec y)) = Ok (Vec n) /\
      flat_ne (Vec x) (ORaw (Vec y)) = Ok (Vec n)) /\
     length e = length x /\ length n = length x /\
     forall i a b, nth_error x i = Some a -> nth_error y i = Some b ->
       (nth_error e i = Some true <-> a = b) /\ (nth_error n i = Some true <-> a <> b)) /\
  (exists e n, flat_eq (Vec x) (ORaw (Sc s)) = Ok (Vec e) /\ flat_ne (Vec x) (ORaw (Sc s)) = Ok (Vec n) /\
     length e = length x /\ length n = length x /\
     forall i a, nth_error x i = Some a ->
       (nth_error e i = Some true <-> a = s) /\ (nth_error n i = Some true <-> a <> s)) /\
  (length x <> length y -> length x <> 1 -> length y <> 1 ->
     flat_eq (Vec x) (OArr (Vec y)) = Err ValueError /\ flat_ne (Vec x) (OArr (Vec y)) = Err ValueError).
Proof.
  intros x y s. unfold flat_eq, flat_ne, nd_bin. split; [|split].
  - intros H. rewrite !bc_same by exact H. cbn [bind]. rewrite !mask_new_vec.
    eexists; eexists. split; [split; [reflexivity | split; reflexivity]|].
    split; [split; [reflexivity | split; reflexivity]|]. rewrite !map2_length, H, Nat.min_id.
    repeat (split; [reflexivity|]). intros i a b Ha Hb. rewrite !map2_nth, Ha, Hb.
    destruct (Z.eqb_spec a b); cbn; intuition congruence.
  - cbn [nd_map bind]. rewrite !mask_new_vec. eexists; eexists. repeat (split; [reflexivity|]).
    rewrite !map_length. repeat (split; [reflexivity|]). intros i a Ha. rewrite !nth_error_map', Ha.
    cbn [option_map]. destruct (Z.eqb_spec a s); cbn; intuition congruence.
  - intros H1 H2 H3. rewrite !bc_err by assumption. auto.
Qed.
Print Assumptions C112_flat_equality.

Lemma rec_eqb_spec {A} (eqb : A -> A -> bool) (E : forall a b, eqb a b = true <-> a = b) x y :
  rec_eqb eqb x y = true <-> x = y.
Proof.
  revert y; induction x as [|a x IH]; intros [|b y]; cbn; try (split; congruence).
  rewrite andb_true_iff, E, IH. split; [intros [-> ->]; reflexivity | intros H; injection H; auto].
Qed.

(** MomentumArray (c = 4) and ColorArray (c = 2) against an array of the same
    class, or against one record: the mask of the particles whose records are
    equal in every component. *)
Theorem C112_record_equality : forall {A} (eqb : A -> A -> bool) c (x y : list (list A)) (p : list A),
  (forall a b, eqb a b = true <-> a = b) ->
  (length x = length y -> exists e n,
     rec_eq eqb c x (RSame y) = Ok (Vec e) /\ rec_ne eqb c x (RSame y) = Ok (Vec n) /\
     length e = length x /\ length n = length x /\
     forall i a b, nth_error x i = Some a -> nth_error y i = Some b ->
       (nth_error e i = Some true <-> a = b) /\ (nth_error n i = Some true <-> a <> b)) /\
  (length p = c -> exists e n,
     rec_eq eqb c x (RFlat p) = Ok (Vec e) /\ rec_ne eqb c x (RFlat p) = Ok (Vec n) /\
     length e = length x /\ length n = length x /\
     forall i a, nth_error x i = Some a ->
       (nth_error e i = Some true <-> a = p) /\ (nth_error n i = Some true <-> a <> p)) /\
  (length p <> c -> rec_eq eqb c x (RFlat p) = Err ValueError /\ rec_ne eqb c x (RFlat p) = Err ValueError).
Proof.
  intros A eqb c x y p E. pose proof (rec_eqb_spec eqb E) as RE. unfold rec_eq, rec_ne, eq_prep. split; [|split].
  - intros H. cbn [bind]. unfold nd_bin. rewrite !bc_same by exact H. cbn [bind]. rewrite !mask_new_vec.
    eexists; eexists. repeat (split; [reflexivity|]). rewrite !map2_length, H, Nat.min_id.
    repeat (split; [reflexivity|]). intros i a b Ha Hb. rewrite !map2_nth, Ha, Hb. specialize (RE a b).
    destruct (rec_eqb eqb a b); cbn; intuition congruence.
  - intros H. apply Nat.eqb_eq in H. rewrite H. cbn [bind]. unfold nd_bin.
    assert (B : forall f : list A -> list A -> bool, bc f x [p] = Ok (map (fun a => f a p) x)).
    { intros f. unfold bc. destruct (Nat.eqb_spec (length x) (length [p])) as [L|L].
      - destruct x as [|a [|]]; cbn in L; try discriminate. reflexivity.
      - destruct x as [|a [|]]; reflexivity. }
    rewrite !B. cbn [bind]. rewrite !mask_new_vec. eexists; eexists. repeat (split; [reflexivity|]).
    rewrite !map_length. repeat (split; [reflexivity|]). intros i a Ha. rewrite !nth_error_map', Ha.
    cbn [option_map]. specialize (RE a p). destruct (rec_eqb eqb a p); cbn; intuition congruence.
  - intros H. destruct (Nat.eqb_spec (length p) c); [contradiction|]. auto.
Qed.
Print Assumptions C112_record_equality.

Example C112_case : rec_eq Z.eqb 2 [[501; 0]; [0; 502]]%Z (RFlat [0; 502]%Z) = Ok (Vec [false; true]) /\
  flat_eq (Vec [21; 5]%Z) (OOther (Vec [21; -5]%Z)) = Ok (Vec [true; false]).
Proof. split; reflexivity. Qed.

(** * C113 records against plain rows *)

(** The expectation: comparing with the rows themselves, given as nested
    sequences, marks the equal rows. *)
Definition rows_comparable : Prop := forall (x y : list (list Z)),
  Forall (fun r => length r = 2) x -> Forall (fun r => length r = 2) y -> length x = length y ->
  exists e, rec_eq Z.eqb 2 x (RNested 2 y) = Ok (Vec e) /\
    forall i a b, nth_error x i = Some a -> nth_error y i = Some b -> (nth_error e i = Some true <-> a = b).

Theorem C113_rows_refuted : ~ rows_comparable.
Proof.
  intros H. destruct (H [[1; 2]; [3; 4]; [5; 6]]%Z [[1; 2]; [3; 4]; [5; 6]]%Z) as (e & He & _);
    try (repeat constructor). discriminate He.
Qed.
Print Assumptions C113_rows_refuted.

(** What happens, for a class with [c] > 1 fields: a ValueError, unless there
    are exactly [c] rows and the array holds exactly one particle, which is
    then compared with each of the rows.  Any numpy array, the array's own
    [.data] included, is a ValueError. *)
Theorem C113_rows_partial : forall {A} (eqb : A -> A -> bool) c (x y : list (list A)),
  1 < c -> Forall (fun r => length r = c) y ->
  (length y <> c \/ length x <> 1 -> rec_eq eqb c x (RNested c y) = Err ValueError) /\
  (forall p, length y = c -> x = [p] ->
     rec_eq eqb c x (RNested c y) = Ok (Vec (map (fun q => rec_eqb eqb p q) y))) /\
  rec_eq eqb c x RNotSeq = Err ValueError /\ rec_ne eqb c x RNotSeq = Err ValueError.
Proof.
  intros A eqb c x y Hc HY.
  assert (CH : map (fun r => chunks (length r) c r) y = map (fun r => [r]) y).
  { apply map_ext_in. intros r Hr. rewrite Forall_forall in HY. specialize (HY r Hr).
    destruct r as [|r1 r2] eqn:Er; [cbn in HY; lia|]. rewrite <- Er in *. clear Er.
    pose proof (chunks_concat c [r] (length r)) as CC. cbn [concat] in CC. rewrite app_nil_r in CC. apply CC.
    - lia.
    - constructor; [exact HY | constructor].
    - cbn. lia. }
  unfold rec_eq, rec_ne, eq_prep. split; [|split; [|auto]].
  - intros H. destruct (Nat.eqb_spec (length y) c) as [Ly|Ly]; [|reflexivity].
    destruct H as [H|H]; [contradiction|]. rewrite Nat.mod_same, Nat.div_same by lia. cbn [Nat.eqb bind].
    rewrite CH. unfold nd_bin, bdim. destruct (Nat.eqb_spec (length x) 1) as [E|E]; [contradiction|].
    cbn [Nat.eqb bind].
    assert (B : mapM (bc (rec_eqb eqb) x) (map (fun r => [r]) y)
                = Ok (map (fun r => map (fun a => rec_eqb eqb a r) x) y)).
    { rewrite mapM_map. rewrite <- mapM_pure. apply mapM_ext. intros r. unfold bc.
      destruct (Nat.eqb_spec (length x) (length [r])) as [L|L]; [cbn in L; contradiction|].
      destruct x as [|a [|]]; reflexivity. }
    rewrite B. cbn [bind]. unfold mask_new, converter, to_plain. cbn [bind]. rewrite nd_map_id. cbn [check_shape].
    destruct (Nat.eqb_spec (length x) 1); [contradiction|]. rewrite map_length, Ly.
    destruct (Nat.eqb_spec c 0); [lia|]. reflexivity.
  - intros p Ly ->. apply Nat.eqb_eq in Ly. rewrite Ly. rewrite Nat.mod_same, Nat.div_same by lia. cbn [Nat.eqb bind].
    rewrite CH. unfold nd_bin, bdim. cbn [length Nat.eqb bind].
    assert (B : mapM (bc (rec_eqb eqb) [p]) (map (fun r => [r]) y) = Ok (map (fun r => [rec_eqb eqb p r]) y)).
    { rewrite mapM_map. rewrite <- mapM_pure. apply mapM_ext. intros r. reflexivity. }
    rewrite B. cbn [bind]. unfold mask_new, converter, to_plain. cbn [bind]. rewrite nd_map_id.
    cbn [check_shape Nat.eqb]. do 2 f_equal. clear. induction y as [|r y IH]; cbn; [reflexivity | f_equal; exact IH].
Qed.
Print Assumptions C113_rows_partial.

Example C113_case : rec_eq Z.eqb 2 [[1; 2]]%Z (RNested 2 [[1; 2]; [3; 4]]%Z) = Ok (Vec [true; false]).
Proof. reflexivity. Qed.

(** * C114 particle names *)

(** In a table with distinct codes and distinct names, names and codes
    translate into each other, in order; an unknown name is a ValueError. *)
Theorem C114_names_roundtrip : forall (table : list (Z * string)) (codes : list Z),
  NoDup (map fst table) -> NoDup (map snd table) -> Forall fits32 codes ->
  (forall z, In z codes -> In z (map fst table)) ->
  exists names, pdg_names table codes = Ok names /\ from_name table names = Ok (Vec codes) /\
    forall i z s, nth_error codes i = Some z -> nth_error names i = Some s -> In (z, s) table.
Proof.
  intros table codes NF NS HF HIn.
  assert (ONE : forall z, In z codes -> exists s, name_of table z = Ok s /\ loc table s = Ok [z] /\ In (z, s) table).
  { intros z Hz. apply HIn in Hz. apply in_map_iff in Hz as ([z' s] & Ez & Hz). cbn in Ez; subst z'. exists s.
    assert (FI : find (fun p : Z * string => Z.eqb (fst p) z) table = Some (z, s)).
    { clear NS HF HIn codes. induction table as [|[z1 s1] t IH]; [destruct Hz|]. cbn [find fst].
      inversion NF as [|? ? N1 N2]; subst. destruct Hz as [E|Hz].
      - injection E as -> ->. rewrite Z.eqb_refl. reflexivity.
      - destruct (Z.eqb_spec z1 z) as [->|D]; [|auto]. exfalso. apply N1.
        change z with (fst (z, s)). apply in_map; exact Hz. }
    unfold name_of, loc. rewrite FI. split; [reflexivity|]. split; [|exact Hz].
    assert (FL : filter (fun p : Z * string => String.eqb (snd p) s) table = [(z, s)]).
    { clear NF HF HIn FI codes. induction table as [|[z1 s1] t IH]; [destruct Hz|]. cbn [filter snd].
      inversion NS as [|? ? N1 N2]; subst. destruct Hz as [E|Hz].
      - injection E as -> ->. rewrite String.eqb_refl. f_equal.
        clear IH N2 NS. induction t as [|[z2 s2] t IH]; [reflexivity|]. cbn [filter snd].
        destruct (String.eqb_spec s2 s) as [->|D]; [exfalso; apply N1; left; reflexivity|].
        apply IH. intros H; apply N1; right; exact H.
      - destruct (String.eqb_spec s1 s) as [->|D]; [|auto]. exfalso. apply N1.
        change s with (snd (z, s)). apply in_map; exact Hz. }
    rewrite FL. reflexivity. }
  unfold pdg_names, from_name.
  assert (ALL : exists names, mapM (name_of table) codes = Ok names /\
            mapM (loc table) names = Ok (map (fun z => [z]) codes) /\
            forall i z s, nth_error codes i = Some z -> nth_error names i = Some s -> In (z, s) table).
  { clear HF HIn. induction codes as [|z codes IH].
    - exists []. repeat split; auto. intros i z s Hi. destruct i; discriminate Hi.
    - destruct IH as (names & M1 & M2 & M3); [intros z' Hz'; apply ONE; right; exact Hz'|].
      destruct (ONE z) as (s & S1 & S2 & S3); [left; reflexivity|].
      exists (s :: names). cbn [mapM map]. rewrite S1, M1, S2, M2. repeat split; auto.
      intros [|i] z' s' Hz Hs; cbn in Hz, Hs; [injection Hz as <-; injection Hs as <-; exact S3 | eapply M3; eauto]. }
  destruct ALL as (names & M1 & M2 & M3). exists names. rewrite M1, M2. split; [reflexivity|]. split; [|exact M3].
  replace (concat (map (fun z => [z]) codes)) with codes.
  - unfold pdg_new, converter, to_plain. cbn [bind nd_map check_shape Nat.eqb]. rewrite wrap32_list by exact HF. reflexivity.
  - clear. induction codes as [|z codes IH]; cbn; [reflexivity | f_equal; exact IH].
Qed.
Print Assumptions C114_names_roundtrip.

Theorem C114_unknown_name : forall table names s,
  In s names -> ~ In s (map snd table) -> from_name table names = Err ValueError.
Proof.
  intros table names s Hs HN. unfold from_name.
  destruct (mapM (loc table) names) as [l|e] eqn:E; [|reflexivity].
  exfalso. apply mapM_ok in E.
  assert (exists r, loc table s = Ok r) as (r & Hr).
  { clear HN. induction E as [|a b names l Hab E IH]; [destruct Hs|]. destruct Hs as [->|Hs]; [eauto | auto]. }
  unfold loc in Hr. destruct (filter (fun p : Z * string => String.eqb (snd p) s) table) as [|[z n] t] eqn:F; [discriminate Hr|].
  assert (A : In (z, n) (filter (fun p : Z * string => String.eqb (snd p) s) table)) by (rewrite F; left; reflexivity).
  apply filter_In in A as [A1 A2]. cbn in A2. apply String.eqb_eq in A2. subst n.
  apply HN. change s with (snd (z, s)). apply in_map; exact A1.
Qed.
Print Assumptions C114_unknown_name.

Example C114_case : from_name [(11, "e-"); (21, "g"); (-11, "e+")]%Z%string ["g"; "e+"; "g"]%string = Ok (Vec [21; -11; 21]%Z).
Proof. reflexivity. Qed.

(** * C115 masks from a structured array *)
Theorem C115_structured_masks : forall fields : list (string * list bool), NoDup (map fst fields) ->
  exists kids, from_numpy_structured fields = MGrp "and" kids /\
    kids = map (fun p => (fst p, MArr (snd p))) fields /\
    forall name col, In (name, col) fields -> dget name kids = Some (MArr col).
Proof.
  intros fields ND. exists (map (fun p => (fst p, MArr (snd p))) fields).
  assert (K : dkeys (map (fun p : string * list bool => (fst p, MArr (snd p))) fields) = map fst fields)
    by (unfold dkeys; rewrite map_map; reflexivity).
  split; [|split; [reflexivity|]].
  - unfold from_numpy_structured. f_equal. apply dict_of_NoDup. rewrite K; exact ND.
  - intros name col H. apply In_dget; [rewrite K; exact ND|].
    apply in_map_iff. exists (name, col). auto.
Qed.
Print Assumptions C115_structured_masks.

Example C115_case : from_numpy_structured [("a", [true; false]); ("b", [true; true])]%string
  = (MGrp "and" [("a", MArr [true; false]); ("b", MArr [true; true])])%string.
Proof. reflexivity. Qed.
