From Verif Require Import Prelude Dict Keys MaskTypes SpecArray SpecAdj Arrays ArraysProofs Composite SpecComposite CompositeProofs Adjacency.

(** * np.unique *)

Lemma zins_In z l x : In x (zins z l) <-> x = z \/ In x l.
Proof.
  induction l as [|y l IH]; cbn; [intuition|].
  destruct (Z.ltb_spec z y); cbn; [intuition|]. destruct (Z.eqb_spec z y); cbn; [subst; intuition|].
  rewrite IH. intuition.
Qed.

Lemma zins_sorted z l : StronglySorted Z.lt l -> StronglySorted Z.lt (zins z l).
Proof.
  induction 1 as [|y l H IH HF]; cbn; [repeat constructor|].
  destruct (Z.ltb_spec z y).
  - constructor; [constructor; assumption|]. constructor; [assumption|].
    eapply Forall_impl; [|exact HF]. cbn; lia.
  - destruct (Z.eqb_spec z y); [constructor; assumption|]. constructor; [exact IH|].
    apply Forall_forall. intros x Hx. apply zins_In in Hx as [->|Hx]; [lia|]. rewrite Forall_forall in HF. auto.
Qed.

Lemma unique_In l x : In x (np_unique l) <-> In x l.
Proof. unfold np_unique. induction l as [|y l IH]; cbn; [tauto|]. rewrite zins_In, IH. intuition. Qed.
Lemma unique_sorted l : StronglySorted Z.lt (np_unique l).
Proof. unfold np_unique. induction l as [|y l IH]; cbn; [constructor | apply zins_sorted; exact IH]. Qed.

Lemma sorted_NoDup l : StronglySorted Z.lt l -> NoDup l.
Proof.
  induction 1 as [|y l H IH HF]; constructor; [|exact IH]. intros Hy. rewrite Forall_forall in HF.
  specialize (HF _ Hy). lia.
Qed.

Lemma flat_In es v : In v (flat es) <-> vertex es v.
Proof.
  unfold flat, vertex, src_of, dst_of. rewrite in_flat_map. split.
  - intros ([a b] & Hin & [E|[E|[]]]); cbn in E; subst; eauto.
  - intros [(w & H)|(w & H)]; [exists (v, w) | exists (w, v)]; cbn; auto.
Qed.

Lemma unique_vertices es : ascending_vertices es (np_unique (flat es)).
Proof. split; [apply unique_sorted|]. intros v. rewrite unique_In. apply flat_In. Qed.

(** Two ascending lists with the same members are equal. *)
Lemma sorted_eq l r : StronglySorted Z.lt l -> StronglySorted Z.lt r -> (forall x, In x l <-> In x r) -> l = r.
Proof.
  intros Hl; revert r; induction Hl as [|x l Hl IH HF]; intros r Hr HI.
  - destruct r as [|y r]; [reflexivity|]. exfalso. apply (HI y). left; reflexivity.
  - destruct Hr as [|y r Hr HG]; [exfalso; apply (HI x); left; reflexivity|].
    rewrite Forall_forall in HF, HG.
    assert (x = y).
    { destruct (proj1 (HI x) (or_introl eq_refl)) as [E|Hx]; [congruence|].
      destruct (proj2 (HI y) (or_introl eq_refl)) as [E|Hy]; [congruence|].
      specialize (HF _ Hy). specialize (HG _ Hx). lia. }
    subst y. f_equal. apply IH; [exact Hr|]. intros z. specialize (HI z). cbn in HI. split; intros Hz.
    + destruct (proj1 HI (or_intror Hz)) as [E|H]; [|exact H]. subst z. specialize (HF _ Hz). lia.
    + destruct (proj2 HI (or_intror Hz)) as [E|H]; [|exact H]. subst z. specialize (HG _ Hz). lia.
Qed.

Lemma ascending_unique es u : ascending_vertices es u -> u = np_unique (flat es).
Proof.
  intros [S H]. apply sorted_eq; [exact S | apply unique_sorted |]. intros x. rewrite H, unique_In, flat_In. reflexivity.
Qed.

(** * rank *)

Lemma rank_nth u z : In z u -> nth_error u (rank u z) = Some z.
Proof.
  induction u as [|x u IH]; intros H; [destruct H|]. cbn. destruct (Z.eqb_spec z x) as [->|Hn]; [reflexivity|].
  cbn. apply IH. destruct H; congruence || assumption.
Qed.
Lemma rank_lt u z : In z u -> rank u z < length u.
Proof. intros H. apply nth_error_Some. rewrite rank_nth by exact H. discriminate. Qed.
Lemma rank_of_nth u i z : NoDup u -> nth_error u i = Some z -> rank u z = i.
Proof.
  intros ND H. assert (Hin : In z u) by (eapply nth_error_In; exact H).
  apply (proj1 (NoDup_nth_error u) ND); [apply rank_lt; exact Hin|]. rewrite H. apply rank_nth; exact Hin.
Qed.
Lemma rank_inj u x y : In x u -> In y u -> rank u x = rank u y -> x = y.
Proof. intros Hx Hy E. apply rank_nth in Hx, Hy. rewrite E in Hx. congruence. Qed.
Lemma rank_eqb u x y : In x u -> In y u -> Nat.eqb (rank u x) (rank u y) = Z.eqb x y.
Proof.
  intros Hx Hy. destruct (Z.eqb_spec x y) as [->|Hn]; [apply Nat.eqb_refl|].
  apply Nat.eqb_neq. intros E. apply Hn. eapply rank_inj; eauto.
Qed.

(** * Sparse arrays *)

Definition uni (es : edges) := np_unique (flat es).
Definition relab (es : edges) (e : Z * Z) : nat * nat := (rank (uni es) (fst e), rank (uni es) (snd e)).

Lemma uni_src es e : In e es -> In (fst e) (uni es).
Proof. intros H. apply unique_In, flat_In. left. exists (snd e). destruct e; exact H. Qed.
Lemma uni_dst es e : In e es -> In (snd e) (uni es).
Proof. intros H. apply unique_In, flat_In. right. exists (fst e). destruct e; exact H. Qed.

Lemma list_max1_le l x : In x l -> x <= list_max1 l.
Proof. unfold list_max1. induction l as [|y l IH]; intros H; [destruct H|]. cbn [fold_right]. destruct H as [->|H]; [lia|]. specialize (IH H). lia. Qed.
Lemma list_max1_bound l n : (forall x, In x l -> x <= n) -> list_max1 l <= n.
Proof. unfold list_max1. induction l as [|y l IH]; intros H; cbn [fold_right]; [lia|]. pose proof (H y (or_introl eq_refl)). specialize (IH (fun x Hx => H x (or_intror Hx))). lia. Qed.

Lemma size_unique es : es <> [] ->
  list_max1 (map fst (edge_relabel es) ++ map snd (edge_relabel es)) + 1 = length (uni es).
Proof.
  intros Hne. change (edge_relabel es) with (map (relab es) es).
  assert (Hu : length (uni es) <> 0).
  { destruct es as [|e es]; [congruence|]. intros E. pose proof (uni_src (e :: es) e (or_introl eq_refl)) as H.
    destruct (uni (e :: es)); [destruct H | discriminate]. }
  assert (L1 : list_max1 (map fst (map (relab es) es) ++ map snd (map (relab es) es)) <= length (uni es) - 1).
  { apply list_max1_bound. intros x Hx. rewrite !map_map in Hx. apply in_app_or in Hx.
    destruct Hx as [Hx|Hx]; apply in_map_iff in Hx as (e & <- & He); cbn;
      [pose proof (rank_lt _ _ (uni_src _ _ He)) | pose proof (rank_lt _ _ (uni_dst _ _ He))]; lia. }
  assert (L2 : length (uni es) - 1 <= list_max1 (map fst (map (relab es) es) ++ map snd (map (relab es) es))).
  { destruct (nth_error_in_range (uni es) (length (uni es) - 1)) as (z & Hz); [lia|].
    pose proof (rank_of_nth _ _ _ (sorted_NoDup _ (unique_sorted _)) Hz) as Hr.
    apply list_max1_le. rewrite <- Hr, !map_map. apply nth_error_In in Hz. apply unique_In, flat_In in Hz.
    apply in_or_app. destruct Hz as [(w & H)|(w & H)]; [left | right]; apply in_map_iff.
    - exists (z, w). auto.
    - exists (w, z). auto. }
  lia.
Qed.

Lemma to_sparse_ok {F} es (data : list F) : es <> [] ->
  to_sparse es data = Ok (mkCoo (length (uni es)) (combine (map (relab es) es) data)).
Proof.
  intros Hne. unfold to_sparse. pose proof (size_unique es Hne) as S. change (edge_relabel es) with (map (relab es) es) in *.
  destruct es as [|e es]; [congruence|]. cbn [map] in *. rewrite S. reflexivity.
Qed.

Lemma combine_map_r {A B C} (f : A -> B) (g : A -> C) l : combine (map f l) (map g l) = map (fun x => (f x, g x)) l.
Proof. induction l as [|x l IH]; cbn; [reflexivity | rewrite IH; reflexivity]. Qed.

Lemma sparse_unsigned_ok es : es <> [] ->
  sparse_unsigned es = Ok (mkCoo (length (uni es)) (map (fun e => (relab es e, true)) es)).
Proof.
  intros Hne. unfold sparse_unsigned, sparse_signed. rewrite to_sparse_ok by exact Hne. cbn [bind c_size c_ent].
  rewrite combine_map_r, map_map. reflexivity.
Qed.

(** * roots and leaves *)

Lemma in1d_nth l s i : nth_error (in1d l s) i = option_map (fun x => existsb (Nat.eqb x) s) (nth_error l i).
Proof. apply nth_error_map'. Qed.

Lemma existsb_nat x s : existsb (Nat.eqb x) s = true <-> In x s.
Proof.
  rewrite existsb_exists. split; [intros (y & H & E); apply Nat.eqb_eq in E; subst; exact H | intros H; exists x; rewrite Nat.eqb_refl; auto].
Qed.

Lemma filter_none {A} (f : A -> bool) l : length (filter f l) = 0 <-> forall x, In x l -> f x = false.
Proof.
  induction l as [|x l IH]; cbn; [intuition|]. destruct (f x) eqn:E; cbn.
  - split; [discriminate|]. intros H. rewrite (H x (or_introl eq_refl)) in E. discriminate.
  - rewrite IH. split; [intros H y [<-|Hy]; auto | auto].
Qed.

Lemma roots_spec es m : roots es = Ok m ->
  length m = length es /\
  forall i a b, nth_error es i = Some (a, b) ->
    exists v, nth_error m i = Some v /\ (v = true <-> ~ dst_of es a).
Proof.
  intros H. assert (Hne : es <> []) by (intros ->; discriminate H).
  unfold roots in H. rewrite sparse_unsigned_ok in H by exact Hne. cbn [bind c_size c_ent] in H. injection H as <-.
  split; [unfold in1d; rewrite !map_length; reflexivity|]. intros i a b Hi.
  rewrite in1d_nth, !map_map, nth_error_map', Hi. cbn [option_map row_of fst snd relab]. eexists. split; [reflexivity|].
  assert (Ha : In a (uni es)) by (apply (uni_src es (a, b)); eapply nth_error_In; exact Hi).
  rewrite existsb_nat. unfold zero_idxs. rewrite filter_In, Nat.eqb_eq, filter_none, in_seq. unfold row_of; cbn [fst].
  split.
  - intros [_ H] (w & Hw). specialize (H (relab es (w, a), true)). cbn in H.
    rewrite Nat.eqb_refl in H. discriminate H. apply in_map_iff. exists (w, a). auto.
  - intros Hno. split; [pose proof (rank_lt _ _ Ha); unfold uni in *; lia|]. intros x Hx. apply in_map_iff in Hx as ([w c] & <- & Hin).
    cbn. rewrite rank_eqb; [|apply (uni_dst es (w, c)); exact Hin | exact Ha].
    apply Z.eqb_neq. intros ->. apply Hno. exists w. exact Hin.
Qed.

Lemma leaves_spec es m : leaves es = Ok m ->
  length m = length es /\
  forall i a b, nth_error es i = Some (a, b) ->
    exists v, nth_error m i = Some v /\ (v = true <-> ~ src_of es b).
Proof.
  intros H. assert (Hne : es <> []) by (intros ->; discriminate H).
  unfold leaves in H. rewrite sparse_unsigned_ok in H by exact Hne. cbn [bind c_size c_ent] in H. injection H as <-.
  split; [unfold in1d; rewrite !map_length; reflexivity|]. intros i a b Hi.
  rewrite in1d_nth, !map_map, nth_error_map', Hi. cbn [option_map col_of fst snd relab]. eexists. split; [reflexivity|].
  assert (Hb : In b (uni es)) by (apply (uni_dst es (a, b)); eapply nth_error_In; exact Hi).
  rewrite existsb_nat. unfold zero_idxs. rewrite filter_In, Nat.eqb_eq, filter_none, in_seq. unfold col_of; cbn [fst snd].
  split.
  - intros [_ H] (w & Hw). specialize (H (relab es (b, w), true)). cbn in H.
    rewrite Nat.eqb_refl in H. discriminate H. apply in_map_iff. exists (b, w). auto.
  - intros Hno. split; [pose proof (rank_lt _ _ Hb); unfold uni in *; lia|]. intros x Hx. apply in_map_iff in Hx as ([c w] & <- & Hin).
    cbn. rewrite rank_eqb; [|apply (uni_src es (c, w)); exact Hin | exact Hb].
    apply Z.eqb_neq. intros ->. apply Hno. exists w. exact Hin.
Qed.

Lemma roots_total es : es <> [] -> exists m, roots es = Ok m.
Proof. intros H. unfold roots. rewrite sparse_unsigned_ok by exact H. cbn. eauto. Qed.
Lemma leaves_total es : es <> [] -> exists m, leaves es = Ok m.
Proof. intros H. unfold leaves. rewrite sparse_unsigned_ok by exact H. cbn. eauto. Qed.

(** * Dense matrices *)

Lemma entry_grid {F} (f : nat -> nat -> F) n i j :
  entry (map (fun i => map (fun j => f i j) (seq 0 n)) (seq 0 n)) i j =
  if (i <? n) && (j <? n) then Some (f i j) else None.
Proof.
  unfold entry. rewrite nth_error_map'.
  assert (E : forall k, nth_error (seq 0 n) k = if k <? n then Some k else None).
  { intros k. destruct (Nat.ltb_spec k n) as [H|H].
    - rewrite (nth_error_nth' (seq 0 n) 0) by (rewrite seq_length; exact H). rewrite seq_nth by exact H. reflexivity.
    - apply nth_error_None. rewrite seq_length. exact H. }
  rewrite E. destruct (i <? n); cbn [option_map andb]; [|reflexivity]. rewrite nth_error_map', E. destruct (j <? n); reflexivity.
Qed.

Lemma grid_square {F} (f : nat -> nat -> F) n : square n (map (fun i => map (fun j => f i j) (seq 0 n)) (seq 0 n)).
Proof.
  split; [rewrite map_length, seq_length; reflexivity|]. apply Forall_forall. intros r Hr.
  apply in_map_iff in Hr as (i & <- & _). rewrite map_length, seq_length. reflexivity.
Qed.

Lemma entry_lt {F} n (m : list (list F)) i j x : square n m -> entry m i j = Some x -> i < n /\ j < n.
Proof.
  intros [H1 H2] E. unfold entry in E. destruct (nth_error m i) as [r|] eqn:Er; [|discriminate].
  split; [rewrite <- H1; apply nth_error_Some; congruence|].
  rewrite Forall_forall in H2. rewrite <- (H2 r); [apply nth_error_Some; congruence | eapply nth_error_In; exact Er].
Qed.
Lemma entry_some {F} n (m : list (list F)) i j : square n m -> i < n -> j < n -> exists x, entry m i j = Some x.
Proof.
  intros [H1 H2] Hi Hj. unfold entry. destruct (nth_error_in_range m i) as (r & Hr); [lia|]. rewrite Hr.
  apply nth_error_in_range. rewrite Forall_forall in H2. rewrite (H2 r); [exact Hj | eapply nth_error_In; exact Hr].
Qed.
Lemma square_ext {F} n (m m' : list (list F)) : square n m -> square n m' ->
  (forall i j, i < n -> j < n -> entry m i j = entry m' i j) -> m = m'.
Proof.
  intros S S' H. apply nth_error_ext. intros i. destruct (Nat.lt_ge_cases i n) as [Hi|Hi].
  - destruct (nth_error_in_range m i) as (r & Hr); [destruct S; lia|].
    destruct (nth_error_in_range m' i) as (r' & Hr'); [destruct S'; lia|].
    rewrite Hr, Hr'. f_equal. apply nth_error_ext. intros j. destruct (Nat.lt_ge_cases j n) as [Hj|Hj].
    + specialize (H i j Hi Hj). unfold entry in H. rewrite Hr, Hr' in H. exact H.
    + destruct S as [_ S], S' as [_ S']. rewrite Forall_forall in S, S'.
      transitivity (@None F); [|symmetry]; apply nth_error_None; [rewrite (S r)|rewrite (S' r')]; try exact Hj; eapply nth_error_In; eassumption.
  - destruct S as [S _], S' as [S' _]. transitivity (@None (list F)); [|symmetry]; apply nth_error_None; lia.
Qed.

Lemma filter_relab {F} es u (l : edges) (w : list F) i j a b :
  (forall e, In e l -> In (fst e) u /\ In (snd e) u) -> NoDup u ->
  nth_error u i = Some a -> nth_error u j = Some b ->
  u = uni es ->
  map snd (filter (fun e => Nat.eqb (row_of e) i && Nat.eqb (col_of e) j) (combine (map (relab es) l) w)) =
  weights_between l w a b.
Proof.
  intros Hin ND Hi Hj ->. unfold weights_between. revert w; induction l as [|e l IH]; intros [|x w]; cbn [map combine filter]; try reflexivity.
  specialize (IH (fun e' He' => Hin e' (or_intror He')) w). destruct (Hin e (or_introl eq_refl)) as [H1 H2].
  unfold row_of, col_of in *. cbn [fst snd relab].
  rewrite <- (rank_of_nth _ _ _ ND Hi), <- (rank_of_nth _ _ _ ND Hj) in *.
  rewrite !rank_eqb by (eauto using nth_error_In).
  destruct ((fst e =? a)%Z && (snd e =? b)%Z); cbn [map snd]; rewrite IH; reflexivity.
Qed.

Lemma combine_fst {A B} (l : list A) (r : list B) : length l = length r -> map fst (combine l r) = l.
Proof. revert r; induction l as [|x l IH]; intros [|y r] H; try discriminate; [reflexivity|]. cbn. f_equal. apply IH. injection H; auto. Qed.
Lemma combine_snd {A B} (l : list A) (r : list B) : length l = length r -> map snd (combine l r) = r.
Proof. revert r; induction l as [|x l IH]; intros [|y r] H; try discriminate; [reflexivity|]. cbn. f_equal. apply IH. injection H; auto. Qed.

Section W.
  Context {F : Type} (add : F -> F -> F) (zero : F).

  Lemma matrix_weighted_eq es (w : list F) : es <> [] ->
    matrix_weighted add zero es w = Ok (dense add zero (mkCoo (length (uni es)) (combine (map (relab es) es) w))).
  Proof.
    intros Hne. unfold matrix_weighted, sparse_signed. rewrite to_sparse_ok by exact Hne. cbn [bind c_size c_ent].
    rewrite combine_fst by (rewrite !map_length; reflexivity). reflexivity.
  Qed.

  Lemma matrix_weighted_ok es (w : list F) : es <> [] -> length w = length es ->
    exists m, matrix_weighted add zero es w = Ok m /\ square (length (uni es)) m /\
      forall i j a b, nth_error (uni es) i = Some a -> nth_error (uni es) j = Some b ->
        entry m i j = Some (total add zero (weights_between es w a b)).
  Proof.
    intros Hne HL. rewrite matrix_weighted_eq by exact Hne. eexists. split; [reflexivity|]. unfold dense. cbn [c_size c_ent].
    split; [apply grid_square|]. intros i j a b Hi Hj. rewrite entry_grid.
    assert (i < length (uni es)) by (apply nth_error_Some; congruence).
    assert (j < length (uni es)) by (apply nth_error_Some; congruence).
    destruct (Nat.ltb_spec i (length (uni es))), (Nat.ltb_spec j (length (uni es))); try lia. cbn.
    unfold total. do 2 f_equal. apply (filter_relab es (uni es)); auto.
    - intros e He. split; [apply uni_src | apply uni_dst]; exact He.
    - apply sorted_NoDup, unique_sorted.
  Qed.
End W.

Lemma matrix_int_weighted es : matrix_int es = matrix_weighted Z.add 0%Z es (repeat 1%Z (length es)).
Proof.
  destruct es as [|e es]; [reflexivity|]. set (l := e :: es). assert (Hne : l <> []) by discriminate.
  rewrite matrix_weighted_eq by exact Hne. unfold matrix_int. rewrite sparse_unsigned_ok by exact Hne. cbn [bind c_size c_ent].
  do 3 f_equal. rewrite map_map. cbn [fst snd].
  assert (G : forall (f : Z * Z -> nat * nat) l, map (fun x => (f x, 1%Z)) l = combine (map f l) (repeat 1%Z (length l))).
  { clear. intros f l. induction l as [|x l IH]; cbn; [reflexivity | rewrite IH; reflexivity]. }
  apply G.
Qed.

Lemma fold_add_ones (l : list Z) acc : Forall (fun x => x = 1%Z) l -> fold_left Z.add l acc = (acc + Z.of_nat (length l))%Z.
Proof. intros H; revert acc; induction H as [|x l -> H IH]; intros acc; cbn [fold_left length]; [lia | rewrite IH; lia]. Qed.


Lemma ones_between es a b :
  Forall (fun x => x = 1%Z) (weights_between es (repeat 1%Z (length es)) a b) /\
  length (weights_between es (repeat 1%Z (length es)) a b) = count_occ edge_dec es (a, b).
Proof.
  unfold weights_between. induction es as [|[x y] es [IH1 IH2]]; cbn; [auto|].
  destruct (Z.eqb_spec x a), (Z.eqb_spec y b), (edge_dec (x, y) (a, b)); cbn;
    try congruence; try (split; assumption).
  split; [constructor; [reflexivity | exact IH1] | f_equal; exact IH2].
Qed.

(** * Totals *)

Section Total.
  Context {F : Type} (add : F -> F -> F) (zero : F).
  Hypothesis add_comm : forall x y, add x y = add y x.
  Hypothesis add_assoc : forall x y z, add x (add y z) = add (add x y) z.
  Hypothesis add_0 : forall x, add zero x = x.

  Lemma fold_add_acc l x : fold_left add l x = add x (fold_left add l zero).
  Proof.
    revert x; induction l as [|y l IH]; intros x; cbn; [rewrite add_comm, add_0; reflexivity|].
    rewrite IH, (IH (add zero y)), add_0. rewrite add_assoc. reflexivity.
  Qed.
  Lemma total_cons x l : total add zero (x :: l) = add x (total add zero l).
  Proof. unfold total. cbn. rewrite add_0. apply fold_add_acc. Qed.
  Lemma total_app l r : total add zero (l ++ r) = add (total add zero l) (total add zero r).
  Proof. unfold total. rewrite fold_left_app. apply fold_add_acc. Qed.

  Lemma total_map_add {A} (f g : A -> F) l :
    total add zero (map (fun x => add (f x) (g x)) l) = add (total add zero (map f l)) (total add zero (map g l)).
  Proof.
    induction l as [|x l IH]; [unfold total; cbn; rewrite add_0; reflexivity|].
    cbn [map]. rewrite !total_cons, IH. rewrite !add_assoc. f_equal.
    rewrite <- !add_assoc. f_equal. apply add_comm.
  Qed.
  Lemma total_zero {A} (f : A -> F) l : (forall x, In x l -> f x = zero) -> total add zero (map f l) = zero.
  Proof.
    induction l as [|x l IH]; intros H; [reflexivity|]. cbn [map]. rewrite total_cons, IH by (intros y Hy; apply H; right; exact Hy).
    rewrite (H x (or_introl eq_refl)). apply add_0.
  Qed.
  Lemma total_delta (k n : nat) (x : F) : k < n ->
    total add zero (map (fun i => if Nat.eqb k i then x else zero) (seq 0 n)) = x.
  Proof.
    intros Hk. replace (seq 0 n) with (seq 0 k ++ k :: seq (S k) (n - S k)).
    - rewrite map_app, total_app. cbn [map]. rewrite total_cons, Nat.eqb_refl.
      rewrite total_zero by (intros y Hy; apply in_seq in Hy; destruct (Nat.eqb_spec k y); [lia | reflexivity]).
      rewrite total_zero by (intros y Hy; apply in_seq in Hy; destruct (Nat.eqb_spec k y); [lia | reflexivity]).
      rewrite add_0, add_comm, add_0. reflexivity.
    - change (k :: seq (S k) (n - S k)) with (seq k (S (n - S k))). rewrite <- seq_app. f_equal. lia.
  Qed.

  Lemma dense_total n (ents : list (nat * nat * F)) :
    Forall (fun e => row_of e < n /\ col_of e < n) ents ->
    total add zero (concat (dense add zero (mkCoo n ents))) = total add zero (map snd ents).
  Proof.
    intros H.
    assert (G : forall (f : nat -> nat -> F) a, total add zero (concat (map (fun i => map (f i) (seq 0 n)) a)) =
      total add zero (map (fun i => total add zero (map (f i) (seq 0 n))) a)).
    { intros f a. induction a as [|i a IH]; [reflexivity|]. cbn [map concat]. rewrite total_app, total_cons, IH. reflexivity. }
    unfold dense. cbn [c_size c_ent]. rewrite (G (fun i j => fold_left add (map snd (filter (fun e => Nat.eqb (row_of e) i && Nat.eqb (col_of e) j) ents)) zero)).
    clear G. induction H as [|e ents [Hr Hc] H IH].
    - cbn [filter map fold_left]. apply total_zero. intros i _. apply total_zero. reflexivity.
    - cbn [map]. rewrite total_cons. rewrite <- IH. clear IH.
      transitivity (total add zero (map (fun i => total add zero (map (fun j =>
         add (if Nat.eqb (row_of e) i then if Nat.eqb (col_of e) j then snd e else zero else zero)
             (fold_left add (map snd (filter (fun e => Nat.eqb (row_of e) i && Nat.eqb (col_of e) j) ents)) zero)) (seq 0 n))) (seq 0 n))).
      { f_equal. apply map_ext. intros i. f_equal. apply map_ext. intros j. cbn [filter].
        destruct (Nat.eqb (row_of e) i), (Nat.eqb (col_of e) j); cbn [andb]; rewrite ?add_0; try reflexivity.
        cbn [map]. exact (total_cons (snd e) _). }
      transitivity (total add zero (map (fun i => add
         (total add zero (map (fun j => if Nat.eqb (row_of e) i then if Nat.eqb (col_of e) j then snd e else zero else zero) (seq 0 n)))
         (total add zero (map (fun j => fold_left add (map snd (filter (fun e => Nat.eqb (row_of e) i && Nat.eqb (col_of e) j) ents)) zero) (seq 0 n))))
         (seq 0 n))).
      { f_equal. apply map_ext. intros i. apply (total_map_add (fun j => if Nat.eqb (row_of e) i then if Nat.eqb (col_of e) j then snd e else zero else zero)). }
      rewrite (total_map_add (fun i => total add zero (map (fun j => if Nat.eqb (row_of e) i then if Nat.eqb (col_of e) j then snd e else zero else zero) (seq 0 n)))).
      f_equal. etransitivity; [|exact (total_delta (row_of e) n (snd e) Hr)]. f_equal. apply map_ext. intros i.
      destruct (Nat.eqb (row_of e) i); [apply total_delta; exact Hc | apply total_zero; reflexivity].
  Qed.

  Lemma matrix_weighted_total es (w : list F) m : length w = length es ->
    matrix_weighted add zero es w = Ok m -> total add zero (concat m) = total add zero w.
  Proof.
    intros HL H. assert (Hne : es <> []) by (intros ->; discriminate H).
    rewrite matrix_weighted_eq in H by exact Hne. injection H as <-. rewrite dense_total.
    - rewrite combine_snd by (rewrite map_length; auto). reflexivity.
    - apply Forall_forall. intros [p x] Hp. apply in_combine_l in Hp. apply in_map_iff in Hp as (e & <- & He).
      unfold row_of, col_of. cbn. split; apply rank_lt; [apply uni_src | apply uni_dst]; exact He.
  Qed.
End Total.

(** * nodes *)

Lemma nodes_spec argsort es : sorts argsort -> (forall v, vertex es v -> fits32 v /\ v <> (- 2 ^ 31)%Z) ->
  NoDup (nodes argsort es) /\ (forall v, In v (nodes argsort es) <-> vertex es v) /\
  StronglySorted (fun a b => (Z.abs a <= Z.abs b)%Z) (nodes argsort es).
Proof.
  intros HS HV. unfold nodes. fold (uni es). set (keys := map (fun z => wrap32 (Z.abs z)) (uni es)).
  destruct (HS keys) as [HP HSort]. unfold keys in HP at 2. rewrite map_length in HP.
  assert (PM : Permutation (map (fun i => nth i (uni es) 0%Z) (argsort keys)) (uni es)).
  { etransitivity; [apply Permutation_map; exact HP|].
    replace (map (fun i => nth i (uni es) 0%Z) (seq 0 (length (uni es)))) with (uni es); [reflexivity|].
    generalize (uni es) as l. intros l. apply nth_error_ext. intros i. rewrite nth_error_map'.
    destruct (Nat.lt_ge_cases i (length l)) as [H|H].
    - rewrite (nth_error_nth' (seq 0 (length l)) 0) by (rewrite seq_length; exact H). rewrite seq_nth by exact H. cbn.
      apply nth_error_nth'. exact H.
    - transitivity (@None Z); [apply nth_error_None; exact H|]. symmetry.
      replace (nth_error (seq 0 (length l)) i) with (@None nat); [reflexivity|]. symmetry. apply nth_error_None. rewrite seq_length; exact H. }
  split; [|split].
  - eapply Permutation_NoDup; [apply Permutation_sym; exact PM | apply sorted_NoDup, unique_sorted].
  - intros v. rewrite <- flat_In, <- (unique_In (flat es)). fold (uni es). split; apply Permutation_in; [exact PM | apply Permutation_sym; exact PM].
  - assert (HI : Forall (fun i => i < length (uni es)) (argsort keys)).
    { apply Forall_forall. intros i Hi. eapply Permutation_in in Hi; [|exact HP]. apply in_seq in Hi. lia. }
    revert HSort HI. generalize (argsort keys) as idx. intros idx. induction idx as [|i idx IH]; intros HSort HI; [constructor|].
    cbn [map] in *. inversion HSort as [|? ? HS1 HS2]; subst. inversion HI as [|? ? Hi HI']; subst.
    constructor; [apply IH; assumption|]. apply Forall_forall. intros v Hv. apply in_map_iff in Hv as (j & <- & Hj).
    rewrite Forall_forall in HS2, HI'. specialize (HS2 (nth j keys 0%Z)). specialize (HI' j Hj).
    assert (K : forall k, k < length (uni es) -> nth k keys 0%Z = Z.abs (nth k (uni es) 0%Z)).
    { intros k Hk. unfold keys. rewrite (nth_indep _ 0%Z ((fun z => wrap32 (Z.abs z)) 0%Z)) by (rewrite map_length; exact Hk).
      rewrite (map_nth (fun z => wrap32 (Z.abs z))). destruct (HV (nth k (uni es) 0%Z)) as [Hf Hn]; [apply flat_In, unique_In, nth_In; exact Hk|]. apply abs32; assumption. }
    rewrite <- !K by assumption. apply HS2. apply in_map_iff. exists j. auto.
Qed.

(** * from_matrix *)

Lemma filter_flat_map {A B} (P : B -> bool) (f : A -> list B) l :
  filter P (flat_map f l) = flat_map (fun x => filter P (f x)) l.
Proof. induction l as [|x l IH]; cbn; [reflexivity|]. rewrite filter_app, IH. reflexivity. Qed.

Lemma flat_map_single {A B} (f : nat * A -> list B) l n i :
  (forall k x, k <> i -> f (k, x) = []) -> n <= i ->
  flat_map f (enum_from n l) = match nth_error l (i - n) with Some x => f (i, x) | None => [] end.
Proof.
  intros H. revert n; induction l as [|x l IH]; intros n Hn; cbn [enum_from flat_map].
  - destruct (i - n); reflexivity.
  - destruct (Nat.eq_dec n i) as [->|Hne].
    + rewrite Nat.sub_diag. cbn [nth_error].
      assert (E : flat_map f (enum_from (S i) l) = []).
      { clear IH. assert (G : forall m, i < m -> flat_map f (enum_from m l) = []).
        { clear -H. induction l as [|y l IH]; intros m Hm; cbn; [reflexivity|]. rewrite (H m y) by lia. apply IH. lia. }
        apply G. lia. }
      rewrite E, app_nil_r. reflexivity.
    + rewrite (H n x Hne). cbn [app]. rewrite IH by lia. replace (i - n) with (S (i - S n)) by lia. reflexivity.
Qed.

Section FromMatrix.
  Context {F : Type} (is_zero : F -> bool) (zero : F).
  Hypothesis is_zero_spec : forall x, is_zero x = true <-> x = zero.

  Lemma nonzeros_at (m : list (list F)) i j :
    filter (fun e => Nat.eqb (row_of e) i && Nat.eqb (col_of e) j) (nonzeros is_zero m) =
    match entry m i j with Some x => if is_zero x then [] else [(i, j, x)] | None => [] end.
  Proof.
    unfold nonzeros, enumerate. rewrite filter_flat_map. rewrite (flat_map_single _ m 0 i); [| |lia].
    - rewrite Nat.sub_0_r. unfold entry. destruct (nth_error m i) as [r|]; [|reflexivity]. cbn [fst snd].
      rewrite filter_flat_map, (flat_map_single _ r 0 j); [| |lia].
      + rewrite Nat.sub_0_r. destruct (nth_error r j) as [x|]; [|reflexivity]. cbn [fst snd].
        destruct (is_zero x); [reflexivity|]. unfold row_of, col_of. cbn. rewrite !Nat.eqb_refl. reflexivity.
      + intros k x Hk. cbn [fst snd]. destruct (is_zero x); [reflexivity|]. unfold row_of, col_of. cbn.
        rewrite Nat.eqb_refl. destruct (Nat.eqb_spec k j); [congruence | reflexivity].
    - intros k r Hk. cbn [fst snd]. rewrite filter_flat_map. apply (proj1 (length_zero_iff_nil _)). clear -Hk.
      generalize (enum_from 0 r) as l. intros l. induction l as [|[c x] l IH]; [reflexivity|]. cbn [flat_map snd fst]. rewrite app_length, IH.
      destruct (is_zero x); [reflexivity|]. unfold row_of. cbn. destruct (Nat.eqb_spec k i); [congruence | reflexivity].
  Qed.

  Lemma nonzeros_In (m : list (list F)) i j x :
    In (i, j, x) (nonzeros is_zero m) <-> entry m i j = Some x /\ x <> zero.
  Proof.
    assert (E : In (i, j, x) (nonzeros is_zero m) <->
      In (i, j, x) (filter (fun e => Nat.eqb (row_of e) i && Nat.eqb (col_of e) j) (nonzeros is_zero m))).
    { rewrite filter_In. unfold row_of, col_of. cbn. rewrite !Nat.eqb_refl. cbn. tauto. }
    rewrite E, nonzeros_at. destruct (entry m i j) as [y|]; [|cbn; split; [intros [] | intros [H _]; discriminate]].
    pose proof (is_zero_spec y) as Z. destruct (is_zero y).
    - cbn. split; [intros [] | intros [H1 H2]; injection H1 as ->; destruct H2; tauto].
    - cbn. split.
      + intros [H|[]]. injection H as ->. split; [reflexivity|]. intros ->. destruct Z as [_ Z]. discriminate (Z eq_refl).
      + intros [H1 _]. injection H1 as ->. auto.
  Qed.
End FromMatrix.

Definition zpair {F} (e : nat * nat * F) : Z * Z := (Z.of_nat (row_of e), Z.of_nat (col_of e)).

Lemma edges_of_rows {F} (ents : list (nat * nat * F)) :
  edges_of (Mat 2 (map (fun e => [Z.of_nat (row_of e); Z.of_nat (col_of e)]) ents)) = map zpair ents.
Proof. cbn. induction ents as [|e l IH]; cbn; [reflexivity | rewrite IH; reflexivity]. Qed.

Lemma adj_of_ents {F} n (ents : list (nat * nat * F)) : (Z.of_nat n <= 2 ^ 31)%Z ->
  Forall (fun e => row_of e < n /\ col_of e < n) ents ->
  adj_new (Plain (Mat 2 (map (fun e => [Z.of_nat (row_of e); Z.of_nat (col_of e)]) ents))) =
  Ok (Mat 2 (map (fun e => [Z.of_nat (row_of e); Z.of_nat (col_of e)]) ents)).
Proof.
  intros Hn H. apply pairs_new. apply pairs_mat.
  - apply Forall_forall. intros r Hr. apply in_map_iff in Hr as (e & <- & _). reflexivity.
  - apply Forall_forall. intros r Hr. apply in_map_iff in Hr as (e & <- & He). rewrite Forall_forall in H. specialize (H _ He).
    unfold fits32. repeat constructor; lia.
Qed.

(** The vertices of an entry list as natural numbers. *)
Definition touches {F} (ents : list (nat * nat * F)) (k : nat) : Prop :=
  exists e, In e ents /\ (row_of e = k \/ col_of e = k).

Lemma vertex_touches {F} (ents : list (nat * nat * F)) z : vertex (map zpair ents) z <-> exists k, z = Z.of_nat k /\ touches ents k.
Proof.
  unfold vertex, src_of, dst_of, touches. split.
  - intros [(w & H)|(w & H)]; apply in_map_iff in H as (e & E & He); unfold zpair in E; injection E as E1 E2.
    + exists (row_of e). eauto.
    + exists (col_of e). eauto.
  - intros (k & -> & e & He & [E|E]); [left; exists (Z.of_nat (col_of e)) | right; exists (Z.of_nat (row_of e))];
      apply in_map_iff; exists e; unfold zpair; subst; auto.
Qed.

Lemma sorted_map_of_nat u : StronglySorted Z.lt u -> Forall (fun z => 0 <= z)%Z u ->
  StronglySorted lt (map Z.to_nat u) /\ map Z.of_nat (map Z.to_nat u) = u.
Proof.
  intros S H. split.
  - induction S as [|x u S IH HF]; cbn; [constructor|]. inversion H; subst. constructor; [apply IH; assumption|].
    apply Forall_forall. intros k Hk. apply in_map_iff in Hk as (z & <- & Hz). rewrite Forall_forall in HF, H.
    specialize (HF _ Hz). pose proof (H z (or_intror Hz)). lia.
  - induction H as [|x u Hx H IH]; cbn; [reflexivity|]. inversion S; subst. rewrite IH by assumption. f_equal. lia.
Qed.

Lemma weights_between_ents {F} (ents : list (nat * nat * F)) a b :
  weights_between (map zpair ents) (map snd ents) (Z.of_nat a) (Z.of_nat b) =
  map snd (filter (fun e => Nat.eqb (row_of e) a && Nat.eqb (col_of e) b) ents).
Proof.
  unfold weights_between. induction ents as [|e l IH]; cbn [map combine filter]; [reflexivity|]. unfold zpair at 1 2. cbn [fst snd].
  replace ((Z.of_nat (row_of e) =? Z.of_nat a)%Z && (Z.of_nat (col_of e) =? Z.of_nat b)%Z) with (Nat.eqb (row_of e) a && Nat.eqb (col_of e) b).
  - destruct (Nat.eqb (row_of e) a && Nat.eqb (col_of e) b); cbn [map snd]; rewrite IH; reflexivity.
  - unfold zpair; cbn. destruct (Nat.eqb_spec (row_of e) a), (Nat.eqb_spec (col_of e) b),
      (Z.eqb_spec (Z.of_nat (row_of e)) (Z.of_nat a)), (Z.eqb_spec (Z.of_nat (col_of e)) (Z.of_nat b)); cbn; lia || reflexivity.
Qed.

(** The matrix of a non-empty entry list (values [w]), over its touched indices. *)
Lemma matrix_of_ents {F G} (add : G -> G -> G) (zero : G) (ents : list (nat * nat * F)) (val : nat * nat * F -> G) :
  ents <> [] ->
  exists u m, StronglySorted lt u /\ (forall k, In k u <-> touches ents k) /\
    matrix_weighted add zero (map zpair ents) (map val ents) = Ok m /\ square (length u) m /\
    forall a b i j, nth_error u a = Some i -> nth_error u b = Some j ->
      entry m a b = Some (total add zero (map val (filter (fun e => Nat.eqb (row_of e) i && Nat.eqb (col_of e) j) ents))).
Proof.
  intros Hne. set (es := map zpair ents).
  assert (Hes : es <> []) by (unfold es; destruct ents; [congruence | discriminate]).
  destruct (unique_vertices es) as [HS HI]. fold (uni es) in HS, HI.
  assert (HP : Forall (fun z => 0 <= z)%Z (uni es)).
  { apply Forall_forall. intros z Hz. apply HI in Hz. unfold es in Hz. apply vertex_touches in Hz as (k & -> & _). lia. }
  destruct (sorted_map_of_nat _ HS HP) as [S1 S2].
  destruct (matrix_weighted_ok add zero es (map val ents) Hes) as (m & Hm & Sq & Hent); [unfold es; rewrite !map_length; reflexivity|].
  exists (map Z.to_nat (uni es)), m. split; [exact S1|]. split; [|split; [exact Hm|]; split; [rewrite map_length; exact Sq|]].
  - intros k. split.
    + intros Hk. apply in_map_iff in Hk as (z & <- & Hz). apply HI in Hz. unfold es in Hz. apply vertex_touches in Hz as (k & -> & Hk).
      rewrite Nat2Z.id. exact Hk.
    + intros Hk. apply in_map_iff. exists (Z.of_nat k). split; [apply Nat2Z.id|]. apply HI. unfold es. apply vertex_touches. eauto.
  - intros a b i j Ha Hb. rewrite nth_error_map' in Ha, Hb.
    destruct (nth_error (uni es) a) as [za|] eqn:Ea; [|discriminate]. destruct (nth_error (uni es) b) as [zb|] eqn:Eb; [|discriminate].
    cbn in Ha, Hb. injection Ha as <-. injection Hb as <-. rewrite (Hent a b za zb Ea Eb). do 2 f_equal.
    rewrite Forall_forall in HP. pose proof (HP _ (nth_error_In _ _ Ea)). pose proof (HP _ (nth_error_In _ _ Eb)).
    pose proof (weights_between_ents (map (fun e => (fst e, val e)) ents) (Z.to_nat za) (Z.to_nat zb)) as W.
    rewrite !map_map in W. rewrite !Z2Nat.id in W by assumption. unfold es.
    etransitivity; [exact W|]. clear. induction ents as [|e l IH]; [reflexivity|]. cbn [map filter].
    change (row_of (fst e, val e)) with (row_of e). change (col_of (fst e, val e)) with (col_of e).
    destruct (Nat.eqb (row_of e) (Z.to_nat za) && Nat.eqb (col_of e) (Z.to_nat zb)); cbn [map snd]; rewrite IH; reflexivity.
Qed.

Lemma sorted_lt_seq u n : StronglySorted lt u -> (forall k, In k u <-> k < n) -> u = seq 0 n.
Proof.
  intros S H.
  assert (S' : forall a l, (forall k, In k l -> a <= k) -> StronglySorted lt l -> forall n, (forall k, In k l <-> a <= k < a + n) -> l = seq a n).
  { clear. intros a l. revert a. induction l as [|x l IH]; intros a Hlo HS n H.
    - destruct n; [reflexivity|]. exfalso. apply (H a). lia.
    - inversion HS as [|? ? HS' HF]; subst. rewrite Forall_forall in HF. destruct n as [|n].
      + exfalso. assert (a <= x < a + 0) by (apply H; left; reflexivity). lia.
      + assert (x = a).
        { destruct (proj2 (H a) ltac:(lia)) as [E|Ha]; [exact E|]. specialize (HF _ Ha). pose proof (Hlo x (or_introl eq_refl)). lia. }
        subst x. cbn. f_equal. apply IH; [intros k Hk; specialize (HF _ Hk); lia | exact HS' |].
        intros k. split.
        * intros Hk. specialize (HF _ Hk). pose proof (proj1 (H k) (or_intror Hk)). lia.
        * intros Hk. destruct (proj2 (H k) ltac:(lia)) as [E|Hk']; [lia | exact Hk']. }
  apply (S' 0); [intros; lia | exact S |]. intros k. rewrite H. lia.
Qed.

Section RoundTrip.
  Context {F : Type} (add : F -> F -> F) (zero : F) (is_zero : F -> bool) (ofZ : Z -> F).
  Hypothesis is_zero_spec : forall x, is_zero x = true <-> x = zero.
  Hypothesis add_0 : forall x, add zero x = x.

  Lemma touches_isolated n A k : square n A -> touches (nonzeros is_zero A) k <-> k < n /\ ~ isolated zero A k.
  Proof.
    intros Sq. split.
    - intros ([[i j] x] & He & Hk). apply (nonzeros_In is_zero zero is_zero_spec) in He as [He Hx].
      destruct (entry_lt n A i j x Sq He) as [Hi Hj]. unfold row_of, col_of in Hk. cbn in Hk. split; [lia|].
      intros Iso. apply Hx. destruct Hk as [->| ->]; eapply Iso; eauto.
    - intros [Hk HN].
      destruct (existsb (fun e => Nat.eqb (row_of e) k || Nat.eqb (col_of e) k) (nonzeros is_zero A)) eqn:E.
      + apply existsb_exists in E as (e & He & E). apply orb_true_iff in E. rewrite !Nat.eqb_eq in E. exists e. auto.
      + exfalso. apply HN. intros j x Hx. destruct (is_zero x) eqn:Z; [apply is_zero_spec; exact Z|]. exfalso.
        assert (Nz : x <> zero) by (intros ->; pose proof (proj2 (is_zero_spec zero) eq_refl); congruence).
        rewrite <- not_true_iff_false in E. apply E. apply existsb_exists.
        destruct Hx as [Hx|Hx]; [exists (k, j, x) | exists (j, k, x)]; (split; [apply (nonzeros_In is_zero zero is_zero_spec); auto|]);
          unfold row_of, col_of; cbn; rewrite Nat.eqb_refl; auto using orb_true_r.
  Qed.

  Definition ents_ok n (ents : list (nat * nat * F)) := Forall (fun e => row_of e < n /\ col_of e < n) ents.

  Lemma nonzeros_ok n A : square n A -> ents_ok n (nonzeros is_zero A).
  Proof.
    intros Sq. apply Forall_forall. intros [[i j] x] He. apply (nonzeros_In is_zero zero is_zero_spec) in He as [He _].
    exact (entry_lt n A i j x Sq He).
  Qed.
  Lemma setdiag0_ok n ents : ents_ok n ents -> ents_ok n (setdiag0 zero n ents).
  Proof.
    intros H. apply Forall_app. split.
    - apply Forall_forall. intros e He. apply filter_In in He as [He _]. unfold ents_ok in H. rewrite Forall_forall in H. auto.
    - apply Forall_forall. intros e He. apply in_map_iff in He as (i & <- & Hi). apply in_seq in Hi. unfold row_of, col_of; cbn. lia.
  Qed.

  (** Both matrices obtained from a non-empty entry list. *)
  Lemma matrix_both n (ents : list (nat * nat * F)) : (Z.of_nat n <= 2 ^ 31)%Z -> ents_ok n ents -> ents <> [] ->
    let d := Mat 2 (map (fun e => [Z.of_nat (row_of e); Z.of_nat (col_of e)]) ents) in
    exists u mw mu, StronglySorted lt u /\ (forall k, In k u <-> touches ents k) /\
      matrix add zero ofZ (mkA d (map snd ents)) = Ok mw /\ matrix add zero ofZ (mkA d []) = Ok mu /\
      square (length u) mw /\ square (length u) mu /\
      forall a b i j, nth_error u a = Some i -> nth_error u b = Some j ->
        let at_ij := filter (fun e => Nat.eqb (row_of e) i && Nat.eqb (col_of e) j) ents in
        entry mw a b = Some (total add zero (map snd at_ij)) /\ entry mu a b = Some (ofZ (Z.of_nat (length at_ij))).
  Proof.
    intros Hn Hok Hne d.
    destruct (matrix_of_ents add zero ents snd Hne) as (u & mw & S & Hu & Hmw & Sqw & Ew).
    destruct (matrix_of_ents Z.add 0%Z ents (fun _ => 1%Z) Hne) as (u' & mu & S' & Hu' & Hmu & Squ & Eu).
    assert (u = u').
    { clear -S S' Hu Hu'. assert (H : forall k, In k u <-> In k u') by (intros k; rewrite Hu, Hu'; tauto). clear Hu Hu'.
      revert u' S' H; induction S as [|x u S IH HF]; intros u' S' H.
      - destruct u' as [|y u']; [reflexivity|]. destruct (proj2 (H y) (or_introl eq_refl)).
      - destruct S' as [|y u' S' HG]; [destruct (proj1 (H x) (or_introl eq_refl))|]. rewrite Forall_forall in HF, HG.
        assert (x = y).
        { destruct (proj1 (H x) (or_introl eq_refl)) as [E|Hx]; [congruence|].
          destruct (proj2 (H y) (or_introl eq_refl)) as [E|Hy]; [congruence|]. specialize (HF _ Hy). specialize (HG _ Hx). lia. }
        subst y. f_equal. apply IH; [exact S'|]. intros z. specialize (H z). cbn in H. split; intros Hz.
        + destruct (proj1 H (or_intror Hz)) as [E|E]; [|exact E]. subst z. specialize (HF _ Hz). lia.
        + destruct (proj2 H (or_intror Hz)) as [E|E]; [|exact E]. subst z. specialize (HG _ Hz). lia. }
    subst u'. exists u, mw, (map (map ofZ) mu). split; [exact S|]. split; [exact Hu|].
    assert (Ed : edges_of d = map zpair ents) by (apply edges_of_rows).
    split; [|split; [|split; [exact Sqw|split]]].
    - unfold matrix. cbn [a_data a_weights]. rewrite Ed. destruct (map snd ents) eqn:E; [destruct ents; [congruence|discriminate]|]. exact Hmw.
    - unfold matrix. cbn [a_data a_weights]. rewrite Ed, matrix_int_weighted, map_length.
      replace (repeat 1%Z (length ents)) with (map (fun _ : nat * nat * F => 1%Z) ents) by (clear; induction ents; cbn; congruence).
      rewrite Hmu. reflexivity.
    - destruct Squ as [Q1 Q2]. split; [rewrite map_length; exact Q1|]. apply Forall_forall. intros r Hr.
      apply in_map_iff in Hr as (r' & <- & Hr'). rewrite map_length. rewrite Forall_forall in Q2. auto.
    - intros a b i j Ha Hb. split; [apply Ew; assumption|].
      pose proof (Eu a b i j Ha Hb) as E. unfold entry in *. rewrite nth_error_map'.
      destruct (nth_error mu a) as [r|]; [|discriminate]. cbn. rewrite nth_error_map', E. cbn. do 2 f_equal.
      unfold total. rewrite fold_add_ones by (apply Forall_forall; intros z Hz; apply in_map_iff in Hz as (? & <- & _); reflexivity).
      rewrite map_length. reflexivity.
  Qed.

  Lemma from_matrix_plain n A w : square n A -> (Z.of_nat n <= 2 ^ 31)%Z ->
    from_matrix is_zero zero A w false = Ok (mkA
       (Mat 2 (map (fun e => [Z.of_nat (row_of e); Z.of_nat (col_of e)]) (nonzeros is_zero A)))
       (if w then map snd (nonzeros is_zero A) else [])).
  Proof. intros Sq Hn. unfold from_matrix. rewrite (adj_of_ents n) by (auto; apply nonzeros_ok; exact Sq). reflexivity. Qed.
  Lemma from_matrix_loops n A w : square n A -> (Z.of_nat n <= 2 ^ 31)%Z ->
    from_matrix is_zero zero A w true = Ok (mkA
       (Mat 2 (map (fun e => [Z.of_nat (row_of e); Z.of_nat (col_of e)]) (setdiag0 zero n (nonzeros is_zero A))))
       (if w then map snd (setdiag0 zero n (nonzeros is_zero A)) else [])).
  Proof.
    intros Sq Hn. unfold from_matrix. rewrite (proj1 Sq).
    rewrite (adj_of_ents n) by (auto; apply setdiag0_ok, nonzeros_ok; exact Sq). reflexivity.
  Qed.

  (** Both round trips, with isolated indices removed. *)
  Lemma roundtrip_general n A : square n A -> (Z.of_nat n <= 2 ^ 31)%Z ->
    (exists k, k < n /\ ~ isolated zero A k) ->
    exists u aw au mw mu,
      StronglySorted lt u /\ (forall k, In k u <-> k < n /\ ~ isolated zero A k) /\
      from_matrix is_zero zero A true false = Ok aw /\ matrix add zero ofZ aw = Ok mw /\
      from_matrix is_zero zero A false false = Ok au /\ matrix add zero ofZ au = Ok mu /\
      square (length u) mw /\ square (length u) mu /\
      forall a b i j x, nth_error u a = Some i -> nth_error u b = Some j -> entry A i j = Some x ->
        entry mw a b = Some x /\ entry mu a b = Some (if is_zero x then ofZ 0 else ofZ 1).
  Proof.
    intros Sq Hn (k & Hk). apply (touches_isolated n A k Sq) in Hk.
    assert (Hne : nonzeros is_zero A <> []) by (destruct Hk as (e & He & _); intros E; rewrite E in He; exact He).
    destruct (matrix_both n _ Hn (nonzeros_ok n A Sq) Hne) as (u & mw & mu & S & Hu & Hw & Hmu & Sw & Su & E).
    exists u. eexists _, _. exists mw, mu. split; [exact S|]. split; [intros j; rewrite Hu; apply touches_isolated; exact Sq|].
    split; [apply (from_matrix_plain n); auto|]. split; [exact Hw|]. split; [apply (from_matrix_plain n); auto|]. split; [exact Hmu|].
    split; [exact Sw|]. split; [exact Su|]. intros a b i j x Ha Hb Hx. destruct (E a b i j Ha Hb) as [E1 E2].
    rewrite nonzeros_at in E1, E2. rewrite Hx in E1, E2. pose proof (is_zero_spec x) as Z. destruct (is_zero x).
    - rewrite E1, E2. split; [unfold total; cbn; f_equal; symmetry; tauto | reflexivity].
    - rewrite E1, E2. unfold total. cbn. rewrite add_0. auto.
  Qed.

  Lemma roundtrip_loops n A : square n A -> (Z.of_nat n <= 2 ^ 31)%Z -> 0 < n ->
    exists aw au mw mu,
      from_matrix is_zero zero A true true = Ok aw /\ matrix add zero ofZ aw = Ok mw /\
      from_matrix is_zero zero A false true = Ok au /\ matrix add zero ofZ au = Ok mu /\
      square n mw /\ square n mu /\
      forall i j x, entry A i j = Some x ->
        entry mw i j = Some (if Nat.eqb i j then zero else x) /\
        entry mu i j = Some (if Nat.eqb i j then ofZ 1 else if is_zero x then ofZ 0 else ofZ 1).
  Proof.
    intros Sq Hn Hpos. set (ents := setdiag0 zero n (nonzeros is_zero A)).
    assert (Hne : ents <> []) by (unfold ents, setdiag0; destruct n; [lia|]; cbn; intros E; apply app_eq_nil in E as [_ E]; discriminate).
    assert (Hok : ents_ok n ents) by (apply setdiag0_ok, nonzeros_ok; exact Sq).
    destruct (matrix_both n _ Hn Hok Hne) as (u & mw & mu & S & Hu & Hw & Hmu & Sw & Su & E).
    assert (u = seq 0 n).
    { apply sorted_lt_seq; [exact S|]. intros k. rewrite Hu. split.
      - intros (e & He & Hk). unfold ents_ok in Hok. rewrite Forall_forall in Hok. specialize (Hok _ He). lia.
      - intros Hk. exists (k, k, zero). split; [|left; reflexivity]. unfold ents, setdiag0. apply in_or_app. right.
        apply in_map_iff. exists k. split; [reflexivity | apply in_seq; lia]. }
    subst u. rewrite seq_length in *.
    eexists _, _. exists mw, mu.
    split; [apply (from_matrix_loops n); auto|]. split; [exact Hw|]. split; [apply (from_matrix_loops n); auto|]. split; [exact Hmu|].
    split; [exact Sw|]. split; [exact Su|]. intros i j x Hx. destruct (entry_lt n A i j x Sq Hx) as [Hi Hj].
    assert (Ns : forall k, k < n -> nth_error (seq 0 n) k = Some k).
    { intros k Hk. rewrite (nth_error_nth' (seq 0 n) 0) by (rewrite seq_length; exact Hk). rewrite seq_nth by exact Hk. reflexivity. }
    destruct (E i j i j (Ns i Hi) (Ns j Hj)) as [E1 E2].
    assert (FE : filter (fun e => Nat.eqb (row_of e) i && Nat.eqb (col_of e) j) ents =
                 if Nat.eqb i j then [(i, i, zero)] else if is_zero x then [] else [(i, j, x)]).
    { unfold ents, setdiag0. rewrite filter_app.
      assert (F2 : filter (fun e => Nat.eqb (row_of e) i && Nat.eqb (col_of e) j) (map (fun i => (i, i, zero)) (seq 0 n)) =
                   if Nat.eqb i j then [(i, i, zero)] else []).
      { assert (G : forall a k, filter (fun e => Nat.eqb (row_of e) i && Nat.eqb (col_of e) j) (map (fun i => (i, i, zero)) (seq a k)) =
                   if Nat.eqb i j && (a <=? i) && (i <? a + k) then [(i, i, zero)] else []).
        { clear. intros a k. revert a; induction k as [|k IH]; intros a.
          - cbn [seq map filter]. destruct (Nat.eqb i j), (Nat.leb_spec a i), (Nat.ltb_spec i (a + 0)); cbn [andb]; try lia; reflexivity.
          - cbn [seq map filter]. rewrite IH. unfold row_of, col_of. cbn [fst snd].
            destruct (Nat.eqb_spec a i), (Nat.eqb_spec a j), (Nat.eqb_spec i j), (Nat.leb_spec (S a) i), (Nat.leb_spec a i),
              (Nat.ltb_spec i (S a + k)), (Nat.ltb_spec i (a + S k)); cbn [andb]; try lia; subst; reflexivity. }
        rewrite G. destruct (Nat.eqb i j), (Nat.leb_spec 0 i), (Nat.ltb_spec i (0 + n)); cbn [andb]; try lia; reflexivity. }
      rewrite F2.
      assert (F1 : filter (fun e => Nat.eqb (row_of e) i && Nat.eqb (col_of e) j)
                     (filter (fun e => negb (Nat.eqb (row_of e) (col_of e))) (nonzeros is_zero A)) =
                   if Nat.eqb i j then [] else if is_zero x then [] else [(i, j, x)]).
      { pose proof (nonzeros_at is_zero A i j) as NA. rewrite Hx in NA.
        destruct (Nat.eqb_spec i j) as [->|Hij].
        - generalize (nonzeros is_zero A) as l. clear. intros l. induction l as [|e l IH]; [reflexivity|]. cbn [filter].
          destruct (Nat.eqb_spec (row_of e) (col_of e)) as [Er|Er]; cbn [negb]; [exact IH|]. cbn [filter].
          destruct (Nat.eqb_spec (row_of e) j), (Nat.eqb_spec (col_of e) j); cbn; try exact IH. congruence.
        - rewrite <- NA. generalize (nonzeros is_zero A) as l. clear -Hij. intros l. induction l as [|e l IH]; [reflexivity|]. cbn [filter].
          destruct (Nat.eqb_spec (row_of e) (col_of e)) as [Er|Er]; cbn [negb filter].
          + rewrite IH. destruct (Nat.eqb_spec (row_of e) i), (Nat.eqb_spec (col_of e) j); cbn; try reflexivity. congruence.
          + rewrite IH. reflexivity. }
      rewrite F1. destruct (Nat.eqb i j); [reflexivity|]. apply app_nil_r. }
    rewrite FE in E1, E2. rewrite E1, E2. destruct (Nat.eqb i j).
    - unfold total; cbn. rewrite add_0. auto.
    - pose proof (is_zero_spec x) as Z. destruct (is_zero x); unfold total; cbn.
      + split; [f_equal; symmetry; tauto | reflexivity].
      + rewrite add_0. auto.
  Qed.

  Lemma from_matrix_all_zero n A w : square n A -> (Z.of_nat n <= 2 ^ 31)%Z -> (forall k, k < n -> isolated zero A k) ->
    exists a, from_matrix is_zero zero A w false = Ok a /\ matrix add zero ofZ a = Err ValueError.
  Proof.
    intros Sq Hn H. assert (E : nonzeros is_zero A = []).
    { destruct (nonzeros is_zero A) as [|e l] eqn:E; [reflexivity|]. exfalso.
      assert (T : touches (nonzeros is_zero A) (row_of e)) by (exists e; rewrite E; cbn; auto).
      apply (touches_isolated n A _ Sq) in T as [T1 T2]. apply T2, H, T1. }
    eexists. split; [apply (from_matrix_plain n); auto|]. rewrite E. destruct w; reflexivity.
  Qed.
End RoundTrip.
