From Verif Require Import Prelude Dict Keys MaskTypes SpecMask Mask MaskProofs SpecArray SpecAdj Arrays ArraysProofs Composite SpecComposite CompositeProofs Adjacency AdjacencyProofs Descend DescendProofs SpecHard Hard HardProofs SpecHier Hierarchy.

(** * Stable sort *)

Definition before (key : nat -> nat) (x y : nat) : Prop := key x < key y \/ (key x = key y /\ x < y).

Lemma sort_ins_In key x l y : In y (sort_ins key x l) <-> y = x \/ In y l.
Proof.
  induction l as [|z l IH]; cbn [sort_ins In]; [split; intros [H|H]; auto; contradiction|].
  destruct (key x <=? key z); cbn [In]; rewrite ?IH; split; intros H; repeat (destruct H as [H|H]); auto.
Qed.
Lemma sort_by_In key l y : In y (sort_by key l) <-> In y l.
Proof.
  induction l as [|x l IH]; cbn; [tauto|]. rewrite sort_ins_In, IH. split; intros [H|H]; auto.
Qed.
Lemma sort_ins_sorted key x l : StronglySorted (before key) l -> Forall (fun y => x < y) l -> StronglySorted (before key) (sort_ins key x l).
Proof.
  induction 1 as [|y l HS IH HF]; intros HL; cbn; [repeat constructor|].
  inversion HL as [|? ? Hy HL']; subst. destruct (Nat.leb_spec (key x) (key y)) as [H|H].
  - constructor; [constructor; assumption|]. constructor; [unfold before; lia|].
    apply Forall_forall. intros z Hz. rewrite Forall_forall in HF, HL'. specialize (HF z Hz). specialize (HL' z Hz). unfold before in *. lia.
  - constructor; [apply IH; exact HL'|]. apply Forall_forall. intros z Hz. apply sort_ins_In in Hz as [->|Hz]; [unfold before; lia|].
    rewrite Forall_forall in HF; auto.
Qed.
Lemma sort_by_sorted key l : StronglySorted lt l -> StronglySorted (before key) (sort_by key l).
Proof.
  induction 1 as [|x l HS IH HF]; cbn; [constructor|]. apply sort_ins_sorted; [exact IH|].
  apply Forall_forall. intros y Hy. apply sort_by_In in Hy. rewrite Forall_forall in HF. auto.
Qed.
Lemma before_NoDup key l : StronglySorted (before key) l -> NoDup l.
Proof.
  induction 1 as [|x l HS IH HF]; constructor; auto. intros F. rewrite Forall_forall in HF. specialize (HF x F). unfold before in HF. lia.
Qed.
Lemma seq_sorted a n : StronglySorted lt (seq a n).
Proof.
  revert a; induction n as [|n IH]; intros a; cbn; constructor; auto. apply Forall_forall. intros y Hy. apply in_seq in Hy. lia.
Qed.

(** * The parent matrix *)

Definition on (m : list (list bool)) (i d : nat) : bool := nth d (row m i) false.

Lemma nth_set_nth {A} (l : list A) i x j (z : A) : i < length l -> nth j (set_nth l i x) z = if Nat.eqb i j then x else nth j l z.
Proof.
  revert i j; induction l as [|y l IH]; intros [|i] [|j] H; cbn in *; try lia; auto. apply IH. lia.
Qed.
Lemma nth_map2_and_not (x y : list bool) d : length y = length x ->
  nth d (map2 (fun a b => a && negb b) x y) false = nth d x false && negb (nth d y false).
Proof.
  revert y d; induction x as [|a x IH]; intros [|b y] [|d] H; cbn in *; try discriminate; auto.
Qed.

Section Parent.
  Context (n : nat).
  Definition mat_ok (m : list (list bool)) : Prop := square n m.

  Lemma row_len m i : mat_ok m -> i < n -> length (row m i) = n.
  Proof.
    intros [L F] Hi. unfold row. rewrite Forall_forall in F. apply F. apply nth_In. lia.
  Qed.

  Lemma step_ok m p : mat_ok m -> fst p < n -> snd p < n -> mat_ok (parent_step m p).
  Proof.
    intros M Hi Hj. unfold parent_step. destruct (Nat.eqb _ _); [exact M|]. destruct M as [L F].
    split; [rewrite set_nth_length; exact L|]. apply Forall_nth_error. intros k r Hk. rewrite set_nth_nth in Hk.
    destruct (Nat.eqb_spec (fst p) k) as [E|E].
    - destruct (nth_error m k); [|discriminate]. injection Hk as <-. rewrite map2_length, !row_len by first [assumption | split; assumption]. lia.
    - rewrite Forall_forall in F. apply F. eapply nth_error_In; exact Hk.
  Qed.

  Lemma step_on m p i d : mat_ok m -> fst p < n -> snd p < n ->
    on (parent_step m p) i d = if Nat.eqb (fst p) i && negb (Nat.eqb (fst p) (snd p)) then on m i d && negb (on m (snd p) d) else on m i d.
  Proof.
    intros M Hi Hj. unfold parent_step. destruct (Nat.eqb_spec (fst p) (snd p)) as [E|E]; cbn [negb]; [rewrite andb_false_r; reflexivity|].
    rewrite andb_true_r. unfold on, row at 1. rewrite nth_set_nth by (destruct M; lia).
    destruct (Nat.eqb_spec (fst p) i) as [<-|Hn]; [|reflexivity].
    apply nth_map2_and_not. rewrite !row_len by assumption. reflexivity.
  Qed.

  (** One outer iteration: row i minus every other (unchanged) row. *)
  Lemma inner_on i (order : list nat) : forall m, mat_ok m -> i < n -> Forall (fun j => j < n) order ->
    let m' := fold_left parent_step (map (fun j => (i, j)) order) m in
    mat_ok m' /\ forall k d, on m' k d =
      if Nat.eqb i k then on m i d && negb (existsb (fun j => negb (Nat.eqb i j) && on m j d) order) else on m k d.
  Proof.
    induction order as [|j order IH]; intros m M Hi HF; cbn zeta.
    - cbn. split; [exact M|]. intros k d. destruct (Nat.eqb_spec i k) as [<-|]; [rewrite andb_true_r|]; reflexivity.
    - inversion HF as [|? ? Hj HF']; subst. cbn [map fold_left].
      pose proof (step_ok m (i, j) M Hi Hj) as M1. destruct (IH _ M1 Hi HF') as [M2 H2]. split; [exact M2|].
      intros k d. rewrite H2. destruct (Nat.eqb_spec i k) as [<-|Hk].
      + rewrite (step_on m (i, j) i d M Hi Hj). cbn [fst snd]. rewrite Nat.eqb_refl. cbn [andb].
        assert (E : existsb (fun j0 => negb (i =? j0) && on (parent_step m (i, j)) j0 d) order = existsb (fun j0 => negb (i =? j0) && on m j0 d) order).
        { clear -M Hi Hj. induction order as [|x l IHl]; [reflexivity|]. cbn. rewrite IHl. f_equal.
          destruct (Nat.eqb_spec i x) as [|Hx]; [reflexivity|]. cbn [negb andb]. rewrite step_on by assumption. cbn [fst].
          destruct (Nat.eqb_spec i x); [contradiction | reflexivity]. }
        rewrite E. cbn [existsb]. rewrite negb_orb. destruct (Nat.eqb i j); cbn [negb andb]; [reflexivity|].
        rewrite andb_assoc. reflexivity.
      + rewrite step_on by assumption. cbn [fst]. destruct (Nat.eqb_spec i k); [contradiction | reflexivity].
  Qed.

  (** All iterations, from the last row of the order to the first. *)
  Fixpoint upto (k : nat) (l : list nat) : list nat :=
    match l with [] => [] | x :: r => if Nat.eqb x k then [] else x :: upto k r end.
  Lemma upto_app pre x suf : ~ In x pre -> upto x (pre ++ x :: suf) = pre.
  Proof.
    induction pre as [|y pre IH]; cbn; intros H; [rewrite Nat.eqb_refl; reflexivity|].
    destruct (Nat.eqb_spec y x) as [->|Hn]; [exfalso; apply H; left; reflexivity|]. f_equal. apply IH. intros F; apply H; right; exact F.
  Qed.
  Lemma upto_later pre x suf y : NoDup (pre ++ x :: suf) -> In y suf -> In x (upto y (pre ++ x :: suf)).
  Proof.
    intros ND Hy. apply in_split in Hy as (s1 & s2 & ->).
    replace (pre ++ x :: s1 ++ y :: s2) with ((pre ++ x :: s1) ++ y :: s2) in * by (rewrite <- app_assoc; reflexivity).
    rewrite upto_app; [apply in_or_app; right; left; reflexivity|]. apply NoDup_remove_2 in ND. intros F. apply ND. apply in_or_app. left; exact F.
  Qed.

  Definition blocked (m0 : list (list bool)) (order suf : list nat) (k d : nat) : bool :=
    existsb (Nat.eqb k) suf && existsb (fun j => on m0 j d) (upto k order).

  Lemma outer_on m0 order : NoDup order -> Forall (fun j => j < n) order ->
    forall pre suf m, order = pre ++ suf -> mat_ok m ->
      (forall k d, on m k d = on m0 k d && negb (blocked m0 order suf k d)) ->
      let m' := fold_left parent_step (list_prod (rev pre) order) m in
      mat_ok m' /\ forall k d, on m' k d = on m0 k d && negb (blocked m0 order order k d).
  Proof.
    intros ND HF. induction pre as [|x pre IH] using rev_ind; intros suf m HO M HP; cbn zeta.
    - cbn in *. subst suf. auto.
    - rewrite rev_app_distr. cbn [rev app list_prod]. rewrite fold_left_app.
      rewrite <- app_assoc in HO. cbn [app] in HO.
      assert (Hx : x < n) by (rewrite Forall_forall in HF; apply HF; rewrite HO; apply in_or_app; right; left; reflexivity).
      destruct (inner_on x order m M Hx HF) as [M1 H1].
      apply (IH (x :: suf) _ HO M1). intros k d. rewrite H1. clear IH H1.
      assert (NX : ~ In x pre) by (rewrite HO in ND; apply NoDup_remove_2 in ND; intros F; apply ND, in_or_app; auto).
      assert (NS : ~ In x suf) by (rewrite HO in ND; apply NoDup_remove_2 in ND; intros F; apply ND, in_or_app; auto).
      destruct (Nat.eqb_spec x k) as [<-|Hk].
      + assert (BX : blocked m0 order suf x d = false).
        { unfold blocked. replace (existsb (Nat.eqb x) suf) with false; [reflexivity|]. symmetry.
          destruct (existsb (Nat.eqb x) suf) eqn:E; [|reflexivity]. apply existsb_nat in E. contradiction. }
        rewrite (HP x d), BX. cbn [negb]. rewrite andb_true_r. unfold blocked. cbn [existsb]. rewrite Nat.eqb_refl. cbn [orb andb].
        rewrite HO at 2. rewrite upto_app by exact NX. destruct (on m0 x d) eqn:Ex; [|reflexivity]. cbn [andb]. f_equal.
        apply eq_true_iff_eq. rewrite !existsb_exists. split.
        * intros (j & Hj & E). apply andb_true_iff in E as [E1 E2]. apply negb_true_iff, Nat.eqb_neq in E1.
          rewrite HP in E2. apply andb_true_iff in E2 as [E2 E3]. rewrite HO in Hj. apply in_app_or in Hj as [Hj|[Hj|Hj]]; [eauto | congruence |].
          exfalso. apply negb_true_iff in E3. unfold blocked in E3. apply andb_false_iff in E3 as [E3|E3].
          -- assert (T : existsb (Nat.eqb j) suf = true) by (apply existsb_nat; exact Hj). congruence.
          -- assert (T : existsb (fun j0 => on m0 j0 d) (upto j order) = true); [|congruence]. apply existsb_exists. exists x. split; [|exact Ex].
             rewrite HO in *. apply upto_later; assumption.
        * intros (j & Hj & E). exists j. split; [rewrite HO; apply in_or_app; left; exact Hj|].
          assert (j <> x) by (intros ->; contradiction). destruct (Nat.eqb_spec x j); [congruence|]. cbn [negb andb].
          rewrite HP, E. cbn [andb]. apply negb_true_iff. unfold blocked.
          replace (existsb (Nat.eqb j) suf) with false; [reflexivity|]. symmetry.
          destruct (existsb (Nat.eqb j) suf) eqn:E'; [|reflexivity]. apply existsb_nat in E'. exfalso.
          rewrite HO in ND. apply in_split in Hj as (a & b & ->). rewrite <- app_assoc in ND. cbn in ND. apply NoDup_remove_2 in ND.
          apply ND. apply in_or_app. right. apply in_or_app. right. right. exact E'.
      + rewrite HP. unfold blocked. cbn [existsb]. destruct (Nat.eqb_spec k x); [congruence | reflexivity].
  Qed.

  Lemma asc_NoDup m : NoDup (asc_parents m).
  Proof. eapply before_NoDup. apply sort_by_sorted. apply StronglySorted_filter, seq_sorted. Qed.
  Lemma asc_In m i : mat_ok m -> In i (asc_parents m) <-> i < n /\ any (row m i) = true.
  Proof. intros [L _]. unfold asc_parents. rewrite sort_by_In, filter_In, in_seq, L. intuition lia. Qed.
  Lemma asc_sorted m : StronglySorted (before (fun i => count_true (row m i))) (asc_parents m).
  Proof. apply sort_by_sorted. apply StronglySorted_filter, seq_sorted. Qed.

  Lemma upto_In R l k x : StronglySorted R l -> (forall a b, R a b -> ~ R b a) -> In k l ->
    In x (upto k l) <-> In x l /\ R x k.
  Proof.
    intros HS HA. induction HS as [|y l HS IH HF]; intros Hk; [destruct Hk|]. cbn [upto]. rewrite Forall_forall in HF.
    destruct (Nat.eqb_spec y k) as [->|Hn].
    - split; [intros []|]. intros [[->|Hx] HR]; [exact (HA _ _ HR HR) | exact (HA _ _ HR (HF x Hx))].
    - destruct Hk as [Hk|Hk]; [congruence|]. cbn [In]. rewrite IH by exact Hk. split.
      + intros [->|[H1 H2]]; [split; [left; reflexivity | apply HF; exact Hk] | auto].
      + intros [[->|H1] H2]; auto.
  Qed.

  Lemma parent_matrix_ok m : mat_ok m -> mat_ok (parent_matrix m) /\ forall i d,
    on (parent_matrix m) i d = true <->
    on m i d = true /\ forall i', on m i' d = true -> i' < n -> ~ before (fun i => count_true (row m i)) i' i.
  Proof.
    intros M. unfold parent_matrix.
    destruct (outer_on m (asc_parents m) (asc_NoDup m)) with (pre := asc_parents m) (suf := @nil nat) (m := m) as [M' H].
    { apply Forall_forall. intros j Hj. apply asc_In in Hj as [Hj _]; assumption. }
    { rewrite app_nil_r. reflexivity. }
    { exact M. }
    { intros k d. unfold blocked. cbn. rewrite andb_true_r. reflexivity. }
    split; [exact M'|]. intros i d. rewrite H, andb_true_iff, negb_true_iff.
    assert (OA : forall k, k < n -> on m k d = true -> In k (asc_parents m)).
    { intros k Hk Ho. apply asc_In; [exact M|]. split; [exact Hk|]. unfold any. apply existsb_exists. exists true. split; [|reflexivity].
      unfold on in Ho. rewrite <- Ho. apply nth_In. rewrite row_len by assumption.
      destruct (Nat.lt_ge_cases d n); [assumption|]. rewrite nth_overflow in Ho; [discriminate | rewrite row_len by assumption; lia]. }
    assert (IN : forall k, on m k d = true -> k < n).
    { intros k Ho. destruct (Nat.lt_ge_cases k n); [assumption|]. exfalso. unfold on, row in Ho.
      rewrite (nth_overflow m) in Ho by (destruct M; lia). destruct d; discriminate. }
    split.
    - intros [Ho HB]. split; [exact Ho|]. intros i' Ho' Hi' HR. specialize (IN i Ho). unfold blocked in HB.
      apply andb_false_iff in HB as [HB|HB].
      + assert (T : existsb (Nat.eqb i) (asc_parents m) = true) by (apply existsb_nat, OA; assumption). congruence.
      + assert (T : existsb (fun j => on m j d) (upto i (asc_parents m)) = true); [|congruence]. apply existsb_exists. exists i'. split; [|exact Ho'].
        apply (upto_In _ _ _ _ (asc_sorted m)); [unfold before; lia | apply OA; assumption|]. split; [apply OA; assumption | exact HR].
    - intros [Ho HB]. split; [exact Ho|]. unfold blocked. apply andb_false_iff. right.
      destruct (existsb (fun j => on m j d) (upto i (asc_parents m))) eqn:E; [|reflexivity]. exfalso. apply existsb_exists in E as (i' & Hi & Ho').
      apply (upto_In _ _ _ _ (asc_sorted m)) in Hi as [_ HR]; [exact (HB i' Ho' (IN _ Ho') HR) | unfold before; lia | apply OA; auto].
  Qed.
End Parent.

(** * closest *)

Lemma card_fun P k k' : card P k -> card P k' -> k = k'.
Proof.
  intros (l & N & H & <-) (l' & N' & H' & <-). apply Permutation_length. apply NoDup_Permutation; auto.
  intros x. rewrite H, H'. reflexivity.
Qed.
Lemma card_ext P Q k : (forall x, P x <-> Q x) -> card P k -> card Q k.
Proof. intros E (l & N & H & L). exists l. split; [exact N|]. split; [|exact L]. intros x. rewrite H. apply E. Qed.
Lemma closest_ext A B i j : (forall x y, A x y <-> B x y) -> closest A i j -> closest B i j.
Proof.
  intros E [H1 H2]. split; [apply E; exact H1|]. intros i' Hi'. apply E in Hi'. destruct (H2 i' Hi') as (k & k' & C & C' & K).
  exists k, k'. split; [eapply card_ext; [|exact C]; intros x; apply E|]. split; [eapply card_ext; [|exact C']; intros x; apply E | exact K].
Qed.
Lemma closest_fun A i i' j : closest A i j -> closest A i' j -> i = i'.
Proof.
  intros [H1 H2] [H1' H2']. destruct (H2 i' H1') as (k & k' & C & C' & K). destruct (H2' i H1) as (l & l' & D & D' & K').
  pose proof (card_fun _ _ _ C D'). pose proof (card_fun _ _ _ C' D). lia.
Qed.

Lemma positions_sorted m : StronglySorted lt (positions m).
Proof.
  induction m as [|b m IH]; [constructor|]. rewrite positions_cons.
  assert (S1 : StronglySorted lt (map S (positions m))).
  { revert IH. generalize (positions m) as l. induction 1 as [|x l HS IHl HF]; cbn; constructor; auto.
    apply Forall_forall. intros y Hy. apply in_map_iff in Hy as (z & <- & Hz). rewrite Forall_forall in HF. specialize (HF z Hz). lia. }
  destruct b; cbn; [constructor; [exact S1|] | exact S1]. apply Forall_forall. intros y Hy. apply in_map_iff in Hy as (z & <- & _). lia.
Qed.
Lemma lt_sorted_NoDup l : StronglySorted lt l -> NoDup l.
Proof. induction 1 as [|x l HS IH HF]; constructor; auto. intros F. rewrite Forall_forall in HF. specialize (HF x F). lia. Qed.
Lemma nth_true (l : list bool) d : nth d l false = true <-> nth_error l d = Some true.
Proof.
  revert d; induction l as [|b l IH]; intros [|d]; cbn; try (split; congruence). apply IH.
Qed.
Lemma positions_nth m d : In d (positions m) <-> nth d m false = true.
Proof. rewrite positions_In, nth_true. reflexivity. Qed.

Lemma row_card m i : card (fun d => on m i d = true) (count_true (row m i)).
Proof.
  exists (positions (row m i)). split; [apply lt_sorted_NoDup, positions_sorted|]. split; [intros x; apply positions_nth | apply positions_length].
Qed.

Lemma parent_closest n m i d : square n m ->
  (on (parent_matrix m) i d = true <-> closest (fun i d => on m i d = true) i d).
Proof.
  intros M. rewrite (proj2 (parent_matrix_ok n m M) i d). unfold closest, before. split.
  - intros [H1 H2]. split; [exact H1|]. intros i' Hi'. exists (count_true (row m i)), (count_true (row m i')).
    split; [apply row_card|]. split; [apply row_card|].
    assert (Hn : i' < n).
    { destruct (Nat.lt_ge_cases i' n); [assumption|]. exfalso. unfold on, row in Hi'. rewrite (nth_overflow m) in Hi' by (destruct M; lia). destruct d; discriminate. }
    specialize (H2 i' Hi' Hn). lia.
  - intros [H1 H2]. split; [exact H1|]. intros i' Hi' _ HB. destruct (H2 i' Hi') as (k & k' & C & C' & K).
    pose proof (card_fun _ _ _ C (row_card m i)). pose proof (card_fun _ _ _ C' (row_card m i')). lia.
Qed.

(** * ancestor_matrix *)

Definition clear_diag (rows : list (list bool)) : list (list bool) := map (fun p => set_nth (snd p) (fst p) false) (enumerate rows).

Lemma clear_on n rows i d : square n rows -> (on (clear_diag rows) i d = true <-> anc_of rows i d).
Proof.
  intros [L F]. unfold on, row, anc_of, entry, clear_diag.
  destruct (Nat.lt_ge_cases i n) as [Hi|Hi].
  - destruct (nth_error_in_range rows i) as (r & Hr); [lia|].
    assert (E : nth_error (map (fun p => set_nth (snd p) (fst p) false) (enumerate rows)) i = Some (set_nth r i false))
      by (rewrite nth_error_map', enumerate_nth, Hr; reflexivity).
    rewrite (nth_error_nth _ _ [] E), nth_true, set_nth_nth, Hr. destruct (Nat.eqb_spec i d) as [->|Hn].
    + split; [destruct (nth_error r d); discriminate | intros [H _]; congruence].
    + tauto.
  - rewrite (nth_overflow (map (fun p => set_nth (snd p) (fst p) false) (enumerate rows))) by (rewrite map_length; unfold enumerate; rewrite enum_from_length; lia).
    split; [destruct d; discriminate|]. intros [_ H]. rewrite (proj2 (nth_error_None rows i)) in H by lia. discriminate.
Qed.
Lemma clear_square n rows : square n rows -> square n (clear_diag rows).
Proof.
  intros [L F]. unfold clear_diag. split; [rewrite map_length; unfold enumerate; rewrite enum_from_length; exact L|].
  apply Forall_nth_error. intros i r Hr. rewrite nth_error_map', enumerate_nth in Hr.
  destruct (nth_error rows i) as [q|] eqn:E; [|discriminate]. cbn in Hr. injection Hr as <-. rewrite set_nth_length.
  rewrite Forall_forall in F. apply F. eapply nth_error_In; exact E.
Qed.

Definition child_ix (rows : list (list bool)) (i : nat) : list nat := positions (row (parent_matrix (clear_diag rows)) i).
Definition keyat (names : list string) (i : nat) : string := nth i names ""%string.

Lemma child_ix_ok n rows i : square n rows -> children (closest (anc_of rows)) i (child_ix rows i).
Proof.
  intros S. split; [apply positions_sorted|]. intros c. unfold child_ix. rewrite positions_nth. fold (on (parent_matrix (clear_diag rows)) i c).
  rewrite (parent_closest n) by (apply clear_square; exact S).
  split; apply closest_ext; intros x y; [|symmetry]; eapply clear_on; exact S.
Qed.

Definition flat_of (names : list string) (rows : list (list bool)) : list (string * list string) :=
  map (fun i => (keyat names i, map (keyat names) (child_ix rows i))) (filter (fun i => negb (Nat.eqb (length (child_ix rows i)) 0)) (seq 0 (length names))).

Lemma any_positions r : any r = negb (Nat.eqb (length (positions r)) 0).
Proof.
  unfold any. induction r as [|b r IH]; [reflexivity|]. rewrite positions_cons. cbn [existsb]. rewrite app_length, map_length, IH.
  destruct b; cbn; [reflexivity|]. reflexivity.
Qed.

Lemma combine_seq {A B} (l : list A) (r : list B) (da : A) (db : B) : length l = length r ->
  combine l r = map (fun i => (nth i l da, nth i r db)) (seq 0 (length l)).
Proof.
  revert r; induction l as [|a l IH]; intros [|b r] H; cbn in *; try discriminate; auto.
  rewrite <- seq_shift, map_map. f_equal. apply IH. congruence.
Qed.

Lemma keyat_map_NoDup names l : NoDup names -> NoDup l -> (forall i, In i l -> i < length names) -> NoDup (map (keyat names) l).
Proof.
  intros ND NL HL. induction NL as [|x l Hx NL IH]; cbn; constructor.
  - intros F. apply in_map_iff in F as (y & E & Hy). apply Hx.
    replace x with y; [exact Hy|]. unfold keyat in E. apply (proj1 (NoDup_nth names ""%string) ND); auto; apply HL; [right | left]; auto.
  - apply IH. intros i Hi. apply HL. right; exact Hi.
Qed.

Lemma flat_ok names rows : NoDup names -> square (length names) rows ->
  flat_hierarchy (combine names (map MArr rows)) = Ok (flat_of names rows).
Proof.
  intros ND S. assert (LR : length rows = length names) by apply S. unfold flat_hierarchy, ancestor_matrix.
  assert (LC : length (combine names (map MArr rows)) = length names) by (rewrite combine_length, map_length; lia).
  rewrite LC.
  assert (E : mapM (fun p => d <- data (snd p) ;; if Nat.eqb (length d) (length names) then Ok d
               else match d with [b] => Ok (repeat b (length names)) | _ => Err ValueError end) (combine names (map MArr rows)) = Ok rows).
  { destruct S as [_ F]. assert (G : forall n (ns : list string) rs, length rs = length ns -> Forall (fun r : list bool => length r = n) rs ->
      mapM (fun p => d <- data (snd p) ;; if Nat.eqb (length d) n then Ok d
               else match d with [b] => Ok (repeat b n) | _ => Err ValueError end) (combine ns (map MArr rs)) = Ok rs).
    { clear. intros n. induction ns as [|k ns IH]; intros [|r rs] L F; cbn in *; try discriminate; auto.
      inversion F as [|? ? Hr F']; subst. rewrite Nat.eqb_refl. cbn [bind]. rewrite IH; auto. }
    apply G; assumption. }
  rewrite E. cbn [bind]. f_equal. fold (clear_diag rows). unfold dkeys. rewrite combine_fst by (rewrite map_length; congruence).
  unfold parent_dict. pose proof (clear_square _ _ S) as CS. pose proof (proj1 (parent_matrix_ok _ _ CS)) as PS.
  set (pm := parent_matrix (clear_diag rows)) in *.
  rewrite (combine_seq names pm ""%string []) by (symmetry; apply PS).
  rewrite filter_map_comm, map_map. cbn [fst snd].
  assert (G : forall i, i < length names -> (keyat names i, compress (nth i pm []) names) = (keyat names i, map (keyat names) (child_ix rows i))).
  { intros i Hi. f_equal. unfold child_ix. fold pm. unfold row. apply (compress_rows _ _ ""%string). apply (row_len _ pm i PS Hi). }
  unfold flat_of.
  assert (FE : filter (fun x => any (nth x pm [])) (seq 0 (length names)) = filter (fun i => negb (Nat.eqb (length (child_ix rows i)) 0)) (seq 0 (length names))).
  { apply filter_ext. intros i. apply any_positions. }
  rewrite FE.
  erewrite map_ext_in.
  2:{ intros i Hi. apply filter_In in Hi as [Hi _]. apply in_seq in Hi. apply G. lia. }
  apply dict_of_NoDup. unfold dkeys. rewrite map_map. cbn [fst]. apply keyat_map_NoDup; auto.
  - apply NoDup_filter, seq_NoDup.
  - intros i Hi. apply filter_In in Hi as [Hi _]. apply in_seq in Hi. lia.
Qed.
