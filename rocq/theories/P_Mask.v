(** Property theorems about mask values: C01-C08, C10-C13. *)
From Verif Require Import Prelude Dict Keys MaskTypes SpecMask Mask MaskProofs.
Open Scope string_scope.

(** * C01 MaskArray operators *)
Theorem C01_operators_elementwise : forall x y : list bool,
  length x = length y ->
  exists ra ro re rn ri,
    mask_and (MArr x) (MArr y) = Ok (MArr ra) /\
    mask_or (MArr x) (MArr y) = Ok (MArr ro) /\
    mask_eq (MArr x) (MArr y) = Ok (MArr re) /\
    mask_ne (MArr x) (MArr y) = Ok (MArr rn) /\
    mask_invert (MArr x) = Ok (MArr ri) /\
    length ra = length x /\ length ro = length x /\ length re = length x /\
    length rn = length x /\ length ri = length x /\
    forall i a b, nth_error x i = Some a -> nth_error y i = Some b ->
      (nth_error ra i = Some true <-> a = true /\ b = true) /\
      (nth_error ro i = Some true <-> a = true \/ b = true) /\
      (nth_error re i = Some true <-> a = b) /\
      (nth_error rn i = Some true <-> a <> b) /\
      (nth_error ri i = Some true <-> a = false).
Proof.
  intros x y H.
  exists (map2 andb x y), (map2 orb x y), (map2 Bool.eqb x y), (map2 xorb x y), (map negb x).
  unfold mask_and, mask_or, mask_eq, mask_ne, mask_cmp, mask_invert, broadcast2. cbn [data bind ufunc_accepts].
  rewrite H, Nat.eqb_refl. cbn [bind]. rewrite !map2_length, map_length, H, Nat.min_id.
  repeat (split; [reflexivity|]).
  intros i a b Ha Hb. rewrite !map2_nth, nth_error_map', Ha, Hb. cbn [option_map].
  destruct a, b; cbn; intuition congruence.
Qed.
Print Assumptions C01_operators_elementwise.

Theorem C01_comparison_needs_equal_length : forall x y : list bool,
  length x <> length y ->
  mask_eq (MArr x) (MArr y) = Err ValueError /\ mask_ne (MArr x) (MArr y) = Err ValueError.
Proof.
  intros x y H. unfold mask_eq, mask_ne, mask_cmp. cbn [data bind].
  destruct (Nat.eqb_spec (length x) (length y)); [contradiction | auto].
Qed.
Print Assumptions C01_comparison_needs_equal_length.

(** Lengths that differ: [&], [|] broadcast a length-1 operand, else ValueError. *)
Theorem C01_bitwise_broadcast : forall x y : list bool,
  length x <> length y ->
  (length x <> 1 -> length y <> 1 ->
     mask_and (MArr x) (MArr y) = Err ValueError /\ mask_or (MArr x) (MArr y) = Err ValueError) /\
  (forall b, y = [b] -> exists ra ro,
     mask_and (MArr x) (MArr y) = Ok (MArr ra) /\ mask_or (MArr x) (MArr y) = Ok (MArr ro) /\
     length ra = length x /\ length ro = length x /\
     forall i a, nth_error x i = Some a -> nth_error ra i = Some (a && b)%bool /\ nth_error ro i = Some (a || b)%bool) /\
  (forall a, x = [a] -> exists ra ro,
     mask_and (MArr x) (MArr y) = Ok (MArr ra) /\ mask_or (MArr x) (MArr y) = Ok (MArr ro) /\
     length ra = length y /\ length ro = length y /\
     forall i b, nth_error y i = Some b -> nth_error ra i = Some (a && b)%bool /\ nth_error ro i = Some (a || b)%bool).
Proof.
  intros x y H. split; [|split].
  - intros H1 H2. unfold mask_and, mask_or, broadcast2. cbn [data bind].
    destruct (Nat.eqb_spec (length x) (length y)); [contradiction|].
    destruct x as [|x1 [|x2 x]], y as [|y1 [|y2 y]]; cbn in *; try congruence; try lia; auto.
  - intros b ->. exists (map (fun a => a && b)%bool x), (map (fun a => a || b)%bool x).
    unfold mask_and, mask_or, broadcast2. cbn [data bind].
    destruct (Nat.eqb_spec (length x) (length [b])); [contradiction|].
    destruct x as [|x1 [|x2 x]]; [..|]; cbn [bind]; try (exfalso; apply H; reflexivity).
    + repeat split; destruct i; discriminate.
    + rewrite !map_length. repeat (split; [reflexivity|]).
      intros i a Ha. rewrite !nth_error_map', Ha. auto.
  - intros a ->. exists (map (andb a) y), (map (orb a) y).
    unfold mask_and, mask_or, broadcast2. cbn [data bind].
    destruct (Nat.eqb_spec (length [a]) (length y)); [contradiction|]. cbn [bind].
    rewrite !map_length. repeat (split; [reflexivity|]).
    intros i b Hb. rewrite !nth_error_map', Hb. auto.
Qed.
Print Assumptions C01_bitwise_broadcast.

(** * C02 MaskGroup.data *)
Theorem C02_data_aggregates : forall n m,
  aggregable n m ->
  exists d, data m = Ok d /\ length d = n /\ forall i, nth_error d i = Some true <-> true_at i m.
Proof.
  intros n m H. destruct (data_complete m n H) as (d & Hd & Hn).
  exists d. split; [exact Hd|]. split; [exact Hn|]. apply (data_sound m d Hd).
Qed.
Print Assumptions C02_data_aggregates.

Theorem C02_data_raises_otherwise : forall m,
  (forall n, ~ aggregable n m) -> exists e, data m = Err e.
Proof.
  intros m H. destruct (data m) as [d|e] eqn:E; [|eauto].
  exfalso. apply (H (length d)). apply (data_sound m d E).
Qed.
Print Assumptions C02_data_raises_otherwise.

Definition ex_tree : mask :=
  MGrp "or" [("top", MGrp "AND" [("b", MArr [true; true; false]); ("W", MArr [false; true; true])]);
             ("g", MArr [true; false; false])].
Example C02_ex : aggregable 3 ex_tree /\ data ex_tree = Ok [true; true; false].
Proof.
  split; [|reflexivity].
  assert (H : exists d, data ex_tree = Ok d /\ length d = 3) by (exists [true; true; false]; auto).
  destruct H as (d & Hd & Hl). rewrite <- Hl. apply (data_sound _ _ Hd).
Qed.

(** * C03 slicing commutes with aggregation *)
Theorem C03_slice_commutes_with_data : forall k m d,
  data m = Ok d ->
  (m' <- slice k m ;; data m') = (r <- slice k (MArr d) ;; data r).
Proof.
  intros k m d H. etransitivity; [exact (slice_data k m d H)|]. cbn [slice]. destruct (getkey d k); reflexivity.
Qed.
Print Assumptions C03_slice_commutes_with_data.

Theorem C03_slice_keeps_structure : forall k m m',
  slice k m = Ok m' ->
  skeleton m' = skeleton m /\
  forall p d, at_path m p = Some (MArr d) ->
    exists d', at_path m' p = Some (MArr d') /\ getkey d k = Ok d'.
Proof.
  intros k m m' H. split; [apply (slice_skeleton k m m' H)|].
  intros p d Hp. pose proof (slice_at_path k m m' p H) as HS. rewrite Hp in HS.
  destruct HS as (v' & Hv & Hs). cbn [slice] in Hs. apply bind_ok in Hs as (r & Hr & E). injection E as <-. eauto.
Qed.
Print Assumptions C03_slice_keeps_structure.

Example C03_ex : (m' <- slice (KSlice None None (Some (-1)%Z)) ex_tree ;; data m') = Ok [false; true; true].
Proof. reflexivity. Qed.

(** * C04 flatten('rise') *)
Theorem C04_flatten_rise : forall agg kids o,
  means agg o ->
  NoDup (map (fun e => last_name (fst e)) (filter risen (entries (MGrp agg kids)))) ->
  (forall p v, In (p, v) (filter risen (entries (MGrp agg kids))) -> exists d, data v = Ok d) ->
  exists agg' l,
    flatten_rise (MGrp agg kids) = Ok (MGrp agg' l) /\ means agg' o /\
    Forall2 (fun e r => fst r = last_name (fst e) /\ exists d, data (snd e) = Ok d /\ snd r = MArr d)
            (filter risen (entries (MGrp agg kids))) l.
Proof.
  intros agg kids o Ho ND HD. unfold flatten_rise. rewrite visit_entries.
  set (es := filter risen (entries (MGrp agg kids))) in *.
  assert (Hl : exists l, mapM rise_entry es = Ok l /\ Forall2 (fun e r => fst r = last_name (fst e) /\
            exists d, data (snd e) = Ok d /\ snd r = MArr d) es l).
  { clearbody es. clear ND. induction es as [|[p v] es IH]; [exists []; auto|].
    destruct IH as (l & H1 & H2); [intros q w Hq; apply (HD q w); right; exact Hq|].
    destruct (HD p v (or_introl eq_refl)) as (d & Hd).
    exists ((last_name p, MArr d) :: l). cbn [mapM]. unfold rise_entry at 1. cbn [fst snd]. rewrite Hd. cbn [bind].
    rewrite H1. split; [reflexivity|]. constructor; [|exact H2]. cbn [fst snd]. eauto. }
  destruct Hl as (l & H1 & H2). rewrite H1. cbn [bind].
  pose proof (proj2 (agg_op_means agg o) Ho) as Hag. rewrite Hag. cbn [bind].
  exists (agg_value o), l. rewrite dict_of_NoDup.
  - split; [reflexivity|]. split; [apply agg_op_means, agg_op_value | exact H2].
  - replace (dkeys l) with (map (fun e : list string * mask => last_name (fst e)) es); [exact ND|].
    clear - H2. induction H2 as [|e r es l [E _] _ IH]; [reflexivity|]. unfold dkeys in *; simpl. congruence.
Qed.
Print Assumptions C04_flatten_rise.

(** [entries] is the set of all named positions in the tree. *)
Theorem C04_entries_are_all_paths : forall m p v,
  wf m -> (In (p, v) (entries m) <-> p <> [] /\ at_path m p = Some v).
Proof. exact entries_at_path. Qed.
Print Assumptions C04_entries_are_all_paths.

(** It raises exactly when agg_op is invalid or a raised group cannot be aggregated. *)
Theorem C04_flatten_rise_raises : forall agg kids,
  (exists e, flatten_rise (MGrp agg kids) = Err e) <->
  (forall o, ~ means agg o) \/
  exists p v e, In (p, v) (filter risen (entries (MGrp agg kids))) /\ data v = Err e.
Proof.
  intros agg kids. unfold flatten_rise. rewrite visit_entries.
  set (es := filter risen (entries (MGrp agg kids))).
  destruct (mapM rise_entry es) as [l|e] eqn:E; cbn [bind].
  - destruct (agg_op agg) as [o|e'] eqn:Eo; cbn [bind].
    + split; [intros (e & H); discriminate|]. intros [H|(p & v & e & Hin & Hd)].
      * exfalso. apply (H o), agg_op_means, Eo.
      * exfalso. apply mapM_ok in E. destruct (Forall2_In_l _ _ _ _ E Hin) as (y & _ & Hy).
        unfold rise_entry in Hy. cbn [snd] in Hy. rewrite Hd in Hy. discriminate.
    + split; [intros _; left; intros o Ho; apply agg_op_means in Ho; congruence | eauto].
  - split; [|eauto]. intros _. right. apply mapM_err in E as ([p v] & Hin & Hr).
    exists p, v, e. split; [exact Hin|]. unfold rise_entry in Hr. cbn [fst snd] in Hr.
    destruct (data v); [discriminate | cbn [bind] in Hr; congruence].
Qed.
Print Assumptions C04_flatten_rise_raises.

Example C04_ex :
  NoDup (map (fun e => last_name (fst e)) (filter risen (entries ex_tree))) /\
  flatten_rise ex_tree = Ok (MGrp "or" [("top", MArr [false; true; false]); ("b", MArr [true; true; false]);
                                        ("W", MArr [false; true; true]); ("g", MArr [true; false; false])]).
Proof.
  split; [|reflexivity]. cbn. repeat constructor; cbn; intuition discriminate.
Qed.

(** * C05 flatten('rise') loses masks when names repeat *)
Theorem C05_rise_loses_masks_refuted :
  exists m p d f,
    wf m /\ at_path m p = Some (MArr d) /\ has "latent" p = false /\
    flatten_rise m = Ok f /\
    (forall q, at_path f q <> Some (MArr d)).
Proof.
  exists (MGrp "or" [("t1", MGrp "or" [("b", MArr [true; false; false]); ("W", MArr [false; true; false])]);
                     ("b", MArr [false; false; true])]).
  exists ["t1"; "b"], [true; false; false].
  exists (MGrp "or" [("t1", MArr [true; true; false]); ("b", MArr [false; false; true]); ("W", MArr [false; true; false])]).
  split; [cbn; repeat split; repeat constructor; cbn; intuition discriminate|].
  split; [reflexivity|]. split; [reflexivity|]. split; [reflexivity|].
  intros [|k [|k' q]]; cbn; [discriminate| |].
  - destruct (k =? "t1"); [discriminate|]. destruct (k =? "b"); [discriminate|].
    destruct (k =? "W"); discriminate.
  - destruct (k =? "t1"); [discriminate|]. destruct (k =? "b"); [discriminate|].
    destruct (k =? "W"); discriminate.
Qed.
Print Assumptions C05_rise_loses_masks_refuted.

(** What is kept in general: under each raised name, the mask visited last. *)
Theorem C05_rise_keeps_last_partial : forall agg kids f k,
  flatten_rise (MGrp agg kids) = Ok f ->
  match find (fun e => String.eqb k (last_name (fst e))) (rev (filter risen (entries (MGrp agg kids)))) with
  | Some (p, v) => exists d, data v = Ok d /\ at_path f [k] = Some (MArr d)
  | None => at_path f [k] = None
  end.
Proof.
  intros agg kids f k H. unfold flatten_rise in H. rewrite visit_entries in H.
  set (es := filter risen (entries (MGrp agg kids))) in *. clearbody es.
  apply bind_ok in H as (l & Hl & H). apply bind_ok in H as (o & _ & H). injection H as <-.
  cbn [at_path]. rewrite dget_dict_of. apply mapM_ok in Hl.
  assert (Hr : Forall2 (fun x y => rise_entry x = Ok y) (rev es) (rev l)).
  { clear -Hl. induction Hl as [|x y es l Hx Hl IH]; [constructor|]. cbn [rev].
    apply Forall2_app; [exact IH | constructor; [exact Hx | constructor]]. }
  clear Hl. induction Hr as [|[p v] y es' l' Hx Hr IH]; [reflexivity|].
  cbn [find fst]. unfold rise_entry in Hx. cbn [fst snd] in Hx.
  apply bind_ok in Hx as (d & Hd & E). injection E as <-. cbn [dget].
  destruct (k =? last_name p); [exists d; auto | exact IH].
Qed.
Print Assumptions C05_rise_keeps_last_partial.

(** * C06 flatten('agg') *)
Theorem C06_flatten_agg : forall agg kids,
  (forall k v, In (k, v) kids -> exists d, data v = Ok d) ->
  exists l, flatten_agg (MGrp agg kids) = Ok (MGrp "or" l) /\
    Forall2 (fun p r => fst r = fst p /\ exists d, data (snd p) = Ok d /\ snd r = MArr d) kids l.
Proof.
  intros agg kids H. cbn [flatten_agg].
  induction kids as [|[k v] kids IH]; [exists []; split; [reflexivity | constructor]|].
  destruct IH as (l & H1 & H2); [intros k' v' H'; apply (H k' v'); right; exact H'|].
  destruct (H k v (or_introl eq_refl)) as (d & Hd).
  exists ((k, MArr d) :: l). cbn [mapM fst snd]. rewrite Hd. cbn [bind].
  apply bind_ok in H1 as (l' & Hl' & E). injection E as <-. rewrite Hl'. split; [reflexivity|].
  constructor; [cbn [fst snd]; eauto | exact H2].
Qed.
Print Assumptions C06_flatten_agg.

Theorem C06_flatten_agg_raises : forall agg kids,
  (exists e, flatten_agg (MGrp agg kids) = Err e) <-> (exists k v e, In (k, v) kids /\ data v = Err e).
Proof.
  intros agg kids. cbn [flatten_agg]. split.
  - intros (e & H). destruct (mapM _ kids) as [l|e'] eqn:E; [discriminate|].
    apply mapM_err in E as ([k v] & Hin & Hr). cbn [fst snd] in Hr.
    exists k, v, e'. split; [exact Hin|]. destruct (data v); [discriminate | cbn in Hr; congruence].
  - intros (k & v & e & Hin & Hd).
    destruct (mapM _ kids) as [l|e'] eqn:E; [|cbn; eauto].
    exfalso. apply mapM_ok in E. destruct (Forall2_In_l _ _ _ _ E Hin) as (y & _ & Hy).
    cbn [fst snd] in Hy. rewrite Hd in Hy. discriminate.
Qed.
Print Assumptions C06_flatten_agg_raises.

Example C06_ex : flatten_agg ex_tree = Ok (MGrp "or" [("top", MArr [false; true; false]); ("g", MArr [true; false; false])]).
Proof. reflexivity. Qed.

(** * C07 leaf_masks *)
Theorem C07_leaf_masks : forall agg kids o,
  means agg o ->
  NoDup (map (fun e => last_name (fst e)) (filter leafy_top (entries (MGrp agg kids)))) ->
  exists agg',
    leaf_masks (MGrp agg kids) =
      Ok (MGrp agg' (map (fun e => (last_name (fst e), snd e)) (filter leafy_top (entries (MGrp agg kids))))) /\
    means agg' o.
Proof.
  intros agg kids o Ho ND. cbn [leaf_masks].
  rewrite (proj2 (agg_op_means agg o) Ho). cbn [bind]. exists (agg_value o).
  split; [|apply agg_op_means, agg_op_value]. do 2 f_equal.
  rewrite (fold_leaf_NoDup (fun p => leaf_mask_iter (fst p) (snd p))).
  - apply (leaf_flat_map agg kids).
  - rewrite (leaf_flat_map agg kids). cbn [dkeys app map]. unfold dkeys. rewrite map_map. exact ND.
Qed.
Print Assumptions C07_leaf_masks.

Definition ex_hier : mask :=
  MGrp "or" [("t", MGrp "or" [("b", MArr [true; false]); ("latent", MArr [false; true])]);
             ("g", MArr [true; false])].
Example C07_ex : NoDup (map (fun e => last_name (fst e)) (filter leafy_top (entries ex_hier))) /\
  leaf_masks ex_hier = Ok (MGrp "or" [("b", MArr [true; false]); ("g", MArr [true; false])]).
Proof. split; [cbn; repeat constructor; cbn; intuition discriminate | reflexivity]. Qed.

(** * C08 recursive_drop *)
Theorem C08_recursive_drop : forall key m,
  wf m ->
  (forall p, In key p -> at_path (recursive_drop key m) p = None) /\
  (forall p, ~ In key p ->
     match at_path m p, at_path (recursive_drop key m) p with
     | Some v, Some v' =>
         level v' = match level v with
                    | inl d => inl d
                    | inr (agg, ks) => inr (agg, filter (fun k => negb (String.eqb k key)) ks)
                    end
     | None, None => True
     | _, _ => False
     end).
Proof.
  intros key m W. split; [intros p; apply rdrop_gone; exact W|].
  intros p Hp. rewrite rdrop_at_path by assumption.
  destruct (at_path m p) as [v|] eqn:E; [|exact I]. cbn [option_map].
  apply rdrop_level.
  clear Hp. revert m W E. induction p as [|k p IH]; intros m W E; [cbn in E; congruence|].
  destruct m as [d|agg kids]; [discriminate|]. cbn [at_path] in E.
  destruct (dget k kids) as [w|] eqn:Hg; [|discriminate]. apply (IH w); [|exact E].
  apply wf_grp in W as [_ W]. rewrite Forall_forall in W. apply (W (k, w)). apply dget_In; exact Hg.
Qed.
Print Assumptions C08_recursive_drop.

Example C08_ex : wf ex_hier /\ recursive_drop "latent" ex_hier =
  MGrp "or" [("t", MGrp "or" [("b", MArr [true; false])]); ("g", MArr [true; false])].
Proof. split; [cbn; repeat split; repeat constructor; cbn; intuition discriminate | reflexivity]. Qed.

(** * C10 serialisation round trip *)
Theorem C10_serialize_roundtrip : forall m ord,
  wf m ->
  maskgroup_equal ord m (of_ser (serialize m)) = Ok true /\
  (forall p d, at_path m p = Some (MArr d) <-> at_path (of_ser (serialize m)) p = Some (MArr d)) /\
  (forall p, match at_path m p, at_path (of_ser (serialize m)) p with
             | Some (MGrp _ k), Some (MGrp _ k') => dkeys k = dkeys k'
             | Some (MArr d), Some (MArr d') => d = d'
             | None, None => True
             | _, _ => False
             end).
Proof.
  intros m ord W. rewrite of_ser_serialize by exact W. split.
  - destruct (meq_correct ord m (all_and m) W (all_and_wf m W)) as (b & Hb & Hbt).
    rewrite Hb. f_equal. apply Hbt, same_all_and.
  - split.
    + intros p d. rewrite all_and_at_path. destruct (at_path m p) as [[d'|agg ks]|]; cbn; intuition congruence.
    + intros p. rewrite all_and_at_path. destruct (at_path m p) as [[d'|agg ks]|]; cbn; auto.
      rewrite dkeys_map. reflexivity.
Qed.
Print Assumptions C10_serialize_roundtrip.

Example C10_ex : of_ser (serialize ex_hier) =
  MGrp "and" [("t", MGrp "and" [("b", MArr [true; false]); ("latent", MArr [false; true])]);
              ("g", MArr [true; false])].
Proof. reflexivity. Qed.

(** * C11 the aggregated data is not preserved by serialisation *)
Theorem C11_serialize_changes_data_refuted :
  exists m d d', wf m /\ data m = Ok d /\ data (of_ser (serialize m)) = Ok d' /\ d <> d' /\
                 maskgroup_equal true m (of_ser (serialize m)) = Ok true.
Proof.
  exists ex_tree, [true; true; false], [false; false; false].
  split; [cbn; repeat split; repeat constructor; cbn; intuition discriminate|].
  repeat split; discriminate.
Qed.
Print Assumptions C11_serialize_changes_data_refuted.

Theorem C11_serialize_keeps_data_and_only_partial : forall m,
  wf m -> only_and m -> data (of_ser (serialize m)) = data m.
Proof. intros m W H. rewrite of_ser_serialize by exact W. apply all_and_data, H. Qed.
Print Assumptions C11_serialize_keeps_data_and_only_partial.

Example C11_ex : only_and (MGrp "And" [("a", MArr [true]); ("b", MGrp "and" [("c", MArr [false])])]).
Proof.
  constructor; [cbn; tauto|]. intros k v [E|[E|[]]]; injection E as <- <-; [constructor|].
  constructor; [cbn; tauto|]. intros k v [E|[]]; injection E as <- <-. constructor.
Qed.

(** * C12 equal_to *)
Theorem C12_equal_to_decides_same : forall ord m1 m2,
  wf m1 -> wf m2 ->
  exists b, maskgroup_equal ord m1 m2 = Ok b /\ (b = true <-> same ord m1 m2).
Proof. exact meq_correct. Qed.
Print Assumptions C12_equal_to_decides_same.

Theorem C12_equal_to_equivalence : forall ord,
  (forall m, wf m -> maskgroup_equal ord m m = Ok true) /\
  (forall m1 m2, wf m1 -> wf m2 -> maskgroup_equal ord m1 m2 = maskgroup_equal ord m2 m1) /\
  (forall m1 m2 m3, wf m1 -> wf m2 -> wf m3 ->
     maskgroup_equal ord m1 m2 = Ok true -> maskgroup_equal ord m2 m3 = Ok true ->
     maskgroup_equal ord m1 m3 = Ok true).
Proof.
  intros ord. split; [|split].
  - intros m W. destruct (meq_correct ord m m W W) as (b & -> & H). f_equal. apply H, same_refl.
  - intros m1 m2 W1 W2. destruct (meq_correct ord m1 m2 W1 W2) as (b & -> & H).
    destruct (meq_correct ord m2 m1 W2 W1) as (b' & -> & H'). f_equal.
    assert (b = true <-> b' = true) by (rewrite H, H'; split; apply same_sym).
    destruct b, b'; intuition congruence.
  - intros m1 m2 m3 W1 W2 W3 H12 H23.
    destruct (meq_correct ord m1 m2 W1 W2) as (b & E & H). rewrite E in H12; injection H12 as ->.
    destruct (meq_correct ord m2 m3 W2 W3) as (b & E' & H'). rewrite E' in H23; injection H23 as ->.
    destruct (meq_correct ord m1 m3 W1 W3) as (b & -> & H''). f_equal. apply H''.
    eapply same_trans; [apply H; reflexivity | apply H'; reflexivity].
Qed.
Print Assumptions C12_equal_to_equivalence.

(** agg_op is not compared. *)
Theorem C12_equal_to_ignores_agg_op : forall ord a1 a2 kids,
  wf (MGrp a1 kids) -> maskgroup_equal ord (MGrp a1 kids) (MGrp a2 kids) = Ok true.
Proof.
  intros ord a1 a2 kids W.
  assert (W2 : wf (MGrp a2 kids)) by (apply wf_grp in W; apply wf_grp; exact W).
  destruct (meq_correct ord _ _ W W2) as (b & -> & H). f_equal. apply H.
  pose proof (same_refl ord (MGrp a1 kids)) as HS. inversion HS; subst.
  - constructor; assumption.
  - econstructor; eassumption.
Qed.
Print Assumptions C12_equal_to_ignores_agg_op.

Example C12_ex :
  let m1 := MGrp "and" [("a", MArr [true]); ("b", MArr [])] in
  let m2 := MGrp "or" [("b", MArr []); ("a", MArr [true])] in
  maskgroup_equal false m1 m2 = Ok true /\ maskgroup_equal true m1 m2 = Ok false.
Proof. split; reflexivity. Qed.

(** * C13 MaskGroup is an insertion-ordered map *)
Theorem C13_refines_ordered_map : forall (kids : list (string * mask)) (s : omap) ops,
  NoDup (map fst kids) ->
  o_order s = map fst kids ->
  (forall k v, o_val s k = Some v <-> In (k, v) kids) ->
  snd (run_model kids ops) = snd (run_spec s ops) /\
  NoDup (map fst (fst (run_model kids ops))) /\
  o_order (fst (run_spec s ops)) = map fst (fst (run_model kids ops)) /\
  (forall k v, o_val (fst (run_spec s ops)) k = Some v <-> In (k, v) (fst (run_model kids ops))).
Proof.
  intros kids s ops ND HO HV.
  assert (HR : omap_rel s kids).
  { split; [exact ND|]. split; [exact HO|]. intros k. destruct (o_val s k) as [v|] eqn:E.
    - symmetry. apply In_dget; [exact ND | apply HV; exact E].
    - destruct (dget k kids) as [v|] eqn:G; [|reflexivity].
      apply dget_In in G. apply HV in G. congruence. }
  destruct (run_refines ops s kids HR) as (H1 & ND' & HO' & HV'). split; [exact H1|].
  split; [exact ND'|]. split; [exact HO'|]. intros k v. rewrite HV'. apply dget_iff; exact ND'.
Qed.
Print Assumptions C13_refines_ordered_map.

Theorem C13_select_names : forall ks agg kids,
  NoDup ks -> NoDup (map fst kids) ->
  ((forall k, In k ks -> In k (map fst kids)) ->
     exists l, select_keys ks agg kids = Ok (MGrp agg l) /\ map fst l = ks /\
               forall k v, In k ks -> (In (k, v) l <-> In (k, v) kids)) /\
  (forall k, In k ks -> ~ In k (map fst kids) -> select_keys ks agg kids = Err KeyError).
Proof.
  intros ks agg kids ND NDk. split; [|intros k; apply select_keys_err].
  intros H. destruct (select_keys_ok ks agg kids ND H) as (l & H1 & H2 & H3).
  exists l. split; [exact H1|]. split; [exact H2|]. intros k v Hk.
  assert (NDl : NoDup (dkeys l)) by (rewrite H2; exact ND).
  rewrite <- (dget_iff k v l NDl), <- (dget_iff k v kids NDk), (H3 k Hk). reflexivity.
Qed.
Print Assumptions C13_select_names.

Example C13_ex :
  snd (run_model [] [DSet "a" (MArr [true]); DSet "b" (MArr []); DSet "a" (MArr [false]);
                     DKeys; DGet "a"; DDel "a"; DSet "a" (MArr [true]); DKeys; DDel "z"; DLen])
  = [RNone; RNone; RNone; RKeys ["a"; "b"]; RMask (MArr [false]); RNone; RNone; RKeys ["b"; "a"]; RKeyError; RNat 2].
Proof. reflexivity. Qed.

(** * C103 comparing masks of any kind *)

(** The expectation: two masks with readable data of equal length can be
    compared with [==] and [!=] whatever their kinds. *)
Definition masks_always_comparable : Prop := forall m1 m2 x y,
  data m1 = Ok x -> data m2 = Ok y -> length x = length y ->
  (exists r, mask_eq m1 m2 = Ok r) /\ (exists r, mask_ne m1 m2 = Ok r).

(** It fails: a group against an array, or an array [!=] a group. *)
Theorem C103_mixed_masks_comparable_refuted : ~ masks_always_comparable.
Proof.
  intros H.
  destruct (H (MGrp "or" [("a", MArr [true; false])]) (MArr [true; true]) [true; false] [true; true]
              eq_refl eq_refl eq_refl) as [[r E] _].
  discriminate E.
Qed.
Print Assumptions C103_mixed_masks_comparable_refuted.

(** What does hold: exactly which pairs of kinds can be compared (all but a
    group compared with an array, and an array [!=] a group), and then the
    comparison is element by element; the rest is a TypeError. *)
Theorem C103_mask_comparison_partial : forall m1 m2 x y,
  data m1 = Ok x -> data m2 = Ok y -> length x = length y ->
  let mixed_ga := (exists g k, m1 = MGrp g k) /\ (exists d, m2 = MArr d) in
  let mixed_ag := (exists d, m1 = MArr d) /\ (exists g k, m2 = MGrp g k) in
  (mixed_ga -> mask_eq m1 m2 = Err TypeError /\ mask_ne m1 m2 = Err TypeError) /\
  (mixed_ag -> mask_ne m1 m2 = Err TypeError) /\
  (~ mixed_ga -> exists re, mask_eq m1 m2 = Ok (MArr re) /\ length re = length x /\
     forall i a b, nth_error x i = Some a -> nth_error y i = Some b ->
       (nth_error re i = Some true <-> a = b)) /\
  (~ mixed_ga -> ~ mixed_ag -> exists rn, mask_ne m1 m2 = Ok (MArr rn) /\ length rn = length x /\
     forall i a b, nth_error x i = Some a -> nth_error y i = Some b ->
       (nth_error rn i = Some true <-> a <> b)).
Proof.
  intros m1 m2 x y H1 H2 HL mixed_ga mixed_ag.
  assert (EQ : Nat.eqb (length x) (length y) = true) by (apply Nat.eqb_eq; exact HL).
  unfold mask_eq, mask_ne, mask_cmp. rewrite H1, H2. cbn [bind]. rewrite EQ.
  assert (PE : length (map2 Bool.eqb x y) = length x /\
     forall i a b, nth_error x i = Some a -> nth_error y i = Some b ->
       (nth_error (map2 Bool.eqb x y) i = Some true <-> a = b)).
  { rewrite map2_length, <- HL, Nat.min_id. split; [reflexivity|].
    intros i a b Ha Hb. rewrite map2_nth, Ha, Hb. destruct a, b; cbn; intuition congruence. }
  assert (PN : length (map2 xorb x y) = length x /\
     forall i a b, nth_error x i = Some a -> nth_error y i = Some b ->
       (nth_error (map2 xorb x y) i = Some true <-> a <> b)).
  { rewrite map2_length, <- HL, Nat.min_id. split; [reflexivity|].
    intros i a b Ha Hb. rewrite map2_nth, Ha, Hb. destruct a, b; cbn; intuition congruence. }
  repeat split.
  - destruct H as [(g & k & ->) (d & ->)]. reflexivity.
  - destruct H as [(g & k & ->) (d & ->)]. reflexivity.
  - intros [(d & ->) (g & k & ->)]. reflexivity.
  - intros N. exists (map2 Bool.eqb x y). split; [|exact PE].
    destruct m1 as [d1|g1 k1], m2 as [d2|g2 k2]; try reflexivity.
    exfalso. apply N. split; eauto.
  - intros N N'. exists (map2 xorb x y). split; [|exact PN].
    destruct m1 as [d1|g1 k1], m2 as [d2|g2 k2]; try reflexivity.
    + exfalso. apply N'. split; eauto.
    + exfalso. apply N. split; eauto.
Qed.
Print Assumptions C103_mask_comparison_partial.

Example C103_case :
  mask_eq (MArr [true; true]) (MGrp "or" [("a", MArr [true; false])]) = Ok (MArr [true; false]) /\
  mask_ne (MArr [true; true]) (MGrp "or" [("a", MArr [true; false])]) = Err TypeError.
Proof. split; reflexivity. Qed.

Theorem C103_comparison_length_mismatch : forall m1 m2 x y,
  data m1 = Ok x -> data m2 = Ok y -> length x <> length y ->
  mask_eq m1 m2 = Err ValueError /\ mask_ne m1 m2 = Err ValueError.
Proof.
  intros m1 m2 x y H1 H2 HL. unfold mask_eq, mask_ne, mask_cmp. rewrite H1, H2. cbn [bind].
  destruct (Nat.eqb_spec (length x) (length y)); [contradiction | auto].
Qed.
Print Assumptions C103_comparison_length_mismatch.

(** * C117 truth value *)

(** [bool(mask)]: True exactly when the mask covers at least one particle.  An
    empty group is False; a non-empty group whose data cannot be read raises. *)
Theorem C117_truth : forall m,
  (forall d, m = MArr d -> mask_bool m = Ok (match d with [] => false | _ => true end)) /\
  (forall agg, m = MGrp agg [] -> mask_bool m = Ok false) /\
  (forall n agg kids, m = MGrp agg kids -> aggregable n m -> mask_bool m = Ok (match n with 0 => false | _ => true end)) /\
  (forall agg kids, m = MGrp agg kids -> kids <> [] -> (forall n, ~ aggregable n m) -> exists e, mask_bool m = Err e).
Proof.
  intros m. repeat split.
  - intros [|b d] ->; reflexivity.
  - intros agg ->. reflexivity.
  - intros n agg kids -> HA. destruct (data_complete _ n HA) as (d & Hd & Hn).
    destruct kids as [|p kids]; [inversion HA; congruence|]. unfold mask_bool. rewrite Hd. cbn [bind]. rewrite Hn.
    destruct n; reflexivity.
  - intros agg kids -> HK HN. destruct kids as [|p kids]; [contradiction|].
    destruct (C02_data_raises_otherwise _ HN) as (e & He). exists e. unfold mask_bool. rewrite He. reflexivity.
Qed.
Print Assumptions C117_truth.

Example C117_case : mask_bool ex_tree = Ok true /\ mask_bool (MGrp "none" [("a", MArr [true])]) = Err ValueError.
Proof. split; reflexivity. Qed.

(** * C118 how reading a group fails *)

Lemma agg_op_unknown agg : (forall o, ~ means agg o) -> agg_op agg = Err ValueError.
Proof.
  intros H. destruct (agg_op agg) as [o|e] eqn:E.
  - exfalso. apply (H o). apply agg_op_means; exact E.
  - unfold agg_op in E. destruct (String.eqb (lower agg) "and"); [discriminate|].
    destruct (String.eqb (lower agg) "or"); [discriminate|]. destruct (String.eqb (lower agg) "none"); congruence.
Qed.

Theorem C118_data_failures : forall agg kids,
  (means agg NONE -> data (MGrp agg kids) = Err ValueError) /\
  ((forall o, ~ means agg o) -> data (MGrp agg kids) = Err ValueError) /\
  (means agg AND \/ means agg OR ->
     (kids = [] -> data (MGrp agg kids) = Err TypeError) /\
     ((forall k v, In (k, v) kids -> exists d, data v = Ok d) ->
      (exists k1 v1 d1 k2 v2 d2, In (k1, v1) kids /\ In (k2, v2) kids /\ data v1 = Ok d1 /\ data v2 = Ok d2 /\ length d1 <> length d2) ->
      data (MGrp agg kids) = Err ValueError) /\
     (forall before k v after e, kids = (before ++ (k, v) :: after)%list ->
        (forall k' v', In (k', v') before -> exists d, data v' = Ok d) -> data v = Err e ->
        data (MGrp agg kids) = Err e)).
Proof.
  intros agg kids. split; [|split].
  - intros H. cbn [data]. apply agg_op_means in H. rewrite H. reflexivity.
  - intros H. cbn [data]. rewrite agg_op_unknown by exact H. reflexivity.
  - intros H.
    assert (S : exists f, data (MGrp agg kids) = (ds <- mapM (fun p => data (snd p)) kids ;; np_reduce f ds)).
    { cbn [data]. destruct H as [H|H]; apply agg_op_means in H; rewrite H; cbn [bind]; eauto. }
    destruct S as (f & ->). split; [|split].
    + intros ->. reflexivity.
    + intros HR (k1 & v1 & d1 & k2 & v2 & d2 & I1 & I2 & D1 & D2 & NE).
      destruct (mapM (fun p : string * mask => data (snd p)) kids) as [ds|e] eqn:M.
      * cbn [bind]. unfold np_reduce. apply mapM_ok in M.
        assert (IN : forall k v d, In (k, v) kids -> data v = Ok d -> In d ds).
        { clear - M. intros k v d Hk Hd. induction M as [|p q kids ds Hp M IH]; [destruct Hk|].
          destruct Hk as [->|Hk]; [left; cbn in Hp; congruence | right; auto]. }
        pose proof (IN _ _ _ I1 D1) as J1. pose proof (IN _ _ _ I2 D2) as J2.
        destruct ds as [|d0 ds]; [destruct J1|].
        destruct (forallb (fun e => Nat.eqb (length e) (length d0)) ds) eqn:F; [|reflexivity].
        exfalso. apply NE. rewrite forallb_forall in F.
        assert (L : forall d, In d (d0 :: ds) -> length d = length d0).
        { intros d [<-|Hd]; [reflexivity|]. apply Nat.eqb_eq. apply F; exact Hd. }
        rewrite (L d1 J1), (L d2 J2). reflexivity.
      * exfalso. apply mapM_err in M as ([k v] & Hp & He). destruct (HR k v Hp) as (d & Hd). cbn in He. congruence.
    + intros before k v after e -> HB HV.
      assert (M : mapM (fun p : string * mask => data (snd p)) (before ++ (k, v) :: after)%list = Err e).
      { clear - HB HV. induction before as [|[k0 v0] before IH]; cbn [app mapM snd].
        - rewrite HV. reflexivity.
        - destruct (HB k0 v0 (or_introl eq_refl)) as (d & ->). cbn [bind].
          rewrite IH by (intros k' v' H'; apply (HB k' v'); right; exact H'). reflexivity. }
      rewrite M. reflexivity.
Qed.
Print Assumptions C118_data_failures.

Example C118_case : data (MGrp "or" [("a", MArr [true]); ("b", MArr [])]) = Err ValueError /\
  data (MGrp "and" []) = Err TypeError /\ (forall o, ~ means "xor" o).
Proof.
  split; [reflexivity|]. split; [reflexivity|]. intros [] H; cbn in H; intuition discriminate.
Qed.
