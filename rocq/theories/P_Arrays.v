(** Properties C14-C22: particle data arrays. *)
From Verif Require Import Prelude Dict Keys MaskTypes Mask SpecArray Arrays ArraysProofs.

(** * C14, C15: PdgArray.mask *)

Theorem C14_mask_sign_sensitive : forall data target blacklist,
  Forall fits32 target ->
  length (pdg_mask data target blacklist true) = length data /\
  forall i z, nth_error data i = Some z ->
    exists b, nth_error (pdg_mask data target blacklist true) i = Some b /\
              (b = true <-> (if blacklist then ~ In z target else In z target)).
Proof. exact pdg_mask_sensitive. Qed.
Print Assumptions C14_mask_sign_sensitive.

Theorem C14_mask_sign_insensitive : forall data target blacklist,
  Forall fits32 target -> Forall fits32 data ->
  length (pdg_mask data target blacklist false) = length data /\
  forall i z, nth_error data i = Some z -> z <> (- 2 ^ 31)%Z ->
    exists b, nth_error (pdg_mask data target blacklist false) i = Some b /\
              (b = true <-> (if blacklist then ~ In (Z.abs z) target else In (Z.abs z) target)).
Proof. exact pdg_mask_insensitive. Qed.
Print Assumptions C14_mask_sign_insensitive.

Example C14_case : pdg_mask [11; -11; 211; -2212]%Z [11; 2212]%Z false false = [true; true; false; true].
Proof. reflexivity. Qed.
Example C14_hyps : Forall fits32 [11; -11; 211; -2212]%Z.
Proof. repeat constructor; discriminate. Qed.

(** Targeting -11 is not the same as targeting 11, although signs are declared irrelevant. *)
Theorem C15_negative_target_refuted : exists data c,
  pdg_mask data [c] false false <> pdg_mask data [(- c)%Z] false false.
Proof. exists [11; -11]%Z, 11%Z. discriminate. Qed.
Print Assumptions C15_negative_target_refuted.

(** In general a list of negative codes selects nothing... *)
Theorem C15_negative_target_selects_nothing : forall data target,
  Forall fits32 data -> Forall fits32 target ->
  Forall (fun z => z <> (- 2 ^ 31)%Z) data -> Forall (fun c => (c < 0)%Z) target ->
  pdg_mask data target false false = repeat false (length data).
Proof. exact pdg_mask_negative_nothing. Qed.
Print Assumptions C15_negative_target_selects_nothing.

(** ... what does hold: the signs of the DATA are irrelevant, for every target. *)
Theorem C15_data_sign_irrelevant_partial : forall data data' target blacklist,
  Forall2 (fun a b => Z.abs a = Z.abs b) data data' ->
  pdg_mask data target blacklist false = pdg_mask data' target blacklist false.
Proof. exact pdg_mask_abs_data. Qed.
Print Assumptions C15_data_sign_irrelevant_partial.

(** * C16, C17: StatusArray *)

Theorem C16_in_range : forall data lo hi sign_sensitive,
  Forall fits16 data ->
  length (in_range data lo hi sign_sensitive) = length data /\
  forall i z, nth_error data i = Some z ->
    exists b, nth_error (in_range data lo hi sign_sensitive) i = Some b /\
      let s := if sign_sensitive then z else if (z =? - 2 ^ 15)%Z then (- 2 ^ 15)%Z else Z.abs z in
      (b = true <-> (lo <= s)%Z /\ (forall h, hi = Some h -> (s <= h)%Z)).
Proof. exact in_range_spec. Qed.
Print Assumptions C16_in_range.

Example C16_case :
  in_range [-21; 23; 62; -32768]%Z 20 (Some 30%Z) false = [true; true; false; false] /\
  in_range [-21; 23; 62; -32768]%Z (-30) None true = [true; true; true; false].
Proof. split; reflexivity. Qed.

Theorem C17_hard_mask : forall data,
  Forall fits16 data ->
  exists a b c d,
    hard_mask data = (MGrp "or" [("incoming", MArr a); ("intermediate", MArr b); ("outgoing", MArr c);
                                ("outgoing_nonperturbative_diffraction", MArr d)])%string /\
    Forall (fun m => length m = length data) [a; b; c; d] /\
    (forall i z, nth_error data i = Some z ->
       nth_error a i = Some (Z.abs z =? 21)%Z /\ nth_error b i = Some (Z.abs z =? 22)%Z /\
       nth_error c i = Some (Z.abs z =? 23)%Z /\ nth_error d i = Some (Z.abs z =? 24)%Z) /\
    exists t, Mask.data (hard_mask data) = Ok t /\ length t = length data /\
      forall i z, nth_error data i = Some z ->
        exists v, nth_error t i = Some v /\ (v = true <-> (21 <= Z.abs z <= 24)%Z).
Proof. exact hard_mask_spec. Qed.
Print Assumptions C17_hard_mask.

(** The four categories never overlap. *)
Theorem C17_disjoint : forall data i j k mj mk nj nk,
  Forall fits16 data ->
  (exists kids, hard_mask data = MGrp "or" kids /\
     nth_error kids j = Some (nj, MArr mj) /\ nth_error kids k = Some (nk, MArr mk)) ->
  j <> k -> nth_error mj i = Some true -> nth_error mk i = Some true -> False.
Proof.
  intros data i j k mj mk nj nk HD (kids & E & Ej & Ek) Hjk Hj Hk.
  unfold hard_mask in E. injection E as <-.
  set (a := map (fun z => wrap16 (Z.abs z)) data) in *.
  assert (Hm : forall c v, nth_error (map (Z.eqb c) a) i = Some true -> nth_error a i = Some v -> v = c).
  { intros c v H Hv. rewrite nth_error_map', Hv in H. cbn in H. injection H as H. apply Z.eqb_eq in H. auto. }
  assert (Hs : forall c, nth_error (map (Z.eqb c) a) i = Some true -> exists v, nth_error a i = Some v).
  { intros c H. rewrite nth_error_map' in H. destruct (nth_error a i); [eauto | discriminate]. }
  destruct j as [|[|[|[|j]]]], k as [|[|[|[|k]]]]; cbn [nth_error] in Ej, Ek;
    try (exfalso; apply Hjk; reflexivity);
    try (destruct j; discriminate); try (destruct k; discriminate);
    injection Ej as <- <-; injection Ek as <- <-;
    destruct (Hs _ Hj) as (v & Hv); pose proof (Hm _ v Hj Hv); pose proof (Hm _ v Hk Hv); lia.
Qed.
Print Assumptions C17_disjoint.

Example C17_case : Mask.data (hard_mask [-21; -21; 22; -23; 62; 24]%Z) = Ok [true; true; true; true; false; true].
Proof. reflexivity. Qed.

(** * C18: structured momenta and edges are read by field name *)

Theorem C18_momentum_by_name : forall {A} (names : list string) (rows : list (list A)) nx ny nz ne,
  pmu_alias "x" nx -> pmu_alias "y" ny -> pmu_alias "z" nz -> pmu_alias "e" ne ->
  Permutation names [nx; ny; nz; ne] ->
  Forall (fun r => length r = length names) rows ->
  exists stored, pmu_new (Struct names rows) = Ok (Mat 4 stored) /\ length stored = length rows /\
    forall i row, nth_error rows i = Some row ->
      exists x y z e, nth_error stored i = Some [x; y; z; e] /\
        field_is names row nx x /\ field_is names row ny y /\ field_is names row nz z /\ field_is names row ne e.
Proof.
  intros A names rows nx ny nz ne Hx Hy Hz He HP HL.
  assert (Hin : forall n, In n names <-> n = nx \/ n = ny \/ n = nz \/ n = ne).
  { intros n. split; intros H.
    - apply (Permutation_in _ HP) in H. cbn in H. intuition.
    - apply (Permutation_in _ (Permutation_sym HP)). cbn. intuition. }
  destruct (reorder_total momentum_map momentum_order names rows HL) as (w & r & Hr).
  { apply Forall_forall. intros n Hn. apply Hin in Hn.
    destruct Hn as [->|[->|[->| ->]]]; eexists; apply momentum_alias; eassumption. }
  { repeat constructor; eexists; (split; [apply Hin | apply momentum_alias; eassumption]); tauto. }
  destruct (reorder_ok momentum_map momentum_order momentum_self names rows w r HL Hr) as (Lw & _ & HF).
  assert (Hr4 : Forall (fun x => length x = 4) r).
  { clear -HF. induction HF as [|a b rows r Hab HF IH]; constructor; [|exact IH].
    apply Forall2_length' in Hab. cbn in Hab. congruence. }
  exists r. split; [|split].
  - unfold pmu_new, converter, to_plain. cbn [Nat.eqb]. rewrite Hr. cbn [bind fst snd]. rewrite Lw. cbn [length momentum_order].
    rewrite nd_map_id. cbn [check_shape Nat.eqb negb]. rewrite andb_false_r. cbn [bind]. apply reshape_mat; [lia | exact Hr4].
  - symmetry. eapply Forall2_length'; exact HF.
  - intros i row Hi. pose proof (Forall2_nth_error _ _ _ i HF) as H. rewrite Hi in H.
    destruct (nth_error r i) as [row'|]; [|destruct H].
    inversion H as [|? x ? ? Fx H1]; subst. inversion H1 as [|? y ? ? Fy H2]; subst.
    inversion H2 as [|? z ? ? Fz H3]; subst. inversion H3 as [|? e ? ? Fe H4]; subst. inversion H4; subst.
    exists x, y, z, e. split; [reflexivity|].
    assert (U : forall c n n' v, pmu_alias c n -> (forall m, (m = nx \/ m = ny \/ m = nz \/ m = ne) -> pmu_alias c m -> m = n) ->
               n' = c -> from_alias momentum_map names row n' v -> field_is names row n v).
    { intros c n n' v Hn Hu -> (m & Em & Hm). rewrite <- (Hu m); [exact Hm| |apply momentum_alias; exact Em].
      apply Hin. destruct Hm as (j & Hj & _). eapply nth_error_In; exact Hj. }
    assert (D : forall c c' n, pmu_alias c n -> pmu_alias c' n -> c = c').
    { intros c c' n H5 H6. apply momentum_alias in H5, H6. congruence. }
    repeat split.
    + eapply (U "x"%string); eauto. intros m [->|[->|[->| ->]]] Hm; auto; exfalso;
        [pose proof (D _ _ _ Hm Hy)|pose proof (D _ _ _ Hm Hz)|pose proof (D _ _ _ Hm He)]; discriminate.
    + eapply (U "y"%string); eauto. intros m [->|[->|[->| ->]]] Hm; auto; exfalso;
        [pose proof (D _ _ _ Hm Hx)|pose proof (D _ _ _ Hm Hz)|pose proof (D _ _ _ Hm He)]; discriminate.
    + eapply (U "z"%string); eauto. intros m [->|[->|[->| ->]]] Hm; auto; exfalso;
        [pose proof (D _ _ _ Hm Hx)|pose proof (D _ _ _ Hm Hy)|pose proof (D _ _ _ Hm He)]; discriminate.
    + eapply (U "e"%string); eauto. intros m [->|[->|[->| ->]]] Hm; auto; exfalso;
        [pose proof (D _ _ _ Hm Hx)|pose proof (D _ _ _ Hm Hy)|pose proof (D _ _ _ Hm Hz)]; discriminate.
Qed.
Print Assumptions C18_momentum_by_name.

(** Unknown or missing momentum fields: KeyError, never wrong data. *)
Theorem C18_momentum_rejects : forall {A} (names : list string) (rows : list (list A)),
  Forall (fun r => length r = length names) rows ->
  ((exists n, In n names /\ forall c, ~ pmu_alias c n) \/
   (exists c, In c ["x"; "y"; "z"; "e"]%string /\ forall n, In n names -> ~ pmu_alias c n)) ->
  pmu_new (Struct names rows) = Err KeyError.
Proof.
  intros A names rows HL H. unfold pmu_new, converter, to_plain. cbn [Nat.eqb].
  destruct (reorder momentum_map momentum_order names rows) as [[w r]|e] eqn:Hr.
  - exfalso. destruct (reorder_ok momentum_map momentum_order momentum_self names rows w r HL Hr) as (_ & HN & HF).
    destruct H as [(n & Hn & Hno)|(c & Hc & Hno)].
    + rewrite Forall_forall in HN. destruct (HN n Hn) as (c & Hc). apply momentum_alias in Hc. eapply Hno; exact Hc.
    + (* a missing component: the reordering itself must have found one *)
      unfold reorder in Hr. unfold list_eqb in Hr. destruct (list_eq_dec string_dec names momentum_order) as [->|_].
      * apply (Hno c); [exact Hc|]. apply momentum_alias. apply momentum_self. exact Hc.
      * apply bind_ok in Hr as (comps & Hcomps & Hr). apply bind_ok in Hr as (w' & Hw & _).
        destruct (proj1 (mapM_ok_all _ momentum_order) (ex_intro _ w' Hw) c Hc) as (n & Hl).
        unfold lookup in Hl. destruct (dget c (dict_of (combine comps names))) as [m|] eqn:E; [|discriminate].
        injection Hl as ->. destruct (dget_combine _ _ _ _ _ Hcomps E) as [Hin Hl].
        apply (Hno n Hin). apply momentum_alias. unfold lookup in Hl. destruct (dget n momentum_map); congruence.
  - cbn [bind]. rewrite (reorder_err momentum_map momentum_order names rows e HL Hr). reflexivity.
Qed.
Print Assumptions C18_momentum_rejects.

Theorem C18_edges_by_name : forall (names : list string) (rows : list (list Z)) ns nd,
  edge_alias "src" ns -> edge_alias "dst" nd -> Permutation names [ns; nd] ->
  Forall (fun r => length r = length names) rows -> Forall (Forall fits32) rows ->
  exists stored, adj_new (Struct names rows) = Ok (Mat 2 stored) /\ length stored = length rows /\
    forall i row, nth_error rows i = Some row ->
      exists s d, nth_error stored i = Some [s; d] /\ field_is names row ns s /\ field_is names row nd d.
Proof.
  intros names rows ns nd Hs Hd HP HL H32.
  assert (Hin : forall n, In n names <-> n = ns \/ n = nd).
  { intros n. split; intros H.
    - apply (Permutation_in _ HP) in H. cbn in H. intuition.
    - apply (Permutation_in _ (Permutation_sym HP)). cbn. intuition. }
  destruct (reorder_total edge_map edge_order names rows HL) as (w & r & Hr).
  { apply Forall_forall. intros n Hn. apply Hin in Hn.
    destruct Hn as [->| ->]; eexists; apply edge_alias_iff; eassumption. }
  { repeat constructor; eexists; (split; [apply Hin | apply edge_alias_iff; eassumption]); tauto. }
  destruct (reorder_ok edge_map edge_order edge_self names rows w r HL Hr) as (Lw & _ & HF).
  assert (Hmap : map (map wrap32) r = r).
  { apply map_id_in. apply Forall_forall. intros row' Hrow'. apply wrap32_list.
    apply Forall_forall. intros v Hv. apply In_nth_error in Hrow' as (i & Hi).
    pose proof (Forall2_nth_error _ _ _ i HF) as H. rewrite Hi in H. destruct (nth_error rows i) as [row|] eqn:Er; [|destruct H].
    assert (Hrow : Forall fits32 row) by (exact (proj1 (Forall_nth_error _ _) H32 i row Er)).
    apply In_nth_error in Hv as (j & Hj). pose proof (Forall2_nth_error _ _ _ j H) as Hj'. rewrite Hj in Hj'.
    destruct (nth_error edge_order j); [|destruct Hj']. destruct Hj' as (n & _ & k & _ & Hk).
    exact (proj1 (Forall_nth_error _ _) Hrow k v Hk). }
  assert (Hex : existsb (fun n => existsb (String.eqb n) (dkeys edge_map)) names = true).
  { apply existsb_exists. exists ns. split; [apply Hin; auto|]. apply existsb_exists.
    exists ns. split; [|apply String.eqb_refl]. apply edge_alias_iff in Hs. apply dget_In in Hs.
    unfold dkeys. apply in_map_iff. exists (ns, "src"%string). auto. }
  exists r. split; [|split].
  - unfold adj_new, converter, to_plain. cbn [Nat.eqb]. rewrite Hex. cbn [andb]. rewrite Hr. cbn [bind fst snd]. rewrite Lw.
    cbn [length edge_order nd_map]. rewrite Hmap. cbn [check_shape Nat.eqb negb]. rewrite andb_false_r. reflexivity.
  - symmetry. eapply Forall2_length'; exact HF.
  - intros i row Hi. pose proof (Forall2_nth_error _ _ _ i HF) as H. rewrite Hi in H.
    destruct (nth_error r i) as [row'|]; [|destruct H].
    inversion H as [|? x ? ? Fx H1]; subst. inversion H1 as [|? y ? ? Fy H2]; subst. inversion H2; subst.
    exists x, y. split; [reflexivity|].
    assert (D : forall c c' n, edge_alias c n -> edge_alias c' n -> c = c').
    { intros c c' n H5 H6. apply edge_alias_iff in H5, H6. congruence. }
    assert (U : forall c n v, edge_alias c n -> (forall m, (m = ns \/ m = nd) -> edge_alias c m -> m = n) ->
               from_alias edge_map names row c v -> field_is names row n v).
    { intros c n v Hn Hu (m & Em & Hm). rewrite <- (Hu m); [exact Hm| |apply edge_alias_iff; exact Em].
      apply Hin. destruct Hm as (j & Hj & _). eapply nth_error_In; exact Hj. }
    split.
    + eapply (U "src"%string); eauto. intros m [->| ->] Hm; auto. pose proof (D _ _ _ Hm Hd); discriminate.
    + eapply (U "dst"%string); eauto. intros m [->| ->] Hm; auto. pose proof (D _ _ _ Hm Hs); discriminate.
Qed.
Print Assumptions C18_edges_by_name.

(** With at least one recognised edge field, an unrecognised or missing one is a KeyError. *)
Theorem C18_edges_reject : forall (names : list string) (rows : list (list Z)),
  Forall (fun r => length r = length names) rows ->
  (exists n c, In n names /\ edge_alias c n) ->
  ((exists n, In n names /\ forall c, ~ edge_alias c n) \/
   (exists c, In c ["src"; "dst"]%string /\ forall n, In n names -> ~ edge_alias c n)) ->
  adj_new (Struct names rows) = Err KeyError.
Proof.
  intros names rows HL (n0 & c0 & Hn0 & Hc0) H. unfold adj_new, converter, to_plain. cbn [Nat.eqb].
  assert (Hex : existsb (fun n => existsb (String.eqb n) (dkeys edge_map)) names = true).
  { apply existsb_exists. exists n0. split; [exact Hn0|]. apply existsb_exists.
    exists n0. split; [|apply String.eqb_refl]. apply edge_alias_iff in Hc0. apply dget_In in Hc0.
    unfold dkeys. apply in_map_iff. exists (n0, c0). auto. }
  rewrite Hex. cbn [andb].
  destruct (reorder edge_map edge_order names rows) as [[w r]|e] eqn:Hr.
  - exfalso. destruct (reorder_ok edge_map edge_order edge_self names rows w r HL Hr) as (_ & HN & HF).
    destruct H as [(n & Hn & Hno)|(c & Hc & Hno)].
    + rewrite Forall_forall in HN. destruct (HN n Hn) as (c & Hc). apply edge_alias_iff in Hc. eapply Hno; exact Hc.
    + unfold reorder in Hr. unfold list_eqb in Hr. destruct (list_eq_dec string_dec names edge_order) as [->|_].
      * apply (Hno c); [exact Hc|]. apply edge_alias_iff. apply edge_self. exact Hc.
      * apply bind_ok in Hr as (comps & Hcomps & Hr). apply bind_ok in Hr as (w' & Hw & _).
        destruct (proj1 (mapM_ok_all _ edge_order) (ex_intro _ w' Hw) c Hc) as (n & Hl).
        unfold lookup in Hl. destruct (dget c (dict_of (combine comps names))) as [m|] eqn:E; [|discriminate].
        injection Hl as ->. destruct (dget_combine _ _ _ _ _ Hcomps E) as [Hin Hl].
        apply (Hno n Hin). apply edge_alias_iff. unfold lookup in Hl. destruct (dget n edge_map); congruence.
  - cbn [bind]. rewrite (reorder_err edge_map edge_order names rows e HL Hr). reflexivity.
Qed.
Print Assumptions C18_edges_reject.

Example C18_case :
  pmu_new (Struct ["E"; "px"; "pz"; "y"]%string [[4; 1; 3; 2]; [8; 5; 7; 6]]) = Ok (Mat 4 [[1; 2; 3; 4]; [5; 6; 7; 8]]) /\
  adj_new (Struct ["out"; "in"]%string [[2; 1]; [4; 3]]%Z) = Ok (Mat 2 [[1; 2]; [3; 4]]%Z) /\
  adj_new (Struct ["out"; "foo"]%string [[2; 1]]%Z) = Err KeyError.
Proof. repeat split. Qed.

(** * C19: structured colors *)

Theorem C19_color_swapped_refuted : exists names rows stored,
  Permutation names ["color"; "anticolor"]%string /\
  color_new (Struct names rows) = Ok stored /\
  exists row c, nth_error rows 0 = Some row /\ field_is names row "color" c /\
    color_of stored <> Ok [c].
Proof.
  exists ["anticolor"; "color"]%string, [[502; 501]]%Z, (Mat 2 [[502; 501]]%Z).
  split; [apply perm_swap|]. split; [reflexivity|].
  exists [502; 501]%Z, 501%Z. split; [reflexivity|]. split; [exists 1; auto|]. discriminate.
Qed.
Print Assumptions C19_color_swapped_refuted.

Theorem C19_color_in_order_partial : forall rows,
  Forall (fun r => length r = 2) rows -> Forall (Forall fits32) rows ->
  color_new (Struct ["color"; "anticolor"]%string rows) = Ok (Mat 2 rows) /\
  exists cs acs, color_of (Mat 2 rows) = Ok cs /\ anticolor_of (Mat 2 rows) = Ok acs /\
    forall i row, nth_error rows i = Some row ->
      exists c a, nth_error cs i = Some c /\ nth_error acs i = Some a /\
        field_is ["color"; "anticolor"]%string row "color" c /\
        field_is ["color"; "anticolor"]%string row "anticolor" a.
Proof.
  intros rows HL H32. split.
  - unfold color_new, converter, to_plain. cbn [Nat.eqb]. cbn [existsb dkeys map edge_map fst String.eqb andb orb Ascii.eqb Bool.eqb].
    cbn [bind fst snd length nd_map]. rewrite (map_id_in (map wrap32) rows).
    + cbn [check_shape Nat.eqb negb]. rewrite andb_false_r. reflexivity.
    + eapply Forall_impl; [|exact H32]. intros r Hr. apply wrap32_list; exact Hr.
  - unfold color_of, anticolor_of, column.
    assert (Hg : forall j, j < 2 -> exists l, mapM (fun r => get r j) rows = Ok l).
    { intros j Hj. apply mapM_ok_all. intros r Hr. rewrite Forall_forall in HL. specialize (HL r Hr).
      unfold get. destruct (nth_error_in_range r j) as (x & ->); [lia | eauto]. }
    destruct (Hg 0) as (cs & Hcs); [lia|]. destruct (Hg 1) as (acs & Hacs); [lia|].
    exists cs, acs. split; [exact Hcs|]. split; [exact Hacs|]. intros i row Hi.
    pose proof (mapM_nth _ _ _ i Hcs) as H1. pose proof (mapM_nth _ _ _ i Hacs) as H2. rewrite Hi in H1, H2.
    destruct (nth_error cs i) as [c|]; [|destruct H1]. destruct (nth_error acs i) as [a|]; [|destruct H2].
    apply get_ok in H1, H2. exists c, a. split; [reflexivity|]. split; [reflexivity|].
    split; [exists 0; auto | exists 1; auto].
Qed.
Print Assumptions C19_color_in_order_partial.

(** * C20: shapes *)

(** numpy's [shape]. *)
Definition shape {A} (x : nd A) : list nat :=
  match x with Sc _ => [] | Vec l => [length l] | Mat c rows => [length rows; c] end.

Theorem C20_one_column : forall {A B} (cast : A -> B) (x : nd A),
  (shape x = [] \/ (exists n, shape x = [n]) \/ (exists n, shape x = [n; 1]) ->
     converter cast 1 (Plain x) = Ok (Vec (map cast (elems x)))) /\
  ((exists n m, shape x = [S n; m] /\ m <> 1) -> converter cast 1 (Plain x) = Err ValueError) /\
  ((exists m, shape x = [0; m] /\ m <> 1) -> converter cast 1 (Plain x) = Ok (nd_map cast x) /\ elems x = []).
Proof.
  intros A B cast x. unfold converter, to_plain. cbn [bind]. destruct x as [a|l|c rows]; cbn [shape nd_map check_shape Nat.eqb elems].
  - split; [reflexivity|]. split; [intros (n & m & H & _); discriminate | intros (m & H & _); discriminate].
  - split; [reflexivity|]. split; [intros (n & m & H & _); discriminate | intros (m & H & _); discriminate].
  - split; [|split].
    + intros [H|[(n & H)|(n & H)]]; try discriminate. injection H as _ ->. cbn [Nat.eqb]. rewrite concat_map. reflexivity.
    + intros (n & m & H & Hm). injection H as Hn ->. destruct (Nat.eqb_spec m 1); [contradiction|].
      rewrite map_length, Hn. reflexivity.
    + intros (m & H & Hm). injection H as Hn ->. destruct rows; [|discriminate].
      destruct (Nat.eqb_spec m 1); [contradiction|]. cbn. auto.
Qed.
Print Assumptions C20_one_column.

(** [c]-column arrays (c = 2 for colors and edges, 4 for momenta). *)
Theorem C20_columns : forall {A B} (cast : A -> B) (c : nat) (x : nd A), 1 < c ->
  let accepted := (exists n, shape x = [n; c]) \/ shape x = [c] \/ shape x = [0] \/
                  (exists m, shape x = [0; m]) \/ shape x = [c; 1] in
  (accepted -> converter cast c (Plain x) = Ok (nd_map cast x)) /\
  (shape x = [] -> converter cast c (Plain x) = Err IndexError) /\
  (~ accepted -> shape x <> [] -> converter cast c (Plain x) = Err ValueError).
Proof.
  intros A B cast c x Hc accepted. unfold converter, to_plain. cbn [bind].
  destruct x as [a|l|k rows]; cbn [shape nd_map check_shape] in *; subst accepted.
  - destruct (Nat.eqb_spec c 1); [lia|]. split; [|split; [reflexivity | intros _ H; contradiction]].
    intros [(n' & H)|[H|[H|[(m & H)|H]]]]; discriminate.
  - destruct (Nat.eqb_spec c 1); [lia|]. rewrite map_length. split; [|split; [discriminate|]].
    + intros [(n' & H)|[H|[H|[(m & H)|H]]]]; try discriminate; injection H as ->.
      * rewrite Nat.eqb_refl, andb_false_r. reflexivity.
      * reflexivity.
    + intros H _. destruct (Nat.eqb_spec (length l) 0) as [E|E]; [exfalso; apply H; rewrite E; tauto|].
      destruct (Nat.eqb_spec (length l) c) as [E'|E']; [exfalso; apply H; rewrite E'; tauto | reflexivity].
  - rewrite map_length. destruct (Nat.eqb_spec c 1); [lia|]. destruct (Nat.eqb_spec k 1) as [->|Hk].
    + split; [|split; [discriminate|]].
      * intros [(n' & H)|[H|[H|[(m & H)|H]]]]; try discriminate; injection H as H; try (subst; lia).
        -- rewrite H. reflexivity.
        -- rewrite H, Nat.eqb_refl, andb_false_r. reflexivity.
      * intros H _. destruct (Nat.eqb_spec (length rows) 0) as [E|E]; [exfalso; apply H; rewrite E; right; right; right; left; eauto|].
        destruct (Nat.eqb_spec (length rows) c) as [E'|E']; [exfalso; apply H; rewrite E'; tauto | reflexivity].
    + split; [|split; [discriminate|]].
      * intros [(n' & H)|[H|[H|[(m & H)|H]]]]; try discriminate; injection H as H1 H2; try (subst; lia).
        -- subst k. rewrite Nat.eqb_refl, andb_false_r. reflexivity.
        -- rewrite H1. reflexivity.
      * intros H _. destruct (Nat.eqb_spec (length rows) 0) as [E|E]; [exfalso; apply H; rewrite E; right; right; right; left; eauto|].
        destruct (Nat.eqb_spec k c) as [->|E']; [exfalso; apply H; left; eauto | reflexivity].
Qed.
Print Assumptions C20_columns.

(** Nothing is lost or invented, for any column count, and momenta end up as (n, 4). *)
Theorem C20_elements_kept : forall {A B} (cast : A -> B) (c : nat) (x : nd A) y,
  converter cast c (Plain x) = Ok y -> elems y = map cast (elems x).
Proof.
  intros A B cast c x y H. unfold converter, to_plain in H. cbn [bind] in H.
  rewrite (check_shape_elems _ _ _ H). apply nd_map_elems.
Qed.
Print Assumptions C20_elements_kept.

Theorem C20_momentum_rows : forall {A} (x : nd A) y, pmu_new (Plain x) = Ok y ->
  exists rows, y = Mat 4 rows /\ Forall (fun r => length r = 4) rows /\ concat rows = elems x.
Proof.
  intros A x y H. unfold pmu_new in H. apply bind_ok in H as (z & Hz & H).
  apply reshape_ok in H as (rows & -> & H1 & H2); [|lia]. exists rows. split; [reflexivity|]. split; [exact H1|].
  rewrite H2, (C20_elements_kept _ _ _ _ Hz), map_id. reflexivity.
Qed.
Print Assumptions C20_momentum_rows.

Example C20_case :
  pmu_new (Plain (Vec [1; 2; 3; 4])) = Ok (Mat 4 [[1; 2; 3; 4]]) /\
  pmu_new (Plain (Vec [1; 2; 3])) = Err ValueError /\
  color_new (Plain (Mat 3 [[1; 2; 3]]%Z)) = Err ValueError /\
  pdg_new (Plain (Mat 1 [[11]; [12]]%Z)) = Ok (Vec [11; 12]%Z).
Proof. repeat split. Qed.

(** * C21: one particle is an array of length one *)

Lemma norm_idx_in n i : (- Z.of_nat n <= i < Z.of_nat n)%Z -> norm_idx n i = Ok (Z.to_nat (i mod Z.of_nat n)).
Proof.
  intros H. unfold norm_idx.
  assert (E : ((- Z.of_nat n <=? i) && (i <? Z.of_nat n))%Z = true).
  { apply andb_true_intro. split; [apply Z.leb_le | apply Z.ltb_lt]; lia. }
  rewrite E. destruct (Z.ltb_spec i 0).
  - rewrite <- (Z.mod_add i 1) by lia. rewrite Z.mod_small by lia. do 2 f_equal. lia.
  - rewrite Z.mod_small by lia. reflexivity.
Qed.

Lemma idx_lt n i : (- Z.of_nat n <= i < Z.of_nat n)%Z -> Z.to_nat (i mod Z.of_nat n) < n.
Proof. intros H. pose proof (Z.mod_pos_bound i (Z.of_nat n)). lia. Qed.

Theorem C21_single_codes : forall l i, (- Z.of_nat (length l) <= i < Z.of_nat (length l))%Z ->
  exists z, nth_error l (Z.to_nat (i mod Z.of_nat (length l))) = Some z /\
    (Forall fits32 l -> pdg_get (Vec l) (KInt i) = Ok (Vec [z])) /\
    (Forall fits16 l -> helicity_get (Vec l) (KInt i) = Ok (Vec [z]) /\ status_get (Vec l) (KInt i) = Ok (Vec [z])).
Proof.
  intros l i Hi. destruct (nth_error_in_range l _ (idx_lt _ _ Hi)) as (z & Hz). exists z. split; [exact Hz|].
  unfold pdg_get, helicity_get, status_get, nd_get. rewrite (norm_idx_in _ _ Hi). cbn [bind]. unfold get. rewrite Hz. cbn [bind].
  split; intros HF; assert (Fz : _) by (eapply Forall_nth_error in HF; [exact HF | exact Hz]).
  - unfold pdg_new, converter, to_plain. cbn. rewrite wrap32_id by exact Fz. reflexivity.
  - unfold helicity_new, status_new, converter, to_plain. cbn. rewrite wrap16_id by exact Fz. auto.
Qed.
Print Assumptions C21_single_codes.

Theorem C21_single_mask : forall l i, (- Z.of_nat (length l) <= i < Z.of_nat (length l))%Z ->
  exists b, nth_error l (Z.to_nat (i mod Z.of_nat (length l))) = Some b /\ maskarr_get (Vec l) (KInt i) = Ok (Vec [b]).
Proof.
  intros l i Hi. destruct (nth_error_in_range l _ (idx_lt _ _ Hi)) as (z & Hz). exists z. split; [exact Hz|].
  unfold maskarr_get, nd_get. rewrite (norm_idx_in _ _ Hi). cbn [bind]. unfold get. rewrite Hz. reflexivity.
Qed.
Print Assumptions C21_single_mask.

Theorem C21_single_momentum : forall {A} (rows : list (list A)) i,
  Forall (fun r => length r = 4) rows -> (- Z.of_nat (length rows) <= i < Z.of_nat (length rows))%Z ->
  exists p, nth_error rows (Z.to_nat (i mod Z.of_nat (length rows))) = Some p /\
    pmu_get (Mat 4 rows) (KInt i) = Ok (Mat 4 [p]).
Proof.
  intros A rows i HL Hi. destruct (nth_error_in_range rows _ (idx_lt _ _ Hi)) as (p & Hp). exists p. split; [exact Hp|].
  assert (Lp : length p = 4) by (eapply Forall_nth_error in HL; [exact HL | exact Hp]).
  unfold pmu_get, nd_get. rewrite (norm_idx_in _ _ Hi). cbn [bind]. unfold get. rewrite Hp. cbn [bind].
  destruct p as [|a [|b [|c [|d [|]]]]]; cbn in Lp; try discriminate. reflexivity.
Qed.
Print Assumptions C21_single_momentum.

Theorem C21_single_edge : forall rows i,
  Forall (fun r => length r = 2) rows -> Forall (Forall fits32) rows ->
  (- Z.of_nat (length rows) <= i < Z.of_nat (length rows))%Z ->
  exists e, nth_error rows (Z.to_nat (i mod Z.of_nat (length rows))) = Some e /\
    adj_get (Mat 2 rows) (KInt i) = Ok (Mat 2 [e]).
Proof.
  intros rows i HL H32 Hi. destruct (nth_error_in_range rows _ (idx_lt _ _ Hi)) as (p & Hp). exists p. split; [exact Hp|].
  assert (Lp : length p = 2) by (eapply Forall_nth_error in HL; [exact HL | exact Hp]).
  assert (Fp : Forall fits32 p) by (eapply Forall_nth_error in H32; [exact H32 | exact Hp]).
  unfold adj_get, nd_get. rewrite (norm_idx_in _ _ Hi). cbn [bind]. unfold get. rewrite Hp. cbn [bind].
  destruct p as [|a [|b [|]]]; cbn in Lp; try discriminate.
  inversion Fp as [|? ? Ha Fb]; subst. inversion Fb as [|? ? Hb _]; subst.
  change (reshape 2 (Vec [a; b])) with (Ok (Mat 2 [[a; b]])). cbn [bind].
  unfold adj_new, converter, to_plain. cbn [bind nd_map map]. rewrite (wrap32_id a), (wrap32_id b) by assumption. reflexivity.
Qed.
Print Assumptions C21_single_edge.

(** The ColorArray exception: always length 2. *)
Theorem C188_single_color_refuted : exists rows i y,
  Forall (fun r => length r = 2) rows /\ (- Z.of_nat (length rows) <= i < Z.of_nat (length rows))%Z /\
  color_get (Mat 2 rows) (KInt i) = Ok y /\ nd_len y = 2.
Proof.
  exists [[501; 0]; [0; 502]; [0; 0]]%Z, 1%Z, (Vec [0; 502]%Z). repeat split; try (cbn; lia).
  repeat constructor.
Qed.
Print Assumptions C188_single_color_refuted.

Theorem C188_single_color_flat_partial : forall rows i,
  Forall (fun r => length r = 2) rows -> Forall (Forall fits32) rows ->
  (- Z.of_nat (length rows) <= i < Z.of_nat (length rows))%Z ->
  exists c, nth_error rows (Z.to_nat (i mod Z.of_nat (length rows))) = Some c /\
    color_get (Mat 2 rows) (KInt i) = Ok (Vec c).
Proof.
  intros rows i HL H32 Hi. destruct (nth_error_in_range rows _ (idx_lt _ _ Hi)) as (p & Hp). exists p. split; [exact Hp|].
  assert (Lp : length p = 2) by (eapply Forall_nth_error in HL; [exact HL | exact Hp]).
  assert (Fp : Forall fits32 p) by (eapply Forall_nth_error in H32; [exact H32 | exact Hp]).
  unfold color_get, nd_get. rewrite (norm_idx_in _ _ Hi). cbn [bind]. unfold get. rewrite Hp. cbn [bind].
  unfold color_new, converter, to_plain. cbn [bind nd_map]. rewrite (wrap32_list p Fp). cbn [check_shape Nat.eqb].
  rewrite Lp. reflexivity.
Qed.
Print Assumptions C188_single_color_flat_partial.

(** Out of range is an IndexError everywhere. *)
Theorem C21_out_of_range : forall {A} (rows : list (list A)) (pairs : list (list Z)) (l : list Z) (m : list bool) i,
  let outside n := ~ (- Z.of_nat n <= i < Z.of_nat n)%Z in
  (outside (length rows) -> pmu_get (Mat 4 rows) (KInt i) = Err IndexError) /\
  (outside (length pairs) -> color_get (Mat 2 pairs) (KInt i) = Err IndexError /\ adj_get (Mat 2 pairs) (KInt i) = Err IndexError) /\
  (outside (length l) -> pdg_get (Vec l) (KInt i) = Err IndexError /\
     helicity_get (Vec l) (KInt i) = Err IndexError /\ status_get (Vec l) (KInt i) = Err IndexError) /\
  (outside (length m) -> maskarr_get (Vec m) (KInt i) = Err IndexError).
Proof.
  intros A rows pairs l m i outside. unfold outside.
  assert (N : forall n, ~ (- Z.of_nat n <= i < Z.of_nat n)%Z -> norm_idx n i = Err IndexError).
  { intros n Hn. unfold norm_idx. destruct ((- Z.of_nat n <=? i) && (i <? Z.of_nat n))%Z eqn:E; [|reflexivity].
    apply andb_prop in E as [E1 E2]. apply Z.leb_le in E1. apply Z.ltb_lt in E2. lia. }
  unfold pmu_get, color_get, adj_get, pdg_get, helicity_get, status_get, maskarr_get, nd_get.
  split; [|split; [|split]]; intros H; rewrite !(N _ H); auto.
Qed.
Print Assumptions C21_out_of_range.

(** * C22: storage width *)

Theorem C22_stored_exactly_when_fits : forall l,
  (Forall fits32 l -> pdg_new (Plain (Vec l)) = Ok (Vec l)) /\
  (Forall fits16 l -> helicity_new (Plain (Vec l)) = Ok (Vec l) /\ status_new (Plain (Vec l)) = Ok (Vec l)).
Proof.
  intros l. unfold pdg_new, helicity_new, status_new, converter, to_plain. cbn [bind nd_map check_shape Nat.eqb].
  split; intros H; [rewrite wrap32_list by exact H | rewrite wrap16_list by exact H]; auto.
Qed.
Print Assumptions C22_stored_exactly_when_fits.

Theorem C22_pairs_stored_exactly : forall rows,
  Forall (fun r => length r = 2) rows -> Forall (Forall fits32) rows ->
  color_new (Plain (Mat 2 rows)) = Ok (Mat 2 rows) /\ adj_new (Plain (Mat 2 rows)) = Ok (Mat 2 rows).
Proof.
  intros rows HL H. unfold color_new, adj_new, converter, to_plain. cbn [bind nd_map].
  rewrite (map_id_in (map wrap32) rows).
  - cbn [check_shape Nat.eqb negb]. rewrite andb_false_r. auto.
  - eapply Forall_impl; [|exact H]. intros r Hr. apply wrap32_list; exact Hr.
Qed.
Print Assumptions C22_pairs_stored_exactly.

(** Otherwise: the representative modulo 2^32 / 2^16 inside the range. *)
Theorem C22_stored_modulo : forall l,
  (exists l', pdg_new (Plain (Vec l)) = Ok (Vec l') /\ length l' = length l /\
     forall i z, nth_error l i = Some z ->
       exists z', nth_error l' i = Some z' /\ fits32 z' /\ exists k, (z' = z + k * 2 ^ 32)%Z) /\
  (exists l', status_new (Plain (Vec l)) = Ok (Vec l') /\ helicity_new (Plain (Vec l)) = Ok (Vec l') /\
     length l' = length l /\
     forall i z, nth_error l i = Some z ->
       exists z', nth_error l' i = Some z' /\ fits16 z' /\ exists k, (z' = z + k * 2 ^ 16)%Z).
Proof.
  intros l. unfold pdg_new, helicity_new, status_new, converter, to_plain. cbn [bind nd_map check_shape Nat.eqb]. split.
  - exists (map wrap32 l). split; [reflexivity|]. split; [apply map_length|]. intros i z Hz.
    rewrite nth_error_map', Hz. cbn. eexists. split; [reflexivity|]. split; [apply (wrap_range 32); lia | apply wrap_congr; lia].
  - exists (map wrap16 l). split; [reflexivity|]. split; [reflexivity|]. split; [apply map_length|]. intros i z Hz.
    rewrite nth_error_map', Hz. cbn. eexists. split; [reflexivity|]. split; [apply (wrap_range 16); lia | apply wrap_congr; lia].
Qed.
Print Assumptions C22_stored_modulo.

Example C22_case : status_new (Plain (Vec [70000; -23]%Z)) = Ok (Vec [4464; -23]%Z).
Proof. reflexivity. Qed.
