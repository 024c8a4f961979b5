(** Properties C56, C97, C98, C99: monte_carlo_tag. *)
From Verif Require Import Prelude Dict Keys MaskTypes SpecMask Mask MaskProofs SpecArray Arrays ArraysProofs SpecHard Hard CompositeProofs HardProofs SpecReal SpecAssign RealBase Kinem KinemProofs
  Par SpecDist DeltaR DeltaRProofs Assign AssignProofs P_Assign P_Coords SpecTag Tag.

Lemma compress_compress {A} (k : Z -> bool) : forall (pm : list bool) (pdg : list Z) (X : list A), length pm = length pdg -> length pm = length X ->
  compress (map k (compress pm pdg)) (compress pm X) = compress (map2 (fun b z => b && k z) pm pdg) X.
Proof.
  induction pm as [|b pm IH]; intros [|z pdg] [|x X] L1 L2; try discriminate; [reflexivity|].
  injection L1 as L1. injection L2 as L2. destruct b; cbn [compress map map2 andb]; [|apply IH; assumption].
  destruct (k z); cbn [compress]; [f_equal|]; apply IH; assumption.
Qed.
Lemma positions_map2 (k : Z -> bool) (g : Z -> bool) : forall (st pdg : list Z), length st = length pdg ->
  positions (map2 (fun b z => b && k z) (map g st) pdg) = filter (fun i => g (nth i st 0%Z) && k (nth i pdg 0%Z)) (seq 0 (length st)).
Proof.
  induction st as [|s st IH]; intros [|z pdg] L; try discriminate; [reflexivity|]. injection L as L.
  cbn [map map2 length seq filter nth]. rewrite positions_cons, IH, <- seq_shift by exact L. rewrite (filter_map_comm S).
  destruct (g s && k z); reflexivity.
Qed.

Lemma portion_data status inter outg : Forall fits16 status -> portions inter outg <> [] ->
  (match hard_mask status with MGrp agg kids => g <- select_keys (portions inter outg) agg kids ;; data g | MArr _ => Err AttributeError end) =
  Ok (map (in_portion inter outg) status).
Proof.
  intros HF HN. unfold hard_mask, select_keys, portions.
  assert (E : forall c, (0 <= c < 2 ^ 15)%Z -> map (Z.eqb c) (map (fun z => wrap16 (Z.abs z)) status) = map (fun z => (Z.abs z =? c)%Z) status).
  { intros c Hc. rewrite map_map. apply map_ext_in. intros z Hz. rewrite Forall_forall in HF. rewrite abs16_code by auto. apply Z.eqb_sym. }
  rewrite (E 22%Z), (E 23%Z) by lia. destruct inter, outg; try (exfalso; apply HN; reflexivity); clear;
    cbn; change (agg_op "or") with (@Ok aggop OR); cbn [bind]; repeat (rewrite ?map_length, ?Nat.eqb_refl; cbn [andb fold_left]); f_equal; unfold in_portion; cbn [andb orb].
  { induction status as [|z l IH]; [reflexivity|]. cbn [map map2]. rewrite IH. reflexivity. }
  all: apply map_ext; intros z; rewrite ?orb_false_r; reflexivity.
Qed.
Lemma matches_isin l (ss inv : bool) pdg : Forall target_ok l -> Forall fits32 pdg ->
  isin (if ss then pdg else map (fun z => wrap32 (Z.abs z)) pdg) (if ss then l else map Z.abs l) inv = map (fun z => xorb (matches l ss z) inv) pdg.
Proof.
  intros HL HP. unfold isin, matches. rewrite Forall_forall in HL, HP. destruct ss.
  - apply map_ext_in. intros z Hz. f_equal. apply existsb_ext_In. intros t _. apply Z.eqb_sym.
  - rewrite map_map. apply map_ext_in. intros z Hz. f_equal. specialize (HP z Hz). clear Hz.
    induction l as [|t l IH]; [reflexivity|]. cbn [map existsb]. rewrite IH by (intros; apply HL; right; assumption). f_equal.
    apply abs32_code; [exact HP|]. destruct (HL t (or_introl eq_refl)) as (H1 & H2). unfold fits32 in *. lia.
Qed.

Lemma combine_map_fst {A B} : forall (a : list A) (b : list B), length a = length b -> map fst (combine a b) = a.
Proof. induction a as [|x a IH]; intros [|y b] H; try discriminate; cbn; [reflexivity|]. f_equal. apply IH. injection H as H; exact H. Qed.
Lemma combine_map_snd {A B} : forall (a : list A) (b : list B), length a = length b -> map snd (combine a b) = b.
Proof. induction a as [|x a IH]; intros [|y b] H; try discriminate; cbn; [reflexivity|]. f_equal. apply IH. injection H as H; exact H. Qed.

Section Main.
  Context (name : Z -> string) (deg : nat -> nat -> ext) (n : nat) (status pdg : list Z) (final : list bool) (pmu : list mom).
  Hypothesis Ls : length status = n. Hypothesis Lz : length pdg = n. Hypothesis Lf : length final = n. Hypothesis Lp : length pmu = n.
  Hypothesis Fs : Forall fits16 status. Hypothesis Fz : Forall fits32 pdg.

  Lemma filter_spec (inter outg ss : bool) f : filter_ok f ->
    let pm := map (in_portion inter outg) status in
    let rows := tag_rows status pdg inter outg f ss in
    tag_filter (compress pm pmu) (compress pm pdg) ss (blacklist_of f) (whitelist_of f) =
    if match f with NoFilter => false | _ => match rows with [] => true | _ => false end end then Err IndexError
    else Ok (map (fun i => nth i pmu mzero) rows, map (fun i => nth i pdg 0%Z) rows).
  Proof.
    intros HF pm rows.
    assert (Lpm : length pm = n) by (unfold pm; rewrite map_length; exact Ls).
    assert (G : forall k : Z -> bool, (forall z, k z = keeps f ss z) -> forall {A} (X : list A) (d : A), length X = n ->
        compress (map k (compress pm pdg)) (compress pm X) = map (fun i => nth i X d) rows).
    { intros k Hk A X d LX. rewrite compress_compress by congruence. rewrite (compress_rows _ X d) by (rewrite map2_length; lia).
      unfold pm. rewrite positions_map2 by congruence. unfold rows, tag_rows. f_equal. apply filter_ext. intros i. rewrite Hk. reflexivity. }
    assert (N : forall k : Z -> bool, (forall z, k z = keeps f ss z) -> existsb (fun b => b) (map k (compress pm pdg)) = match rows with [] => false | _ => true end).
    { intros k Hk. pose proof (G k Hk Z pdg 0%Z Lz) as E.
      assert (Q : forall l, existsb (fun b => b) (map k l) = match compress (map k l) l with [] => false | _ => true end).
      { induction l as [|z l IH]; [reflexivity|]. cbn [map existsb compress]. destruct (k z); cbn; [reflexivity|exact IH]. }
      rewrite Q, E. destruct rows; reflexivity. }
    destruct f as [|l|l]; cbn [blacklist_of whitelist_of].
    - unfold tag_filter. cbn [truthy andb]. do 2 f_equal.
      + assert (E : map (fun _ : Z => true) (compress pm pdg) = map (fun _ => true) (compress pm pmu)).
        { assert (L : length (compress pm pdg) = length (compress pm pmu)) by (rewrite !compress_length; congruence).
          revert L. generalize (compress pm pdg), (compress pm pmu). induction l; intros [|]; cbn; intros; try discriminate; f_equal; auto. }
        rewrite <- (G (fun _ => true)) by (auto). rewrite E. clear. induction (compress pm pmu); cbn; congruence.
      + rewrite <- (G (fun _ => true)) by auto. clear. induction (compress pm pdg); cbn; congruence.
    - destruct HF as (HN & HT). unfold tag_filter. destruct l as [|t l]; [contradiction|]. cbn [truthy andb items].
      rewrite matches_isin by (auto; apply Forall_forall; intros z Hz; rewrite Forall_forall in Fz; apply Fz; apply compress_In in Hz as (i & _ & Hz); eapply nth_error_In; eassumption).
      rewrite N by (intros; cbn [keeps]; apply xorb_true_r). destruct rows as [|r rr] eqn:ER; [reflexivity|]. cbn [negb].
      rewrite !getkey_mask by (rewrite map_length, ?compress_length; congruence || reflexivity). cbn [bind].
      rewrite <- ER in *. f_equal. f_equal; apply G; auto; intros; cbn [keeps]; apply xorb_true_r.
    - destruct HF as (HN & HT). unfold tag_filter. destruct l as [|t l]; [contradiction|]. cbn [truthy andb items].
      rewrite matches_isin by (auto; apply Forall_forall; intros z Hz; rewrite Forall_forall in Fz; apply Fz; apply compress_In in Hz as (i & _ & Hz); eapply nth_error_In; eassumption).
      rewrite N by (intros; cbn [keeps]; apply xorb_false_r). destruct rows as [|r rr] eqn:ER; [reflexivity|]. cbn [negb].
      rewrite !getkey_mask by (rewrite map_length, ?compress_length; congruence || reflexivity). cbn [bind].
      rewrite <- ER in *. f_equal. f_equal; apply G; auto; intros; cbn [keeps]; apply xorb_false_r.
  Qed.
  Lemma clustered_ok clustered : (match clustered with Some c => Ok c | None => getkey pmu (KMask final) end) = Ok (clustered_of pmu final clustered).
  Proof. destruct clustered; [reflexivity|]. apply getkey_mask. congruence. Qed.

  Lemma prepare_spec masks clustered inter outg ss f : filter_ok f ->
    let rows := tag_rows status pdg inter outg f ss in
    let cl := clustered_of pmu final clustered in
    tag_prepare status pdg final pmu masks clustered inter outg ss (blacklist_of f) (whitelist_of f) =
    match documented_error status pdg final pmu masks clustered inter outg ss f with
    | Some e => Err e
    | None => jets <- aggregate_momenta cl masks ;; Ok (map (fun i => nth i pmu mzero) rows, map (fun i => nth i pdg 0%Z) rows, jets)
    end.
  Proof.
    intros HF rows cl. unfold tag_prepare, documented_error. destruct masks as [|m0 masks]; [reflexivity|].
    destruct (portions inter outg) as [|p ps] eqn:EP; [destruct inter, outg; try discriminate; reflexivity|].
    assert (IO : inter || outg = true) by (destruct inter, outg; try reflexivity; discriminate).
    rewrite IO. cbn [negb]. pose proof (portion_data status inter outg Fs) as PD. rewrite EP in PD. specialize (PD ltac:(discriminate)).
    unfold hard_mask in *. destruct (select_keys _ _ _) as [g|e]; [|discriminate]. cbn [bind] in PD |- *. rewrite PD. cbn [bind].
    rewrite !getkey_mask by (rewrite map_length; congruence). cbn [bind].
    rewrite (filter_spec inter outg ss f HF). fold rows.
    destruct (match f with NoFilter => false | _ => _ end); [reflexivity|]. cbn [bind].
    rewrite clustered_ok. cbn [bind]. fold cl. rewrite map_length. destruct (Nat.ltb _ _); [reflexivity|].
    destruct (Nat.eqb _ _); reflexivity.
  Qed.

  (** ** C56 *)
  (** The documented checks, in order. *)
  Theorem C56_checks : forall masks clustered inter outg ss f out e, filter_ok f ->
    documented_error status pdg final pmu masks clustered inter outg ss f = Some e ->
    monte_carlo_tag name deg status pdg final pmu masks clustered inter outg ss (blacklist_of f) (whitelist_of f) out ->
    out = Err e.
  Proof. intros masks clustered inter outg ss f out e HF HE H. unfold monte_carlo_tag in H. rewrite prepare_spec, HE in H by exact HF. exact H. Qed.

  Lemma no_error_rows masks clustered inter outg ss f : documented_error status pdg final pmu masks clustered inter outg ss f = None ->
    (length (tag_rows status pdg inter outg f ss) <= length masks)%nat.
  Proof.
    unfold documented_error. destruct masks as [|m0 masks]; [discriminate|]. destruct (negb _); [discriminate|].
    destruct (match f with NoFilter => false | _ => _ end); [discriminate|]. destruct (Nat.ltb_spec (length (m0 :: masks)) (length (tag_rows status pdg inter outg f ss))); [discriminate|]. auto.
  Qed.
  Lemma aggregate_ok cl masks jets : aggregate_momenta cl masks = Ok jets -> length jets = length masks.
  Proof. intros H. apply mapM_length in H. exact H. Qed.

  Lemma finish_ok masks rows idxs : (forall z, has_colon (name z) = false) -> idxs <> [] ->
    length idxs = length rows -> NoDup idxs -> (forall j, In j idxs -> (j < length masks)%nat) ->
    exists keys vals, tag_finish name masks (map (fun i => nth i pdg 0%Z) rows) idxs = Ok (MGrp "or" (combine keys (map MArr vals))) /\
      tagged_by (map (fun i => name (nth i pdg 0%Z)) rows) masks idxs keys vals.
  Proof.
    intros HC HN HL ND HR. exists (pdgs_to_keys (map (fun i => name (nth i pdg 0%Z)) rows)).
    assert (HK : named (map (fun i => name (nth i pdg 0%Z)) rows) (pdgs_to_keys (map (fun i => name (nth i pdg 0%Z)) rows))).
    { apply keys_named, Forall_forall. intros s Hs. apply in_map_iff in Hs as (i & <- & _). apply HC. }
    destruct (proj2 (mapM_ok_all (get masks) idxs)) as (vals & HV).
    { intros i Hi. specialize (HR i Hi). unfold get. destruct (nth_error masks i) as [d|] eqn:E; [eauto|]. apply nth_error_None in E. lia. }
    pose proof (mapM_length _ _ _ HV) as LV. exists vals. split.
    - unfold tag_finish. destruct idxs as [|i0 idxs]; [contradiction|]. rewrite HV. cbn [bind]. rewrite map_map. do 2 f_equal.
      apply dict_of_NoDup. unfold dkeys. rewrite combine_map_fst; [apply HK|]. rewrite map_length, LV, HL. destruct HK as (LK & _). rewrite LK, map_length. reflexivity.
    - split; [exact HK|]. split; [rewrite map_length; exact HL|]. split; [exact ND|]. split; [exact LV|].
      intros j i Hj. pose proof (mapM_nth _ _ _ j HV) as Q. rewrite Hj in Q. destruct (nth_error vals j) as [d|]; [|contradiction].
      exists d. split; [|reflexivity]. unfold get in Q. destruct (nth_error masks i); [congruence|discriminate].
  Qed.

  (** Whatever it returns: one entry per parton, in record order, each one of the given clusters, no cluster twice. *)
  Theorem C56_tagged : forall masks clustered inter outg ss f g, filter_ok f -> (forall z, has_colon (name z) = false) ->
    monte_carlo_tag name deg status pdg final pmu masks clustered inter outg ss (blacklist_of f) (whitelist_of f) (Ok g) ->
    let rows := tag_rows status pdg inter outg f ss in
    exists idxs keys vals, g = MGrp "or" (combine keys (map MArr vals)) /\
      tagged_by (map (fun i => name (nth i pdg 0%Z)) rows) masks idxs keys vals /\ rows <> [].
  Proof.
    intros masks clustered inter outg ss f g HF HC H rows. unfold monte_carlo_tag in H. rewrite prepare_spec in H by exact HF. fold rows in H.
    destruct (documented_error _ _ _ _ _ _ _ _ _ _) as [e|] eqn:ED; [discriminate|]. apply no_error_rows in ED. fold rows in ED.
    destruct (aggregate_momenta _ masks) as [jets|e] eqn:EJ; [|discriminate]. apply aggregate_ok in EJ. cbn [bind] in H.
    destruct H as (r & s' & HA & E). destruct r as [idxs|e]; [|discriminate]. cbn [bind] in E.
    destruct (C95_matching_partial _ _ _ _ _ _ _ HA) as (C & rws & _ & ((_ & ND & RG & _) & _) & LR & LI).
    rewrite map_length, EJ in LI. rewrite Nat.min_l in LI by exact ED.
    assert (ES : map snd (combine rws idxs) = idxs) by (apply combine_map_snd; exact LR). rewrite ES in ND.
    assert (NE : idxs <> []) by (intros ->; discriminate).
    destruct (finish_ok masks rows idxs HC NE LI ND) as (keys & vals & EF & T).
    { intros j Hj. rewrite <- ES in Hj. apply in_map_iff in Hj as ((i, j') & <- & Hij). apply RG in Hij as (_ & Hj). rewrite EJ in Hj. exact Hj. }
    rewrite EF in E. injection E as ->. exists idxs, keys, vals. split; [reflexivity|]. split; [exact T|]. intros E. rewrite E in LI. destruct idxs; [contradiction|discriminate].
  Qed.

  (** When no documented check fails and the distances are finite and spread, it returns, and the assignment is a cheapest one. *)
  Theorem C56_returns : forall masks clustered inter outg ss f out D d, filter_ok f -> (forall z, has_colon (name z) = false) ->
    documented_error status pdg final pmu masks clustered inter outg ss f = None ->
    let rows := tag_rows status pdg inter outg f ss in
    let cl := clustered_of pmu final clustered in
    let partons := map (fun i => nth i pmu mzero) rows in
    let jets := map (fun m => msum (compress m cl)) masks in
    rows <> [] -> (forall m, In m masks -> length m = length cl) ->
    delta_R_call false false partons jets D ->
    (forall i j, (i < length partons)%nat -> (j < length jets)%nat -> at2 D i j = Some (Fin (d i j))) ->
    variance (map (fun q => sqrt (pt_sq q)) jets) <> 0%R ->
    (forall i, (i < length partons)%nat -> variance (map (d i) (seq 0 (length jets))) <> 0%R) ->
    monte_carlo_tag name deg status pdg final pmu masks clustered inter outg ss (blacklist_of f) (whitelist_of f) out ->
    exists idxs keys vals, out = Ok (MGrp "or" (combine keys (map MArr vals))) /\
      tagged_by (map (fun i => name (nth i pdg 0%Z)) rows) masks idxs keys vals /\ optimal_assignment partons jets d idxs.
  Proof.
    intros masks clustered inter outg ss f out D d HF HC ED rows cl partons jets HR HM HD Hd V1 V2 H.
    unfold monte_carlo_tag in H. rewrite prepare_spec, ED in H by exact HF. apply no_error_rows in ED. fold rows cl in ED, H.
    assert (EJ : aggregate_momenta cl masks = Ok jets).
    { unfold aggregate_momenta, jets. rewrite <- mapM_pure. apply mapM_ext. intros m Hm. rewrite getkey_mask by (apply HM, Hm). reflexivity. }
    rewrite EJ in H. cbn [bind] in H. destruct H as (r & s' & HA & ->). fold partons in HA.
    assert (LP : length partons = length rows) by (unfold partons; apply map_length). assert (LJ : length jets = length masks) by (unfold jets; apply map_length).
    destruct (C55_assignment deg false partons jets (RapState [] None None) r s' false D d) as (idxs & -> & OA & _);
      try discriminate; auto; [split; cbn; [discriminate|]; intros _ a Ha; discriminate|lia|].
    destruct OA as (L & ND & RG & OA). destruct (finish_ok masks rows idxs HC) as (keys & vals & EF & T); auto.
    - intros ->. destruct rows; [contradiction|]. cbn in L, LP. lia.
    - lia.
    - intros j Hj. rewrite <- LJ. apply RG, Hj.
    - cbn [bind]. rewrite EF. exists idxs, keys, vals. split; [reflexivity|]. split; [exact T|]. repeat (split; [assumption|]). exact OA.
  Qed.

  (** Both filters given and non-empty: always ValueError. *)
  Theorem C56_both_lists : forall masks clustered inter outg ss b w out, b <> [] -> w <> [] ->
    monte_carlo_tag name deg status pdg final pmu masks clustered inter outg ss (Some b) (Some w) out -> out = Err ValueError.
  Proof.
    intros masks clustered inter outg ss b w out Hb Hw H. unfold monte_carlo_tag in H.
    assert (E : tag_prepare status pdg final pmu masks clustered inter outg ss (Some b) (Some w) = Err ValueError).
    { unfold tag_prepare. destruct masks as [|m0 masks]; [reflexivity|].
      destruct (portions inter outg) as [|p ps] eqn:EP; [reflexivity|].
      pose proof (portion_data status inter outg Fs) as PD. rewrite EP in PD. specialize (PD ltac:(discriminate)).
      unfold hard_mask in *. destruct (select_keys _ _ _) as [g|e]; [|discriminate]. cbn [bind] in PD |- *. rewrite PD. cbn [bind].
      rewrite !getkey_mask by (rewrite map_length; congruence). cbn [bind].
      unfold tag_filter. destruct b; [contradiction|]. destruct w; [contradiction|]. reflexivity. }
    rewrite E in H. exact H.
  Qed.

  (** ** C97 *)
  (** With an empty whitelist, the blacklist selects the partons it names. *)
  Lemma empty_white_swap masks clustered inter outg ss b : b <> [] ->
    tag_prepare status pdg final pmu masks clustered inter outg ss (Some b) (Some []) = tag_prepare status pdg final pmu masks clustered inter outg ss None (Some b).
  Proof.
    intros Hb. unfold tag_prepare. destruct masks; [reflexivity|]. destruct (portions inter outg); [reflexivity|].
    destruct b as [|z b]; [contradiction|].
    assert (E : forall hp hz, tag_filter hp hz ss (Some (z :: b)) (Some []) = tag_filter hp hz ss None (Some (z :: b))) by (intros; unfold tag_filter; reflexivity).
    destruct (match hard_mask status with MGrp agg kids => _ | MArr _ => _ end); [|reflexivity]. cbn [bind]. destruct (data a); [|reflexivity]. cbn [bind].
    destruct (getkey pmu (KMask a0)); [|reflexivity]. cbn [bind]. destruct (getkey pdg (KMask a0)); [|reflexivity]. cbn [bind]. rewrite E. reflexivity.
  Qed.
  Theorem C97_blacklist_inverted_refuted : forall masks clustered inter outg ss b out, b <> [] ->
    monte_carlo_tag name deg status pdg final pmu masks clustered inter outg ss (Some b) (Some []) out <->
    monte_carlo_tag name deg status pdg final pmu masks clustered inter outg ss None (Some b) out.
  Proof. intros. unfold monte_carlo_tag. rewrite empty_white_swap by assumption. reflexivity. Qed.
  (** An empty whitelist on its own is no filter at all. *)
  Theorem C97_empty_whitelist_ignored_refuted : forall masks clustered inter outg ss out,
    monte_carlo_tag name deg status pdg final pmu masks clustered inter outg ss None (Some []) out <->
    monte_carlo_tag name deg status pdg final pmu masks clustered inter outg ss None None out.
  Proof. intros. unfold monte_carlo_tag. assert (E : tag_prepare status pdg final pmu masks clustered inter outg ss None (Some []) = tag_prepare status pdg final pmu masks clustered inter outg ss None None) by reflexivity. rewrite E. reflexivity. Qed.
  (** An empty blacklist is no filter. *)
  Theorem C97_empty_blacklist_partial : forall masks clustered inter outg ss w out,
    monte_carlo_tag name deg status pdg final pmu masks clustered inter outg ss (Some []) w out <->
    monte_carlo_tag name deg status pdg final pmu masks clustered inter outg ss None w out.
  Proof. intros. unfold monte_carlo_tag. assert (E : tag_prepare status pdg final pmu masks clustered inter outg ss (Some []) w = tag_prepare status pdg final pmu masks clustered inter outg ss None w) by reflexivity. rewrite E. reflexivity. Qed.

  (** ** C98: no parton in the chosen portion and no filter *)
  Theorem C98_no_partons_refuted : forall m0 masks clustered inter outg ss out,
    tag_rows status pdg inter outg NoFilter ss = [] -> inter || outg = true ->
    (forall m, In m (m0 :: masks) -> length m = length (clustered_of pmu final clustered)) ->
    monte_carlo_tag name deg status pdg final pmu (m0 :: masks) clustered inter outg ss None None out ->
    out = Err TypeError \/ out = Err ZeroDivisionError.
  Proof.
    intros m0 masks clustered inter outg ss out HR HIO HM H. unfold monte_carlo_tag in H.
    pose proof (prepare_spec (m0 :: masks) clustered inter outg ss NoFilter I) as E. cbn [blacklist_of whitelist_of] in E. rewrite E in H. clear E.
    unfold documented_error in H. rewrite HR, HIO in H. cbn [negb length Nat.ltb Nat.leb map] in H. rewrite (HM m0 (or_introl eq_refl)), Nat.eqb_refl in H.
    destruct (aggregate_momenta _ (m0 :: masks)) as [jets|e] eqn:EJ.
    2:{ exfalso. unfold aggregate_momenta in EJ. rewrite (mapM_ext _ (fun m => Ok (msum (compress m (clustered_of pmu final clustered))))), mapM_pure in EJ; [discriminate|].
        intros m Hm. rewrite getkey_mask by (apply HM, Hm). reflexivity. }
    cbn [bind] in H. destruct H as (r & s' & HA & ->). destruct r as [idxs|e].
    - left. destruct (C95_matching_partial _ _ _ _ _ _ _ HA) as (C & rws & _ & _ & _ & LI). destruct idxs; [reflexivity|discriminate].
    - right. cbn [bind]. f_equal. unfold arg_closest in HA. destruct (read_rap _ [] _) as (af, h1). destruct (read_rap _ jets _) as (ac, h2). destruct HA as (M & HM' & HA).
      apply assignment_cost_result in HM'. destruct (Req_EM_T _ 0); subst M; [destruct HA as (HA & _); congruence|].
      destruct HA as (_ & r & HL & HA). unfold linear_sum_assignment, cost_matrix in HL. cbn in HL. destruct HL as (a & _ & ->). discriminate.
  Qed.
  (** With a filter the documented IndexError is raised (when no earlier check fails). *)
  Theorem C98_filtered_partial : forall m0 masks clustered inter outg ss f out, filter_ok f -> f <> NoFilter ->
    tag_rows status pdg inter outg f ss = [] -> inter || outg = true ->
    monte_carlo_tag name deg status pdg final pmu (m0 :: masks) clustered inter outg ss (blacklist_of f) (whitelist_of f) out -> out = Err IndexError.
  Proof.
    intros m0 masks clustered inter outg ss f out HF HN HR HIO H. eapply C56_checks; [exact HF| |exact H]. unfold documented_error. rewrite HR, HIO. cbn [negb]. destruct f; [contradiction| |]; reflexivity.
  Qed.

  (** ** C99: a cluster after the first has the wrong length *)
  Theorem C99_later_mismatch_refuted : forall a m b clustered inter outg ss f out, filter_ok f ->
    (forall x, In x a -> length x = length (clustered_of pmu final clustered)) -> a <> [] ->
    length m <> length (clustered_of pmu final clustered) ->
    documented_error status pdg final pmu (a ++ m :: b) clustered inter outg ss f = None ->
    monte_carlo_tag name deg status pdg final pmu (a ++ m :: b) clustered inter outg ss (blacklist_of f) (whitelist_of f) out ->
    out = Err IndexError.
  Proof.
    intros a m b clustered inter outg ss f out HF HA HN HM ED H. unfold monte_carlo_tag in H. rewrite prepare_spec, ED in H by exact HF.
    rewrite (C69_wrong_length _ a m b HA HM) in H. exact H.
  Qed.
  Theorem C99_first_mismatch_partial : forall m0 masks clustered inter outg ss f out, filter_ok f ->
    tag_rows status pdg inter outg f ss <> [] -> 
    length m0 <> length (clustered_of pmu final clustered) ->
    monte_carlo_tag name deg status pdg final pmu (m0 :: masks) clustered inter outg ss (blacklist_of f) (whitelist_of f) out ->
    out = Err ValueError.
  Proof.
    intros m0 masks clustered inter outg ss f out HF HR HM H. eapply C56_checks; [exact HF| |exact H]. unfold documented_error.
    destruct (negb _); [reflexivity|]. destruct (tag_rows _ _ _ _ _ _) as [|r rows]; [contradiction|]. replace (match f with NoFilter => false | _ => _ end) with false by (destruct f; reflexivity).
    destruct (Nat.ltb _ _); [reflexivity|]. destruct (Nat.eqb_spec (length (clustered_of pmu final clustered)) (length m0)); [congruence|reflexivity].
  Qed.
End Main.

(** A concrete event: one outgoing top, two final particles, each a cluster of its own. *)
Definition ev_status : list Z := [-23; 1; 1]%Z.
Definition ev_pdg : list Z := [6; 211; -211]%Z.
Definition ev_final : list bool := [false; true; true].
Definition ev_pmu : list mom := demo_focus ++ demo_cand.
Definition ev_masks : list (list bool) := [[true; false]; [false; true]].
Definition ev_name (z : Z) : string := (if (z =? 6)%Z then "t" else "x")%string.
Lemma ev_jets : map (fun m => msum (compress m (clustered_of ev_pmu ev_final None))) ev_masks = demo_cand.
Proof.
  unfold ev_masks, ev_pmu, ev_final, clustered_of, demo_focus, demo_cand. cbn [compress app map]. rewrite !msum_components. cbn [map rsum px py pz en].
  repeat (f_equal; try ring).
Qed.
Example C56_demo : forall deg, exists D d out,
  documented_error ev_status ev_pdg ev_final ev_pmu ev_masks None false true false (White [-6; 5]%Z) = None /\
  tag_rows ev_status ev_pdg false true (White [-6; 5]%Z) false = [0%nat] /\
  (forall m, In m ev_masks -> length m = length (clustered_of ev_pmu ev_final None)) /\
  (forall z, has_colon (ev_name z) = false) /\ filter_ok (White [-6; 5]%Z) /\
  delta_R_call false false demo_focus demo_cand D /\
  (forall i j, (i < 1)%nat -> (j < 2)%nat -> at2 D i j = Some (Fin (d i j))) /\
  variance (map (fun q => sqrt (pt_sq q)) demo_cand) <> 0%R /\
  (forall i, (i < 1)%nat -> variance (map (d i) (seq 0 2)) <> 0%R) /\
  monte_carlo_tag ev_name deg ev_status ev_pdg ev_final ev_pmu ev_masks None false true false None (Some [-6; 5]%Z) out /\
  exists v, out = Ok (MGrp "or" [("t", MArr v)])%string /\ In v ev_masks.
Proof.
  intros deg. destruct C55_demo as (D & d & HD & Hd & V1 & V2 & _). exists D, d.
  assert (HC : forall z, has_colon (ev_name z) = false) by (intros z; unfold ev_name; destruct (z =? 6)%Z; reflexivity).
  assert (HF : filter_ok (White [-6; 5]%Z)) by (split; [discriminate|]; repeat constructor; unfold fits32; (lia || discriminate)).
  assert (HM : forall m, In m ev_masks -> length m = length (clustered_of ev_pmu ev_final None)) by (intros m [<-|[<-|[]]]; reflexivity).
  assert (HO : exists out, monte_carlo_tag ev_name deg ev_status ev_pdg ev_final ev_pmu ev_masks None false true false None (Some [-6; 5]%Z) out).
  { unfold monte_carlo_tag. destruct (tag_prepare _ _ _ _ _ _ _ _ _ _ _) as [((hp, hz), jets)|e]; [|eauto].
    destruct (C55_runs deg false hp jets (RapState [] None None)) as (r & s' & H). eexists. exists r, s'. split; [exact H|reflexivity]. }
  destruct HO as (out & HO). exists out. do 9 (split; [reflexivity || assumption|]). split; [exact HO|].
  assert (R : tag_rows ev_status ev_pdg false true (White [-6; 5]%Z) false = [0%nat]) by reflexivity.
  destruct (C56_returns ev_name deg 3 ev_status ev_pdg ev_final ev_pmu) with (masks := ev_masks) (clustered := @None (list mom)) (inter := false) (outg := true) (ss := false)
    (f := White [-6; 5]%Z) (out := out) (D := D) (d := d) as (idxs & keys & vals & -> & T & _); auto; try rewrite R; try rewrite ev_jets; auto; try discriminate;
    try (repeat constructor; unfold fits16, fits32; lia).
  destruct T as (HK & L & _ & LV & HV). rewrite R in HK, L. cbn [map length] in L.
  destruct idxs as [|i [|]]; try discriminate. destruct vals as [|v [|]]; try discriminate. destruct HK as (LK & _ & HK). specialize (HK O "t"%string eq_refl).
  destruct keys as [|key [|]]; try discriminate. cbn in HK. injection HK as ->. exists v. split; [reflexivity|].
  destruct (HV O i eq_refl) as (v' & Hi & Hv). cbn in Hv. injection Hv as <-. eapply nth_error_In, Hi.
Qed.
(** Blacklisting tops with an empty whitelist tags the top. *)
Example C97_demo : tag_rows ev_status ev_pdg false true (Black [6]%Z) false = [] /\ tag_rows ev_status ev_pdg false true (White [6]%Z) false = [0%nat].
Proof. split; reflexivity. Qed.
Example C98_demo : tag_rows [1; 1]%Z [211; -211]%Z false true NoFilter false = [].
Proof. reflexivity. Qed.
Example C99_demo : documented_error ev_status ev_pdg ev_final ev_pmu ([[true; false]] ++ [[true]]) None false true false NoFilter = None.
Proof. reflexivity. Qed.

Print Assumptions C56_checks.
Print Assumptions C56_tagged.
Print Assumptions C56_returns.
Print Assumptions C56_both_lists.
Print Assumptions C97_blacklist_inverted_refuted.
Print Assumptions C97_empty_whitelist_ignored_refuted.
Print Assumptions C97_empty_blacklist_partial.
Print Assumptions C98_no_partons_refuted.
Print Assumptions C98_filtered_partial.
Print Assumptions C99_later_mismatch_refuted.
Print Assumptions C99_first_mismatch_partial.
