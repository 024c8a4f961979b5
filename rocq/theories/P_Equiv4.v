(** Pruning and aggregation in a turned, boosted or reordered event (C225 - C227). *)
From Coq Require Import Reals List Bool Lia Lra Permutation.
From Verif Require Import Prelude Keys SpecReal RealBase Kinem KinemProofs P_Kinem Coords P_Coords Par DeltaR DeltaRProofs P_DeltaR P_Equiv P_Order P_Part4.
Import ListNotations.
Open Scope R_scope.

(** * Vocabulary *)
(** A massless particle off the beam. *)
Definition massless (p : mom) : Prop := 0 < pt_sq p /\ en p = sqrt (p_sq p).
(** Every particle kept in the first mask is kept in the second. *)
Definition keeps_more (a b : list bool) : Prop := length a = length b /\ forall i, nth_error a i = Some true -> nth_error b i = Some true.

(** * Turning *)
Lemma shift_phi_map a l l' : shift_phi (Scalar a) l = Ok l' -> l' = map (rotate a) l.
Proof. unfold shift_phi, spread. cbn [bind]. rewrite map2_repeat. intros E. injection E as <-. reflexivity. Qed.
Lemma shift_rap_map a l l' : shift_rapidity (Scalar a) l = Ok l' -> l' = map (boost a) l.
Proof. unfold shift_rapidity, spread. cbn [bind]. rewrite map2_repeat. intros E. injection E as <-. reflexivity. Qed.
Lemma eta_rot a p : eta (rotate a p) = eta p.
Proof. unfold eta, spatial_mag. rewrite rotate_pt. reflexivity. Qed.
Lemma prune_rot e f f' a p : cos f' = cos (f + a) -> sin f' = sin (f + a) -> prune_dist e (Fin f') (rotate a p) = prune_dist e (Fin f) p.
Proof.
  intros C S. unfold prune_dist. rewrite eta_rot, C, S, cos_plus, sin_plus. unfold rotate. cbn [px py]. pose proof (sin2_cos2 a) as T. unfold Rsqr in T.
  f_equal. f_equal.
  - transitivity ((sin a * sin a + cos a * cos a) * (py p * cos f - px p * sin f)); [ring | rewrite T; ring].
  - transitivity ((sin a * sin a + cos a * cos a) * (px p * cos f + py p * sin f)); [ring | rewrite T; ring].
Qed.
Lemma phi_rot a T : match phi T with Fin f => exists f', phi (rotate a T) = Fin f' /\ cos f' = cos (f + a) /\ sin f' = sin (f + a) | NaN => phi (rotate a T) = NaN | _ => False end.
Proof.
  unfold phi. rewrite rotate_pt. destruct (Rle_dec (Rabs (pt T)) ZERO_TOL) as [L|L]; [reflexivity|]. eexists. split; [reflexivity|].
  destruct (atan2_spec (py T) (px T)) as (_ & A & B). destruct (atan2_spec (py (rotate a T)) (px (rotate a T))) as (_ & A' & B').
  assert (R : px (rotate a T) * px (rotate a T) + py (rotate a T) * py (rotate a T) = px T * px T + py T * py T).
  { unfold rotate. cbn [px py]. pose proof (sin2_cos2 a) as U. unfold Rsqr in U. transitivity ((sin a * sin a + cos a * cos a) * (px T * px T + py T * py T)); [ring | rewrite U; ring]. }
  rewrite R in A', B'. set (r := sqrt (px T * px T + py T * py T)) in *. assert (RP : r <> 0). { intros Z. apply L. unfold pt. fold r. rewrite Z, Rabs_R0. unfold ZERO_TOL. lra. }
  set (t := atan2 (py T) (px T)) in *. set (t' := atan2 _ _) in *. rewrite cos_plus, sin_plus. split; apply (Rmult_eq_reg_l r); try exact RP.
  - rewrite <- A'. unfold rotate. cbn [px]. rewrite A at 1. rewrite B at 1. fold r. ring.
  - rewrite <- B'. unfold rotate. cbn [py]. rewrite B at 1. rewrite A at 1. fold r. ring.
Qed.
Lemma sel_map (g : mom -> mom) l (mask : option (list bool)) :
  match mask with None => Ok (map g l) | Some m => getkey (map g l) (KMask m) end = rmap (map g) (match mask with None => Ok l | Some m => getkey l (KMask m) end).
Proof. destruct mask as [m|]; [apply getkey_map | reflexivity]. Qed.

(** Same centre, turned with the event. *)
Theorem C225_turned_centre : forall l l' a radius mask e f, shift_phi (Scalar a) l = Ok l' ->
  centroid_prune l' radius mask (Some (e, Fin (f + a))) = centroid_prune l radius mask (Some (e, Fin f)).
Proof.
  intros l l' a radius mask e f H. apply shift_phi_map in H as ->. unfold centroid_prune. rewrite sel_map.
  destruct (match mask with None => Ok l | Some m => getkey l (KMask m) end) as [sel|x]; [|reflexivity]. cbn [rmap bind]. rewrite map_map.
  assert (E : map (fun x => below (prune_dist e (Fin (f + a)) (rotate a x)) radius) sel = map (fun p => below (prune_dist e (Fin f) p) radius) sel).
  { apply map_ext. intros p. rewrite (prune_rot e f (f + a) a p) by reflexivity. reflexivity. }
  rewrite E. reflexivity.
Qed.
(** Default centre: turning the whole event changes nothing. *)
Theorem C225_turned : forall l l' a radius mask, shift_phi (Scalar a) l = Ok l' -> centroid_prune l' radius mask None = centroid_prune l radius mask None.
Proof.
  intros l l' a radius mask H. apply shift_phi_map in H as ->. unfold centroid_prune. rewrite sel_map.
  destruct (match mask with None => Ok l | Some m => getkey l (KMask m) end) as [sel|x]; [|reflexivity]. cbn [rmap bind]. unfold resultant_coords, resultant_rap. rewrite msum_rotate, eta_rot, map_map.
  set (T := msum sel). pose proof (phi_rot a T) as P.
  assert (E : map (fun x => below (prune_dist (eta T) (phi (rotate a T)) (rotate a x)) radius) sel = map (fun p => below (prune_dist (eta T) (phi T) p) radius) sel).
  { apply map_ext. intros p. destruct (phi T) as [f| | |] eqn:Ef.
    - destruct P as (f' & -> & C & S). rewrite (prune_rot _ f f' a p C S). reflexivity.
    - destruct P.
    - destruct P.
    - rewrite P. unfold prune_dist. rewrite eta_rot. reflexivity. }
  cbn [fst snd]. rewrite E. reflexivity.
Qed.

(** * Reordering *)
Lemma reorders_map {A B} (g : A -> B) ps l l' : reorders ps l l' -> reorders ps (map g l) (map g l').
Proof. intros (L & H). split; [rewrite map_length; exact L|]. intros j i E. rewrite !nth_error_map'. rewrite (H j i E). reflexivity. Qed.
Lemma reorders_map2 {A B C} (g : A -> B -> C) ps a a' b b' : reorders ps a a' -> reorders ps b b' -> reorders ps (map2 g a b) (map2 g a' b').
Proof.
  intros (L & H) (L' & H'). split; [rewrite map2_length; lia|]. intros j i E. rewrite !map2_nth, (H j i E), (H' j i E). reflexivity.
Qed.
Lemma reorders_perm {A} ps (l l' : list A) : Permutation ps (seq 0 (length l)) -> reorders ps l l' -> Permutation l l'.
Proof.
  intros HP (L & H). destruct l as [|d l0].
  - apply Permutation_sym, Permutation_nil in HP. subst ps. destruct l'; [apply perm_nil | discriminate L].
  - set (l := d :: l0) in *. assert (E : l' = map (fun i => nth i l d) ps).
    { apply nth_error_ext. intros j. rewrite nth_error_map'. destruct (nth_error ps j) as [i|] eqn:Ei.
      - rewrite (H j i Ei). cbn [option_map]. assert (i < length l)%nat. { apply nth_error_In, (Permutation_in _ HP), in_seq in Ei. lia. } apply nth_error_nth'. assumption.
      - cbn. apply nth_error_None. apply nth_error_None in Ei. lia. }
    rewrite E. assert (E2 : l = map (fun i => nth i l d) (seq 0 (length l))).
    { apply nth_error_ext. intros j. rewrite nth_error_map'. destruct (Nat.lt_ge_cases j (length l)) as [Hj|Hj].
      - rewrite (nth_error_nth' (seq 0 (length l)) 0%nat) by (rewrite seq_length; exact Hj). rewrite seq_nth by exact Hj. cbn [option_map plus]. apply nth_error_nth'. exact Hj.
      - rewrite (proj2 (nth_error_None (seq 0 (length l)) j)) by (rewrite seq_length; exact Hj). cbn. apply nth_error_None. exact Hj. }
    rewrite E2 at 1. apply Permutation_map, Permutation_sym, HP.
Qed.
Lemma compress_filter {A} (m : list bool) : forall (l : list A), length m = length l -> compress m l = map snd (filter fst (combine m l)).
Proof. induction m as [|[|] m IH]; intros [|x l] H; try discriminate H; cbn in *; try reflexivity; [f_equal|]; apply IH; lia. Qed.

(** Reordering the particles (and the mask with them) reorders the answer. *)
Theorem C225_reordered : forall ps l l' radius centre, Permutation ps (seq 0 (length l)) -> reorders ps l l' ->
  (exists out out', centroid_prune l radius None centre = Ok out /\ centroid_prune l' radius None centre = Ok out' /\ reorders ps out out') /\
  forall m m', length m = length l -> reorders ps m m' ->
  exists out out', centroid_prune l radius (Some m) centre = Ok out /\ centroid_prune l' radius (Some m') centre = Ok out' /\ reorders ps out out'.
Proof.
  intros ps l l' radius centre HP HR. pose proof (reorders_perm ps l l' HP HR) as PL. split.
  - unfold centroid_prune. cbn [bind]. assert (EC : match centre with None => resultant_coords true l' | Some c => c end = match centre with None => resultant_coords true l | Some c => c end).
    { destruct centre as [c|]; [reflexivity|]. unfold resultant_coords, resultant_rap. rewrite (msum_perm _ _ PL). reflexivity. }
    rewrite EC. generalize (match centre with None => resultant_coords true l | Some c => c end). intros (e, f). eexists. eexists. split; [reflexivity|]. split; [reflexivity|]. apply reorders_map, HR.
  - intros m m' Lm HM. assert (LP : length ps = length l) by (rewrite (Permutation_length HP); apply seq_length).
    assert (Lm' : length m' = length l') by (destruct HM as (A & _); destruct HR as (B & _); congruence).
    unfold centroid_prune. rewrite (getkey_mask l m Lm), (getkey_mask l' m' Lm'). cbn [bind].
    assert (PC : Permutation (compress m l) (compress m' l')).
    { rewrite !compress_filter by assumption. apply Permutation_map, filter_perm.
      assert (RC : reorders ps (map2 pair m l) (map2 pair m' l')) by (apply reorders_map2; assumption).
      rewrite !map2_combine in RC. rewrite !(map_ext (fun q : bool * mom => (fst q, snd q)) (fun q => q)), !map_id in RC by (intros []; reflexivity).
      apply (reorders_perm ps); [rewrite combine_length, Lm, Nat.min_id; exact HP | exact RC]. }
    assert (EC : match centre with None => resultant_coords true (compress m' l') | Some c => c end = match centre with None => resultant_coords true (compress m l) | Some c => c end).
    { destruct centre as [c|]; [reflexivity|]. unfold resultant_coords, resultant_rap. rewrite (msum_perm _ _ PC). reflexivity. }
    rewrite EC. generalize (match centre with None => resultant_coords true (compress m l) | Some c => c end). intros (e, f). eexists. eexists. split; [reflexivity|]. split; [reflexivity|].
    rewrite !scatter_compress by assumption. apply reorders_map2; assumption.
Qed.

(** A larger radius keeps more. *)
Lemma scatter_more : forall m a b, keeps_more a b -> keeps_more (scatter m a) (scatter m b).
Proof.
  intros m a b (L & H). split; [rewrite !scatter_length; reflexivity|]. revert a b L H. induction m as [|[|] m IH]; intros a b L H i E; [exact E| |].
  - destruct a as [|x a], b as [|y b]; try discriminate L; [exact E|]. cbn [scatter] in *. destruct i as [|i]; cbn in *.
    + apply (H 0%nat E).
    + apply (IH a b); [lia | intros j Ej; apply (H (S j) Ej) | exact E].
  - cbn [scatter] in *. destruct i as [|i]; cbn in *; [exact E|]. apply (IH a b L H i E).
Qed.
Theorem C225_radius : forall l radius radius' mask centre out, radius <= radius' -> centroid_prune l radius mask centre = Ok out ->
  exists out', centroid_prune l radius' mask centre = Ok out' /\ keeps_more out out'.
Proof.
  intros l r r' mask centre out LE. unfold centroid_prune. destruct (match mask with None => Ok l | Some m => getkey l (KMask m) end) as [sel|x]; [|discriminate]. cbn [bind].
  destruct (match centre with None => _ | Some c => c end) as (e, f). intros E. injection E as <-. eexists. split; [reflexivity|].
  assert (K : keeps_more (map (fun p => below (prune_dist e f p) r) sel) (map (fun p => below (prune_dist e f p) r') sel)).
  { split; [rewrite !map_length; reflexivity|]. intros i. rewrite !nth_error_map'. destruct (nth_error sel i) as [p|]; [|discriminate]. cbn [option_map].
    destruct (prune_dist e f p); cbn [below]; try (intros Z; exact Z). destruct (Rlt_dec r0 r) as [A|A]; [|discriminate]. destruct (Rlt_dec r0 r'); [reflexivity | lra]. }
  destruct mask; [apply scatter_more, K | exact K].
Qed.

(** * Boosting *)
Lemma getkey_In {A} (l : list A) k sel x : getkey l k = Ok sel -> In x sel -> In x l.
Proof.
  intros E I. apply getkey_ok in E as (ps & _ & E). apply (in_map Some) in I. rewrite E in I. apply in_map_iff in I as (i & Ei & _). eapply nth_error_In, Ei.
Qed.
(** With a centre given by hand and moved along, boosting massless particles changes nothing. *)
Theorem C226_boost_partial : forall l l' d radius mask e f, (forall p, In p l -> massless p) -> shift_rapidity (Scalar d) l = Ok l' ->
  centroid_prune l' radius mask (Some (Fin (e + d), f)) = centroid_prune l radius mask (Some (Fin e, f)).
Proof.
  intros l l' d radius mask e f HM H. apply shift_rap_map in H as ->. unfold centroid_prune. rewrite sel_map.
  assert (IN : forall sel, (match mask with None => Ok l | Some m => getkey l (KMask m) end) = Ok sel -> forall p, In p sel -> In p l).
  { intros sel E p Hp. destruct mask as [m|]; [|injection E as <-; exact Hp]. eapply getkey_In; eassumption. }
  destruct (match mask with None => Ok l | Some m => getkey l (KMask m) end) as [sel|x]; [|reflexivity]. cbn [rmap bind]. rewrite map_map.
  assert (E : map (fun x => below (prune_dist (Fin (e + d)) f (boost d x)) radius) sel = map (fun p => below (prune_dist (Fin e) f p) radius) sel).
  { apply map_ext_in. intros p Hp. destruct (HM p (IN sel eq_refl p Hp)) as (P & M). unfold prune_dist. rewrite (massless_boost d p P M), (eta_fin p P). unfold boost. cbn [px py esub eadd eopp].
    replace (pseudo_rap p + d + - (e + d)) with (pseudo_rap p + - e) by ring. reflexivity. }
  rewrite E. reflexivity.
Qed.
(** With the default centre it does, even for massless particles: the centre is the pseudorapidity of the summed momentum, which has a mass. *)
Theorem C226_boost_refuted : exists l l' d radius, (forall p, In p l -> massless p) /\ shift_rapidity (Scalar d) l = Ok l' /\
  exists out out', centroid_prune l radius None None = Ok out /\ centroid_prune l' radius None None = Ok out' /\ nth_error out 0 = Some true /\ nth_error out' 0 = Some false.
Proof.
  set (p := Mom 7 0 0 7). set (q := Mom (-2) 0 0 2). set (d := ln 3).
  assert (CH : cosh d = 5 / 3 /\ sinh d = 4 / 3). { unfold cosh, sinh, d. rewrite exp_Ropp, exp_ln by lra. split; field. }
  destruct CH as (CH & SH). set (T := Mom 5 0 0 9). assert (ET : msum [p; q] = T). { unfold T, p, q, msum, mzero, madd. cbn [fold_right fold_left map px py pz en]. f_equal; ring. }
  assert (MP : massless p /\ massless q). { unfold massless, pt_sq, p_sq, p, q. cbn [px py pz en]. split; (split; [lra|]); apply Rsqr_inj; try apply sqrt_pos; try lra; rewrite Rsqr_sqrt by lra; unfold Rsqr; lra. }
  destruct MP as (MP & MQ). exists [p; q], [boost d p; boost d q], d, (/ 10).
  split; [intros x [<-|[<-|[]]]; assumption|]. split; [reflexivity|]. unfold centroid_prune. cbn [bind]. eexists. eexists. split; [reflexivity|]. split; [reflexivity|].
  change [boost d p; boost d q] with (map (boost d) [p; q]). unfold resultant_coords, resultant_rap. rewrite msum_boost, ET. cbn [fst snd map nth_error].
  assert (PT : pt T = 5). { unfold pt, T. cbn [px py]. replace (5 * 5 + 0 * 0) with (5 * 5) by ring. apply sqrt_square. lra. }
  assert (PT' : pt (boost d T) = 5) by exact PT.
  assert (PH : phi T = Fin 0 /\ phi (boost d T) = Fin 0).
  { unfold phi. rewrite PT, PT', Rabs_pos_eq by lra. destruct (Rle_dec 5 ZERO_TOL) as [Z|_]; [unfold ZERO_TOL in Z; lra|]. unfold T, boost. cbn [px py]. rewrite atan2_0_nonneg by lra. split; reflexivity. }
  destruct PH as (-> & ->). unfold prune_dist. rewrite cos_0, sin_0.
  assert (ET0 : eta T = Fin 0). { rewrite eta_fin by (unfold pt_sq, T; cbn; lra). f_equal. unfold pseudo_rap, p_sq, T. cbn [px py pz]. replace (5 * 5 + 0 * 0 + 0 * 0) with (5 * 5) by ring. rewrite sqrt_square by lra. replace ((5 + 0) / (5 - 0)) with 1 by field. rewrite ln_1. ring. }
  assert (EP0 : pseudo_rap p = 0). { unfold pseudo_rap, p_sq, p. cbn [px py pz]. replace (7 * 7 + 0 * 0 + 0 * 0) with (7 * 7) by ring. rewrite sqrt_square by lra. replace ((7 + 0) / (7 - 0)) with 1 by field. rewrite ln_1. ring. }
  assert (EP : eta p = Fin 0). { rewrite eta_fin by apply MP. rewrite EP0. reflexivity. }
  assert (EP' : eta (boost d p) = Fin d). { rewrite (massless_boost d p) by apply MP. rewrite EP0, Rplus_0_l. reflexivity. }
  assert (PZ : pz (boost d T) = 12). { pose proof (boost_boosted d T) as (_ & _ & Z & _). rewrite Z, CH, SH. unfold T. cbn. field. }
  assert (ET' : eta (boost d T) = Fin (ln 5)).
  { rewrite eta_fin by (unfold pt_sq, T; cbn; lra). f_equal. unfold pseudo_rap, p_sq. rewrite PZ. unfold T. cbn [px py boost]. replace (5 * 5 + 0 * 0 + 12 * 12) with (13 * 13) by ring. rewrite sqrt_square by lra.
    replace ((13 + 12) / (13 - 12)) with (5 * 5) by field. rewrite ln_mult by lra. field. }
  rewrite EP, ET0, EP', ET'. unfold p, boost. cbn [px py esub eadd eopp].
  replace (0 * 1 - 7 * 0) with 0 by ring. replace (7 * 1 + 0 * 0) with 7 by ring. rewrite atan2_0_nonneg by lra.
  cbn [ehypot]. split; f_equal; cbn [below].
  - replace ((0 + - 0) * (0 + - 0) + 0 * 0) with 0 by ring. rewrite sqrt_0. destruct (Rlt_dec 0 (/ 10)); [reflexivity | lra].
  - replace ((d + - ln 5) * (d + - ln 5) + 0 * 0) with ((ln 5 - d) * (ln 5 - d)) by ring.
    assert (L : 2 / 5 <= ln 5 - d).
    { unfold d. assert (ln (3 / 5) <= 3 / 5 - 1). { assert (ln (3 / 5) < 3 / 5 - 1 + 1 - 0 \/ True) by (right; exact I). clear H. destruct (Rle_lt_dec (ln (3 / 5)) (3 / 5 - 1)) as [Z|Z]; [exact Z|]. exfalso. apply exp_increasing in Z. rewrite exp_ln in Z by lra. pose proof (exp_ineq1 (3 / 5 - 1) ltac:(lra)). lra. }
      unfold Rdiv in H at 1. rewrite ln_mult, ln_Rinv in H by lra. lra. }
    rewrite sqrt_square by lra. destruct (Rlt_dec (ln 5 - d) (/ 10)); [lra | reflexivity].
Qed.

(** * C227 aggregation commutes with boosts and rotations *)
Lemma agg_map (g : mom -> mom) (HG : forall l, msum (map g l) = g (msum l)) l masks : aggregate_momenta (map g l) masks = rmap (map g) (aggregate_momenta l masks).
Proof.
  unfold aggregate_momenta. induction masks as [|m ms IH]; [reflexivity|]. cbn [mapM]. rewrite IH, getkey_map. destruct (getkey l (KMask m)) as [sel|e]; [|reflexivity]. cbn [rmap bind]. rewrite HG.
  destruct (mapM (fun m => sel <- getkey l (KMask m) ;; Ok (msum sel)) ms) as [ys|e]; reflexivity.
Qed.
(** Summing clusters of a moved event is moving the sums, and fails exactly when it did before; so does the whole event's mass. *)
Theorem C227_boost : forall l l' d masks, shift_rapidity (Scalar d) l = Ok l' ->
  (forall sums, aggregate_momenta l masks = Ok sums -> exists sums', aggregate_momenta l' masks = Ok sums' /\ shift_rapidity (Scalar d) sums = Ok sums') /\
  (forall e, aggregate_momenta l masks = Err e -> aggregate_momenta l' masks = Err e).
Proof.
  intros l l' d masks H. apply shift_rap_map in H as ->. rewrite (agg_map (boost d) (msum_boost d)). split; [intros sums ->|intros e ->; reflexivity].
  eexists. split; [reflexivity|]. unfold shift_rapidity, spread. cbn [bind]. rewrite map2_repeat. reflexivity.
Qed.
Theorem C227_rotation : forall l l' a masks, shift_phi (Scalar a) l = Ok l' ->
  (forall sums, aggregate_momenta l masks = Ok sums -> exists sums', aggregate_momenta l' masks = Ok sums' /\ shift_phi (Scalar a) sums = Ok sums') /\
  (forall e, aggregate_momenta l masks = Err e -> aggregate_momenta l' masks = Err e).
Proof.
  intros l l' a masks H. apply shift_phi_map in H as ->. rewrite (agg_map (rotate a) (msum_rotate a)). split; [intros sums ->|intros e ->; reflexivity].
  eexists. split; [reflexivity|]. unfold shift_phi, spread. cbn [bind]. rewrite map2_repeat. reflexivity.
Qed.
Example C225_case : Permutation [2; 0; 1]%nat (seq 0 3) /\ reorders [2; 0; 1]%nat [Mom 1 0 0 1; Mom 2 0 0 2; Mom 3 0 0 3] [Mom 3 0 0 3; Mom 1 0 0 1; Mom 2 0 0 2] /\ massless (Mom 3 4 0 5).
Proof.
  split; [|split].
  - cbn. apply (Permutation_cons_app [0; 1]%nat [] 2%nat). cbn. reflexivity.
  - split; [reflexivity|]. intros [|[|[|j]]] i E; cbn in E; try (injection E as <-; reflexivity). destruct j; discriminate E.
  - unfold massless, pt_sq, p_sq. cbn [px py pz en]. split; [lra|]. replace (3 * 3 + 4 * 4 + 0 * 0) with (5 * 5) by ring. rewrite sqrt_square; lra.
Qed.

Print Assumptions C225_turned_centre.
Print Assumptions C225_turned.
Print Assumptions C225_reordered.
Print Assumptions C225_radius.
Print Assumptions C226_boost_partial.
Print Assumptions C226_boost_refuted.
Print Assumptions C227_boost.
Print Assumptions C227_rotation.
