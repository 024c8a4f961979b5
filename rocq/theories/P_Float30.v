(** resultant_coords and the default centre of centroid_prune in IEEE doubles (C244, C245). *)
From Coq Require Import ZArith Reals List Bool Lia Lra Permutation.
From Flocq Require Import Core BinarySingleNaN.
From Verif Require Import Prelude Keys SpecReal SpecIEEE SpecDist RealBase Kinem KinemProofs DeltaR DeltaRProofs Coords P_Coords Floats FloatBase FloatOps Floats3 Floats7 P_Float P_Float3 P_Float6 P_Float7 P_Float9 P_Float16 P_Float19 P_Float21 P_Float22.
From Verif Require Import Floats10 Floats11 P_Float23 P_Float29.
From Verif Require Import Floats17.
Import ListNotations.
Open Scope R_scope.

(** * Vocabulary *)
(** [s] is the sum of the doubles [l] up to [(1 + u)^n - 1] of the sum of their magnitudes. *)
Definition nearly_sums (n : nat) (l : list f64) (s : f64) : Prop := fin s /\ Rabs (val s - SpecIEEE.total l) <= ((1 + u) ^ n - 1) * total_abs l.
(** Each component of [S] is the sum of this component over the event, up to rounding. *)
Definition nearly_the_sum (pmu : list fmom) (S : fmom) : Prop := exists n, length pmu = Datatypes.S n /\
  nearly_sums n (map mx pmu) (mx S) /\ nearly_sums n (map my pmu) (my S) /\ nearly_sums n (map mz pmu) (mz S) /\ nearly_sums n (map me pmu) (me S).
(** The components are finite and their sums are in range. *)
Definition summable (pmu : list fmom) : Prop := exists n, length pmu = Datatypes.S n /\ forall c, In c [mx; my; mz; me] -> Forall fin (map c pmu) /\ (1 + u) ^ n * total_abs (map c pmu) <= huge.
Definition pt_of (S : fmom) : R := sqrt (val (mx S) * val (mx S) + val (my S) * val (my S)).
Definition pt_slack (k : R) (S : fmom) : R := k * u * (pt_of S + min_normal).
(** [phi] is the azimuth of [S] up to [k] units of rounding; at the cut, PI and -PI are the same direction. *)
Definition azimuth_near (k : R) (S : fmom) (phi : f64) : Prop := fin phi /\ exists a, Rabs a <= PI /\
  val (mx S) = pt_of S * cos a /\ val (my S) = pt_of S * sin a /\ P_Float9.close k (val phi) a.

Lemma adds_near l s n : f_adds_to l s -> length l = Datatypes.S n -> Forall fin l -> (1 + u) ^ n * total_abs l <= huge -> nearly_sums n l s.
Proof.
  intros (t & P & ->) L F B. destruct (total_perm _ _ P) as (T1 & T2). unfold nearly_sums. rewrite <- T1, <- T2.
  apply C145_sum; [rewrite (Permutation_length P); exact L | eapply Permutation_Forall; [apply Permutation_sym, P | exact F] | rewrite T2; exact B].
Qed.

(** * C244 *)
(** The rapidity and azimuth resultant_coords returns are those of a vector [S] whose components are the sums over the event up to rounding. *)
Theorem C244_coords : forall hypot atan2 atanh log k, 1 <= k <= 1000 -> good_hypot k hypot -> signed_atan2 k atan2 -> good_atanh k atanh -> good_log k log ->
  forall tol pmu pseudo rap phi, fin tol -> summable pmu -> f_resultant_coords hypot atan2 atanh log tol pmu pseudo rap phi ->
  exists S, nearly_the_sum pmu S /\
    (pseudo = true -> prunable k S -> fin rap /\ Rabs (val rap - pseudo_rap (stands_for S)) <= eta_error k (stands_for S)) /\
    (pseudo = false -> timelike tol (me S) (mz S) ->
       let p := exactly4 (mx S) (my S) (mz S) (me S) in fin rap /\ Rabs (val rap - true_rap p) <= rap_error k (true_rap p)) /\
    (usable (mx S, my S) -> 0 <= val tol ->
       (val tol < pt_of S - pt_slack k S -> azimuth_near k S phi) /\
       (pt_of S + pt_slack k S <= val tol -> phi = B754_nan)).
Proof.
  intros hypot atan2 atanh log k K GH GA GT GL tol pmu pseudo rap phi FT (n & L & HS) (x & y & z & e & X & Y & Z & E & -> & ->).
  exists (x, y, z, e). unfold mx, my, mz, me in *. cbn [fst snd].
  split; [|split; [|split]].
  - exists n. split; [exact L|]. cbn [fst snd]. 
    split; [|split; [|split]]; (apply adds_near; [assumption | rewrite map_length; exact L | |]); apply HS; cbn; auto.
  - intros -> (M & C). unfold stands_for in *. cbn [mx my mz fst snd] in *. exact (C215_accuracy hypot atanh k K GH GT x y z M C).
  - intros ->. intros T. exact (C221_accuracy log k K GL tol x y z e T).
  - intros ((Fx & Bx) & (Fy & By) & PT) T0. cbn [fst snd] in *. unfold pt_slack, pt_of, azimuth_near. cbn [mx my fst snd]. unfold mx, my. cbn [fst snd].
    set (r := sqrt (val x * val x + val y * val y)) in *. pose proof u_b as [U0 U1]. pose proof mn_pos as MN.
    assert (BIG : r <= 2 ^ 1020).
    { apply Rabs_le_inv in Bx, By. assert (P5 : 1 <= 2 ^ 500) by (apply pow_R1_Rle; lra). assert (BB : 2 ^ 1020 = 2 ^ 20 * (2 ^ 500 * 2 ^ 500)) by (rewrite <- !pow_add; reflexivity).
      rewrite BB. unfold r. apply Rle_trans with (sqrt ((2 * 2 ^ 500) * (2 * 2 ^ 500))); [apply sqrt_le_1_alt; set (w := 2 ^ 500) in *; clearbody w; nra|]. rewrite sqrt_square by lra.
      assert (2 <= 2 ^ 20) by (simpl; lra). set (w := 2 ^ 500) in *. clearbody w. set (v := 2 ^ 20) in *. clearbody v. nra. }
    destruct (GH x y Fx Fy BIG) as (FH & CH). fold r in CH. unfold P_Float9.close in CH. assert (R0 : 0 <= r) by apply sqrt_pos. rewrite (Rabs_pos_eq r R0) in CH. apply Rabs_le_inv in CH.
    assert (FB : fin (fabs (hypot x y))) by (apply fabs_fin; exact FH). unfold f_phi. split; intros HT.
    + assert (ET : fle (fabs (hypot x y)) tol = false).
      { destruct (fle (fabs (hypot x y)) tol) eqn:EE; [|reflexivity]. apply (fle_val _ _ FB FT) in EE. rewrite fabs_ok in EE. pose proof (Rle_abs (val (hypot x y))). lra. }
      rewrite ET. destruct (GA y x Fy Fx) as (F & a & A1 & A2 & A3 & A4). split; [exact F|]. exists a. split; [exact A1|]. split; [exact A2|]. split; [exact A3 | exact A4].
    + assert (ET : fle (fabs (hypot x y)) tol = true).
      { apply (fle_val _ _ FB FT). rewrite fabs_ok. apply Rabs_le. split; lra. }
      rewrite ET. reflexivity.
Qed.

(** * C245 *)
Lemma eta_bound : forall k p, 1 <= k <= 1000 -> prunable k p -> Rabs (pseudo_rap (stands_for p)) + eta_error k (stands_for p) <= 2 ^ 1000.
Proof.
  intros k [[[x y] z] t] K (M & C). unfold stands_for, mx, my, mz in *. cbn [fst snd] in *. destruct (eta_small k x y z (proj1 K) M C) as (S1 & B0).
  pose proof u_b as [U0 U1]. pose proof mn_pos as MN. destruct mn_tiny as [_ MU]. set (p := exactly x y z) in *.
  assert (SM : eta_error k p <= 2 ^ 54).
  { unfold eta_error. destruct (measured_pt x y z M) as [PT PL]. fold p in PT, PL. destruct (sin_sq p PT) as (T & _ & _). assert (AT : Rabs (pz p) / sqrt (p_sq p) <= 1).
    { replace (Rabs (pz p) / sqrt (p_sq p)) with (Rabs (pz p / sqrt (p_sq p))); [apply Rabs_le; lra|]. unfold Rdiv. rewrite Rabs_mult, Rabs_inv, (Rabs_pos_eq (sqrt (p_sq p))) by apply sqrt_pos. reflexivity. }
    assert (A0 : 0 < collimation p). { unfold collimation. apply Rdiv_lt_0_compat; lra. }
    assert (P53 : 1 <= 2 ^ 53) by (apply pow_R1_Rle; lra). replace (2 ^ 54) with (2 * 2 ^ 53) by (replace 54%nat with (S 53) by reflexivity; cbn [pow]; ring).
    assert (X1 : (3 * k + 2) * u * ((Rabs (pz p) / sqrt (p_sq p) + min_normal) * collimation p) <= / 8 * 2).
    { replace ((3 * k + 2) * u * ((Rabs (pz p) / sqrt (p_sq p) + min_normal) * collimation p)) with (((3 * k + 2) * u * collimation p) * (Rabs (pz p) / sqrt (p_sq p) + min_normal)) by ring.
      apply Rmult_le_compat; [apply Rmult_le_pos; [apply Rmult_le_pos|]; lra | | exact C | lra].
      apply Rplus_le_le_0_compat; [|lra]. apply Rmult_le_pos; [apply Rabs_pos|]. left. apply Rinv_0_lt_compat, sqrt_lt_R0. lra. }
    assert (KU : k * u <= / 1000). { apply Rle_trans with (1000 * u); [apply Rmult_le_compat_r; lra | lra]. }
    assert (X2 : k * u * (Rabs (pseudo_rap p) + min_normal) <= / 1000 * (2 ^ 53 + 1)).
    { apply Rmult_le_compat; [apply Rmult_le_pos; lra | pose proof (Rabs_pos (pseudo_rap p)); lra | exact KU | lra]. }
    lra. }
  assert (BIG : 4 * 2 ^ 53 <= 2 ^ 1000).
  { replace 1000%nat with (53 + 947)%nat by reflexivity. rewrite pow_add. assert (4 <= 2 ^ 947) by (apply Rle_trans with (2 ^ 2); [simpl; lra | apply Rle_pow; [lra | lia]]). rewrite Rmult_comm. apply Rmult_le_compat_l; [|assumption]. left. apply pow_lt. lra. }
  replace (2 ^ 54) with (2 * 2 ^ 53) in SM by (replace 54%nat with (S 53) by reflexivity; cbn [pow]; ring). lra.
Qed.

(** The particles under the mask, and centroid_prune about the coordinates of their sum: whatever the order of summation and the fused products, there
    is a vector [S] equal to the exact sum up to rounding, and a centre (eta, phi) equal to its coordinates up to rounding, such that every particle
    clearly nearer than the radius to the centre is kept and every one clearly farther is dropped, as are those off the mask. *)
Definition under_mask {A} (l : list A) (mask : option (list bool)) : list A := match mask with None => l | Some m => map fst (filter snd (combine l m)) end.
Lemma under_ok {A} (l : list A) mask : (forall m, mask = Some m -> length m = length l) -> match mask with None => Ok l | Some m => getkey l (KMask m) end = Ok (under_mask l mask).
Proof.
  destruct mask as [m|]; [|reflexivity]. intros H. specialize (H m eq_refl). rewrite getkey_mask by exact H. f_equal. cbn [under_mask]. revert l H.
  induction m as [|b m IH]; intros [|x l] H; try discriminate H; [reflexivity|]. injection H as H. cbn [compress combine filter snd]. destruct b; cbn [map fst]; rewrite IH by exact H; reflexivity.
Qed.
Theorem C245_prune : forall hypot atan2 atanh log cexp k, 1 <= k <= 1000 -> good_hypot k hypot -> good_atan2 k atan2 -> signed_atan2 k atan2 -> good_atanh k atanh -> good_log k log -> good_cexp k cexp ->
  forall tol pmu radius mask out, fin tol -> 0 <= val tol -> fin radius -> (forall m, mask = Some m -> length m = length pmu) -> summable (under_mask pmu mask) ->
  (forall S, nearly_the_sum (under_mask pmu mask) S -> prunable k S /\ val tol < pt_of S - pt_slack k S) ->
  f_centroid_prune_default hypot atan2 atanh log cexp tol pmu radius mask out ->
  exists S eta phi kept, nearly_the_sum (under_mask pmu mask) S /\
    fin eta /\ Rabs (val eta - pseudo_rap (stands_for S)) <= eta_error k (stands_for S) /\ azimuth_near k S phi /\
    out = Ok kept /\ length kept = length pmu /\ forall i p, nth_error pmu i = Some p ->
      (forall m, mask = Some m -> nth_error m i = Some false -> nth_error kept i = Some false) /\
      ((forall m, mask = Some m -> nth_error m i = Some true) -> prunable k p -> forall b, clearly k p eta phi radius b -> nth_error kept i = Some b).
Proof.
  intros hypot atan2 atanh log cexp k K GH GA SA GT GL GC tol pmu radius mask out FT T0 FR HM SU WELL HO.
  unfold f_centroid_prune_default in HO. rewrite (under_ok pmu mask HM) in HO. destruct HO as (eta & phi & HC & HP).
  destruct (C244_coords hypot atan2 atanh log k K GH SA GT GL tol _ true eta phi FT SU HC) as (S & NS & HE & _ & HF).
  destruct (WELL S NS) as (PR & LT). destruct (HE eq_refl PR) as (FE & AE). destruct (HF (proj1 (proj1 PR)) T0) as (AZ & _). specialize (AZ LT).
  destruct (C228_prune hypot atan2 atanh cexp k K GH GA GT GC pmu radius mask eta phi out FR FE) as (kept & EO & LK & HK).
  { replace (val eta) with ((val eta - pseudo_rap (stands_for S)) + pseudo_rap (stands_for S)) by ring. eapply Rle_trans; [apply Rabs_triang|]. pose proof (eta_bound k S K PR). lra. }
  { exact (proj1 AZ). }
  { exact HM. }
  { exact HP. }
  exists S, eta, phi, kept. split; [exact NS|]. split; [exact FE|]. split; [exact AE|]. split; [exact AZ|]. split; [exact EO|]. split; [exact LK | exact HK].
Qed.
Print Assumptions C244_coords.
Print Assumptions C245_prune.

(** * A concrete case: two particles (1, 1, 1), whose sum is in range and away from the beam however it is rounded. *)
Definition two : list fmom := [unit3; unit3].
Lemma near_two : forall c s, val (c unit3) = 1 -> nearly_sums 1 (map c two) s -> fin s /\ 19 / 10 <= val s <= 21 / 10.
Proof.
  intros c s V (F & A). split; [exact F|]. pose proof u_b as [U0 U1]. unfold SpecIEEE.total, total_abs, two in A. cbn [map fold_right] in A. rewrite V, Rabs_R1, pow_1 in A. apply Rabs_le_inv in A. lra.
Qed.
Example C245_case : summable (under_mask two (Some [true; true])) /\ f_adds_to (map mx two) (fadd (mx unit3) (mx unit3)) /\ fin (lit 1 (-33)) /\ 0 <= val (lit 1 (-33)) /\
  (forall S, nearly_the_sum (under_mask two (Some [true; true])) S -> prunable 2 S /\ val (lit 1 (-33)) < pt_of S - pt_slack 2 S).
Proof.
  pose proof u_b as [U0 U1]. pose proof mn_pos as MN. destruct mn_tiny as [_ MU].
  destruct (near1_ok 0 ltac:(lia)) as (V & F). rewrite Rmult_0_l, Rplus_0_r in V. change (under_mask two (Some [true; true])) with two.
  assert (VC : forall c, In c [mx; my; mz; me] -> val (c unit3) = 1 /\ fin (c unit3)) by (intros c [<-|[<-|[<-|[<-|[]]]]]; (split; [exact V | exact F])).
  assert (P5 : 1000 <= 2 ^ 500). { apply Rle_trans with (2 ^ 10); [simpl; lra | apply Rle_pow; [lra | lia]]. }
  assert (HU : 1000 <= huge). { eapply Rle_trans; [exact P5|]. unfold huge. apply Rle_pow; [lra | lia]. }
  destruct (lit_ok 1 (-33) ltac:(lia) ltac:(lia)) as (VT & FT). rewrite Rmult_1_l in VT.
  assert (BT : 0 <= val (lit 1 (-33)) <= / 1000). { rewrite VT. change (bpow radix2 (-33)) with (/ IZR (2 ^ 33)). change (2 ^ 33)%Z with 8589934592%Z. split; [left; apply Rinv_0_lt_compat; lra | apply Rinv_le_contravar; lra]. }
  split; [|split; [|split; [|split]]].
  - exists 1%nat. split; [reflexivity|]. intros c I. destruct (VC c I) as (Vc & Fc). unfold two, total_abs. cbn [map fold_right]. split; [constructor; [exact Fc | constructor; [exact Fc | constructor]]|]. rewrite Vc, Rabs_R1, pow_1. lra.
  - exists (Node (Leaf (mx unit3)) (Leaf (mx unit3))). split; [apply Permutation_refl | reflexivity].
  - exact FT.
  - lra.
  - intros S (n & L & NX & NY & NZ & _). injection L as <-.
    destruct (near_two mx (mx S) (proj1 (VC mx ltac:(cbn; auto))) NX) as (FX & BX). destruct (near_two my (my S) (proj1 (VC my ltac:(cbn; auto))) NY) as (FY & BY). destruct (near_two mz (mz S) (proj1 (VC mz ltac:(cbn; auto))) NZ) as (FZ & BZ).
    assert (MO : forall x, fin x -> 19 / 10 <= val x <= 21 / 10 -> modest x). { intros x Fx Bx. split; [exact Fx|]. rewrite Rabs_pos_eq by lra. lra. }
    assert (PT : 1 <= pt_of S <= 4).
    { unfold pt_of. set (a := val (mx S)) in *. set (b := val (my S)) in *. clearbody a b. split; [rewrite <- sqrt_1 at 1; apply sqrt_le_1_alt; nra | replace 4 with (sqrt (4 * 4)) by (apply sqrt_square; lra); apply sqrt_le_1_alt; nra]. }
    split; [split; [split; [split; [apply MO; assumption | split; [apply MO; assumption|]] | apply MO; assumption]|]|].
    + change (/ 2 ^ 500 <= pt_of S). apply Rle_trans with 1; [|lra]. rewrite <- Rinv_1. apply Rinv_le_contravar; lra.
    + assert (CO : collimation (stands_for S) <= 4).
      { unfold collimation, stands_for, exactly, p_sq, pt_sq. cbn [px py pz]. set (a := val (mx S)) in *. set (b := val (my S)) in *. set (c := val (mz S)) in *. clearbody a b c.
        apply Rmult_le_reg_r with (a * a + b * b); [nra|]. unfold Rdiv. rewrite Rmult_assoc, Rinv_l by nra. nra. }
      apply Rle_trans with ((3 * 2 + 2) * u * 4); [apply Rmult_le_compat_l; lra | lra].
    + unfold pt_slack. assert (2 * u * (pt_of S + min_normal) <= 2 * u * 5) by (apply Rmult_le_compat_l; lra). lra.
Qed.
