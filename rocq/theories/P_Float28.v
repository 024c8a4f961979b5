(** The weighted distances and the partition in doubles, from the momenta (C239). *)
From Coq Require Import ZArith Reals List Bool Lia Lra.
From Flocq Require Import Core BinarySingleNaN.
From Verif Require Import Prelude SpecReal SpecIEEE SpecDist RealBase Kinem DeltaR DeltaRProofs Floats FloatBase FloatOps Floats3 P_Float P_Float7 P_Float9 P_Float6 P_Float16 P_Float19 P_Float21.
From Verif Require Import Dict MaskTypes SpecMask SpecAdj SpecPart Partition P_Part PartDist P_Part3 Floats8 P_Float18.
From Verif Require P_Float26.
From Verif Require Import Floats15.
Import ListNotations.
Open Scope R_scope.

(** * Vocabulary *)
Definition spatial (p : fmom) : mom := exactly (mx p) (my p) (mz p).
Definition pt3 (p : fmom) : R := sqrt (pt_sq (spatial p)).
(** A momentum in range, away from the beam: p^2/pt^2 may be large, but not so large that the rounding of |p| hides pt. *)
Definition clear_of_beam (k : R) (p : fmom) : Prop := measured (mx p) (my p) (mz p) /\ (3 * k + 2) * u * collimation (spatial p) <= / 8.
(** [w] is the weight of the parton [p] and [d] its distance from [h] in pseudorapidity and azimuth. *)
Definition exact_parts (e : f64) (p h : fmom) (w d : R) : Prop :=
  w = Rpower (pt3 p) (val e) /\ exists g, azimuth_gap (spatial p) (spatial h) g /\
    d = sqrt ((pseudo_rap (spatial p) - pseudo_rap (spatial h)) * (pseudo_rap (spatial p) - pseudo_rap (spatial h)) + g * g).
(** How far the computed product can be from [w * d]. *)
Definition smear (k : R) (e : f64) (p h : fmom) (w d : R) : R :=
  w * (((4 * k + 2 * k * Rabs (val e) + 5) * d + 6) * u + 102 / 100 * (eta_error k (spatial p) + eta_error k (spatial h))).

Lemma exp_small t c : Rabs t <= c -> c <= / 1000 -> Rabs (exp t - 1) <= 1002 / 1000 * c.
Proof.
  intros H C. apply Rabs_le_inv in H. pose proof (exp_ineq1_le t) as L. pose proof (exp_ineq1_le (- t)) as L2. rewrite exp_Ropp in L2. pose proof (exp_pos t) as P.
  assert (U : exp t * (1 - c) <= 1). { apply Rle_trans with (exp t * / exp t); [apply Rmult_le_compat_l; lra | rewrite Rinv_r; lra]. }
  assert (U2 : exp t <= 1 + 1002 / 1000 * c). { apply Rmult_le_reg_r with (1 - c); [lra|]. eapply Rle_trans; [exact U|]. assert (c * c <= / 1000 * c) by (apply Rmult_le_compat_r; lra). lra. }
  apply Rabs_le. lra.
Qed.
(** A power of a slightly different base. *)
Lemma power_close x q e c : 0 < q -> Rabs (x - q) <= c * q -> 0 <= c <= / 1000 -> Rabs e * c <= / 2000 -> 0 < x /\ Rabs (Rpower x e - Rpower q e) <= 1005 / 1000 * (Rabs e * c) * Rpower q e.
Proof.
  intros Q H C EC. destruct (ln_close q c Q ltac:(lra) ltac:(assert (0 <= c * q) by (apply Rmult_le_pos; lra); lra) x H) as (X & L). split; [exact X|].
  assert (L' : Rabs (ln x - ln q) <= 1002 / 1000 * c). { eapply Rle_trans; [exact L|]. unfold Rdiv at 1. rewrite Rmult_comm. apply Rmult_le_compat_r; [lra|]. rewrite <- (Rinv_inv (1002 / 1000)). apply Rinv_le_contravar; lra. }
  unfold Rpower. replace (e * ln x) with (e * (ln x - ln q) + e * ln q) by ring. rewrite exp_plus. set (W := exp (e * ln q)). assert (0 < W) by apply exp_pos.
  replace (exp (e * (ln x - ln q)) * W - W) with ((exp (e * (ln x - ln q)) - 1) * W) by ring. rewrite Rabs_mult, (Rabs_pos_eq W) by lra. apply Rmult_le_compat_r; [lra|].
  assert (B : Rabs (e * (ln x - ln q)) <= Rabs e * (1002 / 1000 * c)) by (rewrite Rabs_mult; apply Rmult_le_compat_l; [apply Rabs_pos | exact L']).
  pose proof (Rabs_pos e). assert (0 <= Rabs e * c) by (apply Rmult_le_pos; lra).
  eapply Rle_trans; [apply (exp_small _ _ B); lra|]. lra.
Qed.
Lemma smear_calc k u0 x w d w' d' q B a : 1 <= k <= 1000 -> 0 < u0 <= / 1000000000000000 -> 0 < w -> 0 <= d -> 0 <= B -> 0 <= x -> a = (k + 101 / 100 * k * x) * u0 -> a <= / 1000 -> Rabs (w' - w) <= a * w ->
  Rabs (d' - d) <= ((2 * k + 2) * d + 4) * u0 + 101 / 100 * B ->
  Rabs (q - w' * d') <= u0 * Rabs (w' * d') + u0 * (w / 2) -> Rabs (q - w * d) <= w * (((4 * k + 2 * k * x + 5) * d + 6) * u0 + 102 / 100 * B).
Proof.
  intros K U W D B0 X EA A1 A C F. assert (KX : 0 <= k * x) by (apply Rmult_le_pos; lra). assert (A0 : 0 <= a) by (rewrite EA; apply Rmult_le_pos; lra).
  set (E := ((2 * k + 2) * d + 4) * u0 + 101 / 100 * B) in *. assert (KU : 0 <= k * u0 <= / 1000000000000) by (split; [apply Rmult_le_pos; lra|]; apply Rle_trans with (1000 * / 1000000000000000); [apply Rmult_le_compat; lra | lra]).
  assert (P1 : 0 <= k * u0 * d) by (apply Rmult_le_pos; lra). assert (P2 : 0 <= u0 * d) by (apply Rmult_le_pos; lra). assert (P3 : 0 <= k * x * u0 * d) by (apply Rmult_le_pos; [apply Rmult_le_pos|]; lra).
  assert (EE : E = 2 * (k * u0 * d) + 2 * (u0 * d) + 4 * u0 + 101 / 100 * B) by (unfold E; ring). clearbody E.
  assert (E0 : 0 <= E) by lra. assert (AE : a * E <= / 1000 * E) by (apply Rmult_le_compat_r; lra). assert (Ad : a * d = k * u0 * d + 101 / 100 * (k * x * u0 * d)) by (rewrite EA; ring).
  assert (H1 : Rabs (w' * d' - w * d) <= w * (E + a * d + a * E)).
  { replace (w' * d' - w * d) with (w * (d' - d) + ((w' - w) * d + (w' - w) * (d' - d))) by ring. eapply Rle_trans; [apply Rabs_triang|]. rewrite Rabs_mult, (Rabs_pos_eq w) by lra.
    assert (T1 : w * Rabs (d' - d) <= w * E) by (apply Rmult_le_compat_l; lra).
    assert (T2 : Rabs ((w' - w) * d) <= a * w * d) by (rewrite Rabs_mult, (Rabs_pos_eq d) by exact D; apply Rmult_le_compat_r; assumption).
    assert (T3 : Rabs ((w' - w) * (d' - d)) <= a * w * E) by (rewrite Rabs_mult; apply Rmult_le_compat; auto using Rabs_pos).
    pose proof (Rabs_triang ((w' - w) * d) ((w' - w) * (d' - d))). replace (w * (E + a * d + a * E)) with (w * E + (a * w * d + a * w * E)) by ring. lra. }
  set (M := E + a * d + a * E) in *. assert (M0 : 0 <= M) by (unfold M; assert (0 <= a * d) by (apply Rmult_le_pos; lra); assert (0 <= a * E) by (apply Rmult_le_pos; lra); lra).
  assert (H2 : Rabs (w' * d') <= w * (d + M)). { replace (w' * d') with (w * d + (w' * d' - w * d)) by ring. eapply Rle_trans; [apply Rabs_triang|]. rewrite (Rabs_pos_eq (w * d)) by (apply Rmult_le_pos; lra). lra. }
  assert (H3 : Rabs (q - w * d) <= w * (M + u0 * (d + M) + u0 / 2)).
  { replace (q - w * d) with ((q - w' * d') + (w' * d' - w * d)) by ring. eapply Rle_trans; [apply Rabs_triang|]. assert (u0 * Rabs (w' * d') <= u0 * (w * (d + M))) by (apply Rmult_le_compat_l; lra).
    replace (w * (M + u0 * (d + M) + u0 / 2)) with (w * M + u0 * (w * (d + M)) + u0 * (w / 2)) by (unfold Rdiv; ring). lra. }
  eapply Rle_trans; [exact H3|]. apply Rmult_le_compat_l; [lra|].
  assert (UM : u0 * M <= / 100000 * M) by (apply Rmult_le_compat_r; lra).
  assert (GA : M <= 1001 / 1000 * E + a * d) by (unfold M; lra).
  replace (((4 * k + 2 * k * x + 5) * d + 6) * u0) with (4 * (k * u0 * d) + 2 * (k * x * u0 * d) + 5 * (u0 * d) + 6 * u0) by ring. lra.
Qed.

Lemma eta_sizes k o : 1 <= k <= 1000 -> 0 < pt_sq o -> pt_sq o <= p_sq o -> (3 * k + 2) * u * collimation o <= / 8 -> Rabs (pseudo_rap o) <= 2 ^ 53 /\ 0 <= eta_error k o <= 2 ^ 53.
Proof.
  intros K PT PL CC. pose proof u_b as [U0 U1]. pose proof mn_pos as MN. destruct mn_tiny as [_ MU].
  assert (KU : 0 <= k * u <= / 1000000). { split; [apply Rmult_le_pos; lra|]. apply Rle_trans with (1000 * u); [apply Rmult_le_compat_r; lra | unfold u; simpl; lra]. }
  assert (UB : / u <= 2 ^ 53) by (unfold u; rewrite Rinv_inv; lra).
  pose proof (eta_size _ PT) as S. destruct (sin_sq _ PT) as (T & _ & _). unfold eta_error.
  set (A := collimation o) in *. set (t := pz o / sqrt (p_sq o)) in *.
  assert (A0 : 1 <= A). { unfold A, collimation. apply Rmult_le_reg_r with (pt_sq o); [exact PT|]. unfold Rdiv. rewrite Rmult_assoc, Rinv_l by lra. lra. }
  assert (AB : 2 * A <= / u). { apply Rmult_le_reg_r with u; [lra|]. rewrite Rinv_l by lra. assert (5 * u * A <= (3 * k + 2) * u * A) by (apply Rmult_le_compat_r; [lra|]; apply Rmult_le_compat_r; lra). lra. }
  assert (HT : Rabs (pz o) / sqrt (p_sq o) = Rabs t). { unfold t, Rdiv. rewrite Rabs_mult, Rabs_inv, (Rabs_pos_eq (sqrt (p_sq o))) by apply sqrt_pos. reflexivity. }
  rewrite HT. assert (AT : Rabs t <= 1) by (apply Rabs_le; lra). pose proof (Rabs_pos t). pose proof (Rabs_pos (pseudo_rap o)).
  split; [lra|].
  assert (X1 : (3 * k + 2) * u * ((Rabs t + min_normal) * A) <= / 8 * 2).
  { replace ((3 * k + 2) * u * ((Rabs t + min_normal) * A)) with (((3 * k + 2) * u * A) * (Rabs t + min_normal)) by ring.
    apply Rmult_le_compat; [apply Rmult_le_pos; [apply Rmult_le_pos|]; lra | lra | exact CC | lra]. }
  assert (X2 : k * u * (Rabs (pseudo_rap o) + min_normal) <= / 1000000 * (2 * A + 1)) by (apply Rmult_le_compat; lra).
  assert (1 <= 2 ^ 53) by (apply pow_R1_Rle; lra).
  assert (0 <= (3 * k + 2) * u * ((Rabs t + min_normal) * A)) by (apply Rmult_le_pos; [apply Rmult_le_pos|apply Rmult_le_pos]; lra). assert (0 <= k * u * (Rabs (pseudo_rap o) + min_normal)) by (apply Rmult_le_pos; lra). lra.
Qed.

(** * An entry of the matrix *)
Theorem C239_accuracy : forall pow hypot atan2 atanh k, 1 <= k <= 1000 -> good_pow k pow -> good_hypot k hypot -> good_atan2 k atan2 -> good_atanh k atanh ->
  forall e p h w d, fin e -> 4000 * k * Rabs (val e) * u <= 1 -> clear_of_beam k p -> clear_of_beam k h -> exact_parts e p h w d -> / 2 ^ 499 <= w <= 2 ^ 499 ->
  fin (f_parton_hadron pow hypot atan2 atanh e p h) /\ Rabs (val (f_parton_hadron pow hypot atan2 atanh e p h) - w * d) <= smear k e p h w d.
Proof.
  intros pow hypot atan2 atanh k K GP GH GA GT e p h w d Fe EB (Mp & Cp) (Mh & Ch) (-> & g & G & ED) (WL & WU). pose proof u_b as [U0 U1]. pose proof mn_pos as MN. destruct mn_tiny as [_ MU].
  destruct (C216_accuracy hypot atan2 atanh k K GH GA GT (mx p) (my p) (mz p) (mx h) (my h) (mz h) g Mp Mh G Cp Ch) as (Fd & Ed).
  fold (spatial p) (spatial h) in Ed. rewrite <- ED in Ed.
  destruct (measured_pt _ _ _ Mp) as (PTp & PLp). destruct (measured_pt _ _ _ Mh) as (PTh & PLh). fold (spatial p) in PTp, PLp. fold (spatial h) in PTh, PLh.
  destruct (eta_sizes k _ K PTp PLp Cp) as (Sp & Bp0 & Bp). destruct (eta_sizes k _ K PTh PLh Ch) as (Sh & Bh0 & Bh).
  set (x := Rabs (val e)) in *. assert (x0 : 0 <= x) by apply Rabs_pos.
  assert (KU : 0 <= k * u <= / 1000000) by (split; [apply Rmult_le_pos; lra|]; apply Rle_trans with (1000 * / 1000000000000000); [apply Rmult_le_compat; lra | lra]).
  (* the transverse momentum *)
  destruct Mp as (((F1 & B1) & (F2 & B2) & UP) & _). cbn [fst snd] in F1, B1, F2, B2. unfold re, im in UP. cbn [fst snd] in UP.
  assert (EP : sqrt (val (mx p) * val (mx p) + val (my p) * val (my p)) = pt3 p) by reflexivity. rewrite EP in UP.
  assert (P500 : 0 < / 2 ^ 500) by (apply Rinv_0_lt_compat, pow_lt; lra).
  assert (BP : pt3 p <= 2 ^ 1020).
  { unfold pt3. rewrite <- (sqrt_square (2 ^ 1020)) by (apply pow_le; lra). apply sqrt_le_1_alt. assert (A : forall a, Rabs a <= 2 ^ 500 -> a * a <= 2 ^ 500 * 2 ^ 500).
    { intros a Ha. rewrite <- (Rabs_pos_eq (a * a)) by apply Rle_0_sqr. rewrite Rabs_mult. apply Rmult_le_compat; auto using Rabs_pos. }
    pose proof (A _ B1). pose proof (A _ B2). assert (2 * (2 ^ 500 * 2 ^ 500) <= 2 ^ 1020 * 2 ^ 1020). { replace (2 * (2 ^ 500 * 2 ^ 500)) with (2 ^ 1 * (2 ^ 500 * 2 ^ 500)) by (f_equal; ring). rewrite <- !pow_add. apply Rle_pow; [lra | cbn; lia]. } unfold pt_sq, spatial, exactly. cbn [px py]. lra. }
  destruct (GH (mx p) (my p) F1 F2 ltac:(rewrite EP; exact BP)) as (FH & CH). rewrite EP in CH. unfold P_Float9.close in CH. rewrite (Rabs_pos_eq (pt3 p)) in CH by lra.
  assert (MY : min_normal <= / 1000 * pt3 p). { apply Rle_trans with (/ 1000 * / 2 ^ 500); [|lra]. unfold min_normal. rewrite <- Rinv_mult. apply Rinv_le_contravar; [apply Rmult_lt_0_compat; [lra | apply pow_lt; lra]|]. apply Rle_trans with (2 ^ 10 * 2 ^ 500); [apply Rmult_le_compat_r; [apply pow_le; lra | simpl; lra] | rewrite <- pow_add; apply Rle_pow; [lra | lia]]. }
  set (c := 1001 / 1000 * (k * u)).
  assert (CH' : Rabs (val (hypot (mx p) (my p)) - pt3 p) <= c * pt3 p). { eapply Rle_trans; [exact CH|]. unfold c. replace (1001 / 1000 * (k * u) * pt3 p) with (k * u * (1001 / 1000 * pt3 p)) by ring. apply Rmult_le_compat_l; lra. }
  assert (XC : x * c <= 1001 / 1000 * / 4000) by (unfold c; lra).
  destruct (power_close _ (pt3 p) (val e) c ltac:(lra) CH' ltac:(unfold c; lra) ltac:(fold x; lra)) as (Hpos & PC). fold x in PC. set (W := Rpower (pt3 p) (val e)) in *. assert (W0 : 0 < W) by apply exp_pos.
  set (V := Rpower (val (hypot (mx p) (my p))) (val e)) in *. assert (XC0 : 0 <= x * c) by (apply Rmult_le_pos; unfold c; lra).
  assert (PCW : 1005 / 1000 * (x * c) * W <= / 1000 * W) by (apply Rmult_le_compat_r; lra). apply Rabs_le_inv in PC as PC'.
  assert (P2 : 2 ^ 500 = 2 * 2 ^ 499) by reflexivity. assert (P3 : / 2 ^ 500 = / 2 * / 2 ^ 499) by (rewrite P2, Rinv_mult; reflexivity). assert (P4 : 0 < / 2 ^ 499) by (apply Rinv_0_lt_compat, pow_lt; lra). assert (P5 : 1 <= 2 ^ 499) by (apply pow_R1_Rle; lra).
  destruct (GP _ e FH Fe Hpos ltac:(fold V; lra)) as (Fw & Ew). fold V in Ew. set (ww := pow (hypot (mx p) (my p)) e) in *.
  set (a := (k + 101 / 100 * k * x) * u). assert (A1 : a <= / 1000) by (unfold a; lra).
  assert (KXU : 0 <= k * x * u) by (apply Rmult_le_pos; [apply Rmult_le_pos|]; lra).
  assert (EW : Rabs (val ww - W) <= a * W).
  { replace (val ww - W) with ((val ww - V) + (V - W)) by ring. eapply Rle_trans; [apply Rabs_triang|].
    assert (T : k * u * V <= k * u * W + k * u * (1005 / 1000 * (x * c) * W)) by (rewrite <- Rmult_plus_distr_l; apply Rmult_le_compat_l; lra).
    assert (xcW : 0 <= x * c * W) by (apply Rmult_le_pos; lra). assert (T2 : k * u * (1005 / 1000 * (x * c) * W) <= / 1000000 * (1005 / 1000 * (x * c) * W)) by (apply Rmult_le_compat_r; lra).
    assert (XW : x * c * W = 1001 / 1000 * (k * x * u * W)) by (unfold c; ring). assert (0 <= k * x * u * W) by (apply Rmult_le_pos; lra). replace (a * W) with (k * u * W + 101 / 100 * (k * x * u * W)) by (unfold a; ring). lra. }
  (* the product *)
  change (f_parton_hadron pow hypot atan2 atanh e p h) with (fmul ww (f_delta hypot atan2 (f_eta hypot atanh (mx p) (my p) (mz p)) (f_eta hypot atanh (mx h) (my h) (mz h)) (mx p, my p) (mx h, my h))).
  set (dd := f_delta _ _ _ _ _ _) in *. set (B := eta_error k (spatial p) + eta_error k (spatial h)) in *.
  assert (D0 : 0 <= d) by (rewrite ED; apply sqrt_pos).
  assert (PB : 1 <= 2 ^ 53) by (apply pow_R1_Rle; lra).
  assert (DB : d <= 8 * 2 ^ 53).
  { rewrite ED. set (y := pseudo_rap (spatial p) - pseudo_rap (spatial h)). assert (Y : Rabs y <= 2 * 2 ^ 53) by (unfold y, Rminus; eapply Rle_trans; [apply Rabs_triang|]; rewrite Rabs_Ropp; lra).
    assert (Gg : Rabs g <= 4) by (destruct G as ((G1 & G2) & _); pose proof PI_4; apply Rabs_le; lra).
    apply Rle_trans with (Rabs y + Rabs g).
    - rewrite <- (sqrt_square (Rabs y + Rabs g)) by (pose proof (Rabs_pos y); pose proof (Rabs_pos g); lra). apply sqrt_le_1_alt.
      assert (SA : forall t, Rabs t * Rabs t = t * t) by (intros t; rewrite <- Rabs_mult; apply Rabs_pos_eq, Rle_0_sqr). pose proof (SA y). pose proof (SA g).
      assert (0 <= Rabs y * Rabs g) by (apply Rmult_le_pos; apply Rabs_pos). lra.
    - lra. }
  assert (Wb : Rabs (val ww) <= 2 ^ 500) by (assert (a * W <= / 1000 * W) by (apply Rmult_le_compat_r; lra); apply Rabs_le_inv in EW; apply Rabs_le; lra).
  assert (KD : (2 * k + 2) * u * d <= / 1000 * d) by (apply Rmult_le_compat_r; lra).
  assert (Db : Rabs (val dd) <= 2 ^ 60). { assert (HE : Rabs (val dd - d) <= / 1000 * d + 4 * u + 101 / 100 * B) by (eapply Rle_trans; [exact Ed|]; lra). apply Rabs_le_inv in HE. assert (P60 : 2 ^ 60 = 128 * 2 ^ 53) by (change (2 ^ 60) with (2 * (2 * (2 * (2 * (2 * (2 * (2 * 2 ^ 53))))))); ring). apply Rabs_le. unfold B in HE. lra. }
  assert (OV : Rabs (SpecIEEE.nearest (val ww * val dd)) < bpow radix2 1024).
  { apply no_overflow. rewrite Rabs_mult. apply Rle_trans with (2 ^ 500 * 2 ^ 60); [apply Rmult_le_compat; try apply Rabs_pos; assumption|]. rewrite <- pow_add. unfold SpecIEEE.huge. apply Rle_pow; [lra|lia]. }
  destruct (fmul_ok ww dd Fw Fd OV) as (V' & F & _). split; [exact F|]. rewrite V'. unfold smear. fold x B.
  apply (smear_calc k u x W d (val ww) (val dd) _ B a); try assumption; try reflexivity; try lra.
  - unfold B. lra.
  - eapply Rle_trans; [apply nearest_err_any|]. apply Rplus_le_compat_l, Rmult_le_compat_l; [lra|].
    apply Rle_trans with (/ 2 ^ 499 / 2); [|lra]. unfold min_normal. replace (/ 2 ^ 499 / 2) with (/ 2 ^ 500) by (rewrite P3; field; apply pow_nonzero; lra).
    apply Rinv_le_contravar; [apply pow_lt; lra|]. apply Rle_pow; [lra|lia].
Qed.

(** * The partition *)
(** Of the particles ending at [v], number [k] is nearest to particle [i] by more than what rounding can blur. *)
Definition stands_out (units : R) (e : f64) (es : edges) (pmu : list fmom) (v : Z) (i k : nat) : Prop :=
  incident es v k /\ exists p h w d, nth_error pmu k = Some p /\ nth_error pmu i = Some h /\ clear_of_beam units h /\ clear_of_beam units p /\ exact_parts e p h w d /\ / 2 ^ 499 <= w <= 2 ^ 499 /\
    forall k' p', incident es v k' -> k' <> k -> nth_error pmu k' = Some p' -> clear_of_beam units p' /\
      exists w' d', exact_parts e p' h w' d' /\ / 2 ^ 499 <= w' <= 2 ^ 499 /\ w * d + smear units e p h w d + smear units e p' h w' d' < w' * d'.

Theorem C239_partition : forall pow hypot atan2 atanh k, 1 <= k <= 1000 -> good_pow k pow -> good_hypot k hypot -> good_atan2 k atan2 -> good_atanh k atanh ->
  forall e n es status final (pmu : list fmom) agg kids, fin e -> 4000 * k * Rabs (val e) * u <= 1 -> event_ok n es status final pmu -> branches_ok n kids ->
  exists kids', f_partition_mom pow hypot atan2 atanh e es status final pmu (MGrp agg kids) = Ok (MGrp agg kids') /\
    forall q x, leaf_at agg kids q x -> exists x', leaf_at agg kids' q x' /\
      (forall v i j, selected es status kids v -> touches es x v -> final_desc es final v i -> stands_out k e es pmu v i j ->
         (nth_error x' i = Some true <-> nth_error x j = Some true)) /\
      (forall i, (forall v, selected es status kids v -> touches es x v -> ~ final_desc es final v i) -> nth_error x' i = nth_error x i).
Proof.
  intros pow hypot atan2 atanh k K GP GH GA GT e n es status final pmu agg kids Fe EB (L1 & L2 & L3 & L4 & HS & HD & HFi) HB. set (T := track_of hypot atanh).
  assert (HE : event_ok n es status final (map T pmu)) by (split; [exact L1|]; split; [exact L2|]; split; [exact L3|]; split; [rewrite map_length; exact L4|]; split; [exact HS|]; split; [exact HD | exact HFi]).
  destruct (C49_partition_descendants (f_weighted pow hypot atan2 e) f_argmin_lt n es status final (map T pmu) agg kids f_weak HE HB) as (kids' & E & L).
  exists kids'. split; [exact E|]. intros q x (Hx & Hl). destruct (L q (MArr x) Hx) as (m & Hm & M). destruct m as [x'|]; [|contradiction]. rewrite Hl in M. destruct M as (_ & M1 & M2).
  exists x'. split; [split; [exact Hm|exact Hl]|]. split; [|exact M2].
  intros v i j S T' F (I & p & h & w & d & Hp & Hh & OH & OP & TP & WB & C). apply (M1 v i j S T' F). split; [exact I|]. exists (T p), (T h). split; [rewrite nth_error_map', Hp; reflexivity|]. split; [rewrite nth_error_map', Hh; reflexivity|].
  intros j' t' I' Ht'. rewrite nth_error_map' in Ht'. destruct (nth_error pmu j') as [p'|] eqn:Hp'; [|discriminate Ht']. injection Ht' as <-.
  destruct (Nat.eq_dec j' j) as [->|NE]; [rewrite Hp in Hp'; injection Hp' as <-; split; [apply f_weak|lia]|].
  destruct (C j' p' I' NE Hp') as (OP' & w' & d' & TP' & WB' & LT).
  destruct (C239_accuracy pow hypot atan2 atanh k K GP GH GA GT e p h w d Fe EB OP OH TP WB) as (F1 & A1). destruct (C239_accuracy pow hypot atan2 atanh k K GP GH GA GT e p' h w' d' Fe EB OP' OH TP' WB') as (F2 & A2).
  unfold f_parton_hadron in F1, A1, F2, A2. fold (T p) (T h) in F1, A1. fold (T p') (T h) in F2, A2.
  set (a := f_weighted pow hypot atan2 e (T p) (T h)) in *. set (b := f_weighted pow hypot atan2 e (T p') (T h)) in *. clearbody a b.
  assert (VL : val a < val b) by (apply Rabs_le_inv in A1, A2; lra).
  unfold f_argmin_lt. rewrite (fin_not_nan _ F1), (fin_not_nan _ F2). split; [|intros _; apply flt_ok; assumption].
  apply Bool.not_true_is_false. intros H. apply flt_ok in H; try assumption. lra.
Qed.
Print Assumptions C239_accuracy.
Print Assumptions C239_partition.

(** * A case *)
Lemma good_hypot_more k k' hypot : k <= k' -> good_hypot k hypot -> good_hypot k' hypot.
Proof.
  intros K G a b A B C. destruct (G a b A B C) as (F & E). split; [exact F|]. unfold P_Float9.close in *. eapply Rle_trans; [exact E|]. pose proof u_b. pose proof mn_pos.
  apply Rmult_le_compat_r; [pose proof (Rabs_pos (sqrt (val a * val a + val b * val b))); lra|]. apply Rmult_le_compat_r; lra.
Qed.
Lemma good_atan2_more k k' atan2 : k <= k' -> good_atan2 k atan2 -> good_atan2 k' atan2.
Proof.
  intros K G y x A B C. destruct (G y x A B C) as (F & E). split; [exact F|]. intros a Ha. specialize (E a Ha). unfold P_Float9.close in *. eapply Rle_trans; [exact E|]. pose proof u_b. pose proof mn_pos.
  apply Rmult_le_compat_r; [pose proof (Rabs_pos (Rabs a)); lra|]. apply Rmult_le_compat_r; lra.
Qed.
Lemma good_atanh_more k k' atanh : k <= k' -> good_atanh k atanh -> good_atanh k' atanh.
Proof.
  intros K G t A B. destruct (G t A B) as (F & E). split; [exact F|]. unfold P_Float9.close in *. eapply Rle_trans; [exact E|]. pose proof u_b. pose proof mn_pos.
  apply Rmult_le_compat_r; [pose proof (Rabs_pos (arctanh (val t))); lra|]. apply Rmult_le_compat_r; lra.
Qed.
(** A particle in the x-z plane of transverse momentum [a], longitudinal momentum [b] and momentum [c]. *)
Definition in_plane (a b : Z) : fmom := (lit a 0, fzero, lit b 0, lit 14 0).
Lemma in_plane_ok a b c : (1 <= a <= 13)%Z -> (0 <= b <= 12)%Z -> (0 <= c <= 13)%Z -> (a * a + b * b = c * c)%Z ->
  val (mx (in_plane a b)) = IZR a /\ pt3 (in_plane a b) = IZR a /\ clear_of_beam 2 (in_plane a b) /\ pseudo_rap (spatial (in_plane a b)) = / 2 * ln ((IZR c + IZR b) / (IZR c - IZR b)) /\
  (Rabs (pseudo_rap (spatial (in_plane a b))) <= 14 -> eta_error 2 (spatial (in_plane a b)) <= 1700 * u).
Proof.
  intros A B C E. destruct (lit_int a ltac:(lia)) as (Va & Fa). destruct (lit_int b ltac:(lia)) as (Vb & Fb). pose proof u_b as [U0 U1]. pose proof mn_pos as MN. destruct mn_tiny as [_ MU].
  assert (A' : 1 <= IZR a <= 13) by (split; apply IZR_le; lia). assert (B' : 0 <= IZR b <= 12) by (split; apply IZR_le; lia). assert (C' : 0 <= IZR c <= 13) by (split; apply IZR_le; lia).
  assert (E' : IZR a * IZR a + IZR b * IZR b = IZR c * IZR c) by (rewrite <- !mult_IZR, <- plus_IZR; f_equal; exact E). assert (V0 : val fzero = 0) by reflexivity.
  assert (PT : pt_sq (spatial (in_plane a b)) = IZR a * IZR a). { unfold pt_sq, spatial, exactly, in_plane, mx, my, mz. cbn [px py fst snd]. rewrite Va, V0. ring. }
  assert (PS : p_sq (spatial (in_plane a b)) = IZR c * IZR c). { unfold p_sq, spatial, exactly, in_plane, mx, my, mz. cbn [px py pz fst snd]. rewrite Va, Vb, V0. rewrite <- E'. ring. }
  assert (PZ : pz (spatial (in_plane a b)) = IZR b) by exact Vb.
  assert (EP : pt3 (in_plane a b) = IZR a) by (unfold pt3; rewrite PT; apply sqrt_square; lra). assert (SP : sqrt (p_sq (spatial (in_plane a b))) = IZR c) by (rewrite PS; apply sqrt_square; lra).
  assert (P500 : 16 <= 2 ^ 500) by (apply Rle_trans with (2 ^ 4); [simpl; lra | apply Rle_pow; [lra | lia]]). assert (I500 : / 2 ^ 500 <= 1) by (rewrite <- Rinv_1; apply Rinv_le_contravar; lra).
  assert (AA : 1 <= IZR a * IZR a) by (assert (1 * 1 <= IZR a * IZR a) by (apply Rmult_le_compat; lra); lra). assert (CC : IZR c * IZR c <= 169) by (assert (IZR c * IZR c <= 13 * 13) by (apply Rmult_le_compat; lra); lra).
  assert (CO : 0 <= collimation (spatial (in_plane a b)) <= 169). { unfold collimation. rewrite PT, PS. split; [apply Rmult_le_pos; [apply Rle_0_sqr | left; apply Rinv_0_lt_compat; lra]|]. apply Rle_trans with (169 * / 1); [|lra]. apply Rmult_le_compat; [apply Rle_0_sqr | left; apply Rinv_0_lt_compat; lra | exact CC | apply Rinv_le_contravar; lra]. }
  split; [exact Va|]. split; [exact EP|]. split; [|split].
  - split; [|apply Rle_trans with (8 * u * 169); [apply Rmult_le_compat; lra | lra]]. split.
    + split; [split; [exact Fa | cbn [fst in_plane mx]; rewrite Va, Rabs_pos_eq; lra]|]. split; [split; [reflexivity | cbn [snd fst in_plane my]; rewrite V0, Rabs_R0; lra]|].
      change (/ 2 ^ 500 <= pt3 (in_plane a b)). rewrite EP. lra.
    + split; [exact Fb|]. change (Rabs (val (lit b 0)) <= 2 ^ 500). rewrite Vb, Rabs_pos_eq by lra. lra.
  - unfold pseudo_rap. rewrite SP, PZ. reflexivity.
  - intros H. unfold eta_error. set (A0 := collimation _) in *. rewrite SP, PZ, (Rabs_pos_eq (IZR b)) by lra.
    assert (C1 : 1 <= IZR c). { destruct (Rle_lt_dec 1 (IZR c)) as [Q|Q]; [exact Q|]. apply lt_IZR in Q. assert (c = 0)%Z as -> by lia. exfalso. cbn in E'. pose proof (Rle_0_sqr (IZR b)) as Q2. unfold Rsqr in Q2. lra. }
    assert (BC : 0 <= IZR b / IZR c <= 1). { split; [apply Rmult_le_pos; [lra | left; apply Rinv_0_lt_compat; lra]|]. apply Rmult_le_reg_r with (IZR c); [lra|]. unfold Rdiv. rewrite Rmult_assoc, Rinv_l by lra. destruct (Rle_lt_dec (IZR b) (IZR c)) as [Q|Q]; [lra|]. exfalso. assert (IZR c * IZR c <= IZR b * IZR b) by (apply Rmult_le_compat; lra). lra. }
    assert (T : (IZR b / IZR c + min_normal) * A0 <= 1001 / 1000 * 169) by (apply Rmult_le_compat; lra).
    assert (T1 : (3 * 2 + 2) * u * ((IZR b / IZR c + min_normal) * A0) <= (3 * 2 + 2) * u * (1001 / 1000 * 169)) by (apply Rmult_le_compat_l; lra).
    assert (T2 : 2 * u * (Rabs (pseudo_rap (spatial (in_plane a b))) + min_normal) <= 2 * u * 15) by (apply Rmult_le_compat_l; lra). lra.
Qed.
Definition plane_pmu : list fmom := [in_plane 1 0; in_plane 5 12; in_plane 4 3; in_plane 4 3; in_plane 4 3].
Lemma plane_parts a b c x y z : (1 <= a <= 13)%Z -> (0 <= b <= 12)%Z -> (0 <= c <= 13)%Z -> (a * a + b * b = c * c)%Z -> (1 <= x <= 13)%Z -> (0 <= y <= 12)%Z -> (0 <= z <= 13)%Z -> (x * x + y * y = z * z)%Z ->
  exact_parts fzero (in_plane a b) (in_plane x y) 1 (Rabs (pseudo_rap (spatial (in_plane a b)) - pseudo_rap (spatial (in_plane x y)))).
Proof.
  intros A B C E X Y Z F. destruct (in_plane_ok a b c A B C E) as (Va & Pa & _). destruct (in_plane_ok x y z X Y Z F) as (Vx & Px & _). assert (1 <= IZR a) by (apply IZR_le; lia). assert (1 <= IZR x) by (apply IZR_le; lia).
  split; [rewrite Pa; change (val fzero) with 0; rewrite Rpower_O by lra; reflexivity|]. exists 0. split.
  - apply (P_Float26.axis_gap (mx (in_plane a b)) (mx (in_plane x y))); lra.
  - set (q := pseudo_rap _ - pseudo_rap _). replace (q * q + 0 * 0) with (Rsqr q) by (unfold Rsqr; ring). symmetry. apply sqrt_Rsqr_abs.
Qed.
Example C239_case : good_pow 2 ref_pow /\ good_hypot 2 ref_hypot /\ good_atan2 2 ref_atan2 /\ good_atanh 2 ref_atanh /\ fin fzero /\ 4000 * 2 * Rabs (val fzero) * u <= 1 /\
  event_ok 5 Demo.es Demo.status Demo.final plane_pmu /\ branches_ok 5 Demo.kids /\ selected Demo.es Demo.status Demo.kids 1%Z /\
  final_desc Demo.es Demo.final 1%Z 2 /\ stands_out 2 fzero Demo.es plane_pmu 1%Z 2 0.
Proof.
  split; [exact ref_pow_good|]. split; [apply (good_hypot_more 1); [lra | apply ref_hypot_good]|]. split; [apply (good_atan2_more 1); [lra | apply ref_atan2_good]|]. split; [apply (good_atanh_more 1); [lra | apply ref_atanh_good]|].
  split; [reflexivity|]. split; [change (val fzero) with 0; rewrite Rabs_R0; lra|]. split.
  { destruct Demo.event_fine as (L1 & L2 & L3 & _ & HS & HD & HFi). split; [exact L1|split; [exact L2|split; [exact L3|split; [reflexivity|split; [exact HS|split; [exact HD|exact HFi]]]]]]. }
  split; [exact Demo.branches_fine|]. split; [exact Demo.vertex_selected|]. split; [split; [reflexivity|]; exists 1%Z, 2%Z; split; [reflexivity|constructor]|].
  split; [exists 0%Z; reflexivity|].
  destruct (in_plane_ok 1 0 1 ltac:(lia) ltac:(lia) ltac:(lia) ltac:(lia)) as (_ & _ & K0 & R0 & E0). destruct (in_plane_ok 5 12 13 ltac:(lia) ltac:(lia) ltac:(lia) ltac:(lia)) as (_ & _ & K1 & R1' & E1). destruct (in_plane_ok 4 3 5 ltac:(lia) ltac:(lia) ltac:(lia) ltac:(lia)) as (_ & _ & K2 & R2 & E2).
  assert (L2 : / 2 <= ln 2 <= 1). { split; [pose proof (ln_le_sub (/ 2) ltac:(lra)) as H; rewrite ln_Rinv in H by lra; lra | pose proof (ln_le_sub 2 ltac:(lra)); lra]. }
  assert (L5 : ln 5 <= 4) by (pose proof (ln_le_sub 5 ltac:(lra)); lra).
  assert (L54 : / 5 <= ln 5 - 2 * ln 2). { pose proof (ln_le_sub (4 / 5) ltac:(lra)) as H. rewrite ln_ratio in H by lra. replace 4 with (2 * 2) in H at 1 by ring. rewrite ln_mult in H by lra. lra. }
  assert (Q0 : pseudo_rap (spatial (in_plane 1 0)) = 0). { rewrite R0. replace ((1 + 0) / (1 - 0)) with 1 by field. rewrite ln_1. ring. }
  assert (Q1 : pseudo_rap (spatial (in_plane 5 12)) = ln 5). { rewrite R1'. replace ((13 + 12) / (13 - 12)) with (5 * 5) by field. rewrite ln_mult by lra. field. }
  assert (Q2 : pseudo_rap (spatial (in_plane 4 3)) = ln 2). { rewrite R2. replace ((5 + 3) / (5 - 3)) with (2 * 2) by field. rewrite ln_mult by lra. field. }
  specialize (E0 ltac:(rewrite Q0, Rabs_R0; lra)). specialize (E1 ltac:(rewrite Q1, Rabs_pos_eq; lra)). specialize (E2 ltac:(rewrite Q2, Rabs_pos_eq; lra)).
  pose proof (plane_parts 1 0 1 4 3 5 ltac:(lia) ltac:(lia) ltac:(lia) ltac:(lia) ltac:(lia) ltac:(lia) ltac:(lia) ltac:(lia)) as T0. pose proof (plane_parts 5 12 13 4 3 5 ltac:(lia) ltac:(lia) ltac:(lia) ltac:(lia) ltac:(lia) ltac:(lia) ltac:(lia) ltac:(lia)) as T1.
  rewrite Q0, Q2 in T0. rewrite Q1, Q2 in T1. replace (Rabs (0 - ln 2)) with (ln 2) in T0 by (rewrite Rabs_left; lra). rewrite Rabs_pos_eq in T1 by lra.
  assert (P499 : 1 <= 2 ^ 499) by (apply pow_R1_Rle; lra). assert (I499 : / 2 ^ 499 <= 1) by (rewrite <- Rinv_1; apply Rinv_le_contravar; lra). pose proof u_b as [U0 U1].
  exists (in_plane 1 0), (in_plane 4 3), 1, (ln 2). do 2 (split; [reflexivity|]). split; [exact K2|]. split; [exact K0|]. split; [exact T0|]. split; [lra|].
  intros k' p' (a & I) NE Hp'. assert (k' = 1%nat) as ->. { do 5 (destruct k' as [|k']; [cbn in I; try discriminate; congruence|]). destruct k'; discriminate. }
  cbn in Hp'. injection Hp' as <-. split; [exact K1|]. exists 1, (ln 5 - ln 2). split; [exact T1|]. split; [lra|].
  unfold smear. change (val fzero) with 0. rewrite Rabs_R0. assert (M0 : u * ln 2 <= u * 1) by (apply Rmult_le_compat_l; lra). assert (M1 : u * (ln 5 - ln 2) <= u * 4) by (apply Rmult_le_compat_l; lra). lra.
Qed.
