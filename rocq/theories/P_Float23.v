(** Accuracy of centroid_prune in IEEE doubles (C228). *)
From Coq Require Import ZArith Reals Ratan List Bool Lia Lra.
From Flocq Require Import Core BinarySingleNaN.
From Verif Require Import Prelude Keys SpecReal SpecIEEE SpecDist RealBase Kinem KinemProofs DeltaR DeltaRProofs Coords P_Coords Floats FloatBase FloatOps Floats3 Floats7 P_Float P_Float6 P_Float7 P_Float9 P_Float16 P_Float19 P_Float22.
From Verif Require Import Floats11.
Import ListNotations.
Open Scope R_scope.

(** * Vocabulary *)
(** [d] is the distance of the momentum [p] from the point (e, f) of the pseudorapidity-azimuth plane. *)
Definition distance_to (p : mom) (e f d : R) : Prop :=
  exists g, -PI < g <= PI /\ (forall a, azimuth_of (px p) (py p) a -> same_angle g (a - f)) /\
    d = sqrt ((pseudo_rap p - e) * (pseudo_rap p - e) + g * g).
(** The momentum a particle's doubles stand for. *)
Definition stands_for (p : fmom) : mom := exactly (mx p) (my p) (mz p).
(** Error allowed to the computed distance [d] of [p]. *)
Definition prune_error (k : R) (p : mom) (d : R) : R := ((2 * k + 2) * d + (4 * k + 4)) * u + 101 / 100 * eta_error k p.
(** Neither too close to the beam nor out of range: pseudorapidity well defined in doubles. *)
Definition prunable (k : R) (p : fmom) : Prop :=
  measured (mx p) (my p) (mz p) /\ (3 * k + 2) * u * collimation (stands_for p) <= / 8.

(** * The distance from a perturbed direction *)
Lemma final_bound_gen : forall k h0 h1 d g F D H E, 0 <= k <= 1000 -> 0 <= g -> Rabs d <= h0 -> g <= h0 -> Rabs (D - d) <= u * Rabs d -> 0 <= E <= / 1000000000 ->
  Rabs (F - g) <= E + k * u * (g + E + min_normal) -> Rabs (h1 - h0) <= Rabs (D - d) + Rabs (F - g) -> 0 <= h1 ->
  Rabs (H - h1) <= k * u * (h1 + min_normal) -> Rabs (H - h0) <= (2 * k + 2) * h0 * u + E + / 2 * u.
Proof.
  intros k h0 h1 d g F D H E K G D0 G0 HD HE HF H1 P1 HH. pose proof u_b as [U0 U1]. pose proof mn_pos as MN. destruct mn_tiny as [_ MU].
  assert (H0 : 0 <= h0) by (pose proof (Rabs_pos d); lra).
  replace (H - h0) with ((H - h1) + (h1 - h0)) by ring. eapply Rle_trans; [apply Rabs_triang|].
  assert (K1 : k * u <= 1000 * u) by (apply Rmult_le_compat_r; lra).
  set (ku := k * u) in *. assert (KU : 0 <= ku <= / 1000000000000) by (unfold ku; split; [apply Rmult_le_pos; lra | nra]).
  assert (KK : k * ku <= / 100000000) by nra. assert (K0 : 0 <= k * ku) by (apply Rmult_le_pos; lra).
  assert (A1 : Rabs (D - d) <= u * h0) by (eapply Rle_trans; [exact HD | apply Rmult_le_compat_l; lra]).
  assert (KE : 0 <= ku * E <= / 100000 * u).
  { split; [apply Rmult_le_pos; lra|]. apply Rle_trans with (1000 * u * (/ 1000000000)); [apply Rmult_le_compat; lra | lra]. }
  assert (KM : 0 <= ku * min_normal <= / 100000 * u) by (split; [apply Rmult_le_pos; lra | apply Rle_trans with (ku * u); [apply Rmult_le_compat_l; lra | apply Rmult_le_compat_r; lra]]).
  assert (KG : ku * g <= ku * h0) by (apply Rmult_le_compat_l; lra).
  assert (A2 : Rabs (F - g) <= E + ku * h0 + / 10000 * u). { eapply Rle_trans; [exact HF|]. replace (ku * (g + E + min_normal)) with (ku * g + ku * E + ku * min_normal) by ring. lra. }
  assert (A3 : h1 <= h0 + (u * h0 + E + ku * h0 + / 10000 * u)) by (apply Rabs_le_inv in H1; lra).
  assert (A4 : ku * (h1 + min_normal) <= ku * (h0 + (u * h0 + E + ku * h0 + / 10000 * u) + min_normal)) by (apply Rmult_le_compat_l; lra).
  assert (UH : 0 <= u * h0) by (apply Rmult_le_pos; lra).
  assert (B1 : ku * (u * h0) <= / 1000 * (u * h0)) by (apply Rmult_le_compat_r; lra).
  assert (B2 : ku * (ku * h0) <= / 1000 * (u * h0)).
  { replace (ku * (ku * h0)) with (k * ku * (u * h0)) by (unfold ku; ring). apply Rmult_le_compat_r; lra. }
  assert (B3 : ku * h0 = k * (u * h0)) by (unfold ku; ring).
  replace ((2 * k + 2) * h0 * u) with (2 * (k * (u * h0)) + 2 * (u * h0)) by ring.
  replace (ku * (h0 + (u * h0 + E + ku * h0 + / 10000 * u) + min_normal)) with (ku * h0 + ku * (u * h0) + ku * E + ku * (ku * h0) + / 10000 * (ku * u) + ku * min_normal) in A4 by ring.
  assert (B4 : ku * u <= u) by nra. lra.
Qed.

(** Any [z] near the exact product (X, Y), in norm, gives the angle. *)
Lemma from_direction : forall hypot atan2 k, 0 <= k <= 1000 -> good_hypot k hypot -> good_atan2 k atan2 ->
  forall r1 r2 (z : fcomplex) X Y g eps, fin r1 -> fin r2 -> Rabs (val r1) <= 2 ^ 1000 -> Rabs (val r2) <= 2 ^ 1000 -> fin (fst z) -> fin (snd z) ->
  0 < X * X + Y * Y -> azimuth_of X Y g -> 0 <= eps <= / 10000000000 -> (re z - X) * (re z - X) + (im z - Y) * (im z - Y) <= eps * eps * (X * X + Y * Y) ->
  let exact := sqrt ((val r1 - val r2) * (val r1 - val r2) + g * g) in let H := hypot (fsub r1 r2) (atan2 (snd z) (fst z)) in
  fin H /\ Rabs (val H - exact) <= (2 * k + 2) * exact * u + 101 / 100 * eps + / 2 * u.
Proof.
  intros hypot atan2 k K GH GA r1 r2 z X Y g eps F1 F2 B1 B2 FR FI NP AG EB Hd exact H.
  pose proof u_b as [U0 U1]. pose proof mn_pos as MN. destruct mn_tiny as [_ MU]. pose proof pow1000 as P1. assert (P0 : 1 <= 2 ^ 1000) by (apply pow_R1_Rle; lra).
  assert (OS : Rabs (nearest (val r1 - val r2)) < bpow radix2 1024).
  { apply no_overflow. unfold Rminus. eapply Rle_trans; [apply Rabs_triang|]. rewrite Rabs_Ropp. lra. }
  destruct (fsub_ok _ _ F1 F2 OS) as (VD & FD & _). destruct (sub_rel r1 r2) as (e & He & ED).
  destruct (angle_perturb X Y (re z) (im z) g (RealBase.atan2 (im z) (re z)) eps NP ltac:(lra) Hd AG (atan2_spec _ _)) as (Nz & HA).
  set (bz := RealBase.atan2 (im z) (re z)) in *.
  assert (HA3 : Rabs (Rabs bz - Rabs g) <= 101 / 100 * eps).
  { eapply Rle_trans; [exact HA|]. apply Rmult_le_reg_r with (1 - eps); [lra|]. unfold Rdiv at 1. rewrite Rmult_assoc, Rinv_l by lra. nra. }
  destruct (GA (snd z) (fst z) FI FR) as (FP & HP).
  { unfold re, im in Nz. destruct (Req_dec (val (snd z)) 0) as [E|E]; [right; intros E'; rewrite E, E' in Nz; lra | left; exact E]. }
  specialize (HP bz (atan2_spec _ _)). unfold P_Float9.close in HP. rewrite Rabs_Rabsolu in HP.
  set (ph := atan2 (snd z) (fst z)) in *. set (E := 101 / 100 * eps) in *.
  assert (HE : 0 <= E <= / 1000000000) by (unfold E; lra).
  assert (HF : Rabs (Rabs (val ph) - Rabs g) <= E + k * u * (Rabs g + E + min_normal)).
  { replace (Rabs (val ph) - Rabs g) with ((Rabs (val ph) - Rabs bz) + (Rabs bz - Rabs g)) by ring. eapply Rle_trans; [apply Rabs_triang|].
    assert (k * u * (Rabs bz + min_normal) <= k * u * (Rabs g + E + min_normal)); [|lra].
    apply Rmult_le_compat_l; [apply Rmult_le_pos; lra|]. apply Rabs_le_inv in HA3. lra. }
  assert (SA : forall x, Rabs x * Rabs x = x * x) by (intros x; rewrite <- Rabs_mult; apply Rabs_pos_eq; nra).
  set (d := val r1 - val r2) in *. set (D := val (fsub r1 r2)) in *.
  assert (HD : Rabs (D - d) <= u * Rabs d).
  { rewrite VD, ED. replace (d * (1 + e) - d) with (e * d) by ring. rewrite Rabs_mult. apply Rmult_le_compat_r; [apply Rabs_pos | exact He]. }
  assert (Bd : Rabs d <= 2 * 2 ^ 1000).
  { unfold d, Rminus. eapply Rle_trans; [apply Rabs_triang|]. rewrite Rabs_Ropp. lra. }
  assert (Bg : Rabs g <= 4). { destruct AG as (G & _). pose proof PI_4. apply Rabs_le. lra. }
  pose proof (hypot_lip D (Rabs (val ph)) d (Rabs g)) as HL. rewrite !SA in HL. fold exact in HL.
  set (h1 := sqrt (D * D + val ph * val ph)) in *.
  assert (E1 : Rabs d <= exact).
  { unfold exact. rewrite <- (sqrt_square (Rabs d)) by apply Rabs_pos. apply sqrt_le_1_alt. rewrite SA. nra. }
  assert (E2 : Rabs g <= exact).
  { unfold exact. rewrite <- (sqrt_square (Rabs g)) by apply Rabs_pos. apply sqrt_le_1_alt. rewrite SA. nra. }
  assert (E3 : exact <= Rabs d + Rabs g).
  { unfold exact. rewrite <- (SA d), <- (SA g). pose proof (Rabs_pos d). pose proof (Rabs_pos g). rewrite <- (sqrt_square (Rabs d + Rabs g)) by lra. apply sqrt_le_1_alt. nra. }
  assert (Hh : h1 <= 2 ^ 1020).
  { replace 1020%nat with (1000 + 20)%nat by reflexivity. rewrite pow_add. assert (1000 <= 2 ^ 20) by (simpl; lra).
    assert (K1 : k * u <= 1000 * u) by (apply Rmult_le_compat_r; lra).
    assert (KU : k * u * (Rabs g + E + min_normal) <= 1).
    { apply Rle_trans with (/ 1000 * (4 + 1 + 1)); [|lra]. apply Rmult_le_compat; [apply Rmult_le_pos; lra | pose proof (Rabs_pos g); lra | lra | lra]. }
    assert (u * Rabs d <= Rabs d) by (pose proof (Rabs_pos d); nra). apply Rabs_le_inv in HL.
    assert (1000 * 2 ^ 1000 <= 2 ^ 1000 * 2 ^ 20) by (rewrite (Rmult_comm 1000); apply Rmult_le_compat_l; lra). lra. }
  destruct (GH (fsub r1 r2) ph FD FP Hh) as (FH & HH). split; [exact FH|]. unfold P_Float9.close in HH. fold D in HH. fold h1 in HH. rewrite (Rabs_pos_eq h1) in HH by apply sqrt_pos.
  apply (final_bound_gen k exact h1 d (Rabs g) (Rabs (val ph)) D); try assumption; try apply Rabs_pos. apply sqrt_pos.
Qed.

(** * The product, with or without fusing *)
Lemma two_terms' : forall v a b A B N, Rabs (v - (a + b)) <= u * Rabs (a + b) + u * min_normal -> Rabs (a - A) <= u * Rabs A + u * min_normal -> Rabs (b - B) <= u * Rabs B + u * min_normal ->
  Rabs A + Rabs B <= N -> 1000000 * min_normal <= N -> Rabs (v - (A + B)) <= 201 / 100 * u * N.
Proof.
  intros v a b A B N Hv Ha Hb HN HM. pose proof u_b as [U0 U1]. pose proof mn_pos as MN.
  set (d := (a - A) + (b - B)). replace (v - (A + B)) with ((v - (a + b)) + d) by (unfold d; ring).
  assert (HD : Rabs d <= u * N + 2 * (u * min_normal)).
  { unfold d. eapply Rle_trans; [apply Rabs_triang|]. assert (u * (Rabs A + Rabs B) <= u * N) by (apply Rmult_le_compat_l; lra). lra. }
  assert (AB : Rabs (A + B) <= N) by (eapply Rle_trans; [apply Rabs_triang | lra]).
  assert (AB' : Rabs (a + b) <= N + (u * N + 2 * (u * min_normal))). { replace (a + b) with ((A + B) + d) by (unfold d; ring). eapply Rle_trans; [apply Rabs_triang|]. lra. }
  eapply Rle_trans; [apply Rabs_triang|].
  assert (UM : 1000000 * (u * min_normal) <= u * N) by (replace (1000000 * (u * min_normal)) with (u * (1000000 * min_normal)) by ring; apply Rmult_le_compat_l; lra).
  assert (HV : u * Rabs (a + b) <= u * (N + (u * N + 2 * (u * min_normal)))) by (apply Rmult_le_compat_l; lra).
  rewrite Rmult_plus_distr_l in HV. set (w := u * N) in *. set (v' := u * min_normal) in *. assert (V0 : 0 <= v') by (apply Rmult_le_pos; lra).
  assert (u * (w + 2 * v') <= / 1000 * (w + 2 * v')) by (apply Rmult_le_compat_r; lra).
  replace (201 / 100 * u * N) with (201 / 100 * w) by (unfold w; ring). lra.
Qed.
Lemma exact_term x : Rabs (x - x) <= u * Rabs x + u * min_normal.
Proof. pose proof u_b as [U0 U1]. pose proof mn_pos as MN. replace (x - x) with 0 by ring. rewrite Rabs_R0. pose proof (Rabs_pos x). assert (0 <= u * Rabs x) by (apply Rmult_le_pos; lra). assert (0 <= u * min_normal) by (apply Rmult_le_pos; lra). lra. Qed.

Lemma times_ok : forall a b c d w N, modest a -> modest b -> modest c -> modest d -> f_times (a, b) (c, d) w -> 1000000 * min_normal <= N ->
  (Rabs (val a * val c) + Rabs (val b * val d) <= N -> fin (fst w) /\ Rabs (re w - (val a * val c - val b * val d)) <= 201 / 100 * u * N) /\
  (Rabs (val a * val d) + Rabs (val b * val c) <= N -> fin (snd w) /\ Rabs (im w - (val a * val d + val b * val c)) <= 201 / 100 * u * N).
Proof.
  intros a b c d w N Ma Mb Mc Md (Wr & Wi) HM. unfold re, im. pose proof pow1000 as P1. assert (P0 : 0 < 2 ^ 1000) by (apply pow_lt; lra).
  assert (OV : forall t s, Rabs t <= 2 ^ 1000 -> Rabs s <= 2 ^ 1000 -> Rabs (nearest (t + s)) < bpow radix2 1024).
  { intros t s T S. apply no_overflow. eapply Rle_trans; [apply Rabs_triang|]. lra. }
  assert (FMA : forall x y s, modest x -> modest y -> fin s -> Rabs (val s) <= 2 ^ 1000 -> fin (ffma x y s) /\ val (ffma x y s) = nearest (val x * val y + val s)).
  { intros x y s Mx My Fs Bs. destruct (ffma_ok x y s (proj1 Mx) (proj1 My) Fs) as (V & F); [apply OV; [apply modest_prod; assumption | exact Bs]|]. split; assumption. }
  destruct (prod_fl a c Ma Mc) as (Fac & Vac & Bac). destruct (prod_fl b d Mb Md) as (Fbd & Vbd & Bbd). destruct (prod_fl a d Ma Md) as (Fad & Vad & Bad). destruct (prod_fl b c Mb Mc) as (Fbc & Vbc & Bbc).
  pose proof (prod_err a c Ma Mc) as Eac. pose proof (prod_err b d Mb Md) as Ebd. pose proof (prod_err a d Ma Md) as Ead. pose proof (prod_err b c Mb Mc) as Ebc.
  assert (NEG : forall x X, Rabs (x - X) <= u * Rabs X + u * min_normal -> Rabs (- x - - X) <= u * Rabs (- X) + u * min_normal).
  { intros x X H. replace (- x - - X) with (- (x - X)) by ring. rewrite !Rabs_Ropp. exact H. }
  assert (Bbd' : Rabs (- val (fmul b d)) <= 2 ^ 1000) by (rewrite Rabs_Ropp; exact Bbd).
  split; intros HN.
  - replace (val a * val c - val b * val d) with (val a * val c + - (val b * val d)) by ring.
    assert (HN' : Rabs (val a * val c) + Rabs (- (val b * val d)) <= N) by (rewrite Rabs_Ropp; exact HN).
    destruct Wr as [-> | [-> | ->]].
    + pose proof (OV _ _ Bac Bbd') as O. destruct (fsub_ok _ _ Fac Fbd O) as (V & F & _). split; [exact F|]. rewrite V. eapply two_terms'; [apply nearest_err_any | exact Eac | exact (NEG _ _ Ebd) | exact HN' | exact HM].
    + destruct (FMA a c (fneg (fmul b d)) Ma Mc (proj2 (fneg_fin _) Fbd)) as (F & V); [rewrite fneg_ok; exact Bbd'|]. split; [exact F|]. rewrite V, fneg_ok. eapply two_terms'; [apply nearest_err_any | apply exact_term | exact (NEG _ _ Ebd) | exact HN' | exact HM].
    + destruct (FMA (fneg b) d (fmul a c) (modest_neg _ Mb) Md Fac Bac) as (F & V). split; [exact F|]. rewrite V, fneg_ok, (Rplus_comm (- val b * val d)), Ropp_mult_distr_l_reverse. eapply two_terms'; [apply nearest_err_any | exact Eac | apply exact_term | exact HN' | exact HM].
  - destruct Wi as [-> | [-> | ->]].
    + destruct (fadd_ok _ _ Fad Fbc (OV _ _ Bad Bbc)) as (V & F). split; [exact F|]. rewrite V. eapply two_terms'; [apply nearest_err_any | exact Ead | exact Ebc | exact HN | exact HM].
    + destruct (FMA a d (fmul b c) Ma Md Fbc Bbc) as (F & V). split; [exact F|]. rewrite V. eapply two_terms'; [apply nearest_err_any | apply exact_term | exact Ebc | exact HN | exact HM].
    + destruct (FMA b c (fmul a d) Mb Mc Fad Bad) as (F & V). split; [exact F|]. rewrite V, (Rplus_comm (val b * val c)). eapply two_terms'; [apply nearest_err_any | exact Ead | apply exact_term | exact HN | exact HM].
Qed.

(** The product with the conjugate of the computed phase, against the exact rotation. *)
Lemma turned : forall k cexp phi x y w, 0 <= k <= 1000 -> good_cexp k cexp -> fin phi -> usable (x, y) -> f_times (x, y) (conj (cexp (fzero, phi))) w ->
  let X := val x * cos (val phi) + val y * sin (val phi) in let Y := val y * cos (val phi) - val x * sin (val phi) in
  fin (fst w) /\ fin (snd w) /\ 0 < X * X + Y * Y /\ X * X + Y * Y = val x * val x + val y * val y /\
  (re w - X) * (re w - X) + (im w - Y) * (im w - Y) <= ((3 * k + 3) * u) * ((3 * k + 3) * u) * (X * X + Y * Y).
Proof.
  intros k cexp phi x y w K GC Fp (Mx & My & LN) W X Y. cbn [fst snd] in *. unfold re, im in LN. cbn [fst snd] in LN.
  pose proof u_b as [U0 U1]. pose proof mn_pos as MN. destruct mn_tiny as [T1 MU].
  destruct (GC fzero phi (proj1 zero_ok) Fp (proj2 zero_ok)) as (Fc & Fs & Ec & Es). destruct (cexp (fzero, phi)) as (c & s). cbn [fst snd] in *. unfold conj in W. cbn [fst snd] in W.
  set (C := cos (val phi)) in *. set (S := sin (val phi)) in *. assert (SC : C * C + S * S = 1) by (unfold C, S; pose proof (sin2_cos2 (val phi)) as Q; unfold Rsqr in Q; lra).
  assert (C1 : Rabs C <= 1) by (apply Rabs_le, COS_bound). assert (S1 : Rabs S <= 1) by (apply Rabs_le, SIN_bound).
  assert (KU : 0 <= k * u <= / 1000). { split; [apply Rmult_le_pos; lra|]. apply Rle_trans with (1000 * u); [apply Rmult_le_compat_r; lra | lra]. }
  assert (PB : 2 <= 2 ^ 500) by (rewrite <- (pow_1 2) at 1; apply Rle_pow; [lra | lia]).
  assert (Bc : Rabs (val c) <= 1 + / 1000). { replace (val c) with ((val c - C) + C) by ring. eapply Rle_trans; [apply Rabs_triang|]. lra. }
  assert (Bs : Rabs (val s) <= 1 + / 1000). { replace (val s) with ((val s - S) + S) by ring. eapply Rle_trans; [apply Rabs_triang|]. lra. }
  assert (Mc : modest c) by (split; [exact Fc | lra]). assert (Ms : modest (fneg s)) by (apply modest_neg; split; [exact Fs | lra]).
  set (n2 := val x * val x + val y * val y) in *. set (n := sqrt n2) in *. assert (I0 : 0 < / 2 ^ 500) by (apply Rinv_0_lt_compat, pow_lt; lra).
  assert (N2 : n * n = n2) by (apply sqrt_sqrt; unfold n2; nra). assert (N0 : 0 < n) by lra.
  assert (XY : X * X + Y * Y = n2). { unfold X, Y, n2. transitivity ((val x * val x + val y * val y) * (C * C + S * S)); [ring | rewrite SC; ring]. }
  assert (SA : forall t, Rabs t * Rabs t = t * t) by (intros t; rewrite <- Rabs_mult; apply Rabs_pos_eq; nra).
  assert (H1 : Rabs (val x) + Rabs (val y) <= 142 / 100 * n).
  { apply Rsqr_incr_0_var; [|lra]. unfold Rsqr. replace (142 / 100 * n * (142 / 100 * n)) with (20164 / 10000 * (n * n)) by field. rewrite N2. unfold n2. pose proof (SA (val x)). pose proof (SA (val y)).
    pose proof (Rle_0_sqr (Rabs (val x) - Rabs (val y))) as Q. unfold Rsqr in Q. pose proof (Rle_0_sqr (val x)) as Q1. pose proof (Rle_0_sqr (val y)) as Q2. unfold Rsqr in Q1, Q2. lra. }
  assert (Q : sqrt (val c * val c + val s * val s) <= 101 / 100).
  { pose proof (hypot_lip (val c) (val s) C S) as HL. rewrite SC, sqrt_1 in HL. apply Rabs_le_inv in HL. lra. }
  set (N := 101 / 100 * n).
  assert (NM : 1000000 * min_normal <= N). { assert (/ 2 ^ 1000 <= / 2 ^ 500) by (apply Rinv_le_contravar; [apply pow_lt; lra | apply Rle_pow; [lra | lia]]). unfold N. lra. }
  assert (CA : forall a b, sqrt (a * a + b * b) <= 101 / 100 -> Rabs (val x * a) + Rabs (val y * b) <= N).
  { intros a b B. eapply Rle_trans; [apply cauchy|]. fold n2. fold n. unfold N. rewrite Rmult_comm. apply Rmult_le_compat_r; lra. }
  destruct (times_ok x y c (fneg s) w N Mx My Mc Ms W NM) as (TR & TI). rewrite fneg_ok in TR, TI.
  destruct TR as (FR & ER). { apply CA. replace (- val s * - val s) with (val s * val s) by ring. exact Q. }
  destruct TI as (FI & EI). { apply CA. replace (- val s * - val s + val c * val c) with (val c * val c + val s * val s) by ring. exact Q. }
  split; [exact FR|]. split; [exact FI|]. split; [rewrite XY, <- N2; apply Rmult_lt_0_compat; exact N0|]. split; [exact XY|].
  assert (L : forall v a b A B, Rabs (v - (val x * a + val y * b)) <= 201 / 100 * u * N -> Rabs (a - A) <= k * u -> Rabs (b - B) <= k * u ->
    Rabs (v - (val x * A + val y * B)) <= (3 / 2 * k + 21 / 10) * u * n).
  { intros v a b A B HV HA HB. replace (v - (val x * A + val y * B)) with ((v - (val x * a + val y * b)) + (val x * (a - A) + val y * (b - B))) by ring.
    eapply Rle_trans; [apply Rabs_triang|]. assert (Rabs (val x * (a - A) + val y * (b - B)) <= (Rabs (val x) + Rabs (val y)) * (k * u)).
    { eapply Rle_trans; [apply Rabs_triang|]. rewrite !Rabs_mult, Rmult_plus_distr_r. apply Rplus_le_compat; apply Rmult_le_compat_l; auto using Rabs_pos. }
    assert ((Rabs (val x) + Rabs (val y)) * (k * u) <= 142 / 100 * n * (k * u)) by (apply Rmult_le_compat_r; lra).
    unfold N in HV. assert (0 <= u * n) by (apply Rmult_le_pos; lra). assert (0 <= k * (u * n)) by (apply Rmult_le_pos; lra).
    replace (142 / 100 * n * (k * u)) with (142 / 100 * (k * (u * n))) in * by field. replace (201 / 100 * u * (101 / 100 * n)) with (201 / 100 * (101 / 100) * (u * n)) in HV by field.
    replace ((3 / 2 * k + 21 / 10) * u * n) with (3 / 2 * (k * (u * n)) + 21 / 10 * (u * n)) by field. lra. }
  assert (ER' : Rabs (re w - X) <= (3 / 2 * k + 21 / 10) * u * n).
  { apply (L _ (val c) (val s)); [|exact Ec | exact Es]. replace (val x * val c + val y * val s) with (val x * val c - val y * - val s) by ring. exact ER. }
  assert (EI' : Rabs (im w - Y) <= (3 / 2 * k + 21 / 10) * u * n).
  { unfold Y. replace (val y * C - val x * S) with (val x * - S + val y * C) by ring. apply (L _ (- val s) (val c)); [exact EI | | exact Ec].
    replace (- val s - - S) with (- (val s - S)) by ring. rewrite Rabs_Ropp. exact Es. }
  rewrite XY, <- N2. set (t := u * n) in *. replace ((3 / 2 * k + 21 / 10) * u * n) with ((3 / 2 * k + 21 / 10) * t) in ER', EI' by (unfold t; ring).
  replace ((3 * k + 3) * u * ((3 * k + 3) * u) * (n * n)) with ((9 * (k * k) + 18 * k + 9) * (t * t)) by (unfold t; ring).
  assert (SQ : forall v B, Rabs v <= B -> v * v <= B * B) by (intros v B H; rewrite <- SA; apply Rmult_le_compat; auto using Rabs_pos).
  apply SQ in ER', EI'. replace ((3 / 2 * k + 21 / 10) * t * ((3 / 2 * k + 21 / 10) * t)) with ((9 / 4 * (k * k) + 63 / 10 * k + 441 / 100) * (t * t)) in ER', EI' by field.
  assert (KK : 0 <= k * k) by nra. apply Rle_trans with (2 * ((9 / 4 * (k * k) + 63 / 10 * k + 441 / 100) * (t * t))); [lra|].
  rewrite <- Rmult_assoc. apply Rmult_le_compat_r; [nra | lra].
Qed.

(** * C228 *)
Lemma eta_small : forall k x y z, 1 <= k -> measured x y z -> (3 * k + 2) * u * collimation (exactly x y z) <= / 8 ->
  Rabs (pseudo_rap (exactly x y z)) <= 2 ^ 53 /\ 0 <= eta_error k (exactly x y z).
Proof.
  intros k x y z K MM CC. pose proof u_b as [U0 U1]. pose proof mn_pos as MN. destruct (measured_pt x y z MM) as [PT PL]. pose proof (eta_size _ PT) as S.
  assert (UB : / u <= 2 ^ 53) by (unfold u; rewrite Rinv_inv; lra). unfold eta_error. set (o := exactly x y z) in *. set (A := collimation o) in *.
  assert (A0 : 1 <= A). { unfold A, collimation. apply Rmult_le_reg_r with (pt_sq o); [exact PT|]. unfold Rdiv. rewrite Rmult_assoc, Rinv_l by lra. lra. }
  assert (AB : 2 * A <= / u). { apply Rmult_le_reg_r with u; [lra|]. rewrite Rinv_l by lra. assert (5 * u * A <= (3 * k + 2) * u * A) by (apply Rmult_le_compat_r; [lra|]; apply Rmult_le_compat_r; lra). lra. }
  split; [lra|]. assert (0 <= Rabs (pz o) / sqrt (p_sq o)). { apply Rmult_le_pos; [apply Rabs_pos|]. left. apply Rinv_0_lt_compat, sqrt_lt_R0. lra. }
  assert (0 <= u * min_normal) by (apply Rmult_le_pos; lra). pose proof (Rabs_pos (pseudo_rap o)).
  apply Rplus_le_le_0_compat; apply Rmult_le_pos; try (apply Rmult_le_pos; lra); lra.
Qed.

(** The distance centroid_prune computes, for a particle and a given centre, is the exact distance up to [prune_error]. *)
Theorem C228_distance : forall hypot atan2 atanh cexp k, 1 <= k <= 1000 -> good_hypot k hypot -> good_atan2 k atan2 -> good_atanh k atanh -> good_cexp k cexp ->
  forall p eta_mid phi_mid d dist, prunable k p -> fin eta_mid -> Rabs (val eta_mid) <= 2 ^ 1000 -> fin phi_mid ->
  distance_to (stands_for p) (val eta_mid) (val phi_mid) d -> f_prune_dist hypot atan2 atanh cexp eta_mid phi_mid p dist ->
  fin dist /\ Rabs (val dist - d) <= prune_error k (stands_for p) d.
Proof.
  intros hypot atan2 atanh cexp k K GH GA GT GC p em pm d dist (M & C) Fe Be Fp (g & G & HG & Ed) (w & W & ->).
  destruct p as [[[x y] z] t]. unfold stands_for, mx, my, mz, me in *. cbn [fst snd] in *.
  pose proof u_b as [U0 U1]. pose proof mn_pos as MN. destruct mn_tiny as [_ MU].
  destruct (C215_accuracy hypot atanh k K GH GT x y z M C) as (F1 & A1). destruct (eta_small k x y z (proj1 K) M C) as (S1 & B0).
  destruct (turned k cexp pm x y w ltac:(lra) GC Fp (proj1 M) W) as (FR & FI & NP & XY & HE).
  set (p := exactly x y z) in *. set (r := f_eta hypot atanh x y z) in *. set (X := val x * cos (val pm) + val y * sin (val pm)) in *. set (Y := val y * cos (val pm) - val x * sin (val pm)) in *.
  assert (AG : azimuth_of X Y g).
  { pose proof (atan2_spec (val y) (val x)) as A. destruct (HG _ A) as (n & En). destruct A as (_ & C1 & C2). set (a := RealBase.atan2 (val y) (val x)) in *.
    pose proof (trig_period (a - val pm) n) as (T1 & T2). rewrite <- En in T1, T2. split; [exact G|]. rewrite XY, T1, T2, cos_minus, sin_minus.
    unfold X, Y. set (nn := sqrt (val x * val x + val y * val y)) in *. clearbody nn. split; rewrite C1, C2; ring. }
  assert (SM : eta_error k p <= 2 ^ 54).
  { unfold eta_error. destruct (measured_pt x y z M) as [PT PL]. fold p in PT, PL. destruct (sin_sq p PT) as (T & _ & _). assert (AT : Rabs (pz p) / sqrt (p_sq p) <= 1).
    { replace (Rabs (pz p) / sqrt (p_sq p)) with (Rabs (pz p / sqrt (p_sq p))); [apply Rabs_le; lra|]. unfold Rdiv. rewrite Rabs_mult, Rabs_inv, (Rabs_pos_eq (sqrt (p_sq p))) by apply sqrt_pos. reflexivity. }
    assert (A0 : 0 < collimation p). { unfold collimation. apply Rdiv_lt_0_compat; lra. }
    assert (P53 : 1 <= 2 ^ 53) by (apply pow_R1_Rle; lra). replace (2 ^ 54) with (2 * 2 ^ 53) by (replace 54%nat with (S 53) by reflexivity; cbn [pow]; ring).
    assert (X1 : (3 * k + 2) * u * ((Rabs (pz p) / sqrt (p_sq p) + min_normal) * collimation p) <= / 8 * 2).
    { replace ((3 * k + 2) * u * ((Rabs (pz p) / sqrt (p_sq p) + min_normal) * collimation p)) with (((3 * k + 2) * u * collimation p) * (Rabs (pz p) / sqrt (p_sq p) + min_normal)) by ring.
      apply Rmult_le_compat; [apply Rmult_le_pos; [apply Rmult_le_pos|]; lra | | exact C | lra].
      apply Rplus_le_le_0_compat; [|lra]. apply Rmult_le_pos; [apply Rabs_pos|]. left. apply Rinv_0_lt_compat, sqrt_lt_R0. lra. }
    assert (KU : k * u <= / 1000). { apply Rle_trans with (1000 * u); [apply Rmult_le_compat_r; lra | lra]. }
    assert (X2 : k * u * (Rabs (pseudo_rap p) + min_normal) <= / 1000 * (2 ^ 53 + 1)).
    { apply Rmult_le_compat; [apply Rmult_le_pos; lra | pose proof (Rabs_pos (pseudo_rap p)); lra | exact KU | lra]. }
    lra. }
  set (b := eta_error k p) in *. set (e := pseudo_rap p) in *.
  assert (BIG : 4 * 2 ^ 53 <= 2 ^ 1000).
  { replace 1000%nat with (53 + 947)%nat by reflexivity. rewrite pow_add. assert (4 <= 2 ^ 947) by (apply Rle_trans with (2 ^ 2); [simpl; lra | apply Rle_pow; [lra | lia]]). rewrite Rmult_comm. apply Rmult_le_compat_l; [|assumption]. left. apply pow_lt. lra. }
  assert (Br : Rabs (val r) <= 2 ^ 1000).
  { replace (val r) with ((val r - e) + e) by ring. eapply Rle_trans; [apply Rabs_triang|]. replace (2 ^ 54) with (2 * 2 ^ 53) in SM by (replace 54%nat with (S 53) by reflexivity; cbn [pow]; ring). lra. }
  destruct (from_direction hypot atan2 k ltac:(lra) GH GA r em w X Y g ((3 * k + 3) * u) F1 Fe Br Be FR FI NP AG) as (F & A).
  { split; [apply Rmult_le_pos; lra|]. apply Rle_trans with (4000 * u); [apply Rmult_le_compat_r; lra | unfold u; simpl; lra]. }
  { exact HE. }
  split; [exact F|]. set (D := val (hypot (fsub r em) (atan2 (snd w) (fst w)))) in *. set (mid := sqrt ((val r - val em) * (val r - val em) + g * g)) in *.
  assert (L : Rabs (mid - d) <= b).
  { unfold mid. rewrite Ed. eapply Rle_trans; [apply hypot_lip|]. replace (g - g) with 0 by ring. rewrite Rabs_R0, Rplus_0_r. replace (val r - val em - (e - val em)) with (val r - e) by ring. exact A1. }
  unfold prune_error. fold b. replace (D - d) with ((D - mid) + (mid - d)) by ring. eapply Rle_trans; [apply Rabs_triang|]. apply Rabs_le_inv in L as L'.
  assert (KU : 0 <= k * u) by (apply Rmult_le_pos; lra).
  assert (K2 : (2 * k + 2) * u <= / 100). { apply Rle_trans with (2002 * u); [apply Rmult_le_compat_r; lra | unfold u; simpl; lra]. }
  assert (XX : (2 * k + 2) * u * mid <= (2 * k + 2) * u * d + / 100 * b).
  { apply Rle_trans with ((2 * k + 2) * u * (d + b)); [apply Rmult_le_compat_l; [apply Rmult_le_pos; lra | lra]|].
    rewrite Rmult_plus_distr_l. apply Rplus_le_compat_l. apply Rmult_le_compat_r; lra. }
  replace ((2 * k + 2) * mid * u) with ((2 * k + 2) * u * mid) in A by ring. replace (((2 * k + 2) * d + (4 * k + 4)) * u) with ((2 * k + 2) * u * d + 4 * (k * u) + 4 * u) by ring.
  replace ((3 * k + 3) * u) with (3 * (k * u) + 3 * u) in A by ring. lra.
Qed.

(** centroid_prune with a given centre, on doubles, is the exact selection but for near ties: whatever products are fused, it returns a mask of the
    event's length, False off the given mask, and on it True for every particle inside the radius by more than the error and False for every
    particle outside by more than the error. *)
Definition clearly (k : R) (p : fmom) (eta_mid phi_mid radius : f64) (inside : bool) : Prop :=
  exists d, distance_to (stands_for p) (val eta_mid) (val phi_mid) d /\
    (if inside then d + prune_error k (stands_for p) d < val radius else val radius <= d - prune_error k (stands_for p) d).
Theorem C228_prune : forall hypot atan2 atanh cexp k, 1 <= k <= 1000 -> good_hypot k hypot -> good_atan2 k atan2 -> good_atanh k atanh -> good_cexp k cexp ->
  forall pmu radius mask eta_mid phi_mid out, fin radius -> fin eta_mid -> Rabs (val eta_mid) <= 2 ^ 1000 -> fin phi_mid ->
  (forall m, mask = Some m -> length m = length pmu) ->
  f_centroid_prune hypot atan2 atanh cexp pmu radius mask eta_mid phi_mid out ->
  exists kept, out = Ok kept /\ length kept = length pmu /\ forall i p, nth_error pmu i = Some p ->
    (forall m, mask = Some m -> nth_error m i = Some false -> nth_error kept i = Some false) /\
    ((forall m, mask = Some m -> nth_error m i = Some true) -> prunable k p -> forall b, clearly k p eta_mid phi_mid radius b -> nth_error kept i = Some b).
Proof.
  intros hypot atan2 atanh cexp k K GH GA GT GC pmu radius mask em pm out Fr Fe Be Fp HM HO.
  assert (ONE : forall p b b', prunable k p -> (exists dist, f_prune_dist hypot atan2 atanh cexp em pm p dist /\ b' = flt dist radius) -> clearly k p em pm radius b -> b' = b).
  { intros p b b' HP (dist & HD & ->) (d & Hd & HB). destruct (C228_distance hypot atan2 atanh cexp k K GH GA GT GC p em pm d dist HP Fe Be Fp Hd HD) as (F & A). apply Rabs_le_inv in A.
    pose proof (flt_ok dist radius F Fr) as FL. destruct b.
    - apply FL. lra.
    - destruct (flt dist radius) eqn:E; [|reflexivity]. pose proof (proj1 FL eq_refl). lra. }
  unfold f_centroid_prune in HO. destruct mask as [m|].
  - specialize (HM m eq_refl). rewrite getkey_mask in HO by exact HM. destruct HO as (ws & HW & ->). eexists. split; [reflexivity|]. split; [rewrite scatter_length; exact HM|].
    revert pmu ws HM HW. induction m as [|b m IH]; intros [|q pmu] ws HM HW i p Hp; try discriminate HM; [destruct i; discriminate Hp|].
    injection HM as HM. cbn [compress] in HW. destruct b.
    + inversion HW as [|? c ? cs HC HR]; subst. destruct i as [|i].
      * injection Hp as ->. cbn [scatter nth_error]. split; [intros m' Em; injection Em as <-; discriminate|]. intros _ HP b' HB. f_equal. exact (ONE p b' c HP HC HB).
      * cbn [nth_error] in Hp. destruct (IH pmu cs HM HR i p Hp) as (I1 & I2). cbn [scatter nth_error]. split.
        -- intros m' Em. injection Em as <-. exact (I1 m eq_refl).
        -- intros HT. apply I2. intros m' Em. injection Em as <-. exact (HT _ eq_refl).
    + destruct i as [|i].
      * cbn [scatter nth_error]. split; [reflexivity|]. intros HT. specialize (HT _ eq_refl). discriminate HT.
      * cbn [nth_error] in Hp. destruct (IH pmu ws HM HW i p Hp) as (I1 & I2). cbn [scatter nth_error]. split.
        -- intros m' Em. injection Em as <-. exact (I1 m eq_refl).
        -- intros HT. apply I2. intros m' Em. injection Em as <-. exact (HT _ eq_refl).
  - destruct HO as (ws & HW & ->). eexists. split; [reflexivity|]. split; [symmetry; clear - HW; induction HW; cbn; congruence|].
    intros i p Hp. split; [discriminate|]. intros _ HP b HB. clear HM. revert i Hp. induction HW as [|q c l cs HC HR IH]; intros i Hp; [destruct i; discriminate Hp|].
    destruct i as [|i]; [injection Hp as ->; cbn [nth_error]; f_equal; exact (ONE p b c HP HC HB) | exact (IH i Hp)].
Qed.
Print Assumptions C228_distance.
Print Assumptions C228_prune.

(** * A concrete case: the momentum (1, 1, 1) is clearly inside radius 8 of the centre (0, 0), and clearly outside radius 1/2. *)
Lemma close_up : forall r e, P_Float9.close 1 r e -> P_Float9.close 2 r e.
Proof. intros r e H. unfold P_Float9.close in *. pose proof u_b as [U0 U1]. pose proof mn_pos as MN. eapply Rle_trans; [exact H|]. apply Rmult_le_compat_r; [pose proof (Rabs_pos e); lra | lra]. Qed.
Definition unit3 : fmom := (near1 0, near1 0, near1 0, near1 0).
Lemma half_turn x y : azimuth_of (val (near1 0)) (val (near1 0)) (PI / 4) /\ (azimuth_of (val (near1 0)) (val (near1 0)) x -> azimuth_of (val (near1 0)) (val (near1 0)) y -> x = y).
Proof.
  destruct (near1_ok 0 ltac:(lia)) as (V & F). rewrite Rmult_0_l, Rplus_0_r in V. rewrite V. pose proof PI_RGT_0. assert (0 < sqrt 2) by (apply sqrt_lt_R0; lra). split.
  - split; [lra|]. rewrite cos_PI4, sin_PI4. replace (1 * 1 + 1 * 1) with 2 by ring. split; field; lra.
  - intros A B. rewrite <- (atan2_unique 1 1 x), <- (atan2_unique 1 1 y) by (try assumption; lra). reflexivity.
Qed.
Example C228_case : good_hypot 2 ref_hypot /\ good_atan2 2 ref_atan2 /\ good_atanh 2 ref_atanh /\ good_cexp 2 ref_cexp /\ prunable 2 unit3 /\
  clearly 2 unit3 fzero fzero (lit 8 0) true /\ clearly 2 unit3 fzero fzero (lit 1 (-1)) false.
Proof.
  pose proof u_b as [U0 U1]. pose proof mn_pos as MN. destruct mn_tiny as [_ MU].
  destruct (near1_ok 0 ltac:(lia)) as (V & F). rewrite Rmult_0_l, Rplus_0_r in V.
  assert (M : modest (near1 0)) by (apply (usable_near1 0 0); lia).
  assert (CO : collimation (stands_for unit3) = 3 / 2). { unfold collimation, p_sq, pt_sq, stands_for, unit3, exactly, mx, my, mz. cbn [fst snd px py pz]. rewrite V. field. }
  assert (ME : measured (near1 0) (near1 0) (near1 0)) by (split; [apply usable_near1; lia | exact M]).
  split; [intros a b Fa Fb H; destruct (ref_hypot_good a b Fa Fb H) as (G1 & G2); split; [exact G1 | apply close_up, G2]|].
  split; [intros y x Fy Fx H; destruct (ref_atan2_good y x Fy Fx H) as (G1 & G2); split; [exact G1 | intros a Ha; apply close_up, G2, Ha]|].
  split; [intros t Ft H; destruct (ref_atanh_good t Ft H) as (G1 & G2); split; [exact G1 | apply close_up, G2]|].
  split; [exact ref_cexp_good|].
  split; [split; [exact ME | rewrite CO; lra]|].
  set (p := stands_for unit3) in *. assert (PT : 0 < pt_sq p) by (apply (measured_pt _ _ _ ME)).
  pose proof (eta_size p PT) as ES. rewrite CO in ES. pose proof PI_4. pose proof PI_RGT_0. assert (P3 : 3 < PI) by (pose proof PI2_3_2; lra).
  destruct (sin_sq p PT) as (T & _ & _).
  assert (AT : Rabs (pz p) / sqrt (p_sq p) <= 1).
  { replace (Rabs (pz p) / sqrt (p_sq p)) with (Rabs (pz p / sqrt (p_sq p))); [apply Rabs_le; lra|]. unfold Rdiv. rewrite Rabs_mult, Rabs_inv, (Rabs_pos_eq (sqrt (p_sq p))) by apply sqrt_pos. reflexivity. }
  assert (EE : eta_error 2 p <= 30 * u).
  { unfold eta_error. rewrite CO. assert (A1 : (Rabs (pz p) / sqrt (p_sq p) + min_normal) * (3 / 2) <= 2) by lra. assert (A2 : Rabs (pseudo_rap p) + min_normal <= 4) by lra.
    apply Rle_trans with ((3 * 2 + 2) * u * 2 + 2 * u * 4); [|lra]. apply Rplus_le_compat; apply Rmult_le_compat_l; lra. }
  destruct (sin_sq p PT) as (_ & _ & _).
  set (d := sqrt ((pseudo_rap p - 0) * (pseudo_rap p - 0) + PI / 4 * (PI / 4))).
  assert (D0 : 3 / 4 <= d). { unfold d. rewrite <- (sqrt_square (3 / 4)) by lra. apply sqrt_le_1_alt. pose proof (Rle_0_sqr (pseudo_rap p - 0)) as Q. unfold Rsqr in Q. assert (3 / 4 * (3 / 4) <= PI / 4 * (PI / 4)) by (apply Rmult_le_compat; lra). lra. }
  assert (D1 : d <= 5). { unfold d. pose proof (hypot_lip (pseudo_rap p - 0) (PI / 4) 0 0) as HL. rewrite !Rmult_0_l, Rplus_0_l, sqrt_0, !Rminus_0_r in HL. apply Rabs_le_inv in HL. rewrite (Rabs_pos_eq (PI / 4)) in HL by lra. rewrite Rminus_0_r. lra. }
  assert (PE : prune_error 2 p d <= / 100). { unfold prune_error. assert ((2 * 2 + 2) * d + (4 * 2 + 4) <= 42) by lra. assert (((2 * 2 + 2) * d + (4 * 2 + 4)) * u <= 42 * u) by (apply Rmult_le_compat_r; lra). lra. }
  assert (DT : distance_to p (val fzero) (val fzero) d).
  { exists (PI / 4). split; [lra|]. split; [|reflexivity]. intros a Ha. destruct (half_turn a (PI / 4)) as (H1 & H2). exists 0%Z. rewrite (H2 Ha H1). change (val fzero) with 0. rewrite Rmult_0_r. lra. }
  destruct (lit_int 8 ltac:(lia)) as (V8 & _). destruct (lit_ok 1 (-1) ltac:(lia) ltac:(lia)) as (VH & _). change (bpow radix2 (-1)) with (/ 2) in VH.
  split; exists d; (split; [exact DT|]); fold p; [rewrite V8 | rewrite VH]; lra.
Qed.
