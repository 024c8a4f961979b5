(** Accuracy of the distances of delta_R in IEEE double arithmetic (C174, C175). *)
From Coq Require Import ZArith Reals List Bool Lia Lra.
From Flocq Require Import Core BinarySingleNaN.
From Verif Require Import Prelude SpecReal SpecIEEE SpecDist RealBase Kinem DeltaR DeltaRProofs Floats FloatBase FloatOps P_Float P_Float7.
Import ListNotations.
Open Scope R_scope.

(** * Vocabulary *)

Definition re (p : fcomplex) : R := val (fst p).
Definition im (p : fcomplex) : R := val (snd p).
(** A transverse momentum with finite components and a magnitude between 2^-500 and (about) 2^500. *)
Definition usable (p : fcomplex) : Prop := modest (fst p) /\ modest (snd p) /\ / 2 ^ 500 <= sqrt (re p * re p + im p * im p).
(** [g] is the difference of the azimuths of [p] and [q], wrapped to (-pi, pi]. *)
Definition gap (p q : fcomplex) (g : R) : Prop :=
  -PI < g <= PI /\ forall a b, azimuth_of (re p) (im p) a -> azimuth_of (re q) (im q) b -> same_angle g (a - b).
(** [r] is [e] up to [k] units of rounding, whether or not [e] is in the range of normal numbers. *)
Definition close (k r e : R) : Prop := Rabs (r - e) <= k * u * (Rabs e + min_normal).
(** The C library's hypot and atan2 are accurate to [k] units; the sign of a zero may flip the sign of +-pi. *)
Definition good_hypot (k : R) (hypot : f64 -> f64 -> f64) : Prop := forall a b, fin a -> fin b ->
  sqrt (val a * val a + val b * val b) <= 2 ^ 1020 -> fin (hypot a b) /\ close k (val (hypot a b)) (sqrt (val a * val a + val b * val b)).
Definition good_atan2 (k : R) (atan2 : f64 -> f64 -> f64) : Prop := forall y x, fin y -> fin x -> val y <> 0 \/ val x <> 0 ->
  fin (atan2 y x) /\ forall a, azimuth_of (val x) (val y) a -> close k (Rabs (val (atan2 y x))) (Rabs a).

(** * Perturbing a direction *)

Lemma atan_le : forall t, Rabs (atan t) <= Rabs t.
Proof.
  assert (P : forall t, 0 <= t -> 0 <= atan t <= t).
  { intros t T. split; [rewrite <- atan_0; destruct T as [T|E]; [left; apply atan_increasing; exact T | subst; lra]|].
    destruct T as [T|E]; [|subst; rewrite atan_0; lra].
    destruct (MVT_cor2 atan (fun x => / (1 + x ^ 2)) 0 t T) as (c & E & C).
    - intros c _. apply derivable_pt_lim_atan.
    - rewrite atan_0 in E. assert (0 <= c ^ 2) by apply pow2_ge_0. assert (/ (1 + c ^ 2) <= / 1) by (apply Rinv_le_contravar; lra). rewrite Rinv_1 in *. nra. }
  intros t. destruct (Rle_dec 0 t) as [T|T].
  - destruct (P t T). rewrite !Rabs_pos_eq; lra.
  - destruct (P (- t)) as [A B]; [lra|]. rewrite atan_opp in A, B. rewrite (Rabs_left1 t), (Rabs_left1 (atan t)); lra.
Qed.

Lemma angle_perturb : forall X Y X' Y' a b eps, 0 < X * X + Y * Y -> 0 <= eps < 1 ->
  (X' - X) * (X' - X) + (Y' - Y) * (Y' - Y) <= (eps * eps) * (X * X + Y * Y) ->
  azimuth_of X Y a -> azimuth_of X' Y' b -> 0 < X' * X' + Y' * Y' /\ Rabs (Rabs b - Rabs a) <= eps / (1 - eps).
Proof.
  intros X Y X' Y' a b eps N E D (A0 & A1 & A2) (B0 & B1 & B2).
  set (NN := X * X + Y * Y) in *. set (P := X' * X + Y' * Y). set (Q := Y' * X - X' * Y).
  set (d1 := X' - X) in *. set (d2 := Y' - Y) in *.
  assert (HP : P = NN + (d1 * X + d2 * Y)) by (unfold P, NN, d1, d2; ring). assert (HQ : Q = d2 * X - d1 * Y) by (unfold Q, d1, d2; ring).
  set (s := d1 * X + d2 * Y) in *.
  assert (SQ : s * s + Q * Q = (d1 * d1 + d2 * d2) * NN) by (rewrite HQ; unfold s, NN; ring).
  assert (SB : s * s + Q * Q <= (eps * NN) * (eps * NN)).
  { rewrite SQ. replace (eps * NN * (eps * NN)) with (eps * eps * NN * NN) by ring. apply Rmult_le_compat_r; lra. }
  assert (EN : 0 <= eps * NN) by (apply Rmult_le_pos; lra).
  assert (S1 : Rabs s <= eps * NN). { apply Rabs_le. split; nra. }
  assert (Q1 : Rabs Q <= eps * NN) by (apply Rabs_le; split; nra).
  assert (PP : (1 - eps) * NN <= P). { rewrite HP. apply Rabs_le_inv in S1. lra. }
  assert (P0 : 0 < P) by (assert (0 < (1 - eps) * NN) by (apply Rmult_lt_0_compat; lra); lra).
  assert (N' : 0 < X' * X' + Y' * Y').
  { destruct (Rle_lt_dec (X' * X' + Y' * Y') 0) as [L|L]; [|exact L]. assert (X' = 0 /\ Y' = 0) as [-> ->] by (apply sumsq_zero; nra). unfold P in P0. lra. }
  split; [exact N'|].
  set (al := atan (Q / P)).
  assert (AL : Rabs al <= eps / (1 - eps)).
  { eapply Rle_trans; [apply atan_le|]. unfold Rdiv. rewrite Rabs_mult, Rabs_inv, (Rabs_pos_eq P) by lra.
    apply Rle_trans with (eps * NN * / ((1 - eps) * NN)).
    - apply Rmult_le_compat; [apply Rabs_pos | left; apply Rinv_0_lt_compat; lra | exact Q1 | apply Rinv_le_contravar; [apply Rmult_lt_0_compat; lra | exact PP]].
    - right. field. lra. }
  assert (SA : same_angle b (a + al)).
  { pose proof (atan2_spec Q P) as (_ & C1 & C2). assert (AE : RealBase.atan2 Q P = al) by (unfold RealBase.atan2; destruct (Rlt_dec 0 P); [reflexivity | lra]).
    rewrite AE in C1, C2. fold NN in A1, A2. set (NP := X' * X' + Y' * Y') in *.
    assert (PQ : P * P + Q * Q = NN * NP) by (unfold P, Q, NN, NP; ring). rewrite PQ, sqrt_mult in C1, C2 by lra.
    assert (R1 : 0 < sqrt NN) by (apply sqrt_lt_R0; exact N). assert (R2 : 0 < sqrt NP) by (apply sqrt_lt_R0; exact N').
    assert (R3 : sqrt NN * sqrt NN = NN) by (apply sqrt_sqrt; lra). set (m := sqrt NN) in *. set (m' := sqrt NP) in *.
    apply same_angle_trig; apply (Rmult_eq_reg_l (NN * m')); try nra.
    - rewrite cos_plus. transitivity (NN * X'); [rewrite B1; ring|].
      transitivity (m * cos a * (m * m' * cos al) - m * sin a * (m * m' * sin al)); [|rewrite <- R3; ring].
      rewrite <- A1, <- A2, <- C1, <- C2. unfold NN, P, Q. ring.
    - rewrite sin_plus. transitivity (NN * Y'); [rewrite B2; ring|].
      transitivity (m * sin a * (m * m' * cos al) + m * cos a * (m * m' * sin al)); [|rewrite <- R3; ring].
      rewrite <- A1, <- A2, <- C1, <- C2. unfold NN, P, Q. ring. }
  assert (W1 : Rabs b <= Rabs (a + al)) by (apply wrapped_min; assumption).
  assert (W2 : Rabs a <= Rabs (b + - al)).
  { apply wrapped_min; [assumption|]. apply same_angle_sym in SA. replace a with ((a + al) + - al) by ring. apply same_angle_add; [exact SA | exists 0%Z; ring]. }
  pose proof (Rabs_triang a al). pose proof (Rabs_triang b (- al)) as T2. rewrite Rabs_Ropp in T2. apply Rabs_le. lra.
Qed.

(** * The rounded product of one momentum and the conjugate of the other *)

Lemma mn_tiny : 1000000 * min_normal <= / 2 ^ 1000 /\ min_normal <= u.
Proof.
  unfold min_normal, u. split.
  - replace 1022%nat with (22 + 1000)%nat by reflexivity. rewrite pow_add, Rinv_mult. rewrite <- Rmult_assoc.
    assert (0 < / 2 ^ 1000) by (apply Rinv_0_lt_compat, pow_lt; lra).
    assert (1000000 * / 2 ^ 22 <= 1). { apply Rmult_le_reg_r with (2 ^ 22); [apply pow_lt; lra|]. rewrite Rmult_assoc, Rinv_l by (apply pow_nonzero; lra). simpl. lra. }
    nra.
  - apply Rinv_le_contravar; [apply pow_lt; lra | apply Rle_pow; [lra | lia]].
Qed.

Lemma two_terms : forall a b A B N e, Rabs e <= u -> Rabs (a - A) <= u * Rabs A + u * min_normal -> Rabs (b - B) <= u * Rabs B + u * min_normal ->
  Rabs A + Rabs B <= N -> 1000000 * min_normal <= N -> Rabs ((a + b) * (1 + e) - (A + B)) <= 201 / 100 * u * N.
Proof.
  intros a b A B N e He Ha Hb HN HM. pose proof u_b as [U0 U1]. pose proof mn_pos as MN.
  set (d := (a - A) + (b - B)). replace ((a + b) * (1 + e) - (A + B)) with (d + e * d + e * (A + B)) by (unfold d; ring).
  assert (HD : Rabs d <= u * N + 2 * (u * min_normal)).
  { unfold d. eapply Rle_trans; [apply Rabs_triang|]. assert (u * (Rabs A + Rabs B) <= u * N) by (apply Rmult_le_compat_l; lra). lra. }
  assert (AB : Rabs (A + B) <= N) by (eapply Rle_trans; [apply Rabs_triang | lra]).
  assert (E1 : Rabs (e * d) <= u * (u * N + 2 * (u * min_normal))) by (rewrite Rabs_mult; apply Rmult_le_compat; auto using Rabs_pos).
  assert (E2 : Rabs (e * (A + B)) <= u * N) by (rewrite Rabs_mult; apply Rmult_le_compat; auto using Rabs_pos).
  eapply Rle_trans; [apply Rabs_triang|]. eapply Rle_trans; [apply Rplus_le_compat_r, Rabs_triang|].
  assert (UM : 1000000 * (u * min_normal) <= u * N) by (replace (1000000 * (u * min_normal)) with (u * (1000000 * min_normal)) by ring; apply Rmult_le_compat_l; lra).
  set (w := u * N) in *. set (v := u * min_normal) in *. assert (V0 : 0 <= v) by (apply Rmult_le_pos; lra).
  assert (u * (w + 2 * v) <= / 1000 * (w + 2 * v)) by (apply Rmult_le_compat_r; lra).
  replace (201 / 100 * u * N) with (201 / 100 * w) by (unfold w; ring). lra.
Qed.

Lemma cauchy : forall a b c d, Rabs (a * c) + Rabs (b * d) <= sqrt (a * a + b * b) * sqrt (c * c + d * d).
Proof.
  intros a b c d. rewrite <- sqrt_mult by nra. apply Rsqr_incr_0_var; [|apply sqrt_pos]. rewrite Rsqr_sqrt by nra. unfold Rsqr.
  assert (P : forall x, Rabs x * Rabs x = x * x) by (intros x; rewrite <- Rabs_mult; apply Rabs_pos_eq; nra).
  assert (Q : Rabs (a * c) * Rabs (b * d) <= (a * a * (d * d) + b * b * (c * c)) / 2).
  { rewrite !Rabs_mult. rewrite <- (P a), <- (P b), <- (P c), <- (P d). set (s := Rabs a * Rabs d). set (t := Rabs b * Rabs c).
    replace (Rabs a * Rabs c * (Rabs b * Rabs d)) with (s * t) by (unfold s, t; ring).
    replace (Rabs a * Rabs a * (Rabs d * Rabs d)) with (s * s) by (unfold s; ring). replace (Rabs b * Rabs b * (Rabs c * Rabs c)) with (t * t) by (unfold t; ring).
    pose proof (Rle_0_sqr (s - t)). unfold Rsqr in *. nra. }
  replace ((Rabs (a * c) + Rabs (b * d)) * (Rabs (a * c) + Rabs (b * d))) with (Rabs (a * c) * Rabs (a * c) + Rabs (b * d) * Rabs (b * d) + 2 * (Rabs (a * c) * Rabs (b * d))) by ring.
  rewrite !P. nra.
Qed.

Lemma modest_neg : forall x, modest x -> modest (fneg x).
Proof. intros x [F B]. split; [apply fneg_fin, F | rewrite fneg_ok, Rabs_Ropp; exact B]. Qed.

Lemma cprod : forall p q, usable p -> usable q ->
  let X := re p * re q + im p * im q in let Y := im p * re q - re p * im q in let z := cmul p (conj q) in
  let N := sqrt (re p * re p + im p * im p) * sqrt (re q * re q + im q * im q) in
  fin (fst z) /\ fin (snd z) /\ 0 < N /\ X * X + Y * Y = N * N /\
  Rabs (re z - X) <= 201 / 100 * u * N /\ Rabs (im z - Y) <= 201 / 100 * u * N.
Proof.
  intros [x1 y1] [x2 y2] (M1 & M2 & L1) (M3 & M4 & L2). unfold re, im in *. cbn [fst snd] in *. cbv zeta. unfold cmul, conj. cbn [fst snd].
  pose proof (modest_neg y2 M4) as M4'. destruct (prod_fl x1 x2 M1 M3) as (Fa & Va & Ba). destruct (prod_fl y1 (fneg y2) M2 M4') as (Fb & Vb & Bb).
  destruct (prod_fl x1 (fneg y2) M1 M4') as (Fc & Vc & Bc). destruct (prod_fl y1 x2 M2 M3) as (Fd & Vd & Bd).
  pose proof (prod_err x1 x2 M1 M3) as Ea. pose proof (prod_err y1 (fneg y2) M2 M4') as Eb. pose proof (prod_err x1 (fneg y2) M1 M4') as Ec. pose proof (prod_err y1 x2 M2 M3) as Ed.
  rewrite fneg_ok in Eb, Ec. pose proof pow1000 as P1. assert (P0 : 0 < 2 ^ 1000) by (apply pow_lt; lra).
  assert (OS : Rabs (nearest (val (fmul x1 x2) - val (fmul y1 (fneg y2)))) < bpow radix2 1024).
  { apply no_overflow. unfold Rminus. eapply Rle_trans; [apply Rabs_triang|]. rewrite Rabs_Ropp. lra. }
  assert (OA : Rabs (nearest (val (fmul x1 (fneg y2)) + val (fmul y1 x2))) < bpow radix2 1024).
  { apply no_overflow. eapply Rle_trans; [apply Rabs_triang|]. lra. }
  destruct (fsub_ok _ _ Fa Fb OS) as (Vr & Fr & _). destruct (fadd_ok _ _ Fc Fd OA) as (Vi & Fi).
  destruct (sub_rel (fmul x1 x2) (fmul y1 (fneg y2))) as (e1 & He1 & Q1). destruct (add_rel (fmul x1 (fneg y2)) (fmul y1 x2)) as (e2 & He2 & Q2).
  set (N := sqrt (val x1 * val x1 + val y1 * val y1) * sqrt (val x2 * val x2 + val y2 * val y2)).
  assert (I0 : 0 < / 2 ^ 500) by (apply Rinv_0_lt_compat, pow_lt; lra).
  assert (NB : / 2 ^ 1000 <= N).
  { unfold N. replace (/ 2 ^ 1000) with (/ 2 ^ 500 * / 2 ^ 500); [apply Rmult_le_compat; lra|]. rewrite <- Rinv_mult, <- pow_add. reflexivity. }
  destruct mn_tiny as [T1 _]. assert (NP : 0 < N) by (unfold N; apply Rmult_lt_0_compat; lra).
  split; [exact Fr|]. split; [exact Fi|]. split; [exact NP|]. split.
  { unfold N. transitivity ((val x1 * val x1 + val y1 * val y1) * (val x2 * val x2 + val y2 * val y2)); [ring|].
    rewrite <- (sqrt_sqrt (val x1 * val x1 + val y1 * val y1)) at 1 by nra. rewrite <- (sqrt_sqrt (val x2 * val x2 + val y2 * val y2)) at 1 by nra. ring. }
  split.
  - rewrite Vr, Q1. replace (val x1 * val x2 + val y1 * val y2) with (val x1 * val x2 + - (val y1 * - val y2)) by ring.
    unfold Rminus. apply two_terms; [exact He1 | exact Ea | | | lra].
    + replace (- val (fmul y1 (fneg y2)) - - (val y1 * - val y2)) with (- (val (fmul y1 (fneg y2)) - val y1 * - val y2)) by ring. rewrite !Rabs_Ropp. exact Eb.
    + rewrite Rabs_Ropp, Ropp_mult_distr_r_reverse, Rabs_Ropp. apply cauchy.
  - rewrite Vi, Q2. replace (val y1 * val x2 - val x1 * val y2) with (val x1 * - val y2 + val y1 * val x2) by ring.
    apply two_terms; [exact He2 | exact Ec | exact Ed | | lra].
    rewrite Ropp_mult_distr_r_reverse, Rabs_Ropp. unfold N. rewrite (Rplus_comm (val x2 * val x2)). apply cauchy.
Qed.

(** * The distance *)

Lemma gap_abs : forall p q g, usable p -> usable q -> gap p q g ->
  exists g', Rabs g' = Rabs g /\ azimuth_of (re p * re q + im p * im q) (im p * re q - re p * im q) g'.
Proof.
  intros p q g (_ & _ & L1) (_ & _ & L2) (G1 & G2). set (P := Mom (re p) (im p) 0 0). set (Q := Mom (re q) (im q) 0 0).
  assert (I0 : 0 < / 2 ^ 500) by (apply Rinv_0_lt_compat, pow_lt; lra).
  assert (S : forall x, / 2 ^ 500 <= sqrt x -> 0 < x).
  { intros x H. destruct (Rle_lt_dec x 0) as [L|L]; [|exact L]. rewrite sqrt_neg_0 in H by exact L. lra. }
  destruct (delta_phi_spec P Q) as (D1 & D2); [apply (S _ L1) | apply (S _ L2) |].
  exists (delta_phi P Q). split.
  - specialize (G2 _ _ (atan2_spec (im p) (re p)) (atan2_spec (im q) (re q))). cbn [px py P Q] in D2.
    apply Rle_antisym; apply wrapped_min; try assumption.
    + eapply same_angle_trans; [exact D2 | apply same_angle_sym; exact G2].
    + eapply same_angle_trans; [exact G2 | apply same_angle_sym; exact D2].
  - unfold delta_phi. cbn [px py P Q]. apply atan2_spec.
Qed.

Lemma hypot_lip : forall a b c d, Rabs (sqrt (a * a + b * b) - sqrt (c * c + d * d)) <= Rabs (a - c) + Rabs (b - d).
Proof.
  assert (H : forall a b c d, sqrt (a * a + b * b) <= sqrt (c * c + d * d) + (Rabs (a - c) + Rabs (b - d))).
  { intros a b c d. pose proof (hypot_tri c d (a - c) (b - d)) as T. replace (c + (a - c)) with a in T by ring. replace (d + (b - d)) with b in T by ring.
    assert (sqrt ((a - c) * (a - c) + (b - d) * (b - d)) <= Rabs (a - c) + Rabs (b - d)).
    { assert (P : forall x, Rabs x * Rabs x = x * x) by (intros x; rewrite <- Rabs_mult; apply Rabs_pos_eq; nra).
      pose proof (Rabs_pos (a - c)). pose proof (Rabs_pos (b - d)). rewrite <- (P (a - c)), <- (P (b - d)).
      apply Rsqr_incr_0_var; [|lra]. rewrite Rsqr_sqrt by nra. unfold Rsqr. nra. }
    lra. }
  intros a b c d. pose proof (H a b c d). pose proof (H c d a b) as H'. rewrite (Rabs_minus_sym c a), (Rabs_minus_sym d b) in H'. apply Rabs_le. lra.
Qed.

Lemma final_bound : forall k h0 h1 d g F D H, 0 <= k <= 1000 -> 0 <= g -> Rabs d <= h0 -> g <= h0 -> Rabs (D - d) <= u * Rabs d ->
  Rabs (F - g) <= 3 * u + k * u * (g + 3 * u + min_normal) -> Rabs (h1 - h0) <= Rabs (D - d) + Rabs (F - g) -> 0 <= h1 ->
  Rabs (H - h1) <= k * u * (h1 + min_normal) -> Rabs (H - h0) <= ((2 * k + 2) * h0 + 4) * u.
Proof.
  intros k h0 h1 d g F D H K G D0 G0 HD HF H1 P1 HH. pose proof u_b as [U0 U1]. pose proof mn_pos as MN. destruct mn_tiny as [_ MU].
  assert (H0 : 0 <= h0) by (pose proof (Rabs_pos d); lra).
  replace (H - h0) with ((H - h1) + (h1 - h0)) by ring. eapply Rle_trans; [apply Rabs_triang|].
  set (ku := k * u) in *. assert (KU : 0 <= ku <= / 1000000000000) by (unfold ku; split; [apply Rmult_le_pos; lra | nra]).
  assert (KK : k * ku <= / 100000000) by nra. assert (K0 : 0 <= k * ku) by (apply Rmult_le_pos; lra).
  assert (A1 : Rabs (D - d) <= u * h0) by (eapply Rle_trans; [exact HD | apply Rmult_le_compat_l; lra]).
  assert (A2 : Rabs (F - g) <= 3 * u + ku * h0 + ku * (4 * u)).
  { eapply Rle_trans; [exact HF|]. assert (ku * (g + 3 * u + min_normal) <= ku * (h0 + 4 * u)) by (apply Rmult_le_compat_l; lra). lra. }
  assert (A2' : ku * (4 * u) <= / 1000 * u) by nra.
  assert (A3 : h1 <= h0 + (u * h0 + 3 * u + ku * h0 + / 1000 * u)) by (apply Rabs_le_inv in H1; lra).
  assert (A4 : ku * (h1 + min_normal) <= ku * (h0 + (u * h0 + 3 * u + ku * h0 + / 1000 * u) + u)) by (apply Rmult_le_compat_l; lra).
  assert (A5 : ku * (5 * u) <= / 1000 * u) by nra.
  assert (B1 : ku * (u * h0) <= / 1000 * (u * h0)) by (apply Rmult_le_compat_r; [apply Rmult_le_pos; lra | lra]).
  assert (B2 : ku * (ku * h0) <= / 1000 * (u * h0)).
  { replace (ku * (ku * h0)) with (k * ku * (u * h0)) by (unfold ku; ring). apply Rmult_le_compat_r; [apply Rmult_le_pos; lra | lra]. }
  assert (B3 : ku * h0 = k * (u * h0)) by (unfold ku; ring). assert (UH : 0 <= u * h0) by (apply Rmult_le_pos; lra).
  replace (((2 * k + 2) * h0 + 4) * u) with (2 * (k * (u * h0)) + 2 * (u * h0) + 4 * u) by ring.
  replace (ku * (h0 + (u * h0 + 3 * u + ku * h0 + / 1000 * u) + u)) with (ku * h0 + ku * (u * h0) + ku * (ku * h0) + ku * (4 * u) + / 1000 * (ku * u)) in A4 by ring.
  assert (B4 : ku * u <= u) by nra. lra.
Qed.

(** The computed distance is the exact distance of the given rapidities and transverse momenta, up to [2k + 2] units of the distance plus
    4 units absolute (2^-53 radians each): the error does not grow with the momenta or the separation of their scales. *)
Theorem C174_accuracy : forall hypot atan2 k, 0 <= k <= 1000 -> good_hypot k hypot -> good_atan2 k atan2 ->
  forall rap_1 rap_2 pol_1 pol_2 g, fin rap_1 -> fin rap_2 -> Rabs (val rap_1) <= 2 ^ 1000 -> Rabs (val rap_2) <= 2 ^ 1000 ->
  usable pol_1 -> usable pol_2 -> gap pol_1 pol_2 g ->
  let exact := sqrt ((val rap_1 - val rap_2) * (val rap_1 - val rap_2) + g * g) in
  fin (f_delta hypot atan2 rap_1 rap_2 pol_1 pol_2) /\
  Rabs (val (f_delta hypot atan2 rap_1 rap_2 pol_1 pol_2) - exact) <= ((2 * k + 2) * exact + 4) * u.
Proof.
  intros hypot atan2 k K GH GA r1 r2 p q g F1 F2 B1 B2 UP UQ G exact. unfold f_delta.
  pose proof u_b as [U0 U1]. pose proof mn_pos as MN. destruct mn_tiny as [_ MU]. pose proof pow1000 as P1. assert (P0 : 1 <= 2 ^ 1000) by (apply pow_R1_Rle; lra).
  assert (OS : Rabs (nearest (val r1 - val r2)) < bpow radix2 1024).
  { apply no_overflow. unfold Rminus. eapply Rle_trans; [apply Rabs_triang|]. rewrite Rabs_Ropp. lra. }
  destruct (fsub_ok _ _ F1 F2 OS) as (VD & FD & _). rewrite (fin_not_nan _ FD). destruct (sub_rel r1 r2) as (e & He & ED).
  destruct (cprod p q UP UQ) as (FR & FI & NP & NN & ER & EI). set (z := cmul p (conj q)) in *.
  set (X := re p * re q + im p * im q) in *. set (Y := im p * re q - re p * im q) in *.
  set (N := sqrt (re p * re p + im p * im p) * sqrt (re q * re q + im q * im q)) in *.
  destruct (gap_abs p q g UP UQ G) as (g' & Eg & Ag). fold X in Ag. fold Y in Ag.
  assert (Hd : (re z - X) * (re z - X) + (im z - Y) * (im z - Y) <= (29 / 10 * u * (29 / 10 * u)) * (X * X + Y * Y)).
  { rewrite NN. assert (W0 : 0 <= u * N) by (apply Rmult_le_pos; lra). set (w := u * N) in *.
    replace (29 / 10 * u * (29 / 10 * u) * (N * N)) with (841 / 100 * (w * w)) by (unfold w; field).
    replace (201 / 100 * u * N) with (201 / 100 * w) in ER, EI by (unfold w; ring).
    assert (S : forall t, Rabs t <= 201 / 100 * w -> t * t <= (201 / 100 * w) * (201 / 100 * w)).
    { intros t T. assert (t * t = Rabs t * Rabs t) as -> by (rewrite <- Rabs_mult; symmetry; apply Rabs_pos_eq; nra). apply Rmult_le_compat; auto using Rabs_pos. }
    pose proof (S _ ER). pose proof (S _ EI). nra. }
  destruct (angle_perturb X Y (re z) (im z) g' (RealBase.atan2 (im z) (re z)) (29 / 10 * u)) as (Nz & HA).
  { rewrite NN. nra. } { lra. } { exact Hd. } { exact Ag. } { apply atan2_spec. }
  set (bz := RealBase.atan2 (im z) (re z)) in *. rewrite Eg in HA.
  assert (HA3 : Rabs (Rabs bz - Rabs g) <= 3 * u).
  { eapply Rle_trans; [exact HA|]. apply Rmult_le_reg_r with (1 - 29 / 10 * u); [lra|]. unfold Rdiv at 1. rewrite Rmult_assoc, Rinv_l by lra. nra. }
  destruct (GA (snd z) (fst z) FI FR) as (FP & HP).
  { unfold re, im in Nz. destruct (Req_dec (val (snd z)) 0) as [E|E]; [right; intros E'; rewrite E, E' in Nz; lra | left; exact E]. }
  specialize (HP bz (atan2_spec _ _)). unfold close in HP. rewrite Rabs_Rabsolu in HP.
  set (ph := atan2 (snd z) (fst z)) in *.
  assert (HF : Rabs (Rabs (val ph) - Rabs g) <= 3 * u + k * u * (Rabs g + 3 * u + min_normal)).
  { replace (Rabs (val ph) - Rabs g) with ((Rabs (val ph) - Rabs bz) + (Rabs bz - Rabs g)) by ring. eapply Rle_trans; [apply Rabs_triang|].
    assert (k * u * (Rabs bz + min_normal) <= k * u * (Rabs g + 3 * u + min_normal)); [|lra].
    apply Rmult_le_compat_l; [apply Rmult_le_pos; lra|]. apply Rabs_le_inv in HA3. lra. }
  assert (SA : forall x, Rabs x * Rabs x = x * x) by (intros x; rewrite <- Rabs_mult; apply Rabs_pos_eq; nra).
  set (d := val r1 - val r2) in *. set (D := val (fsub r1 r2)) in *.
  assert (HD : Rabs (D - d) <= u * Rabs d).
  { rewrite VD, ED. replace (d * (1 + e) - d) with (e * d) by ring. rewrite Rabs_mult. apply Rmult_le_compat_r; [apply Rabs_pos | exact He]. }
  assert (Bd : Rabs d <= 2 * 2 ^ 1000).
  { unfold d, Rminus. eapply Rle_trans; [apply Rabs_triang|]. rewrite Rabs_Ropp. lra. }
  assert (Bg : Rabs g <= 4). { destruct G as (G & _). pose proof PI_4. apply Rabs_le. lra. }
  pose proof (hypot_lip D (Rabs (val ph)) d (Rabs g)) as HL. rewrite !SA in HL. fold exact in HL.
  set (h1 := sqrt (D * D + val ph * val ph)) in *.
  assert (E1 : Rabs d <= exact).
  { unfold exact. rewrite <- (sqrt_square (Rabs d)) by apply Rabs_pos. apply sqrt_le_1_alt. rewrite SA. nra. }
  assert (E2 : Rabs g <= exact).
  { unfold exact. rewrite <- (sqrt_square (Rabs g)) by apply Rabs_pos. apply sqrt_le_1_alt. rewrite SA. nra. }
  assert (E3 : exact <= Rabs d + Rabs g).
  { unfold exact. rewrite <- (SA d), <- (SA g). pose proof (Rabs_pos d). pose proof (Rabs_pos g). rewrite <- (sqrt_square (Rabs d + Rabs g)) by lra. apply sqrt_le_1_alt. nra. }
  assert (Hh : h1 <= 2 ^ 1020).
  { replace 1020%nat with (1000 + 20)%nat by reflexivity. rewrite pow_add. assert (1000 <= 2 ^ 20) by (simpl; lra).
    assert (KU : k * u * (Rabs g + 3 * u + min_normal) <= 1).
    { apply Rle_trans with (/ 1000 * (4 + 1 + 1)); [|lra]. apply Rmult_le_compat; [apply Rmult_le_pos; lra | pose proof (Rabs_pos g); lra | nra | lra]. }
    assert (u * Rabs d <= Rabs d) by (pose proof (Rabs_pos d); nra). apply Rabs_le_inv in HL. nra. }
  destruct (GH (fsub r1 r2) ph FD FP Hh) as (FH & HH). split; [exact FH|]. unfold close in HH. fold D in HH. fold h1 in HH. rewrite (Rabs_pos_eq h1) in HH by apply sqrt_pos.
  apply (final_bound k exact h1 d (Rabs g) (Rabs (val ph)) D); try assumption; try apply Rabs_pos. apply sqrt_pos.
Qed.
Print Assumptions C174_accuracy.

(** Comparing the computed distance with a radius (as cluster_coeff_distbn and fastjet-like selections do) decides as the exact distance
    would, unless the exact distance is within that error of the radius. *)
Theorem C174_threshold : forall hypot atan2 k, 0 <= k <= 1000 -> good_hypot k hypot -> good_atan2 k atan2 ->
  forall rap_1 rap_2 pol_1 pol_2 g radius, fin rap_1 -> fin rap_2 -> Rabs (val rap_1) <= 2 ^ 1000 -> Rabs (val rap_2) <= 2 ^ 1000 ->
  usable pol_1 -> usable pol_2 -> gap pol_1 pol_2 g -> fin radius ->
  let exact := sqrt ((val rap_1 - val rap_2) * (val rap_1 - val rap_2) + g * g) in
  ((2 * k + 2) * exact + 4) * u < Rabs (exact - val radius) ->
  flt (f_delta hypot atan2 rap_1 rap_2 pol_1 pol_2) radius = true <-> exact < val radius.
Proof.
  intros hypot atan2 k K GH GA r1 r2 p q g rad F1 F2 B1 B2 UP UQ G FR exact HM.
  destruct (C174_accuracy hypot atan2 k K GH GA r1 r2 p q g F1 F2 B1 B2 UP UQ G) as (FH & HH). fold exact in HH.
  rewrite flt_ok by assumption. apply Rabs_le_inv in HH. unfold Rabs in HM. destruct (Rcase_abs (exact - val rad)); split; intros; lra.
Qed.
Print Assumptions C174_threshold.

(** * C175: a zero distance *)

(** Particles at least 5 units (6e-16) apart never come out at distance zero. *)
Theorem C175_apart_partial : forall hypot atan2 k, 0 <= k <= 1000 -> good_hypot k hypot -> good_atan2 k atan2 ->
  forall rap_1 rap_2 pol_1 pol_2 g, fin rap_1 -> fin rap_2 -> Rabs (val rap_1) <= 2 ^ 1000 -> Rabs (val rap_2) <= 2 ^ 1000 ->
  usable pol_1 -> usable pol_2 -> gap pol_1 pol_2 g ->
  5 * u <= sqrt ((val rap_1 - val rap_2) * (val rap_1 - val rap_2) + g * g) -> 0 < val (f_delta hypot atan2 rap_1 rap_2 pol_1 pol_2).
Proof.
  intros hypot atan2 k K GH GA r1 r2 p q g F1 F2 B1 B2 UP UQ G HM.
  destruct (C174_accuracy hypot atan2 k K GH GA r1 r2 p q g F1 F2 B1 B2 UP UQ G) as (FH & HH).
  set (h := sqrt _) in *. apply Rabs_le_inv in HH. pose proof u_b as [U0 U1].
  assert (((2 * k + 2) * h) * u <= / 1000 * h). { replace ((2 * k + 2) * h * u) with ((2 * k + 2) * u * h) by ring. apply Rmult_le_compat_r; [lra | nra]. }
  lra.
Qed.

(** 1 + n 2^-52 *)
Definition near1 (n : Z) : f64 := lit (2 ^ 52 + n) (-52).
Lemma near1_ok : forall n, (0 <= n < 2 ^ 40)%Z -> val (near1 n) = 1 + IZR n * bpow radix2 (-52) /\ fin (near1 n).
Proof.
  intros n H. destruct (lit_ok (2 ^ 52 + n) (-52)) as (V & F); [lia | lia |]. split; [|exact F]. unfold near1. rewrite V, plus_IZR, Rmult_plus_distr_r. f_equal.
  change (IZR (2 ^ 52)) with 4503599627370496. change (bpow radix2 (-52)) with (/ 4503599627370496). lra.
Qed.
Lemma usable_near1 : forall m n, (0 <= m < 2 ^ 40)%Z -> (0 <= n < 2 ^ 40)%Z -> usable (near1 m, near1 n).
Proof.
  intros m n Hm Hn. destruct (near1_ok m Hm) as (Vm & Fm). destruct (near1_ok n Hn) as (Vn & Fn).
  assert (B : forall i, (0 <= i < 2 ^ 40)%Z -> 1 <= 1 + IZR i * bpow radix2 (-52) <= 2).
  { intros i Hi. assert (0 <= IZR i <= IZR (2 ^ 40)) by (split; apply IZR_le; lia). change (bpow radix2 (-52)) with (/ 4503599627370496). change (IZR (2 ^ 40)) with 1099511627776 in *. lra. }
  assert (P : 2 <= 2 ^ 500). { change (2 ^ 500) with (2 * 2 ^ 499). assert (1 <= 2 ^ 499) by (apply pow_R1_Rle; lra). lra. }
  pose proof (B m Hm). pose proof (B n Hn).
  split; [|split]; cbn [fst snd].
  - split; [exact Fm | rewrite Vm, Rabs_pos_eq; lra].
  - split; [exact Fn | rewrite Vn, Rabs_pos_eq; lra].
  - unfold re, im. cbn [fst snd]. rewrite Vm, Vn. assert (/ 2 ^ 500 <= 1). { apply Rle_trans with (/ 1); [apply Rinv_le_contravar; [lra | apply Rle_trans with 2; [lra | exact P]] | rewrite Rinv_1; apply Rle_refl]. }
    apply Rle_trans with (sqrt 1); [rewrite sqrt_1; assumption|]. apply sqrt_le_1_alt. nra.
Qed.

(** Below that: the transverse momenta (1 + e, 1 + 2e) and (1 + 2e, 1 + 3e), e = 2^-52, point in different directions, but at any common
    rapidity their distance is computed as exactly 0.0 (the two products of the imaginary part round to the same double). *)
Theorem C175_refuted : exists pol_1 pol_2, usable pol_1 /\ usable pol_2 /\ (forall g, gap pol_1 pol_2 g -> g <> 0) /\
  forall hypot atan2 : f64 -> f64 -> f64, hypot fzero fzero = fzero -> (forall x, fin x -> 0 < val x -> atan2 fzero x = fzero) ->
  forall rap, fin rap -> f_delta hypot atan2 rap rap pol_1 pol_2 = fzero.
Proof.
  exists (near1 1, near1 2), (near1 2, near1 3). assert (U1 := usable_near1 1 2 ltac:(lia) ltac:(lia)). assert (U2 := usable_near1 2 3 ltac:(lia) ltac:(lia)).
  destruct (near1_ok 1 ltac:(lia)) as (V1 & F1). destruct (near1_ok 2 ltac:(lia)) as (V2 & F2). destruct (near1_ok 3 ltac:(lia)) as (V3 & F3).
  split; [exact U1|]. split; [exact U2|]. split.
  - intros g G ->. destruct (gap_abs _ _ _ U1 U2 G) as (g' & E & (_ & _ & A)). rewrite Rabs_R0 in E. assert (g' = 0) as -> by (destruct (Req_dec g' 0) as [Z|Z]; [exact Z | apply Rabs_no_R0 in Z; contradiction]).
    rewrite sin_0, Rmult_0_r in A. unfold re, im in A. cbn [fst snd] in A. rewrite V1, V2, V3 in A. pose proof (bpow_gt_0 radix2 (-52)). nra.
  - intros hypot atan2 H A rap FR. unfold f_delta. rewrite (sub_self rap FR). cbn [is_nan fzero].
    assert (E : exists w, cmul (near1 1, near1 2) (conj (near1 2, near1 3)) = (w, fzero) /\ fin w /\ 0 < val w).
    { exists (lit 1125899906842625 (-49)). split.
      - unfold cmul, conj. cbn [fst snd]. f_equal; apply B2SF_inj; vm_compute; reflexivity.
      - destruct (lit_ok 1125899906842625 (-49)) as (V & F); [lia | lia |]. split; [exact F|]. rewrite V. apply Rmult_lt_0_compat; [lra | apply bpow_gt_0]. }
    destruct E as (w & -> & Fw & Pw). cbn [fst snd]. rewrite A by assumption. exact H.
Qed.
Print Assumptions C175_apart_partial.
Print Assumptions C175_refuted.

(** The hypotheses can be met: routines that round the exact value to nearest (the second theorem's conditions hold of them too). *)
Definition of_R (x : R) : f64 := let y := nearest x in
  lit (Ztrunc (scaled_mantissa radix2 (FLT_exp (-1074) 53) y)) (cexp radix2 (FLT_exp (-1074) 53) y).
Lemma of_R_ok : forall x, Rabs (nearest x) < bpow radix2 1024 -> fin (of_R x) /\ val (of_R x) = nearest x.
Proof.
  intros x H. unfold of_R. cbv zeta. set (m := Ztrunc _). set (e := cexp _ _ _).
  pose proof (binary_normalize_correct 53 1024 prec_pos prec_emax mode_NE m e false) as C. fold (lit m e) in C.
  cbv zeta in C. repeat match type of C with context [round ?b ?f ?r ?y] => change (round b f r y) with (nearest y) in C end.
  assert (E : F2R (Float radix2 m e) = nearest x) by (symmetry; exact (nearest_fmt x)). rewrite E, (nearest_id (nearest x)) in C by apply nearest_fmt.
  rewrite Rlt_bool_true in C by exact H. destruct C as (A & B & _). split; [exact B | exact A].
Qed.
Lemma close_nearest : forall x, close 1 (nearest x) x.
Proof. intros x. unfold close. rewrite Rmult_1_l, Rmult_plus_distr_l. apply nearest_err_any. Qed.
Lemma of_R_0 : of_R 0 = fzero.
Proof. unfold of_R. rewrite nearest_0. cbv zeta. rewrite scaled_mantissa_0, (Ztrunc_IZR 0). reflexivity. Qed.

Definition ref_hypot (a b : f64) : f64 := of_R (sqrt (val a * val a + val b * val b)).
Definition ref_atan2 (y x : f64) : f64 := of_R (RealBase.atan2 (val y) (val x)).

Lemma ref_hypot_good : good_hypot 1 ref_hypot.
Proof.
  intros a b Fa Fb H. destruct (of_R_ok (sqrt (val a * val a + val b * val b))) as (F & V).
  - apply no_overflow. rewrite Rabs_pos_eq by apply sqrt_pos. eapply Rle_trans; [exact H|]. apply Rle_pow; [lra | lia].
  - split; [exact F|]. unfold ref_hypot. rewrite V. apply close_nearest.
Qed.
Lemma ref_atan2_good : good_atan2 1 ref_atan2.
Proof.
  intros y x Fy Fx N. set (a := RealBase.atan2 (val y) (val x)). pose proof (atan2_bound (val y) (val x)) as B. fold a in B.
  destruct (of_R_ok a) as (F & V).
  - apply no_overflow. apply Rle_trans with 4; [pose proof PI_4; apply Rabs_le; lra|]. unfold huge. change 4 with (2 * 2). apply Rle_trans with (2 ^ 2); [simpl; lra | apply Rle_pow; [lra | lia]].
  - split; [exact F|]. intros a' A'. assert (a = a') as <-.
    { apply atan2_unique; [|exact A']. destruct N as [N|N]; nra. }
    unfold ref_atan2. fold a. rewrite V, <- nearest_abs. apply close_nearest.
Qed.

(** A concrete case: transverse momenta (1, 1) and (1 + 2^-20, 1 + 3 2^-20), rapidities 1 and 1/2. *)
Example C174_case : exists g, gap (near1 0, near1 0) (near1 4294967296, near1 12884901888) g /\
  let exact := sqrt ((val fone - val fhalf) * (val fone - val fhalf) + g * g) in
  Rabs (val (f_delta ref_hypot ref_atan2 fone fhalf (near1 0, near1 0) (near1 4294967296, near1 12884901888)) - exact) <= (4 * exact + 4) * u.
Proof.
  set (p := (near1 0, near1 0)). set (q := (near1 4294967296, near1 12884901888)).
  assert (UP : usable p) by (apply usable_near1; lia). assert (UQ : usable q) by (apply usable_near1; lia).
  exists (delta_phi (Mom (re p) (im p) 0 0) (Mom (re q) (im q) 0 0)).
  assert (I0 : 0 < / 2 ^ 500) by (apply Rinv_0_lt_compat, pow_lt; lra).
  assert (S : forall x, / 2 ^ 500 <= sqrt x -> 0 < x).
  { intros x H. destruct (Rle_lt_dec x 0) as [L|L]; [|exact L]. rewrite sqrt_neg_0 in H by exact L. lra. }
  destruct (delta_phi_spec (Mom (re p) (im p) 0 0) (Mom (re q) (im q) 0 0)) as (D1 & D2); [apply S, UP | apply S, UQ|].
  assert (G : gap p q (delta_phi (Mom (re p) (im p) 0 0) (Mom (re q) (im q) 0 0))).
  { split; [exact D1|]. intros a b A B. cbn [px py] in D2. rewrite <- (atan2_unique (re p) (im p) a (S _ (proj2 (proj2 UP))) A), <- (atan2_unique (re q) (im q) b (S _ (proj2 (proj2 UQ))) B). exact D2. }
  split; [exact G|]. cbv zeta. destruct (lit_int 1 ltac:(lia)) as (V1 & F1). destruct (lit_ok 1 (-1) ltac:(lia) ltac:(lia)) as (V2 & F2).
  assert (P : 1 <= 2 ^ 1000) by (apply pow_R1_Rle; lra).
  destruct (C174_accuracy ref_hypot ref_atan2 1 ltac:(lra) ref_hypot_good ref_atan2_good fone fhalf p q (delta_phi (Mom (re p) (im p) 0 0) (Mom (re q) (im q) 0 0)) F1 F2) as (_ & H); try assumption.
  - unfold fone. rewrite V1, Rabs_pos_eq; lra.
  - unfold fhalf. rewrite V2. change (bpow radix2 (-1)) with (/ 2). rewrite Rabs_pos_eq; lra.
  - replace (2 * 1 + 2) with 4 in H by ring. exact H.
Qed.
Example C175_case : ref_hypot fzero fzero = fzero /\ forall x, fin x -> 0 < val x -> ref_atan2 fzero x = fzero.
Proof.
  split.
  - unfold ref_hypot. change (val fzero) with 0. replace (0 * 0 + 0 * 0) with 0 by ring. rewrite sqrt_0. apply of_R_0.
  - intros x _ P. unfold ref_atan2. change (val fzero) with 0. rewrite atan2_0_nonneg by lra. apply of_R_0.
Qed.
