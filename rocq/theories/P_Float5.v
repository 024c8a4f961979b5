(** The two masses (pmu.mass and combined_mass) in IEEE double arithmetic. *)
From Coq Require Import ZArith Reals List Bool Lia Lra Permutation.
From Flocq Require Import Core BinarySingleNaN.
From Verif Require Import SpecIEEE Floats FloatBase FloatOps P_Float P_Float3 P_Float4.
Import ListNotations.
Open Scope R_scope.

(** * C150 *)

(** If E is a double, E = sqrt(z^2 + T^2) and T is rounded first, the second rounding still returns E. *)
Lemma double_hypot : forall E T z, fmt E -> 0 <= E -> 0 <= T -> E * E = z * z + T * T -> nearest (sqrt (z * z + nearest T * nearest T)) = E.
Proof.
  intros E T z GE PE PT HE.
  assert (TE : T <= E). { apply Rnot_lt_le. intros L. pose proof (Rle_0_sqr z). unfold Rsqr in *. nra. }
  set (t := nearest T). assert (Pt : 0 <= t) by (unfold t; rewrite <- nearest_0; apply nearest_le, PT).
  destruct (Req_dec z 0) as [Z|Z].
  { assert (T = E) by (rewrite Z in HE; apply Rsqr_inj; unfold Rsqr; lra). subst T. unfold t. rewrite (nearest_id E GE), Z.
    replace (0 * 0 + E * E) with (E * E) by ring. rewrite sqrt_square by exact PE. apply nearest_id, GE. }
  assert (Z2 : 0 < z * z) by (assert (0 < Rsqr z) by (apply Rsqr_pos_lt, Z); exact H).
  assert (LT : T < E). { apply Rnot_le_lt. intros L. assert (E * E <= T * T) by (apply Rmult_le_compat; lra). lra. }
  assert (PE' : 0 < E) by lra.
  set (s := sqrt (z * z + t * t)). assert (Ps : 0 <= s) by apply sqrt_pos. assert (Es : s * s = z * z + t * t) by (apply sqrt_sqrt; nra).
  assert (St : t <= s) by (unfold s; rewrite Rplus_comm; apply sqrt_above, Pt).
  assert (st : t < s). { destruct St as [|St]; [assumption|]. rewrite <- St in Es. nra. }
  (* the deviation of s from E is smaller than that of t from T *)
  assert (DEV : (s - E) * (s + E) = (t - T) * (t + T)) by nra.
  set (d := round radix2 (FLT_exp (-1074) 53) Zfloor T).
  assert (Gd : fmt d) by (apply generic_format_round; typeclasses eauto).
  assert (dT : d <= T) by (apply round_DN_pt; typeclasses eauto).
  assert (Pd : 0 <= d). { apply round_ge_generic; try typeclasses eauto; [apply generic_format_0 | exact PT]. }
  assert (dE : d <= pred radix2 (FLT_exp (-1074) 53) E) by (apply pred_ge_gt; try typeclasses eauto; try assumption; lra).
  assert (HU : Rabs (t - T) <= / 2 * ulp radix2 (FLT_exp (-1074) 53) T) by (apply error_le_half_ulp; typeclasses eauto).
  assert (UD : ulp radix2 (FLT_exp (-1074) 53) T = ulp radix2 (FLT_exp (-1074) 53) d) by (symmetry; apply ulp_DN; [typeclasses eauto | exact PT]).
  assert (UP : ulp radix2 (FLT_exp (-1074) 53) d <= ulp radix2 (FLT_exp (-1074) 53) (pred radix2 (FLT_exp (-1074) 53) E)).
  { apply ulp_le_pos; try typeclasses eauto; assumption. }
  assert (PR : pred radix2 (FLT_exp (-1074) 53) E + ulp radix2 (FLT_exp (-1074) 53) (pred radix2 (FLT_exp (-1074) 53) E) = E) by (apply pred_plus_ulp; try typeclasses eauto; assumption).
  assert (UE : ulp radix2 (FLT_exp (-1074) 53) d <= ulp radix2 (FLT_exp (-1074) 53) E) by (apply ulp_le_pos; try typeclasses eauto; lra).
  rewrite UD in HU. set (w := ulp radix2 (FLT_exp (-1074) 53) d) in *. apply Rabs_le_inv in HU.
  apply Rle_antisym.
  - destruct (Rle_lt_dec s E) as [L|L]; [apply nearest_le_fmt; assumption|].
    unfold nearest. apply (round_N_le_midp radix2 (FLT_exp (-1074) 53)); [exact GE|]. rewrite succ_eq_pos by lra.
    assert (s - E < t - T); [|lra]. assert (0 < t - T) by nra. apply Rmult_lt_reg_r with (s + E); [lra|]. rewrite DEV. apply Rmult_lt_compat_l; lra.
  - destruct (Rle_lt_dec E s) as [L|L]; [apply nearest_ge_fmt; assumption|].
    unfold nearest. apply (round_N_ge_midp radix2 (FLT_exp (-1074) 53)); [exact GE|].
    assert (E - s < T - t); [|lra]. assert (t - T < 0) by nra. apply Rmult_lt_reg_r with (s + E); [lra|].
    assert (T - t > 0) by lra. apply Rle_lt_trans with ((T - t) * (t + T)); [nra|]. apply Rmult_lt_compat_l; lra.
Qed.

(** A momentum that is exactly light-like has mass exactly 0, although |p| is computed by two rounded hypots. *)
Theorem C150_massless : forall hypot x y z e, correct_hypot hypot -> fin x -> fin y -> fin z -> fin e ->
  0 <= val e <= 2 ^ 1000 -> val e * val e = val x * val x + val y * val y + val z * val z ->
  val (f_mass hypot x y z e) = 0 /\ fin (f_mass hypot x y z e).
Proof.
  intros hypot x y z e HC Fx Fy Fz Fe He HM.
  assert (Sx : 0 <= val x * val x) by apply Rle_0_sqr. assert (Sy : 0 <= val y * val y) by apply Rle_0_sqr. assert (Sz : 0 <= val z * val z) by apply Rle_0_sqr.
  assert (LE : forall a, 0 <= a -> a <= val e * val e -> sqrt a <= val e).
  { intros a Pa Ha. rewrite <- (sqrt_square (val e)) by lra. apply sqrt_le_1_alt. exact Ha. }
  assert (Hz : Rabs (val z) <= 2 ^ 1000). { rewrite <- sqrt_Rsqr_abs. apply Rle_trans with (val e); [apply LE; unfold Rsqr; lra | lra]. }
  assert (Ht : sqrt (val x * val x + val y * val y) <= 2 ^ 1000) by (apply Rle_trans with (val e); [apply LE; lra | lra]).
  destruct (norm_main hypot x y z HC Fx Fy Fz Hz Ht) as (F1 & F2 & V1 & B1 & V2 & _). unfold f_mass.
  assert (V : val (hypot z (hypot x y)) = val e).
  { rewrite V2, V1. rewrite <- sq_abs. apply double_hypot; [apply val_fmt | lra | apply sqrt_pos |]. rewrite sqrt_sqrt by lra. lra. }
  assert (H21 : 2 ^ 1001 <= huge) by (apply pow_le_huge; lia). change (2 ^ 1001) with (2 * 2 ^ 1000) in H21.
  destruct (C138_root_diff e (hypot z (hypot x y)) Fe F2) as (F & Z & _); [rewrite V, Rabs_pos_eq; lra|].
  split; [|exact F]. apply Z. rewrite V. reflexivity.
Qed.
Print Assumptions C150_massless.

(** (2, 3, 6; 7): |p| goes through sqrt(13), which is not a double. *)
Example C150_case : val (lit 7 0) * val (lit 7 0) = val (lit 2 0) * val (lit 2 0) + val (lit 3 0) * val (lit 3 0) + val (lit 6 0) * val (lit 6 0)
  /\ 0 <= val (lit 7 0) <= 2 ^ 1000 /\ root_diff (lit 7 0) (lit 7 0) = fzero.
Proof.
  destruct (lit_int 2 ltac:(lia)) as (V2 & _). destruct (lit_int 3 ltac:(lia)) as (V3 & _). destruct (lit_int 6 ltac:(lia)) as (V6 & _). destruct (lit_int 7 ltac:(lia)) as (V7 & _).
  rewrite V2, V3, V6, V7. split; [lra|]. split; [|apply B2SF_inj; vm_compute; reflexivity].
  assert (2 ^ 3 <= 2 ^ 1000) by (apply Rle_pow; [lra | lia]). lra.
Qed.

(** * C151 *)

Lemma lipschitz : forall z a b, Rabs (sqrt (z * z + a * a) - sqrt (z * z + b * b)) <= Rabs (a - b).
Proof.
  intros z a b. assert (Pa : 0 <= z * z + a * a) by (pose proof (Rle_0_sqr z); pose proof (Rle_0_sqr a); unfold Rsqr in *; lra).
  assert (Pb : 0 <= z * z + b * b) by (pose proof (Rle_0_sqr z); pose proof (Rle_0_sqr b); unfold Rsqr in *; lra).
  pose proof (sqrt_sqrt _ Pa) as Sa. pose proof (sqrt_sqrt _ Pb) as Sb. set (p := sqrt (z * z + a * a)) in *. set (q := sqrt (z * z + b * b)) in *.
  assert (0 <= p) by apply sqrt_pos. assert (0 <= q) by apply sqrt_pos.
  destruct (Req_dec (p + q) 0) as [Z|Z]; [replace (p - q) with 0 by lra; rewrite Rabs_R0; apply Rabs_pos|].
  assert (AB : Rabs (a + b) <= p + q).
  { eapply Rle_trans; [apply Rabs_triang|]. apply Rplus_le_compat; rewrite <- sqrt_Rsqr_abs; unfold p, q; apply sqrt_le_1_alt; unfold Rsqr; pose proof (Rle_0_sqr z); unfold Rsqr in *; lra. }
  apply Rmult_le_reg_r with (p + q); [lra|]. rewrite <- (Rabs_pos_eq (p + q)) at 1 by lra. rewrite <- Rabs_mult.
  replace ((p - q) * (p + q)) with ((a - b) * (a + b)) by nra. rewrite Rabs_mult. apply Rmult_le_compat_l; [apply Rabs_pos | exact AB].
Qed.

Lemma signed_square : forall a b, Rabs (a * Rabs a - b * Rabs b) <= Rabs (a - b) * (Rabs a + Rabs b).
Proof. intros a b. destruct (Rle_lt_dec 0 a) as [A|A], (Rle_lt_dec 0 b) as [B|B];
    rewrite ?(Rabs_pos_eq a), ?(Rabs_left a), ?(Rabs_pos_eq b), ?(Rabs_left b) by lra.
  - replace (a * a - b * b) with ((a - b) * (a + b)) by ring. rewrite Rabs_mult, (Rabs_pos_eq (a + b)) by lra. lra.
  - rewrite !Rabs_pos_eq by nra. nra.
  - rewrite !Rabs_left by nra. nra.
  - replace (a * - a - b * - b) with ((b - a) * (a + b)) by ring. rewrite Rabs_mult, (Rabs_minus_sym b a), (Rabs_left (a + b)) by lra. lra. Qed.

Lemma signed_root_square : forall d, signed_root d * Rabs (signed_root d) = d.
Proof. intros d. unfold signed_root. destruct (Rlt_dec d 0) as [L|L].
  - rewrite Rabs_Ropp, Rabs_pos_eq by apply sqrt_pos. rewrite Ropp_mult_distr_l_reverse, sqrt_sqrt by lra. ring.
  - rewrite Rabs_pos_eq by apply sqrt_pos. apply sqrt_sqrt. lra. Qed.

(** The signed square of the computed mass is E^2 - |p|^2 up to 16 rounding errors of E^2 + |p|^2. *)
Theorem C151_mass : forall hypot x y z e, correct_hypot hypot -> fin x -> fin y -> fin z -> fin e ->
  let p2 := val x * val x + val y * val y + val z * val z in
  let m := val (f_mass hypot x y z e) in
  Rabs (val e) <= 2 ^ 500 -> / 2 ^ 900 <= sqrt p2 <= 2 ^ 500 ->
  fin (f_mass hypot x y z e) /\ Rabs (m * Rabs m - (val e * val e - p2)) <= 16 * u * (val e * val e + p2).
Proof.
  intros hypot x y z e HC Fx Fy Fz Fe p2 m He [LP UP]. pose proof u_pos as U0. pose proof u_small as U1. pose proof eta_small as [E0 E1].
  assert (P900 : 0 < / 2 ^ 900) by (apply Rinv_0_lt_compat, pow_lt; lra). set (P := sqrt p2) in *.
  assert (Sx : 0 <= val x * val x) by apply Rle_0_sqr. assert (Sy : 0 <= val y * val y) by apply Rle_0_sqr. assert (Sz : 0 <= val z * val z) by apply Rle_0_sqr.
  assert (PP : P * P = p2) by (apply sqrt_sqrt; unfold p2; lra).
  (* eta is negligible beside P *)
  assert (EP : u * min_normal <= / 1000000 * (u * P)).
  { rewrite <- Rmult_assoc, (Rmult_comm _ u), Rmult_assoc. apply Rmult_le_compat_l; [lra|]. apply Rle_trans with (/ 1000000 * / 2 ^ 900); [|apply Rmult_le_compat_l; lra].
    unfold min_normal. rewrite <- Rinv_mult. assert (0 < 2 ^ 900) by (apply pow_lt; lra). apply Rinv_le_contravar; [lra|]. change 1022%nat with (20 + 1002)%nat. rewrite pow_add.
    assert (2 ^ 900 <= 2 ^ 1002) by (apply Rle_pow; [lra | lia]). apply Rmult_le_compat; lra. }
  assert (Tb : sqrt (val x * val x + val y * val y) <= P) by (unfold P, p2; apply sqrt_le_1_alt; lra).
  assert (Zb : Rabs (val z) <= P) by (rewrite <- sqrt_Rsqr_abs; unfold P, p2, Rsqr; apply sqrt_le_1_alt; lra).
  assert (L5 : 2 ^ 500 <= 2 ^ 1000) by (apply Rle_pow; [lra | lia]). assert (P5 : 0 < 2 ^ 500) by (apply pow_lt; lra).
  destruct (norm_main hypot x y z HC Fx Fy Fz) as (F1 & F2 & V1 & B1 & V2 & _); [lra | lra |].
  unfold m, f_mass. clear m. set (pt := hypot x y) in *. set (p := hypot z pt) in *. rewrite <- sq_abs in V2.
  set (T := sqrt (val x * val x + val y * val y)) in *. assert (PT : 0 <= T) by apply sqrt_pos.
  assert (TT : T * T = val x * val x + val y * val y) by (apply sqrt_sqrt; lra).
  pose proof (nearest_err_any T) as N1. rewrite (Rabs_pos_eq T PT), <- V1 in N1.
  pose proof (lipschitz (val z) (val pt) T) as LZ. set (s := sqrt (val z * val z + val pt * val pt)) in *.
  replace (sqrt (val z * val z + T * T)) with P in LZ by (unfold P, p2; f_equal; lra).
  pose proof (nearest_err_any s) as N2. rewrite <- V2 in N2. assert (Ps : 0 <= s) by apply sqrt_pos. rewrite (Rabs_pos_eq s Ps) in N2.
  set (h := u * min_normal) in *.
  assert (uT : u * T <= u * P) by (apply Rmult_le_compat_l; lra).
  assert (UPp : 0 < u * P <= / 1000000 * P) by (split; [apply Rmult_lt_0_compat; lra | apply Rmult_le_compat_r; lra]).
  assert (sB : s <= 10001 / 10000 * P) by (apply Rabs_le_inv in LZ; lra).
  assert (us : u * s <= 10001 / 10000 * (u * P)). { apply Rle_trans with (u * (10001 / 10000 * P)); [apply Rmult_le_compat_l; lra | lra]. }
  assert (DP : Rabs (val p - P) <= 201 / 100 * (u * P)).
  { replace (val p - P) with (val p - s + (s - P)) by ring. eapply Rle_trans; [apply Rabs_triang|]. lra. }
  clear N1 N2 LZ. assert (Bp : 0 <= val p <= 10001 / 10000 * P) by (apply Rabs_le_inv in DP; lra).
  assert (DP2 : Rabs (val p * val p - p2) <= 41 / 10 * (u * p2)).
  { rewrite <- PP. replace (val p * val p - P * P) with ((val p - P) * (val p + P)) by ring. rewrite Rabs_mult, (Rabs_pos_eq (val p + P)) by lra.
    apply Rle_trans with (201 / 100 * (u * P) * (20001 / 10000 * P)); [apply Rmult_le_compat; try apply Rabs_pos; lra|]. 
    assert (0 <= u * (P * P)) by (apply Rmult_le_pos; [lra | apply Rle_0_sqr]). lra. }
  assert (H51 : 4 * 2 ^ 500 <= huge) by (replace (4 * 2 ^ 500) with (2 ^ 502) by (change 502%nat with (500 + 2)%nat; rewrite pow_add; ring); apply pow_le_huge; lia).
  destruct (C138_root_diff e p Fe F2) as (F & _ & _ & _ & D); [rewrite (Rabs_pos_eq (val p)) by lra; lra|]. split; [exact F|].
  set (r := val (root_diff e p)) in *. set (ex := signed_root (val e * val e - val p * val p)) in *. fold h in D. clearbody h.
  pose proof (signed_square r ex) as SS. assert (XX : ex * Rabs ex = val e * val e - val p * val p) by apply signed_root_square. rewrite XX in SS.
  assert (EX : Rabs ex * Rabs ex = Rabs (val e * val e - val p * val p)) by (rewrite <- (signed_root_square (val e * val e - val p * val p)); fold ex; rewrite Rabs_mult, Rabs_Rabsolu; reflexivity).
  assert (SE : 0 <= val e * val e) by apply Rle_0_sqr. set (e2 := val e * val e) in *.
  assert (X2 : Rabs ex * Rabs ex <= e2 + 10003 / 10000 * p2).
  { rewrite EX. assert (val p * val p <= 10001 / 10000 * P * (10001 / 10000 * P)) by (apply Rmult_le_compat; lra). assert (0 <= val p * val p) by apply Rle_0_sqr.
    apply Rabs_le. split; lra. }
  set (a := Rabs ex) in *. assert (Pa : 0 <= a) by apply Rabs_pos.
  assert (hS : h <= / 1000000 * u * P) by lra.
  (* |r - ex| (|r| + |ex|) *)
  assert (RX : Rabs r <= a + (5 * u * a + h)). { replace r with (r - ex + ex) by ring. eapply Rle_trans; [apply Rabs_triang|]. fold a. lra. }
  assert (ua : 0 <= u * a <= / 1000000 * a) by (split; [apply Rmult_le_pos | apply Rmult_le_compat_r]; lra).
  assert (PRO : Rabs (r - ex) * (Rabs r + a) <= (5 * u * a + h) * (20001 / 10000 * a + h)).
  { apply Rmult_le_compat; try apply Rabs_pos; [pose proof (Rabs_pos r); lra | exact D | lra]. }
  assert (AH : a * h <= / 1000000 * u * (e2 + 10003 / 10000 * p2 + p2)).
  { apply Rle_trans with (a * (/ 1000000 * u * P)); [apply Rmult_le_compat_l; assumption|].
    assert (AP : a * P <= a * a + P * P) by (pose proof (Rle_0_sqr (a - P)); unfold Rsqr in *; pose proof (Rle_0_sqr a); pose proof (Rle_0_sqr P); unfold Rsqr in *; lra).
    replace (a * (/ 1000000 * u * P)) with (/ 1000000 * u * (a * P)) by ring. apply Rmult_le_compat_l; lra. }
  assert (HH : h * h <= / 1000000 * (u * p2)).
  { apply Rle_trans with (/ 1000000 * (u * P) * P); [apply Rmult_le_compat; try lra|rewrite <- PP; lra]. }
  assert (UA2 : u * (a * a) <= u * (e2 + 10003 / 10000 * p2)) by (apply Rmult_le_compat_l; lra).
  assert (UAH : u * (a * h) <= / 1000000 * (a * h)) by (apply Rmult_le_compat_r; [apply Rmult_le_pos; lra | lra]).
  assert (p2p : 0 <= p2) by (unfold p2; lra).
  assert (UE2 : 0 <= u * e2) by (apply Rmult_le_pos; lra). assert (UP2 : 0 <= u * p2) by (apply Rmult_le_pos; lra).
  replace (r * Rabs r - (e2 - p2)) with (r * Rabs r - (e2 - val p * val p) + - (val p * val p - p2)) by ring. eapply Rle_trans; [apply Rabs_triang|].
  rewrite Rabs_Ropp. assert (0 <= a * h) by (apply Rmult_le_pos; lra). fold a in SS. clear EX. lra.
Qed.
Print Assumptions C151_mass.

(** * C149 *)

Lemma square_neg : forall x, fin x -> Rabs (val x) <= 2 ^ 500 ->
  fin (fmul (fmul x x) (lit (-1) 0)) /\ val (fmul (fmul x x) (lit (-1) 0)) = - nearest (val x * val x)
  /\ fin (fmul (fmul x x) fone) /\ val (fmul (fmul x x) fone) = nearest (val x * val x).
Proof.
  intros x F H. assert (B : Rabs (val x * val x) <= 2 ^ 1000).
  { rewrite Rabs_mult. replace (2 ^ 1000) with (2 ^ 500 * 2 ^ 500) by (rewrite <- pow_add; reflexivity). apply Rmult_le_compat; try apply Rabs_pos; assumption. }
  pose proof (pow_le_huge 1000 ltac:(lia)) as G.
  destruct (fmul_ok x x F F) as (V & F' & _); [apply no_overflow; lra|].
  destruct (lit_int (-1) ltac:(lia)) as (Vm & Fm). destruct (lit_int 1 ltac:(lia)) as (V1 & F1). fold fone in V1, F1.
  assert (N : nearest (nearest (val x * val x)) = nearest (val x * val x)) by (apply nearest_id, nearest_fmt).
  assert (O : Rabs (nearest (val x * val x)) < bpow radix2 1024) by (apply no_overflow; lra).
  destruct (fmul_ok _ _ F' Fm) as (A & B' & _). { rewrite Vm, V. replace (nearest (val x * val x) * -1) with (- nearest (val x * val x)) by ring. rewrite nearest_opp, N, Rabs_Ropp. exact O. }
  destruct (fmul_ok _ _ F' F1) as (C & D & _). { rewrite V1, V, Rmult_1_r, N. exact O. }
  split; [exact B'|]. split; [|split; [exact D|]].
  - rewrite A, Vm, V. replace (nearest (val x * val x) * -1) with (- nearest (val x * val x)) by ring. rewrite nearest_opp, N. reflexivity.
  - rewrite C, V1, V, Rmult_1_r. exact N.
Qed.

(** The square of the computed combined mass is E^2 - |p|^2, or 0 when that is negative, up to 7 rounding errors of E^2 + |p|^2, whatever the order of
    addition. *)
Theorem C149_combined : forall x y z e t, fin x -> fin y -> fin z -> fin e ->
  Rabs (val x) <= 2 ^ 500 -> Rabs (val y) <= 2 ^ 500 -> Rabs (val z) <= 2 ^ 500 -> Rabs (val e) <= 2 ^ 500 ->
  Permutation (leaves t) (f_minkowski x y z e) ->
  let p2 := val x * val x + val y * val y + val z * val z in
  let r := f_combined t in
  fin r /\ 0 <= val r /\ Rabs (val r * val r - Rmax 0 (val e * val e - p2)) <= 7 * u * (val e * val e + p2) + 8 * u * min_normal.
Proof.
  intros x y z e t Fx Fy Fz Fe Hx Hy Hz He HP p2 r. pose proof u_pos as U0. pose proof u_small as U1. pose proof eta_small as [E0 E1].
  destruct (square_neg x Fx Hx) as (Gx & Wx & _). destruct (square_neg y Fy Hy) as (Gy & Wy & _). destruct (square_neg z Fz Hz) as (Gz & Wz & _).
  destruct (square_neg e Fe He) as (_ & _ & Ge & We).
  destruct (total_perm _ _ HP) as (Q1 & Q2).
  assert (NS : forall a : f64, 0 <= nearest (val a * val a) /\ Rabs (nearest (val a * val a) - val a * val a) <= u * (val a * val a) + u * min_normal /\ 0 <= val a * val a).
  { intros a. assert (0 <= val a * val a) by apply Rle_0_sqr. split; [rewrite <- nearest_0; apply nearest_le; assumption|]. split; [|assumption].
    pose proof (nearest_err_any (val a * val a)) as N. rewrite (Rabs_pos_eq (val a * val a)) in N by assumption. exact N. }
  destruct (NS x) as (Nx & Dx & Sx). destruct (NS y) as (Ny & Dy & Sy). destruct (NS z) as (Nz & Dz & Sz). destruct (NS e) as (Ne & De & Se).
  unfold total, total_abs, f_minkowski in Q1, Q2. cbn [map fold_right] in Q1, Q2. rewrite Wx, Wy, Wz, We in Q1, Q2. rewrite !Rabs_Ropp, !Rabs_pos_eq in Q2 by assumption.
  fold (total (leaves t)) in Q1. fold (total_abs (leaves t)) in Q2.
  assert (HL : length (leaves t) = 4%nat) by (rewrite (Permutation_length HP); reflexivity).
  assert (HF : Forall fin (leaves t)). { apply (Permutation_Forall (Permutation_sym HP)). unfold f_minkowski. repeat (constructor; [assumption|]). constructor. }
  set (h := u * min_normal) in *. replace (8 * u * min_normal) with (8 * h) by (unfold h; ring). unfold p2. set (x2 := val x * val x) in *. set (y2 := val y * val y) in *. set (z2 := val z * val z) in *. set (e2 := val e * val e) in *.
  set (nx := nearest x2) in *. set (ny := nearest y2) in *. set (nz := nearest z2) in *. set (ne := nearest e2) in *.
  assert (SB : forall a, Rabs (val a) <= 2 ^ 500 -> val a * val a <= 2 ^ 1000).
  { intros a Ha. rewrite sq_abs. replace (2 ^ 1000) with (2 ^ 500 * 2 ^ 500) by (rewrite <- pow_add; reflexivity). apply Rmult_le_compat; try apply Rabs_pos; assumption. }
  pose proof (SB x Hx) as Mx. pose proof (SB y Hy) as My. pose proof (SB z Hz) as Mz. pose proof (SB e He) as Me. fold x2 in Mx. fold y2 in My. fold z2 in Mz. fold e2 in Me.
  assert (UX : forall a, 0 <= a -> 0 <= u * a <= / 1000000 * a) by (intros a Ha; split; [apply Rmult_le_pos | apply Rmult_le_compat_r]; lra).
  pose proof (UX _ Sx) as UX1. pose proof (UX _ Sy) as UX2. pose proof (UX _ Sz) as UX3. pose proof (UX _ Se) as UX4.
  clearbody h x2 y2 z2 e2 nx ny nz ne. apply Rabs_le_inv in Dx, Dy, Dz, De.
  assert (P1000 : 1 <= 2 ^ 1000) by (apply pow_R1_Rle; lra).
  assert (G : 8 * 2 ^ 1000 <= huge) by (replace (8 * 2 ^ 1000) with (2 ^ 1003) by (change 1003%nat with (1000 + 3)%nat; rewrite pow_add; ring); apply pow_le_huge; lia).
  assert (C3 : 0 <= (1 + u) ^ 3 - 1 <= 301 / 100 * u). { cbn [pow]. rewrite !Rmult_1_r. assert (0 <= u * u <= / 1000000 * u) by (apply UX; lra). assert (0 <= u * (u * u) <= / 1000000 * u) by (split; [apply Rmult_le_pos; lra | nra]). split; lra. }
  destruct (C145_sum t 3 HL HF) as (Fs & Ds).
  { rewrite Q2. eapply Rle_trans; [|exact G]. apply Rle_trans with (101 / 100 * (nx + (ny + (nz + (ne + 0))))); [apply Rmult_le_compat_r; lra|]. set (g := 2 ^ 1000) in *. clearbody g. lra. }
  rewrite Q1, Q2 in Ds. set (s := f_sum t) in *.
  assert (QT : ((1 + u) ^ 3 - 1) * (nx + (ny + (nz + (ne + 0)))) <= 301 / 100 * u * (nx + (ny + (nz + (ne + 0))))) by (apply Rmult_le_compat_r; lra).
  assert (UN : u * (nx + (ny + (nz + (ne + 0)))) <= 1000001 / 1000000 * (u * (x2 + y2 + z2 + e2)) + / 1000 * h).
  { apply Rle_trans with (u * (1000001 / 1000000 * (x2 + y2 + z2 + e2) + 4 * h)); [apply Rmult_le_compat_l; lra|]. assert (u * h <= / 1000000 * h) by (apply Rmult_le_compat_r; lra). lra. }
  assert (D1 : Rabs (val s - (e2 - (x2 + y2 + z2))) <= 402 / 100 * (u * (e2 + (x2 + y2 + z2))) + 41 / 10 * h).
  { apply Rabs_le_inv in Ds. apply Rabs_le. lra. }
  set (D := e2 - (x2 + y2 + z2)) in *. set (Q := e2 + (x2 + y2 + z2)) in *. assert (DQ : Rabs D <= Q) by (apply Rabs_le; unfold D, Q; lra).
  assert (PQ : 0 <= Q) by (unfold Q; lra). assert (UQ : 0 <= u * Q <= / 1000000 * Q) by (apply UX; exact PQ). clearbody D Q. apply Rabs_le_inv in D1, DQ.
  unfold r, f_combined. fold s. pose proof (flt_ok s fzero Fs eq_refl) as LT. change (val fzero) with 0 in LT. destruct (flt s fzero) eqn:K.
  - assert (N : val s < 0) by (apply LT; reflexivity). change (val fzero) with 0. split; [reflexivity|]. split; [lra|]. rewrite Rmult_0_l.
    unfold Rmax. destruct (Rle_dec 0 D); apply Rabs_le; lra.
  - assert (N : 0 <= val s) by (apply Rnot_lt_le; intros N; apply LT in N; discriminate).
    destruct (fsqrt_ok s Fs N) as (Vr & Fr). destruct (sqrt_rel s) as (f & Hf & Ef). rewrite Ef in Vr. split; [exact Fr|].
    pose proof (sqrt_pos (val s)) as PS. pose proof (sqrt_sqrt (val s) N) as SS. pose proof Hf as Hf'. apply Rabs_le_inv in Hf. split; [rewrite Vr; apply Rmult_le_pos; lra|].
    assert (RR : Rabs (val (fsqrt s) * val (fsqrt s) - val s) <= 201 / 100 * (u * val s)).
    { rewrite Vr. replace (sqrt (val s) * (1 + f) * (sqrt (val s) * (1 + f)) - val s) with (val s * (f * (2 + f))) by (rewrite <- SS at 1; nra).
      rewrite Rabs_mult, (Rabs_pos_eq (val s)) by exact N. replace (201 / 100 * (u * val s)) with (val s * (u * (201 / 100))) by ring. apply Rmult_le_compat_l; [exact N|].
      rewrite Rabs_mult. apply Rmult_le_compat; try apply Rabs_pos; [exact Hf' | apply Rabs_le; lra]. }
    assert (us : u * val s <= 11 / 10 * (u * Q) + / 1000 * h).
    { apply Rle_trans with (u * (11 / 10 * Q + 41 / 10 * h)); [apply Rmult_le_compat_l; lra|]. assert (u * h <= / 1000000 * h) by (apply Rmult_le_compat_r; lra). lra. }
    apply Rabs_le_inv in RR. unfold Rmax. destruct (Rle_dec 0 D); apply Rabs_le; lra.
Qed.
Print Assumptions C149_combined.

(** The mass of one particle and its combined mass differ by more than a quarter, for E - pz of one unit in the last place. *)
Theorem C193_combined_refuted : exists z e t, fin z /\ fin e /\ leaves t = f_minkowski fzero fzero z e /\
  forall hypot, correct_hypot hypot ->
  0 < val (f_combined t) < 3 / 4 * val (f_mass hypot fzero fzero z e).
Proof.
  set (z := lit 2234314905104735 (-50)). set (e := lit 8937259620418941 (-52)).
  exists z, e. exists (Node (Node (Node (Leaf (fmul (fmul fzero fzero) (lit (-1) 0))) (Leaf (fmul (fmul fzero fzero) (lit (-1) 0))))
                            (Leaf (fmul (fmul z z) (lit (-1) 0)))) (Leaf (fmul (fmul e e) fone))).
  split; [reflexivity|]. split; [reflexivity|]. split; [reflexivity|]. intros hypot HC.
  destruct (lit_ok 2234314905104735 (-50) ltac:(lia) ltac:(lia)) as (Vz & Fz). fold z in Vz, Fz.
  assert (B50 : 0 < bpow radix2 (-50)) by apply bpow_gt_0. assert (Pz : 0 < val z) by (rewrite Vz; apply Rmult_lt_0_compat; lra).
  assert (Bz : val z <= 2 ^ 1000).
  { rewrite Vz. apply Rle_trans with (bpow radix2 53 * bpow radix2 (-50)); [apply Rmult_le_compat_r; [lra | change (bpow radix2 53) with (IZR (2 ^ 53)); apply IZR_le; lia]|].
    rewrite <- bpow_plus, <- (bpow_pos_pow 1000). apply bpow_le. lia. }
  assert (Z0 : val fzero = 0) by reflexivity. assert (P1000 : 0 < 2 ^ 1000) by (apply pow_lt; lra).
  destruct (norm_main hypot fzero fzero z HC eq_refl eq_refl Fz) as (F1 & F2 & V1 & _ & V2 & _);
    [rewrite Rabs_pos_eq; lra | rewrite Z0; replace (0 * 0 + 0 * 0) with 0 by ring; rewrite sqrt_0; lra |].
  rewrite Z0 in V1. replace (0 * 0 + 0 * 0) with 0 in V1 by ring. rewrite sqrt_0, nearest_0 in V1. rewrite V1 in V2.
  rewrite (Rabs_pos_eq (val z)) in V2 by lra. replace (val z * val z + 0 * 0) with (val z * val z) in V2 by ring. rewrite sqrt_square in V2 by lra. rewrite nearest_id in V2 by apply val_fmt.
  assert (EZ : hypot z (hypot fzero fzero) = z).
  { apply B2R_Bsign_inj; [exact F2 | exact Fz | exact V2|]. change (negative (hypot z (hypot fzero fzero)) = negative z).
    rewrite (sign_pos _ F2) by lra. reflexivity. }
  unfold f_mass. rewrite EZ.
  replace (root_diff e z) with (lit 8972161288812425 (-78)) by (apply B2SF_inj; vm_compute; reflexivity).
  match goal with |- context [f_combined ?t] => replace (f_combined t) with (lit 6369051672525773 (-78)) by (apply B2SF_inj; vm_compute; reflexivity) end.
  destruct (lit_ok 8972161288812425 (-78) ltac:(lia) ltac:(lia)) as (-> & _). destruct (lit_ok 6369051672525773 (-78) ltac:(lia) ltac:(lia)) as (-> & _).
  pose proof (bpow_gt_0 radix2 (-78)). lra.
Qed.
Print Assumptions C193_combined_refuted.

(** The hypotheses of C149 and C151 for the momentum (1, 2, 2; 5), of mass 4. *)
Example C149_case : exists t, Permutation (leaves t) (f_minkowski (lit 1 0) (lit 2 0) (lit 2 0) (lit 5 0)) /\ f_combined t = lit 4 0
  /\ Rabs (val (lit 5 0)) <= 2 ^ 500
  /\ / 2 ^ 900 <= sqrt (val (lit 1 0) * val (lit 1 0) + val (lit 2 0) * val (lit 2 0) + val (lit 2 0) * val (lit 2 0)) <= 2 ^ 500.
Proof.
  exists (Node (Node (Leaf (fmul (fmul (lit 1 0) (lit 1 0)) (lit (-1) 0))) (Leaf (fmul (fmul (lit 2 0) (lit 2 0)) (lit (-1) 0))))
               (Node (Leaf (fmul (fmul (lit 2 0) (lit 2 0)) (lit (-1) 0))) (Leaf (fmul (fmul (lit 5 0) (lit 5 0)) fone)))).
  split; [apply Permutation_refl|]. split; [apply B2SF_inj; vm_compute; reflexivity|].
  destruct (lit_int 1 ltac:(lia)) as (-> & _). destruct (lit_int 2 ltac:(lia)) as (-> & _). destruct (lit_int 5 ltac:(lia)) as (-> & _).
  assert (2 ^ 3 <= 2 ^ 500) by (apply Rle_pow; [lra | lia]). rewrite Rabs_pos_eq by lra. split; [lra|].
  replace (1 * 1 + 2 * 2 + 2 * 2) with (3 * 3) by ring. rewrite sqrt_square by lra. split; [|lra].
  apply Rle_trans with (/ 1); [apply Rinv_le_contravar; [lra | apply pow_R1_Rle; lra] | lra].
Qed.
