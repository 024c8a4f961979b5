(** Pseudorapidity, three-norm and mass in IEEE double arithmetic. *)
From Coq Require Import ZArith Reals List Bool Lia Lra.
From Flocq Require Import Core BinarySingleNaN Mult_error.
From Verif Require Import SpecIEEE Floats FloatBase FloatOps P_Float.
Import ListNotations.
Open Scope R_scope.

(** the double nearest to a real number *)
Definition of_real (r : R) : f64 :=
  let x := nearest r in lit (Ztrunc (scaled_mantissa radix2 (FLT_exp (-1074) 53) x)) (cexp radix2 (FLT_exp (-1074) 53) x).
Lemma of_real_ok : forall r, Rabs (nearest r) < bpow radix2 1024 -> 0 <= r -> val (of_real r) = nearest r /\ fin (of_real r) /\ negative (of_real r) = false.
Proof.
  intros r H P. unfold of_real. cbv zeta. pose proof (nearest_fmt r) as G. assert (N0 : 0 <= nearest r) by (rewrite <- nearest_0; apply nearest_le, P).
  set (x := nearest r) in *. set (m := Ztrunc _). set (e := cexp _ _ _).
  assert (E : F2R (Float radix2 m e) = x) by (symmetry; exact G).
  pose proof (binary_normalize_correct 53 1024 prec_pos prec_emax mode_NE m e false) as C. fold (lit m e) in C.
  cbv zeta in C. repeat match type of C with context [round ?b ?f ?r ?y] => change (round b f r y) with (nearest y) in C end.
  rewrite E in C. rewrite (nearest_id x G) in C. rewrite Rlt_bool_true in C by exact H. destruct C as (A & B & D). split; [exact A|]. split; [exact B|].
  unfold negative. rewrite D. destruct (Rcompare_spec x 0) as [L|L|L]; [lra | reflexivity | reflexivity].
Qed.

(** A correctly rounded hypot exists. *)
Lemma correct_hypot_exists : correct_hypot (fun a b => of_real (sqrt (val a * val a + val b * val b))).
Proof. intros a b Fa Fb H. pose proof (sqrt_pos (val a * val a + val b * val b)) as P.
  destruct (of_real_ok (sqrt (val a * val a + val b * val b))) as (V & F & S); [apply no_overflow; rewrite Rabs_pos_eq; assumption | exact P|].
  split; [exact F|]. split; assumption. Qed.

(** just above a double, less than half a unit away: rounded down to it *)
Lemma nearest_down : forall a x, fmt a -> 0 < a -> a <= x <= a * (1 + u / 2) -> nearest x = a.
Proof.
  intros a x G P [L U]. apply Rle_antisym.
  - unfold nearest. apply (round_N_le_midp radix2 (FLT_exp (-1074) 53)); [exact G|]. rewrite succ_eq_pos by lra.
    pose proof (ulp_FLT_gt radix2 (-1074) 53 a) as UL. rewrite Rabs_pos_eq in UL by lra. cbn [Z.opp] in UL. rewrite <- u_bpow in UL. nra.
  - apply nearest_ge_fmt; assumption.
Qed.

Lemma sqrt_above : forall a b, 0 <= a -> a <= sqrt (a * a + b * b).
Proof. intros a b H. rewrite <- (sqrt_square a) at 1 by exact H. apply sqrt_le_1; [apply Rle_0_sqr | pose proof (Rle_0_sqr a); pose proof (Rle_0_sqr b); unfold Rsqr in *; lra |].
  pose proof (Rle_0_sqr b). unfold Rsqr in *. lra. Qed.
Lemma sq_abs : forall a, a * a = Rabs a * Rabs a.
Proof. intros a. rewrite <- Rabs_mult. symmetry. apply Rabs_pos_eq, Rle_0_sqr. Qed.

Lemma pow_le_huge : forall n, (n <= 1023)%nat -> 2 ^ n <= huge.
Proof. intros n H. unfold huge. apply Rle_pow; [lra | exact H]. Qed.

(** what |p| is, for every momentum of moderate size *)
Lemma norm_main : forall hypot x y z, correct_hypot hypot -> fin x -> fin y -> fin z -> Rabs (val z) <= 2 ^ 1000 -> sqrt (val x * val x + val y * val y) <= 2 ^ 1000 ->
  let pt := hypot x y in let p := hypot z pt in
  fin pt /\ fin p /\ val pt = nearest (sqrt (val x * val x + val y * val y)) /\ 0 <= val pt <= 2 ^ 1000
  /\ val p = nearest (sqrt (Rabs (val z) * Rabs (val z) + val pt * val pt)) /\ Rabs (val z) <= val p.
Proof.
  intros hypot x y z HC Fx Fy Fz Hz Ht pt p.
  pose proof (pow_le_huge 1000 ltac:(lia)) as G.
  destruct (HC x y Fx Fy ltac:(lra)) as (F1 & V1 & _). fold pt in F1, V1.
  assert (B1 : 0 <= val pt <= 2 ^ 1000).
  { rewrite V1. split; [rewrite <- nearest_0; apply nearest_le, sqrt_pos | apply nearest_le_fmt; [rewrite <- (bpow_pos_pow 1000); apply fmt_bpow; lia | exact Ht]]. }
  pose proof (Rabs_pos (val z)) as Az.
  assert (S : sqrt (Rabs (val z) * Rabs (val z) + val pt * val pt) <= huge).
  { apply Rle_trans with (2 ^ 1001); [|apply pow_le_huge; lia]. rewrite <- (sqrt_square (2 ^ 1001)) by (apply pow_le; lra). apply sqrt_le_1_alt.
    change (2 ^ 1001) with (2 * 2 ^ 1000). set (h := 2 ^ 1000) in *. clearbody h.
    assert (Rabs (val z) * Rabs (val z) <= h * h) by (apply Rmult_le_compat; lra). assert (val pt * val pt <= h * h) by (apply Rmult_le_compat; lra).
    pose proof (Rle_0_sqr h). unfold Rsqr in *. lra. }
  destruct (HC z pt Fz F1) as (F2 & V2 & _); [rewrite (sq_abs (val z)); exact S|]. fold p in F2, V2. rewrite (sq_abs (val z)) in V2.
  repeat split; try assumption; try lra.
  rewrite V2. apply nearest_ge_fmt; [apply generic_format_abs, val_fmt | apply sqrt_above, Az].
Qed.

(** * C147 *)

(** The computed cos(theta) is never outside [-1, 1], so arctanh is never NaN for a non-zero momentum, and it is strictly inside
    as soon as pt >= 2^-25 |pz|: the pseudorapidity is then finite. *)
Theorem C147_eta_partial : forall hypot arctanh x y z, correct_hypot hypot -> fin x -> fin y -> fin z ->
  Rabs (val z) <= 2 ^ 1000 -> sqrt (val x * val x + val y * val y) <= 2 ^ 1000 ->
  val z <> 0 \/ min_normal <= sqrt (val x * val x + val y * val y) ->
  (forall c, fin c -> -1 < val c < 1 -> fin (arctanh c)) ->
  fin (f_cos hypot x y z) /\ -1 <= val (f_cos hypot x y z) <= 1
  /\ (/ 2 ^ 25 * Rabs (val z) <= sqrt (val x * val x + val y * val y) -> min_normal <= sqrt (val x * val x + val y * val y) ->
      fin (f_eta hypot arctanh x y z)).
Proof.
  intros hypot arctanh x y z HC Fx Fy Fz Hz Ht NZ HA.
  destruct (norm_main hypot x y z HC Fx Fy Fz Hz Ht) as (F1 & F2 & V1 & B1 & V2 & GE). unfold f_eta, f_cos.
  set (pt := hypot x y) in *. set (p := hypot z pt) in *. set (T := sqrt (val x * val x + val y * val y)) in *.
  pose proof (Rabs_pos (val z)) as Az. pose proof u_pos as U0. pose proof u_small as U1.
  assert (MT : min_normal <= T -> (1 - u) * T <= val pt).
  { intros M. rewrite V1. destruct (rel_normal T) as (e & He & ->); [rewrite Rabs_pos_eq; [exact M | apply sqrt_pos]|]. apply Rabs_le_inv in He.
    assert (0 <= T) by apply sqrt_pos. nra. }
  assert (MN : 0 < min_normal) by (unfold min_normal; apply Rinv_0_lt_compat, pow_lt; lra).
  assert (PP : 0 < val p).
  { destruct NZ as [N|N]; [pose proof (Rabs_pos_lt _ N); lra|]. assert (0 < val pt) by (specialize (MT N); nra).
    rewrite V2. apply Rlt_le_trans with (val pt); [assumption|]. apply nearest_ge_fmt; [apply val_fmt|]. rewrite Rplus_comm. apply sqrt_above. lra. }
  assert (RL : Rabs (val z / val p) <= 1).
  { unfold Rdiv. rewrite Rabs_mult, Rabs_inv, (Rabs_pos_eq (val p)) by lra. apply Rmult_le_reg_r with (val p); [exact PP|].
    rewrite Rmult_assoc, Rinv_l by lra. lra. }
  assert (NL : Rabs (nearest (val z / val p)) <= 1).
  { apply nearest_abs_le; [change 1 with (bpow radix2 0); apply fmt_bpow; lia | exact RL]. }
  destruct (fdiv_ok z p Fz F2) as (V & F & _); [lra | apply Rle_lt_trans with (bpow radix2 0); [exact NL | apply bpow_lt; lia] |].
  split; [exact F|]. split; [rewrite V; apply Rabs_le_inv; exact NL|]. intros HT MT0. specialize (MT MT0). apply HA; [exact F|].
  rewrite V. apply Rabs_lt_inv.
  (* |p| exceeds |z| by enough *)
  set (a := Rabs (val z)) in *.
  destruct (Req_dec a 0) as [Z|Z].
  { replace (val z) with 0 by (symmetry; destruct (Req_dec (val z) 0) as [Q|Q]; [exact Q | apply Rabs_no_R0 in Q; fold a in Q; lra]).
    unfold Rdiv. rewrite Rmult_0_l, nearest_0, Rabs_R0. lra. }
  assert (Pa : 0 < a) by lra.
  assert (Ua : u = / 2 ^ 53) by reflexivity. set (w := / 2 ^ 25) in *. assert (Uw : u = w * w / 8).
  { rewrite Ua. unfold w. change 53%nat with (25 + 25 + 3)%nat. rewrite !pow_add. field. }
  assert (Pw : 0 < w) by (apply Rinv_0_lt_compat, pow_lt; lra).
  assert (Sw : w <= / 1000000). { unfold w. apply Rinv_le_contravar; [lra|]. assert (2 ^ 20 <= 2 ^ 25) by (apply Rle_pow; [lra | lia]). lra. }
  assert (PTa : (1 - u) * w * a <= val pt) by nra.
  assert (SQ : a * (1 + 3 * u) <= sqrt (a * a + val pt * val pt)).
  { rewrite <- (sqrt_square (a * (1 + 3 * u))) by nra. apply sqrt_le_1_alt.
    assert (W2 : ((1 - u) * w * a) * ((1 - u) * w * a) <= val pt * val pt) by (apply Rmult_le_compat; nra).
    assert (X : (1 + 3 * u) * (1 + 3 * u) <= 1 + (1 - u) * w * ((1 - u) * w)).
    { replace ((1 - u) * w * ((1 - u) * w)) with ((1 - u) * (1 - u) * (8 * u)) by (rewrite Uw; field). nra. }
    assert (0 <= a * a) by apply Rle_0_sqr. nra. }
  assert (PB : a * (1 + 3 / 2 * u) <= val p).
  { rewrite V2. set (q := sqrt (a * a + val pt * val pt)) in *.
    assert (Mq : min_normal <= 2 * q).
    { assert (val pt <= q) by (unfold q; rewrite Rplus_comm; apply sqrt_above; lra). assert ((1 - u) * T <= q) by lra. nra. }
    destruct (nearest_err q) as [E|E]; apply Rabs_le_inv in E.
    - rewrite (Rabs_pos_eq q) in E by (apply sqrt_pos). nra.
    - destruct (Rle_lt_dec min_normal q) as [Y|Y].
      + assert (u * min_normal <= u * q) by (apply Rmult_le_compat_l; lra). nra.
      + (* q below the normal range cannot happen: pt itself is a double *) exfalso.
        assert (val pt <= q) by (unfold q; rewrite Rplus_comm; apply sqrt_above; lra).
        assert (min_normal <= val pt). { rewrite V1. apply nearest_ge_fmt; [rewrite min_normal_bpow; apply fmt_bpow; lia | exact MT0]. }
        lra. }
  apply Rle_lt_trans with (1 - u); [|lra].
  apply nearest_abs_le.
  - replace (1 - u) with (IZR (2 ^ 53 - 1) * bpow radix2 (-53)).
    + apply generic_format_FLT. exists (Float radix2 (2 ^ 53 - 1) (-53)); [reflexivity | reflexivity | cbn; lia].
    + rewrite u_bpow, minus_IZR. change (IZR (2 ^ 53)) with (bpow radix2 53). rewrite Rmult_minus_distr_r, <- bpow_plus. change (bpow radix2 (53 + -53)) with 1. ring.
  - unfold Rdiv. rewrite Rabs_mult, Rabs_inv, (Rabs_pos_eq (val p)) by lra. fold a. apply Rmult_le_reg_r with (val p); [exact PP|].
    rewrite Rmult_assoc, Rinv_l, Rmult_1_r by lra. nra.
Qed.

(** ... but a particle with non-zero transverse momentum, pt <= 2^-28 |pz|, has an infinite pseudorapidity in double arithmetic. *)
Theorem C147_eta_refuted : forall hypot arctanh x y z, correct_hypot hypot -> fin x -> fin y -> fin z ->
  / 2 ^ 900 <= val z <= 2 ^ 900 -> sqrt (val x * val x + val y * val y) <= / 2 ^ 28 * val z ->
  arctanh fone = finf -> f_eta hypot arctanh x y z = finf.
Proof.
  intros hypot arctanh x y z HC Fx Fy Fz [Lz Uz] HT HA.
  assert (P9 : 0 < / 2 ^ 900) by (apply Rinv_0_lt_compat, pow_lt; lra).
  assert (Pz : 0 < val z) by lra. assert (L910 : 2 ^ 900 <= 2 ^ 1000) by (apply Rle_pow; [lra | lia]).
  assert (w1 : 0 < / 2 ^ 28 <= 1). { split; [apply Rinv_0_lt_compat, pow_lt; lra|]. rewrite <- Rinv_1. apply Rinv_le_contravar; [lra | apply pow_R1_Rle; lra]. }
  destruct (norm_main hypot x y z HC Fx Fy Fz) as (F1 & F2 & V1 & B1 & V2 & GE); [rewrite Rabs_pos_eq; lra | nra |].
  set (pt := hypot x y) in *. set (p := hypot z pt) in *. rewrite (Rabs_pos_eq (val z)) in * by lra.
  assert (PT : val pt <= / 2 ^ 28 * val z).
  { rewrite V1. apply nearest_le_fmt; [|exact HT].
    pose proof (val_fmt z) as G. rewrite <- (bpow_neg_pow 28). rewrite Rmult_comm. change (- Z.of_nat 28)%Z with (-28)%Z.
    apply mult_bpow_exact_FLT; [exact G|].
    assert (ML : (-899 <= mag radix2 (val z))%Z).
    { apply mag_ge_bpow. rewrite Rabs_pos_eq by lra. change (-899 - 1)%Z with (- Z.of_nat 900)%Z. rewrite bpow_neg_pow. exact Lz. }
    lia. }
  assert (E : val p = val z).
  { rewrite V2. apply nearest_down; [apply val_fmt | exact Pz|]. split; [apply sqrt_above; lra|].
    rewrite <- (sqrt_square (val z * (1 + u / 2))) by (pose proof u_pos; nra). apply sqrt_le_1_alt.
    assert (val pt * val pt <= (/ 2 ^ 28 * val z) * (/ 2 ^ 28 * val z)) by (apply Rmult_le_compat; lra).
    assert (W : / 2 ^ 28 * / 2 ^ 28 <= u).
    { rewrite <- Rinv_mult, <- pow_add. unfold u. apply Rinv_le_contravar; [apply pow_lt; lra | apply Rle_pow; [lra | lia]]. }
    pose proof u_pos. assert (0 <= val z * val z) by apply Rle_0_sqr. nra. }
  unfold f_eta, f_cos. fold pt. fold p.
  assert (Q : fdiv z p = fone).
  { destruct (lit_int 1 ltac:(lia)) as (O1 & O2). fold fone in O1, O2.
    assert (N : nearest (val z / val p) = 1). { rewrite E. unfold Rdiv. rewrite Rinv_r by lra. apply nearest_id. change 1 with (bpow radix2 0). apply fmt_bpow. lia. }
    destruct (fdiv_ok z p Fz F2) as (V & F & S); [lra | rewrite N, Rabs_pos_eq by lra; change 1 with (bpow radix2 0); apply bpow_lt; lia |].
    apply B2R_Bsign_inj; [exact F | exact O2 | change (val (fdiv z p) = val fone); rewrite V, N, O1; reflexivity |].
    change (negative (fdiv z p) = negative fone). rewrite (sign_pos (fdiv z p) F) by (rewrite V, N; lra). reflexivity. }
  rewrite Q. exact HA.
Qed.
Print Assumptions C147_eta_partial.
Print Assumptions C147_eta_refuted.

(** px = 1, py = 0, pz = 2^30 (an angle of about 1e-9 with the beam): the hypotheses of the refutation hold with pt > 0. *)
Example C147_case : fin (lit 1 0) /\ fin fzero /\ fin (lit 1 30) /\ / 2 ^ 900 <= val (lit 1 30) <= 2 ^ 900
  /\ 0 < sqrt (val (lit 1 0) * val (lit 1 0) + val fzero * val fzero) <= / 2 ^ 28 * val (lit 1 30).
Proof.
  destruct (lit_int 1 ltac:(lia)) as (V1 & _). destruct (lit_ok 1 30 ltac:(lia) ltac:(lia)) as (V30 & _).
  split; [reflexivity|]. split; [reflexivity|]. split; [reflexivity|]. rewrite V1, V30. change (val fzero) with 0. change (bpow radix2 30) with (bpow radix2 (Z.of_nat 30)). rewrite (bpow_pos_pow 30).
  assert (1 <= 2 ^ 30) by (apply pow_R1_Rle; lra). assert (2 ^ 30 <= 2 ^ 900) by (apply Rle_pow; [lra | lia]).
  assert (/ 2 ^ 900 <= 1). { rewrite <- Rinv_1. apply Rinv_le_contravar; [lra | lra]. }
  split; [lra|]. replace (1 * 1 + 0 * 0) with 1 by ring. rewrite sqrt_1. split; [lra|].
  change 30%nat with (28 + 2)%nat. rewrite pow_add. rewrite Rmult_1_l, <- Rmult_assoc, Rinv_l by (apply pow_nonzero; lra). lra.
Qed.

(** * C144 *)

Lemma eta_small : 0 < u * min_normal <= u / 1000000000.
Proof. pose proof u_pos. split; [apply Rmult_lt_0_compat; [assumption | unfold min_normal; apply Rinv_0_lt_compat, pow_lt; lra]|].
  unfold Rdiv. apply Rmult_le_compat_l; [lra|]. unfold min_normal. apply Rinv_le_contravar; [lra|].
  assert (2 ^ 30 <= 2 ^ 1022) by (apply Rle_pow; [lra | lia]). lra. Qed.

(** one rescaled component *)
Lemma scaled_one : forall q r, Rabs q <= 1 -> Rabs (r - 1) <= u -> Rabs (nearest (q * r) - q) <= 201 / 100 * u * Rabs q + u * min_normal.
Proof. intros q r Hq Hr. pose proof u_pos. pose proof u_small. pose proof (nearest_err_any (q * r)) as N.
  replace (nearest (q * r) - q) with (nearest (q * r) - q * r + q * (r - 1)) by ring. eapply Rle_trans; [apply Rabs_triang|].
  assert (A : Rabs (q * r) <= 101 / 100 * Rabs q).
  { rewrite Rabs_mult, Rmult_comm. apply Rmult_le_compat_r; [apply Rabs_pos|]. apply Rabs_le_inv in Hr. apply Rabs_le. lra. }
  assert (B : Rabs (q * (r - 1)) <= Rabs q * u) by (rewrite Rabs_mult; apply Rmult_le_compat_l; [apply Rabs_pos | exact Hr]).
  assert (u * Rabs (q * r) <= u * (101 / 100 * Rabs q)) by (apply Rmult_le_compat_l; lra). pose proof (Rabs_pos q). lra. Qed.

Lemma scaled_bound : forall q c, Rabs q <= 1 -> Rabs (c - q) <= 201 / 100 * u * Rabs q + u * min_normal -> Rabs c <= 101 / 100.
Proof. intros q c Hq Hc. pose proof u_pos. pose proof u_small. pose proof eta_small as [E0 E1]. pose proof (Rabs_pos q).
  replace c with (c - q + q) by ring. eapply Rle_trans; [apply Rabs_triang|]. nra. Qed.

Lemma scaled_square : forall q c, Rabs q <= 1 -> Rabs (c - q) <= 201 / 100 * u * Rabs q + u * min_normal ->
  Rabs (nearest (c * c) - q * q) <= 51 / 10 * u * (q * q) + 8 * (u * min_normal).
Proof. intros q c Hq Hc. pose proof u_pos as U0. pose proof u_small as U1. pose proof eta_small as [E0 E1]. pose proof (nearest_err_any (c * c)) as N.
  rewrite (sq_abs q). set (a := Rabs q) in *. assert (Pa : 0 <= a) by apply Rabs_pos. set (h := u * min_normal) in *. clearbody h.
  assert (D : Rabs (c * c - a * a) <= (201 / 100 * u * a + h) * (201 / 100 * a + h)).
  { unfold a. rewrite <- sq_abs. fold a. replace (c * c - q * q) with ((c - q) * (c - q + 2 * q)) by ring. rewrite Rabs_mult. apply Rmult_le_compat; try apply Rabs_pos; [exact Hc|].
    eapply Rle_trans; [apply Rabs_triang|]. rewrite Rabs_mult, (Rabs_pos_eq 2) by lra. fold a. nra. }
  assert (D' : Rabs (c * c - a * a) <= 405 / 100 * u * (a * a) + 3 * h).
  { eapply Rle_trans; [exact D|]. assert (a * h <= h) by nra. assert (0 <= a * h) by (apply Rmult_le_pos; lra). assert (u * (a * h) <= / 100 * (a * h)) by (apply Rmult_le_compat_r; lra).
    assert (h * h <= / 100 * h) by (apply Rmult_le_compat_r; lra). assert (0 <= u * (a * a)) by (apply Rmult_le_pos; [lra | apply Rle_0_sqr]). lra. }
  assert (C : Rabs (c * c) <= a * a + (405 / 100 * u * (a * a) + 3 * h)).
  { replace (c * c) with (c * c - a * a + a * a) by ring. eapply Rle_trans; [apply Rabs_triang|]. rewrite (Rabs_pos_eq (a * a)) by apply Rle_0_sqr. lra. }
  replace (nearest (c * c) - a * a) with (nearest (c * c) - c * c + (c * c - a * a)) by ring. eapply Rle_trans; [apply Rabs_triang|].
  assert (u * Rabs (c * c) <= u * (a * a + (405 / 100 * u * (a * a) + 3 * h))) by (apply Rmult_le_compat_l; lra).
  assert (0 <= a * a) by apply Rle_0_sqr. assert (0 <= u * (a * a)) by (apply Rmult_le_pos; lra).
  assert (u * (u * (a * a)) <= / 1000 * (u * (a * a))) by (apply Rmult_le_compat_r; lra). assert (u * h <= / 1000 * h) by (apply Rmult_le_compat_r; lra).
  clear D C. lra. Qed.

Lemma err_step : forall t q e a, 0 <= q -> Rabs (t - q) <= a -> Rabs e <= u -> Rabs (t * (1 + e) - q) <= 1001 / 1000 * a + u * q.
Proof. intros t q e a Pq Ha He. pose proof u_pos. pose proof u_small. replace (t * (1 + e) - q) with (t - q + t * e) by ring.
  eapply Rle_trans; [apply Rabs_triang|]. assert (Pa : 0 <= a) by (pose proof (Rabs_pos (t - q)); lra).
  assert (Ht : Rabs t <= q + a). { replace t with (t - q + q) by ring. eapply Rle_trans; [apply Rabs_triang|]. rewrite (Rabs_pos_eq q Pq). lra. }
  assert (Rabs (t * e) <= (q + a) * u) by (rewrite Rabs_mult; apply Rmult_le_compat; try apply Rabs_pos; assumption).
  assert (u * a <= / 1000 * a) by (apply Rmult_le_compat_r; lra). lra. Qed.

Lemma sqrt_close : forall r s, 0 <= r -> 0 < s -> Rabs (r * r - s * s) <= 75 / 10 * u * (s * s) -> Rabs (r - s) <= 38 / 10 * u * s.
Proof. intros r s Pr Ps H. pose proof u_pos as U0. pose proof u_small as U1. apply Rabs_le_inv in H. assert (Q : 0 < s * s) by (apply Rmult_lt_0_compat; exact Ps).
  assert (UQ : 0 < u * (s * s)) by (apply Rmult_lt_0_compat; assumption). assert (UUQ : u * (u * (s * s)) <= / 1000 * (u * (s * s))) by (apply Rmult_le_compat_r; lra).
  assert (us : 0 < u * s) by (apply Rmult_lt_0_compat; assumption). assert (us1 : u * s <= / 1000 * s) by (apply Rmult_le_compat_r; lra).
  apply Rabs_le. split.
  - apply Rnot_lt_le. intros L. assert (r * r < (s - 38 / 10 * u * s) * (s - 38 / 10 * u * s)) by (apply Rmult_le_0_lt_compat; lra). lra.
  - apply Rnot_lt_le. intros L. assert ((s + 38 / 10 * u * s) * (s + 38 / 10 * u * s) < r * r) by (apply Rmult_le_0_lt_compat; lra).
    assert (0 <= u * (u * (s * s))) by (apply Rmult_le_pos; lra). lra. Qed.

Lemma fmax_ok : forall x y, fin x -> fin y -> val (fmax x y) = Rmax (val x) (val y) /\ fin (fmax x y).
Proof. intros x y Fx Fy. unfold fmax. pose proof (flt_ok x y Fx Fy) as L. destruct (flt x y).
  - split; [|exact Fy]. rewrite Rmax_right; [reflexivity|]. left. apply L. reflexivity.
  - split; [|exact Fx]. rewrite Rmax_left; [reflexivity|]. apply Rnot_lt_le. intros H. apply L in H. discriminate. Qed.

Lemma feq_zero4 : forall x, fin x -> feq x fzero = true <-> val x = 0.
Proof. intros x F. unfold feq. rewrite Beqb_correct by (assumption || reflexivity). fold (val x). change (B2R fzero) with 0.
  destruct (Req_bool_spec (val x) 0); split; intros; congruence. Qed.

Theorem C144_three_norm : forall x y z, fin x -> fin y -> fin z ->
  let m := Rmax (Rmax (Rabs (val x)) (Rabs (val y))) (Rabs (val z)) in
  / 2 ^ 1021 <= m <= 2 ^ 1021 ->
  exists r, f_three_norm x y z = Some r /\ fin r /\ within 6 (val r) (sqrt (val x * val x + val y * val y + val z * val z)).
Proof.
  intros x y z Fx Fy Fz m [Lm Um]. pose proof u_pos as U0. pose proof u_small as U1. pose proof eta_small as [E0 E1].
  assert (Ax : fin (fabs x)) by (apply fabs_fin; exact Fx). assert (Ay : fin (fabs y)) by (apply fabs_fin; exact Fy). assert (Az : fin (fabs z)) by (apply fabs_fin; exact Fz).
  destruct (fmax_ok _ _ Ax Ay) as (V1 & F1). destruct (fmax_ok _ _ F1 Az) as (V2 & F2). rewrite V1, !fabs_ok in V2. fold m in V2. clear V1 F1.
  unfold f_three_norm. set (mc := fmax (fmax (fabs x) (fabs y)) (fabs z)) in *.
  assert (P21 : 0 < / 2 ^ 1021) by (apply Rinv_0_lt_compat, pow_lt; lra). assert (Pm : 0 < m) by lra.
  destruct (feq mc fzero) eqn:Q; [apply feq_zero4 in Q; [lra | exact F2]|]. clear Q.
  destruct (lit_int 1 ltac:(lia)) as (O1 & O2). fold fone in O1, O2.
  assert (Im : / 2 ^ 1021 <= / m <= 2 ^ 1021).
  { split; [apply Rinv_le_contravar; assumption|]. rewrite <- (Rinv_inv (2 ^ 1021)). apply Rinv_le_contravar; assumption. }
  assert (H21 : 2 ^ 1021 <= huge) by (apply pow_le_huge; lia).
  destruct (fdiv_ok fone mc O2 F2) as (Vr & Fr & _); [lra | apply no_overflow; rewrite O1, V2; unfold Rdiv; rewrite Rmult_1_l, Rabs_pos_eq; lra |].
  rewrite O1, V2 in Vr. unfold Rdiv in Vr. rewrite Rmult_1_l in Vr.
  destruct (rel_normal (/ m)) as (e & He & Ee).
  { rewrite Rabs_pos_eq by lra. apply Rle_trans with (/ 2 ^ 1021); [|lra]. unfold min_normal. apply Rinv_le_contravar; [apply pow_lt; lra | apply Rle_pow; [lra | lia]]. }
  rewrite Ee in Vr. set (rc := fdiv fone mc) in *.
  assert (COMP : forall a, fin a -> Rabs (val a) <= m -> fin (fmul a rc) /\ Rabs (val a / m) <= 1
    /\ Rabs (val (fmul a rc) - val a / m) <= 201 / 100 * u * Rabs (val a / m) + u * min_normal).
  { intros a Fa Ha. assert (Hq : Rabs (val a / m) <= 1).
    { unfold Rdiv. rewrite Rabs_mult, Rabs_inv, (Rabs_pos_eq m) by lra. apply Rmult_le_reg_r with m; [exact Pm|]. rewrite Rmult_assoc, Rinv_l by lra. lra. }
    assert (Eq : val a * val rc = val a / m * (1 + e)) by (rewrite Vr; field; lra).
    assert (S : Rabs (nearest (val a / m * (1 + e)) - val a / m) <= 201 / 100 * u * Rabs (val a / m) + u * min_normal).
    { apply scaled_one; [exact Hq | replace (1 + e - 1) with e by ring; exact He]. }
    destruct (fmul_ok a rc Fa Fr) as (V & F & _).
    { rewrite Eq. pose proof (scaled_bound _ _ Hq S) as B. apply Rle_lt_trans with (bpow radix2 1); [change (bpow radix2 1) with 2; lra | apply bpow_lt; lia]. }
    split; [exact F|]. split; [exact Hq|]. rewrite V, Eq. exact S. }
  assert (SQR : forall a, fin a -> Rabs (val a) <= m -> let p := fmul (fmul a rc) (fmul a rc) in
    fin p /\ Rabs (val p - val a / m * (val a / m)) <= 51 / 10 * u * (val a / m * (val a / m)) + 8 * (u * min_normal) /\ 0 <= val a / m * (val a / m) <= 1).
  { intros a Fa Ha p. destruct (COMP a Fa Ha) as (F & Hq & S). pose proof (scaled_square _ _ Hq S) as T.
    assert (SB : 0 <= val a / m * (val a / m) <= 1).
    { split; [apply Rle_0_sqr|]. rewrite sq_abs. pose proof (Rabs_pos (val a / m)). nra. }
    destruct (fmul_ok _ _ F F) as (V & F' & _); [|split; [exact F'|]; split; [unfold p; rewrite V; exact T | exact SB]].
    apply no_overflow. pose proof (scaled_bound _ _ Hq S) as B. rewrite Rabs_mult. apply Rle_trans with (2 * 2); [|assert (2 ^ 2 <= huge) by (apply pow_le_huge; lia); lra].
    pose proof (Rabs_pos (val (fmul a rc))). apply Rmult_le_compat; lra. }
  assert (Mx : Rabs (val x) <= m) by (unfold m; eapply Rle_trans; [|apply Rmax_l]; apply Rmax_l).
  assert (My : Rabs (val y) <= m) by (unfold m; eapply Rle_trans; [|apply Rmax_l]; apply Rmax_r).
  assert (Mz : Rabs (val z) <= m) by (unfold m; apply Rmax_r).
  destruct (SQR x Fx Mx) as (Gx & Dx & Bx). destruct (SQR y Fy My) as (Gy & Dy & By). destruct (SQR z Fz Mz) as (Gz & Dz & Bz).
  set (px := fmul (fmul x rc) (fmul x rc)) in *. set (py := fmul (fmul y rc) (fmul y rc)) in *. set (pz := fmul (fmul z rc) (fmul z rc)) in *.
  assert (NORM : val x * val x + val y * val y + val z * val z = m * m * (val x / m * (val x / m) + val y / m * (val y / m) + val z / m * (val z / m))) by (field; lra).
  assert (S1 : 1 <= val x / m * (val x / m) + val y / m * (val y / m) + val z / m * (val z / m)).
  { assert (W : forall a, Rabs (val a) = m -> val a / m * (val a / m) = 1) by (intros a Ha; rewrite sq_abs; unfold Rdiv; rewrite Rabs_mult, Rabs_inv, Ha, (Rabs_pos_eq m) by lra; field; lra).
    assert (C : Rabs (val x) = m \/ Rabs (val y) = m \/ Rabs (val z) = m).
    { unfold m, Rmax. repeat destruct Rle_dec; auto. }
    destruct C as [C|[C|C]]; [rewrite (W x C) | rewrite (W y C) | rewrite (W z C)]; lra. }
  rewrite NORM. clear NORM SQR COMP Mx My Mz.
  set (qx := val x / m * (val x / m)) in *. set (qy := val y / m * (val y / m)) in *. set (qz := val z / m * (val z / m)) in *. clearbody qx qy qz.
  set (h := u * min_normal) in *. clearbody h. apply Rabs_le_inv in Dx, Dy, Dz.
  assert (SM : forall t, 0 <= t <= 1 -> 51 / 10 * u * t + 8 * h <= / 1000).
  { intros t [T0 T1]. assert (u * t <= u * 1) by (apply Rmult_le_compat_l; lra). lra. }
  pose proof (SM qx Bx) as SMx. pose proof (SM qy By) as SMy. pose proof (SM qz Bz) as SMz.
  assert (H4 : 4 <= huge) by (assert (2 ^ 2 <= huge) by (apply pow_le_huge; lia); lra).
  destruct (fadd_ok px py Gx Gy) as (Va & Ga); [apply no_overflow; apply Rabs_le; lra|]. destruct (add_rel px py) as (e1 & H1 & R1). rewrite R1 in Va.
  set (sa := fadd px py) in *.
  assert (Ba : Rabs (val sa - (qx + qy)) <= 1001 / 1000 * (51 / 10 * u * (qx + qy) + 16 * h) + u * (qx + qy)).
  { rewrite Va. apply err_step; [lra | apply Rabs_le; lra | exact H1]. }
  assert (UQ : forall t, 0 <= t <= 1 -> 0 <= u * t <= u). { intros t [T0 T1]. split; [apply Rmult_le_pos; lra|]. rewrite <- (Rmult_1_r u) at 2. apply Rmult_le_compat_l; lra. }
  pose proof (UQ qx Bx) as UQx. pose proof (UQ qy By) as UQy. pose proof (UQ qz Bz) as UQz.
  apply Rabs_le_inv in Ba. rewrite !Rmult_plus_distr_l in Ba.
  assert (Bs : Rabs (val sa) <= 21 / 10) by (apply Rabs_le; lra).
  destruct (fadd_ok sa pz Ga Gz) as (Vb & Gb); [apply no_overflow; eapply Rle_trans; [apply Rabs_triang|]; assert (Rabs (val pz) <= 11 / 10) by (apply Rabs_le; lra); lra|].
  destruct (add_rel sa pz) as (e2 & H2 & R2). rewrite R2 in Vb. set (sb := fadd sa pz) in *.
  set (S := qx + qy + qz) in *.
  assert (US : u <= u * S) by (rewrite <- (Rmult_1_r u) at 1; apply Rmult_le_compat_l; lra).
  assert (Bb : Rabs (val sb - S) <= 75 / 10 * u * S).
  { rewrite Vb. eapply Rle_trans; [apply (err_step _ S e2 (615 / 100 * u * S + 25 * h)); [lra | | exact H2]|lra].
    unfold S. apply Rabs_le. lra. }
  assert (S3 : S <= 3) by (unfold S; lra). clearbody S.
  apply Rabs_le_inv in Bb. assert (Psb : 0 < val sb). { assert (u * S <= / 1000 * S) by (apply Rmult_le_compat_r; lra). lra. }
  destruct (fsqrt_ok sb Gb) as (Vq & Gq); [lra|]. destruct (sqrt_rel sb) as (e3 & H3 & R3). rewrite R3 in Vq.
  assert (PS : 0 < sqrt S) by (apply sqrt_lt_R0; lra). assert (QS : sqrt S * sqrt S = S) by (apply sqrt_sqrt; lra).
  assert (SR : Rabs (sqrt (val sb) - sqrt S) <= 38 / 10 * u * sqrt S).
  { assert (P : 0 <= sqrt (val sb)) by apply sqrt_pos. assert (QB : sqrt (val sb) * sqrt (val sb) = val sb) by (apply sqrt_sqrt; lra).
    apply sqrt_close; [exact P | exact PS|]. rewrite QB, QS. apply Rabs_le. exact Bb. }
  apply Rabs_le_inv in SR. set (sq := fsqrt sb) in *.
  assert (W : Rabs (val sq - sqrt S) <= 485 / 100 * u * sqrt S). { rewrite Vq. eapply Rle_trans; [apply (err_step _ (sqrt S) e3 (38 / 10 * u * sqrt S)); [lra | apply Rabs_le; exact SR | exact H3]|].
    assert (0 < u * sqrt S) by (apply Rmult_lt_0_compat; lra). lra. }
  apply Rabs_le_inv in W.
  assert (RS : 1 <= sqrt S <= 2).
  { split; [rewrite <- sqrt_1; apply sqrt_le_1_alt; lra|]. rewrite <- (sqrt_square 2) by lra. apply sqrt_le_1_alt. lra. }
  assert (EX : sqrt (m * m * S) = m * sqrt S) by (rewrite sqrt_mult by (try apply Rle_0_sqr; lra); rewrite sqrt_square by lra; reflexivity).
  rewrite EX. assert (USS : 0 < u * sqrt S <= / 1000 * sqrt S) by (split; [apply Rmult_lt_0_compat | apply Rmult_le_compat_r]; lra).
  assert (Pq : / 2 <= val sq <= 3) by lra.
  assert (Bn : min_normal <= val mc * val sq).
  { rewrite V2. apply Rle_trans with (/ 2 ^ 1021 * / 2); [|apply Rmult_le_compat; lra]. rewrite <- Rinv_mult. unfold min_normal.
    apply Req_le. f_equal. change (2 ^ 1022) with (2 * 2 ^ 1021). ring. }
  assert (MNp : 0 < min_normal) by (unfold min_normal; apply Rinv_0_lt_compat, pow_lt; lra).
  destruct (fmul_ok mc sq F2 Gq) as (Vf & Ff & _).
  { apply no_overflow. rewrite Rabs_pos_eq by lra. rewrite V2. apply Rle_trans with (2 ^ 1021 * 4); [apply Rmult_le_compat; lra|].
    replace (2 ^ 1021 * 4) with (2 ^ 1023) by (change 1023%nat with (1021 + 2)%nat; rewrite pow_add; ring). apply pow_le_huge. lia. }
  destruct (rel_normal (val mc * val sq)) as (e4 & H4' & R4); [rewrite Rabs_pos_eq by lra; exact Bn|]. rewrite R4 in Vf.
  exists (fmul mc sq). split; [reflexivity|]. split; [exact Ff|]. unfold within. rewrite Vf, V2.
  assert (0 < m * sqrt S) by (apply Rmult_lt_0_compat; lra). rewrite (Rabs_pos_eq (m * sqrt S)) by lra.
  replace (m * val sq * (1 + e4) - m * sqrt S) with (m * (val sq * (1 + e4) - sqrt S)) by ring. rewrite Rabs_mult, (Rabs_pos_eq m) by lra.
  replace (6 * u * (m * sqrt S)) with (m * (6 * u * sqrt S)) by ring. apply Rmult_le_compat_l; [lra|].
  eapply Rle_trans; [apply (err_step _ (sqrt S) e4 (485 / 100 * u * sqrt S)); [lra | apply Rabs_le; exact W | exact H4']|lra].
Qed.
Print Assumptions C144_three_norm.

Example C144_case : f_three_norm (lit 1 0) (lit 2 0) (lit (-2) 0) = Some (lit 3 0) /\ f_three_norm fzero fzero fzero = None
  /\ / 2 ^ 1021 <= Rmax (Rmax (Rabs (val (lit 1 0))) (Rabs (val (lit 2 0)))) (Rabs (val (lit (-2) 0))) <= 2 ^ 1021.
Proof.
  split; [|split].
  - replace (f_three_norm (lit 1 0) (lit 2 0) (lit (-2) 0)) with (Some (fmul (lit 2 0) (fsqrt (lit 9 (-2))))).
    + f_equal. apply B2SF_inj. vm_compute. reflexivity.
    + unfold f_three_norm. replace (fmax (fmax (fabs (lit 1 0)) (fabs (lit 2 0))) (fabs (lit (-2) 0))) with (lit 2 0) by (apply B2SF_inj; vm_compute; reflexivity).
      replace (feq (lit 2 0) fzero) with false by (vm_compute; reflexivity). f_equal. apply B2SF_inj; vm_compute; reflexivity.
  - reflexivity.
  - destruct (lit_int 1 ltac:(lia)) as (V1 & _). destruct (lit_int 2 ltac:(lia)) as (V2 & _). destruct (lit_int (-2) ltac:(lia)) as (V3 & _).
    rewrite V1, V2, V3. rewrite (Rabs_pos_eq 1), (Rabs_pos_eq 2), (Rabs_left (-2)) by lra. rewrite (Rmax_right 1 2) by lra. rewrite Rmax_left by lra.
    assert (2 ^ 1 <= 2 ^ 1021) by (apply Rle_pow; [lra | lia]). split; [|lra]. rewrite <- (Rinv_inv 2). apply Rinv_le_contravar; lra.
Qed.
