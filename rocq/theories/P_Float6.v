(** The C-parameter in IEEE double arithmetic. *)
From Coq Require Import ZArith Reals List Bool Lia Lra.
From Flocq Require Import Core BinarySingleNaN.
From Verif Require Import SpecReal SpecShapes RealBase ShapesProofs SpecIEEE Floats FloatBase FloatOps P_Float P_Float2 P_Float3 P_Float4 Floats2.
Import ListNotations.
Open Scope R_scope.

(** The real momentum of a record. *)
Definition mom_of (p : rec3) : mom := Mom (val (fst (fst p))) (val (snd (fst p))) (val (snd p)) 0.
Definition fin3 (p : rec3) : Prop := fin (fst (fst p)) /\ fin (snd (fst p)) /\ fin (snd p).
(** A 3-momentum whose length is neither extremely small nor extremely large. *)
Definition moderate (p : rec3) : Prop := fin3 p /\ / 2 ^ 240 <= norm3 (mom_of p) <= 2 ^ 240.

(** * Error steps: absolute errors c * u * m at scale m *)

Definition near (c m x X : R) : Prop := Rabs (x - X) <= c * u * m.
(** Neither rounding to a subnormal nor overflow matters at this scale. *)
Definition scale (m : R) : Prop := 1000000000 * min_normal <= m <= 2 ^ 960.

Lemma u_tiny : 0 < u <= / 1000000000000000. Proof. split; [apply u_pos | apply u_small]. Qed.
Lemma mn_pos : 0 < min_normal. Proof. apply Rinv_0_lt_compat, pow_lt. lra. Qed.

Lemma near_bound : forall c m x X B, 0 <= c -> c * u <= / 1000 -> 0 <= m -> Rabs X <= B * m -> near c m x X -> Rabs x <= (B + / 1000) * m.
Proof.
  intros c m x X B C0 CU M0 HX H. unfold near in H. assert (c * u * m <= / 1000 * m) by (apply Rmult_le_compat_r; lra).
  replace x with ((x - X) + X) by ring. eapply Rle_trans; [apply Rabs_triang|]. lra.
Qed.

Lemma near_round : forall c m x X B, 0 <= c -> c * u <= / 1000 -> 0 <= B -> 1000000000 * min_normal <= m ->
  Rabs X <= B * m -> near c m x X -> near (c + B + / 100) m (nearest x) X.
Proof.
  intros c m x X B C0 CU HB Hm HX H. pose proof mn_pos as MN. pose proof (near_bound c m x X B C0 CU ltac:(lra) HX H) as AX.
  unfold near in *. pose proof u_tiny as [U0 U1]. pose proof (nearest_err_any x) as N.
  assert (UM : 0 <= u * m) by (apply Rmult_le_pos; lra).
  assert (N1 : u * Rabs x <= u * ((B + / 1000) * m)) by (apply Rmult_le_compat_l; lra).
  assert (N2 : u * min_normal <= u * (/ 1000000000 * m)) by (apply Rmult_le_compat_l; lra).
  replace (nearest x - X) with ((nearest x - x) + (x - X)) by ring.
  eapply Rle_trans; [apply Rabs_triang|].
  replace ((c + B + / 100) * u * m) with (c * u * m + u * (B * m) + / 100 * (u * m)) by ring.
  replace (u * ((B + / 1000) * m)) with (u * (B * m) + / 1000 * (u * m)) in N1 by ring.
  replace (u * (/ 1000000000 * m)) with (/ 1000000000 * (u * m)) in N2 by ring. lra.
Qed.

Lemma near_mult : forall c d m n x X y Y B D, 0 <= c -> 0 <= d -> c * d * u <= / 100 -> 0 <= m -> 0 <= n -> 0 <= B -> 0 <= D ->
  Rabs X <= B * m -> Rabs Y <= D * n -> near c m x X -> near d n y Y -> near (c * D + d * B + / 100) (m * n) (x * y) (X * Y).
Proof.
  intros c d m n x X y Y B D Hc Hd CD Hm Hn HB HD HX HY H1 H2. unfold near in *. pose proof u_tiny as [U0 U1].
  replace (x * y - X * Y) with ((x - X) * Y + X * (y - Y) + (x - X) * (y - Y)) by ring.
  assert (A1 : Rabs ((x - X) * Y) <= c * u * m * (D * n)) by (rewrite Rabs_mult; apply Rmult_le_compat; try apply Rabs_pos; lra).
  assert (A2 : Rabs (X * (y - Y)) <= B * m * (d * u * n)) by (rewrite Rabs_mult; apply Rmult_le_compat; try apply Rabs_pos; lra).
  assert (A3 : Rabs ((x - X) * (y - Y)) <= c * u * m * (d * u * n)) by (rewrite Rabs_mult; apply Rmult_le_compat; try apply Rabs_pos; lra).
  assert (MN : 0 <= u * (m * n)) by (apply Rmult_le_pos; [lra | apply Rmult_le_pos; lra]).
  assert (A4 : c * u * m * (d * u * n) <= / 100 * (u * (m * n))).
  { replace (c * u * m * (d * u * n)) with (c * d * u * (u * (m * n))) by ring. apply Rmult_le_compat_r; assumption. }
  eapply Rle_trans; [apply Rabs_triang|]. eapply Rle_trans; [apply Rplus_le_compat_r, Rabs_triang|].
  replace ((c * D + d * B + / 100) * u * (m * n)) with (c * u * m * (D * n) + B * m * (d * u * n) + / 100 * (u * (m * n))) by ring. lra.
Qed.

Lemma near_add : forall c d m x X y Y, near c m x X -> near d m y Y -> near (c + d) m (x + y) (X + Y).
Proof.
  intros c d m x X y Y H1 H2. unfold near in *. replace (x + y - (X + Y)) with ((x - X) + (y - Y)) by ring.
  eapply Rle_trans; [apply Rabs_triang|]. replace ((c + d) * u * m) with (c * u * m + d * u * m) by ring. lra.
Qed.
Lemma near_sub : forall c d m x X y Y, near c m x X -> near d m y Y -> near (c + d) m (x - y) (X - Y).
Proof.
  intros c d m x X y Y H1 H2. unfold near in *. replace (x - y - (X - Y)) with ((x - X) + - (y - Y)) by ring.
  eapply Rle_trans; [apply Rabs_triang|]. rewrite Rabs_Ropp. replace ((c + d) * u * m) with (c * u * m + d * u * m) by ring. lra.
Qed.
Lemma near_acc : forall c d m n x X y Y, near c m x X -> near d n y Y -> d <= c -> 0 <= n -> near c (m + n) (x + y) (X + Y).
Proof.
  intros c d m n x X y Y H1 H2 H N. unfold near in *. pose proof u_tiny as [U0 U1]. replace (x + y - (X + Y)) with ((x - X) + (y - Y)) by ring.
  eapply Rle_trans; [apply Rabs_triang|]. assert (d * u * n <= c * u * n) by (apply Rmult_le_compat_r; [lra | apply Rmult_le_compat_r; lra]). lra.
Qed.
Lemma near_times : forall k c m x X, 0 <= k -> near c m x X -> near (k * c) m (k * x) (k * X).
Proof.
  intros k c m x X K H. unfold near in *. replace (k * x - k * X) with (k * (x - X)) by ring. rewrite Rabs_mult, (Rabs_pos_eq k) by exact K.
  replace (k * c * u * m) with (k * (c * u * m)) by ring. apply Rmult_le_compat_l; assumption.
Qed.
Lemma near_weak : forall c d m n x X, c <= d -> 0 <= c -> 0 <= m <= n -> near c m x X -> near d n x X.
Proof.
  intros c d m n x X H C M N. unfold near in *. pose proof u_tiny as [U0 U1]. eapply Rle_trans; [exact N|].
  apply Rmult_le_compat; try lra; [apply Rmult_le_pos; lra | apply Rmult_le_compat_r; lra].
Qed.
Lemma near_exact : forall m x, 0 <= m -> near 0 m x x.
Proof. intros m x M. unfold near. replace (x - x) with 0 by ring. rewrite Rabs_R0. lra. Qed.

(** Dividing a number of size m * k by one close to m. *)
Lemma near_div : forall c d m k x X y B, 0 <= c -> 0 <= d -> d * u <= / 10000 -> 0 < m -> 0 <= k -> 0 <= B -> Rabs X <= B * (m * k) ->
  near c (m * k) x X -> near d m y m -> near ((c + B * d) * (1001 / 1000)) k (x / y) (X / m).
Proof.
  intros c d m k x X y B Hc Hd DU Hm Hk HB HX H1 H2. unfold near in *. pose proof u_tiny as [U0 U1].
  assert (UM : 0 < u * m) by (apply Rmult_lt_0_compat; lra).
  assert (DM : d * u * m <= / 10000 * m) by (apply Rmult_le_compat_r; lra).
  assert (Y : m * (9999 / 10000) <= y) by (apply Rabs_le_inv in H2; lra).
  assert (Py : 0 < y) by lra.
  replace (x / y - X / m) with ((x - X) / y + - (X / m * ((y - m) / y))) by (field; lra).
  assert (Q : m / y <= 1001 / 1000).
  { apply Rmult_le_reg_r with y; [exact Py|]. unfold Rdiv. rewrite Rmult_assoc, Rinv_l by lra. lra. }
  assert (IY : 0 < / y) by (apply Rinv_0_lt_compat; exact Py).
  assert (Q0 : 0 <= m / y) by (apply Rmult_le_pos; lra).
  assert (A1 : Rabs ((x - X) / y) <= c * u * k * (m / y)).
  { unfold Rdiv. rewrite Rabs_mult, (Rabs_pos_eq (/ y)) by lra. replace (c * u * k * (m * / y)) with (c * u * (m * k) * / y) by ring.
    apply Rmult_le_compat_r; lra. }
  assert (XM : Rabs (X / m) <= B * k).
  { unfold Rdiv. rewrite Rabs_mult, (Rabs_pos_eq (/ m)) by (left; apply Rinv_0_lt_compat; lra).
    apply Rmult_le_reg_r with m; [lra|]. rewrite Rmult_assoc, Rinv_l by lra. lra. }
  assert (A2 : Rabs (X / m * ((y - m) / y)) <= B * d * u * k * (m / y)).
  { rewrite Rabs_mult. unfold Rdiv at 2. rewrite Rabs_mult, (Rabs_pos_eq (/ y)) by lra.
    apply Rle_trans with (B * k * (d * u * m * / y)).
    - apply Rmult_le_compat; try apply Rabs_pos; [apply Rmult_le_pos; [apply Rabs_pos | lra] | exact XM | apply Rmult_le_compat_r; lra].
    - apply Req_le. unfold Rdiv. ring. }
  eapply Rle_trans; [apply Rabs_triang|]. rewrite Rabs_Ropp.
  assert (CDU : 0 <= (c + B * d) * u * k).
  { apply Rmult_le_pos; [|lra]. apply Rmult_le_pos; [|lra]. assert (0 <= B * d) by (apply Rmult_le_pos; lra). lra. }
  assert (A3 : (c + B * d) * u * k * (m / y) <= (c + B * d) * u * k * (1001 / 1000)) by (apply Rmult_le_compat_l; assumption).
  replace ((c + B * d) * u * k * (m / y)) with (c * u * k * (m / y) + B * d * u * k * (m / y)) in A3 by ring.
  replace ((c + B * d) * (1001 / 1000) * u * k) with ((c + B * d) * u * k * (1001 / 1000)) by ring. lra.
Qed.

(** The operations at a safe scale. *)
Lemma scale_fits : forall c m x X B, 0 <= c -> c * u <= / 1000 -> scale m -> Rabs X <= B * m -> 0 <= B <= 1000 -> near c m x X -> Rabs (nearest x) < bpow radix2 1024.
Proof.
  intros c m x X B C0 CU [S1 S2] HX HB H. pose proof mn_pos as MN. apply no_overflow32. eapply Rle_trans; [apply (near_bound c m x X B); auto; lra|].
  assert (P : 0 < 2 ^ 960) by (apply pow_lt; lra). assert (P2 : 1001 <= 2 ^ 63) by (cbn; lra).
  apply Rle_trans with (1001 * 2 ^ 960).
  - apply Rmult_le_compat; lra.
  - apply Rle_trans with (2 ^ 63 * 2 ^ 960); [apply Rmult_le_compat_r; lra|]. rewrite <- pow_add. pose proof huge_pos. change (2 ^ (63 + 960)) with huge. lra.
Qed.

Section Ops.
  Variables (c m B X : R) (x y : f64).
  Hypotheses (Fx : fin x) (Fy : fin y) (C0 : 0 <= c) (CU : c * u <= / 1000) (S : scale m) (HX : Rabs X <= B * m) (HB : 0 <= B <= 1000).
  Lemma op_add : near c m (val x + val y) X -> fin (fadd x y) /\ near (c + B + / 100) m (val (fadd x y)) X.
  Proof.
    intros H. destruct (fadd_ok x y Fx Fy) as (V & F). { apply (scale_fits c m _ X B); auto. } split; [exact F|]. rewrite V.
    destruct S. apply near_round; auto; lra.
  Qed.
  Lemma op_sub : near c m (val x - val y) X -> fin (fsub x y) /\ near (c + B + / 100) m (val (fsub x y)) X.
  Proof.
    intros H. destruct (fsub_ok x y Fx Fy) as (V & F & _); [apply (scale_fits c m _ X B); auto|]. split; [exact F|]. rewrite V.
    destruct S. apply near_round; auto; lra.
  Qed.
  Lemma op_mul : near c m (val x * val y) X -> fin (fmul x y) /\ near (c + B + / 100) m (val (fmul x y)) X.
  Proof.
    intros H. destruct (fmul_ok x y Fx Fy) as (V & F & _); [apply (scale_fits c m _ X B); auto|]. split; [exact F|]. rewrite V.
    destruct S. apply near_round; auto; lra.
  Qed.
  Lemma op_div : val y <> 0 -> near c m (val x / val y) X -> fin (fdiv x y) /\ near (c + B + / 100) m (val (fdiv x y)) X.
  Proof.
    intros NZ H. destruct (fdiv_ok x y Fx Fy NZ) as (V & F & _); [apply (scale_fits c m _ X B); auto|]. split; [exact F|]. rewrite V.
    destruct S. apply near_round; auto; lra.
  Qed.
End Ops.
Lemma r_add : forall c m B X x y, near c m (val x + val y) X -> fin x -> fin y -> scale m -> Rabs X <= B * m -> 0 <= c -> c * u <= / 1000 -> 0 <= B <= 1000 ->
  fin (fadd x y) /\ near (c + B + / 100) m (val (fadd x y)) X.
Proof. intros. apply op_add; assumption. Qed.
Lemma r_sub : forall c m B X x y, near c m (val x - val y) X -> fin x -> fin y -> scale m -> Rabs X <= B * m -> 0 <= c -> c * u <= / 1000 -> 0 <= B <= 1000 ->
  fin (fsub x y) /\ near (c + B + / 100) m (val (fsub x y)) X.
Proof. intros. apply op_sub; assumption. Qed.
Lemma r_mul : forall c m B X x y, near c m (val x * val y) X -> fin x -> fin y -> scale m -> Rabs X <= B * m -> 0 <= c -> c * u <= / 1000 -> 0 <= B <= 1000 ->
  fin (fmul x y) /\ near (c + B + / 100) m (val (fmul x y)) X.
Proof. intros. apply op_mul; assumption. Qed.
Lemma r_div : forall c m B X x y, near c m (val x / val y) X -> fin x -> fin y -> scale m -> Rabs X <= B * m -> val y <> 0 -> 0 <= c -> c * u <= / 1000 -> 0 <= B <= 1000 ->
  fin (fdiv x y) /\ near (c + B + / 100) m (val (fdiv x y)) X.
Proof. intros. apply op_div; assumption. Qed.

(** * One term of the sum *)

Lemma norm3_max : forall p, let m := Rmax (Rmax (Rabs (px p)) (Rabs (py p))) (Rabs (pz p)) in m <= norm3 p <= 2 * m.
Proof.
  intros p m. unfold norm3, p_sq.
  assert (H1 : Rabs (px p) <= m) by (unfold m; eapply Rle_trans; [|apply Rmax_l]; apply Rmax_l).
  assert (H2 : Rabs (py p) <= m) by (unfold m; eapply Rle_trans; [|apply Rmax_l]; apply Rmax_r).
  assert (H3 : Rabs (pz p) <= m) by (unfold m; apply Rmax_r).
  assert (HM : m = Rabs (px p) \/ m = Rabs (py p) \/ m = Rabs (pz p)).
  { unfold m, Rmax. destruct (Rle_dec (Rabs (px p)) (Rabs (py p))); match goal with |- context [Rle_dec ?a ?b] => destruct (Rle_dec a b) end; auto. }
  pose proof (Rabs_pos (px p)). pose proof (Rabs_pos (py p)). pose proof (Rabs_pos (pz p)).
  rewrite (sq_abs (px p)), (sq_abs (py p)), (sq_abs (pz p)).
  set (a := Rabs (px p)) in *. set (b := Rabs (py p)) in *. set (c := Rabs (pz p)) in *. clearbody a b c m.
  assert (Sa : 0 <= a * a <= m * m) by (split; [apply Rle_0_sqr | apply Rmult_le_compat; lra]).
  assert (Sb : 0 <= b * b <= m * m) by (split; [apply Rle_0_sqr | apply Rmult_le_compat; lra]).
  assert (Sc : 0 <= c * c <= m * m) by (split; [apply Rle_0_sqr | apply Rmult_le_compat; lra]).
  split.
  - rewrite <- (sqrt_square m) by lra. apply sqrt_le_1_alt. destruct HM as [-> | [-> | ->]]; lra.
  - rewrite <- (sqrt_square (2 * m)) by lra. apply sqrt_le_1_alt. lra.
Qed.

Lemma pow_half : forall a b : nat, (a <= b)%nat -> / 2 ^ b <= / 2 ^ a.
Proof. intros a b H. apply Rinv_le_contravar; [apply pow_lt; lra | apply Rle_pow; [lra | exact H]]. Qed.
Lemma pow2_pos : forall a, 0 < 2 ^ a. Proof. intros; apply pow_lt; lra. Qed.
Lemma ipow2_pos : forall a, 0 < / 2 ^ a. Proof. intros; apply Rinv_0_lt_compat, pow2_pos. Qed.

Lemma norm_ok : forall p, moderate p -> exists r, f_norm3 p = Some r /\ fin r /\ near 6 (norm3 (mom_of p)) (val r) (norm3 (mom_of p)).
Proof.
  intros p ((Fx & Fy & Fz) & L & U). pose proof (norm3_max (mom_of p)) as M. cbn [mom_of px py pz] in M. fold (rx p) (ry p) (rz p) in M.
  set (m := Rmax (Rmax (Rabs (val (rx p))) (Rabs (val (ry p)))) (Rabs (val (rz p)))) in *.
  destruct (C144_three_norm (rx p) (ry p) (rz p) Fx Fy Fz) as (r & R1 & R2 & R3).
  - fold m. split.
    + apply Rle_trans with (/ 2 ^ 241); [apply pow_half; lia|].
      assert (E : / 2 ^ 241 = / 2 ^ 240 * / 2) by (change (2 ^ 241) with (2 * 2 ^ 240); rewrite Rinv_mult; ring). lra.
    + apply Rle_trans with (2 ^ 240); [lra | apply Rle_pow; [lra | lia]].
  - exists r. split; [exact R1|]. split; [exact R2|]. unfold within in R3. unfold near.
    assert (E : norm3 (mom_of p) = sqrt (val (rx p) * val (rx p) + val (ry p) * val (ry p) + val (rz p) * val (rz p))) by reflexivity.
    pose proof (ipow2_pos 240). rewrite <- E in R3. rewrite (Rabs_pos_eq (norm3 _)) in R3 by lra. exact R3.
Qed.

Lemma mod_pos : forall p, moderate p -> 0 < norm3 (mom_of p) /\ p_sq (mom_of p) <> 0.
Proof.
  intros p (_ & L & _). pose proof (ipow2_pos 240). assert (N : 0 < norm3 (mom_of p)) by lra. split; [exact N|].
  intros E. unfold norm3 in N. rewrite E, sqrt_0 in N. lra.
Qed.

Lemma scale_prod : forall p q, moderate p -> moderate q ->
  let m := norm3 (mom_of p) * norm3 (mom_of q) in 0 < m <= 2 ^ 480 /\ scale m /\ scale (m * m).
Proof.
  intros p q (_ & L1 & U1) (_ & L2 & U2) m. pose proof (ipow2_pos 240) as I. pose proof (pow2_pos 240) as P.
  assert (L : / 2 ^ 480 <= m).
  { change 480%nat with (240 + 240)%nat. rewrite pow_add, Rinv_mult. apply Rmult_le_compat; lra. }
  assert (U : m <= 2 ^ 480).
  { change 480%nat with (240 + 240)%nat. rewrite pow_add. apply Rmult_le_compat; lra. }
  pose proof (ipow2_pos 480). pose proof (pow2_pos 480).
  assert (LL : / 2 ^ 960 <= m * m).
  { change 960%nat with (480 + 480)%nat. rewrite pow_add, Rinv_mult. apply Rmult_le_compat; lra. }
  assert (UU : m * m <= 2 ^ 960).
  { change 960%nat with (480 + 480)%nat. rewrite pow_add. apply Rmult_le_compat; lra. }
  assert (MN : 1000000000 * min_normal <= / 2 ^ 960).
  { unfold min_normal. change 1022%nat with (960 + 62)%nat. rewrite pow_add, Rinv_mult. pose proof (ipow2_pos 960).
    assert (1000000000 * / 2 ^ 62 <= 1). { assert (1000000000 <= 2 ^ 62) by (cbn; lra). apply Rmult_le_reg_r with (2 ^ 62); [apply pow2_pos|].
      rewrite Rmult_assoc, Rinv_l by (apply Rgt_not_eq, pow2_pos). lra. }
    replace (1000000000 * (/ 2 ^ 960 * / 2 ^ 62)) with (1000000000 * / 2 ^ 62 * / 2 ^ 960) by ring.
    apply Rle_trans with (1 * / 2 ^ 960); [apply Rmult_le_compat_r; lra | lra]. }
  pose proof (pow_half 480 960 ltac:(lia)). assert (2 ^ 480 <= 2 ^ 960) by (apply Rle_pow; [lra | lia]).
  split; [lra|]. unfold scale. split; lra.
Qed.

Lemma comp_prod : forall p q a b, Rabs a <= norm3 p -> Rabs b <= norm3 q -> Rabs (a * b) <= 1 * (norm3 p * norm3 q).
Proof. intros p q a b Ha Hb. rewrite Rabs_mult, Rmult_1_l. apply Rmult_le_compat; try apply Rabs_pos; assumption. Qed.

Lemma comp_le : forall p, Rabs (px p) <= norm3 p /\ Rabs (py p) <= norm3 p /\ Rabs (pz p) <= norm3 p.
Proof.
  intros p. destruct (norm3_max p) as [M _]. repeat split; eapply Rle_trans; try exact M.
  - eapply Rle_trans; [|apply Rmax_l]; apply Rmax_l.
  - eapply Rle_trans; [|apply Rmax_l]; apply Rmax_r.
  - apply Rmax_r.
Qed.

Lemma cauchy : forall p q, 0 < norm3 p -> 0 < norm3 q -> p_sq p <> 0 -> p_sq q <> 0 -> Rabs (dot3 p q) <= norm3 p * norm3 q /\ 0 <= cterm p q <= norm3 p * norm3 q.
Proof.
  intros p q Np Nq Zp Zq. assert (M : 0 < norm3 p * norm3 q) by (apply Rmult_lt_0_compat; assumption).
  pose proof (cterm_nonneg p q Zp Zq) as C. pose proof C as C'. rewrite cterm_code in C by assumption.
  assert (D : 0 <= dot3 p q * dot3 p q / (norm3 p * norm3 q)).
  { apply Rmult_le_pos; [apply Rle_0_sqr | left; apply Rinv_0_lt_compat; exact M]. }
  split; [|rewrite cterm_code in *; lra].
  apply Rabs_le. apply Rsqr_le_abs_0 in C || idtac.
  assert (S : dot3 p q * dot3 p q <= norm3 p * norm3 q * (norm3 p * norm3 q)).
  { apply Rmult_le_reg_r with (/ (norm3 p * norm3 q)); [apply Rinv_0_lt_compat; exact M|].
    replace (norm3 p * norm3 q * (norm3 p * norm3 q) * / (norm3 p * norm3 q)) with (norm3 p * norm3 q) by (field; lra). unfold Rdiv in *. lra. }
  assert (Q : Rabs (dot3 p q) <= norm3 p * norm3 q).
  { rewrite <- (Rabs_pos_eq (norm3 p * norm3 q)) by lra. apply Rsqr_le_abs_0. exact S. }
  apply Rabs_le_inv in Q. lra.
Qed.

Ltac smallc := let a := fresh in let b := fresh in pose proof u_tiny as [a b]; lra.

Lemma dot_ok : forall p q, moderate p -> moderate q -> let m := norm3 (mom_of p) * norm3 (mom_of q) in
  fin (f_dot p q) /\ near (61 / 10) m (val (f_dot p q)) (dot3 (mom_of p) (mom_of q)).
Proof.
  intros p q Mp Mq m. destruct (scale_prod p q Mp Mq) as (M0 & S & _). fold m in M0, S.
  destruct (mod_pos p Mp) as (Np & Zp). destruct (mod_pos q Mq) as (Nq & Zq).
  destruct (cauchy _ _ Np Nq Zp Zq) as (CA & _). fold m in CA.
  destruct (comp_le (mom_of p)) as (P1 & P2 & P3). destruct (comp_le (mom_of q)) as (Q1 & Q2 & Q3).
  destruct Mp as ((Fx & Fy & Fz) & _), Mq as ((Gx & Gy & Gz) & _). cbn [mom_of px py pz] in *. fold (rx p) (ry p) (rz p) in *. fold (rx q) (ry q) (rz q) in *.
  pose proof (comp_prod _ _ _ _ P1 Q1) as X1. pose proof (comp_prod _ _ _ _ P2 Q2) as X2. pose proof (comp_prod _ _ _ _ P3 Q3) as X3.
  change (norm3 (Mom (val (rx p)) (val (ry p)) (val (rz p)) 0)) with (norm3 (mom_of p)) in *.
  change (norm3 (Mom (val (rx q)) (val (ry q)) (val (rz q)) 0)) with (norm3 (mom_of q)) in *. fold m in X1, X2, X3.
  destruct (r_mul 0 m 1 _ (rx p) (rx q) (near_exact m _ ltac:(lra)) Fx Gx S X1 ltac:(lra) ltac:(lra) ltac:(lra)) as (F1 & N1).
  destruct (r_mul 0 m 1 _ (ry p) (ry q) (near_exact m _ ltac:(lra)) Fy Gy S X2 ltac:(lra) ltac:(lra) ltac:(lra)) as (F2 & N2).
  destruct (r_mul 0 m 1 _ (rz p) (rz q) (near_exact m _ ltac:(lra)) Fz Gz S X3 ltac:(lra) ltac:(lra) ltac:(lra)) as (F3 & N3).
  pose proof (near_add _ _ _ _ _ _ _ N1 N2) as N12.
  assert (X12 : Rabs (val (rx p) * val (rx q) + val (ry p) * val (ry q)) <= 2 * m) by (eapply Rle_trans; [apply Rabs_triang|]; lra).
  destruct (r_add _ m 2 _ _ _ N12 F1 F2 S X12 ltac:(lra) ltac:(smallc) ltac:(lra)) as (F12 & N12').
  pose proof (near_add _ _ _ _ _ _ _ N12' N3) as N123.
  assert (CA' : Rabs (dot3 (mom_of p) (mom_of q)) <= 1 * m) by lra.
  destruct (r_add _ m 1 (dot3 (mom_of p) (mom_of q)) _ _ N123 F12 F3 S CA' ltac:(lra) ltac:(smallc) ltac:(lra)) as (F & N).
  split; [exact F|]. eapply near_weak; [| |split; [|apply Rle_refl]|exact N]; lra.
Qed.

Lemma fdiv_py_ok : forall x y, fin y -> val y <> 0 -> fdiv_py x y = Some (fdiv x y).
Proof.
  intros x y F N. unfold fdiv_py. destruct (feq y fzero) eqn:E; [|reflexivity]. apply feq_zero4 in E; [contradiction | exact F].
Qed.

Lemma term_ok : forall p q ri out, moderate p -> moderate q -> fin ri -> near 6 (norm3 (mom_of p)) (val ri) (norm3 (mom_of p)) ->
  let m := norm3 (mom_of p) * norm3 (mom_of q) in
  exists t, f_c_inner p ri out q = Some (fadd out t) /\ fin t /\ near 85 m (val t) (2 * cterm (mom_of p) (mom_of q)).
Proof.
  intros p q ri out Mp Mq Fi Ni m. destruct (scale_prod p q Mp Mq) as (M0 & S & SS). fold m in M0, S, SS.
  destruct (mod_pos p Mp) as (Np & Zp). destruct (mod_pos q Mq) as (Nq & Zq).
  destruct (cauchy _ _ Np Nq Zp Zq) as (CA & CT). fold m in CA, CT.
  destruct (norm_ok q Mq) as (rj & Ej & Fj & Nj). destruct (dot_ok p q Mp Mq) as (Fd & Nd). fold m in Nd.
  unfold f_c_inner. rewrite Ej. cbn [obind].
  set (np := norm3 (mom_of p)) in *. set (nq := norm3 (mom_of q)) in *. set (d := dot3 (mom_of p) (mom_of q)) in *.
  (* product of the norms *)
  assert (Ap : Rabs np <= 1 * np) by (rewrite Rabs_pos_eq; lra). assert (Aq : Rabs nq <= 1 * nq) by (rewrite Rabs_pos_eq; lra).
  pose proof (near_mult 6 6 np nq _ np _ nq 1 1 ltac:(lra) ltac:(lra) ltac:(smallc) ltac:(lra) ltac:(lra) ltac:(lra) ltac:(lra) Ap Aq Ni Nj) as NP. fold m in NP.
  assert (Am : Rabs m <= 1 * m) by (rewrite Rabs_pos_eq; lra).
  destruct (r_mul _ m 1 m ri rj NP Fi Fj S Am ltac:(lra) ltac:(smallc) ltac:(lra)) as (FP & NP').
  set (prod := fmul ri rj) in *.
  assert (NP2 : near (1303 / 100) m (val prod) m) by (eapply near_weak; [| |split; [|apply Rle_refl]|exact NP']; lra).
  (* square of the scalar product *)
  assert (Ad : Rabs d <= 1 * m) by lra.
  pose proof (near_mult (61/10) (61/10) m m _ d _ d 1 1 ltac:(lra) ltac:(lra) ltac:(smallc) ltac:(lra) ltac:(lra) ltac:(lra) ltac:(lra) Ad Ad Nd Nd) as ND.
  assert (Add : Rabs (d * d) <= 1 * (m * m)) by (rewrite Rabs_mult, Rmult_1_l; apply Rmult_le_compat; try apply Rabs_pos; lra).
  destruct (r_mul _ (m * m) 1 (d * d) (f_dot p q) (f_dot p q) ND Fd Fd SS Add ltac:(lra) ltac:(smallc) ltac:(lra)) as (FD & ND').
  set (sq := fmul (f_dot p q) (f_dot p q)) in *.
  assert (ND2 : near (1323 / 100) (m * m) (val sq) (d * d)) by (eapply near_weak; [| |split; [|apply Rle_refl]|exact ND']; try lra; apply Rmult_le_pos; lra).
  (* quotient *)
  assert (PN : val prod <> 0).
  { unfold near in NP2. apply Rabs_le_inv in NP2. pose proof u_tiny as [U0 U1]. assert (1303 / 100 * u * m <= / 2 * m) by (apply Rmult_le_compat_r; lra). lra. }
  rewrite fdiv_py_ok by assumption. cbn [obind].
  pose proof (near_div (1323 / 100) (1303 / 100) m m (val sq) (d * d) (val prod) 1 ltac:(lra) ltac:(lra) ltac:(smallc) ltac:(lra) ltac:(lra) ltac:(lra) Add ND2 NP2) as NQ.
  assert (Aq' : Rabs (d * d / m) <= 1 * m).
  { unfold Rdiv. rewrite Rabs_mult, (Rabs_pos_eq (/ m)) by (left; apply Rinv_0_lt_compat; lra).
    apply Rmult_le_reg_r with m; [lra|]. rewrite Rmult_assoc, Rinv_l by lra. lra. }
  destruct (r_div _ m 1 (d * d / m) sq prod NQ FD FP S Aq' PN ltac:(lra) ltac:(smallc) ltac:(lra)) as (FQ & NQ').
  set (quot := fdiv sq prod) in *.
  (* difference *)
  pose proof (near_sub _ _ _ _ _ _ _ NP2 NQ') as NS.
  assert (EC : m - d * d / m = cterm (mom_of p) (mom_of q)) by (rewrite cterm_code by assumption; reflexivity). rewrite EC in NS.
  assert (Ac : Rabs (cterm (mom_of p) (mom_of q)) <= 1 * m) by (rewrite Rabs_pos_eq; lra).
  destruct (r_sub _ m 1 _ prod quot NS FP FQ S Ac ltac:(lra) ltac:(smallc) ltac:(lra)) as (FS & NS').
  (* twice *)
  destruct (lit_int 2 ltac:(lia)) as (V2 & F2).
  pose proof (near_times 2 _ _ _ _ ltac:(lra) NS') as NT. rewrite <- V2 in NT at 2.
  assert (At : Rabs (2 * cterm (mom_of p) (mom_of q)) <= 2 * m) by (rewrite Rabs_pos_eq; lra).
  destruct (r_mul _ m 2 _ (lit 2 0) (fsub prod quot) NT F2 FS S At ltac:(lra) ltac:(smallc) ltac:(lra)) as (FT & NT').
  exists (f_term prod quot). split; [reflexivity|]. split; [exact FT|].
  eapply near_weak; [| |split; [|apply Rle_refl]|exact NT']; lra.
Qed.

(** * Accumulation *)

Definition acc (out : f64) (o W : R) (k : nat) : Prop :=
  fin out /\ near (85 + 3 * INR k) W (val out) o /\ 0 <= o <= 2 * W /\ 0 <= W <= INR k * 2 ^ 480.

Lemma cap_u : forall x, 0 <= x <= 2 ^ 40 -> (100 + 5 * x) * u <= / 1000.
Proof.
  intros x [H0 H1]. pose proof u_tiny as [U0 U1].
  assert (E : 2 ^ 40 * u = / 8192).
  { unfold u. change 53%nat with (40 + 13)%nat. rewrite pow_add, Rinv_mult. pose proof (pow2_pos 40).
    rewrite <- Rmult_assoc, Rinv_r, Rmult_1_l by lra. f_equal. cbn. lra. }
  assert (x * u <= 2 ^ 40 * u) by (apply Rmult_le_compat_r; lra).
  replace ((100 + 5 * x) * u) with (100 * u + 5 * (x * u)) by ring. lra.
Qed.

Lemma cap_v : forall x, 0 <= x <= 2 ^ 38 -> (1000 + 20 * x) * u <= / 1000.
Proof.
  intros x [H0 H1]. pose proof u_tiny as [U0 U1].
  assert (E : 2 ^ 38 * u = / 32768).
  { unfold u. change 53%nat with (38 + 15)%nat. rewrite pow_add, Rinv_mult. pose proof (pow2_pos 38).
    rewrite <- Rmult_assoc, Rinv_r, Rmult_1_l by lra. f_equal. cbn. lra. }
  assert (x * u <= 2 ^ 38 * u) by (apply Rmult_le_compat_r; lra).
  replace ((1000 + 20 * x) * u) with (1000 * u + 20 * (x * u)) by ring. lra.
Qed.

Lemma w_scale : forall k m W, scale m -> m <= 2 ^ 480 -> 0 <= W <= INR k * 2 ^ 480 -> INR k <= 2 ^ 40 -> scale (W + m) /\ W + m <= INR (S k) * 2 ^ 480.
Proof.
  intros k m W [S1 S2] M [W0 W1] K. pose proof (pow2_pos 480). pose proof mn_pos. rewrite S_INR.
  assert (A : W + m <= (INR k + 1) * 2 ^ 480) by lra. split; [|exact A]. split; [lra|].
  eapply Rle_trans; [exact A|]. change 960%nat with (480 + 480)%nat. rewrite pow_add. apply Rmult_le_compat_r; [lra|].
  assert (2 ^ 41 <= 2 ^ 480) by (apply Rle_pow; [lra | lia]). change (2 ^ 41) with (2 * 2 ^ 40) in *. assert (1 <= 2 ^ 40) by (apply pow_R1_Rle; lra). lra.
Qed.

Lemma acc_step : forall out t o T W m k, acc out o W k -> fin t -> near 85 m (val t) T -> 0 <= T <= 2 * m -> scale m -> m <= 2 ^ 480 -> INR k <= 2 ^ 40 ->
  acc (fadd out t) (o + T) (W + m) (S k).
Proof.
  intros out t o T W m k (F & N & O & WW) Ft Nt HT Sm Mm K. destruct (w_scale k m W Sm Mm WW K) as (SW & UW). pose proof (pos_INR k) as K0. pose proof mn_pos.
  assert (M0 : 0 <= m) by (destruct Sm; lra).
  pose proof (near_acc _ _ _ _ _ _ _ _ N Nt ltac:(lra) M0) as NN.
  assert (AX : Rabs (o + T) <= 2 * (W + m)) by (rewrite Rabs_pos_eq; lra).
  assert (CU : (85 + 3 * INR k) * u <= / 1000).
  { pose proof (cap_u (INR k) ltac:(lra)). pose proof u_tiny as [U0 U1]. eapply Rle_trans; [|eassumption]. apply Rmult_le_compat_r; lra. }
  destruct (r_add _ _ _ _ _ _ NN F Ft SW AX ltac:(lra) CU ltac:(lra)) as (F' & N').
  split; [exact F'|]. split.
  - rewrite S_INR. eapply near_weak; [| |split; [|apply Rle_refl]|exact N']; lra.
  - split; [lra|]. split; [lra | exact UW].
Qed.

Notation nrm p := (norm3 (mom_of p)).

Lemma inner_ok : forall p ri l out o W k, moderate p -> fin ri -> near 6 (nrm p) (val ri) (nrm p) -> Forall moderate l ->
  acc out o W k -> INR (k + length l) <= 2 ^ 40 ->
  exists out', f_fold (f_c_inner p ri) l out = Some out' /\
    acc out' (o + 2 * rsum (map (cterm (mom_of p)) (map mom_of l))) (W + nrm p * rsum (map norm3 (map mom_of l))) (k + length l).
Proof.
  intros p ri l. induction l as [|q l IH]; intros out o W k Mp Fi Ni Ml A K.
  - exists out. split; [reflexivity|]. cbn [map rsum length]. rewrite Nat.add_0_r, !Rmult_0_r, !Rplus_0_r. exact A.
  - inversion Ml as [|? ? Mq Ml']; subst. destruct (term_ok p q ri out Mp Mq Fi Ni) as (t & E & Ft & Nt).
    destruct (scale_prod p q Mp Mq) as (M0 & Sm & _).
    destruct (mod_pos p Mp) as (Np & Zp). destruct (mod_pos q Mq) as (Nq & Zq). destruct (cauchy _ _ Np Nq Zp Zq) as (_ & CT).
    cbn [length] in K. rewrite Nat.add_succ_r in K.
    assert (K' : INR k <= 2 ^ 40) by (eapply Rle_trans; [apply le_INR | exact K]; lia).
    pose proof (acc_step _ _ _ _ _ _ _ A Ft Nt ltac:(lra) Sm ltac:(lra) K') as A'.
    destruct (IH _ _ _ _ Mp Fi Ni Ml' A') as (out' & E' & A''); [rewrite Nat.add_succ_l; exact K|].
    exists out'. cbn [f_fold]. rewrite E. cbn [obind]. split; [exact E'|]. cbn [map rsum length]. rewrite Nat.add_succ_r, <- Nat.add_succ_l.
    replace (o + 2 * (cterm (mom_of p) (mom_of q) + rsum (map (cterm (mom_of p)) (map mom_of l))))
      with (o + 2 * cterm (mom_of p) (mom_of q) + 2 * rsum (map (cterm (mom_of p)) (map mom_of l))) by ring.
    replace (W + nrm p * (nrm q + rsum (map norm3 (map mom_of l)))) with (W + nrm p * nrm q + nrm p * rsum (map norm3 (map mom_of l))) by ring.
    exact A''.
Qed.

Definition nsum (ns : f64) (N : R) (k : nat) : Prop := fin ns /\ near (7 + 2 * INR k) N (val ns) N /\ 0 <= N <= INR k * 2 ^ 240.

Lemma nsum_step : forall ns N k p r, nsum ns N k -> moderate p -> fin r -> near 6 (nrm p) (val r) (nrm p) -> INR k <= 2 ^ 40 -> nsum (fadd ns r) (N + nrm p) (S k).
Proof.
  intros ns N k p r (F & H & NN) (_ & L & U) Fr Nr K. pose proof (ipow2_pos 240). pose proof (pow2_pos 240) as P. pose proof (pos_INR k).
  assert (UP : N + nrm p <= INR (S k) * 2 ^ 240) by (rewrite S_INR; lra).
  assert (SC : scale (N + nrm p)).
  { split.
    - apply Rle_trans with (/ 2 ^ 240); [|lra]. assert (1000000000 <= 2 ^ 62) by (cbn; lra). unfold min_normal.
      apply Rle_trans with (/ 2 ^ 960); [|apply pow_half; lia]. change 1022%nat with (62 + 960)%nat. rewrite pow_add, Rinv_mult.
      rewrite <- Rmult_assoc. rewrite <- (Rmult_1_l (/ 2 ^ 960)) at 2. apply Rmult_le_compat_r; [left; apply ipow2_pos|].
      apply Rmult_le_reg_r with (2 ^ 62); [apply pow2_pos|]. rewrite Rmult_assoc, Rinv_l by (apply Rgt_not_eq, pow2_pos). lra.
    - eapply Rle_trans; [exact UP|]. rewrite S_INR. assert (E1 : 1 <= 2 ^ 40) by (apply pow_R1_Rle; lra).
      apply Rle_trans with (2 ^ 41 * 2 ^ 240); [apply Rmult_le_compat_r; [lra | change (2 ^ 41) with (2 * 2 ^ 40); lra]|].
      rewrite <- pow_add. apply Rle_pow; [lra | lia]. }
  pose proof (near_acc _ _ _ _ _ _ _ _ H Nr ltac:(lra) ltac:(lra)) as NA.
  assert (AX : Rabs (N + nrm p) <= 1 * (N + nrm p)) by (rewrite Rabs_pos_eq; lra).
  assert (CU : (7 + 2 * INR k) * u <= / 1000).
  { pose proof (cap_u (INR k) ltac:(lra)). pose proof u_tiny as [U0 U1]. eapply Rle_trans; [|eassumption]. apply Rmult_le_compat_r; lra. }
  destruct (r_add _ _ _ _ _ _ NA F Fr SC AX ltac:(lra) CU ltac:(lra)) as (F' & N').
  split; [exact F'|]. split; [|lra]. rewrite S_INR. eapply near_weak; [| |split; [|apply Rle_refl]|exact N']; lra.
Qed.

(** What the loop adds up, in exact arithmetic. *)
Fixpoint osum (l : list mom) : R := match l with [] => 0 | p :: r => 2 * rsum (map (cterm p) (p :: r)) + osum r end.
Fixpoint wsum (l : list mom) : R := match l with [] => 0 | p :: r => norm3 p * rsum (map norm3 (p :: r)) + wsum r end.
Fixpoint steps {A} (l : list A) : nat := match l with [] => 0%nat | _ :: r => (S (length r) + steps r)%nat end.

Lemma steps_le : forall {A} (l : list A), (steps l <= length l * length l)%nat.
Proof. intros A. induction l as [|a l IH]; cbn [steps length]; [lia|]. nia. Qed.

Lemma osum_eq : forall l, (forall q, In q l -> p_sq q <> 0) -> osum l = rsum (map (fun p => rsum (map (cterm p) l)) l).
Proof.
  induction l as [|p l IH]; intros H; [reflexivity|]. cbn [osum]. rewrite IH by (intros; apply H; right; assumption).
  assert (Hp : p_sq p <> 0) by (apply H; left; reflexivity). cbn [map rsum]. rewrite cterm_self by exact Hp.
  rewrite (rsum_map_plus (fun q => cterm q p) (fun q => rsum (map (cterm q) l))).
  rewrite (rsum_map_ext (fun q => cterm q p) (cterm p)) by (intros; apply cterm_sym). ring.
Qed.

Lemma wsum_le : forall l, (forall q, In q l -> 0 < norm3 q) -> 0 <= total_norm l /\ 0 <= wsum l <= total_norm l * total_norm l.
Proof.
  unfold total_norm. induction l as [|p l IH]; intros H; cbn [wsum map rsum]; [lra|].
  destruct IH as (N & W); [intros; apply H; right; assumption|]. assert (Hp : 0 < norm3 p) by (apply H; left; reflexivity).
  set (N0 := rsum (map norm3 l)) in *. set (a := norm3 p) in *. clearbody N0 a.
  assert (0 <= a * a) by apply Rle_0_sqr. assert (0 <= a * N0) by (apply Rmult_le_pos; lra).
  replace ((a + N0) * (a + N0)) with (a * a + 2 * (a * N0) + N0 * N0) by ring. replace (a * (a + N0)) with (a * a + a * N0) by ring. lra.
Qed.

Lemma outer_ok : forall l out ns o W N k j, Forall moderate l -> acc out o W k -> nsum ns N j -> INR (k + steps l) <= 2 ^ 40 -> INR (j + length l) <= 2 ^ 40 ->
  exists out' ns', f_c_outer l out ns = Some (out', ns') /\ acc out' (o + osum (map mom_of l)) (W + wsum (map mom_of l)) (k + steps l) /\
    nsum ns' (N + total_norm (map mom_of l)) (j + length l).
Proof.
  induction l as [|p l IH]; intros out ns o W N k j Ml A B K J.
  - exists out, ns. cbn [f_c_outer map osum wsum steps length]. unfold total_norm. cbn [map rsum]. rewrite !Nat.add_0_r, !Rplus_0_r. auto.
  - pose proof Ml as Ml0. inversion Ml as [|? ? Mp Ml']; subst. destruct (norm_ok p Mp) as (r & E & Fr & Nr).
    cbn [steps] in K. rewrite Nat.add_assoc in K.
    assert (K1 : INR (k + length (p :: l)) <= 2 ^ 40) by (eapply Rle_trans; [apply le_INR | exact K]; cbn [length]; lia).
    destruct (inner_ok p r (p :: l) out o W k Mp Fr Nr Ml0 A K1) as (out1 & E1 & A1).
    assert (J1 : INR j <= 2 ^ 40) by (eapply Rle_trans; [apply le_INR | exact J]; lia).
    pose proof (nsum_step ns N j p r B Mp Fr Nr J1) as B1.
    cbn [length] in J. rewrite Nat.add_succ_r, <- Nat.add_succ_l in J.
    destruct (IH out1 (fadd ns r) _ _ _ _ _ Ml' A1 B1 K J) as (out2 & ns2 & E2 & A2 & B2).
    exists out2, ns2. cbn [f_c_outer]. rewrite E. cbn [obind]. rewrite E1. cbn [obind]. split; [exact E2|].
    unfold total_norm in *. cbn [map osum wsum steps length] in A2 |- *. split.
    + rewrite Nat.add_assoc. rewrite <- !Rplus_assoc. exact A2.
    + rewrite Nat.add_succ_r, <- Nat.add_succ_l. cbn [rsum]. rewrite <- Rplus_assoc. exact B2.
Qed.

(** * C148 *)

(** The computed C-parameter is within (200 + 20 n^2) u of the textbook value for n particles of moderate momentum (at most 2^19 of
    them), so it lies between minus that much and 1 plus that much; in particular it is a number. *)
Theorem C186_accuracy : forall l, l <> [] -> (Z.of_nat (length l) <= 524288)%Z -> Forall moderate l ->
  exists c, f_c_parameter l = Some c /\ fin c /\
    Rabs (val c - c_textbook (map mom_of l)) <= (200 + 20 * INR (length l) ^ 2) * u /\
    - ((200 + 20 * INR (length l) ^ 2) * u) <= val c <= 1 + (200 + 20 * INR (length l) ^ 2) * u.
Proof.
  intros l NE LN Ml.
  assert (ZM : forall q, In q (map mom_of l) -> p_sq q <> 0 /\ 0 < norm3 q).
  { intros q Hq. apply in_map_iff in Hq as (p & <- & Hp). rewrite Forall_forall in Ml. destruct (mod_pos p (Ml p Hp)). auto. }
  set (n := length l) in *. assert (n1 : (1 <= n)%nat) by (unfold n; destruct l; [contradiction | cbn; lia]).
  assert (RN : 1 <= INR n <= 524288). { split; [apply (le_INR 1); exact n1|]. rewrite INR_IZR_INZ. apply IZR_le. exact LN. }
  pose proof (steps_le l) as SL. fold n in SL. set (K := steps l) in *.
  assert (RK : 0 <= INR K <= INR n ^ 2). { split; [apply pos_INR|]. replace (INR n ^ 2) with (INR n * INR n) by ring. rewrite <- mult_INR. apply le_INR; exact SL. }
  assert (N2 : INR n ^ 2 <= 2 ^ 38). { replace (2 ^ 38) with (524288 ^ 2) by (cbn; lra). apply pow_incr. lra. }
  assert (NN2 : INR n <= INR n ^ 2). { replace (INR n ^ 2) with (INR n * INR n) by ring. rewrite <- (Rmult_1_l (INR n)) at 1. apply Rmult_le_compat_r; lra. }
  assert (A0 : acc fzero 0 0 0). { split; [reflexivity|]. cbn [INR]. unfold near. change (val fzero) with 0. rewrite Rminus_0_r, Rabs_R0. lra. }
  assert (B0 : nsum fzero 0 0). { split; [reflexivity|]. cbn [INR]. unfold near. change (val fzero) with 0. rewrite Rminus_0_r, Rabs_R0. lra. }
  assert (P40 : 2 ^ 38 <= 2 ^ 40) by (apply Rle_pow; [lra | lia]).
  destruct (outer_ok l fzero fzero 0 0 0 0 0 Ml A0 B0) as (out & ns & E & A & B); [cbn [Nat.add]; fold K; lra | cbn [Nat.add]; fold n; lra|].
  cbn [Nat.add] in A, B. fold K in A. fold n in B. rewrite !Rplus_0_l in A. rewrite !Rplus_0_l in B.
  unfold f_c_parameter. rewrite E. cbn [obind fst snd].
  set (L := map mom_of l) in *. assert (LE : L <> []) by (unfold L; destruct l; [contradiction | discriminate]).
  destruct (wsum_le L ltac:(intros; apply ZM; assumption)) as (T0 & W0 & W1).
  pose proof (total_norm_pos L LE ltac:(intros; apply ZM; assumption)) as TP. set (N := total_norm L) in *.
  destruct A as (Fo & No & O & W). destruct B as (Fs & Ns & NB). set (o := osum L) in *. set (w := wsum L) in *.
  assert (LB : / 2 ^ 240 <= N).
  { destruct l as [|p l']; [contradiction|]. pose proof (Forall_inv Ml) as (_ & Lp & _). unfold N, total_norm, L. cbn [map rsum].
    assert (Z : 0 <= rsum (map norm3 (map mom_of l'))).
    { clear. induction l' as [|q l' IH]; cbn [map rsum]; [lra|]. pose proof (sqrt_pos (p_sq (mom_of q))). unfold norm3 at 1. lra. }
    lra. }
  assert (UB : N <= 2 ^ 260).
  { eapply Rle_trans; [apply NB|]. change 260%nat with (20 + 240)%nat. rewrite pow_add. apply Rmult_le_compat_r; [left; apply pow2_pos|]. replace (2 ^ 20) with 1048576 by (cbn; lra). lra. }
  assert (SN : scale (N * N)).
  { pose proof (ipow2_pos 240). pose proof (pow2_pos 260). assert (G1 : / 2 ^ 480 <= N * N) by (change 480%nat with (240 + 240)%nat; rewrite pow_add, Rinv_mult; apply Rmult_le_compat; lra).
    assert (G2 : N * N <= 2 ^ 520) by (change 520%nat with (260 + 260)%nat; rewrite pow_add; apply Rmult_le_compat; lra).
    split.
    - eapply Rle_trans; [|exact G1]. unfold min_normal. apply Rle_trans with (/ 2 ^ 960); [|apply pow_half; lia]. change 1022%nat with (62 + 960)%nat. rewrite pow_add, Rinv_mult.
      rewrite <- Rmult_assoc. rewrite <- (Rmult_1_l (/ 2 ^ 960)) at 2. apply Rmult_le_compat_r; [left; apply ipow2_pos|].
      apply Rmult_le_reg_r with (2 ^ 62); [apply pow2_pos|]. rewrite Rmult_assoc, Rinv_l by (apply Rgt_not_eq, pow2_pos). cbn; lra.
    - eapply Rle_trans; [exact G2|]. apply Rle_pow; [lra | lia]. }
  assert (SQ0 : 0 < N * N) by (apply Rmult_lt_0_compat; lra).
  pose proof u_tiny as [U0 U1]. pose proof (cap_v (INR n ^ 2) ltac:(lra)) as CAP.
  assert (CK : forall a, 0 <= a <= 1000 + 20 * INR n ^ 2 -> a * u <= / 1000).
  { intros a Ha. eapply Rle_trans; [|exact CAP]. apply Rmult_le_compat_r; lra. }
  (* 1.5 * output *)
  assert (No' : near (85 + 3 * INR K) (N * N) (val out) o) by (eapply near_weak; [apply Rle_refl | lra | | exact No]; lra).
  destruct (lit_ok 3 (-1) ltac:(lia) ltac:(lia)) as (V3 & F3).
  assert (V15 : val (lit 3 (-1)) = 3 / 2) by (rewrite V3; cbn; lra).
  pose proof (near_times (3 / 2) _ _ _ _ ltac:(lra) No') as N15.
  assert (N15' : near (3 / 2 * (85 + 3 * INR K)) (N * N) (val (lit 3 (-1)) * val out) (3 / 2 * o)) by (rewrite V15; exact N15).
  assert (AO : Rabs (3 / 2 * o) <= 3 * (N * N)) by (rewrite Rabs_pos_eq; lra).
  destruct (r_mul _ _ _ _ _ _ N15' F3 Fo SN AO ltac:(lra) ltac:(apply CK; lra) ltac:(lra)) as (Fn & Nn).
  set (num := fmul (lit 3 (-1)) out) in *.
  (* norm_sum squared *)
  assert (AN : Rabs N <= 1 * N) by (rewrite Rabs_pos_eq; lra).
  assert (CC : (7 + 2 * INR n) * (7 + 2 * INR n) * u <= / 100).
  { apply Rle_trans with (81 * INR n ^ 2 * u); [apply Rmult_le_compat_r; [lra|] |].
    - replace (81 * INR n ^ 2) with ((9 * INR n) * (9 * INR n)) by ring. apply Rmult_le_compat; lra.
    - assert (INR n ^ 2 * u <= / 20000) by lra. lra. }
  pose proof (near_mult (7 + 2 * INR n) (7 + 2 * INR n) N N (val ns) N (val ns) N 1 1 ltac:(lra) ltac:(lra) CC T0 T0 ltac:(lra) ltac:(lra) AN AN Ns Ns) as NS2.
  assert (ANN : Rabs (N * N) <= 1 * (N * N)) by (rewrite Rabs_pos_eq; lra).
  destruct (r_mul _ _ _ _ _ _ NS2 Fs Fs SN ANN ltac:(lra) ltac:(apply CK; lra) ltac:(lra)) as (Fd & Nd).
  set (den := fmul ns ns) in *.
  assert (Nd' : near (1502 / 100 + 4 * INR n) (N * N) (val den) (N * N)).
  { eapply near_weak; [| | |exact Nd]; lra. }
  assert (Nn' : near (13051 / 100 + 9 / 2 * INR K) (N * N * 1) (val num) (3 / 2 * o)).
  { rewrite Rmult_1_r. eapply near_weak; [| | |exact Nn]; lra. }
  assert (DU : (1502 / 100 + 4 * INR n) * u <= / 10000).
  { apply Rle_trans with (10000000 * u); [apply Rmult_le_compat_r; lra | lra]. }
  assert (DN : val den <> 0).
  { unfold near in Nd'. apply Rabs_le_inv in Nd'. assert ((1502 / 100 + 4 * INR n) * u * (N * N) <= / 10000 * (N * N)) by (apply Rmult_le_compat_r; lra). lra. }
  rewrite fdiv_py_ok by assumption.
  assert (AO' : Rabs (3 / 2 * o) <= 3 * (N * N * 1)) by lra.
  pose proof (near_div (13051 / 100 + 9 / 2 * INR K) (1502 / 100 + 4 * INR n) (N * N) 1 (val num) (3 / 2 * o) (val den) 3 ltac:(lra) ltac:(lra) DU SQ0 ltac:(lra) ltac:(lra) AO' Nn' Nd') as NQ.
  assert (EC : 3 / 2 * o / (N * N) = c_textbook L).
  { unfold c_textbook, o. rewrite osum_eq by (intros; apply ZM; assumption). fold N. reflexivity. }
  rewrite EC in NQ. pose proof (c_bounds L LE ltac:(intros; apply ZM; assumption)) as CB.
  assert (S1 : scale 1).
  { split; [|apply pow_R1_Rle; lra]. assert (min_normal <= / 2 ^ 62) by (apply pow_half; lia). assert (/ 2 ^ 62 <= / 1000000000) by (apply Rinv_le_contravar; cbn; lra). lra. }
  assert (AC : Rabs (c_textbook L) <= 3 * 1) by (rewrite Rabs_pos_eq; lra).
  destruct (r_div _ _ _ _ _ _ NQ Fn Fd S1 AC DN ltac:(lra) ltac:(apply CK; lra) ltac:(lra)) as (Fc & Nc).
  exists (fdiv num den). split; [reflexivity|]. split; [exact Fc|].
  assert (RES : Rabs (val (fdiv num den) - c_textbook L) <= (200 + 20 * INR n ^ 2) * u).
  { apply near_weak with (d := 200 + 20 * INR n ^ 2) (n := 1) in Nc; [|lra|lra|lra]. unfold near in Nc. rewrite Rmult_1_r in Nc. exact Nc. }
  split; [exact RES|]. apply Rabs_le_inv in RES. lra.
Qed.
Print Assumptions C186_accuracy.

(** Expectation: the C-parameter of an event is never negative. Refuted by one particle along the diagonal. *)
Theorem C148_c_parameter_refuted : exists p c, fin3 p /\ moderate p /\ f_c_parameter [p] = Some c /\ fin c /\ val c < 0.
Proof.
  exists (fone, fone, fone). destruct (f_c_parameter [(fone, fone, fone)]) as [c|] eqn:E.
  - exists c. assert (V : B2SF c = SpecFloat.S754_finite true 4503599627370497 (-102)).
    { assert (X : option_map B2SF (f_c_parameter [(fone, fone, fone)]) = Some (SpecFloat.S754_finite true 4503599627370497 (-102))) by (vm_compute; reflexivity).
      rewrite E in X. cbn in X. injection X as X. exact X. }
    destruct (lit_int 1 ltac:(lia)) as (V1 & F1). fold fone in V1, F1.
    assert (F3 : fin3 (fone, fone, fone)) by (repeat split; exact F1).
    split; [exact F3|]. split; [split; [exact F3|]|].
    + unfold norm3, p_sq, mom_of. cbn [px py pz rx ry rz fst snd]. rewrite V1.
      assert (1 <= sqrt (1 * 1 + 1 * 1 + 1 * 1) <= 2).
      { split; [rewrite <- sqrt_1 at 1 | rewrite <- (sqrt_square 2) by lra]; apply sqrt_le_1_alt; lra. }
      assert (2 ^ 1 <= 2 ^ 240) by (apply Rle_pow; [lra | lia]). assert (/ 2 ^ 240 <= / 1) by (apply Rinv_le_contravar; lra). lra.
    + split; [exact E|]. destruct c as [s|s| |s m e Hb]; try discriminate V. cbn in V. injection V as -> -> ->.
      split; [reflexivity|]. unfold val, B2R. apply F2R_lt_0. reflexivity.
  - exfalso. assert (X : option_map B2SF (f_c_parameter [(fone, fone, fone)]) = None) by (rewrite E; reflexivity). vm_compute in X. discriminate X.
Qed.
Print Assumptions C148_c_parameter_refuted.

(** What holds of the range: it is exceeded by rounding errors at most. *)
Theorem C148_range_partial : forall l, l <> [] -> (Z.of_nat (length l) <= 524288)%Z -> Forall moderate l ->
  exists c, f_c_parameter l = Some c /\ fin c /\ - ((200 + 20 * INR (length l) ^ 2) * u) <= val c <= 1 + (200 + 20 * INR (length l) ^ 2) * u.
Proof. intros l N L M. destruct (C186_accuracy l N L M) as (c & E & F & _ & B). eauto. Qed.
Print Assumptions C148_range_partial.

(** No particles, or a particle at rest anywhere: ZeroDivisionError. *)
Lemma norm_at_rest : forall x y z, fin x -> fin y -> fin z -> val x = 0 -> val y = 0 -> val z = 0 -> f_norm3 (x, y, z) = None.
Proof.
  intros x y z Fx Fy Fz X Y Z. unfold f_norm3, f_three_norm. cbn [rx ry rz fst snd].
  assert (Ax : fin (fabs x)) by (apply fabs_fin; exact Fx). assert (Ay : fin (fabs y)) by (apply fabs_fin; exact Fy). assert (Az : fin (fabs z)) by (apply fabs_fin; exact Fz).
  destruct (fmax_ok _ _ Ax Ay) as (V1 & F1). destruct (fmax_ok _ _ F1 Az) as (V2 & F2). rewrite V1, !fabs_ok, X, Y, Z, Rabs_R0 in V2.
  rewrite (Rmax_left 0 0), (Rmax_left 0 0) in V2 by lra. destruct (feq _ fzero) eqn:Q; [reflexivity|]. apply feq_zero4 in V2; [congruence | exact F2].
Qed.
Lemma f_fold_none : forall f l q, In q l -> (forall s, f s q = None) -> forall s, f_fold f l s = None.
Proof.
  intros f l q. induction l as [|p l IH]; intros Hq H s; [contradiction|]. cbn [f_fold]. destruct Hq as [E|Hq].
  - rewrite E, H. reflexivity.
  - destruct (f s p); cbn [obind]; [apply IH; assumption | reflexivity].
Qed.
Theorem C186_errors : forall l,
  (l = [] \/ exists x y z, In (x, y, z) l /\ fin x /\ fin y /\ fin z /\ val x = 0 /\ val y = 0 /\ val z = 0) -> f_c_parameter l = None.
Proof.
  intros l [->|(x & y & z & Hq & Fx & Fy & Fz & X & Y & Z)]; [vm_compute; reflexivity|].
  unfold f_c_parameter. destruct l as [|p r]; [contradiction|]. cbn [f_c_outer]. destruct (f_norm3 p) as [ni|]; [|reflexivity]. cbn [obind].
  rewrite (f_fold_none _ (p :: r) (x, y, z) Hq); [reflexivity|]. intros s. unfold f_c_inner. rewrite norm_at_rest by assumption. reflexivity.
Qed.
Print Assumptions C186_errors.
