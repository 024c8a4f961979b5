(** The axis of the softest and the hardest particle, and splitting the hardest one, in doubles (C240, C241). *)
From Coq Require Import ZArith Reals List Bool Lia Lra.
From Flocq Require Import Core BinarySingleNaN.
From Verif Require Import Prelude SpecReal SpecShapes SpecTransform SpecPart RealBase Shapes ShapesProofs Transform P_Transform PartProofs Partition SpecIEEE Floats FloatBase FloatOps Floats2 Floats3 P_Float P_Float3 P_Float6 P_Float7 P_Float9 P_Float10 P_Float16 P_Float18 P_Float22 P_Float26 P_Float27.
From Verif Require Import Floats16.
From Verif Require Import Floats7 Floats8 Floats10.
Import ListNotations.
Open Scope R_scope.

(** * Vocabulary *)

(** The C library's atan2 is accurate to [k] units, sign included; at zero arguments any angle in [-PI, PI] is allowed. *)
Definition signed_atan2 (k : R) (atan2 : f64 -> f64 -> f64) : Prop := forall y x, fin y -> fin x ->
  fin (atan2 y x) /\ exists a, Rabs a <= PI /\ val x = sqrt (val x * val x + val y * val y) * cos a /\ val y = sqrt (val x * val x + val y * val y) * sin a /\
    P_Float9.close k (val (atan2 y x)) a.
Definition never_negative (hypot : f64 -> f64 -> f64) : Prop := forall a b, fin a -> fin b ->
  sqrt (val a * val a + val b * val b) <= 2 ^ 1020 -> 0 <= val (hypot a b).
(** [theta] and [phi] are the elevation above the transverse plane and the azimuth of [v], up to [k] units of rounding. *)
Definition points (k : R) (theta phi : f64) (v : vec) : Prop := exists e a,
  fin theta /\ fin phi /\ P_Float9.close k (val theta) e /\ P_Float9.close k (val phi) a /\ Rabs a <= PI /\ (v <> Vec 0 0 0 -> Rabs e <= PI / 2) /\
  v = vscale (sqrt (vnorm_sq v)) (unit_axis a (PI / 2 - e)).
(** Components below 2^500, and a transverse momentum that is not vanishing. *)
Definition sizable (p : fmom) : Prop := modest (mx p) /\ modest (my p) /\ modest (mz p) /\ / 2 ^ 500 <= pt4 p.
(** Of the event, [s] has the least transverse momentum and [h] the largest, up to rounding. *)
Definition soft_up_to (d : R) (l : list fmom) (s : fmom) : Prop := In s l /\ forall p, In p l -> pt4 s <= (1 + d) * pt4 p.
Definition hard_up_to (d : R) (l : list fmom) (h : fmom) : Prop := In h l /\ forall p, In p l -> pt4 p <= (1 + d) * pt4 h.

(** * The direction of a vector of doubles *)
Lemma points_dir : forall hypot atan2 k, 0 <= k <= 1000 -> good_hypot k hypot -> signed_atan2 k atan2 -> never_negative hypot -> forall w : rec3, finv w ->
  let r := sqrt (val (rx w) * val (rx w) + val (ry w) * val (ry w)) in r <= 2 ^ 1020 ->
  exists v, Rabs (vx v - val (rx w)) <= k * u * (r + min_normal) /\ Rabs (vy v - val (ry w)) <= k * u * (r + min_normal) /\ vz v = val (rz w) /\
    points k (fst (f_axis_to_angles hypot atan2 w)) (snd (f_axis_to_angles hypot atan2 w)) v.
Proof.
  intros hypot atan2 k K GH GA NN w (Fx & Fy & Fz) r R. destruct (GH _ _ Fx Fy R) as (Fp & Cp). fold r in Cp. pose proof (NN _ _ Fx Fy R) as P0. set (pt := hypot (rx w) (ry w)) in *.
  destruct (GA (ry w) (rx w) Fy Fx) as (Fa & a & Ba & Ex & Ey & Ca). fold r in Ex, Ey. destruct (GA (rz w) pt Fz Fp) as (Fe & e & Be & Eq & Ez & Ce).
  set (rho := sqrt (val pt * val pt + val (rz w) * val (rz w))) in *. assert (R0 : 0 <= r) by apply sqrt_pos. assert (H0 : 0 <= rho) by apply sqrt_pos.
  unfold P_Float9.close in Cp. rewrite (Rabs_pos_eq r) in Cp by exact R0.
  set (v := Vec (rho * (cos e * cos a)) (rho * (cos e * sin a)) (rho * sin e)).
  assert (NV : vnorm_sq v = rho * rho). { unfold vnorm_sq, v. cbn [vx vy vz]. pose proof (sin2_cos2 a) as A. pose proof (sin2_cos2 e) as B. unfold Rsqr in A, B.
    replace (rho * (cos e * cos a) * (rho * (cos e * cos a)) + rho * (cos e * sin a) * (rho * (cos e * sin a)) + rho * sin e * (rho * sin e)) with (rho * rho * (cos e * cos e * (sin a * sin a + cos a * cos a) + sin e * sin e)) by ring.
    rewrite A. replace (cos e * cos e * 1 + sin e * sin e) with 1 by lra. ring. }
  assert (SB : forall c t, Rabs c <= 1 -> Rabs ((val pt - r) * c) <= Rabs (val pt - r) -> Rabs (val pt * c - t) = Rabs (val pt * c - t)) by reflexivity. clear SB.
  assert (LE : forall c, Rabs c <= 1 -> Rabs ((val pt - r) * c) <= k * u * (r + min_normal)).
  { intros c Hc. rewrite Rabs_mult. eapply Rle_trans; [apply Rmult_le_compat_l; [apply Rabs_pos | exact Hc]|]. rewrite Rmult_1_r. exact Cp. }
  exists v. split; [|split; [|split]].
  - unfold v. cbn [vx]. rewrite <- Rmult_assoc, <- Eq, Ex. replace (val pt * cos a - r * cos a) with ((val pt - r) * cos a) by ring. apply LE. apply Rabs_le. pose proof (COS_bound a). lra.
  - unfold v. cbn [vy]. rewrite <- Rmult_assoc, <- Eq, Ey. replace (val pt * sin a - r * sin a) with ((val pt - r) * sin a) by ring. apply LE. apply Rabs_le. pose proof (SIN_bound a). lra.
  - unfold v. cbn [vz]. symmetry. exact Ez.
  - exists e, a. unfold f_axis_to_angles. cbv zeta. fold pt. cbn [fst snd]. split; [exact Fe|]. split; [exact Fa|]. split; [exact Ce|]. split; [exact Ca|]. split; [exact Ba|]. split.
    + intros NZ. assert (RP : 0 < rho). { destruct H0 as [H|H]; [exact H|]. exfalso. apply NZ. unfold v. rewrite <- H. f_equal; ring. }
      assert (C0 : 0 <= cos e) by (rewrite Eq in P0; apply Rmult_le_reg_l with rho; lra). apply Rnot_lt_le. intros L. pose proof PI_RGT_0 as PP.
      assert (cos (Rabs e) < 0) by (apply cos_lt_0; lra). unfold Rabs in H at 1. destruct (Rcase_abs e) in H; [rewrite cos_neg in H|]; lra.
    + rewrite NV, sqrt_square by exact H0. unfold unit_axis, vscale, v. cbn [vx vy vz]. rewrite sin_shift, cos_shift. f_equal; ring.
Qed.

(** * The cross product *)
Lemma cross_comp : forall a b c d N, modest a -> modest b -> modest c -> modest d -> Rabs (val a * val b) + Rabs (val c * val d) <= N -> 1000000 * min_normal <= N ->
  fin (fsub (fmul a b) (fmul c d)) /\ Rabs (val (fsub (fmul a b) (fmul c d)) - (val a * val b - val c * val d)) <= 31 / 10 * u * N.
Proof.
  intros a b c d N A B C D HN HM. pose proof u_b as [U0 U1]. pose proof mn_pos as MN.
  destruct (diff_err 0 a c b d (val a) (val c) ltac:(lra) A C B D (within0 _) (within0 _)) as (F & E). split; [exact F|]. eapply Rle_trans; [exact E|].
  assert (0 <= u * N - u * (Rabs (val a * val b) + Rabs (val c * val d))) by (rewrite <- Rmult_minus_distr_l; apply Rmult_le_pos; lra).
  assert (u * (1000000 * min_normal) <= u * N) by (apply Rmult_le_compat_l; lra). assert (0 <= u * min_normal) by (apply Rmult_le_pos; lra). lra.
Qed.
Lemma norm_pair : forall p, sqrt (px p * px p + py p * py p) <= norm3 p /\ sqrt (py p * py p + pz p * pz p) <= norm3 p /\ sqrt (pz p * pz p + px p * px p) <= norm3 p.
Proof.
  intros p. unfold norm3, p_sq. assert (Q : forall x, 0 <= x * x) by (intros x; nra). pose proof (Q (px p)). pose proof (Q (py p)). pose proof (Q (pz p)). split; [|split]; apply sqrt_le_1_alt; unfold pt_sq; lra.
Qed.
Lemma cross_terms : forall s h, let N := norm3 s * norm3 h in
  Rabs (py s * pz h) + Rabs (pz s * py h) <= N /\ Rabs (pz s * px h) + Rabs (px s * pz h) <= N /\ Rabs (px s * py h) + Rabs (py s * px h) <= N.
Proof.
  intros s h N. destruct (norm_pair s) as (S1 & S2 & S3). destruct (norm_pair h) as (H1 & H2 & H3).
  assert (G : forall a b c d x y, sqrt (a * a + b * b) <= x -> sqrt (c * c + d * d) <= y -> Rabs (a * d) + Rabs (b * c) <= x * y).
  { intros a b c d x y A B. pose proof (cauchy a b d c) as C. replace (d * d + c * c) with (c * c + d * d) in C by ring. eapply Rle_trans; [exact C|]. apply Rmult_le_compat; try assumption; apply sqrt_pos. }
  split; [|split]; apply G; assumption.
Qed.
Lemma pt_le_norm p : sqrt (pt_sq p) <= norm3 p.
Proof. apply norm_pair. Qed.
Lemma modest_norm p : modest (mx p) -> modest (my p) -> modest (mz p) -> norm3 (mom4 p) <= 2 * 2 ^ 500.
Proof.
  intros (_ & A) (_ & B) (_ & C). unfold norm3. apply Rsqr_incr_0_var; [|pose proof (pow_lt 2 500); lra]. unfold Rsqr. rewrite sqrt_sqrt by apply p_sq_nonneg.
  unfold p_sq, mom4. unfold pt_sq. cbn [px py pz]. set (m := 2 ^ 500) in *. assert (M0 : 0 <= m) by (pose proof (Rabs_pos (val (mx p))); lra).
  assert (Q : forall x, Rabs x <= m -> x * x <= m * m). { intros x H. replace (x * x) with (Rabs x * Rabs x) by (rewrite <- Rabs_mult; apply Rabs_pos_eq; nra). pose proof (Rabs_pos x). apply Rmult_le_compat; lra. }
  pose proof (Q _ A). pose proof (Q _ B). pose proof (Q _ C). assert (0 <= m * m) by (apply Rmult_le_pos; lra). lra.
Qed.
Lemma cross_ok3 : forall s h, sizable s -> sizable h -> let N := norm3 (mom4 s) * norm3 (mom4 h) in let X := vcross (vec_of (mom4 s)) (vec_of (mom4 h)) in let w := f_cross3 s h in
  1000000 * min_normal <= N /\ N <= 4 * 2 ^ 1000 /\ finv w /\ vclose (31 / 10 * u * N) (Vec (val (rx w)) (val (ry w)) (val (rz w))) X /\ Rabs (vx X) <= N /\ Rabs (vy X) <= N /\ Rabs (vz X) <= N.
Proof.
  intros s h (S1 & S2 & S3 & S4) (H1 & H2 & H3 & H4) N X w. 
  assert (P0 : 0 < / 2 ^ 500) by (apply Rinv_0_lt_compat, pow_lt; lra).
  assert (NS : / 2 ^ 500 <= norm3 (mom4 s)) by (eapply Rle_trans; [exact S4 | apply pt_le_norm]). assert (NH : / 2 ^ 500 <= norm3 (mom4 h)) by (eapply Rle_trans; [exact H4 | apply pt_le_norm]).
  assert (NL : / 2 ^ 1000 <= N). { rewrite <- pow500, Rinv_mult by (apply pow_nonzero; lra). apply Rmult_le_compat; lra. }
  assert (NM : 1000000 * min_normal <= N) by (eapply Rle_trans; [apply mn_tiny | exact NL]).
  assert (NU : N <= 4 * 2 ^ 1000). { rewrite <- pow500. replace (4 * (2 ^ 500 * 2 ^ 500)) with (2 * 2 ^ 500 * (2 * 2 ^ 500)) by ring. apply Rmult_le_compat; try (apply modest_norm; assumption); lra. }
  destruct (cross_terms (mom4 s) (mom4 h)) as (T1 & T2 & T3). cbn [mom4 px py pz] in T1, T2, T3. fold N in T1, T2, T3.
  destruct (cross_comp _ _ _ _ N S2 H3 S3 H2 T1 NM) as (F1 & E1). destruct (cross_comp _ _ _ _ N S3 H1 S1 H3 T2 NM) as (F2 & E2). destruct (cross_comp _ _ _ _ N S1 H2 S2 H1 T3 NM) as (F3 & E3).
  split; [exact NM|]. split; [exact NU|]. split; [split; [exact F1 | split; [exact F2 | exact F3]]|]. split; [split; [exact E1 | split; [exact E2 | exact E3]]|].
  assert (G : forall a b, Rabs a + Rabs b <= N -> Rabs (a - b) <= N) by (intros a b Hab; eapply Rle_trans; [apply Rabs_triang|]; rewrite Rabs_Ropp; exact Hab).
  split; [apply G, T1 | split; [apply G, T2 | apply G, T3]].
Qed.
(** The computed angles are those of a vector which differs from the exact cross product by rounding. *)
Lemma normal_ok : forall hypot atan2 k, 0 <= k <= 1000 -> good_hypot k hypot -> signed_atan2 k atan2 -> never_negative hypot -> forall s h, sizable s -> sizable h ->
  exists v, vclose ((3 * k + 4) * u * (norm3 (mom4 s) * norm3 (mom4 h))) v (vcross (vec_of (mom4 s)) (vec_of (mom4 h))) /\
    points k (fst (f_axis_to_angles hypot atan2 (f_cross3 s h))) (snd (f_axis_to_angles hypot atan2 (f_cross3 s h))) v.
Proof.
  intros hypot atan2 k K GH GA NN s h HS HH. destruct (cross_ok3 s h HS HH) as (NM & NU & FW & (E1 & E2 & E3) & B1 & B2 & B3).
  set (N := norm3 (mom4 s) * norm3 (mom4 h)) in *. set (X := vcross (vec_of (mom4 s)) (vec_of (mom4 h))) in *. set (w := f_cross3 s h) in *. cbn [vx vy vz] in E1, E2, E3. clearbody w X N.
  pose proof u_b as [U0 U1]. pose proof mn_pos as MN. assert (N0 : 0 < N) by lra. assert (UN : u * N <= / 1000000000000000 * N) by (apply Rmult_le_compat_r; lra). assert (UN0 : 0 < u * N) by (apply Rmult_lt_0_compat; lra).
  set (r := sqrt (val (rx w) * val (rx w) + val (ry w) * val (ry w))).
  assert (Bx : Rabs (val (rx w)) <= 101 / 100 * N). { replace (val (rx w)) with (vx X + (val (rx w) - vx X)) by ring. eapply Rle_trans; [apply Rabs_triang|]. lra. }
  assert (By : Rabs (val (ry w)) <= 101 / 100 * N). { replace (val (ry w)) with (vy X + (val (ry w) - vy X)) by ring. eapply Rle_trans; [apply Rabs_triang|]. lra. }
  assert (RB : r <= 202 / 100 * N). { pose proof (hypot_lip (val (rx w)) (val (ry w)) 0 0) as L. replace (0 * 0 + 0 * 0) with 0 in L by ring. rewrite sqrt_0, !Rminus_0_r in L. fold r in L. pose proof (Rle_abs r). lra. }
  assert (P1020 : 1000 * 2 ^ 1000 <= 2 ^ 1020). { change 1020%nat with (20 + 1000)%nat. rewrite pow_add. apply Rmult_le_compat_r; [apply pow_le; lra|]. simpl. lra. }
  assert (P1000 : 0 < 2 ^ 1000) by (apply pow_lt; lra).
  destruct (points_dir hypot atan2 k K GH GA NN w FW) as (v & V1 & V2 & V3 & HP); [fold r; lra|]. fold r in V1, V2. exists v. split; [|exact HP].
  assert (KR : k * u * (r + min_normal) <= (3 * k) * u * N). { replace (k * u * (r + min_normal)) with (k * u * (r + min_normal)) by ring. assert (k * u * (r + min_normal) <= k * u * (3 * N)) by (apply Rmult_le_compat_l; [apply Rmult_le_pos; lra | lra]). lra. }
  assert (KU : 0 <= k * (u * N)) by (apply Rmult_le_pos; lra).
  split; [|split].
  - replace (vx v - vx X) with ((vx v - val (rx w)) + (val (rx w) - vx X)) by ring. eapply Rle_trans; [apply Rabs_triang|]. lra.
  - replace (vy v - vy X) with ((vy v - val (ry w)) + (val (ry w) - vy X)) by ring. eapply Rle_trans; [apply Rabs_triang|]. lra.
  - rewrite V3. lra.
Qed.

(** * Which particles are chosen *)
Lemma pts_nth hypot l i x : nth_error (f_pts hypot l) i = Some x -> exists p, nth_error l i = Some p /\ x = hypot (mx p) (my p).
Proof. intros H. unfold f_pts in H. rewrite nth_error_map' in H. destruct (nth_error l i) as [p|] eqn:E; [|discriminate H]. injection H as <-. exists p. split; [reflexivity | reflexivity]. Qed.
Lemma f_argmax_weak : weak_order f_argmax_lt.
Proof.
  destruct f_weak as (W1 & W2 & W3). 
  assert (E : forall x y, f_argmax_lt x y = if is_nan x || is_nan y then f_argmin_lt x y else f_argmin_lt y x).
  { intros x y. unfold f_argmax_lt, f_argmin_lt. destruct (is_nan x), (is_nan y); reflexivity. }
  assert (NX : forall x y, is_nan x = true -> f_argmin_lt x y = negb (is_nan y)) by (intros x y H; unfold f_argmin_lt; rewrite H; reflexivity).
  assert (NY : forall x y, is_nan x = false -> is_nan y = true -> f_argmin_lt x y = false) by (intros x y H H'; unfold f_argmin_lt; rewrite H, H'; reflexivity).
  split; [|split].
  - intros x. rewrite E. destruct (is_nan x || is_nan x); apply W1.
  - intros x y z. rewrite !E. destruct (is_nan x) eqn:X, (is_nan y) eqn:Y, (is_nan z) eqn:Z; cbn [orb]; intros A B; try (eapply W2; eassumption);
      rewrite ?(NX _ _ X), ?(NX _ _ Y), ?(NY _ _ X Y), ?(NY _ _ Y Z), ?Y, ?Z in *; cbn in *; try discriminate; try reflexivity; eauto.
  - intros x y z. rewrite !E. destruct (is_nan x) eqn:X, (is_nan y) eqn:Y, (is_nan z) eqn:Z; cbn [orb]; intros A;
      rewrite ?(NX _ _ X), ?(NX _ _ Y), ?(NY _ _ X Y), ?(NY _ _ Y Z), ?(NY _ _ X Z), ?Y, ?Z in *; cbn in *; try discriminate; auto.
    destruct (W3 _ y _ A); auto.
Qed.
Lemma pt_close hypot k p : 0 <= k <= 1000 -> good_hypot k hypot -> sizable p -> fin (hypot (mx p) (my p)) /\ Rabs (val (hypot (mx p) (my p)) - pt4 p) <= 101 / 100 * (k * u) * pt4 p.
Proof.
  intros K GH (M1 & M2 & M3 & S). pose proof u_b as [U0 U1]. pose proof mn_pos as MN. assert (M : 1000000 * min_normal <= pt4 p).
  { eapply Rle_trans; [apply mn_tiny|]. eapply Rle_trans; [|exact S]. apply Rinv_le_contravar; [apply pow_lt; lra | apply Rle_pow; [lra | lia]]. }
  destruct (GH _ _ (proj1 M1) (proj1 M2)) as (F & C).
  - change (pt4 p <= 2 ^ 1020). eapply Rle_trans; [apply pt_le_norm|]. eapply Rle_trans; [apply (modest_norm p M1 M2 M3)|]. change (2 ^ 501 <= 2 ^ 1020). apply Rle_pow; [lra | lia].
  - split; [exact F|]. change (P_Float9.close k (val (hypot (mx p) (my p))) (pt4 p)) in C. unfold P_Float9.close in C. rewrite (Rabs_pos_eq (pt4 p)) in C by lra. eapply Rle_trans; [exact C|].
    replace (101 / 100 * (k * u) * pt4 p) with (k * u * (101 / 100 * pt4 p)) by field. apply Rmult_le_compat_l; [apply Rmult_le_pos; lra | lra].
Qed.
Lemma Rabs_def2' x t : Rabs x <= t -> - t <= x <= t.
Proof. intros H. pose proof (Rle_abs x). pose proof (Rle_abs (- x)). rewrite Rabs_Ropp in *. lra. Qed.
Lemma fin_not_nan x : fin x -> is_nan x = false. Proof. destruct x; intros H; try discriminate H; reflexivity. Qed.
(** Comparing approximations of two sizes. *)
Lemma order_up_to t a b x y : 0 <= t <= / 100 -> 0 <= x -> 0 <= y -> Rabs (a - x) <= t * x -> Rabs (b - y) <= t * y -> a <= b -> x <= (1 + 21 / 10 * t) * y.
Proof.
  intros T X Y A B L. assert (A' : (1 - t) * x <= a). { pose proof (Rabs_def2' _ _ A) as Q. lra. }
  assert (B' : b <= (1 + t) * y). { pose proof (Rabs_def2' _ _ B) as Q. lra. }
  assert (H : (1 - t) * x <= (1 - t) * ((1 + 21 / 10 * t) * y)).
  { eapply Rle_trans; [exact A'|]. eapply Rle_trans; [exact L|]. eapply Rle_trans; [exact B'|]. rewrite <- Rmult_assoc. apply Rmult_le_compat_r; [exact Y|].
    replace ((1 - t) * (1 + 21 / 10 * t)) with (1 + 11 / 10 * t - 21 / 10 * t * t) by field. assert (t * t <= / 100 * t) by (apply Rmult_le_compat_r; lra). lra. }
  apply Rmult_le_reg_l in H; lra.
Qed.
Section Choice.
  Context (hypot : f64 -> f64 -> f64) (k : R) (K : 0 <= k <= 1000) (GH : good_hypot k hypot) (l : list fmom) (HL : l <> []) (HS : forall p, In p l -> sizable p).
  Lemma pts_not_nil : f_pts hypot l <> []. Proof. destruct l; [contradiction | discriminate]. Qed.
  Lemma rel_t : 0 <= 101 / 100 * (k * u) <= / 100.
  Proof. pose proof u_b as [U0 U1]. assert (0 <= k * u) by (apply Rmult_le_pos; lra). assert (k * u <= 1000 * u) by (apply Rmult_le_compat_r; lra). lra. Qed.
  Lemma compare_pts p q : In p l -> In q l -> val (hypot (mx p) (my p)) <= val (hypot (mx q) (my q)) -> pt4 p <= (1 + 3 * k * u) * pt4 q.
  Proof.
    intros Hp Hq L. destruct (pt_close hypot k p K GH (HS p Hp)) as (_ & A). destruct (pt_close hypot k q K GH (HS q Hq)) as (_ & B). pose proof rel_t as T.
    pose proof u_b as [U0 U1]. assert (KU : 0 <= k * u) by (apply Rmult_le_pos; lra). assert (P : forall x, 0 <= pt4 x) by (intros; apply sqrt_pos).
    eapply Rle_trans; [apply (order_up_to _ _ _ _ _ T (P p) (P q) A B L)|]. apply Rmult_le_compat_r; [apply P|]. lra.
  Qed.
  Lemma soft_choice : exists i s, argmin f_argmin_lt (f_pts hypot l) = Ok i /\ nth_error l i = Some s /\ soft_up_to (3 * k * u) l s.
  Proof.
    destruct (argmin_spec f_argmin_lt f_weak (f_pts hypot l) pts_not_nil) as (i & y & E & Hy & HM). destruct (pts_nth _ _ _ _ Hy) as (s & Hs & Ey). exists i, s. split; [exact E|]. split; [exact Hs|].
    assert (Is : In s l) by (eapply nth_error_In, Hs). split; [exact Is|]. intros p Hp. apply compare_pts; try assumption. destruct (In_nth_error _ _ Hp) as (j & Hj).
    assert (Hx : nth_error (f_pts hypot l) j = Some (hypot (mx p) (my p))) by (unfold f_pts; rewrite nth_error_map', Hj; reflexivity). destruct (HM j _ Hx) as (N & _).
    destruct (pt_close hypot k p K GH (HS p Hp)) as (Fp & _). destruct (pt_close hypot k s K GH (HS s Is)) as (Fs & _). unfold f_argmin_lt in N. subst y. rewrite (fin_not_nan _ Fp), (fin_not_nan _ Fs) in N.
    apply Rnot_lt_le. intros L. apply (flt_ok _ _ Fp Fs) in L. congruence.
  Qed.
  Lemma hard_choice : exists i h, argmin f_argmax_lt (f_pts hypot l) = Ok i /\ nth_error l i = Some h /\ hard_up_to (3 * k * u) l h.
  Proof.
    destruct (argmin_spec f_argmax_lt f_argmax_weak (f_pts hypot l) pts_not_nil) as (i & y & E & Hy & HM). destruct (pts_nth _ _ _ _ Hy) as (s & Hs & Ey). exists i, s. split; [exact E|]. split; [exact Hs|].
    assert (Is : In s l) by (eapply nth_error_In, Hs). split; [exact Is|]. intros p Hp. apply compare_pts; try assumption. destruct (In_nth_error _ _ Hp) as (j & Hj).
    assert (Hx : nth_error (f_pts hypot l) j = Some (hypot (mx p) (my p))) by (unfold f_pts; rewrite nth_error_map', Hj; reflexivity). destruct (HM j _ Hx) as (N & _).
    destruct (pt_close hypot k p K GH (HS p Hp)) as (Fp & _). destruct (pt_close hypot k s K GH (HS s Is)) as (Fs & _). unfold f_argmax_lt in N. subst y. rewrite (fin_not_nan _ Fp), (fin_not_nan _ Fs) in N.
    apply Rnot_lt_le. intros L. apply (flt_ok _ _ Fs Fp) in L. congruence.
  Qed.
End Choice.

(** * C240 *)
(** soft_hard_axis returns the elevation and the azimuth, to the accuracy of the C library, of a vector that differs by rounding from the
    exact cross product of the softest and the hardest three-momentum, each chosen up to rounding. *)
Theorem C240_axis : forall hypot atan2 k, 0 <= k <= 1000 -> good_hypot k hypot -> signed_atan2 k atan2 -> never_negative hypot ->
  forall l, l <> [] -> (forall p, In p l -> sizable p) ->
  exists theta phi s h v, f_soft_hard_axis hypot atan2 l = Ok (theta, phi) /\ soft_up_to (3 * k * u) l s /\ hard_up_to (3 * k * u) l h /\ points k theta phi v /\
    vclose ((3 * k + 4) * u * (norm3 (mom4 s) * norm3 (mom4 h))) v (vcross (vec_of (mom4 s)) (vec_of (mom4 h))).
Proof.
  intros hypot atan2 k K GH GA NN l HL HS. destruct (soft_choice hypot k K GH l HL HS) as (i & s & Ei & Hi & S). destruct (hard_choice hypot k K GH l HL HS) as (j & h & Ej & Hj & H).
  destruct (normal_ok hypot atan2 k K GH GA NN s h (HS s (proj1 S)) (HS h (proj1 H))) as (v & V & P). 
  exists (fst (f_axis_to_angles hypot atan2 (f_cross3 s h))), (snd (f_axis_to_angles hypot atan2 (f_cross3 s h))), s, h, v.
  split; [|split; [exact S | split; [exact H | split; [exact P | exact V]]]]. unfold f_soft_hard_axis. rewrite Ei. cbn [bind]. rewrite (proj2 (get_ok _ _ _) Hi). cbn [bind]. rewrite Ej. cbn [bind].
  rewrite (proj2 (get_ok _ _ _) Hj). cbn [bind]. apply f_equal, surjective_pairing.
Qed.
Print Assumptions C240_axis.

(** * The returned axis is orthogonal to both particles *)
Lemma sin_abs_le x : Rabs (sin x) <= Rabs x.
Proof.
  assert (P : forall t, 0 <= t -> Rabs (sin t) <= t).
  { intros t [T|<-]; [|rewrite sin_0, Rabs_R0; lra]. pose proof PI_RGT_0 as PP. destruct (Rle_or_lt t 1) as [L|L].
    - pose proof (sin_lt_x t T). pose proof PI2_1 as P1. rewrite Rabs_pos_eq; [lra | apply sin_ge_0; lra].
    - pose proof (SIN_bound t). apply Rabs_le. lra. }
  destruct (Rle_or_lt 0 x) as [H|H]; [rewrite (Rabs_pos_eq x) by exact H; apply P, H|]. rewrite <- (Rabs_Ropp x), <- (Rabs_Ropp (sin x)), <- sin_neg. rewrite (Rabs_pos_eq (- x)) by lra. apply P. lra.
Qed.
Lemma half_prod c d : Rabs c <= 1 -> Rabs (2 * c * sin (d / 2)) <= Rabs d.
Proof.
  intros C. rewrite !Rabs_mult, (Rabs_pos_eq 2) by lra. pose proof (sin_abs_le (d / 2)) as S. unfold Rdiv in S. rewrite Rabs_mult, (Rabs_pos_eq (/ 2)) in S by lra.
  assert (Rabs c * Rabs (sin (d / 2)) <= 1 * (Rabs d * / 2)) by (apply Rmult_le_compat; try apply Rabs_pos; assumption). unfold Rdiv in *. lra.
Qed.
Lemma sin_lip a b : Rabs (sin a - sin b) <= Rabs (a - b).
Proof. rewrite form4. replace (2 * cos ((a + b) / 2) * sin ((a - b) / 2)) with (2 * cos ((a + b) / 2) * sin ((a - b) / 2)) by ring. apply half_prod, Rabs_le. pose proof (COS_bound ((a + b) / 2)). lra. Qed.
Lemma cos_lip a b : Rabs (cos a - cos b) <= Rabs (a - b).
Proof. rewrite <- (sin_shift a), <- (sin_shift b). eapply Rle_trans; [apply sin_lip|]. replace (PI / 2 - a - (PI / 2 - b)) with (- (a - b)) by ring. rewrite Rabs_Ropp. lra. Qed.
Lemma prod_lip a b c d x y : Rabs a <= 1 -> Rabs d <= 1 -> Rabs (a - c) <= x -> Rabs (b - d) <= y -> Rabs (a * b - c * d) <= x + y.
Proof.
  intros A D X Y. replace (a * b - c * d) with (a * (b - d) + (a - c) * d) by ring. eapply Rle_trans; [apply Rabs_triang|]. rewrite !Rabs_mult.
  assert (Rabs a * Rabs (b - d) <= 1 * y) by (apply Rmult_le_compat; try apply Rabs_pos; assumption). assert (Rabs (a - c) * Rabs d <= x * 1) by (apply Rmult_le_compat; try apply Rabs_pos; assumption). lra.
Qed.
Lemma unit_lip a t a' t' : vclose (Rabs (t - t') + Rabs (a - a')) (unit_axis a t) (unit_axis a' t').
Proof.
  pose proof (sin_lip t t'). pose proof (cos_lip t t'). pose proof (sin_lip a a'). pose proof (cos_lip a a'). pose proof (Rabs_pos (a - a')).
  assert (S : forall x, Rabs (sin x) <= 1) by (intros x; apply Rabs_le; pose proof (SIN_bound x); lra). assert (C : forall x, Rabs (cos x) <= 1) by (intros x; apply Rabs_le; pose proof (COS_bound x); lra).
  unfold unit_axis. split; [|split]; cbn [vx vy vz]; [apply prod_lip; auto | apply prod_lip; auto | lra].
Qed.
Lemma vdot_close e a b q : 0 <= e -> vclose e a b -> Rabs (vdot a (vec_of q) - vdot b (vec_of q)) <= 3 * e * norm3 q.
Proof.
  intros E (H1 & H2 & H3). unfold vdot, vec_of. cbn [vx vy vz].
  assert (NX : Rabs (px q) <= norm3 q /\ Rabs (py q) <= norm3 q /\ Rabs (pz q) <= norm3 q).
  { pose proof (norm3_max q) as M. cbv zeta in M. destruct M as [M _]. pose proof (Rmax_l (Rmax (Rabs (px q)) (Rabs (py q))) (Rabs (pz q))). pose proof (Rmax_r (Rmax (Rabs (px q)) (Rabs (py q))) (Rabs (pz q))). pose proof (Rmax_l (Rabs (px q)) (Rabs (py q))). pose proof (Rmax_r (Rabs (px q)) (Rabs (py q))). split; [|split]; lra. }
  destruct NX as (N1 & N2 & N3).
  replace (vx a * px q + vy a * py q + vz a * pz q - (vx b * px q + vy b * py q + vz b * pz q)) with ((vx a - vx b) * px q + (vy a - vy b) * py q + (vz a - vz b) * pz q) by ring.
  eapply Rle_trans; [apply Rabs_triang|]. eapply Rle_trans; [apply Rplus_le_compat_r, Rabs_triang|]. rewrite !Rabs_mult.
  assert (Rabs (vx a - vx b) * Rabs (px q) <= e * norm3 q) by (apply Rmult_le_compat; try apply Rabs_pos; assumption).
  assert (Rabs (vy a - vy b) * Rabs (py q) <= e * norm3 q) by (apply Rmult_le_compat; try apply Rabs_pos; assumption).
  assert (Rabs (vz a - vz b) * Rabs (pz q) <= e * norm3 q) by (apply Rmult_le_compat; try apply Rabs_pos; assumption). lra.
Qed.
Lemma vnorm_dot v : vnorm_sq v = vdot v v. Proof. reflexivity. Qed.
(** The unit vector at the given elevation and azimuth. *)
Definition axis_of (theta phi : f64) : vec := unit_axis (val phi) (PI / 2 - val theta).
Lemma axis_near : forall k theta phi v rho N X q, 0 <= k <= 1000 -> points k theta phi v -> 1 <= rho -> 0 < N -> N <= rho * sqrt (vdot X X) -> 100000 * (k + 2) * rho * u <= 1 ->
  vclose ((3 * k + 4) * u * N) v X -> vdot X (vec_of q) = 0 -> Rabs (vdot (axis_of theta phi) (vec_of q)) <= (40 * k + 30) * rho * u * norm3 q.
Proof.
  intros k theta phi v rho N X q K (e & a & _ & _ & Ce & Ca & Ba & Be & EV) R1 N0 NX SM VX OR. pose proof u_b as [U0 U1]. pose proof PI_4 as P4. pose proof PI_RGT_0 as PP. destruct mn_tiny as [_ MU]. pose proof mn_pos as MN.
  set (d := (3 * k + 4) * u) in *. assert (D0 : 0 < d) by (apply Rmult_lt_0_compat; lra). assert (KR : 0 <= k * rho * u) by (apply Rmult_le_pos; [apply Rmult_le_pos; lra | lra]). assert (RU : u <= rho * u) by (rewrite <- (Rmult_1_l u) at 1; apply Rmult_le_compat_r; lra).
  assert (DR : d * rho <= / 10000) by (unfold d; lra). assert (Q0 : 0 <= norm3 q) by apply sqrt_pos.
  pose proof (norm_pert v X (d * N) ltac:(apply Rmult_le_pos; lra) VX) as NP. apply Rabs_def2' in NP. set (r := sqrt (vnorm_sq v)) in *. change (sqrt (vdot v v)) with r in NP. set (x := sqrt (vdot X X)) in *.
  assert (DN : d * N <= / 10000 * x). { eapply Rle_trans; [apply Rmult_le_compat_l; [lra | exact NX]|]. rewrite <- Rmult_assoc. apply Rmult_le_compat_r; [apply sqrt_pos | exact DR]. }
  assert (X0 : 0 < x). { apply Rmult_lt_reg_l with rho; lra. } assert (RX : x / 2 <= r) by lra. assert (R0 : 0 < r) by lra.
  assert (NV : v <> Vec 0 0 0). { intros Z. assert (vnorm_sq v = 0) by (rewrite Z; unfold vnorm_sq; cbn [vx vy vz]; ring). unfold r in R0. rewrite H, sqrt_0 in R0. lra. } specialize (Be NV).
  set (n := unit_axis a (PI / 2 - e)) in *.
  pose proof (vdot_close (d * N) v X q ltac:(apply Rmult_le_pos; lra) VX) as VD. rewrite OR, Rminus_0_r in VD. rewrite EV in VD. replace (vdot (vscale r n) (vec_of q)) with (r * vdot n (vec_of q)) in VD by (unfold vdot, vscale; cbn [vx vy vz]; ring).
  rewrite Rabs_mult, (Rabs_pos_eq r) in VD by lra.
  assert (ND : Rabs (vdot n (vec_of q)) <= 6 * d * rho * norm3 q).
  { apply Rmult_le_reg_l with r; [exact R0|]. eapply Rle_trans; [exact VD|]. apply Rle_trans with (x / 2 * (6 * d * rho * norm3 q)); [|apply Rmult_le_compat_r; [|exact RX]; repeat apply Rmult_le_pos; lra].
    replace (x / 2 * (6 * d * rho * norm3 q)) with (3 * (d * (rho * x)) * norm3 q) by field. apply Rmult_le_compat_r; [exact Q0|]. apply Rmult_le_compat_l; [lra|]. apply Rmult_le_compat_l; lra. }
  assert (UE : vclose (7 * (k * u)) (axis_of theta phi) n).
  { assert (KU : 0 <= k * u) by (apply Rmult_le_pos; lra). unfold P_Float9.close in Ce, Ca.
    assert (A1 : Rabs (val phi - a) <= k * u * (41 / 10)) by (eapply Rle_trans; [exact Ca|]; apply Rmult_le_compat_l; lra).
    assert (A2 : Rabs (val theta - e) <= k * u * (21 / 10)) by (eapply Rle_trans; [exact Ce|]; apply Rmult_le_compat_l; lra).
    destruct (unit_lip (val phi) (PI / 2 - val theta) a (PI / 2 - e)) as (L1 & L2 & L3). replace (PI / 2 - val theta - (PI / 2 - e)) with (- (val theta - e)) in L1, L2, L3 by ring. rewrite Rabs_Ropp in L1, L2, L3.
    split; [|split]; (eapply Rle_trans; [eassumption | lra]). }
  pose proof (vdot_close (7 * (k * u)) (axis_of theta phi) n q ltac:(assert (0 <= k * u) by (apply Rmult_le_pos; lra); lra) UE) as VA.
  replace (vdot (axis_of theta phi) (vec_of q)) with (vdot (axis_of theta phi) (vec_of q) - vdot n (vec_of q) + vdot n (vec_of q)) by ring. eapply Rle_trans; [apply Rabs_triang|].
  eapply Rle_trans; [apply Rplus_le_compat; [exact VA | exact ND]|]. rewrite <- Rmult_plus_distr_r. apply Rmult_le_compat_r; [exact Q0|]. unfold d.
  assert (k * u <= k * rho * u) by (rewrite Rmult_assoc; apply Rmult_le_compat_l; lra). lra.
Qed.
(** Provided the two are not nearly parallel, the angles returned, read as elevation and azimuth, are an axis at right angles to both. *)
Theorem C240_orthogonal : forall hypot atan2 k, 0 <= k <= 1000 -> good_hypot k hypot -> signed_atan2 k atan2 -> never_negative hypot ->
  forall l, l <> [] -> (forall p, In p l -> sizable p) ->
  exists theta phi s h, f_soft_hard_axis hypot atan2 l = Ok (theta, phi) /\ soft_up_to (3 * k * u) l s /\ hard_up_to (3 * k * u) l h /\
    forall rho, 1 <= rho -> 100000 * (k + 2) * rho * u <= 1 ->
      norm3 (mom4 s) * norm3 (mom4 h) <= rho * sqrt (vnorm_sq (vcross (vec_of (mom4 s)) (vec_of (mom4 h)))) ->
      Rabs (vdot (axis_of theta phi) (vec_of (mom4 s))) <= (40 * k + 30) * rho * u * norm3 (mom4 s) /\
      Rabs (vdot (axis_of theta phi) (vec_of (mom4 h))) <= (40 * k + 30) * rho * u * norm3 (mom4 h).
Proof.
  intros hypot atan2 k K GH GA NN l HL HS. destruct (C240_axis hypot atan2 k K GH GA NN l HL HS) as (theta & phi & s & h & v & E & S & H & P & V). exists theta, phi, s, h.
  split; [exact E|]. split; [exact S|]. split; [exact H|]. intros rho R1 SM NR. destruct (cross_ok3 s h (HS s (proj1 S)) (HS h (proj1 H))) as (NM & _). cbv zeta in NM. pose proof mn_pos as MN.
  split; (apply (axis_near k theta phi v rho (norm3 (mom4 s) * norm3 (mom4 h)) _ _ K P R1 ltac:(lra) NR SM V); unfold vdot, vcross, vec_of; cbn [vx vy vz]; ring).
Qed.
Print Assumptions C240_orthogonal.

(** * C241 *)
Lemma in_range z : flt fzero z && fle z fhalf = true <-> fin z /\ 0 < val z <= / 2.
Proof.
  destruct (lit_ok 1 (-1) ltac:(lia) ltac:(lia)) as (VH & FH). fold fhalf in VH, FH. change (bpow radix2 (-1)) with (/ 2) in VH. rewrite Rmult_1_l in VH.
  assert (F0 : fin fzero) by reflexivity. assert (V0 : val fzero = 0) by reflexivity.
  assert (LE : fin z -> fle z fhalf = true <-> val z <= / 2).
  { intros Fz. rewrite (fle_val _ _ Fz FH), VH. reflexivity. }
  split.
  - intros H. apply andb_true_iff in H as (A & B). assert (Fz : fin z). { destruct z as [s|s| |s m e Hb]; try reflexivity; [destruct s; [discriminate A | discriminate B] | discriminate A]. }
    split; [exact Fz|]. apply (flt_ok _ _ F0 Fz) in A. rewrite V0 in A. apply LE in B; [lra | exact Fz].
  - intros (Fz & L). apply andb_true_iff. split; [apply (flt_ok _ _ F0 Fz); rewrite V0; lra | apply LE; [exact Fz | lra]].
Qed.
(** A fraction outside (0, 1/2], infinite or NaN; fewer than two particles and no axis; no particles at all: ValueError. *)
Theorem C241_rejects : forall fsin fcos hypot atan2 l z angle axis out, f_split_hardest fsin fcos hypot atan2 l z angle axis out ->
  ~ (fin z /\ 0 < val z <= / 2) \/ (axis = None /\ (length l < 2)%nat) \/ l = [] -> out = Err ValueError.
Proof.
  intros fsin fcos hypot atan2 l z angle axis out H D. unfold f_split_hardest in H. destruct (flt fzero z && fle z fhalf) eqn:E; [|exact H]. apply in_range in E.
  destruct D as [D|[(-> & D)| ->]]; [contradiction| |].
  - apply Nat.ltb_lt in D. rewrite D in H. exact H.
  - destruct axis as [a|]; exact H.
Qed.
Print Assumptions C241_rejects.
Lemma at_position {A} (l : list A) i x : nth_error l i = Some x -> l = firstn i l ++ x :: skipn (S i) l.
Proof. revert i. induction l as [|y l IH]; intros [|i] H; try discriminate H; [injection H as ->; reflexivity|]. cbn. f_equal. apply IH, H. Qed.
Lemma comp_le_norm q : Rabs (px q) <= norm3 q /\ Rabs (py q) <= norm3 q /\ Rabs (pz q) <= norm3 q.
Proof.
  pose proof (norm3_max q) as M. cbv zeta in M. destruct M as [M _]. pose proof (Rmax_l (Rmax (Rabs (px q)) (Rabs (py q))) (Rabs (pz q))). pose proof (Rmax_r (Rmax (Rabs (px q)) (Rabs (py q))) (Rabs (pz q))). pose proof (Rmax_l (Rabs (px q)) (Rabs (py q))). pose proof (Rmax_r (Rabs (px q)) (Rabs (py q))). split; [|split]; lra.
Qed.
(** Whether [axis] is given or, being omitted, taken from soft_hard_axis. *)
Definition axis_used (hypot atan2 : f64 -> f64 -> f64) (l : list fmom) (axis : option (f64 * f64)) (theta phi : f64) : Prop :=
  match axis with Some a => a = (theta, phi) | None => f_soft_hard_axis hypot atan2 l = Ok (theta, phi) end.
(** Otherwise the hardest particle is taken out, all others stay as they are and in their order, and two children follow: the first is [z]
    times the hardest one rotated about the axis, and the two add up to it, both up to rounding. *)
Theorem C241_result : forall fsin fcos hypot atan2 k, 0 <= k <= 10 -> (forall x, fin x -> trig_ok k fsin sin x /\ trig_ok k fcos cos x) ->
  good_hypot k hypot -> signed_atan2 k atan2 -> never_negative hypot ->
  forall l z angle axis out, l <> [] -> (forall p, In p l -> sizable p /\ fin (me p) /\ Rabs (val (me p)) <= 2 ^ 1000) ->
  fin z -> / 2 ^ 400 <= val z <= / 2 -> fin angle -> match axis with Some a => fin (fst a) /\ fin (snd a) | None => (2 <= length l)%nat end ->
  f_split_hardest fsin fcos hypot atan2 l z angle axis out ->
  exists theta phi before h after c0 c1, axis_used hypot atan2 l axis theta phi /\ l = before ++ h :: after /\ out = Ok (before ++ after ++ [c0; c1]) /\
    hard_up_to (3 * k * u) l h /\ fin4 c0 /\ fin4 c1 /\ val (me c0) = SpecIEEE.nearest (val z * val (me h)) /\
    (exists f, rotates f (val angle) (unit_axis (val phi) (val theta)) /\
       vclose ((84 * k + 208) * u * (val z * norm3 (mom4 h))) (vec_of (mom4 c0)) (f (vscale (val z) (vec_of (mom4 h))))) /\
    forall f, In f [mx; my; mz; me] -> Rabs (val (f c0) + val (f c1) - val (f h)) <= u * Rabs (val (f h) - val (f c0)).
Proof.
  intros fsin fcos hypot atan2 k K HT GH GA NN l z angle axis out HL HP FZ BZ FA AX HO. pose proof u_b as [U0 U1]. assert (K' : 0 <= k <= 1000) by lra.
  assert (P400 : 0 < / 2 ^ 400) by (apply Rinv_0_lt_compat, pow_lt; lra). unfold f_split_hardest in HO.
  assert (HR : flt fzero z && fle z fhalf = true) by (apply in_range; split; [exact FZ | lra]). rewrite HR in HO.
  assert (HS : forall p, In p l -> sizable p) by (intros p Hp; apply HP, Hp). destruct (hard_choice hypot k K' GH l HL HS) as (j & h & Ej & Hj & H).
  assert (EA : exists theta phi, axis_used hypot atan2 l axis theta phi /\ fin theta /\ fin phi /\
    (match axis with Some a => Ok a | None => if Nat.ltb (length l) 2 then Err ValueError else f_soft_hard_axis hypot atan2 l end) = Ok (theta, phi)).
  { destruct axis as [(t, p)|]; [exists t, p; split; [reflexivity|]; split; [apply AX|]; split; [apply AX | reflexivity]|].
    destruct (C240_axis hypot atan2 k K' GH GA NN l HL HS) as (theta & phi & s & h' & v & E & _ & _ & (e & a & Ft & Fp & _) & _). exists theta, phi. split; [exact E|]. split; [exact Ft|]. split; [exact Fp|].
    apply Nat.ltb_ge in AX. rewrite AX. exact E. }
  destruct EA as (theta & phi & AU & Ft & Fp & EA). rewrite EA in HO. cbn [bind] in HO. rewrite Ej in HO. cbn [bind] in HO. rewrite (proj2 (get_ok _ _ _) Hj) in HO. cbn [bind fst snd] in HO.
  destruct HO as (c0 & c1 & HV & ->). exists theta, phi, (firstn j l), h, (skipn (S j) l), c0, c1. split; [exact AU|]. split; [apply at_position, Hj|]. split; [reflexivity|]. split; [exact H|].
  destruct (HP h (proj1 H)) as ((M1 & M2 & M3 & S) & Fe & Be). assert (N2 : norm3 (mom4 h) <= 2 * 2 ^ 500) by (apply modest_norm; assumption).
  assert (N1 : / 2 ^ 500 <= norm3 (mom4 h)) by (eapply Rle_trans; [exact S | apply pt_le_norm]). assert (P5 : 0 < / 2 ^ 500) by (apply Rinv_0_lt_compat, pow_lt; lra).
  assert (H4 : fin4 h) by (split; [apply M1 | split; [apply M2 | split; [apply M3 | exact Fe]]]).
  assert (P960 : 2 * 2 ^ 500 <= 2 ^ 960) by (change (2 ^ 501 <= 2 ^ 960); apply Rle_pow; [lra | lia]). assert (P1000 : 2 * 2 ^ 500 <= 2 ^ 1000) by (change (2 ^ 501 <= 2 ^ 1000); apply Rle_pow; [lra | lia]).
  assert (HG : 8 * 2 ^ 1000 <= SpecIEEE.huge) by exact pow1000. assert (PP : 0 < 2 ^ 1000) by (apply pow_lt; lra).
  assert (SZ : / 2 ^ 960 <= Rabs (val z) * norm3 (mom4 h)).
  { rewrite Rabs_pos_eq by lra. apply Rle_trans with (/ 2 ^ 400 * / 2 ^ 500); [|apply Rmult_le_compat; lra]. rewrite <- Rinv_mult by (apply pow_nonzero; lra). rewrite <- pow_add. apply Rinv_le_contravar; [apply pow_lt; lra | apply Rle_pow; [lra | lia]]. }
  destruct (C201_first_child fsin fcos k h z angle theta phi c0 c1 K (proj1 (HT _ FA)) (proj2 (HT _ FA)) (proj1 (HT _ Ft)) (proj2 (HT _ Ft)) (proj1 (HT _ Fp)) (proj2 (HT _ Fp)) H4 FZ) as (F0 & ROT & NC & EC); try assumption.
  { rewrite Rabs_pos_eq; lra. } { lra. } { lra. }
  rewrite (Rabs_pos_eq (val z)) in ROT, NC by lra.
  assert (C0 : norm3 (mom4 c0) <= 2 ^ 1000).
  { assert (ZN : val z * norm3 (mom4 h) <= / 2 * (2 * 2 ^ 500)) by (apply Rmult_le_compat; lra). assert (0 <= val z * norm3 (mom4 h)) by (apply Rmult_le_pos; lra). apply Rabs_def2' in NC.
    assert (Q : 2 * (84 * k + 208) * u <= 1). { assert (k * u <= 10 * u) by (apply Rmult_le_compat_r; lra). lra. }
    assert (2 * (84 * k + 208) * u * (val z * norm3 (mom4 h)) <= 1 * (val z * norm3 (mom4 h))) by (apply Rmult_le_compat_r; assumption). lra. }
  assert (EB : Rabs (val (me c0)) <= 2 * 2 ^ 1000).
  { rewrite EC. assert (Z : Rabs (val z * val (me h)) <= 2 ^ 1000). { rewrite Rabs_mult, (Rabs_pos_eq (val z)) by lra. apply Rle_trans with (1 * 2 ^ 1000); [apply Rmult_le_compat; try apply Rabs_pos; lra | lra]. }
    pose proof (nearest_err_any (val z * val (me h))) as NE. destruct mn_tiny as [_ MU]. pose proof mn_pos as MN. replace (SpecIEEE.nearest (val z * val (me h))) with ((SpecIEEE.nearest (val z * val (me h)) - val z * val (me h)) + val z * val (me h)) by ring.
    eapply Rle_trans; [apply Rabs_triang|]. assert (1 <= 2 ^ 1000) by (apply pow_R1_Rle; lra). assert (u * Rabs (val z * val (me h)) <= / 1000000000000000 * 2 ^ 1000) by (apply Rmult_le_compat; try apply Rabs_pos; lra).
    assert (u * min_normal <= / 1000000000000000 * 1) by (apply Rmult_le_compat; lra). lra. }
  destruct (C201_conservation fsin fcos h z angle theta phi c0 c1 H4 F0) as (F1 & CS); [|exact HV|].
  { destruct (comp_le_norm (mom4 h)) as (A1 & A2 & A3). destruct (comp_le_norm (mom4 c0)) as (B1 & B2 & B3). cbn [mom4 px py pz] in A1, A2, A3, B1, B2, B3. intros f [<- | [<- | [<- | [<- | []]]]]; lra. }
  split; [exact F0|]. split; [exact F1|]. split; [exact EC|]. split; [exact ROT | exact CS].
Qed.
Print Assumptions C241_result.

(** There always is an outcome. *)
Theorem C241_outcome : forall fsin fcos hypot atan2 l z angle axis, exists out, f_split_hardest fsin fcos hypot atan2 l z angle axis out.
Proof.
  intros fsin fcos hypot atan2 l z angle axis. unfold f_split_hardest. destruct (flt fzero z && fle z fhalf); [|eexists; reflexivity]. cbv zeta.
  match goal with |- exists out, match ?p with Ok _ => _ | Err _ => _ end => destruct p as [((a & i) & h)|e] end; [|eexists; reflexivity].
  destruct (C200_value_exists fsin fcos angle (fst a) (snd a)) as (M & HM). destruct (mapply_exists M (fmul (mx h) z, fmul (my h) z, fmul (mz h) z)) as (v & HV).
  eexists _, _, _. split; [exists M, v; split; [exact HM|]; split; [exact HV | reflexivity] | reflexivity].
Qed.
Print Assumptions C241_outcome.

(** * The hypotheses are met: two particles, of transverse momentum 1 along the x-axis and 2 along the y-axis *)
Lemma ref_signed : signed_atan2 1 ref_atan2.
Proof.
  intros y x Fy Fx. set (a := RealBase.atan2 (val y) (val x)). destruct (atan2_spec (val y) (val x)) as (B & Ex & Ey). fold a in B, Ex, Ey. pose proof PI_4 as P4. pose proof PI_RGT_0 as PP.
  destruct (of_R_ok a) as (F & V). { apply no_overflow. apply Rle_trans with 4; [apply Rabs_le; lra|]. unfold SpecIEEE.huge. change 4 with (2 * 2). apply Rle_trans with (2 ^ 2); [simpl; lra | apply Rle_pow; [lra | lia]]. }
  split; [exact F|]. exists a. split; [apply Rabs_le; lra|]. split; [exact Ex|]. split; [exact Ey|]. unfold ref_atan2. fold a. rewrite V. apply close_nearest.
Qed.
Lemma ref_nonneg : never_negative ref_hypot.
Proof.
  intros a b Fa Fb R. unfold ref_hypot. set (q := sqrt (val a * val a + val b * val b)) in *. assert (Q0 : 0 <= q) by apply sqrt_pos.
  destruct (of_R_ok q) as (F & V). { apply no_overflow. rewrite Rabs_pos_eq by exact Q0. eapply Rle_trans; [exact R|]. unfold SpecIEEE.huge. apply Rle_pow; [lra | lia]. }
  rewrite V, <- nearest_0. apply nearest_le, Q0.
Qed.
Definition soft1 : fmom := (fone, fzero, fzero, fone).
Definition hard2 : fmom := (fzero, ftwo, fzero, ftwo).
Lemma pair_sizes : sizable soft1 /\ sizable hard2 /\ pt4 soft1 = 1 /\ pt4 hard2 = 2 /\ norm3 (mom4 soft1) = 1 /\ norm3 (mom4 hard2) = 2 /\ vcross (vec_of (mom4 soft1)) (vec_of (mom4 hard2)) = Vec 0 0 2.
Proof.
  destruct (lit_int 1 ltac:(lia)) as (V1 & F1). destruct (lit_int 2 ltac:(lia)) as (V2 & F2). fold fone in V1, F1. fold ftwo in V2, F2. assert (V0 : val fzero = 0) by reflexivity.
  assert (P500 : 2 <= 2 ^ 500) by (rewrite <- (pow_1 2) at 1; apply Rle_pow; [lra | lia]). assert (I500 : / 2 ^ 500 <= / 2) by (apply Rinv_le_contravar; lra).
  assert (M0 : modest fzero) by (split; [reflexivity | rewrite V0, Rabs_R0; lra]). assert (M1 : modest fone) by (split; [exact F1 | rewrite V1, Rabs_pos_eq; lra]). assert (M2 : modest ftwo) by (split; [exact F2 | rewrite V2, Rabs_pos_eq; lra]).
  assert (E1 : pt4 soft1 = 1). { unfold pt4, pt_sq, mom4, soft1. cbn [px py mx my mz me fst snd]. rewrite V0, V1. replace (1 * 1 + 0 * 0) with (1 * 1) by ring. apply sqrt_square. lra. }
  assert (E2 : pt4 hard2 = 2). { unfold pt4, pt_sq, mom4, hard2. cbn [px py mx my mz me fst snd]. rewrite V0, V2. replace (0 * 0 + 2 * 2) with (2 * 2) by ring. apply sqrt_square. lra. }
  split; [split; [exact M1 | split; [exact M0 | split; [exact M0 | rewrite E1; lra]]]|]. split; [split; [exact M0 | split; [exact M2 | split; [exact M0 | rewrite E2; lra]]]|]. split; [exact E1|]. split; [exact E2|].
  split; [|split].
  - unfold norm3, p_sq, pt_sq, mom4, soft1. cbn [px py pz mx my mz me fst snd]. rewrite V0, V1. replace (1 * 1 + 0 * 0 + 0 * 0) with (1 * 1) by ring. apply sqrt_square. lra.
  - unfold norm3, p_sq, pt_sq, mom4, hard2. cbn [px py pz mx my mz me fst snd]. rewrite V0, V2. replace (0 * 0 + 2 * 2 + 0 * 0) with (2 * 2) by ring. apply sqrt_square. lra.
  - unfold vcross, vec_of, mom4, soft1, hard2. cbn [px py pz mx my mz me fst snd vx vy vz]. rewrite V0, V1, V2. f_equal; ring.
Qed.
Example C240_case : good_hypot 1 ref_hypot /\ signed_atan2 1 ref_atan2 /\ never_negative ref_hypot /\ (forall p, In p [hard2; soft1] -> sizable p) /\
  100000 * (1 + 2) * 1 * u <= 1 /\ norm3 (mom4 soft1) * norm3 (mom4 hard2) <= 1 * sqrt (vnorm_sq (vcross (vec_of (mom4 soft1)) (vec_of (mom4 hard2)))) /\
  (forall s, soft_up_to (3 * 1 * u) [hard2; soft1] s -> s = soft1) /\ (forall h, hard_up_to (3 * 1 * u) [hard2; soft1] h -> h = hard2).
Proof.
  destruct pair_sizes as (S1 & S2 & E1 & E2 & N1 & N2 & X). pose proof u_b as [U0 U1].
  split; [apply ref_hypot_good|]. split; [apply ref_signed|]. split; [apply ref_nonneg|]. split; [intros p [<-|[<-|[]]]; assumption|]. split; [lra|]. split; [|split].
  - rewrite X, N1, N2. unfold vnorm_sq. cbn [vx vy vz]. replace (0 * 0 + 0 * 0 + 2 * 2) with (2 * 2) by ring. rewrite sqrt_square; lra.
  - intros s ([<-|[<-|[]]] & H); [|reflexivity]. specialize (H soft1 ltac:(right; left; reflexivity)). rewrite E1, E2 in H. lra.
  - intros h ([<-|[<-|[]]] & H); [reflexivity|]. specialize (H hard2 ltac:(left; reflexivity)). rewrite E1, E2 in H. lra.
Qed.
(** A third of the hardest of the two, turned by one radian about the axis that soft_hard_axis finds. *)
Example C241_case : 0 <= 2 <= 10 /\ (forall x, trig_ok 2 ref_sin sin x /\ trig_ok 2 ref_cos cos x) /\ good_hypot 2 ref_hypot /\ signed_atan2 2 ref_atan2 /\
  (forall p, In p [hard2; soft1] -> sizable p /\ fin (me p) /\ Rabs (val (me p)) <= 2 ^ 1000) /\ / 2 ^ 400 <= val (lit 1 (-2)) <= / 2 /\ fin (lit 1 (-2)) /\
  exists out, f_split_hardest ref_sin ref_cos ref_hypot ref_atan2 [hard2; soft1] (lit 1 (-2)) fone None out.
Proof.
  destruct pair_sizes as (S1 & S2 & _). pose proof u_b as [U0 U1].
  assert (MO : forall a b, P_Float9.close 1 a b -> P_Float9.close 2 a b). { intros a b H. unfold P_Float9.close in *. eapply Rle_trans; [exact H|]. pose proof mn_pos. pose proof (Rabs_pos b). apply Rmult_le_compat_r; lra. }
  split; [lra|]. split; [apply ref_trig|]. split; [intros a b A B C; destruct (ref_hypot_good a b A B C) as (F & H); split; [exact F | apply MO, H]|].
  split; [intros y x A B; destruct (ref_signed y x A B) as (F & t & T1 & T2 & T3 & T4); split; [exact F | exists t; auto]|].
  destruct (lit_int 1 ltac:(lia)) as (V1 & F1). destruct (lit_int 2 ltac:(lia)) as (V2 & F2). fold fone in V1, F1. fold ftwo in V2, F2. destruct (lit_ok 1 (-2) ltac:(lia) ltac:(lia)) as (V4 & F4). change (bpow radix2 (-2)) with (/ 4) in V4.
  assert (P1000 : 2 <= 2 ^ 1000) by (rewrite <- (pow_1 2) at 1; apply Rle_pow; [lra | lia]).
  split; [|split; [|split; [exact F4 | apply C241_outcome]]].
  - intros p [<-|[<-|[]]]; (split; [assumption|]); cbn [me hard2 soft1 snd]; unfold hard2, soft1, me; cbn [snd]; rewrite ?V1, ?V2, Rabs_pos_eq by lra; (split; [assumption | lra]).
  - rewrite V4. split; [|lra]. rewrite Rmult_1_l. apply Rinv_le_contravar; [lra|]. replace 4 with (2 ^ 2) by (simpl; ring). apply Rle_pow; [lra | lia].
Qed.
