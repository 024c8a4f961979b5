(** Real functions of the Python math library used by the code: copysign, sqrt, atan2,
    arctanh.  Floating point rounding and the sign of zero are not modelled. *)
From Verif Require Import Prelude SpecReal.
Open Scope R_scope.

(** [math.copysign(v, s)], with copysign(v, 0.0) = |v|. *)
Definition copysign (v s : R) : R := if Rlt_dec s 0 then - Rabs v else Rabs v.

(** [math.atan2(y, x)], [np.angle(x + iy)]. *)
Definition atan2 (y x : R) : R :=
  if Rlt_dec 0 x then atan (y / x)
  else if Rlt_dec x 0 then (if Rle_dec 0 y then atan (y / x) + PI else atan (y / x) - PI)
  else if Rlt_dec 0 y then PI / 2
  else if Rlt_dec y 0 then - (PI / 2) else 0.

Definition arctanh (x : R) : R := / 2 * ln ((1 + x) / (1 - x)).

(** ** Lemmas *)
Lemma sqr_sqrt x : 0 <= x -> sqrt x * sqrt x = x.
Proof. apply sqrt_sqrt. Qed.

Lemma sumsq_pos x y : 0 <= x * x + y * y.
Proof. nra. Qed.
Lemma sumsq_zero x y : x * x + y * y = 0 -> x = 0 /\ y = 0.
Proof. intros H. split; nra. Qed.

Lemma cos_atan' x : cos (atan x) = / sqrt (1 + x * x).
Proof. rewrite cos_atan. unfold Rsqr. field. apply Rgt_not_eq. apply sqrt_lt_R0. nra. Qed.
Lemma sin_atan' x : sin (atan x) = x / sqrt (1 + x * x).
Proof. rewrite sin_atan. unfold Rsqr. reflexivity. Qed.

Lemma sqrt_scale x y : x <> 0 -> sqrt (x * x + y * y) = Rabs x * sqrt (1 + (y / x) * (y / x)).
Proof.
  intros H. replace (x * x + y * y) with ((x * x) * (1 + (y / x) * (y / x))) by (field; exact H).
  rewrite sqrt_mult by nra. f_equal. rewrite <- (sqrt_Rsqr_abs x). reflexivity.
Qed.

Lemma atan2_spec y x : azimuth_of x y (atan2 y x).
Proof.
  unfold azimuth_of, atan2. pose proof PI_RGT_0 as HPI.
  destruct (Rlt_dec 0 x) as [Hx|Hx].
  - pose proof (atan_bound (y / x)) as B. split; [lra|].
    rewrite cos_atan', sin_atan', sqrt_scale by lra. rewrite Rabs_pos_eq by lra.
    assert (0 < sqrt (1 + y / x * (y / x))) by (apply sqrt_lt_R0; nra). split; field; lra.
  - destruct (Rlt_dec x 0) as [Hx'|Hx'].
    + pose proof (atan_bound (y / x)) as B.
      assert (HS : 0 < sqrt (1 + y / x * (y / x))) by (apply sqrt_lt_R0; nra).
      destruct (Rle_dec 0 y) as [Hy|Hy].
      * assert (atan (y / x) <= 0). { rewrite <- atan_0. destruct (Req_dec y 0) as [->|Hn]; [unfold Rdiv; rewrite Rmult_0_l; lra|]. left. apply atan_increasing. assert (0 < y) by lra. apply Ropp_lt_cancel. rewrite Ropp_0. replace (- (y / x)) with (y / (- x)) by (field; lra). apply Rdiv_lt_0_compat; lra. }
        split; [lra|]. rewrite neg_cos, neg_sin, cos_atan', sin_atan', sqrt_scale by lra. rewrite Rabs_left by lra. split; field; lra.
      * assert (0 < atan (y / x)). { rewrite <- atan_0. apply atan_increasing. replace (y / x) with ((- y) / (- x)) by (field; lra). apply Rdiv_lt_0_compat; lra. }
        split; [lra|]. replace (atan (y / x) - PI) with (- (PI - atan (y / x))) by ring. rewrite cos_neg, sin_neg, cos_minus, sin_minus, cos_PI, sin_PI.
        rewrite cos_atan', sin_atan', sqrt_scale by lra. rewrite Rabs_left by lra. split; field; lra.
    + assert (x = 0) by lra. subst x.
      destruct (Rlt_dec 0 y) as [Hy|Hy]; [|destruct (Rlt_dec y 0) as [Hy'|Hy']].
      * split; [lra|]. rewrite cos_PI2, sin_PI2. rewrite Rmult_0_l, Rplus_0_l. change (y * y) with (Rsqr y). rewrite sqrt_Rsqr by lra. lra.
      * split; [lra|]. rewrite cos_neg, sin_neg, cos_PI2, sin_PI2. rewrite Rmult_0_l, Rplus_0_l. replace (y * y) with (Rsqr (- y)) by (unfold Rsqr; ring). rewrite sqrt_Rsqr by lra. lra.
      * assert (y = 0) by lra. subst y. split; [lra|]. rewrite Rmult_0_l, Rplus_0_l, sqrt_0. lra.
Qed.

Lemma atan2_bound y x : -PI < atan2 y x <= PI.
Proof. apply atan2_spec. Qed.

Lemma angle_unique a b : -PI < a <= PI -> -PI < b <= PI -> cos a = cos b -> sin a = sin b -> a = b.
Proof.
  intros Ha Hb Hc Hs. pose proof PI_RGT_0.
  assert (E : cos (a - b) = 1). { rewrite cos_minus, Hc, Hs. pose proof (sin2_cos2 b). unfold Rsqr in *. lra. }
  assert (S : sin (a - b) = 0). { rewrite sin_minus, Hc, Hs. ring. }
  assert (HB : -2 * PI < a - b < 2 * PI) by lra.
  set (d := a - b) in *. assert (d = 0 -> a = b) by (unfold d; lra). apply H0. clearbody d. clear Ha Hb Hc Hs H0.
  destruct (Rtotal_order d 0) as [L|[L|L]]; [|exact L|].
  - exfalso. destruct (Rtotal_order d (- PI)) as [M|[M|M]].
    + assert (0 < sin (d + 2 * PI)) by (apply sin_gt_0; lra). rewrite sin_plus, sin_2PI, cos_2PI in H0. lra.
    + subst d. rewrite cos_neg, cos_PI in E. lra.
    + assert (0 < sin (- d)) by (apply sin_gt_0; lra). rewrite sin_neg in H0. lra.
  - exfalso. destruct (Rtotal_order d PI) as [M|[M|M]].
    + assert (0 < sin d) by (apply sin_gt_0; lra). lra.
    + subst d. rewrite cos_PI in E. lra.
    + assert (0 < sin (2 * PI - d)) by (apply sin_gt_0; lra). rewrite sin_minus, sin_2PI, cos_2PI in H0. lra.
Qed.

Lemma atan2_unique x y a : 0 < x * x + y * y -> azimuth_of x y a -> atan2 y x = a.
Proof.
  intros Hp (B & C & S). destruct (atan2_spec y x) as (B' & C' & S').
  assert (0 < sqrt (x * x + y * y)) by (apply sqrt_lt_R0; exact Hp).
  apply angle_unique; auto; apply (Rmult_eq_reg_l (sqrt (x * x + y * y))); lra.
Qed.

(** Angles with equal cosine and sine differ by full turns. *)
Lemma same_angle_trig a b : cos a = cos b -> sin a = sin b -> same_angle a b.
Proof.
  intros Hc Hs. assert (S : sin (a - b) = 0). { rewrite sin_minus, Hc, Hs. ring. }
  assert (E : cos (a - b) = 1). { rewrite cos_minus, Hc, Hs. pose proof (sin2_cos2 b). unfold Rsqr in *. lra. }
  apply sin_eq_0_0 in S as (k & Hk).
  assert (HE : exists j, (k = 2 * j)%Z).
  { destruct (Z.Even_or_Odd k) as [(j & Hj)|(j & Hj)]; [exists j; lia|]. exfalso. subst k. rewrite Hk in E. rewrite plus_IZR, mult_IZR in E.
    replace ((2 * IZR j + 1) * PI) with (PI + 2 * IZR j * PI) in E by ring.
    assert (G : forall z : Z, cos (PI + 2 * IZR z * PI) = -1).
    { intros z. destruct (Z_le_gt_dec 0 z) as [Hz|Hz].
      - rewrite <- (Z2Nat.id z) by lia. rewrite <- INR_IZR_INZ. rewrite cos_period. apply cos_PI.
      - rewrite <- (cos_period _ (Z.to_nat (- z))). rewrite INR_IZR_INZ, Z2Nat.id by lia. rewrite opp_IZR.
        replace (PI + 2 * IZR z * PI + 2 * - IZR z * PI) with PI by ring. apply cos_PI. }
    rewrite G in E. lra. }
  destruct HE as (j & ->). exists j. rewrite mult_IZR in Hk. lra.
Qed.

Lemma trig_period a k : cos (a + 2 * PI * IZR k) = cos a /\ sin (a + 2 * PI * IZR k) = sin a.
Proof.
  destruct (Z_le_gt_dec 0 k) as [Hz|Hz].
  - rewrite <- (Z2Nat.id k) by lia. rewrite <- INR_IZR_INZ. replace (2 * PI * INR (Z.to_nat k)) with (2 * INR (Z.to_nat k) * PI) by ring. split; [apply cos_period | apply sin_period].
  - rewrite <- (cos_period _ (Z.to_nat (- k))), <- (sin_period _ (Z.to_nat (- k))). rewrite INR_IZR_INZ, Z2Nat.id by lia. rewrite opp_IZR.
    replace (a + 2 * PI * IZR k + 2 * - IZR k * PI) with a by ring. auto.
Qed.

Lemma signed_root_unique x s t : signed_root x s -> signed_root x t -> s = t.
Proof.
  unfold signed_root. intros (A & B) (C & D).
  assert (E : (s - t) * (s + t) = 0) by nra. apply Rmult_integral in E as [E|E]; [lra|].
  destruct (Req_dec x 0) as [->|Hx]; [rewrite Rabs_R0 in *; nra|].
  assert (0 < Rabs x) by (apply Rabs_pos_lt; exact Hx). assert (t = - s) by lra. subst t.
  assert (s * x = 0) by lra. apply Rmult_integral in H0 as [->|]; [lra|contradiction].
Qed.

Lemma arctanh_odd x : -1 < x < 1 -> arctanh (- x) = - arctanh x.
Proof.
  intros H. unfold arctanh. replace ((1 + - x) / (1 - - x)) with (/ ((1 + x) / (1 - x))) by (field; lra).
  rewrite ln_Rinv; [ring|]. apply Rdiv_lt_0_compat; lra.
Qed.
Lemma arctanh_incr x y : -1 < x -> x < y -> y < 1 -> arctanh x < arctanh y.
Proof.
  intros. unfold arctanh. apply Rmult_lt_compat_l; [lra|]. apply ln_increasing; [apply Rdiv_lt_0_compat; lra|].
  apply Rmult_lt_reg_r with ((1 - x) * (1 - y)); [nra|]. field_simplify; nra.
Qed.

Lemma rsum_app a b : rsum (a ++ b) = rsum a + rsum b.
Proof. induction a as [|x a IH]; cbn; [lra | rewrite IH; lra]. Qed.
Lemma rsum_perm a b : Permutation a b -> rsum a = rsum b.
Proof. induction 1; cbn; lra. Qed.
Lemma rsum_map_ext {A} (f g : A -> R) l : (forall x, In x l -> f x = g x) -> rsum (map f l) = rsum (map g l).
Proof. intros H. f_equal. apply map_ext_in. exact H. Qed.
Lemma rsum_map_plus {A} (f g : A -> R) l : rsum (map (fun x => f x + g x) l) = rsum (map f l) + rsum (map g l).
Proof. induction l as [|x r IH]; cbn; lra. Qed.
Lemma rsum_map_scal {A} c (f : A -> R) l : rsum (map (fun x => c * f x) l) = c * rsum (map f l).
Proof. induction l as [|x r IH]; cbn; [lra|]. rewrite IH. ring. Qed.
Lemma rsum_map_le {A} (f g : A -> R) l : (forall x, In x l -> f x <= g x) -> rsum (map f l) <= rsum (map g l).
Proof. induction l as [|x r IH]; cbn; intros H; [lra|]. assert (f x <= g x) by (apply H; auto). assert (rsum (map f r) <= rsum (map g r)) by (apply IH; intros; apply H; auto). lra. Qed.
Lemma rsum_map_nonneg {A} (f : A -> R) l : (forall x, In x l -> 0 <= f x) -> 0 <= rsum (map f l).
Proof. induction l as [|x r IH]; cbn; intros H; [lra|]. assert (0 <= f x) by (apply H; auto). assert (0 <= rsum (map f r)) by (apply IH; intros; apply H; auto). lra. Qed.
Lemma rsum_map_pos {A} (f : A -> R) l : l <> [] -> (forall x, In x l -> 0 < f x) -> 0 < rsum (map f l).
Proof.
  destruct l as [|x r]; [contradiction|]. intros _ H. cbn. assert (0 < f x) by (apply H; left; reflexivity).
  assert (0 <= rsum (map f r)) by (apply rsum_map_nonneg; intros y Hy; left; apply H; right; exact Hy). lra.
Qed.
Lemma msum_components l : msum l = Mom (rsum (map px l)) (rsum (map py l)) (rsum (map pz l)) (rsum (map en l)).
Proof. induction l as [|p r IH]; cbn; [reflexivity|]. rewrite IH. reflexivity. Qed.
Lemma msum_app a b : msum (a ++ b) = madd (msum a) (msum b).
Proof. rewrite !msum_components, !map_app, !rsum_app. reflexivity. Qed.
Lemma msum_perm a b : Permutation a b -> msum a = msum b.
Proof. intros H. rewrite !msum_components. f_equal; apply rsum_perm, Permutation_map, H. Qed.
